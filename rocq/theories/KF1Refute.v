(** KalmanFilter1: witnesses against C12, C13, C14. *)
From Coq Require Import Reals List Arith ZArith Lra Lia Bool Permutation.
From Verif Require Import Arith Res ListLemmas KFModel KF1Proof Spec Gauss Emb KF1R History KF1X InitProof OUpd SimProof KF1Main KF1More.
Import ListNotations.
Local Open Scope R_scope.

(** A KalmanFilter1 with sigsqr = 2, omega = 1 and two measurements. *)
Definition rawW : kf1 AX := mkKF AX [] [] [] [] [] [] (Fin 2) 0 (Fin 0) (Fin 0) (Fin 1).
Definition objW (y e : list R) : kf1 AX := built _ rawW [0; 1] y e.

Lemma inc01 : strictly_increasing [0; 1].
Proof. intros i j Hij Hj. simpl in Hj. destruct j as [|[|j]]; [lia| |lia]. destruct i; [|lia]. simpl. lra. Qed.

Lemma objW_new si y e : valid_sort_index si -> length y = 2%nat -> length e = 2%nat ->
  kf_new (A:=AX) si rawW (map Fin [0; 1]) (map Fin y) (map Fin e) = Ok (objW y e).
Proof.
  intros Hsi Hy He. destruct (init_ok _ si Hsi rawW [0; 1] y e) as (idx & E & _ & _ & _ & _ & I5 & _).
  - simpl; lia.
  - exact Hy.
  - exact He.
  - exists 0, 1. simpl. split; [auto|]. split; [auto|lra].
  - rewrite (I5 inc01) in E. rewrite E. unfold objW. f_equal.
    assert (forall l, length l = 2%nat -> pick (seq 0 (length [0; 1])) l = l) as Hp.
    { intros l Hl. unfold pick. change (length [0; 1]) with 2%nat. rewrite <- Hl. symmetry. apply list_as_map_seq. }
    rewrite !Hp by (assumption || reflexivity). reflexivity.
Qed.

Lemma objW_holds y e : length y = 2%nat -> length e = 2%nat -> holds1 (objW y e) [0; 1] y e 2 1.
Proof.
  intros Hy He. split; [apply built_usable; simpl; lia|]. repeat split; reflexivity.
Qed.

(** ** C12 *)
Lemma cond_w tp : 1 < tp -> cond_dist (ou_cov 2 1) [0; 1] [0; 1] [0; 0] tp (exp (- (tp - 1))) (1 - exp (- (tp - 1)) * exp (- (tp - 1))).
Proof.
  intros H. exists (fun k => match k with 1%nat => exp (- (tp - 1)) | _ => 0 end).
  assert (forall a b, a <= b -> ou_cov 2 1 b a = exp (- (b - a))) as Hou.
  { intros a b Hab. unfold ou_cov. rewrite Rabs_right by lra. replace (2 / (2 * 1)) with 1 by field.
    rewrite Rmult_1_l. f_equal. ring. }
  assert (forall a, ou_cov 2 1 a a = 1) as Hd.
  { intros a. rewrite Hou by lra. replace (- (a - a)) with 0 by ring. apply exp_0. }
  split; [|split].
  - intros j Hj. change (length [0; 1]) with 2%nat in *. cbn [Rsum].
    destruct j as [|[|j]]; [| |lia]; unfold obs_cov; cbn [nth Nat.eqb].
    + rewrite (Hou 0 tp), (Hou 0 1) by lra. replace (exp (- (tp - 0))) with (exp (- (tp - 1)) * exp (- (1 - 0))) by (rewrite <- exp_plus; f_equal; ring). ring.
    + rewrite (Hou 1 tp), Hd by lra. ring.
  - cbn. ring.
  - change (length [0; 1]) with 2%nat. cbn [Rsum nth]. rewrite Hd, (Hou 1 tp) by lra. ring.
Qed.

Lemma perm_pair (l : list R) a b : Permutation [a; b] l -> strictly_increasing l -> b < a -> l = [b; a].
Proof.
  intros Hp Hs Hab. apply Permutation_length_2_inv in Hp. destruct Hp as [->| ->]; [|reflexivity].
  specialize (Hs 0%nat 1%nat ltac:(lia) ltac:(simpl; lia)). simpl in Hs. lra.
Qed.

Lemma order_refuted : forall si vsort, valid_sort_index si -> valid_vsort vsort ->
  exists s ts (draw : unit -> F AX * unit) o0 o1 s' m0 v0 s'',
    (forall g, draw g = (Fin 0, tt)) /\
    kf_new (A:=AX) si rawW (map Fin [0; 1]) (map Fin [0; 1]) (map Fin [0; 0]) = Ok s /\
    Simulate (methods1 AX) draw vsort s ts tt = Ok ([Fin o0; Fin o1], s', tt) /\
    Predict1 s (nth 0 ts (Fin 0)) = Ok ((Fin m0, v0), s'') /\ o0 <> m0.
Proof.
  intros si vsort Hsi Hvs.
  exists (objW [0; 1] [0; 0]), (map Fin [3; 2]), (fun _ => (Fin 0, tt)).
  pose proof (objW_holds [0; 1] [0; 0] eq_refl eq_refl) as Hh.
  destruct (simulate_main unit (fun _ => (Fin 0, tt)) vsort _ _ _ _ _ _ [3; 2] tt Hh inc01 ltac:(lra) ltac:(lra))
    as (sorted & out & s' & Es & Hp & Hinc & HL & Hspec).
  - intros g. exists 0. reflexivity.
  - exact Hvs.
  - constructor; [simpl; intros [H|[]]; lra|]. constructor; [simpl; tauto|constructor].
  - intros i Hi Hin. exfalso. simpl in Hi. destruct i as [|[|i]]; [| |lia]; simpl in Hin; lra.
  - apply perm_pair in Hp; [|exact Hinc|lra]. subst sorted. simpl in HL.
    destruct out as [|o0 [|o1 [|]]]; try discriminate HL.
    destruct (predict_main _ _ _ _ _ _ Hh (strict_times_ok _ _ inc01) ltac:(lra) ltac:(lra) 3) as (m & v & s'' & Ep & Hb & _).
    { intros i Hi Hin. exfalso. simpl in Hi. destruct i as [|[|i]]; [| |lia]; simpl in Hin; lra. }
    exists o0, o1, s', m, (Fin v), s''. split; [reflexivity|]. split; [apply objW_new; auto|].
    split; [exact Es|]. split; [exact Ep|].
    destruct (Hspec 0%nat ltac:(simpl; lia)) as (m2 & v2 & z & Hz & Hv2 & Hc & Ho).
    cbn [nth firstn repeat] in Hc, Ho. rewrite !app_nil_r in Hc.
    assert (z = 0) as -> by (symmetry; exact (Fin_inj _ _ Hz)).
    assert (m2 = exp (- (2 - 1))) as Hm2.
    { destruct (spec_determined 2 1 [0;1] [0;0] _ _ _ _ _ _ inc01 ltac:(lra) ltac:(lra) (Nat.le_refl _) (cond_w 2 ltac:(lra))) as [Hu _].
      apply (Hu m2 v2 Hc). }
    assert (m = exp (- (3 - 1))) as Hm3.
    { destruct (spec_determined 2 1 [0;1] [0;0] _ _ _ _ _ _ inc01 ltac:(lra) ltac:(lra) (Nat.le_refl _) (cond_w 3 ltac:(lra))) as [Hu _].
      apply (Hu m v Hb). }
    rewrite Ho, Hm2, Hm3. rewrite Rmult_0_r, Rplus_0_r. apply Rgt_not_eq. apply exp_increasing. lra.
Qed.

(** ** C13 *)
Lemma Predict1_val (s : kf1 AX) t : usable s -> exists s', Predict1 s t =
  Ok (predpure AX (k_time s) (k_dt s) (k_y s) (k_yerr s) (k_sig s) (k_ext s) t, s').
Proof. intros Hu. destruct (Predict1_ok (usable_wf AX s Hu) t) as (s' & E & _). exists s'. exact E. Qed.

Lemma exp_zero_arg x : x = 0 -> exp x = 1.
Proof. intros ->. apply exp_0. Qed.

Lemma xdiv_pos0 a b : b = 0 -> 0 < a -> xdiv (Fin a) (Fin b) = PInf.
Proof.
  intros -> H. simpl. destruct (Req_EM_T 0 0); [|lra]. unfold rsgn.
  destruct (Rlt_dec a 0); [lra|]. destruct (Rlt_dec 0 a); [reflexivity|lra].
Qed.
Lemma xdiv_00 a b : b = 0 -> a = 0 -> xdiv (Fin a) (Fin b) = NaN.
Proof.
  intros -> ->. simpl. destruct (Req_EM_T 0 0); [|lra]. unfold rsgn.
  destruct (Rlt_dec 0 0); [lra|]. reflexivity.
Qed.

Lemma cpure_S_eq A time dt y yerr sig w t ip k :
  cpure A time dt y yerr sig w t ip (S k) =
  (let '(co, sl, vb) := cpure A time dt y yerr sig w t ip k in
   let b := (ip + k)%nat in
   let rho := fexp A (fmul A (fmul A (fneg A (fofZ A 1)) (nth b dt (fofZ A 0))) w) in
   let pv := fsub A vb (fmul A (nth b yerr (fofZ A 0)) (nth b yerr (fofZ A 0))) in
   let ratio := fdiv A pv vb in
   (fadd A (fmul A (fmul A co rho) (fsub A (fofZ A 1) ratio)) (fmul A (fmul A rho ratio) (nth b y (fofZ A 0))),
    fmul A sl (fmul A rho (fsub A (fofZ A 1) ratio)),
    fadd A (nextv A sig w rho vb (nth b yerr (fofZ A 0)))
           (fmul A (nth (S b) yerr (fofZ A 0)) (nth (S b) yerr (fofZ A 0))))).
Proof. reflexivity. Qed.

Lemma nan_pred : predpure AX (map Fin [0; 1]) (diffs AX (map Fin [0; 1])) (map Fin [1; 1]) (map Fin [0; 0]) (Fin 2) (Fin 1) (Fin 0)
  = (NaN, NaN).
Proof.
  unfold predpure. cbn [map lt_prefix flt AX xlt].
  destruct (Rlt_dec 0 0) as [H|_]; [lra|]. cbn [Nat.eqb length forecast].
  change (2 - 0)%nat with 2%nat. cbn [apure].
  set (c0 := cpure AX [Fin 0; Fin 1] (diffs AX [Fin 0; Fin 1]) [Fin 1; Fin 1] [Fin 0; Fin 0] (Fin 2) (Fin 1) (Fin 0) 0 0).
  assert (c0 = (Fin 0, Fin 1, Fin 0)) as Ec0.
  { unfold c0. cbn [cpure nth fabs fsub fneg fmul fexp fadd fdiv fofZ AX xabs xneg xmul xexp xsub xadd].
    rewrite fin_div by lra. cbn [xmul xadd].
    assert (exp (- Rabs (0 - 0) * 1) = 1) as ->.
    { apply exp_zero_arg. replace (0 - 0) with 0 by ring. rewrite Rabs_R0. ring. }
    repeat f_equal; field. }
  set (c1 := cpure AX [Fin 0; Fin 1] (diffs AX [Fin 0; Fin 1]) [Fin 1; Fin 1] [Fin 0; Fin 0] (Fin 2) (Fin 1) (Fin 0) 0 1).
  assert (c1 = (NaN, NaN, NaN)) as Ec1.
  { unfold c1. rewrite cpure_S_eq. fold c0.
    rewrite Ec0. unfold nextv.
    cbn [nth Nat.add fabs fsub fneg fmul fexp fadd fdiv fofZ AX xabs xneg xmul xexp xsub xadd diffs].
    rewrite (xdiv_00 (0 - 0 * 0) 0) by ring. cbn [xmul xsub xadd xneg]. rewrite fin_div by lra. reflexivity. }
  match goal with |- context [apure1 ?A ?t ?d ?y ?e ?sg ?w ?tt ?ip 1 ?x] => generalize x; intros [mm pp] end.
  unfold apure1, cconst, cslope, cvar. fold c1. rewrite Ec1. cbn [fst snd]. clear c0 c1 Ec0 Ec1.
  assert (forall x, fdiv AX x NaN = NaN) as Hd by (intros []; reflexivity).
  assert (forall x, fadd AX x NaN = NaN) as Ha by (intros []; reflexivity).
  assert (forall x, fmul AX x NaN = NaN) as Hm by (intros []; reflexivity).
  rewrite !Hd, !Ha, !Hd, !Hm. reflexivity.
Qed.

Lemma finite_refuted : forall si, valid_sort_index si ->
  exists s, kf_new (A:=AX) si rawW (map Fin [0; 1]) (map Fin [1; 1]) (map Fin [0; 0]) = Ok s /\
    (exists s', Predict1 s (Fin 0) = Ok ((NaN, NaN), s')) /\
    (exists s', Filter (methods1 AX) s = Ok s' /\ forall x, In x (k_mean s' ++ k_var s') -> xfin x = true) /\
    (forall vsort G (draw : G -> F AX * G) g, valid_vsort vsort ->
       exists s' g', Simulate (methods1 AX) draw vsort s [Fin 0] g = Ok ([NaN], s', g')).
Proof.
  intros si Hsi. exists (objW [1; 1] [0; 0]).
  pose proof (objW_holds [1; 1] [0; 0] eq_refl eq_refl) as Hh.
  split; [apply objW_new; auto|]. split; [|split].
  - destruct (Predict1_val (objW [1; 1] [0; 0]) (Fin 0) (proj1 Hh)) as [s' E]. exists s'. rewrite E.
    rewrite <- nan_pred. reflexivity.
  - destruct (filter_main _ _ _ _ _ _ Hh (strict_times_ok _ _ inc01) ltac:(lra) ltac:(lra)) as (s' & E & L1 & L2 & H).
    exists s'. split; [exact E|]. intros x Hx. apply in_app_or in Hx.
    destruct Hx as [Hx|Hx]; apply In_nth_error in Hx; destruct Hx as [i Hi].
    + assert (i < length (k_mean s'))%nat as Hlt by (apply nth_error_Some; congruence). rewrite L1 in Hlt.
      destruct (H i Hlt) as (m & v & Em & Ev & _). rewrite Em in Hi. injection Hi as <-. reflexivity.
    + assert (i < length (k_var s'))%nat as Hlt by (apply nth_error_Some; congruence). rewrite L2 in Hlt.
      destruct (H i Hlt) as (m & v & Em & Ev & _). rewrite Ev in Hi. injection Hi as <-. reflexivity.
  - intros vsort G draw g Hvs. destruct (Hvs [0]) as (l' & El & Hp & _).
    apply Permutation_length_1_inv in Hp. subst l'.
    destruct (Simulate_pure draw vsort (pureP1 AX) (good_data1 AX) [Fin 0] g (proj1 Hh) I) as [Hobs _].
    unfold psim in Hobs. change [Fin 0] with (map Fin [0]) in Hobs at 2. rewrite El in Hobs.
    cbn [map psim_loop psim_step] in Hobs. unfold pp1 in Hobs.
    replace (predpure AX (s_time (setup_of (fun x => x) (objW [1; 1] [0; 0]))) (s_dt (setup_of (fun x => x) (objW [1; 1] [0; 0])))
       (s_y (setup_of (fun x => x) (objW [1; 1] [0; 0]))) (s_yerr (setup_of (fun x => x) (objW [1; 1] [0; 0])))
       (s_sig (setup_of (fun x => x) (objW [1; 1] [0; 0]))) (s_par (setup_of (fun x => x) (objW [1; 1] [0; 0]))) (Fin 0))
      with ((NaN, NaN) : F AX * F AX) in Hobs by (rewrite <- nan_pred; reflexivity).
    cbn [bind] in Hobs. unfold rnormal in Hobs. destruct (draw g) as [z g'].
    assert (fadd AX (fmul AX z (fsqrt AX NaN)) NaN = NaN) as En by (destruct z; reflexivity).
    rewrite En in Hobs. cbn [bind app] in Hobs.
    destruct (Simulate (methods1 AX) draw vsort (objW [1; 1] [0; 0]) [Fin 0] g) as [[[o s'] g2]|ex| |]; try discriminate Hobs.
    cbn [obs_sim] in Hobs. injection Hobs as -> ->. exists s', g'. reflexivity.
Qed.

(** ** C14 *)
Lemma getvar_refuted : forall si, valid_sort_index si ->
  exists s s1 r s2, kf_new (A:=AX) si rawW (map Fin [0; 1]) (map Fin [0; 1]) (map Fin [1; 1]) = Ok s /\
    Filter (methods1 AX) s = Ok s1 /\ Predict1 s1 (Fin (-1)) = Ok (r, s2) /\ k_var s2 <> k_var s1.
Proof.
  intros si Hsi. pose proof (objW_holds [0; 1] [1; 1] eq_refl eq_refl) as Hh.
  destruct (pureF1 AX (objW [0; 1] [1; 1]) (proj1 Hh) I) as [Ho Hs'].
  destruct (filter_main _ _ _ _ _ _ Hh (strict_times_ok _ _ inc01) ltac:(lra) ltac:(lra)) as (s1 & E & L1 & L2 & H).
  destruct (Hs' s1 E) as (Hset & Hu1 & _).
  destruct (Predict1_ok (usable_wf AX s1 Hu1) (Fin (-1))) as (s2 & Ep & _ & _ & Hv).
  exists (objW [0; 1] [1; 1]), s1. eexists. exists s2. split; [apply objW_new; auto|]. split; [exact E|]. split; [exact Ep|].
  injection Hset as S1 S2 S3 S4 S5 S6.
  assert (k_time s1 = k_time (objW [0; 1] [1; 1])) as T1 by exact S1.
  assert (k_dt s1 = k_dt (objW [0; 1] [1; 1])) as T2 by exact S2.
  assert (k_y s1 = k_y (objW [0; 1] [1; 1])) as T3 by exact S3.
  assert (k_yerr s1 = k_yerr (objW [0; 1] [1; 1])) as T4 by exact S4.
  assert (k_sig s1 = k_sig (objW [0; 1] [1; 1])) as T5 by exact S5.
  assert (k_ext s1 = k_ext (objW [0; 1] [1; 1])) as T6 by exact S6.
  rewrite T1, T2, T3, T4, T5, T6 in Hv.
  assert (lt_prefix AX (k_time (objW [0; 1] [1; 1])) (Fin (-1)) = 0%nat) as El.
  { cbn. destruct (Rlt_dec 0 (-1)); [lra|reflexivity]. }
  rewrite El in Hv. specialize (Hv ltac:(cbn; lia)).
  destruct (H 0%nat ltac:(simpl; lia)) as (m & v & _ & Ev & Hb & _).
  intros Heq. rewrite Heq in Hv. apply (nth_error_nth _ _ (fofZ AX 0)) in Ev. rewrite Ev in Hv.
  unfold cvar in Hv. cbn [cpure snd nth k_time objW built k_sig k_ext rawW k_yerr map fabs fsub fneg fmul fexp fadd fdiv fofZ AX xabs xneg xmul xexp xsub xadd] in Hv.
  rewrite fin_div in Hv by lra. cbn [xmul xadd] in Hv. apply Fin_inj in Hv.
  destruct Hb as (wt & _ & _ & E3). cbn [Rsum nth] in E3.
  assert (ou_cov 2 1 0 0 = 1) as Hd.
  { unfold ou_cov. replace (0 - 0) with 0 by ring. rewrite Rabs_R0, Rmult_0_r, Ropp_0, exp_0. field. }
  unfold obs_cov in E3. cbn [nth Nat.eqb] in E3. rewrite Hd in E3.
  assert (0 < exp (- Rabs (0 - -1) * 1)) as Hpos by apply exp_pos.
  set (q := exp (- Rabs (0 - -1) * 1)) in *. nra.
Qed.

(** ** C61: SetTime leaves dt_ alone *)
Lemma Update1_SetTime (A : Arith) t (s : kf1 A) :
  Update1 (SetTime s t) = (s' <- Update1 s ;; Ok (SetTime s' t)).
Proof.
  unfold Update1. change (stat1 (SetTime s t)) with (stat1 s). cbn [SetTime k_time k_dt k_y k_yerr k_mean k_var k_sig k_cur k_yconst k_yslope k_ext].
  destruct (idxm1 (k_cur s)) as [b|?| |]; try reflexivity; cbn [bind].
  repeat (match goal with |- bind ?e _ = _ => destruct e; cbn [bind]; cbv zeta; try reflexivity end).
Qed.

Lemma for_SetTime (A : Arith) t k : forall i (s : kf1 A),
  for_ i k (fun _ s => Update1 s) (SetTime s t) = (s' <- for_ i k (fun _ s => Update1 s) s ;; Ok (SetTime s' t)).
Proof.
  induction k as [|k IH]; intros i s; [reflexivity|]. cbn [for_]. rewrite Update1_SetTime.
  destruct (Update1 s); try reflexivity. cbn [bind]. apply IH.
Qed.

Lemma filter_SetTime (A : Arith) (s : kf1 A) t : length t = length (k_time s) ->
  obs_filter (Filter (methods1 A) (SetTime s t)) = obs_filter (Filter (methods1 A) s).
Proof.
  intros Ht. unfold Filter. cbn [methods1 m_Reset m_Update].
  assert (Reset1 (SetTime s t) = (s' <- Reset1 s ;; Ok (SetTime s' t))) as ->.
  { unfold Reset1. change (stat1 (SetTime s t)) with (stat1 s). cbn [SetTime k_time k_dt k_y k_yerr k_mean k_var k_sig k_cur k_yconst k_yslope k_ext].
    repeat (match goal with |- bind ?e _ = _ => destruct e; cbn [bind]; cbv zeta; try reflexivity end). }
  destruct (Reset1 s) as [s1|?| |] eqn:E; try reflexivity. cbn [bind].
  assert (k_time s1 = k_time s) as E1.
  { unfold Reset1 in E. apply bind_Ok in E. destruct E as [? [_ E]]. apply bind_Ok in E. destruct E as [? [_ E]].
    apply bind_Ok in E. destruct E as [? [_ E]]. injection E as <-. reflexivity. }
  cbn [k_time SetTime]. rewrite Ht, E1.
  pose proof (for_SetTime A t (length (k_time s) - 1) 1 s1) as Hf.
  match goal with |- obs_filter ?a = obs_filter ?b => replace a with (s' <- b ;; Ok (SetTime s' t)) by (symmetry; exact Hf); destruct b; reflexivity end.
Qed.

Lemma first_mean s t1 y0 y1 : 0 < t1 -> holds1 s [0; t1] [y0; y1] [0; 0] 2 1 ->
  exists s', Filter (methods1 AX) s = Ok s' /\ nth_error (k_mean s') 1 = Some (Fin (exp (- t1) * y0) : F AX).
Proof.
  intros Ht Hh. assert (strictly_increasing [0; t1]) as Hinc.
  { intros i j Hij Hj. simpl in Hj. destruct j as [|[|j]]; [lia| |lia]. destruct i; [|lia]. simpl. lra. }
  destruct (filter_c05 _ _ _ _ _ _ Hh Hinc ltac:(lra) ltac:(lra)) as (s' & E & _ & _ & H).
  exists s'. split; [exact E|]. destruct (H 1%nat ltac:(simpl; lia)) as (m & v & Em & _ & (a & A1 & A2 & _) & _).
  assert (m = exp (- t1) * y0) as Hm; [|rewrite <- Hm; exact Em]. cbn [length firstn Rsum nth] in *. specialize (A1 0%nat ltac:(lia)).
  unfold obs_cov, ou_cov in A1. cbn [Nat.eqb] in A1.
  replace (Rabs (t1 - 0)) with t1 in A1 by (rewrite Rabs_right; lra).
  replace (0 - 0) with 0 in A1 by ring. rewrite Rabs_R0, Rmult_0_r, Ropp_0, exp_0 in A1.
  rewrite Rmult_1_l in A1. cbn [nth] in A1. rewrite A2. cbn [nth].
  assert (a 0%nat = exp (- t1)) as -> by lra. ring.
Qed.

Lemma settime_refuted : forall si, valid_sort_index si ->
  exists s fresh s1 f1 r rf,
    kf_new (A:=AX) si rawW (map Fin [0; 1]) (map Fin [1; 1]) (map Fin [0; 0]) = Ok s /\
    kf_new (A:=AX) si rawW (map Fin [0; 2]) (map Fin [1; 1]) (map Fin [0; 0]) = Ok fresh /\
    Filter (methods1 AX) (SetTime s (map Fin [0; 2])) = Ok s1 /\ Filter (methods1 AX) fresh = Ok f1 /\
    nth_error (k_mean s1) 1 = Some (Fin r) /\ nth_error (k_mean f1) 1 = Some (Fin rf) /\ r <> rf.
Proof.
  intros si Hsi.
  assert (strictly_increasing [0; 2]) as Hinc.
  { intros i j Hij Hj. simpl in Hj. destruct j as [|[|j]]; [lia| |lia]. destruct i; [|lia]. simpl. lra. }
  destruct (construct_main _ si rawW [0; 2] [1; 1] [0; 0] Hsi eq_refl eq_refl) as
    (fresh & t' & y' & e' & E & E1 & E2 & E3 & _ & _ & _ & I6 & Hu & I4 & I5 & _).
  { exists 0, 2. simpl. split; [auto|]. split; [auto|lra]. }
  destruct (I6 Hinc) as (-> & -> & ->).
  assert (holds1 fresh [0; 2] [1; 1] [0; 0] 2 1) as Hf by (repeat (split; [assumption|]); assumption).
  destruct (first_mean fresh 2 1 1 ltac:(lra) Hf) as (f1 & Ef & Mf).
  destruct (first_mean (objW [1; 1] [0; 0]) 1 1 1 ltac:(lra) ltac:(apply objW_holds; reflexivity)) as (s1 & Es & Ms).
  pose proof (filter_SetTime AX (objW [1; 1] [0; 0]) (map Fin [0; 2]) eq_refl) as Ht.
  destruct (Filter (methods1 AX) (SetTime (objW [1; 1] [0; 0]) (map Fin [0; 2]))) as [s2|?| |] eqn:E4;
    rewrite Es in Ht; try discriminate Ht.
  exists (objW [1; 1] [0; 0]), fresh, s2, f1, (exp (- (1)) * 1), (exp (- (2)) * 1).
  split; [apply objW_new; auto|]. split; [exact E|]. split; [exact E4|]. split; [exact Ef|].
  assert (k_mean s2 = k_mean s1) as -> by (cbn [obs_filter] in Ht; congruence).
  split; [exact Ms|]. split; [exact Mf|].
  assert (exp (- (2)) < exp (- (1))) by (apply exp_increasing; lra). lra.
Qed.
