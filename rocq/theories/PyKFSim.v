(** KalmanFilterDeprecated.simulate. *)
From Coq Require Import Reals List Arith ZArith Lra Lia Bool Permutation.
From Coquelicot Require Import Complex.
From Verif Require Import Arith Res ListLemmas KFModel KF1Proof Spec Gauss Emb KF1R History InitProof OUpd SimProof KF1Main KF1More KF1Hist.
From Verif Require Import Cx KFpModel KFpProof SpecCarma CLin KFpR KFpX KFpMain KFpTop PyKFModel PyKFProof PyKFTop.
Import ListNotations.
Local Open Scope R_scope.

(** ** Any arithmetic *)
Section AnyA.
Variable A : Arith.
Variable solve : list (list (cx A)) -> list (cx A) -> option (list (cx A)).
Variable empty : nat -> F A.
Variable G : Type.
Variable draw : G -> F A * G.
Variable np_sort : list (F A) -> list (F A).

Definition d_par (d : dkf A) := (d_sig d, d_roots d, d_ma d).
Lemma sim_loop_par ts : forall d g, d_par (fst (d_sim_loop solve empty draw ts d g)) = d_par d.
Proof.
  induction ts as [|t ts IH]; intros d g; [reflexivity|]. cbn [d_sim_loop].
  assert (d_par (fst (d_sim_step solve empty draw d t g)) = d_par d) as Hs.
  { unfold d_sim_step. destruct (d_predict solve empty d t) as [[[m v] d1]|ex| |] eqn:E; try reflexivity.
    apply d_predict_keeps in E. assert (d_par d1 = d_par d) as Ep by (unfold d_data, d_par in *; congruence). rewrite <- Ep.
    destruct (np_normal A draw m (fsqrt A v) g) as [y g']. destruct (last_lt A (d_time d1) t) as [k|]; [|reflexivity].
    destruct (vinsert (d_time d1) (S k) t); try reflexivity. destruct (vinsert (d_y d1) (S k) y); try reflexivity.
    destruct (vinsert (d_yvar d1) (S k) (fofZ A 0)); reflexivity. }
  destruct (d_sim_step solve empty draw d t g) as [d1 [[y g1]|ex| |]]; cbn [fst] in *; try exact Hs.
  specialize (IH d1 g1). destruct (d_sim_loop solve empty draw ts d1 g1) as [d2 [[ys g2]|ex| |]]; cbn [fst] in *; congruence.
Qed.

Lemma simulate_keeps d ts g d' c r : d_simulate solve empty draw np_sort d ts g = (d', c, Ok r) -> d_data d' = d_data d.
Proof.
  unfold d_simulate. pose proof (sim_loop_par (np_sort ts) d g) as Hp.
  destruct (d_sim_loop solve empty draw (np_sort ts) d g) as [d1 [[ys g2]|ex| |]]; intros H; try discriminate.
  injection H as <- _ _. cbn [fst] in Hp. unfold d_par in Hp. unfold d_data, d_set_data. cbn. congruence.
Qed.

(** results depend on the data only *)
Lemma sim_step_data d d' t g : d_data d = d_data d' ->
  snd (d_sim_step solve empty draw d t g) = snd (d_sim_step solve empty draw d' t g) /\
  d_data (fst (d_sim_step solve empty draw d t g)) = d_data (fst (d_sim_step solve empty draw d' t g)).
Proof.
  intros H. unfold d_sim_step. rewrite (d_predict_data solve empty t H).
  destruct (d_predict solve empty d' t) as [[[m v] d1]|ex| |]; try (split; [reflexivity|exact H]).
  split; reflexivity.
Qed.
Lemma sim_loop_data ts : forall d d' g, d_data d = d_data d' ->
  snd (d_sim_loop solve empty draw ts d g) = snd (d_sim_loop solve empty draw ts d' g) /\
  d_data (fst (d_sim_loop solve empty draw ts d g)) = d_data (fst (d_sim_loop solve empty draw ts d' g)).
Proof.
  induction ts as [|t ts IH]; intros d d' g H; [split; [reflexivity|exact H]|]. cbn [d_sim_loop].
  destruct (sim_step_data d d' t g H) as [H1 H2].
  destruct (d_sim_step solve empty draw d t g) as [d1 r1]. destruct (d_sim_step solve empty draw d' t g) as [d1' r1'].
  cbn [fst snd] in H1, H2. subst r1'. destruct r1 as [[y g1]|ex| |]; try (split; [reflexivity|exact H2]).
  destruct (IH d1 d1' g1 H2) as [H3 H4].
  destruct (d_sim_loop solve empty draw ts d1 g1) as [d2 r2]. destruct (d_sim_loop solve empty draw ts d1' g1) as [d2' r2'].
  cbn [fst snd] in H3, H4. subst r2'. destruct r2 as [[ys g2]|ex| |]; split; try reflexivity; exact H4.
Qed.
Lemma simulate_data d d' ts g : d_data d = d_data d' ->
  snd (d_simulate solve empty draw np_sort d ts g) = snd (d_simulate solve empty draw np_sort d' ts g) /\
  snd (fst (d_simulate solve empty draw np_sort d ts g)) = snd (fst (d_simulate solve empty draw np_sort d' ts g)) /\
  d_data (fst (fst (d_simulate solve empty draw np_sort d ts g))) = d_data (fst (fst (d_simulate solve empty draw np_sort d' ts g))).
Proof.
  intros H. unfold d_simulate. destruct (sim_loop_data (np_sort ts) d d' g H) as [H1 H2].
  destruct (d_sim_loop solve empty draw (np_sort ts) d g) as [d1 r1]. destruct (d_sim_loop solve empty draw (np_sort ts) d' g) as [d1' r1'].
  cbn [fst snd] in H1, H2. subst r1'. destruct r1 as [[y g1]|ex| |]; cbn [fst snd]; (split; [reflexivity|split; [reflexivity|]]); try exact H2.
  unfold d_data, d_set_data in *. cbn. congruence.
Qed.

(** calls on one object; an exception ends the sequence *)
Inductive dcall := DReset | DFilter | DPredict (t : F A) | DSimulate1 (t : F A) | DSimulate (ts : list (F A)).
Definition run_dcall (c : dcall) (st : dkf A * G) : res (dkf A * G) :=
  let (d, g) := st in
  match c with
  | DReset => d' <- d_reset solve empty d ;; Ok (d', g)
  | DFilter => '(_, d') <- d_filter solve empty d ;; Ok (d', g)
  | DPredict t => '(_, d') <- d_predict solve empty d t ;; Ok (d', g)
  | DSimulate1 t => '(_, d', g') <- d_simulate1 solve empty draw d t g ;; Ok (d', g')
  | DSimulate ts => match d_simulate solve empty draw np_sort d ts g with
                    | (d', _, Ok (_, g')) => Ok (d', g')
                    | (_, _, Throw e) => Throw e
                    | (_, _, UB) => UB
                    | (_, _, Diverge) => Diverge
                    end
  end.
Fixpoint run_dcalls (l : list dcall) (st : dkf A * G) : res (dkf A * G) :=
  match l with [] => Ok st | c :: r => st' <- run_dcall c st ;; run_dcalls r st' end.

Lemma run_dcall_data c d g d' g' : run_dcall c (d, g) = Ok (d', g') -> d_data d' = d_data d.
Proof.
  destruct c as [| |t|t|ts]; cbn [run_dcall]; intros H.
  - apply bind_Ok in H. destruct H as (d1 & E & H). injection H as <- _. apply (d_reset_keeps solve empty d E).
  - apply bind_Ok in H. destruct H as ([r d1] & E & H). injection H as <- _. apply (d_filter_keeps solve empty d E).
  - apply bind_Ok in H. destruct H as ([r d1] & E & H). injection H as <- _. apply (d_predict_keeps solve empty d t E).
  - apply bind_Ok in H. destruct H as ([[r d1] g1] & E & H). injection H as <- _. unfold d_simulate1 in E.
    apply bind_Ok in E. destruct E as ([[m v] d2] & E & H). destruct (np_normal A draw m (fsqrt A v) g) as [y g2]. injection H as _ <- _.
    apply (d_predict_keeps solve empty d t E).
  - destruct (d_simulate solve empty draw np_sort d ts g) as [[d1 c1] r1] eqn:E. destruct r1 as [[ys g1]|ex| |]; try discriminate.
    injection H as <- _. apply (simulate_keeps _ _ _ _ _ _ E).
Qed.
Lemma run_dcalls_data l : forall d g d' g', run_dcalls l (d, g) = Ok (d', g') -> d_data d' = d_data d.
Proof.
  induction l as [|c l IH]; intros d g d' g' H; cbn [run_dcalls] in H; [injection H as <- _; reflexivity|].
  apply bind_Ok in H. destruct H as ([d1 g1] & E & H). rewrite (IH _ _ _ _ H). apply (run_dcall_data _ _ _ _ _ E).
Qed.
End AnyA.

(** ** Real arithmetic *)
Lemma xadd_comm x y : xadd x y = xadd y x.
Proof. destruct x, y; cbn; try reflexivity. f_equal. ring. Qed.
Lemma xmul_comm x y : xmul x y = xmul y x.
Proof. destruct x, y; cbn; try reflexivity. f_equal. ring. Qed.

Section Sim.
Variable solve : list (list (cx AX)) -> list (cx AX) -> option (list (cx AX)).
Hypothesis Hsolve : valid_solve solve.
Variable empty : nat -> F AX.
Variable G : Type.
Variable draw : G -> F AX * G.

Definition sqX (x : F AX) : F AX := fmul AX x x.
Definition dobj (u : setup AX (parp AX)) : dkf AX :=
  mkD (s_time u) (s_y u) (map sqX (s_yerr u)) (s_sig u) (fst (s_par u)) (snd (s_par u)) [] [] [] [] [] [] (Fin 0 : F AX) 0.
(** the prediction of the Python class, and of the C++ class where the Python class has none *)
Definition ppd (u : setup AX (parp AX)) (t : F AX) : res (F AX * F AX) :=
  if flt AX (hd (NaN : F AX) (s_time u)) t then obs_fst (d_predict solve empty (dobj u) t) else ppp solve u t.

Lemma normal_eq m s g : np_normal AX draw m s g = rnormal AX draw m s g.
Proof.
  unfold np_normal, rnormal. destruct (draw g) as [z g']. f_equal. cbn [fadd fmul AX].
  rewrite xadd_comm. f_equal. apply xmul_comm.
Qed.

Lemma flt_Fin a b : flt AX (Fin a : F AX) (Fin b : F AX) = if Rlt_dec a b then true else false.
Proof. reflexivity. Qed.

Lemma ins_hd i (v : R) l : (1 <= i)%nat -> (1 <= length l)%nat -> nth 0 (ins i v l) 0 = nth 0 l 0.
Proof. intros Hi Hl. unfold ins. destruct i; [lia|]. destruct l; [simpl in Hl; lia|]. reflexivity. Qed.

Lemma ins_nondec (tr : list R) (tp : R) : nondecreasing tr -> nondecreasing (ins (lt_prefix AR tr tp) tp tr).
Proof.
  intros Hnd. pose proof (lt_prefix_len AR tr tp) as Hle. change (@length (F AR) tr) with (length tr) in Hle.
  assert (forall i, (i < length tr)%nat -> (i < lt_prefix AR tr tp)%nat <-> nth i tr 0 < tp) as Hsp
    by (intros; apply lt_prefix_spec; assumption).
  set (ip := lt_prefix AR tr tp) in *. clearbody ip.
  intros i j Hij Hj. rewrite ins_length in Hj by exact Hle. rewrite !ins_nth by exact Hle.
  destruct (Nat.ltb_spec i ip), (Nat.ltb_spec j ip); try lia.
  - apply Hnd; lia.
  - assert (nth i tr 0 < tp) by (apply Hsp; lia). destruct (Nat.eqb_spec j ip); [lra|].
    destruct (Nat.eq_dec i (j - 1)) as [->|]; [lra|]. apply Hnd; lia.
  - destruct (Nat.eqb_spec j ip); [lia|]. destruct (Nat.eqb_spec i ip) as [->|].
    + destruct (Rlt_dec (nth (j - 1) tr 0) tp) as [Hlt|]; [|lra]. apply Hsp in Hlt; lia.
    + apply Hnd; lia.
Qed.

Lemma lockstep todo : forall (d : dkf AX) (u : setup AX (parp AX)) tr out g out' u' g',
  d_data d = d_data (dobj u) -> s_time u = map Fin tr -> nondecreasing tr -> (1 <= length tr)%nat ->
  length (s_y u) = length tr -> length (s_yerr u) = length tr ->
  (forall t, In t todo -> nth 0 tr 0 < t) ->
  psim_loop draw ppd (map Fin todo) (out, u, g) = Ok (out', u', g') ->
  exists ys d', d_sim_loop solve empty draw (map Fin todo) d g = (d', Ok (ys, g')) /\ out' = out ++ ys.
Proof.
  induction todo as [|tp todo IH]; intros d u tr out g out' u' g' Hd Et Hnd Hn Ly Le Hgt H; cbn [map psim_loop] in H.
  - injection H as <- _ <-. exists [], d. split; [reflexivity|]. rewrite app_nil_r. reflexivity.
  - apply bind_Ok in H. destruct H as ([[o1 u1] g1] & H1 & H2).
    unfold psim_step in H1. apply bind_Ok in H1. destruct H1 as ([m v] & EP & H1).
    assert (nth 0 tr 0 < tp) as Hft by (apply Hgt; left; reflexivity).
    unfold ppd in EP. rewrite Et in EP.
    assert (hd (NaN : F AX) (map Fin tr) = Fin (nth 0 tr 0)) as Eh by (destruct tr; [simpl in Hn; lia|reflexivity]).
    rewrite Eh, flt_Fin in EP. destruct (Rlt_dec (nth 0 tr 0) tp); [|lra].
    destruct (d_predict solve empty (dobj u) (Fin tp)) as [[[m1 v1] d1]|ex| |] eqn:Ed; try discriminate EP.
    cbn [obs_fst] in EP. injection EP as -> ->.
    cbn [map d_sim_loop]. unfold d_sim_step.
    rewrite (d_predict_data solve empty (Fin tp : F AX) Hd). rewrite Ed, normal_eq.
    apply d_predict_keeps in Ed.
    destruct (rnormal AX draw m (fsqrt AX v) g) as [yv g2]. injection H1 as <- <- <-.
    injection Ed as D1 D2 D3 D4 D5 D6. rewrite D1, D2, D3, Et.
    pose proof (last_lt_Fin tr tp Hnd) as Hl. pose proof (lt_prefix_len AR tr tp) as Hle. change (@length (F AR) tr) with (length tr) in Hle.
    pose proof (proj2 (lt_prefix_spec tr tp 0 Hnd Hn) Hft) as Hpos.
    pose proof (ins_nondec tr tp Hnd) as Hnd2.
    pose proof (lt_prefix_Fin tr tp) as Hpx.
    destruct (lt_prefix AR tr tp) as [|k]; [lia|].
    change (F AX) with xr in *. rewrite Hl.
    rewrite !vinsert_ok by (rewrite ?map_length, ?Ly, ?Le; lia).
    set (u1 := mkSetup _ _ _ _ _ _ _) in H2.
    set (d2 := d_set_data _ _ _ _).
    destruct (IH d2 u1 (ins (S k) tp tr) (out ++ [yv]) g2 out' u' g') as (ys & d' & E1 & E2).
    + unfold d2, u1, d_data, dobj, d_set_data. cbn [d_time d_y d_yvar d_sig d_roots d_ma s_time s_y s_yerr s_sig s_par].
      rewrite D4, D5, D6. rewrite Et, Hpx. cbn [dobj d_sig d_roots d_ma].
      assert (map sqX (ins (S k) (fofZ AX 0) (s_yerr u)) =
        firstn (S k) (map sqX (s_yerr u)) ++ fofZ AX 0 :: skipn (S k) (map sqX (s_yerr u))) as Ev.
      { unfold ins. rewrite map_app, firstn_map, skipn_map. cbn [map]. f_equal. f_equal. unfold sqX. cbn. f_equal. ring. }
      change (F AX) with xr in *. change (fofZ AX 0) with (Fin 0) in *. rewrite <- Ev. reflexivity.
    + unfold u1. cbn [s_time]. rewrite Et, Hpx. apply ins_map.
    + exact Hnd2.
    + rewrite ins_length by lia. lia.
    + unfold u1. cbn [s_y]. rewrite Et, Hpx. rewrite !ins_length by lia. lia.
    + unfold u1. cbn [s_yerr]. rewrite Et, Hpx. rewrite !ins_length by lia. lia.
    + intros t Ht. rewrite ins_hd by lia. apply Hgt. right. exact Ht.
    + exact H2.
    + exists (yv :: ys), d'. rewrite E1. split; [reflexivity|]. rewrite E2, <- app_assoc. reflexivity.
Qed.
End Sim.

(** ndarray.sort(): ascending order, NaN last.  (Infinite entries: nothing is assumed.) *)
Definition valid_np_sort (np_sort : list (F AX) -> list (F AX)) : Prop :=
  forall (l : list (F AX)) (f : list R) (k : nat), Permutation l (map Fin f ++ repeat NaN k) ->
  exists f', np_sort l = map Fin f' ++ repeat NaN k /\ Permutation f f' /\ nondecreasing f'.

Definition finite_part (l : list xr) : list R := flat_map (fun x => match x with Fin r => [r] | _ => [] end) l.
Definition nan_part (l : list xr) : list xr := flat_map (fun x => match x with NaN => [NaN] | _ => [] end) l.
Lemma valid_np_sort_exists : exists s, valid_np_sort s.
Proof.
  exists (fun l => map Fin (risort (finite_part l)) ++ repeat NaN (length (nan_part l))). intros l f k Hp.
  assert (Permutation (finite_part l) f) as H1.
  { unfold finite_part. etransitivity; [exact (Permutation_flat_map _ Hp)|]. rewrite flat_map_app.
    assert (flat_map (fun x : xr => match x with Fin r => [r] | _ => [] end) (map Fin f) = f) as ->
      by (clear; induction f as [|a f IH]; [reflexivity|]; cbn; f_equal; exact IH).
    assert (flat_map (fun x : xr => match x with Fin r => [r] | _ => [] end) (repeat NaN k) = []) as ->
      by (clear; induction k; [reflexivity|]; exact IHk).
    rewrite app_nil_r. reflexivity. }
  assert (length (nan_part l) = k) as ->.
  { unfold nan_part. rewrite (Permutation_length (Permutation_flat_map _ Hp)), flat_map_app, app_length.
    assert (flat_map (fun x : xr => match x with NaN => [NaN] | _ => [] end) (map Fin f) = []) as ->
      by (clear; induction f; [reflexivity|]; exact IHf).
    cbn [length Nat.add]. clear. induction k; [reflexivity|]. cbn [repeat flat_map app length]. f_equal. exact IHk. }
  exists (risort (finite_part l)). split; [reflexivity|]. split; [|apply risort_sorted].
  etransitivity; [symmetry; exact H1|]. apply risort_perm.
Qed.

(** ** Sizes of the data during simulate, any arithmetic *)
Section Sizes.
Variable A : Arith.
Variable solve : list (list (cx A)) -> list (cx A) -> option (list (cx A)).
Variable empty : nat -> F A.
Variable G : Type.
Variable draw : G -> F A * G.

Lemma vinsert_len T (l : list T) i v l' : vinsert l i v = Ok l' -> length l' = S (length l).
Proof.
  unfold vinsert. destruct (Nat.leb_spec i (length l)); [|discriminate]. intros E. injection E as <-.
  rewrite app_length. cbn [length]. rewrite firstn_length, skipn_length. lia.
Qed.
Definition sizes (d : dkf A) := (length (d_time d), length (d_y d), length (d_yvar d)).
Lemma sim_step_sizes d t g d' r : d_sim_step solve empty draw d t g = (d', Ok r) ->
  sizes d' = (S (length (d_time d)), S (length (d_y d)), S (length (d_yvar d))).
Proof.
  unfold d_sim_step. destruct (d_predict solve empty d t) as [[[m v] d1]|ex| |] eqn:E; try (intros H; discriminate H).
  apply d_predict_keeps in E. injection E as E1 E2 E3 E4 E5 E6. rewrite <- E1, <- E2, <- E3.
  destruct (np_normal A draw m (fsqrt A v) g) as [y g']. destruct (last_lt A (d_time d1) t) as [k|]; [|intros H; discriminate H].
  destruct (vinsert (d_time d1) (S k) t) as [t'|ex| |] eqn:I1; try (intros H; discriminate H).
  destruct (vinsert (d_y d1) (S k) y) as [y'|ex| |] eqn:I2; try (intros H; discriminate H).
  destruct (vinsert (d_yvar d1) (S k) (fofZ A 0)) as [v'|ex| |] eqn:I3; intros H; try discriminate H.
  injection H as <- _. unfold sizes, d_set_data. cbn [d_time d_y d_yvar].
  rewrite (vinsert_len _ _ _ _ _ I1), (vinsert_len _ _ _ _ _ I2), (vinsert_len _ _ _ _ _ I3). reflexivity.
Qed.
Lemma sim_loop_sizes ts : forall d g d' r, d_sim_loop solve empty draw ts d g = (d', Ok r) ->
  sizes d' = (length (d_time d) + length ts, length (d_y d) + length ts, length (d_yvar d) + length ts)%nat.
Proof.
  induction ts as [|t ts IH]; intros d g d' r H; cbn [d_sim_loop] in H.
  - injection H as <- _. unfold sizes. cbn [length]. rewrite !Nat.add_0_r. reflexivity.
  - destruct (d_sim_step solve empty draw d t g) as [d1 [[y g1]|ex| |]] eqn:E; try discriminate H.
    apply sim_step_sizes in E. destruct (d_sim_loop solve empty draw ts d1 g1) as [d2 [[ys g2]|ex| |]] eqn:E2; try discriminate H.
    injection H as <- _. rewrite (IH _ _ _ _ E2). unfold sizes in E. injection E as -> -> ->. cbn [length].
    rewrite !Nat.add_succ_r. reflexivity.
Qed.
Lemma sim_loop_stop l1 : forall x l2 d g d1 ys g1 d2 e,
  d_sim_loop solve empty draw l1 d g = (d1, Ok (ys, g1)) -> d_sim_step solve empty draw d1 x g1 = (d2, Throw e) ->
  d_sim_loop solve empty draw (l1 ++ x :: l2) d g = (d2, Throw e).
Proof.
  induction l1 as [|t l1 IH]; intros x l2 d g d1 ys g1 d2 e H Hx; cbn [app d_sim_loop] in *.
  - injection H as -> _ ->. rewrite Hx. reflexivity.
  - destruct (d_sim_step solve empty draw d t g) as [d3 [[y g3]|ex| |]]; try discriminate H.
    destruct (d_sim_loop solve empty draw l1 d3 g3) as [d4 [[ys4 g4]|ex| |]] eqn:E; try discriminate H.
    injection H as -> _ ->. rewrite (IH x l2 _ _ _ _ _ _ _ E Hx). reflexivity.
Qed.

Lemma d_reset_runs (d : dkf A) J : (2 <= length (d_roots d))%nat -> solve (EigenMat (d_roots d)) (Rvector A (length (d_roots d))) = Some J ->
  length (d_ma d) = length (d_roots d) -> (1 <= length (d_time d))%nat -> (1 <= length (d_y d))%nat -> (1 <= length (d_yvar d))%nat ->
  exists d', d_reset solve empty d = Ok d'.
Proof.
  intros H2 EJ Hl H3 H4 H5. unfold d_reset. destruct (Nat.ltb_spec (length (d_roots d)) 2); [lia|]. rewrite EJ, Hl, Nat.eqb_refl.
  cbn [negb]. rewrite !vset_ok by (rewrite map_length, seq_length; lia). cbn [bind].
  rewrite (@vget_ok _ (d_yvar d) 0%nat (fofZ A 0)) by lia. cbn [bind].
  rewrite vset_ok by (rewrite map_length, seq_length; lia). cbn [bind].
  rewrite (@vget_ok _ (d_y d) 0%nat (fofZ A 0)) by lia. cbn [bind]. eexists. reflexivity.
Qed.

(** fewer than two roots *)
Lemma small_p (d : dkf A) : (length (d_roots d) < 2)%nat ->
  d_reset solve empty d = Throw Elogic /\ d_filter solve empty d = Throw Elogic /\
  (forall t, d_predict solve empty d t = Throw Elogic) /\ (forall t g, d_simulate1 solve empty draw d t g = Throw Elogic) /\
  (forall np_sort ts g, np_sort ts <> [] -> snd (d_simulate solve empty draw np_sort d ts g) = Throw Elogic).
Proof.
  intros H.
  assert (d_reset solve empty d = Throw Elogic) as Er by (unfold d_reset; destruct (Nat.ltb_spec (length (d_roots d)) 2); [reflexivity|lia]).
  assert (forall t, d_predict solve empty d t = Throw Elogic) as Ep by (intros; unfold d_predict; rewrite Er; reflexivity).
  split; [exact Er|]. split; [unfold d_filter; rewrite Er; reflexivity|]. split; [exact Ep|].
  split; [intros; unfold d_simulate1; rewrite Ep; reflexivity|].
  intros np_sort ts g Hs. unfold d_simulate. destruct (np_sort ts) as [|t r]; [congruence|]. cbn [d_sim_loop]. unfold d_sim_step.
  rewrite Ep. reflexivity.
Qed.
End Sizes.

Lemma last_lt_NaN (l : list (F AX)) : last_lt AX l (NaN : F AX) = None.
Proof. induction l as [|x l IH]; [reflexivity|]. cbn [last_lt]. rewrite IH. destruct x; reflexivity. Qed.
Lemma last_lt_before (tr : list R) t : (forall x, In x tr -> t <= x) -> last_lt AX (map Fin tr) (Fin t : F AX) = None.
Proof.
  induction tr as [|x tr IH]; intros H; [reflexivity|]. cbn [map last_lt]. rewrite IH by (intros; apply H; right; assumption).
  rewrite flt_Fin. destruct (Rlt_dec x t); [|reflexivity]. specialize (H x (or_introl eq_refl)). lra.
Qed.

Section SimTop.
Variable solve : list (list (cx AX)) -> list (cx AX) -> option (list (cx AX)).
Hypothesis Hsolve : valid_solve solve.
Variable empty : nat -> F AX.
Variable G : Type.
Variable draw : G -> F AX * G.
Hypothesis Hdraw : forall g0, exists z, fst (draw g0) = Fin z.
Variables (sig : R) (om : list C) (ma : list R).
Hypothesis Hok : carma_ok sig om ma.
Variables (d : dkf AX) (tr yr vr : list R).
Hypothesis Hd : holdsd d tr yr vr sig om ma.
Hypothesis Hy : length yr = length tr.
Hypothesis Hv : length vr = length tr.
Hypothesis Hn : (1 <= length tr)%nat.
Hypothesis Hinc : strictly_increasing tr.
Hypothesis Hv0 : forall i, (i < length tr)%nat -> 0 <= nth i vr 0.
Local Notation K := (carma_cov sig ma om).
Local Notation er := (map sqrt vr).

Lemma nth_er i : (i < length tr)%nat -> nth i er 0 * nth i er 0 = nth i vr 0.
Proof.
  intros Hi. rewrite (nth_indep _ 0 (sqrt 0)) by (rewrite map_length; lia). rewrite (map_nth sqrt). apply sqrt_sqrt, Hv0, Hi.
Qed.

Lemma ppd_spec tr0 yr0 er0 tp : length yr0 = length tr0 -> length er0 = length tr0 -> (1 <= length tr0)%nat ->
  times_ok tr0 er0 -> (forall i, (i < length tr0)%nat -> nth i tr0 0 = tp -> nth i er0 0 <> 0) ->
  exists m v, ppd solve empty (mkSetup AX (map Fin tr0) (diffs AX (map Fin tr0)) (map Fin yr0) (map Fin er0) (Fin sig : F AX) (map FinC om, map Fin ma)) (Fin tp : F AX) = Ok (Fin m, Fin v) /\
    0 < v /\ cond_dist K tr0 yr0 er0 tp m v.
Proof.
  intros Ly Le Ln Ht Hnz. unfold ppd. cbn [s_time].
  assert (hd (NaN : F AX) (map Fin tr0) = Fin (nth 0 tr0 0)) as Eh by (destruct tr0; [simpl in Ln; lia|reflexivity]).
  rewrite Eh, flt_Fin. destruct (Rlt_dec (nth 0 tr0 0) tp) as [Hf|Hf].
  - destruct (d_predict_cpp solve Hsolve empty sig om ma Hok
      (dobj (mkSetup AX (map Fin tr0) (diffs AX (map Fin tr0)) (map Fin yr0) (map Fin er0) (Fin sig : F AX) (map FinC om, map Fin ma)))
      tr0 yr0 (map (fun e => e * e) er0)) with (er := er0) (tp := tp) as (m & v & d' & E & _ & Hvp & Hc);
      try assumption; try (rewrite map_length; assumption).
    + unfold holdsd, dobj. cbn [d_time d_y d_yvar d_sig d_roots d_ma s_time s_y s_yerr s_sig s_par fst snd].
      repeat (split; [reflexivity|]). split; [|repeat split; reflexivity].
      rewrite !map_map. apply map_ext. intros x. reflexivity.
    + intros i Hi. rewrite (nth_indep (map _ er0) 0 (0 * 0)) by (rewrite map_length; lia).
      rewrite (map_nth (fun e => e * e)). reflexivity.
    + exists m, v. split; [|split; assumption]. pose proof (f_equal obs_fst E) as Q. exact Q.
  - destruct (ppp_spec solve Hsolve sig om ma Hok tr0 yr0 er0 tp Ht Hnz) as (m & v & E & Hvp & Hc).
    exists m, v. split; [rewrite diffs_Fin; exact E|]. split; assumption.
Qed.

Lemma sim_loop_ok todo g : strictly_increasing todo -> (forall t, In t todo -> nth 0 tr 0 < t) ->
  (forall i, (i < length tr)%nat -> In (nth i tr 0) todo -> nth i vr 0 <> 0) ->
  exists out d', d_sim_loop solve empty draw (map Fin todo) d g = (d', Ok (map Fin out, gen_after draw (length todo) g)) /\
    sim_spec K G draw tr yr er todo out g.
Proof.
  intros Hst Hgt Hnz.
  destruct (psim_loop_spec (parp AX) K G draw Hdraw (ppd solve empty) sig (map FinC om, map Fin ma) 1%nat) with (t := tr) (y := yr) (e := er)
     (todo := todo) (done := @nil R) (outd := @nil R) (tr := tr) (yr := yr) (er := er) (g0 := g) (g := g) as (out & u & Eo & Ho);
    try assumption; try reflexivity; try (rewrite map_length; assumption).
  - exact ppd_spec.
  - apply strict_times_ok, Hinc.
  - cbn [length repeat]. rewrite !app_nil_r. reflexivity.
  - intros i Hi Hin H0. apply (Hnz i Hi Hin). rewrite <- nth_er by exact Hi. rewrite H0. ring.
  - split; [reflexivity|]. intros k Hk. cbn in Hk. lia.
  - cbn [map app] in Eo. destruct Hd as (E1 & E2 & E3 & E4 & E5 & E6).
    pose proof (lockstep solve empty G draw todo d
      (mkSetup AX (map Fin tr) (diffs AX (map Fin tr)) (map Fin yr) (map Fin er) (Fin sig : F AX) (map FinC om, map Fin ma))
      tr [] g (map Fin out) u (gen_after draw (length todo) g)) as HL.
    destruct HL as (ys & d' & EL & Ey).
    + unfold d_data, dobj. cbn [d_time d_y d_yvar d_sig d_roots d_ma s_time s_y s_yerr s_sig s_par fst snd].
      rewrite E1, E2, E3, E4, E5, E6.
      refine (f_equal (fun v : list (F AX) => (map Fin tr : list (F AX), map Fin yr : list (F AX), v, ((Fin sig : F AX), map FinC om, map Fin ma : list (F AX)))) _).
      symmetry. change (@map xr xr sqX (map Fin er) = map Fin vr).
      apply (nth_ext _ _ (Fin 0) (Fin 0)); [rewrite !map_length; reflexivity|]. rewrite !map_length. intros i Hi.
      assert (forall (l : list R) i, nth i (@map xr xr sqX (map Fin l)) (Fin 0) = Fin (nth i l 0 * nth i l 0)) as Hsq.
      { induction l as [|x l IH]; intros [|n]; cbn [map nth]; try (f_equal; ring); [reflexivity|apply IH]. }
      rewrite Hsq, (map_nth Fin). f_equal. apply nth_er. lia.
    + reflexivity.
    + intros i j Hij Hj. apply Rlt_le, Hinc; assumption.
    + exact Hn.
    + cbn [s_y]. rewrite map_length. exact Hy.
    + cbn [s_yerr]. rewrite !map_length. exact Hv.
    + exact Hgt.
    + exact Eo.
    + exists out, d'. cbn [app] in Ey. subst ys. split; [exact EL|exact Ho].
Qed.

Variable np_sort : list (F AX) -> list (F AX).
Hypothesis Hsort : valid_np_sort np_sort.

Lemma simulated ts g : NoDup ts -> (forall t, In t ts -> nth 0 tr 0 < t) ->
  (forall i, (i < length tr)%nat -> In (nth i tr 0) ts -> nth i vr 0 <> 0) ->
  exists sorted out d', d_simulate solve empty draw np_sort d (map Fin ts) g = (d', map Fin sorted, Ok (map Fin out, gen_after draw (length ts) g)) /\
    d_data d' = d_data d /\ Permutation ts sorted /\ strictly_increasing sorted /\ sim_spec K G draw tr yr er sorted out g.
Proof.
  intros Hnd Hgt Hnz. destruct (Hsort (map Fin ts) ts 0%nat) as (sorted & Es & Hp & Hs).
  { cbn [repeat]. rewrite app_nil_r. reflexivity. }
  cbn [repeat] in Es. rewrite app_nil_r in Es.
  assert (strictly_increasing sorted) as Hst by (apply sorted_strict; [eapply Permutation_NoDup; eassumption|exact Hs]).
  destruct (sim_loop_ok sorted g Hst) as (out & d1 & E & Ho).
  - intros t Ht. apply Hgt. eapply Permutation_in; [symmetry; exact Hp|exact Ht].
  - intros i Hi Hin. apply (Hnz i Hi). eapply Permutation_in; [symmetry; exact Hp|exact Hin].
  - assert (d_simulate solve empty draw np_sort d (map Fin ts) g =
      (d_set_data d1 (d_time d) (d_y d) (d_yvar d), map Fin sorted, Ok (map Fin out, gen_after draw (length ts) g))) as ES.
    { unfold d_simulate. change (F AX) with xr in *. rewrite Es, E, (Permutation_length Hp). reflexivity. }
    exists sorted, out. eexists. split; [exact ES|]. split; [exact (simulate_keeps _ _ _ _ _ _ _ _ _ _ _ _ ES)|]. auto.
Qed.

(** not-a-number among the requested times *)
Lemma interrupted ts k g (l : list (F AX)) : Permutation l (map Fin ts ++ repeat NaN (S k)) -> NoDup ts -> (forall t, In t ts -> nth 0 tr 0 < t) ->
  (forall i, (i < length tr)%nat -> In (nth i tr 0) ts -> nth i vr 0 <> 0) ->
  exists sorted d', d_simulate solve empty draw np_sort d l g = (d', map Fin sorted ++ repeat NaN (S k), Throw Elogic) /\
    length (d_time d') = (length tr + length ts)%nat /\ length (d_y d') = (length tr + length ts)%nat /\
    length (d_yvar d') = (length tr + length ts)%nat.
Proof.
  intros Hl Hnd Hgt Hnz. destruct (Hsort l ts (S k) Hl) as (sorted & Es & Hp & Hs).
  assert (strictly_increasing sorted) as Hst by (apply sorted_strict; [eapply Permutation_NoDup; eassumption|exact Hs]).
  destruct (sim_loop_ok sorted g Hst) as (out & d1 & E & Ho).
  - intros t Ht. apply Hgt. eapply Permutation_in; [symmetry; exact Hp|exact Ht].
  - intros i Hi Hin. apply (Hnz i Hi). eapply Permutation_in; [symmetry; exact Hp|exact Hin].
  - pose proof (sim_loop_sizes AX solve empty G draw _ _ _ _ _ E) as Hz.
    pose proof (sim_loop_par AX solve empty G draw (map Fin sorted) d g) as Hpar. rewrite E in Hpar. cbn [fst] in Hpar.
    destruct Hd as (E1 & E2 & E3 & E4 & E5 & E6). unfold d_par in Hpar. rewrite E4, E5, E6 in Hpar. injection Hpar as P4 P5 P6.
    rewrite E1, E2, E3 in Hz. change (F AX) with xr in *. rewrite !map_length in Hz. rewrite Hy, Hv, <- (Permutation_length Hp) in Hz.
    unfold sizes in Hz. injection Hz as Z1 Z2 Z3.
    destruct (solve_ok solve Hsolve sig om ma Hok) as (J & EJ & _ & _). pose proof Hok as (_ & H2 & Hlm & _).
    destruct (d_reset_runs AX solve empty d1 (map FinC J)) as (d2 & Er); try lia.
    + rewrite P5, map_length. exact H2.
    + rewrite P5. rewrite <- EJ. reflexivity.
    + rewrite P5, P6, !map_length. exact Hlm.
    + change (F AX) with xr in *. rewrite Z1. lia.
    + change (F AX) with xr in *. rewrite Z2. lia.
    + change (F AX) with xr in *. rewrite Z3. lia.
    + exists sorted, d1. split; [|auto].
      unfold d_simulate. change (F AX) with xr in *. rewrite Es.
      assert (d_sim_loop solve empty draw (map Fin sorted ++ repeat NaN (S k)) d g = (d1, Throw Elogic)) as ->; [|reflexivity].
      cbn [repeat]. eapply sim_loop_stop; [exact E|]. unfold d_sim_step, d_predict. rewrite Er. cbn [bind].
      pose proof (last_lt_NaN (d_time d2)) as HN. change (F AX) with xr in *. rewrite HN. reflexivity.
Qed.

Lemma no_backcast t : t <= nth 0 tr 0 -> d_predict solve empty d (Fin t : F AX) = Throw Elogic.
Proof.
  intros Ht. destruct Hd as (E1 & E2 & E3 & E4 & E5 & E6).
  destruct (solve_ok solve Hsolve sig om ma Hok) as (J & EJ & _ & _). pose proof Hok as (_ & H2 & Hlm & _).
  destruct (d_reset_runs AX solve empty d (map FinC J)) as (d2 & Er); rewrite ?E1, ?E2, ?E3, ?E5, ?E6, ?map_length; try lia.
  - rewrite <- EJ, map_length. reflexivity.
  - unfold d_predict. rewrite Er. cbn [bind]. apply d_reset_keeps in Er. injection Er as D1 _ _ _ _ _. rewrite D1, E1.
    pose proof (last_lt_before tr t) as HB. change (F AX) with xr in *. rewrite HB; [reflexivity|].
    intros x Hx. destruct (In_nth _ _ 0 Hx) as (i & Hi & <-). destruct i; [exact Ht|].
    pose proof (Hinc 0%nat (S i) ltac:(lia) Hi). lra.
Qed.
End SimTop.

(** ** The constructor, and both classes *)
Lemma new_holdsd t y v sig om ma : stable_roots om -> (2 <= length om)%nat -> (length ma <= length om)%nat -> (exists c, In c ma /\ c <> 0) -> 0 < sig ->
  exists d, d_new (A := AX) (map Fin t) (map Fin y) (map Fin v) (Fin sig : F AX) (map FinC om) (map Fin ma) = Ok d /\
    holdsd d t y v sig om (ma ++ repeat 0 (length om - length ma)) /\ carma_ok sig om (ma ++ repeat 0 (length om - length ma)).
Proof.
  intros Hst H2 Hl (c & Hc & Hc0) Hsig. unfold d_new.
  assert ((length (map FinC om) <? @length (F AX) (map Fin ma))%nat = false) as ->.
  { apply Nat.ltb_ge. change (F AX) with xr. rewrite !map_length. exact Hl. }
  eexists. split; [reflexivity|]. split.
  - unfold holdsd. cbn [d_time d_y d_yvar d_sig d_roots d_ma]. repeat (split; [reflexivity|]). rewrite map_length. apply pad_Fin.
  - split; [exact Hst|]. split; [exact H2|]. split; [rewrite app_length, repeat_length; lia|]. split; [|exact Hsig].
    destruct (In_nth _ _ 0 Hc) as (k & Hk & Ek). exists k. rewrite app_nth1 by exact Hk. rewrite Ek. exact Hc0.
Qed.

Lemma both_classes solve empty (s : kfp AX) (d : dkf AX) tr yr er sig om ma :
  valid_solve solve -> holdsp s tr yr er sig om ma -> holdsd d tr yr (map (fun e => e * e) er) sig om ma ->
  strictly_increasing tr -> carma_ok sig om ma ->
  (exists s' d', Filter (methodsp solve) s = Ok s' /\ d_filter solve empty d = Ok ((k_mean s', k_var s'), d')) /\
  (forall tp, nth 0 tr 0 < tp -> (forall i, (i < length tr)%nat -> nth i tr 0 = tp -> nth i er 0 <> 0) ->
   exists r s' d', Predictp solve s (Fin tp : F AX) = Ok (r, s') /\ d_predict solve empty d (Fin tp : F AX) = Ok (r, d')).
Proof.
  intros Hsv Hs Hd Hinc Hok.
  destruct (holdsp_lens _ _ _ _ _ _ _ Hs) as (Hy & He & Hn & Edt). pose proof Hs as (Hu & Hg & _).
  assert (length (map (fun e => e * e) er) = length tr) as Hv by (rewrite map_length; exact He).
  assert (1 <= length tr)%nat as Hn1 by lia.
  assert (forall i, (i < length tr)%nat -> nth i er 0 * nth i er 0 = nth i (map (fun e => e * e) er) 0) as Hsq.
  { intros i Hi. rewrite (nth_indep (map _ er) 0 (0 * 0)) by (rewrite map_length; lia). rewrite (map_nth (fun e => e * e)). reflexivity. }
  pose proof (setup_s s tr yr er sig om ma Hs) as Eu.
  split.
  - destruct (d_filter_cpp solve Hsv empty sig om ma Hok d tr yr _ Hd Hy Hv Hn1 er Hsq) as (r & d' & E & EC).
    destruct (pureFp solve Hu Hg) as [Ho _]. rewrite Eu in Ho. pose proof (eq_trans Ho EC) as Q.
    destruct (Filter (methodsp solve) s) as [s'|ex| |] eqn:EF; try discriminate Q. cbn [obs_filter] in Q. injection Q as <-.
    exists s', d'. split; [reflexivity|exact E].
  - intros tp Hf Hnz. destruct (d_predict_cpp solve Hsv empty sig om ma Hok d tr yr _ Hd Hy Hv Hn1 er Hsq tp) as (m & v & d' & E & EC & _ & _).
    + apply strict_times_ok, Hinc.
    + exact Hf.
    + exact Hnz.
    + destruct (purePp solve (Fin tp : F AX) Hu Hg) as [Ho _]. rewrite Eu in Ho. cbn [m_Predict methodsp] in Ho.
      pose proof (eq_trans Ho EC) as Q.
      destruct (Predictp solve s (Fin tp)) as [[rr s']|ex| |] eqn:EP; try discriminate Q. cbn [obs_fst] in Q. injection Q as ->.
      exists (Fin m, Fin v), s', d'. split; [reflexivity|exact E].
Qed.
