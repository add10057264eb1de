(** carma_pack.py: the bounds and the starting point handed to the optimiser by _get_mle_single, and the DIC. *)
From Coq Require Import Reals List Arith ZArith Lra Lia Bool Permutation.
From Coquelicot Require Import Complex.
From Verif Require Import Arith Res ListLemmas KFModel Spec Gauss Emb KF1R History InitProof KF1X OUpd KF1Main KF1More.
From Verif Require Import Cx KFpModel KFpProof SpecCarma CLin KFpX KFpMain KFpTop KFpMore SpecModel CarpackModel RootsProof PriorProof LogLikProof LogLikMain CarpackTop CarpackRefute PyModel PyDerive PyPredict PyLoglik.
Import ListNotations.
Local Open Scope R_scope.

(** population variance *)
Definition pvar (y : list R) : R := Rsum (fun i => (nth i y 0 - smean y) ^ 2) (length y) / INR (length y).
Lemma pvar_svar y : (2 <= length y)%nat -> pvar y = svar y * ((INR (length y) - 1) / INR (length y)).
Proof. intros H. unfold pvar, svar. assert (1 < INR (length y)) by (apply (lt_INR 1); lia). field. lra. Qed.
Lemma np_var_Fin y : y <> [] -> np_var AX (map Fin y) = Fin (pvar y).
Proof.
  intros H. unfold np_var. rewrite vmean_Fin by exact H. rewrite map_map.
  change (map (fun x => fmul AX (fsub AX (Fin x) (Fin (smean y))) (fsub AX (Fin x) (Fin (smean y)))) y)
    with (map (fun x => Fin ((x - smean y) * (x - smean y))) y).
  rewrite <- (map_map (fun x => (x - smean y) * (x - smean y)) Fin). rewrite vmean_Fin by (destruct y; [congruence|discriminate]).
  f_equal. unfold smean at 1, pvar. rewrite map_length. f_equal. apply Rsum_ext. intros i Hi. rewrite nth_map0 by exact Hi. ring.
Qed.
Lemma pvar_nonneg y : y <> [] -> 0 <= pvar y.
Proof.
  intros H. unfold pvar. apply Rmult_le_pos; [|apply Rlt_le, Rinv_0_lt_compat, lt_0_INR; destruct y; [congruence|cbn; lia]].
  generalize (length y). induction n as [|n IH]; cbn [Rsum]; [lra|]. pose proof (pow2_ge_0 (nth n y 0 - smean y)). lra.
Qed.
Lemma np_std_Fin y : y <> [] -> np_std AX (map Fin y) = Fin (sqrt (pvar y)).
Proof. intros H. unfold np_std. rewrite np_var_Fin by exact H. refine (fin_sqrt _ _). apply pvar_nonneg, H. Qed.

(** ** The box *)
Definition mle_box (p q : nat) (s fmin fmax : R) : list (option (R * R)) :=
  [Some (s / 10, 10 * s); Some (9 / 10, 11 / 10); None] ++
  if (p =? 1)%nat then [Some (ln fmin, ln (9 / 10 * fmax))]
  else repeat (Some (ln (Rmin (fmin * fmin) (2 * fmin)), ln (Rmax (9 / 10 * fmax * (9 / 10 * fmax)) (2 * (9 / 10 * fmax))))) p ++ repeat None q.
Definition finb (b : option (R * R)) : option (F AX * F AX) := match b with Some (lo, hi) => Some (Fin lo, Fin hi) | None => None end.
Definition in_box (th : list R) (box : list (option (R * R))) : Prop :=
  Forall2 (fun x b => match b with Some (lo, hi) => lo <= x <= hi | None => True end) th box.
Lemma fmin_Fin a b : Arith.fmin AX (Fin a) (Fin b) = Fin (Rmin a b).
Proof. unfold Arith.fmin, Rmin. cbn [AX flt xlt]. destruct (Rlt_dec b a), (Rle_dec a b); try reflexivity; lra. Qed.
Lemma fmax_Fin a b : Arith.fmax AX (Fin a) (Fin b) = Fin (Rmax a b).
Proof. unfold Arith.fmax, Rmax. cbn [AX flt xlt]. destruct (Rlt_dec a b), (Rle_dec a b); try reflexivity; try lra. replace a with b by lra. reflexivity. Qed.
Lemma bounds_unique t y smax fmin fmax f g : data_bounds t y smax fmin fmax -> 0 < g ->
   (forall i, (S i < length t)%nat -> 1 / g <= nth (S i) t 0 - nth i t 0) ->
   (exists i, (S i < length t)%nat /\ 1 / g = nth (S i) t 0 - nth i t 0) -> f = 1 / (nth (length t - 1) t 0 - nth 0 t 0) -> f = fmin /\ g = fmax.
Proof.
  intros [H1 H2 H3 (i & Hi & H4) H5] Hg G1 (j & Hj & G2) ->. split; [congruence|]. pose proof (G1 i Hi) as A1. rewrite <- H4 in A1. pose proof (H3 j Hj) as A2. rewrite <- G2 in A2.
  assert (1 / g = 1 / fmax) as E by lra. apply (f_equal (fun x => / x)) in E. unfold Rdiv in E. rewrite !Rmult_1_l, !Rinv_inv in E. exact E.
Qed.

Lemma mle_bounds_Fin p q (t y : list R) smax fmin fmax : (2 <= length t)%nat -> length y = length t -> strictly_increasing t -> data_bounds t y smax fmin fmax ->
  mle_bounds AX p q (map Fin t) (map Fin y) = Ok (map finb (mle_box p q (sqrt (pvar y)) fmin fmax)) /\ 0 < fmin <= fmax /\
  ((3 <= length t)%nat -> 2 * fmin <= fmax).
Proof.
  intros Hn Hy Hinc Hd. assert (y <> []) as Hyn by (destruct y; [cbn in Hy; lia|discriminate]).
  destruct (make_bounds_Fin t (Fin 0) false Hn Hinc) as (f & g & Eb & P1 & P2 & P3 & P4).
  destruct (bounds_unique t y smax fmin fmax f g Hd P1 P2 P3 P4) as [-> ->].
  pose proof (Hinc 0%nat (length t - 1)%nat ltac:(lia) ltac:(lia)) as Hsp.
  assert (0 < fmin) as Hf by (rewrite P4; apply Rdiv_lt_0_compat; lra).
  assert (forall k, (k < length t)%nat -> nth k t 0 <= nth (length t - 1) t 0) as Hmon.
  { intros k Hk. destruct (Nat.eq_dec k (length t - 1)) as [->|Hne]; [lra|]. apply Rlt_le, Hinc; lia. }
  set (T := nth (length t - 1) t 0 - nth 0 t 0) in *. assert (0 < T) as HT by (unfold T; lra).
  assert (forall c, c * (1 / fmax) <= T -> c * fmin <= fmax) as Hc.
  { intros c H. rewrite P4. apply (Rmult_le_reg_r (T * (1 / fmax))); [apply Rmult_lt_0_compat; [exact HT|apply Rdiv_lt_0_compat; lra]|].
    replace (c * (1 / T) * (T * (1 / fmax))) with (c * (1 / fmax)) by (field; lra). replace (fmax * (T * (1 / fmax))) with T by (field; lra). exact H. }
  split; [|split; [split; [exact Hf|]|]].
  - unfold make_bounds, make_dt in Eb. unfold mle_bounds. rewrite np_std_Fin by exact Hyn. rewrite map_length in Eb.
    destruct (length t <? 2)%nat eqn:EL; [apply Nat.ltb_lt in EL; lia|]. cbn [bind] in Eb.
    destruct (vmin AX (diffs AX (map Fin t))) as [m|?| |]; try discriminate Eb. cbn [bind] in Eb |- *.
    destruct (vmax AX (map Fin t)) as [hi|?| |]; try discriminate Eb. cbn [bind] in Eb |- *.
    destruct (vmin AX (map Fin t)) as [lo|?| |]; try discriminate Eb. cbn [bind] in Eb |- *. 
    pose proof (f_equal (fun r : res (bounds AX) => match r with Ok b => max_freq b | _ => NaN : F AX end) Eb) as E1. change (fdiv AX (fofZ AX 1) m = Fin fmax) in E1.
    pose proof (f_equal (fun r : res (bounds AX) => match r with Ok b => min_freq b | _ => NaN : F AX end) Eb) as E2. change (fdiv AX (fofZ AX 1) (fsub AX hi lo) = Fin fmin) in E2.
    change (F AX) with xr in *. rewrite E1, E2. f_equal. unfold mle_box. rewrite map_app. f_equal.
    + cbn [map finb]. f_equal. f_equal. f_equal. refine (fin_div _ _ _). lra.
    + assert (fmul AX (fdec AX 9 10) (Fin fmax) = Fin (9 / 10 * fmax)) as -> by reflexivity.
      assert (forall x, 0 < x -> flog AX (Fin x) = Fin (ln x)) as Hlog by (intros x Hx; refine (fin_log _ _); exact Hx).
      destruct (p =? 1)%nat.
      * cbn [map finb]. rewrite !Hlog by lra. reflexivity.
      * rewrite map_app. f_equal; [|induction q as [|q IH]; cbn [repeat map]; [reflexivity|f_equal; exact IH]].
        cbn [AX fmul xmul fofZ]. rewrite fmin_Fin, fmax_Fin. rewrite !Hlog.
        -- induction p as [|p IH]; cbn [repeat map]; [reflexivity|f_equal; exact IH].
        -- apply Rlt_le_trans with (2 * (9 / 10 * fmax)); [lra|apply Rmax_r].
        -- apply Rmin_glb_lt; nra.
  - rewrite <- (Rmult_1_l fmin). apply Hc. rewrite Rmult_1_l. unfold T.
    pose proof (P2 0%nat ltac:(lia)) as Q. pose proof (Hmon 1%nat ltac:(lia)). lra.
  - intros H3. apply Hc. pose proof (P2 0%nat ltac:(lia)) as Q. pose proof (P2 1%nat ltac:(lia)) as Q'. pose proof (Hmon 2%nat ltac:(lia)). unfold T. lra.
Qed.

(** ** The starting point *)
Lemma F2_len T U (P : T -> U -> Prop) l l' : Forall2 P l l' -> length l = length l'.
Proof. induction 1; cbn; congruence. Qed.
Arguments F2_len {T U P l l'}.
Lemma clip_start_Fin (u : nat -> F AX -> F AX -> F AX) : (forall j lo hi, lo <= hi -> exists x, u j (Fin lo) (Fin hi) = Fin x /\ lo <= x <= hi) ->
  forall (th : list R) box j, length th = length box -> List.Forall (fun b => match b with Some (lo, hi) => lo <= hi | None => True end) box ->
  exists th', clip_start AX u j (map Fin th) (map finb box) = Ok (map Fin th') /\ in_box th' box /\
    forall i, nth_error box i = Some None \/ (exists lo hi x, nth_error box i = Some (Some (lo, hi)) /\ nth_error th i = Some x /\ lo <= x <= hi) -> nth_error th' i = nth_error th i.
Proof.
  intros Hu. induction th as [|x th IH]; intros [|b box] j HL HB; try discriminate.
  - exists []. split; [reflexivity|]. split; [constructor|]. intros i _. reflexivity.
  - inversion HB as [|? ? Hb HB']; subst. destruct (IH box (S j) ltac:(injection HL; auto) HB') as (th' & E & Hin & Hk).
    cbn [map clip_start]. change (F AX) with xr in *. rewrite E. cbn [bind]. destruct b as [[lo hi]|]; cbn [finb].
    + destruct (flt AX (Fin x) (Fin lo) || flt AX (Fin hi) (Fin x)) eqn:EC.
      * destruct (Hu j lo hi Hb) as (x' & Ex & Hx). exists (x' :: th'). rewrite Ex. split; [reflexivity|]. split; [constructor; assumption|].
        intros [|i] Hi; [|apply Hk, Hi]. exfalso. cbn [nth_error] in Hi. destruct Hi as [F|(lo' & hi' & x0 & E1 & E2 & E3)]; [discriminate|].
        injection E1 as <- <-. injection E2 as <-. cbn [AX flt xlt] in EC. destruct (Rlt_dec x lo); [lra|]. destruct (Rlt_dec hi x); [lra|discriminate].
      * exists (x :: th'). split; [reflexivity|]. split; [|intros [|i] Hi; [reflexivity|apply Hk, Hi]].
        constructor; [|exact Hin]. cbn [AX flt xlt] in EC. destruct (Rlt_dec x lo); [discriminate|]. destruct (Rlt_dec hi x); [discriminate|]. lra.
    + exists (x :: th'). split; [reflexivity|]. split; [constructor; [exact I|exact Hin]|]. intros [|i] Hi; [reflexivity|apply Hk, Hi].
Qed.
Lemma mle_box_len p q s a b : (p = 1%nat -> q = 0%nat) -> length (mle_box p q s a b) = (3 + p + q)%nat.
Proof.
  intros H. unfold mle_box. rewrite app_length. destruct (Nat.eqb_spec p 1) as [->|Hn]; [rewrite H by reflexivity; reflexivity|].
  rewrite app_length, !repeat_length. cbn. lia.
Qed.
Lemma mle_box_ordered p q s fmin fmax : 0 <= s -> 0 < fmin -> 2 * fmin <= fmax ->
  List.Forall (fun b => match b with Some (lo, hi) => lo <= hi | None => True end) (mle_box p q s fmin fmax).
Proof.
  intros Hs H0 H2. unfold mle_box. apply Forall_app. split; [constructor; [lra|]; constructor; [lra|]; constructor; [exact I|constructor]|].
  assert (forall a b, 0 < a -> a <= b -> ln a <= ln b) as Hln.
  { intros a b Ha [Hb| ->]; [left; apply ln_increasing; assumption|right; reflexivity]. }
  destruct (p =? 1)%nat.
  - constructor; [|constructor]. apply Hln; lra.
  - apply Forall_app. split; apply Forall_forall; intros b Hb; apply repeat_spec in Hb; subst b; [|exact I].
    apply Hln; [apply Rmin_glb_lt; nra|]. apply Rle_trans with (2 * fmin); [apply Rmin_r|]. apply Rle_trans with (2 * (9 / 10 * fmax)); [lra|apply Rmax_r].
Qed.
Theorem mle_start_in_box (u : nat -> F AX -> F AX -> F AX) p q (t y th : list R) :
  (forall j lo hi, lo <= hi -> exists x, u j (Fin lo) (Fin hi) = Fin x /\ lo <= x <= hi) ->
  (3 <= length t)%nat -> length y = length t -> strictly_increasing t -> (1 <= p)%nat -> (q < p)%nat -> length th = (3 + p + q)%nat ->
  exists smax fmin fmax th', data_bounds t y smax fmin fmax /\ mle_start AX u p q (map Fin t) (map Fin y) (map Fin th) = Ok (map Fin th') /\
    in_box th' (mle_box p q (sqrt (pvar y)) fmin fmax) /\ nth 1 th' 0 = 1 /\ nth 2 th' 0 = nth 2 th 0 /\
    (forall i, (3 + p <= i)%nat -> nth i th' 0 = nth i th 0).
Proof.
  intros Hu Hn Hy Hinc Hp Hq HL.
  destruct (make_bounds_Fin t (Fin 0) false ltac:(lia) Hinc) as (f & g & _ & P1 & P2 & P3 & P4).
  assert (data_bounds t y (10 * sqrt (svar y)) f g) as Hd by (constructor; try assumption; reflexivity).
  destruct (mle_bounds_Fin p q t y _ f g ltac:(lia) Hy Hinc Hd) as (Eb & [Hf Hfg] & H2). specialize (H2 Hn).
  exists (10 * sqrt (svar y)), f, g.
  assert (length (upd th 1 1) = (3 + p + q)%nat) as Lu by (rewrite upd_length; exact HL).
  destruct (clip_start_Fin u Hu (upd th 1 1) (mle_box p q (sqrt (pvar y)) f g) 0%nat) as (th' & Ec & Hin & Hk).
  - rewrite mle_box_len by lia. exact Lu.
  - apply mle_box_ordered; [apply sqrt_pos|exact Hf|exact H2].
  - exists th'. split; [exact Hd|]. split.
    + unfold mle_start. rewrite vset_ok by (rewrite map_length; lia). cbn [bind]. change (fofZ AX 1) with (Fin 1).
      assert (upd (map Fin th) 1 (Fin 1) = map Fin (upd th 1 1)) as Eu by (destruct th as [|a [|b th]]; reflexivity).
      change (F AX) with xr in *. rewrite Eu, Eb. cbn [bind]. exact Ec.
    + split; [exact Hin|]. pose proof (F2_len Hin) as Lt. rewrite mle_box_len in Lt by lia.
      assert (forall i, (i < 3 + p + q)%nat -> nth_error th' i = nth_error (upd th 1 1) i -> nth i th' 0 = nth i (upd th 1 1) 0) as Hne.
      { intros i Hi E. rewrite (nth_error_nth' th' 0), (nth_error_nth' (upd th 1 1) 0) in E by lia. injection E as E. exact E. }
      split; [|split].
      * rewrite Hne; [apply nth_upd_same; lia|lia|]. apply Hk. right. exists (9 / 10), (11 / 10), 1. split; [reflexivity|]. split; [|lra].
        rewrite (nth_error_nth' _ 0) by lia. rewrite nth_upd_same by lia. reflexivity.
      * rewrite Hne; [apply nth_upd_other; lia|lia|]. apply Hk. left. reflexivity.
      * intros i Hi. destruct (le_lt_dec (3 + p + q) i) as [Hge|Hlt]; [rewrite !nth_overflow by lia; reflexivity|].
        rewrite Hne; [apply nth_upd_other; lia|lia|]. apply Hk. left. unfold mle_box. destruct (Nat.eqb_spec p 1) as [->|Hp1]; [lia|].
        rewrite nth_error_app2 by (cbn; lia). rewrite nth_error_app2 by (rewrite repeat_length; cbn; lia). rewrite repeat_length. cbn [length].
        rewrite nth_error_repeat by (cbn; lia). reflexivity.
Qed.

(** ** The objective is finite on the box *)
Lemma in_box_nth th box i lo hi : in_box th box -> nth_error box i = Some (Some (lo, hi)) -> lo <= nth i th 0 <= hi.
Proof.
  intros H. revert i. induction H as [|x b th box Hb H IH]; intros [|i] E; try discriminate; cbn [nth_error nth] in *; [injection E as ->; exact Hb|apply IH, E].
Qed.
(** a time series that is not constant *)
Lemma pvar_pos y i : (2 <= length y)%nat -> (i < length y)%nat -> nth i y 0 <> smean y -> 0 < pvar y.
Proof.
  intros H2 Hi Hne. rewrite pvar_svar by exact H2. pose proof (svar_pos y i H2 Hi Hne) as H. assert (1 < INR (length y)) by (apply (lt_INR 1); lia).
  apply Rmult_lt_0_compat; [exact H|]. apply Rdiv_lt_0_compat; lra.
Qed.
Lemma box_in_prior1 t y th smax fmin fmax : (2 <= length y)%nat -> data_bounds t y smax fmin fmax -> 0 < fmin -> 0 < pvar y ->
  in_box th (mle_box 1 0 (sqrt (pvar y)) fmin fmax) -> in_prior1 smax fmin fmax th /\ 0 < nth 0 th 0.
Proof.
  intros H2 Hd Hf Hp Hb. pose proof (in_box_nth _ _ 0%nat _ _ Hb eq_refl) as B0. pose proof (in_box_nth _ _ 1%nat _ _ Hb eq_refl) as B1.
  pose proof (in_box_nth _ _ 3%nat _ _ Hb eq_refl) as B3. destruct Hd as [Es Hg _ _ _].
  pose proof (sqrt_lt_R0 _ Hp) as Hs. assert (sqrt (pvar y) <= sqrt (svar y)) as Hle.
  { apply sqrt_le_1_alt. rewrite pvar_svar in * by exact H2. assert (1 < INR (length y)) by (apply (lt_INR 1); lia).
    assert (0 < (INR (length y) - 1) / INR (length y) <= 1) as [Q1 Q2].
    { split; [apply Rdiv_lt_0_compat; lra|]. apply (Rmult_le_reg_r (INR (length y))); [lra|]. unfold Rdiv. rewrite Rmult_assoc, Rinv_l by lra. lra. }
    assert (0 < svar y) by (apply (Rmult_lt_reg_r ((INR (length y) - 1) / INR (length y))); [exact Q1|lra]). nra. }
  assert (exp (ln fmin) = fmin) as E1 by (apply exp_ln, Hf). assert (exp (ln (9 / 10 * fmax)) = 9 / 10 * fmax) as E2 by (apply exp_ln; lra).
  assert (exp (ln fmin) <= exp (nth 3 th 0)) by (destruct B3 as [[B|B] _]; [left; apply exp_increasing, B|right; congruence]).
  assert (exp (nth 3 th 0) <= exp (ln (9 / 10 * fmax))) by (destruct B3 as [_ [B|B]]; [left; apply exp_increasing, B|right; congruence]).
  unfold in_prior1. repeat split; lra.
Qed.
Theorem mle_objective_car1 (si : list (F AX) -> option (list nat)) (raw : kf1 AX) (t y e : list R) i :
  valid_sort_index si -> (2 <= length t)%nat -> length y = length t -> length e = length t -> strictly_increasing t ->
  (i < length y)%nat -> nth i y 0 <> smean y ->
  exists b smax fmin fmax, car1_new si raw (map Fin t) (map Fin y) (map Fin e) = Ok b /\ data_bounds t y smax fmin fmax /\
  forall b1 th, touched (car1_cls AX) (@setpar1 AX) b b1 -> in_box th (mle_box 1 0 (sqrt (pvar y)) fmin fmax) ->
    exists ll, mle_objective (car1_cls AX) b1 (map Fin th) = Ok (Fin (- (ll + log_sichi (nth 1 th 0)))) /\
      is_loglik (car1_K th) t y e (nth 1 th 0) (nth 2 th 0) ll.
Proof.
  intros Hsi Hn Hy He Hinc Hi Hne. destruct (base_new_Fin _ si raw t y e Hsi Hn Hy He Hinc) as (b & smax & fmin & fmax & E & Hb & Hd).
  exists b, smax, fmin, fmax. split; [exact E|]. split; [exact Hd|]. intros b1 th Ht Hbox.
  destruct (mle_bounds_Fin 1 0 t y smax fmin fmax Hn Hy Hinc Hd) as (_ & [Hf _] & _).
  destruct (box_in_prior1 t y th smax fmin fmax ltac:(lia) Hd Hf (pvar_pos y i ltac:(lia) Hi Hne) Hbox) as [Hin H0].
  pose proof (holds_touched1 b b1 t y e _ Hb Ht) as Hb1. pose proof (F2_len Hbox) as Lt. cbn in Lt.
  destruct (LD1_inside b1 t y e th smax fmin fmax false Hb1 Hinc ltac:(lia) Hin ltac:(lra)) as (m & v & b' & EL & _ & _ & _ & _ & Hc).
  eexists. split; [|exists (fun i => nth i m 0), (fun i => nth i v 0); split; [exact Hc|reflexivity]].
  unfold mle_objective. change (F AX) with xr in *. rewrite EL. reflexivity.
Qed.
Theorem mle_objective_carma solve (si : list (F AX) -> option (list nat)) (raw : kfp AX) p q (t y e : list R) i :
  valid_solve solve -> valid_sort_index si -> goodp raw -> (2 <= length t)%nat -> length y = length t -> length e = length t -> strictly_increasing t ->
  (2 <= p)%nat -> (q < p)%nat -> (i < length y)%nat -> nth i y 0 <> smean y ->
  exists b smax fmin fmax, carp_new si raw p (map Fin t) (map Fin y) (map Fin e) = Ok b /\ data_bounds t y smax fmin fmax /\
  forall b1 th om, touched (carma_cls solve p q) (@setparp AX) b b1 -> in_box th (mle_box p q (sqrt (pvar y)) fmin fmax) ->
    ARRoots AX p (map Fin th) = Ok (map FinC om) -> NoDup om ->
    exists ll ma, mle_objective (carma_cls solve p q) (SetMLE b1 true) (map Fin th) = Ok (Fin (- (ll + log_sichi (nth 1 th 0)))) /\
      ExtractMA_carma AX p q (map Fin th) = Ok (map Fin ma) /\
      is_loglik (carma_cov (nth 0 th 0 * nth 0 th 0 / carma_acv 1 ma om 0) ma om) t y e (nth 1 th 0) (nth 2 th 0) ll.
Proof.
  intros Hsv Hsi Hg Hn Hy He Hinc Hp Hq Hi Hne.
  destruct (carp_new_Fin si raw p t y e Hsi Hn Hy He Hinc ltac:(lia)) as (b & smax & fmin & fmax & E & Hb & Hd).
  exists b, smax, fmin, fmax. split; [exact E|]. split; [exact Hd|]. intros b1 th om Ht Hbox Eo Hnd.
  destruct (carp_new_wfb AX si raw p (map Fin t) (map Fin y) (map Fin e) b ltac:(rewrite !map_length; assumption) ltac:(rewrite !map_length; assumption) Hg E) as (_ & _ & _ & Hgb & _ & _).
  pose proof (holds_touchedp solve p _ (LogPrior AX) b b1 t y e _ Hb Hgb Ht) as Hb1.
  pose proof (SetMLE_holds _ b1 t y e smax fmin fmax false true Hb1) as Hb2.
  pose proof (F2_len Hbox) as Lt. rewrite mle_box_len in Lt by lia.
  pose proof (in_box_nth _ _ 0%nat _ _ Hbox eq_refl) as B0. pose proof (in_box_nth _ _ 1%nat _ _ Hbox eq_refl) as B1.
  pose proof (sqrt_lt_R0 _ (pvar_pos y i ltac:(lia) Hi Hne)) as Hs.
  destruct (ExtractMA_carma_main p q th Hq ltac:(lia)) as (ma & Em & Lm & Hm0 & _).
  destruct (LDp_all solve p _ (LogPrior AX) (SetMLE b1 true) t y e th ma om smax fmin fmax true (log_sichi (nth 1 th 0)) Hsv Hb2 Hinc Hp ltac:(lia) Em Lm) as (x & b' & EL & HLL);
    try assumption; try (intros F; discriminate F); try lra.
  - exists O. rewrite Hm0. lra.
  - intros Ht1. apply LogPrior_main; [lia|exact Ht1].
  - intros _. exact Hnd.
  - exists x, ma. split; [|split; [exact Em|exact HLL]]. unfold mle_objective, carma_cls. change (F AX) with xr in *. rewrite EL. reflexivity.
Qed.

(** with two measurements the box of a CAR(1) model is empty *)
Lemma mle_box_empty (t y : list R) smax fmin fmax : length t = 2%nat -> data_bounds t y smax fmin fmax -> 0 < fmin ->
  ln (9 / 10 * fmax) < ln fmin /\ forall th s, ~ in_box th (mle_box 1 0 s fmin fmax).
Proof.
  intros Hn [_ Hg _ (i & Hi & Hm) Hs] Hf. assert (i = 0%nat) as -> by lia. rewrite Hn in Hs. cbn [Nat.sub] in Hs.
  assert (fmin = fmax) as E by (rewrite Hs, <- Hm; field; lra).
  assert (ln (9 / 10 * fmax) < ln fmin) as H by (apply ln_increasing; lra). split; [exact H|].
  intros th s Hb. pose proof (in_box_nth _ _ 3%nat _ _ Hb eq_refl). lra.
Qed.

(** ** DIC *)
Definition dic (ll : list R) : R := smean (map (fun x => -2 * x) ll) + 1 / 2 * pvar (map (fun x => -2 * x) ll).
Lemma py_dic_Fin ll : ll <> [] -> py_dic AX (map Fin ll) = Fin (dic ll).
Proof.
  intros H. unfold py_dic. rewrite map_map. change (map (fun x => fmul AX (fneg AX (fofZ AX 2)) (Fin x)) ll) with (map (fun x => Fin (-(2) * x)) ll).
  assert (map (fun x => Fin (-(2) * x)) ll = map Fin (map (fun x => -2 * x) ll)) as -> by (rewrite map_map; apply map_ext; intros x; f_equal; lra).
  assert (map (fun x => -2 * x) ll <> []) as Hn by (destruct ll; [congruence|discriminate]).
  change (F AX) with xr. rewrite vmean_Fin, np_var_Fin by exact Hn. reflexivity.
Qed.
Lemma smean_shift (c : R) l : l <> [] -> smean (map (fun x => x + c) l) = smean l + c.
Proof.
  intros H. unfold smean. rewrite map_length. rewrite (Rsum_ext _ (fun i => nth i l 0 + c)) by (intros i Hi; rewrite nth_map0 by exact Hi; reflexivity).
  rewrite Rsum_plus. assert (forall n, Rsum (fun _ => c) n = INR n * c) as -> by (induction n as [|n IH]; [cbn; ring|rewrite S_INR; cbn [Rsum]; rewrite IH; ring]).
  field. apply not_0_INR. destruct l; [congruence|discriminate].
Qed.
Lemma dic_shift (c : R) ll : ll <> [] -> dic (map (fun x => x + c) ll) = dic ll - 2 * c.
Proof.
  intros H. unfold dic. rewrite map_map.
  assert (map (fun x => -2 * (x + c)) ll = map (fun x => x + -2 * c) (map (fun x => -2 * x) ll)) as -> by (rewrite map_map; apply map_ext; intros x; ring).
  set (l := map (fun x => -2 * x) ll). assert (l <> []) as Hn by (unfold l; destruct ll; [congruence|discriminate]).
  rewrite smean_shift by exact Hn. unfold pvar. rewrite smean_shift by exact Hn. rewrite map_length.
  rewrite (Rsum_ext (fun i => (nth i (map (fun x => x + -2 * c) l) 0 - (smean l + -2 * c)) ^ 2) (fun i => (nth i l 0 - smean l) ^ 2)) by (intros i Hi; rewrite nth_map0 by exact Hi; ring).
  ring.
Qed.
