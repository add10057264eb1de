(** How far one adaptation, and a whole history of adaptations, can move a proposal covariance (C132). *)
From Coq Require Import Reals List Arith ZArith Bool Lra Lia.
From Verif Require Import Arith Res ListLemmas Spec Gauss Emb Cx KFpProof EngineModel EngineSpec EngineProof EngineInv CholProof RamProof EngineAX EngineHist.
Import ListNotations.
Local Open Scope R_scope.

(** a^T K a *)
Definition quad (n : nat) (K : nat -> nat -> R) (a : nat -> R) : R := Rsum (fun i => Rsum (fun j => a i * K i j * a j) n) n.
Lemma quad_ext n K1 K2 a : (forall i j, (i < n)%nat -> (j < n)%nat -> K1 i j = K2 i j) -> quad n K1 a = quad n K2 a.
Proof. intros H. apply Rsum_ext. intros i Hi. apply Rsum_ext. intros j Hj. rewrite H by assumption. reflexivity. Qed.
Lemma quad_gram_nonneg n M a : 0 <= quad n (gram n M) a.
Proof. unfold quad. rewrite quad_gram. apply Rsum_nonneg. intros; apply pow2_ge_0. Qed.

Lemma vihola_quad n M u et al t a : 0 < Rsum (fun m => u m ^ 2) n ->
  exists D, 0 <= D <= quad n (gram n M) a /\ quad n (vihola n M u et al t) a = quad n (gram n M) a + et * (al - t) * D.
Proof.
  intros HU. set (U := Rsum (fun m => u m ^ 2) n) in *.
  exists (Rsum (fun m => u m * Rsum (fun j => M m j * a j) n) n ^ 2 / U).
  pose proof (cauchy_schwarz n u (fun m => Rsum (fun j => M m j * a j) n)) as CS. fold U in CS. cbv beta in CS. split; [split|].
  - apply Rmult_le_pos; [apply pow2_ge_0|]. left. apply Rinv_0_lt_compat, HU.
  - apply (Rmult_le_reg_l U); [exact HU|]. unfold quad. rewrite quad_gram. unfold Rdiv. rewrite <- Rmult_assoc, Rmult_comm, <- Rmult_assoc, Rinv_l, Rmult_1_l by lra. exact CS.
  - rewrite (quad_ext n _ (fun i j => gram n M i j + et * (al - t) / U * (tmul n M u i * tmul n M u j)) a) by (intros; apply vihola_rank1).
    unfold quad. rewrite (quad_split n (gram n M) (fun i j => et * (al - t) / U * (tmul n M u i * tmul n M u j)) a), quad_vv, tmul_dot. unfold Rdiv. ring.
Qed.
(** the change lies between eta (alpha - t) and nothing *)
Lemma vihola_between n M u et al t a : 0 <= et -> 0 < Rsum (fun m => u m ^ 2) n ->
  (t <= al -> quad n (gram n M) a <= quad n (vihola n M u et al t) a <= (1 + et * (al - t)) * quad n (gram n M) a) /\
  (al <= t -> (1 - et * (t - al)) * quad n (gram n M) a <= quad n (vihola n M u et al t) a <= quad n (gram n M) a).
Proof.
  intros He HU. destruct (vihola_quad n M u et al t a HU) as (D & [H1 H2] & ->). set (B := quad n (gram n M) a) in *. split; intros H.
  - assert (0 <= et * (al - t)) as K by (apply Rmult_le_pos; lra). pose proof (Rmult_le_compat_l _ _ _ K H2). pose proof (Rmult_le_pos _ _ K H1). lra.
  - assert (0 <= et * (t - al)) as K by (apply Rmult_le_pos; lra). pose proof (Rmult_le_compat_l _ _ _ K H2). pose proof (Rmult_le_pos _ _ K H1). lra.
Qed.

(** the quadratic form of a matrix of the code *)
Definition refin (x : xr) : R := match x with Fin r => r | _ => 0 end.
Definition mquad (n : nat) (M : mat AX) (a : nat -> R) : R := quad n (fun i j => refin (ent (A := AX) M i j)) a.
Lemma mquad_Fin n C a : mquad n (FinM C) a = quad n (rent C) a.
Proof. apply quad_ext. intros i j _ _. rewrite ent_Fin. reflexivity. Qed.
Lemma cov_quad n (r : ram AX) L a : good_chol n (r_chol r) L -> mquad n (GetCovariance r) a = quad n (gram n (rent L)) a.
Proof.
  intros H. rewrite (cov_of n r L H), mquad_Fin. apply quad_ext. intros i j Hi Hj. apply rent_mbuild; assumption.
Qed.

(** the bounds of a history: the product over its adaptations *)
Fixpoint shrunk (t : R) (n b k : nat) : R := match k with O => 1 | S j => shrunk t n b j * (if (j <? b)%nat then 1 - t * eta n j else 1) end.
Fixpoint grown (t : R) (n b k : nat) : R := match k with O => 1 | S j => grown t n b j * (if (j <? b)%nat then 1 + (1 - t) * eta n j else 1) end.

Section Adapt.
Variable R0 : rng AX.
Variable X : Type.
Variable P : methodsP R0 X (list (F AX)).
Variable draw : F AX -> gen R0 -> F AX * gen R0.
Local Notation param := (param AX X (list xr)).
Variable n : nat.
Variable t : R.
Hypothesis Ht : 0 < t < 1.
Hypothesis Hdraw : forall g, exists u g1, draws n (draw (Fin 0)) g = (map Fin u, g1) /\ nonzero u.

(** one step *)
Theorem ram_step_between (r : ram AX) (w : param) g r' w' g' : good_ram n t r -> length (w_value w) = n ->
  ram_step P draw r w g = Ok (r', w', g') ->
  r_niter r' = S (r_niter r) /\ r_maxiter r' = r_maxiter r /\
  exists alpha, r_alpha r' = Fin alpha /\ 0 <= alpha <= 1 /\ forall a,
    ((r_niter r < r_maxiter r)%nat ->
      (t <= alpha -> mquad n (GetCovariance r) a <= mquad n (GetCovariance r') a <= (1 + eta n (r_niter r) * (alpha - t)) * mquad n (GetCovariance r) a) /\
      (alpha <= t -> (1 - eta n (r_niter r) * (t - alpha)) * mquad n (GetCovariance r) a <= mquad n (GetCovariance r') a <= mquad n (GetCovariance r) a)) /\
    ((r_maxiter r <= r_niter r)%nat -> mquad n (GetCovariance r') a = mquad n (GetCovariance r) a).
Proof using Ht Hdraw.
  intros (Hg & Htg & L & HL) Hw E. destruct (Hdraw g) as (u & g1 & Hd & Hnz).
  destruct (ram_step_vihola R0 X P draw n t r w g u g1 r' w' g' L Ht HL Hg Htg Hw Hd Hnz E) as (_ & H1 & H2 & _ & new & lnew & x & L' & _ & _ & HL' & Hal & HV & HS).
  split; [exact H1|]. split; [exact H2|]. eexists. split; [exact Hal|]. split; [apply accept_prob_range|]. intros a. split.
  - intros Hlt. rewrite (cov_quad n r L a HL), (cov_quad n r' L' a HL'). rewrite (quad_ext n _ _ a (HV Hlt)).
    apply vihola_between; [apply eta_range|].
    assert (length u = n) as Hu.
    { assert (forall m g, length (fst (draws m (draw (Fin 0)) g)) = m) as K.
      { induction m as [|m IH]; intros g0; [reflexivity|]. cbn [draws]. destruct (draw (Fin 0) g0) as [z g2]. specialize (IH g2). destruct (draws m (draw (Fin 0)) g2) as [l g3]. cbn in *. rewrite IH. reflexivity. }
      pose proof (K n g) as K1. rewrite Hd in K1. cbn in K1. rewrite map_length in K1. exact K1. }
    destruct Hnz as (i & Hi & Hz). rewrite Hu in Hi. apply (Rsum_pos _ n i Hi); [intros; apply pow2_ge_0|]. cbv beta. nra.
  - intros Hge. unfold GetCovariance. rewrite (HS Hge). reflexivity.
Qed.
Lemma mquad_nonneg (r : ram AX) a : good_ram n t r -> 0 <= mquad n (GetCovariance r) a.
Proof. intros (_ & _ & L & HL). rewrite (cov_quad n r L a HL). apply quad_gram_nonneg. Qed.
Lemma ram_step_factor (r : ram AX) (w : param) g r' w' g' a : good_ram n t r -> length (w_value w) = n ->
  ram_step P draw r w g = Ok (r', w', g') ->
  let adapts := (r_niter r <? r_maxiter r)%nat in
  (if adapts then 1 - t * eta n (r_niter r) else 1) * mquad n (GetCovariance r) a <= mquad n (GetCovariance r') a <=
  (if adapts then 1 + (1 - t) * eta n (r_niter r) else 1) * mquad n (GetCovariance r) a.
Proof using Ht Hdraw.
  intros Hr Hw E. cbv zeta. pose proof (mquad_nonneg r a Hr) as HB. destruct (ram_step_between r w g r' w' g' Hr Hw E) as (_ & _ & al & _ & [A0 A1] & H).
  destruct (H a) as [Ha Hb]. destruct (Nat.ltb_spec (r_niter r) (r_maxiter r)) as [Hlt|Hge]; [|rewrite (Hb Hge); lra].
  destruct (Ha Hlt) as [Hu Hd]. pose proof (eta_range n (r_niter r)) as [E0 E1]. set (B := mquad n (GetCovariance r) a) in *. set (B' := mquad n (GetCovariance r') a) in *. set (et := eta n (r_niter r)) in *.
  pose proof (Rmult_le_pos _ _ E0 HB) as HeB.
  destruct (Rle_dec t al) as [Hc|Hc].
  - destruct (Hu Hc) as [K1 K2]. pose proof (Rmult_le_compat_l _ _ _ HeB (proj2 (Logic.conj A0 (Rplus_le_compat_r (- t) _ _ A1)))) as Q.
    assert (0 <= t * (et * B)) by (apply Rmult_le_pos; lra). lra.
  - destruct (Hd ltac:(lra)) as [K1 K2]. assert (0 <= (1 - t) * (et * B)) by (apply Rmult_le_pos; lra). assert (0 <= al * (et * B)) by (apply Rmult_le_pos; lra). lra.
Qed.

(** one pass over the steps *)
Definition passed (s s' : step AX) : Prop :=
  match s, s' with
  | SRam i r, SRam i' r' => i' = i /\ r_niter r' = S (r_niter r) /\ r_maxiter r' = r_maxiter r /\ forall a,
      (if (r_niter r <? r_maxiter r)%nat then 1 - t * eta n (r_niter r) else 1) * mquad n (GetCovariance r) a <= mquad n (GetCovariance r') a <=
      (if (r_niter r <? r_maxiter r)%nat then 1 + (1 - t) * eta n (r_niter r) else 1) * mquad n (GetCovariance r) a
  | SExch i _, SExch i' _ => i' = i
  | _, _ => False
  end.
Lemma do_step_passed s ws g s' ws' g' : Forall (fun w : param => length (w_value w) = n) ws ->
  (forall i r, s = SRam i r -> good_ram n t r) -> do_step P draw s ws g = Ok (s', ws', g') -> passed s s'.
Proof using Ht Hdraw.
  intros H Hr E. pose proof (proj1 (Forall_nth_error _ _) H) as Hn. destruct s as [i r|[|j] e]; cbn [do_step] in E; [|discriminate|].
  - apply bind_Ok in E. destruct E as (w & Ew & E). apply bind_Ok in E. destruct E as ([[r' w'] g1] & E1 & E). injection E as <- <- _. apply vgetU_nth in Ew.
    destruct (ram_step_between r w g r' w' g1 (Hr i r eq_refl) (Hn _ _ Ew) E1) as (K1 & K2 & _). split; [reflexivity|]. split; [exact K1|]. split; [exact K2|].
    intros a. exact (ram_step_factor r w g r' w' g1 a (Hr i r eq_refl) (Hn _ _ Ew) E1).
  - apply bind_Ok in E. destruct E as (w & Ew & E). apply bind_Ok in E. destruct E as (o & Eo & E).
    apply bind_Ok in E. destruct E as ([[[e' w'] o'] g1] & E1 & E). injection E as <- _ _. reflexivity.
Qed.
Lemma in_order_passed ss ws g ss' ws' g' : in_order P draw ss ws g ss' ws' g' -> good_state n t ws ss -> Forall2 passed ss ss'.
Proof using Ht Hdraw.
  intros H. induction H as [|s ss ws g s' ws1 g1 ss' ws2 g2 E _ IH]; intros [H1 H2]; constructor.
  - exact (do_step_passed _ _ _ _ _ _ H1 (fun i r Q => H2 i r (or_introl Q)) E).
  - destruct (do_step_good Ht Hdraw H1 (fun i r Q => H2 i r (or_introl Q)) E) as [K1 K2]. apply IH. split; [exact K1|intros i r Q; exact (H2 i r (or_intror Q))].
Qed.
(** a history of k passes *)
Definition drifted (k : nat) (s s' : step AX) : Prop :=
  match s, s' with
  | SRam i r, SRam i' r' => i' = i /\ r_maxiter r' = r_maxiter r /\ (r_niter r = 0%nat -> r_niter r' = k /\ forall a,
      shrunk t n (r_maxiter r) k * mquad n (GetCovariance r) a <= mquad n (GetCovariance r') a <= grown t n (r_maxiter r) k * mquad n (GetCovariance r) a)
  | SExch i _, SExch i' _ => i' = i
  | _, _ => False
  end.
Lemma drifted_passed k s s1 s2 : drifted k s s1 -> passed s1 s2 -> drifted (S k) s s2.
Proof using Ht.
  destruct s as [i r|], s1 as [i1 r1|], s2 as [i2 r2|]; cbn [drifted passed]; try contradiction; try congruence.
  intros (-> & Hm & H) (-> & Hn & Hm2 & Hq). split; [reflexivity|]. split; [congruence|]. intros H0. destruct (H H0) as [Hk Ha]. split; [congruence|]. intros a.
  specialize (Ha a). specialize (Hq a). rewrite Hk, Hm in Hq. cbn [shrunk grown]. pose proof (eta_range n k) as [E0 E1].
  set (B := mquad n (GetCovariance r) a) in *. set (B1 := mquad n (GetCovariance r1) a) in *. set (B2 := mquad n (GetCovariance r2) a) in *.
  assert (0 <= t * eta n k <= 1) as K1 by (split; [apply Rmult_le_pos; lra|apply (Rle_trans _ (1 * 1)); [apply Rmult_le_compat; lra|lra]]).
  assert (0 <= (1 - t) * eta n k) as K2 by (apply Rmult_le_pos; lra).
  set (lo := if (k <? r_maxiter r)%nat then 1 - t * eta n k else 1) in *. set (hi := if (k <? r_maxiter r)%nat then 1 + (1 - t) * eta n k else 1) in *.
  assert (0 <= lo) as L0 by (unfold lo; destruct (_ <? _)%nat; lra). assert (0 <= hi) as H1 by (unfold hi; destruct (_ <? _)%nat; lra).
  destruct Ha as [A1 A2]. pose proof (Rmult_le_compat_l lo _ _ L0 A1) as Q1. pose proof (Rmult_le_compat_l hi _ _ H1 A2) as Q2.
  replace (shrunk t n (r_maxiter r) k * lo * B) with (lo * (shrunk t n (r_maxiter r) k * B)) by ring.
  replace (grown t n (r_maxiter r) k * hi * B) with (hi * (grown t n (r_maxiter r) k * B)) by ring. lra.
Qed.
Theorem sweeps_drifted k (y y' : sys R0 X) : sweeps P draw k y y' -> good_state n t (y_pars y) (y_steps y) -> Forall2 (drifted k) (y_steps y) (y_steps y').
Proof using Ht Hdraw.
  intros H. induction H as [y|k y y1 y2 Hs IH H]; intros H0.
  - induction (y_steps y) as [|s ss IHs]; constructor.
    + destruct s; cbn [drifted shrunk grown]; [|reflexivity]. split; [reflexivity|]. split; [reflexivity|]. intros E. split; [exact E|]. intros a. lra.
    + apply IHs. destruct H0 as [K1 K2]. split; [exact K1|intros i r Q; exact (K2 i r (or_intror Q))].
  - pose proof (in_order_passed _ _ _ _ _ _ H (sweeps_good Ht Hdraw Hs H0)) as H2. specialize (IH H0). clear -IH H2 Ht. revert H2. generalize (y_steps y2).
    induction IH as [|x z a b Hxz _ IHab]; intros c Hbc; inversion Hbc as [|? s3 ? ? Hzs]; subst; constructor; [|apply IHab; assumption].
    exact (drifted_passed k x z s3 Hxz Hzs).
Qed.
End Adapt.

(** the product bounds *)
Lemma shrunk_pos t n b k : 0 < t < 1 -> 0 < shrunk t n b k <= 1.
Proof.
  intros Ht. induction k as [|k IH]; cbn [shrunk]; [lra|]. pose proof (eta_range n k) as [E0 E1].
  assert (0 <= t * eta n k < 1) as K by (split; [apply Rmult_le_pos; lra|apply (Rle_lt_trans _ (t * 1)); [apply Rmult_le_compat_l; lra|lra]]).
  assert (0 < (if (k <? b)%nat then 1 - t * eta n k else 1) <= 1) as [L0 L1] by (destruct (_ <? _)%nat; lra).
  set (lo := if (k <? b)%nat then 1 - t * eta n k else 1) in *. split; [apply Rmult_lt_0_compat; lra|].
  apply (Rle_trans _ (1 * 1)); [apply Rmult_le_compat; lra|lra].
Qed.
Lemma eta_dim n k : (0 < k)%nat -> eta n k <= INR n / Rpower (INR k) (2 / 3).
Proof. intros H. unfold eta. destruct (Nat.eqb_spec k 0); [lia|]. apply Rmin_r. Qed.
Lemma cube_root_step x y : 0 < x -> 0 <= y <= x -> x * x * x - y * y * y = 1 -> / (x * x) <= 3 * (x - y).
Proof.
  intros Hx [Hy Hyx] E. apply (Rmult_le_reg_l (x * x)); [apply Rmult_lt_0_compat; exact Hx|]. rewrite Rinv_r by (apply Rgt_not_eq, Rmult_lt_0_compat; exact Hx).
  assert ((x - y) * (x * x + x * y + y * y) = 1) as Q by (rewrite <- E; ring).
  assert (x * y <= x * x) by (apply Rmult_le_compat_l; lra). assert (y * y <= x * x) by (apply Rmult_le_compat; lra).
  assert ((x - y) * (x * x + x * y + y * y) <= (x - y) * (3 * (x * x))) by (apply Rmult_le_compat_l; lra). lra.
Qed.
Lemma rpower_third x : 0 < x -> Rpower x (2 / 3) = Rpower x (1 / 3) * Rpower x (1 / 3) /\ Rpower x (1 / 3) * Rpower x (1 / 3) * Rpower x (1 / 3) = x.
Proof.
  intros Hx. rewrite <- !Rpower_plus. split; [f_equal; lra|]. replace (1 / 3 + 1 / 3 + 1 / 3) with 1 by lra. apply Rpower_1, Hx.
Qed.
(** the adaptation weights of the first k iterations add up to no more than 1 + 3 n k^(1/3) *)
Lemma eta_sum n k : Rsum (eta n) (S (S k)) <= 1 + 3 * INR n * Rpower (INR (S k)) (1 / 3).
Proof.
  induction k as [|k IH].
  - cbn [Rsum]. pose proof (eta_range n 0) as [_ H0]. assert (eta n 1 <= INR n) as H1.
    { pose proof (eta_dim n 1 ltac:(lia)) as K. cbn [INR] in K. unfold Rpower in K. rewrite ln_1, Rmult_0_r, exp_0 in K. lra. }
    cbn [INR]. assert (Rpower 1 (1 / 3) = 1) as -> by (unfold Rpower; rewrite ln_1, Rmult_0_r, exp_0; reflexivity). pose proof (pos_INR n). lra.
  - change (Rsum (eta n) (S (S (S k)))) with (Rsum (eta n) (S (S k)) + eta n (S (S k))).
    pose proof (eta_dim n (S (S k)) ltac:(lia)) as K. assert (0 < INR (S k)) as P1 by (apply lt_0_INR; lia). assert (0 < INR (S (S k))) as P2 by (apply lt_0_INR; lia).
    destruct (rpower_third _ P1) as [_ C1]. destruct (rpower_third _ P2) as [Q2 C2]. rewrite Q2 in K.
    assert (0 < Rpower (INR (S k)) (1 / 3)) as X1 by (unfold Rpower; apply exp_pos). assert (0 < Rpower (INR (S (S k))) (1 / 3)) as X2 by (unfold Rpower; apply exp_pos).
    assert (Rpower (INR (S k)) (1 / 3) <= Rpower (INR (S (S k))) (1 / 3)) as X3 by (apply Rle_Rpower_l; [lra|split; [exact P1|apply le_INR; lia]]).
    set (x := Rpower (INR (S (S k))) (1 / 3)) in *. set (y := Rpower (INR (S k)) (1 / 3)) in *.
    assert (x * x * x - y * y * y = 1) as E by (rewrite C1, C2; rewrite (S_INR (S k)); ring).
    pose proof (cube_root_step x y X2 (Logic.conj (Rlt_le _ _ X1) X3) E) as H. pose proof (pos_INR n) as Hn.
    pose proof (Rmult_le_compat_l _ _ _ Hn H). unfold Rdiv in K. lra.
Qed.
Lemma eta_sum_all n k : Rsum (eta n) k <= 1 + 3 * INR n * Rpower (INR k) (1 / 3).
Proof.
  assert (forall m, 0 <= 3 * INR n * Rpower (INR m) (1 / 3)) as Hp.
  { intros m. apply Rmult_le_pos; [pose proof (pos_INR n); lra|]. left. unfold Rpower. apply exp_pos. }
  destruct k as [|[|k]]; [specialize (Hp 0%nat); cbn [Rsum]; lra|specialize (Hp 1%nat); cbn [Rsum]; pose proof (eta_range n 0); lra|].
  apply (Rle_trans _ _ _ (eta_sum n k)). apply Rplus_le_compat_l. apply Rmult_le_compat_l; [pose proof (pos_INR n); lra|].
  apply Rle_Rpower_l; [lra|]. split; [apply lt_0_INR; lia|apply le_INR; lia].
Qed.
Lemma exp_ge_1x x : 1 + x <= exp x.
Proof. destruct (Req_dec x 0) as [->|H]; [rewrite exp_0; lra|]. left. apply exp_ineq1, H. Qed.
Lemma quarter_exp x : 0 <= x <= 1 / 4 -> exp (- (4 / 3 * x)) <= 1 - x.
Proof.
  intros [H0 H1]. rewrite exp_Ropp. pose proof (exp_ge_1x (4 / 3 * x)) as H. apply (Rle_trans _ (/ (1 + 4 / 3 * x))); [apply Rinv_le_contravar; lra|].
  apply (Rmult_le_reg_l (1 + 4 / 3 * x)); [lra|]. rewrite Rinv_r by lra. assert (0 <= x * (1 / 4 - x)) by (apply Rmult_le_pos; lra). lra.
Qed.
