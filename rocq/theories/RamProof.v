(** The adaptation of AdaptiveMetro: Vihola's update, valid covariances, and when it stops. *)
From Coq Require Import Reals List Arith ZArith Bool Lra Lia.
From Verif Require Import Arith Res ListLemmas Spec Gauss Emb Cx KFpProof EngineModel EngineSpec EngineProof EngineInv CholProof.
Import ListNotations.
Local Open Scope R_scope.

(** ** Linear algebra *)
Lemma Rsum_nonneg f n : (forall k, (k < n)%nat -> 0 <= f k) -> 0 <= Rsum f n.
Proof. intros H. rewrite <- (Rsum_0 (fun _ => 0) n) by reflexivity. apply Rsum_le. exact H. Qed.
Lemma Rsum_pos f n k : (k < n)%nat -> (forall k, (k < n)%nat -> 0 <= f k) -> 0 < f k -> 0 < Rsum f n.
Proof.
  intros Hk H Hp. rewrite (Rsum_change f (fun m => if (m =? k)%nat then 0 else f m) n k Hk) by (intros m Hm _; apply Nat.eqb_neq in Hm; rewrite Hm; reflexivity).
  rewrite Nat.eqb_refl. assert (0 <= Rsum (fun m => if (m =? k)%nat then 0 else f m) n); [|lra].
  apply Rsum_nonneg. intros m Hm. destruct (m =? k)%nat; [lra|apply H, Hm].
Qed.
Lemma cauchy_schwarz n (u b : nat -> R) : Rsum (fun m => u m * b m) n ^ 2 <= Rsum (fun m => u m ^ 2) n * Rsum (fun m => b m ^ 2) n.
Proof.
  set (U := Rsum (fun m => u m ^ 2) n). set (B := Rsum (fun m => b m ^ 2) n). set (D := Rsum (fun m => u m * b m) n).
  assert (0 <= U) as HU by (apply Rsum_nonneg; intros; apply pow2_ge_0).
  destruct (Rle_lt_or_eq_dec _ _ HU) as [H|H].
  - assert (0 <= Rsum (fun m => (U * b m - D * u m) ^ 2) n) as K by (apply Rsum_nonneg; intros; apply pow2_ge_0).
    assert (Rsum (fun m => (U * b m - D * u m) ^ 2) n = U * (U * B - D ^ 2)) as E.
    { transitivity (Rsum (fun m => U ^ 2 * b m ^ 2 + (- (2 * U * D) * (u m * b m) + D ^ 2 * u m ^ 2)) n); [apply Rsum_ext; intros; ring|].
      rewrite !Rsum_plus, !Rsum_scal. fold U B D. ring. }
    rewrite E in K. assert (0 <= U * B - D ^ 2); [|lra]. apply (Rmult_le_reg_l U); [exact H|]. lra.
  - assert (forall m, (m < n)%nat -> u m = 0) as Hz.
    { intros m Hm. destruct (Req_dec (u m) 0) as [E|E]; [exact E|]. exfalso.
      assert (0 < U); [|lra]. apply (Rsum_pos _ n m Hm); [intros; apply pow2_ge_0|]. nra. }
    assert (D = 0) as ->. { apply Rsum_0. intros m Hm. rewrite (Hz m Hm). ring. }
    rewrite <- H. lra.
Qed.
(** a triangular matrix with positive diagonal is injective *)
Lemma tri_nonzero n M a : upper n M -> posdiag n M -> (exists k, (k < n)%nat /\ a k <> 0) ->
  exists m, (m < n)%nat /\ Rsum (fun j => M m j * a j) n <> 0.
Proof.
  intros Hu Hd (k & Hk & Ha).
  assert (exists m, (m < n)%nat /\ a m <> 0 /\ forall j, (m < j)%nat -> (j < n)%nat -> a j = 0) as (m & Hm & Hma & Hz).
  { assert (forall d, (exists m, (m < n)%nat /\ a m <> 0 /\ forall j, (m < j)%nat -> (j < n)%nat -> a j = 0) \/
              forall j, (n - d <= j)%nat -> (j < n)%nat -> a j = 0) as K.
    { induction d as [|d [IH|IH]]; [right; intros; lia|left; exact IH|].
      destruct (le_lt_dec n d) as [H|H]; [right; intros j H1 H2; apply IH; lia|].
      destruct (Req_dec (a (n - S d)%nat) 0) as [E|E].
      - right. intros j H1 H2. destruct (Nat.eq_dec j (n - S d)) as [->|]; [exact E|apply IH; lia].
      - left. exists (n - S d)%nat. split; [lia|]. split; [exact E|]. intros j H1 H2. apply IH; lia. }
    destruct (K n) as [H|H]; [exact H|]. exfalso. apply Ha, H; [lia|exact Hk]. }
  exists m. split; [exact Hm|]. rewrite (Rsum_change _ (fun _ => 0) n m Hm).
  - rewrite (Rsum_0 (fun _ => 0)) by reflexivity. pose proof (Hd m Hm). intros E. apply Hma. apply (Rmult_eq_reg_l (M m m)); lra.
  - intros j Hj Hjn. destruct (le_lt_dec j m) as [H|H]; [rewrite (Hu m j) by lia; ring|rewrite (Hz j H Hjn); ring].
Qed.
Lemma gram_pos n M a : upper n M -> posdiag n M -> (exists k, (k < n)%nat /\ a k <> 0) ->
  0 < Rsum (fun m => Rsum (fun j => M m j * a j) n ^ 2) n.
Proof.
  intros Hu Hd Ha. destruct (tri_nonzero n M a Hu Hd Ha) as (m & Hm & H).
  apply (Rsum_pos _ n m Hm); [intros; apply pow2_ge_0|]. nra.
Qed.
Lemma gram_pd n M : upper n M -> posdiag n M -> pd n (gram n M).
Proof. intros Hu Hd a Ha. rewrite quad_gram. apply gram_pos; assumption. Qed.

(** S^T u *)
Definition tmul (n : nat) (M : nat -> nat -> R) (u : nat -> R) (j : nat) : R := Rsum (fun i => M i j * u i) n.
Lemma tmul_dot n M u a : Rsum (fun j => tmul n M u j * a j) n = Rsum (fun m => u m * Rsum (fun j => M m j * a j) n) n.
Proof.
  transitivity (Rsum (fun j => Rsum (fun i => M i j * u i * a j) n) n).
  - apply Rsum_ext. intros j _. unfold tmul. rewrite Rmult_comm, <- Rsum_scal. apply Rsum_ext. intros; ring.
  - rewrite Rsum_swap. apply Rsum_ext. intros i _. rewrite <- Rsum_scal. apply Rsum_ext. intros; ring.
Qed.
(** shrinking in the direction of the proposal by less than everything stays positive definite *)
Lemma shrink_pd n M u k : upper n M -> posdiag n M -> 0 < Rsum (fun m => u m ^ 2) n ->
  0 <= k -> k * Rsum (fun m => u m ^ 2) n < 1 -> pd n (fun i j => gram n M i j + - k * (tmul n M u i * tmul n M u j)).
Proof.
  intros Hu Hd Hn Hk Hk1 a Ha.
  rewrite (quad_split n (gram n M) (fun i j => - k * (tmul n M u i * tmul n M u j)) a), quad_gram, quad_vv, tmul_dot.
  pose proof (gram_pos n M a Hu Hd Ha) as HB. set (b := fun m => Rsum (fun j => M m j * a j) n) in *.
  pose proof (cauchy_schwarz n u b) as CS. set (U := Rsum (fun m => u m ^ 2) n) in *.
  change (Rsum (fun m => Rsum (fun j => M m j * a j) n ^ 2) n) with (Rsum (fun m => b m ^ 2) n) in *.
  set (B := Rsum (fun m => b m ^ 2) n) in *. set (D := Rsum (fun m => u m * b m) n) in *.
  change (Rsum (fun m => u m * Rsum (fun j => M m j * a j) n) n) with D.
  assert (k * D ^ 2 <= k * (U * B)) by (apply Rmult_le_compat_l; assumption).
  assert (k * U * B < 1 * B) by (apply Rmult_lt_compat_r; assumption). lra.
Qed.

(** ** The specification: Vihola (2012), S^T (I + eta (alpha - target) u u^T / |u|^2) S *)
Definition vihola (n : nat) (S : nat -> nat -> R) (u : nat -> R) (eta alpha target : R) (i j : nat) : R :=
  Rsum (fun a => Rsum (fun b =>
    S a i * ((if (a =? b)%nat then 1 else 0) + eta * (alpha - target) * (u a * u b) / Rsum (fun m => u m ^ 2) n) * S b j) n) n.
Lemma Rsum_delta f n a : (a < n)%nat -> Rsum (fun b => (if (a =? b)%nat then 1 else 0) * f b) n = f a.
Proof.
  intros Ha. rewrite (Rsum_change _ (fun _ => 0) n a Ha).
  - rewrite (Rsum_0 (fun _ => 0)) by reflexivity. rewrite Nat.eqb_refl. ring.
  - intros m Hm _. assert (a =? m = false)%nat as -> by (apply Nat.eqb_neq; lia). ring.
Qed.
Lemma vihola_rank1 n S u eta alpha target i j : 
  vihola n S u eta alpha target i j =
  gram n S i j + eta * (alpha - target) / Rsum (fun m => u m ^ 2) n * (tmul n S u i * tmul n S u j).
Proof.
  unfold vihola, gram. set (U := Rsum (fun m => u m ^ 2) n). set (k := eta * (alpha - target) / U).
  transitivity (Rsum (fun a => Rsum (fun b => (if (a =? b)%nat then 1 else 0) * (S a i * S b j)) n + k * (S a i * u a * tmul n S u j)) n).
  - apply Rsum_ext. intros a _. unfold tmul. rewrite <- Rmult_assoc, <- Rsum_scal, <- Rsum_plus. apply Rsum_ext. intros b _. unfold k, Rdiv. ring.
  - rewrite Rsum_plus. f_equal.
    + apply Rsum_ext. intros a Ha. rewrite (Rsum_delta (fun b => S a i * S b j)) by exact Ha. reflexivity.
    + rewrite Rsum_scal. f_equal. unfold tmul at 2. rewrite Rmult_comm, <- Rsum_scal. apply Rsum_ext. intros; ring.
Qed.

(** ** The vectors of the step *)
Lemma fsum_Fin f n : fsum AX (fun i => Fin (f i) : F AX) n = Fin (Rsum f n).
Proof. induction n as [|n IH]; [reflexivity|]. cbn [fsum Rsum]. rewrite IH. reflexivity. Qed.
Lemma fsum_ext A f g n : (forall i, (i < n)%nat -> f i = g i) -> fsum A f n = fsum A g n.
Proof. induction n as [|n IH]; intros H; [reflexivity|]. cbn [fsum]. rewrite IH by (intros; apply H; lia). rewrite H by lia. reflexivity. Qed.
Lemma mtmul_Fin n L u : square n L -> length u = n ->
  mtmul (A := AX) (FinM L) (map Fin u) = Ok (map Fin (vbuild n (tmul n (rent L) (rv u)))).
Proof.
  intros [H1 H2] Hu. unfold mtmul. change (list (F AX)) with (list xr). change (F AX) with xr.
  assert (length (FinM L) = n) as -> by (unfold FinM; rewrite map_length; exact H1). rewrite map_length, Hu, Nat.eqb_refl.
  assert (length (nth 0 (FinM L) []) = n) as ->.
  { rewrite FinM_nth, map_length. destruct n as [|n]; [destruct L; [reflexivity|discriminate]|]. apply H2. lia. }
  f_equal. rewrite (map_vbuild _ _ Fin n (tmul n (rent L) (rv u))). apply vbuild_ext. intros j Hj. unfold tmul. rewrite <- fsum_Fin. apply (fsum_ext AX).
  intros i Hi. rewrite ent_Fin. change (fofZ AX 0) with (Fin 0). etransitivity; [exact (f_equal (fun x => xmul (Fin (rent L i j)) x) (nth_map_Fin i u))|]. reflexivity.
Qed.
Lemma vadd_ok A (x y : list (F A)) : length x = length y -> exists z, vadd A x y = Ok z /\ length z = length x.
Proof.
  intros H. unfold vadd. rewrite H, Nat.eqb_refl. eexists. split; [reflexivity|]. rewrite map_length, combine_length. lia.
Qed.
Lemma vadd_len A (x y z : list (F A)) : vadd A x y = Ok z -> length z = length x.
Proof.
  unfold vadd. destruct (Nat.eqb_spec (length x) (length y)) as [H|]; [|discriminate]. intros E. injection E as <-.
  rewrite map_length, combine_length. lia.
Qed.
Lemma norm2_Fin (u : list R) : norm2 AX (map Fin u) = Fin (sqrt (Rsum (fun m => rv u m ^ 2) (length u))).
Proof.
  unfold norm2. assert (forall l acc, 0 <= acc -> fold_left (fadd AX) (map (fun x => fmul AX x x) (map Fin l)) (Fin acc : F AX) = Fin (acc + Rsum (fun m => rv l m ^ 2) (length l)) /\ 0 <= acc + Rsum (fun m => rv l m ^ 2) (length l)) as K.
  { induction l as [|a l IH]; intros acc Hacc; cbn [map fold_left length Rsum].
    - split; [f_equal; lra|lra].
    - change (fadd AX (Fin acc) (fmul AX (Fin a) (Fin a))) with (Fin (acc + a * a)). destruct (IH (acc + a * a) ltac:(nra)) as [E H]. rewrite E.
      change (Rsum (fun m => rv (a :: l) m ^ 2) (length l) + rv (a :: l) (length l) ^ 2) with (Rsum (fun m => rv (a :: l) m ^ 2) (S (length l))).
      rewrite Rsum_shift. unfold rv at 2 4. cbn [nth].
      change (fun k => rv (a :: l) (S k) ^ 2) with (fun m => rv l m ^ 2).
      split; [f_equal; ring|]. nra. }
  destruct (K u 0 (Rle_refl 0)) as [E H]. change (fofZ AX 0) with (Fin 0). rewrite E. cbn [fsqrt AX]. rewrite fin_sqrt by exact H. do 2 f_equal. ring.
Qed.

(** eta_n: the code's step size *)
Definition eta (n niter : nat) : R := if (niter =? 0)%nat then 1 else Rmin 1 (INR n / Rpower (INR niter) (2 / 3)).
Lemma eta_range n k : 0 <= eta n k <= 1.
Proof.
  unfold eta. destruct (Nat.eqb_spec k 0) as [->|Hk]; [lra|]. split; [|apply Rmin_l].
  apply Rmin_glb; [lra|]. apply Rmult_le_pos; [apply pos_INR|]. left. apply Rinv_0_lt_compat. unfold Rpower. apply exp_pos.
Qed.
Lemma eta_code n k : fmin AX (fofZ AX 1) (fdiv AX (fofZ AX (Z.of_nat n)) (fpow AX (fofZ AX (Z.of_nat k)) (Fin (2 / 3)))) = Fin (eta n k).
Proof.
  unfold eta. cbn [fofZ AX fpow]. rewrite <- !INR_IZR_INZ. destruct (Nat.eqb_spec k 0) as [->|Hk].
  - cbn [INR]. unfold xpow. unfold rsgn at 1. destruct (Rlt_dec 0 0) as [H|_]; [lra|]. unfold rsgn. destruct (Rlt_dec (2/3) 0); [lra|].
    destruct (Rlt_dec 0 (2/3)) as [_|]; [|lra]. cbn [fdiv AX xdiv]. destruct (Req_EM_T 0 0) as [_|]; [|contradiction].
    unfold xinf_times, rsgn. pose proof (pos_INR n). destruct (Rlt_dec (INR n) 0); [lra|]. destruct (Rlt_dec 0 (INR n)); reflexivity.
  - assert (0 < INR k) as Hp by (apply lt_0_INR; lia). unfold xpow, rsgn. destruct (Rlt_dec (INR k) 0); [lra|]. destruct (Rlt_dec 0 (INR k)); [|contradiction].
    cbn [fdiv AX]. rewrite fin_div by (unfold Rpower; apply Rgt_not_eq, exp_pos). unfold fmin, flt, AX, xlt.
    destruct (Rlt_dec (INR n / Rpower (INR k) (2 / 3)) 1) as [H|H]; [rewrite Rmin_right by lra; reflexivity|rewrite Rmin_left by lra; reflexivity].
Qed.

(** a proposal scale matrix *)
Definition good_chol (n : nat) (M : mat AX) (L : list (list R)) : Prop :=
  M = FinM L /\ square n L /\ upper n (rent L) /\ posdiag n (rent L).
Definition nonzero (u : list R) : Prop := exists i, (i < length u)%nat /\ rv u i <> 0.
Definition good_ram (n : nat) (t : R) (r : ram AX) : Prop :=
  r_gamma r = Fin (2 / 3) /\ r_target r = Fin t /\ exists L, good_chol n (r_chol r) L.

Lemma cov_of n (r : ram AX) L : good_chol n (r_chol r) L -> GetCovariance r = FinM (mbuild n n (gram n (rent L))).
Proof.
  intros (E & [H1 H2] & _). unfold GetCovariance. rewrite E. change (list (F AX)) with (list xr). change (F AX) with xr.
  assert (length (FinM L) = n) as -> by (unfold FinM; rewrite map_length; exact H1).
  unfold mbuild, FinM. rewrite map_vbuild. apply vbuild_ext. intros i Hi. rewrite map_vbuild. apply vbuild_ext. intros j Hj.
  unfold gram. rewrite <- fsum_Fin. apply (fsum_ext AX). intros k Hk. rewrite !ent_Fin. reflexivity.
Qed.

Lemma ram_adapt_spec n t (r : ram AX) alpha (u : list R) L : 0 < t < 1 -> 0 <= alpha <= 1 -> r_gamma r = Fin (2 / 3) -> r_target r = Fin t ->
  good_chol n (r_chol r) L -> length u = n -> nonzero u -> r_alpha r = Fin alpha ->
  exists r', ram_adapt r (map Fin u) (map Fin (vbuild n (tmul n (rent L) (rv u)))) = Ok r' /\
    r_gamma r' = Fin (2 / 3) /\ r_target r' = Fin t /\ r_alpha r' = Fin alpha /\ r_niter r' = r_niter r /\ r_maxiter r' = r_maxiter r /\
    r_naccept r' = r_naccept r /\
    ((r_maxiter r <= r_niter r)%nat -> r_chol r' = r_chol r) /\
    exists L', good_chol n (r_chol r') L' /\
      ((r_niter r < r_maxiter r)%nat -> forall i j, (i < n)%nat -> (j < n)%nat ->
        gram n (rent L') i j = vihola n (rent L) (rv u) (eta n (r_niter r)) alpha t i j).
Proof.
  intros Ht Ha Hg Htg HL Hu Hnz Hal. pose proof HL as (EL & HS & Hup & Hd). unfold ram_adapt. rewrite Hal. cbn [ffin AX xfin]. rewrite andb_true_r.
  destruct (Nat.ltb_spec (r_niter r) (r_maxiter r)) as [Hlt|Hge].
  2:{ exists r. split; [reflexivity|]. repeat (split; [assumption || reflexivity|]). exists L. split; [exact HL|]. intros; lia. }
  set (y := vbuild n (tmul n (rent L) (rv u))). change (list (F AX)) with (list xr). change (F AX) with xr.
  rewrite Hg, Htg. assert (length (map Fin y) = n) as -> by (rewrite map_length; apply vbuild_len).
  rewrite eta_code. rewrite norm2_Fin, Hu. set (U := Rsum (fun m => rv u m ^ 2) n).
  assert (0 < U) as HU.
  { destruct Hnz as (i & Hi & Hz). rewrite Hu in Hi. apply (Rsum_pos _ n i Hi); [intros; apply pow2_ge_0|]. cbv beta. nra. }
  pose proof (eta_range n (r_niter r)) as He. set (et := eta n (r_niter r)) in *.
  pose proof (sqrt_lt_R0 U HU) as HsU.
  set (kk := sqrt (et * Rabs (alpha - t)) / sqrt U).
  assert (0 <= et * Rabs (alpha - t)) as Hnn by (apply Rmult_le_pos; [lra|apply Rabs_pos]).
  assert (fdiv AX (fsqrt AX (fmul AX (Fin et) (fabs AX (fsub AX (Fin alpha) (Fin t))))) (Fin (sqrt U)) = Fin kk) as ->.
  { cbn [fabs fsub fmul fsqrt fdiv AX xsub xabs xmul]. rewrite fin_sqrt by exact Hnn. rewrite fin_div by lra. reflexivity. }
  set (v := vbuild n (fun j => kk * tmul n (rent L) (rv u) j)).
  assert (vscale AX (Fin kk) (map Fin y) = map Fin v) as ->.
  { unfold vscale, y, v. rewrite !map_vbuild. reflexivity. }
  assert (flt AX (Fin alpha) (Fin t) = if Rlt_dec alpha t then true else false) as -> by reflexivity.
  assert (kk * kk = et * Rabs (alpha - t) / U) as Hkk.
  { unfold kk. replace (sqrt (et * Rabs (alpha - t)) / sqrt U * (sqrt (et * Rabs (alpha - t)) / sqrt U)) with
      ((sqrt (et * Rabs (alpha - t)) * sqrt (et * Rabs (alpha - t))) / (sqrt U * sqrt U)) by (field; lra).
    rewrite !sqrt_sqrt by lra. reflexivity. }
  assert (forall i, (i < n)%nat -> rv v i = kk * tmul n (rent L) (rv u) i) as Hv by (intros i Hi; unfold rv at 1, v; rewrite vbuild_nth by exact Hi; reflexivity).
  set (dd := if Rlt_dec alpha t then true else false).
  destruct (chol_exact n L v dd HS (vbuild_len _ _) Hup Hd) as (L' & v' & EC & HS' & Hup' & Hd' & HG).
  { intros Edd. unfold dd in Edd. destruct (Rlt_dec alpha t) as [Hlt2|]; [|discriminate].
    apply (pd_ext n (fun i j => gram n (rent L) i j + - (kk * kk) * (tmul n (rent L) (rv u) i * tmul n (rent L) (rv u) j))).
    - intros i j Hi Hj. rewrite !Hv by assumption. ring.
    - apply shrink_pd; try assumption; [nra|]. fold U. rewrite Hkk, Rabs_left by lra.
      replace (et * - (alpha - t) / U * U) with (et * (t - alpha)) by (field; lra). nra. }
  rewrite EL. rewrite EC. cbn [bind]. eexists. split; [reflexivity|]. cbn [r_gamma r_target r_alpha r_niter r_maxiter r_naccept r_chol].
  repeat (split; [assumption || reflexivity|]). split; [intros; lia|]. exists L'. split; [split; [reflexivity|split; [exact HS'|split; assumption]]|].
  intros _ i j Hi Hj. rewrite HG by assumption. rewrite vihola_rank1. fold U. f_equal. rewrite !Hv by assumption.
  transitivity ((if dd then -1 else 1) * (kk * kk) * (tmul n (rent L) (rv u) i * tmul n (rent L) (rv u) j)); [ring|]. f_equal.
  rewrite Hkk. unfold dd. destruct (Rlt_dec alpha t); [rewrite Rabs_left by lra|rewrite Rabs_right by lra]; field; lra.
Qed.

(** ** One step *)
Section One.
Variable R0 : rng AX.
Variable X : Type.
Variable P : methodsP R0 X (list (F AX)).
Variable draw : F AX -> gen R0 -> F AX * gen R0.
Local Notation param := (param AX X (list (F AX))).

(** the acceptance probability of a proposal with log-density [lnew] *)
Definition accept_prob (lnew lold T : xr) : R :=
  match xdiv (xsub lnew lold) T with Fin d => Rmin (exp d) 1 | _ => 0 end.
Lemma accept_prob_range a b c : 0 <= accept_prob a b c <= 1.
Proof.
  unfold accept_prob. destruct (xdiv (xsub a b) c) as [d| | |]; try lra. split; [|apply Rmin_r]. apply Rmin_glb; [left; apply exp_pos|lra].
Qed.
Lemma ram_accept_alpha r (w : param) new g a r1 w1 g2 : ram_accept P r w new g = Ok (a, r1, w1, g2) ->
  exists lnew x, o_LogDensity P (w_obj w) new = Ok (lnew, x) /\ r_alpha r1 = Fin (accept_prob lnew (w_logpost w) (w_temp w)) /\
    r_chol r1 = r_chol r /\ r_gamma r1 = r_gamma r /\ r_target r1 = r_target r /\ r_niter r1 = r_niter r /\ r_maxiter r1 = r_maxiter r /\
    w_value w1 = w_value w.
Proof.
  unfold ram_accept, LD. intros E. apply bind_Ok in E. destruct E as ([l w2] & E1 & E). apply bind_Ok in E1. destruct E1 as ([l0 x] & E1 & Q).
  injection Q as <- <-. exists l0, x. split; [exact E1|]. cbn [w_logpost w_temp set_obj] in E. unfold accept_prob.
  change (fdiv AX (fsub AX l0 (w_logpost w)) (w_temp w)) with (xdiv (xsub l0 (w_logpost w)) (w_temp w)) in E.
  destruct (xdiv (xsub l0 (w_logpost w)) (w_temp w)) as [d| | |] eqn:Ed; cbn [ffin AX xfin negb] in E;
    try (injection E as <- <- <- <-; repeat split; reflexivity).
  destruct (runiform _ _ g) as [uu g1].
  assert (fmin AX (fexp AX (Fin d)) (fofZ AX 1) = Fin (Rmin (exp d) 1)) as Em.
  { unfold fmin. cbn [flt fexp fofZ AX xexp xlt]. destruct (Rlt_dec 1 (exp d)); [rewrite Rmin_right by lra|rewrite Rmin_left by lra]; reflexivity. }
  rewrite Em in E. destruct (flt AX uu _); injection E as <- <- <- <-; repeat split; reflexivity.
Qed.
Theorem ram_step_vihola n t (r : ram AX) (w : param) g (u : list R) g1 r' w' g' L : 0 < t < 1 -> good_chol n (r_chol r) L -> r_gamma r = Fin (2 / 3) -> r_target r = Fin t ->
  length (w_value w) = n -> draws n (draw (Fin 0)) g = (map Fin u, g1) -> nonzero u ->
  ram_step P draw r w g = Ok (r', w', g') ->
  good_ram n t r' /\ r_niter r' = S (r_niter r) /\ r_maxiter r' = r_maxiter r /\ length (w_value w') = n /\
  exists new lnew x L', vadd AX (w_value w) (map Fin (vbuild n (tmul n (rent L) (rv u)))) = Ok new /\
    o_LogDensity P (w_obj w) new = Ok (lnew, x) /\ good_chol n (r_chol r') L' /\
    r_alpha r' = Fin (accept_prob lnew (w_logpost w) (w_temp w)) /\
    ((r_niter r < r_maxiter r)%nat -> forall i j, (i < n)%nat -> (j < n)%nat ->
      gram n (rent L') i j = vihola n (rent L) (rv u) (eta n (r_niter r)) (accept_prob lnew (w_logpost w) (w_temp w)) t i j) /\
    ((r_maxiter r <= r_niter r)%nat -> r_chol r' = r_chol r).
Proof.
  intros Ht HL Hg Htg Hw Hdr Hnz E. pose proof HL as (EL & HS & _ & _). unfold ram_step in E. rewrite Hw in E. change (fofZ AX 0) with (Fin 0) in E.
  rewrite Hdr in E. assert (length u = n) as Hu.
  { assert (forall m g, length (fst (draws m (draw (Fin 0)) g)) = m) as K.
    { induction m as [|m IH]; intros g0; [reflexivity|]. cbn [draws]. destruct (draw (Fin 0) g0) as [z g2]. specialize (IH g2). destruct (draws m (draw (Fin 0)) g2) as [l g3]. cbn in *. rewrite IH. reflexivity. }
    pose proof (K n g) as K1. rewrite Hdr in K1. cbn in K1. rewrite map_length in K1. exact K1. }
  apply bind_Ok in E. destruct E as (sc & Esc & E). pose proof (mtmul_Fin n L u HS Hu) as Em.
  assert (sc = map Fin (vbuild n (tmul n (rent L) (rv u)))) as ->.
  { pose proof (eq_trans (eq_sym Esc) (eq_trans (f_equal (fun M => mtmul (A := AX) M (map Fin u)) EL) Em)) as K. injection K as K. exact K. }
  apply bind_Ok in E. destruct E as (new & Enew & E). apply bind_Ok in E. destruct E as ([[[a r1] w1] g2] & Ea & E).
  apply bind_Ok in E. destruct E as (w2 & Ew2 & E). apply bind_Ok in E. destruct E as (r2 & Er2 & E). injection E as <- <- <-.
  destruct (ram_accept_alpha _ _ _ _ _ _ _ _ Ea) as (lnew & x & ELD & Hal & Hch & Hg1 & Ht1 & Hn1 & Hm1 & Hv1).
  destruct (ram_adapt_spec n t r1 (accept_prob lnew (w_logpost w) (w_temp w)) u L Ht (accept_prob_range _ _ _)) as (r3 & Er3 & G1 & G2 & G3 & G4 & G5 & G6 & G7 & L' & GL' & HV);
    try assumption; try congruence.
  assert (r3 = r2) as -> by congruence.
  cbn [r_chol r_gamma r_target r_niter r_maxiter r_naccept r_alpha].
  split; [split; [exact G1|split; [exact G2|exists L'; exact GL']]|]. split; [congruence|]. split; [congruence|]. split.
  { destruct a; [|injection Ew2 as <-; rewrite Hv1; exact Hw]. unfold Save in Ew2. apply bind_Ok in Ew2. destruct Ew2 as ([? ?] & _ & Q). injection Q as <-. cbn.
    exact (eq_trans (vadd_len _ _ _ _ Enew) Hw). }
  exists new, lnew, x, L'. split; [exact Enew|]. split; [exact ELD|]. split; [exact GL'|]. split; [exact G3|]. rewrite Hn1, Hm1 in *. split; [exact HV|].
  intros H. cbn [r_chol]. rewrite (G7 H). exact Hch.
Qed.
End One.
