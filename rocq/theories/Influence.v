(** How one measurement changes a conditional distribution. *)
From Coq Require Import Reals List Arith Lra Lia.
From Verif Require Import Arith Res ListLemmas KFModel Spec Gauss Emb PySim RamProof Det DetUniq Insert.
Import ListNotations.
Local Open Scope R_scope.
Local Notation length := List.length.

Lemma Rsum_split f N k : (k <= N)%nat -> Rsum f (S N) = Rsum (fun i => f (skip k i)) N + f k.
Proof.
  intros Hk. rewrite <- (Rsum_reorder f (S N) _ _ (last_reorders N k Hk)). cbn [Rsum]. unfold to_last at 2. rewrite Nat.eqb_refl. f_equal.
  apply Rsum_ext. intros i Hi. unfold to_last. destruct (Nat.eqb_spec i N); [lia|reflexivity].
Qed.
Lemma skip_cases N k j : (j < S N)%nat -> j = k \/ exists i, (i < N)%nat /\ j = skip k i \/ (N < k)%nat.
Proof.
  intros Hj. destruct (Nat.eq_dec j k) as [E|E]; [left; exact E|]. right. destruct (le_lt_dec k N) as [Hk|Hk]; [|exists O; right; exact Hk].
  exists (if (j <? k)%nat then j else (j - 1)%nat). left. unfold skip. destruct (Nat.ltb_spec j k) as [H|H].
  - split; [lia|]. destruct (Nat.ltb_spec j k); lia.
  - split; [lia|]. destruct (Nat.ltb_spec (j - 1) k); lia.
Qed.

(** The covariance, given the measurements other than k, of the process at tp and at the time of measurement k, for the weights u of the prediction at tp. *)
Theorem cond_insert K (t y e : list R) k tp m0 v0 mk vk : (forall a b, K a b = K b a) ->
  length y = length t -> length e = length t -> (k < length t)%nat ->
  cond_dist K (without k t) (without k y) (without k e) tp m0 v0 ->
  cond_dist K (without k t) (without k y) (without k e) (nth k t 0) mk vk ->
  exists c, (tp = nth k t 0 -> c = v0) /\
    forall Y E, 0 < vk + E * E ->
      cond_dist K t (upd y k Y) (upd e k E) tp (m0 + c * (Y - mk) / (vk + E * E)) (v0 - c * c / (vk + E * E)).
Proof.
  intros Ks Hy He Hk (u & U1 & U2 & U3) (g & G1 & G2 & G3). set (N := (length t - 1)%nat).
  assert (length t = S N) as En by (unfold N; lia). assert (length (without k t) = N) as LN by (apply without_len; exact Hk). rewrite LN in *.
  assert (forall a b, (a < N)%nat -> obs_cov K (fun i => nth i (without k t) 0) (fun i => nth i (without k e) 0) a b =
            K (nth (skip k a) t 0) (nth (skip k b) t 0) + (if Nat.eqb a b then nth (skip k a) e 0 * nth (skip k a) e 0 else 0)) as EM.
  { intros a b _. unfold obs_cov. rewrite !without_nth by lia. reflexivity. }
  set (M := fun a b => K (nth (skip k a) t 0) (nth (skip k b) t 0) + (if Nat.eqb a b then nth (skip k a) e 0 * nth (skip k a) e 0 else 0)).
  assert (forall j, (j < N)%nat -> Rsum (fun a => u a * M a j) N = K tp (nth (skip k j) t 0)) as U1'.
  { intros j Hj. specialize (U1 j Hj). rewrite without_nth in U1 by lia. rewrite <- U1. apply Rsum_ext. intros a Ha. rewrite EM by exact Ha. reflexivity. }
  assert (forall j, (j < N)%nat -> Rsum (fun a => g a * M a j) N = K (nth k t 0) (nth (skip k j) t 0)) as G1'.
  { intros j Hj. specialize (G1 j Hj). rewrite without_nth in G1 by lia. rewrite <- G1. apply Rsum_ext. intros a Ha. rewrite EM by exact Ha. reflexivity. }
  assert (forall a b, M a b = M b a) as Ms.
  { intros a b. unfold M. rewrite Ks. destruct (Nat.eqb_spec a b) as [H|H], (Nat.eqb_spec b a) as [H'|H']; try congruence. }
  assert (m0 = Rsum (fun a => u a * nth (skip k a) y 0) N) as Em0 by (rewrite U2; apply Rsum_ext; intros a Ha; rewrite without_nth by lia; reflexivity).
  assert (mk = Rsum (fun a => g a * nth (skip k a) y 0) N) as Emk by (rewrite G2; apply Rsum_ext; intros a Ha; rewrite without_nth by lia; reflexivity).
  assert (v0 = K tp tp - Rsum (fun a => u a * K tp (nth (skip k a) t 0)) N) as Ev0 by (rewrite U3; f_equal; apply Rsum_ext; intros a Ha; rewrite without_nth by lia; reflexivity).
  assert (vk = K (nth k t 0) (nth k t 0) - Rsum (fun a => g a * K (nth k t 0) (nth (skip k a) t 0)) N) as Evk by (rewrite G3; f_equal; apply Rsum_ext; intros a Ha; rewrite without_nth by lia; reflexivity).
  clear U1 U2 U3 G1 G2 G3 EM.
  set (c := K tp (nth k t 0) - Rsum (fun a => u a * K (nth k t 0) (nth (skip k a) t 0)) N).
  assert (Rsum (fun a => g a * K tp (nth (skip k a) t 0)) N = K tp (nth k t 0) - c) as Egu.
  { unfold c. transitivity (Rsum (fun a => Rsum (fun b => g a * (u b * M b a)) N) N).
    - apply Rsum_ext. intros a Ha. rewrite <- U1' by exact Ha. rewrite Rsum_scal. reflexivity.
    - rewrite Rsum_swap. transitivity (Rsum (fun b => u b * K (nth k t 0) (nth (skip k b) t 0)) N); [|ring].
      apply Rsum_ext. intros b Hb. rewrite <- G1' by exact Hb. rewrite <- Rsum_scal. apply Rsum_ext. intros a Ha. rewrite (Ms b a). ring. }
  exists c. split.
  { intros Et. unfold c. rewrite Ev0, Et. reflexivity. }
  intros Y E HE. set (kap := c / (vk + E * E)).
  set (wt := fun j => if Nat.eqb j k then kap else u (from_last N k j) - kap * g (from_last N k j)).
  assert (wt k = kap) as Wk by (unfold wt; rewrite Nat.eqb_refl; reflexivity).
  assert (forall i, (i < N)%nat -> wt (skip k i) = u i - kap * g i) as Ws.
  { intros i Hi. unfold wt. pose proof (skip_ne k i). destruct (Nat.eqb_spec (skip k i) k); [contradiction|].
    assert (from_last N k (skip k i) = i) as ->; [|reflexivity]. unfold from_last. destruct (Nat.eqb_spec (skip k i) k); [contradiction|].
    unfold skip. destruct (Nat.ltb_spec i k); [destruct (Nat.ltb_spec i k); lia|destruct (Nat.ltb_spec (S i) k); lia]. }
  assert (forall (f : nat -> R), Rsum (fun j => wt j * f j) (S N) = Rsum (fun i => u i * f (skip k i)) N - kap * Rsum (fun i => g i * f (skip k i)) N + kap * f k) as Wf.
  { intros f. rewrite (Rsum_split _ N k) by lia. rewrite Wk. f_equal. rewrite <- Rsum_scal. unfold Rminus. rewrite <- (Rmult_1_l (- _)), <- Ropp_mult_distr_r, Ropp_mult_distr_l, <- Rsum_scal, <- Rsum_plus.
    apply Rsum_ext. intros i Hi. rewrite Ws by exact Hi. ring. }
  assert (forall i, nth (skip k i) (upd e k E) 0 = nth (skip k i) e 0) as Ee by (intros i; apply nth_upd_other; apply skip_ne || (apply not_eq_sym, skip_ne)).
  assert (forall i, nth (skip k i) (upd y k Y) 0 = nth (skip k i) y 0) as Ey by (intros i; apply nth_upd_other; apply skip_ne || (apply not_eq_sym, skip_ne)).
  assert (nth k (upd e k E) 0 = E) as Eek by (apply nth_upd_same; lia). assert (nth k (upd y k Y) 0 = Y) as Eyk by (apply nth_upd_same; lia).
  assert (kap * (vk + E * E) = c) as Ekap by (unfold kap; field; lra).
  exists wt. rewrite En. split; [|split].
  - intros j Hj. rewrite (Wf (fun i => obs_cov K (fun i => nth i t 0) (fun i => nth i (upd e k E) 0) i j)). cbv beta.
    destruct (skip_cases N k j Hj) as [->|(l & [[Hl ->]|F])]; [| |lia].
    + assert (forall i, obs_cov K (fun i => nth i t 0) (fun i => nth i (upd e k E) 0) (skip k i) k = K (nth k t 0) (nth (skip k i) t 0)) as Q.
      { intros i. unfold obs_cov. pose proof (skip_ne k i). destruct (Nat.eqb_spec (skip k i) k); [contradiction|]. rewrite Ks. ring. }
      rewrite (Rsum_ext (fun i => u i * _) (fun i => u i * K (nth k t 0) (nth (skip k i) t 0)) N) by (intros i Hi; rewrite Q; reflexivity).
      rewrite (Rsum_ext (fun i => g i * _) (fun i => g i * K (nth k t 0) (nth (skip k i) t 0)) N) by (intros i Hi; rewrite Q; reflexivity).
      assert (obs_cov K (fun i => nth i t 0) (fun i => nth i (upd e k E) 0) k k = K (nth k t 0) (nth k t 0) + E * E) as -> by (unfold obs_cov; rewrite Nat.eqb_refl, Eek; reflexivity).
      replace (Rsum (fun i => u i * K (nth k t 0) (nth (skip k i) t 0)) N) with (K tp (nth k t 0) - c) by (unfold c; ring).
      replace (Rsum (fun i => g i * K (nth k t 0) (nth (skip k i) t 0)) N) with (K (nth k t 0) (nth k t 0) - vk) by (rewrite Evk; ring). rewrite <- Ekap. ring.
    + assert (forall i, obs_cov K (fun i => nth i t 0) (fun i => nth i (upd e k E) 0) (skip k i) (skip k l) = M i l) as Q.
      { intros i. unfold obs_cov, M. rewrite Ee. f_equal. destruct (Nat.eqb_spec i l) as [H|H], (Nat.eqb_spec (skip k i) (skip k l)) as [H'|H']; try reflexivity; [congruence|].
        exfalso. apply H. revert H'. unfold skip. destruct (Nat.ltb_spec i k), (Nat.ltb_spec l k); lia. }
      rewrite (Rsum_ext (fun i => u i * _) (fun i => u i * M i l) N) by (intros i Hi; rewrite Q; reflexivity).
      rewrite (Rsum_ext (fun i => g i * _) (fun i => g i * M i l) N) by (intros i Hi; rewrite Q; reflexivity).
      rewrite U1', G1' by exact Hl. unfold obs_cov. pose proof (skip_ne k l). destruct (Nat.eqb_spec k (skip k l)); [congruence|]. ring.
  - rewrite (Wf (fun i => nth i (upd y k Y) 0)). cbv beta. rewrite Eyk.
    rewrite (Rsum_ext (fun i => u i * _) (fun i => u i * nth (skip k i) y 0) N) by (intros i Hi; rewrite Ey; reflexivity).
    rewrite (Rsum_ext (fun i => g i * _) (fun i => g i * nth (skip k i) y 0) N) by (intros i Hi; rewrite Ey; reflexivity).
    rewrite <- Em0, <- Emk. unfold kap. field. lra.
  - rewrite (Wf (fun i => K tp (nth i t 0))). cbv beta. rewrite Egu.
    replace (Rsum (fun i => u i * K tp (nth (skip k i) t 0)) N) with (K tp tp - v0) by (rewrite Ev0; ring). unfold kap. field. lra.
Qed.

(** what follows for the size of the change *)
Lemma change_bounds m m0 v v0 vk c Y mk E2 : 0 < vk -> 0 < v0 -> 0 <= E2 -> c * c <= v0 * vk -> m = m0 + c * (Y - mk) / (vk + E2) -> v = v0 - c * c / (vk + E2) ->
  Rabs (m - m0) <= sqrt (v0 * vk) * Rabs (Y - mk) / (vk + E2) /\ 0 <= v0 - v <= v0 * vk / (vk + E2).
Proof.
  intros H1 H2 H3 Hc -> ->. assert (0 < vk + E2) as HP by lra. split.
  - replace (m0 + c * (Y - mk) / (vk + E2) - m0) with (c * (Y - mk) * / (vk + E2)) by (field; lra). rewrite !Rabs_mult.
    rewrite (Rabs_pos_eq (/ (vk + E2))) by (left; apply Rinv_0_lt_compat, HP). unfold Rdiv. apply Rmult_le_compat_r; [left; apply Rinv_0_lt_compat, HP|].
    apply Rmult_le_compat_r; [apply Rabs_pos|]. rewrite <- sqrt_Rsqr_abs. apply sqrt_le_1_alt. exact Hc.
  - replace (v0 - (v0 - c * c / (vk + E2))) with (c * c * / (vk + E2)) by (field; lra). pose proof (Rinv_0_lt_compat _ HP). split.
    + apply Rmult_le_pos; [apply Rle_0_sqr|lra].
    + unfold Rdiv. apply Rmult_le_compat_r; [lra|exact Hc].
Qed.
