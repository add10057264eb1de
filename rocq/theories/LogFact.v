(** From one-step predictions to a Cholesky factor of the covariance matrix of the measurements. *)
From Coq Require Import Reals Lra Lia List ClassicalEpsilon.
From Verif Require Import Spec SpecCarma SpecModel Gauss KF1R KF1More PySim.
Import ListNotations.
Local Open Scope R_scope.

Lemma nat_choice {T} (d : T) n (P : nat -> T -> Prop) : (forall i, (i < n)%nat -> exists x, P i x) -> exists f, forall i, (i < n)%nat -> P i (f i).
Proof.
  induction n as [|n IH]; intros H; [exists (fun _ => d); intros; lia|].
  destruct IH as (f & Hf); [intros; apply H; lia|]. destruct (H n (Nat.lt_succ_diag_r n)) as (x & Hx).
  exists (fun i => if Nat.eqb i n then x else f i). intros i Hi. destruct (Nat.eqb_spec i n) as [->|]; [exact Hx|apply Hf; lia].
Qed.
Lemma nth_pre (i j : nat) (l : list R) : (j < i)%nat -> nth j (firstn i l) 0 = nth j l 0.
Proof. revert i l. induction j as [|j IH]; intros [|i] [|a l] H; try lia; try reflexivity. cbn. apply IH. lia. Qed.

(** covariance of measurements i and j *)
Definition obs_entry (K : R -> R -> R) (t e : list R) (scale : R) (i j : nat) : R :=
  K (nth i t 0) (nth j t 0) + (if Nat.eqb i j then scale * (nth i e 0 * nth i e 0) else 0).

Theorem is_loglik_factor K t y e scale mu x : (forall s r, K s r = K r s) -> 0 <= scale -> length y = length t -> length e = length t ->
  is_loglik K t y e scale mu x ->
  exists (L : nat -> nat -> R) (v u : nat -> R), let n := length t in
    (forall i k, (i < n)%nat -> (i < k)%nat -> L i k = 0) /\ (forall i, (i < n)%nat -> L i i = sqrt (v i)) /\ (forall i, (i < n)%nat -> 0 < v i) /\
    (forall i j, (i < n)%nat -> (j < n)%nat -> Rsum (fun k => L i k * L j k) n = obs_entry K t e scale i j) /\
    (forall i, (i < n)%nat -> nth i y 0 - mu = Rsum (fun k => L i k * u k) n) /\
    x = Rsum (fun i => - (1 / 2) * ln (v i) - 1 / 2 * (u i * u i)) n.
Proof.
  intros Ks Hsc Hy He (m & v & H & Hx). set (n := length t) in *.
  assert (exists w : nat -> nat -> R, forall i, (i < n)%nat ->
    (forall j, (j < i)%nat -> Rsum (fun k => w i k * obs_entry K t e scale k j) i = obs_entry K t e scale i j) /\
    m i = Rsum (fun k => w i k * (nth k y 0 - mu)) i /\
    v i = obs_entry K t e scale i i - Rsum (fun k => w i k * obs_entry K t e scale i k) i) as (w & Hw).
  { apply (nat_choice (fun _ : nat => 0) n (fun i wt => (forall j, (j < i)%nat -> Rsum (fun k => wt k * obs_entry K t e scale k j) i = obs_entry K t e scale i j) /\
      m i = Rsum (fun k => wt k * (nth k y 0 - mu)) i /\ v i = obs_entry K t e scale i i - Rsum (fun k => wt k * obs_entry K t e scale i k) i)).
    intros i Hi. destruct (H i Hi) as ((wt & H1 & H2 & H3) & _). rewrite firstn_length_le in * by lia. exists wt.
    assert (forall k j, (k < i)%nat -> (j < i)%nat ->
      obs_cov K (fun i0 => nth i0 (firstn i t) 0) (fun i0 => nth i0 (firstn i (map (fun x => sqrt scale * x) e)) 0) k j = obs_entry K t e scale k j) as Eo.
    { intros k j Hk Hj. unfold obs_cov, obs_entry. rewrite !nth_pre by lia. destruct (Nat.eqb k j); [|reflexivity]. rewrite nth_map0 by lia.
      f_equal. replace (sqrt scale * nth k e 0 * (sqrt scale * nth k e 0)) with ((sqrt scale * sqrt scale) * (nth k e 0 * nth k e 0)) by ring.
      rewrite sqrt_sqrt by exact Hsc. reflexivity. }
    assert (forall k, (k < i)%nat -> obs_entry K t e scale i k = K (nth i t 0) (nth k t 0)) as Eo1.
    { intros k Hk. unfold obs_entry. destruct (Nat.eqb_spec i k); [lia|]. ring. }
    split; [|split].
    - intros j Hj. rewrite Eo1 by exact Hj. specialize (H1 j Hj). rewrite nth_pre in H1 by lia. rewrite <- H1. apply Rsum_ext. intros k Hk. rewrite Eo by assumption. reflexivity.
    - rewrite H2. apply Rsum_ext. intros k Hk. rewrite nth_pre by lia. rewrite nth_map0 by lia. reflexivity.
    - assert (Rsum (fun k => wt k * K (nth i t 0) (nth k (firstn i t) 0)) i = Rsum (fun k => wt k * obs_entry K t e scale i k) i) as Es.
      { apply Rsum_ext. intros k Hk. rewrite nth_pre by lia. rewrite Eo1 by exact Hk. reflexivity. }
      rewrite Es in H3. unfold obs_entry at 1. rewrite Nat.eqb_refl. lra. }
  assert (forall i, (i < n)%nat -> 0 < v i) as Hv by (intros i Hi; apply (H i Hi)).
  destruct (innov_factor n (obs_entry K t e scale) w v) as (L & (Lt & Ld) & LL & Ly).
  - intros i j. unfold obs_entry. rewrite Ks. rewrite (Nat.eqb_sym j i). destruct (Nat.eqb_spec i j) as [->|]; reflexivity.
  - intros i j Hi Hj. apply (Hw i Hi), Hj.
  - intros i Hi. apply (Hw i Hi).
  - intros i Hi. left. apply Hv, Hi.
  - exists L, v, (fun i => (nth i y 0 - mu - m i) / sqrt (v i)). cbv zeta.
    split; [exact Lt|]. split; [exact Ld|]. split; [exact Hv|]. split; [exact LL|]. split.
    + apply (Ly (fun i => nth i y 0 - mu)). intros i Hi. destruct (Hw i Hi) as (_ & <- & _).
      pose proof (sqrt_lt_R0 _ (Hv i Hi)). field. lra.
    + rewrite Hx. unfold gauss_ll. apply Rsum_ext. intros i Hi. pose proof (sqrt_lt_R0 _ (Hv i Hi)) as Hs.
      f_equal. unfold Rdiv. rewrite Rmult_assoc. f_equal.
      pose proof (sqrt_sqrt (v i) (Rlt_le _ _ (Hv i Hi))) as E2. replace (/ v i) with (/ sqrt (v i) * / sqrt (v i)); [ring|].
      rewrite <- E2 at 3. field. lra.
Qed.
