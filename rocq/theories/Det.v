(** Determinant of a real matrix by expansion along the first column, and of a product with a triangular matrix.  Used in
    specifications only; nothing here refers to the model of the code. *)
From Coq Require Import Reals Lra Lia Arith Bool.
From Verif Require Import Spec Gauss.
Local Open Scope R_scope.

(** remove row i and column 0 *)
Definition skip (i a : nat) : nat := if (a <? i)%nat then a else S a.
Definition minor (M : nat -> nat -> R) (i : nat) : nat -> nat -> R := fun a b => M (skip i a) (S b).
Fixpoint det (n : nat) (M : nat -> nat -> R) : R :=
  match n with O => 1 | S k => Rsum (fun i => (- 1) ^ i * M i O * det k (minor M i)) (S k) end.

Definition setrow (M : nat -> nat -> R) (r : nat) (u : nat -> R) : nat -> nat -> R := fun i j => if (i =? r)%nat then u j else M i j.

Lemma skip_lt n i a : (a < n)%nat -> (skip i a < S n)%nat.
Proof. unfold skip. destruct (Nat.ltb_spec a i); lia. Qed.
Lemma skip_ne i a : skip i a <> i.
Proof. unfold skip. destruct (Nat.ltb_spec a i); lia. Qed.

Lemma det_ext n : forall M M', (forall i j, (i < n)%nat -> (j < n)%nat -> M i j = M' i j) -> det n M = det n M'.
Proof.
  induction n as [|n IH]; intros M M' H; [reflexivity|]. apply Rsum_ext. intros i Hi. rewrite (H i O) by lia. f_equal.
  apply IH. intros a b Ha Hb. apply H; [apply skip_lt, Ha|lia].
Qed.

Lemma Rsum_one (r n : nat) (x : R) : (r < n)%nat -> Rsum (fun i => if (i =? r)%nat then x else 0) n = x.
Proof.
  induction n as [|n IH]; intros H; [lia|]. rewrite Rsum_S. destruct (Nat.eqb_spec n r) as [->|].
  - rewrite Rsum_0; [ring|]. intros k Hk. destruct (Nat.eqb_spec k r); [lia|reflexivity].
  - rewrite IH by lia. ring.
Qed.

(** linear in every row *)
Lemma det_lin n : forall M r a b u v, (r < n)%nat ->
  det n (setrow M r (fun j => a * u j + b * v j)) = a * det n (setrow M r u) + b * det n (setrow M r v).
Proof.
  induction n as [|n IH]; intros M r a b u v Hr; [lia|]. cbn [det]. rewrite <- !Rsum_scal, <- Rsum_plus. apply Rsum_ext. intros i Hi.
  destruct (Nat.eq_dec i r) as [->|Hne].
  - assert (forall w, det n (minor (setrow M r w) r) = det n (minor M r)) as E.
    { intros w. apply det_ext. intros c d Hc Hd. unfold minor, setrow. destruct (Nat.eqb_spec (skip r c) r) as [E|]; [|reflexivity].
      exfalso. exact (skip_ne _ _ E). }
    rewrite !E. unfold setrow. rewrite Nat.eqb_refl. ring.
  - set (r' := if (r <? i)%nat then r else (r - 1)%nat).
    assert (forall w, det n (minor (setrow M r w) i) = det n (setrow (minor M i) r' (fun j => w (S j)))) as E.
    { intros w. apply det_ext. intros c d Hc Hd. unfold minor, setrow, skip, r'.
      destruct (Nat.ltb_spec c i), (Nat.ltb_spec r i); repeat match goal with |- context [Nat.eqb ?x ?y] => destruct (Nat.eqb_spec x y) end; try reflexivity; lia. }
    rewrite !E, IH by (unfold r'; destruct (Nat.ltb_spec r i); lia).
    unfold setrow at 1 4 6. destruct (Nat.eqb_spec i r); [contradiction|]. ring.
Qed.

(** zero if two neighbouring rows are equal *)
Lemma det_adj n : forall M r, (S r < n)%nat -> (forall j, (j < n)%nat -> M r j = M (S r) j) -> det n M = 0.
Proof.
  induction n as [|n IH]; intros M r Hr H; [lia|]. cbn [det].
  rewrite (Rsum_ext _ (fun i => if (i =? r)%nat then (- 1) ^ r * M r O * det n (minor M r) else if (i =? S r)%nat then (- 1) ^ S r * M r O * det n (minor M r) else 0)).
  - rewrite (Rsum_ext _ (fun i => (if (i =? r)%nat then (- 1) ^ r * M r O * det n (minor M r) else 0) + (if (i =? S r)%nat then (- 1) ^ S r * M r O * det n (minor M r) else 0))).
    + rewrite Rsum_plus, !Rsum_one by lia. cbn [pow]. ring.
    + intros i Hi. destruct (Nat.eqb_spec i r), (Nat.eqb_spec i (S r)); try lia; ring.
  - intros i Hi. destruct (Nat.eqb_spec i r) as [->|H1]; [reflexivity|]. destruct (Nat.eqb_spec i (S r)) as [->|H2].
    + rewrite (H O) by lia. f_equal. apply det_ext. intros c d Hc Hd. unfold minor, skip.
      destruct (Nat.ltb_spec c (S r)), (Nat.ltb_spec c r); try lia; try reflexivity. replace c with r by lia. apply H. lia.
    + rewrite (IH (minor M i) (if (r <? i)%nat then r else (r - 1)%nat)); [ring| |].
      * destruct (Nat.ltb_spec r i); lia.
      * intros j Hj. unfold minor, skip. destruct (Nat.ltb_spec r i).
        -- destruct (Nat.ltb_spec r i), (Nat.ltb_spec (S r) i); try lia. apply H. lia.
        -- destruct (Nat.ltb_spec (r - 1) i), (Nat.ltb_spec (S (r - 1)) i); try lia. replace (S (r - 1)) with r by lia. apply H. lia.
Qed.

(** exchanging neighbouring rows changes the sign *)
Definition swapr (M : nat -> nat -> R) (r : nat) : nat -> nat -> R := setrow (setrow M r (M (S r))) (S r) (M r).
Lemma setrow_comm M r s u v i j : r <> s -> setrow (setrow M r u) s v i j = setrow (setrow M s v) r u i j.
Proof. intros H. unfold setrow. destruct (Nat.eqb_spec i s), (Nat.eqb_spec i r); congruence || reflexivity. Qed.
Lemma det_swap n M r : (S r < n)%nat -> det n (swapr M r) = - det n M.
Proof.
  intros Hr.
  set (D := fun u v => det n (setrow (setrow M r u) (S r) v)).
  assert (forall u, D u u = 0) as Dz.
  { intros u. apply (det_adj n _ r Hr). intros j Hj. unfold setrow. rewrite Nat.eqb_refl.
    destruct (Nat.eqb_spec r (S r)); [lia|]. rewrite Nat.eqb_refl. destruct (Nat.eqb_spec (S r) r); [lia|]. reflexivity. }
  assert (forall u v w, D (fun j => 1 * u j + 1 * v j) w = 1 * D u w + 1 * D v w) as D1.
  { intros u v w. unfold D.
    rewrite (det_ext n _ (setrow (setrow M (S r) w) r (fun j => 1 * u j + 1 * v j))) by (intros; apply setrow_comm; lia).
    rewrite (det_ext n (setrow (setrow M r u) (S r) w) (setrow (setrow M (S r) w) r u)) by (intros; apply setrow_comm; lia).
    rewrite (det_ext n (setrow (setrow M r v) (S r) w) (setrow (setrow M (S r) w) r v)) by (intros; apply setrow_comm; lia).
    apply det_lin. lia. }
  assert (forall u v w, D w (fun j => 1 * u j + 1 * v j) = 1 * D w u + 1 * D w v) as D2 by (intros; apply det_lin; exact Hr).
  pose proof (Dz (fun j => 1 * M r j + 1 * M (S r) j)) as Hz. rewrite D1, !D2, !Dz in Hz.
  assert (D (M r) (M (S r)) = det n M) as E.
  { unfold D. apply det_ext. intros i j Hi Hj. unfold setrow. destruct (Nat.eqb_spec i (S r)) as [->|]; [reflexivity|].
    destruct (Nat.eqb_spec i r) as [->|]; reflexivity. }
  change (det n (swapr M r)) with (D (M (S r)) (M r)). lra.
Qed.
Lemma det_eq_rows n s : forall M r, (r < s)%nat -> (s < n)%nat -> (forall j, (j < n)%nat -> M r j = M s j) -> det n M = 0.
Proof.
  induction s as [|s IH]; intros M r Hr Hs H; [lia|]. destruct (Nat.eq_dec r s) as [->|Hne]; [apply (det_adj n M s Hs H)|].
  assert (det n (swapr M s) = 0) as H0; [apply (IH _ r); [lia|lia|]|].
  - intros j Hj. unfold swapr, setrow. destruct (Nat.eqb_spec r (S s)); [lia|]. destruct (Nat.eqb_spec r s); [lia|].
    destruct (Nat.eqb_spec s (S s)); [lia|]. rewrite Nat.eqb_refl. apply H. exact Hj.
  - rewrite det_swap in H0 by exact Hs. lra.
Qed.
(** a combination of the rows above drops out *)
Lemma det_row_comb n M r (c : R) (a : nat -> R) m : (m <= r)%nat -> (r < n)%nat ->
  det n (setrow M r (fun j => c * M r j + Rsum (fun k => a k * M k j) m)) = c * det n M.
Proof.
  induction m as [|m IH]; intros Hm Hr.
  - rewrite (det_ext n _ (setrow M r (fun j => c * M r j + 0 * M r j))).
    + rewrite det_lin by exact Hr. rewrite (det_ext n (setrow M r (M r)) M); [ring|].
      intros i j Hi Hj. unfold setrow. destruct (Nat.eqb_spec i r) as [->|]; reflexivity.
    + intros i j Hi Hj. unfold setrow. destruct (Nat.eqb_spec i r); [|reflexivity]. cbn. ring.
  - rewrite (det_ext n _ (setrow M r (fun j => 1 * (c * M r j + Rsum (fun k => a k * M k j) m) + a m * M m j))).
    + rewrite (det_lin n M r 1 (a m) (fun j => c * M r j + Rsum (fun k => a k * M k j) m) (M m)) by exact Hr.
      rewrite IH by lia. rewrite (det_eq_rows n r (setrow M r (M m)) m); [ring|lia|lia|].
      intros j Hj. unfold setrow. rewrite Nat.eqb_refl. destruct (Nat.eqb_spec m r); [lia|reflexivity].
    + intros i j Hi Hj. unfold setrow. destruct (Nat.eqb_spec i r); [|reflexivity]. rewrite Rsum_S. ring.
Qed.

Fixpoint Rprod (f : nat -> R) (n : nat) : R := match n with O => 1 | S k => Rprod f k * f k end.
Lemma Rprod_ext f g n : (forall k, (k < n)%nat -> f k = g k) -> Rprod f n = Rprod g n.
Proof. induction n as [|n IH]; intros H; [reflexivity|]. cbn. rewrite IH, H by (intros; auto with arith). reflexivity. Qed.
Lemma Rprod_shift f n : Rprod f (S n) = f O * Rprod (fun k => f (S k)) n.
Proof. induction n as [|n IH]; [cbn; ring|]. cbn [Rprod] in *. rewrite IH. ring. Qed.
Lemma Rprod_mult f g n : Rprod (fun k => f k * g k) n = Rprod f n * Rprod g n.
Proof. induction n as [|n IH]; [cbn; ring|]. cbn. rewrite IH. ring. Qed.

(** upper triangular matrices *)
Lemma det_upper n : forall M, (forall i j, (i < n)%nat -> (j < i)%nat -> M i j = 0) -> det n M = Rprod (fun i => M i i) n.
Proof.
  induction n as [|n IH]; intros M H; [reflexivity|]. cbn [det]. rewrite Rsum_shift, Rsum_0.
  - rewrite (IH (minor M O)).
    + rewrite Rprod_shift. cbn [pow]. unfold minor, skip. cbn. ring.
    + intros i j Hi Hj. unfold minor, skip. cbn. apply H; lia.
  - intros k Hk. rewrite (H (S k) O) by lia. ring.
Qed.
(** product of a lower triangular matrix with any matrix *)
Lemma det_lower_mul n A M : (forall i k, (i < n)%nat -> (i < k)%nat -> A i k = 0) ->
  det n (fun i j => Rsum (fun k => A i k * M k j) n) = Rprod (fun i => A i i) n * det n M.
Proof.
  intros HA. set (P := fun i j => Rsum (fun k => A i k * M k j) n).
  set (B := fun m i j => if (i <? m)%nat then M i j else P i j).
  assert (forall m, (m <= n)%nat -> det n (B O) = Rprod (fun i => A i i) m * det n (B m)) as H.
  { induction m as [|m IH]; intros Hm; [cbn; ring|]. rewrite IH by lia. cbn [Rprod]. rewrite Rmult_assoc. f_equal.
    rewrite (det_ext n (B m) (setrow (B (S m)) m (fun j => A m m * B (S m) m j + Rsum (fun k => A m k * B (S m) k j) m))).
    - apply det_row_comb; lia.
    - intros i j Hi Hj. unfold setrow, B. destruct (Nat.eqb_spec i m) as [->|].
      + destruct (Nat.ltb_spec m m); [lia|]. destruct (Nat.ltb_spec m (S m)); [|lia]. unfold P.
        replace n with (S m + (n - S m))%nat by lia. rewrite Rsum_app, (Rsum_0 (fun k => A m (S m + k)%nat * _)) by (intros k Hk; rewrite HA by lia; ring).
        rewrite Rsum_S, Rplus_0_r, Rplus_comm. f_equal. apply Rsum_ext. intros k Hk. destruct (Nat.ltb_spec k (S m)); [reflexivity|lia].
      + destruct (Nat.ltb_spec i m), (Nat.ltb_spec i (S m)); lia || reflexivity. }
  rewrite (det_ext n P (B O)) by (intros; reflexivity). rewrite (H n (Nat.le_refl n)). f_equal. apply det_ext. intros i j Hi Hj. unfold B.
  destruct (Nat.ltb_spec i n); [reflexivity|lia].
Qed.
(** Cholesky: the determinant of L L^T *)
Lemma det_chol n L : (forall i k, (i < n)%nat -> (i < k)%nat -> L i k = 0) ->
  det n (fun i j => Rsum (fun k => L i k * L j k) n) = Rprod (fun i => L i i * L i i) n.
Proof.
  intros HL. rewrite (det_lower_mul n L (fun k j => L j k) HL), (det_upper n (fun k j => L j k)).
  - rewrite Rprod_mult. reflexivity.
  - intros i j Hi Hj. apply HL; lia.
Qed.
