(** Lemmas about the specification: sums, optimality, one-observation updates of the normal equations. *)
From Coq Require Import Reals List Lra Lia Arith.
From Verif Require Import Spec.
Local Open Scope R_scope.

Lemma Rsum_ext f g n : (forall k, (k < n)%nat -> f k = g k) -> Rsum f n = Rsum g n.
Proof. induction n as [|n IH]; intros H; simpl; [reflexivity|]. rewrite IH, H; [reflexivity|lia|]. intros; apply H; lia. Qed.

Lemma Rsum_plus f g n : Rsum (fun k => f k + g k) n = Rsum f n + Rsum g n.
Proof. induction n as [|n IH]; simpl; [lra|]. rewrite IH. lra. Qed.

Lemma Rsum_minus f g n : Rsum (fun k => f k - g k) n = Rsum f n - Rsum g n.
Proof. induction n as [|n IH]; simpl; [lra|]. rewrite IH. lra. Qed.

Lemma Rsum_scal c f n : Rsum (fun k => c * f k) n = c * Rsum f n.
Proof. induction n as [|n IH]; simpl; [lra|]. rewrite IH. lra. Qed.

Lemma Rsum_0 f n : (forall k, (k < n)%nat -> f k = 0) -> Rsum f n = 0.
Proof. induction n as [|n IH]; intros H; simpl; [reflexivity|]. rewrite IH, H; [lra|lia|]. intros; apply H; lia. Qed.

Lemma Rsum_swap f n m :
  Rsum (fun k => Rsum (fun j => f k j) m) n = Rsum (fun j => Rsum (fun k => f k j) n) m.
Proof.
  induction n as [|n IH]; simpl; [symmetry; apply Rsum_0; reflexivity|].
  rewrite IH, <- Rsum_plus. reflexivity.
Qed.

Lemma Rsum_le f g n : (forall k, (k < n)%nat -> f k <= g k) -> Rsum f n <= Rsum g n.
Proof.
  induction n as [|n IH]; intros H; simpl; [lra|].
  assert (Rsum f n <= Rsum g n) by (apply IH; intros; apply H; lia).
  assert (f n <= g n) by (apply H; lia). lra.
Qed.

Lemma Rsum_S f n : Rsum f (S n) = Rsum f n + f n.
Proof. reflexivity. Qed.

Lemma Rsum_app f a b : Rsum f (a + b) = Rsum f a + Rsum (fun k => f (a + k)%nat) b.
Proof.
  induction b as [|b IH]; [rewrite Nat.add_0_r; simpl; lra|].
  rewrite Nat.add_succ_r. simpl. rewrite IH. lra.
Qed.

Lemma Rsum_shift f n : Rsum f (S n) = f O + Rsum (fun k => f (S k)) n.
Proof. change (S n) with (1 + n)%nat. rewrite Rsum_app. simpl. lra. Qed.

(** The normal equations give the minimal mean squared error among all linear predictors. *)
Lemma blp_optimal n K c c0 y m v :
  (forall i j, K i j = K j i) -> psd n K -> is_blp n K c c0 y m v ->
  forall a, v <= mse n K c c0 a.
Proof.
  intros Hsym Hpsd (wt & Hne & _ & ->) a. unfold mse.
  pose proof (Hpsd (fun k => a k - wt k)) as H.
  assert (Rsum (fun k => Rsum (fun j => (a k - wt k) * K k j * (a j - wt j)) n) n
          = Rsum (fun k => Rsum (fun j => a k * K k j * a j) n) n
            - 2 * Rsum (fun k => a k * c k) n + Rsum (fun k => wt k * c k) n) as E; [|cbv beta in H; rewrite E in H; lra].
  assert (Rsum (fun k => Rsum (fun j => (a k - wt k) * K k j * (a j - wt j)) n) n
          = Rsum (fun k => Rsum (fun j => a k * K k j * a j) n) n
            - Rsum (fun k => Rsum (fun j => wt k * K k j * a j) n) n
            - Rsum (fun k => Rsum (fun j => a k * (wt j * K j k)) n) n
            + Rsum (fun k => Rsum (fun j => wt k * (wt j * K j k)) n) n) as E.
  { rewrite <- !Rsum_minus, <- Rsum_plus. apply Rsum_ext. intros k _.
    rewrite <- !Rsum_minus, <- Rsum_plus. apply Rsum_ext. intros j _. rewrite (Hsym j k). ring. }
  rewrite E. rewrite (Rsum_swap (fun k j => wt k * K k j * a j)).
  rewrite (Rsum_ext (fun j => Rsum (fun k => wt k * K k j * a j) n) (fun k => a k * c k)).
  2:{ intros j Hj. rewrite <- (Hne j Hj), <- Rsum_scal. apply Rsum_ext. intros; ring. }
  rewrite (Rsum_ext (fun k => Rsum (fun j => a k * (wt j * K j k)) n) (fun k => a k * c k)).
  2:{ intros j Hj. rewrite <- (Hne j Hj), <- Rsum_scal. reflexivity. }
  rewrite (Rsum_ext (fun k => Rsum (fun j => wt k * (wt j * K j k)) n) (fun k => wt k * c k)).
  2:{ intros j Hj. rewrite <- (Hne j Hj), <- Rsum_scal. reflexivity. }
  ring.
Qed.

(** Absorbing one more observation into a predictor, given the regression of that observation on the earlier ones
    and on the predicted value.  [K i i] includes the measurement error. *)
Lemma absorb_lemma i K c c0 y u q beta b const v :
  (forall a j, K a j = K j a) ->
  is_blp i K c c0 y u q ->
  (forall j, (j < i)%nat -> Rsum (fun k => beta k * K k j) i + b * c j = K i j) ->
  Rsum (fun k => beta k * c k) i + b * c0 = c i ->
  v = K i i - Rsum (fun k => beta k * K k i) i - b * c i ->
  const = Rsum (fun k => beta k * y k) i ->
  q <> 0 -> v <> 0 -> v + b * b * q <> 0 ->
  is_blp (S i) K c c0 y ((u / q + b * (y i - const) / v) / (1 / q + b * b / v)) (1 / (1 / q + b * b / v)).
Proof.
  intros Hsym (al & Hne & Hu & Hq) Hb Hbu Hv Hc Hq0 Hv0 Hvq.
  set (g := q * b / (v + b * b * q)).
  exists (fun k => if Nat.eqb k i then g else al k - g * (beta k + b * al k)).
  assert (forall f, Rsum (fun k => (if Nat.eqb k i then g else al k - g * (beta k + b * al k)) * f k) (S i)
          = Rsum (fun k => al k * f k) i - g * (Rsum (fun k => beta k * f k) i + b * Rsum (fun k => al k * f k) i) + g * f i) as Hs.
  { intros f. rewrite Rsum_S, Nat.eqb_refl. f_equal.
    rewrite <- (Rsum_scal b), <- Rsum_plus, <- (Rsum_scal g), <- Rsum_minus.
    apply Rsum_ext. intros k Hk. destruct (Nat.eqb_spec k i); [lia|]. ring. }
  assert (Rsum (fun k => al k * K k i) i = c i - b * q) as Ha.
  { rewrite (Rsum_ext _ (fun k => Rsum (fun l => al k * (beta l * K l k)) i + b * (al k * c k))).
    2:{ intros k Hk. rewrite (Hsym k i), <- (Hb k Hk), Rsum_scal. ring. }
    rewrite Rsum_plus, Rsum_scal, Rsum_swap.
    rewrite (Rsum_ext _ (fun l => beta l * c l)).
    2:{ intros l Hl. rewrite <- (Hne l Hl), <- Rsum_scal. apply Rsum_ext. intros k _. rewrite (Hsym l k). ring. }
    assert (Rsum (fun k => al k * c k) i = c0 - q) as -> by lra.
    rewrite <- Hbu. ring. }
  assert (g * (v + b * b * q) = q * b) as Hg by (unfold g; field; exact Hvq).
  split; [|split].
  - intros j Hj. rewrite Hs. destruct (Nat.eq_dec j i) as [->|Hji].
    + rewrite Ha. assert (Rsum (fun k => beta k * K k i) i = K i i - v - b * c i) as -> by lra.
      replace (c i - b * q - g * (K i i - v - b * c i + b * (c i - b * q)) + g * K i i)
        with (c i - b * q + g * (v + b * b * q)) by ring. rewrite Hg. ring.
    + assert (j < i)%nat as Hlt by lia. rewrite (Hne j Hlt).
      replace (Rsum (fun k => beta k * K k j) i) with (K i j - b * c j) by (rewrite <- (Hb j Hlt); ring).
      ring.
  - rewrite Hs, <- Hu, <- Hc. unfold g.
    field. repeat split; try assumption; intros H0; apply Hvq; lra.
  - rewrite Hs. assert (Rsum (fun k => al k * c k) i = c0 - q) as -> by lra.
    assert (Rsum (fun k => beta k * c k) i = c i - b * c0) as -> by lra.
    unfold g. field. repeat split; try assumption; intros H0; apply Hvq; lra.
Qed.
