(** The CAR(1) covariance is positive definite, so the specification [is_blp] has exactly one answer and it is the
    best linear prediction. *)
From Coq Require Import Reals List Arith Lra Lia.
From Verif Require Import Spec Gauss.
Local Open Scope R_scope.

Definition quad (n : nat) (K : nat -> nat -> R) (a : nat -> R) : R :=
  Rsum (fun k => Rsum (fun j => a k * K k j * a j) n) n.

Lemma quad_S n K a : (forall i j, K i j = K j i) ->
  quad (S n) K a = quad n K a + 2 * a n * Rsum (fun j => K n j * a j) n + a n * K n n * a n.
Proof.
  intros Hs. unfold quad. cbn [Rsum]. rewrite Rsum_plus.
  rewrite (Rsum_ext (fun k => a k * K k n * a n) (fun k => a n * (K n k * a k))) by (intros; rewrite Hs; ring).
  rewrite (Rsum_ext (fun j => a n * K n j * a j) (fun k => a n * (K n k * a k))) by (intros; ring).
  rewrite !Rsum_scal. ring.
Qed.

Lemma blp_var_unique n K c c0 y m v m' v' : (forall i j, K i j = K j i) ->
  is_blp n K c c0 y m v -> is_blp n K c c0 y m' v' -> v = v'.
Proof.
  intros Hs (a & A1 & A2 & A3) (b & B1 & B2 & B3). rewrite A3, B3. f_equal.
  rewrite (Rsum_ext (fun k => a k * c k) (fun k => Rsum (fun j => a k * K k j * b j) n)).
  2:{ intros k Hk. rewrite <- (B1 k Hk), <- Rsum_scal. apply Rsum_ext. intros j Hj. rewrite (Hs j k). ring. }
  rewrite Rsum_swap. apply Rsum_ext. intros j Hj. rewrite <- (A1 j Hj), <- Rsum_scal. apply Rsum_ext.
  intros; ring.
Qed.

Lemma pd_kernel n K d : (forall a, (exists k, (k < n)%nat /\ a k <> 0) -> 0 < quad n K a) ->
  (forall j, (j < n)%nat -> Rsum (fun k => d k * K k j) n = 0) -> forall k, (k < n)%nat -> d k = 0.
Proof.
  intros Hp Hd k Hk. destruct (Req_dec (d k) 0) as [|Hne]; [assumption|exfalso].
  assert (0 < quad n K d) as Hq by (apply Hp; exists k; auto).
  unfold quad in Hq. rewrite Rsum_swap in Hq.
  rewrite (Rsum_0 (fun j => Rsum (fun k0 => d k0 * K k0 j * d j) n)) in Hq; [lra|].
  intros j Hj. rewrite (Rsum_ext _ (fun k0 => d j * (d k0 * K k0 j))) by (intros; ring).
  rewrite Rsum_scal, Hd by exact Hj. ring.
Qed.

Lemma blp_unique n K c c0 y m v m' v' : (forall i j, K i j = K j i) -> pd n K ->
  is_blp n K c c0 y m v -> is_blp n K c c0 y m' v' -> m = m' /\ v = v'.
Proof.
  intros Hs Hp H1 H2. split; [|eapply blp_var_unique; eassumption].
  destruct H1 as (a & A1 & A2 & A3), H2 as (b & B1 & B2 & B3).
  assert (forall k, (k < n)%nat -> a k - b k = 0) as Hz.
  { apply (pd_kernel n K (fun k => a k - b k)); [exact Hp|]. intros j Hj.
    rewrite (Rsum_ext _ (fun k => a k * K k j - b k * K k j)) by (intros; ring).
    rewrite Rsum_minus, A1, B1 by exact Hj. ring. }
  rewrite A2, B2. apply Rsum_ext. intros k Hk. rewrite (Rminus_diag_uniq _ _ (Hz k Hk)). reflexivity.
Qed.


Lemma zero_or_not n (a : nat -> R) : (exists k, (k < n)%nat /\ a k <> 0) \/ (forall k, (k < n)%nat -> a k = 0).
Proof.
  induction n as [|n IH]; [right; intros; lia|].
  destruct IH as [(k & Hk & H)|H]; [left; exists k; split; [lia|exact H]|].
  destruct (Req_dec (a n) 0) as [H0|H0]; [right|left; exists n; split; [lia|exact H0]].
  intros k Hk. destruct (Nat.eq_dec k n) as [->|]; [exact H0|apply H; lia].
Qed.

Lemma pd_psd n K : pd n K -> psd n K.
Proof.
  intros Hp a. destruct (zero_or_not n a) as [H|H].
  - left. apply Hp, H.
  - right. symmetry. apply Rsum_0. intros k Hk. apply Rsum_0. intros j Hj. rewrite (H k Hk). ring.
Qed.

Section OU.
Variables (sig w : R) (t : nat -> R).
Hypothesis Hsig : 0 < sig.
Hypothesis Hw : 0 < w.

Lemma ou_sym0 a b : ou_cov sig w a b = ou_cov sig w b a.
Proof. unfold ou_cov. rewrite Rabs_minus_sym. reflexivity. Qed.

Let C i j := ou_cov sig w (t i) (t j).
Let S0 := sig / (2 * w).
Let P n a := quad n (fun i j => C i j / S0) a.
(* weighted sum seen from the time of point n-1 *)
Let U n (a : nat -> R) := Rsum (fun i => a i * exp (- (w * (t (n - 1)%nat - t i)))) n.

Lemma S0_pos : 0 < S0.
Proof. unfold S0. apply Rdiv_lt_0_compat; lra. Qed.

Lemma ou_quad a n : (forall i j, (i < j)%nat -> (j < n)%nat -> t i < t j) ->
  (U n a * U n a <= P n a) /\ (P n a = 0 -> forall k, (k < n)%nat -> a k = 0).
Proof.
  pose proof S0_pos as HS0.
  induction n as [|n IH]; intros Hinc.
  - unfold U, P, quad. simpl. split; [lra|intros; lia].
  - destruct IH as [IH1 IH2]; [intros; apply Hinc; lia|].
    assert (forall j, (j <= n)%nat -> C n j / S0 = exp (- (w * (t n - t j)))) as HC.
    { intros j Hj. unfold C, ou_cov. fold S0. rewrite Rabs_pos_eq.
      - field. lra.
      - destruct (Nat.eq_dec j n) as [->|]; [lra|]. pose proof (Hinc j n). assert (t j < t n) by (apply Hinc; lia). lra. }
    set (r := exp (- (w * (t n - t (n - 1)%nat)))).
    assert (U (S n) a = r * U n a + a n) as HU.
    { unfold U. replace (S n - 1)%nat with n by lia. rewrite Rsum_S.
      replace (t n - t n) with 0 by ring. rewrite Rmult_0_r, Ropp_0, exp_0, Rmult_1_r. f_equal.
      rewrite <- Rsum_scal. apply Rsum_ext. intros i Hi. unfold r.
      replace (exp (- (w * (t n - t (n-1)%nat))) * (a i * exp (- (w * (t (n-1)%nat - t i)))))
        with (a i * (exp (- (w * (t n - t (n-1)%nat))) * exp (- (w * (t (n-1)%nat - t i))))) by ring.
      rewrite <- exp_plus. do 2 f_equal. ring. }
    assert (Rsum (fun j => C n j / S0 * a j) n = r * U n a) as HR.
    { unfold U. rewrite <- Rsum_scal. apply Rsum_ext. intros i Hi. rewrite HC by lia. unfold r.
      replace (exp (- (w * (t n - t (n-1)%nat))) * (a i * exp (- (w * (t (n-1)%nat - t i)))))
        with (a i * (exp (- (w * (t n - t (n-1)%nat))) * exp (- (w * (t (n-1)%nat - t i))))) by ring.
      rewrite <- exp_plus. rewrite Rmult_comm. do 2 f_equal. ring. }
    assert (P (S n) a = P n a + 2 * a n * (r * U n a) + a n * a n) as HP.
    { unfold P. rewrite quad_S. 2:{ intros; unfold C; rewrite ou_sym0; reflexivity. }
      rewrite HR, HC by lia. replace (t n - t n) with 0 by ring. rewrite Rmult_0_r, Ropp_0, exp_0. ring. }
    destruct n as [|n0].
    { assert (P 0%nat a = 0) as E0 by reflexivity. assert (U 0%nat a = 0) as E1 by reflexivity.
      rewrite HP, HU, E0, E1. split; [right; ring|]. intros H k Hk. replace k with O by lia.
      assert (a O * a O = 0) as Hz by lra. apply Rmult_integral in Hz. tauto. }
    assert (0 < r < 1) as Hr.
    { unfold r. split; [apply exp_pos|]. rewrite <- exp_0. apply exp_increasing.
      assert (t (S n0 - 1)%nat < t (S n0)) by (apply Hinc; lia). nra. }
    rewrite HP, HU.
    assert (0 <= U (S n0) a * U (S n0) a) by nra.
    assert (r * r < 1) as Hrr by nra.
    assert (0 <= (1 - r * r) * (U (S n0) a * U (S n0) a)) by (apply Rmult_le_pos; lra).
    split; [nra|].
    intros HP0.
    assert (a (S n0) * a (S n0) + 2 * a (S n0) * (r * U (S n0) a) + r * r * (U (S n0) a * U (S n0) a)
            = (r * U (S n0) a + a (S n0)) * (r * U (S n0) a + a (S n0))) as Hsq by ring.
    pose proof (Rle_0_sqr (r * U (S n0) a + a (S n0))) as Hp. unfold Rsqr in Hp.
    assert ((1 - r * r) * (U (S n0) a * U (S n0) a) = 0) as Hz by nra.
    apply Rmult_integral in Hz. destruct Hz as [Hz|Hz]; [lra|].
    assert (U (S n0) a = 0) as Hu0 by (apply Rmult_integral in Hz; tauto).
    rewrite Hu0 in *. 
    assert (a (S n0) * a (S n0) = 0) as Ha by nra.
    assert (a (S n0) = 0) as Han by (apply Rmult_integral in Ha; tauto).
    assert (P (S n0) a = 0) as HPn by (rewrite Han in HP0; lra).
    intros k Hk. destruct (Nat.eq_dec k (S n0)) as [->|]; [exact Han|]. apply IH2; [exact HPn|lia].
Qed.

Variable e : nat -> R.
Let K := obs_cov (ou_cov sig w) t e.

Lemma obs_sym i j : K i j = K j i.
Proof.
  unfold K, obs_cov. rewrite ou_sym0. f_equal. destruct (Nat.eqb_spec i j) as [->|H].
  - rewrite Nat.eqb_refl. reflexivity.
  - destruct (Nat.eqb_spec j i); [congruence|reflexivity].
Qed.

Lemma diag_quad d n a : quad n (fun k j => if Nat.eqb k j then d k else 0) a = Rsum (fun k => d k * (a k * a k)) n.
Proof.
  induction n as [|n IH]; [reflexivity|]. rewrite quad_S.
  - rewrite IH, Rsum_S, Nat.eqb_refl.
    rewrite (Rsum_0 (fun j => (if Nat.eqb n j then d n else 0) * a j)); [ring|].
    intros k Hk. destruct (Nat.eqb_spec n k); [lia|ring].
  - intros i j. destruct (Nat.eqb_spec i j) as [->|H]; [rewrite Nat.eqb_refl; reflexivity|].
    destruct (Nat.eqb_spec j i); [congruence|reflexivity].
Qed.

Lemma ou_pd n : (forall i j, (i < j)%nat -> (j < n)%nat -> t i < t j) -> pd n K.
Proof.
  intros Hinc a Hne. change (0 < quad n K a).
  assert (quad n K a = S0 * P n a + Rsum (fun k => e k * e k * (a k * a k)) n) as E.
  { rewrite <- diag_quad. unfold P, quad. rewrite <- Rsum_scal, <- Rsum_plus. apply Rsum_ext. intros k Hk.
    rewrite <- Rsum_scal, <- Rsum_plus. apply Rsum_ext. intros j Hj. unfold K, obs_cov. fold (C k j).
    pose proof S0_pos. field. lra. }
  destruct (ou_quad a n Hinc) as [H1 H2]. pose proof S0_pos as HS.
  assert (0 <= Rsum (fun k => e k * e k * (a k * a k)) n) as H3.
  { rewrite <- (Rsum_0 (fun _ => 0) n) by reflexivity. apply Rsum_le. intros k Hk.
    replace (e k * e k * (a k * a k)) with ((e k * a k) * (e k * a k)) by ring. apply Rle_0_sqr. }
  pose proof (Rle_0_sqr (U n a)) as H4. unfold Rsqr in H4.
  assert (P n a <> 0) as H5.
  { intros H0. destruct Hne as (k & Hk & Hk0). apply Hk0, H2; assumption. }
  assert (0 < S0 * P n a) by (apply Rmult_lt_0_compat; lra). lra.
Qed.
End OU.
