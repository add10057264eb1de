(** The stationary covariance of the rotated CARMA state: it reproduces the autocovariance formula of the
    specification, and the covariance of the observations is positive definite. *)
From Coq Require Import Reals List Arith Lra Lia FinFun.
From Coquelicot Require Import Complex Coquelicot.
From Verif Require Import Spec Gauss SimProof SpecCarma CLin OUpd.
Import ListNotations.
Local Open Scope R_scope.
Local Open Scope C_scope.

Section CK.
Variables (p : nat) (om J : nat -> C) (ma : nat -> R) (sig : R) (pi : nat -> nat).
Hypothesis Hp : (1 <= p)%nat.
Hypothesis Hinj : forall i j, (i < p)%nat -> (j < p)%nat -> om i = om j -> i = j.
Hypothesis HRe : forall i, (i < p)%nat -> (fst (om i) < 0)%R.
Hypothesis Hpi : forall i, (i < p)%nat -> (pi i < p)%nat.
Hypothesis Hpp : forall i, (i < p)%nat -> pi (pi i) = i.
Hypothesis Hconj : forall i, (i < p)%nat -> om (pi i) = Cconj (om i).
Hypothesis HJ : forall k, (k < p)%nat -> Csum (fun i => Cpown (om i) k * J i) p = if Nat.eqb k (p - 1) then 1 else 0.

Lemma pi_fun : bFun p pi.
Proof. exact Hpi. Qed.
Lemma pi_inj : bInjective p pi.
Proof. intros x y Hx Hy E. rewrite <- (Hpp x Hx), <- (Hpp y Hy), E. reflexivity. Qed.
Lemma reindex g : Csum (fun k => g (pi k)) p = Csum g p.
Proof. apply Csum_bij; [apply pi_fun|apply pi_inj]. Qed.

Lemma om_neq i l : (i < p)%nat -> (l < p)%nat -> l <> i -> om i - om l <> 0.
Proof.
  intros Hi Hl Hne E. apply Hne. apply Hinj; [exact Hl|exact Hi|].
  replace (om l) with (om i - (om i - om l)) by ring. rewrite E. ring.
Qed.

Lemma omsum_neq i j : (i < p)%nat -> (j < p)%nat -> om i + Cconj (om j) <> 0.
Proof.
  intros Hi Hj E. apply (f_equal fst) in E. simpl in E. pose proof (HRe i Hi). pose proof (HRe j Hj). lra.
Qed.
Lemma omsum_neq' i j : (i < p)%nat -> (j < p)%nat -> - om i <> om j.
Proof.
  intros Hi Hj E. apply (f_equal fst) in E. simpl in E. pose proof (HRe i Hi). pose proof (HRe j Hj). lra.
Qed.

(** the solution of the moment equations is closed under conjugation *)
Lemma J_conj i : (i < p)%nat -> J (pi i) = Cconj (J i).
Proof.
  intros Hi.
  assert (forall k, (k < p)%nat -> Csum (fun i => Cpown (om i) k * Cconj (J (pi i))) p = if Nat.eqb k (p - 1) then 1 else 0) as H.
  { intros k Hk. rewrite (Csum_ext _ (fun i => Cconj ((fun j => Cpown (om j) k * J j) (pi i)))).
    2:{ intros j Hj. cbv beta. rewrite conj_mult, conj_pown, Hconj, conj_conj by exact Hj. reflexivity. }
    rewrite <- conj_sum. pose proof (reindex (fun j => Cpown (om j) k * J j)) as E0. cbv beta in E0. rewrite E0, HJ by exact Hk. destruct (Nat.eqb k (p - 1)); apply conj_R. }
  pose proof (J_explicit p om (fun i => Cconj (J (pi i))) Hp H i Hi) as E1.
  pose proof (J_explicit p om J Hp HJ i Hi) as E2. cbv beta in E1.
  set (X := Cprod _ p) in *.
  assert (Cconj (J (pi i)) = J i) as E.
  { transitivity (Cconj (J (pi i)) * (J i * X)); [rewrite E2; ring|].
    transitivity (J i * (Cconj (J (pi i)) * X)); [ring|]. rewrite E1. ring. }
  rewrite <- E, conj_conj. reflexivity.
Qed.

Definition beta (z : C) : C := peval (fun l => RtoC (ma l)) p z.
Definition b (i : nat) : C := beta (om i).
Lemma beta_conj z : beta (Cconj z) = Cconj (beta z).
Proof.
  unfold beta, peval. rewrite conj_sum. apply Csum_ext. intros k _. rewrite conj_mult, conj_R, conj_pown. reflexivity.
Qed.
Lemma b_conj i : (i < p)%nat -> b (pi i) = Cconj (b i).
Proof. intros Hi. unfold b. rewrite Hconj by exact Hi. apply beta_conj. Qed.

Definition V (i j : nat) : C := - RtoC sig * J i * Cconj (J j) / (om i + Cconj (om j)).
Lemma V_herm i j : V j i = Cconj (V i j).
Proof.
  unfold V. rewrite conj_div, !conj_mult, conj_plus, !conj_conj, conj_opp, conj_R.
  unfold Cdiv. rewrite (Cplus_comm (Cconj (om i))). ring.
Qed.
Lemma V_conj i j : (i < p)%nat -> (j < p)%nat -> V (pi i) (pi j) = Cconj (V i j).
Proof.
  intros Hi Hj. unfold V. rewrite !J_conj, !Hconj by assumption.
  rewrite conj_div, !conj_mult, conj_plus, !conj_conj, conj_opp, conj_R. reflexivity.
Qed.

(** Cov(state, noise-free observation) *)
Definition u (i : nat) : C := Csum (fun j => V i j * Cconj (b j)) p.
Lemma u_conj i : (i < p)%nat -> u (pi i) = Cconj (u i).
Proof.
  intros Hi. unfold u. rewrite conj_sum, <- reindex. apply Csum_ext. intros j Hj.
  rewrite V_conj, b_conj, conj_mult by assumption. reflexivity.
Qed.

Lemma u_formula i : (i < p)%nat -> u i = RtoC sig * J i * beta (- om i) / P p om (- om i).
Proof.
  intros Hi. unfold u. rewrite <- reindex.
  rewrite (Csum_ext _ (fun j => RtoC sig * J i * (peval (fun l => RtoC (ma l)) p (om j) * J j / (- om i - om j)))).
  2:{ intros j Hj. unfold V. rewrite b_conj, J_conj, Hconj, !conj_conj by exact Hj. fold (beta (om j)). fold (b j).
      field. split.
      - intros E. apply (omsum_neq' i j Hi Hj). replace (- om i) with (- om i - om j + om j) by ring. rewrite E. ring.
      - intros E. apply (omsum_neq i (pi j) Hi (Hpi j Hj)). rewrite Hconj, conj_conj by exact Hj. exact E. }
  rewrite Csum_scal. rewrite (pf_poly p om J Hp HJ) by (try lia; intros j Hj; apply omsum_neq'; assumption).
  unfold beta. unfold Cdiv. ring.
Qed.

Definition E (h : R) (i : nat) : C := Cexp (om i * RtoC h).
Lemma E_conj h i : (i < p)%nat -> E h (pi i) = Cconj (E h i).
Proof. intros Hi. unfold E. rewrite Hconj by exact Hi. rewrite conj_exp, conj_mult, conj_R. reflexivity. Qed.
Lemma E_plus h k i : E (h + k) i = E h i * E k i.
Proof. unfold E. rewrite <- Cexp_plus. f_equal. rewrite RtoC_plus. ring. Qed.
Lemma E_0 i : E 0 i = 1.
Proof. unfold E. rewrite Cmult_0_r. apply Cexp_0. Qed.

(** Cov(state(t), observation(s)) for t >= s, as a function of the lag *)
Definition cc (h : R) (i : nat) : C := E h i * u i.
Lemma cc_conj h i : (i < p)%nat -> cc h (pi i) = Cconj (cc h i).
Proof. intros Hi. unfold cc. rewrite E_conj, u_conj, conj_mult by exact Hi. reflexivity. Qed.
Lemma cc_plus h k i : cc (h + k) i = E h i * cc k i.
Proof. unfold cc. rewrite E_plus. ring. Qed.
Lemma cc_0 i : cc 0 i = u i.
Proof. unfold cc. rewrite E_0. ring. Qed.

(** vectors closed under conjugation have real products with b *)
Definition cs (v : nat -> C) : Prop := forall i, (i < p)%nat -> v (pi i) = Cconj (v i).
Definition bdot (v : nat -> C) : C := Csum (fun i => b i * v i) p.
Lemma bdot_real v : cs v -> bdot v = RtoC (fst (bdot v)).
Proof.
  intros Hv. assert (Cconj (bdot v) = bdot v) as H.
  { unfold bdot. rewrite conj_sum. symmetry. rewrite <- reindex. apply Csum_ext. intros i Hi.
    rewrite Hv, b_conj, conj_mult by exact Hi. reflexivity. }
  apply C_eq; simpl; [reflexivity|]. apply real_of_conj, H.
Qed.

Definition acv (h : R) : R := fst (bdot (cc h)).
Lemma acv_C h : bdot (cc h) = RtoC (acv h).
Proof. apply bdot_real. intros i Hi. apply cc_conj, Hi. Qed.

Lemma Cprod_conj f n : Cprod (fun k => Cconj (f k)) n = Cconj (Cprod f n).
Proof. induction n as [|n IH]; simpl; [symmetry; apply conj_R|]. rewrite IH, conj_mult. reflexivity. Qed.

Definition denom (i : nat) : C :=
  RtoC (-2 * fst (om i)) *
  Cprod (fun l => if Nat.eqb l i then 1 else (om l - om i) * (Cconj (om l) + om i)) p.

Lemma denom_neq0 i : (i < p)%nat -> denom i <> 0.
Proof.
  intros Hi H. apply Cmult_integral in H. destruct H as [H|H].
  - revert H. apply RtoC_neq0. pose proof (HRe i Hi). lra.
  - revert H. apply Cprod_neq0. intros l Hl. destruct (Nat.eqb_spec l i) as [|Hne]; [apply RtoC_neq0; lra|].
    intros H. apply Cmult_integral in H. destruct H as [H|H].
    + apply (om_neq l i Hl Hi); [congruence|exact H].
    + apply (omsum_neq i l Hi Hl). rewrite Cplus_comm. exact H.
Qed.

Lemma J_over_P i : (i < p)%nat -> J i / P p om (- om i) = / denom i.
Proof.
  intros Hi.
  pose proof (J_explicit p om J Hp HJ i Hi) as HJi.
  assert (P p om (- om i) = RtoC (-2 * fst (om i)) * Cprod (fun l => if Nat.eqb l i then 1 else - (Cconj (om l) + om i)) p) as EP.
  { unfold P. rewrite <- (Cprod_bij pi p (fun l => - om i - om l) pi_fun pi_inj).
    rewrite (Cprod_split _ p i Hi). f_equal.
    - rewrite Hconj by exact Hi. apply C_eq; simpl; ring.
    - apply Cprod_ext. intros l Hl. destruct (Nat.eqb l i); [reflexivity|]. rewrite Hconj by exact Hl. ring. }
  assert (Cprod (fun l => if Nat.eqb l i then 1 else om i - om l) p * Cprod (fun l => if Nat.eqb l i then 1 else - (Cconj (om l) + om i)) p
          = Cprod (fun l => if Nat.eqb l i then 1 else (om l - om i) * (Cconj (om l) + om i)) p) as Epr.
  { rewrite <- Cprod_mult. apply Cprod_ext. intros l Hl. destruct (Nat.eqb l i); ring. }
  pose proof (denom_neq0 i Hi) as Hd. unfold denom in *. rewrite <- Epr in *. rewrite EP.
  set (X := Cprod (fun l => if Nat.eqb l i then 1 else om i - om l) p) in *.
  set (Y := Cprod (fun l => if Nat.eqb l i then 1 else - (Cconj (om l) + om i)) p) in *.
  set (r := RtoC (-2 * fst (om i))) in *.
  assert (r <> 0) as Hr by (intros E0; apply Hd; rewrite E0; ring).
  assert (X <> 0) as HX by (intros E0; apply Hd; rewrite E0; ring).
  assert (Y <> 0) as HY by (intros E0; apply Hd; rewrite E0; ring).
  replace (J i) with (/ X).
  - field. repeat split; assumption.
  - transitivity (/ X * (J i * X)); [rewrite HJi; ring|]. field. exact HX.
Qed.

(** the autocovariance is the one of the specification *)
Lemma acv_formula h : acv h =
  Rmult sig (fst (Csum (fun k => beta (om k) * beta (- om k) * E h k / denom k) p)).
Proof.
  unfold acv, bdot.
  rewrite (Csum_ext _ (fun k => RtoC sig * (beta (om k) * beta (- om k) * E h k / denom k))).
  2:{ intros k Hk. unfold cc. rewrite u_formula by exact Hk. fold (b k).
      transitivity (RtoC sig * b k * E h k * beta (- om k) * (J k / P p om (- om k))); [unfold Cdiv; ring|].
      rewrite J_over_P by exact Hk. unfold Cdiv. ring. }
  rewrite Csum_scal. simpl. ring.
Qed.

(** ** Positivity *)
Definition form (M : nat -> nat -> C) (x : nat -> C) : C := Csum (fun i => Csum (fun j => x i * M i j * Cconj (x j)) p) p.
Definition Q (h : R) (i j : nat) : C := V i j - E h i * Cconj (E h j) * V i j.

Lemma form_ext M M' x : (forall i j, (i < p)%nat -> (j < p)%nat -> M i j = M' i j) -> form M x = form M' x.
Proof. intros H. unfold form. apply Csum_ext. intros i Hi. apply Csum_ext. intros j Hj. rewrite H by assumption. reflexivity. Qed.

(** derivative of h |-> Re (c exp(s h)) and of the imaginary part *)
Lemma derive_re (c s : C) h : is_derive (fun h => fst (c * Cexp (s * RtoC h))) h (fst (c * s * Cexp (s * RtoC h))).
Proof.
  destruct c as [c1 c2], s as [s1 s2]. 
  apply (is_derive_ext (fun h => (c1 * (exp (s1 * h) * cos (s2 * h)) - c2 * (exp (s1 * h) * sin (s2 * h)))%R)).
  { intros t. simpl. replace (s1 * t - s2 * 0)%R with (s1 * t)%R by ring. replace (s1 * 0 + s2 * t)%R with (s2 * t)%R by ring. reflexivity. }
  auto_derive; [exact I|]. simpl.
  replace (s1 * h - s2 * 0)%R with (s1 * h)%R by ring. replace (s1 * 0 + s2 * h)%R with (s2 * h)%R by ring. ring.
Qed.

Lemma derive_Rsum (f : nat -> R -> R) (d : nat -> R) n h :
  (forall k, (k < n)%nat -> is_derive (f k) h (d k)) -> is_derive (fun h => Rsum (fun k => f k h) n) h (Rsum d n).
Proof.
  induction n as [|n IH]; intros H; simpl.
  - apply (is_derive_const (V:=R_NormedModule) 0%R).
  - apply (is_derive_plus (V:=R_NormedModule) (fun h => Rsum (fun k => f k h) n) (f n)).
    + apply IH. intros; apply H; lia.
    + apply H; lia.
Qed.

Definition xsum (x : nat -> C) (h : R) : C := Csum (fun i => x i * J i * E h i) p.
Definition nrm2 (z : C) : R := (fst z * fst z + snd z * snd z)%R.
Lemma nrm2_pos z : (0 <= nrm2 z)%R.
Proof. unfold nrm2. nra. Qed.
Lemma nrm2_0 z : nrm2 z = 0%R -> z = 0.
Proof. unfold nrm2. intros H. apply C_eq; simpl; nra. Qed.
Lemma nrm2_C z : z * Cconj z = RtoC (nrm2 z).
Proof. unfold nrm2. apply C_eq; simpl; ring. Qed.

Definition g (x : nat -> C) (h : R) : R := fst (form (fun i j => E h i * Cconj (E h j) * V i j) x).

Lemma g_derive x h : is_derive (g x) h (- (sig * nrm2 (xsum x h)))%R.
Proof.
  assert (forall h, g x h = Rsum (fun i => Rsum (fun j => fst ((x i * V i j * Cconj (x j)) * Cexp ((om i + Cconj (om j)) * RtoC h))) p) p) as Eg.
  { intros t. unfold g, form. rewrite fst_Csum. apply Rsum_ext. intros i Hi. rewrite fst_Csum. apply Rsum_ext. intros j Hj.
    f_equal. replace (Cexp ((om i + Cconj (om j)) * RtoC t)) with (E t i * Cconj (E t j)); [ring|].
    unfold E. rewrite conj_exp, <- Cexp_plus, conj_mult, conj_R. f_equal. ring. }
  apply (is_derive_ext (fun h => Rsum (fun i => Rsum (fun j => fst ((x i * V i j * Cconj (x j)) * Cexp ((om i + Cconj (om j)) * RtoC h))) p) p));
    [intros t; symmetry; apply Eg|].
  replace (- (sig * nrm2 (xsum x h)))%R with
    (Rsum (fun i => Rsum (fun j => fst ((x i * V i j * Cconj (x j)) * (om i + Cconj (om j)) * Cexp ((om i + Cconj (om j)) * RtoC h))) p) p).
  { apply derive_Rsum. intros i Hi. apply derive_Rsum. intros j Hj. apply derive_re. }
  transitivity (fst (- RtoC sig * (xsum x h * Cconj (xsum x h)))).
  2:{ rewrite nrm2_C. simpl. ring. }
  transitivity (fst (Csum (fun i => Csum (fun j => - RtoC sig * ((x i * J i * E h i) * Cconj (x j * J j * E h j))) p) p)).
  - rewrite fst_Csum. apply Rsum_ext. intros i Hi. rewrite fst_Csum. apply Rsum_ext. intros j Hj. f_equal.
    replace (Cexp ((om i + Cconj (om j)) * RtoC h)) with (E h i * Cconj (E h j)).
    2:{ unfold E. rewrite conj_exp, <- Cexp_plus, conj_mult, conj_R. f_equal. ring. }
    rewrite !conj_mult. unfold V. field. apply omsum_neq; assumption.
  - f_equal. unfold xsum. rewrite conj_sum. rewrite <- Csum_scal_r, <- Csum_scal. apply Csum_ext. intros i Hi.
    rewrite Csum_scal. f_equal. rewrite Csum_scal. reflexivity.
Qed.

Hypothesis Hsig : (0 < sig)%R.


Lemma derive_cont (f : R -> R) h l : is_derive f h l -> continuity_pt f h.
Proof. intros H. apply derivable_continuous_pt. exists l. apply is_derive_Reals, H. Qed.

Lemma g_mono x h k : (h <= k)%R -> (g x k <= g x h)%R.
Proof.
  intros H.
  destruct (MVT_gen (g x) h k (fun h => - (sig * nrm2 (xsum x h)))%R) as (c & _ & Ec).
  - intros t _. apply g_derive.
  - intros t _. eapply derive_cont, g_derive.
  - pose proof (nrm2_pos (xsum x c)). assert (0 <= sig * nrm2 (xsum x c))%R by (apply Rmult_le_pos; lra).
    assert (0 <= (k - h) * (sig * nrm2 (xsum x c)))%R by (apply Rmult_le_pos; lra). lra.
Qed.

(** g tends to zero *)
Definition small (f : R -> R) : Prop := exists M, (0 <= M)%R /\ forall h, (0 < h)%R -> (Rabs (f h) <= M / h)%R.
Lemma small_plus f1 f2 : small f1 -> small f2 -> small (fun h => f1 h + f2 h)%R.
Proof.
  intros (M1 & P1 & H1) (M2 & P2 & H2). exists (M1 + M2)%R. split; [lra|]. intros h Hh.
  pose proof (H1 h Hh). pose proof (H2 h Hh). pose proof (Rabs_triang (f1 h) (f2 h)).
  unfold Rdiv in *. lra.
Qed.
Lemma small_Rsum (f : nat -> R -> R) n : (forall k, (k < n)%nat -> small (f k)) -> small (fun h => Rsum (fun k => f k h) n).
Proof.
  induction n as [|n IH]; intros H; simpl.
  - exists 0%R. split; [lra|]. intros h Hh. rewrite Rabs_R0. unfold Rdiv. lra.
  - apply small_plus; [apply IH; intros; apply H; lia|apply H; lia].
Qed.
Lemma small_exp (c s : C) : (fst s < 0)%R -> small (fun h => fst (c * Cexp (s * RtoC h))).
Proof.
  intros Hs. destruct c as [c1 c2], s as [s1 s2]. simpl in Hs.
  exists ((Rabs c1 + Rabs c2) / (- s1))%R. assert (0 <= Rabs c1 + Rabs c2)%R as Hc by (pose proof (Rabs_pos c1); pose proof (Rabs_pos c2); lra).
  split; [apply Rmult_le_pos; [exact Hc|left; apply Rinv_0_lt_compat; lra]|].
  intros h Hh. simpl.
  replace (s1 * h - s2 * 0)%R with (s1 * h)%R by ring. replace (s1 * 0 + s2 * h)%R with (s2 * h)%R by ring.
  set (co := cos (s2 * h)). set (si := sin (s2 * h)).
  assert (Rabs co <= 1)%R by (pose proof (COS_bound (s2 * h)); apply Rabs_le; unfold co; lra).
  assert (Rabs si <= 1)%R by (pose proof (SIN_bound (s2 * h)); apply Rabs_le; unfold si; lra).
  assert (exp (s1 * h) <= 1 / (- s1 * h))%R as He.
  { assert (0 < - s1 * h)%R as Hpos by (apply Rmult_lt_0_compat; lra).
    replace (s1 * h)%R with (- (- s1 * h))%R by ring. rewrite exp_Ropp.
    unfold Rdiv. rewrite Rmult_1_l. apply Rinv_le_contravar; [exact Hpos|].
    pose proof (exp_ineq1 (- s1 * h) ltac:(lra)). lra. }
  replace (c1 * (exp (s1 * h) * co) - c2 * (exp (s1 * h) * si))%R with (exp (s1 * h) * (c1 * co - c2 * si))%R by ring.
  rewrite Rabs_mult, (Rabs_pos_eq (exp _)) by (left; apply exp_pos).
  assert (Rabs (c1 * co - c2 * si) <= Rabs c1 + Rabs c2)%R as Hb.
  { pose proof (Rabs_triang (c1 * co) (- (c2 * si))) as Ht. rewrite Rabs_Ropp, !Rabs_mult in Ht.
    unfold Rminus. pose proof (Rabs_pos c1). pose proof (Rabs_pos c2). pose proof (Rabs_pos co). pose proof (Rabs_pos si). nra. }
  apply Rle_trans with (1 / (- s1 * h) * (Rabs c1 + Rabs c2))%R.
  - apply Rmult_le_compat; [left; apply exp_pos|apply Rabs_pos|exact He|exact Hb].
  - right. field. split; lra.
Qed.

Lemma g_small x : small (g x).
Proof.
  assert (forall h, g x h = Rsum (fun i => Rsum (fun j => fst ((x i * V i j * Cconj (x j)) * Cexp ((om i + Cconj (om j)) * RtoC h))) p) p) as Eg.
  { intros t. unfold g, form. rewrite fst_Csum. apply Rsum_ext. intros i Hi. rewrite fst_Csum. apply Rsum_ext. intros j Hj.
    f_equal. replace (Cexp ((om i + Cconj (om j)) * RtoC t)) with (E t i * Cconj (E t j)); [ring|].
    unfold E. rewrite conj_exp, <- Cexp_plus, conj_mult, conj_R. f_equal. ring. }
  assert (small (fun h => Rsum (fun i => Rsum (fun j => fst ((x i * V i j * Cconj (x j)) * Cexp ((om i + Cconj (om j)) * RtoC h))) p) p)) as (M & HM & H).
  { apply small_Rsum. intros i Hi. apply small_Rsum. intros j Hj. apply small_exp. simpl.
    pose proof (HRe i Hi). pose proof (HRe j Hj). lra. }
  exists M. split; [exact HM|]. intros h Hh. rewrite Eg. apply H, Hh.
Qed.

Lemma g_pos x h : (0 <= g x h)%R.
Proof.
  destruct (Rle_dec 0 (g x h)) as [|Hn]; [assumption|exfalso].
  destruct (g_small x) as (M & HM & H).
  set (k := (Rmax h 0 + 1 + (M + 1) / (- g x h))%R).
  assert (0 < (M + 1) / (- g x h))%R as Hq by (apply Rdiv_lt_0_compat; lra).
  assert (h <= k)%R as Hk by (unfold k; pose proof (Rmax_l h 0); lra).
  assert ((M + 1) / (- g x h) <= k)%R as Hk1 by (unfold k; pose proof (Rmax_r h 0); lra).
  assert (0 < k)%R as Hk0 by lra.
  pose proof (g_mono x h k Hk) as Hm. pose proof (H k Hk0) as Hb.
  assert (- g x k <= M / k)%R as H1 by (pose proof (Rle_abs (- g x k)); rewrite Rabs_Ropp in *; lra).
  assert (M < - g x h * k)%R as H2.
  { apply Rlt_le_trans with (M + 1)%R; [lra|].
    replace (M + 1)%R with (- g x h * ((M + 1) / (- g x h)))%R by (field; lra).
    apply Rmult_le_compat_l; lra. }
  assert (M / k < - g x h)%R as H3.
  { apply Rmult_lt_reg_r with k; [exact Hk0|]. unfold Rdiv. rewrite Rmult_assoc, Rinv_l by lra. lra. }
  lra.
Qed.

Lemma form_Q x h : fst (form (Q h) x) = (g x 0 - g x h)%R.
Proof.
  unfold g. transitivity (fst (form (fun i j => E 0 i * Cconj (E 0 j) * V i j) x - form (fun i j => E h i * Cconj (E h j) * V i j) x));
    [|simpl; ring].
  f_equal. unfold form. rewrite <- Csum_minus. apply Csum_ext. intros i Hi. rewrite <- Csum_minus. apply Csum_ext. intros j Hj.
  unfold Q. rewrite !E_0, conj_R. ring.
Qed.
Lemma form_V x : fst (form V x) = g x 0.
Proof.
  unfold g. f_equal. apply form_ext. intros i j _ _. rewrite !E_0, conj_R. ring.
Qed.

Lemma Q_psd x h : (0 <= h)%R -> (0 <= fst (form (Q h) x))%R.
Proof. intros Hh. rewrite form_Q. pose proof (g_mono x 0 h Hh). lra. Qed.
Lemma V_psd x : (0 <= fst (form V x))%R.
Proof. rewrite form_V. apply g_pos. Qed.

(** an exponential sum vanishing on an interval is zero *)
Lemma expsum_zero (c : nat -> C) h : (0 < h)%R -> (forall t, (0 < t < h)%R -> Csum (fun i => c i * E t i) p = 0) ->
  forall i, (i < p)%nat -> c i = 0.
Proof.
  intros Hh Hz i Hi.
  assert (forall rs t, (0 < t < h)%R -> Csum (fun i => c i * rootprod rs (om i) * E t i) p = 0) as H.
  { induction rs as [|r rs IH]; intros t Ht.
    - rewrite <- (Hz t Ht). apply Csum_ext. intros k _. unfold rootprod. simpl. ring.
    - set (d := fun i => c i * rootprod rs (om i)).
      assert (Csum (fun i => d i * om i * E t i) p = 0) as Hd.
      { apply C_eq.
        - rewrite fst_Csum.
          assert (is_derive (fun s => Rsum (fun k => fst (d k * Cexp (om k * RtoC s))) p) t (Rsum (fun k => fst (d k * om k * Cexp (om k * RtoC t))) p)) as D
            by (apply derive_Rsum; intros; apply derive_re).
          apply is_derive_unique in D. unfold E. etransitivity; [symmetry; exact D|]. apply is_derive_unique.
          apply (is_derive_ext_loc (fun _ => 0%R)); [|apply (is_derive_const (V:=R_NormedModule) 0%R)].
          assert (locally t (fun s => 0 < s < h)%R) as Hl.
          { apply (locally_interval _ t (Finite 0) (Finite h)); simpl; try lra. intros y Hy1 Hy2. lra. }
          apply (filter_imp (F:=locally t) (fun s => 0 < s < h)%R); [|exact Hl].
          intros s Hs. rewrite <- (fst_Csum (fun k => d k * Cexp (om k * RtoC s))). pose proof (IH s Hs) as IHs. unfold d, E in *. rewrite IHs. reflexivity.
        - rewrite snd_Csum.
          assert (forall z : C, snd z = fst (- Ci * z)) as Hsnd by (intros z; simpl; ring).
          assert (is_derive (fun s => Rsum (fun k => fst ((- Ci * d k) * Cexp (om k * RtoC s))) p) t (Rsum (fun k => fst ((- Ci * d k) * om k * Cexp (om k * RtoC t))) p)) as D
            by (apply derive_Rsum; intros; apply derive_re).
          apply is_derive_unique in D.
          transitivity (Rsum (fun k => fst ((- Ci * d k) * om k * Cexp (om k * RtoC t))) p).
          { apply Rsum_ext. intros k _. rewrite Hsnd. f_equal. unfold E. ring. }
          etransitivity; [symmetry; exact D|]. apply is_derive_unique.
          apply (is_derive_ext_loc (fun _ => 0%R)); [|apply (is_derive_const (V:=R_NormedModule) 0%R)].
          assert (locally t (fun s => 0 < s < h)%R) as Hl.
          { apply (locally_interval _ t (Finite 0) (Finite h)); simpl; try lra. intros y Hy1 Hy2. lra. }
          apply (filter_imp (F:=locally t) (fun s => 0 < s < h)%R); [|exact Hl].
          intros s Hs. rewrite <- (fst_Csum (fun k => (- Ci * d k) * Cexp (om k * RtoC s))).
          rewrite (Csum_ext _ (fun k => - Ci * (d k * Cexp (om k * RtoC s)))) by (intros; ring). rewrite Csum_scal.
          pose proof (IH s Hs) as IHs. unfold d, E in *. rewrite IHs. simpl. ring. }
      rewrite (Csum_ext _ (fun k => d k * om k * E t k - r * (d k * E t k))).
      2:{ intros k _. unfold d, rootprod. simpl. ring. }
      rewrite Csum_minus, Csum_scal, Hd. unfold d. rewrite IH by exact Ht. ring. }
  specialize (H (others p om i) (h / 2)%R ltac:(lra)).
  rewrite (Csum_single _ p i Hi) in H.
  - apply Cmult_integral in H. destruct H as [H|H]; [|exfalso; revert H; apply Cexp_neq0].
    apply Cmult_integral in H. destruct H as [H|H]; [exact H|exfalso].
    rewrite rootprod_others in H. revert H. apply Cprod_neq0. intros l Hl.
    destruct (Nat.eqb_spec l i); [apply RtoC_neq0; lra|]. apply om_neq; assumption.
  - intros k Hk Hki. rewrite rootprod_others. rewrite (Cprod_0 _ p k Hk); [ring|].
    destruct (Nat.eqb_spec k i); [contradiction|]. ring.
Qed.

Hypothesis Hma : exists l, (l < p)%nat /\ ma l <> 0%R.

Lemma b_nonzero : exists i, (i < p)%nat /\ b i <> 0.
Proof.
  destruct (Classical_Pred_Type.not_all_ex_not nat (fun i => (i < p)%nat -> b i = 0)) as [i Hi].
  - intros H. destruct Hma as (l & Hl & Hne). apply Hne.
    assert (RtoC (ma l) = 0) as E0 by (apply (peval_zero p om J Hp HJ (fun l => RtoC (ma l)) H l Hl)).
    injection E0. trivial.
  - exists i. split.
    + destruct (Nat.lt_ge_cases i p); [assumption|exfalso; apply Hi; lia].
    + intros E0. apply Hi. auto.
Qed.

Lemma Qb_pos h : (0 < h)%R -> (0 < fst (form (Q h) b))%R.
Proof.
  intros Hh. destruct (Q_psd b h ltac:(lra)) as [H|H]; [exact H|exfalso]. symmetry in H.
  rewrite form_Q in H.
  destruct b_nonzero as (i & Hi & Hb). 
  assert (b i * J i = 0) as E0.
  { apply (expsum_zero (fun i => b i * J i) h Hh); [|exact Hi]. intros t Ht. fold (xsum b t). apply nrm2_0.
    (* g is constant on [0,h] *)
    assert (is_derive (g b) t 0%R) as D0.
    { apply (is_derive_ext_loc (fun _ => g b 0)); [|apply (is_derive_const (V:=R_NormedModule) (g b 0))].
      assert (locally t (fun s => 0 < s < h)%R) as Hl.
      { apply (locally_interval _ t (Finite 0) (Finite h)); simpl; try lra. intros y Hy1 Hy2. lra. }
      apply (filter_imp (F:=locally t) (fun s => 0 < s < h)%R); [|exact Hl].
      intros s Hs. pose proof (g_mono b 0 s ltac:(lra)). pose proof (g_mono b s h ltac:(lra)). lra. }
    pose proof (is_derive_unique _ _ _ D0) as U1. pose proof (is_derive_unique _ _ _ (g_derive b t)) as U2.
    rewrite U1 in U2. assert (sig * nrm2 (xsum b t) = 0)%R as E1 by lra.
    apply Rmult_integral in E1. destruct E1 as [E1|E1]; [lra|exact E1]. }
  apply Cmult_integral in E0. destruct E0 as [E0|E0]; [exact (Hb E0)|]. exact (J_neq0 p om J Hp HJ i Hi E0).
Qed.

Lemma Vb_pos : (0 < fst (form V b))%R.
Proof. rewrite form_V. pose proof (Qb_pos 1 ltac:(lra)) as H. rewrite form_Q in H. pose proof (g_pos b 1). lra. Qed.

Lemma acv_0 : acv 0 = fst (form V b).
Proof.
  unfold acv, bdot, form. f_equal. apply Csum_ext. intros i Hi. rewrite cc_0. unfold u. rewrite <- Csum_scal.
  apply Csum_ext. intros; ring.
Qed.
End CK.
