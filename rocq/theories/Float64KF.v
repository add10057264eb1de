(** The CAR(1) filter in double precision: finite, and never below the measurement variance. *)
From Coq Require Import Reals ZArith Bool Lra Lia List.
From Flocq Require Import Core BinarySingleNaN.
From Verif Require Import Arith Res ListLemmas KFModel KF1Proof KF1R History Float64.
Import ListNotations.
Local Open Scope R_scope.

(** what is used of libm's exp: at a number <= 0, or -inf, it returns a number between 0 and 1 *)
Definition nonpos (x : b64) : Prop := (fin x /\ val x <= 0) \/ x = B754_infinity true.
Definition nonneg (x : b64) : Prop := (fin x /\ 0 <= val x) \/ x = B754_infinity false.
Definition exp_sane (exp64 : b64 -> b64) : Prop := forall x, nonpos x -> rng 0 1 (exp64 x).

Definition big : R := bpow radix2 1000.
Lemma big_pos : 0 < big.
Proof. apply bpow_gt_0. Qed.
Lemma repr_big c : (Z.abs c < 2 ^ 10)%Z -> repr (IZR c * big).
Proof.
  intros H. unfold big. replace (IZR c * bpow radix2 1000) with (IZR (c * 2 ^ 40) * bpow radix2 960).
  - apply repr_F; [rewrite Z.abs_mul; change (Z.abs (2 ^ 40)) with (2 ^ 40)%Z; lia|lia|lia].
  - rewrite mult_IZR. change (IZR (2 ^ 40)) with (bpow radix2 40). rewrite Rmult_assoc, <- bpow_plus. reflexivity.
Qed.
Lemma repr_bigh c : (Z.abs c < 2 ^ 10)%Z -> repr (IZR c * big / 2).
Proof.
  intros H. unfold big. replace (IZR c * bpow radix2 1000 / 2) with (IZR (c * 2 ^ 39) * bpow radix2 960).
  - apply repr_F; [rewrite Z.abs_mul; change (Z.abs (2 ^ 39)) with (2 ^ 39)%Z; lia|lia|lia].
  - rewrite mult_IZR. change (IZR (2 ^ 39)) with (bpow radix2 39). unfold Rdiv. change (/ 2) with (bpow radix2 (-1)).
    rewrite !Rmult_assoc, <- !bpow_plus. reflexivity.
Qed.
Lemma repr_1 : repr 1.
Proof. apply (repr_Z 1). reflexivity. Qed.
Lemma repr_4 c : (Z.abs c < 2 ^ 10)%Z -> repr (IZR c / 4).
Proof. intros H. change (IZR c * bpow radix2 (-2)) with (IZR c * / 4). apply (repr_F c (-2)); lia. Qed.
Ltac rb := first [apply repr_0 | apply repr_1 | apply repr_val | apply repr_opp; rb
  | match goal with |- repr (IZR ?c * big) => apply (repr_big c); reflexivity end
  | match goal with |- repr (IZR ?c * big / 2) => apply (repr_bigh c); reflexivity end
  | match goal with |- repr (IZR ?c / 4) => apply (repr_4 c); reflexivity end].

Lemma prod_in w z c lo hi : 0 <= w <= c -> lo <= z <= hi -> lo <= 0 <= hi -> c * lo <= w * z <= c * hi.
Proof.
  intros [Hw1 Hw2] [Hz1 Hz2] [Hl Hh]. split.
  - apply Rle_trans with (w * lo); [nra|apply Rmult_le_compat_l; lra].
  - apply Rle_trans with (w * hi); [apply Rmult_le_compat_l; lra|nra].
Qed.

Local Notation "x ⊕ y" := (Bplus mode_NE x y) (at level 50, left associativity).
Local Notation "x ⊖ y" := (Bminus mode_NE x y) (at level 50, left associativity).
Local Notation "x ⊗ y" := (Bmult mode_NE x y) (at level 40, left associativity).
Local Notation "x ⊘ y" := (Bdiv mode_NE x y) (at level 40, left associativity).
Local Notation one := (ofZ64 1).

Lemma rng01_minus x : rng 0 1 x -> rng 0 1 (one ⊖ x).
Proof.
  intros H. eapply rng_weaken; [apply (one_minus x 0 1 H)| |]; try lra.
  - replace (1 - 0) with 1 by ring. rb.
  - replace (1 - 1) with 0 by ring. rb.
Qed.

(** ** One step *)
Section Step.
Variables (S0 q : b64).
Hypothesis HS : rng 0 big S0.
Hypothesis Hq : rng 0 big q.
Hypothesis Hq0 : 0 < val q.

Lemma resid v : rng (val q) (8 * big) v -> rng 0 (val v) (v ⊖ q).
Proof. intros [Fv Hv]. destruct Hq as [Fq Bq]. apply sub_in; try assumption; try rb. lra. Qed.
Lemma ratio_in v : rng (val q) (8 * big) v -> rng 0 1 ((v ⊖ q) ⊘ v).
Proof.
  intros Hv. destruct (resid v Hv) as [Fp Bp]. destruct Hv as [Fv Bv]. apply div_in; try assumption; try rb; [lra|].
  split; [apply Rmult_le_pos; [lra|left; apply Rinv_0_lt_compat; lra]|]. apply Rmult_le_reg_r with (val v); [lra|]. unfold Rdiv. rewrite Rmult_assoc, Rinv_l; lra.
Qed.

Lemma var_step rho v : rng 0 1 rho -> rng (val q) (8 * big) v ->
  rng 0 (7 * big) (S0 ⊗ (one ⊖ rho ⊗ rho) ⊕ rho ⊗ rho ⊗ (v ⊖ q) ⊗ (one ⊖ (v ⊖ q) ⊘ v)).
Proof.
  intros Hr Hv. pose proof big_pos as Hb.
  pose proof (mul_shrink 1 rho rho Hr Hr repr_1) as Hr2.
  pose proof (mul_shrink_r big S0 _ HS (rng01_minus _ Hr2)) as T1.
  assert (repr big) as Rb by (replace big with (1 * big) by ring; rb). specialize (T1 Rb).
  pose proof (resid v Hv) as Hp. pose proof (ratio_in v Hv) as Hra.
  pose proof (mul_shrink (val (v ⊖ q)) (rho ⊗ rho) (v ⊖ q) Hr2) as T2.
  assert (rng 0 (val (v ⊖ q)) (v ⊖ q)) as Hp' by (destruct Hp as [Fp Bp]; split; [exact Fp|lra]). specialize (T2 Hp' (repr_val _)).
  assert (rng 0 (6 * big) (rho ⊗ rho ⊗ (v ⊖ q) ⊗ (one ⊖ (v ⊖ q) ⊘ v))) as T3.
  { destruct (Rle_lt_dec (val (v ⊖ q)) (6 * big)) as [Hle|Hgt].
    - eapply rng_weaken; [apply (mul_shrink_r (val (v ⊖ q)) _ _ T2 (rng01_minus _ Hra) (repr_val _))|lra|lra].
    - assert (rng (3 / 4) 1 ((v ⊖ q) ⊘ v)) as Hra'.
      { destruct Hp as [Fp Bp]. destruct Hv as [Fv Bv]. apply div_in; try assumption; try rb; [lra|].
        split; (apply Rmult_le_reg_r with (val v); [lra|]); unfold Rdiv; rewrite !Rmult_assoc, Rinv_l; lra. }
      assert (rng 0 (1 / 4) (one ⊖ (v ⊖ q) ⊘ v)) as Hc.
      { eapply rng_weaken; [apply (one_minus _ (3 / 4) 1 Hra')| |]; try lra.
        - replace (1 - 3 / 4) with (1 / 4) by field. rb.
        - replace (1 - 1) with 0 by ring. rb. }
      destruct T2 as [F2 B2]. destruct Hc as [Fc Bc]. destruct Hp as [Fp Bp]. destruct Hv as [Fv Bv].
      apply mul_in; try assumption; try rb.
      pose proof (prod_in (val (one ⊖ (v ⊖ q) ⊘ v)) (val (rho ⊗ rho ⊗ (v ⊖ q))) (1 / 4) 0 (8 * big)) as Q.
      rewrite (Rmult_comm (val (rho ⊗ rho ⊗ (v ⊖ q)))). lra. }
  destruct T1 as [F1 B1]. destruct T3 as [F3 B3]. apply add_in; try assumption; try rb. lra.
Qed.

Lemma add_err v q' : rng 0 (7 * big) v -> rng 0 big q' -> rng (val q') (8 * big) (v ⊕ q').
Proof. intros [Fv Bv] [Fq' Bq']. apply add_in; try assumption; try rb. lra. Qed.

End Step.

(** the mean, for data bounded by B = 2^k *)
Section MeanStep.
Variable k : Z.
Hypothesis Hk : (-900 <= k <= 1000)%Z.
Let B : R := bpow radix2 k.
Lemma B_pos : 0 < B.
Proof. apply bpow_gt_0. Qed.
Lemma repr_B c : (Z.abs c < 2 ^ 10)%Z -> repr (IZR c * B).
Proof.
  intros H. unfold B. replace (IZR c * bpow radix2 k) with (IZR (c * 2 ^ 40) * bpow radix2 (k - 40)).
  - apply repr_F; [rewrite Z.abs_mul; change (Z.abs (2 ^ 40)) with (2 ^ 40)%Z; lia|lia|lia].
  - rewrite mult_IZR. change (IZR (2 ^ 40)) with (bpow radix2 40). rewrite Rmult_assoc, <- bpow_plus. do 2 f_equal. lia.
Qed.
Lemma repr_Bh c : (Z.abs c < 2 ^ 10)%Z -> repr (IZR c * B / 2).
Proof.
  intros H. unfold B. replace (IZR c * bpow radix2 k / 2) with (IZR (c * 2 ^ 39) * bpow radix2 (k - 40)).
  - apply repr_F; [rewrite Z.abs_mul; change (Z.abs (2 ^ 39)) with (2 ^ 39)%Z; lia|lia|lia].
  - rewrite mult_IZR. change (IZR (2 ^ 39)) with (bpow radix2 39). unfold Rdiv. change (/ 2) with (bpow radix2 (-1)).
    rewrite !Rmult_assoc, <- !bpow_plus. do 2 f_equal. lia.
Qed.
Ltac rb ::= first [apply repr_0 | apply repr_1 | apply repr_val | apply repr_opp; rb
  | match goal with |- repr (IZR ?c * B) => apply (repr_B c); reflexivity end
  | match goal with |- repr (IZR ?c * B / 2) => apply (repr_Bh c); reflexivity end].

Lemma mean_step rho ra m y : rng 0 1 rho -> rng 0 1 ra -> rng (- (4 * B)) (4 * B) m -> rng (- (1 * B)) (1 * B) y ->
  rng (- (4 * B)) (4 * B) (rho ⊗ m ⊕ rho ⊗ ra ⊗ (y ⊖ m)).
Proof.
  intros Hr Hra [Fm Bm] [Fy By]. pose proof B_pos as Hb.
  assert (rng 0 (val rho) (rho ⊗ ra)) as [Fw Bw].
  { apply mul_shrink_r; [destruct Hr as [Fr Br]; split; [exact Fr|lra]|exact Hra|rb]. }
  destruct Hr as [Fr Br].
  assert (forall c lo1 hi1 lo2 hi2 : R, val rho <= c -> lo2 <= 0 <= hi2 ->
    repr lo1 -> repr hi1 -> lo1 <= val rho * val m <= hi1 ->
    (exists lo0 hi0, repr lo0 /\ repr hi0 /\ lo0 <= val y - val m <= hi0 /\ lo0 <= 0 <= hi0 /\ lo2 <= c * lo0 /\ c * hi0 <= hi2) ->
    repr lo2 -> repr hi2 -> -(4 * B) <= lo1 + lo2 -> hi1 + hi2 <= 4 * B ->
    rng (- (4 * B)) (4 * B) (rho ⊗ m ⊕ rho ⊗ ra ⊗ (y ⊖ m))) as K.
  { intros c lo1 hi1 lo2 hi2 Hc Hz R1 R2 B1 (lo0 & hi0 & R3 & R4 & B3 & B0 & C1 & C2) R5 R6 L H.
    destruct (mul_in lo1 hi1 rho m Fr Fm R1 R2 B1) as [F1 V1].
    destruct (sub_in lo0 hi0 y m Fy Fm R3 R4 B3) as [F2 V2].
    assert (rng lo2 hi2 (rho ⊗ ra ⊗ (y ⊖ m))) as [F3 V3].
    { apply mul_in; try assumption. pose proof (prod_in (val (rho ⊗ ra)) (val (y ⊖ m)) c lo0 hi0). lra. }
    apply add_in; try assumption; try rb. lra. }
  destruct (Rle_lt_dec 0 (val m)) as [Hm|Hm].
  - destruct (Rle_lt_dec (val m) (2 * B)) as [H2|H2].
    + apply (K 1 0 (2 * B) (-(3 * B)) (1 * B)); try rb; try lra.
      * pose proof (prod_in (val rho) (val m) 1 0 (2 * B)). lra.
      * exists (-(3 * B)), (1 * B). do 2 (split; [rb|]); repeat split; lra.
    + destruct (Rle_lt_dec (val rho) (1 / 2)) as [H3|H3].
      * apply (K (1 / 2) 0 (4 * B) (-(5 * B / 2)) 0); try rb; try lra.
        -- pose proof (prod_in (val rho) (val m) 1 0 (4 * B)). lra.
        -- exists (-(5 * B)), 0. do 2 (split; [rb|]); repeat split; lra.
      * apply (K 1 (1 * B) (4 * B) (-(5 * B)) 0); try rb; try lra.
        -- split; [nra|]. pose proof (prod_in (val rho) (val m) 1 0 (4 * B)). lra.
        -- exists (-(5 * B)), 0. do 2 (split; [rb|]); repeat split; lra.
  - destruct (Rle_lt_dec (-(2 * B)) (val m)) as [H2|H2].
    + apply (K 1 (-(2 * B)) 0 (-(1 * B)) (3 * B)); try rb; try lra.
      * pose proof (prod_in (val rho) (val m) 1 (-(2 * B)) 0). lra.
      * exists (-(1 * B)), (3 * B). do 2 (split; [rb|]); repeat split; lra.
    + destruct (Rle_lt_dec (val rho) (1 / 2)) as [H3|H3].
      * apply (K (1 / 2) (-(4 * B)) 0 0 (5 * B / 2)); try rb; try lra.
        -- pose proof (prod_in (val rho) (val m) 1 (-(4 * B)) 0). lra.
        -- exists 0, (5 * B). do 2 (split; [rb|]); repeat split; lra.
      * apply (K 1 (-(4 * B)) (-(1 * B)) 0 (5 * B)); try rb; try lra.
        -- split; [|nra]. pose proof (prod_in (val rho) (val m) 1 (-(4 * B)) 0). lra.
        -- exists 0, (5 * B). do 2 (split; [rb|]); repeat split; lra.
Qed.
End MeanStep.

(** ** The arguments of exp *)
Lemma neg_sign (x : b64) : val x < 0 -> exists m e H, x = B754_finite true m e H.
Proof.
  destruct x as [s|s| |s m e H]; unfold val, B2R; try lra. destruct s; [intros _; do 3 eexists; reflexivity|].
  intros Hc. exfalso. cbn in Hc. assert (0 < F2R (Float radix2 (Z.pos m) e)) by (apply F2R_gt_0; reflexivity). lra.
Qed.
Lemma pos_sign (x : b64) : 0 < val x -> exists m e H, x = B754_finite false m e H.
Proof.
  destruct x as [s|s| |s m e H]; unfold val, B2R; try lra. destruct s; [|intros _; do 3 eexists; reflexivity].
  intros Hc. exfalso. cbn in Hc. assert (F2R (Float radix2 (Z.neg m) e) < 0) by (apply F2R_lt_0; reflexivity). lra.
Qed.
Lemma B2SF_inf (x : b64) s : B2SF x = SpecFloat.S754_infinity s -> x = B754_infinity s.
Proof. destruct x; cbn; intros E; try discriminate. injection E as ->. reflexivity. Qed.

Lemma mul_nonpos x y : fin x -> val x < 0 -> nonneg y -> nonpos (x ⊗ y).
Proof.
  intros Fx Hx Hy. destruct (neg_sign x Hx) as (m & e & Hm & ->).
  destruct Hy as [[Fy Hy]| ->]; [|right; reflexivity].
  pose proof (Bmult_correct 53 1024 p53 p53_1024 mode_NE (B754_finite true m e Hm) y) as HC.
  cbn [round_mode] in HC. change (SpecFloat.fexp 53 1024) with fx in HC.
  set (x := B754_finite true m e Hm) in *.
  assert (val x * val y <= 0) as Hp by nra. unfold val in Hp.
  destruct (Rlt_bool _ _).
  - left. destruct HC as (E & Ef & _). split; [unfold fin; rewrite Ef; rewrite Fx, Fy; reflexivity|].
    unfold val. rewrite E. pose proof (round_le radix2 fx ZnearestE _ 0 Hp) as Q. rewrite (rnd_repr 0 repr_0) in Q. exact Q.
  - right. apply B2SF_inf. rewrite HC. cbn [Bsign x].
    destruct (Req_dec (val y) 0) as [E0|N0].
    + destruct y as [s|s| |s m' e' H']; unfold val, B2R in E0; try discriminate Fy; cbn [Bsign] in *.
      * destruct s; [|reflexivity]. exfalso. cbn in HC. discriminate HC.
      * exfalso. destruct s; cbn in E0; [assert (F2R (Float radix2 (Z.neg m') e') < 0) by (apply F2R_lt_0; reflexivity)|assert (0 < F2R (Float radix2 (Z.pos m') e')) by (apply F2R_gt_0; reflexivity)]; lra.
    + destruct (pos_sign y) as (m' & e' & H' & ->); [lra|]. reflexivity.
Qed.
Lemma sub_nonneg x y : fin x -> fin y -> val y <= val x -> nonneg (x ⊖ y).
Proof.
  intros Fx Fy H. pose proof (Bminus_correct 53 1024 p53 p53_1024 mode_NE x y Fx Fy) as HC.
  cbn [round_mode] in HC. change (SpecFloat.fexp 53 1024) with fx in HC. unfold val in H.
  assert (0 <= B2R x - B2R y) as Hp by lra.
  destruct (Rlt_bool _ _) eqn:EB.
  - left. destruct HC as (E & Ef & _). split; [exact Ef|]. unfold val. rewrite E.
    pose proof (round_le radix2 fx ZnearestE 0 _ Hp) as Q. rewrite (rnd_repr 0 repr_0) in Q. exact Q.
  - right. apply B2SF_inf. destruct HC as [-> Hs].
    destruct (Bsign x) eqn:Ex; [|reflexivity]. exfalso. destruct (Bsign y) eqn:Ey; [discriminate Hs|].
    assert (B2R x <= 0) by (destruct x as [s|s| |s m e H']; cbn in *; try lra; subst s; left; apply F2R_lt_0; reflexivity).
    assert (0 <= B2R y) by (destruct y as [s|s| |s m e H']; cbn in *; try lra; subst s; left; apply F2R_gt_0; reflexivity).
    assert (B2R x - B2R y = 0) as E0 by lra. rewrite E0, (rnd_repr 0 repr_0) in EB. rewrite Rabs_R0 in EB.
    rewrite Rlt_bool_true in EB by apply bpow_gt_0. discriminate EB.
Qed.

(** ** The filter *)
Local Notation p2 e := (bpow radix2 e).
Lemma repr_p2 e : (-1074 <= e)%Z -> (e <= 1023)%Z -> repr (p2 e).
Proof.
  intros H1 H2. split; [apply generic_format_bpow; unfold FLT_exp; lia|]. rewrite Rabs_pos_eq by apply bpow_ge_0. apply bpow_lt. lia.
Qed.
Ltac rp := apply repr_p2; lia.
Lemma repr_b : repr big.
Proof. rp. Qed.

Lemma q_in a b x : (-1074 <= a + a)%Z -> (a + a <= 1023)%Z -> (-1074 <= b + b)%Z -> (b + b <= 1023)%Z ->
  rng (p2 a) (p2 b) x -> rng (p2 (a + a)) (p2 (b + b)) (x ⊗ x).
Proof.
  intros Ha Ha' Hb Hb' [Fx Bx]. pose proof (bpow_gt_0 radix2 a) as Pa.
  apply mul_in; try assumption; try rp. rewrite !bpow_plus. split; apply Rmult_le_compat; lra.
Qed.
Lemma err_in x : rng (p2 (-500)) (p2 500) x -> rng 0 big (x ⊗ x) /\ 0 < val (x ⊗ x).
Proof.
  intros H. pose proof (q_in (-500) 500 x) as Q. destruct Q as [F Q]; try lia; [exact H|]. pose proof (bpow_gt_0 radix2 (-500 + -500)) as P.
  split; [split; [exact F|]; change (p2 (500 + 500)) with big in Q; lra|lra].
Qed.
Lemma S0_in sig w : rng 0 (p2 500) sig -> rng (p2 (-499)) (p2 500) w -> rng 0 big (sig ⊘ (ofZ64 2 ⊗ w)).
Proof.
  intros [Fs Bs] [Fw Bw]. destruct (ofZ_val 2) as [F2 V2]; [reflexivity|]. pose proof (bpow_gt_0 radix2 (-499)) as P.
  assert (rng (p2 (-498)) (p2 501) (ofZ64 2 ⊗ w)) as [Fd Bd].
  { apply mul_in; try assumption; try rp. rewrite V2. change (p2 (-498)) with (p2 (1 + -499)). change (p2 501) with (p2 (1 + 500)).
    rewrite !bpow_plus. change (p2 1) with 2. lra. }
  pose proof (bpow_gt_0 radix2 (-498)) as P2.
  apply div_in; try assumption; [lra|apply repr_0|apply repr_b|]. split.
  - apply Rmult_le_pos; [lra|left; apply Rinv_0_lt_compat; lra].
  - apply Rmult_le_reg_r with (val (ofZ64 2 ⊗ w)); [lra|]. unfold Rdiv. rewrite Rmult_assoc, Rinv_l, Rmult_1_r by lra.
    apply Rle_trans with (big * p2 (-498)).
    + unfold big. rewrite <- bpow_plus. apply Rle_trans with (p2 500); [lra|apply bpow_le; lia].
    + apply Rmult_le_compat_l; [left; apply big_pos|lra].
Qed.

(** times of a constructed filter *)
Definition times64 (t : list b64) : Prop :=
  (forall i, (i < length t)%nat -> fin (nth i t (ofZ64 0))) /\
  (forall i, (S i < length t)%nat -> val (nth i t (ofZ64 0)) <= val (nth (S i) t (ofZ64 0))).

Section Filter64.
Variable k : Z.
Hypothesis Hk : (-900 <= k <= 1000)%Z.
Variables (exp64 log64 sin64 cos64 : b64 -> b64) (pow64 : b64 -> b64 -> b64).
Hypothesis HE : exp_sane exp64.
Local Notation A := (A64 exp64 log64 sin64 cos64 pow64).
Variables (t y e : list b64) (sig w : b64).
Hypothesis Ht : times64 t.
Hypothesis Hy : forall i, (i < length t)%nat -> rng (- p2 k) (p2 k) (nth i y (ofZ64 0)).
Hypothesis He : forall i, (i < length t)%nat -> rng (p2 (-500)) (p2 500) (nth i e (ofZ64 0)).
Hypothesis Hsig : rng 0 (p2 500) sig.
Hypothesis Hw : rng (p2 (-499)) (p2 500) w.
Local Notation dt := (diffs A t).
Local Notation vp := (vpure A dt e sig w).
Local Notation mp := (mpure A dt y e sig w).

Lemma neg_w : fin (Bopp one ⊗ w) /\ val (Bopp one ⊗ w) < 0.
Proof.
  destruct (ofZ_val 1) as [F1 V1]; [reflexivity|]. destruct Hw as [Fw Bw]. pose proof (bpow_gt_0 radix2 (-499)) as P.
  assert (rng (- p2 500) (- p2 (-499)) (Bopp one ⊗ w)) as [F B].
  { apply mul_in; [unfold fin; rewrite is_finite_Bopp; exact F1|exact Fw|apply repr_opp; rp|apply repr_opp; rp|].
    unfold val at 1 3. rewrite B2R_Bopp. fold (val one). rewrite V1. lra. }
  split; [exact F|lra].
Qed.
Lemma rho_in i : (S i < length t)%nat -> rng 0 1 (exp64 (Bopp one ⊗ w ⊗ nth i dt (ofZ64 0))).
Proof.
  intros Hi. apply HE. destruct neg_w as [F V]. apply mul_nonpos; try assumption.
  rewrite (diffs_nth A t i _ (ofZ64 0) Hi). cbn [fsub A64]. destruct Ht as [H1 H2]. apply sub_nonneg; [apply H1; lia|apply H1; lia|apply H2, Hi].
Qed.

Lemma vpure_in i : (i < length t)%nat -> rng (val (nth i e (ofZ64 0) ⊗ nth i e (ofZ64 0))) (8 * big) (vp i).
Proof.
  pose proof (S0_in sig w Hsig Hw) as HS. induction i as [|i IH]; intros Hi.
  - cbn [vpure fadd fmul fdiv fofZ A64]. destruct (err_in _ (He 0 Hi)) as [Q Qp]. apply add_err; [|exact Q].
    eapply rng_weaken; [exact HS|lra|]. pose proof big_pos. lra.
  - cbn [vpure fadd fmul fdiv fofZ A64]. destruct (err_in _ (He _ Hi)) as [Q Qp]. destruct (err_in _ (He i ltac:(lia))) as [Q' Qp'].
    apply add_err; [|exact Q]. unfold nextv. cbn [fadd fsub fmul fdiv fofZ fexp fneg A64].
    apply var_step; try assumption; [apply rho_in, Hi|apply IH; lia].
Qed.
Lemma mpure_in i : (i < length t)%nat -> rng (- (4 * p2 k)) (4 * p2 k) (mp i).
Proof.
  pose proof (bpow_gt_0 radix2 k) as Hb. induction i as [|i IH]; intros Hi.
  - cbn [mpure fofZ A64]. destruct (ofZ_val 0) as [F V]; [reflexivity|]. split; [exact F|rewrite V; lra].
  - cbn [mpure]. unfold nextm. cbn [fadd fsub fmul fdiv fofZ fexp fneg A64]. destruct (err_in _ (He i ltac:(lia))) as [Q' Qp'].
    apply (mean_step k Hk); [apply rho_in, Hi| |apply IH; lia|].
    + apply ratio_in; try assumption. apply vpure_in; lia.
    + eapply rng_weaken; [apply Hy; lia|lra|lra].
Qed.

(** prediction at a time past the data *)
Lemma forecast_in u b : length t = S b -> fin u -> val (nth b t (ofZ64 0)) <= val u ->
  rng (- (4 * p2 k)) (4 * p2 k) (fst (forecast A t dt y e sig w u (S b))) /\ rng 0 (7 * big) (snd (forecast A t dt y e sig w u (S b))).
Proof.
  intros Hb Fu Hu. cbn [forecast fst snd]. pose proof (bpow_gt_0 radix2 k) as Hbp.
  assert (rng 0 1 (exp64 (Bopp (u ⊖ nth b t (ofZ64 0)) ⊗ w))) as Hr.
  { apply HE. destruct Hw as [Fw Bw]. pose proof (bpow_gt_0 radix2 (-499)) as P.
    destruct Ht as [H1 H2]. destruct (sub_nonneg u _ Fu (H1 b ltac:(lia)) Hu) as [[Fd Bd]|E].
    - destruct (Req_dec (val (u ⊖ nth b t (ofZ64 0))) 0) as [E0|N0].
      + left. pose proof (mul_in 0 0 (Bopp (u ⊖ nth b t (ofZ64 0))) w) as [F B]; try assumption; try rb.
        * unfold fin. rewrite is_finite_Bopp. exact Fd.
        * unfold val at 1 3. rewrite B2R_Bopp. fold (val (u ⊖ nth b t (ofZ64 0))). rewrite E0. lra.
        * split; [exact F|lra].
      + apply mul_nonpos.
        * unfold fin. rewrite is_finite_Bopp. exact Fd.
        * unfold val at 1. rewrite B2R_Bopp. fold (val (u ⊖ nth b t (ofZ64 0))). lra.
        * left. split; [exact Fw|lra].
    - rewrite E. right. destruct (pos_sign w) as (m & ex & H & ->); [lra|]. reflexivity. }
  destruct (err_in _ (He b ltac:(lia))) as [Q Qp]. pose proof (vpure_in b ltac:(lia)) as Hv.
  unfold nextm, nextv. cbn [fadd fsub fmul fdiv fofZ fexp fneg A64]. split.
  - apply (mean_step k Hk); [exact Hr|apply ratio_in; assumption|apply mpure_in; lia|]. eapply rng_weaken; [apply Hy; lia|lra|lra].
  - apply var_step; try assumption. apply S0_in; assumption.
Qed.
End Filter64.
