(** Double precision: the instance of [Arith] whose numbers are the IEEE binary64 numbers of Flocq, rounding to nearest
    even.  The functions of libm are arguments. *)
From Coq Require Import Reals ZArith Bool Lra Lia List.
From Flocq Require Import Core BinarySingleNaN.
From Verif Require Import Arith.
Local Open Scope R_scope.

Definition b64 := binary_float 53 1024.
#[global] Instance p53 : Prec_gt_0 53. Proof. reflexivity. Qed.
#[global] Instance p53_1024 : Prec_lt_emax 53 1024. Proof. reflexivity. Qed.

Section Inst.
Variables (exp64 log64 sin64 cos64 : b64 -> b64) (pow64 : b64 -> b64 -> b64).

Definition ofZ64 (z : Z) : b64 := binary_normalize 53 1024 p53 p53_1024 mode_NE z 0 false.
(** M_PI = 884279719003555 * 2^-48 *)
Definition pi64 : b64 := binary_normalize 53 1024 p53 p53_1024 mode_NE 884279719003555 (-48) false.

(** The double operations of the C++ code on an IEEE platform (not code of /repo).  A decimal literal n/d is the rounded
    quotient of two integers, which are exact below 2^53. *)
Definition A64 : Arith := {|
  F := b64;
  fofZ := ofZ64;
  fdec := fun n d => Bdiv mode_NE (ofZ64 n) (ofZ64 (Zpos d));
  fadd := Bplus mode_NE; fsub := Bminus mode_NE; fmul := Bmult mode_NE; fdiv := Bdiv mode_NE;
  fneg := Bopp; fabs := Babs; fsqrt := Bsqrt mode_NE;
  fexp := exp64; flog := log64; fsin := sin64; fcos := cos64; fpow := pow64;
  fpi := pi64; finf := B754_infinity false;
  flt := Bltb; feq := Beqb; ffin := is_finite
|}.
End Inst.

(** ** Representable numbers *)
Notation fx := (FLT_exp (-1074) 53).
Notation rnd := (round radix2 fx ZnearestE).
Definition repr (r : R) : Prop := generic_format radix2 fx r /\ Rabs r < bpow radix2 1024.
Definition val (x : b64) : R := B2R x.
Definition fin (x : b64) : Prop := is_finite x = true.
(** a finite number within bounds *)
Definition rng (lo hi : R) (x : b64) : Prop := fin x /\ lo <= val x <= hi.

Lemma repr_val x : repr (val x).
Proof. split; [apply (generic_format_B2R 53 1024)|apply (abs_B2R_lt_emax 53 1024)]. Qed.
Lemma repr_F m e : (Z.abs m < 2 ^ 53)%Z -> (-1074 <= e)%Z -> (e <= 971)%Z -> repr (IZR m * bpow radix2 e).
Proof.
  intros Hm He1 He2. split.
  - apply generic_format_FLT. exists (Float radix2 m e); [reflexivity|exact Hm|exact He1].
  - rewrite Rabs_mult, (Rabs_pos_eq (bpow radix2 e)) by apply bpow_ge_0. rewrite <- abs_IZR.
    apply Rlt_le_trans with (bpow radix2 53 * bpow radix2 e).
    + apply Rmult_lt_compat_r; [apply bpow_gt_0|]. change (bpow radix2 53) with (IZR (2 ^ 53)). apply IZR_lt. exact Hm.
    + rewrite <- bpow_plus. apply bpow_le. lia.
Qed.
Lemma repr_0 : repr 0.
Proof. replace 0 with (IZR 0 * bpow radix2 0) by (simpl; ring). apply repr_F; simpl; lia. Qed.
Lemma repr_Z m : (Z.abs m < 2 ^ 53)%Z -> repr (IZR m).
Proof. intros H. replace (IZR m) with (IZR m * bpow radix2 0) by (simpl; ring). apply repr_F; [exact H|lia|lia]. Qed.
Lemma repr_opp r : repr r -> repr (- r).
Proof. intros [H1 H2]. split; [apply generic_format_opp, H1|rewrite Rabs_Ropp; exact H2]. Qed.
Lemma repr_bound r : repr r -> Rabs r <= bpow radix2 1024 - bpow radix2 971.
Proof.
  intros [H1 H2]. assert (generic_format radix2 fx (bpow radix2 1024)) as Hb by (apply generic_format_bpow; unfold FLT_exp; lia).
  pose proof (pred_ge_gt radix2 fx (Rabs r) (bpow radix2 1024) (generic_format_abs _ _ _ H1) Hb H2) as Hp.
  rewrite pred_bpow in Hp. exact Hp.
Qed.

Lemma rnd_repr r : repr r -> rnd r = r.
Proof. intros [H _]. apply round_generic; [apply valid_rnd_N|exact H]. Qed.
Lemma rnd_in lo hi r : repr lo -> repr hi -> lo <= r <= hi -> lo <= rnd r <= hi.
Proof.
  intros Hlo Hhi [H1 H2]. pose proof (round_le radix2 fx ZnearestE lo r H1) as A1. pose proof (round_le radix2 fx ZnearestE r hi H2) as A2.
  rewrite (rnd_repr lo Hlo) in A1. rewrite (rnd_repr hi Hhi) in A2. split; assumption.
Qed.
Lemma rnd_small lo hi r : repr lo -> repr hi -> lo <= r <= hi -> Rlt_bool (Rabs (rnd r)) (bpow radix2 1024) = true.
Proof.
  intros Hlo Hhi H. pose proof (rnd_in lo hi r Hlo Hhi H) as [A1 A2]. destruct Hlo as [_ B1], Hhi as [_ B2].
  apply Rlt_bool_true. apply Rabs_def2 in B1. apply Rabs_def2 in B2. apply Rabs_def1; lra.
Qed.

Lemma add_in lo hi x y : fin x -> fin y -> repr lo -> repr hi -> lo <= val x + val y <= hi -> rng lo hi (Bplus mode_NE x y).
Proof.
  intros Fx Fy Hlo Hhi H. pose proof (Bplus_correct 53 1024 p53 p53_1024 mode_NE x y Fx Fy) as HC.
  cbn [round_mode] in HC. change (SpecFloat.fexp 53 1024) with fx in HC.
  unfold val in H. rewrite (rnd_small lo hi _ Hlo Hhi H) in HC. destruct HC as (E & Ef & _). split; [exact Ef|].
  unfold val at 1 2. rewrite E. apply rnd_in; assumption.
Qed.
Lemma sub_in lo hi x y : fin x -> fin y -> repr lo -> repr hi -> lo <= val x - val y <= hi -> rng lo hi (Bminus mode_NE x y).
Proof.
  intros Fx Fy Hlo Hhi H. pose proof (Bminus_correct 53 1024 p53 p53_1024 mode_NE x y Fx Fy) as HC.
  cbn [round_mode] in HC. change (SpecFloat.fexp 53 1024) with fx in HC.
  unfold val in H. rewrite (rnd_small lo hi _ Hlo Hhi H) in HC. destruct HC as (E & Ef & _). split; [exact Ef|].
  unfold val at 1 2. rewrite E. apply rnd_in; assumption.
Qed.
Lemma mul_in lo hi x y : fin x -> fin y -> repr lo -> repr hi -> lo <= val x * val y <= hi -> rng lo hi (Bmult mode_NE x y).
Proof.
  intros Fx Fy Hlo Hhi H. pose proof (Bmult_correct 53 1024 p53 p53_1024 mode_NE x y) as HC.
  cbn [round_mode] in HC. change (SpecFloat.fexp 53 1024) with fx in HC.
  unfold val in H. rewrite (rnd_small lo hi _ Hlo Hhi H) in HC. destruct HC as (E & Ef & _). split.
  - unfold fin in *. rewrite Ef, Fx, Fy. reflexivity.
  - unfold val at 1 2. rewrite E. apply rnd_in; assumption.
Qed.
Lemma div_in lo hi x y : fin x -> fin y -> val y <> 0 -> repr lo -> repr hi -> lo <= val x / val y <= hi -> rng lo hi (Bdiv mode_NE x y).
Proof.
  intros Fx Fy Hy Hlo Hhi H. pose proof (Bdiv_correct 53 1024 p53 p53_1024 mode_NE x y Hy) as HC.
  cbn [round_mode] in HC. change (SpecFloat.fexp 53 1024) with fx in HC.
  unfold val in H. rewrite (rnd_small lo hi _ Hlo Hhi H) in HC. destruct HC as (E & Ef & _). split.
  - unfold fin in *. rewrite Ef. exact Fx.
  - unfold val at 1 2. rewrite E. apply rnd_in; assumption.
Qed.
Lemma sqrt_in lo hi x : fin x -> repr lo -> repr hi -> 0 <= val x -> lo <= sqrt (val x) <= hi -> rng lo hi (Bsqrt mode_NE x).
Proof.
  intros Fx Hlo Hhi Hx H. pose proof (Bsqrt_correct 53 1024 p53 p53_1024 mode_NE x) as HC.
  cbn [round_mode] in HC. change (SpecFloat.fexp 53 1024) with fx in HC. destruct HC as (E & Ef & _). split.
  - unfold fin in *. rewrite Ef. destruct x as [s|s| |s m e Hb]; try reflexivity; try discriminate Fx. destruct s; [|reflexivity].
    exfalso. unfold val, B2R in Hx. cbn in Hx. assert (F2R (Float radix2 (Z.neg m) e) < 0) by (apply F2R_lt_0; reflexivity). lra.
  - unfold val at 1 2. rewrite E. apply rnd_in; assumption.
Qed.
Lemma opp_rng lo hi x : rng lo hi x -> rng (- hi) (- lo) (Bopp x).
Proof. intros [Fx H]. split; [unfold fin; rewrite is_finite_Bopp; exact Fx|]. unfold val in *. rewrite B2R_Bopp. lra. Qed.

Lemma ofZ_val z : (Z.abs z < 2 ^ 53)%Z -> fin (ofZ64 z) /\ val (ofZ64 z) = IZR z.
Proof.
  intros Hz. pose proof (binary_normalize_correct 53 1024 p53 p53_1024 mode_NE z 0 false) as HC.
  cbn [round_mode] in HC. change (SpecFloat.fexp 53 1024) with fx in HC.
  assert (F2R (Float radix2 z 0) = IZR z) as Ef by (unfold F2R; cbn; ring).
  rewrite Ef in HC. rewrite (rnd_repr (IZR z) (repr_Z z Hz)) in HC. rewrite Rlt_bool_true in HC by (apply repr_Z, Hz).
  destruct HC as (E & F1 & _). split; [exact F1|exact E].
Qed.

Lemma rng_weaken lo hi lo' hi' x : rng lo hi x -> lo' <= lo -> hi <= hi' -> rng lo' hi' x.
Proof. intros [Fx H] H1 H2. split; [exact Fx|lra]. Qed.
Lemma rng_self x : fin x -> rng (val x) (val x) x.
Proof. intros H. split; [exact H|lra]. Qed.

(** products of non-negative numbers with a factor at most 1 *)
Lemma mul_shrink a x y : rng 0 1 x -> rng 0 a y -> repr a -> rng 0 a (Bmult mode_NE x y).
Proof.
  intros [Fx Hx] [Fy Hy] Ha. apply mul_in; try assumption; [apply repr_0|]. split; [apply Rmult_le_pos; lra|].
  apply Rle_trans with (1 * val y); [|lra]. apply Rmult_le_compat_r; lra.
Qed.
Lemma mul_shrink_r a x y : rng 0 a x -> rng 0 1 y -> repr a -> rng 0 a (Bmult mode_NE x y).
Proof.
  intros [Fx Hx] [Fy Hy] Ha. apply mul_in; try assumption; [apply repr_0|]. split; [apply Rmult_le_pos; lra|].
  apply Rle_trans with (val x * 1); [|lra]. apply Rmult_le_compat_l; lra.
Qed.
Lemma one_minus x lo hi : rng lo hi x -> repr (1 - lo) -> repr (1 - hi) -> rng (1 - hi) (1 - lo) (Bminus mode_NE (ofZ64 1) x).
Proof.
  intros [Fx Hx] H1 H2. destruct (ofZ_val 1) as [F1 V1]; [reflexivity|]. apply sub_in; try assumption. rewrite V1. lra.
Qed.
