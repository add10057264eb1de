(** C123 on doubles: KalmanFilter1 and measurements with a very large or infinite error bar. *)
From Coq Require Import Reals ZArith Bool Lra Lia List.
From Flocq Require Import Core BinarySingleNaN.
From Verif Require Import Arith Res ListLemmas Spec Gauss Emb KFModel KF1Proof KF1R KF1X History Cx KFpModel Float64 Float64KF Float64LD Float64Top Float64Pred.
Import ListNotations.
Local Open Scope R_scope.
Local Notation p2 e := (bpow radix2 e).
Local Notation "x ⊕ y" := (Bplus mode_NE x y) (at level 50, left associativity).
Local Notation "x ⊖ y" := (Bminus mode_NE x y) (at level 50, left associativity).
Local Notation "x ⊗ y" := (Bmult mode_NE x y) (at level 40, left associativity).
Local Notation "x ⊘ y" := (Bdiv mode_NE x y) (at level 40, left associativity).
Local Notation "l .[ i ]" := (nth i l (ofZ64 0)) (at level 2, format "l .[ i ]").
Local Notation inf := (@B754_infinity 53 1024 false).
Local Notation nan := (@B754_nan 53 1024).

(** ** An infinite error bar *)
Lemma inf_lost x : (x ⊕ inf ⊗ inf) ⊖ inf ⊗ inf = nan.
Proof. destruct x as [sg|[]| |sg m ex H]; reflexivity. Qed.
Lemma nan_mul x : x ⊗ nan = nan. Proof. destruct x; reflexivity. Qed.
Lemma mul_nan x : nan ⊗ x = nan. Proof. destruct x; reflexivity. Qed.
Lemma nan_add x : x ⊕ nan = nan. Proof. destruct x; reflexivity. Qed.
Lemma add_nan x : nan ⊕ x = nan. Proof. destruct x; reflexivity. Qed.
Lemma nan_sub x : x ⊖ nan = nan. Proof. destruct x; reflexivity. Qed.
Lemma sub_nan x : nan ⊖ x = nan. Proof. destruct x; reflexivity. Qed.
Lemma div_nan x : nan ⊘ x = nan. Proof. destruct x; reflexivity. Qed.

Section Inf.
Variables (exp64 log64 sin64 cos64 : b64 -> b64) (pow64 : b64 -> b64 -> b64).
Local Notation A := (A64 exp64 log64 sin64 cos64 pow64).
Variables (dt y e : list b64) (sig w : b64).
Local Notation vp := (vpure A dt e sig w).
Local Notation mp := (mpure A dt y e sig w).
Lemma after_inf b : e.[b] = inf -> vp (S b) = nan /\ mp (S b) = nan.
Proof.
  intros He. assert (vp b ⊖ inf ⊗ inf = nan) as Hp.
  { destruct b as [|b]; cbn [vpure]; cbn [fadd fsub fmul fdiv fneg fofZ fexp A64]; change (F A) with b64; rewrite He; apply inf_lost. }
  cbn [vpure mpure]. unfold nextv, nextm. cbn [fadd fsub fmul fdiv fneg fofZ fexp A64]. change (F A) with b64. rewrite He, Hp.
  rewrite div_nan, !nan_mul, !mul_nan, !nan_add, add_nan. split; reflexivity.
Qed.
Lemma ever_after b i : e.[b] = inf -> (b < i)%nat -> vp i = nan /\ mp i = nan.
Proof.
  intros He Hi. induction Hi as [|i Hi [IHv IHm]]; [apply after_inf, He|].
  cbn [vpure mpure]. unfold nextv, nextm. cbn [fadd fsub fmul fdiv fneg fofZ fexp A64]. rewrite IHv, IHm.
  rewrite sub_nan, div_nan, !nan_mul, !mul_nan, !nan_add, add_nan. split; reflexivity.
Qed.
End Inf.

(** C123: an infinite error bar does not switch a measurement off.  In every CAR(1) filter on IEEE doubles, whatever its data and parameters, Filter()
    returns NaN for the mean and the variance of every measurement after one whose error bar is infinite: Update computes the variance of the process as the
    difference of two infinities. *)
Theorem C123_infinite_error_refuted : forall exp64 log64 sin64 cos64 pow64 (s : kf1 (A64 exp64 log64 sin64 cos64 pow64)) b,
  usable s -> (b < length (k_time s))%nat -> (k_yerr s).[b] = inf ->
  exists s', Filter (methods1 (A64 exp64 log64 sin64 cos64 pow64)) s = Ok s' /\
    forall i, (b < i < length (k_time s))%nat -> (k_mean s').[i] = nan /\ (k_var s').[i] = nan.
Proof.
  intros exp64 log64 sin64 cos64 pow64 s b Hu Hb He. rewrite (Filter1_ok (usable_wf (A64 exp64 log64 sin64 cos64 pow64) s Hu)). eexists. split; [reflexivity|].
  destruct Hu as (U1 & U2 & U3 & U4 & U5 & U6). intros i [H1 H2]. unfold fstate. cbn [k_mean k_var k_time]. rewrite U2.
  rewrite !(@nth_filled (F (A64 exp64 log64 sin64 cos64 pow64))) by exact H2.
  destruct (ever_after exp64 log64 sin64 cos64 pow64 (diffs (A64 exp64 log64 sin64 cos64 pow64) (k_time s)) (k_y s) (k_yerr s) (k_sig s) (k_ext s) b i He H1) as [E1 E2].
  split; [exact E2|exact E1].
Qed.
Print Assumptions C123_infinite_error_refuted.

(** ** A very large error bar *)
Lemma big_pow z : (0 <= z <= 1023)%Z -> fin (binary_normalize 53 1024 p53 p53_1024 mode_NE 1 z false) /\
  val (binary_normalize 53 1024 p53 p53_1024 mode_NE 1 z false) = p2 z.
Proof.
  intros Hz. pose proof (binary_normalize_correct 53 1024 p53 p53_1024 mode_NE 1 z false) as HC.
  cbn [round_mode] in HC. change (SpecFloat.fexp 53 1024) with fx in HC.
  assert (F2R (Float radix2 1 z) = p2 z) as E by (unfold F2R; cbn [Fnum Fexp]; ring). rewrite E in HC.
  assert (repr (p2 z)) as Rz by rp. rewrite (rnd_repr _ Rz) in HC. rewrite Rlt_bool_true in HC by apply Rz.
  destruct HC as (V & F & _). split; [exact F|exact V].
Qed.
Lemma rnd_absorb z : (54 <= z <= 1023)%Z -> rnd (1 + p2 z) = p2 z.
Proof.
  intros Hz. assert (repr (p2 z)) as Rz by rp. pose proof (bpow_gt_0 radix2 z) as P.
  pose proof (round_le radix2 fx ZnearestE (p2 z) (1 + p2 z) ltac:(lra)) as L. rewrite (rnd_repr _ Rz) in L.
  apply Rle_antisym; [|exact L].
  apply (round_N_le_midp radix2 fx (fun x => negb (Z.even x)) (p2 z) (1 + p2 z)); [apply Rz|].
  rewrite succ_eq_pos by lra. rewrite ulp_bpow.
  assert (p2 2 <= p2 (fx (z + 1))) as Q. { apply bpow_le. unfold fx, SpecFloat.fexp, FLT_exp. unfold SpecFloat.emin. lia. }
  assert (p2 2 = 4) as E2 by (cbn; lra). rewrite E2 in Q. change (SpecFloat.fexp 53 1024) with fx. lra.
Qed.
Lemma add_rndv r x y : repr r -> fin x -> fin y -> rnd (val x + val y) = r -> rng r r (x ⊕ y).
Proof.
  intros Hr Fx Fy E. pose proof (Bplus_correct 53 1024 p53 p53_1024 mode_NE x y Fx Fy) as HC.
  cbn [round_mode] in HC. change (SpecFloat.fexp 53 1024) with fx in HC. fold (val x) (val y) in HC. rewrite E in HC.
  rewrite Rlt_bool_true in HC by apply Hr. destruct HC as (V & F & _). apply rng_eq. split; [exact F|exact V].
Qed.

Definition pw (z : Z) : b64 := binary_normalize 53 1024 p53 p53_1024 mode_NE 1 z false.
Lemma pw_rng z : (-1074 <= z <= 1023)%Z -> rng (p2 z) (p2 z) (pw z).
Proof. intros H. destruct (Z.le_gt_cases z 0) as [L|L]; apply rng_eq; [apply pow_val; lia|apply big_pow; lia]. Qed.

Lemma repr_1m j : (0 <= j <= 52)%Z -> repr (1 - p2 (- j)).
Proof.
  intros Hj. replace (1 - p2 (- j)) with (IZR (2 ^ j - 1) * p2 (- j)).
  - apply repr_mult; [|lia]. assert (2 ^ j <= 2 ^ 52)%Z by (apply Z.pow_le_mono_r; lia). assert (0 < 2 ^ j)%Z by (apply Z.pow_pos_nonneg; lia). lia.
  - rewrite minus_IZR. pose proof (IZR_Zpower radix2 j ltac:(lia)) as Ez. change (Zpower radix2 j) with (2 ^ j)%Z in Ez. rewrite Ez. rewrite Rmult_minus_distr_r, <- bpow_plus. replace (j + - j)%Z with 0%Z by lia. change (p2 0) with 1. ring.
Qed.

Section Large.
Variables (exp64 log64 sin64 cos64 : b64 -> b64) (pow64 : b64 -> b64 -> b64).
Local Notation A := (A64 exp64 log64 sin64 cos64 pow64).
Variable j : Z.
Hypothesis Hj : (27 <= j <= 500)%Z.
Variables y0 y1 : b64.
(** two measurements 2^-10 apart; the first has the error bar 2^j, the second the error bar 1; sigma^2 = 2 and omega = 1, so the process has variance 1 *)
Definition tM : list b64 := [ofZ64 0; pw (-10)].
Definition eM : list b64 := [pw j; ofZ64 1].
Definition sM : kf1 A := mkKF A tM (diffs A tM) [y0; y1] eM tM tM (ofZ64 2) 0 (ofZ64 0) (ofZ64 0) (ofZ64 1).
Lemma sM_usable : usable sM.
Proof. repeat split; try reflexivity. Qed.
Lemma large_var : exp_correct exp64 -> exists s', Filter (methods1 A) sM = Ok s' /\ fin (k_var s').[1%nat] /\ val (k_var s').[1%nat] <= 1 + p2 (-9).
Proof using All.
  intros HE. rewrite (Filter1_ok (usable_wf A sM sM_usable)). eexists. split; [reflexivity|].
  unfold fstate. cbn [k_mean k_var k_time k_yerr k_dt k_y k_sig k_ext sM].
  rewrite !(@nth_filled (F A)) by (cbn; lia).
  cbn [vpure diffs tM eM nth]. unfold nextv. cbn [fadd fsub fmul fdiv fneg fofZ fexp A64].
  pose proof (Zc 0 eq_refl) as R0. pose proof (Zc 1 eq_refl) as R1. pose proof (Zc 2 eq_refl) as R2.
  set (z0 := ofZ64 0) in *. set (o1 := ofZ64 1) in *. set (o2 := ofZ64 2) in *.
  pose proof (pw_rng j ltac:(lia)) as Rj. pose proof (pw_rng (-10) ltac:(lia)) as R10.
  set (ej := pw j) in *. set (d := pw (-10)) in *. clearbody ej d.
  assert (rng 1 1 (o2 ⊘ (o2 ⊗ o1))) as RS.
  { eapply rng_cast; [apply (div_eq 2 (2 * 1)); [exact R2|apply mul_eq; [exact R2|exact R1|]|lra|]|field].
    - replace (2 * 1) with 2 by ring. rz.
    - replace (2 / (2 * 1)) with 1 by field. rz. }
  assert (rng (p2 (j + j)) (p2 (j + j)) (ej ⊗ ej)) as Rq.
  { rewrite bpow_plus. apply mul_eq; [exact Rj|exact Rj|]. rewrite <- bpow_plus. rp. }
  assert (rng (- p2 (-10)) (- p2 (-10)) (Bopp o1 ⊗ o1 ⊗ (d ⊖ z0))) as Ra.
  { eapply rng_cast; [apply (mul_eq (- 1 * 1) (p2 (-10) - 0)); [apply (mul_eq (- 1) 1); [apply opp_rng; exact R1|exact R1|]|apply sub_eq; [exact R10|exact R0|]|]|ring].
    - replace (-1 * 1) with (-1) by ring. rz.
    - replace (p2 (-10) - 0) with (p2 (-10)) by ring. rp.
    - replace (-1 * 1 * (p2 (-10) - 0)) with (- p2 (-10)) by ring. apply repr_opp. rp. }
  set (S0 := o2 ⊘ (o2 ⊗ o1)) in *. set (q := ej ⊗ ej) in *. set (ar := Bopp o1 ⊗ o1 ⊗ (d ⊖ z0)) in *. clearbody S0 q ar.
  assert (rng (1 - p2 (-10)) 1 (exp64 ar)) as Rr.
  { destruct Ra as [Fa Ba]. destruct HE as [HE _]. specialize (HE ar Fa). eapply rounds_in; [| | |exact HE].
    - apply (repr_1m 10); lia.
    - rz.
    - replace (val ar) with (- p2 (-10)) by lra. pose proof (bpow_gt_0 radix2 (-10)). split.
      + pose proof (exp_ineq1 (- p2 (-10)) ltac:(lra)). lra.
      + rewrite <- exp_0. left. apply exp_increasing. lra. }
  set (rho := exp64 ar) in *. clearbody rho.
  assert (p2 (-10) = 1 / 1024) as P10 by (cbn; lra). assert (p2 (-9) = 1 / 512) as P9 by (cbn; lra).
  assert (rng (1 - p2 (-9)) 1 (rho ⊗ rho)) as Rr2.
  { destruct Rr as [Fr Br]. apply mul_in; try assumption; [apply (repr_1m 9); lia|rz|]. rewrite P10 in Br. rewrite P9. nra. }
  set (r2 := rho ⊗ rho) in *. clearbody r2.
  assert (rng (p2 (j + j)) (p2 (j + j)) (S0 ⊕ q)) as Rv.
  { destruct RS as [FS BS]. destruct Rq as [Fq Bq]. apply add_rndv; try assumption; [rp|]. replace (val S0) with 1 by lra. replace (val q) with (p2 (j + j)) by lra. apply rnd_absorb; lia. }
  set (vb := S0 ⊕ q) in *. clearbody vb.
  assert (rng 0 0 (vb ⊖ q)) as Rp.
  { eapply rng_cast; [apply (sub_eq (p2 (j + j)) (p2 (j + j))); [exact Rv|exact Rq|]|ring]. replace (p2 (j + j) - p2 (j + j)) with 0 by ring. apply repr_0. }
  set (pv := vb ⊖ q) in *. clearbody pv. pose proof (bpow_gt_0 radix2 (j + j)) as Pj.
  assert (rng 0 0 (pv ⊘ vb)) as Rra.
  { eapply rng_cast; [apply (div_eq 0 (p2 (j + j))); [exact Rp|exact Rv|lra|]|field; lra]. replace (0 / p2 (j + j)) with 0 by (field; lra). apply repr_0. }
  set (ra := pv ⊘ vb) in *. clearbody ra.
  assert (rng 0 (p2 (-9)) (o1 ⊖ r2)) as Rc2.
  { eapply rng_weaken; [apply (one_minus r2 _ _ Rr2)| |]; try lra.
    - replace (1 - (1 - p2 (-9))) with (p2 (-9)) by ring. rp.
    - replace (1 - 1) with 0 by ring. apply repr_0. }
  assert (rng 0 (p2 (-9)) (S0 ⊗ (o1 ⊖ r2))) as Rf.
  { destruct RS as [FS BS]. destruct Rc2 as [Fc Bc]. apply mul_in; try assumption; [apply repr_0|rp|]. replace (val S0) with 1 by lra. lra. }
  assert (rng 0 0 (r2 ⊗ pv)) as Rg.
  { destruct Rr2 as [Fr Br]. destruct Rp as [Fp Bp]. apply mul_in; try assumption; try apply repr_0. replace (val pv) with 0 by lra. lra. }
  assert (rng 0 0 (r2 ⊗ pv ⊗ (o1 ⊖ ra))) as Rh.
  { eapply rng_cast; [apply (mul_eq 0 (1 - 0)); [exact Rg|apply sub_eq; [exact R1|exact Rra|]|]|ring].
    - replace (1 - 0) with 1 by ring. rz.
    - replace (0 * (1 - 0)) with 0 by ring. apply repr_0. }
  assert (rng 0 (p2 (-9)) (S0 ⊗ (o1 ⊖ r2) ⊕ r2 ⊗ pv ⊗ (o1 ⊖ ra))) as Rs.
  { destruct Rf as [Ff Bf]. destruct Rh as [Fh Bh]. apply add_in; try assumption; [apply repr_0|rp|]. lra. }
  assert (rng 1 1 (o1 ⊗ o1)) as Ro.
  { eapply rng_cast; [apply (mul_eq 1 1); [exact R1|exact R1|]|ring]. replace (1 * 1) with 1 by ring. rz. }
  assert (rng 1 (1 + p2 (-9)) (S0 ⊗ (o1 ⊖ r2) ⊕ r2 ⊗ pv ⊗ (o1 ⊖ ra) ⊕ o1 ⊗ o1)) as Rz.
  { destruct Rs as [Ff Bf]. destruct Ro as [Fh Bh]. apply add_in; try assumption; [rz| |lra].
    replace (1 + p2 (-9)) with (IZR 513 * p2 (-9)) by (rewrite P9; lra). apply repr_mult; [reflexivity|lia]. }
  destruct Rz as [Fz Bz]. split; [exact Fz|apply Bz].
Qed.
End Large.

(** the exact variance of the second measurement given the first *)
Lemma exact_var j Y m v : (27 <= j <= 500)%Z -> cond_dist (ou_cov 2 1) [0] [Y] [p2 j] (p2 (-10)) m v -> 2 - p2 (-53) <= v + 1.
Proof.
  intros Hj (c & Hc & _ & Hv). specialize (Hc 0%nat ltac:(cbn; lia)). cbn [length Rsum nth] in Hc, Hv.
  unfold obs_cov, ou_cov in Hc, Hv. cbn [Nat.eqb nth] in Hc, Hv. pose proof (bpow_gt_0 radix2 (-10)) as P.
  rewrite !Rminus_0_r, Rminus_eq_0, Rabs_R0 in *. rewrite (Rabs_pos_eq (p2 (-10))) in * by lra.
  rewrite Rmult_0_r, Ropp_0, exp_0 in *. set (r := exp (- (1 * p2 (-10)))) in *.
  assert (0 < r < 1) as Hr. { split; [apply exp_pos|]. rewrite <- exp_0. apply exp_increasing. lra. }
  assert (p2 (-53) * p2 (j + j) >= 1) as Hq. { rewrite <- bpow_plus. apply Rle_ge. change 1 with (p2 0). apply bpow_le. lia. }
  rewrite <- bpow_plus in Hc. set (E := p2 (j + j)) in *. pose proof (bpow_gt_0 radix2 (j + j)) as PE. fold E in PE. pose proof (bpow_gt_0 radix2 (-53)) as Ph. set (h := p2 (-53)) in *. clearbody r E h.
  replace (2 / (2 * 1)) with 1 in * by field.
  assert (c 0%nat = r / (1 + E)) as Ec. { apply Rmult_eq_reg_r with (1 + E); [|lra]. unfold Rdiv. rewrite Rmult_assoc, Rinv_l by lra. lra. }
  assert (r / (1 + E) * r <= h) as HB.
  { apply Rmult_le_reg_r with (1 + E); [lra|]. replace (r / (1 + E) * r * (1 + E)) with (r * r) by (field; lra). assert (r * r <= 1) by nra. lra. }
  rewrite Hv, Ec. lra.
Qed.

(** C123: nor does a large finite one.  Two measurements of a CAR(1) process of variance 1, taken 2^-10 apart; the first has the error bar 2^j for some j
    between 27 and 500, so it says nothing about the process, and the second has the error bar 1.  The exact variance of the second given the first is 2, up
    to 2^-53.  On IEEE doubles with a correctly rounded exp, Filter() reports at most 1 + 2^-9 for it: the variance of the process is lost beside 2^(2j), so
    Update takes the process at the first time as known exactly. *)
Theorem C123_large_error_refuted : forall exp64 log64 sin64 cos64 pow64 (j : Z) (y0 y1 : b64), exp_correct exp64 -> (27 <= j <= 500)%Z ->
  exists (s s' : kf1 (A64 exp64 log64 sin64 cos64 pow64)) E d,
    usable s /\ k_time s = [ofZ64 0; d] /\ k_y s = [y0; y1] /\ k_yerr s = [E; ofZ64 1] /\ k_sig s = ofZ64 2 /\ k_ext s = ofZ64 1 /\
    fin d /\ val d = p2 (-10) /\ fin E /\ val E = p2 j /\
    Filter (methods1 (A64 exp64 log64 sin64 cos64 pow64)) s = Ok s' /\ fin (k_var s').[1%nat] /\ val (k_var s').[1%nat] <= 1 + p2 (-9) /\
    forall Y m v, cond_dist (ou_cov 2 1) [0] [Y] [p2 j] (p2 (-10)) m v -> 2 - p2 (-53) <= v + 1.
Proof.
  intros exp64 log64 sin64 cos64 pow64 j y0 y1 HE Hj.
  destruct (large_var exp64 log64 sin64 cos64 pow64 j Hj y0 y1 HE) as (s' & E1 & F1 & B1).
  pose proof (pw_rng j ltac:(lia)) as Rj. pose proof (pw_rng (-10) ltac:(lia)) as R10. apply rng_eq in Rj, R10.
  exists (sM exp64 log64 sin64 cos64 pow64 j y0 y1), s', (pw j), (pw (-10)).
  split; [apply sM_usable|]. do 5 (split; [reflexivity|]). split; [apply R10|]. split; [apply R10|]. split; [apply Rj|]. split; [apply Rj|].
  split; [exact E1|]. split; [exact F1|]. split; [exact B1|]. intros Y m v. apply exact_var, Hj.
Qed.
Print Assumptions C123_large_error_refuted.
Example ex_mask : exists e l, exp_correct e /\ log_correct l.
Proof. exact libm_exists. Qed.
(** a filter that meets the hypotheses of C123_infinite_error_refuted *)
Example ex_infinite exp64 log64 sin64 cos64 pow64 : exists s : kf1 (A64 exp64 log64 sin64 cos64 pow64),
  usable s /\ (0 < length (k_time s))%nat /\ (k_yerr s).[0%nat] = inf /\ length (k_time s) = 3%nat.
Proof.
  set (B := A64 exp64 log64 sin64 cos64 pow64). set (t := [ofZ64 0; ofZ64 1; ofZ64 2] : list (F B)).
  exists (mkKF B t (diffs B t) t [inf; ofZ64 1; ofZ64 1] t t (ofZ64 2) 0 (ofZ64 0) (ofZ64 0) (ofZ64 1)).
  repeat split; try reflexivity; cbn; lia.
Qed.
