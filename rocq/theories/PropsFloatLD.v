(** C126: how far the double precision CAR(1) log-density is from the exact one. *)
From Coq Require Import Reals ZArith Bool Lra Lia List.
From Flocq Require Import Core BinarySingleNaN.
From Verif Require Import Arith Res ListLemmas KFModel KF1X History SpecModel CarpackModel LogLikProof Float64 Float64KF Float64LD Float64Top FloatErrKF FloatErrLD PropsFloat.
Import ListNotations.
Local Open Scope R_scope.
Local Notation p2 e := (bpow radix2 e).
Local Notation "l .[ i ]" := (nth i l (ofZ64 0)) (at level 2, format "l .[ i ]").

(** C126: an object made by CAR1 from at most 2^40 measurements of ordinary size (times and values of size at most 2^100, gaps and error
    bars at least 2^-100), whatever has been done to it since.  At any parameters (sd, scale, mu, log omega) that the prior check accepts,
    with sd > 0, LogDensity returns a number which differs from the exact logarithm of the normal density of the
    measurements (without the constant -(n/2) log(2 pi)) plus the exact log-prior by at most
      2^17 n^3 2^-53 (sd^2 + scale emax^2)/(scale emin^2) (1 + 4^k/(scale emin^2)),
    where the error bars are between emin and emax, and the measured values and mu at most 2^k in size.  Of libm it is used
    that exp at numbers <= 0 and -infinity is in [0,1] and off by at most 2^-53, is never NaN or negative at numbers, and has a relative
    error of at most 2^-52 where it lies between 2^-200 and 2^200, and that log at positive numbers is at most 2000 in size and off by at
    most 2^-53 (1 + |log x|). *)
Theorem C126_logdensity_error : forall exp64 log64 sin64 cos64 pow64 si (raw : kf1 (A64 exp64 log64 sin64 cos64 pow64)) t y e,
  exp_sane exp64 -> exp_total exp64 -> (forall x, fin x -> val x <= 0 -> Rabs (val (exp64 x) - exp (val x)) <= p2 (-53)) ->
  (forall x, fin x -> rng (p2 (-200)) (p2 200) (exp64 x) -> Rabs (val (exp64 x) - exp (val x)) <= p2 (-52) * exp (val x)) ->
  log_sane log64 ->
  (forall x, fin x -> 0 < val x -> fin (log64 x) /\ Rabs (val (log64 x) - ln (val x)) <= p2 (-53) * (1 + Rabs (ln (val x)))) ->
  in_range t y e -> (Z.of_nat (length t) <= 2 ^ 40)%Z ->
  exists b, car1_new si raw t y e = Ok b /\
  forall b' th (k : Z) emin emax,
    touched (car1_cls (A64 exp64 log64 sin64 cos64 pow64)) (@setpar1 (A64 exp64 log64 sin64 cos64 pow64)) b b' ->
    (4 <= length th)%nat -> (forall i, (i < 4)%nat -> fin th.[i]) -> CheckPriorBounds1 (b_bounds b) th = Ok true -> 0 < val th.[0%nat] ->
    (-100 <= k <= 100)%Z -> (forall i, (i < length t)%nat -> Rabs (val y.[i]) <= p2 k) -> Rabs (val th.[2%nat]) <= p2 k ->
    p2 (-100) <= emin -> (forall i, (i < length t)%nat -> emin <= val e.[i] <= emax) ->
    exists v b'' x, LogDensity (car1_cls (A64 exp64 log64 sin64 cos64 pow64)) b' th = Ok (v, b'') /\ fin v /\
      is_loglik (fun a c => val th.[0%nat] * val th.[0%nat] * exp (- (exp (val th.[3%nat]) * Rabs (a - c)))) (map val t) (map val y) (map val e)
        (val th.[1%nat]) (val th.[2%nat]) x /\
      Rabs (val v - (x + log_sichi (val th.[1%nat]))) <=
        p2 17 * INR (length t) ^ 3 * p2 (-53) * ((val th.[0%nat] ^ 2 + val th.[1%nat] * emax ^ 2) / (val th.[1%nat] * emin ^ 2)) *
        (1 + p2 k ^ 2 / (val th.[1%nat] * emin ^ 2)).
Proof.
  intros exp64 log64 sin64 cos64 pow64 si raw t y e HE HT HX HXR HL HG HR Hn.
  destruct (object_err exp64 log64 sin64 cos64 pow64 si raw t y e HE HT HX HXR HL HG HR Hn) as (b & Eb & H). exists b. split; [exact Eb|].
  intros b' th k emin emax H1 H2 H3 H4 H5 H6 H7 H8 H9 H10. destruct (H b' th k emin emax H1 H2 H3 H4 H5 H6 H7 H8 H9 H10) as (v & b'' & x & El & [Fv _] & Hx & Er).
  exists v, b'', x. split; [exact El|]. split; [exact Fv|]. split; [exact Hx|exact Er].
Qed.
Print Assumptions C126_logdensity_error.

(** What is asked of exp and log holds of a correctly rounded libm, and the measurements -1, 0, 1 at the times 0, 1, 2 with unit error bars,
    with the parameters (1, 1, 0, 0), meet the rest.  The bound is then below 2 10^-9. *)
Example C126_hypotheses_met : exists exp64 log64, exp_sane exp64 /\ exp_total exp64 /\ exp_accurate exp64 /\ exp_relative exp64 /\ log_sane log64 /\ log_accurate log64 /\
  forall sin64 cos64 pow64 si raw, exists t y e th b, length t = 3%nat /\ in_range t y e /\
    (4 <= length th)%nat /\ (forall i, (i < 4)%nat -> fin th.[i]) /\ val th.[0%nat] = 1 /\ val th.[1%nat] = 1 /\
    (forall i, (i < length t)%nat -> Rabs (val y.[i]) <= p2 0) /\ Rabs (val th.[2%nat]) <= p2 0 /\ (forall i, (i < length t)%nat -> 1 <= val e.[i] <= 1) /\
    car1_new (A := A64 exp64 log64 sin64 cos64 pow64) si raw t y e = Ok b /\ CheckPriorBounds1 (b_bounds b) th = Ok true /\
    p2 17 * INR (length t) ^ 3 * p2 (-53) * ((val th.[0%nat] ^ 2 + val th.[1%nat] * 1 ^ 2) / (val th.[1%nat] * 1 ^ 2)) * (1 + p2 0 ^ 2 / (val th.[1%nat] * 1 ^ 2)) <= 2 / 10 ^ 9.
Proof.
  destruct libm_exists as (exp64 & log64 & He & Hl). destruct (exp_correct_sane _ He) as [H1 H2].
  exists exp64, log64. split; [exact H1|]. split; [exact H2|]. split; [apply exp_correct_accurate, He|]. split; [apply exp_correct_relative, He|].
  split; [apply log_correct_sane, Hl|]. split; [apply log_correct_accurate, Hl|]. intros sin64 cos64 pow64 si raw.
  pose proof (fun z H => proj1 (ofZ_val z H)) as Fz. pose proof (fun z H => proj2 (ofZ_val z H)) as Vz.
  assert (p2 (-100) <= p2 0) as P1 by (apply bpow_le; lia). assert (p2 3 <= p2 100) as P2 by (apply bpow_le; lia).
  change (p2 0) with 1 in *. change (p2 3) with 8 in P2.
  assert (in_range [dz 0; dz 1; dz 2] [dz (-1); dz 0; dz 1] [dz 1; dz 1; dz 1]) as HR.
  { split; try reflexivity; try (cbn; lia); intros i Hi; destruct i as [|[|[|i]]]; cbn [length nth] in *; try lia; unfold dz;
      try (split; [apply Fz; reflexivity|]); rewrite ?Vz by reflexivity; lra. }
  destruct (car1_new64 exp64 log64 sin64 cos64 pow64 _ _ _ HR si raw) as (b & Eb & _).
  exists [dz 0; dz 1; dz 2], [dz (-1); dz 0; dz 1], [dz 1; dz 1; dz 1], [dz 1; dz 1; dz 0; dz 0], b.
  split; [reflexivity|]. split; [exact HR|]. split; [cbn; lia|].
  split; [intros i Hi; destruct i as [|[|[|[|i]]]]; try lia; apply Fz; reflexivity|].
  split; [apply Vz; reflexivity|]. split; [apply Vz; reflexivity|].
  split; [intros i Hi; destruct i as [|[|[|i]]]; cbn [length nth] in *; try lia; unfold dz; rewrite Vz by reflexivity; apply Rabs_le; lra|].
  split; [cbn [nth]; unfold dz; rewrite Vz by reflexivity; rewrite Rabs_R0; lra|].
  split; [intros i Hi; destruct i as [|[|[|i]]]; cbn [length nth] in *; try lia; unfold dz; rewrite Vz by reflexivity; lra|].
  split; [exact Eb|]. split.
  - assert (exp64 (dz 0) = dz 1) as E1.
    { destruct He as [He _]. specialize (He (dz 0) (Fz 0%Z eq_refl)). unfold dz in *. rewrite Vz in He by reflexivity. rewrite exp_0 in He. unfold rounds in He.
      rewrite (rnd_repr 1 repr_1), Rlt_bool_true in He by apply repr_1. destruct He as [F V].
      apply (B2R_inj 53 1024); [|reflexivity|fold (val (exp64 (ofZ64 0))) (val (ofZ64 1)); rewrite V, Vz by reflexivity; reflexivity].
      destruct (pos_sign (exp64 (ofZ64 0))) as (m & ex & Hm & ->); [lra|reflexivity]. }
    destruct (kf_new64 exp64 log64 sin64 cos64 pow64 _ _ _ HR _ si raw) as (s & Es & _).
    unfold car1_new, base_new in Eb. rewrite Es in Eb. unfold CheckPriorBounds1, vget. cbn [nth_error bind].
    change (fexp (A64 exp64 log64 sin64 cos64 pow64) (dz 0)) with (exp64 (dz 0)). rewrite E1.
    set (A := A64 exp64 log64 sin64 cos64 pow64) in *.
    pose (chk := fun bd : bounds A => negb (flt A (max_freq bd) (dz 1) || flt A (dz 1) (min_freq bd) || scalar_bad bd (dz 1) (dz 1))).
    change (Ok (chk (b_bounds b)) = Ok true). f_equal.
    assert (match (v <- @vvar A [dz (-1); dz 0; dz 1] ;; @make_bounds A [dz 0; dz 1; dz 2] (fmul A (fofZ A 10) (fsqrt A v)) false) with
      Ok bd => chk bd = true | _ => False end) as K by (vm_compute; reflexivity).
    destruct (@vvar A [dz (-1); dz 0; dz 1]) as [v|x| |]; cbn [bind] in K, Eb; try discriminate Eb.
    destruct (@make_bounds A _ _ _) as [bd|x| |]; cbn [bind] in K, Eb; try discriminate Eb.
    injection Eb as <-. exact K.
  - cbn [nth length]. unfold dz. rewrite !Vz by reflexivity. simpl INR. cbn [bpow]. change (Z.pow_pos radix2 53) with 9007199254740992%Z. change (Z.pow_pos radix2 17) with 131072%Z. lra.
Qed.
