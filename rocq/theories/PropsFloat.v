(** C79, C80: double precision. *)
From Coq Require Import Reals ZArith Bool Lra Lia List.
From Flocq Require Import Core BinarySingleNaN.
From Verif Require Import Arith Res ListLemmas KFModel KF1X History CarpackModel LogLikProof Float64 Float64KF Float64LD Float64Top Float64Pred.
Import ListNotations.
Local Open Scope R_scope.
Local Notation p2 e := (bpow radix2 e).
Local Notation "l .[ i ]" := (nth i l (ofZ64 0)) (at level 2, format "l .[ i ]").

(** C79: the CAR(1) filter on IEEE doubles with rounding to nearest.  The times are finite and sorted, the measurements
    at most 2^k in size, the error bars between 2^-500 and 2^500, sigma^2 at most 2^500 and omega between 2^-499 and 2^500.
    Then Filter() returns, all its means are finite and at most 2^(k+2) in size, and all its variances are finite,
    positive, and at least the rounded square of the error bar.  Of libm's exp only this is used: at a number <= 0 or
    -infinity it returns a number between 0 and 1. *)
Theorem C79_filter_double : forall exp64 log64 sin64 cos64 pow64 (k : Z) (s : kf1 (A64 exp64 log64 sin64 cos64 pow64)),
  exp_sane exp64 -> (-900 <= k <= 1000)%Z ->
  usable s -> times64 (k_time s) ->
  (forall i, (i < length (k_time s))%nat -> fin (k_y s).[i] /\ Rabs (val (k_y s).[i]) <= p2 k) ->
  (forall i, (i < length (k_time s))%nat -> fin (k_yerr s).[i] /\ p2 (-500) <= val (k_yerr s).[i] <= p2 500) ->
  fin (k_sig s) -> 0 <= val (k_sig s) <= p2 500 -> fin (k_ext s) -> p2 (-499) <= val (k_ext s) <= p2 500 ->
  exists s', Filter (methods1 (A64 exp64 log64 sin64 cos64 pow64)) s = Ok s' /\
    length (k_mean s') = length (k_time s) /\ length (k_var s') = length (k_time s) /\
    forall i, (i < length (k_time s))%nat ->
      fin (k_mean s').[i] /\ Rabs (val (k_mean s').[i]) <= 4 * p2 k /\
      fin (k_var s').[i] /\ 0 < rnd (val (k_yerr s).[i] * val (k_yerr s).[i]) <= val (k_var s').[i] /\ val (k_var s').[i] <= p2 1003.
Proof.
  intros exp64 log64 sin64 cos64 pow64 k s HE Hk Hu Ht Hy He Fs Bs Fw Bw. apply filter64; [exact HE|exact Hk|].
  split; try assumption; try (split; assumption). intros i Hi. destruct (Hy i Hi) as [F B]. split; [exact F|apply Rabs_le_inv; exact B].
Qed.
Print Assumptions C79_filter_double.

(** and so are the mean and the variance predicted for a time after the last measurement; this variance is >= 0 *)
Theorem C79_forecast_double : forall exp64 log64 sin64 cos64 pow64 (k : Z) (s : kf1 (A64 exp64 log64 sin64 cos64 pow64)) u,
  exp_sane exp64 -> (-900 <= k <= 1000)%Z ->
  usable s -> times64 (k_time s) ->
  (forall i, (i < length (k_time s))%nat -> fin (k_y s).[i] /\ Rabs (val (k_y s).[i]) <= p2 k) ->
  (forall i, (i < length (k_time s))%nat -> fin (k_yerr s).[i] /\ p2 (-500) <= val (k_yerr s).[i] <= p2 500) ->
  fin (k_sig s) -> 0 <= val (k_sig s) <= p2 500 -> fin (k_ext s) -> p2 (-499) <= val (k_ext s) <= p2 500 ->
  fin u -> val (k_time s).[length (k_time s) - 1] < val u ->
  exists m v s', m_Predict (methods1 (A64 exp64 log64 sin64 cos64 pow64)) s u = Ok ((m, v), s') /\
    fin m /\ Rabs (val m) <= 4 * p2 k /\ fin v /\ 0 <= val v <= p2 1003.
Proof.
  intros exp64 log64 sin64 cos64 pow64 k s u HE Hk Hu Ht Hy He Fs Bs Fw Bw. apply predict64; [exact HE|exact Hk|].
  split; try assumption; try (split; assumption). intros i Hi. destruct (Hy i Hi) as [F B]. split; [exact F|apply Rabs_le_inv; exact B].
Qed.
Print Assumptions C79_forecast_double.

(** Predictions at every time, before, between or after the measurements, are finite with a positive variance.  Here the
    ranges are narrower: error bars and omega between 2^-100 and 2^100, sigma^2 between 2^-100 and 2^98, fewer than 2^50
    measurements; and omega times the distance from each earlier measurement to the time of the prediction is at least
    2^-40.  Of exp it is used also that it is at most 1 - 2^-42 at numbers <= -2^-41 and at -infinity. *)
Theorem C79_predict_double : forall exp64 log64 sin64 cos64 pow64 (k : Z) (s : kf1 (A64 exp64 log64 sin64 cos64 pow64)) (u : b64),
  exp_sane exp64 -> (forall x, fin x -> val x <= - p2 (-41) -> val (exp64 x) <= 1 - p2 (-42)) -> val (exp64 (B754_infinity true)) <= 1 - p2 (-42) ->
  (-700 <= k <= 400)%Z ->
  usable s -> times64 (k_time s) -> (Z.of_nat (length (k_time s)) < 2 ^ 50)%Z ->
  (forall i, (i < length (k_time s))%nat -> fin (k_y s).[i] /\ Rabs (val (k_y s).[i]) <= p2 k) ->
  (forall i, (i < length (k_time s))%nat -> fin (k_yerr s).[i] /\ p2 (-100) <= val (k_yerr s).[i] <= p2 100) ->
  fin (k_sig s) -> p2 (-100) <= val (k_sig s) <= p2 98 -> fin (k_ext s) -> p2 (-100) <= val (k_ext s) <= p2 100 ->
  fin u ->
  (forall i, (i < length (k_time s))%nat -> val (k_time s).[i] < val u -> p2 (-40) <= val (k_ext s) * (val u - val (k_time s).[i])) ->
  exists m v s', m_Predict (methods1 (A64 exp64 log64 sin64 cos64 pow64)) s u = Ok ((m, v), s') /\ fin m /\ fin v /\ 0 < val v <= p2 252.
Proof.
  intros exp64 log64 sin64 cos64 pow64 k s u HE HD HL Hk Hu Ht Hn Hy He Fs Bs Fw Bw Fu Hg.
  apply (predict_any64 exp64 log64 sin64 cos64 pow64 k s u); try assumption; try (split; assumption).
  intros i Hi. destruct (Hy i Hi) as [F B]. split; [exact F|apply Rabs_le_inv; exact B].
Qed.
Print Assumptions C79_predict_double.
(** The hypotheses on exp hold of a correctly rounded one, and a prediction between two measurements meets the rest. *)
Example C79_predict_hypotheses_met : exists exp64, exp_sane exp64 /\ (forall x, fin x -> val x <= - p2 (-41) -> val (exp64 x) <= 1 - p2 (-42)) /\
  val (exp64 (B754_infinity true)) <= 1 - p2 (-42) /\
  forall log64 sin64 cos64 pow64, exists s : kf1 (A64 exp64 log64 sin64 cos64 pow64),
  usable s /\ times64 (k_time s) /\ length (k_time s) = 2%nat /\
  (forall i, (i < 2)%nat -> fin (k_y s).[i] /\ Rabs (val (k_y s).[i]) <= p2 3) /\
  (forall i, (i < 2)%nat -> fin (k_yerr s).[i] /\ p2 (-100) <= val (k_yerr s).[i] <= p2 100) /\
  fin (k_sig s) /\ p2 (-100) <= val (k_sig s) <= p2 98 /\ fin (k_ext s) /\ p2 (-100) <= val (k_ext s) <= p2 100 /\
  val (k_time s).[0%nat] < val (ofZ64 1) < val (k_time s).[1%nat] /\
  (forall i, (i < 2)%nat -> val (k_time s).[i] < val (ofZ64 1) -> p2 (-40) <= val (k_ext s) * (val (ofZ64 1) - val (k_time s).[i])).
Proof.
  destruct libm_exists as (e & l & He & _). exists e. destruct (exp_correct_sane e He) as [H1 _]. destruct (exp_correct_drop e He) as [H2 H3].
  split; [exact H1|]. split; [exact H2|]. split; [exact H3|]. intros log64 sin64 cos64 pow64. set (A := A64 e log64 sin64 cos64 pow64).
  exists (mkKF A [ofZ64 0; ofZ64 4] (diffs A [ofZ64 0; ofZ64 4]) [ofZ64 3; ofZ64 (-5)] [ofZ64 1; ofZ64 1] [ofZ64 0; ofZ64 0] [ofZ64 0; ofZ64 0] (ofZ64 2) 0%nat (ofZ64 0) (ofZ64 0) (ofZ64 1) : kf1 A).
  pose proof (fun z H => proj1 (ofZ_val z H)) as Fz. pose proof (fun z H => proj2 (ofZ_val z H)) as Vz.
  assert (p2 (-100) <= p2 0) by (apply bpow_le; lia). assert (p2 1 <= p2 98) by (apply bpow_le; lia). assert (p2 0 <= p2 100) by (apply bpow_le; lia).
  assert (p2 (-40) <= p2 0) by (apply bpow_le; lia). change (p2 0) with 1 in *. change (p2 1) with 2 in *.
  split; [repeat split; reflexivity|]. cbn [k_time k_y k_yerr k_sig k_ext].
  split; [split; intros i Hi; destruct i as [|[|i]]; cbn [length nth] in *; try lia; try (apply Fz; reflexivity); rewrite !Vz by reflexivity; lra|].
  split; [reflexivity|].
  split; [intros i Hi; destruct i as [|[|i]]; cbn [nth]; try lia; (split; [apply Fz; reflexivity|]); rewrite Vz by reflexivity; change (p2 3) with 8; apply Rabs_le; lra|].
  split; [intros i Hi; destruct i as [|[|i]]; cbn [nth]; try lia; (split; [apply Fz; reflexivity|]); rewrite Vz by reflexivity; lra|].
  split; [apply Fz; reflexivity|]. split; [rewrite Vz by reflexivity; lra|]. split; [apply Fz; reflexivity|]. split; [rewrite Vz by reflexivity; lra|].
  cbn [nth]. split; [rewrite !Vz by reflexivity; lra|]. intros i Hi. destruct i as [|[|i]]; cbn [nth]; try lia; rewrite !Vz by reflexivity; lra.
Qed.
(** Closer than that it fails: after a measurement with an error of 2^-30 (about 1e-9, the standard deviation of the process
    being 1) the mean predicted for a time 2^-60 later is NaN, although a later measurement follows. *)
Theorem C79_close_refuted : forall exp64 log64 sin64 cos64 pow64, exp_correct exp64 ->
  exists (s : kf1 (A64 exp64 log64 sin64 cos64 pow64)) (u : b64) v s',
    usable s /\ length (k_time s) = 2%nat /\ times64 (k_time s) /\ val (k_time s).[0%nat] < val u < val (k_time s).[1%nat] /\ fin u /\
    (forall i, (i < 2)%nat -> fin (k_y s).[i] /\ fin (k_yerr s).[i] /\ val (k_yerr s).[i] = p2 (-30)) /\
    val (k_sig s) = 2 /\ val (k_ext s) = 1 /\
    m_Predict (methods1 (A64 exp64 log64 sin64 cos64 pow64)) s u = Ok ((B754_nan, v), s').
Proof.
  intros exp64 log64 sin64 cos64 pow64 HE. destruct (close_nan exp64 log64 sin64 cos64 pow64 HE) as (v & s' & E).
  exists (sC exp64 log64 sin64 cos64 pow64), d60, v, s'. split; [apply sC_usable|]. split; [reflexivity|].
  destruct (pow_val (-60)) as [F60 V60]; [lia|]. fold d60 in F60, V60. destruct (pow_val (-30)) as [F30 V30]; [lia|]. fold d30 in F30, V30.
  destruct (Zc 0 eq_refl) as [F0 V0]. destruct (Zc 1 eq_refl) as [F1 V1]. destruct (Zc 2 eq_refl) as [_ V2].
  assert (p2 (-60) < 1) by (change 1 with (p2 0); apply bpow_lt; lia). pose proof (bpow_gt_0 radix2 (-60)).
  cbn [sC k_time k_y k_yerr k_sig k_ext]. unfold tC, yC, eC.
  split; [split; intros i Hi; (destruct i as [|[|i]]; [| |exfalso; cbn in Hi; lia])|].
  { exact F0. } { exact F1. } { cbn [nth]. lra. } { exfalso; cbn in Hi; lia. }
  split; [cbn [nth]; rewrite V60; lra|]. split; [exact F60|].
  split; [intros i Hi; destruct i as [|[|i]]; cbn [nth]; try lia; (split; [assumption|]; split; assumption)|].
  split; [lra|]. split; [lra|]. exact E.
Qed.
Print Assumptions C79_close_refuted.

(** Without error bars this fails, although the exact filter has positive variances (C08): for every correctly rounded exp
    there is a usable filter with three distinct finite times in which the second variance is 0 and the third is NaN. *)
Theorem C79_exact_data_refuted : forall exp64 log64 sin64 cos64 pow64, exp_correct exp64 ->
  exists s : kf1 (A64 exp64 log64 sin64 cos64 pow64),
    usable s /\ length (k_time s) = 3%nat /\
    (forall i, (i < 3)%nat -> fin (k_time s).[i] /\ val (k_y s).[i] = 0 /\ val (k_yerr s).[i] = 0) /\
    val (k_time s).[0%nat] < val (k_time s).[1%nat] < val (k_time s).[2%nat] /\ val (k_sig s) = 2 /\ val (k_ext s) = 1 /\
    exists s', Filter (methods1 (A64 exp64 log64 sin64 cos64 pow64)) s = Ok s' /\ val (k_var s').[1%nat] = 0 /\ (k_var s').[2%nat] = B754_nan.
Proof.
  intros exp64 log64 sin64 cos64 pow64 HE. exists (s3 exp64 log64 sin64 cos64 pow64). split; [apply s3_usable|]. split; [reflexivity|].
  destruct t3_inc as (H & F1 & F2). destruct (Zc 0 eq_refl) as [F0 V0]. destruct (Zc 1 eq_refl) as [_ V1]. destruct (Zc 2 eq_refl) as [_ V2].
  assert (val (ofZ64 0) = 0) as E0 by lra.
  split; [|split; [exact H|split; [cbn [s3 k_sig]; lra|split; [cbn [s3 k_ext]; lra|]]]].
  - intros i Hi. destruct i as [|[|[|i]]]; try lia; cbn [s3 k_time k_y k_yerr t3 z3 nth]; (split; [assumption|split; exact E0]).
  - destruct (exact_nan exp64 log64 sin64 cos64 pow64 HE) as (s' & E & [_ R] & N). exists s'. split; [exact E|]. split; [lra|exact N].
Qed.
Print Assumptions C79_exact_data_refuted.

(** A correctly rounded libm exists and meets what is assumed of libm here. *)
Example libm_hypotheses_met : exists e l, exp_correct e /\ exp_sane e /\ exp_total e /\ log_sane l.
Proof.
  destruct libm_exists as (e & l & He & Hl). exists e, l. destruct (exp_correct_sane e He). split; [exact He|]. split; [assumption|]. split; [assumption|].
  apply log_correct_sane, Hl.
Qed.
(** a filter that meets the hypotheses of C79 *)
Definition dz (z : Z) : b64 := ofZ64 z.
Lemma small_p2 : p2 (-500) <= 1 <= p2 500 /\ p2 (-499) <= 1 /\ 2 <= p2 500.
Proof.
  assert (p2 (-500) <= p2 0) by (apply bpow_le; lia). assert (p2 (-499) <= p2 0) by (apply bpow_le; lia).
  assert (p2 1 <= p2 500) by (apply bpow_le; lia). assert (p2 0 <= p2 500) by (apply bpow_le; lia).
  change (p2 0) with 1 in *. change (p2 1) with 2 in *. lra.
Qed.
Example C79_hypotheses_met exp64 log64 sin64 cos64 pow64 : exists s : kf1 (A64 exp64 log64 sin64 cos64 pow64),
  usable s /\ length (k_time s) = 3%nat /\ times64 (k_time s) /\
  (forall i, (i < length (k_time s))%nat -> fin (k_y s).[i] /\ Rabs (val (k_y s).[i]) <= p2 3) /\
  (forall i, (i < length (k_time s))%nat -> fin (k_yerr s).[i] /\ p2 (-500) <= val (k_yerr s).[i] <= p2 500) /\
  fin (k_sig s) /\ 0 <= val (k_sig s) <= p2 500 /\ fin (k_ext s) /\ p2 (-499) <= val (k_ext s) <= p2 500 /\
  fin (dz 9) /\ val (k_time s).[length (k_time s) - 1] < val (dz 9).
Proof.
  set (A := A64 exp64 log64 sin64 cos64 pow64).
  exists (mkKF A [dz 0; dz 1; dz 4] (diffs A [dz 0; dz 1; dz 4]) [dz 3; dz (-5); dz 0] [dz 1; dz 1; dz 1] [dz 0; dz 0; dz 0] [dz 0; dz 0; dz 0] (dz 2) 0%nat (dz 0) (dz 0) (dz 1) : kf1 A).
  pose proof small_p2 as P. pose proof (fun z H => proj1 (ofZ_val z H)) as Fz. pose proof (fun z H => proj2 (ofZ_val z H)) as Vz.
  split; [repeat split; try reflexivity; cbn; lia|]. split; [reflexivity|]. cbn [k_time k_y k_yerr k_sig k_ext length].
  split; [|split; [|split; [|split; [|split; [|split; [|split; [|split]]]]]]].
  - split; intros i Hi; destruct i as [|[|[|i]]]; cbn [length nth] in *; try lia; unfold dz; try (apply Fz; reflexivity); rewrite !Vz by reflexivity; lra.
  - intros i Hi. destruct i as [|[|[|i]]]; cbn [length nth] in *; try lia; unfold dz; (split; [apply Fz; reflexivity|]); rewrite Vz by reflexivity; change (p2 3) with 8; apply Rabs_le; lra.
  - intros i Hi. destruct i as [|[|[|i]]]; cbn [length nth] in *; try lia; unfold dz; (split; [apply Fz; reflexivity|]); rewrite Vz by reflexivity; lra.
  - apply Fz; reflexivity.
  - unfold dz. rewrite Vz by reflexivity. lra.
  - apply Fz; reflexivity.
  - unfold dz. rewrite Vz by reflexivity. lra.
  - apply Fz; reflexivity.
  - cbn [Nat.sub nth]. unfold dz. rewrite !Vz by reflexivity. lra.
Qed.

(** C80: CAR1::LogDensity on IEEE doubles.  For data of any ordinary size (strictly increasing times with gaps of at
    least 2^-100; times, measurements and the mean parameter up to 2^100; error bars between 2^-100 and 2^100; up to
    2^50 points) the constructor succeeds and keeps the data, and whatever was done to the object since, LogDensity returns
    at every finite theta: a finite number if CheckPriorBounds accepts theta, else -infinity.  Never NaN, never +infinity,
    no exception. *)
Theorem C80_logdensity_double : forall exp64 log64 sin64 cos64 pow64 si (raw : kf1 (A64 exp64 log64 sin64 cos64 pow64)) t y e,
  exp_sane exp64 -> exp_total exp64 -> log_sane log64 -> in_range t y e ->
  exists b, car1_new si raw t y e = Ok b /\ b_time b = t /\ b_y b = y /\ b_yerr b = e /\
  forall b' th, touched (car1_cls (A64 exp64 log64 sin64 cos64 pow64)) (@setpar1 (A64 exp64 log64 sin64 cos64 pow64)) b b' ->
    (4 <= length th)%nat -> (forall i, (i < 4)%nat -> fin th.[i]) -> Rabs (val th.[2%nat]) <= p2 100 ->
    exists ok v b'', CheckPriorBounds1 (b_bounds b) th = Ok ok /\ LogDensity (car1_cls (A64 exp64 log64 sin64 cos64 pow64)) b' th = Ok (v, b'') /\
      (ok = true -> fin v) /\ (ok = false -> v = B754_infinity true).
Proof.
  intros exp64 log64 sin64 cos64 pow64 si raw t y e HE HT HL HR.
  destruct (density64 exp64 log64 sin64 cos64 pow64 si raw t y e HE HT HL HR) as (b & Eb & E1 & E2 & E3 & H).
  exists b. split; [exact Eb|]. split; [exact E1|]. split; [exact E2|]. split; [exact E3|].
  intros b' th Htc Hl Hf Hm. apply H; [exact Htc|]. split; [exact Hl|]. split; [exact Hf|]. split; [apply Hf; lia|apply Rabs_le_inv; exact Hm].
Qed.
Print Assumptions C80_logdensity_double.
(** Data that meet the hypotheses, and parameters that the prior check accepts: theta = (1, 1, 0, 0), omega = 1. *)
Example C80_hypotheses_met : exists exp64 log64, exp_sane exp64 /\ exp_total exp64 /\ log_sane log64 /\
  forall sin64 cos64 pow64 si raw, exists t y e th b, length t = 3%nat /\ in_range t y e /\
    (4 <= length th)%nat /\ (forall i, (i < 4)%nat -> fin th.[i]) /\ Rabs (val th.[2%nat]) <= p2 100 /\ val th.[0%nat] = 1 /\
    car1_new (A := A64 exp64 log64 sin64 cos64 pow64) si raw t y e = Ok b /\ CheckPriorBounds1 (b_bounds b) th = Ok true.
Proof.
  destruct libm_exists as (exp64 & log64 & He & Hl). destruct (exp_correct_sane _ He) as [H1 H2].
  exists exp64, log64. split; [exact H1|]. split; [exact H2|]. split; [apply log_correct_sane, Hl|]. intros sin64 cos64 pow64 si raw.
  pose proof (fun z H => proj1 (ofZ_val z H)) as Fz. pose proof (fun z H => proj2 (ofZ_val z H)) as Vz.
  assert (p2 (-100) <= p2 0) as P1 by (apply bpow_le; lia). assert (p2 3 <= p2 100) as P2 by (apply bpow_le; lia).
  change (p2 0) with 1 in P1. change (p2 3) with 8 in P2.
  assert (in_range [dz 0; dz 1; dz 2] [dz (-1); dz 0; dz 1] [dz 1; dz 1; dz 1]) as HR.
  { split; try reflexivity; try (cbn; lia); intros i Hi; destruct i as [|[|[|i]]]; cbn [length nth] in *; try lia; unfold dz;
      try (split; [apply Fz; reflexivity|]); rewrite ?Vz by reflexivity; lra. }
  destruct (car1_new64 exp64 log64 sin64 cos64 pow64 _ _ _ HR si raw) as (b & Eb & _).
  exists [dz 0; dz 1; dz 2], [dz (-1); dz 0; dz 1], [dz 1; dz 1; dz 1], [dz 1; dz 1; dz 0; dz 0], b.
  split; [reflexivity|]. split; [exact HR|]. split; [cbn; lia|].
  split; [intros i Hi; destruct i as [|[|[|[|i]]]]; try lia; apply Fz; reflexivity|].
  split; [cbn [nth]; unfold dz; rewrite Vz by reflexivity; rewrite Rabs_R0; lra|]. split; [apply Vz; reflexivity|]. split; [exact Eb|].
  assert (exp64 (dz 0) = dz 1) as E1.
  { destruct He as [He _]. specialize (He (dz 0) (Fz 0%Z eq_refl)). unfold dz in *. rewrite Vz in He by reflexivity. rewrite exp_0 in He. unfold rounds in He.
    rewrite (rnd_repr 1 repr_1), Rlt_bool_true in He by apply repr_1. destruct He as [F V].
    apply (B2R_inj 53 1024); [|reflexivity|fold (val (exp64 (ofZ64 0))) (val (ofZ64 1)); rewrite V, Vz by reflexivity; reflexivity].
    destruct (pos_sign (exp64 (ofZ64 0))) as (m & ex & Hm & ->); [lra|reflexivity]. }
  destruct (kf_new64 exp64 log64 sin64 cos64 pow64 _ _ _ HR _ si raw) as (s & Es & _).
  unfold car1_new, base_new in Eb. rewrite Es in Eb. unfold CheckPriorBounds1, vget. cbn [nth_error bind].
  change (fexp (A64 exp64 log64 sin64 cos64 pow64) (dz 0)) with (exp64 (dz 0)). rewrite E1.
  set (A := A64 exp64 log64 sin64 cos64 pow64) in *.
  pose (chk := fun bd : bounds A => negb (flt A (max_freq bd) (dz 1) || flt A (dz 1) (min_freq bd) || scalar_bad bd (dz 1) (dz 1))).
  change (Ok (chk (b_bounds b)) = Ok true). f_equal.
  assert (match (v <- @vvar A [dz (-1); dz 0; dz 1] ;; @make_bounds A [dz 0; dz 1; dz 2] (fmul A (fofZ A 10) (fsqrt A v)) false) with
    Ok bd => chk bd = true | _ => False end) as K by (vm_compute; reflexivity).
  destruct (@vvar A [dz (-1); dz 0; dz 1]) as [v|x| |]; cbn [bind] in K, Eb; try discriminate Eb.
  destruct (@make_bounds A _ _ _) as [bd|x| |]; cbn [bind] in K, Eb; try discriminate Eb.
  injection Eb as <-. exact K.
Qed.
