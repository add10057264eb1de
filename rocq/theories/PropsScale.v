(** C118: the first trial move of a CAR(1) run, and the unit of the measured values. *)
From Coq Require Import Reals List Arith ZArith Lra Lia.
From Verif Require Import Arith Res ListLemmas KFModel Emb Spec History InitProof SimProof KF1Main KF1More SpecModel CarpackModel CarpackTop EngineModel StartModel EngineSpec EngineAX Start1Proof EngineRuns StaleProof EngineReal ScaleRun.
Import ListNotations.
Local Open Scope R_scope.
Local Notation length := List.length.

(** the trial: each coordinate of the start plus a multiple of its variate *)
Definition moved (y : list R) (s k m lw u0 u1 u2 u3 : R) : list R :=
  [s + sqrt (2 / INR (length y)) * pvar y * u0; k + u1 / 100; m + sqrt (pvar y / INR (length y)) * u2; lw + u3 / 100].

(** C118: a run that records its first iteration from a start (s, k, m, lw) in the prior's range records either the start or the trial, and the trial only if it is
    in the range; a uniform variate of zero accepts every trial in the range of positive standard deviation. Here u0..u3 are the four t variates the run draws,
    uu the uniform one. *)
Theorem C118_first_move : forall (R0 : rng AX) (vsort : list (F AX) -> option (list (F AX))) (si : list (F AX) -> option (list nat)) (chol : mat AX -> option (mat AX))
    (t y e : list R) (smax fmin fmax s k m lw u0 u1 u2 u3 uu : R) (raw : kf1 AX) (v0 : list (F AX)) (l0 a0 : F AX) (g g1 g2 : gen R0)
    (w : param AX (base AX (F AX)) (list (F AX))) (g' : gen R0),
  valid_vsort vsort -> valid_sort_index si -> valid_chol chol ->
  length y = length t -> length e = length t -> strictly_increasing t -> (exists a b, In a y /\ In b y /\ a <> b) -> run_bounds t y smax fmin fmax ->
  in_prior1 smax fmin fmax [s; k; m; lw] -> s <> 0 -> length v0 = 4%nat ->
  draws 4 (student_draw (R := R0) (Fin 0)) g = (map Fin [u0; u1; u2; u3], g1) -> 0 <= uu -> @runiform AX R0 (Fin 0) (Fin 1) g1 = (Fin uu, g2) ->
  RunCar1Sampler (A := AX) (R := R0) vsort si chol 1 0 (map Fin t) (map Fin y) (map Fin e) 1 (map Fin [s; k; m; lw]) raw v0 l0 a0 g = Ok (w, g') ->
  exists th, w_samples w = [map Fin th] /\
    (th = [s; k; m; lw] \/ th = moved y s k m lw u0 u1 u2 u3 /\ in_prior1 smax fmin fmax th) /\
    (uu = 0 -> in_prior1 smax fmin fmax (moved y s k m lw u0 u1 u2 u3) -> nth 0 (moved y s k m lw u0 u1 u2 u3) 0 <> 0 -> th = moved y s k m lw u0 u1 u2 u3).
Proof.
  intros R0 vsort si chol t y e smax fmin fmax s k m lw u0 u1 u2 u3 uu raw v0 l0 a0 g g1 g2 w g' Hvs Hsi Hch Hy He Ht Hne HB Hin Hs Hv0 Hdr Huu Hun E.
  exact (first_move Hvs Hsi Hch Hy He Ht Hne HB Hin Hs Hv0 Hdr Huu Hun E).
Qed.
Print Assumptions C118_first_move.

(** C118 is false of the unit of the values: whatever the data, the start in the prior's range and the factor c > 0 other than 1, there are a generator and a state of it
    such that the run on the values and error bars multiplied by c, from the start in the new unit, returns a sample which is not the sample of the first run in the
    new unit. *)
Theorem C118_unit_refuted : forall (t y e : list R) (smax fmin fmax s k m lw c : R),
  length y = length t -> length e = length t -> strictly_increasing t -> (exists a b, In a y /\ In b y /\ a <> b) -> run_bounds t y smax fmin fmax ->
  in_prior1 smax fmin fmax [s; k; m; lw] -> s <> 0 -> 0 < c -> c <> 1 ->
  exists (R0 : rng AX) (g : gen R0), valid_rng R0 /\
  forall (vsort : list (F AX) -> option (list (F AX))) (si : list (F AX) -> option (list nat)) (chol : mat AX -> option (mat AX)) (raw raw' : kf1 AX) (v0 v0' : list (F AX)) (l0 l0' a0 : F AX),
  valid_vsort vsort -> valid_sort_index si -> valid_chol chol -> length v0 = 4%nat -> length v0' = 4%nat ->
  exists w g1 w' g1' th th',
    RunCar1Sampler (A := AX) (R := R0) vsort si chol 1 0 (map Fin t) (map Fin y) (map Fin e) 1 (map Fin [s; k; m; lw]) raw v0 l0 a0 g = Ok (w, g1) /\
    RunCar1Sampler (A := AX) (R := R0) vsort si chol 1 0 (map Fin t) (map Fin (map (fun x => c * x) y)) (map Fin (map (fun x => c * x) e)) 1
      (map Fin [c * s; k; c * m; lw]) raw' v0' l0' a0 g = Ok (w', g1') /\
    w_samples w = [map Fin th] /\ w_samples w' = [map Fin th'] /\ nth 0 th' 0 <> c * nth 0 th 0.
Proof.
  intros t y e smax fmin fmax s k m lw c Hy He Ht Hne HB Hin Hs Hc Hc1.
  assert (0 < s) as Hsp by (destruct Hin as (_ & [H _] & _); cbn in H; lra).
  set (sc := sqrt (2 / INR (length y)) * pvar y).
  assert (0 < sc) as Hsc.
  { assert (0 < INR (length y)) as Hn by (apply lt_0_INR; destruct Hne as (a & b & Ha & _); destruct y; [destruct Ha|cbn; lia]).
    apply Rmult_lt_0_compat; [|apply pvar_pos, Hne]. apply sqrt_lt_R0. apply Rmult_lt_0_compat; [lra|apply Rinv_0_lt_compat, Hn]. }
  set (d := - (s / 2) / sc). exists (rngD (d)), (0%nat, tt). split; [apply rngD_valid|].
  intros vsort si chol raw raw' v0 v0' l0 l0' a0 Hvs Hsi Hch Hv0 Hv0'.
  assert (exists a b, In a (rscale c y) /\ In b (rscale c y) /\ a <> b) as Hne'.
  { destruct Hne as (a & b & Ha & Hb & Hab). exists (c * a), (c * b). split; [apply in_map_iff; exists a; tauto|]. split; [apply in_map_iff; exists b; tauto|]. intros K. apply Hab. apply Rmult_eq_reg_l in K; lra. }
  assert (length (rscale c y) = length t) as Hy' by (unfold rscale; rewrite map_length; exact Hy).
  assert (length (rscale c e) = length t) as He' by (unfold rscale; rewrite map_length; exact He).
  pose proof (run_bounds_rscale Hc HB) as HB'.
  assert (in_prior1 (c * smax) fmin fmax [c * s; k; c * m; lw]) as Hin'.
  { destruct Hin as (H1 & [H2 H3] & H4). cbn in *. split; [exact H1|]. split; [|exact H4]. split; [apply Rmult_le_pos; lra|apply Rmult_le_compat_l; lra]. }
  assert (c * s <> 0) as Hs' by (apply Rmult_integral_contrapositive_currified; lra).
  set (u0 := 0 + 1 * d). set (u1 := 0 + 1 * 0).
  assert (draws 4 (student_draw (R := rngD d) (Fin 0)) (0%nat, tt) = (map Fin [u0; u1; u1; u1], (4%nat, tt))) as Hdr by reflexivity.
  assert (@runiform AX (rngD d) (Fin 0) (Fin 1) (4%nat, tt) = (Fin 0, (4%nat, tt))) as Hun by reflexivity.
  destruct (@car1_completes_real (rngD d) vsort si chol Hvs Hsi Hch t y e Hy He Ht Hne 1 0 1 (map Fin [s; k; m; lw]) raw v0 l0 a0 (0%nat, tt) Hv0) as (w & g1 & E).
  destruct (@car1_completes_real (rngD d) vsort si chol Hvs Hsi Hch t (rscale c y) (rscale c e) Hy' He' Ht Hne' 1 0 1 (map Fin [c * s; k; c * m; lw]) raw' v0' l0' a0 (0%nat, tt) Hv0') as (w' & g1' & E').
  destruct (first_move Hvs Hsi Hch Hy He Ht Hne HB Hin Hs Hv0 Hdr (Rle_refl 0) Hun E) as (th & S1 & _ & A1).
  destruct (first_move Hvs Hsi Hch Hy' He' Ht Hne' HB' Hin' Hs' Hv0' Hdr (Rle_refl 0) Hun E') as (th' & S2 & A2 & _).
  assert (nth 0 (trial y s k m lw u0 u1 u1 u1) 0 = s / 2) as T1 by (unfold trial; cbn [nth]; fold sc; unfold u0, d; field; lra).
  assert (in_prior1 smax fmin fmax (trial y s k m lw u0 u1 u1 u1)) as P1.
  { pose proof T1 as T1'. cbn [trial nth] in T1'. destruct Hin as (H1 & [H2 H3] & H4). unfold in_prior1. cbn [nth trial] in *. rewrite T1'. unfold u1.
    replace (lw + (0 + 1 * 0) / 100) with lw by field. replace (k + (0 + 1 * 0) / 100) with k by field. split; [exact H1|]. split; [lra|exact H4]. }
  specialize (A1 eq_refl P1). rewrite T1 in A1. specialize (A1 ltac:(lra)).
  exists w, g1, w', g1', th, th'. split; [exact E|]. split; [exact E'|]. split; [exact S1|]. split; [exact S2|].
  rewrite A1, T1. destruct A2 as [->|[-> _]]; [cbn; nra|]. cbn [trial nth].
  replace (sqrt (2 / INR (length (rscale c y))) * pvar (rscale c y)) with (c ^ 2 * sc) by (unfold sc; rewrite pvar_rscale; unfold rscale; rewrite map_length; ring).
  replace (c * s + c ^ 2 * sc * u0) with (c * (s - c * (s / 2))) by (unfold u0, d; field; lra).
  intros K. apply Rmult_eq_reg_l in K; [|lra]. assert (s * (c - 1) = 0) as K2 by lra. apply Rmult_integral in K2. lra.
Qed.
Print Assumptions C118_unit_refuted.

(** two measurements, at times 0 and 1, of values 0 and 1 *)
Example ex_C118_data : exists smax fmin fmax, run_bounds tT yT smax fmin fmax /\ in_prior1 smax fmin fmax [1; 1; 0; 0] /\ strictly_increasing tT /\ (exists a b, In a yT /\ In b yT /\ a <> b).
Proof.
  exists 5, 1, 1. assert (run_bounds tT yT 5 1 1) as HB.
  { split; [rewrite pvar_T; replace (1 / 4) with ((1 / 2) ^ 2) by field; rewrite sqrt_pow2 by lra; field|]. split; [lra|].
    split; [intros [|i] Hi; cbn in *; [lra|lia]|]. split; [exists 0%nat; split; [cbn; lia|cbn; lra]|cbn; field]. }
  split; [exact HB|]. split; [exact (in_prior_T 0 HB)|]. split; [exact increasing_T|]. exists 0, 1. cbn. repeat split; [tauto|tauto|lra].
Qed.
(** a trial: from a standard deviation of 1, with first variate 2, to 3/2 *)
Example ex_C118_trial : moved yT 1 1 0 0 2 0 0 0 = [3 / 2; 1; 0; 0].
Proof.
  unfold moved. rewrite pvar_T. cbn [yT length]. replace (2 / INR 2) with 1 by (cbn; field). rewrite sqrt_1. repeat (apply f_equal2; [field|]). reflexivity.
Qed.
