(** Property theorems C01-C03, C05-C16, C61, C62: KalmanFilter construction and KalmanFilter1.
    [AX] is the extended-real arithmetic; theorems over a variable [A] hold for every arithmetic, IEEE doubles
    included. *)
From Coq Require Import Reals List Arith ZArith Lra Lia Permutation.
From Verif Require Import Arith Res KFModel Spec History InitProof SimProof KF1Proof KF1X KF1R KF1Main KF1More KF1Refute KF1Hist OUpd.
Import ListNotations.
Local Open Scope R_scope.

(** C01: construction sorts, removes duplicates, keeps records together. *)
Theorem C01_construction_normalises : forall X si (raw : kf AX X) t y e,
  valid_sort_index si -> length y = length t -> length e = length t ->
  (exists a b, In a t /\ In b t /\ a <> b) ->
  exists s t' y' e', kf_new (A:=AX) si raw (map Fin t) (map Fin y) (map Fin e) = Ok s /\
    k_time s = map Fin t' /\ k_y s = map Fin y' /\ k_yerr s = map Fin e' /\
    strictly_increasing t' /\ (forall x, In x t' <-> In x t) /\
    (forall i, (i < length t')%nat -> exists k, (k < length t)%nat /\
       nth i t' 0 = nth k t 0 /\ nth i y' 0 = nth k y 0 /\ nth i e' 0 = nth k e 0) /\
    length y' = length t' /\ length e' = length t' /\
    usable s /\ k_sig s = k_sig raw /\ k_ext s = k_ext raw.
Proof. exact construct_c01. Qed.
Print Assumptions C01_construction_normalises.

(** C02: clean data are kept as they are, init() is idempotent, the first record of a tie is kept in sorted data. *)
Theorem C02_clean_data_unchanged : forall X si (raw : kf AX X) t y e,
  valid_sort_index si -> length y = length t -> length e = length t ->
  (exists a b, In a t /\ In b t /\ a <> b) ->
  exists s, kf_new (A:=AX) si raw (map Fin t) (map Fin y) (map Fin e) = Ok s /\
    kf_init (A:=AX) si s = Ok s /\
    (strictly_increasing t -> k_time s = map Fin t /\ k_y s = map Fin y /\ k_yerr s = map Fin e) /\
    (nondecreasing t -> forall i, (i < length (k_time s))%nat -> exists k, (k < length t)%nat /\
       nth_error (k_time s) i = Some (Fin (nth k t 0)) /\ nth_error (k_y s) i = Some (Fin (nth k y 0)) /\
       nth_error (k_yerr s) i = Some (Fin (nth k e 0)) /\ forall j, (j < k)%nat -> nth j t 0 < nth k t 0).
Proof. exact construct_c02. Qed.
Print Assumptions C02_clean_data_unchanged.

(** C03: fewer than two points (any arithmetic, NaN included) or a single distinct time: a logic_error. *)
Theorem C03_too_few_points_rejected : forall (A : Arith) X si (raw : kf A X) t y e,
  (length t < 2)%nat -> kf_new si raw t y e = Throw Elogic.
Proof. exact init_short. Qed.
Print Assumptions C03_too_few_points_rejected.

Theorem C03_equal_times_rejected : forall X si (raw : kf AX X) t y e,
  (forall a b, In a t -> In b t -> a = b) ->
  kf_new (A:=AX) si raw (map Fin t) (map Fin y) (map Fin e) = Throw Elogic.
Proof. exact construct_degenerate. Qed.
Print Assumptions C03_equal_times_rejected.

(** C05: one-step predictions are the exact conditional means and variances. *)
Theorem C05_filter_exact : forall s tr yr er sig w,
  holds1 s tr yr er sig w -> strictly_increasing tr -> 0 < sig -> 0 < w ->
  exists s', Filter (methods1 AX) s = Ok s' /\ length (k_mean s') = length tr /\ length (k_var s') = length tr /\
  forall i, (i < length tr)%nat -> exists m v,
    nth_error (k_mean s') i = Some (Fin m) /\ nth_error (k_var s') i = Some (Fin v) /\
    cond_dist (ou_cov sig w) (firstn i tr) (firstn i yr) (firstn i er) (nth i tr 0) m (v - nth i er 0 * nth i er 0) /\
    (forall a, v <= mse i (obs_cov (ou_cov sig w) (fun k => nth k tr 0) (fun k => nth k er 0))
                    (fun j => ou_cov sig w (nth i tr 0) (nth j tr 0))
                    (sig / (2 * w) + nth i er 0 * nth i er 0) a).
Proof. exact filter_c05. Qed.
Print Assumptions C05_filter_exact.

(** The specification used in C05, C07 and C11 has exactly one solution and it is the best linear prediction. *)
Theorem C05_spec_is_unique_and_optimal : forall sig w tr yr er tp m v,
  strictly_increasing tr -> 0 < sig -> 0 < w -> cond_dist (ou_cov sig w) tr yr er tp m v ->
  (forall m' v', cond_dist (ou_cov sig w) tr yr er tp m' v' -> m' = m /\ v' = v) /\
  (forall a, v <= mse (length tr) (obs_cov (ou_cov sig w) (fun i => nth i tr 0) (fun i => nth i er 0))
                  (fun j => ou_cov sig w tp (nth j tr 0)) (ou_cov sig w tp tp) a).
Proof. exact cond_determined. Qed.
Print Assumptions C05_spec_is_unique_and_optimal.

(** C06: means finite; variances finite and in (yerr^2, S0 + yerr^2]. *)
Theorem C06_filter_variances_bounded : forall s tr yr er sig w,
  holds1 s tr yr er sig w -> strictly_increasing tr -> 0 < sig -> 0 < w ->
  exists s', Filter (methods1 AX) s = Ok s' /\
  forall i, (i < length tr)%nat -> exists m v,
    nth_error (k_mean s') i = Some (Fin m) /\ nth_error (k_var s') i = Some (Fin v) /\
    nth i er 0 * nth i er 0 < v <= sig / (2 * w) + nth i er 0 * nth i er 0.
Proof. exact filter_c06. Qed.
Print Assumptions C06_filter_variances_bounded.

(** C07: Predict is the exact conditional distribution given all measurements. *)
Theorem C07_predict_exact : forall s tr yr er sig w tp,
  holds1 s tr yr er sig w -> strictly_increasing tr -> 0 < sig -> 0 < w ->
  (forall i, (i < length tr)%nat -> nth i tr 0 = tp -> nth i er 0 <> 0) ->
  exists m v s', Predict1 s (Fin tp) = Ok ((Fin m, Fin v), s') /\ cond_dist (ou_cov sig w) tr yr er tp m v.
Proof. exact predict_c07. Qed.
Print Assumptions C07_predict_exact.

(** C08: predictive variance in (0, S0] and no larger than with any initial part of the data. *)
Theorem C08_predict_variance_bounds : forall s tr yr er sig w tp,
  holds1 s tr yr er sig w -> strictly_increasing tr -> 0 < sig -> 0 < w ->
  (forall i, (i < length tr)%nat -> nth i tr 0 = tp -> nth i er 0 <> 0) ->
  exists m v s', Predict1 s (Fin tp) = Ok ((Fin m, Fin v), s') /\ 0 < v <= sig / (2 * w) /\
  forall k m' v', (k <= length tr)%nat ->
    cond_dist (ou_cov sig w) (firstn k tr) (firstn k yr) (firstn k er) tp m' v' -> v <= v'.
Proof. exact predict_c08. Qed.
Print Assumptions C08_predict_variance_bounds.

(** C09: results after any call history are those of a fresh object with the same data and parameters. *)
Theorem C09_kf1_history_independent : forall (A : Arith) G (draw : G -> F A * G) vsort l (s0 : kf1 A) g0 s g fresh,
  usable s0 -> Forall (call_ok (length (k_time s0))) l ->
  run_calls (methods1 A) (setpar1 A) draw vsort l (s0, g0) = Ok (s, g) ->
  usable fresh ->
  setup_of (fun x => x) fresh = fold_left (fun u c => spec_call c u) l (setup_of (fun x => x) s0) ->
  obs_filter (Filter (methods1 A) s) = obs_filter (Filter (methods1 A) fresh) /\
  (forall t, obs_fst (Predict1 s t) = obs_fst (Predict1 fresh t)) /\
  (forall ts g', obs_sim (Simulate (methods1 A) draw vsort s ts g') = obs_sim (Simulate (methods1 A) draw vsort fresh ts g')).
Proof. exact hist1. Qed.
Print Assumptions C09_kf1_history_independent.

(** C10: queries leave data and parameters alone. *)
Theorem C10_kf1_data_intact : forall (A : Arith) G (draw : G -> F A * G) vsort l (s0 : kf1 A) g0 s g,
  usable s0 -> Forall (query A) l ->
  run_calls (methods1 A) (setpar1 A) draw vsort l (s0, g0) = Ok (s, g) ->
  k_time s = k_time s0 /\ k_dt s = k_dt s0 /\ k_y s = k_y s0 /\ k_yerr s = k_yerr s0 /\ k_sig s = k_sig s0 /\ k_ext s = k_ext s0.
Proof. exact intact1. Qed.
Print Assumptions C10_kf1_data_intact.

(** C11: Simulate draws sequentially from the exact conditional distributions, at the sorted times. *)
Theorem C11_kf1_simulate_exact : forall G (draw : G -> F AX * G) vsort s tr yr er sig w ts g,
  holds1 s tr yr er sig w -> strictly_increasing tr -> 0 < sig -> 0 < w ->
  (forall g0, exists z, fst (draw g0) = Fin z) -> valid_vsort vsort ->
  NoDup ts -> (forall i, (i < length tr)%nat -> In (nth i tr 0) ts -> nth i er 0 <> 0) ->
  exists sorted out s', Simulate (methods1 AX) draw vsort s (map Fin ts) g
      = Ok (map Fin out, s', gen_after draw (length ts) g) /\
    Permutation ts sorted /\ strictly_increasing sorted /\ length out = length sorted /\
    forall k, (k < length sorted)%nat -> exists m v z,
      fst (draw (gen_after draw k g)) = Fin z /\ 0 < v /\
      cond_dist (ou_cov sig w) (tr ++ firstn k sorted) (yr ++ firstn k out) (er ++ repeat 0 k) (nth k sorted 0) m v /\
      nth k out 0 = m + sqrt v * z.
Proof. exact simulate_main. Qed.
Print Assumptions C11_kf1_simulate_exact.

(** C12 is false: with all draws 0 the first value returned is not the conditional mean at the first requested time. *)
Theorem C12_simulate_order_refuted : forall si vsort, valid_sort_index si -> valid_vsort vsort ->
  exists s ts (draw : unit -> F AX * unit) o0 o1 s' m0 v0 s'',
    (forall g, draw g = (Fin 0, tt)) /\
    kf_new (A:=AX) si rawW (map Fin [0; 1]) (map Fin [0; 1]) (map Fin [0; 0]) = Ok s /\
    Simulate (methods1 AX) draw vsort s ts tt = Ok ([Fin o0; Fin o1], s', tt) /\
    Predict1 s (nth 0 ts (Fin 0)) = Ok ((Fin m0, v0), s'') /\ o0 <> m0.
Proof. exact order_refuted. Qed.
Print Assumptions C12_simulate_order_refuted.

(** C13 is false: at the time of a noise-free measurement Predict and Simulate give NaN. *)
Theorem C13_finite_outputs_refuted : forall si, valid_sort_index si ->
  exists s, kf_new (A:=AX) si rawW (map Fin [0; 1]) (map Fin [1; 1]) (map Fin [0; 0]) = Ok s /\
    (exists s', Predict1 s (Fin 0) = Ok ((NaN, NaN), s')) /\
    (exists s', Filter (methods1 AX) s = Ok s' /\ forall x, In x (k_mean s' ++ k_var s') -> xfin x = true) /\
    (forall vsort G (draw : G -> F AX * G) g, valid_vsort vsort ->
       exists s' g', Simulate (methods1 AX) draw vsort s [Fin 0] g = Ok ([NaN], s', g')).
Proof. exact finite_refuted. Qed.
Print Assumptions C13_finite_outputs_refuted.

(** C14 is false: Predict overwrites the variances GetVar returns. *)
Theorem C14_getvar_after_predict_refuted : forall si, valid_sort_index si ->
  exists s s1 r s2, kf_new (A:=AX) si rawW (map Fin [0; 1]) (map Fin [0; 1]) (map Fin [1; 1]) = Ok s /\
    Filter (methods1 AX) s = Ok s1 /\ Predict1 s1 (Fin (-1)) = Ok (r, s2) /\ k_var s2 <> k_var s1.
Proof. exact getvar_refuted. Qed.
Print Assumptions C14_getvar_after_predict_refuted.

(** C15: scaling y by c and shifting all times by d scales the means by c and changes nothing else. *)
Theorem C15_filter_linear : forall s s2 tr yr er sig w d c,
  holds1 s tr yr er sig w -> holds1 s2 (map (fun x => x + d) tr) (map (fun x => c * x) yr) er sig w ->
  strictly_increasing tr -> 0 < sig -> 0 < w ->
  exists s' s2', Filter (methods1 AX) s = Ok s' /\ Filter (methods1 AX) s2 = Ok s2' /\
    k_mean s2' = map (fun m => fmul AX (Fin c) m) (k_mean s') /\ k_var s2' = k_var s'.
Proof. exact filter_linear. Qed.
Print Assumptions C15_filter_linear.

Theorem C15_predict_linear : forall s s2 tr yr er sig w d c,
  holds1 s tr yr er sig w -> holds1 s2 (map (fun x => x + d) tr) (map (fun x => c * x) yr) er sig w ->
  strictly_increasing tr -> 0 < sig -> 0 < w -> forall tp,
  (forall i, (i < length tr)%nat -> nth i tr 0 = tp -> nth i er 0 <> 0) ->
  exists m v s' s2', Predict1 s (Fin tp) = Ok ((Fin m, Fin v), s') /\
    Predict1 s2 (Fin (tp + d)) = Ok ((Fin (c * m), Fin v), s2').
Proof. exact predict_linear. Qed.
Print Assumptions C15_predict_linear.

(** C16: forecasts revert to the mean; forecast variance does not decrease, the mean does not grow. *)
Theorem C16_forecast_limits : forall s tr yr er sig w,
  holds1 s tr yr er sig w -> strictly_increasing tr -> 0 < sig -> 0 < w ->
  forall eps, 0 < eps -> exists T, forall tp, T < tp -> exists m v s',
    Predict1 s (Fin tp) = Ok ((Fin m, Fin v), s') /\ Rabs m < eps /\ sig / (2 * w) - eps < v <= sig / (2 * w).
Proof. exact forecast_limits. Qed.
Print Assumptions C16_forecast_limits.

Theorem C16_forecast_monotone : forall s tr yr er sig w,
  holds1 s tr yr er sig w -> strictly_increasing tr -> 0 < sig -> 0 < w ->
  forall tp1 tp2, nth (length tr - 1) tr 0 < tp1 <= tp2 -> exists m1 v1 s1 m2 v2 s2,
    Predict1 s (Fin tp1) = Ok ((Fin m1, Fin v1), s1) /\ Predict1 s (Fin tp2) = Ok ((Fin m2, Fin v2), s2) /\
    v1 <= v2 /\ Rabs m2 <= Rabs m1.
Proof. exact forecast_monotone. Qed.
Print Assumptions C16_forecast_monotone.

(** C62: on a constructed KalmanFilter1 no sequence of calls fails (setters given vectors of the right length). *)
Theorem C62_kf1_never_fails : forall (A : Arith) G (draw : G -> F A * G) vsort l (s0 : kf1 A) g0,
  usable s0 -> Forall (call_ok (length (k_time s0))) l -> (forall ts, vsort ts <> None) ->
  exists s g, run_calls (methods1 A) (setpar1 A) draw vsort l (s0, g0) = Ok (s, g) /\ usable s.
Proof. exact total1. Qed.
Print Assumptions C62_kf1_never_fails.

(** C61 is false: SetTime is not seen by Filter, which uses the spacings of the times given to the constructor. *)
Theorem C61_settime_ignored_by_filter : forall (A : Arith) (s : kf1 A) t, length t = length (k_time s) ->
  obs_filter (Filter (methods1 A) (SetTime s t)) = obs_filter (Filter (methods1 A) s).
Proof. exact filter_SetTime. Qed.
Print Assumptions C61_settime_ignored_by_filter.

Theorem C61_settime_takes_effect_refuted : forall si, valid_sort_index si ->
  exists s fresh s1 f1 r rf,
    kf_new (A:=AX) si rawW (map Fin [0; 1]) (map Fin [1; 1]) (map Fin [0; 0]) = Ok s /\
    kf_new (A:=AX) si rawW (map Fin [0; 2]) (map Fin [1; 1]) (map Fin [0; 0]) = Ok fresh /\
    Filter (methods1 AX) (SetTime s (map Fin [0; 2])) = Ok s1 /\ Filter (methods1 AX) fresh = Ok f1 /\
    nth_error (k_mean s1) 1 = Some (Fin r) /\ nth_error (k_mean f1) 1 = Some (Fin rf) /\ r <> rf.
Proof. exact settime_refuted. Qed.
Print Assumptions C61_settime_takes_effect_refuted.

(** ** The hypotheses are met *)
(** an object as built by the constructor, with two noisy measurements *)
Example ex_holds1 : holds1 (objW [3; -2] [1; 2]) [0; 1] [3; -2] [1; 2] 2 1 /\ strictly_increasing [0; 1].
Proof. split; [apply objW_holds; reflexivity|exact inc01]. Qed.
Example ex_built : forall si, valid_sort_index si ->
  kf_new (A:=AX) si rawW (map Fin [0; 1]) (map Fin [3; -2]) (map Fin [1; 2]) = Ok (objW [3; -2] [1; 2]).
Proof. intros. apply objW_new; auto. Qed.
Example ex_unsorted : exists a b, In a [3; 1; 3; 2] /\ In b [3; 1; 3; 2] /\ a <> b.
Proof. exists 3, 1. split; [left; reflexivity|]. split; [right; left; reflexivity|lra]. Qed.
Example ex_requested_times : NoDup [1 / 2; 1; 7] /\
  forall i, (i < length [0; 1])%nat -> In (nth i [0; 1] 0) [1 / 2; 1; 7] -> nth i [1; 2] 0 <> 0.
Proof.
  split.
  - repeat constructor; simpl; intros H; repeat destruct H as [H|H]; lra || contradiction.
  - intros i Hi _. simpl in Hi. destruct i as [|[|i]]; simpl; lra || lia.
Qed.
Example ex_valid_sort_index : exists si, valid_sort_index si.
Proof. exact valid_sort_index_exists. Qed.
Example ex_valid_vsort : exists vs, valid_vsort vs.
Proof. exact valid_vsort_exists. Qed.
Example ex_history : exists s g, run_calls (methods1 AX) (setpar1 AX) (fun g : unit => (Fin 1, g)) (fun l => Some l)
    [CPredict AX (F AX) (Fin 5); CSetSeries AX (F AX) [Fin 0; Fin 4]; CSimulate AX (F AX) [Fin 2]; CFilter AX (F AX)]
    (objW [3; -2] [1; 2], tt) = Ok (s, g) /\ usable s.
Proof.
  apply total1.
  - apply objW_holds; reflexivity.
  - repeat constructor.
  - discriminate.
Qed.
