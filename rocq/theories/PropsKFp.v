(** Property theorems about KalmanFilterp (C09-C11 and C15-C16 also for this class, C17, C18, C20). *)
From Coq Require Import Reals List Arith ZArith Lra Lia Bool Permutation.
From Coquelicot Require Import Complex.
From Verif Require Import Arith Res ListLemmas KFModel Spec Gauss Emb History InitProof SimProof KF1Main KF1More KF1Hist.
From Verif Require Import Cx KFpModel KFpProof SpecCarma KFpX KFpMain KFpTop KFpMore.
Import ListNotations.
Local Open Scope R_scope.

(** C17: one-step predictions of a KalmanFilterp are the exact conditional means and variances. *)
Theorem C17_filter_exact : forall solve s tr yr er sig om ma, valid_solve solve ->
  holdsp s tr yr er sig om ma -> strictly_increasing tr -> carma_ok sig om ma ->
  exists s', Filter (methodsp solve) s = Ok s' /\ length (k_mean s') = length tr /\ length (k_var s') = length tr /\
  forall i, (i < length tr)%nat -> exists m v,
    nth_error (k_mean s') i = Some (Fin m) /\ nth_error (k_var s') i = Some (Fin v) /\
    cond_dist (carma_cov sig ma om) (firstn i tr) (firstn i yr) (firstn i er) (nth i tr 0) m (v - nth i er 0 * nth i er 0) /\
    0 < v <= carma_acv sig ma om 0 + nth i er 0 * nth i er 0.
Proof. intros solve s tr yr er sig om ma H. exact (filterp solve H s tr yr er sig om ma). Qed.
Print Assumptions C17_filter_exact.

(** The same from the constructor on: any order and multiplicity of the times, any number of moving average
    coefficients up to p (missing ones count as 0). *)
Theorem C17_from_construction : forall solve (si : list (F AX) -> option (list nat)) (raw : kfp AX) (t y e : list R) (sig : R) (om : list C) (ma : list R),
  valid_solve solve -> valid_sort_index si -> length y = length t -> length e = length t ->
  (exists a b, In a t /\ In b t /\ a <> b) ->
  stable_roots om -> (2 <= length om)%nat -> (length ma <= length om)%nat -> (exists c, In c ma /\ c <> 0) -> 0 < sig ->
  exists s t' y' e' s',
    kfp_new si raw (map Fin t) (map Fin y) (map Fin e) (Fin sig : F AX) (map FinC om) (map Fin ma) = Ok s /\
    k_time s = map Fin t' /\ k_y s = map Fin y' /\ k_yerr s = map Fin e' /\ strictly_increasing t' /\
    (strictly_increasing t -> t' = t /\ y' = y /\ e' = e) /\
    Filter (methodsp solve) s = Ok s' /\
    forall i, (i < length t')%nat -> exists m v,
      nth_error (k_mean s') i = Some (Fin m) /\ nth_error (k_var s') i = Some (Fin v) /\
      cond_dist (carma_cov sig ma om) (firstn i t') (firstn i y') (firstn i e') (nth i t' 0) m (v - nth i e' 0 * nth i e' 0).
Proof.
  intros solve si raw t y e sig om ma Hsv Hsi Hy He Hab Hst H2 Hl (c & Hc & Hc0) Hsig.
  destruct (constructp si raw t y e sig om ma Hsi Hy He Hab) as (s & t' & y' & e' & E & Hinc & Hid & Hh).
  assert (carma_ok sig om (ma ++ repeat 0 (length om - length ma))) as Hok.
  { split; [exact Hst|]. split; [exact H2|]. split; [rewrite app_length, repeat_length; lia|]. split; [|exact Hsig].
    destruct (In_nth _ _ 0 Hc) as (k & Hk & Ek). exists k. rewrite app_nth1 by exact Hk. rewrite Ek. exact Hc0. }
  destruct (filterp solve Hsv s t' y' e' sig om _ Hh Hinc Hok) as (s' & EF & _ & _ & H).
  exists s, t', y', e', s'. split; [exact E|]. destruct Hh as (_ & _ & E1 & E2 & E3 & _).
  split; [exact E1|]. split; [exact E2|]. split; [exact E3|]. split; [exact Hinc|]. split; [exact Hid|]. split; [exact EF|].
  intros i Hi. destruct (H i Hi) as (m & v & A1 & A2 & A3 & _). exists m, v. split; [exact A1|]. split; [exact A2|].
  eapply cond_dist_ext; [|exact A3]. intros. apply carma_cov_pad.
Qed.
Print Assumptions C17_from_construction.

(** The specification used in C17, C18 and C11 has exactly one solution and it is the best linear prediction. *)
Theorem C17_spec_is_unique_and_optimal : forall sig om ma tr yr er tp m v,
  strictly_increasing tr -> carma_ok sig om ma -> cond_dist (carma_cov sig ma om) tr yr er tp m v ->
  (forall m' v', cond_dist (carma_cov sig ma om) tr yr er tp m' v' -> m' = m /\ v' = v) /\
  (forall a, v <= mse (length tr) (obs_cov (carma_cov sig ma om) (fun i => nth i tr 0) (fun i => nth i er 0))
                  (fun j => carma_cov sig ma om tp (nth j tr 0)) (carma_cov sig ma om tp tp) a).
Proof.
  intros sig om ma tr yr er tp m v Hinc Hok H. destruct valid_solve_exists as [sv Hsv].
  exact (cond_detp sv Hsv tr yr er sig om ma Hinc Hok tp m v H).
Qed.
Print Assumptions C17_spec_is_unique_and_optimal.

(** C18: Predict is the exact conditional distribution given all measurements; its variance is in (0, S0]. *)
Theorem C18_predict_exact : forall solve s tr yr er sig om ma tp, valid_solve solve ->
  holdsp s tr yr er sig om ma -> strictly_increasing tr -> carma_ok sig om ma ->
  (forall i, (i < length tr)%nat -> nth i tr 0 = tp -> nth i er 0 <> 0) ->
  exists m v s', Predictp solve s (Fin tp) = Ok ((Fin m, Fin v), s') /\ cond_dist (carma_cov sig ma om) tr yr er tp m v /\
    0 < v <= carma_acv sig ma om 0.
Proof. intros solve s tr yr er sig om ma tp H Hs Hi Ho. exact (predictp solve H s tr yr er sig om ma Hs Hi Ho tp). Qed.
Print Assumptions C18_predict_exact.

(** C20: orders that cannot be handled are rejected, others only fail when solve() does; every state, every arithmetic. *)
Theorem C20_bad_orders_throw : forall (A : Arith) solve (s : kfp A), usable s -> goodp s ->
  (length (x_omega (k_ext s)) < 2)%nat \/ length (x_ma (k_ext s)) <> length (x_omega (k_ext s)) ->
  exists ex, Filter (methodsp solve) s = Throw ex /\ forall t, Predictp solve s t = Throw ex.
Proof. exact shape_fail. Qed.
Print Assumptions C20_bad_orders_throw.

Theorem C20_otherwise_only_solve_fails : forall (A : Arith) (solve : list (list (cx A)) -> list (cx A) -> option (list (cx A))) (s : kfp A), usable s -> goodp s ->
  (2 <= length (x_omega (k_ext s)))%nat -> length (x_ma (k_ext s)) = length (x_omega (k_ext s)) ->
  if solve (EigenMat (x_omega (k_ext s))) (Rvector A (length (x_omega (k_ext s))))
  then (exists s', Filter (methodsp solve) s = Ok s') /\ (forall t, exists r s', Predictp solve s t = Ok (r, s'))
  else Filter (methodsp solve) s = Throw Eruntime /\ (forall t, Predictp solve s t = Throw Eruntime).
Proof. exact shape_ok. Qed.
Print Assumptions C20_otherwise_only_solve_fails.

(** every constructed object is such a state, with the moving average vector padded to p *)
Theorem C20_constructed_states : forall (A : Arith) si (raw : kfp A) t y e sig om ma s,
  length y = length t -> length e = length t -> kfp_new si raw t y e sig om ma = Ok s ->
  usable s /\ goodp s /\ k_sig s = sig /\ x_omega (k_ext s) = om /\ length (x_ma (k_ext s)) = Nat.max (length om) (length ma) /\
  forall i, (i < length ma)%nat -> nth_error (x_ma (k_ext s)) i = nth_error ma i.
Proof.
  intros A si raw t y e sig om ma s Hy He H. destruct (newp_ok A si raw t y e sig om ma s Hy He H) as (H1 & H2 & H3 & H4 & H5).
  repeat split; try assumption; try (apply H1); try (apply H2).
  - rewrite H5. unfold pad_ma. rewrite app_length, repeat_length. lia.
  - intros i Hi. rewrite H5. unfold pad_ma. apply nth_error_app1, Hi.
Qed.
Print Assumptions C20_constructed_states.

(** C09 for KalmanFilterp *)
Theorem C09_kfp_history_independent : forall (A : Arith) solve G (draw : G -> F A * G) vsort l (s0 : kfp A) g0 s g fresh,
  usable s0 -> goodp s0 -> Forall (call_ok (length (k_time s0))) l ->
  run_calls (methodsp solve) (@setparp A) draw vsort l (s0, g0) = Ok (s, g) ->
  usable fresh -> goodp fresh ->
  setup_of (@par_of A) fresh = fold_left (fun u c => spec_call c u) l (setup_of (@par_of A) s0) ->
  obs_filter (Filter (methodsp solve) s) = obs_filter (Filter (methodsp solve) fresh) /\
  (forall t, obs_fst (Predictp solve s t) = obs_fst (Predictp solve fresh t)) /\
  (forall ts g', obs_sim (Simulate (methodsp solve) draw vsort s ts g') = obs_sim (Simulate (methodsp solve) draw vsort fresh ts g')).
Proof. exact histp. Qed.
Print Assumptions C09_kfp_history_independent.

(** C10 for KalmanFilterp *)
Theorem C10_kfp_data_intact : forall (A : Arith) solve G (draw : G -> F A * G) vsort l (s0 : kfp A) g0 s g,
  usable s0 -> goodp s0 -> Forall (query A) l ->
  run_calls (methodsp solve) (@setparp A) draw vsort l (s0, g0) = Ok (s, g) ->
  k_time s = k_time s0 /\ k_dt s = k_dt s0 /\ k_y s = k_y s0 /\ k_yerr s = k_yerr s0 /\ k_sig s = k_sig s0 /\
  x_omega (k_ext s) = x_omega (k_ext s0) /\ x_ma (k_ext s) = x_ma (k_ext s0).
Proof. exact intactp. Qed.
Print Assumptions C10_kfp_data_intact.

(** C11 for KalmanFilterp *)
Theorem C11_kfp_simulate_exact : forall solve G (draw : G -> F AX * G) vsort s tr yr er sig om ma ts g, valid_solve solve ->
  holdsp s tr yr er sig om ma -> strictly_increasing tr -> carma_ok sig om ma ->
  (forall g0, exists z, fst (draw g0) = Fin z) -> valid_vsort vsort ->
  NoDup ts -> (forall i, (i < length tr)%nat -> In (nth i tr 0) ts -> nth i er 0 <> 0) ->
  exists sorted out s', Simulate (methodsp solve) draw vsort s (map Fin ts) g
      = Ok (map Fin out, s', gen_after draw (length ts) g) /\
    Permutation ts sorted /\ strictly_increasing sorted /\ length out = length sorted /\
    forall k, (k < length sorted)%nat -> exists m v z,
      fst (draw (gen_after draw k g)) = Fin z /\ 0 < v /\
      cond_dist (carma_cov sig ma om) (tr ++ firstn k sorted) (yr ++ firstn k out) (er ++ repeat 0 k) (nth k sorted 0) m v /\
      nth k out 0 = m + sqrt v * z.
Proof.
  intros solve G draw vsort s tr yr er sig om ma ts g Hsv Hs Hi Ho Hd Hvs Hnd Hnz.
  exact (simulatep solve Hsv s tr yr er sig om ma Hs Hi Ho G draw vsort ts g Hd Hvs Hnd Hnz).
Qed.
Print Assumptions C11_kfp_simulate_exact.

(** C15 for KalmanFilterp *)
Theorem C15_kfp_filter_linear : forall solve s s2 tr yr er sig om ma d c, valid_solve solve ->
  holdsp s tr yr er sig om ma -> holdsp s2 (map (fun x => x + d) tr) (map (fun x => c * x) yr) er sig om ma ->
  strictly_increasing tr -> carma_ok sig om ma ->
  exists s' s2', Filter (methodsp solve) s = Ok s' /\ Filter (methodsp solve) s2 = Ok s2' /\
    k_mean s2' = map (fun m => fmul AX (Fin c) m) (k_mean s') /\ k_var s2' = k_var s'.
Proof. intros solve s s2 tr yr er sig om ma d c H. exact (filterp_linear solve H s s2 tr yr er sig om ma d c). Qed.
Print Assumptions C15_kfp_filter_linear.

Theorem C15_kfp_predict_linear : forall solve s s2 tr yr er sig om ma d c, valid_solve solve ->
  holdsp s tr yr er sig om ma -> holdsp s2 (map (fun x => x + d) tr) (map (fun x => c * x) yr) er sig om ma ->
  strictly_increasing tr -> carma_ok sig om ma -> forall tp,
  (forall i, (i < length tr)%nat -> nth i tr 0 = tp -> nth i er 0 <> 0) ->
  exists m v s' s2', Predictp solve s (Fin tp) = Ok ((Fin m, Fin v), s') /\
    Predictp solve s2 (Fin (tp + d)) = Ok ((Fin (c * m), Fin v), s2').
Proof. intros solve s s2 tr yr er sig om ma d c H. exact (predictp_linear solve H s s2 tr yr er sig om ma d c). Qed.
Print Assumptions C15_kfp_predict_linear.

(** C16 for KalmanFilterp (forecasts; the monotonicity in C16 is special to CAR(1) and not claimed here) *)
Theorem C16_kfp_forecast_limits : forall solve s tr yr er sig om ma, valid_solve solve ->
  holdsp s tr yr er sig om ma -> strictly_increasing tr -> carma_ok sig om ma ->
  forall eps, 0 < eps -> exists T, forall tp, T < tp -> exists m v s',
    Predictp solve s (Fin tp) = Ok ((Fin m, Fin v), s') /\ Rabs m < eps /\
    carma_acv sig ma om 0 - eps < v <= carma_acv sig ma om 0.
Proof. intros solve s tr yr er sig om ma H Hs Hi Ho eps He. exact (forecastp_limits solve H s tr yr er sig om ma Hs Hi Ho eps He). Qed.
Print Assumptions C16_kfp_forecast_limits.

(** ** The hypotheses are met *)
Definition omE : list C := [(-1, 1); (-1, -1)].
Example ex_stable : stable_roots omE.
Proof.
  split; [|split].
  - repeat constructor; simpl; intros H; repeat destruct H as [H|H]; try contradiction. injection H as H. lra.
  - intros z [<-|[<-|[]]]; simpl; lra.
  - intros z [<-|[<-|[]]]; unfold Cconj; simpl; [right; left|left]; f_equal; lra.
Qed.
Example ex_carma_ok : carma_ok 2 omE [1; 3].
Proof.
  split; [exact ex_stable|]. split; [simpl; lia|]. split; [reflexivity|]. split; [|lra]. exists 1%nat. simpl. lra.
Qed.
(** an object built by the constructor from unsorted measurements with a repeated time *)
Example ex_holdsp : forall (si : list (F AX) -> option (list nat)) (raw : kfp AX), valid_sort_index si -> exists s t' y' e',
  kfp_new si raw (map Fin [3; 1; 3]) (map Fin [1; 2; 4]) (map Fin [1; 1; 1]) (Fin 2 : F AX) (map FinC omE) (map Fin [1]) = Ok s /\
  strictly_increasing t' /\ holdsp s t' y' e' 2 omE [1; 0] /\ carma_ok 2 omE [1; 0].
Proof.
  intros si raw H. destruct (constructp si raw [3; 1; 3] [1; 2; 4] [1; 1; 1] 2 omE [1] H eq_refl eq_refl) as (s & t' & y' & e' & E & A1 & A2 & A3).
  { exists 3, 1. split; [left; reflexivity|]. split; [right; left; reflexivity|lra]. }
  exists s, t', y', e'. split; [exact E|]. split; [exact A1|]. split; [exact A3|].
  split; [exact ex_stable|]. split; [simpl; lia|]. split; [reflexivity|]. split; [|lra]. exists 0%nat. simpl. lra.
Qed.
Example ex_valid_solve : exists sv, valid_solve sv.
Proof. exact valid_solve_exists. Qed.
Print Assumptions ex_valid_solve.
