(** C113: a run does not depend on the origins of time and of the measured values, nor on the direction of time. *)
From Coq Require Import String.
From Coq Require Import Reals List Arith ZArith Lra Lia Bool.
From Verif Require Import Arith Res ListLemmas KFModel Emb Spec History InitProof SimProof KF1Main KF1More Cx KFpModel KFpMain KFpTop CarpackModel EngineModel StartModel EngineSpec EngineProof EngineDriver EngineTop EngineAX Start1Proof EngineRuns SeedRefute EngineReal.
From Verif Require Import Sym ShiftProof ShiftTop ShiftRun.
From Verif Require PropsEngine.
Import ListNotations.
Local Open Scope R_scope.
Local Notation length := List.length.

(** the parameter vector (standard deviation, measurement error scale, mean, ...) with c added to the mean *)
Definition shift_mean (c : R) (th : list R) : list R := match th with sd :: scale :: mu :: r => sd :: scale :: mu + c :: r | _ => th end.
(** the light curve seen by an observer whose clock differs by s (runs backwards if [back]) and whose zero point differs by c: the times are x + s, or
    s - x in the opposite order; the values are y + c and the error bars are unchanged, in the order of the times *)
Definition clock (back : bool) (s : R) (t : list R) : list R := if back then map (fun x => s - x) (rev t) else map (fun x => x + s) t.
Definition zero_point (back : bool) (c : R) (y : list R) : list R := if back then map (fun x => x + c) (rev y) else map (fun x => x + c) y.

Lemma clock_eq back s t : retime back s t = clock back s t.
Proof. destruct back; reflexivity. Qed.
Lemma zero_point_eq back c y : rescale back 1 c y = zero_point back c y.
Proof. destruct back; unfold rescale, zero_point; cbn [turn]; apply map_ext; intros x; ring. Qed.
Lemma shift_tau c th : tau c (map Fin th) = map Fin (shift_mean c th).
Proof. destruct th as [|a [|b [|m r]]]; reflexivity. Qed.
Lemma moved_each {X} c N n (w w' : param AX (base AX X) (list (F AX))) : moved_run c w w' -> length (w_samples w) = N -> length (w_logposts w) = N ->
  (forall i, (i < N)%nat -> exists th, nth_error (w_samples w) i = Some (map Fin th) /\ length th = n) ->
  length (w_samples w') = N /\ length (w_logposts w') = N /\
  forall i, (i < N)%nat -> exists th lp, length th = n /\ nth_error (w_samples w) i = Some (map Fin th) /\ nth_error (w_samples w') i = Some (map Fin (shift_mean c th)) /\
    nth_error (w_logposts w) i = Some lp /\ nth_error (w_logposts w') i = Some lp.
Proof.
  intros (H1 & H2 & _) L1 L2 Hre. rewrite H1, H2, map_length. split; [exact L1|]. split; [exact L2|].
  intros i Hi. destruct (Hre i Hi) as (th & Eth & Lth). assert (exists lp, nth_error (w_logposts w) i = Some lp) as (lp & Elp).
  { destruct (nth_error (w_logposts w) i) as [lp|] eqn:Q; [exists lp; reflexivity|]. apply nth_error_None in Q. lia. }
  exists th, lp. split; [exact Lth|]. split; [exact Eth|]. split; [|split; exact Elp]. refine (eq_trans (nth_error_map _ _ _) _).
  change (F AX) with xr in *. rewrite Eth. cbn [option_map]. rewrite shift_tau. reflexivity.
Qed.

(** C113, run_mcmc_carma: if a run returns, then the run of the same settings and generators on the light curve with another origin or direction of time and
    another zero point, from the starting vector with the mean moved likewise, returns too; it leaves the generators in the same state, and its samples are
    those of the first run with c added to the mean, with the same log-posteriors. *)
Theorem C113_carma : forall (R0 : rng AX) (dsort : list (F AX) -> option (list (F AX))) (solve : list (list (cx AX)) -> list (cx AX) -> option (list (cx AX)))
    (si : list (F AX) -> option (list nat)) (chol : mat AX -> option (mat AX)) (t y e : list R) (back : bool) (c s : R)
    (fuel N burnin p q nw thin : nat) (z : bool) (init : list R) (raw raw' : kfp AX) (v0 v0' : list (F AX)) (l0 l0' a0 : F AX) (g : gen R0)
    (w : param AX (base AX (kpx AX)) (list (F AX))) (g' : gen R0),
  valid_rng R0 -> shift_normal R0 -> moves R0 (walker_dim p q z) -> valid_dsort dsort -> valid_solve solve -> valid_sort_index si -> valid_chol chol ->
  length y = length t -> length e = length t -> strictly_increasing t -> (exists a b, In a y /\ In b y /\ a <> b) ->
  (Nat.even p = true \/ (3 <= length t)%nat) -> (z = true \/ (q < p)%nat) -> length v0' = length v0 ->
  RunCarmaSampler (R := R0) dsort solve si chol fuel N burnin (map Fin t) (map Fin y) (map Fin e) p q nw z thin (map Fin init) raw v0 l0 a0 g = Ok (w, g') ->
  exists w', RunCarmaSampler (R := R0) dsort solve si chol fuel N burnin (map Fin (clock back s t)) (map Fin (zero_point back c y)) (map Fin (zero_point back 0 e))
      p q nw z thin (map Fin (shift_mean c init)) raw' v0' l0' a0 g = Ok (w', g') /\
    length (w_samples w') = N /\ length (w_logposts w') = N /\
    forall i, (i < N)%nat -> exists th lp, length th = walker_dim p q z /\ nth_error (w_samples w) i = Some (map Fin th) /\
      nth_error (w_samples w') i = Some (map Fin (shift_mean c th)) /\ nth_error (w_logposts w) i = Some lp /\ nth_error (w_logposts w') i = Some lp.
Proof.
  intros R0 dsort solve si chol t y e back c s fuel N burnin p q nw thin z init raw raw' v0 v0' l0 l0' a0 g w g' HR Hsh Hmv Hds Hsv Hsi Hch Hy He Ht Hne Hodd Hq Hv0 E.
  destruct (carma_moved HR Hsh Hds Hsv Hsi Hch Hy He Ht Hne back c s raw' l0' Hodd Hq Hmv Hv0 E) as (w' & E' & Hm).
  destruct (RunCarma_inv E) as (_ & _ & _ & _ & _ & _ & Hp & _). destruct (walker_prior Hsi Hy He Ht Hne raw z Hp) as (_ & _ & smax & fmin & fmax & _ & _ & _ & HB).
  destruct (carma_real HR Hds Hsi Hch Hy He Ht Hne HB Hodd Hmv E) as ((b & r & ex & label & y0 & _ & (L1 & L2 & _) & _) & Hin).
  exists w'. split; [rewrite <- shift_tau, <- clock_eq, <- !zero_point_eq; exact E'|].
  apply moved_each; [exact Hm|exact L1|exact L2|]. intros i Hi. destruct (Hin i Hi) as (th & _ & _ & Eth & Lth & _). exists th. split; assumption.
Qed.
Print Assumptions C113_carma.
(** C113, run_mcmc_car1. *)
Theorem C113_car1 : forall (R0 : rng AX) (vsort : list (F AX) -> option (list (F AX))) (si : list (F AX) -> option (list nat)) (chol : mat AX -> option (mat AX))
    (t y e : list R) (back : bool) (c s : R) (N burnin thin : nat) (init : list R) (raw raw' : kf1 AX) (v0 v0' : list (F AX)) (l0 l0' a0 : F AX) (g : gen R0)
    (w : param AX (base AX (F AX)) (list (F AX))) (g' : gen R0),
  valid_rng R0 -> shift_normal R0 -> moves R0 4 -> valid_vsort vsort -> valid_sort_index si -> valid_chol chol ->
  length y = length t -> length e = length t -> strictly_increasing t -> (exists a b, In a y /\ In b y /\ a <> b) -> length v0' = length v0 ->
  RunCar1Sampler (R := R0) vsort si chol N burnin (map Fin t) (map Fin y) (map Fin e) thin (map Fin init) raw v0 l0 a0 g = Ok (w, g') ->
  exists w', RunCar1Sampler (R := R0) vsort si chol N burnin (map Fin (clock back s t)) (map Fin (zero_point back c y)) (map Fin (zero_point back 0 e))
      thin (map Fin (shift_mean c init)) raw' v0' l0' a0 g = Ok (w', g') /\
    length (w_samples w') = N /\ length (w_logposts w') = N /\
    forall i, (i < N)%nat -> exists th lp, length th = 4%nat /\ nth_error (w_samples w) i = Some (map Fin th) /\
      nth_error (w_samples w') i = Some (map Fin (shift_mean c th)) /\ nth_error (w_logposts w) i = Some lp /\ nth_error (w_logposts w') i = Some lp.
Proof.
  intros R0 vsort si chol t y e back c s N burnin thin init raw raw' v0 v0' l0 l0' a0 g w g' HR Hsh Hmv Hvs Hsi Hch Hy He Ht Hne Hv0 E.
  destruct (car1_moved HR Hsh Hvs Hsi Hch Hy He Ht Hne back c s raw' l0' Hmv Hv0 E) as (w' & E' & Hm).
  destruct (car1_built Hsi Hy He Ht Hne raw) as (b & fm & fM & Eb & Hb & _). destruct (set_prior_built Hy He Ht Hne Hb eq_refl) as (b1 & smax & fmin & fmax & Eb1 & Hb1 & HB).
  destruct (car1_real HR Hvs Hsi Hch Hy He Ht Hne HB Hmv E) as (b2 & r & y0 & w0 & _ & _ & (L1 & L2 & _) & _ & Hin).
  exists w'. split; [rewrite <- shift_tau, <- clock_eq, <- !zero_point_eq; exact E'|].
  apply moved_each; [exact Hm|exact L1|exact L2|]. intros i Hi. destruct (Hin i Hi) as (th & _ & Eth & Lth & _). exists th. split; assumption.
Qed.
Print Assumptions C113_car1.

(** *** The hypotheses are met *)
Lemma ex_rng : valid_rng (rngV 1) /\ shift_normal (rngV 1).
Proof. split; [apply rngV_valid|]. intros mu sd c g _. reflexivity. Qed.
(** the runs of [PropsEngine.ex_run] and [PropsEngine.ex_run1] on the same light curve read backwards and moved by 7 in time, with 100 added to the values *)
Example ex_C113_carma : exists ds sv si ch (raw : kfp AX) w g' w',
  RunCarmaSampler (A := AX) (R := rngV 1) ds sv si ch 1 5 4 (map Fin PropsEngine.tX) (map Fin PropsEngine.yX) (map Fin [1; 1; 1]) 2 1 3 false 2 (map Fin PropsEngine.thX) raw (map Fin [0; 0; 0; 0; 0; 0]) (Fin 0) (Fin 0) (tt, true) = Ok (w, g') /\
  RunCarmaSampler (A := AX) (R := rngV 1) ds sv si ch 1 5 4 (map Fin (clock true 7 PropsEngine.tX)) (map Fin (zero_point true 100 PropsEngine.yX)) (map Fin (zero_point true 0 [1; 1; 1])) 2 1 3 false 2 (map Fin (shift_mean 100 PropsEngine.thX)) raw (map Fin [0; 0; 0; 0; 0; 0]) (Fin 0) (Fin 0) (tt, true) = Ok (w', g') /\
  exists th, nth_error (w_samples w) 4 = Some (map Fin th) /\ nth_error (w_samples w') 4 = Some (map Fin (shift_mean 100 th)) /\ length th = 6%nat.
Proof.
  destruct PropsEngine.ex_run as (ds & sv & si & ch & raw & w & g' & Hds & Hsv & Hsi & Hch & Hmv & E & _). destruct ex_rng as [HR Hsh]. destruct PropsEngine.ex_tX as [Ht Hne].
  destruct (C113_carma (rngV 1) ds sv si ch PropsEngine.tX PropsEngine.yX [1; 1; 1] true 100 7 _ _ _ 2%nat 1%nat _ _ false _ _ raw _ (map Fin [0; 0; 0; 0; 0; 0]) _ (Fin 0) _ _ _ _
    HR Hsh Hmv Hds Hsv Hsi Hch eq_refl eq_refl Ht Hne (or_introl eq_refl) (or_intror (le_n 2)) eq_refl E) as (w' & E' & _ & _ & H).
  exists ds, sv, si, ch, raw, w, g', w'. split; [exact E|]. split; [exact E'|]. destruct (H 4%nat ltac:(lia)) as (th & lp & H1 & H2 & H3 & _). exists th. auto.
Qed.
Example ex_C113_car1 : exists vs si ch (raw : kf1 AX) w g' w',
  RunCar1Sampler (A := AX) (R := rngV 1) vs si ch 5 4 (map Fin PropsEngine.tX) (map Fin PropsEngine.yX) (map Fin [1; 1; 1]) 2 [] raw (map Fin [0; 0; 0; 0]) (Fin 0) (Fin 0) (tt, true) = Ok (w, g') /\
  RunCar1Sampler (A := AX) (R := rngV 1) vs si ch 5 4 (map Fin (clock true 7 PropsEngine.tX)) (map Fin (zero_point true 100 PropsEngine.yX)) (map Fin (zero_point true 0 [1; 1; 1])) 2 [] raw (map Fin [0; 0; 0; 0]) (Fin 0) (Fin 0) (tt, true) = Ok (w', g') /\
  exists th, nth_error (w_samples w) 4 = Some (map Fin th) /\ nth_error (w_samples w') 4 = Some (map Fin (shift_mean 100 th)) /\ length th = 4%nat.
Proof.
  destruct PropsEngine.ex_run1 as (vs & si & ch & raw & w & g' & Hvs & Hsi & Hch & Hmv & E & _). destruct ex_rng as [HR Hsh]. destruct PropsEngine.ex_tX as [Ht Hne].
  destruct (C113_car1 (rngV 1) vs si ch PropsEngine.tX PropsEngine.yX [1; 1; 1] true 100 7 _ _ _ [] _ raw _ (map Fin [0; 0; 0; 0]) _ (Fin 0) _ _ _ _
    HR Hsh Hmv Hvs Hsi Hch eq_refl eq_refl Ht Hne eq_refl E) as (w' & E' & _ & _ & H).
  exists vs, si, ch, raw, w, g', w'. split; [exact E|]. split; [exact E'|]. destruct (H 4%nat ltac:(lia)) as (th & lp & H1 & H2 & H3 & _). exists th. auto.
Qed.
