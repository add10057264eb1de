(** C112: thinning and the length of a run select from one chain. *)
From Coq Require Import String.
From Coq Require Import Reals List Arith ZArith Lra Lia Bool.
From Verif Require Import Arith Res ListLemmas KFModel Emb History InitProof Cx KFpModel CarpackModel EngineModel StartModel EngineSpec EngineProof ThinProof ThinTop.
From Verif Require SeedRefute PropsEngine.
Import ListNotations.
Local Notation length := List.length.

(** C112, run_mcmc_carma: if a run with N' samples, thinning k' returns, so does every run of the same data, settings, starting value and generators whose
    N samples at thinning k need no more passes; sample i of the one and sample i' of the other are equal, with their log-posteriors, whenever they
    are taken after the same pass; and if both make the same number of passes they leave the cold chain and the generators in the same state. *)
Theorem C112_carma : forall (A : Arith) (R : rng A) (dsort : list (F A) -> option (list (F A))) (solve : list (list (cx A)) -> list (cx A) -> option (list (cx A)))
    (si : list (F A) -> option (list nat)) (chol : mat A -> option (mat A)) (fuel N k N' k' burnin : nat) (t y e : list (F A)) (p q nw : nat) (z : bool)
    (init : list (F A)) (raw : kfp A) (v0 : list (F A)) (l0 a0 : F A) (g : gen R) (w' : param A (base A (kpx A)) (list (F A))) (g' : gen R),
  N * k <= N' * k' ->
  RunCarmaSampler dsort solve si chol fuel N' burnin t y e p q nw z k' init raw v0 l0 a0 g = Ok (w', g') ->
  exists w g1, RunCarmaSampler dsort solve si chol fuel N burnin t y e p q nw z k init raw v0 l0 a0 g = Ok (w, g1) /\
    length (w_samples w) = N /\ length (w_logposts w) = N /\ length (w_samples w') = N' /\ length (w_logposts w') = N' /\
    (forall i i', i < N -> i' < N' -> (i + 1) * k = (i' + 1) * k' ->
       nth_error (w_samples w) i = nth_error (w_samples w') i' /\ nth_error (w_logposts w) i = nth_error (w_logposts w') i') /\
    (N * k = N' * k' -> g1 = g' /\ w_value w = w_value w' /\ w_logpost w = w_logpost w' /\ w_obj w = w_obj w').
Proof.
  intros A R dsort solve si chol fuel N k N' k' burnin t y e p q nw z init raw v0 l0 a0 g w' g' Hle E.
  destruct (RunCarma_thin _ _ _ _ _ _ _ _ _ _ _ _ _ _ _ _ _ _ _ _ _ _ _ Hle E) as (w & g1 & Ew & (H1 & H2 & H3 & H4 & H5 & H6) & H7).
  exists w, g1. repeat (split; [assumption|]). intros He. destruct (H6 He) as (K1 & K2 & K3 & _). auto.
Qed.
Print Assumptions C112_carma.
(** C112, run_mcmc_car1. *)
Theorem C112_car1 : forall (A : Arith) (R : rng A) (vsort : list (F A) -> option (list (F A))) (si : list (F A) -> option (list nat)) (chol : mat A -> option (mat A))
    (N k N' k' burnin : nat) (t y e : list (F A)) (init : list (F A)) (raw : kf1 A) (v0 : list (F A)) (l0 a0 : F A) (g : gen R)
    (w' : param A (base A (F A)) (list (F A))) (g' : gen R),
  N * k <= N' * k' ->
  RunCar1Sampler vsort si chol N' burnin t y e k' init raw v0 l0 a0 g = Ok (w', g') ->
  exists w g1, RunCar1Sampler vsort si chol N burnin t y e k init raw v0 l0 a0 g = Ok (w, g1) /\
    length (w_samples w) = N /\ length (w_logposts w) = N /\ length (w_samples w') = N' /\ length (w_logposts w') = N' /\
    (forall i i', i < N -> i' < N' -> (i + 1) * k = (i' + 1) * k' ->
       nth_error (w_samples w) i = nth_error (w_samples w') i' /\ nth_error (w_logposts w) i = nth_error (w_logposts w') i') /\
    (N * k = N' * k' -> g1 = g' /\ w_value w = w_value w' /\ w_logpost w = w_logpost w' /\ w_obj w = w_obj w').
Proof.
  intros A R vsort si chol N k N' k' burnin t y e init raw v0 l0 a0 g w' g' Hle E.
  destruct (RunCar1_thin _ _ _ _ _ _ _ _ _ _ _ _ _ _ _ _ _ Hle E) as (w & g1 & Ew & (H1 & H2 & H3 & H4 & H5 & H6) & H7).
  exists w, g1. repeat (split; [assumption|]). intros He. destruct (H6 He) as (K1 & K2 & K3 & _). auto.
Qed.
Print Assumptions C112_car1.

(** *** The hypotheses are met *)
(** the runs of [PropsEngine.ex_run] and [PropsEngine.ex_run1] return with 5 samples at thinning 2; so do those with 10 samples at thinning 1, every second sample
    of which they kept *)
Example ex_C112_carma : exists ds sv si ch (raw : kfp AX) w g w' g',
  RunCarmaSampler (A := AX) (R := SeedRefute.rngV 1) ds sv si ch 1 5 4 (map Fin PropsEngine.tX) (map Fin PropsEngine.yX) (map Fin [1; 1; 1]%R) 2 1 3 false 2 (map Fin PropsEngine.thX) raw (map Fin [0; 0; 0; 0; 0; 0]%R) (Fin 0) (Fin 0) (tt, true) = Ok (w', g') /\
  RunCarmaSampler (A := AX) (R := SeedRefute.rngV 1) ds sv si ch 1 10 4 (map Fin PropsEngine.tX) (map Fin PropsEngine.yX) (map Fin [1; 1; 1]%R) 2 1 3 false 1 (map Fin PropsEngine.thX) raw (map Fin [0; 0; 0; 0; 0; 0]%R) (Fin 0) (Fin 0) (tt, true) = Ok (w, g) /\
  (forall i, i < 5 -> nth_error (w_samples w') i = nth_error (w_samples w) (2 * i + 1)) /\ g = g'.
Proof.
  destruct PropsEngine.ex_run as (ds & sv & si & ch & raw & w' & g' & _ & _ & _ & _ & _ & E & _).
  assert (10 * 1 <= 5 * 2) as Hle by lia. destruct (C112_carma _ _ _ _ _ _ _ _ _ _ _ _ _ _ _ _ _ _ _ _ _ _ _ _ _ _ _ Hle E) as (w & g & E1 & _ & _ & _ & _ & H & K).
  exists ds, sv, si, ch, raw, w, g, w', g'. split; [exact E|]. split; [exact E1|]. split; [|exact (proj1 (K eq_refl))].
  intros i Hi. symmetry. exact (proj1 (H (2 * i + 1) i ltac:(lia) Hi ltac:(lia))).
Qed.
Example ex_C112_car1 : exists vs si ch (raw : kf1 AX) w g w' g',
  RunCar1Sampler (A := AX) (R := SeedRefute.rngV 1) vs si ch 5 4 (map Fin PropsEngine.tX) (map Fin PropsEngine.yX) (map Fin [1; 1; 1]%R) 2 [] raw (map Fin [0; 0; 0; 0]%R) (Fin 0) (Fin 0) (tt, true) = Ok (w', g') /\
  RunCar1Sampler (A := AX) (R := SeedRefute.rngV 1) vs si ch 10 4 (map Fin PropsEngine.tX) (map Fin PropsEngine.yX) (map Fin [1; 1; 1]%R) 1 [] raw (map Fin [0; 0; 0; 0]%R) (Fin 0) (Fin 0) (tt, true) = Ok (w, g) /\
  (forall i, i < 5 -> nth_error (w_samples w') i = nth_error (w_samples w) (2 * i + 1)) /\ g = g'.
Proof.
  destruct PropsEngine.ex_run1 as (vs & si & ch & raw & w' & g' & _ & _ & _ & _ & E & _).
  assert (10 * 1 <= 5 * 2) as Hle by lia. destruct (C112_car1 _ _ _ _ _ _ _ _ _ _ _ _ _ _ _ _ _ _ _ _ _ Hle E) as (w & g & E1 & _ & _ & _ & _ & H & K).
  exists vs, si, ch, raw, w, g, w', g'. split; [exact E|]. split; [exact E1|]. split; [|exact (proj1 (K eq_refl))].
  intros i Hi. symmetry. exact (proj1 (H (2 * i + 1) i ltac:(lia) Hi ltac:(lia))).
Qed.
