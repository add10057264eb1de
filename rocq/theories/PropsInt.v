(** C115: the int arguments and the int counters of a run. *)
From Coq Require Import String.
From Coq Require Import Reals List Arith ZArith Lra Lia Bool.
From Verif Require Import Arith Res ListLemmas KFModel Emb Cx KFpModel CarpackModel EngineModel StartModel IntModel IntProof.
From Verif Require SeedRefute PropsEngine.
Import ListNotations.
Local Notation length := List.length.

(** the values of an int of 32 bits *)
Definition int32 (z : Z) : Prop := (-2147483648 <= z <= 2147483647)%Z.
Lemma is_int_spec z : is_int z = true <-> int32 z.
Proof. unfold is_int, int32, int_min, int_max. rewrite andb_true_iff, !Z.leb_le. tauto. Qed.
Lemma is_int_not z : is_int z = false <-> ~ int32 z.
Proof. rewrite <- is_int_spec. destruct (is_int z); split; intuition discriminate. Qed.

(** A run whose product thin * sample_size and sum burnin + thin * sample_size are ints, with numbers of walkers and samples that are not negative, has the
    outcome of the run in which nothing can overflow; a negative burnin or thin acts as 0. *)
Theorem C115_carma : forall (A : Arith) (R : rng A) (dsort : list (F A) -> option (list (F A))) (solve : list (list (cx A)) -> list (cx A) -> option (list (cx A)))
    (si : list (F A) -> option (list nat)) (chol : mat A -> option (mat A)) (fuel : nat) (N burnin : Z) (t y e : list (F A)) (p q : nat) (nw : Z) (z : bool) (thin : Z)
    (init : list (F A)) (raw : kfp A) (v0 : list (F A)) (l0 a0 : F A) (g : gen R),
  (0 <= N)%Z -> (0 <= nw)%Z -> int32 burnin -> int32 (thin * N) -> int32 (burnin + thin * N) ->
  RunCarmaSampler_int solve si chol dsort fuel N burnin t y e p q nw z thin init raw v0 l0 a0 g
  = RunCarmaSampler dsort solve si chol fuel (Z.to_nat N) (Z.to_nat burnin) t y e p q (Z.to_nat nw) z (Z.to_nat thin) init raw v0 l0 a0 g.
Proof. intros. apply RunCarma_int_eq; try assumption; apply is_int_spec; assumption. Qed.
Print Assumptions C115_carma.
Theorem C115_car1 : forall (A : Arith) (R : rng A) (vsort : list (F A) -> option (list (F A))) (si : list (F A) -> option (list nat)) (chol : mat A -> option (mat A))
    (N burnin : Z) (t y e : list (F A)) (thin : Z) (init : list (F A)) (raw : kf1 A) (v0 : list (F A)) (l0 a0 : F A) (g : gen R),
  (0 <= N)%Z -> int32 burnin -> int32 (thin * N) -> int32 (burnin + thin * N) ->
  RunCar1Sampler_int vsort si chol N burnin t y e thin init raw v0 l0 a0 g
  = RunCar1Sampler vsort si chol (Z.to_nat N) (Z.to_nat burnin) t y e (Z.to_nat thin) init raw v0 l0 a0 g.
Proof. intros. apply RunCar1_int_eq; try assumption; apply is_int_spec; assumption. Qed.
Print Assumptions C115_car1.

(** Negative numbers of samples and of walkers raise an error, for data and settings with which a run returns. *)
Theorem C115_negative_carma : forall (A : Arith) (R : rng A) (dsort : list (F A) -> option (list (F A))) (solve : list (list (cx A)) -> list (cx A) -> option (list (cx A)))
    (si : list (F A) -> option (list nat)) (chol : mat A -> option (mat A)) (fuel n b : nat) (N burnin : Z) (t y e : list (F A)) (p q : nat) (nw : Z) (z : bool) (k : nat) (thin : Z)
    (init : list (F A)) (raw : kfp A) (v0 : list (F A)) (l0 a0 : F A) (g : gen R) r,
  int32 (thin * N) -> int32 (burnin + thin * N) -> ((nw < 0)%Z /\ 2 <= p) \/
  ((N < 0)%Z /\ (0 <= nw)%Z /\ RunCarmaSampler dsort solve si chol fuel n b t y e p q (Z.to_nat nw) z k init raw v0 l0 a0 g = Ok r) ->
  RunCarmaSampler_int solve si chol dsort fuel N burnin t y e p q nw z thin init raw v0 l0 a0 g = Throw Elogic.
Proof.
  intros until r. intros Hp Hs [[Hw Hpp] | (HN & Hw & E)].
  - unfold RunCarmaSampler_int, run_carma_int. destruct (Nat.ltb_spec p 2); [lia|]. destruct (Z.ltb_spec nw 0); [|lia]. destruct z; [|destruct (Nat.eqb q 0)]; reflexivity.
  - eapply RunCarma_int_neg; try eassumption; apply is_int_spec; assumption.
Qed.
Print Assumptions C115_negative_carma.
Theorem C115_negative_car1 : forall (A : Arith) (R : rng A) (vsort : list (F A) -> option (list (F A))) (si : list (F A) -> option (list nat)) (chol : mat A -> option (mat A))
    (n b : nat) (N burnin : Z) (t y e : list (F A)) (k : nat) (thin : Z) (init : list (F A)) (raw : kf1 A) (v0 : list (F A)) (l0 a0 : F A) (g : gen R) r,
  int32 (thin * N) -> int32 (burnin + thin * N) -> (N < 0)%Z -> RunCar1Sampler vsort si chol n b t y e k init raw v0 l0 a0 g = Ok r ->
  RunCar1Sampler_int vsort si chol N burnin t y e thin init raw v0 l0 a0 g = Throw Elogic.
Proof. intros. eapply RunCar1_int_neg; try eassumption; apply is_int_spec; assumption. Qed.
Print Assumptions C115_negative_car1.

(** Every run with more passes than an int can count has no defined behaviour, and so has every run of RunCarmaSampler without walkers. *)
Theorem C115_overflow_carma : forall (A : Arith) (R : rng A) (dsort : list (F A) -> option (list (F A))) (solve : list (list (cx A)) -> list (cx A) -> option (list (cx A)))
    (si : list (F A) -> option (list nat)) (chol : mat A -> option (mat A)) (fuel n b : nat) (N burnin : Z) (t y e : list (F A)) (p q : nat) (nw : Z) (z : bool) (k : nat) (thin : Z)
    (init : list (F A)) (raw : kfp A) (v0 : list (F A)) (l0 a0 : F A) (g : gen R) r,
  (nw = 0%Z /\ 2 <= p) \/
  ((0 <= nw)%Z /\ (~ int32 (thin * N) \/ ~ int32 (burnin + thin * N)) /\ RunCarmaSampler dsort solve si chol fuel n b t y e p q (Z.to_nat nw) z k init raw v0 l0 a0 g = Ok r) ->
  RunCarmaSampler_int solve si chol dsort fuel N burnin t y e p q nw z thin init raw v0 l0 a0 g = UB.
Proof.
  intros until r. intros [[-> Hpp] | (Hw & Ho & E)].
  - unfold RunCarmaSampler_int, run_carma_int. destruct (Nat.ltb_spec p 2); [lia|]. destruct z; [|destruct (Nat.eqb q 0)]; cbn; unfold int_val;
    (destruct (is_int (thin * N)); [|reflexivity]); cbn [bind]; destruct (is_int (burnin + thin * N)); reflexivity.
  - eapply RunCarma_int_over; try eassumption. destruct Ho as [Ho|Ho]; [left|right]; apply is_int_not; exact Ho.
Qed.
Print Assumptions C115_overflow_carma.
Theorem C115_overflow_car1 : forall (A : Arith) (R : rng A) (vsort : list (F A) -> option (list (F A))) (si : list (F A) -> option (list nat)) (chol : mat A -> option (mat A))
    (N burnin : Z) (t y e : list (F A)) (thin : Z) (init : list (F A)) (raw : kf1 A) (v0 : list (F A)) (l0 a0 : F A) (g : gen R),
  ~ int32 (thin * N) \/ ~ int32 (burnin + thin * N) ->
  RunCar1Sampler_int vsort si chol N burnin t y e thin init raw v0 l0 a0 g = UB.
Proof. intros until g. intros Ho. apply RunCar1_int_over. destruct Ho as [Ho|Ho]; [left|right]; apply is_int_not; exact Ho. Qed.
Print Assumptions C115_overflow_car1.

(** *** The claim for all ints is false: a run that returns with 5 samples at thinning 2 has no defined behaviour with 50000 samples at
    thinning 50000. *)
Theorem C115_all_ints_refuted : exists ds sv si ch (raw : kfp AX) (N thin : Z), int32 N /\ int32 thin /\ (0 < N)%Z /\ (0 < thin)%Z /\
  (exists w g', RunCarmaSampler_int (A := AX) (R := SeedRefute.rngV 1) sv si ch ds 1 5 4 (map Fin PropsEngine.tX) (map Fin PropsEngine.yX) (map Fin [1; 1; 1]%R) 2 1 3 false 2 (map Fin PropsEngine.thX) raw (map Fin [0; 0; 0; 0; 0; 0]%R) (Fin 0) (Fin 0) (tt, true) = Ok (w, g') /\
     length (w_samples w) = 5%nat) /\
  RunCarmaSampler_int (A := AX) (R := SeedRefute.rngV 1) sv si ch ds 1 N 4 (map Fin PropsEngine.tX) (map Fin PropsEngine.yX) (map Fin [1; 1; 1]%R) 2 1 3 false thin (map Fin PropsEngine.thX) raw (map Fin [0; 0; 0; 0; 0; 0]%R) (Fin 0) (Fin 0) (tt, true) = UB.
Proof.
  destruct PropsEngine.ex_run as (ds & sv & si & ch & raw & w' & g' & _ & _ & _ & _ & _ & E & L).
  exists ds, sv, si, ch, raw, 50000%Z, 50000%Z. split; [unfold int32; lia|]. split; [unfold int32; lia|]. split; [reflexivity|]. split; [reflexivity|]. split.
  - exists w', g'. split; [|exact L]. rewrite C115_carma by (unfold int32; lia). exact E.
  - eapply (C115_overflow_carma AX (SeedRefute.rngV 1) ds sv si ch 1 5 4). right. split; [lia|]. split; [left; unfold int32; lia|]. exact E.
Qed.
Print Assumptions C115_all_ints_refuted.

(** *** The hypotheses are met: the run of [PropsEngine.ex_run1], with a negative number of samples; and without burn-in, given as -3 *)
Example ex_C115_car1 : exists vs si ch (raw : kf1 AX),
  (exists w g, RunCar1Sampler_int (A := AX) (R := SeedRefute.rngV 1) vs si ch 5 4 (map Fin PropsEngine.tX) (map Fin PropsEngine.yX) (map Fin [1; 1; 1]%R) 2 [] raw (map Fin [0; 0; 0; 0]%R) (Fin 0) (Fin 0) (tt, true) = Ok (w, g)) /\
  RunCar1Sampler_int (A := AX) (R := SeedRefute.rngV 1) vs si ch (-5) 4 (map Fin PropsEngine.tX) (map Fin PropsEngine.yX) (map Fin [1; 1; 1]%R) 2 [] raw (map Fin [0; 0; 0; 0]%R) (Fin 0) (Fin 0) (tt, true) = Throw Elogic /\
  RunCar1Sampler_int (A := AX) (R := SeedRefute.rngV 1) vs si ch 5 (-3) (map Fin PropsEngine.tX) (map Fin PropsEngine.yX) (map Fin [1; 1; 1]%R) 2 [] raw (map Fin [0; 0; 0; 0]%R) (Fin 0) (Fin 0) (tt, true)
  = RunCar1Sampler (A := AX) (R := SeedRefute.rngV 1) vs si ch 5 0 (map Fin PropsEngine.tX) (map Fin PropsEngine.yX) (map Fin [1; 1; 1]%R) 2 [] raw (map Fin [0; 0; 0; 0]%R) (Fin 0) (Fin 0) (tt, true).
Proof.
  destruct PropsEngine.ex_run1 as (vs & si & ch & raw & w & g & _ & _ & _ & _ & E & _). exists vs, si, ch, raw. split; [|split].
  - exists w, g. rewrite C115_car1 by (unfold int32; lia). exact E.
  - eapply C115_negative_car1; [unfold int32; lia|unfold int32; lia|reflexivity|exact E].
  - apply C115_car1; unfold int32; lia.
Qed.
