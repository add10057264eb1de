(** C116: a run from a given starting vector does not depend on the unit of time. *)
From Coq Require Import String.
From Coq Require Import Reals List Arith ZArith Lra Lia Bool.
From Coquelicot Require Import Complex.
From Verif Require Import Arith Res ListLemmas KFModel Emb Spec History InitProof SimProof KF1Main KF1More Cx KFpModel KFpProof KFpX KFpMain KFpTop SpecModel CarpackModel RootsProof EngineModel StartModel EngineSpec EngineProof EngineDriver EngineTop EngineAX Start1Proof EngineRuns SeedRefute EngineReal.
From Verif Require Import SymTime ShiftProof ShiftTop UnitRun.
From Verif Require PropsEngine.
Import ListNotations.
Local Open Scope R_scope.
Local Notation length := List.length.

Lemma unit_each {X} k p q N n (w w' : param AX (base AX X) (list (F AX))) : unit_run k p q w w' -> length (w_samples w) = N -> length (w_logposts w) = N ->
  (forall i, (i < N)%nat -> exists th, nth_error (w_samples w) i = Some (map Fin th) /\ length th = n) ->
  length (w_samples w') = N /\ length (w_logposts w') = N /\
  forall i, (i < N)%nat -> exists th lp, length th = n /\ nth_error (w_samples w) i = Some (map Fin th) /\ nth_error (w_samples w') i = Some (map Fin (new_unit k p q th)) /\
    nth_error (w_logposts w) i = Some lp /\ nth_error (w_logposts w') i = Some lp.
Proof.
  intros (H1 & H2 & _) L1 L2 Hre. rewrite H1, H2, map_length. split; [exact L1|]. split; [exact L2|].
  intros i Hi. destruct (Hre i Hi) as (th & Eth & Lth). assert (exists lp, nth_error (w_logposts w) i = Some lp) as (lp & Elp).
  { destruct (nth_error (w_logposts w) i) as [lp|] eqn:Q; [exists lp; reflexivity|]. apply nth_error_None in Q. lia. }
  exists th, lp. split; [exact Lth|]. split; [exact Eth|]. split; [|split; exact Elp]. refine (eq_trans (nth_error_map _ _ _) _).
  change (F AX) with xr in *. rewrite Eth. cbn [option_map]. rewrite tauU_Fin. reflexivity.
Qed.

(** C116, run_mcmc_carma, p = 2 or 3: let every time be multiplied by k, and let the starting vector, whose log-density is finite, be given in the new unit (the
    roots of its polynomials divided by k, [new_unit]). If the run on the old times returns, the run on the new ones returns too, leaves the generators in the
    same state, and its samples are those of the first run in the new unit, with the same log-posteriors. *)
Theorem C116_carma : forall (R0 : rng AX) (dsort : list (F AX) -> option (list (F AX))) (solve : list (list (cx AX)) -> list (cx AX) -> option (list (cx AX)))
    (si : list (F AX) -> option (list nat)) (chol : mat AX -> option (mat AX)) (t y e : list R) (k smax fmin fmax : R)
    (fuel N burnin p q nw thin : nat) (z : bool) (init : list R) (om : list Complex.C) (raw raw' : kfp AX) (v0 v0' : list (F AX)) (l0 l0' a0 : F AX) (g : gen R0)
    (w : param AX (base AX (kpx AX)) (list (F AX))) (g' : gen R0),
  valid_rng R0 -> moves R0 (walker_dim p q z) -> valid_dsort dsort -> valid_solve solve -> valid_sort_index si -> valid_chol chol ->
  length y = length t -> length e = length t -> strictly_increasing t -> (exists a b, In a y /\ In b y /\ a <> b) -> 0 < k ->
  (p = 2 \/ p = 3 /\ (3 <= length t))%nat -> (z = true \/ (q < p)%nat) -> length v0 = walker_dim p q z -> length v0' = walker_dim p q z ->
  run_bounds t y smax fmin fmax -> length init = walker_dim p q z -> ARRoots AX p (map Fin init) = Ok (map FinC om) -> in_prior smax fmin fmax init om -> nth 0 init 0 <> 0 ->
  RunCarmaSampler (R := R0) dsort solve si chol fuel N burnin (map Fin t) (map Fin y) (map Fin e) p q nw z thin (map Fin init) raw v0 l0 a0 g = Ok (w, g') ->
  exists w', RunCarmaSampler (R := R0) dsort solve si chol fuel N burnin (map Fin (stretch k t)) (map Fin y) (map Fin e)
      p q nw z thin (map Fin (new_unit k p q init)) raw' v0' l0' a0 g = Ok (w', g') /\
    length (w_samples w') = N /\ length (w_logposts w') = N /\
    forall i, (i < N)%nat -> exists th lp, length th = walker_dim p q z /\ nth_error (w_samples w) i = Some (map Fin th) /\
      nth_error (w_samples w') i = Some (map Fin (new_unit k p q th)) /\ nth_error (w_logposts w) i = Some lp /\ nth_error (w_logposts w') i = Some lp.
Proof.
  intros R0 dsort solve si chol t y e k smax fmin fmax fuel N burnin p q nw thin z init om raw raw' v0 v0' l0 l0' a0 g w g' HR Hmv Hds Hsv Hsi Hch Hy He Ht Hne Hk Hp Hq Hv0 Hv0' HB Hli Hom Hin Hi0 E.
  assert (2 <= p <= 3)%nat as Hp23 by lia.
  assert (Nat.even p = true \/ (3 <= length t)%nat) as Hodd by (destruct Hp as [->|[_ H]]; [left; reflexivity|right; exact H]).
  destruct (carma_unit Hsv Hsi Hch Hy He Ht Hne Hk HB raw' l0' Hp23 Hq Hmv Hv0 Hv0' Hli Hom Hin Hi0 E) as (w' & E' & Hm).
  destruct (carma_real HR Hds Hsi Hch Hy He Ht Hne HB Hodd Hmv E) as ((b & r & ex & label & y0 & _ & (L1 & L2 & _) & _) & Hs).
  exists w'. split; [rewrite <- tauU_Fin; exact E'|].
  apply unit_each; [exact Hm|exact L1|exact L2|]. intros i Hi. destruct (Hs i Hi) as (th & _ & _ & Eth & Lth & _). exists th. split; assumption.
Qed.
Print Assumptions C116_carma.
(** C116, run_mcmc_car1: theta_3, the logarithm of the rate, is lowered by log k. *)
Theorem C116_car1 : forall (R0 : rng AX) (vsort : list (F AX) -> option (list (F AX))) (si : list (F AX) -> option (list nat)) (chol : mat AX -> option (mat AX))
    (t y e : list R) (k smax fmin fmax : R) (N burnin thin : nat) (sd scale mu lw : R) (raw raw' : kf1 AX) (v0 v0' : list (F AX)) (l0 l0' a0 : F AX) (g : gen R0)
    (w : param AX (base AX (F AX)) (list (F AX))) (g' : gen R0),
  valid_rng R0 -> moves R0 4 -> valid_vsort vsort -> valid_sort_index si -> valid_chol chol ->
  length y = length t -> length e = length t -> strictly_increasing t -> (exists a b, In a y /\ In b y /\ a <> b) -> 0 < k ->
  length v0 = 4%nat -> length v0' = 4%nat -> run_bounds t y smax fmin fmax -> in_prior1 smax fmin fmax [sd; scale; mu; lw] -> sd <> 0 ->
  RunCar1Sampler (R := R0) vsort si chol N burnin (map Fin t) (map Fin y) (map Fin e) thin (map Fin [sd; scale; mu; lw]) raw v0 l0 a0 g = Ok (w, g') ->
  exists w', RunCar1Sampler (R := R0) vsort si chol N burnin (map Fin (map (fun x => k * x) t)) (map Fin y) (map Fin e) thin (map Fin [sd; scale; mu; lw - ln k]) raw' v0' l0' a0 g = Ok (w', g') /\
    length (w_samples w') = N /\ length (w_logposts w') = N /\
    forall i, (i < N)%nat -> exists sdi scalei mui lwi lp, nth_error (w_samples w) i = Some (map Fin [sdi; scalei; mui; lwi]) /\
      nth_error (w_samples w') i = Some (map Fin [sdi; scalei; mui; lwi - ln k]) /\ nth_error (w_logposts w) i = Some lp /\ nth_error (w_logposts w') i = Some lp.
Proof.
  intros R0 vsort si chol t y e k smax fmin fmax N burnin thin sd scale mu lw raw raw' v0 v0' l0 l0' a0 g w g' HR Hmv Hvs Hsi Hch Hy He Ht Hne Hk Hv0 Hv0' HB Hin Hi0 E.
  assert (forall a b c d, new_unit k 1 0 [a; b; c; d] = [a; b; c; d - ln k]) as Hnu by (intros a b c d; unfold new_unit; cbn; rewrite !Rminus_0_r; reflexivity).
  destruct (@car1_unit R0 vsort si chol Hsi Hch t y e Hy He Ht Hne k Hk smax fmin fmax HB N burnin thin [sd; scale; mu; lw] raw raw' v0 v0' l0 l0' a0 g w g' Hmv Hv0 Hv0' eq_refl Hin Hi0 E) as (w' & E' & Hm).
  destruct (car1_real HR Hvs Hsi Hch Hy He Ht Hne HB Hmv E) as (b2 & r & y0 & w0 & _ & _ & (L1 & L2 & _) & _ & Hs).
  exists w'. split; [rewrite tauU_Fin, Hnu in E'; exact E'|].
  destruct (@unit_each _ k 1 0 N 4 w w' Hm L1 L2) as (M1 & M2 & M3).
  { intros i Hi. destruct (Hs i Hi) as (th & _ & Eth & Lth & _). exists th. split; assumption. }
  split; [exact M1|]. split; [exact M2|]. intros i Hi. destruct (M3 i Hi) as (th & lp & Lth & E1 & E2 & E3 & E4).
  destruct th as [|a [|b [|c [|d [|]]]]]; try discriminate Lth. rewrite Hnu in E2. exists a, b, c, d, lp. auto.
Qed.
Print Assumptions C116_car1.

(** *** The hypotheses are met: the run of [PropsEngine.ex_run] with the times in another unit (days instead of hours, say) *)
Example ex_C116_carma : exists ds sv si ch (raw : kfp AX) w g' w',
  RunCarmaSampler (A := AX) (R := rngV 1) ds sv si ch 1 5 4 (map Fin PropsEngine.tX) (map Fin PropsEngine.yX) (map Fin [1; 1; 1]) 2 1 3 false 2 (map Fin PropsEngine.thX) raw (map Fin [0; 0; 0; 0; 0; 0]) (Fin 0) (Fin 0) (tt, true) = Ok (w, g') /\
  RunCarmaSampler (A := AX) (R := rngV 1) ds sv si ch 1 5 4 (map Fin (stretch (1 / 24) PropsEngine.tX)) (map Fin PropsEngine.yX) (map Fin [1; 1; 1]) 2 1 3 false 2
    (map Fin [1; 1; 0; ln 2 - 2 * ln (1 / 24); ln 2 - ln (1 / 24); 0 - ln (1 / 24)]) raw (map Fin [0; 0; 0; 0; 0; 0]) (Fin 0) (Fin 0) (tt, true) = Ok (w', g') /\
  exists a b c d f h, nth_error (w_samples w) 4 = Some (map Fin [a; b; c; d; f; h]) /\
    nth_error (w_samples w') 4 = Some (map Fin [a; b; c; d - 2 * ln (1 / 24); f - ln (1 / 24); h - ln (1 / 24)]).
Proof.
  destruct PropsEngine.ex_run as (ds & sv & si & ch & raw & w & g' & Hds & Hsv & Hsi & Hch & Hmv & E & _). destruct PropsEngine.ex_tX as [Ht Hne].
  assert (forall a b c d f h, new_unit (1 / 24) 2 1 [a; b; c; d; f; h] = [a; b; c; d - 2 * ln (1 / 24); f - ln (1 / 24); h - ln (1 / 24)]) as Hnu.
  { intros. unfold new_unit. cbn. rewrite !Rminus_0_r. reflexivity. }
  destruct (C116_carma (rngV 1) ds sv si ch PropsEngine.tX PropsEngine.yX [1; 1; 1] (1 / 24) _ _ _ 1%nat 5%nat 4%nat 2%nat 1%nat 3%nat 2%nat false PropsEngine.thX PropsEngine.omX raw raw
    (map Fin [0; 0; 0; 0; 0; 0]) (map Fin [0; 0; 0; 0; 0; 0]) (Fin 0) (Fin 0) (Fin 0) (tt, true) w g'
    (rngV_valid 1) Hmv Hds Hsv Hsi Hch eq_refl eq_refl Ht Hne ltac:(lra) (or_introl eq_refl) (or_intror (le_n 2)) eq_refl eq_refl
    PropsEngine.ex_boundsX eq_refl PropsEngine.ex_rootsX PropsEngine.ex_priorX ltac:(cbn; lra) E) as (w' & E' & _ & _ & H).
  exists ds, sv, si, ch, raw, w, g', w'. split; [exact E|]. split; [unfold PropsEngine.thX in E'; rewrite Hnu in E'; exact E'|].
  destruct (H 4%nat ltac:(lia)) as (th & lp & H1 & H2 & H3 & _).
  destruct th as [|a [|b [|c [|d [|f [|h [|]]]]]]]; try discriminate H1. rewrite Hnu in H3. exists a, b, c, d, f, h. auto.
Qed.
(** the same for a CAR(1) process *)
Example ex_C116_car1 : exists vs si ch (raw : kf1 AX) w g' w',
  RunCar1Sampler (A := AX) (R := rngV 1) vs si ch 5 4 (map Fin PropsEngine.tX) (map Fin PropsEngine.yX) (map Fin [1; 1; 1]) 2 (map Fin [1; 1; 0; 0]) raw (map Fin [0; 0; 0; 0]) (Fin 0) (Fin 0) (tt, true) = Ok (w, g') /\
  RunCar1Sampler (A := AX) (R := rngV 1) vs si ch 5 4 (map Fin (map (fun x => 1 / 24 * x) PropsEngine.tX)) (map Fin PropsEngine.yX) (map Fin [1; 1; 1]) 2 (map Fin [1; 1; 0; 0 - ln (1 / 24)]) raw (map Fin [0; 0; 0; 0]) (Fin 0) (Fin 0) (tt, true) = Ok (w', g') /\
  exists a b c d, nth_error (w_samples w) 4 = Some (map Fin [a; b; c; d]) /\ nth_error (w_samples w') 4 = Some (map Fin [a; b; c; d - ln (1 / 24)]).
Proof.
  destruct PropsEngine.ex_run1 as (vs & si & ch & raw & _ & _ & Hvs & Hsi & Hch & Hmv & _). destruct PropsEngine.ex_tX as [Ht Hne].
  destruct (@car1_completes_real (rngV 1) vs si ch Hvs Hsi Hch PropsEngine.tX PropsEngine.yX [1; 1; 1] eq_refl eq_refl Ht Hne 5 4 2 (map Fin [1; 1; 0; 0]) raw (map Fin [0; 0; 0; 0]) (Fin 0) (Fin 0) (tt, true) eq_refl) as (w & g' & E).
  assert (in_prior1 (10 * sqrt (2 / 9)) (1 / 101) 1 [1; 1; 0; 0]) as Hin.
  { unfold in_prior1. cbn [nth]. rewrite exp_0.
    assert (1 / 3 <= sqrt (2 / 9)) by (apply Rsqr_incr_0_var; [|apply sqrt_pos]; rewrite Rsqr_sqrt by lra; unfold Rsqr; lra). lra. }
  destruct (C116_car1 (rngV 1) vs si ch PropsEngine.tX PropsEngine.yX [1; 1; 1] (1 / 24) _ _ _ 5%nat 4%nat 2%nat 1 1 0 0 raw raw
    (map Fin [0; 0; 0; 0]) (map Fin [0; 0; 0; 0]) (Fin 0) (Fin 0) (Fin 0) (tt, true) w g'
    (rngV_valid 1) Hmv Hvs Hsi Hch eq_refl eq_refl Ht Hne ltac:(lra) eq_refl eq_refl PropsEngine.ex_boundsX Hin ltac:(lra) E) as (w' & E' & _ & _ & H).
  exists vs, si, ch, raw, w, g', w'. split; [exact E|]. split; [exact E'|].
  destruct (H 4%nat ltac:(lia)) as (a & b & c & d & lp & H1 & H2 & _). exists a, b, c, d. auto.
Qed.
