(** C116, continued: runs from the default starting vector in another unit of time. *)
From Coq Require Import Reals List Arith ZArith Lra Lia Bool.
From Coquelicot Require Import Complex.
From Verif Require Import Arith Res ListLemmas KFModel Emb Spec History InitProof SimProof KF1Main KF1More Cx KFpModel KFpProof KFpX KFpMain KFpTop SpecModel CarpackModel RootsProof EngineModel StartModel EngineSpec EngineProof EngineDriver EngineTop EngineAX Start1Proof EngineRuns SeedRefute EngineReal.
From Verif Require Import SymTime ShiftProof ShiftTop UnitRun StartLaw StartRun UnitStart PropsUnit.
From Verif Require PropsEngine PropsStart.
Import ListNotations.
Local Open Scope R_scope.
Local Notation length := List.length.

(** C116, run_mcmc_carma from the default start, CAR(p) and ZCAR models of order 2 or 3: no starting vector is given (init has another length than the parameter
    vector, e.g. none). A uniform variate from a translated interval is the translated variate. If the run on the times t returns, so does the run on k t, with the
    same samples in the new unit and the same log-posteriors. *)
Theorem C116_default_carp : forall (R0 : rng AX) (dsort : list (F AX) -> option (list (F AX))) (solve : list (list (cx AX)) -> list (cx AX) -> option (list (cx AX)))
    (si : list (F AX) -> option (list nat)) (chol : mat AX -> option (mat AX)) (t y e : list R) (k smax fmin fmax : R)
    (fuel N burnin p q nw thin : nat) (z : bool) (init : list R) (raw raw' : kfp AX) (v0 v0' : list (F AX)) (l0 l0' a0 : F AX) (g : gen R0)
    (w : param AX (base AX (kpx AX)) (list (F AX))) (g' : gen R0),
  valid_rng R0 -> moves R0 (walker_dim p q z) ->
  (forall lo hi c gb, lo < hi -> b_uniform R0 (Fin (lo + c)) (Fin (hi + c)) gb = (xadd (fst (b_uniform R0 (Fin lo) (Fin hi) gb)) (Fin c), snd (b_uniform R0 (Fin lo) (Fin hi) gb))) ->
  valid_dsort dsort -> valid_solve solve -> valid_sort_index si -> valid_chol chol ->
  length y = length t -> length e = length t -> strictly_increasing t -> (3 <= length t)%nat -> (exists a b, In a y /\ In b y /\ a <> b) -> 0 < k ->
  (2 <= p <= 3)%nat -> (z = true \/ q = 0%nat) -> length v0 = walker_dim p q z -> length v0' = walker_dim p q z ->
  run_bounds t y smax fmin fmax -> length init <> walker_dim p q z ->
  RunCarmaSampler (R := R0) dsort solve si chol fuel N burnin (map Fin t) (map Fin y) (map Fin e) p q nw z thin (map Fin init) raw v0 l0 a0 g = Ok (w, g') ->
  exists w', RunCarmaSampler (R := R0) dsort solve si chol fuel N burnin (map Fin (map (fun x => k * x) t)) (map Fin y) (map Fin e)
      p q nw z thin (map Fin init) raw' v0' l0' a0 g = Ok (w', g') /\
    length (w_samples w') = N /\ length (w_logposts w') = N /\
    forall i, (i < N)%nat -> exists th lp, length th = (3 + p)%nat /\ nth_error (w_samples w) i = Some (map Fin th) /\
      nth_error (w_samples w') i = Some (map Fin (new_unit k p 0 th)) /\ nth_error (w_logposts w) i = Some lp /\ nth_error (w_logposts w') i = Some lp.
Proof.
  intros R0 dsort solve si chol t y e k smax fmin fmax fuel N burnin p q nw thin z init raw raw' v0 v0' l0 l0' a0 g w g' HR Hmv HU Hds Hsv Hsi Hch Hy He Ht H3 Hne Hk Hp Hq Hv0 Hv0' HB Hli E.
  assert (length (map Fin init) <> walker_dim p q z) as Hli' by (rewrite map_length; exact Hli).
  assert (walker_dim p q z = 3 + p)%nat as Hd by (unfold walker_dim; destruct Hq as [->| ->]; [reflexivity|destruct z; lia]).
  destruct (@carp_default R0 HR HU dsort Hds solve si chol Hsv Hsi Hch t y e Hy He Ht H3 Hne k Hk smax fmin fmax HB fuel N burnin p q nw z thin (map Fin init) raw raw' v0 v0' l0 l0' a0 g w g' Hp Hq Hmv Hv0 Hv0' Hli' E) as (w' & E' & Hm).
  destruct (carma_real HR Hds Hsi Hch Hy He Ht Hne HB (or_intror H3) Hmv E) as ((b & r & ex & label & y0 & _ & (L1 & L2 & _) & _) & Hs).
  exists w'. split; [exact E'|].
  destruct (@unit_each _ k p q N (3 + p) w w' Hm L1 L2) as (M1 & M2 & M3).
  { intros i Hi. destruct (Hs i Hi) as (th & _ & _ & Eth & Lth & _). exists th. split; [exact Eth|]. rewrite Lth. exact Hd. }
  split; [exact M1|]. split; [exact M2|]. intros i Hi. destruct (M3 i Hi) as (th & lp & Lth & E1 & E2 & E3 & E4). exists th, lp.
  rewrite (new_unit_short k q Lth) in E2. auto.
Qed.
Print Assumptions C116_default_carp.

(** C116, run_mcmc_car1 from the default start (which uses no uniform variate): the same, theta_3 being lowered by log k. *)
Theorem C116_default_car1 : forall (R0 : rng AX) (vsort : list (F AX) -> option (list (F AX))) (si : list (F AX) -> option (list nat)) (chol : mat AX -> option (mat AX))
    (t y e : list R) (k smax fmin fmax : R) (N burnin thin : nat) (init : list R) (raw raw' : kf1 AX) (v0 v0' : list (F AX)) (l0 l0' a0 : F AX) (g : gen R0)
    (w : param AX (base AX (F AX)) (list (F AX))) (g' : gen R0),
  valid_rng R0 -> moves R0 4 -> valid_vsort vsort -> valid_sort_index si -> valid_chol chol ->
  length y = length t -> length e = length t -> strictly_increasing t -> (exists a b, In a y /\ In b y /\ a <> b) -> 0 < k ->
  length v0 = 4%nat -> length v0' = 4%nat -> run_bounds t y smax fmin fmax -> length init <> 4%nat ->
  RunCar1Sampler (R := R0) vsort si chol N burnin (map Fin t) (map Fin y) (map Fin e) thin (map Fin init) raw v0 l0 a0 g = Ok (w, g') ->
  exists w', RunCar1Sampler (R := R0) vsort si chol N burnin (map Fin (map (fun x => k * x) t)) (map Fin y) (map Fin e) thin (map Fin init) raw' v0' l0' a0 g = Ok (w', g') /\
    length (w_samples w') = N /\ length (w_logposts w') = N /\
    forall i, (i < N)%nat -> exists sdi scalei mui lwi lp, nth_error (w_samples w) i = Some (map Fin [sdi; scalei; mui; lwi]) /\
      nth_error (w_samples w') i = Some (map Fin [sdi; scalei; mui; lwi - ln k]) /\ nth_error (w_logposts w) i = Some lp /\ nth_error (w_logposts w') i = Some lp.
Proof.
  intros R0 vsort si chol t y e k smax fmin fmax N burnin thin init raw raw' v0 v0' l0 l0' a0 g w g' HR Hmv Hvs Hsi Hch Hy He Ht Hne Hk Hv0 Hv0' HB Hli E.
  assert (forall a b c d, new_unit k 1 0 [a; b; c; d] = [a; b; c; d - ln k]) as Hnu by (intros a b c d; unfold new_unit; cbn; rewrite !Rminus_0_r; reflexivity).
  assert (length (map Fin init) <> 4%nat) as Hli' by (rewrite map_length; exact Hli).
  destruct (@car1_default R0 vsort si chol t y e k smax fmin fmax N burnin thin (map Fin init) raw raw' v0 v0' l0 l0' a0 g w g' HR Hvs Hsi Hch Hy He Ht Hne Hk HB Hmv Hv0 Hv0' Hli' E) as (w' & E' & Hm).
  destruct (car1_real HR Hvs Hsi Hch Hy He Ht Hne HB Hmv E) as (b2 & r & y0 & w0 & _ & _ & (L1 & L2 & _) & _ & Hs).
  exists w'. split; [exact E'|].
  destruct (@unit_each _ k 1 0 N 4 w w' Hm L1 L2) as (M1 & M2 & M3).
  { intros i Hi. destruct (Hs i Hi) as (th & _ & Eth & Lth & _). exists th. split; assumption. }
  split; [exact M1|]. split; [exact M2|]. intros i Hi. destruct (M3 i Hi) as (th & lp & Lth & E1 & E2 & E3 & E4).
  destruct th as [|a [|b [|c [|d [|]]]]]; try discriminate Lth. rewrite Hnu in E2. exists a, b, c, d, lp. auto.
Qed.
Print Assumptions C116_default_car1.

(** C116, the default start of a CARMA(p,q) object with a moving average: if StartingValue() returns a vector for the times t, then for k t it returns, from the same
    state of the generators, the vector whose autoregressive coordinates are in the new unit and whose moving average coordinates are the same numbers ... *)
Theorem C116_start_carma : forall (R0 : rng AX) dsort solve si, valid_rng R0 ->
  (forall lo hi c gb, lo < hi -> b_uniform R0 (Fin (lo + c)) (Fin (hi + c)) gb = (xadd (fst (b_uniform R0 (Fin lo) (Fin hi) gb)) (Fin c), snd (b_uniform R0 (Fin lo) (Fin hi) gb))) ->
  valid_dsort dsort -> valid_solve solve -> valid_sort_index si ->
  forall t y e : list R, length y = length t -> length e = length t -> strictly_increasing t -> (3 <= length t)%nat ->
  (exists a b, In a y /\ In b y /\ a <> b) -> forall k smax fmin fmax, 0 < k -> run_bounds t y smax fmin fmax -> forall p q : nat, (2 <= p <= 3)%nat -> (q < p)%nat ->
  forall raw raw' b b1 b' b1', walker_new (A := AX) si raw p false (map Fin t) (map Fin y) (map Fin e) = Ok b ->
  SetPrior b (fmul AX (fofZ AX 10) (fsqrt AX (pop_var AX (map Fin y)))) = Ok b1 ->
  walker_new (A := AX) si raw' p false (map Fin (map (fun x => k * x) t)) (map Fin y) (map Fin e) = Ok b' ->
  SetPrior b' (fmul AX (fofZ AX 10) (fsqrt AX (pop_var AX (map Fin y)))) = Ok b1' ->
  forall fuel (g : gen R0) v x g', o_Start (walker_par R0 dsort solve fuel p q false) b1 g = Ok (v, x, g') ->
  exists th th' x', v = map Fin th /\ o_Start (walker_par R0 dsort solve fuel p q false) b1' g = Ok (map Fin th', x', g') /\
    length th = (3 + p + q)%nat /\ length th' = (3 + p + q)%nat /\
    (forall j, (j < 3 + p)%nat -> nth j th' 0 = nth j (new_unit k p q th) 0) /\ (forall j, (3 + p <= j)%nat -> nth j th' 0 = nth j th 0).
Proof.
  intros R0 ds sv si HR HU Hds Hsv Hsi t y e Hy He Ht H3 Hne k smax fmin fmax Hk HB p q Hp Hq raw raw' b b1 b' b1' Eb E1 Eb' E1' fuel g v x g' E.
  destruct (@start_unit R0 HR HU ds Hds sv Hsv si Hsi t y e Hy He Ht H3 Hne k Hk smax fmin fmax HB p q false Hp (or_intror Hq) raw raw' b1 b1' fuel g v x g' (ex_intro _ b (Logic.conj Eb E1)) (ex_intro _ b' (Logic.conj Eb' E1')) E) as (th & x' & Ev & L & E').
  cbn [walker_dim] in L. exists th, (new_unit k p 0 th), x'. split; [exact Ev|]. split; [exact E'|]. split; [exact L|]. split; [rewrite new_unit_len; exact L|].
  split; intros j Hj.
  - rewrite !new_unit_nth by (rewrite L; lia). f_equal. unfold unit_shift. destruct (j <? 3)%nat; [reflexivity|]. replace (j <? 3 + p)%nat with true by (symmetry; apply Nat.ltb_lt; lia). reflexivity.
  - destruct (Nat.lt_ge_cases j (length th)) as [Hl|Hl].
    + rewrite new_unit_nth by exact Hl. unfold unit_shift. replace (j <? 3)%nat with false by (symmetry; apply Nat.ltb_ge; lia).
      replace (j <? 3 + p)%nat with false by (symmetry; apply Nat.ltb_ge; lia). replace (j <? 3 + p + 0)%nat with false by (symmetry; apply Nat.ltb_ge; lia). ring.
    + rewrite !nth_overflow; [reflexivity|exact Hl|rewrite new_unit_len; exact Hl].
Qed.
Print Assumptions C116_start_carma.

(** ... so that C116 is false for the default start of a model with a moving average: in a new unit of time (k <> 1) StartingValue() never returns the vector
    returned for the old unit in the new one. *)
Theorem C116_start_refuted : forall (R0 : rng AX) dsort solve si, valid_rng R0 ->
  (forall lo hi c gb, lo < hi -> b_uniform R0 (Fin (lo + c)) (Fin (hi + c)) gb = (xadd (fst (b_uniform R0 (Fin lo) (Fin hi) gb)) (Fin c), snd (b_uniform R0 (Fin lo) (Fin hi) gb))) ->
  valid_dsort dsort -> valid_solve solve -> valid_sort_index si ->
  forall t y e : list R, length y = length t -> length e = length t -> strictly_increasing t -> (3 <= length t)%nat ->
  (exists a b, In a y /\ In b y /\ a <> b) -> forall k smax fmin fmax, 0 < k -> k <> 1 -> run_bounds t y smax fmin fmax -> forall p q : nat, (2 <= p <= 3)%nat -> (0 < q < p)%nat ->
  forall raw raw' b b1 b' b1', walker_new (A := AX) si raw p false (map Fin t) (map Fin y) (map Fin e) = Ok b ->
  SetPrior b (fmul AX (fofZ AX 10) (fsqrt AX (pop_var AX (map Fin y)))) = Ok b1 ->
  walker_new (A := AX) si raw' p false (map Fin (map (fun x => k * x) t)) (map Fin y) (map Fin e) = Ok b' ->
  SetPrior b' (fmul AX (fofZ AX 10) (fsqrt AX (pop_var AX (map Fin y)))) = Ok b1' ->
  forall fuel (g : gen R0) th x g', o_Start (walker_par R0 dsort solve fuel p q false) b1 g = Ok (map Fin th, x, g') ->
  ~ exists x' g'', o_Start (walker_par R0 dsort solve fuel p q false) b1' g = Ok (map Fin (new_unit k p q th), x', g'').
Proof.
  intros R0 ds sv si HR HU Hds Hsv Hsi t y e Hy He Ht H3 Hne k smax fmin fmax Hk Hk1 HB p q Hp Hq raw raw' b b1 b' b1' Eb E1 Eb' E1' fuel g th x g' E (x2 & g2 & E2).
  destruct (C116_start_carma R0 ds sv si HR HU Hds Hsv Hsi t y e Hy He Ht H3 Hne k smax fmin fmax Hk HB p q Hp (proj2 Hq) raw raw' b b1 b' b1' Eb E1 Eb' E1' fuel g _ x g' E) as (th1 & th' & x' & Ev & E' & L & L' & _ & Hma).
  apply map_Fin_inj in Ev. subst th1. pose proof (eq_trans (eq_sym E') E2) as Q. injection Q as Q _ _. apply map_Fin_inj in Q.
  specialize (Hma (3 + p)%nat (le_n _)). rewrite Q, new_unit_nth in Hma by (rewrite L; lia).
  assert (ln k <> 0) as Hln. { intros Z. apply Hk1. apply ln_inv; [exact Hk|lra|]. rewrite Z, ln_1. reflexivity. }
  enough (unit_shift k p q (3 + p) <> 0) as N by (apply N; lra).
  unfold unit_shift. replace (3 + p <? 3)%nat with false by (symmetry; apply Nat.ltb_ge; lia). replace (3 + p <? 3 + p)%nat with false by (symmetry; apply Nat.ltb_ge; lia).
  replace (3 + p <? 3 + p + q)%nat with true by (symmetry; apply Nat.ltb_lt; lia). replace (3 + p - 3 - p)%nat with 0%nat by lia.
  assert (q = 1 \/ q = 2)%nat as [-> | ->] by lia; unfold quad_shift; cbn; lra.
Qed.
Print Assumptions C116_start_refuted.

(** *** The hypotheses are met *)
Lemma shift_V ks : forall lo hi c gb, lo < hi -> b_uniform (rngV ks) (Fin (lo + c)) (Fin (hi + c)) gb = (xadd (fst (b_uniform (rngV ks) (Fin lo) (Fin hi) gb)) (Fin c), snd (b_uniform (rngV ks) (Fin lo) (Fin hi) gb)).
Proof. intros lo hi c gb _. cbn. f_equal. f_equal. lra. Qed.
(** a CAR(2) run without a starting vector, the times in days instead of hours *)
Example ex_C116_default_carp : exists ds sv si ch (raw : kfp AX) w g' w',
  RunCarmaSampler (A := AX) (R := rngV 1) ds sv si ch 1 5 0 (map Fin tV) (map Fin yV) (map Fin eV) 2 0 1 false 2 [] raw (map Fin [0; 0; 0; 0; 0]) (Fin 0) (Fin 0) (tt, true) = Ok (w, g') /\
  RunCarmaSampler (A := AX) (R := rngV 1) ds sv si ch 1 5 0 (map Fin (map (fun x => 1 / 24 * x) tV)) (map Fin yV) (map Fin eV) 2 0 1 false 2 [] raw (map Fin [0; 0; 0; 0; 0]) (Fin 0) (Fin 0) (tt, true) = Ok (w', g') /\
  exists a b c d f, nth_error (w_samples w) 4 = Some (map Fin [a; b; c; d; f]) /\ nth_error (w_samples w') 4 = Some (map Fin [a; b; c; d - 2 * ln (1 / 24); f - ln (1 / 24)]).
Proof.
  destruct valid_solve_total as (sv & Hsv & Hnf). destruct PropsEngine.ex_oracles as ([ds Hds] & _ & _ & [si Hsi] & [ch Hch]).
  destruct PropsEngine.ex_run as (_ & _ & _ & _ & raw & _).
  destruct (@run_Vk sv ds si ch 1 0 5 2 raw (map Fin [0; 0; 0; 0; 0]) (Fin 0) (Fin 0) (tt, true) Hsv Hnf Hds Hsi Hch eq_refl) as (w & g' & E).
  destruct (PropsEngine.ex_moves 5 ltac:(lia)) as [_ Hmv].
  destruct (C116_default_carp (rngV 1) ds sv si ch tV yV eV (1 / 24) _ _ _ 1%nat 5%nat 0%nat 2%nat 0%nat 1%nat 2%nat false [] raw raw
    (map Fin [0; 0; 0; 0; 0]) (map Fin [0; 0; 0; 0; 0]) (Fin 0) (Fin 0) (Fin 0) (tt, true) w g'
    (rngV_valid 1) Hmv (shift_V 1) Hds Hsv Hsi Hch eq_refl eq_refl tV_inc ltac:(cbn; lia) yV_ne ltac:(lra) ltac:(lia) (or_intror eq_refl) eq_refl eq_refl
    PropsStart.boundsV ltac:(discriminate) E) as (w' & E' & _ & _ & H).
  exists ds, sv, si, ch, raw, w, g', w'. split; [exact E|]. split; [exact E'|].
  destruct (H 4%nat ltac:(lia)) as (th & lp & H1 & H2 & H3 & _).
  destruct th as [|a [|b [|c [|d [|f [|]]]]]]; try discriminate H1.
  replace (new_unit (1 / 24) 2 0 [a; b; c; d; f]) with [a; b; c; d - 2 * ln (1 / 24); f - ln (1 / 24)] in H3 by (unfold new_unit; cbn; rewrite !Rminus_0_r; reflexivity).
  exists a, b, c, d, f. auto.
Qed.
(** a CAR(1) run *)
Example ex_C116_default_car1 : exists vs si ch (raw : kf1 AX) w g' w',
  RunCar1Sampler (A := AX) (R := rngV 1) vs si ch 5 4 (map Fin PropsEngine.tX) (map Fin PropsEngine.yX) (map Fin [1; 1; 1]) 2 [] raw (map Fin [0; 0; 0; 0]) (Fin 0) (Fin 0) (tt, true) = Ok (w, g') /\
  RunCar1Sampler (A := AX) (R := rngV 1) vs si ch 5 4 (map Fin (map (fun x => 1 / 24 * x) PropsEngine.tX)) (map Fin PropsEngine.yX) (map Fin [1; 1; 1]) 2 [] raw (map Fin [0; 0; 0; 0]) (Fin 0) (Fin 0) (tt, true) = Ok (w', g') /\
  exists a b c d, nth_error (w_samples w) 4 = Some (map Fin [a; b; c; d]) /\ nth_error (w_samples w') 4 = Some (map Fin [a; b; c; d - ln (1 / 24)]).
Proof.
  destruct PropsEngine.ex_run1 as (vs & si & ch & raw & w & g' & Hvs & Hsi & Hch & Hmv & E & _). destruct PropsEngine.ex_tX as [Ht Hne].
  destruct (C116_default_car1 (rngV 1) vs si ch PropsEngine.tX PropsEngine.yX [1; 1; 1] (1 / 24) _ _ _ 5%nat 4%nat 2%nat [] raw raw
    (map Fin [0; 0; 0; 0]) (map Fin [0; 0; 0; 0]) (Fin 0) (Fin 0) (Fin 0) (tt, true) w g'
    (rngV_valid 1) Hmv Hvs Hsi Hch eq_refl eq_refl Ht Hne ltac:(lra) eq_refl eq_refl PropsEngine.ex_boundsX ltac:(discriminate) E) as (w' & E' & _ & _ & H).
  exists vs, si, ch, raw, w, g', w'. split; [exact E|]. split; [exact E'|].
  destruct (H 4%nat ltac:(lia)) as (a & b & c & d & lp & H1 & H2 & _). exists a, b, c, d. auto.
Qed.
(** a CARMA(2,1) object whose StartingValue() returns in the second pass, and the one with the times in days *)
Example ex_C116_start : exists ds sv si raw b b1 b' b1' x x',
  walker_new (A := AX) si raw 2 false (map Fin tV) (map Fin yV) (map Fin eV) = Ok b /\ SetPrior b (fmul AX (fofZ AX 10) (fsqrt AX (pop_var AX (map Fin yV)))) = Ok b1 /\
  walker_new (A := AX) si raw 2 false (map Fin (map (fun x => 1 / 24 * x) tV)) (map Fin yV) (map Fin eV) = Ok b' /\ SetPrior b' (fmul AX (fofZ AX 10) (fsqrt AX (pop_var AX (map Fin yV)))) = Ok b1' /\
  o_Start (walker_par PropsStart.rngU ds sv 5 2 1 false) b1 (0%nat, tt) = Ok (map Fin (PropsStart.thU 2), x, (4%nat, tt)) /\
  exists th', o_Start (walker_par PropsStart.rngU ds sv 5 2 1 false) b1' (0%nat, tt) = Ok (map Fin th', x', (4%nat, tt)) /\ nth 5 th' 0 = 2 /\ nth 5 (new_unit (1 / 24) 2 1 (PropsStart.thU 2)) 0 = 2 + ln 24.
Proof.
  destruct valid_solve_exists as [sv Hsv]. destruct PropsEngine.ex_oracles as ([ds Hds] & _ & _ & [si Hsi] & _).
  destruct PropsEngine.ex_run as (_ & _ & _ & _ & raw & _).
  destruct (PropsStart.ex_object si raw Hsi) as (b & b1 & Eb & E1).
  assert (strictly_increasing (stretch (1 / 24) tV)) as Ht' by (apply stretch_inc; [lra|apply tV_inc]).
  destruct (@walker_prior si Hsi (stretch (1 / 24) tV) yV eV eq_refl eq_refl Ht' yV_ne raw 2 false (le_n 2)) as (b' & b1' & _ & _ & _ & Eb' & E1' & _).
  destruct (PropsStart.C108_first PropsStart.rngU ds sv si PropsStart.rngU_valid Hds Hsv Hsi tV yV eV eq_refl eq_refl tV_inc ltac:(cbn; lia) yV_ne _ _ _ PropsStart.boundsV 2 1 false (le_n 2) (or_intror (le_n 2))
    raw b b1 Eb E1 5 2 (0%nat, tt) _ _ PropsStart.ex_second ltac:(lia)) as (x & E).
  destruct (C116_start_carma PropsStart.rngU ds sv si PropsStart.rngU_valid) with (t := tV) (y := yV) (e := eV) (k := 1 / 24) (p := 2%nat) (q := 1%nat) (raw := raw) (raw' := raw) (b := b) (b1 := b1) (b' := b') (b1' := b1') (fuel := 5%nat)
    (g := (0%nat, tt) : gen PropsStart.rngU) (v := map Fin (PropsStart.thU 2)) (x := x) (g' := (4%nat, tt) : gen PropsStart.rngU) (smax := 10 * sqrt (pvar yV)) (fmin := 1 / 2) (fmax := 1) as (th & th' & x' & Ev & E' & _ & _ & _ & Hma);
    try assumption; try reflexivity; try lia; try lra; try (cbn; lia); [|apply tV_inc|apply yV_ne|apply PropsStart.boundsV|].
  { intros lo hi c gb _. cbn. f_equal. f_equal. lra. }
  apply map_Fin_inj in Ev. subst th. exists ds, sv, si, raw, b, b1, b', b1', x, x'. repeat (split; [assumption|]). exists th'. split; [exact E'|].
  split; [rewrite (Hma 5%nat ltac:(lia)); reflexivity|]. rewrite new_unit_nth by (cbn; lia). cbn. replace (1 / 24) with (/ 24) by lra. rewrite ln_Rinv by lra. lra.
Qed.
