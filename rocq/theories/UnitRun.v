(** Whole runs of the samplers from a given starting vector, in another unit of time. *)
From Coq Require Import Reals List Arith ZArith Bool String Lra Lia Permutation.
From Coquelicot Require Import Complex.
From Verif Require Import SpecCarma KFpMore DetUniq.
From Verif Require Import Arith Res ListLemmas KFModel KF1Proof Spec Gauss Emb History InitProof OUpd SimProof KF1R KF1X KF1Main KF1More.
From Verif Require Import Cx KFpModel KFpProof KFpX KFpMain KFpTop SpecModel CarpackModel RootsProof PriorProof LogLikProof LogLikMain CarpackTop CarpackRefute.
From Verif Require Import EngineModel StartModel EngineSpec EngineProof EngineInv CholProof RamProof EngineHist EngineClass EngineDriver EngineTop StartProof TotalProof TotalClass TotalTop EngineAX Start1Proof SeedProof EngineRuns SeedRefute EngineReal Sym SymTime ShiftProof ShiftTop ShiftRun.
Import ListNotations.
Local Open Scope R_scope.

Set Implicit Arguments.
Unset Strict Implicit.
Local Notation length := List.length.

(** a parameter vector in the new unit: [new_unit] on the values the sampler works with *)
Definition tauU (k : R) (p q : nat) (v : list xr) : list xr := map (fun j => xadd (nth j v (Fin 0)) (Fin (- unit_shift k p q j))) (seq 0 (length v)).
Lemma tauU_len k p q v : length (tauU k p q v) = length v.
Proof. unfold tauU. rewrite map_length, seq_length. reflexivity. Qed.
Lemma tauU_nth k p q v j : (j < length v)%nat -> nth j (tauU k p q v) (Fin 0) = xadd (nth j v (Fin 0)) (Fin (- unit_shift k p q j)).
Proof.
  intros H. unfold tauU. rewrite (nth_indep _ _ (xadd (nth 0 v (Fin 0)) (Fin (- unit_shift k p q 0)))) by (rewrite map_length, seq_length; exact H).
  rewrite (map_nth (fun j => xadd (nth j v (Fin 0)) (Fin (- unit_shift k p q j)))), seq_nth by exact H. reflexivity.
Qed.
Lemma tauU_Fin k p q th : tauU k p q (map Fin th) = map Fin (new_unit k p q th).
Proof.
  unfold tauU, new_unit. rewrite map_length, map_map. apply map_ext. intros j. rewrite (map_nth Fin). reflexivity.
Qed.
Lemma vadd_nth (v s w : list xr) : vadd AX v s = Ok w -> length v = length s /\ length w = length v /\ forall j, (j < length v)%nat -> nth j w (Fin 0) = xadd (nth j v (Fin 0)) (nth j s (Fin 0)).
Proof.
  unfold vadd. change (F AX) with xr. destruct (Nat.eqb_spec (length v) (length s)) as [El|]; [|discriminate]. intros E.
  assert (w = map (fun xy => xadd (fst xy) (snd xy)) (combine v s)) as -> by (injection E as <-; reflexivity). split; [exact El|].
  assert (length (map (fun xy : xr * xr => xadd (fst xy) (snd xy)) (combine v s)) = length v) as L by (rewrite map_length, combine_length; lia).
  split; [exact L|]. intros j Hj.
  rewrite (nth_indep _ _ (xadd (fst (Fin 0, Fin 0)) (snd (Fin 0, Fin 0)))) by lia.
  rewrite (map_nth (fun xy : xr * xr => xadd (fst xy) (snd xy))), combine_nth by exact El. reflexivity.
Qed.
Lemma vadd_tauU k p q (v s w : list xr) : vadd AX v s = Ok w -> vadd AX (tauU k p q v) s = Ok (tauU k p q w).
Proof.
  intros E. destruct (vadd_nth E) as (L1 & L2 & Hn).
  assert (exists w', vadd AX (tauU k p q v) s = Ok w') as (w' & E').
  { unfold vadd. change (F AX) with xr. rewrite tauU_len, L1, Nat.eqb_refl. eexists. reflexivity. }
  rewrite E'. f_equal. destruct (vadd_nth E') as (_ & L3 & Hn'). rewrite tauU_len in L3, Hn'.
  apply (nth_ext _ _ (Fin 0) (Fin 0)); [rewrite tauU_len; lia|]. intros j Hj. rewrite L3 in Hj.
  rewrite Hn' by exact Hj. rewrite !tauU_nth by lia. rewrite Hn by exact Hj. apply xadd_swap.
Qed.

Lemma run_bounds_stretch k t y smax fmin fmax : 0 < k -> (2 <= length t)%nat -> strictly_increasing t ->
  run_bounds t y smax fmin fmax -> run_bounds (stretch k t) y smax (fmin / k) (fmax / k).
Proof.
  intros Hk Hn Hinc (A1 & A2 & A3 & (i & Hi & A4) & A5).
  assert (1 / (fmax / k) = k * (1 / fmax)) as E by (field; lra). split; [exact A1|]. split; [apply Rdiv_lt_0_compat; assumption|]. split; [|split].
  - intros j Hj. rewrite stretch_len in Hj. rewrite !stretch_nth, E. pose proof (A3 j Hj). nra.
  - exists i. rewrite stretch_len. split; [exact Hi|]. rewrite !stretch_nth, E, A4. ring.
  - rewrite stretch_len, !stretch_nth, A5. pose proof (Hinc 0%nat (length t - 1)%nat ltac:(lia) ltac:(lia)). field. split; [nra|]. split; nra.
Qed.

Section Data.
Variable R0 : rng AX.
Variables t y e : list R.
Hypothesis Hn : (2 <= length t)%nat.
Hypothesis Ht : strictly_increasing t.
Variable k : R.
Hypothesis Hk : 0 < k.
Local Notation t' := (stretch k t).
Variables smax fmin fmax : R.
Local Notation bd := (mkB AX (Fin smax) (Fin fmax) (Fin fmin) false).
Local Notation bd' := (mkB AX (Fin smax) (Fin (fmax / k)) (Fin (fmin / k)) false).

(** ** CAR(p), CARMA(p,q) *)
Section P.
Variable dsort : list (F AX) -> option (list (F AX)).
Variable solve : list (list (cx AX)) -> list (cx AX) -> option (list (cx AX)).
Hypothesis Hsv : valid_solve solve.
Variables p q : nat.
Variable z : bool.
Hypothesis Hp : (2 <= p <= 3)%nat.
Hypothesis Hq : z = true \/ (q < p)%nat.
Variables b0 b0' : base AX (kpx AX).
Hypothesis Hb0 : base_holds b0 t y e bd.
Hypothesis Hb0' : base_holds b0' t' y e bd'.
Local Notation dim := (walker_dim p q z).
Local Notation C := (pcls solve p (walker_ma (A := AX) p q z) (LogPrior AX)).
Local Notation st := (static_of b0).
Local Notation st' := (static_of b0').
Definition RXu (x x' : base AX (kpx AX)) : Prop := okt p st x /\ okt p st' x'.

Lemma dimU_le : (3 + p <= dim)%nat. Proof using All. unfold walker_dim. destruct z; lia. Qed.
Lemma HmaU (th : list xr) : length th = dim -> wp True True (fun m => length m = p) (walker_ma (A := AX) p q z th).
Proof using All. intros H. exact (@walker_ma_wp AX True True p q z th (proj1 Hp) Hq H). Qed.
Lemma HprU (th : list xr) : length th = dim -> wp True True (fun _ => True) (LogPrior AX th).
Proof using All. intros H. apply LogPrior_wp. pose proof dimU_le. change (F AX) with xr. lia. Qed.

Lemma walker_ma_unit th : length th = dim -> exists ma ma', length ma = p /\ length ma' = p /\ (exists l, nth l ma 0 <> 0) /\ (exists l, nth l ma' 0 <> 0) /\
  walker_ma (A := AX) p q z (map Fin th) = Ok (map Fin ma) /\ walker_ma (A := AX) p q z (map Fin (new_unit k p q th)) = Ok (map Fin ma') /\
  forall x, ma_poly ma' (scl (/ k) x) = ma_poly ma x.
Proof using All.
  intros Hl. unfold walker_ma, walker_dim in *.
  assert (exists ma ma' : list R, length ma = p /\ length ma' = p /\ (exists l, nth l ma 0 <> 0) /\ (exists l, nth l ma' 0 <> 0) /\
    @Ok (list xr) (carp_ma AX p) = Ok (map Fin ma) /\ @Ok (list xr) (carp_ma AX p) = Ok (map Fin ma') /\ forall x, ma_poly ma' (scl (/ k) x) = ma_poly ma x) as H0.
  { exists (upd (repeat 0 p) 0 1), (upd (repeat 0 p) 0 1). rewrite carp_ma_Fin. split; [apply CarpackRefute.carp_ma_len|]. split; [apply CarpackRefute.carp_ma_len|].
    split; [apply carp_ma_nz; lia|]. split; [apply carp_ma_nz; lia|]. split; [reflexivity|]. split; [reflexivity|]. intros x. rewrite !carp_ma_poly by lia. reflexivity. }
  destruct z; [exact H0|]. destruct (Nat.eqb_spec q 0) as [Eq|Eq]; [exact H0|]. clear H0.
  destruct Hq as [|Hq']; [discriminate|]. assert (3 + p + q <= length th)%nat as HL by lia.
  destruct (ExtractMA_carma_main p q th Hq' HL) as (ma & EM & Lm & H0 & _ & _ & Hmp & _).
  destruct (ExtractMA_carma_main p q (new_unit k p q th) Hq' ltac:(rewrite new_unit_len; exact HL)) as (ma' & EM' & Lm' & H0' & _ & _ & Hmp' & _).
  exists ma, ma'. split; [exact Lm|]. split; [exact Lm'|]. split; [exists O; rewrite H0; lra|]. split; [exists O; rewrite H0'; lra|].
  split; [exact EM|]. split; [exact EM'|]. exact (ma_poly_scale k p q th ma ma' Hk HL Hmp Hmp').
Qed.
Lemma LD_unit x x' v l x1 : RXu x x' -> realv dim v -> LogDensity C x v = Ok (l, x1) ->
  exists x1', LogDensity C x' (tauU k p q v) = Ok (l, x1') /\ RXu x1 x1'.
Proof using All.
  intros [Hx Hx'] (th & -> & Hl) E. pose proof dimU_le as Hd. rewrite tauU_Fin.
  destruct (walker_ma_unit Hl) as (ma & ma' & Lma & Lma' & Nma & Nma' & Em & Em' & Hm).
  pose proof (base_holds_static Hb0 (proj1 Hx)) as B. pose proof (base_holds_static Hb0' (proj1 Hx')) as B'.
  destruct (timep2 solve p q (walker_ma (A := AX) p q z) (walker_ma (A := AX) p q z) (LogPrior AX) k t y e th ma ma' (log_sichi (nth 1 th 0)) smax fmin fmax x x') as (v & v' & w & w' & E1 & E2 & Hv);
    try assumption; try lia.
  { intros H1. apply LogPrior_main; [lia|exact H1]. }
  { intros H1. rewrite LogPrior_main; rewrite ?new_unit_len, ?new_unit_low by lia; [reflexivity|lia|exact H1]. }
  assert (v' = v) as ->.
  { assert (centroids_ordered p th) as Ho by (intros i Hi; lia).
    destruct Hv as [Q|[[Q _]|[Q _]]]; [exact Q|exfalso; apply Q, ordered_in_order, Ho|exfalso; apply Q, ordered_new; try assumption; lia]. }
  pose proof (eq_trans (eq_sym E) E1) as Q. injection Q as -> ->. exists w'. split; [exact E2|].
  pose proof (@LDp_wp AX True True solve p dim (walker_ma (A := AX) p q z) (LogPrior AX) (proj1 Hp) dimU_le HmaU HprU st x (map Fin th) Hx ltac:(rewrite map_length; exact Hl)) as W.
  pose proof (@LDp_wp AX True True solve p dim (walker_ma (A := AX) p q z) (LogPrior AX) (proj1 Hp) dimU_le HmaU HprU st' x' (map Fin (new_unit k p q th)) Hx' ltac:(rewrite map_length, new_unit_len; exact Hl)) as W'.
  change (F AX) with xr in *. rewrite E in W. rewrite E2 in W'. split; assumption.
Qed.
Lemma save_unit x x' v : RXu x x' -> realv dim v -> exists l, base_save C x' (tauU k p q v) = Ok l.
Proof using All.
  intros [_ [Hx' _]] Hv. pose proof dimU_le. apply save_total; [exact (proj1 Hx')|rewrite tauU_len, (proj2 (realv_inv Hv)); lia|]. intros w Hw. exact (LogPrior_total Hw).
Qed.
Lemma set_start_okt fuel (s0 : static AX) b (v : list xr) (extra : gen R0 -> list (F AX) * gen R0) early withma g lp b2 th b1 g1 : okt p s0 b -> length v = dim ->
  LogDensity C b v = Ok (lp, b2) -> ffin AX lp = true -> set_start dsort solve p C extra early withma dim fuel b v g = Ok (th, b1, g1) -> okt p s0 b1.
Proof using All.
  intros Hx Hl EL Hf E. unfold set_start in E. change (F AX) with xr in *. rewrite Hl, Nat.eqb_refl in E. cbn [negb] in E. rewrite EL in E. cbn [bind] in E. rewrite Hf in E. cbn [negb] in E.
  pose proof (@LDp_wp AX True True solve p dim (walker_ma (A := AX) p q z) (LogPrior AX) (proj1 Hp) dimU_le HmaU HprU s0 b v Hx Hl) as W. change (F AX) with xr in *. rewrite EL in W. cbn [wp snd] in W.
  apply bind_Ok in E. destruct E as (t0 & E0 & E). apply bind_Ok in E. destruct E as (sc & E1 & E). apply bind_Ok in E. destruct E as (mu & _ & E).
  apply bind_Ok in E. destruct E as (roots & Er & E). apply bind_Ok in E. destruct E as (ma & Em & E). cbv zeta in E. apply bind_Ok in E. destruct E as (b3 & Eb3 & E).
  injection E as _ <- _.
  assert (length roots = p) as Lr.
  { pose proof dimU_le as Hd. pose proof (@quad_roots_wp AX True True v 3 p) as Q. unfold ARRoots in Er. change (F AX) with xr in *. specialize (Q ltac:(lia)). rewrite Er in Q. exact Q. }
  assert (length ma = p) as Lm by (pose proof (HmaU Hl) as Q; cbn [v_MA pcls] in Em; rewrite Em in Q; exact Q).
  assert (forall m, (if withma then Some ma else None) = Some m -> length m = p) as Hm by (intros m Q; destruct withma; [injection Q as <-; exact Lm|discriminate]).
  match type of Eb3 with set_filterp _ _ ?sig _ _ _ ?mu0 = _ =>
    pose proof (@set_filterp_wp AX True True solve p dim (walker_ma (A := AX) p q z) (LogPrior AX) (proj1 Hp) dimU_le s0 b2 sig roots (if withma then Some ma else None) sc mu0 I W Lr Hm) as W2 end.
  change (F AX) with xr in *. rewrite Eb3 in W2. exact W2.
Qed.
Variable init : list R.
Hypothesis Hli : length init = dim.
Variable om : list Complex.C.
Hypothesis Hom : ARRoots AX p (map Fin init) = Ok (map FinC om).
Hypothesis Hin : in_prior smax fmin fmax init om.
Hypothesis Hi0 : nth 0 init 0 <> 0.
Variable extra : gen R0 -> list (F AX) * gen R0.
Variables early withma : bool.
Lemma set_start_unit fuel b b' g th b1 g1 : RXu b b' -> set_start dsort solve p C extra early withma dim fuel b (map Fin init) g = Ok (th, b1, g1) ->
  realv dim th /\ exists b1', set_start dsort solve p C extra early withma dim fuel b' (tauU k p q (map Fin init)) g = Ok (tauU k p q th, b1', g1) /\ RXu b1 b1'.
Proof using All.
  intros HX E. pose proof HX as [Hx Hx']. pose proof (base_holds_static Hb0 (proj1 Hx)) as B.
  destruct (base_holds_lens _ _ _ _ _ _ Hb0) as (Ly & Le & _).
  destruct (@walker_finite solve t y e Ly Le Ht b smax fmin fmax p q z init om Hsv B (proj1 Hp) Hq Hli Hom Hin Hi0) as (lp & b2 & EL). rewrite walker_cls_eq in EL.
  assert (realv dim (map Fin init)) as Hre by (exists init; split; [reflexivity|exact Hli]).
  destruct (LD_unit HX Hre EL) as (b2' & EL' & _).
  assert (length (map Fin init) = dim) as L1 by (rewrite map_length; exact Hli). assert (length (tauU k p q (map Fin init)) = dim) as L2 by (rewrite tauU_len; exact L1).
  destruct (set_start_init dsort extra early withma fuel g (A := AX) eq_refl (proj1 (proj1 Hx)) L1 EL eq_refl) as (b3 & E3).
  destruct (set_start_init dsort extra early withma fuel g (A := AX) eq_refl (proj1 (proj1 Hx')) L2 EL' eq_refl) as (b3' & E3').
  pose proof (eq_trans (eq_sym E) E3) as Q. injection Q as -> -> ->. split; [exact Hre|]. exists b3'. split; [exact E3'|].
  split; [exact (@set_start_okt fuel st b _ extra early withma g _ _ _ _ _ Hx L1 EL eq_refl E3)|exact (@set_start_okt fuel st' b' _ extra early withma g _ _ _ _ _ Hx' L2 EL' eq_refl E3')].
Qed.
End P.

(** ** CAR(1) *)
Section One.
Variables vsort : list (F AX) -> option (list (F AX)).
Variables b0 b0' : base AX (F AX).
Hypothesis Hb0 : base_holds b0 t y e bd.
Hypothesis Hb0' : base_holds b0' t' y e bd'.
Local Notation st := (static_of b0).
Local Notation st' := (static_of b0').
Lemma LD1_unit x x' v l x1 : RX1 b0 b0' x x' -> realv 4 v -> LogDensity (car1_cls AX) x v = Ok (l, x1) ->
  exists x1', LogDensity (car1_cls AX) x' (tauU k 1 0 v) = Ok (l, x1') /\ RX1 b0 b0' x1 x1'.
Proof using All.
  intros [Hx Hx'] (th & -> & Hl) E. rewrite tauU_Fin.
  pose proof (base_holds_static Hb0 Hx) as B. pose proof (base_holds_static Hb0' Hx') as B'.
  destruct (time1 k t y e th smax fmin fmax x x') as (v & w & w' & E1 & E2); try assumption; try lia.
  pose proof (eq_trans (eq_sym E) E1) as Q. injection Q as -> ->. exists w'. split; [exact E2|].
  split; [exact (proj2 (LD1_ok Hx E))|exact (proj2 (LD1_ok Hx' E2))].
Qed.
Lemma save1_unit x x' v : RX1 b0 b0' x x' -> realv 4 v -> exists l, base_save (car1_cls AX) x' (tauU k 1 0 v) = Ok l.
Proof using All.
  intros [_ Hx'] Hv. apply save_total; [exact (proj1 Hx')|rewrite tauU_len, (proj2 (realv_inv Hv)); lia|]. intros w Hw. exact (LogPrior_total Hw).
Qed.
Variable init : list R.
Hypothesis Hli : length init = 4%nat.
Hypothesis Hin : in_prior1 smax fmin fmax init.
Hypothesis Hi0 : nth 0 init 0 <> 0.
Lemma SetStart1_unit b b' g th b1 g1 : RX1 b0 b0' b b' -> SetStart1 (R := R0) vsort b (map Fin init) g = Ok (th, b1, g1) ->
  realv 4 th /\ exists b1', SetStart1 (R := R0) vsort b' (tauU k 1 0 (map Fin init)) g = Ok (tauU k 1 0 th, b1', g1) /\ RX1 b0 b0' b1 b1'.
Proof using All.
  intros HX E. pose proof HX as [Hx Hx']. pose proof (base_holds_static Hb0 Hx) as B.
  assert (4 <= length init)%nat as Hl4 by lia.
  destruct (LD1_inside b t y e init smax fmin fmax false B Ht Hl4 Hin Hi0) as (m & vv & b2 & EL & _).
  assert (realv 4 (map Fin init)) as Hre by (exists init; split; [reflexivity|exact Hli]).
  destruct (LD1_unit HX Hre EL) as (b2' & EL' & _).
  assert (length (map Fin init) = 4%nat) as L1 by (rewrite map_length; exact Hli). assert (length (tauU k 1 0 (map Fin init)) = 4%nat) as L2 by (rewrite tauU_len; exact L1).
  destruct (@SetStart1_init AX R0 vsort b _ g _ _ eq_refl (proj1 Hx) L1 EL eq_refl) as (b3 & E3).
  destruct (@SetStart1_init AX R0 vsort b' _ g _ _ eq_refl (proj1 Hx') L2 EL' eq_refl) as (b3' & E3').
  pose proof (eq_trans (eq_sym E) E3) as Q. injection Q as -> -> ->. split; [exact Hre|]. exists b3'. split; [exact E3'|].
  split; [exact (SetStart1_ok Hx E3)|exact (SetStart1_ok Hx' E3')].
Qed.
End One.
End Data.

(** what the two runs have in common: log-posteriors, and the parameters up to the unit *)
Definition unit_run {X} (k : R) (p q : nat) (w w' : param AX (base AX X) (list (F AX))) : Prop :=
  w_samples w' = map (tauU k p q) (w_samples w) /\ w_logposts w' = w_logposts w /\ w_value w' = tauU k p q (w_value w) /\ w_logpost w' = w_logpost w.

Section Runs.
Variable R0 : rng AX.
Variables vsort dsort : list (F AX) -> option (list (F AX)).
Variable solve : list (list (cx AX)) -> list (cx AX) -> option (list (cx AX)).
Variable si : list (F AX) -> option (list nat).
Variable chol : mat AX -> option (mat AX).
Hypothesis Hsv : valid_solve solve.
Hypothesis Hsi : valid_sort_index si.
Hypothesis Hch : valid_chol chol.
Variables t y e : list R.
Hypothesis Hy : length y = length t.
Hypothesis He : length e = length t.
Hypothesis Ht : strictly_increasing t.
Hypothesis Hne : exists a b, In a y /\ In b y /\ a <> b.
Variable k : R.
Hypothesis Hk : 0 < k.
Local Notation t' := (stretch k t).
Variables smax fmin fmax : R.
Hypothesis HB : run_bounds t y smax fmin fmax.
Lemma HyU : length y = length t'. Proof using Hy. rewrite stretch_len. exact Hy. Qed.
Lemma HeU : length e = length t'. Proof using He. rewrite stretch_len. exact He. Qed.
Lemma HtU : strictly_increasing t'. Proof using Ht Hk. apply stretch_inc; assumption. Qed.
Lemma HnU : (2 <= length t)%nat. Proof using Hy Hne. exact (two_obs Hy Hne). Qed.

Theorem carma_unit fuel N burnin p q nw z thin (init : list R) om raw raw' v0 v0' l0 l0' a0 (g : gen R0) w g' :
  (2 <= p <= 3)%nat -> (z = true \/ (q < p)%nat) -> moves R0 (walker_dim p q z) -> length v0 = walker_dim p q z -> length v0' = walker_dim p q z ->
  length init = walker_dim p q z -> ARRoots AX p (map Fin init) = Ok (map FinC om) -> in_prior smax fmin fmax init om -> nth 0 init 0 <> 0 ->
  RunCarmaSampler (R := R0) dsort solve si chol fuel N burnin (map Fin t) (map Fin y) (map Fin e) p q nw z thin (map Fin init) raw v0 l0 a0 g = Ok (w, g') ->
  exists w', RunCarmaSampler (R := R0) dsort solve si chol fuel N burnin (map Fin t') (map Fin y) (map Fin e) p q nw z thin (tauU k p q (map Fin init)) raw' v0' l0' a0 g = Ok (w', g') /\
    unit_run k p q w w'.
Proof using Hsv Hsi Hch Hy He Ht Hne Hk HB.
  intros Hp23 Hq Hmv Hv0 Hv0' Hli Hom Hin Hi0 E. pose proof HyU as Hy'. pose proof HeU as He'. pose proof HtU as Ht'. pose proof HnU as H2.
  destruct (RunCarma_inv E) as (b & b1 & r & _ & _ & _ & Hp & Hnw & Eb & Eb1 & Er & _).
  destruct (walker_prior Hsi Hy He Ht Hne raw z Hp) as (b2 & b12 & smax0 & fmin0 & fmax0 & Eb2 & Eb12 & Hb1 & HB0).
  pose proof (eq_trans (eq_sym Eb) Eb2) as Q. injection Q as <-. pose proof (eq_trans (eq_sym Eb1) Eb12) as Q. injection Q as <-. clear Eb2 Eb12.
  destruct (run_bounds_unique HB HB0) as (-> & -> & ->). clear HB0.
  destruct (walker_prior Hsi Hy' He' Ht' Hne raw' z Hp) as (b' & b1' & smax' & fmin' & fmax' & Eb' & Eb1' & Hb1' & HB').
  destruct (run_bounds_unique (run_bounds_stretch Hk H2 Ht HB) HB') as (-> & -> & ->).
  rewrite RunCarma_eq' in E by exact Hp. rewrite RunCarma_eq' by exact Hp.
  rewrite (run_carma_fwd _ _ _ _ _ _ _ _ Hnw Eb Eb1 Er) in E. rewrite (run_carma_fwd _ _ _ _ _ _ _ _ Hnw Eb' Eb1' Er).
  apply bind_Ok in E. destruct E as (s1 & Erun & E). apply bind_Ok in E. destruct E as (w1 & Ew1 & E). injection E as <- <-.
  rewrite walker_par_eq in *. set (dim := walker_dim p q z) in *. set (C := pcls solve p (walker_ma (A := AX) p q z) (LogPrior AX)) in *.
  set (rx := RXu p b1 b1').
  assert (okt p (static_of b1) b1) as Hok.
  { assert (all_kept si (map Fin t)) as Hkp by (apply kept_distinct; [exact Hsi|apply increasing_NoDup, Ht]).
    destruct (@carp_new_okt AX si raw p (map Fin t) (map Fin y) (map Fin e) b z) as (_ & Hma & _); try assumption; try (rewrite !map_length; assumption).
    destruct (SetPrior_inv Eb1) as (_ & Ek1 & _). split; [split; [exact (proj1 Hb1)|reflexivity]|]. rewrite Ek1. exact Hma. }
  assert (okt p (static_of b1') b1') as Hok'.
  { assert (all_kept si (map Fin t')) as Hkp by (apply kept_distinct; [exact Hsi|apply increasing_NoDup, Ht']).
    destruct (@carp_new_okt AX si raw' p (map Fin t') (map Fin y) (map Fin e) b' z) as (_ & Hma & _); try assumption; try (rewrite !map_length; assumption).
    destruct (SetPrior_inv Eb1') as (_ & Ek1 & _). split; [split; [exact (proj1 Hb1')|reflexivity]|]. rewrite Ek1. exact Hma. }
  destruct (@Run_shift R0 _ (parp dsort solve fuel p C (walker_extra q z) (walker_early q z) (walker_early q z) dim) (@student_draw AX R0) dim (1 / 4)) with
    (ta := tauU k p q) (ns := False) (RX := rx) (init := map Fin init) (init' := tauU k p q (map Fin init)) (N := N) (burnin := burnin) (thin := thin) (t := [(walker_label q z, 0%nat)])
    (y := mkSys (walkers b1 v0 l0 (walker_label q z) nw) (hot_steps (nw - 1) r (mkExch AX (Z.of_nat (burnin + thin * N)) 0 0 a0) ++ [SRam 0 r]) g)
    (y' := mkSys (walkers b1' v0' l0' (walker_label q z) nw) (hot_steps (nw - 1) r (mkExch AX (Z.of_nat (burnin + thin * N)) 0 0 a0) ++ [SRam 0 r]) g) (y1 := s1) as (s1' & Erun' & Hrel);
    cbn [o_LogDensity o_Save o_Start o_SetStart parp y_pars y_steps y_gen].
  - lra.
  - exact Hmv.
  - apply tauU_len.
  - intros v s0 w0. apply vadd_tauU.
  - intros x x' v l x1 HX Hv EL. exact (LD_unit R0 H2 Ht Hk dsort Hsv Hp23 Hq Hb1 Hb1' HX Hv EL).
  - intros x x' v HX Hv. exact (save_unit R0 H2 Ht Hk dsort Hsv Hp23 Hq Hb1 Hb1' HX Hv).
  - intros x x' g0 v x1 g1 [].
  - apply tauU_len.
  - intros x x' g0 v x1 g1 HX Es. exact (set_start_unit H2 Ht Hk Hsv Hp23 Hq Hb1 Hb1' Hli Hom Hin Hi0 HX Es).
  - assert (rx b1 b1') as Hrx by exact (Logic.conj Hok Hok').
    assert (forall T tr, prew (tauU k p q) rx (SetTracking (new_param b1 v0 l0 T false (walker_label q z)) tr) (SetTracking (new_param b1' v0' l0' T false (walker_label q z)) tr)) as K.
    { intros T tr. split; [exact Hrx|]. split; [reflexivity|]. split; [reflexivity|]. split; [reflexivity|]. split; [reflexivity|]. split; [reflexivity|]. exact (eq_trans Hv0' (eq_sym Hv0)). }
    unfold walkers. destruct (temp_ladder AX nw) as [|T Ts]; cbn [map]; constructor; [apply K|].
    induction Ts as [|T1 Ts IH]; cbn [map]; constructor; [exact (K T1 false)|exact IH].
  - reflexivity.
  - reflexivity.
  - intros i r' Hir. rewrite (steps_adapt Hir). apply (ram_new_real Hch Hne (n := dim) (burnin := burnin) (a0 := a0)); [unfold dim, walker_dim; destruct z; lia|exact Er].
  - intros j Hj. apply (steps_cover (n := nw)). change (F AX) with xr in *. rewrite walkers_len in Hj. exact Hj.
  - right. intros w0 Hw0. assert (length (w_value w0) = length v0) as ->.
    { unfold walkers in Hw0. destruct (temp_ladder AX nw) as [|T Ts]; cbn [map] in Hw0; [destruct Hw0|]. destruct Hw0 as [<-|Hw0]; [reflexivity|].
      apply in_map_iff in Hw0. destruct Hw0 as (T1 & <- & _). reflexivity. }
    change (F AX) with xr in *. rewrite map_length. exact (eq_trans Hv0 (eq_sym Hli)).
  - exact Erun.
  - change (F AX) with xr in *. rewrite Erun'. cbn [bind]. destruct Hrel as (Hw & _ & Hg & _). destruct (F2_vget Hw Ew1) as (w1' & Ew1' & Hr).
    change (F AX) with xr in *. rewrite Ew1'. cbn [bind]. exists w1'. split; [rewrite Hg; reflexivity|].
    destruct Hr as ((_ & _ & _ & _ & R1 & R2 & _) & R3 & R4). split; [exact R1|]. split; [exact R2|]. split; [exact R3|exact R4].
Qed.

Theorem car1_unit N burnin thin (init : list R) raw raw' v0 v0' l0 l0' a0 (g : gen R0) w g' : moves R0 4 -> length v0 = 4%nat -> length v0' = 4%nat ->
  length init = 4%nat -> in_prior1 smax fmin fmax init -> nth 0 init 0 <> 0 ->
  RunCar1Sampler (R := R0) vsort si chol N burnin (map Fin t) (map Fin y) (map Fin e) thin (map Fin init) raw v0 l0 a0 g = Ok (w, g') ->
  exists w', RunCar1Sampler (R := R0) vsort si chol N burnin (map Fin t') (map Fin y) (map Fin e) thin (tauU k 1 0 (map Fin init)) raw' v0' l0' a0 g = Ok (w', g') /\
    unit_run k 1 0 w w'.
Proof using Hsi Hch Hy He Ht Hne Hk HB.
  intros Hmv Hv0 Hv0' Hli Hin Hi0 E. unfold RunCar1Sampler in *. pose proof HyU as Hy'. pose proof HeU as He'. pose proof HtU as Ht'. pose proof HnU as H2.
  destruct (car1_built Hsi Hy He Ht Hne raw) as (b & fm & fM & Eb & Hb & _). destruct (set_prior_built Hy He Ht Hne Hb eq_refl) as (b1 & smax0 & fmin0 & fmax0 & Eb1 & Hb1 & HB0).
  destruct (run_bounds_unique HB HB0) as (-> & -> & ->). clear HB0.
  destruct (car1_built Hsi Hy' He' Ht' Hne raw') as (b' & fm' & fM' & Eb' & Hb' & _).
  destruct (set_prior_built Hy' He' Ht' Hne Hb' eq_refl) as (b1' & smax' & fmin' & fmax' & Eb1' & Hb1' & HB').
  destruct (run_bounds_unique (run_bounds_stretch Hk H2 Ht HB) HB') as (-> & -> & ->).
  change (F AX) with xr in *. rewrite Eb in E. rewrite Eb'. cbn [bind] in *. rewrite Eb1 in E. rewrite Eb1'. cbn [bind] in *. cbv zeta in *.
  apply bind_Ok in E. destruct E as (r & Er & E). change (F AX) with xr in *. rewrite Er. cbn [bind AddSteps AddStep step_par vgetU nth_error new_param w_track w_label track_insert app] in *.
  apply bind_Ok in E. destruct E as (s1 & Erun & E). apply bind_Ok in E. destruct E as (w1 & Ew1 & E). injection E as <- <-.
  assert (okb (static_of b1) b1) as Hok by (split; [exact (proj1 Hb1)|reflexivity]).
  assert (okb (static_of b1') b1') as Hok' by (split; [exact (proj1 Hb1')|reflexivity]).
  destruct (@Run_shift R0 _ (par1 R0 vsort) (@student_draw AX R0) 4%nat (1 / 4)) with
    (ta := tauU k 1 0) (ns := False) (RX := RX1 b1 b1') (init := map Fin init) (init' := tauU k 1 0 (map Fin init)) (N := N) (burnin := burnin) (thin := thin) (t := [("CAR(1)"%string, 0%nat)])
    (y := mkSys [new_param b1 v0 l0 (fofZ AX 1) true "CAR(1)"] [SRam 0 r] g) (y' := mkSys [new_param b1' v0' l0' (fofZ AX 1) true "CAR(1)"] [SRam 0 r] g) (y1 := s1) as (s1' & Erun' & Hrel);
    cbn [o_LogDensity o_Save o_Start o_SetStart par1 y_pars y_steps y_gen].
  - lra.
  - exact Hmv.
  - apply tauU_len.
  - intros v s0 w0. apply vadd_tauU.
  - intros x x' v l x1 HX Hv EL. exact (LD1_unit R0 H2 Ht Hk vsort Hb1 Hb1' HX Hv EL).
  - intros x x' v HX Hv. exact (save1_unit R0 H2 Ht Hk vsort Hb1 Hb1' HX Hv).
  - intros x x' g0 v x1 g1 [].
  - apply tauU_len.
  - intros x x' g0 v x1 g1 HX Es. exact (SetStart1_unit H2 Ht Hk Hb1 Hb1' Hli Hin Hi0 HX Es).
  - constructor; [|constructor]. split; [exact (Logic.conj Hok Hok')|]. split; [reflexivity|]. split; [reflexivity|]. split; [reflexivity|]. split; [reflexivity|]. split; [reflexivity|]. exact (eq_trans Hv0' (eq_sym Hv0)).
  - reflexivity.
  - reflexivity.
  - intros i r' [Q|[]]. injection Q as _ <-. apply (ram_new_real Hch Hne (n := 4) (burnin := burnin) (a0 := a0)); [lia|exact Er].
  - intros j Hj. cbn in *. left. lia.
  - right. intros w0 [<-|[]]. cbn [new_param w_value]. rewrite map_length. exact (eq_trans Hv0 (eq_sym Hli)).
  - exact Erun.
  - change (F AX) with xr in *. rewrite Erun'. cbn [bind]. destruct Hrel as (Hw & _ & Hg & _). destruct (F2_vget Hw Ew1) as (w1' & Ew1' & Hr).
    change (F AX) with xr in *. rewrite Ew1'. cbn [bind]. exists w1'. split; [rewrite Hg; reflexivity|].
    destruct Hr as ((_ & _ & _ & _ & R1 & R2 & _) & R3 & R4). split; [exact R1|]. split; [exact R2|]. split; [exact R3|exact R4].
Qed.
End Runs.
