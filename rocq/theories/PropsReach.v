(** C121: every point of the prior region can be the next value of a chain.  [Reach.reaches] states it for one step: the acceptance probability is
    positive and exactly one vector of trial numbers proposes the point. *)
From Coq Require Import String.
From Coq Require Import Reals List Arith ZArith Lra Lia Bool.
From Coquelicot Require Import Complex.
From Verif Require Import Arith Res ListLemmas KFModel Spec Emb InitProof SimProof KF1Main Cx KFpModel KFpX KFpMain SpecModel CarpackModel.
From Verif Require Import EngineModel StartModel EngineSpec EngineHist EngineDriver EngineAX Start1Proof SeedRefute EngineReal Reach.
From Verif Require PropsEngine.
Import ListNotations.
Local Open Scope R_scope.

(** CARMA, CAR(p) and ZCAR runs: in every state of the run, for every chain. *)
Theorem C121_carma_reaches :
  forall R0 : rng AX,
  valid_rng R0 ->
  forall (dsort : list (F AX) -> option (list (F AX))) (solve : list (list (cx AX)) -> list (cx AX) -> option (list (cx AX))) (si : list (F AX) -> option (list nat))
    (chol : mat AX -> option (mat AX)),
  valid_dsort dsort ->
  valid_sort_index si ->
  valid_chol chol ->
  forall t y e : list R,
  Datatypes.length y = Datatypes.length t ->
  Datatypes.length e = Datatypes.length t ->
  strictly_increasing t ->
  (exists a b : R, In a y /\ In b y /\ a <> b) ->
  forall (fuel N burnin p q nw : nat) (z : bool) (thin : nat) (init : list R) (raw : kfp AX) (v0 : list (F AX)) (l0 a0 : F AX) (g : gen R0)
    (w : param AX (base AX (kpx AX)) (list (F AX))) (g' : gen R0),
  Nat.even p = true \/ (3 <= Datatypes.length t)%nat ->
  moves R0 (walker_dim p q z) ->
  RunCarmaSampler dsort solve si chol fuel N burnin (map Fin t) (map Fin y) (map Fin e) p q nw z thin (map Fin init) raw v0 l0 a0 g = Ok (w, g') ->
  exists (b : base AX (kpx AX)) (r : ram AX) (ex0 : exch AX) (label : string) (y0 : sys R0 (base AX (kpx AX))),
    begun (walker_par R0 dsort solve fuel p q z) (map Fin init) (walkers b v0 l0 label nw) (hot_steps (nw - 1) r ex0 ++ [SRam 0 r]) g y0 /\
    recorded (walker_par R0 dsort solve fuel p q z) y0 burnin N thin w g' /\
    (forall (smax fmin fmax : R) (th : list R) (om : list C),
     valid_solve solve ->
     z = true \/ (q < p)%nat ->
     run_bounds t y smax fmin fmax ->
     Datatypes.length th = walker_dim p q z ->
     ARRoots AX p (map Fin th) = Ok (map FinC om) ->
     in_prior smax fmin fmax th om -> nth 0 th 0 <> 0 -> exists (ly : R) (o : base AX (kpx AX)), o_LogDensity (walker_par R0 dsort solve fuel p q z) b (map Fin th) = Ok (Fin ly, o)) /\
    (forall (k : nat) (yk : sys R0 (base AX (kpx AX))),
     sweeps (walker_par R0 dsort solve fuel p q z) (student_draw (R:=R0)) k y0 yk ->
     forall (pre : list (step AX)) (i : nat) (rk : ram AX) (post pre' : list (step AX)) (ws : list (param AX (base AX (kpx AX)) (list (F AX)))) (gk : gen R0),
     y_steps yk = pre ++ SRam i rk :: post ->
     in_order (walker_par R0 dsort solve fuel p q z) (student_draw (R:=R0)) pre (y_pars yk) (y_gen yk) pre' ws gk ->
     reaches (walker_par R0 dsort solve fuel p q z) (student_draw (R:=R0)) (walker_dim p q z)
       (fun (th : list R) (ly : R) => exists o : base AX (kpx AX), o_LogDensity (walker_par R0 dsort solve fuel p q z) b (map Fin th) = Ok (Fin ly, o)) ws i rk).
Proof. exact @carma_reaches. Qed.
Print Assumptions C121_carma_reaches.

(** CAR(1) runs *)
Theorem C121_car1_reaches :
  forall R0 : rng AX,
  valid_rng R0 ->
  forall (vsort : list (F AX) -> option (list (F AX))) (si : list (F AX) -> option (list nat)) (chol : mat AX -> option (mat AX)),
  valid_vsort vsort ->
  valid_sort_index si ->
  valid_chol chol ->
  forall t y e : list R,
  Datatypes.length y = Datatypes.length t ->
  Datatypes.length e = Datatypes.length t ->
  strictly_increasing t ->
  (exists a b : R, In a y /\ In b y /\ a <> b) ->
  forall (N burnin thin : nat) (init : list R) (raw : kf1 AX) (v0 : list (F AX)) (l0 a0 : F AX) (g : gen R0) (w : param AX (base AX (F AX)) (list (F AX))) (g' : gen R0),
  moves R0 4 ->
  RunCar1Sampler vsort si chol N burnin (map Fin t) (map Fin y) (map Fin e) thin (map Fin init) raw v0 l0 a0 g = Ok (w, g') ->
  exists (b : base AX (F AX)) (r : ram AX) (y0 : sys R0 (base AX (F AX))) (w0 : param AX (base AX (F AX)) (list (F AX))),
    begun (par1 R0 vsort) (map Fin init) [new_param b v0 l0 (fofZ AX 1) true "CAR(1)"] [SRam 0 r] g y0 /\
    y_pars y0 = [w0] /\
    recorded (par1 R0 vsort) y0 burnin N thin w g' /\
    (forall (smax fmin fmax : R) (th : list R),
     run_bounds t y smax fmin fmax ->
     Datatypes.length th = 4%nat ->
     in_prior1 smax fmin fmax th -> nth 0 th 0 <> 0 -> exists (ly : R) (o : base AX (F AX)), o_LogDensity (par1 R0 vsort) b (map Fin th) = Ok (Fin ly, o)) /\
    (ffin AX (w_logpost w0) = true ->
     forall (k : nat) (yk : sys R0 (base AX (F AX))),
     sweeps (par1 R0 vsort) (student_draw (R:=R0)) k y0 yk ->
     exists rk : ram AX,
       y_steps yk = [SRam 0 rk] /\
       reaches (par1 R0 vsort) (student_draw (R:=R0)) 4 (fun (th : list R) (ly : R) => exists o : base AX (F AX), o_LogDensity (par1 R0 vsort) b (map Fin th) = Ok (Fin ly, o))
         (y_pars yk) 0 rk).
Proof. exact @car1_reaches. Qed.
Print Assumptions C121_car1_reaches.

(** the run of three walkers of PropsEngine.ex_run meets the hypotheses; from its first state the parameter thX can be reached in one step *)
Example ex_reaches : exists ds sv si ch (raw : kfp AX) w g' b r ex label y0 ly o,
  RunCarmaSampler (A := AX) (R := SeedRefute.rngV 1) ds sv si ch 1 5 4 (map Fin PropsEngine.tX) (map Fin PropsEngine.yX) (map Fin [1; 1; 1]) 2 1 3 false 2 (map Fin PropsEngine.thX) raw
    (map Fin [0; 0; 0; 0; 0; 0]) (Fin 0) (Fin 0) (tt, true) = Ok (w, g') /\
  begun (walker_par (SeedRefute.rngV 1) ds sv 1 2 1 false) (map Fin PropsEngine.thX) (walkers (A := AX) b (map Fin [0; 0; 0; 0; 0; 0]) (Fin 0) label 3) (hot_steps 2 r ex ++ [SRam 0 r]) (tt, true) y0 /\
  o_LogDensity (walker_par (SeedRefute.rngV 1) ds sv 1 2 1 false) b (map Fin PropsEngine.thX) = Ok (Fin ly, o) /\
  reaches (walker_par (SeedRefute.rngV 1) ds sv 1 2 1 false) (@student_draw AX (SeedRefute.rngV 1)) 6
    (fun th ly => exists o, o_LogDensity (walker_par (SeedRefute.rngV 1) ds sv 1 2 1 false) b (map Fin th) = Ok (Fin ly, o)) (y_pars y0) 2 r.
Proof.
  destruct PropsEngine.ex_run as (ds & sv & si & ch & raw & w & g' & Hds & Hsv & Hsi & Hch & Hmv & E & _). destruct PropsEngine.ex_tX as [Ht Hne].
  exists ds, sv, si, ch, raw, w, g'.
  destruct (@C121_carma_reaches _ (SeedRefute.rngV_valid _) ds sv si ch Hds Hsi Hch PropsEngine.tX PropsEngine.yX [1; 1; 1] eq_refl eq_refl Ht Hne 1 5 4 2 1 3 false _ _ _ _ _ _ _ _ _
    (or_introl eq_refl) Hmv E) as (b & r & ex & label & y0 & Hb & _ & Hreg & Hre).
  destruct (Hreg _ _ _ PropsEngine.thX PropsEngine.omX Hsv (or_intror (le_n 2)) PropsEngine.ex_boundsX eq_refl PropsEngine.ex_rootsX PropsEngine.ex_priorX ltac:(cbn; lra)) as (ly & o & EL).
  exists b, r, ex, label, y0, ly, o. split; [exact E|]. split; [exact Hb|]. split; [exact EL|].
  refine (Hre 0%nat y0 (sw_0 _ _ _) [] 2%nat r _ [] (y_pars y0) (y_gen y0) _ (io_nil _ _ _ _)). rewrite (proj1 Hb). reflexivity.
Qed.
