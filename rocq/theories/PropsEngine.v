(** Property theorems about the MCMC engine (C33-C50, C64, C65): samplers.hpp, steps.hpp, proposals.hpp, random.hpp,
    carmcmc.cpp and the starting values of carpack.cpp. *)
From Coq Require Import String.
From Coq Require Import Reals List Arith ZArith Lra Lia Bool Permutation.
From Coquelicot Require Import RInt Complex.
From Verif Require Import Arith Res ListLemmas KFModel Spec Gauss Emb History InitProof SimProof KF1X KF1Main KF1More.
From Verif Require Import Cx KFpModel KFpProof SpecCarma KFpX KFpMain KFpTop KFpMore SpecModel CarpackModel RootsProof PriorProof LogLikProof LogLikMain CarpackTop.
From Verif Require Import EngineModel StartModel EngineSpec EngineProof EngineInv CholProof RamProof EngineHist EngineClass EngineDriver EngineTop Balance ProposalProof StartProof TotalProof TotalClass TotalTop EngineAX Start1Proof SeedProof EngineRuns StaleProof SeedRefute EngineReal StartTop.
Import ListNotations.
Local Open Scope R_scope.

(** C33: every recorded log-posterior of a CARMA run is LogDensity of the recorded sample beside it. *)
Theorem C33_carma_logposts :
  forall (A : Arith) (R : rng A) (dsort : list (F A) -> option (list (F A))) (solve : list (list (cx A)) -> list (cx A) -> option (list (cx A)))
    (si : list (F A) -> option (list nat)) (chol : mat A -> option (mat A)) (fuel N burnin : nat) (t y e : list (F A)) (p q nw : nat) (z : bool)
    (thin : nat) (init : list (F A)) (raw : kfp A) (v0 : list (F A)) (l0 a0 : F A) (g : gen R) (w : param A (base A (kpx A)) (list (F A))) (g' : gen R),
  Datatypes.length y = Datatypes.length t ->
  Datatypes.length e = Datatypes.length t ->
  all_kept (A:=A) si t ->
  RunCarmaSampler dsort solve si chol fuel N burnin t y e p q nw z thin init raw v0 l0 a0 g = Ok (w, g') ->
  forall (i : nat) (v : list (F A)),
  nth_error (w_samples w) i = Some v ->
  exists (l : F A) (x : base A (kpx A)), nth_error (w_logposts w) i = Some l /\ LogDensity (walker_cls (A:=A) solve p q z) (w_obj w) v = Ok (l, x).
Proof. exact @carma_logposts. Qed.
Print Assumptions C33_carma_logposts.

(** C33, CAR(1). *)
Theorem C33_car1_logposts :
  forall (A : Arith) (R : rng A) (vsort : list (F A) -> option (list (F A))) (si : list (F A) -> option (list nat)) (chol : mat A -> option (mat A))
    (N burnin : nat) (t y e : list (F A)) (thin : nat) (init : list (F A)) (raw : kf1 A) (v0 : list (F A)) (l0 a0 : F A) (g : gen R)
    (w : param A (base A (F A)) (list (F A))) (g' : gen R),
  Datatypes.length y = Datatypes.length t ->
  Datatypes.length e = Datatypes.length t ->
  all_kept (A:=A) si t ->
  RunCar1Sampler vsort si chol N burnin t y e thin init raw v0 l0 a0 g = Ok (w, g') ->
  forall (i : nat) (v : list (F A)),
  nth_error (w_samples w) i = Some v -> exists (l : F A) (x : base A (F A)), nth_error (w_logposts w) i = Some l /\ LogDensity (car1_cls A) (w_obj w) v = Ok (l, x).
Proof. exact @car1_logposts. Qed.
Print Assumptions C33_car1_logposts.

(** C34: every sample of a CARMA run is inside the prior bounds; StartingValue() returns only finite log-densities, so no hypothesis on
    the start is needed. *)
Theorem C34_carma_inside :
  forall (A : Arith) (R : rng A),
  (list (F A) -> option (list (F A))) ->
  forall (dsort : list (F A) -> option (list (F A))) (solve : list (list (cx A)) -> list (cx A) -> option (list (cx A))) (si : list (F A) -> option (list nat))
    (chol : mat A -> option (mat A)),
  finite_laws A ->
  forall (fuel N burnin : nat) (t y e : list (F A)) (p q nw : nat) (z : bool) (thin : nat) (init : list (F A)) (raw : kfp A) (v0 : list (F A))
    (l0 a0 : F A) (g : gen R) (w : param A (base A (kpx A)) (list (F A))) (g' : gen R),
  Datatypes.length y = Datatypes.length t ->
  Datatypes.length e = Datatypes.length t ->
  all_kept (A:=A) si t ->
  RunCarmaSampler dsort solve si chol fuel N burnin t y e p q nw z thin init raw v0 l0 a0 g = Ok (w, g') ->
  forall (i : nat) (v : list (F A)),
  nth_error (w_samples w) i = Some v -> (exists l : F A, nth_error (w_logposts w) i = Some l /\ ffin A l = true) /\ CheckPriorBoundsp p (b_bounds (w_obj w)) v = Ok true.
Proof. exact @carma_inside. Qed.
Print Assumptions C34_carma_inside.

(** C34, CAR(1): when the start has a finite log-posterior. *)
Theorem C34_car1_inside :
  forall (A : Arith) (R : rng A) (vsort : list (F A) -> option (list (F A))) (si : list (F A) -> option (list nat)) (chol : mat A -> option (mat A)),
  finite_laws A ->
  forall (N burnin : nat) (t y e : list (F A)) (thin : nat) (init : list (F A)) (raw : kf1 A) (v0 : list (F A)) (l0 a0 : F A) (g : gen R)
    (w : param A (base A (F A)) (list (F A))) (g' : gen R),
  Datatypes.length y = Datatypes.length t ->
  Datatypes.length e = Datatypes.length t ->
  all_kept (A:=A) si t ->
  RunCar1Sampler vsort si chol N burnin t y e thin init raw v0 l0 a0 g = Ok (w, g') ->
  exists (b : base A (F A)) (r : ram A) (y0 : sys R (base A (F A))) (w0 : param A (base A (F A)) (list (F A))),
    begun (par1 R vsort) init [new_param b v0 l0 (fofZ A 1) true "CAR(1)"] [SRam 0 r] g y0 /\
    y_pars y0 = [w0] /\
    recorded (par1 R vsort) y0 burnin N thin w g' /\
    (ffin A (w_logpost w0) = true ->
     forall (i : nat) (v : list (F A)),
     nth_error (w_samples w) i = Some v -> (exists l : F A, nth_error (w_logposts w) i = Some l /\ ffin A l = true) /\ CheckPriorBounds1 (b_bounds (w_obj w)) v = Ok true).
Proof. exact @car1_inside. Qed.
Print Assumptions C34_car1_inside.

(** C34 and C40 on real data: samples of a CARMA run are in the prior region of the specification; in every state of the run every chain is a real
    vector and every proposal covariance is symmetric and positive definite. *)
Theorem C34_carma_real :
  forall R0 : rng AX,
  valid_rng R0 ->
  forall (dsort : list (F AX) -> option (list (F AX))) (solve : list (list (cx AX)) -> list (cx AX) -> option (list (cx AX))) (si : list (F AX) -> option (list nat))
    (chol : mat AX -> option (mat AX)),
  valid_dsort dsort ->
  valid_sort_index si ->
  valid_chol chol ->
  forall t y e : list R,
  Datatypes.length y = Datatypes.length t ->
  Datatypes.length e = Datatypes.length t ->
  strictly_increasing t ->
  (exists a b : R, In a y /\ In b y /\ a <> b) ->
  forall smax fmin fmax : R,
  run_bounds t y smax fmin fmax ->
  forall (fuel N burnin p q nw : nat) (z : bool) (thin : nat) (init : list R) (raw : kfp AX) (v0 : list (F AX)) (l0 a0 : F AX) (g : gen R0)
    (w : param AX (base AX (kpx AX)) (list (F AX))) (g' : gen R0),
  Nat.even p = true \/ (3 <= Datatypes.length t)%nat ->
  moves R0 (walker_dim p q z) ->
  RunCarmaSampler dsort solve si chol fuel N burnin (map Fin t) (map Fin y) (map Fin e) p q nw z thin (map Fin init) raw v0 l0 a0 g = Ok (w, g') ->
  (exists (b : base AX (kpx AX)) (r : ram AX) (ex0 : exch AX) (label : string) (y0 : sys R0 (base AX (kpx AX))),
     begun (walker_par R0 dsort solve fuel p q z) (map Fin init) (walkers b v0 l0 label nw) (hot_steps (nw - 1) r ex0 ++ [SRam 0 r]) g y0 /\
     recorded (walker_par R0 dsort solve fuel p q z) y0 burnin N thin w g' /\
     (forall (k : nat) (yk : sys R0 (base AX (kpx AX))),
      sweeps (walker_par R0 dsort solve fuel p q z) (student_draw (R:=R0)) k y0 yk -> sound_state (walker_dim p q z) yk)) /\
  (forall i : nat,
   (i < N)%nat ->
   exists (th : list R) (lp : R) (roots : list C),
     nth_error (w_samples w) i = Some (map Fin th) /\
     Datatypes.length th = walker_dim p q z /\
     nth_error (w_logposts w) i = Some (Fin lp) /\ ARRoots AX p (map Fin th) = Ok (map FinC roots) /\ in_prior smax fmin fmax th roots).
Proof. exact @carma_real. Qed.
Print Assumptions C34_carma_real.

(** C34 and C40 on real data, CAR(1). *)
Theorem C34_car1_real :
  forall R0 : rng AX,
  valid_rng R0 ->
  forall (vsort : list (F AX) -> option (list (F AX))) (si : list (F AX) -> option (list nat)) (chol : mat AX -> option (mat AX)),
  valid_vsort vsort ->
  valid_sort_index si ->
  valid_chol chol ->
  forall t y e : list R,
  Datatypes.length y = Datatypes.length t ->
  Datatypes.length e = Datatypes.length t ->
  strictly_increasing t ->
  (exists a b : R, In a y /\ In b y /\ a <> b) ->
  forall smax fmin fmax : R,
  run_bounds t y smax fmin fmax ->
  forall (N burnin thin : nat) (init : list R) (raw : kf1 AX) (v0 : list (F AX)) (l0 a0 : F AX) (g : gen R0) (w : param AX (base AX (F AX)) (list (F AX))) (g' : gen R0),
  moves R0 4 ->
  RunCar1Sampler vsort si chol N burnin (map Fin t) (map Fin y) (map Fin e) thin (map Fin init) raw v0 l0 a0 g = Ok (w, g') ->
  exists (b : base AX (F AX)) (r : ram AX) (y0 : sys R0 (base AX (F AX))) (w0 : param AX (base AX (F AX)) (list (F AX))),
    begun (par1 R0 vsort) (map Fin init) [new_param b v0 l0 (fofZ AX 1) true "CAR(1)"] [SRam 0 r] g y0 /\
    y_pars y0 = [w0] /\
    recorded (par1 R0 vsort) y0 burnin N thin w g' /\
    (forall (k : nat) (yk : sys R0 (base AX (F AX))), sweeps (par1 R0 vsort) (student_draw (R:=R0)) k y0 yk -> sound_state 4 yk) /\
    (forall i : nat,
     (i < N)%nat ->
     exists (th : list R) (lp : F AX),
       nth_error (w_samples w) i = Some (map Fin th) /\
       Datatypes.length th = 4%nat /\ nth_error (w_logposts w) i = Some lp /\ (ffin AX (w_logpost w0) = true -> ffin AX lp = true /\ in_prior1 smax fmin fmax th)).
Proof. exact @car1_real. Qed.
Print Assumptions C34_car1_real.

(** C35: sample i of a CARMA run is the state of chain 0 after burnin + (i+1) thin sweeps from the starting state. *)
Theorem C35_carma_recorded :
  forall (A : Arith) (R : rng A) (dsort : list (F A) -> option (list (F A))) (solve : list (list (cx A)) -> list (cx A) -> option (list (cx A)))
    (si : list (F A) -> option (list nat)) (chol : mat A -> option (mat A)) (fuel N burnin : nat) (t y e : list (F A)) (p q nw : nat) (z : bool)
    (thin : nat) (init : list (F A)) (raw : kfp A) (v0 : list (F A)) (l0 a0 : F A) (g : gen R) (w : param A (base A (kpx A)) (list (F A))) (g' : gen R),
  RunCarmaSampler dsort solve si chol fuel N burnin t y e p q nw z thin init raw v0 l0 a0 g = Ok (w, g') ->
  exists (b : base A (kpx A)) (r : ram A) (ex0 : exch A) (label : string) (y0 : sys R (base A (kpx A))),
    (0 < nw)%nat /\
    begun (walker_par R dsort solve fuel p q z) init (walkers b v0 l0 label nw) (hot_steps (nw - 1) r ex0 ++ [SRam 0 r]) g y0 /\
    recorded (walker_par R dsort solve fuel p q z) y0 burnin N thin w g'.
Proof. exact @carma_recorded. Qed.
Print Assumptions C35_carma_recorded.

(** C35, CAR(1). *)
Theorem C35_car1_recorded :
  forall (A : Arith) (R : rng A) (vsort : list (F A) -> option (list (F A))) (si : list (F A) -> option (list nat)) (chol : mat A -> option (mat A))
    (N burnin : nat) (t y e : list (F A)) (thin : nat) (init : list (F A)) (raw : kf1 A) (v0 : list (F A)) (l0 a0 : F A) (g : gen R)
    (w : param A (base A (F A)) (list (F A))) (g' : gen R),
  RunCar1Sampler vsort si chol N burnin t y e thin init raw v0 l0 a0 g = Ok (w, g') ->
  exists (b : base A (F A)) (r : ram A) (y0 : sys R (base A (F A))),
    begun (par1 R vsort) init [new_param b v0 l0 (fofZ A 1) true "CAR(1)"] [SRam 0 r] g y0 /\ recorded (par1 R vsort) y0 burnin N thin w g'.
Proof. exact @car1_recorded. Qed.
Print Assumptions C35_car1_recorded.

(** C35: no index is out of range with at least one walker... *)
Theorem C35_carma_safe :
  forall (A : Arith) (R : rng A) (dsort : list (F A) -> option (list (F A))) (solve : list (list (cx A)) -> list (cx A) -> option (list (cx A)))
    (si : list (F A) -> option (list nat)) (chol : mat A -> option (mat A)) (fuel N burnin : nat) (t y e : list (F A)) (p q nw : nat) (z : bool)
    (thin : nat) (init : list (F A)) (raw : kfp A) (v0 : list (F A)) (l0 a0 : F A) (g : gen R),
  (0 < nw)%nat -> RunCarmaSampler dsort solve si chol fuel N burnin t y e p q nw z thin init raw v0 l0 a0 g <> UB.
Proof. exact @carma_safe. Qed.
Print Assumptions C35_carma_safe.

(** ...nor in a CAR(1) run. *)
Theorem C35_car1_safe :
  forall (A : Arith) (R : rng A) (vsort : list (F A) -> option (list (F A))) (si : list (F A) -> option (list nat)) (chol : mat A -> option (mat A))
    (N burnin : nat) (t y e : list (F A)) (thin : nat) (init : list (F A)) (raw : kf1 A) (v0 : list (F A)) (l0 a0 : F A) (g : gen R),
  RunCar1Sampler vsort si chol N burnin t y e thin init raw v0 l0 a0 g <> UB.
Proof. exact @car1_safe. Qed.
Print Assumptions C35_car1_safe.

(** C35: without walkers the driver indexes an empty vector. *)
Theorem C35_no_walkers_undefined :
  forall (A : Arith) (R : rng A) (dsort : list (F A) -> option (list (F A))) (solve : list (list (cx A)) -> list (cx A) -> option (list (cx A)))
    (si : list (F A) -> option (list nat)) (chol : mat A -> option (mat A)) (fuel N burnin : nat) (t y e : list (F A)) (p q : nat) (z : bool)
    (thin : nat) (init : list (F A)) (raw : kfp A) (v0 : list (F A)) (l0 a0 : F A) (g : gen R),
  (2 <= p)%nat -> RunCarmaSampler dsort solve si chol fuel N burnin t y e p q 0 z thin init raw v0 l0 a0 g = UB.
Proof. exact @carma_no_walkers. Qed.
Print Assumptions C35_no_walkers_undefined.

(** C36: what an AdaptiveMetro step does with the unit proposal u and the uniform number uu. *)
Theorem C36_ram_move :
  forall (R0 : rng AX) (X : Type) (P : methodsP R0 X (list (F AX))) (draw : F AX -> gen R0 -> F AX * gen R0) (n : nat) (r : ram AX) (w : param AX X (list (F AX)))
    (g : gen R0) (u : list R) (g1 : gen R0) (uu : R) (g2 : gen R0) (L : list (list R)) (x : list R) (lx ly : R) (o : X) (T : R) (r' : ram AX)
    (w' : param AX X (list (F AX))) (g' : gen R0),
  0 < T ->
  good_chol n (r_chol r) L ->
  Datatypes.length x = n ->
  w_value w = map Fin x ->
  w_logpost w = Fin lx ->
  w_temp w = Fin T ->
  draws n (draw (Fin 0)) g = (map Fin u, g1) ->
  Datatypes.length u = n ->
  o_LogDensity P (w_obj w) (map Fin (radd x (rtmul n L u))) = Ok (Fin ly, o) ->
  @runiform AX R0 (Fin 0) (Fin 1) g1 = (Fin uu, g2) ->
  ram_step P draw r w g = Ok (r', w', g') ->
  w_value w' = map Fin (if Rlt_dec uu (metropolis T lx ly) then radd x (rtmul n L u) else x) /\
  r_naccept r' = (if Rlt_dec uu (metropolis T lx ly) then S (r_naccept r) else r_naccept r) /\ g' = g2.
Proof. exact @ram_move. Qed.
Print Assumptions C36_ram_move.

(** C36: the acceptance probability of C36_ram_move satisfies detailed balance. *)
Theorem C36_metropolis_balance :
  forall T lx ly : R, 0 < T -> exp (lx / T) * metropolis T lx ly = exp (ly / T) * metropolis T ly lx.
Proof. exact @metropolis_balance. Qed.
Print Assumptions C36_metropolis_balance.

(** C36: the transition whose invariance is stated below is that of the code, infinite log-densities included. *)
Theorem C36_ram_next_code :
  forall (R0 : rng AX) (X : Type) (P : methodsP R0 X (list (F AX))) (draw : F AX -> gen R0 -> F AX * gen R0) (n : nat) (ell : list R -> xr) (L : list (list R))
    (T : R) (r : ram AX) (w : param AX X (list (F AX))) (g : gen R0) (u : list R) (g1 : gen R0) (uu : R) (g2 : gen R0) (x : list R) (o : X) (r' : ram AX)
    (w' : param AX X (list (F AX))) (g' : gen R0),
  o_LogDensity P (w_obj w) (map Fin (jump n L x u)) = Ok (ell (jump n L x u), o) ->
  good_chol n (r_chol r) L ->
  Datatypes.length x = n ->
  w_value w = map Fin x ->
  w_logpost w = ell x ->
  w_temp w = Fin T ->
  draws n (draw (Fin 0)) g = (map Fin u, g1) ->
  Datatypes.length u = n ->
  0 <= uu -> @runiform AX R0 (Fin 0) (Fin 1) g1 = (Fin uu, g2) -> ram_step P draw r w g = Ok (r', w', g') -> w_value w' = map Fin (ram_next n ell L T x u uu).
Proof. exact @ram_next_code. Qed.
Print Assumptions C36_ram_next_code.

(** C36: detailed balance of state and unit proposal, whose reversal is ram_rev. *)
Theorem C36_ram_detailed_balance :
  forall (n : nat) (ell : list R -> xr) (L : list (list R)) (T : R),
  0 < T ->
  forall x u : list R,
  Datatypes.length x = n ->
  tempered T (ell x) * student8 u * accept_prob (ell (jump n L x u)) (ell x) (Fin T) =
  tempered T (ell (jump n L x u)) * student8 (ropp u) * accept_prob (ell (jump n L (jump n L x u) (ropp u))) (ell (jump n L x u)) (Fin T).
Proof. exact @ram_detailed_balance. Qed.
Print Assumptions C36_ram_detailed_balance.

(** C36: the tempered posterior is invariant, for every integral that is linear and invariant under the measure-preserving ram_rev. *)
Theorem C36_ram_invariant :
  forall (n : nat) (ell : list R -> xr) (L : list (list R)) (T : R),
  0 < T ->
  forall (I : integral (sized n) (ram_rev n L) (fun _ : list R * list R => 1)) (f : list R -> R),
  i_dom I (fun z : list R * list R => tempered T (ell (fst z)) * student8 (snd z) * @RInt Hierarchy.R_CompleteNormedModule (fun t : R => f (ram_next n ell L T (fst z) (snd z) t)) 0 1) ->
  i_dom I (fun z : list R * list R => tempered T (ell (fst z)) * student8 (snd z) * f (fst z)) ->
  i_val I (fun z : list R * list R => tempered T (ell (fst z)) * student8 (snd z) * @RInt Hierarchy.R_CompleteNormedModule (fun t : R => f (ram_next n ell L T (fst z) (snd z) t)) 0 1) =
  i_val I (fun z : list R * list R => tempered T (ell (fst z)) * student8 (snd z) * f (fst z)).
Proof. exact @ram_invariant. Qed.
Print Assumptions C36_ram_invariant.

(** C37: a rejected or non-finite AdaptiveMetro proposal leaves values and log-posteriors of all chains as they were. *)
Theorem C37_ram_reject :
  forall (A : Arith) (R0 : rng A) (X : Type) (P : methodsP R0 X (list (F A))) (draw : F A -> gen R0 -> F A * gen R0) (i : nat) (r : ram A)
    (ws : list (param A X (list (F A)))) (g : gen R0) (w : param A X (list (F A))) (unit : list (F A)) (g1 : gen R0) (sc new : list (F A)) (l : F A)
    (x : X) (s' : step A) (ws' : list (param A X (list (F A)))) (g' : gen R0),
  nth_error ws i = Some w ->
  draws (Datatypes.length (w_value w)) (draw (fofZ A 0)) g = (unit, g1) ->
  mtmul (r_chol r) unit = Ok sc ->
  vadd A (w_value w) sc = Ok new ->
  o_LogDensity P (w_obj w) new = Ok (l, x) ->
  ffin A (fdiv A (fsub A l (w_logpost w)) (w_temp w)) = false \/
  flt A (fst (runiform (fofZ A 0) (fofZ A 1) g1)) (fmin A (fexp A (fdiv A (fsub A l (w_logpost w)) (w_temp w))) (fofZ A 1)) = false ->
  do_step P draw (SRam i r) ws g = Ok (s', ws', g') ->
  map (chain (X:=X)) ws' = map (chain (X:=X)) ws /\ (ffin A (fdiv A (fsub A l (w_logpost w)) (w_temp w)) = false -> g' = g1).
Proof. exact @ram_reject. Qed.
Print Assumptions C37_ram_reject.

(** C37: a rejected exchange changes nothing. *)
Theorem C37_exch_reject :
  forall (A : Arith) (R0 : rng A) (X : Type) (P : methodsP R0 X (list (F A))) (draw : F A -> gen R0 -> F A * gen R0) (j : nat) (e : exch A)
    (ws : list (param A X (list (F A)))) (g : gen R0) (w o : param A X (list (F A))) (s' : step A) (ws' : list (param A X (list (F A)))) (g' : gen R0),
  nth_error ws (S j) = Some w ->
  nth_error ws j = Some o ->
  (let a :=
     fmin A
       (fexp A
          (fadd A (fmul A (fdiv A (fofZ A 1) (w_temp w)) (fsub A (w_logpost o) (w_logpost w)))
             (fmul A (fdiv A (fofZ A 1) (w_temp o)) (fsub A (w_logpost w) (w_logpost o))))) (fofZ A 1) in
   flt A (fst (runiform (fofZ A 0) (fofZ A 1) g)) (if ffin A a then a else fofZ A 0) = false) -> do_step P draw (SExch (S j) e) ws g = Ok (s', ws', g') -> ws' = ws.
Proof. exact @exch_reject. Qed.
Print Assumptions C37_exch_reject.

(** C37: an exchange with a non-finite probability changes nothing. *)
Theorem C37_exch_nonfinite :
  forall (R0 : rng AX) (X : Type) (P : methodsP R0 X (list (F AX))) (e : exch AX) (w o : param AX X (list (F AX))) (g : gen R0) (uu : R) (g1 : gen R0)
    (e' : exch AX) (w' o' : param AX X (list (F AX))) (g' : gen R0),
  xfin
    (fmin AX
       (fexp AX
          (fadd AX (fmul AX (fdiv AX (Fin 1) (w_temp w)) (fsub AX (w_logpost o) (w_logpost w)))
             (fmul AX (fdiv AX (Fin 1) (w_temp o)) (fsub AX (w_logpost w) (w_logpost o))))) (Fin 1)) = false ->
  0 <= uu -> @runiform AX R0 (Fin 0) (Fin 1) g = (Fin uu, g1) -> exch_step P e w o g = Ok (e', w', o', g') -> w' = w /\ o' = o.
Proof. exact @exch_nonfinite. Qed.
Print Assumptions C37_exch_nonfinite.

(** C37: a MetropStep either takes the proposal, or only the object (the filter it holds) differs. *)
Theorem C37_metrop_step :
  forall (R0 : rng AX) (X V : Type) (P : methodsP R0 X V) (Q : Type) (draw : V -> gen R0 -> res (V * Q * gen R0)) (qld : Q -> param AX X V -> V -> V -> xr)
    (m : metrop AX) (w : param AX X V) (g : gen R0) (new : V) (q : Q) (g1 : gen R0) (l : F AX) (o : X) (uu : R) (g2 : gen R0) (m' : metrop AX)
    (w' : param AX X V) (g' : gen R0),
  0 <= uu ->
  draw (w_value w) g = Ok (new, q, g1) ->
  o_LogDensity P (w_obj w) new = Ok (l, o) ->
  @runiform AX R0 (Fin 0) (Fin 1) g1 = (Fin uu, g2) ->
  metrop_step P draw qld m w g = Ok (m', w', g') ->
  let w1 := set_obj w o in
  let alpha := xsub (xadd (xsub (xdiv l (w_temp w)) (xdiv (w_logpost w) (w_temp w))) (qld q w1 (w_value w) new)) (qld q w1 new (w_value w)) in
  if Rlt_dec uu (macc alpha) then w_value w' = new /\ (exists o' : X, o_LogDensity P o new = Ok (w_logpost w', o')) else w' = w1.
Proof. exact @metrop_step_decides. Qed.
Print Assumptions C37_metrop_step.

(** C38: a step touches only its own chains and never temperatures, labels or records; an exchange swaps values and log-posteriors or nothing. *)
Theorem C38_step_frame :
  forall (A : Arith) (R0 : rng A) (X : Type) (P : methodsP R0 X (list (F A))) (draw : F A -> gen R0 -> F A * gen R0) (s : step A) (ws : list (param A X (list (F A))))
    (g : gen R0) (s' : step A) (ws' : list (param A X (list (F A)))) (g' : gen R0),
  do_step P draw s ws g = Ok (s', ws', g') ->
  Datatypes.length ws' = Datatypes.length ws /\
  (forall k : nat, k <> step_par s -> match s with
                                      | SRam _ _ => True
                                      | SExch i _ => k <> (i - 1)%nat
                                      end -> nth_error ws' k = nth_error ws k) /\
  (forall (k : nat) (w w' : param A X (list (F A))),
   nth_error ws k = Some w ->
   nth_error ws' k = Some w' -> w_temp w' = w_temp w /\ w_track w' = w_track w /\ w_label w' = w_label w /\ w_samples w' = w_samples w /\ w_logposts w' = w_logposts w) /\
  match s with
  | SRam _ _ => True
  | SExch i _ =>
      map (chain (X:=X)) ws' = map (chain (X:=X)) ws \/
      (exists w o w' o' : param A X (list (F A)),
         nth_error ws i = Some w /\
         nth_error ws (i - 1) = Some o /\ nth_error ws' i = Some w' /\ nth_error ws' (i - 1) = Some o' /\ chain w' = chain o /\ chain o' = chain w)
  end.
Proof. exact @do_step_frame. Qed.
Print Assumptions C38_step_frame.

(** C38: the exchange and its probability. *)
Theorem C38_exch_move :
  forall (R0 : rng AX) (X : Type) (P : methodsP R0 X (list (F AX))) (e : exch AX) (w o : param AX X (list (F AX))) (g : gen R0) (Tw To lw lo uu : R)
    (g1 : gen R0) (e' : exch AX) (w' o' : param AX X (list (F AX))) (g' : gen R0),
  0 < Tw ->
  0 < To ->
  w_temp w = Fin Tw ->
  w_temp o = Fin To ->
  w_logpost w = Fin lw ->
  w_logpost o = Fin lo ->
  @runiform AX R0 (Fin 0) (Fin 1) g = (Fin uu, g1) ->
  exch_step P e w o g = Ok (e', w', o', g') ->
  g' = g1 /\
  w_temp w' = w_temp w /\
  w_temp o' = w_temp o /\
  (if Rlt_dec uu (exch_prob Tw To lw lo)
   then w_value w' = w_value o /\ w_logpost w' = w_logpost o /\ w_value o' = w_value w /\ w_logpost o' = w_logpost w
   else w' = w /\ o' = o).
Proof. exact @exch_move. Qed.
Print Assumptions C38_exch_move.

(** C38: the probability satisfies detailed balance. *)
Theorem C38_exch_balance :
  forall Tw To lw lo : R, 0 < Tw -> 0 < To -> exp (lw / Tw) * exp (lo / To) * exch_prob Tw To lw lo = exp (lo / Tw) * exp (lw / To) * exch_prob Tw To lo lw.
Proof. exact @exch_balance. Qed.
Print Assumptions C38_exch_balance.

(** C38: the transition whose invariance is stated below is that of the code. *)
Theorem C38_exch_next_code :
  forall (R0 : rng AX) (X : Type) (P : methodsP R0 X (list (F AX))) (ell : list R -> F AX) (e : exch AX) (w o : param AX X (list (F AX))) (g : gen R0)
    (Tw To : R) (x y : list R) (uu : R) (g1 : gen R0) (e' : exch AX) (w' o' : param AX X (list (F AX))) (g' : gen R0),
  0 < Tw ->
  0 < To ->
  0 <= uu ->
  w_temp w = Fin Tw ->
  w_temp o = Fin To ->
  w_value w = map Fin x ->
  w_value o = map Fin y ->
  w_logpost w = ell x ->
  w_logpost o = ell y ->
  @runiform AX R0 (Fin 0) (Fin 1) g = (Fin uu, g1) ->
  exch_step P e w o g = Ok (e', w', o', g') ->
  w_value w' = map Fin (fst (exch_next ell Tw To x y uu)) /\
  w_value o' = map Fin (snd (exch_next ell Tw To x y uu)) /\
  w_logpost w' = ell (fst (exch_next ell Tw To x y uu)) /\ w_logpost o' = ell (snd (exch_next ell Tw To x y uu)) /\ w_temp w' = Fin Tw /\ w_temp o' = Fin To.
Proof. exact @exch_next_code. Qed.
Print Assumptions C38_exch_next_code.

(** C38: the product of tempered posteriors is invariant. *)
Theorem C38_exch_invariant :
  forall (ell : list R -> xr) (Tw To : R),
  0 < Tw ->
  0 < To ->
  forall (I : integral (fun _ : list R * list R => True) swap2 (fun _ : list R * list R => 1)) (f : list R * list R -> R),
  let law := fun z : list R * list R => tempered Tw (ell (fst z)) * tempered To (ell (snd z)) in
  i_dom I (fun z : list R * list R => law z * @RInt Hierarchy.R_CompleteNormedModule (fun t : R => f (exch_next ell Tw To (fst z) (snd z) t)) 0 1) ->
  i_dom I (fun z : list R * list R => law z * f z) ->
  i_val I (fun z : list R * list R => law z * @RInt Hierarchy.R_CompleteNormedModule (fun t : R => f (exch_next ell Tw To (fst z) (snd z) t)) 0 1) = i_val I (fun z : list R * list R => law z * f z).
Proof. exact @exch_invariant. Qed.
Print Assumptions C38_exch_invariant.

(** C39: the rank-one update of the Cholesky factor. *)
Theorem C39_chol_update :
  forall (n : nat) (L : list (list R)) (v : list R) (downdate : bool),
  CholProof.square n L ->
  Datatypes.length v = n ->
  upper n (rent L) ->
  posdiag n (rent L) ->
  let sg := if downdate then -1 else 1 in
  (downdate = true -> pd n (fun i j : nat => gram n (rent L) i j - rv v i * rv v j)) ->
  exists (L' : list (list R)) (v' : list R),
    CholUpdateR1 (A := AX) (FinM L) (map Fin v) downdate = Ok (FinM L', map Fin v') /\
    CholProof.square n L' /\
    upper n (rent L') /\ posdiag n (rent L') /\ (forall i j : nat, (i < n)%nat -> (j < n)%nat -> gram n (rent L') i j = gram n (rent L) i j + sg * (rv v i * rv v j)).
Proof. exact @chol_exact. Qed.
Print Assumptions C39_chol_update.

(** C40: one adaptive step. *)
Theorem C40_ram_adapts :
  forall (R0 : rng AX) (X : Type) (P : methodsP R0 X (list (F AX))) (draw : F AX -> gen R0 -> F AX * gen R0) (n : nat) (t : R) (r : ram AX)
    (w : param AX X (list (F AX))) (g : gen R0) (u : list R) (g1 : gen R0) (r' : ram AX) (w' : param AX X (list (F AX))) (g' : gen R0) (L : list (list R)),
  0 < t < 1 ->
  good_chol n (r_chol r) L ->
  r_gamma r = Fin (2 / 3) ->
  r_target r = Fin t ->
  Datatypes.length (w_value w) = n ->
  draws n (draw (Fin 0)) g = (map Fin u, g1) ->
  nonzero u ->
  ram_step P draw r w g = Ok (r', w', g') ->
  good_ram n t r' /\
  r_niter r' = S (r_niter r) /\
  r_maxiter r' = r_maxiter r /\
  Datatypes.length (w_value w') = n /\
  (exists (new : list (F AX)) (lnew : F AX) (x : X) (L' : list (list R)),
     vadd AX (w_value w) (map Fin (vbuild n (tmul n (rent L) (rv u)))) = Ok new /\
     o_LogDensity P (w_obj w) new = Ok (lnew, x) /\
     good_chol n (r_chol r') L' /\
     r_alpha r' = Fin (accept_prob lnew (w_logpost w) (w_temp w)) /\
     ((r_niter r < r_maxiter r)%nat ->
      forall i j : nat,
      (i < n)%nat -> (j < n)%nat -> gram n (rent L') i j = vihola n (rent L) (rv u) (eta n (r_niter r)) (accept_prob lnew (w_logpost w) (w_temp w)) t i j) /\
     ((r_maxiter r <= r_niter r)%nat -> r_chol r' = r_chol r)).
Proof. exact @ram_step_vihola. Qed.
Print Assumptions C40_ram_adapts.

(** C40: GetCovariance() is symmetric and positive definite in every state reached from a good one (C40_kept_good). *)
Theorem C40_covariance_pd :
  forall (n : nat) (t : R) (r : ram AX),
  good_ram n t r ->
  exists C : list (list R),
    GetCovariance r = FinM C /\ CholProof.square n C /\ pd n (rent C) /\ (forall i j : nat, (i < n)%nat -> (j < n)%nat -> rent C i j = rent C j i).
Proof. exact @good_cov. Qed.
Print Assumptions C40_covariance_pd.

(** C40: every history of sweeps keeps the proposals good. *)
Theorem C40_kept_good :
  forall (R0 : rng AX) (X : Type) (P : methodsP R0 X (list (F AX))) (draw : F AX -> gen R0 -> F AX * gen R0) (n : nat) (t : R),
  0 < t < 1 ->
  (forall g : gen R0, exists (u : list R) (g1 : gen R0), draws n (draw (Fin 0)) g = (map Fin u, g1) /\ nonzero u) ->
  forall (k : nat) (y y' : sys R0 X), sweeps P draw k y y' -> good_state n t (y_pars y) (y_steps y) -> good_state n t (y_pars y') (y_steps y').
Proof. exact @sweeps_good. Qed.
Print Assumptions C40_kept_good.

(** C40: the initial proposal factor of the drivers is a Cholesky factor. *)
Theorem C40_start_good :
  forall (chol : mat AX -> option (mat AX)) (n : nat) (y : list R),
  valid_chol chol -> (exists a b : R, In a y /\ In b y /\ a <> b) -> exists L : list (list R), chol (prop_covar AX n (map Fin y)) = Some (FinM L) /\ factor n (pdiag y) L.
Proof. exact @chol_init. Qed.
Print Assumptions C40_start_good.

(** C41: after burn-in no proposal scale matrix of a CARMA run changes. *)
Theorem C41_carma_adaptation_stops :
  forall (A : Arith) (R : rng A) (dsort : list (F A) -> option (list (F A))) (solve : list (list (cx A)) -> list (cx A) -> option (list (cx A)))
    (si : list (F A) -> option (list nat)) (chol : mat A -> option (mat A)) (fuel N burnin : nat) (t y e : list (F A)) (p q nw : nat) (z : bool)
    (thin : nat) (init : list (F A)) (raw : kfp A) (v0 : list (F A)) (l0 a0 : F A) (g : gen R) (w : param A (base A (kpx A)) (list (F A))) (g' : gen R),
  RunCarmaSampler dsort solve si chol fuel N burnin t y e p q nw z thin init raw v0 l0 a0 g = Ok (w, g') ->
  exists (b : base A (kpx A)) (r : ram A) (ex0 : exch A) (label : string) (y0 : sys R (base A (kpx A))),
    begun (walker_par R dsort solve fuel p q z) init (walkers b v0 l0 label nw) (hot_steps (nw - 1) r ex0 ++ [SRam 0 r]) g y0 /\
    recorded (walker_par R dsort solve fuel p q z) y0 burnin N thin w g' /\
    (forall (m : nat) (yb ym : sys R (base A (kpx A))),
     sweeps (walker_par R dsort solve fuel p q z) (student_draw (R:=R)) burnin y0 yb ->
     sweeps (walker_par R dsort solve fuel p q z) (student_draw (R:=R)) m yb ym -> chols (y_steps ym) = chols (y_steps yb)).
Proof. exact @carma_adaptation. Qed.
Print Assumptions C41_carma_adaptation_stops.

(** C41, CAR(1). *)
Theorem C41_car1_adaptation_stops :
  forall (A : Arith) (R : rng A) (vsort : list (F A) -> option (list (F A))) (si : list (F A) -> option (list nat)) (chol : mat A -> option (mat A))
    (N burnin : nat) (t y e : list (F A)) (thin : nat) (init : list (F A)) (raw : kf1 A) (v0 : list (F A)) (l0 a0 : F A) (g : gen R)
    (w : param A (base A (F A)) (list (F A))) (g' : gen R),
  RunCar1Sampler vsort si chol N burnin t y e thin init raw v0 l0 a0 g = Ok (w, g') ->
  exists (b : base A (F A)) (r : ram A) (y0 : sys R (base A (F A))),
    begun (par1 R vsort) init [new_param b v0 l0 (fofZ A 1) true "CAR(1)"] [SRam 0 r] g y0 /\
    recorded (par1 R vsort) y0 burnin N thin w g' /\
    (forall (m : nat) (yb ym : sys R (base A (F A))),
     sweeps (par1 R vsort) (student_draw (R:=R)) burnin y0 yb -> sweeps (par1 R vsort) (student_draw (R:=R)) m yb ym -> chols (y_steps ym) = chols (y_steps yb)).
Proof. exact @car1_adaptation. Qed.
Print Assumptions C41_car1_adaptation_stops.

(** C41, any step list. *)
Theorem C41_adaptation_stops :
  forall (A : Arith) (R0 : rng A) (X : Type) (P : methodsP R0 X (list (F A))) (draw : F A -> gen R0 -> F A * gen R0) (b m : nat) (y0 yb y' : sys R0 X),
  stops_after b (y_steps y0) -> sweeps P draw b y0 yb -> sweeps P draw m yb y' -> chols (y_steps y') = chols (y_steps yb).
Proof. exact @adaptation_stops. Qed.
Print Assumptions C41_adaptation_stops.

(** C42: the temperatures. *)
Theorem C42_ladder_values :
  forall n : nat, (2 <= n)%nat -> temp_ladder AX n = map (fun i : nat => Fin (exp (INR i / INR (n - 1) * ln 100))) (seq 0 n).
Proof. exact @ladder_values. Qed.
Print Assumptions C42_ladder_values.

(** C42: strictly increasing from 1 to 100 with two or more walkers. *)
Theorem C42_ladder :
  forall n : nat,
  (2 <= n)%nat ->
  exists l : list R,
    temp_ladder AX n = map Fin l /\ Datatypes.length l = n /\ nth 0 l 0 = 1 /\ nth (n - 1) l 0 = 100 /\ (forall i j : nat, (i < j < n)%nat -> nth i l 0 < nth j l 0).
Proof. exact @ladder_spec. Qed.
Print Assumptions C42_ladder.

(** C42: the chains of a run have these temperatures at all times. *)
Theorem C42_temps_kept :
  forall (A : Arith) (R : rng A) (dsort : list (F A) -> option (list (F A))) (solve : list (list (cx A)) -> list (cx A) -> option (list (cx A)))
    (si : list (F A) -> option (list nat)) (chol : mat A -> option (mat A)) (fuel N burnin : nat) (t y e : list (F A)) (p q nw : nat) (z : bool)
    (thin : nat) (init : list (F A)) (raw : kfp A) (v0 : list (F A)) (l0 a0 : F A) (g : gen R) (w : param A (base A (kpx A)) (list (F A))) (g' : gen R),
  RunCarmaSampler dsort solve si chol fuel N burnin t y e p q nw z thin init raw v0 l0 a0 g = Ok (w, g') ->
  exists (b : base A (kpx A)) (r : ram A) (ex0 : exch A) (label : string) (y0 : sys R (base A (kpx A))),
    begun (walker_par R dsort solve fuel p q z) init (walkers b v0 l0 label nw) (hot_steps (nw - 1) r ex0 ++ [SRam 0 r]) g y0 /\
    recorded (walker_par R dsort solve fuel p q z) y0 burnin N thin w g' /\
    (forall (k : nat) (yk : sys R (base A (kpx A))),
     sweeps (walker_par R dsort solve fuel p q z) (student_draw (R:=R)) k y0 yk -> map (w_temp (T:=list (F A))) (y_pars yk) = temp_ladder A nw) /\
    nth_error (temp_ladder A nw) 0 = Some (w_temp w).
Proof. exact @carma_temps. Qed.
Print Assumptions C42_temps_kept.

(** C43: what the CAR(1) starting value satisfies, and exactly when it is in the prior. *)
Theorem C43_car1_start :
  forall R0 : rng AX,
  valid_rng R0 ->
  forall vsort : list (F AX) -> option (list (F AX)),
  valid_vsort vsort ->
  forall (t y e : list R) (b : base AX (F AX)) (smax fmin fmax : R),
  base_holds b t y e (mkB AX (Fin smax) (Fin fmax) (Fin fmin) false) ->
  0 < fmax ->
  (forall i : nat, (S i < Datatypes.length t)%nat -> 1 / fmax <= nth (S i) t 0 - nth i t 0) ->
  forall g : gen R0,
  exists (sd scale mu lo med u : R) (b' : base AX (F AX)) (g' : gen R0),
    Start1 vsort b g = Ok (map Fin [sd; scale; mu; lo], b', g') /\
    car1_drawn (R0:=R0) t y (fst g) sd scale mu lo med u /\
    51 / 100 <= scale <= 199 / 100 /\ 0 <= sd /\ 0 < med /\ exp lo <= fmax /\ (in_prior1 smax fmin fmax [sd; scale; mu; lo] <-> sd <= smax /\ fmin <= 1 / (med * u)).
Proof. exact @start1_prior. Qed.
Print Assumptions C43_car1_start.

(** C43: a run from a StartingValue() outside the prior never moves; inside, every log-posterior is finite. *)
Theorem C43_car1_start_run :
  forall R0 : rng AX,
  valid_rng R0 ->
  forall (vsort : list (F AX) -> option (list (F AX))) (si : list (F AX) -> option (list nat)) (chol : mat AX -> option (mat AX)),
  valid_vsort vsort ->
  valid_sort_index si ->
  valid_chol chol ->
  forall t y e : list R,
  Datatypes.length y = Datatypes.length t ->
  Datatypes.length e = Datatypes.length t ->
  strictly_increasing t ->
  (exists a b : R, In a y /\ In b y /\ a <> b) ->
  forall (N burnin thin : nat) (init : list (F AX)) (raw : kf1 AX) (v0 : list (F AX)) (l0 a0 : F AX) (g : gen R0),
  Datatypes.length v0 = 4%nat ->
  Datatypes.length init <> 4%nat ->
  exists (w : param AX (base AX (F AX)) (list (F AX))) (g' : gen R0) (sd scale mu lo med u smax fmin fmax : R),
    RunCar1Sampler vsort si chol N burnin (map Fin t) (map Fin y) (map Fin e) thin init raw v0 l0 a0 g = Ok (w, g') /\
    run_bounds t y smax fmin fmax /\
    car1_drawn (R0:=R0) t y (fst g) sd scale mu lo med u /\
    0 <= sd /\
    51 / 100 <= scale <= 199 / 100 /\
    0 < med /\
    (in_prior1 smax fmin fmax [sd; scale; mu; lo] <-> sd <= smax /\ fmin <= 1 / (med * u)) /\
    (~ in_prior1 smax fmin fmax [sd; scale; mu; lo] ->
     forall i : nat, (i < N)%nat -> nth_error (w_samples w) i = Some (map Fin [sd; scale; mu; lo]) /\ nth_error (w_logposts w) i = Some NInf) /\
    (in_prior1 smax fmin fmax [sd; scale; mu; lo] ->
     sd <> 0 -> forall i : nat, (i < N)%nat -> exists (v : list (F AX)) (l : R), nth_error (w_samples w) i = Some v /\ nth_error (w_logposts w) i = Some (Fin l)).
Proof. exact @car1_start_real. Qed.
Print Assumptions C43_car1_start_run.

(** C43 is false: there are data and a generator for which every run consists of copies of one point with log-posterior minus infinity. *)
Theorem C43_car1_start_refuted :
  exists (R0 : rng AX) (vsort : list xr -> option (list xr)) (si : list xr -> option (list nat)) (chol : mat AX -> option (mat AX)) (t y e : list R),
    valid_rng R0 /\
    valid_vsort vsort /\
    valid_sort_index si /\
    valid_chol chol /\
    Datatypes.length y = Datatypes.length t /\
    Datatypes.length e = Datatypes.length t /\
    strictly_increasing t /\
    (exists a b : R, In a y /\ In b y /\ a <> b) /\
    (forall (N burnin thin : nat) (raw : kf1 AX) (v0 : list (F AX)) (l0 a0 : F AX) (g : gen R0),
     Datatypes.length v0 = 4%nat ->
     exists (w : param AX (base AX (F AX)) (list (F AX))) (g' : gen R0) (v : list (F AX)),
       RunCar1Sampler (A := AX) (R := R0) vsort si chol N burnin (map Fin t) (map Fin y) (map Fin e) thin [] raw v0 l0 a0 g = Ok (w, g') /\
       w_samples w = repeat v N /\ w_logposts w = repeat NInf N).
Proof. exact @car1_start_stuck. Qed.
Print Assumptions C43_car1_start_refuted.

(** C44: StartingValue of the CARp, ZCAR, CARMA and ZCARMA classes. *)
Theorem C44_starting_value_finite :
  forall (A : Arith) (R : rng A) (dsort : list (F A) -> option (list (F A))) (solve : list (list (cx A)) -> list (cx A) -> option (list (cx A)))
    (fuel p : nat) (C : cls A (kpx A) (list (cx A))) (M : methodsP R (base A (kpx A)) (list (F A))) (n : nat) (b : base A (kpx A)) (g : gen R)
    (th : list (F A)) (b' : base A (kpx A)) (g' : gen R),
  multi dsort solve fuel p C M n ->
  wfb b ->
  o_Start M b g = Ok (th, b', g') -> static_of b' = static_of b /\ wfb b' /\ (exists (l : F A) (b2 : base A (kpx A)), LogDensity C b' th = Ok (l, b2) /\ ffin A l = true).
Proof. exact @start_finite. Qed.
Print Assumptions C44_starting_value_finite.

(** C44: SetStartingValue returns only values with a finite log-density. *)
Theorem C44_set_starting_value_finite :
  forall (A : Arith) (R : rng A) (dsort : list (F A) -> option (list (F A))) (solve : list (list (cx A)) -> list (cx A) -> option (list (cx A)))
    (fuel p : nat) (C : cls A (kpx A) (list (cx A))) (M : methodsP R (base A (kpx A)) (list (F A))) (n : nat) (b : base A (kpx A)) (init : list (F A))
    (g : gen R) (th : list (F A)) (b' : base A (kpx A)) (g' : gen R),
  multi dsort solve fuel p C M n ->
  wfb b ->
  o_SetStart M b init g = Ok (th, b', g') ->
  static_of b' = static_of b /\ wfb b' /\ (exists (l : F A) (b2 : base A (kpx A)), LogDensity C b' th = Ok (l, b2) /\ ffin A l = true).
Proof. exact @set_start_finite. Qed.
Print Assumptions C44_set_starting_value_finite.

(** C44: init is used when it fits... *)
Theorem C44_set_starting_value_takes :
  forall (A : Arith) (R : rng A) (dsort : list (F A) -> option (list (F A))) (solve : list (list (cx A)) -> list (cx A) -> option (list (cx A)))
    (fuel p : nat) (C : cls A (kpx A) (list (cx A))) (M : methodsP R (base A (kpx A)) (list (F A))) (n : nat) (b : base A (kpx A)) (init : list (F A))
    (g : gen R) (lp : F A) (b1 : base A (kpx A)),
  multi dsort solve fuel p C M n ->
  ffin A (fneg A (finf A)) = false ->
  wfb b -> Datatypes.length init = n -> LogDensity C b init = Ok (lp, b1) -> ffin A lp = true -> exists b2 : base A (kpx A), o_SetStart M b init g = Ok (init, b2, g).
Proof. exact @set_start_takes. Qed.
Print Assumptions C44_set_starting_value_takes.

(** ...and otherwise SetStartingValue behaves as StartingValue: wrong length... *)
Theorem C44_set_starting_value_length :
  forall (A : Arith) (R : rng A) (dsort : list (F A) -> option (list (F A))) (solve : list (list (cx A)) -> list (cx A) -> option (list (cx A)))
    (fuel p : nat) (C : cls A (kpx A) (list (cx A))) (M : methodsP R (base A (kpx A)) (list (F A))) (n : nat) (b : base A (kpx A)) (init : list (F A))
    (g : gen R), multi dsort solve fuel p C M n -> Datatypes.length init <> n -> o_SetStart M b init g = o_Start M b g.
Proof. exact @set_start_length. Qed.
Print Assumptions C44_set_starting_value_length.

(** ...or a non-finite log-density. *)
Theorem C44_set_starting_value_nonfinite :
  forall (A : Arith) (R : rng A) (dsort : list (F A) -> option (list (F A))) (solve : list (list (cx A)) -> list (cx A) -> option (list (cx A)))
    (fuel p : nat) (C : cls A (kpx A) (list (cx A))) (M : methodsP R (base A (kpx A)) (list (F A))) (n : nat) (b : base A (kpx A)) (init : list (F A))
    (g : gen R) (lp : F A) (b1 : base A (kpx A)),
  multi dsort solve fuel p C M n -> Datatypes.length init = n -> LogDensity C b init = Ok (lp, b1) -> ffin A lp = false -> o_SetStart M b init g = o_Start M b1 g.
Proof. exact @set_start_nonfinite. Qed.
Print Assumptions C44_set_starting_value_nonfinite.

(** C44: every walker of a run starts at an admissible init. *)
Theorem C44_carma_starts_at_init :
  forall (A : Arith) (R : rng A) (dsort : list (F A) -> option (list (F A))) (solve : list (list (cx A)) -> list (cx A) -> option (list (cx A)))
    (si : list (F A) -> option (list nat)) (chol : mat A -> option (mat A)) (fuel N burnin : nat) (t y e : list (F A)) (p q nw : nat) (z : bool)
    (thin : nat) (init : list (F A)) (raw : kfp A) (v0 : list (F A)) (l0 a0 : F A) (g : gen R) (w : param A (base A (kpx A)) (list (F A))) (g' : gen R)
    (b b1 : base A (kpx A)) (lp : F A) (b2 : base A (kpx A)),
  ffin A (fneg A (finf A)) = false ->
  Datatypes.length y = Datatypes.length t ->
  Datatypes.length e = Datatypes.length t ->
  all_kept (A:=A) si t ->
  walker_new (A:=A) si raw p z t y e = Ok b ->
  SetPrior b (fmul A (fofZ A 10) (fsqrt A (pop_var A y))) = Ok b1 ->
  Datatypes.length init = walker_dim p q z ->
  Datatypes.length v0 = walker_dim p q z ->
  LogDensity (walker_cls (A:=A) solve p q z) b1 init = Ok (lp, b2) ->
  ffin A lp = true ->
  RunCarmaSampler dsort solve si chol fuel N burnin t y e p q nw z thin init raw v0 l0 a0 g = Ok (w, g') ->
  exists (r : ram A) (ex0 : exch A) (label : string) (y0 : sys R (base A (kpx A))),
    begun (walker_par R dsort solve fuel p q z) init (walkers b1 v0 l0 label nw) (hot_steps (nw - 1) r ex0 ++ [SRam 0 r]) g y0 /\
    recorded (walker_par R dsort solve fuel p q z) y0 burnin N thin w g' /\
    y_gen y0 = g /\ Datatypes.length (y_pars y0) = nw /\ Forall (fun w0 : param A (base A (kpx A)) (list (F A)) => w_value w0 = init /\ w_logpost w0 = lp) (y_pars y0).
Proof. exact @carma_starts_at_init. Qed.
Print Assumptions C44_carma_starts_at_init.

(** C44, CAR(1) run. *)
Theorem C44_car1_starts_at_init :
  forall (A : Arith) (R : rng A) (vsort : list (F A) -> option (list (F A))) (si : list (F A) -> option (list nat)) (chol : mat A -> option (mat A))
    (N burnin : nat) (t y e : list (F A)) (thin : nat) (init : list (F A)) (raw : kf1 A) (v0 : list (F A)) (l0 a0 : F A) (g : gen R)
    (w : param A (base A (F A)) (list (F A))) (g' : gen R) (b b1 : base A (F A)) (lp : F A) (b2 : base A (F A)),
  ffin A (fneg A (finf A)) = false ->
  Datatypes.length y = Datatypes.length t ->
  Datatypes.length e = Datatypes.length t ->
  all_kept (A:=A) si t ->
  car1_new si raw t y e = Ok b ->
  SetPrior b (fmul A (fofZ A 10) (fsqrt A (pop_var A y))) = Ok b1 ->
  Datatypes.length init = 4%nat ->
  Datatypes.length v0 = 4%nat ->
  LogDensity (car1_cls A) b1 init = Ok (lp, b2) ->
  ffin A lp = true ->
  RunCar1Sampler vsort si chol N burnin t y e thin init raw v0 l0 a0 g = Ok (w, g') ->
  exists (r : ram A) (y0 : sys R (base A (F A))) (w0 : param A (base A (F A)) (list (F A))),
    ram_new chol (prop_covar A 4 y) (fdec A 1 4) burnin a0 = Ok r /\
    begun (par1 R vsort) init [new_param b1 v0 l0 (fofZ A 1) true "CAR(1)"] [SRam 0 r] g y0 /\
    recorded (par1 R vsort) y0 burnin N thin w g' /\ y_gen y0 = g /\ y_pars y0 = [w0] /\ w_value w0 = init /\ w_logpost w0 = lp /\ okb (static_of b1) (w_obj w0).
Proof. exact @car1_starts_at_init. Qed.
Print Assumptions C44_car1_starts_at_init.

(** C45: the stretch proposal. *)
Theorem C45_stretch_draw :
  forall (R0 : rng AX) (fuel : nat) (vs : list (list R)) (me : nat) (a : R) (x : list R) (g : gen R0) (y : list (F AX)) (z : F AX) (g' : gen R0),
  1 < a ->
  valid_int R0 ->
  (forall g0 : gen R0, exists (u : R) (g1 : gen R0), @runiform AX R0 (Fin 0) (Fin 1) g0 = (Fin u, g1) /\ 0 <= u <= 1) ->
  Forall (fun c : list R => Datatypes.length c = Datatypes.length x) vs ->
  vs <> [] ->
  stretch_draw (A := AX) (R := R0) fuel (map (map Fin) vs) me (Fin a) (map Fin x) g = Ok (y, z, g') ->
  exists (j : nat) (c : list R) (zr u : R) (g1 : gen R0),
    j <> me /\
    nth_error vs j = Some c /\
    @runiform AX R0 (Fin 0) (Fin 1) g1 = (Fin u, g') /\ z = Fin zr /\ 1 / a <= zr <= a /\ powerlaw_cdf (1 / a) a (- (1 / 2)) zr = u /\ y = map Fin (stretch_pt c zr x).
Proof. exact @stretch_draw_spec. Qed.
Print Assumptions C45_stretch_draw.

(** C45: its acceptance. *)
Theorem C45_stretch_step :
  forall (R0 : rng AX) (X : Type) (P : methodsP R0 X (list (F AX))) (fuel : nat) (vals : list (list (F AX))) (me : nat) (a : xr) (m : metrop AX)
    (w : param AX X (list (F AX))) (g : gen R0) (x y : list R) (z T lx uu : R) (ly : xr) (g1 g2 : gen R0) (o : X) (m' : metrop AX) (w' : param AX X (list (F AX)))
    (g' : gen R0),
  0 < T ->
  0 < z ->
  0 <= uu ->
  Datatypes.length x = Datatypes.length y ->
  w_value w = map Fin x ->
  w_logpost w = Fin lx ->
  w_temp w = Fin T ->
  (exists r : R, ly = Fin r) \/ ly = NInf ->
  stretch_draw (A := AX) (R := R0) fuel vals me a (map Fin x) g = Ok (map Fin y, Fin z, g1) ->
  o_LogDensity P (w_obj w) (map Fin y) = Ok (ly, o) ->
  @runiform AX R0 (Fin 0) (Fin 1) g1 = (Fin uu, g2) ->
  metrop_step P (stretch_draw (A := AX) (R := R0) fuel vals me a) (fun (q : F AX) (v : param AX X (list (F AX))) (new old : list (F AX)) => stretch_logdens AX (w_value v) q new old) m w g =
  Ok (m', w', g') ->
  w_value w' = map Fin (if Rlt_dec uu (if close_dec x y then stretch_prob 1 T z (Fin lx) ly else stretch_prob (Datatypes.length x) T z (Fin lx) ly) then y else x).
Proof. exact @stretch_step_code. Qed.
Print Assumptions C45_stretch_step.

(** C45: detailed balance with the Jacobian of the reversal. *)
Theorem C45_stretch_detailed_balance :
  forall (c : list R) (ell : list R -> xr) (T : R),
  0 < T ->
  forall (x : list R) (z : R),
  Datatypes.length x = Datatypes.length c ->
  0 < z ->
  let y := stretch_pt c z x in
  tempered T (ell x) * gz z * stretch_prob (Datatypes.length c) T z (ell x) (ell y) =
  tempered T (ell y) * gz (/ z) * stretch_prob (Datatypes.length c) T (/ z) (ell y) (ell (stretch_pt c (/ z) y)) * stretch_jac c (x, z).
Proof. exact @stretch_detailed_balance. Qed.
Print Assumptions C45_stretch_detailed_balance.

(** C45: the tempered posterior is invariant. *)
Theorem C45_stretch_invariant :
  forall (c : list R) (ell : list R -> xr) (T : R),
  0 < T ->
  forall (I : integral (stretch_ok c) (stretch_rev c) (stretch_jac c)) (f : list R -> R),
  let law := fun s : list R * R => tempered T (ell (fst s)) * gz (snd s) in
  i_dom I (fun s : list R * R => law s * @RInt Hierarchy.R_CompleteNormedModule (fun t : R => f (stretch_next c ell T (fst s) (snd s) t)) 0 1) ->
  i_dom I (fun s : list R * R => law s * f (fst s)) ->
  i_val I (fun s : list R * R => law s * @RInt Hierarchy.R_CompleteNormedModule (fun t : R => f (stretch_next c ell T (fst s) (snd s) t)) 0 1) = i_val I (fun s : list R * R => law s * f (fst s)).
Proof. exact @stretch_invariant. Qed.
Print Assumptions C45_stretch_invariant.

(** C45: in an ensemble of one walker the search for a partner never ends. *)
Theorem C45_alone_diverges :
  forall (R0 : rng AX) (fuel : nat) (g : gen R0), valid_int R0 -> grab_index fuel 1 0 g = Diverge.
Proof. exact @grab_index_alone. Qed.
Print Assumptions C45_alone_diverges.

(** C46: the correction is the log ratio of the log-normal densities. *)
Theorem C46_lognormal_ratio :
  forall s x y : R,
  0 < s ->
  0 < x -> 0 < y -> fsub AX (lognormal_logdens AX (Fin x) (Fin y)) (lognormal_logdens AX (Fin y) (Fin x)) = Fin (ln (lognormal_density s x y / lognormal_density s y x)).
Proof. exact @lognormal_ratio. Qed.
Print Assumptions C46_lognormal_ratio.

(** C46: hence the Metropolis-Hastings probability. *)
Theorem C46_lognormal_step :
  forall (R0 : rng AX) (X : Type) (P : methodsP R0 X (F AX)) (logsd : xr) (m : metrop AX) (w : param AX X (F AX)) (g : gen R0) (x y lx ly T s uu : R)
    (g1 g2 : gen R0) (o : X) (m' : metrop AX) (w' : param AX X (F AX)) (g' : gen R0),
  0 < T ->
  0 < s ->
  0 < x ->
  0 < y ->
  0 <= uu ->
  w_value w = Fin x ->
  w_logpost w = Fin lx ->
  w_temp w = Fin T ->
  lognormal_draw (A := AX) (R := R0) logsd (Fin x) g = (Fin y, g1) ->
  o_LogDensity P (w_obj w) (Fin y) = Ok (Fin ly, o) ->
  @runiform AX R0 (Fin 0) (Fin 1) g1 = (Fin uu, g2) ->
  metrop_step P (fun (v : F AX) (g0 : gen R0) => let (y0, g'0) := lognormal_draw (A := AX) (R := R0) logsd v g0 in Ok (y0, tt, g'0))
    (fun (_ : unit) (_ : param AX X (F AX)) (new old : F AX) => lognormal_logdens AX new old) m w g = Ok (m', w', g') ->
  w_value w' = Fin (if Rlt_dec uu (Rmin 1 (exp (ly / T) * lognormal_density s x y / (exp (lx / T) * lognormal_density s y x))) then y else x).
Proof. exact @lognormal_step_code. Qed.
Print Assumptions C46_lognormal_step.

(** C47: powerlaw inverts its distribution function. *)
Theorem C47_powerlaw :
  forall (R0 : rng AX) (lo hi s u : R) (g g1 : gen R0),
  0 < lo < hi ->
  s <> -1 ->
  0 <= u <= 1 ->
  @runiform AX R0 (Fin 0) (Fin 1) g = (Fin u, g1) -> exists x : R, @powerlaw AX R0 (Fin lo) (Fin hi) (Fin s) g = (Fin x, g1) /\ lo <= x <= hi /\ powerlaw_cdf lo hi s x = u.
Proof. exact @powerlaw_exact. Qed.
Print Assumptions C47_powerlaw.

(** C48: CAR(1) runs from the same seed agree whatever the generators were before. *)
Theorem C48_car1_seeded :
  forall (A : Arith) (R : rng A) (vsort : list (F A) -> option (list (F A))) (si : list (F A) -> option (list nat)) (chol : mat A -> option (mat A))
    (N burnin : nat) (t y e : list (F A)) (thin : nat) (init : list (F A)) (raw : kf1 A) (v0 : list (F A)) (l0 a0 : F A) (seed : Z) (g g' : gen R),
  seen (R:=R) (RunCar1Sampler vsort si chol N burnin t y e thin init raw v0 l0 a0 (SetSeed seed g)) =
  seen (R:=R) (RunCar1Sampler vsort si chol N burnin t y e thin init raw v0 l0 a0 (SetSeed seed g')).
Proof. exact @car1_seeded. Qed.
Print Assumptions C48_car1_seeded.

(** C48: CARMA runs given an admissible init agree. *)
Theorem C48_carma_seeded :
  forall (A : Arith) (R : rng A) (dsort : list (F A) -> option (list (F A))) (solve : list (list (cx A)) -> list (cx A) -> option (list (cx A)))
    (si : list (F A) -> option (list nat)) (chol : mat A -> option (mat A)) (fuel N burnin : nat) (t y e : list (F A)) (p q nw : nat) (z : bool)
    (thin : nat) (init : list (F A)) (raw : kfp A) (v0 : list (F A)) (l0 a0 : F A) (seed : Z) (g g' : gen R) (b b1 : base A (kpx A)) (lp : F A)
    (b2 : base A (kpx A)),
  ffin A (fneg A (finf A)) = false ->
  Datatypes.length y = Datatypes.length t ->
  Datatypes.length e = Datatypes.length t ->
  all_kept (A:=A) si t ->
  walker_new (A:=A) si raw p z t y e = Ok b ->
  SetPrior b (fmul A (fofZ A 10) (fsqrt A (pop_var A y))) = Ok b1 ->
  Datatypes.length init = walker_dim p q z ->
  Datatypes.length v0 = walker_dim p q z ->
  LogDensity (walker_cls (A:=A) solve p q z) b1 init = Ok (lp, b2) ->
  ffin A lp = true ->
  seen (R:=R) (RunCarmaSampler dsort solve si chol fuel N burnin t y e p q nw z thin init raw v0 l0 a0 (SetSeed seed g)) =
  seen (R:=R) (RunCarmaSampler dsort solve si chol fuel N burnin t y e p q nw z thin init raw v0 l0 a0 (SetSeed seed g')).
Proof. exact @carma_seeded. Qed.
Print Assumptions C48_carma_seeded.

(** C48 is false without init: the second generator (arma::randu) is not seeded. *)
Theorem C48_carma_seed_refuted :
  exists
    (R0 : rng AX) (dsort : list xr -> option (list xr)) (solve : list (list (cx AX)) -> list (cx AX) -> option (list (cx AX))) (si : list xr -> option (list nat))
  (chol : mat AX -> option (mat AX)) (t y e : list R) (g1 g2 : gen R0) (seed : Z),
    valid_rng R0 /\
    valid_dsort dsort /\
    valid_solve solve /\
    valid_sort_index si /\
    valid_chol chol /\
    Datatypes.length y = Datatypes.length t /\
    Datatypes.length e = Datatypes.length t /\
    strictly_increasing t /\
    (exists a b : R, In a y /\ In b y /\ a <> b) /\
    (forall (fuel N thin : nat) (raw : kfp AX) (v0 : list (F AX)) (l0 a0 : F AX),
     Datatypes.length v0 = 5%nat ->
     (0 < N)%nat ->
     exists (w1 w2 : param AX (base AX (kpx AX)) (list (F AX))) (g1' g2' : gen R0),
       RunCarmaSampler (A := AX) (R := R0) dsort solve si chol (S fuel) N 0 (map Fin t) (map Fin y) (map Fin e) 2 0 1 false thin [] raw v0 l0 a0 (SetSeed (R := R0) seed g1) = Ok (w1, g1') /\
       RunCarmaSampler (A := AX) (R := R0) dsort solve si chol (S fuel) N 0 (map Fin t) (map Fin y) (map Fin e) 2 0 1 false thin [] raw v0 l0 a0 (SetSeed (R := R0) seed g2) = Ok (w2, g2') /\
       w_samples w1 <> w_samples w2).
Proof. exact @carma_seed_refuted. Qed.
Print Assumptions C48_carma_seed_refuted.

(** C49: getSamples() returns the record, unless the run had length zero. *)
Theorem C49_get_samples :
  forall (A : Arith) (R : rng A) (X : Type) (M : methodsP R (base A X) (list (F A))) (y0 : sys R (base A X)) (burnin N thin : nat) (w : param A (base A X) (list (F A)))
    (g' : gen R), recorded M y0 burnin N thin w g' -> getSamples A (w_samples w) = (if N =? 0 then UB else Ok (w_samples w)).
Proof. exact @getSamples_run. Qed.
Print Assumptions C49_get_samples.

(** C50 is false: after a rejected move GetKalmanMean() is that of the rejected proposal. *)
Theorem C50_kalman_stale_refuted :
  forall (raw : kf1 AX) (v0 : list (F AX)) (l0 a0 : F AX),
  Datatypes.length v0 = 4%nat ->
  exists (R0 : rng AX) (vsort : list xr -> option (list xr)) (si : list xr -> option (list nat)) (chol : mat AX -> option (mat AX)) (init : list R),
    valid_rng R0 /\
    valid_vsort vsort /\
    valid_sort_index si /\
    valid_chol chol /\
    (forall ga : gen R0,
     exists (w : param AX (base AX (F AX)) (list (F AX))) (g' : gen R0) (lp : R) (b' : base AX (F AX)),
       RunCar1Sampler (A := AX) (R := R0) vsort si chol 1 0 (map Fin tT) (map Fin yT) (map Fin eT) 1 (map Fin init) raw v0 l0 a0 (SetSeed (R := R0) 7 ga) = Ok (w, g') /\
       w_value w = map Fin init /\
       w_logpost w = Fin lp /\ LogDensity (car1_cls AX) (w_obj w) (w_value w) = Ok (Fin lp, b') /\ GetKalmanMean (w_obj w) (w_value w) <> GetKalmanMean b' (w_value w)).
Proof. exact @kalman_stale. Qed.
Print Assumptions C50_kalman_stale_refuted.

(** C50: what holds: a step either keeps the value or ends with the filter at the new value... *)
Theorem C50_ram_fresh :
  forall (A : Arith) (R : rng A) (X : Type) (P : methodsP R X (list (F A))) (draw : F A -> gen R -> F A * gen R) (r : ram A) (w : param A X (list (F A)))
    (g : gen R) (r' : ram A) (w' : param A X (list (F A))) (g' : gen R),
  ram_step P draw r w g = Ok (r', w', g') -> w_value w' = w_value w /\ w_logpost w' = w_logpost w \/ fresh P w'.
Proof. exact @ram_fresh. Qed.
Print Assumptions C50_ram_fresh.

(** ...but an exchange refreshes the warmer chain only... *)
Theorem C50_exch_fresh :
  forall (A : Arith) (R : rng A) (X : Type) (P : methodsP R X (list (F A))) (e : exch A) (w o : param A X (list (F A))) (g : gen R) (e' : exch A)
    (w' o' : param A X (list (F A))) (g' : gen R),
  exch_step P e w o g = Ok (e', w', o', g') -> w' = w /\ o' = o \/ w_value w' = w_value o /\ fresh P w' /\ w_value o' = w_value w /\ w_obj o' = w_obj o.
Proof. exact @exch_fresh. Qed.
Print Assumptions C50_exch_fresh.

(** ...and a filter at the value gives the conditional means and variances of C05 (CAR(1)). *)
Theorem C50_fresh_exact :
  forall (R0 : rng AX) (vsort : list (F AX) -> option (list (F AX))) (w : param AX (base AX (F AX)) (list (F AX))) (x : base AX (F AX)) (l : F AX)
    (t y e th : list R) (smax fmin fmax : R) (ign : bool),
  base_holds x t y e (mkB AX (Fin smax) (Fin fmax) (Fin fmin) ign) ->
  strictly_increasing t ->
  Datatypes.length th = 4%nat ->
  in_prior1 smax fmin fmax th ->
  nth 0 th 0 <> 0 ->
  w_value w = map Fin th ->
  o_LogDensity (par1 R0 vsort) x (w_value w) = Ok (l, w_obj w) ->
  exists m v : list R,
    GetKalmanMean (w_obj w) (w_value w) = Ok (map Fin (map (fun z : R => nth 2 th 0 + z) m)) /\
    GetKalmanVar (w_obj w) = map Fin v /\
    Datatypes.length m = Datatypes.length t /\
    Datatypes.length v = Datatypes.length t /\
    (forall i : nat,
     (i < Datatypes.length t)%nat ->
     cond_dist (fun a c : R => nth 0 th 0 * nth 0 th 0 * exp (- (exp (nth 3 th 0) * Rabs (a - c)))) (firstn i t) (firstn i (map (fun x0 : R => x0 - nth 2 th 0) y))
       (firstn i (map (fun x0 : R => sqrt (nth 1 th 0) * x0) e)) (nth i t 0) (nth i m 0) (nth i v 0 - nth 1 th 0 * (nth i e 0 * nth i e 0))).
Proof. exact @fresh_exact. Qed.
Print Assumptions C50_fresh_exact.

(** C64: a CAR(1) run completes, whatever init, sizes and random numbers are. *)
Theorem C64_car1_completes :
  forall (A : Arith) (R : rng A) (vsort : list (F A) -> option (list (F A))) (si : list (F A) -> option (list nat)) (chol : mat A -> option (mat A))
    (N burnin : nat) (t y e : list (F A)) (thin : nat) (init : list (F A)) (raw : kf1 A) (v0 : list (F A)) (l0 a0 : F A) (g : gen R) (b : base A (F A))
    (L : mat A),
  Datatypes.length y = Datatypes.length t ->
  Datatypes.length e = Datatypes.length t ->
  all_kept (A:=A) si t ->
  car1_new si raw t y e = Ok b ->
  (exists s : list (F A), vsort (diffs A t) = Some s /\ Datatypes.length s = Datatypes.length (diffs A t)) ->
  chol (prop_covar A 4 y) = Some L ->
  square (A:=A) 4 L ->
  Datatypes.length v0 = 4%nat ->
  exists (w : param A (base A (F A)) (list (F A))) (g' : gen R), RunCar1Sampler vsort si chol N burnin t y e thin init raw v0 l0 a0 g = Ok (w, g').
Proof. exact @car1_completes. Qed.
Print Assumptions C64_car1_completes.

(** C64 on real data. *)
Theorem C64_car1_completes_real :
  forall (R0 : rng AX) (vsort : list (F AX) -> option (list (F AX))) (si : list (F AX) -> option (list nat)) (chol : mat AX -> option (mat AX)),
  valid_vsort vsort ->
  valid_sort_index si ->
  valid_chol chol ->
  forall t y e : list R,
  Datatypes.length y = Datatypes.length t ->
  Datatypes.length e = Datatypes.length t ->
  strictly_increasing t ->
  (exists a b : R, In a y /\ In b y /\ a <> b) ->
  forall (N burnin thin : nat) (init : list (F AX)) (raw : kf1 AX) (v0 : list (F AX)) (l0 a0 : F AX) (g : gen R0),
  Datatypes.length v0 = 4%nat ->
  exists (w : param AX (base AX (F AX)) (list (F AX))) (g' : gen R0),
    RunCar1Sampler vsort si chol N burnin (map Fin t) (map Fin y) (map Fin e) thin init raw v0 l0 a0 g = Ok (w, g').
Proof. exact @car1_completes_real. Qed.
Print Assumptions C64_car1_completes_real.

(** C65: a CARMA run from an admissible init completes. *)
Theorem C65_carma_completes :
  forall (A : Arith) (R : rng A) (dsort : list (F A) -> option (list (F A))) (solve : list (list (cx A)) -> list (cx A) -> option (list (cx A)))
    (si : list (F A) -> option (list nat)) (chol : mat A -> option (mat A)) (fuel N burnin : nat) (t y e : list (F A)) (p q nw : nat) (z : bool)
    (thin : nat) (init : list (F A)) (raw : kfp A) (v0 : list (F A)) (l0 a0 : F A) (g : gen R) (b b1 : base A (kpx A)) (lp : F A) (b2 : base A (kpx A))
    (L : mat A),
  ffin A (fneg A (finf A)) = false ->
  (2 <= p)%nat ->
  z = true \/ (q < p)%nat ->
  (0 < nw)%nat ->
  Datatypes.length y = Datatypes.length t ->
  Datatypes.length e = Datatypes.length t ->
  all_kept (A:=A) si t ->
  walker_new (A:=A) si raw p z t y e = Ok b ->
  SetPrior b (fmul A (fofZ A 10) (fsqrt A (pop_var A y))) = Ok b1 ->
  Datatypes.length init = walker_dim p q z ->
  LogDensity (walker_cls (A:=A) solve p q z) b1 init = Ok (lp, b2) ->
  ffin A lp = true ->
  chol (prop_covar A (walker_dim p q z) y) = Some L ->
  square (A:=A) (walker_dim p q z) L ->
  Datatypes.length v0 = walker_dim p q z ->
  exists (w : param A (base A (kpx A)) (list (F A))) (g' : gen R), RunCarmaSampler dsort solve si chol fuel N burnin t y e p q nw z thin init raw v0 l0 a0 g = Ok (w, g').
Proof. exact @carma_completes. Qed.
Print Assumptions C65_carma_completes.

(** C65 on real data. *)
Theorem C65_carma_completes_real :
  forall (R0 : rng AX) (dsort : list (F AX) -> option (list (F AX))) (solve : list (list (cx AX)) -> list (cx AX) -> option (list (cx AX)))
    (si : list (F AX) -> option (list nat)) (chol : mat AX -> option (mat AX)),
  valid_sort_index si ->
  valid_chol chol ->
  forall t y e : list R,
  Datatypes.length y = Datatypes.length t ->
  Datatypes.length e = Datatypes.length t ->
  strictly_increasing t ->
  (exists a b : R, In a y /\ In b y /\ a <> b) ->
  forall (fuel N burnin p q nw : nat) (z : bool) (thin : nat) (th : list R) (om : list C) (smax fmin fmax : R) (raw : kfp AX) (v0 : list (F AX))
    (l0 a0 : F AX) (g : gen R0),
  valid_solve solve ->
  (2 <= p)%nat ->
  z = true \/ (q < p)%nat ->
  (0 < nw)%nat ->
  Datatypes.length th = walker_dim p q z ->
  Datatypes.length v0 = walker_dim p q z ->
  run_bounds t y smax fmin fmax ->
  ARRoots AX p (map Fin th) = Ok (map FinC om) ->
  in_prior smax fmin fmax th om ->
  nth 0 th 0 <> 0 ->
  exists (w : param AX (base AX (kpx AX)) (list (F AX))) (g' : gen R0),
    RunCarmaSampler dsort solve si chol fuel N burnin (map Fin t) (map Fin y) (map Fin e) p q nw z thin (map Fin th) raw v0 l0 a0 g = Ok (w, g').
Proof. exact @carma_completes_real. Qed.
Print Assumptions C65_carma_completes_real.

(** C65: from any init a CARMA run completes, searches for a starting value forever, or throws the runtime_error of a singular solve. *)
Theorem C65_carma_outcomes :
  forall (A : Arith) (R : rng A) (dsort : list (F A) -> option (list (F A))) (solve : list (list (cx A)) -> list (cx A) -> option (list (cx A)))
    (si : list (F A) -> option (list nat)) (chol : mat A -> option (mat A)) (fuel N burnin : nat) (t y e : list (F A)) (p q nw : nat) (z : bool)
    (thin : nat) (init : list (F A)) (raw : kfp A) (v0 : list (F A)) (l0 a0 : F A) (g : gen R) (b b1 : base A (kpx A)) (L : mat A) (U : F A -> Prop),
  (2 <= p)%nat ->
  z = true \/ (q < p)%nat ->
  (0 < nw)%nat ->
  Datatypes.length y = Datatypes.length t ->
  Datatypes.length e = Datatypes.length t ->
  all_kept (A:=A) si t ->
  walker_new (A:=A) si raw p z t y e = Ok b ->
  SetPrior b (fmul A (fofZ A 10) (fsqrt A (pop_var A y))) = Ok b1 ->
  (forall g0 : Ga R, U (fst (a_randu R g0))) ->
  (forall (mn : F A) (l : list (F A)),
   Forall U l ->
   Datatypes.length l = ((p + 1) / 2)%nat ->
   ' hi <- vmax A t;; ' lo <- vmin A t;; Ok (fdiv A (fofZ A 1) (fsub A hi lo)) = Ok mn ->
   exists s : list (F A), dsort (map (log_grid A (max_freq (b_bounds b1)) mn) l) = Some s /\ Datatypes.length s = Datatypes.length l) ->
  chol (prop_covar A (walker_dim p q z) y) = Some L ->
  square (A:=A) (walker_dim p q z) L ->
  Datatypes.length v0 = walker_dim p q z ->
  let r := RunCarmaSampler dsort solve si chol fuel N burnin t y e p q nw z thin init raw v0 l0 a0 g in
  (exists (w : param A (base A (kpx A)) (list (F A))) (g' : gen R), r = Ok (w, g')) \/ r = Throw Eruntime \/ r = Diverge.
Proof. exact @carma_outcomes. Qed.
Print Assumptions C65_carma_outcomes.

(** C65 on real data. *)
Theorem C65_carma_outcomes_real :
  forall R0 : rng AX,
  valid_rng R0 ->
  forall (dsort : list (F AX) -> option (list (F AX))) (solve : list (list (cx AX)) -> list (cx AX) -> option (list (cx AX))) (si : list (F AX) -> option (list nat))
    (chol : mat AX -> option (mat AX)),
  valid_dsort dsort ->
  valid_sort_index si ->
  valid_chol chol ->
  forall t y e : list R,
  Datatypes.length y = Datatypes.length t ->
  Datatypes.length e = Datatypes.length t ->
  strictly_increasing t ->
  (exists a b : R, In a y /\ In b y /\ a <> b) ->
  forall (fuel N burnin p q nw : nat) (z : bool) (thin : nat) (init : list (F AX)) (raw : kfp AX) (v0 : list (F AX)) (l0 a0 : F AX) (g : gen R0),
  (2 <= p)%nat ->
  z = true \/ (q < p)%nat ->
  (0 < nw)%nat ->
  Datatypes.length v0 = walker_dim p q z ->
  let r := RunCarmaSampler dsort solve si chol fuel N burnin (map Fin t) (map Fin y) (map Fin e) p q nw z thin init raw v0 l0 a0 g in
  (exists (w : param AX (base AX (kpx AX)) (list (F AX))) (g' : gen R0), r = Ok (w, g')) \/ r = Throw Eruntime \/ r = Diverge.
Proof. exact @carma_outcomes_real. Qed.
Print Assumptions C65_carma_outcomes_real.

(** C42 is false for a single walker: runs with nwalkers = 1 complete, and their recorded chain has temperature 100. *)
Theorem C42_one_walker_refuted : exists (R0 : rng AX) dsort solve si chol (t y e : list R) (g : gen R0),
  valid_rng R0 /\ valid_dsort dsort /\ valid_solve solve /\ valid_sort_index si /\ valid_chol chol /\
  forall N thin raw v0 l0 a0, length v0 = 5%nat -> (0 < N)%nat -> exists w g',
    RunCarmaSampler (A := AX) (R := R0) dsort solve si chol 1 N 0 (map Fin t) (map Fin y) (map Fin e) 2 0 1 false thin [] raw v0 l0 a0 g = Ok (w, g') /\
    w_temp w = Fin 100.
Proof.
  destruct carma_seed_refuted as (R0 & ds & sv & si & ch & t & y & e & g1 & g2 & seed & H1 & H2 & H3 & H4 & H5 & _ & _ & _ & _ & H).
  exists R0, ds, sv, si, ch, t, y, e, (SetSeed (R := R0) seed g1). repeat (split; [assumption|]). intros N thin raw v0 l0 a0 Hv HN.
  destruct (H 0%nat N thin raw v0 l0 a0 Hv HN) as (w & _ & g' & _ & E & _). exists w, g'. split; [exact E|].
  exact (proj2 (carma_temps_real E) eq_refl).
Qed.
Print Assumptions C42_one_walker_refuted.
(** with two or more walkers the recorded chain has temperature 1 *)
Theorem C42_recorded_chain : forall (R0 : rng AX) dsort solve si chol fuel N burnin t y e p q nw z thin init raw v0 l0 a0 (g : gen R0) w g',
  RunCarmaSampler dsort solve si chol fuel N burnin t y e p q nw z thin init raw v0 l0 a0 g = Ok (w, g') -> (2 <= nw)%nat -> w_temp w = Fin 1.
Proof. intros R0 dsort solve si chol fuel N burnin t y e p q nw z thin init raw v0 l0 a0 g w g' E. exact (proj1 (carma_temps_real E)). Qed.
Print Assumptions C42_recorded_chain.

(** ** The hypotheses are met *)
(** a generator whose proposals move, and all the library oracles *)
Example ex_moves : forall n, (0 < n)%nat -> valid_rng (rngV 1) /\ moves (rngV 1) n.
Proof. intros n Hn. split; [apply rngV_valid|]. apply moves_student; [apply rngV_valid|exact Hn|]. intros g. cbn. intros Q. injection Q. lra. Qed.
Example ex_oracles : (exists ds, valid_dsort ds) /\ (exists vs, valid_vsort vs) /\ (exists sv, valid_solve sv) /\ (exists si, valid_sort_index si) /\ (exists ch, valid_chol ch).
Proof.
  split; [exact valid_dsort_exists|]. split; [exact valid_vsort_exists|]. split; [exact valid_solve_exists|]. split; [exact valid_sort_index_exists|exact valid_chol_exists].
Qed.
(** data, bounds and a CARMA(2,1) parameter in the prior with roots -1 +- i *)
Definition tX : list R := [0; 1; 101].
Definition yX : list R := [0; 1; 0].
Definition thX : list R := [1; 1; 0; ln 2; ln 2; 0].
Definition omX : list C := [(-1, -1); (-1, 1)].
Example ex_tX : strictly_increasing tX /\ exists a b, In a yX /\ In b yX /\ a <> b.
Proof.
  split; [intros [|[|[|i]]] [|[|[|j]]] H1 H2; cbn in *; try lia; lra|]. exists 0, 1. cbn. repeat split; [tauto|tauto|lra].
Qed.
Example ex_boundsX : run_bounds tX yX (10 * sqrt (2 / 9)) (1 / 101) 1.
Proof.
  assert (pvar yX = 2 / 9) as E by (unfold pvar, smean, yX; cbn [length Rsum nth INR]; field).
  unfold run_bounds. rewrite E. split; [reflexivity|]. split; [lra|]. split; [intros [|[|i]] Hi; cbn in *; try lia; lra|].
  split; [exists 0%nat; cbn; split; [lia|lra]|cbn; lra].
Qed.
Example ex_rootsX : ARRoots AX 2 (map Fin thX) = Ok (map FinC omX).
Proof.
  unfold ARRoots. change (list (F AX)) with (list xr). rewrite quad_roots_Fin by (cbn; lia). unfold qroots. cbn [Nat.odd Nat.even negb Nat.div Nat.divmod fst Nat.sub qloop nth thX Nat.add app].
  unfold rpair. rewrite !exp_ln by lra. destruct (Rlt_dec 0 (2 * 2 - 4 * 2)); [lra|].
  assert (sqrt (- (2 * 2 - 4 * 2)) = 2) as -> by (replace (- (2 * 2 - 4 * 2)) with (2 * 2) by ring; apply sqrt_square; lra).
  cbn [bind]. apply f_equal. apply f_equal. unfold omX. cbn [app]. apply f_equal2; [apply f_equal2; lra|]. apply f_equal2; [apply f_equal2; lra|reflexivity].
Qed.
Example ex_priorX : in_prior (10 * sqrt (2 / 9)) (1 / 101) 1 thX omX.
Proof.
  pose proof PI_RGT_0. pose proof PI2_3_2. pose proof PI_4.
  assert (1 / 8 <= 1 / (2 * PI) <= 1 / 6) as Hpi.
  { split; apply (Rmult_le_reg_r (2 * PI)); try lra; replace (1 / (2 * PI) * (2 * PI)) with 1 by (field; lra); lra. }
  assert (Rabs 1 = 1 /\ Rabs (-1) = 1) as [A1 A2] by (split; [apply Rabs_R1|rewrite <- Rabs_Ropp; replace (- -1) with 1 by ring; apply Rabs_R1]).
  assert (1 / 3 <= sqrt (2 / 9)). { apply Rsqr_incr_0_var; [|apply sqrt_pos]. rewrite Rsqr_sqrt by lra. unfold Rsqr. lra. }
  assert (forall z, Cmod z * Cmod z = fst z * fst z + snd z * snd z) as Cm.
  { intros z. unfold Cmod. rewrite sqrt_sqrt; [ring|]. pose proof (pow2_ge_0 (fst z)). pose proof (pow2_ge_0 (snd z)). lra. }
  constructor.
  - intros r [<-|[<-|[]]]; cbn [snd]; rewrite ?A1, ?A2; lra.
  - intros r [<-|[<-|[]]]; cbn [fst]; replace (- -1) with 1 by ring; lra.
  - unfold thX. cbn [nth]. lra.
  - unfold thX. cbn [nth]. lra.
  - intros [|i] Hi; cbn in Hi; [|lia]. cbn [nth snd omX]. rewrite ?A1, ?A2. lra.
  - intros [|[|i]] [|[|j]] Hij Hj; cbn in Hj; try lia. cbn [nth omX]. unfold frac_apart.
    assert (Cplus (-1, -1) (-1, 1) = RtoC (-2)) as -> by (apply injective_projections; cbn; ring).
    assert (Cminus (-1, -1) (-1, 1) = (0, -2)) as -> by (apply injective_projections; cbn; ring).
    pose proof (Cm (0, -2)) as P1. pose proof (Cm (RtoC (-2))) as P2. cbn [fst snd RtoC] in P1, P2.
    pose proof (Cmod_ge_0 (0, -2)). pose proof (Cmod_ge_0 (RtoC (-2))). nra.
Qed.
(** hence a CARMA(2,1) run with three walkers completes and C33-C35, C40-C42 and C49 speak about something *)
Example ex_run : exists ds sv si ch (raw : kfp AX) w g', valid_dsort ds /\ valid_solve sv /\ valid_sort_index si /\ valid_chol ch /\ moves (rngV 1) 6 /\
  RunCarmaSampler (A := AX) (R := rngV 1) ds sv si ch 1 5 4 (map Fin tX) (map Fin yX) (map Fin [1; 1; 1]) 2 1 3 false 2 (map Fin thX) raw (map Fin [0; 0; 0; 0; 0; 0]) (Fin 0) (Fin 0) (tt, true) = Ok (w, g') /\
  length (w_samples w) = 5%nat.
Proof.
  destruct ex_oracles as ([ds Hds] & _ & [sv Hsv] & [si Hsi] & [ch Hch]). destruct ex_tX as [Ht Hne].
  set (raw := mkKF AX [] [] [] [] [] [] (Fin 0) 0%nat (Fin 0) (Fin 0) (mkX (A := AX) [] [] [] [] [] [] [] [] (Fin 0) [] [])).
  assert (0 < 3)%nat as Hnw by lia. assert (nth 0 thX 0 <> 0) as Hn0 by (cbn; lra).
  destruct (@carma_completes_real (rngV 1) ds sv si ch Hsi Hch tX yX [1; 1; 1] eq_refl eq_refl Ht Hne 1 5 4 2 1 3 false 2 thX omX _ _ _ raw
    (map Fin [0; 0; 0; 0; 0; 0]) (Fin 0) (Fin 0) (tt, true) Hsv (le_n 2) (or_intror (le_n 2)) Hnw eq_refl eq_refl ex_boundsX ex_rootsX ex_priorX Hn0)
    as (w & g' & E).
  exists ds, sv, si, ch, raw, w, g'. repeat (split; [assumption|]). split; [apply ex_moves; lia|]. split; [exact E|].
  destruct (carma_recorded E) as (_ & _ & _ & _ & _ & _ & _ & H & _). exact H.
Qed.
(** a CAR(1) run; a proposal factor with its update *)
Example ex_run1 : exists vs si ch (raw : kf1 AX) w g', valid_vsort vs /\ valid_sort_index si /\ valid_chol ch /\ moves (rngV 1) 4 /\
  RunCar1Sampler (A := AX) (R := rngV 1) vs si ch 5 4 (map Fin tX) (map Fin yX) (map Fin [1; 1; 1]) 2 [] raw (map Fin [0; 0; 0; 0]) (Fin 0) (Fin 0) (tt, true) = Ok (w, g') /\
  length (w_samples w) = 5%nat.
Proof.
  destruct ex_oracles as (_ & [vs Hvs] & _ & [si Hsi] & [ch Hch]). destruct ex_tX as [Ht Hne].
  set (raw := mkKF AX [] [] [] [] [] [] (Fin 0) 0%nat (Fin 0) (Fin 0) (Fin 0)).
  destruct (@car1_completes_real (rngV 1) vs si ch Hvs Hsi Hch tX yX [1; 1; 1] eq_refl eq_refl Ht Hne 5 4 2 [] raw (map Fin [0; 0; 0; 0]) (Fin 0) (Fin 0) (tt, true) eq_refl) as (w & g' & E).
  exists vs, si, ch, raw, w, g'. repeat (split; [assumption|]). split; [apply ex_moves; lia|]. split; [exact E|].
  destruct (car1_recorded E) as (_ & _ & _ & _ & H & _). exact H.
Qed.
Example ex_chol : good_chol 2 (FinM [[2; 1]; [0; 1]]) [[2; 1]; [0; 1]] /\
  pd 2 (fun i j => gram 2 (rent [[2; 1]; [0; 1]]) i j - rv [1; 1] i * rv [1; 1] j).
Proof.
  split.
  - split; [reflexivity|]. split; [split; [reflexivity|intros [|[|i]] H; cbn; try lia; reflexivity]|].
    split; [intros [|[|i]] [|[|j]] H1 H2; cbn; try lia; reflexivity|intros [|[|i]] H; cbn; try lia; lra].
  - intros a (k & Hk & Ha). unfold gram, rent, rv. cbn [Rsum nth].
    assert (0 < 2 * (a 0%nat * a 0%nat) + (a 0%nat + a 1%nat) * (a 0%nat + a 1%nat)) as H.
    { destruct (Req_dec (a 0%nat) 0) as [E|E].
      - rewrite E. destruct k as [|[|k]]; [congruence| |lia]. pose proof (Rsqr_pos_lt _ Ha) as Q. unfold Rsqr in Q. lra.
      - pose proof (Rsqr_pos_lt _ E) as Q. pose proof (Rle_0_sqr (a 0%nat + a 1%nat)) as Q2. unfold Rsqr in Q, Q2. lra. }
    lra.
Qed.
