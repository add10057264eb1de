(** The drivers of src/carmcmc.cpp and the Sampler of src/samplers.cpp with their int arguments and int counters.  EngineModel and
    StartModel count with natural numbers; here the arguments are integers in the range of a 32-bit int, the counters are ints, and the
    overflow of a signed int is undefined behaviour. *)
From Coq Require Import List Arith ZArith Bool String.
From Verif Require Import Arith Res KFModel KFpModel CarpackModel EngineModel StartModel.
Import ListNotations.
Local Open Scope string_scope.

Set Implicit Arguments.

(** the range of an int of 32 bits *)
Definition int_max : Z := 2147483647.
Definition int_min : Z := -2147483648.
Definition is_int (z : Z) : bool := (Z.leb int_min z && Z.leb z int_max)%bool.
(** the value of an int expression; for every int of carmcmc.cpp L30-177, samplers.cpp L24-124, steps.cpp L60-104 *)
Definition int_val (z : Z) : res Z := if is_int z then Ok z else UB.
(** n++ for an int that is not negative; steps.cpp L60-104, samplers.cpp L37-54 *)
Definition incr (n : nat) : res nat := if Z.ltb (Z.of_nat n) int_max then Ok (S n) else UB.

Section Ints.
Variable A : Arith.
Variable R : rng A.
Local Notation F := (F A).
Local Notation "# z" := (fofZ A z) (at level 9, format "# z").
Local Notation "x ⊕ y" := (fadd A x y) (at level 50, left associativity).
Local Notation "x ⊖ y" := (fsub A x y) (at level 50, left associativity).
Local Notation "x ⊗ y" := (fmul A x y) (at level 40, left associativity).
Local Notation "x ⊘ y" := (fdiv A x y) (at level 40, left associativity).
Local Notation vec := (list F).
Local Notation gen := (gen R).
Local Notation runiform := (@EngineModel.runiform A R).

Section Steps.
Variable X : Type.
Variable P : methodsP R X vec.
Local Notation param := (param A X vec).
Local Notation sys := (sys R X).

(** AdaptiveMetro::Accept, steps.cpp L36-56, with naccept_++ at L51 *)
Definition ram_accept_int (r : ram A) (w : param) (new : vec) (g : gen) : res (bool * ram A * param * gen) :=
  '(l, w1) <- LD P w new ;;
  let alpha := (l ⊖ w_logpost w1) ⊘ w_temp w1 in
  if negb (ffin A alpha) then
    Ok (false, mkRam (r_chol r) (r_gamma r) (r_target r) (r_niter r) (r_naccept r) (r_maxiter r) (#0), w1, g)
  else
    let (u, g1) := runiform (#0) (#1) g in
    let a := fmin A (fexp A alpha) (#1) in
    if flt A u a
    then na <- incr (r_naccept r) ;;
         Ok (true, mkRam (r_chol r) (r_gamma r) (r_target r) (r_niter r) na (r_maxiter r) a, w1, g1)
    else Ok (false, mkRam (r_chol r) (r_gamma r) (r_target r) (r_niter r) (r_naccept r) (r_maxiter r) a, w1, g1).
(** AdaptiveMetro::DoStep, steps.cpp L60-107, with niter_++ at L101 *)
Definition ram_step_int (draw : F -> gen -> F * gen) (r : ram A) (w : param) (g : gen) : res (ram A * param * gen) :=
  let (unit, g1) := draws (List.length (w_value w)) (draw (#0)) g in
  scaled <- mtmul (r_chol r) unit ;;
  new <- vadd A (w_value w) scaled ;;
  '(acc, r1, w1, g2) <- ram_accept_int r w new g1 ;;
  w2 <- (if acc : bool then Save P w1 new else Ok w1) ;;
  r2 <- ram_adapt r1 unit scaled ;;
  ni <- incr (r_niter r2) ;;
  Ok (mkRam (r_chol r2) (r_gamma r2) (r_target r2) ni (r_naccept r2) (r_maxiter r2) (r_alpha r2), w2, g2).
(** ExchangeStep::DoStep, steps.hpp L318-362, with naccept_++ at L352 and niter_++ at L355 *)
Definition exch_step_int (e : exch A) (w o : param) (g : gen) : res (exch A * param * param * gen) :=
  let this_lp := w_logpost w in
  let other_lp := w_logpost o in
  let a := #1 ⊘ w_temp w ⊗ (other_lp ⊖ this_lp) ⊕ #1 ⊘ w_temp o ⊗ (this_lp ⊖ other_lp) in
  let (u, g1) := runiform (#0) (#1) g in
  let a := fmin A (fexp A a) (#1) in
  let a := if negb (ffin A a) then #0 else a in
  '(w', o', na) <-
    (if flt A u a then
       w1 <- Save P w (w_value o) ;;
       o1 <- SaveDerived P o (w_value w) ;;
       na <- incr (e_naccept e) ;;
       Ok (SetLogDensity w1 other_lp, SetLogDensity o1 this_lp, na)
     else Ok (w, o, e_naccept e)) ;;
  ni <- incr (e_niter e) ;;
  Ok (if Z.eqb (Z.of_nat ni) (e_report e) then mkExch A (e_report e) 0 0 a else mkExch A (e_report e) ni na a, w', o', g1).

Variable draw : F -> gen -> F * gen.
(** steps_[k].DoStep(), as do_step in EngineModel; samplers.cpp L41-51 *)
Definition do_step_int (s : step A) (ws : list param) (g : gen) : res (step A * list param * gen) :=
  match s with
  | SRam i r =>
    w <- vgetU ws i ;;
    '(r', w', g') <- ram_step_int draw r w g ;;
    Ok (SRam i r', upd ws i w', g')
  | SExch i e =>
    match i with
    | O => UB
    | S j =>
      w <- vgetU ws i ;;
      o <- vgetU ws j ;;
      '(e', w', o', g') <- exch_step_int e w o g ;;
      Ok (SExch i e', upd (upd ws i w') j o', g')
    end
  end.
(** the inner loop of Sampler::Iterate, samplers.cpp L41-43 and L49-51 *)
Fixpoint sweep_steps_int (ss : list (step A)) (ws : list param) (g : gen) : res (list (step A) * list param * gen) :=
  match ss with
  | [] => Ok ([], ws, g)
  | s :: r =>
    '(s', ws1, g1) <- do_step_int s ws g ;;
    '(r', ws2, g2) <- sweep_steps_int r ws1 g1 ;;
    Ok (s' :: r', ws2, g2)
  end.
(** Sampler::Iterate, samplers.cpp L37-54:  for (int iter = 0; iter < number_of_iterations; ++iter)  does nothing when the number is
    not positive, and iter stays below it *)
Fixpoint iterate_int (n : nat) (y : sys) : res sys :=
  match n with
  | O => Ok y
  | S k => '(ss, ws, g) <- sweep_steps_int (y_steps y) (y_pars y) (y_gen y) ;; iterate_int k (mkSys ws ss g)
  end.
Definition Iterate_int (n : Z) (y : sys) : res sys := iterate_int (Z.to_nat n) y.
(** the sampling loop, samplers.cpp L101-108 (i and current_iter_ stay below sample_size_) *)
Fixpoint sample_loop_int (n cur : nat) (thin : Z) (t : tracked) (y : sys) : res sys :=
  match n with
  | O => Ok y
  | S k =>
    y1 <- Iterate_int thin y ;;
    y2 <- SaveValues (R := R) t cur y1 ;;
    sample_loop_int k (S cur) thin t y2
  end.
(** Parameter::SetSampleSize(int), parameters.hpp L136-139: a negative int becomes a size that std::vector::resize refuses with
    std::length_error, a std::logic_error *)
Definition SetSampleSize_int (n : Z) (w : param) : res param :=
  if Z.ltb n 0 then Throw Elogic else Ok (SetSampleSize [] w (Z.to_nat n)).
(** Sampler::Run, samplers.cpp L57-115 *)
Definition Run_int (sample_size burnin thin : Z) (t : tracked) (init : vec) (y : sys) : res sys :=
  ws1 <- on_tracked t (SetSampleSize_int sample_size) (y_pars y) ;;
  s0 <- vgetU (y_steps y) 0 ;;
  w0 <- vgetU ws1 (step_par s0) ;;
  let use := Nat.eqb (List.length init) (List.length (w_value w0)) in
  '(ws2, g2) <- start_loop P (y_steps y) use init ws1 (y_gen y) ;;
  y3 <- Iterate_int burnin (mkSys ws2 (y_steps y) g2) ;;
  sample_loop_int (Z.to_nat sample_size) 0 thin t y3.
End Steps.

Variable vsort : vec -> option vec.
Variable solve : list (list (Cx.cx A)) -> list (Cx.cx A) -> option (list (Cx.cx A)).
Variable si : vec -> option (list nat).
Variable chol : mat A -> option (mat A).
Variable dsort : vec -> option vec.

(** RunCar1Sampler, carmcmc.cpp L30-77.  burnin is the maxiter of the step, which is compared with niter_ >= 0 only (a negative one
    acts as 0).  report_iter (L43) is computed and not used. *)
Definition RunCar1Sampler_int (sample_size burnin : Z) (t y e : vec) (thin : Z) (init : vec)
  (raw : kf1 A) (v0 : vec) (l0 a0 : F) (g : gen) : res (param A (base A F) vec * gen) :=
  prod <- int_val (thin * sample_size) ;;
  _ <- int_val (burnin + prod) ;;
  b <- car1_new si raw t y e ;;
  b1 <- SetPrior b (#10 ⊗ fsqrt A (pop_var A y)) ;;
  let w := new_param b1 v0 l0 (#1) true "CAR(1)" in
  r <- ram_new chol (prop_covar A 4 y) (fdec A 1 4) (Z.to_nat burnin) a0 ;;
  '(ss, tr) <- AddSteps ([], []) [w] [SRam 0 r] ;;
  s <- Run_int (par1 R vsort) (@student_draw A R) sample_size burnin thin tr init (mkSys [w] ss g) ;;
  w' <- vgetU (y_pars s) 0 ;;
  Ok (w', y_gen s).

(** RunCarmaSampler, carmcmc.cpp L79-177.  arma::linspace (L94) takes the number of elements as an unsigned word: a negative int
    becomes a size that Armadillo refuses (std::logic_error). *)
Definition run_carma_int {X} (M : methodsP R (base A X) vec) (mk : res (base A X)) (npar : nat) (label : string)
  (sample_size burnin : Z) (y : vec) (nwalkers thin : Z) (init : vec)
  (v0 : vec) (l0 a0 : F) (g : gen) : res (param A (base A X) vec * gen) :=
  if Z.ltb nwalkers 0 then Throw Elogic else
  ws <- mk_walkers mk (#10 ⊗ fsqrt A (pop_var A y)) v0 l0 label (temp_ladder A (Z.to_nat nwalkers)) ;;
  prod <- int_val (thin * sample_size) ;;
  report <- int_val (burnin + prod) ;;
  let e0 := mkExch A report 0 0 a0 in
  w0 <- vgetU ws 0 ;;
  r <- ram_new chol (prop_covar A npar y) (fdec A 1 4) (Z.to_nat burnin) a0 ;;
  st <- AddSteps ([], []) ws (hot_steps (Z.to_nat nwalkers - 1) r e0) ;;
  let ws1 := upd ws 0 (SetTracking w0 true) in
  '(ss, tr) <- AddSteps st ws1 [SRam 0 r] ;;
  s <- Run_int M (@student_draw A R) sample_size burnin thin tr init (mkSys ws1 ss g) ;;
  w' <- vgetU (y_pars s) 0 ;;
  Ok (w', y_gen s).
(** (simplified: p and q are natural numbers); RunCarmaSampler, carmcmc.cpp L79-177 *)
Definition RunCarmaSampler_int (fuel : nat) (sample_size burnin : Z) (t y e : vec) (p q : nat) (nwalkers : Z) (do_zcarma : bool)
  (thin : Z) (init : vec) (raw : kfp A) (v0 : vec) (l0 a0 : F) (g : gen)
  : res (param A (base A (kpx A)) vec * gen) :=
  if Nat.ltb p 2 then Throw Elogic else
  if do_zcarma then
    run_carma_int (par_zcar R dsort solve fuel p) (zcar_new si raw p t y e) (3 + p) "ZCAR(p) Parameters" sample_size burnin y nwalkers thin init v0 l0 a0 g
  else if Nat.eqb q 0 then
    run_carma_int (par_carp R dsort solve fuel p) (carp_new si raw p t y e) (3 + p + q) "CAR(p) Parameters" sample_size burnin y nwalkers thin init v0 l0 a0 g
  else
    run_carma_int (par_carma R dsort solve fuel p q) (carp_new si raw p t y e) (3 + p + q) "CARMA(p,q) Parameters" sample_size burnin y nwalkers thin init v0 l0 a0 g.
End Ints.
