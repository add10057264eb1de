(** What a run prints: the lines written to std::cout by Sampler::Run and by the steps, with the acceptance rates they report.  The functions are those of
    EngineModel and StartModel with the lines beside the result; [*_erase] (PrintProof.v) shows that they do the same otherwise. *)
From Coq Require Import String.
From Coq Require Import List Arith ZArith Bool.
From Verif Require Import Arith Res ListLemmas KFModel Cx KFpModel CarpackModel EngineModel StartModel.
Import ListNotations.

(** A line of output.  (simplified: the fixed text of a line is its constructor; the progress bars of boost are left out) *)
Inductive line (F : Type) :=
| LSteps (n : nat)            (* "Number of steps added: ", samplers.cpp L70 *)
| LTracked (n : nat)          (* "Number of tracked steps added: ", samplers.cpp L71 *)
| LUser                       (* " Using user-provided values", samplers.cpp L78 *)
| LPriors                     (* " Drawn from priors", samplers.cpp L80 *)
| LInit (v : list F)          (* " ...Initializing ", samplers.cpp L91 *)
| LBurnin (n : nat)           (* "Burning in... (", samplers.cpp L96 *)
| LSampling                   (* "Sampling...", samplers.cpp L99 *)
| LRam (rate : F)             (* "Average RAM Acceptance Rate is ", steps.cpp L105 *)
| LMetrop (rate : F)          (* "Average Acceptance Rate Since Last Report: ", steps.hpp L183 *)
| LExch (rate : F).           (* "Average Exchange Acceptance Rate Since Last Report: ", steps.hpp L366 *)
Arguments LSteps {F}. Arguments LTracked {F}. Arguments LUser {F}. Arguments LPriors {F}. Arguments LInit {F}. Arguments LBurnin {F}.
Arguments LSampling {F}. Arguments LRam {F}. Arguments LMetrop {F}. Arguments LExch {F}.

Section Print.
Variable A : Arith.
Variable R : rng A.
Local Notation F := (F A).
Local Notation vec := (list F).
Local Notation gen := (gen R).
Local Notation line := (line F).
Local Notation "# z" := (fofZ A z%Z) (at level 1, format "# z").
Local Notation "x ⊕ y" := (fadd A x y) (at level 50, left associativity).
Local Notation "x ⊖ y" := (fsub A x y) (at level 50, left associativity).
Local Notation "x ⊗ y" := (fmul A x y) (at level 40, left associativity).
Local Notation "x ⊘ y" := (fdiv A x y) (at level 40, left associativity).

(** ((double)(naccept_)) / ((double)(niter_)), steps.cpp L104, steps.hpp L182 and L366 *)
Definition arate (naccept niter : nat) : F := #(Z.of_nat naccept) ⊘ #(Z.of_nat niter).

Section Par.
Variables X T : Type.
Variable P : methodsP R X T.
Local Notation param := (param A X T).
(** MetropStep::DoStep and Report, steps.hpp L162-186 *)
Definition metrop_step_out {Q} (draw : T -> gen -> res (T * Q * gen)) (qld : Q -> param -> T -> T -> F)
  (m : metrop A) (w : param) (g : gen) : res (metrop A * param * gen * list line) :=
  '(new, q, g1) <- draw (w_value w) g ;;
  '(acc, m1, w1, g2) <- metrop_accept P (qld q) m w new (w_value w) g1 ;;
  w2 <- (if acc : bool then Save P w1 new else Ok w1) ;;
  let na := if acc then S (m_naccept m1) else m_naccept m1 in
  let ni := S (m_niter m1) in
  if Z.eqb (Z.of_nat ni) (m_report m1) then Ok (mkMetrop A (m_alpha m1) 0 0 (m_report m1), w2, g2, [LMetrop (arate na ni)])
  else Ok (mkMetrop A (m_alpha m1) na ni (m_report m1), w2, g2, []).
End Par.

Section Steps.
Variable X : Type.
Variable P : methodsP R X vec.
Local Notation param := (param A X vec).
Local Notation sys := (sys R X).

(** the report at the end of AdaptiveMetro::DoStep, steps.cpp L103-106 *)
Definition ram_report (r : ram A) : list line :=
  if r_niter r =? r_maxiter r then [LRam (arate (r_naccept r) (r_niter r))] else [].
(** ExchangeStep::DoStep and Report, steps.hpp L318-370 *)
Definition exch_step_out (e : exch A) (w o : param) (g : gen) : res (exch A * param * param * gen * list line) :=
  let this_lp := w_logpost w in
  let other_lp := w_logpost o in
  let a := #1 ⊘ w_temp w ⊗ (other_lp ⊖ this_lp) ⊕ #1 ⊘ w_temp o ⊗ (this_lp ⊖ other_lp) in
  let (u, g1) := runiform (#0) (#1) g in
  let a := fmin A (fexp A a) (#1) in
  let a := if negb (ffin A a) then #0 else a in
  '(w', o', na) <-
    (if flt A u a then
       w1 <- Save P w (w_value o) ;;
       o1 <- SaveDerived P o (w_value w) ;;
       Ok (SetLogDensity w1 other_lp, SetLogDensity o1 this_lp, S (e_naccept e))
     else Ok (w, o, e_naccept e)) ;;
  let ni := S (e_niter e) in
  if Z.eqb (Z.of_nat ni) (e_report e) then Ok (mkExch A (e_report e) 0 0 a, w', o', g1, [LExch (arate na ni)])
  else Ok (mkExch A (e_report e) ni na a, w', o', g1, []).

Variable draw : F -> gen -> F * gen.
(** steps_[k].DoStep(); samplers.cpp L41-51 *)
Definition do_step_out (s : step A) (ws : list param) (g : gen) : res (step A * list param * gen * list line) :=
  match s with
  | SRam i r =>
    w <- vgetU ws i ;;
    '(r', w', g') <- ram_step P draw r w g ;;
    Ok (SRam i r', upd ws i w', g', ram_report r')
  | SExch i e =>
    match i with
    | O => UB
    | S j =>
      w <- vgetU ws i ;;
      o <- vgetU ws j ;;
      '(e', w', o', g', l) <- exch_step_out e w o g ;;
      Ok (SExch i e', upd (upd ws i w') j o', g', l)
    end
  end.
(** the inner loop of Sampler::Iterate, samplers.cpp L41-43 and L49-51 *)
Fixpoint sweep_steps_out (ss : list (step A)) (ws : list param) (g : gen) : res (list (step A) * list param * gen * list line) :=
  match ss with
  | [] => Ok ([], ws, g, [])
  | s :: r =>
    '(s', ws1, g1, l1) <- do_step_out s ws g ;;
    '(r', ws2, g2, l2) <- sweep_steps_out r ws1 g1 ;;
    Ok (s' :: r', ws2, g2, l1 ++ l2)
  end.
(** Sampler::Iterate, samplers.cpp L37-54 (without the progress bar) *)
Fixpoint Iterate_out (n : nat) (y : sys) : res (sys * list line) :=
  match n with
  | O => Ok (y, [])
  | S k =>
    '(ss, ws, g, l1) <- sweep_steps_out (y_steps y) (y_pars y) (y_gen y) ;;
    '(y', l2) <- Iterate_out k (mkSys ws ss g) ;;
    Ok (y', l1 ++ l2)
  end.
(** the starting values, samplers.cpp L82-93: the value of the first parameter is printed *)
Definition start_loop_out (ss : list (step A)) (use : bool) (init : vec) (ws : list param) (g : gen) : res (list param * gen * list line) :=
  match ss with
  | [] => Ok (ws, g, [])
  | s :: r =>
    w <- vgetU ws (step_par s) ;;
    '(v, x, g1) <- (if use then o_SetStart P (w_obj w) init g else o_Start P (w_obj w) g) ;;
    w' <- Save P (set_obj w x) v ;;
    '(ws', g') <- start_loop P r use init (upd ws (step_par s) w') g1 ;;
    Ok (ws', g', [LInit (w_value w')])
  end.
(** the sampling loop, samplers.cpp L101-108 (without the progress bar) *)
Fixpoint sample_loop_out (n cur thin : nat) (t : tracked) (y : sys) : res (sys * list line) :=
  match n with
  | O => Ok (y, [])
  | S k =>
    '(y1, l1) <- Iterate_out thin y ;;
    y2 <- SaveValues t cur y1 ;;
    '(y3, l2) <- sample_loop_out k (S cur) thin t y2 ;;
    Ok (y3, l1 ++ l2)
  end.
(** Sampler::Run, samplers.cpp L57-115; NumberOfSteps and NumberOfTrackedSteps, samplers.hpp L113-120 *)
Definition Run_out (sample_size burnin thin : nat) (t : tracked) (init : vec) (y : sys) : res (sys * list line) :=
  ws1 <- on_tracked t (fun w => Ok (SetSampleSize [] w sample_size)) (y_pars y) ;;
  s0 <- vgetU (y_steps y) 0 ;;
  w0 <- vgetU ws1 (step_par s0) ;;
  let use := List.length init =? List.length (w_value w0) in
  '(ws2, g2, l1) <- start_loop_out (y_steps y) use init ws1 (y_gen y) ;;
  '(y3, l2) <- Iterate_out burnin (mkSys ws2 (y_steps y) g2) ;;
  '(y4, l3) <- sample_loop_out sample_size 0 thin t y3 ;;
  Ok (y4, [LSteps (List.length (y_steps y)); LTracked (List.length t); if use then LUser else LPriors] ++ l1 ++ [LBurnin burnin] ++ l2 ++ [LSampling] ++ l3).
End Steps.

(** the two drivers, carmcmc.cpp L30-77 and L79-177 *)
Variable vsort dsort : vec -> option vec.
Variable solve : list (list (cx A)) -> list (cx A) -> option (list (cx A)).
Variable si : vec -> option (list nat).
Variable chol : mat A -> option (mat A).
(** RunCar1Sampler, carmcmc.cpp L30-77 *)
Definition RunCar1Sampler_out (sample_size burnin : nat) (t y e : vec) (thin : nat) (init : vec)
  (raw : kf1 A) (v0 : vec) (l0 a0 : F) (g : gen) : res (param A (base A F) vec * gen * list line) :=
  b <- car1_new si raw t y e ;;
  b1 <- SetPrior b (#10 ⊗ fsqrt A (pop_var A y)) ;;
  let w := new_param b1 v0 l0 (#1) true "CAR(1)" in
  r <- ram_new chol (prop_covar A 4 y) (fdec A 1 4) burnin a0 ;;
  '(ss, tr) <- AddSteps ([], []) [w] [SRam 0 r] ;;
  '(s, out) <- Run_out _ (par1 R vsort) (@student_draw A R) sample_size burnin thin tr init (mkSys [w] ss g) ;;
  w' <- vgetU (y_pars s) 0 ;;
  Ok (w', y_gen s, out).
(** RunCarmaSampler, carmcmc.cpp L79-177, for one kind of walker *)
Definition run_carma_out {X} (M : methodsP R (base A X) vec) (mk : res (base A X)) (npar : nat) (label : string)
  (sample_size burnin : nat) (y : vec) (nwalkers thin : nat) (init : vec)
  (v0 : vec) (l0 a0 : F) (g : gen) : res (param A (base A X) vec * gen * list line) :=
  ws <- mk_walkers mk (#10 ⊗ fsqrt A (pop_var A y)) v0 l0 label (temp_ladder A nwalkers) ;;
  let e0 := mkExch A (Z.of_nat (burnin + thin * sample_size)) 0 0 a0 in
  w0 <- vgetU ws 0 ;;
  r <- ram_new chol (prop_covar A npar y) (fdec A 1 4) burnin a0 ;;
  st <- AddSteps ([], []) ws (hot_steps (nwalkers - 1) r e0) ;;
  let ws1 := upd ws 0 (SetTracking w0 true) in
  '(ss, tr) <- AddSteps st ws1 [SRam 0 r] ;;
  '(s, out) <- Run_out _ M (@student_draw A R) sample_size burnin thin tr init (mkSys ws1 ss g) ;;
  w' <- vgetU (y_pars s) 0 ;;
  Ok (w', y_gen s, out).
(** RunCarmaSampler, carmcmc.cpp L79-177 *)
Definition RunCarmaSampler_out (fuel sample_size burnin : nat) (t y e : vec) (p q nwalkers : nat) (do_zcarma : bool)
  (thin : nat) (init : vec) (raw : kfp A) (v0 : vec) (l0 a0 : F) (g : gen)
  : res (param A (base A (kpx A)) vec * gen * list line) :=
  if p <? 2 then Throw Elogic else
  if do_zcarma then
    run_carma_out (par_zcar R dsort solve fuel p) (zcar_new si raw p t y e) (3 + p) "ZCAR(p) Parameters" sample_size burnin y nwalkers thin init v0 l0 a0 g
  else if q =? 0 then
    run_carma_out (par_carp R dsort solve fuel p) (carp_new si raw p t y e) (3 + p + q) "CAR(p) Parameters" sample_size burnin y nwalkers thin init v0 l0 a0 g
  else
    run_carma_out (par_carma R dsort solve fuel p q) (carp_new si raw p t y e) (3 + p + q) "CARMA(p,q) Parameters" sample_size burnin y nwalkers thin init v0 l0 a0 g.
End Print.
