(** Model of the MCMC engine: src/include/random.hpp, src/random.cpp, src/include/parameters.hpp,
    src/include/proposals.hpp, src/proposals.cpp, src/include/steps.hpp, src/steps.cpp, src/samplers.cpp. *)
From Coq Require Import List Arith ZArith Bool String.
From Verif Require Import Arith Res Cx.
Import ListNotations.

Set Implicit Arguments.

(** ** Random numbers *)
(** The two generators of the program: the global boost::random::mt19937 [rng] (random.cpp L20), seeded by
    RandomGenerator::SetSeed (L24-27), and Armadillo's own generator behind randu() and randn(), which no code of
    the repository seeds.  The boost distributions are abstract functions of the engine state (boost's own
    precondition assertions are not modelled).
    b_uniform lo hi: uniform_real_distribution (random.cpp L121-126; steps.hpp uniform_, with its default bounds 0, 1);
    b_int lo hi: uniform_int_distribution (L129-134); b_normal mu sigma: normal_distribution (L76-81);
    b_chisqr dof: chi_squared_distribution (L168-173); b_student dof: student_t_distribution (L158-164);
    b_lognormal m s: lognormal_distribution (L113-118); a_randu, a_randn: one element of vec.randu(), vec.randn(). *)
Record rng (A : Arith) := mkRng {
  Gb : Type; Ga : Type;
  b_seed : Z -> Gb;
  b_uniform : F A -> F A -> Gb -> F A * Gb;
  b_int : Z -> Z -> Gb -> Z * Gb;
  b_normal : F A -> F A -> Gb -> F A * Gb;
  b_chisqr : Z -> Gb -> F A * Gb;
  b_student : F A -> Gb -> F A * Gb;
  b_lognormal : F A -> F A -> Gb -> F A * Gb;
  a_randu : Ga -> F A * Ga;
  a_randn : Ga -> F A * Ga }.

Section Engine.
Variable A : Arith.
Local Notation F := (F A).
Local Notation "x ⊕ y" := (fadd A x y) (at level 50, left associativity).
Local Notation "x ⊖ y" := (fsub A x y) (at level 50, left associativity).
Local Notation "x ⊗ y" := (fmul A x y) (at level 40, left associativity).
Local Notation "x ⊘ y" := (fdiv A x y) (at level 40, left associativity).
Local Notation "# z" := (fofZ A z) (at level 5).
Local Notation vec := (list F).

Variable R : rng A.
(** the state of both generators; rng of random.cpp and the generator inside Armadillo; no lines of their own *)
Definition gen : Type := (Gb R * Ga R)%type.
(** a draw from the boost generator leaves the one of Armadillo alone (no lines of its own in /repo) *)
Definition on_b {T} (f : Gb R -> T * Gb R) (g : gen) : T * gen :=
  let (x, b) := f (fst g) in (x, (b, snd g)).
(** a draw from the generator of Armadillo (no lines of its own in /repo) *)
Definition on_a {T} (f : Ga R -> T * Ga R) (g : gen) : T * gen :=
  let (x, a) := f (snd g) in (x, (fst g, a)).
(** RandomGenerator::SetSeed, random.cpp L24-27 *)
Definition SetSeed (seed : Z) (g : gen) : gen := (b_seed R seed, snd g).

(** RandomGenerator::uniform(double, double), random.cpp L121-126, and the uniform_ members of the steps *)
Definition runiform (lo hi : F) : gen -> F * gen := on_b (b_uniform R lo hi).
(** RandomGenerator::normal(double, double), random.cpp L76-81 *)
Definition rnorm (mu sigma : F) : gen -> F * gen := on_b (b_normal R mu sigma).
(** RandomGenerator::scaled_inverse_chisqr, random.cpp L180-186 *)
Definition scaled_inverse_chisqr (dof : Z) (ssqr : F) (g : gen) : F * gen :=
  let (chi2, g1) := on_b (b_chisqr R dof) g in (ssqr ⊘ chi2 ⊗ #dof, g1).
(** RandomGenerator::tdist, random.cpp L158-164 *)
Definition tdist (dof mean scale : F) (g : gen) : F * gen :=
  let (z, g1) := on_b (b_student R dof) g in (mean ⊕ scale ⊗ z, g1).
(** RandomGenerator::lognormal, random.cpp L113-118 *)
Definition rlognormal (logmean frac : F) : gen -> F * gen := on_b (b_lognormal R logmean frac).
(** RandomGenerator::powerlaw, random.cpp L141-151 *)
Definition powerlaw (lower upper slope : F) (g : gen) : F * gen :=
  let (unif, g1) := runiform (#0) (#1) g in
  let power := #1 ⊘ (slope ⊕ #1) in
  let base_value := (fpow A upper (slope ⊕ #1) ⊖ fpow A lower (slope ⊕ #1)) ⊗ unif ⊕ fpow A lower (slope ⊕ #1) in
  (fpow A base_value power, g1).

(** n draws in index order; the loops over the elements in steps.cpp L63-66 and in arma::randu, arma::randn *)
Fixpoint draws (n : nat) (d : gen -> F * gen) (g : gen) : vec * gen :=
  match n with
  | O => ([], g)
  | S k => let (x, g1) := d g in let (l, g2) := draws k d g1 in (x :: l, g2)
  end.

(** StudentProposal::Draw, proposals.cpp L26-28, with dof_ = 8, scale_ = 1 (carmcmc.cpp L57, L139) *)
Definition student_draw (x : F) : gen -> F * gen := tdist (#8) x (#1).
(** NormalProposal::Draw, proposals.cpp L20-22 *)
Definition normal_draw (sd x : F) : gen -> F * gen := rnorm x sd.
(** LogNormalProposal::Draw, proposals.cpp L38-41 *)
Definition lognormal_draw (logsd x : F) : gen -> F * gen := rlognormal (flog A x) logsd.
(** LogNormalProposal::LogDensity, proposals.hpp L114-118 *)
Definition lognormal_logdens (new old : F) : F := fneg A (#1) ⊗ flog A new.
(** NormalProposal::LogDensity and StudentProposal::LogDensity, proposals.hpp L45-47, L68-70 *)
Definition symmetric_logdens (new old : F) : F := #0.

(** ** Parameters *)
(** A Parameter<T> object is the virtual methods of its class acting on the members [X] of the subclass, together
    with the members of BaseParameter and Parameter<T> (parameters.hpp L84-91, L165-168).
    o_LogDensity, o_Start, o_SetStart: the virtual methods LogDensity, StartingValue, SetStartingValue;
    o_Save: the log-posterior computed by CARMA_Base::Save(arma::vec&) (carpack.hpp L90-108).  That function hides
    but does not override Parameter::Save(T): a call through Parameter<T>& runs Parameter::Save, a call on an object
    of static type CARp runs CARMA_Base::Save. *)
Record methodsP (X T : Type) := mkP {
  o_LogDensity : X -> T -> res (F * X);
  o_Start : X -> gen -> res (T * X * gen);
  o_SetStart : X -> T -> gen -> res (T * X * gen);
  o_Save : X -> T -> res F }.

(** the members of BaseParameter and Parameter<T>, parameters.hpp L84-91 and L165-168, and those of the subclass *)
Record param (X T : Type) := mkW {
  w_obj : X; w_value : T; w_logpost : F; w_temp : F; w_track : bool; w_label : string;
  w_samples : list T; w_logposts : list F }.

Section Par.
Variables X T : Type.
Variable P : methodsP X T.
Local Notation param := (param X T).

(** assignment to members of the subclass (no lines of its own in /repo) *)
Definition set_obj (w : param) (x : X) : param :=
  mkW x (w_value w) (w_logpost w) (w_temp w) (w_track w) (w_label w) (w_samples w) (w_logposts w).
(** BaseParameter::SetLogDensity, parameters.hpp L48-50 *)
Definition SetLogDensity (w : param) (l : F) : param :=
  mkW (w_obj w) (w_value w) l (w_temp w) (w_track w) (w_label w) (w_samples w) (w_logposts w).
(** BaseParameter::SetTracking, parameters.hpp L68-70 *)
Definition SetTracking (w : param) (b : bool) : param :=
  mkW (w_obj w) (w_value w) (w_logpost w) (w_temp w) b (w_label w) (w_samples w) (w_logposts w).
(** LogDensity called on the object: it may change the members of the subclass *)
Definition LD (w : param) (v : T) : res (F * param) :=
  '(l, x) <- o_LogDensity P (w_obj w) v ;; Ok (l, set_obj w x).
(** Parameter::Save, parameters.hpp L130-133 *)
Definition Save (w : param) (v : T) : res param :=
  '(l, x) <- o_LogDensity P (w_obj w) v ;;
  Ok (mkW x v l (w_temp w) (w_track w) (w_label w) (w_samples w) (w_logposts w)).
(** CARMA_Base::Save, carpack.hpp L90-108 *)
Definition SaveDerived (w : param) (v : T) : res param :=
  l <- o_Save P (w_obj w) v ;;
  Ok (mkW (w_obj w) v l (w_temp w) (w_track w) (w_label w) (w_samples w) (w_logposts w)).
(** std::vector::resize.  [dv], [df]: the value-initialised elements. *)
Definition resize {U} (l : list U) (n : nat) (d : U) : list U := firstn n l ++ repeat d (n - List.length l).
Variable dv : T.
(** Parameter::SetSampleSize, parameters.hpp L136-139 (a negative int converts to a size that resize rejects; the
    model takes natural numbers) *)
Definition SetSampleSize (w : param) (n : nat) : param :=
  mkW (w_obj w) (w_value w) (w_logpost w) (w_temp w) (w_track w) (w_label w)
    (resize (w_samples w) n dv) (resize (w_logposts w) n (#0)).
(** Parameter::AddToSample(int), parameters.hpp L142-147: unchecked operator[] *)
Definition AddToSample (w : param) (i : nat) : res param :=
  s <- vsetU (w_samples w) i (w_value w) ;;
  l <- vsetU (w_logposts w) i (w_logpost w) ;;
  Ok (mkW (w_obj w) (w_value w) (w_logpost w) (w_temp w) (w_track w) (w_label w) s l).

(** ** GibbsStep and MetropStep *)
(** GibbsStep::DoStep, steps.hpp L84-86; [post] is Parameter::RandomPosterior *)
Definition gibbs_step (post : X -> gen -> T * gen) (w : param) (g : gen) : res (param * gen) :=
  let (v, g1) := post (w_obj w) g in
  w' <- Save w v ;; Ok (w', g1).

(** members of MetropStep, steps.hpp L204-210 *)
Record metrop := mkMetrop { m_alpha : F; m_naccept : nat; m_niter : nat; m_report : Z }.
(** MetropStep::Accept, steps.hpp L140-159.  [qld new old] is proposal_.LogDensity, which may read the parameter. *)
Definition metrop_accept (qld : param -> T -> T -> F) (m : metrop) (w : param) (new old : T) (g : gen)
  : res (bool * metrop * param * gen) :=
  '(l, w1) <- LD w new ;;
  let alpha := l ⊘ w_temp w1 ⊖ w_logpost w1 ⊘ w_temp w1 ⊕ qld w1 old new ⊖ qld w1 new old in
  if negb (ffin A alpha) then Ok (false, mkMetrop alpha (m_naccept m) (m_niter m) (m_report m), w1, g) else
  let (u, g1) := runiform (#0) (#1) g in
  let a := fmin A (fexp A alpha) (#1) in
  Ok (flt A u a, mkMetrop a (m_naccept m) (m_niter m) (m_report m), w1, g1).
(** MetropStep::DoStep and Report, steps.hpp L162-186; [draw] is proposal_.Draw, with what it remembers for [qld] *)
Definition metrop_step {Q} (draw : T -> gen -> res (T * Q * gen)) (qld : Q -> param -> T -> T -> F)
  (m : metrop) (w : param) (g : gen) : res (metrop * param * gen) :=
  '(new, q, g1) <- draw (w_value w) g ;;
  '(acc, m1, w1, g2) <- metrop_accept (qld q) m w new (w_value w) g1 ;;
  w2 <- (if acc : bool then Save w1 new else Ok w1) ;;
  let na := if acc then S (m_naccept m1) else m_naccept m1 in
  let ni := S (m_niter m1) in
  if Z.eqb (Z.of_nat ni) (m_report m1) then Ok (mkMetrop (m_alpha m1) 0 0 (m_report m1), w2, g2)
  else Ok (mkMetrop (m_alpha m1) na ni (m_report m1), w2, g2).
End Par.

(** ** StretchProposal, proposals.hpp L174-260 *)
(** GrabParameter, L196-205: redraw until another index comes; [fuel] bounds the number of draws (Diverge).
    [vals] are the values of the ensemble. *)
Fixpoint grab_index (fuel : nat) (size me : nat) (g : gen) : res (nat * gen) :=
  match fuel with
  | O => Diverge
  | S k =>
    let (j, g1) := on_b (b_int R 0 (Z.of_nat size - 1)) g in
    if Z.eqb j (Z.of_nat me) then grab_index k size me g1 else Ok (Z.to_nat j, g1)
  end.
(** addition of arma::vec, used at proposals.hpp L208-221 and steps.cpp L60-104; the sizes are checked *)
Definition vadd (a b : vec) : res vec :=
  if List.length a =? List.length b then Ok (map (fun p => fst p ⊕ snd p) (combine a b)) else Throw Elogic.
(** subtraction of arma::vec, used at proposals.hpp L208-221 *)
Definition vsub (a b : vec) : res vec :=
  if List.length a =? List.length b then Ok (map (fun p => fst p ⊖ snd p) (combine a b)) else Throw Elogic.
(** a number times an arma::vec, used at proposals.hpp L208-221 *)
Definition vscale (c : F) (a : vec) : vec := map (fun x => c ⊗ x) a.
(** Draw, L208-221; returns the proposed point and scale_ *)
Definition stretch_draw (fuel : nat) (vals : list vec) (me : nat) (a : F) (walker : vec) (g : gen)
  : res (vec * F * gen) :=
  '(j, g1) <- grab_index fuel (List.length vals) me g ;;
  other <- vgetU vals j ;;
  let (z, g2) := powerlaw (#1 ⊘ a) a (fneg A (fdec A 1 2)) g1 in
  d <- vsub walker other ;;
  y <- vadd other (vscale z d) ;;
  Ok (y, z, g2).
(** LogDensity, L228-251; [cur] is ensemble_[parameter_index_].Value() *)
Definition stretch_logdens (cur : vec) (scale : F) (new old : vec) : F :=
  if forallb (fun p => flt A (fabs A (fst p ⊖ snd p)) (fdec A 1 10000000000)) (combine cur new)
  then (#(Z.of_nat (List.length new)) ⊖ #1) ⊗ flog A scale
  else #0.

(** ** AdaptiveMetro *)
(** arma::mat, steps.hpp L278-287 *)
Definition mat := list vec.
(** arma  M(i,j); checked element access, steps.cpp L111-131 *)
Definition mget (M : mat) (i j : nat) : res F := r <- vget M i ;; vget r j.
(** the same for indices known to be in range *)
Definition ent (M : mat) (i j : nat) : F := nth j (nth i M []) (#0).

(** CholUpdateR1, steps.cpp L111-131: one pass of the loop.  The matrix is n by n with n = v.n_elem (other sizes
    throw or are not produced by the constructor). *)
Definition chol_step (sign : F) (k : nat) (st : mat * vec) : res (mat * vec) :=
  let (L, v) := st in
  lkk <- mget L k k ;;
  vk <- vget v k ;;
  let r := fsqrt A (lkk ⊗ lkk ⊕ sign ⊗ vk ⊗ vk) in
  let c := r ⊘ lkk in
  let s := vk ⊘ lkk in
  let n := List.length L in
  let row := vbuild n (fun j =>
      if j <? k then ent L k j
      else if j =? k then r
      else (ent L k j ⊕ sign ⊗ s ⊗ nth j v (#0)) ⊘ c) in
  let v' := vbuild n (fun j => if j <=? k then nth j v (#0) else c ⊗ nth j v (#0) ⊖ s ⊗ nth j row (#0)) in
  Ok (upd L k row, v').
(** CholUpdateR1, steps.cpp L111-131: the loop over the rows *)
Definition CholUpdateR1 (L : mat) (v : vec) (downdate : bool) : res (mat * vec) :=
  for_ 0 (List.length L) (chol_step (if downdate then fneg A (#1) else #1)) (L, v).

(** members of AdaptiveMetro, steps.hpp L278-287 (parameter_ and proposal_ are passed to the functions) *)
Record ram := mkRam {
  r_chol : mat; r_gamma : F; r_target : F; r_niter : nat; r_naccept : nat; r_maxiter : nat; r_alpha : F }.
(** chol_factor_.t() * u *)
Definition mtmul (M : mat) (u : vec) : res vec :=
  if List.length M =? List.length u
  then Ok (vbuild (List.length (nth 0 M [])) (fun j => fsum A (fun i => ent M i j ⊗ nth i u (#0)) (List.length u)))
  else Throw Elogic.
(** GetCovariance, steps.hpp L261-264 *)
Definition GetCovariance (r : ram) : mat :=
  let n := List.length (r_chol r) in
  mbuild n n (fun i j => fsum A (fun k => ent (r_chol r) k i ⊗ ent (r_chol r) k j) n).
(** arma::norm(u, 2) (simplified: no rescaling against overflow) *)
Definition norm2 (u : vec) : F := fsqrt A (fold_left (fadd A) (map (fun x => x ⊗ x) u) (#0)).

(** AdaptiveMetro::AdaptiveMetro, steps.cpp L24-33.  [chol] is arma::chol (None: decomposition failed, throws
    std::runtime_error); [a0] the indeterminate initial alpha_. *)
Definition ram_new (chol : mat -> option mat) (covar : mat) (target : F) (maxiter : nat) (a0 : F) : res ram :=
  match chol covar with
  | None => Throw Eruntime
  | Some L => Ok (mkRam L (#2 ⊘ #3) target 0 0 maxiter a0)
  end.

Section Steps.
Variable X : Type.
Variable P : methodsP X vec.
Local Notation param := (param X vec).

(** AdaptiveMetro::Accept, steps.cpp L36-56 *)
Definition ram_accept (r : ram) (w : param) (new : vec) (g : gen) : res (bool * ram * param * gen) :=
  '(l, w1) <- LD P w new ;;
  let alpha := (l ⊖ w_logpost w1) ⊘ w_temp w1 in
  if negb (ffin A alpha) then
    Ok (false, mkRam (r_chol r) (r_gamma r) (r_target r) (r_niter r) (r_naccept r) (r_maxiter r) (#0), w1, g)
  else
    let (u, g1) := runiform (#0) (#1) g in
    let a := fmin A (fexp A alpha) (#1) in
    if flt A u a
    then Ok (true, mkRam (r_chol r) (r_gamma r) (r_target r) (r_niter r) (S (r_naccept r)) (r_maxiter r) a, w1, g1)
    else Ok (false, mkRam (r_chol r) (r_gamma r) (r_target r) (r_niter r) (r_naccept r) (r_maxiter r) a, w1, g1).

(** the adaptation, steps.cpp L83-101 *)
Definition ram_adapt (r : ram) (unit scaled : vec) : res ram :=
  if (r_niter r <? r_maxiter r) && ffin A (r_alpha r) then
    let step := fmin A (#1) (#(Z.of_nat (List.length scaled)) ⊘ fpow A (#(Z.of_nat (r_niter r))) (r_gamma r)) in
    let v := vscale (fsqrt A (step ⊗ fabs A (r_alpha r ⊖ r_target r)) ⊘ norm2 unit) scaled in
    '(L, _) <- CholUpdateR1 (r_chol r) v (flt A (r_alpha r) (r_target r)) ;;
    Ok (mkRam L (r_gamma r) (r_target r) (r_niter r) (r_naccept r) (r_maxiter r) (r_alpha r))
  else Ok r.

(** AdaptiveMetro::DoStep, steps.cpp L60-107 (the report at L103-106 only prints); [draw] is proposal_.Draw *)
Definition ram_step (draw : F -> gen -> F * gen) (r : ram) (w : param) (g : gen) : res (ram * param * gen) :=
  let (unit, g1) := draws (List.length (w_value w)) (draw (#0)) g in
  scaled <- mtmul (r_chol r) unit ;;
  new <- vadd (w_value w) scaled ;;
  '(acc, r1, w1, g2) <- ram_accept r w new g1 ;;
  w2 <- (if acc : bool then Save P w1 new else Ok w1) ;;
  r2 <- ram_adapt r1 unit scaled ;;
  Ok (mkRam (r_chol r2) (r_gamma r2) (r_target r2) (S (r_niter r2)) (r_naccept r2) (r_maxiter r2) (r_alpha r2), w2, g2).

(** ** ExchangeStep, steps.hpp L292-396 *)
Record exch := mkExch { e_report : Z; e_niter : nat; e_naccept : nat; e_alpha : F }.
(** DoStep, L318-362: [w] is parameter_, [o] is ensemble_[parameter_index_ - 1] *)
Definition exch_step (e : exch) (w o : param) (g : gen) : res (exch * param * param * gen) :=
  let this_lp := w_logpost w in
  let other_lp := w_logpost o in
  let a := #1 ⊘ w_temp w ⊗ (other_lp ⊖ this_lp) ⊕ #1 ⊘ w_temp o ⊗ (this_lp ⊖ other_lp) in
  let (u, g1) := runiform (#0) (#1) g in
  let a := fmin A (fexp A a) (#1) in
  let a := if negb (ffin A a) then #0 else a in
  '(w', o', na) <-
    (if flt A u a then
       w1 <- Save P w (w_value o) ;;
       o1 <- SaveDerived P o (w_value w) ;;
       Ok (SetLogDensity w1 other_lp, SetLogDensity o1 this_lp, S (e_naccept e))
     else Ok (w, o, e_naccept e)) ;;
  let ni := S (e_niter e) in
  Ok (if Z.eqb (Z.of_nat ni) (e_report e) then mkExch (e_report e) 0 0 a else mkExch (e_report e) ni na a, w', o', g1).

(** ** Sampler *)
(** A step acts on parameters owned by the caller, here addressed by their index in a list: AdaptiveMetro on
    parameter i, ExchangeStep on parameters i and i - 1 of the ensemble. See steps_ of Sampler, samplers.hpp L136-142. *)
Inductive step := SRam (i : nat) (r : ram) | SExch (i : nat) (e : exch).
(** GetParPointer, used at samplers.cpp L24-34 *)
Definition step_par (s : step) : nat := match s with SRam i _ => i | SExch i _ => i end.
(** the parameters, the steps and the generators; everything Sampler::Run acts on, samplers.cpp L56-116 *)
Record sys := mkSys { y_pars : list param; y_steps : list step; y_gen : gen }.

Variable draw : F -> gen -> F * gen.
(** steps_[k].DoStep().  References are always valid: a dangling one is UB. See samplers.cpp L41-43 and L49-51. *)
Definition do_step (s : step) (ws : list param) (g : gen) : res (step * list param * gen) :=
  match s with
  | SRam i r =>
    w <- vgetU ws i ;;
    '(r', w', g') <- ram_step draw r w g ;;
    Ok (SRam i r', upd ws i w', g')
  | SExch i e =>
    match i with
    | O => UB
    | S j =>
      w <- vgetU ws i ;;
      o <- vgetU ws j ;;
      '(e', w', o', g') <- exch_step e w o g ;;
      Ok (SExch i e', upd (upd ws i w') j o', g')
    end
  end.
(** the inner loop of Sampler::Iterate, samplers.cpp L41-43 and L49-51 *)
Fixpoint sweep_steps (ss : list step) (ws : list param) (g : gen) : res (list step * list param * gen) :=
  match ss with
  | [] => Ok ([], ws, g)
  | s :: r =>
    '(s', ws1, g1) <- do_step s ws g ;;
    '(r', ws2, g2) <- sweep_steps r ws1 g1 ;;
    Ok (s' :: r', ws2, g2)
  end.
(** one pass over all the steps, samplers.cpp L41-43 and L49-51 *)
Definition sweep (y : sys) : res sys :=
  '(ss, ws, g) <- sweep_steps (y_steps y) (y_pars y) (y_gen y) ;; Ok (mkSys ws ss g).
(** Sampler::Iterate, samplers.cpp L37-54 (the progress display is not modelled) *)
Fixpoint Iterate (n : nat) (y : sys) : res sys :=
  match n with O => Ok y | S k => y' <- sweep y ;; Iterate k y' end.

(** Sampler members, samplers.hpp L136-142: tracked_names_ and p_tracked_parameters_ as one association list in the
    order of insertion (simplified: std::set iterates in string order; the updates made per label act on different
    parameters or are idempotent). *)
Definition tracked := list (string * nat).
(** tracked_names_.insert and p_tracked_parameters_[label] = ..., samplers.cpp L31-32 *)
Fixpoint track_insert (t : tracked) (l : string) (i : nat) : tracked :=
  match t with
  | [] => [(l, i)]
  | (l', i') :: r => if String.eqb l' l then (l, i) :: r else (l', i') :: track_insert r l i
  end.
(** Sampler::AddStep, samplers.cpp L24-34 *)
Definition AddStep (st : list step * tracked) (ws : list param) (s : step) : res (list step * tracked) :=
  let (ss, t) := st in
  w <- vgetU ws (step_par s) ;;
  Ok (ss ++ [s], if w_track w then track_insert t (w_label w) (step_par s) else t).
(** AddStep for each element of a list, as at carmcmc.cpp L147-157 *)
Fixpoint AddSteps (st : list step * tracked) (ws : list param) (l : list step) : res (list step * tracked) :=
  match l with [] => Ok st | s :: r => st' <- AddStep st ws s ;; AddSteps st' ws r end.

(** a call of a method of parameter i through its pointer, samplers.cpp L65 and L122 *)
Definition on_par (ws : list param) (i : nat) (f : param -> res param) : res (list param) :=
  w <- vgetU ws i ;; w' <- f w ;; Ok (upd ws i w').
(** the loops over the tracked parameters, samplers.cpp L63-66 and L120-123 *)
Fixpoint on_tracked (t : tracked) (f : param -> res param) (ws : list param) : res (list param) :=
  match t with [] => Ok ws | (_, i) :: r => ws' <- on_par ws i f ;; on_tracked r f ws' end.
(** Sampler::SaveValues, samplers.cpp L118-124 *)
Definition SaveValues (t : tracked) (cur : nat) (y : sys) : res sys :=
  ws <- on_tracked t (fun w => AddToSample w cur) (y_pars y) ;; Ok (mkSys ws (y_steps y) (y_gen y)).

(** the starting values, samplers.cpp L82-93 *)
Fixpoint start_loop (ss : list step) (use : bool) (init : vec) (ws : list param) (g : gen) : res (list param * gen) :=
  match ss with
  | [] => Ok (ws, g)
  | s :: r =>
    w <- vgetU ws (step_par s) ;;
    '(v, x, g1) <- (if use then o_SetStart P (w_obj w) init g else o_Start P (w_obj w) g) ;;
    w' <- Save P (set_obj w x) v ;;
    start_loop r use init (upd ws (step_par s) w') g1
  end.
(** the sampling loop, samplers.cpp L101-108 *)
Fixpoint sample_loop (n cur thin : nat) (t : tracked) (y : sys) : res sys :=
  match n with
  | O => Ok y
  | S k =>
    y1 <- Iterate thin y ;;
    y2 <- SaveValues t cur y1 ;;
    sample_loop k (S cur) thin t y2
  end.
(** Sampler::Run, samplers.cpp L57-115.  steps_[0] on an empty list is UB. *)
Definition Run (sample_size burnin thin : nat) (t : tracked) (init : vec) (y : sys) : res sys :=
  ws1 <- on_tracked t (fun w => Ok (SetSampleSize [] w sample_size)) (y_pars y) ;;
  s0 <- vgetU (y_steps y) 0 ;;
  w0 <- vgetU ws1 (step_par s0) ;;
  let use := List.length init =? List.length (w_value w0) in
  '(ws2, g2) <- start_loop (y_steps y) use init ws1 (y_gen y) ;;
  y3 <- Iterate burnin (mkSys ws2 (y_steps y) g2) ;;
  sample_loop sample_size 0 thin t y3.
End Steps.
End Engine.
