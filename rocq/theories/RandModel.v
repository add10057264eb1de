(** Model of the rest of src/random.cpp and of src/proposals.cpp: the variates the sampler does not use, the multivariate normal
    variate and proposal, and the two functions that save and recover the state of the generator. *)
From Coq Require Import List Arith ZArith Bool String.
From Verif Require Import Arith Res Cx EngineModel.
Import ListNotations.

Set Implicit Arguments.

Section Rand.
Variable A : Arith.
Local Notation F := (F A).
Local Notation "x ⊘ y" := (fdiv A x y) (at level 40, left associativity).
Local Notation "# z" := (fofZ A z) (at level 5).
Local Notation vec := (list F).

Variable R : rng A.
Local Notation gen := (gen R).
(** boost::random::gamma_distribution (shape, scale), exponential_distribution (rate): further functions of the engine state *)
Variable b_gamma : F -> F -> Gb R -> F * Gb R.
Variable b_exp : F -> Gb R -> F * Gb R.

(** RandomGenerator::exp, random.cpp L61-71 *)
Definition rexp (lambda : F) : gen -> F * gen := on_b (b_exp lambda).
(** RandomGenerator::chisqr, random.cpp L168-173 *)
Definition rchisqr (dof : Z) : gen -> F * gen := on_b (b_chisqr R dof).
(** RandomGenerator::gamma, random.cpp L193-198 *)
Definition rgamma (alpha beta : F) : gen -> F * gen := on_b (b_gamma alpha beta).
(** RandomGenerator::invgamma, random.cpp L205-210 *)
Definition invgamma (alpha beta : F) (g : gen) : F * gen :=
  let (x, g1) := on_b (b_gamma alpha (#1 ⊘ beta)) g in (#1 ⊘ x, g1).
(** RandomGenerator::normal(arma::mat), random.cpp L88-105; [chol] is arma::chol (None: decomposition failed, throws
    std::runtime_error) *)
Definition mvnormal (chol : mat A -> option (mat A)) (covar : mat A) (g : gen) : res (vec * gen) :=
  match chol covar with
  | None => Throw Eruntime
  | Some M =>
      let (z, g1) := draws (List.length covar) (rnorm (#0) (#1)) g in
      x <- mtmul M z ;; Ok (x, g1)
  end.
(** MultiNormalProposal::Draw, proposals.cpp L32-34 *)
Definition mvnormal_draw (chol : mat A -> option (mat A)) (covar : mat A) (start : vec) (g : gen) : res (vec * gen) :=
  '(x, g1) <- mvnormal chol covar g ;;
  v <- vadd A start x ;; Ok (v, g1).
(** RandomGenerator::mtdist, random.cpp L214-218: a vector whose elements are never written; [junk] is what the memory holds *)
Definition mtdist (junk : nat -> vec) (covar : mat A) (dof : F) (g : gen) : vec * gen := (junk (List.length covar), g).
(** RandomGenerator::beta and RandomGenerator::weibull, random.cpp L221-230 *)
Definition rbeta (g : gen) : F * gen := (#0, g).
(** RandomGenerator::weibull, random.cpp L226-230 *)
Definition rweibull (g : gen) : F * gen := (#0, g).

(** ** The state of the boost generator in a file *)
(** [show] is what  stream << rng  writes, [read] what  stream >> rng  leaves in the generator; a file system is a map from
    names to contents; [can] says which files can be opened for writing.  The messages are not modelled. *)
Variable text : Type.
Variable show : Gb R -> text.
Variable read : text -> Gb R -> Gb R.
Definition files := string -> option text.
(** RandomGenerator::SaveSeed, random.cpp L31-41 *)
Definition SaveSeed (can : string -> bool) (name : string) (fs : files) (g : gen) : files :=
  if can name then fun n => if String.eqb n name then Some (show (fst g)) else fs n else fs.
(** RandomGenerator::RecoverSeed, random.cpp L45-55 *)
Definition RecoverSeed (name : string) (fs : files) (g : gen) : gen :=
  match fs name with
  | Some t => (read t (fst g), snd g)
  | None => g
  end.
End Rand.
