(** Outcomes of C++ code, and vectors. *)
From Coq Require Import List Arith Lia.
Import ListNotations.

Set Implicit Arguments.

(** [Elogic]: std::logic_error (Armadillo bounds and size checks, which are on because setup.py does not define
    ARMA_NO_DEBUG).  [Eruntime]: std::runtime_error (failed chol / solve), the only kind that
    CARMA_Base::LogDensity catches (src/include/carpack.hpp L154-159). *)
Inductive exn := Elogic | Eruntime.

Inductive res (T : Type) :=
| Ok (x : T)
| Throw (e : exn)
| UB                (* undefined behaviour: unchecked out-of-range access, read of unset memory *)
| Diverge.          (* a loop exhausted the fuel given to the model *)
Arguments Ok {T} x.
Arguments Throw {T} e.
Arguments UB {T}.
Arguments Diverge {T}.

Definition bind {T U} (m : res T) (k : T -> res U) : res U :=
  match m with Ok x => k x | Throw e => Throw e | UB => UB | Diverge => Diverge end.
Notation "x <- m ;; k" := (bind m (fun x => k)) (at level 61, m at next level, right associativity).
Notation "' p <- m ;; k" := (bind m (fun p => k)) (at level 61, p pattern, m at next level, right associativity).

(** arma  x(i)  (bounds checked), src/kfilter.cpp passim *)
Definition vget {T} (l : list T) (i : nat) : res T :=
  match nth_error l i with Some x => Ok x | None => Throw Elogic end.
(** arma  x[i]  (unchecked) *)
Definition vgetU {T} (l : list T) (i : nat) : res T :=
  match nth_error l i with Some x => Ok x | None => UB end.

Fixpoint upd {T} (l : list T) (i : nat) (v : T) : list T :=
  match l, i with
  | [], _ => []
  | _ :: r, O => v :: r
  | x :: r, S j => x :: upd r j v
  end.

(** arma  x(i) = v *)
Definition vset {T} (l : list T) (i : nat) (v : T) : res (list T) :=
  if i <? length l then Ok (upd l i v) else Throw Elogic.
(** arma  x[i] = v *)
Definition vsetU {T} (l : list T) (i : nat) (v : T) : res (list T) :=
  if i <? length l then Ok (upd l i v) else UB.

(** arma  x.elem(idx) *)
Fixpoint velem {T} (l : list T) (idx : list nat) : res (list T) :=
  match idx with
  | [] => Ok []
  | i :: r => x <- vget l i ;; xs <- velem l r ;; Ok (x :: xs)
  end.

(** arma  x.insert_rows(i, v)  with a one-row v (throws when i > n_elem) *)
Definition vinsert {T} (l : list T) (i : nat) (v : T) : res (list T) :=
  if i <=? length l then Ok (firstn i l ++ v :: skipn i l) else Throw Elogic.

(** [unsigned - 1]: 0 - 1 wraps to UINT_MAX, which is then out of range of every checked access. *)
Definition idxm1 (c : nat) : res nat :=
  match c with O => Throw Elogic | S k => Ok k end.

(** [for (i = a; i < a + k; i++) body(i)] *)
Fixpoint for_ {T} (a k : nat) (body : nat -> T -> res T) (s : T) : res T :=
  match k with
  | O => Ok s
  | S k' => s' <- body a s ;; for_ (S a) k' body s'
  end.
