(** Complex numbers (std::complex<double>) and the arma::cx_vec / arma::cx_mat operations over them. *)
From Coq Require Import List Arith ZArith Bool.
From Verif Require Import Arith.
Import ListNotations.

Set Implicit Arguments.

Section Cx.
Variable A : Arith.
Local Notation F := (F A).
Local Notation "x ⊕ y" := (fadd A x y) (at level 50, left associativity).
Local Notation "x ⊖ y" := (fsub A x y) (at level 50, left associativity).
Local Notation "x ⊗ y" := (fmul A x y) (at level 40, left associativity).
Local Notation "x ⊘ y" := (fdiv A x y) (at level 40, left associativity).
Local Notation "# z" := (fofZ A z) (at level 5).

(** std::complex<double>.  Products and quotients are the textbook ones (simplified: the C99 Annex G rescue of
    NaN results and the scaling that avoids overflow are not modelled). *)
Definition cx : Type := (F * F)%type.
Definition c0 : cx := (#0, #0).
Definition c1 : cx := (#1, #0).
Definition cre (r : F) : cx := (r, #0).
Definition cadd (a b : cx) : cx := (fst a ⊕ fst b, snd a ⊕ snd b).
Definition csub (a b : cx) : cx := (fst a ⊖ fst b, snd a ⊖ snd b).
Definition cneg (a : cx) : cx := (fneg A (fst a), fneg A (snd a)).
Definition cmul (a b : cx) : cx := (fst a ⊗ fst b ⊖ snd a ⊗ snd b, fst a ⊗ snd b ⊕ snd a ⊗ fst b).
Definition conj (a : cx) : cx := (fst a, fneg A (snd a)).
(** product and quotient with a double (simplified: Armadillo first widens the double to a complex number) *)
Definition cscale (r : F) (a : cx) : cx := (r ⊗ fst a, r ⊗ snd a).
Definition cdivr (a : cx) (r : F) : cx := (fst a ⊘ r, snd a ⊘ r).
Definition cdiv (a b : cx) : cx :=
  let d := fst b ⊗ fst b ⊕ snd b ⊗ snd b in
  ((fst a ⊗ fst b ⊕ snd a ⊗ snd b) ⊘ d, (snd a ⊗ fst b ⊖ fst a ⊗ snd b) ⊘ d).
(** std::exp, std::abs *)
Definition cexp (a : cx) : cx := (fexp A (fst a) ⊗ fcos A (snd a), fexp A (fst a) ⊗ fsin A (snd a)).
Definition cabs (a : cx) : F := fsqrt A (fst a ⊗ fst a ⊕ snd a ⊗ snd a).
(** std::pow / arma::pow with a non-negative integer exponent (simplified: repeated multiplication) *)
Fixpoint cpown (a : cx) (n : nat) : cx := match n with O => c1 | S k => cmul a (cpown a k) end.

(** sums in index order *)
Fixpoint csum (f : nat -> cx) (n : nat) : cx := match n with O => c0 | S k => cadd (csum f k) (f k) end.
Fixpoint cprod (f : nat -> cx) (n : nat) : cx := match n with O => c1 | S k => cmul (cprod f k) (f k) end.
Fixpoint fsum (f : nat -> F) (n : nat) : F := match n with O => #0 | S k => fsum f k ⊕ f k end.

(** vectors and matrices of given size, entry by entry; matrices are lists of rows *)
Definition vbuild {T} (n : nat) (f : nat -> T) : list T := map f (seq 0 n).
Definition mbuild {T} (r c : nat) (f : nat -> nat -> T) : list (list T) := vbuild r (fun i => vbuild c (f i)).
Definition vnth (v : list cx) (i : nat) : cx := nth i v c0.
Definition mnth (M : list (list cx)) (i j : nat) : cx := nth j (nth i M []) c0.
(** the size of a matrix *)
Definition is_mat {T} (r c : nat) (M : list (list T)) : bool :=
  (length M =? r) && forallb (fun row => length row =? c) M.
End Cx.
