(** Independent specification: linear prediction of Gaussian vectors.
    Nothing here refers to the model of the code. *)
From Coq Require Import Reals List Lra Lia.
Local Open Scope R_scope.

(** sum of f 0 .. f (n-1) *)
Fixpoint Rsum (f : nat -> R) (n : nat) : R :=
  match n with O => 0 | S k => Rsum f k + f k end.

(** [is_blp n K c c0 y m v]: a zero-mean Gaussian vector (Y_0 .. Y_{n-1}, U) has covariances
    Cov(Y_k, Y_j) = K k j, Cov(U, Y_j) = c j, Var(U) = c0.  Then the conditional mean of U given Y = y is [m] and the
    conditional variance is [v]: they come from weights solving the normal equations. *)
Definition is_blp (n : nat) (K : nat -> nat -> R) (c : nat -> R) (c0 : R) (y : nat -> R) (m v : R) : Prop :=
  exists wt : nat -> R,
    (forall j, (j < n)%nat -> Rsum (fun k => wt k * K k j) n = c j) /\
    m = Rsum (fun k => wt k * y k) n /\
    v = c0 - Rsum (fun k => wt k * c k) n.

(** mean squared error of the linear predictor with weights a *)
Definition mse (n : nat) (K : nat -> nat -> R) (c : nat -> R) (c0 : R) (a : nat -> R) : R :=
  c0 - 2 * Rsum (fun k => a k * c k) n + Rsum (fun k => Rsum (fun j => a k * K k j * a j) n) n.

(** positive semidefinite on the first n coordinates *)
Definition psd (n : nat) (K : nat -> nat -> R) : Prop :=
  forall a : nat -> R, 0 <= Rsum (fun k => Rsum (fun j => a k * K k j * a j) n) n.

(** positive definite on the first n coordinates *)
Definition pd (n : nat) (K : nat -> nat -> R) : Prop :=
  forall a : nat -> R, (exists k, (k < n)%nat /\ a k <> 0) -> 0 < Rsum (fun k => Rsum (fun j => a k * K k j * a j) n) n.

(** The CAR(1) (Ornstein-Uhlenbeck) autocovariance sigma^2/(2 omega) exp(-omega |t - s|). *)
Definition ou_cov (sig w : R) (t s : R) : R := sig / (2 * w) * exp (- (w * Rabs (t - s))).

(** Covariance of measurements: process covariance plus independent measurement errors. *)
Definition obs_cov (C : R -> R -> R) (t e : nat -> R) (k j : nat) : R :=
  C (t k) (t j) + (if Nat.eqb k j then e k * e k else 0).

Definition strictly_increasing (l : list R) : Prop :=
  forall i j, (i < j)%nat -> (j < length l)%nat -> nth i l 0 < nth j l 0.

(** Conditional mean m and variance v of a process with autocovariance C at time tp, given measurements y at times t
    with independent errors of standard deviation e. *)
Definition cond_dist (C : R -> R -> R) (t y e : list R) (tp m v : R) : Prop :=
  is_blp (length t) (obs_cov C (fun i => nth i t 0) (fun i => nth i e 0))
    (fun j => C tp (nth j t 0)) (C tp tp) (fun i => nth i y 0) m v.
