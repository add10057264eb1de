(** Independent specification of the CARMA parameterisation: polynomials, their roots, and the prior.  Nothing here
    refers to the model of the code. *)
From Coq Require Import Reals List Permutation.
From Coquelicot Require Import Complex.
From Verif Require Import Spec SpecCarma.
Import ListNotations.
Local Open Scope R_scope.

(** prod_i (s - r_i) *)
Fixpoint roots_poly (l : list C) (s : C) : C :=
  match l with [] => RtoC 1 | r :: l' => Cmult (Cminus s r) (roots_poly l' s) end.

(** prod_{i < n/2} (s^2 + exp(th[off+2i+1]) s + exp(th[off+2i])), times (s + exp(th[off+n-1])) for odd n *)
Definition expc (th : list R) (j : nat) : C := RtoC (exp (nth j th 0)).
Definition quad_poly (th : list R) (off n : nat) (s : C) : C :=
  Cmult (Cprod (fun i => Cplus (Cplus (Cmult s s) (Cmult (expc th (off + 2 * i + 1)) s)) (expc th (off + 2 * i))) (n / 2))
        (if Nat.odd n then Cplus s (expc th (off + n - 1)) else RtoC 1).

(** closed under complex conjugation, with multiplicity *)
Definition conj_closed (l : list C) : Prop := Permutation (map Cconj l) l.

(** sum_{k <= n} c_k x^(n-k) *)
Definition desc_poly (c : list C) (x : C) : C :=
  Csum (fun k => Cmult (nth k c (RtoC 0)) (Cpown x (length c - 1 - k))) (length c).

(** |r - s| > tol |r + s| *)
Definition frac_apart (tol : R) (r s : C) : Prop := tol * Cmod (Cplus r s) < Cmod (Cminus r s).

(** The prior region of the CARMA models, in terms of the autoregressive roots. *)
Record in_prior (smax fmin fmax : R) (th : list R) (roots : list C) : Prop := {
  pr_centroid : forall r, In r roots -> Rabs (snd r) / (2 * PI) < fmax;
  pr_width : forall r, In r roots -> fmin < - fst r / (2 * PI) < fmax;
  pr_stdev : 0 <= nth 0 th 0 <= smax;
  pr_scale : 1 / 2 <= nth 1 th 0 <= 2;
  pr_order : forall i, (S i < length roots)%nat ->
    Rabs (snd (nth (S i) roots (RtoC 0))) / (2 * PI) <= Rabs (snd (nth i roots (RtoC 0))) / (2 * PI) + 1 / 100000000;
  pr_apart : forall i j, (i < j)%nat -> (j < length roots)%nat ->
    frac_apart (1 / 10000) (nth i roots (RtoC 0)) (nth j roots (RtoC 0)) }.
(** The prior region of CAR(1). *)
Definition in_prior1 (smax fmin fmax : R) (th : list R) : Prop :=
  fmin <= exp (nth 3 th 0) <= fmax /\ 0 <= nth 0 th 0 <= smax /\ 1 / 2 <= nth 1 th 0 <= 2.

(** log density, up to a constant, of a scaled inverse chi-square with 50 degrees of freedom and scale 1 *)
Definition log_sichi (s : R) : R := - (50 / (2 * s)) - (1 + 50 / 2) * ln s.

(** Gaussian log-likelihood of n numbers y_i with means m_i and variances v_i, up to the constant -(n/2) log(2 pi) *)
Definition gauss_ll (n : nat) (y m v : nat -> R) : R :=
  Rsum (fun i => - (1 / 2) * ln (v i) - 1 / 2 * (y i - m i) ^ 2 / v i) n.

(** x is the Gaussian log-likelihood, up to the constant -(n/2) log(2 pi), of the measurements y of a process with mean mu and
    autocovariance K at the times t with error standard deviations sqrt(scale) e, factored over one-step predictions *)
Definition is_loglik (K : R -> R -> R) (t y e : list R) (scale mu x : R) : Prop :=
  exists m v : nat -> R,
    (forall i, (i < length t)%nat ->
      cond_dist K (firstn i t) (firstn i (map (fun x => x - mu) y)) (firstn i (map (fun x => sqrt scale * x) e)) (nth i t 0) (m i)
        (v i - scale * (nth i e 0 * nth i e 0)) /\ 0 < v i) /\
    x = gauss_ll (length t) (fun i => nth i y 0 - mu) m v.

(** sample variance *)
Definition smean (y : list R) : R := Rsum (fun i => nth i y 0) (length y) / INR (length y).
Definition svar (y : list R) : R := Rsum (fun i => (nth i y 0 - smean y) ^ 2) (length y) / (INR (length y) - 1).
(** the prior bounds of the documentation: at most ten sample standard deviations, frequencies between the inverse of the
    time span and the inverse of the smallest gap *)
Record data_bounds (t y : list R) (smax fmin fmax : R) : Prop := {
  db_sd : smax = 10 * sqrt (svar y);
  db_pos : 0 < fmax;
  db_gap : forall i, (S i < length t)%nat -> 1 / fmax <= nth (S i) t 0 - nth i t 0;
  db_gap_met : exists i, (S i < length t)%nat /\ 1 / fmax = nth (S i) t 0 - nth i t 0;
  db_span : fmin = 1 / (nth (length t - 1) t 0 - nth 0 t 0) }.
