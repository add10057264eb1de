(** Independent specification of the CARMA(p,q) autocovariance (Kelly et al. 2014, eq. 4; Brockwell 2001), and of
    admissible parameters.  Nothing here refers to the model of the code. *)
From Coq Require Import Reals List.
From Coquelicot Require Import Complex.
From Verif Require Import Spec.
Import ListNotations.
Local Open Scope R_scope.

Definition Cconj (z : C) : C := (fst z, - snd z).
Definition Cexp (z : C) : C := (exp (fst z) * cos (snd z), exp (fst z) * sin (snd z)).
Fixpoint Cpown (z : C) (n : nat) : C := match n with O => RtoC 1 | S k => Cmult z (Cpown z k) end.
Fixpoint Csum (f : nat -> C) (n : nat) : C := match n with O => RtoC 0 | S k => Cplus (Csum f k) (f k) end.
Fixpoint Cprod (f : nat -> C) (n : nat) : C := match n with O => RtoC 1 | S k => Cmult (Cprod f k) (f k) end.

(** the moving average polynomial ma_0 + ma_1 z + ... *)
Definition ma_poly (ma : list R) (z : C) : C :=
  Csum (fun l => Cmult (RtoC (nth l ma 0)) (Cpown z l)) (length ma).

(** Autocovariance at lag tau >= 0 of the process with autoregressive roots om and driving noise variance sig:
    sig * sum_k beta(r_k) beta(-r_k) exp(r_k tau) / [-2 Re(r_k) prod_{l<>k} (r_l - r_k)(conj r_l + r_k)]. *)
Definition carma_denom (om : list C) (k : nat) : C :=
  let r := fun i => nth i om (RtoC 0) in
  Cmult (RtoC (-2 * fst (r k)))
        (Cprod (fun l => if Nat.eqb l k then RtoC 1
                         else Cmult (Cminus (r l) (r k)) (Cplus (Cconj (r l)) (r k))) (length om)).
Definition carma_acv (sig : R) (ma : list R) (om : list C) (tau : R) : R :=
  let r := fun i => nth i om (RtoC 0) in
  sig * fst (Csum (fun k => Cdiv (Cmult (Cmult (ma_poly ma (r k)) (ma_poly ma (Copp (r k))))
                                        (Cexp (Cmult (r k) (RtoC tau))))
                                 (carma_denom om k)) (length om)).
Definition carma_cov (sig : R) (ma : list R) (om : list C) (t s : R) : R := carma_acv sig ma om (Rabs (t - s)).

(** Distinct roots in the open left half plane, closed under complex conjugation. *)
Definition stable_roots (om : list C) : Prop :=
  NoDup om /\ (forall z, In z om -> fst z < 0) /\ (forall z, In z om -> In (Cconj z) om).
