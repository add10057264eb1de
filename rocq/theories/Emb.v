(** The real instance of the arithmetic (a proof device) and its embedding into the extended reals. *)
From Coq Require Import Reals ZArith List Lra Lia.
From Verif Require Import Arith.
Import ListNotations.
Local Open Scope R_scope.

(** Exact reals.  [finf] is a dummy: no lemma about AR uses it. *)
Definition AR : Arith := {|
  F := R;
  fofZ := IZR;
  fdec := fun n d => IZR n / IZR (Zpos d);
  fadd := Rplus; fsub := Rminus; fmul := Rmult; fdiv := Rdiv;
  fneg := Ropp; fabs := Rabs; fsqrt := sqrt; fexp := exp; flog := ln;
  fsin := sin; fcos := cos; fpow := Rpower;
  fpi := PI; finf := 0;
  flt := fun a b => if Rlt_dec a b then true else false;
  feq := fun a b => if Req_EM_T a b then true else false;
  ffin := fun _ => true
|}.

Lemma fin_div a b : b <> 0 -> xdiv (Fin a) (Fin b) = Fin (a / b).
Proof. intros H. simpl. destruct (Req_EM_T b 0); [contradiction|reflexivity]. Qed.

Lemma fin_sqrt a : 0 <= a -> xsqrt (Fin a) = Fin (sqrt a).
Proof. intros H. simpl. destruct (Rlt_dec a 0); [lra|reflexivity]. Qed.

Lemma fin_log a : 0 < a -> xlog (Fin a) = Fin (ln a).
Proof. intros H. simpl. unfold rsgn. destruct (Rlt_dec a 0); [lra|]. destruct (Rlt_dec 0 a); [reflexivity|lra]. Qed.

Lemma nth_map_Fin i l : nth i (map Fin l) (Fin 0) = Fin (nth i l 0).
Proof. change (Fin 0) with (Fin (0:R)). apply map_nth. Qed.

Lemma Fin_inj a b : Fin a = Fin b -> a = b.
Proof. intros H. injection H. trivial. Qed.

Lemma map_Fin_inj l l' : map Fin l = map Fin l' -> l = l'.
Proof.
  revert l'; induction l as [|a l IH]; intros [|b l'] H; try discriminate; [reflexivity|].
  simpl in H. injection H as H1 H2. subst. f_equal. apply IH, H2.
Qed.
