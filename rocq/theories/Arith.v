(** Numbers.  The model is written once over a record [Arith]; theorems are
    either for every [Arith] or for the instance [AX] (extended reals). *)
From Coq Require Import Reals ZArith Bool Lra.

Set Implicit Arguments.

(** The double operations used by the C++ code (cmath, operators, arma::is_finite,
    arma::datum::inf / pi).  Not code of /repo: an interface to the C++ arithmetic. *)
Record Arith := {
  F     : Type;
  fofZ  : Z -> F;                 (* integer literals and int -> double conversions *)
  fdec  : Z -> positive -> F;     (* decimal literals, written as a fraction *)
  fadd  : F -> F -> F;
  fsub  : F -> F -> F;
  fmul  : F -> F -> F;
  fdiv  : F -> F -> F;
  fneg  : F -> F;
  fabs  : F -> F;
  fsqrt : F -> F;
  fexp  : F -> F;
  flog  : F -> F;
  fsin  : F -> F;
  fcos  : F -> F;
  fpow  : F -> F -> F;
  fpi   : F;
  finf  : F;                      (* +infinity *)
  flt   : F -> F -> bool;         (* IEEE "<": false when an argument is NaN *)
  feq   : F -> F -> bool;         (* IEEE "==" *)
  ffin  : F -> bool               (* arma::is_finite / std::isfinite *)
}.

(** IEEE "<=" is "<" or "==". *)
Definition fle (A : Arith) (x y : F A) : bool := flt A x y || feq A x y.
(** std::min(a,b) returns b only if b < a; std::max(a,b) returns b only if a < b. *)
Definition fmin (A : Arith) (x y : F A) : F A := if flt A y x then y else x.
Definition fmax (A : Arith) (x y : F A) : F A := if flt A x y then y else x.

(** Extended reals: exact arithmetic on finite values, IEEE rules for the special values.
    Simplified against IEEE doubles: no rounding, overflow or underflow, one unsigned zero
    (so x/0 is +inf for x > 0 and -inf for x < 0). *)
Inductive xr := Fin (r : R) | PInf | NInf | NaN.

Local Open Scope R_scope.

Definition xneg (x : xr) : xr :=
  match x with Fin a => Fin (- a) | PInf => NInf | NInf => PInf | NaN => NaN end.

Definition xadd (x y : xr) : xr :=
  match x, y with
  | Fin a, Fin b => Fin (a + b)
  | NaN, _ | _, NaN => NaN
  | PInf, NInf | NInf, PInf => NaN
  | PInf, _ | _, PInf => PInf
  | NInf, _ | _, NInf => NInf
  end.

Definition xsub (x y : xr) : xr :=
  match x, y with
  | Fin a, Fin b => Fin (a - b)
  | _, _ => xadd x (xneg y)
  end.

(** sign of a real as a comparison *)
Definition rsgn (a : R) : comparison :=
  if Rlt_dec a 0 then Lt else if Rlt_dec 0 a then Gt else Eq.

Definition xinf_times (pos : bool) (c : comparison) : xr :=
  match c with Eq => NaN | Gt => if pos then PInf else NInf | Lt => if pos then NInf else PInf end.

Definition xmul (x y : xr) : xr :=
  match x, y with
  | Fin a, Fin b => Fin (a * b)
  | NaN, _ | _, NaN => NaN
  | Fin a, PInf | PInf, Fin a => xinf_times true (rsgn a)
  | Fin a, NInf | NInf, Fin a => xinf_times false (rsgn a)
  | PInf, PInf | NInf, NInf => PInf
  | PInf, NInf | NInf, PInf => NInf
  end.

Definition xdiv (x y : xr) : xr :=
  match x, y with
  | Fin a, Fin b => if Req_EM_T b 0 then xinf_times true (rsgn a) else Fin (a / b)
  | NaN, _ | _, NaN => NaN
  | Fin _, _ => Fin 0
  | PInf, Fin b => match rsgn b with Lt => NInf | _ => PInf end
  | NInf, Fin b => match rsgn b with Lt => PInf | _ => NInf end
  | _, _ => NaN
  end.

Definition xabs (x : xr) : xr :=
  match x with Fin a => Fin (Rabs a) | PInf | NInf => PInf | NaN => NaN end.

Definition xsqrt (x : xr) : xr :=
  match x with
  | Fin a => if Rlt_dec a 0 then NaN else Fin (sqrt a)
  | PInf => PInf | _ => NaN end.

Definition xexp (x : xr) : xr :=
  match x with Fin a => Fin (exp a) | PInf => PInf | NInf => Fin 0 | NaN => NaN end.

Definition xlog (x : xr) : xr :=
  match x with
  | Fin a => match rsgn a with Gt => Fin (ln a) | Eq => NInf | Lt => NaN end
  | PInf => PInf | _ => NaN end.

Definition xsin (x : xr) : xr := match x with Fin a => Fin (sin a) | _ => NaN end.
Definition xcos (x : xr) : xr := match x with Fin a => Fin (cos a) | _ => NaN end.

(** pow: exact for positive bases and for integer exponents; C99 special values for the zero base. *)
Definition xpow (x y : xr) : xr :=
  match x, y with
  | Fin a, Fin b =>
      match rsgn a with
      | Gt => Fin (Rpower a b)
      | Eq => match rsgn b with Gt => Fin 0 | Eq => Fin 1 | Lt => PInf end
      | Lt => if Req_EM_T b (IZR (Int_part b)) then Fin (powerRZ a (Int_part b)) else NaN
      end
  | _, Fin b =>
      match rsgn b with
      | Eq => Fin 1
      | Gt => match x with NaN => NaN | _ => PInf end
      | Lt => match x with NaN => NaN | _ => Fin 0 end
      end
  | Fin a, PInf => if Rlt_dec (Rabs a) 1 then Fin 0 else if Rlt_dec 1 (Rabs a) then PInf else Fin 1
  | Fin a, NInf => if Rlt_dec (Rabs a) 1 then PInf else if Rlt_dec 1 (Rabs a) then Fin 0 else Fin 1
  | _, _ => NaN
  end.

Definition xlt (x y : xr) : bool :=
  match x, y with
  | Fin a, Fin b => if Rlt_dec a b then true else false
  | NaN, _ | _, NaN => false
  | NInf, NInf => false
  | NInf, _ => true
  | _, PInf => match x with PInf => false | _ => true end
  | _, _ => false
  end.

Definition xeq (x y : xr) : bool :=
  match x, y with
  | Fin a, Fin b => if Req_EM_T a b then true else false
  | PInf, PInf | NInf, NInf => true
  | _, _ => false
  end.

Definition xfin (x : xr) : bool := match x with Fin _ => true | _ => false end.

Definition AX : Arith := {|
  F := xr;
  fofZ := fun z => Fin (IZR z);
  fdec := fun n d => Fin (IZR n / IZR (Zpos d));
  fadd := xadd; fsub := xsub; fmul := xmul; fdiv := xdiv;
  fneg := xneg; fabs := xabs; fsqrt := xsqrt; fexp := xexp; flog := xlog;
  fsin := xsin; fcos := xcos; fpow := xpow;
  fpi := Fin PI; finf := PInf;
  flt := xlt; feq := xeq; ffin := xfin
|}.
