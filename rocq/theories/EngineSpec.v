(** Specification vocabulary for runs of the MCMC engine. *)
From Coq Require Import List Arith ZArith Bool String.
From Verif Require Import Arith Res EngineModel.
Import ListNotations.

Set Implicit Arguments.

Section Spec.
Variable A : Arith.
Variable R : rng A.
Variable X : Type.
Local Notation vec := (list (F A)).
Variable P : methodsP R X vec.
Variable draw : F A -> gen R -> F A * gen R.
Local Notation param := (param A X vec).
Local Notation sys := (sys R X).

(** every step of the list performs its DoStep() once, in order *)
Inductive in_order : list (step A) -> list param -> gen R -> list (step A) -> list param -> gen R -> Prop :=
| io_nil ws g : in_order [] ws g [] ws g
| io_cons s ss ws g s' ws1 g1 ss' ws2 g2 :
    do_step P draw s ws g = Ok (s', ws1, g1) -> in_order ss ws1 g1 ss' ws2 g2 ->
    in_order (s :: ss) ws g (s' :: ss') ws2 g2.
(** [sweeps n y y']: from y, n sweeps over all steps lead to y' *)
Inductive sweeps : nat -> sys -> sys -> Prop :=
| sw_0 y : sweeps 0 y y
| sw_S n y y1 y2 :
    sweeps n y y1 -> in_order (y_steps y1) (y_pars y1) (y_gen y1) (y_steps y2) (y_pars y2) (y_gen y2) ->
    sweeps (S n) y y2.

(** A parameter whose starting value has just been set and saved: its value is what StartingValue() (or
    SetStartingValue(init)) returned, its log-posterior the LogDensity of that value. *)
Definition just_started (use : bool) (init : vec) (x0 : X) (g : gen R) (w : param) (g' : gen R) : Prop :=
  exists x1, (if use then o_SetStart P x0 init g else o_Start P x0 g) = Ok (w_value w, x1, g') /\
    o_LogDensity P x1 (w_value w) = Ok (w_logpost w, w_obj w).
(** The parameter of every step is started, in order (a parameter with several steps is started several times). *)
Inductive started (use : bool) (init : vec) : list (step A) -> list param -> gen R -> list param -> gen R -> Prop :=
| st_nil ws g : started use init [] ws g ws g
| st_cons s ss ws g w w' ws1 g1 ws2 g2 :
    nth_error ws (step_par s) = Some w -> just_started use init (w_obj w) g w' g1 ->
    w_temp w' = w_temp w -> w_track w' = w_track w -> w_label w' = w_label w ->
    w_samples w' = w_samples w -> w_logposts w' = w_logposts w ->
    ws1 = firstn (step_par s) ws ++ w' :: skipn (S (step_par s)) ws ->
    started use init ss ws1 g1 ws2 g2 -> started use init (s :: ss) ws g ws2 g2.

(** proposal scale matrices of the AdaptiveMetro steps *)
Fixpoint chols (ss : list (step A)) : list (mat A) :=
  match ss with
  | [] => []
  | SRam _ r :: rest => r_chol r :: chols rest
  | _ :: rest => chols rest
  end.
End Spec.
