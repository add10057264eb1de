(** Model of the Python class KalmanFilterDeprecated, src/carmcmc/carma_pack.py L1264-1527.
    Arrays are float64 (with an integer [time] the arrays of np.empty_like(self.time) are integer: see PyIntModel).
    The complex matrix expressions that the class shares with KalmanFilterp (src/kfilter.cpp) are the functions of
    KFpModel; the order of the two operands of a product or sum is the one written there.
    Exceptions: IndexError, ValueError and ZeroDivisionError are [Throw Elogic], LinAlgError is [Throw Eruntime]. *)
From Coq Require Import List Arith ZArith Bool.
From Verif Require Import Arith Res KFModel Cx KFpModel.
Import ListNotations.

Set Implicit Arguments.

Section PyKF.
Variable A : Arith.
Local Notation F := (F A).
Local Notation cx := (cx A).
Local Notation "x ⊕ y" := (fadd A x y) (at level 50, left associativity).
Local Notation "x ⊖ y" := (fsub A x y) (at level 50, left associativity).
Local Notation "x ⊗ y" := (fmul A x y) (at level 40, left associativity).
Local Notation "x ⊘ y" := (fdiv A x y) (at level 40, left associativity).
Local Notation "# z" := (fofZ A z) (at level 5).
Local Notation vec := (list cx).
Local Notation mat := (list (list cx)).

(** The attributes, L1280-1287 and L1321-1338.  _StateTransition, _KalmanGain, const and slope are written before
    they are read by every method and are not kept. *)
Record dkf := mkD {
  d_time : list F; d_y : list F; d_yvar : list F; d_sig : F; d_roots : vec; d_ma : list F;
  d_state : vec; d_SV : mat; d_PV : mat; d_rma : vec; d_mean : list F; d_var : list F; d_innov : F; d_cur : nat }.

(** assignment to self.time, self.y and self.yvar, L1518-1525 *)
Definition d_set_data (d : dkf) (t y v : list F) : dkf :=
  mkD t y v (d_sig d) (d_roots d) (d_ma d) (d_state d) (d_SV d) (d_PV d) (d_rma d) (d_mean d) (d_var d) (d_innov d) (d_cur d).

(** __init__, L1265-1287.  The comparison inside the try block (L1275-1278) has no effect; np.zeros(p - q) raises
    ValueError when there are more moving average coefficients than roots.  The working attributes do not exist
    before reset() (here: empty, so that update() before reset() raises as well). *)
Definition d_new (time y yvar : list F) (sig : F) (roots : vec) (ma : list F) : res dkf :=
  if length roots <? length ma then Throw Elogic else
  Ok (mkD time y yvar sig roots (pad_ma A (length roots) ma) [] [] [] [] [] [] (#0) 0).

(** StateVar, L1311-1314: every entry by the formula (kfilter.cpp computes the upper triangle only) *)
Definition dStateVar (sig : F) (om J : vec) : mat := mbuild (length om) (length om) (state_upper sig om J).

(** scipy.linalg.solve, L1305; None: LinAlgError *)
Variable solve : mat -> vec -> option vec.
(** the contents of np.empty_like *)
Variable empty : nat -> F.

(** reset, L1289-1338.  EigenMat[1, :] raises IndexError for fewer than two roots (L1296). *)
Definition d_reset (d : dkf) : res dkf :=
  let om := d_roots d in let p := length om in
  if p <? 2 then Throw Elogic else
  match solve (EigenMat om) (Rvector A p) with
  | None => Throw Eruntime
  | Some J =>
    if negb (length (d_ma d) =? p) then Throw Elogic else
    let b := rotated om (d_ma d) in
    let SV := dStateVar (d_sig d) om J in
    let junk := map empty (seq 0 (length (d_time d))) in
    mean <- vset junk 0 (#0) ;;
    yv <- vget (d_yvar d) 0 ;;
    var <- vset junk 0 (quadf p b SV ⊕ yv) ;;
    y0 <- vget (d_y d) 0 ;;
    Ok (mkD (d_time d) (d_y d) (d_yvar d) (d_sig d) om (d_ma d) (czeros A p) SV SV b mean var y0 1)
  end.

(** update, L1340-1364 *)
Definition d_update (d : dkf) : res dkf :=
  let p := length (d_roots d) in
  let c := d_cur d in
  b <- idxm1 c ;;
  vb <- vget (d_var d) b ;;
  let g := gainf p (d_rma d) (d_PV d) vb in
  let st := axpy p (d_state d) g (d_innov d) in
  let PV := condV p (d_PV d) g vb in
  tc <- vget (d_time d) c ;;
  tb <- vget (d_time d) b ;;
  let r := rhof p (d_roots d) (tc ⊖ tb) in
  let st' := schur p r st in
  let PV' := propV p r PV (d_SV d) in
  let m := linf p (d_rma d) st' in
  mean <- vset (d_mean d) c m ;;
  yv <- vget (d_yvar d) c ;;
  var <- vset (d_var d) c (quadf p (d_rma d) PV' ⊕ yv) ;;
  yc <- vget (d_y d) c ;;
  Ok (mkD (d_time d) (d_y d) (d_yvar d) (d_sig d) (d_roots d) (d_ma d) st' (d_SV d) PV' (d_rma d) mean var (yc ⊖ m) (S c)).

(** filter, L1366-1375: the two returned arrays and the object *)
Definition d_filter (d : dkf) : res ((list F * list F) * dkf) :=
  d1 <- d_reset d ;;
  d2 <- for_ 0 (length (d_time d) - 1) (fun _ s => d_update s) d1 ;;
  Ok ((d_mean d2, d_var d2), d2).

(** np.max(np.where(l < t)), L1392 and L1516: the last index; None: ValueError (no such index) *)
Fixpoint last_lt (l : list F) (t : F) : option nat :=
  match l with
  | [] => None
  | x :: r => match last_lt r t with
              | Some k => Some (S k)
              | None => if flt A x t then Some 0 else None
              end
  end.

(** The interpolation steps: [d_coef_out] is L1432-1448 and, in the loop, L1465-1480; [d_coef_step] is one pass of the loop L1456-1483.  The state holds const_state, slope_state, const, slope, _PredictionVar, kalman_var and (cmean, cprecision). *)
Definition d_coef := (vec * vec * F * F * mat * list F * (F * F))%type.

(** the coefficients carried to measurement i, L1432-1448 and L1465-1480 *)
Definition d_coef_out (d : dkf) (i : nat) (r co sl : vec) (PV : mat) (var : list F) (a : F * F) : res d_coef :=
  let p := length (d_roots d) in
  let co' := schur p r co in
  let sl' := schur p r sl in
  let PV' := propV p r PV (d_SV d) in
  let const := linf p (d_rma d) co' in
  let slope := linf p (d_rma d) sl' in
  yv <- vget (d_yvar d) i ;;
  var' <- vset var i (quadf p (d_rma d) PV' ⊕ yv) ;;
  vi <- vget var' i ;;
  yi <- vget (d_y d) i ;;
  Ok (co', sl', const, slope, PV', var',
      (fst a ⊕ slope ⊗ (yi ⊖ const) ⊘ vi, snd a ⊕ slope ⊗ slope ⊘ vi)).

(** one pass of the loop L1456-1483 *)
Definition d_coef_step (d : dkf) (i : nat) (c : d_coef) : res d_coef :=
  let '(co, sl, const, slope, PV, var, a) := c in
  let p := length (d_roots d) in
  b <- idxm1 i ;;
  vb <- vget var b ;;
  let g := gainf p (d_rma d) PV vb in
  yb <- vget (d_y d) b ;;
  let co1 := axpy p co g (yb ⊖ const) in
  let sl1 := axmy p sl g slope in
  let PV1 := condV p PV g vb in
  ti <- vget (d_time d) i ;;
  tb <- vget (d_time d) b ;;
  d_coef_out d i (rhof p (d_roots d) (ti ⊖ tb)) co1 sl1 PV1 var a.

(** assignment to the working attributes (no lines of their own) *)
Definition d_set_work (d : dkf) (st : vec) (PV : mat) (var : list F) : dkf :=
  mkD (d_time d) (d_y d) (d_yvar d) (d_sig d) (d_roots d) (d_ma d) st (d_SV d) PV (d_rma d) (d_mean d) var (d_innov d) (d_cur d).

(** predict, L1377-1488.  The comparison in the try block (L1385-1388) has no effect; a time that is not after the
    first measurement raises ValueError at L1392.  [1.0 / ypredict_var] (L1412) is a division of Python floats and
    raises ZeroDivisionError for 0. *)
Definition d_predict (d : dkf) (t : F) : res ((F * F) * dkf) :=
  d1 <- d_reset d ;;
  match last_lt (d_time d1) t with
  | None => Throw Elogic
  | Some k =>
    let ip := S k in
    d2 <- for_ 0 (ip - 1) (fun _ s => d_update s) d1 ;;
    let p := length (d_roots d2) in
    let n := length (d_time d2) in
    vb <- vget (d_var d2) k ;;
    let g := gainf p (d_rma d2) (d_PV d2) vb in
    let st := axpy p (d_state d2) g (d_innov d2) in
    let PV := condV p (d_PV d2) g vb in
    tb <- vget (d_time d2) k ;;
    let r := rhof p (d_roots d2) (t ⊖ tb) in
    let st' := schur p r st in
    let PV' := propV p r PV (d_SV d2) in
    let m0 := linf p (d_rma d2) st' in
    let v0 := quadf p (d_rma d2) PV' in
    if feq A v0 (#0) then Throw Elogic else
    let prec := #1 ⊘ v0 in
    let mm := prec ⊗ m0 in
    if n <=? ip then Ok ((m0, v0), d_set_work d2 st' PV' (d_var d2)) else
    let g1 := gainf p (d_rma d2) PV' v0 in
    let co := axmy p st' g1 m0 in
    let PV1 := condV p PV' g1 v0 in
    ti <- vget (d_time d2) ip ;;
    c <- d_coef_out d2 ip (rhof p (d_roots d2) (ti ⊖ t)) co g1 PV1 (d_var d2) (mm, prec) ;;
    '(_, _, _, _, PV2, var, (mm', prec')) <- for_ (S ip) (n - S ip) (d_coef_step d2) c ;;
    let cvar := #1 ⊘ prec' in
    Ok ((mm' ⊗ cvar, cvar), d_set_work d2 st' PV2 var)
  end.

(** np.random.normal(loc, scale): loc + scale * (standard draw); numpy keeps the generator state *)
Variable G : Type.
Variable draw : G -> F * G.
Definition np_normal (loc scale : F) (g : G) : F * G := let (z, g') := draw g in (loc ⊕ scale ⊗ z, g').

(** simulate with a scalar, L1500-1503 *)
Definition d_simulate1 (d : dkf) (t : F) (g : G) : res (F * dkf * G) :=
  '(m, v, d1) <- d_predict d t ;;
  let (y, g') := np_normal m (fsqrt A v) g in Ok (y, d1, g').

(** one pass of the loop L1512-1520.  The object is returned also when the pass raises: its data attributes are then
    the ones before the pass (the working attributes, which no later call reads before reset(), are not followed). *)
Definition d_sim_step (d : dkf) (t : F) (g : G) : dkf * res (F * G) :=
  match d_predict d t with
  | Ok (m, v, d1) =>
    let (y, g') := np_normal m (fsqrt A v) g in
    match last_lt (d_time d1) t with
    | None => (d1, Throw Elogic)
    | Some k =>
      match vinsert (d_time d1) (S k) t with
      | Ok t' =>
        match vinsert (d_y d1) (S k) y with
        | Ok y' =>
          match vinsert (d_yvar d1) (S k) (#0) with
          | Ok v' => (d_set_data d1 t' y' v', Ok (y, g'))
          | _ => (d_set_data d1 t' y' (d_yvar d1), Throw Elogic)
          end
        | _ => (d_set_data d1 t' (d_y d1) (d_yvar d1), Throw Elogic)
        end
      | _ => (d1, Throw Elogic)
      end
    end
  | Throw e => (d, Throw e)
  | UB => (d, UB)
  | Diverge => (d, Diverge)
  end.

(** the loop L1512-1520 over the sorted times *)
Fixpoint d_sim_loop (ts : list F) (d : dkf) (g : G) : dkf * res (list F * G) :=
  match ts with
  | [] => (d, Ok ([], g))
  | t :: r =>
    match d_sim_step d t g with
    | (d1, Ok (y, g1)) =>
      match d_sim_loop r d1 g1 with
      | (d2, Ok (ys, g2)) => (d2, Ok (y :: ys, g2))
      | (d2, Throw e) => (d2, Throw e)
      | (d2, UB) => (d2, UB)
      | (d2, Diverge) => (d2, Diverge)
      end
    | (d1, Throw e) => (d1, Throw e)
    | (d1, UB) => (d1, UB)
    | (d1, Diverge) => (d1, Diverge)
    end
  end.

(** simulate with an array, L1504-1527.  [np_sort] is ndarray.sort(), which works in place: the second component is
    the caller's array after the call, and holds also when the call raises.  The data attributes are put back only
    when the loop completes. *)
Variable np_sort : list F -> list F.
Definition d_simulate (d : dkf) (ts : list F) (g : G) : dkf * list F * res (list F * G) :=
  let sorted := np_sort ts in
  match d_sim_loop sorted d g with
  | (d1, Ok (ys, g')) => (d_set_data d1 (d_time d) (d_y d) (d_yvar d), sorted, Ok (ys, g'))
  | (d1, e) => (d1, sorted, e)
  end.
End PyKF.
