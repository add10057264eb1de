(** carma_process and KalmanFilterDeprecated with an integer array of times, src/carmcmc/carma_pack.py.
    np.empty_like(time) (L1232, L1329, L1330) is then an integer array, and NumPy converts every number assigned to one of its
    elements; [store] is that conversion (it raises for a number that is not finite).  Everything else is as in PyModel and PyKFModel: differences of the times, and
    arithmetic between an element of the integer array and a float, give floats (differences of 64-bit integers are taken to be exact). *)
From Coq Require Import List Arith ZArith Bool.
From Verif Require Import Arith Res KFModel Cx KFpModel PyModel PyKFModel.
Import ListNotations.

Set Implicit Arguments.

Section PyInt.
Variable A : Arith.
Local Notation F := (F A).
Local Notation cx := (cx A).
Local Notation vec := (list F).
Local Notation "x ⊕ y" := (fadd A x y) (at level 50, left associativity).
Local Notation "x ⊖ y" := (fsub A x y) (at level 50, left associativity).
Local Notation "x ⊗ y" := (fmul A x y) (at level 40, left associativity).
Local Notation "x ⊘ y" := (fdiv A x y) (at level 40, left associativity).
Local Notation "# z" := (fofZ A z) (at level 5).
Variable store : F -> res F.

(** [z i]: the i-th standard normal number drawn, as in PyModel *)
Variable z : nat -> F.
(** the loop of carma_process, L1238-1257, with y[i] an element of an integer array (L1255) that the next line reads *)
Fixpoint carma_loop_i (p : nat) (om b : list cx) (SV : list (list cx)) (i : nat) (tp : F) (st : list cx) (PV : list (list cx))
    (kv innov : F) (ts : vec) : res vec :=
  match ts with
  | [] => Ok []
  | t :: r =>
    let g := gainf p b PV kv in
    let st1 := axpy p st g innov in
    let PV1 := condV p PV g kv in
    let rho := rhof p om (t ⊖ tp) in
    let st2 := schur p rho st1 in
    let PV2 := propV p rho PV1 SV in
    let m := linf p b st2 in
    let v := quadf p b PV2 in
    y <- store (m ⊕ fsqrt A v ⊗ z i) ;;
    ys <- carma_loop_i p om b SV (S i) t st2 PV2 v (y ⊖ m) r ;;
    Ok (y :: ys)
  end.
(** carma_process, L1148-1259, for an integer array [time].  For p = 1 the work is done by car1_process, whose array
    np.zeros(len(time)) (L1137) holds floats. *)
Definition carma_process_i (vsort : vec -> option vec) (solve : list (list cx) -> list cx -> option (list cx))
    (time : vec) (sigsqr : F) (roots : list cx) (ma0 : vec) : res (vec * vec) :=
  let p := length roots in
  if p =? 1 then y <- car1_process A z time sigsqr (fneg A (#1) ⊘ fst (vnth roots 0)) ;; Ok (y, time) else
  if p =? 0 then Throw Elogic else
  let ma := py_pad A p ma0 in
  match vsort time with
  | None => Throw Elogic
  | Some ts =>
    match solve (EigenMat roots) (Rvector A p) with
    | None => Throw Elogic
    | Some J =>
      if negb (length ma =? p) then Throw Elogic else
      let b := rotated roots ma in
      let SV := mbuild p p (state_upper sigsqr roots J) in
      let kv := quadf p b SV in
      match ts with
      | [] => Throw Elogic
      | t0 :: r =>
        y0 <- store (#0 ⊕ fsqrt A kv ⊗ z 0) ;;
        ys <- carma_loop_i p roots b SV 1 t0 (czeros A p) SV kv y0 r ;;
        Ok (y0 :: ys, ts)
      end
    end
  end.

(** KalmanFilterDeprecated; the object is the one of PyKFModel *)
Variable solve : list (list cx) -> list cx -> option (list cx).
(** the contents of np.empty_like *)
Variable empty : nat -> F.

(** reset, L1289-1338: kalman_mean[0] = 0.0 and kalman_var[0] (L1331-1333) are assignments to integer arrays *)
Definition i_reset (d : dkf A) : res (dkf A) :=
  let om := d_roots d in let p := length om in
  if p <? 2 then Throw Elogic else
  match solve (EigenMat om) (Rvector A p) with
  | None => Throw Eruntime
  | Some J =>
    if negb (length (d_ma d) =? p) then Throw Elogic else
    let b := rotated om (d_ma d) in
    let SV := dStateVar (d_sig d) om J in
    let junk := map empty (seq 0 (length (d_time d))) in
    m0 <- store (#0) ;;
    mean <- vset junk 0 m0 ;;
    yv <- vget (d_yvar d) 0 ;;
    v0 <- store (quadf p b SV ⊕ yv) ;;
    var <- vset junk 0 v0 ;;
    y0 <- vget (d_y d) 0 ;;
    Ok (mkD (d_time d) (d_y d) (d_yvar d) (d_sig d) om (d_ma d) (czeros A p) SV SV b mean var y0 1)
  end.

(** update, L1340-1364: kalman_var is assigned (L1359) and then increased by the variance of the measurement (L1361), two conversions;
    the innovation (L1363) reads kalman_mean back *)
Definition i_update (d : dkf A) : res (dkf A) :=
  let p := length (d_roots d) in
  let c := d_cur d in
  b <- idxm1 c ;;
  vb <- vget (d_var d) b ;;
  let g := gainf p (d_rma d) (d_PV d) vb in
  let st := axpy p (d_state d) g (d_innov d) in
  let PV := condV p (d_PV d) g vb in
  tc <- vget (d_time d) c ;;
  tb <- vget (d_time d) b ;;
  let r := rhof p (d_roots d) (tc ⊖ tb) in
  let st' := schur p r st in
  let PV' := propV p r PV (d_SV d) in
  m <- store (linf p (d_rma d) st') ;;
  mean <- vset (d_mean d) c m ;;
  q <- store (quadf p (d_rma d) PV') ;;
  var1 <- vset (d_var d) c q ;;
  v1 <- vget var1 c ;;
  yv <- vget (d_yvar d) c ;;
  v2 <- store (v1 ⊕ yv) ;;
  var <- vset var1 c v2 ;;
  yc <- vget (d_y d) c ;;
  mc <- vget mean c ;;
  Ok (mkD (d_time d) (d_y d) (d_yvar d) (d_sig d) (d_roots d) (d_ma d) st' (d_SV d) PV' (d_rma d) mean var (yc ⊖ mc) (S c)).

(** filter, L1366-1375 *)
Definition i_filter (d : dkf A) : res ((vec * vec) * dkf A) :=
  d1 <- i_reset d ;;
  d2 <- for_ 0 (length (d_time d) - 1) (fun _ s => i_update s) d1 ;;
  Ok ((d_mean d2, d_var d2), d2).
(** predict, L1377-1488: [d_coef_out], [d_coef_step] and [d_predict] of PyKFModel, with the assignments to kalman_var (L1443-1445 and
    L1474-1476) to an element of an integer array, which is read back *)
Definition i_coef_out (d : dkf A) (i : nat) (r co sl : list cx) (PV : list (list cx)) (var : list F) (a : F * F) : res (d_coef A) :=
  let p := length (d_roots d) in
  let co' := schur p r co in
  let sl' := schur p r sl in
  let PV' := propV p r PV (d_SV d) in
  let const := linf p (d_rma d) co' in
  let slope := linf p (d_rma d) sl' in
  yv <- vget (d_yvar d) i ;;
  q <- store (quadf p (d_rma d) PV' ⊕ yv) ;;
  var' <- vset var i q ;;
  vi <- vget var' i ;;
  yi <- vget (d_y d) i ;;
  Ok (co', sl', const, slope, PV', var',
      (fst a ⊕ slope ⊗ (yi ⊖ const) ⊘ vi, snd a ⊕ slope ⊗ slope ⊘ vi)).

(** one pass of the loop L1456-1483 *)
Definition i_coef_step (d : dkf A) (i : nat) (c : d_coef A) : res (d_coef A) :=
  let '(co, sl, const, slope, PV, var, a) := c in
  let p := length (d_roots d) in
  b <- idxm1 i ;;
  vb <- vget var b ;;
  let g := gainf p (d_rma d) PV vb in
  yb <- vget (d_y d) b ;;
  let co1 := axpy p co g (yb ⊖ const) in
  let sl1 := axmy p sl g slope in
  let PV1 := condV p PV g vb in
  ti <- vget (d_time d) i ;;
  tb <- vget (d_time d) b ;;
  i_coef_out d i (rhof p (d_roots d) (ti ⊖ tb)) co1 sl1 PV1 var a.

(** predict itself, L1377-1488; the time asked for may be any number *)
Definition i_predict (d : dkf A) (t : F) : res ((F * F) * dkf A) :=
  d1 <- i_reset d ;;
  match last_lt A (d_time d1) t with
  | None => Throw Elogic
  | Some k =>
    let ip := S k in
    d2 <- for_ 0 (ip - 1) (fun _ s => i_update s) d1 ;;
    let p := length (d_roots d2) in
    let n := length (d_time d2) in
    vb <- vget (d_var d2) k ;;
    let g := gainf p (d_rma d2) (d_PV d2) vb in
    let st := axpy p (d_state d2) g (d_innov d2) in
    let PV := condV p (d_PV d2) g vb in
    tb <- vget (d_time d2) k ;;
    let r := rhof p (d_roots d2) (t ⊖ tb) in
    let st' := schur p r st in
    let PV' := propV p r PV (d_SV d2) in
    let m0 := linf p (d_rma d2) st' in
    let v0 := quadf p (d_rma d2) PV' in
    if feq A v0 (#0) then Throw Elogic else
    let prec := #1 ⊘ v0 in
    let mm := prec ⊗ m0 in
    if n <=? ip then Ok ((m0, v0), d_set_work d2 st' PV' (d_var d2)) else
    let g1 := gainf p (d_rma d2) PV' v0 in
    let co := axmy p st' g1 m0 in
    let PV1 := condV p PV' g1 v0 in
    ti <- vget (d_time d2) ip ;;
    c <- i_coef_out d2 ip (rhof p (d_roots d2) (ti ⊖ t)) co g1 PV1 (d_var d2) (mm, prec) ;;
    '(_, _, _, _, PV2, var, (mm', prec')) <- for_ (S ip) (n - S ip) (i_coef_step d2) c ;;
    let cvar := #1 ⊘ prec' in
    Ok ((mm' ⊗ cvar, cvar), d_set_work d2 st' PV2 var)
  end.
End PyInt.
