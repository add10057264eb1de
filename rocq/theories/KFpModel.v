(** Model of KalmanFilterp: src/include/kfilter.hpp L266-389 and src/kfilter.cpp L138-337. *)
From Coq Require Import List Arith ZArith Bool.
From Verif Require Import Arith Res KFModel Cx.
Import ListNotations.

Set Implicit Arguments.

Section KFp.
Variable A : Arith.
Local Notation F := (F A).
Local Notation cx := (cx A).
Local Notation "x ⊕ y" := (fadd A x y) (at level 50, left associativity).
Local Notation "x ⊖ y" := (fsub A x y) (at level 50, left associativity).
Local Notation "x ⊗ y" := (fmul A x y) (at level 40, left associativity).
Local Notation "x ⊘ y" := (fdiv A x y) (at level 40, left associativity).
Local Notation "# z" := (fofZ A z) (at level 5).
Local Notation vec := (list cx).
Local Notation mat := (list (list cx)).

(** The members KalmanFilterp adds, kfilter.hpp L370-388, and omega_ (L198).  p_ is always omega_.n_elem
    (L277, L311, L348) and is not stored separately. *)
Record kpx := mkX {
  x_omega : vec; x_ma : list F;
  x_state : vec; x_SV : mat; x_rma : vec; x_PV : mat; x_gain : vec; x_rho : vec; x_innov : F;
  x_const : vec; x_slope : vec }.
Definition kfp := kf A kpx.

(** arma::cx_vec::zeros, kfilter.hpp L283-290 and L324-331 *)
Definition czeros (n : nat) : vec := repeat (c0 A) n.
(** arma::cx_mat::zeros, kfilter.hpp L284-285 *)
Definition mzeros (n : nat) : mat := repeat (czeros n) n.

(** KalmanFilterp::SetOmega, kfilter.hpp L345-357 *)
Definition SetOmegap (s : kfp) (om : vec) : kfp :=
  let p := length om in
  set_ext s (mkX om (x_ma (k_ext s)) (czeros p) (mzeros p) (czeros p) (mzeros p) (czeros p) (czeros p)
                 (x_innov (k_ext s)) (czeros p) (czeros p)).
(** KalmanFilterp::SetMA, kfilter.hpp L337-339 *)
Definition SetMAp (s : kfp) (ma : list F) : kfp :=
  let x := k_ext s in
  set_ext s (mkX (x_omega x) ma (x_state x) (x_SV x) (x_rma x) (x_PV x) (x_gain x) (x_rho x) (x_innov x) (x_const x) (x_slope x)).

(** ma_coefs.resize(p_) when there are fewer than p_, kfilter.hpp L278-280 and L312-314 *)
Definition pad_ma (p : nat) (ma : list F) : list F := ma ++ repeat (#0) (p - length ma).

(** The six-argument constructors, kfilter.hpp L271-291 and L303-334 (they differ in whether init() runs before or
    after the parameters are set, which init() does not look at).  The constructor taking arma vectors also resizes
    the caller's ma_coefs; that is not modelled. *)
Definition kfp_new (sort_index : list F -> option (list nat)) (raw : kfp) (t y e : list F) (sig : F) (om : vec) (ma : list F)
  : res kfp :=
  kf_new sort_index (SetMAp (SetOmegap (SetSigsqr raw sig) om) (pad_ma (length om) ma)) t y e.

(** ** The pieces shared by Reset, Update, Predict, InitializeCoefs and UpdateCoefs *)

(** EigenMat, kfilter.cpp L145-150 *)
Definition EigenMat (om : vec) : mat := mbuild (length om) (length om) (fun i j => cpown (vnth om j) i).
(** Rvector, L153-154 *)
Definition Rvector (p : nat) : vec := vbuild p (fun i => if i =? p - 1 then c1 A else c0 A).
(** rotated_ma_coefs_ = ma_coefs_ * EigenMat, L163 *)
Definition rotated (om : vec) (ma : list F) : vec :=
  vbuild (length om) (fun j => csum (fun i => cscale (nth i ma (#0)) (cpown (vnth om j) i)) (length om)).
(** StateVar_, L166-173; the upper triangle is computed, arma::symmatu fills the lower one with conjugates *)
Definition state_upper (sig : F) (om J : vec) (i j : nat) : cx :=
  cdiv (cmul (cscale (fneg A sig) (vnth J i)) (conj (vnth J j))) (cadd (vnth om i) (conj (vnth om j))).
(** StateVar_, kfilter.cpp L165-172, with the lower triangle filled by symmatu (L172) *)
Definition StateVar (sig : F) (om J : vec) : mat :=
  mbuild (length om) (length om)
    (fun i j => if i <=? j then state_upper sig om J i j else conj (state_upper sig om J j i)).
(** real(as_scalar(rotated_ma_coefs_ * V * rotated_ma_coefs_.t())), L183 etc. *)
Definition quadf (p : nat) (b : vec) (V : mat) : F :=
  fst (csum (fun j => cmul (csum (fun i => cmul (vnth b i) (mnth V i j)) p) (conj (vnth b j))) p).
(** real(as_scalar(rotated_ma_coefs_ * v)), L207 etc. *)
Definition linf (p : nat) (b v : vec) : F := fst (csum (fun i => cmul (vnth b i) (vnth v i)) p).
(** PredictionVar_ * rotated_ma_coefs_.t() / v, L191, L243, L292, L318 *)
Definition gainf (p : nat) (b : vec) (V : mat) (v : F) : vec :=
  vbuild p (fun i => cdivr (csum (fun j => cmul (mnth V i j) (conj (vnth b j))) p) v).
(** PredictionVar_ -= v * (kalman_gain_ * kalman_gain_.t()), L197, L245, L297, L323 *)
Definition condV (p : nat) (V : mat) (g : vec) (v : F) : mat :=
  mbuild p p (fun i j => csub (mnth V i j) (cscale v (cmul (vnth g i) (conj (vnth g j))))).
(** rho_ = arma::exp(omega_ * dt), L200, L247, L300, L325 *)
Definition rhof (p : nat) (om : vec) (dt : F) : vec := vbuild p (fun i => cexp (cscale dt (vnth om i))).
(** rho_ % v *)
Definition schur (p : nat) (r v : vec) : vec := vbuild p (fun i => cmul (vnth r i) (vnth v i)).
(** PredictionVar_ = (rho_ * rho_.t()) % (PredictionVar_ - StateVar_) + StateVar_, L204, L249, L304, L329 *)
Definition propV (p : nat) (r : vec) (V SV : mat) : mat :=
  mbuild p p (fun i j => cadd (cmul (cmul (vnth r i) (conj (vnth r j))) (csub (mnth V i j) (mnth SV i j))) (mnth SV i j)).
(** v + g * x for a double x, L194 etc. *)
Definition axpy (p : nat) (v g : vec) (x : F) : vec := vbuild p (fun i => cadd (vnth v i) (cscale x (vnth g i))).
(** v - g * x, L294, L321 *)
Definition axmy (p : nat) (v g : vec) (x : F) : vec := vbuild p (fun i => csub (vnth v i) (cscale x (vnth g i))).

(** All work arrays have size p_.  Every one of the products and sums above is size-checked by Armadillo and throws
    a logic_error otherwise; the model checks the sizes that are not established by Reset itself. See kfilter.cpp L186-215. *)
Definition dims_ok (x : kpx) : bool :=
  (length (x_state x) =? length (x_omega x)) && is_mat (length (x_omega x)) (length (x_omega x)) (x_SV x).

(** arma::solve; None: singular, a runtime_error *)
Variable solve : mat -> vec -> option vec.

(** KalmanFilterp::Reset, kfilter.cpp L138-186.  EigenMat.row(1) is out of range for p_ < 2 (L147, and L146 for
    p_ = 0), and ma_coefs_ * EigenMat needs p_ coefficients (L163). *)
Definition Resetp (s : kfp) : res kfp :=
  let x := k_ext s in
  let om := x_omega x in let p := length om in
  if p <? 2 then Throw Elogic else
  match solve (EigenMat om) (Rvector p) with
  | None => Throw Eruntime
  | Some J =>
    if negb (length (x_ma x) =? p) then Throw Elogic else
    if negb (dims_ok x) then Throw Elogic else
    let b := rotated om (x_ma x) in
    let SV := StateVar (k_sig s) om J in
    mean <- vset (k_mean s) 0 (#0) ;;
    e <- vget (k_yerr s) 0 ;;
    var <- vset (k_var s) 0 (quadf p b SV ⊕ e ⊗ e) ;;
    y0 <- vget (k_y s) 0 ;;
    Ok (set_cur (set_var (set_mean (set_ext s
          (mkX om (x_ma x) (czeros p) SV b SV (x_gain x) (x_rho x) y0 (x_const x) (x_slope x))) mean) var) 1)
  end.

(** KalmanFilterp::Update, kfilter.cpp L189-215 *)
Definition Updatep (s : kfp) : res kfp :=
  let x := k_ext s in
  let p := length (x_omega x) in
  let c := k_cur s in
  b <- idxm1 c ;;
  vb <- vget (k_var s) b ;;
  let g := gainf p (x_rma x) (x_PV x) vb in
  let st := axpy p (x_state x) g (x_innov x) in
  let PV := condV p (x_PV x) g vb in
  d <- vget (k_dt s) b ;;
  let r := rhof p (x_omega x) d in
  let st' := schur p r st in
  let PV' := propV p r PV (x_SV x) in
  let m := linf p (x_rma x) st' in
  mean <- vset (k_mean s) c m ;;
  ec <- vget (k_yerr s) c ;;
  var <- vset (k_var s) c (quadf p (x_rma x) PV' ⊕ ec ⊗ ec) ;;
  yc <- vget (k_y s) c ;;
  Ok (set_cur (set_var (set_mean (set_ext s
        (mkX (x_omega x) (x_ma x) st' (x_SV x) (x_rma x) PV' g r (yc ⊖ m) (x_const x) (x_slope x))) mean) var) (S c)).

(** KalmanFilterp::InitializeCoefs, kfilter.cpp L290-312 *)
Definition InitializeCoefsp (s : kfp) (t : F) (i : nat) (ymean yvar : F) : res kfp :=
  let x := k_ext s in
  let p := length (x_omega x) in
  let g := gainf p (x_rma x) (x_PV x) yvar in
  let co := axmy p (x_state x) g ymean in
  let PV := condV p (x_PV x) g yvar in
  ti <- vget (k_time s) i ;;
  let r := rhof p (x_omega x) (fabs A (ti ⊖ t)) in
  let co' := schur p r co in
  let sl' := schur p r g in
  let PV' := propV p r PV (x_SV x) in
  e <- vget (k_yerr s) i ;;
  var <- vset (k_var s) i (quadf p (x_rma x) PV' ⊕ e ⊗ e) ;;
  Ok (set_cur (set_coefs (set_var (set_ext s
        (mkX (x_omega x) (x_ma x) (x_state x) (x_SV x) (x_rma x) PV' g r (x_innov x) co' sl')) var)
        (linf p (x_rma x) co') (linf p (x_rma x) sl')) (S i)).

(** KalmanFilterp::UpdateCoefs, kfilter.cpp L316-337 *)
Definition UpdateCoefsp (s : kfp) : res kfp :=
  let x := k_ext s in
  let p := length (x_omega x) in
  let c := k_cur s in
  b <- idxm1 c ;;
  vb <- vget (k_var s) b ;;
  let g := gainf p (x_rma x) (x_PV x) vb in
  yb <- vget (k_y s) b ;;
  let co := axpy p (x_const x) g (yb ⊖ k_yconst s) in
  let sl := axmy p (x_slope x) g (k_yslope s) in
  let PV := condV p (x_PV x) g vb in
  d <- vget (k_dt s) b ;;
  let r := rhof p (x_omega x) d in
  let co' := schur p r co in
  let sl' := schur p r sl in
  let PV' := propV p r PV (x_SV x) in
  ec <- vget (k_yerr s) c ;;
  var <- vset (k_var s) c (quadf p (x_rma x) PV' ⊕ ec ⊗ ec) ;;
  Ok (set_cur (set_coefs (set_var (set_ext s
        (mkX (x_omega x) (x_ma x) (x_state x) (x_SV x) (x_rma x) PV' g r (x_innov x) co' sl')) var)
        (linf p (x_rma x) co') (linf p (x_rma x) sl')) (S c)).

(** KalmanFilterp::Predict, kfilter.cpp L218-286 *)
Definition Predictp (s0 : kfp) (t : F) : res ((F * F) * kfp) :=
  ip <- ipredict A (k_time s0) t ;;
  s1 <- Resetp s0 ;;
  s2 <- for_ 1 (ip - 1) (fun _ s => Updatep s) s1 ;;
  let p := length (x_omega (k_ext s2)) in
  '(m0, v0, s3) <- match ip with
               | O => Ok (#0, quadf p (x_rma (k_ext s2)) (x_SV (k_ext s2)), s2)
               | S b =>
                 let x := k_ext s2 in
                 vb <- vget (k_var s2) b ;;
                 let g := gainf p (x_rma x) (x_PV x) vb in
                 let st := axpy p (x_state x) g (x_innov x) in
                 let PV := condV p (x_PV x) g vb in
                 tb <- vget (k_time s2) b ;;
                 let r := rhof p (x_omega x) (fabs A (t ⊖ tb)) in
                 let st' := schur p r st in
                 let PV' := propV p r PV (x_SV x) in
                 Ok (linf p (x_rma x) st', quadf p (x_rma x) PV',
                     set_ext s2 (mkX (x_omega x) (x_ma x) st' (x_SV x) (x_rma x) PV' g r (x_innov x) (x_const x) (x_slope x)))
               end ;;
  let n := length (k_time s3) in
  if ip =? n then Ok ((m0, v0), s3) else
  let prec := #1 ⊘ v0 in
  let mm := m0 ⊗ prec in
  s4 <- InitializeCoefsp s3 t ip (mm ⊘ prec) v0 ;;
  acc <- accum ip s4 (mm, prec) ;;
  '(s5, (mm', prec')) <-
    for_ (S ip) (n - S ip) (fun i '(s, a) => s' <- UpdateCoefsp s ;; a' <- accum i s' a ;; Ok (s', a')) (s4, acc) ;;
  let v := #1 ⊘ prec' in
  Ok ((mm' ⊗ v, v), s5).

(** the virtual methods of KalmanFilterp, kfilter.cpp L140-337 *)
Definition methodsp : methods A kpx := {| m_Reset := Resetp; m_Update := Updatep; m_Predict := Predictp |}.
End KFp.
