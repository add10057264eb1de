(** Model of src/include/kfilter.hpp (class KalmanFilter, class KalmanFilter1) and of the KalmanFilter1
    part of src/kfilter.cpp. *)
From Coq Require Import List Arith ZArith Bool.
From Verif Require Import Arith Res.
Import ListNotations.

Set Implicit Arguments.

Section KF.
Variable A : Arith.
Local Notation F := (F A).
Local Notation "x ⊕ y" := (fadd A x y) (at level 50, left associativity).
Local Notation "x ⊖ y" := (fsub A x y) (at level 50, left associativity).
Local Notation "x ⊗ y" := (fmul A x y) (at level 40, left associativity).
Local Notation "x ⊘ y" := (fdiv A x y) (at level 40, left associativity).
Local Notation "# z" := (fofZ A z) (at level 5).

(** src/include/kfilter.hpp L28-202: the members of KalmanFilter<OmegaType>.  [k_ext] holds the members the
    two subclasses add or type differently: omega_ for KalmanFilter1, omega_ and L375-388 for KalmanFilterp. *)
Record kf (X : Type) := mkKF {
  k_time : list F; k_dt : list F; k_y : list F; k_yerr : list F;
  k_mean : list F; k_var : list F;
  k_sig : F; k_cur : nat; k_yconst : F; k_yslope : F;
  k_ext : X }.

Section Generic.
Variable X : Type.
Local Notation kf := (kf X).

(** record updates (no C++ counterpart beyond the assignments themselves) *)
Definition set_mean (s : kf) m := mkKF (k_time s) (k_dt s) (k_y s) (k_yerr s) m (k_var s) (k_sig s) (k_cur s) (k_yconst s) (k_yslope s) (k_ext s).
Definition set_var (s : kf) v := mkKF (k_time s) (k_dt s) (k_y s) (k_yerr s) (k_mean s) v (k_sig s) (k_cur s) (k_yconst s) (k_yslope s) (k_ext s).
Definition set_cur (s : kf) c := mkKF (k_time s) (k_dt s) (k_y s) (k_yerr s) (k_mean s) (k_var s) (k_sig s) c (k_yconst s) (k_yslope s) (k_ext s).
Definition set_coefs (s : kf) c sl := mkKF (k_time s) (k_dt s) (k_y s) (k_yerr s) (k_mean s) (k_var s) (k_sig s) (k_cur s) c sl (k_ext s).
Definition set_ext (s : kf) (x : X) : kf := mkKF (k_time s) (k_dt s) (k_y s) (k_yerr s) (k_mean s) (k_var s) (k_sig s) (k_cur s) (k_yconst s) (k_yslope s) x.
Definition set_dt (s : kf) d := mkKF (k_time s) d (k_y s) (k_yerr s) (k_mean s) (k_var s) (k_sig s) (k_cur s) (k_yconst s) (k_yslope s) (k_ext s).
(** SetTime, kfilter.hpp L79-81 (dt_ is not recomputed) *)
Definition SetTime (s : kf) t := mkKF t (k_dt s) (k_y s) (k_yerr s) (k_mean s) (k_var s) (k_sig s) (k_cur s) (k_yconst s) (k_yslope s) (k_ext s).
(** SetTimeSeries, kfilter.hpp L85-87 *)
Definition SetTimeSeries (s : kf) y := mkKF (k_time s) (k_dt s) y (k_yerr s) (k_mean s) (k_var s) (k_sig s) (k_cur s) (k_yconst s) (k_yslope s) (k_ext s).
(** SetTimeSeriesErr, kfilter.hpp L91-93 *)
Definition SetTimeSeriesErr (s : kf) e := mkKF (k_time s) (k_dt s) (k_y s) e (k_mean s) (k_var s) (k_sig s) (k_cur s) (k_yconst s) (k_yslope s) (k_ext s).
(** SetSigsqr, kfilter.hpp L99-101 *)
Definition SetSigsqr (s : kf) g := mkKF (k_time s) (k_dt s) (k_y s) (k_yerr s) (k_mean s) (k_var s) g (k_cur s) (k_yconst s) (k_yslope s) (k_ext s).

(** arma::vec::zeros(n) *)
Definition zeros (n : nat) : list F := repeat (#0) n.

(** adjacent differences: the right-hand side of kfilter.hpp L45 *)
Fixpoint diffs (t : list F) : list F :=
  match t with
  | a :: ((b :: _) as r) => (b ⊖ a) :: diffs r
  | _ => []
  end.

(** time_(span(1,n-1)) - time_(span(0,n-2)), kfilter.hpp L45, L56, L70, L166, L176.  For n < 2 the span (or the
    row range) has its first index above its last and Armadillo throws a logic_error. *)
Definition make_dt (t : list F) : res (list F) :=
  if length t <? 2 then Throw Elogic else Ok (diffs t).

(** arma::vec::min(): scan from +inf with "<" (so NaN entries are skipped); throws on an empty vector. See carpack.hpp L205-206, kfilter.hpp L42-75. *)
Definition vmin (l : list F) : res F :=
  match l with
  | [] => Throw Elogic
  | _ => Ok (fold_left (fun m x => if flt A x m then x else m) l (finf A))
  end.

(** 1 + arma::find(dt_ != 0) with a leading 0, kfilter.hpp L62-64.  [k] is the index of the first element of [d]. *)
Fixpoint find_nonzero (k : nat) (d : list F) : list nat :=
  match d with
  | [] => []
  | x :: r => if feq A x (#0) then find_nonzero (S k) r else S k :: find_nonzero (S k) r
  end.
Definition unique_values (d : list F) : list nat := 0 :: find_nonzero 0 d.

(** KalmanFilter::init, kfilter.hpp L43-76.  [sort_index] is Armadillo's arma::sort_index, an unstable sort; it
    throws a logic_error when there is a NaN, which the oracle may express by [None].  The messages printed to
    std::cout are not modelled. *)
Definition kf_init (sort_index : list F -> option (list nat)) (s0 : kf) : res kf :=
  d <- make_dt (k_time s0) ;;
  m <- vmin d ;;
  s1 <- (if flt A m (#0) then
           match sort_index (k_time s0) with
           | None => Throw Elogic
           | Some idx =>
             t <- velem (k_time s0) idx ;;
             y <- velem (k_y s0) idx ;;
             e <- velem (k_yerr s0) idx ;;
             d' <- make_dt t ;;
             Ok (set_dt (SetTimeSeriesErr (SetTimeSeries (SetTime s0 t) y) e) d')
           end
         else Ok (set_dt s0 d)) ;;
  m' <- vmin (k_dt s1) ;;
  s2 <- (if feq A m' (#0) then
           let u := unique_values (k_dt s1) in
           t <- velem (k_time s1) u ;;
           y <- velem (k_y s1) u ;;
           e <- velem (k_yerr s1) u ;;
           d' <- make_dt t ;;
           Ok (set_dt (SetTimeSeriesErr (SetTimeSeries (SetTime s1 t) y) e) d')
         else Ok s1) ;;
  let n := length (k_time s2) in
  Ok (set_var (set_mean s2 (zeros n)) (zeros n)).

(** The constructors that end in init(): kfilter.hpp L36-40, L215-245, L292-334.  [raw] holds the indeterminate
    values of the members the constructor does not set. *)
Definition kf_new (sort_index : list F -> option (list nat)) (raw : kf) (t y e : list F) : res kf :=
  kf_init sort_index (SetTimeSeriesErr (SetTimeSeries (SetTime raw t) y) e).

(** The virtual methods of a filter class. See kfilter.hpp L120-135: Reset, Update, Predict. *)
Record methods := {
  m_Reset : kf -> res kf;
  m_Update : kf -> res kf;
  m_Predict : kf -> F -> res ((F * F) * kf) }.

Variable M : methods.

(** KalmanFilter::Filter, kfilter.hpp L126-132 *)
Definition Filter (s : kf) : res kf :=
  s1 <- m_Reset M s ;;
  for_ 1 (length (k_time s1) - 1) (fun _ s => m_Update M s) s1.

(** The search loop of kfilter.hpp L156-161: the first index whose time is not < t, or n.
    On an empty vector the checked access time_(0) throws. *)
Fixpoint lt_prefix (l : list F) (t : F) : nat :=
  match l with
  | [] => 0
  | x :: r => if flt A x t then S (lt_prefix r t) else 0
  end.
(** the search of kfilter.hpp L156-161, with the exception for an empty vector *)
Definition insert_pos (l : list F) (t : F) : res nat :=
  match l with [] => Throw Elogic | _ => Ok (lt_prefix l t) end.

(** RandGen.normal(mu, sigma), src/random.cpp L76-81: boost::normal_distribution, mean + sigma * (standard draw).
    [draw] is the standard normal generator on an abstract generator state. *)
Variable G : Type.
Variable draw : G -> F * G.
(** RandGen.normal, random.cpp L76-81, as called at kfilter.hpp L152 *)
Definition rnormal (mu sigma : F) (g : G) : F * G :=
  let (z, g') := draw g in ((z ⊗ sigma) ⊕ mu, g').

(** One pass of the loop of KalmanFilter::Simulate, kfilter.hpp L150-172 *)
Definition sim_step (t : F) (st : (list F) * kf * G) : res ((list F) * kf * G) :=
  let '(out, s, g) := st in
  '(m, v, s1) <- m_Predict M s t ;;
  let (yv, g') := rnormal m (fsqrt A v) g in
  ip <- insert_pos (k_time s1) t ;;
  t' <- vinsert (k_time s1) ip t ;;
  d' <- make_dt t' ;;
  y' <- vinsert (k_y s1) ip yv ;;
  e' <- vinsert (k_yerr s1) ip (#0) ;;
  let n := length t' in
  Ok (out ++ [yv],
      set_var (set_mean (SetTimeSeriesErr (SetTimeSeries (set_dt (SetTime s1 t') d') y') e') (zeros n)) (zeros n),
      g').

(** the loop of KalmanFilter::Simulate over the times, kfilter.hpp L150-172 *)
Fixpoint sim_loop (ts : list F) (st : (list F) * kf * G) : res ((list F) * kf * G) :=
  match ts with
  | [] => Ok st
  | t :: r => st' <- sim_step t st ;; sim_loop r st'
  end.

(** KalmanFilter::Simulate, kfilter.hpp L135-184.  [vsort] is arma::sort on values (None: NaN, throws). *)
Definition Simulate (vsort : list F -> option (list F)) (s : kf) (ts : list F) (g : G)
  : res ((list F) * kf * G) :=
  match vsort ts with
  | None => Throw Elogic
  | Some sorted =>
    '(out, s1, g') <- sim_loop sorted ([], s, g) ;;
    d' <- make_dt (k_time s) ;;
    let n := length (k_time s) in
    Ok (out,
        set_var (set_mean (SetTimeSeriesErr (SetTimeSeries (set_dt (SetTime s1 (k_time s)) d') (k_y s)) (k_yerr s)) (zeros n)) (zeros n),
        g')
  end.
End Generic.

(** The search loop at the head of both Predict methods, src/kfilter.cpp L76-84 and L220-228: the first index
    whose time is not exceeded by t (the loop tests time > time_(i)), or n. *)
Definition ipredict (l : list F) (t : F) : res nat :=
  match l with [] => Throw Elogic | _ => Ok (lt_prefix l t) end.

(** ** KalmanFilter1: the extension is omega_ (kfilter.hpp L198). *)
Definition kf1 := kf F.

(** sigsqr_ / (2.0 * omega_) *)
Definition stat1 (s : kf1) : F := k_sig s ⊘ (#2 ⊗ k_ext s).

(** KalmanFilter1::Reset, src/kfilter.cpp L19-26 *)
Definition Reset1 (s : kf1) : res kf1 :=
  mean <- vset (k_mean s) 0 (#0) ;;
  e <- vget (k_yerr s) 0 ;;
  var <- vset (k_var s) 0 (stat1 s ⊕ e ⊗ e) ;;
  Ok (set_cur (set_coefs (set_var (set_mean s mean) var) (#0) (#0)) 1).

(** KalmanFilter1::Update, src/kfilter.cpp L29-48 *)
Definition Update1 (s : kf1) : res kf1 :=
  let c := k_cur s in
  b <- idxm1 c ;;
  d <- vget (k_dt s) b ;;
  let rho := fexp A (fneg A (#1) ⊗ k_ext s ⊗ d) in
  vb <- vget (k_var s) b ;;
  eb <- vget (k_yerr s) b ;;
  let pv := vb ⊖ eb ⊗ eb in
  let ratio := pv ⊘ vb in
  mb <- vget (k_mean s) b ;;
  yb <- vget (k_y s) b ;;
  mean <- vset (k_mean s) c (rho ⊗ mb ⊕ rho ⊗ ratio ⊗ (yb ⊖ mb)) ;;
  ec <- vget (k_yerr s) c ;;
  var <- vset (k_var s) c (stat1 s ⊗ (#1 ⊖ rho ⊗ rho) ⊕ rho ⊗ rho ⊗ pv ⊗ (#1 ⊖ ratio) ⊕ ec ⊗ ec) ;;
  Ok (set_cur (set_var (set_mean s mean) var) (S c)).

(** KalmanFilter1::InitializeCoefs, src/kfilter.cpp L51-56 (its ymean and yvar arguments are unused) *)
Definition InitializeCoefs1 (s : kf1) (t : F) (i : nat) : res kf1 :=
  ti <- vget (k_time s) i ;;
  let sl := fexp A (fneg A (fabs A (ti ⊖ t)) ⊗ k_ext s) in
  e <- vget (k_yerr s) i ;;
  var <- vsetU (k_var s) i (stat1 s ⊗ (#1 ⊖ sl ⊗ sl) ⊕ e ⊗ e) ;;
  Ok (set_cur (set_coefs (set_var s var) (#0) sl) (S i)).

(** KalmanFilter1::UpdateCoefs, src/kfilter.cpp L59-69 *)
Definition UpdateCoefs1 (s : kf1) : res kf1 :=
  let c := k_cur s in
  b <- idxm1 c ;;
  d <- vget (k_dt s) b ;;
  let rho := fexp A (fneg A (#1) ⊗ d ⊗ k_ext s) in
  vb <- vget (k_var s) b ;;
  eb <- vget (k_yerr s) b ;;
  let pv := vb ⊖ eb ⊗ eb in
  let ratio := pv ⊘ vb in
  let sl := k_yslope s ⊗ (rho ⊗ (#1 ⊖ ratio)) in
  yb <- vgetU (k_y s) b ;;
  let co := k_yconst s ⊗ rho ⊗ (#1 ⊖ ratio) ⊕ rho ⊗ ratio ⊗ yb in
  ec <- vget (k_yerr s) c ;;
  var <- vset (k_var s) c (stat1 s ⊗ (#1 ⊖ rho ⊗ rho) ⊕ rho ⊗ rho ⊗ pv ⊗ (#1 ⊖ ratio) ⊕ ec ⊗ ec) ;;
  Ok (set_cur (set_coefs (set_var s var) co sl) (S c)).

(** The accumulation step used twice in Predict, src/kfilter.cpp L121-122 and L126-127 (L272-273, L277-278 for
    KalmanFilterp): [acc] = (ypredict_mean, yprecision) *)
Definition accum {X} (i : nat) (s : kf X) (acc : F * F) : res (F * F) :=
  let '(m, p) := acc in
  v <- vget (k_var s) i ;;
  yi <- vget (k_y s) i ;;
  Ok (m ⊕ k_yslope s ⊗ (yi ⊖ k_yconst s) ⊘ v, p ⊕ k_yslope s ⊗ k_yslope s ⊘ v).

(** KalmanFilter1::Predict, src/kfilter.cpp L72-135 *)
Definition Predict1 (s0 : kf1) (t : F) : res ((F * F) * kf1) :=
  ip <- ipredict (k_time s0) t ;;
  s1 <- Reset1 s0 ;;
  s2 <- for_ 1 (ip - 1) (fun _ s => Update1 s) s1 ;;
  '(m0, v0) <- match ip with
               | O => Ok (#0, stat1 s2)
               | S b =>
                 tb <- vgetU (k_time s2) b ;;
                 let dt := t ⊖ tb in
                 let rho := fexp A (fneg A dt ⊗ k_ext s2) in
                 vb <- vget (k_var s2) b ;;
                 eb <- vget (k_yerr s2) b ;;
                 let pv := vb ⊖ eb ⊗ eb in
                 let ratio := pv ⊘ vb in
                 mb <- vget (k_mean s2) b ;;
                 yb <- vget (k_y s2) b ;;
                 Ok (rho ⊗ mb ⊕ rho ⊗ ratio ⊗ (yb ⊖ mb),
                     stat1 s2 ⊗ (#1 ⊖ rho ⊗ rho) ⊕ rho ⊗ rho ⊗ pv ⊗ (#1 ⊖ ratio))
               end ;;
  let n := length (k_time s2) in
  if ip =? n then Ok ((m0, v0), s2) else
  let prec := #1 ⊘ v0 in
  let mm := m0 ⊗ prec in
  s3 <- InitializeCoefs1 s2 t ip ;;
  acc <- accum ip s3 (mm, prec) ;;
  '(s4, (mm', prec')) <-
    for_ (S ip) (n - S ip) (fun i '(s, a) => s' <- UpdateCoefs1 s ;; a' <- accum i s' a ;; Ok (s', a')) (s3, acc) ;;
  let v := #1 ⊘ prec' in
  Ok ((mm' ⊗ v, v), s4).

Definition methods1 : methods F := {| m_Reset := Reset1; m_Update := Update1; m_Predict := Predict1 |}.

(** SetOmega for KalmanFilter1, kfilter.hpp L105-107 *)
Definition SetOmega1 (s : kf1) (w : F) : kf1 := set_ext s w.
End KF.
