(** Model of src/include/carpack.hpp and src/carpack.cpp: parameterisation, priors, likelihood.
    Starting values are in StartModel.v. *)
From Coq Require Import List Arith ZArith Bool.
From Verif Require Import Arith Res KFModel Cx KFpModel.
Import ListNotations.

Set Implicit Arguments.

Section Carpack.
Variable A : Arith.
Local Notation F := (F A).
Local Notation cx := (cx A).
Local Notation "x ⊕ y" := (fadd A x y) (at level 50, left associativity).
Local Notation "x ⊖ y" := (fsub A x y) (at level 50, left associativity).
Local Notation "x ⊗ y" := (fmul A x y) (at level 40, left associativity).
Local Notation "x ⊘ y" := (fdiv A x y) (at level 40, left associativity).
Local Notation "# z" := (fofZ A z) (at level 5).
Local Notation vec := (list F).
(** decimal literals *)
Local Notation half := (fdec A 1 2).

(** ** Armadillo statistics (simplified: sums are taken from left to right, the variance by the two-pass formula) *)
(** the sum inside arma::mean and arma::var, carpack.cpp L44-48 *)
Definition vsum (l : vec) : F := fold_left (fadd A) l (#0).
(** arma::mean, carpack.cpp L48, L194, L440, L611 *)
Definition vmean (l : vec) : F := vsum l ⊘ #(Z.of_nat (length l)).
(** arma::var with the default N-1 normalisation; throws on an empty vector, 0 for one element; carpack.hpp L71, carpack.cpp L44, L191, L437, L608 *)
Definition vvar (l : vec) : res F :=
  match l with
  | [] => Throw Elogic
  | [_] => Ok (#0)
  | _ => let m := vmean l in
         Ok (vsum (map (fun x => (m ⊖ x) ⊗ (m ⊖ x)) l) ⊘ #(Z.of_nat (length l - 1)))
  end.
(** arma::vec::max(); carpack.hpp L206, L419, carpack.cpp L269 *)
Definition vmax (l : vec) : res F :=
  match l with
  | [] => Throw Elogic
  | _ => Ok (fold_left (fun m x => if flt A m x then x else m) l (fneg A (finf A)))
  end.
(** arma::median of a vector already sorted by the oracle [vsort]; throws on an empty vector and on NaN; carpack.hpp L419, carpack.cpp L55 *)
Definition vmedian (vsort : vec -> option vec) (l : vec) : res F :=
  match l with
  | [] => Throw Elogic
  | _ => match vsort l with
         | None => Throw Elogic
         | Some s =>
           let n := length l in
           if Nat.even n then a <- vget s (n / 2 - 1) ;; b <- vget s (n / 2) ;; Ok ((a ⊕ b) ⊘ #2)
           else vget s (n / 2)
         end
  end.

(** ** Roots of products of quadratic terms *)

(** One quadratic s^2 + exp(t2) s + exp(t1): carpack.cpp L146-162 and L531-547 *)
Definition quad_pair (t1 t2 : F) : list cx :=
  let quad1 := fexp A t1 in
  let quad2 := fexp A t2 in
  let disc := quad2 ⊗ quad2 ⊖ #4 ⊗ quad1 in
  let mhalf := fneg A half in
  if flt A (#0) disc then
    [(mhalf ⊗ (quad2 ⊕ fsqrt A disc), #0); (mhalf ⊗ (quad2 ⊖ fsqrt A disc), #0)]
  else
    let re := mhalf ⊗ quad2 in
    let im := mhalf ⊗ fsqrt A (fneg A disc) in
    [(re, im); (re, fneg A im)].

(** The loops over i < n/2; carpack.cpp L143-163 and L528-548 *)
Fixpoint quad_loop (theta : vec) (off k : nat) : res (list cx) :=
  match k with
  | O => Ok []
  | S k' =>
    t1 <- vget theta off ;;
    t2 <- vget theta (off + 1) ;;
    r <- quad_loop theta (off + 2) k' ;;
    Ok (quad_pair t1 t2 ++ r)
  end.
(** The roots of all the terms, with the real root for odd n: carpack.cpp L139-171 (off = 3, n = p_) and L524-554
    (off = 3 + p_, n = q_) *)
Definition quad_roots (theta : vec) (off n : nat) : res (list cx) :=
  r <- quad_loop theta off (n / 2) ;;
  if Nat.odd n then
    t <- vget theta (off + n - 1) ;;
    Ok (r ++ [(fneg A (fexp A t), #0)])
  else Ok r.

(** CARp::ARRoots, carpack.cpp L137-172 *)
Definition ARRoots (p : nat) (theta : vec) : res (list cx) := quad_roots theta 3 p.

(** polycoefs, carpack.cpp L742-756; one pass of the loop at L751 (the right hand side is evaluated before the
    assignment) *)
Definition poly_step (coefs : list cx) (i : nat) (r : cx) : list cx :=
  vbuild (length coefs) (fun k =>
    if (1 <=? k) && (k <=? i + 1) then csub (vnth coefs k) (cmul r (vnth coefs (k - 1))) else vnth coefs k).
(** the loop of polycoefs over the roots, carpack.cpp L749-753 *)
Fixpoint poly_loop (roots : list cx) (i : nat) (coefs : list cx) : list cx :=
  match roots with
  | [] => coefs
  | r :: rest => poly_loop rest (S i) (poly_step coefs i r)
  end.
(** polycoefs, carpack.cpp L742-756: the real parts are returned *)
Definition polycoefs (roots : list cx) : vec :=
  map fst (poly_loop roots 0 (c1 A :: repeat (c0 A) (length roots))).

(** CARMA::ExtractMA, carpack.cpp L522-580; the loop L575-577 throws at i = p_ when q_ >= p_ *)
Definition ma_fill (p q : nat) (poly : vec) : res vec :=
  for_ 0 (q + 1) (fun i ma => c <- vget poly (q - i) ;; vset ma i c) (zeros A p).
(** CARMA::ExtractMA, carpack.cpp L522-580 *)
Definition ExtractMA_carma (p q : nat) (theta : vec) : res vec :=
  roots <- quad_roots theta (3 + p) q ;;
  let poly := polycoefs roots in
  d <- vget poly q ;;
  ma_fill p q (map (fun c => c ⊘ d) poly).

(** logit, inv_logit: carpack.cpp L704-705 *)
Definition logit (x : F) : F := flog A (x ⊘ (#1 ⊖ x)).
(** inv_logit, carpack.cpp L705 *)
Definition inv_logit (x : F) : F := fexp A x ⊘ (#1 ⊕ fexp A x).

(** boost::math::binomial_coefficient<double>(n, k) (simplified: the exact integer, by Pascal's rule); carpack.hpp L356, carpack.cpp L695 *)
Fixpoint binom (n k : nat) : Z :=
  match n, k with
  | _, O => 1
  | O, S _ => 0
  | S n', S k' => binom n' k' + binom n' k
  end.
(** The Belcher moving average coefficients: carpack.hpp L353-357 and carpack.cpp L692-696 *)
Definition belcher (p : nat) (kappa : F) : res vec :=
  if p =? 0 then Throw Elogic else
  Ok (vbuild p (fun i => if i =? 0 then #1 else #(binom (p - 1) i) ⊘ fpow A kappa (#(Z.of_nat i)))).
(** ZCARMA::ExtractMA, carpack.cpp L687-698 *)
Definition ExtractMA_zcarma (p : nat) (klow khigh : F) (theta : vec) : res vec :=
  t <- vget theta (3 + p) ;;
  belcher p ((khigh ⊖ klow) ⊗ inv_logit t ⊕ klow).

(** CARp::Variance, carpack.cpp L377-409 *)
Definition var_denom (roots : list cx) (k : nat) : cx :=
  let rk := vnth roots k in
  cscale (fneg A (#2) ⊗ fst rk)
    (cprod (fun l => if l =? k then c1 A
                     else cmul (csub (vnth roots l) rk) (cadd (conj (vnth roots l)) rk)) (length roots)).
(** the sums over the moving average coefficients in CARp::Variance, carpack.cpp L377-409 *)
Definition ma_sum (ma : vec) (z : cx) : cx :=
  csum (fun l => cscale (nth l ma (#0)) (cpown z l)) (length ma).
(** CARp::Variance, carpack.cpp L377-409 *)
Definition Variance (roots : list cx) (ma : vec) (sigma dt : F) : F :=
  let car_var := csum (fun k =>
      let rk := vnth roots k in
      cdiv (cmul (cmul (ma_sum ma rk) (ma_sum ma (cneg rk))) (cexp (cscale dt rk))) (var_denom roots k))
    (length roots) in
  sigma ⊗ sigma ⊗ fst car_var.

(** unique_roots, carpack.cpp L709-732.  The two loops visit the pairs i < j. *)
Definition frac_diff (a b : cx) : F := cabs (cdiv (csub a b) (cadd a b)).
(** the two loops of unique_roots, carpack.cpp L709-732 *)
Fixpoint min_frac (roots : list cx) (m : F) : F :=
  match roots with
  | [] => m
  | a :: rest => min_frac rest (fold_left (fun m b => if flt A (frac_diff a b) m then frac_diff a b else m) rest m)
  end.
(** unique_roots, carpack.cpp L709-732: the comparison with the tolerance *)
Definition unique_roots (roots : list cx) (tol : F) : bool := flt A tol (min_frac roots (#100 ⊗ tol)).

(** ** Prior *)
(** max_stdev_, max_freq_, min_freq_, ignore_prior_: carpack.hpp L243-247 *)
Record bounds := mkB { max_stdev : F; max_freq : F; min_freq : F; ignore_prior : bool }.

(** the scalar conditions of CheckPriorBounds; carpack.cpp L116-130 (CAR1) and the same tests of CARp *)
Definition scalar_bad (b : bounds) (ysigma scale : F) : bool :=
  flt A (max_stdev b) ysigma || flt A ysigma (#0) || flt A scale half || flt A (#2) scale.

(** CAR1::CheckPriorBounds, carpack.cpp L116-130 (ignore_prior_ is not consulted) *)
Definition CheckPriorBounds1 (b : bounds) (theta : vec) : res bool :=
  ysigma <- vget theta 0 ;;
  scale <- vget theta 1 ;;
  t3 <- vget theta 3 ;;
  let omega := fexp A t3 in
  Ok (negb (flt A (max_freq b) omega || flt A omega (min_freq b) || scalar_bad b ysigma scale)).

(** the centroids and widths, carpack.cpp L322-323 *)
Definition centroid (r : cx) : F := fabs A (snd r) ⊘ #2 ⊘ fpi A.
Definition width (r : cx) : F := fneg A (fst r) ⊘ #2 ⊘ fpi A.
(** the loop L355-361 *)
Fixpoint descending (c : vec) : bool :=
  match c with
  | a :: ((b :: _) as r) => negb (flt A (fdec A 1 100000000) (b ⊖ a)) && descending r
  | _ => true
  end.
(** CARp::CheckPriorBounds, carpack.cpp L314-374 (order_lorentzians_ is always true, carpack.hpp L296) *)
Definition CheckPriorBoundsp (p : nat) (b : bounds) (theta : vec) : res bool :=
  if ignore_prior b then Ok true else
  ysigma <- vget theta 0 ;;
  scale <- vget theta 1 ;;
  roots <- ARRoots p theta ;;
  let cent := map centroid roots in
  let wid := map width roots in
  Ok (unique_roots roots (fdec A 1 10000)
      && forallb (fun c => flt A c (max_freq b)) cent
      && forallb (fun w => flt A w (max_freq b)) wid
      && forallb (fun w => flt A (min_freq b) w) wid
      && negb (scalar_bad b ysigma scale)
      && descending cent).

(** CARMA_Base::LogPrior, carpack.hpp L118-126; measerr_dof_ = 50 (L63) *)
Definition LogPrior (theta : vec) : res F :=
  scale <- vget theta 1 ;;
  Ok (fneg A half ⊗ #50 ⊘ scale ⊖ (#1 ⊕ #50 ⊘ #2) ⊗ flog A scale).
(** ZCARMA::LogPrior, carpack.hpp L444-456 *)
Definition LogPrior_z (p : nat) (theta : vec) : res F :=
  scale <- vget theta 1 ;;
  x <- vget theta (p + 3) ;;
  Ok ((fneg A half ⊗ #50 ⊘ scale ⊖ (#1 ⊕ #50 ⊘ #2) ⊗ flog A scale)
      ⊕ (fneg A x ⊖ #2 ⊗ flog A (#1 ⊕ fexp A (fneg A x)))).

(** ** The model classes *)
(** The virtual methods used by CARMA_Base<OmegaType>, with the filter class. See carpack.hpp L131-176. *)
Record cls (X Om : Type) := mkCls {
  v_meth : methods A X;
  v_SetOmega : kf A X -> Om -> kf A X;
  v_SetMA : kf A X -> vec -> kf A X;
  v_AR : vec -> res Om;
  v_MA : vec -> res vec;
  v_Sig : vec -> res F;
  v_Prior : vec -> res F;
  v_Check : bounds -> vec -> res bool }.

(** arma::solve *)
Variable solve : list (list cx) -> list cx -> option (list cx).

(** class CAR1, carpack.hpp L251-279; KalmanFilter1 has no SetMA (kfilter.hpp L111) *)
Definition car1_cls : cls F F := {|
  v_meth := methods1 A; v_SetOmega := @SetOmega1 A; v_SetMA := fun s _ => s;
  v_AR := fun theta => t <- vget theta 3 ;; Ok (fexp A t);
  v_MA := fun _ => Ok (zeros A 1);
  v_Sig := fun theta => t0 <- vget theta 0 ;; t3 <- vget theta 3 ;; Ok (#2 ⊗ t0 ⊗ t0 ⊗ fexp A t3);
  v_Prior := LogPrior; v_Check := CheckPriorBounds1 |}.

(** ExtractSigsqr of CARp, CARMA and ZCARMA: carpack.hpp L316-319, L391-395, L431-435 *)
Definition Sigp (p : nat) (ma : vec -> res vec) (theta : vec) : res F :=
  roots <- ARRoots p theta ;;
  m <- ma theta ;;
  t0 <- vget theta 0 ;;
  Ok (t0 ⊗ t0 ⊘ Variance roots m (#1) (#0)).

(** ma_coefs_ of CARp, carpack.hpp L294-295 (throws for p = 0) *)
Definition carp_ma (p : nat) : vec := upd (zeros A p) 0 (#1).

(** what CARp, ZCAR, CARMA and ZCARMA share, carpack.hpp L285-461: the filter class, the roots and the bounds *)
Definition pcls (p : nat) (ma : vec -> res vec) (prior : vec -> res F) : cls (kpx A) (list cx) := {|
  v_meth := methodsp solve; v_SetOmega := @SetOmegap A; v_SetMA := @SetMAp A;
  v_AR := ARRoots p; v_MA := ma; v_Sig := Sigp p ma; v_Prior := prior; v_Check := CheckPriorBoundsp p |}.
(** class CARp, carpack.hpp L285-336 *)
Definition carp_cls (p : nat) := pcls p (fun _ => Ok (carp_ma p)) LogPrior.
(** class ZCAR, carpack.hpp L341-363.  Its constructor computes Belcher coefficients into its own private ma_coefs_
    and gives them to the filter, but ExtractMA and ExtractSigsqr are inherited from CARp and read CARp's private
    ma_coefs_. *)
Definition zcar_cls (p : nat) := pcls p (fun _ => Ok (carp_ma p)) LogPrior.
(** class CARMA, carpack.hpp L369-399 *)
Definition carma_cls (p q : nat) := pcls p (ExtractMA_carma p q) LogPrior.
(** class ZCARMA, carpack.hpp L406-461 *)
Definition zcarma_cls (p : nat) (klow khigh : F) := pcls p (ExtractMA_zcarma p klow khigh) (LogPrior_z p).

(** ** CARMA_Base objects: the members at carpack.hpp L237-247 (those of Parameter are in EngineModel.v) *)
Record base (X : Type) := mkBase {
  b_time : vec; b_y : vec; b_yerr : vec; b_kf : kf A X; b_bounds : bounds }.
Definition set_kf {X} (b : base X) (s : kf A X) : base X := mkBase (b_time b) (b_y b) (b_yerr b) s (b_bounds b).

(** CARMA_Base::SetPrior, carpack.hpp L201-207 *)
Definition make_bounds (time : vec) (sd : F) (ign : bool) : res bounds :=
  d <- make_dt A time ;;
  m <- vmin A d ;;
  hi <- vmax time ;;
  lo <- vmin A time ;;
  Ok (mkB sd (#1 ⊘ m) (#1 ⊘ (hi ⊖ lo)) ign).
(** CARMA_Base::SetPrior, carpack.hpp L201-207, on the object *)
Definition SetPrior {X} (b : base X) (sd : F) : res (base X) :=
  bd <- make_bounds (b_time b) sd (ignore_prior (b_bounds b)) ;;
  Ok (mkBase (b_time b) (b_y b) (b_yerr b) (b_kf b) bd).
(** SetMLE, carpack.hpp L233 *)
Definition SetMLE {X} (b : base X) (ign : bool) : base X :=
  mkBase (b_time b) (b_y b) (b_yerr b) (b_kf b)
    (mkB (max_stdev (b_bounds b)) (max_freq (b_bounds b)) (min_freq (b_bounds b)) ign).

(** The CARMA_Base constructor (carpack.hpp L56-72) followed by the construction of the filter in the subclass
    constructor (L259, L292), which works on its own copies of the data. *)
Definition base_new {X} (si : vec -> option (list nat)) (raw : kf A X) (t y e : vec) : res (base X) :=
  v <- vvar y ;;
  bd <- make_bounds t (#10 ⊗ fsqrt A v) false ;;
  s <- kf_new si raw t y e ;;
  Ok (mkBase t y e s bd).
(** CAR1 constructor, L256-262 *)
Definition car1_new (si : vec -> option (list nat)) (raw : kf1 A) (t y e : vec) : res (base F) := base_new si raw t y e.
(** CARp constructor, L289-298 (ma_coefs_(0) = 1.0 throws for p = 0); CARMA, L374-379; ZCARMA L410-420 *)
Definition carp_new (si : vec -> option (list nat)) (raw : kfp A) (p : nat) (t y e : vec) : res (base (kpx A)) :=
  b <- base_new si raw t y e ;;
  if p =? 0 then Throw Elogic else Ok (set_kf b (SetMAp (b_kf b) (carp_ma p))).
(** ZCAR constructor, L346-359 *)
Definition zcar_new (si : vec -> option (list nat)) (raw : kfp A) (p : nat) (t y e : vec) : res (base (kpx A)) :=
  b <- carp_new si raw p t y e ;;
  d <- make_dt A t ;;
  m <- vmin A d ;;
  ma <- belcher p (#1 ⊘ m) ;;
  Ok (set_kf b (SetMAp (b_kf b) ma)).
(** kappa_low_, kappa_high_: carpack.hpp L415-419 *)
Definition kappa_bounds (vsort : vec -> option vec) (t : vec) : res (F * F) :=
  d <- make_dt A t ;;
  m <- vmin A d ;;
  hi <- vmax t ;;
  lo <- vmin A t ;;
  med <- vmedian vsort d ;;
  Ok (fmax A (#1 ⊘ (hi ⊖ lo)) (#1 ⊘ (#10 ⊗ med)), #1 ⊘ m).

(** ** CARMA_Base::LogDensity, carpack.hpp L131-176 *)
Section LogDensity.
Variables X Om : Type.
Variable C : cls X Om.

(** sqrt(measerr_scale) * yerr_, y_ - mu; carpack.hpp L147-153 *)
Definition scaled_err (b : base X) (scale : F) : vec := map (fun e => fsqrt A scale ⊗ e) (b_yerr b).
(** y_ - mu, carpack.hpp L147-153 *)
Definition centred (b : base X) (mu : F) : vec := map (fun y => y ⊖ mu) (b_y b).

(** the loop L167-171, also Save L100-105 *)
Definition loglik (b : base X) (s : kf A X) (mu : F) : res F :=
  for_ 0 (length (b_time b)) (fun i acc =>
    yi <- vget (b_y b) i ;;
    mi <- vget (k_mean s) i ;;
    vi <- vget (k_var s) i ;;
    let yc := yi ⊖ mi ⊖ mu in
    Ok (acc ⊕ (fneg A half ⊗ flog A vi ⊖ half ⊗ yc ⊗ yc ⊘ vi))) (#0).

(** the setters L147-153 *)
Definition load (b : base X) (sig : F) (om : Om) (ma : vec) (scale mu : F) : kf A X :=
  SetTimeSeries (SetTimeSeriesErr (v_SetMA C (v_SetOmega C (SetSigsqr (b_kf b) sig) om) ma) (scaled_err b scale)) (centred b mu).

(** A runtime_error can only come from arma::solve at the start of Reset, before any member is written, so the
    filter keeps the state it had when Filter() was called. See CARMA_Base::LogDensity, carpack.hpp L131-176. *)
Definition LogDensity (b : base X) (theta : vec) : res (F * base X) :=
  ok <- v_Check C (b_bounds b) theta ;;
  if negb ok then Ok (fneg A (finf A), b) else
  om <- v_AR C theta ;;
  ma <- v_MA C theta ;;
  sig <- v_Sig C theta ;;
  scale <- vget theta 1 ;;
  mu <- vget theta 2 ;;
  let s := load b sig om ma scale mu in
  match Filter (v_meth C) s with
  | Throw Eruntime => Ok (fneg A (finf A), set_kf b s)
  | Ok s' => ll <- loglik b s' mu ;; pr <- v_Prior C theta ;; Ok (ll ⊕ pr, set_kf b s')
  | Throw e => Throw e
  | UB => UB
  | Diverge => Diverge
  end.
End LogDensity.
End Carpack.
