(** Model of the starting values in src/carpack.cpp, of the parameter objects of src/include/carpack.hpp seen by the
    MCMC engine, and of src/carmcmc.cpp. *)
From Coq Require Import List Arith ZArith Bool String.
From Verif Require Import Arith Res KFModel Cx KFpModel CarpackModel EngineModel.
Import ListNotations.

Set Implicit Arguments.

Section Start.
Variable A : Arith.
Local Notation F := (F A).
Local Notation cx := (cx A).
Local Notation "x ⊕ y" := (fadd A x y) (at level 50, left associativity).
Local Notation "x ⊖ y" := (fsub A x y) (at level 50, left associativity).
Local Notation "x ⊗ y" := (fmul A x y) (at level 40, left associativity).
Local Notation "x ⊘ y" := (fdiv A x y) (at level 40, left associativity).
Local Notation "# z" := (fofZ A z) (at level 5).
Local Notation vec := (list F).

Variable R : rng A.
Local Notation gen := (gen R).
(** arma::median's sort, arma::sort(x, "descend") (None: NaN, throws logic_error), arma::solve *)
Variable vsort : vec -> option vec.
Variable dsort : vec -> option vec.
Variable solve : list (list cx) -> list cx -> option (list cx).

(** CARMA_Base::Save, carpack.hpp L90-108: the log-posterior recomputed from the means and variances that the
    filter currently holds *)
Definition base_save {X Om} (C : cls A X Om) (b : base A X) (v : vec) : res F :=
  mu <- vget v 2 ;;
  ll <- loglik b (b_kf b) mu ;;
  pr <- v_Prior C v ;;
  Ok (ll ⊕ pr).

(** CARMA_Base::GetKalmanMean and GetKalmanVar, carpack.hpp L197-198; [v] is value_ *)
Definition GetKalmanMean {X} (b : base A X) (v : vec) : res vec :=
  mu <- vget v 2 ;; Ok (map (fun m => mu ⊕ m) (k_mean (b_kf b))).
Definition GetKalmanVar {X} (b : base A X) : vec := k_var (b_kf b).

(** CARMA_Base::getSamples, carpack.hpp L210-218: samples_[0] is read without a check, then every element of a
    zero-filled array of the same shape is overwritten *)
Definition getSamples (samples : list vec) : res (list vec) :=
  s0 <- vgetU samples 0 ;;
  for_ 0 (List.length samples) (fun i out => s <- vgetU samples i ;; vsetU out i s)
    (repeat (repeat (#0) (List.length s0)) (List.length samples)).

(** the clamp of measerr_scale, carpack.cpp L64-65, L202-203, L452-453, L620-621 *)
Definition clamp_scale (x : F) : F := fmax A (fmin A x (fdec A 199 100)) (fdec A 51 100).
(** measerr_dof_ = 50, carpack.hpp L63 *)
Definition draw_scale (g : gen) : F * gen :=
  let (x, g1) := scaled_inverse_chisqr 50 (#1) g in (clamp_scale x, g1).
(** y_.n_elem, carpack.cpp L48, L194, L440, L611, and y.size(), carmcmc.cpp L35-54 *)
Definition nobs (l : vec) : F := #(Z.of_nat (List.length l)).
(** y_.n_elem - 1, converted to int; carpack.cpp L44, L191, L437, L608 *)
Definition dofs (l : vec) : Z := Z.of_nat (List.length l) - 1.

(** ** CAR1 *)
(** CAR1::StartingValue, carpack.cpp L38-81 *)
Definition set_filter1 (b : base A F) (om sig scale mu : F) : res (base A F) :=
  s <- Filter (methods1 A)
         (SetTimeSeries (SetTimeSeriesErr (SetSigsqr (SetOmega1 (b_kf b) om) sig) (scaled_err b scale)) (centred b mu)) ;;
  Ok (set_kf b s).
(** CAR1::StartingValue, carpack.cpp L38-81 *)
Definition Start1 (b : base A F) (g : gen) : res (vec * base A F * gen) :=
  v <- vvar A (b_y b) ;;
  let (sd2, g1) := scaled_inverse_chisqr (dofs (b_y b)) v g in
  let sd := fsqrt A sd2 in
  let (mu, g2) := rnorm (vmean A (b_y b)) (sd ⊘ nobs (b_y b)) g1 in
  dt <- make_dt A (b_time b) ;;
  med <- vmedian A vsort dt ;;
  let (u, g3) := runiform (#1) (#50) g2 in
  let lo := fmin A (fneg A (#1) ⊗ flog A (med ⊗ u)) (max_freq (b_bounds b)) in
  let sigma := sd ⊗ fsqrt A (#2 ⊗ fexp A lo) in
  let (scale, g4) := draw_scale g3 in
  b' <- set_filter1 b (fexp A lo) (sigma ⊗ sigma) scale mu ;;
  Ok ([sd; scale; mu; lo], b', g4).
(** CAR1::SetStartingValue, carpack.cpp L83-113 *)
Definition SetStart1 (b : base A F) (init : vec) (g : gen) : res (vec * base A F * gen) :=
  if negb (List.length init =? 4) then Start1 b g else
  '(lp, b1) <- LogDensity (car1_cls A) b init ;;
  if negb (ffin A lp) then Start1 b1 g else
  sd <- vgetU init 0 ;;
  scale <- vgetU init 1 ;;
  mu <- vgetU init 2 ;;
  lo <- vgetU init 3 ;;
  let sigma := sd ⊗ fsqrt A (#2 ⊗ fexp A lo) in
  b2 <- set_filter1 b1 (fexp A lo) (sigma ⊗ sigma) scale mu ;;
  Ok (init, b2, g).

(** ** CARp, CARMA, ZCARMA *)
(** log(max_freq_ / min_freq) * x + log(min_freq), exponentiated: carpack.cpp L275-276, L283-284 *)
Definition log_grid (mx mn x : F) : F := fexp A (flog A (mx ⊘ mn) ⊗ x ⊕ flog A mn).
(** CARp::StartingAR, carpack.cpp L268-311.  For p = 1 the index p_/2-1 is -1 and the checked access throws. *)
Definition StartingAR (p : nat) (b : base A (kpx A)) (g : gen) : res (vec * gen) :=
  hi <- vmax A (b_time b) ;;
  lo <- vmin A (b_time b) ;;
  let mn := #1 ⊘ (hi ⊖ lo) in
  let mx := max_freq (b_bounds b) in
  let h := (p + 1) / 2 in
  let (c0, g1) := draws h (on_a (a_randu R)) g in
  match dsort (map (log_grid mx mn) c0) with
  | None => Throw Elogic
  | Some cent0 =>
    let (w0, g2) := draws h (on_a (a_randu R)) g1 in
    let wid0 := map (log_grid mx mn) w0 in
    '(cent, wid, g3) <-
      (if Nat.odd p then
         cent <- vset cent0 (p / 2) (#0) ;;
         j <- idxm1 (p / 2) ;;
         cj <- vget cent j ;;
         let (u, g3) := runiform (flog A mn) (flog A cj) g2 in
         wid <- vset wid0 (p / 2) (fexp A u) ;;
         Ok (cent, wid, g3)
       else Ok (cent0, wid0, g2)) ;;
    loga <- for_ 0 (p / 2) (fun i acc =>
        w <- vget wid i ;;
        c <- vget cent i ;;
        let re := fneg A (#2) ⊗ fpi A ⊗ w in
        let im := #2 ⊗ fpi A ⊗ c in
        l1 <- vset acc (2 * i) (flog A (re ⊗ re ⊕ im ⊗ im)) ;;
        vset l1 (1 + 2 * i) (flog A (fneg A (#2) ⊗ re))) (zeros A p) ;;
    loga' <- (if Nat.odd p then
                w <- vget wid (p / 2) ;;
                vset loga (p - 1) (flog A (fneg A (fneg A (#2) ⊗ fpi A ⊗ w)))
              else Ok loga) ;;
    Ok (loga', g3)
  end.

Section Cp.
Variable p : nat.
Variable C : cls A (kpx A) (list cx).
Local Notation base := (base A (kpx A)).

(** the setters and Filter() in StartingValue and SetStartingValue: carpack.cpp L209-218, L254-262 (without SetMA)
    and L459-469, L501-509, L627-637, L667-675 (with SetMA) *)
Definition set_filterp (b : base) (sig : F) (om : list cx) (ma : option vec) (scale mu : F) : res base :=
  let s1 := SetOmegap (SetSigsqr (b_kf b) sig) om in
  let s2 := match ma with Some m => SetMAp s1 m | None => s1 end in
  s <- Filter (methodsp solve) (SetTimeSeries (SetTimeSeriesErr s2 (scaled_err b scale)) (centred b mu)) ;;
  Ok (set_kf b s).

(** One pass of the while loop of CARp::StartingValue (carpack.cpp L182-227), CARMA::StartingValue (L422-474) and
    ZCARMA::StartingValue (L592-641).  [extra] draws the coordinates after the autoregressive ones: none for CARp,
    StartingMA for CARMA (L431-432), logit(StartingKappa()) for ZCARMA (L601).  [early]: CARMA returns to the head of
    the loop when sigsqr is not finite (L444-447).  [withma]: CARMA and ZCARMA call SetMA, CARp does not.
    The while loop ends when the third component is true. *)
Variable extra : gen -> vec * gen.
Variables early withma : bool.
Definition start_try (b : base) (g : gen) : res (vec * base * bool * gen) :=
  '(loga, g1) <- StartingAR p b g ;;
  let (ex, g2) := extra g1 in
  let tail := loga ++ ex in
  let th0 := #0 :: #0 :: #0 :: tail in
  ma <- v_MA C th0 ;;
  v <- vvar A (b_y b) ;;
  let (yvar, g3) := scaled_inverse_chisqr (dofs (b_y b)) v g2 in
  let (mu, g4) := rnorm (vmean A (b_y b)) (fsqrt A yvar ⊘ nobs (b_y b)) g3 in
  roots <- ARRoots A p th0 ;;
  let sig := yvar ⊘ Variance roots ma (#1) (#0) in
  if early && negb (ffin A sig) then Ok (th0, b, false, g4) else
  let (scale, g5) := draw_scale g4 in
  let th := fsqrt A yvar :: scale :: mu :: tail in
  b1 <- set_filterp b sig roots (if withma then Some ma else None) scale mu ;;
  '(lp, b2) <- LogDensity C b1 th ;;
  Ok (th, b2, ffin A lp, g5).
(** the while loop; [fuel] bounds the number of passes (Diverge when it does not suffice); carpack.cpp L182-227, L422-474, L592-641 *)
Fixpoint start_while (fuel : nat) (b : base) (g : gen) : res (vec * base * gen) :=
  match fuel with
  | O => Diverge
  | S k =>
    '(th, b', ok, g') <- start_try b g ;;
    if ok : bool then Ok (th, b', g') else start_while k b' g'
  end.
(** CARp::SetStartingValue (carpack.cpp L233-265), CARMA::SetStartingValue (L479-512), ZCARMA::SetStartingValue
    (L645-678); [len] is p_+3, p_+q_+3, p_+4 *)
Definition set_start (len fuel : nat) (b : base) (init : vec) (g : gen) : res (vec * base * gen) :=
  if negb (List.length init =? len) then start_while fuel b g else
  '(lp, b1) <- LogDensity C b init ;;
  if negb (ffin A lp) then start_while fuel b1 g else
  t0 <- vget init 0 ;;
  scale <- vget init 1 ;;
  mu <- vget init 2 ;;
  roots <- ARRoots A p init ;;
  ma <- v_MA C init ;;
  let sig := t0 ⊗ t0 ⊘ Variance roots ma (#1) (#0) in
  b2 <- set_filterp b1 sig roots (if withma then Some ma else None) scale mu ;;
  Ok (init, b2, g).
End Cp.

(** StartingMA, carpack.cpp L515-519 *)
Definition StartingMA (q : nat) (g : gen) : vec * gen :=
  let (z, g1) := draws q (on_a (a_randn R)) g in (map (fabs A) z, g1).
(** logit(StartingKappa()), carpack.cpp L601, L681-684; RandGen.uniform() has the default bounds 0, 1 *)
Definition start_kappa (g : gen) : vec * gen :=
  let (u, g1) := runiform (#0) (#1) g in ([logit A u], g1).

(** ** The parameter classes as the engine sees them *)
(** the virtual methods of CAR1, carpack.hpp L251-279 *)
Definition par1 : methodsP R (base A F) vec :=
  mkP (fun b v => LogDensity (car1_cls A) b v) (fun b g => Start1 b g) (fun b v g => SetStart1 b v g)
    (fun b v => base_save (car1_cls A) b v).
(** the virtual methods of the classes with p > 1, carpack.hpp L285-461 *)
Definition parp (fuel p : nat) (C : cls A (kpx A) (list cx)) (extra : gen -> vec * gen) (early withma : bool) (len : nat)
  : methodsP R (base A (kpx A)) vec :=
  mkP (fun b v => LogDensity C b v) (fun b g => start_while p C extra early withma fuel b g)
    (fun b v g => set_start p C extra early withma len fuel b v g) (fun b v => base_save C b v).
(** CARp, carpack.hpp L285-336 *)
Definition par_carp (fuel p : nat) := parp fuel p (carp_cls solve p) (fun g => ([], g)) false false (p + 3).
(** ZCAR, carpack.hpp L341-363 *)
Definition par_zcar (fuel p : nat) := parp fuel p (zcar_cls solve p) (fun g => ([], g)) false false (p + 3).
(** CARMA, carpack.hpp L369-399 *)
Definition par_carma (fuel p q : nat) := parp fuel p (carma_cls solve p q) (StartingMA q) true true (p + q + 3).
(** ZCARMA, carpack.hpp L406-461 *)
Definition par_zcarma (fuel p : nat) (klow khigh : F) :=
  parp fuel p (zcarma_cls solve p klow khigh) start_kappa false true (p + 4).

(** ** src/carmcmc.cpp *)
(** the population variance of L35-38 and L85-88 *)
Definition pop_var (y : vec) : F :=
  let n := nobs y in
  let mean := fold_left (fadd A) y (#0) ⊘ n in
  fold_left (fun s x => s ⊕ x ⊗ x) y (#0) ⊘ n ⊖ mean ⊗ mean.
(** the initial proposal covariance, L50-54 and L132-136 (prop_covar(2,2) throws for less than three parameters) *)
Definition prop_covar (n : nat) (y : vec) : mat A :=
  let var := pop_var y in
  mbuild n n (fun i j =>
    if negb (i =? j) then #0
    else if i =? 0 then #2 ⊗ var ⊗ var ⊘ nobs y
    else if i =? 2 then var ⊘ nobs y
    else #1 ⊗ fdec A 1 100 ⊗ fdec A 1 100).
(** arma::linspace(0, log(100), n), L94: for n = 1 the single element is the end value *)
Definition linspace (a b : F) (n : nat) : vec :=
  vbuild n (fun i => if i =? n - 1 then b else a ⊕ #(Z.of_nat i) ⊗ ((b ⊖ a) ⊘ #(Z.of_nat (n - 1)))).
(** temp_ladder, carmcmc.cpp L94-95 *)
Definition temp_ladder (n : nat) : vec := map (fexp A) (linspace (#0) (flog A (#100)) n).

Variable si : vec -> option (list nat).
Variable chol : mat A -> option (mat A).

(** a new parameter object: [v0], [l0] are the indeterminate contents of value_ (of size n) and log_posterior_; carmcmc.cpp L63-65, L104-114 *)
Definition new_param {X} (b : base A X) (v0 : vec) (l0 temp : F) (track : bool) (label : string)
  : param A (base A X) vec := mkW A b v0 l0 temp track label [] [].

(** RunCar1Sampler, L30-77: the parameter at the end (the returned copy shares the filter and the vectors).  [raw],
    [v0], [l0], [a0]: indeterminate members. *)
Definition RunCar1Sampler (sample_size burnin : nat) (t y e : vec) (thin : nat) (init : vec)
  (raw : kf1 A) (v0 : vec) (l0 a0 : F) (g : gen) : res (param A (base A F) vec * gen) :=
  b <- car1_new si raw t y e ;;
  b1 <- SetPrior b (#10 ⊗ fsqrt A (pop_var y)) ;;
  let w := new_param b1 v0 l0 (#1) true "CAR(1)" in
  r <- ram_new chol (prop_covar 4 y) (fdec A 1 4) burnin a0 ;;
  '(ss, tr) <- AddSteps ([], []) [w] [SRam 0 r] ;;
  s <- Run par1 (@student_draw A R) sample_size burnin thin tr init (mkSys [w] ss g) ;;
  w' <- vgetU (y_pars s) 0 ;;
  Ok (w', y_gen s).

(** RunCarmaSampler, L79-177, for the three kinds of walker it creates.  [mk] is the walker constructor, [M] its class,
    [npar] the number of parameters, [label] its label. *)
Fixpoint mk_walkers {X} (mk : res (base A X)) (sd : F) (v0 : vec) (l0 : F) (label : string) (temps : vec)
  : res (list (param A (base A X) vec)) :=
  match temps with
  | [] => Ok []
  | T :: r =>
    b <- mk ;;
    b1 <- SetPrior b sd ;;
    ws <- mk_walkers mk sd v0 l0 label r ;;
    Ok (new_param b1 v0 l0 T false label :: ws)
  end.
(** the steps added at L147-152: RAM and exchange for walkers n-1, ..., 1 *)
Fixpoint hot_steps (n : nat) (r : ram A) (e : exch A) : list (step A) :=
  match n with O => [] | S k => SRam n r :: SExch n e :: hot_steps k r e end.
(** RunCarmaSampler, carmcmc.cpp L79-177, for one kind of walker *)
Definition run_carma {X} (M : methodsP R (base A X) vec) (mk : res (base A X)) (npar : nat) (label : string)
  (sample_size burnin : nat) (y : vec) (nwalkers thin : nat) (init : vec)
  (v0 : vec) (l0 a0 : F) (g : gen) : res (param A (base A X) vec * gen) :=
  ws <- mk_walkers mk (#10 ⊗ fsqrt A (pop_var y)) v0 l0 label (temp_ladder nwalkers) ;;
  let e0 := mkExch A (Z.of_nat (burnin + thin * sample_size)) 0 0 a0 in
  w0 <- vgetU ws 0 ;;
  r <- ram_new chol (prop_covar npar y) (fdec A 1 4) burnin a0 ;;
  st <- AddSteps ([], []) ws (hot_steps (nwalkers - 1) r e0) ;;
  let ws1 := upd ws 0 (SetTracking w0 true) in
  '(ss, tr) <- AddSteps st ws1 [SRam 0 r] ;;
  s <- Run M (@student_draw A R) sample_size burnin thin tr init (mkSys ws1 ss g) ;;
  w' <- vgetU (y_pars s) 0 ;;
  Ok (w', y_gen s).
(** p > 1 is asserted at L84 (a failed assert aborts; the model throws) *)
Definition RunCarmaSampler (fuel sample_size burnin : nat) (t y e : vec) (p q nwalkers : nat) (do_zcarma : bool)
  (thin : nat) (init : vec) (raw : kfp A) (v0 : vec) (l0 a0 : F) (g : gen)
  : res (param A (base A (kpx A)) vec * gen) :=
  if p <? 2 then Throw Elogic else
  if do_zcarma then
    run_carma (par_zcar fuel p) (zcar_new si raw p t y e) (3 + p) "ZCAR(p) Parameters" sample_size burnin y nwalkers thin init v0 l0 a0 g
  else if q =? 0 then
    run_carma (par_carp fuel p) (carp_new si raw p t y e) (3 + p + q) "CAR(p) Parameters" sample_size burnin y nwalkers thin init v0 l0 a0 g
  else
    run_carma (par_carma fuel p q) (carp_new si raw p t y e) (3 + p + q) "CARMA(p,q) Parameters" sample_size burnin y nwalkers thin init v0 l0 a0 g.
End Start.
