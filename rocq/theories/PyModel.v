(** Model of the Python layer, src/carmcmc/carma_pack.py.  Conventions: any Python exception (IndexError, TypeError, ValueError,
    ZeroDivisionError, LinAlgError) is [Throw Elogic]; numpy arrays are lists; [x ** 2] is [x * x]; a float scaling a complex
    array scales both parts; nothing that is only printed or plotted is modelled.  setup.py needs Python 3 (f-strings), so
    Python 3 semantics are used. *)
From Coq Require Import List Arith ZArith Bool.
From Verif Require Import Arith Res KFModel Cx KFpModel CarpackModel EngineModel StartModel.
Import ListNotations.

Set Implicit Arguments.

Section Py.
Variable A : Arith.
Local Notation F := (F A).
Local Notation cx := (cx A).
Local Notation "x ⊕ y" := (fadd A x y) (at level 50, left associativity).
Local Notation "x ⊖ y" := (fsub A x y) (at level 50, left associativity).
Local Notation "x ⊗ y" := (fmul A x y) (at level 40, left associativity).
Local Notation "x ⊘ y" := (fdiv A x y) (at level 40, left associativity).
Local Notation "# z" := (fofZ A z) (at level 5).
Local Notation vec := (list F).
Local Notation two := (#2).

(** ** CarmaModel *)

(** The mask aux[1:] != aux[:-1] of np.unique, applied to the values and to the permutation: [prev] is the element before. See np.unique as called at carma_pack.py L34-36. *)
Fixpoint uniq_rest (prev : F) (aux : vec) (perm : list nat) : vec * list nat :=
  match aux, perm with
  | x :: aux', i :: perm' =>
    let r := uniq_rest x aux' perm' in
    if feq A x prev then r else (x :: fst r, i :: snd r)
  | _, _ => ([], [])
  end.
(** np.unique(ar, return_index=True): argsort (mergesort), take, mask.  The collapsing of several NaN is not modelled. See carma_pack.py L34-36. *)
Definition np_unique (argsort : vec -> list nat) (ar : vec) : res (vec * list nat) :=
  let perm := argsort ar in
  aux <- velem ar perm ;;
  match aux, perm with
  | x :: aux', i :: perm' => let r := uniq_rest x aux' perm' in Ok (x :: fst r, i :: snd r)
  | _, _ => Ok ([], [])
  end.

(** A CarmaModel object: time, y, ysig (the std::vector copies _time, _y, _ysig are equal to them), p, q; carma_pack.py L37-51 *)
Record cmodel := mkCM { c_time : vec; c_y : vec; c_ysig : vec; c_p : nat; c_q : nat }.

(** CarmaModel.__init__, carma_pack.py L17-51.  The test [p > q] at L27-30 is evaluated and dropped.  [argsort] is np.argsort
    (quicksort: ties in any order), [usort] the argsort inside np.unique. *)
Definition CarmaModel_new (argsort usort : vec -> list nat) (time y ysig : vec) (p q : nat) : res cmodel :=
  let s_idx := argsort time in
  ts <- velem time s_idx ;;
  '(_, u) <- np_unique usort ts ;;
  u_idx <- velem s_idx u ;;
  t' <- velem time u_idx ;;
  y' <- velem y u_idx ;;
  e' <- velem ysig u_idx ;;
  Ok (mkCM t' y' e' p q).

(** CarmaModel.run_mcmc, L53-90, for p = 1 and for p > 1 (the conversion to a Python sample object is below).  nburnin = None is
    int(nsamples / 2), ntemperatures = None is max(10, p + q), init = None an empty vector. *)
Definition default_burnin (nsamples : nat) (nburnin : option nat) : nat :=
  match nburnin with Some b => b | None => nsamples / 2 end.
(** ntemperatures, L53-90 *)
Definition default_temps (m : cmodel) (nt : option nat) : nat :=
  match nt with Some k => k | None => Nat.max 10 (c_p m + c_q m) end.
(** init, L73-75 *)
Definition default_init (init : option vec) : vec := match init with Some v => v | None => [] end.
(** run_mcmc for p = 1, L53-90 *)
Definition run_mcmc1 (R : rng A) vsort si chol (m : cmodel) (nsamples : nat) (nburnin : option nat) (nthin : nat) (init : option vec)
    raw v0 l0 a0 (g : gen R) :=
  RunCar1Sampler (R := R) vsort si chol nsamples (default_burnin nsamples nburnin) (c_time m) (c_y m) (c_ysig m) nthin (default_init init) raw v0 l0 a0 g.
(** run_mcmc for p > 1, L53-90 *)
Definition run_mcmcp (R : rng A) dsort solve si chol fuel (m : cmodel) (nsamples : nat) (nburnin nt : option nat) (nthin : nat) (init : option vec)
    raw v0 l0 a0 (g : gen R) :=
  RunCarmaSampler (R := R) dsort solve si chol fuel nsamples (default_burnin nsamples nburnin) (c_time m) (c_y m) (c_ysig m)
    (c_p m) (c_q m) (default_temps m nt) false nthin (default_init init) raw v0 l0 a0 g.

(** ** Maximum likelihood *)

(** scipy.optimize.OptimizeResult: x and fun.  The results of the trials (_get_mle_single, L195-252: a short MCMC run and L-BFGS-B
    from a random starting point) are an argument of the model. *)
Record opt := mkOpt { o_x : vec; o_fun : F }.

(** CarmaModel.get_mle, L92-129.  With njobs == 1, [MLEs] is a Python 3 map object and MLEs[0] (L121) raises TypeError;
    otherwise it is a list, and MLEs[0] raises IndexError if it is empty.  [cpus] is multiprocessing.cpu_count(). *)
Definition better (best m : opt) : opt := if flt A (o_fun m) (o_fun best) then m else best.
(** CarmaModel.get_mle, L92-129 *)
Definition get_mle (cpus njobs : Z) (trials : list opt) : res opt :=
  let njobs' := if Z.eqb njobs (-1) then cpus else njobs in
  if Z.eqb njobs' 1 then Throw Elogic else
  match trials with
  | [] => Throw Elogic
  | m :: _ => Ok (fold_left better trials m)
  end.

(** ** The starting point and the bounds of the optimiser *)

(** np.mean, np.var and np.std (sums from left to right; the variance divides by the number of values) *)
Definition np_var (l : vec) : F := let m := vmean A l in vmean A (map (fun x => (x ⊖ m) ⊗ (x ⊖ m)) l).
Definition np_std (l : vec) : F := fsqrt A (np_var l).
(** theta_bnds of _get_mle_single, L218-240; [None] for (None, None) *)
Definition mle_bounds (p q : nat) (time y : vec) : res (list (option (F * F))) :=
  let ysigma := np_std y in
  dmin <- vmin A (diffs A time) ;;
  let maxf := fdec A 9 10 ⊗ (#1 ⊘ dmin) in
  hi <- vmax A time ;;
  lo <- vmin A time ;;
  let minf := #1 ⊘ (hi ⊖ lo) in
  let first := [Some (ysigma ⊘ #10, #10 ⊗ ysigma); Some (fdec A 9 10, fdec A 11 10); None] in
  Ok (first ++ if p =? 1 then [Some (flog A minf, flog A maxf)]
               else repeat (Some (flog A (fmin A (minf ⊗ minf) (two ⊗ minf)), flog A (fmax A (maxf ⊗ maxf) (two ⊗ maxf)))) p ++ repeat None q).
(** L244-248; [u j lo hi] is np.random.uniform(lo, hi) called for the entry j *)
Fixpoint clip_start (u : nat -> F -> F -> F) (j : nat) (theta : vec) (bnds : list (option (F * F))) : res vec :=
  match theta with
  | [] => Ok []
  | x :: th =>
    match bnds with
    | [] => Throw Elogic
    | b :: bs =>
      r <- clip_start u (S j) th bs ;;
      Ok ((match b with
           | Some (lo, hi) => if flt A x lo || flt A hi x then u j lo hi else x
           | None => x
           end) :: r)
    end
  end.
(** The point handed to the optimiser: L211-213 and L244-248.  [theta] is the first sample of the short run. *)
Definition mle_start (u : nat -> F -> F -> F) (p q : nat) (time y theta : vec) : res vec :=
  th <- vset theta 1 (#1) ;;
  b <- mle_bounds p q time y ;;
  clip_start u 0 th b.
(** _carma_loglik, L255-260 *)
Definition mle_objective {X Om} (C : cls A X Om) (b : base A X) (theta : vec) : res F :=
  '(l, _) <- LogDensity C b theta ;; Ok (fneg A l).

(** The default list of orders, L162-166: qmax is not used *)
Definition pq_grid (pmax : nat) (qmax : option nat) : list (nat * nat) :=
  flat_map (fun p => map (fun q => (p, q)) (seq 0 p)) (seq 1 pmax).
(** L178-180; n is self.time.size.  All operands of the last division are Python numbers, so a zero divisor raises
    ZeroDivisionError. *)
Definition py_aicc (n : nat) (pq : nat * nat) (f : F) : res F :=
  let nparams := #(Z.of_nat (2 + fst pq + snd pq)) in
  let deviance := two ⊗ f in
  let d := #(Z.of_nat n) ⊖ nparams ⊖ #1 in
  if feq A d (#0) then Throw Elogic
  else Ok (two ⊗ nparams ⊕ deviance ⊕ two ⊗ nparams ⊗ (nparams ⊕ #1) ⊘ d).
(** state of the loop L177-188: best_AICc, best_MLE, AICc, self.p, self.q *)
Record ostate := mkOS { os_best : F; os_mle : opt; os_aicc : vec; os_p : nat; os_q : nat }.
Definition order_step (n : nat) (st : ostate) (mp : opt * (nat * nat)) : res ostate :=
  let (m, pq) := mp in
  a <- py_aicc n pq (o_fun m) ;;
  Ok (if flt A a (os_best st) then mkOS a m (os_aicc st ++ [a]) (fst pq) (snd pq)
      else mkOS (os_best st) (os_mle st) (os_aicc st ++ [a]) (os_p st) (os_q st)).
(** the loop L177-188 *)
Fixpoint order_loop (n : nat) (l : list (opt * (nat * nat))) (st : ostate) : res ostate :=
  match l with
  | [] => Ok st
  | x :: r => st' <- order_step n st x ;; order_loop n r st'
  end.
(** get_mle for each order in turn, L131-192 *)
Fixpoint mles (f : nat * nat -> res opt) (l : list (nat * nat)) : res (list opt) :=
  match l with
  | [] => Ok []
  | pq :: r => m <- f pq ;; ms <- mles f r ;; Ok (m :: ms)
  end.
(** the literal 1e300 of L173 *)
Definition big : F := fdec A (10 ^ 300) 1.
(** CarmaModel.choose_order, L131-192.  [trials pq] are the results of the optimiser for that order.  Returns best_MLE, pqlist,
    AICc and the object with its new p and q. *)
Definition choose_order (cpus njobs : Z) (trials : nat * nat -> list opt) (m : cmodel) (pmax : nat) (qmax : option nat)
    (pqlist : option (list (nat * nat))) : res (opt * list (nat * nat) * vec * cmodel) :=
  let l := match pqlist with Some l => l | None => pq_grid pmax qmax end in
  ms <- mles (fun pq => get_mle cpus njobs (trials pq)) l ;;
  match ms with
  | [] => Throw Elogic
  | m0 :: _ =>
    st <- order_loop (length (c_time m)) (combine ms l) (mkOS big m0 [] (c_p m) (c_q m)) ;;
    Ok (os_mle st, l, os_aicc st, mkCM (c_time m) (c_y m) (c_ysig m) (os_p st) (os_q st))
  end.

(** ** The samples: parameters derived from a row of the trace *)

(** the roots of one quadratic term, L450-456 and L481-487 *)
Definition py_quad (quad1 quad2 : F) : list cx :=
  let disc := quad2 ⊗ quad2 ⊖ #4 ⊗ quad1 in
  let sd : cx := if flt A (#0) disc then (fsqrt A disc, #0) else (#0, fsqrt A (fabs A disc)) in
  let mh := fneg A (fdec A 1 2) in
  [cscale mh (cadd (quad2, #0) sd); cscale mh (csub (quad2, #0) sd)].
(** for i in range(int(n / 2)), L449 and L480 *)
Fixpoint py_quads (qc : vec) (k : nat) : res (list cx) :=
  match k with
  | O => Ok []
  | S k' => a <- vget qc 0 ;; b <- vget qc 1 ;; r <- py_quads (skipn 2 qc) k' ;; Ok (py_quad a b ++ r)
  end.
(** all the roots, with the linear term in the last place for odd n, L464-466 and L489-491 *)
Definition py_roots (qc : vec) (n : nat) : res (list cx) :=
  r <- py_quads qc (n / 2) ;;
  if Nat.odd n then c <- vget qc (length qc - 1) ;; Ok (r ++ [(fneg A c, #0)]) else Ok r.
(** 'quad_coefs' and _ar_roots, L425, L439-468; row is one row of the trace *)
Definition py_ar_roots (p : nat) (row : vec) : res (list cx) := py_roots (map (fexp A) (firstn p (skipn 3 row))) p.

(** np.convolve(a, [1, -zero]); inside np.poly, carma_pack.py L495, L509 *)
Definition convolve1 (a : list cx) (zero : cx) : list cx :=
  vbuild (length a + 1) (fun k => csub (vnth a k) (if k =? 0 then c0 A else cmul zero (vnth a (k - 1)))).
(** np.poly(roots); [isreal] is its test that the roots come in conjugate pairs, in which case the real part is returned; carma_pack.py L495, L509 *)
Definition np_poly (isreal : list cx -> bool) (roots : list cx) : list cx :=
  let a := fold_left convolve1 roots [c1 A] in
  if isreal roots then map (fun z => (fst z, #0)) a else a.
(** _ar_coefs, L502-511 *)
Definition py_ar_coefs (isreal : list cx -> bool) (roots : list cx) : vec := map fst (np_poly isreal roots).
(** _ma_coefs, L470-500 *)
Definition py_ma_coefs (isreal : list cx -> bool) (p q : nat) (row : vec) : res vec :=
  if q =? 0 then Ok [#1] else
  roots <- py_roots (map (fexp A) (skipn (3 + p) row)) q ;;
  let coefs := np_poly isreal roots in
  d <- vget coefs q ;;
  Ok (map fst (rev (map (fun c => cdiv c d) coefs))).
(** denom of _sigma_noise, L530-533 *)
Definition py_denom (roots : list cx) (k : nat) : cx :=
  fold_left (fun d l => if l =? k then d
                        else cmul d (cmul (csub (vnth roots l) (vnth roots k)) (cadd (conj (vnth roots l)) (vnth roots k))))
    (seq 0 (length roots)) (fneg A two ⊗ fst (vnth roots k), #0).
(** _sigma_noise, L513-546 *)
Definition py_sigma (roots : list cx) (ma : vec) (var : F) : F :=
  let s := csum (fun k => cdiv (cmul (ma_sum ma (vnth roots k)) (ma_sum ma (cscale (fneg A (#1)) (vnth roots k)))) (py_denom roots k)) (length roots) in
  fsqrt A (var ⊘ fst s).

(** a row of the CarmaSample dictionary: var, measerr_scale, mu, ar_roots, ma_coefs, sigma *)
Record drow := mkD { d_var : F; d_scale : F; d_mu : F; d_roots : list cx; d_ma : vec; d_sigma : F }.
(** generate_from_trace (L409-425; p = trace.shape[1] - 3 - q), _ar_roots, _ma_coefs, _sigma_noise *)
Definition py_derive (isreal : list cx -> bool) (q : nat) (row : vec) : res drow :=
  let p := length row - 3 - q in
  t0 <- vget row 0 ;; t1 <- vget row 1 ;; t2 <- vget row 2 ;;
  roots <- py_ar_roots p row ;;
  ma <- py_ma_coefs isreal p q row ;;
  let var := t0 ⊗ t0 in
  Ok (mkD var t1 t2 roots ma (py_sigma roots ma var)).
(** psd_width and psd_centroid, L457-462 (L467-468 are the same for a real root) *)
Definition py_width (r : cx) : F := fneg A (fst r) ⊘ (two ⊗ fpi A).
Definition py_centroid (r : cx) : F := fabs A (snd r) ⊘ (two ⊗ fpi A).

(** The 'loglik' entries of CarmaSample.__init__, L305-315: SetMLE(True), then getLogDensity (carpack.hpp L220-224) of each row *)
Fixpoint py_logliks {X Om} (C : cls A X Om) (b : base A X) (rows : list vec) : res (list F) :=
  match rows with
  | [] => Ok []
  | row :: r => '(l, b') <- LogDensity C b row ;; ls <- py_logliks C b' r ;; Ok (l :: ls)
  end.
Definition CarmaSample_loglik {X Om} (C : cls A X Om) (b : base A X) (rows : list vec) : res (list F) :=
  py_logliks C (SetMLE b true) rows.
(** The 'loglik' entries of Car1Sample.__init__, L893-901: logpost minus getLogPrior *)
Fixpoint Car1Sample_loglik (rows : list vec) (logpost : vec) : res (list F) :=
  match rows, logpost with
  | row :: r, lp :: lps => pr <- LogPrior A row ;; ls <- Car1Sample_loglik r lps ;; Ok ((lp ⊖ pr) :: ls)
  | [], [] => Ok []
  | _, _ => Throw Elogic
  end.

(** ** makeKalmanFilter and predict *)

(** numpy argmax: the first maximum, or the first NaN; np.argmax as used by bestfit = map, carma_pack.py L650-685 and L925-948 *)
Fixpoint argmax_loop (l : vec) (i : nat) (mp : F) (mi : nat) : nat :=
  match l with
  | [] => mi
  | x :: r => if fle A x mp then argmax_loop r (S i) mp mi
              else if feq A x x then argmax_loop r (S i) x i else i
  end.
(** np.argmax: ValueError for an empty array; L650-685 and L925-948 *)
Definition np_argmax (l : vec) : res nat :=
  match l with
  | [] => Throw Elogic
  | x :: r => Ok (if feq A x x then argmax_loop r 1 x 0 else 0)
  end.

(** Car1Sample.makeKalmanFilter for one set of sigma, mu, log_omega, L925-948: the KalmanFilter1 constructor of kfilter.hpp L224-233.
    The column 'measerr_scale' is not used. *)
Definition car1_filter si (raw : kf1 A) (time y ysig : vec) (sigma mu lo : F) : res (kf1 A) :=
  kf_new si (SetOmega1 (SetSigsqr raw (sigma ⊗ sigma)) (fexp A lo)) time (map (fun x => x ⊖ mu) y) ysig.
(** Car1Sample._sigma_noise, L922-923 *)
Definition car1_sigma (var lo : F) : F := fsqrt A (two ⊗ var ⊗ fexp A lo).
(** bestfit = 'map': L926-931 *)
Definition car1_map_filter si (raw : kf1 A) (time y ysig : vec) (rows : list vec) (logpost : vec) : res (kf1 A * F) :=
  i <- np_argmax logpost ;;
  row <- vget rows i ;;
  t0 <- vget row 0 ;; mu <- vget row 2 ;; lo <- vget row 3 ;;
  s <- car1_filter si raw time y ysig (car1_sigma (t0 ⊗ t0) lo) mu lo ;;
  Ok (s, mu).
(** CarmaSample.makeKalmanFilter for one set of sigma, mu, ar_roots, ma_coefs, L650-685.  The column 'measerr_scale' is not used. *)
Definition carma_filter si (raw : kfp A) (time y ysig : vec) (sigma mu : F) (roots : list cx) (ma : vec) : res (kfp A) :=
  kfp_new si raw time (map (fun x => x ⊖ mu) y) ysig (sigma ⊗ sigma) roots ma.
(** bestfit = 'map' of CarmaSample.makeKalmanFilter, L650-685 *)
Definition carma_map_filter isreal si (raw : kfp A) (time y ysig : vec) (q : nat) (rows : list vec) (logpost : vec) : res (kfp A * F) :=
  i <- np_argmax logpost ;;
  row <- vget rows i ;;
  d <- py_derive isreal q row ;;
  s <- carma_filter si raw time y ysig (d_sigma d) (d_mu d) (d_roots d) (d_ma d) ;;
  Ok (s, d_mu d).
(** predict, L773-807, for an array of times: Filter, then Predict at each time, and the mean added back *)
Fixpoint predict_loop {X} (M : methods A X) (s : kf A X) (mu : F) (ts : vec) : res (list (F * F)) :=
  match ts with
  | [] => Ok []
  | t :: r => '(m, v, s') <- m_Predict M s t ;; l <- predict_loop M s' mu r ;; Ok ((m ⊕ mu, v) :: l)
  end.
(** predict, L773-807 *)
Definition py_predict {X} (M : methods A X) (s : kf A X) (mu : F) (ts : vec) : res (list (F * F)) :=
  s' <- Filter M s ;; predict_loop M s' mu ts.

(** simulate, L809-840: Filter, Simulate, and the mean added back *)
Definition py_simulate {X G} (M : methods A X) (draw : G -> F * G) vsort (s : kf A X) (mu : F) (ts : vec) (g : G) : res (vec * G) :=
  s' <- Filter M s ;;
  '(out, _, g') <- Simulate M draw vsort s' ts g ;;
  Ok (map (fun x => x ⊕ mu) out, g').
(** the standardised residuals of assess_fit, L719-723 *)
Definition std_residuals {X} (M : methods A X) (s : kf A X) (y : vec) (mu : F) : res vec :=
  s' <- Filter M s ;;
  Ok (map (fun x => (fst x ⊖ mu ⊖ fst (snd x)) ⊘ fsqrt A (snd (snd x))) (combine y (combine (k_mean s') (k_var s')))).
(** DIC, L842-857 *)
Definition py_dic (loglik : vec) : F :=
  let d := map (fun x => fneg A two ⊗ x) loglik in
  vmean A d ⊕ fdec A 1 2 ⊗ np_var d.
(** one sample of the spectrum in Car1Sample.plot_power_spectrum, L1002-1006 *)
Definition car1_psd (sigma lo f : F) : F :=
  let w := fexp A lo in
  sigma ⊗ sigma ⊘ (w ⊗ w ⊕ (two ⊗ fpi A ⊗ f) ⊗ (two ⊗ fpi A ⊗ f)).

(** bestfit = 'mean' for the roots: np.mean(ar_roots, axis=0), L668 *)
Definition mean_roots (p : nat) (samples : list (list cx)) : list cx :=
  vbuild p (fun k => cdivr (csum (fun i => vnth (nth i samples []) k) (length samples)) (#(Z.of_nat (length samples)))).

(** ** Functions of the module *)

(** get_ar_roots, L1038-1059 *)
Fixpoint ar_roots_loop (w c : vec) : res (list cx) :=
  match c with
  | [] => Ok []
  | ci :: c' =>
    match w with
    | [] => Throw Elogic
    | wi :: w' =>
      r <- ar_roots_loop w' c' ;;
      Ok (if flt A (fdec A 1 (10 ^ 10)) ci then (wi, ci) :: (wi, fneg A ci) :: r else (wi, ci) :: r)
    end
  end.
(** get_ar_roots, L1038-1059 *)
Definition get_ar_roots (w c : vec) : res (list cx) :=
  l <- ar_roots_loop w c ;;
  l' <- (if length w =? length c + 1 then x <- vget w (length w - 1) ;; Ok (l ++ [(x, #0)]) else Ok l) ;;
  Ok (map (cscale (fneg A two ⊗ fpi A)) l').

(** np.polyval; L1078-1079 *)
Definition polyval (p : vec) (x : cx) : cx := fold_left (fun y c => cadd (cmul y x) (c, #0)) p (c0 A).
(** power_spectrum at one frequency, L1062-1081 *)
Definition power_spectrum (f sigma : F) (ar ma : vec) : F :=
  let x := (#0, two ⊗ fpi A ⊗ f) in
  let m := cabs (polyval (rev ma) x) in
  let a := cabs (polyval ar x) in
  sigma ⊗ sigma ⊗ (m ⊗ m) ⊘ (a ⊗ a).

(** the padding with zeros, L1098-1101 and L1169-1173 (a longer list of MA coefficients is left as it is) *)
Definition py_pad (p : nat) (ma : vec) : vec := if length ma <? p then ma ++ repeat (#0) (p - length ma) else ma.
(** carma_variance, L1084-1123 *)
Definition py_den (roots : list cx) (k : nat) : cx :=
  cscale (fst (vnth roots k))
    (cscale (fneg A two) (cprod (fun l => if l =? k then c1 A
       else cmul (csub (vnth roots l) (vnth roots k)) (cadd (conj (vnth roots l)) (vnth roots k))) (length roots))).
(** the sums over the moving average coefficients in carma_variance, L1084-1123 *)
Definition py_masum (p : nat) (ma : vec) (z : cx) : cx := csum (fun l => cscale (nth l ma (#0)) (cpown z l)) p.
(** carma_variance, L1084-1123 *)
Definition carma_variance (sigsqr : F) (roots : list cx) (ma0 : vec) (lag : F) : F :=
  let p := length roots in
  let ma := py_pad p ma0 in
  let s := csum (fun k =>
      let rk := vnth roots k in
      cdiv (cmul (cmul (py_masum p ma rk) (py_masum p ma (cscale (fneg A (#1)) rk))) (cexp (cscale (fabs A lag) rk))) (py_den roots k)) p in
  sigsqr ⊗ fst s.

(** np.random.standard_normal / np.random.normal(mu, sd) = mu + sd * (standard normal).  [z i] is the i-th standard normal number
    the call draws. *)
Variable z : nat -> F.
(** the loop of car1_process, L1140-1144 *)
Fixpoint car1_loop (mv tau : F) (i : nat) (tp yp : F) (ts : vec) : vec :=
  match ts with
  | [] => []
  | t :: r =>
    let dt := t ⊖ tp in
    let rho := fexp A (fneg A dt ⊘ tau) in
    let cv := mv ⊗ (#1 ⊖ rho ⊗ rho) in
    let y := rho ⊗ yp ⊕ fsqrt A cv ⊗ z i in
    y :: car1_loop mv tau (S i) t y r
  end.
(** car1_process, L1126-1146 *)
Definition car1_process (time : vec) (sigsqr tau : F) : res vec :=
  match time with
  | [] => Throw Elogic
  | t0 :: r =>
    let mv := sigsqr ⊗ tau ⊘ two in
    let y0 := fsqrt A mv ⊗ z 0 in
    Ok (y0 :: car1_loop mv tau 1 t0 y0 r)
  end.

(** the loop of carma_process, L1238-1257 *)
Fixpoint carma_loop (p : nat) (om b : list cx) (SV : list (list cx)) (i : nat) (tp : F) (st : list cx) (PV : list (list cx))
    (kv innov : F) (ts : vec) : vec :=
  match ts with
  | [] => []
  | t :: r =>
    let g := gainf p b PV kv in
    let st1 := axpy p st g innov in
    let PV1 := condV p PV g kv in
    let rho := rhof p om (t ⊖ tp) in
    let st2 := schur p rho st1 in
    let PV2 := propV p rho PV1 SV in
    let m := linf p b st2 in
    let v := quadf p b PV2 in
    let y := m ⊕ fsqrt A v ⊗ z i in
    y :: carma_loop p om b SV (S i) t st2 PV2 v (y ⊖ m) r
  end.
(** carma_process, L1148-1259.  Returns the series and the caller's array [time], which is sorted in place (L1175) unless p = 1.
    The tests of stationarity and of distinct roots (L1176-1191) are evaluated and dropped.  For p = 1 the single root is taken to
    be real; [ma0] is taken to be a numpy array and [time] to hold doubles (np.empty_like(time) at L1232 gives an integer series,
    truncating the values, for an integer time array: see PyIntModel). *)
Definition carma_process (vsort : vec -> option vec) (solve : list (list cx) -> list cx -> option (list cx))
    (time : vec) (sigsqr : F) (roots : list cx) (ma0 : vec) : res (vec * vec) :=
  let p := length roots in
  if p =? 1 then y <- car1_process time sigsqr (fneg A (#1) ⊘ fst (vnth roots 0)) ;; Ok (y, time) else
  if p =? 0 then Throw Elogic else
  let ma := py_pad p ma0 in
  match vsort time with
  | None => Throw Elogic
  | Some ts =>
    match solve (EigenMat roots) (Rvector A p) with
    | None => Throw Elogic
    | Some J =>
      if negb (length ma =? p) then Throw Elogic else
      let b := rotated roots ma in
      let SV := mbuild p p (state_upper sigsqr roots J) in
      let kv := quadf p b SV in
      match ts with
      | [] => Throw Elogic
      | t0 :: r =>
        let y0 := #0 ⊕ fsqrt A kv ⊗ z 0 in
        Ok (y0 :: carma_loop p roots b SV 1 t0 (czeros A p) SV kv y0 r, ts)
      end
    end
  end.
End Py.
