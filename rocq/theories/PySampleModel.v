(** Model of the remaining parts of the Python sample classes: src/carmcmc/samplers.py (MCMCSample) and the methods of CarmaSample and
    Car1Sample in src/carmcmc/carma_pack.py that PyModel does not have.  Conventions as in PyModel (Python 3; every exception is
    [Throw Elogic]). *)
From Coq Require Import List Arith ZArith Bool String.
From Verif Require Import Arith Res KFModel Cx KFpModel CarpackModel EngineModel StartModel PyModel.
Import ListNotations.

Set Implicit Arguments.

Section PySample.
Variable A : Arith.
Local Notation F := (F A).
Local Notation cx := (cx A).
Local Notation "x ⊕ y" := (fadd A x y) (at level 50, left associativity).
Local Notation "x ⊖ y" := (fsub A x y) (at level 50, left associativity).
Local Notation "x ⊗ y" := (fmul A x y) (at level 40, left associativity).
Local Notation "x ⊘ y" := (fdiv A x y) (at level 40, left associativity).
Local Notation "# z" := (fofZ A z) (at level 5).
Local Notation vec := (list F).
Local Notation two := (#2).
Local Notation half := (fdec A 1 2).

(** a Python loop that fills a list; for example carma_pack.py L439-468 *)
Fixpoint rmap {T U} (f : T -> res U) (l : list T) : res (list U) :=
  match l with
  | [] => Ok []
  | x :: r => y <- f x ;; ys <- rmap f r ;; Ok (y :: ys)
  end.

(** ** numpy: order statistics *)

(** the sort inside np.median and np.percentile: ascending, NaN last *)
Variable np_sort : vec -> vec.
(** the same for complex numbers: ordered by the real part, then by the imaginary part *)
Variable csort : list cx -> list cx.

(** np.floor / astype(int) of a number between 0 and m, as an index: the largest k <= m with k <= h; inside np.percentile, carma_pack.py L622-623, samplers.py L385-387 *)
Definition findex (m : nat) (h : F) : nat := List.length (filter (fun k => fle A (#(Z.of_nat k)) h) (seq 1 m)).

(** np.percentile(l, q), method 'linear': ValueError unless 0 <= q <= 100; virtual index (n - 1) * (q / 100); interpolation from the
    nearer end; NaN if the last sorted element is NaN.  (An empty array gives NaN or IndexError depending on the version; here it raises.); carma_pack.py L622-623 and L1009-1010, samplers.py L385-387 and L401-403 *)
Definition np_percentile (l : vec) (q : F) : res F :=
  if negb (fle A (#0) q && fle A q (#100)) then Throw Elogic else
  let s := np_sort l in
  let n := List.length s in
  match s with
  | [] => Throw Elogic
  | s0 :: _ =>
    let h := #(Z.of_nat (n - 1)) ⊗ (q ⊘ #100) in
    let k := findex (n - 1) h in
    let a := nth k s s0 in
    let b := nth (Nat.min (k + 1) (n - 1)) s s0 in
    let z := nth (n - 1) s s0 in
    let t := h ⊖ #(Z.of_nat k) in
    let d := b ⊖ a in
    Ok (if negb (feq A z z) then z
        else if fle A half t then b ⊖ d ⊗ (#1 ⊖ t) else a ⊕ d ⊗ t)
  end.

(** np.median(l): the mean of the one or two middle elements; NaN if the last sorted element is NaN; NaN for an empty array; carma_pack.py L624, L660-663, L934-936, samplers.py L383, L399 *)
Definition np_median (l : vec) : F :=
  let s := np_sort l in
  let n := List.length s in
  match s with
  | [] => vmean A []
  | s0 :: _ =>
    let z := nth (n - 1) s s0 in
    if negb (feq A z z) then z
    else if Nat.odd n then vmean A [nth (n / 2) s s0] else vmean A [nth (n / 2 - 1) s s0; nth (n / 2) s s0]
  end.
(** np.median of complex numbers (NaN not modelled); carma_pack.py L662 *)
Definition np_cmedian (l : list cx) : cx :=
  let s := csort l in
  let n := List.length s in
  if Nat.odd n then vnth s (n / 2) else cdivr (cadd (vnth s (n / 2 - 1)) (vnth s (n / 2))) two.

(** np.linspace(a, b, num=n), n >= 2: arange(n) * step + a, with the last element set to b; carma_pack.py L595, L704, L995, samplers.py L234-235 *)
Definition np_linspace (a b : F) (n : nat) : vec :=
  let step := (b ⊖ a) ⊘ #(Z.of_nat (n - 1)) in
  vbuild n (fun i => if i =? n - 1 then b else #(Z.of_nat i) ⊗ step ⊕ a).

(** ** plot_power_spectrum *)

(** the frequencies, carma_pack.py L585-596 (CarmaSample) and L985-996 (Car1Sample) *)
Definition psd_freqs (time : vec) : res vec :=
  dt_min <- vmin A (diffs A time) ;;
  hi <- vmax A time ;;
  lo <- vmin A time ;;
  let freq_max := half ⊘ dt_min in
  let freq_min := #1 ⊘ (hi ⊖ lo) in
  Ok (map (fexp A) (np_linspace (flog A freq_min) (flog A freq_max) 1000)).

(** one sample of the spectrum of a CARMA process at one frequency, L602-619; sigma, ar_coefs and ma_coefs are one row of the sample *)
Definition carma_psd (p : nat) (f sigma : F) (ar ma : vec) : F :=
  let om : cx := (#0, two ⊗ fpi A ⊗ f) in
  let ar_poly := cadd (csum (fun k => cscale (nth k ar (#0)) (cpown om (p - k))) p) (nth p ar (#0), #0) in
  let ma_poly := csum (fun k => cscale (nth k ma (#0)) (cpown om k)) (List.length ma) in
  sigma ⊗ sigma ⊗ (cabs ma_poly ⊗ cabs ma_poly) ⊘ (cabs ar_poly ⊗ cabs ar_poly).

(** the rows used, L570-583: all of them, or np.arange(nsamples) * (nsamples0 / nsamples) truncated.  nsamples = 0 raises
    ZeroDivisionError; the comparison at L574-577 is evaluated and dropped. *)
Definition psd_index (n0 : nat) (nsamples : option nat) : res (list nat) :=
  match nsamples with
  | None => Ok (seq 0 n0)
  | Some O => Throw Elogic
  | Some n => Ok (map (fun i => findex n0 (#(Z.of_nat i) ⊗ (#(Z.of_nat n0) ⊘ #(Z.of_nat n)))) (seq 0 n))
  end.

(** the three bands at one frequency, L599-600, L622-624 and L999-1000, L1009-1011: lower, median, upper *)
Definition psd_band (percentile : F) (psds : vec) : res (F * F * F) :=
  let lower := (#100 ⊖ percentile) ⊘ two in
  let upper := #100 ⊖ lower in
  l <- np_percentile psds lower ;;
  u <- np_percentile psds upper ;;
  Ok (l, np_median psds, u).

(** What plot_power_spectrum returns: lower, upper, median, frequencies and whether a figure is the last element *)
Record psd_out := mkPO { po_lower : vec; po_upper : vec; po_median : vec; po_freqs : vec; po_fig : bool }.
(** Both methods: [sample f] are the values at the frequency f, one per sample.  [sp] is whether an axes object was passed; L627-629
    and L1014-1016 replace a missing one by a new one, and L645-648 (L1032-1035) test the new value. *)
Definition psd_result (time : vec) (percentile : F) (sp : bool) (sample : F -> vec) : res psd_out :=
  fs <- psd_freqs time ;;
  bs <- rmap (fun f => psd_band percentile (sample f)) fs ;;
  let sp := true in
  Ok (mkPO (map (fun b => fst (fst b)) bs) (map (fun b => snd b) bs) (map (fun b => snd (fst b)) bs) fs (negb sp)).

(** CarmaSample.plot_power_spectrum, L548-648; a row is (sigma, ar_coefs, ma_coefs).  [p] is self.p. *)
Definition carma_plot_psd (p : nat) (time : vec) (rows : list (F * vec * vec)) (percentile : F) (nsamples : option nat) (sp : bool)
  : res psd_out :=
  idx <- psd_index (List.length rows) nsamples ;;
  rows' <- velem rows idx ;;
  psd_result time percentile sp (fun f => map (fun r => carma_psd p f (fst (fst r)) (snd (fst r)) (snd r)) rows').

(** Car1Sample.plot_power_spectrum, L950-1035; a row is (sigma, log_omega).  With nsamples, the index array of L981 has floating point
    numbers (in Python 3 nsamples0 / nsamples is a float), and indexing with it raises IndexError. *)
Definition car1_plot_psd (time : vec) (rows : list (F * F)) (percentile : F) (nsamples : option nat) (sp : bool) : res psd_out :=
  match nsamples with
  | Some _ => Throw Elogic
  | None => psd_result time percentile sp (fun f => map (fun r => car1_psd A (fst r) (snd r) f) rows)
  end.

(** ** add_mle *)

(** The entries of CarmaSample.mle; [None] where the key is missing *)
Record mle_dict := mkMle { ml_loglik : option F; ml_var : option F; ml_scale : option F; ml_mu : option F;
  ml_roots : option (list cx); ml_width : option vec; ml_cent : option vec; ml_ar : option vec; ml_ma : option vec; ml_sigma : option F }.
(** range(n / 2), L342 and L376: in Python 3 n / 2 is a float and range raises TypeError; in Python 2 it is the integer quotient *)
Definition range_half (py3 : bool) (n : nat) : res nat := if py3 then Throw Elogic else Ok (n / 2).
(** the moving average coefficients, L371-396 (for q = 0 the number 1.0, made an array at L399) *)
Definition mle_ma (isreal : list cx -> bool) (py3 : bool) (p q : nat) (x : vec) : res vec :=
  if q =? 0 then Ok [#1] else
  let qc := map (fexp A) (skipn (3 + p) x) in
  k <- range_half py3 q ;;
  r <- py_quads A qc k ;;
  roots <- (if Nat.odd q then c <- vget qc (List.length qc - 1) ;; Ok (r ++ [(fneg A c, #0)]) else Ok r) ;;
  let coefs := np_poly isreal roots in
  d <- vget coefs q ;;
  Ok (rev (map (fun c => fst (cdiv c d)) coefs)).
(** add_mle, L326-400: the dictionary afterwards (also if an exception is raised) and the outcome *)
Definition add_mle (isreal : list cx -> bool) (py3 : bool) (p q : nat) (old : mle_dict) (m : opt A) : mle_dict * res unit :=
  let x := o_x m in
  match vget x 0, vget x 1, vget x 2 with
  | Ok x0, Ok x1, Ok x2 =>
    let d0 := mkMle (Some (fneg A (o_fun m))) (Some (x0 ⊗ x0)) (Some x1) (Some x2) None None None None None None in
    let qc := map (fexp A) (firstn p (skipn 3 x)) in
    match
      (k <- range_half py3 p ;;
       r <- py_quads A qc k ;;
       if Nat.odd p then c <- vget qc (List.length qc - 1) ;; Ok (r ++ [(fneg A c, #0)]) else Ok r)
    with
    | Ok roots =>
      let d1 := mkMle (ml_loglik d0) (ml_var d0) (ml_scale d0) (ml_mu d0) (Some roots) (Some (map (py_width (A := A)) roots))
                  (Some (map (py_centroid (A := A)) roots)) (Some (py_ar_coefs isreal roots)) None None in
      match mle_ma isreal py3 p q x with
      | Ok ma =>
        (mkMle (ml_loglik d1) (ml_var d1) (ml_scale d1) (ml_mu d1) (ml_roots d1) (ml_width d1) (ml_cent d1) (ml_ar d1) (Some ma)
           (Some (fsqrt A ((x0 ⊗ x0) ⊘ carma_variance (#1) roots ma (#0)))), Ok tt)
      | Throw e => (d1, Throw e) | UB => (d1, UB) | Diverge => (d1, Diverge)
      end
    | Throw e => (d0, Throw e) | UB => (d0, UB) | Diverge => (d0, Diverge)
    end
  | _, _, _ => (old, Throw Elogic)
  end.

(** ** The dictionary of samples *)

(** numpy arrays: one-dimensional, two-dimensional (a list of rows), complex two-dimensional; the values of self._samples, carma_pack.py L407-546 *)
Inductive arr := V1 (v : vec) | V2 (m : list vec) | Z2 (m : list (list cx)).
(** self._samples; samplers.py L27-45 *)
Definition dict := list (string * arr).
(** looking up a name in self._samples, samplers.py L47-55 *)
Fixpoint dget (d : dict) (k : string) : option arr :=
  match d with
  | [] => None
  | (k', a) :: r => if String.eqb k k' then Some a else dget r k
  end.
(** assignment to self._samples[name], carma_pack.py L407-546: an existing name keeps its place *)
Fixpoint dset (d : dict) (k : string) (a : arr) : dict :=
  match d with
  | [] => [(k, a)]
  | (k', a') :: r => if String.eqb k k' then (k, a) :: r else (k', a') :: dset r k a
  end.
(** MCMCSample.get_samples, samplers.py L47-55 (KeyError for an unknown name).  Returns a copy: arrays are values here. *)
Definition get_samples (d : dict) (k : string) : res arr := match dget d k with Some a => Ok a | None => Throw Elogic end.
(** MCMCSample.newaxis, samplers.py L405-408 *)
Definition newaxis (d : dict) : dict :=
  map (fun ka => (fst ka, match snd ka with V1 v => V2 (map (fun x => [x]) v) | a => a end)) d.

(** An ascii file: the text of its first line and the array np.genfromtxt(fname, skip_header=1) makes of the other lines (at least one); samplers.py L57-72, carma_pack.py L427-437 *)
Record file := mkFile { f_header : string; f_data : arr }.
(** readline returns the line with its newline; samplers.py L57-72 *)
Definition readline (f : file) : string := (f_header f ++ String (Ascii.ascii_of_nat 10) EmptyString)%string.
(** MCMCSample.generate_from_file, samplers.py L57-72, for one file *)
Definition base_from_file (f : file) (d : dict) : res dict :=
  let name := readline f in
  Ok (match dget d name with Some _ => d | None => dset d name (f_data f) end).
(** MCMCSample.__init__, samplers.py L27-45, given the (possibly overridden) methods it calls *)
Definition samples_init (set_logpost : vec -> dict -> res dict) (from_trace : list vec -> dict -> res dict) (from_file : file -> dict -> res dict)
  (filename : option file) (logpost : option vec) (trace : option (list vec)) : res dict :=
  d <- match logpost with Some lp => set_logpost lp [] | None => Ok [] end ;;
  match trace with
  | Some t => from_trace t d
  | None => match filename with Some f => from_file f d | None => Ok d end
  end.
(** A plain MCMCSample: the class has no set_logpost and no generate_from_trace (AttributeError); samplers.py L27-45 *)
Definition MCMCSample_new (filename : option file) : res dict :=
  samples_init (fun _ _ => Throw Elogic) (fun _ _ => Throw Elogic) base_from_file filename None None.

(** CarmaSample.set_logpost, carma_pack.py L402-407 *)
Definition carma_set_logpost (lp : vec) (d : dict) : res dict := Ok (dset d "logpost" (V1 lp)).
(** CarmaSample.generate_from_trace, L409-425: returns self.p as well.  (names != keys() at L417 is always true: a list is compared with a view.) *)
Definition carma_from_trace (q : nat) (trace : list vec) (d : dict) : res dict :=
  match trace with
  | [] => Throw Elogic
  | row0 :: _ =>
    let p := List.length row0 - 3 - q in
    c0 <- rmap (fun row => vget row 0) trace ;;
    c1 <- rmap (fun row => vget row 1) trace ;;
    c2 <- rmap (fun row => vget row 2) trace ;;
    let d := dset d "var" (V1 (map (fun x => x ⊗ x) c0)) in
    let d := dset d "measerr_scale" (V1 c1) in
    let d := dset d "mu" (V1 c2) in
    Ok (dset d "quad_coefs" (V2 (map (fun row => map (fexp A) (firstn p (skipn 3 row))) trace)))
  end.
(** CarmaSample.generate_from_file, L427-437: all columns but the last are the trace, the last one the log-posterior *)
Definition carma_from_file (q : nat) (f : file) (d : dict) : res dict :=
  match f_data f with
  | V2 rows =>
    d <- carma_from_trace q (map (fun row => firstn (List.length row - 1) row) rows) d ;;
    lp <- rmap (fun row => vget row (List.length row - 1)) rows ;;
    carma_set_logpost lp d
  | _ => Throw Elogic
  end.
(** CarmaSample.__init__, L267-324, without MLE.  [logpost] and [trace] are sampler.GetLogLikes() and sampler.getSamples(); [b] is the C++
    object inside the sampler.  _ar_roots, _ar_coefs, _ma_coefs and _sigma_noise work row by row. *)
Definition CarmaSample_new {X Om} (C : cls A X Om) (b : base A X) (isreal : list cx -> bool) (q : nat) (filename : option file)
  (logpost : vec) (trace : list vec) : res dict :=
  d <- samples_init carma_set_logpost (carma_from_trace q) (carma_from_file q) filename (Some logpost) (Some trace) ;;
  match trace with
  | [] => Throw Elogic
  | row0 :: _ =>
    let p := List.length row0 - 3 - q in
    roots <- rmap (fun row => py_ar_roots A p row) trace ;;
    let d := dset d "ar_roots" (Z2 roots) in
    let d := dset d "psd_centroid" (V2 (map (map (py_centroid (A := A))) roots)) in
    let d := dset d "psd_width" (V2 (map (map (py_width (A := A))) roots)) in
    let d := dset d "ar_coefs" (V2 (map (py_ar_coefs isreal) roots)) in
    ma <- rmap (fun row => py_ma_coefs isreal p q row) trace ;;
    let d := dset d "ma_coefs" (V2 ma) in
    c0 <- rmap (fun row => vget row 0) trace ;;
    let d := dset d "sigma" (V1 (map (fun x => py_sigma (fst (fst x)) (snd (fst x)) (snd x ⊗ snd x)) (combine (combine roots ma) c0))) in
    rows <- velem trace (seq 0 (List.length logpost)) ;;
    ll <- CarmaSample_loglik C b rows ;;
    Ok (newaxis (dset d "loglik" (V1 ll)))
  end.
(** Car1Sample.generate_from_trace, L906-912 *)
Definition car1_from_trace (trace : list vec) (d : dict) : res dict :=
  match trace with
  | [] => Throw Elogic
  | _ =>
    c0 <- rmap (fun row => vget row 0) trace ;;
    c1 <- rmap (fun row => vget row 1) trace ;;
    c2 <- rmap (fun row => vget row 2) trace ;;
    c3 <- rmap (fun row => vget row 3) trace ;;
    let d := dset d "var" (V1 (map (fun x => x ⊗ x) c0)) in
    let d := dset d "measerr_scale" (V1 c1) in
    let d := dset d "mu" (V1 c2) in
    Ok (dset d "log_omega" (V1 c3))
  end.
(** Car1Sample.__init__, L867-904; generate_from_file is the one of CarmaSample with self.q = 0, calling the overridden generate_from_trace *)
Definition car1_from_file (f : file) (d : dict) : res dict :=
  match f_data f with
  | V2 rows =>
    d <- car1_from_trace (map (fun row => firstn (List.length row - 1) row) rows) d ;;
    lp <- rmap (fun row => vget row (List.length row - 1)) rows ;;
    carma_set_logpost lp d
  | _ => Throw Elogic
  end.
(** Car1Sample.__init__, L867-904 *)
Definition Car1Sample_new (filename : option file) (logpost : vec) (trace : list vec) : res dict :=
  d <- samples_init carma_set_logpost car1_from_trace car1_from_file filename (Some logpost) (Some trace) ;;
  c0 <- rmap (fun row => vget row 0) trace ;;
  c3 <- rmap (fun row => vget row 3) trace ;;
  let d := dset d "sigma" (V1 (map (fun x => car1_sigma A (fst x ⊗ fst x) (snd x)) (combine c0 c3))) in
  rows <- velem trace (seq 0 (List.length logpost)) ;;
  ll <- Car1Sample_loglik A rows logpost ;;
  Ok (newaxis (dset d "loglik" (V1 ll))).

(** The methods read the arrays of the dictionary; after newaxis a parameter with one number per sample is an array of n rows of one number. See carma_pack.py L652-676, L927-941, L967-970. *)
Definition col0 (a : arr) : res vec := match a with V2 m => rmap (fun row => vget row 0) m | _ => Throw Elogic end.
(** a parameter with one number per sample, as read at carma_pack.py L652-676, L927-941, L967-970 *)
Definition scalars (d : dict) (k : string) : res vec := a <- get_samples d k ;; col0 a.
(** a parameter with several real numbers per sample, L566-568, L652-676 *)
Definition vectors (d : dict) (k : string) : res (list vec) := a <- get_samples d k ;; match a with V2 m => Ok m | _ => Throw Elogic end.
(** a parameter with several complex numbers per sample, L652-676 *)
Definition cvectors (d : dict) (k : string) : res (list (list cx)) := a <- get_samples d k ;; match a with Z2 m => Ok m | _ => Throw Elogic end.
(** plot_power_spectrum of a CarmaSample (L566-568, np.squeeze at L619) and of a Car1Sample (L969-970) *)
Definition carma_sample_plot (p : nat) (time : vec) (d : dict) (percentile : F) (nsamples : option nat) (sp : bool) : res psd_out :=
  sg <- scalars d "sigma" ;;
  ar <- vectors d "ar_coefs" ;;
  ma <- vectors d "ma_coefs" ;;
  carma_plot_psd p time (combine (combine sg ar) ma) percentile nsamples sp.
(** plot_power_spectrum of a Car1Sample, L950-1035 *)
Definition car1_sample_plot (time : vec) (d : dict) (percentile : F) (nsamples : option nat) (sp : bool) : res psd_out :=
  sg <- scalars d "sigma" ;;
  lo <- scalars d "log_omega" ;;
  car1_plot_psd time (combine sg lo) percentile nsamples sp.

(** ** Summaries *)

(** acor.acor(column): the autocorrelation time, or an exception *)
Variable acor : vec -> res F.
(** the columns of a two-dimensional array; samplers.py L74-84 *)
Definition column (m : list vec) (i : nat) : res vec := rmap (fun row => vget row i) m.
(** autocorr_timescale, samplers.py L74-84: trace.shape[1] raises IndexError for a one-dimensional array *)
Definition timescales (a : arr) : res vec :=
  match a with
  | V1 _ => Throw Elogic
  | V2 m => rmap (fun i => c <- column m i ;; acor c) (seq 0 (List.length (hd [] m)))
  | Z2 m => rmap (fun i => c <- column (map (map fst) m) i ;; acor c) (seq 0 (List.length (hd [] m)))
  end.
(** trace.shape[0], samplers.py L86-101 *)
Definition nrows (a : arr) : nat := match a with V1 v => List.length v | V2 m => List.length m | Z2 m => List.length m end.
(** effective_samples, L86-101; None when the name is unknown *)
Definition effective_samples (d : dict) (k : string) : res (option vec) :=
  match dget d k with
  | None => Ok None
  | Some a => ts <- timescales a ;; Ok (Some (map (fun t => #(Z.of_nat (nrows a)) ⊘ t) ts))
  end.
(** what posterior_summaries prints for one column; samplers.py L370-403 *)
Record summary := mkSum { s_neff : F; s_median : F; s_std : F; s_68 : F * F; s_95 : F * F; s_99 : F * F }.
(** one credibility interval, samplers.py L385-387 and L401-403 *)
Definition interval (c : vec) (lo hi : F) : res (F * F) := a <- np_percentile c lo ;; b <- np_percentile c hi ;; Ok (a, b).
(** the lines printed for one column, samplers.py L382-387 and L398-403 *)
Definition summarise (c : vec) (neff : F) : res summary :=
  i68 <- interval c (#16) (#84) ;;
  i95 <- interval c (fdec A 5 2) (fdec A 195 2) ;;
  i99 <- interval c half (fdec A 199 2) ;;
  Ok (mkSum neff (np_median c) (np_std A c) i68 i95 i99).
(** posterior_summaries, L370-403.  (A complex array makes np.percentile raise TypeError in current numpy.) *)
Definition posterior_summaries (d : dict) (k : string) : res (list summary) :=
  a <- get_samples d k ;;
  ne <- effective_samples d k ;;
  match ne with
  | None => Throw Elogic
  | Some ne =>
    match a with
    | V1 c => e <- vget ne 0 ;; s <- summarise c e ;; Ok [s]
    | V2 m => rmap (fun i => c <- column m i ;; e <- vget ne i ;; summarise c e) (seq 0 (List.length (hd [] m)))
    | Z2 _ => Throw Elogic
    end
  end.

(** ** The other best fits *)

(** bestfit.lower() in predict, simulate and assess_fit; [BOther] is any other string, which L697-700, L785-788 and L820-823 do not reject *)
Inductive bestfit := BMap | BMedian | BMean | BRandom | BOther.

(** Car1Sample.makeKalmanFilter, L925-948: 'map', 'median', and otherwise the mean.  A row is (sigma, mu, log_omega). *)
Definition car1_fit (b : bestfit) (rows : list (F * F * F)) (logpost : vec) : res (F * F * F) :=
  let sig := map (fun r => fst (fst r)) rows in
  let mus := map (fun r => snd (fst r)) rows in
  let los := map (fun r => snd r) rows in
  match b with
  | BMap => i <- np_argmax A logpost ;; r <- vget rows i ;; Ok (fst (fst r) ⊗ fst (fst r), snd (fst r), snd r)
  | BMedian => Ok (np_median sig ⊗ np_median sig, np_median mus, np_median los)
  | _ => Ok (vmean A (map (fun s => s ⊗ s) sig), vmean A mus, vmean A los)
  end.
(** the filter made from them, L943-948 *)
Definition car1_fit_filter si (raw : kf1 A) (time y ysig : vec) (b : bestfit) (rows : list (F * F * F)) (logpost : vec) : res (kf1 A * F) :=
  '(sigsqr, mu, lo) <- car1_fit b rows logpost ;;
  s <- kf_new si (SetOmega1 (SetSigsqr raw sigsqr) (fexp A lo)) time (map (fun x => x ⊖ mu) y) ysig ;;
  Ok (s, mu).

(** CarmaSample.makeKalmanFilter, L650-685: sigsqr, mu, ar_roots, ma_coefs.  [i] is np.random.random_integers(0, n - 1).
    The column means and medians of the moving average coefficients are taken entry by entry. *)
Definition carma_fit (i : nat) (b : bestfit) (rows : list (drow A)) (logpost : vec) : res (F * F * list cx * vec) :=
  let p := match rows with [] => 0 | r :: _ => List.length (d_roots r) end in
  let m := match rows with [] => 0 | r :: _ => List.length (d_ma r) end in
  let one (r : drow A) := (d_sigma r ⊗ d_sigma r, d_mu r, d_roots r, d_ma r) in
  match b with
  | BMap => j <- np_argmax A logpost ;; r <- vget rows j ;; Ok (one r)
  | BMedian =>
    let s := np_median (map (fun r => d_sigma r) rows) in
    Ok (s ⊗ s, np_median (map (fun r => d_mu r) rows),
        vbuild p (fun k => np_cmedian (map (fun r => vnth (d_roots r) k) rows)),
        vbuild m (fun k => np_median (map (fun r => nth k (d_ma r) (#0)) rows)))
  | BMean =>
    Ok (vmean A (map (fun r => d_sigma r ⊗ d_sigma r) rows), vmean A (map (fun r => d_mu r) rows),
        mean_roots p (map (fun r => d_roots r) rows),
        vbuild m (fun k => vmean A (map (fun r => nth k (d_ma r) (#0)) rows)))
  | _ => r <- vget rows i ;; Ok (one r)
  end.
(** CarmaSample.makeKalmanFilter, carma_pack.py L650-685 *)
Definition carma_fit_filter si (raw : kfp A) (time y ysig : vec) (i : nat) (b : bestfit) (rows : list (drow A)) (logpost : vec)
  : res (kfp A * F) :=
  '(sigsqr, mu, roots, ma) <- carma_fit i b rows logpost ;;
  s <- kfp_new si raw time (map (fun x => x ⊖ mu) y) ysig sigsqr roots ma ;;
  Ok (s, mu).
(** makeKalmanFilter reads the dictionary: sigma, mu, log_omega (L927-941), and sigma, mu, ar_roots, ma_coefs (L652-676) *)
Definition car1_sample_filter si (raw : kf1 A) (time y ysig : vec) (b : bestfit) (d : dict) : res (kf1 A * F) :=
  sg <- scalars d "sigma" ;; mu <- scalars d "mu" ;; lo <- scalars d "log_omega" ;; lp <- scalars d "logpost" ;;
  car1_fit_filter si raw time y ysig b (combine (combine sg mu) lo) lp.
(** CarmaSample.makeKalmanFilter reading the dictionary, carma_pack.py L652-676 *)
Definition carma_sample_filter si (raw : kfp A) (time y ysig : vec) (i : nat) (b : bestfit) (d : dict) : res (kfp A * F) :=
  vr <- scalars d "var" ;; sc <- scalars d "measerr_scale" ;; mu <- scalars d "mu" ;;
  rt <- cvectors d "ar_roots" ;; ma <- vectors d "ma_coefs" ;; sg <- scalars d "sigma" ;; lp <- scalars d "logpost" ;;
  carma_fit_filter si raw time y ysig i b
    (vbuild (List.length vr) (fun j => mkD (nth j vr (#0)) (nth j sc (#0)) (nth j mu (#0)) (nth j rt []) (nth j ma []) (nth j sg (#0)))) lp.
End PySample.
