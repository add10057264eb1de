(** Model of the diagnostic plots: CarmaSample.assess_fit (src/carmcmc/carma_pack.py, also a method of Car1Sample) and
    MCMCSample.plot_autocorr (src/carmcmc/samplers.py).  Conventions as in PyModel.  Modelled are the numbers drawn, not the drawing. *)
From Coq Require Import List Arith ZArith Bool String.
From Verif Require Import Arith Res KFModel Cx KFpModel CarpackModel EngineModel StartModel PyModel PySampleModel.
Import ListNotations.

Set Implicit Arguments.

Section PyAssess.
Variable A : Arith.
Local Notation F := (F A).
Local Notation "x ⊕ y" := (fadd A x y) (at level 50, left associativity).
Local Notation "x ⊖ y" := (fsub A x y) (at level 50, left associativity).
Local Notation "x ⊗ y" := (fmul A x y) (at level 40, left associativity).
Local Notation "x ⊘ y" := (fdiv A x y) (at level 40, left associativity).
Local Notation "# z" := (fofZ A z) (at level 5).
Local Notation vec := (list F).

(** np.dot of vectors *)
Definition dot (x y : vec) : F := vsum A (map (fun p => fst p ⊗ snd p) (combine x y)).
(** matplotlib's plt.acorr(x, maxlags=m) as called at carma_pack.py L749, L762 and samplers.py L301: the normalised correlation of x with
    itself at the lags -m .. m, the mean not removed; ValueError unless 0 < m < len(x) *)
Definition plt_acorr (x : vec) (m : nat) : res vec :=
  if (0 <? m) && (m <? List.length x) then
    let norm := fsqrt A (dot x x ⊗ dot x x) in
    Ok (vbuild (2 * m + 1) (fun j => (if m <=? j then dot (skipn (j - m) x) x else dot x (skipn (m - j) x)) ⊘ norm))
  else Throw Elogic.

(** the times of the interpolation, carma_pack.py L704-705 (nplot >= 2) *)
Definition assess_times (time : vec) (nplot : nat) : res vec :=
  lo <- vmin A time ;;
  hi <- vmax A time ;;
  Ok (np_linspace A (fdec A 1001 1000 ⊗ lo) hi nplot).

(** ** np.histogram(x, bins=nb), called at carma_pack.py L730 and samplers.py L350 and inside matplotlib's hist *)
(** The range: the smallest and the largest element, half a unit more on both sides when they are equal, [0, 1] for an empty array;
    ValueError when an element is not finite. *)
Definition hist_range (x : vec) : res (F * F) :=
  match x with
  | [] => Ok (#0, #1)
  | _ => if forallb (ffin A) x then
           lo <- vmin A x ;; hi <- vmax A x ;;
           Ok (if feq A lo hi then (lo ⊖ fdec A 5 10, hi ⊕ fdec A 5 10) else (lo, hi))
         else Throw Elogic
  end.
(** The number of elements between consecutive edges (the upper one excluded, except in the last bin), and the edges.  numpy finds the bin
    by a division and then corrects it by comparing with the edges; here it is found by comparing. See np.histogram, called by hist at carma_pack.py L730 and samplers.py L350. *)
Definition np_histogram (x : vec) (nb : nat) : res (list nat * vec) :=
  '(lo, hi) <- hist_range x ;;
  let e := np_linspace A lo hi (nb + 1) in
  let inside i v := fle A (nth i e lo) v && (if i =? nb - 1 then fle A v (nth (i + 1) e lo) else flt A v (nth (i + 1) e lo)) in
  Ok (vbuild nb (fun i => List.length (filter (inside i) x)), e).
(** a horizontal bar from 0 to [b_len] between the heights [b_lo] and [b_hi]; carma_pack.py L730-735, samplers.py L350-355 *)
Record bar := mkBar { b_lo : F; b_hi : F; b_len : F }.
(** plt.barh(y, width, height) with the default align='center' of matplotlib 2.0 and later (samplers.py uses hist(density=True), which
    needs 2.1): the bar lies around y *)
Definition barh (y width height : F) : bar := mkBar (y ⊖ height ⊘ #2) (y ⊖ height ⊘ #2 ⊕ height) width.
(** the bars of carma_pack.py L730-735 (nb = 10, a = 0.4, s = time.max()) and samplers.py L350-355 (nb = 25, a = 0.34, s = traces.size),
    nb >= 2, and the lower edges of the bins *)
Definition hist_bars (x : vec) (nb : nat) (a s : F) : res (list bar * vec) :=
  '(pdf, edges) <- np_histogram x nb ;;
  let edges := firstn (List.length pdf) edges in
  let top := #(Z.of_nat (list_max pdf)) in
  e0 <- vget edges 0 ;;
  e1 <- vget edges 1 ;;
  Ok (map (fun ec => barh (fst ec) (#(Z.of_nat (snd ec)) ⊘ top ⊗ a ⊗ s) (e1 ⊖ e0)) (combine edges pdf), edges).
(** the normal curve, carma_pack.py L737-738, at the lower edges *)
Definition normal_curve (edges : vec) (s : F) : res vec :=
  let e := map (fun b => fexp A (fneg A (fdec A 5 10) ⊗ (b ⊗ b))) edges in
  top <- vmax A e ;;
  Ok (map (fun v => v ⊘ top ⊗ fdec A 4 10 ⊗ s) e).

(** What assess_fit draws: the interpolation with its band, the standardised residuals, their histogram and a normal curve, the bound of
    white noise, the autocorrelations of the residuals and of their squares. *)
Record fit := mkFit { f_times : vec; f_mean : vec; f_low : vec; f_high : vec; f_resid : vec; f_bars : list bar; f_edges : vec; f_curve : vec;
                      f_noise : F; f_acf : vec; f_acf2 : vec }.
(** assess_fit, L687-771; [mk] is makeKalmanFilter(bestfit), called at L706 (in predict) and L719 *)
Definition assess_fit {X} (M : methods A X) (mk : res (kf A X * F)) (time y : vec) (nplot : nat) : res fit :=
  ts <- assess_times time nplot ;;
  '(s, mu) <- mk ;;
  mv <- py_predict M s mu ts ;;
  '(s, mu) <- mk ;;
  r <- std_residuals M s y mu ;;
  tmax <- vmax A time ;;
  '(bars, edges) <- hist_bars r 10 (fdec A 4 10) tmax ;;
  curve <- normal_curve edges tmax ;;
  a <- plt_acorr r 50 ;;
  let r2 := map (fun x => x ⊗ x) r in
  a2 <- plt_acorr (map (fun x => x ⊖ vmean A r2) r2) 50 ;;
  Ok (mkFit ts (map fst mv) (map (fun p => fst p ⊖ fsqrt A (snd p)) mv) (map (fun p => fst p ⊕ fsqrt A (snd p)) mv) r
        bars edges curve
        (fdec A 196 100 ⊘ fsqrt A (#(Z.of_nat (List.length time)))) a a2).

(** plot_autocorr, samplers.py L277-311: for every column the autocorrelations drawn and the time scale marked; None when the name is
    unknown.  traces.shape[1] raises IndexError for a one-dimensional array; complex arrays are not modelled. *)
Definition plot_autocorr (acor : vec -> res F) (d : dict A) (k : string) : res (option (list (vec * F))) :=
  match dget d k with
  | None => Ok None
  | Some (V1 _ _) => Throw Elogic
  | Some (Z2 _) => UB
  | Some (V2 _ m) =>
    ts <- timescales acor (V2 A m) ;;
    l <- rmap (fun i => c <- column A m i ;; a <- plt_acorr (map (fun x => x ⊖ vmean A c) c) (List.length m - 1) ;; t <- vget ts i ;; Ok (a, t))
           (seq 0 (List.length (hd [] m))) ;;
    Ok (Some l)
  end.
End PyAssess.
