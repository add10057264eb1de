(** Model of the remaining plots of MCMCSample (src/carmcmc/samplers.py): plot_trace, plot_1dpdf, plot_2dpdf, plot_2dkde,
    plot_parameter.  Conventions as in PySampleModel; modelled are the numbers drawn, not the drawing.  Arrays of more than two
    dimensions do not occur in the dictionaries of PySampleModel, so the reshape of plot_parameter is not modelled. *)
From Coq Require Import List Arith ZArith Bool String.
From Verif Require Import Arith Res KFModel Cx KFpModel CarpackModel EngineModel StartModel PyModel PySampleModel PyAssessModel.
Import ListNotations.

Set Implicit Arguments.

Section PyPlot.
Variable A : Arith.
Local Notation F := (F A).
Local Notation "x ⊕ y" := (fadd A x y) (at level 50, left associativity).
Local Notation "x ⊖ y" := (fsub A x y) (at level 50, left associativity).
Local Notation "x ⊗ y" := (fmul A x y) (at level 40, left associativity).
Local Notation "x ⊘ y" := (fdiv A x y) (at level 40, left associativity).
Local Notation "# z" := (fofZ A z) (at level 5).
Local Notation vec := (list F).

(** matplotlib's hist(x, bins=nb) (heights, edges): the counts of np.histogram, divided by the widths and by their sum if [density]; samplers.py L154, L195-196, L252-253 *)
Definition plt_hist (x : vec) (nb : nat) (density : bool) : res (vec * vec) :=
  '(n, e) <- np_histogram A x nb ;;
  let total := #(Z.of_nat (list_sum n)) in
  Ok (vbuild nb (fun i => let c := #(Z.of_nat (nth i n 0)) in
                          if density then c ⊘ (nth (i + 1) e (#0) ⊖ nth i e (#0)) ⊘ total else c), e).

(** a[:, i] for a Python integer [i]: a negative one counts from the end, IndexError out of range; shape[1] of a one-dimensional array
    is an IndexError too; samplers.py L103-160 *)
Definition ncols (a : arr A) : res nat :=
  match a with V1 _ _ => Throw Elogic | V2 _ m => Ok (List.length (hd [] m)) | Z2 m => Ok (List.length (hd [] m)) end.
(** pindex1, pindex2 of samplers.py L162-275 and pindex of L313 *)
Definition pyindex (n : nat) (i : Z) : res nat :=
  if ((i <? - Z.of_nat n) || (Z.of_nat n <=? i))%Z then Throw Elogic else Ok (Z.to_nat (if i <? 0 then i + Z.of_nat n else i)%Z).
(** the real parts of column [i] (matplotlib also drops the imaginary parts); samplers.py L103-368 *)
Definition real_column (a : arr A) (i : nat) : res vec :=
  match a with
  | V1 _ _ => Throw Elogic
  | V2 _ m => column A m i
  | Z2 m => rmap (fun row => z <- vget row i ;; Ok (fst z)) m
  end.

(** plot_trace, samplers.py L103-133: the number of each subplot and the values in it *)
Definition plot_trace (d : dict A) (k : string) : res (option (list (nat * vec))) :=
  match dget d k with
  | None => Ok None
  | Some a =>
    ntrace <- ncols a ;;
    if ntrace =? 0 then Throw Elogic else
    last <- real_column a (ntrace - 1) ;;
    l <- rmap (fun i => c <- real_column a i ;; Ok (i + 1, c)) (seq 0 (ntrace - 1)) ;;
    Ok (Some ((ntrace, last) :: l))
  end.

(** plot_1dpdf, samplers.py L135-160: a histogram for every column; the histogram of complex values is not modelled *)
Definition plot_1dpdf (d : dict A) (k : string) : res (option (list (vec * vec))) :=
  match dget d k with
  | None => Ok None
  | Some (Z2 _) => UB
  | Some a =>
    ntrace <- ncols a ;;
    l <- rmap (fun i => c <- real_column a i ;; plt_hist c 50 true) (seq 0 ntrace) ;;
    Ok (Some l)
  end.

(** the two columns of plot_2dpdf and plot_2dkde, L172-186 and L217-231; None: a warning is printed and nothing is drawn *)
Definition two_columns (d : dict A) (k1 k2 : string) (i1 i2 : Z) : res (option (vec * vec)) :=
  match dget d k1, dget d k2 with
  | Some a1, Some a2 =>
    n1 <- ncols a1 ;;
    if (Z.of_nat n1 <=? i1)%Z then Ok None else
    n2 <- ncols a2 ;;
    if (Z.of_nat n2 <=? i2)%Z then Ok None else
    j1 <- pyindex n1 i1 ;;
    c1 <- real_column a1 j1 ;;
    j2 <- pyindex n2 i2 ;;
    c2 <- real_column a2 j2 ;;
    Ok (Some (c1, c2))
  | _, _ => Ok None
  end.

(** plot_2dpdf, samplers.py L162-202 (real arrays): the points and the two histograms.  plot(x, y) raises ValueError for arrays of
    different lengths. *)
Definition plot_2dpdf (d : dict A) (k1 k2 : string) (i1 i2 : Z) : res (option (list (F * F) * (vec * vec) * (vec * vec))) :=
  o <- two_columns d k1 k2 i1 i2 ;;
  match o with
  | None => Ok None
  | Some (c1, c2) =>
    if negb (List.length c1 =? List.length c2) then Throw Elogic else
    h1 <- plt_hist c1 100 false ;;
    h2 <- plt_hist c2 100 false ;;
    Ok (Some (combine c1 c2, h1, h2))
  end.

(** ** The contour levels of plot_2dkde *)
(** scipy.optimize.bisect(f, a, b), default tolerances 2e-12 and 4 eps, at most 100 steps (zeros.c): ValueError when f has the same sign at
    both ends, RuntimeError when not converged; called at samplers.py L242 *)
Fixpoint bisect_loop (f : F -> F) (neg : bool) (n : nat) (xa dm : F) : res F :=
  match n with
  | O => Throw Eruntime
  | S n' =>
    let dm := dm ⊗ fdec A 5 10 in
    let xm := xa ⊕ dm in
    let fm := f xm in
    let xa := if Bool.eqb (flt A fm (#0)) neg then xm else xa in
    if feq A fm (#0) || flt A (fabs A dm) (fdec A 2 1000000000000 ⊕ #4 ⊗ fdec A 1 4503599627370496 ⊗ fabs A xm) then Ok xm
    else bisect_loop f neg n' xa dm
  end.
(** scipy.optimize.bisect, called at samplers.py L242 *)
Definition bisect (f : F -> F) (a b : F) : res F :=
  let fa := f a in
  let fb := f b in
  if feq A fa (#0) then Ok a
  else if feq A fb (#0) then Ok b
  else if Bool.eqb (flt A fa (#0)) (flt A fb (#0)) then Throw Elogic
  else bisect_loop f (flt A fa (#0)) 100 a (b ⊖ a).
(** hfrac, samplers.py L241: the part of the sum of [h] in the elements that are at least [level], minus [frac] *)
Definition hfrac (h : vec) (frac level : F) : F := vsum A (filter (fun v => fle A level v) h) ⊘ vsum A h ⊖ frac.
(** the levels, samplers.py L239-243, [h]: the densities at the points of the mesh *)
Definition contour_levels (h : vec) : res vec :=
  lo <- vmin A h ;;
  hi <- vmax A h ;;
  rmap (fun frac => bisect (hfrac h frac) lo hi) [fdec A 9973 10000; fdec A 9545 10000; fdec A 6827 10000].
(** matplotlib's contour: ValueError unless the levels increase (L251) *)
Definition increasing (l : vec) : bool := forallb (fun p => flt A (fst p) (snd p)) (combine l (tl l)).
(** plot_2dkde, samplers.py L204-275: the densities on the mesh, the levels and the two histograms.  [kde]: scipy.stats.gaussian_kde, which may
    raise.  Not modelled: the points outside the outer contour (L264-273). *)
Definition plot_2dkde (kde : vec -> vec -> res (F -> F -> F)) (d : dict A) (k1 k2 : string) (i1 i2 : Z) (nbins : nat)
  : res (option (vec * vec * (vec * vec) * (vec * vec))) :=
  o <- two_columns d k1 k2 i1 i2 ;;
  match o with
  | None => Ok None
  | Some (c1, c2) =>
    f <- kde c1 c2 ;;
    lo1 <- vmin A c1 ;; hi1 <- vmax A c1 ;;
    lo2 <- vmin A c2 ;; hi2 <- vmax A c2 ;;
    let grid a b := if nbins =? 1 then [a] else np_linspace A a b nbins in
    let h := flat_map (fun y => map (fun x => f x y) (grid lo1 hi1)) (grid lo2 hi2) in
    levels <- contour_levels h ;;
    if negb (increasing levels) then Throw Elogic else
    h1 <- plt_hist c1 100 false ;;
    h2 <- plt_hist c2 100 false ;;
    Ok (Some (h, levels, h1, h2))
  end.

(** ** plot_parameter *)
(** What is drawn: the values, the bars of their histogram, the autocorrelations, the upper end of the axis of lags. *)
Record summary_plot := mkSP { sp_trace : vec; sp_bars : list (bar A); sp_acf : vec; sp_xmax : F }.
(** plot_parameter, samplers.py L313-368 (real arrays) *)
Definition plot_parameter (acor : vec -> res F) (d : dict A) (k : string) (pindex : Z) : res (option summary_plot) :=
  match dget d k with
  | None => Ok None
  | Some (Z2 _) => UB
  | Some a =>
    x <- match a with
         | V1 _ v => Ok v
         | _ => n <- ncols a ;; i <- pyindex n pindex ;; real_column a i
         end ;;
    let n := List.length x in
    '(bars, _) <- hist_bars A x 25 (fdec A 34 100) (#(Z.of_nat n)) ;;
    acf <- plt_acorr A (map (fun v => v ⊖ vmean A x) x) (n - 1) ;;
    ts <- timescales acor (V2 A (map (fun v => [v]) x)) ;;
    t <- vget ts 0 ;;
    xmax <- vmin A [#5 ⊗ t; #(Z.of_nat n)] ;;
    Ok (Some (mkSP x bars acf xmax))
  end.
End PyPlot.
