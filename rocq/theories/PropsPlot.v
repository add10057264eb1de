(** Property theorems about the plots of single parameters and of pairs of parameters (C105-C107). *)
From Coq Require Import List Arith ZArith Reals Lra Lia Bool String.
From Verif Require Import Arith Res ListLemmas KFModel InitProof Cx KFpModel CarpackModel CarpackTop Emb EngineModel StartModel PyModel PySampleModel PySampleProof PyQuant PySum PyAssessModel PyAssess HistProof PyPlotModel PlotProof KdeProof.
Import ListNotations.
Local Open Scope R_scope.
Local Open Scope string_scope.
Local Notation length := List.length.

(** C105: plot_trace draws every column of a parameter, numbered from one, each once. *)
Theorem C105_trace : forall (d : dict AX) k (m : list (list R)) c, dget d k = Some (V2 AX (map (map Fin) m)) -> m <> [] ->
  (forall row, In row m -> length row = c) -> (0 < c)%nat ->
  exists l, plot_trace d k = Ok (Some l) /\ length l = c /\ forall i, (i < c)%nat -> In (S i, map Fin (rcolumn m i)) l.
Proof. exact plot_trace_ok. Qed.
Print Assumptions C105_trace.
(** plot_1dpdf draws for every column 50 bins of equal width from the smallest to the largest value; the height of each is the number of
    values in it, scaled so that the area is one. *)
Theorem C105_pdf : forall (d : dict AX) k (m : list (list R)) c, dget d k = Some (V2 AX (map (map Fin) m)) -> m <> [] ->
  (forall row, In row m -> length row = c) ->
  exists l, plot_1dpdf d k = Ok (Some l) /\ length l = c /\ forall i he, nth_error l i = Some he -> exists lo hi cs h,
    he = (map Fin h, edges_of lo hi 50) /\ range_of (rcolumn m i) lo hi /\ counts (rcolumn m i) 50 lo hi cs /\ length h = 50%nat /\
    (forall j, (j < 50)%nat -> nth j h 0 = INR (nth j cs 0%nat) / ((hi - lo) / 50) / INR (length m)) /\
    fold_right Rplus 0 (map (fun v => v * ((hi - lo) / 50)) h) = 1.
Proof. exact plot_1dpdf_ok. Qed.
Print Assumptions C105_pdf.
(** the counts of any such histogram: every value is in exactly one bin *)
Theorem C105_counts : forall x nb lo hi c, (0 < nb)%nat -> range_of x lo hi -> counts x nb lo hi c ->
  list_sum c = length x /\ forall v, In v x -> exists i, (i < nb)%nat /\ in_bin lo hi nb i v /\ forall j, (j < nb)%nat -> in_bin lo hi nb j v -> j = i.
Proof.
  intros x nb lo hi c Hn Hr Hc. pose proof (range_lt x lo hi Hr) as Hlt. split; [apply (counts_total x nb lo hi c Hn Hlt (fun v => range_in x lo hi v Hr) Hc)|].
  intros v Hv. apply (one_bin lo hi nb v Hn Hlt (range_in x lo hi v Hr Hv)).
Qed.
Print Assumptions C105_counts.
(** plot_2dpdf draws the pairs of values of the two chosen columns (a negative index counts from the last column) and the counts of each in 100
    bins. *)
Theorem C105_pairs : forall (d : dict AX) k1 k2 (m1 m2 : list (list R)) c1 c2 i1 i2,
  dget d k1 = Some (V2 AX (map (map Fin) m1)) -> dget d k2 = Some (V2 AX (map (map Fin) m2)) -> m1 <> [] -> length m2 = length m1 ->
  (forall row, In row m1 -> length row = c1) -> (forall row, In row m2 -> length row = c2) ->
  (- Z.of_nat c1 <= i1 < Z.of_nat c1)%Z -> (- Z.of_nat c2 <= i2 < Z.of_nat c2)%Z ->
  exists pts h1 e1 h2 e2, plot_2dpdf d k1 k2 i1 i2 = Ok (Some (pts, (h1, e1), (h2, e2))) /\
    pts = map (fun p => (Fin (fst p), Fin (snd p))) (combine (rcolumn m1 (col_index c1 i1)) (rcolumn m2 (col_index c2 i2))) /\
    (exists lo hi c, range_of (rcolumn m1 (col_index c1 i1)) lo hi /\ counts (rcolumn m1 (col_index c1 i1)) 100 lo hi c /\
       e1 = edges_of lo hi 100 /\ h1 = map (fun k => Fin (INR k)) c) /\
    (exists lo hi c, range_of (rcolumn m2 (col_index c2 i2)) lo hi /\ counts (rcolumn m2 (col_index c2 i2)) 100 lo hi c /\
       e2 = edges_of lo hi 100 /\ h2 = map (fun k => Fin (INR k)) c).
Proof. exact plot_2dpdf_ok. Qed.
Print Assumptions C105_pairs.
(** an index beyond the last column: nothing is drawn; one further back than the first column: IndexError *)
Theorem C105_index : forall (d : dict AX) k1 k2 (m1 m2 : list (list R)) c1 c2 i1 i2,
  dget d k1 = Some (V2 AX (map (map Fin) m1)) -> dget d k2 = Some (V2 AX (map (map Fin) m2)) -> m1 <> [] -> m2 <> [] ->
  (forall row, In row m1 -> length row = c1) -> (forall row, In row m2 -> length row = c2) ->
  ((Z.of_nat c1 <= i1)%Z \/ (Z.of_nat c2 <= i2)%Z -> plot_2dpdf d k1 k2 i1 i2 = Ok None) /\
  ((i1 < - Z.of_nat c1)%Z -> (i2 < Z.of_nat c2)%Z -> plot_2dpdf d k1 k2 i1 i2 = Throw Elogic) /\
  ((- Z.of_nat c1 <= i1 < Z.of_nat c1)%Z -> (i2 < - Z.of_nat c2)%Z -> plot_2dpdf d k1 k2 i1 i2 = Throw Elogic).
Proof.
  intros d k1 k2 m1 m2 c1 c2 i1 i2 Hd1 Hd2 Hm1 Hm2 Hc1 Hc2. unfold plot_2dpdf, two_columns. rewrite Hd1, Hd2, (ncols_ok m1 c1 Hm1 Hc1), (ncols_ok m2 c2 Hm2 Hc2). cbn [bind].
  split; [|split].
  - intros H. destruct (Z.leb_spec (Z.of_nat c1) i1); [reflexivity|]. destruct (Z.leb_spec (Z.of_nat c2) i2); [reflexivity|lia].
  - intros H1 H2. destruct (Z.leb_spec (Z.of_nat c1) i1); [lia|]. destruct (Z.leb_spec (Z.of_nat c2) i2); [lia|].
    unfold pyindex at 1. destruct (Z.ltb_spec i1 (- Z.of_nat c1)); [reflexivity|lia].
  - intros H1 H2. destruct (Z.leb_spec (Z.of_nat c1) i1); [lia|]. destruct (Z.leb_spec (Z.of_nat c2) i2); [lia|].
    destruct (pyindex_ok c1 i1 H1) as [-> L]. cbn [bind]. rewrite (real_column_ok m1 c1 _ Hc1 L). cbn [bind].
    unfold pyindex. destruct (Z.ltb_spec i2 (- Z.of_nat c2)); [reflexivity|lia].
Qed.
Print Assumptions C105_index.
(** C105 is false of the parameters with one value per sample (logpost, loglik): all of these plots raise, in every arithmetic. *)
Theorem C105_vector_refuted : forall (A : Arith) (d : dict A) k k2 a2 i1 i2 kde nb (v : list (F A)), dget d k = Some (V1 A v) -> dget d k2 = Some a2 ->
  plot_trace d k = Throw Elogic /\ plot_1dpdf d k = Throw Elogic /\ plot_2dpdf d k k2 i1 i2 = Throw Elogic /\ plot_2dkde kde d k k2 i1 i2 nb = Throw Elogic.
Proof.
  intros A d k k2 a2 i1 i2 kde nb v H H2. unfold plot_trace, plot_1dpdf, plot_2dpdf, plot_2dkde, two_columns. rewrite H, H2. repeat split.
Qed.
Print Assumptions C105_vector_refuted.

Definition dict1 : dict AX := [("omega", V2 AX (map (map Fin) [[1; 4]; [3; 4]; [2; 4]])); ("logpost", V1 AX (map Fin [5; 6; 7]))].
Example C105_case : exists l, plot_trace dict1 "omega" = Ok (Some l) /\ length l = 2%nat /\ In (1%nat, map Fin [1; 3; 2]) l /\ In (2%nat, map Fin [4; 4; 4]) l.
Proof.
  destruct (C105_trace dict1 "omega" [[1; 4]; [3; 4]; [2; 4]] 2 eq_refl ltac:(discriminate)) as (l & E & L & H); [|lia|].
  - intros row [<- | [<- | [<- | []]]]; reflexivity.
  - exists l. split; [exact E|]. split; [exact L|]. split; [apply (H 0%nat); lia|apply (H 1%nat); lia].
Qed.
(** three values in two bins: the largest is in the last bin *)
Example C105_counts_case : range_of [1; 3; 2] 1 3 /\ in_bin 1 3 2 0 1 /\ in_bin 1 3 2 1 2 /\ in_bin 1 3 2 1 3 /\ counts [1; 3; 2] 2 1 3 [1%nat; 2%nat].
Proof.
  assert (in_bin 1 3 2 0 1 /\ in_bin 1 3 2 1 2 /\ in_bin 1 3 2 1 3 /\ ~ in_bin 1 3 2 1 1 /\ ~ in_bin 1 3 2 0 2 /\ ~ in_bin 1 3 2 0 3) as (A & B & C & D & E & G).
  { unfold in_bin, bin_edge. cbn [INR]. repeat split; try lra; try (right; split; [reflexivity|lra]); try (intros [H1 [H2 | [H2 H3]]]; (lra || lia)); left; lra. }
  split; [exists 1, 3; split; [left; reflexivity|split; [right; left; reflexivity|split; [|left; lra]]]; intros v [<- | [<- | [<- | []]]]; lra|].
  split; [exact A|]. split; [exact B|]. split; [exact C|]. split; [reflexivity|]. intros i Hi. destruct i as [|[|i]]; [| |lia]; cbn [nth filter];
  repeat match goal with |- context [in_bin_dec ?a ?b ?c ?d ?e] => destruct (in_bin_dec a b c d e) end; (reflexivity || contradiction).
Qed.
Example C105_vector_case : plot_trace dict1 "logpost" = Throw Elogic.
Proof. exact (proj1 (C105_vector_refuted AX dict1 "logpost" "omega" _ 0%Z 0%Z (fun _ _ => UB) 1 _ eq_refl eq_refl)). Qed.

(** C106: plot_parameter draws the values, 25 bars whose lengths are proportional to the counts of the values in 25 equal bins, and the autocorrelations
    of the centred values, up to five autocorrelation times; for a vector or for the chosen column of a matrix. *)
Theorem C106_parameter : forall (acor : list (F AX) -> res (F AX)) (d : dict AX) k (pindex : Z) (x : list R) tau,
  (dget d k = Some (V1 AX (map Fin x)) \/
   exists m c, dget d k = Some (V2 AX (map (map Fin) m)) /\ (forall row, In row m -> length row = c) /\
     (- Z.of_nat c <= pindex < Z.of_nat c)%Z /\ x = rcolumn m (col_index c pindex)) ->
  (2 <= length x)%nat -> acor (map Fin x) = Ok (Fin tau : F AX) ->
  exists p lo hi c, plot_parameter acor d k pindex = Ok (Some p) /\ sp_trace p = map Fin x /\
    range_of x lo hi /\ counts x 25 lo hi c /\ bars_of 25 lo hi c (34 / 100 * INR (length x)) (sp_bars p) /\
    acf_out (centred x) (length x - 1) (sp_acf p) /\ sp_xmax p = Fin (Rmin (5 * tau) (INR (length x))).
Proof. exact plot_parameter_ok. Qed.
Print Assumptions C106_parameter.
(** C106 is false of the places of the bars, here and in assess_fit: every bar is centred on the lower edge of its bin, so the bars begin half a bin
    below the smallest value and end half a bin below the largest. *)
Theorem C106_bars_refuted : forall (acor : list (F AX) -> res (F AX)) (d : dict AX) k (pindex : Z) (x : list R) tau,
  dget d k = Some (V1 AX (map Fin x)) -> (2 <= length x)%nat -> acor (map Fin x) = Ok (Fin tau : F AX) ->
  exists p lo hi, plot_parameter acor d k pindex = Ok (Some p) /\ range_of x lo hi /\
    (forall b u, In b (sp_bars p) -> b_hi b = Fin u -> u <= hi - (hi - lo) / 25 / 2) /\
    (exists b, nth_error (sp_bars p) 0 = Some b /\ b_lo b = Fin (lo - (hi - lo) / 25 / 2)).
Proof.
  intros acor d k pindex x tau Hd Hn Ha. destruct (plot_parameter_ok acor d k pindex x tau (or_introl Hd) Hn Ha) as (p & lo & hi & c & E & _ & Hr & _ & Hb & _).
  exists p, lo, hi. split; [exact E|]. split; [exact Hr|]. destruct (bars_low x 25 lo hi c _ _ ltac:(lia) Hr Hb) as [H1 H2]. replace (INR 25) with 25 in * by (cbn; lra). split; assumption.
Qed.
Print Assumptions C106_bars_refuted.
(** the same for any bars of assess_fit ([C88]: bars_of 10 lo hi) and plot_parameter *)
Theorem C106_shift : forall (x : list R) nb lo hi c scale (bars : list (bar AX)), (0 < nb)%nat -> range_of x lo hi -> bars_of nb lo hi c scale bars ->
  (forall b u, In b bars -> b_hi b = Fin u -> u <= hi - (hi - lo) / INR nb / 2) /\
  (exists b, nth_error bars 0 = Some b /\ b_lo b = Fin (lo - (hi - lo) / INR nb / 2)).
Proof. exact bars_low. Qed.
Print Assumptions C106_shift.
Example C106_case : exists p, plot_parameter (A := AX) (fun _ => Ok (Fin 1)) dict1 "logpost" 0 = Ok (Some p) /\ sp_trace p = map Fin [5; 6; 7] /\ sp_xmax p = Fin 3.
Proof.
  destruct (C106_parameter (fun _ => Ok (Fin 1)) dict1 "logpost" 0%Z [5; 6; 7] 1 (or_introl eq_refl) ltac:(cbn; lia) eq_refl) as (p & lo & hi & c & E & T & _ & _ & _ & _ & X).
  exists p. split; [exact E|]. split; [exact T|]. rewrite X. f_equal. replace (INR (length [5; 6; 7])) with 3 by (cbn; lra). apply Rmin_right. lra.
Qed.

(** C107: the contours of plot_2dkde.  [K]: the density estimate, positive everywhere; [h]: its values on the mesh.  If the largest of them carry no more than
    0.6827 of the sum, the levels are those at which the values that are not smaller carry 0.9973, 0.9545 and 0.6827 of the sum, each to within the tolerance of the
    bisection; the contours are drawn if these levels are distinct. *)
Theorem C107_levels : forall (kde : list (F AX) -> list (F AX) -> res (F AX -> F AX -> F AX)) (d : dict AX) k1 k2 m1 m2 c1 c2 i1 i2 nbins,
  dget d k1 = Some (V2 AX (map (map Fin) m1)) -> dget d k2 = Some (V2 AX (map (map Fin) m2)) -> m1 <> [] -> m2 <> [] ->
  (forall row, In row m1 -> length row = c1) -> (forall row, In row m2 -> length row = c2) ->
  (- Z.of_nat c1 <= i1 < Z.of_nat c1)%Z -> (- Z.of_nat c2 <= i2 < Z.of_nat c2)%Z -> (0 < nbins)%nat ->
  forall (k : F AX -> F AX -> F AX) K, kde (map Fin (rcolumn m1 (col_index c1 i1))) (map Fin (rcolumn m2 (col_index c2 i2))) = Ok k ->
  (forall a b, k (Fin a) (Fin b) = Fin (K a b)) -> (forall a b, 0 < K a b) ->
  forall x0 x1 y0 y1, is_min (rcolumn m1 (col_index c1 i1)) x0 -> is_max (rcolumn m1 (col_index c1 i1)) x1 ->
  is_min (rcolumn m2 (col_index c2 i2)) y0 -> is_max (rcolumn m2 (col_index c2 i2)) y1 ->
  let h := on_mesh K (mesh x0 x1 nbins) (mesh y0 y1 nbins) in
  forall lo hi, is_min h lo -> is_max h hi -> hi - lo < wide -> mass h hi <= 6827 / 10000 ->
  exists L1 L2 L3, lo <= L1 /\ L1 <= L2 /\ L2 <= L3 /\ L3 <= hi /\
    level_of h (9973 / 10000) L1 /\ level_of h (9545 / 10000) L2 /\ level_of h (6827 / 10000) L3 /\
    (L1 < L2 < L3 -> exists h1 h2, plot_2dkde kde d k1 k2 i1 i2 nbins = Ok (Some (map Fin h, map Fin [L1; L2; L3], h1, h2))) /\
    (~ L1 < L2 < L3 -> plot_2dkde kde d k1 k2 i1 i2 nbins = Throw Elogic).
Proof. exact kde_ok. Qed.
Print Assumptions C107_levels.
(** C107 is false of coarse meshes.  The largest values carry more than 0.6827 of the sum (always with nbins = 1, or for a constant [K]): ValueError. *)
Theorem C107_peak_refuted : forall (kde : list (F AX) -> list (F AX) -> res (F AX -> F AX -> F AX)) (d : dict AX) k1 k2 m1 m2 c1 c2 i1 i2 nbins,
  dget d k1 = Some (V2 AX (map (map Fin) m1)) -> dget d k2 = Some (V2 AX (map (map Fin) m2)) -> m1 <> [] -> m2 <> [] ->
  (forall row, In row m1 -> length row = c1) -> (forall row, In row m2 -> length row = c2) ->
  (- Z.of_nat c1 <= i1 < Z.of_nat c1)%Z -> (- Z.of_nat c2 <= i2 < Z.of_nat c2)%Z -> (0 < nbins)%nat ->
  forall (k : F AX -> F AX -> F AX) K, kde (map Fin (rcolumn m1 (col_index c1 i1))) (map Fin (rcolumn m2 (col_index c2 i2))) = Ok k ->
  (forall a b, k (Fin a) (Fin b) = Fin (K a b)) -> (forall a b, 0 < K a b) ->
  forall x0 x1 y0 y1, is_min (rcolumn m1 (col_index c1 i1)) x0 -> is_max (rcolumn m1 (col_index c1 i1)) x1 ->
  is_min (rcolumn m2 (col_index c2 i2)) y0 -> is_max (rcolumn m2 (col_index c2 i2)) y1 ->
  let h := on_mesh K (mesh x0 x1 nbins) (mesh y0 y1 nbins) in
  forall lo hi, is_min h lo -> is_max h hi -> hi - lo < wide -> 6827 / 10000 < mass h hi -> plot_2dkde kde d k1 k2 i1 i2 nbins = Throw Elogic.
Proof. exact kde_peak. Qed.
Print Assumptions C107_peak_refuted.
Theorem C107_one_bin_refuted : forall (kde : list (F AX) -> list (F AX) -> res (F AX -> F AX -> F AX)) (d : dict AX) k1 k2 m1 m2 c1 c2 i1 i2,
  dget d k1 = Some (V2 AX (map (map Fin) m1)) -> dget d k2 = Some (V2 AX (map (map Fin) m2)) -> m1 <> [] -> m2 <> [] ->
  (forall row, In row m1 -> length row = c1) -> (forall row, In row m2 -> length row = c2) ->
  (- Z.of_nat c1 <= i1 < Z.of_nat c1)%Z -> (- Z.of_nat c2 <= i2 < Z.of_nat c2)%Z ->
  forall (k : F AX -> F AX -> F AX) K, kde (map Fin (rcolumn m1 (col_index c1 i1))) (map Fin (rcolumn m2 (col_index c2 i2))) = Ok k ->
  (forall a b, k (Fin a) (Fin b) = Fin (K a b)) -> (forall a b, 0 < K a b) -> plot_2dkde kde d k1 k2 i1 i2 1 = Throw Elogic.
Proof.
  intros kde d k1 k2 m1 m2 c1 c2 i1 i2 Hd1 Hd2 Hm1 Hm2 Hc1 Hc2 Hi1 Hi2 k K Hk HK Hp.
  destruct (vmin_ok _ (rcolumn_ne m1 (col_index c1 i1) Hm1)) as (x0 & _ & A). destruct (vmax_ok _ (rcolumn_ne m1 (col_index c1 i1) Hm1)) as (x1 & _ & B).
  destruct (vmin_ok _ (rcolumn_ne m2 (col_index c2 i2) Hm2)) as (y0 & _ & A'). destruct (vmax_ok _ (rcolumn_ne m2 (col_index c2 i2) Hm2)) as (y1 & _ & B').
  set (v := K (x0 + INR 0 * ((x1 - x0) / INR (1 - 1))) (y0 + INR 0 * ((y1 - y0) / INR (1 - 1)))).
  apply (kde_peak kde d k1 k2 m1 m2 c1 c2 i1 i2 1 Hd1 Hd2 Hm1 Hm2 Hc1 Hc2 Hi1 Hi2 ltac:(lia) k K Hk HK Hp x0 x1 y0 y1 A B A' B' v v).
  - split; [left; reflexivity|]. intros w [<- | []]. unfold v. lra.
  - split; [left; reflexivity|]. intros w [<- | []]. unfold v. lra.
  - unfold wide. assert (0 < 2 ^ 100) by (apply pow_lt; lra). lra.
  - change (on_mesh K (mesh x0 x1 1) (mesh y0 y1 1)) with [v]. rewrite (mass_one v (Hp _ _)). unfold f3. lra.
Qed.
Print Assumptions C107_one_bin_refuted.
(** No set of values not smaller than a level carries between 0.9545 and 0.9973 (or between 0.6827 and 0.9545) of the sum: two levels are equal and matplotlib
    raises ValueError. *)
Theorem C107_coarse_refuted : forall (kde : list (F AX) -> list (F AX) -> res (F AX -> F AX -> F AX)) (d : dict AX) k1 k2 m1 m2 c1 c2 i1 i2 nbins,
  dget d k1 = Some (V2 AX (map (map Fin) m1)) -> dget d k2 = Some (V2 AX (map (map Fin) m2)) -> m1 <> [] -> m2 <> [] ->
  (forall row, In row m1 -> length row = c1) -> (forall row, In row m2 -> length row = c2) ->
  (- Z.of_nat c1 <= i1 < Z.of_nat c1)%Z -> (- Z.of_nat c2 <= i2 < Z.of_nat c2)%Z -> (0 < nbins)%nat ->
  forall (k : F AX -> F AX -> F AX) K, kde (map Fin (rcolumn m1 (col_index c1 i1))) (map Fin (rcolumn m2 (col_index c2 i2))) = Ok k ->
  (forall a b, k (Fin a) (Fin b) = Fin (K a b)) -> (forall a b, 0 < K a b) ->
  forall x0 x1 y0 y1, is_min (rcolumn m1 (col_index c1 i1)) x0 -> is_max (rcolumn m1 (col_index c1 i1)) x1 ->
  is_min (rcolumn m2 (col_index c2 i2)) y0 -> is_max (rcolumn m2 (col_index c2 i2)) y1 ->
  let h := on_mesh K (mesh x0 x1 nbins) (mesh y0 y1 nbins) in
  forall lo hi, is_min h lo -> is_max h hi -> hi - lo < wide -> mass h hi < 6827 / 10000 ->
  (forall l, mass h l < 9545 / 10000 \/ 9973 / 10000 < mass h l) \/ (forall l, mass h l < 6827 / 10000 \/ 9545 / 10000 < mass h l) ->
  plot_2dkde kde d k1 k2 i1 i2 nbins = Throw Elogic.
Proof. exact kde_coarse. Qed.
Print Assumptions C107_coarse_refuted.

(** Two samples of two parameters, a mesh of four points with the densities 3, 50, 300 and 647: the contours are drawn. *)
Definition dict2 : dict AX := [("a", V2 AX (map (map Fin) [[0]; [1]])); ("b", V2 AX (map (map Fin) [[1]; [0]]))].
Definition K2 (a b : R) : R := 3 + 47 * a ^ 2 + 297 * b ^ 2 + 300 * (a ^ 2 * b ^ 2).
Lemma K2_pos a b : 0 < K2 a b.
Proof. unfold K2. pose proof (pow2_ge_0 a). pose proof (pow2_ge_0 b). pose proof (Rmult_le_pos _ _ H H0). lra. Qed.
Definition kdeR (K : R -> R -> R) (_ _ : list (F AX)) : res (F AX -> F AX -> F AX) := Ok (fun x y => match x, y with Fin a, Fin b => Fin (K a b) | _, _ => NaN end).
Lemma mesh2 : mesh 0 1 2 = [0; 1].
Proof. unfold mesh. cbn. repeat f_equal; lra. Qed.
Lemma wide_big x : x < 1000000000000 -> x < wide.
Proof.
  intro H. unfold wide. assert (2 ^ 80 <= 2 ^ 100) by (apply Rle_pow; [lra|lia]). assert (1000000000000000000000000 <= 2 ^ 80) by lra. lra.
Qed.
Ltac masses := unfold mass; cbn [filter]; repeat (match goal with |- context [Rle_dec ?a ?b] => destruct (Rle_dec a b) end; try (exfalso; lra)); unfold total; cbn [fold_right].
Example C107_case : exists L1 L2 L3 h1 h2, plot_2dkde (kdeR K2) dict2 "a" "b" 0 (-1) 2 = Ok (Some (map Fin [3; 50; 300; 647], map Fin [L1; L2; L3], h1, h2)).
Proof.
  assert (on_mesh K2 (mesh 0 1 2) (mesh 0 1 2) = [3; 50; 300; 647]) as Eh by (rewrite mesh2; unfold on_mesh, K2; cbn [flat_map map app]; repeat f_equal; lra).
  destruct (C107_levels (kdeR K2) dict2 "a" "b" [[0]; [1]] [[1]; [0]] 1 1 0 (-1) 2 eq_refl eq_refl ltac:(discriminate) ltac:(discriminate)
    ltac:(intros row [<- | [<- | []]]; reflexivity) ltac:(intros row [<- | [<- | []]]; reflexivity) ltac:(lia) ltac:(lia) ltac:(lia)
    (fun x y => match x, y with Fin a, Fin b => Fin (K2 a b) | _, _ => NaN end) K2 eq_refl ltac:(reflexivity) K2_pos 0 1 0 1
    ltac:(split; [left; reflexivity|intros v [<- | [<- | []]]; cbn; lra]) ltac:(split; [right; left; reflexivity|intros v [<- | [<- | []]]; cbn; lra])
    ltac:(split; [right; left; reflexivity|intros v [<- | [<- | []]]; cbn; lra]) ltac:(split; [left; reflexivity|intros v [<- | [<- | []]]; cbn; lra])
    3 647) as (L1 & L2 & L3 & O1 & O2 & O3 & B & V1' & V2' & V3' & D & _).
  - rewrite Eh. split; [left; reflexivity|]. intros v [<- | [<- | [<- | [<- | []]]]]; lra.
  - rewrite Eh. split; [do 3 right; left; reflexivity|]. intros v [<- | [<- | [<- | [<- | []]]]]; lra.
  - apply wide_big. lra.
  - rewrite Eh. masses. lra.
  - rewrite Eh in *.
    assert (forall l, mass [3; 50; 300; 647] l = if Rle_dec l 3 then 1 else if Rle_dec l 50 then 997 / 1000 else if Rle_dec l 300 then 947 / 1000 else if Rle_dec l 647 then 647 / 1000 else 0) as M.
    { intro l. destruct (Rle_dec l 3); [masses; lra|]. destruct (Rle_dec l 50); [masses; lra|]. destruct (Rle_dec l 300); [masses; lra|]. destruct (Rle_dec l 647); masses; lra. }
    assert (forall L, -1000 <= L <= 647 -> tol L <= 1 / 10000) as T by (intros L HL; unfold tol; assert (Rabs L <= 1000) by (apply Rabs_le; lra); lra).
    destruct V1' as (l1 & u1 & I1 & W1 & A1 & B1). destruct V2' as (l2 & u2 & I2 & W2 & A2 & B2). destruct V3' as (l3 & u3 & I3 & W3 & A3 & B3).
    rewrite M in A1, B1.
    assert (l1 <= 3) as P1 by (clear - A1; repeat (match goal with H : context [Rle_dec l1 ?b] |- _ => destruct (Rle_dec l1 b); try lra end)).
    assert (3 < u1) as Q1 by (clear - B1; repeat (match goal with H : context [Rle_dec u1 ?b] |- _ => destruct (Rle_dec u1 b); try lra end)).
    rewrite M in A2, B2.
    assert (l2 <= 50) as P2 by (clear - A2; repeat (match goal with H : context [Rle_dec l2 ?b] |- _ => destruct (Rle_dec l2 b); try lra end)).
    assert (50 < u2) as Q2 by (clear - B2; repeat (match goal with H : context [Rle_dec u2 ?b] |- _ => destruct (Rle_dec u2 b); try lra end)).
    rewrite M in A3, B3.
    assert (l3 <= 300) as P3 by (clear - A3; repeat (match goal with H : context [Rle_dec l3 ?b] |- _ => destruct (Rle_dec l3 b); try lra end)).
    assert (300 < u3) as Q3 by (clear - B3; repeat (match goal with H : context [Rle_dec u3 ?b] |- _ => destruct (Rle_dec u3 b); try lra end)).
    clear A1 B1 A2 B2 A3 B3 M.
    assert (L1 < L2 < L3) as S.
    { pose proof (T L1 ltac:(lra)). pose proof (T L2 ltac:(lra)). pose proof (T L3 ltac:(lra)). lra. }
    destruct (D S) as (h1 & h2 & E). exists L1, L2, L3, h1, h2. exact E.
Qed.
(** Densities 1, 2, 3 and 4: the sets carry 1, 0.9, 0.7 and 0.4 of the sum, no contour is drawn. *)
Definition K1 (a b : R) : R := 1 + a ^ 2 + 2 * b ^ 2.
Lemma K1_pos a b : 0 < K1 a b.
Proof. unfold K1. pose proof (pow2_ge_0 a). pose proof (pow2_ge_0 b). lra. Qed.
Example C107_coarse_case : plot_2dkde (kdeR K1) dict2 "a" "b" 0 (-1) 2 = Throw Elogic.
Proof.
  assert (on_mesh K1 (mesh 0 1 2) (mesh 0 1 2) = [1; 2; 3; 4]) as Eh by (rewrite mesh2; unfold on_mesh, K1; cbn [flat_map map app]; repeat f_equal; lra).
  apply (C107_coarse_refuted (kdeR K1) dict2 "a" "b" [[0]; [1]] [[1]; [0]] 1 1 0 (-1) 2 eq_refl eq_refl ltac:(discriminate) ltac:(discriminate)
    ltac:(intros row [<- | [<- | []]]; reflexivity) ltac:(intros row [<- | [<- | []]]; reflexivity) ltac:(lia) ltac:(lia) ltac:(lia)
    (fun x y => match x, y with Fin a, Fin b => Fin (K1 a b) | _, _ => NaN end) K1 eq_refl ltac:(reflexivity) K1_pos 0 1 0 1
    ltac:(split; [left; reflexivity|intros v [<- | [<- | []]]; cbn; lra]) ltac:(split; [right; left; reflexivity|intros v [<- | [<- | []]]; cbn; lra])
    ltac:(split; [right; left; reflexivity|intros v [<- | [<- | []]]; cbn; lra]) ltac:(split; [left; reflexivity|intros v [<- | [<- | []]]; cbn; lra])
    1 4); rewrite ?Eh.
  - split; [left; reflexivity|]. intros v [<- | [<- | [<- | [<- | []]]]]; lra.
  - split; [do 3 right; left; reflexivity|]. intros v [<- | [<- | [<- | [<- | []]]]]; lra.
  - apply wide_big. lra.
  - masses. lra.
  - left. intro l. destruct (Rle_dec l 1); [right; masses; lra|]. left. destruct (Rle_dec l 2); [masses; lra|]. destruct (Rle_dec l 3); [masses; lra|]. destruct (Rle_dec l 4); masses; lra.
Qed.
Example C107_one_bin_case : plot_2dkde (kdeR K1) dict2 "a" "b" 0 (-1) 1 = Throw Elogic.
Proof.
  apply (C107_one_bin_refuted (kdeR K1) dict2 "a" "b" [[0]; [1]] [[1]; [0]] 1 1 0 (-1) eq_refl eq_refl ltac:(discriminate) ltac:(discriminate)
    ltac:(intros row [<- | [<- | []]]; reflexivity) ltac:(intros row [<- | [<- | []]]; reflexivity) ltac:(lia) ltac:(lia)
    (fun x y => match x, y with Fin a, Fin b => Fin (K1 a b) | _, _ => NaN end) K1 eq_refl ltac:(reflexivity) K1_pos).
Qed.
