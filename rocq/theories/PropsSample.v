(** Property theorems about the posterior sample classes: MCMCSample, CarmaSample, Car1Sample (C81-C87). *)
From Coq Require Import List Arith ZArith Reals Lra Lia Permutation Bool String Ascii.
From Coquelicot Require Import Coquelicot.
From Verif Require Import Arith Res ListLemmas KFModel KF1Proof KFpProof CholProof Spec Gauss Emb KF1R KF1X KF1Main KF1More OUpd SimProof InitProof Cx KFpModel SpecCarma CLin KFpX KFpMain KFpTop KFpMore SpecModel.
From Verif Require Import CarpackModel RootsProof PriorProof LogLikProof LogLikMain CarpackTop EngineModel StartModel PyModel PySim PyFuns PyDerive PyPredict PyLoglik PyExtra PyBox PyKFSim.
From Verif Require Import PySampleModel PyQuant PyPsd PySampleProof PyFitProof PyFit2 PySum.
From Verif Require PropsPy.
Import ListNotations.
Local Open Scope R_scope.
Local Open Scope string_scope.
Local Notation length := List.length.
Local Notation Forall2 := List.Forall2.

(** C81, Python 2: after add_mle the dictionary mle holds the parameters of the model with the vector m.x; [sig], [om] and [ma] are what the C++ code
    computes from that vector, the Lorentzian widths and centroids are those of the roots, ar_coefs is the polynomial with these roots. *)
Theorem C81_add_mle : forall (isreal : list (cx AX) -> bool) p q (old : mle_dict AX) (th : list R) (g : R),
  (2 <= p)%nat -> (q < p)%nat -> length th = (3 + p + q)%nat -> nth 0 th 0 <> 0 ->
  (forall om : list C, ARRoots AX p (map Fin th) = Ok (map FinC om) -> NoDup om) ->
  exists d, add_mle isreal false p q old (mkOpt AX (map Fin th) (Fin g)) = (d, Ok tt) /\
  exists (om : list C) (ma ar : list R) (sg sig : R),
    d = mkMle (A := AX) (Some (Fin (- g))) (Some (Fin (nth 0 th 0 * nth 0 th 0))) (Some (Fin (nth 1 th 0))) (Some (Fin (nth 2 th 0)))
          (Some (map FinC om)) (Some (map (fun z => Fin (- fst z / (2 * PI))) om)) (Some (map (fun z => Fin (Rabs (snd z) / (2 * PI))) om))
          (Some (map Fin ar)) (Some (map Fin ma)) (Some (Fin sg)) /\
    carma_params p q th sig om (ma ++ repeat 0 (p - S q)) /\ length ma = S q /\ length om = p /\
    length ar = S p /\ (forall x, desc_poly (map RtoC ar) x = roots_poly om x) /\ 0 < sg /\ sg * sg = sig.
Proof. exact add_mle_py2. Qed.
Print Assumptions C81_add_mle.
(** C81 is false in Python 3, in every arithmetic: every call raises, leaving four entries. *)
Theorem C81_python3_refuted : forall A (isreal : list (cx A) -> bool) p q (old : mle_dict A) (m : opt A) x0 x1 x2 xs, o_x m = x0 :: x1 :: x2 :: xs ->
  exists d, add_mle isreal true p q old m = (d, Throw Elogic) /\ ml_roots d = None /\ ml_ar d = None /\ ml_ma d = None /\ ml_sigma d = None /\
    ml_width d = None /\ ml_cent d = None.
Proof. intros. eexists. split; [eapply add_mle_py3; eassumption|]. repeat split. Qed.
Print Assumptions C81_python3_refuted.

(** C82: the arrays returned by plot_power_spectrum: at each of the 1000 frequencies, the percentiles (100 - pc)/2, 50 and 100 - (100 - pc)/2 of the spectra
    of the samples used. *)
Theorem C82_carma : forall isreal p q np_sort X Om (Cl : cls AX X Om) (b : base AX X) fn (rows : list (list R)) lp d (t : list R) pc ns sp,
  (2 <= p)%nat -> (q < p)%nat -> valid_np_sort np_sort ->
  rows <> [] -> (forall th, In th rows -> row_ok p q th) -> length lp = length rows -> CarmaSample_new Cl b isreal q fn lp (map (map Fin) rows) = Ok d ->
  (2 <= length t)%nat -> strictly_increasing t -> ns <> Some 0%nat -> 0 <= pc <= 100 ->
  exists S, Forall2 (row_par p q) rows S /\
  let sel := map (fun i => nth i S (0, [], [])) (used (length rows) ns) in
  let P := fun f => map (fun s => root_spectrum (fst (fst s)) (snd (fst s)) (snd s) f) sel in
  exists dt lo me up, 0 < dt /\ min_spacing t dt /\
    let fs := log_grid (1 / (nth (length t - 1) t 0 - nth 0 t 0)) (1 / (2 * dt)) in
    carma_sample_plot np_sort p (map Fin t) d (Fin pc : F AX) ns sp = Ok (mkPO AX (map Fin lo) (map Fin up) (map Fin me) (map Fin fs) false) /\
    length lo = 1000%nat /\ length me = 1000%nat /\ length up = 1000%nat /\
    forall j, (j < 1000)%nat -> band (P (nth j fs 0)) pc (nth j lo 0) (nth j me 0) (nth j up 0).
Proof. intros isreal p q np_sort X Om Cl b fn rows lp d t pc ns sp Hp Hq. exact (CarmaSample_plot isreal p q Hp Hq np_sort Cl b fn rows lp d t pc ns sp). Qed.
Print Assumptions C82_carma.
Theorem C82_car1 : forall np_sort (fn : option (file AX)) (rows : list (list R)) (lp : list (F AX)) (d : dict AX) (t : list R) pc sp, valid_np_sort np_sort ->
  rows <> [] -> (forall th, In th rows -> row1_ok th) -> length lp = length rows -> Car1Sample_new fn lp (map (map Fin) rows) = Ok d ->
  (2 <= length t)%nat -> strictly_increasing t -> 0 <= pc <= 100 ->
  exists dt lo me up, 0 < dt /\ min_spacing t dt /\
    let fs := log_grid (1 / (nth (length t - 1) t 0 - nth 0 t 0)) (1 / (2 * dt)) in
    car1_sample_plot np_sort (map Fin t) d (Fin pc : F AX) None sp = Ok (mkPO AX (map Fin lo) (map Fin up) (map Fin me) (map Fin fs) false) /\
    length lo = 1000%nat /\ length me = 1000%nat /\ length up = 1000%nat /\
    forall j, (j < 1000)%nat -> band (map (fun th => ou_spectrum th (nth j fs 0)) rows) pc (nth j lo 0) (nth j me 0) (nth j up 0).
Proof. exact Car1Sample_plot. Qed.
Print Assumptions C82_car1.
(** the meaning of a percentile: one value, with at least the share q of the samples below or at it (up to the interpolation between two neighbours), and the
    share 100 - q at it or above *)
Theorem C82_percentile_unique : forall l q v w, percentile_of l q v -> percentile_of l q w -> v = w.
Proof. exact percentile_unique. Qed.
Print Assumptions C82_percentile_unique.
Theorem C82_percentile_counts : forall (l : list R) q v, 0 <= q <= 100 -> percentile_of l q v ->
  INR (length l - 1) * (q / 100) < INR (count_le l v) /\ INR (length l - 1) * (1 - q / 100) < INR (count_ge l v).
Proof. exact percentile_counts. Qed.
Print Assumptions C82_percentile_counts.

(** C83: the frequencies increase from 1/(duration) to 1/(2 smallest spacing) when there are four measurements, or some spacing is below half of the duration. *)
Theorem C83_increasing : forall (t : list R), (2 <= length t)%nat -> strictly_increasing t ->
  (4 <= length t)%nat \/ (exists i, (S i < length t)%nat /\ 2 * (nth (S i) t 0 - nth i t 0) < nth (length t - 1) t 0 - nth 0 t 0) ->
  exists fs, psd_freqs AX (map Fin t) = Ok (map Fin fs) /\ length fs = 1000%nat /\ strictly_increasing fs /\
    nth 0 fs 0 = 1 / (nth (length t - 1) t 0 - nth 0 t 0) /\ exists d, 0 < d /\ min_spacing t d /\ nth 999 fs 0 = 1 / (2 * d).
Proof. exact freqs_increasing. Qed.
Print Assumptions C83_increasing.
(** C83 is false for two measurements: the frequencies decrease. *)
Theorem C83_two_refuted : forall (a b : R), a < b -> exists fs, psd_freqs AX (map Fin [a; b]) = Ok (map Fin fs) /\ length fs = 1000%nat /\
  (forall i j, (i < j)%nat -> (j < 1000)%nat -> nth j fs 0 < nth i fs 0) /\ nth 0 fs 0 = 1 / (b - a) /\ nth 999 fs 0 = 1 / (2 * (b - a)).
Proof. exact freqs_two. Qed.
Print Assumptions C83_two_refuted.

(** C84, CarmaSample: nsamples = n <= N takes n different samples, in order, spread over the chain (number i * N / n rounded down); the bands are the
    percentiles of their spectra. *)
Theorem C84_carma : forall isreal p q np_sort X Om (Cl : cls AX X Om) (b : base AX X) fn (rows : list (list R)) lp d (t : list R) pc n sp,
  (2 <= p)%nat -> (q < p)%nat -> valid_np_sort np_sort ->
  rows <> [] -> (forall th, In th rows -> row_ok p q th) -> length lp = length rows -> CarmaSample_new Cl b isreal q fn lp (map (map Fin) rows) = Ok d ->
  (2 <= length t)%nat -> strictly_increasing t -> (0 < n <= length rows)%nat -> 0 <= pc <= 100 ->
  exists idx S o fs lo me up, length idx = n /\ (forall i, In i idx -> (i < length rows)%nat) /\ (forall i, (i < n)%nat -> nth i idx 0%nat = (i * length rows / n)%nat) /\
    (forall i j, (i < j < n)%nat -> (nth i idx 0 < nth j idx 0)%nat) /\ Forall2 (row_par p q) rows S /\
    carma_sample_plot np_sort p (map Fin t) d (Fin pc : F AX) (Some n) sp = Ok o /\ po_freqs o = map Fin fs /\ po_lower o = map Fin lo /\ po_median o = map Fin me /\ po_upper o = map Fin up /\
    forall j, (j < 1000)%nat -> band (map (fun i => root_spectrum (fst (fst (nth i S (0, [], [])))) (snd (fst (nth i S (0, [], [])))) (snd (nth i S (0, [], []))) (nth j fs 0)) idx) pc
      (nth j lo 0) (nth j me 0) (nth j up 0).
Proof.
  intros isreal p q np_sort X Om Cl b fn rows lp d t pc n sp Hp Hq Hsort Hne Hok Hlp E Ht Hinc Hn Hpc. set (N := length rows) in *.
  destruct (CarmaSample_plot isreal p q Hp Hq np_sort Cl b fn rows lp d t pc (Some n) sp Hsort Hne Hok Hlp E Ht Hinc ltac:(intros Q; injection Q as Q; lia) Hpc)
    as (S & HS & dt & lo & me & up & _ & _ & EP & _ & _ & _ & HB). fold N in EP, HB.
  exists (used N (Some n)), S, (mkPO AX (map Fin lo) (map Fin up) (map Fin me) (map Fin (log_grid (1 / (nth (length t - 1) t 0 - nth 0 t 0)) (1 / (2 * dt)))) false), (log_grid (1 / (nth (length t - 1) t 0 - nth 0 t 0)) (1 / (2 * dt))), lo, me, up.
  split; [cbn [used]; rewrite map_length, seq_length; reflexivity|].
  split; [intros i; apply used_lt; lia|]. split; [|split; [apply used_distinct, Hn|split; [exact HS|split; [exact EP|repeat (split; [reflexivity|])]]]].
  - intros i Hi. cbn [used]. rewrite (nth_indep _ 0%nat ((fun i => i * N / n)%nat 0%nat)) by (rewrite map_length, seq_length; exact Hi).
    rewrite (map_nth (fun i => i * N / n)%nat), seq_nth by exact Hi. reflexivity.
  - intros j Hj. specialize (HB j Hj). rewrite map_map in HB. exact HB.
Qed.
Print Assumptions C84_carma.
(** C84 is false: more samples than there are is not rejected (some are used twice), *)
Theorem C84_too_many_refuted : forall (N n : nat), (0 < N < n)%nat -> exists idx, psd_index AX N (Some n) = Ok idx /\ length idx = n /\ (forall i, In i idx -> (i < N)%nat) /\ ~ NoDup idx.
Proof.
  intros N n H. exists (used N (Some n)). assert (length (used N (Some n)) = n) as L by (cbn [used]; rewrite map_length, seq_length; reflexivity).
  assert (forall i, In i (used N (Some n)) -> (i < N)%nat) as Hl by (intros i; apply used_lt; lia).
  split; [apply psd_index_Fin; intros E; injection E as E; lia|]. split; [exact L|]. split; [exact Hl|].
  intros Hn. assert (incl (used N (Some n)) (seq 0 N)) as Hi by (intros i Hi; apply in_seq; specialize (Hl i Hi); lia).
  pose proof (NoDup_incl_length Hn Hi) as K. rewrite seq_length in K. lia.
Qed.
Print Assumptions C84_too_many_refuted.
(** Car1Sample raises for every nsamples, *)
Theorem C84_car1_refuted : forall np_sort (fn : option (file AX)) (rows : list (list R)) (lp : list (F AX)) (d : dict AX) (t : list (F AX)) pc n sp,
  rows <> [] -> (forall th, In th rows -> row1_ok th) -> length lp = length rows -> Car1Sample_new fn lp (map (map Fin) rows) = Ok d ->
  car1_sample_plot np_sort t d pc (Some n) sp = Throw Elogic.
Proof.
  intros np_sort fn rows lp d t pc n sp Hne Hok Hlp E. destruct (car1_inv fn rows lp d Hne Hok Hlp E) as (ll & ->).
  eapply Car1Sample_plot_nsamples; [apply (scalars_col _ "sigma" (fun th => Fin (sig1 th)) rows); reflexivity|apply (scalars_col _ "log_omega" (fun th => Fin (nth 3 th 0)) rows); reflexivity].
Qed.
Print Assumptions C84_car1_refuted.
(** and the axes made when sp is None are never returned, in any arithmetic. *)
Theorem C84_axes_refuted : forall (A : Arith) np_sort p (t : list (F A)) (d : dict A) pc ns sp o,
  (carma_sample_plot np_sort p t d pc ns sp = Ok o \/ car1_sample_plot np_sort t d pc ns sp = Ok o) -> po_fig o = false.
Proof.
  intros A np_sort p t d pc ns sp o H. assert (forall sample, psd_result A np_sort t pc sp sample = Ok o -> po_fig o = false) as G.
  { intros sample E. unfold psd_result in E. destruct (psd_freqs A t) as [fs| | |]; try discriminate E. cbn [bind] in E.
    destruct (rmap _ fs) as [bs| | |]; try discriminate E. cbn [bind] in E. injection E as <-. reflexivity. }
  destruct H as [E|E].
  - unfold carma_sample_plot in E. repeat (match type of E with (bind ?x _) = _ => destruct x; try discriminate E; cbn [bind] in E end).
    unfold carma_plot_psd in E. repeat (match type of E with (bind ?x _) = _ => destruct x; try discriminate E; cbn [bind] in E end). eapply G, E.
  - unfold car1_sample_plot in E. repeat (match type of E with (bind ?x _) = _ => destruct x; try discriminate E; cbn [bind] in E end).
    unfold car1_plot_psd in E. destruct ns; [discriminate|]. eapply G, E.
Qed.
Print Assumptions C84_axes_refuted.

(** C85: the arrays of a CarmaSample.  Under the names below there is one row per sample of the trace, in the order of the trace: row i of each array belongs
    to sample i.  [b1] is the model object of the sampler after any use. *)
Theorem C85_carma : forall solve (si : list (F AX) -> option (list nat)) (raw : kfp AX) isreal p q (t y e : list R) (fn : option (file AX)) (rows : list (list R)) (lp : list (F AX)),
  valid_solve solve -> valid_sort_index si -> goodp raw ->
  (2 <= length t)%nat -> length y = length t -> length e = length t -> strictly_increasing t -> (2 <= p)%nat -> (q < p)%nat ->
  rows <> [] -> (forall th, In th rows -> row_ok p q th /\ 0 < nth 1 th 0) -> length lp = length rows ->
  exists b, carp_new si raw p (map Fin t) (map Fin y) (map Fin e) = Ok b /\
  forall b1, touched (carma_cls solve p q) (@setparp AX) b b1 ->
  exists d ll, CarmaSample_new (carma_cls solve p q) b1 isreal q fn lp (map (map Fin) rows) = Ok d /\ CarmaSample_loglik (carma_cls solve p q) b1 (map (map Fin) rows) = Ok ll /\
    map fst d = ["logpost"; "var"; "measerr_scale"; "mu"; "quad_coefs"; "ar_roots"; "psd_centroid"; "psd_width"; "ar_coefs"; "ma_coefs"; "sigma"; "loglik"] /\
    (forall k a, dget d k = Some a -> nrows a = length rows) /\
    forall i, (i < length rows)%nat -> let th := nth i rows [] in
    exists (om : list Complex.C) (ma ar : list R) (sg : R), row_par p q th (sg, om, ma) /\
      at_row d "logpost" i = Some [nth i lp NaN] /\ at_row d "loglik" i = Some [nth i ll NaN] /\
      at_row d "var" i = Some [Fin (nth 0 th 0 * nth 0 th 0)] /\ at_row d "measerr_scale" i = Some [Fin (nth 1 th 0)] /\ at_row d "mu" i = Some [Fin (nth 2 th 0)] /\
      at_row d "quad_coefs" i = Some (map (fun j => Fin (exp (nth (3 + j) th 0))) (seq 0 p)) /\
      at_rowC d "ar_roots" i = Some (map FinC om) /\
      at_row d "psd_width" i = Some (map (fun z => Fin (- fst z / (2 * PI))) om) /\
      at_row d "psd_centroid" i = Some (map (fun z => Fin (Rabs (snd z) / (2 * PI))) om) /\
      at_row d "ar_coefs" i = Some (map Fin ar) /\ length ar = S p /\ (forall x, desc_poly (map RtoC ar) x = roots_poly om x) /\
      at_row d "ma_coefs" i = Some (map Fin ma) /\ at_row d "sigma" i = Some [Fin sg].
Proof.
  intros solve si raw isreal p q t y e fn rows lp Hsv Hsi Hg Ht Hy He Hinc Hp Hq Hne Hok Hlp.
  destruct (CarmaSample_loglik_wrong solve si raw p q t y e rows Hsv Hsi Hg Ht Hy He Hinc Hp Hq) as (b & Eb & Hb).
  { intros th Hth. destruct (Hok th Hth) as ((L & H0 & Hd) & H1). repeat split; [lia|exact H0|exact H1|exact Hd]. }
  exists b. split; [exact Eb|]. intros b1 Hb1. destruct (Hb b1 Hb1) as (xs & Ex & HF).
  destruct (CarmaSample_rows isreal p q Hp Hq (carma_cls solve p q) b1 fn rows lp (map Fin xs) Hne (fun th Hth => proj1 (Hok th Hth)) Hlp Ex) as (d & Ed & Hd).
  { rewrite map_length. symmetry. apply (F2_len HF). }
  exists d, (map Fin xs). split; [exact Ed|]. split; [exact Ex|exact Hd].
Qed.
Print Assumptions C85_carma.
(** C85: Car1Sample; [lp] are log-posteriors recorded by the sampler *)
Theorem C85_car1 : forall (si : list (F AX) -> option (list nat)) (raw : kf1 AX) (t y e : list R) (fn : option (file AX)),
  valid_sort_index si -> (2 <= length t)%nat -> length y = length t -> length e = length t -> strictly_increasing t ->
  exists b smax fmin fmax, car1_new si raw (map Fin t) (map Fin y) (map Fin e) = Ok b /\ data_bounds t y smax fmin fmax /\
  forall rows lp, rows <> [] -> (forall th, In th rows -> row1_ok th /\ in_prior1 smax fmin fmax th) ->
    Forall2 (fun th l => exists b1 b2, touched (car1_cls AX) (@setpar1 AX) b b1 /\ LogDensity (car1_cls AX) b1 (map Fin th) = Ok (l, b2)) rows lp ->
  exists d ll, Car1Sample_new fn lp (map (map Fin) rows) = Ok d /\ Car1Sample_loglik AX (map (map Fin) rows) lp = Ok ll /\
    map fst d = ["logpost"; "var"; "measerr_scale"; "mu"; "log_omega"; "sigma"; "loglik"] /\ (forall k a, dget d k = Some a -> nrows a = length rows) /\
    forall i, (i < length rows)%nat -> let th := nth i rows [] in
      at_row d "logpost" i = Some [nth i lp NaN] /\ at_row d "loglik" i = Some [nth i ll NaN] /\
      at_row d "var" i = Some [Fin (nth 0 th 0 * nth 0 th 0)] /\ at_row d "measerr_scale" i = Some [Fin (nth 1 th 0)] /\ at_row d "mu" i = Some [Fin (nth 2 th 0)] /\
      at_row d "log_omega" i = Some [Fin (nth 3 th 0)] /\
      exists sg, at_row d "sigma" i = Some [Fin sg] /\ 0 < sg /\ sg * sg / (2 * exp (nth 3 th 0)) = nth 0 th 0 * nth 0 th 0.
Proof.
  intros si raw t y e fn Hsi Ht Hy He Hinc. destruct (Car1Sample_loglik_right si raw t y e Hsi Ht Hy He Hinc) as (b & smax & fmin & fmax & Eb & Hbd & H).
  exists b, smax, fmin, fmax. split; [exact Eb|]. split; [exact Hbd|]. intros rows lp Hne Hok HF.
  destruct (H rows lp) as (xs & Ex & HX); [intros th Hth; destruct (Hok th Hth) as ((L & H0) & H1); repeat split; try assumption; lia || apply H1|exact HF|].
  pose proof (F2_len HF) as L1. pose proof (F2_len HX) as L2.
  destruct (Car1Sample_rows fn rows lp (map Fin xs) Hne (fun th Hth => proj1 (Hok th Hth)) (eq_sym L1) Ex ltac:(rewrite map_length; symmetry; exact L2)) as (d & Ed & Hd).
  exists d, (map Fin xs). split; [exact Ed|]. split; [exact Ex|exact Hd].
Qed.
Print Assumptions C85_car1.
(** C85 is false of samples in a file: the argument filename of CarmaSample and Car1Sample has no effect, in any arithmetic, *)
Theorem C85_filename_refuted : forall (A : Arith) X Om (C : cls A X Om) b isreal q (f : file A) lp trace,
  CarmaSample_new C b isreal q (Some f) lp trace = CarmaSample_new C b isreal q None lp trace /\ Car1Sample_new (Some f) lp trace = Car1Sample_new None lp trace.
Proof. exact filename_ignored. Qed.
Print Assumptions C85_filename_refuted.
(** and MCMCSample(filename) stores the values under the name with a newline, so that get_samples with the name raises. *)
Theorem C85_header_refuted : forall (A : Arith) (f : file A), exists d, MCMCSample_new (Some f) = Ok d /\ get_samples d (f_header f) = Throw Elogic /\
  get_samples d (f_header f ++ String (ascii_of_nat 10) EmptyString) = Ok (f_data f).
Proof. intros A f. destruct (file_header A f) as (d & E & H1 & H2 & _). exists d. split; [exact E|]. split; [exact H1|exact H2]. Qed.
Print Assumptions C85_header_refuted.

(** C86: what posterior_summaries prints for an array with n rows and c columns: one summary per column, with the effective number of samples n / tau, the
    median, the standard deviation and the three intervals, which are nested. *)
Theorem C86_summaries : forall np_sort (acor : list (F AX) -> res (F AX)) (d : dict AX) k (m : list (list R)) c (tau : nat -> R), valid_np_sort np_sort ->
  dget d k = Some (V2 AX (map (map Fin) m)) -> m <> [] -> (forall row, In row m -> length row = c) ->
  (forall i, (i < c)%nat -> acor (map Fin (map (fun row => nth i row 0) m)) = Ok (Fin (tau i)) /\ tau i <> 0) ->
  exists ss, posterior_summaries np_sort acor d k = Ok ss /\ length ss = c /\
    forall i s, nth_error ss i = Some s -> let x := map (fun row => nth i row 0) m in
    exists med l68 u68 l95 u95 l99 u99, s = mkSum AX (Fin (INR (length x) / tau i)) (Fin med) (Fin (sqrt (pvar x))) (Fin l68, Fin u68) (Fin l95, Fin u95) (Fin l99, Fin u99) /\
    percentile_of x 50 med /\ percentile_of x 16 l68 /\ percentile_of x 84 u68 /\ percentile_of x (5 / 2) l95 /\ percentile_of x (195 / 2) u95 /\
    percentile_of x (1 / 2) l99 /\ percentile_of x (199 / 2) u99 /\ l99 <= l95 <= l68 /\ l68 <= med <= u68 /\ u68 <= u95 <= u99.
Proof. exact posterior_summaries_ok. Qed.
Print Assumptions C86_summaries.
(** C86 is false of one-dimensional arrays, which posterior_summaries has a branch for: both methods raise, in any arithmetic. *)
Theorem C86_vector_refuted : forall (A : Arith) np_sort acor (d : dict A) k v, dget d k = Some (V1 A v) ->
  posterior_summaries np_sort acor d k = Throw Elogic /\ effective_samples acor d k = Throw Elogic.
Proof. exact summaries_1d. Qed.
Print Assumptions C86_vector_refuted.

(** C87, Car1Sample: the best fits.  The parameters are those of the sample of the largest log-posterior, the medians, or the means; the filter predicts
    with them exactly. *)
Theorem C87_car1 : forall np_sort (si : list (F AX) -> option (list nat)) (raw : kf1 AX) (fn : option (file AX)) (rows : list (list R)) (lp : list R) (d : dict AX) (t y e ts : list R) bf,
  valid_np_sort np_sort -> valid_sort_index si -> rows <> [] -> (forall th, In th rows -> row1_ok th) -> length lp = length rows ->
  Car1Sample_new fn (map Fin lp) (map (map Fin) rows) = Ok d ->
  strictly_increasing t -> (2 <= length t)%nat -> length y = length t -> length e = length t -> no_exact t e ts ->
  exists sigsqr mu lo s o, car1_best bf rows lp sigsqr mu lo /\ 0 < sigsqr /\
    car1_sample_filter np_sort si raw (map Fin t) (map Fin y) (map Fin e) bf d = Ok (s, Fin mu) /\
    py_predict (methods1 AX) s (Fin mu) (map Fin ts) = Ok (map (fun mv => (Fin (fst mv), Fin (snd mv))) o) /\
    predictions (ou_cov sigsqr (exp lo)) t y e mu ts o.
Proof. exact Car1Sample_predict. Qed.
Print Assumptions C87_car1.
(** C87 is false of Car1Sample with 'random': the parameters are the means, which are not those of a sample. *)
Theorem C87_car1_random_refuted : exists (rows : list (list R)) (lp : list R), rows <> [] /\ (forall th, In th rows -> row1_ok th) /\ length lp = length rows /\
  forall np_sort (si : list (F AX) -> option (list nat)) (raw : kf1 AX) (fn : option (file AX)) (d : dict AX) (t y e : list R) s mu, valid_np_sort np_sort -> valid_sort_index si ->
  strictly_increasing t -> (2 <= length t)%nat -> length y = length t -> length e = length t ->
  Car1Sample_new fn (map Fin lp) (map (map Fin) rows) = Ok d ->
  car1_sample_filter np_sort si raw (map Fin t) (map Fin y) (map Fin e) BRandom d = Ok (s, mu) -> forall i, (i < length rows)%nat -> mu <> Fin (nth 2 (nth i rows []) 0).
Proof. exact Car1Sample_random_refuted. Qed.
Print Assumptions C87_car1_random_refuted.
(** C87, CarmaSample: 'map' is the first sample of the largest log-posterior, *)
Theorem C87_carma_map : forall np_sort csort isreal p q (si : list (F AX) -> option (list nat)) (raw : kfp AX) X Om (Cl : cls AX X Om) (b : base AX X) (fn : option (file AX)) (rows : list (list R))
  solve (t y e ts lp : list R) d j, (2 <= p)%nat -> (q < p)%nat -> valid_sort_index si -> rows <> [] -> (forall th, In th rows -> row_ok p q th) -> valid_solve solve ->
  strictly_increasing t -> (2 <= length t)%nat -> length y = length t -> length e = length t -> no_exact t e ts ->
  length lp = length rows -> CarmaSample_new Cl b isreal q fn (map Fin lp) (map (map Fin) rows) = Ok d ->
  exists i s o sig om ma, first_max lp i /\ let th := nth i rows [] in
    carma_sample_filter np_sort csort si raw (map Fin t) (map Fin y) (map Fin e) j BMap d = Ok (s, Fin (nth 2 th 0)) /\
    py_predict (methodsp solve) s (Fin (nth 2 th 0) : F AX) (map Fin ts) = Ok (map (fun mv => (Fin (fst mv), Fin (snd mv))) o) /\
    carma_params p q th sig om ma /\ predictions (carma_cov sig ma om) t y e (nth 2 th 0) ts o.
Proof. intros np_sort csort isreal p q si raw X Om Cl b fn rows solve t y e ts lp d j Hp Hq Hsi Hne Hok. exact (CarmaSample_map np_sort csort isreal p q Hp Hq si raw Hsi X Om Cl b fn rows Hne Hok solve t y e ts lp d j). Qed.
Print Assumptions C87_carma_map.
(** 'random' is the sample with the index that was drawn, and so is every string that is none of the four: it is not rejected; *)
Theorem C87_carma_random : forall np_sort csort isreal p q (si : list (F AX) -> option (list nat)) (raw : kfp AX) X Om (Cl : cls AX X Om) (b : base AX X) (fn : option (file AX)) (rows : list (list R))
  solve (t y e ts : list R) (lp : list (F AX)) d i bf, (2 <= p)%nat -> (q < p)%nat -> valid_sort_index si -> rows <> [] -> (forall th, In th rows -> row_ok p q th) -> valid_solve solve ->
  (bf = BRandom \/ bf = BOther) -> (i < length rows)%nat ->
  strictly_increasing t -> (2 <= length t)%nat -> length y = length t -> length e = length t -> no_exact t e ts ->
  length lp = length rows -> CarmaSample_new Cl b isreal q fn lp (map (map Fin) rows) = Ok d ->
  exists s o sig om ma, let th := nth i rows [] in
    carma_sample_filter np_sort csort si raw (map Fin t) (map Fin y) (map Fin e) i bf d = Ok (s, Fin (nth 2 th 0)) /\
    py_predict (methodsp solve) s (Fin (nth 2 th 0) : F AX) (map Fin ts) = Ok (map (fun mv => (Fin (fst mv), Fin (snd mv))) o) /\
    carma_params p q th sig om ma /\ predictions (carma_cov sig ma om) t y e (nth 2 th 0) ts o.
Proof. intros np_sort csort isreal p q si raw X Om Cl b fn rows solve t y e ts lp d i bf Hp Hq Hsi Hne Hok. exact (CarmaSample_random np_sort csort isreal p q Hp Hq si raw Hsi X Om Cl b fn rows Hne Hok solve t y e ts lp d i bf). Qed.
Print Assumptions C87_carma_random.
(** 'median' and 'mean' take the median or the mean of each parameter by itself; the noise variance is positive and the roots are stable.  If these roots are
    also distinct and closed under conjugation, the predictions are those of the CARMA process with these parameters. *)
Theorem C87_carma_columns : forall np_sort csort isreal p q (si : list (F AX) -> option (list nat)) (raw : kfp AX) X Om (Cl : cls AX X Om) (b : base AX X) (fn : option (file AX)) (rows : list (list R))
  solve (t y e : list R) (lp : list (F AX)) d i bf, (2 <= p)%nat -> (q < p)%nat ->
  valid_np_sort np_sort -> valid_csort csort -> valid_sort_index si -> valid_solve solve -> (bf = BMedian \/ bf = BMean) ->
  rows <> [] -> (forall th, In th rows -> row_ok p q th) ->
  strictly_increasing t -> (2 <= length t)%nat -> length y = length t -> length e = length t ->
  length lp = length rows -> CarmaSample_new Cl b isreal q fn lp (map (map Fin) rows) = Ok d ->
  exists S sig mu om ma s, Forall2 (row_par p q) rows S /\ carma_best bf p q rows S sig mu om ma /\ 0 < sig /\ (forall z, In z om -> fst z < 0) /\
    carma_sample_filter np_sort csort si raw (map Fin t) (map Fin y) (map Fin e) i bf d = Ok (s, Fin mu) /\
    (NoDup om -> conj_closed om -> forall ts, no_exact t e ts -> exists o,
       py_predict (methodsp solve) s (Fin mu : F AX) (map Fin ts) = Ok (map (fun mv => (Fin (fst mv), Fin (snd mv))) o) /\
       predictions (carma_cov sig (ma ++ repeat 0 (p - Datatypes.S q)) om) t y e mu ts o).
Proof. intros np_sort csort isreal p q si raw X Om Cl b fn rows solve t y e lp d i bf Hp Hq. exact (CarmaSample_cols np_sort csort isreal p q Hp Hq si raw Cl b fn rows solve t y e lp d i bf). Qed.
Print Assumptions C87_carma_columns.
(** C87 is false of the median: these roots need not be closed under conjugation, so that they are the roots of no CARMA process.  (C71 says the same of the mean.) *)
Theorem C87_median_refuted : exists (rows : list (list R)), length rows = 3%nat /\ (forall th, In th rows -> row_ok 2 0 th) /\
  forall (np_sort : list (F AX) -> list (F AX)) csort (isreal : list (cx AX) -> bool) i (lp : list (F AX)), valid_csort csort ->
  exists (D : list (drow AX)) (sig mu : F AX) (om : list C) (ma : list (F AX)), Forall2 (fun th d => py_derive isreal 0 (map Fin th) = Ok d) rows D /\
    carma_fit np_sort csort i BMedian D lp = Ok (sig, mu, map FinC om, ma) /\ ~ conj_closed om.
Proof. exact median_roots_not_closed. Qed.
Print Assumptions C87_median_refuted.

(** ** The hypotheses are met *)
Example ex_sorts : (exists s, valid_np_sort s) /\ (exists s, valid_csort s).
Proof. split; [exact valid_np_sort_exists|exact valid_csort_exists]. Qed.
Example ex_row_ok : forall th, In th [thA; thA] -> row_ok 2 0 th /\ 0 < nth 1 th 0.
Proof.
  intros th [<-|[<-|[]]]; destruct (PropsPy.ex_row thA (or_introl eq_refl)) as (A1 & A2 & A3 & A4); (split; [split; [exact A1|split; [exact A2|exact A4]]|rewrite A3; lra]).
Qed.
(** a CarmaSample of two samples; C82, C84 and C87 apply to it *)
Definition rawE : kfp AX := setparp (mkKF AX [] [] [] [] [] [] (Fin 0) O (Fin 0) (Fin 0) (@mkX AX [] [] [] [] [] [] [] [] (Fin 0) [] [])) ([], []).
Lemma rawE_good : goodp rawE.
Proof. unfold goodp, rawE. intros; cbn; auto. Qed.
Example ex_sample : exists solve si, valid_solve solve /\ valid_sort_index si /\ exists b d ll, CarmaSample_new (carma_cls solve 2 0) b (fun _ => true) 0 None [Fin 1; Fin 2] (map (map Fin) [thA; thA]) = Ok d /\
  CarmaSample_loglik (carma_cls solve 2 0) b (map (map Fin) [thA; thA]) = Ok ll /\ at_row d "mu" 1 = Some [Fin 0].
Proof.
  destruct valid_solve_exists as (sv & Hsv). destruct valid_sort_index_exists as (si & Hsi).
  destruct (C85_carma sv si rawE (fun _ => true) 2 0 PropsPy.tE PropsPy.yE PropsPy.eE None [thA; thA] [Fin 1; Fin 2] Hsv Hsi rawE_good) as (b & Eb & H); try (cbn; lia); try reflexivity; try discriminate.
  - apply PropsPy.ex_tE.
  - exact ex_row_ok.
  - destruct (H b (t_refl _ _ b)) as (d & ll & Ed & El & _ & _ & Hr). exists sv, si. split; [exact Hsv|]. split; [exact Hsi|]. exists b, d, ll. split; [exact Ed|]. split; [exact El|].
    destruct (Hr 1%nat ltac:(cbn; lia)) as (om & ma & ar & sg & _ & _ & _ & _ & _ & Hm & _). exact Hm.
Qed.
Example ex_row1 : forall th, In th [[1; 1; 0; 0]; [2; 1; 1; -1]] -> row1_ok th.
Proof. intros th [<-|[<-|[]]]; (split; [reflexivity|cbn; lra]). Qed.
(** four measurements; C83 *)
Example ex_four : strictly_increasing [0; 1; 3; 4] /\ (4 <= length [0; 1; 3; 4])%nat.
Proof. split; [|cbn; lia]. intros [|[|[|[|i]]]] [|[|[|[|j]]]] H1 H2; cbn in *; try lia; lra. Qed.
(** an array of two samples of two parameters; C86 *)
Example ex_summary : forall np_sort, valid_np_sort np_sort -> exists s1 s2, posterior_summaries np_sort (fun _ => Ok (Fin 2 : F AX)) [("x", V2 AX (map (map Fin) [[1; 5]; [3; 5]]))] "x" = Ok [s1; s2] /\
  s_neff s1 = Fin (2 / 2) /\ s_median s1 = Fin 2.
Proof.
  intros np_sort Hs. destruct (C86_summaries np_sort (fun _ => Ok (Fin 2 : F AX)) [("x", V2 AX (map (map Fin) [[1; 5]; [3; 5]]))] "x" [[1; 5]; [3; 5]] 2 (fun _ => 2) Hs eq_refl) as (ss & E & L & H).
  - discriminate.
  - intros row [<-|[<-|[]]]; reflexivity.
  - intros i Hi. split; [reflexivity|lra].
  - destruct ss as [|s1 [|s2 [|s3 ss]]]; try discriminate L. exists s1, s2. split; [exact E|].
    destruct (H 0%nat s1 eq_refl) as (med & l68 & u68 & l95 & u95 & l99 & u99 & -> & Hm & _). cbn [s_neff s_median map nth length INR] in *. split; [f_equal; lra|]. f_equal.
    apply (percentile_unique [1; 3] 50); [exact Hm|]. exists [1; 3]. split; [reflexivity|]. split.
    + intros [|[|i]] [|[|j]] H1 H2; cbn in *; try lia; lra.
    + exists 0%nat. cbn. split; [lia|]. split; lra.
Qed.
