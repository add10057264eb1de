(** Property theorems about the diagnostic plots assess_fit and plot_autocorr (C88-C90). *)
From Coq Require Import List Arith ZArith Reals Lra Lia Permutation Bool String.
From Coquelicot Require Import Coquelicot.
From Verif Require Import Arith Res ListLemmas KFModel KF1Proof KFpProof CholProof Spec Gauss Emb KF1R KF1X KF1Main KF1More OUpd SimProof InitProof Cx KFpModel SpecCarma CLin KFpX KFpMain KFpTop KFpMore SpecModel.
From Verif Require Import CarpackModel RootsProof PriorProof LogLikProof LogLikMain CarpackTop EngineModel StartModel PyModel PySim PyFuns PyDerive PyPredict PyMore PyLoglik PyExtra PyBox PyKFSim.
From Verif Require Import PySampleModel PyQuant PyPsd PySampleProof PyFitProof PyFit2 PySum PyAssessModel PyAssess.
Import ListNotations.
Local Open Scope R_scope.
Local Open Scope string_scope.
Local Notation length := List.length.
Local Notation Forall2 := List.Forall2.

(** C88: with more than 50 measurements assess_fit succeeds and draws, for the parameters of the best fit: the conditional mean of the process at the times of
    the interpolation and the conditional standard deviation around it, the residuals of the one-step predictions divided by their standard deviations, the
    autocorrelations of these residuals and of their centred squares at the lags -50 .. 50, and the bound 1.96 / sqrt n.  Car1Sample, every best fit: *)
Theorem C88_car1 : forall np_sort (si : list (F AX) -> option (list nat)) (raw : kf1 AX) (fn : option (file AX)) (rows : list (list R)) (lp : list R) (d : dict AX) (t y e : list R) bf n,
  valid_np_sort np_sort -> valid_sort_index si -> rows <> [] -> (forall th, In th rows -> row1_ok th) -> length lp = length rows ->
  Car1Sample_new fn (map Fin lp) (map (map Fin) rows) = Ok d ->
  strictly_increasing t -> (50 < length t)%nat -> length y = length t -> length e = length t -> (2 <= n)%nat -> no_exact t e (interp_times t n) ->
  exists sigsqr mu lo f, car1_best bf rows lp sigsqr mu lo /\ 0 < sigsqr /\
    assess_fit (methods1 AX) (car1_sample_filter np_sort si raw (map Fin t) (map Fin y) (map Fin e) bf d) (map Fin t) (map Fin y) n = Ok f /\
    assessed (ou_cov sigsqr (exp lo)) t y e mu n f.
Proof. exact Car1Sample_assess. Qed.
Print Assumptions C88_car1.
(** CarmaSample, 'map': *)
Theorem C88_carma_map : forall np_sort csort isreal p q (si : list (F AX) -> option (list nat)) (raw : kfp AX) X Om (Cl : cls AX X Om) (b : base AX X) (fn : option (file AX)) (rows : list (list R))
  solve (t y e lp : list R) d j n, (2 <= p)%nat -> (q < p)%nat -> valid_sort_index si -> valid_solve solve -> rows <> [] -> (forall th, In th rows -> row_ok p q th) ->
  strictly_increasing t -> (50 < length t)%nat -> length y = length t -> length e = length t -> (2 <= n)%nat -> no_exact t e (interp_times t n) ->
  length lp = length rows -> CarmaSample_new Cl b isreal q fn (map Fin lp) (map (map Fin) rows) = Ok d ->
  exists i sig om ma f, first_max lp i /\ let th := nth i rows [] in carma_params p q th sig om ma /\
    assess_fit (methodsp solve) (carma_sample_filter np_sort csort si raw (map Fin t) (map Fin y) (map Fin e) j BMap d) (map Fin t) (map Fin y) n = Ok f /\
    assessed (carma_cov sig ma om) t y e (nth 2 th 0) n f.
Proof. intros np_sort csort isreal p q si raw X Om Cl b fn rows solve t y e lp d j n Hp Hq. exact (CarmaSample_assess_map np_sort csort isreal p q Hp Hq si raw Cl b fn rows solve t y e lp d j n). Qed.
Print Assumptions C88_carma_map.
(** CarmaSample, 'median' and 'mean', if the median or mean roots are those of a process (C71 and C87: they need not be): *)
Theorem C88_carma_columns : forall np_sort csort isreal p q (si : list (F AX) -> option (list nat)) (raw : kfp AX) X Om (Cl : cls AX X Om) (b : base AX X) (fn : option (file AX)) (rows : list (list R))
  solve (t y e : list R) (lp : list (F AX)) d i bf n, (2 <= p)%nat -> (q < p)%nat ->
  valid_np_sort np_sort -> valid_csort csort -> valid_sort_index si -> valid_solve solve -> (bf = BMedian \/ bf = BMean) ->
  rows <> [] -> (forall th, In th rows -> row_ok p q th) ->
  strictly_increasing t -> (50 < length t)%nat -> length y = length t -> length e = length t -> (2 <= n)%nat -> no_exact t e (interp_times t n) ->
  length lp = length rows -> CarmaSample_new Cl b isreal q fn lp (map (map Fin) rows) = Ok d ->
  exists S sig mu om ma, Forall2 (row_par p q) rows S /\ carma_best bf p q rows S sig mu om ma /\
    (NoDup om -> conj_closed om -> exists f,
       assess_fit (methodsp solve) (carma_sample_filter np_sort csort si raw (map Fin t) (map Fin y) (map Fin e) i bf d) (map Fin t) (map Fin y) n = Ok f /\
       assessed (carma_cov sig (ma ++ repeat 0 (p - Datatypes.S q)) om) t y e mu n f).
Proof. intros np_sort csort isreal p q si raw X Om Cl b fn rows solve t y e lp d i bf n Hp Hq. exact (CarmaSample_assess_cols np_sort csort isreal p q Hp Hq si raw Cl b fn rows solve t y e lp d i bf n). Qed.
Print Assumptions C88_carma_columns.
(** the autocorrelations drawn: 1 at lag 0, between -1 and 1 elsewhere *)
Theorem C88_range : forall (x : list R) m a, (exists i, nth i x 0 <> 0) -> is_acf x m a -> nth m a 0 = 1 /\ forall j, (j <= 2 * m)%nat -> -1 <= nth j a 0 <= 1.
Proof. exact acf_range. Qed.
Print Assumptions C88_range.
(** C88 is false of 50 measurements or fewer: assess_fit fails for every model, sample and arithmetic. *)
Theorem C88_short_refuted : forall (A : Arith) X (M : methods A X) mk (time y : list (F A)) n f, (length y <= 50)%nat -> assess_fit M mk time y n <> Ok f.
Proof. exact assess_short. Qed.
Print Assumptions C88_short_refuted.

(** C89: the times of the interpolation are equally spaced; if the first time is not negative and 1.001 times it is before the last, they increase,
    lie inside the data and end at the last measurement. *)
Theorem C89_times : forall (t : list R) n, t <> [] -> strictly_increasing t -> (2 <= n)%nat ->
  exists l, assess_times AX (map Fin t) n = Ok (map Fin l) /\ even_grid (1001 / 1000 * nth 0 t 0) (nth (length t - 1) t 0) n l /\
    (0 <= nth 0 t 0 -> 1001 / 1000 * nth 0 t 0 < nth (length t - 1) t 0 ->
     strictly_increasing l /\ (forall x, In x l -> nth 0 t 0 <= x <= nth (length t - 1) t 0) /\
     nth 0 l 0 = 1001 / 1000 * nth 0 t 0 /\ nth (n - 1) l 0 = nth (length t - 1) t 0).
Proof.
  intros t n Hne Hinc Hn. exists (interp_times t n). split; [apply assess_times_Fin; assumption|]. split; [apply interp_even|]. intros H0 H1. apply interp_inside; assumption.
Qed.
Print Assumptions C89_times.
(** C89 is false of times far from zero, such as modified Julian dates: all but the last time are after the last measurement, in decreasing order; *)
Theorem C89_late_refuted : (forall (t : list R) n, t <> [] -> strictly_increasing t -> (2 <= n)%nat -> nth (length t - 1) t 0 < 1001 / 1000 * nth 0 t 0 ->
    exists l, assess_times AX (map Fin t) n = Ok (map Fin l) /\
    (forall j, (j < n - 1)%nat -> nth (length t - 1) t 0 < nth j l 0) /\ (forall i j, (i < j)%nat -> (j < n)%nat -> nth j l 0 < nth i l 0)) /\
  exists t : list R, strictly_increasing t /\ (50 < length t)%nat /\ nth (length t - 1) t 0 < 1001 / 1000 * nth 0 t 0.
Proof.
  split.
  - intros t n Hne Hinc Hn H. exists (interp_times t n). split; [apply assess_times_Fin; assumption|]. apply interp_late; assumption.
  - exists (map (fun i => 55000 + INR i) (seq 0 51)).
    assert (forall j, (j < 51)%nat -> nth j (map (fun i => 55000 + INR i) (seq 0 51)) 0 = 55000 + INR j) as E.
    { intros j Hj. rewrite (nth_indep _ 0 ((fun i => 55000 + INR i) 0%nat)) by (rewrite map_length, seq_length; exact Hj). rewrite (map_nth (fun i => 55000 + INR i)), seq_nth by exact Hj. reflexivity. }
    split; [|split; [rewrite map_length, seq_length; lia|]].
    + intros i j Hij Hj. rewrite map_length, seq_length in Hj. rewrite !E by lia. pose proof (lt_INR i j Hij). lra.
    + rewrite map_length, seq_length, !E by lia. replace (51 - 1)%nat with 50%nat by reflexivity. rewrite (INR_IZR_INZ 50). cbn [INR Z.of_nat Pos.of_succ_nat Pos.succ]. lra.
Qed.
Print Assumptions C89_late_refuted.
(** and of negative times: the interpolation starts before the first measurement. *)
Theorem C89_negative_refuted : forall (t : list R) n, t <> [] -> strictly_increasing t -> (2 <= n)%nat -> nth 0 t 0 < 0 ->
  exists l, assess_times AX (map Fin t) n = Ok (map Fin l) /\ nth 0 l 0 < nth 0 t 0.
Proof. intros t n Hne Hinc Hn H. exists (interp_times t n). split; [apply assess_times_Fin; assumption|]. apply interp_negative; assumption. Qed.
Print Assumptions C89_negative_refuted.

(** C90: plot_autocorr of an array with at least two samples draws, for each parameter, the autocorrelations of its values minus their mean at all the lags,
    and marks its autocorrelation time. *)
Theorem C90_autocorr : forall (acor : list (F AX) -> res (F AX)) (d : dict AX) k (m : list (list R)) c (tau : nat -> F AX),
  dget d k = Some (V2 AX (map (map Fin) m)) -> (2 <= length m)%nat -> (forall row, In row m -> length row = c) ->
  (forall i, (i < c)%nat -> acor (map Fin (rcolumn m i)) = Ok (tau i)) ->
  exists l, plot_autocorr acor d k = Ok (Some l) /\ length l = c /\
    forall i a u, nth_error l i = Some (a, u) -> u = tau i /\ acf_out (centred (rcolumn m i)) (length m - 1) a.
Proof. exact plot_autocorr_ok. Qed.
Print Assumptions C90_autocorr.
(** C90 is false of a single sample, for which it raises; *)
Theorem C90_single_refuted : forall (A : Arith) acor (d : dict A) k (row : list (F A)) l, dget d k = Some (V2 A [row]) -> row <> [] -> plot_autocorr acor d k <> Ok l.
Proof. exact plot_autocorr_one. Qed.
Print Assumptions C90_single_refuted.
(** and of a parameter that never changed (a chain with no accepted proposal): nothing but NaN is drawn. *)
Theorem C90_constant_refuted : forall (acor : list (F AX) -> res (F AX)) (d : dict AX) k (m : list (list R)) c (tau : nat -> F AX) i x,
  dget d k = Some (V2 AX (map (map Fin) m)) -> (2 <= length m)%nat -> (forall row, In row m -> length row = c) ->
  (forall i, (i < c)%nat -> acor (map Fin (rcolumn m i)) = Ok (tau i)) -> (i < c)%nat -> (forall row, In row m -> nth i row 0 = x) ->
  exists l, plot_autocorr acor d k = Ok (Some l) /\ nth_error l i = Some (repeat NaN (2 * (length m - 1) + 1), tau i).
Proof.
  intros acor d k m c tau i x Hd Hm Hc Ha Hi Hx. destruct (plot_autocorr_ok acor d k m c tau Hd Hm Hc Ha) as (l & E & L & H). exists l. split; [exact E|].
  destruct (nth_error l i) as [[a u]|] eqn:En; [|apply nth_error_None in En; lia]. destruct (H i a u En) as (-> & _ & HN). rewrite HN; [reflexivity|].
  apply centred_const with x.
  - unfold rcolumn. destruct m; [cbn in Hm; lia|discriminate].
  - intros z Hz. unfold rcolumn in Hz. apply in_map_iff in Hz. destruct Hz as (row & <- & Hrow). apply Hx, Hrow.
Qed.
Print Assumptions C90_constant_refuted.

(** ** The hypotheses are met *)
Definition tA : list R := map INR (seq 0 51).
Lemma tA_nth j : (j < 51)%nat -> nth j tA 0 = INR j.
Proof. intros Hj. unfold tA. rewrite (nth_indep _ 0 (INR 0)) by (rewrite map_length, seq_length; exact Hj). rewrite map_nth, seq_nth by exact Hj. reflexivity. Qed.
Example ex_tA : strictly_increasing tA /\ (50 < length tA)%nat /\ 0 <= nth 0 tA 0 /\ 1001 / 1000 * nth 0 tA 0 < nth (length tA - 1) tA 0.
Proof.
  assert (length tA = 51%nat) as L by (unfold tA; rewrite map_length, seq_length; reflexivity). rewrite L.
  split; [|split; [lia|]].
  - intros i j Hij Hj. rewrite L in Hj. rewrite !tA_nth by lia. apply lt_INR. exact Hij.
  - rewrite !tA_nth by lia. cbn [INR]. replace (51 - 1)%nat with 50%nat by reflexivity. rewrite (INR_IZR_INZ 50). cbn. lra.
Qed.
(** a Car1Sample of two samples and 51 measurements with errors *)
Example ex_assess : forall y, length y = 51%nat -> exists np_sort si (raw : kf1 AX) d f, valid_np_sort np_sort /\ valid_sort_index si /\
  assess_fit (methods1 AX) (car1_sample_filter np_sort si raw (map Fin tA) (map Fin y) (map Fin (repeat 1 51)) BMap d) (map Fin tA) (map Fin y) 256 = Ok f /\
  assessed (ou_cov 2 (exp 0)) tA y (repeat 1 51) 0 256 f.
Proof.
  intros y Hy. destruct valid_np_sort_exists as (ns & Hns). destruct valid_sort_index_exists as (si & Hsi).
  destruct ex_tA as (Hinc & Hlen & _). assert (length tA = 51%nat) as L by (unfold tA; rewrite map_length, seq_length; reflexivity).
  assert (forall th, In th [[1; 1; 0; 0]; [2; 1; 1; -1]] -> row1_ok th) as Hok by (intros th [<-|[<-|[]]]; (split; [reflexivity|cbn; lra])).
  pose proof (Car1Sample_dict (None : option (file AX)) [[1; 1; 0; 0]; [2; 1; 1; -1]] (map Fin [3; 2]) ltac:(discriminate) Hok eq_refl) as E.
  assert (exists ll, Car1Sample_loglik AX (map (map Fin) [[1; 1; 0; 0]; [2; 1; 1; -1]]) (map Fin [3; 2]) = Ok ll) as (ll & El) by (eexists; reflexivity).
  change (F AX) with xr in *. rewrite El in E. cbn [bind] in E.
  destruct (C88_car1 ns si (mkKF AX [] [] [] [] [] [] (Fin 0) O (Fin 0) (Fin 0) (Fin 0)) None [[1; 1; 0; 0]; [2; 1; 1; -1]] [3; 2] _ tA y (repeat 1 51) BMap 256 Hns Hsi ltac:(discriminate) Hok eq_refl E Hinc Hlen) as (sg & mu & lo & f & Hb & _ & Ef & Hf);
    try (rewrite ?repeat_length; lia).
  - intros i Hi _. rewrite L in Hi. rewrite (nth_indep _ 0 1) by (rewrite repeat_length; exact Hi). rewrite nth_repeat. lra.
  - exists ns, si. eexists _, _, f. split; [exact Hns|]. split; [exact Hsi|]. split; [exact Ef|].
    destruct Hb as (i & Hm & Hsg & Hmu & Hlo). assert (i = 0%nat) as -> by (clear - Hm; destruct Hm as (Hi & Hmx & _); specialize (Hmx 0%nat ltac:(cbn; lia)); destruct i as [|[|i]]; cbn in *; [reflexivity|lra|lia]).
    cbn [nth] in Hsg, Hmu, Hlo. rewrite exp_0 in Hsg. replace (ou_cov 2 (exp 0)) with (ou_cov sg (exp lo)); [rewrite Hmu in Hf; exact Hf|]. rewrite Hlo. f_equal. lra.
Qed.
(** an array of two samples of two parameters; C90 *)
Example ex_autocorr : exists a u, plot_autocorr (fun _ => Ok (Fin 2 : F AX)) [("x", V2 AX (map (map Fin) [[1; 5]; [3; 5]]))] "x" = Ok (Some [(map Fin a, Fin 2); (u, Fin 2)]) /\
  nth 1 a 0 = 1 /\ nth 0 a 0 = - (1 / 2).
Proof.
  destruct (C90_autocorr (fun _ => Ok (Fin 2 : F AX)) [("x", V2 AX (map (map Fin) [[1; 5]; [3; 5]]))] "x" [[1; 5]; [3; 5]] 2 (fun _ => Fin 2) eq_refl) as (l & E & L & H).
  - cbn; lia.
  - intros row [<-|[<-|[]]]; reflexivity.
  - intros; reflexivity.
  - destruct l as [|[a0 u0] [|[a1 u1] [|? l]]]; try discriminate L. destruct (H 0%nat a0 u0 eq_refl) as (-> & Ha & _). destruct (H 1%nat a1 u1 eq_refl) as (-> & _).
    assert (centred (rcolumn [[1; 5]; [3; 5]] 0) = [-1; 1]) as Ec.
    { unfold centred, rcolumn, smean. cbn [map nth length Rsum INR]. f_equal; [|f_equal]; field. }
    rewrite Ec in Ha. destruct Ha as (a & -> & La & Hv); [exists 0%nat; cbn; lra|]. exists a, a1. split; [exact E|]. cbn [length Nat.sub] in *.
    destruct (Hv 1%nat ltac:(lia)) as (_ & E1). destruct (Hv 0%nat ltac:(lia)) as (E0 & _). cbn [Nat.add Nat.sub] in *. unfold acov in *. cbn [length Nat.sub Rsum nth Nat.add] in *.
    rewrite E0, E1. split; field.
Qed.
