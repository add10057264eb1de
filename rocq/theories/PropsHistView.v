(** C133: where the histogram of assess_fit lies in its panel. *)
From Coq Require Import List Arith ZArith Reals Lra Lia Permutation Bool String.
From Coquelicot Require Import Coquelicot.
From Verif Require Import Arith Res ListLemmas KFModel KF1Proof KFpProof CholProof Spec Gauss Emb KF1R KF1X KF1Main KF1More OUpd SimProof InitProof Cx KFpModel SpecCarma CLin KFpX KFpMain KFpTop KFpMore SpecModel.
From Verif Require Import CarpackModel RootsProof PriorProof LogLikProof LogLikMain CarpackTop EngineModel StartModel PyModel PySim PyFuns PyDerive PyPredict PyMore PyLoglik PyExtra PyBox PyKFSim.
From Verif Require Import PySampleModel PyQuant PyPsd PySampleProof PyFitProof PyFit2 PySum PyAssessModel HistProof PyAssess PropsAssess.
Import ListNotations.
Local Open Scope R_scope.
Local Notation length := List.length.
Local Notation Forall2 := List.Forall2.

(** a horizontal bar from 0 to its length has a part in the panel, whose axis goes from the first to the last time (plt.xlim, L727) *)
Definition bar_seen (first last : R) (b : bar AX) : Prop :=
  exists w x, b_len b = Fin w /\ w <> 0 /\ Rmin 0 w <= x <= Rmax 0 w /\ first <= x <= last.
(** so has the curve at one of its points *)
Definition point_seen (first last : R) (v : xr) : Prop := exists x, v = Fin x /\ first <= x <= last.
(** a histogram and a curve are seen if the longest bar and the peak are; nothing of them is seen *)
Definition histogram_seen (first last : R) (f : fit AX) : Prop :=
  (exists b, In b (f_bars f) /\ bar_seen first last b) /\ (exists v, In v (f_curve f) /\ point_seen first last v).
Definition histogram_unseen (first last : R) (f : fit AX) : Prop :=
  (forall b, In b (f_bars f) -> ~ bar_seen first last b) /\ (forall v, In v (f_curve f) -> ~ point_seen first last v).

Lemma list_max_in c : c <> [] -> In (list_max c) c.
Proof.
  induction c as [|k c IH]; [contradiction|]. intros _. change (list_max (k :: c)) with (Nat.max k (list_max c)).
  destruct c as [|k' c]; [left; cbn; lia|]. specialize (IH ltac:(discriminate)).
  destruct (Nat.max_spec k (list_max (k' :: c))) as [[_ ->]|[_ ->]]; [right; exact IH|left; reflexivity].
Qed.
Lemma list_max_ub c k : In k c -> (k <= list_max c)%nat.
Proof.
  induction c as [|k' c IH]; [contradiction|]. change (list_max (k' :: c)) with (Nat.max k' (list_max c)). intros [->|H]; [lia|]. specialize (IH H). lia.
Qed.
Lemma ratio_01 c i : (0 < list_max c)%nat -> 0 <= INR (nth i c 0%nat) / INR (list_max c) <= 1.
Proof.
  intros Hm. assert (0 < INR (list_max c)) as Hp by (apply lt_0_INR; exact Hm).
  assert (nth i c 0 <= list_max c)%nat as Hle. { destruct (Nat.lt_ge_cases i (length c)) as [H|H]; [apply list_max_ub, nth_In, H|rewrite nth_overflow by exact H; lia]. }
  apply le_INR in Hle. pose proof (pos_INR (nth i c 0%nat)). split.
  - apply Rmult_le_pos; [assumption|]. apply Rlt_le, Rinv_0_lt_compat, Hp.
  - apply (Rmult_le_reg_r (INR (list_max c))); [exact Hp|]. unfold Rdiv. rewrite Rmult_assoc, Rinv_l by lra. lra.
Qed.

Lemma view_of K (t y e : list R) mu n f : (0 < length t)%nat -> assessed K t y e mu n f ->
  let first := nth 0 t 0 in let last := nth (length t - 1) t 0 in
  (0 < last -> first <= 2 / 5 * last -> histogram_seen first last f) /\
  ((0 < last /\ 2 / 5 * last < first) \/ last < 0 -> histogram_unseen first last f).
Proof.
  intros Ht (o & r & _ & (Lr & _) & _ & _ & _ & _ & _ & _ & _ & _ & lo & hi & c & Hrg & Hc & (Lb & Hb) & (top & Htop & Hmin & Ecurve)). cbv zeta.
  set (first := nth 0 t 0). set (last := nth (length t - 1) t 0) in *.
  assert (0 < list_max c)%nat as Hm by (apply list_max_pos;
    rewrite (counts_total r 10 lo hi c ltac:(lia) (range_lt r lo hi Hrg) (fun v => range_in r lo hi v Hrg) Hc); lia).
  pose proof Hc as (Lc & _). assert (0 < INR (list_max c)) as Hm' by (apply lt_0_INR; exact Hm).
  assert (forall b, In b (f_bars f) -> exists u, 0 <= u <= 1 /\ b_len b = Fin (u * (2 / 5 * last))) as Hbars.
  { intros b Hin. apply In_nth_error in Hin. destruct Hin as (i & Hi). assert (i < 10)%nat as Hi10 by (rewrite <- Lb; apply nth_error_Some; congruence).
    destruct (Hb i Hi10) as (w & _ & E). rewrite E in Hi. injection Hi as <-. exists (INR (nth i c 0%nat) / INR (list_max c)). split; [apply ratio_01, Hm|reflexivity]. }
  assert (forall v, In v (f_curve f) -> exists u, 0 < u <= 1 /\ v = Fin (u * (2 / 5 * last))) as Hcurve.
  { intros v Hin. rewrite Ecurve in Hin. apply in_map_iff in Hin. destruct Hin as (b & <- & Hbin). exists (exp (- (b * b) / 2) / exp (- (top * top) / 2)). split; [|reflexivity].
    specialize (Hmin b Hbin). pose proof (exp_pos (- (b * b) / 2)). pose proof (exp_pos (- (top * top) / 2)) as P. split; [apply Rdiv_lt_0_compat; assumption|].
    assert (exp (- (b * b) / 2) <= exp (- (top * top) / 2)) as Hle. { destruct (Req_dec (b * b) (top * top)) as [->|N]; [lra|]. left. apply exp_increasing. lra. }
    apply (Rmult_le_reg_r (exp (- (top * top) / 2))); [exact P|]. unfold Rdiv at 1. rewrite Rmult_assoc, Rinv_l by lra. lra. }
  split.
  - intros Hl Hf. split.
    + assert (c <> []) as Hne by (intros ->; cbn in Hm; lia). destruct (In_nth _ _ 0%nat (list_max_in c Hne)) as (i & Hi & Ei).
      rewrite Lc in Hi. destruct (Hb i Hi) as (w & _ & E). eexists. split; [exact (nth_error_In _ _ E)|].
      exists (INR (nth i c 0%nat) / INR (list_max c) * (2 / 5 * last)), (2 / 5 * last). split; [reflexivity|]. rewrite Ei.
      replace (INR (list_max c) / INR (list_max c) * (2 / 5 * last)) with (2 / 5 * last) by (field; lra).
      split; [lra|]. rewrite Rmin_left, Rmax_right by lra. lra.
    + exists (Fin (2 / 5 * last)). split; [|exists (2 / 5 * last); split; [reflexivity|lra]].
      rewrite Ecurve. apply in_map_iff. exists top. split; [|exact Htop]. f_equal. pose proof (exp_pos (- (top * top) / 2)). field. lra.
  - intros Hcase. split.
    + intros b Hin (w & x & Ew & Hw & Hx & Hv). destruct (Hbars b Hin) as (u & Hu & E). rewrite E in Ew. injection Ew as <-.
      destruct Hcase as [(Hl & Hf)|Hl].
      * assert (0 <= u * (2 / 5 * last) <= 2 / 5 * last) as Hb2 by (split; [apply Rmult_le_pos; lra|]; rewrite <- (Rmult_1_l (2 / 5 * last)) at 2; apply Rmult_le_compat_r; lra).
        rewrite Rmin_left, Rmax_right in Hx by lra. lra.
      * assert (2 / 5 * last <= u * (2 / 5 * last) <= 0) as Hb2.
        { assert (0 <= u * (2 / 5 * - last)) by (apply Rmult_le_pos; lra). assert (0 <= (1 - u) * (2 / 5 * - last)) by (apply Rmult_le_pos; lra). lra. }
        rewrite Rmin_right, Rmax_left in Hx by lra. lra.
    + intros v Hin (x & -> & Hv). destruct (Hcurve _ Hin) as (u & Hu & E). injection E as ->.
      assert (0 <= u * (1 - 0)) by lra. destruct Hcase as [(Hl & Hf)|Hl].
      * assert (0 <= (1 - u) * (2 / 5 * last)) by (apply Rmult_le_pos; lra). lra.
      * assert (0 <= (1 - u) * (2 / 5 * - last)) by (apply Rmult_le_pos; lra). lra.
Qed.

(** C133, Car1Sample, every best fit: the histogram of the residuals and the normal curve are seen in their panel if the last time is positive and the first
    is at most 0.4 of it; if the first time is later than 0.4 of the last, or if the last is negative, nothing of them lies in the panel. *)
Theorem C133_car1 : forall np_sort (si : list (F AX) -> option (list nat)) (raw : kf1 AX) (fn : option (file AX)) (rows : list (list R)) (lp : list R) (d : dict AX) (t y e : list R) bf n,
  valid_np_sort np_sort -> valid_sort_index si -> rows <> [] -> (forall th, In th rows -> row1_ok th) -> length lp = length rows ->
  Car1Sample_new fn (map Fin lp) (map (map Fin) rows) = Ok d ->
  strictly_increasing t -> (50 < length t)%nat -> length y = length t -> length e = length t -> (2 <= n)%nat -> no_exact t e (interp_times t n) ->
  exists f, assess_fit (methods1 AX) (car1_sample_filter np_sort si raw (map Fin t) (map Fin y) (map Fin e) bf d) (map Fin t) (map Fin y) n = Ok f /\
    let first := nth 0 t 0 in let last := nth (length t - 1) t 0 in
    (0 < last -> first <= 2 / 5 * last -> histogram_seen first last f) /\
    ((0 < last /\ 2 / 5 * last < first) \/ last < 0 -> histogram_unseen first last f).
Proof.
  intros np_sort si raw fn rows lp d t y e bf n H1 H2 H3 H4 H5 H6 H7 H8 H9 H10 H11 H12.
  destruct (C88_car1 np_sort si raw fn rows lp d t y e bf n H1 H2 H3 H4 H5 H6 H7 H8 H9 H10 H11 H12) as (sg & mu & w & f & _ & _ & Ef & Hf).
  exists f. split; [exact Ef|]. exact (view_of _ t y e mu n f ltac:(lia) Hf).
Qed.
Print Assumptions C133_car1.
(** CarmaSample, 'map' *)
Theorem C133_carma : forall np_sort csort isreal p q (si : list (F AX) -> option (list nat)) (raw : kfp AX) X Om (Cl : cls AX X Om) (b : base AX X) (fn : option (file AX)) (rows : list (list R))
  solve (t y e lp : list R) d j n, (2 <= p)%nat -> (q < p)%nat -> valid_sort_index si -> valid_solve solve -> rows <> [] -> (forall th, In th rows -> row_ok p q th) ->
  strictly_increasing t -> (50 < length t)%nat -> length y = length t -> length e = length t -> (2 <= n)%nat -> no_exact t e (interp_times t n) ->
  length lp = length rows -> CarmaSample_new Cl b isreal q fn (map Fin lp) (map (map Fin) rows) = Ok d ->
  exists f, assess_fit (methodsp solve) (carma_sample_filter np_sort csort si raw (map Fin t) (map Fin y) (map Fin e) j BMap d) (map Fin t) (map Fin y) n = Ok f /\
    let first := nth 0 t 0 in let last := nth (length t - 1) t 0 in
    (0 < last -> first <= 2 / 5 * last -> histogram_seen first last f) /\
    ((0 < last /\ 2 / 5 * last < first) \/ last < 0 -> histogram_unseen first last f).
Proof.
  intros np_sort csort isreal p q si raw X Om Cl b fn rows solve t y e lp d j n G1 G2 H1 H2 H3 H4 H5 H6 H7 H8 H9 H10 H11 H12.
  destruct (C88_carma_map np_sort csort isreal p q si raw X Om Cl b fn rows solve t y e lp d j n G1 G2 H1 H2 H3 H4 H5 H6 H7 H8 H9 H10 H11 H12) as (i & sg & om & ma & f & _ & H).
  cbv zeta in H. destruct H as (_ & Ef & Hf). exists f. split; [exact Ef|]. exact (view_of _ t y e _ n f ltac:(lia) Hf).
Qed.
Print Assumptions C133_carma.

(** the same days as modified Julian dates *)
Definition tMJD : list R := map (fun x => x + 55000) tA.
(** Both cases occur: 51 daily measurements counted from the first, and as modified Julian dates. *)
Example C133_cases_met : (0 < nth (length tA - 1) tA 0 /\ nth 0 tA 0 <= 2 / 5 * nth (length tA - 1) tA 0) /\
  let t := tMJD in
  strictly_increasing t /\ (50 < length t)%nat /\ 0 < nth (length t - 1) t 0 /\ 2 / 5 * nth (length t - 1) t 0 < nth 0 t 0.
Proof.
  destruct ex_tA as (Hi & Hl & H0 & H1). assert (length tA = 51%nat) as L by (unfold tA; rewrite map_length, seq_length; reflexivity).
  cbv zeta. unfold tMJD. rewrite map_length, L in *. replace (51 - 1)%nat with 50%nat in * by reflexivity.
  assert (forall j, (j < 51)%nat -> nth j (map (fun x => x + 55000) tA) 0 = INR j + 55000) as E.
  { intros j Hj. rewrite (nth_indep _ 0 (0 + 55000)) by (rewrite map_length, L; exact Hj). rewrite (map_nth (fun x => x + 55000)). rewrite tA_nth by exact Hj. reflexivity. }
  rewrite !E, !tA_nth by lia. rewrite (INR_IZR_INZ 50). cbn [INR Z.of_nat Pos.of_succ_nat Pos.succ].
  split; [split; lra|]. split; [|split; [lia|split; lra]].
  intros i j Hij Hj. rewrite map_length, L in Hj. rewrite !E by lia. pose proof (lt_INR i j Hij). lra.
Qed.

(** C133 is false of modified Julian dates: 51 daily measurements with unit errors, whatever their values, and a Car1Sample of two samples. *)
Theorem C133_refuted : forall y, length y = 51%nat -> exists np_sort si (raw : kf1 AX) d f, valid_np_sort np_sort /\ valid_sort_index si /\
  Car1Sample_new (None : option (file AX)) (map Fin [3; 2]) (map (map Fin) [[1; 1; 0; 0]; [2; 1; 1; -1]]) = Ok d /\
  assess_fit (methods1 AX) (car1_sample_filter np_sort si raw (map Fin tMJD) (map Fin y) (map Fin (repeat 1 51)) BMap d) (map Fin tMJD) (map Fin y) 256 = Ok f /\
  histogram_unseen (nth 0 tMJD 0) (nth (length tMJD - 1) tMJD 0) f.
Proof.
  intros y Hy. destruct valid_np_sort_exists as (ns & Hns). destruct valid_sort_index_exists as (si & Hsi).
  destruct C133_cases_met as (_ & Hinc & Hlen & Hp & Hv). assert (length tMJD = 51%nat) as L by (unfold tMJD, tA; rewrite !map_length, seq_length; reflexivity).
  assert (forall th, In th [[1; 1; 0; 0]; [2; 1; 1; -1]] -> row1_ok th) as Hok by (intros th [<-|[<-|[]]]; (split; [reflexivity|cbn; lra])).
  pose proof (Car1Sample_dict (None : option (file AX)) [[1; 1; 0; 0]; [2; 1; 1; -1]] (map Fin [3; 2]) ltac:(discriminate) Hok eq_refl) as E.
  assert (exists ll, Car1Sample_loglik AX (map (map Fin) [[1; 1; 0; 0]; [2; 1; 1; -1]]) (map Fin [3; 2]) = Ok ll) as (ll & El) by (eexists; reflexivity).
  change (F AX) with xr in *. rewrite El in E. cbn [bind] in E.
  destruct (C133_car1 ns si (mkKF AX [] [] [] [] [] [] (Fin 0) O (Fin 0) (Fin 0) (Fin 0)) None [[1; 1; 0; 0]; [2; 1; 1; -1]] [3; 2] _ tMJD y (repeat 1 51) BMap 256 Hns Hsi ltac:(discriminate) Hok eq_refl E Hinc Hlen) as (f & Ef & _ & Hf);
    try (rewrite ?repeat_length; lia).
  - intros i Hi _. rewrite L in Hi. rewrite (nth_indep _ 0 1) by (rewrite repeat_length; exact Hi). rewrite nth_repeat. lra.
  - exists ns, si. eexists _, _, f. split; [exact Hns|]. split; [exact Hsi|]. split; [exact E|]. split; [exact Ef|]. apply Hf. left. split; assumption.
Qed.
Print Assumptions C133_refuted.
