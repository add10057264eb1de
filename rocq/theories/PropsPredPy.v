(** C98 and C99 for the Python class KalmanFilterDeprecated: the same measurements in other units, more or better measurements. *)
From Coq Require Import Reals List Arith ZArith Lra Lia Bool Permutation.
From Coquelicot Require Import Complex.
From Verif Require Import Arith Res ListLemmas KFModel KF1Proof Spec Gauss Emb KF1R History InitProof SimProof KF1Main KF1More KF1Hist.
From Verif Require Import Cx KFpModel KFpProof SpecCarma KFpX KFpMain KFpTop KFpMore PyKFModel PyKFProof PyKFTop PyKFSim PropsKFp PropsPyKF.
From Verif Require Import LogDens Sym SymTime OUpd PredLaw.
From Verif Require PyLoglik.
Import ListNotations.
Local Open Scope R_scope.
Local Notation length := List.length.

Definition series_ok (t y v : list R) : Prop := length y = length t /\ length v = length t /\ (1 <= length t)%nat /\ strictly_increasing t /\
  (forall i, (i < length t)%nat -> 0 <= nth i v 0).
Definition pars_ok (sig : R) (om : list C) (ma : list R) : Prop :=
  stable_roots om /\ (2 <= length om)%nat /\ (length ma <= length om)%nat /\ (exists c, In c ma /\ c <> 0) /\ 0 < sig.

Lemma pars_pad (t y v : list R) sig om ma : pars_ok sig om ma -> carma_ok sig om (ma ++ repeat 0 (length om - length ma)).
Proof. intros (H1 & H2 & H3 & H4 & H5). destruct (new_holdsd t y v sig om ma H1 H2 H3 H4 H5) as (_ & _ & _ & H). exact H. Qed.
Lemma cond_unique sig om ma t y e tp m v m' v' : strictly_increasing t -> pars_ok sig om ma ->
  cond_dist (carma_cov sig ma om) t y e tp m v -> cond_dist (carma_cov sig ma om) t y e tp m' v' -> m' = m /\ v' = v.
Proof.
  intros Hi Hp H H'. pose proof (pars_pad [] [] [] _ _ _ Hp) as Hok.
  assert (forall a b, carma_cov sig ma om a b = carma_cov sig (ma ++ repeat 0 (length om - length ma)) om a b) as E by (intros; symmetry; apply carma_cov_pad).
  destruct (C17_spec_is_unique_and_optimal sig om _ t y e tp m v Hi Hok (cond_dist_ext _ _ _ _ _ _ _ _ E H)) as [Hu _].
  apply Hu. exact (cond_dist_ext _ _ _ _ _ _ _ _ E H').
Qed.
Lemma new_times_map k s t : new_times false k s t = map (fun x => k * (x + s)) t.
Proof. unfold new_times, stretch, retime, turn. rewrite map_map. reflexivity. Qed.
Lemma rescale_map a y : rescale false a 0 y = map (fun x => a * x) y.
Proof. unfold rescale, turn. apply map_ext. intros. ring. Qed.
Lemma sqrt_scaled a v : 0 < a -> map sqrt (map (fun x => a * a * x) v) = map (fun x => a * x) (map sqrt v).
Proof.
  intros Ha. rewrite !map_map. apply map_ext. intros x. rewrite sqrt_mult_alt by nra. rewrite sqrt_square by lra. reflexivity.
Qed.
Lemma nth_map0 (f : R -> R) l i : (i < length l)%nat -> nth i (map f l) 0 = f (nth i l 0).
Proof. intros H. rewrite (nth_indep _ 0 (f 0)) by (rewrite map_length; exact H). apply map_nth. Qed.
Lemma ma_units_some k ma : 0 < k -> (exists c, In c ma /\ c <> 0) -> exists c, In c (ma_units k ma) /\ c <> 0.
Proof.
  intros Hk (c & Hc & Hn). destruct (In_nth _ _ 0 Hc) as (l & Hl & E). exists (k ^ l * c). split.
  - rewrite <- E, <- (ma_units_nth k ma l Hl). apply nth_In. rewrite ma_units_len. exact Hl.
  - apply Rmult_integral_contrapositive_currified; [apply pow_nonzero; lra|exact Hn].
Qed.
Lemma pars_units a k sig om ma : 0 < a -> 0 < k -> pars_ok sig om ma -> pars_ok (sig_units a k (length om) sig) (map (scl (/ k)) om) (ma_units k ma).
Proof.
  intros Ha Hk (H1 & H2 & H3 & H4 & H5). split; [apply stable_units; assumption|]. rewrite map_length, ma_units_len.
  split; [exact H2|]. split; [exact H3|]. split; [apply ma_units_some; assumption|].
  unfold sig_units. apply Rdiv_lt_0_compat; [|apply pow_lt, Hk]. apply Rmult_lt_0_compat; [nra|exact H5].
Qed.
Lemma series_units a k s0 t y v : 0 < a -> 0 < k -> series_ok t y v ->
  series_ok (map (fun x => k * (x + s0)) t) (map (fun x => a * x) y) (map (fun x => a * a * x) v).
Proof.
  intros Ha Hk (H1 & H2 & H3 & H4 & H5). unfold series_ok. rewrite !map_length. split; [exact H1|]. split; [exact H2|]. split; [exact H3|]. split.
  - rewrite <- new_times_map. apply new_times_inc; assumption.
  - intros i Hi. rewrite nth_map0 by lia. specialize (H5 i Hi). apply Rmult_le_pos; nra.
Qed.

(** C98, KalmanFilterDeprecated: the same measurements with times in another unit k, from another origin s0, and values in another unit a
    (so variances in the unit a^2), with the roots divided by k, the moving average coefficient of order l multiplied by k^l and
    sigma^2 by a^2 k^(1-2p): predict returns the same distribution in the new units. *)
Theorem C98_predict_py : forall solve solve' empty empty' a k s0 (t y v : list R) (sig : R) (om : list C) (ma : list R) tp,
  valid_solve solve -> valid_solve solve' -> 0 < a -> 0 < k -> series_ok t y v -> pars_ok sig om ma ->
  nth 0 t 0 < tp -> (forall i, (i < length t)%nat -> nth i t 0 = tp -> nth i v 0 <> 0) ->
  exists d d' m w d1 d1',
    d_new (A := AX) (map Fin t) (map Fin y) (map Fin v) (Fin sig : F AX) (map FinC om) (map Fin ma) = Ok d /\
    d_new (A := AX) (map Fin (map (fun x => k * (x + s0)) t)) (map Fin (map (fun x => a * x) y)) (map Fin (map (fun x => a * a * x) v))
      (Fin (sig_units a k (length om) sig) : F AX) (map FinC (map (scl (/ k)) om)) (map Fin (ma_units k ma)) = Ok d' /\
    d_predict solve empty d (Fin tp : F AX) = Ok ((Fin m, Fin w), d1) /\
    d_predict solve' empty' d' (Fin (k * (tp + s0)) : F AX) = Ok ((Fin (a * m), Fin (a * a * w)), d1').
Proof.
  intros solve solve' empty empty' a k s0 t y v sig om ma tp Hsv Hsv' Ha Hk Hser Hpar Hf Hnz.
  pose proof (series_units a k s0 t y v Ha Hk Hser) as (S1 & S2 & S3 & S4 & S5). pose proof (pars_units a k sig om ma Ha Hk Hpar) as Hpar'.
  pose proof Hpar' as (P1 & P2 & P3 & P4 & P5). destruct Hser as (H1 & H2 & H3 & H4 & H5). pose proof Hpar as (Q1 & Q2 & Q3 & Q4 & Q5).
  destruct (C75_predict_exact solve empty t y v sig om ma tp Hsv H1 H2 H3 H4 H5 Q1 Q2 Q3 Q4 Q5 Hf Hnz) as (d & m & w & d1 & E1 & E2 & _ & Hc).
  destruct (C75_predict_exact solve' empty' _ _ _ _ _ _ (k * (tp + s0)) Hsv' S1 S2 S3 S4 S5 P1 P2 P3 P4 P5) as (d' & m' & w' & d1' & E1' & E2' & _ & Hc').
  - rewrite nth_map0 by lia. apply Rmult_lt_compat_l; lra.
  - rewrite map_length. intros i Hi E. rewrite nth_map0 in E by exact Hi. rewrite nth_map0 by lia.
    assert (nth i t 0 = tp) as E0 by (apply Rmult_eq_reg_l in E; lra).
    apply Rmult_integral_contrapositive_currified; [nra|]. exact (Hnz i Hi E0).
  - assert (length (map sqrt v) = length t) as L by (rewrite map_length; exact H2).
    pose proof (cond_units (carma_cov sig ma om) _ false a k s0 t y (map sqrt v) tp m w Hk H1 L
      (fun p q => carma_units false a k s0 sig ma om p q Hk Q1 ltac:(lia)) Hc) as Hu.
    rewrite new_times_map, !rescale_map, <- (sqrt_scaled a v Ha) in Hu. unfold new_time in Hu.
    destruct (cond_unique _ _ _ _ _ _ _ _ _ _ _ S4 Hpar' Hc' Hu) as [<- <-].
    exists d, d', m, w, d1, d1'. split; [exact E1|]. split; [exact E1'|]. split; assumption.
Qed.
Print Assumptions C98_predict_py.

(** The same for filter: every one-step prediction. *)
Theorem C98_filter_py : forall solve solve' empty empty' a k s0 (t y v : list R) (sig : R) (om : list C) (ma : list R),
  valid_solve solve -> valid_solve solve' -> 0 < a -> 0 < k -> series_ok t y v -> pars_ok sig om ma ->
  exists d d' ml vl d1 d1',
    d_new (A := AX) (map Fin t) (map Fin y) (map Fin v) (Fin sig : F AX) (map FinC om) (map Fin ma) = Ok d /\
    d_new (A := AX) (map Fin (map (fun x => k * (x + s0)) t)) (map Fin (map (fun x => a * x) y)) (map Fin (map (fun x => a * a * x) v))
      (Fin (sig_units a k (length om) sig) : F AX) (map FinC (map (scl (/ k)) om)) (map Fin (ma_units k ma)) = Ok d' /\
    length ml = length t /\ length vl = length t /\
    d_filter solve empty d = Ok ((map Fin ml, map Fin vl), d1) /\
    d_filter solve' empty' d' = Ok ((map Fin (map (fun x => a * x) ml), map Fin (map (fun x => a * a * x) vl)), d1').
Proof.
  intros solve solve' empty empty' a k s0 t y v sig om ma Hsv Hsv' Ha Hk Hser Hpar.
  pose proof (series_units a k s0 t y v Ha Hk Hser) as (S1 & S2 & S3 & S4 & S5). pose proof (pars_units a k sig om ma Ha Hk Hpar) as Hpar'.
  pose proof Hpar' as (P1 & P2 & P3 & P4 & P5). destruct Hser as (H1 & H2 & H3 & H4 & H5). pose proof Hpar as (Q1 & Q2 & Q3 & Q4 & Q5).
  destruct (C75_filter_exact solve empty t y v sig om ma Hsv H1 H2 H3 H4 H5 Q1 Q2 Q3 Q4 Q5) as (d & ml & vl & d1 & E1 & E2 & L1 & L2 & Hc).
  destruct (C75_filter_exact solve' empty' _ _ _ _ _ _ Hsv' S1 S2 S3 S4 S5 P1 P2 P3 P4 P5) as (d' & ml' & vl' & d1' & E1' & E2' & L1' & L2' & Hc').
  rewrite map_length in L1', L2', Hc'.
  assert (forall i, (i < length t)%nat -> nth i ml' 0 = a * nth i ml 0 /\ nth i vl' 0 = a * a * nth i vl 0) as Hall.
  { intros i Hi. destruct (Hc i Hi) as [C1 _]. destruct (Hc' i Hi) as [C1' _].
    assert (length (firstn i y) = length (firstn i t)) as L3 by (rewrite !firstn_length; lia).
    assert (length (firstn i (map sqrt v)) = length (firstn i t)) as L4 by (rewrite !firstn_length, map_length; lia).
    pose proof (cond_units (carma_cov sig ma om) _ false a k s0 (firstn i t) (firstn i y) (firstn i (map sqrt v)) (nth i t 0) (nth i ml 0) (nth i vl 0 - nth i v 0) Hk L3 L4
      (fun p q => carma_units false a k s0 sig ma om p q Hk Q1 ltac:(lia)) C1) as Hu.
    rewrite new_times_map, !rescale_map in Hu. unfold new_time in Hu.
    rewrite (sqrt_scaled a v Ha) in C1'. rewrite (nth_map0 (fun x => k * (x + s0)) t i Hi), (nth_map0 (fun x => a * a * x) v i ltac:(lia)) in C1'.
    rewrite (firstn_map (fun x => k * (x + s0)) i t), (firstn_map (fun x => a * x) i y), (firstn_map (fun x => a * x) i (map sqrt v)) in C1'.
    pose proof (PyLoglik.incr_firstn _ i S4) as Hf. rewrite firstn_map in Hf.
    destruct (cond_unique _ _ _ _ _ _ _ _ _ _ _ Hf Hpar' C1' Hu) as [Em Ew]. clear - Em Ew.
    split; lra. }
  assert (ml' = map (fun x => a * x) ml) as ->.
  { apply (nth_ext _ _ 0 0); [rewrite map_length; lia|]. intros i Hi. rewrite nth_map0 by lia. apply Hall. lia. }
  assert (vl' = map (fun x => a * a * x) vl) as ->.
  { apply (nth_ext _ _ 0 0); [rewrite map_length; lia|]. intros i Hi. rewrite nth_map0 by lia. apply Hall. lia. }
  exists d, d', ml, vl, d1, d1'. split; [exact E1|]. split; [exact E1'|]. split; [exact L1|]. split; [exact L2|]. split; [exact E2|]. exact E2'.
Qed.
Print Assumptions C98_filter_py.

(** C99, KalmanFilterDeprecated: a second object with the same parameters that was given only some of the measurements, or larger
    variances, predicts with a variance that is no smaller, whatever the measured values. *)
Theorem C99_more_data_py : forall solve empty (t y v t' y' v' : list R) (sig : R) (om : list C) (ma : list R) tp,
  valid_solve solve -> series_ok t y v -> series_ok t' y' v' -> pars_ok sig om ma ->
  (forall i, (i < length t')%nat -> exists j, (j < length t)%nat /\ nth j t 0 = nth i t' 0 /\ nth j v 0 <= nth i v' 0) ->
  nth 0 t 0 < tp -> nth 0 t' 0 < tp -> (forall i, (i < length t)%nat -> nth i t 0 = tp -> nth i v 0 <> 0) ->
  exists d m w d1 d' m' w' d1',
    d_new (A := AX) (map Fin t) (map Fin y) (map Fin v) (Fin sig : F AX) (map FinC om) (map Fin ma) = Ok d /\
    d_new (A := AX) (map Fin t') (map Fin y') (map Fin v') (Fin sig : F AX) (map FinC om) (map Fin ma) = Ok d' /\
    d_predict solve empty d (Fin tp : F AX) = Ok ((Fin m, Fin w), d1) /\
    d_predict solve empty d' (Fin tp : F AX) = Ok ((Fin m', Fin w'), d1') /\ w <= w'.
Proof.
  intros solve empty t y v t' y' v' sig om ma tp Hsv (H1 & H2 & H3 & H4 & H5) (S1 & S2 & S3 & S4 & S5) Hpar Hg Hf Hf' Hnz.
  pose proof Hpar as (Q1 & Q2 & Q3 & Q4 & Q5).
  destruct (C75_predict_exact solve empty t y v sig om ma tp Hsv H1 H2 H3 H4 H5 Q1 Q2 Q3 Q4 Q5 Hf Hnz) as (d & m & w & d1 & E1 & E2 & _ & Hc).
  destruct (C75_predict_exact solve empty t' y' v' sig om ma tp Hsv S1 S2 S3 S4 S5 Q1 Q2 Q3 Q4 Q5 Hf') as (d' & m' & w' & d1' & E1' & E2' & _ & Hc').
  { intros i Hi E E0. destruct (Hg i Hi) as (j & Hj & Ej & Hv). apply (Hnz j Hj); [congruence|]. specialize (H5 j Hj). lra. }
  exists d, m, w, d1, d', m', w', d1'. split; [exact E1|]. split; [exact E1'|]. split; [exact E2|]. split; [exact E2'|].
  pose proof (pars_pad t y v _ _ _ Hpar) as Hok.
  assert (forall a b, carma_cov sig ma om a b = carma_cov sig (ma ++ repeat 0 (length om - length ma)) om a b) as E by (intros; symmetry; apply carma_cov_pad).
  refine (cond_more _ (carma_sym sig _ om) t y (map sqrt v) t' y' (map sqrt v') tp m w m' w' S4
    (pd_psd _ _ (carma_pd solve Hsv sig om _ Hok t (map sqrt v) (strict_times_ok _ _ H4))) _ (cond_dist_ext _ _ _ _ _ _ _ _ E Hc) (cond_dist_ext _ _ _ _ _ _ _ _ E Hc')).
  intros i Hi. destruct (Hg i Hi) as (j & Hj & Ej & Hv). exists j. split; [exact Hj|]. split; [exact Ej|].
  rewrite !nth_map0 by lia. rewrite !Rabs_pos_eq by apply sqrt_pos. apply sqrt_le_1_alt, Hv.
Qed.
Print Assumptions C99_more_data_py.

(** The hypotheses are met: three measurements of a CARMA(2,0) process, with roots -1 and -2. *)
Example C98_py_hypotheses_met : series_ok [0; 1; 3] [1; -1; 2] [0; 1; 0] /\ pars_ok 2 [RtoC (-1); RtoC (-2)] [1] /\ nth 0 [0; 1; 3] 0 < 2.
Proof.
  split; [|split; [|cbn; lra]].
  - split; [reflexivity|]. split; [reflexivity|]. split; [cbn; lia|]. split.
    + intros [|[|[|i]]] [|[|[|j]]] Hij Hj; cbn in *; try lra; lia.
    + intros [|[|[|i]]] Hi; cbn in *; try lra; lia.
  - split.
    { split; [|split].
      - constructor; [|constructor; [intros []|constructor]]. intros [E|[]]. injection E. lra.
      - intros z [<-|[<-|[]]]; cbn; lra.
      - intros z Hz. replace (Cconj z) with z; [exact Hz|]. destruct Hz as [<-|[<-|[]]]; unfold Cconj, RtoC; cbn; f_equal; lra. }
     split; [cbn; lia|]. split; [cbn; lia|]. split; [exists 1; split; [left; reflexivity|lra]|lra].
Qed.
(** Two objects of C99: the second lacks the measurement at 1 and has a larger variance at 3. *)
Example C99_py_hypotheses_met : forall i, (i < length [0; 3])%nat ->
  exists j, (j < length [0; 1; 3])%nat /\ nth j [0; 1; 3] 0 = nth i [0; 3] 0 /\ nth j [0; 1; 0] 0 <= nth i [0; 2] 0.
Proof.
  intros [|[|i]] Hi; cbn in Hi; [exists 0%nat|exists 2%nat|lia]; cbn; (split; [lia|split; lra]).
Qed.
