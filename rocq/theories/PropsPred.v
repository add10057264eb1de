(** C98-C100: predictions compared: other units, more or better data, neighbouring times. *)
From Coq Require Import Reals List Arith ZArith Lra Lia Bool Permutation.
From Coquelicot Require Import Complex.
From Verif Require Import Arith Res ListLemmas KFModel Spec Gauss Emb History InitProof KF1X KF1Main KF1More KF1R OUpd.
From Verif Require Import Cx KFpModel KFpProof SpecCarma CLin KFpX KFpMain KFpTop.
From Verif Require KF1Refute PropsKFp.
From Verif Require Import SimProof LogDens Sym SymTime PredLaw.
Import ListNotations.
Local Open Scope R_scope.
Local Notation length := List.length.

(** *** C98 *)
(** C98, CAR(1): express the same measurements with times in another unit k, from another origin s or running backwards, and values and errors in another unit a;
    with omega and sigma^2 in the new units Predict returns the same distribution in the new units. *)
Theorem C98_predict1 : forall back a k s0 (s s' : kf1 AX) t y e sig w tp, a <> 0 -> 0 < k ->
  holds1 s t y e sig w -> holds1 s' (new_times back k s0 t) (rescale back a 0 y) (rescale back a 0 e) (a * a * sig / k) (w / k) ->
  strictly_increasing t -> 0 < sig -> 0 < w ->
  (forall i, (i < length t)%nat -> nth i t 0 = tp -> nth i e 0 <> 0) ->
  exists m v s1 s1', Predict1 s (Fin tp) = Ok ((Fin m, Fin v), s1) /\
    Predict1 s' (Fin (new_time back k s0 tp)) = Ok ((Fin (a * m), Fin (a * a * v)), s1').
Proof.
  intros back a k s0 s s' t y e sig w tp Ha Hk Hs Hs' Hi Hsig Hw Hok.
  destruct (holds1_lens _ _ _ _ _ _ Hs) as (Ly & Le & _ & _).
  destruct (predict_c07 s t y e sig w tp Hs Hi Hsig Hw Hok) as (m & v & s1 & E & Hc).
  assert (0 < a * a * sig / k) as Hsig'.
  { apply Rdiv_lt_0_compat; [|exact Hk]. apply Rmult_lt_0_compat; [|exact Hsig]. destruct (Req_dec (a * a) 0) as [E0|]; [apply Rsqr_0_uniq in E0; contradiction|nra]. }
  assert (0 < w / k) as Hw' by (apply Rdiv_lt_0_compat; assumption).
  pose proof (new_times_inc back k s0 t Hk Hi) as Hi'.
  destruct (predict_c07 s' _ _ _ _ _ (new_time back k s0 tp) Hs' Hi' Hsig' Hw' (allowed_units back a k s0 t e tp Ha Hk Le Hok)) as (m' & v' & s1' & E' & Hc').
  destruct (cond_determined _ _ _ _ _ _ _ _ Hi' Hsig' Hw' Hc') as [Hu _].
  destruct (Hu _ _ (cond_units (ou_cov sig w) _ back a k s0 t y e tp m v Hk Ly Le (fun p q => ou_units back a k s0 sig w p q Hk Hw) Hc)) as [<- <-].
  exists m, v, s1, s1'. split; assumption.
Qed.
Print Assumptions C98_predict1.

(** C98, CARMA: the roots are divided by k, the moving average coefficient of order l multiplied by k^l and sigma^2 by a^2 k^(1-2p). *)
Theorem C98_predictp : forall solve back a k s0 (s s' : kfp AX) t y e sig om ma tp, valid_solve solve -> a <> 0 -> 0 < k ->
  holdsp s t y e sig om ma ->
  holdsp s' (new_times back k s0 t) (rescale back a 0 y) (rescale back a 0 e) (sig_units a k (length om) sig) (map (scl (/ k)) om) (ma_units k ma) ->
  strictly_increasing t -> carma_ok sig om ma ->
  (forall i, (i < length t)%nat -> nth i t 0 = tp -> nth i e 0 <> 0) ->
  exists m v s1 s1', Predictp solve s (Fin tp) = Ok ((Fin m, Fin v), s1) /\
    Predictp solve s' (Fin (new_time back k s0 tp)) = Ok ((Fin (a * m), Fin (a * a * v)), s1').
Proof.
  intros solve back a k s0 s s' t y e sig om ma tp Hsv Ha Hk Hs Hs' Hi Hm Hok.
  destruct (holdsp_lens _ _ _ _ _ _ _ Hs) as (Ly & Le & _ & _).
  destruct (predictp solve Hsv s t y e sig om ma Hs Hi Hm tp Hok) as (m & v & s1 & E & Hc & _).
  pose proof (new_times_inc back k s0 t Hk Hi) as Hi'. pose proof (carma_ok_units a k sig om ma Ha Hk Hm) as Hm'.
  destruct (predictp solve Hsv s' _ _ _ _ _ _ Hs' Hi' Hm' (new_time back k s0 tp) (allowed_units back a k s0 t e tp Ha Hk Le Hok)) as (m' & v' & s1' & E' & Hc' & _).
  destruct (cond_detp solve Hsv _ (rescale back a 0 y) (rescale back a 0 e) _ _ _ Hi' Hm' _ _ _ Hc') as [Hu _].
  destruct Hm as (Hst & Hp & _).
  destruct (Hu _ _ (cond_units (carma_cov sig ma om) _ back a k s0 t y e tp m v Hk Ly Le (fun p q => carma_units back a k s0 sig ma om p q Hk Hst ltac:(lia)) Hc)) as [<- <-].
  exists m, v, s1, s1'. split; assumption.
Qed.
Print Assumptions C98_predictp.

(** *** C99 *)
(** C99: with the same parameters, an object that holds every measurement of another one, with errors that are no larger, predicts with a variance that is no larger,
    whatever the measured values. *)
Theorem C99_more_data1 : forall (s s' : kf1 AX) t y e t' y' e' sig w tp,
  holds1 s t y e sig w -> holds1 s' t' y' e' sig w -> strictly_increasing t -> strictly_increasing t' -> 0 < sig -> 0 < w ->
  at_least_as_good t e t' e' ->
  (forall i, (i < length t)%nat -> nth i t 0 = tp -> nth i e 0 <> 0) ->
  exists m v s1 m' v' s1', Predict1 s (Fin tp) = Ok ((Fin m, Fin v), s1) /\ Predict1 s' (Fin tp) = Ok ((Fin m', Fin v'), s1') /\ v <= v'.
Proof.
  intros s s' t y e t' y' e' sig w tp Hs Hs' Hi Hi' Hsig Hw Hg Hok.
  assert (forall i, (i < length t')%nat -> nth i t' 0 = tp -> nth i e' 0 <> 0) as Hok'.
  { intros i Hi0 E E0. destruct (Hg i Hi0) as (k & Hk & Ek & Hab). rewrite E0, Rabs_R0 in Hab. apply (Hok k Hk); [congruence|].
    destruct (Req_dec (nth k e 0) 0) as [|Hne]; [assumption|]. pose proof (Rabs_pos_lt _ Hne). lra. }
  destruct (predict_c07 s t y e sig w tp Hs Hi Hsig Hw Hok) as (m & v & s1 & E & Hc).
  destruct (predict_c07 s' t' y' e' sig w tp Hs' Hi' Hsig Hw Hok') as (m' & v' & s1' & E' & Hc').
  exists m, v, s1, m', v', s1'. split; [exact E|]. split; [exact E'|].
  exact (cond_more (ou_cov sig w) (ou_sym sig w) t y e t' y' e' tp m v m' v' Hi' (pd_psd _ _ (ou_obs_pd sig w t e Hsig Hw Hi)) Hg Hc Hc').
Qed.
Print Assumptions C99_more_data1.

Theorem C99_more_datap : forall solve (s s' : kfp AX) t y e t' y' e' sig om ma tp, valid_solve solve ->
  holdsp s t y e sig om ma -> holdsp s' t' y' e' sig om ma -> strictly_increasing t -> strictly_increasing t' -> carma_ok sig om ma ->
  at_least_as_good t e t' e' ->
  (forall i, (i < length t)%nat -> nth i t 0 = tp -> nth i e 0 <> 0) ->
  exists m v s1 m' v' s1', Predictp solve s (Fin tp) = Ok ((Fin m, Fin v), s1) /\ Predictp solve s' (Fin tp) = Ok ((Fin m', Fin v'), s1') /\ v <= v'.
Proof.
  intros solve s s' t y e t' y' e' sig om ma tp Hsv Hs Hs' Hi Hi' Hm Hg Hok.
  assert (forall i, (i < length t')%nat -> nth i t' 0 = tp -> nth i e' 0 <> 0) as Hok'.
  { intros i Hi0 E E0. destruct (Hg i Hi0) as (k & Hk & Ek & Hab). rewrite E0, Rabs_R0 in Hab. apply (Hok k Hk); [congruence|].
    destruct (Req_dec (nth k e 0) 0) as [|Hne]; [assumption|]. pose proof (Rabs_pos_lt _ Hne). lra. }
  destruct (predictp solve Hsv s t y e sig om ma Hs Hi Hm tp Hok) as (m & v & s1 & E & Hc & _).
  destruct (predictp solve Hsv s' t' y' e' sig om ma Hs' Hi' Hm tp Hok') as (m' & v' & s1' & E' & Hc' & _).
  exists m, v, s1, m', v', s1'. split; [exact E|]. split; [exact E'|].
  exact (cond_more (carma_cov sig ma om) (carma_sym sig ma om) t y e t' y' e' tp m v m' v' Hi' (pd_psd _ _ (carma_pd solve Hsv sig om ma Hm t e (strict_times_ok _ _ Hi))) Hg Hc Hc').
Qed.
Print Assumptions C99_more_datap.

(** *** C100 *)
(** C100: the predictions of an object at all times lie on two continuous curves, a mean and a variance; at a time measured without error
    the mean curve takes the measured value and the variance curve vanishes. *)
Theorem C100_curve1 : forall (s : kf1 AX) t y e sig w, holds1 s t y e sig w -> strictly_increasing t -> 0 < sig -> 0 < w ->
  exists mf vf : R -> R, continuity mf /\ continuity vf /\
    (forall i, (i < length t)%nat -> nth i e 0 = 0 -> mf (nth i t 0) = nth i y 0 /\ vf (nth i t 0) = 0) /\
    forall tp, (forall i, (i < length t)%nat -> nth i t 0 = tp -> nth i e 0 <> 0) -> exists s1, Predict1 s (Fin tp) = Ok ((Fin (mf tp), Fin (vf tp)), s1).
Proof.
  intros s t y e sig w Hs Hi Hsig Hw.
  destruct (pd_inverse _ _ (obs_cov_sym (ou_cov sig w) (fun i => nth i t 0) (fun i => nth i e 0) (ou_sym sig w)) (ou_obs_pd sig w t e Hsig Hw Hi)) as (V & HV).
  exists (curve_m (ou_cov sig w) V t y), (curve_v (ou_cov sig w) V t).
  destruct (curves_continuous (ou_cov sig w) V t y (ou_continuous sig w) (ou_diag_continuous sig w)) as [C1 C2].
  split; [exact C1|]. split; [exact C2|]. split; [intros i Hi0 He; exact (curve_exact (ou_cov sig w) V t y e i HV Hi0 He)|].
  intros tp Hok. destruct (predict_c07 s t y e sig w tp Hs Hi Hsig Hw Hok) as (m & v & s1 & E & Hc).
  destruct (cond_curve (ou_cov sig w) V t y e tp m v HV Hc) as [-> ->]. exists s1. exact E.
Qed.
Print Assumptions C100_curve1.

Theorem C100_curvep : forall solve (s : kfp AX) t y e sig om ma, valid_solve solve -> holdsp s t y e sig om ma -> strictly_increasing t -> carma_ok sig om ma ->
  exists mf vf : R -> R, continuity mf /\ continuity vf /\
    (forall i, (i < length t)%nat -> nth i e 0 = 0 -> mf (nth i t 0) = nth i y 0 /\ vf (nth i t 0) = 0) /\
    forall tp, (forall i, (i < length t)%nat -> nth i t 0 = tp -> nth i e 0 <> 0) -> exists s1, Predictp solve s (Fin tp) = Ok ((Fin (mf tp), Fin (vf tp)), s1).
Proof.
  intros solve s t y e sig om ma Hsv Hs Hi Hm. set (K := carma_cov sig ma om).
  destruct (pd_inverse _ _ (obs_cov_sym K (fun i => nth i t 0) (fun i => nth i e 0) (carma_sym sig ma om)) (carma_pd solve Hsv sig om ma Hm t e (strict_times_ok _ _ Hi))) as (V & HV).
  exists (curve_m K V t y), (curve_v K V t).
  destruct (curves_continuous K V t y (carma_continuous sig ma om) (carma_diag_continuous sig ma om)) as [C1 C2].
  split; [exact C1|]. split; [exact C2|]. split; [intros i Hi0 He; exact (curve_exact K V t y e i HV Hi0 He)|].
  intros tp Hok. destruct (predictp solve Hsv s t y e sig om ma Hs Hi Hm tp Hok) as (m & v & s1 & E & Hc & _).
  destruct (cond_curve K V t y e tp m v HV Hc) as [-> ->]. exists s1. exact E.
Qed.
Print Assumptions C100_curvep.

(** *** The hypotheses are met *)
(** such objects are what the constructors return for sorted measurements *)
Lemma build1 (si : list (F AX) -> option (list nat)) (raw : kf1 AX) t y e sig w : valid_sort_index si -> strictly_increasing t -> (2 <= length t)%nat ->
  length y = length t -> length e = length t ->
  exists s, kf_new si (SetOmega1 (SetSigsqr raw (Fin sig : F AX)) (Fin w)) (map Fin t) (map Fin y) (map Fin e) = Ok s /\ holds1 s t y e sig w.
Proof.
  intros Hsi Hi Hn Hy He.
  destruct (construct_main _ si (SetOmega1 (SetSigsqr raw (Fin sig : F AX)) (Fin w)) t y e Hsi Hy He) as (s & t' & y' & e' & E & E1 & E2 & E3 & _ & _ & _ & Hk & Hu & Es & Ex & _).
  { exists (nth 0 t 0), (nth 1 t 0). split; [apply nth_In; lia|]. split; [apply nth_In; lia|]. pose proof (Hi 0%nat 1%nat ltac:(lia) ltac:(lia)). lra. }
  destruct (Hk Hi) as (-> & -> & ->). exists s. split; [exact E|]. unfold holds1. repeat split; assumption || apply Hu.
Qed.
Lemma buildp (si : list (F AX) -> option (list nat)) (raw : kfp AX) t y e sig om ma : valid_sort_index si -> strictly_increasing t -> (2 <= length t)%nat ->
  length y = length t -> length e = length t -> length ma = length om ->
  exists s, kfp_new si raw (map Fin t) (map Fin y) (map Fin e) (Fin sig : F AX) (map FinC om) (map Fin ma) = Ok s /\ holdsp s t y e sig om ma.
Proof.
  intros Hsi Hi Hn Hy He Hm.
  destruct (constructp si raw t y e sig om ma Hsi Hy He) as (s & t' & y' & e' & E & _ & Hk & Hh).
  { exists (nth 0 t 0), (nth 1 t 0). split; [apply nth_In; lia|]. split; [apply nth_In; lia|]. pose proof (Hi 0%nat 1%nat ltac:(lia) ltac:(lia)). lra. }
  destruct (Hk Hi) as (-> & -> & ->). exists s. split; [exact E|]. rewrite Hm, Nat.sub_diag in Hh. cbn [repeat] in Hh. rewrite app_nil_r in Hh. exact Hh.
Qed.
Lemma inc_013 : strictly_increasing [0; 1; 3].
Proof. intros i j Hij Hj. cbn in Hj. destruct j as [|[|[|j]]]; try lia; destruct i as [|[|i]]; cbn; try lia; lra. Qed.
Lemma inc_03 : strictly_increasing [0; 3].
Proof. intros i j Hij Hj. cbn in Hj. destruct j as [|[|j]]; try lia; destruct i as [|i]; cbn; try lia; lra. Qed.
(** C98: times in seconds and then in minutes counted backwards, values multiplied by -2 *)
Example ex_units1 : exists s s' : kf1 AX, holds1 s [0; 1; 3] [3; -2; 5] [1; 0; 2] 2 1 /\
  holds1 s' (new_times true (1 / 60) 7 [0; 1; 3]) (rescale true (-2) 0 [3; -2; 5]) (rescale true (-2) 0 [1; 0; 2]) (-2 * -2 * 2 / (1 / 60)) (1 / (1 / 60)).
Proof.
  destruct valid_sort_index_exists as (si & Hsi).
  destruct (build1 si (KF1Refute.rawW) [0; 1; 3] [3; -2; 5] [1; 0; 2] 2 1 Hsi inc_013 ltac:(cbn; lia) eq_refl eq_refl) as (s & _ & H).
  destruct (build1 si (KF1Refute.rawW) (new_times true (1 / 60) 7 [0; 1; 3]) (rescale true (-2) 0 [3; -2; 5]) (rescale true (-2) 0 [1; 0; 2]) (-2 * -2 * 2 / (1 / 60)) (1 / (1 / 60)) Hsi
    (new_times_inc true (1 / 60) 7 [0; 1; 3] ltac:(lra) inc_013) ltac:(cbn; lia) eq_refl eq_refl) as (s' & _ & H').
  exists s, s'. split; assumption.
Qed.
Example ex_unitsp : forall raw : kfp AX, exists s s' : kfp AX, carma_ok 2 PropsKFp.omE [1; 3] /\ holdsp s [0; 1; 3] [3; -2; 5] [1; 0; 2] 2 PropsKFp.omE [1; 3] /\
  holdsp s' (new_times true (1 / 60) 7 [0; 1; 3]) (rescale true (-2) 0 [3; -2; 5]) (rescale true (-2) 0 [1; 0; 2])
    (sig_units (-2) (1 / 60) 2 2) (map (scl (/ (1 / 60))) PropsKFp.omE) (ma_units (1 / 60) [1; 3]).
Proof.
  intros raw. destruct valid_sort_index_exists as (si & Hsi).
  destruct (buildp si raw [0; 1; 3] [3; -2; 5] [1; 0; 2] 2 PropsKFp.omE [1; 3] Hsi inc_013 ltac:(cbn; lia) eq_refl eq_refl eq_refl) as (s & _ & H).
  destruct (buildp si raw (new_times true (1 / 60) 7 [0; 1; 3]) (rescale true (-2) 0 [3; -2; 5]) (rescale true (-2) 0 [1; 0; 2])
    (sig_units (-2) (1 / 60) 2 2) (map (scl (/ (1 / 60))) PropsKFp.omE) (ma_units (1 / 60) [1; 3]) Hsi
    (new_times_inc true (1 / 60) 7 [0; 1; 3] ltac:(lra) inc_013) ltac:(cbn; lia) eq_refl eq_refl eq_refl) as (s' & _ & H').
  exists s, s'. split; [exact PropsKFp.ex_carma_ok|]. split; assumption.
Qed.
(** C99: a third measurement and a smaller error bar *)
Example ex_better : at_least_as_good [0; 1; 3] [1; 0; 2] [0; 3] [4; -2] /\ exists s' : kf1 AX, holds1 s' [0; 3] [3; 5] [4; -2] 2 1.
Proof.
  split.
  - intros i Hi. cbn in Hi. destruct i as [|[|i]]; [exists 0%nat|exists 2%nat|lia]; cbn; (split; [lia|]); (split; [reflexivity|]).
    + rewrite !Rabs_pos_eq by lra. lra.
    + rewrite Rabs_pos_eq, Rabs_left by lra. lra.
  - destruct valid_sort_index_exists as (si & Hsi).
    destruct (build1 si (KF1Refute.rawW) [0; 3] [3; 5] [4; -2] 2 1 Hsi inc_03 ltac:(cbn; lia) eq_refl eq_refl) as (s & _ & H). exists s. exact H.
Qed.
(** C100: in [ex_units1] the measurement at time 1 has no error *)
Example ex_exact : nth 1 [1; 0; 2] 0 = 0 /\ (1 < length [0; 1; 3])%nat /\ forall i, (i < length [0; 1; 3])%nat -> nth i [0; 1; 3] 0 = 2 -> nth i [1; 0; 2] 0 <> 0.
Proof. split; [reflexivity|]. split; [cbn; lia|]. intros i Hi. cbn in Hi. destruct i as [|[|[|i]]]; cbn; try lia; lra. Qed.
