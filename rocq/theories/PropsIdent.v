(** Property theorems C120: the filters depend on the parameters through the power spectrum alone, and determine it. *)
From Coq Require Import Reals List Arith ZArith Lra Lia Bool Permutation.
From Coquelicot Require Import Complex.
From Verif Require Import Arith Res ListLemmas KFModel Spec Gauss Emb History InitProof SimProof KF1R KF1Main KF1More KF1Hist.
From Verif Require Import Cx KFpModel KFpProof SpecCarma CLin KFpX KFpMain KFpTop KFpMore PyModel PySim PyFuns PyExtra Spectrum SpectrumTop SpecIdent IdentProof.
From Verif Require CarmaKernel.
Import ListNotations.
Local Open Scope R_scope.

Lemma psd_power isreal isreal' sigma om ma sigma' om' ma' : stable_roots om -> stable_roots om' ->
  (forall f, power_spectrum AX (Fin f) (Fin sigma) (py_ar_coefs isreal (map FinC om)) (map Fin ma) =
             power_spectrum AX (Fin f) (Fin sigma') (py_ar_coefs isreal' (map FinC om')) (map Fin ma')) <->
  (forall f, carma_psd (sigma * sigma) ma om f = carma_psd (sigma' * sigma') ma' om' f).
Proof.
  intros H H'. assert (forall f, power_spectrum AX (Fin f) (Fin sigma) (py_ar_coefs isreal (map FinC om)) (map Fin ma) = Fin (carma_psd (sigma * sigma) ma om f)) as E.
  { intros f. apply (power_spectrum_stable isreal om sigma ma f); [apply H|apply stable_conj_closed, H]. }
  assert (forall f, power_spectrum AX (Fin f) (Fin sigma') (py_ar_coefs isreal' (map FinC om')) (map Fin ma') = Fin (carma_psd (sigma' * sigma') ma' om' f)) as E'.
  { intros f. apply (power_spectrum_stable isreal' om' sigma' ma' f); [apply H'|apply stable_conj_closed, H']. }
  split; intros Q f; specialize (Q f); rewrite E, E' in *; [injection Q as Q; exact Q|rewrite Q; reflexivity].
Qed.
Lemma ok_parts sig om ma : carma_ok sig om ma -> stable_roots om /\ om <> [] /\ (length ma <= length om)%nat.
Proof. intros (H & H2 & L & _). split; [exact H|]. split; [intros ->; cbn in H2; lia|lia]. Qed.
Lemma carma_cov_psd sig om ma sig' om' ma' : carma_ok sig om ma -> carma_ok sig' om' ma' ->
  (forall f, carma_psd sig ma om f = carma_psd sig' ma' om' f) -> forall a b, carma_cov sig' ma' om' a b = carma_cov sig ma om a b.
Proof.
  intros H H' E a b. destruct (ok_parts _ _ _ H) as (A1 & A2 & A3). destruct (ok_parts _ _ _ H') as (B1 & B2 & B3).
  symmetry. apply (proj1 (psd_acv sig ma om sig' ma' om' A1 A2 A3 B1 B2 B3) E). apply Rabs_pos.
Qed.
Lemma carma_times_pd sig om ma : carma_ok sig om ma -> forall t e, times_ok t e -> pd (length t) (obs_cov (carma_cov sig ma om) (fun i => nth i t 0) (fun i => nth i e 0)).
Proof. intros H t e Ht. destruct valid_solve_exists as [sv Hsv]. exact (carma_pd sv Hsv sig om ma H t e Ht). Qed.
Lemma carma_cov_sym sig ma om a b : carma_cov sig ma om a b = carma_cov sig ma om b a.
Proof. unfold carma_cov. rewrite Rabs_minus_sym. reflexivity. Qed.

(** C120: two KalmanFilterp objects, of whatever orders, whose parameters have the same power spectrum return the same
    filter output, the same predictions at all times and, with the same random numbers, the same simulated values. *)
Theorem C120_same_spectrum : forall solve solve' isreal isreal' (s s' : kfp AX) t y e sigma om ma sigma' om' ma',
  valid_solve solve -> valid_solve solve' ->
  holdsp s t y e (sigma * sigma) om ma -> holdsp s' t y e (sigma' * sigma') om' ma' -> strictly_increasing t ->
  carma_ok (sigma * sigma) om ma -> carma_ok (sigma' * sigma') om' ma' ->
  (forall f, power_spectrum AX (Fin f) (Fin sigma) (py_ar_coefs isreal (map FinC om)) (map Fin ma) =
             power_spectrum AX (Fin f) (Fin sigma') (py_ar_coefs isreal' (map FinC om')) (map Fin ma')) ->
  agree t e _ _ (methodsp solve) (methodsp solve') (Predictp solve) (Predictp solve') s s'.
Proof.
  intros solve solve' isreal isreal' s s' t y e sigma om ma sigma' om' ma' Hsv Hsv' Hs Hs' Hi Hm Hm' E.
  pose proof (proj1 (psd_power isreal isreal' sigma om ma sigma' om' ma' (proj1 Hm) (proj1 Hm')) E) as E'.
  destruct (holdsp_lens _ _ _ _ _ _ _ Hs) as (_ & Le & _).
  apply (answers_agree (carma_cov (sigma * sigma) ma om) (carma_cov_sym _ _ _) (carma_times_pd _ _ _ Hm) _ _ _ _ _ _ s s' t y e Le Hi).
  - apply answersp; assumption.
  - apply (answers_ext (carma_cov (sigma' * sigma') ma' om')); [apply carma_cov_psd; assumption|]. apply answersp; assumption.
Qed.
Print Assumptions C120_same_spectrum.

(** the covariance function of the first order process *)
Lemma car1_as_carma sig w : 0 < w -> stable_roots [(- w, 0) : C] /\ (forall a b, carma_cov sig [1] [(- w, 0) : C] a b = ou_cov sig w a b) /\
  (forall f, carma_psd sig [1] [(- w, 0) : C] f = sig / (w * w + (2 * PI * f) * (2 * PI * f))).
Proof.
  intros Hw. split; [|split].
  - split; [constructor; [intros []|constructor]|]. split; intros z [<-|[]]; cbn [fst]; [lra|]. left. unfold Cconj. cbn [fst snd]. apply C_eq; simpl; ring.
  - intros a b. unfold carma_cov, carma_acv, ou_cov, carma_denom, ma_poly. simpl.
    replace (- w * Rabs (a - b) - 0 * 0) with (- (w * Rabs (a - b))) by ring. replace (- w * 0 + 0 * Rabs (a - b)) with 0 by ring. rewrite cos_0, sin_0. field. lra.
  - intros f. unfold carma_psd. rewrite !Cmod_nrm2. unfold CarmaKernel.nrm2. simpl.
    pose proof (Rle_0_sqr (2 * PI * f)) as Q. unfold Rsqr in Q. field. apply Rgt_not_eq. nra.
Qed.
(** C120: the same for a KalmanFilter1 and a KalmanFilterp; car1_psd is the spectrum drawn for CAR(1) samples. *)
Theorem C120_first_order : forall solve isreal (s : kf1 AX) (s' : kfp AX) t y e sigma lo sigma' om' ma',
  valid_solve solve ->
  holds1 s t y e (sigma * sigma) (exp lo) -> holdsp s' t y e (sigma' * sigma') om' ma' -> strictly_increasing t ->
  sigma <> 0 -> carma_ok (sigma' * sigma') om' ma' ->
  (forall f, car1_psd AX (Fin sigma) (Fin lo) (Fin f) = power_spectrum AX (Fin f) (Fin sigma') (py_ar_coefs isreal (map FinC om')) (map Fin ma')) ->
  agree t e _ _ (methods1 AX) (methodsp solve) (@Predict1 AX) (Predictp solve) s s'.
Proof.
  intros solve isreal s s' t y e sigma lo sigma' om' ma' Hsv Hs Hs' Hi Hsg Hm E. pose proof (exp_pos lo) as Hw.
  assert (0 < sigma * sigma) as Hsig by (apply Rsqr_pos_lt in Hsg; exact Hsg).
  destruct (car1_as_carma (sigma * sigma) (exp lo) Hw) as (Hst & Ec & Ep). destruct (ok_parts _ _ _ Hm) as (B1 & B2 & B3).
  destruct (holdsp_lens _ _ _ _ _ _ _ Hs') as (_ & Le & _).
  apply (answers_agree (carma_cov (sigma' * sigma') ma' om') (carma_cov_sym _ _ _) (carma_times_pd _ _ _ Hm) _ _ _ _ _ _ s s' t y e Le Hi).
  - apply (answers_ext (ou_cov (sigma * sigma) (exp lo))); [|apply answers1; assumption]. intros a b. rewrite <- Ec.
    refine (proj1 (psd_acv (sigma * sigma) [1] [(- exp lo, 0) : C] (sigma' * sigma') ma' om' Hst _ _ B1 B2 B3) _ _ (Rabs_pos _)); [discriminate|cbn; lia|].
    intros f. specialize (E f). rewrite (proj1 (car1_psd_spec sigma lo f)) in E. rewrite Ep.
    destruct (power_spectrum_stable isreal om' sigma' ma' f (proj1 (proj2 B1)) (stable_conj_closed _ B1)) as [E' _].
    pose proof (eq_trans E E') as E2. injection E2 as E2. exact E2.
  - apply answersp; assumption.
Qed.
Print Assumptions C120_first_order.

(** C120: conversely, two sets of parameters whose filters agree on the exact measurements 1 and 0 at times 0 and tau, for all
    tau, have the same power spectrum. *)
Definition raw0 : kfp AX := setparp (mkKF AX [] [] [] [] [] [] (Fin 0) O (Fin 0) (Fin 0) (@mkX AX [] [] [] [] [] [] [] [] (Fin 0) [] [])) ([], []).
Lemma two_point K (M : methods AX (kpx AX)) P (s : kfp AX) tau : answers K (kpx AX) M P s [0; tau] [1; 0] [0; 0] ->
  exists s' m1, Filter M s = Ok s' /\ nth_error (k_var s') 0 = Some (Fin (K 0 0)) /\ nth_error (k_mean s') 1 = Some (Fin m1) /\ K tau 0 = m1 * K 0 0.
Proof.
  intros [(s' & A & _ & _ & H) _ _]. destruct (H 0%nat ltac:(cbn; lia)) as (m0 & v0 & _ & B2 & (w0 & _ & _ & B3)).
  destruct (H 1%nat ltac:(cbn; lia)) as (m1 & v1 & D1 & _ & (w1 & D2 & D3 & _)). exists s', m1. split; [exact A|].
  cbn in B3. split; [rewrite B2; f_equal; f_equal; lra|]. split; [exact D1|]. specialize (D2 0%nat ltac:(cbn; lia)). unfold obs_cov in D2. cbn in D2, D3. rewrite D3, <- D2. ring.
Qed.
Theorem C120_spectrum_determined : forall solve solve' isreal isreal' sigma om ma sigma' om' ma',
  valid_solve solve -> valid_solve solve' -> carma_ok (sigma * sigma) om ma -> carma_ok (sigma' * sigma') om' ma' ->
  (forall tau (s s' : kfp AX) u u', 0 < tau -> holdsp s [0; tau] [1; 0] [0; 0] (sigma * sigma) om ma -> holdsp s' [0; tau] [1; 0] [0; 0] (sigma' * sigma') om' ma' ->
     Filter (methodsp solve) s = Ok u -> Filter (methodsp solve') s' = Ok u' -> k_mean u = k_mean u' /\ k_var u = k_var u') ->
  forall f, power_spectrum AX (Fin f) (Fin sigma) (py_ar_coefs isreal (map FinC om)) (map Fin ma) =
            power_spectrum AX (Fin f) (Fin sigma') (py_ar_coefs isreal' (map FinC om')) (map Fin ma').
Proof.
  intros solve solve' isreal isreal' sigma om ma sigma' om' ma' Hsv Hsv' Hm Hm' H.
  apply (proj2 (psd_power isreal isreal' sigma om ma sigma' om' ma' (proj1 Hm) (proj1 Hm'))).
  destruct (ok_parts _ _ _ Hm) as (A1 & A2 & A3). destruct (ok_parts _ _ _ Hm') as (B1 & B2 & B3).
  assert (forall tau, 0 < tau -> carma_cov (sigma * sigma) ma om 0 0 = carma_cov (sigma' * sigma') ma' om' 0 0 /\ carma_cov (sigma * sigma) ma om tau 0 = carma_cov (sigma' * sigma') ma' om' tau 0) as Q.
  { intros tau Ht. destruct valid_sort_index_exists as [si Hsi].
    assert (strictly_increasing [0; tau]) as Hi.
    { intros i j Hij Hj. cbn [length] in Hj. assert (i = 0 /\ j = 1)%nat as [-> ->] by lia. cbn. exact Ht. }
    assert (exists a b, In a [0; tau] /\ In b [0; tau] /\ a <> b) as Hab by (exists 0, tau; cbn; repeat split; auto; lra).
    assert (forall sig om ma, carma_ok sig om ma -> exists s : kfp AX, holdsp s [0; tau] [1; 0] [0; 0] sig om ma) as Hex.
    { intros sg o m Ho. destruct (constructp si raw0 [0; tau] [1; 0] [0; 0] sg o m Hsi eq_refl eq_refl Hab) as (s & t' & y' & e' & _ & _ & Hid & Hh). destruct (Hid Hi) as (-> & -> & ->). 
      destruct Ho as (_ & _ & L & _). rewrite L, Nat.sub_diag in Hh. cbn [repeat] in Hh. rewrite app_nil_r in Hh. exists s. exact Hh. }
    destruct (Hex _ _ _ Hm) as [s Hs]. destruct (Hex _ _ _ Hm') as [s' Hs'].
    destruct (two_point _ _ _ s tau (answersp solve s _ _ _ _ om ma Hsv Hs Hi Hm)) as (u & m1 & C1 & C2 & C3 & C4).
    destruct (two_point _ _ _ s' tau (answersp solve' s' _ _ _ _ om' ma' Hsv' Hs' Hi Hm')) as (u' & m1' & D1 & D2 & D3 & D4).
    destruct (H tau s s' u u' Ht Hs Hs' C1 D1) as [E1 E2]. rewrite E1, D3 in C3. rewrite E2, D2 in C2. injection C2 as C2. injection C3 as C3.
    split; [symmetry; exact C2|]. rewrite C4, D4, C2, C3. reflexivity. }
  apply (proj2 (psd_acv _ _ _ _ _ _ A1 A2 A3 B1 B2 B3)). intros tau Ht. unfold carma_cov in Q. destruct (Req_dec tau 0) as [->|N].
  - destruct (Q 1 ltac:(lra)) as [E _]. rewrite Rminus_0_r, Rabs_R0 in E. exact E.
  - destruct (Q tau ltac:(lra)) as [_ E]. rewrite Rminus_0_r, Rabs_pos_eq in E by lra. exact E.
Qed.
Print Assumptions C120_spectrum_determined.

(** C120: for a first order process the spectrum determines both parameters. *)
Theorem C120_first_order_parameters : forall sigma lo sigma' lo', 0 < sigma -> 0 < sigma' ->
  (forall f, car1_psd AX (Fin sigma) (Fin lo) (Fin f) = car1_psd AX (Fin sigma') (Fin lo') (Fin f)) -> sigma = sigma' /\ lo = lo'.
Proof.
  intros sigma lo sigma' lo' Hs Hs' H. pose proof (exp_pos lo) as Hw. pose proof (exp_pos lo') as Hw'. pose proof PI_RGT_0 as HP.
  assert (forall x, sigma * sigma * (exp lo' * exp lo' + x * x) = sigma' * sigma' * (exp lo * exp lo + x * x)) as Q.
  { intros x. specialize (H (x / (2 * PI))). rewrite !(proj1 (car1_psd_spec _ _ _)) in H. injection H as H. replace (2 * PI * (x / (2 * PI))) with x in H by (field; lra).
    assert (0 < exp lo * exp lo + x * x) as P1 by (pose proof (Rle_0_sqr x) as X; unfold Rsqr in X; pose proof (Rmult_lt_0_compat _ _ Hw Hw); lra).
    assert (0 < exp lo' * exp lo' + x * x) as P2 by (pose proof (Rle_0_sqr x) as X; unfold Rsqr in X; pose proof (Rmult_lt_0_compat _ _ Hw' Hw'); lra).
    apply (Rmult_eq_compat_r ((exp lo * exp lo + x * x) * (exp lo' * exp lo' + x * x))) in H. 
    replace (sigma * sigma / (exp lo * exp lo + x * x) * ((exp lo * exp lo + x * x) * (exp lo' * exp lo' + x * x))) with (sigma * sigma * (exp lo' * exp lo' + x * x)) in H by (field; lra).
    replace (sigma' * sigma' / (exp lo' * exp lo' + x * x) * ((exp lo * exp lo + x * x) * (exp lo' * exp lo' + x * x))) with (sigma' * sigma' * (exp lo * exp lo + x * x)) in H by (field; lra).
    exact H. }
  pose proof (Q 0) as Q0. pose proof (Q 1) as Q1. assert (sigma * sigma = sigma' * sigma') as E by lra.
  assert (sigma = sigma') as <- by (apply Rsqr_inj; [lra|lra|exact E]). split; [reflexivity|].
  assert (exp lo' * exp lo' = exp lo * exp lo) as E2.
  { apply (Rmult_eq_reg_l (sigma * sigma)); [lra|]. pose proof (Rmult_lt_0_compat _ _ Hs Hs). lra. }
  apply exp_inv. symmetry. apply Rsqr_inj; [lra|lra|exact E2].
Qed.
Print Assumptions C120_first_order_parameters.

(** C120: changing the signs of every other moving average coefficient leaves the spectrum as it is. *)
Fixpoint alt (ma : list R) : list R := match ma with [] => [] | a :: l => a :: map Ropp (alt l) end.
Lemma alt_length ma : length (alt ma) = length ma.
Proof. induction ma as [|a l IH]; [reflexivity|]. cbn [alt length]. rewrite map_length, IH. reflexivity. Qed.
Lemma ma_poly_cons a l z : ma_poly (a :: l) z = Cplus (RtoC a) (Cmult z (ma_poly l z)).
Proof.
  unfold ma_poly. cbn [length]. rewrite Csum_shift. cbn [nth Cpown]. rewrite <- Csum_scal. f_equal; [ring|]. apply Csum_ext. intros k _. ring.
Qed.
Lemma ma_poly_opp l z : ma_poly (map Ropp l) z = Copp (ma_poly l z).
Proof.
  induction l as [|a l IH]; [unfold ma_poly; simpl; ring|]. cbn [map]. rewrite !ma_poly_cons, IH. rewrite RtoC_opp. ring.
Qed.
Lemma ma_poly_alt ma z : ma_poly (alt ma) z = ma_poly ma (Copp z).
Proof. induction ma as [|a l IH]; [reflexivity|]. cbn [alt]. rewrite !ma_poly_cons, ma_poly_opp, IH. ring. Qed.
Lemma psd_alt sig ma om f : carma_psd sig (alt ma) om f = carma_psd sig ma om f.
Proof.
  unfold carma_psd. rewrite ma_poly_alt. set (z := (0, 2 * PI * f) : C).
  assert (Copp z = Cconj z) as -> by (unfold z; apply C_eq; simpl; ring). rewrite <- ma_poly_conj. rewrite !Cmod_nrm2.
  replace (CarmaKernel.nrm2 (Cconj (ma_poly ma z))) with (CarmaKernel.nrm2 (ma_poly ma z)); [reflexivity|]. unfold CarmaKernel.nrm2. simpl. ring.
Qed.
Theorem C120_sign_pattern : forall solve solve' (s s' : kfp AX) t y e sigma om ma, valid_solve solve -> valid_solve solve' ->
  holdsp s t y e (sigma * sigma) om ma -> holdsp s' t y e (sigma * sigma) om (alt ma) -> strictly_increasing t -> carma_ok (sigma * sigma) om ma ->
  agree t e _ _ (methodsp solve) (methodsp solve') (Predictp solve) (Predictp solve') s s'.
Proof.
  intros solve solve' s s' t y e sigma om ma Hsv Hsv' Hs Hs' Hi Hm.
  assert (carma_ok (sigma * sigma) om (alt ma)) as Hm'.
  { destruct Hm as (H1 & H2 & H3 & (l & Hl) & H5). split; [exact H1|]. split; [exact H2|]. split; [rewrite alt_length; exact H3|]. split; [|exact H5].
    exists l. clear - Hl. revert l Hl. induction ma as [|a ma IH]; intros l Hl; [exact Hl|]. destruct l as [|l]; [exact Hl|]. cbn [alt nth] in *. 
    rewrite <- Ropp_0, map_nth, Ropp_0. apply Ropp_neq_0_compat, IH, Hl. }
  apply (C120_same_spectrum solve solve' (fun _ => true) (fun _ => true) s s' t y e sigma om ma sigma om (alt ma)); try assumption.
  apply (proj2 (psd_power (fun _ => true) (fun _ => true) sigma om ma sigma om (alt ma) (proj1 Hm) (proj1 Hm))). intros f. symmetry. apply psd_alt.
Qed.
Print Assumptions C120_sign_pattern.

(** C120 is false of the parameters themselves: moving average coefficients 1, 1 and 1, -1 cannot be told apart ... *)
Definition omI : list C := [(-1, 0); (-2, 0)].
Lemma stableI : stable_roots omI.
Proof.
  split; [constructor; [intros [E|[]]; injection E; lra|constructor; [intros []|constructor]]|]. split; intros z [<-|[<-|[]]]; cbn [fst]; try lra;
  [left|right; left]; unfold Cconj; cbn [fst snd]; apply C_eq; simpl; ring.
Qed.
Lemma okI ma : length ma = 2%nat -> (exists l, nth l ma 0 <> 0) -> carma_ok (1 * 1) omI ma.
Proof. intros L H. split; [exact stableI|]. split; [cbn; lia|]. split; [exact L|]. split; [exact H|lra]. Qed.
Theorem C120_parameters_refuted : exists om ma ma', ma <> ma' /\ carma_ok (1 * 1) om ma /\ carma_ok (1 * 1) om ma' /\
  forall solve solve' (s s' : kfp AX) t y e, valid_solve solve -> valid_solve solve' ->
    holdsp s t y e (1 * 1) om ma -> holdsp s' t y e (1 * 1) om ma' -> strictly_increasing t ->
    agree t e _ _ (methodsp solve) (methodsp solve') (Predictp solve) (Predictp solve') s s'.
Proof.
  exists omI, [1; 1], [1; -1]. split; [intros E; injection E; lra|]. split; [apply okI; [reflexivity|exists 0%nat; cbn; lra]|]. split; [apply okI; [reflexivity|exists 0%nat; cbn; lra]|].
  intros solve solve' s s' t y e Hsv Hsv' Hs Hs' Hi. apply (C120_sign_pattern solve solve' s s' t y e 1 omI [1; 1]); try assumption.
  apply okI; [reflexivity|exists 0%nat; cbn; lra].
Qed.
Print Assumptions C120_parameters_refuted.

(** ... nor a CARMA(2,1) whose moving average polynomial cancels a root from a CAR(1). *)
Theorem C120_order_refuted : exists sigma lo sigma' om ma, carma_ok (sigma' * sigma') om ma /\ length om = 2%nat /\ ~ In 0 ma /\
  forall solve (s : kf1 AX) (s' : kfp AX) t y e, valid_solve solve ->
    holds1 s t y e (sigma * sigma) (exp lo) -> holdsp s' t y e (sigma' * sigma') om ma -> strictly_increasing t ->
    agree t e _ _ (methods1 AX) (methodsp solve) (@Predict1 AX) (Predictp solve) s s'.
Proof.
  assert (carma_ok (1 * 1) omI [1; / 2]) as Hok by (apply okI; [reflexivity|exists 0%nat; cbn; lra]).
  exists (/ 2), 0, 1, omI, [1; / 2]. split; [exact Hok|]. split; [reflexivity|]. split; [intros [E|[E|[]]]; lra|].
  intros solve s s' t y e Hsv Hs Hs' Hi. apply (C120_first_order solve (fun _ => true) s s' t y e (/ 2) 0 1 omI [1; / 2]); try assumption; [lra|].
  intros f. rewrite (proj1 (car1_psd_spec _ _ _)). destruct (power_spectrum_stable (fun _ => true) omI 1 [1; / 2] f (proj1 (proj2 stableI)) (stable_conj_closed _ stableI)) as [E _].
  etransitivity; [|symmetry; exact E]. f_equal. rewrite exp_0. rewrite !Cmod_nrm2. unfold CarmaKernel.nrm2, omI. simpl. set (x := 2 * PI * f).
  pose proof (Rle_0_sqr x) as X. unfold Rsqr in X. field. split; apply Rgt_not_eq; nra.
Qed.
Print Assumptions C120_order_refuted.

(** the hypotheses hold of objects made by the constructors *)
Example C120_hypotheses_met : exists solve (s s' : kfp AX), valid_solve solve /\ holdsp s [0; 1] [1; 2] [0; 1] (1 * 1) omI [1; 1] /\
  holdsp s' [0; 1] [1; 2] [0; 1] (1 * 1) omI [1; -1] /\ strictly_increasing [0; 1] /\ carma_ok (1 * 1) omI [1; 1] /\ carma_ok (1 * 1) omI [1; -1] /\
  forall f, power_spectrum AX (Fin f) (Fin 1) (py_ar_coefs (fun _ => true) (map FinC omI)) (map Fin [1; 1]) =
            power_spectrum AX (Fin f) (Fin 1) (py_ar_coefs (fun _ => true) (map FinC omI)) (map Fin [1; -1]).
Proof.
  destruct valid_solve_exists as [sv Hsv]. destruct valid_sort_index_exists as [si Hsi].
  assert (strictly_increasing [0; 1]) as Hi.
  { intros i j Hij Hj. cbn [length] in Hj. assert (i = 0 /\ j = 1)%nat as [-> ->] by lia. cbn. lra. }
  assert (exists a b, In a [0; 1] /\ In b [0; 1] /\ a <> b) as Hab by (exists 0, 1; cbn; repeat split; auto; lra).
  assert (forall ma, length ma = 2%nat -> exists s : kfp AX, holdsp s [0; 1] [1; 2] [0; 1] (1 * 1) omI ma) as Hex.
  { intros m L. destruct (constructp si raw0 [0; 1] [1; 2] [0; 1] (1 * 1) omI m Hsi eq_refl eq_refl Hab) as (s & t' & y' & e' & _ & _ & Hid & Hh). destruct (Hid Hi) as (-> & -> & ->).
    rewrite L in Hh. cbn [omI length Nat.sub repeat] in Hh. rewrite app_nil_r in Hh. exists s. exact Hh. }
  destruct (Hex [1; 1] eq_refl) as [s Hs]. destruct (Hex [1; -1] eq_refl) as [s' Hs']. exists sv, s, s'. split; [exact Hsv|]. split; [exact Hs|]. split; [exact Hs'|].
  split; [exact Hi|]. split; [apply okI; [reflexivity|exists 0%nat; cbn; lra]|]. split; [apply okI; [reflexivity|exists 0%nat; cbn; lra]|].
  apply (proj2 (psd_power (fun _ => true) (fun _ => true) 1 omI [1; 1] 1 omI [1; -1] stableI stableI)). intros f. replace [1; -1] with (alt [1; 1]); [symmetry; apply psd_alt|].
  cbn [alt map]. replace (Ropp 1) with (-1) by ring. reflexivity.
Qed.
