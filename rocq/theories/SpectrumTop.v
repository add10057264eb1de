(** carma_variance and power_spectrum of carma_pack.py are a Fourier pair. *)
From Coq Require Import Reals List Arith ZArith Lra Lia Bool Permutation.
From Coquelicot Require Import Complex Coquelicot.
From Verif Require Import Arith Res ListLemmas KFModel KFpProof CholProof Spec Gauss Emb KF1R Cx KFpModel SimProof SpecCarma CLin KFpX KFpMain KFpMore SpecModel CarpackModel RootsProof PriorProof PyModel PySim PyFuns PyExtra.
From Verif Require CarmaKernel.
From Verif Require Import Spectrum.
Import ListNotations.
Local Open Scope R_scope.

(** ** Specification: the transform of a covariance function at frequency f *)
Definition whole_line (g : R -> R) (v : R) : Prop := is_RInt_gen g (Rbar_locally m_infty) (Rbar_locally p_infty) v.
Definition is_transform (acv : R -> R) (f re im : R) : Prop :=
  whole_line (fun t => acv t * cos (2 * PI * f * t)) re /\ whole_line (fun t => - acv t * sin (2 * PI * f * t)) im.

Lemma stable_conj_closed om : stable_roots om -> conj_closed om.
Proof.
  intros (Hnd & _ & Hc). unfold conj_closed. apply NoDup_Permutation_bis.
  - apply FinFun.Injective_map_NoDup; [|exact Hnd]. intros a b E. rewrite <- (conj_conj a), E. apply conj_conj.
  - rewrite map_length. apply le_n.
  - intros z Hz. apply in_map_iff in Hz. destruct Hz as (a & <- & Ha). apply Hc, Ha.
Qed.
Lemma roots_poly_Cprod om s : roots_poly om s = Cprod (fun l => Cminus s (nth l om (RtoC 0))) (length om).
Proof.
  induction om as [|r om IH]; [reflexivity|]. cbn [roots_poly length]. rewrite Cprod_shift, IH. reflexivity.
Qed.
Lemma Cmod_nrm2 z : Cmod z * Cmod z = CarmaKernel.nrm2 z.
Proof.
  unfold Cmod, CarmaKernel.nrm2. rewrite sqrt_sqrt; [simpl; ring|]. pose proof (Rle_0_sqr (fst z)). pose proof (Rle_0_sqr (snd z)). unfold Rsqr in *. simpl. lra.
Qed.
Definition carma_psd (sig : R) (ma : list R) (om : list C) (f : R) : R :=
  sig * (Cmod (ma_poly ma (0, 2 * PI * f)) * Cmod (ma_poly ma (0, 2 * PI * f))) /
  (Cmod (roots_poly om (0, 2 * PI * f)) * Cmod (roots_poly om (0, 2 * PI * f))).

Section Top.
Variables (sig : R) (om : list C) (ma : list R).
Hypothesis Hst : stable_roots om.
Hypothesis Hne : om <> [].
Hypothesis Hlen : length ma = length om.
Let p := length om.
Let r i := nth i om (RtoC 0).
Let mf l := nth l ma 0.
Let pi i := idx (Cconj (r i)) om.
Lemma t_p1 : (1 <= p)%nat.
Proof. unfold p. destruct om; [contradiction|simpl; lia]. Qed.
Lemma t_inj i j : (i < p)%nat -> (j < p)%nat -> r i = r j -> i = j.
Proof. destruct Hst as (H & _). apply (proj1 (NoDup_nth om (RtoC 0)) H). Qed.
Lemma t_re i : (i < p)%nat -> fst (r i) < 0.
Proof. destruct Hst as (_ & H & _). intros Hi. apply H, nth_In, Hi. Qed.
Lemma t_pi i : (i < p)%nat -> (pi i < p)%nat.
Proof. destruct Hst as (_ & _ & H). intros Hi. apply idx_spec, H, nth_In, Hi. Qed.
Lemma t_rpi i : (i < p)%nat -> r (pi i) = Cconj (r i).
Proof. destruct Hst as (_ & _ & H). intros Hi. apply idx_spec, H, nth_In, Hi. Qed.
Lemma t_pp i : (i < p)%nat -> pi (pi i) = i.
Proof.
  intros Hi. apply t_inj; [apply t_pi, t_pi, Hi|exact Hi|]. rewrite !t_rpi by (try apply t_pi; exact Hi). apply conj_conj.
Qed.
Lemma t_J : exists J, forall k, (k < p)%nat -> Csum (fun i => Cmult (Cpown (r i) k) (J i)) p = if Nat.eqb k (p - 1) then RtoC 1 else RtoC 0.
Proof.
  destruct (vander_unique om (proj1 Hst) t_p1) as [(x & Hx & _) H]. exists (fun i => nth i x (RtoC 0)). apply H, Hx.
Qed.
Lemma t_beta z : CarmaKernel.beta p mf z = ma_poly ma z.
Proof. unfold CarmaKernel.beta, peval, ma_poly. rewrite Hlen. reflexivity. Qed.
Lemma t_psd f : carma_psd sig ma om f =
  sig * (CarmaKernel.nrm2 (CarmaKernel.beta p mf (0, 2 * PI * f)) / CarmaKernel.nrm2 (P p r (0, 2 * PI * f))).
Proof.
  unfold carma_psd. rewrite !Cmod_nrm2, t_beta, roots_poly_Cprod. 
  change (Cprod (fun l => Cminus (0, 2 * PI * f) (nth l om (RtoC 0))) (length om)) with (P p r (0, 2 * PI * f)).
  unfold Rdiv. apply Rmult_assoc.
Qed.
Lemma t_main : (forall f, is_transform (fun t => carma_acv sig ma om (Rabs t)) f (carma_psd sig ma om f) 0) /\
  whole_line (carma_psd sig ma om) (carma_acv sig ma om 0).
Proof.
  destruct t_J as [J HJ].
  assert (forall h, CarmaKernel.acv p r J mf sig h = carma_acv sig ma om h) as Ea.
  { intros h. rewrite (CarmaKernel.acv_formula p r J mf sig pi t_p1 t_inj t_re t_pi t_pp t_rpi HJ h).
    unfold carma_acv. f_equal. f_equal. apply Csum_ext. intros k Hk. rewrite !t_beta. reflexivity. }
  split.
  - intros f. split.
    + rewrite t_psd. eapply is_RInt_gen_ext; [|apply (wk_cos p r J mf sig pi t_p1 t_re t_pi t_pp t_rpi HJ (2 * PI * f))].
      apply filter_forall. intros ab x _. cbv beta. rewrite Ea. reflexivity.
    + replace 0 with (-0) by ring. eapply is_RInt_gen_ext; [|apply (is_RInt_gen_opp (V := R_NormedModule)), (wk_sin p r J mf sig pi t_p1 t_re t_pi t_pp t_rpi HJ (2 * PI * f))].
      apply filter_forall. intros ab x _. cbv beta. rewrite Ea. unfold opp. simpl. ring.
  - rewrite <- Ea. eapply is_RInt_gen_ext; [|apply (power_total p r J mf sig pi t_p1 t_re t_pi t_pp t_rpi HJ)].
    apply filter_forall. intros ab x _. cbv beta. symmetry. apply t_psd.
Qed.
End Top.

Theorem wiener_khinchin (sig : R) (om : list C) (ma : list R) : stable_roots om -> om <> [] -> (length ma <= length om)%nat ->
  (forall f, is_transform (fun t => carma_acv sig ma om (Rabs t)) f (carma_psd sig ma om f) 0) /\
  whole_line (carma_psd sig ma om) (carma_acv sig ma om 0).
Proof.
  intros Hst Hne Hl. set (k := (length om - length ma)%nat).
  destruct (t_main sig om (ma ++ repeat 0 k) Hst Hne) as [H1 H2]; [rewrite app_length, repeat_length; unfold k; lia|].
  assert (forall f, carma_psd sig (ma ++ repeat 0 k) om f = carma_psd sig ma om f) as Ep by (intros f; unfold carma_psd; rewrite !ma_poly_pad; reflexivity).
  split.
  - intros f. destruct (H1 f) as [Hc Hs]. rewrite Ep in Hc. split; eapply is_RInt_gen_ext; [|exact Hc| |exact Hs];
    apply filter_forall; intros ab x _; cbv beta; rewrite carma_acv_pad; reflexivity.
  - rewrite carma_acv_pad in H2. eapply is_RInt_gen_ext; [|exact H2]. apply filter_forall. intros ab x _. apply Ep.
Qed.

(** the two functions of the module *)
Theorem spectrum_pair isreal (om : list C) (sigma : R) (ma : list R) :
  stable_roots om -> om <> [] -> (length ma <= length om)%nat ->
  exists acv psd : R -> R,
    (forall lag, carma_variance (Fin (sigma * sigma) : F AX) (map FinC om) (map Fin ma) (Fin lag) = Fin (acv lag)) /\
    (forall f, power_spectrum AX (Fin f) (Fin sigma) (py_ar_coefs isreal (map FinC om)) (map Fin ma) = Fin (psd f)) /\
    (forall f, is_transform acv f (psd f) 0) /\ whole_line psd (acv 0).
Proof.
  intros Hst Hne Hl. exists (fun t => carma_acv (sigma * sigma) ma om (Rabs t)), (carma_psd (sigma * sigma) ma om).
  split; [intros lag; apply carma_variance_Fin; [apply Hst|apply Hst|exact Hl]|].
  split; [intros f; apply (power_spectrum_stable isreal om sigma ma f); [apply Hst|apply stable_conj_closed, Hst]|].
  rewrite Rabs_R0. apply wiener_khinchin; assumption.
Qed.

(** the spectrum drawn by Car1Sample.plot_power_spectrum *)
Theorem car1_pair sigma lo :
  exists psd : R -> R, (forall f, car1_psd AX (Fin sigma) (Fin lo) (Fin f) = Fin (psd f)) /\
    (forall f, is_transform (fun t => ou_cov (sigma * sigma) (exp lo) t 0) f (psd f) 0) /\
    whole_line psd (ou_cov (sigma * sigma) (exp lo) 0 0).
Proof.
  pose proof (exp_pos lo) as He. set (w := exp lo) in *. set (om := [((- w)%R, 0%R) : C]).
  assert (stable_roots om) as Hst.
  { split; [constructor; [intros []|constructor]|]. split; intros z [<-|[]]; cbn [fst]; [lra|]. left. unfold Cconj. cbn [fst snd].
    apply C_eq; simpl; ring. }
  destruct (wiener_khinchin (sigma * sigma) om [1] Hst ltac:(discriminate) ltac:(cbn; lia)) as [H1 H2].
  assert (forall t, carma_acv (sigma * sigma) [1] om (Rabs t) = ou_cov (sigma * sigma) w t 0) as Ea.
  { intros t. unfold carma_acv, ou_cov, carma_denom, ma_poly, om. simpl. rewrite Rminus_0_r.
    replace (- w * Rabs t - 0 * 0) with (- (w * Rabs t)) by ring. replace (- w * 0 + 0 * Rabs t) with 0 by ring. rewrite cos_0, sin_0. field. lra. }
  assert (forall f, carma_psd (sigma * sigma) [1] om f = sigma * sigma / (w * w + (2 * PI * f) * (2 * PI * f))) as Ep.
  { intros f. unfold carma_psd. rewrite !Cmod_nrm2. unfold CarmaKernel.nrm2, om. simpl.
    pose proof (Rle_0_sqr (2 * PI * f)) as Q. unfold Rsqr in Q. field. apply Rgt_not_eq. nra. }
  exists (carma_psd (sigma * sigma) [1] om). split.
  - intros f. rewrite (proj1 (car1_psd_spec sigma lo f)), Ep. reflexivity.
  - split.
    + intros f. destruct (H1 f) as [Hc Hs]. split; eapply is_RInt_gen_ext; [|exact Hc| |exact Hs];
      apply filter_forall; intros ab x _; cbv beta; rewrite Ea; reflexivity.
    + rewrite <- Ea, Rabs_R0. exact H2.
Qed.
