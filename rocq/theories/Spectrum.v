(** The autocovariance function and the power spectrum of a CARMA process are a Fourier pair. *)
From Coq Require Import Reals List Arith Lra Lia FinFun.
From Coquelicot Require Import Complex Coquelicot.
From Verif Require Import Spec Gauss SimProof SpecCarma CLin.
From Verif Require CarmaKernel.
Import ListNotations.
Local Open Scope R_scope.

(** ** Improper integrals of derivatives *)
Lemma gen_deriv (Phi g : R -> R) la lb :
  (forall x, is_derive Phi x (g x)) -> (forall x, ex_derive g x) ->
  is_lim Phi m_infty (Finite la) -> is_lim Phi p_infty (Finite lb) ->
  is_RInt_gen g (Rbar_locally m_infty) (Rbar_locally p_infty) (lb - la).
Proof.
  intros HP Hg Ha Hb. apply (is_RInt_gen_ext (Derive Phi)).
  { apply filter_forall. intros ab x _. apply is_derive_unique, HP. }
  apply is_RInt_gen_Derive; [| |exact Ha|exact Hb].
  - apply filter_forall. intros ab x _. eexists. apply HP.
  - apply filter_forall. intros ab x _. apply (continuous_ext g); [intros y; symmetry; apply is_derive_unique, HP|].
    apply (ex_derive_continuous (K := R_AbsRing) (V := R_NormedModule)). apply Hg.
Qed.
Lemma gen_right (Phi g dg : R -> R) lb :
  (forall x, is_derive Phi x (g x)) -> (forall x, is_derive g x (dg x)) -> is_lim Phi p_infty (Finite lb) ->
  is_RInt_gen g (at_point 0) (Rbar_locally p_infty) (lb - Phi 0).
Proof.
  intros HP Hg Hb. apply (is_RInt_gen_ext (Derive Phi)).
  { apply filter_forall. intros ab x _. apply is_derive_unique, HP. }
  apply is_RInt_gen_Derive; [| |intros P HP0; exact (locally_singleton _ _ HP0)|exact Hb].
  - apply filter_forall. intros ab x _. eexists. apply HP.
  - apply filter_forall. intros ab x _. apply (continuous_ext g); [intros y; symmetry; apply is_derive_unique, HP|].
    apply (ex_derive_continuous (K := R_AbsRing) (V := R_NormedModule)). eexists. apply Hg.
Qed.
Lemma derive_mirror (f : R -> R) x l : is_derive f (- x) l -> is_derive (fun x => f (- x)) x (- l).
Proof.
  intros H. replace (- l) with (scal (-1) l) by (unfold scal; simpl; unfold mult; simpl; ring).
  apply (is_derive_comp f Ropp x l (-1)); [exact H|]. auto_derive; [exact I|ring].
Qed.
Lemma gen_left (Phi g dg : R -> R) lb :
  (forall x, is_derive Phi x (g x)) -> (forall x, is_derive g x (dg x)) -> is_lim Phi p_infty (Finite lb) ->
  is_RInt_gen (fun x => g (- x)) (Rbar_locally m_infty) (at_point 0) (lb - Phi 0).
Proof.
  intros HP Hg Hb. set (Psi := fun x => - Phi (- x)).
  assert (forall x, is_derive Psi x (g (- x))) as HPs.
  { intros x. unfold Psi. replace (g (- x)) with (- - g (- x)) by ring. apply (is_derive_opp (fun x => Phi (- x))). apply derive_mirror, HP. }
  replace (lb - Phi 0) with (Psi 0 - - lb) by (unfold Psi; rewrite Ropp_0; ring).
  apply (is_RInt_gen_ext (Derive Psi)).
  { apply filter_forall. intros ab x _. apply is_derive_unique, HPs. }
  apply is_RInt_gen_Derive.
  - apply filter_forall. intros ab x _. eexists. apply HPs.
  - apply filter_forall. intros ab x _. apply (continuous_ext (fun x => g (- x))); [intros y; symmetry; apply is_derive_unique, HPs|].
    apply (ex_derive_continuous (K := R_AbsRing) (V := R_NormedModule)). eexists. apply derive_mirror, Hg.
  - apply (is_lim_opp (fun x => Phi (- x)) m_infty (Finite lb)).
    apply (is_lim_comp Phi Ropp m_infty (Finite lb) p_infty); [exact Hb| |exists 0; intros; discriminate].
    apply (filterlim_Rbar_opp m_infty).
  - intros P HP0. exact (locally_singleton _ _ HP0).
Qed.
(** an even and an odd function *)
Lemma gen_even (f Phi g dg : R -> R) lb :
  (forall x, is_derive Phi x (g x)) -> (forall x, is_derive g x (dg x)) -> is_lim Phi p_infty (Finite lb) ->
  (forall x, 0 < x -> f x = g x /\ f (- x) = g x) ->
  is_RInt_gen f (Rbar_locally m_infty) (Rbar_locally p_infty) (2 * (lb - Phi 0)).
Proof.
  intros HP Hg Hb Hf. replace (2 * (lb - Phi 0)) with (plus (lb - Phi 0) (lb - Phi 0)) by (unfold plus; simpl; ring).
  apply (is_RInt_gen_Chasles f 0).
  - apply (is_RInt_gen_ext (fun x => g (- x))); [|apply (gen_left _ _ _ _ HP Hg Hb)].
    exists (fun a => a < 0) (fun b => b = 0); [exists 0; intros; assumption|reflexivity|].
    intros a b Ha -> x Hx. cbn [fst snd] in Hx. rewrite Rmin_left, Rmax_right in Hx by lra.
    replace x with (- - x) at 2 by ring. symmetry. apply Hf. lra.
  - apply (is_RInt_gen_ext g); [|apply (gen_right _ _ _ _ HP Hg Hb)].
    exists (fun a => a = 0) (fun b => 0 < b); [reflexivity|exists 0; intros; assumption|].
    intros a b -> Hb0 x Hx. cbn [fst snd] in Hx. rewrite Rmin_left, Rmax_right in Hx by lra. symmetry. apply Hf. lra.
Qed.
Lemma gen_odd (f Phi g dg : R -> R) lb :
  (forall x, is_derive Phi x (g x)) -> (forall x, is_derive g x (dg x)) -> is_lim Phi p_infty (Finite lb) ->
  (forall x, 0 < x -> f x = g x /\ f (- x) = - g x) ->
  is_RInt_gen f (Rbar_locally m_infty) (Rbar_locally p_infty) 0.
Proof.
  intros HP Hg Hb Hf. assert (plus (opp (lb - Phi 0)) (lb - Phi 0) = 0) as <- by (unfold plus, opp; simpl; ring).
  apply (is_RInt_gen_Chasles f 0).
  - apply (is_RInt_gen_ext (fun x => - g (- x))); [|exact (is_RInt_gen_opp (V := R_NormedModule) (fun x => g (- x)) (lb - Phi 0) (gen_left _ _ _ _ HP Hg Hb))].
    exists (fun a => a < 0) (fun b => b = 0); [exists 0; intros; assumption|reflexivity|].
    intros a b Ha -> x Hx. cbn [fst snd] in Hx. rewrite Rmin_left, Rmax_right in Hx by lra.
    replace x with (- - x) at 2 by ring. symmetry. apply Hf. lra.
  - apply (is_RInt_gen_ext g); [|apply (gen_right _ _ _ _ HP Hg Hb)].
    exists (fun a => a = 0) (fun b => 0 < b); [reflexivity|exists 0; intros; assumption|].
    intros a b -> Hb0 x Hx. cbn [fst snd] in Hx. rewrite Rmin_left, Rmax_right in Hx by lra. symmetry. apply Hf. lra.
Qed.

(** ** Sums of damped exponentials *)
Lemma small_lim f : CarmaKernel.small f -> is_lim f p_infty (Finite 0).
Proof.
  intros (M & HM & H). apply is_lim_spec. intros eps. exists (M / eps + 1). intros x Hx.
  assert (0 < eps) as He by apply cond_pos. assert (0 <= M / eps) as Hm by (apply Rmult_le_pos; [exact HM|left; apply Rinv_0_lt_compat, He]).
  rewrite Rminus_0_r. eapply Rle_lt_trans; [apply H; lra|].
  apply (Rmult_lt_reg_r x); [lra|]. replace (M / x * x) with M by (field; lra).
  replace M with (eps * (M / eps)) at 1 by (field; lra). apply Rmult_lt_compat_l; lra.
Qed.
Section Exp.
Variables (n : nat) (c s : nat -> C).
Hypothesis Hs : forall i, (i < n)%nat -> fst (s i) < 0.
Definition esum (h : R) : R := Rsum (fun i => fst (Cmult (c i) (Cexp (Cmult (s i) (RtoC h))))) n.
Definition eprim (h : R) : R := Rsum (fun i => fst (Cmult (Cdiv (c i) (s i)) (Cexp (Cmult (s i) (RtoC h))))) n.
Definition ederi (h : R) : R := Rsum (fun i => fst (Cmult (Cmult (c i) (s i)) (Cexp (Cmult (s i) (RtoC h))))) n.
Lemma s_nz i : (i < n)%nat -> s i <> RtoC 0.
Proof. intros Hi E. pose proof (Hs i Hi) as H. rewrite E in H. simpl in H. lra. Qed.
Lemma eprim_derive h : is_derive eprim h (esum h).
Proof.
  apply (CarmaKernel.derive_Rsum 1 (le_n 1)). intros i Hi.
  replace (Cmult (c i) (Cexp (Cmult (s i) (RtoC h)))) with (Cmult (Cmult (Cdiv (c i) (s i)) (s i)) (Cexp (Cmult (s i) (RtoC h)))).
  - apply CarmaKernel.derive_re.
  - f_equal. field. apply s_nz, Hi.
Qed.
Lemma esum_derive h : is_derive esum h (ederi h).
Proof. apply (CarmaKernel.derive_Rsum 1 (le_n 1)). intros i Hi. apply CarmaKernel.derive_re. Qed.
Lemma eprim_lim : is_lim eprim p_infty (Finite 0).
Proof. apply small_lim. apply (CarmaKernel.small_Rsum 1 (le_n 1)). intros i Hi. apply CarmaKernel.small_exp, Hs, Hi. Qed.
Lemma eprim_0 : eprim 0 = fst (Csum (fun i => Cdiv (c i) (s i)) n).
Proof.
  rewrite fst_Csum. unfold eprim. apply Rsum_ext. intros i _. f_equal.
  replace (Cmult (s i) (RtoC 0)) with (RtoC 0) by ring. rewrite Cexp_0. ring.
Qed.
End Exp.

(** ** Limits of the arc tangent and of a logarithm of a ratio *)
Lemma atan_lim_p : forall eps, 0 < eps -> exists M, forall x, M < x -> PI / 2 - eps < atan x.
Proof.
  intros eps He. pose proof PI_RGT_0. set (e := Rmin eps 1 / 2). 
  assert (0 < e <= 1 / 2) as Hr by (unfold e, Rmin; destruct (Rle_dec eps 1); lra).
  assert (e < eps) as Hlt by (unfold e, Rmin; destruct (Rle_dec eps 1); lra). pose proof PI_4. pose proof PI2_1.
  exists (tan (PI / 2 - e)). intros x Hx. apply Rlt_trans with (PI / 2 - e); [lra|].
  rewrite <- (atan_tan (PI / 2 - e)) by lra. apply atan_increasing, Hx.
Qed.
Lemma atan_lin_p k m : 0 < k -> is_lim (fun f => atan (k * f + m)) p_infty (Finite (PI / 2)).
Proof.
  intros Hk. apply is_lim_spec. intros eps. destruct (atan_lim_p eps (cond_pos eps)) as [M HM].
  exists ((M - m) / k). intros x Hx. assert (M < k * x + m) as Hb.
  { apply (Rmult_lt_compat_l k) in Hx; [|exact Hk]. replace (k * ((M - m) / k)) with (M - m) in Hx by (field; lra). lra. }
  specialize (HM _ Hb). pose proof (atan_bound (k * x + m)). apply Rabs_def1; lra.
Qed.
Lemma atan_lin_m k m : 0 < k -> is_lim (fun f => atan (k * f + m)) m_infty (Finite (- (PI / 2))).
Proof.
  intros Hk. apply is_lim_spec. intros eps. destruct (atan_lim_p eps (cond_pos eps)) as [M HM].
  exists ((- M - m) / k). intros x Hx. assert (M < - (k * x + m)) as Hb.
  { apply (Rmult_lt_compat_l k) in Hx; [|exact Hk]. replace (k * ((- M - m) / k)) with (- M - m) in Hx by (field; lra). lra. }
  specialize (HM _ Hb). rewrite atan_opp in HM. pose proof (atan_bound (k * x + m)). apply Rabs_def1; lra.
Qed.
Lemma ratio_far a b : exists K, 0 < K /\ forall w eps, 0 < eps -> 1 < Rabs w -> K / eps < Rabs w ->
  Rabs ((a * a + (w - b) * (w - b)) / (1 + w * w) - 1) < eps.
Proof.
  set (A := Rabs (a * a + b * b - 1)). exists (A + 2 * Rabs b + 1).
  assert (0 <= A) by apply Rabs_pos. assert (0 <= Rabs b) by apply Rabs_pos. split; [lra|].
  intros w eps He Hw Hf. assert (0 < 1 + w * w) as Hq by (pose proof (Rle_0_sqr w) as Q; unfold Rsqr in Q; lra).
  replace ((a * a + (w - b) * (w - b)) / (1 + w * w) - 1) with ((a * a + b * b - 1 + - (2 * b * w)) * / (1 + w * w)) by (field; lra).
  rewrite Rabs_mult, (Rabs_pos_eq (/ _)) by (left; apply Rinv_0_lt_compat, Hq).
  apply (Rmult_lt_reg_r (1 + w * w)); [exact Hq|]. rewrite Rmult_assoc, Rinv_l, Rmult_1_r by lra.
  eapply Rle_lt_trans; [apply Rabs_triang|]. rewrite Rabs_Ropp, !Rabs_mult. fold A. rewrite (Rabs_pos_eq 2) by lra.
  assert (A + 2 * Rabs b + 1 < eps * Rabs w) as Hx.
  { apply (Rmult_lt_compat_l eps) in Hf; [|exact He]. replace (eps * ((A + 2 * Rabs b + 1) / eps)) with (A + 2 * Rabs b + 1) in Hf by (field; lra). exact Hf. }
  assert (w * w = Rabs w * Rabs w) as Ew by (rewrite <- Rabs_mult; symmetry; apply Rabs_pos_eq; pose proof (Rle_0_sqr w) as Q; exact Q).
  rewrite Ew. set (W := Rabs w) in *. nra.
Qed.
Lemma ratio_lim a b x : x = p_infty \/ x = m_infty ->
  is_lim (fun f => ln ((a * a + (2 * PI * f - b) * (2 * PI * f - b)) / (1 + 2 * PI * f * (2 * PI * f)))) x (Finite 0).
Proof.
  intros Hx. rewrite <- ln_1. apply (is_lim_comp_continuous _ ln x 1).
  2:{ apply (ex_derive_continuous (K := R_AbsRing) (V := R_NormedModule)). eexists. apply is_derive_Reals, derivable_pt_lim_ln. lra. }
  apply is_lim_spec. intros eps. destruct (ratio_far a b) as (K & HK & H). pose proof (cond_pos eps) as He. pose proof PI_RGT_0 as HP.
  assert (0 < K / eps) as Hke by (apply Rdiv_lt_0_compat; lra). pose proof PI2_1.
  destruct Hx as [-> | ->].
  - exists (1 + K / eps). intros f Hf.
    assert (1 + K / eps < Rabs (2 * PI * f)) as Hb by (rewrite Rabs_pos_eq; nra). apply H; lra.
  - exists (- (1 + K / eps)). intros f Hf.
    assert (1 + K / eps < Rabs (2 * PI * f)) as Hb by (rewrite Rabs_left; nra). apply H; lra.
Qed.

(** ** The spectrum of the CARMA kernel *)
Section WK.
Local Open Scope C_scope.
Variables (p : nat) (om J : nat -> C) (ma : nat -> R) (sig : R) (pi : nat -> nat).
Hypothesis Hp : (1 <= p)%nat.
Hypothesis Hinj : forall i j, (i < p)%nat -> (j < p)%nat -> om i = om j -> i = j.
Hypothesis HRe : forall i, (i < p)%nat -> (fst (om i) < 0)%R.
Hypothesis Hpi : forall i, (i < p)%nat -> (pi i < p)%nat.
Hypothesis Hpp : forall i, (i < p)%nat -> pi (pi i) = i.
Hypothesis Hconj : forall i, (i < p)%nat -> om (pi i) = Cconj (om i).
Hypothesis HJ : forall k, (k < p)%nat -> Csum (fun i => Cpown (om i) k * J i) p = if Nat.eqb k (p - 1) then 1 else 0.
Let b := CarmaKernel.b p om ma.
Let u := CarmaKernel.u p om J ma sig.
Let V := CarmaKernel.V om J sig.
Let acv := CarmaKernel.acv p om J ma sig.
Definition wc (i : nat) : C := b i * u i.
Definition ws (w : R) (i : nat) : C := om i - (0, w)%R.
Lemma ws_re w i : (i < p)%nat -> (fst (ws w i) < 0)%R.
Proof. intros Hi. pose proof (HRe i Hi). unfold ws. simpl. lra. Qed.
Lemma acv_sum (w x : R) : Csum (fun i => wc i * Cexp (ws w i * RtoC x)) p = Cexp (- (0, w * x)%R) * RtoC (acv x).
Proof.
  unfold acv. rewrite <- (CarmaKernel.acv_C p om J ma sig pi Hp Hpi Hpp Hconj HJ x). unfold CarmaKernel.bdot.
  rewrite <- Csum_scal. apply Csum_ext. intros i Hi. unfold CarmaKernel.cc, CarmaKernel.E, wc, ws, b, u.
  replace ((om i - (0, w)%R) * RtoC x) with (om i * RtoC x + - (0, w * x)%R).
  - rewrite Cexp_plus. ring.
  - apply C_eq; destruct (om i) as [a a']; simpl; ring.
Qed.
Lemma acv_cos w x : (acv x * cos (w * x))%R = esum p wc (ws w) x.
Proof.
  unfold esum. rewrite <- fst_Csum, acv_sum. simpl. rewrite Ropp_0, exp_0, cos_neg, sin_neg. ring.
Qed.
Lemma acv_sin w x : (acv x * sin (w * x))%R = esum p (fun i => Ci * wc i) (ws w) x.
Proof.
  unfold esum. rewrite <- fst_Csum. rewrite (Csum_ext _ (fun i => Ci * (wc i * Cexp (ws w i * RtoC x)))) by (intros; ring).
  rewrite Csum_scal, acv_sum. simpl. rewrite Ropp_0, exp_0, cos_neg, sin_neg. ring.
Qed.
Lemma s_om w i : (i < p)%nat -> (0, w)%R - om i <> 0.
Proof. intros Hi E. pose proof (HRe i Hi). apply (f_equal fst) in E. simpl in E. lra. Qed.
Lemma P_nz w : P p om (0, w)%R <> 0.
Proof. apply Cprod_neq0. intros k Hk. apply s_om, Hk. Qed.
Lemma conj_neq0 (z : C) : z <> 0 -> Cconj z <> 0.
Proof. intros H E. apply H. rewrite <- (conj_conj z), E. apply conj_R. Qed.
Lemma transform w : (2 * (0 - eprim p wc (ws w) 0))%R =
  (sig * (CarmaKernel.nrm2 (CarmaKernel.beta p ma (0, w)%R) / CarmaKernel.nrm2 (P p om (0, w)%R)))%R.
Proof.
  set (s := (0, w)%R : C). rewrite eprim_0.
  set (G := Csum (fun i => wc i / (s - om i)) p).
  assert (Csum (fun i => wc i / ws w i) p = - G) as ->.
  { unfold G. replace (- Csum (fun i => wc i / (s - om i)) p) with (RtoC (-1) * Csum (fun i => wc i / (s - om i)) p).
    2:{ replace (RtoC (-1)) with (- RtoC 1) by (apply C_eq; simpl; ring). ring. }
    rewrite <- Csum_scal. apply Csum_ext. intros i Hi. unfold ws. fold s.
    replace (om i - s) with (- (s - om i)) by ring. replace (RtoC (-1)) with (- RtoC 1) by (apply C_eq; simpl; ring).
    pose proof (s_om w i Hi) as Hn. fold s in Hn. set (D := s - om i) in *. field. split; [exact Hn|].
    intros E. apply Hn. replace D with (- - D) by ring. rewrite E. ring. }
  transitivity (fst (G + Cconj G)); [destruct G; simpl; ring|].
  set (X := Csum (fun i => b i * J i / (s - om i)) p).
  assert (G + Cconj G = RtoC sig * (X * Cconj X)) as E.
  { set (T := fun i j => b i * V i j * Cconj (b j)).
    assert (G = Csum (fun i => Csum (fun j => T i j * / (s - om i)) p) p) as E1.
    { unfold G. apply Csum_ext. intros i Hi. rewrite Csum_scal_r. unfold wc, u, CarmaKernel.u, Cdiv. f_equal.
      rewrite <- Csum_scal. apply Csum_ext. intros j Hj. unfold T, V, b. ring. }
    assert (Cconj G = Csum (fun i => Csum (fun j => T i j * / Cconj (s - om j)) p) p) as E2.
    { rewrite E1, conj_sum, Csum_swap. apply Csum_ext. intros i Hi. rewrite conj_sum. apply Csum_ext. intros j Hj.
      rewrite conj_mult, conj_inv. f_equal. unfold T. rewrite !conj_mult, conj_conj. unfold V.
      rewrite <- (CarmaKernel.V_herm om J sig i j). ring. }
    rewrite E1 at 1. rewrite E2, <- Csum_plus.
    transitivity (RtoC sig * Csum (fun i => Csum (fun j => (b i * J i / (s - om i)) * Cconj (b j * J j / (s - om j))) p) p).
    2:{ f_equal. unfold X at 1. rewrite <- Csum_scal_r. apply Csum_ext. intros i Hi. rewrite Csum_scal. unfold X. rewrite conj_sum. reflexivity. }
    rewrite <- Csum_scal. apply Csum_ext. intros i Hi. rewrite <- Csum_plus, <- Csum_scal. apply Csum_ext. intros j Hj.
    rewrite conj_div, conj_mult. rewrite conj_minus. unfold T, V, CarmaKernel.V.
    assert (Cconj s = - s) as -> by (apply C_eq; simpl; ring).
    pose proof (s_om w i Hi). pose proof (conj_neq0 _ (s_om w j Hj)) as H2. rewrite conj_minus in H2. fold s in H, H2.
    assert (Cconj s = - s) as Es by (apply C_eq; simpl; ring). rewrite Es in H2.
    pose proof (CarmaKernel.omsum_neq p om HRe i j Hi Hj) as H3.
    field. repeat split; try assumption.
    all: idtac. }
  rewrite E, CarmaKernel.nrm2_C. 
  assert (X = CarmaKernel.beta p ma s / P p om s) as ->.
  { unfold X, b, CarmaKernel.b, CarmaKernel.beta. apply (pf_poly p om J Hp HJ _ p s); [lia|].
    intros j Hj Ej. apply (s_om w j Hj). fold s. rewrite Ej. ring. }
  pose proof (P_nz w) as Hn. fold s in Hn. set (B := CarmaKernel.beta p ma s). set (D := P p om s) in *.
  assert (CarmaKernel.nrm2 D <> 0%R) as HD by (intros E0; apply Hn, CarmaKernel.nrm2_0, E0).
  destruct B as [b1 b2], D as [d1 d2]. unfold CarmaKernel.nrm2 in *. simpl in *. field. intros E0. apply HD. rewrite <- E0. ring.
Qed.
(** the transform of the autocovariance is the rational spectrum *)
Lemma wk_cos w : is_RInt_gen (fun x => acv (Rabs x) * cos (w * x))%R (Rbar_locally m_infty) (Rbar_locally p_infty)
  (sig * (CarmaKernel.nrm2 (CarmaKernel.beta p ma (0, w)%R) / CarmaKernel.nrm2 (P p om (0, w)%R)))%R.
Proof.
  rewrite <- transform. apply (gen_even _ (eprim p wc (ws w)) (esum p wc (ws w)) (ederi p wc (ws w))).
  - intros x. apply eprim_derive, ws_re.
  - intros x. apply esum_derive.
  - apply eprim_lim, ws_re.
  - intros x Hx. rewrite <- acv_cos, Rabs_Ropp, Rabs_pos_eq by lra. split; [reflexivity|].
    replace (w * - x)%R with (- (w * x))%R by ring. rewrite cos_neg. reflexivity.
Qed.
Lemma wk_sin w : is_RInt_gen (fun x => acv (Rabs x) * sin (w * x))%R (Rbar_locally m_infty) (Rbar_locally p_infty) 0%R.
Proof.
  apply (gen_odd _ (eprim p (fun i => Ci * wc i) (ws w)) (esum p (fun i => Ci * wc i) (ws w)) (ederi p (fun i => Ci * wc i) (ws w)) 0%R).
  - intros x. apply eprim_derive, ws_re.
  - intros x. apply esum_derive.
  - apply eprim_lim, ws_re.
  - intros x Hx. rewrite <- acv_sin, Rabs_Ropp, Rabs_pos_eq by lra. split; [reflexivity|].
    replace (w * - x)%R with (- (w * x))%R by ring. rewrite sin_neg. ring.
Qed.

(** ** The integral of the spectrum is the variance *)
Lemma wc_total : Csum wc p = RtoC (acv 0).
Proof.
  pose proof (acv_sum 0 0) as E. replace (- (0, 0 * 0)%R) with (RtoC 0) in E by (apply C_eq; simpl; ring).
  rewrite Cexp_0 in E. rewrite <- (Cmult_1_l (RtoC (acv 0))), <- E. apply Csum_ext. intros i _.
  replace (ws 0 i * RtoC 0) with (RtoC 0) by ring. rewrite Cexp_0. ring.
Qed.
Definition sterm (i : nat) (f : R) : R :=
  let w := (2 * PI * f)%R in let a := fst (om i) in let d := (w - snd (om i))%R in
  ((- a * fst (wc i) + snd (wc i) * d) / (a * a + d * d))%R.
Definition sprim (i : nat) (f : R) : R :=
  let w := (2 * PI * f)%R in let a := fst (om i) in let d := (w - snd (om i))%R in
  (/ PI * (fst (wc i) * - atan (d / a) + snd (wc i) / 2 * ln ((a * a + d * d) / (1 + w * w))))%R.
Lemma sprim_derive i f : (i < p)%nat ->
  is_derive (sprim i) f (2 * (sterm i f - snd (wc i) * (2 * PI * f / (1 + 2 * PI * f * (2 * PI * f)))))%R.
Proof.
  intros Hi. pose proof (HRe i Hi) as Ha. unfold sprim, sterm. destruct (om i) as [a b0], (wc i) as [x y]. cbn [fst snd] in *.
  pose proof PI_RGT_0 as Hpi0.
  assert (0 < a * a + (2 * PI * f - b0) * (2 * PI * f - b0))%R as H1.
  { pose proof (Rle_0_sqr (2 * PI * f - b0)) as Q. unfold Rsqr in Q. assert (0 < a * a)%R by nra. lra. }
  assert (0 < 1 + 2 * PI * f * (2 * PI * f))%R as H2.
  { pose proof (Rle_0_sqr (2 * PI * f)) as Q. unfold Rsqr in Q. lra. }
  auto_derive.
  - repeat split; try lra. apply Rmult_lt_0_compat; [lra|]. apply Rinv_0_lt_compat; lra.
  - field. repeat split; lra.
Qed.
Lemma sprim_lim i : (i < p)%nat ->
  is_lim (sprim i) p_infty (Finite (fst (wc i) / 2)) /\ is_lim (sprim i) m_infty (Finite (- (fst (wc i) / 2))).
Proof.
  intros Hi. pose proof (HRe i Hi) as Ha. unfold sprim. destruct (om i) as [a b0], (wc i) as [x y]. cbn [fst snd] in *.
  pose proof PI_RGT_0 as Hpi0.
  set (k := (2 * PI / - a)%R). assert (0 < k)%R as Hk by (apply Rdiv_lt_0_compat; lra).
  assert (forall f, (- atan ((2 * PI * f - b0) / a))%R = atan (k * f + b0 / a)) as Ek.
  { intros f. rewrite <- atan_opp. f_equal. unfold k. field. lra. }
  split.
  - apply (is_lim_ext (fun f => / PI * (x * atan (k * f + b0 / a) + y / 2 * ln ((a * a + (2 * PI * f - b0) * (2 * PI * f - b0)) / (1 + 2 * PI * f * (2 * PI * f)))))%R).
    { intros f. rewrite Ek. reflexivity. }
    replace (Finite (x / 2)) with (Rbar_mult (Finite (/ PI)%R) (Finite (x * (PI / 2) + y / 2 * 0)%R)) by (simpl; f_equal; field; lra).
    apply is_lim_scal_l. apply is_lim_plus'.
    + apply (is_lim_scal_l _ x p_infty (Finite (PI / 2))). apply atan_lin_p, Hk.
    + apply (is_lim_scal_l _ (y / 2) p_infty (Finite 0)). apply ratio_lim. left. reflexivity.
  - apply (is_lim_ext (fun f => / PI * (x * atan (k * f + b0 / a) + y / 2 * ln ((a * a + (2 * PI * f - b0) * (2 * PI * f - b0)) / (1 + 2 * PI * f * (2 * PI * f)))))%R).
    { intros f. rewrite Ek. reflexivity. }
    replace (Finite (- (x / 2))) with (Rbar_mult (Finite (/ PI)%R) (Finite (x * - (PI / 2) + y / 2 * 0)%R)) by (simpl; f_equal; field; lra).
    apply is_lim_scal_l. apply is_lim_plus'.
    + apply (is_lim_scal_l _ x m_infty (Finite (- (PI / 2)))). apply atan_lin_m, Hk.
    + apply (is_lim_scal_l _ (y / 2) m_infty (Finite 0)). apply ratio_lim. right. reflexivity.
Qed.
Lemma lim_Rsum (g : nat -> R -> R) (l : nat -> R) n x : (forall k, (k < n)%nat -> is_lim (g k) x (Finite (l k))) ->
  is_lim (fun f => Rsum (fun k => g k f) n) x (Finite (Rsum l n)).
Proof.
  induction n as [|n IH]; intros H; simpl; [apply is_lim_const|].
  apply is_lim_plus'; [apply IH; intros; apply H; lia|apply H; lia].
Qed.
Lemma spec_terms f : (sig * (CarmaKernel.nrm2 (CarmaKernel.beta p ma (0, 2 * PI * f)%R) / CarmaKernel.nrm2 (P p om (0, 2 * PI * f)%R)))%R =
  (2 * Rsum (fun i => sterm i f) p)%R.
Proof.
  rewrite <- transform. f_equal. rewrite eprim_0, fst_Csum.
  assert (forall u v : R, u = (- v)%R -> (0 - u)%R = v) as Hs by (intros; lra). apply Hs.
  replace (- Rsum (fun i => sterm i f) p)%R with (-1 * Rsum (fun i => sterm i f) p)%R by ring. rewrite <- Rsum_scal.
  apply Rsum_ext. intros i Hi. pose proof (HRe i Hi) as Ha. unfold ws, sterm. destruct (om i) as [a b0], (wc i) as [x y].
  cbn [fst snd] in *. assert (0 < a * a)%R by nra. pose proof (Rle_0_sqr (2 * PI * f - b0)) as Q. unfold Rsqr in Q.
  simpl. field. apply Rgt_not_eq. clear - H Q. nra.
Qed.
Lemma power_total : is_RInt_gen (fun f => sig * (CarmaKernel.nrm2 (CarmaKernel.beta p ma (0, 2 * PI * f)%R) / CarmaKernel.nrm2 (P p om (0, 2 * PI * f)%R)))%R
  (Rbar_locally m_infty) (Rbar_locally p_infty) (acv 0).
Proof.
  pose proof wc_total as Ht.
  assert (Rsum (fun i => fst (wc i)) p = acv 0) as Hx by (rewrite <- fst_Csum, Ht; reflexivity).
  assert (Rsum (fun i => snd (wc i)) p = 0%R) as Hy by (rewrite <- snd_Csum, Ht; reflexivity).
  replace (acv 0) with (Rsum (fun i => fst (wc i) / 2) p - Rsum (fun i => - (fst (wc i) / 2)) p)%R.
  2:{ rewrite <- Hx. rewrite <- Rsum_minus. apply Rsum_ext. intros; lra. }
  apply (gen_deriv (fun f => Rsum (fun i => sprim i f) p)).
  - intros f. rewrite spec_terms.
    replace (2 * Rsum (fun i => sterm i f) p)%R with
      (Rsum (fun i => 2 * (sterm i f - snd (wc i) * (2 * PI * f / (1 + 2 * PI * f * (2 * PI * f)))))%R p).
    + apply (CarmaKernel.derive_Rsum 1 (le_n 1)). intros i Hi. apply sprim_derive, Hi.
    + rewrite Rsum_scal. f_equal. rewrite Rsum_minus. rewrite (Rsum_ext (fun k => snd (wc k) * _)%R (fun k => (2 * PI * f / (1 + 2 * PI * f * (2 * PI * f))) * snd (wc k))%R) by (intros; ring). rewrite Rsum_scal, Hy. ring.
  - intros f. apply (ex_derive_ext (fun f => 2 * Rsum (fun i => sterm i f) p)%R); [intros; symmetry; apply spec_terms|].
    apply (ex_derive_mult (fun _ => 2%R) (fun f => Rsum (fun i => sterm i f) p)); [apply ex_derive_const|].
    assert (exists d, forall k, (k < p)%nat -> is_derive (sterm k) f (d k)) as [d Hd].
    { exists (fun k => Derive (sterm k) f). intros k Hk. apply Derive_correct. pose proof (HRe k Hk) as Ha. unfold sterm.
      destruct (om k) as [a b0], (wc k) as [x y]. cbn [fst snd] in *.
      pose proof (Rle_0_sqr (2 * PI * f - b0)) as Q. unfold Rsqr in Q. assert (0 < a * a)%R by nra. auto_derive. lra. }
    eexists. apply (CarmaKernel.derive_Rsum 1 (le_n 1) sterm d). exact Hd.
  - apply lim_Rsum. intros i Hi. apply sprim_lim, Hi.
  - apply lim_Rsum. intros i Hi. apply sprim_lim, Hi.
Qed.
End WK.
