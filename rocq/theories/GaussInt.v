(** The integral of the normal density over the line. *)
From Coq Require Import Reals List Arith ZArith Bool Lra Lia.
From Coquelicot Require Import Coquelicot.
From Verif Require Import Stationary.
Local Open Scope R_scope.

Definition bell (x : R) : R := exp (- (x * x)).
Definition bell_G (t : R) : R := RInt bell 0 t.
Definition bell_k (t x : R) : R := exp (- (t * t * (1 + x * x))) / (1 + x * x).
Definition bell_B (t : R) : R := RInt (bell_k t) 0 1.
Ltac rq := match goal with |- @eq _ ?a ?b => change (@eq R a b) end.

Lemma bell_cont x : continuous bell x.
Proof. apply (ex_derive_continuous (V := R_NormedModule)). unfold bell. auto_derive. exact I. Qed.
Lemma bell_ex a b : ex_RInt bell a b.
Proof. apply (ex_RInt_continuous (V := R_CompleteNormedModule)). intros; apply bell_cont. Qed.
Lemma bell_G_derive t : is_derive bell_G t (bell t).
Proof.
  unfold bell_G. apply (is_derive_RInt (V := R_CompleteNormedModule) bell (RInt bell 0) 0 t); [|apply bell_cont].
  apply filter_forall. intros y. apply (RInt_correct (V := R_CompleteNormedModule)), bell_ex.
Qed.
Lemma den_pos x : 0 < 1 + x * x.
Proof. pose proof (Rle_0_sqr x) as H. unfold Rsqr in H. lra. Qed.
Lemma bell_k_derive t x : is_derive (fun u => bell_k u x) t (- (2 * t) * exp (- (t * t * (1 + x * x)))).
Proof. pose proof (den_pos x). unfold bell_k. auto_derive; [exact I|]. field. lra. Qed.
Lemma bell_k_cont t x : continuous (bell_k t) x.
Proof. pose proof (den_pos x). apply (ex_derive_continuous (V := R_NormedModule)). unfold bell_k. auto_derive. lra. Qed.
Lemma bell_2d t x : continuity_2d_pt (fun u v => - (2 * u) * exp (- (u * u * (1 + v * v)))) t x.
Proof.
  apply continuity_2d_pt_mult.
  - apply (continuity_2d_pt_ext (fun u _ => (- 2) * u)); [intros; ring|]. apply continuity_2d_pt_mult; [apply continuity_2d_pt_const|apply continuity_2d_pt_id1].
  - apply (continuity_1d_2d_pt_comp exp).
    + apply derivable_continuous_pt, derivable_pt_exp.
    + apply continuity_2d_pt_opp. apply continuity_2d_pt_mult.
      * apply continuity_2d_pt_mult; apply continuity_2d_pt_id1.
      * apply continuity_2d_pt_plus; [apply continuity_2d_pt_const|]. apply continuity_2d_pt_mult; apply continuity_2d_pt_id2.
Qed.
Lemma bell_B_derive t : is_derive bell_B t (- (2 * bell t * bell_G t)).
Proof.
  assert (forall t x, Derive (fun z => bell_k z x) t = - (2 * t) * exp (- (t * t * (1 + x * x)))) as HD by (intros; apply is_derive_unique, bell_k_derive).
  assert (RInt (fun x => Derive (fun u => bell_k u x) t) 0 1 = - (2 * bell t * bell_G t)) as <-.
  { transitivity (RInt (fun x => - (2 * bell t) * (t * bell (t * x + 0))) 0 1).
    - apply RInt_ext. intros x _. rewrite HD. unfold bell. replace (- (t * t * (1 + x * x))) with (- (t * t) + - ((t * x + 0) * (t * x + 0))) by ring. rewrite exp_plus. rq. ring.
    - transitivity (- (2 * bell t) * RInt (fun x => t * bell (t * x + 0)) 0 1).
      + apply (RInt_scal (V := R_CompleteNormedModule) (fun x => t * bell (t * x + 0))).
        apply (ex_RInt_continuous (V := R_CompleteNormedModule)). intros z _. apply (ex_derive_continuous (V := R_NormedModule)). unfold bell. auto_derive. exact I.
      + assert (RInt (fun x => t * bell (t * x + 0)) 0 1 = bell_G t) as ->; [|rq; ring].
        pose proof (RInt_comp_lin (V := R_CompleteNormedModule) bell t 0 0 1 (bell_ex _ _)) as Q. unfold bell_G. assert (t * 0 + 0 = 0) as E0 by ring. assert (t * 1 + 0 = t) as E1 by ring. rewrite E0, E1 in Q. exact Q. }
  unfold bell_B. apply (is_derive_RInt_param bell_k 0 1 t).
  - apply filter_forall. intros y x _. eexists. apply bell_k_derive.
  - intros x _. apply (continuity_2d_pt_ext (fun u v => - (2 * u) * exp (- (u * u * (1 + v * v))))); [intros; symmetry; apply HD|apply bell_2d].
  - apply filter_forall. intros y. apply (ex_RInt_continuous (V := R_CompleteNormedModule)). intros; apply bell_k_cont.
Qed.
Lemma bell_sum t : bell_G t * bell_G t + bell_B t = PI / 4.
Proof.
  assert (bell_B 0 = PI / 4) as HB.
  { unfold bell_B. assert (is_RInt (bell_k 0) 0 1 (minus (atan 1) (atan 0))) as Q.
    { refine (is_RInt_derive (V := R_CompleteNormedModule) atan (bell_k 0) 0 1 _ _); intros x _; [|apply bell_k_cont].
      apply is_derive_Reals. replace (bell_k 0 x) with (/ (1 + x ^ 2)).
      - apply derivable_pt_lim_atan.
      - unfold bell_k. replace (- (0 * 0 * (1 + x * x))) with 0 by ring. rewrite exp_0. pose proof (den_pos x). field. lra. }
    rewrite (is_RInt_unique _ _ _ _ Q). rewrite atan_1, atan_0. unfold minus, plus, opp. cbn. ring. }
  assert (bell_G 0 = 0) as HG by (unfold bell_G; apply (RInt_point (V := R_CompleteNormedModule))).
  assert (forall t, is_derive (fun t => bell_G t * bell_G t + bell_B t) t 0) as HD.
  { intros u. pose proof (bell_G_derive u) as D1. pose proof (bell_B_derive u) as D2.
    replace 0 with (plus (plus (mult (bell u) (bell_G u)) (mult (bell_G u) (bell u))) (- (2 * bell u * bell_G u))) by (unfold plus, mult; cbn; ring).
    apply (is_derive_plus (K := R_AbsRing) (V := R_NormedModule)); [|exact D2].
    apply (is_derive_mult bell_G bell_G); [exact D1|exact D1|intros; apply Rmult_comm]. }
  assert (bell_G t * bell_G t + bell_B t = bell_G 0 * bell_G 0 + bell_B 0) as ->; [|rewrite HG, HB; ring].
  destruct (MVT_gen (fun t => bell_G t * bell_G t + bell_B t) 0 t (fun _ => 0)) as (c & _ & E).
  - intros x _. apply HD.
  - intros x _. apply derivable_continuous_pt. exists 0. apply is_derive_Reals, HD.
  - lra.
Qed.
Lemma bell_B_range t : 0 <= bell_B t <= bell t.
Proof.
  assert (forall x, 0 <= bell_k t x <= bell t) as H.
  { intros x. pose proof (den_pos x). unfold bell_k, bell. split; [left; apply Rdiv_lt_0_compat; [apply exp_pos|lra]|].
    pose proof (Rle_0_sqr x) as Hx. pose proof (Rle_0_sqr t) as Ht. unfold Rsqr in *.
    assert (exp (- (t * t * (1 + x * x))) <= exp (- (t * t))) as He by (destruct (Rle_lt_or_eq_dec (- (t * t * (1 + x * x))) (- (t * t))) as [L|L]; [nra|left; apply exp_increasing, L|rewrite L; right; reflexivity]).
    apply Rle_trans with (exp (- (t * t * (1 + x * x)))); [|exact He]. unfold Rdiv. rewrite <- (Rmult_1_r (exp (- (t * t * (1 + x * x))))) at 2.
    apply Rmult_le_compat_l; [left; apply exp_pos|]. rewrite <- Rinv_1. apply Rinv_le_contravar; lra. }
  assert (ex_RInt (bell_k t) 0 1) as HE by (apply (ex_RInt_continuous (V := R_CompleteNormedModule)); intros; apply bell_k_cont).
  unfold bell_B. split.
  - apply RInt_ge_0; [lra|exact HE|]. intros x _. apply H.
  - replace (bell t) with (RInt (fun _ => bell t) 0 1) at 1 by (rewrite (RInt_const (V := R_CompleteNormedModule)); unfold scal; cbn; unfold mult; cbn; ring).
    apply RInt_le; [lra|exact HE|apply (ex_RInt_const (V := R_NormedModule))|]. intros x _. apply H.
Qed.
Lemma bell_lim t : 0 < t -> Rabs (bell_G t - sqrt PI / 2) <= / t * (2 / sqrt PI).
Proof.
  intros Ht. pose proof PI_RGT_0 as Hp. pose proof (sqrt_lt_R0 PI Hp) as Hs. pose proof (sqrt_sqrt PI (Rlt_le _ _ Hp)) as Hss.
  assert (0 <= bell_G t) as HG. { unfold bell_G. apply RInt_ge_0; [lra|apply bell_ex|]. intros x _. left. apply exp_pos. }
  pose proof (bell_sum t) as E. destruct (bell_B_range t) as [B0 B1].
  assert (bell t <= / t) as Hb.
  { unfold bell. rewrite exp_Ropp. apply Rinv_le_contravar; [exact Ht|]. apply Rle_trans with (1 + t * t); [pose proof (Rle_0_sqr (t - 1)); unfold Rsqr in *; nra|].
    destruct (Req_dec (t * t) 0); [nra|]. left. apply exp_ineq1. assumption. }
  assert ((sqrt PI / 2 - bell_G t) * (sqrt PI / 2 + bell_G t) = bell_B t) as F by nra.
  assert (0 <= sqrt PI / 2 - bell_G t) as H0. { apply (Rmult_le_reg_r (sqrt PI / 2 + bell_G t)); [lra|]. rewrite F. lra. }
  rewrite Rabs_minus_sym, Rabs_right by lra.
  apply (Rmult_le_reg_r (sqrt PI / 2)); [lra|]. replace (/ t * (2 / sqrt PI) * (sqrt PI / 2)) with (/ t) by (field; lra).
  apply Rle_trans with (bell_B t); [|lra]. rewrite <- F. apply Rmult_le_compat_l; [exact H0|lra].
Qed.
Lemma bell_G_odd t : bell_G (- t) = - bell_G t.
Proof.
  unfold bell_G. pose proof (RInt_comp_lin (V := R_CompleteNormedModule) bell (-1) 0 0 t (bell_ex _ _)) as Q.
  assert (-1 * 0 + 0 = 0) as E0 by ring. assert (-1 * t + 0 = - t) as E1 by ring. rewrite E0, E1 in Q.
  transitivity (RInt (fun x => -1 * bell x) 0 t).
  - etransitivity; [symmetry; exact Q|]. apply RInt_ext. intros x _. unfold scal; cbn; unfold mult; cbn. unfold bell. f_equal. f_equal. ring.
  - etransitivity; [apply (RInt_scal (V := R_CompleteNormedModule) bell), bell_ex|]. unfold scal; cbn; unfold mult; cbn. rq. ring.
Qed.
Lemma bell_line : line bell (sqrt PI).
Proof.
  pose proof (sqrt_lt_R0 PI PI_RGT_0) as Hs.
  assert (forall eps, 0 < eps -> forall z, 2 / sqrt PI / eps < z -> Rabs (bell_G z - sqrt PI / 2) < eps) as HL.
  { intros eps He z Hz. assert (0 < 2 / sqrt PI) as H2 by (apply Rdiv_lt_0_compat; lra). assert (0 < 2 / sqrt PI / eps) by (apply Rdiv_lt_0_compat; assumption).
    apply Rle_lt_trans with (/ z * (2 / sqrt PI)); [apply bell_lim; lra|]. apply (Rmult_lt_reg_l z); [lra|].
    replace (z * (/ z * (2 / sqrt PI))) with (2 / sqrt PI / eps * eps) by (field; repeat split; lra). apply Rmult_lt_compat_r; assumption. }
  replace (sqrt PI) with (sqrt PI / 2 - - (sqrt PI / 2)) by lra.
  apply (line_prim (F := bell_G)); [apply bell_G_derive|apply bell_cont| |]; intros eps He.
  - exists (2 / sqrt PI / eps). apply HL, He.
  - exists (- (2 / sqrt PI / eps)). intros z Hz. assert (bell_G z = - bell_G (- z)) as -> by (rewrite bell_G_odd; ring).
    replace (- bell_G (- z) - - (sqrt PI / 2)) with (- (bell_G (- z) - sqrt PI / 2)) by ring. rewrite Rabs_Ropp. apply HL; [exact He|lra].
Qed.

(** the standard normal density *)
Definition normal_density (z : R) : R := exp (- (z ^ 2) / 2) / sqrt (2 * PI).
Theorem normal_density_one : line normal_density 1.
Proof.
  pose proof PI_RGT_0 as Hp. pose proof (sqrt_lt_R0 PI Hp) as Hs. assert (0 < sqrt 2) as H2 by (apply sqrt_lt_R0; lra). pose proof (sqrt_sqrt 2 ltac:(lra)) as H22.
  assert (sqrt (2 * PI) = sqrt 2 * sqrt PI) as E by (apply sqrt_mult; lra).
  replace 1 with (/ sqrt (2 * PI) * (sqrt PI / Rabs (/ sqrt 2))).
  2:{ rewrite Rabs_right by (apply Rle_ge; left; apply Rinv_0_lt_compat, H2). rewrite E. field. split; lra. }
  apply (line_ext (g1 := fun z => / sqrt (2 * PI) * bell (/ sqrt 2 * z + 0))).
  - intros z. unfold normal_density, bell. unfold Rdiv. rewrite Rmult_comm. f_equal. f_equal.
    replace ((/ sqrt 2 * z + 0) * (/ sqrt 2 * z + 0)) with (z ^ 2 * (/ sqrt 2 * / sqrt 2)) by ring. rewrite <- Rinv_mult, H22. ring.
  - apply line_scal, line_affine; [|exact bell_line]. apply Rinv_neq_0_compat. lra.
Qed.
