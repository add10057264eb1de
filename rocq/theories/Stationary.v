(** The distributions that the steps of the sampler are meant to leave unchanged, with actual integrals: iterated
    (improper Riemann) integrals over the state and the random numbers of a step.  Balance.v and ProposalProof.v have the
    same statements for abstract integrals. *)
From Coq Require Import Reals List Arith ZArith Bool Lra Lia.
From Coquelicot Require Import Coquelicot.
From Verif Require Import Arith Res ListLemmas Spec Gauss Emb Cx KFpProof EngineModel EngineSpec EngineProof EngineInv CholProof RamProof EngineHist Balance ProposalProof.
Import ListNotations.

Set Implicit Arguments.
Unset Strict Implicit.
Local Open Scope R_scope.
Local Notation length := List.length.

(** ** Integrals over the line, over R^n and over pairs of vectors (specification) *)

(** the integral of g over the whole line *)
Definition line (g : R -> R) (v : R) : Prop := is_RInt_gen g (Rbar_locally m_infty) (Rbar_locally p_infty) v.
(** the iterated integral of f over the vectors of length n *)
Fixpoint space (n : nat) (f : list R -> R) (v : R) : Prop :=
  match n with
  | O => f [] = v
  | S k => exists g, (forall x, space k (fun xs => f (x :: xs)) (g x)) /\ line g v
  end.
(** the iterated integral over pairs: first over x, then over u *)
Definition space2 (n m : nat) (h : list R -> list R -> R) (v : R) : Prop :=
  exists g, (forall u, length u = m -> space n (fun x => h x u) (g u)) /\ space m g v.

(** ** Properties *)
Lemma line_char g v : line g v <->
  forall eps, 0 < eps -> exists M N, forall a b, a < M -> N < b -> exists y, is_RInt g a b y /\ Rabs (y - v) < eps.
Proof.
  split.
  - intros H eps He. destruct (H (fun y => Rabs (y - v) < eps)) as [Q S HQ HS HP].
    { exists (mkposreal eps He). intros y Hy. exact Hy. }
    destruct HQ as [M HM], HS as [N HN]. exists M, N. intros a b Ha Hb. exact (HP a b (HM a Ha) (HN b Hb)).
  - intros H P [eps HP]. destruct (H eps (cond_pos eps)) as (M & N & K).
    refine (Filter_prod _ _ _ (fun a => a < M) (fun b => N < b) _ _ _).
    + exists M. auto.
    + exists N. auto.
    + intros a b Ha Hb. destruct (K a b Ha Hb) as (y & Hy & Ey). exists y. split; [exact Hy|]. apply HP. exact Ey.
Qed.
Lemma line_ext g1 g2 v : (forall x, g1 x = g2 x) -> line g1 v -> line g2 v.
Proof.
  intros E H. apply line_char. intros eps He. destruct (proj1 (line_char g1 v) H eps He) as (M & N & K). exists M, N. intros a b Ha Hb.
  destruct (K a b Ha Hb) as (y & Hy & Ey). exists y. split; [|exact Ey]. apply (is_RInt_ext g1); [intros; apply E|exact Hy].
Qed.
Lemma line_unique g v w : line g v -> line g w -> v = w.
Proof.
  intros H1 H2. destruct (Req_dec v w) as [|Hn]; [assumption|exfalso].
  assert (0 < Rabs (v - w) / 2) as He by (assert (0 < Rabs (v - w)) by (apply Rabs_pos_lt; lra); lra).
  destruct (proj1 (line_char g v) H1 _ He) as (M1 & N1 & K1). destruct (proj1 (line_char g w) H2 _ He) as (M2 & N2 & K2).
  destruct (K1 (Rmin M1 M2 - 1) (Rmax N1 N2 + 1)) as (y1 & Y1 & E1).
  { pose proof (Rmin_l M1 M2). lra. } { pose proof (Rmax_l N1 N2). lra. }
  destruct (K2 (Rmin M1 M2 - 1) (Rmax N1 N2 + 1)) as (y2 & Y2 & E2).
  { pose proof (Rmin_r M1 M2). lra. } { pose proof (Rmax_r N1 N2). lra. }
  pose proof (is_RInt_unique _ _ _ _ Y1) as Q1. pose proof (is_RInt_unique _ _ _ _ Y2) as Q2. rewrite Q1 in Q2. subst y2.
  revert E1 E2 He. unfold Rabs. repeat destruct (Rcase_abs _); lra.
Qed.
Lemma line_scal g v k : line g v -> line (fun x => k * g x) (k * v).
Proof.
  intros H. apply line_char. intros eps He.
  assert (0 < eps / (Rabs k + 1)) as He' by (apply Rdiv_lt_0_compat; [lra|pose proof (Rabs_pos k); lra]).
  destruct (proj1 (line_char g v) H _ He') as (M & N & K). exists M, N. intros a b Ha Hb. destruct (K a b Ha Hb) as (y & Hy & Ey).
  exists (k * y). split; [exact (is_RInt_scal _ _ _ k _ Hy)|]. replace (k * y - k * v) with (k * (y - v)) by ring. rewrite Rabs_mult.
  pose proof (Rabs_pos k). pose proof (Rabs_pos (y - v)).
  apply Rle_lt_trans with ((Rabs k) * (eps / (Rabs k + 1))); [apply Rmult_le_compat_l; lra|].
  apply Rlt_le_trans with ((Rabs k + 1) * (eps / (Rabs k + 1))); [apply Rmult_lt_compat_r; lra|]. right. field. lra.
Qed.
Lemma line_minus g1 g2 v1 v2 : line g1 v1 -> line g2 v2 -> line (fun x => g1 x - g2 x) (v1 - v2).
Proof.
  intros H1 H2. apply line_char. intros eps He. assert (0 < eps / 2) as He' by lra.
  destruct (proj1 (line_char g1 v1) H1 _ He') as (M1 & N1 & K1). destruct (proj1 (line_char g2 v2) H2 _ He') as (M2 & N2 & K2).
  exists (Rmin M1 M2), (Rmax N1 N2). intros a b Ha Hb.
  destruct (K1 a b) as (y1 & Y1 & E1). { pose proof (Rmin_l M1 M2). lra. } { pose proof (Rmax_l N1 N2). lra. }
  destruct (K2 a b) as (y2 & Y2 & E2). { pose proof (Rmin_r M1 M2). lra. } { pose proof (Rmax_r N1 N2). lra. }
  exists (y1 - y2). split; [exact (is_RInt_minus _ _ _ _ _ _ Y1 Y2)|]. revert E1 E2. unfold Rabs. repeat destruct (Rcase_abs _); lra.
Qed.
(** substitution of an affine function *)
Lemma line_affine g v k c : k <> 0 -> line g v -> line (fun x => g (k * x + c)) (v / Rabs k).
Proof.
  intros Hk H. apply line_char. intros eps He. assert (0 < Rabs k) as Hp by (apply Rabs_pos_lt; exact Hk).
  assert (0 < eps * Rabs k) as He' by (apply Rmult_lt_0_compat; assumption).
  destruct (proj1 (line_char g v) H _ He') as (M & N & K).
  assert (forall y, Rabs (y - v) < eps * Rabs k -> Rabs (y / Rabs k - v / Rabs k) < eps) as Hb.
  { intros y Hy. replace (y / Rabs k - v / Rabs k) with ((y - v) / Rabs k) by (field; lra). unfold Rdiv. rewrite Rabs_mult, Rabs_inv, Rabs_Rabsolu.
    apply Rmult_lt_reg_r with (Rabs k); [exact Hp|]. rewrite Rmult_assoc, Rinv_l by lra. lra. }
  assert (forall a b y, is_RInt g (k * a + c) (k * b + c) y -> is_RInt (fun x => g (k * x + c)) a b (y / k)) as Hs.
  { intros a b y Hy. pose proof (is_RInt_scal _ _ _ (/ k) _ (is_RInt_comp_lin _ _ _ _ _ _ Hy)) as S.
    apply (is_RInt_ext _ (fun x => g (k * x + c))) in S.
    - replace (y / k) with (scal (/ k) y); [exact S|]. unfold scal. cbn. unfold mult. cbn. unfold Rdiv. ring.
    - intros x _. unfold scal. cbn. unfold mult. cbn. field. exact Hk. }
  destruct (Rlt_dec 0 k) as [Hpos|Hneg].
  - exists ((M - c) / k), ((N - c) / k). intros a b Ha Hb'.
    destruct (K (k * a + c) (k * b + c)) as (y & Hy & Ey).
    + apply (Rmult_lt_compat_l k) in Ha; [|exact Hpos]. replace (k * ((M - c) / k)) with (M - c) in Ha by (field; lra). lra.
    + apply (Rmult_lt_compat_l k) in Hb'; [|exact Hpos]. replace (k * ((N - c) / k)) with (N - c) in Hb' by (field; lra). lra.
    + exists (y / Rabs k). split; [|exact (Hb y Ey)]. rewrite Rabs_right by lra. exact (Hs _ _ _ Hy).
  - assert (k < 0) as Hn by lra. exists ((N - c) / k), ((M - c) / k). intros a b Ha Hb'.
    destruct (K (k * b + c) (k * a + c)) as (y & Hy & Ey).
    + apply (Rmult_lt_gt_compat_neg_l k) in Hb'; [|exact Hn]. replace (k * ((M - c) / k)) with (M - c) in Hb' by (field; lra). lra.
    + apply (Rmult_lt_gt_compat_neg_l k) in Ha; [|exact Hn]. replace (k * ((N - c) / k)) with (N - c) in Ha by (field; lra). lra.
    + exists (y / Rabs k). split; [|exact (Hb y Ey)]. rewrite Rabs_left by lra. replace (y / - k) with (opp (y / k)) by (unfold opp; cbn; field; lra).
      apply (is_RInt_swap (V := R_NormedModule)). exact (Hs _ _ _ Hy).
Qed.

Lemma space_ext n f1 f2 v : (forall x, length x = n -> f1 x = f2 x) -> space n f1 v -> space n f2 v.
Proof.
  revert f1 f2 v. induction n as [|k IH]; cbn; intros f1 f2 v E.
  - intros <-. symmetry. apply E. reflexivity.
  - intros (g & Hg & Hl). exists g. split; [|exact Hl]. intros x. apply (IH (fun xs => f1 (x :: xs))); [|apply Hg]. intros xs Hx. apply E. cbn. rewrite Hx. reflexivity.
Qed.
Lemma space_unique n f v w : space n f v -> space n f w -> v = w.
Proof.
  revert f v w. induction n as [|k IH]; cbn; intros f v w.
  - congruence.
  - intros (g1 & H1 & L1) (g2 & H2 & L2). apply (@line_unique g1); [exact L1|]. apply (line_ext (g1 := g2)); [|exact L2]. intros x. exact (IH _ _ _ (H2 x) (H1 x)).
Qed.
Lemma space_minus n f1 f2 v1 v2 : space n f1 v1 -> space n f2 v2 -> space n (fun x => f1 x - f2 x) (v1 - v2).
Proof.
  revert f1 f2 v1 v2. induction n as [|k IH]; cbn; intros f1 f2 v1 v2.
  - intros <- <-. reflexivity.
  - intros (g1 & H1 & L1) (g2 & H2 & L2). exists (fun x => g1 x - g2 x). split; [|apply line_minus; assumption]. intros x. apply (IH (fun xs => f1 (x :: xs)) (fun xs => f2 (x :: xs))); [apply H1|apply H2].
Qed.
Lemma space_scal n f v k : space n f v -> space n (fun x => k * f x) (k * v).
Proof.
  revert f v. induction n as [|m IH]; cbn; intros f v.
  - intros <-. reflexivity.
  - intros (g & H & L). exists (fun x => k * g x). split; [|apply line_scal, L]. intros x. apply (IH (fun xs => f (x :: xs))). apply H.
Qed.
(** translation, reflection, dilation about a point *)
Lemma space_shift n f v c : length c = n -> space n f v -> space n (fun x => f (radd x c)) v.
Proof.
  revert f v c. induction n as [|k IH]; intros f v [|c0 cs]; try discriminate; cbn [space length]; intros Hc.
  - intros <-. reflexivity.
  - injection Hc as Hc. intros (g & H & L). exists (fun x => g (x + c0)). split.
    + intros x. exact (IH (fun xs => f ((x + c0) :: xs)) _ cs Hc (H (x + c0))).
    + pose proof (line_affine c0 R1_neq_R0 L) as Q. rewrite Rabs_R1, Rdiv_1 in Q. apply (line_ext (g1 := fun x => g (1 * x + c0))); [|exact Q].
      intros x. f_equal. ring.
Qed.
Lemma space_opp n f v : space n f v -> space n (fun x => f (ropp x)) v.
Proof.
  revert f v. induction n as [|k IH]; cbn [space]; intros f v.
  - intros <-. reflexivity.
  - intros (g & H & L). exists (fun x => g (- x)). split.
    + intros x. exact (IH (fun xs => f ((- x) :: xs)) _ (H (- x))).
    + assert (-1 <> 0) as Hm by lra. pose proof (line_affine 0 Hm L) as Q. rewrite Rabs_left in Q by lra. replace (v / - -1) with v in Q by field.
      apply (line_ext (g1 := fun x => g (-1 * x + 0))); [|exact Q]. intros x. f_equal. ring.
Qed.
Lemma space_stretch c f v z : 0 < z -> space (length c) f v -> space (length c) (fun x => f (stretch_pt c z x)) (v / z ^ length c).
Proof.
  intros Hz. revert f v. induction c as [|c0 cs IH]; cbn [space length]; intros f v.
  - intros <-. cbn. field.
  - intros (g & H & L). exists (fun x => g (c0 + z * (x - c0)) / z ^ length cs). split.
    + intros x. exact (IH (fun xs => f ((c0 + z * (x - c0)) :: xs)) _ (H (c0 + z * (x - c0)))).
    + assert (z <> 0) as Hz' by lra. pose proof (line_scal (k := / z ^ length cs) (line_affine (c0 - z * c0) Hz' L)) as Q. rewrite Rabs_right in Q by lra.
      replace (v / z ^ S (length cs)) with (/ z ^ length cs * (v / z)) by (cbn; field; split; [apply pow_nonzero|]; lra).
      apply (line_ext (g1 := fun x => / z ^ length cs * g (z * x + (c0 - z * c0)))); [|exact Q].
      intros x. replace (c0 + z * (x - c0)) with (z * x + (c0 - z * c0)) by ring. unfold Rdiv. ring.
Qed.

Lemma space2_ext n m h1 h2 v : (forall x u, length x = n -> length u = m -> h1 x u = h2 x u) -> space2 n m h1 v -> space2 n m h2 v.
Proof. intros E (g & H & S). exists g. split; [|exact S]. intros u Hu. apply (space_ext (f1 := fun x => h1 x u)); [|exact (H u Hu)]. intros x Hx. apply E; assumption. Qed.
Lemma space2_unique n m h v w : space2 n m h v -> space2 n m h w -> v = w.
Proof.
  intros (g1 & H1 & S1) (g2 & H2 & S2). apply (space_unique S1). apply (space_ext (f1 := g2)); [|exact S2]. intros u Hu. exact (space_unique (H2 u Hu) (H1 u Hu)).
Qed.
Lemma space2_minus n m h1 h2 v1 v2 : space2 n m h1 v1 -> space2 n m h2 v2 -> space2 n m (fun x u => h1 x u - h2 x u) (v1 - v2).
Proof.
  intros (g1 & H1 & S1) (g2 & H2 & S2). exists (fun u => g1 u - g2 u). split; [|apply space_minus; assumption].
  intros u Hu. apply (space_minus (H1 u Hu) (H2 u Hu)).
Qed.
Lemma space2_opp n m h v : space2 n m h v -> space2 n m (fun x u => - h x u) (- v).
Proof.
  intros (g & H & S). exists (fun u => - g u). split.
  - intros u Hu. replace (- g u) with (-1 * g u) by ring. apply (space_ext (f1 := fun x => -1 * h x u)); [intros; ring|]. apply (space_scal _ (H u Hu)).
  - replace (- v) with (-1 * v) by ring. apply (space_ext (f1 := fun u => -1 * g u)); [intros; ring|]. apply space_scal, S.
Qed.
(** the reversal of a RAM move preserves the integral *)
Lemma space2_rev n L h v : space2 n n h v -> space2 n n (fun x u => h (jump n L x u) (ropp u)) v.
Proof.
  intros (g & H & S). exists (fun u => g (ropp u)). split; [|apply space_opp, S].
  intros u Hu. unfold jump. apply (space_shift (f := fun x => h x (ropp u))).
  - unfold rtmul. apply vbuild_len.
  - apply H. unfold ropp. rewrite map_length. exact Hu.
Qed.

(** ** The density of the unit proposals *)
Definition t8 (z : R) : R := Rpower (1 + z * z / 8) (- (9 / 2)).
(** its integral *)
Definition t8_mass : R := sqrt 8 * (32 / 35).
Lemma t8_mass_pos : 0 < t8_mass.
Proof. unfold t8_mass. apply Rmult_lt_0_compat; [apply sqrt_lt_R0; lra|lra]. Qed.
Lemma t8_alg z : t8 z = sqrt 8 * 8 ^ 4 / ((8 + z * z) ^ 4 * sqrt (8 + z * z)).
Proof.
  assert (0 <= z * z) as Hz by apply Rle_0_sqr. unfold t8. rewrite Rpower_Ropp. replace (9 / 2) with (INR 4 + / 2) by (cbn; lra).
  rewrite Rpower_plus, Rpower_pow, Rpower_sqrt by lra. replace (1 + z * z / 8) with ((8 + z * z) / 8) by field. rewrite sqrt_div_alt by lra.
  assert (0 < sqrt 8) by (apply sqrt_lt_R0; lra). assert (0 < sqrt (8 + z * z)) by (apply sqrt_lt_R0; lra). field. repeat split; try lra.
Qed.
Definition t8_w (z : R) : R := z / sqrt (8 + z * z).
Definition t8_P (w : R) : R := w - w ^ 3 + 3 / 5 * w ^ 5 - w ^ 7 / 7.
Definition t8_prim (z : R) : R := sqrt 8 * t8_P (t8_w z).
Lemma t8_prim_derive z : is_derive t8_prim z (t8 z).
Proof.
  assert (0 <= z * z) as Hz by apply Rle_0_sqr. assert (0 < sqrt (8 + z * z)) as Hs by (apply sqrt_lt_R0; lra). rewrite t8_alg.
  assert (is_derive t8_w z (8 / ((8 + z * z) * sqrt (8 + z * z)))) as Dw.
  { unfold t8_w. auto_derive; [repeat split; lra|]. assert (sqrt (8 + z * z) * sqrt (8 + z * z) = 8 + z * z) as Es by (apply sqrt_sqrt; lra).
    set (s := sqrt (8 + z * z)) in *. rewrite <- Es. assert (z * z = s * s - 8) as Ez by lra.
    apply (Rmult_eq_reg_r (s * s * s)); [|apply Rgt_not_eq; repeat apply Rmult_lt_0_compat; lra]. field_simplify; [|lra|lra]. cbn [pow]. rewrite !Rmult_1_r. rewrite Ez. field. }
  assert (forall w, is_derive t8_P w ((1 - w * w) ^ 3)) as DP.
  { intros w. unfold t8_P. auto_derive; [exact I|]. field. }
  assert (1 - t8_w z * t8_w z = 8 / (8 + z * z)) as Ew.
  { unfold t8_w. assert (sqrt (8 + z * z) * sqrt (8 + z * z) = 8 + z * z) as Es by (apply sqrt_sqrt; lra).
    set (s := sqrt (8 + z * z)) in *. rewrite <- Es. apply (Rmult_eq_reg_r (s * s)); [|apply Rgt_not_eq, Rmult_lt_0_compat; lra]. field_simplify; [|lra|lra]. replace (s ^ 2) with (8 + z * z) by (rewrite <- Es; ring). ring. }
  pose proof (is_derive_comp _ _ z _ _ (DP (t8_w z)) Dw) as D. apply (is_derive_scal _ z (sqrt 8)) in D.
  match type of D with is_derive _ _ ?d => replace (sqrt 8 * 8 ^ 4 / ((8 + z * z) ^ 4 * sqrt (8 + z * z))) with d; [exact D|] end.
  rewrite Ew. unfold scal. cbn -[sqrt pow]. unfold mult. cbn -[sqrt pow]. field. split; lra.
Qed.
Lemma t8_w_lim eps : 0 < eps -> forall z, Rmax 1 (4 / eps) < z -> Rabs (t8_w z - 1) < eps.
Proof.
  intros He z Hz. pose proof (Rmax_l 1 (4 / eps)). pose proof (Rmax_r 1 (4 / eps)). assert (1 < z) as H1 by lra. assert (4 / eps < z) as H2 by lra.
  assert (4 < eps * z) as H3. { apply (Rmult_lt_compat_l eps) in H2; [|exact He]. replace (eps * (4 / eps)) with 4 in H2 by (field; lra). exact H2. }
  unfold t8_w. assert (sqrt (8 + z * z) * sqrt (8 + z * z) = 8 + z * z) as Es by (apply sqrt_sqrt; nra).
  assert (z < sqrt (8 + z * z)) as Hs. { apply Rsqr_incrst_0; [unfold Rsqr; lra|lra|apply sqrt_pos]. }
  set (s := sqrt (8 + z * z)) in *. replace (z / s - 1) with (- ((s - z) / s)) by (field; lra). rewrite Rabs_Ropp, Rabs_right.
  2:{ left. apply Rdiv_lt_0_compat; lra. }
  apply (Rmult_lt_reg_r s); [lra|]. replace ((s - z) / s * s) with (s - z) by (field; lra).
  assert (s - z < 4 / z). { apply (Rmult_lt_reg_r z); [lra|]. replace (4 / z * z) with 4 by (field; lra). nra. }
  assert (4 / z < eps) by (apply (Rmult_lt_reg_r z); [lra|]; replace (4 / z * z) with 4 by (field; lra); lra). nra.
Qed.
Lemma t8_w_odd z : t8_w (- z) = - t8_w z.
Proof. unfold t8_w. replace (- z * - z) with (z * z) by ring. unfold Rdiv. ring. Qed.
Lemma line_prim (F g : R -> R) A B : (forall z, is_derive F z (g z)) -> (forall z, continuous g z) ->
  (forall eps, 0 < eps -> exists N, forall z, N < z -> Rabs (F z - A) < eps) -> (forall eps, 0 < eps -> exists M, forall z, z < M -> Rabs (F z - B) < eps) ->
  line g (A - B).
Proof.
  intros D C HA HB. apply line_char. intros eps He. destruct (HA (eps / 2)) as [N HN]; [lra|]. destruct (HB (eps / 2)) as [M HM]; [lra|].
  exists M, N. intros a b Ha Hb. exists (F b - F a). split; [refine (is_RInt_derive (V := R_CompleteNormedModule) F g a b _ _); intros; [apply D|apply C]|].
  specialize (HN b Hb). specialize (HM a Ha). revert HN HM. unfold Rabs. repeat destruct (Rcase_abs _); lra.
Qed.
Lemma t8_continuous z : continuous t8 z.
Proof.
  apply (continuous_ext (fun z => sqrt 8 * 8 ^ 4 / ((8 + z * z) ^ 4 * sqrt (8 + z * z)))); [intros; symmetry; apply t8_alg|].
  assert (0 <= z * z) as Hz by apply Rle_0_sqr. assert (0 < sqrt (8 + z * z)) as Hs by (apply sqrt_lt_R0; lra).
  apply (ex_derive_continuous (V := R_NormedModule)). auto_derive. repeat split; try lra. apply Rgt_not_eq, Rmult_lt_0_compat; [repeat apply Rmult_lt_0_compat; lra|exact Hs].
Qed.
Lemma t8_line : line t8 t8_mass.
Proof.
  assert (forall eps, 0 < eps -> exists del, 0 < del /\ forall w, Rabs (w - 1) < del -> Rabs (sqrt 8 * t8_P w - sqrt 8 * (16 / 35)) < eps) as HP.
  { intros eps He. assert (continuous (fun w => sqrt 8 * t8_P w) 1) as C.
    { apply (ex_derive_continuous (V := R_NormedModule)). unfold t8_P. auto_derive. exact I. }
    destruct (C (fun y => Rabs (y - sqrt 8 * (16 / 35)) < eps)) as [del Hdel].
    { exists (mkposreal eps He). intros y Hy. unfold t8_P in Hy. replace (16 / 35) with (1 - 1 ^ 3 + 3 / 5 * 1 ^ 5 - 1 ^ 7 / 7) by (cbn; lra). exact Hy. }
    exists del. split; [apply cond_pos|]. intros w Hw. apply Hdel. exact Hw. }
  replace t8_mass with (sqrt 8 * (16 / 35) - - (sqrt 8 * (16 / 35))) by (unfold t8_mass; lra).
  apply (line_prim (F := t8_prim)); [apply t8_prim_derive|apply t8_continuous| |]; intros eps He; destruct (HP eps He) as (del & Hd & K).
  - exists (Rmax 1 (4 / del)). intros z Hz. apply K. apply t8_w_lim; assumption.
  - exists (- Rmax 1 (4 / del)). intros z Hz. unfold t8_prim. assert (t8_w z = - t8_w (- z)) as -> by (rewrite t8_w_odd; ring).
    replace (sqrt 8 * t8_P (- t8_w (- z)) - - (sqrt 8 * (16 / 35))) with (- (sqrt 8 * t8_P (t8_w (- z)) - sqrt 8 * (16 / 35))) by (unfold t8_P; field).
    rewrite Rabs_Ropp. apply K. apply t8_w_lim; [assumption|lra].
Qed.
Lemma student8_space n : space n student8 (t8_mass ^ n).
Proof.
  induction n as [|k IH]; cbn [space].
  - reflexivity.
  - exists (fun x => t8 x * t8_mass ^ k). split.
    + intros x. apply (space_ext (f1 := fun xs => t8 x * student8 xs)); [reflexivity|]. apply space_scal, IH.
    + replace (t8_mass ^ S k) with (t8_mass ^ k * t8_mass) by (cbn; ring). apply (line_ext (g1 := fun x => t8_mass ^ k * t8 x)); [intros; ring|]. apply line_scal, t8_line.
Qed.
(** the probability density of the n components of a unit proposal (Student's t with 8 degrees of freedom) *)
Definition unit_density (u : list R) : R := student8 u / t8_mass ^ length u.
Lemma unit_density_one n : space n unit_density 1.
Proof.
  assert (t8_mass ^ n <> 0) as Hn by (apply pow_nonzero; pose proof t8_mass_pos; lra).
  replace 1 with (/ t8_mass ^ n * t8_mass ^ n) by (field; exact Hn). apply (space_ext (f1 := fun u => / t8_mass ^ n * student8 u)).
  - intros u Hu. unfold unit_density. rewrite Hu. unfold Rdiv. ring.
  - apply space_scal, student8_space.
Qed.

(** ** AdaptiveMetro *)
Theorem ram_stationary n ell L T f m v : 0 < T ->
  space n (fun x => tempered T (ell x) * f x) m ->
  space2 n n (fun x u => tempered T (ell x) * unit_density u * RInt (fun t => f (ram_next n ell L T x u t)) 0 1) v ->
  v = m.
Proof.
  intros HT Hm Hv.
  assert (space2 n n (fun x u => tempered T (ell x) * unit_density u * f x) m) as Hm2.
  { exists (fun u => unit_density u * m). split.
    - intros u _. apply (space_ext (f1 := fun x => unit_density u * (tempered T (ell x) * f x))); [intros; ring|]. apply space_scal, Hm.
    - pose proof (space_scal m (unit_density_one n)) as Q. rewrite Rmult_1_r in Q. apply (space_ext (f1 := fun u => m * unit_density u)); [intros; ring|exact Q]. }
  pose proof (space2_minus Hv Hm2) as D. pose proof (space2_rev L D) as D'. cbv beta in D'. pose proof (space2_opp D) as Do. cbv beta in Do.
  enough (v - m = - (v - m)) by lra.
  apply (space2_unique D'). refine (space2_ext _ Do). clear D D' Do Hv Hm Hm2. intros x u Hx Hu.
  assert (forall x u, RInt (fun t => f (ram_next n ell L T x u t)) 0 1 =
     accept_prob (ell (jump n L x u)) (ell x) (Fin T) * f (jump n L x u) + (1 - accept_prob (ell (jump n L x u)) (ell x) (Fin T)) * f x) as K.
  { intros y w. rewrite <- RInt_choice by apply accept_prob_range. apply RInt_ext. intros t _. unfold ram_next. destruct (Rlt_dec _ _); reflexivity. }
  rewrite !K. pose proof (@ram_detailed_balance n ell L T HT x u Hx) as B. rewrite (jump_back _ _ Hx) in *.
  assert (unit_density (ropp u) = unit_density u) as ->. { unfold unit_density, ropp. rewrite map_length. fold (ropp u). rewrite student8_even. reflexivity. }
  rewrite student8_even in B. unfold unit_density.
  set (px := tempered T (ell x)) in *. set (py := tempered T (ell (jump n L x u))) in *. set (q := student8 u) in *. set (Q := t8_mass ^ length u) in *.
  assert (Q <> 0) as HQ by (apply pow_nonzero; pose proof t8_mass_pos; lra).
  set (a := accept_prob _ (ell x) _) in *. set (a' := accept_prob (ell x) _ _) in *.
  transitivity ((px * q * a) / Q * (f x - f (jump n L x u))); [field; exact HQ|]. rewrite B. field. exact HQ.
Qed.

(** ** ExchangeStep *)
(** the integral over pairs, the same in both orders *)
Definition both (n : nat) (h : list R -> list R -> R) (v : R) : Prop := space2 n n h v /\ space2 n n (fun x y => h y x) v.
Theorem exch_stationary n ell Tw To f m v : 0 < Tw -> 0 < To ->
  both n (fun x y => tempered Tw (ell x) * tempered To (ell y) * f (x, y)) m ->
  both n (fun x y => tempered Tw (ell x) * tempered To (ell y) * RInt (fun t => f (exch_next ell Tw To x y t)) 0 1) v ->
  v = m.
Proof.
  intros HTw HTo [Hm1 Hm2] [Hv1 Hv2]. pose proof (space2_minus Hv1 Hm1) as D1. pose proof (space2_opp (space2_minus Hv2 Hm2)) as D2. cbv beta in D1, D2.
  enough (v - m = - (v - m)) by lra. apply (space2_unique D1). refine (space2_ext _ D2). clear - HTw HTo. intros x y _ _.
  assert (forall x y, RInt (fun t => f (exch_next ell Tw To x y t)) 0 1 = swap_prob Tw To (ell x) (ell y) * f (y, x) + (1 - swap_prob Tw To (ell x) (ell y)) * f (x, y)) as K.
  { intros a b. rewrite <- RInt_choice by apply swap_prob_range. apply RInt_ext. intros t _. unfold exch_next. destruct (Rlt_dec _ _); reflexivity. }
  rewrite !K. pose proof (@swap_balance Tw To HTw HTo (ell x) (ell y)) as B.
  set (p := tempered Tw (ell x)) in *. set (p' := tempered Tw (ell y)) in *. set (q := tempered To (ell x)) in *. set (q' := tempered To (ell y)) in *.
  set (a := swap_prob _ _ (ell x) _) in *. set (a' := swap_prob _ _ _ (ell x)) in *.
  transitivity (p' * q * a' * (f (y, x) - f (x, y))); [ring|]. rewrite <- B. ring.
Qed.

(** ** StretchProposal, with the partner c *)
(** the density of the scale z on [1/a, a] *)
Definition scale_density (a z : R) : R := gz z / (2 * (sqrt a - sqrt (/ a))).
Lemma gz_int a : 1 < a -> is_RInt gz (/ a) a (2 * (sqrt a - sqrt (/ a))).
Proof.
  intros Ha. assert (0 < / a) as H0 by (apply Rinv_0_lt_compat; lra). assert (/ a < a) as H1 by (apply Rlt_trans with 1; [rewrite <- Rinv_1; apply Rinv_lt_contravar; lra|lra]).
  replace (2 * (sqrt a - sqrt (/ a))) with (minus (2 * sqrt a) (2 * sqrt (/ a))) by (unfold minus, plus, opp; cbn; ring).
  assert (forall z, 0 < z -> gz z = / sqrt z) as Eg by (intros z Hz; unfold gz; rewrite Rpower_Ropp; replace (1 / 2) with (/ 2) by lra; rewrite Rpower_sqrt by exact Hz; reflexivity).
  refine (is_RInt_derive (V := R_CompleteNormedModule) (fun z => 2 * sqrt z) gz (/ a) a _ _); intros z; rewrite Rmin_left, Rmax_right by lra; intros Hz.
  - assert (0 < sqrt z) by (apply sqrt_lt_R0; lra). auto_derive; [lra|]. rewrite Eg by lra. field. lra.
  - apply (ex_derive_continuous (V := R_NormedModule)). unfold gz, Rpower. auto_derive. lra.
Qed.
Lemma scale_density_one a : 1 < a -> is_RInt (scale_density a) (/ a) a 1.
Proof.
  intros Ha. assert (0 < sqrt a - sqrt (/ a)) as Hp.
  { assert (sqrt (/ a) < sqrt a); [|lra]. apply sqrt_lt_1_alt. split; [left; apply Rinv_0_lt_compat; lra|]. apply Rlt_trans with 1; [rewrite <- Rinv_1; apply Rinv_lt_contravar; lra|lra]. }
  replace 1 with (scal (/ (2 * (sqrt a - sqrt (/ a)))) (2 * (sqrt a - sqrt (/ a)))) by (unfold scal; cbn -[sqrt]; unfold mult; cbn -[sqrt]; field; lra).
  apply (is_RInt_ext (fun z => scal (/ (2 * (sqrt a - sqrt (/ a)))) (gz z))).
  - intros z _. unfold scale_density, scal. cbn -[sqrt]. unfold mult. cbn -[sqrt]. unfold Rdiv. ring.
  - apply (is_RInt_scal (V := R_NormedModule)), gz_int, Ha.
Qed.
(** a function with D(1/z) = - z^2 D(z) has integral zero over [1/a, a] *)
Lemma recip_zero D a : 1 < a -> (forall z, / a <= z <= a -> continuous D z) -> (forall z, / a <= z <= a -> D (/ z) = - (z * z * D z)) -> RInt D (/ a) a = 0.
Proof.
  intros Ha C H. assert (0 < / a) as H0 by (apply Rinv_0_lt_compat; lra). assert (/ a < a) as H1 by (apply Rlt_trans with 1; [rewrite <- Rinv_1; apply Rinv_lt_contravar; lra|lra]).
  assert (forall z, / a <= z <= a -> / a <= / z <= a) as Hi.
  { intros z Hz. split; [apply Rinv_le_contravar; lra|]. rewrite <- (Rinv_inv a). apply Rinv_le_contravar; lra. }
  pose proof (is_RInt_comp (V := R_CompleteNormedModule) D (fun z => / z) (fun z => - / (z * z)) (/ a) a) as S. rewrite Rmin_left, Rmax_right in S by lra.
  specialize (S (fun z Hz => C _ (Hi z Hz))).
  assert (forall x, / a <= x <= a -> is_derive (fun z => / z) x (- / (x * x)) /\ continuous (fun z => - / (z * z)) x) as Sd.
  { intros x Hx. split; [auto_derive; [lra|field; lra]|]. apply (ex_derive_continuous (V := R_NormedModule)). auto_derive. apply Rgt_not_eq, Rmult_lt_0_compat; lra. }
  specialize (S Sd). rewrite Rinv_inv in S.
  assert (is_RInt D (/ a) a (RInt D (/ a) a)) as HD. { apply (RInt_correct (V := R_CompleteNormedModule)), ex_RInt_continuous. intros z. rewrite Rmin_left, Rmax_right by lra. apply C. }
  apply (is_RInt_ext _ D) in S.
  - pose proof (is_RInt_unique _ _ _ _ S) as E. pose proof (is_RInt_unique _ _ _ _ (is_RInt_swap _ _ _ _ HD)) as E2.
    rewrite E2 in E. change (opp (RInt D (/ a) a)) with (- RInt D (/ a) a) in E. lra.
  - intros z. rewrite Rmin_left, Rmax_right by lra. intros Hz. rewrite H by lra. unfold scal. cbn. unfold mult. cbn. field. lra.
Qed.
Theorem stretch_stationary c ell T a f m E : 0 < T -> 1 < a ->
  space (length c) (fun x => tempered T (ell x) * f x) m ->
  (forall z, / a <= z <= a -> space (length c) (fun x => tempered T (ell x) * RInt (fun t => f (stretch_next c ell T x z t)) 0 1) (E z)) ->
  (forall z, / a <= z <= a -> continuous E z) ->
  is_RInt (fun z => scale_density a z * E z) (/ a) a m.
Proof.
  intros HT Ha Hm HE HC. assert (0 < / a) as H0 by (apply Rinv_0_lt_compat; lra).
  assert (/ a < a) as H1 by (apply Rlt_trans with 1; [rewrite <- Rinv_1; apply Rinv_lt_contravar; lra|lra]).
  assert (forall z, / a <= z <= a -> / a <= / z <= a) as Hi.
  { intros z Hz. split; [apply Rinv_le_contravar; lra|]. rewrite <- (Rinv_inv a). apply Rinv_le_contravar; lra. }
  assert (forall z, 0 < z -> continuous gz z) as Cg.
  { intros z Hz. apply (ex_derive_continuous (V := R_NormedModule)). unfold gz, Rpower. auto_derive. exact Hz. }
  assert (forall z, / a <= z <= a -> gz (/ z) * (E (/ z) - m) = - (z * z * (gz z * (E z - m)))) as Hodd.
  { intros z Hz.
    pose proof (space_scal (gz z) (space_minus (HE z Hz) Hm)) as S1. cbv beta in S1.
    assert (0 < z) as Hz0 by lra.
    pose proof (space_scal (gz (/ z)) (space_minus (HE (/ z) (Hi z Hz)) Hm)) as S2. cbv beta in S2.
    apply (space_stretch Hz0) in S2. apply (space_scal (Rpower z (INR (length c) - 2))) in S2. cbv beta in S2. apply (space_scal (-1)) in S1. cbv beta in S1.
    assert (Rpower z (INR (length c) - 2) * (gz (/ z) * (E (/ z) - m) / z ^ length c) = -1 * (gz z * (E z - m))) as Q.
    { apply (space_unique S2). refine (space_ext _ S1). intros x Hx.
      assert (forall x z, RInt (fun t => f (stretch_next c ell T x z t)) 0 1 =
        stretch_prob (length c) T z (ell x) (ell (stretch_pt c z x)) * f (stretch_pt c z x) + (1 - stretch_prob (length c) T z (ell x) (ell (stretch_pt c z x))) * f x) as K.
      { intros y w. rewrite <- RInt_choice by apply stretch_prob_range. apply RInt_ext. intros t _. unfold stretch_next. destruct (Rlt_dec _ _); reflexivity. }
      rewrite !K. rewrite stretch_back by (exact Hx || lra). pose proof (@stretch_prob_balance c T HT z (ell x) (ell (stretch_pt c z x)) Hz0) as B.
      set (px := tempered T (ell x)) in *. set (py := tempered T (ell (stretch_pt c z x))) in *. set (J := Rpower z (INR (length c) - 2)) in *.
      set (p := stretch_prob _ T z _ _) in *. set (p' := stretch_prob _ T (/ z) _ _) in *.
      transitivity (- (px * gz z * p) * (f (stretch_pt c z x) - f x)); [ring|]. rewrite B. ring. }
    assert (Rpower z (INR (length c) - 2) = z ^ length c / (z * z)) as Ej.
    { unfold Rminus. rewrite Rpower_plus, Rpower_pow, Rpower_Ropp by exact Hz0. replace 2 with (INR 2) by (cbn; ring). rewrite Rpower_pow by exact Hz0. cbn. field. lra. }
    rewrite Ej in Q. assert (z ^ length c <> 0) as Hn by (apply pow_nonzero; lra).
    assert (z ^ length c / (z * z) * (gz (/ z) * (E (/ z) - m) / z ^ length c) = (gz (/ z) * (E (/ z) - m)) / (z * z)) as Q2 by (field; split; [lra|exact Hn]).
    rewrite Q2 in Q. apply (Rmult_eq_reg_r (/ (z * z))); [|apply Rinv_neq_0_compat, Rgt_not_eq, Rmult_lt_0_compat; lra].
    unfold Rdiv in Q. rewrite Q. field. lra. }
  assert (forall z, / a <= z <= a -> continuous (fun z => gz z * (E z - m)) z) as CD.
  { intros z Hz. apply (continuous_mult (K := R_AbsRing)); [apply Cg; lra|]. apply (continuous_minus (V := R_NormedModule)); [apply HC, Hz|apply continuous_const]. }
  pose proof (recip_zero Ha CD Hodd) as Z.
  assert (is_RInt (fun z => gz z * (E z - m)) (/ a) a 0) as HD.
  { rewrite <- Z. apply (RInt_correct (V := R_CompleteNormedModule)), (ex_RInt_continuous (V := R_CompleteNormedModule)). intros z. rewrite Rmin_left, Rmax_right by lra. apply CD. }
  set (C := 2 * (sqrt a - sqrt (/ a))).
  pose proof (is_RInt_plus (V := R_NormedModule) _ _ _ _ _ _ (is_RInt_scal (V := R_NormedModule) _ _ _ (/ C) _ HD) (is_RInt_scal (V := R_NormedModule) _ _ _ m _ (scale_density_one Ha))) as S.
  refine (eq_ind _ (fun v => is_RInt (fun z => scale_density a z * E z) (/ a) a v) (is_RInt_ext _ _ _ _ _ _ S) _ _).
  - intros z _. unfold plus, scal, scale_density. fold C. cbn -[C]. unfold mult. cbn -[C]. unfold Rdiv. ring.
  - unfold plus, scal. cbn -[C]. unfold mult. cbn -[C]. ring.
Qed.
