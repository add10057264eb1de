(** The variates of random.cpp have the densities their comments give (C95, C96); the saved state of the generator (C97). *)
From Coq Require Import Reals List Arith ZArith Bool Lra Lia String.
From Coquelicot Require Import Coquelicot.
From Verif Require Import Arith Res ListLemmas Spec Gauss Emb Cx EngineModel EngineSpec EngineProof CholProof RamProof EngineHist EngineAX ProposalProof RandModel LogDens.
Import ListNotations.

Set Implicit Arguments.
Unset Strict Implicit.
Local Notation length := List.length.
Local Open Scope R_scope.

(** ** Specification *)
(** If x has a density proportional to p on [dom], then f x has a density proportional to q on [ran]: the probability of every
    interval [a, b] of [ran], which is that of the interval [c, d] of the x with a <= f x <= b, is the integral of q over it. *)
Definition carries_density (dom : R -> Prop) (p : R -> R) (f : R -> R) (ran : R -> Prop) (q : R -> R) : Prop :=
  exists k, 0 < k /\ forall a b, ran a -> ran b -> a < b ->
    exists c d v, dom c /\ dom d /\ c < d /\ (forall x, dom x -> (a <= f x <= b <-> c <= x <= d)) /\ is_RInt p c d v /\ is_RInt q a b (k * v).
Definition positive (x : R) : Prop := 0 < x.
Definition anywhere (x : R) : Prop := True.
Definition within (a b x : R) : Prop := a <= x <= b.

(** densities up to constants: chi-square, gamma with shape and scale, Student's t, uniform *)
Definition chisqr_dens (nu x : R) : R := Rpower x (nu / 2 - 1) * exp (- x / 2).
Definition gamma_dens (alpha theta x : R) : R := Rpower x (alpha - 1) * exp (- x / theta).
Definition student_dens (nu x : R) : R := Rpower (1 + x * x / nu) (- (nu + 1) / 2).
Definition flat_dens (x : R) : R := 1.
(** the densities in the comments of random.cpp: powerlaw (L136-139), tdist (L153-156), invgamma (L200-203); and the scaled inverse
    chi-square density *)
Definition powerlaw_dens (s x : R) : R := Rpower x s.
Definition tdist_dens (nu m s x : R) : R := Rpower (1 + (x - m) * (x - m) / (nu * (s * s))) (- (nu + 1) / 2).
Definition invgamma_dens (alpha beta x : R) : R := Rpower x (- alpha - 1) * exp (- beta / x).
Definition sichi_dens (nu s x : R) : R := / Rpower x (1 + nu / 2) * exp (- (nu * s) / (2 * x)).
(** what the comment at random.cpp L175-178 says *)
Definition sichi_comment (nu s x : R) : R := / Rpower x (1 + nu / 2) * exp (- (nu * s) / (nu * x)).

(** ** x -> c / x *)
Lemma pos_cont (f : R -> R) x : ex_derive f x -> continuous f x.
Proof. intros H. apply (ex_derive_continuous (V := R_NormedModule)). exact H. Qed.
Lemma quot_between c a b x : 0 < c -> 0 < a -> 0 < b -> 0 < x -> (a <= c / x <= b <-> c / b <= x <= c / a).
Proof.
  intros Hc Ha Hb Hx.
  assert (forall u v, 0 < u -> 0 < v -> (u <= c / v <-> u * v <= c)) as K.
  { intros u v Hu Hv. split; intros H.
    - apply (Rmult_le_compat_r v) in H; [|lra]. replace (c / v * v) with c in H by (field; lra). exact H.
    - apply (Rmult_le_reg_r v); [exact Hv|]. replace (c / v * v) with c by (field; lra). exact H. }
  assert (forall u v, 0 < u -> 0 < v -> (c / v <= u <-> c <= u * v)) as L.
  { intros u v Hu Hv. split; intros H.
    - apply (Rmult_le_compat_r v) in H; [|lra]. replace (c / v * v) with c in H by (field; lra). exact H.
    - apply (Rmult_le_reg_r v); [exact Hv|]. replace (c / v * v) with c by (field; lra). exact H. }
  rewrite K, L, L, K by assumption. rewrite (Rmult_comm a x), (Rmult_comm b x). tauto.
Qed.
Lemma carries_quot c (p q : R -> R) k : 0 < c -> 0 < k -> (forall x, 0 < x -> continuous p x) ->
  (forall y, 0 < y -> q y = k * (c / (y * y) * p (c / y))) -> carries_density positive p (fun x => c / x) positive q.
Proof.
  intros Hc Hk Hp Hq. exists k. split; [exact Hk|]. intros a b Ha Hb Hab. unfold positive in *.
  assert (0 < c / b) by (apply Rdiv_lt_0_compat; lra). assert (0 < c / a) by (apply Rdiv_lt_0_compat; lra).
  exists (c / b), (c / a), (RInt p (c / b) (c / a)).
  assert (c / b < c / a) as Hlt by (apply Rmult_lt_compat_l; [lra|]; apply Rinv_lt_contravar; [nra|lra]).
  assert (ex_RInt p (c / b) (c / a)) as Hex.
  { apply (ex_RInt_continuous (V := R_CompleteNormedModule)). intros z. rewrite Rmin_left, Rmax_right by lra. intros Hz. apply Hp. lra. }
  repeat split; try assumption; try (apply quot_between; assumption || lra).
  - apply (proj1 (quot_between Hc Ha Hb H1)). exact H2.
  - apply (proj1 (quot_between Hc Ha Hb H1)). exact H2.
  - apply (proj2 (quot_between Hc Ha Hb H1)). exact H2.
  - apply (proj2 (quot_between Hc Ha Hb H1)). exact H2.
  - apply (RInt_correct (V := R_CompleteNormedModule)). exact Hex.
  - pose proof (is_RInt_comp (V := R_CompleteNormedModule) p (fun y => c / y) (fun y => - (c / (y * y))) a b) as HC.
    assert (is_RInt (fun y => scal (- (c / (y * y))) (p (c / y))) a b (RInt p (c / a) (c / b))) as H1.
    { apply HC; intros x; rewrite Rmin_left, Rmax_right by lra; intros Hx.
      - apply Hp. apply Rdiv_lt_0_compat; lra.
      - split; [auto_derive; [lra|field; lra]|]. apply pos_cont. auto_derive. nra. }
    apply (is_RInt_scal (V := R_CompleteNormedModule) _ _ _ (- k)) in H1.
    rewrite <- (opp_RInt_swap (V := R_CompleteNormedModule)) in H1 by exact Hex.
    replace (k * RInt p (c / b) (c / a)) with (scal (- k) (opp (RInt p (c / b) (c / a)))) by (unfold scal, opp; cbn; unfold mult; cbn; ring).
    apply (is_RInt_ext (V := R_CompleteNormedModule)) with (2 := H1). intros y. rewrite Rmin_left, Rmax_right by lra. intros Hy. rewrite Hq by lra.
    unfold scal; cbn; unfold mult; cbn. ring.
Qed.

Lemma gamma_cont al th x : 0 < x -> 0 < th -> continuous (gamma_dens al th) x.
Proof. intros Hx Ht. apply pos_cont. unfold gamma_dens, Rpower. auto_derive. exact Hx. Qed.
Lemma chisqr_cont nu x : 0 < x -> continuous (chisqr_dens nu) x.
Proof. intros Hx. apply pos_cont. unfold chisqr_dens, Rpower. auto_derive. exact Hx. Qed.
Lemma Rpower_quot c y s : 0 < c -> 0 < y -> Rpower (c / y) s = Rpower c s * Rpower y (- s).
Proof. intros Hc Hy. unfold Rpower. rewrite ln_div by assumption. rewrite <- exp_plus. f_equal. ring. Qed.
Lemma Rpower_sq y : 0 < y -> / (y * y) = Rpower y (-2).
Proof. intros Hy. unfold Rpower. replace (-2 * ln y) with (- (ln y + ln y)) by ring. rewrite exp_Ropp, exp_plus, exp_ln by exact Hy. reflexivity. Qed.

(** *** invgamma *)
Lemma invgamma_density alpha beta : 0 < beta -> carries_density positive (gamma_dens alpha (1 / beta)) (fun x => 1 / x) positive (invgamma_dens alpha beta).
Proof.
  intros Hb. apply (@carries_quot 1 _ _ 1); [lra|lra| |].
  - intros x Hx. apply gamma_cont; [exact Hx|]. apply Rdiv_lt_0_compat; lra.
  - intros y Hy. unfold invgamma_dens, gamma_dens. rewrite Rmult_1_l. rewrite Rpower_quot by lra. replace (1 / (y * y)) with (Rpower y (-2)) by (rewrite <- Rpower_sq by exact Hy; field; lra).
    assert (Rpower 1 (alpha - 1) = 1) as -> by (unfold Rpower; rewrite ln_1, Rmult_0_r; apply exp_0). rewrite Rmult_1_l, <- Rmult_assoc, <- Rpower_plus. f_equal; [f_equal; ring|]. f_equal. field. lra.
Qed.
(** *** scaled_inverse_chisqr *)
Lemma sichi_density nu s : 0 < nu -> 0 < s -> carries_density positive (chisqr_dens nu) (fun x => s / x * nu) positive (sichi_dens nu s).
Proof.
  intros Hn Hs. assert (0 < nu * s) as Hns by nra.
  pose proof (@carries_quot (nu * s) (chisqr_dens nu) (sichi_dens nu s) (Rpower (nu * s) (- (nu / 2)))) as H.
  destruct H as (k & Hk & H).
  - exact Hns.
  - apply exp_pos.
  - intros x Hx. apply chisqr_cont, Hx.
  - intros y Hy. unfold sichi_dens, chisqr_dens. rewrite Rpower_quot by assumption.
    replace (nu * s / (y * y)) with (nu * s * Rpower y (-2)) by (rewrite <- (Rpower_sq Hy); reflexivity). rewrite <- Rpower_Ropp.
    assert (nu * s = Rpower (nu * s) 1) as E1 by (symmetry; apply Rpower_1, Hns).
    transitivity (Rpower (nu * s) (- (nu / 2)) * Rpower (nu * s) 1 * Rpower (nu * s) (nu / 2 - 1) * (Rpower y (-2) * Rpower y (- (nu / 2 - 1))) * exp (- (nu * s / y) / 2)).
    + rewrite <- !Rpower_plus. replace (- (nu / 2) + 1 + (nu / 2 - 1)) with 0 by field. rewrite Rpower_O by exact Hns. rewrite Rmult_1_l. f_equal; [f_equal; field|f_equal; field; lra].
    + rewrite <- E1. ring.
  - exists k. split; [exact Hk|]. intros a b Ha Hb Hab. destruct (H a b Ha Hb Hab) as (c & d & v & Hc & Hd & Hcd & HH & H1 & H2).
    exists c, d, v. repeat split; try assumption.
    + apply (proj1 (HH x H0)). replace (nu * s / x) with (s / x * nu) by (unfold Rdiv; ring). exact H3.
    + apply (proj1 (HH x H0)). replace (nu * s / x) with (s / x * nu) by (unfold Rdiv; ring). exact H3.
    + replace (s / x * nu) with (nu * s / x) by (unfold Rdiv; ring). apply (proj2 (HH x H0)). exact H3.
    + replace (s / x * nu) with (nu * s / x) by (unfold Rdiv; ring). apply (proj2 (HH x H0)). exact H3.
Qed.
(** the comment at random.cpp L175-178 is wrong unless dof = 2 *)
Lemma Rinv_pow_cont nu c x : 0 < x -> continuous (fun x => / Rpower x (1 + nu / 2) * exp (c / x)) x.
Proof. intros Hx. apply pos_cont. unfold Rpower. auto_derive. repeat split; try lra. apply Rgt_not_eq, exp_pos. Qed.
Lemma sichi_comment_wrong : ~ carries_density positive (chisqr_dens 4) (fun x => 1 / x * 4) positive (sichi_comment 4 1).
Proof.
  intros (k & Hk & H). destruct (@sichi_density 4 1 ltac:(lra) ltac:(lra)) as (k' & Hk' & H').
  set (q := fun x => / Rpower x (1 + 4 / 2) * exp ((-2) / x)). set (q' := fun x => / Rpower x (1 + 4 / 2) * exp ((-1) / x)).
  assert (forall a b v, 0 < a -> a < b -> is_RInt (sichi_dens 4 1) a b v -> RInt q a b = v) as Eq.
  { intros a b v Ha Hab HH. apply is_RInt_unique. apply (is_RInt_ext (V := R_CompleteNormedModule)) with (2 := HH). intros x. rewrite Rmin_left, Rmax_right by lra. intros Hx.
    unfold q, sichi_dens. do 2 f_equal. field. lra. }
  assert (forall a b v, 0 < a -> a < b -> is_RInt (sichi_comment 4 1) a b v -> RInt q' a b = v) as Eq'.
  { intros a b v Ha Hab HH. apply is_RInt_unique. apply (is_RInt_ext (V := R_CompleteNormedModule)) with (2 := HH). intros x. rewrite Rmin_left, Rmax_right by lra. intros Hx.
    unfold q', sichi_comment. do 2 f_equal. field. lra. }
  assert (forall x, 0 < x -> continuous q x) as Cq by (intros; apply Rinv_pow_cont; assumption).
  assert (forall x, 0 < x -> continuous q' x) as Cq' by (intros; apply Rinv_pow_cont; assumption).
  assert (forall a b, 0 < a -> a < b -> ex_RInt q a b) as Xq.
  { intros a b Ha Hab. apply (ex_RInt_continuous (V := R_CompleteNormedModule)). intros z. rewrite Rmin_left by lra. intros Hz. apply Cq. lra. }
  assert (forall a b, 0 < a -> a < b -> ex_RInt q' a b) as Xq'.
  { intros a b Ha Hab. apply (ex_RInt_continuous (V := R_CompleteNormedModule)). intros z. rewrite Rmin_left by lra. intros Hz. apply Cq'. lra. }
  assert (forall a b, 0 < a -> a < b -> 0 < RInt q' a b) as Pq'.
  { intros a b Ha Hab. apply RInt_gt_0; [exact Hab| |].
    - intros x Hx. apply Rmult_lt_0_compat; [apply Rinv_0_lt_compat, exp_pos|apply exp_pos].
    - intros x Hx. apply Cq'. lra. }
  (* the ratio of the two integrals is the same for every interval *)
  assert (forall a b, 0 < a -> a < b -> k * RInt q a b = k' * RInt q' a b) as E.
  { intros a b Ha Hab. destruct (H a b Ha ltac:(unfold positive; lra) Hab) as (c & d & v & Dc & Dd & Hcd & HE & I1 & I2).
    destruct (H' a b Ha ltac:(unfold positive; lra) Hab) as (c' & d' & v' & Dc' & Dd' & Hcd' & HE' & I1' & I2').
    assert (c = c') as <-.
    { apply Rle_antisym; [apply (HE c' Dc'), (HE' c' Dc'); lra|apply (HE' c Dc), (HE c Dc); lra]. }
    assert (d = d') as <-.
    { apply Rle_antisym; [apply (HE' d Dd), (HE d Dd); lra|apply (HE d' Dd'), (HE' d' Dd'); lra]. }
    assert (v = v') as <- by (rewrite <- (is_RInt_unique _ _ _ _ I1); symmetry; rewrite <- (is_RInt_unique _ _ _ _ I1'); reflexivity).
    rewrite (Eq a b _ Ha Hab I2'), (Eq' a b _ Ha Hab I2). ring. }
  assert (forall x, 0 < x -> q x = exp (-1 / x) * q' x) as Er.
  { intros x Hx. unfold q, q'. replace (exp (-2 / x)) with (exp (-1 / x) * exp (-1 / x)) by (rewrite <- exp_plus; f_equal; field; lra). ring. }
  assert (forall x, 0 < x -> 0 < q' x) as Qp by (intros; apply Rmult_lt_0_compat; [apply Rinv_0_lt_compat, exp_pos|apply exp_pos]).
  assert (RInt q 1 2 <= exp (-1 / 2) * RInt q' 1 2) as L1.
  { rewrite <- (RInt_scal (V := R_CompleteNormedModule)) by (apply Xq'; lra). apply RInt_le; [lra|apply Xq; lra|apply (ex_RInt_scal (V := R_CompleteNormedModule)), Xq'; lra|].
    intros x Hx. rewrite Er by lra. apply Rmult_le_compat_r; [left; apply Qp; lra|]. destruct (Req_dec x 2) as [->|]; [lra|]. left. apply exp_increasing.
    apply Ropp_lt_cancel. replace (- (-1 / 2)) with (/ 2) by field. replace (- (-1 / x)) with (/ x) by (field; lra). apply Rinv_lt_contravar; lra. }
  assert (exp (-1 / 3) * RInt q' 3 4 <= RInt q 3 4) as L2.
  { rewrite <- (RInt_scal (V := R_CompleteNormedModule)) by (apply Xq'; lra). apply RInt_le; [lra|apply (ex_RInt_scal (V := R_CompleteNormedModule)), Xq'; lra|apply Xq; lra|].
    intros x Hx. rewrite Er by lra. apply Rmult_le_compat_r; [left; apply Qp; lra|]. left. apply exp_increasing.
    apply Ropp_lt_cancel. replace (- (-1 / 3)) with (/ 3) by field. replace (- (-1 / x)) with (/ x) by (field; lra). apply Rinv_lt_contravar; lra. }
  assert (exp (-1 / 2) < exp (-1 / 3)) as L3 by (apply exp_increasing; lra).
  pose proof (E 1 2 ltac:(lra) ltac:(lra)) as E1. pose proof (E 3 4 ltac:(lra) ltac:(lra)) as E2.
  pose proof (Pq' 1 2 ltac:(lra) ltac:(lra)) as P1. pose proof (Pq' 3 4 ltac:(lra) ltac:(lra)) as P2.
  assert (k' <= k * exp (-1 / 2)) as B1. { apply (Rmult_le_reg_r (RInt q' 1 2)); [exact P1|]. rewrite <- E1, Rmult_assoc. apply Rmult_le_compat_l; lra. }
  assert (k * exp (-1 / 3) <= k') as B2. { apply (Rmult_le_reg_r (RInt q' 3 4)); [exact P2|]. rewrite <- E2, Rmult_assoc. apply Rmult_le_compat_l; lra. }
  nra.
Qed.

(** *** tdist *)
Lemma tdist_density nu m s : 0 < nu -> 0 < s -> carries_density anywhere (student_dens nu) (fun z => m + s * z) anywhere (tdist_dens nu m s).
Proof.
  intros Hn Hs. exists s. split; [exact Hs|]. intros a b _ _ Hab.
  assert (forall x, continuous (student_dens nu) x) as Hc.
  { intros x. apply pos_cont. unfold student_dens, Rpower. auto_derive. assert (0 <= x * x / nu) by (apply Rdiv_le_0_compat; nra). lra. }
  assert (forall x, (a - m) / s <= x <-> a <= m + s * x) as K1.
  { intros x. split; intros H.
    - apply (Rmult_le_compat_l s) in H; [|lra]. replace (s * ((a - m) / s)) with (a - m) in H by (field; lra). lra.
    - apply (Rmult_le_reg_l s); [exact Hs|]. replace (s * ((a - m) / s)) with (a - m) by (field; lra). lra. }
  assert (forall x, x <= (b - m) / s <-> m + s * x <= b) as K2.
  { intros x. split; intros H.
    - apply (Rmult_le_compat_l s) in H; [|lra]. replace (s * ((b - m) / s)) with (b - m) in H by (field; lra). lra.
    - apply (Rmult_le_reg_l s); [exact Hs|]. replace (s * ((b - m) / s)) with (b - m) by (field; lra). lra. }
  assert (ex_RInt (student_dens nu) ((a - m) / s) ((b - m) / s)) as Hex.
  { apply (ex_RInt_continuous (V := R_CompleteNormedModule)). intros; apply Hc. }
  pose proof (RInt_correct (V := R_CompleteNormedModule) _ _ _ Hex) as HI.
  exists ((a - m) / s), ((b - m) / s), (RInt (student_dens nu) ((a - m) / s) ((b - m) / s)). unfold anywhere.
  repeat split.
  - apply Rmult_lt_compat_r; [apply Rinv_0_lt_compat, Hs|lra].
  - apply K1. apply H0. - apply K2. apply H0. - apply K1. apply H0. - apply K2. apply H0.
  - exact HI.
  - replace ((a - m) / s) with (/ s * a + - (m / s)) in HI by (field; lra). replace ((b - m) / s) with (/ s * b + - (m / s)) in HI by (field; lra).
    apply (is_RInt_comp_lin (V := R_CompleteNormedModule)) in HI. apply (is_RInt_scal (V := R_CompleteNormedModule) _ _ _ s) in HI.
    replace (/ s * a + - (m / s)) with ((a - m) / s) in HI by (field; lra). replace (/ s * b + - (m / s)) with ((b - m) / s) in HI by (field; lra).
    apply (is_RInt_ext (V := R_CompleteNormedModule)) with (2 := HI). intros y _. unfold scal; cbn; unfold mult; cbn. unfold student_dens, tdist_dens.
    rewrite <- Rmult_assoc, Rinv_r, Rmult_1_l by lra. f_equal. field. lra.
Qed.

(** *** powerlaw *)
Definition powerlaw_of (lo hi s u : R) : R := Rpower ((Rpower hi (s + 1) - Rpower lo (s + 1)) * u + Rpower lo (s + 1)) (1 / (s + 1)).
Lemma cdf_increasing lo hi s x y : 0 < lo < hi -> s <> -1 -> 0 < x < y -> powerlaw_cdf lo hi s x < powerlaw_cdf lo hi s y.
Proof.
  intros Hl Hs Hx. unfold powerlaw_cdf. set (p := s + 1). assert (p <> 0) by (unfold p; lra).
  destruct (Rtotal_order p 0) as [Hn|[Hz|Hpos]]; [|lra|].
  - pose proof (@Rpower_lt_base_neg lo hi p Hl Hn). pose proof (@Rpower_lt_base_neg x y p Hx Hn).
    replace ((Rpower x p - Rpower lo p) / (Rpower hi p - Rpower lo p)) with ((Rpower lo p - Rpower x p) / (Rpower lo p - Rpower hi p)) by (field; lra).
    replace ((Rpower y p - Rpower lo p) / (Rpower hi p - Rpower lo p)) with ((Rpower lo p - Rpower y p) / (Rpower lo p - Rpower hi p)) by (field; lra).
    apply Rmult_lt_compat_r; [apply Rinv_0_lt_compat; lra|lra].
  - pose proof (@Rpower_lt_base lo hi p Hl Hpos). pose proof (@Rpower_lt_base x y p Hx Hpos). apply Rmult_lt_compat_r; [apply Rinv_0_lt_compat; lra|lra].
Qed.
Lemma powerlaw_of_spec lo hi s u : 0 < lo < hi -> s <> -1 -> 0 <= u <= 1 -> lo <= powerlaw_of lo hi s u <= hi /\ powerlaw_cdf lo hi s (powerlaw_of lo hi s u) = u.
Proof.
  intros Hl Hs Hu.
  set (R1 := @mkRng AX unit unit (fun _ : Z => tt) (fun lo hi g => (Fin u, g)) (fun lo hi g => (lo, g)) (fun m s g => (m, g)) (fun d g => (Fin 1, g))
    (fun d g => (Fin 1, g)) (fun m s g => (m, g)) (fun g => (Fin u, g)) (fun g => (Fin 0, g))).
  destruct (@powerlaw_exact R1 lo hi s u (tt, tt) (tt, tt) Hl Hs Hu eq_refl) as (x & E & H1 & H2).
  assert (x = powerlaw_of lo hi s u) as <-; [|split; assumption].
  unfold powerlaw in E. cbn [runiform on_b b_uniform R1 fst snd] in E. change (fofZ AX 1) with (Fin 1) in E.
  cbn [fadd fsub fmul fdiv fpow AX xadd] in E. rewrite fin_div in E by lra. rewrite !xpow_pos in E by lra. cbn [xsub xmul xadd] in E.
  pose proof (Rpower_pos lo (s + 1)) as Plo. pose proof (Rpower_pos hi (s + 1)) as Phi.
  rewrite xpow_pos in E.
  - injection E as <-. reflexivity.
  - replace ((Rpower hi (s + 1) - Rpower lo (s + 1)) * u + Rpower lo (s + 1)) with (Rpower hi (s + 1) * u + Rpower lo (s + 1) * (1 - u)) by ring.
    destruct (Rle_dec u (1/2)); nra.
Qed.
Lemma powerlaw_code (R0 : rng AX) lo hi s (g g1 : gen R0) u : 0 < lo < hi -> s <> -1 -> 0 <= u <= 1 ->
  @runiform AX R0 (Fin 0) (Fin 1) g = (Fin u, g1) -> @powerlaw AX R0 (Fin lo) (Fin hi) (Fin s) g = (Fin (powerlaw_of lo hi s u), g1).
Proof.
  intros Hl Hs Hu E. unfold powerlaw. change (fofZ AX 0) with (Fin 0). change (fofZ AX 1) with (Fin 1). rewrite E.
  cbn [fadd fsub fmul fdiv fpow AX xadd]. rewrite fin_div by lra. rewrite !xpow_pos by lra. cbn [xsub xmul xadd].
  pose proof (Rpower_pos lo (s + 1)) as Plo. pose proof (Rpower_pos hi (s + 1)) as Phi.
  rewrite xpow_pos; [reflexivity|].
  replace ((Rpower hi (s + 1) - Rpower lo (s + 1)) * u + Rpower lo (s + 1)) with (Rpower hi (s + 1) * u + Rpower lo (s + 1) * (1 - u)) by ring.
  destruct (Rle_dec u (1/2)); nra.
Qed.
Lemma cdf_le lo hi s x y : 0 < lo < hi -> s <> -1 -> 0 < x -> 0 < y -> (powerlaw_cdf lo hi s x <= powerlaw_cdf lo hi s y <-> x <= y).
Proof.
  intros Hl Hs Hx Hy. split; intros H.
  - apply Rnot_lt_le. intros Hc. pose proof (@cdf_increasing lo hi s y x Hl Hs ltac:(lra)). lra.
  - destruct H as [H| ->]; [|lra]. left. apply cdf_increasing; [exact Hl|exact Hs|lra].
Qed.
Lemma cdf_ends lo hi s : 0 < lo < hi -> s <> -1 -> powerlaw_cdf lo hi s lo = 0 /\ powerlaw_cdf lo hi s hi = 1.
Proof.
  intros Hl Hs. unfold powerlaw_cdf. pose proof (@cdf_increasing lo hi s lo hi Hl Hs ltac:(lra)) as H.
  assert (Rpower hi (s + 1) - Rpower lo (s + 1) <> 0) as Hne. { intros E. unfold powerlaw_cdf in H. rewrite E in H. unfold Rdiv in H. lra. }
  split; field; exact Hne.
Qed.
Lemma powerlaw_density lo hi s : 0 < lo < hi -> s <> -1 ->
  carries_density (within 0 1) flat_dens (powerlaw_of lo hi s) (within lo hi) (powerlaw_dens s).
Proof.
  intros Hl Hs. set (D := Rpower hi (s + 1) - Rpower lo (s + 1)). set (p := s + 1). assert (p <> 0) as Hp by (unfold p; lra).
  assert (0 < D / p) as HD.
  { destruct (Rtotal_order p 0) as [Hn|[Hz|Hpos]]; [|lra|].
    - pose proof (@Rpower_lt_base_neg lo hi p Hl Hn) as H. replace (D / p) with ((- D) / (- p)) by (field; exact Hp). apply Rdiv_lt_0_compat; [|lra]. unfold D. fold p. lra.
    - pose proof (@Rpower_lt_base lo hi p Hl Hpos) as H. apply Rdiv_lt_0_compat; [|lra]. unfold D. fold p. lra. }
  assert (D <> 0) as HD0 by (intros E; rewrite E in HD; unfold Rdiv in HD; lra).
  exists (D / p). split; [exact HD|]. intros a b Ha Hb Hab. unfold within in *. destruct (cdf_ends Hl Hs) as [C0 C1].
  assert (forall x, lo <= x <= hi -> 0 <= powerlaw_cdf lo hi s x <= 1) as Hr.
  { intros x Hx. rewrite <- C0, <- C1. split; apply cdf_le; try assumption; lra. }
  exists (powerlaw_cdf lo hi s a), (powerlaw_cdf lo hi s b), (powerlaw_cdf lo hi s b - powerlaw_cdf lo hi s a).
  split; [apply Hr; lra|]. split; [apply Hr; lra|]. split; [apply cdf_increasing; [exact Hl|exact Hs|lra]|]. split; [|split].
  - intros u Hu. destruct (powerlaw_of_spec Hl Hs Hu) as (H1 & H2).
    rewrite <- (cdf_le Hl Hs (x := a)), <- (cdf_le Hl Hs (y := b)), !H2 by lra. reflexivity.
  - pose proof (is_RInt_const (V := R_NormedModule) (powerlaw_cdf lo hi s a) (powerlaw_cdf lo hi s b) 1) as HI.
    replace (powerlaw_cdf lo hi s b - powerlaw_cdf lo hi s a) with (scal (powerlaw_cdf lo hi s b - powerlaw_cdf lo hi s a) 1) by (unfold scal; cbn; unfold mult; cbn; ring).
    exact HI.
  - pose proof (is_RInt_derive (V := R_CompleteNormedModule) (fun x => Rpower x p / p) (powerlaw_dens s) a b) as HI.
    replace (D / p * (powerlaw_cdf lo hi s b - powerlaw_cdf lo hi s a)) with (minus (Rpower b p / p) (Rpower a p / p)).
    2:{ unfold minus, plus, opp; cbn. unfold powerlaw_cdf. fold p. fold D in HD0 |- *. unfold D. fold p. field. split; [exact HD0|exact Hp]. }
    apply HI; intros x; rewrite Rmin_left, Rmax_right by lra; intros Hx.
    + unfold powerlaw_dens, Rpower, p. auto_derive; [lra|].
      replace (exp ((s + 1) * ln x)) with (exp (s * ln x) * x) by (rewrite Rmult_plus_distr_r, Rmult_1_l, exp_plus, exp_ln by lra; reflexivity). field. unfold p in Hp. lra.
    + apply pos_cont. unfold powerlaw_dens, Rpower. auto_derive. lra.
Qed.
Lemma powerlaw_minus_one (R0 : rng AX) lo hi (g g1 : gen R0) u : 0 < lo < hi -> @runiform AX R0 (Fin 0) (Fin 1) g = (Fin u, g1) ->
  @powerlaw AX R0 (Fin lo) (Fin hi) (Fin (-1)) g = (Fin 1, g1).
Proof.
  intros Hl E. unfold powerlaw. change (fofZ AX 0) with (Fin 0). change (fofZ AX 1) with (Fin 1). rewrite E.
  cbn [fadd fsub fmul fdiv fpow AX xadd]. replace (-1 + 1) with 0 by ring. rewrite !xpow_pos by lra. rewrite !Rpower_O by lra. cbn [xsub xmul xadd].
  assert (xdiv (Fin 1) (Fin 0) = PInf) as ->.
  { unfold xdiv, rsgn. destruct (Req_EM_T 0 0); [|lra]. destruct (Rlt_dec 1 0); [lra|]. destruct (Rlt_dec 0 1); [reflexivity|lra]. }
  replace ((1 - 1) * u + 1) with 1 by ring. cbn [xpow]. rewrite Rabs_R1. destruct (Rlt_dec 1 1); [lra|]. reflexivity.
Qed.

(** ** The code *)
Section Code.
Variable R0 : rng AX.
Variable bg : F AX -> F AX -> Gb R0 -> F AX * Gb R0.

Lemma invgamma_code alpha beta (g : gen R0) x b : 0 < beta -> 0 < x -> bg (Fin alpha) (Fin (1 / beta)) (fst g) = (Fin x, b) ->
  invgamma bg (Fin alpha) (Fin beta) g = (Fin (1 / x), (b, snd g)).
Proof.
  intros Hb Hx E. unfold invgamma. change (fofZ AX 1) with (Fin 1). cbn [fdiv AX]. rewrite fin_div by lra. unfold on_b. change (F AX) with xr in *. rewrite E.
  rewrite fin_div by lra. reflexivity.
Qed.
Lemma sichi_code (dof : Z) s (g : gen R0) x b : 0 < x -> b_chisqr R0 dof (fst g) = (Fin x, b) ->
  scaled_inverse_chisqr (R := R0) dof (Fin s) g = (Fin (s / x * IZR dof), (b, snd g)).
Proof.
  intros Hx E. unfold scaled_inverse_chisqr, on_b. change (F AX) with xr in *. rewrite E. cbn [fdiv fmul fofZ AX]. rewrite fin_div by lra. reflexivity.
Qed.
Lemma tdist_code nu m s (g : gen R0) x b : b_student R0 (Fin nu) (fst g) = (Fin x, b) ->
  tdist (R := R0) (Fin nu) (Fin m) (Fin s) g = (Fin (m + s * x), (b, snd g)).
Proof. intros E. unfold tdist, on_b. change (F AX) with xr in *. rewrite E. reflexivity. Qed.

(** *** The multivariate normal variate *)
Lemma mvnormal_code chol n (K : nat -> nat -> R) : valid_chol chol -> msym n K -> pd n K ->
  exists (M : nat -> nat -> R) (c : R),
    (forall i k, (i < n)%nat -> (k < n)%nat -> Rsum (fun j => M i j * M k j) n = K i k) /\
    (forall i j, (i < n)%nat -> (i < j)%nat -> M i j = 0) /\
    forall (g g1 : gen R0) z, length z = n -> draws n (rnorm (R := R0) (Fin 0) (Fin 1)) g = (map Fin z, g1) ->
      exists x, mvnormal (R := R0) chol (FinM (mbuild n n K)) g = Ok (map Fin x, g1) /\ length x = n /\
        (forall i, (i < n)%nat -> nth i x 0 = Rsum (fun j => M i j * nth j z 0) n) /\
        is_normal_ll n K (fun i => nth i x 0) (c - 1 / 2 * Rsum (fun j => nth j z 0 * nth j z 0) n).
Proof.
  intros Hch Hs Hp. destruct (Hch n K Hs Hp) as (L & EL & Hsq & Hu & Hd & Hg).
  exists (fun i j => rent L j i), (Rsum (fun i => - (1 / 2) * ln (rent L i i * rent L i i)) n).
  split; [|split].
  - intros i k Hi Hk. rewrite <- (Hg i k Hi Hk). reflexivity.
  - intros i j Hi Hj. destruct (Nat.lt_ge_cases j n) as [Hjn|Hjn]; [apply Hu; lia|].
    unfold rent. rewrite (nth_overflow L) by (rewrite (proj1 Hsq); exact Hjn). destruct i; reflexivity.
  - intros g g1 z Hz E. exists (vbuild n (tmul n (rent L) (rv z))).
    assert (length (FinM (mbuild n n K)) = n) as Hl by (unfold FinM, mbuild, vbuild; rewrite !map_length, seq_length; reflexivity).
    split; [|split; [|split]].
    + unfold mvnormal. change (F AX) with xr in *. rewrite EL, Hl. change (fofZ AX 0) with (Fin 0). change (fofZ AX 1) with (Fin 1). rewrite E.
      pose proof (mtmul_Fin _ _ _ Hsq Hz) as Q. change (F AX) with xr in Q. rewrite Q. reflexivity.
    + unfold vbuild. rewrite map_length, seq_length. reflexivity.
    + intros i Hi. unfold vbuild. rewrite nth_map_seq by exact Hi. reflexivity.
    + assert (c_eq : Rsum (fun i => - (1 / 2) * ln (rent L i i * rent L i i)) n - 1 / 2 * Rsum (fun j => nth j z 0 * nth j z 0) n =
        Rsum (fun i => - (1 / 2) * ln (rent L i i * rent L i i) - 1 / 2 * (nth i z 0 * nth i z 0)) n).
      { rewrite Rsum_minus, !Rsum_scal. reflexivity. }
      rewrite c_eq. apply (@normal_factor n K (fun i j => rent L j i)).
      * intros i k Hi Hk. destruct (Nat.lt_ge_cases k n) as [Hkn|Hkn]; [apply Hu; lia|].
        unfold rent. rewrite (nth_overflow L) by (rewrite (proj1 Hsq); exact Hkn). destruct i; reflexivity.
      * intros i Hi. rewrite sqrt_square; [reflexivity|left; apply Hd, Hi].
      * intros i Hi. pose proof (Hd i Hi). nra.
      * intros i j Hi Hj. rewrite <- (Hg i j Hi Hj). reflexivity.
      * intros i Hi. unfold vbuild. rewrite nth_map_seq by exact Hi. reflexivity.
Qed.
Lemma radd_nth (x y : list R) i : length x = length y -> (i < length x)%nat -> nth i (radd x y) 0 = nth i x 0 + nth i y 0.
Proof.
  revert y i. induction x as [|a x IH]; intros [|b y] i Hl Hi; cbn in Hl, Hi; try lia. destruct i as [|i]; [reflexivity|]. cbn. apply IH; lia.
Qed.
Lemma mvnormal_draw_code chol n (K : nat -> nat -> R) (g g1 : gen R0) x st : mvnormal (R := R0) chol (FinM (mbuild n n K)) g = Ok (map Fin x, g1) ->
  length st = length x -> mvnormal_draw (R := R0) chol (FinM (mbuild n n K)) (map Fin st) g = Ok (map Fin (radd st x), g1).
Proof. intros E Hl. unfold mvnormal_draw. rewrite E. cbn [bind]. rewrite (@vadd_Fin st x Hl). reflexivity. Qed.
End Code.

(** ** The saved state *)
Section Seed.
Variable A : Arith.
Variable R0 : rng A.
Variable text : Type.
Variable show : Gb R0 -> text.
Variable read : text -> Gb R0 -> Gb R0.
(** reading what was written restores the state, whatever the state was *)
Definition round_trip : Prop := forall b b', read (show b) b' = b.
Lemma recovered can name fs (g g' : gen R0) fs' : round_trip -> can name = true -> fs' name = SaveSeed show can name fs g name ->
  fst (RecoverSeed read name fs' g') = fst g /\ snd (RecoverSeed read name fs' g') = snd g'.
Proof.
  intros Hr Hc E. unfold RecoverSeed. rewrite E. unfold SaveSeed. rewrite Hc, String.eqb_refl. cbn. split; [apply Hr|reflexivity].
Qed.
End Seed.
