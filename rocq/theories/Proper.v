(** The posterior along each parameter: bounds on the log-density (C122). *)
From Coq Require Import Reals List Arith ZArith Bool String Lra Lia Permutation.
From Coquelicot Require Import Complex.
From Verif Require Import Arith Res ListLemmas KFModel KF1Proof Spec SpecCarma Gauss Emb History InitProof OUpd SimProof KF1R KF1X KF1Main KF1More CLin.
From Verif Require Import Cx KFpModel KFpProof KFpX KFpMain KFpTop SpecModel CarpackModel RootsProof PriorProof LogLikProof LogLikMain CarpackTop CarpackRefute PredLaw LLBound.
Import ListNotations.
Local Open Scope R_scope.
Local Notation length := List.length.

(** the two bounds *)
Definition noise (e : list R) (scale : R) (i : nat) : R := scale * (nth i e 0 * nth i e 0).
Definition ld_low (t y e : list R) (sd scale mu : R) : R :=
  - (1 / 2) * Rsum (fun i => ln (sd * sd + noise e scale i)) (length t) - 1 / 2 * Rsum (fun i => (nth i y 0 - mu) ^ 2 / noise e scale i) (length t).
Definition ld_high (t y e : list R) (sd scale mu : R) (k : nat) : R :=
  - (1 / 2) * Rsum (fun i => ln (noise e scale i)) (length t) - 1 / 2 * ((nth k y 0 - mu) ^ 2 / (sd * sd + noise e scale k)).

Lemma zero_obs (K : R -> R -> R) (t : list R) : pd (length t) (obs_cov K (fun i => nth i t 0) (fun i => nth i (repeat 0 (length t)) 0)) ->
  psd (length t) (fun i j => K (nth i t 0) (nth j t 0)).
Proof.
  intros H. apply (psd_ext _ (obs_cov K (fun i => nth i t 0) (fun i => nth i (repeat 0 (length t)) 0))); [|apply pd_psd, H].
  intros i j Hi Hj. unfold obs_cov. rewrite nth_repeat. destruct (Nat.eqb i j); ring.
Qed.
Lemma bounds_carma t y e sd scale mu om ma x : strictly_increasing t -> length y = length t -> length e = length t -> 0 < scale -> sd <> 0 ->
  (forall i, (i < length t)%nat -> nth i e 0 <> 0) -> stable_roots om -> (2 <= length om)%nat -> length ma = length om -> (exists l, nth l ma 0 <> 0) ->
  is_loglik (carma_cov (sd * sd / carma_acv 1 ma om 0) ma om) t y e scale mu x ->
  ld_low t y e sd scale mu <= x /\ forall k, (k < length t)%nat -> x <= ld_high t y e sd scale mu k.
Proof.
  intros Ht Hy He Hs Hz Hn H1 H2 H3 H4 Hx. pose proof (carma_acv_pos om ma H1 H2 H3 H4) as Hp. assert (0 < sd * sd) by (apply Rsqr_pos_lt; exact Hz).
  assert (0 < sd * sd / carma_acv 1 ma om 0) as Hsig by (apply Rdiv_lt_0_compat; assumption).
  destruct valid_solve_exists as [sv Hsv].
  refine (loglik_bounds _ t y e scale mu x (sd * sd) (carma_sym _ ma om) Hs Hy He _ _ Hn Hx).
  - apply zero_obs. apply (carma_pd sv Hsv); [repeat split; try apply H1; assumption|apply strict_times_ok, Ht].
  - intros a. rewrite carma_cov_diag, carma_acv_scale. field. lra.
Qed.
Lemma bounds_car1 t y e sd scale mu w x : strictly_increasing t -> length y = length t -> length e = length t -> 0 < scale -> sd <> 0 -> 0 < w ->
  (forall i, (i < length t)%nat -> nth i e 0 <> 0) -> is_loglik (fun a c => sd * sd * exp (- (w * Rabs (a - c)))) t y e scale mu x ->
  ld_low t y e sd scale mu <= x /\ forall k, (k < length t)%nat -> x <= ld_high t y e sd scale mu k.
Proof.
  intros Ht Hy He Hs Hz Hw Hn Hx. assert (0 < sd * sd) by (apply Rsqr_pos_lt; exact Hz).
  refine (loglik_bounds _ t y e scale mu x (sd * sd) _ Hs Hy He _ _ Hn Hx).
  - intros a b. rewrite Rabs_minus_sym. reflexivity.
  - apply (psd_ext _ (fun i j => ou_cov (2 * w * (sd * sd)) w (nth i t 0) (nth j t 0))).
    + intros i j _ _. unfold ou_cov. field. lra.
    + apply zero_obs, ou_obs_pd; [nra|exact Hw|exact Ht].
  - intros a. rewrite Rminus_diag_eq, Rabs_R0, Rmult_0_r, Ropp_0, exp_0 by reflexivity. ring.
Qed.

(** the roots are those of the autoregressive coefficients alone *)
Lemma qloop_ext th th' k : forall off, (forall i, (off <= i < off + 2 * k)%nat -> nth i th 0 = nth i th' 0) -> qloop th off k = qloop th' off k.
Proof.
  induction k as [|k IH]; intros off H; [reflexivity|]. cbn [qloop]. rewrite (H off), (H (off + 1)%nat), (IH (off + 2)%nat) by (try lia; intros; apply H; lia). reflexivity.
Qed.
Lemma qroots_ext th th' off n : (forall i, (off <= i < off + n)%nat -> nth i th 0 = nth i th' 0) -> qroots th off n = qroots th' off n.
Proof.
  intros H. pose proof (half2 n) as Hn. unfold qroots. rewrite (qloop_ext th th') by (intros i Hi; apply H; destruct (Nat.odd n); lia). f_equal.
  destruct (Nat.odd n); [|reflexivity]. rewrite H by lia. reflexivity.
Qed.
Lemma FinC_inj (l l' : list C) : map FinC l = map FinC l' -> l = l'.
Proof.
  revert l'. induction l as [|a l IH]; intros [|a' l'] E0; try discriminate; [reflexivity|].
  cbn [map] in E0. injection E0 as E1 E2 E3. f_equal; [|apply IH, E3]. apply C_eq; congruence.
Qed.
Lemma ARRoots_q p th om : (3 + p <= length th)%nat -> (ARRoots AX p (map Fin th) = Ok (map FinC om) <-> om = qroots th 3 p).
Proof.
  intros HL. unfold ARRoots. rewrite quad_roots_Fin by exact HL. split; [intros E; injection E as E; symmetry; apply FinC_inj, E|intros ->; reflexivity].
Qed.
Lemma qloop_in th k i : forall off, (i < k)%nat -> forall z, In z (rpair (nth (off + 2 * i) th 0) (nth (off + 2 * i + 1) th 0)) -> In z (qloop th off k).
Proof.
  revert i. induction k as [|k IH]; intros i off Hi z Hz; [lia|]. cbn [qloop]. apply in_or_app. destruct i as [|i].
  - left. replace (off + 2 * 0)%nat with off in Hz by lia. exact Hz.
  - right. apply (IH i); [lia|]. replace (off + 2 + 2 * i)%nat with (off + 2 * S i)%nat by lia. exact Hz.
Qed.

(** inside the prior region the autoregressive coefficients are bounded *)
Lemma ar_bounded smax fmin fmax th p : 0 <= fmin -> in_prior smax fmin fmax th (qroots th 3 p) ->
  (forall i, (2 * i + 1 < p)%nat -> (2 * PI * fmin) ^ 2 < exp (nth (3 + 2 * i) th 0) < 2 * (2 * PI * fmax) ^ 2 /\
    2 * (2 * PI * fmin) < exp (nth (3 + 2 * i + 1) th 0) < 2 * (2 * PI * fmax)) /\
  (Nat.odd p = true -> 2 * PI * fmin < exp (nth (3 + p - 1) th 0) < 2 * PI * fmax).
Proof.
  intros Hf Hin. pose proof PI_RGT_0 as Hpi.
  assert (forall a b, a / (2 * PI) < b -> a < 2 * PI * b) as D1.
  { intros a b H. apply (Rmult_lt_compat_l (2 * PI)) in H; [|lra]. replace (2 * PI * (a / (2 * PI))) with a in H by (field; lra). exact H. }
  assert (forall a b, b < a / (2 * PI) -> 2 * PI * b < a) as D2.
  { intros a b H. apply (Rmult_lt_compat_l (2 * PI)) in H; [|lra]. replace (2 * PI * (a / (2 * PI))) with a in H by (field; lra). exact H. }
  assert (forall r, In r (qroots th 3 p) -> 2 * PI * fmin < - fst r < 2 * PI * fmax /\ Rabs (snd r) < 2 * PI * fmax) as HR.
  { intros r Hr. destruct (pr_width _ _ _ _ _ Hin r Hr) as [W1 W2]. pose proof (pr_centroid _ _ _ _ _ Hin r Hr) as W3.
    split; [split; [apply D2, W1|apply D1, W2]|apply D1, W3]. }
  set (lo := 2 * PI * fmin) in *. set (hi := 2 * PI * fmax) in *. assert (0 <= lo) as Hlo by (unfold lo; nra).
  split.
  - intros i Hi. assert (i < p / 2)%nat as Hi2 by (pose proof (half2 p) as Hp; destruct (Nat.odd p); lia).
    assert (forall z, In z (rpair (nth (3 + 2 * i) th 0) (nth (3 + 2 * i + 1) th 0)) -> In z (qroots th 3 p)) as Hq by (intros z Hz; apply in_or_app; left; exact (qloop_in th (p / 2) i 3 Hi2 z Hz)).
    destruct (rpair_spec (nth (3 + 2 * i) th 0) (nth (3 + 2 * i + 1) th 0)) as (z1 & z2 & E & S1 & S2 & N1 & N2 & S3).
    rewrite E in Hq. pose proof (HR z1 (Hq z1 (or_introl eq_refl))) as [A1 B1]. pose proof (HR z2 (Hq z2 (or_intror (or_introl eq_refl)))) as [A2 B2].
    assert (- (fst z1 + fst z2) = exp (nth (3 + 2 * i + 1) th 0)) as E1 by (apply (f_equal fst) in S1; cbn [fst Cplus Copp RtoC] in S1; lra).
    assert (fst z1 * fst z2 - snd z1 * snd z2 = exp (nth (3 + 2 * i) th 0)) as E2 by (apply (f_equal fst) in S2; cbn [fst Cmult RtoC] in S2; lra).
    rewrite <- E1, <- E2. split; [|split; lra].
    destruct S3 as [S3|[S3 S4]].
    + assert (fst z2 = fst z1 /\ snd z2 = - snd z1) as [F1 F2] by (rewrite <- S3; split; reflexivity). rewrite F1, F2 in *.
      assert (snd z1 * snd z1 < hi * hi) by (destruct (Rabs_def2 _ _ B1); nra). pose proof (Rle_0_sqr (snd z1)) as Q. unfold Rsqr in Q. split; nra.
    + assert (snd z1 = 0 /\ snd z2 = 0) as [-> ->].
      { apply (f_equal snd) in S3. apply (f_equal snd) in S4. cbn [snd Cconj] in S3, S4. lra. }
      split; nra.
  - intros Ho. assert (In (- exp (nth (3 + p - 1) th 0), 0) (qroots th 3 p)) as Hq by (unfold qroots; rewrite Ho; apply in_or_app; right; left; reflexivity).
    destruct (HR _ Hq) as [A1 _]. cbn [fst] in A1. lra.
Qed.

(** the log-density of an object of order p >= 2 *)
Lemma LDp_bounds_pr solve p maf (prior : list (F AX) -> res (F AX)) (vp : R) (b : base AX (kpx AX)) (t y e th ma : list R) smax fmin fmax :
  valid_solve solve -> base_holds b t y e (mkB AX (Fin smax) (Fin fmax) (Fin fmin) false) -> strictly_increasing t -> length y = length t -> length e = length t ->
  (forall i, (i < length t)%nat -> nth i e 0 <> 0) -> (2 <= p)%nat -> (3 + p <= length th)%nat ->
  maf (map Fin th) = Ok (map Fin ma) -> length ma = p -> (exists l, nth l ma 0 <> 0) -> in_prior smax fmin fmax th (qroots th 3 p) -> nth 0 th 0 <> 0 ->
  prior (map Fin th) = Ok (Fin vp) ->
  exists lp b', LogDensity (pcls solve p maf prior) b (map Fin th) = Ok (Fin lp, b') /\
    ld_low t y e (nth 0 th 0) (nth 1 th 0) (nth 2 th 0) + vp <= lp /\
    forall k, (k < length t)%nat -> lp <= ld_high t y e (nth 0 th 0) (nth 1 th 0) (nth 2 th 0) k + vp.
Proof.
  intros Hsv Hb Ht Hy He Hn Hp HL Hma Lma Nma Hin Hz Hpr. pose proof (pr_scale _ _ _ _ _ Hin) as Hs. assert (0 < nth 1 th 0) as Hs0 by lra.
  destruct (LDp_all solve p maf prior b t y e th ma (qroots th 3 p) smax fmin fmax false _ Hsv Hb Ht Hp HL Hma Lma Nma (fun _ => Hpr)
    (proj2 (ARRoots_q p th _ HL) eq_refl) (fun _ => Hin) (fun H => False_ind _ (diff_false_true H)) Hz Hs0) as (x & b' & EL & Hx).
  assert (stable_roots (qroots th 3 p)) as Hst.
  { split; [exact (apart_NoDup smax fmin fmax th _ (fun r => qroots_neg th 3 p r) Hin)|]. split; [intros r; apply qroots_neg|].
    intros z Hz'. exact (conj_closed_in _ z (qroots_conj th 3 p) Hz'). }
  assert (2 <= length (qroots th 3 p))%nat as Hl2 by (rewrite qroots_len; exact Hp).
  assert (length ma = length (qroots th 3 p)) as Hl3 by (rewrite qroots_len; exact Lma).
  destruct (bounds_carma t y e (nth 0 th 0) (nth 1 th 0) (nth 2 th 0) _ ma x Ht Hy He Hs0 Hz Hn Hst Hl2 Hl3 Nma Hx) as [B1 B2].
  exists (x + vp), b'. split; [exact EL|]. split; [lra|]. intros k Hk. specialize (B2 k Hk). lra.
Qed.
Lemma LDp_bounds solve p maf (b : base AX (kpx AX)) (t y e th ma : list R) smax fmin fmax :
  valid_solve solve -> base_holds b t y e (mkB AX (Fin smax) (Fin fmax) (Fin fmin) false) -> strictly_increasing t -> length y = length t -> length e = length t ->
  (forall i, (i < length t)%nat -> nth i e 0 <> 0) -> (2 <= p)%nat -> (3 + p <= length th)%nat ->
  maf (map Fin th) = Ok (map Fin ma) -> length ma = p -> (exists l, nth l ma 0 <> 0) -> in_prior smax fmin fmax th (qroots th 3 p) -> nth 0 th 0 <> 0 ->
  exists lp b', LogDensity (pcls solve p maf (LogPrior AX)) b (map Fin th) = Ok (Fin lp, b') /\
    ld_low t y e (nth 0 th 0) (nth 1 th 0) (nth 2 th 0) + log_sichi (nth 1 th 0) <= lp /\
    forall k, (k < length t)%nat -> lp <= ld_high t y e (nth 0 th 0) (nth 1 th 0) (nth 2 th 0) k + log_sichi (nth 1 th 0).
Proof.
  intros Hsv Hb Ht Hy He Hn Hp HL Hma Lma Nma Hin Hz. pose proof (pr_scale _ _ _ _ _ Hin) as Hs.
  apply (LDp_bounds_pr solve p maf (LogPrior AX) _ b t y e th ma smax fmin fmax Hsv Hb Ht Hy He Hn Hp HL Hma Lma Nma Hin Hz). apply LogPrior_main; [lia|lra].
Qed.

(** log_sichi on the prior range *)
Lemma log_sichi_up s : 1 / 2 <= s <= 2 -> log_sichi s <= 26 * ln 2.
Proof.
  intros [H1 H2]. unfold log_sichi. assert (0 <= 50 / (2 * s)) by (apply Rlt_le, Rdiv_lt_0_compat; lra).
  assert (- ln s <= ln 2).
  { rewrite <- ln_Rinv by lra. destruct (Req_dec (/ s) 2) as [->|N]; [lra|]. left. apply ln_increasing; [apply Rinv_0_lt_compat; lra|].
    assert (/ s <= 2) by (replace 2 with (/ (1 / 2)) by field; apply Rinv_le_contravar; lra). lra. }
  lra.
Qed.
Definition peak (t e : list R) : R := - (1 / 2) * Rsum (fun i => ln (nth i e 0 * nth i e 0 / 2)) (length t) + 26 * ln 2.
(** the upper bound, uniformly in the parameters of the prior region *)
Lemma high_uniform t y e smax sd scale mu k : (forall i, (i < length t)%nat -> nth i e 0 <> 0) -> (k < length t)%nat -> 0 <= sd <= smax -> 1 / 2 <= scale <= 2 ->
  ld_high t y e sd scale mu k + log_sichi scale <= peak t e - (mu - nth k y 0) ^ 2 / (2 * (smax * smax + 2 * (nth k e 0 * nth k e 0))).
Proof.
  intros Hn Hk Hsd Hs. pose proof (log_sichi_up scale Hs) as HS. unfold ld_high, peak.
  assert (forall i, (i < length t)%nat -> 0 < nth i e 0 * nth i e 0) as Hp by (intros i Hi; apply Rsqr_pos_lt, Hn, Hi).
  assert (Rsum (fun i => ln (nth i e 0 * nth i e 0 / 2)) (length t) <= Rsum (fun i => ln (noise e scale i)) (length t)) as A1.
  { apply Rsum_le. intros i Hi. specialize (Hp i Hi). unfold noise. assert (nth i e 0 * nth i e 0 / 2 <= scale * (nth i e 0 * nth i e 0)) as [Q|Q] by nra; [left; apply ln_increasing; [lra|exact Q]|right; rewrite Q; reflexivity]. }
  specialize (Hp k Hk). unfold noise in A1 |- *. set (q := nth k e 0 * nth k e 0) in *.
  assert (0 < sd * sd + scale * q) by nra. assert (sd * sd + scale * q <= smax * smax + 2 * q) by nra.
  assert ((mu - nth k y 0) ^ 2 / (2 * (smax * smax + 2 * q)) <= 1 / 2 * ((nth k y 0 - mu) ^ 2 / (sd * sd + scale * q))) as A2.
  { replace ((mu - nth k y 0) ^ 2 / (2 * (smax * smax + 2 * q))) with (1 / 2 * ((nth k y 0 - mu) ^ 2 * / (smax * smax + 2 * q))) by (field; lra).
    apply Rmult_le_compat_l; [lra|]. apply Rmult_le_compat_l; [apply pow2_ge_0|]. apply Rinv_le_contravar; assumption. }
  lra.
Qed.

(** a distribution function which gives every interval at least its length times the least value of f there, as any integral of f does *)
Definition carries (f G : R -> R) : Prop := forall a b m, a <= b -> (forall x, a <= x <= b -> m <= f x) -> m * (b - a) <= G b - G a.
Lemma carries_unbounded f G c : 0 < c -> (forall x, c <= f x) -> carries f G -> forall B, exists a b, a <= b /\ B < G b - G a.
Proof.
  intros Hc Hf HG B. exists 0, (Rmax 0 ((B + 1) / c)). split; [apply Rmax_l|].
  pose proof (HG 0 (Rmax 0 ((B + 1) / c)) c (Rmax_l _ _) (fun x _ => Hf x)) as H. pose proof (Rmax_r 0 ((B + 1) / c)) as Q.
  apply (Rmult_le_compat_l c) in Q; [|lra]. replace (c * ((B + 1) / c)) with (B + 1) in Q by (field; lra). lra.
Qed.
