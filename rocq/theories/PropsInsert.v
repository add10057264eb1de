(** C110: what one more measurement adds to the log-density. *)
From Coq Require Import Reals List Arith ZArith Lra Lia Bool Permutation.
From Coquelicot Require Import Complex.
From Verif Require Import Arith Res ListLemmas KFModel Spec Gauss Emb History InitProof KF1X KF1Main KF1More.
From Verif Require Import Cx KFpModel KFpProof SpecCarma CLin KFpX KFpMain KFpTop KFpMore SpecModel CarpackModel RootsProof PriorProof LogLikProof LogLikMain CarpackTop CarpackRefute.
From Verif Require Import Insert InsertTop Sym SymTime SymWit.
From Verif Require KF1Refute PropsKFp PropsPred.
Import ListNotations.
Local Open Scope R_scope.
Local Notation length := List.length.

(** C110, CAR(1): build one object from all measurements and one without the measurement k.  Where both log-densities are finite, their difference is
    the log-density of the k-th value under a normal distribution whose mean is theta_2 plus the mean that KalmanFilter1 predicts at its time from the others, and whose
    variance is the predicted one plus theta_1 times its squared error; the filter holds the other measurements as LogDensity uses them (theta_2 subtracted,
    errors times sqrt(theta_1)) with the parameters of theta.  Whatever either object was used for before. *)
Theorem C110_car1 : forall (si : list (F AX) -> option (list nat)) (raw raw' : kf1 AX) k (t y e : list R),
  valid_sort_index si -> (3 <= length t)%nat -> (k < length t)%nat -> length y = length t -> length e = length t -> strictly_increasing t ->
  exists b b', car1_new si raw (map Fin t) (map Fin y) (map Fin e) = Ok b /\
    car1_new si raw' (map Fin (without k t)) (map Fin (without k y)) (map Fin (without k e)) = Ok b' /\
    forall b1 b1' th r w r' w' (s : kf1 AX), touched (car1_cls AX) (@setpar1 AX) b b1 -> touched (car1_cls AX) (@setpar1 AX) b' b1' ->
      (4 <= length th)%nat -> nth 0 th 0 <> 0 ->
      LogDensity (car1_cls AX) b1 (map Fin th) = Ok (r, w) -> LogDensity (car1_cls AX) b1' (map Fin th) = Ok (r', w') -> r <> NInf -> r' <> NInf ->
      holds1 s (without k t) (centred (nth 2 th 0) (without k y)) (noise (nth 1 th 0) (without k e)) (2 * exp (nth 3 th 0) * (nth 0 th 0 * nth 0 th 0)) (exp (nth 3 th 0)) ->
      exists x' m v s1, r' = Fin x' /\ Predict1 s (Fin (nth k t 0)) = Ok ((Fin m, Fin v), s1) /\ 0 < v /\
        r = Fin (x' + log_normal (nth k y 0) (nth 2 th 0 + m) (v + nth 1 th 0 * (nth k e 0 * nth k e 0))).
Proof.
  intros si raw raw' k t y e Hsi Hn Hk Hy He Hinc.
  destruct (base_new_Fin _ si raw t y e Hsi ltac:(lia) Hy He Hinc) as (b & smax & fmin & fmax & E & Hb & _).
  destruct (base_new_Fin _ si raw' (without k t) (without k y) (without k e) Hsi) as (b' & smax' & fmin' & fmax' & E' & Hb' & _);
    try (rewrite !without_len by lia; lia); [apply without_inc; assumption|].
  exists b, b'. split; [exact E|]. split; [exact E'|]. intros b1 b1' th r w r' w' s Ht Ht' HL H0 EL EL' Hr Hr' Hs.
  exact (insert1 k t y e th _ _ _ _ _ _ b1 b1' r r' w w' s Hk Hinc HL H0 (holds_touched1 b b1 t y e _ Hb Ht) (holds_touched1 b' b1' _ _ _ _ Hb' Ht') EL EL' Hr Hr' Hs).
Qed.
Print Assumptions C110_car1.

(** C110, CAR(p), p >= 2. *)
Theorem C110_carp : forall solve (si : list (F AX) -> option (list nat)) (raw raw' : kfp AX) p k (t y e : list R),
  valid_solve solve -> valid_sort_index si -> goodp raw -> goodp raw' -> (2 <= p)%nat ->
  (3 <= length t)%nat -> (k < length t)%nat -> length y = length t -> length e = length t -> strictly_increasing t ->
  exists b b', carp_new si raw p (map Fin t) (map Fin y) (map Fin e) = Ok b /\
    carp_new si raw' p (map Fin (without k t)) (map Fin (without k y)) (map Fin (without k e)) = Ok b' /\
    forall th, (3 + p <= length th)%nat -> nth 0 th 0 <> 0 -> exists om ma, (length om = p /\ forall s, roots_poly om s = quad_poly th 3 p s) /\ (forall z, ma_poly ma z = RtoC 1) /\
    forall b1 b1' r w r' w' (s : kfp AX), touched (carp_cls solve p) (@setparp AX) b b1 -> touched (carp_cls solve p) (@setparp AX) b' b1' ->
      LogDensity (carp_cls solve p) b1 (map Fin th) = Ok (r, w) -> LogDensity (carp_cls solve p) b1' (map Fin th) = Ok (r', w') -> r <> NInf -> r' <> NInf ->
      holdsp s (without k t) (centred (nth 2 th 0) (without k y)) (noise (nth 1 th 0) (without k e)) (nth 0 th 0 * nth 0 th 0 / carma_acv 1 ma om 0) om ma ->
      exists x' m v s1, r' = Fin x' /\ Predictp solve s (Fin (nth k t 0)) = Ok ((Fin m, Fin v), s1) /\ 0 < v /\
        r = Fin (x' + log_normal (nth k y 0) (nth 2 th 0 + m) (v + nth 1 th 0 * (nth k e 0 * nth k e 0))).
Proof.
  intros solve si raw raw' p k t y e Hsv Hsi Hg Hg' Hp Hn Hk Hy He Hinc.
  destruct (carp_new_Fin si raw p t y e Hsi ltac:(lia) Hy He Hinc ltac:(lia)) as (b & smax & fmin & fmax & E & Hb & _).
  destruct (carp_new_Fin si raw' p (without k t) (without k y) (without k e) Hsi) as (b' & smax' & fmin' & fmax' & E' & Hb' & _);
    try (rewrite !without_len by lia; lia); [apply without_inc; assumption|lia|].
  destruct (carp_new_wfb AX si raw p (map Fin t) (map Fin y) (map Fin e) b ltac:(rewrite !map_length; assumption) ltac:(rewrite !map_length; assumption) Hg E) as (_ & _ & _ & Hgb & _ & _).
  destruct (carp_new_wfb AX si raw' p (map Fin (without k t)) (map Fin (without k y)) (map Fin (without k e)) b'
    ltac:(rewrite !map_length, !without_len by lia; lia) ltac:(rewrite !map_length, !without_len by lia; lia) Hg' E') as (_ & _ & _ & Hgb' & _ & _).
  exists b, b'. split; [exact E|]. split; [exact E'|]. intros th HL H0.
  destruct (roots_of p th ltac:(lia)) as (om & EA & Lo & _ & _ & Hpoly & _).
  exists om, (upd (repeat 0 p) 0 1). split; [split; assumption|]. split; [intros z; apply carp_ma_poly; lia|].
  intros b1 b1' r w r' w' s Ht Ht' EL EL' Hr Hr' Hs.
  refine (insertp solve p (fun _ => Ok (carp_ma AX p)) (LogPrior AX) k t y e th _ om _ _ _ _ _ _ _ b1 b1' r r' w w' s Hsv Hk Hinc Hp ltac:(lia) H0 EA _ _ _ _
    (holds_touchedp solve p _ _ b b1 t y e _ Hb Hgb Ht) (holds_touchedp solve p _ _ b' b1' _ _ _ _ Hb' Hgb' Ht') EL EL' Hr Hr' Hs).
  - rewrite carp_ma_Fin. reflexivity.
  - apply carp_ma_len.
  - apply carp_ma_nz. lia.
  - intros H1. apply LogPrior_main; [lia|exact H1].
Qed.
Print Assumptions C110_carp.

(** C110, CARMA(p,q), p >= 2, q < p. *)
Theorem C110_carma : forall solve (si : list (F AX) -> option (list nat)) (raw raw' : kfp AX) p q k (t y e : list R),
  valid_solve solve -> valid_sort_index si -> goodp raw -> goodp raw' -> (2 <= p)%nat -> (q < p)%nat ->
  (3 <= length t)%nat -> (k < length t)%nat -> length y = length t -> length e = length t -> strictly_increasing t ->
  exists b b', carp_new si raw p (map Fin t) (map Fin y) (map Fin e) = Ok b /\
    carp_new si raw' p (map Fin (without k t)) (map Fin (without k y)) (map Fin (without k e)) = Ok b' /\
    forall th, (3 + p + q <= length th)%nat -> nth 0 th 0 <> 0 -> exists om ma, (length om = p /\ forall s, roots_poly om s = quad_poly th 3 p s) /\ (length ma = p /\ forall z, Cmult (ma_poly ma z) (quad_poly th (3 + p) q (RtoC 0)) = quad_poly th (3 + p) q z) /\
    forall b1 b1' r w r' w' (s : kfp AX), touched (carma_cls solve p q) (@setparp AX) b b1 -> touched (carma_cls solve p q) (@setparp AX) b' b1' ->
      LogDensity (carma_cls solve p q) b1 (map Fin th) = Ok (r, w) -> LogDensity (carma_cls solve p q) b1' (map Fin th) = Ok (r', w') -> r <> NInf -> r' <> NInf ->
      holdsp s (without k t) (centred (nth 2 th 0) (without k y)) (noise (nth 1 th 0) (without k e)) (nth 0 th 0 * nth 0 th 0 / carma_acv 1 ma om 0) om ma ->
      exists x' m v s1, r' = Fin x' /\ Predictp solve s (Fin (nth k t 0)) = Ok ((Fin m, Fin v), s1) /\ 0 < v /\
        r = Fin (x' + log_normal (nth k y 0) (nth 2 th 0 + m) (v + nth 1 th 0 * (nth k e 0 * nth k e 0))).
Proof.
  intros solve si raw raw' p q k t y e Hsv Hsi Hg Hg' Hp Hq Hn Hk Hy He Hinc.
  destruct (carp_new_Fin si raw p t y e Hsi ltac:(lia) Hy He Hinc ltac:(lia)) as (b & smax & fmin & fmax & E & Hb & _).
  destruct (carp_new_Fin si raw' p (without k t) (without k y) (without k e) Hsi) as (b' & smax' & fmin' & fmax' & E' & Hb' & _);
    try (rewrite !without_len by lia; lia); [apply without_inc; assumption|lia|].
  destruct (carp_new_wfb AX si raw p (map Fin t) (map Fin y) (map Fin e) b ltac:(rewrite !map_length; assumption) ltac:(rewrite !map_length; assumption) Hg E) as (_ & _ & _ & Hgb & _ & _).
  destruct (carp_new_wfb AX si raw' p (map Fin (without k t)) (map Fin (without k y)) (map Fin (without k e)) b'
    ltac:(rewrite !map_length, !without_len by lia; lia) ltac:(rewrite !map_length, !without_len by lia; lia) Hg' E') as (_ & _ & _ & Hgb' & _ & _).
  exists b, b'. split; [exact E|]. split; [exact E'|]. intros th HL H0.
  destruct (roots_of p th ltac:(lia)) as (om & EA & Lo & _ & _ & Hpoly & _).
  destruct (ExtractMA_carma_main p q th Hq HL) as (ma & EM & Lm & M0 & _ & _ & Hmp & _). exists om, ma. split; [split; assumption|]. split; [split; assumption|].
  intros b1 b1' r w r' w' s Ht Ht' EL EL' Hr Hr' Hs.
  refine (insertp solve p (ExtractMA_carma AX p q) (LogPrior AX) k t y e th _ om _ _ _ _ _ _ _ b1 b1' r r' w w' s Hsv Hk Hinc Hp ltac:(lia) H0 EA _ _ _ _
    (holds_touchedp solve p _ _ b b1 t y e _ Hb Hgb Ht) (holds_touchedp solve p _ _ b' b1' _ _ _ _ Hb' Hgb' Ht') EL EL' Hr Hr' Hs).
  - exact EM.
  - exact Lm.
  - exists O. rewrite M0. lra.
  - intros H1. apply LogPrior_main; [lia|exact H1].
Qed.
Print Assumptions C110_carma.

(** C110, ZCARMA(p), p >= 2, with the same kappa bounds in both objects. *)
Theorem C110_zcarma : forall solve (si : list (F AX) -> option (list nat)) (raw raw' : kfp AX) p klow khigh k (t y e : list R),
  valid_solve solve -> valid_sort_index si -> goodp raw -> goodp raw' -> (2 <= p)%nat -> 0 < klow < khigh ->
  (3 <= length t)%nat -> (k < length t)%nat -> length y = length t -> length e = length t -> strictly_increasing t ->
  exists b b', carp_new si raw p (map Fin t) (map Fin y) (map Fin e) = Ok b /\
    carp_new si raw' p (map Fin (without k t)) (map Fin (without k y)) (map Fin (without k e)) = Ok b' /\
    forall th, (4 + p <= length th)%nat -> nth 0 th 0 <> 0 -> exists om ma, (length om = p /\ forall s, roots_poly om s = quad_poly th 3 p s) /\ (exists kappa, klow < kappa < khigh /\ forall z, ma_poly ma z = Cpown (Cplus (RtoC 1) (Cdiv z (RtoC kappa))) (p - 1)) /\
    forall b1 b1' r w r' w' (s : kfp AX), touched (zcarma_cls solve p (Fin klow : F AX) (Fin khigh)) (@setparp AX) b b1 -> touched (zcarma_cls solve p (Fin klow : F AX) (Fin khigh)) (@setparp AX) b' b1' ->
      LogDensity (zcarma_cls solve p (Fin klow : F AX) (Fin khigh)) b1 (map Fin th) = Ok (r, w) -> LogDensity (zcarma_cls solve p (Fin klow : F AX) (Fin khigh)) b1' (map Fin th) = Ok (r', w') -> r <> NInf -> r' <> NInf ->
      holdsp s (without k t) (centred (nth 2 th 0) (without k y)) (noise (nth 1 th 0) (without k e)) (nth 0 th 0 * nth 0 th 0 / carma_acv 1 ma om 0) om ma ->
      exists x' m v s1, r' = Fin x' /\ Predictp solve s (Fin (nth k t 0)) = Ok ((Fin m, Fin v), s1) /\ 0 < v /\
        r = Fin (x' + log_normal (nth k y 0) (nth 2 th 0 + m) (v + nth 1 th 0 * (nth k e 0 * nth k e 0))).
Proof.
  intros solve si raw raw' p klow khigh k t y e Hsv Hsi Hg Hg' Hp Hkap Hn Hk Hy He Hinc.
  destruct (carp_new_Fin si raw p t y e Hsi ltac:(lia) Hy He Hinc ltac:(lia)) as (b & smax & fmin & fmax & E & Hb & _).
  destruct (carp_new_Fin si raw' p (without k t) (without k y) (without k e) Hsi) as (b' & smax' & fmin' & fmax' & E' & Hb' & _);
    try (rewrite !without_len by lia; lia); [apply without_inc; assumption|lia|].
  destruct (carp_new_wfb AX si raw p (map Fin t) (map Fin y) (map Fin e) b ltac:(rewrite !map_length; assumption) ltac:(rewrite !map_length; assumption) Hg E) as (_ & _ & _ & Hgb & _ & _).
  destruct (carp_new_wfb AX si raw' p (map Fin (without k t)) (map Fin (without k y)) (map Fin (without k e)) b'
    ltac:(rewrite !map_length, !without_len by lia; lia) ltac:(rewrite !map_length, !without_len by lia; lia) Hg' E') as (_ & _ & _ & Hgb' & _ & _).
  exists b, b'. split; [exact E|]. split; [exact E'|]. intros th HL H0.
  destruct (roots_of p th ltac:(lia)) as (om & EA & Lo & _ & _ & Hpoly & _).
  destruct (ExtractMA_zcarma_main p klow khigh th ltac:(lia) HL Hkap) as (ma & kappa & EM & Hka & Lm & _ & Hmp).
  assert (exists pr, 0 < nth 1 th 0 -> LogPrior_z AX p (map Fin th) = Ok (Fin pr)) as (pr & Hpr).
  { destruct (Rlt_dec 0 (nth 1 th 0)) as [H1|H1]; [|exists 0; intros; contradiction]. destruct (LogPrior_z_main p th HL H1) as (D & _ & _ & Ep). eexists. intros _. exact Ep. }
  exists om, ma. split; [split; assumption|]. split; [exists kappa; split; assumption|].
  intros b1 b1' r w r' w' s Ht Ht' EL EL' Hr Hr' Hs.
  refine (insertp solve p (ExtractMA_zcarma AX p (Fin klow) (Fin khigh)) (LogPrior_z AX p) k t y e th _ om _ _ _ _ _ _ _ b1 b1' r r' w w' s Hsv Hk Hinc Hp ltac:(lia) H0 EA _ _ _ _
    (holds_touchedp solve p _ _ b b1 t y e _ Hb Hgb Ht) (holds_touchedp solve p _ _ b' b1' _ _ _ _ Hb' Hgb' Ht') EL EL' Hr Hr' Hs).
  - exact EM.
  - exact Lm.
  - exists O. intros Hz. assert (ma_poly ma (RtoC 0) = RtoC 1) as M1.
    { rewrite Hmp. unfold Cdiv. rewrite Cmult_0_l, Cplus_0_r. generalize (p - 1)%nat as n. induction n as [|n IH]; [reflexivity|]. cbn [Cpown]. rewrite IH. ring. }
    assert (ma_poly ma (RtoC 0) = RtoC (nth 0 ma 0)) as M2.
    { unfold ma_poly. destruct ma as [|m0 ma0]; [cbn in Lm; lia|]. cbn [length]. rewrite Csum_first; [cbn; ring|]. intros j. cbn [Cpown]. ring. }
    rewrite M1, Hz in M2. apply (f_equal fst) in M2. cbn in M2. lra.
  - exact Hpr.
Qed.
Print Assumptions C110_zcarma.

(** *** The hypotheses are met *)
Definition tI : list R := [0; 1; 2; 100].
Definition yI : list R := [0; 1; 0; 1].
Definition eI : list R := [1; 1; 1; 1].
Definition thI : list R := [1; 1; 0; ln (1 / 10)].
Example ex_without : without 1 tI = [0; 2; 100] /\ without 1 yI = [0; 0; 1].
Proof. split; reflexivity. Qed.
Lemma tI_inc : strictly_increasing tI.
Proof. intros i j Hij Hj. unfold tI in *. cbn [length] in Hj. destruct i as [|[|[|[|i]]]], j as [|[|[|[|j]]]]; cbn [nth]; try lia; lra. Qed.
Lemma tI_bounds : data_bounds tI yI (10 * sqrt (1 / 3)) (1 / 100) 1.
Proof.
  constructor.
  - f_equal. f_equal. unfold svar, smean, yI. cbn [length nth Rsum INR]. field.
  - lra.
  - intros i Hi. unfold tI in *. cbn [length] in Hi. destruct i as [|[|[|i]]]; cbn [nth]; try lia; lra.
  - exists 0%nat. unfold tI. cbn [length nth]. split; [lia|lra].
  - unfold tI. cbn. lra.
Qed.
Lemma tI_bounds' : data_bounds (without 1 tI) (without 1 yI) (10 * sqrt (1 / 3)) (1 / 100) (1 / 2).
Proof.
  change (without 1 tI) with [0; 2; 100]. change (without 1 yI) with [0; 0; 1]. constructor.
  - f_equal. f_equal. unfold svar, smean. cbn [length nth Rsum INR]. field.
  - lra.
  - intros i Hi. cbn [length] in Hi. destruct i as [|[|i]]; cbn [nth]; try lia; lra.
  - exists 0%nat. cbn [length nth]. split; [lia|lra].
  - cbn. lra.
Qed.
Lemma sd_I : 1 <= 10 * sqrt (1 / 3).
Proof. assert (1 / 10 <= sqrt (1 / 3)); [|lra]. replace (1 / 10) with (sqrt (1 / 10 * (1 / 10))) by (apply sqrt_square; lra). apply sqrt_le_1_alt. lra. Qed.
(** CAR(1): both log-densities are finite at thI, and such a filter is what the constructor returns. *)
Example ex_C110_car1 : forall (si : list (F AX) -> option (list nat)) (raw raw' : kf1 AX), valid_sort_index si ->
  exists b b' x w x' w' s, car1_new si raw (map Fin tI) (map Fin yI) (map Fin eI) = Ok b /\
    car1_new si raw' (map Fin (without 1 tI)) (map Fin (without 1 yI)) (map Fin (without 1 eI)) = Ok b' /\
    LogDensity (car1_cls AX) b (map Fin thI) = Ok (Fin x, w) /\ LogDensity (car1_cls AX) b' (map Fin thI) = Ok (Fin x', w') /\ nth 0 thI 0 <> 0 /\
    holds1 s (without 1 tI) (centred (nth 2 thI 0) (without 1 yI)) (noise (nth 1 thI 0) (without 1 eI)) (2 * exp (nth 3 thI 0) * (nth 0 thI 0 * nth 0 thI 0)) (exp (nth 3 thI 0)).
Proof.
  intros si raw raw' Hsi.
  assert (strictly_increasing (without 1 tI)) as Hi' by (apply without_inc; [cbn; lia|exact tI_inc]).
  destruct (base_new_Fin _ si raw tI yI eI Hsi ltac:(cbn; lia) eq_refl eq_refl tI_inc) as (b & s1 & f1 & g1 & E & Hb & Hd).
  destruct (bounds_unique _ _ _ _ _ _ _ _ Hd tI_bounds) as (-> & -> & ->).
  destruct (base_new_Fin _ si raw' (without 1 tI) (without 1 yI) (without 1 eI) Hsi ltac:(cbn; lia) eq_refl eq_refl Hi') as (b' & s2 & f2 & g2 & E' & Hb' & Hd').
  destruct (bounds_unique _ _ _ _ _ _ _ _ Hd' tI_bounds') as (-> & -> & ->). pose proof sd_I as Hsd.
  assert (exp (nth 3 thI 0) = 1 / 10) as Eo by (cbn [thI nth]; apply exp_ln; lra).
  destruct (LD1_inside b tI yI eI thI (10 * sqrt (1 / 3)) (1 / 100) 1 false Hb tI_inc ltac:(cbn; lia)) as (m & v & w & EL & _);
    [unfold in_prior1; rewrite Eo; cbn [thI nth]; lra|cbn; lra|].
  destruct (LD1_inside b' _ _ _ thI (10 * sqrt (1 / 3)) (1 / 100) (1 / 2) false Hb' Hi' ltac:(cbn; lia)) as (m' & v' & w' & EL' & _);
    [unfold in_prior1; rewrite Eo; cbn [thI nth]; lra|cbn; lra|].
  destruct (PropsPred.build1 si raw (without 1 tI) (centred (nth 2 thI 0) (without 1 yI)) (noise (nth 1 thI 0) (without 1 eI)) (2 * exp (nth 3 thI 0) * (nth 0 thI 0 * nth 0 thI 0)) (exp (nth 3 thI 0)) Hsi Hi'
    ltac:(cbn; lia) eq_refl eq_refl) as (s & _ & Hs).
  eexists; eexists; eexists; eexists; eexists; eexists; exists s. split; [exact E|]. split; [exact E'|]. split; [exact EL|]. split; [exact EL'|]. split; [cbn; lra|exact Hs].
Qed.
Lemma thU_in' : in_prior (10 * sqrt (1 / 3)) (1 / 100) (1 / 2) thU (qroots thU 3 4).
Proof.
  destruct thU_in as [H1 H2 H3 H4 H5 H6]. rewrite omU in *. assert (0 < dU /\ dU - 1 = 1 / 100000000) as (Hd & Ed) by (unfold dU; lra). constructor; try assumption.
  - intros r [<-|[<-|[<-|[<-|[]]]]]; cbn [snd]; rewrite ?Rabs_Ropp, Rabs_right by lra; eapply Rlt_trans; try (apply div2pi; lra); lra.
  - intros r [<-|[<-|[<-|[<-|[]]]]]; cbn [fst]; rewrite Ropp_involutive; split; try (eapply Rlt_le_trans; [|apply div2pi; lra]; lra); eapply Rlt_trans; try (apply div2pi; lra); lra.
Qed.
(** CAR(4): both log-densities are finite at thU. *)
Example ex_C110_carp : forall solve (si : list (F AX) -> option (list nat)) (raw raw' : kfp AX), valid_solve solve -> valid_sort_index si ->
  exists b b' x w x' w', carp_new si raw 4 (map Fin tI) (map Fin yI) (map Fin eI) = Ok b /\
    carp_new si raw' 4 (map Fin (without 1 tI)) (map Fin (without 1 yI)) (map Fin (without 1 eI)) = Ok b' /\
    LogDensity (carp_cls solve 4) b (map Fin thU) = Ok (Fin x, w) /\ LogDensity (carp_cls solve 4) b' (map Fin thU) = Ok (Fin x', w') /\ nth 0 thU 0 <> 0.
Proof.
  intros solve si raw raw' Hsv Hsi.
  assert (strictly_increasing (without 1 tI)) as Hi' by (apply without_inc; [cbn; lia|exact tI_inc]).
  destruct (carp_new_Fin si raw 4 tI yI eI Hsi ltac:(cbn; lia) eq_refl eq_refl tI_inc ltac:(lia)) as (b & s1 & f1 & g1 & E & Hb & Hd).
  destruct (bounds_unique _ _ _ _ _ _ _ _ Hd tI_bounds) as (-> & -> & ->).
  destruct (carp_new_Fin si raw' 4 (without 1 tI) (without 1 yI) (without 1 eI) Hsi ltac:(cbn; lia) eq_refl eq_refl Hi' ltac:(lia)) as (b' & s2 & f2 & g2 & E' & Hb' & Hd').
  destruct (bounds_unique _ _ _ _ _ _ _ _ Hd' tI_bounds') as (-> & -> & ->).
  assert (forall b0 t0 y0 e0 fmax, strictly_increasing t0 -> base_holds b0 t0 y0 e0 (mkB AX (Fin (10 * sqrt (1 / 3))) (Fin fmax) (Fin (1 / 100)) false) ->
    in_prior (10 * sqrt (1 / 3)) (1 / 100) fmax thU (qroots thU 3 4) -> exists x w, LogDensity (carp_cls solve 4) b0 (map Fin thU) = Ok (Fin x, w)) as Hgo.
  { intros b0 t0 y0 e0 fmax Hi0 Hb0 Hin.
    destruct (LDp_all solve 4 (fun _ => Ok (carp_ma AX 4)) (LogPrior AX) b0 t0 y0 e0 thU (upd (repeat 0 4) 0 1) (qroots thU 3 4) _ _ _ false (log_sichi (nth 1 thU 0)) Hsv Hb0 Hi0) as (x & w & EL & _);
      try (cbn; lia); try (cbn; lra).
    - rewrite carp_ma_Fin. reflexivity.
    - apply carp_ma_nz. lia.
    - intros _. apply LogPrior_main; cbn; [lia|lra].
    - apply quad_roots_Fin. cbn. lia.
    - intros _. exact Hin.
    - eexists; eexists; exact EL. }
  destruct (Hgo b _ _ _ _ tI_inc Hb thU_in) as (x & w & EL). destruct (Hgo b' _ _ _ _ Hi' Hb' thU_in') as (x' & w' & EL').
  exists b, b', x, w, x', w'. split; [exact E|]. split; [exact E'|]. split; [exact EL|]. split; [exact EL'|cbn; lra].
Qed.
