(** C123: the effect of one measurement on the predictions, and of a large error bar. *)
From Coq Require Import Reals List Arith ZArith Lra Lia Bool Permutation.
From Coquelicot Require Import Complex.
From Verif Require Import Arith Res ListLemmas KFModel Spec Gauss Emb History InitProof KF1X KF1Main KF1More KF1R OUpd.
From Verif Require Import Cx KFpModel KFpProof SpecCarma CLin KFpX KFpMain KFpTop KFpMore SpecModel CarpackModel RootsProof PriorProof LogLikProof LogLikMain CarpackTop CarpackRefute.
From Verif Require Import SimProof LogDens Sym SymTime PredLaw Det Insert InsertTop Influence.
From Verif Require KF1Refute PropsKFp PropsPred PropsInsert.
Import ListNotations.
Local Open Scope R_scope.
Local Notation length := List.length.

Lemma others_differ (t : list R) k i : strictly_increasing t -> (k < length t)%nat -> (i < length (without k t))%nat -> nth i (without k t) 0 <> nth k t 0.
Proof.
  intros Ht Hk Hi. rewrite without_len in Hi by exact Hk. rewrite without_nth by exact Hk. pose proof (skip_ne k i) as N. pose proof (skip_lt (length t - 1) k i ltac:(lia)) as L.
  destruct (Nat.lt_total (skip k i) k) as [H|[H|H]]; [|contradiction|].
  - pose proof (Ht _ _ H Hk). lra.
  - pose proof (Ht k (skip k i) H ltac:(lia)). lra.
Qed.
Lemma without_upd {T} k (l : list T) x : (k < length l)%nat -> without k (upd l k x) = without k l.
Proof. revert k. induction l as [|a l IH]; intros [|k] H; cbn in H; try lia; [reflexivity|]. cbn. f_equal. apply (IH k). lia. Qed.
Lemma with_error (t e : list R) k tp E : length e = length t -> (forall i, (i < length t)%nat -> i <> k -> nth i t 0 = tp -> nth i e 0 <> 0) -> (nth k t 0 = tp -> E <> 0) -> (k < length t)%nat ->
  forall i, (i < length t)%nat -> nth i t 0 = tp -> nth i (upd e k E) 0 <> 0.
Proof.
  intros He H HE Hk i Hi Et. destruct (Nat.eq_dec i k) as [->|N]; [rewrite nth_upd_same by lia; apply HE, Et|]. rewrite nth_upd_other by congruence. apply H; assumption.
Qed.
Lemma without_error (t e : list R) k tp : length e = length t -> (forall i, (i < length t)%nat -> i <> k -> nth i t 0 = tp -> nth i e 0 <> 0) -> (k < length t)%nat ->
  forall i, (i < length (without k t))%nat -> nth i (without k t) 0 = tp -> nth i (without k e) 0 <> 0.
Proof.
  intros He H Hk i Hi Et. rewrite without_len in Hi by exact Hk. rewrite without_nth in Et by exact Hk. rewrite without_nth by lia.
  apply H; [pose proof (skip_lt (length t - 1) k i ltac:(lia)); lia|apply skip_ne|exact Et].
Qed.

(** C123, CAR(1): s' holds the measurements without the k-th one.  There is one number c (the covariance of the process at tp and at the time of the
    k-th measurement given the others) such that, whatever the k-th value Y and its error E, an object that holds all measurements predicts at tp with the
    mean moved by c (Y - mk) / (vk + E^2) and the variance lowered by c^2 / (vk + E^2), where mk and vk are what s' predicts for the k-th measurement. *)
Theorem C123_predict1 : forall (s' : kf1 AX) k (t y e : list R) sig w tp,
  (k < length t)%nat -> length y = length t -> length e = length t -> strictly_increasing t -> 0 < sig -> 0 < w ->
  holds1 s' (without k t) (without k y) (without k e) sig w ->
  (forall i, (i < length t)%nat -> i <> k -> nth i t 0 = tp -> nth i e 0 <> 0) ->
  exists m0 v0 s1 mk vk s2 c, Predict1 s' (Fin tp) = Ok ((Fin m0, Fin v0), s1) /\ Predict1 s' (Fin (nth k t 0)) = Ok ((Fin mk, Fin vk), s2) /\
    0 < v0 /\ 0 < vk /\ c * c <= v0 * vk /\
    forall Y E (s : kf1 AX), holds1 s t (upd y k Y) (upd e k E) sig w -> (nth k t 0 = tp -> E <> 0) ->
    exists s3, Predict1 s (Fin tp) = Ok ((Fin (m0 + c * (Y - mk) / (vk + E * E)), Fin (v0 - c * c / (vk + E * E))), s3).
Proof.
  intros s' k t y e sig w tp Hk Hy He Hi Hsig Hw Hs' Hok.
  pose proof (without_inc k t Hk Hi) as Hi'.
  destruct (predict_main s' _ _ _ sig w Hs' (strict_times_ok _ _ Hi') Hsig Hw tp (without_error t e k tp He Hok Hk)) as (m0 & v0 & s1 & E1 & Hb0 & Hv0 & _).
  destruct (predict_main s' _ _ _ sig w Hs' (strict_times_ok _ _ Hi') Hsig Hw (nth k t 0)) as (mk & vk & s2 & E2 & Hbk & Hvk & _).
  { intros i Hi0 F. destruct (others_differ t k i Hi Hk Hi0 F). }
  destruct (cond_insert (ou_cov sig w) t y e k tp m0 v0 mk vk (ou_sym sig w) Hy He Hk Hb0 Hbk) as (c & Hc0 & Hc).
  assert (forall Y E (s : kf1 AX), holds1 s t (upd y k Y) (upd e k E) sig w -> (nth k t 0 = tp -> E <> 0) ->
    exists s3, Predict1 s (Fin tp) = Ok ((Fin (m0 + c * (Y - mk) / (vk + E * E)), Fin (v0 - c * c / (vk + E * E))), s3) /\ 0 < v0 - c * c / (vk + E * E)) as HP.
  { intros Y E s Hs HE. destruct (predict_main s _ _ _ sig w Hs (strict_times_ok _ _ Hi) Hsig Hw tp (with_error t e k tp E He Hok HE Hk)) as (m & v & s3 & E3 & Hb & Hv & _).
    destruct (cond_determined _ _ _ _ _ _ _ _ Hi Hsig Hw Hb) as [Hu _].
    pose proof (Rle_0_sqr E). unfold Rsqr in *. destruct (Hu _ _ (Hc Y E ltac:(lra))) as [-> ->]. exists s3. split; [exact E3|exact Hv]. }
  exists m0, v0, s1, mk, vk, s2, c. split; [exact E1|]. split; [exact E2|]. split; [exact Hv0|]. split; [exact Hvk|]. split.
  - destruct (Req_dec (nth k t 0) tp) as [Et|Et].
    + assert (m0 = mk /\ v0 = vk) as [_ Ev].
      { rewrite <- Et in Hb0. destruct (cond_determined sig w (without k t) (without k y) (without k e) _ _ _ Hi' Hsig Hw Hbk) as [Hu _]. exact (Hu _ _ Hb0). }
      rewrite (Hc0 (eq_sym Et)), Ev. lra.
    + destruct valid_sort_index_exists as (si & Hsi). destruct (holds1_lens _ _ _ _ _ _ Hs') as (_ & _ & L2 & _). rewrite without_len in L2 by exact Hk.
      destruct (PropsPred.build1 si s' t (upd y k 0) (upd e k 0) sig w Hsi Hi ltac:(lia) ltac:(rewrite upd_length; exact Hy) ltac:(rewrite upd_length; exact He)) as (s & _ & Hs).
      destruct (HP 0 0 s Hs (fun F => False_ind _ (Et F))) as (_ & _ & Q). replace (vk + 0 * 0) with vk in Q by ring.
      assert (0 < (v0 - c * c / vk) * vk) as Q' by (apply Rmult_lt_0_compat; assumption). replace ((v0 - c * c / vk) * vk) with (v0 * vk - c * c) in Q' by (field; lra). lra.
  - intros Y E s Hs HE. destruct (HP Y E s Hs HE) as (s3 & E3 & _). exists s3. exact E3.
Qed.
Print Assumptions C123_predict1.

(** C123, CARMA(p,q), p >= 2. *)
Theorem C123_predictp : forall solve (s' : kfp AX) k (t y e : list R) sig om ma tp, valid_solve solve ->
  (k < length t)%nat -> length y = length t -> length e = length t -> strictly_increasing t -> carma_ok sig om ma ->
  holdsp s' (without k t) (without k y) (without k e) sig om ma ->
  (forall i, (i < length t)%nat -> i <> k -> nth i t 0 = tp -> nth i e 0 <> 0) ->
  exists m0 v0 s1 mk vk s2 c, Predictp solve s' (Fin tp) = Ok ((Fin m0, Fin v0), s1) /\ Predictp solve s' (Fin (nth k t 0)) = Ok ((Fin mk, Fin vk), s2) /\
    0 < v0 /\ 0 < vk /\ c * c <= v0 * vk /\
    forall Y E (s : kfp AX), holdsp s t (upd y k Y) (upd e k E) sig om ma -> (nth k t 0 = tp -> E <> 0) ->
    exists s3, Predictp solve s (Fin tp) = Ok ((Fin (m0 + c * (Y - mk) / (vk + E * E)), Fin (v0 - c * c / (vk + E * E))), s3).
Proof.
  intros solve s' k t y e sig om ma tp Hsv Hk Hy He Hi Hm Hs' Hok.
  pose proof (without_inc k t Hk Hi) as Hi'.
  destruct (predictp solve Hsv s' _ _ _ _ _ _ Hs' Hi' Hm tp (without_error t e k tp He Hok Hk)) as (m0 & v0 & s1 & E1 & Hb0 & Hv0 & _).
  destruct (predictp solve Hsv s' _ _ _ _ _ _ Hs' Hi' Hm (nth k t 0)) as (mk & vk & s2 & E2 & Hbk & Hvk & _).
  { intros i Hi0 F. destruct (others_differ t k i Hi Hk Hi0 F). }
  destruct (cond_insert (carma_cov sig ma om) t y e k tp m0 v0 mk vk (carma_sym sig ma om) Hy He Hk Hb0 Hbk) as (c & Hc0 & Hc).
  assert (forall Y E (s : kfp AX), holdsp s t (upd y k Y) (upd e k E) sig om ma -> (nth k t 0 = tp -> E <> 0) ->
    exists s3, Predictp solve s (Fin tp) = Ok ((Fin (m0 + c * (Y - mk) / (vk + E * E)), Fin (v0 - c * c / (vk + E * E))), s3) /\ 0 < v0 - c * c / (vk + E * E)) as HP.
  { intros Y E s Hs HE. destruct (predictp solve Hsv s _ _ _ _ _ _ Hs Hi Hm tp (with_error t e k tp E He Hok HE Hk)) as (m & v & s3 & E3 & Hb & Hv & _).
    destruct (cond_detp solve Hsv _ _ _ _ _ _ Hi Hm _ _ _ Hb) as [Hu _].
    pose proof (Rle_0_sqr E). unfold Rsqr in *. destruct (Hu _ _ (Hc Y E ltac:(lra))) as [-> ->]. exists s3. split; [exact E3|exact Hv]. }
  exists m0, v0, s1, mk, vk, s2, c. split; [exact E1|]. split; [exact E2|]. split; [exact Hv0|]. split; [exact Hvk|]. split.
  - destruct (Req_dec (nth k t 0) tp) as [Et|Et].
    + assert (m0 = mk /\ v0 = vk) as [_ Ev].
      { rewrite <- Et in Hb0. destruct (cond_detp solve Hsv (without k t) (without k y) (without k e) _ _ _ Hi' Hm _ _ _ Hbk) as [Hu _]. exact (Hu _ _ Hb0). }
      rewrite (Hc0 (eq_sym Et)), Ev. lra.
    + destruct valid_sort_index_exists as (si & Hsi). destruct (holdsp_lens _ _ _ _ _ _ _ Hs') as (_ & _ & L2 & _). rewrite without_len in L2 by exact Hk.
      destruct (PropsPred.buildp si s' t (upd y k 0) (upd e k 0) sig om ma Hsi Hi ltac:(lia) ltac:(rewrite upd_length; exact Hy) ltac:(rewrite upd_length; exact He) ltac:(apply Hm)) as (s & _ & Hs).
      destruct (HP 0 0 s Hs (fun F => False_ind _ (Et F))) as (_ & _ & Q). replace (vk + 0 * 0) with vk in Q by ring.
      assert (0 < (v0 - c * c / vk) * vk) as Q' by (apply Rmult_lt_0_compat; assumption). replace ((v0 - c * c / vk) * vk) with (v0 * vk - c * c) in Q' by (field; lra). lra.
  - intros Y E s Hs HE. destruct (HP Y E s Hs HE) as (s3 & E3 & _). exists s3. exact E3.
Qed.
Print Assumptions C123_predictp.

(** C123: a measurement whose error bar grows without bound leaves the predictions as they are without it. *)
Lemma far_error v0 vk c d eps : 0 < v0 -> 0 < vk -> c * c <= v0 * vk -> 0 < eps ->
  exists E0, 0 < E0 /\ forall E, E0 <= Rabs E -> Rabs (c * d / (vk + E * E)) < eps /\ Rabs (c * c / (vk + E * E)) < eps.
Proof.
  intros H1 H2 Hc He. set (B := Rabs (c * d) + c * c + 1). assert (0 <= c * c) as Hcc by (apply Rle_0_sqr). assert (1 <= B) as HB by (unfold B; pose proof (Rabs_pos (c * d)); lra).
  exists (B / eps + 1). assert (0 < B / eps) as HQ by (apply Rdiv_lt_0_compat; lra). split; [lra|]. intros E HE.
  assert (E * E = Rabs E * Rabs E) as EE by (rewrite <- Rabs_mult, Rabs_pos_eq; [reflexivity|apply Rle_0_sqr]).
  assert (B / eps < vk + E * E) as Hbig by (rewrite EE; nra).
  assert (B < eps * (vk + E * E)) as HBe. { apply (Rmult_lt_compat_l eps) in Hbig; [|exact He]. replace (eps * (B / eps)) with B in Hbig by (field; lra). exact Hbig. }
  assert (0 < vk + E * E) as HP by lra.
  assert (forall x, Rabs x <= B -> Rabs (x / (vk + E * E)) < eps) as HX.
  { intros x Hx. unfold Rdiv. rewrite Rabs_mult, (Rabs_pos_eq (/ (vk + E * E))) by (left; apply Rinv_0_lt_compat, HP).
    apply (Rmult_lt_reg_r (vk + E * E)); [exact HP|]. rewrite Rmult_assoc, Rinv_l, Rmult_1_r by lra. lra. }
  split; apply HX; unfold B; [lra|]. rewrite (Rabs_pos_eq (c * c)) by exact Hcc. pose proof (Rabs_pos (c * d)). lra.
Qed.
Theorem C123_large_error1 : forall (s' : kf1 AX) k (t y e : list R) sig w tp eps,
  (k < length t)%nat -> length y = length t -> length e = length t -> strictly_increasing t -> 0 < sig -> 0 < w ->
  holds1 s' (without k t) (without k y) (without k e) sig w ->
  (forall i, (i < length t)%nat -> i <> k -> nth i t 0 = tp -> nth i e 0 <> 0) -> 0 < eps ->
  exists m0 v0 s1 E0, Predict1 s' (Fin tp) = Ok ((Fin m0, Fin v0), s1) /\
    forall E (s : kf1 AX), E0 <= Rabs E -> holds1 s t y (upd e k E) sig w ->
    exists m v s3, Predict1 s (Fin tp) = Ok ((Fin m, Fin v), s3) /\ Rabs (m - m0) < eps /\ Rabs (v - v0) < eps.
Proof.
  intros s' k t y e sig w tp eps Hk Hy He Hi Hsig Hw Hs' Hok Heps.
  destruct (C123_predict1 s' k t y e sig w tp Hk Hy He Hi Hsig Hw Hs' Hok) as (m0 & v0 & s1 & mk & vk & s2 & c & E1 & _ & Hv0 & Hvk & Hc & H).
  destruct (far_error v0 vk c (nth k y 0 - mk) eps Hv0 Hvk Hc Heps) as (E0 & HE0 & HE).
  exists m0, v0, s1, E0. split; [exact E1|]. intros E s HEE Hs.
  assert (upd y k (nth k y 0) = y) as Ey.
  { apply (nth_ext _ _ 0 0); [apply upd_length|]. intros i _. destruct (Nat.eq_dec i k) as [->|N]; [apply nth_upd_same; lia|apply nth_upd_other; congruence]. }
  rewrite <- Ey in Hs. destruct (H (nth k y 0) E s Hs) as (s3 & E3); [intros _ F; rewrite F, Rabs_R0 in HEE; lra|].
  destruct (HE E HEE) as [B1 B2]. eexists _, _, s3. split; [exact E3|]. split.
  - replace (m0 + c * (nth k y 0 - mk) / (vk + E * E) - m0) with (c * (nth k y 0 - mk) / (vk + E * E)) by ring. exact B1.
  - replace (v0 - c * c / (vk + E * E) - v0) with (- (c * c / (vk + E * E))) by ring. rewrite Rabs_Ropp. exact B2.
Qed.
Print Assumptions C123_large_error1.
Theorem C123_large_errorp : forall solve (s' : kfp AX) k (t y e : list R) sig om ma tp eps, valid_solve solve ->
  (k < length t)%nat -> length y = length t -> length e = length t -> strictly_increasing t -> carma_ok sig om ma ->
  holdsp s' (without k t) (without k y) (without k e) sig om ma ->
  (forall i, (i < length t)%nat -> i <> k -> nth i t 0 = tp -> nth i e 0 <> 0) -> 0 < eps ->
  exists m0 v0 s1 E0, Predictp solve s' (Fin tp) = Ok ((Fin m0, Fin v0), s1) /\
    forall E (s : kfp AX), E0 <= Rabs E -> holdsp s t y (upd e k E) sig om ma ->
    exists m v s3, Predictp solve s (Fin tp) = Ok ((Fin m, Fin v), s3) /\ Rabs (m - m0) < eps /\ Rabs (v - v0) < eps.
Proof.
  intros solve s' k t y e sig om ma tp eps Hsv Hk Hy He Hi Hm Hs' Hok Heps.
  destruct (C123_predictp solve s' k t y e sig om ma tp Hsv Hk Hy He Hi Hm Hs' Hok) as (m0 & v0 & s1 & mk & vk & s2 & c & E1 & _ & Hv0 & Hvk & Hc & H).
  destruct (far_error v0 vk c (nth k y 0 - mk) eps Hv0 Hvk Hc Heps) as (E0 & HE0 & HE).
  exists m0, v0, s1, E0. split; [exact E1|]. intros E s HEE Hs.
  assert (upd y k (nth k y 0) = y) as Ey.
  { apply (nth_ext _ _ 0 0); [apply upd_length|]. intros i _. destruct (Nat.eq_dec i k) as [->|N]; [apply nth_upd_same; lia|apply nth_upd_other; congruence]. }
  rewrite <- Ey in Hs. destruct (H (nth k y 0) E s Hs) as (s3 & E3); [intros _ F; rewrite F, Rabs_R0 in HEE; lra|].
  destruct (HE E HEE) as [B1 B2]. eexists _, _, s3. split; [exact E3|]. split.
  - replace (m0 + c * (nth k y 0 - mk) / (vk + E * E) - m0) with (c * (nth k y 0 - mk) / (vk + E * E)) by ring. exact B1.
  - replace (v0 - c * c / (vk + E * E) - v0) with (- (c * c / (vk + E * E))) by ring. rewrite Rabs_Ropp. exact B2.
Qed.
Print Assumptions C123_large_errorp.

(** the normal log-density with a large variance *)
Lemma log_normal_large x m v n : 0 < v -> 0 < n -> - (v + (x - m) ^ 2) / (2 * n) <= log_normal x m (v + n) + 1 / 2 * ln n <= 0.
Proof.
  intros Hv Hn. unfold log_normal. assert (0 <= (x - m) ^ 2) as Hq by apply pow2_ge_0.
  assert (v + n = n * (1 + v / n)) as E by (field; lra). assert (0 < v / n) as Hr by (apply Rdiv_lt_0_compat; assumption).
  assert (ln (v + n) = ln n + ln (1 + v / n)) as L by (rewrite E, ln_mult by lra; reflexivity).
  assert (0 <= ln (1 + v / n) <= v / n) as [L1 L2].
  { split; [rewrite <- ln_1; left; apply ln_increasing; lra|]. left. rewrite <- (ln_exp (v / n)) at 2. apply ln_increasing; [lra|apply exp_ineq1; lra]. }
  assert (0 <= (x - m) ^ 2 / (2 * (v + n)) <= (x - m) ^ 2 / (2 * n)) as [Q1 Q2].
  { split; [apply Rmult_le_pos; [exact Hq|left; apply Rinv_0_lt_compat; lra]|]. apply Rmult_le_compat_l; [exact Hq|]. apply Rinv_le_contravar; lra. }
  replace (- (v + (x - m) ^ 2) / (2 * n)) with (- (1 / 2) * (v / n) - (x - m) ^ 2 / (2 * n)) by (field; lra). rewrite L. lra.
Qed.

(** C123, the log-density of CAR(1): up to the normalisation of the measurement itself, - ln (theta_1 e_k^2) / 2, it differs from the log-density without the k-th
    measurement by at most (v + (y_k - theta_2 - m)^2) / (2 theta_1 e_k^2), where m and v are the prediction for it from the others. *)
Theorem C123_density_car1 : forall (si : list (F AX) -> option (list nat)) (raw raw' : kf1 AX) k (t y e : list R),
  valid_sort_index si -> (3 <= length t)%nat -> (k < length t)%nat -> length y = length t -> length e = length t -> strictly_increasing t -> nth k e 0 <> 0 ->
  exists b b', car1_new si raw (map Fin t) (map Fin y) (map Fin e) = Ok b /\
    car1_new si raw' (map Fin (without k t)) (map Fin (without k y)) (map Fin (without k e)) = Ok b' /\
    forall b1 b1' th r w r' w' (s : kf1 AX), touched (car1_cls AX) (@setpar1 AX) b b1 -> touched (car1_cls AX) (@setpar1 AX) b' b1' ->
      (4 <= length th)%nat -> nth 0 th 0 <> 0 -> 0 < nth 1 th 0 ->
      LogDensity (car1_cls AX) b1 (map Fin th) = Ok (r, w) -> LogDensity (car1_cls AX) b1' (map Fin th) = Ok (r', w') -> r <> NInf -> r' <> NInf ->
      holds1 s (without k t) (centred (nth 2 th 0) (without k y)) (noise (nth 1 th 0) (without k e)) (2 * exp (nth 3 th 0) * (nth 0 th 0 * nth 0 th 0)) (exp (nth 3 th 0)) ->
      exists x x' m v s1, r = Fin x /\ r' = Fin x' /\ Predict1 s (Fin (nth k t 0)) = Ok ((Fin m, Fin v), s1) /\
        x' - (v + (nth k y 0 - (nth 2 th 0 + m)) ^ 2) / (2 * (nth 1 th 0 * (nth k e 0 * nth k e 0))) <= x + 1 / 2 * ln (nth 1 th 0 * (nth k e 0 * nth k e 0)) <= x'.
Proof.
  intros si raw raw' k t y e Hsi Hn Hk Hy He Hinc Hek.
  destruct (PropsInsert.C110_car1 si raw raw' k t y e Hsi Hn Hk Hy He Hinc) as (b & b' & E & E' & H).
  exists b, b'. split; [exact E|]. split; [exact E'|]. intros b1 b1' th r w r' w' s Ht Ht' HL H0 H1 EL EL' Hr Hr' Hs.
  destruct (H b1 b1' th r w r' w' s Ht Ht' HL H0 EL EL' Hr Hr' Hs) as (x' & m & v & s1 & R1 & R2 & Hv & R3).
  eexists _, x', m, v, s1. split; [exact R3|]. split; [exact R1|]. split; [exact R2|].
  assert (0 < nth 1 th 0 * (nth k e 0 * nth k e 0)) as Hnn by (apply Rmult_lt_0_compat; [exact H1|apply Rsqr_pos_lt, Hek]).
  pose proof (log_normal_large (nth k y 0) (nth 2 th 0 + m) v _ Hv Hnn) as [Q1 Q2]. unfold Rdiv in *. rewrite Ropp_mult_distr_l_reverse in Q1. lra.
Qed.
Print Assumptions C123_density_car1.

(** C123, the log-density of CARMA(p,q), p >= 2. *)
Theorem C123_density_carma : forall solve (si : list (F AX) -> option (list nat)) (raw raw' : kfp AX) p q k (t y e : list R),
  valid_solve solve -> valid_sort_index si -> goodp raw -> goodp raw' -> (2 <= p)%nat -> (q < p)%nat ->
  (3 <= length t)%nat -> (k < length t)%nat -> length y = length t -> length e = length t -> strictly_increasing t -> nth k e 0 <> 0 ->
  exists b b', carp_new si raw p (map Fin t) (map Fin y) (map Fin e) = Ok b /\
    carp_new si raw' p (map Fin (without k t)) (map Fin (without k y)) (map Fin (without k e)) = Ok b' /\
    forall th, (3 + p + q <= length th)%nat -> nth 0 th 0 <> 0 -> 0 < nth 1 th 0 ->
    exists om ma, (length om = p /\ forall s, roots_poly om s = quad_poly th 3 p s) /\ (length ma = p /\ forall z, Cmult (ma_poly ma z) (quad_poly th (3 + p) q (RtoC 0)) = quad_poly th (3 + p) q z) /\
    forall b1 b1' r w r' w' (s : kfp AX), touched (carma_cls solve p q) (@setparp AX) b b1 -> touched (carma_cls solve p q) (@setparp AX) b' b1' ->
      LogDensity (carma_cls solve p q) b1 (map Fin th) = Ok (r, w) -> LogDensity (carma_cls solve p q) b1' (map Fin th) = Ok (r', w') -> r <> NInf -> r' <> NInf ->
      holdsp s (without k t) (centred (nth 2 th 0) (without k y)) (noise (nth 1 th 0) (without k e)) (nth 0 th 0 * nth 0 th 0 / carma_acv 1 ma om 0) om ma ->
      exists x x' m v s1, r = Fin x /\ r' = Fin x' /\ Predictp solve s (Fin (nth k t 0)) = Ok ((Fin m, Fin v), s1) /\
        x' - (v + (nth k y 0 - (nth 2 th 0 + m)) ^ 2) / (2 * (nth 1 th 0 * (nth k e 0 * nth k e 0))) <= x + 1 / 2 * ln (nth 1 th 0 * (nth k e 0 * nth k e 0)) <= x'.
Proof.
  intros solve si raw raw' p q k t y e Hsv Hsi Hg Hg' Hp Hq Hn Hk Hy He Hinc Hek.
  destruct (PropsInsert.C110_carma solve si raw raw' p q k t y e Hsv Hsi Hg Hg' Hp Hq Hn Hk Hy He Hinc) as (b & b' & E & E' & H).
  exists b, b'. split; [exact E|]. split; [exact E'|]. intros th HL H0 H1. destruct (H th HL H0) as (om & ma & Ho & Hma & H'). exists om, ma. split; [exact Ho|]. split; [exact Hma|].
  intros b1 b1' r w r' w' s Ht Ht' EL EL' Hr Hr' Hs.
  destruct (H' b1 b1' r w r' w' s Ht Ht' EL EL' Hr Hr' Hs) as (x' & m & v & s1 & R1 & R2 & Hv & R3).
  eexists _, x', m, v, s1. split; [exact R3|]. split; [exact R1|]. split; [exact R2|].
  assert (0 < nth 1 th 0 * (nth k e 0 * nth k e 0)) as Hnn by (apply Rmult_lt_0_compat; [exact H1|apply Rsqr_pos_lt, Hek]).
  pose proof (log_normal_large (nth k y 0) (nth 2 th 0 + m) v _ Hv Hnn) as [Q1 Q2]. unfold Rdiv in *. rewrite Ropp_mult_distr_l_reverse in Q1. lra.
Qed.
Print Assumptions C123_density_carma.

(** *** The hypotheses are met *)
Example ex_influence1 : exists s' s : kf1 AX, holds1 s' (without 1 [0; 1; 3]) (without 1 [3; -2; 5]) (without 1 [1; 0; 2]) 2 1 /\
  holds1 s [0; 1; 3] (upd [3; -2; 5] 1 7) (upd [1; 0; 2] 1 100) 2 1.
Proof.
  destruct valid_sort_index_exists as (si & Hsi).
  destruct (PropsPred.build1 si KF1Refute.rawW (without 1 [0; 1; 3]) (without 1 [3; -2; 5]) (without 1 [1; 0; 2]) 2 1 Hsi (without_inc 1 [0; 1; 3] ltac:(cbn; lia) PropsPred.inc_013) ltac:(cbn; lia) eq_refl eq_refl) as (s' & _ & H').
  destruct (PropsPred.build1 si KF1Refute.rawW [0; 1; 3] (upd [3; -2; 5] 1 7) (upd [1; 0; 2] 1 100) 2 1 Hsi PropsPred.inc_013 ltac:(cbn; lia) eq_refl eq_refl) as (s & _ & H).
  exists s', s. split; assumption.
Qed.
Example ex_influencep : forall raw : kfp AX, exists s' s : kfp AX, carma_ok 2 PropsKFp.omE [1; 3] /\
  holdsp s' (without 1 [0; 1; 3]) (without 1 [3; -2; 5]) (without 1 [1; 0; 2]) 2 PropsKFp.omE [1; 3] /\
  holdsp s [0; 1; 3] (upd [3; -2; 5] 1 7) (upd [1; 0; 2] 1 100) 2 PropsKFp.omE [1; 3].
Proof.
  intros raw. destruct valid_sort_index_exists as (si & Hsi).
  destruct (PropsPred.buildp si raw (without 1 [0; 1; 3]) (without 1 [3; -2; 5]) (without 1 [1; 0; 2]) 2 PropsKFp.omE [1; 3] Hsi (without_inc 1 [0; 1; 3] ltac:(cbn; lia) PropsPred.inc_013) ltac:(cbn; lia) eq_refl eq_refl eq_refl) as (s' & _ & H').
  destruct (PropsPred.buildp si raw [0; 1; 3] (upd [3; -2; 5] 1 7) (upd [1; 0; 2] 1 100) 2 PropsKFp.omE [1; 3] Hsi PropsPred.inc_013 ltac:(cbn; lia) eq_refl eq_refl eq_refl) as (s & _ & H).
  exists s', s. split; [exact PropsKFp.ex_carma_ok|]. split; assumption.
Qed.
(** for the log-densities see ex_C110_car1 and ex_C110_carp in PropsInsert.v *)
