(** carma_pack.py: simulate, residuals, the scale of the measurement errors, DIC, the optimiser's box. *)
From Coq Require Import Reals List Arith ZArith Lra Lia Bool Permutation.
From Coquelicot Require Import Complex.
From Verif Require Import Arith Res ListLemmas KFModel KF1Proof Spec Gauss Emb KF1R History KF1X InitProof OUpd SimProof KF1Main KF1More KF1Refute.
From Verif Require Import Cx KFpModel KFpProof SpecCarma CLin KFpX KFpMain KFpTop KFpMore SpecModel CarpackModel RootsProof PriorProof LogLikProof LogLikMain CarpackTop CarpackRefute.
From Verif Require Import PyModel PyMLE PySim PyFuns PyDerive PyPredict PyLoglik.
Import ListNotations.
Local Open Scope R_scope.

(** ** simulate *)

(** The returned values are drawn one after the other, at the sorted times, from the distribution of the process with mean [mu] and
    autocovariance [K] given the data and the values already drawn. *)
Definition simulated {G} (draw : G -> F AX * G) (g : G) (K : R -> R -> R) (t y e : list R) (mu : R) (ts out : list R) : Prop :=
  exists sorted, Permutation ts sorted /\ strictly_increasing sorted /\ length out = length ts /\
  forall k, (k < length ts)%nat -> exists m v z, fst (draw (gen_after draw k g)) = Fin z /\ 0 < v /\
    cond_dist K (t ++ firstn k sorted) (map (fun x => x - mu) (y ++ firstn k out)) (e ++ repeat 0 k) (nth k sorted 0) m v /\
    nth k out 0 = mu + m + sqrt v * z.

Lemma shift_back mu (l : list R) : map (fun x => x - mu) (map (fun x => x + mu) l) = l.
Proof. rewrite map_map. rewrite <- (map_id l) at 2. apply map_ext. intros x. ring. Qed.

Lemma simulate1_holds s t y e sig w mu ts G (draw : G -> F AX * G) vsort g : holds1 s t (map (fun x => x - mu) y) e sig w -> strictly_increasing t -> 0 < sig -> 0 < w ->
  (forall g0, exists z, fst (draw g0) = Fin z) -> valid_vsort vsort -> NoDup ts -> no_exact t e ts ->
  exists o, py_simulate (methods1 AX) draw vsort s (Fin mu) (map Fin ts) g = Ok (map Fin o, gen_after draw (length ts) g) /\
    simulated draw g (ou_cov sig w) t y e mu ts o.
Proof.
  intros Hs Hinc Hsig Hw Hd Hvs Hnd Hnz. pose proof Hs as (Hu & E1 & E2 & E3 & E4 & E5).
  destruct (filter_c05 s t _ e sig w Hs Hinc Hsig Hw) as (s' & EF & _).
  destruct (pureF1 AX s Hu I) as [_ Hn]. destruct (Hn _ EF) as (Es & Hu' & _). unfold setup_of in Es. injection Es as S1 S2 S3 S4 S5 S6.
  assert (holds1 s' t (map (fun x => x - mu) y) e sig w) as Hs'.
  { split; [exact Hu'|]. exact (Logic.conj (eq_trans S1 E1) (Logic.conj (eq_trans S3 E2) (Logic.conj (eq_trans S4 E3) (Logic.conj (eq_trans S5 E4) (eq_trans S6 E5))))). }
  destruct (simulate_main G draw vsort s' t _ e sig w ts g Hs' Hinc Hsig Hw Hd Hvs Hnd Hnz) as (sorted & out & s2 & ES & HP & Hsi & Lo & H).
  exists (map (fun x => x + mu) out). split.
  - unfold py_simulate. rewrite EF. cbn [bind]. change (F AX) with xr in *. rewrite ES. cbn [bind]. rewrite !map_map. reflexivity.
  - exists sorted. pose proof (Permutation_length HP) as Lp. split; [exact HP|]. split; [exact Hsi|]. split; [rewrite map_length; lia|].
    intros k Hk. destruct (H k ltac:(lia)) as (m & v & z & Hz & Hv & Hc & Ho). exists m, v, z. split; [exact Hz|]. split; [exact Hv|]. split.
    + rewrite map_app, firstn_map, shift_back. exact Hc.
    + rewrite nth_map0 by lia. rewrite Ho. ring.
Qed.
Lemma simulatep_holds solve (Hsolve : valid_solve solve) s t y e sig om ma mu ts G (draw : G -> F AX * G) vsort g :
  holdsp s t (map (fun x => x - mu) y) e sig om ma -> strictly_increasing t -> carma_ok sig om ma ->
  (forall g0, exists z, fst (draw g0) = Fin z) -> valid_vsort vsort -> NoDup ts -> no_exact t e ts ->
  exists o, py_simulate (methodsp solve) draw vsort s (Fin mu) (map Fin ts) g = Ok (map Fin o, gen_after draw (length ts) g) /\
    simulated draw g (carma_cov sig ma om) t y e mu ts o.
Proof.
  intros Hs Hinc Hok Hd Hvs Hnd Hnz. pose proof Hs as (Hu & Hg & E1 & E2 & E3 & E4 & E5 & E6).
  destruct (filterp solve Hsolve s t _ e sig om ma Hs Hinc Hok) as (s' & EF & _).
  destruct (pureFp solve Hu Hg) as [_ Hn]. destruct (Hn _ EF) as (Es & Hu' & Hg'). unfold setup_of in Es. injection Es as S1 S2 S3 S4 S5 S6 S7.
  assert (holdsp s' t (map (fun x => x - mu) y) e sig om ma) as Hs'.
  { split; [exact Hu'|]. split; [exact Hg'|]. exact (Logic.conj (eq_trans S1 E1) (Logic.conj (eq_trans S3 E2) (Logic.conj (eq_trans S4 E3) (Logic.conj (eq_trans S5 E4) (Logic.conj (eq_trans S6 E5) (eq_trans S7 E6)))))). }
  destruct (simulatep solve Hsolve s' t _ e sig om ma Hs' Hinc Hok G draw vsort ts g Hd Hvs Hnd Hnz) as (sorted & out & s2 & ES & HP & Hsi & Lo & H).
  exists (map (fun x => x + mu) out). split.
  - unfold py_simulate. rewrite EF. cbn [bind]. change (F AX) with xr in *. rewrite ES. cbn [bind]. rewrite !map_map. reflexivity.
  - exists sorted. pose proof (Permutation_length HP) as Lp. split; [exact HP|]. split; [exact Hsi|]. split; [rewrite map_length; lia|].
    intros k Hk. destruct (H k ltac:(lia)) as (m & v & z & Hz & Hv & Hc & Ho). exists m, v, z. split; [exact Hz|]. split; [exact Hv|]. split.
    + rewrite map_app, firstn_map, shift_back. exact Hc.
    + rewrite nth_map0 by lia. rewrite Ho. ring.
Qed.

(** ** assess_fit: standardised residuals *)
Definition residuals (K : R -> R -> R) (t y e : list R) (mu : R) (r : list R) : Prop :=
  length r = length t /\ forall i, (i < length t)%nat -> exists m v, 0 < v /\
    cond_dist K (firstn i t) (firstn i (map (fun x => x - mu) y)) (firstn i e) (nth i t 0) m (v - nth i e 0 * nth i e 0) /\
    nth i r 0 = (nth i y 0 - mu - m) / sqrt v.
Lemma residual_list (y : list R) (mu : R) : forall (km kv : list xr) , length km = length y -> length kv = length y ->
  (forall i, (i < length y)%nat -> exists m v, nth_error km i = Some (Fin m) /\ nth_error kv i = Some (Fin v) /\ 0 < v) ->
  exists r, map (fun x => xdiv (xsub (xsub (fst x) (Fin mu)) (fst (snd x))) (xsqrt (snd (snd x)))) (combine (map Fin y) (combine km kv)) = map Fin r /\ length r = length y /\
   forall i m v, (i < length y)%nat -> nth_error km i = Some (Fin m) -> nth_error kv i = Some (Fin v) -> nth i r 0 = (nth i y 0 - mu - m) / sqrt v.
Proof.
  induction y as [|a y IH]; intros [|k km] [|w kv] L1 L2 H; try discriminate.
  - exists []. split; [reflexivity|]. split; [reflexivity|]. intros i m v Hi. cbn in Hi. lia.
  - destruct (IH km kv) as (r & Er & Lr & Hr); [injection L1; auto|injection L2; auto|intros i Hi; apply (H (S i)); cbn; lia|].
    destruct (H O ltac:(cbn; lia)) as (m & v & E1 & E2 & Hv). cbn in E1, E2. injection E1 as ->. injection E2 as ->.
    exists ((a - mu - m) / sqrt v :: r). split; [|split; [cbn; lia|]].
    + cbn [map combine fst snd]. rewrite Er. f_equal. cbn [xsub xadd xneg]. unfold xsqrt. destruct (Rlt_dec v 0) as [F|_]; [lra|].
      pose proof (sqrt_lt_R0 v Hv) as Hq. exact (fin_div _ _ (Rgt_not_eq _ _ Hq)).
    + intros [|i] m' v' Hi E1 E2; cbn in E1, E2 |- *; [injection E1 as <-; injection E2 as <-; reflexivity|].
      apply (Hr i); [cbn in Hi; lia|exact E1|exact E2].
Qed.
Lemma residuals1_holds s t y e sig w mu : holds1 s t (map (fun x => x - mu) y) e sig w -> strictly_increasing t -> 0 < sig -> 0 < w ->
  exists r, std_residuals (methods1 AX) s (map Fin y) (Fin mu) = Ok (map Fin r) /\ residuals (ou_cov sig w) t y e mu r.
Proof.
  intros Hs Hinc Hsig Hw. destruct (holds1_lens _ _ _ _ _ _ Hs) as (Ly & Le & _). rewrite map_length in Ly.
  destruct (filter_c05 s t _ e sig w Hs Hinc Hsig Hw) as (s' & EF & L1 & L2 & H).
  destruct (filter_main s t _ e sig w Hs (strict_times_ok _ _ Hinc) Hsig Hw) as (s'' & EF' & _ & _ & H').
  rewrite EF in EF'. injection EF' as <-.
  destruct (residual_list y mu (k_mean s') (k_var s')) as (r & Er & Lr & Hr); [exact (eq_trans L1 (eq_sym Ly))|exact (eq_trans L2 (eq_sym Ly))| |].
  { intros i Hi. destruct (H' i ltac:(lia)) as (m & v & E1 & E2 & _ & Hv & _). exists m, v. auto. }
  exists r. split; [unfold std_residuals; rewrite EF; exact (f_equal Ok Er)|]. split; [lia|].
  intros i Hi. destruct (H i Hi) as (m & v & E1 & E2 & Hc & _). destruct (H' i Hi) as (m' & v' & _ & E2' & _ & Hv & _).
  assert (v' = v) as -> by congruence. exists m, v. split; [exact Hv|]. split; [exact Hc|]. apply Hr; [lia|exact E1|exact E2].
Qed.
Lemma residualsp_holds solve (Hsolve : valid_solve solve) s t y e sig om ma mu : holdsp s t (map (fun x => x - mu) y) e sig om ma -> strictly_increasing t -> carma_ok sig om ma ->
  exists r, std_residuals (methodsp solve) s (map Fin y) (Fin mu : F AX) = Ok (map Fin r) /\ residuals (carma_cov sig ma om) t y e mu r.
Proof.
  intros Hs Hinc Hok. destruct (holdsp_lens _ _ _ _ _ _ _ Hs) as (Ly & Le & _). rewrite map_length in Ly.
  destruct (filterp solve Hsolve s t _ e sig om ma Hs Hinc Hok) as (s' & EF & L1 & L2 & H).
  destruct (residual_list y mu (k_mean s') (k_var s')) as (r & Er & Lr & Hr); [exact (eq_trans L1 (eq_sym Ly))|exact (eq_trans L2 (eq_sym Ly))| |].
  { intros i Hi. destruct (H i ltac:(lia)) as (m & v & E1 & E2 & _ & Hv & _). exists m, v. auto. }
  exists r. split; [unfold std_residuals; rewrite EF; exact (f_equal Ok Er)|]. split; [lia|].
  intros i Hi. destruct (H i Hi) as (m & v & E1 & E2 & Hc & Hv & _). exists m, v. split; [exact Hv|]. split; [exact Hc|]. apply Hr; [lia|exact E1|exact E2].
Qed.

(** ** the scale of the measurement errors plays no part in the filter behind predict *)
Definition same_but_scale {A} (r r' : list (F A)) : Prop := exists x s s' l, r = x :: s :: l /\ r' = x :: s' :: l.
Lemma Forall2_vget_scale {A} (rows rows' : list (list (F A))) : Forall2 same_but_scale rows rows' -> forall i,
  (vget rows i = Throw Elogic /\ vget rows' i = Throw Elogic) \/ exists r r', vget rows i = Ok r /\ vget rows' i = Ok r' /\ same_but_scale r r'.
Proof.
  induction 1 as [|r r' rows rows' Hr _ IH]; intros [|i]; try (left; split; reflexivity).
  - right. exists r, r'. repeat split. exact Hr.
  - apply IH.
Qed.
Lemma car1_filter_unscaled (A : Arith) (si : list (F A) -> option (list nat)) raw time y ysig rows rows' lp : Forall2 same_but_scale rows rows' ->
  car1_map_filter si raw time y ysig rows lp = car1_map_filter si raw time y ysig rows' lp.
Proof.
  intros H. unfold car1_map_filter. destruct (np_argmax A lp) as [i|?| |]; try reflexivity. cbn [bind].
  destruct (Forall2_vget_scale rows rows' H i) as [[-> ->]|(r & r' & -> & -> & (x & s & s' & l & -> & ->))]; reflexivity.
Qed.
Lemma carma_filter_unscaled (A : Arith) isreal (si : list (F A) -> option (list nat)) raw time y ysig q rows rows' lp : Forall2 same_but_scale rows rows' ->
  carma_map_filter isreal si raw time y ysig q rows lp = carma_map_filter isreal si raw time y ysig q rows' lp.
Proof.
  intros H. unfold carma_map_filter. destruct (np_argmax A lp) as [i|?| |]; try reflexivity. cbn [bind].
  destruct (Forall2_vget_scale rows rows' H i) as [[-> ->]|(r & r' & -> & -> & (x & s & s' & l & -> & ->))]; [reflexivity|].
  cbn [bind]. unfold py_derive, py_ar_roots, py_ma_coefs. cbn [vget nth_error bind length skipn Nat.add].
  destruct l as [|t2 l]; [reflexivity|]. cbn [vget nth_error bind length skipn Nat.add].
  match goal with |- bind (bind ?a _) _ = _ => destruct a as [roots|?| |]; try reflexivity end. cbn [bind].
  match goal with |- bind (bind ?a _) _ = _ => destruct a as [ma|?| |]; try reflexivity end.
Qed.

(** ** C59: the predictive variance is not the one of the likelihood's model *)
Definition tQ : list R := [0; 1].
Definition yQ : list R := [1; 0].
Definition eQ : list R := [1; 1].
Definition thQ : list R := [1; 2; 0; 0].
Lemma tQ_inc : strictly_increasing tQ.
Proof. intros [|[|i]] [|[|j]] H1 H2; cbn in *; try lia; lra. Qed.
Lemma car1_K_Q a c : car1_K thQ a c = exp (- Rabs (a - c)).
Proof. unfold car1_K, thQ. cbn [nth]. rewrite exp_0. rewrite !Rmult_1_l. reflexivity. Qed.
Lemma priorQ smax fmin fmax : data_bounds tQ yQ smax fmin fmax -> in_prior1 smax fmin fmax thQ.
Proof.
  intros [H1 H2 H3 H4 H5]. unfold tQ in H5. cbn [length nth Nat.sub] in H5.
  destruct H4 as (i & Hi & H4). destruct i as [|i]; [|cbn in Hi; lia]. cbn [nth tQ] in H4.
  assert (fmax = 1) as ->. { apply Rmult_eq_reg_r with (1 / fmax); [|rewrite H4; lra]. replace (fmax * (1 / fmax)) with 1 by (field; lra). lra. }
  unfold in_prior1, thQ. cbn [nth]. rewrite exp_0, H1, H5.
  assert (svar yQ = 1 / 2) as -> by (unfold svar, smean, yQ; cbn [length Rsum nth INR]; field).
  assert (1 / 2 <= sqrt (1 / 2)). { apply Rsqr_incr_0_var; [|apply sqrt_pos]. rewrite Rsqr_sqrt by lra. unfold Rsqr. lra. }
  repeat split; lra.
Qed.
(** predicting at the first of two times: variance with errors s *)
Lemma cond_Q (s m v : R) : cond_dist (car1_K thQ) tQ yQ [s; s] 0 m v ->
  let c := exp (-1) in ((1 + s * s) * (1 + s * s) - c * c) * (1 - v) = 1 + s * s - c * c + c * c * (s * s).
Proof.
  intros (w & Hw & _ & Hv) c. cbn [length tQ Rsum nth] in Hw, Hv. pose proof (Hw 0%nat ltac:(cbn; lia)) as A0. pose proof (Hw 1%nat ltac:(cbn; lia)) as A1.
  cbn [Rsum] in A0, A1. unfold obs_cov in A0, A1. cbn [Nat.eqb nth tQ] in A0, A1. rewrite !car1_K_Q in A0, A1, Hv.
  assert (Rabs (0 - 0) = 0) as R0 by (rewrite Rminus_0_r; apply Rabs_R0). assert (Rabs (1 - 1) = 0) as R1 by (replace (1 - 1) with 0 by ring; apply Rabs_R0).
  assert (Rabs (0 - 1) = 1) as R2 by (rewrite Rabs_left; lra). assert (Rabs (1 - 0) = 1) as R3 by (rewrite Rabs_right; lra).
  rewrite R0, R1, R2, R3, Ropp_0, exp_0 in *. assert (exp (- (1)) = c) as Ec by (unfold c; f_equal; lra). rewrite Ec in *. set (a := w 0%nat) in *. set (b := w 1%nat) in *.
  assert (a * (1 + s * s) + b * c = 1) as B0 by lra. assert (a * c + b * (1 + s * s) = c) as B1 by lra.
  assert (v = 1 - (a * 1 + b * c)) as -> by lra. set (d := 1 + s * s) in *.
  assert ((d * d - c * c) * a = d - c * c) as Ea by (replace ((d * d - c * c) * a) with (d * (a * d + b * c) - c * (a * c + b * d)) by ring; rewrite B0, B1; ring).
  assert ((d * d - c * c) * b = d * c - c) as Eb by (replace ((d * d - c * c) * b) with (d * (a * c + b * d) - c * (a * d + b * c)) by ring; rewrite B0, B1; ring).
  replace ((d * d - c * c) * (1 - (1 - (a * 1 + b * c)))) with ((d * d - c * c) * a + (d * d - c * c) * b * c) by ring. rewrite Ea, Eb. unfold d. ring.
Qed.
Lemma cond_Q_exists (s : R) : exists m v, cond_dist (car1_K thQ) tQ yQ [s; s] 0 m v.
Proof.
  set (c := exp (-1)). assert (0 < c < 1) as Hc. { unfold c. split; [apply exp_pos|]. rewrite <- exp_0. apply exp_increasing. lra. }
  set (d := 1 + s * s). assert (1 <= d) as Hd by (unfold d; nra). assert (0 < d * d - c * c) as HD by nra.
  set (w := fun i : nat => match i with O => (d - c * c) / (d * d - c * c) | _ => (d * c - c) / (d * d - c * c) end).
  eexists. eexists. exists w. split; [|split; reflexivity].
  intros j Hj. cbn [length tQ] in Hj. unfold obs_cov. cbn [length tQ Rsum nth]. rewrite !car1_K_Q.
  assert (Rabs (0 - 0) = 0) as R0 by (rewrite Rminus_0_r; apply Rabs_R0). assert (Rabs (1 - 1) = 0) as R1 by (replace (1 - 1) with 0 by ring; apply Rabs_R0).
  assert (Rabs (0 - 1) = 1) as R2 by (rewrite Rabs_left; lra). assert (Rabs (1 - 0) = 1) as R3 by (rewrite Rabs_right; lra).
  destruct j as [|[|j]]; [| |lia]; cbn [Nat.eqb nth]; unfold w; rewrite ?R0, ?R1, ?R2, ?R3, ?Ropp_0, ?exp_0; replace (exp (- (1))) with c by (unfold c; f_equal; lra); change (1 + s * s) with d; field; lra.
Qed.
Lemma sq2 : sqrt 2 * sqrt 2 = 2. Proof. apply sqrt_sqrt. lra. Qed.
Theorem predict_scale_refuted (si : list (F AX) -> option (list nat)) (raw : kf1 AX) : valid_sort_index si ->
  exists s m v m' v', car1_map_filter si raw (map Fin tQ) (map Fin yQ) (map Fin eQ) [map Fin thQ] [Fin 0] = Ok (s, Fin (nth 2 thQ 0)) /\
    py_predict (methods1 AX) s (Fin (nth 2 thQ 0)) [Fin 0] = Ok [(Fin m, Fin v)] /\
    (** the model of the likelihood: errors multiplied by the square root of the scale *)
    cond_dist (car1_K thQ) tQ (map (fun x => x - nth 2 thQ 0) yQ) (map (fun x => sqrt (nth 1 thQ 0) * x) eQ) 0 m' v' /\ v <> v'.
Proof.
  intros Hsi. destruct (car1_predict_map si raw tQ yQ eQ [thQ] [0] [0] Hsi tQ_inc) as (i & s & o & Hm & Es & Ep & Ho); try (cbn; lia); try discriminate; try reflexivity.
  - intros th [<-|[]]. split; [reflexivity|cbn; lra].
  - intros [|[|i]] Hi; cbn in Hi |- *; try lia; intros _; lra.
  - assert (i = 0%nat) as -> by (destruct Hm as [Hi _]; cbn in Hi; lia). cbn [nth map] in *. fold (car1_K thQ) in Ho.
    assert (map (fun x => x - 0) yQ = yQ) as Ey by (unfold yQ; cbn [map]; f_equal; [ring|f_equal; ring]).
    inversion Ho as [|tp mv ts o' H1 H2]; subst. inversion H2; subst. destruct mv as [m v]. cbn [map fst snd] in *.
    destruct (cond_Q_exists (sqrt 2)) as (m' & v' & H'). exists s, m, v, m', v'. split; [exact Es|]. split; [exact Ep|]. split.
    + change (nth 2 thQ 0) with 0. rewrite Ey. change (nth 1 thQ 0) with 2. unfold eQ. cbn [map]. rewrite Rmult_1_r. exact H'.
    + change (nth 2 thQ 0) with 0 in H1. rewrite Ey in H1. destruct H1 as (_ & H1). apply cond_Q in H1. apply cond_Q in H'. rewrite sq2 in H'. cbv zeta in *.
      set (c := exp (-1)) in *. assert (0 < c < 1) as Hc. { unfold c. split; [apply exp_pos|]. rewrite <- exp_0. apply exp_increasing. lra. }
      intros <-. set (u := 1 - v) in *. assert (5 * u = 1 + c * c) as E5 by nra. assert ((4 - c * c) * (1 + c * c) = 10) by nra. nra.
Qed.
