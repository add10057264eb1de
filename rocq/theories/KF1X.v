(** KalmanFilter1 on the extended reals: with finite data and positive parameters nothing special happens, and the
    results are the real ones.  Also the purity of Filter and Predict. *)
From Coq Require Import Reals List Arith ZArith Lra Lia Bool.
From Verif Require Import Arith Res ListLemmas KFModel KF1Proof Spec Gauss Emb KF1R History.
Import ListNotations.
Local Open Scope R_scope.

(** ** Purity, any arithmetic *)
Section Pure.
Variable A : Arith.
Definition good1 (s : kf1 A) : Prop := True.
Definition setpar1 (s : kf1 A) (w : F A) : kf1 A := SetOmega1 s w.
Definition pf1 (u : setup A (F A)) : res (list (F A) * list (F A)) :=
  Ok (map (mpure A (s_dt u) (s_y u) (s_yerr u) (s_sig u) (s_par u)) (seq 0 (length (s_time u))),
      map (vpure A (s_dt u) (s_yerr u) (s_sig u) (s_par u)) (seq 0 (length (s_time u)))).
Definition pp1 (u : setup A (F A)) (t : F A) : res (F A * F A) :=
  Ok (predpure A (s_time u) (s_dt u) (s_y u) (s_yerr u) (s_sig u) (s_par u) t).

Lemma usable_wf (s : kf1 A) : usable s -> wf s.
Proof.
  intros (H1 & H2 & H3 & H4 & H5 & H6). unfold wf. rewrite H2, diffs_length. repeat split; try assumption. lia.
Qed.

Lemma pureF1 : pureF (fun x => x) (methods1 A) good1 pf1.
Proof.
  intros s Hu _. pose proof (usable_wf s Hu) as Hwf. rewrite (Filter1_ok Hwf).
  destruct Hu as (H1 & H2 & H3 & H4 & H5 & H6). split.
  - unfold fstate, obs_filter, pf1. cbn [k_mean k_var setup_of s_dt s_y s_yerr s_sig s_par s_time].
    f_equal. f_equal; [rewrite <- H5|rewrite <- H6]; apply filled_full.
  - intros s' E. injection E as <-. split; [reflexivity|]. split; [|exact I].
    unfold usable, fstate; cbn [k_time k_dt k_y k_yerr k_mean k_var].
    rewrite !filled_length by lia. repeat split; assumption.
Qed.

Lemma pureP1 : pureP (fun x => x) (methods1 A) good1 pp1.
Proof.
  intros s t Hu _. pose proof (usable_wf s Hu) as Hwf.
  destruct (Predict1_ok Hwf t) as (s' & E & Hs & Hw & _). cbn [m_Predict methods1]. rewrite E. split; [reflexivity|].
  intros r s'' E'. injection E' as <- <-. destruct Hs as (E1 & E2 & E3 & E4 & E5 & E6).
  split; [unfold setup_of; congruence|]. split; [|exact I].
  destruct Hu as (H1 & H2 & H3 & H4 & H5 & H6). destruct Hw as (W1 & W2 & W3 & W4 & W5 & W6).
  unfold usable. rewrite E1, E2, E3, E4 in *. repeat split; assumption || lia.
Qed.

Lemma good_data1 : forall s t d y e m v sg c a b, good1 s -> good1 (mkKF A t d y e m v sg c a b (k_ext s)).
Proof. intros; exact I. Qed.
Lemma setpar_ok1 : forall s p, usable s -> good1 s ->
  usable (setpar1 s p) /\ good1 (setpar1 s p) /\ setup_of (fun x => x) (setpar1 s p) = spec_call (CSetPar A p) (setup_of (fun x => x) s).
Proof. intros s p Hu _. split; [exact Hu|]. split; [exact I|reflexivity]. Qed.
End Pure.

(** ** Finite values *)
Ltac fin_norm :=
  cbn [fadd fsub fmul fdiv fneg fabs fexp fofZ AX] in *;
  rewrite ?nth_map_Fin.

Section X.
Variables (tr yr er : list R) (sig w : R).
Let n := length tr.
Hypothesis Hinc : times_ok tr er.
Hypothesis Hsig : 0 < sig.
Hypothesis Hw : 0 < w.
Hypothesis Hey : length yr = n.
Hypothesis Hee : length er = n.
Let dt : list R := diffs AR tr.
Let e i := nth i er 0.
Let V : nat -> R := vpure AR dt er sig w.
Let M : nat -> R := mpure AR dt yr er sig w.

Lemma nthF l i : nth i (map Fin l) (fofZ AX 0) = Fin (nth i l 0).
Proof. apply nth_map_Fin. Qed.

Lemma S0_fin : fdiv AX (Fin sig) (fmul AX (fofZ AX 2) (Fin w)) = Fin (sig / (2 * w)).
Proof. cbn [fdiv fmul fofZ AX xmul]. rewrite fin_div by lra. reflexivity. Qed.

Lemma nextv_fin r vb eb : vb <> 0 ->
  nextv AX (Fin sig) (Fin w) (Fin r) (Fin vb) (Fin eb) = Fin (nextv AR sig w r vb eb).
Proof.
  intros H. unfold nextv. cbv zeta. rewrite S0_fin. cbn [fdiv fmul fsub fadd fofZ AX xmul xsub xadd].
  rewrite fin_div by exact H. reflexivity.
Qed.
Lemma nextm_fin r vb eb mb yb : vb <> 0 ->
  nextm AX (Fin r) (Fin vb) (Fin eb) (Fin mb) (Fin yb) = Fin (nextm AR r vb eb mb yb).
Proof.
  intros H. unfold nextm. cbv zeta. cbn [fdiv fmul fsub fadd fofZ AX xmul xsub xadd].
  rewrite fin_div by exact H. reflexivity.
Qed.

Lemma vpure_fin i : (i < n)%nat ->
  vpure AX (map Fin dt) (map Fin er) (Fin sig) (Fin w) i = Fin (V i).
Proof.
  induction i as [|i IH]; intros Hi.
  - cbn [vpure]. rewrite S0_fin, nthF. reflexivity.
  - cbn [vpure]. rewrite IH by lia. rewrite !nthF.
    change (fexp AX (fmul AX (fmul AX (fneg AX (fofZ AX 1)) (Fin w)) (Fin (nth i dt 0))))
      with (Fin (exp (- 1 * w * nth i dt 0))).
    pose proof (V_pos tr er sig w Hinc Hsig Hw i ltac:(lia)) as Hv.
    rewrite nextv_fin by (apply Rgt_not_eq; exact Hv). reflexivity.
Qed.

Lemma mpure_fin i : (i < n)%nat ->
  mpure AX (map Fin dt) (map Fin yr) (map Fin er) (Fin sig) (Fin w) i = Fin (M i).
Proof.
  induction i as [|i IH]; intros Hi.
  - reflexivity.
  - cbn [mpure]. rewrite IH, vpure_fin by lia. rewrite !nthF.
    change (fexp AX (fmul AX (fmul AX (fneg AX (fofZ AX 1)) (Fin w)) (Fin (nth i dt 0))))
      with (Fin (exp (- 1 * w * nth i dt 0))).
    pose proof (V_pos tr er sig w Hinc Hsig Hw i ltac:(lia)) as Hv.
    rewrite nextm_fin by (apply Rgt_not_eq; exact Hv). reflexivity.
Qed.

Section Pred.
Variable tp : R.
Let ip := lt_prefix AR tr tp.
Hypothesis Hnz : forall i, (i < n)%nat -> nth i tr 0 = tp -> e i <> 0.

Lemma forecast_fin : forecast AX (map Fin tr) (map Fin dt) (map Fin yr) (map Fin er) (Fin sig) (Fin w) (Fin tp) ip
  = (Fin (fst (forecast AR tr dt yr er sig w tp ip)), Fin (snd (forecast AR tr dt yr er sig w tp ip))).
Proof.
  pose proof (lt_prefix_len AR tr tp) as Hle. fold ip in Hle.
  unfold forecast. destruct ip as [|b] eqn:E; [rewrite S0_fin; reflexivity|].
  assert (b < n)%nat as Hb by (unfold n; simpl in *; lia).
  rewrite !nthF, vpure_fin, mpure_fin by exact Hb.
  change (fexp AX (fmul AX (fneg AX (fsub AX (Fin tp) (Fin (nth b tr 0)))) (Fin w)))
    with (Fin (exp (- (tp - nth b tr 0) * w))).
  pose proof (V_pos tr er sig w Hinc Hsig Hw b ltac:(lia)) as Hv.
  rewrite nextm_fin, nextv_fin by (apply Rgt_not_eq; exact Hv). reflexivity.
Qed.

Hypothesis Hip : (ip < n)%nat.

Lemma Hok : tp <> nth ip tr 0 \/ e ip <> 0.
Proof.
  destruct (Req_dec tp (nth ip tr 0)) as [E|E]; [right|left; exact E]. apply Hnz; [exact Hip|symmetry; exact E].
Qed.

Lemma cpure_fin k : (ip + k < n)%nat ->
  cpure AX (map Fin tr) (map Fin dt) (map Fin yr) (map Fin er) (Fin sig) (Fin w) (Fin tp) ip k
  = (Fin (cconst AR tr dt yr er sig w tp ip k), Fin (cslope AR tr dt yr er sig w tp ip k),
     Fin (cvar AR tr dt yr er sig w tp ip k)).
Proof.
  induction k as [|k IH]; intros Hk.
  - cbn [cpure]. rewrite !nthF, S0_fin. reflexivity.
  - cbn [cpure]. rewrite IH by lia. rewrite !nthF.
    pose proof (cv_bounds tr yr er sig w Hinc Hsig Hw tp Hip Hok k ltac:(lia)) as [_ Hv].
    fold dt in Hv. fold ip in Hv. unfold cconst, cslope, cvar in *. cbn [cpure].
    destruct (cpure AR tr dt yr er sig w tp ip k) as [[co sl] vb]. cbn [fst snd] in *.
    change (fexp AX (fmul AX (fmul AX (fneg AX (fofZ AX 1)) (Fin (nth (ip + k) dt 0))) (Fin w)))
      with (Fin (exp (- 1 * nth (ip + k) dt 0 * w))).
    assert (vb <> 0) as Hvb by (apply Rgt_not_eq; exact Hv).
    rewrite nextv_fin by exact Hvb. cbn [fdiv fmul fsub fadd fofZ AX xmul xsub xadd].
    rewrite !fin_div by exact Hvb. reflexivity.
Qed.

Lemma apure_fin k m p : (ip + k <= n)%nat ->
  apure AX (map Fin tr) (map Fin dt) (map Fin yr) (map Fin er) (Fin sig) (Fin w) (Fin tp) ip k (Fin m, Fin p)
  = (Fin (fst (apure AR tr dt yr er sig w tp ip k (m, p))), Fin (snd (apure AR tr dt yr er sig w tp ip k (m, p)))).
Proof.
  induction k as [|k IH]; intros Hk; [reflexivity|].
  cbn [apure]. rewrite IH by lia.
  destruct (apure AR tr dt yr er sig w tp ip k (m, p)) as [m1 p1]. cbn [fst snd].
  unfold apure1, cconst, cslope, cvar. rewrite cpure_fin by lia. cbn [fst snd]. rewrite nthF.
  pose proof (cv_bounds tr yr er sig w Hinc Hsig Hw tp Hip Hok k ltac:(lia)) as [_ Hv].
  fold dt in Hv. fold ip in Hv.
  unfold cconst, cslope, cvar in *.
  destruct (cpure AR tr dt yr er sig w tp ip k) as [[co sl] vb]. cbn [fst snd] in *.
  assert (vb <> 0) as Hvb by (apply Rgt_not_eq; exact Hv).
  cbn [fdiv fmul fsub fadd fofZ AX xmul xsub xadd]. rewrite !fin_div by exact Hvb. reflexivity.
Qed.
End Pred.

Lemma predpure_fin tp :
  (forall i, (i < n)%nat -> nth i tr 0 = tp -> e i <> 0) ->
  predpure AX (map Fin tr) (map Fin dt) (map Fin yr) (map Fin er) (Fin sig) (Fin w) (Fin tp)
  = (Fin (fst (predpure AR tr dt yr er sig w tp)), Fin (snd (predpure AR tr dt yr er sig w tp))).
Proof.
  intros Hnz. unfold predpure. rewrite lt_prefix_Fin, map_length.
  rewrite (forecast_fin tp).
  destruct (forecast_blp tr yr er sig w Hinc Hsig Hw tp) as (m0 & v0 & Hf & _ & Hv0). fold dt in Hf.
  change (@length (F AR) tr) with (length tr) in *. fold n.
  replace (forecast AR tr dt yr er sig w tp (lt_prefix AR tr tp)) with ((m0, v0) : F AR * F AR) by (symmetry; exact Hf).
  cbn [fst snd]. destruct (Nat.eqb_spec (lt_prefix AR tr tp) n) as [Heq|Hneq]; [reflexivity|].
  pose proof (lt_prefix_len AR tr tp) as Hle.
  assert (lt_prefix AR tr tp < n)%nat as Hlt by (unfold n in *; simpl in *; lia).
  cbn [fdiv fmul fofZ AX]. rewrite fin_div by lra. cbn [xmul].
  rewrite apure_fin by (try exact Hnz; try exact Hlt; lia).
  assert (tp <> nth (lt_prefix AR tr tp) tr 0 \/ e (lt_prefix AR tr tp) <> 0) as Hok' by (apply Hok; assumption).
  destruct (absorb_blp tr yr er sig w Hinc Hsig Hw tp Hlt Hok' m0 v0 (n - lt_prefix AR tr tp) Hf ltac:(lia))
    as (mm & pp & Ea & Hpp & _). fold dt in Ea.
  match goal with |- context [apure ?a ?b ?c ?d ?e ?f ?g ?h ?i ?j ?k] =>
    replace (apure a b c d e f g h i j k) with ((mm, pp) : F AR * F AR) by (symmetry; exact Ea) end.
  cbn [fst snd]. assert (0 < 1 / v0) by (apply Rdiv_lt_0_compat; lra).
  change (IZR 1) with 1 in *.
  match goal with |- context [apure ?a ?b ?c ?d ?e ?f ?g ?h ?i ?j ?k] =>
    replace (apure a b c d e f g h i j k) with ((mm, pp) : F AR * F AR) by (symmetry; exact Ea) end.
  rewrite fin_div by lra. reflexivity.
Qed.
End X.
