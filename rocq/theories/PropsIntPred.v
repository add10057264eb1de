(** Property theorems about the forecasts of KalmanFilterDeprecated when the array of times is an integer array (C130). *)
From Coq Require Import Reals List Arith ZArith Bool Lia Lra Permutation.
From Coquelicot Require Import Complex.
From Flocq Require Import Core.
From Verif Require Import Arith Res ListLemmas KFModel KF1Proof Spec Gauss Emb KF1R InitProof OUpd SimProof KF1Main Cx KFpModel KFpProof SpecCarma CLin KFpR KFpX KFpMain KFpTop KFpMore PyModel PyData PySim PyKFModel PyKFProof PyKFTop PyIntModel PyIntProof PropsIntTime PredLaw.
From Verif Require CarmaKernel PropsIdent PropsKF1 PropsKFp LLBound LogLikMain PyKFSim.
Import ListNotations.
Local Open Scope R_scope.

(** ** One step from the stationary state, with any divisor [T] in the place of the variance of the measurement *)
Section One.
Variables (sig : R) (om : list C) (ma : list R).
Hypothesis Hok : carma_ok sig om ma.
Let p := length om.
Let r i := nth i om (RtoC 0).
Let mf l := nth l ma 0.
Let omX : list (cx AX) := map FinC om.
Let bX := rotated omX (map Fin ma : list (F AX)).
Let b := CarmaKernel.b p r mf.
Variable J : list C.
Hypothesis HlJ : length J = p.
Hypothesis HJ : forall k, (k < p)%nat -> Csum (fun i => Cmult (Cpown (r i) k) (nth i J (RtoC 0))) p = if Nat.eqb k (p - 1) then RtoC 1 else RtoC 0.
Let V := CarmaKernel.V r (fun i => nth i J (RtoC 0)) sig.
Let E := CarmaKernel.E r.
Let SVX := mbuild p p (state_upper (Fin sig : F AX) omX (map FinC J)).

Lemma dot_cc h : dotv p b (cc p b V E h) = RtoC (carma_acv sig ma om h).
Proof.
  rewrite <- (acv_carma sig om ma Hok J HJ h).
  refine (acv_C p b V E (fun i => idx (Cconj (r i)) om) (pi_lt sig om ma Hok) (pi_pi sig om ma Hok) _ _ _ h).
  - exact (CarmaKernel.b_conj p r mf _ (r_pi sig om ma Hok)).
  - exact (CarmaKernel.V_conj p r (fun i => nth i J (RtoC 0)) sig _ (Hp1 sig om ma Hok) (pi_lt sig om ma Hok) (pi_pi sig om ma Hok) (r_pi sig om ma Hok) HJ).
  - exact (CarmaKernel.E_conj p r _ (r_pi sig om ma Hok)).
Qed.

Lemma acv0_form : fst (bform p b V b) = carma_acv sig ma om 0.
Proof.
  rewrite <- (acv_carma sig om ma Hok J HJ 0). symmetry.
  refine (acv_0 p b V E _). exact (CarmaKernel.E_0 r).
Qed.

Lemma one_step (T h inn : R) : T <> 0 ->
  let G := gainf p bX SVX (Fin T) in
  let rho := rhof p omX (Fin h) in
  linf p bX (schur p rho (axpy p (czeros AX p) G (Fin inn))) = Fin (inn * carma_acv sig ma om h / T) /\
  quadf p bX (propV p rho (condV p SVX G (Fin T)) SVX) = Fin (carma_acv sig ma om 0 - carma_acv sig ma om h * carma_acv sig ma om h / T).
Proof.
  intros HT G rho.
  assert (repm p SVX V) as HV by exact (sv_rep sig om ma Hok J HlJ).
  pose proof (gainf_fin p bX b (b_rep om ma) SVX V T HV HT) as Hg. fold G in Hg.
  pose proof (rhof_fin p omX r (omX_rep om) h) as Hr. fold rho in Hr.
  assert (repv p (czeros AX p) (fun _ => RtoC 0)) as Hz.
  { intros a Ha. unfold czeros, vnth. change (repeat (c0 AX) p) with (repeat (FinC (RtoC 0)) p). rewrite (nth_indep _ _ (FinC (RtoC 0))) by (rewrite repeat_length; exact Ha). apply nth_repeat. }
  assert (RtoC T <> RtoC 0) as HTc by (intros Q; apply HT; injection Q; auto).
  set (c := carma_acv sig ma om h).
  assert (dotv p b (fun a => Cmult (E h a) (Cdiv (mulb p b V a) (RtoC T))) = RtoC (c / T)) as Hd.
  { transitivity (Cmult (RtoC (/ T)) (dotv p b (cc p b V E h))).
    - unfold dotv. rewrite <- Csum_scal. apply Csum_ext. intros a Ha. unfold cc, uu. rewrite RtoC_inv by exact HT. unfold Cdiv. ring.
    - rewrite dot_cc. fold c. rewrite <- RtoC_mult. f_equal. unfold Rdiv. ring. }
  split.
  - refine (eq_trans (linf_fin p bX b (b_rep om ma) _ _ (schur_fin p _ _ _ _ Hr (axpy_fin p _ _ _ _ inn Hz Hg))) _). f_equal.
    transitivity (fst (Cmult (RtoC inn) (RtoC (c / T)))); [|cbn; unfold Rdiv; ring].
    f_equal. rewrite <- Hd. unfold dotv. rewrite <- Csum_scal. apply Csum_ext. intros a Ha. change (Cexp (Cmult (r a) (RtoC h))) with (E h a). ring.
  - refine (eq_trans (quadf_fin p bX b (b_rep om ma) _ _ (propV_fin p SVX V HV _ _ _ _ Hr (condV_fin p _ _ _ _ T HV Hg))) _). f_equal.
    set (w := fun a => Cmult (E h a) (Cdiv (mulb p b V a) (RtoC T))) in *.
    transitivity (fst (Cminus (bform p b V b) (Cmult (RtoC T) (Cmult (dotv p b w) (Cconj (dotv p b w)))))).
    + f_equal. unfold dotv at 2. rewrite conj_sum. unfold dotv.
      transitivity (Cminus (bform p b V b) (Csum (fun i => Csum (fun j => Cmult (Cmult (RtoC T) (Cmult (b i) (w i))) (Cconj (Cmult (b j) (w j)))) p) p)).
      * unfold bform. rewrite <- Csum_minus. apply Csum_ext. intros i Hi. rewrite <- Csum_minus. apply Csum_ext. intros j Hj.
        unfold w. change (Cexp (Cmult (r i) (RtoC h))) with (E h i). change (Cexp (Cmult (r j) (RtoC h))) with (E h j). rewrite !conj_mult. ring.
      * f_equal. set (Z := Csum (fun i => Cconj (Cmult (b i) (w i))) p). symmetry.
        transitivity (Cmult (Cmult (RtoC T) Z) (Csum (fun i => Cmult (b i) (w i)) p)); [ring|]. rewrite <- Csum_scal. apply Csum_ext. intros i Hi.
        transitivity (Cmult (Cmult (RtoC T) (Cmult (b i) (w i))) Z); [ring|]. unfold Z. rewrite <- Csum_scal. reflexivity.
    + rewrite Hd. pose proof acv0_form as Q. destruct (bform p b V b) as [q1 q2]. cbn [fst] in Q. cbn. rewrite Q. fold c. field. exact HT.
Qed.
End One.

(** C130: after one measurement at a whole time [t0], whose variance is at least 1, KalmanFilterDeprecated divides by the whole part of that variance: the mean of
    the forecast is the right one times the variance over its whole part, and the reduction of the variance is too large by the same factor. *)
Theorem C130_forecast :
  forall store solve empty (t0 : Z) (y0 e0 : R) (sig : R) (om : list C) (ma : list R),
  whole_store store -> valid_solve solve -> stable_roots om -> (2 <= length om)%nat -> (length ma <= length om)%nat ->
  (exists c, In c ma /\ c <> 0) -> 0 < sig -> 1 <= carma_acv sig ma om 0 + e0 * e0 ->
  exists d, d_new (A := AX) [Fin (IZR t0)] [Fin y0] [Fin (e0 * e0)] (Fin sig : F AX) (map FinC om) (map Fin ma) = Ok d /\
    forall t m v, IZR t0 < t -> cond_dist (carma_cov sig ma om) [IZR t0] [y0] [e0] t m v ->
      let S := carma_acv sig ma om 0 in
      let f := (S + e0 * e0) / IZR (Ztrunc (S + e0 * e0)) in
      (S - f * (S - v) <> 0 -> exists d', i_predict (A := AX) store solve empty d (Fin t) = Ok ((Fin (f * m), Fin (S - f * (S - v))), d')) /\
      1 <= f < 2 /\ S - f * (S - v) <= v.
Proof.
  intros store solve empty t0 y0 e0 sig om ma (Hs1 & Hs2) Hsv Hst H2 Hl Hc Hsig Hge.
  destruct (PyKFSim.new_holdsd [IZR t0] [y0] [e0 * e0] sig om ma Hst H2 Hl Hc Hsig) as (d & Ed & Hd & Hok).
  exists d. split; [exact Ed|]. destruct Hd as (E1 & E2 & E3 & E4 & E5 & E6).
  destruct (solve_ok solve Hsv sig om _ Hok) as (J & EJ & HlJ & HJ).
  intros t m v Ht (w & W1 & W2 & W3).
  set (SS := carma_acv sig ma om 0). fold SS in Hge. cbv zeta.
  set (x := SS + e0 * e0) in *. set (T := IZR (Ztrunc x)).
  assert (1 <= T /\ T <= x < T + 1) as (HT1 & HT2 & HT3).
  { unfold T. rewrite Ztrunc_floor by lra. pose proof (Zfloor_lb x). pose proof (Zfloor_ub x). split; [|lra].
    apply IZR_le. apply Zfloor_lub. exact Hge. }
  set (c := carma_acv sig ma om (t - IZR t0)).
  assert (w 0%nat * x = c) as Ew.
  { specialize (W1 0%nat ltac:(cbn; lia)). cbn in W1. unfold obs_cov, carma_cov in W1. cbn in W1.
    rewrite Rminus_diag_eq in W1 by reflexivity. rewrite Rabs_R0 in W1. rewrite (Rabs_pos_eq (t - IZR t0)) in W1 by lra. fold SS in W1. fold c in W1. unfold x. lra. }
  assert (m = w 0%nat * y0) as Em by (rewrite W2; cbn; ring).
  assert (v = SS - w 0%nat * c) as Ev.
  { rewrite W3. cbn. unfold carma_cov. rewrite (Rminus_diag_eq t t eq_refl). rewrite Rabs_R0, (Rabs_pos_eq (t - IZR t0)) by lra. fold SS. fold c. ring. }
  assert (x / T * m = y0 * c / T) as Fm by (rewrite Em, <- Ew; field; lra).
  assert (SS - x / T * (SS - v) = SS - c * c / T) as Fv by (rewrite Ev; replace (x / T * (SS - (SS - w 0%nat * c))) with (w 0%nat * x * c / T) by (field; lra); rewrite Ew; reflexivity).
  assert (x / T = 1 + (x - T) / T) as Fx by (field; lra).
  assert (0 <= (x - T) / T < 1) as Fd by (split; [apply Rmult_le_pos; [lra|apply Rlt_le, Rinv_0_lt_compat; lra]|apply (Rmult_lt_reg_r T); [lra|]; unfold Rdiv; rewrite Rmult_assoc, Rinv_l by lra; lra]).
  split; [|split; [lra|]].
  2:{ assert (0 <= SS - v) as K.
      { rewrite Ev. replace (SS - (SS - w 0%nat * c)) with (w 0%nat * w 0%nat * x) by (rewrite <- Ew; ring). apply Rmult_le_pos; [apply Rle_0_sqr|lra]. }
      rewrite Fx. pose proof (Rmult_le_pos _ _ (proj1 Fd) K). lra. }
  rewrite Fm, Fv. intros Hnz.
  assert (@length (F AX) (d_time d) = 1%nat) as L1 by (rewrite E1; reflexivity).
  assert (length (d_roots d) = length om) as Lr by (rewrite E5; apply map_length).
  assert (@length (F AX) (d_ma d) = length om) as Lm by (rewrite E6; change (F AX) with xr; rewrite map_length; apply Hok).
  assert (store (Fin 0) = Ok (Fin 0)) as S0 by (rewrite Hs1, trunc_small by (rewrite Rabs_R0; lra); reflexivity).
  set (mp := ma ++ repeat 0 (length om - length ma)) in *.
  unfold i_predict, i_reset. rewrite Lr. destruct (Nat.ltb_spec (length om) 2); [lia|]. rewrite E5. rewrite map_length in EJ. rewrite EJ.
  rewrite Lm, Nat.eqb_refl. cbn [negb]. change (fofZ AX 0) with (Fin 0). rewrite S0. cbn [bind]. rewrite L1.
  cbn [seq map vset length Nat.ltb Nat.leb upd bind]. rewrite E3. cbn [map vget nth_error bind].
  rewrite E4, E6. pose proof (first_var solve sig om mp (map FinC J) Hsv Hok) as Q. rewrite map_length in Q. rewrite (Q EJ).
  assert (forall h, carma_acv sig mp om h = carma_acv sig ma om h) as Epad by (intros h; apply carma_acv_pad). rewrite Epad.
  fold SS. change (fadd AX (Fin SS) (Fin (e0 * e0))) with (Fin x). rewrite Hs1. fold T.
  cbn [bind]. rewrite E2. cbn [map vget nth_error bind d_time]. rewrite E1. cbn [map last_lt].
  assert (flt AX (Fin (IZR t0)) (Fin t) = true) as -> by (cbn; destruct (Rlt_dec (IZR t0) t); [reflexivity|contradiction]).
  cbn [Nat.sub for_ bind d_roots d_time d_var d_rma d_PV d_state d_innov d_SV length vget nth_error].
  rewrite map_length. change (fsub AX (Fin t) (Fin (IZR t0))) with (Fin (t - IZR t0)).
  destruct (one_step sig om mp Hok J HlJ HJ T (t - IZR t0) y0 ltac:(lra)) as (O1 & O2). cbv zeta in O1, O2. rewrite (Epad (t - IZR t0)) in O1. rewrite (Epad 0), (Epad (t - IZR t0)) in O2. fold SS in O2. fold c in O1, O2.
  unfold dStateVar. rewrite map_length.
  rewrite O2. 
  assert (feq AX (Fin (SS - c * c / T)) (Fin 0) = false) as -> by (cbn; destruct (Req_EM_T (SS - c * c / T) 0); [contradiction|reflexivity]).
  cbn [Nat.leb]. eexists. do 3 f_equal. exact O1.
Qed.
Print Assumptions C130_forecast.

(** C130: for every set of roots and moving average coefficients there is a variance of the noise with which, one measurement made without error at the time 0
    given, the forecasts for all times soon after are given a negative variance. *)
Theorem C130_forecast_refuted :
  forall store solve empty (y0 : R) (om : list C) (ma : list R),
  whole_store store -> valid_solve solve -> stable_roots om -> (2 <= length om)%nat -> (length ma <= length om)%nat -> (exists c, In c ma /\ c <> 0) ->
  exists sig d eps, 0 < sig /\ 0 < eps /\
    d_new (A := AX) [Fin (IZR 0)] [Fin y0] [Fin (0 * 0)] (Fin sig : F AX) (map FinC om) (map Fin ma) = Ok d /\
    forall t, 0 < t < eps -> exists m v d', i_predict (A := AX) store solve empty d (Fin t) = Ok ((Fin m, Fin v), d') /\ v < 0.
Proof.
  intros store solve empty y0 om ma Hs Hsv Hst H2 Hl Hc.
  set (a := carma_acv 1 ma om 0).
  assert (0 < a) as Ha.
  { destruct (PyKFSim.new_holdsd [0] [y0] [0] 1 om ma Hst H2 Hl Hc ltac:(lra)) as (_ & _ & _ & Hok).
    unfold a. rewrite <- (carma_acv_pad 1 ma (length om - length ma) om). destruct Hok as (K1 & K2 & K3 & K4 & K5). apply LogLikMain.carma_acv_pos; assumption. }
  set (sig := 3 / 2 / a). assert (0 < sig) as Hsig by (unfold sig; apply Rmult_lt_0_compat; [lra|apply Rinv_0_lt_compat; lra]).
  assert (carma_acv sig ma om 0 = 3 / 2) as ES by (rewrite LogLikMain.carma_acv_scale; fold a; unfold sig; field; lra).
  destruct (C130_forecast store solve empty 0 y0 0 sig om ma Hs Hsv Hst H2 Hl Hc Hsig ltac:(rewrite ES; lra)) as (d & Ed & H).
  destruct (acv_continuous sig ma om 0 (1 / 4) ltac:(lra)) as (eps & He & Hcont).
  exists sig, d, eps. split; [exact Hsig|]. split; [exact He|]. split; [exact Ed|].
  intros t Ht. set (c := carma_acv sig ma om t).
  assert (5 / 4 < c) as Hc1.
  { assert (Rabs (carma_acv sig ma om t - carma_acv sig ma om 0) < 1 / 4) as K.
    { apply Hcont. split; [split; [exact I|lra]|]. unfold R_dist. cbn. unfold R_dist. rewrite Rabs_pos_eq; lra. }
    rewrite ES in K. fold c in K. apply Rabs_def2 in K. lra. }
  assert (cond_dist (carma_cov sig ma om) [IZR 0] [y0] [0] t (c / (3 / 2) * y0) (3 / 2 - c / (3 / 2) * c)) as Hd.
  { exists (fun _ => c / (3 / 2)). assert (carma_cov sig ma om t t = 3 / 2) as K1 by (unfold carma_cov; rewrite (Rminus_diag_eq t t eq_refl), Rabs_R0; exact ES).
    assert (carma_cov sig ma om t 0 = c) as K2 by (unfold carma_cov; rewrite Rminus_0_r, Rabs_pos_eq by lra; reflexivity).
    assert (carma_cov sig ma om 0 0 = 3 / 2) as K3 by (unfold carma_cov; rewrite Rminus_0_r, Rabs_R0; exact ES).
    cbn [length nth Rsum]. change (IZR 0) with 0. rewrite K1, K2. split; [|split; ring].
    intros [|j] Hj; [|lia]. cbn [nth]. rewrite K2. unfold obs_cov. cbn [nth Nat.eqb]. rewrite K3. field. }
  destruct (H t _ _ ltac:(lra) Hd) as (H1 & _ & _). cbv zeta in H1. rewrite ES in H1.
  replace (3 / 2 + 0 * 0) with (3 / 2) in H1 by ring.
  assert (Ztrunc (3 / 2) = 1%Z) as Et.
  { rewrite Ztrunc_floor by lra. apply Zfloor_imp. cbn. lra. }
  rewrite Et in H1. replace (3 / 2 - 3 / 2 / 1 * (3 / 2 - (3 / 2 - c / (3 / 2) * c))) with (3 / 2 - c * c) in H1 by field.
  assert (3 / 2 - c * c < 0) as Hneg by nra.
  destruct (H1 ltac:(lra)) as (d' & E). eauto.
Qed.
Print Assumptions C130_forecast_refuted.

(** ** A first variance of 0 *)
Lemma nf_sub_r a b : nonfin b -> nonfin (xsub a b).
Proof. intros H r. destruct b as [u| | |]; [destruct (H u eq_refl)|..]; destruct a; discriminate. Qed.

Lemma condV_nf k p M g v : (k < p)%nat -> nonfin (fst (mnth (A := AX) M k k)) -> nonfin (fst (mnth (condV (A := AX) p M g v) k k)).
Proof. intros Hk H. unfold condV. rewrite mbuild_mnth by assumption. cbn [csub fst]. apply nf_sub_l, H. Qed.
Lemma condV_nf_gain k p M g v : (k < p)%nat -> nonfin (fst (vnth (A := AX) g k)) -> nonfin (fst (mnth (condV (A := AX) p M g v) k k)).
Proof. intros Hk H. unfold condV. rewrite mbuild_mnth by assumption. cbn [csub cscale cmul fst]. apply nf_sub_r, nf_mul_r, nf_sub_l, nf_mul_l, H. Qed.
Lemma propV_nf k p r M SV : (k < p)%nat -> nonfin (fst (mnth (A := AX) M k k)) -> nonfin (fst (mnth (propV (A := AX) p r M SV) k k)).
Proof. intros Hk H. unfold propV. rewrite mbuild_mnth by assumption. cbn [cadd cmul csub fst]. apply nf_add_l, nf_sub_l, nf_mul_r, nf_sub_l, H. Qed.
Lemma quadf_nf k b M : nonfin (fst (mnth (A := AX) M k k)) -> nonfin (quadf (A := AX) (S k) b M).
Proof. intros H. unfold quadf. cbn [csum cadd cmul fst]. apply nf_add_r, nf_sub_l, nf_mul_l, nf_add_r, nf_sub_l, nf_mul_r, H. Qed.
Lemma linf_nf k b v : nonfin (fst (vnth (A := AX) v k)) -> nonfin (linf (A := AX) (S k) b v).
Proof. intros H. unfold linf. cbn [csum cadd cmul fst]. apply nf_add_r, nf_sub_l, nf_mul_r, H. Qed.
Lemma gain0_nf k p b M : (k < p)%nat -> nonfin (fst (vnth (gainf (A := AX) p b M (Fin 0)) k)).
Proof. intros Hk. unfold gainf, vnth at 1. rewrite vbuild_nth by exact Hk. apply nf_div0. Qed.
Lemma state0_nf k p r st b M inn : (k < p)%nat -> nonfin (fst (vnth (schur (A := AX) p r (axpy (A := AX) p st (gainf (A := AX) p b M (Fin 0)) inn)) k)).
Proof.
  intros Hk. unfold schur, vnth at 1. rewrite vbuild_nth by exact Hk. cbn [cmul fst]. apply nf_sub_l, nf_mul_r.
  unfold axpy, vnth at 1. rewrite vbuild_nth by exact Hk. cbn [cadd cscale fst]. apply nf_add_r, nf_mul_r, gain0_nf, Hk.
Qed.

(** C130: if the variances of the process and of the first measurement have a sum less than 1 and there are two measurements or more, predict raises for every
    time; after a single measurement it returns numbers that are not finite, for every later time. *)
Theorem C130_predict_raises :
  forall store solve empty (tz : list Z) (y v : list R) (sig : R) (om : list C) (ma : list R),
  whole_store store -> valid_solve solve -> length y = length tz -> length v = length tz -> tz <> [] ->
  stable_roots om -> (2 <= length om)%nat -> (length ma <= length om)%nat -> (exists c, In c ma /\ c <> 0) -> 0 < sig ->
  0 <= nth 0 v 0 -> carma_acv sig ma om 0 + nth 0 v 0 < 1 ->
  exists d, d_new (A := AX) (map Fin (map IZR tz)) (map Fin y) (map Fin v) (Fin sig : F AX) (map FinC om) (map Fin ma) = Ok d /\
    ((2 <= length tz)%nat -> forall t, i_predict (A := AX) store solve empty d (Fin t) = Throw Elogic) /\
    (length tz = 1%nat -> forall t, IZR (hd 0%Z tz) < t -> exists a b d', i_predict (A := AX) store solve empty d (Fin t) = Ok ((a, b), d') /\
       (forall x, a <> Fin x) /\ forall x, b <> Fin x).
Proof.
  intros store solve empty tz y v sig om ma (Hs1 & Hs2) Hsv Hy Hv Hne Hst H2 Hl Hc Hsig Hv0 Hlt.
  destruct (PyKFSim.new_holdsd (map IZR tz) y v sig om ma Hst H2 Hl Hc Hsig) as (d & Ed & Hd & Hok).
  exists d. split; [exact Ed|]. destruct Hd as (E1 & E2 & E3 & E4 & E5 & E6).
  destruct (solve_ok solve Hsv sig om _ Hok) as (J & EJ & HlJ & HJ).
  assert (0 < carma_acv sig ma om 0) as Hpos.
  { rewrite <- (carma_acv_pad sig ma (length om - length ma) om). destruct Hok as (K1 & K2 & K3 & K4 & K5). rewrite LogLikMain.carma_acv_scale. apply Rmult_lt_0_compat; [assumption|]. apply LogLikMain.carma_acv_pos; assumption. }
  assert (@length (F AX) (d_time d) = length tz) as L1 by (rewrite E1; change (F AX) with xr; rewrite !map_length; reflexivity).
  assert (@length (F AX) (d_y d) = length tz) as L2 by (rewrite E2; change (F AX) with xr; rewrite map_length; assumption).
  assert (@length (F AX) (d_yvar d) = length tz) as L3 by (rewrite E3; change (F AX) with xr; rewrite map_length; assumption).
  assert (length (d_roots d) = length om) as Lr by (rewrite E5; apply map_length).
  assert (@length (F AX) (d_ma d) = length om) as Lm by (rewrite E6; change (F AX) with xr; rewrite map_length; apply Hok).
  assert (store (Fin 0) = Ok (Fin 0)) as S0 by (rewrite Hs1, trunc_small by (rewrite Rabs_R0; lra); reflexivity).
  assert (0 < length tz)%nat as Hn by (destruct tz; [congruence|cbn; lia]).
  set (junk := map empty (seq 0 (length tz))). assert (length junk = length tz) as Lj by (unfold junk; rewrite map_length, seq_length; reflexivity).
  assert (exists d1, i_reset (A := AX) store solve empty d = Ok d1 /\ d_time d1 = d_time d /\ d_y d1 = d_y d /\ d_yvar d1 = d_yvar d /\ d_roots d1 = d_roots d /\ d_cur d1 = 1%nat /\ d_var d1 = upd junk 0 (Fin 0)) as (d1 & Er & T1 & Y1 & YV1 & R1 & C1 & V1).
  { unfold i_reset. rewrite Lr. destruct (Nat.ltb_spec (length om) 2); [lia|]. rewrite E5. rewrite map_length in EJ. rewrite EJ.
    rewrite Lm, Nat.eqb_refl. cbn [negb]. change (fofZ AX 0) with (Fin 0). rewrite S0. cbn [bind]. rewrite L1. fold junk.
    rewrite vset_ok by lia. cbn [bind]. rewrite (@vget_ok (F AX) (d_yvar d) 0 (Fin 0)) by lia. cbn [bind].
    rewrite E3, E4, E6. pose proof (first_var solve sig om _ (map FinC J) Hsv Hok) as Q. rewrite map_length in Q. rewrite (Q EJ), carma_acv_pad.
    assert (@nth (F AX) 0 (map Fin v) (Fin 0) = Fin (nth 0 v 0)) as -> by (destruct v; reflexivity).
    change (fadd AX (Fin (carma_acv sig ma om 0)) (Fin (nth 0 v 0))) with (Fin (carma_acv sig ma om 0 + nth 0 v 0)).
    rewrite Hs1, trunc_small by (rewrite Rabs_pos_eq; lra). cbn [bind]. rewrite vset_ok by lia. cbn [bind].
    rewrite (@vget_ok (F AX) (d_y d) 0 (Fin 0)) by lia. cbn [bind]. eexists. split; [reflexivity|]. cbn [d_time d_y d_yvar d_roots d_cur d_var]. auto 10. }
  assert (exists k, length om = S k) as (k & Ek) by (destruct (length om); [lia|eexists; reflexivity]).
  assert (vget (d_var d1) 0 = Ok (Fin 0)) as Eg0.
  { rewrite V1. rewrite (@vget_ok (F AX) (upd junk 0 (Fin 0)) 0 (Fin 0)) by (rewrite upd_len; lia). rewrite upd_nth_eq by lia. reflexivity. }
  assert (vget (d_time d1) 0 = Ok (nth 0 (d_time d1) (Fin 0))) as Et0 by (apply (@vget_ok (F AX)); rewrite T1; lia).
  split.
  - intros Hn2 t. unfold i_predict. rewrite Er. cbn [bind]. destruct (last_lt AX (d_time d1) (Fin t)) as [[|q]|]; [| |reflexivity].
    + cbn [Nat.sub for_ bind]. rewrite Eg0. cbn [bind]. rewrite Et0. cbn [bind]. rewrite R1, Lr, Ek.
      set (rho := rhof _ _ _). set (PV' := propV (S k) rho (condV (S k) (d_PV d1) (gainf (S k) (d_rma d1) (d_PV d1) (Fin 0)) (Fin 0)) (d_SV d1)).
      assert (nonfin (fst (mnth PV' k k))) as N by (apply propV_nf; [lia|]; apply condV_nf_gain; [lia|]; apply gain0_nf; lia).
      assert (nonfin (quadf (S k) (d_rma d1) PV')) as N2 by (apply quadf_nf, N).
      assert (feq AX (quadf (S k) (d_rma d1) PV') (fofZ AX 0) = false) as ->.
      { destruct (quadf (S k) (d_rma d1) PV') as [u| | |]; [destruct (N2 u eq_refl)|reflexivity..]. }
      replace (@length (F AX) (d_time d1)) with (length tz) by (rewrite T1; symmetry; exact L1). destruct (Nat.leb_spec (length tz) 1); [lia|].
      rewrite (@vget_ok (F AX) (d_time d1) 1 (Fin 0)) by (rewrite T1; lia). cbn [bind]. unfold i_coef_out. rewrite R1, Lr, Ek.
      rewrite (@vget_ok (F AX) (d_yvar d1) 1 (Fin 0)) by (rewrite YV1; lia). cbn [bind]. rewrite Hs2; [reflexivity|].
      change (forall x, ?a <> Fin x) with (nonfin a). apply nf_add_l, quadf_nf, propV_nf; [lia|]. apply condV_nf; [lia|exact N].
    + cbn [Nat.sub for_]. assert (i_update (A := AX) store d1 = Throw Elogic) as ->; [|reflexivity].
      unfold i_update. rewrite C1. cbn [idxm1 bind]. rewrite Eg0. cbn [bind].
      rewrite (@vget_ok (F AX) (d_time d1) 1 (Fin 0)) by (rewrite T1; lia). cbn [bind]. rewrite Et0. cbn [bind]. rewrite R1, Lr, Ek.
      rewrite Hs2; [reflexivity|]. change (forall x, ?a <> Fin x) with (nonfin a). apply linf_nf, state0_nf. lia.
  - intros Hn1 t Ht. unfold i_predict. rewrite Er. cbn [bind].
    assert (last_lt AX (d_time d1) (Fin t) = Some 0%nat) as ->.
    { rewrite T1, E1. destruct tz as [|z0 [|? ?]]; [discriminate| |discriminate]. cbn [map last_lt]. cbn [hd] in Ht.
      assert (flt AX (Fin (IZR z0)) (Fin t) = true) as -> by (cbn; destruct (Rlt_dec (IZR z0) t); [reflexivity|contradiction]). reflexivity. }
    cbn [Nat.sub for_ bind]. rewrite Eg0. cbn [bind]. rewrite Et0. cbn [bind]. rewrite R1, Lr, Ek.
    set (rho := rhof _ _ _). set (PV' := propV (S k) rho (condV (S k) (d_PV d1) (gainf (S k) (d_rma d1) (d_PV d1) (Fin 0)) (Fin 0)) (d_SV d1)).
    assert (nonfin (fst (mnth PV' k k))) as N by (apply propV_nf; [lia|]; apply condV_nf_gain; [lia|]; apply gain0_nf; lia).
    assert (nonfin (quadf (S k) (d_rma d1) PV')) as N2 by (apply quadf_nf, N).
    assert (feq AX (quadf (S k) (d_rma d1) PV') (fofZ AX 0) = false) as ->.
    { destruct (quadf (S k) (d_rma d1) PV') as [u| | |]; [destruct (N2 u eq_refl)|reflexivity..]. }
    replace (@length (F AX) (d_time d1)) with 1%nat by (rewrite T1; symmetry; etransitivity; [exact L1|exact Hn1]). cbn [Nat.leb].
    eexists _, _, _. split; [reflexivity|]. split; [|exact N2]. apply linf_nf, state0_nf. lia.
Qed.
Print Assumptions C130_predict_raises.

(** The order-two process with roots -1+i and -1-i *)
Example C130_forecast_hypotheses_met : exists solve, whole_store to_whole /\ valid_solve solve /\
  stable_roots PropsKFp.omE /\ exists sig d eps, 0 < sig /\ 0 < eps /\
    d_new (A := AX) [Fin (IZR 0)] [Fin 5] [Fin (0 * 0)] (Fin sig : F AX) (map FinC PropsKFp.omE) [Fin 1] = Ok d /\
    forall t, 0 < t < eps -> exists m v d', i_predict (A := AX) to_whole solve (fun _ => Fin 0) d (Fin t) = Ok ((Fin m, Fin v), d') /\ v < 0.
Proof.
  destruct valid_solve_exists as (solve & Hsv). exists solve. split; [exact to_whole_ok|]. split; [exact Hsv|]. split; [exact PropsKFp.ex_stable|].
  apply (C130_forecast_refuted to_whole solve (fun _ => Fin 0) 5 PropsKFp.omE [1] to_whole_ok Hsv PropsKFp.ex_stable); [cbn; lia|cbn; lia|].
  exists 1. split; [left; reflexivity|lra].
Qed.

(** The same process with a variance of 1/2 and two measurements with variance 1/4 at the times 0 and 1; and with the first of them only *)
Example C130_predict_raises_hypotheses_met : exists solve sig, valid_solve solve /\ 0 < sig /\ carma_acv sig [1] PropsKFp.omE 0 = 1 / 2 /\
  (exists d, d_new (A := AX) (map Fin (map IZR [0; 1]%Z)) (map Fin [5; 6]) (map Fin [1 / 4; 1 / 4]) (Fin sig : F AX) (map FinC PropsKFp.omE) [Fin 1] = Ok d /\
    forall t, i_predict (A := AX) to_whole solve (fun _ => Fin 0) d (Fin t) = Throw Elogic) /\
  exists d, d_new (A := AX) (map Fin (map IZR [0]%Z)) (map Fin [5]) (map Fin [1 / 4]) (Fin sig : F AX) (map FinC PropsKFp.omE) [Fin 1] = Ok d /\
    exists a b d', i_predict (A := AX) to_whole solve (fun _ => Fin 0) d (Fin 1) = Ok ((a, b), d') /\ forall x, b <> Fin x.
Proof.
  destruct valid_solve_exists as (solve & Hsv).
  set (a := carma_acv 1 [1] PropsKFp.omE 0). assert (0 < a) as Ha.
  { unfold a. rewrite <- (carma_acv_pad 1 [1] 1 PropsKFp.omE). apply LogLikMain.carma_acv_pos; [exact PropsKFp.ex_stable|cbn; lia|reflexivity|exists O; cbn; lra]. }
  exists solve, (/ (2 * a)). assert (0 < / (2 * a)) as Hs by (apply Rinv_0_lt_compat; lra).
  assert (carma_acv (/ (2 * a)) [1] PropsKFp.omE 0 = 1 / 2) as Eh by (rewrite LogLikMain.carma_acv_scale; fold a; field; lra).
  split; [exact Hsv|]. split; [exact Hs|]. split; [exact Eh|].
  assert (exists c, In c [1] /\ c <> 0) as Hc by (exists 1; split; [left; reflexivity|lra]).
  split.
  - destruct (C130_predict_raises to_whole solve (fun _ => Fin 0) [0; 1]%Z [5; 6] [1 / 4; 1 / 4] (/ (2 * a)) PropsKFp.omE [1] to_whole_ok Hsv eq_refl eq_refl ltac:(discriminate) PropsKFp.ex_stable ltac:(cbn; lia) ltac:(cbn; lia) Hc Hs ltac:(cbn; lra) ltac:(rewrite Eh; cbn; lra)) as (d & Ed & H & _).
    exists d. split; [exact Ed|]. apply H. cbn. lia.
  - destruct (C130_predict_raises to_whole solve (fun _ => Fin 0) [0]%Z [5] [1 / 4] (/ (2 * a)) PropsKFp.omE [1] to_whole_ok Hsv eq_refl eq_refl ltac:(discriminate) PropsKFp.ex_stable ltac:(cbn; lia) ltac:(cbn; lia) Hc Hs ltac:(cbn; lra) ltac:(rewrite Eh; cbn; lra)) as (d & Ed & _ & H).
    exists d. split; [exact Ed|]. destruct (H eq_refl 1 ltac:(cbn; lra)) as (u & w & d' & E & _ & Hw). exists u, w, d'. auto.
Qed.
