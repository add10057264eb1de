(** C111: predictions further away from the measurements. *)
From Coq Require Import Reals List Arith ZArith Lra Lia Bool.
From Coquelicot Require Import Complex.
From Verif Require Import Arith Res ListLemmas KFModel Spec Gauss Emb History InitProof KF1X KF1Main KF1More.
From Verif Require Import Cx KFpModel KFpProof SpecCarma CLin KFpX KFpMain KFpTop Sym SymTime PredLaw FarProof.
From Verif Require KF1Refute PropsKF1 PropsKFp PropsPred.
Import ListNotations.
Local Open Scope R_scope.
Local Notation length := List.length.

(** C111, CAR(1): outside the range of the measurement times, moving the predicted time further away from the measurements never makes the variance smaller
    and never moves the mean away from zero, before the first measurement as after the last. *)
Theorem C111_car1 : forall (s : kf1 AX) t y e sig w tp1 tp2, holds1 s t y e sig w -> strictly_increasing t -> 0 < sig -> 0 < w ->
  nth (length t - 1) t 0 < tp1 <= tp2 \/ tp2 <= tp1 < nth 0 t 0 ->
  exists m1 v1 s1 m2 v2 s2, Predict1 s (Fin tp1) = Ok ((Fin m1, Fin v1), s1) /\ Predict1 s (Fin tp2) = Ok ((Fin m2, Fin v2), s2) /\
    v1 <= v2 /\ Rabs m2 <= Rabs m1.
Proof.
  intros s t y e sig w tp1 tp2 Hs Hi Hsig Hw [H|H]; [exact (forecast_monotone s t y e sig w Hs Hi Hsig Hw tp1 tp2 H)|].
  destruct (holds1_lens _ _ _ _ _ _ Hs) as (Ly & Le & Ln & _).
  set (t' := new_times true 1 0 t). set (y' := rescale true 1 0 y). set (e' := rescale true 1 0 e).
  pose proof (new_times_inc true 1 0 t Rlt_0_1 Hi) as Hi'.
  destruct valid_sort_index_exists as [si Hsi].
  destruct (PropsPred.build1 si s t' y' e' (1 * 1 * sig / 1) (w / 1) Hsi Hi') as (s' & _ & Hs'); unfold t', y', e';
    try (rewrite ?rescale_len, ?new_times_len; assumption); try (rewrite ?rescale_len, ?new_times_len; congruence).
  assert (forall tp, tp < nth 0 t 0 -> forall i, (i < length t)%nat -> nth i t 0 = tp -> nth i e 0 <> 0) as Hok.
  { intros tp Htp i Hil E. exfalso. destruct i as [|i]; [lra|]. pose proof (Hi 0%nat (S i) ltac:(lia) Hil). lra. }
  destruct (PropsPred.C98_predict1 true 1 1 0 s s' t y e sig w tp1 ltac:(lra) Rlt_0_1 Hs Hs' Hi Hsig Hw (Hok tp1 ltac:(lra))) as (m1 & v1 & s1 & s1' & E1 & E1').
  destruct (PropsPred.C98_predict1 true 1 1 0 s s' t y e sig w tp2 ltac:(lra) Rlt_0_1 Hs Hs' Hi Hsig Hw (Hok tp2 ltac:(lra))) as (m2 & v2 & s2 & s2' & E2 & E2').
  destruct (forecast_monotone s' t' y' e' (1 * 1 * sig / 1) (w / 1) Hs' Hi' ltac:(lra) ltac:(lra) (new_time true 1 0 tp1) (new_time true 1 0 tp2)) as (a1 & b1 & u1 & a2 & b2 & u2 & F1 & F2 & Hv & Hm).
  { unfold t'. rewrite new_times_len, new_times_nth by lia. cbn [back_idx]. replace (length t - 1 - (length t - 1))%nat with 0%nat by lia. unfold new_time. lra. }
  rewrite E1' in F1. injection F1 as <- <- _. rewrite E2' in F2. injection F2 as <- <- _.
  exists m1, v1, s1, m2, v2, s2. split; [exact E1|]. split; [exact E2|]. rewrite !Rmult_1_l in *. split; [lra|exact Hm].
Qed.
Print Assumptions C111_car1.

(** C111 is false for p >= 2: with autoregressive roots -1/4 + i and -1/4 - i and two exact measurements half a cycle apart, half a cycle after the last one the
    variance is smaller and the mean further from zero than a quarter of a cycle after it, whichever way solve() works and whatever the object was used for. *)
Theorem C111_carp_refuted : exists (t y e : list R) sig om ma tp1 tp2, strictly_increasing t /\ length t = 2%nat /\ length y = 2%nat /\ length e = 2%nat /\ carma_ok sig om ma /\
  (forall z, ma_poly ma z = RtoC 1) /\ nth 1 t 0 < tp1 < tp2 /\
  forall solve (s : kfp AX), valid_solve solve -> holdsp s t y e sig om ma ->
  exists m1 v1 s1 m2 v2 s2, Predictp solve s (Fin tp1) = Ok ((Fin m1, Fin v1), s1) /\ Predictp solve s (Fin tp2) = Ok ((Fin m2, Fin v2), s2) /\
    v2 < v1 /\ Rabs m1 < Rabs m2.
Proof.
  exists tO, yO, eO, 1, omO, maO, (PI / 2), PI. pose proof PI_RGT_0 as Hpi.
  split; [exact incO|]. repeat (split; [reflexivity|]). split; [exact okO|].
  split; [intros z; unfold ma_poly, maO; cbn [length Csum nth Cpown]; apply C_eq; destruct z; cbn; ring|]. split; [cbn; lra|].
  intros solve s Hsv Hs.
  assert (forall tp, 0 < tp -> forall i, (i < length tO)%nat -> nth i tO 0 = tp -> nth i eO 0 <> 0) as Hok.
  { intros tp Htp [|[|i]] Hil E; cbn in *; try lia; exfalso; lra. }
  destruct (predictp solve Hsv s tO yO eO 1 omO maO Hs incO okO (PI / 2) (Hok (PI / 2) ltac:(lra))) as (m1 & v1 & s1 & E1 & C1 & _).
  destruct (predictp solve Hsv s tO yO eO 1 omO maO Hs incO okO PI (Hok PI ltac:(lra))) as (m2 & v2 & s2 & E2 & C2 & _).
  destruct (proj1 (cond_detp solve Hsv tO yO eO 1 omO maO incO okO (PI / 2) m1 v1 C1) _ _ quarter) as [<- <-].
  destruct (proj1 (cond_detp solve Hsv tO yO eO 1 omO maO incO okO PI m2 v2 C2) _ _ half) as [<- <-].
  do 6 eexists. split; [exact E1|]. split; [exact E2|].
  destruct qO_bounds as (B1 & B2). assert (0 < qO) as B3 by apply exp_pos. rewrite Rabs_Ropp, (Rabs_right (qO * (1 / 4))), (Rabs_right (qO * qO)) by lra. clear - B1 B2 B3. assert (1 / 4 < qO) as B4 by nra. split; [|nra].
  set (q2 := qO * qO) in *. replace (qO * (1 / 4) * (qO * (1 / 4))) with (q2 * (1 / 16)) by (unfold q2; field). nra.
Qed.
Print Assumptions C111_carp_refuted.

(** *** The hypotheses are met *)
(** such objects are what the constructors return *)
Example ex_C111 : forall (si : list (F AX) -> option (list nat)) (raw : kfp AX) (raw1 : kf1 AX), valid_sort_index si ->
  (exists s, holdsp s tO yO eO 1 omO maO) /\ (exists s, holds1 s [0; 1; 3] [1; 2; 0] [0; 1; 1] 2 3).
Proof.
  intros si raw raw1 Hsi. split.
  - destruct (PropsPred.buildp si raw tO yO eO 1 omO maO Hsi incO ltac:(cbn; lia) eq_refl eq_refl eq_refl) as (s & _ & Hs). exists s. exact Hs.
  - destruct (PropsPred.build1 si raw1 [0; 1; 3] [1; 2; 0] [0; 1; 1] 2 3 Hsi PropsPred.inc_013 ltac:(cbn; lia) eq_refl eq_refl) as (s & _ & Hs). exists s. exact Hs.
Qed.
