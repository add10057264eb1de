(** A CAR(2) process whose predictions become more certain further away from the data. *)
From Coq Require Import Reals List Arith ZArith Lra Lia Bool.
From Coquelicot Require Import Complex.
From Verif Require Import Arith Res ListLemmas KFModel Spec Gauss Emb History InitProof KF1X KF1Main KF1More.
From Verif Require Import Cx KFpModel KFpProof SpecCarma CLin KFpX KFpMain KFpTop.
Import ListNotations.
Local Open Scope R_scope.
Local Notation length := List.length.

(** roots -1/4 + i and -1/4 - i, no moving average *)
Definition omO : list C := [(- (1 / 4), 1); (- (1 / 4), - (1))].
Definition maO : list R := [1; 0].
(** exact measurements half a cycle apart *)
Definition tO : list R := [- PI; 0].
Definition yO : list R := [1; 1].
Definition eO : list R := [0; 0].

Lemma acvO s tau : carma_acv s maO omO tau = s * (16 / 17 * (exp (- tau / 4) * (cos tau + 1 / 4 * sin tau))).
Proof.
  unfold carma_acv, omO, maO. f_equal. cbn [length Csum nth].
  assert (forall z, ma_poly [1; 0] z = RtoC 1) as M.
  { intros z. unfold ma_poly. cbn [length Csum nth Cpown]. apply C_eq; destruct z; cbn; ring. }
  rewrite !M. unfold carma_denom. cbn [length Cprod nth Nat.eqb fst].
  match goal with |- fst (Cplus (Cplus _ (Cdiv _ ?d0)) (Cdiv _ ?d1)) = _ => assert (d0 = (2, 1 / 2)) as -> by (apply C_eq; cbn; field); assert (d1 = (2, - (1 / 2))) as -> by (apply C_eq; cbn; field) end.
  unfold Cexp. cbn. replace (-1 * tau - 0 * 0) with (- tau) by ring.
  replace (- (1 / 4) * tau - 1 * 0) with (- tau / 4) by field. replace (- (1 / 4) * tau - - (1) * 0) with (- tau / 4) by field.
  replace (- (1 / 4) * 0 + 1 * tau) with tau by ring. replace (- (1 / 4) * 0 + - (1) * tau) with (- tau) by ring.
  rewrite cos_neg, sin_neg. field.
Qed.
Lemma okO : carma_ok 1 omO maO.
Proof.
  split; [split; [|split]|].
  - constructor; [|constructor; [intros []|constructor]]. intros [H|[]]. apply (f_equal snd) in H. cbn in H. lra.
  - intros z [<-|[<-|[]]]; cbn; lra.
  - intros z [<-|[<-|[]]]; unfold Cconj; cbn; [right; left|left]; f_equal; ring.
  - split; [cbn; lia|]. split; [reflexivity|]. split; [exists 0%nat; cbn; lra|lra].
Qed.
Lemma incO : strictly_increasing tO.
Proof. intros [|[|i]] [|[|j]] H1 H2; cbn in *; try lia. pose proof PI_RGT_0. lra. Qed.

(** the square root of the correlation half a cycle away, up to sign *)
Definition qO : R := exp (- PI / 8).
Lemma qO_bounds : 1 / 16 < qO * qO < 1.
Proof.
  unfold qO. rewrite <- exp_plus. replace (- PI / 8 + - PI / 8) with (- (PI / 4)) by field. split.
  - rewrite exp_Ropp. assert (exp (PI / 4) <= 3) as H.
    { eapply Rle_trans; [|exact exp_le_3]. pose proof PI_4. destruct (Req_dec (PI / 4) 1) as [->|]; [lra|]. left. apply exp_increasing. lra. }
    pose proof (exp_pos (PI / 4)). apply Rlt_le_trans with (/ 3); [lra|]. apply Rinv_le_contravar; lra.
  - rewrite <- exp_0. apply exp_increasing. pose proof PI_RGT_0. lra.
Qed.
(** the autocovariance at 0, 1/4, 1/2, 3/4 and 1 cycle *)
Lemma acvO_vals : carma_acv 1 maO omO 0 = 16 / 17 /\ carma_acv 1 maO omO (PI / 2) = 16 / 17 * (qO * (1 / 4)) /\ carma_acv 1 maO omO PI = 16 / 17 * (- (qO * qO)) /\
  carma_acv 1 maO omO (3 * (PI / 2)) = 16 / 17 * (- (qO * qO * qO * (1 / 4))) /\ carma_acv 1 maO omO (2 * PI) = 16 / 17 * (qO * qO * (qO * qO)).
Proof.
  rewrite !acvO. unfold qO. rewrite <- !exp_plus.
  replace (- 0 / 4) with 0 by field. rewrite exp_0, cos_0, sin_0, cos_PI2, sin_PI2, cos_PI, sin_PI, cos_2PI, sin_2PI, cos_3PI2, sin_3PI2.
  split; [ring|]. split; [replace (- (PI / 2) / 4) with (- PI / 8) by field; ring|].
  split; [replace (- PI / 8 + - PI / 8) with (- PI / 4) by field; ring|].
  split; [replace (- PI / 8 + - PI / 8 + - PI / 8) with (- (3 * (PI / 2)) / 4) by field; ring|].
  replace (- PI / 8 + - PI / 8 + (- PI / 8 + - PI / 8)) with (- (2 * PI) / 4) by field. ring.
Qed.
Lemma covO a b : carma_cov 1 maO omO a b = carma_acv 1 maO omO (Rabs (a - b)).
Proof. reflexivity. Qed.
(** a quarter cycle after the last measurement *)
Lemma quarter : cond_dist (carma_cov 1 maO omO) tO yO eO (PI / 2) (qO * (1 / 4)) (16 / 17 * (1 - qO * (1 / 4) * (qO * (1 / 4)))).
Proof.
  destruct acvO_vals as (V0 & V1 & V2 & V3 & V4). pose proof PI_RGT_0 as Hpi.
  exists (fun k => if (k =? 1)%nat then qO * (1 / 4) else 0). unfold tO, yO, eO, obs_cov. cbn [length Rsum nth Nat.eqb].
  rewrite !covO. split; [|split].
  - intros j Hj. destruct j as [|[|j]]; [| |lia]; cbn [nth Nat.eqb]; rewrite !covO.
    + rewrite (Rabs_right (0 - - PI)), (Rabs_right (PI / 2 - - PI)) by lra. replace (0 - - PI) with PI by ring. replace (PI / 2 - - PI) with (3 * (PI / 2)) by field. rewrite V2, V3. ring.
    + rewrite (Rabs_right (0 - 0)), (Rabs_right (PI / 2 - 0)) by lra. replace (0 - 0) with 0 by ring. replace (PI / 2 - 0) with (PI / 2) by ring. rewrite V0, V1. ring.
  - ring.
  - rewrite (Rabs_right (PI / 2 - PI / 2)), (Rabs_right (PI / 2 - 0)) by lra. replace (PI / 2 - PI / 2) with 0 by ring. replace (PI / 2 - 0) with (PI / 2) by ring. rewrite V0, V1. ring.
Qed.
(** half a cycle after it *)
Lemma half : cond_dist (carma_cov 1 maO omO) tO yO eO PI (- (qO * qO)) (16 / 17 * (1 - qO * qO * (qO * qO))).
Proof.
  destruct acvO_vals as (V0 & V1 & V2 & V3 & V4). pose proof PI_RGT_0 as Hpi.
  exists (fun k => if (k =? 1)%nat then - (qO * qO) else 0). unfold tO, yO, eO, obs_cov. cbn [length Rsum nth Nat.eqb].
  rewrite !covO. split; [|split].
  - intros j Hj. destruct j as [|[|j]]; [| |lia]; cbn [nth Nat.eqb]; rewrite !covO.
    + rewrite (Rabs_right (0 - - PI)), (Rabs_right (PI - - PI)) by lra. replace (0 - - PI) with PI by ring. replace (PI - - PI) with (2 * PI) by ring. rewrite V2, V4. ring.
    + rewrite (Rabs_right (0 - 0)), (Rabs_right (PI - 0)) by lra. replace (0 - 0) with 0 by ring. replace (PI - 0) with PI by ring. rewrite V0, V2. ring.
  - ring.
  - rewrite (Rabs_right (PI - PI)), (Rabs_right (PI - 0)) by lra. replace (PI - PI) with 0 by ring. replace (PI - 0) with PI by ring. rewrite V0, V2. ring.
Qed.
