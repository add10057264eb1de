(** The acceptance probability of AdaptiveMetro::Accept in double precision. *)
From Coq Require Import Reals ZArith Bool Lra Lia List.
From Flocq Require Import Core BinarySingleNaN.
From Verif Require Import Arith Res ListLemmas Float64 Float64KF Float64LD Float64Top FloatErr FloatErrKF FloatErrLD.
Import ListNotations.
Local Open Scope R_scope.
Local Notation p2 e := (bpow radix2 e).
Local Notation one := (ofZ64 1).

(** exp at positive numbers is at least 1, or plus infinity *)
Definition exp_above (exp64 : b64 -> b64) : Prop := forall x, fin x -> 0 < val x -> exp64 x = B754_infinity false \/ (fin (exp64 x) /\ 1 <= val (exp64 x)).
Lemma exp_correct_above e : exp_correct e -> exp_above e.
Proof.
  intros [HC _] x Fx Px. pose proof (HC x Fx) as H. unfold rounds in H. pose proof (exp_ineq1 (val x) ltac:(lra)) as E1.
  destruct (Rlt_bool (Rabs (rnd (exp (val x)))) (p2 1024)).
  - right. destruct H as [F V]. split; [exact F|]. rewrite V. rewrite <- (rnd_repr 1 repr_1). apply round_le; try typeclasses eauto. lra.
  - left. rewrite Rlt_bool_false in H by lra. exact H.
Qed.

(** the exact acceptance probability as a function of the difference of the log-densities *)
Lemma accept_lip x y : Rabs (Rmin 1 (exp x) - Rmin 1 (exp y)) <= Rabs (x - y).
Proof.
  assert (forall z, Rmin 1 (exp z) = exp (- Rmax 0 (- z))) as E.
  { intros z. unfold Rmin, Rmax. destruct (Rle_dec 1 (exp z)) as [H|H]; destruct (Rle_dec 0 (- z)) as [H'|H']; try rewrite Ropp_involutive; try rewrite Ropp_0, exp_0; try reflexivity.
    - assert (exp z <= 1) by (rewrite <- exp_0; destruct (Req_dec z 0) as [->|]; [lra|left; apply exp_increasing; lra]). lra.
    - exfalso. apply H. rewrite <- exp_0. left. apply exp_increasing. lra. }
  rewrite !E. apply Rle_trans with (1 := exp_diff _ _ 0 (Rmax_l _ _) (Rmax_l _ _)). rewrite Ropp_0, exp_0, Rmult_1_r.
  unfold Rmax. destruct (Rle_dec 0 (- x)), (Rle_dec 0 (- y)); unfold Rabs; repeat destruct Rcase_abs; lra.
Qed.

Section Acc.
Variables (exp64 log64 sin64 cos64 : b64 -> b64) (pow64 : b64 -> b64 -> b64).
Hypothesis HE : exp_sane exp64.
Hypothesis HX : exp_accurate exp64.
Hypothesis HA : exp_above exp64.
Local Notation A := (A64 exp64 log64 sin64 cos64 pow64).

Lemma div_one x : fin x -> rng (val x) (val x) (Bdiv mode_NE x one).
Proof.
  intros F. destruct (ofZ_val 1) as [F1 V1]; [reflexivity|]. apply div_in; try assumption; try apply repr_val; rewrite V1; [lra|]. unfold Rdiv. rewrite Rinv_1. lra.
Qed.
Lemma alpha_in l o : rng (- p2 1000) (p2 1000) l -> rng (- p2 1000) (p2 1000) o ->
  fin (Bminus mode_NE l o) /\ fin (Bdiv mode_NE (Bminus mode_NE l o) one) /\ val (Bdiv mode_NE (Bminus mode_NE l o) one) = rnd (val l - val o).
Proof.
  intros [Fl Bl] [Fo Bo]. destruct (sub_in (- p2 1001) (p2 1001) l o Fl Fo) as [Fd _]; [apply repr_opp; rp|rp| |].
  { change (p2 1001) with (p2 (1 + 1000)). rewrite bpow_plus. change (p2 1) with 2. lra. }
  destruct (div_one _ Fd) as [F B]. split; [exact Fd|]. split; [exact F|]. rewrite <- (sub_val l o Fl Fo Fd). lra.
Qed.
Lemma accept_err l o Ln Lo Bn Bo : rng (- p2 1000) (p2 1000) l -> rng (- p2 1000) (p2 1000) o -> Rabs (val l - Ln) <= Bn -> Rabs (val o - Lo) <= Bo ->
  let a := fmin A (exp64 (Bdiv mode_NE (Bminus mode_NE l o) one)) one in
  rng 0 1 a /\ Rabs (val a - Rmin 1 (exp (Ln - Lo))) <= Bn + Bo + p2 (-49).
Proof using All.
  intros Hl Ho Hn Hb. destruct (alpha_in l o Hl Ho) as (_ & Fa & Va). set (al := Bdiv mode_NE _ one) in *. cbv zeta.
  destruct (ofZ_val 1) as [F1 V1]; [reflexivity|]. set (x := val l - val o) in *.
  assert (Rabs (x - (Ln - Lo)) <= Bn + Bo) as Hd by (unfold x; apply abs_le_iff in Hn, Hb; apply Rabs_le; lra).
  cut (rng 0 1 (fmin A (exp64 al) one) /\ Rabs (val (fmin A (exp64 al) one) - Rmin 1 (exp x)) <= p2 (-49)).
  { intros [R1 R2]. split; [exact R1|]. rewrite Rplus_comm. apply (abs3 _ _ _ _ _ R2). apply Rle_trans with (1 := accept_lip x (Ln - Lo)). exact Hd. }
  assert (p2 (-49) = 16 * u) as E49 by (unfold u; change (p2 (-49)) with (p2 (4 + -53)); rewrite bpow_plus; reflexivity). rewrite E49. pose proof u_pos as Hu.
  unfold fmin. cbn [flt A64]. pose proof (rnd_err x) as Er. rewrite <- Va in Er.
  destruct (Rle_lt_dec (val al) 0) as [Hle|Hgt].
  - assert (nonpos al) as Hnp by (left; split; assumption). destruct (HE al Hnp) as [Fe Be]. rewrite (flt_spec one (exp64 al) F1 Fe), V1, Rlt_bool_false by lra.
    split; [split; assumption|]. pose proof (HX al Fa Hle) as Ex. change (p2 (-53)) with u in Ex.
    assert (Rmin 1 (exp (val al)) = exp (val al)) as M1. { apply Rmin_right. rewrite <- exp_0. destruct (Req_dec (val al) 0) as [->|]; [lra|left; apply exp_increasing; lra]. }
    destruct (Rle_lt_dec x 0) as [Hx|Hx].
    + assert (Rmin 1 (exp x) = exp x) as ->. { apply Rmin_right. rewrite <- exp_0. destruct (Req_dec x 0) as [->|]; [lra|left; apply exp_increasing; lra]. }
      pose proof (exp_arg (- x) (- val al) ltac:(lra)) as Q. rewrite !Ropp_involutive in Q. replace (16 * u) with (u + 15 * u) by ring. apply (abs3 _ _ _ _ _ Ex). 
      apply Rle_trans with (14 * u); [apply Q|lra]. replace (- val al - - x) with (- (val al - x)) by ring. rewrite Rabs_Ropp. apply Rle_trans with (1 := Er). rewrite (Rabs_left1 x) by lra. pose proof eta_u. nra.
    + assert (0 <= val al) as Hz. { rewrite Va. rewrite <- (rnd_repr 0 repr_0). apply round_le; try typeclasses eauto. lra. }
      assert (val al = 0) as Z by lra. rewrite Z, exp_0 in Ex. assert (Rmin 1 (exp x) = 1) as ->. { apply Rmin_left. rewrite <- exp_0. left. apply exp_increasing. lra. }
      apply Rle_trans with (1 := Ex). lra.
  - assert (0 < x) as Hx. { destruct (Rle_lt_dec x 0) as [H|H]; [exfalso|exact H]. assert (rnd x <= rnd 0) as Q0 by (apply round_le; try typeclasses eauto; lra); rewrite (rnd_repr 0 repr_0) in Q0. lra. }
    assert (Rmin 1 (exp x) = 1) as ->. { apply Rmin_left. rewrite <- exp_0. left. apply exp_increasing. lra. }
    assert (fin (if Bltb one (exp64 al) then one else exp64 al) /\ val (if Bltb one (exp64 al) then one else exp64 al) = 1) as [F V].
    { destruct (HA al Fa Hgt) as [->|[Fe Be]]; [split; [exact F1|exact V1]|]. rewrite (flt_spec one (exp64 al) F1 Fe), V1. destruct (Rlt_bool_spec 1 (val (exp64 al))); [split; assumption|split; [exact Fe|lra]]. }
    split; [split; [exact F|change (0 <= val (if Bltb one (exp64 al) then one else exp64 al) <= 1); rewrite V; lra]|].
    change (Rabs (val (if Bltb one (exp64 al) then one else exp64 al) - 1) <= 16 * u). rewrite V. rewrite Rminus_eq_0, Rabs_R0. lra.
Qed.
End Acc.
