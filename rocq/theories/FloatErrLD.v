(** Rounding error of CAR1::LogDensity in double precision. *)
From Coq Require Import Reals ZArith Bool Lra Lia List.
From Flocq Require Import Core BinarySingleNaN.
From Verif Require Import Arith Res ListLemmas KFModel KF1Proof KF1R KF1X KF1More Emb Spec SpecModel History Cx KFpModel KFpMore CarpackModel LogLikProof Float64 Float64KF Float64LD Float64Top FloatErr FloatErrKF.
Import ListNotations.
Local Open Scope R_scope.
Local Notation p2 e := (bpow radix2 e).
Local Notation "x ⊕ y" := (Bplus mode_NE x y) (at level 50, left associativity).
Local Notation "x ⊖ y" := (Bminus mode_NE x y) (at level 50, left associativity).
Local Notation "x ⊗ y" := (Bmult mode_NE x y) (at level 40, left associativity).
Local Notation "x ⊘ y" := (Bdiv mode_NE x y) (at level 40, left associativity).
Local Notation "l .[ i ]" := (nth i l (ofZ64 0)) (at level 2, format "l .[ i ]").
Local Notation half := (ofZ64 1 ⊘ ofZ64 2).

(** What is used of libm: log is off by at most 2^-53 (1 + |log x|) at positive numbers, exp by at most one part in 2^52 where its
    value lies between 2^-200 and 2^200. *)
Definition log_accurate (log64 : b64 -> b64) : Prop := forall x, fin x -> 0 < val x ->
  fin (log64 x) /\ Rabs (val (log64 x) - ln (val x)) <= p2 (-53) * (1 + Rabs (ln (val x))).
Definition exp_relative (exp64 : b64 -> b64) : Prop := forall x, fin x -> rng (p2 (-200)) (p2 200) (exp64 x) ->
  Rabs (val (exp64 x) - exp (val x)) <= p2 (-52) * exp (val x).

(** ** Logarithms *)
Lemma ln_le_lin x : 0 < x -> ln x <= x - 1.
Proof. intros H. pose proof (exp_ineq1_le (ln x)) as E. rewrite exp_ln in E by exact H. lra. Qed.
Lemma ln_diff a x y : 0 < a -> a <= x -> a <= y -> Rabs (ln x - ln y) <= Rabs (x - y) * / a.
Proof.
  intros Ha Hx Hy.
  assert (forall s t, a <= s -> a <= t -> ln s - ln t <= Rabs (s - t) * / a) as K.
  { intros s t Hs Ht. assert (ln s - ln t = ln (s / t)) as -> by (unfold Rdiv; rewrite ln_mult, ln_Rinv; try lra; apply Rinv_0_lt_compat; lra). assert (0 < s / t) as P by (apply Rdiv_lt_0_compat; lra). apply Rle_trans with (1 := ln_le_lin _ P).
    replace (s / t - 1) with ((s - t) * / t) by (field; lra). apply Rle_trans with (Rabs (s - t) * / t).
    - apply Rmult_le_compat_r; [left; apply Rinv_0_lt_compat; lra|apply Rle_abs].
    - apply Rmult_le_compat_l; [apply Rabs_pos|]. apply Rinv_le_contravar; lra. }
  apply Rabs_le. pose proof (K x y Hx Hy). pose proof (K y x Hy Hx). rewrite (Rabs_minus_sym y x) in *. lra.
Qed.
Lemma ln_p2 k : ln (p2 k) = IZR k * ln 2.
Proof.
  rewrite bpow_powerRZ. change (IZR radix2) with 2. destruct k as [|p|p].
  - cbn. rewrite ln_1. lra.
  - cbn [powerRZ]. rewrite ln_pow by lra. rewrite INR_IZR_INZ, positive_nat_Z. reflexivity.
  - cbn [powerRZ]. rewrite ln_Rinv by (apply pow_lt; lra). rewrite ln_pow by lra. rewrite INR_IZR_INZ, positive_nat_Z.
    change (Z.neg p) with (- Z.pos p)%Z. rewrite opp_IZR. lra.
Qed.
Lemma ln2_in : 0 < ln 2 <= 1.
Proof. split; [rewrite <- ln_1; apply ln_increasing; lra|]. pose proof (ln_le_lin 2 ltac:(lra)). lra. Qed.
Lemma ln_in (k : Z) x : (0 <= k)%Z -> p2 (- k) <= x <= p2 k -> Rabs (ln x) <= IZR k.
Proof.
  intros Hk [H1 H2]. pose proof (bpow_gt_0 radix2 (- k)) as P. pose proof ln2_in as L. assert (0 <= IZR k) as Z0 by (apply IZR_le; exact Hk).
  assert (ln (p2 (- k)) <= ln x) as A by (destruct H1 as [H1| <-]; [left; apply ln_increasing; lra|right; reflexivity]).
  assert (ln x <= ln (p2 k)) as B by (destruct H2 as [H2| ->]; [left; apply ln_increasing; lra|right; reflexivity]).
  rewrite ln_p2 in A, B. rewrite opp_IZR in A. apply Rabs_le. nra.
Qed.
Lemma half_val : fin half /\ val half = 1 / 2 /\ fin (Bopp half) /\ val (Bopp half) = - (1 / 2).
Proof. destruct half_in as [F B]. destruct (opp_rng _ _ _ half_in) as [F' B']. repeat split; try assumption; lra. Qed.

(** ** One term of the sum, over the reals *)
Section Term.
Variables (B em K n : R) (y mu m m' v v' b1 yc h1 h2 h3 l o z : R).
Hypothesis HB : 0 < B.
Hypothesis Hem : 0 < em.
Hypothesis HeB : eta <= u * B.
Hypothesis HeB2 : eta <= u * (B * B).
Hypothesis HK : 1 <= K.
Hypothesis Hn : 1 <= n.
Hypothesis Hy : Rabs y <= B / 2.
Hypothesis Hmu : Rabs mu <= B / 2.
Hypothesis Hm : Rabs m <= 2 * B.
Hypothesis Hm' : Rabs m' <= 4 * B.
Hypothesis Hmm : Rabs (m' - m) <= 2420 * (n * n - 1) * (u * K * B).
Hypothesis Hv : em <= v.
Hypothesis Hv' : em / 2 <= v'.
Hypothesis Hvv : Rabs (v' - v) <= 175 * n * (u * K * em).
Hypothesis H1 : near b1 (y - m').
Hypothesis H2 : near yc (b1 - mu).
Hypothesis H3 : near h1 (1 / 2 * yc).
Hypothesis H4 : near h2 (h1 * yc).
Hypothesis H5 : near h3 (h2 / v').
Hypothesis Hlv : Rabs (ln v') <= 1003.
Hypothesis H6 : Rabs (l - ln v') <= u * (1 + Rabs (ln v')).
Hypothesis H7 : near o (- (1 / 2) * l).
Hypothesis H8 : near z (o - h3).
Let rho := B * B / em.
Let r := y - mu - m.
Lemma rho_pos : 0 < rho.
Proof using HB Hem. apply Rdiv_lt_0_compat; [apply Rmult_lt_0_compat; lra|lra]. Qed.
Lemma uK : u <= u * K /\ 0 < u * K.
Proof using HK. pose proof u_pos. split; [rewrite <- (Rmult_1_r u) at 1; apply Rmult_le_compat_l; lra|apply Rmult_lt_0_compat; lra]. Qed.
Lemma uB_small : u * B <= B / 1000000.
Proof using HB. pose proof u_small. assert (u * B <= / 1048576 * B) by (apply Rmult_le_compat_r; lra). lra. Qed.
Lemma r_abs : Rabs r <= 3 * B.
Proof using Hy Hmu Hm. apply abs_le_iff in Hy, Hmu, Hm. apply Rabs_le. unfold r. lra. Qed.
Lemma yc_near : Rabs (yc - (y - m' - mu)) <= 13 * (u * B) /\ Rabs yc <= 6 * B.
Proof using HB Hy Hmu Hm' HeB H1 H2.
  pose proof uB_small. pose proof u_pos. pose proof eta_pos.
  assert (Rabs (y - m') <= 9 / 2 * B) as B1 by (apply abs_le_iff in Hy, Hm'; apply Rabs_le; lra).
  assert (Rabs (b1 - (y - m')) <= 6 * (u * B)) as E1 by (apply Rle_trans with (1 := near_le _ _ _ H1 B1); lra).
  assert (Rabs (b1 - mu) <= 51 / 10 * B) as B2 by (apply abs_le_iff in B1, E1, Hmu; apply Rabs_le; lra).
  assert (Rabs (yc - (b1 - mu)) <= 61 / 10 * (u * B)) as E2 by (apply Rle_trans with (1 := near_le _ _ _ H2 B2); lra).
  apply abs_le_iff in E1, E2, B2. split; apply Rabs_le; lra.
Qed.
Lemma r_err : Rabs (yc - r) <= 2420 * (n * n) * (u * K * B).
Proof using HB Hy Hmu Hm' HeB H1 H2 Hmm HK.
  destruct yc_near as [E _]. pose proof eta_pos as Ep. destruct uK as [U _]. assert (u * B <= u * K * B) as X by (apply Rmult_le_compat_r; lra).
  replace (yc - r) with ((yc - (y - m' - mu)) + - (m' - m)) by (unfold r; ring). apply Rle_trans with (1 := Rabs_triang _ _). rewrite Rabs_Ropp. lra.
Qed.
Lemma half_sq : Rabs (h2 - 1 / 2 * (yc * yc)) <= 49 * (u * (B * B)) /\ Rabs h2 <= 25 * (B * B).
Proof using HB Hy Hmu Hm' HeB HeB2 H1 H2 H3 H4.
  destruct yc_near as [_ By]. pose proof uB_small as UB. pose proof u_pos as Hu. pose proof eta_pos as Ep. pose proof u_small as Hus.
  assert (0 < B * B) as BB by (apply Rmult_lt_0_compat; lra). assert (u * (B * B) <= B * B / 1000000) as UBB by (assert (u * (B * B) <= / 1048576 * (B * B)) by (apply Rmult_le_compat_r; lra); lra).
  assert (Rabs (1 / 2 * yc) <= 3 * B) as B1 by (apply abs_le_iff in By; apply Rabs_le; lra).
  assert (Rabs (h1 - 1 / 2 * yc) <= 4 * (u * B)) as E1 by (apply Rle_trans with (1 := near_le _ _ _ H3 B1); lra).
  assert (Rabs h1 <= 31 / 10 * B) as B2 by (apply abs_le_iff in B1, E1; apply Rabs_le; lra).
  assert (Rabs (h1 * yc) <= 20 * (B * B)) as B3.
  { rewrite Rabs_mult. apply Rle_trans with (31 / 10 * B * (6 * B)); [apply Rmult_le_compat; try apply Rabs_pos; assumption|lra]. }
  assert (Rabs (h2 - h1 * yc) <= 21 * (u * (B * B))) as E2 by (apply Rle_trans with (1 := near_le _ _ _ H4 B3); lra).
  assert (Rabs (h1 * yc - 1 / 2 * (yc * yc)) <= 24 * (u * (B * B))) as E3.
  { replace (h1 * yc - 1 / 2 * (yc * yc)) with ((h1 - 1 / 2 * yc) * yc) by ring. rewrite Rabs_mult.
    apply Rle_trans with (4 * (u * B) * (6 * B)); [apply Rmult_le_compat; try apply Rabs_pos; assumption|lra]. }
  split.
  - replace (h2 - 1 / 2 * (yc * yc)) with ((h2 - h1 * yc) + (h1 * yc - 1 / 2 * (yc * yc))) by ring. apply Rle_trans with (1 := Rabs_triang _ _). lra.
  - apply abs_le_iff in B3, E2. apply Rabs_le. lra.
Qed.
Lemma inv_v' : 0 < / v' <= 2 / em.
Proof using Hem Hv'. split; [apply Rinv_0_lt_compat; lra|]. replace (2 / em) with (/ (em / 2)) by (field; lra). apply Rinv_le_contravar; lra. Qed.
Lemma quad_round : Rabs (h3 - 1 / 2 * (yc * yc) / v') <= 149 * (u * rho) + eta /\ Rabs h3 <= 51 * rho + eta.
Proof using HB Hem Hy Hmu Hm' HeB HeB2 H1 H2 H3 H4 Hv' H5.
  destruct half_sq as [E B2]. pose proof inv_v' as [I0 I1]. pose proof rho_pos as Hr. pose proof u_pos as Hu. pose proof u_small as Hus.
  assert (0 < B * B) as BB by (apply Rmult_lt_0_compat; lra).
  assert (Rabs (h2 / v') <= 50 * rho) as B3.
  { unfold Rdiv. rewrite Rabs_mult, (Rabs_pos_eq (/ v')) by lra. apply Rle_trans with (25 * (B * B) * (2 / em)); [apply Rmult_le_compat; try apply Rabs_pos; try lra|]. unfold rho. right. field. lra. }
  assert (Rabs (h3 - h2 / v') <= 50 * (u * rho) + eta) as E3 by (apply Rle_trans with (1 := near_le _ _ _ H5 B3); lra).
  assert (Rabs (h2 / v' - 1 / 2 * (yc * yc) / v') <= 98 * (u * rho)) as E4.
  { replace (h2 / v' - 1 / 2 * (yc * yc) / v') with ((h2 - 1 / 2 * (yc * yc)) * / v') by (unfold Rdiv; ring). rewrite Rabs_mult, (Rabs_pos_eq (/ v')) by lra.
    apply Rle_trans with (49 * (u * (B * B)) * (2 / em)); [apply Rmult_le_compat; try apply Rabs_pos; lra|]. unfold rho. right. field. lra. }
  assert (u * rho <= / 1048576 * rho) by (apply Rmult_le_compat_r; lra). split.
  - replace (h3 - 1 / 2 * (yc * yc) / v') with ((h3 - h2 / v') + (h2 / v' - 1 / 2 * (yc * yc) / v')) by ring. apply Rle_trans with (1 := Rabs_triang _ _).
    assert (0 <= u * rho) by (apply Rmult_le_pos; lra). lra.
  - apply abs_le_iff in B3, E3. apply Rabs_le. lra.
Qed.
Lemma quad_err : Rabs (1 / 2 * (yc * yc) / v' - 1 / 2 * (r * r) / v) <= 23400 * (n * n) * (u * K * rho).
Proof using HB Hem Hy Hmu Hm Hm' HeB H1 H2 Hmm HK Hv Hv' Hvv Hn.
  destruct yc_near as [_ By]. pose proof r_abs as Br. pose proof r_err as Er. pose proof inv_v' as [I0 I1]. destruct uK as [_ UK]. pose proof rho_pos as Hrho.
  assert (0 < / v <= / em) as [J0 J1] by (split; [apply Rinv_0_lt_compat; lra|apply Rinv_le_contravar; lra]).
  replace (1 / 2 * (yc * yc) / v' - 1 / 2 * (r * r) / v) with (1 / 2 * ((yc - r) * (yc + r)) * / v' + 1 / 2 * (r * r) * (- (v' - v) * (/ v * / v'))) by (field; lra).
  assert (1 <= n * n) as N1 by nra. assert (n <= n * n) as N2 by nra. assert (0 < u * K * rho) as P by (apply Rmult_lt_0_compat; lra).
  apply Rle_trans with (1 := Rabs_triang _ _). apply Rle_trans with (21780 * (n * n) * (u * K * rho) + 1575 * n * (u * K * rho)); [|nra].
  apply Rplus_le_compat.
  - rewrite !Rabs_mult, (Rabs_pos_eq (1 / 2)), (Rabs_pos_eq (/ v')) by lra.
    assert (Rabs (yc + r) <= 9 * B) as S by (apply Rle_trans with (1 := Rabs_triang _ _); lra).
    apply Rle_trans with (1 / 2 * (2420 * (n * n) * (u * K * B) * (9 * B)) * (2 / em)).
    + apply Rmult_le_compat; try lra. { apply Rmult_le_pos; [lra|apply Rmult_le_pos; apply Rabs_pos]. } apply Rmult_le_compat_l; [lra|]. apply Rmult_le_compat; try apply Rabs_pos; assumption.
    + unfold rho. right. field. lra.
  - rewrite !Rabs_mult, Rabs_Ropp, (Rabs_pos_eq (1 / 2)), (Rabs_pos_eq (/ v')), (Rabs_pos_eq (/ v)) by lra.
    apply Rle_trans with (1 / 2 * (3 * B * (3 * B)) * (175 * n * (u * K * em) * (/ em * (2 / em)))).
    + apply Rmult_le_compat.
      * apply Rmult_le_pos; [lra|apply Rmult_le_pos; apply Rabs_pos].
      * apply Rmult_le_pos; [apply Rabs_pos|apply Rmult_le_pos; lra].
      * apply Rmult_le_compat_l; [lra|]. apply Rmult_le_compat; try apply Rabs_pos; assumption.
      * apply Rmult_le_compat; [apply Rabs_pos|apply Rmult_le_pos; lra|exact Hvv|]. apply Rmult_le_compat; lra.
    + unfold rho. right. field. lra.
Qed.
Lemma log_err : Rabs (o + 1 / 2 * ln v) <= 175 * n * (u * K) + 1100 * u + eta /\ Rabs o <= 503.
Proof using Hem Hv Hv' Hvv Hlv H6 H7.
  pose proof u_pos as Hu. pose proof u_small as Hus. pose proof eta_u as Eu. pose proof eta_pos as Ep.
  assert (Rabs (l - ln v') <= 1004 * u) as E1 by (apply Rle_trans with (1 := H6); nra).
  assert (Rabs l <= 1004) as Bl by (apply abs_le_iff in E1, Hlv; apply Rabs_le; nra).
  assert (Rabs (- (1 / 2) * l) <= 502) as B1 by (apply abs_le_iff in Bl; apply Rabs_le; lra).
  pose proof (near_le _ _ _ H7 B1) as E2.
  assert (Rabs (ln v' - ln v) <= 350 * n * (u * K)) as E3.
  { apply Rle_trans with (1 := ln_diff (em / 2) v' v ltac:(lra) Hv' ltac:(lra)). apply Rle_trans with (175 * n * (u * K * em) * / (em / 2)).
    - apply Rmult_le_compat_r; [left; apply Rinv_0_lt_compat; lra|exact Hvv].
    - right. field. lra. }
  apply abs_le_iff in E1, E2, E3, B1. split; apply Rabs_le; lra.
Qed.
(** the term computed and its exact value *)
Lemma term_err : Rabs (z - (- (1 / 2) * ln v - 1 / 2 * (r * r) / v)) <= 23700 * (n * n) * (u * K * (1 + rho)) /\ Rabs z <= 505 + 52 * rho.
Proof using All.
  destruct quad_round as [E1 B1]. pose proof quad_err as E2. destruct log_err as [E3 B3]. destruct uK as [U1 U2]. pose proof rho_pos as Hr.
  pose proof u_pos as Hu. pose proof u_small as Hus. pose proof eta_u as Eu. pose proof eta_pos as Ep.
  assert (Rabs (o - h3) <= 504 + 51 * rho) as B4 by (apply abs_le_iff in B1, B3; apply Rabs_le; lra).
  pose proof (near_le _ _ _ H8 B4) as E4.
  assert (u * (504 + 51 * rho) <= / 1048576 * (504 + 51 * rho)) as X by (apply Rmult_le_compat_r; lra).
  split; [|apply abs_le_iff in B4, E4; apply Rabs_le; lra].
  apply Rle_trans with ((u * (504 + 51 * rho) + eta) + ((175 * n * (u * K) + 1100 * u + eta) + ((149 * (u * rho) + eta) + 23400 * (n * n) * (u * K * rho)))).
  - replace (z - (- (1 / 2) * ln v - 1 / 2 * (r * r) / v)) with ((z - (o - h3)) + ((o + 1 / 2 * ln v) - ((h3 - 1 / 2 * (yc * yc) / v') + (1 / 2 * (yc * yc) / v' - 1 / 2 * (r * r) / v)))) by (unfold Rdiv; ring).
    apply Rle_trans with (1 := Rabs_triang _ _). apply Rplus_le_compat; [exact E4|]. unfold Rminus at 1. apply Rle_trans with (1 := Rabs_triang _ _). rewrite Rabs_Ropp.
    apply Rplus_le_compat; [exact E3|]. apply Rle_trans with (1 := Rabs_triang _ _). apply Rplus_le_compat; assumption.
  - assert (1 <= n * n) as N1 by nra. assert (n <= n * n) as N2 by nra. set (Y := u * K) in *.
    assert (u * rho <= Y * rho) as Z1 by (apply Rmult_le_compat_r; lra). assert (0 < Y * rho) as Z2 by (apply Rmult_lt_0_compat; lra).
    replace (23700 * (n * n) * (Y * (1 + rho))) with (23700 * ((n * n) * Y) + 23700 * ((n * n) * (Y * rho))) by ring.
    replace (23400 * (n * n) * (Y * rho)) with (23400 * ((n * n) * (Y * rho))) by ring.
    assert (1 * Y <= n * n * Y) as Z3 by (apply Rmult_le_compat_r; lra). assert (n * Y <= n * n * Y) as Z4 by (apply Rmult_le_compat_r; lra).
    assert (1 * (Y * rho) <= n * n * (Y * rho)) as Z5 by (apply Rmult_le_compat_r; lra). lra.
Qed.
End Term.

(** ** Finite results have finite operands *)
Lemma mul_fin x y : fin (x ⊗ y) -> fin x /\ fin y.
Proof. destruct x as [s|s| |s m e H], y as [s'|s'| |s' m' e' H']; intros F; try discriminate F; split; reflexivity. Qed.
Lemma sub_fin x y : fin (x ⊖ y) -> fin x /\ fin y.
Proof. destruct x as [s|s| |s m e H], y as [s'|s'| |s' m' e' H']; intros F; try discriminate F; try (split; reflexivity). destruct s, s'; discriminate F. Qed.
Lemma div_fin x y : fin (x ⊘ y) -> fin y -> fin x.
Proof. destruct x as [s|s| |s m e H], y as [s'|s'| |s' m' e' H']; intros F Fy; try discriminate F; try discriminate Fy; reflexivity. Qed.
Lemma near_sqrt x : 0 <= val x -> near (val (Bsqrt mode_NE x)) (sqrt (val x)).
Proof.
  intros Hx. pose proof (Bsqrt_correct 53 1024 p53 p53_1024 mode_NE x) as HC.
  cbn [round_mode] in HC. change (SpecFloat.fexp 53 1024) with fx in HC. destruct HC as (E & _). assert (val (Bsqrt mode_NE x) = rnd (sqrt (val x))) as X by exact E. unfold near. rewrite X. apply rnd_err.
Qed.
Lemma twice x : fin x -> Rabs (2 * val x) < p2 1024 -> fin (ofZ64 2 ⊗ x) /\ val (ofZ64 2 ⊗ x) = 2 * val x.
Proof.
  intros Fx HB. destruct (ofZ_val 2) as [F2 V2]; [reflexivity|]. pose proof (repr_twice (val x) (repr_val x) HB) as HR.
  destruct (mul_in (2 * val x) (2 * val x) (ofZ64 2) x F2 Fx HR HR) as [F B]; [rewrite V2; lra|]. split; [exact F|lra].
Qed.

(** ** The sum *)
Section Sum.
Variables (exp64 log64 sin64 cos64 : b64 -> b64) (pow64 : b64 -> b64 -> b64).
Local Notation A := (A64 exp64 log64 sin64 cos64 pow64).
Definition term64 (y m v mu : b64) : b64 := Bopp half ⊗ log64 v ⊖ half ⊗ (y ⊖ m ⊖ mu) ⊗ (y ⊖ m ⊖ mu) ⊘ v.
Lemma lik_err (y m v : list b64) mu n (x : nat -> R) E T :
  (forall i, (i < n)%nat -> fin (term64 y.[i] m.[i] v.[i] mu) /\ Rabs (val (term64 y.[i] m.[i] v.[i] mu)) <= T /\ Rabs (val (term64 y.[i] m.[i] v.[i] mu) - x i) <= E) ->
  1 <= T <= p2 900 -> 0 <= E -> (n <= length y)%nat -> (n <= length m)%nat -> (n <= length v)%nat -> (Z.of_nat n <= 2 ^ 40)%Z ->
  exists ll, @lik A n y m v mu = Ok ll /\ fin ll /\ Rabs (val ll) <= 2 * INR n * T /\ Rabs (val ll - Rsum x n) <= INR n * E + u * T * (INR n * INR n + INR n).
Proof.
  intros Ht HT HE Hy Hm Hv Hn. unfold lik. pose proof u_pos as Hu. pose proof eta_pos as Ep. pose proof eta_u as Eu.
  set (body := fun i acc => _).
  set (Inv := fun a acc => fin acc /\ Rabs (val acc) <= INR a * T * (1 + 3 * INR a * u) /\ Rabs (val acc - Rsum x a) <= INR a * E + u * T * (INR a * INR a + INR a)).
  assert (forall a, (a <= n)%nat -> 0 <= INR a /\ 3 * INR a * u <= 1 /\ INR a <= p2 40) as Hsm.
  { intros a Ha. pose proof (pos_INR a) as P. split; [exact P|]. assert (INR a <= p2 40) as Q by (rewrite INR_IZR_INZ; change (p2 40) with (IZR (2 ^ 40)); apply IZR_le; lia).
    split; [|exact Q]. apply Rle_trans with (p2 2 * p2 40 * u); [apply Rmult_le_compat_r; [lra|]; change (p2 2) with 4; lra|]. unfold u. rewrite <- !bpow_plus. change 1 with (p2 0). apply bpow_le. lia. }
  assert (forall k a acc, (a + k <= n)%nat -> Inv a acc -> exists ll, for_ a k body acc = Ok ll /\ Inv (a + k)%nat ll) as K.
  { induction k as [|k IH]; intros a acc Ha Hacc.
    - exists acc. split; [reflexivity|]. rewrite Nat.add_0_r. exact Hacc.
    - cbn [for_]. unfold body at 1.
      rewrite (@vget_ok (F A) y a (ofZ64 0)) by (cbn [F A64]; lia). rewrite (@vget_ok (F A) m a (ofZ64 0)) by (cbn [F A64]; lia). rewrite (@vget_ok (F A) v a (ofZ64 0)) by (cbn [F A64]; lia).
      cbn [bind F fadd fsub fmul fdiv fneg flog fdec A64]. destruct (Ht a) as (Ft & Bt & Et); [lia|]. fold (term64 y.[a] m.[a] v.[a] mu). set (z := term64 y.[a] m.[a] v.[a] mu) in *. clearbody z.
      destruct Hacc as (Fa & Ba & Ea). replace (a + S k)%nat with (S a + k)%nat by lia. apply IH; [lia|]. clear IH.
      destruct (Hsm a ltac:(lia)) as (Q1 & Q2 & Q3). unfold Inv. rewrite S_INR. cbn [Rsum]. set (j := INR a) in *. clearbody j.
      assert (0 <= j * T) as JT by (apply Rmult_le_pos; lra).
      assert (j * T * (1 + 3 * j * u) <= 2 * (j * T)) as B2. { apply Rle_trans with (j * T * 2); [apply Rmult_le_compat_l; lra|lra]. }
      assert (Rabs (val acc + val z) <= j * T * (1 + 3 * j * u) + T) as Bs by (apply Rle_trans with (1 := Rabs_triang _ _); lra).
      assert (fin (acc ⊕ z)) as Fz.
      { destruct (add_in (- p2 1000) (p2 1000) acc z Fa Ft) as [F _]; [apply repr_opp; rp|rp| |exact F].
        assert (j * T <= p2 40 * p2 900) as Q4 by (apply Rmult_le_compat; lra). rewrite <- bpow_plus in Q4. change (40 + 900)%Z with 940%Z in Q4.
        assert (p2 900 <= p2 940) as Q5 by (apply bpow_le; lia). assert (4 * p2 940 <= p2 1000) as Q6 by (change 4 with (p2 2); rewrite <- bpow_plus; apply bpow_le; lia).
        apply abs_le_iff in Bs. lra. }
      pose proof (near_le _ _ _ (near_add acc z Fa Ft Fz) Bs) as En.
      assert (eta <= u * T) as EuT by (apply Rle_trans with (u * 1); [lra|apply Rmult_le_compat_l; lra]).
      assert (u * (j * T * (1 + 3 * j * u)) <= 2 * (u * (j * T))) as Uj by (apply Rle_trans with (u * (2 * (j * T))); [apply Rmult_le_compat_l; lra|lra]).
      assert (0 <= u * (j * T)) as Uj0 by (apply Rmult_le_pos; lra).
      split; [exact Fz|]. split.
      + apply abs_le_iff in En, Bs. apply Rabs_le. replace ((j + 1) * T * (1 + 3 * (j + 1) * u)) with (j * T * (1 + 3 * j * u) + T + (6 * (u * (j * T)) + 3 * (u * T))) by ring. lra.
      + apply abs_le_iff in En, Et, Ea. apply Rabs_le. replace (u * T * ((j + 1) * (j + 1) + (j + 1))) with (u * T * (j * j + j) + 2 * (u * (j * T)) + 2 * (u * T)) by ring. lra. }
  destruct (K n 0%nat (ofZ64 0)) as (ll & El & F & B & Er); [lia| |].
  - destruct (ofZ_val 0) as [F0 V0]; [reflexivity|]. unfold Inv. cbn [INR Rsum]. rewrite V0, Rminus_0_r, Rabs_R0. split; [exact F0|]. split; lra.
  - exists ll. split; [exact El|]. split; [exact F|]. cbn [Nat.add] in *. split; [|exact Er]. apply Rle_trans with (1 := B). destruct (Hsm n (le_n n)) as (Q1 & Q2 & _).
    replace (2 * INR n * T) with (INR n * T * 2) by ring. apply Rmult_le_compat_l; [apply Rmult_le_pos; lra|lra].
Qed.
End Sum.

(** ** The parameters as the filter holds them *)
(** the variance of the process: sigma^2/(2 omega) from sigma^2 = 2 s^2 omega *)
Lemma S0_round W Z a g S e1 : 0 <= Z <= W -> 1000 * eta <= u * W -> 0 <= e1 -> 1000 * e1 <= u * W -> 0 <= a -> 0 <= g ->
  Rabs (a - 2 * Z) <= u * (2 * Z) + eta -> Rabs (g - a / 2) <= u * (a / 2) + e1 -> Rabs (S - g) <= u * g + eta -> Rabs (S - Z) <= 4 * (u * W).
Proof.
  intros HZ He He0 He1 Ha Hg H1 H2 H3. pose proof u_pos as Hu. pose proof u_small as Hus. pose proof eta_pos as Ep.
  assert (u * Z <= u * W) as X1 by (apply Rmult_le_compat_l; lra). assert (0 <= u * Z) as X0 by (apply Rmult_le_pos; lra).
  apply abs_le_iff in H1, H2, H3. assert (u * Z <= Z / 1000000) as X2 by (assert (u * Z <= / 1048576 * Z) by (apply Rmult_le_compat_r; lra); lra).
  assert (u * W <= W / 1000000) as X3 by (assert (u * W <= / 1048576 * W) by (apply Rmult_le_compat_r; lra); lra).
  assert (a / 2 <= 11 / 10 * W) as X4 by lra. assert (g <= 12 / 10 * W) as X5. { assert (u * (a / 2) <= / 1048576 * (a / 2)) by (apply Rmult_le_compat_r; lra). lra. }
  assert (u * (a / 2) <= u * (11 / 10 * W)) as X6 by (apply Rmult_le_compat_l; lra). assert (u * g <= u * (12 / 10 * W)) as X7 by (apply Rmult_le_compat_l; lra).
  apply Rabs_le. lra.
Qed.
(** the square of a scaled error bar *)
Lemma q_round X e sq sr es q : 0 < e -> 0 < sr -> X = sr * e -> 1000 * eta <= u * sr -> 1000 * eta <= u * X -> 1000 * eta <= u * (X * X) ->
  near sq sr -> near es (sq * e) -> near q (es * es) -> Rabs (q - X * X) <= 6 * (u * (X * X)).
Proof.
  intros He Hs EX H1 H2 H3 N1 N2 N3. pose proof u_pos as Hu. pose proof u_small as Hus. pose proof eta_pos as Ep.
  assert (0 < X) as HX by (rewrite EX; apply Rmult_lt_0_compat; lra).
  assert (Rabs (sq - sr) <= 11 / 10 * (u * sr)) as E1 by (apply Rle_trans with (1 := near_le _ _ sr N1 ltac:(rewrite Rabs_pos_eq; lra)); lra).
  assert (Rabs (sq * e - X) <= 11 / 10 * (u * X)) as E2.
  { replace (sq * e - X) with ((sq - sr) * e) by (rewrite EX; ring). rewrite Rabs_mult, (Rabs_pos_eq e) by lra.
    apply Rle_trans with (11 / 10 * (u * sr) * e); [apply Rmult_le_compat_r; lra|rewrite EX; lra]. }
  assert (u * X <= X / 1000000) as UX by (assert (u * X <= / 1048576 * X) by (apply Rmult_le_compat_r; lra); lra).
  assert (Rabs (sq * e) <= 101 / 100 * X) as B1 by (apply abs_le_iff in E2; apply Rabs_le; lra).
  pose proof (near_le _ _ _ N2 B1) as E3.
  assert (Rabs (es - X) <= 22 / 10 * (u * X)) as E4 by (apply abs_le_iff in E2, E3; apply Rabs_le; lra).
  assert (Rabs (es + X) <= 201 / 100 * X) as B2 by (apply abs_le_iff in E4; apply Rabs_le; lra).
  assert (Rabs (es * es - X * X) <= 45 / 10 * (u * (X * X))) as E5.
  { replace (es * es - X * X) with ((es - X) * (es + X)) by ring. rewrite Rabs_mult. apply Rle_trans with (22 / 10 * (u * X) * (201 / 100 * X)); [apply Rmult_le_compat; try apply Rabs_pos; assumption|].
    assert (0 <= u * (X * X)) by (apply Rmult_le_pos; [lra|apply Rmult_le_pos; lra]). lra. }
  assert (0 < X * X) as XX by (apply Rmult_lt_0_compat; lra). assert (u * (X * X) <= X * X / 1000000) as UXX by (assert (u * (X * X) <= / 1048576 * (X * X)) by (apply Rmult_le_compat_r; lra); lra).
  assert (Rabs (es * es) <= 101 / 100 * (X * X)) as B3 by (apply abs_le_iff in E5; apply Rabs_le; lra).
  pose proof (near_le _ _ _ N3 B3) as E6. apply abs_le_iff in E5, E6. apply Rabs_le. lra.
Qed.

Lemma tiny e : (-1000 <= e)%Z -> 1000 * eta <= u * p2 e.
Proof.
  intros H. unfold eta, u. apply Rle_trans with (p2 10 * p2 (-1075)); [apply Rmult_le_compat_r; [apply bpow_ge_0|change (p2 10) with 1024; lra]|].
  rewrite <- !bpow_plus. apply bpow_le. lia.
Qed.
Lemma tiny_le e x : (-1000 <= e)%Z -> p2 e <= x -> 1000 * eta <= u * x.
Proof. intros H1 H2. apply Rle_trans with (1 := tiny e H1). pose proof u_pos. apply Rmult_le_compat_l; lra. Qed.

Section Core.
Variables (exp64 log64 sin64 cos64 : b64 -> b64) (pow64 : b64 -> b64 -> b64).
Hypothesis HE : exp_sane exp64.
Hypothesis HX : exp_accurate exp64.
Hypothesis HL : log_sane log64.
Hypothesis HG : log_accurate log64.
Local Notation A := (A64 exp64 log64 sin64 cos64 pow64).
Variables (t y e : list b64) (om t0 t1 mu : b64) (wR emin emax : R) (k : Z).
Hypothesis HR : in_range t y e.
Hypothesis Hn : (Z.of_nat (length t) <= 2 ^ 40)%Z.
Hypothesis Hk : (-100 <= k <= 100)%Z.
Hypothesis Hy : forall i, (i < length t)%nat -> Rabs (val y.[i]) <= p2 k.
Hypothesis Hmu : fin mu /\ Rabs (val mu) <= p2 k.
Hypothesis He : forall i, (i < length t)%nat -> 0 < emin <= val e.[i] /\ val e.[i] <= emax.
Hypothesis Hemin : p2 (-100) <= emin.
Hypothesis Hom : rng (p2 (-102)) (p2 101) om.
Hypothesis Hwp : 0 < wR.
Hypothesis Hww : Rabs (val om - wR) <= 2 * (u * wR).
Hypothesis Ht0 : rng 0 (p2 120) t0.
Hypothesis Ht0p : 0 < val t0.
Hypothesis Ht1 : rng (1 / 2) 2 t1.
Let sig := ofZ64 2 ⊗ t0 ⊗ t0 ⊗ om.
Let ycf := cent A y mu.
Let es := scaled A e t1.
Let s := val t1.
Let sr := sqrt s.
Let sigR := 2 * (val t0 * val t0) * wR.
Let yr := map (fun x => x - val mu) (map val y).
Let er := map (fun x => sqrt s * x) (map val e).
Local Notation e1 := (sr * emin).
Local Notation e2 := (sr * emax).
Local Notation B := (p2 (k + 1)).

Lemma s_in : 1 / 2 <= s <= 2. Proof using All. exact (proj2 Ht1). Qed.
Lemma sr_sq : sr * sr = s. Proof using All. apply sqrt_sqrt. pose proof s_in. lra. Qed.
Lemma sr_in : 1 / 2 <= sr <= 2.
Proof using All.
  pose proof s_in as H. pose proof sr_sq as E. assert (0 <= sr) as P by apply sqrt_pos. split.
  - apply Rsqr_incr_0_var; [unfold Rsqr; lra|exact P].
  - apply Rsqr_incr_0_var; [unfold Rsqr; lra|lra].
Qed.
Lemma n_pos : (0 < length t)%nat. Proof using All. pose proof (r_n _ _ _ HR). lia. Qed.
Lemma sorted : times64 t.
Proof using All. split; [intros i Hi; apply (r_t _ _ _ HR), Hi|]. intros i Hi. pose proof (r_gap _ _ _ HR i Hi). pose proof (bpow_gt_0 radix2 (-100)). lra. Qed.
Lemma t_big i : (i < length t)%nat -> Rabs (val t.[i]) <= p2 500.
Proof using All. intros Hi. destruct (r_t _ _ _ HR i Hi) as [_ Bt]. apply Rabs_le. assert (p2 100 <= p2 500) by (apply bpow_le; lia). lra. Qed.
Lemma nth_es i : (i < length t)%nat -> nth i es (ofZ64 0) = Bsqrt mode_NE t1 ⊗ e.[i].
Proof using All. intros Hi. unfold es, scaled. rewrite (nth_map_lt _ _ _ _ i (ofZ64 0)) by (pose proof (r_le _ _ _ HR); cbn [F A64] in *; lia). reflexivity. Qed.
Lemma nth_yc i : (i < length t)%nat -> nth i ycf (ofZ64 0) = y.[i] ⊖ mu.
Proof using All. intros Hi. unfold ycf, cent. rewrite (nth_map_lt _ _ _ _ i (ofZ64 0)) by (pose proof (r_ly _ _ _ HR); cbn [F A64] in *; lia). reflexivity. Qed.
Lemma nth_er i : (i < length t)%nat -> nth i er 0 = sr * val e.[i].
Proof using All. intros Hi. unfold er. rewrite (nth_map_lt _ _ _ _ i 0) by (rewrite map_length; pose proof (r_le _ _ _ HR); lia). rewrite nthv. reflexivity. Qed.
Lemma nth_yr i : (i < length t)%nat -> nth i yr 0 = val y.[i] - val mu.
Proof using All. intros Hi. unfold yr. rewrite (nth_map_lt _ _ _ _ i 0) by (rewrite map_length; pose proof (r_ly _ _ _ HR); lia). rewrite nthv. reflexivity. Qed.
Lemma es_in i : (i < length t)%nat -> rng (p2 (-101)) (p2 101) (nth i es (ofZ64 0)).
Proof using All.
  intros Hi. rewrite nth_es by exact Hi. destruct (r_e _ _ _ HR i Hi) as [Fe Be]. destruct (sqrt_scale t1 Ht1) as [Fs Bs]. pose proof (bpow_gt_0 radix2 (-100)) as P.
  apply mul_in; try assumption; try rp. change (p2 101) with (p2 (1 + 100)). change (p2 (-101)) with (p2 (-1 + -100)).
  rewrite !bpow_plus. change (p2 1) with 2. change (p2 (-1)) with (/ 2). split; apply Rmult_le_compat; lra.
Qed.
Lemma es_in5 i : (i < length t)%nat -> rng (p2 (-500)) (p2 500) (nth i es (ofZ64 0)).
Proof using All. intros Hi. eapply rng_weaken; [apply es_in, Hi| |]; apply bpow_le; lia. Qed.
Lemma yc_in i : (i < length t)%nat -> rng (- B) B (nth i ycf (ofZ64 0)).
Proof using All.
  intros Hi. rewrite nth_yc by exact Hi. destruct (r_y _ _ _ HR i Hi) as [Fy _]. destruct Hmu as [Fm Bm]. pose proof (Hy i Hi) as By. apply abs_le_iff in Bm, By.
  apply sub_in; try assumption; [apply repr_opp; rp|rp|]. rewrite bpow_plus. change (p2 1) with 2. lra.
Qed.
Lemma w_in : rng (p2 (-200)) (p2 200) om.
Proof using All. eapply rng_weaken; [exact Hom| |]; apply bpow_le; lia. Qed.
Lemma w_in5 : rng (p2 (-499)) (p2 500) om.
Proof using All. eapply rng_weaken; [exact Hom| |]; apply bpow_le; lia. Qed.
Lemma t0_twice : fin (ofZ64 2 ⊗ t0) /\ val (ofZ64 2 ⊗ t0) = 2 * val t0.
Proof using All. destruct Ht0 as [F B0]. apply twice; [exact F|]. rewrite Rabs_pos_eq by lra. apply Rle_lt_trans with (p2 (1 + 120)); [rewrite bpow_plus; change (p2 1) with 2; lra|apply bpow_lt; lia]. Qed.
Lemma a2_in : rng 0 (p2 241) (ofZ64 2 ⊗ t0 ⊗ t0).
Proof using All.
  destruct t0_twice as [F2 V2]. destruct Ht0 as [F B0]. apply mul_in; try assumption; [apply repr_0|rp|]. rewrite V2. change (p2 241) with (p2 (1 + 120 + 120)). rewrite !bpow_plus. change (p2 1) with 2.
  split; [apply Rmult_le_pos; lra|apply Rmult_le_compat; lra].
Qed.
Lemma sig_in : rng 0 (p2 500) sig.
Proof using All.
  destruct a2_in as [F2 B2]. destruct Hom as [Fo Bo]. pose proof (bpow_gt_0 radix2 (-102)) as P. apply mul_in; try assumption; [apply repr_0|rp|]. split; [apply Rmult_le_pos; lra|].
  apply Rle_trans with (p2 241 * p2 101); [apply Rmult_le_compat; lra|]. rewrite <- bpow_plus. apply bpow_le. lia.
Qed.
Lemma sigR_pos : 0 < sigR.
Proof using All. unfold sigR. apply Rmult_lt_0_compat; [|exact Hwp]. assert (0 < val t0 * val t0) by (apply Rmult_lt_0_compat; lra). lra. Qed.
Lemma S0R : sigR / (2 * wR) = val t0 * val t0.
Proof using All. unfold sigR. field. lra. Qed.
Lemma er_in i : (i < length t)%nat -> 0 < e1 <= nth i er 0 /\ nth i er 0 <= e2.
Proof using All.
  intros Hi. rewrite nth_er by exact Hi. destruct (He i Hi) as [H1 H2]. pose proof sr_in as Hs.
  split; [split; [apply Rmult_lt_0_compat; lra|apply Rmult_le_compat_l; lra]|apply Rmult_le_compat_l; lra].
Qed.
Lemma er_low i : (i < length t)%nat -> p2 (-101) <= nth i er 0.
Proof using All.
  intros Hi. rewrite nth_er by exact Hi. destruct (r_e _ _ _ HR i Hi) as [_ Be]. pose proof sr_in as Hs. change (p2 (-101)) with (p2 (-1 + -100)). rewrite bpow_plus. change (p2 (-1)) with (/ 2).
  pose proof (bpow_gt_0 radix2 (-100)). apply Rmult_le_compat; lra.
Qed.
Lemma er2_low i : (i < length t)%nat -> p2 (-202) <= nth i er 0 * nth i er 0.
Proof using All. intros Hi. pose proof (er_low i Hi) as H. pose proof (bpow_ge_0 radix2 (-101)). change (p2 (-202)) with (p2 (-101 + -101)). rewrite bpow_plus. apply Rmult_le_compat; lra. Qed.
Lemma eta_er i : (i < length t)%nat -> eta <= u * (nth i er 0 * nth i er 0).
Proof using All. intros Hi. pose proof (tiny_le (-202) _ ltac:(lia) (er2_low i Hi)). pose proof eta_pos. lra. Qed.
Lemma q_err i : (i < length t)%nat -> Rabs (val (nth i es (ofZ64 0) ⊗ nth i es (ofZ64 0)) - nth i er 0 * nth i er 0) <= 6 * (u * (nth i er 0 * nth i er 0)).
Proof using All.
  intros Hi. destruct (es_in i Hi) as [Fes _]. destruct (err_in _ (es_in5 i Hi)) as [[Fq _] _]. rewrite (nth_es i Hi) in *.
  destruct (r_e _ _ _ HR i Hi) as [_ Be]. pose proof (bpow_gt_0 radix2 (-100)) as P. pose proof sr_in as Hs. pose proof s_in as Hs'.
  apply (q_round (nth i er 0) (val e.[i]) (val (Bsqrt mode_NE t1)) sr (val (Bsqrt mode_NE t1 ⊗ e.[i]))).
  - lra.
  - lra.
  - apply nth_er, Hi.
  - apply (tiny_le (-1)); [lia|]. change (p2 (-1)) with (/ 2). lra.
  - apply (tiny_le (-101)); [lia|]. apply er_low, Hi.
  - apply (tiny_le (-202)); [lia|]. apply er2_low, Hi.
  - apply near_sqrt. unfold s in Hs'. lra.
  - apply near_mul, Fes.
  - apply near_mul, Fq.
Qed.
Lemma y_err i : (i < length t)%nat -> Rabs (val (nth i ycf (ofZ64 0)) - nth i yr 0) <= 2 * (u * B).
Proof using All.
  intros Hi. destruct (yc_in i Hi) as [Fy _]. rewrite (nth_yc i Hi) in *. rewrite nth_yr by exact Hi. destruct (r_y _ _ _ HR i Hi) as [Fyi _]. destruct Hmu as [Fm Bm]. pose proof (Hy i Hi) as By.
  assert (Rabs (val y.[i] - val mu) <= B) as Bd by (apply abs_le_iff in Bm, By; apply Rabs_le; rewrite bpow_plus; change (p2 1) with 2; lra).
  apply Rle_trans with (1 := near_le _ _ _ (near_sub _ _ Fyi Fm Fy) Bd). pose proof (tiny (k + 1) ltac:(lia)). pose proof eta_pos. lra.
Qed.
Let W := sigR / (2 * wR) + e2 * e2.
Lemma W_low : p2 (-202) <= W.
Proof using All.
  pose proof (er2_low 0%nat n_pos) as H. destruct (er_in 0%nat n_pos) as [[E1 E2] E3]. unfold W. rewrite S0R. pose proof (Rle_0_sqr (val t0)) as Q. unfold Rsqr in Q.
  assert (nth 0 er 0 * nth 0 er 0 <= e2 * e2) by (apply Rmult_le_compat; lra). lra.
Qed.
Lemma S_err : Rabs (val (sig ⊘ (ofZ64 2 ⊗ om)) - sigR / (2 * wR)) <= 4 * (u * W).
Proof using All.
  pose proof (S0_near sig om sig_in w_in) as N3. destruct sig_in as [Fs Bs]. destruct a2_in as [Fa Ba]. destruct t0_twice as [F2 V2].
  pose proof (near_mul _ _ Fs : near (val sig) (val (ofZ64 2 ⊗ t0 ⊗ t0) * val om)) as N2. pose proof (near_mul _ _ Fa) as N1. rewrite V2 in N1. destruct Hom as [Fo Bo]. pose proof (bpow_gt_0 radix2 (-102)) as P.
  pose proof u_pos as Hu. pose proof eta_pos as Ep. pose proof W_low as HW. rewrite S0R. destruct Ht0 as [_ B0].
  set (a := val (ofZ64 2 ⊗ t0 ⊗ t0)) in *. set (w := val om) in *. unfold near in *.
  assert (0 <= val t0 * val t0) as Z0 by (apply Rmult_le_pos; lra). assert (0 < w) as W0 by lra.
  assert (0 < / (2 * w) <= p2 101) as [I0 I1].
  { split; [apply Rinv_0_lt_compat; lra|]. apply Rle_trans with (/ (2 * p2 (-102))); [apply Rinv_le_contravar; lra|]. change 2 with (p2 1). rewrite <- bpow_plus, <- bpow_opp. right. reflexivity. }
  assert (val sig / (2 * w) - a / 2 = (val sig - a * w) * / (2 * w)) as EQ by (field; lra).
  apply (S0_round W (val t0 * val t0) a (val sig / (2 * w)) (val (sig ⊘ (ofZ64 2 ⊗ om))) (eta * p2 101)); try lra.
  - unfold W. rewrite S0R. pose proof (Rle_0_sqr e2) as Q. unfold Rsqr in Q. lra.
  - apply (tiny_le (-202)); [lia|exact HW].
  - apply Rmult_le_pos; [lra|apply bpow_ge_0].
  - apply Rle_trans with (u * p2 (-202)); [|apply Rmult_le_compat_l; lra]. unfold eta, u. apply Rle_trans with (p2 10 * (p2 (-1075) * p2 101)).
    + apply Rmult_le_compat_r; [apply Rmult_le_pos; apply bpow_ge_0|change (p2 10) with 1024; lra].
    + rewrite <- !bpow_plus. apply bpow_le. lia.
  - apply Rmult_le_pos; [lra|left; exact I0].
  - replace (2 * (val t0 * val t0)) with (2 * val t0 * val t0) by ring. rewrite (Rabs_pos_eq (2 * val t0 * val t0)) in N1 by (rewrite Rmult_assoc; lra). exact N1.
  - rewrite EQ, Rabs_mult, (Rabs_pos_eq (/ (2 * w))) by lra. rewrite (Rabs_pos_eq (a * w)) in N2 by (apply Rmult_le_pos; lra).
    apply Rle_trans with ((u * (a * w) + eta) * / (2 * w)); [apply Rmult_le_compat_r; lra|].
    replace ((u * (a * w) + eta) * / (2 * w)) with (u * (a / 2) + eta * / (2 * w)) by (field; lra). apply Rplus_le_compat_l. apply Rmult_le_compat_l; lra.
  - rewrite (Rabs_pos_eq (val sig / (2 * w))) in N3; [exact N3|]. apply Rmult_le_pos; [lra|left; exact I0].
Qed.

Local Notation N := (length t).
Local Notation vp := (vpure A (diffs A t) es sig om).
Local Notation mp := (mpure A (diffs A t) ycf es sig om).
Local Notation V := (vpure AR (diffs AR (map val t)) er sigR wR).
Local Notation M := (mpure AR (diffs AR (map val t)) yr er sigR wR).
Let K := W / (e1 * e1).
Let rho := B * B / (e1 * e1).
Lemma Hk' : (-900 <= k + 1 <= 1000)%Z. Proof using All. clear - Hk. lia. Qed.
Lemma rho_ok b : (S b < N)%nat -> Rabs (val (exp64 (Bopp (ofZ64 1) ⊗ om ⊗ nth b (diffs A t) (ofZ64 0))) - exp (- (1) * wR * (val t.[S b] - val t.[b]))) <= 16 * u.
Proof using All. exact (rho_close exp64 log64 sin64 cos64 pow64 HX t om wR sorted t_big w_in Hwp Hww b). Qed.
Lemma v_rng i : (i < N)%nat -> rng (val (nth i es (ofZ64 0) ⊗ nth i es (ofZ64 0))) (8 * big) (vp i).
Proof using All. exact (vin exp64 log64 sin64 cos64 pow64 HE t es sig om sorted es_in5 sig_in w_in5 i). Qed.
Lemma m_rng i : (i < N)%nat -> rng (- (4 * B)) (4 * B) (mp i).
Proof using All. exact (min (k + 1) Hk' exp64 log64 sin64 cos64 pow64 HE t ycf es sig om sorted yc_in es_in5 sig_in w_in5 i). Qed.
Lemma v_err i : (i < N)%nat -> Rabs (val (vp i) - V i) <= 175 * INR (S i) * (u * W).
Proof using All. exact (V_err exp64 log64 sin64 cos64 pow64 HE t es sig om sorted es_in5 sig_in w_in5 n_pos Hn er sigR wR e1 e2 sigR_pos Hwp er_in eta_er q_err S_err rho_ok i). Qed.
Lemma m_err i : (i < N)%nat -> Rabs (val (mp i) - M i) <= 2420 * (INR i * INR i) * (u * K * B).
Proof using All. exact (M_err (k + 1) Hk' exp64 log64 sin64 cos64 pow64 HE t ycf es sig om sorted yc_in es_in5 sig_in w_in5 n_pos Hn yr er sigR wR e1 e2 sigR_pos Hwp er_in eta_er q_err y_err S_err rho_ok i). Qed.
Lemma m_abs i : (i < N)%nat -> Rabs (M i) <= 2 * B.
Proof using All. exact (M_abs (k + 1) t ycf sorted yc_in n_pos yr er sigR wR e1 e2 sigR_pos Hwp er_in y_err i). Qed.
Lemma v_low i : (i < N)%nat -> 0 <= V i - nth i er 0 * nth i er 0 <= sigR / (2 * wR) /\ 0 < V i.
Proof using All. exact (Vb t sorted er sigR wR e1 e2 sigR_pos Hwp er_in i). Qed.
Lemma e1_sq i : (i < N)%nat -> 0 < e1 * e1 <= nth i er 0 * nth i er 0.
Proof using All. intros Hi. destruct (er_in i Hi) as [H _]. split; [apply Rmult_lt_0_compat; lra|apply Rmult_le_compat; lra]. Qed.
Lemma K_one : 1 <= K /\ K * (e1 * e1) = W.
Proof using All.
  pose proof (e1_sq 0%nat n_pos) as H. destruct (er_in 0%nat n_pos) as [E1 E2]. assert (K * (e1 * e1) = W) as X by (unfold K, Rdiv; rewrite Rmult_assoc, Rinv_l, Rmult_1_r; [reflexivity|lra]). split; [|exact X].
  apply Rmult_le_reg_r with (e1 * e1); [lra|]. rewrite X, Rmult_1_l. unfold W. rewrite S0R. pose proof (Rle_0_sqr (val t0)) as Q. unfold Rsqr in Q.
  assert (e1 * e1 <= e2 * e2) by (apply Rmult_le_compat; lra). lra.
Qed.
Lemma v'_low i : (i < N)%nat -> e1 * e1 / 2 <= val (vp i) /\ p2 (-203) <= val (vp i).
Proof using All.
  intros Hi. destruct (v_rng i Hi) as [_ [Bv _]]. pose proof (q_err i Hi) as Q. apply abs_le_iff in Q. pose proof (e1_sq i Hi) as H. pose proof (er2_low i Hi) as L. set (X := nth i er 0 * nth i er 0) in *.
  pose proof u_small. assert (u * X <= / 1048576 * X) by (apply Rmult_le_compat_r; lra). change (p2 (-203)) with (p2 (-202 + -1)). rewrite bpow_plus. change (p2 (-1)) with (/ 2). lra.
Qed.
Lemma term_i i : (i < N)%nat ->
  fin (term64 log64 y.[i] (mp i) (vp i) mu) /\ Rabs (val (term64 log64 y.[i] (mp i) (vp i) mu)) <= 505 + 52 * rho /\
  Rabs (val (term64 log64 y.[i] (mp i) (vp i) mu) - (- (1 / 2) * ln (V i) - 1 / 2 * ((val y.[i] - val mu - M i) * (val y.[i] - val mu - M i)) / V i)) <= 23700 * (INR N * INR N) * (u * K * (1 + rho)).
Proof using All.
  intros Hi. pose proof (v_rng i Hi) as Hv. pose proof (m_rng i Hi) as Hm. pose proof (v_err i Hi) as Ev. pose proof (m_err i Hi) as Em. pose proof (m_abs i Hi) as Bm. destruct (v_low i Hi) as [HV HV0].
  pose proof (e1_sq i Hi) as HE1. destruct (v'_low i Hi) as [L1 L2]. destruct K_one as [K1 K2]. destruct Hmu as [Fmu Bmu]. pose proof (Hy i Hi) as Byi. destruct (r_y _ _ _ HR i Hi) as [Fyi By100].
  set (v := vp i) in *. set (m := mp i) in *. clearbody v m. set (Vi := V i) in *. set (Mi := M i) in *. clearbody Vi Mi.
  assert (fin (term64 log64 y.[i] m v mu)) as Ft.
  { destruct (term_in log64 HL y.[i] m mu v) as [F _]; [| | | |exact F].
    - split; assumption.
    - eapply rng_weaken; [exact Hm| |]; assert (B <= p2 101) by (apply bpow_le; clear - Hk; lia); lra.
    - split; [exact Fmu|]. apply abs_le_iff in Bmu. assert (p2 k <= p2 100) by (apply bpow_le; clear - Hk; lia). lra.
    - destruct Hv as [Fv Bv]. split; [exact Fv|]. assert (p2 (-402) <= p2 (-203)) by (apply bpow_le; lia). lra. }
  split; [exact Ft|]. unfold term64 in *. set (yc := y.[i] ⊖ m ⊖ mu) in *. destruct Hv as [Fv Bv]. pose proof (bpow_gt_0 radix2 (-203)) as P.
  destruct (sub_fin _ _ Ft) as [F1 F2]. pose proof (div_fin _ _ F2 Fv) as F3. destruct (mul_fin _ _ F3) as [F4 F5]. destruct (mul_fin _ _ F1) as [_ F6]. destruct (sub_fin _ _ (F5 : fin (y.[i] ⊖ m ⊖ mu))) as [F7 _].
  destruct half_val as (_ & Vh & _ & Vo). destruct Hm as [Fm Bm']. pose proof (bpow_gt_0 radix2 (k + 1)) as HB.
  destruct (HG v Fv ltac:(lra)) as [_ HGv].
  pose proof (near_sub _ _ Fyi Fm F7) as N1. pose proof (near_sub _ _ F7 Fmu F5) as N2. pose proof (near_mul _ _ F4) as N3. rewrite Vh in N3. pose proof (near_mul _ _ F3) as N4.
  pose proof (near_div _ _ F2 ltac:(lra)) as N5. pose proof (near_mul _ _ F1) as N6. rewrite Vo in N6. pose proof (near_sub _ _ F1 F2 Ft) as N7.
  pose proof (tiny (k + 1) ltac:(clear - Hk; lia)) as T1. pose proof eta_pos as Ep.
  assert (B = 2 * p2 k) as EB by (rewrite bpow_plus; change (p2 1) with 2; ring).
  assert (1000 * eta <= u * (B * B)) as T2 by (rewrite <- bpow_plus; apply tiny; clear - Hk; lia).
  assert (INR i + 1 <= INR N) as HiN by (rewrite <- S_INR; apply le_INR; exact Hi). pose proof (pos_INR i) as Hi0. pose proof u_pos as Hu.
  assert (Rabs (ln (val v)) <= 1003) as Hlv.
  { apply (ln_in 1003); [lia|]. assert (p2 (-1003) <= p2 (-203)) by (apply bpow_le; lia). assert (8 * big = p2 1003) as X by (unfold big; change 8 with (p2 3); rewrite <- bpow_plus; reflexivity). change (- (1003))%Z with (-1003)%Z. lra. }
  assert (Rabs (val m - Mi) <= 2420 * (INR N * INR N - 1) * (u * K * B)) as Em'.
  { apply Rle_trans with (1 := Em). apply Rmult_le_compat_r; [apply Rmult_le_pos; [apply Rmult_le_pos; lra|lra]|]. apply Rmult_le_compat_l; [lra|]. assert ((INR i + 1) * (INR i + 1) <= INR N * INR N) by (apply Rmult_le_compat; lra). lra. }
  assert (Rabs (val v - Vi) <= 175 * INR N * (u * K * (e1 * e1))) as Ev'.
  { apply Rle_trans with (1 := Ev). replace (u * K * (e1 * e1)) with (u * (K * (e1 * e1))) by ring. rewrite K2. rewrite S_INR. apply Rmult_le_compat_r; [apply Rmult_le_pos; [lra|]|lra].
    rewrite <- K2. apply Rmult_le_pos; lra. }
  apply and_comm.
  apply (term_err B (e1 * e1) K (INR N) (val y.[i]) (val mu) Mi (val m) Vi (val v) (val (y.[i] ⊖ m)) (val yc) (val (half ⊗ yc)) (val (half ⊗ yc ⊗ yc)) (val (half ⊗ yc ⊗ yc ⊘ v)) (val (log64 v)) (val (Bopp half ⊗ log64 v)));
    first [assumption | lra | apply Rabs_le; lra].
Qed.
Lemma rho_0 : 0 < rho.
Proof using All. pose proof (e1_sq 0%nat n_pos). apply Rdiv_lt_0_compat; [apply Rmult_lt_0_compat; apply bpow_gt_0|lra]. Qed.

Lemma rho_up : rho <= p2 404.
Proof using All.
  assert (p2 (-202) <= e1 * e1) as H.
  { pose proof sr_in as Hs. pose proof (bpow_gt_0 radix2 (-100)) as P. assert (p2 (-101) <= e1) as H by (change (p2 (-101)) with (p2 (-1 + -100)); rewrite bpow_plus; change (p2 (-1)) with (/ 2); apply Rmult_le_compat; lra).
    pose proof (bpow_ge_0 radix2 (-101)). change (p2 (-202)) with (p2 (-101 + -101)). rewrite bpow_plus. apply Rmult_le_compat; lra. }
  pose proof (bpow_gt_0 radix2 (-202)) as P. pose proof (bpow_ge_0 radix2 (k + 1)) as P1. assert (B <= p2 101) as H1 by (apply bpow_le; clear - Hk; lia).
  apply Rmult_le_reg_r with (e1 * e1); [lra|]. unfold rho, Rdiv. rewrite Rmult_assoc, Rinv_l, Rmult_1_r by lra.
  apply Rle_trans with (p2 101 * p2 101); [apply Rmult_le_compat; lra|]. rewrite <- bpow_plus. change (101 + 101)%Z with (404 + -202)%Z. rewrite bpow_plus. apply Rmult_le_compat_l; [apply bpow_ge_0|exact H].
Qed.
Lemma core : exists ll x, @lik A N y (map mp (seq 0 N)) (map vp (seq 0 N)) mu = Ok ll /\ fin ll /\ Rabs (val ll) <= 2 * INR N * (505 + 52 * rho) /\
  is_loglik (fun a c => val t0 * val t0 * exp (- (wR * Rabs (a - c)))) (map val t) (map val y) (map val e) s (val mu) x /\
  Rabs (val ll - x) <= 24710 * (INR N * INR N * INR N) * (u * K * (1 + rho)).
Proof using All.
  pose proof rho_0 as R0. pose proof rho_up as R1. destruct K_one as [K1 K2]. pose proof u_pos as Hu.
  set (x := fun i => - (1 / 2) * ln (V i) - 1 / 2 * (nth i (map val y) 0 - val mu - M i) ^ 2 / V i).
  destruct (lik_err exp64 log64 sin64 cos64 pow64 y (map mp (seq 0 N)) (map vp (seq 0 N)) mu N x (23700 * (INR N * INR N) * (u * K * (1 + rho))) (505 + 52 * rho)) as (ll & El & Fl & Bl & Er).
  - intros i Hi. rewrite !(nth_map_lt _ _ _ _ i 0%nat) by (rewrite seq_length; exact Hi). rewrite seq_nth by exact Hi. cbn [Nat.add]. destruct (term_i i Hi) as (T1 & T2 & T3).
    split; [exact T1|]. split; [exact T2|]. unfold x. rewrite nthv.
    assert (forall a : R, a ^ 2 = a * a) as X by (intros; ring). rewrite X. exact T3.
  - split; [lra|]. apply Rle_trans with (p2 10 * p2 404); [change (p2 10) with 1024; assert (1 <= p2 404) by (change 1 with (p2 0); apply bpow_le; lia); lra|]. rewrite <- bpow_plus. apply bpow_le. lia.
  - apply Rmult_le_pos; [pose proof (pos_INR N); apply Rmult_le_pos; [lra|apply Rmult_le_pos; lra]|apply Rmult_le_pos; [apply Rmult_le_pos; lra|lra]].
  - rewrite (r_ly _ _ _ HR). apply le_n.
  - rewrite map_length, seq_length. apply le_n.
  - rewrite map_length, seq_length. apply le_n.
  - exact Hn.
  - exists ll, (Rsum x N). split; [exact El|]. split; [exact Fl|]. split; [exact Bl|]. split.
    + exists M, V. split; [|rewrite map_length; reflexivity]. rewrite map_length. intros i Hi. destruct (v_low i Hi) as [_ HV]. split; [|exact HV].
      pose proof (cond_filter t sorted yr er sigR wR e1 e2 sigR_pos Hwp er_in i Hi) as HC. rewrite nthv.
      replace (s * (nth i (map val e) 0 * nth i (map val e) 0)) with (nth i er 0 * nth i er 0).
      2:{ rewrite nth_er by exact Hi. rewrite nthv. rewrite <- sr_sq. ring. }
      eapply cond_dist_ext; [|exact HC]. intros a c. unfold ou_cov. rewrite S0R. reflexivity.
    + apply Rle_trans with (1 := Er). assert (1 <= INR N) as N1 by (change 1 with (INR 1); apply le_INR; exact n_pos). set (n := INR N) in *. set (Y := u * K * (1 + rho)).
      assert (u * (1 + rho) <= Y) as HY by (unfold Y; apply Rmult_le_compat_r; [lra|]; rewrite <- (Rmult_1_r u) at 1; apply Rmult_le_compat_l; lra).
      assert (0 <= u * (1 + rho)) as Y0 by (apply Rmult_le_pos; lra).
      assert (n <= n * n) as N2 by (rewrite <- (Rmult_1_l n) at 1; apply Rmult_le_compat_r; lra). assert (n * n <= n * n * n) as N3 by (rewrite <- (Rmult_1_r (n * n)) at 1; apply Rmult_le_compat_l; lra).
      replace (24710 * (n * n * n) * Y) with (n * (23700 * (n * n) * Y) + 1010 * (n * n * n * Y)) by ring. apply Rplus_le_compat_l.
      apply Rle_trans with (505 * (u * (1 + rho)) * (2 * (n * n * n))).
      * apply Rmult_le_compat; [apply Rmult_le_pos; lra|nra| |lra]. assert (0 <= u * rho) by (apply Rmult_le_pos; lra). lra.
      * replace (505 * (u * (1 + rho)) * (2 * (n * n * n))) with (1010 * (n * n * n * (u * (1 + rho)))) by ring. apply Rmult_le_compat_l; [lra|]. apply Rmult_le_compat_l; [lra|exact HY].
Qed.
End Core.

(** ** The prior *)
Lemma prior_err log64 (t1 : b64) : log_accurate log64 -> log_sane log64 -> rng (1 / 2) 2 t1 ->
  fin (Bopp half ⊗ ofZ64 50 ⊘ t1 ⊖ (ofZ64 1 ⊕ ofZ64 50 ⊘ ofZ64 2) ⊗ log64 t1) /\
  Rabs (val (Bopp half ⊗ ofZ64 50 ⊘ t1 ⊖ (ofZ64 1 ⊕ ofZ64 50 ⊘ ofZ64 2) ⊗ log64 t1) - log_sichi (val t1)) <= 400 * u /\ Rabs (log_sichi (val t1)) <= 80.
Proof.
  intros HG HL [Fs Bs]. destruct (prior_in log64 HL t1 (Logic.conj Fs Bs)) as [Fp _]. split; [exact Fp|].
  destruct (ofZ_val 50) as [F50 V50]; [reflexivity|]. destruct (ofZ_val 1) as [F1 V1]; [reflexivity|]. destruct (ofZ_val 2) as [F2 V2]; [reflexivity|]. destruct half_val as (_ & _ & Fo & Vo).
  destruct (mul_in (-25) (-25) (Bopp half) (ofZ64 50)) as [Fa Ba]; try assumption; try rz; [rewrite Vo, V50; lra|].
  destruct (div_in 25 25 (ofZ64 50) (ofZ64 2)) as [Fc Bc]; try assumption; try rz; [rewrite V2; lra|rewrite V50, V2; lra|].
  destruct (add_in 26 26 (ofZ64 1) (ofZ64 50 ⊘ ofZ64 2)) as [Fd Bd]; try assumption; try rz; [rewrite V1; lra|].
  set (a := Bopp half ⊗ ofZ64 50) in *. set (d := ofZ64 1 ⊕ ofZ64 50 ⊘ ofZ64 2) in *. destruct (sub_fin _ _ Fp) as [Fb Ff].
  assert (val a = -25) as Va by lra. assert (val d = 26) as Vd by lra. destruct (HG t1 Fs ltac:(lra)) as [_ El]. change (p2 (-53)) with u in El.
  pose proof (near_div _ _ Fb ltac:(lra)) as N1. pose proof (near_mul _ _ Ff) as N2. pose proof (near_sub _ _ Fb Ff Fp) as N3. rewrite Va in N1. rewrite Vd in N2.
  assert (Rabs (ln (val t1)) <= 1) as L1 by (apply (ln_in 1); [lia|]; change (p2 (- (1))) with (/ 2); change (p2 1) with 2; lra).
  assert (0 < / val t1 <= 2) as [I0 I1]. { split; [apply Rinv_0_lt_compat; lra|]. replace 2 with (/ (1 / 2)) by field. apply Rinv_le_contravar; lra. }
  pose proof u_pos as Hu. pose proof u_small as Hus. pose proof eta_u as Eu. pose proof eta_pos as Ep.
  assert (Rabs (-25 / val t1) <= 50) as B1 by (unfold Rdiv; rewrite Rabs_mult, (Rabs_pos_eq (/ val t1)), (Rabs_left (-25)) by lra; lra).
  pose proof (near_le _ _ _ N1 B1) as E1. assert (Rabs (val (log64 t1) - ln (val t1)) <= 2 * u) as E2 by (apply Rle_trans with (1 := El); nra).
  assert (Rabs (26 * val (log64 t1)) <= 27) as B2 by (apply abs_le_iff in E2, L1; apply Rabs_le; lra).
  pose proof (near_le _ _ _ N2 B2) as E3.
  assert (Rabs (val (a ⊘ t1) - val (d ⊗ log64 t1)) <= 80) as B3 by (apply abs_le_iff in B1, B2, E1, E3; apply Rabs_le; lra).
  pose proof (near_le _ _ _ N3 B3) as E4.
  assert (log_sichi (val t1) = -25 / val t1 - 26 * ln (val t1)) as -> by (unfold log_sichi; field; lra).
  apply abs_le_iff in E1, E2, E3, E4, B1, L1. split; apply Rabs_le; lra.
Qed.

(** ** LogDensity *)
(** the bound: 2^17 n^3 2^-53 times the ratio of the largest variance of a measurement to the smallest of an error bar, times one plus
    the squared size of the measurements over the smallest error variance *)
Definition ld_bound (n : nat) (sd scale emin emax : R) (k : Z) : R :=
  p2 17 * INR n ^ 3 * p2 (-53) * ((sd ^ 2 + scale * emax ^ 2) / (scale * emin ^ 2)) * (1 + p2 k ^ 2 / (scale * emin ^ 2)).

Section LDerr.
Variables (exp64 log64 sin64 cos64 : b64 -> b64) (pow64 : b64 -> b64 -> b64).
Hypothesis HE : exp_sane exp64.
Hypothesis HT : exp_total exp64.
Hypothesis HX : exp_accurate exp64.
Hypothesis HXR : exp_relative exp64.
Hypothesis HL : log_sane log64.
Hypothesis HG : log_accurate log64.
Local Notation A := (A64 exp64 log64 sin64 cos64 pow64).

Lemma LD_err (b : base A b64) th k emin emax : wfb b -> in_range (b_time b) (b_y b) (b_yerr b) -> k_time (b_kf b) = b_time b -> bounds64 exp64 log64 sin64 cos64 pow64 (b_bounds b) ->
  theta64 th -> CheckPriorBounds1 (A := A) (b_bounds b) th = Ok true ->
  (Z.of_nat (length (b_time b)) <= 2 ^ 40)%Z -> (-100 <= k <= 100)%Z ->
  (forall i, (i < length (b_time b))%nat -> Rabs (val (b_y b).[i]) <= p2 k) -> Rabs (val th.[2%nat]) <= p2 k -> p2 (-100) <= emin ->
  (forall i, (i < length (b_time b))%nat -> emin <= val (b_yerr b).[i] <= emax) -> 0 < val th.[0%nat] ->
  exists v b' x, LogDensity (car1_cls A) b th = Ok (v, b') /\ rng (- p2 1000) (p2 1000) v /\
    is_loglik (fun a c => val th.[0%nat] * val th.[0%nat] * exp (- (exp (val th.[3%nat]) * Rabs (a - c)))) (map val (b_time b)) (map val (b_y b)) (map val (b_yerr b)) (val th.[1%nat]) (val th.[2%nat]) x /\
    Rabs (val v - (x + log_sichi (val th.[1%nat]))) <= ld_bound (length (b_time b)) (val th.[0%nat]) (val th.[1%nat]) emin emax k.
Proof using All.
  intros Hw HR Hk Hb Hth HC Hn Hkk Hy Hmuk Hem He Hp. destruct (@LD_pure1 A b th Hw) as [E _].
  cut (exists v x, pLD (car1_cls A) (fun om (_ : list b64) => om) (@pf1 A) (static_of b) th = Ok v /\ rng (- p2 1000) (p2 1000) v /\
    is_loglik (fun a c => val th.[0%nat] * val th.[0%nat] * exp (- (exp (val th.[3%nat]) * Rabs (a - c)))) (map val (b_time b)) (map val (b_y b)) (map val (b_yerr b)) (val th.[1%nat]) (val th.[2%nat]) x /\
    Rabs (val v - (x + log_sichi (val th.[1%nat]))) <= ld_bound (length (b_time b)) (val th.[0%nat]) (val th.[1%nat]) emin emax k).
  { intros (v & x & Ev & Fv). pose proof (eq_trans E Ev) as E'. clear E. destruct (LogDensity (car1_cls A) b th) as [[v' b']|ex| |]; try discriminate E'.
    injection E' as <-. exists v', b', x. split; [reflexivity|exact Fv]. }
  clear E. destruct (check_in exp64 log64 sin64 cos64 pow64 HT _ _ Hb Hth HC) as (Hom & Ht0 & Ht1). destruct Hth as (Hl & Hf & Hmu).
  assert (Rabs (val (exp64 th.[3%nat]) - exp (val th.[3%nat])) <= 2 * (u * exp (val th.[3%nat]))) as Hww.
  { rewrite <- Rmult_assoc. replace (2 * u) with (p2 (-52)) by (change (p2 (-52)) with (p2 (1 + -53)); rewrite bpow_plus; reflexivity).
    apply HXR; [apply Hf; lia|]. eapply rng_weaken; [exact Hom| |]; apply bpow_le; lia. }
  unfold pLD. cbn [car1_cls v_Check v_AR v_MA v_Sig v_Prior static_of st_bounds st_time st_y st_yerr st_ktime]. rewrite HC. cbn [bind negb].
  unfold LogPrior. rewrite !(@vget_ok (F A) th _ (ofZ64 0)) by (cbn [F A64]; lia). cbn [bind]. unfold pf1.
  cbn [s_time s_dt s_y s_yerr s_sig s_par]. rewrite Hk. cbn [F fadd fsub fmul fdiv fneg fexp flog fofZ fdec A64].
  set (wR := exp (val th.[3%nat])) in *. assert (0 < wR) as HwR by apply exp_pos.
  set (om := exp64 (nth 3 th (ofZ64 0))) in *. set (t0 := nth 0 th (ofZ64 0)) in *. set (t1 := nth 1 th (ofZ64 0)) in *.
  set (mu := nth 2 th (ofZ64 0)) in *. clearbody om t0 t1 mu wR. clear Hl Hf HC.
  assert (0 < emin) as Hep by (pose proof (bpow_gt_0 radix2 (-100)); lra).
  destruct (core exp64 log64 sin64 cos64 pow64 HE HX HL HG (b_time b) (b_y b) (b_yerr b) om t0 t1 mu wR emin emax k HR Hn Hkk Hy (Logic.conj (proj1 Hmu) Hmuk)
    (fun i Hi => Logic.conj (Logic.conj Hep (proj1 (He i Hi))) (proj2 (He i Hi))) Hem Hom HwR Hww Ht0 Hp Ht1) as (ll & x & El & Fl & Bl & Hx & Er).
  change (@length b64 (b_time b)) with (length (b_time b)) in Er, Bl.
  pose proof (prior_err log64 t1 HG HL Ht1) as (Fp & Ep & Bp). set (pr := Bopp half ⊗ ofZ64 50 ⊘ t1 ⊖ _) in *.
  match goal with |- context [@lik _ ?n0 ?y0 ?m0 ?v0 ?mu0] => assert (@lik A n0 y0 m0 v0 mu0 = Ok ll) as El' by exact El; rewrite El' end. cbn [bind]. exists (ll ⊕ pr), x. split; [reflexivity|].
  destruct Ht1 as [Ft1 Bt1]. set (s := val t1) in *. set (sr := sqrt s) in *. assert (sr * sr = s) as Esr by (apply sqrt_sqrt; lra).
  assert (sr * emin * (sr * emin) = s * emin ^ 2) as Ee1 by (rewrite <- Esr; ring). assert (sr * emax * (sr * emax) = s * emax ^ 2) as Ee2 by (rewrite <- Esr; ring).
  rewrite Ee1 in Er, Bl. rewrite Ee2 in Er. set (n := INR (length (b_time b))) in *.
  assert (2 <= n) as Hn2. { unfold n. change 2 with (INR 2). apply le_INR. apply (r_n _ _ _ HR). }
  assert (0 < s * emin ^ 2) as Hse by (apply Rmult_lt_0_compat; [lra|apply pow_lt; lra]).
  replace (2 * (val t0 * val t0) * wR / (2 * wR)) with (val t0 ^ 2) in Er by (field; lra).
  assert (p2 (k + 1) * p2 (k + 1) / (s * emin ^ 2) = 4 * (p2 k ^ 2 / (s * emin ^ 2))) as Eq by (rewrite !bpow_plus; change (p2 1) with 2; field; lra).
  rewrite Eq in Er, Bl. set (rho := p2 k ^ 2 / (s * emin ^ 2)) in *. set (K := (val t0 ^ 2 + s * emax ^ 2) / (s * emin ^ 2)) in *.
  assert (0 <= rho) as Hr by (apply Rmult_le_pos; [apply pow_le, bpow_ge_0|left; apply Rinv_0_lt_compat; lra]).
  assert (rho <= p2 402) as Hru.
  { apply Rmult_le_reg_r with (s * emin ^ 2); [lra|]. unfold rho, Rdiv. rewrite Rmult_assoc, Rinv_l, Rmult_1_r by lra. apply Rle_trans with (p2 200).
    - replace (p2 k ^ 2) with (p2 (k + k)) by (rewrite bpow_plus; ring). apply bpow_le. lia.
    - change (p2 200) with (p2 (402 + -202)). rewrite bpow_plus. apply Rmult_le_compat_l; [apply bpow_ge_0|]. apply Rle_trans with (1 / 2 * (p2 (-100) * p2 (-100))).
      + rewrite <- bpow_plus. change (p2 (-100 + -100)) with (p2 (2 + -202)). rewrite bpow_plus. change (p2 2) with 4. pose proof (bpow_gt_0 radix2 (-202)). lra.
      + pose proof (bpow_ge_0 radix2 (-100)). replace (emin ^ 2) with (emin * emin) by ring. apply Rmult_le_compat; try lra; [apply Rmult_le_pos; lra|]. apply Rmult_le_compat; lra. }
  assert (1 <= K) as HK.
  { apply Rmult_le_reg_r with (s * emin ^ 2); [lra|]. unfold K, Rdiv. rewrite Rmult_assoc, Rinv_l, Rmult_1_r, Rmult_1_l by lra. destruct (He 0%nat) as [H1 H2]; [exact (Nat.lt_le_trans 0 2 _ Nat.lt_0_2 (r_n _ _ _ HR))|].
    assert (s * emin ^ 2 <= s * emax ^ 2) by (apply Rmult_le_compat_l; [lra|]; apply pow_incr; lra). pose proof (pow2_ge_0 (val t0)). lra. }
  pose proof u_pos as Hu. pose proof u_small as Hus. pose proof eta_u as Eu. pose proof eta_pos as Epp.
  assert (n <= p2 40) as Hn40 by (unfold n; rewrite INR_IZR_INZ; change (p2 40) with (IZR (2 ^ 40)); apply IZR_le; exact Hn).
  set (T := 505 + 52 * (4 * rho)) in *. assert (0 <= T <= p2 420) as HT'.
  { unfold T. split; [lra|]. apply Rle_trans with (p2 10 * p2 402); [change (p2 10) with 1024; assert (1 <= p2 402) by (change 1 with (p2 0); apply bpow_le; lia); lra|]. rewrite <- bpow_plus. apply bpow_le. lia. }
  assert (Rabs (val pr) <= 81) as Bpr by (apply abs_le_iff in Ep, Bp; apply Rabs_le; lra).
  assert (Rabs (val ll + val pr) <= 2 * n * T + 81) as Bs by (apply Rle_trans with (1 := Rabs_triang _ _); lra).
  assert (rng (- p2 1000) (p2 1000) (ll ⊕ pr)) as Rs.
  { apply (add_in (- p2 1000) (p2 1000) ll pr Fl Fp); [apply repr_opp; rp|rp|].
    assert (n * T <= p2 40 * p2 420) as Q by (apply Rmult_le_compat; lra). rewrite <- bpow_plus in Q. change (40 + 420)%Z with 460%Z in Q.
    assert (p2 10 * p2 460 <= p2 1000) as Q1 by (rewrite <- bpow_plus; apply bpow_le; lia). change (p2 10) with 1024 in Q1. assert (1 <= p2 460) as Q2 by (change 1 with (p2 0); apply bpow_le; lia).
    apply abs_le_iff in Bs. lra. }
  pose proof (proj1 Rs) as Fs. split; [exact Rs|]. split; [exact Hx|].
  pose proof (near_le _ _ _ (near_add ll pr Fl Fp Fs) Bs) as En.
  assert (Rabs (val (ll ⊕ pr) - (x + log_sichi s)) <= 24710 * (n * n * n) * (u * K * (1 + 4 * rho)) + 400 * u + (u * (2 * n * T + 81) + eta)) as Ht.
  { apply abs_le_iff in En, Ep, Er. apply Rabs_le. lra. }
  apply Rle_trans with (1 := Ht). unfold ld_bound. change (INR (@length b64 (b_time b))) with n. fold s. fold K. fold rho. change (p2 (-53)) with u. change (p2 17) with 131072.
  set (Y := u * K * (1 + rho)). assert (0 <= u * rho) as U0 by (apply Rmult_le_pos; lra).
  assert (u * (1 + rho) <= Y) as HY by (unfold Y; apply Rmult_le_compat_r; [lra|]; rewrite <- (Rmult_1_r u) at 1; apply Rmult_le_compat_l; lra).
  assert (0 <= u * (1 + rho)) as Y0 by (apply Rmult_le_pos; lra).
  assert (n <= n * n) as N2 by (rewrite <- (Rmult_1_l n) at 1; apply Rmult_le_compat_r; lra). assert (n * n <= n * n * n) as N3 by (rewrite <- (Rmult_1_r (n * n)) at 1; apply Rmult_le_compat_l; lra).
  replace (131072 * n ^ 3 * u * K * (1 + rho)) with (131072 * (n * n * n * Y)) by (unfold Y; ring).
  assert (u * K * (1 + 4 * rho) <= 4 * Y) as G1. { unfold Y. replace (4 * (u * K * (1 + rho))) with (u * K * (4 * (1 + rho))) by ring. apply Rmult_le_compat_l; [apply Rmult_le_pos; lra|lra]. }
  assert (24710 * (n * n * n) * (u * K * (1 + 4 * rho)) <= 98840 * (n * n * n * Y)) as G2.
  { replace (98840 * (n * n * n * Y)) with (24710 * (n * n * n) * (4 * Y)) by ring. apply Rmult_le_compat_l; [lra|exact G1]. }
  assert (1 * Y <= n * n * n * Y) as G3 by (apply Rmult_le_compat_r; lra).
  assert (n * (u * (1 + rho)) <= n * n * n * Y) as G4 by (apply Rmult_le_compat; lra).
  assert (u * (2 * n * T + 81) <= 1010 * (n * (u * (1 + rho))) + 81 * u) as G5.
  { unfold T. replace (u * (2 * n * (505 + 52 * (4 * rho)) + 81)) with (1010 * (n * u) + 416 * (n * (u * rho)) + 81 * u) by ring. replace (1010 * (n * (u * (1 + rho)))) with (1010 * (n * u) + 1010 * (n * (u * rho))) by ring.
    assert (0 <= n * (u * rho)) by (apply Rmult_le_pos; lra). lra. }
  lra.
Qed.
End LDerr.

(** ** A correctly rounded libm *)
Lemma rounds_val r x : rounds r x -> fin x -> val x = rnd r.
Proof. unfold rounds. intros H F. destruct (Rlt_bool (Rabs (rnd r)) (p2 1024)); [apply H|rewrite H in F; discriminate F]. Qed.
Lemma log_correct_accurate l : log_correct l -> log_accurate l.
Proof.
  intros HC x Fx Px. destruct (log_correct_sane l HC x Fx Px) as [Fl _]. split; [exact Fl|]. rewrite (rounds_val _ _ (HC x Fx Px) Fl). change (p2 (-53)) with u.
  apply Rle_trans with (1 := rnd_err _). pose proof eta_u. lra.
Qed.
Lemma exp_correct_relative e : exp_correct e -> exp_relative e.
Proof.
  intros [HC _] x Fx [Fe Be]. pose proof (rounds_val _ _ (HC x Fx) Fe) as E. pose proof (exp_pos (val x)) as P.
  assert (p2 (-201) <= exp (val x)) as L.
  { destruct (Rle_lt_dec (p2 (-201)) (exp (val x))) as [L|L]; [exact L|exfalso]. destruct (rnd_in 0 (p2 (-201)) (exp (val x))) as [_ U]; [apply repr_0|rp|lra|].
    assert (p2 (-201) < p2 (-200)) by (apply bpow_lt; lia). lra. }
  rewrite E. apply Rle_trans with (1 := rnd_err _). rewrite Rabs_pos_eq by lra. pose proof (tiny_le (-201) _ ltac:(lia) L) as T. pose proof eta_pos.
  replace (p2 (-52)) with (2 * u) by (unfold u; change (p2 (-52)) with (p2 (1 + -53)); rewrite bpow_plus; reflexivity). lra.
Qed.

(** ** An object after any history *)
Lemma object_err exp64 log64 sin64 cos64 pow64 si (raw : kf1 (A64 exp64 log64 sin64 cos64 pow64)) t y e :
  exp_sane exp64 -> exp_total exp64 -> exp_accurate exp64 -> exp_relative exp64 -> log_sane log64 -> log_accurate log64 ->
  in_range t y e -> (Z.of_nat (length t) <= 2 ^ 40)%Z ->
  exists b, car1_new si raw t y e = Ok b /\
  forall b' th (k : Z) emin emax,
    touched (car1_cls (A64 exp64 log64 sin64 cos64 pow64)) (@setpar1 (A64 exp64 log64 sin64 cos64 pow64)) b b' ->
    (4 <= length th)%nat -> (forall i, (i < 4)%nat -> fin th.[i]) -> CheckPriorBounds1 (b_bounds b) th = Ok true -> 0 < val th.[0%nat] ->
    (-100 <= k <= 100)%Z -> (forall i, (i < length t)%nat -> Rabs (val y.[i]) <= p2 k) -> Rabs (val th.[2%nat]) <= p2 k ->
    p2 (-100) <= emin -> (forall i, (i < length t)%nat -> emin <= val e.[i] <= emax) ->
    exists v b'' x, LogDensity (car1_cls (A64 exp64 log64 sin64 cos64 pow64)) b' th = Ok (v, b'') /\ rng (- p2 1000) (p2 1000) v /\
      is_loglik (fun a c => val th.[0%nat] * val th.[0%nat] * exp (- (exp (val th.[3%nat]) * Rabs (a - c)))) (map val t) (map val y) (map val e)
        (val th.[1%nat]) (val th.[2%nat]) x /\
      Rabs (val v - (x + log_sichi (val th.[1%nat]))) <= ld_bound (length t) (val th.[0%nat]) (val th.[1%nat]) emin emax k.
Proof.
  intros HE HT HX HXR HL HG HR Hn.
  destruct (car1_new64 exp64 log64 sin64 cos64 pow64 t y e HR si raw) as (b & Eb & Hwb & E1 & E2 & E3 & E4 & Hbd).
  exists b. split; [exact Eb|]. intros b' th k emin emax Htc Hl Hf HC Hp Hk Hy Hmu Hem He.
  assert (theta64 th) as Hth.
  { split; [exact Hl|]. split; [exact Hf|]. split; [apply Hf; lia|]. apply Rabs_le_inv. apply Rle_trans with (1 := Hmu). apply bpow_le. lia. }
  clear Eb. subst t y e.
  destruct (LD_err exp64 log64 sin64 cos64 pow64 HE HT HX HXR HL HG b th k emin emax) as (v & b1 & x & EL & Fv & Hx & Er); try assumption.
  pose proof (@LD_history1 (A64 exp64 log64 sin64 cos64 pow64) b b' th Hwb Htc) as EH. rewrite EL in EH. cbn [obs_fst] in EH.
  destruct (LogDensity (car1_cls (A64 exp64 log64 sin64 cos64 pow64)) b' th) as [[v' b'']|ex| |]; try discriminate EH.
  injection EH as ->. exists v, b'', x. split; [reflexivity|]. split; [exact Fv|]. split; [exact Hx|exact Er].
Qed.
