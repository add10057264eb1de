(** The population variance of RunCar1Sampler and RunCarmaSampler in double precision against the exact one. *)
From Coq Require Import Reals ZArith Bool Lra Lia List Psatz.
From Flocq Require Import Core BinarySingleNaN Relative.
From Verif Require Import Arith Res ListLemmas CarpackModel EngineModel StartModel Float64 Float64KF Float64LD Float64Top FloatErr FloatErrKF.
Import ListNotations.
Local Open Scope R_scope.
Local Notation length := List.length.
Local Notation p2 e := (bpow radix2 e).
Local Notation "x ⊕ y" := (Bplus mode_NE x y) (at level 50, left associativity).
Local Notation "x ⊖ y" := (Bminus mode_NE x y) (at level 50, left associativity).
Local Notation "x ⊗ y" := (Bmult mode_NE x y) (at level 40, left associativity).
Local Notation "x ⊘ y" := (Bdiv mode_NE x y) (at level 40, left associativity).

(** the mean and the mean squared deviation from the mean *)
Definition avg (l : list R) : R := fold_right Rplus 0 l / INR (length l).
Definition popvarR (l : list R) : R := avg (map (fun x => (x - avg l) ^ 2) l).

Lemma popvar_alt l : l <> [] -> popvarR l = avg (map (fun x => x * x) l) - avg l * avg l.
Proof.
  intros Hl. assert (0 < INR (length l)) as Hn by (destruct l; [congruence|apply lt_0_INR; cbn; lia]).
  assert (forall m, fold_right Rplus 0 (map (fun x => (x - m) ^ 2) l) = fold_right Rplus 0 (map (fun x => x * x) l) - 2 * m * fold_right Rplus 0 l + INR (length l) * m * m) as H.
  { clear. intros m. induction l as [|x l IH]; [cbn; ring|]. cbn [map fold_right length]. rewrite IH, S_INR. ring. }
  unfold popvarR, avg. rewrite !map_length, H. field. lra.
Qed.

Lemma p2_split a b : p2 (a + b) = p2 a * p2 b. Proof. apply bpow_plus. Qed.
Lemma eta_k k : (-1000 <= k)%Z -> eta <= u * p2 k.
Proof. intros H. unfold eta, u. rewrite <- p2_split. apply bpow_le. lia. Qed.

(** a sum accumulated from left to right *)
Lemma sum_err k l : (-1000 <= k <= 900)%Z -> (Z.of_nat (length l) < 2 ^ 50)%Z -> (forall x, In x l -> rng (- p2 k) (p2 k) x) ->
  rng (- (INR (length l) * p2 k)) (INR (length l) * p2 k) (fold_left (Bplus mode_NE) l (ofZ64 0)) /\
  Rabs (val (fold_left (Bplus mode_NE) l (ofZ64 0)) - fold_right Rplus 0 (map val l)) <= INR (length l) * (INR (length l) + 1) * (u * p2 k).
Proof.
  intros Hk Hn Hl. set (N := INR (length l)). pose proof u_pos as Hu. pose proof (bpow_gt_0 radix2 k) as Hp. pose proof (eta_k k ltac:(lia)) as He.
  assert (0 < u * p2 k) as Hup by (apply Rmult_lt_0_compat; assumption).
  assert (forall l' c acc S, (c + length l' <= length l)%nat -> (forall x, In x l' -> rng (- p2 k) (p2 k) x) ->
    rng (- (INR c * p2 k)) (INR c * p2 k) acc -> Rabs (val acc - S) <= INR c * (N + 1) * (u * p2 k) ->
    rng (- (INR (c + length l') * p2 k)) (INR (c + length l') * p2 k) (fold_left (Bplus mode_NE) l' acc) /\
    Rabs (val (fold_left (Bplus mode_NE) l' acc) - (S + fold_right Rplus 0 (map val l'))) <= INR (c + length l') * (N + 1) * (u * p2 k)) as K.
  { induction l' as [|x l' IH]; intros c acc S Hc Hx [Fa Ba] Ea; cbn [fold_left length map fold_right].
    - rewrite Nat.add_0_r, Rplus_0_r. split; [split; assumption|exact Ea].
    - cbn [length] in Hc. replace (c + Datatypes.S (length l'))%nat with (Datatypes.S c + length l')%nat by lia.
      destruct (Hx x (or_introl eq_refl)) as [Fx Bx].
      assert (INR (Datatypes.S c) <= N) as HcN by (apply le_INR; lia).
      assert (rng (- (INR (Datatypes.S c) * p2 k)) (INR (Datatypes.S c) * p2 k) (acc ⊕ x)) as [Fs Bs].
      { apply add_in; try assumption; [apply repr_opp|..]; try (rewrite INR_IZR_INZ; apply repr_mult; lia). rewrite S_INR. lra. }
      replace (S + (val x + fold_right Rplus 0 (map val l'))) with (S + val x + fold_right Rplus 0 (map val l')) by ring.
      apply IH; [lia|intros z Hz; apply Hx; right; exact Hz|split; assumption|].
      pose proof (near_le _ _ (INR (Datatypes.S c) * p2 k) (near_add acc x Fa Fx Fs)) as E.
      rewrite S_INR in *. specialize (E ltac:(apply Rabs_le; lra)).
      assert (Rabs (val acc + val x - (S + val x)) <= INR c * (N + 1) * (u * p2 k)) as E2 by (replace (val acc + val x - (S + val x)) with (val acc - S) by ring; exact Ea).
      apply Rle_trans with (1 := abs3 _ _ _ _ _ E E2).
      apply Rle_trans with (N * (u * p2 k) + u * p2 k + INR c * (N + 1) * (u * p2 k)); [|lra].
      apply Rplus_le_compat_r. apply Rplus_le_compat; [|exact He]. replace (u * ((INR c + 1) * p2 k)) with ((INR c + 1) * (u * p2 k)) by ring. apply Rmult_le_compat_r; lra. }
  destruct (ofZ_val 0) as [F0 V0]; [reflexivity|]. specialize (K l 0%nat (ofZ64 0) 0 ltac:(lia) Hl). rewrite Rplus_0_l in K. cbn [Nat.add INR] in K. rewrite V0 in K.
  apply K; [split; [exact F0|rewrite V0; lra]|]. rewrite Rminus_0_r, Rabs_R0. lra.
Qed.

(** the mean of doubles *)
Lemma mean_err k l : (-1000 <= k <= 900)%Z -> l <> [] -> (Z.of_nat (length l) < 2 ^ 50)%Z -> (forall x, In x l -> rng (- p2 k) (p2 k) x) ->
  rng (- p2 k) (p2 k) (fold_left (Bplus mode_NE) l (ofZ64 0) ⊘ ofZ64 (Z.of_nat (length l))) /\
  Rabs (val (fold_left (Bplus mode_NE) l (ofZ64 0) ⊘ ofZ64 (Z.of_nat (length l))) - avg (map val l)) <= (INR (length l) + 3) * (u * p2 k).
Proof.
  intros Hk Hne Hn Hl. destruct (sum_err k l Hk Hn Hl) as [[Fs Bs] Es]. set (s := fold_left _ _ _) in *. clearbody s.
  pose proof u_pos as Hu. pose proof (bpow_gt_0 radix2 k) as Hp. pose proof (eta_k k ltac:(lia)) as He.
  assert (1 <= INR (length l)) as Hn1 by (apply (le_INR 1); destruct l; [congruence|cbn; lia]).
  destruct (ofZ_val (Z.of_nat (length l))) as [Fn Vn]; [lia|]. rewrite <- INR_IZR_INZ in Vn.
  set (d := ofZ64 _) in *. clearbody d. set (n := INR (length l)) in *.
  assert (forall a, Rabs a <= n * p2 k -> Rabs (a / n) <= p2 k) as Hd.
  { intros a Ha. unfold Rdiv. rewrite Rabs_mult, (Rabs_pos_eq (/ n)) by (left; apply Rinv_0_lt_compat; lra).
    apply Rmult_le_reg_r with n; [lra|]. rewrite Rmult_assoc, Rinv_l, Rmult_1_r by lra. rewrite (Rmult_comm _ n). exact Ha. }
  assert (Rabs (val s / n) <= p2 k) as Bq by (apply Hd, Rabs_le; lra).
  assert (rng (- p2 k) (p2 k) (s ⊘ d)) as Hr.
  { apply div_in; try assumption; [rewrite Vn; lra|apply repr_opp, repr_p2; lia|apply repr_p2; lia|]. rewrite Vn. apply Rabs_le_inv, Bq. }
  split; [exact Hr|]. destruct Hr as [Fr _].
  pose proof (near_le _ _ (p2 k) (near_div s d Fr ltac:(rewrite Vn; lra))) as E. rewrite Vn in E. specialize (E Bq).
  assert (Rabs (val s / n - avg (map val l)) <= (n + 1) * (u * p2 k)) as E2.
  { unfold avg. rewrite map_length. fold n. replace (val s / n - fold_right Rplus 0 (map val l) / n) with ((val s - fold_right Rplus 0 (map val l)) * / n) by (field; lra).
    rewrite Rabs_mult, (Rabs_pos_eq (/ n)) by (left; apply Rinv_0_lt_compat; lra). apply Rmult_le_reg_r with n; [lra|]. rewrite Rmult_assoc, Rinv_l, Rmult_1_r by lra.
    apply Rle_trans with (1 := Es). right. ring. }
  apply Rle_trans with (1 := abs3 _ _ _ _ _ E E2). lra.
Qed.

Lemma abs_avg k l : l <> [] -> (forall x, In x l -> Rabs x <= k) -> Rabs (avg l) <= k.
Proof.
  intros Hne Hl. assert (0 < INR (length l)) as Hn by (destruct l; [congruence|apply lt_0_INR; cbn; lia]).
  assert (Rabs (fold_right Rplus 0 l) <= INR (length l) * k) as H.
  { clear Hne Hn. induction l as [|x l IH]; [cbn; rewrite Rabs_R0; lra|]. cbn [fold_right length]. rewrite S_INR.
    apply Rle_trans with (1 := Rabs_triang _ _). pose proof (Hl x (or_introl eq_refl)). specialize (IH (fun z Hz => Hl z (or_intror Hz))). lra. }
  unfold avg, Rdiv. rewrite Rabs_mult, (Rabs_pos_eq (/ _)) by (left; apply Rinv_0_lt_compat; lra).
  apply Rmult_le_reg_r with (INR (length l)); [lra|]. rewrite Rmult_assoc, Rinv_l, Rmult_1_r by lra. lra.
Qed.

Section Var.
Variables (exp64 log64 sin64 cos64 : b64 -> b64) (pow64 : b64 -> b64 -> b64).
Local Notation A := (A64 exp64 log64 sin64 cos64 pow64).

Lemma fold_sq (y : list b64) : forall s, fold_left (fun s x => s ⊕ x ⊗ x) y s = fold_left (Bplus mode_NE) (map (fun x => x ⊗ x) y) s.
Proof. induction y as [|x y IH]; intros s; [reflexivity|]. cbn [fold_left map]. apply IH. Qed.

Lemma pop_var_err k (y : list b64) : (-500 <= k <= 400)%Z -> y <> [] -> (Z.of_nat (length y) < 2 ^ 50)%Z -> (forall x, In x y -> rng (- p2 k) (p2 k) x) ->
  rng (- p2 (k + k)) (p2 (k + k)) (pop_var A y) /\
  Rabs (val (pop_var A y) - popvarR (map val y)) <= (3 * INR (length y) + 15) * u * p2 (k + k).
Proof.
  intros Hk Hne Hn Hy. pose proof u_pos as Hu. pose proof (bpow_gt_0 radix2 k) as Hp. pose proof (bpow_gt_0 radix2 (k + k)) as Hq. pose proof (eta_k (k + k) ltac:(lia)) as He.
  pose proof (p2_split k k) as Hqp. set (Q := p2 (k + k)) in *. set (n := INR (length y)) in *.
  assert (0 <= n) as Hn0 by apply pos_INR.
  change (pop_var A y) with (fold_left (fun s x => s ⊕ x ⊗ x) y (ofZ64 0) ⊘ ofZ64 (Z.of_nat (length y)) ⊖
    (fold_left (Bplus mode_NE) y (ofZ64 0) ⊘ ofZ64 (Z.of_nat (length y))) ⊗ (fold_left (Bplus mode_NE) y (ofZ64 0) ⊘ ofZ64 (Z.of_nat (length y)))).
  rewrite fold_sq. destruct (mean_err k y ltac:(lia) Hne Hn Hy) as [[Fm Bm] Em].
  set (m := fold_left (Bplus mode_NE) y (ofZ64 0) ⊘ _) in *. clearbody m.
  assert (forall x, In x y -> rng 0 Q (x ⊗ x) /\ Rabs (val (x ⊗ x) - val x * val x) <= 2 * (u * Q)) as Hsq.
  { intros x Hx. destruct (Hy x Hx) as [Fx Bx]. assert (0 <= val x * val x <= Q) as B by (split; [nra|rewrite Hqp; nra]).
    assert (rng 0 Q (x ⊗ x)) as Hr by (apply mul_in; try assumption; [apply repr_0|apply repr_p2; lia]). split; [exact Hr|].
    apply Rle_trans with (1 := near_le _ _ Q (near_mul x x (proj1 Hr)) ltac:(rewrite Rabs_pos_eq; lra)). lra. }
  pose (sq := @map b64 b64 (fun x => x ⊗ x) y). change (map (fun x => x ⊗ x) y) with sq. assert (length sq = length y) as Hls by apply map_length. assert (Z.of_nat (length sq) < 2 ^ 50)%Z as Hns by (rewrite Hls; exact Hn).
  assert (sq <> []) as Hsne by (intros X; apply Hne; apply map_eq_nil in X; exact X).
  assert (forall x, In x sq -> rng (- Q) Q x) as Hsr.
  { intros x Hx. apply in_map_iff in Hx. destruct Hx as (z & <- & Hz). eapply rng_weaken; [apply Hsq, Hz|lra|lra]. }
  destruct (mean_err (k + k) sq ltac:(lia) Hsne Hns Hsr) as [Hs1 Es1].
  assert (rng 0 Q (fold_left (Bplus mode_NE) sq (ofZ64 0) ⊘ ofZ64 (Z.of_nat (length sq)))) as [Fs Bs].
  { assert (rng (IZR (0 * Z.of_nat (length sq)) * p2 (k + k)) (IZR (Z.of_nat (length sq)) * p2 (k + k)) (fold_left (Bplus mode_NE) sq (ofZ64 0))) as V.
    { apply (vsum_in exp64 log64 sin64 cos64 pow64 0 (k + k) sq); [lia|lia| |exact Hns].
      intros x Hx. apply in_map_iff in Hx. destruct Hx as (z & <- & Hz). eapply rng_weaken; [apply Hsq, Hz|lra|unfold Q; lra]. }
    rewrite Hls in V.
    pose proof (div_n 0 (k + k) _ (length y) ltac:(lia) ltac:(lia) ltac:(destruct y; [congruence|cbn; lia]) Hn V) as D.
    rewrite Hls. eapply rng_weaken; [exact D|lra|unfold Q; lra]. }
  rewrite Hls in Es1, Fs, Bs. pose (s := fold_left (Bplus mode_NE) sq (ofZ64 0) ⊘ ofZ64 (Z.of_nat (length y))). change (fin s) in Fs. change (0 <= val s <= Q) in Bs.
  change (Rabs (val s - avg (map val sq)) <= (n + 3) * (u * Q)) in Es1. change (Rabs (val m - avg (map val y)) <= (n + 3) * (u * p2 k)) in Em.
  change (fold_left (Bplus mode_NE) sq (ofZ64 0) ⊘ ofZ64 (Z.of_nat (length y))) with s. clearbody s.
  assert (Rabs (avg (map val sq) - avg (map (fun x => x * x) (map val y))) <= 2 * (u * Q)) as Es2.
  { unfold sq. rewrite !map_map. unfold avg. rewrite !map_length. fold n.
    replace (fold_right Rplus 0 (map (fun x => val (x ⊗ x)) y) / n - fold_right Rplus 0 (map (fun x => val x * val x) y) / n) with
      (avg (map (fun x => val (x ⊗ x) - val x * val x) y)).
    - apply abs_avg; [intros X; apply Hne; apply map_eq_nil in X; exact X|]. intros d Hd. apply in_map_iff in Hd. destruct Hd as (z & <- & Hz). apply Hsq, Hz.
    - unfold avg. rewrite map_length. fold n. unfold Rdiv. rewrite <- Rmult_minus_distr_r. f_equal. clear. induction y as [|x y IH]; cbn [map fold_right]; [ring|]. rewrite IH. ring. }
  assert (0 <= val m * val m <= Q) as Bmm by (split; [nra|rewrite Hqp; nra]).
  assert (rng 0 Q (m ⊗ m)) as [Fmm Bmm2] by (apply mul_in; try assumption; [apply repr_0|apply repr_p2; lia]).
  assert (Rabs (val (m ⊗ m) - val m * val m) <= 2 * (u * Q)) as Emm.
  { apply Rle_trans with (1 := near_le _ _ Q (near_mul m m Fmm) ltac:(rewrite Rabs_pos_eq; lra)). lra. }
  assert (Rabs (avg (map val y)) <= p2 k) as Ba.
  { apply abs_avg; [intros X; apply Hne; apply map_eq_nil in X; exact X|]. intros d Hd. apply in_map_iff in Hd. destruct Hd as (z & <- & Hz). destruct (Hy z Hz) as [_ B]. apply Rabs_le; lra. }
  pose proof (prod_err _ _ _ _ _ _ (p2 k) (p2 k) Em Em ltac:(apply Rabs_le; lra) Ba) as Epp.
  assert (rng (- Q) Q (s ⊖ m ⊗ m)) as Hr by (apply sub_in; try assumption; [apply repr_opp, repr_p2; lia|apply repr_p2; lia|lra]).
  split; [exact Hr|]. rewrite popvar_alt by (intros X; apply Hne; apply map_eq_nil in X; exact X).
  pose proof (near_le _ _ Q (near_sub s (m ⊗ m) Fs Fmm (proj1 Hr)) ltac:(apply Rabs_le; lra)) as Er.
  set (sm := avg (map val sq)) in *. set (sy := avg (map (fun x => x * x) (map val y))) in *. set (my := avg (map val y)) in *. clearbody sm sy my.
  assert (p2 k * ((n + 3) * (u * p2 k)) = (n + 3) * (u * Q)) as Eq by (rewrite Hqp; ring). rewrite Eq in Epp.
  apply abs_le_iff in Er, Emm, Epp, Es2, Es1. apply abs_le_iff.
  replace ((3 * n + 15) * u * Q) with (3 * (n * (u * Q)) + 15 * (u * Q)) by ring.
  assert ((n + 3) * (u * Q) = n * (u * Q) + 3 * (u * Q)) as E3 by ring. rewrite E3 in *. split; lra.
Qed.
End Var.
