(** Rounding errors of the CAR(1) filter in double precision: the computed variances and means against the exact ones. *)
From Coq Require Import Reals ZArith Bool Lra Lia List Psatz.
From Flocq Require Import Core BinarySingleNaN Relative.
From Verif Require Import Arith Res ListLemmas KFModel KF1Proof KF1R History Float64 Float64KF.
Import ListNotations.
Local Open Scope R_scope.
Local Notation p2 e := (bpow radix2 e).
Local Notation "x ⊕ y" := (Bplus mode_NE x y) (at level 50, left associativity).
Local Notation "x ⊖ y" := (Bminus mode_NE x y) (at level 50, left associativity).
Local Notation "x ⊗ y" := (Bmult mode_NE x y) (at level 40, left associativity).
Local Notation "x ⊘ y" := (Bdiv mode_NE x y) (at level 40, left associativity).

(** ** The value of an operation with a finite result *)
Lemma add_val x y : fin x -> fin y -> fin (x ⊕ y) -> val (x ⊕ y) = rnd (val x + val y).
Proof.
  intros Fx Fy F. pose proof (Bplus_correct 53 1024 p53 p53_1024 mode_NE x y Fx Fy) as HC. cbn [round_mode] in HC. change (SpecFloat.fexp 53 1024) with fx in HC.
  destruct (Rlt_bool _ _); [apply HC|]. exfalso. destruct HC as [E _]. apply B2SF_inf in E. rewrite E in F. discriminate F.
Qed.
Lemma sub_val x y : fin x -> fin y -> fin (x ⊖ y) -> val (x ⊖ y) = rnd (val x - val y).
Proof.
  intros Fx Fy F. pose proof (Bminus_correct 53 1024 p53 p53_1024 mode_NE x y Fx Fy) as HC. cbn [round_mode] in HC. change (SpecFloat.fexp 53 1024) with fx in HC.
  destruct (Rlt_bool _ _); [apply HC|]. exfalso. destruct HC as [E _]. apply B2SF_inf in E. rewrite E in F. discriminate F.
Qed.
Lemma mul_val x y : fin (x ⊗ y) -> val (x ⊗ y) = rnd (val x * val y).
Proof.
  intros F. pose proof (Bmult_correct 53 1024 p53 p53_1024 mode_NE x y) as HC. cbn [round_mode] in HC. change (SpecFloat.fexp 53 1024) with fx in HC.
  destruct (Rlt_bool _ _); [apply HC|]. exfalso. apply B2SF_inf in HC. rewrite HC in F. discriminate F.
Qed.
Lemma div_val x y : fin (x ⊘ y) -> val y <> 0 -> val (x ⊘ y) = rnd (val x / val y).
Proof.
  intros F N. pose proof (Bdiv_correct 53 1024 p53 p53_1024 mode_NE x y N) as HC. cbn [round_mode] in HC. change (SpecFloat.fexp 53 1024) with fx in HC.
  destruct (Rlt_bool _ _); [apply HC|]. exfalso. apply B2SF_inf in HC. rewrite HC in F. discriminate F.
Qed.

(** ** The error of one rounding *)
Definition u : R := p2 (-53).
Definition eta : R := p2 (-1075).
Lemma rnd_err r : Rabs (rnd r - r) <= u * Rabs r + eta.
Proof.
  destruct (error_N_FLT radix2 (-1074) 53 ltac:(lia) (fun x => negb (Z.even x)) r) as (eps & et & H1 & H2 & _ & ->).
  replace (r * (1 + eps) + et - r) with (eps * r + et) by ring. apply Rle_trans with (1 := Rabs_triang _ _). rewrite Rabs_mult.
  apply Rplus_le_compat; [apply Rmult_le_compat_r; [apply Rabs_pos|]|].
  - apply Rle_trans with (1 := H1). right. unfold u. change (- (53) + 1)%Z with (1 + -53)%Z. rewrite (bpow_plus radix2 1 (-53)). change (p2 1) with 2. field.
  - apply Rle_trans with (1 := H2). right. unfold eta. change (-1074)%Z with (1 + -1075)%Z. rewrite (bpow_plus radix2 1 (-1075)). change (p2 1) with 2. field.
Qed.

(** ** One step, on real numbers.  [near x y]: x is y rounded. *)
Definition near (x y : R) : Prop := Rabs (x - y) <= u * Rabs y + eta.
Lemma prod_err a a' b b' da db Aa Bb : Rabs (a' - a) <= da -> Rabs (b' - b) <= db -> Rabs a' <= Aa -> Rabs b <= Bb -> Rabs (a' * b' - a * b) <= Aa * db + Bb * da.
Proof.
  intros H1 H2 H3 H4. replace (a' * b' - a * b) with (a' * (b' - b) + (a' - a) * b) by ring. apply Rle_trans with (1 := Rabs_triang _ _). rewrite !Rabs_mult.
  apply Rplus_le_compat; [|rewrite Rmult_comm]; apply Rmult_le_compat; try apply Rabs_pos; assumption.
Qed.
Lemma u_pos : 0 < u. Proof. apply bpow_gt_0. Qed.
Lemma eta_pos : 0 < eta. Proof. apply bpow_gt_0. Qed.
Lemma u_small : u <= / 1048576.
Proof. change (/ 1048576) with (p2 (-20)). apply bpow_le. lia. Qed.
Lemma eta_u : eta <= u.
Proof. apply bpow_le. lia. Qed.
Lemma near_le x y Y : near x y -> Rabs y <= Y -> Rabs (x - y) <= u * Y + eta.
Proof. intros H HY. apply Rle_trans with (1 := H). apply Rplus_le_compat_r. apply Rmult_le_compat_l; [left; apply u_pos|exact HY]. Qed.
Lemma abs3 a b c d1 d2 : Rabs (a - b) <= d1 -> Rabs (b - c) <= d2 -> Rabs (a - c) <= d1 + d2.
Proof. intros H1 H2. replace (a - c) with ((a - b) + (b - c)) by ring. apply Rle_trans with (1 := Rabs_triang _ _). lra. Qed.
Lemma abs_le_iff x d : Rabs x <= d <-> - d <= x <= d.
Proof. split; [apply Rabs_le_inv|apply Rabs_le]. Qed.
Lemma abs01 x : 0 <= x <= 1 -> Rabs x <= 1.
Proof. intros H. apply Rabs_le. lra. Qed.
Lemma frac01 a b : 0 <= a <= b -> 0 < b -> 0 <= a / b <= 1.
Proof.
  intros H Hb. split; [apply Rmult_le_pos; [lra|left; apply Rinv_0_lt_compat, Hb]|]. apply Rmult_le_reg_r with b; [exact Hb|]. unfold Rdiv. rewrite Rmult_assoc, Rinv_l by lra. lra.
Qed.

(** the gain computed from the computed variance *)
Section Gain.
Variables (W e2 q v v' p k d : R).
Hypothesis HW : 0 < W.
Hypothesis HeW : eta <= u * e2.
Hypothesis He : 0 < e2 <= W.
Hypothesis Hv : e2 <= v.
Hypothesis Hvv : Rabs (v' - v) <= d.
Hypothesis Hd : 0 <= d <= W.
Hypothesis Hv2 : v' <= 2 * W.
Hypothesis Hq : Rabs (q - e2) <= 6 * (u * e2).
Hypothesis Hqv : 0 < q <= v'.
Hypothesis Hp : near p (v' - q).
Hypothesis Hp0 : 0 <= p <= v'.
Hypothesis Hk : near k (p / v').
Lemma q_low : e2 <= v' * (1 + 8 * u).
Proof using All.
  pose proof Hq as H. apply abs_le_iff in H. pose proof u_pos as Hu. pose proof u_small as Hus. destruct Hqv as [Q1 Q2].
  assert (e2 * (1 - 6 * u) <= v') as H1 by lra.
  assert (e2 * (1 - 6 * u) * (1 + 8 * u) <= v' * (1 + 8 * u)) as H2 by (apply Rmult_le_compat_r; lra).
  assert (e2 * 1 <= e2 * ((1 - 6 * u) * (1 + 8 * u))) as H3 by (apply Rmult_le_compat_l; [lra|]; nra). lra.
Qed.
Lemma uW_le x c : x <= c * W -> u * x <= c * (u * W).
Proof using Type. intros H. pose proof u_pos. replace (c * (u * W)) with (u * (c * W)) by ring. apply Rmult_le_compat_l; lra. Qed.
Lemma eta_W : eta <= u * W.
Proof using HeW He. apply Rle_trans with (1 := HeW). apply Rmult_le_compat_l; [left; apply u_pos|lra]. Qed.
Lemma p_err : Rabs (p - (v' - e2)) <= 9 * (u * W).
Proof using All.
  pose proof eta_W as He'. replace (9 * (u * W)) with (3 * (u * W) + 6 * (u * W)) by ring. apply abs3 with (v' - q).
  - apply Rle_trans with (1 := near_le p (v' - q) v' Hp ltac:(apply Rabs_le; lra)). pose proof (uW_le v' 2 Hv2). lra.
  - replace (v' - q - (v' - e2)) with (- (q - e2)) by ring. rewrite Rabs_Ropp. apply Rle_trans with (1 := Hq). pose proof (uW_le e2 1 ltac:(lra)). lra.
Qed.
Lemma k_err0 : Rabs (k - p / v') <= 2 * u.
Proof using All. pose proof eta_u. pose proof (frac01 p v' Hp0 ltac:(lra)). pose proof (near_le k (p / v') 1 Hk ltac:(apply abs01; assumption)). lra. Qed.
(** the computed gain is close to the exact one *)
Lemma k_err : Rabs (k - (v - e2) / v) <= 2 * u + (9 * (u * W) + d) * (2 / e2).
Proof using All.
  apply abs3 with (p / v'); [exact k_err0|]. pose proof p_err as Hpe. pose proof q_low as Hl. pose proof u_pos as Hu. pose proof u_small as Hus. assert (0 < v') as Hv0 by lra. assert (0 < v) as Hv1 by lra.
  replace (p / v' - (v - e2) / v) with ((p - (v' - e2) + (e2 / v) * (v' - v)) / v') by (field; lra).
  unfold Rdiv at 1. rewrite Rabs_mult. apply Rmult_le_compat; try apply Rabs_pos.
  - apply Rle_trans with (1 := Rabs_triang _ _). apply Rplus_le_compat; [exact Hpe|]. rewrite Rabs_mult. pose proof (frac01 e2 v ltac:(lra) Hv1) as F.
    rewrite (Rabs_pos_eq (e2 / v)) by lra. apply Rle_trans with (1 * Rabs (v' - v)); [apply Rmult_le_compat_r; [apply Rabs_pos|lra]|lra].
  - rewrite Rabs_pos_eq by (left; apply Rinv_0_lt_compat, Hv0). apply Rmult_le_reg_r with (v' * e2); [apply Rmult_lt_0_compat; lra|].
    replace (/ v' * (v' * e2)) with e2 by (field; lra). replace (2 / e2 * (v' * e2)) with (2 * v') by (field; lra). nra.
Qed.
(** p (1 - p / v') against its exact counterpart *)
Lemma pg_err : Rabs (p * (1 - p / v') - (v - e2) * (1 - (v - e2) / v)) <= d + 26 * (u * W).
Proof using All.
  pose proof p_err as Hpe. pose proof q_low as Hl. pose proof u_pos as Hu. pose proof u_small as Hus. assert (0 < v') as Hv0 by lra. assert (0 < v) as Hv1 by lra.
  replace (d + 26 * (u * W)) with (18 * (u * W) + (d + 8 * (u * W))) by ring. apply abs3 with ((v' - e2) * (1 - (v' - e2) / v')).
  - replace (p * (1 - p / v') - (v' - e2) * (1 - (v' - e2) / v')) with ((p - (v' - e2)) * (e2 / v' - p / v')) by (field; lra).
    rewrite Rabs_mult. replace (18 * (u * W)) with (9 * (u * W) * 2) by ring. apply Rmult_le_compat; try apply Rabs_pos; [exact Hpe|].
    pose proof (frac01 p v' Hp0 Hv0). assert (0 <= e2 / v' <= 2) as [X1 X2].
    { split; [apply Rmult_le_pos; [lra|left; apply Rinv_0_lt_compat, Hv0]|]. apply Rmult_le_reg_r with v'; [exact Hv0|]. unfold Rdiv. rewrite Rmult_assoc, Rinv_l by lra. nra. }
    apply Rabs_le. lra.
  - replace ((v' - e2) * (1 - (v' - e2) / v') - (v - e2) * (1 - (v - e2) / v)) with ((e2 / v') * ((e2 / v) * (v' - v))) by (field; lra).
    rewrite !Rabs_mult. pose proof (frac01 e2 v ltac:(lra) Hv1) as F. rewrite (Rabs_pos_eq (e2 / v)) by lra.
    assert (0 <= e2 / v' <= 1 + 8 * u) as [X1 X2].
    { split; [apply Rmult_le_pos; [lra|left; apply Rinv_0_lt_compat, Hv0]|]. apply Rmult_le_reg_r with v'; [exact Hv0|]. unfold Rdiv. rewrite Rmult_assoc, Rinv_l by lra. lra. }
    rewrite Rabs_pos_eq by exact X1. apply Rle_trans with ((1 + 8 * u) * (1 * d)).
    + apply Rmult_le_compat; [exact X1|apply Rmult_le_pos; [lra|apply Rabs_pos]|exact X2|]. apply Rmult_le_compat; try lra. apply Rabs_pos.
    + pose proof (uW_le d 1 ltac:(lra)). lra.
Qed.
End Gain.

Section VarStep.
Variables (W S0 S' e2 q v v' p k b r r' r2 a t1 s1 s2 t3 f2 q' z d : R).
Hypothesis HW : 0 < W.
Hypothesis HeW : eta <= u * e2.
Hypothesis He : 0 < e2 <= W.
Hypothesis Hv : e2 <= v.
Hypothesis Hvv : Rabs (v' - v) <= d.
Hypothesis Hd : 0 <= d <= W.
Hypothesis Hv2 : v' <= 2 * W.
Hypothesis Hq : Rabs (q - e2) <= 6 * (u * e2).
Hypothesis Hqv : 0 < q <= v'.
Hypothesis Hp : near p (v' - q).
Hypothesis Hp0 : 0 <= p <= v'.
Hypothesis Hk : near k (p / v').
Hypothesis Hk0 : 0 <= k <= 1.
Hypothesis Hb : near b (1 - k).
Hypothesis Hb0 : 0 <= b <= 1.
Hypothesis HS : 0 <= S0 <= W.
Hypothesis HS' : Rabs (S' - S0) <= 4 * (u * W).
Hypothesis HS0 : 0 <= S'.
Hypothesis Hr : 0 <= r <= 1.
Hypothesis Hr' : 0 <= r' <= 1.
Hypothesis Hrr : Rabs (r' - r) <= 16 * u.
Hypothesis H2 : near r2 (r' * r').
Hypothesis H20 : 0 <= r2 <= 1.
Hypothesis Ha : near a (1 - r2).
Hypothesis Ha0 : 0 <= a <= 1.
Hypothesis Ht1 : near t1 (S' * a).
Hypothesis Hs1 : near s1 (r2 * p).
Hypothesis Hs2 : near s2 (s1 * b).
Hypothesis Hs10 : 0 <= s1 <= p.
Hypothesis Hs20 : 0 <= s2 <= p.
Hypothesis Ht3 : near t3 (t1 + s2).
Hypothesis Hf : 0 < f2 <= W.
Hypothesis Hq' : Rabs (q' - f2) <= 6 * (u * f2).
Hypothesis Hz : near z (t3 + q').
Lemma r2_err : Rabs (r2 - r * r) <= 34 * u.
Proof using Hr Hr' Hrr H2.
  pose proof eta_u. replace (34 * u) with ((u * 1 + u) + (1 * (16 * u) + 1 * (16 * u))) by ring. apply abs3 with (r' * r').
  - apply Rle_trans with (1 := near_le _ _ 1 H2 ltac:(apply abs01; nra)). lra.
  - apply prod_err; try assumption; apply abs01; assumption.
Qed.
Lemma a_err : Rabs (a - (1 - r * r)) <= 36 * u.
Proof using Hr Hr' Hrr H2 H20 Ha.
  pose proof eta_u. replace (36 * u) with ((u * 1 + u) + 34 * u) by ring. apply abs3 with (1 - r2).
  - apply Rle_trans with (1 := near_le _ _ 1 Ha ltac:(apply Rabs_le; lra)). lra.
  - replace (1 - r2 - (1 - r * r)) with (- (r2 - r * r)) by ring. rewrite Rabs_Ropp. exact r2_err.
Qed.
Lemma S'_le : S' <= 2 * W.
Proof using HS HS' HW. clear - HS HS' HW. apply abs_le_iff in HS'. pose proof u_small. pose proof u_pos. nra. Qed.
Lemma t1_err : Rabs (t1 - S0 * (1 - r * r)) <= 43 * (u * W).
Proof using All.
  pose proof (eta_W W e2 HeW He) as E. pose proof S'_le as HL. replace (43 * (u * W)) with ((u * (2 * W) + u * W) + (1 * (4 * (u * W)) + W * (36 * u))) by ring. apply abs3 with (S' * a).
  - apply Rle_trans with (1 := near_le _ _ (2 * W) Ht1 ltac:(rewrite Rabs_pos_eq by (apply Rmult_le_pos; lra); nra)). lra.
  - rewrite (Rmult_comm S' a), (Rmult_comm S0). apply Rle_trans with (1 * (4 * (u * W)) + W * (36 * u)); [|lra].
    apply prod_err; [exact a_err|exact HS'|apply abs01; assumption|apply Rabs_le; lra].
Qed.
Lemma b_err : Rabs (b - (1 - p / v')) <= 4 * u.
Proof using All.
  pose proof eta_u. replace (4 * u) with ((u * 1 + u) + 2 * u) by ring. apply abs3 with (1 - k).
  - apply Rle_trans with (1 := near_le _ _ 1 Hb ltac:(apply Rabs_le; lra)). lra.
  - replace (1 - k - (1 - p / v')) with (- (k - p / v')) by ring. rewrite Rabs_Ropp. apply (k_err0 W e2 q v v' p k d); assumption.
Qed.
Lemma s2_err : Rabs (s2 - r * r * ((v - e2) * (1 - (v - e2) / v))) <= d + 108 * (u * W).
Proof using All.
  pose proof (eta_W W e2 HeW He) as E. pose proof (uW_le W v' 2 Hv2) as Hu2. pose proof u_pos as Hu. assert (0 < v') as Hv0 by lra. pose proof (frac01 p v' Hp0 Hv0) as Fp.
  pose proof b_err as Eb. pose proof r2_err as Er. pose proof (pg_err W e2 q v v' p k d) as Eg. specialize (Eg HW HeW He Hv Hvv Hd Hv2 Hq Hqv Hp Hp0 Hk).
  replace (d + 108 * (u * W)) with (3 * (u * W) + (11 * (u * W) + (68 * (u * W) + (d + 26 * (u * W))))) by ring.
  apply abs3 with (s1 * b).
  { apply Rle_trans with (1 := near_le _ _ v' Hs2 ltac:(rewrite Rabs_pos_eq by (apply Rmult_le_pos; lra); nra)). lra. }
  apply abs3 with (r2 * p * (1 - p / v')).
  { apply Rle_trans with (v' * (4 * u) + 1 * (3 * (u * W))); [|lra].
    apply prod_err; [|exact Eb|apply Rabs_le; lra|apply Rabs_le; lra].
    apply Rle_trans with (1 := near_le _ _ v' Hs1 ltac:(rewrite Rabs_pos_eq by (apply Rmult_le_pos; lra); nra)). lra. }
  assert (0 <= p * (1 - p / v') <= v') as Gp by (split; [apply Rmult_le_pos; lra|nra]).
  apply abs3 with (r * r * (p * (1 - p / v'))).
  { replace (r2 * p * (1 - p / v') - r * r * (p * (1 - p / v'))) with ((r2 - r * r) * (p * (1 - p / v'))) by ring. rewrite Rabs_mult.
    rewrite (Rabs_pos_eq (p * _)) by lra. apply Rle_trans with (34 * u * v'); [apply Rmult_le_compat; try lra; apply Rabs_pos|lra]. }
  replace (r * r * (p * (1 - p / v')) - r * r * ((v - e2) * (1 - (v - e2) / v))) with (r * r * (p * (1 - p / v') - (v - e2) * (1 - (v - e2) / v))) by ring.
  rewrite Rabs_mult. rewrite (Rabs_pos_eq (r * r)) by nra. apply Rle_trans with (1 * Rabs (p * (1 - p / v') - (v - e2) * (1 - (v - e2) / v))); [apply Rmult_le_compat_r; [apply Rabs_pos|nra]|lra].
Qed.
Lemma t1_in : 0 <= S' * a <= 2 * W.
Proof using All. pose proof S'_le. split; [apply Rmult_le_pos; lra|nra]. Qed.
(** the variance without the error bar *)
Lemma t3_err : Rabs (t3 - (S0 * (1 - r * r) + r * r * (v - e2) * (1 - (v - e2) / v))) <= d + 157 * (u * W) /\ Rabs t3 <= 5 * W.
Proof using All.
  pose proof (eta_W W e2 HeW He) as E. pose proof t1_in as B1. pose proof u_pos as Hu. pose proof u_small as Hus. pose proof t1_err as E1. pose proof s2_err as E2.
  assert (Rabs (t1 - S' * a) <= 3 * (u * W)) as T1.
  { apply Rle_trans with (1 := near_le _ _ (2 * W) Ht1 ltac:(apply Rabs_le; lra)). lra. }
  apply abs_le_iff in T1. assert (3 * (u * W) <= W / 100) as K1 by nra.
  assert (Rabs (t1 + s2) <= (41 / 10) * W) as B3 by (apply Rabs_le; lra).
  assert (Rabs (t3 - (t1 + s2)) <= 6 * (u * W)) as T3 by (apply Rle_trans with (1 := near_le _ _ _ Ht3 B3); nra).
  split.
  - replace (d + 157 * (u * W)) with (6 * (u * W) + (43 * (u * W) + (d + 108 * (u * W)))) by ring. apply abs3 with (t1 + s2); [exact T3|].
    replace (t1 + s2 - (S0 * (1 - r * r) + r * r * (v - e2) * (1 - (v - e2) / v))) with ((t1 - S0 * (1 - r * r)) + (s2 - r * r * ((v - e2) * (1 - (v - e2) / v)))) by ring.
    apply Rle_trans with (1 := Rabs_triang _ _). lra.
  - apply abs_le_iff in T3, B3. apply Rabs_le. nra.
Qed.
Lemma var_err : Rabs (z - (S0 * (1 - r * r) + r * r * (v - e2) * (1 - (v - e2) / v) + f2)) <= d + 175 * (u * W).
Proof using All.
  pose proof (eta_W W e2 HeW He) as E. destruct t3_err as [E3 B3]. pose proof u_pos as Hu. pose proof u_small as Hus.
  assert (Rabs (q' - f2) <= 6 * (u * W)) as Eq.
  { apply Rle_trans with (1 := Hq'). pose proof (uW_le W f2 1 ltac:(lra)). lra. }
  assert (Rabs (t3 + q') <= 7 * W) as Bz by (apply abs_le_iff in B3, Eq; apply Rabs_le; nra).
  replace (d + 175 * (u * W)) with ((u * (7 * W) + u * W) + ((d + 157 * (u * W)) + (6 * (u * W) + 4 * (u * W)))) by ring. apply abs3 with (t3 + q').
  - apply Rle_trans with (1 := near_le _ _ _ Hz Bz). lra.
  - replace (t3 + q' - (S0 * (1 - r * r) + r * r * (v - e2) * (1 - (v - e2) / v) + f2)) with ((t3 - (S0 * (1 - r * r) + r * r * (v - e2) * (1 - (v - e2) / v))) + (q' - f2)) by ring.
    apply Rle_trans with (1 := Rabs_triang _ _). nra.
Qed.
End VarStep.

Section MeanStep.
Variables (B r r' ra k m m' y y' a1 a2 a3 a4 z d dk : R).
Hypothesis HB : 0 < B.
Hypothesis HeB : eta <= u * B.
Hypothesis Hr : 0 <= r <= 1.
Hypothesis Hr' : 0 <= r' <= 1.
Hypothesis Hrr : Rabs (r' - r) <= 16 * u.
Hypothesis Hra : 0 <= ra <= 1.
Hypothesis Hk0 : 0 <= k <= 1.
Hypothesis Hk : Rabs (k - ra) <= dk.
Hypothesis Hm : Rabs (m' - m) <= d.
Hypothesis Hm' : Rabs m' <= 4 * B.
Hypothesis Hy : Rabs y' <= B.
Hypothesis Hyy : Rabs (y' - y) <= 2 * (u * B).
Hypothesis H1 : near a1 (r' * m').
Hypothesis H2 : near a2 (r' * k).
Hypothesis H20 : 0 <= a2 <= 1.
Hypothesis H3 : near a3 (y' - m').
Hypothesis H4 : near a4 (a2 * a3).
Hypothesis Hz : near z (a1 + a4).
Lemma mean_err : Rabs (z - (r * m + r * ra * (y - m))) <= d + 190 * (u * B) + 6 * (dk * B).
Proof using All.
  pose proof u_pos as Hu. pose proof u_small as Hus. pose proof eta_u as Eu.
  assert (Rabs (r' * m') <= 4 * B) as B1. { rewrite Rabs_mult, (Rabs_pos_eq r') by lra. pose proof (Rabs_pos m'). nra. }
  assert (Rabs (a1 - r' * m') <= 5 * (u * B)) as E1 by (apply Rle_trans with (1 := near_le _ _ _ H1 B1); lra).
  assert (Rabs (y' - m') <= 5 * B) as B3 by (apply abs_le_iff in Hm', Hy; apply Rabs_le; lra).
  assert (Rabs (a3 - (y' - m')) <= 6 * (u * B)) as E3 by (apply Rle_trans with (1 := near_le _ _ _ H3 B3); lra).
  assert (6 * (u * B) <= B / 10) as KB by nra.
  assert (Rabs a3 <= 6 * B) as B3' by (apply abs_le_iff in E3, B3; apply Rabs_le; lra).
  assert (Rabs (a2 - r * ra) <= 18 * u + dk) as E2.
  { replace (18 * u + dk) with ((u * 1 + u) + (16 * u + dk)) by ring. apply abs3 with (r' * k).
    - apply Rle_trans with (1 := near_le _ _ 1 H2 ltac:(apply abs01; nra)). lra.
    - apply Rle_trans with (1 * dk + 1 * (16 * u)); [|lra]. apply prod_err; try assumption; apply abs01; assumption. }
  assert (Rabs (a2 * a3) <= 6 * B) as B4. { rewrite Rabs_mult, (Rabs_pos_eq a2) by lra. pose proof (Rabs_pos a3). nra. }
  assert (Rabs (a4 - a2 * a3) <= 7 * (u * B)) as E4 by (apply Rle_trans with (1 := near_le _ _ _ H4 B4); lra).
  assert (Rabs (a2 * a3 - r * ra * (y' - m')) <= 96 * (u * B) + 5 * (dk * B)) as E5.
  { apply Rle_trans with (1 * (6 * (u * B)) + 5 * B * (18 * u + dk)); [|lra]. apply prod_err; try assumption. apply abs01; assumption. }
  assert (Rabs (r' * m' - r * m') <= 64 * (u * B)) as E6.
  { replace (r' * m' - r * m') with ((r' - r) * m') by ring. rewrite Rabs_mult. apply Rle_trans with (16 * u * (4 * B)); [apply Rmult_le_compat; try apply Rabs_pos; assumption|lra]. }
  assert (Rabs (a1 + a4) <= 12 * B) as Bz by (apply abs_le_iff in E1, B1, E4, B4; apply Rabs_le; lra).
  assert (Rabs (z - (a1 + a4)) <= 13 * (u * B)) as Ez by (apply Rle_trans with (1 := near_le _ _ _ Hz Bz); lra).
  assert (Rabs ((r * m' + r * ra * (y' - m')) - (r * m + r * ra * (y' - m))) <= d) as Ed.
  { replace ((r * m' + r * ra * (y' - m')) - (r * m + r * ra * (y' - m))) with (r * (1 - ra) * (m' - m)) by ring. rewrite Rabs_mult.
    assert (0 <= r * (1 - ra) <= 1) as X by (split; nra). rewrite (Rabs_pos_eq (r * (1 - ra))) by lra. pose proof (Rabs_pos (m' - m)). nra. }
  assert (0 <= dk * B) as Kd by (apply Rmult_le_pos; [apply Rle_trans with (2 := Hk); apply Rabs_pos|lra]).
  assert (Rabs (r * ra * (y' - y)) <= 2 * (u * B)) as Ey.
  { rewrite Rabs_mult. assert (0 <= r * ra <= 1) as X by (split; nra). rewrite (Rabs_pos_eq (r * ra)) by lra. pose proof (Rabs_pos (y' - y)). nra. }
  apply abs_le_iff in Ey, Ez, E1, E4, E5, E6, Ed. apply Rabs_le. lra.
Qed.
End MeanStep.
