(** The CAR(1) filter in double precision against the exact one (continued): the whole series. *)
From Coq Require Import Reals ZArith Bool Lra Lia List Psatz.
From Flocq Require Import Core BinarySingleNaN Relative.
From Verif Require Import Arith Res ListLemmas KFModel KF1Proof KF1R KF1X KF1More Emb Spec History Float64 Float64KF Float64Top FloatErr.
Import ListNotations.
Local Open Scope R_scope.
Local Notation p2 e := (bpow radix2 e).
Local Notation "x ⊕ y" := (Bplus mode_NE x y) (at level 50, left associativity).
Local Notation "x ⊖ y" := (Bminus mode_NE x y) (at level 50, left associativity).
Local Notation "x ⊗ y" := (Bmult mode_NE x y) (at level 40, left associativity).
Local Notation "x ⊘ y" := (Bdiv mode_NE x y) (at level 40, left associativity).
Local Notation one := (ofZ64 1).
Local Notation "l .[ i ]" := (nth i l (ofZ64 0)) (at level 2, format "l .[ i ]").

(** ** exp *)
Lemma exp_ge_lin x : 0 <= x -> 1 + x <= exp x.
Proof. intros H. destruct (Req_dec x 0) as [->|N]; [rewrite exp_0; lra|]. left. apply exp_ineq1. lra. Qed.
Lemma exp_le_lin x : 1 - exp (- x) <= x.
Proof. destruct (Req_dec x 0) as [->|N]; [rewrite Ropp_0, exp_0; lra|]. pose proof (exp_ineq1 (- x) ltac:(lra)). lra. Qed.
Lemma exp_diff a b c : c <= a -> c <= b -> Rabs (exp (- a) - exp (- b)) <= Rabs (a - b) * exp (- c).
Proof.
  assert (forall a b, c <= a -> a <= b -> Rabs (exp (- a) - exp (- b)) <= Rabs (a - b) * exp (- c)) as H.
  { intros a0 b0 Hc Hab. replace (exp (- b0)) with (exp (- a0) * exp (- (b0 - a0))) by (rewrite <- exp_plus; f_equal; ring).
    replace (exp (- a0) - exp (- a0) * exp (- (b0 - a0))) with (exp (- a0) * (1 - exp (- (b0 - a0)))) by ring.
    pose proof (exp_pos (- a0)) as P. pose proof (exp_le_lin (b0 - a0)) as L.
    assert (0 <= 1 - exp (- (b0 - a0))) as L0.
    { destruct (Req_dec a0 b0) as [->|N]; [replace (b0 - b0) with 0 by ring; rewrite Ropp_0, exp_0; lra|]. pose proof (exp_increasing (- (b0 - a0)) 0 ltac:(lra)) as I. rewrite exp_0 in I. lra. }
    rewrite Rabs_pos_eq by (apply Rmult_le_pos; lra). rewrite (Rabs_left1 (a0 - b0)) by lra. rewrite (Rmult_comm (- (a0 - b0))).
    apply Rmult_le_compat; try lra. destruct (Req_dec c a0) as [->|N]; [lra|]. left. apply exp_increasing. lra. }
  intros Ha Hb. destruct (Rle_lt_dec a b) as [L|L]; [apply H; assumption|]. rewrite (Rabs_minus_sym (exp _)), (Rabs_minus_sym a). apply H; lra.
Qed.
Lemma lin_exp a : 0 <= a -> a * exp (- (a / 2)) <= 1.
Proof.
  intros H. pose proof (exp_ge_lin (a / 4) ltac:(lra)) as L. pose proof (exp_pos (- (a / 2))) as P.
  assert (a <= exp (a / 2)) as L2. { replace (a / 2) with (a / 4 + a / 4) by field. rewrite exp_plus. apply Rle_trans with ((1 + a / 4) * (1 + a / 4)); [pose proof (Rle_0_sqr (1 - a / 4)) as Q; unfold Rsqr in Q; lra|apply Rmult_le_compat; lra]. }
  apply Rle_trans with (exp (a / 2) * exp (- (a / 2))); [apply Rmult_le_compat_r; lra|]. rewrite <- exp_plus. replace (a / 2 + - (a / 2)) with 0 by ring. rewrite exp_0. lra.
Qed.
(** what is used of libm's exp: at numbers <= 0 its absolute error is at most 2^-53, one unit in the last place of the numbers between 1/2 and 1 *)
Definition exp_accurate (exp64 : b64 -> b64) : Prop := forall x, fin x -> val x <= 0 -> Rabs (val (exp64 x) - exp (val x)) <= p2 (-53).
Lemma exp_arg a a' : 0 <= a -> Rabs (a' - a) <= 6 * u * a + u -> Rabs (exp (- a') - exp (- a)) <= 14 * u.
Proof.
  intros Ha H. pose proof u_pos as Hu. pose proof u_small as Hus.
  assert (a / 2 - u <= a') as L by (apply abs_le_iff in H; nra).
  apply Rle_trans with (1 := exp_diff a' a (a / 2 - u) L ltac:(lra)). replace (- (a / 2 - u)) with (u + - (a / 2)) by ring. rewrite exp_plus.
  assert (exp u <= 2) as E2. { pose proof (exp_le_lin u) as X. pose proof (exp_pos u) as Y. assert (exp u * exp (- u) = 1) as Z by (rewrite <- exp_plus; replace (u + - u) with 0 by ring; apply exp_0). assert (1 / 2 <= exp (- u)) by lra. nra. }
  pose proof (exp_pos (- (a / 2))) as P. pose proof (exp_pos u) as P2. pose proof (lin_exp a Ha) as Q.
  assert (exp (- (a / 2)) <= 1) as Q1. { rewrite <- exp_0. destruct (Req_dec a 0) as [->|N]; [right; f_equal; field|left; apply exp_increasing; lra]. }
  apply Rle_trans with ((6 * u * a + u) * (2 * exp (- (a / 2)))).
  - apply Rmult_le_compat; [apply Rabs_pos|apply Rmult_le_pos; lra|exact H|apply Rmult_le_compat_r; lra].
  - replace ((6 * u * a + u) * (2 * exp (- (a / 2)))) with (12 * u * (a * exp (- (a / 2))) + 2 * u * exp (- (a / 2))) by ring.
    apply Rle_trans with (12 * u * 1 + 2 * u * 1); [apply Rplus_le_compat; apply Rmult_le_compat_l; lra|lra].
Qed.
Lemma fin_add_in lo hi x : rng lo hi x -> fin x. Proof. intros [F _]. exact F. Qed.
Lemma near_add x y : fin x -> fin y -> fin (x ⊕ y) -> near (val (x ⊕ y)) (val x + val y).
Proof. intros. unfold near. rewrite add_val by assumption. apply rnd_err. Qed.
Lemma near_sub x y : fin x -> fin y -> fin (x ⊖ y) -> near (val (x ⊖ y)) (val x - val y).
Proof. intros. unfold near. rewrite sub_val by assumption. apply rnd_err. Qed.
Lemma near_mul x y : fin (x ⊗ y) -> near (val (x ⊗ y)) (val x * val y).
Proof. intros. unfold near. rewrite mul_val by assumption. apply rnd_err. Qed.
Lemma near_div x y : fin (x ⊘ y) -> val y <> 0 -> near (val (x ⊘ y)) (val x / val y).
Proof. intros. unfold near. rewrite div_val by assumption. apply rnd_err. Qed.
Lemma near_one x : fin x -> fin (one ⊖ x) -> near (val (one ⊖ x)) (1 - val x).
Proof. intros Fx F. destruct (ofZ_val 1) as [F1 V1]; [reflexivity|]. pose proof (near_sub one x F1 Fx F) as H. rewrite V1 in H. exact H. Qed.
Lemma repr_twice r : repr r -> Rabs (2 * r) < p2 1024 -> repr (2 * r).
Proof.
  intros [H _] HB. split; [|exact HB]. apply FLT_format_generic in H; [|reflexivity]. destruct H as [f -> Hm He].
  apply generic_format_FLT. exists (Float radix2 (Fnum f) (Fexp f + 1)); [|exact Hm|cbn; lia].
  unfold F2R. cbn [Fnum Fexp]. rewrite bpow_plus. change (p2 1) with 2. ring.
Qed.

(** the argument of exp: x = -1 * w, then times the rounded distance; wR is the number w stands for *)
Lemma rho_near exp64 (w t0 t1 x d : b64) wR : exp_accurate exp64 -> fin x ->
  0 < wR -> Rabs (val w - wR) <= 2 * (u * wR) -> 0 < val w <= p2 200 -> val t0 <= val t1 ->
  near (val d) (val t1 - val t0) -> 0 <= val d -> near (val x) (- (val w * val d)) -> val x <= 0 ->
  Rabs (val (exp64 x) - exp (- 1 * wR * (val t1 - val t0))) <= 16 * u.
Proof.
  intros HX Fx HwR Ww Bw Ht Nd Bd Nx Bx. set (D := val t1 - val t0) in *. pose proof u_pos as Hu. pose proof u_small as Hus. pose proof eta_u as Eu. pose proof eta_pos as Ep.
  assert (0 <= D) as D0 by (unfold D; lra). assert (0 < val w) as W0 by lra.
  assert (val w * eta <= u / 8) as We.
  { apply Rle_trans with (p2 200 * eta); [apply Rmult_le_compat_r; lra|]. unfold eta, u. rewrite <- bpow_plus. change (p2 (-53)) with (p2 (-56 + 3)). rewrite (bpow_plus radix2 (-56) 3). change (p2 3) with 8.
    apply Rle_trans with (p2 (-56)); [apply bpow_le; lia|lra]. }
  assert (eta <= u / 8) as Ee. { unfold eta, u. change (p2 (-53)) with (p2 (-56 + 3)). rewrite (bpow_plus radix2 (-56) 3). change (p2 3) with 8. apply Rle_trans with (p2 (-56)); [apply bpow_le; lia|lra]. }
  apply Rle_trans with (u + 14 * u); [|lra]. apply abs3 with (exp (val x)); [exact (HX x Fx Bx)|].
  replace (val x) with (- (- val x)) by ring. replace (-1 * wR * D) with (- (wR * D)) by ring. apply exp_arg; [apply Rmult_le_pos; lra|].
  unfold near in Nd, Nx. rewrite (Rabs_pos_eq D D0) in Nd. rewrite Rabs_Ropp, (Rabs_pos_eq (val w * val d)) in Nx by (apply Rmult_le_pos; lra).
  assert (Rabs (val w * val d - val w * D) <= u * (val w * D) + u / 8) as E1.
  { replace (val w * val d - val w * D) with (val w * (val d - D)) by ring. rewrite Rabs_mult, (Rabs_pos_eq (val w)) by lra.
    apply Rle_trans with (val w * (u * D + eta)); [apply Rmult_le_compat_l; lra|]. lra. }
  assert (Rabs (val w * D - wR * D) <= 2 * (u * (wR * D))) as E2.
  { replace (val w * D - wR * D) with ((val w - wR) * D) by ring. rewrite Rabs_mult, (Rabs_pos_eq D) by lra. apply Rle_trans with (2 * (u * wR) * D); [apply Rmult_le_compat_r; lra|lra]. }
  assert (0 <= wR * D) as A0 by (apply Rmult_le_pos; lra). apply abs_le_iff in E1, E2, Nx.
  set (a := wR * D) in *. set (b := val w * D) in *. set (c := val w * val d) in *.
  assert (0 <= u * a) as U0 by (apply Rmult_le_pos; lra). assert (u * (u * a) <= / 16 * (u * a)) as U2 by (apply Rmult_le_compat_r; lra).
  assert (u * b <= u * (a + 2 * (u * a))) as Ub by (apply Rmult_le_compat_l; lra).
  assert (u * c <= u * (a + 2 * (u * a) + u * b + u / 8)) as Uc by (apply Rmult_le_compat_l; lra).
  assert (u * (u * b) <= / 16 * (u * b)) as U3 by (apply Rmult_le_compat_r; [apply Rmult_le_pos; [lra|unfold b; apply Rmult_le_pos; lra]|lra]).
  assert (u * u <= / 16 * u) as U4 by (apply Rmult_le_compat_r; lra).
  apply Rabs_le. lra.
Qed.

(** [er], [yr], [sigR], [wR]: the exact data and parameters; [e], [y], [sig], [w]: the doubles the filter holds, close to them. *)
Section Err.
Variable k : Z.
Hypothesis Hk : (-900 <= k <= 1000)%Z.
Variables (exp64 log64 sin64 cos64 : b64 -> b64) (pow64 : b64 -> b64 -> b64).
Hypothesis HE : exp_sane exp64.
Local Notation A := (A64 exp64 log64 sin64 cos64 pow64).
Variables (t y e : list b64) (sig w : b64).
Hypothesis Ht : times64 t.
Hypothesis Hy : forall i, (i < length t)%nat -> rng (- p2 k) (p2 k) y.[i].
Hypothesis He5 : forall i, (i < length t)%nat -> rng (p2 (-500)) (p2 500) e.[i].
Hypothesis Hsig5 : rng 0 (p2 500) sig.
Hypothesis Hw5 : rng (p2 (-499)) (p2 500) w.
Hypothesis Hn0 : (0 < length t)%nat.
Hypothesis Hn : (Z.of_nat (length t) <= 2 ^ 40)%Z.
Variables (yr er : list R) (sigR wR emin emax : R).
Let tr := map val t.
Let S0 := sigR / (2 * wR).
Let W := S0 + emax * emax.
Local Notation dt := (diffs A t).
Local Notation vp := (vpure A dt e sig w).
Local Notation mp := (mpure A dt y e sig w).
Local Notation V := (vpure AR (diffs AR tr) er sigR wR).
Local Notation M := (mpure AR (diffs AR tr) yr er sigR wR).
Local Notation eR b := (nth b er 0).
Local Notation yR b := (nth b yr 0).
Local Notation S' := (sig ⊘ (ofZ64 2 ⊗ w)).
Local Notation rhoR b := (exp (- (1) * wR * (val t.[S b] - val t.[b]))).
Local Notation rho64 b := (exp64 (Bopp one ⊗ w ⊗ nth b dt (ofZ64 0))).
Hypothesis Hsig0 : 0 < sigR.
Hypothesis w_pos : 0 < wR.
Hypothesis Hem : forall i, (i < length t)%nat -> 0 < emin <= eR i /\ eR i <= emax.
Hypothesis eta_e2 : forall i, (i < length t)%nat -> eta <= u * (eR i * eR i).
Hypothesis Hqq : forall i, (i < length t)%nat -> Rabs (val (e.[i] ⊗ e.[i]) - eR i * eR i) <= 6 * (u * (eR i * eR i)).
Hypothesis Hyy : forall i, (i < length t)%nat -> Rabs (val y.[i] - yR i) <= 2 * (u * p2 k).
Hypothesis S'_err : Rabs (val S' - S0) <= 4 * (u * W).
Hypothesis rho_err : forall b, (S b < length t)%nat -> Rabs (val (rho64 b) - rhoR b) <= 16 * u.

Lemma nthv l i : nth i (map val l) 0 = val l.[i].
Proof using Type. destruct (ofZ_val 0) as [_ V0]; [reflexivity|]. replace 0 with (val (ofZ64 0)) by exact V0. apply map_nth. Qed.
Lemma lt_tr : length tr = length t.
Proof using Type. apply map_length. Qed.
Lemma tle i : (S i < length t)%nat -> nth i tr 0 <= nth (S i) tr 0.
Proof using Ht. intros Hi. unfold tr. rewrite !nthv. apply Ht, Hi. Qed.
Lemma tle2 i d : (i + d < length t)%nat -> nth i tr 0 <= nth (i + d) tr 0.
Proof using Ht. induction d as [|d IH]; intros H; [rewrite Nat.add_0_r; lra|]. rewrite Nat.add_succ_r in *. apply Rle_trans with (1 := IH ltac:(clear - H; lia)). apply tle. exact H. Qed.
Lemma e_pos i : (i < length t)%nat -> 0 < eR i.
Proof using Hem. intros Hi. pose proof (Hem i Hi). lra. Qed.
Lemma tok : times_ok tr er.
Proof using Ht Hem.
  unfold times_ok. rewrite lt_tr. split.
  - intros i j Hij Hj. replace j with (i + (j - i))%nat by (clear - Hij; lia). apply tle2. clear - Hij Hj; lia.
  - intros i Hi _. pose proof (e_pos (S i) Hi). lra.
Qed.
Lemma S0_pos' : 0 < S0.
Proof using Hsig0 w_pos. unfold S0. apply Rmult_lt_0_compat; [exact Hsig0|apply Rinv_0_lt_compat; lra]. Qed.
Lemma e2_le i : (i < length t)%nat -> 0 < eR i * eR i <= W.
Proof using Hem Hsig0 w_pos. intros Hi. pose proof (Hem i Hi) as H. pose proof S0_pos'. unfold W. split; [apply Rmult_lt_0_compat; lra|]. assert (eR i * eR i <= emax * emax) by (apply Rmult_le_compat; lra). lra. Qed.
Lemma W_pos : 0 < W.
Proof using Hem Hsig0 w_pos Hn0. pose proof (e2_le 0 Hn0). lra. Qed.
Lemma eta_uW : eta <= u * W.
Proof using eta_e2 Hem Hsig0 w_pos Hn0. apply Rle_trans with (1 := eta_e2 0%nat Hn0). apply Rmult_le_compat_l; [apply Rlt_le, u_pos|apply e2_le, Hn0]. Qed.
Lemma S'_in : 0 <= val S'.
Proof using Hsig5 Hw5. apply (S0_in sig w Hsig5 Hw5). Qed.
Lemma S0_W : S0 <= W.
Proof using Type. unfold W. pose proof (Rle_0_sqr emax) as Q. unfold Rsqr in Q. lra. Qed.

(** one step of the recursions, from any estimate of the previous variance and mean and any rho *)
Lemma step_v i (v' rho : b64) v r d : (i < length t)%nat ->
  rng (val (e.[i] ⊗ e.[i])) (8 * big) v' -> rng 0 1 rho -> 0 <= r <= 1 -> Rabs (val rho - r) <= 16 * u ->
  0 <= v - eR i * eR i <= S0 -> Rabs (val v' - v) <= d -> 0 <= d <= W ->
  let t3 := S' ⊗ (one ⊖ rho ⊗ rho) ⊕ rho ⊗ rho ⊗ (v' ⊖ e.[i] ⊗ e.[i]) ⊗ (one ⊖ (v' ⊖ e.[i] ⊗ e.[i]) ⊘ v') in
  let ex := S0 * (1 - r * r) + r * r * (v - eR i * eR i) * (1 - (v - eR i * eR i) / v) in
  Rabs (val t3 - ex) <= d + 157 * (u * W) /\
  (forall j, (j < length t)%nat -> Rabs (val (t3 ⊕ e.[j] ⊗ e.[j]) - (ex + eR j * eR j)) <= d + 175 * (u * W)) /\
  Rabs (val ((v' ⊖ e.[i] ⊗ e.[i]) ⊘ v') - (v - eR i * eR i) / v) <= 2 * u + (9 * (u * W) + d) * (2 / (eR i * eR i)).
Proof.
  intros Hi Hv' Hrho Hr Hrr Hv Hvv Hd t3 ex. assert (0 < length t)%nat as H0 by lia.
  destruct (err_in _ (He5 i Hi)) as [Q Qp]. pose proof (S0_in sig w Hsig5 Hw5) as HS.
  pose proof (resid _ Q Qp v' Hv') as Hp. pose proof (ratio_in _ Q Qp v' Hv') as Hra. pose proof (rng01_minus _ Hra) as Hb.
  pose proof (mul_shrink 1 rho rho Hrho Hrho repr_1) as Hr2. pose proof (rng01_minus _ Hr2) as Ha.
  pose proof (mul_shrink_r big S' _ HS Ha repr_b) as T1.
  set (q := e.[i] ⊗ e.[i]) in *. set (p := v' ⊖ q) in *. set (kk := p ⊘ v') in *. set (b := one ⊖ kk) in *. set (r2 := rho ⊗ rho) in *. set (a := one ⊖ r2) in *.
  assert (rng 0 (val p) p) as Hp' by (destruct Hp as [Fp Bp]; split; [exact Fp|lra]).
  pose proof (mul_shrink (val p) r2 p Hr2 Hp' (repr_val p)) as Hs1.
  pose proof (mul_shrink_r (val p) (r2 ⊗ p) b Hs1 Hb (repr_val p)) as Hs2.
  pose proof (var_step S' q HS Q Qp rho v' Hrho Hv') as Ht3. fold p in Ht3. fold kk in Ht3. fold b in Ht3. fold r2 in Ht3. fold a in Ht3. fold t3 in Ht3.
  pose proof (e2_le i Hi) as He2. pose proof (eta_e2 i Hi) as Hee. pose proof W_pos as HW0. pose proof S0_W as HSW. pose proof S0_pos' as HSp.
  assert (val v' <= 2 * W) as Hv2. { apply abs_le_iff in Hvv. unfold W in *. assert (v <= W) by (pose proof (Hem i Hi) as X; unfold W; assert (eR i * eR i <= emax * emax) by (apply Rmult_le_compat; lra); lra). unfold W in *. lra. }
  destruct Q as [Fq Bq]. destruct Hv' as [Fv Bv]. destruct Hp as [Fp Bp]. destruct Hra as [Fk Bk]. destruct Hb as [Fb Bb]. destruct Hrho as [Fr Br].
  destruct Hr2 as [Fr2 Br2]. destruct Ha as [Fa Ba]. destruct T1 as [Ft1 Bt1]. destruct Hs1 as [Fs1 Bs1]. destruct Hs2 as [Fs2 Bs2]. destruct Ht3 as [Ft3 Bt3].
  pose proof S'_err as HSe. pose proof S'_in as HSi.
  pose proof (Hqq i Hi) as N1. fold q in N1. pose proof (near_sub _ _ Fv Fq Fp) as N2. fold p in N2.
  pose proof (near_div p v' Fk ltac:(lra)) as N3. fold kk in N3. pose proof (near_one kk Fk Fb) as N4. fold b in N4.
  pose proof (near_mul _ _ Fr2) as N5. fold r2 in N5. pose proof (near_one r2 Fr2 Fa) as N6. fold a in N6.
  pose proof (near_mul _ _ Ft1) as N7. pose proof (near_mul _ _ Fs1) as N8. pose proof (near_mul _ _ Fs2) as N9. pose proof (near_add _ _ Ft1 Fs2 Ft3) as N10. fold t3 in N10.
  assert (forall j, (j < length t)%nat -> Rabs (val t3 - ex) <= d + 157 * (u * W) /\ Rabs (val (t3 ⊕ e.[j] ⊗ e.[j]) - (ex + eR j * eR j)) <= d + 175 * (u * W)) as HK.
  { intros j Hj. destruct (err_in _ (He5 j Hj)) as [[Fqj Bqj] Qpj]. pose proof (e2_le j Hj) as Hej.
    destruct (add_err t3 (e.[j] ⊗ e.[j]) (Logic.conj Ft3 Bt3) (Logic.conj Fqj Bqj)) as [Fz _].
    pose proof (Hqq j Hj) as N11. pose proof (near_add _ _ Ft3 Fqj Fz) as N12.
    split.
    - eapply proj1, (t3_err W S0 (val S') (eR i * eR i) (val q) v (val v') (val p) (val kk) (val b) r (val rho) (val r2) (val a) (val (S' ⊗ a)) (val (r2 ⊗ p)) (val (r2 ⊗ p ⊗ b)) (val t3) (eR j * eR j) (val (e.[j] ⊗ e.[j])) (val (t3 ⊕ e.[j] ⊗ e.[j])) d); first [assumption|lra].
    - eapply (var_err W S0 (val S') (eR i * eR i) (val q) v (val v') (val p) (val kk) (val b) r (val rho) (val r2) (val a) (val (S' ⊗ a)) (val (r2 ⊗ p)) (val (r2 ⊗ p ⊗ b)) (val t3) (eR j * eR j) (val (e.[j] ⊗ e.[j])) (val (t3 ⊕ e.[j] ⊗ e.[j])) d); first [assumption|lra]. }
  split; [exact (proj1 (HK i Hi))|split; [intros j Hj; exact (proj2 (HK j Hj))|]].
  eapply (k_err W (eR i * eR i) (val q) v (val v') (val p) (val kk) d); first [assumption|lra].
Qed.
Lemma step_m i (v' rho m' : b64) r m ra d dk : (i < length t)%nat ->
  rng (val (e.[i] ⊗ e.[i])) (8 * big) v' -> rng 0 1 rho -> 0 <= r <= 1 -> Rabs (val rho - r) <= 16 * u ->
  0 <= ra <= 1 -> Rabs (val ((v' ⊖ e.[i] ⊗ e.[i]) ⊘ v') - ra) <= dk ->
  rng (- (4 * p2 k)) (4 * p2 k) m' -> Rabs (val m' - m) <= d ->
  Rabs (val (rho ⊗ m' ⊕ rho ⊗ ((v' ⊖ e.[i] ⊗ e.[i]) ⊘ v') ⊗ (y.[i] ⊖ m')) - (r * m + r * ra * (yR i - m))) <= d + 190 * (u * p2 k) + 6 * (dk * p2 k).
Proof.
  intros Hi Hv' Hrho Hr Hrr Hra0 Hkk Hm' Hm. destruct (err_in _ (He5 i Hi)) as [Q Qp]. pose proof (ratio_in _ Q Qp v' Hv') as Hra.
  set (kk := (v' ⊖ e.[i] ⊗ e.[i]) ⊘ v') in *. pose proof (bpow_gt_0 radix2 k) as HB.
  assert (rng (- (1 * p2 k)) (1 * p2 k) y.[i]) as Hyi by (eapply rng_weaken; [apply Hy, Hi|lra|lra]).
  pose proof (mean_step k Hk rho kk m' y.[i] Hrho Hra Hm' Hyi) as Hz.
  assert (repr (4 * p2 k)) as R4 by (apply (repr_B k Hk 4); reflexivity). assert (repr (5 * p2 k)) as R5 by (apply (repr_B k Hk 5); reflexivity).
  pose proof (mul_shrink_r 1 rho kk Hrho Hra repr_1) as H2.
  destruct Hrho as [Fr Br]. destruct Hm' as [Fm Bm]. destruct Hra as [Fk Bk]. destruct Hyi as [Fy By]. destruct H2 as [F2 B2]. destruct Hz as [Fz Bz].
  destruct (mul_in (- (4 * p2 k)) (4 * p2 k) rho m' Fr Fm (repr_opp _ R4) R4) as [F1 _]; [pose proof (prod_in (val rho) (val m') 1 (- (4 * p2 k)) (4 * p2 k)); lra|].
  destruct (sub_in (- (5 * p2 k)) (5 * p2 k) y.[i] m' Fy Fm (repr_opp _ R5) R5) as [F3 B3]; [lra|].
  destruct (mul_in (- (5 * p2 k)) (5 * p2 k) (rho ⊗ kk) (y.[i] ⊖ m') F2 F3 (repr_opp _ R5) R5) as [F4 _]; [pose proof (prod_in (val (rho ⊗ kk)) (val (y.[i] ⊖ m')) 1 (- (5 * p2 k)) (5 * p2 k)); lra|].
  pose proof (near_mul _ _ F1) as N1. pose proof (near_mul _ _ F2) as N2. pose proof (near_sub _ _ Fy Fm F3) as N3. pose proof (near_mul _ _ F4) as N4. pose proof (near_add _ _ F1 F4 Fz) as N5.
  pose proof (Hyy i Hi) as Ny. assert (eta <= u * p2 k) as HeB by (unfold eta, u; rewrite <- bpow_plus; apply bpow_le; lia).
  eapply (mean_err (p2 k) r (val rho) ra (val kk) m (val m') (yR i) (val y.[i]) (val (rho ⊗ m')) (val (rho ⊗ kk)) (val (y.[i] ⊖ m')) (val (rho ⊗ kk ⊗ (y.[i] ⊖ m')))); first [assumption|lra|apply Rabs_le; lra].
Qed.

(** ** The whole series *)
Lemma uW_n c i : (i <= length t)%nat -> 0 <= c <= 1000 -> 0 <= c * INR i * (u * W) <= W.
Proof.
  intros Hi Hc. pose proof W_pos as HW. pose proof u_pos as Hu.
  assert (INR i <= p2 40) as Hp. { rewrite INR_IZR_INZ. change (p2 40) with (IZR (2 ^ 40)). apply IZR_le. lia. }
  pose proof (pos_INR i) as Hi0. split; [apply Rmult_le_pos; [apply Rmult_le_pos; lra|apply Rmult_le_pos; lra]|].
  assert (c * INR i <= p2 10 * p2 40) as Hci. { apply Rmult_le_compat; try lra. change (p2 10) with 1024. lra. }
  apply Rle_trans with (p2 10 * p2 40 * (u * W)); [apply Rmult_le_compat_r; [apply Rmult_le_pos; lra|exact Hci]|].
  rewrite <- Rmult_assoc. unfold u. rewrite <- !bpow_plus. rewrite <- (Rmult_1_l W) at 2. apply Rmult_le_compat_r; [lra|]. change 1 with (p2 0). apply bpow_le. lia.
Qed.
Lemma V0_eq : V 0 = S0 + eR 0%nat * eR 0%nat.
Proof. apply V_0. Qed.
Lemma VS_eq b : (S b < length t)%nat -> V (S b) = S0 * (1 - rhoR b * rhoR b) + rhoR b * rhoR b * (V b - eR b * eR b) * (1 - (V b - eR b * eR b) / V b) + eR (S b) * eR (S b).
Proof. intros Hb. rewrite <- !(nthv t). apply V_S. rewrite lt_tr. exact Hb. Qed.
Lemma MS_eq b : (S b < length t)%nat -> M (S b) = rhoR b * M b + rhoR b * ((V b - eR b * eR b) / V b) * (yR b - M b).
Proof. intros Hb. rewrite <- !(nthv t). apply M_S. rewrite lt_tr. exact Hb. Qed.
Lemma Vb i : (i < length t)%nat -> 0 <= V i - eR i * eR i <= S0 /\ 0 < V i.
Proof. intros Hi. apply V_both; [apply tok|exact Hsig0|exact w_pos|rewrite lt_tr; exact Hi]. Qed.
Lemma rb b : (S b < length t)%nat -> 0 < rhoR b <= 1.
Proof. intros Hb. rewrite <- !(nthv t). apply (rho_bounds tr er wR); [apply tok|exact w_pos|rewrite lt_tr; exact Hb]. Qed.
Lemma V_le_W i : (i < length t)%nat -> V i <= W.
Proof. intros Hi. pose proof (proj1 (Vb i Hi)) as H. pose proof (Hem i Hi) as X. assert (eR i * eR i <= emax * emax) by (apply Rmult_le_compat; lra). unfold W. lra. Qed.
Lemma vin i : (i < length t)%nat -> rng (val (e.[i] ⊗ e.[i])) (8 * big) (vp i).
Proof. apply (vpure_in exp64 log64 sin64 cos64 pow64 HE t e sig w Ht He5 Hsig5 Hw5). Qed.
Lemma rin i : (S i < length t)%nat -> rng 0 1 (rho64 i).
Proof. apply (rho_in exp64 log64 sin64 cos64 pow64 HE t w Ht Hw5). Qed.
Lemma min i : (i < length t)%nat -> rng (- (4 * p2 k)) (4 * p2 k) (mp i).
Proof. apply (mpure_in k Hk exp64 log64 sin64 cos64 pow64 HE t y e sig w Ht Hy He5 Hsig5 Hw5). Qed.

Lemma V_err i : (i < length t)%nat -> Rabs (val (vp i) - V i) <= 175 * INR (S i) * (u * W).
Proof.
  induction i as [|i IH]; intros Hi.
  - rewrite V0_eq. destruct (err_in _ (He5 0 Hi)) as [[Fq Bq] Qp]. destruct (vin 0%nat Hi) as [Fz _].
    pose proof S'_err as HS. pose proof S'_in as HSi. pose proof S0_W as HSW. pose proof S0_pos' as HSp. pose proof W_pos as HW0. pose proof eta_uW as Eu. pose proof u_pos as Hu. pose proof u_small as Hus.
    pose proof (Hqq 0%nat Hi) as N1. destruct (S0_in sig w Hsig5 Hw5) as [FS _]. pose proof (near_add _ _ FS Fq Fz) as N2. pose proof (e2_le 0 Hi) as He2.
    change (vp 0%nat) with (S' ⊕ e.[0] ⊗ e.[0]). set (q := val (e.[0] ⊗ e.[0])) in *. set (e2 := eR 0%nat * eR 0%nat) in *.
    unfold near in N2. rewrite (Rabs_pos_eq (val S' + q)) in N2 by lra.
    assert (u * e2 <= u * W) as U1 by (apply Rmult_le_compat_l; lra). apply abs_le_iff in HS, N1.
    assert (0 <= u * W) as U0 by (apply Rmult_le_pos; lra). assert (u * W <= / 4 * W) as U4 by (apply Rmult_le_compat_r; lra).
    assert (u * (val S' + q) <= u * (6 * W)) as U2 by (apply Rmult_le_compat_l; lra). apply abs_le_iff in N2. apply Rabs_le. simpl INR. split; lra.
  - rewrite VS_eq by exact Hi. assert (i < length t)%nat as Hi' by lia. specialize (IH Hi').
    assert (0 <= 175 * INR (S i) * (u * W) <= W) as Hd by (apply uW_n; [lia|lra]).
    destruct (Vb i Hi') as [HP Hv]. pose proof (rb i Hi) as Hr.
    destruct (step_v i (vp i) (rho64 i) (V i) (rhoR i) (175 * INR (S i) * (u * W)) Hi' (vin i Hi') (rin i Hi) ltac:(lra) (rho_err i Hi) HP IH Hd) as (_ & H2 & _).
    specialize (H2 (S i) Hi). replace (175 * INR (S (S i)) * (u * W)) with (175 * INR (S i) * (u * W) + 175 * (u * W)) by (rewrite (S_INR (S i)); ring). exact H2.
Qed.
Let K := W / (emin * emin).
Lemma K_ge i : (i < length t)%nat -> 1 <= K /\ W / (eR i * eR i) <= K /\ 0 < emin * emin.
Proof.
  intros Hi. pose proof (Hem i Hi) as X. pose proof (e2_le i Hi) as Y. assert (0 < emin * emin) as P by (apply Rmult_lt_0_compat; lra). assert (emin * emin <= eR i * eR i) by (apply Rmult_le_compat; lra).
  unfold K. split; [|split; [|exact P]].
  - apply Rmult_le_reg_r with (emin * emin); [exact P|]. unfold Rdiv. rewrite Rmult_assoc, Rinv_l by lra. lra.
  - apply Rmult_le_compat_l; [lra|]. apply Rinv_le_contravar; lra.
Qed.
Lemma gain_dk i : (i < length t)%nat -> 2 * u + (9 * (u * W) + 175 * INR (S i) * (u * W)) * (2 / (eR i * eR i)) <= (370 + 350 * INR i) * (u * K).
Proof.
  intros Hi. destruct (K_ge i Hi) as (K1 & K2 & _). pose proof (e2_le i Hi) as Y. pose proof u_pos as Hu. rewrite S_INR. pose proof (pos_INR i) as Hi0.
  replace ((9 * (u * W) + 175 * (INR i + 1) * (u * W)) * (2 / (eR i * eR i))) with ((368 + 350 * INR i) * (u * (W / (eR i * eR i)))) by (field; intros E; rewrite E in Y; lra).
  assert (u * 1 <= u * K) by (apply Rmult_le_compat_l; lra).
  assert (u * (W / (eR i * eR i)) <= u * K) by (apply Rmult_le_compat_l; lra).
  assert ((368 + 350 * INR i) * (u * (W / (eR i * eR i))) <= (368 + 350 * INR i) * (u * K)) by (apply Rmult_le_compat_l; lra). lra.
Qed.
Lemma gain_err i : (i < length t)%nat -> Rabs (val ((vp i ⊖ e.[i] ⊗ e.[i]) ⊘ vp i) - (V i - eR i * eR i) / V i) <= (370 + 350 * INR i) * (u * K).
Proof.
  intros Hi. apply Rle_trans with (2 := gain_dk i Hi). assert (0 <= 175 * INR (S i) * (u * W) <= W) as Hd by (apply uW_n; [lia|lra]). destruct (Vb i Hi) as [HP Hv].
  destruct (ofZ_val 1) as [F1 V1]; [reflexivity|].
  destruct (step_v i (vp i) one (V i) 1 (175 * INR (S i) * (u * W)) Hi (vin i Hi)) as (_ & _ & H3); try assumption; try lra.
  - split; [exact F1|lra].
  - rewrite V1. replace (1 - 1) with 0 by ring. rewrite Rabs_R0. pose proof u_pos. lra.
  - apply V_err, Hi.
Qed.
(** the mean of one step, from the mean before *)
Lemma mean_next i rho r : (i < length t)%nat -> rng 0 1 rho -> 0 <= r <= 1 -> Rabs (val rho - r) <= 16 * u ->
  Rabs (val (mp i) - M i) <= 2420 * (INR i * INR i) * (u * K * p2 k) ->
  Rabs (val (nextm A rho (vp i) e.[i] (mp i) y.[i]) - (r * M i + r * ((V i - eR i * eR i) / V i) * (yR i - M i))) <= 2420 * (INR (S i) * INR (S i)) * (u * K * p2 k).
Proof.
  intros Hi Hrho Hr Hrr IH. destruct (Vb i Hi) as [HP Hv]. pose proof (e2_le i Hi) as He2. destruct (K_ge i Hi) as (K1 & _ & _).
  pose proof (step_m i (vp i) rho (mp i) r (M i) ((V i - eR i * eR i) / V i) _ _ Hi (vin i Hi) Hrho Hr Hrr ltac:(apply frac01; lra) (gain_err i Hi) (min i Hi) IH) as H.
  unfold nextm. cbn [fadd fsub fmul fdiv fofZ fexp fneg A64]. apply Rle_trans with (1 := H). rewrite S_INR. pose proof (pos_INR i) as Hi0. pose proof u_pos as Hu. pose proof (bpow_gt_0 radix2 k) as HB.
  assert (u * p2 k <= u * K * p2 k) as U1. { rewrite <- (Rmult_1_r u) at 1. apply Rmult_le_compat_r; [lra|]. apply Rmult_le_compat_l; lra. }
  replace (6 * ((370 + 350 * INR i) * (u * K) * p2 k)) with ((2220 + 2100 * INR i) * (u * K * p2 k)) by ring. set (Z := u * K * p2 k) in *. set (Y := u * p2 k) in *. set (n := INR i) in *.
  assert (0 <= Y) as Y0 by (unfold Y; apply Rmult_le_pos; lra). assert (0 <= n * Z) by (apply Rmult_le_pos; lra).
  replace (2420 * ((n + 1) * (n + 1)) * Z) with (2420 * (n * n) * Z + 4840 * (n * Z) + 2420 * Z) by ring. replace ((2220 + 2100 * n) * Z) with (2220 * Z + 2100 * (n * Z)) by ring. lra.
Qed.
Lemma M_err i : (i < length t)%nat -> Rabs (val (mp i) - M i) <= 2420 * (INR i * INR i) * (u * K * p2 k).
Proof.
  induction i as [|i IH]; intros Hi.
  - destruct (ofZ_val 0) as [F0 V0]; [reflexivity|].
    assert (Rabs (val (mp 0%nat) - M 0%nat) = 0) as E by (change (Rabs (val (ofZ64 0) - 0) = 0); rewrite V0, Rminus_0_r; apply Rabs_R0). rewrite E. simpl INR. lra.
  - rewrite MS_eq by exact Hi. assert (i < length t)%nat as Hi' by lia. pose proof (rb i Hi) as Hr. apply (mean_next i (rho64 i) (rhoR i) Hi' (rin i Hi) ltac:(lra) (rho_err i Hi)). apply IH, Hi'.
Qed.

Lemma M_abs i : (i < length t)%nat -> Rabs (M i) <= 2 * p2 k.
Proof using Ht Hy Hn0 Hem Hsig0 w_pos Hyy.
  pose proof (bpow_gt_0 radix2 k) as HB. induction i as [|i IH]; intros Hi.
  - change (Rabs 0 <= 2 * p2 k). rewrite Rabs_R0. lra.
  - assert (i < length t)%nat as Hi' by lia. specialize (IH Hi'). rewrite MS_eq by exact Hi. pose proof (rb i Hi) as Hr. destruct (Vb i Hi') as [HP Hv].
    assert (0 < eR i * eR i) as He2 by (destruct (Hem i Hi') as [X _]; apply Rmult_lt_0_compat; lra).
    pose proof (frac01 (V i - eR i * eR i) (V i) ltac:(lra) Hv) as Hg. set (g := (V i - eR i * eR i) / V i) in *.
    assert (Rabs (yR i) <= 2 * p2 k) as By.
    { pose proof (Hyy i Hi') as E. destruct (Hy i Hi') as [_ B]. apply abs_le_iff in E. apply Rabs_le. pose proof u_small. assert (u * p2 k <= / 1048576 * p2 k) by (apply Rmult_le_compat_r; lra). lra. }
    assert (forall r m y : R, r * m + r * g * (y - m) = r * ((1 - g) * m + g * y)) as X by (intros; ring).
    rewrite X. rewrite Rabs_mult, (Rabs_pos_eq (rhoR i)) by lra. apply Rle_trans with (1 * (2 * p2 k)); [|lra]. apply Rmult_le_compat; [lra|apply Rabs_pos|lra|].
    apply Rle_trans with (1 := Rabs_triang _ _). rewrite !Rabs_mult, (Rabs_pos_eq (1 - g)), (Rabs_pos_eq g) by lra.
    apply Rle_trans with ((1 - g) * (2 * p2 k) + g * (2 * p2 k)); [|lra]. apply Rplus_le_compat; apply Rmult_le_compat_l; lra.
Qed.

(** prediction at a time past the data *)
Lemma forecast_err s b : length t = S b -> fin s -> val t.[b] <= val s ->
  let rs := exp (- 1 * wR * (val s - val t.[b])) in
  rng 0 1 (exp64 (Bopp (s ⊖ t.[b]) ⊗ w)) -> Rabs (val (exp64 (Bopp (s ⊖ t.[b]) ⊗ w)) - rs) <= 16 * u ->
  Rabs (val (fst (forecast A t dt y e sig w s (S b))) - (rs * M b + rs * ((V b - eR b * eR b) / V b) * (yR b - M b))) <= 2420 * (INR (S b) * INR (S b)) * (u * K * p2 k) /\
  Rabs (val (snd (forecast A t dt y e sig w s (S b))) - (S0 * (1 - rs * rs) + rs * rs * (V b - eR b * eR b) * (1 - (V b - eR b * eR b) / V b))) <= 175 * INR (S (S b)) * (u * W).
Proof.
  intros Hb Fs Hs rs Hrho Hrr. assert (b < length t)%nat as Hb' by lia.
  assert (0 <= rs <= 1) as Hr.
  { unfold rs. split; [left; apply exp_pos|]. rewrite <- exp_0. assert (0 <= wR * (val s - val t.[b])) as X by (apply Rmult_le_pos; lra).
    replace (-1 * wR * (val s - val t.[b])) with (- (wR * (val s - val t.[b]))) by ring. destruct (Req_dec (wR * (val s - val t.[b])) 0) as [->|N]; [rewrite Ropp_0; lra|left; apply exp_increasing; lra]. }
  cbn [forecast fst snd]. split.
  - apply mean_next; try assumption. apply M_err, Hb'.
  - destruct (Vb b Hb') as [HP Hv]. assert (0 <= 175 * INR (S b) * (u * W) <= W) as Hd by (apply uW_n; [lia|lra]).
    destruct (step_v b (vp b) (exp64 (Bopp (s ⊖ t.[b]) ⊗ w)) (V b) rs (175 * INR (S b) * (u * W)) Hb' (vin b Hb') Hrho Hr Hrr HP (V_err b Hb') Hd) as (H1 & _ & _).
    apply Rle_trans with (1 := H1). rewrite (S_INR (S b)). assert (0 <= u * W) by (pose proof u_pos; pose proof W_pos; apply Rmult_le_pos; lra). lra.
Qed.
Lemma cond_filter i : (i < length t)%nat -> cond_dist (ou_cov sigR wR) (firstn i tr) (firstn i yr) (firstn i er) (val t.[i]) (M i) (V i - eR i * eR i).
Proof using Ht Hem Hsig0 w_pos.
  intros Hi. apply cond_firstn; [rewrite lt_tr; clear - Hi; lia|]. rewrite ou_diag. rewrite <- (nthv t). apply filter_blp; [apply tok|exact Hsig0|exact w_pos|rewrite lt_tr; exact Hi].
Qed.
Lemma cond_forecast s b : length t = S b -> val t.[b] <= s ->
  let rs := exp (- 1 * wR * (s - val t.[b])) in
  cond_dist (ou_cov sigR wR) tr yr er s (rs * M b + rs * ((V b - eR b * eR b) / V b) * (yR b - M b))
    (S0 * (1 - rs * rs) + rs * rs * (V b - eR b * eR b) * (1 - (V b - eR b * eR b) / V b)).
Proof using Ht Hem Hsig0 w_pos.
  intros Hb Hs rs. assert (b < length t)%nat as Hb' by (clear - Hb; lia). unfold cond_dist. rewrite lt_tr, Hb, ou_diag. destruct (Vb b Hb') as [HP HV].
  pose proof (filter_blp tr yr er sigR wR tok Hsig0 w_pos b ltac:(rewrite lt_tr; exact Hb')) as HF.
  pose proof (forward_step tr yr er sigR wR tok b s (M b) (V b - eR b * eR b)) as H. unfold tr in *. rewrite !nthv in *. rewrite map_length in H.
  specialize (H Hb' Hs ltac:(lra) HF). cbv zeta in H. assert (forall a c : R, a - c + c = a) as X by (intros; ring).
  rewrite (X (V b) _) in H. exact H.
Qed.
End Err.

(** a correctly rounded exp is accurate *)
Lemma exp_correct_accurate e : exp_correct e -> exp_accurate e.
Proof.
  intros HC x Fx Hx. pose proof (proj1 (exp_correct_sane e HC)) as HS. destruct HC as [HC _]. specialize (HC x Fx).
  assert (0 < exp (val x) <= 1) as Hr. { split; [apply exp_pos|]. rewrite <- exp_0. destruct Hx as [Hx| ->]; [left; apply exp_increasing, Hx|right; reflexivity]. }
  assert (Rabs (rnd (exp (val x)) - exp (val x)) <= p2 (-53)) as HE.
  { apply Rle_trans with (1 := error_le_half_ulp radix2 fx (fun z => negb (Z.even z)) (exp (val x))).
    apply Rle_trans with (/ 2 * ulp radix2 fx (p2 0)).
    - apply Rmult_le_compat_l; [lra|]. apply ulp_le; [typeclasses eauto|typeclasses eauto|]. change (p2 0) with 1. rewrite !Rabs_pos_eq; lra.
    - rewrite ulp_bpow. change (fx (0 + 1)) with (-52)%Z. change (p2 (-52)) with (p2 (1 + -53)). rewrite bpow_plus. change (p2 1) with 2. lra. }
  unfold rounds in HC. destruct (Rlt_bool_spec (Rabs (rnd (exp (val x)))) (p2 1024)) as [L|L].
  - destruct HC as [_ ->]. exact HE.
  - exfalso. pose proof (abs_le_iff (rnd (exp (val x)) - exp (val x)) (p2 (-53))) as [X _]. specialize (X HE). assert (p2 (-53) <= 1) by (change 1 with (p2 0); apply bpow_le; lia). assert (p2 2 <= p2 1024) by (apply bpow_le; lia). change (p2 2) with 4 in *.
    rewrite Rabs_pos_eq in L; [lra|]. pose proof (round_le radix2 fx ZnearestE 0 (exp (val x)) ltac:(lra)) as Q. rewrite (rnd_repr 0 repr_0) in Q. exact Q.
Qed.

(** ** rho, for times of size at most 2^500 *)
Section Rho.
Variables (exp64 log64 sin64 cos64 : b64 -> b64) (pow64 : b64 -> b64 -> b64).
Hypothesis HE : exp_sane exp64.
Hypothesis HX : exp_accurate exp64.
Local Notation A := (A64 exp64 log64 sin64 cos64 pow64).
Variables (t : list b64) (w : b64) (wR : R).
Hypothesis Ht : times64 t.
Hypothesis Htb : forall i, (i < length t)%nat -> Rabs (val t.[i]) <= p2 500.
Hypothesis Hw : rng (p2 (-200)) (p2 200) w.
Hypothesis HwR : 0 < wR.
Hypothesis Hww : Rabs (val w - wR) <= 2 * (u * wR).
Lemma vw_pos : 0 < val w.
Proof. destruct Hw as [_ Bw]. pose proof (bpow_gt_0 radix2 (-200)). lra. Qed.
Lemma diff_fin x b : (b < length t)%nat -> fin x -> Rabs (val x) <= p2 500 -> val t.[b] <= val x -> fin (x ⊖ t.[b]) /\ 0 <= val (x ⊖ t.[b]) <= p2 501 /\ near (val (x ⊖ t.[b])) (val x - val t.[b]).
Proof.
  intros Hb Fx Bx H. destruct Ht as [F _]. pose proof (F b Hb) as Fb. pose proof (Htb b Hb) as B1. apply abs_le_iff in B1, Bx.
  destruct (sub_in 0 (p2 501) x t.[b] Fx Fb repr_0) as [X Y]; [apply repr_p2; lia|change (p2 501) with (p2 (500 + 1)); rewrite bpow_plus; change (p2 1) with 2; lra|].
  split; [exact X|]. split; [exact Y|]. apply near_sub; assumption.
Qed.
Lemma mw_val : fin (Bopp one ⊗ w) /\ val (Bopp one ⊗ w) = - val w.
Proof.
  destruct (ofZ_val 1) as [F1 V1]; [reflexivity|]. destruct Hw as [Fw Bw].
  assert (fin (Bopp one)) as Fo by (unfold fin; rewrite is_finite_Bopp; exact F1). assert (val (Bopp one) = - (1)) as Vo by (unfold val; rewrite B2R_Bopp; fold (val one); rewrite V1; reflexivity).
  destruct (mul_in (- val w) (- val w) (Bopp one) w Fo Fw) as [F B]; [apply repr_opp, repr_val|apply repr_opp, repr_val|rewrite Vo; lra|]. split; [exact F|lra].
Qed.
Lemma wd_bound x : 0 <= x <= p2 501 -> - p2 701 <= - (val w * x) <= 0.
Proof.
  intros Hx. destruct Hw as [_ Bw]. pose proof vw_pos. assert (0 <= val w * x) by (apply Rmult_le_pos; lra).
  assert (val w * x <= p2 200 * p2 501) by (apply Rmult_le_compat; lra). rewrite <- bpow_plus in H1. change (200 + 501)%Z with 701%Z in H1. lra.
Qed.
Lemma rho_close b : (S b < length t)%nat -> Rabs (val (exp64 (Bopp one ⊗ w ⊗ nth b (diffs A t) (ofZ64 0))) - exp (- (1) * wR * (val t.[S b] - val t.[b]))) <= 16 * u.
Proof.
  intros Hb. rewrite (diffs_nth A t b _ (ofZ64 0) Hb). cbn [fsub A64]. destruct Ht as [F H].
  destruct (diff_fin t.[S b] b ltac:(lia) (F _ Hb) (Htb _ Hb) (H b Hb)) as (Fd & Bd & Nd). destruct mw_val as [Fm Vm].
  pose proof (wd_bound _ Bd) as Bx. assert (repr (- p2 701)) as R7 by (apply repr_opp, repr_p2; lia).
  destruct (mul_in (- p2 701) 0 (Bopp one ⊗ w) (t.[S b] ⊖ t.[b]) Fm Fd R7 repr_0) as [Fx Bx']; [rewrite Vm; lra|].
  pose proof (near_mul _ _ Fx) as Nx. rewrite Vm in Nx. replace (- val w * val (t.[S b] ⊖ t.[b])) with (- (val w * val (t.[S b] ⊖ t.[b]))) in Nx by ring.
  pose proof vw_pos. destruct Hw as [Fw Bw].
  apply (rho_near exp64 w t.[b] t.[S b] _ (t.[S b] ⊖ t.[b])); try assumption; [lra|apply H, Hb|lra|apply Bx'].
Qed.
Lemma rho_last s b : (b < length t)%nat -> fin s -> Rabs (val s) <= p2 500 -> val t.[b] <= val s ->
  rng 0 1 (exp64 (Bopp (s ⊖ t.[b]) ⊗ w)) /\ Rabs (val (exp64 (Bopp (s ⊖ t.[b]) ⊗ w)) - exp (- 1 * wR * (val s - val t.[b]))) <= 16 * u.
Proof.
  intros Hb Fs Bs Hs. destruct (diff_fin s b Hb Fs Bs Hs) as (Fd & Bd & Nd).
  assert (fin (Bopp (s ⊖ t.[b]))) as Fo by (unfold fin; rewrite is_finite_Bopp; exact Fd). assert (val (Bopp (s ⊖ t.[b])) = - val (s ⊖ t.[b])) as Vo by (unfold val; rewrite B2R_Bopp; reflexivity).
  pose proof (wd_bound _ Bd) as Bx. assert (repr (- p2 701)) as R7 by (apply repr_opp, repr_p2; lia). pose proof vw_pos. destruct Hw as [Fw Bw].
  destruct (mul_in (- p2 701) 0 (Bopp (s ⊖ t.[b])) w Fo Fw R7 repr_0) as [Fx Bx']; [rewrite Vo; lra|].
  pose proof (near_mul _ _ Fx) as Nx. rewrite Vo in Nx. replace (- val (s ⊖ t.[b]) * val w) with (- (val w * val (s ⊖ t.[b]))) in Nx by ring.
  split; [apply HE; left; split; [exact Fx|apply Bx']|].
  apply (rho_near exp64 w t.[b] s _ (s ⊖ t.[b])); try assumption; [lra|lra|apply Bx'].
Qed.
End Rho.

(** ** the variance of the process *)
Lemma two_w w : rng (p2 (-200)) (p2 200) w -> fin (ofZ64 2 ⊗ w) /\ val (ofZ64 2 ⊗ w) = 2 * val w.
Proof.
  intros Hw. destruct (ofZ_val 2) as [F2 V2]; [reflexivity|]. destruct Hw as [Fw Bw]. pose proof (bpow_gt_0 radix2 (-200)) as P.
  assert (Rabs (2 * val w) < p2 1024) as HB.
  { rewrite Rabs_pos_eq by lra. apply Rle_lt_trans with (p2 (1 + 200)); [rewrite bpow_plus; change (p2 1) with 2; lra|apply bpow_lt; lia]. }
  pose proof (repr_twice (val w) (repr_val w) HB) as HR.
  destruct (mul_in (2 * val w) (2 * val w) (ofZ64 2) w F2 Fw HR HR) as [F B]; [rewrite V2; lra|]. split; [exact F|lra].
Qed.
Lemma S0_near sig w : rng 0 (p2 500) sig -> rng (p2 (-200)) (p2 200) w -> near (val (sig ⊘ (ofZ64 2 ⊗ w))) (val sig / (2 * val w)).
Proof.
  intros Hs Hw. destruct (two_w w Hw) as [F2 V2]. assert (rng (p2 (-499)) (p2 500) w) as Hw5 by (eapply rng_weaken; [exact Hw| |]; apply bpow_le; lia).
  destruct (S0_in sig w Hs Hw5) as [FS _]. pose proof (vw_pos w Hw) as P.
  pose proof (near_div sig (ofZ64 2 ⊗ w) FS ltac:(rewrite V2; lra)) as H1. rewrite V2 in H1. exact H1.
Qed.
