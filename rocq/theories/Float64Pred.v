(** Predictions of the CAR(1) filter at any time, in double precision. *)
From Coq Require Import Reals ZArith Bool Lra Lia List.
From Flocq Require Import Core BinarySingleNaN.
From Verif Require Import Arith Res ListLemmas KFModel KF1Proof KF1R KF1X History Cx KFpModel Float64 Float64KF Float64LD Float64Top.
Import ListNotations.
Local Open Scope R_scope.
Local Notation p2 e := (bpow radix2 e).
Local Notation "x ⊕ y" := (Bplus mode_NE x y) (at level 50, left associativity).
Local Notation "x ⊖ y" := (Bminus mode_NE x y) (at level 50, left associativity).
Local Notation "x ⊗ y" := (Bmult mode_NE x y) (at level 40, left associativity).
Local Notation "x ⊘ y" := (Bdiv mode_NE x y) (at level 40, left associativity).
Local Notation one := (ofZ64 1).
Local Notation "l .[ i ]" := (nth i l (ofZ64 0)) (at level 2, format "l .[ i ]").
Ltac rp := apply repr_p2; lia.

(** what is used of libm's exp beside [exp_sane]: at a number <= -2^-41 it returns at most 1 - 2^-42 *)
Definition exp_drop (e : b64 -> b64) : Prop := forall x, fin x -> val x <= - p2 (-41) -> val (e x) <= 1 - p2 (-42).
Definition exp_low (e : b64 -> b64) : Prop := val (e (B754_infinity true)) <= 1 - p2 (-42).

Lemma repr_drop : repr (1 - p2 (-42)).
Proof.
  replace (1 - p2 (-42)) with (IZR (2 ^ 42 - 1) * p2 (-42)); [apply repr_F; lia|].
  rewrite minus_IZR. change (IZR (2 ^ 42)) with (p2 42). rewrite Rmult_minus_distr_r, <- bpow_plus. change (42 + -42)%Z with 0%Z. change (p2 0) with 1. ring.
Qed.
Lemma exp_correct_drop e : exp_correct e -> exp_drop e /\ exp_low e.
Proof.
  intros [H1 H2]. split.
  - intros x Fx Hx. apply (rounds_in 0 (1 - p2 (-42)) (exp (val x)) (e x)); [apply repr_0|apply repr_drop| |apply H1, Fx].
    split; [left; apply exp_pos|]. set (d := p2 (-41)) in *. assert (p2 (-42) = d / 2) as E.
    { unfold d. change (p2 (-41)) with (p2 (1 + -42)). rewrite bpow_plus. change (p2 1) with 2. lra. }
    assert (0 < d <= 1 / 2) as [D1 D2].
    { split; [apply bpow_gt_0|]. unfold d. replace (1 / 2) with (p2 (-1)) by (cbn; lra). apply bpow_le. lia. }
    apply Rle_trans with (exp (- d)); [destruct Hx as [Hx|Hx]; [left; apply exp_increasing, Hx|rewrite Hx; lra]|].
    rewrite exp_Ropp. pose proof (exp_ineq1 d ltac:(lra)) as Q. rewrite E.
    apply Rle_trans with (/ (1 + d)); [apply Rinv_le_contravar; lra|]. apply Rmult_le_reg_r with (1 + d); [lra|]. rewrite Rinv_l by lra. nra.
  - unfold exp_low. rewrite H2. destruct (Zc 0) as [F0 V0]; [reflexivity|]. assert (p2 (-42) <= p2 0) as P by (apply bpow_le; lia). change (p2 0) with 1 in P. lra.
Qed.

Lemma mul_nonpos_pos x w : nonpos x -> fin w -> 0 < val w -> nonpos (x ⊗ w).
Proof.
  intros [[Fx Hx]| ->] Fw Hw.
  - destruct Hx as [Hx|Hx]; [apply mul_nonpos; try assumption; left; split; [exact Fw|lra]|].
    left. destruct (mul_in 0 0 x w Fx Fw repr_0 repr_0) as [F B]; [rewrite Hx; lra|]. split; [exact F|lra].
  - right. destruct (pos_sign w Hw) as (m & e & H & ->). reflexivity.
Qed.
Lemma opp_nonneg x : nonneg x -> nonpos (Bopp x).
Proof.
  intros [[Fx Hx]| ->]; [left|right; reflexivity]. split; [unfold fin; rewrite is_finite_Bopp; exact Fx|].
  unfold val. rewrite B2R_Bopp. fold (val x). lra.
Qed.
Lemma abs_nonneg x : nonneg x -> nonneg (Babs x).
Proof.
  intros [[Fx Hx]| ->]; [left|right; reflexivity]. split; [unfold fin; rewrite is_finite_Babs; exact Fx|].
  unfold val. rewrite B2R_Babs. apply Rabs_pos.
Qed.
Lemma m1_nonneg x : nonneg x -> nonpos (Bopp one ⊗ x).
Proof.
  intros Hx. destruct (Zc 1) as [F1 V1]; [reflexivity|]. apply mul_nonpos; [unfold fin; rewrite is_finite_Bopp; exact F1| |exact Hx].
  unfold val. rewrite B2R_Bopp. fold (val one). lra.
Qed.
Lemma rnd_half r : 0 < r -> p2 (-1000) <= r -> r / 2 <= rnd r.
Proof.
  intros Hr H. destruct (mag radix2 r) as (e & He). specialize (He ltac:(lra)). rewrite Rabs_pos_eq in He by lra.
  assert (p2 e = 2 * p2 (e - 1)) as E by (replace e with (1 + (e - 1))%Z at 1 by lia; rewrite bpow_plus; reflexivity).
  assert (-1000 < e)%Z as L by (apply (lt_bpow radix2); lra).
  assert (rnd (p2 (e - 1)) <= rnd r) as Q by (apply round_le; [typeclasses eauto|typeclasses eauto|lra]).
  rewrite (round_generic radix2 fx ZnearestE (p2 (e - 1))) in Q; [lra|]. apply generic_format_bpow. unfold FLT_exp. lia.
Qed.

(** ** One step, with bounds that count the steps *)
Section Crude.
Variables (S0 q : b64).
Hypothesis HS : rng 0 (p2 200) S0.
Hypothesis Hq : rng (p2 (-200)) (p2 200) q.
Local Notation G := (p2 200).

Lemma crude_big c : (0 <= c < 2 ^ 52)%Z -> IZR c * G <= 8 * big.
Proof.
  intros Hc. apply Rle_trans with (p2 52 * G).
  - apply Rmult_le_compat_r; [apply bpow_ge_0|]. change (p2 52) with (IZR (2 ^ 52)). apply IZR_le. lia.
  - rewrite <- bpow_plus. apply Rle_trans with big; [apply bpow_le; lia|]. pose proof big_pos. lra.
Qed.
Lemma q_big : rng 0 big q /\ 0 < val q.
Proof.
  destruct Hq as [Fq Bq]. pose proof (bpow_gt_0 radix2 (-200)) as P. assert (p2 200 <= big) by (apply bpow_le; lia). split; [split; [exact Fq|lra]|lra].
Qed.
Lemma v_big c v : (0 <= c < 2 ^ 52)%Z -> rng (val q) (IZR c * G) v -> rng (val q) (8 * big) v.
Proof. intros Hc Hv. eapply rng_weaken; [exact Hv|lra|apply crude_big, Hc]. Qed.
Lemma crude_step c rho v : (1 <= c < 2 ^ 52)%Z -> rng 0 1 rho -> rng (val q) (IZR c * G) v ->
  rng (val (S0 ⊗ (one ⊖ rho ⊗ rho))) (IZR (c + 1) * G) (S0 ⊗ (one ⊖ rho ⊗ rho) ⊕ rho ⊗ rho ⊗ (v ⊖ q) ⊗ (one ⊖ (v ⊖ q) ⊘ v)).
Proof.
  intros Hc Hr Hv. destruct q_big as [Qb Qp]. pose proof (v_big c v ltac:(lia) Hv) as Hv'.
  pose proof (mul_shrink 1 rho rho Hr Hr repr_1) as Hr2.
  pose proof (mul_shrink_r G S0 _ HS (rng01_minus _ Hr2) ltac:(rp)) as [F1 B1].
  pose proof (resid q Qb Qp v Hv') as [Fp Bp]. pose proof (ratio_in q Qb Qp v Hv') as Hra.
  pose proof (mul_shrink (val (v ⊖ q)) (rho ⊗ rho) (v ⊖ q) Hr2) as T2.
  assert (rng 0 (val (v ⊖ q)) (v ⊖ q)) as Hp' by (split; [exact Fp|lra]). specialize (T2 Hp' (repr_val _)).
  pose proof (mul_shrink_r (val (v ⊖ q)) _ _ T2 (rng01_minus _ Hra) (repr_val _)) as [F3 B3]. destruct Hv as [Fv Bv].
  apply add_in; try assumption; [apply repr_val|apply repr_mult; lia|]. rewrite plus_IZR. lra.
Qed.
Lemma crude_err c v q' : (0 <= c < 2 ^ 52)%Z -> rng 0 (IZR c * G) v -> rng 0 G q' -> rng (val q') (IZR (c + 1) * G) (v ⊕ q').
Proof. intros Hc [Fv Bv] [Fq' Bq']. apply add_in; try assumption; [apply repr_val|apply repr_mult; lia|]. rewrite plus_IZR. lra. Qed.
End Crude.

Section Pred64.
Variable k : Z.
Hypothesis Hk : (-700 <= k <= 400)%Z.
Variables (exp64 log64 sin64 cos64 : b64 -> b64) (pow64 : b64 -> b64 -> b64).
Hypothesis HE : exp_sane exp64.
Hypothesis HD : exp_drop exp64.
Hypothesis HL : exp_low exp64.
Local Notation A := (A64 exp64 log64 sin64 cos64 pow64).
Variables (t y e : list b64) (sig w u : b64).
Hypothesis Ht : times64 t.
Hypothesis Hn : (0 < Z.of_nat (length t) < 2 ^ 50)%Z.
Hypothesis Hy : forall i, (i < length t)%nat -> rng (- p2 k) (p2 k) y.[i].
Hypothesis He : forall i, (i < length t)%nat -> rng (p2 (-100)) (p2 100) e.[i].
Hypothesis Hsig : rng (p2 (-100)) (p2 98) sig.
Hypothesis Hw : rng (p2 (-100)) (p2 100) w.
Hypothesis Fu : fin u.
Hypothesis Hgap : forall i, (i < length t)%nat -> val t.[i] < val u -> p2 (-40) <= val w * (val u - val t.[i]).
Local Notation dt := (diffs A t).
Local Notation S0 := (sig ⊘ (ofZ64 2 ⊗ w)).
Local Notation G := (p2 200).
Local Notation nz i := (Z.of_nat i).

Lemma w_pos : fin w /\ 0 < val w.
Proof. destruct Hw as [F B]. pose proof (bpow_gt_0 radix2 (-100)). split; [exact F|lra]. Qed.
Lemma S0_rng : rng (p2 (-201)) G S0.
Proof.
  destruct Hsig as [Fs Bs]. destruct Hw as [Fw Bw]. destruct (Zc 2) as [F2 V2]; [reflexivity|].
  pose proof (bpow_gt_0 radix2 (-100)) as P.
  assert (rng (p2 (-99)) (p2 101) (ofZ64 2 ⊗ w)) as [Fd Bd].
  { apply mul_in; try assumption; try rp. replace (val (ofZ64 2)) with 2 by lra. change (p2 (-99)) with (p2 (1 + -100)). change (p2 101) with (p2 (1 + 100)).
    rewrite !bpow_plus. change (p2 1) with 2. lra. }
  pose proof (bpow_gt_0 radix2 (-99)) as P2.
  apply div_in; try assumption; [lra|rp|rp|].
  split; (apply Rmult_le_reg_r with (val (ofZ64 2 ⊗ w)); [lra|]); unfold Rdiv; rewrite Rmult_assoc, Rinv_l, Rmult_1_r by lra.
  - apply Rle_trans with (p2 (-201) * p2 101); [apply Rmult_le_compat_l; [apply bpow_ge_0|lra]|]. rewrite <- bpow_plus.
    change (-201 + 101)%Z with (-100)%Z. lra.
  - apply Rle_trans with (G * p2 (-99)); [|apply Rmult_le_compat_l; [apply bpow_ge_0|lra]]. rewrite <- bpow_plus.
    apply Rle_trans with (p2 98); [lra|apply bpow_le; lia].
Qed.
Lemma S0_rng0 : rng 0 G S0.
Proof. eapply rng_weaken; [exact S0_rng|apply bpow_ge_0|lra]. Qed.
Lemma q_rng i : (i < length t)%nat -> rng (p2 (-200)) G (e.[i] ⊗ e.[i]).
Proof. intros Hi. apply (q_in (-100) 100); try lia. apply He, Hi. Qed.
Lemma q_rng0 i : (i < length t)%nat -> rng 0 G (e.[i] ⊗ e.[i]).
Proof. intros Hi. eapply rng_weaken; [exact (q_rng i Hi)|apply bpow_ge_0|lra]. Qed.

Lemma dt_nonneg i : (S i < length t)%nat -> nonneg (dt.[i]).
Proof.
  intros Hi. rewrite (diffs_nth A t i _ (ofZ64 0) Hi). cbn [fsub A64]. destruct Ht as [H1 H2]. apply sub_nonneg; [apply H1; lia|apply H1; lia|apply H2, Hi].
Qed.
Lemma rho_filter i : (S i < length t)%nat -> rng 0 1 (exp64 (Bopp one ⊗ w ⊗ dt.[i])).
Proof.
  intros Hi. apply HE. destruct w_pos as [Fw Pw]. destruct (Zc 1) as [F1 V1]; [reflexivity|]. destruct Hw as [_ Bw].
  assert (rng (- p2 100) (- p2 (-100)) (Bopp one ⊗ w)) as [F B].
  { apply mul_in; [unfold fin; rewrite is_finite_Bopp; exact F1|exact Fw|apply repr_opp; rp|apply repr_opp; rp|].
    unfold val at 1 3. rewrite B2R_Bopp. fold (val one). replace (val one) with 1 by lra. lra. }
  apply mul_nonpos; [exact F|pose proof (bpow_gt_0 radix2 (-100)); lra|apply dt_nonneg, Hi].
Qed.
Lemma rho_coef i : (S i < length t)%nat -> rng 0 1 (exp64 (Bopp one ⊗ dt.[i] ⊗ w)).
Proof. intros Hi. apply HE. apply mul_nonpos_pos; [apply m1_nonneg, dt_nonneg, Hi|apply w_pos|apply w_pos]. Qed.

Lemma vp_rng i : (i < length t)%nat -> rng (val (e.[i] ⊗ e.[i])) (IZR (2 * nz i + 2) * G) (vpure A dt e sig w i).
Proof.
  induction i as [|i IH]; intros Hi.
  - cbn [vpure fadd fmul fdiv fofZ A64]. change (2 * nz 0 + 2)%Z with (1 + 1)%Z. apply (crude_err 1); [lia| |apply q_rng0, Hi]. rewrite Rmult_1_l. exact S0_rng0.
  - cbn [vpure fadd fmul fdiv fofZ A64]. replace (2 * nz (S i) + 2)%Z with (2 * nz i + 2 + 1 + 1)%Z by lia.
    apply crude_err; [lia| |apply q_rng0, Hi]. unfold nextv. cbn [fadd fsub fmul fdiv fofZ fexp fneg A64].
    pose proof (crude_step S0 (e.[i] ⊗ e.[i]) S0_rng0 (q_rng i ltac:(lia)) (2 * nz i + 2) _ _ ltac:(lia) (rho_filter i Hi) (IH ltac:(lia))) as Q.
    eapply rng_weaken; [exact Q| |lra].
    apply (mul_shrink_r G S0 _ S0_rng0); [|rp]. apply rng01_minus. apply mul_shrink; [apply rho_filter, Hi|apply rho_filter, Hi|apply repr_1].
Qed.

(** the forecast from the measurements before u *)
Lemma gap_exp b : (b < length t)%nat -> val t.[b] < val u -> rng 0 (1 - p2 (-42)) (exp64 (Bopp (u ⊖ t.[b]) ⊗ w)).
Proof.
  intros Hb Hlt. destruct w_pos as [Fw Pw]. destruct Ht as [H1 _]. specialize (H1 b Hb).
  pose proof (sub_nonneg u t.[b] Fu H1 ltac:(lra)) as Hd.
  pose proof (mul_nonpos_pos _ w (opp_nonneg _ Hd) Fw Pw) as Hnp. destruct (HE _ Hnp) as [Fr Br]. split; [exact Fr|]. split; [lra|].
  destruct Hnp as [[Fx Hx]|E]; [|rewrite E; exact HL]. apply HD; [exact Fx|].
  specialize (Hgap b Hb Hlt). pose proof (bpow_gt_0 radix2 (-40)) as P40.
  assert (fin (u ⊖ t.[b])) as Fd.
  { destruct Hd as [[Fd _]|E]; [exact Fd|]. exfalso. rewrite E in Fx. destruct (pos_sign w Pw) as (m & ex & H & Ew). rewrite Ew in Fx. discriminate Fx. }
  set (r := val u - val t.[b]) in *. destruct Hw as [_ Bw].
  assert (p2 (-140) <= r) as Hr.
  { apply Rmult_le_reg_l with (p2 100); [apply bpow_gt_0|]. rewrite <- bpow_plus. change (100 + -140)%Z with (-40)%Z.
    apply Rle_trans with (val w * r); [exact Hgap|]. apply Rmult_le_compat_r; [unfold r; lra|lra]. }
  assert (r / 2 <= val (u ⊖ t.[b])) as Hh.
  { pose proof (Bminus_correct 53 1024 p53 p53_1024 mode_NE u t.[b] Fu H1) as HC.
    cbn [round_mode] in HC. change (SpecFloat.fexp 53 1024) with fx in HC. fold (val u) (val t.[b]) in HC. fold r in HC.
    destruct (Rlt_bool _ _).
    - destruct HC as (E & _). unfold val. rewrite E. apply rnd_half; [unfold r; lra|]. apply Rle_trans with (p2 (-140)); [apply bpow_le; lia|exact Hr].
    - exfalso. destruct HC as [E _]. apply B2SF_inf in E || idtac.
      destruct (u ⊖ t.[b]); try discriminate Fd; cbn in E; destruct (Bsign u); discriminate E. }
  assert (val (Bopp (u ⊖ t.[b])) = - val (u ⊖ t.[b])) as Eo by (unfold val; apply B2R_Bopp).
  assert (val (Bopp (u ⊖ t.[b])) * val w <= - p2 (-41)) as Hp.
  { rewrite Eo. assert (p2 (-40) = 2 * p2 (-41)) as E2 by (change (p2 (-40)) with (p2 (1 + -41)); rewrite bpow_plus; reflexivity).
    assert (r / 2 * val w <= val (u ⊖ t.[b]) * val w) by (apply Rmult_le_compat_r; lra). lra. }
  pose proof (Bmult_correct 53 1024 p53 p53_1024 mode_NE (Bopp (u ⊖ t.[b])) w) as HC.
  cbn [round_mode] in HC. change (SpecFloat.fexp 53 1024) with fx in HC.
  destruct (Rlt_bool _ _).
  - destruct HC as (E & _). unfold val at 1. rewrite E. fold (val (Bopp (u ⊖ t.[b]))) (val w).
    pose proof (round_le radix2 fx ZnearestE _ _ Hp) as Q. rewrite (rnd_repr (- p2 (-41))) in Q by (apply repr_opp; rp). exact Q.
  - exfalso. unfold fin in Fx. destruct (Bopp (u ⊖ t.[b]) ⊗ w); try discriminate Fx; cbn in HC; destruct (xorb _ _); discriminate HC.
Qed.

Lemma forecast_rng ip : (ip <= length t)%nat -> (forall b, (b < ip)%nat -> val t.[b] < val u) ->
  rng (- (4 * p2 k)) (4 * p2 k) (fst (forecast A t dt y e sig w u ip)) /\
  rng (p2 (-243)) (p2 252) (snd (forecast A t dt y e sig w u ip)).
Proof.
  intros Hip Hlt. pose proof (bpow_gt_0 radix2 k) as Hbp. destruct ip as [|b]; cbn [forecast fst snd].
  - split; [destruct (Zc 0) as [F0 V0]; [reflexivity|]; cbn [fofZ A64]; split; [exact F0|lra]|]. cbn [fdiv fmul fofZ A64].
    eapply rng_weaken; [exact S0_rng|apply bpow_le; lia|apply bpow_le; lia].
  - assert (Hb : (b < length t)%nat) by lia. pose proof (gap_exp b Hb (Hlt b ltac:(lia))) as Hr.
    assert (rng 0 1 (exp64 (Bopp (u ⊖ t.[b]) ⊗ w))) as Hr1.
    { eapply rng_weaken; [exact Hr|lra|]. pose proof (bpow_gt_0 radix2 (-42)). lra. }
    pose proof (vp_rng b Hb) as Hv. unfold nextm, nextv. cbn [fadd fsub fmul fdiv fofZ fexp fneg A64]. split.
    + destruct (q_big _ (q_rng b Hb)) as [Qb Qp].
      apply (mean_step k ltac:(lia)); [exact Hr1|apply ratio_in; try assumption; eapply v_big; [|exact Hv]; lia| |eapply rng_weaken; [apply Hy, Hb|lra|lra]].
      apply (mpure_in k ltac:(lia) exp64 log64 sin64 cos64 pow64 HE t y e sig w Ht Hy); [ | | |exact Hb].
      * intros i Hi. eapply rng_weaken; [apply He, Hi|apply bpow_le; lia|apply bpow_le; lia].
      * eapply rng_weaken; [exact Hsig|apply bpow_ge_0|apply bpow_le; lia].
      * eapply rng_weaken; [exact Hw|apply bpow_le; lia|apply bpow_le; lia].
    + pose proof (crude_step S0 (e.[b] ⊗ e.[b]) S0_rng0 (q_rng b Hb) (2 * nz b + 2) _ _ ltac:(lia) Hr1 Hv) as Q.
      eapply rng_weaken; [exact Q| |].
      * assert (rng 0 (1 - p2 (-42)) (exp64 (Bopp (u ⊖ t.[b]) ⊗ w) ⊗ exp64 (Bopp (u ⊖ t.[b]) ⊗ w))) as Hr2 by (apply mul_shrink; [exact Hr1|exact Hr|apply repr_drop]).
        pose proof (one_minus _ _ _ Hr2) as H1. replace (1 - (1 - p2 (-42))) with (p2 (-42)) in H1 by ring.
        destruct (H1 ltac:(replace (1 - 0) with 1 by ring; apply repr_1) ltac:(rp)) as [F1 B1]. destruct S0_rng as [FS BS].
        set (z := one ⊖ exp64 (Bopp (u ⊖ t.[b]) ⊗ w) ⊗ exp64 (Bopp (u ⊖ t.[b]) ⊗ w)) in *.
        assert (p2 (-42) <= 1) as P1 by (change 1 with (p2 0); apply bpow_le; lia).
        pose proof (bpow_gt_0 radix2 (-42)) as P. pose proof (bpow_gt_0 radix2 (-201)) as P'.
        pose proof (mul_in (p2 (-243)) G S0 z FS F1 ltac:(rp) ltac:(rp)) as M. apply M. change (p2 (-243)) with (p2 (-201 + -42)). rewrite bpow_plus.
        split; [apply Rmult_le_compat; lra|]. apply Rle_trans with (val S0 * 1); [apply Rmult_le_compat_l; lra|lra].
      * apply Rle_trans with (p2 52 * G); [|rewrite <- bpow_plus; apply bpow_le; lia]. apply Rmult_le_compat_r; [apply bpow_ge_0|].
        change (p2 52) with (IZR (2 ^ 52)). apply IZR_le. lia.
Qed.

(** the coefficients after u *)
Variable ip : nat.
Hypothesis Hip : (ip < length t)%nat.
Hypothesis Hge : val u <= val t.[ip].

Lemma coefs j : (ip + j < length t)%nat ->
  rng (IZR (- (nz j + 1)) * p2 k) (IZR (nz j + 1) * p2 k) (cconst A t dt y e sig w u ip j) /\ rng 0 1 (cslope A t dt y e sig w u ip j) /\
  rng (val (e.[ip + j] ⊗ e.[ip + j])) (IZR (2 * nz j + 2) * G) (cvar A t dt y e sig w u ip j).
Proof.
  unfold cconst, cslope, cvar. pose proof (bpow_gt_0 radix2 k) as Hb. induction j as [|j IH]; intros Hj.
  - cbn [cpure fst snd]. rewrite Nat.add_0_r. cbn [fadd fsub fmul fdiv fofZ fexp fneg fabs A64].
    assert (rng 0 1 (exp64 (Bopp (Babs (t.[ip] ⊖ u)) ⊗ w))) as Hr.
    { apply HE. apply mul_nonpos_pos; [|apply w_pos|apply w_pos]. apply opp_nonneg, abs_nonneg, sub_nonneg; [apply Ht, Hip|exact Fu|exact Hge]. }
    split; [destruct (Zc 0) as [F0 V0]; [reflexivity|]; split; [exact F0|change (nz 0) with 0%Z; cbn [Z.add Z.opp]; lra]|]. split; [exact Hr|].
    change (2 * nz 0 + 2)%Z with (1 + 1)%Z. apply crude_err; [lia| |apply q_rng0, Hip]. rewrite Rmult_1_l.
    apply mul_shrink_r; [exact S0_rng0| |rp]. apply rng01_minus. apply mul_shrink; [exact Hr|exact Hr|apply repr_1].
  - specialize (IH ltac:(lia)). cbn [cpure]. destruct (cpure A t dt y e sig w u ip j) as [[co sl] vb] eqn:Ec. cbn [fst snd] in IH |- *.
    destruct IH as (Hc & Hs & Hv). assert (Hb' : (ip + j < length t)%nat) by lia. pose proof (q_rng _ Hb') as Hq. pose proof (rho_coef (ip + j) ltac:(lia)) as Hr.
    unfold nextv. cbn [fadd fsub fmul fdiv fofZ fexp fneg fabs A64]. destruct (q_big _ Hq) as [Qb Qp].
    assert (rng 0 1 ((vb ⊖ e.[ip + j] ⊗ e.[ip + j]) ⊘ vb)) as Hra by (apply ratio_in; try assumption; eapply v_big; [|exact Hv]; lia).
    pose proof (rng01_minus _ Hra) as Hra'. set (ra := (vb ⊖ e.[ip + j] ⊗ e.[ip + j]) ⊘ vb) in *.
    set (rho := exp64 (Bopp one ⊗ dt.[ip + j] ⊗ w)) in *. split; [|split].
    + assert (forall x z c, (0 <= c < 2 ^ 53)%Z -> rng (IZR (- c) * p2 k) (IZR c * p2 k) x -> rng 0 1 z -> rng (IZR (- c) * p2 k) (IZR c * p2 k) (x ⊗ z)) as SH.
      { intros x z c Hc' [Fx Bx] [Fz Bz]. apply mul_in; try assumption; [apply repr_mult; lia|apply repr_mult; lia|].
        pose proof (prod_in (val z) (val x) 1 (IZR (- c) * p2 k) (IZR c * p2 k)) as Q. rewrite opp_IZR in *. assert (0 <= IZR c) by (apply (IZR_le 0); lia).
        assert (0 <= IZR c * p2 k) by (apply Rmult_le_pos; lra). rewrite (Rmult_comm (val x)). lra. }
      destruct (SH _ _ (nz j + 1)%Z ltac:(lia) (SH _ _ (nz j + 1)%Z ltac:(lia) Hc Hr) Hra') as [F1 B1].
      assert (rng (IZR (- (1)) * p2 k) (IZR 1 * p2 k) (rho ⊗ ra ⊗ y.[ip + j])) as [F2 B2].
      { destruct (Hy _ Hb') as [Fy By]. pose proof (mul_shrink 1 rho ra Hr Hra repr_1) as [Fw' Bw'].
        apply mul_in; try assumption; [apply repr_mult; lia|apply repr_mult; lia|]. cbn [Z.opp].
        pose proof (prod_in (val (rho ⊗ ra)) (val y.[ip + j]) 1 (- p2 k) (p2 k)). lra. }
      apply add_in; try assumption; [apply repr_mult; lia|apply repr_mult; lia|]. rewrite Nat2Z.inj_succ. unfold Z.succ. clear - B1 B2.
      rewrite !opp_IZR, !plus_IZR in B1. rewrite opp_IZR in B2. rewrite !opp_IZR, !plus_IZR.
      assert (forall a b x P : R, - (x + 1) * P <= a <= (x + 1) * P -> - (1) * P <= b <= 1 * P -> - (x + 1 + 1) * P <= a + b <= (x + 1 + 1) * P) as N by (intros; lra).
      exact (N _ _ _ _ B1 B2).
    + apply mul_shrink; [exact Hs| |apply repr_1]. apply mul_shrink; [exact Hr|exact Hra'|apply repr_1].
    + replace (2 * nz (S j) + 2)%Z with (2 * nz j + 2 + 1 + 1)%Z by lia. replace (ip + S j)%nat with (S (ip + j)) by lia.
      apply crude_err; [lia| |apply q_rng0; lia].
      pose proof (crude_step S0 _ S0_rng0 Hq (2 * nz j + 2) rho vb ltac:(lia) Hr Hv) as Q.
      eapply rng_weaken; [exact Q| |lra].
      apply (mul_shrink_r G S0 _ S0_rng0); [|rp]. apply rng01_minus. apply mul_shrink; [exact Hr|exact Hr|apply repr_1].
Qed.

Lemma div_v x v lo hi : fin x -> lo <= val x <= hi -> lo <= 0 <= hi -> fin v -> p2 (-200) <= val v ->
  repr (lo * p2 200) -> repr (hi * p2 200) -> rng (lo * p2 200) (hi * p2 200) (x ⊘ v).
Proof.
  intros Fx Bx B0 Fv Bv R1 R2. pose proof (bpow_gt_0 radix2 (-200)) as P. apply div_in; try assumption; [lra|].
  assert (0 <= / val v <= p2 200) as Q.
  { split; [left; apply Rinv_0_lt_compat; lra|]. change (p2 200) with (p2 (- -200)). rewrite bpow_opp. apply Rinv_le_contravar; lra. }
  pose proof (prod_in (/ val v) (val x) (p2 200) lo hi Q Bx B0). unfold Rdiv. lra.
Qed.

Lemma accum m0 p0 : rng (- p2 (k + 251)) (p2 (k + 251)) m0 -> rng (p2 (-252)) (p2 243) p0 ->
  forall j, (ip + j <= length t)%nat ->
  rng (IZR (- (nz j + 1)) * p2 (k + 251)) (IZR (nz j + 1) * p2 (k + 251)) (fst (apure A t dt y e sig w u ip j (m0, p0))) /\
  rng (p2 (-252)) (IZR (nz j + 1) * p2 243) (snd (apure A t dt y e sig w u ip j (m0, p0))).
Proof.
  intros Hm Hp. pose proof (bpow_gt_0 radix2 k) as Hb. induction j as [|j IH]; intros Hj.
  - cbn [apure fst snd]. change (nz 0) with 0%Z. cbn [Z.add Z.opp]. split; (eapply rng_weaken; [eassumption|lra|lra]).
  - specialize (IH ltac:(lia)). cbn [apure]. destruct (apure A t dt y e sig w u ip j (m0, p0)) as [m p]. cbn [fst snd] in IH. destruct IH as [[Fm Bm] [Fp Bp]].
    unfold apure1. cbn [fst snd]. destruct (coefs j ltac:(lia)) as (Hc & Hs & Hv).
    cbn [fadd fsub fmul fdiv fofZ A64].
    set (co := cconst A t dt y e sig w u ip j) in *. set (sl := cslope A t dt y e sig w u ip j) in *. set (v := cvar A t dt y e sig w u ip j) in *.
    destruct (q_rng (ip + j) ltac:(lia)) as [Fq Bq]. destruct Hv as [Fv Bv]. assert (p2 (-200) <= val v) as Lv by lra.
    destruct Hc as [Fc Bc]. destruct (Hy (ip + j) ltac:(lia)) as [Fy By].
    assert (IZR (nz j + 1) <= p2 50) as L50 by (change (p2 50) with (IZR (2 ^ 50)); apply IZR_le; lia).
    assert (1 <= p2 50) as L1 by (change 1 with (p2 0); apply bpow_le; lia).
    assert (p2 51 = 2 * p2 50) as E51 by (change (p2 51) with (p2 (1 + 50)); rewrite bpow_plus; reflexivity).
    assert (rng (- (p2 51 * p2 k)) (p2 51 * p2 k) (y.[ip + j] ⊖ co)) as [Fd Bd].
    { apply sub_in; try assumption; [apply repr_opp; rewrite <- bpow_plus; rp|rewrite <- bpow_plus; rp|].
      rewrite opp_IZR in Bc. assert (IZR (nz j + 1) * p2 k <= p2 50 * p2 k) by (apply Rmult_le_compat_r; lra).
      assert (1 * p2 k <= p2 50 * p2 k) by (apply Rmult_le_compat_r; lra). rewrite E51. lra. }
    rewrite <- bpow_plus in Bd. destruct Hs as [Fs Bs].
    pose proof (bpow_gt_0 radix2 (51 + k)) as PB.
    assert (rng (- p2 (51 + k)) (p2 (51 + k)) (sl ⊗ (y.[ip + j] ⊖ co))) as [Fg Bg].
    { apply mul_in; try assumption; [apply repr_opp; rp|rp|]. pose proof (prod_in (val sl) (val (y.[ip + j] ⊖ co)) 1 (- p2 (51 + k)) (p2 (51 + k))). lra. }
    destruct (div_v (sl ⊗ (y.[ip + j] ⊖ co)) v (- p2 (51 + k)) (p2 (51 + k)) Fg Bg ltac:(lra) Fv Lv) as [Fq1 Bq1];
      [rewrite <- Ropp_mult_distr_l; apply repr_opp; rewrite <- bpow_plus; rp|rewrite <- bpow_plus; rp|].
    rewrite <- Ropp_mult_distr_l, <- bpow_plus in Bq1. replace (51 + k + 200)%Z with (k + 251)%Z in Bq1 by lia.
    assert (rng 0 1 (sl ⊗ sl)) as [Fs2 Bs2] by (apply mul_shrink; [split; assumption|split; assumption|apply repr_1]).
    destruct (div_v (sl ⊗ sl) v 0 1 Fs2 Bs2 ltac:(lra) Fv Lv) as [Fq2 Bq2]; [rewrite Rmult_0_l; apply repr_0|rewrite Rmult_1_l; rp|].
    assert (p2 200 <= p2 243) as L243 by (apply bpow_le; lia).
    rewrite Nat2Z.inj_succ. unfold Z.succ. split.
    + apply add_in; try assumption; [apply repr_mult; lia|apply repr_mult; lia|]. clear - Bm Bq1.
      rewrite !opp_IZR, !plus_IZR in Bm. rewrite !opp_IZR, !plus_IZR.
      assert (forall a b x P : R, - (x + 1) * P <= a <= (x + 1) * P -> - P <= b <= P -> - (x + 1 + 1) * P <= a + b <= (x + 1 + 1) * P) as N by (intros; lra).
      exact (N _ _ _ _ Bm Bq1).
    + apply add_in; try assumption; [rp|apply repr_mult; lia|]. rewrite !(plus_IZR (nz j)) in Bp. rewrite (plus_IZR (nz j + 1)), (plus_IZR (nz j)).
      assert (forall a b x L P Q : R, L <= a <= (x + 1) * P -> 0 * Q <= b <= 1 * Q -> Q <= P -> L <= a + b <= (x + 1 + 1) * P) as N by (intros; lra).
      exact (N _ _ _ _ _ _ Bp Bq2 L243).
Qed.

Lemma combined m0 v0 : rng (- (4 * p2 k)) (4 * p2 k) m0 -> rng (p2 (-243)) (p2 252) v0 ->
  let a := apure A t dt y e sig w u ip (length t - ip) (m0 ⊗ (one ⊘ v0), one ⊘ v0) in
  fin (fst a ⊗ (one ⊘ snd a)) /\ fin (one ⊘ snd a) /\ 0 < val (one ⊘ snd a) <= p2 252.
Proof.
  intros Hm Hv a. pose proof (bpow_gt_0 radix2 k) as Hb.
  pose proof (div_p2 one v0 (-243) 252 v0 ltac:(lia) ltac:(lia) eq_refl eq_refl ltac:(lia) ltac:(lia) Hv) as Hp. cbn [Z.opp] in Hp.
  assert (rng (- p2 (k + 251)) (p2 (k + 251)) (m0 ⊗ (one ⊘ v0))) as Hmp.
  { destruct Hm as [Fm Bm]. destruct Hp as [Fp Bp]. apply mul_in; try assumption; [apply repr_opp; rp|rp|].
    pose proof (bpow_gt_0 radix2 (-252)) as P.
    pose proof (prod_in (val (one ⊘ v0)) (val m0) (p2 243) (- (4 * p2 k)) (4 * p2 k) (Logic.conj (Rlt_le _ _ (Rlt_le_trans _ _ _ P (proj1 Bp))) (proj2 Bp)) Bm ltac:(lra)) as Q.
    assert (p2 243 * (4 * p2 k) <= p2 (k + 251)).
    { change 4 with (p2 2). rewrite <- !bpow_plus. apply bpow_le. lia. }
    rewrite (Rmult_comm (val m0)). lra. }
  destruct (accum _ _ Hmp Hp (length t - ip)%nat ltac:(lia)) as [[Fa Ba] Hpp]. fold a in Fa, Ba, Hpp.
  assert (IZR (nz (length t - ip) + 1) <= p2 50) as L50 by (change (p2 50) with (IZR (2 ^ 50)); apply IZR_le; lia).
  assert (rng (p2 (-252)) (p2 293) (snd a)) as Hpp'.
  { eapply rng_weaken; [exact Hpp|lra|]. change (p2 293) with (p2 (50 + 243)). rewrite bpow_plus. apply Rmult_le_compat_r; [apply bpow_ge_0|exact L50]. }
  pose proof (div_p2 one (snd a) (-252) 293 (snd a) ltac:(lia) ltac:(lia) eq_refl eq_refl ltac:(lia) ltac:(lia) Hpp') as [Fv Bv]. cbn [Z.opp] in Bv.
  pose proof (bpow_gt_0 radix2 (-293)) as P. split; [|split; [exact Fv|lra]].
  assert (- p2 (k + 301) <= val (fst a) <= p2 (k + 301)) as Ba'.
  { rewrite opp_IZR in Ba. assert (IZR (nz (length t - ip) + 1) * p2 (k + 251) <= p2 (k + 301)) as L.
    { replace (k + 301)%Z with (50 + (k + 251))%Z by lia. rewrite (bpow_plus radix2 50). apply Rmult_le_compat_r; [apply bpow_ge_0|exact L50]. }
    assert (forall c P Q x : R, - c * P <= x <= c * P -> c * P <= Q -> - Q <= x <= Q) as N by (intros; lra). exact (N _ _ _ _ Ba L). }
  pose proof (bpow_gt_0 radix2 (k + 301)) as P3.
  pose proof (prod_in (val (one ⊘ snd a)) (val (fst a)) (p2 252) (- p2 (k + 301)) (p2 (k + 301)) (Logic.conj (Rlt_le _ _ (Rlt_le_trans _ _ _ P (proj1 Bv))) (proj2 Bv)) Ba' ltac:(lra)) as Q.
  rewrite <- Ropp_mult_distr_r, <- bpow_plus in Q.
  apply (mul_in (- p2 (252 + (k + 301))) (p2 (252 + (k + 301)))); try assumption; [apply repr_opp; apply repr_p2; lia|apply repr_p2; lia|]. rewrite (Rmult_comm (val (fst a))). exact Q.
Qed.
End Pred64.

(** ** Predict of a KalmanFilter1 object *)
Lemma prefix_facts A0 (l : list (F A0)) u : (lt_prefix A0 l u <= length l)%nat.
Proof. induction l as [|a l IH]; cbn [lt_prefix length]; [lia|]. destruct (flt A0 a u); lia. Qed.

Section Top.
Variables (exp64 log64 sin64 cos64 : b64 -> b64) (pow64 : b64 -> b64 -> b64).
Local Notation A := (A64 exp64 log64 sin64 cos64 pow64).

Lemma prefix_lt (l : list b64) u : fin u -> (forall i, (i < length l)%nat -> fin l.[i]) ->
  (forall b, (b < lt_prefix A l u)%nat -> val l.[b] < val u) /\ ((lt_prefix A l u < length l)%nat -> val u <= val l.[lt_prefix A l u]).
Proof.
  intros Fu. induction l as [|a l IH]; intros Fl; cbn [lt_prefix]; [split; cbn [length]; lia|].
  pose proof (Fl 0%nat ltac:(cbn [length]; lia)) as Fa. cbn [nth] in Fa. cbn [flt A64]. rewrite flt_spec by assumption.
  destruct (Rlt_bool_spec (val a) (val u)) as [H|H].
  - destruct IH as [I1 I2]; [intros i Hi; apply (Fl (S i)); cbn [length]; lia|]. split.
    + intros [|b] Hb; [exact H|]. cbn [nth]. apply I1. lia.
    + cbn [length nth]. intros Hb. apply I2. lia.
  - split; [intros b Hb; lia|]. intros _. exact H.
Qed.

Lemma predict_any64 k (s : kf1 A) (u : b64) : exp_sane exp64 -> exp_drop exp64 -> exp_low exp64 -> (-700 <= k <= 400)%Z ->
  usable s -> times64 (k_time s) -> (Z.of_nat (length (k_time s)) < 2 ^ 50)%Z ->
  (forall i, (i < length (k_time s))%nat -> rng (- p2 k) (p2 k) (k_y s).[i]) ->
  (forall i, (i < length (k_time s))%nat -> rng (p2 (-100)) (p2 100) (k_yerr s).[i]) ->
  rng (p2 (-100)) (p2 98) (k_sig s) -> rng (p2 (-100)) (p2 100) (k_ext s) -> fin u ->
  (forall i, (i < length (k_time s))%nat -> val (k_time s).[i] < val u -> p2 (-40) <= val (k_ext s) * (val u - val (k_time s).[i])) ->
  exists m v s', m_Predict (methods1 A) s u = Ok ((m, v), s') /\ fin m /\ fin v /\ 0 < val v <= p2 252.
Proof.
  intros HE HD HL Hk Hu Ht Hn Hy He Hs Hw Fu Hg. pose proof (usable_wf A s Hu) as Hwf.
  destruct (@Predict1_ok A s Hwf u) as (s' & E & _). cbn [m_Predict methods1].
  destruct Hu as (U1 & U2 & U3 & U4 & U5 & U6). rewrite U2 in E.
  destruct (prefix_lt (k_time s) u Fu (proj1 Ht)) as [P1 P2]. pose proof (prefix_facts A (k_time s) u) as P3.
  assert (Hn' : (0 < Z.of_nat (length (k_time s)) < 2 ^ 50)%Z) by (split; [|exact Hn]; clear - U1; lia).
  destruct (forecast_rng k Hk exp64 log64 sin64 cos64 pow64 HE HD HL _ _ _ _ _ _ Ht Hn' Hy He Hs Hw Fu Hg _ P3 P1) as [Hm Hv].
  unfold predpure in E. destruct (forecast A _ _ _ _ _ _ u (lt_prefix A (k_time s) u)) as [m0 v0]. cbn [fst snd] in Hm, Hv.
  destruct (Nat.eqb_spec (lt_prefix A (k_time s) u) (length (k_time s))) as [Eq|Ne].
  - exists m0, v0, s'. split; [exact E|]. split; [apply Hm|]. split; [apply Hv|]. destruct Hv as [_ Bv]. pose proof (bpow_gt_0 radix2 (-243)). lra.
  - assert (Hlt : (lt_prefix A (k_time s) u < length (k_time s))%nat) by (clear - P3 Ne; lia).
    pose proof (combined k Hk exp64 log64 sin64 cos64 pow64 HE _ _ _ _ _ _ Ht Hn' Hy He Hs Hw Fu _ Hlt (P2 Hlt) m0 v0 Hm Hv) as C. cbn zeta in C.
    cbn [fmul fdiv fofZ A64] in E.
    destruct (apure _ _ _ _ _ _ _ _ _ _ _) as [mm pp] eqn:Ea. cbn [fst snd] in C. destruct C as (C1 & C2 & C3).
    exists (mm ⊗ (one ⊘ pp)), (one ⊘ pp), s'. split; [exact E|]. split; [exact C1|]. split; [exact C2|exact C3].
Qed.
End Top.

(** ** Just after a precise measurement *)
Lemma rnd_near1_up r : 1 <= r <= 1 + p2 (-54) -> rnd r = 1.
Proof.
  intros [H1 H2]. pose proof (round_le radix2 fx ZnearestE 1 r H1) as L. rewrite (rnd_repr 1 repr_1) in L.
  apply Rle_antisym; [|exact L].
  apply (round_N_le_midp radix2 fx (fun x => negb (Z.even x)) 1 r); [apply repr_1|].
  assert (succ radix2 fx 1 = 1 + p2 (-52)) as Es.
  { rewrite succ_eq_pos by lra. f_equal. change 1 with (p2 0). rewrite ulp_bpow. reflexivity. }
  rewrite Es. change (p2 (-52)) with (p2 (2 + -54)). rewrite bpow_plus. change (p2 2) with 4. pose proof (bpow_gt_0 radix2 (-54)). lra.
Qed.
Lemma add_rnd1 x y : fin x -> fin y -> rnd (val x + val y) = 1 -> rng 1 1 (x ⊕ y).
Proof.
  intros Fx Fy E. pose proof (Bplus_correct 53 1024 p53 p53_1024 mode_NE x y Fx Fy) as HC.
  cbn [round_mode] in HC. change (SpecFloat.fexp 53 1024) with fx in HC. fold (val x) (val y) in HC. rewrite E in HC.
  rewrite Rlt_bool_true in HC by apply repr_1. destruct HC as (V & F & _). apply rng_eq. split; [exact F|exact V].
Qed.
Lemma sub_rnd1 x y : fin x -> fin y -> rnd (val x - val y) = 1 -> rng 1 1 (x ⊖ y).
Proof.
  intros Fx Fy E. pose proof (Bminus_correct 53 1024 p53 p53_1024 mode_NE x y Fx Fy) as HC.
  cbn [round_mode] in HC. change (SpecFloat.fexp 53 1024) with fx in HC. fold (val x) (val y) in HC. rewrite E in HC.
  rewrite Rlt_bool_true in HC by apply repr_1. destruct HC as (V & F & _). apply rng_eq. split; [exact F|exact V].
Qed.

Definition d30 : b64 := binary_normalize 53 1024 p53 p53_1024 mode_NE 1 (-30) false.
Section Close.
Variables (exp64 log64 sin64 cos64 : b64 -> b64) (pow64 : b64 -> b64 -> b64).
Local Notation A := (A64 exp64 log64 sin64 cos64 pow64).
Definition tC : list b64 := [ofZ64 0; one].
Definition yC : list b64 := [ofZ64 0; one].
Definition eC : list b64 := [d30; d30].
Definition sC : kf1 A := mkKF A tC (diffs A tC) yC eC yC yC (ofZ64 2) 0 (ofZ64 0) (ofZ64 0) one.
Lemma sC_usable : usable sC.
Proof. repeat split; try reflexivity. Qed.

Lemma close_nan : exp_correct exp64 -> exists v s', m_Predict (methods1 A) sC d60 = Ok ((B754_nan, v), s').
Proof.
  intros HE. destruct (@Predict1_ok A sC (usable_wf A sC sC_usable) d60) as (s' & E & _). cbn [m_Predict methods1].
  destruct (pow_val (-60)) as [F60 V60]; [lia|]. fold d60 in F60, V60. destruct (pow_val (-30)) as [F30 V30]; [lia|]. fold d30 in F30, V30.
  pose proof (Zc 0 eq_refl) as R0. pose proof (Zc 1 eq_refl) as R1. pose proof (Zc 2 eq_refl) as R2.
  assert (p2 (-60) < 1) as L60 by (change 1 with (p2 0); apply bpow_lt; lia). pose proof (bpow_gt_0 radix2 (-60)) as P60.
  assert (lt_prefix A tC d60 = 1%nat) as Ep.
  { cbn [lt_prefix tC flt A64]. destruct R0 as [F0 V0]. destruct R1 as [F1 V1]. rewrite !flt_spec by assumption. rewrite V60.
    rewrite Rlt_bool_true by lra. rewrite Rlt_bool_false by lra. reflexivity. }
  cbn [sC k_time k_dt k_y k_yerr k_sig k_ext] in E. unfold predpure in E. rewrite Ep in E.
  cbn [length tC Nat.eqb Nat.sub apure forecast nth] in E. unfold nextm, nextv in E. cbn [vpure mpure nth eC yC] in E.
  cbn [fadd fsub fmul fdiv fneg fofZ fexp A64] in E. fold eC yC in E.
  unfold apure1 in E.
  set (z0 := ofZ64 0) in *. set (o1 := ofZ64 1) in *. set (o2 := ofZ64 2) in *.
  assert (rng (p2 (-60)) (p2 (-60)) d60) as R60 by (apply rng_eq; split; assumption).
  assert (rng (p2 (-30)) (p2 (-30)) d30) as R30 by (apply rng_eq; split; assumption).
  assert (rng 1 1 (o2 ⊘ (o2 ⊗ o1))) as RS.
  { eapply rng_cast; [apply (div_eq 2 (2 * 1)); [exact R2|apply mul_eq; [exact R2|exact R1|]|lra|]|field].
    - replace (2 * 1) with 2 by ring. rz.
    - replace (2 / (2 * 1)) with 1 by field. rz. }
  assert (rng (p2 (-60)) (p2 (-60)) (d30 ⊗ d30)) as Rq.
  { change (-60)%Z with (-30 + -30)%Z. rewrite bpow_plus. apply mul_eq; [exact R30|exact R30|]. rewrite <- bpow_plus. rp. }
  assert (rng (- p2 (-60)) (- p2 (-60)) (Bopp (d60 ⊖ z0) ⊗ o1)) as Ra.
  { eapply rng_cast; [apply (mul_eq (- (p2 (-60) - 0)) 1); [apply opp_rng; apply sub_eq; [exact R60|exact R0|]|exact R1|]|ring].
    - replace (p2 (-60) - 0) with (p2 (-60)) by ring. rp.
    - replace (- (p2 (-60) - 0) * 1) with (- p2 (-60)) by ring. apply repr_opp. rp. }
  set (S0 := o2 ⊘ (o2 ⊗ o1)) in *. set (q := d30 ⊗ d30) in *. set (ar := Bopp (d60 ⊖ z0) ⊗ o1) in *.
  assert (p2 (-60) <= p2 (-54)) as L54 by (apply bpow_le; lia). assert (p2 (-60) <= p2 (-55)) as L55 by (apply bpow_le; lia).
  assert (rng 1 1 (exp64 ar)) as Rr.
  { destruct Ra as [Fa Ba]. destruct HE as [HE _]. specialize (HE ar Fa). unfold rounds in HE.
    assert (rnd (exp (val ar)) = 1) as E1.
    { apply rnd_near1. replace (val ar) with (- p2 (-60)) by lra. split.
      - pose proof (exp_ineq1 (- p2 (-60)) ltac:(lra)). lra.
      - rewrite <- exp_0. left. apply exp_increasing. lra. }
    rewrite E1 in HE. rewrite Rlt_bool_true in HE by apply repr_1. apply rng_eq. exact HE. }
  set (rho := exp64 ar) in *.
  assert (rng 1 1 (rho ⊗ rho)) as Rr2.
  { eapply rng_cast; [apply (mul_eq 1 1); [exact Rr|exact Rr|]|ring]. replace (1 * 1) with 1 by ring. rz. }
  assert (rng 1 1 (S0 ⊕ q)) as Rv.
  { destruct RS as [FS BS]. destruct Rq as [Fq Bq]. apply add_rnd1; try assumption. apply rnd_near1_up. lra. }
  set (vb := S0 ⊕ q) in *.
  assert (rng 1 1 (vb ⊖ q)) as Rp.
  { destruct Rv as [FS BS]. destruct Rq as [Fq Bq]. apply sub_rnd1; try assumption. apply rnd_near1. lra. }
  set (pv := vb ⊖ q) in *.
  assert (rng 1 1 (pv ⊘ vb)) as Rra.
  { eapply rng_cast; [apply (div_eq 1 1); [exact Rp|exact Rv|lra|]|field]. replace (1 / 1) with 1 by field. rz. }
  set (ra := pv ⊘ vb) in *. set (r2 := rho ⊗ rho) in *.
  assert (rng 0 0 (o1 ⊖ ra)) as Rc.
  { eapply rng_cast; [apply (sub_eq 1 1); [exact R1|exact Rra|]|ring]. replace (1 - 1) with 0 by ring. apply repr_0. }
  assert (rng 0 0 (o1 ⊖ r2)) as Rc2.
  { eapply rng_cast; [apply (sub_eq 1 1); [exact R1|exact Rr2|]|ring]. replace (1 - 1) with 0 by ring. apply repr_0. }
  assert (rng 0 0 (S0 ⊗ (o1 ⊖ r2) ⊕ r2 ⊗ pv ⊗ (o1 ⊖ ra))) as Rs.
  { eapply rng_cast; [apply (add_eq (1 * 0) (1 * 1 * 0)); [apply mul_eq; [exact RS|exact Rc2|]|apply mul_eq; [apply mul_eq; [exact Rr2|exact Rp|]|exact Rc|]|]|ring].
    - replace (1 * 0) with 0 by ring. apply repr_0.
    - replace (1 * 1) with 1 by ring. rz.
    - replace (1 * 1 * 0) with 0 by ring. apply repr_0.
    - replace (1 * 0 + 1 * 1 * 0) with 0 by ring. apply repr_0. }
  assert (rng 0 0 (rho ⊗ z0 ⊕ rho ⊗ ra ⊗ (z0 ⊖ z0))) as Rm.
  { eapply rng_cast; [apply (add_eq (1 * 0) (1 * 1 * (0 - 0))); [apply mul_eq; [exact Rr|exact R0|]|apply mul_eq; [apply mul_eq; [exact Rr|exact Rra|]|apply sub_eq; [exact R0|exact R0|]|]|]|ring].
    - replace (1 * 0) with 0 by ring. apply repr_0.
    - replace (1 * 1) with 1 by ring. rz.
    - replace (0 - 0) with 0 by ring. apply repr_0.
    - replace (1 * 1 * (0 - 0)) with 0 by ring. apply repr_0.
    - replace (1 * 0 + 1 * 1 * (0 - 0)) with 0 by ring. apply repr_0. }
  destruct (zero_form _ Rs) as (sg & Es). destruct (zero_form _ Rm) as (sg' & Em).
  rewrite Es, Em in E.
  destruct (pos_sign o1) as (mo & eo & Ho & Eo); [destruct R1; lra|].
  assert (o1 ⊘ B754_zero sg = B754_infinity (xorb false sg)) as Ei by (rewrite Eo; reflexivity). rewrite Ei in E.
  change (@Bmult 53 1024 p53 p53_1024 mode_NE (B754_zero sg') (B754_infinity (xorb false sg))) with (@B754_nan 53 1024) in E.
  eexists _, s'. exact E.
Qed.
End Close.
