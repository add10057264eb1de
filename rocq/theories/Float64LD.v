(** CAR1::LogDensity in double precision: a finite number wherever the prior check accepts the parameters. *)
From Coq Require Import Reals ZArith Bool Lra Lia List.
From Flocq Require Import Core BinarySingleNaN.
From Verif Require Import Arith Res ListLemmas KFModel KF1Proof KF1R KF1X History Cx KFpModel CarpackModel LogLikProof Float64 Float64KF.
Import ListNotations.
Local Open Scope R_scope.
Local Notation p2 e := (bpow radix2 e).
Local Notation "x ⊕ y" := (Bplus mode_NE x y) (at level 50, left associativity).
Local Notation "x ⊖ y" := (Bminus mode_NE x y) (at level 50, left associativity).
Local Notation "x ⊗ y" := (Bmult mode_NE x y) (at level 40, left associativity).
Local Notation "x ⊘ y" := (Bdiv mode_NE x y) (at level 40, left associativity).
Local Notation half := (ofZ64 1 ⊘ ofZ64 2).

(** what is used of libm's log: on positive numbers it is finite and at most 2000 in size *)
Definition log_sane (log64 : b64 -> b64) : Prop := forall x, fin x -> 0 < val x -> rng (-2000) 2000 (log64 x).
(** and of exp on finite numbers: a number >= 0 or +inf, no NaN *)
Definition exp_total (exp64 : b64 -> b64) : Prop := forall x, fin x -> nonneg (exp64 x).

Lemma nth_map_lt (T U : Type) (f : T -> U) l i d d' : (i < length l)%nat -> nth i (map f l) d' = f (nth i l d).
Proof. intros H. rewrite (nth_indep _ d' (f d)) by (rewrite map_length; exact H). apply map_nth. Qed.
Lemma Zc z : (Z.abs z < 2 ^ 53)%Z -> rng (IZR z) (IZR z) (ofZ64 z).
Proof. intros H. destruct (ofZ_val z H) as [F V]. split; [exact F|rewrite V; lra]. Qed.
Lemma repr_h : repr (1 / 2).
Proof. replace (1 / 2) with (p2 (-1)) by (cbn; lra). rp. Qed.
Lemma half_in : rng (1 / 2) (1 / 2) half.
Proof.
  destruct (Zc 1) as [F1 V1]; [reflexivity|]. destruct (Zc 2) as [F2 V2]; [reflexivity|].
  apply div_in; try assumption; try apply repr_h; [lra|].
  replace (val (ofZ64 1)) with 1 by lra. replace (val (ofZ64 2)) with 2 by lra. lra.
Qed.
Ltac rz := match goal with |- repr (IZR ?c) => apply (repr_Z c); reflexivity end.

(** ** One term of the sum, and the sum *)
(** multiples of 2^811 *)
Lemma repr_mult c e : (Z.abs c < 2 ^ 53)%Z -> (-1074 <= e <= 971)%Z -> repr (IZR c * p2 e).
Proof. intros H1 H2. apply repr_F; lia. Qed.

Section LD.
Variables (exp64 log64 sin64 cos64 : b64 -> b64) (pow64 : b64 -> b64 -> b64).
Hypothesis HE : exp_sane exp64.
Hypothesis HT : exp_total exp64.
Hypothesis HL : log_sane log64.
Local Notation A := (A64 exp64 log64 sin64 cos64 pow64).
Local Notation u := (p2 811).

Lemma term_in y m mu v : rng (- p2 100) (p2 100) y -> rng (- (4 * p2 101)) (4 * p2 101) m -> rng (- p2 100) (p2 100) mu ->
  rng (p2 (-402)) (8 * big) v ->
  rng (-1 * u) (1 * u) (Bopp half ⊗ log64 v ⊖ half ⊗ (y ⊖ m ⊖ mu) ⊗ (y ⊖ m ⊖ mu) ⊘ v).
Proof.
  intros [Fy By] [Fm Bm] [Fmu Bmu] [Fv Bv]. destruct half_in as [Fh Bh]. pose proof (opp_rng _ _ _ half_in) as [Fo Bo].
  pose proof (bpow_gt_0 radix2 (-402)) as Pv.
  assert (p2 101 = 2 * p2 100) as E101 by (change (p2 101) with (p2 (1 + 100)); rewrite bpow_plus; reflexivity).
  assert (p2 104 = 16 * p2 100) as E104 by (change (p2 104) with (p2 (4 + 100)); rewrite bpow_plus; reflexivity).
  assert (1 <= p2 100) as P1 by (apply (bpow_le radix2 0 100); lia).
  assert (p2 208 = p2 104 * p2 104) as E208 by (rewrite <- bpow_plus; reflexivity).
  assert (p2 610 * p2 (-402) = p2 208) as E610 by (rewrite <- bpow_plus; reflexivity).
  assert (p2 610 <= p2 810) as P610 by (apply bpow_le; lia).
  assert (p2 11 <= p2 810) as P10 by (apply bpow_le; lia). change (p2 11) with 2048 in P10.
  assert (p2 811 = 2 * p2 810) as E811 by (change (p2 811) with (p2 (1 + 810)); rewrite bpow_plus; reflexivity).
  assert (rng (- p2 104) (p2 104) (y ⊖ m)) as [F1 B1] by (apply sub_in; try assumption; [apply repr_opp; rp|rp|lra]).
  clear B1. assert (rng (- (9 * p2 100)) (9 * p2 100) (y ⊖ m)) as [_ B1].
  { apply sub_in; try assumption; [apply repr_opp; apply (repr_mult 9); lia|apply (repr_mult 9); lia|lra]. }
  assert (rng (- p2 104) (p2 104) (y ⊖ m ⊖ mu)) as [F2 B2] by (apply sub_in; try assumption; [apply repr_opp; rp|rp|lra]).
  set (yc := y ⊖ m ⊖ mu) in *. clearbody yc.
  assert (rng (- p2 104) (p2 104) (half ⊗ yc)) as [F3 B3] by (apply mul_in; try assumption; [apply repr_opp; rp|rp|nra]).
  assert (rng (- p2 208) (p2 208) (half ⊗ yc ⊗ yc)) as [F4 B4].
  { apply mul_in; try assumption; [apply repr_opp; rp|rp|]. rewrite E208. split; nra. }
  assert (rng (- p2 610) (p2 610) (half ⊗ yc ⊗ yc ⊘ v)) as [F5 B5].
  { apply div_in; try assumption; [lra|apply repr_opp; rp|rp|]. pose proof (bpow_gt_0 radix2 610) as P.
    split; (apply Rmult_le_reg_r with (val v); [lra|]); unfold Rdiv; rewrite Rmult_assoc, Rinv_l, Rmult_1_r by lra; nra. }
  destruct (HL v Fv) as [F6 B6]; [lra|].
  assert (rng (-2000) 2000 (Bopp half ⊗ log64 v)) as [F7 B7] by (apply mul_in; try assumption; [rz|rz|nra]).
  apply sub_in; try assumption; [apply (repr_mult (-1)); lia|apply (repr_mult 1); lia|]. lra.
Qed.

Definition terms_ok (y m v : list b64) (mu : b64) n : Prop := forall i, (i < n)%nat ->
  rng (- p2 100) (p2 100) (nth i y (ofZ64 0)) /\ rng (- (4 * p2 101)) (4 * p2 101) (nth i m (ofZ64 0)) /\
  rng (p2 (-402)) (8 * big) (nth i v (ofZ64 0)).

Lemma lik_in y m v mu n : terms_ok y m v mu n -> rng (- p2 100) (p2 100) mu ->
  (n <= length y)%nat -> (n <= length m)%nat -> (n <= length v)%nat -> (Z.of_nat n < 2 ^ 50)%Z ->
  exists ll, @lik A n y m v mu = Ok ll /\ rng (- (IZR (Z.of_nat n) * u)) (IZR (Z.of_nat n) * u) ll.
Proof.
  intros Ht Hmu Hy Hm Hv Hn. unfold lik.
  set (body := fun i acc => _).
  assert (forall k a acc, (a + k <= n)%nat -> rng (- (IZR (Z.of_nat a) * u)) (IZR (Z.of_nat a) * u) acc ->
    exists ll, for_ a k body acc = Ok ll /\ rng (- (IZR (Z.of_nat (a + k)) * u)) (IZR (Z.of_nat (a + k)) * u) ll) as K.
  { induction k as [|k IH]; intros a acc Ha Hacc.
    - exists acc. split; [reflexivity|]. rewrite Nat.add_0_r. exact Hacc.
    - cbn [for_]. unfold body at 1.
      rewrite (@vget_ok (F A) y a (ofZ64 0)) by (cbn [F A64]; lia). rewrite (@vget_ok (F A) m a (ofZ64 0)) by (cbn [F A64]; lia). rewrite (@vget_ok (F A) v a (ofZ64 0)) by (cbn [F A64]; lia).
      cbn [bind F fadd fsub fmul fdiv fneg flog fdec A64]. destruct (Ht a) as (T1 & T2 & T3); [lia|].
      pose proof (term_in _ _ _ _ T1 T2 Hmu T3) as [Ft Bt]. destruct Hacc as [Fa Ba].
      replace (a + S k)%nat with (S a + k)%nat by lia. apply IH; [lia|].
      assert (IZR (Z.of_nat (S a)) = IZR (Z.of_nat a) + 1) as E by (rewrite Nat2Z.inj_succ, succ_IZR; reflexivity).
      apply add_in; try assumption; [apply repr_opp; apply repr_mult; lia|apply repr_mult; lia|rewrite E; lra]. }
  destruct (K n 0%nat (ofZ64 0)) as (ll & E & B); [lia| |].
  - destruct (Zc 0) as [F0 V0]; [reflexivity|]. split; [exact F0|]. cbn [Z.of_nat]. lra.
  - exists ll. split; [exact E|exact B].
Qed.

Lemma prior_in scale : rng (1 / 2) 2 scale ->
  rng (-262144) 262144 (Bopp half ⊗ ofZ64 50 ⊘ scale ⊖ (ofZ64 1 ⊕ ofZ64 50 ⊘ ofZ64 2) ⊗ log64 scale).
Proof.
  intros [Fs Bs]. pose proof (opp_rng _ _ _ half_in) as [Fo Bo]. destruct (Zc 50) as [F50 V50]; [reflexivity|].
  destruct (Zc 1) as [F1 V1]; [reflexivity|]. destruct (Zc 2) as [F2 V2]; [reflexivity|].
  assert (rng (-64) 64 (Bopp half ⊗ ofZ64 50)) as [Fa Ba] by (apply mul_in; try assumption; [rz|rz|nra]).
  assert (rng (-128) 128 (Bopp half ⊗ ofZ64 50 ⊘ scale)) as [Fb Bb].
  { apply div_in; try assumption; [lra|rz|rz|]. split; (apply Rmult_le_reg_r with (val scale); [lra|]); unfold Rdiv; rewrite Rmult_assoc, Rinv_l, Rmult_1_r by lra; nra. }
  assert (rng 0 32 (ofZ64 50 ⊘ ofZ64 2)) as [Fc Bc].
  { apply div_in; try assumption; [lra|apply repr_0|rz|]. replace (val (ofZ64 50)) with 50 by lra. replace (val (ofZ64 2)) with 2 by lra. lra. }
  assert (rng 0 64 (ofZ64 1 ⊕ ofZ64 50 ⊘ ofZ64 2)) as [Fd Bd] by (apply add_in; try assumption; [apply repr_0|rz|lra]).
  destruct (HL scale Fs) as [Fe Be]; [lra|].
  assert (rng (-128000) 128000 ((ofZ64 1 ⊕ ofZ64 50 ⊘ ofZ64 2) ⊗ log64 scale)) as [Ff Bf] by (apply mul_in; try assumption; [rz|rz|nra]).
  apply sub_in; try assumption; [rz|rz|lra].
Qed.

(** ** LogDensity *)
(** data and parameters of any ordinary size *)
Record in_range (t y e : list b64) : Prop := {
  r_n : (2 <= length t)%nat; r_n2 : (Z.of_nat (length t) < 2 ^ 50)%Z;
  r_ly : length y = length t; r_le : length e = length t;
  r_t : forall i, (i < length t)%nat -> rng (- p2 100) (p2 100) (nth i t (ofZ64 0));
  r_gap : forall i, (S i < length t)%nat -> val (nth i t (ofZ64 0)) + p2 (-100) <= val (nth (S i) t (ofZ64 0));
  r_y : forall i, (i < length t)%nat -> rng (- p2 100) (p2 100) (nth i y (ofZ64 0));
  r_e : forall i, (i < length t)%nat -> rng (p2 (-100)) (p2 100) (nth i e (ofZ64 0)) }.
Definition bounds64 (b : bounds A) : Prop :=
  rng (p2 (-102)) (p2 101) (min_freq b) /\ rng (p2 (-102)) (p2 101) (max_freq b) /\ rng 0 (p2 120) (max_stdev b).
Definition theta64 (th : list b64) : Prop :=
  (4 <= length th)%nat /\ (forall i, (i < 4)%nat -> fin (nth i th (ofZ64 0))) /\ rng (- p2 100) (p2 100) (nth 2 th (ofZ64 0)).

Lemma flt_false x y : fin x -> fin y -> Bltb x y = false -> val y <= val x.
Proof. intros Fx Fy H. rewrite (Bltb_correct 53 1024 x y Fx Fy) in H. fold (val x) in H. fold (val y) in H. destruct (Rlt_bool_spec (val x) (val y)); [discriminate|assumption]. Qed.
Lemma check_in b th : bounds64 b -> theta64 th -> CheckPriorBounds1 (A := A) b th = Ok true ->
  rng (p2 (-102)) (p2 101) (exp64 (nth 3 th (ofZ64 0))) /\ rng 0 (p2 120) (nth 0 th (ofZ64 0)) /\ rng (1 / 2) 2 (nth 1 th (ofZ64 0)).
Proof.
  intros (Hmin & Hmax & Hsd) (Hl & Hf & _) HC. unfold CheckPriorBounds1 in HC.
  rewrite !(@vget_ok (F A) th _ (ofZ64 0)) in HC by (cbn [F A64]; lia). cbn [bind F fexp A64] in HC.
  set (om := exp64 (nth 3 th (ofZ64 0))) in *. set (t0 := nth 0 th (ofZ64 0)) in *. set (t1 := nth 1 th (ofZ64 0)) in *.
  assert (fin t0) as F0 by (apply Hf; lia). assert (fin t1) as F1 by (apply Hf; lia).
  assert (nonneg om) as Hom by (apply HT, Hf; lia). clearbody om t0 t1.
  injection HC as HC. apply negb_true_iff in HC. rewrite !orb_false_iff in HC. unfold scalar_bad in HC. rewrite !orb_false_iff in HC.
  cbn [flt fofZ fdec A64] in HC. destruct HC as [[C1 C2] [[[C3 C4] C5] C6]].
  destruct Hmin as [Fmin Bmin]. destruct Hmax as [Fmax Bmax]. destruct Hsd as [Fsd Bsd]. destruct half_in as [Fh Bh].
  destruct (Zc 0) as [Fz Vz]; [reflexivity|]. destruct (Zc 2) as [F2 V2]; [reflexivity|].
  destruct Hom as [[Fom Bom]| ->].
  - pose proof (flt_false _ _ Fmax Fom C1). pose proof (flt_false _ _ Fom Fmin C2). pose proof (flt_false _ _ Fsd F0 C3).
    pose proof (flt_false _ _ F0 Fz C4). pose proof (flt_false _ _ F1 Fh C5). pose proof (flt_false _ _ F2 F1 C6).
    repeat split; try assumption; try lra.
  - exfalso. destruct (max_freq b) as [s|s| |s m e H]; try discriminate Fmax; discriminate C1.
Qed.

Lemma sqrt_scale s : rng (1 / 2) 2 s -> rng (1 / 2) 2 (Bsqrt mode_NE s).
Proof.
  intros [Fs Bs]. apply sqrt_in; try assumption; [apply repr_h|rz|lra|]. split.
  - apply Rsqr_incr_0_var; [|apply sqrt_pos]. rewrite Rsqr_sqrt by lra. unfold Rsqr. lra.
  - apply Rsqr_incr_0_var; [|lra]. rewrite Rsqr_sqrt by lra. unfold Rsqr. lra.
Qed.

Lemma LD64 (b : base A b64) th : wfb b -> in_range (b_time b) (b_y b) (b_yerr b) -> k_time (b_kf b) = b_time b -> bounds64 (b_bounds b) ->
  theta64 th -> CheckPriorBounds1 (A := A) (b_bounds b) th = Ok true ->
  exists v b', LogDensity (car1_cls A) b th = Ok (v, b') /\ fin v.
Proof.
  intros Hw HR Hk Hb Hth HC. destruct (@LD_pure1 A b th Hw) as [E _].
  cut (exists v, pLD (car1_cls A) (fun om (_ : list b64) => om) (@pf1 A) (static_of b) th = Ok v /\ fin v).
  { intros (v & Ev & Fv). pose proof (eq_trans E Ev) as E'. clear E. destruct (LogDensity (car1_cls A) b th) as [[v' b']|x| |]; try discriminate E'.
    injection E' as <-. exists v', b'. split; [reflexivity|exact Fv]. }
  clear E. destruct (check_in _ _ Hb Hth HC) as (Hom & Ht0 & Ht1). destruct Hth as (Hl & Hf & Hmu).
  unfold pLD. cbn [car1_cls v_Check v_AR v_MA v_Sig v_Prior static_of st_bounds st_time st_y st_yerr st_ktime]. rewrite HC. cbn [bind negb].
  unfold LogPrior. rewrite !(@vget_ok (F A) th _ (ofZ64 0)) by (cbn [F A64]; lia). cbn [bind]. unfold pf1.
  cbn [s_time s_dt s_y s_yerr s_sig s_par]. rewrite Hk. cbn [F fadd fsub fmul fdiv fneg fexp flog fofZ fdec A64].
  set (om := exp64 (nth 3 th (ofZ64 0))) in *. set (t0 := nth 0 th (ofZ64 0)) in *. set (t1 := nth 1 th (ofZ64 0)) in *.
  set (mu := nth 2 th (ofZ64 0)) in *. clearbody om t0 t1 mu. clear Hl Hf HC.
  set (n := length (b_time b)).
  set (sig := ofZ64 2 ⊗ t0 ⊗ t0 ⊗ om). set (yc := cent A (b_y b) mu). set (es := scaled A (b_yerr b) t1).
  destruct HR as [Rn Rn2 Rly Rle Rt Rg Ry Re].
  assert (rng 0 (p2 500) sig) as Hsig.
  { destruct (Zc 2) as [F2 V2]; [reflexivity|]. destruct Ht0 as [F0 B0]. destruct Hom as [Fo Bo]. pose proof (bpow_gt_0 radix2 (-102)) as P.
    assert (rng 0 (p2 121) (ofZ64 2 ⊗ t0)) as [Fa Ba].
    { apply mul_in; try assumption; [apply repr_0|rp|]. change (p2 121) with (p2 (1 + 120)). rewrite bpow_plus. change (p2 1) with 2. nra. }
    assert (rng 0 (p2 241) (ofZ64 2 ⊗ t0 ⊗ t0)) as [Fb Bb].
    { apply mul_in; try assumption; [apply repr_0|rp|]. change (p2 241) with (p2 (121 + 120)). rewrite bpow_plus.
      split; [apply Rmult_le_pos; lra|apply Rmult_le_compat; lra]. }
    apply mul_in; try assumption; [apply repr_0|rp|]. split; [apply Rmult_le_pos; lra|].
    apply Rle_trans with (p2 241 * p2 101); [apply Rmult_le_compat; lra|]. rewrite <- bpow_plus. apply bpow_le. lia. }
  assert (rng (p2 (-499)) (p2 500) om) as Hw'.
  { eapply rng_weaken; [exact Hom|apply bpow_le; lia|apply bpow_le; lia]. }
  assert (times64 (b_time b)) as Htm.
  { split; [intros i Hi; apply Rt, Hi|]. intros i Hi. pose proof (Rg i Hi). pose proof (bpow_gt_0 radix2 (-100)). lra. }
  assert (forall i, (i < n)%nat -> rng (- p2 101) (p2 101) (nth i yc (ofZ64 0))) as Hyc.
  { intros i Hi. unfold yc, cent.
    rewrite (nth_map_lt _ _ _ _ i (ofZ64 0)) by (unfold n in Hi; cbn [F A64] in *; lia). cbn [fsub F A64].
    destruct (Ry i Hi) as [Fy By]. destruct Hmu as [Fm Bm]. apply sub_in; try assumption; [apply repr_opp; rp|rp|].
    change (p2 101) with (p2 (1 + 100)). rewrite bpow_plus. change (p2 1) with 2. lra. }
  assert (forall i, (i < n)%nat -> rng (p2 (-101)) (p2 101) (nth i es (ofZ64 0))) as Hes.
  { intros i Hi. unfold es, scaled.
    rewrite (nth_map_lt _ _ _ _ i (ofZ64 0)) by (unfold n in Hi; cbn [F A64] in *; lia). cbn [fmul fsqrt F A64].
    destruct (Re i Hi) as [Fe Be]. destruct (sqrt_scale t1 Ht1) as [Fs Bs]. pose proof (bpow_gt_0 radix2 (-100)) as P.
    apply mul_in; try assumption; try rp. change (p2 101) with (p2 (1 + 100)). change (p2 (-101)) with (p2 (-1 + -100)).
    rewrite !bpow_plus. change (p2 1) with 2. change (p2 (-1)) with (/ 2). split; apply Rmult_le_compat; lra. }
  assert (forall i, (i < n)%nat -> rng (p2 (-500)) (p2 500) (nth i es (ofZ64 0))) as Hes'.
  { intros i Hi. eapply rng_weaken; [apply Hes, Hi|apply bpow_le; lia|apply bpow_le; lia]. }
  pose proof (vpure_in exp64 log64 sin64 cos64 pow64 HE (b_time b) es sig om Htm Hes' Hsig Hw') as HV.
  pose proof (mpure_in 101 ltac:(lia) exp64 log64 sin64 cos64 pow64 HE (b_time b) yc es sig om Htm Hyc Hes' Hsig Hw') as HM.
  match goal with |- context [@lik _ ?n0 ?y0 ?m0 ?v0 ?mu0] => destruct (lik_in y0 m0 v0 mu0 n0) as (ll & El & Bl) end.
  - intros i Hi. split; [apply Ry, Hi|]. split.
    + rewrite (nth_map_lt _ _ _ _ i 0%nat) by (rewrite seq_length; exact Hi). rewrite seq_nth by exact Hi. apply HM, Hi.
    + rewrite (nth_map_lt _ _ _ _ i 0%nat) by (rewrite seq_length; exact Hi). rewrite seq_nth by exact Hi. specialize (HV i Hi). cbn [Nat.add]. eapply rng_weaken; [exact HV| |lra].
      destruct (q_in (-101) 101 (nth i es (ofZ64 0))) as [_ Bq]; try lia; [apply Hes, Hi|].
      apply Rle_trans with (p2 (-101 + -101)); [apply bpow_le; lia|apply Bq].
  - exact Hmu.
  - rewrite Rly. reflexivity.
  - rewrite map_length, seq_length. reflexivity.
  - rewrite map_length, seq_length. reflexivity.
  - exact Rn2.
  - rewrite El. cbn [bind]. eexists. split; [reflexivity|].
    destruct (prior_in t1 Ht1) as [Fp Bp]. destruct Bl as [Fl Bl].
    assert (rng (- p2 900) (p2 900) (ll ⊕ (Bopp half ⊗ ofZ64 50 ⊘ t1 ⊖ (ofZ64 1 ⊕ ofZ64 50 ⊘ ofZ64 2) ⊗ log64 t1))) as [F _]; [|exact F].
    apply add_in; try assumption; [apply repr_opp; rp|rp|].
    assert (IZR (Z.of_nat n) * p2 811 <= p2 861) as Q.
    { change (p2 861) with (p2 (50 + 811)). rewrite bpow_plus. apply Rmult_le_compat_r; [apply bpow_ge_0|].
      change (p2 50) with (IZR (2 ^ 50)). apply IZR_le. apply Z.lt_le_incl. exact Rn2. }
    assert (p2 900 = p2 39 * p2 861) as Q2 by (rewrite <- bpow_plus; reflexivity).
    assert (p2 18 <= p2 861) as Q3 by (apply bpow_le; lia).
    change (p2 39) with 549755813888 in Q2. change (p2 18) with 262144 in Q3.
    pose proof (Bl : - (IZR (Z.of_nat n) * p2 811) <= val ll <= IZR (Z.of_nat n) * p2 811) as Bl'. clear Bl. generalize dependent (IZR (Z.of_nat n) * p2 811). intros. lra.
Qed.
End LD.
