(** Double precision: construction, a libm that meets the assumptions, and what goes wrong without error bars. *)
From Coq Require Import Reals ZArith Bool Lra Lia List ClassicalEpsilon.
From Flocq Require Import Core BinarySingleNaN.
From Verif Require Import Arith Res ListLemmas KFModel KF1Proof KF1R KF1X History Cx KFpModel CarpackModel LogLikProof Float64 Float64KF Float64LD.
Import ListNotations.
Local Open Scope R_scope.
Local Notation p2 e := (bpow radix2 e).
Local Notation "x ⊕ y" := (Bplus mode_NE x y) (at level 50, left associativity).
Local Notation "x ⊖ y" := (Bminus mode_NE x y) (at level 50, left associativity).
Local Notation "x ⊗ y" := (Bmult mode_NE x y) (at level 40, left associativity).
Local Notation "x ⊘ y" := (Bdiv mode_NE x y) (at level 40, left associativity).

(** ** Minimum and maximum *)
Definition minf (m x : b64) : b64 := if Bltb x m then x else m.
Definition maxf (m x : b64) : b64 := if Bltb m x then x else m.
Lemma flt_spec x y : fin x -> fin y -> Bltb x y = Rlt_bool (val x) (val y).
Proof. intros Fx Fy. apply (Bltb_correct 53 1024 x y Fx Fy). Qed.
Lemma fold_min l : forall acc, fin acc -> (forall x, In x l -> fin x) ->
  let r := fold_left minf l acc in (r = acc \/ In r l) /\ val r <= val acc /\ forall x, In x l -> val r <= val x.
Proof.
  induction l as [|a l IH]; intros acc Fa Fl; cbn [fold_left].
  - split; [left; reflexivity|]. split; [lra|]. intros x [].
  - assert (fin a) as Fa' by (apply Fl; left; reflexivity).
    assert (fin (minf acc a) /\ val (minf acc a) <= val acc /\ val (minf acc a) <= val a /\ (minf acc a = acc \/ minf acc a = a)) as (F1 & L1 & L2 & C).
    { unfold minf. rewrite flt_spec by assumption. destruct (Rlt_bool_spec (val a) (val acc)); repeat split; try assumption; try lra; [right|left]; reflexivity. }
    destruct (IH (minf acc a) F1) as (E & L3 & L4); [intros x Hx; apply Fl; right; exact Hx|]. split; [|split].
    + destruct E as [E|E]; [|right; right; exact E]. rewrite E. destruct C as [-> | ->]; [left; reflexivity|right; left; reflexivity].
    + lra.
    + intros x [<-|Hx]; [lra|apply L4, Hx].
Qed.
Lemma fold_max l : forall acc, fin acc -> (forall x, In x l -> fin x) ->
  let r := fold_left maxf l acc in (r = acc \/ In r l) /\ val acc <= val r /\ forall x, In x l -> val x <= val r.
Proof.
  induction l as [|a l IH]; intros acc Fa Fl; cbn [fold_left].
  - split; [left; reflexivity|]. split; [lra|]. intros x [].
  - assert (fin a) as Fa' by (apply Fl; left; reflexivity).
    assert (fin (maxf acc a) /\ val acc <= val (maxf acc a) /\ val a <= val (maxf acc a) /\ (maxf acc a = acc \/ maxf acc a = a)) as (F1 & L1 & L2 & C).
    { unfold maxf. rewrite flt_spec by assumption. destruct (Rlt_bool_spec (val acc) (val a)); repeat split; try assumption; try lra; [right|left]; reflexivity. }
    destruct (IH (maxf acc a) F1) as (E & L3 & L4); [intros x Hx; apply Fl; right; exact Hx|]. split; [|split].
    + destruct E as [E|E]; [|right; right; exact E]. rewrite E. destruct C as [-> | ->]; [left; reflexivity|right; left; reflexivity].
    + lra.
    + intros x [<-|Hx]; [lra|apply L4, Hx].
Qed.

Section Build.
Variables (exp64 log64 sin64 cos64 : b64 -> b64) (pow64 : b64 -> b64 -> b64).
Local Notation A := (A64 exp64 log64 sin64 cos64 pow64).

Lemma vmin64 l : l <> [] -> (forall x, In x l -> fin x) ->
  exists m, vmin A l = Ok m /\ In m l /\ forall x, In x l -> val m <= val x.
Proof.
  intros Hn Fl. destruct l as [|a l]; [congruence|]. unfold vmin. exists (fold_left minf l a). split.
  - cbn [fold_left]. assert (fin a) as Fa by (apply Fl; left; reflexivity).
    change (flt A a (finf A)) with (Bltb a (B754_infinity false)).
    replace (Bltb a (B754_infinity false)) with true by (destruct a as [s|s| |s m e H]; try discriminate Fa; reflexivity). reflexivity.
  - destruct (fold_min l a) as (E & L1 & L2); [apply Fl; left; reflexivity|intros x Hx; apply Fl; right; exact Hx|].
    split; [destruct E as [-> |E]; [left; reflexivity|right; exact E]|]. intros x [<-|Hx]; [exact L1|apply L2, Hx].
Qed.
Lemma vmax64 l : l <> [] -> (forall x, In x l -> fin x) ->
  exists m, @vmax A l = Ok m /\ In m l /\ forall x, In x l -> val x <= val m.
Proof.
  intros Hn Fl. destruct l as [|a l]; [congruence|]. unfold vmax. exists (fold_left maxf l a). split.
  - cbn [fold_left]. assert (fin a) as Fa by (apply Fl; left; reflexivity).
    change (flt A (fneg A (finf A)) a) with (Bltb (B754_infinity true) a).
    replace (Bltb (B754_infinity true) a) with true by (destruct a as [s|s| |s m e H]; try discriminate Fa; reflexivity). reflexivity.
  - destruct (fold_max l a) as (E & L1 & L2); [apply Fl; left; reflexivity|intros x Hx; apply Fl; right; exact Hx|].
    split; [destruct E as [-> |E]; [left; reflexivity|right; exact E]|]. intros x [<-|Hx]; [exact L1|apply L2, Hx].
Qed.

(** ** Sums *)
Lemma divmul a b : b <> 0 -> a / b * b = a.
Proof. intros H. field. exact H. Qed.
Lemma vsum_in lo k l : (lo = 0 \/ lo = -1)%Z -> (-1074 <= k <= 900)%Z -> (forall x, In x l -> rng (IZR lo * p2 k) (p2 k) x) ->
  (Z.of_nat (length l) < 2 ^ 50)%Z ->
  rng (IZR (lo * Z.of_nat (length l)) * p2 k) (IZR (Z.of_nat (length l)) * p2 k) (@vsum A l).
Proof.
  intros Hlo Hk Hl Hn. unfold vsum.
  assert (forall l' c acc, (Z.of_nat (c + length l') < 2 ^ 50)%Z -> (forall x, In x l' -> rng (IZR lo * p2 k) (p2 k) x) ->
    rng (IZR (lo * Z.of_nat c) * p2 k) (IZR (Z.of_nat c) * p2 k) acc ->
    rng (IZR (lo * Z.of_nat (c + length l')) * p2 k) (IZR (Z.of_nat (c + length l')) * p2 k) (fold_left (fadd A) l' acc)) as K.
  { induction l' as [|x l' IH]; intros c acc Hc Hx [Fa Ba]; cbn [fold_left length].
    - rewrite Nat.add_0_r. split; assumption.
    - cbn [length] in Hc. replace (c + S (length l'))%nat with (S c + length l')%nat by lia. apply IH; [lia|intros z Hz; apply Hx; right; exact Hz|].
      destruct (Hx x (or_introl eq_refl)) as [Fx Bx]. cbn [fadd A64].
      apply add_in; try assumption; try (apply repr_mult; [nia|lia]).
      rewrite Nat2Z.inj_succ. unfold Z.succ. rewrite Z.mul_add_distr_l, Z.mul_1_r, !plus_IZR. rewrite !Rmult_plus_distr_r. rewrite Rmult_1_l. destruct Ba as [Ba1 Ba2], Bx as [Bx1 Bx2]. split; apply Rplus_le_compat; assumption. }
  apply (K l 0%nat); [exact Hn|exact Hl|]. destruct (Zc 0) as [F0 V0]; [reflexivity|]. split; [exact F0|]. cbn [Z.of_nat fofZ A64]. rewrite Z.mul_0_r. lra.
Qed.
Lemma div_n lo k x (n : nat) : (lo = 0 \/ lo = -1)%Z -> (-1074 <= k <= 900)%Z -> (0 < n)%nat -> (Z.of_nat n < 2 ^ 50)%Z ->
  rng (IZR (lo * Z.of_nat n) * p2 k) (IZR (Z.of_nat n) * p2 k) x -> rng (IZR lo * p2 k) (1 * p2 k) (x ⊘ ofZ64 (Z.of_nat n)).
Proof.
  intros Hlo Hk Hn Hn2 [Fx Bx]. destruct (ofZ_val (Z.of_nat n)) as [Fn Vn]; [lia|].
  assert (0 < IZR (Z.of_nat n)) as Pn by (apply (IZR_lt 0); lia).
  apply div_in; try assumption; [rewrite Vn; lra|apply repr_mult; lia|apply repr_mult; lia|]. rewrite Vn. rewrite mult_IZR in Bx.
  split; (apply Rmult_le_reg_r with (IZR (Z.of_nat n)); [lra|]); rewrite divmul by lra; lra.
Qed.

Lemma vvar64 l : (2 <= length l)%nat -> (Z.of_nat (length l) < 2 ^ 50)%Z -> (forall x, In x l -> rng (- p2 100) (p2 100) x) ->
  exists v, @vvar A l = Ok v /\ rng 0 (p2 203) v.
Proof.
  intros Hl Hn Hx. destruct l as [|a [|b l]]; cbn [length] in Hl; try lia. set (L := a :: b :: l) in *.
  unfold vvar. eexists. split; [reflexivity|]. fold L.
  assert (rng (-1 * p2 100) (1 * p2 100) (@vmean A L)) as [Fm Bm].
  { apply (div_n (-1) 100); [lia|lia|unfold L; cbn [length]; lia|exact Hn|]. apply vsum_in; [lia|lia| |exact Hn]. intros x Hi. eapply rng_weaken; [apply Hx, Hi|lra|lra]. }
  assert (p2 101 = 2 * p2 100) as E101 by (change (p2 101) with (p2 (1 + 100)); rewrite bpow_plus; reflexivity).
  set (sq := map (fun x => (@vmean A L ⊖ x) ⊗ (@vmean A L ⊖ x)) L).
  change (rng 0 (p2 203) (@vsum A sq ⊘ ofZ64 (Z.of_nat (length L - 1)))).
  assert (rng (IZR (0 * Z.of_nat (length sq)) * p2 202) (IZR (Z.of_nat (length sq)) * p2 202) (@vsum A sq)) as [Fs Bs].
  { apply vsum_in; [lia|lia| |].
    - intros x Hi. unfold sq in Hi. apply in_map_iff in Hi. destruct Hi as (z & <- & Hz). destruct (Hx z Hz) as [Fz Bz].
      assert (rng (- p2 101) (p2 101) (@vmean A L ⊖ z)) as [Fd Bd] by (apply sub_in; try assumption; [apply repr_opp; rp|rp|lra]).
      apply mul_in; try assumption; [rewrite Rmult_0_l; apply repr_0|rp|]. change (p2 202) with (p2 (101 + 101)). rewrite bpow_plus. split; nra.
    - unfold sq. rewrite map_length. exact Hn. }
  assert (length sq = length L) as El by apply map_length. rewrite El in Bs.
  destruct (ofZ_val (Z.of_nat (length L - 1))) as [Fn Vn]; [unfold L in *; cbn [length] in *; lia|].
  assert (IZR (Z.of_nat (length L)) <= 2 * IZR (Z.of_nat (length L - 1))) as H2.
  { rewrite <- (mult_IZR 2). apply IZR_le. unfold L; cbn [length]. lia. }
  assert (0 < IZR (Z.of_nat (length L - 1))) as Pn by (apply (IZR_lt 0); unfold L; cbn [length]; lia).
  pose proof (bpow_gt_0 radix2 202) as P. rewrite Z.mul_0_l, Rmult_0_l in Bs.
  apply div_in; try assumption; [rewrite Vn; lra|apply repr_0|rp|]. rewrite Vn. change (p2 203) with (p2 (1 + 202)). rewrite bpow_plus. change (p2 1) with 2.
  split; (apply Rmult_le_reg_r with (IZR (Z.of_nat (length L - 1))); [lra|]); rewrite divmul by lra; [lra|].
  apply Rle_trans with (IZR (Z.of_nat (length L)) * p2 202); [lra|]. nra.
Qed.

(** ** The CAR1 constructor *)
Lemma div_p2 a b lo hi x : (-1074 <= - hi)%Z -> (- lo <= 1023)%Z -> a = ofZ64 1 -> b = x -> (-1000 <= lo <= hi)%Z -> (hi <= 1000)%Z ->
  rng (p2 lo) (p2 hi) x -> rng (p2 (- hi)) (p2 (- lo)) (a ⊘ b).
Proof.
  intros H1 H2 -> -> H3 H4 [Fx Bx]. destruct (Zc 1) as [F1 V1]; [reflexivity|]. pose proof (bpow_gt_0 radix2 lo) as P. pose proof (bpow_gt_0 radix2 hi) as P2.
  apply div_in; try assumption; [lra|rp|rp|]. replace (val (ofZ64 1)) with 1 by lra. rewrite !bpow_opp. unfold Rdiv. rewrite Rmult_1_l.
  split; apply Rinv_le; lra.
Qed.

Section Data.
Variables (t y e : list b64).
Hypothesis HR : in_range t y e.

Lemma t_fin x : In x t -> rng (- p2 100) (p2 100) x.
Proof. intros H. apply In_nth with (d := ofZ64 0) in H. destruct H as (i & Hi & <-). apply (r_t _ _ _ HR i Hi). Qed.
Lemma t_ne : t <> [].
Proof. pose proof (r_n _ _ _ HR) as H. destruct t; [cbn in H; lia|congruence]. Qed.
Lemma dt_in x : In x (diffs A t) -> rng (p2 (-100)) (p2 101) x.
Proof.
  intros H. apply In_nth with (d := ofZ64 0) in H. destruct H as (i & Hi & <-). rewrite (diffs_length A) in Hi. cbn [F A64] in Hi.
  rewrite (diffs_nth A t i _ (ofZ64 0)) by (cbn [F A64]; lia). cbn [fsub A64 F].
  destruct (r_t _ _ _ HR i) as [F1 B1]; [lia|]. destruct (r_t _ _ _ HR (S i)) as [F2 B2]; [lia|].
  pose proof (r_gap _ _ _ HR i ltac:(lia)) as G.
  apply sub_in; try assumption; try rp. change (p2 101) with (p2 (1 + 100)). rewrite bpow_plus. change (p2 1) with 2. lra.
Qed.
Lemma dt_ne : diffs A t <> [].
Proof. pose proof (r_n _ _ _ HR) as H. destruct t as [|a [|b l]]; cbn [length] in H; try lia. discriminate. Qed.
Lemma min_dt : exists m, vmin A (diffs A t) = Ok m /\ rng (p2 (-100)) (p2 101) m.
Proof.
  destruct (vmin64 (diffs A t)) as (m & E & Hi & _); [apply dt_ne|intros x Hx; apply dt_in, Hx|]. exists m. split; [exact E|apply dt_in, Hi].
Qed.

Lemma kf_new64 X si (raw : kf A X) : exists s, kf_new (A := A) si raw t y e = Ok s /\ usable s /\
  k_time s = t /\ k_y s = y /\ k_yerr s = e /\ k_sig s = k_sig raw /\ k_ext s = k_ext raw.
Proof.
  pose proof (r_n _ _ _ HR) as Hn. destruct min_dt as (m & Em & Fm & Bm). pose proof (bpow_gt_0 radix2 (-100)) as P.
  destruct (Zc 0) as [Fz Vz]; [reflexivity|].
  unfold kf_new, kf_init. cbn [SetTime SetTimeSeries SetTimeSeriesErr k_time k_dt k_y k_yerr].
  rewrite (@make_dt_ok A t) by exact Hn. cbn [bind]. rewrite Em. cbn [bind].
  assert (flt A m (fofZ A 0) = false) as El.
  { cbn [flt fofZ A64]. rewrite flt_spec by assumption. apply Rlt_bool_false. lra. }
  rewrite El. cbn [bind set_dt k_dt]. rewrite Em. cbn [bind].
  assert (feq A m (fofZ A 0) = false) as Ee.
  { cbn [feq fofZ A64]. rewrite (Beqb_correct 53 1024 m (ofZ64 0) Fm Fz). apply Req_bool_false. fold (val m) (val (ofZ64 0)). lra. }
  rewrite Ee. cbn [bind set_dt set_mean set_var k_time k_dt k_y k_yerr k_sig k_ext k_mean k_var].
  eexists. split; [reflexivity|]. unfold usable. cbn [k_time k_dt k_y k_yerr k_mean k_var k_sig k_ext].
  repeat split; try reflexivity; try exact Hn; try (apply (r_ly _ _ _ HR)); try (apply (r_le _ _ _ HR)); apply repeat_length.
Qed.

Lemma make_bounds64 sd : rng 0 (p2 120) sd -> exists b, @make_bounds A t sd false = Ok b /\ bounds64 exp64 log64 sin64 cos64 pow64 b.
Proof.
  intros Hsd. pose proof (r_n _ _ _ HR) as Hn. destruct min_dt as (m & Em & Hm).
  destruct (vmax64 t t_ne) as (hi & Eh & Ih & Lh); [intros x Hx; apply t_fin, Hx|].
  destruct (vmin64 t t_ne) as (lo & El & Il & Ll); [intros x Hx; apply t_fin, Hx|].
  unfold make_bounds. rewrite (@make_dt_ok A t) by exact Hn. cbn [bind]. rewrite Em. cbn [bind]. rewrite Eh. cbn [bind]. rewrite El. cbn [bind].
  eexists. split; [reflexivity|]. unfold bounds64. cbn [min_freq max_freq max_stdev fdiv fsub fofZ A64]. split; [|split; [|exact Hsd]].
  - destruct (t_fin hi Ih) as [F1 B1]. destruct (t_fin lo Il) as [F2 B2].
    assert (rng (p2 (-100)) (p2 101) (hi ⊖ lo)) as Hd.
    { assert (In (nth 0 t (ofZ64 0)) t) as I0 by (apply nth_In; lia). assert (In (nth 1 t (ofZ64 0)) t) as I1 by (apply nth_In; lia).
      pose proof (Lh _ I1). pose proof (Ll _ I0). pose proof (r_gap _ _ _ HR 0%nat ltac:(lia)).
      apply sub_in; try assumption; try rp. change (p2 101) with (p2 (1 + 100)). rewrite bpow_plus. change (p2 1) with 2. lra. }
    eapply rng_weaken; [apply (div_p2 _ _ (-100) 101 _ ltac:(lia) ltac:(lia) eq_refl eq_refl ltac:(lia) ltac:(lia) Hd)|apply bpow_le; lia|apply bpow_le; lia].
  - eapply rng_weaken; [apply (div_p2 _ _ (-100) 101 _ ltac:(lia) ltac:(lia) eq_refl eq_refl ltac:(lia) ltac:(lia) Hm)|apply bpow_le; lia|apply bpow_le; lia].
Qed.

Lemma car1_new64 si (raw : kf1 A) : exists b, car1_new si raw t y e = Ok b /\ wfb b /\ b_time b = t /\ b_y b = y /\ b_yerr b = e /\
  k_time (b_kf b) = t /\ bounds64 exp64 log64 sin64 cos64 pow64 (b_bounds b).
Proof.
  destruct (kf_new64 _ si raw) as (s & Es & Hu & Et & Ey & Ee & _). pose proof (r_n _ _ _ HR) as Hn. pose proof (r_n2 _ _ _ HR) as Hn2.
  pose proof (r_ly _ _ _ HR) as Hly. pose proof (r_le _ _ _ HR) as Hle.
  destruct (vvar64 y) as (v & Ev & Fv & Bv); [lia|rewrite Hly; exact Hn2| |].
  { intros x H. apply In_nth with (d := ofZ64 0) in H. destruct H as (i & Hi & <-). apply (r_y _ _ _ HR i). lia. }
  assert (rng 0 (p2 102) (Bsqrt mode_NE v)) as [Fs Bs].
  { apply sqrt_in; try assumption; [apply repr_0|rp|lra|]. split; [apply sqrt_pos|].
    apply Rsqr_incr_0_var; [|apply bpow_ge_0]. rewrite Rsqr_sqrt by lra. unfold Rsqr. rewrite <- bpow_plus.
    apply Rle_trans with (p2 203); [lra|apply bpow_le; lia]. }
  assert (rng 0 (p2 120) (ofZ64 10 ⊗ Bsqrt mode_NE v)) as Hsd.
  { destruct (Zc 10) as [F10 V10]; [reflexivity|]. apply mul_in; try assumption; [apply repr_0|rp|].
    change (p2 120) with (p2 (18 + 102)). rewrite bpow_plus. change (p2 18) with 262144. pose proof (bpow_gt_0 radix2 102). split; nra. }
  destruct (make_bounds64 _ Hsd) as (bd & Eb & Hb).
  unfold car1_new, base_new. rewrite Ev. cbn [bind]. cbn [fmul fofZ fsqrt A64]. rewrite Eb. cbn [bind].
  rewrite Es. cbn [bind]. eexists. split; [reflexivity|]. unfold wfb. cbn [b_kf b_time b_y b_yerr b_bounds].
  rewrite Et. split; [split; [exact Hu|split; [reflexivity|split; assumption]]|].
  split; [reflexivity|]. split; [reflexivity|]. split; [reflexivity|]. split; [reflexivity|exact Hb].
Qed.
End Data.
End Build.

(** ** A correctly rounded libm *)
(** x is the double nearest to r, or an infinity when r is too large *)
Definition rounds (r : R) (x : b64) : Prop :=
  if Rlt_bool (Rabs (rnd r)) (p2 1024) then fin x /\ val x = rnd r else x = B754_infinity (Rlt_bool r 0).
Definition exp_correct (e : b64 -> b64) : Prop :=
  (forall x, fin x -> rounds (exp (val x)) (e x)) /\ e (B754_infinity true) = ofZ64 0.
Definition log_correct (l : b64 -> b64) : Prop := forall x, fin x -> 0 < val x -> rounds (ln (val x)) (l x).

Lemma rounds_exists r : exists x, rounds r x.
Proof.
  unfold rounds. destruct (Rlt_bool (Rabs (rnd r)) (p2 1024)) eqn:EB; [|eexists; reflexivity].
  assert (generic_format radix2 fx (rnd r)) as Hg by (apply generic_format_round; [apply FLT_exp_valid; reflexivity|apply valid_rnd_N]).
  set (m := Ztrunc (scaled_mantissa radix2 fx (rnd r))). set (ex := Generic_fmt.cexp radix2 fx (rnd r)).
  assert (F2R (Float radix2 m ex) = rnd r) as E by (symmetry; exact Hg).
  exists (binary_normalize 53 1024 p53 p53_1024 mode_NE m ex false).
  pose proof (binary_normalize_correct 53 1024 p53 p53_1024 mode_NE m ex false) as HC.
  cbn [round_mode] in HC. change (SpecFloat.fexp 53 1024) with fx in HC. rewrite E in HC.
  rewrite (round_generic radix2 fx ZnearestE (rnd r) Hg) in HC. rewrite EB in HC. destruct HC as (V & F & _). split; [exact F|exact V].
Qed.
Lemma rounds_in lo hi r x : repr lo -> repr hi -> lo <= r <= hi -> rounds r x -> rng lo hi x.
Proof.
  intros Hlo Hhi H Hr. unfold rounds in Hr. rewrite (rnd_small lo hi r Hlo Hhi H) in Hr. destruct Hr as [F V]. split; [exact F|].
  rewrite V. apply rnd_in; assumption.
Qed.
Lemma exp_correct_sane e : exp_correct e -> exp_sane e /\ exp_total e.
Proof.
  intros [H1 H2]. split.
  - intros x [[Fx Hx]| ->].
    + eapply rounds_in; [apply repr_0|apply repr_1| |apply H1, Fx]. split; [left; apply exp_pos|]. rewrite <- exp_0.
      destruct Hx as [Hx| ->]; [left; apply exp_increasing, Hx|right; reflexivity].
    + rewrite H2. destruct (Zc 0) as [F0 V0]; [reflexivity|]. split; [exact F0|lra].
  - intros x Fx. specialize (H1 x Fx). unfold rounds in H1. pose proof (exp_pos (val x)) as P. destruct (Rlt_bool (Rabs _) _).
    + left. destruct H1 as [F V]. split; [exact F|]. rewrite V. pose proof (round_le radix2 fx ZnearestE 0 (exp (val x))) as Q.
      rewrite (rnd_repr 0 repr_0) in Q. apply Q. lra.
    + right. rewrite H1. rewrite Rlt_bool_false by lra. reflexivity.
Qed.
Lemma ln2_1 : 0 <= ln 2 <= 1.
Proof.
  split; [rewrite <- ln_1; left; apply ln_increasing; lra|]. rewrite <- (ln_exp 1). destruct (Req_dec 2 (exp 1)) as [->|N]; [lra|].
  left. apply ln_increasing; [lra|]. pose proof (exp_ineq1 1 ltac:(lra)). lra.
Qed.
Lemma ln_mono a b : 0 < a -> a <= b -> ln a <= ln b.
Proof. intros H [H1| ->]; [left; apply ln_increasing; assumption|right; reflexivity]. Qed.
Lemma log_correct_sane l : log_correct l -> log_sane l.
Proof.
  intros H x Fx Px. eapply rounds_in; [rz|rz| |apply H; assumption].
  assert (p2 (-1074) <= val x) as L.
  { pose proof (abs_B2R_ge_emin 53 1024 x) as Q. change (SpecFloat.emin 53 1024) with (-1074)%Z in Q. fold (val x) in Q.
    rewrite Rabs_pos_eq in Q by lra. apply Q. destruct (pos_sign x Px) as (m & ex & Hm & ->). reflexivity. }
  assert (val x <= p2 1024) as U.
  { destruct (repr_val x) as [_ U]. rewrite Rabs_pos_eq in U by lra. lra. }
  assert (forall z, ln (p2 z) = IZR z * ln 2) as E by (intros z; rewrite bpow_exp; change (IZR radix2) with 2; apply ln_exp).
  pose proof (ln_mono _ _ (bpow_gt_0 radix2 _) L) as L1. pose proof (ln_mono _ _ Px U) as U1. rewrite E in L1, U1. pose proof ln2_1. lra.
Qed.
Definition real64 (r : R) : b64 := proj1_sig (constructive_indefinite_description _ (rounds_exists r)).
Lemma real64_rounds r : rounds r (real64 r).
Proof. unfold real64. destruct (constructive_indefinite_description _ _) as [x H]. exact H. Qed.
Lemma libm_exists : exists e l, exp_correct e /\ log_correct l.
Proof.
  exists (fun x => match x with B754_infinity true => ofZ64 0 | _ => real64 (exp (val x)) end), (fun x => real64 (ln (val x))). split; [split|].
  - intros x Fx. destruct x as [s|s| |s m ex H]; try discriminate Fx; apply real64_rounds.
  - reflexivity.
  - intros x _ _. apply real64_rounds.
Qed.

(** ** The filter of a KalmanFilter1 object *)
Section Top.
Variables (exp64 log64 sin64 cos64 : b64 -> b64) (pow64 : b64 -> b64 -> b64).
Local Notation A := (A64 exp64 log64 sin64 cos64 pow64).
Local Notation "l .[ i ]" := (nth i l (ofZ64 0)) (at level 2, format "l .[ i ]").

Record filter_range (k : Z) (s : kf1 A) : Prop := {
  f_use : usable s; f_t : times64 (k_time s);
  f_y : forall i, (i < length (k_time s))%nat -> rng (- p2 k) (p2 k) (k_y s).[i];
  f_e : forall i, (i < length (k_time s))%nat -> rng (p2 (-500)) (p2 500) (k_yerr s).[i];
  f_sig : rng 0 (p2 500) (k_sig s); f_w : rng (p2 (-499)) (p2 500) (k_ext s) }.

Lemma sq_val x : rng (p2 (-500)) (p2 500) x -> val (x ⊗ x) = rnd (val x * val x).
Proof.
  intros [Fx Bx]. pose proof (Bmult_correct 53 1024 p53 p53_1024 mode_NE x x) as HC.
  cbn [round_mode] in HC. change (SpecFloat.fexp 53 1024) with fx in HC. fold (val x) in HC.
  rewrite (rnd_small 0 big (val x * val x)) in HC; [apply HC|apply repr_0|apply repr_b|].
  pose proof (bpow_gt_0 radix2 (-500)) as P. split; [apply Rmult_le_pos; lra|]. unfold big. change (p2 1000) with (p2 (500 + 500)). rewrite bpow_plus.
  apply Rmult_le_compat; lra.
Qed.

Lemma filter64 k s : exp_sane exp64 -> (-900 <= k <= 1000)%Z -> filter_range k s ->
  exists s', Filter (methods1 A) s = Ok s' /\ length (k_mean s') = length (k_time s) /\ length (k_var s') = length (k_time s) /\
  forall i, (i < length (k_time s))%nat ->
    fin (k_mean s').[i] /\ Rabs (val (k_mean s').[i]) <= 4 * p2 k /\
    fin (k_var s').[i] /\ 0 < rnd (val (k_yerr s).[i] * val (k_yerr s).[i]) <= val (k_var s').[i] /\ val (k_var s').[i] <= p2 1003.
Proof.
  intros HE Hk [Hu Ht Hy He Hs Hw]. pose proof (usable_wf A s Hu) as Hwf. rewrite (Filter1_ok Hwf). eexists. split; [reflexivity|].
  destruct Hu as (U1 & U2 & U3 & U4 & U5 & U6). unfold fstate. cbn [k_mean k_var k_time].
  split; [|split].
  - rewrite filled_length; [exact U5|]. rewrite U5. apply Nat.le_refl.
  - rewrite filled_length; [exact U6|]. rewrite U6. apply Nat.le_refl.
  - intros i Hi. rewrite U2. rewrite !(@nth_filled (F A)) by exact Hi.
    destruct (mpure_in k Hk exp64 log64 sin64 cos64 pow64 HE (k_time s) (k_y s) (k_yerr s) (k_sig s) (k_ext s) Ht Hy He Hs Hw i Hi) as [Fm Bm].
    destruct (vpure_in exp64 log64 sin64 cos64 pow64 HE (k_time s) (k_yerr s) (k_sig s) (k_ext s) Ht He Hs Hw i Hi) as [Fv Bv].
    destruct (err_in _ (He i Hi)) as [_ Pq]. pose proof (sq_val _ (He i Hi)) as Eq. destruct Bv as [Bv1 Bv2]. rewrite Eq in Pq. pose proof (eq_ind _ (fun z => z <= _) Bv1 _ Eq) as Bv1'.
    split; [exact Fm|]. split; [apply Rabs_le; exact Bm|]. split; [exact Fv|]. split; [split; [exact Pq|exact Bv1']|].
    change (p2 1003) with (p2 (3 + 1000)). rewrite bpow_plus. change (p2 3) with 8. exact Bv2.
Qed.

Lemma lt_prefix_all (l : list b64) u : fin u -> (forall i, (i < length l)%nat -> fin l.[i] /\ val l.[i] < val u) -> lt_prefix A l u = length l.
Proof.
  induction l as [|a l IH]; intros Fu H; [reflexivity|]. cbn [lt_prefix length]. destruct (H 0%nat) as [F0 L0]; [cbn [length]; lia|]. cbn [nth] in F0, L0.
  cbn [flt A64]. rewrite flt_spec by assumption. rewrite Rlt_bool_true by exact L0. f_equal. apply IH; [exact Fu|].
  intros i Hi. apply (H (S i)). cbn [length]. lia.
Qed.
Lemma times64_le t : times64 t -> forall i j, (i <= j)%nat -> (j < length t)%nat -> val t.[i] <= val t.[j].
Proof.
  intros [_ H] i j Hij. induction Hij as [|j Hij IH]; intros Hj; [lra|]. specialize (IH ltac:(lia)). specialize (H j Hj). lra.
Qed.

Lemma aux_pred i n : (i < n -> i <= n - 1 /\ n - 1 < n)%nat.
Proof. lia. Qed.
Lemma predict64 k s u : exp_sane exp64 -> (-900 <= k <= 1000)%Z -> filter_range k s -> fin u ->
  val (k_time s).[length (k_time s) - 1] < val u ->
  exists m v s', m_Predict (methods1 A) s u = Ok ((m, v), s') /\ fin m /\ Rabs (val m) <= 4 * p2 k /\ fin v /\ 0 <= val v <= p2 1003.
Proof.
  intros HE Hk [Hu Ht Hy He Hs Hw] Fu Hlast. pose proof (usable_wf A s Hu) as Hwf.
  destruct (@Predict1_ok A s Hwf u) as (s' & E & _). cbn [m_Predict methods1]. 
  destruct Hu as (U1 & U2 & U3 & U4 & U5 & U6).
  assert (exists b, length (k_time s) = S b) as [b Eb] by (destruct (length (k_time s)); [lia|eexists; reflexivity]).
  assert (predpure A (k_time s) (k_dt s) (k_y s) (k_yerr s) (k_sig s) (k_ext s) u = forecast A (k_time s) (diffs A (k_time s)) (k_y s) (k_yerr s) (k_sig s) (k_ext s) u (S b)) as Ep.
  { unfold predpure. rewrite (lt_prefix_all (k_time s) u Fu).
    - change (@length (F A) (k_time s)) with (@length b64 (k_time s)). change (@length b64 (k_time s)) with (@length (F A) (k_time s)). rewrite Eb, U2. 
      destruct (forecast _ _ _ _ _ _ _ _ _) as [a c]. rewrite Nat.eqb_refl. reflexivity.
    - intros i Hi. split; [apply Ht, Hi|]. eapply Rle_lt_trans; [|exact Hlast]. exact (times64_le (k_time s) Ht i _ (proj1 (aux_pred _ _ Hi)) (proj2 (aux_pred _ _ Hi))). }
  rewrite Ep in E.
  destruct (forecast_in k Hk exp64 log64 sin64 cos64 pow64 HE (k_time s) (k_y s) (k_yerr s) (k_sig s) (k_ext s) Ht Hy He Hs Hw u b Eb Fu) as [[Fm Bm] [Fv Bv]].
  { left. rewrite Eb in Hlast. cbn [Nat.sub] in Hlast. rewrite Nat.sub_0_r in Hlast. exact Hlast. }
  set (r := forecast A (k_time s) (diffs A (k_time s)) (k_y s) (k_yerr s) (k_sig s) (k_ext s) u (S b)) in *.
  exists (fst r), (snd r), s'. split; [rewrite E; do 2 f_equal; apply surjective_pairing|].
  split; [exact Fm|]. split; [apply Rabs_le; exact Bm|]. split; [exact Fv|].
  change (p2 1003) with (p2 (3 + 1000)). rewrite bpow_plus. change (p2 3) with 8. fold big. pose proof big_pos. lra.
Qed.

(** ** LogDensity after any history *)
Lemma density64 si (raw : kf1 A) t y e : exp_sane exp64 -> exp_total exp64 -> log_sane log64 -> in_range t y e ->
  exists b, car1_new si raw t y e = Ok b /\ b_time b = t /\ b_y b = y /\ b_yerr b = e /\
  forall b' th, touched (car1_cls A) (@setpar1 A) b b' -> theta64 th ->
    exists ok v b'', CheckPriorBounds1 (b_bounds b) th = Ok ok /\ LogDensity (car1_cls A) b' th = Ok (v, b'') /\
      (ok = true -> fin v) /\ (ok = false -> v = B754_infinity true).
Proof.
  intros HE HT HL HR. destruct (car1_new64 exp64 log64 sin64 cos64 pow64 t y e HR si raw) as (b & Eb & Hwb & E1 & E2 & E3 & E4 & Hbd).
  exists b. split; [exact Eb|]. split; [exact E1|]. split; [exact E2|]. split; [exact E3|]. intros b' th Htc Hth.
  assert (exists ok, CheckPriorBounds1 (b_bounds b) th = Ok ok) as [ok EC].
  { destruct Hth as (Hl & _). unfold CheckPriorBounds1. rewrite !(@vget_ok (F A) th _ (ofZ64 0)) by (cbn [F A64]; lia). eexists. reflexivity. }
  pose proof (@LD_history1 A b b' th Hwb Htc) as EH.
  assert (exists v b1, LogDensity (car1_cls A) b th = Ok (v, b1) /\ (ok = true -> fin v) /\ (ok = false -> v = B754_infinity true)) as (v & b1 & EL & H1 & H2).
  { destruct ok.
    - destruct (LD64 exp64 log64 sin64 cos64 pow64 HE HT HL b th) as (v & b1 & EL & Fv); try assumption; [clear Eb; subst t y e; exact HR|exact (eq_trans E4 (eq_sym E1))|].
      exists v, b1. split; [exact EL|]. split; [intros _; exact Fv|discriminate].
    - exists (B754_infinity true), b. split; [|split; [discriminate|reflexivity]]. unfold LogDensity. cbn [car1_cls v_Check].
      rewrite EC. reflexivity. }
  exists ok, v. rewrite EL in EH. cbn [obs_fst] in EH. destruct (LogDensity (car1_cls A) b' th) as [[v' b'']|x| |]; try discriminate EH.
  injection EH as ->. exists b''. split; [exact EC|]. split; [reflexivity|]. split; assumption.
Qed.

(** ** Without error bars *)
Lemma rnd_near1 r : 1 - p2 (-55) <= r <= 1 -> rnd r = 1.
Proof.
  intros [H1 H2]. pose proof (rnd_in 0 1 r repr_0 repr_1) as [_ U]; [split; [|exact H2]; assert (p2 (-55) <= p2 0) by (apply bpow_le; lia); change (p2 0) with 1 in *; lra|].
  apply Rle_antisym; [exact U|].
  assert (pred radix2 fx 1 = 1 - p2 (-53)) as Ep by (apply (pred_bpow radix2 fx 0)).
  apply (round_N_ge_midp radix2 fx (fun x => negb (Z.even x)) 1 r); [apply repr_1|].
  rewrite Ep. change (p2 (-53)) with (p2 (2 + -55)). rewrite bpow_plus. change (p2 2) with 4. pose proof (bpow_gt_0 radix2 (-55)). lra.
Qed.

Definition d60 : b64 := binary_normalize 53 1024 p53 p53_1024 mode_NE 1 (-60) false.
Definition d59 : b64 := binary_normalize 53 1024 p53 p53_1024 mode_NE 1 (-59) false.

Lemma pow_val z : (-1074 <= z <= 0)%Z -> fin (binary_normalize 53 1024 p53 p53_1024 mode_NE 1 z false) /\
  val (binary_normalize 53 1024 p53 p53_1024 mode_NE 1 z false) = p2 z.
Proof.
  intros Hz. pose proof (binary_normalize_correct 53 1024 p53 p53_1024 mode_NE 1 z false) as HC.
  cbn [round_mode] in HC. change (SpecFloat.fexp 53 1024) with fx in HC.
  assert (F2R (Float radix2 1 z) = p2 z) as E by (unfold F2R; cbn [Fnum Fexp]; ring). rewrite E in HC.
  assert (repr (p2 z)) as Rz by rp. rewrite (rnd_repr _ Rz) in HC. rewrite Rlt_bool_true in HC by apply Rz. destruct HC as (V & F & _). split; assumption.
Qed.
Definition t3 : list b64 := [ofZ64 0; d60; d59].
Definition z3 : list b64 := [ofZ64 0; ofZ64 0; ofZ64 0].
(** a filter with three distinct times, measurements 0 without errors, sigma^2 = 2 and omega = 1 *)
Definition s3 : kf1 A := mkKF A t3 (diffs A t3) z3 z3 z3 z3 (ofZ64 2) 0 (ofZ64 0) (ofZ64 0) (ofZ64 1).
Lemma s3_usable : usable s3.
Proof. repeat split; try reflexivity. cbn. lia. Qed.
Lemma t3_inc : val (ofZ64 0) < val d60 < val d59 /\ fin d60 /\ fin d59.
Proof.
  destruct (pow_val (-60)) as [F1 V1]; [lia|]. destruct (pow_val (-59)) as [F2 V2]; [lia|]. fold d60 in F1, V1. fold d59 in F2, V2.
  destruct (Zc 0) as [F0 V0]; [reflexivity|]. rewrite V1, V2. pose proof (bpow_gt_0 radix2 (-60)). assert (p2 (-60) < p2 (-59)) by (apply bpow_lt; lia).
  split; [lra|]. split; assumption.
Qed.
Lemma zero_form x : rng 0 0 x -> exists sg, x = B754_zero sg.
Proof.
  intros [Fx Bx]. destruct x as [sg|sg| |sg m ex H]; try discriminate Fx; [exists sg; reflexivity|]. exfalso. unfold val in Bx. cbn [B2R] in Bx.
  destruct sg; cbn [cond_Zopp Z.opp] in Bx; [pose proof (F2R_lt_0 radix2 (Float radix2 (Z.neg m) ex) eq_refl)|pose proof (F2R_gt_0 radix2 (Float radix2 (Z.pos m) ex) eq_refl)]; lra.
Qed.
Lemma rng_eq x v : rng v v x <-> fin x /\ val x = v.
Proof. split; intros [F B]; (split; [exact F|lra]). Qed.
Lemma add_eq a b x y : rng a a x -> rng b b y -> repr (a + b) -> rng (a + b) (a + b) (x ⊕ y).
Proof. intros [Fx Bx] [Fy By] H. apply add_in; try assumption. lra. Qed.
Lemma sub_eq a b x y : rng a a x -> rng b b y -> repr (a - b) -> rng (a - b) (a - b) (x ⊖ y).
Proof. intros [Fx Bx] [Fy By] H. apply sub_in; try assumption. lra. Qed.
Lemma mul_eq a b x y : rng a a x -> rng b b y -> repr (a * b) -> rng (a * b) (a * b) (x ⊗ y).
Proof. intros [Fx Bx] [Fy By] H. apply mul_in; try assumption. replace (val x) with a by lra. replace (val y) with b by lra. lra. Qed.
Lemma div_eq a b x y : rng a a x -> rng b b y -> b <> 0 -> repr (a / b) -> rng (a / b) (a / b) (x ⊘ y).
Proof. intros [Fx Bx] [Fy By] Hb H. apply div_in; try assumption; [lra|]. replace (val x) with a by lra. replace (val y) with b by lra. lra. Qed.
Lemma rng_cast v w x : rng v v x -> v = w -> rng w w x.
Proof. intros H <-. exact H. Qed.

Lemma exact_nan : exp_correct exp64 ->
  exists s', Filter (methods1 A) s3 = Ok s' /\ rng 0 0 (k_var s').[1%nat] /\ (k_var s').[2%nat] = B754_nan.
Proof.
  intros HE. rewrite (Filter1_ok (usable_wf A s3 s3_usable)). eexists. split; [reflexivity|].
  unfold fstate. cbn [k_mean k_var k_time k_yerr k_dt k_y k_sig k_ext s3].
  rewrite !(@nth_filled (F A)) by (cbn; lia).
  cbn [vpure diffs t3 z3 nth]. unfold nextv. cbn [fadd fsub fmul fdiv fneg fofZ fexp A64].
  pose proof (Zc 0 eq_refl) as R0. pose proof (Zc 1 eq_refl) as R1. pose proof (Zc 2 eq_refl) as R2.
  set (z0 := ofZ64 0) in *. set (o1 := ofZ64 1) in *. set (o2 := ofZ64 2) in *. clearbody z0 o1 o2.
  destruct (pow_val (-60)) as [F60 V60]; [lia|]. destruct (pow_val (-59)) as [F59 V59]; [lia|]. fold d60 in F60, V60. fold d59 in F59, V59.
  assert (rng (p2 (-60)) (p2 (-60)) d60) as R60 by (apply rng_eq; split; assumption).
  assert (rng (p2 (-59)) (p2 (-59)) d59) as R59 by (apply rng_eq; split; assumption).
  assert (rng 1 1 (o2 ⊘ (o2 ⊗ o1))) as RS.
  { eapply rng_cast; [apply (div_eq 2 (2 * 1)); [exact R2|apply mul_eq; [exact R2|exact R1|]|lra|]|field].
    - replace (2 * 1) with 2 by ring. rz.
    - replace (2 / (2 * 1)) with 1 by field. rz. }
  set (S0 := o2 ⊘ (o2 ⊗ o1)) in *. clearbody S0.
  assert (rng 0 0 (z0 ⊗ z0)) as Rq.
  { eapply rng_cast; [apply (mul_eq 0 0); [exact R0|exact R0|]|ring]. replace (0 * 0) with 0 by ring. apply repr_0. }
  set (q := z0 ⊗ z0) in *. clearbody q.
  assert (rng (- p2 (-60)) (- p2 (-60)) (Bopp o1 ⊗ o1 ⊗ (d60 ⊖ z0))) as Ra.
  { eapply rng_cast; [apply (mul_eq (-(1) * 1) (p2 (-60) - 0)); [apply mul_eq; [apply opp_rng; exact R1|exact R1|]|apply sub_eq; [exact R60|exact R0|]|]|ring].
    - replace (-(1) * 1) with (-1) by ring. rz.
    - replace (p2 (-60) - 0) with (p2 (-60)) by ring. rp.
    - replace (-(1) * 1 * (p2 (-60) - 0)) with (- p2 (-60)) by ring. apply repr_opp. rp. }
  set (ar := Bopp o1 ⊗ o1 ⊗ (d60 ⊖ z0)) in *. clearbody ar.
  assert (rng 1 1 (exp64 ar)) as Rr.
  { destruct Ra as [Fa Ba]. destruct HE as [HE _]. specialize (HE ar Fa). unfold rounds in HE.
    assert (rnd (exp (val ar)) = 1) as E1.
    { apply rnd_near1. replace (val ar) with (- p2 (-60)) by lra. assert (p2 (-60) <= p2 (-55)) by (apply bpow_le; lia).
      pose proof (bpow_gt_0 radix2 (-60)) as P. split.
      - destruct (Req_dec (- p2 (-60)) 0); [lra|]. pose proof (exp_ineq1 (- p2 (-60)) ltac:(lra)). lra.
      - rewrite <- exp_0. left. apply exp_increasing. lra. }
    rewrite E1 in HE. rewrite Rlt_bool_true in HE by apply repr_1. apply rng_eq. exact HE. }
  set (rho := exp64 ar) in *. clearbody rho.
  assert (rng 1 1 (rho ⊗ rho)) as Rr2.
  { eapply rng_cast; [apply (mul_eq 1 1); [exact Rr|exact Rr|]|ring]. replace (1 * 1) with 1 by ring. rz. }
  set (r2 := rho ⊗ rho) in *. clearbody r2.
  assert (rng 1 1 (S0 ⊕ q)) as Rv0.
  { eapply rng_cast; [apply (add_eq 1 0); [exact RS|exact Rq|]|ring]. replace (1 + 0) with 1 by ring. rz. }
  set (v0 := S0 ⊕ q) in *. clearbody v0.
  assert (rng 1 1 (v0 ⊖ q)) as Rp.
  { eapply rng_cast; [apply (sub_eq 1 0); [exact Rv0|exact Rq|]|ring]. replace (1 - 0) with 1 by ring. rz. }
  set (pv := v0 ⊖ q) in *. clearbody pv.
  assert (rng 1 1 (pv ⊘ v0)) as Rra.
  { eapply rng_cast; [apply (div_eq 1 1); [exact Rp|exact Rv0|lra|]|field]. replace (1 / 1) with 1 by field. rz. }
  set (ra := pv ⊘ v0) in *. clearbody ra.
  assert (rng 0 0 (o1 ⊖ ra)) as Rc.
  { eapply rng_cast; [apply (sub_eq 1 1); [exact R1|exact Rra|]|ring]. replace (1 - 1) with 0 by ring. apply repr_0. }
  assert (rng 0 0 (o1 ⊖ r2)) as Rc2.
  { eapply rng_cast; [apply (sub_eq 1 1); [exact R1|exact Rr2|]|ring]. replace (1 - 1) with 0 by ring. apply repr_0. }
  assert (rng 0 0 (S0 ⊗ (o1 ⊖ r2))) as Rt1.
  { eapply rng_cast; [apply (mul_eq 1 0); [exact RS|exact Rc2|]|ring]. replace (1 * 0) with 0 by ring. apply repr_0. }
  assert (rng 1 1 (r2 ⊗ pv)) as Rrp.
  { eapply rng_cast; [apply (mul_eq 1 1); [exact Rr2|exact Rp|]|ring]. replace (1 * 1) with 1 by ring. rz. }
  assert (rng 0 0 (r2 ⊗ pv ⊗ (o1 ⊖ ra))) as Rt2.
  { eapply rng_cast; [apply (mul_eq 1 0); [exact Rrp|exact Rc|]|ring]. replace (1 * 0) with 0 by ring. apply repr_0. }
  assert (rng 0 0 (S0 ⊗ (o1 ⊖ r2) ⊕ r2 ⊗ pv ⊗ (o1 ⊖ ra))) as Rs.
  { eapply rng_cast; [apply (add_eq 0 0); [exact Rt1|exact Rt2|]|ring]. replace (0 + 0) with 0 by ring. apply repr_0. }
  assert (rng 0 0 (S0 ⊗ (o1 ⊖ r2) ⊕ r2 ⊗ pv ⊗ (o1 ⊖ ra) ⊕ q)) as Rv1.
  { eapply rng_cast; [apply (add_eq 0 0); [exact Rs|exact Rq|]|ring]. replace (0 + 0) with 0 by ring. apply repr_0. }
  split; [exact Rv1|].
  set (v1 := S0 ⊗ (o1 ⊖ r2) ⊕ r2 ⊗ pv ⊗ (o1 ⊖ ra) ⊕ q) in *. clearbody v1.
  assert (rng 0 0 (v1 ⊖ q)) as Rp1.
  { eapply rng_cast; [apply (sub_eq 0 0); [exact Rv1|exact Rq|]|ring]. replace (0 - 0) with 0 by ring. apply repr_0. }
  destruct (zero_form _ Rp1) as (sg & ->). destruct (zero_form _ Rv1) as (sg' & ->).
  change (@Bdiv 53 1024 p53 p53_1024 mode_NE (B754_zero sg) (B754_zero sg')) with (@B754_nan 53 1024).
  replace (o1 ⊖ B754_nan) with (@B754_nan 53 1024) by (destruct o1; reflexivity).
  match goal with |- context [?a ⊗ ?b ⊗ B754_nan] => replace (a ⊗ b ⊗ B754_nan) with (@B754_nan 53 1024) by (destruct (a ⊗ b); reflexivity) end.
  match goal with |- context [?a ⊕ B754_nan] => replace (a ⊕ B754_nan) with (@B754_nan 53 1024) by (destruct a; reflexivity) end.
  reflexivity.
Qed.
End Top.
