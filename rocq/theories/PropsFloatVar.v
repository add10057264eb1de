(** C128: the zero level of the measurements and the start of a run in double precision. *)
From Coq Require Import Reals ZArith Bool Lra Lia List String.
From Flocq Require Import Core BinarySingleNaN.
From Verif Require Import Arith Res ListLemmas Cx KFModel KFpModel KF1X History CarpackModel EngineModel StartModel.
From Verif Require Import EngineDriver TotalProof TotalTop.
From Verif Require Import Float64 Float64KF Float64LD Float64Top FloatErr FloatVar PropsFloat PropsEngine.
Import ListNotations.
Local Open Scope R_scope.
Local Notation length := List.length.
Local Notation p2 e := (bpow radix2 e).
Local Notation "l .[ i ]" := (nth i l (ofZ64 0)) (at level 2, format "l .[ i ]").

(** What is asked of arma::chol: it fails unless every diagonal element is positive. *)
Definition chol_checks (chol : list (list b64) -> option (list (list b64))) : Prop :=
  forall m c i, chol m = Some c -> (i < length m)%nat -> Bltb (ofZ64 0) (nth i (nth i m []) (ofZ64 0)) = true.

(** and that it succeeds on a diagonal matrix with positive elements, returning a matrix of the same size *)
Definition chol_diagonal (chol : list (list b64) -> option (list (list b64))) : Prop := forall n m,
  length m = n -> Forall (fun r => length r = n) m ->
  (forall i, (i < n)%nat -> fin (nth i (nth i m []) (ofZ64 0)) /\ 0 < val (nth i (nth i m []) (ofZ64 0))) ->
  (forall i j, (i < n)%nat -> (j < n)%nat -> i <> j -> nth j (nth i m []) (ofZ64 0) = ofZ64 0) ->
  exists L, chol m = Some L /\ length L = n /\ Forall (fun r => length r = n) L.

Section Diag.
Variables (exp64 log64 sin64 cos64 : b64 -> b64) (pow64 : b64 -> b64 -> b64).
Local Notation A := (A64 exp64 log64 sin64 cos64 pow64).
Lemma nth_mbuild (T : Type) n (f : nat -> nat -> T) i d : (i < n)%nat -> nth i (nth i (mbuild n n f) []) d = f i i.
Proof. intros H. unfold mbuild, vbuild. rewrite (nth_map_seq (fun i => map (f i) (seq 0 n))) by exact H. apply nth_map_seq, H. Qed.
Lemma quot_nonpos (v : b64) n : (0 < n)%nat -> (Z.of_nat n < 2 ^ 50)%Z -> fin v -> val v <= 0 -> Bltb (ofZ64 0) (Bdiv mode_NE v (ofZ64 (Z.of_nat n))) = false.
Proof.
  intros Hn Hn2 Fv Hv. destruct (ofZ_val (Z.of_nat n)) as [Fn Vn]; [lia|]. destruct (ofZ_val 0) as [F0 V0]; [reflexivity|].
  assert (1 <= IZR (Z.of_nat n)) as H1 by (apply (IZR_le 1); lia).
  assert (rng (val v) 0 (Bdiv mode_NE v (ofZ64 (Z.of_nat n)))) as [F B].
  { apply div_in; try assumption; [rewrite Vn; lra|apply repr_val|apply repr_0|]. rewrite Vn. assert (0 < / IZR (Z.of_nat n) <= 1) as [I1 I2].
    { split; [apply Rinv_0_lt_compat; lra|]. rewrite <- Rinv_1. apply Rinv_le_contravar; lra. } unfold Rdiv. split; nra. }
  rewrite flt_spec by assumption. rewrite V0. apply Rlt_bool_false. lra.
Qed.
Lemma chol_var chol (y : list b64) n c : chol_checks chol -> (3 <= n)%nat -> (0 < length y)%nat -> (Z.of_nat (length y) < 2 ^ 50)%Z -> fin (pop_var A y) ->
  chol (prop_covar A n y) = Some c -> 0 < val (pop_var A y).
Proof.
  intros Hc Hn Hy Hy2 Hf E. destruct (Rlt_le_dec 0 (val (pop_var A y))) as [L|L]; [exact L|exfalso].
  specialize (Hc _ _ 2%nat E). unfold prop_covar in Hc. specialize (Hc ltac:(unfold mbuild, vbuild; rewrite map_length, seq_length; lia)).
  rewrite nth_mbuild in Hc by lia. cbn [Nat.eqb negb] in Hc.
  change (Bltb (ofZ64 0) (Bdiv mode_NE (pop_var A y) (ofZ64 (Z.of_nat (length y)))) = true) in Hc. rewrite (quot_nonpos _ _ Hy Hy2 Hf L) in Hc. discriminate Hc.
Qed.
End Diag.
Lemma ram_new_some (A : Arith) chol (m : mat A) tg b a0 r : ram_new chol m tg b a0 = Ok r -> exists c, chol m = Some c.
Proof. unfold ram_new. destruct (chol m) as [c|]; [intros _; exists c; reflexivity|discriminate]. Qed.
Lemma run_carma_chol (A : Arith) (G : EngineModel.rng A) chol X (M : methodsP G (base A X) (list (F A))) mk npar label N burnin y nw thin init v0 l0 a0 g x :
  run_carma (A := A) chol M mk npar label N burnin y nw thin init v0 l0 a0 g = Ok x -> exists c, chol (prop_covar A npar y) = Some c.
Proof.
  intros E. unfold run_carma in E. apply bind_Ok in E. destruct E as (ws & _ & E). cbv zeta in E. apply bind_Ok in E. destruct E as (w0 & _ & E).
  apply bind_Ok in E. destruct E as (r & Er & _). exact (ram_new_some _ _ _ _ _ _ _ Er).
Qed.

Lemma make_bounds_sd (A : Arith) t sd0 i0 bd : @make_bounds A t sd0 i0 = Ok bd -> forall sd i, @make_bounds A t sd i = Ok (mkB A sd (max_freq bd) (min_freq bd) i).
Proof.
  unfold make_bounds. intros E sd i. apply bind_Ok in E. destruct E as (dt & -> & E). apply bind_Ok in E. destruct E as (m & Em & E). apply bind_Ok in E. destruct E as (hi & Eh & E).
  apply bind_Ok in E. destruct E as (lo & El & E). injection E as <-. cbn [bind]. rewrite Em. cbn [bind]. rewrite Eh. cbn [bind]. rewrite El. reflexivity.
Qed.
Lemma nonpos (x : b64) : fin x -> Bltb (ofZ64 0) x = false -> val x <= 0.
Proof.
  intros F H. destruct (ofZ_val 0) as [F0 V0]; [reflexivity|]. rewrite (flt_spec (ofZ64 0) x F0 F), V0 in H. destruct (Rlt_bool_spec 0 (val x)); [discriminate|assumption].
Qed.
Lemma zero_rng h : 0 <= h -> rng 0 h (ofZ64 0).
Proof. intros H. destruct (ofZ_val 0) as [F V]; [reflexivity|]. split; [exact F|rewrite V; lra]. Qed.

(** C128.  The variance computed by RunCar1Sampler and RunCarmaSampler, from which the upper prior bound 10 sqrt(variance) of the standard deviation
    and the initial proposal covariance are made.  The error is relative to the squares of the measurements, not to their variance. *)
Theorem C128_variance_error : forall exp64 log64 sin64 cos64 pow64 (y : list b64) (k : Z),
  (-500 <= k <= 400)%Z -> y <> [] -> (Z.of_nat (length y) < 2 ^ 50)%Z -> (forall x, In x y -> fin x /\ Rabs (val x) <= p2 k) ->
  fin (pop_var (A64 exp64 log64 sin64 cos64 pow64) y) /\
  Rabs (val (pop_var (A64 exp64 log64 sin64 cos64 pow64) y) - popvarR (map val y)) <= (3 * INR (length y) + 15) * p2 (-53) * p2 k ^ 2.
Proof.
  intros exp64 log64 sin64 cos64 pow64 y k Hk Hne Hn Hy.
  destruct (pop_var_err exp64 log64 sin64 cos64 pow64 k y Hk Hne Hn) as [[F _] E]; [intros x Hx; destruct (Hy x Hx) as [Fx Bx]; split; [exact Fx|apply Rabs_le_inv, Bx]|].
  split; [exact F|]. rewrite bpow_plus in E. cbn [pow]. rewrite Rmult_1_r. exact E.
Qed.
Print Assumptions C128_variance_error.

(** C128: so it is positive if the measurements scatter by more than that. *)
Theorem C128_scatter_suffices : forall exp64 log64 sin64 cos64 pow64 (y : list b64) (k : Z),
  (-500 <= k <= 400)%Z -> y <> [] -> (Z.of_nat (length y) < 2 ^ 50)%Z -> (forall x, In x y -> fin x /\ Rabs (val x) <= p2 k) ->
  (3 * INR (length y) + 15) * p2 (-53) * p2 k ^ 2 < popvarR (map val y) ->
  0 < val (pop_var (A64 exp64 log64 sin64 cos64 pow64) y).
Proof.
  intros exp64 log64 sin64 cos64 pow64 y k Hk Hne Hn Hy Hs. destruct (C128_variance_error exp64 log64 sin64 cos64 pow64 y k Hk Hne Hn Hy) as [_ E].
  apply Rabs_le_inv in E. lra.
Qed.
Print Assumptions C128_scatter_suffices.

(** C128: otherwise no run is made.  If the computed variance is not positive, RunCar1Sampler throws and RunCarmaSampler does not return. *)
Theorem C128_no_run : forall exp64 log64 sin64 cos64 pow64 (G : EngineModel.rng (A64 exp64 log64 sin64 cos64 pow64)) vsort dsort solve si chol
    (raw : kf1 (A64 exp64 log64 sin64 cos64 pow64)) (rawp : kfp (A64 exp64 log64 sin64 cos64 pow64)) t y e,
  chol_checks chol -> in_range t y e -> val (pop_var (A64 exp64 log64 sin64 cos64 pow64) y) <= 0 ->
  (forall N burnin thin init v0 l0 a0 g,
    RunCar1Sampler (A := A64 exp64 log64 sin64 cos64 pow64) (R := G) vsort si chol N burnin t y e thin init raw v0 l0 a0 g = Throw Eruntime) /\
  (forall fuel N burnin p q nw z thin init v0 l0 a0 g x,
    RunCarmaSampler (A := A64 exp64 log64 sin64 cos64 pow64) (R := G) dsort solve si chol fuel N burnin t y e p q nw z thin init rawp v0 l0 a0 g <> Ok x).
Proof.
  intros exp64 log64 sin64 cos64 pow64 G vsort dsort solve si chol raw rawp t y e Hc HR Hv.
  pose proof (r_n _ _ _ HR) as Hn. pose proof (r_n2 _ _ _ HR) as Hn2. pose proof (r_ly _ _ _ HR) as Hly.
  assert (forall x, In x y -> rng (- p2 100) (p2 100) x) as Hy.
  { intros x H. apply In_nth with (d := ofZ64 0) in H. destruct H as (i & Hi & <-). apply (r_y _ _ _ HR i). lia. }
  destruct (pop_var_err exp64 log64 sin64 cos64 pow64 100 y ltac:(lia) ltac:(intros ->; cbn in Hly; lia) ltac:(lia) Hy) as [[Fv _] _].
  assert (forall n c, (3 <= n)%nat -> chol (prop_covar (A64 exp64 log64 sin64 cos64 pow64) n y) <> Some c) as Hno.
  { intros n c Hn3 E. pose proof (chol_var exp64 log64 sin64 cos64 pow64 chol y n c Hc Hn3 ltac:(lia) ltac:(lia) Fv E). lra. }
  split.
  - intros N burnin thin init v0 l0 a0 g. unfold RunCar1Sampler.
    destruct (car1_new64 exp64 log64 sin64 cos64 pow64 t y e HR si raw) as (b & Eb & _ & Et & _). rewrite Eb. cbn [bind]. unfold SetPrior.
    pose proof (zero_rng (p2 120) (bpow_ge_0 radix2 120)) as Hz.
    destruct (make_bounds64 exp64 log64 sin64 cos64 pow64 t y e HR (ofZ64 0) Hz) as (bd & Ebd & _). rewrite Et.
    rewrite (make_bounds_sd (A64 exp64 log64 sin64 cos64 pow64) t _ _ _ Ebd). cbn [bind]. unfold ram_new.
    destruct (chol (prop_covar (A64 exp64 log64 sin64 cos64 pow64) 4 y)) as [c|] eqn:E; [exfalso; revert E; apply Hno; lia|]. reflexivity.
  - intros fuel N burnin p q nw z thin init v0 l0 a0 g x E. unfold RunCarmaSampler in E. destruct (p <? 2) eqn:Ep; [discriminate|]. apply Nat.ltb_ge in Ep.
    destruct z; [|destruct (q =? 0)%nat]; apply run_carma_chol in E; destruct E as (c & E); revert E; apply Hno; lia.
Qed.
Print Assumptions C128_no_run.

Section Completes.
Variables (exp64 log64 sin64 cos64 : b64 -> b64) (pow64 : b64 -> b64 -> b64).
Local Notation A := (A64 exp64 log64 sin64 cos64 pow64).
Lemma kept64 t y e si : in_range t y e -> all_kept (A := A) si t.
Proof.
  intros HR X raw y' e' s E. pose proof (r_n _ _ _ HR) as Hn. destruct (min_dt exp64 log64 sin64 cos64 pow64 t y e HR) as (m & Em & Fm & Bm). pose proof (bpow_gt_0 radix2 (-100)) as P.
  destruct (ofZ_val 0) as [Fz Vz]; [reflexivity|].
  unfold kf_new, kf_init in E. cbn [SetTime SetTimeSeries SetTimeSeriesErr k_time k_dt k_y k_yerr] in E.
  rewrite (@make_dt_ok A t) in E by exact Hn. cbn [bind] in E. rewrite Em in E. cbn [bind] in E.
  assert (flt A m (fofZ A 0) = false) as El.
  { cbn [flt fofZ A64]. rewrite flt_spec by assumption. apply Rlt_bool_false. lra. }
  rewrite El in E. cbn [bind set_dt k_dt] in E. rewrite Em in E. cbn [bind] in E.
  assert (feq A m (fofZ A 0) = false) as Ee.
  { cbn [feq fofZ A64]. rewrite (Beqb_correct 53 1024 m (ofZ64 0) Fm Fz). apply Req_bool_false. fold (val m) (val (ofZ64 0)). lra. }
  rewrite Ee in E. cbn [bind] in E. injection E as <-. reflexivity.
Qed.
Lemma covar_ok chol (y : list b64) n : chol_diagonal chol -> (0 < length y)%nat -> (Z.of_nat (length y) < 2 ^ 50)%Z -> rng (p2 (-260)) (p2 200) (pop_var A y) ->
  exists L, chol (prop_covar A n y) = Some L /\ length L = n /\ Forall (fun r => length r = n) L.
Proof.
  intros HC Hy Hy2 [Fv Bv]. assert (forall (T : Type) (f : nat -> nat -> T) i j d, (i < n)%nat -> (j < n)%nat -> nth j (nth i (mbuild n n f) []) d = f i j) as Hnth.
  { intros T f i j d Hi Hj. unfold mbuild, vbuild. rewrite (nth_map_seq (fun i => map (f i) (seq 0 n))) by exact Hi. apply nth_map_seq, Hj. }
  assert (forall k, p2 (k + 50) = p2 k * p2 50) as H50 by (intros; apply bpow_plus).
  destruct (ofZ_val (Z.of_nat (length y))) as [Fn Vn]; [lia|].
  assert (1 <= IZR (Z.of_nat (length y)) <= p2 50) as Bn by (split; [apply (IZR_le 1); lia|change (p2 50) with (IZR (2 ^ 50)); apply IZR_le; lia]).
  assert (forall x a b, (-1000 <= a)%Z -> (b <= 1000)%Z -> (a <= b)%Z -> rng (p2 a) (p2 b) x -> rng (p2 (a - 50)) (p2 b) (Bdiv mode_NE x (ofZ64 (Z.of_nat (length y))))) as Hdn.
  { intros x a b Ha Hb Hab [Fx Bx]. pose proof (bpow_gt_0 radix2 a). pose proof (bpow_gt_0 radix2 (a - 50)). pose proof (H50 (a - 50)%Z) as E. replace (a - 50 + 50)%Z with a in E by lia.
    apply div_in; try assumption; try (apply repr_p2; lia); [rewrite Vn; lra|]. rewrite Vn. set (N := IZR (Z.of_nat (length y))) in *. clearbody N.
    split; (apply Rmult_le_reg_r with N; [lra|]); unfold Rdiv; rewrite Rmult_assoc, Rinv_l, Rmult_1_r by lra; [|nra].
    apply Rle_trans with (p2 a); [rewrite E; apply Rmult_le_compat_l; lra|lra]. }
  apply HC.
  - unfold prop_covar, mbuild, vbuild. rewrite map_length, seq_length. reflexivity.
  - apply Forall_forall. intros r Hr. unfold prop_covar, mbuild, vbuild in Hr. apply in_map_iff in Hr. destruct Hr as (i & <- & _). rewrite map_length, seq_length. reflexivity.
  - intros i Hi. unfold prop_covar. rewrite Hnth by assumption. rewrite Nat.eqb_refl. cbn [negb].
    assert (rng (p2 (-259)) (p2 201) (Bmult mode_NE (ofZ64 2) (pop_var A y))) as [F2 B2].
    { destruct (ofZ_val 2) as [Fz Vz]; [reflexivity|]. apply mul_in; try assumption; try (apply repr_p2; lia). rewrite Vz.
      change (-259)%Z with (1 + -260)%Z. change 201%Z with (1 + 200)%Z. rewrite !bpow_plus. change (p2 1) with 2. lra. }
    assert (rng (p2 (-519)) (p2 401) (Bmult mode_NE (Bmult mode_NE (ofZ64 2) (pop_var A y)) (pop_var A y))) as H3.
    { apply mul_in; try assumption; try (apply repr_p2; lia). change (-519)%Z with (-259 + -260)%Z. change 401%Z with (201 + 200)%Z. rewrite !bpow_plus.
      pose proof (bpow_gt_0 radix2 (-259)). pose proof (bpow_gt_0 radix2 (-260)). split; apply Rmult_le_compat; lra. }
    destruct (i =? 0)%nat; [|destruct (i =? 2)%nat].
    + destruct (Hdn _ (-519)%Z 401%Z ltac:(lia) ltac:(lia) ltac:(lia) H3) as [F B]. split; [exact F|]. pose proof (bpow_gt_0 radix2 (-519 - 50)). apply Rlt_le_trans with (1 := H), B.
    + destruct (Hdn _ (-260)%Z 200%Z ltac:(lia) ltac:(lia) ltac:(lia) (Logic.conj Fv Bv)) as [F B]. split; [exact F|]. pose proof (bpow_gt_0 radix2 (-260 - 50)). apply Rlt_le_trans with (1 := H), B.
    + set (x := fmul A _ _). assert (fin x) as F by reflexivity. split; [exact F|].
      assert (Bltb (ofZ64 0) x = true) as L by reflexivity. destruct (ofZ_val 0) as [Fz Vz]; [reflexivity|]. rewrite (flt_spec (ofZ64 0) x Fz F) in L. rewrite Vz in L.
      destruct (Rlt_bool_spec 0 (val x)); [assumption|discriminate].
  - intros i j Hi Hj Hij. unfold prop_covar. rewrite Hnth by assumption. apply Nat.eqb_neq in Hij. rewrite Hij. reflexivity.
Qed.
End Completes.

(** C128: with enough scatter a CAR(1) run completes, for all sizes, starting values and random numbers. *)
Theorem C128_car1_completes : forall exp64 log64 sin64 cos64 pow64 (G : EngineModel.rng (A64 exp64 log64 sin64 cos64 pow64)) vsort si chol
    (raw : kf1 (A64 exp64 log64 sin64 cos64 pow64)) t y e (k : Z),
  chol_diagonal chol -> in_range t y e -> (-100 <= k <= 100)%Z -> (forall i, (i < length t)%nat -> Rabs (val y.[i]) <= p2 k) ->
  2 * ((3 * INR (length y) + 15) * p2 (-53) * p2 k ^ 2) <= popvarR (map val y) ->
  (exists s, vsort (diffs (A64 exp64 log64 sin64 cos64 pow64) t) = Some s /\ length s = length (diffs (A64 exp64 log64 sin64 cos64 pow64) t)) ->
  forall N burnin thin init v0 l0 a0 g, length v0 = 4%nat ->
  exists w g', RunCar1Sampler (A := A64 exp64 log64 sin64 cos64 pow64) (R := G) vsort si chol N burnin t y e thin init raw v0 l0 a0 g = Ok (w, g').
Proof.
  intros exp64 log64 sin64 cos64 pow64 G vsort si chol raw t y e k HC HR Hk Hyk Hs Hv N burnin thin init v0 l0 a0 g Hv0.
  pose proof (r_n _ _ _ HR) as Hn. pose proof (r_n2 _ _ _ HR) as Hn2. pose proof (r_ly _ _ _ HR) as Hly. pose proof (r_le _ _ _ HR) as Hle.
  assert (forall x, In x y -> rng (- p2 k) (p2 k) x) as Hy.
  { intros x H. apply In_nth with (d := ofZ64 0) in H. destruct H as (i & Hi & <-). split; [apply (r_y _ _ _ HR i); lia|apply Rabs_le_inv, Hyk; lia]. }
  destruct (pop_var_err exp64 log64 sin64 cos64 pow64 k y ltac:(lia) ltac:(intros ->; cbn in Hly; lia) ltac:(lia) Hy) as [[Fv Bv] Ev].
  assert (p2 k ^ 2 = p2 (k + k)) as Ek by (rewrite bpow_plus; ring). rewrite Ek in Hs. change u with (p2 (-53)) in Ev.
  assert (p2 (-260) <= (3 * INR (length y) + 15) * p2 (-53) * p2 (k + k)) as Hlo.
  { rewrite Rmult_assoc, <- bpow_plus. apply Rle_trans with (1 * p2 (-53 + (k + k))); [rewrite Rmult_1_l; apply bpow_le; lia|].
    apply Rmult_le_compat_r; [apply bpow_ge_0|]. pose proof (pos_INR (length y)). lra. }
  assert (p2 (k + k) <= p2 200) as Hhi by (apply bpow_le; lia).
  assert (rng (p2 (-260)) (p2 200) (pop_var (A64 exp64 log64 sin64 cos64 pow64) y)) as HV.
  { split; [exact Fv|]. apply Rabs_le_inv in Ev. split; [|lra]. lra. }
  destruct (covar_ok exp64 log64 sin64 cos64 pow64 chol y 4 HC ltac:(lia) ltac:(lia) HV) as (L & EL & HL).
  destruct (car1_new64 exp64 log64 sin64 cos64 pow64 t y e HR si raw) as (b & Eb & _).
  exact (C64_car1_completes (A64 exp64 log64 sin64 cos64 pow64) G vsort si chol N burnin t y e thin init raw v0 l0 a0 g b L Hly Hle (kept64 _ _ _ _ _ t y e si HR) Eb Hv EL HL Hv0).
Qed.
Print Assumptions C128_car1_completes.

(** data given by integers *)
Lemma in_range_Z (ts ys es : list Z) : (2 <= length ts)%nat -> (Z.of_nat (length ts) < 2 ^ 50)%Z -> length ys = length ts -> length es = length ts ->
  forallb (fun z => Z.abs z <=? 2 ^ 40)%Z ts = true -> forallb (fun z => Z.abs z <=? 2 ^ 40)%Z ys = true -> forallb (fun z => (1 <=? z) && (z <=? 2 ^ 40))%Z es = true ->
  (forall i, (S i < length ts)%nat -> (nth i ts 0 < nth (S i) ts 0)%Z) -> in_range (map dz ts) (map dz ys) (map dz es).
Proof.
  intros H1 H2 H3 H4 H5 H6 H7 H8. rewrite forallb_forall in H5, H6, H7.
  assert (p2 40 <= p2 100) as P by (apply bpow_le; lia). assert (p2 (-100) <= p2 0) as P1 by (apply bpow_le; lia). change (p2 0) with 1 in P1.
  assert (IZR (2 ^ 40) = p2 40) as E40 by reflexivity.
  assert (forall l i, nth i (map dz l) (ofZ64 0) = ofZ64 (nth i l 0%Z)) as Hn by (intros l i; exact (map_nth dz l 0%Z i)).
  assert (forall z, (Z.abs z <= 2 ^ 40)%Z -> rng (- p2 100) (p2 100) (ofZ64 z) /\ val (ofZ64 z) = IZR z) as Hz.
  { intros z Hz. destruct (ofZ_val z ltac:(lia)) as [F V]. split; [|exact V]. split; [exact F|]. rewrite V.
    assert (IZR (- 2 ^ 40) <= IZR z <= IZR (2 ^ 40)) as B by (split; apply IZR_le; lia). rewrite opp_IZR, E40 in B. lra. }
  assert (forall i, (i < length ts)%nat -> (Z.abs (nth i ts 0) <= 2 ^ 40)%Z) as Ht by (intros i Hi; apply Z.leb_le, H5, nth_In, Hi).
  split; rewrite ?map_length; try assumption.
  - intros i Hi. rewrite Hn. apply Hz, Ht, Hi.
  - intros i Hi. rewrite !Hn. destruct (Hz _ (Ht i ltac:(lia))) as [_ ->]. destruct (Hz _ (Ht (S i) Hi)) as [_ ->]. specialize (H8 i Hi).
    apply Z.le_succ_l in H8. apply IZR_le in H8. unfold Z.succ in H8. rewrite plus_IZR in H8. lra.
  - intros i Hi. rewrite Hn. apply Hz. apply Z.leb_le, H6, nth_In. lia.
  - intros i Hi. rewrite Hn. assert (In (nth i es 0%Z) es) as I by (apply nth_In; lia). specialize (H7 _ I). apply andb_true_iff in H7. destruct H7 as [L1 L2]. apply Z.leb_le in L1, L2.
    destruct (Hz (nth i es 0%Z) ltac:(lia)) as [[F B] V]. split; [exact F|]. rewrite V in *. apply IZR_le in L1. lra.
Qed.

(** C128: the claim that adding a constant to the measurements does not change whether a run is made is false: 0, 1, 0, 1 is accepted, 2^30, 2^30 + 1, 2^30, 2^30 + 1
    is not, although every number here is a double and the variance is 1/4. *)
Theorem C128_zero_level_refuted : exists t y y' e, in_range t y e /\ in_range t y' e /\ (forall i, (i < 4)%nat -> val y'.[i] = val y.[i] + p2 30) /\
  popvarR (map val y) = / 4 /\ popvarR (map val y') = / 4 /\
  forall exp64 log64 sin64 cos64 pow64 (G : EngineModel.rng (A64 exp64 log64 sin64 cos64 pow64)) vsort si chol (raw : kf1 (A64 exp64 log64 sin64 cos64 pow64)),
  chol_checks chol -> chol_diagonal chol -> (forall l, exists s, vsort l = Some s /\ length s = length l) ->
  forall N burnin thin init v0 l0 a0 g, length v0 = 4%nat ->
  (exists w g', RunCar1Sampler (A := A64 exp64 log64 sin64 cos64 pow64) (R := G) vsort si chol N burnin t y e thin init raw v0 l0 a0 g = Ok (w, g')) /\
  RunCar1Sampler (A := A64 exp64 log64 sin64 cos64 pow64) (R := G) vsort si chol N burnin t y' e thin init raw v0 l0 a0 g = Throw Eruntime.
Proof.
  pose proof (fun z H => proj1 (ofZ_val z H)) as Fz. pose proof (fun z H => proj2 (ofZ_val z H)) as Vz.
  set (c := 1073741824%Z). assert (p2 30 = IZR c) as Ec by reflexivity.
  set (t := [dz 0; dz 1; dz 2; dz 3]). set (y := [dz 0; dz 1; dz 0; dz 1]). set (y' := [dz c; dz (c + 1); dz c; dz (c + 1)]). set (e := [dz 1; dz 1; dz 1; dz 1]).
  assert (forall i, (S i < 4)%nat -> (nth i [0; 1; 2; 3] 0 < nth (S i) [0; 1; 2; 3] 0)%Z) as Hinc by (intros i Hi; destruct i as [|[|[|i]]]; cbn [nth]; lia).
  assert (in_range t y e) as HR by (apply (in_range_Z [0; 1; 2; 3] [0; 1; 0; 1] [1; 1; 1; 1])%Z; try reflexivity; try (cbn; lia); exact Hinc).
  assert (in_range t y' e) as HR' by (apply (in_range_Z [0; 1; 2; 3] [c; (c + 1); c; (c + 1)] [1; 1; 1; 1])%Z; try reflexivity; try (cbn; lia); exact Hinc).
  exists t, y, y', e. split; [exact HR|]. split; [exact HR'|].
  split; [intros i Hi; unfold y, y'; destruct i as [|[|[|[|i]]]]; cbn [nth]; try lia; unfold dz; rewrite !Vz by reflexivity; rewrite Ec; unfold c; cbn [Z.add Pos.add]; lra|].
  assert (popvarR (map val y) = / 4) as Py.
  { unfold y, popvarR, avg, dz. cbn [map]. rewrite !Vz by reflexivity. cbn [map fold_right List.length INR]. field. }
  split; [exact Py|].
  split. { unfold y', popvarR, avg, dz. cbn [map]. rewrite !Vz by reflexivity. cbn [map fold_right List.length INR]. rewrite plus_IZR. field. }
  intros exp64 log64 sin64 cos64 pow64 G vsort si chol raw Hch Hdi Hvs N burnin thin init v0 l0 a0 g Hv0. split.
  - apply (C128_car1_completes exp64 log64 sin64 cos64 pow64 G vsort si chol raw t y e 0 Hdi HR ltac:(lia)); [| |apply Hvs|exact Hv0].
    + intros i Hi. unfold y. cbn in Hi. destruct i as [|[|[|[|i]]]]; cbn [nth]; try lia; unfold dz; rewrite Vz by reflexivity; change (p2 0) with 1; apply Rabs_le; lra.
    + rewrite Py. change (p2 0) with 1. cbn [List.length INR y]. assert (p2 (-53) <= p2 (-10)) as P by (apply bpow_le; lia). change (p2 (-10)) with (/ 1024) in P.
      change (INR (length y)) with (1 + 1 + 1 + 1). lra.
  - assert (val (pop_var (A64 exp64 log64 sin64 cos64 pow64) y') <= 0) as H0.
    { assert (Bltb (ofZ64 0) (pop_var (A64 exp64 log64 sin64 cos64 pow64) y') = false /\ is_finite (pop_var (A64 exp64 log64 sin64 cos64 pow64) y') = true) as (H1 & H2)
        by (vm_compute; split; reflexivity).
      exact (nonpos _ H2 H1). }
    apply (proj1 (C128_no_run exp64 log64 sin64 cos64 pow64 G vsort (fun _ => None) (fun _ _ => None) si chol raw (@mkKF (A64 exp64 log64 sin64 cos64 pow64) _ [] [] [] [] [] [] (ofZ64 0) 0%nat (ofZ64 0) (ofZ64 0) (@mkX (A64 exp64 log64 sin64 cos64 pow64) [] [] [] [] [] [] [] [] (ofZ64 0) [] [])) t y' e Hch HR' H0)).
Qed.
Print Assumptions C128_zero_level_refuted.

(** The measurements 0, 1, 0, 1 meet the hypotheses of C128_variance_error and C128_scatter_suffices with k = 0, the measurements of C128_zero_level_refuted those of
    C128_no_run, and there is a factorization with the two properties asked for. *)
Example C128_hypotheses_met : (exists y : list b64, length y = 4%nat /\ (forall x, In x y -> fin x /\ Rabs (val x) <= p2 0) /\
    2 * ((3 * INR (length y) + 15) * p2 (-53) * p2 0 ^ 2) <= popvarR (map val y)) /\
  (exists chol, chol_checks chol /\ chol_diagonal chol) /\
  forall exp64 log64 sin64 cos64 pow64, exists t y e, in_range t y e /\ val (pop_var (A64 exp64 log64 sin64 cos64 pow64) y) <= 0.
Proof.
  pose proof (fun z H => proj1 (ofZ_val z H)) as Fz. pose proof (fun z H => proj2 (ofZ_val z H)) as Vz. split; [|split].
  - exists [dz 0; dz 1; dz 0; dz 1]. split; [reflexivity|]. split.
    + intros x [<-|[<-|[<-|[<-|[]]]]]; (split; [apply Fz; reflexivity|]); unfold dz; rewrite Vz by reflexivity; change (p2 0) with 1; apply Rabs_le; lra.
    + assert (popvarR (map val [dz 0; dz 1; dz 0; dz 1]) = / 4) as ->.
      { unfold popvarR, avg, dz. cbn [map]. rewrite !Vz by reflexivity. cbn [map fold_right List.length INR]. field. }
      change (p2 0) with 1. assert (p2 (-53) <= p2 (-10)) as P by (apply bpow_le; lia). change (p2 (-10)) with (/ 1024) in P. cbn [List.length INR]. lra.
  - exists (fun m => if forallb (fun i => Bltb (ofZ64 0) (nth i (nth i m []) (ofZ64 0))) (seq 0 (length m)) then Some m else None). split.
    + intros m c i E Hi. destruct (forallb _ _) eqn:Ef in E; [|discriminate]. rewrite forallb_forall in Ef. apply Ef. apply in_seq. lia.
    + intros n m H1 H2 H3 _. exists m. replace (forallb _ _) with true; [split; [reflexivity|split; assumption]|]. symmetry. apply forallb_forall. intros i Hi. apply in_seq in Hi.
      destruct (H3 i ltac:(lia)) as [F P]. rewrite (flt_spec (ofZ64 0) _ (Fz 0%Z eq_refl) F). apply Rlt_bool_true. rewrite Vz by reflexivity. exact P.
  - intros. set (c := 1073741824%Z). exists (map dz [0; 1; 2; 3]%Z), (map dz [c; (c + 1); c; (c + 1)]%Z), (map dz [1; 1; 1; 1]%Z). split.
    + apply in_range_Z; try reflexivity; try (cbn; lia). intros i Hi. destruct i as [|[|[|i]]]; cbn [nth List.length] in *; lia.
    + apply nonpos; vm_compute; reflexivity.
Qed.
