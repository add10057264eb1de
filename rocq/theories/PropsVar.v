(** C109: the variance of the measured values in the MCMC drivers (src/carmcmc.cpp L35-38, L85-88), in double precision. *)
From Coq Require Import Reals ZArith Bool Lra Lia List String.
From Flocq Require Import Core BinarySingleNaN.
From Verif Require Import Arith Res ListLemmas KFModel Cx KFpModel KFpProof Spec SpecCarma SpecModel CarpackModel LogLikProof Float64 Float64KF Float64Var.
From Verif Require Import EngineModel StartModel EngineSpec EngineDriver EngineTop TotalTop EngineAX VarRun CholProof.
Import ListNotations.
Local Open Scope R_scope.
Local Notation p2 e := (bpow radix2 e).
Local Notation length := List.length.

(** For all finite doubles, at most 2^450 in size and fewer than 2^50 of them: the computed variance is a finite double which
    differs from the population variance by at most (8 n + 20) 2^-53 times the mean of the squares, plus 2^-1072. *)
Theorem C109_variance_double : forall exp64 log64 sin64 cos64 pow64 (y : list b64),
  y <> [] -> (Z.of_nat (length y) < 2 ^ 50)%Z -> (forall x, In x y -> fin x /\ Rabs (val x) <= p2 450) ->
  fin (pop_var (A64 exp64 log64 sin64 cos64 pow64) y) /\
  Rabs (val (pop_var (A64 exp64 log64 sin64 cos64 pow64) y) - Rsum (fun i => (nth i (map val y) 0 - smean (map val y)) ^ 2) (length y) / INR (length y)) <=
    (8 * INR (length y) + 20) * p2 (-53) * (Rsum (fun i => nth i (map val y) 0 * nth i (map val y) 0) (length y) / INR (length y)) + p2 (-1072).
Proof.
  intros exp64 log64 sin64 cos64 pow64 y Hy Hn HB. pose proof (var_fin y Hy Hn HB) as Fv. split; [exact Fv|].
  pose proof (var_real y Hy Hn Fv) as H. unfold pvar, var_tol, msq in H. rewrite map_length in H. exact H.
Qed.
Print Assumptions C109_variance_double.

(** It is positive if the spread of the values is not lost in their offset: the error bars and the order of the model play no part. *)
Theorem C109_positive_double : forall exp64 log64 sin64 cos64 pow64 (y : list b64),
  y <> [] -> (Z.of_nat (length y) < 2 ^ 50)%Z -> (forall x, In x y -> fin x /\ Rabs (val x) <= p2 450) ->
  (8 * INR (length y) + 20) * p2 (-53) * (Rsum (fun i => nth i (map val y) 0 * nth i (map val y) 0) (length y) / INR (length y)) + p2 (-1072) <
    Rsum (fun i => (nth i (map val y) 0 - smean (map val y)) ^ 2) (length y) / INR (length y) ->
  0 < val (pop_var (A64 exp64 log64 sin64 cos64 pow64) y).
Proof.
  intros exp64 log64 sin64 cos64 pow64 y Hy Hn HB H. destruct (C109_variance_double exp64 log64 sin64 cos64 pow64 y Hy Hn HB) as [_ B].
  apply Rabs_le_inv in B. lra.
Qed.
Print Assumptions C109_positive_double.

(** Hence in a run of doubles which returns, the recorded total standard deviations are non-negative and at most ten times
    the square root of a positive number V within the same distance of the population variance, up to rounding. *)
Theorem C109_stdev_double : forall exp64 log64 sin64 cos64 pow64 (R : rng (A64 exp64 log64 sin64 cos64 pow64)) dsort solve si chol
    fuel N burnin t (y : list b64) e p q nw z thin init raw v0 l0 a0 (g : gen R) w g',
  chol_sane exp64 log64 sin64 cos64 pow64 chol ->
  y <> [] -> (Z.of_nat (length y) < 2 ^ 50)%Z -> (forall x, In x y -> fin x /\ Rabs (val x) <= p2 450) ->
  length y = length t -> length e = length t -> all_kept si t ->
  RunCarmaSampler (R := R) dsort solve si chol fuel N burnin t y e p q nw z thin init raw v0 l0 a0 g = Ok (w, g') ->
  exists V, 0 < V /\
    Rabs (V - Rsum (fun i => (nth i (map val y) 0 - smean (map val y)) ^ 2) (length y) / INR (length y)) <=
      (8 * INR (length y) + 20) * p2 (-53) * (Rsum (fun i => nth i (map val y) 0 * nth i (map val y) 0) (length y) / INR (length y)) + p2 (-1072) /\
    forall i v (s : b64), nth_error (w_samples w) i = Some v -> nth_error v 0 = Some s -> fin s -> 0 <= val s <= 10 * sqrt V * (1 + p2 (-51)) + p2 (-1071).
Proof.
  intros exp64 log64 sin64 cos64 pow64 R dsort solve si chol fuel N burnin t y e p q nw z thin init raw v0 l0 a0 g w g' Hc Hy Hn HB Hl He Hk E.
  destruct (@carma_stdev exp64 log64 sin64 cos64 pow64 R dsort solve si chol Hc fuel N burnin t y e p q nw z thin init raw v0 l0 a0 g w g' (Logic.conj Hy (Logic.conj Hn HB)) Hl He Hk E) as (V & H1 & H2 & H3).
  exists V. split; [exact H1|]. split; [|exact H3]. unfold pvar, var_tol, msq in H2. rewrite map_length in H2. exact H2.
Qed.
Print Assumptions C109_stdev_double.

(** A run (of either driver) returns only if the computed variance is positive. *)
Theorem C109_returns_double : forall exp64 log64 sin64 cos64 pow64 (R : rng (A64 exp64 log64 sin64 cos64 pow64)) vsort dsort solve si chol
    fuel N burnin t (y : list b64) e p q nw z thin init raw raw1 v0 l0 a0 (g : gen R),
  chol_sane exp64 log64 sin64 cos64 pow64 chol ->
  y <> [] -> (Z.of_nat (length y) < 2 ^ 50)%Z -> (forall x, In x y -> fin x /\ Rabs (val x) <= p2 450) ->
  (exists x, RunCarmaSampler (R := R) dsort solve si chol fuel N burnin t y e p q nw z thin init raw v0 l0 a0 g = Ok x) \/
  (exists x, RunCar1Sampler (R := R) vsort si chol N burnin t y e thin init raw1 v0 l0 a0 g = Ok x) ->
  0 < val (pop_var (A64 exp64 log64 sin64 cos64 pow64) y).
Proof.
  intros exp64 log64 sin64 cos64 pow64 R vsort dsort solve si chol fuel N burnin t y e p q nw z thin init raw raw1 v0 l0 a0 g Hc Hy Hn HB [([w g'] & E)|([w g'] & E)].
  - exact (@carma_needs_var exp64 log64 sin64 cos64 pow64 R dsort solve si chol Hc fuel N burnin t y e p q nw z thin init raw v0 l0 a0 g w g' (Logic.conj Hy (Logic.conj Hn HB)) E).
  - exact (@car1_needs_var exp64 log64 sin64 cos64 pow64 R vsort si chol Hc N burnin t y e thin init raw1 v0 l0 a0 g w g' (Logic.conj Hy (Logic.conj Hn HB)) E).
Qed.
Print Assumptions C109_returns_double.

(** That the sampler accepts every data set whose values are not all equal is false in doubles (in exact arithmetic a run from
    an acceptable start returns: carma_completes_real): for the values 2^27, 2^27+1, 2^27, 2^27+1, with variance 1/4, no run
    returns, whatever the times, the error bars, the order of the model and the settings of the sampler. *)
Theorem C109_large_offset_refuted : exists y : list b64,
  length y = 4%nat /\ (forall x, In x y -> fin x /\ Rabs (val x) <= p2 450) /\ map val y = [134217728; 134217729; 134217728; 134217729] /\
  Rsum (fun i => (nth i (map val y) 0 - smean (map val y)) ^ 2) (length y) / INR (length y) = / 4 /\
  forall exp64 log64 sin64 cos64 pow64 (R : rng (A64 exp64 log64 sin64 cos64 pow64)) vsort dsort solve si chol fuel N burnin t e p q nw z thin init raw raw1 v0 l0 a0 (g : gen R),
  chol_sane exp64 log64 sin64 cos64 pow64 chol ->
  (forall x, RunCarmaSampler (R := R) dsort solve si chol fuel N burnin t y e p q nw z thin init raw v0 l0 a0 g <> Ok x) /\
  (forall x, RunCar1Sampler (R := R) vsort si chol N burnin t y e thin init raw1 v0 l0 a0 g <> Ok x).
Proof.
  exists y27. split; [reflexivity|]. pose proof y27_moderate as (Hy & Hn & HB). split; [exact HB|]. split; [exact y27_val|].
  split; [pose proof y27_pvar as E; unfold pvar in E; rewrite map_length in E; exact E|].
  intros exp64 log64 sin64 cos64 pow64 R vsort dsort solve si chol fuel N burnin t e p q nw z thin init raw raw1 v0 l0 a0 g Hc.
  pose proof (C109_returns_double exp64 log64 sin64 cos64 pow64 R vsort dsort solve si chol fuel N burnin t y27 e p q nw z thin init raw raw1 v0 l0 a0 g Hc Hy Hn HB) as H.
  rewrite pop_var64, y27_var in H. split; intros x E; [enough (0 < 0) by lra; apply H; left; exists x; exact E|enough (0 < 0) by lra; apply H; right; exists x; exact E].
Qed.
Print Assumptions C109_large_offset_refuted.

(** ** The hypotheses are met *)
(** a run of doubles which returns.  The libm functions are constants here: the theorems hold for any. *)
Definition one1 (_ : b64) : b64 := ofZ64 1.
Definition zero1 (_ : b64) : b64 := ofZ64 0.
Definition A1 := A64 one1 zero1 zero1 one1 (fun _ _ => ofZ64 1).
Definition t1 := map ofZ64 [0; 1; 16]%Z.
Definition y1 := map ofZ64 [0; 1; 3]%Z.
Definition e1 := map ofZ64 [1; 1; 1]%Z.
Definition th1 := map ofZ64 [1; 1; 0; 0; 0]%Z.
Definition x1 : kpx A1 := mkX (A := A1) [] [] [] [] [] [] [] [] (ofZ64 0) [] [].
Definition raw1 : kfp A1 := mkKF A1 [] [] [] [] [] [] (ofZ64 0) 0 (ofZ64 0) (ofZ64 0) x1.
Definition sv1 (M : list (list (cx A1))) (b : list (cx A1)) : option (list (cx A1)) := Some (map (fun _ => (ofZ64 0, ofZ64 0) : cx A1) b).
(** the Cholesky factorisation of a diagonal matrix *)
Definition chol1 (M : list (list b64)) : option (list (list b64)) :=
  if forallb (fun i => match nth_error M i with None => true | Some row => match nth_error row i with None => true | Some d => Bltb (ofZ64 0) d end end) (seq 0 (length M))
  then Some (map (map (Bsqrt mode_NE)) M) else None.
Definition si1 (l : list (F A1)) : option (list nat) := None.
Lemma chol1_diag (M L : list (list b64)) : chol1 M = Some L -> forall i row, nth_error M i = Some row -> forall d, nth_error row i = Some d -> Bltb (ofZ64 0) d = true.
Proof.
  intros E i row Hi d Hd. unfold chol1 in E. destruct (forallb _ _) eqn:Ef; [|discriminate]. rewrite forallb_forall in Ef.
  assert (i < length M)%nat as Hl by (apply nth_error_Some; rewrite Hi; discriminate). specialize (Ef i). rewrite Hi, Hd in Ef. apply Ef, in_seq. lia.
Qed.
Lemma chol1_sane : chol_sane one1 zero1 zero1 one1 (fun _ _ => ofZ64 1) chol1.
Proof. exact chol1_diag. Qed.
Definition rng1 : rng A1 := @mkRng A1 unit unit (fun _ => tt) (fun (a _ : F A1) (g : unit) => (a, g)) (fun (a _ : Z) g => (a, g)) (fun (m _ : F A1) g => (m, g))
  (fun _ g => (fofZ A1 1, g)) (fun _ g => (fofZ A1 0, g)) (fun _ _ g => (fofZ A1 1, g)) (fun g : unit => (fofZ A1 0, g)) (fun g => (fofZ A1 0, g)).
Definition ok1 : bool :=
  match walker_new (A := A1) si1 raw1 2 false t1 y1 e1 with
  | Ok b => match SetPrior b (fmul A1 (fofZ A1 10) (fsqrt A1 (pop_var A1 y1))) with
    | Ok b1 => match LogDensity (walker_cls sv1 2 0 false) b1 th1 with Ok (l, _) => is_finite l | _ => false end
    | _ => false end
  | _ => false end.
Lemma ok1_true : ok1 = true. Proof. vm_compute. reflexivity. Qed.
Lemma chol1_ok : match chol1 (prop_covar A1 5 y1) with Some L => ((length L =? 5)%nat && forallb (fun r => length r =? 5)%nat L)%bool | None => false end = true.
Proof. vm_compute. reflexivity. Qed.
Lemma dt1_ok : match make_dt A1 t1 with Ok d => match vmin A1 d with Ok m => negb (flt A1 m (fofZ A1 0)) && negb (feq A1 m (fofZ A1 0)) | _ => false end | _ => false end = true.
Proof. vm_compute. reflexivity. Qed.
Lemma kept1 : all_kept si1 t1.
Proof.
  intros X raw y e s E. unfold kf_new, kf_init in E. apply bind_Ok in E. destruct E as (d & Ed & E). cbn [k_time SetTime SetTimeSeries SetTimeSeriesErr] in Ed.
  apply bind_Ok in E. destruct E as (m & Em & E). pose proof dt1_ok as Q. change (A64 one1 zero1 zero1 one1 (fun _ _ => ofZ64 1)) with A1 in *. rewrite Ed in Q. rewrite Em in Q. apply andb_prop in Q. destruct Q as [Q1 Q2].
  apply negb_true_iff in Q1, Q2. rewrite Q1 in E. cbn [bind] in E. cbn [k_dt set_dt] in E. rewrite Em in E. cbn [bind] in E. rewrite Q2 in E. cbn [bind] in E. injection E as <-. reflexivity.
Qed.
Example ex_run_double : exists w g', RunCarmaSampler (A := A1) (R := rng1) (fun l => Some l) sv1 si1 chol1 0 3 2 t1 y1 e1 2 0 2 false 1 th1 raw1 th1 (ofZ64 0) (ofZ64 0) (tt, tt) = Ok (w, g').
Proof.
  pose proof ok1_true as H. unfold ok1 in H. destruct (walker_new (A := A1) si1 raw1 2 false t1 y1 e1) as [b| | |] eqn:Eb; try discriminate.
  destruct (SetPrior b (fmul A1 (fofZ A1 10) (fsqrt A1 (pop_var A1 y1)))) as [b1| | |] eqn:Eb1; try discriminate.
  destruct (LogDensity (walker_cls sv1 2 0 false) b1 th1) as [[l b2]| | |] eqn:EL; try discriminate.
  pose proof chol1_ok as Hc. destruct (chol1 (prop_covar A1 5 y1)) as [L|] eqn:Ec; [|discriminate]. apply andb_prop in Hc. destruct Hc as [H1 H2].
  refine (@carma_completes A1 rng1 (fun l => Some l) sv1 si1 chol1 0 3 2 t1 y1 e1 2 0 2 false 1 th1 raw1 th1 (ofZ64 0) (ofZ64 0) (tt, tt) b b1 l b2 L eq_refl _ _ _ eq_refl eq_refl kept1 Eb Eb1 eq_refl EL H Ec _ eq_refl).
  - lia.
  - right. lia.
  - lia.
  - apply Nat.eqb_eq in H1. split; [exact H1|]. apply List.Forall_forall. intros r Hr. rewrite forallb_forall in H2. apply Nat.eqb_eq, H2, Hr.
Qed.
Example ex_y1_moderate : forall x, In x y1 -> fin x /\ Rabs (val x) <= p2 450.
Proof.
  assert (forall z, (Z.abs z < 2 ^ 53)%Z -> fin (ofZ64 z) /\ Rabs (val (ofZ64 z)) <= p2 450) as H.
  { intros z Hz. destruct (ofZ_val z Hz) as [Fz Vz]. split; [exact Fz|]. rewrite Vz, <- abs_IZR. apply Rle_trans with (p2 53); [|apply bpow_le; lia]. change (p2 53) with (IZR (2 ^ 53)). apply IZR_le. lia. }
  intros x [<-|[<-|[<-|[]]]]; apply H; lia.
Qed.
Example ex_y1_spread : (8 * INR (length y1) + 20) * p2 (-53) * (Rsum (fun i => nth i (map val y1) 0 * nth i (map val y1) 0) (length y1) / INR (length y1)) + p2 (-1072) <
  Rsum (fun i => (nth i (map val y1) 0 - smean (map val y1)) ^ 2) (length y1) / INR (length y1).
Proof.
  assert (map val y1 = [0; 1; 3]) as -> by (unfold y1; cbn [map]; rewrite (proj2 (ofZ_val 0 ltac:(lia))), (proj2 (ofZ_val 1 ltac:(lia))), (proj2 (ofZ_val 3 ltac:(lia))); reflexivity).
  change (length y1) with 3%nat. unfold smean. cbn [Rsum nth length pow INR].
  assert (p2 (-53) <= / 1024) as H1 by (change (/ 1024) with (p2 (-10)); apply bpow_le; lia). assert (p2 (-1072) <= / 1024) as H2 by (change (/ 1024) with (p2 (-10)); apply bpow_le; lia).
  pose proof (bpow_gt_0 radix2 (-53)). pose proof (bpow_gt_0 radix2 (-1072)). lra.
Qed.
