(** C127 along a whole CAR(1) run in double precision. *)
From Coq Require Import Reals ZArith Bool Lra Lia List String.
From Flocq Require Import Core BinarySingleNaN.
From Verif Require Import Arith Res ListLemmas KFModel KF1X History SpecModel CarpackModel LogLikProof EngineModel EngineSpec StartModel EngineInv EngineClass EngineDriver EngineTop EngineRuns RunStates.
From Verif Require Import Float64 Float64KF Float64LD Float64Top FloatErr FloatErrKF FloatErrLD FloatErrAcc FloatVar PropsFloat PropsFloatLD PropsFloatAcc PropsFloatVar.
Import ListNotations.
Local Open Scope R_scope.
Local Notation length := List.length.
Local Notation p2 e := (bpow radix2 e).
Local Notation "l .[ i ]" := (nth i l (ofZ64 0)) (at level 2, format "l .[ i ]").

Section Run.
Variables (exp64 log64 sin64 cos64 : b64 -> b64) (pow64 : b64 -> b64 -> b64).
Local Notation A := (A64 exp64 log64 sin64 cos64 pow64).

(** doubles obey the laws used by C34 *)
Lemma finite_laws64 : finite_laws A.
Proof.
  split; [|reflexivity]. intros a b c H. cbn [A64 ffin fdiv fsub] in *. destruct a as [s|s| |s m ex Hm]; try reflexivity; exfalso;
    destruct b as [s1|s1| |s1 m1 ex1 Hm1]; cbn [Bminus] in H; try (destruct s, s1; cbn in H); destruct c; cbn in H; discriminate H.
Qed.
(** the prior bounds set by RunCar1Sampler *)
Lemma setprior64 t y e (b b1 : base A b64) : in_range t y e -> b_time b = t -> ignore_prior (b_bounds b) = false -> 0 < val (pop_var A y) ->
  SetPrior b (fmul A (fofZ A 10) (fsqrt A (pop_var A y))) = Ok b1 -> bounds64 exp64 log64 sin64 cos64 pow64 (b_bounds b1).
Proof.
  intros HR Et Ei Hv E. pose proof (r_ly _ _ _ HR) as Hly. pose proof (r_n _ _ _ HR) as Hn. pose proof (r_n2 _ _ _ HR) as Hn2.
  assert (forall x, In x y -> rng (- p2 100) (p2 100) x) as Hy.
  { intros x H. apply In_nth with (d := ofZ64 0) in H. destruct H as (i & Hi & <-). apply (r_y _ _ _ HR i). lia. }
  destruct (pop_var_err exp64 log64 sin64 cos64 pow64 100 y ltac:(lia) ltac:(intros ->; cbn in Hly; lia) ltac:(lia) Hy) as [[Fv Bv] _].
  assert (rng 0 (p2 102) (Bsqrt mode_NE (pop_var A y))) as [Fs Bs].
  { apply sqrt_in; try assumption; [apply repr_0|apply repr_p2; lia|lra|]. split; [apply sqrt_pos|].
    apply Rsqr_incr_0_var; [|apply bpow_ge_0]. rewrite Rsqr_sqrt by lra. unfold Rsqr. rewrite <- bpow_plus.
    apply Rle_trans with (p2 (100 + 100)); [lra|apply bpow_le; lia]. }
  assert (rng 0 (p2 120) (Bmult mode_NE (ofZ64 10) (Bsqrt mode_NE (pop_var A y)))) as Hsd.
  { destruct (ofZ_val 10) as [F10 V10]; [reflexivity|]. apply mul_in; try assumption; [apply repr_0|apply repr_p2; lia|]. rewrite V10.
    change (p2 120) with (p2 (18 + 102)). rewrite bpow_plus. change (p2 18) with 262144. pose proof (bpow_gt_0 radix2 102). split; nra. }
  destruct (make_bounds64 exp64 log64 sin64 cos64 pow64 t y e HR _ Hsd) as (bd & Ebd & Hbd).
  unfold SetPrior in E. rewrite Et, Ei in E. apply bind_Ok in E. destruct E as (bd' & Ebd' & Q). injection Q as <-. cbn [b_bounds].
  change (@make_bounds A t (Bmult mode_NE (ofZ64 10) (Bsqrt mode_NE (pop_var A y))) false = Ok bd') in Ebd'. rewrite Ebd in Ebd'. injection Ebd' as <-. exact Hbd.
Qed.
Lemma car1_new_prior si (raw : kf1 A) t y e b : car1_new si raw t y e = Ok b -> ignore_prior (b_bounds b) = false.
Proof.
  unfold car1_new, base_new. intros E. apply bind_Ok in E. destruct E as (v & _ & E). apply bind_Ok in E. destruct E as (bd & Eb & E). apply bind_Ok in E. destruct E as (s & _ & E).
  injection E as <-. cbn [b_bounds]. unfold make_bounds in Eb. do 4 (apply bind_Ok in Eb; destruct Eb as (? & _ & Eb)). injection Eb as <-. reflexivity.
Qed.

(** the decision of C127 for a chain of a run *)
Lemma chain_accept (G : EngineModel.rng A) vsort t y e (b1 : base A b64) r (w : param A (base A b64) (list b64)) (new : list b64) g (k : Z) emin emax (u : b64) g' acc r' w' g2 :
  libm_ok exp64 log64 -> in_range t y e -> (Z.of_nat (length t) <= 2 ^ 40)%Z ->
  b_time b1 = t -> b_y b1 = y -> b_yerr b1 = e -> k_time (b_kf b1) = t -> bounds64 exp64 log64 sin64 cos64 pow64 (b_bounds b1) -> chain_of b1 w ->
  fin (w_logpost w) -> regular k (w_value w) -> regular k new -> CheckPriorBounds1 (A := A) (b_bounds b1) new = Ok true ->
  (-100 <= k <= 100)%Z -> (forall i, (i < length t)%nat -> Rabs (val y.[i]) <= p2 k) ->
  p2 (-100) <= emin -> (forall i, (i < length t)%nat -> emin <= val e.[i] <= emax) ->
  @runiform A G (ofZ64 0) (ofZ64 1) g = (u, g') -> fin u ->
  ram_accept (par1 G vsort) r w new g = Ok (acc, r', w', g2) ->
  exists Lnew Lold, is_logpost t y e new Lnew /\ is_logpost t y e (w_value w) Lold /\ g2 = g' /\
    rng 0 1 (r_alpha r') /\ (acc = true <-> val u < val (r_alpha r')) /\
    Rabs (val (r_alpha r') - Rmin 1 (exp (Lnew - Lold))) <= bound126 (length t) new emin emax k + bound126 (length t) (w_value w) emin emax k + p2 (-49) /\
    (bound126 (length t) new emin emax k + bound126 (length t) (w_value w) emin emax k + p2 (-49) < Rabs (val u - Rmin 1 (exp (Lnew - Lold))) ->
     acc = true <-> val u < Rmin 1 (exp (Lnew - Lold))).
Proof.
  intros (HE & HT & HX & HXR & HA & HL & HG) HR Hn Et Ey Ee Ek Hbd ((Hw & Hst) & Hpl & Htemp) Ff (Lo & Fo & Po & Mo) (Ln & Fn & Pn & Mn) Cn Hk Hy Hem He Eu Fu EA.
  assert (CheckPriorBounds1 (A := A) (b_bounds b1) (w_value w) = Ok true) as Co by exact (@finite_prior A finite_laws64 _ _ _ (car1_cls A) (fun om (_ : list b64) => om) (@pf1 A) (static_of b1) (w_value w) (w_logpost w) Hpl Ff).
  assert (b_time (w_obj w) = t /\ b_y (w_obj w) = y /\ b_yerr (w_obj w) = e /\ b_bounds (w_obj w) = b_bounds b1 /\ k_time (b_kf (w_obj w)) = t) as (E1 & E2 & E3 & E4 & E5).
  { unfold static_of in Hst. injection Hst as S1 S2 S3 S4 S5. rewrite S1, S2, S3, S4, S5. repeat split; assumption. }
  assert (forall th, (4 <= length th)%nat -> (forall i, (i < 4)%nat -> fin th.[i]) -> 0 < val th.[0%nat] -> Rabs (val th.[2%nat]) <= p2 k -> CheckPriorBounds1 (A := A) (b_bounds b1) th = Ok true ->
    exists v b'' x, LogDensity (car1_cls A) (w_obj w) th = Ok (v, b'') /\ rng (- p2 1000) (p2 1000) v /\
      is_loglik (fun a c => val th.[0%nat] * val th.[0%nat] * exp (- (exp (val th.[3%nat]) * Rabs (a - c)))) (map val t) (map val y) (map val e) (val th.[1%nat]) (val th.[2%nat]) x /\
      Rabs (val v - (x + log_sichi (val th.[1%nat]))) <= ld_bound (length t) (val th.[0%nat]) (val th.[1%nat]) emin emax k) as H.
  { intros th Hl Hf Hp Hm Hc.
    assert (theta64 th) as Hth. { split; [exact Hl|]. split; [exact Hf|]. split; [apply Hf; lia|]. apply Rabs_le_inv. apply Rle_trans with (1 := Hm). apply bpow_le. lia. }
    destruct (LD_err exp64 log64 sin64 cos64 pow64 HE HT HX HXR HL HG (w_obj w) th k emin emax) as (v & b2 & x & EL & Fv & Hx & Er); rewrite ?E1, ?E2, ?E3, ?E4, ?E5; try assumption; try reflexivity.
    rewrite E1, E2, E3 in Hx. rewrite E1 in Er. exists v, b2, x. split; [exact EL|]. split; [exact Fv|]. split; [exact Hx|exact Er]. }
  destruct (H _ Lo Fo Po Mo Co) as (vo & bo & xo & Eo & Ro & Hxo & Ero).
  destruct (H _ Ln Fn Pn Mn Cn) as (vn & bn & xn & En & Rn & Hxn & Ern).
  assert (vo = w_logpost w) as Evo.
  { destruct (pld_again1 (A := A) (Logic.conj Hw Hst) Hpl) as (x' & Ex). pose proof (eq_trans (eq_sym Eo) Ex) as Q. injection Q as ->. reflexivity. }
  rewrite Evo in Ro, Ero. destruct (accept_err exp64 log64 sin64 cos64 pow64 HE HX HA vn (w_logpost w) _ _ _ _ Rn Ro Ern Ero) as [Ra Ea].
  destruct (alpha_in vn (w_logpost w) Rn Ro) as (_ & Fal & _).
  exists (xn + log_sichi (val new.[1%nat])), (xo + log_sichi (val (w_value w).[1%nat])).
  pose proof (accept_eq A G _ (par1 G vsort) r w new g vn bn u g' (w_logpost w) (ofZ64 1) Htemp eq_refl En Fal Eu) as Q. cbv zeta in Q. 
  pose proof (eq_trans (eq_sym EA) Q) as Q'. clear EA Q.
  change (fmin A (fexp A (fdiv A (fsub A vn (w_logpost w)) (ofZ64 1))) (fofZ A 1)) with (fmin A (exp64 (Bdiv mode_NE (Bminus mode_NE vn (w_logpost w)) (ofZ64 1))) (ofZ64 1)) in Q'.
  set (a := fmin A (exp64 _) _) in *. cbv zeta in Ra, Ea. injection Q' as -> -> _ ->.
  assert (Bltb u a = true <-> val u < val a) as Hac by (rewrite (flt_spec u a Fu (proj1 Ra)); destruct (Rlt_bool_spec (val u) (val a)); split; intros; try assumption; try reflexivity; [discriminate|lra]).
  split; [exists xn; split; [exact Hxn|reflexivity]|]. split; [exists xo; split; [exact Hxo|reflexivity]|]. split; [reflexivity|].
  cbn [r_alpha]. split; [exact Ra|]. split; [exact Hac|]. split; [exact Ea|].
  change (length t) with (List.length t) in *. intros Hfar. change (flt A u a) with (Bltb u a). rewrite Hac. clear - Ea Hfar. unfold bound126 in *. unfold ld_bound in Ea.
  set (p := Rmin 1 _) in *. clearbody p. set (q := val a) in *. clearbody q. set (x := val u) in *. clearbody x.
  match type of Ea with _ <= ?B => set (bd := B) in * end. clearbody bd. revert Ea Hfar. unfold Rabs. do 2 destruct Rcase_abs; intros; split; intros; lra.
Qed.
Lemma LD_fin (b : base A b64) t y e th k : libm_ok exp64 log64 -> wfb b -> in_range t y e -> b_time b = t -> b_y b = y -> b_yerr b = e -> k_time (b_kf b) = t ->
  bounds64 exp64 log64 sin64 cos64 pow64 (b_bounds b) -> regular k th -> CheckPriorBounds1 (A := A) (b_bounds b) th = Ok true ->
  (Z.of_nat (length t) <= 2 ^ 40)%Z -> (-100 <= k <= 100)%Z ->
  (forall i, (i < length t)%nat -> Rabs (val y.[i]) <= p2 k) -> (forall i, (i < length t)%nat -> 1 <= val e.[i] <= 1) ->
  exists v b', LogDensity (car1_cls A) b th = Ok (v, b') /\ fin v.
Proof.
  intros (O1 & O2 & O3 & O4 & O5 & O6 & O7) Hw HR <- <- <- Ek Hbd (L1 & F1 & Q1 & M1) HC Hn Hk Hy He.
  assert (theta64 th) as Hth.
  { split; [exact L1|]. split; [exact F1|]. split; [apply F1; lia|]. apply Rabs_le_inv. apply Rle_trans with (1 := M1). apply bpow_le. lia. }
  assert (p2 (-100) <= 1) as P1 by (change 1 with (p2 0); apply bpow_le; lia).
  destruct (LD_err exp64 log64 sin64 cos64 pow64 O1 O2 O3 O4 O6 O7 b th k 1 1 Hw HR Ek Hbd Hth HC Hn Hk Hy M1 P1 He Q1) as (v & b2 & x & EL & Fv & _).
  exists v, b2. split; [exact EL|exact (proj1 Fv)].
Qed.
End Run.

(** C127 along a run.  For every completed CAR(1) run on doubles whose starting value has a finite log-posterior: every sweep is one decision about one proposal.
    The log-posterior stays finite, a proposal outside the prior region is rejected, and for a proposal inside it the decision is that of
    C127_acceptance_probability, with nothing assumed about the state of the chain beyond the magnitudes of its parameters. *)
Theorem C127_run : forall exp64 log64 sin64 cos64 pow64 (G : EngineModel.rng (A64 exp64 log64 sin64 cos64 pow64)) vsort si chol
    (raw : kf1 (A64 exp64 log64 sin64 cos64 pow64)) t y e N burnin thin init v0 l0 a0 g w g',
  libm_ok exp64 log64 -> chol_checks chol -> in_range t y e -> (Z.of_nat (length t) <= 2 ^ 40)%Z ->
  RunCar1Sampler (A := A64 exp64 log64 sin64 cos64 pow64) (R := G) vsort si chol N burnin t y e thin init raw v0 l0 a0 g = Ok (w, g') ->
  exists (y0 : sys G (base (A64 exp64 log64 sin64 cos64 pow64) b64)) w0, recorded (par1 G vsort) y0 burnin N thin w g' /\ y_pars y0 = [w0] /\
  (fin (w_logpost w0) ->
   forall i yi yi', sweeps (par1 G vsort) (@student_draw _ G) i y0 yi -> sweeps (par1 G vsort) (@student_draw _ G) 1 yi yi' ->
   exists (wi wi' : param (A64 exp64 log64 sin64 cos64 pow64) (base (A64 exp64 log64 sin64 cos64 pow64) b64) (list b64)) ri (new : list b64) g1 acc r1 w1,
     y_pars yi = [wi] /\ y_pars yi' = [wi'] /\ y_steps yi = [SRam 0 ri] /\ fin (w_logpost wi) /\
     ram_accept (par1 G vsort) ri wi new g1 = Ok (acc, r1, w1, y_gen yi') /\ w_value wi' = (if acc then new else w_value wi) /\
     (CheckPriorBounds1 (A := A64 exp64 log64 sin64 cos64 pow64) (b_bounds (w_obj wi)) new = Ok false -> acc = false /\ r_alpha r1 = ofZ64 0) /\
     (CheckPriorBounds1 (A := A64 exp64 log64 sin64 cos64 pow64) (b_bounds (w_obj wi)) new = Ok true ->
      forall (k : Z) emin emax (u : b64) g2, regular k (w_value wi) -> regular k new ->
      (-100 <= k <= 100)%Z -> (forall i, (i < length t)%nat -> Rabs (val y.[i]) <= p2 k) ->
      p2 (-100) <= emin -> (forall i, (i < length t)%nat -> emin <= val e.[i] <= emax) ->
      @runiform (A64 exp64 log64 sin64 cos64 pow64) G (ofZ64 0) (ofZ64 1) g1 = (u, g2) -> fin u ->
      exists Lnew Lold, is_logpost t y e new Lnew /\ is_logpost t y e (w_value wi) Lold /\ y_gen yi' = g2 /\
        rng 0 1 (r_alpha r1) /\ (acc = true <-> val u < val (r_alpha r1)) /\
        Rabs (val (r_alpha r1) - Rmin 1 (exp (Lnew - Lold))) <= bound126 (length t) new emin emax k + bound126 (length t) (w_value wi) emin emax k + p2 (-49) /\
        (bound126 (length t) new emin emax k + bound126 (length t) (w_value wi) emin emax k + p2 (-49) < Rabs (val u - Rmin 1 (exp (Lnew - Lold))) ->
         acc = true <-> val u < Rmin 1 (exp (Lnew - Lold))))).
Proof.
  intros exp64 log64 sin64 cos64 pow64 G vsort si chol raw t y e N burnin thin init v0 l0 a0 g w g' HO Hch HR Hn E.
  pose proof (r_ly _ _ _ HR) as Hly. pose proof (r_le _ _ _ HR) as Hle. pose proof (r_n _ _ _ HR) as Hn1. pose proof (r_n2 _ _ _ HR) as Hn2.
  destruct (@car1_states (A64 exp64 log64 sin64 cos64 pow64) G vsort si chol N burnin t y e thin init raw v0 l0 a0 g w g' Hly Hle (kept64 exp64 log64 sin64 cos64 pow64 t y e si HR) E) as (b & b1 & r & y0 & Eb & Eb1 & Er & Hwf & Hrec & Hst).
  destruct (Hst 0%nat y0 (sw_0 _ _ y0)) as (w0 & r0 & Ey0 & _ & _). exists y0, w0. split; [exact Hrec|]. split; [exact Ey0|]. intros F0 i yi yi' Hi Hi'.
  assert (bounds64 exp64 log64 sin64 cos64 pow64 (b_bounds b1) /\ b_time b1 = t /\ b_y b1 = y /\ b_yerr b1 = e /\ k_time (b_kf b1) = t) as (Hbd & B1 & B2 & B3 & B4).
  { destruct (car1_new64 exp64 log64 sin64 cos64 pow64 t y e HR si raw) as (b' & Eb' & W & T1 & T2 & T3 & T4 & _). pose proof (eq_trans (eq_sym Eb) Eb') as Q. injection Q as <-.
    destruct (EngineDriver.SetPrior_ok W Eb1) as (_ & S1 & S2 & S3 & S4). split; [|rewrite S1, S2, S3, S4; repeat split; assumption].
    apply (setprior64 exp64 log64 sin64 cos64 pow64 t y e b b1 HR T1 (car1_new_prior _ _ _ _ _ _ _ _ _ _ _ Eb)); [|exact Eb1].
    destruct (ram_new_some _ _ _ _ _ _ _ Er) as (c & Ec).
    assert (forall x, In x y -> rng (- p2 100) (p2 100) x) as Hy.
    { intros x H. apply In_nth with (d := ofZ64 0) in H. destruct H as (j & Hj & <-). apply (r_y _ _ _ HR j). lia. }
    destruct (pop_var_err exp64 log64 sin64 cos64 pow64 100 y ltac:(lia) ltac:(intros ->; cbn in Hly; lia) ltac:(lia) Hy) as [[Fv _] _].
    exact (chol_var exp64 log64 sin64 cos64 pow64 chol y 4 c Hch ltac:(lia) ltac:(lia) ltac:(lia) Fv Ec). }
  destruct (Hst i yi Hi) as (wi & ri & Eyi & Esi & Hci).
  assert (fin (w_logpost wi)) as Fi.
  { pose proof (finite_laws64 exp64 log64 sin64 cos64 pow64) as FL.
    assert (Forall (@finw (A64 exp64 log64 sin64 cos64 pow64) (base (A64 exp64 log64 sin64 cos64 pow64) b64)) (y_pars yi)) as K; [|rewrite Eyi in K; inversion K; assumption].
    refine (sweeps_fin (P := par1 G vsort) (ok := @okb (A64 exp64 log64 sin64 cos64 pow64) _ (static_of b1)) (pld := pld1 (static_of b1))
      (fun x v l x' H E => @LD1_ok (A64 exp64 log64 sin64 cos64 pow64) (static_of b1) x v l x' H E) (fl_ratio FL) Hi _ _).
    - destruct (Hst 0%nat y0 (sw_0 _ _ y0)) as (w0' & r0' & Ey0' & _ & C1 & C2 & _). rewrite Ey0'. constructor; [split; assumption|constructor].
    - rewrite Ey0. constructor; [exact F0|constructor]. }
  inversion Hi' as [|n ya yb yc Hz Ho En]; subst. inversion Hz; subst. rewrite Eyi, Esi in Ho.
  destruct (sweep_decision Ho) as (new & g1 & acc & r1 & w1 & g2 & wi' & Ea & Ews & Eg & Ev).
  exists wi, wi', ri, new, g1, acc, r1, w1. rewrite Eg. split; [exact Eyi|]. split; [exact Ews|]. split; [exact Esi|]. split; [exact Fi|]. split; [exact Ea|]. split; [exact Ev|].
  assert (b_bounds (w_obj wi) = b_bounds b1) as Ebd by (destruct Hci as ((_ & Q) & _); exact (f_equal (@st_bounds _) Q)).
  split.
  - intros Hc. destruct (C127_outside exp64 log64 sin64 cos64 pow64 G vsort ri wi new g1 Hc (proj2 (proj2 Hci)) Fi) as (r' & w' & E' & Hal).
    pose proof (eq_trans (eq_sym Ea) E') as Q. injection Q as -> -> _ _. split; [reflexivity|exact Hal].
  - intros Hc k emin emax u g3 Rw Rn Hk Hyk Hem He Eu Fu. pose proof (eq_trans (f_equal (fun bd => CheckPriorBounds1 (A := A64 exp64 log64 sin64 cos64 pow64) bd new) (eq_sym Ebd)) Hc) as Hc'.
    apply (chain_accept exp64 log64 sin64 cos64 pow64 G vsort (b_time b1) (b_y b1) (b_yerr b1) b1 ri wi new g1 k emin emax u g3 acc r1 w1 g2); try assumption; try reflexivity.
Qed.
Print Assumptions C127_run.

Lemma SetPrior_bounds {A : Arith} {X} (b b1 : base A X) t sd : b_time b = t -> ignore_prior (b_bounds b) = false ->
  SetPrior b sd = Ok b1 -> @make_bounds A t sd false = Ok (b_bounds b1).
Proof. intros <- E. unfold SetPrior. rewrite E. destruct (@make_bounds A (b_time b) sd false); cbn [bind]; intros H; try discriminate H. injection H as <-. reflexivity. Qed.

(** A run that meets the hypotheses: the measurements 0, 1, 0, 1 at the times 0, 1, 2, 3 with unit error bars, the init (1, 1, 0, 0), one sample.  For every generator
    it completes, and its starting value has a finite log-posterior. *)
Example C127_run_hypotheses_met : exists exp64 log64 chol, libm_ok exp64 log64 /\ chol_checks chol /\ exists t y e, in_range t y e /\
  forall sin64 cos64 pow64 (G : EngineModel.rng (A64 exp64 log64 sin64 cos64 pow64)) si (raw : kf1 (A64 exp64 log64 sin64 cos64 pow64)) l0 a0 g,
  exists vsort init v0 w g', RunCar1Sampler (A := A64 exp64 log64 sin64 cos64 pow64) (R := G) vsort si chol 1 0 t y e 1 init raw v0 l0 a0 g = Ok (w, g') /\
    exists y0 w0 y1, recorded (par1 G vsort) y0 0 1 1 w g' /\ y_pars y0 = [w0] /\ fin (w_logpost w0) /\ regular 0 (w_value w0) /\ sweeps (par1 G vsort) (@student_draw _ G) 1 y0 y1.
Proof.
  destruct libm_exists as (exp64 & log64 & He & Hl). destruct (exp_correct_sane _ He) as [H1 H2].
  assert (libm_ok exp64 log64) as HO.
  { split; [exact H1|]. split; [exact H2|]. split; [apply exp_correct_accurate, He|]. split; [apply exp_correct_relative, He|]. split; [apply exp_correct_above, He|].
    split; [apply log_correct_sane, Hl|apply log_correct_accurate, Hl]. }
  destruct C128_hypotheses_met as (_ & (chol & Hc1 & Hc2) & _).
  pose proof (fun z H => proj1 (ofZ_val z H)) as Fz. pose proof (fun z H => proj2 (ofZ_val z H)) as Vz.
  exists exp64, log64, chol. split; [exact HO|]. split; [exact Hc1|].
  pose (t := [dz 0; dz 1; dz 2; dz 3]). pose (y := [dz 0; dz 1; dz 0; dz 1]). pose (e := [dz 1; dz 1; dz 1; dz 1]). pose (th := [dz 1; dz 1; dz 0; dz 0]).
  assert (in_range t y e) as HR.
  { apply (in_range_Z [0; 1; 2; 3] [0; 1; 0; 1] [1; 1; 1; 1])%Z; try reflexivity; try (cbn; lia). intros i Hi. destruct i as [|[|[|i]]]; cbn [nth List.length] in *; lia. }
  exists t, y, e. split; [exact HR|]. intros sin64 cos64 pow64 G si raw l0 a0 g. pose (A := A64 exp64 log64 sin64 cos64 pow64).
  pose (vs := (fun l : list b64 => Some l)).
  assert (popvarR (map val y) = / 4) as Py.
  { unfold y, popvarR, avg, dz. cbn [map]. rewrite !Vz by reflexivity. cbn [map fold_right List.length INR]. field. }
  assert (forall i, (i < 4)%nat -> Rabs (val y.[i]) <= p2 0) as By.
  { intros i Hi. unfold y. destruct i as [|[|[|[|i]]]]; cbn [nth]; try lia; unfold dz; rewrite Vz by reflexivity; change (p2 0) with 1; apply Rabs_le; lra. }
  assert (forall i, (i < 4)%nat -> 1 <= val e.[i] <= 1) as Be.
  { intros i Hi. unfold e. destruct i as [|[|[|[|i]]]]; cbn [nth]; try lia; unfold dz; rewrite Vz by reflexivity; lra. }
  assert (regular 0 th) as Hreg.
  { split; [cbn; lia|]. split; [intros i Hi; destruct i as [|[|[|[|i]]]]; try lia; apply Fz; reflexivity|]. unfold th. cbn [nth]. unfold dz. rewrite !Vz by reflexivity.
    split; [lra|]. rewrite Rabs_R0. change (p2 0) with 1. lra. }
  destruct (C128_car1_completes exp64 log64 sin64 cos64 pow64 G vs si chol raw t y e 0 Hc2 HR ltac:(lia) By) with (N := 1%nat) (burnin := 0%nat) (thin := 1%nat) (init := th) (v0 := th) (l0 := l0) (a0 := a0) (g := g) as (w & g' & ERun).
  { rewrite Py. change (p2 0) with 1. assert (p2 (-53) <= p2 (-10)) as P by (apply bpow_le; lia). change (p2 (-10)) with (/ 1024) in P. change (INR (length y)) with (1 + 1 + 1 + 1). lra. }
  { exists (diffs A t). split; reflexivity. }
  { reflexivity. }
  exists vs, th, th, w, g'. split; [exact ERun|].
  pose proof (kept64 exp64 log64 sin64 cos64 pow64 t y e si HR) as Hk. pose proof (r_ly _ _ _ HR) as Hly. pose proof (r_le _ _ _ HR) as Hle.
  destruct (@car1_states A G vs si chol 1 0 t y e 1 th raw th l0 a0 g w g' Hly Hle Hk ERun) as (b & b1 & r & y0' & Eb & Eb1 & Er & Hwf & _).
  assert (exp64 (dz 0) = dz 1) as E1.
  { destruct He as [He _]. specialize (He (dz 0) (Fz 0%Z eq_refl)). unfold dz in *. rewrite Vz in He by reflexivity. rewrite exp_0 in He. unfold rounds in He.
    rewrite (rnd_repr 1 repr_1), Rlt_bool_true in He by apply repr_1. destruct He as [F V].
    apply (B2R_inj 53 1024); [|reflexivity|fold (val (exp64 (ofZ64 0))) (val (ofZ64 1)); rewrite V, Vz by reflexivity; reflexivity].
    destruct (pos_sign (exp64 (ofZ64 0))) as (m & ex & Hm & ->); [lra|reflexivity]. }
  destruct (car1_new64 exp64 log64 sin64 cos64 pow64 t y e HR si raw) as (b' & Eb' & W & T1 & T2 & T3 & T4 & _). pose proof (eq_trans (eq_sym Eb) Eb') as Q. injection Q as <-.
  destruct (EngineDriver.SetPrior_ok W Eb1) as (_ & S1 & S2 & S3 & S4).
  pose proof (car1_new_prior exp64 log64 sin64 cos64 pow64 si raw t y e b Eb) as Eip.
  assert (CheckPriorBounds1 (A := A) (b_bounds b1) th = Ok true) as HC.
  { pose proof (@SetPrior_bounds A b64 b b1 t _ T1 Eip Eb1) as E.
    pose (chk := fun (bd : bounds A) => negb (flt A (max_freq bd) (dz 1) || flt A (dz 1) (min_freq bd) || scalar_bad bd (dz 1) (dz 1))).
    assert (match @make_bounds A t (fmul A (fofZ A 10) (fsqrt A (pop_var A y))) false with Ok bd => chk bd = true | _ => False end) as K by (vm_compute; reflexivity).
    assert (chk (b_bounds b1) = true) as K1 by (revert K; generalize (eq_refl (@make_bounds A t (fmul A (fofZ A 10) (fsqrt A (pop_var A y))) false));
      destruct (@make_bounds A t (fmul A (fofZ A 10) (fsqrt A (pop_var A y))) false) at 2 3; intros Q K; pose proof (eq_trans (eq_sym E) Q) as Q2; try discriminate Q2; injection Q2 as Q3; exact (eq_trans (f_equal chk Q3) K)).
    unfold th, CheckPriorBounds1, vget. cbn [nth_error bind].
    change (fexp A (dz 0)) with (exp64 (dz 0)). rewrite E1. exact (f_equal (@Ok bool) K1). }
  assert (bounds64 exp64 log64 sin64 cos64 pow64 (b_bounds b1)) as Hbd.
  { apply (setprior64 exp64 log64 sin64 cos64 pow64 t y e b b1 HR T1 Eip); [|exact Eb1].
    apply (C128_scatter_suffices exp64 log64 sin64 cos64 pow64 y 0 ltac:(lia)); [discriminate|cbn; lia| |].
    - intros x Hx. apply In_nth with (d := ofZ64 0) in Hx. destruct Hx as (i & Hi & <-). split; [apply (r_y _ _ _ HR i); exact Hi|apply By; exact Hi].
    - rewrite Py. change (p2 0) with 1. assert (p2 (-53) <= p2 (-10)) as P by (apply bpow_le; lia). change (p2 (-10)) with (/ 1024) in P. change (INR (length y)) with (1 + 1 + 1 + 1). lra. }
  destruct (LD_fin exp64 log64 sin64 cos64 pow64 b1 t y e th 0 HO (proj1 (EngineDriver.SetPrior_ok W Eb1)) HR (eq_trans S1 T1) (eq_trans S2 T2) (eq_trans S3 T3)
    (eq_trans (f_equal (@k_time _ _) S4) T4) Hbd Hreg HC ltac:(cbn; lia) ltac:(lia) By Be) as (v & b2 & EL & Fv).
  destruct (car1_starts_at_init (A := A) (R := G) (vsort := vs) (si := si) (chol := chol) (N := 1) (burnin := 0) (t := t) (y := y) (e := e) (thin := 1) (init := th) (raw := raw) (v0 := th) (l0 := l0) (a0 := a0) (g := g) (w := w) (g' := g')
    (b := b) (b1 := b1) (lp := v) (b2 := b2) eq_refl Hly Hle Hk Eb Eb1 eq_refl eq_refl EL Fv ERun) as (r' & y0 & w0 & _ & _ & Hrec & _ & Ey0 & Ev & Elp & _).
  destruct (proj1 (proj2 (proj2 Hrec)) 0%nat ltac:(lia)) as (y1 & w1 & Hs1 & _).
  exists y0, w0, y1. split; [exact Hrec|]. split; [exact Ey0|]. split; [exact (eq_ind_r (fun z => fin z) Fv Elp)|]. split; [exact (eq_ind_r (fun z => regular 0 z) Hreg Ev)|exact Hs1].
Qed.
