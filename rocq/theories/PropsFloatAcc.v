(** C127: the Metropolis decision of a CAR(1) run in double precision. *)
From Coq Require Import Reals ZArith Bool Lra Lia List String.
From Flocq Require Import Core BinarySingleNaN.
From Verif Require Import Arith Res ListLemmas KFModel KF1X History SpecModel CarpackModel LogLikProof EngineModel StartModel.
From Verif Require Import Float64 Float64KF Float64LD Float64Top FloatErrKF FloatErrLD FloatErrAcc PropsFloat PropsFloatLD.
Import ListNotations.
Local Open Scope R_scope.
Local Notation length := List.length.
Local Notation p2 e := (bpow radix2 e).
Local Notation "l .[ i ]" := (nth i l (ofZ64 0)) (at level 2, format "l .[ i ]").

(** The exact logarithm of the posterior density at a parameter vector of doubles, without the constant -(n/2) log(2 pi). *)
Definition is_logpost (t y e th : list b64) (L : R) : Prop := exists x,
  is_loglik (fun a c => val th.[0%nat] * val th.[0%nat] * exp (- (exp (val th.[3%nat]) * Rabs (a - c)))) (map val t) (map val y) (map val e)
    (val th.[1%nat]) (val th.[2%nat]) x /\ L = x + log_sichi (val th.[1%nat]).
(** The bound of C126. *)
Definition bound126 (n : nat) (th : list b64) (emin emax : R) (k : Z) : R :=
  p2 17 * INR n ^ 3 * p2 (-53) * ((val th.[0%nat] ^ 2 + val th.[1%nat] * emax ^ 2) / (val th.[1%nat] * emin ^ 2)) * (1 + p2 k ^ 2 / (val th.[1%nat] * emin ^ 2)).
(** Four finite parameters with sd > 0 and |mu| <= 2^k. *)
Definition regular (k : Z) (th : list b64) : Prop :=
  (4 <= length th)%nat /\ (forall i, (i < 4)%nat -> fin th.[i]) /\ 0 < val th.[0%nat] /\ Rabs (val th.[2%nat]) <= p2 k.
(** What is asked of libm. *)
Definition libm_ok (exp64 log64 : b64 -> b64) : Prop :=
  exp_sane exp64 /\ exp_total exp64 /\ exp_accurate exp64 /\ exp_relative exp64 /\ exp_above exp64 /\ log_sane log64 /\ log_accurate log64.

Lemma accept_eq (A : Arith) (G : EngineModel.rng A) X (P : methodsP G X (list (F A))) r (w : param A X (list (F A))) new g l x u g' lp tmp :
  w_temp w = tmp -> w_logpost w = lp -> o_LogDensity P (w_obj w) new = Ok (l, x) -> ffin A (fdiv A (fsub A l lp) tmp) = true -> runiform (fofZ A 0) (fofZ A 1) g = (u, g') ->
  let a := fmin A (fexp A (fdiv A (fsub A l lp) tmp)) (fofZ A 1) in
  ram_accept P r w new g = Ok (flt A u a, mkRam (r_chol r) (r_gamma r) (r_target r) (r_niter r) (if flt A u a then S (r_naccept r) else r_naccept r) (r_maxiter r) a, set_obj w x, g').
Proof.
  intros <- <- EL Ef Eu. cbv zeta. unfold ram_accept, LD. rewrite EL. cbn [bind set_obj w_logpost w_temp]. rewrite Ef. cbn [negb]. rewrite Eu. destruct (flt A u _); reflexivity.
Qed.

Lemma reject_eq (A : Arith) (G : EngineModel.rng A) X (P : methodsP G X (list (F A))) r (w : param A X (list (F A))) new g l x lp tmp :
  w_temp w = tmp -> w_logpost w = lp -> o_LogDensity P (w_obj w) new = Ok (l, x) -> ffin A (fdiv A (fsub A l lp) tmp) = false ->
  ram_accept P r w new g = Ok (false, mkRam (r_chol r) (r_gamma r) (r_target r) (r_niter r) (r_naccept r) (r_maxiter r) (fofZ A 0), set_obj w x, g).
Proof. intros <- <- EL Ef. unfold ram_accept, LD. rewrite EL. cbn [bind set_obj w_logpost w_temp]. rewrite Ef. reflexivity. Qed.
Lemma outside_eq (A : Arith) (b : base A (F A)) th : CheckPriorBounds1 (b_bounds b) th = Ok false -> LogDensity (car1_cls A) b th = Ok (fneg A (finf A), b).
Proof. intros H. unfold LogDensity. cbn [car1_cls v_Check]. rewrite H. reflexivity. Qed.

(** C127.  The setting of C126.  [w] is a CAR1 object of a run (temperature 1) whose recorded log-posterior is LogDensity of its value (C33), and
    value and proposal lie in the prior region.  Then AdaptiveMetro::Accept takes one uniform variate and accepts if it is less than a number
    alpha which differs from the exact acceptance probability min(1, posterior(proposal)/posterior(value)) by at most the two bounds of C126
    and 2^-49; alpha is what the adaptation then uses.  So the decision is the one of exact arithmetic unless the variate is that close to
    the exact probability. *)
Theorem C127_acceptance_probability : forall exp64 log64 sin64 cos64 pow64 (G : EngineModel.rng (A64 exp64 log64 sin64 cos64 pow64)) vsort si
    (raw : kf1 (A64 exp64 log64 sin64 cos64 pow64)) t y e,
  libm_ok exp64 log64 -> in_range t y e -> (Z.of_nat (length t) <= 2 ^ 40)%Z ->
  exists b, car1_new si raw t y e = Ok b /\
  forall r (w : param (A64 exp64 log64 sin64 cos64 pow64) (base (A64 exp64 log64 sin64 cos64 pow64) b64) (list b64)) (new : list b64) g (k : Z) emin emax (u : b64) g',
    touched (car1_cls (A64 exp64 log64 sin64 cos64 pow64)) (@setpar1 (A64 exp64 log64 sin64 cos64 pow64)) b (w_obj w) ->
    w_temp w = ofZ64 1 -> (exists b1, LogDensity (car1_cls (A64 exp64 log64 sin64 cos64 pow64)) (w_obj w) (w_value w) = Ok (w_logpost w, b1)) ->
    regular k (w_value w) -> regular k new -> CheckPriorBounds1 (b_bounds b) (w_value w) = Ok true -> CheckPriorBounds1 (b_bounds b) new = Ok true ->
    (-100 <= k <= 100)%Z -> (forall i, (i < length t)%nat -> Rabs (val y.[i]) <= p2 k) ->
    p2 (-100) <= emin -> (forall i, (i < length t)%nat -> emin <= val e.[i] <= emax) ->
    @runiform (A64 exp64 log64 sin64 cos64 pow64) G (ofZ64 0) (ofZ64 1) g = (u, g') -> fin u ->
    exists Lnew Lold acc r' w', ram_accept (par1 G vsort) r w new g = Ok (acc, r', w', g') /\
      is_logpost t y e new Lnew /\ is_logpost t y e (w_value w) Lold /\
      rng 0 1 (r_alpha r') /\ (acc = true <-> val u < val (r_alpha r')) /\
      Rabs (val (r_alpha r') - Rmin 1 (exp (Lnew - Lold))) <= bound126 (length t) new emin emax k + bound126 (length t) (w_value w) emin emax k + p2 (-49) /\
      (bound126 (length t) new emin emax k + bound126 (length t) (w_value w) emin emax k + p2 (-49) < Rabs (val u - Rmin 1 (exp (Lnew - Lold))) ->
       acc = true <-> val u < Rmin 1 (exp (Lnew - Lold))).
Proof.
  intros exp64 log64 sin64 cos64 pow64 G vsort si raw t y e (HE & HT & HX & HXR & HA & HL & HG) HR Hn.
  destruct (object_err exp64 log64 sin64 cos64 pow64 si raw t y e HE HT HX HXR HL HG HR Hn) as (b & Eb & H). exists b. split; [exact Eb|].
  intros r w new g k emin emax u g' Htc Htemp [b1 Eold] (Lo & Fo & Po & Mo) (Ln & Fn & Pn & Mn) Co Cn Hk Hy Hem He Eu Fu.
  destruct (H _ _ k emin emax Htc Lo Fo Co Po Hk Hy Mo Hem He) as (vo & bo & xo & Eo & Ro & Hxo & Ero). rewrite Eold in Eo. injection Eo as Evo _.
  destruct (H _ _ k emin emax Htc Ln Fn Cn Pn Hk Hy Mn Hem He) as (vn & bn & xn & En & Rn & Hxn & Ern).
  rewrite <- Evo in Ro, Ero. destruct (accept_err exp64 log64 sin64 cos64 pow64 HE HX HA vn (w_logpost w) _ _ _ _ Rn Ro Ern Ero) as [Ra Ea].
  destruct (alpha_in vn (w_logpost w) Rn Ro) as (_ & Fal & _).
  exists (xn + log_sichi (val new.[1%nat])), (xo + log_sichi (val (w_value w).[1%nat])).
  pose proof (accept_eq (A64 exp64 log64 sin64 cos64 pow64) G _ (par1 G vsort) r w new g vn bn u g' (w_logpost w) (ofZ64 1) Htemp eq_refl En Fal Eu) as Q. cbv zeta in Q.
  change (fmin (A64 exp64 log64 sin64 cos64 pow64) (fexp (A64 exp64 log64 sin64 cos64 pow64) (fdiv (A64 exp64 log64 sin64 cos64 pow64) (fsub (A64 exp64 log64 sin64 cos64 pow64) vn (w_logpost w)) (ofZ64 1))) (fofZ (A64 exp64 log64 sin64 cos64 pow64) 1))
    with (fmin (A64 exp64 log64 sin64 cos64 pow64) (exp64 (Bdiv mode_NE (Bminus mode_NE vn (w_logpost w)) (ofZ64 1))) (ofZ64 1)) in Q.
  set (a := fmin (A64 exp64 log64 sin64 cos64 pow64) (exp64 _) _) in *. cbv zeta in Ra, Ea.
  assert (Bltb u a = true <-> val u < val a) as Hac by (rewrite (flt_spec u a Fu (proj1 Ra)); destruct (Rlt_bool_spec (val u) (val a)); split; intros; try assumption; try reflexivity; [discriminate|lra]).
  eexists _, _, _. split; [exact Q|]. split; [exists xn; split; [exact Hxn|reflexivity]|]. split; [exists xo; split; [exact Hxo|reflexivity]|].
  cbn [r_alpha]. split; [exact Ra|]. split; [exact Hac|]. split; [exact Ea|].
  change (length t) with (List.length t) in *. intros Hfar. rewrite Hac. clear - Ea Hfar. unfold bound126 in *. unfold ld_bound in Ea.
  set (p := Rmin 1 _) in *. clearbody p. set (q := val a) in *. clearbody q. set (x := val u) in *. clearbody x.
  match type of Ea with _ <= ?B => set (bd := B) in * end. clearbody bd. revert Ea Hfar. unfold Rabs. do 2 destruct Rcase_abs; intros; split; intros; lra.
Qed.
Print Assumptions C127_acceptance_probability.

(** C127: a proposal outside the prior region is rejected without taking a uniform variate, if the recorded log-posterior is finite, and 0 is
    what the adaptation then uses. *)
Theorem C127_outside : forall exp64 log64 sin64 cos64 pow64 (G : EngineModel.rng (A64 exp64 log64 sin64 cos64 pow64)) vsort
    r (w : param (A64 exp64 log64 sin64 cos64 pow64) (base (A64 exp64 log64 sin64 cos64 pow64) b64) (list b64)) (new : list b64) g,
  CheckPriorBounds1 (A := A64 exp64 log64 sin64 cos64 pow64) (b_bounds (w_obj w)) new = Ok false -> w_temp w = ofZ64 1 -> fin (w_logpost w) ->
  exists r' w', ram_accept (par1 G vsort) r w new g = Ok (false, r', w', g) /\ r_alpha r' = ofZ64 0.
Proof.
  intros exp64 log64 sin64 cos64 pow64 G vsort r w new g HC Htemp Ff. eexists _, _. split; [|].
  - apply (reject_eq (A64 exp64 log64 sin64 cos64 pow64) G _ (par1 G vsort) r w new g (B754_infinity true) (w_obj w) (w_logpost w) (ofZ64 1) Htemp eq_refl).
    + exact (outside_eq (A64 exp64 log64 sin64 cos64 pow64) (w_obj w) new HC).
    + cbn [A64 ffin fdiv fsub]. unfold fin in Ff. clear - Ff. destruct (w_logpost w); try discriminate Ff; reflexivity.
  - reflexivity.
Qed.
Print Assumptions C127_outside.

(** What is asked of libm holds of a correctly rounded one.  The measurements -1, 0, 1 at the times 0, 1, 2 with unit error bars, a value (1, 1, 0, 0) and a
    proposal (2, 1, 0, 0) meet the rest, with a generator whose uniform variates are finite. *)
Example C127_hypotheses_met : exists exp64 log64, libm_ok exp64 log64 /\ forall sin64 cos64 pow64 si (raw : kf1 (A64 exp64 log64 sin64 cos64 pow64)) vsort,
  exists (G : EngineModel.rng (A64 exp64 log64 sin64 cos64 pow64)) t y e b r (w : param (A64 exp64 log64 sin64 cos64 pow64) (base (A64 exp64 log64 sin64 cos64 pow64) b64) (list b64)) (new : list b64) g u g', in_range t y e /\ car1_new si raw t y e = Ok b /\
    touched (car1_cls (A64 exp64 log64 sin64 cos64 pow64)) (@setpar1 (A64 exp64 log64 sin64 cos64 pow64)) b (w_obj w) /\
    w_temp w = ofZ64 1 /\ (exists b1, LogDensity (car1_cls (A64 exp64 log64 sin64 cos64 pow64)) (w_obj w) (w_value w) = Ok (w_logpost w, b1)) /\
    w_value w <> new /\ regular 0 (w_value w) /\ regular 0 new /\ CheckPriorBounds1 (b_bounds b) (w_value w) = Ok true /\ CheckPriorBounds1 (b_bounds b) new = Ok true /\
    (forall i, (i < length t)%nat -> Rabs (val y.[i]) <= p2 0) /\ (forall i, (i < length t)%nat -> 1 <= val e.[i] <= 1) /\
    @runiform (A64 exp64 log64 sin64 cos64 pow64) G (ofZ64 0) (ofZ64 1) g = (u, g') /\ fin u /\
    exists acc r' w', ram_accept (par1 G vsort) r w new g = Ok (acc, r', w', g').
Proof.
  destruct libm_exists as (exp64 & log64 & He & Hl). destruct (exp_correct_sane _ He) as [H1 H2].
  assert (libm_ok exp64 log64) as HO.
  { split; [exact H1|]. split; [exact H2|]. split; [apply exp_correct_accurate, He|]. split; [apply exp_correct_relative, He|]. split; [apply exp_correct_above, He|].
    split; [apply log_correct_sane, Hl|apply log_correct_accurate, Hl]. }
  exists exp64, log64. split; [exact HO|]. intros sin64 cos64 pow64 si raw vsort. pose (A := A64 exp64 log64 sin64 cos64 pow64).
  pose proof (fun z H => proj1 (ofZ_val z H)) as Fz. pose proof (fun z H => proj2 (ofZ_val z H)) as Vz.
  assert (p2 (-100) <= p2 0) as P1 by (apply bpow_le; lia). assert (p2 3 <= p2 100) as P2 by (apply bpow_le; lia).
  change (p2 0) with 1 in *. change (p2 3) with 8 in P2.
  assert (in_range [dz 0; dz 1; dz 2] [dz (-1); dz 0; dz 1] [dz 1; dz 1; dz 1]) as HR.
  { split; try reflexivity; try (cbn; lia); intros i Hi; destruct i as [|[|[|i]]]; cbn [List.length nth] in *; try lia; unfold dz;
      try (split; [apply Fz; reflexivity|]); rewrite ?Vz by reflexivity; lra. }
  pose (G := @mkRng A unit unit (fun _ => tt) (fun lo _ g => (lo, g)) (fun lo _ g => (lo, g)) (fun m _ g => (m, g)) (fun _ g => (ofZ64 1 : F A, g)) (fun _ g => (ofZ64 1 : F A, g)) (fun m _ g => (m, g)) (fun g => (ofZ64 0 : F A, g)) (fun g => (ofZ64 0 : F A, g))).
  pose (th := [dz 1; dz 1; dz 0; dz 0]). pose (th' := [dz 2; dz 1; dz 0; dz 0]).
  assert (forall z, z = 1%Z \/ z = 2%Z -> regular 0 [dz z; dz 1; dz 0; dz 0]) as Hreg.
  { intros z Hz. assert ((Z.abs z < 2 ^ 53)%Z) as Hz' by (destruct Hz as [-> | ->]; reflexivity). split; [cbn; lia|].
    split; [intros i Hi; destruct i as [|[|[|[|i]]]]; try lia; apply Fz; first [exact Hz'|reflexivity]|]. cbn [nth]. unfold dz. rewrite !Vz by first [exact Hz'|reflexivity].
    split; [destruct Hz as [-> | ->]; lra|]. rewrite Rabs_R0. change (p2 0) with 1. lra. }
  destruct (C127_acceptance_probability exp64 log64 sin64 cos64 pow64 G vsort si raw _ _ _ HO HR ltac:(cbn; lia)) as (b & Eb & HT).
  assert (exp64 (dz 0) = dz 1) as E1.
  { destruct He as [He _]. specialize (He (dz 0) (Fz 0%Z eq_refl)). unfold dz in *. rewrite Vz in He by reflexivity. rewrite exp_0 in He. unfold rounds in He.
    rewrite (rnd_repr 1 repr_1), Rlt_bool_true in He by apply repr_1. destruct He as [F V].
    apply (B2R_inj 53 1024); [|reflexivity|fold (val (exp64 (ofZ64 0))) (val (ofZ64 1)); rewrite V, Vz by reflexivity; reflexivity].
    destruct (pos_sign (exp64 (ofZ64 0))) as (m & ex & Hm & ->); [lra|reflexivity]. }
  assert (CheckPriorBounds1 (b_bounds b) th = Ok true /\ CheckPriorBounds1 (b_bounds b) th' = Ok true) as [C1 C2].
  { destruct (kf_new64 exp64 log64 sin64 cos64 pow64 _ _ _ HR _ si raw) as (s & Es & _).
    pose proof Eb as Eb'. unfold car1_new, base_new in Eb'. rewrite Es in Eb'. unfold th, th', CheckPriorBounds1, vget. cbn [nth_error bind].
    change (fexp (A64 exp64 log64 sin64 cos64 pow64) (dz 0)) with (exp64 (dz 0)). rewrite E1. fold A in Eb'.
    pose (chk := fun (bd : bounds A) x => negb (flt A (max_freq bd) (dz 1) || flt A (dz 1) (min_freq bd) || scalar_bad bd (dz x) (dz 1))).
    change (Ok (chk (b_bounds b) 1%Z) = Ok true /\ Ok (chk (b_bounds b) 2%Z) = Ok true).
    assert (match (v <- @vvar A [dz (-1); dz 0; dz 1] ;; @make_bounds A [dz 0; dz 1; dz 2] (fmul A (fofZ A 10) (fsqrt A v)) false) with
      Ok bd => chk bd 1%Z = true /\ chk bd 2%Z = true | _ => False end) as K by (vm_compute; split; reflexivity).
    destruct (@vvar A [dz (-1); dz 0; dz 1]) as [v|x| |]; cbn [bind] in K, Eb'; try discriminate Eb'.
    destruct (@make_bounds A _ _ _) as [bd|x| |]; cbn [bind] in K, Eb'; try discriminate Eb'.
    injection Eb' as <-. cbn [b_bounds]. destruct K as [-> ->]. split; reflexivity. }
  assert (forall i, (i < 3)%nat -> Rabs (val [dz (-1); dz 0; dz 1].[i]) <= p2 0) as By
    by (intros i Hi; destruct i as [|[|[|i]]]; cbn [nth] in *; try lia; unfold dz; rewrite Vz by reflexivity; change (p2 0) with 1; apply Rabs_le; lra).
  assert (forall i, (i < 3)%nat -> 1 <= val [dz 1; dz 1; dz 1].[i] <= 1) as Be
    by (intros i Hi; destruct i as [|[|[|i]]]; cbn [nth] in *; try lia; unfold dz; rewrite Vz by reflexivity; lra).
  destruct (Hreg 1%Z (or_introl eq_refl)) as (L1 & F1 & Q1 & M1).
  destruct HO as (O1 & O2 & O3 & O4 & O5 & O6 & O7).
  destruct (object_err exp64 log64 sin64 cos64 pow64 si raw _ _ _ O1 O2 O3 O4 O6 O7 HR ltac:(cbn; lia)) as (b2 & Eb2 & HOE).
  rewrite Eb in Eb2. injection Eb2 as <-.
  destruct (HOE b th 0%Z 1 1 (t_refl _ _ b) L1 F1 C1 Q1 ltac:(lia) By M1 ltac:(lra) Be) as (v & b1 & x & EL & _).
  pose (w := @mkW A (base A b64) (list b64) b th v (ofZ64 1 : F A) true "x"%string [] [] : param A (base A b64) (list b64)).
  pose (r := @mkRam A [] (ofZ64 0) (ofZ64 0) 0 0 0 (ofZ64 0)).
  exists G, [dz 0; dz 1; dz 2], [dz (-1); dz 0; dz 1], [dz 1; dz 1; dz 1], b, r, w, th', (tt, tt), (ofZ64 0), (tt, tt).
  destruct (HT r w th' (tt, tt) 0%Z 1 1 (ofZ64 0) (tt, tt)) as (Ln & Lo & acc & r' & w' & EA & _); try assumption; try reflexivity; try lia; try lra.
  - apply t_refl.
  - exists b1. exact EL.
  - apply (Hreg 1%Z). left. reflexivity.
  - apply (Hreg 2%Z). right. reflexivity.
  - split; [exact HR|]. split; [exact Eb|]. split; [apply t_refl|]. split; [reflexivity|]. split; [exists b1; exact EL|].
    split; [intros X; apply (f_equal (fun l => val (nth 0 l (ofZ64 0)))) in X; cbn [w_value w th th' nth] in X; unfold dz in X; rewrite !Vz in X by reflexivity; lra|].
    split; [apply (Hreg 1%Z); left; reflexivity|]. split; [apply (Hreg 2%Z); right; reflexivity|]. split; [exact C1|]. split; [exact C2|]. split; [exact By|]. split; [exact Be|].
    split; [reflexivity|]. split; [reflexivity|]. exists acc, r', w'. exact EA.
Qed.
