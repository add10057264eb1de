(** The filter that an object holds after a rejected proposal (C50). *)
From Coq Require Import Reals List Arith ZArith Bool String Lra Lia Permutation.
From Verif Require Import Arith Res ListLemmas KFModel KF1Proof Spec Gauss Emb History InitProof OUpd SimProof KF1R KF1X KF1Main KF1More.
From Verif Require Import Cx KFpModel KFpProof SpecModel CarpackModel PriorProof LogLikProof LogLikMain CarpackTop CarpackRefute.
From Verif Require Import EngineModel StartModel EngineSpec EngineProof EngineInv CholProof RamProof EngineHist EngineClass EngineDriver EngineTop TotalProof TotalClass TotalTop EngineAX Start1Proof EngineRuns.
Import ListNotations.
Local Open Scope R_scope.

Set Implicit Arguments.
Unset Strict Implicit.

(** ** Two measurements *)
Definition tT : list R := [0; 1]. Definition yT : list R := [0; 1]. Definition eT : list R := [1; 1].
Definition gT : R := exp (- 1) / 2.
Lemma gT_range : 0 < gT < 1.
Proof. unfold gT. pose proof (exp_pos (- 1)). assert (exp (- 1) < exp 0) by (apply exp_increasing; lra). rewrite exp_0 in *. lra. Qed.
Lemma two_point mu (m v : list R) :
  (forall i, (i < List.length tT)%nat ->
      cond_dist (fun a c => 1 * 1 * exp (- (exp 0 * Rabs (a - c)))) (firstn i tT) (firstn i (map (fun x => x - mu) yT))
        (firstn i (map (fun x => sqrt 1 * x) eT)) (nth i tT 0) (nth i m 0) (nth i v 0 - 1 * (nth i eT 0 * nth i eT 0)) /\ 0 < nth i v 0) ->
  nth 0 m 0 = 0 /\ nth 0 v 0 = 2 /\ nth 1 m 0 = gT * (0 - mu) /\ nth 1 v 0 = 2 - gT * exp (- 1) /\ 0 < nth 1 v 0.
Proof.
  intros H. destruct (H 0%nat ltac:(cbn; lia)) as [(w0 & _ & M0 & V0) _]. destruct (H 1%nat ltac:(cbn; lia)) as [(w1 & E1 & M1 & V1) P1]. clear H.
  cbn in M0, V0. specialize (E1 0%nat ltac:(cbn; lia)). cbn [tT yT eT firstn map nth List.length Rsum Nat.sub] in *. unfold obs_cov in E1. cbn [nth Nat.eqb] in E1.
  rewrite sqrt_1, exp_0 in *. 
  replace (0 - 0) with 0 in * by ring. replace (1 - 1) with 0 in * by ring. replace (1 - 0) with 1 in * by ring. rewrite Rabs_R0, Rabs_R1 in *.
  replace (- (1 * 0)) with 0 in * by ring. replace (- (1 * 1)) with (- 1) in * by ring. rewrite exp_0 in *.
  assert (w1 0%nat = gT) as Hw by (unfold gT; lra). rewrite Hw in *. repeat split; lra.
Qed.
(** the mean of a smaller guess explains the data less well *)
Lemma worse (m v m' v' : list R) d : 0 < d ->
  nth 0 m 0 = 0 /\ nth 0 v 0 = 2 /\ nth 1 m 0 = gT * (0 - 0) /\ nth 1 v 0 = 2 - gT * exp (- 1) /\ 0 < nth 1 v 0 ->
  nth 0 m' 0 = 0 /\ nth 0 v' 0 = 2 /\ nth 1 m' 0 = gT * (0 - (- d)) /\ nth 1 v' 0 = 2 - gT * exp (- 1) /\ 0 < nth 1 v' 0 ->
  gauss_ll 2 (fun i => nth i yT 0 - (- d)) (fun i => nth i m' 0) (fun i => nth i v' 0) <
  gauss_ll 2 (fun i => nth i yT 0 - 0) (fun i => nth i m 0) (fun i => nth i v 0).
Proof.
  intros Hd (M0 & V0 & M1 & V1 & P) (M0' & V0' & M1' & V1' & _). unfold gauss_ll, yT. cbn [Rsum nth].
  rewrite M0, V0, M1, M0', V0', M1', V1', V1. rewrite V1 in P. set (V := 2 - gT * exp (- 1)) in *. pose proof gT_range as Hg.
  assert (0 < / V) as Hi by (apply Rinv_0_lt_compat, P). unfold Rdiv.
  assert (1 * / V <= (1 - - d - gT * (0 - - d)) ^ 2 * / V) as K.
  { apply Rmult_le_compat_r; [lra|]. replace (1 - - d - gT * (0 - - d)) with (1 + d * (1 - gT)) by ring.
    assert (0 <= d * (1 - gT)) by (apply Rmult_le_pos; lra). nra. }
  assert (0 < d ^ 2) by (cbn; nra). replace ((1 - 0 - gT * (0 - 0)) ^ 2) with 1 by ring. replace (0 - - d - 0) with d by ring. nra.
Qed.

(** the generator: Student draws -1 for the third coordinate and 0 for the others *)
Definition rngT (kap : R) : rng AX :=
  @mkRng AX nat unit (fun _ => 0%nat)
    (fun lo hi g => (fadd AX lo (fmul AX (fsub AX hi lo) (Fin kap)), g))
    (fun lo _ g => (lo, g)) (fun mu _ g => (mu, g)) (fun dof g => (Fin (IZR dof), g)) (fun _ g => (Fin (if Nat.eqb g 2 then - 1 else 0), S g)) (fun m _ g => (fexp AX m, g))
    (fun g => (Fin (1 / 2), g)) (fun g => (Fin 0, g)).
Lemma rngT_valid kap : 0 <= kap <= 1 -> valid_rng (rngT kap).
Proof.
  intros Hk. constructor; cbn.
  - intros lo hi _ H. exists (lo + (hi - lo) * kap). split; [reflexivity|nra].
  - intros mu sd _ _. exists mu. reflexivity.
  - intros dof _ H. exists (IZR dof). split; [reflexivity|]. apply (IZR_lt 0), H.
  - intros dof g _. eexists. reflexivity.
  - intros lo hi _ H. lia.
  - intros _. exists (1 / 2). split; [reflexivity|lra].
  - intros _. exists 0. reflexivity.
Qed.

(** the Cholesky factor of the initial proposal covariance is diagonal *)
Lemma diag_factor (y : list R) (L : list (list R)) : factor 4 (pdiag y) L -> rent L 2 3 = 0 /\ 0 < rent L 2 2.
Proof.
  intros (_ & Hu & Hd & HG). split; [|apply Hd; lia].
  assert (forall i j, (i < 4)%nat -> (j < 4)%nat -> i <> j -> gram 4 (rent L) i j = 0) as HG0.
  { intros i j Hi Hj Hij. rewrite HG by assumption. unfold pdiag. destruct (Nat.eqb_spec i j); [contradiction|reflexivity]. }
  pose proof (Hu 1%nat 0%nat ltac:(lia) ltac:(lia)) as U10. pose proof (Hu 2%nat 0%nat ltac:(lia) ltac:(lia)) as U20. pose proof (Hu 3%nat 0%nat ltac:(lia) ltac:(lia)) as U30.
  pose proof (Hu 2%nat 1%nat ltac:(lia) ltac:(lia)) as U21. pose proof (Hu 3%nat 1%nat ltac:(lia) ltac:(lia)) as U31. pose proof (Hu 3%nat 2%nat ltac:(lia) ltac:(lia)) as U32.
  pose proof (HG0 0%nat 2%nat ltac:(lia) ltac:(lia) ltac:(lia)) as G02. pose proof (HG0 0%nat 3%nat ltac:(lia) ltac:(lia) ltac:(lia)) as G03.
  pose proof (HG0 1%nat 2%nat ltac:(lia) ltac:(lia) ltac:(lia)) as G12. pose proof (HG0 1%nat 3%nat ltac:(lia) ltac:(lia) ltac:(lia)) as G13.
  pose proof (HG0 2%nat 3%nat ltac:(lia) ltac:(lia) ltac:(lia)) as G23. pose proof (HG0 0%nat 1%nat ltac:(lia) ltac:(lia) ltac:(lia)) as G01.
  pose proof (Hd 0%nat ltac:(lia)) as D0. pose proof (Hd 1%nat ltac:(lia)) as D1. pose proof (Hd 2%nat ltac:(lia)) as D2.
  unfold gram in *. cbn [Rsum] in *. rewrite U10, U20, U30, U21, U31, U32 in *.
  assert (rent L 0 1 = 0) as Z1 by nra. assert (rent L 0 2 = 0) as Z2 by nra. assert (rent L 0 3 = 0) as Z3 by nra. rewrite Z1, Z2, Z3 in *.
  assert (rent L 1 2 = 0) as Z4 by nra. assert (rent L 1 3 = 0) as Z5 by nra. rewrite Z4, Z5 in *. nra.
Qed.

Lemma increasing_T : strictly_increasing tT.
Proof. intros i j Hij Hj. cbn in Hj. destruct j as [|[|j]]; [lia| |lia]. destruct i as [|i]; [cbn; lra|lia]. Qed.
Lemma pvar_T : pvar yT = 1 / 4.
Proof. unfold pvar, smean, yT. cbn [List.length Rsum nth]. replace (INR 2) with 2 by (cbn; ring). field. Qed.
Lemma in_prior_T smax fmin fmax mu : run_bounds tT yT smax fmin fmax -> in_prior1 smax fmin fmax [1; 1; mu; 0].
Proof.
  intros (-> & Hf & H1 & _ & ->). unfold in_prior1. cbn [nth tT List.length Nat.sub]. rewrite exp_0, pvar_T.
  specialize (H1 0%nat ltac:(cbn; lia)). cbn [nth tT] in H1.
  assert (1 <= fmax). { apply Rmult_le_reg_r with (/ fmax); [apply Rinv_0_lt_compat, Hf|]. rewrite Rinv_r by lra. lra. }
  assert (sqrt (1 / 4) = 1 / 2) as -> by (replace (1 / 4) with ((1 / 2) * (1 / 2)) by field; apply sqrt_square; lra). repeat split; lra.
Qed.

(** ** The refutation *)
(** after the only step of this run the object holds the means of a proposal that was rejected: asking the same object
    for the log-density of its current value changes what GetKalmanMean() returns *)
Theorem kalman_stale raw v0 l0 a0 : List.length v0 = 4%nat -> exists (R0 : rng AX) vsort si chol (init : list R),
  valid_rng R0 /\ valid_vsort vsort /\ valid_sort_index si /\ valid_chol chol /\
  forall ga, exists w g' lp b',
    RunCar1Sampler (A := AX) (R := R0) vsort si chol 1 0 (map Fin tT) (map Fin yT) (map Fin eT) 1 (map Fin init) raw v0 l0 a0 (SetSeed 7 ga) = Ok (w, g') /\
    w_value w = map Fin init /\ w_logpost w = Fin lp /\ LogDensity (car1_cls AX) (w_obj w) (w_value w) = Ok (Fin lp, b') /\
    GetKalmanMean (w_obj w) (w_value w) <> GetKalmanMean b' (w_value w).
Proof.
  intros Hv0. destruct valid_vsort_exists as [vs Hvs]. destruct valid_sort_index_exists as [si Hsi]. destruct valid_chol_exists as [ch Hch].
  assert (exists a b, In a yT /\ In b yT /\ a <> b) as Hne by (exists 0, 1; cbn; repeat split; [tauto|tauto|lra]).
  pose proof increasing_T as Ht.
  destruct (@car1_built si Hsi tT yT eT eq_refl eq_refl Ht Hne raw) as (b & fmin0 & fmax0 & Eb & Hb & _).
  destruct (@set_prior_built tT yT eT eq_refl eq_refl Ht Hne _ b _ Hb eq_refl) as (b1 & smax & fmin & fmax & Eb1 & Hb1 & HB).
  destruct (@chol_init ch 4 yT Hch Hne) as (L & EL & HL). destruct (diag_factor HL) as [L23 L22]. set (d := rent L 2 2) in *.
  set (st := static_of b1). assert (okb st b1) as Hok by (split; [apply Hb1|reflexivity]).
  (* the two points *)
  set (th0 := [1; 1; 0; 0]). set (th1 := [1; 1; - d; 0]).
  assert (exists lp0 lp1, lp1 < lp0 /\ pld1 st (map Fin th0) = Ok (Fin lp0) /\ pld1 st (map Fin th1) = Ok (Fin lp1)) as (lp0 & lp1 & Hlt & Hp0 & Hp1).
  { destruct (LD1_inside b1 tT yT eT th0 _ _ _ false Hb1 Ht (le_n 4) (in_prior_T 0 HB)) as (m & v & b2 & E2 & _ & _ & _ & _ & Hc); [cbn; lra|].
    destruct (LD1_inside b1 tT yT eT th1 _ _ _ false Hb1 Ht (le_n 4) (in_prior_T (- d) HB)) as (m' & v' & b2' & E2' & _ & _ & _ & _ & Hc'); [cbn; lra|].
    do 2 eexists. split; [|split; [exact (proj1 (LD1_ok Hok E2))|exact (proj1 (LD1_ok Hok E2'))]].
    cbn [nth th0 th1] in Hc, Hc'. apply two_point in Hc. apply two_point in Hc'. apply Rplus_lt_compat_r. exact (worse L22 Hc Hc'). }
  (* the generator rejects the move *)
  set (kap := (1 + exp (lp1 - lp0)) / 2).
  assert (exp (lp1 - lp0) < kap < 1) as Hkap.
  { assert (exp (lp1 - lp0) < exp 0) by (apply exp_increasing; lra). rewrite exp_0 in *. unfold kap. lra. }
  pose proof (exp_pos (lp1 - lp0)) as Hep.
  exists (rngT kap), vs, si, ch, th0. split; [apply rngT_valid; lra|]. repeat (split; [assumption|]). intros ga.
  destruct (@car1_completes_real (rngT kap) vs si ch Hvs Hsi Hch tT yT eT eq_refl eq_refl Ht Hne 1 0 1 (map Fin th0) raw v0 l0 a0 (SetSeed (R := rngT kap) 7 ga) Hv0) as (w & g' & E).
  exists w, g', lp0.
  destruct (pld_again1 Hok Hp0) as (b2 & E0).
  destruct (@car1_starts_at_init AX (rngT kap) vs si ch 1 0 (map Fin tT) (map Fin yT) (map Fin eT) 1 (map Fin th0) raw v0 l0 a0 (SetSeed (R := rngT kap) 7 ga) w g' b b1 (Fin lp0) b2)
    as (r & y0 & w0 & Er & Hbeg & Hrec & Hg & Ey & Hv & Hl & Hok0); try assumption; try reflexivity.
  { apply kept_distinct; [exact Hsi|apply increasing_NoDup, Ht]. }
  destruct Hbeg as (Hss & use & ws1 & Hst & _ & Htm & _).
  assert (w_temp w0 = Fin 1) as HT by (pose proof (eq_trans (started_temps Hst) Htm) as Q; rewrite Ey in Q; injection Q as Q; exact Q).
  assert (r_chol r = FinM L) as Hr by (unfold ram_new in Er; rewrite EL in Er; injection Er as <-; reflexivity). clear Er Hst Htm.
  destruct Hrec as (_ & _ & _ & yn & wn & Hsw & Hwn & Q1 & Q2 & _ & Q3 & _).
  inversion Hsw as [|k ya yb yc Hs0 Hio]; subst. inversion Hs0; subst. clear Hsw Hs0. rewrite Hss, Ey, Hg in Hio.
  inversion Hio as [|s ss ws g s' ws2 g1 ss' ws3 g2 Hd Hr2]; subst. inversion Hr2; subst. clear Hio Hr2.
  cbn [do_step vgetU nth_error bind] in Hd. apply bind_Ok in Hd. destruct Hd as ([[r' w'] gg] & Es & Q). injection Q as _ Q _.
  match type of Q with _ = y_pars ?yy => assert (y_pars yy = [w']) as Qw by (symmetry; exact Q) end. rewrite Qw in Hwn. injection Hwn as <-. clear Q Qw.
  (* the proposal *)
  unfold ram_step in Es. rewrite Hv in Es. change (Datatypes.length (map Fin th0)) with 4%nat in Es.
  set (u := [0 + 1 * 0; 0 + 1 * 0; 0 + 1 * - 1; 0 + 1 * 0]).
  assert (draws 4 (student_draw (R := rngT kap) (fofZ AX 0)) (SetSeed (R := rngT kap) 7 ga) = (map Fin u, (4%nat, snd ga))) as Ed by reflexivity.
  rewrite Ed in Es. cbv beta iota in Es. clear Ed.
  assert (rtmul 4 L u = [0; 0; - d; 0]) as Hsc.
  { destruct HL as (_ & Hu & _). assert (rent L 2 0 = 0) as Z0 by (apply Hu; lia). assert (rent L 2 1 = 0) as Z1 by (apply Hu; lia).
    unfold rtmul, vbuild, tmul, rv, u. cbn [seq map Rsum nth]. rewrite Z0, Z1, L23. fold d. repeat (apply f_equal2; [ring|]). reflexivity. }
  assert (mtmul (A := AX) (r_chol r) (map Fin u) = Ok (map Fin [0; 0; - d; 0])) as Em.
  { rewrite Hr, <- Hsc. apply mtmul_Fin; [apply HL|reflexivity]. }
  rewrite Em in Es. cbn [bind] in Es. clear Em.
  assert (vadd AX (map Fin th0) (map Fin [0; 0; - d; 0]) = Ok (map Fin th1)) as Ev.
  { rewrite vadd_Fin by reflexivity. unfold radd, th0, th1. cbn [combine map fst snd]. rewrite !Rplus_0_r, !Rplus_0_l. reflexivity. }
  rewrite Ev in Es. cbn [bind] in Es. clear Ev.
  apply bind_Ok in Es. destruct Es as ([[[acc r1] w1] g2] & Ea & Es). apply bind_Ok in Es. destruct Es as (w2 & Ew & Es). apply bind_Ok in Es. destruct Es as (r2 & _ & Es).
  injection Es as _ <- _. unfold ram_accept, LD in Ea. apply bind_Ok in Ea. destruct Ea as ([l w3] & El & Ea). apply bind_Ok in El. destruct El as ([l' x] & El & Q). injection Q as <- <-.
  cbn [o_LogDensity par1] in El. destruct (LD1_ok Hok0 El) as [Hlp Hokx]. pose proof (eq_trans (eq_sym Hlp) Hp1) as Q. injection Q as ->.
  assert (acc = false /\ w1 = set_obj w0 x) as [-> ->].
  {     match type of Ea with context [ffin AX ?a] => assert (a = Fin (lp1 - lp0)) as Qa end.
    { change (fdiv AX (fsub AX (Fin lp1) (w_logpost w0)) (w_temp w0) = Fin (lp1 - lp0)). rewrite Hl, HT. refine (eq_trans (fin_div _ _ _) _); [lra|f_equal; field]. }
    rewrite Qa in Ea. cbn [ffin AX xfin negb] in Ea. unfold runiform, on_b in Ea. cbn [b_uniform rngT fst snd] in Ea.
    match type of Ea with (if ?c then _ else _) = _ => assert (c = false) as Qc end.
    { change (fexp AX (Fin (lp1 - lp0))) with (Fin (exp (lp1 - lp0))). unfold Arith.fmin. cbn [flt AX fofZ].
      change (xlt (Fin 1) (Fin (exp (lp1 - lp0)))) with (if Rlt_dec 1 (exp (lp1 - lp0)) then true else false).
      destruct (Rlt_dec 1 (exp (lp1 - lp0))) as [Q|_]; [lra|].
      change ((if Rlt_dec (0 + (1 - 0) * kap) (exp (lp1 - lp0)) then true else false) = false). destruct (Rlt_dec _ _) as [Q|_]; [|reflexivity].
      exfalso. clear - Q Hkap. replace (0 + (1 - 0) * kap) with kap in Q by ring. lra. }
    rewrite Qc in Ea. injection Ea as <- _ <- _. split; reflexivity. }
  injection Ew as <-. cbn [set_obj w_obj w_value w_logpost] in Q1, Q2, Q3.
  (* what the object holds *)
  assert (base_holds x tT yT eT (mkB AX (Fin smax) (Fin fmax) (Fin fmin) false)) as Hbx by (exact (base_holds_static Hb1 Hokx)).
  pose proof (base_holds_static Hb1 Hok0) as Hb0.
  destruct (LD1_inside (w_obj w0) tT yT eT th1 _ _ _ false Hb0 Ht (le_n 4) (in_prior_T (- d) HB)) as (m' & v' & bx & E2' & Mx & _ & Lm' & _ & Hc'); [cbn; lra|].
  pose proof (eq_trans (eq_sym El) E2') as Q. injection Q as _ <-.
  destruct (LD1_inside x tT yT eT th0 _ _ _ false Hbx Ht (le_n 4) (in_prior_T 0 HB)) as (m & v & b3 & E2 & Mb & _ & Lm & _ & Hc); [cbn; lra|].
  exists b3. pose proof (eq_trans Q1 Hv) as Qv. pose proof (eq_trans Q2 Hl) as Ql. rewrite Qv, Ql, Q3. split; [exact E|]. split; [reflexivity|]. split; [reflexivity|].
  destruct (LD1_ok Hokx E2) as [Hlp0 _]. pose proof (eq_trans (eq_sym Hlp0) Hp0) as Q.
  split; [refine (eq_trans E2 _); exact (f_equal (fun q => match q with Ok l => Ok (l, b3) | Throw z => Throw z | UB => UB | Diverge => Diverge end) Q)|].
  cbn [nth th0 th1] in Hc, Hc'. apply two_point in Hc. apply two_point in Hc'. destruct Hc as (_ & _ & M1 & _). destruct Hc' as (_ & _ & M1' & _).
  unfold GetKalmanMean. cbn [vget map th0 nth_error bind]. rewrite Mx, Mb. intros Heq. injection Heq as Heq.
  destruct m' as [|p0 [|p1 m']]; try discriminate. destruct m as [|q0 [|q1 m]]; try discriminate. cbn in Heq, M1, M1'. injection Heq as _ Heq _.
  rewrite M1, M1' in Heq. pose proof gT_range. assert (0 < gT * d) by (apply Rmult_lt_0_compat; lra). lra.
Qed.

(** ** What is true *)
Section Fresh.
Variable A : Arith.
Variable R : rng A.
Variables X : Type.
Variable P : methodsP R X (list (F A)).
Variable draw : F A -> gen R -> F A * gen R.
(** the object has just evaluated the log-density of its current value, so that its filter is the one of that value *)
Definition fresh (w : param A X (list (F A))) : Prop := exists x l, o_LogDensity P x (w_value w) = Ok (l, w_obj w).
Theorem ram_fresh r w g r' w' g' : ram_step P draw r w g = Ok (r', w', g') ->
  (w_value w' = w_value w /\ w_logpost w' = w_logpost w) \/ fresh w'.
Proof.
  intros E. unfold ram_step in E. destruct (draws _ _ g) as [u g1]. apply bind_Ok in E. destruct E as (sc & _ & E). apply bind_Ok in E. destruct E as (new & _ & E).
  apply bind_Ok in E. destruct E as ([[[acc r1] w1] g2] & Ea & E). apply bind_Ok in E. destruct E as (w2 & Ew & E). apply bind_Ok in E. destruct E as (r2 & _ & E).
  injection E as _ <- _. destruct acc.
  - right. unfold Save in Ew. apply bind_Ok in Ew. destruct Ew as ([l x] & EL & Q). injection Q as <-. exists (w_obj w1), l. exact EL.
  - left. injection Ew as <-. unfold ram_accept, LD in Ea. apply bind_Ok in Ea. destruct Ea as ([l w3] & El & Ea). apply bind_Ok in El. destruct El as ([l' x] & _ & Q). injection Q as _ <-.
    destruct (negb _); [injection Ea as _ <- _; split; reflexivity|]. destruct (runiform _ _ _) as [uu g3]. destruct (flt _ _ _); [discriminate|]. injection Ea as _ <- _. split; reflexivity.
Qed.
Theorem exch_fresh e w o g e' w' o' g' : exch_step P e w o g = Ok (e', w', o', g') ->
  (w' = w /\ o' = o) \/ (w_value w' = w_value o /\ fresh w' /\ w_value o' = w_value w /\ w_obj o' = w_obj o).
Proof.
  intros E. unfold exch_step in E. destruct (runiform _ _ g) as [u g1]. apply bind_Ok in E. destruct E as ([[w1 o1] na] & E1 & E). injection E as _ <- <- _.
  match type of E1 with context [flt A ?a ?b] => destruct (flt A a b) end; [right|left; injection E1 as <- <- _; split; reflexivity].
  apply bind_Ok in E1. destruct E1 as (w2 & Ew & E1). apply bind_Ok in E1. destruct E1 as (o2 & Eo & E1). injection E1 as <- <- _.
  unfold Save in Ew. apply bind_Ok in Ew. destruct Ew as ([l x] & EL & Q). injection Q as <-. unfold SaveDerived in Eo. apply bind_Ok in Eo. destruct Eo as (l2 & _ & Q). injection Q as <-.
  cbn. repeat split. exists (w_obj w), l. exact EL.
Qed.
End Fresh.
(** a CAR(1) object that is fresh holds the exact one-step means and variances of its current value *)
Theorem fresh_exact (R0 : rng AX) vsort (w : param AX (base AX (F AX)) (list (F AX))) x l (t y e th : list R) smax fmin fmax ign :
  base_holds x t y e (mkB AX (Fin smax) (Fin fmax) (Fin fmin) ign) -> strictly_increasing t -> List.length th = 4%nat -> in_prior1 smax fmin fmax th -> nth 0 th 0 <> 0 ->
  w_value w = map Fin th -> o_LogDensity (par1 R0 vsort) x (w_value w) = Ok (l, w_obj w) ->
  exists m v, GetKalmanMean (w_obj w) (w_value w) = Ok (map Fin (map (fun z => nth 2 th 0 + z) m)) /\ GetKalmanVar (w_obj w) = map Fin v /\
    List.length m = List.length t /\ List.length v = List.length t /\
    forall i, (i < List.length t)%nat ->
      cond_dist (fun a c => nth 0 th 0 * nth 0 th 0 * exp (- (exp (nth 3 th 0) * Rabs (a - c)))) (firstn i t) (firstn i (map (fun x => x - nth 2 th 0) y))
        (firstn i (map (fun x => sqrt (nth 1 th 0) * x) e)) (nth i t 0) (nth i m 0) (nth i v 0 - nth 1 th 0 * (nth i e 0 * nth i e 0)).
Proof.
  intros Hb Ht Hl Hin H0 Hv E. cbn [o_LogDensity par1] in E. rewrite Hv in E.
  destruct (LD1_inside x t y e th _ _ _ ign Hb Ht ltac:(rewrite Hl; apply le_n) Hin H0) as (m & v & b & E2 & Em & Ev & Lm & Lv & Hc).
  pose proof (eq_trans (eq_sym E2) E) as Q. injection Q as _ Q. exists m, v. split; [|split; [exact (eq_trans (f_equal (fun b0 : base AX xr => k_var (b_kf b0)) (eq_sym Q)) Ev)|]].
  - unfold GetKalmanMean. pose proof (eq_trans (f_equal (fun b0 : base AX xr => k_mean (b_kf b0)) (eq_sym Q)) Em) as Em2. refine (eq_trans (f_equal2 (fun (v1 v2 : list xr) => bind (vget v1 2) (fun mu => Ok (map (fun m0 => fadd AX mu m0) v2))) Hv Em2) _). clear - Hl. destruct th as [|a [|b' [|c [|d [|? ?]]]]]; try discriminate. cbn [map vget nth_error bind nth]. rewrite !map_map. reflexivity.
  - split; [exact Lm|]. split; [exact Lv|]. intros i Hi. exact (proj1 (Hc i Hi)).
Qed.
