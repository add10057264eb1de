(** From CarmaModel(time, y, ysig, p, q).run_mcmc(...) to the recorded samples. *)
From Coq Require Import Reals List Arith ZArith Bool String Lra Lia Permutation.
From Coquelicot Require Import Complex.
From Verif Require Import Arith Res ListLemmas KFModel KF1Proof Spec Gauss Emb History InitProof OUpd SimProof KF1R KF1X KF1Main KF1More.
From Verif Require Import Cx KFpModel KFpProof SpecCarma KFpX KFpMain KFpTop SpecModel CarpackModel RootsProof PriorProof LogLikProof LogLikMain CarpackTop CarpackRefute.
From Verif Require Import EngineModel StartModel EngineSpec EngineProof EngineInv CholProof RamProof EngineHist EngineClass EngineDriver EngineTop StartProof TotalProof TotalClass TotalTop EngineAX Start1Proof SeedProof EngineRuns SeedRefute EngineReal.
From Verif Require Import CLin Det LogFact LogDens ZeroProof.
Import ListNotations.
Local Open Scope R_scope.
Set Implicit Arguments.
Unset Strict Implicit.

Lemma acv_zero ma om tau : carma_acv 0 ma om tau = 0.
Proof. unfold carma_acv. apply Rmult_0_l. Qed.
Lemma loglik_ext K K' t y e s mu x : (forall a b, K a b = K' a b) -> is_loglik K t y e s mu x -> is_loglik K' t y e s mu x.
Proof.
  intros H. replace K' with K; [exact (fun h => h)|]. apply FunctionalExtensionality.functional_extensionality. intros a.
  apply FunctionalExtensionality.functional_extensionality. intros b. apply H.
Qed.

Lemma exact_dec (e : list R) n : (exists i, (i < n)%nat /\ nth i e 0 = 0) \/ (forall i, (i < n)%nat -> nth i e 0 <> 0).
Proof.
  induction n as [|n [(i & Hi & E)|IH]]; [right; intros; lia|left; exists i; split; [lia|exact E]|].
  destruct (Req_EM_T (nth n e 0) 0) as [E|E]; [left; exists n; split; [lia|exact E]|].
  right. intros i Hi. destruct (Nat.eq_dec i n) as [->|]; [exact E|apply IH; lia].
Qed.

Section Post.
Variable R0 : rng AX.
Variable dsort vsort : list (F AX) -> option (list (F AX)).
Variable solve : list (list (cx AX)) -> list (cx AX) -> option (list (cx AX)).
Variable si : list (F AX) -> option (list nat).
Variable chol : mat AX -> option (mat AX).
Variables t y e : list R.
Hypothesis Hsi : valid_sort_index si.
Hypothesis Hy : List.length y = List.length t.
Hypothesis He : List.length e = List.length t.
Hypothesis Ht : strictly_increasing t.
Hypothesis Hne : exists a b, In a y /\ In b y /\ a <> b.

Lemma carma_obj fuel N burnin p q nw z thin init raw v0 l0 a0 (g : gen R0) w g' :
  RunCarmaSampler (R := R0) dsort solve si chol fuel N burnin (map Fin t) (map Fin y) (map Fin e) p q nw z thin init raw v0 l0 a0 g = Ok (w, g') ->
  (2 <= p)%nat /\ exists smax fmin fmax, run_bounds t y smax fmin fmax /\ base_holds (w_obj w) t y e (mkB AX (Fin smax) (Fin fmax) (Fin fmin) false).
Proof using Hsi Hy He Ht Hne.
  intros E. destruct (RunCarma_inv E) as (b & b1 & r & ex & s & label & Hp & Hnw & Eb & Eb1 & Er & Erun & Hw & Egs). split; [exact Hp|].
  destruct (walker_prior Hsi Hy He Ht Hne raw z Hp) as (b' & b1' & sm' & fm' & fM' & Eb' & Eb1' & Hb1 & HB').
  assert (b1' = b1) as ->.
  { pose proof (eq_trans (eq_sym Eb) Eb') as Q. injection Q as <-. pose proof (eq_trans (eq_sym Eb1) Eb1') as Q. injection Q as <-. reflexivity. }
  exists sm', fm', fM'. split; [exact HB'|]. assert (wfb b1) as Hwf by (exact (proj1 Hb1)). set (st := static_of b1).
  assert (List.Forall (fun w => @okb AX _ st (w_obj w)) (walkers b1 v0 l0 label nw)) as Hok by (apply walkers_all; intros T tr; split; [exact Hwf|reflexivity]).
  assert (covered (hot_steps (nw - 1) r ex ++ [SRam 0 r]) (List.length (walkers b1 v0 l0 label nw))) as Hcov by (rewrite walkers_len; apply steps_cover).
  destruct (@Run_inv _ _ _ (walker_par R0 dsort solve fuel p q z) (@student_draw AX R0) (@okb AX _ st) (pldw solve p q z st) (@w_ld AX R0 dsort solve fuel p q z st)
    (fun x g v x' g' H E => proj1 (w_start H E)) (fun x i g v x' g' H E => proj1 (w_set H E)) _ _ _ _ _ _ _ Erun Hok Hcov) as (y0' & _ & Hfin & _ & _).
  destruct (proj1 (Forall_nth_error _ _) Hfin _ _ Hw) as [Hst _]. exact (base_holds_static Hb1 Hst).
Qed.
Lemma car1_obj N burnin thin init raw v0 l0 a0 (g : gen R0) w g' :
  RunCar1Sampler (R := R0) vsort si chol N burnin (map Fin t) (map Fin y) (map Fin e) thin init raw v0 l0 a0 g = Ok (w, g') ->
  exists smax fmin fmax, run_bounds t y smax fmin fmax /\ base_holds (w_obj w) t y e (mkB AX (Fin smax) (Fin fmax) (Fin fmin) false).
Proof using Hsi Hy He Ht Hne.
  intros E. destruct (RunCar1_inv E) as (b & b1 & r & s & Eb & Eb1 & Er & Erun & Hw & Egs).
  destruct (car1_built Hsi Hy He Ht Hne raw) as (b' & fm0 & fM0 & Eb' & Hb' & _).
  pose proof (eq_trans (eq_sym Eb) Eb') as Q. injection Q as <-.
  destruct (set_prior_built Hy He Ht Hne Hb' eq_refl) as (b1' & sm' & fm' & fM' & Eb1' & Hb1 & HB'). pose proof (eq_trans (eq_sym Eb1) Eb1') as Q. injection Q as <-.
  exists sm', fm', fM'. split; [exact HB'|]. assert (wfb b1) as Hwf by (exact (proj1 Hb1)). set (st := static_of b1).
  destruct (@Run_inv _ _ _ (par1 R0 vsort) (@student_draw AX R0) (@okb AX _ st) (pld1 st) (fun x v l x' H E => @LD1_ok AX st x v l x' H E)
    (fun x g v x' g' H E => Start1_ok H E) (fun x i g v x' g' H E => SetStart1_ok H E) _ _ _ _ _ _ _ Erun) as (y0 & _ & Hfin & _ & _).
  - cbn [y_pars]. constructor; [|constructor]. split; [exact Hwf|reflexivity].
  - cbn [y_pars y_steps]. intros j Hj. cbn in Hj. left. cbn. lia.
  - destruct (proj1 (Forall_nth_error _ _) Hfin _ _ Hw) as [Hst _]. exact (base_holds_static Hb1 Hst).
Qed.

(** inside the prior region, a log-density that is a number is the normal log-density of the measurements plus the log-prior *)
Lemma LDp_number solve0 p q z (b : base AX (kpx AX)) (th : list R) om smax fmin fmax lp b' : valid_solve solve0 ->
  base_holds b t y e (mkB AX (Fin smax) (Fin fmax) (Fin fmin) false) -> (2 <= p)%nat -> (z = true \/ (q < p)%nat) -> List.length th = walker_dim p q z ->
  ARRoots AX p (map Fin th) = Ok (map FinC om) -> in_prior smax fmin fmax th om ->
  LogDensity (walker_cls solve0 p q z) b (map Fin th) = Ok (Fin lp, b') ->
  exists ma x, List.length ma = p /\
    (forall s, Cmult (ma_poly ma s) (quad_poly th (3 + p) (if z then 0 else q) (RtoC 0)) = quad_poly th (3 + p) (if z then 0 else q) s) /\
    lp = x + log_sichi (nth 1 th 0) /\
    is_loglik (carma_cov (nth 0 th 0 * nth 0 th 0 / carma_acv 1 ma om 0) ma om) t y e (nth 1 th 0) (nth 2 th 0) x.
Proof using Hy He Ht.
  intros Hsv Hb Hp Hq HL Hom Hin E. rewrite walker_cls_eq in E.
  assert (3 + p <= List.length th)%nat as HL3 by (rewrite HL; unfold walker_dim; destruct z; lia).
  pose proof (pr_scale _ _ _ _ _ Hin) as Hs.
  assert (forall s, quad_poly th (3 + p) 0 s = RtoC 1) as Q0 by (intros s; unfold quad_poly; cbn; ring).
  assert (exists ma : list R, walker_ma (A := AX) p q z (map Fin th) = Ok (map Fin ma) /\ List.length ma = p /\ (exists l, nth l ma 0 <> 0) /\
    forall s, Cmult (ma_poly ma s) (quad_poly th (3 + p) (if z then 0 else q) (RtoC 0)) = quad_poly th (3 + p) (if z then 0 else q) s) as (ma & Ema & Lma & Nma & Hma).
  { assert (exists ma : list R, Ok (carp_ma AX p) = Ok (map Fin ma) /\ List.length ma = p /\ (exists l, nth l ma 0 <> 0) /\ forall s, Cmult (ma_poly ma s) (quad_poly th (3 + p) 0 (RtoC 0)) = quad_poly th (3 + p) 0 s) as H0.
    { exists (upd (repeat 0 p) 0 1). rewrite carp_ma_Fin. split; [reflexivity|]. split; [apply CarpackRefute.carp_ma_len|]. split; [apply carp_ma_nz; lia|].
      intros s. rewrite !Q0, carp_ma_poly by lia. ring. }
    unfold walker_ma. destruct z; [exact H0|]. destruct (Nat.eqb_spec q 0) as [->|]; [exact H0|].
    destruct Hq as [|Hq]; [discriminate|]. destruct (ExtractMA_carma_main p q th Hq) as (ma & Em & Lm & Hm0 & _ & _ & Hmp & _); [rewrite HL; unfold walker_dim; lia|].
    exists ma. split; [exact Em|]. split; [exact Lm|]. split; [exists O; rewrite Hm0; lra|exact Hmp]. }
  assert (LogPrior AX (map Fin th) = Ok (Fin (log_sichi (nth 1 th 0)))) as Hpr by (apply LogPrior_main; [lia|lra]).
  exists ma.
  destruct (Req_EM_T (nth 0 th 0) 0) as [Hz|Hz].
  - destruct (LDp_zero solve0 p (walker_ma (A := AX) p q z) (LogPrior AX) b t y e th ma om smax fmin fmax _ Hsv Hb Hp HL3 Ema Lma Nma Hpr Hom Hin Hz) as (Z1 & Z2).
    destruct (exact_dec e (List.length t)) as [Hex|Hex]; [destruct (Z2 Hex) as (b2 & E2); pose proof (eq_trans (eq_sym E) E2) as Q; discriminate|].
    destruct (Z1 Hex) as (x & b2 & E2 & Hx). pose proof (eq_trans (eq_sym E) E2) as Q. injection Q as -> _.
    exists x. split; [exact Lma|]. split; [exact Hma|]. split; [reflexivity|]. refine (@loglik_ext (fun _ _ => 0) _ t y e _ _ x _ Hx). intros a c. rewrite Hz. unfold carma_cov.
    replace (0 * 0 / carma_acv 1 ma om 0) with 0 by (unfold Rdiv; ring). symmetry. apply acv_zero.
  - destruct (LDp_all solve0 p (walker_ma (A := AX) p q z) (LogPrior AX) b t y e th ma om smax fmin fmax false (log_sichi (nth 1 th 0)) Hsv Hb Ht Hp HL3 Ema Lma Nma) as (x & b2 & E2 & Hx);
      try assumption; try (intros; discriminate); try lra; try (intros; assumption).
    pose proof (eq_trans (eq_sym E) E2) as Q. injection Q as -> _. exists x. split; [exact Lma|]. split; [exact Hma|]. split; [reflexivity|exact Hx].
Qed.
(** the same for CAR(1) *)
Lemma LD1_number (b : base AX (F AX)) (th : list R) smax fmin fmax lp b' :
  base_holds b t y e (mkB AX (Fin smax) (Fin fmax) (Fin fmin) false) -> List.length th = 4%nat -> in_prior1 smax fmin fmax th ->
  LogDensity (car1_cls AX) b (map Fin th) = Ok (Fin lp, b') ->
  exists x, lp = x + log_sichi (nth 1 th 0) /\
    is_loglik (fun a c => nth 0 th 0 * nth 0 th 0 * exp (- (exp (nth 3 th 0) * Rabs (a - c)))) t y e (nth 1 th 0) (nth 2 th 0) x.
Proof using Hy He Ht.
  intros Hb HL Hin E. destruct (Req_EM_T (nth 0 th 0) 0) as [Hz|Hz].
  - destruct (LD1_zero b t y e th smax fmin fmax false Hb ltac:(lia) Hin Hz) as (Z1 & Z2).
    destruct (exact_dec e (List.length t)) as [Hex|Hex]; [destruct (Z2 Hex) as (b2 & E2); pose proof (eq_trans (eq_sym E) E2) as Q; discriminate|].
    destruct (Z1 Hex) as (x & b2 & E2 & Hx). pose proof (eq_trans (eq_sym E) E2) as Q. injection Q as -> _. exists x. split; [reflexivity|].
    refine (@loglik_ext (fun _ _ => 0) _ t y e _ _ x _ Hx). intros a c. rewrite Hz. ring.
  - destruct (LD1_inside b t y e th smax fmin fmax false Hb Ht ltac:(lia) Hin Hz) as (m & v & b2 & EL & _ & _ & _ & _ & Hc).
    pose proof (eq_trans (eq_sym E) EL) as Q. injection Q as -> _. eexists. split; [reflexivity|].
    exists (fun i => nth i m 0), (fun i => nth i v 0). split; [exact Hc|reflexivity].
Qed.

Hypothesis HR : valid_rng R0.
Hypothesis Hds : valid_dsort dsort.
Hypothesis Hvs : valid_vsort vsort.
Hypothesis Hch : valid_chol chol.
Hypothesis Hsv : valid_solve solve.

Theorem carma_posterior fuel N burnin p q nw z thin (init : list R) raw v0 l0 a0 (g : gen R0) w g' :
  (Nat.even p = true \/ (3 <= List.length t)%nat) -> (z = true \/ (q < p)%nat) -> moves R0 (walker_dim p q z) ->
  RunCarmaSampler (R := R0) dsort solve si chol fuel N burnin (map Fin t) (map Fin y) (map Fin e) p q nw z thin (map Fin init) raw v0 l0 a0 g = Ok (w, g') ->
  exists smax fmin fmax, run_bounds t y smax fmin fmax /\
  forall i, (i < N)%nat -> exists th om ma x, nth_error (w_samples w) i = Some (map Fin th) /\ List.length th = walker_dim p q z /\
    (List.length om = p /\ forall s, roots_poly om s = quad_poly th 3 p s) /\ in_prior smax fmin fmax th om /\
    (List.length ma = p /\ forall s, Cmult (ma_poly ma s) (quad_poly th (3 + p) (if z then 0 else q) (RtoC 0)) = quad_poly th (3 + p) (if z then 0 else q) s) /\
    nth_error (w_logposts w) i = Some (Fin (x + log_sichi (nth 1 th 0))) /\
    is_loglik (carma_cov (nth 0 th 0 * nth 0 th 0 / carma_acv 1 ma om 0) ma om) t y e (nth 1 th 0) (nth 2 th 0) x.
Proof using Hsi Hy He Ht Hne HR Hds Hch Hsv.
  intros Hodd Hq Hmv E. destruct (carma_obj E) as (Hp & smax & fmin & fmax & HB & Hb). exists smax, fmin, fmax. split; [exact HB|].
  assert (all_kept si (map Fin t)) as Hk by (apply kept_distinct; [exact Hsi|apply increasing_NoDup, Ht]).
  destruct (carma_real HR Hds Hsi Hch Hy He Ht Hne HB Hodd Hmv E) as (_ & H). intros i Hi. destruct (H i Hi) as (th & lp & om & H1 & H2 & H3 & H4 & H5).
  assert (List.length (map Fin y) = List.length (map Fin t) /\ List.length (map Fin e) = List.length (map Fin t)) as [Hy' He'] by (rewrite !map_length; split; assumption).
  destruct (carma_logposts (A := AX) Hy' He' Hk E H1) as (l & x' & Hl & EL). pose proof (eq_trans (eq_sym H3) Hl) as Q. injection Q as <-.
  destruct (LDp_number Hsv Hb Hp Hq H2 H4 H5 EL) as (ma & x & L & Hm & -> & Hx).
  assert (3 + p <= List.length th)%nat as HL3 by (rewrite H2; unfold walker_dim; destruct z; lia).
  destruct (roots_of p th HL3) as (om' & EA & Lo & _ & _ & Hpoly & _).
  assert (om' = om) as ->.
  { pose proof (eq_trans (eq_sym EA) H4) as Q. injection Q as Q. clear - Q. revert om' Q. induction om as [|a k IH]; intros [|a' k'] Q; try discriminate; [reflexivity|].
    cbn [map] in Q. injection Q as E1 E2 E3. f_equal; [|apply IH, E3]. apply C_eq; congruence. }
  exists th, om, ma, x. split; [exact H1|]. split; [exact H2|]. split; [split; assumption|]. split; [exact H5|]. split; [split; assumption|]. split; [exact H3|exact Hx].
Qed.
Theorem car1_posterior N burnin thin (init : list R) raw v0 l0 a0 (g : gen R0) w g' : moves R0 4 ->
  RunCar1Sampler (R := R0) vsort si chol N burnin (map Fin t) (map Fin y) (map Fin e) thin (map Fin init) raw v0 l0 a0 g = Ok (w, g') ->
  exists smax fmin fmax, run_bounds t y smax fmin fmax /\
  forall i, (i < N)%nat -> exists th lp, nth_error (w_samples w) i = Some (map Fin th) /\ List.length th = 4%nat /\ nth_error (w_logposts w) i = Some lp /\
    forall r, lp = Fin r -> in_prior1 smax fmin fmax th /\ exists x, r = x + log_sichi (nth 1 th 0) /\
      is_loglik (fun a c => nth 0 th 0 * nth 0 th 0 * exp (- (exp (nth 3 th 0) * Rabs (a - c)))) t y e (nth 1 th 0) (nth 2 th 0) x.
Proof using Hsi Hy He Ht Hne HR Hvs Hch.
  intros Hmv E. destruct (car1_obj E) as (smax & fmin & fmax & HB & Hb). exists smax, fmin, fmax. split; [exact HB|].
  assert (all_kept si (map Fin t)) as Hk by (apply kept_distinct; [exact Hsi|apply increasing_NoDup, Ht]).
  destruct (car1_real HR Hvs Hsi Hch Hy He Ht Hne HB Hmv E) as (b & r0 & y0 & w0 & _ & _ & _ & _ & H). intros i Hi. destruct (H i Hi) as (th & lp & H1 & H2 & H3 & _).
  assert (List.length (map Fin y) = List.length (map Fin t) /\ List.length (map Fin e) = List.length (map Fin t)) as [Hy' He'] by (rewrite !map_length; split; assumption).
  destruct (car1_logposts (A := AX) Hy' He' Hk E H1) as (l & x' & Hl & EL). pose proof (eq_trans (eq_sym H3) Hl) as Q. injection Q as <-.
  exists th, lp. split; [exact H1|]. split; [exact H2|]. split; [exact H3|]. intros r ->.
  assert (in_prior1 smax fmin fmax th) as Hin.
  { destruct (CheckPriorBounds1_main smax fmin fmax false th ltac:(lia)) as (ok & Ec & Hiff). destruct ok; [apply Hiff; reflexivity|].
    assert (~ in_prior1 smax fmin fmax th) as Hno by (intros Hi1; apply Hiff in Hi1; discriminate).
    pose proof (LD1_outside (w_obj w) t y e th smax fmin fmax false Hb ltac:(lia) Hno) as E2. pose proof (eq_trans (eq_sym EL) E2) as Q. discriminate. }
  split; [exact Hin|]. exact (LD1_number Hb H2 Hin EL).
Qed.
End Post.
