(** LogDensity: a function of data, bounds and theta only, whatever the state of the Kalman filter inside. *)
From Coq Require Import List Arith ZArith Lia Bool.
From Verif Require Import Arith Res ListLemmas KFModel History KF1X Cx KFpModel KFpProof CarpackModel.
Import ListNotations.

Set Implicit Arguments.

Section Gen.
Variable A : Arith.
Local Notation F := (F A).
Local Notation vec := (list F).
Local Notation "x ⊕ y" := (fadd A x y) (at level 50, left associativity).
Local Notation "x ⊖ y" := (fsub A x y) (at level 50, left associativity).
Local Notation "x ⊗ y" := (fmul A x y) (at level 40, left associativity).
Local Notation "x ⊘ y" := (fdiv A x y) (at level 40, left associativity).
Local Notation "# z" := (fofZ A z) (at level 5).
Local Notation half := (fdec A 1 2).

(** data and bounds of a model object, and the times of its filter *)
Record static := mkStatic { st_time : vec; st_y : vec; st_yerr : vec; st_bounds : bounds A; st_ktime : vec }.
Definition static_of {X} (b : base A X) : static :=
  mkStatic (b_time b) (b_y b) (b_yerr b) (b_bounds b) (k_time (b_kf b)).

Definition scaled (e : vec) (scale : F) : vec := map (fun x => fsqrt A scale ⊗ x) e.
Definition cent (y : vec) (mu : F) : vec := map (fun x => x ⊖ mu) y.
Definition lik (n : nat) (y m v : vec) (mu : F) : res F :=
  for_ 0 n (fun i acc =>
    yi <- vget y i ;; mi <- vget m i ;; vi <- vget v i ;;
    let yc := yi ⊖ mi ⊖ mu in
    Ok (acc ⊕ (fneg A half ⊗ flog A vi ⊖ half ⊗ yc ⊗ yc ⊘ vi))) (#0).

Section Class.
Variables X Om Par : Type.
Variable C : cls A X Om.
Variable par : X -> Par.
Variable topar : Om -> vec -> Par.
Variable good : kf A X -> Prop.
Variable pf : setup A Par -> res (vec * vec).
Hypothesis HF : pureF par (v_meth C) good pf.
Hypothesis good_data : forall s t d y e m v sg c a b, good s -> good (mkKF A t d y e m v sg c a b (k_ext s)).
Hypothesis Hset : forall s om ma, usable s ->
  usable (v_SetMA C (v_SetOmega C s om) ma) /\ good (v_SetMA C (v_SetOmega C s om) ma) /\
  setup_of par (v_SetMA C (v_SetOmega C s om) ma) = spec_call (CSetPar A (topar om ma)) (setup_of par s).

(** every vector of the object has one entry per time of the filter *)
Definition wfb (b : base A X) : Prop :=
  usable (b_kf b) /\ length (b_time b) = length (k_time (b_kf b)) /\ length (b_y b) = length (k_time (b_kf b)) /\
  length (b_yerr b) = length (k_time (b_kf b)).

Definition pLD (u : static) (theta : vec) : res F :=
  ok <- v_Check C (st_bounds u) theta ;;
  if negb ok then Ok (fneg A (finf A)) else
  om <- v_AR C theta ;;
  ma <- v_MA C theta ;;
  sig <- v_Sig C theta ;;
  scale <- vget theta 1 ;;
  mu <- vget theta 2 ;;
  match pf (mkSetup A (st_ktime u) (diffs A (st_ktime u)) (cent (st_y u) mu) (scaled (st_yerr u) scale) sig (topar om ma)) with
  | Throw Eruntime => Ok (fneg A (finf A))
  | Ok (m, v) => ll <- lik (length (st_time u)) (st_y u) m v mu ;; pr <- v_Prior C theta ;; Ok (ll ⊕ pr)
  | Throw e => Throw e
  | UB => UB
  | Diverge => Diverge
  end.

Lemma load_ok b sig om ma scale mu : wfb b ->
  usable (load C b sig om ma scale mu) /\ good (load C b sig om ma scale mu) /\
  setup_of par (load C b sig om ma scale mu) =
    mkSetup A (k_time (b_kf b)) (diffs A (k_time (b_kf b))) (cent (b_y b) mu) (scaled (b_yerr b) scale) sig (topar om ma).
Proof using good_data Hset.
  intros (Hu & Ht & Hy & He). unfold load.
  assert (usable (SetSigsqr (b_kf b) sig)) as Hu1 by exact Hu.
  destruct (@Hset _ om ma Hu1) as (Hu2 & Hg2 & Hs2). set (s2 := v_SetMA C _ _) in *.
  unfold setup_of in Hs2. cbn in Hs2. injection Hs2 as E1 E2 E3 E4 E5 E6.
  destruct Hu2 as (U1 & U2 & U3 & U4 & U5 & U6). destruct Hu as (V1 & V2 & _).
  assert (length (centred b mu) = length (k_time s2)) as Ec by (unfold centred; rewrite map_length, E1; exact Hy).
  assert (length (scaled_err b scale) = length (k_time s2)) as Es by (unfold scaled_err; rewrite map_length, E1; exact He).
  split; [|split].
  - unfold usable; cbn. repeat split; assumption.
  - exact (@good_data s2 _ _ _ _ _ _ _ _ _ _ Hg2).
  - unfold setup_of; cbn. rewrite E1, E2, E5, E6, V2. reflexivity.
Qed.

Lemma LD_pure b theta : wfb b ->
  obs_fst (LogDensity C b theta) = pLD (static_of b) theta /\
  (forall v b', LogDensity C b theta = Ok (v, b') -> static_of b' = static_of b /\ wfb b').
Proof using HF good_data Hset.
  intros Hw. unfold LogDensity, pLD. cbn [static_of st_bounds st_time st_y st_yerr st_ktime].
  destruct (v_Check C (b_bounds b) theta) as [[|]|e| |]; cbn [bind negb obs_fst]; try (split; [reflexivity|discriminate]).
  2:{ split; [reflexivity|]. intros v b' E. injection E as <- <-. split; [reflexivity|exact Hw]. }
  destruct (v_AR C theta) as [om|e| |]; cbn [bind obs_fst]; try (split; [reflexivity|discriminate]).
  destruct (v_MA C theta) as [ma|e| |]; cbn [bind obs_fst]; try (split; [reflexivity|discriminate]).
  destruct (v_Sig C theta) as [sig|e| |]; cbn [bind obs_fst]; try (split; [reflexivity|discriminate]).
  destruct (vget theta 1) as [scale|e| |]; cbn [bind obs_fst]; try (split; [reflexivity|discriminate]).
  destruct (vget theta 2) as [mu|e| |]; cbn [bind obs_fst]; try (split; [reflexivity|discriminate]).
  destruct (@load_ok b sig om ma scale mu Hw) as (Hu & Hg & Hs). set (s := load C b sig om ma scale mu) in *.
  assert (k_time s = k_time (b_kf b)) as Ekt by (injection Hs; trivial).
  destruct (HF Hu Hg) as [Ho Hs']. rewrite Hs in Ho.
  assert (forall s', usable s' -> k_time s' = k_time (b_kf b) -> wfb (set_kf b s')) as Hwf.
  { intros s' Hu' Et. unfold wfb, set_kf; cbn. rewrite Et. destruct Hw as (_ & W). split; [exact Hu'|exact W]. }
  destruct (Filter (v_meth C) s) as [s'|[|]| |] eqn:EF; cbn [obs_filter] in Ho; rewrite <- Ho; cbn [bind obs_fst];
    try (split; [reflexivity|discriminate]).
  - destruct (Hs' _ eq_refl) as (Es & Hu' & Hg').
    change (loglik b s' mu) with (lik (length (b_time b)) (b_y b) (k_mean s') (k_var s') mu).
    destruct (lik _ _ _ _ _) as [ll|e| |]; cbn [bind obs_fst]; try (split; [reflexivity|discriminate]).
    destruct (v_Prior C theta) as [pr|e| |]; cbn [bind obs_fst]; try (split; [reflexivity|discriminate]).
    split; [reflexivity|]. intros v b' E. injection E as <- <-.
    assert (k_time s' = k_time (b_kf b)) as Et by (rewrite <- Ekt; injection Es; trivial).
    split; [unfold static_of, set_kf; cbn [b_time b_y b_yerr b_bounds b_kf]; rewrite Et; reflexivity|]. apply Hwf; assumption.
  - split; [reflexivity|]. intros v b' E. injection E as <- <-.
    split; [unfold static_of, set_kf; cbn [b_time b_y b_yerr b_bounds b_kf]; rewrite Ekt; reflexivity|]. apply Hwf; assumption.
Qed.

Lemma LD_value b theta om ma sig scale mu s' ll pr :
  v_Check C (b_bounds b) theta = Ok true -> v_AR C theta = Ok om -> v_MA C theta = Ok ma -> v_Sig C theta = Ok sig ->
  vget theta 1 = Ok scale -> vget theta 2 = Ok mu -> Filter (v_meth C) (load C b sig om ma scale mu) = Ok s' ->
  lik (length (b_time b)) (b_y b) (k_mean s') (k_var s') mu = Ok ll -> v_Prior C theta = Ok pr ->
  LogDensity C b theta = Ok (ll ⊕ pr, set_kf b s').
Proof.
  intros H1 H2 H3 H4 H5 H6 H7 H8 H9. unfold LogDensity.
  rewrite H1, H2, H3, H4, H5, H6. cbn [bind negb]. rewrite H7.
  change (loglik b s' mu) with (lik (length (b_time b)) (b_y b) (k_mean s') (k_var s') mu). rewrite H8, H9. reflexivity.
Qed.

(** What other code does to an object between two LogDensity calls: LogDensity itself (MCMC steps, exchanges, Save
    and the starting values call it) and the filter setters and Filter() (StartingValue, SetStartingValue). *)
Variable setpar : kf A X -> Par -> kf A X.
Inductive touched : base A X -> base A X -> Prop :=
| t_refl b : touched b b
| t_density b b1 b2 theta v : touched b b1 -> LogDensity C b1 theta = Ok (v, b2) -> touched b b2
| t_filter b b1 (G : Type) (draw : G -> F * G) vsort l g g' s :
    touched b b1 -> Forall (call_ok (length (k_time (b_kf b1)))) l ->
    run_calls (v_meth C) setpar draw vsort l (b_kf b1, g) = Ok (s, g') -> touched b (set_kf b1 s).

Variable pp : setup A Par -> F -> res (F * F).
Hypothesis HP : pureP par (v_meth C) good pp.
Hypothesis setpar_ok : forall s p, usable s -> good s ->
  usable (setpar s p) /\ good (setpar s p) /\ setup_of par (setpar s p) = spec_call (CSetPar A p) (setup_of par s).

Lemma spec_calls_time l : forall u : setup A Par, s_time (fold_left (fun u c => spec_call c u) l u) = s_time u.
Proof.
  induction l as [|c l IH]; intros u; [reflexivity|]. cbn [fold_left]. rewrite IH. destruct c; reflexivity.
Qed.
Lemma touched_static b b' : wfb b -> good (b_kf b) -> touched b b' -> static_of b' = static_of b /\ wfb b' /\ good (b_kf b').
Proof using All.
  intros Hw Hg H. induction H as [b|b b1 b2 theta v _ IH E|b b1 G draw vsort l g g' s _ IH Hf E].
  - repeat split; try assumption; apply Hw.
  - destruct (IH Hw Hg) as (Es & Hw1 & Hg1). destruct (@LD_pure b1 theta Hw1) as [_ H]. destruct (H _ _ E) as [Es' Hw'].
    split; [congruence|]. split; [exact Hw'|].
    (* the filter left by LogDensity *)
    clear - E Hg1 Hw1 HF good_data Hset. unfold LogDensity in E.
    apply bind_Ok in E. destruct E as ([|] & _ & E); cbn [negb] in E.
    2:{ injection E as _ <-. exact Hg1. }
    apply bind_Ok in E. destruct E as (om & _ & E). apply bind_Ok in E. destruct E as (ma & _ & E).
    apply bind_Ok in E. destruct E as (sig & _ & E). apply bind_Ok in E. destruct E as (scale & _ & E).
    apply bind_Ok in E. destruct E as (mu & _ & E). cbv zeta in E.
    destruct (@load_ok b1 sig om ma scale mu Hw1) as (Hu & Hg & _).
    destruct (HF Hu Hg) as [_ Hs']. destruct (Filter _ _) as [s'|[|]| |]; try discriminate.
    + apply bind_Ok in E. destruct E as (ll & _ & E). apply bind_Ok in E. destruct E as (pr & _ & E).
      injection E as _ <-. apply (Hs' _ eq_refl).
    + injection E as _ <-. exact Hg.
  - destruct (IH Hw Hg) as (Es & Hw1 & Hg1). destruct Hw1 as (Hu1 & Hw1).
    destruct (@run_calls_setup _ _ _ par (v_meth C) setpar G draw vsort good pf pp HF HP good_data setpar_ok l _ _ _ _ Hu1 Hg1 Hf E) as (Hs & Hu & Hg').
    assert (k_time s = k_time (b_kf b1)) as Et.
    { apply (f_equal (@s_time _ _)) in Hs. rewrite spec_calls_time in Hs. exact Hs. }
    split; [rewrite <- Es; unfold static_of, set_kf; cbn [b_time b_y b_yerr b_bounds b_kf]; rewrite Et; reflexivity|]. split; [|exact Hg'].
    unfold wfb, set_kf; cbn. rewrite Et. split; [exact Hu|exact Hw1].
Qed.

Theorem LD_history b b' theta : wfb b -> good (b_kf b) -> touched b b' ->
  obs_fst (LogDensity C b' theta) = obs_fst (LogDensity C b theta).
Proof using All.
  intros Hw Hg H. destruct (@touched_static b b' Hw Hg H) as (Es & Hw' & _).
  destruct (@LD_pure b theta Hw) as [-> _]. destruct (@LD_pure b' theta Hw') as [-> _]. rewrite Es. reflexivity.
Qed.
End Class.

(** ** The classes *)
Lemma Hset1 : forall (s : kf1 A) om (ma : vec), usable s ->
  usable (v_SetMA (car1_cls A) (v_SetOmega (car1_cls A) s om) ma) /\ good1 A (v_SetMA (car1_cls A) (v_SetOmega (car1_cls A) s om) ma) /\
  setup_of (fun x => x) (v_SetMA (car1_cls A) (v_SetOmega (car1_cls A) s om) ma) = spec_call (CSetPar A om) (setup_of (fun x => x) s).
Proof. intros s om ma Hu. split; [exact Hu|]. split; [exact I|reflexivity]. Qed.

Variable solve : list (list (cx A)) -> list (cx A) -> option (list (cx A)).
Lemma Hsetp p maf prior : forall (s : kfp A) om ma, usable s ->
  let C := pcls solve p maf prior in
  usable (v_SetMA C (v_SetOmega C s om) ma) /\ goodp (v_SetMA C (v_SetOmega C s om) ma) /\
  setup_of (@par_of A) (v_SetMA C (v_SetOmega C s om) ma) = spec_call (CSetPar A (om, ma)) (setup_of (@par_of A) s).
Proof.
  intros s om ma Hu C. split; [exact Hu|]. split; [|reflexivity]. apply (good_set om ma s).
Qed.

Definition LD_pure1 (b : base A F) theta (Hw : wfb b) :=
  @LD_pure _ _ _ (car1_cls A) (fun x => x) (fun om (_ : vec) => om) (@good1 A) (@pf1 A) (pureF1 A) (@good_data1 A) Hset1 b theta Hw.
Definition LD_purep p maf prior (b : base A (kpx A)) theta (Hw : wfb b) :=
  @LD_pure _ _ _ (pcls solve p maf prior) (@par_of A) (fun om ma => (om, ma)) (@goodp A) (@pfp A solve) (pureFp solve) (@good_datap A)
    (@Hsetp p maf prior) b theta Hw.
Lemma LD_history1 b b' theta : wfb b -> touched (car1_cls A) (@setpar1 A) b b' ->
  obs_fst (LogDensity (car1_cls A) b' theta) = obs_fst (LogDensity (car1_cls A) b theta).
Proof.
  intros Hw H.
  exact (@LD_history _ _ _ (car1_cls A) (fun x => x) (fun om (_ : vec) => om) (@good1 A) (@pf1 A) (pureF1 A) (@good_data1 A) Hset1
           (@setpar1 A) (@pp1 A) (pureP1 A) (@setpar_ok1 A) b b' theta Hw I H).
Qed.
Lemma LD_historyp p maf prior b b' theta : wfb b -> goodp (b_kf b) -> touched (pcls solve p maf prior) (@setparp A) b b' ->
  obs_fst (LogDensity (pcls solve p maf prior) b' theta) = obs_fst (LogDensity (pcls solve p maf prior) b theta).
Proof.
  intros Hw Hg H.
  exact (@LD_history _ _ _ (pcls solve p maf prior) (@par_of A) (fun om ma => (om, ma)) (@goodp A) (@pfp A solve) (pureFp solve) (@good_datap A)
           (@Hsetp p maf prior) (@setparp A) (@ppp A solve) (purePp solve) (@setpar_okp A) b b' theta Hw Hg H).
Qed.
End Gen.
