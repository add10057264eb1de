(** Runs complete (any arithmetic). *)
From Coq Require Import List Arith ZArith Bool String Lia.
From Verif Require Import Arith Res ListLemmas KFModel KF1Proof History KF1X Cx KFpModel KFpProof CarpackModel LogLikProof KFpTop CarpackTop.
From Verif Require Import EngineModel StartModel EngineSpec EngineProof EngineInv EngineHist EngineClass EngineDriver EngineTop TotalProof TotalClass.
Import ListNotations.

Set Implicit Arguments.
Unset Strict Implicit.

Section Top.
Variable A : Arith.
Local Notation F := (F A).
Local Notation vec := (list F).
Local Notation "# z" := (fofZ A z) (at level 5).
Variable R : rng A.
Variables vsort dsort : vec -> option vec.
Variable solve : list (list (cx A)) -> list (cx A) -> option (list (cx A)).
Variable si : vec -> option (list nat).
Variable chol : mat A -> option (mat A).

Lemma AddSteps_wp (d er : Prop) X (ws : list (param A X vec)) l : forall ss t, wp d er (fun st => fst st = ss ++ l) (AddSteps (ss, t) ws l).
Proof.
  induction l as [|s l IH]; intros ss t; cbn [AddSteps]; [cbn; rewrite app_nil_r; reflexivity|].
  unfold AddStep. unfold vgetU. destruct (nth_error ws _); [|exact I]. cbn [bind]. eapply wp_mono; [apply IH|].
  intros st H. cbv beta in H. rewrite H, <- app_assoc. reflexivity.
Qed.
Lemma mk_walkers_ok X (mk : res (base A X)) sd v0 l0 label temps b b1 : mk = Ok b -> SetPrior b sd = Ok b1 ->
  mk_walkers mk sd v0 l0 label temps = Ok (map (fun T => new_param b1 v0 l0 T false label) temps).
Proof.
  intros E1 E2. induction temps as [|T temps IH]; cbn [mk_walkers]; [reflexivity|]. rewrite E1. cbn [bind]. rewrite E2. cbn [bind].
  rewrite E1 in IH. rewrite IH. reflexivity.
Qed.
Lemma hot_steps_sok n (r : ram A) e m nw : m < nw -> square n (r_chol r) -> Forall (sok n nw) (hot_steps m r e).
Proof.
  intros H1 H2. induction m as [|m IH]; cbn [hot_steps]; [constructor|]. constructor; [split; [exact H1|exact H2]|]. constructor; [cbn; lia|]. apply IH. lia.
Qed.

Lemma run_carma_wp (d er : Prop) X (M : methodsP R (base A X) vec) mk npar label N burnin y nw thin init v0 l0 a0 g b b1 L (ok : base A X -> Prop) :
  (forall x v, ok x -> List.length v = npar -> wp d er (fun q => ok (snd q)) (o_LogDensity M x v)) ->
  (forall x v, ok x -> List.length v = npar -> wp d er (fun _ => True) (o_Save M x v)) ->
  (forall x g, ok x -> wp d er (fun q => ok (snd (fst q)) /\ List.length (fst (fst q)) = npar)
    (if List.length init =? npar then o_SetStart M x init g else o_Start M x g)) ->
  0 < npar -> mk = Ok b -> SetPrior b (fmul A (#10) (fsqrt A (pop_var A y))) = Ok b1 -> ok b1 ->
  chol (prop_covar A npar y) = Some L -> square npar L -> List.length v0 = npar ->
  wp d er (fun _ => True) (run_carma chol M mk npar label N burnin y nw thin init v0 l0 a0 g).
Proof.
  intros H1 H2 H3 Hn Eb Eb1 Hok EL HL Hv0. unfold run_carma. rewrite (@mk_walkers_ok _ _ _ v0 l0 label (temp_ladder A nw) b b1 Eb Eb1). cbn [bind]. cbv zeta.
  set (ws := map _ (temp_ladder A nw)).
  assert (List.length ws = nw) as Hlen by (unfold ws; rewrite map_length; apply temp_ladder_len).
  assert (Forall (wok npar ok) ws) as Hws.
  { unfold ws. apply Forall_forall. intros w Hw. apply in_map_iff in Hw. destruct Hw as (T & <- & _). split; [exact Hok|exact Hv0]. }
  unfold vgetU at 1. destruct (nth_error ws 0) as [w0|] eqn:E0; [|exact I]. cbn [bind].
  assert (0 < nw) as Hnw by (rewrite <- Hlen; apply nth_error_Some; congruence).
  unfold ram_new. rewrite EL. cbn [bind]. set (r := mkRam _ _ _ _ _ _ _). set (e0 := mkExch _ _ _ _ _).
  eapply wp_bind; [apply AddSteps_wp|]. intros [ss0 t0] Hss0. cbn [fst app] in Hss0.
  eapply wp_bind; [apply AddSteps_wp|]. intros [ss t] Hss. cbn [fst] in Hss.
  eapply wp_bind.
  - eapply (@Run_wp A R _ M (@student_draw A R) d er npar ok init H1 H2 H3 Hn nw). split; [cbn [y_pars]; rewrite upd_length; exact Hlen|]. cbn [y_pars y_steps].
    split; [apply Forall_upd; [exact Hws|]; exact (proj1 (Forall_nth_error _ _) Hws _ _ E0)|].
    rewrite Hss, Hss0. apply Forall_app. split; [apply hot_steps_sok; [lia|exact HL]|]. constructor; [|constructor]. split; [exact Hnw|exact HL].
  - intros s [Hs _]. unfold vgetU. destruct (nth_error (y_pars s) 0); exact I.
Qed.

Lemma SetPrior_ok X (b : base A X) sd : 2 <= List.length (b_time b) -> exists b1, SetPrior b sd = Ok b1.
Proof.
  intros H. unfold SetPrior, make_bounds, make_dt. destruct (Nat.ltb_spec (List.length (b_time b)) 2) as [|_]; [lia|]. cbn [bind].
  destruct (diffs A (b_time b)) as [|x r] eqn:Ed.
  { apply (f_equal (@List.length _)) in Ed. rewrite diffs_len in Ed. cbn in Ed. lia. }
  cbn [vmin bind]. unfold vmax, vmin. destruct (b_time b); [cbn in H; lia|]. cbn [bind]. eexists. reflexivity.
Qed.
Lemma SetPrior_inv X (b b1 : base A X) sd : SetPrior b sd = Ok b1 -> b_time b1 = b_time b /\ b_kf b1 = b_kf b /\ (wfb b -> wfb b1).
Proof.
  intros E. unfold SetPrior in E. apply bind_Ok in E. destruct E as (bd & _ & E). injection E as <-. split; [reflexivity|]. split; [reflexivity|]. intros H; exact H.
Qed.

(** CAR1: from a constructed object and a proposal factor, the run always completes *)
Theorem car1_completes N burnin t y e thin init raw v0 l0 a0 (g : gen R) b L :
  List.length y = List.length t -> List.length e = List.length t -> all_kept si t -> car1_new si raw t y e = Ok b ->
  (exists s, vsort (diffs A t) = Some s /\ List.length s = List.length (diffs A t)) ->
  chol (prop_covar A 4 y) = Some L -> square 4 L -> List.length v0 = 4 ->
  exists w g', RunCar1Sampler (R := R) vsort si chol N burnin t y e thin init raw v0 l0 a0 g = Ok (w, g').
Proof.
  intros Hy He Hk Eb Hvs EL HL Hv0. destruct (@base_new_wfb A _ si raw t y e b Hy He Eb) as (T1 & T2 & T3 & _ & Hw).
  assert (wfb b) as Hwb.
  { apply Hw. unfold car1_new, base_new in Eb. apply bind_Ok in Eb. destruct Eb as (v & _ & Eb). apply bind_Ok in Eb. destruct Eb as (bd & _ & Eb).
    apply bind_Ok in Eb. destruct Eb as (s & Es & Eb). injection Eb as <-. exact (Hk _ _ _ _ _ Es). }
  assert (2 <= List.length (b_time b)) as H2 by (destruct Hwb as ((U1 & _) & W & _); rewrite W; exact U1).
  destruct (@SetPrior_ok _ b (fmul A (#10) (fsqrt A (pop_var A y))) H2) as (b1 & E1).
  destruct (SetPrior_inv E1) as (Et1 & _ & Hw1). rewrite T1 in Et1.
  enough (exists x, RunCar1Sampler (R := R) vsort si chol N burnin t y e thin init raw v0 l0 a0 g = Ok x /\ True) as ([w g'] & E & _).
  { exists w, g'. exact E. }
  apply wp_total; [|apply car1_safe]. unfold RunCar1Sampler. rewrite Eb. cbn [bind]. rewrite E1. cbn [bind]. cbv zeta.
  unfold ram_new. rewrite EL. cbn [bind]. set (r := mkRam _ _ _ _ _ _ _). eapply wp_bind; [apply AddSteps_wp|]. intros [ss tr] Hss. cbn [fst app] in Hss.
  set (st := static_of b1).
  eapply wp_bind.
  - eapply (@Run_wp A R _ (par1 R vsort) (@student_draw A R) False False 4 (okb st) init) with (nw := 1); cbn [o_LogDensity o_Save o_Start o_SetStart par1].
    + intros x v Hx Hv. apply LD1_wp; assumption.
    + intros x v Hx Hv. apply save1_wp with (st := st); assumption.
    + intros x g0 Hx. assert (exists s, vsort (diffs A (st_time st)) = Some s /\ List.length s = List.length (diffs A (st_time st))) as Hvs' by (cbn; rewrite Et1; exact Hvs).
      destruct (_ =? _); [apply SetStart1_wp|apply Start1_wp]; assumption.
    + lia.
    + split; [reflexivity|]. cbn [y_pars y_steps]. split.
      * constructor; [|constructor]. split; [|exact Hv0]. split; [exact (Hw1 Hwb)|reflexivity].
      * rewrite Hss. constructor; [|constructor]. split; [lia|exact HL].
  - intros s [Hs _]. unfold vgetU. destruct (nth_error (y_pars s) 0); exact I.
Qed.

(** ** CARMA *)
Lemma carp_new_okt (raw : kfp A) p t y e b z : List.length y = List.length t -> List.length e = List.length t -> all_kept si t -> 2 <= p ->
  walker_new si raw p z t y e = Ok b -> wfb b /\ List.length (x_ma (k_ext (b_kf b))) = p /\ b_time b = t.
Proof.
  intros Hy He Hk Hp E.
  assert (forall b0, carp_new si raw p t y e = Ok b0 -> wfb b0 /\ List.length (x_ma (k_ext (b_kf b0))) = p /\ b_time b0 = t) as K.
  { intros b0 E0. unfold carp_new in E0. apply bind_Ok in E0. destruct E0 as (b1 & E1 & E0). destruct (Nat.eqb_spec p 0) as [->|_]; [lia|]. injection E0 as <-.
    destruct (@base_new_wfb A _ si raw t y e b1 Hy He E1) as (T1 & T2 & T3 & _ & Hw).
    assert (wfb b1) as Hwb.
    { apply Hw. unfold base_new in E1. apply bind_Ok in E1. destruct E1 as (v & _ & Eb). apply bind_Ok in Eb. destruct Eb as (bd & _ & Eb).
      apply bind_Ok in Eb. destruct Eb as (s & Es & Eb). injection Eb as <-. exact (Hk _ _ _ _ _ Es). }
    split; [exact Hwb|]. split; [apply carp_ma_len|exact T1]. }
  unfold walker_new in E. destruct z; [|exact (K _ E)]. unfold zcar_new in E. apply bind_Ok in E. destruct E as (b0 & E0 & E). destruct (K _ E0) as (K1 & K2 & K3).
  apply bind_Ok in E. destruct E as (dd & _ & E). apply bind_Ok in E. destruct E as (m & _ & E). apply bind_Ok in E. destruct E as (ma & Ema & E). injection E as <-.
  split; [exact K1|]. split; [|exact K3]. pose proof (@belcher_wp A False False p (fdiv A (#1) m) ltac:(lia)) as Q. rewrite Ema in Q. exact Q.
Qed.

Definition walker_ma (p q : nat) (z : bool) : vec -> res vec := if z then fun _ => Ok (carp_ma A p) else if q =? 0 then fun _ => Ok (carp_ma A p) else ExtractMA_carma A p q.
Lemma walker_cls_eq p q z : walker_cls solve p q z = pcls solve p (walker_ma p q z) (LogPrior A).
Proof. unfold walker_cls, walker_ma. destruct z; [reflexivity|]. destruct (q =? 0); reflexivity. Qed.
Definition walker_extra (q : nat) (z : bool) : gen R -> vec * gen R := if z then fun g => ([], g) else if q =? 0 then fun g => ([], g) else StartingMA (R := R) q.
Definition walker_early (q : nat) (z : bool) : bool := if z then false else if q =? 0 then false else true.
Lemma walker_par_eq fuel p q z : walker_par R dsort solve fuel p q z =
  parp dsort solve fuel p (pcls solve p (walker_ma p q z) (LogPrior A)) (walker_extra q z) (walker_early q z) (walker_early q z) (walker_dim p q z).
Proof.
  unfold walker_par, walker_ma, walker_extra, walker_early, walker_dim. destruct z.
  - unfold par_zcar. rewrite (Nat.add_comm p 3). reflexivity.
  - destruct (Nat.eqb_spec q 0) as [->|].
    + unfold par_carp. rewrite (Nat.add_comm p 3), Nat.add_0_r. reflexivity.
    + unfold par_carma. replace (p + q + 3) with (3 + p + q) by lia. reflexivity.
Qed.
Lemma walker_ma_wp (d er : Prop) p q z th : 2 <= p -> (z = true \/ q < p) -> List.length th = walker_dim p q z ->
  wp d er (fun m => List.length m = p) (walker_ma p q z th).
Proof.
  intros Hp Hq Hl. unfold walker_ma, walker_dim in *. destruct z; [apply carp_ma_len|]. destruct (Nat.eqb_spec q 0); [apply carp_ma_len|].
  apply ma_carma_wp; [|lia]. destruct Hq as [|Hq]; [discriminate|exact Hq].
Qed.

Lemma RunCarma_eq fuel N burnin t y e p q nw z thin init raw v0 l0 a0 (g : gen R) : 2 <= p -> exists label,
  RunCarmaSampler (R := R) dsort solve si chol fuel N burnin t y e p q nw z thin init raw v0 l0 a0 g =
  run_carma chol (walker_par R dsort solve fuel p q z) (walker_new si raw p z t y e) (walker_dim p q z) label N burnin y nw thin init v0 l0 a0 g.
Proof.
  intros Hp. unfold RunCarmaSampler, walker_par, walker_new, walker_dim. destruct (Nat.ltb_spec p 2) as [|_]; [lia|].
  destruct z; [|destruct (q =? 0)]; eexists; reflexivity.
Qed.

(** from an initial value of the right length with finite log-density the run completes, and every chain starts there *)
Theorem carma_completes fuel N burnin t y e p q nw z thin init raw v0 l0 a0 (g : gen R) b b1 lp b2 L :
  ffin A (fneg A (finf A)) = false -> 2 <= p -> (z = true \/ q < p) -> 0 < nw ->
  List.length y = List.length t -> List.length e = List.length t -> all_kept si t ->
  walker_new si raw p z t y e = Ok b -> SetPrior b (fmul A (#10) (fsqrt A (pop_var A y))) = Ok b1 ->
  List.length init = walker_dim p q z -> LogDensity (walker_cls solve p q z) b1 init = Ok (lp, b2) -> ffin A lp = true ->
  chol (prop_covar A (walker_dim p q z) y) = Some L -> square (walker_dim p q z) L -> List.length v0 = walker_dim p q z ->
  exists w g', RunCarmaSampler (R := R) dsort solve si chol fuel N burnin t y e p q nw z thin init raw v0 l0 a0 g = Ok (w, g').
Proof.
  intros Hni Hp Hq Hnw Hy He Hk Eb E1 Hi EL Hf Ech HL Hv0. destruct (@carp_new_okt raw p t y e b z Hy He Hk Hp Eb) as (Hwb & Hma & Et).
  destruct (SetPrior_inv E1) as (Et1 & Ek1 & Hw1).
  enough (exists x, RunCarmaSampler (R := R) dsort solve si chol fuel N burnin t y e p q nw z thin init raw v0 l0 a0 g = Ok x /\ True) as ([w g'] & E & _).
  { exists w, g'. exact E. }
  apply wp_total; [|apply carma_safe; exact Hnw]. destruct (@RunCarma_eq fuel N burnin t y e p q nw z thin init raw v0 l0 a0 g Hp) as [label ->].
  set (st := static_of b1). set (dim := walker_dim p q z) in *.
  assert (3 + p <= dim) as Hdim by (unfold dim, walker_dim; destruct z; lia).
  pose proof (fun th H => @walker_ma_wp False False p q z th Hp Hq H) as HmaW. fold dim in HmaW.
  assert (forall th : vec, List.length th = dim -> wp False False (fun _ => True) (LogPrior A th)) as HprW by (intros th H; apply LogPrior_wp; lia).
  rewrite walker_cls_eq in EL. rewrite walker_par_eq. fold dim.
  assert (okb st b1) as Hb1 by (split; [exact (Hw1 Hwb)|reflexivity]).
  pose proof (proj1 (LDp_ok Hb1 EL)) as Hpl.
  eapply run_carma_wp with (ok := okt p st) (b := b) (b1 := b1) (L := L); cbn [o_LogDensity o_Save o_Start o_SetStart parp]; try assumption.
  - intros x v Hx Hv. apply LDp_wp with (len := dim); assumption.
  - intros x v Hx Hv. apply savep_wp with (st := st) (len := dim) (p := p); assumption.
  - intros x g0 [Hx Hx2]. rewrite Hi, Nat.eqb_refl.
    destruct (@LD_purep A solve p (walker_ma p q z) (LogPrior A) x init (proj1 Hx)) as [Hpu _]. rewrite (proj2 Hx) in Hpu. pose proof (eq_trans Hpu Hpl) as Hpu2. clear Hpu. rename Hpu2 into Hpu.
    destruct (LogDensity (pcls solve p (walker_ma p q z) (LogPrior A)) x init) as [[lp' x']| | |] eqn:ELx; try discriminate. cbn in Hpu. injection Hpu as ->.
    destruct (@set_start_init A solve R dsort p (walker_ma p q z) (LogPrior A) (walker_extra q z) (walker_early q z) (walker_early q z) dim fuel x init g0 lp x' Hni (proj1 Hx) Hi ELx Hf) as [x2 E2].
    rewrite E2. cbn [wp fst snd]. split; [|exact Hi]. pose proof (@set_start_wp A True True solve p dim (walker_ma p q z) (LogPrior A) Hp Hdim) as K.
    destruct (set_start_ok Hx E2) as [Hx2' _]. split; [exact Hx2'|].
    pose proof E2 as E3. unfold set_start in E3. rewrite Hi, Nat.eqb_refl in E3. cbn [negb] in E3. rewrite ELx in E3. cbn [bind] in E3. rewrite Hf in E3. cbn [negb] in E3.
    apply bind_Ok in E3. destruct E3 as (t0 & _ & E3). apply bind_Ok in E3. destruct E3 as (sc & _ & E3). apply bind_Ok in E3. destruct E3 as (mu & _ & E3).
    apply bind_Ok in E3. destruct E3 as (roots & Er & E3). apply bind_Ok in E3. destruct E3 as (ma & Em & E3). cbv zeta in E3.
    apply bind_Ok in E3. destruct E3 as (b3 & E3 & Q). injection Q as <-.
    pose proof (@LDp_wp A False False solve p dim (walker_ma p q z) (LogPrior A) Hp Hdim HmaW HprW st x init (Logic.conj Hx Hx2) Hi) as W. rewrite ELx in W. cbn [wp snd] in W.
    assert (List.length ma = p) as Hml by (specialize (HmaW init Hi); cbn [v_MA pcls] in Em; rewrite Em in HmaW; exact HmaW).
    assert (List.length roots = p) as Hrl.
    { pose proof (@quad_roots_wp A False False init 3 p ltac:(lia)) as Q. unfold ARRoots in Er. rewrite Er in Q. exact Q. }
    pose proof (fun H => @set_filterp_wp A False True solve p dim (walker_ma p q z) (LogPrior A) Hp Hdim st x' (fdiv A (fmul A t0 t0) (Variance roots ma (#1) (#0))) roots
       (if walker_early q z then Some ma else None) sc mu I W Hrl H) as V.
    rewrite E3 in V. cbn [wp] in V. apply V. intros m Q. destruct (walker_early q z); [|discriminate]. injection Q as <-. exact Hml.
  - lia.
  - split; [exact Hb1|]. rewrite Ek1. exact Hma.
Qed.

(** without a usable initial value: a result, or the starting value loop does not end within [fuel] passes, or a
    failed arma::solve in StartingValue (which is not caught there); never logic_error *)
Theorem carma_outcomes fuel N burnin t y e p q nw z thin init raw v0 l0 a0 (g : gen R) b b1 L (U : F -> Prop) :
  2 <= p -> (z = true \/ q < p) -> 0 < nw ->
  List.length y = List.length t -> List.length e = List.length t -> all_kept si t ->
  walker_new si raw p z t y e = Ok b -> SetPrior b (fmul A (#10) (fsqrt A (pop_var A y))) = Ok b1 ->
  (forall g, U (fst (a_randu R g))) ->
  (forall mn l, Forall U l -> List.length l = (p + 1) / 2 ->
    (hi <- vmax A t ;; lo <- vmin A t ;; Ok (fdiv A (#1) (fsub A hi lo))) = Ok mn ->
    exists s, dsort (map (log_grid A (max_freq (b_bounds b1)) mn) l) = Some s /\ List.length s = List.length l) ->
  chol (prop_covar A (walker_dim p q z) y) = Some L -> square (walker_dim p q z) L -> List.length v0 = walker_dim p q z ->
  let r := RunCarmaSampler (R := R) dsort solve si chol fuel N burnin t y e p q nw z thin init raw v0 l0 a0 g in
  (exists w g', r = Ok (w, g')) \/ r = Throw Eruntime \/ r = Diverge.
Proof.
  intros Hp Hq Hnw Hy He Hk Eb E1 HU Hds Ech HL Hv0 r. destruct (@carp_new_okt raw p t y e b z Hy He Hk Hp Eb) as (Hwb & Hma & Et).
  destruct (SetPrior_inv E1) as (Et1 & Ek1 & Hw1).
  assert (safe r) as Hsafe by (apply carma_safe; exact Hnw).
  enough (wp True True (fun _ => True) r) as W.
  { destruct r as [[w g']|[|]| |]; cbn [wp] in W; try contradiction.
    - left; eauto.
    - right; left; reflexivity.
    - right; right; reflexivity. }
  unfold r. destruct (@RunCarma_eq fuel N burnin t y e p q nw z thin init raw v0 l0 a0 g Hp) as [label ->].
  set (st := static_of b1). set (dim := walker_dim p q z) in *.
  assert (3 + p <= dim) as Hdim by (unfold dim, walker_dim; destruct z; lia).
  pose proof (fun th H => @walker_ma_wp True True p q z th Hp Hq H) as HmaW. fold dim in HmaW.
  assert (forall th : vec, List.length th = dim -> wp True True (fun _ => True) (LogPrior A th)) as HprW by (intros th H; apply LogPrior_wp; lia).
  rewrite walker_par_eq. fold dim.
  assert (okb st b1) as Hb1 by (split; [exact (Hw1 Hwb)|reflexivity]).
  assert (2 <= List.length (st_time st)) as Hn2.
  { destruct (Hw1 Hwb) as ((U1 & _) & W & _). cbn [st static_of st_time]. rewrite W. exact U1. }
  assert (forall g0, List.length (fst (walker_extra q z g0)) + p + 3 = dim) as Hex.
  { intros g0. unfold walker_extra, dim, walker_dim. destruct z; [cbn; lia|]. destruct (Nat.eqb_spec q 0) as [->|]; [cbn; lia|].
    unfold StartingMA. pose proof (draws_len q (on_a (a_randn R)) g0) as Q. destruct (draws q _ g0) as [zz g1]. cbn [fst] in *. rewrite map_length. lia. }
  assert (forall mn l, Forall U l -> List.length l = (p + 1) / 2 ->
    (hi <- vmax A (st_time st) ;; lo <- vmin A (st_time st) ;; Ok (fdiv A (#1) (fsub A hi lo))) = Ok mn ->
    exists s, dsort (map (log_grid A (max_freq (st_bounds st)) mn) l) = Some s /\ List.length s = List.length l) as Hds'.
  { intros mn l H1 H2 H3. apply Hds; [exact H1|exact H2|]. cbn [st static_of st_time] in H3. rewrite Et1, Et in H3. exact H3. }
  eapply run_carma_wp with (ok := okt p st) (b := b) (b1 := b1) (L := L); cbn [o_LogDensity o_Save o_Start o_SetStart parp]; try assumption.
  - intros x v Hx Hv. apply LDp_wp with (len := dim); assumption.
  - intros x v Hx Hv. apply savep_wp with (st := st) (len := dim) (p := p); assumption.
  - intros x g0 Hx. destruct (_ =? _); [apply set_start_wp with (U := U)|apply start_while_wp with (U := U)]; assumption || exact I.
  - lia.
  - split; [exact Hb1|]. rewrite Ek1. exact Hma.
Qed.

(** the value every chain starts from is the given one when that has a finite log-density (C44) *)
Lemma just_started_init p q z fuel st b init g w g' lp : ffin A (fneg A (finf A)) = false -> okb st b -> List.length init = walker_dim p q z ->
  pLD (walker_cls solve p q z) (fun om (ma : vec) => (om, ma)) (@pfp A solve) st init = Ok lp -> ffin A lp = true ->
  just_started (walker_par R dsort solve fuel p q z) true init b g w g' -> w_value w = init /\ g' = g /\ w_logpost w = lp.
Proof.
  intros Hni Hb Hi Hpl Hf (x1 & E & EL). rewrite walker_par_eq in E, EL. cbn [o_SetStart o_LogDensity parp] in E, EL. rewrite walker_cls_eq in Hpl.
  destruct (@LD_purep A solve p (walker_ma p q z) (LogPrior A) b init (proj1 Hb)) as [Hpu _]. rewrite (proj2 Hb) in Hpu.
  pose proof (eq_trans Hpu Hpl) as Q. destruct (LogDensity (pcls solve p (walker_ma p q z) (LogPrior A)) b init) as [[lp' x']| | |] eqn:ELx; try discriminate.
  cbn in Q. injection Q as ->.
  destruct (@set_start_init A solve R dsort p (walker_ma p q z) (LogPrior A) (walker_extra q z) (walker_early q z) (walker_early q z) (walker_dim p q z) fuel b init g lp x' Hni (proj1 Hb) Hi ELx Hf) as [x2 E2].
  pose proof (eq_trans (eq_sym E2) E) as Q. injection Q as Hv Hx Hg. split; [congruence|]. split; [congruence|].
  destruct (set_start_ok Hb E2) as [Hx2 _]. rewrite <- Hv, <- Hx in EL. destruct (LDp_ok Hx2 EL) as [Hl _]. pose proof (eq_trans (eq_sym Hl) Hpl) as Q. congruence.
Qed.
Lemma just_started_init1 st b init g w g' lp : ffin A (fneg A (finf A)) = false -> okb st b -> List.length init = 4 ->
  pLD (car1_cls A) (fun om (_ : vec) => om) (@pf1 A) st init = Ok lp -> ffin A lp = true ->
  just_started (par1 R vsort) true init b g w g' -> w_value w = init /\ g' = g /\ w_logpost w = lp.
Proof.
  intros Hni Hb Hi Hpl Hf (x1 & E & EL). cbn [o_SetStart o_LogDensity par1] in E, EL.
  destruct (@LD_pure1 A b init (proj1 Hb)) as [Hpu _]. rewrite (proj2 Hb) in Hpu.
  pose proof (eq_trans Hpu Hpl) as Q. destruct (LogDensity (car1_cls A) b init) as [[lp' x']| | |] eqn:ELx; try discriminate.
  cbn in Q. injection Q as ->.
  destruct (@SetStart1_init A R vsort b init g lp x' Hni (proj1 Hb) Hi ELx Hf) as [x2 E2].
  pose proof (eq_trans (eq_sym E2) E) as Q. injection Q as Hv Hx Hg. split; [congruence|]. split; [congruence|].
  pose proof (SetStart1_ok Hb E2) as Hx2. rewrite <- Hv, <- Hx in EL. destruct (LD1_ok Hx2 EL) as [Hl _]. pose proof (eq_trans (eq_sym Hl) Hpl) as Q. congruence.
Qed.
End Top.
