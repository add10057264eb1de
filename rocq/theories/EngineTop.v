(** Run theorems for RunCar1Sampler and RunCarmaSampler: no invalid access, samples inside the prior, adaptation. *)
From Coq Require Import List Arith ZArith Bool String Lia.
From Verif Require Import Arith Res ListLemmas KFModel History KF1X Cx KFpModel KFpProof CarpackModel LogLikProof KFpTop CarpackTop.
From Verif Require Import EngineModel StartModel EngineSpec EngineProof EngineInv EngineHist EngineClass EngineDriver.
Import ListNotations.

Set Implicit Arguments.
Unset Strict Implicit.

(** what C34 needs of the arithmetic: finiteness of a quotient of a difference implies finiteness of the minuend *)
Record finite_laws (A : Arith) : Prop := mkFL {
  fl_ratio : forall a b c, ffin A (fdiv A (fsub A a b) c) = true -> ffin A a = true;
  fl_ninf : ffin A (fneg A (finf A)) = false }.

Section Top.
Variable A : Arith.
Local Notation F := (F A).
Local Notation vec := (list F).
Variable R : rng A.
Variables vsort dsort : vec -> option vec.
Variable solve : list (list (cx A)) -> list (cx A) -> option (list (cx A)).
Variable si : vec -> option (list nat).
Variable chol : mat A -> option (mat A).

(** ** C35, no invalid access *)
Theorem carma_safe fuel N burnin t y e p q nw z thin init raw v0 l0 a0 (g : gen R) : 0 < nw ->
  RunCarmaSampler dsort solve si chol fuel N burnin t y e p q nw z thin init raw v0 l0 a0 g <> UB.
Proof.
  intros Hn. change (safe (RunCarmaSampler dsort solve si chol fuel N burnin t y e p q nw z thin init raw v0 l0 a0 g)).
  unfold RunCarmaSampler. destruct (p <? 2); [discriminate|].
  destruct z; [|destruct (q =? 0)]; (apply run_carma_safe; [exact Hn|first [apply safe_zcar_new|apply safe_carp_new]|..]);
    cbn [o_LogDensity o_Save o_Start o_SetStart par_zcar par_carp par_carma parp]; intros;
    first [apply safe_LDp|apply safe_base_save|apply safe_start_while|apply safe_set_start]; intros;
    first [apply safe_MA_carma|apply safe_LogPrior|discriminate].
Qed.
Theorem carma_no_walkers fuel N burnin t y e p q z thin init raw v0 l0 a0 (g : gen R) : 2 <= p ->
  RunCarmaSampler dsort solve si chol fuel N burnin t y e p q 0 z thin init raw v0 l0 a0 g = UB.
Proof.
  intros Hp. unfold RunCarmaSampler. destruct (Nat.ltb_spec p 2) as [|_]; [lia|]. destruct z; [|destruct (q =? 0)]; reflexivity.
Qed.
Theorem car1_safe N burnin t y e thin init raw v0 l0 a0 (g : gen R) :
  RunCar1Sampler vsort si chol N burnin t y e thin init raw v0 l0 a0 g <> UB.
Proof.
  change (safe (RunCar1Sampler vsort si chol N burnin t y e thin init raw v0 l0 a0 g)). unfold RunCar1Sampler.
  apply safe_bind; [apply safe_base_new|]. intros b _. apply safe_bind; [apply safe_SetPrior|]. intros b1 _. cbv zeta.
  apply safe_bind; [apply ram_new_safe|]. intros r _. apply safe_bind; [discriminate|]. intros [ss tr] Ess. cbn in Ess. injection Ess as <- <-.
  apply safe_bind.
  - apply (@Run_safe A R _ (par1 R vsort) (@student_draw A R) (fun _ => True)); try (intros; exact I); intros;
      cbn [o_LogDensity o_Save o_Start o_SetStart par1]; try first [apply safe_LD1|apply safe_save1|apply safe_Start1|apply safe_SetStart1].
    + split; cbn [y_pars y_steps]; (constructor; [|constructor]); [exact I|]. unfold valid_step. cbn. split; [lia|exact I].
    + discriminate.
    + cbn. constructor; [cbn; lia|constructor].
  - intros s Es. apply safe_bind; [|intros; discriminate]. apply safe_vgetU.
    destruct (@Run_records _ _ _ (par1 R vsort) _ _ _ _ _ _ _ _ Es) as (y0 & (use & ws1 & Hs & Ho & _) & _ & (yn & Hsw & Ha) & _). cbn [y_pars] in *.
    destruct (started_len Hs) as [L1 _]. apply map_len in Ho. pose proof (sweeps_len Hsw) as L2.
    destruct Ha as (rs & Hlr & ->). cbn [zips y_pars]. rewrite zip_len by exact Hlr. rewrite L2, L1, Ho. cbn. lia.
Qed.

(** ** C34 *)
(** a property that every starting value has holds of every chain once all are started *)
Lemma started_each X (M : methodsP R X vec) (ok : X -> Prop) (Q : param A X vec -> Prop) use init ss ws g ws' g' :
  (forall x g w g', ok x -> just_started M use init x g w g' -> ok (w_obj w) /\ Q w) ->
  started M use init ss ws g ws' g' -> Forall (fun w => ok (w_obj w)) ws ->
  Forall (fun w => ok (w_obj w)) ws' /\ (forall i w, nth_error ws' i = Some w -> In i (map (@step_par A) ss) -> Q w) /\
  (forall i w, nth_error ws' i = Some w -> ~ In i (map (@step_par A) ss) -> nth_error ws i = Some w).
Proof.
  intros HQ H. induction H as [ws g|s ss ws g w w' ws1 g1 ws2 g2 Hn Hj _ _ _ _ _ -> _ IH]; intros H0.
  - split; [exact H0|]. split; [intros i w _ []|intros; assumption].
  - rewrite <- (upd_split _ _ _ Hn) in IH.
    pose proof (proj1 (Forall_nth_error _ _) H0 _ _ Hn) as Hok. cbv beta in Hok.
    destruct (HQ _ _ _ _ Hok Hj) as [Hi1 Hi].
    specialize (IH (@Forall_upd _ (fun w => ok (w_obj w)) _ (step_par s) _ H0 Hi1)). destruct IH as (I1 & I2 & I3).
    split; [exact I1|]. split.
    + intros i wi Hwi Hin. cbn [map In] in Hin. destruct (in_dec Nat.eq_dec i (map (@step_par A) ss)) as [H|H]; [apply (I2 _ _ Hwi H)|].
      destruct Hin as [<-|Hin]; [|contradiction]. pose proof (I3 _ _ Hwi H) as H2. rewrite nth_error_upd, Nat.eqb_refl, Hn in H2.
      injection H2 as <-. exact Hi.
    + intros i wi Hwi Hin. cbn [map In] in Hin. assert (~ In i (map (@step_par A) ss)) as H by tauto. pose proof (I3 _ _ Hwi H) as H2.
      rewrite nth_error_upd in H2. destruct (Nat.eqb_spec (step_par s) i) as [Eq|]; [exfalso; apply Hin; left; exact Eq|exact H2].
Qed.

Variable FL : finite_laws A.
Lemma finite_prior X Om Par (C : cls A X Om) topar (pf : setup A Par -> res (vec * vec)) st v l :
  pLD C topar pf st v = Ok l -> ffin A l = true -> v_Check C (st_bounds st) v = Ok true.
Proof.
  intros E Hf. unfold pLD in E. apply bind_Ok in E. destruct E as ([|] & Ec & E); [exact Ec|]. cbn [negb] in E. injection E as <-.
  rewrite (fl_ninf FL) in Hf. discriminate.
Qed.

Theorem carma_inside fuel N burnin t y e p q nw z thin init raw v0 l0 a0 (g : gen R) w g' :
  List.length y = List.length t -> List.length e = List.length t -> all_kept si t ->
  RunCarmaSampler dsort solve si chol fuel N burnin t y e p q nw z thin init raw v0 l0 a0 g = Ok (w, g') ->
  forall i v, nth_error (w_samples w) i = Some v ->
    (exists l, nth_error (w_logposts w) i = Some l /\ ffin A l = true) /\ CheckPriorBoundsp p (b_bounds (w_obj w)) v = Ok true.
Proof.
  intros Hy He Hk E i v Hv. destruct (RunCarma_inv E) as (b & b1 & r & ex & s & label & _ & _ & Eb & Eb1 & _ & Erun & Hw & ->).
  destruct (SetPrior_ok (walker_new_kept Hy He Hk Eb) Eb1) as (Hwf & _).
  set (st := static_of b1).
  assert (Forall (fun w => @okb A _ st (w_obj w)) (walkers b1 v0 l0 label nw)) as Hok by (apply walkers_all; intros T tr; split; [exact Hwf|reflexivity]).
  assert (covered (hot_steps (nw - 1) r ex ++ [SRam 0 r]) (List.length (walkers b1 v0 l0 label nw))) as Hcov by (rewrite walkers_len; apply steps_cover).
  destruct (@Run_fin _ _ _ (walker_par R dsort solve fuel p q z) (@student_draw A R) (@okb A _ st) (pldw solve p q z st) (@w_ld A R dsort solve fuel p q z st)
    (fun x g v x' g' H E => proj1 (w_start H E)) (fun x i g v x' g' H E => proj1 (w_set H E)) (fl_ratio FL) _ _ _ _ _ _ _ Erun Hok Hcov)
    as (y0 & use & ws1 & Hs & Ho & Hf).
  destruct (@Run_inv _ _ _ (walker_par R dsort solve fuel p q z) (@student_draw A R) (@okb A _ st) (pldw solve p q z st) (@w_ld A R dsort solve fuel p q z st)
    (fun x g v x' g' H E => proj1 (w_start H E)) (fun x i g v x' g' H E => proj1 (w_set H E)) _ _ _ _ _ _ _ Erun Hok Hcov) as (y0' & _ & Hfin & _ & _).
  cbn [y_pars y_steps y_gen] in *.
  assert (Forall (fun w : param A (base A (kpx A)) vec => okb st (w_obj w)) ws1) as Hok1 by exact (map_obj_ok (ok := @okb A _ st) Ho Hok).
  pose proof (map_len Ho) as Hlen.
  assert (forall x g w g', okb st x -> just_started (walker_par R dsort solve fuel p q z) use init x g w g' -> okb st (w_obj w) /\ finw w) as HQ.
  { intros x g0 w0 g0' Hx (x1 & Hs1 & EL).
    assert (okb st x1 /\ exists l, pldw solve p q z st (w_value w0) = Ok l /\ ffin A l = true) as (Hx1 & l & K1 & K2)
      by (destruct use; [exact (w_set Hx Hs1)|exact (w_start Hx Hs1)]).
    destruct (w_ld Hx1 EL) as [Hl Hx']. split; [exact Hx'|]. unfold finw. assert (w_logpost w0 = l) as -> by congruence. exact K2. }
  destruct (started_each HQ Hs Hok1) as (_ & Hall & _).
  assert (Forall (@finw A (base A (kpx A))) (y_pars y0)) as Hf0.
  { apply Forall_nth_error. intros j wj Hj. apply (Hall _ _ Hj), Hcov. rewrite <- Hlen. destruct (started_len Hs) as [Hl _]. rewrite <- Hl.
    apply nth_error_Some. congruence. }
  destruct (Hf Hf0) as [_ Hrec]. destruct (Hrec 0 w (or_introl eq_refl) Hw i v Hv) as (l & Hl & Hp & Hfl).
  split; [exists l; split; assumption|].
  destruct (proj1 (Forall_nth_error _ _) Hfin _ _ Hw) as [[_ Hst] _].
  pose proof (finite_prior Hp Hfl) as Hc. change (b_bounds (w_obj w)) with (st_bounds (static_of (w_obj w))). rewrite Hst.
  unfold walker_cls in Hc. destruct z; [exact Hc|]. destruct (q =? 0); exact Hc.
Qed.
Theorem car1_inside N burnin t y e thin init raw v0 l0 a0 (g : gen R) w g' :
  List.length y = List.length t -> List.length e = List.length t -> all_kept si t ->
  RunCar1Sampler vsort si chol N burnin t y e thin init raw v0 l0 a0 g = Ok (w, g') ->
  exists b r y0 w0, begun (par1 R vsort) init [new_param b v0 l0 (fofZ A 1) true "CAR(1)"] [SRam 0 r] g y0 /\ y_pars y0 = [w0] /\
  recorded (par1 R vsort) y0 burnin N thin w g' /\
  (ffin A (w_logpost w0) = true ->
   forall i v, nth_error (w_samples w) i = Some v ->
    (exists l, nth_error (w_logposts w) i = Some l /\ ffin A l = true) /\ CheckPriorBounds1 (b_bounds (w_obj w)) v = Ok true).
Proof.
  intros Hy He Hk E. destruct (RunCar1_inv E) as (b & b1 & r & s & Eb & Eb1 & _ & Erun & Hw & ->).
  destruct (SetPrior_ok (base_new_kept Hy He Hk Eb) Eb1) as (Hwf & _).
  set (st := static_of b1).
  assert (Forall (fun w => @okb A _ st (w_obj w)) [new_param b1 v0 l0 (fofZ A 1) true "CAR(1)"]) as Hok by (constructor; [split; [exact Hwf|reflexivity]|constructor]).
  destruct (@Run_records _ _ _ (par1 R vsort) _ _ _ _ _ _ _ _ Erun) as (y0 & (use & ws1 & Hs & Ho & Ht & _ & _ & Hu) & Hss & (yn & Hn & Ha) & Hrec).
  cbn [y_pars y_steps y_gen] in *.
  assert (Forall (fun w : param A (base A F) vec => okb st (w_obj w)) ws1) as Hok1 by exact (map_obj_ok (ok := @okb A _ st) Ho Hok).
  assert (List.length (y_pars y0) = 1) as Hl0 by (destruct (started_len Hs) as [-> _]; apply map_len in Ho; exact Ho).
  destruct (y_pars y0) as [|w0 [|? ?]] eqn:Ey0; try discriminate.
  exists b1, r, y0, w0. split; [split; [exact Hss|]; exists use, ws1; rewrite Ey0; split; [exact Hs|]; split; [exact Ho|]; split; [exact Ht|exact Hu]|].
  split; [exact Ey0|].
  destruct (Hrec 0 w (or_introl eq_refl) Hw) as (R1 & R2 & R3). split.
  { split; [exact R1|]. split; [exact R2|]. split; [exact R3|].
    destruct Ha as (rs & Hl & ->). cbn [zips y_pars y_gen] in Hw. pose proof (zip_vget (y_pars yn) rs 0 Hl) as Hz.
    rewrite (vgetU_nth' _ _ Hw) in Hz. symmetry in Hz. apply bind_Ok in Hz. destruct Hz as (wn & E0 & Q). injection Q as <-. apply vgetU_nth in E0.
    exists yn, wn. split; [exact Hn|]. split; [exact E0|]. repeat (split; [reflexivity|]). reflexivity. }
  intros Hf i v Hv. pose proof (fun x v l x' H E => @LD1_ok A st x v l x' H E) as Hld.
  assert (Forall (@inv A _ (@okb A _ st) (pld1 st)) (y_pars y0)) as Hi0.
  { rewrite Ey0. refine (@started_all _ _ _ (par1 R vsort) (@okb A _ st) (pld1 st) Hld
      (fun x g v x' g' H E => Start1_ok H E) (fun x i g v x' g' H E => SetStart1_ok H E) _ _ _ _ _ _ _ Hs Hok1 _).
    intros j Hj. rewrite (map_len Ho) in Hj. left. cbn in *. lia. }
  assert (i < N) as Hlt by (rewrite <- R1; apply nth_error_Some; congruence).
  destruct (R3 i Hlt) as (yi & wi & Hsi & Hwi & Hvi & Hli).
  assert (Forall (@finw A (base A F)) (y_pars y0)) as Hf0 by (rewrite Ey0; constructor; [exact Hf|constructor]).
  pose proof (proj1 (Forall_nth_error _ _) (sweeps_fin (P := par1 R vsort) (ok := @okb A _ st) (pld := pld1 st) Hld (fl_ratio FL) Hsi Hi0 Hf0) _ _ Hwi) as F1.
  pose proof (proj1 (Forall_nth_error _ _) (sweeps_inv (P := par1 R vsort) (ok := @okb A _ st) (pld := pld1 st) Hld Hsi Hi0) _ _ Hwi) as [I1 I2].
  split; [exists (w_logpost wi); split; [exact Hli|exact F1]|].
  assert (v = w_value wi) as -> by congruence. unfold pld1 in I2. pose proof (finite_prior I2 F1) as Hc.
  destruct Ha as (rs & Hl & ->). cbn [zips y_pars] in Hw. pose proof (zip_vget (y_pars yn) rs 0 Hl) as Hz.
  rewrite (vgetU_nth' _ _ Hw) in Hz. symmetry in Hz. apply bind_Ok in Hz. destruct Hz as (wn & E0 & Q). injection Q as <-. apply vgetU_nth in E0.
  destruct (proj1 (Forall_nth_error _ _) (sweeps_inv (P := par1 R vsort) (ok := @okb A _ st) (pld := pld1 st) Hld Hn Hi0) _ _ E0) as [[_ Hst] _].
  cbn [with_rec w_obj]. change (b_bounds (w_obj wn)) with (st_bounds (static_of (w_obj wn))). rewrite Hst. exact Hc.
Qed.

(** ** C41 *)
Theorem carma_adaptation fuel N burnin t y e p q nw z thin init raw v0 l0 a0 (g : gen R) w g' :
  RunCarmaSampler dsort solve si chol fuel N burnin t y e p q nw z thin init raw v0 l0 a0 g = Ok (w, g') ->
  exists b r ex label y0, begun (walker_par R dsort solve fuel p q z) init (walkers b v0 l0 label nw) (hot_steps (nw - 1) r ex ++ [SRam 0 r]) g y0 /\
    recorded (walker_par R dsort solve fuel p q z) y0 burnin N thin w g' /\
    forall m yb ym, sweeps (walker_par R dsort solve fuel p q z) (@student_draw A R) burnin y0 yb ->
      sweeps (walker_par R dsort solve fuel p q z) (@student_draw A R) m yb ym -> chols (y_steps ym) = chols (y_steps yb).
Proof.
  intros E. destruct (RunCarma_inv E) as (b & b1 & r & ex & s & label & _ & Hn & _ & _ & Er & Erun & Hw & ->).
  destruct (Run_recorded Erun Hw) as (y0 & H1 & H2). exists b1, r, ex, label, y0. split; [exact H1|]. split; [exact H2|].
  intros m yb ym Hb Hm. refine (@adaptation_stops A R _ (walker_par R dsort solve fuel p q z) (@student_draw A R) burnin m y0 yb ym _ Hb Hm).
  intros i r' Hin. destruct H1 as [Es _]. rewrite Es in Hin. apply steps_adapt in Hin. subst r'.
  unfold ram_new in Er. destruct (chol _); [|discriminate]. injection Er as <-. cbn. lia.
Qed.
Theorem car1_adaptation N burnin t y e thin init raw v0 l0 a0 (g : gen R) w g' :
  RunCar1Sampler vsort si chol N burnin t y e thin init raw v0 l0 a0 g = Ok (w, g') ->
  exists b r y0, begun (par1 R vsort) init [new_param b v0 l0 (fofZ A 1) true "CAR(1)"] [SRam 0 r] g y0 /\
    recorded (par1 R vsort) y0 burnin N thin w g' /\
    forall m yb ym, sweeps (par1 R vsort) (@student_draw A R) burnin y0 yb ->
      sweeps (par1 R vsort) (@student_draw A R) m yb ym -> chols (y_steps ym) = chols (y_steps yb).
Proof.
  intros E. destruct (RunCar1_inv E) as (b & b1 & r & s & _ & _ & Er & Erun & Hw & ->).
  destruct (Run_recorded Erun Hw) as (y0 & H1 & H2). exists b1, r, y0. split; [exact H1|]. split; [exact H2|].
  intros m yb ym Hb Hm. refine (@adaptation_stops A R _ (par1 R vsort) (@student_draw A R) burnin m y0 yb ym _ Hb Hm).
  intros i r' Hin. destruct H1 as [Es _]. rewrite Es in Hin. destruct Hin as [Hin|[]]. injection Hin as _ <-.
  unfold ram_new in Er. destruct (chol _); [|discriminate]. injection Er as <-. cbn. lia.
Qed.
End Top.
