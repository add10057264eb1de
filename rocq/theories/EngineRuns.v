(** Temperatures (C42), where every chain of a run starts (C44), getSamples after a run (C49). *)
From Coq Require Import Reals List Arith ZArith Bool String Lia Lra.
From Verif Require Import Arith Res ListLemmas KFModel Cx KFpModel KFpProof CarpackModel LogLikProof.
From Verif Require Import EngineModel StartModel EngineSpec EngineProof EngineInv EngineHist EngineClass EngineDriver EngineTop StartProof TotalProof TotalClass TotalTop EngineAX.
Import ListNotations.

Set Implicit Arguments.
Unset Strict Implicit.

Section Runs.
Variable A : Arith.
Local Notation F := (F A).
Local Notation vec := (list F).
Variable R : rng A.
Variables vsort dsort : vec -> option vec.
Variable solve : list (list (cx A)) -> list (cx A) -> option (list (cx A)).
Variable si : vec -> option (list nat).
Variable chol : mat A -> option (mat A).

Lemma nth_firstn_lt T (d : T) l : forall n i, i < n -> nth i (firstn n l) d = nth i l d.
Proof. induction l as [|a l IH]; intros [|n] [|i] H; cbn; try lia; try reflexivity. apply IH. lia. Qed.

(** ** Temperatures never change *)
Lemma map_ext_nth T U (f : T -> U) (l l' : list T) : List.length l' = List.length l ->
  (forall i x x', nth_error l i = Some x -> nth_error l' i = Some x' -> f x' = f x) -> map f l' = map f l.
Proof.
  revert l'; induction l as [|a l IH]; intros [|b l'] Hl H; try discriminate; [reflexivity|]. cbn. f_equal.
  - exact (H 0 a b eq_refl eq_refl).
  - apply IH; [cbn in Hl; lia|]. intros i x x' H1 H2. exact (H (S i) x x' H1 H2).
Qed.
Lemma sweeps_temps X (M : methodsP R X vec) draw n y y' : sweeps M draw n y y' -> map (@w_temp A X vec) (y_pars y') = map (@w_temp A X vec) (y_pars y).
Proof.
  intros H. induction H as [|n y y1 y2 _ IH H]; [reflexivity|]. rewrite <- IH. clear IH.
  induction H as [|s ss ws g s' ws1 g1 ss' ws2 g2 E _ IH]; [reflexivity|]. rewrite IH.
  destruct (do_step_frame E) as (Hl & _ & Ht & _). apply map_ext_nth; [exact Hl|]. intros i x x' H1 H2. exact (proj1 (Ht i x x' H1 H2)).
Qed.
Lemma started_temps X (M : methodsP R X vec) use init ss ws g ws' g' : started M use init ss ws g ws' g' -> map (@w_temp A X vec) ws' = map (@w_temp A X vec) ws.
Proof.
  intros H. induction H as [|s ss ws g w w' ws1 g1 ws2 g2 Hn _ Ht _ _ _ _ -> _ IH]; [reflexivity|]. rewrite IH.
  rewrite <- (upd_split _ _ _ Hn). clear IH. apply map_ext_nth; [apply upd_length|]. intros i x x' H1 H2. rewrite nth_error_upd in H2.
  destruct (Nat.eqb_spec (step_par s) i) as [<-|]; [|congruence]. rewrite Hn in H2. injection H2 as <-. congruence.
Qed.
Lemma walkers_temps X (b : base A X) v0 l0 label n : map (@w_temp A _ vec) (walkers b v0 l0 label n) = temp_ladder A n.
Proof.
  unfold walkers. assert (forall l, map (@w_temp A _ vec) (map (fun T => new_param b v0 l0 T false label) l) = l) as K by (induction l; cbn; congruence).
  specialize (K (temp_ladder A n)). destruct (map _ (temp_ladder A n)) as [|w r]; exact K.
Qed.
Theorem carma_temps fuel N burnin t y e p q nw z thin init raw v0 l0 a0 (g : gen R) w g' :
  RunCarmaSampler dsort solve si chol fuel N burnin t y e p q nw z thin init raw v0 l0 a0 g = Ok (w, g') ->
  exists b r ex label y0, begun (walker_par R dsort solve fuel p q z) init (walkers b v0 l0 label nw) (hot_steps (nw - 1) r ex ++ [SRam 0 r]) g y0 /\
    recorded (walker_par R dsort solve fuel p q z) y0 burnin N thin w g' /\
    (forall k yk, sweeps (walker_par R dsort solve fuel p q z) (@student_draw A R) k y0 yk -> map (@w_temp _ _ _) (y_pars yk) = temp_ladder A nw) /\
    nth_error (temp_ladder A nw) 0 = Some (w_temp w).
Proof.
  intros E. destruct (carma_recorded E) as (b & r & ex & label & y0 & _ & Hb & Hr). exists b, r, ex, label, y0. split; [exact Hb|]. split; [exact Hr|].
  destruct Hb as (_ & use & ws1 & Hs & _ & Ht & _).
  assert (forall k yk, sweeps (walker_par R dsort solve fuel p q z) (@student_draw A R) k y0 yk -> map (@w_temp _ _ _) (y_pars yk) = temp_ladder A nw) as K.
  { intros k yk Hk. rewrite (sweeps_temps Hk), (started_temps Hs), Ht. apply walkers_temps. }
  split; [exact K|]. destruct Hr as (_ & _ & _ & yn & wn & Hn & Hw & _ & _ & Hwt & _). rewrite <- (K _ _ Hn), nth_error_map, Hw. cbn. congruence.
Qed.

(** ** Where every chain starts *)
Lemma started_at X (M : methodsP R X vec) (ok : X -> Prop) init lp ss ws g ws' g' :
  (forall x g w g', ok x -> just_started M true init x g w g' -> ok (w_obj w) /\ w_value w = init /\ g' = g /\ w_logpost w = lp) ->
  started M true init ss ws g ws' g' -> Forall (fun w => ok (w_obj w)) ws ->
  g' = g /\ (forall i w, nth_error ws' i = Some w -> In i (map (@step_par A) ss) -> w_value w = init /\ w_logpost w = lp) /\ Forall (fun w => ok (w_obj w)) ws'.
Proof.
  intros HQ H H0. split.
  - revert H0. induction H as [ws g|s ss ws g w w' ws1 g1 ws2 g2 Hn Hj _ _ _ _ _ -> _ IH]; intros H0; [reflexivity|].
    destruct (HQ _ _ _ _ (proj1 (Forall_nth_error _ _) H0 _ _ Hn) Hj) as (K1 & _ & -> & _). apply IH. rewrite <- (upd_split _ _ _ Hn).
    apply Forall_upd; [exact H0|exact K1].
  - destruct (@started_each A R (fun _ => None) (fun _ => None) (fun _ => None) X M ok (fun w => w_value w = init /\ w_logpost w = lp) true init ss ws g ws' g') as (K0 & K & _); [|exact H|exact H0|split; assumption].
    intros x g1 w g2 Hx Hj. destruct (HQ _ _ _ _ Hx Hj) as (K1 & K2 & _ & K3). split; [exact K1|split; assumption].
Qed.
Theorem carma_starts_at_init fuel N burnin t y e p q nw z thin init raw v0 l0 a0 (g : gen R) w g' b b1 lp b2 :
  ffin A (fneg A (finf A)) = false ->
  List.length y = List.length t -> List.length e = List.length t -> all_kept si t ->
  walker_new si raw p z t y e = Ok b -> SetPrior b (fmul A (fofZ A 10) (fsqrt A (pop_var A y))) = Ok b1 ->
  List.length init = walker_dim p q z -> List.length v0 = walker_dim p q z ->
  LogDensity (walker_cls solve p q z) b1 init = Ok (lp, b2) -> ffin A lp = true ->
  RunCarmaSampler dsort solve si chol fuel N burnin t y e p q nw z thin init raw v0 l0 a0 g = Ok (w, g') ->
  exists r ex label y0, begun (walker_par R dsort solve fuel p q z) init (walkers b1 v0 l0 label nw) (hot_steps (nw - 1) r ex ++ [SRam 0 r]) g y0 /\
    recorded (walker_par R dsort solve fuel p q z) y0 burnin N thin w g' /\
    y_gen y0 = g /\ List.length (y_pars y0) = nw /\ Forall (fun w => w_value w = init /\ w_logpost w = lp) (y_pars y0).
Proof.
  intros Hni Hy He Hk Eb Eb1 Hi Hv0 EL Hf E. destruct (RunCarma_inv E) as (b' & b1' & r & ex & s & label & _ & _ & Q1 & Q2 & _ & Erun & Hw & ->).
  assert (b' = b) as -> by congruence. assert (b1' = b1) as -> by congruence. clear Q1 Q2.
  destruct (Run_recorded Erun Hw) as (y0 & Hb & Hr). exists r, ex, label, y0. split; [exact Hb|]. split; [exact Hr|].
  destruct Hb as (_ & use & ws1 & Hs & Ho & _ & Hu). set (st := static_of b1).
  destruct (EngineDriver.SetPrior_ok (walker_new_kept Hy He Hk Eb) Eb1) as (Hwf & _). assert (okb st b1) as Hb1 by (split; [exact Hwf|reflexivity]).
  assert (Forall (fun w => @okb A _ st (w_obj w)) ws1) as Hok1.
  { apply (map_obj_ok (ok := @okb A _ st) Ho). apply walkers_all. intros T tr. exact Hb1. }
  assert (List.length ws1 = nw) as Hl1 by (rewrite (map_len Ho), walkers_len; reflexivity).
  assert (0 < nw) as Hnw by (destruct (RunCarma_inv E) as (_ & _ & _ & _ & _ & _ & _ & H & _); exact H).
  assert (use = true) as ->.
  { destruct (nth_error (hot_steps (nw - 1) r ex ++ [SRam 0 r]) 0) as [s0|] eqn:E0; [|apply nth_error_None in E0; rewrite app_length in E0; cbn in E0; lia].
    assert (step_par s0 < nw) as Hs0.
    { destruct (nw - 1) as [|k] eqn:Ek; cbn in E0; injection E0 as <-; cbn; lia. }
    destruct (nth_error (walkers b1 v0 l0 label nw) (step_par s0)) as [w0|] eqn:Ew0; [|apply nth_error_None in Ew0; rewrite walkers_len in Ew0; lia].
    rewrite (Hu _ _ eq_refl Ew0).
    assert (Forall (fun w => w_value w = v0) (walkers b1 v0 l0 label nw)) as Hv by (apply walkers_all; reflexivity).
    rewrite (proj1 (Forall_nth_error _ _) Hv _ _ Ew0), Hi, Hv0. apply Nat.eqb_refl. }
  assert (pldw solve p q z st init = Ok lp) as Hpl by (rewrite walker_cls_eq in EL; unfold pldw; rewrite walker_cls_eq; exact (proj1 (LDp_ok Hb1 EL))).
  assert (forall x h w0 h', okb st x -> just_started (walker_par R dsort solve fuel p q z) true init x h w0 h' ->
    okb st (w_obj w0) /\ w_value w0 = init /\ h' = h /\ w_logpost w0 = lp) as HQ.
  { intros x h w0 h' Hx Hj. destruct (just_started_init Hni Hx Hi Hpl Hf Hj) as (K1 & K2 & K3). split; [|split; [exact K1|split; assumption]].
    destruct Hj as (x1 & J1 & J2). exact (proj2 (w_ld (proj1 (w_set Hx J1)) J2)). }
  destruct (started_at HQ Hs Hok1) as (Hg & Hall & Hok2).
  split; [exact Hg|]. destruct (started_len Hs) as [Hl2 _]. split; [congruence|].
  apply Forall_nth_error. intros i wi Hwi. apply (Hall i wi Hwi). apply steps_cover. assert (i < List.length (y_pars y0)) by (apply nth_error_Some; congruence). lia.
Qed.
Theorem car1_starts_at_init N burnin t y e thin init raw v0 l0 a0 (g : gen R) w g' b b1 lp b2 :
  ffin A (fneg A (finf A)) = false ->
  List.length y = List.length t -> List.length e = List.length t -> all_kept si t ->
  car1_new si raw t y e = Ok b -> SetPrior b (fmul A (fofZ A 10) (fsqrt A (pop_var A y))) = Ok b1 ->
  List.length init = 4 -> List.length v0 = 4 ->
  LogDensity (car1_cls A) b1 init = Ok (lp, b2) -> ffin A lp = true ->
  RunCar1Sampler vsort si chol N burnin t y e thin init raw v0 l0 a0 g = Ok (w, g') ->
  exists r y0 w0, ram_new chol (prop_covar A 4 y) (fdec A 1 4) burnin a0 = Ok r /\ begun (par1 R vsort) init [new_param b1 v0 l0 (fofZ A 1) true "CAR(1)"] [SRam 0 r] g y0 /\
    recorded (par1 R vsort) y0 burnin N thin w g' /\
    y_gen y0 = g /\ y_pars y0 = [w0] /\ w_value w0 = init /\ w_logpost w0 = lp /\ okb (static_of b1) (w_obj w0).
Proof.
  intros Hni Hy He Hk Eb Eb1 Hi Hv0 EL Hf E. destruct (RunCar1_inv E) as (b' & b1' & r & s & Q1 & Q2 & Q3 & Erun & Hw & ->).
  assert (b' = b) as -> by congruence. assert (b1' = b1) as -> by congruence. clear Q1 Q2.
  destruct (Run_recorded Erun Hw) as (y0 & Hb & Hr).
  pose proof Hb as (_ & use & ws1 & Hs & Ho & _ & Hu). set (st := static_of b1).
  destruct (EngineDriver.SetPrior_ok (base_new_kept Hy He Hk Eb) Eb1) as (Hwf & _). assert (okb st b1) as Hb1 by (split; [exact Hwf|reflexivity]).
  assert (use = true) as -> by (rewrite (Hu _ _ eq_refl eq_refl); cbn; rewrite Hi, Hv0; reflexivity).
  assert (Forall (fun w => @okb A _ st (w_obj w)) ws1) as Hok1.
  { apply (map_obj_ok (ok := @okb A _ st) Ho). constructor; [exact Hb1|constructor]. }
  assert (pld1 st init = Ok lp) as Hpl by exact (proj1 (LD1_ok Hb1 EL)).
  assert (forall x h w0 h', okb st x -> just_started (par1 R vsort) true init x h w0 h' ->
    okb st (w_obj w0) /\ w_value w0 = init /\ h' = h /\ w_logpost w0 = lp) as HQ.
  { intros x h w0 h' Hx Hj. destruct (just_started_init1 Hni Hx Hi Hpl Hf Hj) as (K1 & K2 & K3). split; [|split; [exact K1|split; assumption]].
    destruct Hj as (x1 & J1 & J2). exact (proj2 (LD1_ok (SetStart1_ok Hx J1) J2)). }
  destruct (started_at HQ Hs Hok1) as (Hg & Hall & Hok2).
  destruct (started_len Hs) as [Hl2 _]. apply map_len in Ho. cbn in Ho. rewrite Ho in Hl2. destruct (y_pars y0) as [|w0 [|? ?]] eqn:Ey; try discriminate.
  exists r, y0, w0. split; [exact Q3|]. split; [exact Hb|]. split; [exact Hr|]. split; [exact Hg|]. split; [exact Ey|]. destruct (Hall 0 w0 eq_refl (or_introl eq_refl)) as [K1 K2].
  split; [exact K1|]. split; [exact K2|]. inversion Hok2. assumption.
Qed.

(** ** getSamples *)
Lemma copy_loop T (l : list T) : forall k a out, a + k = List.length l -> List.length out = List.length l -> firstn a out = firstn a l ->
  for_ a k (fun i out => s <- vgetU l i ;; vsetU out i s) out = Ok l.
Proof.
  induction k as [|k IH]; intros a out Ha Ho Hf; cbn [for_].
  - rewrite Nat.add_0_r in Ha. subst a. rewrite <- Ho in Hf at 1. rewrite !firstn_all in Hf. congruence.
  - destruct (nth_error l a) as [x|] eqn:Ex; [|apply nth_error_None in Ex; lia]. unfold vgetU at 1. rewrite Ex. cbn [bind]. unfold vsetU.
    assert (a < List.length out) as Hlt by lia. apply Nat.ltb_lt in Hlt. rewrite Hlt. cbn [bind]. apply Nat.ltb_lt in Hlt.
    apply IH; [lia|rewrite upd_length; exact Ho|]. clear IH.
    apply nth_ext with (d := x) (d' := x); [rewrite !firstn_length, upd_length; lia|].
    intros n Hn. rewrite firstn_length, upd_length in Hn. rewrite !(nth_firstn_lt x) by lia.
    destruct (Nat.eq_dec n a) as [->|Hne].
    + rewrite nth_upd_same by lia. symmetry. exact (nth_error_nth _ _ x Ex).
    + rewrite nth_upd_other by lia. assert (n < a) as Hna by lia.
      rewrite <- (nth_firstn_lt x out Hna), <- (nth_firstn_lt x l Hna), Hf. reflexivity.
Qed.
Theorem getSamples_run X (M : methodsP R (base A X) vec) y0 burnin N thin w g' : recorded M y0 burnin N thin w g' ->
  getSamples A (w_samples w) = if N =? 0 then UB else Ok (w_samples w).
Proof.
  intros (Hl & _). unfold getSamples. destruct (Nat.eqb_spec N 0) as [->|HN].
  - destruct (w_samples w); [reflexivity|discriminate].
  - destruct (w_samples w) as [|v r] eqn:E; [cbn in Hl; lia|]. change (vgetU (v :: r) 0) with (Ok v). cbn [bind]. rewrite <- E.
    apply copy_loop; [lia|apply repeat_length|reflexivity].
Qed.
End Runs.

(** the temperatures of a run, as numbers *)
Theorem carma_temps_real (R0 : rng AX) dsort solve si chol fuel N burnin t y e p q nw z thin init raw v0 l0 a0 (g : gen R0) w g' :
  RunCarmaSampler (A := AX) dsort solve si chol fuel N burnin t y e p q nw z thin init raw v0 l0 a0 g = Ok (w, g') ->
  (2 <= nw -> w_temp w = Fin 1) /\ (nw = 1 -> w_temp w = Fin 100).
Proof.
  intros E. destruct (carma_temps E) as (b & r & ex & label & y0 & _ & _ & _ & H). split.
  - intros Hn. destruct (ladder_spec Hn) as (l & El & Hl & H0 & _). rewrite El in H. destruct l as [|a l]; [cbn in Hl; lia|]. cbn in H, H0. injection H as Ha. rewrite H0 in Ha. symmetry. exact Ha.
  - intros ->. rewrite ladder_one in H. injection H as Ha. symmetry. exact Ha.
Qed.
