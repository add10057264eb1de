(** Starting values (C44) and completion of runs: every arithmetic. *)
From Coq Require Import List Arith ZArith Bool String Lia.
From Verif Require Import Arith Res ListLemmas KFModel KF1Proof History KF1X Cx KFpModel KFpProof CarpackModel LogLikProof KFpTop CarpackTop.
From Verif Require Import EngineModel StartModel EngineSpec EngineProof EngineInv EngineHist EngineClass EngineDriver EngineTop.
Import ListNotations.

Set Implicit Arguments.
Unset Strict Implicit.

(** ** Outcomes: a result with [Q]; non-termination only if [d]; std::runtime_error only if [er]; never
    std::logic_error.  Invalid accesses are excluded separately, by the safety theorems of EngineTop.v. *)
Definition wp {T} (d er : Prop) (Q : T -> Prop) (r : res T) : Prop :=
  match r with Ok x => Q x | Diverge => d | Throw Eruntime => er | Throw Elogic => False | UB => True end.
Lemma wp_bind T U (d er : Prop) (Q1 : T -> Prop) (Q : U -> Prop) r k :
  wp d er Q1 r -> (forall x, Q1 x -> wp d er Q (k x)) -> wp d er Q (bind r k).
Proof. destruct r as [x|[|]| |]; cbn; auto. Qed.
Lemma wp_mono T (d er : Prop) (Q1 Q : T -> Prop) r : wp d er Q1 r -> (forall x, Q1 x -> Q x) -> wp d er Q r.
Proof. destruct r as [x|[|]| |]; cbn; auto. Qed.
Lemma wp_ok T (d er : Prop) (Q : T -> Prop) r x : r = Ok x -> Q x -> wp d er Q r.
Proof. intros ->; auto. Qed.
Lemma wp_pack T (d er : Prop) (Q : T -> Prop) r : (exists x, r = Ok x /\ Q x) -> wp d er Q r.
Proof. intros (x & -> & H); exact H. Qed.
Lemma wp_for T (d er : Prop) (Q : T -> Prop) (body : nat -> T -> res T) k : forall a s,
  (forall i s, a <= i < a + k -> Q s -> wp d er Q (body i s)) -> Q s -> wp d er Q (for_ a k body s).
Proof.
  induction k as [|k IH]; intros a s H Hs; cbn [for_]; [exact Hs|].
  eapply wp_bind; [apply H; [lia|exact Hs]|]. intros x Hx. apply IH; [intros; apply H; [lia|assumption]|exact Hx].
Qed.
Lemma wp_vget T (d er : Prop) (l : list T) i : i < List.length l -> wp d er (fun _ => True) (vget l i).
Proof.
  intros H. unfold vget. destruct (nth_error l i) eqn:E; [exact I|]. apply nth_error_None in E. lia.
Qed.
Lemma wp_vgetU T (d er : Prop) (l : list T) i : i < List.length l -> wp d er (fun x => nth_error l i = Some x) (vgetU l i).
Proof.
  intros H. unfold vgetU. destruct (nth_error l i) eqn:E; [exact eq_refl|]. apply nth_error_None in E. lia.
Qed.
Lemma wp_vset T (d er : Prop) (l : list T) i v : i < List.length l -> wp d er (fun l' => List.length l' = List.length l) (vset l i v).
Proof. intros H. rewrite vset_ok by exact H. cbn. apply upd_length. Qed.
Lemma wp_total T (Q : T -> Prop) r : wp False False Q r -> safe r -> exists x, r = Ok x /\ Q x.
Proof. destruct r as [x|[|]| |]; cbn; try tauto. intros H _. exists x. split; [reflexivity|exact H]. intros _ H. exfalso; apply H; reflexivity. Qed.

(** ** The engine *)
Section Eng.
Variable A : Arith.
Variable R : rng A.
Variable X : Type.
Local Notation F := (F A).
Local Notation vec := (list F).
Variable P : methodsP R X vec.
Variable draw : F -> gen R -> F * gen R.
Local Notation param := (param A X vec).
Variables d er : Prop.
Variable n : nat.
Variable ok : X -> Prop.
Variable init : vec.
Hypothesis HLD : forall x v, ok x -> List.length v = n -> wp d er (fun q => ok (snd q)) (o_LogDensity P x v).
Hypothesis HSv : forall x v, ok x -> List.length v = n -> wp d er (fun _ => True) (o_Save P x v).
Hypothesis HST : forall x g, ok x -> wp d er (fun q => ok (snd (fst q)) /\ List.length (fst (fst q)) = n)
  (if List.length init =? n then o_SetStart P x init g else o_Start P x g).
Hypothesis Hn : 0 < n.

Definition square (M : mat A) : Prop := List.length M = n /\ Forall (fun r => List.length r = n) M.
Definition wok (w : param) : Prop := ok (w_obj w) /\ List.length (w_value w) = n.
Definition sok (nw : nat) (s : step A) : Prop :=
  match s with SRam i r => i < nw /\ square (r_chol r) | SExch i _ => 0 < i < nw end.

Lemma draws_len k d0 : forall g : gen R, List.length (fst (draws k d0 g)) = k.
Proof using.
  induction k as [|k IH]; intros g; cbn [draws]; [reflexivity|]. destruct (d0 g) as [x g1]. specialize (IH g1). destruct (draws k d0 g1) as [l g2].
  cbn in *. f_equal. exact IH.
Qed.
Lemma chol_step_wp sign k (st : mat A * vec) : k < n -> square (fst st) /\ List.length (snd st) = n ->
  wp d er (fun st => square (fst st) /\ List.length (snd st) = n) (chol_step sign k st).
Proof.
  destruct st as [L v]. cbn [fst snd]. intros Hk [[H1 H2] H3]. unfold chol_step.
  eapply wp_bind.
  { unfold mget. eapply wp_bind; [eapply (@wp_ok _ d er (fun r : vec => List.length r = n) _ (nth k L [])); [apply vget_ok; lia|]|].
    - apply (proj1 (Forall_forall _ _) H2). apply nth_In. lia.
    - intros r Hr. cbv beta in Hr. apply wp_vget. change (mat A) with (list vec) in *. rewrite Hr. exact Hk. }
  intros lkk _. eapply wp_bind; [apply wp_vget; lia|]. intros vk _. cbv zeta. cbn [wp fst snd]. rewrite vbuild_len, H1. split; [|reflexivity].
  split; [rewrite upd_length; exact H1|]. apply Forall_upd; [exact H2|]. apply vbuild_len.
Qed.
Lemma Chol_wp L v b : square L -> List.length v = n -> wp d er (fun st => square (fst st)) (CholUpdateR1 L v b).
Proof.
  intros H1 H2. unfold CholUpdateR1. apply wp_mono with (Q1 := fun st => square (fst st) /\ List.length (snd st) = n); [|intros st H; exact (proj1 H)].
  apply wp_for; [|split; assumption]. intros i s Hi Hs. apply chol_step_wp; [destruct H1; lia|exact Hs].
Qed.
Lemma mtmul_wp M u : square M -> List.length u = n -> wp d er (fun v => List.length v = n) (mtmul M u).
Proof.
  intros [H1 H2] Hu. unfold mtmul. rewrite H1, Hu, Nat.eqb_refl. cbn [wp]. rewrite vbuild_len.
  apply (proj1 (Forall_forall _ _) H2). apply nth_In. lia.
Qed.
Lemma vadd_wp (a b : vec) : List.length a = n -> List.length b = n -> wp d er (fun v => List.length v = n) (vadd A a b).
Proof. intros Ha Hb. unfold vadd. rewrite Ha, Hb, Nat.eqb_refl. cbn [wp]. rewrite map_length, combine_length. lia. Qed.
Lemma LD_wp w v : wok w -> List.length v = n -> wp d er (fun q => wok (snd q)) (LD P w v).
Proof.
  intros [H1 H2] Hv. unfold LD. eapply wp_bind; [apply HLD; eassumption|]. intros [l x] Hx. cbn in *. split; assumption.
Qed.
Lemma Save_wp w v : wok w -> List.length v = n -> wp d er wok (Save P w v).
Proof.
  intros [H1 H2] Hv. unfold Save. eapply wp_bind; [apply HLD; eassumption|]. intros [l x] Hx. cbn in *. split; assumption.
Qed.
Lemma ram_step_wp r w g : square (r_chol r) -> wok w ->
  wp d er (fun q => square (r_chol (fst (fst q))) /\ wok (snd (fst q))) (ram_step P draw r w g).
Proof.
  intros Hr Hw. unfold ram_step. pose proof (draws_len (List.length (w_value w)) (draw (fofZ A 0)) g) as Hu. destruct (draws _ _ g) as [u g1].
  cbn [fst] in Hu. rewrite (proj2 Hw) in Hu. eapply wp_bind; [apply mtmul_wp; assumption|]. intros sc Hsc.
  eapply wp_bind; [apply vadd_wp; [exact (proj2 Hw)|exact Hsc]|]. intros new Hnew.
  eapply wp_bind with (Q1 := fun q => r_chol (snd (fst (fst q))) = r_chol r /\ wok (snd (fst q))).
  { unfold ram_accept. eapply wp_bind; [apply LD_wp; eassumption|]. intros [l w1] Hw1. cbn [snd] in Hw1. cbv zeta.
    destruct (negb _); [cbn; split; [reflexivity|exact Hw1]|]. destruct (runiform _ _ g1) as [x g2].
    destruct (flt A x _); cbn; (split; [reflexivity|exact Hw1]). }
  intros [[[acc r1] w1] g2] [Hr1 Hw1]. cbn [fst snd] in Hr1, Hw1.
  eapply wp_bind with (Q1 := wok); [destruct acc; [apply Save_wp; assumption|exact Hw1]|]. intros w2 Hw2.
  eapply wp_bind with (Q1 := fun r2 => square (r_chol r2)).
  { unfold ram_adapt. destruct (_ && _); [|cbn; rewrite Hr1; exact Hr]. cbv zeta. eapply wp_bind.
    - apply Chol_wp; [rewrite Hr1; exact Hr|]. unfold vscale. rewrite map_length. exact Hsc.
    - intros [L v'] HL. exact HL. }
  intros r2 Hr2. cbn. split; assumption.
Qed.
Lemma exch_step_wp e w o g : wok w -> wok o ->
  wp d er (fun q => wok (snd (fst (fst q))) /\ wok (snd (fst q))) (exch_step P e w o g).
Proof.
  intros Hw Ho. unfold exch_step. cbv zeta. destruct (runiform _ _ g) as [u g1].
  eapply wp_bind with (Q1 := fun q => wok (fst (fst q)) /\ wok (snd (fst q))).
  - destruct (flt A u _); [|split; assumption]. eapply wp_bind; [apply Save_wp; [exact Hw|exact (proj2 Ho)]|]. intros w1 Hw1.
    eapply wp_bind with (Q1 := wok).
    + unfold SaveDerived. eapply wp_bind; [apply HSv; [exact (proj1 Ho)|exact (proj2 Hw)]|]. intros l _. split; [exact (proj1 Ho)|exact (proj2 Hw)].
    + intros o1 Ho1. split; assumption.
  - intros [[w' o'] na] [H1 H2]. split; assumption.
Qed.
Lemma do_step_wp s ws g : sok (List.length ws) s -> Forall wok ws ->
  wp d er (fun q => sok (List.length ws) (fst (fst q)) /\ step_par (fst (fst q)) = step_par s /\ Forall wok (snd (fst q)) /\ List.length (snd (fst q)) = List.length ws)
    (do_step P draw s ws g).
Proof.
  intros Hs Hws. pose proof (proj1 (Forall_nth_error _ _) Hws) as Hnth. destruct s as [i r|[|j] e]; cbn [sok do_step] in *; [|lia|].
  - eapply wp_bind; [apply wp_vgetU, Hs|]. intros w Hw. eapply wp_bind; [apply ram_step_wp; [apply Hs|exact (Hnth _ _ Hw)]|].
    intros [[r' w'] g'] [H1 H2]. cbn in *. split; [split; [apply Hs|exact H1]|]. split; [reflexivity|]. split; [apply Forall_upd; assumption|apply upd_length].
  - eapply wp_bind; [apply wp_vgetU; lia|]. intros w Hw. eapply wp_bind; [apply wp_vgetU; lia|]. intros o Ho.
    eapply wp_bind; [apply exch_step_wp; [exact (Hnth _ _ Hw)|exact (Hnth _ _ Ho)]|]. intros [[[e' w'] o'] g'] [H1 H2]. cbn in *.
    split; [exact Hs|]. split; [reflexivity|]. split; [apply Forall_upd; [apply Forall_upd; assumption|assumption]|rewrite !upd_length; reflexivity].
Qed.
Definition yok (nw : nat) (y : sys R X) : Prop := List.length (y_pars y) = nw /\ Forall wok (y_pars y) /\ Forall (sok nw) (y_steps y).
Lemma sweep_steps_wp nw ss : forall ws g, List.length ws = nw -> Forall wok ws -> Forall (sok nw) ss ->
  wp d er (fun q => List.length (snd (fst q)) = nw /\ Forall wok (snd (fst q)) /\ Forall (sok nw) (fst (fst q))) (sweep_steps P draw ss ws g).
Proof.
  induction ss as [|s ss IH]; intros ws g Hl Hw Hs; cbn [sweep_steps]; [cbn; repeat split; assumption|].
  inversion Hs as [|? ? Hs1 Hs2]; subst. eapply wp_bind; [apply do_step_wp; eassumption|]. intros [[s' ws1] g1] (H1 & _ & H2 & H3). cbn [fst snd] in *.
  eapply wp_bind; [apply (IH ws1 g1); assumption|]. intros [[r' ws2] g2] (H4 & H5 & H6). cbn in *.
  split; [exact H4|]. split; [exact H5|]. constructor; assumption.
Qed.
Lemma Iterate_wp nw k : forall y, yok nw y -> wp d er (yok nw) (Iterate P draw k y).
Proof.
  induction k as [|k IH]; intros y Hy; cbn [Iterate]; [exact Hy|]. eapply wp_bind; [|exact IH]. destruct Hy as (H1 & H2 & H3).
  unfold sweep. eapply wp_bind; [apply sweep_steps_wp; eassumption|]. intros [[ss ws] g] H. exact H.
Qed.
Lemma on_tracked_wp nw t f ws : (forall w, wok w -> wp d er wok (f w)) -> List.length ws = nw -> Forall wok ws ->
  wp d er (fun ws' => List.length ws' = nw /\ Forall wok ws') (on_tracked t f ws).
Proof.
  intros Hf. revert ws. induction t as [|[l i] t IH]; intros ws Hl Hw; cbn [on_tracked]; [split; assumption|].
  apply wp_bind with (Q1 := fun ws' => List.length ws' = nw /\ Forall wok ws'); [|intros ws1 [H1 H2]; apply IH; assumption]. unfold on_par. unfold vgetU. destruct (nth_error ws i) as [w|] eqn:E; [|exact I]. cbn [bind].
  eapply wp_bind; [apply Hf, (proj1 (Forall_nth_error _ _) Hw _ _ E)|]. intros w' Hw'. cbn. split; [rewrite upd_length; exact Hl|apply Forall_upd; assumption].
Qed.
Lemma SaveValues_wp nw t c y : yok nw y -> wp d er (yok nw) (SaveValues t c y).
Proof.
  intros (H1 & H2 & H3). unfold SaveValues. eapply wp_bind; [apply (on_tracked_wp (nw := nw)); [|exact H1|exact H2]|].
  - intros w Hw. unfold AddToSample, vsetU. destruct (_ <? _); [|exact I]. cbn [bind]. destruct (_ <? _); [|exact I]. exact Hw.
  - intros ws [H4 H5]. repeat split; assumption.
Qed.
Lemma sample_loop_wp nw thin t k : forall cur y, yok nw y -> wp d er (yok nw) (sample_loop P draw k cur thin t y).
Proof.
  induction k as [|k IH]; intros cur y Hy; cbn [sample_loop]; [exact Hy|]. eapply wp_bind; [apply Iterate_wp, Hy|].
  intros y1 H1. eapply wp_bind; [apply SaveValues_wp, H1|]. intros y2 H2. apply IH, H2.
Qed.
Lemma start_loop_wp nw ss : forall ws g, List.length ws = nw -> Forall wok ws -> Forall (sok nw) ss ->
  wp d er (fun q => List.length (fst q) = nw /\ Forall wok (fst q)) (start_loop P ss (List.length init =? n) init ws g).
Proof.
  induction ss as [|s ss IH]; intros ws g Hl Hw Hs; cbn [start_loop]; [split; assumption|].
  inversion Hs as [|? ? Hs1 Hs2]; subst. unfold vgetU. destruct (nth_error ws (step_par s)) as [w|] eqn:E; [|exact I]. cbn [bind].
  pose proof (proj1 (Forall_nth_error _ _) Hw _ _ E) as [Hwo Hwl]. eapply wp_bind; [apply HST; exact Hwo|].
  intros [[v x] g1] [H1 H2]. cbn [fst snd] in H1, H2. eapply wp_bind with (Q1 := wok).
  { unfold Save. eapply wp_bind; [apply HLD; [exact H1|exact H2]|]. intros [l x'] Hx. split; [exact Hx|exact H2]. }
  intros w' Hw'. apply IH; [apply upd_length|apply Forall_upd; assumption|exact Hs2].
Qed.
Theorem Run_wp nw N burnin thin t y : yok nw y -> wp d er (yok nw) (Run P draw N burnin thin t init y).
Proof.
  intros (H1 & H2 & H3). unfold Run. eapply wp_bind; [apply (on_tracked_wp (nw := nw)); [|exact H1|exact H2]|].
  { intros w Hw. exact Hw. }
  intros ws1 [H4 H5]. destruct (vgetU (y_steps y) 0) as [s0| | |] eqn:E0; cbn [bind]; try exact I; [|unfold vgetU in E0; destruct (nth_error _ _); discriminate..].
  destruct (vgetU ws1 (step_par s0)) as [w0| | |] eqn:E1; cbn [bind]; try exact I; [|unfold vgetU in E1; destruct (nth_error _ _); discriminate..].
  apply vgetU_nth in E1. destruct (proj1 (Forall_nth_error _ _) H5 _ _ E1) as [_ Hl0]. rewrite Hl0.
  eapply wp_bind; [apply (start_loop_wp (nw := nw)); assumption|]. intros [ws2 g2] [H6 H7]. cbn [fst] in H6, H7.
  eapply wp_bind; [apply Iterate_wp with (nw := nw); repeat split; assumption|]. intros y3 H8. apply sample_loop_wp, H8.
Qed.
End Eng.

Section Tot.
Variable A : Arith.
Local Notation F := (F A).
Local Notation vec := (list F).
Local Notation "# z" := (fofZ A z) (at level 5).
Variable solve : list (list (cx A)) -> list (cx A) -> option (list (cx A)).
Variable R : rng A.
Variables vsort dsort : vec -> option vec.

(** ** LogDensity *)
Lemma LD_inv X Om (C : cls A X Om) b th l b' : ffin A (fneg A (finf A)) = false -> LogDensity C b th = Ok (l, b') -> ffin A l = true ->
  exists om ma sig scale mu s', v_Check C (b_bounds b) th = Ok true /\ v_AR C th = Ok om /\ v_MA C th = Ok ma /\ v_Sig C th = Ok sig /\
    vget th 1 = Ok scale /\ vget th 2 = Ok mu /\ Filter (v_meth C) (load C b sig om ma scale mu) = Ok s' /\ b' = set_kf b s'.
Proof.
  intros Hn E Hf. unfold LogDensity in E. apply bind_Ok in E. destruct E as (ok & Ec & E). destruct ok; cbn [negb] in E; [|injection E as <- _; congruence].
  apply bind_Ok in E. destruct E as (om & E1 & E). apply bind_Ok in E. destruct E as (ma & E2 & E). apply bind_Ok in E. destruct E as (sig & E3 & E).
  apply bind_Ok in E. destruct E as (scale & E4 & E). apply bind_Ok in E. destruct E as (mu & E5 & E). cbv zeta in E.
  exists om, ma, sig, scale, mu. destruct (Filter _ _) as [s'|[|]| |]; try discriminate; [|injection E as <- _; congruence].
  exists s'. apply bind_Ok in E. destruct E as (ll & _ & E). apply bind_Ok in E. destruct E as (pr & _ & E). injection E as _ <-. repeat (split; [solve [trivial]|]). trivial.
Qed.

(** Filter() gives a result again when the data and parameters are the same *)
Lemma Filter_again X Par (M : methods A X) (par : X -> Par) good pf (s s' s2 : kf A X) : pureF par M good pf -> usable s -> good s -> usable s2 -> good s2 ->
  setup_of par s2 = setup_of par s -> Filter M s = Ok s' -> exists s3, Filter M s2 = Ok s3.
Proof.
  intros HF U1 G1 U2 G2 Es E. destruct (HF _ U1 G1) as [H1 _]. destruct (HF _ U2 G2) as [H2 _]. rewrite Es, <- H1, E in H2. cbn in H2.
  destruct (Filter M s2) as [s3| | |]; try discriminate. exists s3. reflexivity.
Qed.

(** ** C44: SetStartingValue returns a starting value with finite log-density *)
Theorem SetStart1_init b init g lp b1 : ffin A (fneg A (finf A)) = false -> wfb b -> List.length init = 4 ->
  LogDensity (car1_cls A) b init = Ok (lp, b1) -> ffin A lp = true ->
  exists b2, SetStart1 (R := R) vsort b init g = Ok (init, b2, g).
Proof.
  intros Hn Hw Hl E Hf. unfold SetStart1. rewrite Hl, E. cbn [Nat.eqb negb bind]. rewrite Hf. cbn [negb].
  destruct init as [|a [|c [|d [|e [|? ?]]]]]; try discriminate. cbn [vgetU nth_error bind].
  destruct (@LD_pure1 A b [a; c; d; e] Hw) as [_ K]. destruct (K _ _ E) as [_ Hw1].
  unfold set_filter1.
  match goal with |- context [Filter (methods1 A) ?s] => assert (exists s3, Filter (methods1 A) s = Ok s3) as [s3 ->] end; [|eexists; reflexivity].
  destruct Hw1 as (U & H1 & H2 & H3).
  match goal with |- exists s3, Filter _ ?s = _ => assert (usable s) as Us end.
  { destruct U as (U1 & U2 & U3 & U4 & U5 & U6). unfold usable; cbn. unfold centred, scaled_err. rewrite !map_length. repeat split; assumption. }
  eexists. exact (Filter1_ok (usable_wf' Us)).
Qed.

Section P.
Variable p : nat.
Variable maf : vec -> res vec.
Variable prior : vec -> res F.
Local Notation C := (pcls solve p maf prior).
Variable extra : gen R -> vec * gen R.
Variables early withma : bool.
Variables len fuel : nat.
Theorem set_start_init b init g lp b1 : ffin A (fneg A (finf A)) = false -> wfb b -> List.length init = len ->
  LogDensity C b init = Ok (lp, b1) -> ffin A lp = true ->
  exists b2, set_start dsort solve p C extra early withma len fuel b init g = Ok (init, b2, g).
Proof.
  intros Hn Hw Hl E Hf. unfold set_start. rewrite Hl, Nat.eqb_refl, E. cbn [negb bind]. rewrite Hf. cbn [negb].
  destruct (LD_inv Hn E Hf) as (om & ma & sig & scale & mu & s' & _ & E1 & E2 & E3 & E4 & E5 & EF & ->).
  destruct (@load_ok _ _ _ _ C (@par_of A) (fun om ma => (om, ma)) (@goodp A) (@good_datap A) (@Hsetp A solve p maf prior) b sig om ma scale mu Hw) as (Hu & Hg & Ese).
  destruct (pureFp solve Hu Hg) as [Ho Hp]. destruct (Hp _ EF) as (Hs' & Hu' & Hg').
  cbn [v_AR v_Sig pcls] in E1, E3. unfold Sigp in E3. rewrite E1 in E3. cbn [bind] in E3. cbn [v_MA pcls] in E2. rewrite E2 in E3. cbn [bind] in E3.
  apply bind_Ok in E3. destruct E3 as (t0 & E0 & Q). injection Q as Esig. rewrite E0, E4, E5, E1. cbn [bind v_MA pcls]. rewrite E2. cbn [bind].
  rewrite Esig. unfold set_filterp. cbv zeta.
  match goal with |- context [Filter (methodsp solve) ?s] => assert (exists s3, Filter (methodsp solve) s = Ok s3) as [s3 ->] end; [|eexists; reflexivity].
  assert (wfb (set_kf b s')) as Hw1.
  { destruct (@LD_purep A solve p maf prior b init Hw) as [_ K]. exact (proj2 (K _ _ E)). }
  set (m := if withma then ma else x_ma (k_ext s')).
  destruct (@load_ok _ _ _ _ C (@par_of A) (fun om ma => (om, ma)) (@goodp A) (@good_datap A) (@Hsetp A solve p maf prior) (set_kf b s') sig om m scale mu Hw1) as (Hu2 & Hg2 & Ese2).
  assert (m = ma) as Em.
  { unfold m. destruct withma; [reflexivity|]. pose proof (eq_trans (f_equal (@s_par _ _) Hs') (f_equal (@s_par _ _) Ese)) as Q. cbn in Q. injection Q as _ Q. exact Q. }
  refine (@Filter_again _ _ (methodsp solve) (@par_of A) (@goodp A) (@pfp A solve) (load C b sig om ma scale mu) s' _ (pureFp solve) Hu Hg _ _ _ EF).
  - destruct withma; exact Hu2.
  - destruct withma; exact Hg2.
  - assert (k_time s' = k_time (b_kf b)) as Et.
    { transitivity (s_time (setup_of (@par_of A) (load C b sig om ma scale mu))); [exact (f_equal (@s_time _ _) Hs')|exact (f_equal (@s_time _ _) Ese)]. }
    transitivity (setup_of (@par_of A) (load C (set_kf b s') sig om m scale mu)); [subst m; destruct withma; reflexivity|].
    rewrite Ese2, Ese, Em. cbn [set_kf b_kf b_y b_yerr]. rewrite Et. reflexivity.
Qed.
End P.
End Tot.
