(** Runs which differ in the number of kept samples and the thinning only: the chain is the same. *)
From Coq Require Import List Arith ZArith Bool String Lia.
From Verif Require Import Arith Res ListLemmas History EngineModel EngineSpec EngineProof.
Import ListNotations.

Set Implicit Arguments.

Section Thin.
Variable A : Arith.
Variable R : rng A.
Variable X : Type.
Local Notation F := (F A).
Local Notation vec := (list F).
Variable P : methodsP R X vec.
Variable draw : F -> gen R -> F * gen R.
Local Notation param := (param A X vec).
Local Notation sys := (sys R X).
Local Notation length := List.length.

(** the counters of an ExchangeStep are not looked at by the chain *)
Definition sims (s s' : step A) : Prop :=
  match s, s' with SRam i r, SRam i' r' => i = i' /\ r = r' | SExch i _, SExch i' _ => i = i' | _, _ => False end.
(** equal up to the kept samples *)
Definition simp (ws ws' : list param) : Prop := exists rs, length rs = length ws /\ ws' = zip ws rs.
Definition simy (y z : sys) : Prop := simp (y_pars y) (y_pars z) /\ Forall2 sims (y_steps y) (y_steps z) /\ y_gen z = y_gen y.

Lemma sims_refl s : sims s s.
Proof. destruct s; cbn; auto. Qed.
Lemma sims_sym s s' : sims s s' -> sims s' s.
Proof. destruct s, s'; cbn; intuition. Qed.
Lemma sims_trans a b c : sims a b -> sims b c -> sims a c.
Proof. destruct a, b, c; cbn; intuition congruence. Qed.
Lemma sims_par s s' : sims s s' -> step_par s' = step_par s.
Proof. destruct s, s'; cbn; intuition. Qed.
Lemma simsl_refl l : Forall2 sims l l.
Proof. induction l; constructor; [apply sims_refl|assumption]. Qed.
Lemma simsl_sym l l' : Forall2 sims l l' -> Forall2 sims l' l.
Proof. induction 1; constructor; [apply sims_sym|]; assumption. Qed.
Lemma simsl_trans a b c : Forall2 sims a b -> Forall2 sims b c -> Forall2 sims a c.
Proof. intros H. revert c. induction H as [|x y l l' H H0 IH]; intros c Hc; inversion Hc; subst; constructor; [eapply sims_trans; eassumption|apply IH; assumption]. Qed.
Lemma simp_refl ws : simp ws ws.
Proof. exists (map (@rec_of A X) ws). split; [apply map_length|symmetry; apply zip_self]. Qed.
Lemma simp_sym ws ws' : simp ws ws' -> simp ws' ws.
Proof.
  intros (rs & H & ->). exists (map (@rec_of A X) ws). rewrite zip_len by exact H. split; [apply map_length|].
  rewrite zip_zip by exact H. symmetry. apply zip_self.
Qed.
Lemma simp_trans a b c : simp a b -> simp b c -> simp a c.
Proof.
  intros (r1 & H1 & ->) (r2 & H2 & ->). rewrite zip_len in H2 by exact H1. exists r2. split; [exact H2|]. apply zip_zip, H1.
Qed.
Lemma simp_len a b : simp a b -> length b = length a.
Proof. intros (r & H & ->). apply zip_len, H. Qed.
Lemma simy_sym y z : simy y z -> simy z y.
Proof. intros (H1 & H2 & H3). split; [apply simp_sym, H1|]. split; [apply simsl_sym, H2|congruence]. Qed.
Lemma simy_trans a b c : simy a b -> simy b c -> simy a c.
Proof.
  intros (H1 & H2 & H3) (K1 & K2 & K3). split; [eapply simp_trans; eassumption|]. split; [eapply simsl_trans; eassumption|congruence].
Qed.
Lemma simy_refl y : simy y y.
Proof. split; [apply simp_refl|]. split; [apply simsl_refl|reflexivity]. Qed.
Lemma agree_simy y z : agree y z -> simy y z.
Proof. intros (rs & H & ->). split; [exists rs; split; [exact H|reflexivity]|]. split; [apply simsl_refl|reflexivity]. Qed.
Lemma simp_nth a b j w : simp a b -> nth_error a j = Some w ->
  exists w', nth_error b j = Some w' /\ w_value w' = w_value w /\ w_logpost w' = w_logpost w /\ w_obj w' = w_obj w /\ w_temp w' = w_temp w /\
    w_track w' = w_track w /\ w_label w' = w_label w.
Proof.
  intros (rs & H & ->) E. pose proof (zip_vget a rs j H) as Q. rewrite (vgetU_nth' _ _ E) in Q. cbn [bind] in Q. apply vgetU_nth in Q.
  eexists. split; [exact Q|]. repeat split.
Qed.

(** ** One step, one sweep, many sweeps *)
Lemma do_step_sims s s' ws g s1 ws1 g1 : sims s s' -> do_step P draw s ws g = Ok (s1, ws1, g1) ->
  exists s1', do_step P draw s' ws g = Ok (s1', ws1, g1) /\ sims s1 s1'.
Proof.
  destruct s as [i r|i e], s' as [i' r'|i' e']; cbn [sims]; intros H E; try contradiction.
  - destruct H as [<- <-]. exists s1. split; [exact E|apply sims_refl].
  - subst i'. destruct i as [|j]; cbn [do_step] in *; [discriminate|].
    apply bind_Ok in E. destruct E as (w & Ew & E). apply bind_Ok in E. destruct E as (o & Eo & E). rewrite Ew, Eo. cbn [bind].
    unfold exch_step in *. cbv zeta in *. destruct (runiform _ _ g) as [u g2].
    apply bind_Ok in E. destruct E as ([[[e1 w1] o1] g3] & E & Q). apply bind_Ok in E. destruct E as ([[w2 o2] na] & E & Q2).
    injection Q2 as <- <- <- <-. injection Q as <- <- <-.
    destruct (flt A u _).
    + apply bind_Ok in E. destruct E as (w4 & E1 & E). apply bind_Ok in E. destruct E as (o4 & E2 & E). injection E as <- <- <-.
      rewrite E1. cbn [bind]. rewrite E2. cbn [bind]. eexists. split; [reflexivity|reflexivity].
    + injection E as <- <- <-. cbn [bind]. eexists. split; [reflexivity|reflexivity].
Qed.
Lemma do_step_simp s ws ws' g s1 ws1 g1 : simp ws ws' -> do_step P draw s ws g = Ok (s1, ws1, g1) ->
  exists ws1', do_step P draw s ws' g = Ok (s1, ws1', g1) /\ simp ws1 ws1'.
Proof.
  intros (rs & H & ->) E. exists (zip ws1 rs). split; [rewrite do_step_rec by exact H; rewrite E; reflexivity|].
  exists rs. split; [rewrite (do_step_len _ _ _ _ _ E); exact H|reflexivity].
Qed.
Lemma sweep_steps_sim ss : forall ss' ws ws' g ss1 ws1 g1, Forall2 sims ss ss' -> simp ws ws' -> sweep_steps P draw ss ws g = Ok (ss1, ws1, g1) ->
  exists ss1' ws1', sweep_steps P draw ss' ws' g = Ok (ss1', ws1', g1) /\ Forall2 sims ss1 ss1' /\ simp ws1 ws1'.
Proof.
  induction ss as [|s ss IH]; intros ss' ws ws' g ss1 ws1 g1 Hs Hw E; cbn [sweep_steps] in E; inversion Hs; subst.
  - injection E as <- <- <-. exists [], ws'. split; [reflexivity|]. split; [constructor|exact Hw].
  - apply bind_Ok in E. destruct E as ([[s2 ws2] g2] & E1 & E). apply bind_Ok in E. destruct E as ([[s3 ws3] g3] & E2 & E). injection E as <- <- <-.
    destruct (@do_step_simp _ _ _ _ _ _ _ Hw E1) as (wa & Ea & Ha).
    match goal with H : sims s _ |- _ => destruct (@do_step_sims _ _ _ _ _ _ _ H Ea) as (sb & Eb & Hb) end.
    match goal with H : Forall2 sims ss _ |- _ => destruct (IH _ _ _ _ _ _ _ H Ha E2) as (sc & wc & Ec & Hc & Hd) end.
    exists (sb :: sc), wc. cbn [sweep_steps]. rewrite Eb. cbn [bind]. rewrite Ec. cbn [bind]. split; [reflexivity|].
    split; [constructor; assumption|exact Hd].
Qed.
Lemma sweep_sim y z y1 : simy y z -> sweep P draw y = Ok y1 -> exists z1, sweep P draw z = Ok z1 /\ simy y1 z1.
Proof.
  intros (H1 & H2 & H3) E. unfold sweep in *. apply bind_Ok in E. destruct E as ([[ss ws] g] & E & Q). injection Q as <-.
  destruct (sweep_steps_sim _ H2 H1 E) as (ss' & ws' & E' & K1 & K2). rewrite H3, E'. cbn [bind]. eexists. split; [reflexivity|].
  split; [exact K2|]. split; [exact K1|reflexivity].
Qed.
Lemma sweeps_sim n y y1 : sweeps P draw n y y1 -> forall z, simy y z -> exists z1, sweeps P draw n z z1 /\ simy y1 z1.
Proof.
  induction 1 as [y|n y y1 y2 _ IH H]; intros z Hz; [exists z; split; [constructor|exact Hz]|].
  destruct (IH z Hz) as (z1 & S1 & Hz1). apply sweeps_sweep in H. destruct (sweep_sim Hz1 H) as (z2 & S2 & Hz2).
  exists z2. split; [econstructor; [exact S1|apply sweeps_sweep, S2]|exact Hz2].
Qed.
Lemma sweeps_Iterate n : forall y y', sweeps P draw n y y' -> Iterate P draw n y = Ok y'.
Proof.
  assert (forall n y y1 y2, Iterate P draw n y = Ok y1 -> sweep P draw y1 = Ok y2 -> Iterate P draw (S n) y = Ok y2) as K.
  { clear n. induction n as [|n IH]; intros y y1 y2 H1 H2.
    - cbn [Iterate] in *. injection H1 as <-. rewrite H2. reflexivity.
    - cbn [Iterate] in H1. apply bind_Ok in H1. destruct H1 as (ya & Ha & H1).
      change (Iterate P draw (S (S n)) y) with (y' <- sweep P draw y ;; Iterate P draw (S n) y'). rewrite Ha. cbn [bind]. apply (IH _ _ _ H1 H2). }
  intros y y' H. induction H as [y|n y y1 y2 _ IH H]; [reflexivity|]. apply sweeps_sweep in H. exact (K _ _ _ _ IH H).
Qed.
Lemma sweeps_split m n : forall y y2, sweeps P draw (m + n) y y2 -> exists y1, sweeps P draw m y y1 /\ sweeps P draw n y1 y2.
Proof.
  induction n as [|n IH]; intros y y2 H.
  - rewrite Nat.add_0_r in H. exists y2. split; [exact H|constructor].
  - rewrite Nat.add_succ_r in H. inversion H; subst.
    match goal with H0 : sweeps _ _ (m + n) _ _ |- _ => destruct (IH _ _ H0) as (ya & S1 & S2) end.
    exists ya. split; [exact S1|]. econstructor; eassumption.
Qed.

(** ** Starting values *)
Lemma start_loop_sim ss use init : forall ss' ws ws' g ws1 g1, Forall2 sims ss ss' -> simp ws ws' -> start_loop P ss use init ws g = Ok (ws1, g1) ->
  exists ws1', start_loop P ss' use init ws' g = Ok (ws1', g1) /\ simp ws1 ws1'.
Proof.
  induction ss as [|s ss IH]; intros ss' ws ws' g ws1 g1 Hs Hw E; cbn [start_loop] in E; inversion Hs; subst.
  - injection E as <- <-. exists ws'. split; [reflexivity|exact Hw].
  - apply bind_Ok in E. destruct E as (w & Ew & E). apply bind_Ok in E. destruct E as ([[v x] g2] & Es & E).
    apply bind_Ok in E. destruct E as (w' & Ew' & E). cbn [start_loop].
    match goal with H : sims s _ |- _ => rewrite (sims_par _ _ H) end.
    destruct Hw as (rs & Hl & ->). rewrite zip_vget by exact Hl. rewrite Ew. cbn [bind]. set (r := nth (step_par s) rs ([], [])).
    change (w_obj (with_rec w r)) with (w_obj w). rewrite Es. cbn [bind].
    change (set_obj (with_rec w r) x) with (with_rec (set_obj w x) r). rewrite Save_rec, Ew'. cbn [bind].
    unfold r. rewrite zip_upd by exact Hl.
    match goal with H : Forall2 sims ss _ |- _ => apply (IH _ _ _ _ _ _ H) with (2 := E) end.
    exists rs. split; [rewrite upd_length; exact Hl|reflexivity].
Qed.

(** ** The tracked parameters *)
Lemma on_tracked_idx t (f : param -> res param) : forall ws ws', on_tracked t f ws = Ok ws' -> forall j, tracks t j -> j < length ws.
Proof.
  induction t as [|[l i] t IH]; intros ws ws' E j Hj; [destruct Hj|]. cbn [on_tracked] in E. apply bind_Ok in E. destruct E as (w1 & E1 & E).
  unfold on_par in E1. apply bind_Ok in E1. destruct E1 as (w & Ew & E1). apply bind_Ok in E1. destruct E1 as (w' & Ew' & E1). injection E1 as <-.
  destruct Hj as [<-|Hj].
  - cbn. apply nth_error_Some. rewrite (vgetU_nth _ _ Ew). discriminate.
  - specialize (IH _ _ E j Hj). rewrite upd_length in IH. exact IH.
Qed.
Lemma on_tracked_total t (f : param -> res param) (Q : param -> Prop) : (forall w, Q w -> exists w', f w = Ok w' /\ Q w') ->
  forall ws, (forall j, tracks t j -> j < length ws) -> (forall j w, tracks t j -> nth_error ws j = Some w -> Q w) -> exists ws', on_tracked t f ws = Ok ws'.
Proof.
  intros Hf. induction t as [|[l i] t IH]; intros ws Hi HQ; cbn [on_tracked]; [exists ws; reflexivity|].
  assert (i < length ws) as Hil by (apply Hi; left; reflexivity).
  destruct (nth_error ws i) as [w|] eqn:Ew; [|apply nth_error_None in Ew; lia].
  destruct (Hf w) as (w' & Ew' & HQ'); [apply (HQ i); [left; reflexivity|exact Ew]|].
  unfold on_par. rewrite (vgetU_nth' _ _ Ew). cbn [bind]. rewrite Ew'. cbn [bind]. apply IH.
  - intros j Hj. rewrite upd_length. apply Hi. right; exact Hj.
  - intros j wj Hj Hwj. rewrite nth_error_upd in Hwj. destruct (i =? j); [rewrite Ew in Hwj; injection Hwj as <-; exact HQ'|].
    apply (HQ j); [right; exact Hj|exact Hwj].
Qed.
Lemma AddToSample_total w cur n : cur < n -> length (w_samples w) = n /\ length (w_logposts w) = n ->
  exists w' : param, AddToSample w cur = Ok w' /\ length (w_samples w') = n /\ length (w_logposts w') = n.
Proof.
  intros Hc [H1 H2]. unfold AddToSample, vsetU. rewrite H1, H2. assert (cur <? n = true) as -> by (apply Nat.ltb_lt; lia). cbn [bind].
  eexists. split; [reflexivity|]. cbn. rewrite !upd_length. split; assumption.
Qed.
(** the tracked parameters have room for n samples *)
Definition room (t : tracked) (n : nat) (ws : list param) : Prop :=
  forall j, tracks t j -> exists w, nth_error ws j = Some w /\ length (w_samples w) = n /\ length (w_logposts w) = n.
Lemma sample_loop_total t k n : forall N cur y z zn, simy z y -> sweeps P draw (N * k) z zn -> cur + N <= n -> room t n (y_pars y) ->
  exists y', sample_loop P draw N cur k t y = Ok y'.
Proof.
  induction N as [|N IH]; intros cur y z zn Hz Hs Hc Hr; [exists y; reflexivity|].
  cbn [Nat.mul] in Hs. destruct (sweeps_split _ _ Hs) as (z1 & S1 & S2).
  destruct (sweeps_sim S1 Hz) as (y1 & T1 & Hz1). pose proof (sweeps_Iterate T1) as I1. cbn [sample_loop]. rewrite I1. cbn [bind].
  pose proof (Iterate_keeps _ _ _ _ I1) as Hk. pose proof (Iterate_len _ _ _ _ I1) as Hl.
  assert (room t n (y_pars y1)) as Hr1.
  { intros j Hj. destruct (Hr j Hj) as (w & Ew & H1 & H2). assert (j < length (y_pars y)) as Hjl by (apply nth_error_Some; congruence).
    destruct (nth_error (y_pars y1) j) as [w1|] eqn:Ew1; [|apply nth_error_None in Ew1; lia]. exists w1. split; [reflexivity|].
    apply (f_equal (fun l => nth_error l j)) in Hk. rewrite !nth_error_map, Ew, Ew1 in Hk. cbn in Hk. injection Hk as K1 K2. rewrite K1, K2. split; assumption. }
  destruct (@on_tracked_total t (fun w => AddToSample w cur) (fun w => length (w_samples w) = n /\ length (w_logposts w) = n)) with (ws := y_pars y1) as (ws2 & E2).
  { intros w Hw. apply AddToSample_total; [lia|exact Hw]. }
  { intros j Hj. destruct (Hr1 j Hj) as (w & Ew & _). apply nth_error_Some. congruence. }
  { intros j w Hj Ew. destruct (Hr1 j Hj) as (w' & Ew' & H). assert (w' = w) by congruence. subst w'. exact H. }
  assert (SaveValues t cur y1 = Ok (mkSys ws2 (y_steps y1) (y_gen y1))) as E3 by (unfold SaveValues; rewrite E2; reflexivity).
  rewrite E3. cbn [bind]. apply (IH (S cur) _ z1 zn); [|exact S2|lia|].
  - eapply simy_trans; [exact Hz1|]. apply agree_simy. apply (agree_Save _ _ (agree_refl y1) E3).
  - cbn [y_pars]. intros j Hj. destruct (Hr1 j Hj) as (w & Ew & H1 & H2).
    pose proof (SaveValues_len _ _ _ E3) as L. cbn [y_pars] in L. assert (j < length (y_pars y1)) as Hjl by (apply nth_error_Some; congruence).
    destruct (nth_error ws2 j) as [w2|] eqn:Ew2; [|apply nth_error_None in Ew2; lia]. exists w2. split; [reflexivity|].
    destruct (save_values_nth _ _ _ E2 _ Ew Ew2) as [Hs2 _]. destruct (Hs2 Hj) as (_ & _ & -> & ->). rewrite !upd_length. split; assumption.
Qed.

(** ** Sampler::Run *)
Lemma Run_parts N burnin thin t init (y y' : sys) : Run P draw N burnin thin t init y = Ok y' ->
  exists ws1 s0 w0 ws2 g2, on_tracked t (fun w => Ok (SetSampleSize [] w N)) (y_pars y) = Ok ws1 /\ vgetU (y_steps y) 0 = Ok s0 /\
    vgetU ws1 (step_par s0) = Ok w0 /\ start_loop P (y_steps y) (length init =? length (w_value w0)) init ws1 (y_gen y) = Ok (ws2, g2) /\
    (exists yn, sweeps P draw (burnin + N * thin) (mkSys ws2 (y_steps y) g2) yn /\ agree yn y') /\
    forall j w, tracks t j -> nth_error (y_pars y') j = Some w ->
      length (w_samples w) = N /\ length (w_logposts w) = N /\
      forall i, i < N -> exists yi wi, sweeps P draw (burnin + (i + 1) * thin) (mkSys ws2 (y_steps y) g2) yi /\ nth_error (y_pars yi) j = Some wi /\
        nth_error (w_samples w) i = Some (w_value wi) /\ nth_error (w_logposts w) i = Some (w_logpost wi).
Proof.
  unfold Run. intros E. apply bind_Ok in E. destruct E as (ws1 & E1 & E). apply bind_Ok in E. destruct E as (s0 & Es0 & E).
  apply bind_Ok in E. destruct E as (w0 & Ew0 & E). apply bind_Ok in E. destruct E as ([ws2 g2] & E2' & E).
  apply bind_Ok in E. destruct E as (y3 & E3 & E). pose proof (start_loop_started _ _ _ _ _ _ E2') as E2.
  exists ws1, s0, w0, ws2, g2. split; [exact E1|]. split; [exact Es0|]. split; [exact Ew0|]. split; [exact E2'|].
  pose proof (@Iterate_sweeps _ _ _ _ _ _ _ _ E3) as Hb. pose proof (@Iterate_len _ _ _ _ _ _ _ _ E3) as L3. cbn [y_pars] in L3.
  destruct (@sample_loop_spec _ _ _ _ _ _ _ _ _ _ _ _ (agree_refl y3) E) as [(yn & Hs & Ha) Hrec].
  split; [exists yn; split; [eapply sweeps_trans; eassumption|exact Ha]|].
  intros j w Hj Hw. destruct (started_len E2) as [L2 R2].
  pose proof (@sample_loop_len _ _ _ _ _ _ _ _ _ _ _ E) as L4.
  assert (j < length (y_pars y')) as Hjl by (apply nth_error_Some; congruence).
  destruct (nth_error (y_pars y3) j) as [w3|] eqn:Hw3; [|apply nth_error_None in Hw3; lia].
  destruct (nth_error ws1 j) as [w1|] eqn:Hw1; [|apply nth_error_None in Hw1; lia].
  destruct (Hrec j w3 w Hj Hw3 Hw) as (H1 & H2 & _ & H4).
  destruct (@size_tracked _ _ _ _ _ _ E1 _ _ Hj Hw1) as [Hn1 Hn2].
  assert (rec_of w3 = rec_of w1) as Er.
  { pose proof (@Iterate_keeps _ _ _ _ _ _ _ _ E3) as Hk. cbn [y_pars] in Hk. rewrite R2 in Hk.
    apply (f_equal (fun l => nth_error l j)) in Hk. rewrite !nth_error_map, Hw3, Hw1 in Hk. cbn in Hk. injection Hk as Hk1 Hk2. unfold rec_of; congruence. }
  injection Er as Er1 Er2.
  split; [rewrite H1, Er1; exact Hn1|]. split; [rewrite H2, Er2; exact Hn2|].
  intros i Hi. destruct (H4 i Hi) as (yi & wi & Hsi & Hwi & Hv & Hlp). exists yi, wi.
  split; [eapply sweeps_trans; eassumption|]. split; [exact Hwi|]. cbn in Hv, Hlp. split; assumption.
Qed.

Theorem Run_thin N k N' k' burnin t init (y z z' : sys) : y_pars y = y_pars z -> y_gen y = y_gen z -> Forall2 sims (y_steps z) (y_steps y) ->
  Run P draw N' burnin k' t init z = Ok z' -> N * k <= N' * k' ->
  exists y', Run P draw N burnin k t init y = Ok y' /\ (N * k = N' * k' -> simy z' y') /\
    forall j w w', tracks t j -> nth_error (y_pars y') j = Some w -> nth_error (y_pars z') j = Some w' ->
      length (w_samples w) = N /\ length (w_logposts w) = N /\ length (w_samples w') = N' /\ length (w_logposts w') = N' /\
      forall i i', i < N -> i' < N' -> (i + 1) * k = (i' + 1) * k' ->
        nth_error (w_samples w) i = nth_error (w_samples w') i' /\ nth_error (w_logposts w) i = nth_error (w_logposts w') i'.
Proof.
  intros Hp Hg Hss E Hle. destruct (Run_parts _ _ _ _ _ _ E) as (vs1 & s0 & v0 & vs2 & g2 & Ez1 & Es0 & Ev0 & Ez2 & (zn & Szn & Azn) & Hrec).
  (* SetSampleSize *)
  destruct (@on_tracked_total t (fun w => Ok (SetSampleSize [] w N)) (fun _ => True)) with (ws := y_pars y) as (ws1 & Ey1).
  { intros w _. eexists. split; [reflexivity|exact I]. } { rewrite Hp. exact (on_tracked_idx _ _ _ Ez1). } { trivial. }
  assert (simp vs1 ws1) as H1.
  { destruct (on_tracked_rec _ _ _ (fun w w' => @SetSampleSize_rec A X N' w w') Ez1) as (rs & Hl & ->).
    destruct (on_tracked_rec _ _ _ (fun w w' => @SetSampleSize_rec A X N w w') Ey1) as (rs' & Hl' & ->). rewrite Hp in *.
    eapply simp_trans; [apply simp_sym; exists rs; split; [exact Hl|reflexivity]|]. exists rs'. split; [exact Hl'|reflexivity]. }
  assert (exists s0', vgetU (y_steps y) 0 = Ok s0' /\ sims s0 s0') as (s0' & Es0' & Hs0).
  { clear - Hss Es0. apply vgetU_nth in Es0. inversion Hss as [A0 B0|a b l l' Hab Hl Ha Hb]; [rewrite <- A0 in Es0; discriminate|].
    rewrite <- Ha in Es0. cbn in Es0. injection Es0 as <-. exists b. split; [reflexivity|exact Hab]. }
  destruct (simp_nth _ H1 (vgetU_nth _ _ Ev0)) as (w0 & Ew0 & Hw0 & _).
  destruct (start_loop_sim _ _ _ Hss H1 Ez2) as (ws2 & Ey2 & H2).
  set (y0 := mkSys ws2 (y_steps y) g2). set (z0 := mkSys vs2 (y_steps z) g2) in *.
  assert (simy z0 y0) as H0 by (split; [exact H2|split; [exact Hss|reflexivity]]).
  assert (exists y', Run P draw N burnin k t init y = Ok y') as (y' & Ey).
  { unfold Run. rewrite Ey1. cbn [bind]. rewrite Es0'. cbn [bind]. rewrite (sims_par _ _ Hs0). rewrite (vgetU_nth' _ _ Ew0). cbn [bind]. rewrite Hw0, Hg, Ey2. cbn [bind].
    fold y0. replace (burnin + N' * k') with (burnin + (N * k + (N' * k' - N * k))) in Szn by lia.
    destruct (sweeps_split _ _ Szn) as (zb & Sb & Sr). destruct (sweeps_split _ _ Sr) as (zm & Sm & _).
    destruct (sweeps_sim Sb H0) as (yb & Tb & Hb). rewrite (sweeps_Iterate Tb). cbn [bind].
    apply (@sample_loop_total t k N N 0 yb zb zm Hb Sm); [lia|].
    intros j Hj. pose proof (on_tracked_idx _ _ _ Ey1 _ Hj) as Hjl.
    destruct (on_tracked_rec _ _ _ (fun w w' => @SetSampleSize_rec A X N w w') Ey1) as (rs & Hl & Hws1).
    pose proof (start_loop_started _ _ _ _ _ _ Ey2) as St. destruct (started_len St) as [L2 R2].
    pose proof (Iterate_keeps _ _ _ _ (sweeps_Iterate Tb)) as Hk. pose proof (Iterate_len _ _ _ _ (sweeps_Iterate Tb)) as Lb. cbn [y0 y_pars] in Hk, Lb.
    assert (length ws1 = length (y_pars y)) as L1 by (rewrite Hws1; apply zip_len, Hl).
    destruct (nth_error (y_pars yb) j) as [w|] eqn:Ew; [|apply nth_error_None in Ew; lia].
    destruct (nth_error ws1 j) as [w1|] eqn:Ew1; [|apply nth_error_None in Ew1; lia].
    exists w. split; [reflexivity|]. destruct (size_tracked _ _ _ Ey1 _ Hj Ew1) as [Hn1 Hn2].
    rewrite R2 in Hk. apply (f_equal (fun l => nth_error l j)) in Hk. rewrite !nth_error_map, Ew, Ew1 in Hk. cbn in Hk. injection Hk as K1 K2. rewrite K1, K2. split; assumption. }
  exists y'. split; [exact Ey|].
  destruct (Run_parts _ _ _ _ _ _ Ey) as (us1 & r0 & u0 & us2 & h2 & Fy1 & Fs0 & Fv0 & Fy2 & (yn & Syn & Ayn) & Hrec').
  assert (us1 = ws1) by congruence. subst us1. assert (r0 = s0') by congruence. subst r0. rewrite (sims_par _ _ Hs0), (vgetU_nth' _ _ Ew0) in Fv0. injection Fv0 as <-.
  rewrite Hw0, Hg, Ey2 in Fy2. injection Fy2 as <- <-. fold y0 in Syn, Hrec'.
  split.
  - intros He. rewrite He in Syn. destruct (sweeps_sim Szn H0) as (yn' & S' & Hn). rewrite (sweeps_det S' Syn) in Hn.
    eapply simy_trans; [apply simy_sym, agree_simy, Azn|]. eapply simy_trans; [exact Hn|apply agree_simy, Ayn].
  - intros j w w' Hj Hw Hw'. destruct (Hrec' j w Hj Hw) as (Ha & Hb & Hc). destruct (Hrec j w' Hj Hw') as (Hd & He & Hf).
    repeat (split; [assumption|]). intros i i' Hi Hi' Hk. destruct (Hc i Hi) as (yi & wi & Sy & Ew & Es & El). destruct (Hf i' Hi') as (zi & vi & Sz & Ev & Fs & Fl).
    rewrite <- Hk in Sz. destruct (sweeps_sim Sz H0) as (yi' & S' & Hn). rewrite (sweeps_det S' Sy) in Hn. destruct Hn as (Hn & _).
    destruct (simp_nth _ Hn Ev) as (wi' & Ewi & V1 & V2 & _). assert (wi' = wi) by congruence. subst wi'. rewrite Es, El, Fs, Fl, V1, V2. split; reflexivity.
Qed.
(** the steps given to AddStep *)
Lemma AddSteps_sim ws l : forall l' ss ss' t ss1 t1, Forall2 sims l l' -> Forall2 sims ss ss' -> AddSteps (X := X) (ss, t) ws l = Ok (ss1, t1) ->
  exists ss1', AddSteps (X := X) (ss', t) ws l' = Ok (ss1', t1) /\ Forall2 sims ss1 ss1'.
Proof.
  induction l as [|s l IH]; intros l' ss ss' t ss1 t1 Hl Hs E; inversion Hl; subst.
  - cbn in *. injection E as <- <-. exists ss'. split; [reflexivity|exact Hs].
  - cbn [AddSteps AddStep] in *. match goal with H : sims s _ |- _ => rewrite (sims_par _ _ H); pose proof H as Hsy end.
    destruct (vgetU ws (step_par s)) as [w|e| |]; cbn [bind] in *; try discriminate.
    eapply IH; [eassumption| |exact E]. apply Forall2_app; [exact Hs|constructor; [exact Hsy|constructor]].
Qed.
End Thin.
