(** The drivers RunCar1Sampler and RunCarmaSampler with another number of samples and another thinning. *)
From Coq Require Import List Arith ZArith Bool String Lia.
From Verif Require Import Arith Res ListLemmas History Cx KFModel KFpModel CarpackModel EngineModel EngineSpec EngineProof StartModel ThinProof.
Import ListNotations.

Set Implicit Arguments.

Section Top.
Variable A : Arith.
Variable R : rng A.
Local Notation F := (F A).
Local Notation vec := (list F).
Local Notation length := List.length.

(** what a run with (N, k) shares with a run with (N', k'): the draws after the same number of passes; with the same number of passes in
    all, also the final state of the chain *)
Definition same_chain {X} (N k N' k' : nat) (w w' : param A X vec) : Prop :=
  length (w_samples w) = N /\ length (w_logposts w) = N /\ length (w_samples w') = N' /\ length (w_logposts w') = N' /\
  (forall i i', i < N -> i' < N' -> (i + 1) * k = (i' + 1) * k' ->
     nth_error (w_samples w) i = nth_error (w_samples w') i' /\ nth_error (w_logposts w) i = nth_error (w_logposts w') i') /\
  (N * k = N' * k' -> w_value w = w_value w' /\ w_logpost w = w_logpost w' /\ w_obj w = w_obj w' /\ w_temp w = w_temp w').

Lemma hot_sims n (r : ram A) e e' : Forall2 (@sims A) (hot_steps n r e) (hot_steps n r e').
Proof. induction n as [|n IH]; cbn; constructor; [apply sims_refl|]. constructor; [reflexivity|exact IH]. Qed.

Lemma Run_same {X} (P : methodsP R X vec) draw N k N' k' burnin t init (y z : sys R X) w' g' : y_pars y = y_pars z -> y_gen y = y_gen z ->
  Forall2 (@sims A) (y_steps z) (y_steps y) -> tracks t 0 -> N * k <= N' * k' ->
  (s <- Run P draw N' burnin k' t init z ;; w <- vgetU (y_pars s) 0 ;; Ok (w, y_gen s)) = Ok (w', g') ->
  exists w g, (s <- Run P draw N burnin k t init y ;; w <- vgetU (y_pars s) 0 ;; Ok (w, y_gen s)) = Ok (w, g) /\
    same_chain N k N' k' w w' /\ (N * k = N' * k' -> g = g').
Proof.
  intros Hp Hg Hs Ht Hle E. apply bind_Ok in E. destruct E as (z' & Ez & E). apply bind_Ok in E. destruct E as (v & Ev & E). injection E as <- <-.
  destruct (Run_thin P draw N k N' k' burnin t init y z Hp Hg Hs Ez Hle) as (y' & Ey & Hfin & Hrec). rewrite Ey. cbn [bind]. apply vgetU_nth in Ev.
  assert (exists w, nth_error (y_pars y') 0 = Some w) as (w & Ew).
  { destruct (Run_parts _ _ _ _ _ _ _ _ Ey) as (ws1 & s0 & w0 & ws2 & g2 & E1 & _ & _ & E2 & (yn & Sn & An) & _).
    pose proof (on_tracked_idx _ _ _ E1 _ Ht) as H1. destruct (on_tracked_rec _ _ _ (fun w w' => @SetSampleSize_rec A X N w w') E1) as (rs & Hl & ->).
    destruct (started_len (start_loop_started _ _ _ _ _ _ E2)) as [L2 _]. rewrite zip_len in L2 by exact Hl.
    pose proof (Iterate_len _ _ _ _ (sweeps_Iterate Sn)) as L3. cbn [y_pars] in L3. destruct (agree_simy An) as (Hsp & _). apply simp_len in Hsp.
    destruct (nth_error (y_pars y') 0) as [w|] eqn:Q; [exists w; reflexivity|]. apply nth_error_None in Q. lia. }
  rewrite (vgetU_nth' _ _ Ew). cbn [bind]. exists w, (y_gen y'). split; [reflexivity|]. split.
  - destruct (Hrec 0 w v Ht Ew Ev) as (H1 & H2 & H3 & H4 & H5). split; [exact H1|]. split; [exact H2|]. split; [exact H3|]. split; [exact H4|]. split; [exact H5|].
    intros He. destruct (Hfin He) as (Hsp & _). destruct (simp_nth _ Hsp Ev) as (w2 & Ew2 & V1 & V2 & V3 & V4 & _). assert (w2 = w) by congruence. subst w2. auto.
  - intros He. destruct (Hfin He) as (_ & _ & Hgg). exact Hgg.
Qed.

Variable vsort : vec -> option vec.
Variable solve : list (list (cx A)) -> list (cx A) -> option (list (cx A)).
Variable si : vec -> option (list nat).
Variable chol : list vec -> option (list vec).
Variable dsort : vec -> option vec.

Lemma run_carma_thin X (M : methodsP R (base A X) vec) mk npar label N k N' k' burnin y nw init v0 l0 a0 g w' g' : N * k <= N' * k' ->
  run_carma chol M mk npar label N' burnin y nw k' init v0 l0 a0 g = Ok (w', g') ->
  exists w g1, run_carma chol M mk npar label N burnin y nw k init v0 l0 a0 g = Ok (w, g1) /\ same_chain N k N' k' w w' /\ (N * k = N' * k' -> g1 = g').
Proof.
  intros Hle E. unfold run_carma in *. apply bind_Ok in E. destruct E as (ws & Ew & E). rewrite Ew. cbn [bind]. cbv zeta in *.
  apply bind_Ok in E. destruct E as (w0 & Ew0 & E). rewrite Ew0. cbn [bind]. apply bind_Ok in E. destruct E as (r & Er & E). rewrite Er. cbn [bind].
  apply bind_Ok in E. destruct E as ([ss t] & Est & E).
  destruct (@AddSteps_sim _ _ _ _ _ _ _ _ _ _ (hot_sims (nw - 1) r _ (mkExch A (Z.of_nat (burnin + k * N)) 0 0 a0)) (simsl_refl []) Est) as (ss' & Est' & Hss).
  match goal with |- context [AddSteps ?a ?b ?c] => replace (AddSteps a b c) with (Ok (ss', t)) by (symmetry; exact Est') end. cbn [bind]. apply bind_Ok in E. destruct E as ([ss1 t1] & Es & E).
  destruct (@AddSteps_sim _ _ _ _ _ _ _ _ _ _ (simsl_refl [SRam 0 r]) Hss Es) as (ss1' & Es' & Hss1). rewrite Es'. cbn [bind].
  eapply Run_same with (6 := E); try reflexivity; [exact Hss1| |exact Hle].
  cbn [AddSteps AddStep step_par] in Es. destruct ws as [|w1 ws']; [discriminate|]. cbn in Ew0. injection Ew0 as ->.
  cbn [upd vgetU nth_error bind SetTracking w_track w_label] in Es. injection Es as _ <-. clear.
  unfold tracks. induction t as [|[l i] t IH]; cbn; [left; reflexivity|]. destruct (String.eqb l (w_label w0)); cbn; [left; reflexivity|right; exact IH].
Qed.
Lemma RunCarma_thin fuel N k N' k' burnin t y e p q nw z init raw v0 l0 a0 g w' g' : N * k <= N' * k' ->
  RunCarmaSampler (R := R) dsort solve si chol fuel N' burnin t y e p q nw z k' init raw v0 l0 a0 g = Ok (w', g') ->
  exists w g1, RunCarmaSampler (R := R) dsort solve si chol fuel N burnin t y e p q nw z k init raw v0 l0 a0 g = Ok (w, g1) /\
    same_chain N k N' k' w w' /\ (N * k = N' * k' -> g1 = g').
Proof.
  intros Hle. unfold RunCarmaSampler. destruct (p <? 2); [discriminate|]. destruct z; [|destruct (q =? 0)]; intros E; eapply run_carma_thin; eassumption.
Qed.
Lemma RunCar1_thin N k N' k' burnin t y e init raw v0 l0 a0 g w' g' : N * k <= N' * k' ->
  RunCar1Sampler (R := R) vsort si chol N' burnin t y e k' init raw v0 l0 a0 g = Ok (w', g') ->
  exists w g1, RunCar1Sampler (R := R) vsort si chol N burnin t y e k init raw v0 l0 a0 g = Ok (w, g1) /\
    same_chain N k N' k' w w' /\ (N * k = N' * k' -> g1 = g').
Proof.
  intros Hle E. unfold RunCar1Sampler in *. apply bind_Ok in E. destruct E as (b & Eb & E). rewrite Eb. cbn [bind].
  apply bind_Ok in E. destruct E as (b1 & Eb1 & E). rewrite Eb1. cbn [bind]. cbv zeta in *.
  apply bind_Ok in E. destruct E as (r & Er & E). rewrite Er. cbn [bind]. apply bind_Ok in E. destruct E as ([ss tr] & Es & E). rewrite Es. cbn [bind].
  eapply (Run_same) with (6 := E); try reflexivity; [apply simsl_refl| |exact Hle]. cbn in Es. injection Es as _ <-. left; reflexivity.
Qed.
End Top.
