(** Which generator a run depends on (C48). *)
From Coq Require Import List Arith ZArith Bool String Lia.
From Verif Require Import Arith Res ListLemmas KFModel Cx KFpModel KFpProof CarpackModel LogLikProof.
From Verif Require Import EngineModel StartModel EngineSpec EngineProof EngineInv EngineClass EngineDriver EngineTop TotalProof TotalClass TotalTop.
Import ListNotations.

Set Implicit Arguments.
Unset Strict Implicit.

Section Seed.
Variable A : Arith.
Local Notation F := (F A).
Local Notation vec := (list F).
Variable R : rng A.
Local Notation gen := (gen R).

(** the outcome of a computation with Armadillo's generator hidden *)
Definition seen {T} (r : res (T * gen)) : res (T * Gb R) := '(x, g) <- r ;; Ok (x, fst g).
Lemma seen_bind T U (r r' : res (T * gen)) (k k' : T * gen -> res (U * gen)) : seen r = seen r' ->
  (forall x g g', fst g = fst g' -> r = Ok (x, g) -> seen (k (x, g)) = seen (k' (x, g'))) -> seen (bind r k) = seen (bind r' k').
Proof.
  intros H K. destruct r as [[x g]|e| |], r' as [[x' g']|e'| |]; cbn in H; try discriminate; try reflexivity.
  - injection H as <- Hg. cbn [bind]. apply K; [exact Hg|reflexivity].
  - injection H as <-. reflexivity.
Qed.
Lemma seen_pure T U (r : res T) (k k' : T -> res (U * gen)) : (forall x, r = Ok x -> seen (k x) = seen (k' x)) -> seen (bind r k) = seen (bind r k').
Proof. intros K. destruct r; try reflexivity. cbn [bind]. apply K. reflexivity. Qed.
Lemma on_b_seen T (f : Gb R -> T * Gb R) g g' : fst g = fst g' -> fst (on_b f g) = fst (on_b f g') /\ fst (snd (on_b f g)) = fst (snd (on_b f g')).
Proof. intros E. unfold on_b. rewrite E. destruct (f (fst g')). split; reflexivity. Qed.
(** a draw that uses the boost generator only *)
Definition boost {T} (d : gen -> T * gen) : Prop := forall g g', fst g = fst g' -> exists x h h', d g = (x, h) /\ d g' = (x, h') /\ fst h = fst h'.
Lemma boost_on_b T (f : Gb R -> T * Gb R) : boost (on_b f).
Proof. intros g g' E. unfold on_b. rewrite E. destruct (f (fst g')) as [x b]. exists x, (b, snd g), (b, snd g'). repeat split. Qed.
Lemma boost_draws n d : boost d -> boost (draws (R := R) n d).
Proof.
  intros Hd. induction n as [|n IH]; intros g g' E; cbn [draws]; [exists [], g, g'; repeat split; exact E|].
  destruct (Hd _ _ E) as (x & h & h' & -> & -> & Eh). destruct (IH _ _ Eh) as (l & k & k' & -> & -> & Ek). exists (x :: l), k, k'. repeat split. exact Ek.
Qed.
Lemma boost_student x : boost (student_draw (R := R) x).
Proof. intros g g' E. unfold student_draw, tdist. destruct (boost_on_b (b_student R (fofZ A 8)) E) as (z & h & h' & -> & -> & Eh). eexists _, h, h'. repeat split. exact Eh. Qed.

Section Par.
Variable X : Type.
Variable P : methodsP R X vec.
Variable draw : F -> gen -> F * gen.
Hypothesis Hdraw : forall x, boost (draw x).
Local Notation param := (param A X vec).

Lemma ram_accept_seen r (w : param) new g g' : fst g = fst g' -> seen (ram_accept P r w new g) = seen (ram_accept P r w new g').
Proof.
  intros E. unfold ram_accept. apply seen_pure. intros [l w1] _. destruct (negb _); [cbn; rewrite E; reflexivity|].
  destruct (boost_on_b (b_uniform R (fofZ A 0) (fofZ A 1)) E) as (u & h & h' & E1 & E2 & Eh). unfold runiform. rewrite E1, E2.
  destruct (flt A u _); cbn; rewrite Eh; reflexivity.
Qed.
Lemma ram_step_seen r (w : param) g g' : fst g = fst g' -> seen (ram_step P draw r w g) = seen (ram_step P draw r w g').
Proof using Hdraw.
  intros E. unfold ram_step. destruct (boost_draws (List.length (w_value w)) (Hdraw (fofZ A 0)) E) as (u & h & h' & -> & -> & Eh).
  apply seen_pure. intros sc _. apply seen_pure. intros new _. apply seen_bind; [apply ram_accept_seen, Eh|].
  intros [[a r1] w1] k k' Ek _. apply seen_pure. intros w2 _. apply seen_pure. intros r2 _. cbn. rewrite Ek. reflexivity.
Qed.
Lemma exch_step_seen e (w o : param) g g' : fst g = fst g' -> seen (exch_step P e w o g) = seen (exch_step P e w o g').
Proof.
  intros E. unfold exch_step. destruct (boost_on_b (b_uniform R (fofZ A 0) (fofZ A 1)) E) as (u & h & h' & E1 & E2 & Eh). unfold runiform. rewrite E1, E2.
  apply seen_pure. intros [[w' o'] na] _. cbn. rewrite Eh. reflexivity.
Qed.
Lemma do_step_seen s (ws : list param) g g' : fst g = fst g' -> seen (do_step P draw s ws g) = seen (do_step P draw s ws g').
Proof using Hdraw.
  intros E. destruct s as [i r|[|j] e]; cbn [do_step]; [|reflexivity|].
  - apply seen_pure. intros w _. apply seen_bind; [apply ram_step_seen, E|]. intros [r' w'] k k' Ek _. cbn. rewrite Ek. reflexivity.
  - apply seen_pure. intros w _. apply seen_pure. intros o _. apply seen_bind; [apply exch_step_seen, E|]. intros [[e' w'] o'] k k' Ek _. cbn. rewrite Ek. reflexivity.
Qed.
Lemma sweep_steps_seen ss : forall (ws : list param) g g', fst g = fst g' -> seen (sweep_steps P draw ss ws g) = seen (sweep_steps P draw ss ws g').
Proof using Hdraw.
  induction ss as [|s ss IH]; intros ws g g' E; cbn [sweep_steps]; [cbn; rewrite E; reflexivity|].
  apply seen_bind; [apply do_step_seen, E|]. intros [s' ws1] k k' Ek _. apply seen_bind; [apply IH, Ek|]. intros [r' ws2] m m' Em _. cbn. rewrite Em. reflexivity.
Qed.
Definition hide (y : sys R X) : list param * list (step A) * Gb R := (y_pars y, y_steps y, fst (y_gen y)).
Definition hidden (r : res (sys R X)) := y <- r ;; Ok (hide y).
Lemma hidden_bind (r r' : res (sys R X)) k k' : hidden r = hidden r' -> (forall y y', hide y = hide y' -> hidden (k y) = hidden (k' y')) ->
  hidden (bind r k) = hidden (bind r' k').
Proof.
  intros H K. destruct r as [y|e| |], r' as [y'|e'| |]; cbn [hidden bind] in H; try discriminate; try reflexivity.
  - cbn [bind]. apply K. injection H. unfold hide. congruence.
  - injection H as <-. reflexivity.
Qed.
Lemma sweep_hidden y y' : hide y = hide y' -> hidden (sweep P draw y) = hidden (sweep P draw y').
Proof using Hdraw.
  destruct y as [ws ss g], y' as [ws' ss' g']. unfold hide. cbn. intros E. injection E as <- <- E. unfold sweep. cbn [y_steps y_pars y_gen].
  pose proof (sweep_steps_seen ss ws E) as H. destruct (sweep_steps P draw ss ws g) as [[[s1 w1] g1]|e| |], (sweep_steps P draw ss ws g') as [[[s2 w2] g2]|e'| |];
    cbn in H; try discriminate; try reflexivity.
  - injection H as <- <- Hg. cbn. unfold hide. cbn. rewrite Hg. reflexivity.
  - injection H as <-. reflexivity.
Qed.
Lemma Iterate_hidden n : forall y y', hide y = hide y' -> hidden (Iterate P draw n y) = hidden (Iterate P draw n y').
Proof using Hdraw.
  induction n as [|n IH]; intros y y' E; cbn [Iterate]; [cbn; rewrite E; reflexivity|]. apply hidden_bind; [apply sweep_hidden, E|exact IH].
Qed.
Lemma SaveValues_hidden t c y y' : hide y = hide y' -> hidden (SaveValues t c y) = hidden (SaveValues t c y').
Proof.
  destruct y as [ws ss g], y' as [ws' ss' g']. unfold hide. cbn. intros E. injection E as <- <- E. unfold SaveValues. cbn [y_steps y_pars y_gen].
  destruct (on_tracked t _ ws); cbn; unfold hide; cbn; [rewrite E|..]; reflexivity.
Qed.
Lemma sample_loop_hidden n thin t : forall c y y', hide y = hide y' -> hidden (sample_loop P draw n c thin t y) = hidden (sample_loop P draw n c thin t y').
Proof using Hdraw.
  induction n as [|n IH]; intros c y y' E; cbn [sample_loop]; [cbn; rewrite E; reflexivity|].
  apply hidden_bind; [apply Iterate_hidden, E|]. intros y1 y1' E1. apply hidden_bind; [apply SaveValues_hidden, E1|]. intros y2 y2' E2. apply IH, E2.
Qed.

(** the methods of the parameter that draw: on objects with property [ok] *)
Variable ok : X -> Prop.
Variable init : vec.
Variable use : bool.
Hypothesis Kld : forall x v l x', ok x -> o_LogDensity P x v = Ok (l, x') -> ok x'.
Hypothesis Kst : forall x g v x' g', ok x -> (if use then o_SetStart P x init g else o_Start P x g) = Ok (v, x', g') -> ok x'.
Hypothesis Sst : forall x g g', ok x -> fst g = fst g' ->
  seen (if use then o_SetStart P x init g else o_Start P x g) = seen (if use then o_SetStart P x init g' else o_Start P x g').
Lemma start_loop_seen ss : forall (ws : list param) g g', fst g = fst g' -> Forall (fun w => ok (w_obj w)) ws ->
  seen (start_loop P ss use init ws g) = seen (start_loop P ss use init ws g').
Proof using Kld Kst Sst.
  induction ss as [|s ss IH]; intros ws g g' E Hok; cbn [start_loop]; [cbn; rewrite E; reflexivity|].
  apply seen_pure. intros w Ew. apply vgetU_nth in Ew. pose proof (proj1 (Forall_nth_error _ _) Hok _ _ Ew) as Hw. cbv beta in Hw.
  apply seen_bind; [apply Sst; assumption|]. intros [v x] k k' Ek Es. apply seen_pure. intros w' Es2. apply IH; [exact Ek|].
  apply Forall_upd; [exact Hok|]. unfold Save in Es2. apply bind_Ok in Es2. destruct Es2 as ([l x2] & El & Q). injection Q as <-. cbn [w_obj].
  cbn [set_obj w_obj] in El. exact (Kld (Kst Hw Es) El).
Qed.
Lemma Run_hidden N burnin thin t ws ss g g' : fst g = fst g' -> Forall (fun w => ok (w_obj w)) ws ->
  (forall s0 w0, nth_error ss 0 = Some s0 -> nth_error ws (step_par s0) = Some w0 -> use = (List.length init =? List.length (w_value w0))) ->
  hidden (Run P draw N burnin thin t init (mkSys ws ss g)) = hidden (Run P draw N burnin thin t init (mkSys ws ss g')).
Proof using Kld Kst Sst Hdraw.
  intros E Hok Hu. unfold Run. cbn [y_pars y_steps y_gen].
  destruct (on_tracked t _ ws) as [ws1| | |] eqn:E1; try reflexivity. cbn [bind].
  destruct (vgetU ss 0) as [s0| | |] eqn:E0; try reflexivity. cbn [bind]. destruct (vgetU ws1 (step_par s0)) as [w0| | |] eqn:Ew; try reflexivity. cbn [bind].
  destruct (on_tracked_rec _ _ _ (fun w w' => @SetSampleSize_rec A X N w w') E1) as (rs & Hl & ->).
  rewrite zip_vget in Ew by exact Hl. destruct (vgetU ws (step_par s0)) as [w1| | |] eqn:Ew1; try discriminate. injection Ew as <-.
  apply vgetU_nth in E0. apply vgetU_nth in Ew1. specialize (Hu _ _ E0 Ew1). cbn [with_rec w_value]. rewrite <- Hu.
  assert (Forall (fun w => ok (w_obj w)) (zip ws rs)) as Hok1.
  { clear - Hok Hl. revert rs Hl. unfold zip. induction Hok as [|w ws Hw _ IH]; intros [|r rs] Hl; try discriminate; cbn; constructor; [exact Hw|]. apply IH. cbn in Hl. lia. }
  pose proof (start_loop_seen ss E Hok1) as H.
  destruct (start_loop P ss use init (zip ws rs) g) as [[w2 g2]|e| |], (start_loop P ss use init (zip ws rs) g') as [[w3 g3]|e'| |]; cbn in H; try discriminate; try reflexivity.
  - injection H as <- Hg. cbn [bind]. apply hidden_bind; [apply Iterate_hidden; unfold hide; cbn; rewrite Hg; reflexivity|]. intros y y' Ey. apply sample_loop_hidden, Ey.
  - injection H as <-. reflexivity.
Qed.
End Par.

Variables vsort dsort : vec -> option vec.
Variable solve : list (list (cx A)) -> list (cx A) -> option (list (cx A)).
Variable si : vec -> option (list nat).
Variable chol : mat A -> option (mat A).

Lemma Start1_seen b g g' : fst g = fst g' -> seen (Start1 (R := R) vsort b g) = seen (Start1 vsort b g').
Proof.
  intros E. unfold Start1. apply seen_pure. intros v _. unfold scaled_inverse_chisqr, rnorm, runiform, draw_scale, scaled_inverse_chisqr.
  destruct (boost_on_b (b_chisqr R (dofs A (b_y b))) E) as (c & h & h' & -> & -> & Eh). cbv zeta.
  match goal with |- context [b_normal R ?a ?s] => destruct (boost_on_b (b_normal R a s) Eh) as (mu & k & k' & -> & -> & Ek) end.
  apply seen_pure. intros dt _. apply seen_pure. intros med _.
  destruct (boost_on_b (b_uniform R (fofZ A 1) (fofZ A 50)) Ek) as (u & m & m' & -> & -> & Em).
  destruct (boost_on_b (b_chisqr R 50) Em) as (c2 & n & n' & -> & -> & En).
  apply seen_pure. intros b' _. cbn. rewrite En. reflexivity.
Qed.
Lemma SetStart1_seen b init g g' : fst g = fst g' -> seen (SetStart1 (R := R) vsort b init g) = seen (SetStart1 vsort b init g').
Proof.
  intros E. unfold SetStart1. destruct (negb _); [apply Start1_seen, E|]. apply seen_pure. intros [lp b1] _. destruct (negb _); [apply Start1_seen, E|].
  do 4 (apply seen_pure; intros ? _). cbv zeta. apply seen_pure. intros b2 _. cbn. rewrite E. reflexivity.
Qed.
(** the outcome of a CAR(1) run depends on the boost generator only *)
Theorem car1_boost N burnin t y e thin init raw v0 l0 a0 (g g' : gen) : fst g = fst g' ->
  seen (RunCar1Sampler (R := R) vsort si chol N burnin t y e thin init raw v0 l0 a0 g) =
  seen (RunCar1Sampler (R := R) vsort si chol N burnin t y e thin init raw v0 l0 a0 g').
Proof.
  intros Egg. unfold RunCar1Sampler. apply seen_pure. intros b _. apply seen_pure. intros b1 _. cbv zeta. apply seen_pure. intros r _. apply seen_pure. intros [ss tr] Es.
  cbn in Es. injection Es as <- <-. set (w := new_param b1 v0 l0 (fofZ A 1) true "CAR(1)").
  assert (hidden (Run (par1 R vsort) (@student_draw A R) N burnin thin [("CAR(1)"%string, 0)] init (mkSys [w] [SRam 0 r] g)) =
          hidden (Run (par1 R vsort) (@student_draw A R) N burnin thin [("CAR(1)"%string, 0)] init (mkSys [w] [SRam 0 r] g'))) as H.
  { apply (@Run_hidden _ (par1 R vsort) (@student_draw A R) boost_student (fun _ => True) init (List.length init =? List.length v0)).
    - intros; exact I. - intros; exact I.
    - intros x h h' _ E. cbn [o_Start o_SetStart par1]. destruct (_ =? _); [apply SetStart1_seen, E|apply Start1_seen, E].
    - exact Egg. - constructor; [exact I|constructor]. - intros s0 w0 H0 H1. cbn in H0. injection H0 as <-. cbn in H1. injection H1 as <-. reflexivity. }
  destruct (Run _ _ _ _ _ _ _ (mkSys _ _ g)) as [s|ex| |], (Run _ _ _ _ _ _ _ (mkSys _ _ g')) as [s'|ex'| |]; cbn in H; try discriminate; try reflexivity.
  - injection H as H1 H2 H3. cbn [bind]. rewrite H1. apply seen_pure. intros w' _. cbn. rewrite H3. reflexivity.
  - injection H as <-. reflexivity.
Qed.
(** C48 for CAR(1): after SetSeed the outcome does not depend on anything drawn before *)
Theorem car1_seeded N burnin t y e thin init raw v0 l0 a0 seed g g' :
  seen (RunCar1Sampler (R := R) vsort si chol N burnin t y e thin init raw v0 l0 a0 (SetSeed seed g)) =
  seen (RunCar1Sampler (R := R) vsort si chol N burnin t y e thin init raw v0 l0 a0 (SetSeed seed g')).
Proof. apply car1_boost. reflexivity. Qed.
(** so does that of the other models, from a given starting value with finite log density *)
Theorem carma_boost fuel N burnin t y e p q nw z thin init raw v0 l0 a0 (g g' : gen) b b1 lp b2 :
  ffin A (fneg A (finf A)) = false ->
  List.length y = List.length t -> List.length e = List.length t -> all_kept si t ->
  walker_new si raw p z t y e = Ok b -> SetPrior b (fmul A (fofZ A 10) (fsqrt A (pop_var A y))) = Ok b1 ->
  List.length init = walker_dim p q z -> List.length v0 = walker_dim p q z ->
  LogDensity (walker_cls solve p q z) b1 init = Ok (lp, b2) -> ffin A lp = true -> fst g = fst g' ->
  seen (RunCarmaSampler (R := R) dsort solve si chol fuel N burnin t y e p q nw z thin init raw v0 l0 a0 g) =
  seen (RunCarmaSampler (R := R) dsort solve si chol fuel N burnin t y e p q nw z thin init raw v0 l0 a0 g').
Proof.
  intros Hni Hy He Hk Eb Eb1 Hi Hv0 EL Hf Egg. destruct (Nat.lt_ge_cases p 2) as [Hp|Hp].
  { unfold RunCarmaSampler. destruct (Nat.ltb_spec p 2); [reflexivity|lia]. }
  assert (exists label, forall g, RunCarmaSampler (R := R) dsort solve si chol fuel N burnin t y e p q nw z thin init raw v0 l0 a0 g =
    run_carma chol (walker_par R dsort solve fuel p q z) (walker_new si raw p z t y e) (walker_dim p q z) label N burnin y nw thin init v0 l0 a0 g) as [label HE].
  { unfold RunCarmaSampler, walker_par, walker_new, walker_dim. destruct (Nat.ltb_spec p 2) as [|_]; [lia|].
    destruct z; [|destruct (q =? 0)]; eexists; intros; reflexivity. }
  rewrite !HE. unfold run_carma. apply seen_pure. intros ws Ew. cbv zeta. apply seen_pure. intros w0 Ew0. apply seen_pure. intros r _. apply seen_pure. intros st0 _.
  apply seen_pure. intros [ss tr] _. set (st := static_of b1). set (ws1 := upd ws 0 (SetTracking w0 true)).
  destruct (EngineDriver.SetPrior_ok (walker_new_kept Hy He Hk Eb) Eb1) as (Hwf & _). assert (okb st b1) as Hb1 by (split; [exact Hwf|reflexivity]).
  assert (Forall (fun w => w_obj w = b1 /\ w_value w = v0) ws1) as Hws.
  { apply vgetU_nth in Ew0. destruct (mk_walkers_inv Ew) as [[_ ->]|(b' & b1' & Q1 & Q2 & ->)]; [discriminate|].
    assert (b' = b) as -> by congruence. assert (b1' = b1) as -> by congruence.
    assert (Forall (fun w => w_obj w = b1 /\ w_value w = v0) (map (fun T => new_param b1 v0 l0 T false label) (temp_ladder A nw))) as H.
    { apply Forall_forall. intros w Hw. apply in_map_iff in Hw. destruct Hw as (T & <- & _). split; reflexivity. }
    apply Forall_upd; [exact H|]. exact (proj1 (Forall_nth_error _ _) H _ _ Ew0). }
  rewrite walker_cls_eq in EL. pose proof (proj1 (LDp_ok Hb1 EL)) as Hpl.
  assert (hidden (Run (walker_par R dsort solve fuel p q z) (@student_draw A R) N burnin thin tr init (mkSys ws1 ss g)) =
          hidden (Run (walker_par R dsort solve fuel p q z) (@student_draw A R) N burnin thin tr init (mkSys ws1 ss g'))) as H.
  { apply (@Run_hidden _ (walker_par R dsort solve fuel p q z) (@student_draw A R) boost_student (okb st) init true).
    - intros x v l x' Hx E. exact (proj2 (w_ld Hx E)).
    - intros x h v x' h' Hx E. exact (proj1 (w_set Hx E)).
    - intros x h h' Hx E. rewrite walker_par_eq. cbn [o_SetStart parp].
      destruct (@LD_purep A solve p (walker_ma p q z) (LogPrior A) x init (proj1 Hx)) as [Hpu _]. rewrite (proj2 Hx) in Hpu.
      pose proof (eq_trans Hpu Hpl) as Q. destruct (LogDensity (pcls solve p (walker_ma p q z) (LogPrior A)) x init) as [[lp' x']| | |] eqn:ELx; try discriminate.
      cbn in Q. injection Q as ->.
      unfold set_start. rewrite Hi, Nat.eqb_refl. cbn [negb]. rewrite ELx. cbn [bind]. rewrite Hf. cbn [negb].
      do 5 (apply seen_pure; intros ? _). cbv zeta. apply seen_pure. intros b3 _. cbn. rewrite E. reflexivity.
    - exact Egg.
    - eapply Forall_impl; [|exact Hws]. intros w [-> _]. exact Hb1.
    - intros s0 w1 _ Hw1. destruct (proj1 (Forall_nth_error _ _) Hws _ _ Hw1) as [_ ->]. rewrite Hi, Hv0, Nat.eqb_refl. reflexivity. }
  destruct (Run _ _ _ _ _ _ _ (mkSys _ _ g)) as [s|ex| |], (Run _ _ _ _ _ _ _ (mkSys _ _ g')) as [s'|ex'| |]; cbn in H; try discriminate; try reflexivity.
  - injection H as H1 H2 H3. cbn [bind]. rewrite H1. apply seen_pure. intros w' _. cbn. rewrite H3. reflexivity.
  - injection H as <-. reflexivity.
Qed.
(** C48 for the other models *)
Theorem carma_seeded fuel N burnin t y e p q nw z thin init raw v0 l0 a0 seed g g' b b1 lp b2 :
  ffin A (fneg A (finf A)) = false ->
  List.length y = List.length t -> List.length e = List.length t -> all_kept si t ->
  walker_new si raw p z t y e = Ok b -> SetPrior b (fmul A (fofZ A 10) (fsqrt A (pop_var A y))) = Ok b1 ->
  List.length init = walker_dim p q z -> List.length v0 = walker_dim p q z ->
  LogDensity (walker_cls solve p q z) b1 init = Ok (lp, b2) -> ffin A lp = true ->
  seen (RunCarmaSampler (R := R) dsort solve si chol fuel N burnin t y e p q nw z thin init raw v0 l0 a0 (SetSeed seed g)) =
  seen (RunCarmaSampler (R := R) dsort solve si chol fuel N burnin t y e p q nw z thin init raw v0 l0 a0 (SetSeed seed g')).
Proof. intros Hni Hy He Hk Eb Eb1 Hi Hv0 EL Hf. eapply carma_boost; [exact Hni|exact Hy|exact He|exact Hk|exact Eb|exact Eb1|exact Hi|exact Hv0|exact EL|exact Hf|reflexivity]. Qed.
End Seed.
