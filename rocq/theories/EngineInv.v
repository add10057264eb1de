(** Invariants of runs: log-posteriors belong to values, finiteness, adaptation stops, no invalid access. *)
From Coq Require Import List Arith ZArith Bool String Lia.
From Verif Require Import Arith Res ListLemmas History EngineModel EngineSpec EngineProof.
Import ListNotations.

Set Implicit Arguments.
Unset Strict Implicit.

Section Inv.
Variable A : Arith.
Variable R : rng A.
Variable X : Type.
Local Notation F := (F A).
Local Notation vec := (list F).
Variable P : methodsP R X vec.
Variable draw : F -> gen R -> F * gen R.
Local Notation param := (param A X vec).
Local Notation sys := (sys R X).
Local Notation "x ⊖ y" := (fsub A x y) (at level 50, left associativity).
Local Notation "x ⊘ y" := (fdiv A x y) (at level 40, left associativity).

(** ** The invariant *)
Variable ok : X -> Prop.
Variable pld : vec -> res F.
Hypothesis Hld : forall x v l x', ok x -> o_LogDensity P x v = Ok (l, x') -> pld v = Ok l /\ ok x'.
Hypothesis Hstart : forall x g v x' g', ok x -> o_Start P x g = Ok (v, x', g') -> ok x'.
Hypothesis Hset : forall x i g v x' g', ok x -> o_SetStart P x i g = Ok (v, x', g') -> ok x'.

Definition okw (w : param) : Prop := ok (w_obj w).
Definition inv (w : param) : Prop := ok (w_obj w) /\ pld (w_value w) = Ok (w_logpost w).

Lemma LD_inv w v l w' : ok (w_obj w) -> LD P w v = Ok (l, w') ->
  pld v = Ok l /\ exists x', w' = set_obj w x' /\ ok x'.
Proof.
  intros Ho E. unfold LD in E. apply bind_Ok in E. destruct E as ([l0 x] & E & Q). injection Q as <- <-.
  destruct (Hld Ho E) as [H1 H2]. split; [exact H1|]. exists x. split; [reflexivity|exact H2].
Qed.
Lemma Save_inv w v w' : ok (w_obj w) -> Save P w v = Ok w' -> inv w' /\ w_value w' = v /\ w_temp w' = w_temp w.
Proof.
  intros Ho E. unfold Save in E. apply bind_Ok in E. destruct E as ([l0 x] & E & Q). injection Q as <-.
  destruct (Hld Ho E) as [H1 H2]. split; [split; [exact H2|exact H1]|split; reflexivity].
Qed.
Lemma ram_accept_spec r w new g a r' w' g' : ok (w_obj w) -> ram_accept P r w new g = Ok (a, r', w', g') ->
  exists l x', pld new = Ok l /\ w' = set_obj w x' /\ ok x' /\
    (a = true -> ffin A ((l ⊖ w_logpost w) ⊘ w_temp w) = true).
Proof.
  intros Ho E. unfold ram_accept in E. apply bind_Ok in E. destruct E as ([l w1] & E1 & E).
  destruct (LD_inv Ho E1) as (Hl & x & -> & Hx). exists l, x. split; [exact Hl|]. cbn [w_logpost w_temp set_obj] in E.
  destruct (ffin A ((l ⊖ w_logpost w) ⊘ w_temp w)) eqn:Ef; cbn [negb] in E.
  - destruct (runiform _ _ g) as [u g1]. destruct (flt A u _); injection E as <- <- <- <-; (split; [reflexivity|split; [exact Hx|]]); intros; reflexivity.
  - injection E as <- <- <- <-. split; [reflexivity|split; [exact Hx|]]. discriminate.
Qed.
Lemma ram_step_inv r w g r' w' g' : inv w -> ram_step P draw r w g = Ok (r', w', g') ->
  inv w' /\ w_temp w' = w_temp w /\
  ((w_value w' = w_value w /\ w_logpost w' = w_logpost w) \/
   ffin A ((w_logpost w' ⊖ w_logpost w) ⊘ w_temp w) = true).
Proof.
  intros [Ho Hv] E. unfold ram_step in E. destruct (draws _ _ g) as [u g1].
  apply bind_Ok in E. destruct E as (sc & _ & E). apply bind_Ok in E. destruct E as (new & _ & E).
  apply bind_Ok in E. destruct E as ([[[a r1] w1] g2] & Ea & E). apply bind_Ok in E. destruct E as (w2 & Es & E).
  apply bind_Ok in E. destruct E as (r2 & _ & E). injection E as <- <- <-.
  destruct (ram_accept_spec Ho Ea) as (l & x & Hl & -> & Hx & Hf). destruct a.
  - destruct (Save_inv (w := set_obj w x) Hx Es) as ([H1 H2] & H3 & H4). split; [split; assumption|]. split; [exact H4|]. right.
    rewrite H3 in H2. assert (l = w_logpost w2) as <- by congruence. apply Hf. reflexivity.
  - injection Es as <-. split; [split; assumption|]. split; [reflexivity|]. left. split; reflexivity.
Qed.
Lemma exch_step_spec e w o g e' w' o' g' : exch_step P e w o g = Ok (e', w', o', g') ->
  (w' = w /\ o' = o) \/
  exists x, o_LogDensity P (w_obj w) (w_value o) = Ok x /\
  w' = mkW A (snd x) (w_value o) (w_logpost o) (w_temp w) (w_track w) (w_label w) (w_samples w) (w_logposts w) /\
  o' = mkW A (w_obj o) (w_value w) (w_logpost w) (w_temp o) (w_track o) (w_label o) (w_samples o) (w_logposts o).
Proof.
  unfold exch_step. destruct (runiform _ _ g) as [u g1]. destruct (flt A u _).
  - intros E. apply bind_Ok in E. destruct E as ([[w1 o1] n] & E1 & E). injection E as _ <- <- _.
    apply bind_Ok in E1. destruct E1 as (w2 & Ew & E1). apply bind_Ok in E1. destruct E1 as (o2 & Eo & E1). injection E1 as <- <- _.
    unfold Save in Ew. apply bind_Ok in Ew. destruct Ew as ([l x] & Ew & Q). injection Q as <-.
    unfold SaveDerived in Eo. apply bind_Ok in Eo. destruct Eo as (l' & Eo & Q). injection Q as <-.
    right. exists (l, x). split; [exact Ew|split; reflexivity].
  - cbn [bind]. intros E. injection E as _ <- <- _. left. split; reflexivity.
Qed.
Lemma exch_step_inv e w o g e' w' o' g' : inv w -> inv o -> exch_step P e w o g = Ok (e', w', o', g') ->
  inv w' /\ inv o'.
Proof.
  intros [Hw1 Hw2] [Ho1 Ho2] E. destruct (exch_step_spec E) as [[-> ->]|([l x] & EL & -> & ->)]; [split; split; assumption|].
  destruct (Hld Hw1 EL) as [_ Hx]. split; split; assumption.
Qed.
Lemma do_step_inv s ws g s' ws' g' : Forall inv ws -> do_step P draw s ws g = Ok (s', ws', g') -> Forall inv ws'.
Proof.
  intros H E. pose proof (proj1 (Forall_nth_error _ _) H) as Hn. destruct s as [i r|[|j] e]; cbn [do_step] in E; [|discriminate|].
  - apply bind_Ok in E. destruct E as (w & Ew & E). apply bind_Ok in E. destruct E as ([[r' w'] g1] & E1 & E). injection E as _ <- _.
    apply vgetU_nth in Ew. apply Forall_upd; [exact H|]. apply (ram_step_inv (Hn _ _ Ew) E1).
  - apply bind_Ok in E. destruct E as (w & Ew & E). apply bind_Ok in E. destruct E as (o & Eo & E).
    apply bind_Ok in E. destruct E as ([[[e' w'] o'] g1] & E1 & E). injection E as _ <- _. apply vgetU_nth in Ew. apply vgetU_nth in Eo.
    destruct (exch_step_inv (Hn _ _ Ew) (Hn _ _ Eo) E1) as [H1 H2]. apply Forall_upd; [apply Forall_upd; [exact H|exact H1]|exact H2].
Qed.
Lemma in_order_inv' ss ws g ss' ws' g' : in_order P draw ss ws g ss' ws' g' -> Forall inv ws -> Forall inv ws'.
Proof. intros H. induction H as [|s ss ws g s' ws1 g1 ss' ws2 g2 E _ IH]; intros H0; [exact H0|]. apply IH. exact (do_step_inv H0 E). Qed.
Lemma sweeps_inv n y y' : sweeps P draw n y y' -> Forall inv (y_pars y) -> Forall inv (y_pars y').
Proof. intros H. induction H as [|n y y1 y2 _ IH H]; intros H0; [exact H0|]. eapply in_order_inv'; [exact H|apply IH, H0]. Qed.

(** starting values establish the invariant for every parameter that has a step *)
Lemma started_inv use init ss ws g ws' g' : started P use init ss ws g ws' g' -> Forall okw ws ->
  Forall okw ws' /\ (forall i w, nth_error ws' i = Some w -> In i (map (@step_par A) ss) -> inv w) /\
  (forall i w, nth_error ws' i = Some w -> ~ In i (map (@step_par A) ss) -> nth_error ws i = Some w).
Proof.
  intros H. induction H as [ws g|s ss ws g w w' ws1 g1 ws2 g2 Hn Hj _ _ _ _ _ -> _ IH]; intros H0.
  - split; [exact H0|]. split; [intros i w _ []|intros; assumption].
  - rewrite <- (upd_split _ _ _ Hn) in IH.
    pose proof (proj1 (Forall_nth_error _ _) H0 _ _ Hn) as Hok.
    assert (inv w') as Hi.
    { destruct Hj as (x & Hs & EL). assert (ok x) as Hx by (destruct use; [eapply Hset|eapply Hstart]; eassumption).
      destruct (Hld Hx EL) as [H1 H2]. split; assumption. }
    specialize (IH (@Forall_upd _ okw _ (step_par s) _ H0 (proj1 Hi))). destruct IH as (I1 & I2 & I3).
    split; [exact I1|]. split.
    + intros i wi Hwi Hin. cbn [map In] in Hin. destruct (in_dec Nat.eq_dec i (map (@step_par A) ss)) as [H|H]; [apply (I2 _ _ Hwi H)|].
      destruct Hin as [<-|Hin]; [|contradiction]. pose proof (I3 _ _ Hwi H) as H2. rewrite nth_error_upd, Nat.eqb_refl, Hn in H2.
      injection H2 as <-. exact Hi.
    + intros i wi Hwi Hin. cbn [map In] in Hin. assert (~ In i (map (@step_par A) ss)) as H by tauto. pose proof (I3 _ _ Hwi H) as H2.
      rewrite nth_error_upd in H2. destruct (Nat.eqb_spec (step_par s) i) as [Eq|]; [exfalso; apply Hin; left; exact Eq|exact H2].
Qed.
(** every parameter has a step *)
Definition covered (ss : list (step A)) (n : nat) : Prop := forall i, i < n -> In i (map (@step_par A) ss).
Lemma started_all use init ss ws g ws' g' : started P use init ss ws g ws' g' -> Forall okw ws ->
  covered ss (List.length ws) -> Forall inv ws'.
Proof.
  intros H H0 Hc. destruct (started_inv H H0) as (_ & H1 & _). apply Forall_nth_error. intros i w Hw. apply (H1 _ _ Hw), Hc.
  destruct (started_len H) as [Hl _]. rewrite <- Hl. apply nth_error_Some. congruence.
Qed.

Lemma map_obj_ok ws1 ws : map (@w_obj A X vec) ws1 = map (@w_obj A X vec) ws -> Forall okw ws -> Forall okw ws1.
Proof.
  intros E H. apply Forall_nth_error. intros i w Hw.
  pose proof (f_equal (fun l => nth_error l i) E) as E'. cbn beta in E'. rewrite !nth_error_map, Hw in E'. cbn in E'.
  destruct (nth_error ws i) as [w2|] eqn:Hw2; [|discriminate]. cbn in E'. injection E' as E'. unfold okw. rewrite E'.
  exact (proj1 (Forall_nth_error _ _) H _ _ Hw2).
Qed.
Lemma map_len T U (f : T -> U) l1 l2 : map f l1 = map f l2 -> List.length l1 = List.length l2.
Proof. intros E. apply (f_equal (@List.length _)) in E. rewrite !map_length in E. exact E. Qed.

(** C33 in general *)
Lemma Run_inv N burnin thin t init (y y' : sys) : Run P draw N burnin thin t init y = Ok y' ->
  Forall okw (y_pars y) -> covered (y_steps y) (List.length (y_pars y)) ->
  exists y0, Forall inv (y_pars y0) /\ Forall inv (y_pars y') /\
    (forall k yk, sweeps P draw k y0 yk -> Forall inv (y_pars yk)) /\
  forall j w, tracks t j -> nth_error (y_pars y') j = Some w ->
      forall i v, nth_error (w_samples w) i = Some v -> exists l, nth_error (w_logposts w) i = Some l /\ pld v = Ok l.
Proof.
  intros E H0 Hc. destruct (@Run_records _ _ _ P draw _ _ _ _ _ _ _ E) as (y0 & (use & ws1 & Hs & Ho & _) & _ & (yn & Hn & Ha) & Hrec).
  assert (Forall okw ws1) as Hok by exact (map_obj_ok Ho H0).
  assert (List.length ws1 = List.length (y_pars y)) as Hlen by exact (map_len Ho).
  assert (Forall inv (y_pars y0)) as Hi0 by (apply (started_all Hs Hok); rewrite Hlen; exact Hc).
  exists y0. split; [exact Hi0|]. split; [|split; [intros k yk Hk; exact (sweeps_inv Hk Hi0)|]].
  - destruct Ha as (rs & Hl & ->). cbn [y_pars zips]. pose proof (sweeps_inv Hn Hi0) as Hi.
    apply Forall_nth_error. intros i w Hw. pose proof (zip_vget _ _ i Hl) as Hz. rewrite (vgetU_nth' _ _ Hw) in Hz. symmetry in Hz.
    apply bind_Ok in Hz. destruct Hz as (w0 & E0 & Q). injection Q as <-. apply vgetU_nth in E0.
    exact (proj1 (Forall_nth_error _ _) Hi _ _ E0).
  - intros j w Hj Hw i v Hv. destruct (Hrec j w Hj Hw) as (Hl1 & Hl2 & Hi).
    assert (i < N) as Hlt by (rewrite <- Hl1; apply nth_error_Some; congruence).
    destruct (Hi i Hlt) as (yi & wi & Hsi & Hwi & Hvi & Hli). exists (w_logpost wi). split; [exact Hli|].
    pose proof (proj1 (Forall_nth_error _ _) (sweeps_inv Hsi Hi0) _ _ Hwi) as [_ H]. congruence.
Qed.

(** ** Finiteness (C34) *)
Hypothesis fin_ratio : forall a b c, ffin A ((a ⊖ b) ⊘ c) = true -> ffin A a = true.
Definition finw (w : param) : Prop := ffin A (w_logpost w) = true.
Lemma do_step_fin s ws g s' ws' g' : Forall inv ws -> Forall finw ws -> do_step P draw s ws g = Ok (s', ws', g') -> Forall finw ws'.
Proof.
  intros H Hf E. pose proof (proj1 (Forall_nth_error _ _) H) as Hn. pose proof (proj1 (Forall_nth_error _ _) Hf) as Hfn.
  destruct s as [i r|[|j] e]; cbn [do_step] in E; [|discriminate|].
  - apply bind_Ok in E. destruct E as (w & Ew & E). apply bind_Ok in E. destruct E as ([[r' w'] g1] & E1 & E). injection E as _ <- _.
    apply vgetU_nth in Ew. apply Forall_upd; [exact Hf|]. destruct (ram_step_inv (Hn _ _ Ew) E1) as (_ & _ & [[_ H1]|H1]).
    + unfold finw. rewrite H1. exact (Hfn _ _ Ew).
    + exact (fin_ratio H1).
  - apply bind_Ok in E. destruct E as (w & Ew & E). apply bind_Ok in E. destruct E as (o & Eo & E).
    apply bind_Ok in E. destruct E as ([[[e' w'] o'] g1] & E1 & E). injection E as _ <- _. apply vgetU_nth in Ew. apply vgetU_nth in Eo.
    pose proof (Hfn _ _ Ew) as F1. pose proof (Hfn _ _ Eo) as F2.
    destruct (exch_step_spec E1) as [[-> ->]|(x & EL & -> & ->)]; (apply Forall_upd; [apply Forall_upd; [exact Hf|]|]); assumption.
Qed.
Lemma in_order_fin ss ws g ss' ws' g' : in_order P draw ss ws g ss' ws' g' -> Forall inv ws -> Forall finw ws -> Forall finw ws'.
Proof.
  intros H. induction H as [|s ss ws g s' ws1 g1 ss' ws2 g2 E _ IH]; intros H0 H1; [exact H1|].
  apply IH; [exact (do_step_inv H0 E)|exact (do_step_fin H0 H1 E)].
Qed.
Lemma sweeps_fin n y y' : sweeps P draw n y y' -> Forall inv (y_pars y) -> Forall finw (y_pars y) -> Forall finw (y_pars y').
Proof.
  intros H. induction H as [|n y y1 y2 H1 IH H]; intros H0 Hf; [exact Hf|].
  eapply in_order_fin; [exact H|exact (sweeps_inv H1 H0)|apply IH; assumption].
Qed.
Lemma Run_fin N burnin thin t init (y y' : sys) : Run P draw N burnin thin t init y = Ok y' ->
  Forall okw (y_pars y) -> covered (y_steps y) (List.length (y_pars y)) ->
  exists y0 use ws1, started P use init (y_steps y) ws1 (y_gen y) (y_pars y0) (y_gen y0) /\
    map (@w_obj A X vec) ws1 = map (@w_obj A X vec) (y_pars y) /\
    (Forall finw (y_pars y0) ->
     (forall k yk, sweeps P draw k y0 yk -> Forall finw (y_pars yk)) /\
     forall j w, tracks t j -> nth_error (y_pars y') j = Some w ->
      forall i v, nth_error (w_samples w) i = Some v ->
        exists l, nth_error (w_logposts w) i = Some l /\ pld v = Ok l /\ ffin A l = true).
Proof.
  intros E H0 Hc. destruct (@Run_records _ _ _ P draw _ _ _ _ _ _ _ E) as (y0 & (use & ws1 & Hs & Ho & _) & _ & (yn & Hn & Ha) & Hrec).
  exists y0, use, ws1. split; [exact Hs|]. split; [exact Ho|].
  assert (Forall okw ws1) as Hok by exact (map_obj_ok Ho H0).
  assert (List.length ws1 = List.length (y_pars y)) as Hlen by exact (map_len Ho).
  assert (Forall inv (y_pars y0)) as Hi0 by (apply (started_all Hs Hok); rewrite Hlen; exact Hc).
  intros Hf. split; [intros k yk Hk; exact (sweeps_fin Hk Hi0 Hf)|].
  intros j w Hj Hw i v Hv. destruct (Hrec j w Hj Hw) as (Hl1 & Hl2 & Hi).
  assert (i < N) as Hlt by (rewrite <- Hl1; apply nth_error_Some; congruence).
  destruct (Hi i Hlt) as (yi & wi & Hsi & Hwi & Hvi & Hli). exists (w_logpost wi). split; [exact Hli|].
  pose proof (proj1 (Forall_nth_error _ _) (sweeps_inv Hsi Hi0) _ _ Hwi) as [_ H].
  pose proof (proj1 (Forall_nth_error _ _) (sweeps_fin Hsi Hi0 Hf) _ _ Hwi) as H2. split; [congruence|exact H2].
Qed.
End Inv.

(** ** No invalid access *)
Section Safe.
Variable A : Arith.
Variable R : rng A.
Variable X : Type.
Local Notation F := (F A).
Local Notation vec := (list F).
Variable P : methodsP R X vec.
Variable draw : F -> gen R -> F * gen R.
Local Notation param := (param A X vec).
Local Notation sys := (sys R X).

Definition safe T (r : res T) : Prop := r <> UB.
Lemma safe_bind T U (e : res T) (k : T -> res U) : safe e -> (forall x, e = Ok x -> safe (k x)) -> safe (bind e k).
Proof. intros H1 H2. destruct e; cbn; try discriminate; [apply H2; reflexivity|exfalso; apply H1; reflexivity]. Qed.
Lemma safe_Ok T (x : T) : safe (Ok x). Proof. discriminate. Qed.
Lemma safe_vget T (l : list T) i : safe (vget l i).
Proof. unfold vget. destruct (nth_error l i); discriminate. Qed.
Lemma safe_for T i n (f : nat -> T -> res T) : (forall i s, safe (f i s)) -> forall s, safe (for_ i n f s).
Proof. intros Hf. revert i; induction n as [|n IH]; intros i s; cbn; [discriminate|]. apply safe_bind; [apply Hf|]. intros; apply IH. Qed.

Variable ok : X -> Prop.
Hypothesis Sld : forall x v, ok x -> safe (o_LogDensity P x v).
Hypothesis Ssv : forall x v, ok x -> safe (o_Save P x v).
Hypothesis Sst : forall x g, ok x -> safe (o_Start P x g).
Hypothesis Sse : forall x i g, ok x -> safe (o_SetStart P x i g).
Hypothesis Kld : forall x v l x', ok x -> o_LogDensity P x v = Ok (l, x') -> ok x'.
Hypothesis Kst : forall x g v x' g', ok x -> o_Start P x g = Ok (v, x', g') -> ok x'.
Hypothesis Kse : forall x i g v x' g', ok x -> o_SetStart P x i g = Ok (v, x', g') -> ok x'.
Local Notation okw := (fun w : param => ok (w_obj w)).

Lemma safe_chol L v d : safe (@CholUpdateR1 A L v d).
Proof.
  apply safe_for. intros i [L0 v0]. unfold chol_step. apply safe_bind.
  { unfold mget. apply safe_bind; [apply safe_vget|]. intros; apply safe_vget. }
  intros x _. apply safe_bind; [apply safe_vget|]. intros; discriminate.
Qed.
Lemma safe_adapt r u s : safe (@ram_adapt A r u s).
Proof. unfold ram_adapt. destruct (_ && _); [|discriminate]. apply safe_bind; [apply safe_chol|]. intros [L v] _. discriminate. Qed.
Lemma Save_ok w v w' : ok (w_obj w) -> Save P w v = Ok w' -> ok (w_obj w').
Proof. intros H E. unfold Save in E. apply bind_Ok in E. destruct E as ([l x] & E & Q). injection Q as <-. exact (Kld H E). Qed.
Lemma safe_Save w v : ok (w_obj w) -> safe (Save P w v).
Proof. intros H. unfold Save. apply safe_bind; [apply Sld, H|]. intros [l x] _. discriminate. Qed.
Lemma ram_accept_ok r w new g a r' w' g' : ok (w_obj w) -> ram_accept P r w new g = Ok (a, r', w', g') -> ok (w_obj w').
Proof.
  intros H E. unfold ram_accept, LD in E. apply bind_Ok in E. destruct E as ([l w1] & E1 & E). apply bind_Ok in E1.
  destruct E1 as ([l0 x] & E1 & Q). injection Q as <- <-. pose proof (Kld H E1) as Hx. destruct (negb _); [injection E as _ _ <- _; exact Hx|].
  destruct (runiform _ _ g) as [u g1]. destruct (flt A u _); injection E as _ _ <- _; exact Hx.
Qed.
Lemma ram_step_safe r w g : ok (w_obj w) ->
  safe (ram_step P draw r w g) /\ forall r' w' g', ram_step P draw r w g = Ok (r', w', g') -> ok (w_obj w').
Proof.
  intros H. unfold ram_step. destruct (draws _ _ g) as [u g1]. split.
  - apply safe_bind; [unfold mtmul; destruct (_ =? _); discriminate|]. intros sc _.
    apply safe_bind; [unfold vadd; destruct (_ =? _); discriminate|]. intros new _.
    apply safe_bind.
    { unfold ram_accept. apply safe_bind; [unfold LD; apply safe_bind; [apply Sld, H|intros [? ?] _; discriminate]|].
      intros [l w1] _. destruct (negb _); [discriminate|]. destruct (runiform _ _ g1). destruct (flt A _ _); discriminate. }
    intros [[[a r1] w1] g2] Ea. apply safe_bind.
    { destruct a; [|discriminate]. apply safe_Save. exact (ram_accept_ok H Ea). }
    intros w2 _. apply safe_bind; [apply safe_adapt|]. intros; discriminate.
  - intros r' w' g' E. apply bind_Ok in E. destruct E as (sc & _ & E). apply bind_Ok in E. destruct E as (new & _ & E).
    apply bind_Ok in E. destruct E as ([[[a r1] w1] g2] & Ea & E). apply bind_Ok in E. destruct E as (w2 & Es & E).
    apply bind_Ok in E. destruct E as (r2 & _ & E). injection E as _ <- _. pose proof (ram_accept_ok H Ea) as H1.
    destruct a; [exact (Save_ok H1 Es)|]. injection Es as <-. exact H1.
Qed.
Lemma exch_step_safe e w o g : ok (w_obj w) -> ok (w_obj o) ->
  safe (exch_step P e w o g) /\ forall e' w' o' g', exch_step P e w o g = Ok (e', w', o', g') -> ok (w_obj w') /\ ok (w_obj o').
Proof.
  intros H1 H2. split.
  - unfold exch_step. destruct (runiform _ _ g) as [u g1]. apply safe_bind; [|intros [[? ?] ?] _; discriminate].
    destruct (flt A u _); [|discriminate]. apply safe_bind; [apply safe_Save, H1|]. intros w1 _.
    apply safe_bind; [unfold SaveDerived; apply safe_bind; [apply Ssv, H2|intros; discriminate]|]. intros; discriminate.
  - intros e' w' o' g' E. destruct (exch_step_spec E) as [[-> ->]|([l x] & EL & -> & ->)]; [split; assumption|]. cbn. split; [exact (Kld H1 EL)|exact H2].
Qed.
(** a step refers to existing parameters *)
Definition valid_step (n : nat) (s : step A) : Prop :=
  step_par s < n /\ match s with SExch i _ => i <> 0 | _ => True end.
Lemma safe_vgetU T (l : list T) i : i < List.length l -> safe (vgetU l i).
Proof. intros H. unfold vgetU. destruct (nth_error l i) eqn:E; [discriminate|]. apply nth_error_None in E. lia. Qed.
Lemma do_step_safe s ws g : Forall okw ws -> valid_step (List.length ws) s ->
  safe (do_step P draw s ws g) /\
  forall s' ws' g', do_step P draw s ws g = Ok (s', ws', g') -> Forall okw ws' /\ List.length ws' = List.length ws /\ step_par s' = step_par s /\ valid_step (List.length ws) s'.
Proof.
  intros H [V1 V2]. pose proof (proj1 (Forall_nth_error _ _) H) as Hn. destruct s as [i r|[|j] e]; cbn [do_step step_par] in *; [|contradiction|].
  - split.
    + apply safe_bind; [apply safe_vgetU, V1|]. intros w Ew. apply vgetU_nth in Ew.
      apply safe_bind; [apply ram_step_safe, (Hn _ _ Ew)|]. intros [[r' w'] g'] _. discriminate.
    + intros s' ws' g' E. apply bind_Ok in E. destruct E as (w & Ew & E). apply bind_Ok in E. destruct E as ([[r' w'] g1] & E1 & E). injection E as <- <- _.
      apply vgetU_nth in Ew. split; [apply Forall_upd; [exact H|exact (proj2 (ram_step_safe r g (Hn _ _ Ew)) _ _ _ E1)]|].
      split; [apply upd_length|]. split; [reflexivity|split; [exact V1|exact I]].
  - split.
    + apply safe_bind; [apply safe_vgetU, V1|]. intros w Ew. apply vgetU_nth in Ew.
      apply safe_bind; [apply safe_vgetU; lia|]. intros o Eo. apply vgetU_nth in Eo.
      apply safe_bind; [apply exch_step_safe; [exact (Hn _ _ Ew)|exact (Hn _ _ Eo)]|]. intros [[[e' w'] o'] g'] _. discriminate.
    + intros s' ws' g' E. apply bind_Ok in E. destruct E as (w & Ew & E). apply bind_Ok in E. destruct E as (o & Eo & E).
      apply bind_Ok in E. destruct E as ([[[e' w'] o'] g1] & E1 & E). injection E as <- <- _. apply vgetU_nth in Ew. apply vgetU_nth in Eo.
      destruct (proj2 (exch_step_safe e g (Hn _ _ Ew) (Hn _ _ Eo)) _ _ _ _ E1) as [K1 K2].
      split; [apply Forall_upd; [apply Forall_upd; [exact H|exact K1]|exact K2]|]. split; [rewrite !upd_length; reflexivity|].
      split; [reflexivity|split; [exact V1|discriminate]].
Qed.
Lemma sweep_steps_safe ss : forall ws g, Forall okw ws -> Forall (valid_step (List.length ws)) ss ->
  safe (sweep_steps P draw ss ws g) /\
  forall ss' ws' g', sweep_steps P draw ss ws g = Ok (ss', ws', g') -> Forall okw ws' /\ List.length ws' = List.length ws /\ Forall (valid_step (List.length ws)) ss'.
Proof.
  induction ss as [|s ss IH]; intros ws g H V; cbn [sweep_steps].
  - split; [discriminate|]. intros ss' ws' g' E. injection E as <- <- <-. split; [exact H|split; [reflexivity|constructor]].
  - inversion V as [|? ? V1 V2]; subst. destruct (do_step_safe g H V1) as [S1 S2]. split.
    + apply safe_bind; [exact S1|]. intros [[s' ws1] g1] E. destruct (S2 _ _ _ E) as (K1 & K2 & _ & _).
      rewrite <- K2 in V2. apply safe_bind; [exact (proj1 (IH ws1 g1 K1 V2))|]. intros [[? ?] ?] _. discriminate.
    + intros ss' ws' g' E. apply bind_Ok in E. destruct E as ([[s1 ws1] g1] & E1 & E). apply bind_Ok in E. destruct E as ([[r1 ws2] g2] & E2 & E).
      injection E as <- <- <-. destruct (S2 _ _ _ E1) as (K1 & K2 & _ & K4).
      assert (V2' := V2). rewrite <- K2 in V2'. destruct (proj2 (IH ws1 g1 K1 V2') _ _ _ E2) as (J1 & J2 & J3).
      split; [exact J1|]. split; [congruence|]. constructor; [exact K4|]. rewrite <- K2. exact J3.
Qed.
Definition good_sys (y : sys) : Prop := Forall okw (y_pars y) /\ Forall (valid_step (List.length (y_pars y))) (y_steps y).
Lemma Iterate_safe n : forall y, good_sys y -> safe (Iterate P draw n y) /\
  forall y', Iterate P draw n y = Ok y' -> good_sys y' /\ List.length (y_pars y') = List.length (y_pars y).
Proof.
  induction n as [|n IH]; intros y Hy; cbn [Iterate].
  - split; [discriminate|]. intros y' E. injection E as <-. split; [exact Hy|reflexivity].
  - destruct Hy as [H1 H2]. destruct (sweep_steps_safe (y_gen y) H1 H2) as [S1 S2].
    assert (forall y1, sweep P draw y = Ok y1 -> good_sys y1 /\ List.length (y_pars y1) = List.length (y_pars y)) as K.
    { intros y1 E. unfold sweep in E. apply bind_Ok in E. destruct E as ([[ss ws] g] & E & Q). injection Q as <-.
      destruct (S2 _ _ _ E) as (J1 & J2 & J3). split; [|exact J2]. split; cbn; [exact J1|]. rewrite J2. exact J3. }
    split.
    + apply safe_bind; [unfold sweep; apply safe_bind; [exact S1|intros [[? ?] ?] _; discriminate]|].
      intros y1 E. apply IH, K, E.
    + intros y' E. apply bind_Ok in E. destruct E as (y1 & E1 & E). destruct (K _ E1) as [K1 K2]. destruct (proj2 (IH _ K1) _ E) as [J1 J2].
      split; [exact J1|congruence].
Qed.
Lemma start_loop_safe use init ss : forall ws g, Forall okw ws -> Forall (valid_step (List.length ws)) ss ->
  safe (start_loop P ss use init ws g) /\ forall ws' g', start_loop P ss use init ws g = Ok (ws', g') -> Forall okw ws' /\ List.length ws' = List.length ws.
Proof.
  induction ss as [|s ss IH]; intros ws g H V; cbn [start_loop].
  - split; [discriminate|]. intros ws' g' E. injection E as <- <-. split; [exact H|reflexivity].
  - inversion V as [|? ? [V1 _] V2]; subst. pose proof (proj1 (Forall_nth_error _ _) H) as Hn.
    assert (forall w v x g1, nth_error ws (step_par s) = Some w ->
      (if use then o_SetStart P (w_obj w) init g else o_Start P (w_obj w) g) = Ok (v, x, g1) -> ok x) as Kx.
    { intros w v x g1 Hw E. destruct use; [eapply Kse|eapply Kst]; try exact E; exact (Hn _ _ Hw). }
    split.
    + apply safe_bind; [apply safe_vgetU, V1|]. intros w Ew. apply vgetU_nth in Ew.
      apply safe_bind; [destruct use; [apply Sse|apply Sst]; exact (Hn _ _ Ew)|]. intros [[v x] g1] E1.
      pose proof (Kx _ _ _ _ Ew E1) as Hx. apply safe_bind; [apply safe_Save; exact Hx|]. intros w' E2.
      apply IH; [apply Forall_upd; [exact H|exact (Save_ok (w := set_obj w x) Hx E2)]|rewrite upd_length; exact V2].
    + intros ws' g' E. apply bind_Ok in E. destruct E as (w & Ew & E). apply vgetU_nth in Ew. apply bind_Ok in E. destruct E as ([[v x] g1] & E1 & E).
      apply bind_Ok in E. destruct E as (w' & E2 & E). pose proof (Kx _ _ _ _ Ew E1) as Hx.
      rewrite <- (upd_length ws (step_par s) w'). apply (proj2 (IH (upd ws (step_par s) w') g1
        (@Forall_upd _ okw _ (step_par s) _ H (Save_ok (w := set_obj w x) Hx E2)) ltac:(rewrite upd_length; exact V2)) _ _ E).
Qed.
Lemma on_tracked_safe (f : param -> res param) t (Q : param -> Prop) : (forall w, Q w -> safe (f w)) -> (forall w w', Q w -> f w = Ok w' -> Q w') ->
  forall ws, Forall Q ws -> Forall (fun p => snd p < List.length ws) t ->
  safe (on_tracked t f ws) /\ forall ws', on_tracked t f ws = Ok ws' -> Forall Q ws' /\ List.length ws' = List.length ws.
Proof.
  intros Hf Hk. induction t as [|[l i] t IH]; intros ws H V; cbn [on_tracked].
  - split; [discriminate|]. intros ws' E. injection E as <-. split; [exact H|reflexivity].
  - inversion V as [|? ? V1 V2]; subst. cbn in V1. pose proof (proj1 (Forall_nth_error _ _) H) as Hn.
    assert (forall ws1, on_par ws i f = Ok ws1 -> Forall Q ws1 /\ List.length ws1 = List.length ws) as K.
    { intros ws1 E. unfold on_par in E. apply bind_Ok in E. destruct E as (w & Ew & E). apply bind_Ok in E. destruct E as (w' & Ew' & E). injection E as <-.
      apply vgetU_nth in Ew. split; [apply Forall_upd; [exact H|exact (Hk _ _ (Hn _ _ Ew) Ew')]|apply upd_length]. }
    split.
    + apply safe_bind.
      { unfold on_par. apply safe_bind; [apply safe_vgetU, V1|]. intros w Ew. apply vgetU_nth in Ew.
        apply safe_bind; [apply Hf, (Hn _ _ Ew)|]. intros; discriminate. }
      intros ws1 E. destruct (K _ E) as [K1 K2]. apply IH; [exact K1|rewrite K2; exact V2].
    + intros ws' E. apply bind_Ok in E. destruct E as (ws1 & E1 & E). destruct (K _ E1) as [K1 K2].
      rewrite <- K2 in V2. destruct (proj2 (IH ws1 K1 V2) _ E) as [J1 J2]. split; [exact J1|congruence].
Qed.

(** the records have room for n samples *)
Definition room (n : nat) (w : param) : Prop := List.length (w_samples w) = n /\ List.length (w_logposts w) = n.
Lemma on_tracked_safe2 t n c ws : c < n -> (forall j w, tracks t j -> nth_error ws j = Some w -> room n w) ->
  Forall (fun p => snd p < List.length ws) t -> safe (on_tracked t (fun w => AddToSample w c) ws).
Proof.
  intros Hc. revert ws; induction t as [|[l i] t IH]; intros ws H V; cbn [on_tracked]; [discriminate|].
  inversion V as [|? ? V1 V2]; subst. cbn in V1. unfold on_par.
  apply safe_bind.
  { apply safe_bind; [apply safe_vgetU, V1|]. intros w Ew. apply vgetU_nth in Ew. destruct (H i w (or_introl eq_refl) Ew) as [H1 H2].
    apply safe_bind; [|intros; discriminate]. unfold AddToSample, vsetU. rewrite H1, H2.
    assert (c <? n = true) as -> by (apply Nat.ltb_lt, Hc). discriminate. }
  intros ws1 E. apply bind_Ok in E. destruct E as (w & Ew & E). apply bind_Ok in E. destruct E as (w' & Ew' & E). injection E as <-.
  apply vgetU_nth in Ew. apply IH; [|rewrite upd_length; exact V2].
  intros j wj Hj Hwj. rewrite nth_error_upd in Hwj. destruct (Nat.eqb_spec i j) as [->|Hne].
  - rewrite Ew in Hwj. injection Hwj as <-. destruct (H j w (or_introl eq_refl) Ew) as [H1 H2].
    unfold AddToSample, vsetU in Ew'. rewrite H1, H2 in Ew'. assert (c <? n = true) as Hl by (apply Nat.ltb_lt, Hc). rewrite Hl in Ew'.
    cbn [bind] in Ew'. injection Ew' as <-. split; cbn; rewrite upd_length; assumption.
  - apply (H j wj); [right; exact Hj|exact Hwj].
Qed.
Lemma rec_room t n ws ws' : map (@rec_of A X) ws' = map (@rec_of A X) ws ->
  (forall j w, tracks t j -> nth_error ws j = Some w -> room n w) -> forall j w, tracks t j -> nth_error ws' j = Some w -> room n w.
Proof.
  intros E H j w Hj Hw. pose proof (f_equal (fun l => nth_error l j) E) as E'. cbn beta in E'. rewrite !nth_error_map, Hw in E'. cbn in E'.
  destruct (nth_error ws j) as [w2|] eqn:Hw2; [|discriminate]. destruct (H _ _ Hj Hw2) as [H1 H2]. cbn in E'. injection E' as E1 E2.
  unfold room. rewrite E1, E2. split; assumption.
Qed.
Lemma sample_loop_safe n : forall cur N thin t y, good_sys y -> cur + n <= N ->
  (forall j w, tracks t j -> nth_error (y_pars y) j = Some w -> room N w) ->
  Forall (fun p => snd p < List.length (y_pars y)) t -> safe (sample_loop P draw n cur thin t y).
Proof.
  induction n as [|n IH]; intros cur N thin t y Hy Hc Hr V; cbn [sample_loop]; [discriminate|].
  destruct (Iterate_safe thin Hy) as [S1 S2]. apply safe_bind; [exact S1|]. intros y1 E1. destruct (S2 _ E1) as [Hy1 L1].
  pose proof (@Iterate_keeps _ _ _ P draw _ _ _ E1) as K1. pose proof (rec_room K1 Hr) as Hr1.
  rewrite <- L1 in V. apply safe_bind.
  { unfold SaveValues. apply safe_bind; [|intros; discriminate]. apply (on_tracked_safe2 (n := N) (c := cur)); [lia|exact Hr1|exact V]. }
  intros y2 E2. unfold SaveValues in E2. apply bind_Ok in E2. destruct E2 as (ws2 & E2 & Q). injection Q as <-.
  destruct (@on_tracked_rec _ _ _ _ _ _ (fun w w' => @AddToSample_rec _ _ w cur w') E2) as (rs & Hl & Hz).
  assert (List.length ws2 = List.length (y_pars y1)) as L2 by (rewrite Hz; apply zip_len; exact Hl).
  apply (IH _ N); cbn [y_pars]; [|lia| |rewrite L2; exact V].
  - destruct Hy1 as [G1 G2]. split; cbn [y_pars y_steps]; [|rewrite L2; exact G2].
    apply Forall_nth_error. intros i w Hw. rewrite Hz in Hw. pose proof (zip_vget _ _ i Hl) as Hv. rewrite (vgetU_nth' _ _ Hw) in Hv.
    symmetry in Hv. apply bind_Ok in Hv. destruct Hv as (w0 & E0 & Q). injection Q as <-. apply vgetU_nth in E0.
    exact (proj1 (Forall_nth_error _ _) G1 _ _ E0).
  - intros j w' Hj Hw'. assert (j < List.length (y_pars y1)) as Hlt by (rewrite <- L2; apply nth_error_Some; congruence).
    destruct (nth_error (y_pars y1) j) as [w|] eqn:Hw; [|apply nth_error_None in Hw; lia].
    destruct (@save_values_nth _ _ _ _ _ _ E2 j _ _ Hw Hw') as [Hs _]. destruct (Hs Hj) as (_ & _ & Es & El).
    unfold room. rewrite Es, El, !upd_length. exact (Hr1 _ _ Hj Hw).
Qed.
Lemma Run_safe N burnin thin t init (y : sys) : good_sys y -> y_steps y <> [] ->
  Forall (fun p => snd p < List.length (y_pars y)) t -> safe (Run P draw N burnin thin t init y).
Proof.
  intros [G1 G2] Hne V. unfold Run.
  destruct (@on_tracked_safe (fun w => Ok (SetSampleSize [] w N)) t okw) with (ws := y_pars y) as [S1 S2]; try assumption.
  { intros; discriminate. } { intros w w' H E. injection E as <-. exact H. }
  apply safe_bind; [exact S1|]. intros ws1 E1. destruct (S2 _ E1) as [G1' L1].
  destruct (y_steps y) as [|s0 ss] eqn:Es; [exfalso; apply Hne; reflexivity|].
  apply safe_bind; [discriminate|]. intros s1 Es1. cbn in Es1. injection Es1 as <-.
  inversion G2 as [|? ? [V0 _] _]; subst.
  apply safe_bind; [apply safe_vgetU; rewrite L1; exact V0|]. intros w0 _.
  set (use := _ =? _). assert (G2' := G2). rewrite <- L1 in G2'.
  destruct (start_loop_safe use init (y_gen y) G1' G2') as [T1 T2].
  apply safe_bind; [exact T1|]. intros [ws2 g2] E2. destruct (T2 _ _ E2) as [G3 L2].
  assert (good_sys (mkSys ws2 (s0 :: ss) g2)) as G4 by (split; cbn [y_pars y_steps]; [exact G3|rewrite L2; exact G2']).
  destruct (Iterate_safe burnin G4) as [U1 U2]. apply safe_bind; [exact U1|]. intros y3 E3. destruct (U2 _ E3) as [G5 L3]. cbn [y_pars] in L3.
  apply (sample_loop_safe (N := N)); [exact G5|lia| |].
  - apply (rec_room (@Iterate_keeps _ _ _ P draw _ _ _ E3)). cbn [y_pars].
    destruct (started_len (@start_loop_started _ _ _ P _ _ _ _ _ _ _ E2)) as [_ Hr]. apply (rec_room Hr).
    intros j w Hj Hw. exact (@size_tracked _ _ _ _ _ _ E1 _ _ Hj Hw).
  - rewrite L3, L2, L1. exact V.
Qed.
End Safe.
