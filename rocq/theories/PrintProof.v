(** The printed acceptance rates count the Metropolis decisions. *)
From Coq Require Import String.
From Coq Require Import List Arith ZArith Bool Lia.
From Verif Require Import Arith Res ListLemmas KFModel Cx KFpModel CarpackModel EngineModel StartModel EngineSpec EngineProof EngineDriver PrintModel.
Import ListNotations.

Definition erase {T L} (r : res (T * L)) : res T := '(x, _) <- r ;; Ok x.
Lemma erase_bind {T U L M} (r : res (T * L)) (f : T -> res U) (g : T -> L -> res (U * M)) :
  (forall x l, erase (g x l) = f x) -> erase ('(x, l) <- r ;; g x l) = bind (erase r) f.
Proof. intros H. destruct r as [[x l]| | |]; cbn; try reflexivity. apply H. Qed.
Lemma erase_pre {T U M} (r : res T) (f : T -> res U) (g : T -> res (U * M)) :
  (forall x, erase (g x) = f x) -> erase (bind r g) = bind r f.
Proof. intros H. destruct r as [x| | |]; cbn; try reflexivity. apply H. Qed.
Lemma erase_ok {T L} (r : res (T * L)) x : erase r = Ok x -> exists l, r = Ok (x, l).
Proof. destruct r as [[y l]| | |]; cbn; intros E; try discriminate. injection E as <-. exists l. reflexivity. Qed.

(** ** Specification *)
(** number of true decisions of step p *)
Definition accepted (p : nat) (E : list (list bool)) : nat := List.length (filter (fun d => nth p d false) E).

Section Print.
Variable A : Arith.
Variable R : rng A.
Local Notation F := (F A).
Local Notation vec := (list F).
Local Notation gen := (gen R).
Local Notation line := (line F).
Local Notation "# z" := (fofZ A z%Z) (at level 1, format "# z").
Local Notation "x ⊕ y" := (fadd A x y) (at level 50, left associativity).
Local Notation "x ⊖ y" := (fsub A x y) (at level 50, left associativity).
Local Notation "x ⊗ y" := (fmul A x y) (at level 40, left associativity).
Local Notation "x ⊘ y" := (fdiv A x y) (at level 40, left associativity).
Local Notation arate := (arate A).

(** What step p, as it was added to the sampler, prints in the pass that ends the list E of the decisions in all passes so far: AdaptiveMetro in pass
    maxiter the fraction of its moves accepted in all passes, ExchangeStep in every pass divisible by report_iter the fraction accepted in the last
    report_iter passes. *)
Definition lines_of (p : nat) (s : step A) (E : list (list bool)) : list line :=
  match s with
  | SRam _ r => if List.length E =? r_maxiter r then [LRam (arate (accepted p E) (List.length E))] else []
  | SExch _ e => let m := Z.to_nat (e_report e) in
    if (0 <? m) && (List.length E mod m =? 0) then [LExch (arate (accepted p (skipn (List.length E - m) E)) m)] else []
  end.
Fixpoint lines_from (p : nat) (ss : list (step A)) (E : list (list bool)) : list line :=
  match ss with [] => [] | s :: r => lines_of p s E ++ lines_from (S p) r E end.
(** passes a+1, ..., a+n *)
Definition lines_passes (ss : list (step A)) (E : list (list bool)) (a n : nat) : list line :=
  flat_map (fun j => lines_from 0 ss (firstn j E)) (seq (S a) n).
Definition fresh (s : step A) : Prop :=
  match s with SRam _ r => r_niter r = 0 /\ r_naccept r = 0 | SExch _ e => e_niter e = 0 /\ e_naccept e = 0 end.

Section Steps.
Variable X : Type.
Variable P : methodsP R X vec.
Variable draw : F -> gen -> F * gen.
Local Notation param := (param A X vec).
Local Notation sys := (sys R X).

(** the decision of a step: the Metropolis rule with the temperature of the chain, and the exchange rule *)
Inductive decision : step A -> list param -> gen -> bool -> Prop :=
| de_ram i r ws g w unit g1 scaled new l x : nth_error ws i = Some w ->
    draws (List.length (w_value w)) (draw (#0)) g = (unit, g1) -> mtmul (r_chol r) unit = Ok scaled -> vadd A (w_value w) scaled = Ok new ->
    o_LogDensity P (w_obj w) new = Ok (l, x) ->
    decision (SRam i r) ws g (let alpha := (l ⊖ w_logpost w) ⊘ w_temp w in
      ffin A alpha && flt A (fst (runiform (#0) (#1) g1)) (fmin A (fexp A alpha) (#1)))
| de_exch i e ws g w o : nth_error ws (S i) = Some w -> nth_error ws i = Some o ->
    decision (SExch (S i) e) ws g (let a := fmin A (fexp A (#1 ⊘ w_temp w ⊗ (w_logpost o ⊖ w_logpost w) ⊕ #1 ⊘ w_temp o ⊗ (w_logpost w ⊖ w_logpost o))) (#1) in
      flt A (fst (runiform (#0) (#1) g)) (if ffin A a then a else #0)).
(** the steps of one pass with their decisions *)
Inductive decisions : list (step A) -> list param -> gen -> list bool -> list (step A) -> list param -> gen -> Prop :=
| ds_nil ws g : decisions [] ws g [] [] ws g
| ds_cons s ss ws g b s' ws1 g1 d ss' ws2 g2 : decision s ws g b -> do_step P draw s ws g = Ok (s', ws1, g1) ->
    decisions ss ws1 g1 d ss' ws2 g2 -> decisions (s :: ss) ws g (b :: d) (s' :: ss') ws2 g2.
(** passes, with values saved between them *)
Inductive decided : sys -> sys -> list (list bool) -> Prop :=
| dd_0 y : decided y y []
| dd_pass y y1 y2 E d : decided y y1 E -> decisions (y_steps y1) (y_pars y1) (y_gen y1) d (y_steps y2) (y_pars y2) (y_gen y2) -> decided y y2 (E ++ [d])
| dd_save y y1 y2 E t cur : decided y y1 E -> SaveValues t cur y1 = Ok y2 -> decided y y2 E.

(** ** The functions with output do what those without do *)
Lemma exch_erase e w o g : erase (exch_step_out A R X P e w o g) = exch_step P e w o g.
Proof.
  unfold exch_step_out, exch_step. destruct (runiform (#0) (#1) g) as [u g1]. cbv zeta. destruct (flt A u _).
  - destruct (Save P w (w_value o)) as [w1| | |]; cbn [bind erase]; try reflexivity.
    destruct (SaveDerived P o (w_value w)) as [o1| | |]; cbn [bind erase]; try reflexivity. destruct (Z.eqb _ _); reflexivity.
  - cbn [bind]. destruct (Z.eqb _ _); reflexivity.
Qed.
Lemma do_step_erase s ws g : erase (do_step_out A R X P draw s ws g) = do_step P draw s ws g.
Proof.
  destruct s as [i r|[|j] e]; cbn [do_step_out do_step].
  - apply erase_pre. intros w. destruct (ram_step P draw r w g) as [[[r' w'] g']| | |]; reflexivity.
  - reflexivity.
  - apply erase_pre. intros w. apply erase_pre. intros o. rewrite <- exch_erase.
    destruct (exch_step_out A R X P e w o g) as [[[[[e' w'] o'] g'] l]| | |]; reflexivity.
Qed.
Lemma sweep_steps_erase ss : forall ws g, erase (sweep_steps_out A R X P draw ss ws g) = sweep_steps P draw ss ws g.
Proof.
  induction ss as [|s ss IH]; intros ws g; [reflexivity|]. cbn [sweep_steps_out sweep_steps]. rewrite <- do_step_erase.
  destruct (do_step_out A R X P draw s ws g) as [[[[s' ws1] g1] l1]| | |]; cbn [bind erase]; try reflexivity. rewrite <- IH.
  destruct (sweep_steps_out A R X P draw ss ws1 g1) as [[[[r' ws2] g2] l2]| | |]; reflexivity.
Qed.
Lemma Iterate_erase n : forall y, erase (Iterate_out A R X P draw n y) = Iterate P draw n y.
Proof.
  induction n as [|n IH]; intros y; [reflexivity|]. cbn [Iterate_out Iterate]. unfold sweep. rewrite <- sweep_steps_erase.
  destruct (sweep_steps_out A R X P draw _ _ _) as [[[[ss ws] g] l1]| | |]; cbn [bind erase]; try reflexivity. rewrite <- IH.
  destruct (Iterate_out A R X P draw n _) as [[y' l2]| | |]; reflexivity.
Qed.
Lemma start_erase ss use init ws g : erase (start_loop_out A R X P ss use init ws g) = start_loop P ss use init ws g.
Proof.
  destruct ss as [|s ss]; [reflexivity|]. cbn [start_loop_out start_loop]. apply erase_pre. intros w.
  destruct (if use then _ else _) as [[[v x] g1]| | |]; cbn [bind erase]; try reflexivity.
  destruct (Save P (set_obj w x) v) as [w'| | |]; cbn [bind erase]; try reflexivity.
  destruct (start_loop P ss use init _ g1) as [[ws' g']| | |]; reflexivity.
Qed.
Lemma sample_loop_erase n thin t : forall cur y, erase (sample_loop_out A R X P draw n cur thin t y) = sample_loop P draw n cur thin t y.
Proof.
  induction n as [|n IH]; intros cur y; [reflexivity|]. cbn [sample_loop_out sample_loop]. rewrite <- Iterate_erase.
  destruct (Iterate_out A R X P draw thin y) as [[y1 l1]| | |]; cbn [bind erase]; try reflexivity.
  destruct (SaveValues t cur y1) as [y2| | |]; cbn [bind erase]; try reflexivity. rewrite <- IH.
  destruct (sample_loop_out A R X P draw n _ thin t y2) as [[y3 l3]| | |]; reflexivity.
Qed.
Lemma Run_erase N burnin thin t init y : erase (Run_out A R X P draw N burnin thin t init y) = Run P draw N burnin thin t init y.
Proof.
  unfold Run_out, Run. apply erase_pre. intros ws1. apply erase_pre. intros s0. apply erase_pre. intros w0. cbv zeta. rewrite <- start_erase.
  destruct (start_loop_out A R X P _ _ init ws1 _) as [[[ws2 g2] l1]| | |]; cbn [bind erase]; try reflexivity. rewrite <- Iterate_erase.
  destruct (Iterate_out A R X P draw burnin _) as [[y3 l2]| | |]; cbn [bind erase]; try reflexivity. rewrite <- sample_loop_erase.
  destruct (sample_loop_out A R X P draw N 0 thin t y3) as [[y4 l3]| | |]; reflexivity.
Qed.

(** ** Counters and reports *)
Definition since (m n : nat) : nat := if m =? 0 then 0 else n - n mod m.
Definition counts (p : nat) (E : list (list bool)) (s0 s : step A) : Prop :=
  match s0, s with
  | SRam i0 r0, SRam i r => i = i0 /\ r_maxiter r = r_maxiter r0 /\ r_niter r = List.length E /\ r_naccept r = accepted p E
  | SExch i0 e0, SExch i e => i = i0 /\ e_report e = e_report e0 /\ let m := Z.to_nat (e_report e0) in
      e_niter e = List.length E - since m (List.length E) /\ e_naccept e = accepted p (skipn (since m (List.length E)) E)
  | _, _ => False
  end.
Fixpoint all_counts (p : nat) (E : list (list bool)) (ss0 ss : list (step A)) : Prop :=
  match ss0, ss with
  | [], [] => True
  | s0 :: r0, s :: r => counts p E s0 s /\ all_counts (S p) E r0 r
  | _, _ => False
  end.

Lemma accepted_app p E d : accepted p (E ++ [d]) = accepted p E + (if nth p d false then 1 else 0).
Proof. unfold accepted. rewrite filter_app, app_length. cbn [filter]. destruct (nth p d false); reflexivity. Qed.
Lemma since_le m n : since m n <= n.
Proof. unfold since. destruct (m =? 0); lia. Qed.
Lemma since_S m n : since m (S n) = if S (n - since m n) =? m then S n else since m n.
Proof.
  unfold since. destruct (Nat.eqb_spec m 0) as [->|Hm]; [reflexivity|].
  pose proof (Nat.mod_upper_bound n m Hm) as Hb. pose proof (Nat.div_mod n m Hm) as Hd. pose proof (Nat.mod_le n m Hm) as Hl.
  replace (n - (n - n mod m)) with (n mod m) by lia. destruct (Nat.eqb_spec (S (n mod m)) m) as [E|N].
  - assert (S n mod m = 0) as ->; [|lia]. symmetry. apply (Nat.mod_unique _ _ (S (n / m))); lia.
  - assert (S n mod m = S (n mod m)) as ->; [|lia]. symmetry. apply (Nat.mod_unique _ _ (n / m)); lia.
Qed.
Lemma since_report m n : 0 < m -> (S n mod m =? 0) = (S (n - since m n) =? m).
Proof.
  intros Hm. unfold since. destruct (Nat.eqb_spec m 0) as [H|_]; [lia|].
  pose proof (Nat.mod_upper_bound n m ltac:(lia)) as Hb. pose proof (Nat.div_mod n m ltac:(lia)) as Hd. pose proof (Nat.mod_le n m ltac:(lia)) as Hl.
  replace (n - (n - n mod m)) with (n mod m) by lia. destruct (Nat.eqb_spec (S (n mod m)) m) as [E|N].
  - assert (S n mod m = 0) as ->; [|reflexivity]. symmetry. apply (Nat.mod_unique _ _ (S (n / m))); lia.
  - assert (S n mod m = S (n mod m)) as ->; [|reflexivity]. symmetry. apply (Nat.mod_unique _ _ (n / m)); lia.
Qed.
Lemma eqb_Z n z : Z.eqb (Z.of_nat (S n)) z = (S n =? Z.to_nat z).
Proof. destruct (Z.eqb_spec (Z.of_nat (S n)) z), (Nat.eqb_spec (S n) (Z.to_nat z)); lia || reflexivity. Qed.

Lemma ram_counts p E i r0 r (ws : list param) g w r' w' g' :
  nth_error ws i = Some w -> counts p E (SRam i r0) (SRam i r) -> ram_step P draw r w g = Ok (r', w', g') ->
  exists b, decision (SRam i r) ws g b /\ (forall d, nth p d false = b -> counts p (E ++ [d]) (SRam i r0) (SRam i r') /\ ram_report A r' = lines_of p (SRam i r0) (E ++ [d])).
Proof.
  intros Hw (_ & C1 & C2 & C3) H. unfold ram_step in H. destruct (draws _ _ g) as [unit g1] eqn:Ed.
  apply bind_Ok in H. destruct H as (sc & Es & H). apply bind_Ok in H. destruct H as (new & En & H).
  apply bind_Ok in H. destruct H as ([[[a r1] w1] g2] & Ea & H). apply bind_Ok in H. destruct H as (w2 & _ & H). apply bind_Ok in H. destruct H as (r2 & Er & H).
  injection H as <- _ _.
  assert (r_naccept r2 = r_naccept r1 /\ r_niter r2 = r_niter r1 /\ r_maxiter r2 = r_maxiter r1) as (A1 & A2 & A3).
  { unfold ram_adapt in Er. destruct (_ && _); [|injection Er as <-; auto]. apply bind_Ok in Er. destruct Er as ([L v] & _ & Er). injection Er as <-. auto. }
  unfold ram_accept in Ea. apply bind_Ok in Ea. destruct Ea as ([l w3] & El & Ea). unfold LD in El. apply bind_Ok in El. destruct El as ([l' x] & El & Q). injection Q as -> <-.
  cbn [w_logpost w_temp set_obj] in Ea.
  eexists. split; [eapply de_ram; eassumption|]. intros d Hb. cbv zeta in Hb.
  assert (r_naccept r1 = r_naccept r + (if nth p d false then 1 else 0) /\ r_niter r1 = r_niter r /\ r_maxiter r1 = r_maxiter r) as (B1 & B2 & B3).
  { rewrite Hb. destruct (ffin A _); cbn [negb andb] in *; [|injection Ea as _ <- _ _; cbn; repeat split; lia].
    destruct (runiform _ _ g1) as [u g3]. cbn [fst]. destruct (flt A u _); injection Ea as _ <- _ _; cbn; repeat split; lia. }
  assert (counts p (E ++ [d]) (SRam i r0) (SRam i (mkRam (r_chol r2) (r_gamma r2) (r_target r2) (S (r_niter r2)) (r_naccept r2) (r_maxiter r2) (r_alpha r2)))) as HC.
  { cbn [counts r_maxiter r_niter r_naccept]. split; [reflexivity|]. rewrite accepted_app, app_length. cbn [List.length]. repeat split; try congruence; try lia. }
  split; [exact HC|]. destruct HC as (_ & H1 & H2 & H3). unfold ram_report, lines_of. rewrite H1, H2, H3. reflexivity.
Qed.

Lemma exch_counts p E i e0 e (ws : list param) g w o e' w' o' g' l :
  nth_error ws (S i) = Some w -> nth_error ws i = Some o -> counts p E (SExch (S i) e0) (SExch (S i) e) -> exch_step_out A R X P e w o g = Ok (e', w', o', g', l) ->
  exists b, decision (SExch (S i) e) ws g b /\ (forall d, nth p d false = b -> counts p (E ++ [d]) (SExch (S i) e0) (SExch (S i) e') /\ l = lines_of p (SExch (S i) e0) (E ++ [d])).
Proof.
  intros Hw Ho (_ & C1 & C2 & C3) H. unfold exch_step_out in H. destruct (runiform (#0) (#1) g) as [u g1] eqn:Eu. cbv zeta in H.
  eexists. split; [eapply de_exch; eassumption|]. intros d Hb. cbv zeta in Hb. rewrite Eu in Hb. cbn [fst] in Hb.
  set (a := fmin A _ (#1)) in *.
  assert ((if negb (ffin A a) then #0 else a) = (if ffin A a then a else #0)) as Ea by (destruct (ffin A a); reflexivity). rewrite Ea in H. rewrite <- Hb in H.
  apply bind_Ok in H. destruct H as ([[w1 o1] na] & En & H).
  assert (na = e_naccept e + (if nth p d false then 1 else 0)) as ->.
  { destruct (nth p d false); [|injection En as _ _ <-; lia]. apply bind_Ok in En. destruct En as (? & _ & En). apply bind_Ok in En. destruct En as (? & _ & En). injection En as _ _ <-. lia. }
  set (m := Z.to_nat (e_report e0)) in *. rewrite eqb_Z, C1 in H. fold m in H. rewrite C2 in H.
  pose proof (since_le m (List.length E)) as Hle.
  assert (accepted p (skipn (since m (List.length E)) (E ++ [d])) = e_naccept e + (if nth p d false then 1 else 0)) as Hacc.
  { rewrite skipn_app. replace (since m (List.length E) - List.length E) with 0 by lia. cbn [skipn]. rewrite accepted_app, C3. reflexivity. }
  unfold counts, lines_of. fold m. rewrite app_length. cbn [List.length]. rewrite Nat.add_1_r. rewrite since_S.
  destruct (Nat.eqb_spec (S (List.length E - since m (List.length E))) m) as [Em|Nm]; injection H as <- _ _ _ <-; cbn [e_report e_niter e_naccept].
  - assert (0 < m) as Hm by lia. rewrite (proj2 (Nat.ltb_lt 0 m) Hm), since_report by exact Hm. rewrite (proj2 (Nat.eqb_eq _ _) Em). cbn [andb]. split.
    + split; [reflexivity|]. split; [reflexivity|]. split; [lia|]. rewrite skipn_all2; [reflexivity|rewrite app_length; cbn; lia].
    + replace (S (List.length E) - m) with (since m (List.length E)) by lia. rewrite Hacc, Em. reflexivity.
  - split.
    + split; [reflexivity|]. split; [reflexivity|]. split; [lia|]. rewrite Hacc. reflexivity.
    + destruct (Nat.ltb_spec 0 m) as [Hm|Hm]; [|reflexivity]. rewrite since_report by exact Hm. rewrite (proj2 (Nat.eqb_neq _ _) Nm). reflexivity.
Qed.

Lemma sweep_counts ss : forall ws g ss' ws' g' l, sweep_steps_out A R X P draw ss ws g = Ok (ss', ws', g', l) ->
  forall ss0 p E pre, List.length pre = p -> all_counts p E ss0 ss ->
  exists d, decisions ss ws g d ss' ws' g' /\ all_counts p (E ++ [pre ++ d]) ss0 ss' /\ l = lines_from p ss0 (E ++ [pre ++ d]).
Proof.
  induction ss as [|s ss IH]; intros ws g ss' ws' g' l H ss0 p E pre Hp HC.
  - cbn in H. injection H as <- <- <- <-. destruct ss0; [|destruct HC]. exists []. split; [constructor|]. split; [exact I|reflexivity].
  - destruct ss0 as [|s0 ss0]; [destruct HC|]. destruct HC as [HC HCs]. cbn [sweep_steps_out] in H.
    apply bind_Ok in H. destruct H as ([[[s' ws1] g1] l1] & E1 & H). apply bind_Ok in H. destruct H as ([[[r' ws2] g2] l2] & E2 & H). injection H as <- <- <- <-.
    assert (do_step P draw s ws g = Ok (s', ws1, g1)) as Ed by (rewrite <- do_step_erase, E1; reflexivity).
    assert (exists b, decision s ws g b /\ forall d, nth p d false = b -> counts p (E ++ [d]) s0 s' /\ l1 = lines_of p s0 (E ++ [d])) as (b & Hb & HB).
    { destruct s0 as [i0 r0|i0 e0], s as [i r|i e]; try (destruct HC; fail); cbn [do_step_out] in E1.
      - assert (i = i0) as -> by apply HC. apply bind_Ok in E1. destruct E1 as (w & Ew & E1). apply vgetU_nth in Ew.
        apply bind_Ok in E1. destruct E1 as ([[rr ww] gg] & Er & E1). injection E1 as <- _ _ <-.
        exact (ram_counts p E i0 r0 r ws g w rr ww gg Ew HC Er).
      - assert (i = i0) as -> by apply HC. destruct i0 as [|j]; [discriminate|].
        apply bind_Ok in E1. destruct E1 as (w & Ew & E1). apply vgetU_nth in Ew. apply bind_Ok in E1. destruct E1 as (o & Eo & E1). apply vgetU_nth in Eo.
        apply bind_Ok in E1. destruct E1 as ([[[[ee ww] oo] gg] ll] & Er & E1). injection E1 as <- _ _ <-.
        exact (exch_counts p E j e0 e ws g w o ee ww oo gg ll Ew Eo HC Er). }
    destruct (IH ws1 g1 r' ws2 g2 l2 E2 ss0 (S p) E (pre ++ [b])) as (d & D1 & D2 & D3); [rewrite app_length; cbn; lia|exact HCs|].
    rewrite <- app_assoc in D2, D3. cbn [app] in D2, D3. exists (b :: d). split; [econstructor; eassumption|].
    destruct (HB (pre ++ b :: d)) as [B1 B2]; [rewrite app_nth2 by lia; rewrite Hp, Nat.sub_diag; reflexivity|].
    split; [split; [exact B1|exact D2]|]. cbn [lines_from]. rewrite B2, D3. reflexivity.
Qed.

Lemma firstn_snoc {T} (E : list T) E' j : j <= List.length E -> firstn j (E ++ E') = firstn j E.
Proof. intros H. rewrite firstn_app. replace (j - List.length E) with 0 by lia. cbn. apply app_nil_r. Qed.
Lemma lines_ext ss E E' a n : a + n <= List.length E -> lines_passes ss (E ++ E') a n = lines_passes ss E a n.
Proof.
  intros H. unfold lines_passes. rewrite !flat_map_concat_map. f_equal. apply map_ext_in. intros j Hj. apply in_seq in Hj. rewrite firstn_snoc by lia. reflexivity.
Qed.
Lemma lines_split ss E a n m : lines_passes ss E a (n + m) = lines_passes ss E a n ++ lines_passes ss E (a + n) m.
Proof. unfold lines_passes. rewrite seq_app, flat_map_app. reflexivity. Qed.
Lemma lines_one ss E d : lines_passes ss (E ++ [d]) (List.length E) 1 = lines_from 0 ss (E ++ [d]).
Proof. unfold lines_passes. cbn [seq flat_map]. rewrite app_nil_r, firstn_all2; [reflexivity|rewrite app_length; cbn; lia]. Qed.

Lemma Iterate_counts ss0 n : forall y0 y y' E l, decided y0 y E -> all_counts 0 E ss0 (y_steps y) -> Iterate_out A R X P draw n y = Ok (y', l) ->
  exists E', List.length E' = n /\ decided y0 y' (E ++ E') /\ all_counts 0 (E ++ E') ss0 (y_steps y') /\ l = lines_passes ss0 (E ++ E') (List.length E) n.
Proof.
  induction n as [|n IH]; intros y0 y y' E l HD HC H.
  - cbn in H. injection H as <- <-. exists []. rewrite app_nil_r. repeat split; assumption.
  - cbn [Iterate_out] in H. apply bind_Ok in H. destruct H as ([[[ss ws] g] l1] & E1 & H). apply bind_Ok in H. destruct H as ([y2 l2] & E2 & H). injection H as <- <-.
    destruct (sweep_counts _ _ _ _ _ _ _ E1 ss0 0 E [] eq_refl HC) as (d & D1 & D2 & D3). cbn [app] in D2, D3.
    destruct (IH y0 (mkSys ws ss g) y2 (E ++ [d]) l2) as (E' & L & D4 & D5 & D6); [econstructor; [exact HD|exact D1]|exact D2|exact E2|].
    exists (d :: E'). rewrite <- app_assoc in D4, D5, D6. cbn [app] in D4, D5, D6. split; [cbn; lia|]. split; [exact D4|]. split; [exact D5|].
    change (S n) with (1 + n). rewrite lines_split. rewrite D6, D3. rewrite app_length. cbn [List.length]. f_equal.
    change (d :: E') with ([d] ++ E'). rewrite app_assoc, lines_ext by (rewrite app_length; cbn; lia). symmetry. apply lines_one.
Qed.
Lemma save_steps (t : tracked) cur (y y' : sys) : SaveValues t cur y = Ok y' -> y_steps y' = y_steps y.
Proof. unfold SaveValues. intros H. apply bind_Ok in H. destruct H as (ws & _ & H). injection H as <-. reflexivity. Qed.
Lemma sample_counts ss0 thin t n : forall cur y0 y y' E l, decided y0 y E -> all_counts 0 E ss0 (y_steps y) -> sample_loop_out A R X P draw n cur thin t y = Ok (y', l) ->
  exists E', List.length E' = n * thin /\ decided y0 y' (E ++ E') /\ all_counts 0 (E ++ E') ss0 (y_steps y') /\ l = lines_passes ss0 (E ++ E') (List.length E) (n * thin).
Proof.
  induction n as [|n IH]; intros cur y0 y y' E l HD HC H.
  - cbn in H. injection H as <- <-. exists []. rewrite app_nil_r. repeat split; assumption.
  - cbn [sample_loop_out] in H. apply bind_Ok in H. destruct H as ([y1 l1] & E1 & H). apply bind_Ok in H. destruct H as (y2 & E2 & H). apply bind_Ok in H. destruct H as ([y3 l2] & E3 & H). injection H as <- <-.
    destruct (Iterate_counts ss0 thin y0 y y1 E l1 HD HC E1) as (F1 & L1 & D1 & D2 & D3).
    destruct (IH (S cur) y0 y2 y3 (E ++ F1) l2) as (F2 & L2 & G1 & G2 & G3); [econstructor; eassumption|rewrite (save_steps _ _ _ _ E2); exact D2|exact E3|].
    exists (F1 ++ F2). rewrite <- app_assoc in G1, G2. rewrite app_length. split; [cbn; lia|]. split; [exact G1|]. split; [exact G2|].
    cbn [Nat.mul]. rewrite lines_split. rewrite G3, D3, app_length, L1. f_equal; [|rewrite app_assoc; reflexivity]. rewrite app_assoc, (lines_ext ss0 (E ++ F1) F2) by (rewrite app_length; lia). reflexivity.
Qed.
Lemma fresh_counts p ss : Forall fresh ss -> all_counts p [] ss ss.
Proof.
  intros H. revert p. induction H as [|s ss Hs _ IH]; intros p; [exact I|]. split; [|apply IH].
  destruct s as [i r|i e]; destruct Hs as [H1 H2]; cbn; rewrite H1, H2; repeat split. - rewrite skipn_nil. reflexivity.
Qed.

(** Sampler::Run with newly added steps *)
Lemma Run_lines N burnin thin t init y y' out : Forall fresh (y_steps y) -> Run_out A R X P draw N burnin thin t init y = Ok (y', out) ->
  exists (use : bool) v y0 E, List.length E = burnin + N * thin /\ y_steps y0 = y_steps y /\ decided y0 y' E /\
    out = [LSteps (List.length (y_steps y)); LTracked (List.length t); if use then LUser else LPriors; LInit v; LBurnin burnin] ++
      lines_passes (y_steps y) E 0 burnin ++ [LSampling] ++ lines_passes (y_steps y) E burnin (N * thin).
Proof.
  intros Hf H. unfold Run_out in H. apply bind_Ok in H. destruct H as (ws1 & _ & H). apply bind_Ok in H. destruct H as (s0 & Es0 & H). apply bind_Ok in H. destruct H as (w0 & _ & H).
  cbv zeta in H. set (use := _ =? _) in H. apply bind_Ok in H. destruct H as ([[ws2 g2] l1] & E1 & H). apply bind_Ok in H. destruct H as ([y3 l2] & E2 & H).
  apply bind_Ok in H. destruct H as ([y4 l3] & E3 & H). injection H as <- <-.
  assert (exists v, l1 = [LInit v]) as (v & ->).
  { apply vgetU_nth in Es0. destruct (y_steps y) as [|s ss]; [discriminate Es0|]. cbn [start_loop_out] in E1. apply bind_Ok in E1. destruct E1 as (w & _ & E1).
    apply bind_Ok in E1. destruct E1 as ([[v x] g1] & _ & E1). apply bind_Ok in E1. destruct E1 as (w' & _ & E1). apply bind_Ok in E1. destruct E1 as ([? ?] & _ & E1). injection E1 as _ _ <-. eexists. reflexivity. }
  set (y0 := mkSys ws2 (y_steps y) g2) in *.
  destruct (Iterate_counts (y_steps y) burnin y0 y0 y3 [] l2 (dd_0 y0) (fresh_counts 0 _ Hf) E2) as (F1 & L1 & D1 & D2 & D3). cbn [app] in D1, D2, D3.
  destruct (sample_counts (y_steps y) thin t N 0 y0 y3 y4 F1 l3 D1 D2 E3) as (F2 & L2 & G1 & G2 & G3).
  exists use, v, y0, (F1 ++ F2). split; [rewrite app_length; lia|]. split; [reflexivity|]. split; [exact G1|].
  rewrite D3, G3, L1. cbn [List.length]. rewrite (lines_ext (y_steps y) F1 F2 0 burnin) by lia. reflexivity.
Qed.
End Steps.
End Print.
