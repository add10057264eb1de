(** Sequences of calls on a filter object: the model of a user's call history, and its independence lemmas.
    The call language is the public interface of src/include/kfilter.hpp L78-184 and
    src/boost_python_wrapper.cpp L83-101. *)
From Coq Require Import List Arith ZArith Lia Bool.
From Verif Require Import Arith Res ListLemmas KFModel.
Import ListNotations.

Set Implicit Arguments.

Section Hist.
Variable A : Arith.
Variables X Par : Type.
Variable par : X -> Par.            (* the parameters held in the subclass members *)
Local Notation F := (F A).
Local Notation kf := (kf A X).
Local Notation "# z" := (fofZ A z) (at level 5).

(** Data and parameters of a filter object: what a user sets. *)
Record setup := mkSetup {
  s_time : list F; s_dt : list F; s_y : list F; s_yerr : list F; s_sig : F; s_par : Par }.

Definition setup_of (s : kf) : setup :=
  mkSetup (k_time s) (k_dt s) (k_y s) (k_yerr s) (k_sig s) (par (k_ext s)).

(** A filter object as the constructors leave it: array sizes agree and dt_ is the difference of the times. *)
Definition usable (s : kf) : Prop :=
  2 <= length (k_time s) /\ k_dt s = diffs A (k_time s) /\ length (k_y s) = length (k_time s) /\
  length (k_yerr s) = length (k_time s) /\ length (k_mean s) = length (k_time s) /\
  length (k_var s) = length (k_time s).

(** What the caller can observe of a call. *)
Definition obs_filter (r : res kf) : res (list F * list F) :=
  match r with Ok s => Ok (k_mean s, k_var s) | Throw e => Throw e | UB => UB | Diverge => Diverge end.
Definition obs_fst {T U} (r : res (T * U)) : res T :=
  match r with Ok (x, _) => Ok x | Throw e => Throw e | UB => UB | Diverge => Diverge end.
Definition obs_sim {G} (r : res (list F * kf * G)) : res (list F * G) :=
  match r with Ok (out, _, g) => Ok (out, g) | Throw e => Throw e | UB => UB | Diverge => Diverge end.

(** A call. *)
Inductive call :=
| CFilter
| CPredict (t : F)
| CSimulate (ts : list F)
| CSetSeries (y : list F)
| CSetErr (e : list F)
| CSetSigsqr (sg : F)
| CSetPar (p : Par).

Variable M : methods A X.
Variable setpar : kf -> Par -> kf.       (* SetOmega (and SetMA) *)
Variable G : Type.
Variable draw : G -> F * G.
Variable vsort : list F -> option (list F).

Definition run_call (c : call) (sg : kf * G) : res (kf * G) :=
  let (s, g) := sg in
  match c with
  | CFilter => s' <- Filter M s ;; Ok (s', g)
  | CPredict t => '(_, s') <- m_Predict M s t ;; Ok (s', g)
  | CSimulate ts => '(_, s', g') <- Simulate M draw vsort s ts g ;; Ok (s', g')
  | CSetSeries y => Ok (SetTimeSeries s y, g)
  | CSetErr e => Ok (SetTimeSeriesErr s e, g)
  | CSetSigsqr v => Ok (SetSigsqr s v, g)
  | CSetPar p => Ok (setpar s p, g)
  end.

Fixpoint run_calls (l : list call) (sg : kf * G) : res (kf * G) :=
  match l with [] => Ok sg | c :: r => sg' <- run_call c sg ;; run_calls r sg' end.

(** Specification of what a call may do to data and parameters: queries nothing, setters only their field. *)
Definition spec_call (c : call) (u : setup) : setup :=
  match c with
  | CFilter | CPredict _ | CSimulate _ => u
  | CSetSeries y => mkSetup (s_time u) (s_dt u) y (s_yerr u) (s_sig u) (s_par u)
  | CSetErr e => mkSetup (s_time u) (s_dt u) (s_y u) e (s_sig u) (s_par u)
  | CSetSigsqr v => mkSetup (s_time u) (s_dt u) (s_y u) (s_yerr u) v (s_par u)
  | CSetPar p => mkSetup (s_time u) (s_dt u) (s_y u) (s_yerr u) (s_sig u) p
  end.

(** new series must have as many points as there are times *)
Definition call_ok (n : nat) (c : call) : Prop :=
  match c with CSetSeries y => length y = n | CSetErr e => length e = n | _ => True end.

(** ** Proofs *)
Variable good : kf -> Prop.              (* well-formedness of the subclass members *)

(** the filter results are functions of the setup *)
Definition pureF (pf : setup -> res (list F * list F)) : Prop :=
  forall s, usable s -> good s ->
    obs_filter (Filter M s) = pf (setup_of s) /\
    (forall s', Filter M s = Ok s' -> setup_of s' = setup_of s /\ usable s' /\ good s').
Definition pureP (pp : setup -> F -> res (F * F)) : Prop :=
  forall s t, usable s -> good s ->
    obs_fst (m_Predict M s t) = pp (setup_of s) t /\
    (forall r s', m_Predict M s t = Ok (r, s') -> setup_of s' = setup_of s /\ usable s' /\ good s').

Variable pf : setup -> res (list F * list F).
Variable pp : setup -> F -> res (F * F).
Hypothesis HF : pureF pf.
Hypothesis HP : pureP pp.
Hypothesis good_data : forall s t d y e m v sg c a b,
  good s -> good (mkKF A t d y e m v sg c a b (k_ext s)).
Hypothesis setpar_ok : forall s p, usable s -> good s ->
  usable (setpar s p) /\ good (setpar s p) /\ setup_of (setpar s p) = spec_call (CSetPar p) (setup_of s).

Lemma diffs_len l : length (diffs A l) = length l - 1.
Proof.
  induction l as [|a l IH]; [reflexivity|]. destruct l as [|b l]; [reflexivity|].
  change (length (diffs A (a :: b :: l))) with (S (length (diffs A (b :: l)))). rewrite IH. simpl. lia.
Qed.

Lemma make_dt_ok l : 2 <= length l -> make_dt A l = Ok (diffs A l).
Proof. intros H. unfold make_dt. destruct (Nat.ltb_spec (length l) 2); [lia|reflexivity]. Qed.

Lemma zeros_len n : length (zeros A n) = n.
Proof. apply repeat_length. Qed.

Lemma vinsert_ok T (l : list T) i v : i <= length l -> vinsert l i v = Ok (firstn i l ++ v :: skipn i l).
Proof. intros H. unfold vinsert. apply Nat.leb_le in H. rewrite H. reflexivity. Qed.

Lemma insert_len T (l : list T) i v : i <= length l -> length (firstn i l ++ v :: skipn i l) = S (length l).
Proof. intros H. rewrite app_length. simpl. rewrite firstn_length, skipn_length. lia. Qed.

Lemma lt_prefix_le' l t : lt_prefix A l t <= length l.
Proof. induction l as [|x l IH]; simpl; [lia|]. destruct (flt A x t); lia. Qed.

(** the simulation loop on setups *)
Definition ins {T} (i : nat) (v : T) (l : list T) : list T := firstn i l ++ v :: skipn i l.
Definition psim_step (t : F) (st : list F * setup * G) : res (list F * setup * G) :=
  let '(out, u, g) := st in
  '(m, v) <- pp u t ;;
  let (yv, g') := rnormal A draw m (fsqrt A v) g in
  let ip := lt_prefix A (s_time u) t in
  let t' := ins ip t (s_time u) in
  Ok (out ++ [yv], mkSetup t' (diffs A t') (ins ip yv (s_y u)) (ins ip (#0) (s_yerr u)) (s_sig u) (s_par u), g').
Fixpoint psim_loop (ts : list F) (st : list F * setup * G) : res (list F * setup * G) :=
  match ts with [] => Ok st | t :: r => st' <- psim_step t st ;; psim_loop r st' end.
Definition psim (u : setup) (ts : list F) (g : G) : res (list F * G) :=
  match vsort ts with
  | None => Throw Elogic
  | Some sorted => '(out, _, g') <- psim_loop sorted ([], u, g) ;; Ok (out, g')
  end.

Definition sim_rel (r : res (list F * kf * G)) (p : res (list F * setup * G)) : Prop :=
  match r, p with
  | Ok (o, s, g), Ok (o', u, g') => o = o' /\ setup_of s = u /\ g = g' /\ usable s /\ good s
  | Throw e, Throw e' => e = e'
  | UB, UB => True
  | Diverge, Diverge => True
  | _, _ => False
  end.

Lemma sim_step_rel t out s g : usable s -> good s ->
  sim_rel (sim_step M draw t (out, s, g)) (psim_step t (out, setup_of s, g)).
Proof using HP good_data.
  intros Hu Hg. destruct (@HP s t Hu Hg) as [HPo HPs]. unfold sim_step, psim_step.
  destruct (m_Predict M s t) as [[[m v] s1]|e| |] eqn:E; cbn [obs_fst] in HPo; rewrite <- HPo; cbn [bind]; try reflexivity; try exact I.
  destruct (HPs _ _ eq_refl) as (Hs & Hu1 & Hg1).
  destruct (rnormal A draw m (fsqrt A v) g) as [yv g'].
  destruct Hu1 as (Hn & Hdt & Hy & He & Hm & Hv).
  unfold insert_pos. destruct (k_time s1) as [|t0 tl] eqn:Et; [simpl in Hn; lia|]. rewrite <- Et in *. cbn [bind].
  set (ip := lt_prefix A (k_time s1) t). assert (ip <= length (k_time s1)) as Hip by apply lt_prefix_le'.
  rewrite !vinsert_ok by lia. cbn [bind].
  rewrite make_dt_ok by (rewrite insert_len; lia). cbn [bind].
  injection Hs as E1 E2 E3 E4 E5 E6. cbn [setup_of s_time s_y s_yerr s_sig s_par].
  rewrite <- E1, <- E3, <- E4, <- E5, <- E6.
  cbn [sim_rel]. split; [reflexivity|]. split; [reflexivity|]. split; [reflexivity|]. split.
  - unfold usable; cbn. fold ip. rewrite ?zeros_len. rewrite !insert_len by lia. repeat split; lia.
  - apply (@good_data s1 _ _ _ _ _ _ _ _ _ _ Hg1).
Qed.

Lemma sim_loop_rel ts : forall out s g, usable s -> good s ->
  sim_rel (sim_loop M draw ts (out, s, g)) (psim_loop ts (out, setup_of s, g)).
Proof using HP good_data.
  induction ts as [|t ts IH]; intros out s g Hu Hg.
  - cbn. repeat split; try reflexivity; assumption || apply Hu.
  - cbn [sim_loop psim_loop]. pose proof (@sim_step_rel t out s g Hu Hg) as H.
    destruct (sim_step M draw t (out, s, g)) as [[[o1 s1] g1]|e| |],
             (psim_step t (out, setup_of s, g)) as [[[o2 u2] g2]|e'| |]; cbn [sim_rel bind] in *; try contradiction; try assumption.
    destruct H as (-> & <- & -> & Hu1 & Hg1). apply IH; assumption.
Qed.

Lemma psim_loop_par ts : forall o u g o' u' g', psim_loop ts (o, u, g) = Ok (o', u', g') ->
  s_sig u' = s_sig u /\ s_par u' = s_par u.
Proof.
  induction ts as [|t ts IH]; intros o u g o' u' g' H.
  - cbn in H. injection H as _ <- _. split; reflexivity.
  - cbn [psim_loop] in H. apply bind_Ok in H. destruct H as [[[o1 u1] g1] [H1 H2]].
    apply IH in H2. unfold psim_step in H1. apply bind_Ok in H1. destruct H1 as [[m v] [_ H1]].
    destruct (rnormal A draw m (fsqrt A v) g) as [yv g2]. injection H1 as _ <- _. exact H2.
Qed.

Lemma Simulate_pure s ts g : usable s -> good s ->
  obs_sim (Simulate M draw vsort s ts g) = psim (setup_of s) ts g /\
  (forall out s' g', Simulate M draw vsort s ts g = Ok (out, s', g') ->
     setup_of s' = setup_of s /\ usable s' /\ good s' /\
     k_mean s' = zeros A (length (k_time s)) /\ k_var s' = zeros A (length (k_time s))).
Proof using HP good_data.
  intros Hu Hg. unfold Simulate, psim. destruct (vsort ts) as [sorted|]; [|split; [reflexivity|discriminate]].
  pose proof (@sim_loop_rel sorted [] s g Hu Hg) as H.
  destruct (sim_loop M draw sorted ([], s, g)) as [[[o1 s1] g1]|e| |],
           (psim_loop sorted ([], setup_of s, g)) as [[[o2 u2] g2]|e'| |] eqn:Ep; cbn [sim_rel bind] in *; try contradiction;
    try (split; [subst; reflexivity|discriminate]).
  destruct H as (-> & Hs1 & -> & Hu1 & Hg1).
  apply psim_loop_par in Ep. destruct Ep as [Esig Epar]. rewrite <- Hs1 in Esig, Epar. cbn in Esig, Epar.
  destruct Hu as (Hn & Hdt & Hy & He & Hm & Hv).
  rewrite make_dt_ok by exact Hn. cbn [bind obs_sim]. split; [reflexivity|].
  intros out s' g' E. injection E as <- <- <-. split; [|split; [|split; [|split]]].
  - unfold setup_of; cbn. rewrite Esig, Epar, Hdt. reflexivity.
  - unfold usable; cbn. rewrite !zeros_len. repeat split; try assumption.
  - apply (@good_data s1 _ _ _ _ _ _ _ _ _ _ Hg1).
  - reflexivity.
  - reflexivity.
Qed.

Lemma run_call_setup c s g s' g' : usable s -> good s -> call_ok (length (k_time s)) c ->
  run_call c (s, g) = Ok (s', g') ->
  setup_of s' = spec_call c (setup_of s) /\ usable s' /\ good s' /\ k_time s' = k_time s.
Proof using All.
  intros Hu Hg Hc H.
  assert (forall s s', setup_of s' = setup_of s -> k_time s' = k_time s) as Ht
    by (intros a b E; injection E; trivial).
  destruct c as [|t|ts|y|e|v|p]; cbn [run_call] in H.
  - apply bind_Ok in H. destruct H as [s1 [E H]]. injection H as <- <-.
    destruct (@HF s Hu Hg) as [_ Hs]. destruct (Hs _ E) as (? & ? & ?). repeat split; try assumption; [apply H0..|].
    apply Ht; assumption.
  - apply bind_Ok in H. destruct H as [[r s1] [E H]]. injection H as <- <-.
    destruct (@HP s t Hu Hg) as [_ Hs]. destruct (Hs _ _ E) as (? & ? & ?). repeat split; try assumption; [apply H0..|].
    apply Ht; assumption.
  - apply bind_Ok in H. destruct H as [[[out s1] g1] [E H]]. injection H as <- <-.
    destruct (@Simulate_pure s ts g Hu Hg) as [_ Hs]. destruct (Hs _ _ _ E) as (? & ? & ? & _).
    repeat split; try assumption; [apply H0..|]. apply Ht; assumption.
  - injection H as <- <-. split; [reflexivity|]. destruct Hu as (Hn & Hdt & Hy & He & Hm & Hv).
    split; [unfold usable; cbn; repeat split; assumption|]. split; [|reflexivity].
    apply (@good_data s _ _ _ _ _ _ _ _ _ _ Hg).
  - injection H as <- <-. split; [reflexivity|]. destruct Hu as (Hn & Hdt & Hy & He & Hm & Hv).
    split; [unfold usable; cbn; repeat split; assumption|]. split; [|reflexivity].
    apply (@good_data s _ _ _ _ _ _ _ _ _ _ Hg).
  - injection H as <- <-. split; [reflexivity|]. destruct Hu as (Hn & Hdt & Hy & He & Hm & Hv).
    split; [unfold usable; cbn; repeat split; assumption|]. split; [|reflexivity].
    apply (@good_data s _ _ _ _ _ _ _ _ _ _ Hg).
  - injection H as <- <-. destruct (@setpar_ok s p Hu Hg) as (H1 & H2 & H3). split; [exact H3|].
    split; [exact H1|]. split; [exact H2|]. injection H3; trivial.
Qed.

Lemma run_calls_setup l : forall s g s' g', usable s -> good s ->
  Forall (call_ok (length (k_time s))) l ->
  run_calls l (s, g) = Ok (s', g') ->
  setup_of s' = fold_left (fun u c => spec_call c u) l (setup_of s) /\ usable s' /\ good s'.
Proof using All.
  induction l as [|c l IH]; intros s g s' g' Hu Hg Hf H.
  - injection H as <- <-. repeat split; try assumption; apply Hu.
  - cbn [run_calls] in H. apply bind_Ok in H. destruct H as [[s1 g1] [E H]].
    inversion Hf as [|? ? Hc Hr]; subst.
    destruct (run_call_setup c g Hu Hg Hc E) as (Hs & Hu1 & Hg1 & Ht).
    cbn [fold_left]. rewrite <- Hs. apply (IH s1 g1 s' g' Hu1 Hg1); [rewrite Ht; exact Hr|exact H].
Qed.

(** after any history the results are those of any other usable object with the same setup *)
Lemma history_independent l s0 g0 s g fresh :
  usable s0 -> good s0 -> Forall (call_ok (length (k_time s0))) l ->
  run_calls l (s0, g0) = Ok (s, g) ->
  usable fresh -> good fresh ->
  setup_of fresh = fold_left (fun u c => spec_call c u) l (setup_of s0) ->
  obs_filter (Filter M s) = obs_filter (Filter M fresh) /\
  (forall t, obs_fst (m_Predict M s t) = obs_fst (m_Predict M fresh t)) /\
  (forall ts g', obs_sim (Simulate M draw vsort s ts g') = obs_sim (Simulate M draw vsort fresh ts g')).
Proof using All.
  intros Hu Hg Hf H Huf Hgf Hs.
  destruct (@run_calls_setup l s0 g0 s g Hu Hg Hf H) as (E & Hu1 & Hg1).
  split; [|split].
  - destruct (@HF s Hu1 Hg1) as [-> _]. destruct (@HF fresh Huf Hgf) as [-> _]. congruence.
  - intros t. destruct (@HP s t Hu1 Hg1) as [-> _]. destruct (@HP fresh t Huf Hgf) as [-> _]. congruence.
  - intros ts g'. destruct (@Simulate_pure s ts g' Hu1 Hg1) as [-> _].
    destruct (@Simulate_pure fresh ts g' Huf Hgf) as [-> _]. congruence.
Qed.
End Hist.
