(** KalmanFilter1 under arbitrary call sequences, for every arithmetic. *)
From Coq Require Import List Arith ZArith Lia Bool.
From Verif Require Import Arith Res ListLemmas KFModel KF1Proof History KF1X.
Import ListNotations.

Section H.
Variable A : Arith.
Variable G : Type.
Variable draw : G -> F A * G.
Variable vsort : list (F A) -> option (list (F A)).
Local Notation id1 := (fun x : F A => x).
Local Notation run1 := (run_calls (methods1 A) (setpar1 A) draw vsort).

(** calls that only ask for results *)
Definition query {Par} (c : call A Par) : Prop :=
  match c with CFilter _ _ | CPredict _ _ _ | CSimulate _ _ _ => True | _ => False end.

Lemma fold_query {Par} (l : list (call A Par)) u : Forall query l -> fold_left (fun u c => spec_call c u) l u = u.
Proof.
  revert u; induction l as [|c l IH]; intros u H; [reflexivity|]. inversion H as [|? ? Hc Hl]; subst.
  cbn [fold_left]. rewrite IH by exact Hl. destruct c; try contradiction; reflexivity.
Qed.

Lemma query_ok {Par} n (l : list (call A Par)) : Forall query l -> Forall (call_ok n) l.
Proof. intros H. eapply Forall_impl; [|exact H]. intros [] Hc; try exact I; contradiction. Qed.

Lemma hist1 l (s0 : kf1 A) g0 s g fresh :
  usable s0 -> Forall (call_ok (length (k_time s0))) l ->
  run1 l (s0, g0) = Ok (s, g) ->
  usable fresh -> setup_of id1 fresh = fold_left (fun u c => spec_call c u) l (setup_of id1 s0) ->
  obs_filter (Filter (methods1 A) s) = obs_filter (Filter (methods1 A) fresh) /\
  (forall t, obs_fst (Predict1 s t) = obs_fst (Predict1 fresh t)) /\
  (forall ts g', obs_sim (Simulate (methods1 A) draw vsort s ts g') = obs_sim (Simulate (methods1 A) draw vsort fresh ts g')).
Proof.
  intros H1 H2 H3 H4 H5.
  exact (history_independent (setpar1 A) draw vsort (pureF1 A) (pureP1 A) (good_data1 A) (setpar_ok1 A) g0 H1 I H2 H3 H4 I H5).
Qed.

Lemma intact1 l (s0 : kf1 A) g0 s g : usable s0 -> Forall query l -> run1 l (s0, g0) = Ok (s, g) ->
  k_time s = k_time s0 /\ k_dt s = k_dt s0 /\ k_y s = k_y s0 /\ k_yerr s = k_yerr s0 /\ k_sig s = k_sig s0 /\ k_ext s = k_ext s0.
Proof.
  intros H1 H2 H3.
  destruct (@run_calls_setup A (F A) (F A) id1 (methods1 A) (setpar1 A) G draw vsort (good1 A) (pf1 A) (pp1 A)
              (pureF1 A) (pureP1 A) (good_data1 A) (setpar_ok1 A) l s0 g0 s g H1 I (query_ok _ _ H2) H3) as [E _].
  rewrite (fold_query _ _ H2) in E. injection E as E1 E2 E3 E4 E5 E6. repeat split; assumption.
Qed.

Lemma setup1 l (s0 : kf1 A) g0 s g : usable s0 -> Forall (call_ok (length (k_time s0))) l -> run1 l (s0, g0) = Ok (s, g) ->
  usable s /\ setup_of id1 s = fold_left (fun u c => spec_call c u) l (setup_of id1 s0).
Proof.
  intros H1 H2 H3.
  destruct (@run_calls_setup A (F A) (F A) id1 (methods1 A) (setpar1 A) G draw vsort (good1 A) (pf1 A) (pp1 A)
              (pureF1 A) (pureP1 A) (good_data1 A) (setpar_ok1 A) l s0 g0 s g H1 I H2 H3) as (E & Hu & _).
  split; assumption.
Qed.

Lemma psim_loop_total ts : forall st, exists st', psim_loop draw (pp1 A) ts st = Ok st'.
Proof.
  induction ts as [|t ts IH]; intros [[o u] g]; [eexists; reflexivity|].
  cbn [psim_loop psim_step pp1 bind].
  destruct (predpure A (s_time u) (s_dt u) (s_y u) (s_yerr u) (s_sig u) (s_par u) t) as [m v].
  destruct (rnormal A draw m (fsqrt A v) g) as [yv g']. apply IH.
Qed.

Lemma total1 l : forall (s0 : kf1 A) g0, usable s0 -> Forall (call_ok (length (k_time s0))) l ->
  (forall ts, vsort ts <> None) ->
  exists s g, run1 l (s0, g0) = Ok (s, g) /\ usable s.
Proof.
  induction l as [|c l IH]; intros s0 g0 Hu Hl Hv; [exists s0, g0; split; [reflexivity|exact Hu]|].
  assert (exists s1 g1, run1 [c] (s0, g0) = Ok (s1, g1)) as (s1 & g1 & E1).
  { cbn [run_calls]. destruct c as [|t|ts|y|e|sg|p]; cbn [run_call]; try (eexists _, _; reflexivity).
    - destruct (pureF1 A s0 Hu I) as [Ho _]. destruct (Filter (methods1 A) s0); try discriminate Ho. eexists _, _; reflexivity.
    - destruct (pureP1 A s0 t Hu I) as [Ho _]. destruct (m_Predict (methods1 A) s0 t) as [[]|?| |]; try discriminate Ho. eexists _, _; reflexivity.
    - destruct (Simulate_pure draw vsort (pureP1 A) (good_data1 A) ts g0 Hu I) as [Ho _].
      unfold psim in Ho. destruct (vsort ts) as [sorted|] eqn:Es; [|destruct (Hv ts Es)].
      destruct (psim_loop_total sorted ([], setup_of id1 s0, g0)) as [[[o u] g'] El]. rewrite El in Ho. cbn [bind] in Ho.
      destruct (Simulate (methods1 A) draw vsort s0 ts g0) as [[[? ?] ?]|?| |]; try discriminate Ho. eexists _, _; reflexivity. }
  assert (usable s1 /\ length (k_time s1) = length (k_time s0)) as [Hu1 Hn1].
  { inversion Hl; subst. destruct (setup1 [c] s0 g0 s1 g1 Hu) as [Hu1 E]; [constructor; [assumption|constructor]|exact E1|].
    split; [exact Hu1|]. cbn [fold_left] in E.
    assert (k_time s1 = s_time (setup_of id1 s1)) as -> by reflexivity. rewrite E. destruct c; reflexivity. }
  cbn [run_calls] in E1 |- *. destruct (run_call (methods1 A) (setpar1 A) draw vsort c (s0, g0)) as [[s2 g2]|?| |]; try discriminate E1.
  cbn [bind] in *. injection E1 as -> ->. apply IH; [exact Hu1| |exact Hv]. rewrite Hn1. inversion Hl; assumption.
Qed.
End H.
