(** Proofs about the constructors which take the data alone. *)
From Coq Require Import List Arith ZArith Bool.
From Verif Require Import Arith Res KFModel Cx KFpModel CtorModel.
Import ListNotations.

Set Implicit Arguments.

(** the data of two objects agree *)
Definition same_data {A X Y} (s : kf A X) (s' : kf A Y) : Prop :=
  k_time s = k_time s' /\ k_dt s = k_dt s' /\ k_y s = k_y s' /\ k_yerr s = k_yerr s' /\ k_mean s = k_mean s' /\ k_var s = k_var s'.

(** init() reads the data only and leaves the parameters alone *)
Lemma init_data A X Y si (s0 : kf A X) (s0' : kf A Y) : k_time s0 = k_time s0' -> k_y s0 = k_y s0' -> k_yerr s0 = k_yerr s0' ->
  match kf_init si s0, kf_init si s0' with
  | Ok s, Ok s' => same_data s s' /\ k_mean s = map (fun _ => fofZ A 0) (k_time s) /\ k_var s = map (fun _ => fofZ A 0) (k_time s) /\ k_sig s = k_sig s0 /\ k_ext s = k_ext s0 /\ k_sig s' = k_sig s0' /\ k_ext s' = k_ext s0'
  | Throw e, Throw e' => e = e'
  | UB, UB => True
  | Diverge, Diverge => True
  | _, _ => False
  end.
Proof.
  intros E1 E2 E3. unfold kf_init. rewrite <- E1, <- E2, <- E3.
  assert (forall l : list (F A), zeros A (length l) = map (fun _ => fofZ A 0) l) as HZ.
  { unfold zeros. induction l as [|x l IH]; cbn; [reflexivity|]. rewrite IH. reflexivity. }
  destruct (make_dt A (k_time s0)) as [d|ex| |]; cbn [bind]; try reflexivity; try exact I.
  destruct (vmin A d) as [m|ex| |]; cbn [bind]; try reflexivity; try exact I.
  set (r := if flt A m (fofZ A 0) then _ else Ok (set_dt s0 d)). set (r' := if flt A m (fofZ A 0) then _ else Ok (set_dt s0' d)).
  assert (match r, r' with
    | Ok s, Ok s' => k_time s = k_time s' /\ k_dt s = k_dt s' /\ k_y s = k_y s' /\ k_yerr s = k_yerr s' /\ k_sig s = k_sig s0 /\ k_ext s = k_ext s0 /\ k_sig s' = k_sig s0' /\ k_ext s' = k_ext s0'
    | Throw e, Throw e' => e = e' | UB, UB => True | Diverge, Diverge => True | _, _ => False end) as H.
  { unfold r, r'. destruct (flt A m (fofZ A 0)).
    - destruct (si (k_time s0)) as [idx|]; [|reflexivity].
      destruct (velem (k_time s0) idx) as [t|ex| |]; cbn [bind]; try reflexivity; try exact I.
      destruct (velem (k_y s0) idx) as [y|ex| |]; cbn [bind]; try reflexivity; try exact I.
      destruct (velem (k_yerr s0) idx) as [e|ex| |]; cbn [bind]; try reflexivity; try exact I.
      destruct (make_dt A t) as [d'|ex| |]; cbn [bind]; try reflexivity; try exact I. cbn. repeat split.
    - cbn. repeat split; assumption. }
  destruct r as [s1|ex| |], r' as [s1'|ex'| |]; cbn [bind]; try contradiction; try exact H. clear E1 E2 E3.
  destruct H as (E1 & Ed & E2 & E3 & S1 & X1 & S2 & X2). rewrite <- E1, <- E2, <- E3, <- Ed.
  destruct (vmin A (k_dt s1)) as [m'|ex| |]; cbn [bind]; try reflexivity; try exact I.
  destruct (feq A m' (fofZ A 0)).
  - destruct (velem (k_time s1) _) as [t|ex| |]; cbn [bind]; try reflexivity; try exact I.
    destruct (velem (k_y s1) _) as [y|ex| |]; cbn [bind]; try reflexivity; try exact I.
    destruct (velem (k_yerr s1) _) as [e|ex| |]; cbn [bind]; try reflexivity; try exact I.
    destruct (make_dt A t) as [d'|ex| |]; cbn [bind]; try reflexivity; try exact I. unfold same_data. cbn -[zeros]. rewrite HZ. repeat split; assumption.
  - cbn [bind]. unfold same_data. cbn -[zeros]. rewrite <- E1, HZ. repeat split; assumption.
Qed.

Theorem data_only A X Y si (raw : kf A X) (raw' : kf A Y) t y e :
  match kf_new si raw t y e, kf_new si raw' t y e with
  | Ok s, Ok s' => same_data s s' /\ k_mean s = map (fun _ => fofZ A 0) (k_time s) /\ k_var s = map (fun _ => fofZ A 0) (k_time s) /\ k_sig s = k_sig raw /\ k_ext s = k_ext raw /\ k_sig s' = k_sig raw' /\ k_ext s' = k_ext raw'
  | Throw e, Throw e' => e = e'
  | UB, UB => True
  | Diverge, Diverge => True
  | _, _ => False
  end.
Proof.
  exact (init_data si (SetTimeSeriesErr (SetTimeSeries (SetTime raw t) y) e) (SetTimeSeriesErr (SetTimeSeries (SetTime raw' t) y) e) eq_refl eq_refl eq_refl).
Qed.

(** an object of KalmanFilterp without parameters *)
Lemma kfp_data_throws A si (raw : kfp A) t y e s (solve : list (list (cx A)) -> list (cx A) -> option (list (cx A))) (p : nat) : kfp_data si raw t y e = Ok s ->
  Filter (methods_p solve p) s = Throw Elogic /\ (forall x, Predict_p solve p s x = Throw Elogic) /\
  (forall G (draw : G -> F A * G) vsort ts g, ts <> [] -> (forall l, vsort ts = Some l -> l <> []) -> Simulate (methods_p solve p) draw vsort s ts g = Throw Elogic).
Proof.
  intros E. unfold kfp_data in E. pose proof (data_only si (no_params raw) (no_params raw) t y e) as H. rewrite E in H. destruct H as (_ & _ & _ & _ & Hx & _).
  assert (Reset_p solve p s = Throw Elogic) as HR.
  { unfold Reset_p. rewrite Hx. cbn. destruct p as [|[|p]]; reflexivity. }
  assert (forall x, Predict_p solve p s x = Throw Elogic) as HP.
  { intros x. unfold Predict_p, ipredict. destruct (k_time s); cbn [bind]; [reflexivity|]. rewrite HR. reflexivity. }
  split; [unfold Filter; cbn [m_Reset methods_p]; rewrite HR; reflexivity|]. split; [exact HP|].
  intros G draw vsort ts g Hne Hs. unfold Simulate. destruct (vsort ts) as [[|x l]|]; [exfalso; exact (Hs [] eq_refl eq_refl)| |reflexivity].
  cbn [sim_loop sim_step m_Predict methods_p]. rewrite HP. reflexivity.
Qed.
