(** C119: filter objects constructed from the data alone. *)
From Coq Require Import Reals List Arith ZArith Bool Lra Lia.
From Coquelicot Require Import Complex.
From Verif Require Import Arith Res KFModel Emb Spec InitProof KF1Main KF1More Cx KFpModel CtorModel CtorProof.
Import ListNotations.
Local Open Scope R_scope.
Local Notation length := List.length.

(** C119, the data: whether the constructor is given parameters makes no difference to the data it keeps nor to the errors it raises, and the means and variances
    are zero before the first call; in every arithmetic. *)
Theorem C119_kf1_data : forall (A : Arith) si (raw raw' : kf1 A) (t y e : list (F A)) (sig w : F A),
  match kf1_data si raw t y e, kf1_full si raw' t y e sig w with
  | Ok s, Ok s' => k_time s = k_time s' /\ k_dt s = k_dt s' /\ k_y s = k_y s' /\ k_yerr s = k_yerr s' /\
      k_mean s = map (fun _ => fofZ A 0) (k_time s) /\ k_var s = map (fun _ => fofZ A 0) (k_time s) /\ k_sig s' = sig /\ k_ext s' = w
  | Throw x, Throw x' => x = x'
  | UB, UB => True
  | Diverge, Diverge => True
  | _, _ => False
  end.
Proof.
  intros A si raw raw' t y e sig w. unfold kf1_data, kf1_full. pose proof (data_only si raw (SetOmega1 (SetSigsqr raw' sig) w) t y e) as H.
  destruct (kf_new si raw t y e) as [s|x| |], (kf_new si (SetOmega1 (SetSigsqr raw' sig) w) t y e) as [s'|x'| |]; try exact H.
  destruct H as ((H1 & H2 & H3 & H4 & H5 & H6) & H7 & H8 & H9 & H10 & H11 & H12). repeat split; assumption.
Qed.
Print Assumptions C119_kf1_data.

(** C119 is false for the results: what Filter() computes is not determined by the arguments of KalmanFilter1(time, y, yerr). For all data, whatever number v above
    the squared error bar of the first measurement is asked for, there are contents of the memory with which Filter() reports v as the first variance. *)
Theorem C119_kf1_refuted : forall (si : list (F AX) -> option (list nat)) (t y e : list R) (v : R), valid_sort_index si -> length y = length t -> length e = length t -> strictly_increasing t -> (2 <= length t)%nat ->
  nth 0 e 0 * nth 0 e 0 < v ->
  exists (raw : kf1 AX) s s', kf1_data (A := AX) si raw (map Fin t) (map Fin y) (map Fin e) = Ok s /\ Filter (methods1 AX) s = Ok s' /\ nth_error (k_var s') 0 = Some (Fin v).
Proof.
  intros si t y e v Hsi Hy He Ht H2 Hv. set (c := v - nth 0 e 0 * nth 0 e 0).
  set (raw := mkKF AX [] [] [] [] [] [] (Fin (2 * c)) 0%nat (Fin 0) (Fin 0) (Fin 1)).
  assert (exists a b, In a t /\ In b t /\ a <> b) as Hd.
  { exists (nth 0 t 0), (nth 1 t 0). split; [apply nth_In; lia|]. split; [apply nth_In; lia|]. pose proof (Ht 0%nat 1%nat). intros Q. assert (nth 0 t 0 < nth 1 t 0) by (apply Ht; lia). lra. }
  destruct (construct_main _ si raw t y e Hsi Hy He Hd) as (s & t' & y' & e' & E & E1 & E2 & E3 & _ & _ & _ & Hs & Hu & S1 & S2 & _).
  destruct (Hs Ht) as (-> & -> & ->). exists raw, s.
  assert (holds1 s t y e (2 * c) 1) as Hh by (split; [exact Hu|]; repeat split; assumption).
  destruct (filter_c05 s t y e (2 * c) 1 Hh Ht ltac:(unfold c; lra) ltac:(lra)) as (s' & EF & _ & _ & Hc).
  exists s'. split; [exact E|]. split; [exact EF|]. destruct (Hc 0%nat ltac:(lia)) as (m & v' & _ & Ev & Hb & _). rewrite Ev. do 2 f_equal.
  destruct Hb as (wt & _ & _ & Hb). cbn in Hb. unfold ou_cov in Hb. replace (nth 0 t 0 - nth 0 t 0) with 0 in Hb by ring.
  rewrite Rabs_R0, Rmult_0_r, Ropp_0, exp_0 in Hb. unfold c in Hb. lra.
Qed.
Print Assumptions C119_kf1_refuted.

(** C119 for KalmanFilterp(time, y, yerr): the object has no parameters and, whatever p_ and the other members not set contain, Filter(), Predict() and Simulate()
    of one time or more raise an error; in every arithmetic. *)
Theorem C119_kfp_refuted : forall (A : Arith) si (raw : kfp A) (t y e : list (F A)) s (solve : list (list (cx A)) -> list (cx A) -> option (list (cx A))) (p : nat),
  kfp_data si raw t y e = Ok s ->
  Filter (methods_p solve p) s = Throw Elogic /\ (forall x, Predict_p solve p s x = Throw Elogic) /\
  (forall G (draw : G -> F A * G) vsort ts g, ts <> [] -> (forall l, vsort ts = Some l -> length l = length ts) -> Simulate (methods_p solve p) draw vsort s ts g = Throw Elogic).
Proof.
  intros A si raw t y e s solve p E. destruct (@kfp_data_throws A si raw t y e s solve p E) as (H1 & H2 & H3). split; [exact H1|]. split; [exact H2|].
  intros G draw vsort ts g Hne Hl. apply H3; [exact Hne|]. intros l El Q. subst l. specialize (Hl _ El). destruct ts; [contradiction|discriminate Hl].
Qed.
Print Assumptions C119_kfp_refuted.
(** with the right order p_ the methods are those of C17 and C18 *)
Theorem C119_order : forall (A : Arith) (solve : list (list (cx A)) -> list (cx A) -> option (list (cx A))) (s : kfp A) (t : F A), (2 <= length (x_omega (k_ext s)))%nat ->
  Filter (methods_p solve (length (x_omega (k_ext s)))) s = Filter (methodsp solve) s /\ Predict_p solve (length (x_omega (k_ext s))) s t = Predictp solve s t.
Proof.
  intros A solve s t H. assert (Reset_p solve (length (x_omega (k_ext s))) s = Resetp solve s) as E.
  { unfold Reset_p. destruct (Nat.ltb_spec (length (x_omega (k_ext s))) 1); [lia|]. destruct (Nat.ltb_spec (length (x_omega (k_ext s))) 2); [lia|]. rewrite Nat.eqb_refl. reflexivity. }
  split; [unfold Filter; cbn [m_Reset m_Update methods_p methodsp]; rewrite E; reflexivity|].
  unfold Predict_p. rewrite E. unfold Predictp. destruct (ipredict A (k_time s) t) as [i|x| |]; cbn [bind]; try reflexivity.
  destruct (Resetp solve s) as [s1|x| |]; reflexivity.
Qed.
Print Assumptions C119_order.

(** *** The hypotheses are met *)
Example ex_C119 : exists si (raw : kf1 AX) (rawp : kfp AX) s s' sp, valid_sort_index si /\
  kf1_data (A := AX) si raw (map Fin [0; 1]) (map Fin [3; 5]) (map Fin [1; 1]) = Ok s /\ Filter (methods1 AX) s = Ok s' /\ nth_error (k_var s') 0 = Some (Fin 1000) /\
  kfp_data (A := AX) si rawp (map Fin [0; 1]) (map Fin [3; 5]) (map Fin [1; 1]) = Ok sp.
Proof.
  destruct valid_sort_index_exists as [si Hsi].
  assert (strictly_increasing [0; 1]) as Ht by (intros [|[|i]] [|[|j]] H1 H2; cbn in *; try lia; lra).
  destruct (C119_kf1_refuted si [0; 1] [3; 5] [1; 1] 1000 Hsi eq_refl eq_refl Ht (le_n 2) ltac:(cbn; lra)) as (raw & s & s' & E & EF & Ev).
  set (rawp := mkKF AX [] [] [] [] [] [] (Fin 0) 0%nat (Fin 0) (Fin 0) (@mkX AX [] [] [] [] [] [] [] [] (Fin 0) [] [])).
  destruct (construct_c01 _ si (no_params rawp) [0; 1] [3; 5] [1; 1] Hsi eq_refl eq_refl ltac:(exists 0, 1; cbn; repeat split; [tauto|tauto|lra])) as (sp & _ & _ & _ & Ep & _).
  exists si, raw, rawp, s, s', sp. auto.
Qed.
