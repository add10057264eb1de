(** Data with repeated observation times.  The filter drops the repeats, but CARMA_Base keeps all the observations, hands
    them to the filter and reads as many means as there are observations. *)
From Coq Require Import Reals List Arith ZArith Bool Lia Lra Permutation.
From Verif Require Import Arith Res ListLemmas KFModel KF1Proof Spec Gauss Emb History InitProof KF1X KF1Main Cx KFpModel KFpProof SpecModel CarpackModel RootsProof PriorProof LogLikProof CarpackTop EngineModel EngineAX.
Import ListNotations.
Set Implicit Arguments.
Unset Strict Implicit.

Section Gen.
Variable A : Arith.
Local Notation vec := (list (F A)).

Lemma for_len T (f : T -> nat) (body : nat -> T -> res T) : (forall i s s', body i s = Ok s' -> f s' = f s) ->
  forall k a s s', for_ a k body s = Ok s' -> f s' = f s.
Proof.
  intros H. induction k as [|k IH]; intros a s s' E; cbn [for_] in E; [injection E as <-; reflexivity|].
  apply bind_Ok in E. destruct E as (s1 & E1 & E2). rewrite (IH _ _ _ E2). exact (H _ _ _ E1).
Qed.
Lemma vset_len T (l : list T) i v l' : vset l i v = Ok l' -> length l' = length l.
Proof. unfold vset. destruct (i <? length l); intros E; [|discriminate]. injection E as <-. apply upd_length. Qed.
Ltac ok E := let x := fresh "x" in let H := fresh "E" in apply bind_Ok in E; destruct E as (x & H & E).

Lemma Reset1_len s s' : Reset1 (A := A) s = Ok s' -> length (k_mean s') = length (k_mean s).
Proof. unfold Reset1. intros E. ok E. ok E. ok E. injection E as <-. exact (vset_len E0). Qed.
Lemma Update1_len s s' : Update1 (A := A) s = Ok s' -> length (k_mean s') = length (k_mean s).
Proof. unfold Update1. intros E. do 9 ok E. injection E as <-. match goal with H : vset (k_mean s) _ _ = Ok _ |- _ => exact (vset_len H) end. Qed.
Lemma Filter1_len s s' : Filter (methods1 A) s = Ok s' -> length (k_mean s') = length (k_mean s).
Proof.
  unfold Filter. intros E. ok E. rewrite <- (Reset1_len E0). exact (@for_len _ (fun s : kf1 A => length (k_mean s)) _ (fun _ s s' => @Update1_len s s') _ _ _ _ E).
Qed.
Section P.
Variable solve : list (list (cx A)) -> list (cx A) -> option (list (cx A)).
Lemma Resetp_len s s' : Resetp solve s = Ok s' -> length (k_mean s') = length (k_mean s).
Proof.
  unfold Resetp. intros E. destruct (_ <? 2); [discriminate|]. destruct (solve _ _); [|discriminate]. destruct (negb _); [discriminate|]. destruct (negb _); [discriminate|].
  ok E. ok E. ok E. ok E. injection E as <-. exact (vset_len E0).
Qed.
Lemma Updatep_len s s' : Updatep (A := A) s = Ok s' -> length (k_mean s') = length (k_mean s).
Proof. unfold Updatep. intros E. do 7 ok E. injection E as <-. match goal with H : vset (k_mean s) _ _ = Ok _ |- _ => exact (vset_len H) end. Qed.
Lemma Filterp_len s s' : Filter (methodsp solve) s = Ok s' -> length (k_mean s') = length (k_mean s).
Proof.
  unfold Filter. intros E. ok E. rewrite <- (Resetp_len E0). exact (@for_len _ (fun s : kfp A => length (k_mean s)) _ (fun _ s s' => @Updatep_len s s') _ _ _ _ E).
Qed.
End P.

(** the filter has fewer points than the object has observations *)
Definition short {X} (b : base A X) : Prop := length (k_mean (b_kf b)) < length (b_time b).

Lemma loglik_short X (b : base A X) s mu l : length (k_mean s) < length (b_time b) -> loglik b s mu <> Ok l.
Proof.
  intros H E. unfold loglik in E. set (n := length (k_mean s)) in *. replace (length (b_time b)) with (n + S (length (b_time b) - n - 1)) in E by lia.
  rewrite for_split in E. ok E. cbn [for_] in E. ok E. ok E1. ok E1. cbn [Nat.add] in E3. unfold vget in E3.
  rewrite (proj2 (nth_error_None (k_mean s) n)) in E3 by (unfold n; lia). discriminate.
Qed.
Lemma loglik_short_throws X (b : base A X) s mu : length (k_mean s) < length (b_time b) -> length (b_time b) <= length (b_y b) ->
  length (k_var s) = length (k_mean s) -> loglik b s mu = Throw Elogic.
Proof.
  intros H Hy Hv. unfold loglik. set (n := length (k_mean s)) in *. replace (length (b_time b)) with (n + S (length (b_time b) - n - 1)) by lia.
  rewrite for_split.
  match goal with |- context [for_ 0 n ?f _] => set (body := f) end.
  assert (forall k a acc, a + k <= n -> exists r, for_ a k body acc = Ok r) as K.
  { induction k as [|k IH]; intros a acc Ha; cbn [for_]; [eauto|]. unfold body at 1. rewrite (vget_ok (b_y b) (i := a) (fofZ A 0)) by lia. cbn [bind].
    rewrite (vget_ok (k_mean s) (i := a) (fofZ A 0)) by (fold n; lia). cbn [bind]. rewrite (vget_ok (k_var s) (i := a) (fofZ A 0)) by (rewrite Hv; fold n; lia). cbn [bind]. apply IH. lia. }
  destruct (K n 0 (fofZ A 0) ltac:(lia)) as [r ->]. cbn [bind for_]. unfold body at 1. rewrite (vget_ok (b_y b) (i := 0 + n) (fofZ A 0)) by lia. cbn [bind Nat.add].
  unfold vget at 1. rewrite (proj2 (nth_error_None (k_mean s) n)) by (unfold n; lia). reflexivity.
Qed.

Lemma LD_short X Om (C : cls A X Om) (b : base A X) th l b' :
  (forall s s', Filter (v_meth C) s = Ok s' -> length (k_mean s') = length (k_mean s)) ->
  (forall sig om ma scale mu, length (k_mean (load C b sig om ma scale mu)) = length (k_mean (b_kf b))) ->
  short b -> LogDensity C b th = Ok (l, b') -> l = fneg A (finf A) /\ short b'.
Proof.
  intros HF HL Hs E. unfold LogDensity in E. apply bind_Ok in E. destruct E as (ok & Eo & E). destruct ok; cbn [negb] in E; [|injection E as <- <-; split; [reflexivity|exact Hs]].
  do 5 ok E. destruct (Filter _ _) as [s'|[]| |] eqn:EF; try discriminate.
  - ok E. exfalso. revert E5. apply loglik_short. rewrite (HF _ _ EF), HL. exact Hs.
  - injection E as <- <-. split; [reflexivity|]. unfold short. cbn [b_kf set_kf b_time]. rewrite HL. exact Hs.
Qed.
Lemma load1_len (b : base A (F A)) sig om ma scale mu : length (k_mean (load (car1_cls A) b sig om ma scale mu)) = length (k_mean (b_kf b)).
Proof. reflexivity. Qed.
Theorem LD1_short (b : base A (F A)) th l b' : short b -> LogDensity (car1_cls A) b th = Ok (l, b') -> l = fneg A (finf A) /\ short b'.
Proof. apply LD_short; [exact Filter1_len|reflexivity]. Qed.
Theorem LDp_short solve p maf prior (b : base A (kpx A)) th l b' : short b -> LogDensity (pcls solve p maf prior) b th = Ok (l, b') -> l = fneg A (finf A) /\ short b'.
Proof. apply LD_short; [exact (@Filterp_len solve)|reflexivity]. Qed.

(** the CAR(1) filter completes when it holds too many observations *)
Definition roomy (s : kf1 A) : Prop :=
  2 <= length (k_time s) /\ length (k_dt s) = length (k_time s) - 1 /\ length (k_time s) <= length (k_y s) /\ length (k_time s) <= length (k_yerr s) /\
  length (k_mean s) = length (k_time s) /\ length (k_var s) = length (k_time s).
Lemma Reset1_roomy s : roomy s -> exists s', Reset1 s = Ok s' /\ roomy s' /\ k_cur s' = 1 /\ length (k_time s') = length (k_time s).
Proof.
  intros (H1 & H2 & H3 & H4 & H5 & H6). unfold Reset1. rewrite vset_ok by lia. cbn [bind]. rewrite (vget_ok (k_yerr s) (fofZ A 0)) by lia. cbn [bind].
  rewrite vset_ok by lia. cbn [bind]. eexists. split; [reflexivity|]. unfold roomy. cbn. rewrite !upd_length. repeat split; try assumption; lia.
Qed.
Lemma Update1_roomy s : roomy s -> 1 <= k_cur s < length (k_time s) -> exists s', Update1 s = Ok s' /\ roomy s' /\ k_cur s' = S (k_cur s) /\ length (k_time s') = length (k_time s).
Proof.
  intros (H1 & H2 & H3 & H4 & H5 & H6) Hc. unfold Update1, idxm1. destruct (k_cur s) as [|c]; [lia|]. cbn [bind].
  rewrite (vget_ok (k_dt s) (fofZ A 0)) by lia. cbn [bind]. rewrite (vget_ok (k_var s) (fofZ A 0)) by lia. cbn [bind]. rewrite (vget_ok (k_yerr s) (i := c) (fofZ A 0)) by lia. cbn [bind].
  rewrite (vget_ok (k_mean s) (fofZ A 0)) by lia. cbn [bind]. rewrite (vget_ok (k_y s) (fofZ A 0)) by lia. cbn [bind]. rewrite vset_ok by lia. cbn [bind].
  rewrite (vget_ok (k_yerr s) (fofZ A 0)) by lia. cbn [bind]. rewrite vset_ok by lia. cbn [bind]. eexists. split; [reflexivity|]. unfold roomy. cbn. rewrite !upd_length. repeat split; try assumption; lia.
Qed.
Lemma Filter1_roomy s : roomy s -> exists s', Filter (methods1 A) s = Ok s' /\ roomy s' /\ length (k_time s') = length (k_time s).
Proof.
  intros H. unfold Filter. cbn [m_Reset m_Update methods1]. destruct (Reset1_roomy H) as (s1 & -> & Hs1 & Hc & Ht). cbn [bind].
  assert (forall k a s, roomy s -> 1 <= k_cur s -> k_cur s + k <= length (k_time s) ->
    exists s', for_ a k (fun _ s => Update1 s) s = Ok s' /\ roomy s' /\ length (k_time s') = length (k_time s)) as K.
  { induction k as [|k IH]; intros a s0 Hr H1 H2; cbn [for_]; [eauto|]. destruct (Update1_roomy Hr ltac:(lia)) as (s2 & -> & Hr2 & Hc2 & Ht2). cbn [bind].
    destruct (IH (S a) s2 Hr2 ltac:(lia) ltac:(lia)) as (s3 & E3 & Hr3 & Ht3). exists s3. split; [exact E3|]. split; [exact Hr3|]. lia. }
  pose proof Hs1 as (G1 & _). destruct (K (length (k_time s1) - 1) 1 s1 Hs1 ltac:(lia) ltac:(lia)) as (s2 & E & Hr & Hl). exists s2. split; [exact E|]. split; [exact Hr|]. lia.
Qed.
Theorem LD1_short_throws (b : base A (F A)) th : usable (b_kf b) -> short b -> length (b_y b) = length (b_time b) -> length (b_yerr b) = length (b_time b) ->
  4 <= length th -> CheckPriorBounds1 (b_bounds b) th = Ok true -> LogDensity (car1_cls A) b th = Throw Elogic.
Proof.
  intros Hu Hs Hy He Hl HC. unfold LogDensity. cbn [v_Check v_AR v_MA v_Sig v_meth car1_cls]. rewrite HC. cbn [bind negb].
  rewrite !(vget_ok th (fofZ A 0)) by lia. cbn [bind].
  destruct Hu as (U1 & U2 & U3 & U4 & U5 & U6). unfold short in Hs.
  assert (roomy (load (car1_cls A) b (fmul A (fmul A (fmul A (fofZ A 2) (nth 0 th (fofZ A 0))) (nth 0 th (fofZ A 0))) (fexp A (nth 3 th (fofZ A 0))))
    (fexp A (nth 3 th (fofZ A 0))) (zeros A 1) (nth 1 th (fofZ A 0)) (nth 2 th (fofZ A 0)))) as Hr.
  { unfold roomy, load, SetTimeSeries, SetTimeSeriesErr, SetSigsqr, SetOmega1, set_ext, scaled_err, centred. cbn. rewrite !map_length.
    rewrite U2, diffs_len. repeat split; try assumption; lia. }
  destruct (Filter1_roomy Hr) as (s' & EF & Hr' & Ht').
  match goal with |- context [Filter ?M ?x] => assert (Filter M x = Ok s') as -> by exact EF end.
  rewrite loglik_short_throws; [reflexivity| | |].
  - rewrite (Filter1_len EF), load1_len. exact Hs.
  - lia.
  - destruct Hr' as (_ & _ & _ & _ & R5 & R6). congruence.
Qed.
End Gen.

Local Open Scope R_scope.
Lemma dup_shorter (t t' : list R) : strictly_increasing t' -> (forall x, In x t' <-> In x t) -> ~ NoDup t -> (List.length t' < List.length t)%nat.
Proof.
  intros Hi Hin Hd. pose proof (increasing_NoDup Hi) as Hn. destruct (Nat.lt_ge_cases (List.length t') (List.length t)) as [H|H]; [exact H|]. exfalso. apply Hd.
  refine (@NoDup_incl_NoDup _ t' t Hn H _). intros x Hx. apply Hin, Hx.
Qed.
(** the object built from data with a repeated time *)
Theorem dup_built X (si : list (F AX) -> option (list nat)) (raw : kf AX X) (t y e : list R) : valid_sort_index si ->
  List.length y = List.length t -> List.length e = List.length t -> (exists a b, In a t /\ In b t /\ a <> b) -> ~ NoDup t ->
  exists b m d, base_new si raw (map Fin t) (map Fin y) (map Fin e) = Ok b /\ usable (b_kf b) /\ short b /\
    b_time b = map Fin t /\ b_y b = map Fin y /\ b_yerr b = map Fin e /\ 0 < d /\ (In 0 (diffs AR t) -> m <= 0) /\
    b_bounds b = mkB AX (Fin (10 * sqrt (svar y))) (fdiv AX (Fin 1) (Fin m)) (Fin (1 / d)) false /\ In m (diffs AR t) /\
    (exists lo hi, In lo t /\ In hi t /\ d = hi - lo).
Proof.
  intros Hsi Hy He Hne Hd. destruct (construct_main X si raw t y e Hsi Hy He Hne) as (s & t' & y' & e' & Es & S1 & S2 & S3 & Hi & Hin & _ & _ & Hu & _).
  assert (2 <= List.length t)%nat as H2 by (destruct Hne as (a & b & Ha & Hb & Hab); destruct t as [|x [|z t]]; cbn in *; [tauto|destruct Ha as [<-|[]], Hb as [<-|[]]; congruence|lia]).
  assert (diffs AR t <> []) as Hdn by (intros E; pose proof (dlen t) as L; rewrite E in L; cbn in L; lia).
  assert (t <> []) as Htn by (intros ->; cbn in H2; lia).
  destruct (vmin_ok (diffs AR t) Hdn) as (m & Em & Hm & Hmin). destruct (vmax_ok t Htn) as (hi & Ehi & Hhi & Hmax). destruct (vmin_ok t Htn) as (lo & Elo & Hlo & Hmin').
  assert (0 < hi - lo) as Hpos.
  { destruct Hne as (a & b & Ha & Hb & Hab). pose proof (Hmax a Ha). pose proof (Hmax b Hb). pose proof (Hmin' a Ha). pose proof (Hmin' b Hb). destruct (Rtotal_order a b) as [|[|]]; lra. }
  assert (fmul AX (fofZ AX 10) (fsqrt AX (Fin (svar y))) = Fin (10 * sqrt (svar y))) as Esd.
  { assert (fsqrt AX (Fin (svar y)) = Fin (sqrt (svar y))) as -> by (refine (fin_sqrt _ _); apply svar_nonneg; lia). reflexivity. }
  eexists (mkBase (A := AX) (map Fin t) (map Fin y) (map Fin e) s _), m, (hi - lo). split.
  { unfold base_new. rewrite vvar_Fin by lia. cbn [bind]. unfold make_bounds. rewrite make_dt_Fin by exact H2. cbn [bind]. rewrite Em. cbn [bind]. rewrite Ehi. cbn [bind]. rewrite Elo. cbn [bind].
    rewrite Esd. refine (eq_trans (f_equal (fun r => bind r _) Es) _). cbn [bind].
    assert (fdiv AX (fofZ AX 1) (fsub AX (Fin hi) (Fin lo)) = Fin (1 / (hi - lo))) as -> by (refine (fin_div _ _ _); lra). reflexivity. }
  split; [exact Hu|]. split.
  { unfold short. cbn [b_kf b_time]. destruct Hu as (_ & _ & _ & _ & U5 & _). rewrite U5, S1. change (F AX) with xr. rewrite !map_length. exact (dup_shorter Hi Hin Hd). }
  split; [reflexivity|]. split; [reflexivity|]. split; [reflexivity|]. split; [exact Hpos|]. split; [intros H0; exact (Hmin 0 H0)|]. split; [reflexivity|].
  split; [exact Hm|]. exists lo, hi. auto.
Qed.
(** a CAR(1) model on such data: minus infinity outside the prior, an exception inside *)
Theorem dup_car1 (si : list (F AX) -> option (list nat)) (raw : kf1 AX) (t y e : list R) : valid_sort_index si ->
  List.length y = List.length t -> List.length e = List.length t -> (exists a b, In a t /\ In b t /\ a <> b) -> ~ NoDup t ->
  exists b, car1_new si raw (map Fin t) (map Fin y) (map Fin e) = Ok b /\
    forall th : list (F AX), (4 <= List.length th)%nat -> LogDensity (car1_cls AX) b th = Ok (NInf, b) \/ LogDensity (car1_cls AX) b th = Throw Elogic.
Proof.
  intros Hsi Hy He Hne Hd. destruct (dup_built raw Hsi Hy He Hne Hd) as (b & m & d & E & Hu & Hs & Ht & Hby & Hbe & _). exists b. split; [exact E|].
  intros th Hl. destruct (CheckPriorBounds1 (b_bounds b) th) as [[]|ex| |] eqn:EC.
  - right. apply (LD1_short_throws Hu Hs); try assumption; rewrite ?Hby, ?Hbe, Ht; change (F AX) with xr; rewrite !map_length; assumption.
  - left. unfold LogDensity. cbn [v_Check car1_cls]. rewrite EC. reflexivity.
  - unfold CheckPriorBounds1 in EC. rewrite !(vget_ok th (fofZ AX 0)) in EC by lia. discriminate.
  - unfold CheckPriorBounds1 in EC. rewrite !(vget_ok th (fofZ AX 0)) in EC by lia. discriminate.
  - unfold CheckPriorBounds1 in EC. rewrite !(vget_ok th (fofZ AX 0)) in EC by lia. discriminate.
Qed.
(** a CARp, CARMA or ZCARMA model on such data never gives a number *)
Theorem dup_carp solve maf prior (si : list (F AX) -> option (list nat)) (raw : kfp AX) p (t y e : list R) : valid_sort_index si -> p <> 0%nat ->
  List.length y = List.length t -> List.length e = List.length t -> (exists a b, In a t /\ In b t /\ a <> b) -> ~ NoDup t ->
  exists b, carp_new si raw p (map Fin t) (map Fin y) (map Fin e) = Ok b /\
    forall th l b', LogDensity (pcls solve p maf prior) b th = Ok (l, b') -> l = NInf.
Proof.
  intros Hsi Hp Hy He Hne Hd. destruct (dup_built raw Hsi Hy He Hne Hd) as (b & m & d & E & Hu & Hs & _).
  exists (set_kf b (SetMAp (b_kf b) (carp_ma AX p))). split; [unfold carp_new; rewrite E; cbn [bind]; destruct (Nat.eqb_spec p 0); [contradiction|reflexivity]|].
  intros th l b' EL. refine (proj1 (@LDp_short AX solve p maf prior _ _ _ _ _ EL)). exact Hs.
Qed.
(** a concrete case: parameters inside the prior for which the log-density throws *)
Theorem dup_refuted : exists (t y e th : list R), List.length y = List.length t /\ List.length e = List.length t /\ nondecreasing t /\
  forall (si : list (F AX) -> option (list nat)) (raw : kf1 AX), valid_sort_index si ->
    exists b, car1_new si raw (map Fin t) (map Fin y) (map Fin e) = Ok b /\ CheckPriorBounds1 (b_bounds b) (map Fin th) = Ok true /\
      LogDensity (car1_cls AX) b (map Fin th) = Throw Elogic.
Proof.
  exists [0; 0; 1], [0; 1; 0], [1; 1; 1], [1; 1; 0; 0]. split; [reflexivity|]. split; [reflexivity|].
  split; [intros [|[|[|i]]] [|[|[|j]]] H1 H2; cbn in *; try lia; lra|].
  intros si raw Hsi.
  assert (~ NoDup [0; 0; 1]) as Hd by (intros H; inversion H; subst; apply H2; left; reflexivity).
  assert (exists a b, In a [0; 0; 1] /\ In b [0; 0; 1] /\ a <> b) as Hne by (exists 0, 1; cbn; repeat split; [tauto|tauto|lra]).
  destruct (@dup_built _ si raw [0; 0; 1] [0; 1; 0] [1; 1; 1] Hsi eq_refl eq_refl Hne Hd) as (b & m & d & E & Hu & Hs & Ht & Hby & Hbe & Hd0 & Hm0 & Hbd & Hm & lo & hi & Hlo & Hhi & Ed).
  exists b. split; [exact E|].
  assert (m = 0) as -> by (cbn in Hm, Hm0; destruct Hm as [Hm|[Hm|[]]]; lra).
  assert (d = 1) as -> by (cbn in Hlo, Hhi; lra).
  assert (CheckPriorBounds1 (b_bounds b) (map Fin [1; 1; 0; 0]) = Ok true) as HC.
  { rewrite Hbd. unfold CheckPriorBounds1. cbn [map vget nth_error bind max_freq min_freq]. unfold scalar_bad. cbn [max_stdev ignore_prior].
    cbn [fexp AX xexp fdiv flt xdiv]. rewrite exp_0.
    assert (svar [0; 1; 0] = 1 / 3) as Esv by (unfold svar, smean; cbn [List.length Rsum nth INR]; field). rewrite Esv.
    assert (1 / 2 <= sqrt (1 / 3)) by (apply Rsqr_incr_0_var; [|apply sqrt_pos]; rewrite Rsqr_sqrt by lra; unfold Rsqr; lra).
    cbn. destruct (Req_EM_T 0 0) as [_|C0]; [|congruence]. unfold rsgn. repeat match goal with |- context [Rlt_dec ?a ?b] => destruct (Rlt_dec a b); [try lra|try lra] end; reflexivity. }
  split; [exact HC|]. apply (LD1_short_throws Hu Hs); try exact HC; rewrite ?Hby, ?Hbe, ?Ht; cbn; lia.
Qed.
