(** KalmanFilterDeprecated: what filter and predict compute, for every arithmetic and every solver. *)
From Coq Require Import List Arith ZArith Lia Bool.
From Verif Require Import Arith Res ListLemmas KFModel KF1Proof KF1R History Cx KFpModel KFpProof PyKFModel.
Import ListNotations.

Set Implicit Arguments.

Section Gen.
Variable A : Arith.
Local Notation F := (F A).
Local Notation cx := (cx A).
Local Notation "x ⊕ y" := (fadd A x y) (at level 50, left associativity).
Local Notation "x ⊖ y" := (fsub A x y) (at level 50, left associativity).
Local Notation "x ⊗ y" := (fmul A x y) (at level 40, left associativity).
Local Notation "x ⊘ y" := (fdiv A x y) (at level 40, left associativity).
Local Notation "# z" := (fofZ A z) (at level 5).
Local Notation vec := (list cx).
Local Notation mat := (list (list cx)).
Local Notation at_ l i := (nth i l (#0)).

Variable solve : mat -> vec -> option vec.
Variable empty : nat -> F.

(** the working attributes do not matter *)
Definition d_data (d : dkf A) := (d_time d, d_y d, d_yvar d, (d_sig d, d_roots d, d_ma d)).
Lemma d_reset_data d d' : d_data d = d_data d' -> d_reset solve empty d = d_reset solve empty d'.
Proof.
  intros H. injection H as E1 E2 E3 E4 E5 E6. unfold d_reset. rewrite E1, E2, E3, E4, E5, E6. reflexivity.
Qed.
Lemma d_reset_keeps d d' : d_reset solve empty d = Ok d' -> d_data d' = d_data d.
Proof.
  unfold d_reset. destruct (_ <? 2); [discriminate|]. destruct (solve _ _); [|discriminate]. destruct (negb _); [discriminate|].
  intros H. repeat (apply bind_Ok in H; destruct H as (? & _ & H)). injection H as <-. reflexivity.
Qed.
Lemma d_update_keeps d d' : d_update d = Ok d' -> d_data d' = d_data d.
Proof.
  unfold d_update. intros H. repeat (apply bind_Ok in H; destruct H as (? & _ & H)). injection H as <-. reflexivity.
Qed.
Lemma d_updates_keep k : forall a d d', for_ a k (fun _ s => d_update s) d = Ok d' -> d_data d' = d_data d.
Proof.
  induction k as [|k IH]; intros a d d' H; cbn [for_] in H; [injection H as <-; reflexivity|].
  apply bind_Ok in H. destruct H as (d1 & H1 & H2). rewrite (IH _ _ _ H2). apply (d_update_keeps _ H1).
Qed.
Lemma d_filter_keeps d r d' : d_filter solve empty d = Ok (r, d') -> d_data d' = d_data d.
Proof.
  unfold d_filter. intros H. apply bind_Ok in H. destruct H as (d1 & H1 & H). apply bind_Ok in H. destruct H as (d2 & H2 & H).
  injection H as _ <-. rewrite (d_updates_keep _ _ _ H2). apply (d_reset_keeps _ H1).
Qed.
Lemma d_predict_keeps d t r d' : d_predict solve empty d t = Ok (r, d') -> d_data d' = d_data d.
Proof.
  unfold d_predict. intros H. apply bind_Ok in H. destruct H as (d1 & H1 & H).
  destruct (last_lt A (d_time d1) t) as [k|]; [|discriminate].
  apply bind_Ok in H. destruct H as (d2 & H2 & H).
  assert (d_data d2 = d_data d) as E by (rewrite (d_updates_keep _ _ _ H2); apply (d_reset_keeps _ H1)).
  apply bind_Ok in H. destruct H as (vb & _ & H). apply bind_Ok in H. destruct H as (tb & _ & H).
  destruct (feq A _ _); [discriminate|]. destruct (_ <=? _); [injection H as _ <-; exact E|].
  apply bind_Ok in H. destruct H as (ti & _ & H). apply bind_Ok in H. destruct H as (c & _ & H).
  apply bind_Ok in H. destruct H as ([[[[[[co sl] cs] sp] PV2] var] [mm pr]] & _ & H). injection H as _ <-. exact E.
Qed.
Lemma d_filter_data d d' : d_data d = d_data d' -> d_filter solve empty d = d_filter solve empty d'.
Proof. intros H. unfold d_filter. rewrite (d_reset_data H). injection H as E _ _ _ _ _. rewrite E. reflexivity. Qed.
Lemma d_predict_data d d' t : d_data d = d_data d' -> d_predict solve empty d t = d_predict solve empty d' t.
Proof. intros H. unfold d_predict. rewrite (d_reset_data H). reflexivity. Qed.

Section Run.
Variable d : dkf A.
Let time := d_time d. Let y := d_y d. Let yvar := d_yvar d.
Let om := d_roots d. Let ma := d_ma d. Let p := length om. Let n := length time.
Let dt := diffs A time.
Hypothesis Hn : 1 <= n.
Hypothesis Hy : length y = n.
Hypothesis Hyv : length yvar = n.
Hypothesis Hp : 2 <= p.
Hypothesis Hma : length ma = p.
Variable J : vec.
Hypothesis HJ : solve (EigenMat om) (Rvector A p) = Some J.
(** error bars whose squares are the variances *)
Variable yerr : list F.
Hypothesis Hsq : forall i, i < n -> at_ yerr i ⊗ at_ yerr i = at_ yvar i.
Let b := rotated om ma.
Let SV := dStateVar (d_sig d) om J.
Let fc := fcorep dt y yerr p om b SV.
Let vP := vp dt y yerr p om b SV.
Let mP := mp dt y yerr p om b SV.
Let junk := map empty (seq 0 n).

Lemma junk_len : length junk = n.
Proof. unfold junk. rewrite map_length, seq_length. reflexivity. Qed.

Definition fstated (i : nat) : dkf A :=
  mkD time y yvar (d_sig d) om ma (fst (fc (i - 1))) SV (snd (fc (i - 1))) b (filled mP i junk) (filled vP i junk)
    (finn y p b (fc (i - 1)) (i - 1)) i.

Lemma d_reset_ok : d_reset solve empty d = Ok (fstated 1).
Proof.
  unfold d_reset. fold om ma time y yvar. fold p n. destruct (Nat.ltb_spec p 2); [lia|].
  rewrite HJ, Hma, Nat.eqb_refl. cbn [negb]. fold junk. pose proof junk_len as Hj.
  rewrite vset_ok by lia. cbn [bind]. rewrite (vget_ok _ (#0)) by lia. cbn [bind].
  rewrite vset_ok by lia. cbn [bind]. rewrite (vget_ok _ (#0)) by lia. cbn [bind].
  rewrite <- (Hsq (i := 0)) by lia.
  unfold fstated. f_equal. fold b SV. f_equal.
  - rewrite <- (upd_filled mP (k:=0)) by lia. reflexivity.
  - rewrite <- (upd_filled vP (k:=0)) by lia. reflexivity.
Qed.

Lemma dt_at k : S k < n -> at_ dt k = at_ time (S k) ⊖ at_ time k.
Proof. intros H. apply (diffs_nth A time k (#0) (#0)). exact H. Qed.

Lemma d_update_ok i : 1 <= i -> i < n -> d_update (fstated i) = Ok (fstated (S i)).
Proof.
  intros H1 H2. destruct i as [|k]; [lia|]. pose proof junk_len as Hj.
  unfold d_update. cbn [fstated d_cur idxm1 bind d_var d_time d_yvar d_y d_roots d_mean d_rma d_PV d_SV d_state d_innov d_sig d_ma].
  rewrite (vget_ok _ (#0)) by (rewrite filled_length; lia). cbn [bind].
  rewrite (vget_ok _ (#0)) by (fold n; lia). cbn [bind].
  rewrite (vget_ok _ (#0)) by (fold n; lia). cbn [bind].
  rewrite vset_ok by (rewrite filled_length; lia). cbn [bind].
  rewrite (vget_ok _ (#0)) by lia. cbn [bind].
  rewrite vset_ok by (rewrite filled_length; lia). cbn [bind].
  rewrite (vget_ok _ (#0)) by lia. cbn [bind].
  rewrite !(@nth_filled _ _ (S k)) by lia.
  rewrite <- dt_at by lia. rewrite <- (Hsq (i := S k)) by lia. fold p.
  unfold fstated. replace (S k - 1) with k by lia. replace (S (S k) - 1) with (S k) by lia.
  f_equal. f_equal.
  - rewrite <- (upd_filled mP (k:=S k)) by lia. reflexivity.
  - rewrite <- (upd_filled vP (k:=S k)) by lia. reflexivity.
Qed.

Lemma d_updates_ok k : forall a a', 1 <= a -> a + k <= n -> for_ a' k (fun _ s => d_update s) (fstated a) = Ok (fstated (a + k)).
Proof.
  induction k as [|k IH]; intros a a' Ha Hk; cbn [for_].
  - rewrite Nat.add_0_r. reflexivity.
  - rewrite d_update_ok by lia. cbn [bind]. rewrite IH by lia. f_equal. f_equal. lia.
Qed.

Lemma d_filter_ok : exists d', d_filter solve empty d = Ok ((map mP (seq 0 n), map vP (seq 0 n)), d').
Proof.
  unfold d_filter. rewrite d_reset_ok. cbn [bind]. fold time. fold n. rewrite d_updates_ok by lia. cbn [bind].
  replace (1 + (n - 1)) with n by lia. eexists. cbn [fstated d_mean d_var]. pose proof junk_len as Hj.
  rewrite <- Hj. rewrite !filled_full. reflexivity.
Qed.

(** *** predict *)
Section Pred.
Variable t : F.
Variable k0 : nat.
Let ip := S k0.
Hypothesis Hk0 : last_lt A time t = Some k0.
Hypothesis Hk0n : k0 < n.
Hypothesis Habs1 : fabs A (t ⊖ at_ time k0) = t ⊖ at_ time k0.
Hypothesis Habs2 : ip < n -> fabs A (at_ time ip ⊖ t) = at_ time ip ⊖ t.
Let m0 := fst (fcastmv time dt y yerr p om b SV t ip).
Let v0 := snd (fcastmv time dt y yerr p om b SV t ip).
Let pc := pcorep time dt y yerr p om b SV t ip m0 v0.
Let pa := pacc time dt y yerr p om b SV t ip m0 v0.
Let vv i := if i <? ip then vP i else pvar yerr p b (pc (i - ip)) i.
Let vv_at k : vv (ip + k) = pvar yerr p b (pc k) (ip + k).
Proof. unfold vv. destruct (Nat.ltb_spec (ip + k) ip); [lia|]. replace (ip + k - ip) with k by lia. reflexivity. Qed.

Definition cstated (k : nat) a : d_coef A :=
  (fst (fst (pc k)), snd (fst (pc k)), pconst p b (pc k), pslope p b (pc k), snd (pc k), filled vv (S (ip + k)) junk, pa (S k) a).

Lemma filled_vv : filled vP ip junk = filled vv ip junk.
Proof.
  unfold filled. f_equal. apply map_ext_in. intros i Hi. apply in_seq in Hi. unfold vv.
  destruct (Nat.ltb_spec i ip); [reflexivity|lia].
Qed.

Lemma d_coef_init_ok a : ip < n ->
  (ti <- vget time ip ;; d_coef_out (fstated ip) ip (rhof p om (ti ⊖ t))
     (axmy p (fst (fcast time dt y yerr p om b SV t ip)) (gainf p b (snd (fcast time dt y yerr p om b SV t ip)) v0) m0)
     (gainf p b (snd (fcast time dt y yerr p om b SV t ip)) v0)
     (condV p (snd (fcast time dt y yerr p om b SV t ip)) (gainf p b (snd (fcast time dt y yerr p om b SV t ip)) v0) v0)
     (filled vP ip junk) a) = Ok (cstated 0 a).
Proof.
  intros Hip. pose proof junk_len as Hj. rewrite (vget_ok _ (#0)) by exact Hip. cbn [bind]. rewrite <- Habs2 by exact Hip.
  unfold d_coef_out. cbn [fstated d_roots d_SV d_rma d_yvar d_y]. fold p.
  rewrite (vget_ok _ (#0)) by lia. cbn [bind]. rewrite vset_ok by (rewrite filled_length; lia). cbn [bind].
  rewrite <- (Hsq (i := ip)) by lia. rewrite filled_vv.
  pose proof (vv_at 0) as Hv0. rewrite Nat.add_0_r in Hv0.
  match goal with |- context [upd _ ip ?q] => change q with (pvar yerr p b (pc 0) ip) end.
  rewrite <- Hv0. rewrite upd_filled by lia.
  rewrite (vget_ok _ (#0)) by (rewrite filled_length; lia). cbn [bind].
  rewrite (vget_ok _ (#0)) by lia. cbn [bind]. rewrite nth_filled by lia. rewrite Hv0.
  unfold cstated. rewrite Nat.add_0_r. unfold pa. cbn [pacc]. unfold pacc1. rewrite Nat.add_0_r. reflexivity.
Qed.

Lemma d_coef_step_ok k a : S (ip + k) < n -> d_coef_step (fstated ip) (S (ip + k)) (cstated k a) = Ok (cstated (S k) a).
Proof.
  intros Hk. pose proof junk_len as Hj. unfold d_coef_step. unfold cstated at 1. cbn [idxm1 bind].
  rewrite (vget_ok _ (#0)) by (rewrite filled_length; lia). cbn [bind].
  cbn [fstated d_roots d_y d_time d_rma].
  rewrite (vget_ok _ (#0)) by lia. cbn [bind].
  rewrite (vget_ok _ (#0)) by (fold n; lia). cbn [bind].
  rewrite (vget_ok _ (#0)) by (fold n; lia). cbn [bind].
  rewrite nth_filled by lia. rewrite vv_at. rewrite <- dt_at by lia. fold p.
  unfold d_coef_out. cbn [fstated d_roots d_SV d_rma d_yvar d_y]. fold p.
  rewrite (vget_ok _ (#0)) by lia. cbn [bind]. rewrite vset_ok by (rewrite filled_length; lia). cbn [bind].
  rewrite <- (Hsq (i := S (ip + k))) by lia.
  pose proof (vv_at (S k)) as Hv1. replace (ip + S k) with (S (ip + k)) in Hv1 by lia.
  match goal with |- context [upd _ (S (ip + k)) ?q] => change q with (pvar yerr p b (pc (S k)) (S (ip + k))) end.
  rewrite <- Hv1. rewrite upd_filled by lia.
  rewrite (vget_ok _ (#0)) by (rewrite filled_length; lia). cbn [bind].
  rewrite (vget_ok _ (#0)) by lia. cbn [bind]. rewrite nth_filled by lia. rewrite Hv1.
  unfold cstated. replace (ip + S k) with (S (ip + k)) by lia. 
  change (pa (S (S k)) a) with (pacc1 time dt y yerr p om b SV t ip m0 v0 (S k) (pa (S k) a)). unfold pacc1.
  replace (ip + S k) with (S (ip + k)) by lia. reflexivity.
Qed.

Lemma d_coefs_ok a k : forall j, ip + j + k < n ->
  for_ (S (ip + j)) k (d_coef_step (fstated ip)) (cstated j a) = Ok (cstated (j + k) a).
Proof.
  induction k as [|k IH]; intros j Hj; cbn [for_].
  - rewrite Nat.add_0_r. reflexivity.
  - rewrite d_coef_step_ok by lia. cbn [bind]. replace (S (S (ip + j))) with (S (ip + S j)) by lia. rewrite IH by lia.
    f_equal. f_equal. lia.
Qed.

(** the returned pair; the division of Python floats raises for a zero variance *)
Definition dpredp : res (F * F) :=
  if feq A v0 (#0) then Throw Elogic else
  if n <=? ip then Ok (m0, v0) else
  let '(mm, prec) := pa (n - ip) ((#1 ⊘ v0) ⊗ m0, #1 ⊘ v0) in Ok (mm ⊗ (#1 ⊘ prec), #1 ⊘ prec).

Lemma d_predict_ok : (forall r, dpredp = Ok r -> exists d', d_predict solve empty d t = Ok (r, d')) /\
  (forall e, dpredp = Throw e -> d_predict solve empty d t = Throw e).
Proof.
  assert (d_predict solve empty d t = (r <- dpredp ;; Ok (r, d_set_work (fstated ip) (fst (fcast time dt y yerr p om b SV t ip))
     (if n <=? ip then snd (fcast time dt y yerr p om b SV t ip) else snd (pc (n - S ip)))
     (if n <=? ip then filled vP ip junk else filled vv n junk)))) as E.
  { unfold d_predict. rewrite d_reset_ok. cbn [bind]. cbn [fstated d_time]. rewrite Hk0.
    fold (fstated 1). rewrite d_updates_ok by lia. cbn [bind].
    replace (1 + (S k0 - 1)) with ip by lia.
    cbn [fstated d_roots d_time d_var d_rma d_PV d_state d_innov d_SV]. fold n p. pose proof junk_len as Hj.
    rewrite (vget_ok _ (#0)) by (rewrite filled_length; lia). cbn [bind].
    rewrite (vget_ok _ (#0)) by exact Hk0n. cbn [bind].
    rewrite (@nth_filled _ _ ip) by (unfold ip; lia). rewrite <- Habs1.
    replace (ip - 1) with k0 by (unfold ip; lia).
    change (schur p (rhof p om (fabs A (t ⊖ at_ time k0))) (axpy p (fst (fc k0)) (gainf p b (snd (fc k0)) (vP k0)) (finn y p b (fc k0) k0)))
      with (fst (fcast time dt y yerr p om b SV t ip)).
    change (propV p (rhof p om (fabs A (t ⊖ at_ time k0))) (condV p (snd (fc k0)) (gainf p b (snd (fc k0)) (vP k0)) (vP k0)) SV)
      with (snd (fcast time dt y yerr p om b SV t ip)).
    change (linf p b (fst (fcast time dt y yerr p om b SV t ip))) with m0.
    change (quadf p b (snd (fcast time dt y yerr p om b SV t ip))) with v0.
    unfold dpredp. fold ip. destruct (feq A v0 (#0)); [reflexivity|].
    destruct (Nat.leb_spec n ip) as [Hge|Hlt]; cbn [bind].
    - reflexivity.
    - pose proof (d_coef_init_ok ((#1 ⊘ v0) ⊗ m0, #1 ⊘ v0) Hlt) as Hi.
      rewrite (vget_ok _ (#0)) in Hi |- * by exact Hlt. cbn [bind] in Hi |- *. rewrite Hi. cbn [bind].
      pose proof (@d_coefs_ok ((#1 ⊘ v0) ⊗ m0, #1 ⊘ v0) (n - S ip) 0 ltac:(lia)) as Hc. rewrite Nat.add_0_r in Hc.
      rewrite Hc. cbn [bind Nat.add]. unfold cstated. replace (S (n - S ip)) with (n - ip) by lia.
      destruct (pa (n - ip) ((#1 ⊘ v0) ⊗ m0, #1 ⊘ v0)) as [mm' prec'] eqn:Epa. cbn [bind].
      f_equal. f_equal. f_equal. f_equal. lia. }
  rewrite E. split.
  - intros r ->. eexists. reflexivity.
  - intros e ->. reflexivity.
Qed.
End Pred.

Lemma d_predict_before t : last_lt A time t = None -> d_predict solve empty d t = Throw Elogic.
Proof.
  intros H. unfold d_predict. rewrite d_reset_ok. cbn [bind fstated d_time]. rewrite H. reflexivity.
Qed.
End Run.
End Gen.
