(** KalmanFilter::init: sorting and removal of duplicates. *)
From Coq Require Import Reals List Arith ZArith Lra Lia Bool Permutation Sorted.
From Verif Require Import Arith Res ListLemmas KFModel Spec Emb KF1R History.
Import ListNotations.
Local Open Scope R_scope.

(** What is assumed of arma::sort_index: on finite values it returns the indices in some order that sorts the
    values (ties in any order). *)
Definition valid_sort_index (si : list xr -> option (list nat)) : Prop :=
  forall l : list R, exists idx, si (map Fin l) = Some idx /\ Permutation idx (seq 0 (length l)) /\
    forall i j, (i < j)%nat -> (j < length l)%nat -> nth (nth i idx O) l 0 <= nth (nth j idx O) l 0.

Definition nondecreasing (l : list R) : Prop :=
  forall i j, (i < j)%nat -> (j < length l)%nat -> nth i l 0 <= nth j l 0.

Lemma velem_ok T (l : list T) idx d : (forall i, In i idx -> (i < length l)%nat) ->
  velem l idx = Ok (map (fun i => nth i l d) idx).
Proof.
  induction idx as [|i idx IH]; intros H; [reflexivity|]. cbn [velem map].
  rewrite (vget_ok _ d) by (apply H; left; reflexivity). cbn [bind].
  rewrite IH by (intros j Hj; apply H; right; exact Hj). reflexivity.
Qed.

Lemma velem_Fin (l : list R) idx : (forall i, In i idx -> (i < length l)%nat) ->
  velem (map Fin l) idx = Ok (map Fin (map (fun i => nth i l 0) idx)).
Proof.
  intros H. rewrite (velem_ok _ _ _ (Fin 0)) by (intros i Hi; rewrite map_length; apply H, Hi).
  f_equal. rewrite map_map. apply map_ext. intros i. apply nth_map_Fin.
Qed.

Lemma vmin_fold (d : list R) (m0 : R) :
  exists m, fold_left (fun m x => if flt AX x m then x else m) (map Fin d) (Fin m0) = Fin m /\
    m <= m0 /\ (forall x, In x d -> m <= x) /\ (m = m0 \/ In m d).
Proof.
  revert m0; induction d as [|x d IH]; intros m0.
  - exists m0. split; [reflexivity|]. split; [lra|]. split; [intros x []|]. left; reflexivity.
  - cbn [map fold_left flt AX xlt]. destruct (Rlt_dec x m0) as [H|H].
    + destruct (IH x) as (m & E & H1 & H2 & H3). exists m. split; [exact E|]. split; [lra|]. split.
      * intros z [->|Hz]; [exact H1|apply H2, Hz].
      * right. destruct H3 as [->|H3]; [left; reflexivity|right; exact H3].
    + destruct (IH m0) as (m & E & H1 & H2 & H3). exists m. split; [exact E|]. split; [exact H1|]. split.
      * intros z [->|Hz]; [lra|apply H2, Hz].
      * destruct H3 as [->|H3]; [left; reflexivity|right; right; exact H3].
Qed.

Lemma vmin_ok (d : list R) : d <> [] ->
  exists m, vmin AX (map Fin d) = Ok (Fin m) /\ In m d /\ forall x, In x d -> m <= x.
Proof.
  destruct d as [|x d]; intros H; [congruence|].
  cbn [map]. unfold vmin. cbn [fold_left]. change (flt AX (Fin x) (finf AX)) with true. cbv iota.
  destruct (vmin_fold d x) as (m & E & H1 & H2 & H3). exists m. rewrite E. split; [reflexivity|]. split.
  - destruct H3 as [->|H3]; [left; reflexivity|right; exact H3].
  - intros z [<-|Hz]; [exact H1|apply H2, Hz].
Qed.

Lemma find_nonzero_spec (d : list R) k i :
  In i (find_nonzero AX k (map Fin d)) <-> exists j, i = S (k + j) /\ (j < length d)%nat /\ nth j d 0 <> 0.
Proof.
  revert k; induction d as [|x d IH]; intros k.
  - split; [intros []|]. intros (j & _ & H & _). simpl in H. lia.
  - cbn [map find_nonzero].
    assert (In i (find_nonzero AX (S k) (map Fin d)) <->
            exists j, i = S (k + S j) /\ (S j < length (x :: d))%nat /\ nth (S j) (x :: d) 0 <> 0) as Hd.
    { rewrite IH. split; intros (j & H1 & H2 & H3); exists j; simpl in *; repeat split; try assumption; lia. }
    cbn [feq AX xeq fofZ]. destruct (Req_EM_T x 0) as [->|Hx].
    + rewrite Hd. split; intros (j & H1 & H2 & H3).
      * exists (S j). repeat split; assumption.
      * destruct j as [|j]; [simpl in H3; lra|]. exists j. repeat split; assumption.
    + split.
      * intros [<-|H]; [exists O; simpl; repeat split; [lia|lia|exact Hx]|].
        apply Hd in H. destruct H as (j & H1 & H2 & H3). exists (S j). repeat split; assumption.
      * intros (j & H1 & H2 & H3). destruct j as [|j]; [left; lia|]. right. apply Hd. exists j. repeat split; assumption.
Qed.

Lemma find_nonzero_sorted (d : list R) k :
  StronglySorted lt (find_nonzero AX k (map Fin d)) /\ Forall (lt k) (find_nonzero AX k (map Fin d)).
Proof.
  revert k; induction d as [|x d IH]; intros k; [split; constructor|].
  destruct (IH (S k)) as [H1 H2].
  assert (Forall (lt k) (find_nonzero AX (S k) (map Fin d))) as H3.
  { eapply Forall_impl; [|exact H2]. intros a Ha. lia. }
  cbn [map find_nonzero]. destruct (feq AX (Fin x) (fofZ AX 0)); [split; assumption|].
  split; constructor; try assumption. lia.
Qed.

Lemma unique_sorted (d : list R) : StronglySorted lt (unique_values AX (map Fin d)).
Proof.
  unfold unique_values. destruct (find_nonzero_sorted d 0) as [H1 H2]. constructor; assumption.
Qed.

Lemma unique_spec (d : list R) i :
  In i (unique_values AX (map Fin d)) <-> i = O \/ exists j, i = S j /\ (j < length d)%nat /\ nth j d 0 <> 0.
Proof.
  unfold unique_values. simpl. rewrite find_nonzero_spec. split.
  - intros [H|(j & H1 & H2 & H3)]; [left; lia|right; exists j; repeat split; assumption].
  - intros [H|(j & H1 & H2 & H3)]; [left; lia|right; exists j; repeat split; assumption].
Qed.

Lemma sorted_nth l i j : StronglySorted lt l -> (i < j)%nat -> (j < length l)%nat -> (nth i l O < nth j l O)%nat.
Proof.
  intros H; revert i j; induction H as [|a l Hs IH Hf]; intros i j Hij Hj; [simpl in Hj; lia|].
  destruct j as [|j]; [lia|]. destruct i as [|i]; simpl.
  - rewrite Forall_forall in Hf. apply Hf. apply nth_In. simpl in Hj. lia.
  - apply IH; simpl in Hj; lia.
Qed.

Lemma dlen (t : list R) : @length R (diffs AR t) = (@length R t - 1)%nat.
Proof. exact (diffs_length AR t). Qed.

Definition pick (idx : list nat) (l : list R) : list R := map (fun i => nth i l 0) idx.

Lemma pick_In idx l x : In x (pick idx l) -> exists i, In i idx /\ x = nth i l 0.
Proof. unfold pick. intros H. apply in_map_iff in H. destruct H as (i & <- & Hi). exists i. split; [exact Hi|reflexivity]. Qed.

Lemma pick_len idx l : length (pick idx l) = length idx.
Proof. apply map_length. Qed.

Lemma pick_nth idx l i : (i < length idx)%nat -> nth i (pick idx l) 0 = nth (nth i idx O) l 0.
Proof.
  intros H. unfold pick. rewrite (nth_indep _ 0 (nth 0 l 0)) by (rewrite map_length; exact H).
  apply (map_nth (fun i => nth i l 0)).
Qed.

Section Dedup.
Variable t : list R.
Hypothesis Hnd : nondecreasing t.
Hypothesis Hlen : (1 <= length t)%nat.
Let idx := unique_values AX (map Fin (diffs AR t)).

Lemma dnth j : (S j < length t)%nat -> nth j (diffs AR t) 0 = nth (S j) t 0 - nth j t 0.
Proof. intros H. exact (diffs_nth AR t j 0 0 H). Qed.

Lemma idx_range i : In i idx -> (i < length t)%nat.
Proof.
  unfold idx. rewrite unique_spec. intros [->|(j & -> & H & _)]; [lia|].
  rewrite dlen in H. lia.
Qed.

Lemma idx_first i : In i idx -> forall j, (j < i)%nat -> nth j t 0 < nth i t 0.
Proof.
  intros Hi j Hj. pose proof (idx_range i Hi) as Hr. unfold idx in Hi. rewrite unique_spec in Hi.
  destruct Hi as [->|(k & -> & H & Hne)]; [lia|].
  rewrite dnth in Hne by lia.
  assert (nth k t 0 <= nth (S k) t 0) by (apply Hnd; lia).
  assert (nth j t 0 <= nth k t 0) as H2.
  { destruct (Nat.eq_dec j k) as [->|]; [lra|]. apply Hnd; lia. }
  lra.
Qed.

Lemma idx_covers j : (j < length t)%nat -> exists i, In i idx /\ (i <= j)%nat /\ nth i t 0 = nth j t 0.
Proof.
  induction j as [|j IH]; intros Hj.
  - exists O. split; [|split; [lia|reflexivity]]. unfold idx. rewrite unique_spec. left; reflexivity.
  - destruct (Req_dec (nth j (diffs AR t) 0) 0) as [E|E].
    + rewrite dnth in E by exact Hj. destruct IH as (i & H1 & H2 & H3); [lia|].
      exists i. split; [exact H1|]. split; [lia|]. lra.
    + exists (S j). split; [|split; [lia|reflexivity]]. unfold idx. rewrite unique_spec. right.
      exists j. split; [reflexivity|]. split; [|exact E].
      rewrite dlen. lia.
Qed.

Lemma dedup_increasing : strictly_increasing (map (fun i => nth i t 0) idx).
Proof.
  intros a b Hab Hb. rewrite map_length in Hb.
  fold (pick idx t). rewrite !pick_nth by lia.
  apply idx_first.
  - apply nth_In. exact Hb.
  - apply sorted_nth; [apply unique_sorted|exact Hab|exact Hb].
Qed.
End Dedup.

Lemma diffs_nonneg t : nondecreasing t -> forall x, In x (diffs AR t) -> 0 <= x.
Proof.
  intros H x Hx. apply (In_nth _ _ 0) in Hx. destruct Hx as (j & Hj & <-).
  rewrite dlen in Hj.
  rewrite dnth by lia. assert (nth j t 0 <= nth (S j) t 0) by (apply H; lia). lra.
Qed.

Lemma steps_nondecreasing t : (forall j, (S j < length t)%nat -> nth j t 0 <= nth (S j) t 0) -> nondecreasing t.
Proof.
  intros H i j Hij Hj. induction j as [|j IH]; [lia|].
  destruct (Nat.eq_dec i j) as [->|]; [apply H; exact Hj|].
  apply Rle_trans with (nth j t 0); [apply IH; lia|apply H; exact Hj].
Qed.
Lemma steps_increasing t : (forall j, (S j < length t)%nat -> nth j t 0 < nth (S j) t 0) -> strictly_increasing t.
Proof.
  intros H i j Hij Hj. induction j as [|j IH]; [lia|].
  destruct (Nat.eq_dec i j) as [->|]; [apply H; exact Hj|].
  apply Rlt_trans with (nth j t 0); [apply IH; lia|apply H; exact Hj].
Qed.

Section Init.
Variable X : Type.
Variable si : list xr -> option (list nat).
Hypothesis Hsi : valid_sort_index si.
Variable raw : kf AX X.

(** the object init leaves behind *)
Definition built (t y e : list R) : kf AX X :=
  mkKF AX (map Fin t) (map Fin (diffs AR t)) (map Fin y) (map Fin e) (zeros AX (length t)) (zeros AX (length t))
    (k_sig raw) (k_cur raw) (k_yconst raw) (k_yslope raw) (k_ext raw).

(** the object with everything but mean and var *)
Definition staged (t y e : list R) : kf AX X :=
  mkKF AX (map Fin t) (map Fin (diffs AR t)) (map Fin y) (map Fin e) (k_mean raw) (k_var raw)
    (k_sig raw) (k_cur raw) (k_yconst raw) (k_yslope raw) (k_ext raw).

Lemma make_dt_Fin t : (2 <= length t)%nat -> make_dt AX (map Fin t) = Ok (map Fin (diffs AR t)).
Proof. intros H. rewrite make_dt_ok by (rewrite map_length; exact H). rewrite diffs_Fin. reflexivity. Qed.


(** second half of init *)
Definition init_tail (s1 : kf AX X) : res (kf AX X) :=
  m' <- vmin AX (k_dt s1) ;;
  s2 <- (if feq AX m' (fofZ AX 0) then
           let u := unique_values AX (k_dt s1) in
           t <- velem (k_time s1) u ;;
           y <- velem (k_y s1) u ;;
           e <- velem (k_yerr s1) u ;;
           d' <- make_dt AX t ;;
           Ok (set_dt (SetTimeSeriesErr (SetTimeSeries (SetTime s1 t) y) e) d')
         else Ok s1) ;;
  let n := length (k_time s2) in
  Ok (set_var (set_mean s2 (zeros AX n)) (zeros AX n)).

Lemma init_tail_ok t y e : nondecreasing t -> (2 <= length t)%nat -> length y = length t -> length e = length t ->
  (exists a b, In a t /\ In b t /\ a <> b) ->
  exists idx, init_tail (staged t y e) = Ok (built (pick idx t) (pick idx y) (pick idx e)) /\
    strictly_increasing (pick idx t) /\
    (forall i, In i idx -> (i < length t)%nat) /\
    (forall x, In x t -> In x (pick idx t)) /\
    (forall i, In i idx -> forall j, (j < i)%nat -> nth j t 0 < nth i t 0) /\
    (strictly_increasing t -> idx = seq 0 (length t)) /\
    (2 <= length idx)%nat.
Proof.
  intros Hnd Hn Hy He (a & b & Ha & Hb & Hab).
  assert (diffs AR t <> []) as Hne.
  { intros E. apply (f_equal (@length R)) in E. rewrite dlen in E. simpl in E. lia. }
  destruct (vmin_ok (diffs AR t) Hne) as (m & Em & Hin & Hmin).
  unfold init_tail. cbn [k_dt k_time k_y k_yerr staged]. rewrite Em. cbn [bind feq AX xeq fofZ].
  pose proof (diffs_nonneg t Hnd m Hin) as Hm0.
  set (idx := unique_values AX (map Fin (diffs AR t))).
  destruct (Req_EM_T m 0) as [->|Hm].
  - exists idx.
    assert (forall i, In i idx -> (i < length t)%nat) as Hr by (apply idx_range; lia).
    rewrite !velem_Fin by (intros i Hi; rewrite ?Hy, ?He; apply Hr, Hi). cbn [bind].
    fold (pick idx t). fold (pick idx y). fold (pick idx e).
    assert (forall x, In x t -> In x (pick idx t)) as Hcov.
    { intros x Hx. apply (In_nth _ _ 0) in Hx. destruct Hx as (j & Hj & <-).
      destruct (idx_covers t ltac:(lia) j Hj) as (i & Hi & _ & <-).
      unfold pick. apply (in_map (fun i => nth i t 0)). exact Hi. }
    assert (2 <= length idx)%nat as Hl2.
    { apply Hcov in Ha. apply Hcov in Hb. unfold pick in Ha, Hb.
      destruct idx as [|i0 [|i1 r]]; simpl in *; try lia.
      destruct Ha as [Ha|[]], Hb as [Hb|[]]. congruence. }
    rewrite make_dt_Fin by (unfold pick; rewrite map_length; exact Hl2). cbn [bind].
    split; [|split; [|split; [|split; [|split; [|split]]]]].
    + unfold built, set_var, set_mean, set_dt, SetTimeSeriesErr, SetTimeSeries, SetTime; cbn [k_time k_dt k_y k_yerr k_mean k_var k_sig k_cur k_yconst k_yslope k_ext staged].
      rewrite map_length. reflexivity.
    + apply dedup_increasing; [exact Hnd|lia].
    + exact Hr.
    + exact Hcov.
    + apply idx_first; [exact Hnd|lia].
    + intros Hs. exfalso. apply (In_nth _ _ 0) in Hin. destruct Hin as (j & Hj & Ej).
      rewrite dlen in Hj.
      rewrite dnth in Ej by lia. assert (nth j t 0 < nth (S j) t 0) by (apply Hs; lia). lra.
    + exact Hl2.
  - cbn [bind]. exists (seq 0 (length t)).
    assert (forall l, length l = length t -> pick (seq 0 (length t)) l = l) as Hp.
    { intros l Hl. unfold pick. rewrite <- Hl. symmetry. apply list_as_map_seq. }
    rewrite !Hp by (assumption || reflexivity).
    assert (strictly_increasing t) as Hs.
    { apply steps_increasing. intros j Hj. assert (m <= nth j (diffs AR t) 0) as H.
      { apply Hmin. apply nth_In. rewrite dlen. lia. }
      rewrite dnth in H by exact Hj. lra. }
    split; [|split; [|split; [|split; [|split; [|split]]]]].
    + unfold built, set_var, set_mean; cbn [k_time k_dt k_y k_yerr k_mean k_var k_sig k_cur k_yconst k_yslope k_ext staged].
      rewrite map_length. reflexivity.
    + exact Hs.
    + intros i Hi. apply in_seq in Hi. lia.
    + intros x Hx; exact Hx.
    + intros i Hi j Hj. apply in_seq in Hi. apply Hs; lia.
    + reflexivity.
    + rewrite seq_length. exact Hn.
Qed.

Lemma init_ok t y e : (2 <= length t)%nat -> length y = length t -> length e = length t ->
  (exists a b, In a t /\ In b t /\ a <> b) ->
  exists idx, @kf_new AX X si raw (map Fin t) (map Fin y) (map Fin e) = Ok (built (pick idx t) (pick idx y) (pick idx e)) /\
    strictly_increasing (pick idx t) /\
    (forall i, In i idx -> (i < length t)%nat) /\
    (forall x, In x t -> In x (pick idx t)) /\
    (nondecreasing t -> forall i, In i idx -> forall j, (j < i)%nat -> nth j t 0 < nth i t 0) /\
    (strictly_increasing t -> idx = seq 0 (length t)) /\
    (2 <= length idx)%nat.
Proof.
  intros Hn Hy He Hd. unfold kf_new, kf_init.
  cbn [k_time k_dt k_y k_yerr SetTime SetTimeSeries SetTimeSeriesErr].
  rewrite make_dt_Fin by exact Hn. cbn [bind].
  assert (diffs AR t <> []) as Hne.
  { intros E. apply (f_equal (@length R)) in E. rewrite dlen in E. simpl in E. lia. }
  destruct (vmin_ok (diffs AR t) Hne) as (m & Em & Hin & Hmin). rewrite Em. cbn [bind flt AX xlt fofZ].
  destruct (Rlt_dec m 0) as [Hm|Hm].
  - destruct (Hsi t) as (idx & Es & Hperm & Hsorted). rewrite Es. cbn [bind].
    assert (length idx = length t) as Hl by (apply Permutation_length in Hperm; rewrite seq_length in Hperm; exact Hperm).
    assert (forall i, In i idx -> (i < length t)%nat) as Hr.
    { intros i Hi. apply (Permutation_in _ Hperm) in Hi. apply in_seq in Hi. lia. }
    rewrite !velem_Fin by (intros i Hi; rewrite ?Hy, ?He; apply Hr, Hi). cbn [bind].
    fold (pick idx t). fold (pick idx y). fold (pick idx e).
    rewrite make_dt_Fin by (rewrite pick_len; lia). cbn [bind].
    assert (nondecreasing (pick idx t)) as Hnd.
    { intros i j Hij Hj. rewrite pick_len in Hj. rewrite !pick_nth by lia. apply Hsorted; lia. }
    assert (forall x, In x t -> In x (pick idx t)) as Hc1.
    { intros x Hx. apply (In_nth _ _ 0) in Hx. destruct Hx as (j & Hj & <-).
      unfold pick. apply (in_map (fun i => nth i t 0)).
      apply (Permutation_in _ (Permutation_sym Hperm)). apply in_seq. lia. }
    destruct (init_tail_ok (pick idx t) (pick idx y) (pick idx e)) as (idx2 & E2 & I1 & I2 & I3 & I4 & I5 & I6).
    + exact Hnd.
    + rewrite pick_len; lia.
    + rewrite !pick_len; reflexivity.
    + rewrite !pick_len; reflexivity.
    + destruct Hd as (a & b & Ha & Hb & Hab). exists a, b. auto.
    + assert (forall l, pick idx2 (pick idx l) = pick (map (fun i => nth i idx O) idx2) l) as Hpp.
      { intros l. unfold pick at 1 3. rewrite map_map. apply map_ext_in. intros i Hi.
        rewrite pick_nth; [reflexivity|]. apply I2 in Hi. rewrite pick_len in Hi. exact Hi. }
      exists (map (fun i => nth i idx O) idx2). rewrite !Hpp in *.
      split; [exact E2|]. split; [exact I1|]. split; [|split; [|split; [|split]]].
      * intros i Hi. apply in_map_iff in Hi. destruct Hi as (k & <- & Hk). apply Hr. apply nth_In.
        apply I2 in Hk. rewrite pick_len in Hk. exact Hk.
      * intros x Hx. apply I3, Hc1, Hx.
      * intros Hnd'. exfalso. apply diffs_nonneg with (x := m) in Hnd'; [lra|exact Hin].
      * intros Hs. exfalso. assert (nondecreasing t) as Hnd' by (intros i j Hij Hj; left; apply Hs; assumption).
        apply diffs_nonneg with (x := m) in Hnd'; [lra|exact Hin].
      * rewrite map_length. exact I6.
  - cbn [bind].
    assert (nondecreasing t) as Hnd.
    { apply steps_nondecreasing. intros j Hj. assert (m <= nth j (diffs AR t) 0) as H.
      { apply Hmin. apply nth_In. rewrite dlen. lia. }
      rewrite dnth in H by exact Hj. lra. }
    destruct (init_tail_ok t y e Hnd Hn Hy He Hd) as (idx2 & E2 & I1 & I2 & I3 & I4 & I5 & I6).
    exists idx2. split; [exact E2|]. split; [exact I1|]. split; [exact I2|]. split; [exact I3|]. split; [|split].
    + intros _; exact I4.
    + exact I5.
    + exact I6.
Qed.

Lemma built_usable t y e : (2 <= length t)%nat -> length y = length t -> length e = length t ->
  usable (built t y e).
Proof.
  intros Hn Hy He. unfold usable, built; cbn [k_time k_dt k_y k_yerr k_mean k_var]. rewrite diffs_Fin, !map_length, !zeros_len.
  repeat split; assumption.
Qed.

(** all times equal *)
Lemma init_all_equal t y e : (forall a b, In a t -> In b t -> a = b) ->
  @kf_new AX X si raw (map Fin t) (map Fin y) (map Fin e) = Throw Elogic.
Proof.
  intros Heq. unfold kf_new, kf_init. cbn [k_time k_dt k_y k_yerr SetTime SetTimeSeries SetTimeSeriesErr].
  destruct (le_lt_dec 2 (length t)) as [Hn|Hn].
  2:{ unfold make_dt. rewrite map_length. destruct (Nat.ltb_spec (length t) 2); [reflexivity|lia]. }
  rewrite make_dt_Fin by exact Hn. cbn [bind].
  assert (diffs AR t <> []) as Hne.
  { intros E. apply (f_equal (@length R)) in E. rewrite dlen in E. simpl in E. lia. }
  assert (forall x, In x (diffs AR t) -> x = 0) as H0.
  { intros x Hx. apply (In_nth _ _ 0) in Hx. destruct Hx as (j & Hj & <-).
    rewrite dlen in Hj.
    assert (nth (S j) t 0 = nth j t 0) as E by (apply Heq; apply nth_In; lia).
    rewrite dnth by lia. lra. }
  destruct (vmin_ok (diffs AR t) Hne) as (m & Em & Hin & Hmin). rewrite Em. cbn [bind flt AX xlt fofZ].
  apply H0 in Hin. subst m. destruct (Rlt_dec 0 0); [lra|]. cbn [bind k_dt set_dt].
  rewrite Em. cbn [bind feq xeq AX fofZ]. destruct (Req_EM_T 0 0); [|lra].
  assert (unique_values AX (map Fin (diffs AR t)) = [O]) as Eu.
  { unfold unique_values. f_equal. destruct (find_nonzero AX 0 (map Fin (diffs AR t))) as [|i r] eqn:E; [reflexivity|].
    assert (In i (find_nonzero AX 0 (map Fin (diffs AR t)))) as Hi by (rewrite E; left; reflexivity).
    apply find_nonzero_spec in Hi. destruct Hi as (j & _ & Hj & Hx). exfalso. apply Hx, H0, nth_In, Hj. }
  rewrite Eu. cbn [k_time k_y k_yerr set_dt].
  destruct t as [|t0 tl]; [simpl in Hn; lia|]. cbn [map velem vget nth_error bind].
  destruct y as [|y0 yl]; [reflexivity|]. cbn [map velem vget nth_error bind].
  destruct e as [|e1 el]; reflexivity.
Qed.
End Init.

Lemma init_short A X (si : list (F A) -> option (list nat)) (raw : kf A X) t y e :
  (length t < 2)%nat -> kf_new si raw t y e = Throw Elogic.
Proof.
  intros H. unfold kf_new, kf_init. cbn [k_time SetTime SetTimeSeries SetTimeSeriesErr].
  unfold make_dt. destruct (Nat.ltb_spec (length t) 2); [reflexivity|lia].
Qed.
