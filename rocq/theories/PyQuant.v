(** Order statistics: np.percentile and np.median of finite numbers. *)
From Coq Require Import List Arith ZArith Reals Lra Lia Permutation Bool.
From Verif Require Import Arith Res KFModel Cx CarpackModel PyModel PySampleModel Emb InitProof KF1More PyKFSim.
Import ListNotations.
Local Open Scope R_scope.

(** ** Specification *)

(** the value at the position h (0 <= h <= n - 1) of the sorted list s: linear between neighbours *)
Definition at_position (s : list R) (h v : R) : Prop :=
  exists k, (k < length s)%nat /\ INR k <= h < INR k + 1 /\
    v = nth k s 0 + (h - INR k) * (nth (Nat.min (k + 1) (length s - 1)) s 0 - nth k s 0).
(** the percentile q of the numbers l *)
Definition percentile_of (l : list R) (q v : R) : Prop :=
  exists s, Permutation l s /\ nondecreasing s /\ at_position s (INR (length l - 1) * (q / 100)) v.
(** how many of the numbers satisfy a comparison *)
Definition count_le (l : list R) (v : R) : nat := length (filter (fun x => if Rle_dec x v then true else false) l).
Definition count_ge (l : list R) (v : R) : nat := length (filter (fun x => if Rle_dec v x then true else false) l).

(** ** Proofs *)

Lemma fleX (a b : R) : fle AX (Fin a) (Fin b) = if Rle_dec a b then true else false.
Proof.
  unfold fle. cbn [flt feq AX xlt xeq]. destruct (Rlt_dec a b), (Req_EM_T a b), (Rle_dec a b); try reflexivity; exfalso; lra.
Qed.

Lemma findex_spec m (h : R) : 0 <= h ->
  let k := findex AX m (Fin h) in (k <= m)%nat /\ INR k <= h /\ ((k < m)%nat -> h < INR k + 1).
Proof.
  intros Hh. cbv zeta. induction m as [|m (IH1 & IH2 & IH3)].
  - cbn. split; [lia|]. split; [lra|lia].
  - assert (findex AX (S m) (Fin h) = (findex AX m (Fin h) + if Rle_dec (INR (S m)) h then 1 else 0)%nat) as E.
    { unfold findex. rewrite seq_S, filter_app, app_length. f_equal. cbn [filter Nat.add].
      change (fofZ AX (Z.of_nat (S m))) with (Fin (IZR (Z.of_nat (S m)))). rewrite fleX, <- INR_IZR_INZ.
      destruct (Rle_dec (INR (S m)) h); reflexivity. }
    rewrite E. clear E. set (k := findex AX m (Fin h)) in *. destruct (Rle_dec (INR (S m)) h) as [Hl|Hl].
    + assert (k = m) as Hk. { destruct (le_lt_eq_dec _ _ IH1) as [Hlt|He]; [|exact He]. specialize (IH3 Hlt). exfalso.
        assert (INR (S k) <= INR m) as H1 by (apply le_INR; lia). rewrite S_INR in Hl, H1. lra. }
      rewrite Hk in *. replace (m + 1)%nat with (S m) by lia. split; [lia|]. split; [exact Hl|lia].
    + rewrite Nat.add_0_r. apply Rnot_le_lt in Hl. split; [lia|]. split; [exact IH2|]. intros _.
      destruct (le_lt_eq_dec _ _ IH1) as [Hlt|He]; [exact (IH3 Hlt)|]. rewrite He, <- S_INR. exact Hl.
Qed.

Lemma nth_Fin_map i (s : list R) (d : xr) : (i < length s)%nat -> nth i (map Fin s) d = Fin (nth i s 0).
Proof. intros H. rewrite (nth_indep _ d (Fin 0)) by (rewrite map_length; exact H). apply map_nth. Qed.

Section Sorted.
Variable np_sort : list (F AX) -> list (F AX).
Hypothesis Hsort : valid_np_sort np_sort.

Lemma sorted_list (l : list R) : exists s, np_sort (map Fin l) = map Fin s /\ Permutation l s /\ nondecreasing s.
Proof.
  destruct (Hsort (map Fin l) l 0%nat) as (s & E & Hp & Hs). { cbn [repeat]. rewrite app_nil_r. reflexivity. }
  exists s. cbn [repeat] in E. rewrite app_nil_r in E. auto.
Qed.

Lemma pct_Fin (l s : list R) (q : R) : np_sort (map Fin l) = map Fin s -> Permutation l s -> l <> [] -> 0 <= q <= 100 ->
  exists v, np_percentile AX np_sort (map Fin l) (Fin q) = Ok (Fin v) /\ at_position s (INR (length l - 1) * (q / 100)) v.
Proof.
  intros Es Hp Hne Hq. unfold np_percentile. rewrite Es. change (F AX) with xr.
  assert (length s = length l) as Hlen by (symmetry; apply Permutation_length; exact Hp).
  assert (0 < length s)%nat as Hpos. { rewrite Hlen. destruct l; [easy|cbn; lia]. }
  change (fofZ AX 0) with (Fin 0). change (fofZ AX 100) with (Fin 100). rewrite !fleX.
  destruct (Rle_dec 0 q) as [_|X]; [|lra]. destruct (Rle_dec q 100) as [_|X]; [|lra]. cbn [andb negb].
  rewrite map_length, Hlen. destruct s as [|s0 s']; [cbn in Hpos; lia|]. set (s := s0 :: s') in *.
  change (map Fin s) with (Fin s0 :: map Fin s') at 1. cbn iota.
  change (fdiv AX (Fin q) (Fin 100)) with (xdiv (Fin q) (Fin 100)). rewrite fin_div by lra.
  change (fofZ AX (Z.of_nat (length l - 1))) with (Fin (IZR (Z.of_nat (length l - 1)))). rewrite <- INR_IZR_INZ.
  change (fmul AX (Fin (INR (length l - 1))) (Fin (q / 100))) with (Fin (INR (length l - 1) * (q / 100))).
  set (h := INR (length l - 1) * (q / 100)).
  assert (0 <= h <= INR (length l - 1)) as Hh.
  { pose proof (pos_INR (length l - 1)). unfold h. split; [apply Rmult_le_pos; lra|].
    rewrite <- (Rmult_1_r (INR (length l - 1))) at 2. apply Rmult_le_compat_l; lra. }
  destruct (findex_spec (length l - 1) h (proj1 Hh)) as (H1 & H2 & H3). set (k := findex AX (length l - 1) (Fin h)) in *.
  assert (h < INR k + 1) as H4.
  { destruct (le_lt_eq_dec _ _ H1) as [Hlt|He]; [exact (H3 Hlt)|]. rewrite <- He in Hh. lra. }
  rewrite !nth_Fin_map by (rewrite Hlen; lia).
  change (fofZ AX (Z.of_nat k)) with (Fin (IZR (Z.of_nat k))). rewrite <- INR_IZR_INZ.
  change (fofZ AX 1) with (Fin 1). change (fdec AX 1 2) with (Fin (1 / 2)).
  cbn [fsub fadd fmul feq AX xsub xadd xmul xeq]. rewrite fleX.
  destruct (Req_EM_T (nth (length l - 1) s 0) (nth (length l - 1) s 0)) as [_|X]; [|exfalso; apply X; reflexivity]. cbn [negb].
  exists (nth k s 0 + (h - INR k) * (nth (Nat.min (k + 1) (length l - 1)) s 0 - nth k s 0)). split.
  - f_equal. destruct (Rle_dec (1 / 2) (h - INR k)); f_equal; ring.
  - exists k. rewrite Hlen. split; [lia|]. split; [split; assumption|]. reflexivity.
Qed.

Theorem percentile_ok (l : list R) (q : R) : l <> [] -> 0 <= q <= 100 ->
  exists v, np_percentile AX np_sort (map Fin l) (Fin q) = Ok (Fin v) /\ percentile_of l q v.
Proof.
  intros Hne Hq. destruct (sorted_list l) as (s & Es & Hp & Hs). destruct (pct_Fin l s q Es Hp Hne Hq) as (v & E & Hv).
  exists v. split; [exact E|]. exists s. auto.
Qed.
End Sorted.

(** a sorted list determines the value at a position *)
Lemma floor_unique (k k' : nat) h : INR k <= h < INR k + 1 -> INR k' <= h < INR k' + 1 -> k = k'.
Proof.
  intros H H'. destruct (lt_eq_lt_dec k k') as [[L|E]|L]; [|exact E|].
  - exfalso. assert (INR (S k) <= INR k') by (apply le_INR; lia). rewrite S_INR in *. lra.
  - exfalso. assert (INR (S k') <= INR k) by (apply le_INR; lia). rewrite S_INR in *. lra.
Qed.

Lemma nd_le s i j : nondecreasing s -> (i <= j)%nat -> (j < length s)%nat -> nth i s 0 <= nth j s 0.
Proof. intros H Hij Hj. destruct (le_lt_eq_dec _ _ Hij) as [L|E]; [exact (H i j L Hj)|rewrite E; lra]. Qed.

Lemma at_position_mono s h h' v v' : nondecreasing s -> h <= h' -> at_position s h v -> at_position s h' v' -> v <= v'.
Proof.
  intros Hs Hh (k & Hk & Hb & Ev) (k' & Hk' & Hb' & Ev').
  assert (k <= k')%nat as Hkk.
  { destruct (le_lt_dec k k') as [L|L]; [exact L|]. exfalso. assert (INR (S k') <= INR k) by (apply le_INR; lia). rewrite S_INR in *. lra. }
  set (d := nth (Nat.min (k + 1) (length s - 1)) s 0) in *. set (d' := nth (Nat.min (k' + 1) (length s - 1)) s 0) in *.
  assert (nth k s 0 <= d) by (apply nd_le; [exact Hs|lia|lia]).
  assert (nth k' s 0 <= d') by (apply nd_le; [exact Hs|lia|lia]).
  destruct (le_lt_eq_dec _ _ Hkk) as [L|E].
  - assert (d <= nth k' s 0) by (apply nd_le; [exact Hs|lia|lia]).
    assert (v <= d) by (rewrite Ev; nra). assert (nth k' s 0 <= v') by (rewrite Ev'; nra). lra.
  - subst k'. fold d in Ev'. rewrite Ev, Ev'. change d' with d. nra.
Qed.

(** the percentiles split the numbers as they should: more than a fraction q of n - 1 are not above, and the same on the other side *)
Lemma filter_perm_length {T} (f : T -> bool) (l l' : list T) : Permutation l l' -> length (filter f l) = length (filter f l').
Proof. induction 1; cbn; [reflexivity|destruct (f x); cbn; lia|destruct (f x), (f y); cbn; lia|lia]. Qed.

Lemma filter_prefix {T} (f : T -> bool) (s : list T) d k : (k <= length s)%nat -> (forall i, (i < k)%nat -> f (nth i s d) = true) ->
  (k <= length (filter f s))%nat.
Proof.
  revert k. induction s as [|x s IH]; intros k Hk H; [cbn in *; lia|]. destruct k as [|k]; [lia|]. cbn [filter].
  pose proof (H 0%nat ltac:(lia)) as H0. cbn in H0. rewrite H0. cbn [length]. apply le_n_S. apply IH; [cbn in Hk; lia|].
  intros i Hi. exact (H (S i) ltac:(lia)).
Qed.
Lemma filter_suffix {T} (f : T -> bool) (s : list T) d k : (forall i, (k <= i < length s)%nat -> f (nth i s d) = true) ->
  (length s - k <= length (filter f s))%nat.
Proof.
  revert k. induction s as [|x s IH]; intros k H; [cbn; lia|]. destruct k as [|k].
  - cbn [filter]. pose proof (H 0%nat ltac:(cbn; lia)) as H0. cbn in H0. rewrite H0. cbn [length].
    specialize (IH 0%nat). lapply IH; [lia|]. intros i Hi. exact (H (S i) ltac:(cbn; lia)).
  - cbn [length filter]. specialize (IH k). lapply IH; [|intros i Hi; exact (H (S i) ltac:(cbn; lia))]. destruct (f x); cbn; lia.
Qed.

Theorem percentile_counts (l : list R) q v : 0 <= q <= 100 -> percentile_of l q v ->
  INR (length l - 1) * (q / 100) < INR (count_le l v) /\ INR (length l - 1) * (1 - q / 100) < INR (count_ge l v).
Proof.
  intros Hq (s & Hp & Hs & k & Hk & Hb & Ev). pose proof (Permutation_length Hp) as Hlen. rewrite Hlen in *.
  set (h := INR (length s - 1) * (q / 100)) in *.
  unfold count_le, count_ge. rewrite !(filter_perm_length _ l s Hp).
  set (d := nth (Nat.min (k + 1) (length s - 1)) s 0) in *.
  assert (nth k s 0 <= d) as Hd by (apply nd_le; [exact Hs|lia|lia]).
  assert (nth k s 0 <= v <= d) as (Hv1 & Hv2) by (rewrite Ev; nra).
  split.
  - apply Rlt_le_trans with (INR (k + 1)); [rewrite plus_INR; cbn; lra|]. apply le_INR. apply (filter_prefix _ _ 0); [lia|].
    intros i Hi. destruct (Rle_dec (nth i s 0) v) as [_|X]; [reflexivity|]. exfalso. apply X.
    apply Rle_trans with (nth k s 0); [apply nd_le; [exact Hs|lia|lia]|exact Hv1].
  - replace (INR (length s - 1) * (1 - q / 100)) with (INR (length s - 1) - h) by (unfold h; ring).
    destruct (Req_EM_T h (INR k)) as [E|E].
    + assert (v = nth k s 0) as Ev' by (rewrite Ev, E; ring).
      apply Rlt_le_trans with (INR (length s - k)).
      * rewrite E. rewrite !minus_INR by lia. cbn. lra.
      * apply le_INR. apply (filter_suffix _ _ 0). intros i Hi. destruct (Rle_dec v (nth i s 0)) as [_|X]; [reflexivity|]. exfalso. apply X.
        rewrite Ev'. apply nd_le; [exact Hs|lia|lia].
    + assert (INR k < h) as Hlt by lra.
      assert (k + 1 <= length s - 1)%nat as Hk1.
      { assert (h <= INR (length s - 1)) as Hle. { unfold h. pose proof (pos_INR (length s - 1)). rewrite <- (Rmult_1_r (INR (length s - 1))) at 2. apply Rmult_le_compat_l; lra. }
        assert (INR k < INR (length s - 1)) as H1 by lra. apply INR_lt in H1. lia. }
      apply Rlt_le_trans with (INR (length s - (k + 1))).
      * rewrite !minus_INR, plus_INR by lia. cbn. lra.
      * apply le_INR. apply (filter_suffix _ _ 0). intros i Hi. destruct (Rle_dec v (nth i s 0)) as [_|X]; [reflexivity|]. exfalso. apply X.
        apply Rle_trans with d; [exact Hv2|]. unfold d. rewrite Nat.min_l by lia. apply nd_le; [exact Hs|lia|lia].
Qed.

(** the median is the percentile 50 *)
Section Median.
Variable np_sort : list (F AX) -> list (F AX).
Hypothesis Hsort : valid_np_sort np_sort.

Lemma median_Fin (l s : list R) : np_sort (map Fin l) = map Fin s -> Permutation l s -> l <> [] ->
  exists v, np_median AX np_sort (map Fin l) = Fin v /\ at_position s (INR (length l - 1) * (50 / 100)) v.
Proof.
  intros Es Hp Hne. unfold np_median. rewrite Es. change (F AX) with xr.
  assert (length s = length l) as Hlen by (symmetry; apply Permutation_length; exact Hp).
  assert (0 < length s)%nat as Hpos. { rewrite Hlen. destruct l; [easy|cbn; lia]. }
  rewrite map_length, Hlen. destruct s as [|s0 s']; [cbn in Hpos; lia|]. set (s := s0 :: s') in *.
  change (map Fin s) with (Fin s0 :: map Fin s') at 1. cbn iota.
  assert (length l / 2 < length s)%nat as Hm. { rewrite Hlen in *. apply Nat.div_lt; lia. }
  rewrite !nth_Fin_map by lia. cbn [feq AX xeq].
  destruct (Req_EM_T (nth (length l - 1) s 0) (nth (length l - 1) s 0)) as [_|X]; [|exfalso; apply X; reflexivity]. cbn [negb].
  destruct (Nat.odd (length l)) eqn:Ho.
  - apply Nat.odd_spec in Ho. destruct Ho as (m & Em).
    assert (length l / 2 = m)%nat as Ed by (rewrite Em, (Nat.add_comm (2 * m)), Nat.mul_comm, Nat.div_add by lia; reflexivity).
    exists (nth m s 0). split.
    + rewrite Ed. unfold vmean, vsum. cbn [fold_left length]. change (Z.of_nat 1) with 1%Z. cbn [fofZ fadd fdiv AX xadd]. rewrite fin_div by lra. f_equal. field.
    + exists m. rewrite Ed in Hm. split; [exact Hm|]. rewrite Em. replace (2 * m + 1 - 1)%nat with (2 * m)%nat by lia.
      rewrite mult_INR. change (INR 2) with 2. split; [lra|]. field.
  - assert (Nat.even (length l) = true) as He by (rewrite <- Nat.negb_odd, Ho; reflexivity). apply Nat.even_spec in He. destruct He as (m & Em).
    assert (length l / 2 = m)%nat as Ed by (rewrite Em, Nat.mul_comm, Nat.div_mul by lia; reflexivity).
    rewrite Ed in *. assert (0 < m)%nat as Hm0 by lia.
    exists ((nth (m - 1) s 0 + nth m s 0) / 2). split.
    + unfold vmean, vsum. cbn [fold_left length]. change (Z.of_nat 2) with 2%Z. cbn [fofZ fadd fdiv AX xadd]. rewrite fin_div by lra. f_equal. field.
    + exists (m - 1)%nat. split; [lia|]. rewrite Hlen, Em. replace (Nat.min (m - 1 + 1) (2 * m - 1)) with m by lia.
      rewrite !minus_INR, mult_INR by lia. change (INR 2) with 2. change (INR 1) with 1. split; [lra|]. field.
Qed.

Theorem median_ok (l : list R) : l <> [] -> exists v, np_median AX np_sort (map Fin l) = Fin v /\ percentile_of l 50 v.
Proof.
  intros Hne. destruct (sorted_list np_sort Hsort l) as (s & Es & Hp & Hs). destruct (median_Fin l s Es Hp Hne) as (v & E & Hv).
  exists v. split; [exact E|]. exists s. auto.
Qed.

(** lower <= median <= upper *)
Theorem band_ok (l : list R) (pc : R) : l <> [] -> 0 <= pc <= 100 ->
  exists lo me up, psd_band AX np_sort (Fin pc) (map Fin l) = Ok (Fin lo, Fin me, Fin up) /\
    percentile_of l ((100 - pc) / 2) lo /\ percentile_of l 50 me /\ percentile_of l (100 - (100 - pc) / 2) up /\ lo <= me <= up.
Proof.
  intros Hne Hpc. unfold psd_band. change (fofZ AX 100) with (Fin 100). change (fofZ AX 2) with (Fin 2).
  cbn [fsub fdiv AX xsub]. rewrite fin_div by lra.
  destruct (sorted_list np_sort Hsort l) as (s & Es & Hp & Hs).
  destruct (pct_Fin np_sort l s ((100 - pc) / 2) Es Hp Hne ltac:(lra)) as (lo & E1 & H1).
  destruct (pct_Fin np_sort l s (100 - (100 - pc) / 2) Es Hp Hne ltac:(lra)) as (up & E2 & H2).
  destruct (median_Fin l s Es Hp Hne) as (me & E3 & H3).
  exists lo, me, up. rewrite E1. cbn [bind]. rewrite E2. cbn [bind]. rewrite E3. split; [reflexivity|].
  split; [exists s; auto|]. split; [exists s; auto|]. split; [exists s; auto|].
  pose proof (pos_INR (length l - 1)) as Hn.
  split; (eapply at_position_mono; [exact Hs| |eassumption|eassumption]); apply Rmult_le_compat_l; lra.
Qed.
End Median.
