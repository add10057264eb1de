(** Histograms: np.histogram counts every value once; the bars and the normal curve of assess_fit. *)
From Coq Require Import List Arith ZArith Reals Lra Lia Bool String.
From Verif Require Import Arith Res ListLemmas KFModel InitProof Cx CarpackModel CarpackTop Emb PySampleModel PyQuant PyAssessModel.
Import ListNotations.
Local Open Scope R_scope.
Local Notation length := List.length.

(** ** Specification *)
(** [nb] bins of equal width from [lo] to [hi]: edge [i] *)
Definition bin_edge (lo hi : R) (nb i : nat) : R := lo + INR i * ((hi - lo) / INR nb).
(** the values of bin [i]; only the last one contains its upper edge *)
Definition in_bin (lo hi : R) (nb i : nat) (v : R) : Prop :=
  bin_edge lo hi nb i <= v /\ (v < bin_edge lo hi nb (S i) \/ (S i = nb /\ v = hi)).
Definition in_bin_dec lo hi nb i v : {in_bin lo hi nb i v} + {~ in_bin lo hi nb i v}.
Proof.
  unfold in_bin. destruct (Rle_dec (bin_edge lo hi nb i) v) as [H|H]; [|right; tauto].
  destruct (Rlt_dec v (bin_edge lo hi nb (S i))) as [H1|H1]; [left; tauto|].
  destruct (Nat.eq_dec (S i) nb) as [H2|H2]; [|right; tauto]. destruct (Req_EM_T v hi) as [H3|H3]; [left; tauto | right; tauto].
Defined.
(** from the smallest to the largest value; half a unit to each side when they are equal *)
Definition range_of (x : list R) (lo hi : R) : Prop :=
  exists a b, In a x /\ In b x /\ (forall v, In v x -> a <= v <= b) /\
    ((a < b /\ lo = a /\ hi = b) \/ (a = b /\ lo = a - 1 / 2 /\ hi = b + 1 / 2)).
(** [c]: how many values of [x] are in each bin *)
Definition counts (x : list R) (nb : nat) (lo hi : R) (c : list nat) : Prop :=
  length c = nb /\ forall i, (i < nb)%nat -> nth i c 0%nat = length (filter (fun v => if in_bin_dec lo hi nb i v then true else false) x).

(** ** Every value is in one bin *)
Lemma range_lt x lo hi : range_of x lo hi -> lo < hi.
Proof. intros (a & b & _ & _ & _ & [(H & -> & ->)|(-> & -> & ->)]); lra. Qed.
Lemma range_in x lo hi v : range_of x lo hi -> In v x -> lo <= v <= hi.
Proof. intros (a & b & _ & _ & H & [(_ & -> & ->)|(_ & -> & ->)]) Hv; specialize (H v Hv); lra. Qed.

Lemma edge_0 lo hi nb : bin_edge lo hi nb 0 = lo.
Proof. unfold bin_edge. simpl. lra. Qed.
Lemma edge_last lo hi nb : (0 < nb)%nat -> bin_edge lo hi nb nb = hi.
Proof. intro H. unfold bin_edge. apply lt_INR in H. simpl in H. field. lra. Qed.
Lemma edge_step lo hi nb i : bin_edge lo hi nb (S i) = bin_edge lo hi nb i + (hi - lo) / INR nb.
Proof. unfold bin_edge. rewrite S_INR. lra. Qed.
Lemma width_pos lo hi nb : (0 < nb)%nat -> lo < hi -> 0 < (hi - lo) / INR nb.
Proof. intros H1 H2. apply Rdiv_lt_0_compat; [lra|]. apply lt_0_INR. exact H1. Qed.
Lemma edge_lt lo hi nb i j : (0 < nb)%nat -> lo < hi -> (i < j)%nat -> bin_edge lo hi nb i < bin_edge lo hi nb j.
Proof.
  intros H1 H2 H3. pose proof (width_pos lo hi nb H1 H2). unfold bin_edge. apply Rplus_lt_compat_l, Rmult_lt_compat_r; [assumption|]. now apply lt_INR.
Qed.
Lemma edge_le lo hi nb i j : (0 < nb)%nat -> lo < hi -> (i <= j)%nat -> bin_edge lo hi nb i <= bin_edge lo hi nb j.
Proof.
  intros H1 H2 H3. destruct (Nat.eq_dec i j) as [->|N]; [lra|]. apply Rlt_le, edge_lt; [assumption..|lia].
Qed.

Theorem one_bin lo hi nb v : (0 < nb)%nat -> lo < hi -> lo <= v <= hi ->
  exists i, (i < nb)%nat /\ in_bin lo hi nb i v /\ forall j, (j < nb)%nat -> in_bin lo hi nb j v -> j = i.
Proof.
  intros Hn Hlt Hv.
  assert (exists i, (i < nb)%nat /\ in_bin lo hi nb i v) as (i & Hi & Hin).
  { assert (forall k, (k <= nb)%nat -> (exists i, (i < k)%nat /\ in_bin lo hi nb i v) \/ bin_edge lo hi nb k <= v) as H.
    { induction k as [|k IH]; intro Hk; [right; rewrite edge_0; lra|]. destruct (IH ltac:(lia)) as [(i & Hi & H)|H].
      - left. exists i. split; [lia|exact H].
      - destruct (Rlt_dec v (bin_edge lo hi nb (S k))) as [H1|H1]; [|right; lra].
        left. exists k. split; [lia|]. split; [exact H|]. left. exact H1. }
    destruct (H nb (le_n nb)) as [H1|H1]; [exact H1|]. rewrite edge_last in H1 by exact Hn.
    exists (nb - 1)%nat. split; [lia|]. split.
    - apply Rle_trans with (bin_edge lo hi nb nb); [apply edge_le; [assumption..|lia] | rewrite edge_last; assumption].
    - right. split; [lia|]. lra. }
  exists i. split; [exact Hi|]. split; [exact Hin|]. intros j Hj Hjn.
  assert (forall a b, (a < b)%nat -> (b < nb)%nat -> in_bin lo hi nb a v -> in_bin lo hi nb b v -> False) as W.
  { intros a b Hab Hb [_ Ha2] [Hb1 _]. destruct Ha2 as [Ha2|[Ha2 _]]; [|lia].
    pose proof (edge_le lo hi nb (S a) b Hn Hlt ltac:(lia)). lra. }
  destruct (lt_eq_lt_dec j i) as [[H|H]|H]; [|exact H|]; exfalso; [exact (W j i H Hi Hjn Hin) | exact (W i j H Hj Hin Hjn)].
Qed.

Lemma sum_indicator (P : nat -> bool) n i : (i < n)%nat -> P i = true -> (forall j, (j < n)%nat -> P j = true -> j = i) ->
  list_sum (map (fun j => if P j then 1 else 0)%nat (seq 0 n)) = 1%nat.
Proof.
  intros Hi HP Hu. replace (seq 0 n) with (seq 0 i ++ i :: seq (S i) (n - S i))%list by (replace n with (i + S (n - S i))%nat at 2 by lia; rewrite seq_app; reflexivity).
  assert (Z0 : forall l, (forall j, In j l -> P j = false) -> list_sum (map (fun j => if P j then 1 else 0)%nat l) = 0%nat).
  { induction l as [|j l IH]; intro H; [reflexivity|]. cbn [map list_sum fold_right]. rewrite (H j (or_introl eq_refl)). apply IH. intros k Hk. apply H. now right. }
  rewrite map_app, list_sum_app. cbn [map]. rewrite HP. cbn [list_sum fold_right].
  change (fold_right Nat.add 0%nat) with list_sum.
  rewrite !Z0; [reflexivity| |]; intros j Hj; apply in_seq in Hj; (destruct (P j) eqn:E; [|reflexivity]); specialize (Hu j ltac:(lia) E); lia.
Qed.

(** the counts add up to the number of values *)
Theorem counts_total x nb lo hi c : (0 < nb)%nat -> lo < hi -> (forall v, In v x -> lo <= v <= hi) -> counts x nb lo hi c -> list_sum c = length x.
Proof.
  intros Hn Hlt Hx [Hl Hc].
  assert (c = map (fun i => length (filter (fun v => if in_bin_dec lo hi nb i v then true else false) x)) (seq 0 nb)) as ->.
  { apply (nth_ext _ _ 0%nat 0%nat); [rewrite map_length, seq_length; exact Hl|]. intros i Hi. rewrite Hl in Hi. rewrite Hc by exact Hi.
    rewrite (nth_map_seq (fun i => length (filter (fun v => if in_bin_dec lo hi nb i v then true else false) x))) by exact Hi. reflexivity. }
  clear Hl Hc. induction x as [|v x IH].
  - cbn [filter List.length]. clear. generalize 0%nat at 2. induction nb as [|nb IH]; intro k; [reflexivity|]. cbn [seq map list_sum fold_right]. apply IH.
  - cbn [List.length]. rewrite <- (IH (fun w Hw => Hx w (or_intror Hw)) : _ = length x). clear IH.
    destruct (one_bin lo hi nb v Hn Hlt (Hx v (or_introl eq_refl))) as (i & Hi & Hin & Hu).
    pose proof (sum_indicator (fun j => if in_bin_dec lo hi nb j v then true else false) nb i Hi
                  ltac:(cbv beta; destruct (in_bin_dec lo hi nb i v); [reflexivity|contradiction])
                  ltac:(intros j Hj E; cbv beta in E; destruct (in_bin_dec lo hi nb j v); [now apply Hu|discriminate])) as S1.
    cbv beta in S1.
    assert (E : forall l, list_sum (map (fun i => length (filter (fun v => if in_bin_dec lo hi nb i v then true else false) (v :: x))) l)
      = (list_sum (map (fun j => if (if in_bin_dec lo hi nb j v then true else false) then 1 else 0)%nat l)
        + list_sum (map (fun i => length (filter (fun v => if in_bin_dec lo hi nb i v then true else false) x)) l))%nat).
    { induction l as [|j l IHl]; [reflexivity|]. cbn [map list_sum fold_right]. fold (list_sum). unfold list_sum in IHl. rewrite IHl. cbn [filter].
      destruct (in_bin_dec lo hi nb j v); cbn [List.length]; lia. }
    rewrite E, S1. reflexivity.
Qed.

(** ** np.histogram *)
Lemma feqX (a b : R) : feq AX (Fin a) (Fin b) = if Req_EM_T a b then true else false.
Proof. cbn. destruct (Req_EM_T a b); reflexivity. Qed.

Lemma hist_range_Fin (x : list R) : x <> [] -> exists lo hi, hist_range AX (map Fin x) = Ok (Fin lo, Fin hi) /\ range_of x lo hi.
Proof.
  intro Hx. destruct (vmin_ok x Hx) as (a & Ea & Ha & Ha2). destruct (vmax_ok x Hx) as (b & Eb & Hb & Hb2).
  assert (forallb (ffin AX) (map Fin x) = true) as Ef.
  { clear. induction x as [|v x IH]; [reflexivity|]. cbn [map forallb]. rewrite IH. reflexivity. }
  assert (hist_range AX (map Fin x) = (lo <- vmin AX (map Fin x) ;; hi <- vmax AX (map Fin x) ;;
           Ok (if feq AX lo hi then (fsub AX lo (fdec AX 5 10), fadd AX hi (fdec AX 5 10)) else (lo, hi)))) as ->.
  { unfold hist_range. rewrite Ef. destruct x as [|v x]; [congruence|reflexivity]. }
  change (F AX) with xr in *. rewrite Ea. cbn [bind]. change (F AX) with xr in *. rewrite Eb. cbn [bind].
  pose proof (Ha2 b Hb) as Hab.
  change (feq AX (Fin a) (Fin b)) with (feq AX (Fin a : F AX) (Fin b : F AX)). rewrite feqX. destruct (Req_EM_T a b) as [->|N].
  - exists (b - 1 / 2), (b + 1 / 2). split; [cbn; f_equal; f_equal; f_equal; lra|].
    exists b, b. split; [exact Hb|]. split; [exact Hb|]. split; [intros v Hv; split; [apply Ha2, Hv|apply Hb2, Hv]|]. right. repeat split.
  - exists a, b. split; [reflexivity|]. exists a, b. split; [exact Ha|]. split; [exact Hb|]. split; [intros v Hv; split; [apply Ha2, Hv|apply Hb2, Hv]|].
    left. repeat split. lra.
Qed.

Lemma linspace_Fin lo hi nb : (0 < nb)%nat -> np_linspace AX (Fin lo) (Fin hi) (nb + 1) = map (fun i => Fin (bin_edge lo hi nb i)) (seq 0 (nb + 1)).
Proof.
  intro Hn. unfold np_linspace, vbuild. apply map_ext_in. intros j Hj. apply in_seq in Hj. replace (nb + 1 - 1)%nat with nb by lia.
  assert (0 < INR nb) as Hp by (apply lt_0_INR; exact Hn).
  destruct (Nat.eqb_spec j nb) as [->|N]; [rewrite edge_last by exact Hn; reflexivity|].
  cbn [fofZ AX fsub]. rewrite <- !INR_IZR_INZ. change (xsub (Fin hi) (Fin lo)) with (Fin (hi - lo)).
  assert (fdiv AX (Fin (hi - lo)) (Fin (INR nb)) = Fin ((hi - lo) / INR nb)) as -> by (refine (fin_div _ _ _); lra).
  cbn [fmul fadd AX xmul xadd]. f_equal. unfold bin_edge. lra.
Qed.

Theorem np_histogram_Fin (x : list R) nb : x <> [] -> (0 < nb)%nat -> exists lo hi c,
  np_histogram AX (map Fin x) nb = Ok (c, map (fun i => Fin (bin_edge lo hi nb i)) (seq 0 (nb + 1))) /\ range_of x lo hi /\ counts x nb lo hi c.
Proof.
  intros Hx Hn. destruct (hist_range_Fin x Hx) as (lo & hi & E & Hr). unfold np_histogram. rewrite E. cbn [bind]. rewrite linspace_Fin by exact Hn. cbv zeta.
  eexists lo, hi, _. split; [reflexivity|]. split; [exact Hr|]. split; [unfold vbuild; now rewrite map_length, seq_length|].
  intros i Hi. unfold vbuild.
  match goal with |- nth i (map ?f _) _ = _ => rewrite (nth_map_seq f) by exact Hi end.
  assert (forall k, (k <= nb)%nat -> nth k (map (fun i => Fin (bin_edge lo hi nb i)) (seq 0 (nb + 1))) (Fin lo) = Fin (bin_edge lo hi nb k)) as En.
  { intros k Hk. rewrite (nth_map_seq (fun i => Fin (bin_edge lo hi nb i))) by lia. reflexivity. }
  change (F AX) with xr in *. rewrite !En by lia. clear E Hr Hx. induction x as [|v x IH]; [reflexivity|].
  cbn [map filter].
  assert (fle AX (Fin (bin_edge lo hi nb i)) (Fin v) && (if i =? nb - 1 then fle AX (Fin v) (Fin (bin_edge lo hi nb (i + 1))) else flt AX (Fin v) (Fin (bin_edge lo hi nb (i + 1))))
    = if in_bin_dec lo hi nb i v then true else false) as Eb.
  { rewrite fleX. replace (i + 1)%nat with (S i) by lia.
    assert (flt AX (Fin v) (Fin (bin_edge lo hi nb (S i))) = if Rlt_dec v (bin_edge lo hi nb (S i)) then true else false) as -> by (cbn; destruct (Rlt_dec v (bin_edge lo hi nb (S i))); reflexivity).
    rewrite fleX. destruct (in_bin_dec lo hi nb i v) as [[H1 H2]|H].
    - destruct (Rle_dec (bin_edge lo hi nb i) v); [|contradiction]. cbn [andb]. destruct (Nat.eqb_spec i (nb - 1)) as [->|N].
      + destruct (Rle_dec v (bin_edge lo hi nb (S (nb - 1)))) as [|Q]; [reflexivity|]. exfalso. apply Q. destruct H2 as [H2|[_ ->]]; [lra|].
        replace (S (nb - 1)) with nb by lia. rewrite edge_last by exact Hn. lra.
      + destruct (Rlt_dec v (bin_edge lo hi nb (S i))) as [|Q]; [reflexivity|]. destruct H2 as [H2|[H2 _]]; [contradiction|lia].
    - destruct (Rle_dec (bin_edge lo hi nb i) v) as [H1|]; [|reflexivity]. cbn [andb]. destruct (Nat.eqb_spec i (nb - 1)) as [E|N].
      + destruct (Rle_dec v (bin_edge lo hi nb (S i))) as [Q|]; [|reflexivity]. exfalso. apply H. split; [exact H1|].
        destruct (Rle_lt_or_eq_dec _ _ Q) as [Q1|Q1]; [now left|]. right. split; [lia|]. rewrite Q1. replace (S i) with nb by lia. now apply edge_last.
      + destruct (Rlt_dec v (bin_edge lo hi nb (S i))) as [Q|]; [|reflexivity]. exfalso. apply H. split; [exact H1|]. now left. }
  rewrite Eb. destruct (in_bin_dec lo hi nb i v); cbn [List.length]; [f_equal|]; exact IH.
Qed.

(** ** Bars and the normal curve *)
(** the bars drawn: as long as the counts, the longest of length [scale]; each as high as a bin, but around its lower edge *)
Definition bars_of (nb : nat) (lo hi : R) (c : list nat) (scale : R) (bars : list (bar AX)) : Prop :=
  length bars = nb /\ forall i, (i < nb)%nat -> exists w, w = (hi - lo) / INR nb /\
    nth_error bars i = Some (mkBar AX (Fin (bin_edge lo hi nb i - w / 2)) (Fin (bin_edge lo hi nb i + w / 2)) (Fin (INR (nth i c 0%nat) / INR (list_max c) * scale))).

Lemma list_max_pos c : (0 < list_sum c)%nat -> (0 < list_max c)%nat.
Proof.
  induction c as [|k c IH]; [cbn; lia|]. change (list_sum (k :: c)) with (k + list_sum c)%nat. change (list_max (k :: c)) with (Nat.max k (list_max c)). lia.
Qed.

Lemma hist_bars_Fin (x : list R) nb a s : x <> [] -> (2 <= nb)%nat -> exists lo hi c bars,
  hist_bars AX (map Fin x) nb (Fin a : F AX) (Fin s : F AX) = Ok (bars, map (fun i => Fin (bin_edge lo hi nb i)) (seq 0 nb)) /\
  range_of x lo hi /\ counts x nb lo hi c /\ bars_of nb lo hi c (a * s) bars.
Proof.
  intros Hx Hn. destruct (np_histogram_Fin x nb Hx ltac:(lia)) as (lo & hi & c & E & Hr & Hc).
  assert (list_max c <> 0)%nat as Hm.
  { assert (0 < list_sum c)%nat as Q.
    { rewrite (counts_total x nb lo hi c ltac:(lia) (range_lt x lo hi Hr) (fun v => range_in x lo hi v Hr) Hc). destruct x; [congruence|cbn; lia]. }
    pose proof (list_max_pos c Q). lia. }
  assert (0 < INR (list_max c)) as Hm' by (apply lt_0_INR; lia).
  pose proof (proj1 Hc) as Hl. unfold hist_bars. rewrite E. cbn [bind]. cbv zeta. rewrite Hl.
  assert (firstn nb (map (fun i => Fin (bin_edge lo hi nb i)) (seq 0 (nb + 1))) = map (fun i => Fin (bin_edge lo hi nb i)) (seq 0 nb)) as Ef.
  { rewrite seq_app, map_app, firstn_app, map_length, seq_length, Nat.sub_diag. cbn [firstn]. rewrite app_nil_r.
    rewrite <- (seq_length nb 0) at 1. rewrite <- (map_length (fun i => Fin (bin_edge lo hi nb i))). apply firstn_all. }
  change (F AX) with xr in *. rewrite Ef.
  assert (forall k, (k < nb)%nat -> vget (map (fun i => Fin (bin_edge lo hi nb i)) (seq 0 nb)) k = Ok (Fin (bin_edge lo hi nb k))) as Ev.
  { intros k Hk. unfold vget. rewrite nth_error_map, (nth_error_nth' _ 0%nat) by (rewrite seq_length; exact Hk). rewrite seq_nth by exact Hk. reflexivity. }
  rewrite Ev by lia. cbn [bind]. rewrite Ev by lia. cbn [bind].
  eexists lo, hi, c, _. split; [reflexivity|]. split; [exact Hr|]. split; [exact Hc|]. split.
  - rewrite map_length, combine_length, map_length, seq_length, Hl. lia.
  - intros i Hi. exists ((hi - lo) / INR nb). split; [reflexivity|].
    assert (nth_error (combine (map (fun i => Fin (bin_edge lo hi nb i)) (seq 0 nb)) c) i = Some (Fin (bin_edge lo hi nb i), nth i c 0%nat)) as Ec.
    { rewrite (nth_error_nth' _ (Fin 0, 0%nat)) by (rewrite combine_length, map_length, seq_length, Hl; lia).
      rewrite combine_nth by (rewrite map_length, seq_length; lia). f_equal. f_equal.
      rewrite (nth_map_seq (fun i => Fin (bin_edge lo hi nb i))) by exact Hi. reflexivity. }
    rewrite nth_error_map. rewrite Ec. cbn [option_map fst snd]. f_equal. unfold barh.
    rewrite edge_step. change (fsub AX (Fin (bin_edge lo hi nb 0 + (hi - lo) / INR nb)) (Fin (bin_edge lo hi nb 0))) with (Fin (bin_edge lo hi nb 0 + (hi - lo) / INR nb - bin_edge lo hi nb 0)).
    replace (bin_edge lo hi nb 0 + (hi - lo) / INR nb - bin_edge lo hi nb 0) with ((hi - lo) / INR nb) by lra. set (w := (hi - lo) / INR nb).
    change (fofZ AX 2) with (Fin 2). assert (fdiv AX (Fin w) (Fin 2) = Fin (w / 2)) as -> by (refine (fin_div _ _ _); lra).
    cbn [fofZ AX]. rewrite <- !INR_IZR_INZ.
    assert (fdiv AX (Fin (INR (nth i c 0%nat))) (Fin (INR (list_max c))) = Fin (INR (nth i c 0%nat) / INR (list_max c))) as -> by (refine (fin_div _ _ _); lra).
    cbn [fmul fadd fsub AX xmul xadd xsub xneg]. f_equal; f_equal; lra.
Qed.

(** the standard normal density at the lower edges, with maximum [scale] *)
Definition normal_curve_of (edges : list R) (scale : R) (curve : list xr) : Prop :=
  exists top, In top edges /\ (forall b, In b edges -> b * b >= top * top) /\
    curve = map (fun b => Fin (exp (- (b * b) / 2) / exp (- (top * top) / 2) * scale)) edges.

Lemma normal_curve_Fin (edges : list R) s : edges <> [] -> exists curve,
  normal_curve AX (map Fin edges) (Fin s : F AX) = Ok curve /\ normal_curve_of edges (2 / 5 * s) curve.
Proof.
  intro He. unfold normal_curve.
  assert (map (fun b => fexp AX (fmul AX (fneg AX (fdec AX 5 10)) (fmul AX b b))) (map Fin edges) = map Fin (map (fun b => exp (- (b * b) / 2)) edges)) as Em.
  { rewrite !map_map. apply map_ext. intro b. cbn. f_equal. f_equal. lra. }
  change (F AX) with xr in *. rewrite Em. destruct (vmax_ok (map (fun b => exp (- (b * b) / 2)) edges)) as (m & E & Hin & Hmax); [destruct edges; [congruence|discriminate]|].
  rewrite E. cbn [bind]. apply in_map_iff in Hin. destruct Hin as (top & <- & Htop). eexists. split; [reflexivity|]. exists top. split; [exact Htop|]. split.
  - intros b Hb. destruct (Rlt_dec (b * b) (top * top)) as [H|H]; [|lra]. exfalso.
    specialize (Hmax (exp (- (b * b) / 2)) (in_map _ _ _ Hb)). assert (exp (- (top * top) / 2) < exp (- (b * b) / 2)) by (apply exp_increasing; lra). lra.
  - rewrite !map_map. apply map_ext. intro b. pose proof (exp_pos (- (top * top) / 2)).
    assert (fdiv AX (Fin (exp (- (b * b) / 2))) (Fin (exp (- (top * top) / 2))) = Fin (exp (- (b * b) / 2) / exp (- (top * top) / 2))) as -> by (refine (fin_div _ _ _); lra).
    cbn. f_equal. field. lra.
Qed.
