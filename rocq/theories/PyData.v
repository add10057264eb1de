(** CarmaModel.__init__: sorting and removal of repeated times. *)
From Coq Require Import Reals List Arith ZArith Bool Lia Lra Permutation Sorted.
From Verif Require Import Arith Res ListLemmas Spec Emb InitProof PyModel.
Import ListNotations.
Set Implicit Arguments.
Unset Strict Implicit.
Local Open Scope R_scope.

(** numpy's argsort on numbers: some permutation that sorts them *)
Definition valid_argsort (f : list xr -> list nat) : Prop :=
  forall l : list R, Permutation (f (map Fin l)) (seq 0 (length l)) /\
    forall i j, (i < j)%nat -> (j < length l)%nat -> nth (nth i (f (map Fin l)) O) l 0 <= nth (nth j (f (map Fin l)) O) l 0.

(** there is one: the one of the sort_index that exists *)
Lemma valid_argsort_of si : valid_sort_index si -> valid_argsort (fun l => match si l with Some idx => idx | None => [] end).
Proof. intros H l. destruct (H l) as (idx & -> & P & S). split; assumption. Qed.

Lemma SS_nth (R0 : R -> R -> Prop) (l : list R) : (forall i j, (i < j)%nat -> (j < length l)%nat -> R0 (nth i l 0) (nth j l 0)) -> StronglySorted R0 l.
Proof.
  induction l as [|a l IH]; intros H; constructor.
  - apply IH. intros i j Hij Hj. apply (H (S i) (S j)); cbn [length]; lia.
  - apply Forall_forall. intros x Hx. apply (In_nth _ _ 0) in Hx. destruct Hx as (k & Hk & <-). apply (H O (S k)); cbn [length]; lia.
Qed.
Lemma nth_SS (R0 : R -> R -> Prop) (l : list R) : StronglySorted R0 l -> forall i j, (i < j)%nat -> (j < length l)%nat -> R0 (nth i l 0) (nth j l 0).
Proof.
  induction 1 as [|a l S IH HF]; intros i j Hij Hj; cbn [length] in Hj; [lia|].
  destruct j as [|j]; [lia|]. destruct i as [|i]; cbn [nth].
  - rewrite Forall_forall in HF. apply HF, nth_In. lia.
  - apply IH; lia.
Qed.

Lemma nth_map_lt T U (f : T -> U) l i d d' : (i < length l)%nat -> nth i (map f l) d' = f (nth i l d).
Proof. intros H. rewrite (nth_indep _ d' (f d)) by (rewrite map_length; exact H). apply map_nth. Qed.

Section U.
Variable v : nat -> R.
(** the indices that np.unique keeps *)
Fixpoint keep (prev : R) (perm : list nat) : list nat :=
  match perm with
  | [] => []
  | i :: r => if Req_EM_T (v i) prev then keep (v i) r else i :: keep (v i) r
  end.
Lemma uniq_keep perm : forall prev, uniq_rest AX (Fin prev) (map (fun i => Fin (v i)) perm) perm = (map (fun i => Fin (v i)) (keep prev perm), keep prev perm).
Proof.
  induction perm as [|i r IH]; intros prev; [reflexivity|]. cbn [map uniq_rest keep]. rewrite IH.
  change (feq AX (Fin (v i)) (Fin prev)) with (xeq (Fin (v i)) (Fin prev)). cbn [xeq fst snd].
  destruct (Req_EM_T (v i) prev); reflexivity.
Qed.
Lemma keep_spec perm : forall prev, StronglySorted Rle (prev :: map v perm) ->
  StronglySorted Rlt (prev :: map v (keep prev perm)) /\ (forall i, In i (keep prev perm) -> In i perm) /\
  (forall x, In x (prev :: map v perm) <-> In x (prev :: map v (keep prev perm))).
Proof.
  induction perm as [|i r IH]; intros prev S.
  - cbn [keep map]. repeat split; auto. constructor; constructor.
  - cbn [map keep] in *. inversion S as [|? ? S1 F1]; subst. specialize (IH (v i) S1). destruct IH as (A & B & D).
    inversion F1 as [|? ? L1 F2]; subst. destruct (Req_EM_T (v i) prev) as [E|E].
    + split; [rewrite <- E; exact A|]. split; [intros k Hk; right; exact (B k Hk)|].
      intros x. specialize (D x). cbn [In map] in *. rewrite E in *. tauto.
    + split.
      * constructor; [exact A|]. assert (prev < v i) as L by lra. apply Forall_cons; [exact L|].
        inversion A as [|? ? _ FA]; subst. eapply Forall_impl; [|exact FA]. cbn. intros; lra.
      * split; [intros k [Hk|Hk]; [left; exact Hk|right; exact (B k Hk)]|].
        intros x. specialize (D x). cbn [In map] in *. tauto.
Qed.
End U.

Lemma perm_bound (l : list nat) n i : Permutation l (seq 0 n) -> In i l -> (i < n)%nat.
Proof. intros P H. apply (Permutation_in _ P) in H. apply in_seq in H. lia. Qed.

(** np.unique on numbers *)
Lemma np_unique_spec us (l : list R) : valid_argsort us ->
  exists u, np_unique AX us (map Fin l) = Ok (map (fun i => Fin (nth i l 0)) u, u) /\
    strictly_increasing (map (fun i => nth i l 0) u) /\ (forall i, In i u -> (i < length l)%nat) /\
    forall x, In x (map (fun i => nth i l 0) u) <-> In x l.
Proof.
  intros V. destruct (V l) as (P & S). unfold np_unique. set (perm := us (map Fin l)) in *.
  assert (length perm = length l) as Hl by (rewrite (Permutation_length P), seq_length; reflexivity).
  assert (velem (map Fin l) perm = Ok (map (fun i => Fin (nth i l 0)) perm)) as E.
  { rewrite (@velem_ok _ (map Fin l) perm (Fin 0)) by (intros i Hi; rewrite map_length; exact (perm_bound P Hi)).
    f_equal. apply map_ext. intros i. apply nth_map_Fin. }
  change (F AX) with xr. rewrite E. cbn [bind]. clear E.
  assert (forall x, In x (map (fun i => nth i l 0) perm) <-> In x l) as Hin.
  { intros x. rewrite in_map_iff. split.
    - intros (i & <- & Hi). apply nth_In. exact (perm_bound P Hi).
    - intros Hx. apply (In_nth _ _ 0) in Hx. destruct Hx as (k & Hk & <-). exists k. split; [reflexivity|].
      apply (Permutation_in _ (Permutation_sym P)). apply in_seq. lia. }
  assert (StronglySorted Rle (map (fun i => nth i l 0) perm)) as SS.
  { apply SS_nth. intros i j Hij Hj. rewrite map_length in Hj. rewrite !(@nth_map_lt _ _ _ _ _ O) by lia. apply S; lia. }
  assert (forall i, In i perm -> (i < length l)%nat) as Hb by (intros i; exact (@perm_bound _ _ i P)).
  clear S V P. clearbody perm. destruct perm as [|i0 perm].
  - exists []. repeat split; [intros i j _ H; cbn in H; lia|contradiction|apply Hin|apply Hin].
  - destruct (keep_spec (v := fun i => nth i l 0) SS) as (A & B & D).
    exists (i0 :: keep (fun i => nth i l 0) (nth i0 l 0) perm). split; [|split; [|split]].
    + cbn [map]. rewrite uniq_keep. reflexivity.
    + exact (nth_SS A).
    + intros i [<-|Hi]; apply Hb; [left; reflexivity|right; exact (B i Hi)].
    + intros x. rewrite <- Hin. cbn [map]. symmetry. apply D.
Qed.

Lemma sinc_NoDup l : strictly_increasing l -> NoDup l.
Proof.
  intros H. apply (NoDup_nth _ 0). intros i j Hi Hj E. destruct (Nat.lt_trichotomy i j) as [L|[L|L]]; [|exact L|].
  - specialize (H i j L Hj). lra.
  - specialize (H j i L Hi). lra.
Qed.
(** a strictly increasing list is determined by its elements *)
Lemma sinc_unique (l m : list R) : strictly_increasing l -> strictly_increasing m -> (forall x, In x l <-> In x m) -> l = m.
Proof.
  assert (forall l m : list R, StronglySorted Rlt l -> StronglySorted Rlt m -> (forall x, In x l <-> In x m) -> l = m) as K.
  { clear. induction l as [|a l IH]; intros m Sl Sm H.
    - destruct m as [|b m]; [reflexivity|]. destruct (proj2 (H b)). left; reflexivity.
    - destruct m as [|b m]; [destruct (proj1 (H a)); left; reflexivity|].
      inversion Sl as [|? ? S1 F1]; inversion Sm as [|? ? S2 F2]; subst. rewrite Forall_forall in F1, F2.
      assert (a = b) as ->.
      { destruct (proj1 (H a) (or_introl eq_refl)) as [E|E]; [symmetry; exact E|].
        destruct (proj2 (H b) (or_introl eq_refl)) as [E'|E']; [exact E'|]. specialize (F1 _ E'). specialize (F2 _ E). lra. }
      f_equal. apply IH; [exact S1|exact S2|]. intros x. split; intros Hx.
      + destruct (proj1 (H x) (or_intror Hx)) as [E|E]; [subst x; specialize (F1 _ Hx); lra|exact E].
      + destruct (proj2 (H x) (or_intror Hx)) as [E|E]; [subst x; specialize (F2 _ Hx); lra|exact E]. }
  intros A B. apply K; apply SS_nth; assumption.
Qed.

Theorem CarmaModel_data (argsort usort : list xr -> list nat) (t : list R) (y e : list xr) (p q : nat) :
  valid_argsort argsort -> valid_argsort usort -> length y = length t -> length e = length t ->
  exists (t' : list R) (y' e' : list xr),
    CarmaModel_new AX argsort usort (map Fin t) y e p q = Ok (mkCM AX (map Fin t') y' e' p q) /\
    length y' = length t' /\ length e' = length t' /\
    strictly_increasing t' /\ (forall x, In x t' <-> In x t) /\
    (forall i, (i < length t')%nat -> exists k, (k < length t)%nat /\
       nth i t' 0 = nth k t 0 /\ nth i y' NaN = nth k y NaN /\ nth i e' NaN = nth k e NaN) /\
    (strictly_increasing t -> t' = t /\ y' = y /\ e' = e).
Proof.
  intros VA VU Hy He. destruct (VA t) as (P & S). unfold CarmaModel_new. set (s := argsort (map Fin t)) in *.
  assert (length s = length t) as Hl by (rewrite (Permutation_length P), seq_length; reflexivity).
  assert (forall i, In i s -> (i < length t)%nat) as Hb by (intros i; exact (@perm_bound _ _ i P)).
  assert (velem (map Fin t) s = Ok (map Fin (map (fun i => nth i t 0) s))) as E.
  { rewrite (@velem_ok _ (map Fin t) s (Fin 0)) by (intros i Hi; rewrite map_length; exact (Hb i Hi)).
    f_equal. rewrite map_map. apply map_ext. intros i. apply nth_map_Fin. }
  change (F AX) with xr. rewrite E. cbn [bind]. clear E.
  destruct (np_unique_spec (map (fun i => nth i t 0) s) VU) as (u & -> & Su & Bu & Iu). cbn [bind].
  rewrite map_length, Hl in Bu.
  rewrite (@velem_ok _ s u O) by (intros i Hi; rewrite Hl; exact (Bu i Hi)). cbn [bind].
  set (w := map (fun i => nth i s O) u).
  assert (forall i, In i w -> (i < length t)%nat) as Bw.
  { intros i Hi. unfold w in Hi. apply in_map_iff in Hi. destruct Hi as (k & <- & Hk). apply Hb, nth_In. rewrite Hl. exact (Bu k Hk). }
  rewrite (@velem_ok _ (map Fin t) w (Fin 0)) by (intros i Hi; rewrite map_length; exact (Bw i Hi)). cbn [bind].
  rewrite (@velem_ok _ y w NaN) by (intros i Hi; rewrite Hy; exact (Bw i Hi)). cbn [bind].
  rewrite (@velem_ok _ e w NaN) by (intros i Hi; rewrite He; exact (Bw i Hi)). cbn [bind].
  assert (map (fun i => nth i (map (fun i => nth i t 0) s) 0) u = map (fun i => nth i t 0) w) as Ew.
  { unfold w. rewrite map_map. apply map_ext_in. intros i Hi. refine (@nth_map_lt _ _ (fun i => nth i t 0) s i O 0 _). rewrite Hl. exact (Bu i Hi). }
  rewrite Ew in Su, Iu.
  assert (forall x, In x (map (fun i => nth i t 0) w) <-> In x t) as It.
  { intros x. rewrite Iu, in_map_iff. split.
    - intros (i & <- & Hi). apply nth_In. exact (Hb i Hi).
    - intros Hx. apply (In_nth _ _ 0) in Hx. destruct Hx as (k & Hk & <-). exists k. split; [reflexivity|].
      apply (Permutation_in _ (Permutation_sym P)). apply in_seq. lia. }
  exists (map (fun i => nth i t 0) w), (map (fun i => nth i y NaN) w), (map (fun i => nth i e NaN) w).
  split. { f_equal. f_equal. rewrite map_map. apply map_ext. intros i. apply nth_map_Fin. }
  rewrite !map_length. split; [reflexivity|]. split; [reflexivity|]. split; [exact Su|]. split; [exact It|]. split.
  - intros i Hi. exists (nth i w O). split; [apply Bw, nth_In, Hi|]. rewrite !(@nth_map_lt _ _ _ _ _ O) by exact Hi. auto.
  - intros St. assert (map (fun i => nth i t 0) w = t) as Et by (apply sinc_unique; assumption).
    split; [exact Et|].
    assert (w = seq 0 (length t)) as ->.
    { assert (length w = length t) as Lw by (rewrite <- (map_length (fun i => nth i t 0) w), Et; reflexivity).
      apply (nth_ext _ _ O O); [rewrite seq_length; exact Lw|]. intros i Hi. rewrite seq_nth by lia. cbn [Nat.add].
      assert (nth i t 0 = nth (nth i w O) t 0) as En by (rewrite <- Et at 1; rewrite (@nth_map_lt _ _ _ _ _ O) by exact Hi; reflexivity).
      pose proof (proj1 (NoDup_nth t 0) (sinc_NoDup St) i (nth i w O)) as K. symmetry. apply K; [lia|apply Bw, nth_In, Hi|exact En]. }
    split; apply (nth_ext _ _ NaN NaN); rewrite ?map_length, ?seq_length; auto; intros i Hi;
      rewrite (@nth_map_lt _ _ _ _ _ O), seq_nth by (rewrite ?seq_length; lia); reflexivity.
Qed.
