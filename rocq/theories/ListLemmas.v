(** Lemmas about the vector operations of Res.v. *)
From Coq Require Import List Arith Lia.
From Verif Require Import Res.
Import ListNotations.

Set Implicit Arguments.

Lemma vget_ok T (l : list T) i d : i < length l -> vget l i = Ok (nth i l d).
Proof.
  intros H. unfold vget. rewrite (nth_error_nth' l d H). reflexivity.
Qed.

Lemma vgetU_ok T (l : list T) i d : i < length l -> vgetU l i = Ok (nth i l d).
Proof.
  intros H. unfold vgetU. rewrite (nth_error_nth' l d H). reflexivity.
Qed.

Lemma vget_throw T (l : list T) i : length l <= i -> vget l i = Throw Elogic.
Proof.
  intros H. unfold vget. destruct (nth_error l i) eqn:E; [|reflexivity].
  assert (nth_error l i <> None) as Hn by congruence. apply nth_error_Some in Hn. lia.
Qed.

Lemma vset_ok T (l : list T) i v : i < length l -> vset l i v = Ok (upd l i v).
Proof. intros H. unfold vset. apply Nat.ltb_lt in H. rewrite H. reflexivity. Qed.

Lemma vsetU_ok T (l : list T) i v : i < length l -> vsetU l i v = Ok (upd l i v).
Proof. intros H. unfold vsetU. apply Nat.ltb_lt in H. rewrite H. reflexivity. Qed.

Lemma upd_length T (l : list T) i v : length (upd l i v) = length l.
Proof.
  revert i; induction l as [|x l IH]; intros i; [reflexivity|].
  destruct i; simpl; [reflexivity|]. rewrite IH. reflexivity.
Qed.

Lemma upd_app T (l1 l2 : list T) x v : upd (l1 ++ x :: l2) (length l1) v = l1 ++ v :: l2.
Proof. induction l1 as [|a l1 IH]; simpl; [reflexivity|]. rewrite IH. reflexivity. Qed.

Lemma nth_upd_same T (l : list T) i v d : i < length l -> nth i (upd l i v) d = v.
Proof.
  revert i; induction l as [|x l IH]; intros i H; simpl in H; [lia|].
  destruct i; simpl; [reflexivity|]. apply IH. lia.
Qed.

Lemma nth_upd_other T (l : list T) i j v d : i <> j -> nth j (upd l i v) d = nth j l d.
Proof.
  revert i j; induction l as [|x l IH]; intros i j H; [reflexivity|].
  destruct i, j; simpl; try reflexivity; [lia|]. apply IH. lia.
Qed.

(** a vector filled from the left: the first [k] entries from [f], the rest from [l] *)
Definition filled T (f : nat -> T) (k : nat) (l : list T) : list T := map f (seq 0 k) ++ skipn k l.

Lemma filled_length T (f : nat -> T) k l : k <= length l -> length (filled f k l) = length l.
Proof. intros H. unfold filled. rewrite app_length, map_length, seq_length, skipn_length. lia. Qed.

Lemma upd_filled T (f : nat -> T) k l : k < length l -> upd (filled f k l) k (f k) = filled f (S k) l.
Proof.
  intros H. unfold filled.
  destruct (skipn k l) as [|x r] eqn:E.
  { apply (f_equal (@length T)) in E. rewrite skipn_length in E. simpl in E. lia. }
  assert (skipn (S k) l = r) as E2.
  { clear H. revert l E; induction k as [|k IH]; intros l E.
    - simpl in E. subst l. reflexivity.
    - destruct l as [|a l]; [discriminate|]. apply (IH l E). }
  rewrite E2.
  replace k with (length (map f (seq 0 k))) at 2 by (rewrite map_length, seq_length; reflexivity).
  rewrite upd_app. rewrite seq_S, map_app, <- app_assoc. reflexivity.
Qed.

Lemma nth_filled T (f : nat -> T) k l i d : i < k -> nth i (filled f k l) d = f i.
Proof.
  intros H. unfold filled. rewrite app_nth1 by (rewrite map_length, seq_length; lia).
  rewrite nth_indep with (d' := f 0) by (rewrite map_length, seq_length; lia).
  rewrite map_nth, seq_nth by lia. reflexivity.
Qed.

Lemma filled_full T (f : nat -> T) l : filled f (length l) l = map f (seq 0 (length l)).
Proof. unfold filled. rewrite skipn_all, app_nil_r. reflexivity. Qed.

Lemma skipn_filled T (f : nat -> T) k l : k <= length l -> skipn k (filled f k l) = skipn k l.
Proof.
  intros H. unfold filled. rewrite skipn_app, map_length, seq_length, Nat.sub_diag.
  rewrite skipn_all2 by (rewrite map_length, seq_length; lia). reflexivity.
Qed.

Lemma nth_map_seq T (f : nat -> T) n i d : i < n -> nth i (map f (seq 0 n)) d = f i.
Proof.
  intros H. rewrite nth_indep with (d' := f 0) by (rewrite map_length, seq_length; lia).
  rewrite map_nth, seq_nth by lia. reflexivity.
Qed.

Lemma list_as_map_seq T (l : list T) d : l = map (fun i => nth i l d) (seq 0 (length l)).
Proof.
  apply nth_ext with (d := d) (d' := d); [rewrite map_length, seq_length; reflexivity|].
  intros n H. rewrite nth_map_seq by exact H. reflexivity.
Qed.

Lemma for_split T (body : nat -> T -> res T) a k1 k2 s :
  for_ a (k1 + k2) body s = (s' <- for_ a k1 body s ;; for_ (a + k1) k2 body s').
Proof.
  revert a s; induction k1 as [|k1 IH]; intros a s; simpl.
  - rewrite Nat.add_0_r. reflexivity.
  - destruct (body a s) as [s'|e| |]; simpl; try reflexivity.
    rewrite IH. replace (S a + k1) with (a + S k1) by lia. reflexivity.
Qed.

(** loop rule: an invariant that determines the state exactly *)
Lemma for_exact T (body : nat -> T -> res T) (st : nat -> T) a k :
  (forall i, a <= i -> i < a + k -> body i (st i) = Ok (st (S i))) ->
  for_ a k body (st a) = Ok (st (a + k)).
Proof.
  revert a; induction k as [|k IH]; intros a H; simpl.
  - rewrite Nat.add_0_r. reflexivity.
  - rewrite H by lia. simpl. rewrite IH by (intros i H1 H2; apply H; lia).
    replace (S a + k) with (a + S k) by lia. reflexivity.
Qed.

Lemma bind_Ok T U (m : res T) (k : T -> res U) r :
  bind m k = Ok r -> exists x, m = Ok x /\ k x = Ok r.
Proof. destruct m; simpl; intros H; try discriminate. exists x. split; [reflexivity|exact H]. Qed.
