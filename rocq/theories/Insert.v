(** The log-likelihood with one more measurement: the difference is the log-density of the new value under its prediction from the others. *)
From Coq Require Import Reals List Arith Lra Lia.
From Verif Require Import Arith Res ListLemmas KFModel Spec Gauss Emb SpecCarma SpecModel LogLikMain PySim LogFact RamProof Det LogDens DetUniq.
Import ListNotations.
Local Open Scope R_scope.
Local Notation length := List.length.

(** The list l without its entry k. *)
Definition without {T} (k : nat) (l : list T) : list T := firstn k l ++ skipn (S k) l.

Lemma without_len {T} k (l : list T) : (k < length l)%nat -> length (without k l) = (length l - 1)%nat.
Proof. intros H. unfold without. rewrite app_length, firstn_length, skipn_length. lia. Qed.
Lemma nth_keep {T} (l : list T) d : forall n i, (i < n)%nat -> nth i (firstn n l) d = nth i l d.
Proof. induction l as [|a l IH]; intros [|n] [|i] H; cbn; try lia; try reflexivity. apply IH. lia. Qed.
Lemma nth_drop {T} (l : list T) d : forall n i, nth i (skipn n l) d = nth (n + i) l d.
Proof. induction l as [|a l IH]; intros [|n] i; cbn; try reflexivity; [destruct i; reflexivity|apply IH]. Qed.
Lemma without_nth {T} k (l : list T) d i : (k < length l)%nat -> nth i (without k l) d = nth (skip k i) l d.
Proof.
  intros H. unfold without, skip. destruct (Nat.ltb_spec i k) as [Hi|Hi].
  - rewrite app_nth1 by (rewrite firstn_length; lia). apply nth_keep. exact Hi.
  - rewrite app_nth2 by (rewrite firstn_length; lia). rewrite firstn_length, nth_drop. f_equal. lia.
Qed.
Lemma without_map {T U} (f : T -> U) k l : without k (map f l) = map f (without k l).
Proof. unfold without. rewrite map_app, firstn_map, skipn_map. reflexivity. Qed.
Lemma without_inc k t : (k < length t)%nat -> strictly_increasing t -> strictly_increasing (without k t).
Proof.
  intros Hk H i j Hij Hj. rewrite without_len in Hj by exact Hk. rewrite !without_nth by exact Hk. apply H; unfold skip; destruct (Nat.ltb_spec i k), (Nat.ltb_spec j k); lia.
Qed.

(** The reordering that moves entry k last. *)
Definition to_last (n k i : nat) : nat := if (i =? n)%nat then k else skip k i.
Definition from_last (n k i : nat) : nat := if (i =? k)%nat then n else if (i <? k)%nat then i else (i - 1)%nat.
Lemma last_reorders n k : (k <= n)%nat -> reorders (S n) (to_last n k) (from_last n k).
Proof.
  intros Hk i Hi. unfold to_last, from_last, skip.
  repeat match goal with |- context[(?a =? ?b)%nat] => destruct (Nat.eqb_spec a b) | |- context[(?a <? ?b)%nat] => destruct (Nat.ltb_spec a b) end; lia.
Qed.

Theorem loglik_insert K (t y e : list R) scale mu k x x' m v : (forall s r, K s r = K r s) -> 0 <= scale ->
  length y = length t -> length e = length t -> (k < length t)%nat ->
  is_loglik K t y e scale mu x -> is_loglik K (without k t) (without k y) (without k e) scale mu x' ->
  cond_dist K (without k t) (map (fun a => a - mu) (without k y)) (map (fun a => sqrt scale * a) (without k e)) (nth k t 0) m v ->
  0 < v + scale * (nth k e 0 * nth k e 0) ->
  x = x' + (- (1 / 2) * ln (v + scale * (nth k e 0 * nth k e 0)) - 1 / 2 * (nth k y 0 - mu - m) ^ 2 / (v + scale * (nth k e 0 * nth k e 0))).
Proof.
  intros Ks Hs Hy He Hk Hx Hx' (wt & Hw1 & Hm & Hv) Hpos.
  set (N := (length t - 1)%nat) in *.
  assert (length (without k t) = N) as LN by (apply without_len; exact Hk).
  destruct (is_loglik_factor K (without k t) (without k y) (without k e) scale mu x' Ks Hs) as (L & V & u & F1 & F2 & F3 & F4 & F5 & F6);
    [rewrite !without_len by lia; lia|rewrite !without_len by lia; lia|exact Hx'|].
  rewrite LN in *. cbv zeta in *.
  set (vn := v + scale * (nth k e 0 * nth k e 0)) in *.
  set (q := (nth k y 0 - mu - m) / sqrt vn).
  assert (0 < sqrt vn) as Hsq by (apply sqrt_lt_R0, Hpos).
  assert (sqrt vn * sqrt vn = vn) as Hsqq by (apply sqrt_sqrt; lra).
  set (L' := fun i j => if (i =? N)%nat then (if (j =? N)%nat then sqrt vn else if (j <? N)%nat then Rsum (fun a => wt a * L a j) N else 0)
                        else if (j <? N)%nat then L i j else 0).
  set (V' := fun i => if (i =? N)%nat then vn else V i). set (u' := fun i => if (i =? N)%nat then q else u i).
  set (n := length t) in *. assert (n = S N) as En by (unfold N; lia).
  set (S0 := fun i j => K (nth i t 0) (nth j t 0) + (if (i =? j)%nat then scale * (nth i e 0 * nth i e 0) else 0)).
  set (d0 := fun i => nth i y 0 - mu).
  assert (forall i j, (i < N)%nat -> (j < N)%nat -> obs_entry K (without k t) (without k e) scale i j = S0 (skip k i) (skip k j)) as Eobs.
  { intros i j Hi Hj. unfold obs_entry, S0. rewrite !without_nth by lia.
    destruct (Nat.eqb_spec i j) as [E|E], (Nat.eqb_spec (skip k i) (skip k j)) as [E'|E']; try reflexivity; [exfalso; apply E'; rewrite E; reflexivity|].
    exfalso. apply E. revert E'. unfold skip. destruct (Nat.ltb_spec i k), (Nat.ltb_spec j k); lia. }
  assert (forall j, (j < N)%nat -> Rsum (fun a => wt a * S0 (skip k a) (skip k j)) N = S0 k (skip k j)) as Ew.
  { intros j Hj. specialize (Hw1 j Hj). rewrite without_nth in Hw1 by lia. unfold S0 at 2. pose proof (skip_ne k j). destruct (Nat.eqb_spec k (skip k j)); [lia|].
    rewrite Rplus_0_r, <- Hw1. apply Rsum_ext. intros a Ha. f_equal. rewrite <- Eobs by assumption.
    unfold obs_entry, obs_cov. destruct (Nat.eqb_spec a j); [|reflexivity].
    rewrite nth_map_R by (rewrite without_len; lia). replace scale with (sqrt scale * sqrt scale) at 1 by (apply sqrt_sqrt; lra). ring. }
  assert (v = K (nth k t 0) (nth k t 0) - Rsum (fun a => wt a * S0 k (skip k a)) N) as Ev.
  { rewrite Hv. f_equal. apply Rsum_ext. intros a Ha. f_equal. rewrite without_nth by lia. unfold S0. pose proof (skip_ne k a). destruct (Nat.eqb_spec k (skip k a)); [lia|ring]. }
  assert (m = Rsum (fun a => wt a * d0 (skip k a)) N) as Em.
  { rewrite Hm. apply Rsum_ext. intros a Ha. f_equal. rewrite nth_map_R by (rewrite without_len; lia). rewrite without_nth by lia. reflexivity. }
  assert (is_normal_ll (S N) (fun i j => S0 (to_last N k i) (to_last N k j)) (fun i => d0 (to_last N k i)) (Rsum (fun i => - (1 / 2) * ln (V' i) - 1 / 2 * (u' i * u' i)) (S N))) as H1.
  { apply (normal_factor (S N) _ L' _ V' u').
    - intros i j Hi Hij. unfold L'. destruct (Nat.eqb_spec i N); [destruct (Nat.eqb_spec j N); [lia|]; destruct (Nat.ltb_spec j N); [lia|reflexivity]|].
      destruct (Nat.ltb_spec j N); [|reflexivity]. apply F1; lia.
    - intros i Hi. unfold L', V'. destruct (Nat.eqb_spec i N); [reflexivity|]. destruct (Nat.ltb_spec i N); [|lia]. apply F2. assumption.
    - intros i Hi. unfold V'. destruct (Nat.eqb_spec i N); [exact Hpos|]. apply F3. lia.
    - intros i j Hi Hj. rewrite Rsum_S.
      assert (forall a, (a < N)%nat -> Rsum (fun b => Rsum (fun c => wt c * L c b) N * L a b) N = S0 k (skip k a)) as Erow.
      { intros a Ha. rewrite <- Ew by exact Ha.
        rewrite (Rsum_ext _ (fun b => Rsum (fun c => wt c * (L c b * L a b)) N)) by (intros b Hb; rewrite Rmult_comm, <- Rsum_scal; apply Rsum_ext; intros c Hc; ring).
        rewrite Rsum_swap. apply Rsum_ext. intros c Hc. rewrite Rsum_scal, F4, Eobs by assumption. reflexivity. }
      unfold L', to_last. rewrite Nat.eqb_refl. destruct (Nat.eqb_spec i N) as [Ei|Ei], (Nat.eqb_spec j N) as [Ej|Ej].
      + rewrite Hsqq. rewrite (Rsum_ext _ (fun b => Rsum (fun c => wt c * L c b) N * Rsum (fun c => wt c * L c b) N)).
        2:{ intros b Hb. destruct (Nat.eqb_spec b N); [lia|]. destruct (Nat.ltb_spec b N); [reflexivity|lia]. }
        rewrite (Rsum_ext _ (fun b => Rsum (fun a => wt a * (Rsum (fun c => wt c * L c b) N * L a b)) N)).
        2:{ intros b Hb. rewrite <- Rsum_scal. apply Rsum_ext. intros a Ha. ring. }
        rewrite Rsum_swap. rewrite (Rsum_ext _ (fun a => wt a * S0 k (skip k a))) by (intros a Ha; rewrite Rsum_scal, Erow by exact Ha; reflexivity).
        unfold S0 at 2. rewrite Nat.eqb_refl. unfold vn. rewrite Ev. ring.
      + destruct (Nat.ltb_spec N N); [lia|]. rewrite Rmult_0_r, Rplus_0_r. rewrite <- (Erow j) by lia. apply Rsum_ext. intros b Hb.
        destruct (Nat.eqb_spec b N); [lia|]. destruct (Nat.ltb_spec b N); [reflexivity|lia].
      + destruct (Nat.ltb_spec N N); [lia|]. rewrite Rmult_0_l, Rplus_0_r.
        assert (S0 (skip k i) k = S0 k (skip k i)) as -> by (unfold S0; pose proof (skip_ne k i); destruct (Nat.eqb_spec (skip k i) k), (Nat.eqb_spec k (skip k i)); try lia; rewrite Ks; reflexivity).
        rewrite <- (Erow i) by lia. apply Rsum_ext. intros b Hb. destruct (Nat.eqb_spec b N); [lia|]. destruct (Nat.ltb_spec b N); [apply Rmult_comm|lia].
      + destruct (Nat.ltb_spec N N); [lia|]. rewrite Rmult_0_l, Rplus_0_r. rewrite <- Eobs, <- F4 by lia. apply Rsum_ext. intros b Hb.
        destruct (Nat.ltb_spec b N); [reflexivity|lia].
    - assert (forall i, (i < N)%nat -> d0 (skip k i) = Rsum (fun a => L i a * u a) N) as Ed by (intros i Hi; rewrite <- F5 by exact Hi; unfold d0; rewrite without_nth by lia; reflexivity).
      intros i Hi. rewrite Rsum_S. unfold L', u', to_last. rewrite Nat.eqb_refl. destruct (Nat.eqb_spec i N) as [Ei|Ei].
      + rewrite (Rsum_ext _ (fun b => Rsum (fun c => wt c * (L c b * u b)) N)).
        2:{ intros b Hb. destruct (Nat.eqb_spec b N); [lia|]. destruct (Nat.ltb_spec b N); [|lia]. rewrite Rmult_comm, <- Rsum_scal. apply Rsum_ext. intros c Hc. ring. }
        rewrite Rsum_swap. rewrite (Rsum_ext _ (fun a => wt a * d0 (skip k a))) by (intros a Ha; rewrite Rsum_scal, <- Ed by exact Ha; reflexivity).
        rewrite <- Em. unfold q, d0. field. lra.
      + destruct (Nat.ltb_spec N N); [lia|]. rewrite Rmult_0_l, Rplus_0_r, Ed by lia. apply Rsum_ext. intros b Hb.
        destruct (Nat.ltb_spec b N); [|lia]. destruct (Nat.eqb_spec b N); [lia|reflexivity]. }
  apply (is_loglik_normal K t y e scale mu x Ks Hs Hy He) in Hx. fold n S0 d0 in Hx. rewrite En in Hx.
  apply (normal_reorder (S N) (to_last N k) (from_last N k)) in Hx; [|apply last_reorders; lia].
  rewrite (is_normal_ll_unique _ _ _ _ _ Hx H1), Rsum_S. unfold V' at 2, u' at 3 4. rewrite Nat.eqb_refl. f_equal.
  - rewrite F6. apply Rsum_ext. intros i Hi. unfold V', u'. destruct (Nat.eqb_spec i N); [lia|reflexivity].
  - f_equal. unfold q. replace vn with (sqrt vn * sqrt vn) at 3 by exact Hsqq. field. lra.
Qed.
