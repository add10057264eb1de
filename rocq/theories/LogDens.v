(** The Gaussian log-likelihood factored over one-step predictions is the logarithm of the multivariate normal density. *)
From Coq Require Import Reals Lra Lia List.
From Verif Require Import Spec SpecCarma SpecModel Gauss RamProof PySim LogFact Det.
Local Open Scope R_scope.

(** V is the inverse of the n x n matrix S. *)
Definition is_inverse (n : nat) (S V : nat -> nat -> R) : Prop :=
  forall i j, (i < n)%nat -> (j < n)%nat ->
    Rsum (fun k => S i k * V k j) n = (if (i =? j)%nat then 1 else 0) /\ Rsum (fun k => V i k * S k j) n = (if (i =? j)%nat then 1 else 0).
(** x is the logarithm of the density at d of a centred normal vector with covariance S, up to the constant -(n/2) log(2 pi). *)
Definition is_normal_ll (n : nat) (S : nat -> nat -> R) (d : nat -> R) (x : R) : Prop :=
  exists V, is_inverse n S V /\ 0 < det n S /\
    x = - (1 / 2) * ln (det n S) - 1 / 2 * Rsum (fun i => Rsum (fun j => d i * V i j * d j) n) n.

(** the inverse is unique, so the value is too *)
Lemma is_inverse_unique n S V W : is_inverse n S V -> is_inverse n S W -> forall i j, (i < n)%nat -> (j < n)%nat -> V i j = W i j.
Proof.
  intros HV HW i j Hi Hj.
  transitivity (Rsum (fun k => V i k * Rsum (fun l => S k l * W l j) n) n).
  - rewrite (Rsum_ext _ (fun k => (if (j =? k)%nat then 1 else 0) * V i k)) by (intros k Hk; rewrite (proj1 (HW k j Hk Hj)), Nat.eqb_sym; ring).
    symmetry. apply Rsum_delta. exact Hj.
  - rewrite (Rsum_ext _ (fun k => Rsum (fun l => V i k * S k l * W l j) n)).
    2:{ intros k Hk. rewrite <- Rsum_scal. apply Rsum_ext. intros l Hl. ring. }
    rewrite Rsum_swap. rewrite (Rsum_ext _ (fun l => (if (i =? l)%nat then 1 else 0) * W l j)); [exact (Rsum_delta (fun l => W l j) n i Hi)|].
    intros l Hl. rewrite <- (proj2 (HV i l Hi Hl)). rewrite Rmult_comm, <- Rsum_scal. apply Rsum_ext. intros k Hk. ring.
Qed.
Lemma is_normal_ll_unique n S d x z : is_normal_ll n S d x -> is_normal_ll n S d z -> x = z.
Proof.
  intros (V & HV & _ & ->) (W & HW & _ & ->). do 2 f_equal. apply Rsum_ext. intros i Hi. apply Rsum_ext. intros j Hj.
  rewrite (is_inverse_unique n S V W HV HW i j Hi Hj). reflexivity.
Qed.

(** triangular systems *)
Lemma lower_solve L (d : nat -> R) n : (forall i k, (i < n)%nat -> (i < k)%nat -> L i k = 0) -> (forall i, (i < n)%nat -> L i i <> 0) ->
  exists x, forall i, (i < n)%nat -> Rsum (fun k => L i k * x k) n = d i.
Proof.
  induction n as [|n IH]; intros Ht Hd; [exists (fun _ => 0); intros; lia|].
  destruct IH as (x & Hx); [intros; apply Ht; lia|intros; apply Hd; lia|].
  exists (fun k => if (k =? n)%nat then (d n - Rsum (fun k => L n k * x k) n) / L n n else x k).
  intros i Hi. rewrite Rsum_S, Nat.eqb_refl.
  rewrite (Rsum_ext _ (fun k => L i k * x k)) by (intros k Hk; destruct (Nat.eqb_spec k n); [lia|reflexivity]).
  destruct (Nat.eq_dec i n) as [->|].
  - field. apply Hd. lia.
  - rewrite Hx, Ht by lia. ring.
Qed.
Lemma upper_solve L n : (forall i, (i < n)%nat -> L i i <> 0) -> (forall i k, (i < n)%nat -> (i < k)%nat -> L i k = 0) -> forall u : nat -> R,
  exists x, forall i, (i < n)%nat -> Rsum (fun k => L k i * x k) n = u i.
Proof.
  induction n as [|n IH]; intros Hd Ht u; [exists (fun _ => 0); intros; lia|].
  destruct (IH (fun i Hi => Hd i (Nat.lt_lt_succ_r _ _ Hi)) (fun i k Hi => Ht i k (Nat.lt_lt_succ_r _ _ Hi)) (fun i => u i - L n i * (u n / L n n))) as (x & Hx).
  exists (fun k => if (k =? n)%nat then u n / L n n else x k).
  intros i Hi. rewrite Rsum_S, Nat.eqb_refl.
  rewrite (Rsum_ext _ (fun k => L k i * x k)) by (intros k Hk; destruct (Nat.eqb_spec k n); [lia|reflexivity]).
  destruct (Nat.eq_dec i n) as [->|].
  - rewrite Rsum_0 by (intros k Hk; rewrite Ht by lia; ring). field. apply Hd. lia.
  - rewrite Hx by lia. ring.
Qed.
Lemma chol_solve n L S (d : nat -> R) : (forall i k, (i < n)%nat -> (i < k)%nat -> L i k = 0) -> (forall i, (i < n)%nat -> L i i <> 0) ->
  (forall i j, (i < n)%nat -> (j < n)%nat -> Rsum (fun k => L i k * L j k) n = S i j) ->
  exists z, forall i, (i < n)%nat -> Rsum (fun j => S i j * z j) n = d i.
Proof.
  intros Ht Hd HS. destruct (lower_solve L d n Ht Hd) as (u & Hu). destruct (upper_solve L n Hd Ht u) as (z & Hz).
  exists z. intros i Hi. rewrite <- (Hu i Hi).
  rewrite (Rsum_ext _ (fun j => Rsum (fun k => L i k * (L j k * z j)) n)).
  2:{ intros j Hj. rewrite <- (HS i j Hi Hj), Rmult_comm, <- Rsum_scal. apply Rsum_ext. intros k Hk. ring. }
  rewrite Rsum_swap. apply Rsum_ext. intros k Hk. rewrite Rsum_scal, Hz by exact Hk. reflexivity.
Qed.
Lemma chol_inverse n L S : (forall i k, (i < n)%nat -> (i < k)%nat -> L i k = 0) -> (forall i, (i < n)%nat -> L i i <> 0) ->
  (forall i j, (i < n)%nat -> (j < n)%nat -> Rsum (fun k => L i k * L j k) n = S i j) -> exists V, is_inverse n S V.
Proof.
  intros Ht Hd HS.
  destruct (nat_choice (fun _ : nat => 0) n (fun j z => forall i, (i < n)%nat -> Rsum (fun k => S i k * z k) n = if (i =? j)%nat then 1 else 0)) as (W & HW).
  { intros j Hj. apply (chol_solve n L S (fun i => if (i =? j)%nat then 1 else 0) Ht Hd HS). }
  assert (forall i j, (i < n)%nat -> (j < n)%nat -> S i j = S j i) as Hs.
  { intros i j Hi Hj. rewrite <- !HS by assumption. apply Rsum_ext. intros k Hk. ring. }
  (* W is symmetric *)
  assert (forall i j, (i < n)%nat -> (j < n)%nat -> W i j = W j i) as Wsym.
  { intros i j Hi Hj.
    assert (forall a b, (a < n)%nat -> (b < n)%nat -> W a b = Rsum (fun k => Rsum (fun l => W a l * S l k * W b k) n) n) as HH.
    { intros a b Ha Hb. transitivity (Rsum (fun l => W a l * Rsum (fun k => S l k * W b k) n) n).
      - rewrite (Rsum_ext _ (fun l => (if (b =? l)%nat then 1 else 0) * W a l)) by (intros l Hl; rewrite (HW b Hb l Hl), Nat.eqb_sym; ring).
        symmetry. apply Rsum_delta. exact Hb.
      - rewrite (Rsum_swap (fun k l => W a l * S l k * W b k)). apply Rsum_ext. intros l Hl. rewrite <- Rsum_scal. apply Rsum_ext. intros k Hk. ring. }
    rewrite (HH i j Hi Hj), (HH j i Hj Hi), Rsum_swap. apply Rsum_ext. intros k Hk. apply Rsum_ext. intros l Hl. rewrite (Hs k l Hk Hl). ring. }
  exists (fun i j => W j i). intros i j Hi Hj. split; [apply HW; assumption|].
  rewrite (Rsum_ext _ (fun k => S j k * W i k)) by (intros k Hk; rewrite (Hs j k), (Wsym i k) by assumption; ring).
  rewrite (HW i Hi j Hj), Nat.eqb_sym. reflexivity.
Qed.

Lemma ln_prod n (v : nat -> R) : (forall i, (i < n)%nat -> 0 < v i) -> 0 < Rprod v n /\ ln (Rprod v n) = Rsum (fun i => ln (v i)) n.
Proof.
  induction n as [|n IH]; intros H; [split; [exact Rlt_0_1|exact ln_1]|].
  destruct IH as (A & B); [intros; apply H; lia|]. cbn. assert (0 < v n) by (apply H; lia).
  split; [apply Rmult_lt_0_compat; assumption|]. rewrite ln_mult, B by assumption. reflexivity.
Qed.

Lemma normal_factor n (S L : nat -> nat -> R) (d v u : nat -> R) :
  (forall i k, (i < n)%nat -> (i < k)%nat -> L i k = 0) ->
  (forall i, (i < n)%nat -> L i i = sqrt (v i)) -> (forall i, (i < n)%nat -> 0 < v i) ->
  (forall i j, (i < n)%nat -> (j < n)%nat -> Rsum (fun k => L i k * L j k) n = S i j) ->
  (forall i, (i < n)%nat -> d i = Rsum (fun k => L i k * u k) n) ->
  is_normal_ll n S d (Rsum (fun i => - (1 / 2) * ln (v i) - 1 / 2 * (u i * u i)) n).
Proof.
  intros Ht Hd Hv HS Hz.
  assert (forall i, (i < n)%nat -> L i i <> 0) as Hn.
  { intros i Hi. rewrite Hd by exact Hi. pose proof (sqrt_lt_R0 (v i) (Hv i Hi)). lra. }
  destruct (chol_inverse n L S Ht Hn HS) as (V & HV).
  assert (det n S = Rprod v n) as dS.
  { rewrite <- (det_ext n (fun i j => Rsum (fun k => L i k * L j k) n) S) by (intros; apply HS; assumption).
    rewrite (det_chol n L Ht). apply Rprod_ext. intros i Hi. rewrite Hd by exact Hi. apply sqrt_sqrt. left. apply Hv. exact Hi. }
  destruct (ln_prod n v Hv) as (pS & lS).
  exists V. split; [exact HV|]. rewrite dS. split; [exact pS|]. rewrite lS.
  rewrite Rsum_minus, !Rsum_scal. f_equal. f_equal.
  destruct (upper_solve L n Hn Ht u) as (z & Hzz).
  assert (forall i, (i < n)%nat -> Rsum (fun k => S i k * z k) n = d i) as E1.
  { intros i Hi. rewrite (Hz i Hi).
    rewrite (Rsum_ext _ (fun j => Rsum (fun k => L i k * (L j k * z j)) n)).
    2:{ intros j Hj. rewrite <- (HS i j Hi Hj), Rmult_comm, <- Rsum_scal. apply Rsum_ext. intros k Hk. ring. }
    rewrite Rsum_swap. apply Rsum_ext. intros k Hk. rewrite Rsum_scal, Hzz by exact Hk. reflexivity. }
  assert (forall i, (i < n)%nat -> Rsum (fun j => V i j * d j) n = z i) as E2.
  { intros i Hi. rewrite (Rsum_ext _ (fun j => Rsum (fun k => V i j * S j k * z k) n)).
    2:{ intros j Hj. rewrite <- (E1 j Hj), <- Rsum_scal. apply Rsum_ext. intros k Hk. ring. }
    rewrite Rsum_swap. rewrite (Rsum_ext _ (fun k => (if (i =? k)%nat then 1 else 0) * z k)); [apply Rsum_delta; exact Hi|].
    intros k Hk. rewrite <- (proj2 (HV i k Hi Hk)), Rmult_comm, <- Rsum_scal. apply Rsum_ext. intros j Hj. ring. }
  symmetry. rewrite (Rsum_ext _ (fun i => Rsum (fun k => u k * (L i k * z i)) n)).
  2:{ intros i Hi. rewrite (Rsum_ext _ (fun j => d i * (V i j * d j))) by (intros; ring). rewrite Rsum_scal, E2 by exact Hi.
      rewrite (Hz i Hi), Rmult_comm, <- Rsum_scal. apply Rsum_ext. intros k Hk. ring. }
  rewrite Rsum_swap. apply Rsum_ext. intros k Hk. rewrite Rsum_scal, Hzz by exact Hk. reflexivity.
Qed.

Theorem is_loglik_normal K t y e scale mu x : (forall s r, K s r = K r s) -> 0 <= scale -> length y = length t -> length e = length t ->
  is_loglik K t y e scale mu x ->
  is_normal_ll (length t) (fun i j => K (nth i t 0) (nth j t 0) + (if (i =? j)%nat then scale * (nth i e 0 * nth i e 0) else 0))
    (fun i => nth i y 0 - mu) x.
Proof.
  intros Ks Hs Hy He H. destruct (is_loglik_factor K t y e scale mu x Ks Hs Hy He H) as (L & v & u & H1 & H2 & H3 & H4 & H5 & ->).
  apply (normal_factor _ _ L _ v u); assumption.
Qed.
