(** The determinant is the only function of the rows of a matrix that is linear in every row, zero when two rows agree and 1 at the identity;
    so the determinant, and the normal density, do not depend on the order of the coordinates.  Nothing here refers to the model of the code. *)
From Coq Require Import Reals Lra Lia Arith Bool.
From Verif Require Import Spec Gauss RamProof Det LogDens.
Local Open Scope R_scope.

(** D depends on the entries of the n x n matrix only, is linear in every row and vanishes when two rows agree. *)
Definition entries_only (n : nat) (D : (nat -> nat -> R) -> R) : Prop :=
  forall M M', (forall i j, (i < n)%nat -> (j < n)%nat -> M i j = M' i j) -> D M = D M'.
Definition row_linear (n : nat) (D : (nat -> nat -> R) -> R) : Prop :=
  forall M r a b u v, (r < n)%nat -> D (setrow M r (fun j => a * u j + b * v j)) = a * D (setrow M r u) + b * D (setrow M r v).
Definition alternating (n : nat) (D : (nat -> nat -> R) -> R) : Prop :=
  forall M r s, (r < s < n)%nat -> (forall j, (j < n)%nat -> M r j = M s j) -> D M = 0.
Definition ident (i j : nat) : R := if (i =? j)%nat then 1 else 0.

Section Uniq.
Variables (n : nat) (G : (nat -> nat -> R) -> R).
Hypothesis Hext : entries_only n G.
Hypothesis Hlin : row_linear n G.
Hypothesis Halt : alternating n G.

Lemma alt2 M r s : r <> s -> (r < n)%nat -> (s < n)%nat -> (forall j, (j < n)%nat -> M r j = M s j) -> G M = 0.
Proof using Halt.
  intros H Hr Hs HE. destruct (Nat.lt_trichotomy r s) as [Hl|[Hl|Hl]]; [|lia|].
  - apply (Halt M r s); [lia|exact HE].
  - apply (Halt M s r); [lia|]. intros j Hj. symmetry. exact (HE j Hj).
Qed.
Lemma row_same M r : forall i j, setrow M r (M r) i j = M i j.
Proof. intros i j. unfold setrow. destruct (Nat.eqb_spec i r) as [->|]; reflexivity. Qed.
Lemma row_add M r u v : (r < n)%nat -> G (setrow M r (fun j => u j + v j)) = G (setrow M r u) + G (setrow M r v).
Proof using Hext Hlin.
  intros Hr. rewrite <- (Rmult_1_l (G (setrow M r u))), <- (Rmult_1_l (G (setrow M r v))), <- Hlin by exact Hr.
  apply Hext. intros i j _ _. unfold setrow. destruct (i =? r)%nat; [ring|reflexivity].
Qed.
Definition swap2 (M : nat -> nat -> R) (r s : nat) : nat -> nat -> R := setrow (setrow M r (M s)) s (M r).
Lemma swap_neg M r s : r <> s -> (r < n)%nat -> (s < n)%nat -> G (swap2 M r s) = - G M.
Proof using Hext Hlin Halt.
  intros Hne Hr Hs. set (w := fun j => M r j + M s j).
  assert (G (setrow (setrow M r w) s w) = 0) as E0.
  { apply (alt2 _ r s Hne Hr Hs). intros j Hj. unfold setrow. rewrite !Nat.eqb_refl. destruct (Nat.eqb_spec r s); [contradiction|reflexivity]. }
  unfold w in E0 at 2. rewrite row_add in E0 by exact Hs.
  assert (forall z, G (setrow (setrow M r w) s z) = G (setrow (setrow M r (M r)) s z) + G (setrow (setrow M r (M s)) s z)) as E1.
  { intros z. transitivity (G (setrow (setrow M s z) r w)); [|unfold w; rewrite row_add by exact Hr; f_equal];
      apply Hext; intros i j _ _; apply setrow_comm; auto. }
  rewrite !E1 in E0.
  assert (G (setrow (setrow M r (M r)) s (M r)) = 0) as Ea.
  { apply (alt2 _ r s Hne Hr Hs). intros j Hj. unfold setrow. rewrite !Nat.eqb_refl. destruct (Nat.eqb_spec r s); [contradiction|reflexivity]. }
  assert (G (setrow (setrow M r (M s)) s (M s)) = 0) as Eb.
  { apply (alt2 _ r s Hne Hr Hs). intros j Hj. unfold setrow. rewrite !Nat.eqb_refl. destruct (Nat.eqb_spec r s); [contradiction|reflexivity]. }
  assert (G (setrow (setrow M r (M r)) s (M s)) = G M) as Ec.
  { apply Hext. intros i j _ _. unfold setrow. destruct (Nat.eqb_spec i s) as [->|]; [reflexivity|]. destruct (Nat.eqb_spec i r) as [->|]; reflexivity. }
  rewrite Ea, Eb, Ec in E0. unfold swap2. lra.
Qed.

Hypothesis HI : G ident = 0.
(** rows that are unit vectors *)
Definition units (f : nat -> nat) : nat -> nat -> R := fun i j => ident (f i) j.

Lemma pigeon m : forall f, (forall i, (i <= m)%nat -> (f i < m)%nat) -> exists a b, (a < b <= m)%nat /\ f a = f b.
Proof.
  induction m as [|m IH]; intros f H; [specialize (H 0%nat ltac:(lia)); lia|].
  assert ((exists a, (a <= m)%nat /\ f a = f (S m)) \/ forall a, (a <= m)%nat -> f a <> f (S m)) as [(a & Ha & E)|Hno].
  { clear. generalize (f (S m)) as v. induction m as [|m IH]; intros v.
    - destruct (Nat.eq_dec (f 0%nat) v); [left; exists 0%nat; split; [lia|assumption]|right; intros a Ha; replace a with 0%nat by lia; assumption].
    - destruct (IH v) as [(a & Ha & E)|H]; [left; exists a; split; [lia|exact E]|].
      destruct (Nat.eq_dec (f (S m)) v); [left; exists (S m); split; [lia|assumption]|].
      right. intros a Ha. destruct (Nat.eq_dec a (S m)) as [->|]; [assumption|apply H; lia]. }
  - exists a, (S m). split; [lia|exact E].
  - destruct (IH (fun i => if (f i <? f (S m))%nat then f i else (f i - 1)%nat)) as (a & b & Hab & E).
    { intros i Hi. pose proof (H i ltac:(lia)). pose proof (H (S m) ltac:(lia)). pose proof (Hno i Hi). destruct (Nat.ltb_spec (f i) (f (S m))); lia. }
    exists a, b. split; [lia|]. pose proof (Hno a ltac:(lia)). pose proof (Hno b ltac:(lia)).
    destruct (Nat.ltb_spec (f a) (f (S m))), (Nat.ltb_spec (f b) (f (S m))); lia.
Qed.

Lemma units_0 k : (k <= n)%nat -> forall f, (forall i, (i < n)%nat -> (f i < n)%nat) -> (forall i, (k <= i < n)%nat -> f i = i) -> G (units f) = 0.
Proof using Hext Hlin Halt HI.
  induction k as [|k IH]; intros Hk f Hf Hfix.
  - rewrite <- HI. apply Hext. intros i j Hi Hj. unfold units. rewrite Hfix by lia. reflexivity.
  - assert ((exists r, (r <= k)%nat /\ f r = k) \/ forall r, (r <= k)%nat -> f r <> k) as [(r & Hr & E)|Hno].
    { clear. assert (forall m v, (exists r, (r <= m)%nat /\ f r = v) \/ forall r, (r <= m)%nat -> f r <> v) as H; [|apply H].
      induction m as [|m IH]; intros v.
      - destruct (Nat.eq_dec (f 0%nat) v); [left; exists 0%nat; split; [lia|assumption]|right; intros a Ha; replace a with 0%nat by lia; assumption].
      - destruct (IH v) as [(a & Ha & E)|H]; [left; exists a; split; [lia|exact E]|].
        destruct (Nat.eq_dec (f (S m)) v); [left; exists (S m); split; [lia|assumption]|].
        right. intros a Ha. destruct (Nat.eq_dec a (S m)) as [->|]; [assumption|apply H; lia]. }
    + destruct (Nat.eq_dec r k) as [->|Hne].
      * apply IH; [lia|exact Hf|]. intros i Hi. destruct (Nat.eq_dec i k) as [->|]; [exact E|apply Hfix; lia].
      * set (g := fun i => if (i =? k)%nat then k else if (i =? r)%nat then f k else f i).
        assert (G (units g) = 0) as Eg.
        { apply IH; [lia| |].
          - intros i Hi. unfold g. destruct (Nat.eqb_spec i k); [lia|]. destruct (Nat.eqb_spec i r); apply Hf; lia.
          - intros i Hi. unfold g. destruct (Nat.eqb_spec i k); [lia|]. destruct (Nat.eqb_spec i r); [lia|apply Hfix; lia]. }
        pose proof (swap_neg (units f) r k Hne ltac:(lia) ltac:(lia)) as Es.
        replace (G (swap2 (units f) r k)) with (G (units g)) in Es; [lra|].
        apply Hext. intros i j _ _. unfold swap2, setrow, units, g. destruct (Nat.eqb_spec i k); [rewrite E; reflexivity|].
        destruct (Nat.eqb_spec i r); reflexivity.
    + assert ((exists r, (r <= k)%nat /\ (k < f r)%nat) \/ forall r, (r <= k)%nat -> (f r < k)%nat) as [(r & Hr & Hgt)|Hlt].
      { assert (forall m, (m <= k)%nat -> (exists r, (r <= m)%nat /\ (k < f r)%nat) \/ forall r, (r <= m)%nat -> (f r < k)%nat) as H; [|apply H; lia].
        clear - Hno. induction m as [|m IH]; intros Hm.
        - specialize (Hno 0%nat ltac:(lia)). destruct (Nat.lt_ge_cases (f 0%nat) k); [right; intros r Hr; replace r with 0%nat by lia; assumption|left; exists 0%nat; lia].
        - destruct (IH ltac:(lia)) as [(r & Hr & H)|H]; [left; exists r; lia|].
          specialize (Hno (S m) Hm). destruct (Nat.lt_ge_cases (f (S m)) k); [|left; exists (S m); lia].
          right. intros r Hr. destruct (Nat.eq_dec r (S m)) as [->|]; [assumption|apply H; lia]. }
      * pose proof (Hf r ltac:(lia)). apply (alt2 _ r (f r)); try lia. intros j Hj. unfold units. rewrite (Hfix (f r)) by lia. reflexivity.
      * destruct (pigeon k f) as (a & b & Hab & E); [intros i Hi; apply Hlt; exact Hi|].
        apply (alt2 _ a b); try lia. intros j Hj. unfold units. rewrite E. reflexivity.
Qed.

(** a row is a combination of unit vectors *)
Lemma row_expand M r u m : (r < n)%nat -> (m <= n)%nat ->
  G (setrow M r (fun j => if (j <? m)%nat then u j else 0)) = Rsum (fun k => u k * G (setrow M r (ident k))) m.
Proof using Hext Hlin.
  intros Hr. induction m as [|m IH]; intros Hm.
  - cbn [Rsum]. rewrite <- (Rmult_0_l (G (setrow M r (ident 0)))).
    rewrite <- (Rplus_0_r (0 * _)). rewrite <- (Rmult_0_l (G (setrow M r (ident 0)))) at 2. rewrite <- Hlin by exact Hr.
    apply Hext. intros i j _ _. unfold setrow. destruct (i =? r)%nat; [|reflexivity]. destruct (Nat.ltb_spec j 0); [lia|ring].
  - rewrite Rsum_S, <- IH by lia. rewrite <- (Rmult_1_l (G (setrow M r (fun j => if (j <? m)%nat then u j else 0)))), <- Hlin by exact Hr.
    apply Hext. intros i j _ _. unfold setrow, ident. destruct (i =? r)%nat; [|reflexivity].
    destruct (Nat.ltb_spec j (S m)), (Nat.ltb_spec j m), (Nat.eqb_spec m j); try lia; subst; ring.
Qed.
Lemma zero_all : forall M, G M = 0.
Proof using Hext Hlin Halt HI.
  assert (forall k, (k <= n)%nat -> forall M f, (forall i, (i < n)%nat -> (f i < n)%nat) ->
            (forall i j, (k <= i < n)%nat -> (j < n)%nat -> M i j = units f i j) -> G M = 0) as H.
  { induction k as [|k IH]; intros Hk M f Hf HM.
    - rewrite <- (units_0 n (Nat.le_refl n) f Hf ltac:(intros; lia)). apply Hext. intros i j Hi Hj. apply HM; lia.
    - replace (G M) with (G (setrow M k (fun j => if (j <? n)%nat then M k j else 0))).
      2:{ apply Hext. intros i j Hi Hj. unfold setrow. destruct (Nat.eqb_spec i k) as [->|]; [|reflexivity]. destruct (Nat.ltb_spec j n); [reflexivity|lia]. }
      rewrite row_expand by lia. apply Rsum_0. intros l Hl. rewrite (IH ltac:(lia) (setrow M k (ident l)) (fun i => if (i =? k)%nat then l else f i)); [ring| |].
      + intros i Hi. destruct (i =? k)%nat; [exact Hl|apply Hf, Hi].
      + intros i j Hi Hj. unfold setrow, units. destruct (Nat.eqb_spec i k); [reflexivity|]. apply HM; lia. }
  intros M. apply (H n (Nat.le_refl n) M (fun i => i)); [auto|intros; lia].
Qed.
End Uniq.

Theorem det_unique n (D : (nat -> nat -> R) -> R) : entries_only n D -> row_linear n D -> alternating n D -> D ident = 1 -> forall M, D M = det n M.
Proof.
  intros He Hl Ha H1 M. apply Rminus_diag_uniq. apply (zero_all n (fun M => D M - det n M)).
  - intros A B H. rewrite (He A B H), (det_ext n A B H). reflexivity.
  - intros A r a b u v Hr. rewrite Hl, det_lin by exact Hr. ring.
  - intros A r s Hrs HE. rewrite (Ha A r s Hrs HE), (det_eq_rows n s A r (proj1 Hrs) (proj2 Hrs) HE). ring.
  - rewrite H1. assert (det n ident = 1) as ->; [|ring].
    rewrite det_upper; [|intros i j Hi Hj; unfold ident; destruct (Nat.eqb_spec i j); [lia|reflexivity]].
    clear. induction n as [|n IH]; [reflexivity|]. cbn [Rprod]. rewrite IH. unfold ident. rewrite Nat.eqb_refl. ring.
Qed.

(** ** The order of the coordinates *)
(** s is a permutation of 0 .. n-1 with inverse s'. *)
Definition reorders (n : nat) (s s' : nat -> nat) : Prop :=
  forall i, (i < n)%nat -> (s i < n)%nat /\ (s' i < n)%nat /\ s' (s i) = i /\ s (s' i) = i.
Lemma reorders_sym n s s' : reorders n s s' -> reorders n s' s.
Proof. intros H i Hi. destruct (H i Hi) as (A & B & C & D). auto. Qed.

Lemma Rsum_reorder f n s s' : reorders n s s' -> Rsum (fun k => f (s k)) n = Rsum f n.
Proof.
  intros H. rewrite (Rsum_ext (fun k => f (s k)) (fun k => Rsum (fun j => (if (s k =? j)%nat then 1 else 0) * f j) n)).
  2:{ intros k Hk. symmetry. apply Rsum_delta. apply H, Hk. }
  rewrite Rsum_swap. apply Rsum_ext. intros j Hj. destruct (H j Hj) as (_ & Hs' & _ & Hss).
  refine (eq_trans _ (Rsum_delta (fun _ => f j) n (s' j) Hs')). apply Rsum_ext. intros k Hk. destruct (H k Hk) as (_ & _ & Hk' & _).
  destruct (Nat.eqb_spec (s k) j) as [E|E], (Nat.eqb_spec (s' j) k) as [E'|E']; try reflexivity; exfalso; congruence.
Qed.

Lemma det_reorder n s s' M : reorders n s s' -> det n (fun i j => M (s i) (s j)) = det n M.
Proof.
  intros H. apply (det_unique n (fun M => det n (fun i j => M (s i) (s j)))).
  - intros A B HE. apply det_ext. intros i j Hi Hj. apply HE; apply H; assumption.
  - intros A r a b u v Hr. destruct (H r Hr) as (_ & Hr' & _ & Hss).
    assert (forall w, det n (fun i j => setrow A r w (s i) (s j)) = det n (setrow (fun i j => A (s i) (s j)) (s' r) (fun j => w (s j)))) as E.
    { intros w. apply det_ext. intros i j Hi Hj. unfold setrow. destruct (H i Hi) as (_ & _ & Hi' & _).
      destruct (Nat.eqb_spec (s i) r), (Nat.eqb_spec i (s' r)); try reflexivity; exfalso; congruence. }
    rewrite !E. apply det_lin. exact Hr'.
  - intros A r q Hrq HE. destruct (H r ltac:(lia)) as (_ & A1 & _ & A2). destruct (H q ltac:(lia)) as (_ & B1 & _ & B2).
    assert (s' r <> s' q) as Hne by (intros E; rewrite <- A2, <- B2, E in Hrq; lia).
    assert (forall j, (j < n)%nat -> A (s (s' r)) (s j) = A (s (s' q)) (s j)) as HE' by (intros j Hj; rewrite A2, B2; apply HE, H, Hj).
    destruct (Nat.lt_trichotomy (s' r) (s' q)) as [Hl|[Hl|Hl]]; [|contradiction|].
    + apply (det_eq_rows n (s' q) _ (s' r)); [exact Hl|exact B1|exact HE'].
    + apply (det_eq_rows n (s' r) _ (s' q)); [exact Hl|exact A1|]. intros j Hj. symmetry. exact (HE' j Hj).
  - transitivity (det n ident).
    + apply det_ext. intros i j Hi Hj. unfold ident. destruct (H i Hi) as (_ & _ & Hi' & _), (H j Hj) as (_ & _ & Hj' & _).
      destruct (Nat.eqb_spec (s i) (s j)) as [E|E], (Nat.eqb_spec i j) as [E'|E']; try reflexivity; exfalso; [|congruence]. apply E'. rewrite <- Hi', <- Hj', E. reflexivity.
    + rewrite det_upper; [|intros i j Hi Hj; unfold ident; destruct (Nat.eqb_spec i j); [lia|reflexivity]].
      clear. induction n as [|n IH]; [reflexivity|]. cbn [Rprod]. rewrite IH. unfold ident. rewrite Nat.eqb_refl. ring.
Qed.

(** the normal log-density *)
Lemma normal_ext n S S' d d' x : (forall i j, (i < n)%nat -> (j < n)%nat -> S i j = S' i j) -> (forall i, (i < n)%nat -> d i = d' i) ->
  is_normal_ll n S d x -> is_normal_ll n S' d' x.
Proof.
  intros HS Hd (V & HV & Hp & ->). exists V. rewrite <- (det_ext n S S' HS). split; [|split; [exact Hp|]].
  - intros i j Hi Hj. destruct (HV i j Hi Hj) as (E1 & E2). split; [rewrite <- E1|rewrite <- E2]; apply Rsum_ext; intros k Hk; rewrite HS by assumption; reflexivity.
  - do 2 f_equal. apply Rsum_ext. intros i Hi. apply Rsum_ext. intros j Hj. rewrite !Hd by assumption. reflexivity.
Qed.
Lemma normal_reorder n s s' S d x : reorders n s s' -> is_normal_ll n S d x -> is_normal_ll n (fun i j => S (s i) (s j)) (fun i => d (s i)) x.
Proof.
  intros H (V & HV & Hp & ->). exists (fun i j => V (s i) (s j)). rewrite (det_reorder n s s' S H). split; [|split; [exact Hp|]].
  - intros i j Hi Hj. destruct (H i Hi) as (Ai & _ & Bi & _), (H j Hj) as (Aj & _ & Bj & _). destruct (HV (s i) (s j) Ai Aj) as (E1 & E2).
    rewrite (Rsum_reorder (fun k => S (s i) k * V k (s j)) n s s' H), (Rsum_reorder (fun k => V (s i) k * S k (s j)) n s s' H), E1, E2.
    destruct (Nat.eqb_spec (s i) (s j)) as [E|E], (Nat.eqb_spec i j) as [E'|E']; try (split; reflexivity); exfalso; [|congruence].
    apply E'. rewrite <- Bi, <- Bj, E. reflexivity.
  - do 2 f_equal. rewrite <- (Rsum_reorder _ n s s' H). apply Rsum_ext. intros i Hi.
    symmetry. apply (Rsum_reorder (fun j => d (s i) * V (s i) j * d j) n s s' H).
Qed.

Lemma det_scale n a : forall M, det n (fun i j => a * M i j) = a ^ n * det n M.
Proof.
  induction n as [|n IH]; intros M; cbn [det pow]; [ring|]. rewrite <- Rsum_scal. apply Rsum_ext. intros i Hi.
  unfold minor. rewrite (IH (fun a b => M (skip i a) (Datatypes.S b))). ring.
Qed.
Lemma normal_scale n a S d x : 0 < a -> is_normal_ll n S d x -> is_normal_ll n (fun i j => a * a * S i j) (fun i => a * d i) (x - INR n * ln a).
Proof.
  intros Ha (V & HV & Hp & ->). exists (fun i j => V i j / (a * a)). rewrite det_scale.
  assert (0 < a * a) as Haa by (apply Rmult_lt_0_compat; assumption). split; [|split].
  - intros i j Hi Hj. destruct (HV i j Hi Hj) as (E1 & E2). split; [rewrite <- E1|rewrite <- E2]; apply Rsum_ext; intros k Hk; field; lra.
  - apply Rmult_lt_0_compat; [apply pow_lt, Haa|exact Hp].
  - rewrite ln_mult; [|apply pow_lt, Haa|exact Hp]. rewrite ln_pow by exact Haa. rewrite ln_mult by assumption.
    rewrite (Rsum_ext (fun i => Rsum (fun j => a * d i * (V i j / (a * a)) * (a * d j)) n) (fun i => Rsum (fun j => d i * V i j * d j) n)); [field|].
    intros i Hi. apply Rsum_ext. intros j Hj. field. lra.
Qed.
