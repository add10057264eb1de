(** Sums, products and polynomials over the complex numbers; the moment equations of a Vandermonde system. *)
From Coq Require Import Reals List Arith Lra Lia Permutation FinFun.
From Coquelicot Require Import Complex.
From Verif Require Import Spec Gauss SimProof SpecCarma.
Import ListNotations.
Local Open Scope R_scope.
Local Open Scope C_scope.

Lemma C_eq (a b : C) : fst a = fst b -> snd a = snd b -> a = b.
Proof. destruct a, b; simpl; intros; subst; reflexivity. Qed.

Lemma Csum_ext f g n : (forall k, (k < n)%nat -> f k = g k) -> Csum f n = Csum g n.
Proof. induction n as [|n IH]; intros H; simpl; [reflexivity|]. rewrite IH, H; [reflexivity|lia|]. intros; apply H; lia. Qed.
Lemma Csum_plus f g n : Csum (fun k => f k + g k) n = Csum f n + Csum g n.
Proof. induction n as [|n IH]; simpl; [ring|]. rewrite IH. ring. Qed.
Lemma Csum_minus f g n : Csum (fun k => f k - g k) n = Csum f n - Csum g n.
Proof. induction n as [|n IH]; simpl; [ring|]. rewrite IH. ring. Qed.
Lemma Csum_scal c f n : Csum (fun k => c * f k) n = c * Csum f n.
Proof. induction n as [|n IH]; simpl; [ring|]. rewrite IH. ring. Qed.
Lemma Csum_scal_r c f n : Csum (fun k => f k * c) n = Csum f n * c.
Proof. induction n as [|n IH]; simpl; [ring|]. rewrite IH. ring. Qed.
Lemma Csum_0 (f : nat -> C) n : (forall k, (k < n)%nat -> f k = 0) -> Csum f n = 0.
Proof. induction n as [|n IH]; intros H; simpl; [reflexivity|]. rewrite IH, H; [ring|lia|]. intros; apply H; lia. Qed.
Lemma Csum_S f n : Csum f (S n) = Csum f n + f n.
Proof. reflexivity. Qed.
Lemma Csum_swap (f : nat -> nat -> C) n m : Csum (fun k => Csum (fun j => f k j) m) n = Csum (fun j => Csum (fun k => f k j) n) m.
Proof.
  induction n as [|n IH]; simpl; [symmetry; apply Csum_0; reflexivity|]. rewrite IH, <- Csum_plus. reflexivity.
Qed.
Lemma Csum_shift f n : Csum f (S n) = f O + Csum (fun k => f (S k)) n.
Proof. induction n as [|n IH]; [simpl; ring|]. rewrite Csum_S, IH. simpl. ring. Qed.

Lemma fst_Csum f n : fst (Csum f n) = Rsum (fun k => fst (f k)) n.
Proof. induction n as [|n IH]; simpl; [reflexivity|]. rewrite IH. reflexivity. Qed.
Lemma snd_Csum f n : snd (Csum f n) = Rsum (fun k => snd (f k)) n.
Proof. induction n as [|n IH]; simpl; [reflexivity|]. rewrite IH. reflexivity. Qed.

Lemma Csum_bij f n g : bFun n f -> bInjective n f -> Csum (fun k => g (f k)) n = Csum g n.
Proof.
  intros Hf Hi. apply C_eq.
  - rewrite !fst_Csum. apply (Rsum_bij f n (fun k => fst (g k)) Hf Hi).
  - rewrite !snd_Csum. apply (Rsum_bij f n (fun k => snd (g k)) Hf Hi).
Qed.

(** a sum with a single non-zero term *)
Lemma Csum_single (f : nat -> C) n i : (i < n)%nat -> (forall k, (k < n)%nat -> k <> i -> f k = 0) -> Csum f n = f i.
Proof.
  induction n as [|n IH]; intros Hi H; [lia|]. rewrite Csum_S. destruct (Nat.eq_dec i n) as [->|Hne].
  - rewrite Csum_0; [ring|]. intros k Hk. apply H; lia.
  - rewrite IH; [|lia|intros; apply H; lia]. rewrite (H n) by lia. ring.
Qed.

(** conjugation *)
Lemma conj_plus a b : Cconj (a + b) = Cconj a + Cconj b.
Proof. apply C_eq; simpl; ring. Qed.
Lemma conj_minus a b : Cconj (a - b) = Cconj a - Cconj b.
Proof. apply C_eq; simpl; ring. Qed.
Lemma conj_opp a : Cconj (- a) = - Cconj a.
Proof. apply C_eq; simpl; ring. Qed.
Lemma conj_mult a b : Cconj (a * b) = Cconj a * Cconj b.
Proof. apply C_eq; simpl; ring. Qed.
Lemma conj_R (r : R) : Cconj (RtoC r) = RtoC r.
Proof. apply C_eq; simpl; ring. Qed.
Lemma conj_conj a : Cconj (Cconj a) = a.
Proof. apply C_eq; simpl; ring. Qed.
Lemma conj_inv a : Cconj (/ a) = / Cconj a.
Proof.
  apply C_eq; cbn [fst snd Cconj Cinv]; unfold Rdiv.
  - f_equal. f_equal. ring.
  - replace ((- snd a) ^ 2)%R with (snd a ^ 2)%R by ring. ring.
Qed.
Lemma conj_div a b : Cconj (a / b) = Cconj a / Cconj b.
Proof. unfold Cdiv. rewrite conj_mult, conj_inv. reflexivity. Qed.
Lemma conj_sum f n : Cconj (Csum f n) = Csum (fun k => Cconj (f k)) n.
Proof. induction n as [|n IH]; simpl; [apply conj_R|]. rewrite conj_plus, IH. reflexivity. Qed.
Lemma conj_pown z n : Cconj (Cpown z n) = Cpown (Cconj z) n.
Proof. induction n as [|n IH]; simpl; [apply conj_R|]. rewrite conj_mult, IH. reflexivity. Qed.
Lemma conj_exp z : Cconj (Cexp z) = Cexp (Cconj z).
Proof. apply C_eq; simpl; rewrite ?cos_neg, ?sin_neg; ring. Qed.
Lemma Cexp_plus a b : Cexp (a + b) = Cexp a * Cexp b.
Proof. apply C_eq; simpl; rewrite exp_plus, ?cos_plus, ?sin_plus; ring. Qed.
Lemma Cexp_0 : Cexp 0 = 1.
Proof. apply C_eq; simpl; rewrite exp_0, ?cos_0, ?sin_0; ring. Qed.
Lemma Cexp_neq0 z : Cexp z <> 0.
Proof.
  intros H. assert (Cexp z * Cexp (- z) = 1) as E by (rewrite <- Cexp_plus; replace (z + - z) with (RtoC 0) by ring; apply Cexp_0).
  rewrite H in E. assert (RtoC 0 = RtoC 1) as E2 by (rewrite <- E; ring). injection E2. lra.
Qed.
Lemma real_of_conj z : Cconj z = z -> snd z = 0%R.
Proof. intros H. apply (f_equal snd) in H. simpl in H. lra. Qed.
Lemma Cmult_integral (a b : C) : a * b = 0 -> a = 0 \/ b = 0.
Proof.
  intros H. destruct (Req_dec (fst a * fst a + snd a * snd a) 0) as [E|E].
  - left. apply C_eq; simpl; nra.
  - right. assert (a <> 0) as Ha.
    { intros ->. apply E. simpl. ring. }
    replace b with (/ a * (a * b)); [rewrite H; ring|]. field. exact Ha.
Qed.
Lemma RtoC_neq0 r : r <> 0%R -> RtoC r <> 0.
Proof. intros H E. apply H. injection E. trivial. Qed.

(** products over a list *)
Fixpoint Clprod (l : list C) : C := match l with [] => 1 | z :: r => z * Clprod r end.
Lemma Clprod_app l l' : Clprod (l ++ l') = Clprod l * Clprod l'.
Proof. induction l as [|a l IH]; simpl; [ring|]. rewrite IH. ring. Qed.
Lemma Cprod_list f n : Cprod f n = Clprod (map f (seq 0 n)).
Proof.
  induction n as [|n IH]; [reflexivity|]. rewrite seq_S, map_app, Clprod_app, <- IH. simpl. ring.
Qed.
Lemma Clprod_perm l l' : Permutation l l' -> Clprod l = Clprod l'.
Proof.
  induction 1; simpl; [reflexivity|rewrite IHPermutation; reflexivity|ring|congruence].
Qed.
Lemma Cprod_bij f n g : bFun n f -> bInjective n f -> Cprod (fun k => g (f k)) n = Cprod g n.
Proof.
  intros Hf Hi. rewrite !Cprod_list. rewrite <- (map_map f g). apply Clprod_perm. apply Permutation_map.
  apply NoDup_Permutation_bis.
  - apply NoDup_map_in; [|apply seq_NoDup].
    intros x y Hx Hy. apply in_seq in Hx, Hy. apply Hi; lia.
  - rewrite map_length. reflexivity.
  - intros x Hx. apply in_map_iff in Hx. destruct Hx as (k & <- & Hk). apply in_seq in Hk. apply in_seq.
    assert (f k < n)%nat by (apply Hf; lia). lia.
Qed.
Lemma Cprod_ext f g n : (forall k, (k < n)%nat -> f k = g k) -> Cprod f n = Cprod g n.
Proof. induction n as [|n IH]; intros H; simpl; [reflexivity|]. rewrite IH, H; [reflexivity|lia|]. intros; apply H; lia. Qed.
Lemma Cprod_mult f g n : Cprod (fun k => f k * g k) n = Cprod f n * Cprod g n.
Proof. induction n as [|n IH]; simpl; [ring|]. rewrite IH. ring. Qed.
Lemma Cprod_neq0 (f : nat -> C) n : (forall k, (k < n)%nat -> f k <> 0) -> Cprod f n <> 0.
Proof.
  induction n as [|n IH]; intros H; simpl.
  - apply RtoC_neq0. lra.
  - intros E. apply Cmult_integral in E. destruct E as [E|E]; [revert E; apply IH; intros; apply H; lia|revert E; apply H; lia].
Qed.
Lemma Cprod_0 (f : nat -> C) n i : (i < n)%nat -> f i = 0 -> Cprod f n = 0.
Proof.
  induction n as [|n IH]; intros Hi H; [lia|]. simpl. destruct (Nat.eq_dec i n) as [->|]; [rewrite H; ring|].
  rewrite IH by (assumption || lia). ring.
Qed.
(** split off one factor *)
Lemma Cprod_split f n i : (i < n)%nat -> Cprod f n = f i * Cprod (fun l => if Nat.eqb l i then 1 else f l) n.
Proof.
  induction n as [|n IH]; intros Hi; [lia|]. simpl. destruct (Nat.eqb_spec n i) as [->|Hne].
  - rewrite (Cprod_ext (fun l => if Nat.eqb l i then 1 else f l) f); [ring|].
    intros k Hk. destruct (Nat.eqb_spec k i); [lia|reflexivity].
  - rewrite IH by lia. ring.
Qed.

(** polynomials as coefficient functions *)
Definition peval (c : nat -> C) (n : nat) (z : C) : C := Csum (fun l => c l * Cpown z l) n.

(** division by (x - s): beta(x) = beta(s) + (x - s) g(x) with deg g < deg beta *)
Lemma peval_div c n s : exists g, forall x, peval c (S n) x = peval c (S n) s + (x - s) * peval g n x.
Proof.
  revert c; induction n as [|n IH]; intros c.
  - exists (fun _ => 0). intros x. unfold peval. simpl. ring.
  - destruct (IH (fun l => c (S l))) as [g Hg].
    (* c(x) = c0 + x c'(x),  c'(x) = c'(s) + (x-s) g(x) *)
    assert (forall x, peval c (S (S n)) x = c O + x * peval (fun l => c (S l)) (S n) x) as Hsh.
    { intros x. unfold peval. rewrite Csum_shift. f_equal; [simpl; ring|].
      rewrite <- Csum_scal. apply Csum_ext. intros k _. simpl. ring. }
    exists (fun l => match l with O => peval (fun l => c (S l)) (S n) s | S k => g k end).
    intros x. rewrite !Hsh.
    transitivity (c O + s * peval (fun l => c (S l)) (S n) s
                  + (x - s) * (peval (fun l => c (S l)) (S n) s + x * peval g n x)).
    { rewrite (Hg x). ring. }
    f_equal. f_equal. unfold peval at 3. rewrite (Csum_shift _ n). simpl (Cpown x 0).
    replace (x * peval g n x) with (Csum (fun k => g k * Cpown x (S k)) n); [ring|].
    unfold peval. rewrite <- Csum_scal. apply Csum_ext. intros k _. simpl. ring.
Qed.

(** ** The moment equations sum_i om_i^k J_i = delta_{k,p-1} *)
Section Moments.
Variables (p : nat) (om J : nat -> C).
Hypothesis Hp : (1 <= p)%nat.
Hypothesis HJ : forall k, (k < p)%nat -> Csum (fun i => Cpown (om i) k * J i) p = if Nat.eqb k (p - 1) then 1 else 0.

Definition rootprod (rs : list C) (x : C) : C := Clprod (map (fun r => x - r) rs).

Lemma moment_prod rs : forall k, (k + length rs < p)%nat ->
  Csum (fun i => J i * rootprod rs (om i) * Cpown (om i) k) p = if Nat.eqb (k + length rs) (p - 1) then 1 else 0.
Proof.
  induction rs as [|r rs IH]; intros k Hk.
  - simpl in *. rewrite Nat.add_0_r in *. rewrite <- HJ by exact Hk. apply Csum_ext. intros i _.
    unfold rootprod. simpl. ring.
  - simpl in Hk. rewrite (Csum_ext _ (fun i => J i * rootprod rs (om i) * Cpown (om i) (S k) - r * (J i * rootprod rs (om i) * Cpown (om i) k))).
    2:{ intros i _. unfold rootprod. simpl. ring. }
    rewrite Csum_minus, Csum_scal, !IH by lia.
    replace (k + length (r :: rs))%nat with (S k + length rs)%nat by (simpl; lia).
    destruct (Nat.eqb_spec (k + length rs) (p - 1)); [lia|]. ring.
Qed.

(** values of polynomials of degree < p - 1 are annihilated *)
Lemma moment_peval g n : (n < p)%nat -> Csum (fun i => J i * peval g n (om i)) p = 0.
Proof.
  intros Hn. unfold peval.
  rewrite (Csum_ext _ (fun i => Csum (fun l => g l * (Cpown (om i) l * J i)) n)).
  2:{ intros i _. rewrite <- Csum_scal. apply Csum_ext. intros; ring. }
  rewrite Csum_swap. apply Csum_0. intros l Hl. rewrite Csum_scal, HJ by lia.
  destruct (Nat.eqb_spec l (p - 1)); [lia|ring].
Qed.

Definition others (i : nat) : list C := map om (filter (fun l => negb (Nat.eqb l i)) (seq 0 p)).

Lemma others_len i : (i < p)%nat -> length (others i) = (p - 1)%nat.
Proof.
  intros Hi. unfold others. rewrite map_length.
  assert (forall a n, (a <= i)%nat -> (i < a + n)%nat -> length (filter (fun l => negb (Nat.eqb l i)) (seq a n)) = (n - 1)%nat) as H.
  { intros a n; revert a; induction n as [|n IH]; intros a Ha Hn; [lia|]. simpl.
    destruct (Nat.eqb_spec a i) as [->|Hne]; simpl.
    - rewrite Nat.sub_0_r. clear. assert (forall n b, (i < b)%nat -> length (filter (fun l => negb (Nat.eqb l i)) (seq b n)) = n) as H.
      { clear. induction n as [|n IH]; intros b Hb; [reflexivity|]. simpl. destruct (Nat.eqb_spec b i); [lia|]. simpl. rewrite IH; lia. }
      apply H. lia.
    - rewrite IH by lia. lia. }
  apply H; lia.
Qed.

Lemma rootprod_others i x : rootprod (others i) x = Cprod (fun l => if Nat.eqb l i then 1 else x - om l) p.
Proof.
  rewrite Cprod_list. unfold rootprod, others. rewrite map_map.
  induction (seq 0 p) as [|a l IH]; [reflexivity|]. simpl. destruct (Nat.eqb_spec a i); simpl; rewrite IH; ring.
Qed.

(** the explicit solution *)
Lemma J_explicit i : (i < p)%nat -> J i * Cprod (fun l => if Nat.eqb l i then 1 else om i - om l) p = 1.
Proof.
  intros Hi. pose proof (moment_prod (others i) 0) as H. rewrite others_len in H by exact Hi.
  specialize (H ltac:(lia)). rewrite Nat.add_0_l, Nat.eqb_refl in H.
  rewrite (Csum_single _ p i Hi) in H.
  - rewrite rootprod_others in H. etransitivity; [|exact H]. simpl. ring.
  - intros k Hk Hki. rewrite rootprod_others. rewrite (Cprod_0 _ p k Hk); [ring|].
    destruct (Nat.eqb_spec k i); [contradiction|]. ring.
Qed.

Lemma J_neq0 i : (i < p)%nat -> J i <> 0.
Proof.
  intros Hi E. pose proof (J_explicit i Hi) as H. rewrite E in H.
  assert (RtoC 0 = RtoC 1) as E2 by (rewrite <- H; ring). injection E2. lra.
Qed.

(** partial fractions: sum_j beta(om_j) J_j / (s - om_j) = beta(s) / prod (s - om_j), deg beta < p *)
Definition P (s : C) : C := Cprod (fun l => s - om l) p.

Lemma pf_one s : (forall j, (j < p)%nat -> s <> om j) -> Csum (fun j => J j / (s - om j)) p = / P s.
Proof.
  intros Hs.
  (* sum_j J_j prod_{l in rs} (om_j - l) / (s - om_j), with rs growing to all roots but treated by (om_j - r) = (s - r) - (s - om_j) *)
  assert (forall rs, (length rs <= p - 1)%nat ->
    Csum (fun j => J j * rootprod rs (om j) / (s - om j)) p = rootprod rs s * Csum (fun j => J j / (s - om j)) p) as H.
  { induction rs as [|r rs IH]; intros Hl.
    - unfold rootprod. simpl. rewrite <- Csum_scal. apply Csum_ext. intros j Hj. field.
      intros E. apply (Hs j Hj). replace s with (s - om j + om j) by ring. rewrite E. ring.
    - simpl in Hl. rewrite (Csum_ext _ (fun j => (s - r) * (J j * rootprod rs (om j) / (s - om j)) - J j * rootprod rs (om j) * Cpown (om j) 0)).
      2:{ intros j Hj. unfold rootprod. simpl. field.
          intros E. apply (Hs j Hj). replace s with (s - om j + om j) by ring. rewrite E. ring. }
      rewrite Csum_minus, Csum_scal, IH by lia. rewrite moment_prod by lia.
      destruct (Nat.eqb_spec (0 + length rs) (p - 1)); [lia|]. unfold rootprod. simpl. ring. }
  assert (0 < p)%nat as Hp0 by lia.
  specialize (H (others 0)). rewrite others_len in H by lia. specialize (H ltac:(lia)).
  rewrite (Csum_single _ p 0 Hp0) in H.
  2:{ intros k Hk Hk0. rewrite rootprod_others. rewrite (Cprod_0 _ p k Hk); [unfold Cdiv; ring|].
      destruct (Nat.eqb_spec k 0); [contradiction|]. ring. }
  assert (s - om O <> 0) as H0.
  { intros E. apply (Hs O Hp0). replace s with (s - om O + om O) by ring. rewrite E. ring. }
  assert (P s <> 0) as HP.
  { apply Cprod_neq0. intros k Hk E. apply (Hs k Hk). replace s with (s - om k + om k) by ring. rewrite E. ring. }
  pose proof (J_explicit O Hp0) as HJ0.
  assert (J O * rootprod (others 0) (om O) = 1) as HJ1.
  { rewrite rootprod_others. exact HJ0. }
  rewrite HJ1 in H.
  assert (P s = (s - om O) * rootprod (others 0) s) as EP.
  { unfold P. rewrite (Cprod_split _ p O Hp0). rewrite rootprod_others. reflexivity. }
  set (X := Csum (fun j => J j / (s - om j)) p) in *. set (Q := rootprod (others 0) s) in *.
  assert (Q <> 0) as HQ by (intros E; apply HP; rewrite EP, E; ring).
  replace X with (/ Q * (Q * X)) by (field; exact HQ). rewrite <- H, EP. field. split; assumption.
Qed.

Lemma pf_poly c n s : (n <= p)%nat -> (forall j, (j < p)%nat -> s <> om j) ->
  Csum (fun j => peval c n (om j) * J j / (s - om j)) p = peval c n s / P s.
Proof.
  intros Hn Hs. destruct n as [|n].
  - unfold peval. simpl. rewrite Csum_0; [unfold Cdiv; ring|]. intros k Hk. unfold Cdiv. ring.
  - destruct (peval_div c n s) as [g Hg].
    rewrite (Csum_ext _ (fun j => peval c (S n) s * (J j / (s - om j)) - J j * peval g n (om j))).
    2:{ intros j Hj. rewrite (Hg (om j)). field.
        intros E. apply (Hs j Hj). replace s with (s - om j + om j) by ring. rewrite E. ring. }
    rewrite Csum_minus, Csum_scal, pf_one by exact Hs. rewrite moment_peval by lia. unfold Cdiv. ring.
Qed.

(** a polynomial of degree < p vanishing at all the roots is zero *)
Lemma Cpown_add z a b : Cpown z (a + b) = Cpown z a * Cpown z b.
Proof. induction a as [|a IH]; simpl; [ring|]. rewrite IH. ring. Qed.

Lemma peval_zero c : (forall i, (i < p)%nat -> peval c p (om i) = 0) -> forall l, (l < p)%nat -> c l = 0.
Proof.
  intros Hz.
  assert (forall j, (j <= p)%nat -> forall l, (p - j <= l)%nat -> (l < p)%nat -> c l = 0) as H.
  { induction j as [|j IH]; intros Hj l Hl1 Hl2; [lia|].
    destruct (Nat.eq_dec l (p - S j)) as [->|Hne]; [|apply IH; lia].
    assert (Csum (fun i => Cpown (om i) j * J i * peval c p (om i)) p = 0) as E.
    { apply Csum_0. intros i Hi. rewrite Hz by exact Hi. ring. }
    rewrite (Csum_ext _ (fun i => Csum (fun l => c l * (Cpown (om i) (j + l) * J i)) p)) in E.
    2:{ intros i _. unfold peval. rewrite <- Csum_scal. apply Csum_ext. intros k _. rewrite Cpown_add. ring. }
    rewrite Csum_swap in E.
    rewrite (Csum_single _ p (p - S j)) in E; [|lia|].
    - rewrite Csum_scal, HJ in E by lia. destruct (Nat.eqb_spec (j + (p - S j)) (p - 1)); [|lia].
      rewrite <- E. ring.
    - intros k Hk Hkn. rewrite Csum_scal. destruct (Nat.lt_ge_cases k (p - j)).
      + rewrite HJ by lia. destruct (Nat.eqb_spec (j + k) (p - 1)); [lia|ring].
      + rewrite (IH ltac:(lia) k) by lia. ring. }
  intros l Hl. apply (H p); lia.
Qed.
End Moments.

