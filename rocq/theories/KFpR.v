(** Exactness of the complex Kalman recursions over the reals. *)
From Coq Require Import Reals List Arith Lra Lia FinFun.
From Coquelicot Require Import Complex.
From Verif Require Import Spec Gauss SimProof SpecCarma CLin OUpd.
Import ListNotations.
Local Open Scope R_scope.
Local Open Scope C_scope.

Lemma blp_var_pos i K y m v : (forall a b, K a b = K b a) -> pd (S i) K ->
  is_blp i K (fun j => K i j) (K i i) y m v -> (0 < v)%R.
Proof.
  intros Hs Hpd (w & W1 & W2 & W3).
  pose (a := fun k => if Nat.eqb k i then 1%R else (- w k)%R).
  assert (0 < quad (S i) K a)%R as H.
  { apply Hpd. exists i. split; [lia|]. unfold a. rewrite Nat.eqb_refl. lra. }
  rewrite quad_S in H by exact Hs.
  assert (a i = 1%R) as Ei by (unfold a; rewrite Nat.eqb_refl; reflexivity). rewrite Ei in H.
  assert (forall k, (k < i)%nat -> a k = (- w k)%R) as Ek.
  { intros k Hk. unfold a. destruct (Nat.eqb_spec k i); [lia|reflexivity]. }
  rewrite (Rsum_ext (fun j => (K i j * a j)%R) (fun j => (-1 * (w j * K i j))%R)) in H by (intros k Hk; rewrite Ek by exact Hk; ring).
  rewrite Rsum_scal in H.
  assert (quad i K a = Rsum (fun k => (w k * K i k)%R) i) as Eq.
  { unfold quad. rewrite Rsum_swap. apply Rsum_ext. intros j Hj.
    rewrite (Rsum_ext _ (fun k => (w j * (w k * K k j))%R)) by (intros k Hk; rewrite !Ek by assumption; ring).
    rewrite Rsum_scal, W1 by exact Hj. reflexivity. }
  rewrite Eq in H. lra.
Qed.

Section SS.
Variables (p : nat) (b : nat -> C) (V : nat -> nat -> C) (E : R -> nat -> C) (pi : nat -> nat).
Hypothesis Hpi : forall i, (i < p)%nat -> (pi i < p)%nat.
Hypothesis Hpp : forall i, (i < p)%nat -> pi (pi i) = i.
Hypothesis b_conj : forall i, (i < p)%nat -> b (pi i) = Cconj (b i).
Hypothesis V_herm : forall i j, V j i = Cconj (V i j).
Hypothesis V_conj : forall i j, (i < p)%nat -> (j < p)%nat -> V (pi i) (pi j) = Cconj (V i j).
Hypothesis E_conj : forall h i, (i < p)%nat -> E h (pi i) = Cconj (E h i).
Hypothesis E_plus : forall h k i, E (h + k) i = E h i * E k i.
Hypothesis E_0 : forall i, E 0 i = 1.

Definition bform (x : nat -> C) (M : nat -> nat -> C) (y : nat -> C) : C :=
  Csum (fun i => Csum (fun j => x i * M i j * Cconj (y j)) p) p.
Definition Qm (h : R) (i j : nat) : C := V i j - E h i * Cconj (E h j) * V i j.
Hypothesis V_psd : forall x, (0 <= fst (bform x V x))%R.
Hypothesis Q_psd : forall x h, (0 <= h)%R -> (0 <= fst (bform x (Qm h) x))%R.
Hypothesis Qb_pos : forall h, (0 < h)%R -> (0 < fst (bform b (Qm h) b))%R.
Hypothesis Vb_pos : (0 < fst (bform b V b))%R.

Definition dotv (x v : nat -> C) : C := Csum (fun i => x i * v i) p.
Definition mulb (M : nat -> nat -> C) (i : nat) : C := Csum (fun j => M i j * Cconj (b j)) p.
Definition uu : nat -> C := mulb V.
Definition cc (h : R) (i : nat) : C := E h i * uu i.
Definition acv (h : R) : R := fst (dotv b (cc h)).
Definition cs (v : nat -> C) : Prop := forall i, (i < p)%nat -> v (pi i) = Cconj (v i).

Lemma reindex f : Csum (fun k => f (pi k)) p = Csum f p.
Proof.
  apply Csum_bij; [exact Hpi|]. intros x y Hx Hy E0. rewrite <- (Hpp x Hx), <- (Hpp y Hy), E0. reflexivity.
Qed.
Lemma dotv_ext x x' v v' : (forall i, (i < p)%nat -> x i = x' i) -> (forall i, (i < p)%nat -> v i = v' i) -> dotv x v = dotv x' v'.
Proof. intros H1 H2. unfold dotv. apply Csum_ext. intros i Hi. rewrite H1, H2 by exact Hi. reflexivity. Qed.
Lemma dotv_real v : cs v -> dotv b v = RtoC (fst (dotv b v)).
Proof.
  intros Hv. assert (Cconj (dotv b v) = dotv b v) as H.
  { unfold dotv. rewrite conj_sum. symmetry. rewrite <- reindex. apply Csum_ext. intros i Hi.
    rewrite Hv, b_conj, conj_mult by exact Hi. reflexivity. }
  apply C_eq; simpl; [reflexivity|]. apply real_of_conj, H.
Qed.
Lemma dotv_sum x (f : nat -> nat -> C) m : dotv x (fun a => Csum (fun k => f k a) m) = Csum (fun k => dotv x (f k)) m.
Proof.
  unfold dotv. rewrite Csum_swap. apply Csum_ext. intros i _. rewrite <- Csum_scal. reflexivity.
Qed.
Lemma mulb_cs M : (forall i j, (i < p)%nat -> (j < p)%nat -> M (pi i) (pi j) = Cconj (M i j)) -> cs (mulb M).
Proof.
  intros HM i Hi. unfold mulb. rewrite conj_sum, <- reindex. apply Csum_ext. intros j Hj.
  rewrite HM, b_conj, conj_mult by assumption. reflexivity.
Qed.
Lemma bform_dot x M : bform x M b = dotv x (mulb M).
Proof. unfold bform, dotv, mulb. apply Csum_ext. intros i Hi. rewrite <- Csum_scal. apply Csum_ext. intros; ring. Qed.
Lemma cc_cs h : cs (cc h).
Proof. intros i Hi. unfold cc. rewrite E_conj by exact Hi. unfold uu. rewrite (mulb_cs V V_conj i Hi), conj_mult. reflexivity. Qed.
Lemma cc_plus h k i : cc (h + k) i = E h i * cc k i.
Proof. unfold cc. rewrite E_plus. ring. Qed.
Lemma cc_0 i : cc 0 i = uu i.
Proof. unfold cc. rewrite E_0. ring. Qed.
Lemma acv_C h : dotv b (cc h) = RtoC (acv h).
Proof. apply dotv_real, cc_cs. Qed.
Lemma acv_0 : acv 0 = fst (bform b V b).
Proof. unfold acv. rewrite bform_dot. f_equal. apply dotv_ext; [reflexivity|]. intros i _. apply cc_0. Qed.

Lemma bform_herm x y : bform y V x = Cconj (bform x V y).
Proof.
  unfold bform. rewrite conj_sum. rewrite Csum_swap. apply Csum_ext. intros i _. rewrite conj_sum. apply Csum_ext. intros j _.
  rewrite !conj_mult, conj_conj, <- V_herm. ring.
Qed.
Lemma bform_plus_l x x' M y : bform (fun i => x i + x' i) M y = bform x M y + bform x' M y.
Proof.
  unfold bform. rewrite <- Csum_plus. apply Csum_ext. intros i _. rewrite <- Csum_plus. apply Csum_ext. intros; ring.
Qed.
Lemma bform_plus_r x M y y' : bform x M (fun i => y i + y' i) = bform x M y + bform x M y'.
Proof.
  unfold bform. rewrite <- Csum_plus. apply Csum_ext. intros i _. rewrite <- Csum_plus. apply Csum_ext. intros. rewrite conj_plus. ring.
Qed.
Lemma bform_scal_l r x M y : bform (fun i => r * x i) M y = r * bform x M y.
Proof.
  unfold bform. rewrite <- Csum_scal. apply Csum_ext. intros i _. rewrite <- Csum_scal. apply Csum_ext. intros; ring.
Qed.
Lemma bform_scal_r r x M y : bform x M (fun i => RtoC r * y i) = RtoC r * bform x M y.
Proof.
  unfold bform. rewrite <- Csum_scal. apply Csum_ext. intros i _. rewrite <- Csum_scal. apply Csum_ext. intros.
  rewrite conj_mult, conj_R. ring.
Qed.
Lemma bform_Q x h : bform x (Qm h) x = bform x V x - bform (fun i => x i * E h i) V (fun i => x i * E h i).
Proof.
  unfold bform. rewrite <- Csum_minus. apply Csum_ext. intros i _. rewrite <- Csum_minus. apply Csum_ext. intros j _.
  unfold Qm. rewrite conj_mult. ring.
Qed.

(** ** The data *)
Section Data.
Variables (t e : nat -> R) (n : nat).
Hypothesis Hle : forall i j, (i <= j)%nat -> (j < n)%nat -> (t i <= t j)%R.
Hypothesis Htie : forall i, (S i < n)%nat -> t i = t (S i) -> e (S i) <> 0%R.
Definition Kc (s r : R) : R := acv (Rabs (s - r)).
Let K := obs_cov Kc t e.

Lemma Kc_sym s r : Kc s r = Kc r s.
Proof. unfold Kc. rewrite Rabs_minus_sym. reflexivity. Qed.
Lemma K_sym i j : K i j = K j i.
Proof.
  unfold K, obs_cov. rewrite Kc_sym. f_equal. destruct (Nat.eqb_spec i j) as [->|H].
  - rewrite Nat.eqb_refl. reflexivity.
  - destruct (Nat.eqb_spec j i); [congruence|reflexivity].
Qed.
Lemma K_off i j : (j < i)%nat -> (i < n)%nat -> K i j = acv (t i - t j).
Proof.
  intros H Hi. unfold K, obs_cov, Kc. destruct (Nat.eqb_spec i j); [lia|]. rewrite Rplus_0_r, Rabs_pos_eq; [reflexivity|].
  pose proof (Hle j i ltac:(lia) Hi). lra.
Qed.
Lemma K_diag i : K i i = (acv 0 + e i * e i)%R.
Proof. unfold K, obs_cov, Kc. rewrite Nat.eqb_refl. replace (t i - t i)%R with 0%R by ring. rewrite Rabs_R0. reflexivity. Qed.

(** variance of sum_k a_k y_k + x . state(s) *)
Definition Qf (m : nat) (a : nat -> R) (x : nat -> C) (s : R) : R :=
  (quad m K a + 2 * Rsum (fun k => a k * fst (dotv x (cc (s - t k)))) m + fst (bform x V x))%R.

Lemma Qf_step m a x s : (m < n)%nat -> (t m <= s)%R ->
  Qf (S m) a x s = (Qf m a (fun i => RtoC (a m) * b i + x i * E (s - t m) i)%C (t m) + fst (bform x (Qm (s - t m)) x)
                    + a m * a m * (e m * e m))%R.
Proof.
  intros Hm Hs. unfold Qf. rewrite (quad_S m K a K_sym).
  set (y := fun i => x i * E (s - t m) i). set (x' := fun i => RtoC (a m) * b i + y i).
  change (fun i => RtoC (a m) * b i + x i * E (s - t m) i) with x'.
  rewrite Rsum_S.
  assert (forall k, (k < m)%nat -> fst (dotv x' (cc (t m - t k))) = (a m * acv (t m - t k) + fst (dotv x (cc (s - t k))))%R) as E1.
  { intros k Hk. transitivity (fst (RtoC (a m) * dotv b (cc (t m - t k)) + dotv x (cc (s - t k)))).
    - f_equal. unfold dotv. rewrite <- Csum_scal, <- Csum_plus. apply Csum_ext. intros i _. unfold x', y.
      replace (s - t k)%R with ((s - t m) + (t m - t k))%R by ring. rewrite cc_plus. ring.
    - rewrite acv_C. simpl. ring. }
  rewrite (Rsum_ext (fun k => (a k * fst (dotv x' (cc (t m - t k))))%R) (fun k => (a m * (K m k * a k) + a k * fst (dotv x (cc (s - t k))))%R)).
  2:{ intros k Hk. rewrite E1 by exact Hk. rewrite K_off by assumption. ring. }
  rewrite Rsum_plus, Rsum_scal.
  assert (fst (dotv x (cc (s - t m))) = fst (bform y V b)) as E2.
  { rewrite bform_dot. f_equal. unfold dotv. apply Csum_ext. intros i _. unfold y, cc, uu. ring. }
  assert (fst (bform x' V x') = (a m * a m * acv 0 + 2 * a m * fst (bform y V b) + fst (bform y V y))%R) as E3.
  { unfold x'. rewrite bform_plus_l, !bform_plus_r, !bform_scal_l, !bform_scal_r.
    rewrite (bform_herm y b). rewrite acv_0. destruct (bform b V b), (bform y V b), (bform y V y). simpl. ring. }
  rewrite E3, E2, bform_Q, K_diag. fold y. destruct (bform x V x), (bform y V y). simpl. ring.
Qed.

Lemma Qf_pos m : (m <= n)%nat -> forall a x s, (forall k, (k < m)%nat -> (t k <= s)%R) -> (0 <= Qf m a x s)%R.
Proof.
  induction m as [|m IH]; intros Hm a x s Hs.
  - unfold Qf, quad. simpl. pose proof (V_psd x). lra.
  - rewrite Qf_step; [|lia|apply Hs; lia].
    pose proof (IH ltac:(lia) a (fun i => RtoC (a m) * b i + x i * E (s - t m) i)%C (t m)) as H.
    assert (forall k, (k < m)%nat -> (t k <= t m)%R) as Hk by (intros; apply Hle; lia). specialize (H Hk).
    pose proof (Q_psd x (s - t m)) as HQ. pose proof (Hs m ltac:(lia)). specialize (HQ ltac:(lra)).
    assert (0 <= a m * a m * (e m * e m))%R by (apply Rmult_le_pos; apply Rle_0_sqr). lra.
Qed.

Lemma Qf_0 m a s : Qf m a (fun _ => 0) s = quad m K a.
Proof.
  unfold Qf. assert (forall h, dotv (fun _ => 0) (cc h) = 0) as E1 by (intros h; unfold dotv; apply Csum_0; intros; ring).
  rewrite (Rsum_0 (fun k => (a k * fst (dotv (fun _ => 0%R) (cc (s - t k))))%R)) by (intros k _; rewrite E1; simpl; ring).
  assert (bform (fun _ => 0) V (fun _ => 0) = 0) as E2 by (unfold bform; apply Csum_0; intros; apply Csum_0; intros; ring).
  rewrite E2. simpl. ring.
Qed.

Lemma quad_zero m : (m <= n)%nat -> forall a, quad m K a = 0%R -> forall k, (k < m)%nat -> a k = 0%R.
Proof.
  induction m as [|m IH]; intros Hm a Hq k Hk; [lia|].
  assert (forall i, (i < m)%nat -> (t i <= t m)%R) as Htm by (intros; apply Hle; lia).
  rewrite <- (Qf_0 (S m) a (t m)) in Hq. rewrite Qf_step in Hq by (lia || lra).
  pose proof (Qf_pos m ltac:(lia) a (fun i => RtoC (a m) * b i + 0 * E (t m - t m) i)%C (t m) Htm) as H1.
  pose proof (Q_psd (fun _ => 0) (t m - t m)%R ltac:(lra)) as H2.
  assert (0 <= a m * a m * (e m * e m))%R as H3 by (apply Rmult_le_pos; apply Rle_0_sqr).
  assert (Qf m a (fun i => RtoC (a m) * b i + 0 * E (t m - t m) i)%C (t m) = 0%R) as Z1 by lra.
  assert (a m * a m * (e m * e m) = 0)%R as Z3 by lra.
  assert (a m = 0%R) as Ham.
  { destruct (Req_dec (a m) 0) as [|Hne]; [assumption|exfalso].
    assert (0 < a m * a m)%R as Haa by nra.
    assert (e m * e m = 0)%R as Ze by (apply Rmult_integral in Z3; destruct Z3; [lra|assumption]).
    assert (e m = 0%R) as Zem by (apply Rmult_integral in Ze; tauto).
    assert (forall x, (forall i, x i = RtoC (a m) * b i) -> bform x V x = RtoC (a m * a m) * bform b V b) as HV.
    { intros x Hx. unfold bform. rewrite <- Csum_scal. apply Csum_ext. intros i _. rewrite <- Csum_scal. apply Csum_ext. intros j _.
      rewrite !Hx, conj_mult, conj_R, RtoC_mult. ring. }
    destruct m as [|q].
    - unfold Qf, quad in Z1. cbn [Rsum] in Z1. rewrite (HV (fun i => RtoC (a 0%nat) * b i + 0 * E (t 0%nat - t 0%nat) i)) in Z1 by (intros; ring).
      assert (Rlt 0 (fst (RtoC (a 0%nat * a 0%nat) * bform b V b))) as Hpos.
      { replace (fst (RtoC (a 0%nat * a 0%nat) * bform b V b)) with (a 0%nat * a 0%nat * fst (bform b V b))%R by (simpl; ring).
        apply Rmult_lt_0_compat; [exact Haa|exact Vb_pos]. }
      lra.
    - assert (t q < t (S q))%R as Hlt.
      { destruct (Hle q (S q)) as [H|H]; [lia|lia|exact H|]. exfalso. apply (Htie q); [lia|exact H|exact Zem]. }
      rewrite Qf_step in Z1 by (lia || lra).
      set (x := fun i => RtoC (a (S q)) * b i + 0 * E (t (S q) - t (S q)) i) in *.
      match type of Z1 with (Qf q a ?x' (t q) + _ + _)%R = _ =>
        pose proof (Qf_pos q ltac:(lia) a x' (t q) ltac:(intros; apply Hle; lia)) as H4 end.
      assert (0 <= a q * a q * (e q * e q))%R as H5 by (apply Rmult_le_pos; apply Rle_0_sqr).
      assert (fst (bform x (Qm (t (S q) - t q)) x) = (a (S q) * a (S q) * fst (bform b (Qm (t (S q) - t q)) b))%R) as E6.
      { transitivity (fst (RtoC (a (S q) * a (S q)) * bform b (Qm (t (S q) - t q)) b)); [|simpl; ring]. f_equal.
        unfold bform. rewrite <- Csum_scal. apply Csum_ext. intros i _. rewrite <- Csum_scal. apply Csum_ext. intros j _.
        unfold x. replace (RtoC (a (S q)) * b j + 0 * E (t (S q) - t (S q)) j) with (RtoC (a (S q)) * b j) by ring.
        rewrite conj_mult, conj_R, RtoC_mult. ring. }
      pose proof (Qb_pos (t (S q) - t q)%R ltac:(lra)) as H6.
      assert (0 < a (S q) * a (S q) * fst (bform b (Qm (t (S q) - t q)) b))%R by (apply Rmult_lt_0_compat; assumption).
      lra. }
  destruct (Nat.eq_dec k m) as [->|Hkm]; [exact Ham|].
  apply IH; [lia| |lia]. rewrite <- (Qf_0 m a (t m)). etransitivity; [|exact Z1]. unfold Qf. rewrite Ham.
  assert (forall v, dotv (fun i => RtoC 0 * b i + 0 * E (t m - t m) i) v = dotv (fun _ => 0) v) as D
    by (intros v; apply dotv_ext; [intros; ring|reflexivity]).
  f_equal; [f_equal; f_equal; apply Rsum_ext; intros i _; rewrite D; reflexivity|].
  f_equal. unfold bform. apply Csum_ext. intros i _. apply Csum_ext. intros j _. rewrite !Cmult_0_l, !Cplus_0_l. ring.
Qed.

Lemma obs_pd m : (m <= n)%nat -> pd m K.
Proof.
  intros Hm a (k & Hk & Hne). change (0 < quad m K a)%R.
  assert (0 <= quad m K a)%R as H.
  { rewrite <- (Qf_0 m a (t (m - 1)%nat)). apply Qf_pos; [exact Hm|]. intros i Hi. apply Hle; lia. }
  destruct H as [H|H]; [exact H|]. exfalso. apply Hne. apply (quad_zero m Hm a (eq_sym H) k Hk).
Qed.

(** ** The filter *)
Definition vof (M : nat -> nat -> C) (i : nat) : R := (fst (bform b M b) + e i * e i)%R.
Definition gof (M : nat -> nat -> C) (i : nat) (a : nat) : C := mulb M a / RtoC (vof M i).
Fixpoint PV (i : nat) : nat -> nat -> C :=
  match i with
  | O => V
  | S k => let M := PV k in let v := vof M k in let g := gof M k in let r := E (t (S k) - t k) in
           fun a c => r a * Cconj (r c) * (M a c - RtoC v * (g a * Cconj (g c)) - V a c) + V a c
  end.
Definition vf (i : nat) : R := vof (PV i) i.
Definition gf (i : nat) : nat -> C := gof (PV i) i.
Fixpoint W (i : nat) : nat -> nat -> C :=
  match i with
  | O => fun _ _ => 0
  | S k => fun l a => E (t (S k) - t k) a *
             (if Nat.eqb l k then gf k a else W k l a - gf k a * RtoC (fst (dotv b (W k l))))
  end.
Fixpoint xf (y : nat -> R) (i : nat) : nat -> C :=
  match i with
  | O => fun _ => 0
  | S k => fun a => E (t (S k) - t k) a * (xf y k a + gf k a * RtoC (y k - fst (dotv b (xf y k))))
  end.

Definition Inv (i : nat) : Prop :=
  (forall k, (k < i)%nat -> cs (W i k)) /\
  (forall a c, PV i c a = Cconj (PV i a c)) /\
  (forall a c, (a < p)%nat -> (c < p)%nat -> PV i (pi a) (pi c) = Cconj (PV i a c)) /\
  (forall j a, (j < i)%nat -> (a < p)%nat -> Csum (fun l => W i l a * RtoC (K l j)) i = cc (t i - t j) a) /\
  (forall a c, (a < p)%nat -> (c < p)%nat -> PV i a c = V a c - Csum (fun k => W i k a * Cconj (cc (t i - t k) c)) i).

Definition wt (i k : nat) : R := fst (dotv b (W i k)).

(** consequences of the invariant *)
Section I.
Variable i : nat.
Hypothesis HI : Inv i.
Hypothesis Hi : (i < n)%nat.

Lemma wt_C k : (k < i)%nat -> dotv b (W i k) = RtoC (wt i k).
Proof. intros Hk. apply dotv_real. destruct HI as (H & _). apply H, Hk. Qed.

Lemma normal j : (j < i)%nat -> Rsum (fun k => (wt i k * K k j)%R) i = acv (t i - t j).
Proof.
  intros Hj. destruct HI as (H1 & H2 & H3 & H4 & H5).
  assert (Csum (fun k => dotv b (W i k) * RtoC (K k j)) i = RtoC (acv (t i - t j))) as H.
  { rewrite <- acv_C. rewrite (dotv_ext b b (cc (t i - t j)) (fun a => Csum (fun l => W i l a * RtoC (K l j)) i));
      [|reflexivity|intros a Ha; symmetry; apply H4; assumption].
    rewrite dotv_sum. apply Csum_ext. intros k _. unfold dotv. rewrite <- Csum_scal_r. apply Csum_ext. intros; ring. }
  apply (f_equal fst) in H. rewrite fst_Csum in H. simpl in H. rewrite <- H. apply Rsum_ext. intros k Hk. unfold wt. simpl. ring.
Qed.

(** (V - PV) b^H *)
Lemma mulb_PV a : (a < p)%nat -> mulb (PV i) a = uu a - Csum (fun k => W i k a * RtoC (acv (t i - t k))) i.
Proof.
  intros Ha. destruct HI as (H1 & H2 & H3 & H4 & H5). unfold uu, mulb.
  rewrite (Csum_ext _ (fun c => V a c * Cconj (b c) - Csum (fun k => W i k a * Cconj (b c * cc (t i - t k) c)) i)).
  2:{ intros c Hc. rewrite H5 by assumption. rewrite (Csum_ext (fun k => W i k a * Cconj (b c * cc (t i - t k) c)) (fun k => W i k a * Cconj (cc (t i - t k) c) * Cconj (b c))).
      - rewrite Csum_scal_r. ring.
      - intros k _. rewrite conj_mult. ring. }
  rewrite Csum_minus. f_equal. rewrite Csum_swap. apply Csum_ext. intros k Hk.
  rewrite Csum_scal, <- conj_sum. fold (dotv b (cc (t i - t k))). rewrite acv_C, conj_R. reflexivity.
Qed.

Lemma PVb : bform b (PV i) b = RtoC (acv 0 - Rsum (fun k => (wt i k * acv (t i - t k))%R) i).
Proof.
  rewrite bform_dot. rewrite (dotv_ext b b (mulb (PV i)) (fun a => uu a - Csum (fun k => W i k a * RtoC (acv (t i - t k))) i));
    [|reflexivity|intros; apply mulb_PV; assumption].
  transitivity (dotv b uu - dotv b (fun a => Csum (fun k => W i k a * RtoC (acv (t i - t k))) i)).
  { unfold dotv. rewrite <- Csum_minus. apply Csum_ext. intros; ring. }
  rewrite dotv_sum.
  rewrite (Csum_ext (fun k => dotv b (fun a => W i k a * RtoC (acv (t i - t k)))) (fun k => RtoC (wt i k * acv (t i - t k)))).
  2:{ intros k Hk. rewrite RtoC_mult, <- wt_C by exact Hk. unfold dotv. rewrite <- Csum_scal_r. apply Csum_ext. intros; ring. }
  replace (dotv b uu) with (dotv b (cc 0)) by (apply dotv_ext; [reflexivity|intros; apply cc_0]).
  rewrite acv_C, RtoC_minus. f_equal. f_equal. apply C_eq; [rewrite fst_Csum; reflexivity|]. rewrite snd_Csum. simpl.
  apply Rsum_0. reflexivity.
Qed.

Lemma blp_i y m : m = Rsum (fun k => (wt i k * y k)%R) i ->
  is_blp i K (fun j => K i j) (K i i) y m (vf i) /\
  is_blp i K (fun j => Kc (t i) (t j)) (Kc (t i) (t i)) y m (vf i - e i * e i)%R.
Proof.
  intros Em.
  assert (forall j, (j < i)%nat -> K i j = acv (t i - t j)) as Ko by (intros; apply K_off; assumption).
  assert (forall j, (j < i)%nat -> Kc (t i) (t j) = acv (t i - t j)) as Kco.
  { intros j Hj. unfold Kc. rewrite Rabs_pos_eq; [reflexivity|]. pose proof (Hle j i ltac:(lia) Hi). lra. }
  assert (Kc (t i) (t i) = acv 0) as Kd by (unfold Kc; replace (t i - t i)%R with 0%R by ring; rewrite Rabs_R0; reflexivity).
  split; exists (wt i); (split; [|split; [exact Em|]]).
  - intros j Hj. rewrite Ko by exact Hj. apply normal, Hj.
  - unfold vf, vof. rewrite PVb, K_diag. rewrite (Rsum_ext (fun k => (wt i k * K i k)%R) (fun k => (wt i k * acv (t i - t k))%R)).
    + simpl. ring.
    + intros k Hk. rewrite Ko by exact Hk. reflexivity.
  - intros j Hj. rewrite Kco by exact Hj. apply normal, Hj.
  - unfold vf, vof. rewrite PVb, Kd. rewrite (Rsum_ext (fun k => (wt i k * Kc (t i) (t k))%R) (fun k => (wt i k * acv (t i - t k))%R)).
    + simpl. ring.
    + intros k Hk. rewrite Kco by exact Hk. reflexivity.
Qed.

Lemma vf_pos : (0 < vf i)%R.
Proof.
  destruct (blp_i (fun _ => 0%R) _ eq_refl) as [H _]. apply (blp_var_pos i K _ _ _ K_sym (obs_pd (S i) Hi) H).
Qed.
End I.

Lemma Inv_0 : Inv 0.
Proof.
  split; [intros; lia|]. split; [apply V_herm|]. split; [exact V_conj|]. split; [intros; lia|].
  intros a c _ _. simpl. ring.
Qed.

Lemma Inv_S i : (S i < n)%nat -> Inv i -> Inv (S i).
Proof.
  intros Hi HI. assert (i < n)%nat as Hi' by lia. pose proof (vf_pos i HI Hi') as Hv.
  pose proof (wt_C i HI) as HwC. pose proof (mulb_PV i HI) as HmPV. pose proof (PVb i HI) as HPVb.
  pose proof (normal i HI) as Hnorm.
  pose proof HI as (H1 & H2 & H3 & H4 & H5).
  set (d := (t (S i) - t i)%R).
  assert (RtoC (vf i) <> 0) as HvC by (apply RtoC_neq0; lra).
  assert (cs (gf i)) as Hg.
  { intros a Ha. unfold gf, gof. rewrite (mulb_cs (PV i) H3 a Ha). rewrite conj_div, conj_R. reflexivity. }
  assert (forall a, gf i a * RtoC (vf i) = mulb (PV i) a) as Hgv.
  { intros a. unfold gf, gof. fold (vf i). field. exact HvC. }
  assert (forall k, (k < i)%nat -> cs (fun a => W i k a - gf i a * RtoC (wt i k))) as Hcs'.
  { intros k Hk a Ha. rewrite (H1 k Hk a Ha), (Hg a Ha), conj_minus, conj_mult, conj_R. reflexivity. }
  assert (forall j, (j <= i)%nat -> forall a, cc (t (S i) - t j) a = E d a * cc (t i - t j) a) as Hcc.
  { intros j Hj a. rewrite <- cc_plus. f_equal. unfold d. ring. }
  (* sums over the new weights *)
  assert (forall (f : nat -> C) a, Csum (fun l => W (S i) l a * f l) (S i)
     = E d a * (Csum (fun l => W i l a * f l) i - gf i a * Csum (fun l => RtoC (wt i l) * f l) i + gf i a * f i)) as HWs.
  { intros f a. rewrite Csum_S. cbn [W]. rewrite Nat.eqb_refl. fold d.
    rewrite (Csum_ext _ (fun l => E d a * (W i l a * f l - gf i a * (RtoC (wt i l) * f l)))).
    2:{ intros l Hl. destruct (Nat.eqb_spec l i); [lia|]. unfold wt. ring. }
    rewrite Csum_scal, Csum_minus, Csum_scal. ring. }
  assert (forall j, (j < i)%nat -> Csum (fun l => RtoC (wt i l) * RtoC (K l j)) i = RtoC (acv (t i - t j))) as HnC.
  { intros j Hj. rewrite <- Hnorm by exact Hj. apply C_eq; [rewrite fst_Csum|rewrite snd_Csum].
    - simpl. apply Rsum_ext. intros; simpl; ring.
    - simpl. apply Rsum_0. intros; simpl; ring. }
  assert (Csum (fun l => RtoC (wt i l) * RtoC (acv (t i - t l))) i = RtoC (acv 0 - (vf i - e i * e i))) as HwV.
  { unfold vf, vof. rewrite HPVb. apply C_eq; [rewrite fst_Csum|rewrite snd_Csum].
    - simpl. transitivity (Rsum (fun k => (wt i k * acv (t i - t k))%R) i); [apply Rsum_ext; intros; simpl; ring|simpl; ring].
    - simpl. apply Rsum_0. intros; simpl; ring. }
  split; [|split; [|split; [|split]]].
  - intros k Hk a Ha. cbn [W]. fold d. rewrite E_conj, conj_mult by exact Ha. f_equal.
    destruct (Nat.eqb_spec k i) as [->|Hne]; [apply Hg, Ha|]. apply (Hcs' k ltac:(lia) a Ha).
  - intros a c. cbn [PV]. fold (vf i). fold (gf i). fold d.
    rewrite conj_plus, !conj_mult, !conj_minus, !conj_mult, !conj_conj, conj_R, <- V_herm, <- H2. ring.
  - intros a c Ha Hc. cbn [PV]. fold (vf i). fold (gf i). fold d.
    rewrite !E_conj, H3, V_conj, !Hg by assumption.
    rewrite conj_plus, !conj_mult, !conj_minus, !conj_mult, !conj_conj, conj_R. ring.
  - intros j a Hj Ha. rewrite HWs, Hcc by lia. f_equal. destruct (Nat.eq_dec j i) as [->|Hne].
    + rewrite (Csum_ext (fun l => W i l a * RtoC (K l i)) (fun l => W i l a * RtoC (acv (t i - t l)))).
      2:{ intros l Hl. rewrite K_sym, K_off by assumption. reflexivity. }
      rewrite (Csum_ext (fun l => RtoC (wt i l) * RtoC (K l i)) (fun l => RtoC (wt i l) * RtoC (acv (t i - t l)))).
      2:{ intros l Hl. rewrite K_sym, K_off by assumption. reflexivity. }
      rewrite HwV, K_diag. replace (t i - t i)%R with 0%R by ring. rewrite cc_0.
      pose proof (HmPV a Ha) as Em. rewrite <- Hgv in Em.
      set (S1 := Csum (fun l => W i l a * RtoC (acv (t i - t l))) i) in *.
      assert (S1 = uu a - gf i a * RtoC (vf i)) as ES1 by (rewrite Em; ring). rewrite ES1.
      rewrite !RtoC_minus, !RtoC_plus. ring.
    + rewrite H4 by (assumption || lia). rewrite HnC by lia. rewrite K_off by lia. ring.
  - intros a c Ha Hc. cbn [PV]. fold (vf i). fold (gf i). fold d.
    rewrite HWs. 
    rewrite (Csum_ext (fun l => W i l a * Cconj (cc (t (S i) - t l) c)) (fun l => Cconj (E d c) * (W i l a * Cconj (cc (t i - t l) c)))).
    2:{ intros l Hl. rewrite Hcc, conj_mult by lia. ring. }
    rewrite Csum_scal.
    rewrite (Csum_ext (fun l => RtoC (wt i l) * Cconj (cc (t (S i) - t l) c)) (fun l => Cconj (E d c) * (RtoC (wt i l) * Cconj (cc (t i - t l) c)))).
    2:{ intros l Hl. rewrite Hcc, conj_mult by lia. ring. }
    rewrite Csum_scal, Hcc, conj_mult by lia. replace (t i - t i)%R with 0%R by ring. rewrite cc_0.
    assert (Csum (fun l => RtoC (wt i l) * Cconj (cc (t i - t l) c)) i = Cconj (uu c) - RtoC (vf i) * Cconj (gf i c)) as Ewc.
    { transitivity (dotv b (fun a => V a c - PV i a c)).
      - rewrite (dotv_ext b b (fun a => V a c - PV i a c) (fun a => Csum (fun k => W i k a * Cconj (cc (t i - t k) c)) i)).
        + rewrite dotv_sum. apply Csum_ext. intros k Hk. rewrite <- HwC by exact Hk. unfold dotv. rewrite <- Csum_scal_r. apply Csum_ext. intros; ring.
        + reflexivity.
        + intros a' Ha'. rewrite H5 by assumption. ring.
      - transitivity (dotv b (fun a => V a c) - dotv b (fun a => PV i a c)).
        + unfold dotv. rewrite <- Csum_minus. apply Csum_ext. intros; ring.
        + f_equal.
          * unfold uu, mulb. rewrite conj_sum. unfold dotv. apply Csum_ext. intros k Hk. rewrite conj_mult, conj_conj, <- V_herm. ring.
          * transitivity (Cconj (gf i c * RtoC (vf i))); [|rewrite conj_mult, conj_R; ring].
            rewrite Hgv. unfold mulb. rewrite conj_sum. unfold dotv. apply Csum_ext. intros k Hk. rewrite conj_mult, conj_conj, <- H2. ring. }
    rewrite Ewc.
    set (S2 := Csum _ i). assert (S2 = V a c - PV i a c) as ES2 by (rewrite (H5 a c Ha Hc); unfold S2; ring).
    rewrite ES2. ring.
Qed.

Lemma Inv_all i : (i < n)%nat -> Inv i.
Proof. induction i as [|i IH]; intros Hi; [apply Inv_0|]. apply Inv_S; [exact Hi|]. apply IH. lia. Qed.

Lemma xf_W y i a : (a < p)%nat -> xf y i a = Csum (fun k => W i k a * RtoC (y k)) i.
Proof.
  revert a; induction i as [|i IH]; intros a Ha; [reflexivity|]. cbn [xf]. rewrite Csum_S. cbn [W]. rewrite Nat.eqb_refl.
  set (d := (t (S i) - t i)%R).
  assert (fst (dotv b (xf y i)) = Rsum (fun k => (wt i k * y k)%R) i) as Em.
  { rewrite (dotv_ext b b (xf y i) (fun a => Csum (fun k => W i k a * RtoC (y k)) i)); [|reflexivity|intros; apply IH; assumption].
    rewrite dotv_sum, fst_Csum. apply Rsum_ext. intros k Hk. unfold wt.
    transitivity (fst (dotv b (W i k) * RtoC (y k))); [|simpl; ring]. f_equal. unfold dotv. rewrite <- Csum_scal_r. apply Csum_ext. intros; ring. }
  rewrite Em, IH by exact Ha.
  rewrite (Csum_ext (fun k => E d a * (if Nat.eqb k i then gf i a else W i k a - gf i a * RtoC (fst (dotv b (W i k)))) * RtoC (y k))
            (fun k => E d a * (W i k a * RtoC (y k) - gf i a * RtoC (wt i k * y k)))).
  2:{ intros k Hk. destruct (Nat.eqb_spec k i); [lia|]. rewrite RtoC_mult. unfold wt. ring. }
  rewrite Csum_scal, Csum_minus, Csum_scal.
  replace (Csum (fun k => RtoC (wt i k * y k)) i) with (RtoC (Rsum (fun k => (wt i k * y k)%R) i)).
  - rewrite RtoC_minus. ring.
  - apply C_eq; [rewrite fst_Csum; reflexivity|]. rewrite snd_Csum. symmetry. apply Rsum_0. reflexivity.
Qed.

Lemma mean_wt y i : fst (dotv b (xf y i)) = Rsum (fun k => (wt i k * y k)%R) i.
Proof.
  rewrite (dotv_ext b b (xf y i) (fun a => Csum (fun k => W i k a * RtoC (y k)) i)); [|reflexivity|intros; apply xf_W; assumption].
  rewrite dotv_sum, fst_Csum. apply Rsum_ext. intros k Hk. unfold wt.
  transitivity (fst (dotv b (W i k) * RtoC (y k))); [|simpl; ring]. f_equal. unfold dotv. rewrite <- Csum_scal_r. apply Csum_ext. intros; ring.
Qed.

(** exactness of the filter *)
Lemma filter_exact y i : (i < n)%nat ->
  is_blp i K (fun j => K i j) (K i i) y (fst (dotv b (xf y i))) (vf i) /\
  is_blp i K (fun j => Kc (t i) (t j)) (Kc (t i) (t i)) y (fst (dotv b (xf y i))) (vf i - e i * e i)%R /\ (0 < vf i)%R.
Proof.
  intros Hi. pose proof (Inv_all i Hi) as HI. destruct (blp_i i HI Hi y _ (mean_wt y i)) as [H1 H2].
  split; [exact H1|]. split; [exact H2|]. apply vf_pos; assumption.
Qed.
End Data.

(** ** Prediction at an arbitrary time: the filter on the data with a noise-free pseudo-observation at tp *)
Section Pred.
Variables (t e y : nat -> R) (n ip : nat) (tp : R).
Hypothesis Hle : forall i j, (i <= j)%nat -> (j < n)%nat -> (t i <= t j)%R.
Hypothesis Htie : forall i, (S i < n)%nat -> t i = t (S i) -> e (S i) <> 0%R.
Hypothesis Hip : (ip <= n)%nat.
Hypothesis Hbef : forall k, (k < ip)%nat -> (t k < tp)%R.
Hypothesis Haft : forall k, (ip <= k)%nat -> (k < n)%nat -> (tp <= t k)%R.
Hypothesis Hok : (ip < n)%nat -> t ip = tp -> e ip <> 0%R.

Definition insf (f : nat -> R) (x : R) (k : nat) : R := if Nat.ltb k ip then f k else if Nat.eqb k ip then x else f (k - 1)%nat.
Definition skip (l : nat) : nat := if Nat.ltb l ip then l else S l.
Let t' := insf t tp.
Let e' := insf e 0%R.
Let K := obs_cov Kc t e.
Let K' := obs_cov Kc t' e'.

Lemma insf_skip f x l : insf f x (skip l) = f l.
Proof. clear Hle Htie Hip Hbef Haft Hok.
  unfold insf, skip. destruct (Nat.ltb_spec l ip) as [H|H].
  - destruct (Nat.ltb_spec l ip); [reflexivity|lia].
  - destruct (Nat.ltb_spec (S l) ip); [lia|]. destruct (Nat.eqb_spec (S l) ip); [lia|]. f_equal. lia.
Qed.
Lemma insf_ip f x : insf f x ip = x.
Proof. unfold insf. rewrite Nat.ltb_irrefl, Nat.eqb_refl. reflexivity. Qed.
Lemma insf_lt f x k : (k < ip)%nat -> insf f x k = f k.
Proof. clear Hle Htie Hip Hbef Haft Hok. intros H. unfold insf. destruct (Nat.ltb_spec k ip); [reflexivity|lia]. Qed.
Lemma insf_gt f x k : (ip < k)%nat -> insf f x k = f (k - 1)%nat.
Proof. clear Hle Htie Hip Hbef Haft Hok. intros H. unfold insf. destruct (Nat.ltb_spec k ip); [lia|]. destruct (Nat.eqb_spec k ip); [lia|reflexivity]. Qed.
Lemma insf_S f x k : (ip <= k)%nat -> insf f x (S k) = f k.
Proof. clear Hle Htie Hip Hbef Haft Hok. intros H. rewrite insf_gt by lia. f_equal. lia. Qed.

Lemma le' i j : (i <= j)%nat -> (j < S n)%nat -> (t' i <= t' j)%R.
Proof.
  intros Hij Hj. unfold t'. destruct (lt_eq_lt_dec j ip) as [[Hj1|Hj1]|Hj1].
  - rewrite !insf_lt by lia. apply Hle; lia.
  - subst j. rewrite insf_ip. destruct (Nat.eq_dec i ip) as [->|]; [rewrite insf_ip; lra|].
    rewrite insf_lt by lia. left. apply Hbef. lia.
  - rewrite (insf_gt t tp j Hj1). destruct (lt_eq_lt_dec i ip) as [[Hi1|Hi1]|Hi1].
    + rewrite insf_lt by lia. apply Hle; lia.
    + subst i. rewrite insf_ip. apply Haft; lia.
    + rewrite insf_gt by lia. apply Hle; lia.
Qed.
Lemma tie' i : (S i < S n)%nat -> t' i = t' (S i) -> e' (S i) <> 0%R.
Proof.
  unfold t', e'. intros Hi. destruct (lt_eq_lt_dec (S i) ip) as [[Hj1|Hj1]|Hj1].
  - rewrite !insf_lt by lia. apply Htie. lia.
  - rewrite Hj1, insf_ip, insf_lt by lia. intros E1. exfalso. pose proof (Hbef i ltac:(lia)). lra.
  - rewrite !(insf_gt _ _ (S i)) by lia. replace (S i - 1)%nat with i by lia.
    destruct (Nat.eq_dec i ip) as [->|Hne].
    + rewrite insf_ip. intros E1. apply Hok; [lia|congruence].
    + rewrite insf_gt by lia. intros E1. destruct i as [|i]; [lia|]. replace (S i - 1)%nat with i in E1 by lia. apply Htie; [lia|exact E1].
Qed.

Lemma skip_eqb l j : Nat.eqb (skip l) (skip j) = Nat.eqb l j.
Proof.
  destruct (Nat.eqb_spec l j) as [->|Hne]; [apply Nat.eqb_refl|]. apply Nat.eqb_neq. unfold skip.
  destruct (Nat.ltb_spec l ip), (Nat.ltb_spec j ip); lia.
Qed.
Lemma K'_skip l j : K' (skip l) (skip j) = K l j.
Proof. unfold K', K, obs_cov, t', e'. rewrite !insf_skip, skip_eqb. reflexivity. Qed.
Lemma skip_ip l : Nat.eqb (skip l) ip = false.
Proof. apply Nat.eqb_neq. unfold skip. destruct (Nat.ltb_spec l ip); lia. Qed.
Lemma K'_ip l : K' (skip l) ip = Kc tp (t l).
Proof. unfold K', obs_cov, t', e'. rewrite skip_ip, insf_skip, insf_ip, Kc_sym. ring. Qed.
Lemma K'_ip2 : K' ip ip = Kc tp tp.
Proof. unfold K', obs_cov, t', e'. rewrite Nat.eqb_refl, !insf_ip. ring. Qed.
Lemma K'_sym i j : K' i j = K' j i.
Proof. apply K_sym. Qed.

Lemma Rsum_skip f m : (ip <= m)%nat -> Rsum f (S m) = (Rsum (fun l => f (skip l)) m + f ip)%R.
Proof.
  intros Hm. induction m as [|m IH].
  - assert (ip = O) as -> by lia. simpl. ring.
  - destruct (Nat.eq_dec ip (S m)) as [Hi|Hne].
    + rewrite <- Hi. rewrite (Rsum_S f ip). f_equal. apply Rsum_ext. intros k Hk. f_equal. unfold skip.
      destruct (Nat.ltb_spec k ip); [reflexivity|lia].
    + rewrite (Rsum_S f (S m)), IH by lia. rewrite (Rsum_S _ m).
      replace (skip m) with (S m); [ring|]. unfold skip. destruct (Nat.ltb_spec m ip); [lia|reflexivity].
Qed.
Lemma Csum_skip f m : (ip <= m)%nat -> Csum f (S m) = Csum (fun l => f (skip l)) m + f ip.
Proof.
  intros Hm. apply C_eq; [rewrite fst_Csum, (Rsum_skip _ m Hm)|rewrite snd_Csum, (Rsum_skip _ m Hm)]; simpl;
    rewrite ?fst_Csum, ?snd_Csum; reflexivity.
Qed.

Definition yx (x : R) := insf y x.
Definition m0 : R := fst (dotv b (xf t' e' (yx 0) ip)).
Definition v0 : R := fst (bform b (PV t' e' ip) b).
Lemma v0_vf : v0 = vf t' e' ip.
Proof. unfold v0, vf, vof, e'. rewrite insf_ip. ring. Qed.

Lemma forecast_exact : is_blp ip K (fun j => Kc tp (t j)) (Kc tp tp) y m0 v0 /\ (0 < v0)%R.
Proof.
  destruct (filter_exact t' e' (S n) le' tie' (yx 0) ip ltac:(lia)) as (H & _ & Hv). rewrite <- v0_vf in Hv.
  split; [|exact Hv]. rewrite v0_vf. destruct H as (w & W1 & W2 & W3). fold K' in W1. fold K' in W3. exists w.
  assert (forall l, (l < ip)%nat -> skip l = l) as Hsk by (intros l Hl; unfold skip; destruct (Nat.ltb_spec l ip); [reflexivity|lia]).
  split; [|split].
  - intros j Hj. rewrite <- (K'_ip j), Hsk, K'_sym by exact Hj. rewrite <- W1 by exact Hj. apply Rsum_ext. intros k Hk.
    rewrite <- (K'_skip k j), !Hsk by assumption. reflexivity.
  - unfold m0. rewrite W2. apply Rsum_ext. intros k Hk. unfold yx. rewrite insf_lt by exact Hk. reflexivity.
  - rewrite W3, K'_ip2. f_equal. apply Rsum_ext. intros k Hk. rewrite <- (K'_ip k), Hsk, (K'_sym k) by exact Hk. reflexivity.
Qed.

Definition cst (i : nat) : R := Rsum (fun l => (wt t' e' (S i) (skip l) * y l)%R) i.
Definition slp (i : nat) : R := wt t' e' (S i) ip.
Definition cvr (i : nat) : R := vf t' e' (S i).

Lemma cvr_pos i : (i < n)%nat -> (0 < cvr i)%R.
Proof. intros Hi. destruct (filter_exact t' e' (S n) le' tie' (yx 0) (S i) ltac:(lia)) as (_ & _ & H). exact H. Qed.

Lemma regression i : (ip <= i)%nat -> (i < n)%nat ->
  (forall j, (j < i)%nat -> (Rsum (fun l => wt t' e' (S i) (skip l) * K l j) i + slp i * Kc tp (t j) = K i j)%R) /\
  (Rsum (fun l => wt t' e' (S i) (skip l) * Kc tp (t l)) i + slp i * Kc tp tp = Kc tp (t i))%R /\
  cvr i = (K i i - Rsum (fun l => wt t' e' (S i) (skip l) * K l i) i - slp i * Kc tp (t i))%R.
Proof.
  intros H1 H2. assert (S i < S n)%nat as Hi by lia.
  pose proof (Inv_all t' e' (S n) le' tie' (S i) Hi) as HI.
  pose proof (normal t' e' (S i) HI) as HN. fold K' in HN.
  assert (skip i = S i) as Esk by (unfold skip; destruct (Nat.ltb_spec i ip); [lia|reflexivity]).
  assert (forall j, K' (S i) (skip j) = K i j) as EKs by (intros j; rewrite <- Esk; apply K'_skip).
  assert (K' (S i) ip = Kc tp (t i)) as EKi by (rewrite <- Esk; apply K'_ip).
  assert (forall a c, K a c = K c a) as K_sym' by (intros; apply K_sym).
  assert (forall j, (j < S i)%nat -> acv (t' (S i) - t' j) = K' (S i) j) as Hac.
  { intros j Hj. symmetry. apply (K_off t' e' (S n) le'); assumption. }
  split; [|split].
  - intros j Hj. assert (skip j < S i)%nat as Hsj by (unfold skip; destruct (Nat.ltb_spec j ip); lia).
    pose proof (HN _ Hsj) as HNj. rewrite Hac in HNj by exact Hsj. rewrite Rsum_skip in HNj by exact H1.
    rewrite EKs in HNj. rewrite <- HNj. rewrite (K'_sym ip), K'_ip. f_equal.
    apply Rsum_ext. intros l Hl. rewrite K'_skip. reflexivity.
  - pose proof (HN ip ltac:(lia)) as HNj. rewrite Hac in HNj by lia. rewrite Rsum_skip in HNj by exact H1.
    rewrite EKi, K'_ip2 in HNj. rewrite <- HNj. f_equal. apply Rsum_ext. intros l Hl. rewrite K'_ip. reflexivity.
  - destruct (blp_i t' e' (S n) le' (S i) HI Hi (fun _ => 0%R) _ eq_refl) as [_ _].
    unfold cvr, vf, vof. rewrite (PVb t' e' (S i) HI). cbn [fst RtoC].
    rewrite Rsum_skip by exact H1. rewrite !Hac by lia.
    rewrite (Rsum_ext (fun l => (wt t' e' (S i) (skip l) * acv (t' (S i) - t' (skip l)))%R) (fun l => (wt t' e' (S i) (skip l) * K l i)%R)).
    2:{ intros l Hl. assert (skip l < S i)%nat as Hsl by (unfold skip; destruct (Nat.ltb_spec l ip); lia). rewrite Hac by exact Hsl.
        rewrite EKs, (K_sym' i l). reflexivity. }
    rewrite EKi. fold (slp i).
    assert (K i i = (acv 0 + e' (S i) * e' (S i))%R) as ->.
    { unfold e'. rewrite insf_S by exact H1. apply K_diag. }
    ring.
Qed.

Fixpoint accR (k : nat) : R * R :=
  match k with
  | O => (m0 * (1 / v0), 1 / v0)%R
  | S j => let i := (ip + j)%nat in
           (fst (accR j) + slp i * (y i - cst i) / cvr i, snd (accR j) + slp i * slp i / cvr i)%R
  end.

Lemma acc_exact k : (ip + k <= n)%nat ->
  (1 / v0 <= snd (accR k))%R /\
  is_blp (ip + k) K (fun j => Kc tp (t j)) (Kc tp tp) y (fst (accR k) / snd (accR k)) (1 / snd (accR k)).
Proof.
  destruct forecast_exact as [Hb0 Hv0].
  assert (0 < 1 / v0)%R as Hi0 by (apply Rdiv_lt_0_compat; lra).
  induction k as [|k IH]; intros Hk.
  - cbn [accR fst snd]. split; [lra|]. rewrite Nat.add_0_r.
    replace (m0 * (1 / v0) / (1 / v0))%R with m0 by (field; lra).
    replace (1 / (1 / v0))%R with v0 by (field; lra). exact Hb0.
  - destruct IH as [Hpp0 Hb]; [lia|]. set (i := (ip + k)%nat) in *.
    destruct (regression i ltac:(lia) ltac:(lia)) as (B1 & B2 & B3).
    pose proof (cvr_pos i ltac:(lia)) as Hcv.
    cbn [accR]. fold i. cbn [fst snd]. set (mm := fst (accR k)) in *. set (pp := snd (accR k)) in *.
    assert (0 <= slp i * slp i / cvr i)%R as Hge.
    { apply Rmult_le_pos; [apply Rle_0_sqr|]. left. apply Rinv_0_lt_compat, Hcv. }
    split; [lra|]. replace (ip + S k)%nat with (S i) by (unfold i; lia).
    assert (0 < pp)%R as Hp0 by lra.
    assert (0 < 1 / pp)%R as Hip0 by (apply Rdiv_lt_0_compat; lra).
    pose proof (absorb_lemma i K (fun j => Kc tp (t j)) (Kc tp tp) y (mm / pp) (1 / pp)
       (fun l => wt t' e' (S i) (skip l)) (slp i) (cst i) (cvr i) (K_sym t e) Hb B1 B2 B3 eq_refl) as H.
    assert (mm / pp / (1 / pp) = mm)%R as Em by (field; lra).
    assert (1 / (1 / pp) = pp)%R as Ep by (field; lra).
    rewrite Em, Ep in H. apply H; try lra.
    assert (0 <= slp i * slp i * (1 / pp))%R by (apply Rmult_le_pos; [apply Rle_0_sqr|lra]). lra.
Qed.

Lemma pred_exact : let m := fst (accR (n - ip)) in let q := snd (accR (n - ip)) in
  (0 < q)%R /\ (1 / q <= v0)%R /\ is_blp n K (fun j => Kc tp (t j)) (Kc tp tp) y (m * (1 / q)) (1 / q).
Proof.
  cbv zeta. destruct (acc_exact (n - ip)) as [H1 H2]; [lia|]. destruct forecast_exact as [_ Hv0].
  assert (0 < 1 / v0)%R as Hi0 by (apply Rdiv_lt_0_compat; lra).
  set (q := snd (accR (n - ip))) in *. set (m := fst (accR (n - ip))) in *.
  assert (0 < q)%R as Hq by lra. split; [exact Hq|]. split.
  - replace v0 with (1 / (1 / v0))%R by (field; lra). unfold Rdiv. rewrite !Rmult_1_l.
    apply Rinv_le_contravar; unfold Rdiv in *; lra.
  - replace (ip + (n - ip))%nat with n in H2 by lia. replace (m * (1 / q))%R with (m / q)%R by (field; lra). exact H2.
Qed.

(** the state as an affine function of the value x of the pseudo-observation *)
Definition cvec (i : nat) (a : nat) : C := Csum (fun l => W t' e' (S i) (skip l) a * RtoC (y l)) i.
Lemma xf_affine i x a : (ip <= i)%nat -> (a < p)%nat -> xf t' e' (yx x) (S i) a = cvec i a + W t' e' (S i) ip a * RtoC x.
Proof.
  intros H Ha. rewrite xf_W by exact Ha. rewrite Csum_skip by exact H. unfold yx at 2. rewrite insf_ip. f_equal.
  unfold cvec. apply Csum_ext. intros l Hl. unfold yx. rewrite insf_skip. reflexivity.
Qed.
Lemma cst_cvec i : fst (dotv b (cvec i)) = cst i.
Proof.
  unfold cvec. rewrite dotv_sum, fst_Csum. unfold cst. apply Rsum_ext. intros l Hl. unfold wt.
  transitivity (fst (dotv b (W t' e' (S i) (skip l)) * RtoC (y l))); [|simpl; ring]. f_equal. unfold dotv.
  rewrite <- Csum_scal_r. apply Csum_ext. intros; ring.
Qed.
End Pred.
End SS.
