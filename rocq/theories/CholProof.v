(** CholUpdateR1 is exact. *)
From Coq Require Import Reals List Arith ZArith Bool Lra Lia.
From Verif Require Import Arith Res ListLemmas Spec Gauss Emb Cx KFpProof EngineModel.
Import ListNotations.
Local Open Scope R_scope.

(** ** Matrices as functions *)
Definition gram (n : nat) (M : nat -> nat -> R) (i j : nat) : R := Rsum (fun m => M m i * M m j) n.
Definition upper (n : nat) (M : nat -> nat -> R) : Prop := forall i j, (j < i)%nat -> (i < n)%nat -> M i j = 0.
Definition posdiag (n : nat) (M : nat -> nat -> R) : Prop := forall i, (i < n)%nat -> 0 < M i i.
Definition mask (k : nat) (v : nat -> R) (j : nat) : R := if (j <? k)%nat then 0 else v j.

Lemma Rsum_change f g n k : (k < n)%nat -> (forall m, m <> k -> (m < n)%nat -> f m = g m) -> Rsum f n = Rsum g n - g k + f k.
Proof.
  induction n as [|n IH]; intros Hk H; [lia|]. cbn. destruct (Nat.eq_dec k n) as [->|Hn].
  - rewrite (Rsum_ext f g n); [lra|]. intros m Hm. apply H; lia.
  - rewrite IH by (try lia; intros; apply H; lia). rewrite (H n) by lia. lra.
Qed.

Section Step.
Variable n : nat.
Variable sg : R.
Hypothesis Hsg : sg * sg = 1.
Variable M : nat -> nat -> R.
Variable v : nat -> R.
Variable k : nat.
Hypothesis Hk : (k < n)%nat.
Hypothesis Hu : upper n M.
Hypothesis Hd : posdiag n M.
Hypothesis Hp : 0 < M k k * M k k + sg * v k * v k.
Definition st_r := sqrt (M k k * M k k + sg * v k * v k).
Definition st_c := st_r / M k k.
Definition st_s := v k / M k k.
Definition st_row (j : nat) : R :=
  if (j <? k)%nat then M k j else if (j =? k)%nat then st_r else (M k j + sg * st_s * v j) / st_c.
Definition st_M (i j : nat) : R := if (i =? k)%nat then st_row j else M i j.
Definition st_v (j : nat) : R := if (j <=? k)%nat then v j else st_c * v j - st_s * st_row j.

Lemma r_pos : 0 < st_r. Proof. unfold st_r. apply sqrt_lt_R0, Hp. Qed.
Lemma r_sq : st_r * st_r = M k k * M k k + sg * v k * v k. Proof. unfold st_r. apply sqrt_sqrt. lra. Qed.
Lemma c_pos : 0 < st_c. Proof. unfold st_c. apply Rdiv_lt_0_compat; [apply r_pos|apply Hd, Hk]. Qed.
Lemma c_sq : st_c * st_c = 1 + sg * st_s * st_s.
Proof.
  pose proof (Hd k Hk) as Hm. unfold st_c, st_s. replace (st_r / M k k * (st_r / M k k)) with (st_r * st_r / (M k k * M k k)) by (field; lra).
  rewrite r_sq. field. lra.
Qed.
Lemma st_upper : upper n st_M.
Proof.
  intros i j Hij Hi. unfold st_M. destruct (Nat.eqb_spec i k) as [->|]; [|apply Hu; assumption].
  unfold st_row. assert (j <? k = true)%nat as -> by (apply Nat.ltb_lt; exact Hij). apply Hu; assumption.
Qed.
Lemma st_posdiag : posdiag n st_M.
Proof.
  intros i Hi. unfold st_M. destruct (Nat.eqb_spec i k) as [->|]; [|apply Hd; assumption].
  unfold st_row. rewrite Nat.ltb_irrefl, Nat.eqb_refl. apply r_pos.
Qed.
Lemma step_gram i j : (i < n)%nat -> (j < n)%nat ->
  gram n st_M i j + sg * (mask (S k) st_v i * mask (S k) st_v j) = gram n M i j + sg * (mask k v i * mask k v j).
Proof.
  intros Hi Hj. unfold gram. rewrite (Rsum_change (fun m => st_M m i * st_M m j) (fun m => M m i * M m j) n k Hk)
    by (intros m Hm _; unfold st_M; apply Nat.eqb_neq in Hm; rewrite Hm; reflexivity).
  assert (st_M k i = st_row i) as E1 by (unfold st_M; rewrite Nat.eqb_refl; reflexivity).
  assert (st_M k j = st_row j) as E2 by (unfold st_M; rewrite Nat.eqb_refl; reflexivity).
  rewrite E1, E2. clear E1 E2. pose proof (Hd k Hk) as Hm. pose proof r_pos as Hr. pose proof r_sq as Hr2. pose proof c_pos as Hc. pose proof c_sq as Hc2.
  assert (st_c * M k k = st_r) as Hcm by (unfold st_c; field; lra). assert (st_s * M k k = v k) as Hsm by (unfold st_s; field; lra).
  unfold mask, st_v, st_row.
  assert (forall x, (x < k)%nat -> (x <? k) = true /\ (x <? S k) = true /\ M k x = 0%R)%nat as C1.
  { intros x Hx. repeat split; [apply Nat.ltb_lt; lia|apply Nat.ltb_lt; lia|apply Hu; lia]. }
  assert (forall x, x = k -> (x <? k) = false /\ (x <? S k) = true /\ (x =? k) = true)%nat as C2.
  { intros x ->. repeat split; [apply Nat.ltb_irrefl|apply Nat.ltb_lt; lia|apply Nat.eqb_refl]. }
  assert (forall x, (k < x)%nat -> (x <? k) = false /\ (x <? S k) = false /\ (x =? k) = false /\ (x <=? k) = false)%nat as C3.
  { intros x Hx. repeat split; [apply Nat.ltb_ge; lia|apply Nat.ltb_ge; lia|apply Nat.eqb_neq; lia|apply Nat.leb_gt; lia]. }
  destruct (lt_eq_lt_dec i k) as [[Hik|Hik]|Hik]; destruct (lt_eq_lt_dec j k) as [[Hjk|Hjk]|Hjk].
  - destruct (C1 i Hik) as (-> & -> & ->), (C1 j Hjk) as (-> & -> & ->). ring.
  - destruct (C1 i Hik) as (-> & -> & ->), (C2 j Hjk) as (-> & -> & ->). ring.
  - destruct (C1 i Hik) as (-> & -> & ->), (C3 j Hjk) as (-> & -> & -> & ->). ring.
  - destruct (C2 i Hik) as (-> & -> & ->), (C1 j Hjk) as (-> & -> & ->). ring.
  - destruct (C2 i Hik) as (-> & -> & ->), (C2 j Hjk) as (-> & -> & ->). rewrite Hr2, Hik, Hjk. ring.
  - destruct (C2 i Hik) as (-> & -> & ->), (C3 j Hjk) as (-> & -> & -> & ->). subst i.
    replace (st_r * ((M k j + sg * st_s * v j) / st_c)) with (M k k * M k j + sg * (st_s * M k k) * v j) by (rewrite <- Hcm; field; lra).
    rewrite Hsm. ring.
  - destruct (C3 i Hik) as (-> & -> & -> & ->), (C1 j Hjk) as (-> & -> & ->). ring.
  - destruct (C3 i Hik) as (-> & -> & -> & ->), (C2 j Hjk) as (-> & -> & ->). subst j.
    replace ((M k i + sg * st_s * v i) / st_c * st_r) with (M k k * M k i + sg * (st_s * M k k) * v i) by (rewrite <- Hcm; field; lra).
    rewrite Hsm. ring.
  - destruct (C3 i Hik) as (-> & -> & -> & ->), (C3 j Hjk) as (-> & -> & -> & ->).
    set (a := M k i). set (b := M k j). set (x := v i). set (y := v j). set (Aa := (a + sg * st_s * x) / st_c). set (Bb := (b + sg * st_s * y) / st_c).
    assert (st_c * Aa = a + sg * st_s * x) as HA by (unfold Aa; field; lra).
    assert (st_c * Bb = b + sg * st_s * y) as HB by (unfold Bb; field; lra).
    assert (Aa * Bb + sg * ((st_c * x - st_s * Aa) * (st_c * y - st_s * Bb)) = a * b + sg * (x * y)) as K; [|lra].
    transitivity ((1 + sg * st_s * st_s) * (Aa * Bb) + sg * (st_c * st_c) * (x * y) - sg * st_s * (x * (st_c * Bb) + y * (st_c * Aa))); [ring|].
    rewrite <- Hc2. replace (st_c * st_c * (Aa * Bb)) with ((st_c * Aa) * (st_c * Bb)) by ring. rewrite HA, HB, Hc2.
    transitivity (a * b + sg * (x * y) + (sg * sg - 1) * (st_s * st_s * (x * y)) - (sg * sg - 1) * (st_s * st_s * (x * y))); [|rewrite Hsg; ring].
    transitivity (a * b + sg * (x * y) + (sg * sg) * st_s * st_s * x * y * 2 - 2 * ((sg * sg) * st_s * st_s * (x * y))); [ring|ring].
Qed.
End Step.

(** a column combination annihilated by the first k rows of a triangular matrix *)
Lemma back_subst n M k : (k < n)%nat -> upper n M -> posdiag n M ->
  exists x : nat -> R, x k = 1 /\ (forall j, (k < j)%nat -> x j = 0) /\ forall m, (m < k)%nat -> Rsum (fun j => M m j * x j) n = 0.
Proof.
  intros Hk Hu Hd.
  assert (forall d, (d <= k)%nat -> exists x : nat -> R, x k = 1 /\ (forall j, (k < j)%nat -> x j = 0) /\
            (forall m, (m < k)%nat -> (k - d <= m)%nat -> Rsum (fun j => M m j * x j) n = 0)) as K.
  { induction d as [|d IH]; intros Hdk.
    - exists (fun j => if (j =? k)%nat then 1 else 0). rewrite Nat.eqb_refl. split; [reflexivity|]. split.
      + intros j Hj. assert (j =? k = false)%nat as -> by (apply Nat.eqb_neq; lia). reflexivity.
      + intros m H1 H2. lia.
    - destruct (IH ltac:(lia)) as (x & X1 & X2 & X3). set (m0 := (k - S d)%nat).
      set (S0 := Rsum (fun j => if (j =? m0)%nat then 0 else M m0 j * x j) n).
      exists (fun j => if (j =? m0)%nat then - S0 / M m0 m0 else x j). assert (m0 < k)%nat as Hm0 by (unfold m0; lia).
      split; [assert (k =? m0 = false)%nat as -> by (apply Nat.eqb_neq; lia); exact X1|]. split.
      { intros j Hj. assert (j =? m0 = false)%nat as -> by (apply Nat.eqb_neq; lia). apply X2, Hj. }
      intros m H1 H2. destruct (Nat.eq_dec m m0) as [->|Hne].
      + rewrite (Rsum_change _ (fun j => if (j =? m0)%nat then 0 else M m0 j * x j) n m0) by (try lia; intros j Hj _; apply Nat.eqb_neq in Hj; rewrite Hj; reflexivity).
        rewrite Nat.eqb_refl. fold S0. pose proof (Hd m0 ltac:(lia)). field. lra.
      + rewrite <- (X3 m H1 ltac:(unfold m0 in *; lia)). apply Rsum_ext. intros j Hj. destruct (Nat.eqb_spec j m0) as [->|]; [|reflexivity].
        rewrite (Hu m m0) by (unfold m0 in *; lia). ring. }
  destruct (K k (le_n k)) as (x & X1 & X2 & X3). exists x. split; [exact X1|]. split; [exact X2|]. intros m Hm. apply X3; [exact Hm|lia].
Qed.

Lemma Rsum_prod f g n m : Rsum f n * Rsum g m = Rsum (fun i => Rsum (fun j => f i * g j) m) n.
Proof.
  induction n as [|n IH]; cbn; [ring|]. rewrite Rmult_plus_distr_r, IH, Rsum_scal. reflexivity.
Qed.
(** quadratic forms *)
Lemma quad_gram n M a : Rsum (fun i => Rsum (fun j => a i * gram n M i j * a j) n) n = Rsum (fun m => Rsum (fun j => M m j * a j) n ^ 2) n.
Proof.
  transitivity (Rsum (fun i => Rsum (fun m => Rsum (fun j => a i * (M m i * M m j) * a j) n) n) n).
  { apply Rsum_ext. intros i _. rewrite Rsum_swap. apply Rsum_ext. intros j _. unfold gram.
    rewrite <- Rsum_scal. rewrite Rmult_comm, <- Rsum_scal. apply Rsum_ext. intros m _. ring. }
  rewrite Rsum_swap. apply Rsum_ext. intros m _. cbn [pow]. rewrite Rmult_1_r, Rsum_prod. apply Rsum_ext. intros i _. apply Rsum_ext. intros j _. ring.
Qed.
Lemma quad_vv n (v a : nat -> R) c : Rsum (fun i => Rsum (fun j => a i * (c * (v i * v j)) * a j) n) n = c * Rsum (fun j => v j * a j) n ^ 2.
Proof.
  cbn [pow]. rewrite Rmult_1_r, Rsum_prod, <- Rsum_scal. apply Rsum_ext. intros i _. rewrite <- Rsum_scal. apply Rsum_ext. intros j _. ring.
Qed.
Lemma quad_split n K1 K2 a : Rsum (fun i => Rsum (fun j => a i * (K1 i j + K2 i j) * a j) n) n =
  Rsum (fun i => Rsum (fun j => a i * K1 i j * a j) n) n + Rsum (fun i => Rsum (fun j => a i * K2 i j * a j) n) n.
Proof. rewrite <- Rsum_plus. apply Rsum_ext. intros i _. rewrite <- Rsum_plus. apply Rsum_ext. intros j _. ring. Qed.
Lemma pd_ext n K1 K2 : (forall i j, (i < n)%nat -> (j < n)%nat -> K1 i j = K2 i j) -> pd n K1 -> pd n K2.
Proof.
  intros H P a Ha. replace (Rsum (fun k => Rsum (fun j => a k * K2 k j * a j) n) n) with (Rsum (fun k => Rsum (fun j => a k * K1 k j * a j) n) n); [apply P, Ha|].
  apply Rsum_ext. intros i Hi. apply Rsum_ext. intros j Hj. rewrite H by assumption. reflexivity.
Qed.

(** positive definiteness forces the pivots of a downdate to be positive *)
Lemma pivot_pos n M v k : (k < n)%nat -> upper n M -> posdiag n M ->
  pd n (fun i j => gram n M i j + -1 * (mask k v i * mask k v j)) -> 0 < M k k * M k k + -1 * v k * v k.
Proof.
  intros Hk Hu Hd HP. destruct (back_subst n M k Hk Hu Hd) as (x & X1 & X2 & X3).
  assert (exists k0, (k0 < n)%nat /\ x k0 <> 0) as Hx by (exists k; split; [exact Hk|rewrite X1; lra]).
  specialize (HP x Hx).
  cbv beta in HP.
  rewrite (quad_split n (gram n M) (fun i j => -1 * (mask k v i * mask k v j)) x), quad_gram, quad_vv in HP.
  assert (Rsum (fun m => Rsum (fun j => M m j * x j) n ^ 2) n = M k k ^ 2) as E1.
  { rewrite (Rsum_change _ (fun _ => 0) n k Hk).
    - rewrite (Rsum_0 (fun _ => 0)) by reflexivity. rewrite (Rsum_change (fun j => M k j * x j) (fun _ => 0) n k Hk).
      + rewrite (Rsum_0 (fun _ => 0)) by reflexivity. rewrite X1. ring.
      + intros j Hj Hjn. destruct (lt_eq_lt_dec j k) as [[H|H]|H]; [rewrite (Hu k j H Hk); ring|contradiction|rewrite (X2 j H); ring].
    - intros m Hm Hmn. destruct (lt_eq_lt_dec m k) as [[H|H]|H]; [rewrite (X3 m H); ring|contradiction|].
      rewrite (Rsum_0 (fun j => M m j * x j)); [ring|]. intros j Hj. destruct (le_lt_dec j k) as [H1|H1]; [rewrite (Hu m j) by lia; ring|rewrite (X2 j H1); ring]. }
  assert (Rsum (fun j => mask k v j * x j) n = v k) as E2.
  { rewrite (Rsum_change _ (fun _ => 0) n k Hk).
    - rewrite (Rsum_0 (fun _ => 0)) by reflexivity. unfold mask. rewrite Nat.ltb_irrefl, X1. ring.
    - intros j Hj Hjn. unfold mask. destruct (Nat.ltb_spec j k) as [H|H]; [ring|]. rewrite (X2 j) by lia. ring. }
  rewrite E1, E2 in HP. nra.
Qed.

(** ** The loop *)
Definition rent (L : list (list R)) (i j : nat) : R := nth j (nth i L []) 0.
Definition rv (v : list R) (j : nat) : R := nth j v 0.
Definition square (n : nat) (L : list (list R)) : Prop := length L = n /\ forall i, (i < n)%nat -> length (nth i L []) = n.
Definition FinM (L : list (list R)) : list (list xr) := map (map Fin) L.

Lemma FinM_nth L i : nth i (FinM L) [] = map Fin (nth i L []).
Proof. revert i; induction L as [|r L IH]; intros [|i]; cbn; try reflexivity. apply IH. Qed.
Lemma ent_Fin L i j : ent (A := AX) (FinM L) i j = Fin (rent L i j).
Proof.
  unfold ent, rent. transitivity (nth j (map Fin (nth i L [])) (Fin 0)); [|apply nth_map_Fin].
  exact (f_equal (fun l => nth j l (Fin 0)) (FinM_nth L i)).
Qed.
Lemma mget_Fin n L i j : square n L -> (i < n)%nat -> (j < n)%nat -> mget (A := AX) (FinM L) i j = Ok (Fin (rent L i j)).
Proof.
  intros [H1 H2] Hi Hj. unfold mget.
  assert (vget (FinM L) i = Ok (map Fin (nth i L []))) as E.
  { rewrite (vget_ok (FinM L) (i := i) []) by (unfold FinM; rewrite map_length; lia). rewrite FinM_nth. reflexivity. }
  assert (vget (map Fin (nth i L [])) j = Ok (Fin (rent L i j))) as E2.
  { rewrite (vget_ok _ (i := j) (Fin 0)) by (rewrite map_length, H2; assumption). rewrite nth_map_Fin. reflexivity. }
  etransitivity; [exact (f_equal (fun x => bind x (fun r => vget r j)) E)|]. exact E2.
Qed.
Lemma upd_map T U (f : T -> U) l i x : upd (map f l) i (f x) = map f (upd l i x).
Proof. revert i; induction l as [|a l IH]; intros [|i]; cbn; try reflexivity. rewrite IH. reflexivity. Qed.
Lemma map_vbuild T U (f : T -> U) n g : map f (vbuild n g) = vbuild n (fun i => f (g i)).
Proof. unfold vbuild. rewrite map_map. reflexivity. Qed.
Lemma vbuild_ext T n (f g : nat -> T) : (forall i, (i < n)%nat -> f i = g i) -> vbuild n f = vbuild n g.
Proof. intros H. apply map_ext_in. intros i Hi. apply in_seq in Hi. apply H. lia. Qed.

Section Loop.
Variable n : nat.
Variable sg : R.
Hypothesis Hsg : sg = 1 \/ sg = -1.
Lemma sg_sq : sg * sg = 1. Proof. destruct Hsg; subst; ring. Qed.

Lemma chol_step_Fin L v k : square n L -> length v = n -> (k < n)%nat -> posdiag n (rent L) ->
  0 < rent L k k * rent L k k + sg * rv v k * rv v k ->
  chol_step (A := AX) (Fin sg) k (FinM L, map Fin v) =
  Ok (FinM (upd L k (vbuild n (st_row sg (rent L) (rv v) k))), map Fin (vbuild n (st_v sg (rent L) (rv v) k))).
Proof.
  intros HL Hv Hk Hd Hp. pose proof HL as [H1 H2]. unfold chol_step.
  rewrite (mget_Fin n) by assumption. cbn [bind]. rewrite (vget_ok _ (i := k) (Fin 0)) by (rewrite map_length; lia). cbn [bind].
  rewrite nth_map_Fin. change (nth k v 0) with (rv v k).
  assert (length (FinM L) = n) as HFl by (unfold FinM; rewrite map_length; exact H1).
  change (list (F AX)) with (list xr). rewrite HFl. clear HFl.
  pose proof (Hd k Hk) as Hm.
  assert (fsqrt AX (fadd AX (fmul AX (Fin (rent L k k)) (Fin (rent L k k))) (fmul AX (fmul AX (Fin sg) (Fin (rv v k))) (Fin (rv v k))))
          = Fin (st_r sg (rent L) (rv v) k)) as Er.
  { cbn [fsqrt fadd fmul AX xmul xadd]. rewrite fin_sqrt by lra. reflexivity. }
  rewrite Er. pose proof (c_pos n sg (rent L) (rv v) k Hk Hd Hp) as Hc.
  assert (fdiv AX (Fin (st_r sg (rent L) (rv v) k)) (Fin (rent L k k)) = Fin (st_c sg (rent L) (rv v) k)) as Ec.
  { cbn [fdiv AX]. rewrite fin_div by lra. reflexivity. }
  rewrite Ec. assert (fdiv AX (Fin (rv v k)) (Fin (rent L k k)) = Fin (st_s (rent L) (rv v) k)) as Es.
  { cbn [fdiv AX]. rewrite fin_div by lra. reflexivity. }
  rewrite Es.
  set (row := vbuild n (fun j : nat => if (j <? k)%nat then _ else _)).
  assert (row = map Fin (vbuild n (st_row sg (rent L) (rv v) k))) as Erow.
  { unfold row. rewrite map_vbuild. apply vbuild_ext. intros j Hj. unfold st_row. rewrite ent_Fin.
    destruct (j <? k)%nat; [reflexivity|]. destruct (j =? k)%nat; [reflexivity|].
    change (fofZ AX 0) with (Fin 0). rewrite nth_map_Fin. cbn [fdiv fadd fmul AX xadd xmul]. rewrite fin_div by lra. reflexivity. }
  clearbody row. subst row. f_equal. f_equal.
  - unfold FinM. rewrite upd_map. reflexivity.
  - rewrite (map_vbuild _ _ Fin n (st_v sg (rent L) (rv v) k)). apply vbuild_ext. intros j Hj. change (fofZ AX 0) with (Fin 0). rewrite !nth_map_Fin.
    rewrite vbuild_nth by exact Hj. unfold st_v. destruct (j <=? k)%nat; reflexivity.
Qed.
Lemma rent_upd L k f i j : square n L -> (k < n)%nat -> (j < n)%nat ->
  rent (upd L k (vbuild n f)) i j = if (i =? k)%nat then f j else rent L i j.
Proof.
  intros [H1 H2] Hk Hj. unfold rent. destruct (Nat.eqb_spec i k) as [->|Hne].
  - rewrite nth_upd_same by lia. apply vbuild_nth, Hj.
  - rewrite nth_upd_other by lia. reflexivity.
Qed.
Lemma square_upd L k f : square n L -> (k < n)%nat -> square n (upd L k (vbuild n f)).
Proof.
  intros [H1 H2] Hk. split; [rewrite upd_length; exact H1|]. intros i Hi. destruct (Nat.eq_dec i k) as [->|Hne].
  - rewrite nth_upd_same by lia. apply vbuild_len.
  - rewrite nth_upd_other by lia. apply H2, Hi.
Qed.

(** the invariant of the loop *)
Definition linv (T : nat -> nat -> R) (k : nat) (L : list (list R)) (v : list R) : Prop :=
  square n L /\ length v = n /\ upper n (rent L) /\ posdiag n (rent L) /\
  forall i j, (i < n)%nat -> (j < n)%nat -> gram n (rent L) i j + sg * (mask k (rv v) i * mask k (rv v) j) = T i j.

Lemma linv_step T k L v : (k < n)%nat -> (sg = -1 -> pd n T) -> linv T k L v ->
  exists L' v', chol_step (A := AX) (Fin sg) k (FinM L, map Fin v) = Ok (FinM L', map Fin v') /\ linv T (S k) L' v'.
Proof.
  intros Hk Hpd (HL & Hv & Hu & Hd & HG).
  assert (0 < rent L k k * rent L k k + sg * rv v k * rv v k) as Hp.
  { destruct Hsg as [E|E]; subst sg.
    - pose proof (Hd k Hk). nra.
    - apply (pivot_pos n); try assumption. apply (pd_ext n T); [|apply Hpd; reflexivity]. intros i j Hi Hj. rewrite HG by assumption. reflexivity. }
  exists (upd L k (vbuild n (st_row sg (rent L) (rv v) k))), (vbuild n (st_v sg (rent L) (rv v) k)).
  split; [apply chol_step_Fin; assumption|].
  assert (forall i j, (j < n)%nat -> rent (upd L k (vbuild n (st_row sg (rent L) (rv v) k))) i j = st_M sg (rent L) (rv v) k i j) as E.
  { intros i j Hj. rewrite rent_upd by assumption. reflexivity. }
  split; [apply square_upd; assumption|]. split; [apply vbuild_len|]. split; [|split].
  - intros i j Hij Hi. rewrite E by lia. apply (st_upper n); assumption.
  - intros i Hi. rewrite E by lia. apply (st_posdiag n); assumption.
  - intros i j Hi Hj. rewrite <- (HG i j Hi Hj), <- (step_gram n sg sg_sq (rent L) (rv v) k Hk Hu Hd Hp i j Hi Hj).
    f_equal.
    + unfold gram. apply Rsum_ext. intros m Hm. rewrite !E by assumption. reflexivity.
    + unfold mask, rv. rewrite !vbuild_nth by assumption. reflexivity.
Qed.
Lemma linv_loop T : (sg = -1 -> pd n T) -> forall m k L v, (k + m = n)%nat -> linv T k L v ->
  exists L' v', for_ k m (chol_step (A := AX) (Fin sg)) (FinM L, map Fin v) = Ok (FinM L', map Fin v') /\ linv T n L' v'.
Proof.
  intros Hpd. induction m as [|m IH]; intros k L v Hm HI.
  - rewrite Nat.add_0_r in Hm. subst k. exists L, v. split; [reflexivity|exact HI].
  - destruct (linv_step T k L v ltac:(lia) Hpd HI) as (L1 & v1 & E1 & HI1).
    destruct (IH (S k) L1 v1 ltac:(lia) HI1) as (L2 & v2 & E2 & HI2). exists L2, v2. split; [|exact HI2].
    cbn [for_]. rewrite E1. cbn [bind]. exact E2.
Qed.
End Loop.

(** ** C39 *)
Theorem chol_exact n (L : list (list R)) (v : list R) (downdate : bool) :
  square n L -> length v = n -> upper n (rent L) -> posdiag n (rent L) ->
  let sg := if downdate then -1 else 1 in
  (downdate = true -> pd n (fun i j => gram n (rent L) i j - rv v i * rv v j)) ->
  exists L' v', CholUpdateR1 (A := AX) (FinM L) (map Fin v) downdate = Ok (FinM L', map Fin v') /\
    square n L' /\ upper n (rent L') /\ posdiag n (rent L') /\
    forall i j, (i < n)%nat -> (j < n)%nat -> gram n (rent L') i j = gram n (rent L) i j + sg * (rv v i * rv v j).
Proof.
  intros HL Hv Hu Hd sg Hpd.
  assert (sg = 1 \/ sg = -1) as Hsg by (unfold sg; destruct downdate; [right|left]; reflexivity).
  set (T := fun i j => gram n (rent L) i j + sg * (rv v i * rv v j)).
  destruct (linv_loop n sg Hsg T) with (m := n) (k := O) (L := L) (v := v) as (L' & v' & E & (H1 & H2 & H3 & H4 & H5)).
  - intros Es. apply (pd_ext n (fun i j => gram n (rent L) i j - rv v i * rv v j)); [intros i j _ _; unfold T; rewrite Es; ring|].
    apply Hpd. unfold sg in Es. destruct downdate; [reflexivity|lra].
  - reflexivity.
  - split; [exact HL|]. split; [exact Hv|]. split; [exact Hu|]. split; [exact Hd|]. intros i j Hi Hj. unfold T, mask. reflexivity.
  - exists L', v'. split; [|split; [exact H1|split; [exact H3|split; [exact H4|]]]].
    + unfold CholUpdateR1. change (list (F AX)) with (list xr). assert (length (FinM L) = n) as -> by (unfold FinM; rewrite map_length; apply HL).
      replace (if downdate then fneg AX (fofZ AX 1) else fofZ AX 1) with (Fin sg : F AX); [exact E|].
      unfold sg. destruct downdate; cbn; f_equal; lra.
    + intros i j Hi Hj. change (gram n (rent L') i j = T i j). rewrite <- (H5 i j Hi Hj). unfold mask.
      assert (forall x, (x < n)%nat -> (x <? n = true)%nat) as Hx by (intros; apply Nat.ltb_lt; assumption).
      rewrite (Hx i Hi), (Hx j Hj). ring.
Qed.
