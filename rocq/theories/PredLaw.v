(** Consequences of the exact conditional distribution that relate several predictions: more data, smaller errors, continuity, changes of units. *)
From Coq Require Import Reals List Arith ZArith Lra Lia Bool Permutation.
From Coquelicot Require Import Continuity Complex.
From Verif Require Import Arith Res ListLemmas KFModel Spec Gauss Emb History InitProof KF1X KF1Main KF1More KF1R.
From Verif Require Import Cx KFpModel KFpProof SpecCarma CLin KFpX KFpMain KFpTop.
From Verif Require Import SimProof CholProof RamProof EngineAX Det LogDens Sym SymTime.
Import ListNotations.
Local Open Scope R_scope.
Local Notation length := List.length.

(** Every measurement made at times t' with errors e' is also one of those made at times t with errors e, with an error that is no larger. *)
Definition at_least_as_good (t e t' e' : list R) : Prop :=
  forall i, (i < length t')%nat -> exists k, (k < length t)%nat /\ nth k t 0 = nth i t' 0 /\ Rabs (nth k e 0) <= Rabs (nth i e' 0).

Lemma bounded_choice (P : nat -> nat -> Prop) n : (forall i, (i < n)%nat -> exists k, P i k) -> exists f, forall i, (i < n)%nat -> P i (f i).
Proof.
  induction n as [|n IH]; intros H; [exists (fun _ => O); intros; lia|].
  destruct IH as (f & Hf); [intros; apply H; lia|]. destruct (H n ltac:(lia)) as (k & Hk).
  exists (fun i => if Nat.eqb i n then k else f i). intros i Hi. destruct (Nat.eqb_spec i n) as [->|]; [exact Hk|]. apply Hf. lia.
Qed.

Lemma Rsum_pick (g : nat -> R) n k : (k < n)%nat -> Rsum (fun j => (if Nat.eqb k j then 1 else 0) * g j) n = g k.
Proof. intros Hk. apply (Rsum_delta g n k Hk). Qed.

(** pushing weights forward along an index map *)
Lemma Rsum_push n n' (f : nat -> nat) (b g : nat -> R) : (forall i, (i < n')%nat -> (f i < n)%nat) ->
  Rsum (fun k => Rsum (fun i => b i * (if Nat.eqb (f i) k then 1 else 0)) n' * g k) n = Rsum (fun i => b i * g (f i)) n'.
Proof.
  intros Hf. rewrite (Rsum_ext _ (fun k => Rsum (fun i => b i * ((if Nat.eqb (f i) k then 1 else 0) * g k)) n')).
  2:{ intros k _. rewrite Rmult_comm, <- Rsum_scal. apply Rsum_ext. intros i _. ring. }
  rewrite Rsum_swap. apply Rsum_ext. intros i Hi. rewrite Rsum_scal. f_equal. apply Rsum_pick, Hf, Hi.
Qed.

Lemma obs_cov_sym (K : R -> R -> R) (t e : nat -> R) : (forall a b, K a b = K b a) -> forall i j, obs_cov K t e i j = obs_cov K t e j i.
Proof.
  intros Ks i j. unfold obs_cov. rewrite Ks. destruct (Nat.eqb_spec i j) as [->|Hne]; [rewrite Nat.eqb_refl; reflexivity|].
  destruct (Nat.eqb_spec j i); [congruence|reflexivity].
Qed.

Lemma mse_at_weights n (K : nat -> nat -> R) c c0 wt : (forall j, (j < n)%nat -> Rsum (fun k => wt k * K k j) n = c j) ->
  mse n K c c0 wt = c0 - Rsum (fun k => wt k * c k) n.
Proof.
  intros H. unfold mse. rewrite (Rsum_swap (fun k j => wt k * K k j * wt j)).
  rewrite (Rsum_ext (fun j => Rsum (fun k => wt k * K k j * wt j) n) (fun j => wt j * c j)).
  2:{ intros j Hj. rewrite <- (H j Hj), <- Rsum_scal. apply Rsum_ext. intros; ring. }
  ring.
Qed.

Section Kernel.
Variable K : R -> R -> R.
Hypothesis Ks : forall a b, K a b = K b a.

Lemma cond_more t y e t' y' e' tp m v m' v' : strictly_increasing t' ->
  psd (length t) (obs_cov K (fun i => nth i t 0) (fun i => nth i e 0)) ->
  at_least_as_good t e t' e' -> cond_dist K t y e tp m v -> cond_dist K t' y' e' tp m' v' -> v <= v'.
Proof.
  intros Hinc Hpsd Hg H (b & B1 & _ & ->).
  destruct (bounded_choice _ _ Hg) as (f & Hf).
  set (a := fun k => Rsum (fun i => b i * (if Nat.eqb (f i) k then 1 else 0)) (length t')).
  assert (forall i, (i < length t')%nat -> (f i < length t)%nat) as Hft by (intros i Hi; apply Hf, Hi).
  assert (forall i j, (i < length t')%nat -> (j < length t')%nat -> f i = f j -> i = j) as Hinj.
  { intros i j Hi Hj E. destruct (Hf i Hi) as (_ & Ei & _), (Hf j Hj) as (_ & Ej & _). rewrite E, Ej in Ei.
    destruct (Nat.lt_trichotomy i j) as [L|[L|L]]; [|exact L|]; exfalso; [pose proof (Hinc i j L Hj)|pose proof (Hinc j i L Hi)]; lra. }
  pose proof (blp_optimal _ _ _ _ _ _ _ (obs_cov_sym K _ _ Ks) Hpsd H a) as Hopt.
  rewrite <- (mse_at_weights _ _ _ _ _ B1). eapply Rle_trans; [exact Hopt|]. unfold mse.
  unfold a at 1. rewrite (Rsum_push _ _ f b (fun k => K tp (nth k t 0)) Hft).
  rewrite (Rsum_ext (fun i => b i * K tp (nth (f i) t 0)) (fun i => b i * K tp (nth i t' 0))).
  2:{ intros i Hi. destruct (Hf i Hi) as (_ & -> & _). reflexivity. }
  apply Rplus_le_compat_l.
  rewrite (Rsum_ext (fun k => Rsum (fun j => a k * obs_cov K (fun i => nth i t 0) (fun i => nth i e 0) k j * a j) (length t))
    (fun k => a k * Rsum (fun j => a j * obs_cov K (fun i => nth i t 0) (fun i => nth i e 0) k j) (length t))).
  2:{ intros k _. rewrite <- Rsum_scal. apply Rsum_ext. intros; ring. }
  unfold a at 1. rewrite (Rsum_push _ _ f b _ Hft).
  apply Rle_trans with (Rsum (fun i => Rsum (fun j => b i * obs_cov K (fun i => nth i t' 0) (fun i => nth (f i) e 0) i j * b j) (length t')) (length t')).
  { right. apply Rsum_ext. intros i Hi. unfold a. rewrite (Rsum_push _ _ f b _ Hft), <- Rsum_scal. apply Rsum_ext. intros j Hj.
    unfold obs_cov. destruct (Hf i Hi) as (_ & -> & _), (Hf j Hj) as (_ & -> & _).
    destruct (Nat.eqb_spec i j) as [->|Hne]; [rewrite Nat.eqb_refl; ring|]. destruct (Nat.eqb_spec (f i) (f j)) as [E|]; [exfalso; apply Hne; apply Hinj; assumption|ring]. }
  apply Rsum_le. intros i Hi. unfold obs_cov.
  rewrite (Rsum_ext _ (fun j => b i * K (nth i t' 0) (nth j t' 0) * b j + (if Nat.eqb i j then 1 else 0) * (b i * b j * (nth (f i) e 0 * nth (f i) e 0)))).
  2:{ intros j _. destruct (Nat.eqb i j); ring. }
  rewrite (Rsum_ext (fun j => b i * (K (nth i t' 0) (nth j t' 0) + (if Nat.eqb i j then nth i e' 0 * nth i e' 0 else 0)) * b j)
    (fun j => b i * K (nth i t' 0) (nth j t' 0) * b j + (if Nat.eqb i j then 1 else 0) * (b i * b j * (nth i e' 0 * nth i e' 0)))).
  2:{ intros j _. destruct (Nat.eqb i j); ring. }
  rewrite !Rsum_plus, !Rsum_pick by exact Hi. apply Rplus_le_compat_l.
  destruct (Hf i Hi) as (_ & _ & He). apply Rmult_le_compat_l; [nra|].
  apply Rsqr_le_abs_1 in He. unfold Rsqr in He. exact He.
Qed.

(** *** Predictions at all times come from two continuous curves *)
Lemma pd_inverse n (M : nat -> nat -> R) : (forall i j, M i j = M j i) -> pd n M -> exists V, is_inverse n M V.
Proof.
  intros Hs Hp. assert (msym n M) as Hm by (intros i j _ _; apply Hs).
  destruct (cholesky Hm Hp) as (U & HU & HD & HG).
  destruct (chol_inverse n (fun i k => if Nat.ltb k n then U k i else 0) M) as (V & HV).
  - intros i k Hi Hk. destruct (Nat.ltb_spec k n) as [L|L]; [apply HU; lia|reflexivity].
  - intros i Hi. destruct (Nat.ltb_spec i n) as [L|L]; [|lia]. pose proof (HD i Hi). lra.
  - intros i j Hi Hj. rewrite <- HG by assumption. apply Rsum_ext. intros k Hk. destruct (Nat.ltb_spec k n) as [L|L]; [reflexivity|lia].
  - exists V. exact HV.
Qed.

(** the conditional mean and variance written with the inverse covariance matrix *)
Definition curve_m (V : nat -> nat -> R) (t y : list R) (x : R) : R :=
  Rsum (fun i => K x (nth i t 0) * Rsum (fun j => V i j * nth j y 0) (length t)) (length t).
Definition curve_v (V : nat -> nat -> R) (t : list R) (x : R) : R :=
  K x x - Rsum (fun i => Rsum (fun j => K x (nth i t 0) * V i j * K x (nth j t 0)) (length t)) (length t).

Lemma cond_curve V t y e x m v : is_inverse (length t) (obs_cov K (fun i => nth i t 0) (fun i => nth i e 0)) V ->
  cond_dist K t y e x m v -> m = curve_m V t y x /\ v = curve_v V t x.
Proof.
  intros HV (wt & H1 & -> & ->). set (M := obs_cov K (fun i => nth i t 0) (fun i => nth i e 0)) in *. set (n := length t) in *.
  assert (forall j, (j < n)%nat -> wt j = Rsum (fun i => K x (nth i t 0) * V i j) n) as Hw.
  { intros j Hj. rewrite (Rsum_ext _ (fun i => Rsum (fun k => wt k * M k i * V i j) n)).
    2:{ intros i Hi. rewrite <- (H1 i Hi), Rmult_comm, <- Rsum_scal. apply Rsum_ext. intros; ring. }
    rewrite Rsum_swap. rewrite (Rsum_ext _ (fun k => (if Nat.eqb j k then 1 else 0) * wt k)).
    2:{ intros k Hk. rewrite Nat.eqb_sym, <- (proj1 (HV k j Hk Hj)), Rmult_comm, <- Rsum_scal. apply Rsum_ext. intros; ring. }
    symmetry. apply Rsum_pick, Hj. }
  split.
  - unfold curve_m. fold n. rewrite (Rsum_ext _ (fun j => Rsum (fun i => K x (nth i t 0) * V i j * nth j y 0) n)).
    2:{ intros j Hj. rewrite (Hw j Hj), Rmult_comm, <- Rsum_scal. apply Rsum_ext. intros; ring. }
    rewrite Rsum_swap. apply Rsum_ext. intros i Hi. rewrite <- Rsum_scal. apply Rsum_ext. intros; ring.
  - unfold curve_v. fold n. f_equal. rewrite (Rsum_ext _ (fun j => Rsum (fun i => K x (nth i t 0) * V i j * K x (nth j t 0)) n)).
    2:{ intros j Hj. rewrite (Hw j Hj), Rmult_comm, <- Rsum_scal. apply Rsum_ext. intros; ring. }
    apply Rsum_swap.
Qed.

(** at a time measured without error the curves take the measured value and no variance *)
Lemma curve_exact V t y e i : is_inverse (length t) (obs_cov K (fun i => nth i t 0) (fun i => nth i e 0)) V -> (i < length t)%nat -> nth i e 0 = 0 ->
  curve_m V t y (nth i t 0) = nth i y 0 /\ curve_v V t (nth i t 0) = 0.
Proof.
  intros HV Hi He. set (M := obs_cov K (fun i => nth i t 0) (fun i => nth i e 0)) in *.
  assert (forall j, K (nth i t 0) (nth j t 0) = M i j) as HK by (intros j; unfold M, obs_cov; rewrite He; destruct (Nat.eqb i j); ring).
  unfold curve_m, curve_v. set (n := length t) in *.
  assert (forall j, (j < n)%nat -> Rsum (fun k => K (nth i t 0) (nth k t 0) * V k j) n = if Nat.eqb i j then 1 else 0) as H1.
  { intros j Hj. rewrite <- (proj1 (HV i j Hi Hj)). apply Rsum_ext. intros k _. rewrite HK. reflexivity. }
  split.
  - rewrite (Rsum_ext _ (fun k => Rsum (fun j => K (nth i t 0) (nth k t 0) * V k j * nth j y 0) n)).
    2:{ intros k _. rewrite <- Rsum_scal. apply Rsum_ext. intros; ring. }
    rewrite Rsum_swap, (Rsum_ext _ (fun j => (if Nat.eqb i j then 1 else 0) * nth j y 0)); [apply (Rsum_pick (fun j => nth j y 0)), Hi|].
    intros j Hj. rewrite <- (H1 j Hj), Rmult_comm, <- Rsum_scal. apply Rsum_ext. intros; ring.
  - rewrite Rsum_swap, (Rsum_ext _ (fun j => (if Nat.eqb i j then 1 else 0) * K (nth i t 0) (nth j t 0))).
    2:{ intros j Hj. rewrite <- (H1 j Hj), Rmult_comm, <- Rsum_scal. apply Rsum_ext. intros; ring. }
    rewrite (Rsum_pick (fun j => K (nth i t 0) (nth j t 0))) by exact Hi. ring.
Qed.

Lemma Rsum_continuous (f : nat -> R -> R) n : (forall i, continuity (f i)) -> continuity (fun x => Rsum (fun i => f i x) n).
Proof.
  intros H. induction n as [|n IH]; cbn [Rsum]; [apply continuity_const; intros a b; reflexivity|].
  apply (continuity_plus (fun x => Rsum (fun i => f i x) n) (f n)); [exact IH|apply H].
Qed.
Lemma curves_continuous V t y : (forall b, continuity (fun x => K x b)) -> continuity (fun x => K x x) ->
  continuity (curve_m V t y) /\ continuity (curve_v V t).
Proof.
  intros Hk Hd. split.
  - apply (Rsum_continuous (fun i x => K x (nth i t 0) * Rsum (fun j => V i j * nth j y 0) (length t))).
    intros i. apply (continuity_mult (fun x => K x (nth i t 0)) (fun _ => Rsum (fun j => V i j * nth j y 0) (length t))); [apply Hk|apply continuity_const; intros a b; reflexivity].
  - apply (continuity_minus (fun x => K x x) (fun x => Rsum (fun i => Rsum (fun j => K x (nth i t 0) * V i j * K x (nth j t 0)) (length t)) (length t))); [exact Hd|].
    apply (Rsum_continuous (fun i x => Rsum (fun j => K x (nth i t 0) * V i j * K x (nth j t 0)) (length t))). intros i.
    apply (Rsum_continuous (fun j x => K x (nth i t 0) * V i j * K x (nth j t 0))). intros j.
    apply (continuity_mult (fun x => K x (nth i t 0) * V i j) (fun x => K x (nth j t 0))); [|apply Hk].
    apply (continuity_mult (fun x => K x (nth i t 0)) (fun _ => V i j)); [apply Hk|apply continuity_const; intros a b; reflexivity].
Qed.
End Kernel.

(** *** Changes of units *)
(** measure time from another origin, possibly backwards, and in another unit *)
Definition new_time (back : bool) (k s x : R) : R := k * (if back then s - x else x + s).
Definition new_times (back : bool) (k s : R) (t : list R) : list R := stretch k (retime back s t).
Lemma new_times_len back k s t : length (new_times back k s t) = length t.
Proof. unfold new_times. rewrite stretch_len. apply retime_len. Qed.
Lemma new_times_nth back k s t i : (i < length t)%nat -> nth i (new_times back k s t) 0 = new_time back k s (nth (back_idx back (length t) i) t 0).
Proof. intros Hi. unfold new_times, new_time. rewrite stretch_nth, retime_nth by exact Hi. destruct back; reflexivity. Qed.
Lemma new_times_inc back k s t : 0 < k -> strictly_increasing t -> strictly_increasing (new_times back k s t).
Proof. intros Hk H. apply stretch_inc; [exact Hk|]. apply retime_inc, H. Qed.
Lemma new_time_dist back k s x z : 0 < k -> Rabs (new_time back k s x - new_time back k s z) = k * Rabs (x - z).
Proof.
  intros Hk. unfold new_time. destruct back.
  - replace (k * (s - x) - k * (s - z)) with (k * (z - x)) by ring. rewrite Rabs_mult, (Rabs_pos_eq k) by lra. rewrite Rabs_minus_sym. reflexivity.
  - replace (k * (x + s) - k * (z + s)) with (k * (x - z)) by ring. rewrite Rabs_mult, (Rabs_pos_eq k) by lra. reflexivity.
Qed.
Lemma new_time_inj back k s x z : 0 < k -> new_time back k s x = new_time back k s z -> x = z.
Proof. intros Hk. unfold new_time. destruct back; intros E; (apply Rmult_eq_reg_l in E; [lra|lra]). Qed.

Lemma Rsum_back back n g : Rsum (fun i => g (back_idx back n i)) n = Rsum g n.
Proof.
  apply Rsum_bij.
  - intros i Hi. apply back_lt, Hi.
  - intros i j Hi Hj E. destruct back; cbn [back_idx] in E; lia.
Qed.

Lemma cond_units (K K' : R -> R -> R) back a k s t y e tp m v : 0 < k -> length y = length t -> length e = length t ->
  (forall p q, K' (new_time back k s p) (new_time back k s q) = a * a * K p q) ->
  cond_dist K t y e tp m v ->
  cond_dist K' (new_times back k s t) (rescale back a 0 y) (rescale back a 0 e) (new_time back k s tp) (a * m) (a * a * v).
Proof.
  intros Hk Hy He HK (wt & H1 & -> & ->). unfold cond_dist. rewrite new_times_len. set (n := length t) in *. set (b := back_idx back n).
  assert (forall i, (i < n)%nat -> (b i < n)%nat) as Hb by (intros i Hi; apply back_lt, Hi).
  exists (fun i => wt (b i)). split; [|split].
  - intros j Hj. rewrite new_times_nth by exact Hj. fold n b. rewrite HK, <- (H1 (b j) (Hb j Hj)), <- Rsum_scal.
    rewrite <- (Rsum_back back n (fun k0 => a * a * (wt k0 * obs_cov K (fun i => nth i t 0) (fun i => nth i e 0) k0 (b j)))). fold b.
    apply Rsum_ext. intros i Hi. unfold obs_cov. rewrite !new_times_nth, rescale_nth by lia. rewrite He. fold n. fold b. rewrite HK.
    destruct (Nat.eqb_spec i j) as [->|Hne]; [rewrite Nat.eqb_refl; ring|].
    destruct (Nat.eqb_spec (b i) (b j)) as [E|]; [|ring]. exfalso. apply Hne. unfold b in E. destruct back; cbn [back_idx] in E; lia.
  - rewrite <- Rsum_scal. rewrite <- (Rsum_back back n (fun k0 => a * (wt k0 * nth k0 y 0))). apply Rsum_ext. intros i Hi.
    rewrite rescale_nth by lia. rewrite Hy. fold n b. ring.
  - rewrite HK, Rmult_minus_distr_l, <- Rsum_scal. f_equal. rewrite <- (Rsum_back back n (fun k0 => a * a * (wt k0 * K tp (nth k0 t 0)))).
    apply Rsum_ext. intros i Hi. rewrite new_times_nth by exact Hi. fold n b. rewrite HK. ring.
Qed.

(** the Ornstein-Uhlenbeck parameters in the new units *)
Lemma ou_units back a k s sig w p q : 0 < k -> 0 < w ->
  ou_cov (a * a * sig / k) (w / k) (new_time back k s p) (new_time back k s q) = a * a * ou_cov sig w p q.
Proof.
  intros Hk Hw. unfold ou_cov. rewrite new_time_dist by exact Hk. replace (w / k * (k * Rabs (p - q))) with (w * Rabs (p - q)) by (field; lra). field. lra.
Qed.

(** the CARMA parameters in the new units: roots divided by k, moving average coefficients multiplied by powers of k *)
Definition ma_units (k : R) (ma : list R) : list R := map (fun l => k ^ l * nth l ma 0) (seq 0 (length ma)).
Definition sig_units (a k : R) (p : nat) (sig : R) : R := a * a * sig / k ^ (2 * p - 1).
Lemma ma_units_len k ma : length (ma_units k ma) = length ma.
Proof. unfold ma_units. rewrite map_length. apply seq_length. Qed.
Lemma ma_units_nth k ma l : (l < length ma)%nat -> nth l (ma_units k ma) 0 = k ^ l * nth l ma 0.
Proof. intros H. unfold ma_units. rewrite (nth_map_seq _ 0 H). reflexivity. Qed.
Lemma Cpown_scl r z l : Cpown (scl r z) l = Cmult (RtoC (r ^ l)) (Cpown z l).
Proof. induction l as [|l IH]; cbn [Cpown pow]; [ring|]. rewrite IH, RtoC_mult. unfold scl. ring. Qed.
Lemma ma_poly_units k ma z : 0 < k -> ma_poly (ma_units k ma) (scl (/ k) z) = ma_poly ma z.
Proof.
  intros Hk. unfold ma_poly. rewrite ma_units_len. apply Csum_ext. intros l Hl. rewrite ma_units_nth by exact Hl. rewrite Cpown_scl, RtoC_mult.
  rewrite pow_inv. rewrite (RtoC_inv (k ^ l)) by (apply pow_nonzero; lra). field. apply RtoC_neq0, pow_nonzero. lra.
Qed.
Lemma sig_units_eq a k p sig : 0 < k -> (1 <= p)%nat -> sig_units a k p sig = a * a * sig * (/ k * (/ k * / k) ^ (p - 1)).
Proof.
  intros Hk Hp. unfold sig_units. destruct p as [|p]; [lia|]. replace (2 * S p - 1)%nat with (S (p + p)) by lia. replace (S p - 1)%nat with p by lia.
  cbn [pow]. rewrite pow_add, Rpow_mult_distr, pow_inv. field. split; [apply pow_nonzero; lra|lra].
Qed.
Lemma carma_units back a k s sig ma om p q : 0 < k -> stable_roots om -> (1 <= length om)%nat ->
  carma_cov (sig_units a k (length om) sig) (ma_units k ma) (map (scl (/ k)) om) (new_time back k s p) (new_time back k s q) = a * a * carma_cov sig ma om p q.
Proof.
  intros Hk Hs Hp. unfold carma_cov. rewrite new_time_dist by exact Hk.
  assert (forall g m o tau, carma_acv g m o tau = g * carma_acv 1 m o tau) as Hlin by (intros; unfold carma_acv; ring).
  rewrite Hlin, (acv_scale k om ma (ma_units k ma) (Rabs (p - q)) Hk (fun i Hi => denom_nz om i Hs Hi) (fun z => ma_poly_units k ma z Hk)).
  rewrite (Hlin sig), sig_units_eq by assumption.
  assert (/ k * (/ k * / k) ^ (length om - 1) <> 0) as Hc.
  { apply Rmult_integral_contrapositive_currified; [apply Rinv_neq_0_compat; lra|]. apply pow_nonzero. apply Rmult_integral_contrapositive_currified; apply Rinv_neq_0_compat; lra. }
  set (c := / k * (/ k * / k) ^ (length om - 1)) in *. field. exact Hc.
Qed.
Lemma stable_units k om : 0 < k -> stable_roots om -> stable_roots (map (scl (/ k)) om).
Proof.
  intros Hk (H1 & H2 & H3). split; [|split].
  - apply FinFun.Injective_map_NoDup; [|exact H1]. intros x z E. apply (f_equal (scl k)) in E.
    rewrite !scl_parts in E. cbn [fst snd] in E. injection E as E1 E2. destruct x as [x1 x2], z as [z1 z2]. cbn [fst snd] in *.
    f_equal; [transitivity (k * (/ k * x1))|transitivity (k * (/ k * x2))]; try (field; lra); [rewrite E1|rewrite E2]; field; lra.
  - intros z Hz. apply in_map_iff in Hz. destruct Hz as (x & <- & Hx). rewrite scl_parts. cbn [fst]. specialize (H2 x Hx).
    assert (0 < / k) by (apply Rinv_0_lt_compat, Hk). nra.
  - intros z Hz. apply in_map_iff in Hz. destruct Hz as (x & <- & Hx). apply in_map_iff. exists (Cconj x). split; [|apply H3, Hx].
    rewrite !scl_parts. unfold Cconj. cbn [fst snd]. f_equal. ring.
Qed.
Lemma carma_ok_units a k sig om ma : a <> 0 -> 0 < k -> carma_ok sig om ma -> carma_ok (sig_units a k (length om) sig) (map (scl (/ k)) om) (ma_units k ma).
Proof.
  intros Ha Hk (H1 & H2 & H3 & (l & H4) & H5). split; [apply stable_units; assumption|]. rewrite map_length, ma_units_len. split; [exact H2|]. split; [exact H3|].
  split.
  - exists l. assert (l < length ma)%nat as Hl by (destruct (Nat.lt_ge_cases l (length ma)); [assumption|exfalso; apply H4; apply nth_overflow; lia]).
    rewrite ma_units_nth by exact Hl. apply Rmult_integral_contrapositive_currified; [apply pow_nonzero; lra|exact H4].
  - unfold sig_units. apply Rdiv_lt_0_compat; [|apply pow_lt, Hk]. apply Rmult_lt_0_compat; [|exact H5]. assert (0 <= a * a) by nra. destruct (Req_dec (a * a) 0) as [E|]; [apply Rsqr_0_uniq in E; contradiction|lra].
Qed.
Lemma allowed_units back a k s (t e : list R) tp : a <> 0 -> 0 < k -> length e = length t ->
  (forall i, (i < length t)%nat -> nth i t 0 = tp -> nth i e 0 <> 0) ->
  forall i, (i < length (new_times back k s t))%nat -> nth i (new_times back k s t) 0 = new_time back k s tp -> nth i (rescale back a 0 e) 0 <> 0.
Proof.
  intros Ha Hk He H i Hi. rewrite new_times_len in Hi. rewrite new_times_nth by exact Hi. intros E. apply new_time_inj in E; [|exact Hk].
  rewrite rescale_nth by lia. rewrite He, Rplus_0_r. apply Rmult_integral_contrapositive_currified; [exact Ha|]. apply H; [apply back_lt, Hi|exact E].
Qed.

(** *** Continuity of the kernels *)
Lemma continuity_dist b : continuity (fun x => Rabs (x - b)).
Proof.
  apply (continuity_comp (fun x => x - b) Rabs); [|exact Rcontinuity_abs].
  apply (continuity_minus (fun x => x) (fun _ => b)); [apply derivable_continuous, derivable_id|apply continuity_const; intros u v; reflexivity].
Qed.
Lemma ou_continuous sig w b : continuity (fun x => ou_cov sig w x b).
Proof.
  unfold ou_cov. apply (continuity_mult (fun _ => sig / (2 * w)) (fun x => exp (- (w * Rabs (x - b))))); [apply continuity_const; intros u v; reflexivity|].
  apply (continuity_comp (fun x => Rabs (x - b)) (fun z => exp (- (w * z)))); [apply continuity_dist|].
  apply derivable_continuous. reg.
Qed.
Lemma Csum_fst f n : fst (Csum f n) = Rsum (fun i => fst (f i)) n.
Proof. induction n as [|n IH]; cbn [Csum Rsum]; [reflexivity|]. rewrite <- IH. reflexivity. Qed.
Lemma acv_continuous sig ma om : continuity (carma_acv sig ma om).
Proof.
  apply (continuity_mult (fun _ => sig) (fun tau => fst (Csum (fun k => Cdiv (Cmult (Cmult (ma_poly ma (nth k om (RtoC 0))) (ma_poly ma (Copp (nth k om (RtoC 0)))))
     (Cexp (Cmult (nth k om (RtoC 0)) (RtoC tau)))) (carma_denom om k)) (length om)))); [apply continuity_const; intros u v; reflexivity|].
  assert (forall (u r d : C), continuity (fun tau => fst (Cdiv (Cmult u (Cexp (Cmult r (RtoC tau)))) d))) as H.
  { intros u r d. assert (forall tau, fst (Cdiv (Cmult u (Cexp (Cmult r (RtoC tau)))) d) =
      fst (Cmult u (Cinv d)) * (exp (fst r * tau) * cos (snd r * tau)) - snd (Cmult u (Cinv d)) * (exp (fst r * tau) * sin (snd r * tau))) as E.
    { intros tau. unfold Cdiv. replace (Cmult (Cmult u (Cexp (Cmult r (RtoC tau)))) (Cinv d)) with (Cmult (Cmult u (Cinv d)) (Cexp (Cmult r (RtoC tau)))) by ring.
      unfold Cexp. cbn [Cmult RtoC fst snd]. replace (fst r * tau - snd r * 0) with (fst r * tau) by ring. replace (fst r * 0 + snd r * tau) with (snd r * tau) by ring. ring. }
    intros x. apply (continuity_pt_ext (fun tau => fst (Cmult u (Cinv d)) * (exp (fst r * tau) * cos (snd r * tau)) - snd (Cmult u (Cinv d)) * (exp (fst r * tau) * sin (snd r * tau)))).
    - intros tau. symmetry. apply E.
    - apply derivable_continuous_pt. reg. }
  intros x. apply (continuity_pt_ext (fun tau => Rsum (fun k => fst (Cdiv (Cmult (Cmult (ma_poly ma (nth k om (RtoC 0))) (ma_poly ma (Copp (nth k om (RtoC 0)))))
     (Cexp (Cmult (nth k om (RtoC 0)) (RtoC tau)))) (carma_denom om k))) (length om))).
  - intros tau. symmetry. apply Csum_fst.
  - revert x. apply (Rsum_continuous (fun k tau => fst (Cdiv (Cmult (Cmult (ma_poly ma (nth k om (RtoC 0))) (ma_poly ma (Copp (nth k om (RtoC 0)))))
     (Cexp (Cmult (nth k om (RtoC 0)) (RtoC tau)))) (carma_denom om k)))). intros k. apply H.
Qed.
Lemma carma_continuous sig ma om b : continuity (fun x => carma_cov sig ma om x b).
Proof. apply (continuity_comp (fun x => Rabs (x - b)) (carma_acv sig ma om)); [apply continuity_dist|apply acv_continuous]. Qed.
Lemma carma_diag_continuous sig ma om : continuity (fun x => carma_cov sig ma om x x).
Proof.
  intros x. apply (continuity_pt_ext (fun _ => carma_acv sig ma om 0)).
  - intros z. unfold carma_cov. replace (z - z) with 0 by ring. rewrite Rabs_R0. reflexivity.
  - apply continuity_const. intros u v. reflexivity.
Qed.
Lemma ou_diag_continuous sig w : continuity (fun x => ou_cov sig w x x).
Proof.
  intros x. apply (continuity_pt_ext (fun _ => sig / (2 * w) * exp (- (w * 0)))).
  - intros z. unfold ou_cov. replace (z - z) with 0 by ring. rewrite Rabs_R0. reflexivity.
  - apply continuity_const. intros u v. reflexivity.
Qed.

(** *** The two filters *)
Lemma ou_obs_pd sig w (t e : list R) : 0 < sig -> 0 < w -> strictly_increasing t -> pd (length t) (obs_cov (ou_cov sig w) (fun i => nth i t 0) (fun i => nth i e 0)).
Proof. intros Hs Hw Hi. apply OUpd.ou_pd; try assumption; intros; apply Hi; lia. Qed.
Lemma ou_sym sig w a b : ou_cov sig w a b = ou_cov sig w b a.
Proof. unfold ou_cov. rewrite Rabs_minus_sym. reflexivity. Qed.
Lemma carma_sym sig ma om a b : carma_cov sig ma om a b = carma_cov sig ma om b a.
Proof. unfold carma_cov. rewrite Rabs_minus_sym. reflexivity. Qed.
