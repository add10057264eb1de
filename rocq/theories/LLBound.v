(** Bounds on the Gaussian log-likelihood which do not involve the correlations (C122). *)
From Coq Require Import Reals Lra Lia List.
From Verif Require Import Spec SpecCarma SpecModel Gauss KF1R KF1More RamProof PySim LogFact Det LogDens.
Import ListNotations.
Local Open Scope R_scope.

Section Factor.
Variable n : nat.
Variables L K : nat -> nat -> R.
Variables D v u d : nat -> R.
Hypothesis Ht : forall i k, (i < n)%nat -> (i < k)%nat -> L i k = 0.
Hypothesis Hd : forall i, (i < n)%nat -> L i i = sqrt (v i).
Hypothesis Hv : forall i, (i < n)%nat -> 0 < v i.
Hypothesis HS : forall i j, (i < n)%nat -> (j < n)%nat -> Rsum (fun k => L i k * L j k) n = K i j + (if (i =? j)%nat then D i else 0).
Hypothesis Hu : forall i, (i < n)%nat -> d i = Rsum (fun k => L i k * u k) n.
Hypothesis HD : forall i, (i < n)%nat -> 0 < D i.
Hypothesis HK : forall m, (m <= n)%nat -> psd m K.

Lemma L_nz i : (i < n)%nat -> L i i <> 0.
Proof using Hd Hv. intros Hi. rewrite Hd by exact Hi. pose proof (sqrt_lt_R0 (v i) (Hv i Hi)). lra. Qed.
Lemma L_sq i : (i < n)%nat -> L i i * L i i = v i.
Proof using Hd Hv. intros Hi. rewrite Hd by exact Hi. apply sqrt_sqrt. left. apply Hv, Hi. Qed.
Lemma single_le f m i : (i < m)%nat -> (forall k, (k < m)%nat -> 0 <= f k) -> f i <= Rsum f m.
Proof using.
  induction m as [|m IH]; intros Hi H; [lia|]. rewrite Rsum_S. destruct (Nat.eq_dec i m) as [->|].
  - pose proof (Rsum_nonneg f m (fun k Hk => H k (Nat.lt_lt_succ_r _ _ Hk))). lra.
  - pose proof (IH ltac:(lia) (fun k Hk => H k (Nat.lt_lt_succ_r _ _ Hk))). pose proof (H m ltac:(lia)). lra.
Qed.
Lemma cut_sum f m : (m <= n)%nat -> (forall k, (m <= k < n)%nat -> f k = 0) -> Rsum f n = Rsum f m.
Proof using.
  intros Hm H. replace n with (m + (n - m))%nat by lia. rewrite Rsum_app. rewrite (Rsum_0 (fun k => f (m + k)%nat)); [ring|].
  intros k Hk. apply H. lia.
Qed.
(** the quadratic form of K + D at z, from a solution of L^T z = w in the first m coordinates *)
Lemma form_split m z w : (m <= n)%nat -> (forall k, (k < m)%nat -> Rsum (fun i => L i k * z i) m = w k) ->
  Rsum (fun k => w k * w k) m = Rsum (fun i => Rsum (fun j => z i * K i j * z j) m) m + Rsum (fun i => D i * (z i * z i)) m.
Proof using Ht HS.
  intros Hm Hz.
  rewrite (Rsum_ext _ (fun k => Rsum (fun i => Rsum (fun j => L i k * L j k * (z i * z j)) m) m)).
  2:{ intros k Hk. rewrite <- (Hz k Hk). rewrite <- Rsum_scal. apply Rsum_ext. intros i Hi. rewrite Rmult_comm, <- Rsum_scal. apply Rsum_ext. intros j Hj. ring. }
  rewrite Rsum_swap. rewrite <- Rsum_plus. apply Rsum_ext. intros i Hi. rewrite Rsum_swap.
  rewrite (Rsum_ext _ (fun j => z i * K i j * z j + (if (i =? j)%nat then 1 else 0) * (D j * (z j * z j)))).
  - rewrite Rsum_plus, Rsum_delta by exact Hi. reflexivity.
  - intros j Hj. rewrite (Rsum_ext _ (fun k => z i * z j * (L i k * L j k))) by (intros; ring). rewrite Rsum_scal.
    rewrite <- (cut_sum (fun k => L i k * L j k) m Hm) by (intros k Hk; rewrite (Ht i k) by lia; ring).
    rewrite HS by lia. destruct (Nat.eqb_spec i j) as [->|]; ring.
Qed.
Lemma v_up i : (i < n)%nat -> v i <= K i i + D i.
Proof using Ht Hd Hv HS.
  intros Hi. pose proof (HS i i Hi Hi) as E. rewrite Nat.eqb_refl in E. rewrite <- E, <- L_sq by exact Hi.
  apply (single_le (fun k => L i k * L i k)); [exact Hi|]. intros k _. apply Rle_0_sqr.
Qed.
Lemma v_low i : (i < n)%nat -> D i <= v i.
Proof using Ht Hd Hv HS HD HK.
  intros Hi. assert (S i <= n)%nat as Hm by lia.
  destruct (upper_solve L (S i)) with (u := fun k => if (k =? i)%nat then L i i else 0) as (z & Hz).
  - intros k Hk. apply L_nz. lia.
  - intros a b Ha Hab. apply Ht; lia.
  - pose proof (form_split (S i) z _ Hm Hz) as E.
    assert (z i = 1) as Zi.
    { pose proof (Hz i ltac:(lia)) as Q. rewrite Nat.eqb_refl, Rsum_S, (Rsum_0 (fun k => L k i * z k)) in Q by (intros k Hk; rewrite Ht by lia; ring).
      pose proof (L_nz i Hi). apply (Rmult_eq_reg_l (L i i)); [lra|assumption]. }
    assert (Rsum (fun k => (if (k =? i)%nat then L i i else 0) * (if (k =? i)%nat then L i i else 0)) (S i) = v i) as E0.
    { rewrite Rsum_S, Nat.eqb_refl, L_sq by exact Hi. rewrite Rsum_0; [ring|]. intros k Hk. destruct (Nat.eqb_spec k i); [lia|ring]. }
    pose proof (eq_trans (eq_sym E0) E) as E1. clear E. rename E1 into E.
    pose proof (HK (S i) Hm z) as P.
    assert (D i <= Rsum (fun j => D j * (z j * z j)) (S i)) as Q.
    { assert (D i = D i * (z i * z i)) as -> by (rewrite Zi; ring). apply (single_le (fun j => D j * (z j * z j))); [lia|].
      intros k Hk. pose proof (HD k ltac:(lia)). apply Rmult_le_pos; [lra|apply Rle_0_sqr]. }
    lra.
Qed.
Lemma u_up : Rsum (fun k => u k * u k) n <= Rsum (fun i => d i * d i / D i) n.
Proof using Ht Hd Hv HS Hu HD HK.
  destruct (upper_solve L n L_nz Ht u) as (z & Hz). pose proof (form_split n z u (le_n n) Hz) as E. pose proof (HK n (le_n n) z) as P.
  assert (Rsum (fun k => u k * u k) n = Rsum (fun i => z i * d i) n) as E2.
  { rewrite (Rsum_ext (fun i => z i * d i) (fun i => Rsum (fun k => L i k * z i * u k) n)).
    2:{ intros i Hi. rewrite (Hu i Hi), <- Rsum_scal. apply Rsum_ext. intros k Hk. ring. }
    rewrite Rsum_swap. apply Rsum_ext. intros k Hk. rewrite <- (Hz k Hk) at 1. rewrite Rmult_comm, <- Rsum_scal. apply Rsum_ext. intros i Hi. ring. }
  assert (2 * Rsum (fun i => z i * d i) n <= Rsum (fun i => D i * (z i * z i)) n + Rsum (fun i => d i * d i / D i) n) as CS.
  { rewrite <- Rsum_scal, <- Rsum_plus. apply Rsum_le. intros i Hi. pose proof (HD i Hi) as Di.
    assert (D i * (z i * z i) + d i * d i / D i - 2 * (z i * d i) = (D i * z i - d i) * (D i * z i - d i) / D i) as Q by (field; lra).
    assert (0 <= (D i * z i - d i) * (D i * z i - d i) / D i) by (apply Rmult_le_pos; [apply Rle_0_sqr|left; apply Rinv_0_lt_compat, Di]). lra. }
  lra.
Qed.
Lemma u_low i : (i < n)%nat -> d i * d i / (K i i + D i) <= Rsum (fun k => u k * u k) n.
Proof using Ht Hd Hv HS Hu.
  intros Hi. pose proof (Rlt_le_trans _ _ _ (Hv i Hi) (v_up i Hi)) as Pos. pose proof (cauchy_schwarz n (L i) u) as CS. rewrite <- (Hu i Hi) in CS.
  rewrite (Rsum_ext (fun m => L i m ^ 2) (fun k => L i k * L i k)), (HS i i Hi Hi), Nat.eqb_refl in CS by (intros; ring).
  rewrite (Rsum_ext (fun m => u m ^ 2) (fun k => u k * u k)) in CS by (intros; ring).
  apply (Rmult_le_reg_l (K i i + D i)); [exact Pos|]. replace ((K i i + D i) * (d i * d i / (K i i + D i))) with (d i ^ 2) by (field; lra). exact CS.
Qed.
End Factor.

Lemma psd_ext n K1 K2 : (forall i j, (i < n)%nat -> (j < n)%nat -> K1 i j = K2 i j) -> psd n K1 -> psd n K2.
Proof. intros H P a. rewrite <- (Rsum_ext _ _ n (fun i Hi => Rsum_ext _ _ n (fun j Hj => f_equal (fun x => a i * x * a j) (H i j Hi Hj)))). apply P. Qed.
Lemma psd_sub n m K : (m <= n)%nat -> psd n K -> psd m K.
Proof.
  intros Hm P a. pose proof (P (fun i => if (i <? m)%nat then a i else 0)) as Q.
  assert (forall f, (forall k, (m <= k < n)%nat -> f k = 0) -> Rsum f n = Rsum f m) as C.
  { intros f H. replace n with (m + (n - m))%nat by lia. rewrite Rsum_app, (Rsum_0 (fun k => f (m + k)%nat)) by (intros k Hk; apply H; lia). ring. }
  rewrite C in Q.
  2:{ intros k Hk. apply Rsum_0. intros j Hj. destruct (Nat.ltb_spec k m); [lia|ring]. }
  rewrite (Rsum_ext _ (fun k => Rsum (fun j => a k * K k j * a j) m)) in Q; [exact Q|].
  intros k Hk. rewrite C by (intros j Hj; destruct (Nat.ltb_spec j m); [lia|ring]). apply Rsum_ext. intros j Hj.
  destruct (Nat.ltb_spec k m); [|lia]. destruct (Nat.ltb_spec j m); [reflexivity|lia].
Qed.

(** the log-likelihood lies between two numbers which depend on the autocovariance only through the variance s2 *)
Theorem loglik_bounds K t y e scale mu x s2 : (forall s r, K s r = K r s) -> 0 < scale -> length y = length t -> length e = length t ->
  psd (length t) (fun i j => K (nth i t 0) (nth j t 0)) -> (forall a, K a a = s2) -> (forall i, (i < length t)%nat -> nth i e 0 <> 0) ->
  is_loglik K t y e scale mu x ->
  let D i := scale * (nth i e 0 * nth i e 0) in
  - (1 / 2) * Rsum (fun i => ln (s2 + D i)) (length t) - 1 / 2 * Rsum (fun i => (nth i y 0 - mu) ^ 2 / D i) (length t) <= x /\
  forall k, (k < length t)%nat -> x <= - (1 / 2) * Rsum (fun i => ln (D i)) (length t) - 1 / 2 * ((nth k y 0 - mu) ^ 2 / (s2 + D k)).
Proof.
  intros Ks Hs Hy He HP H0 Hn H D. destruct (is_loglik_factor K t y e scale mu x Ks (Rlt_le _ _ Hs) Hy He H) as (L & v & u & H1 & H2 & H3 & H4 & H5 & ->).
  set (n := length t) in *. set (Kn := fun i j => K (nth i t 0) (nth j t 0)) in *.
  assert (forall i, (i < n)%nat -> 0 < D i) as HD.
  { intros i Hi. unfold D. apply Rmult_lt_0_compat; [exact Hs|]. apply Rsqr_pos_lt. apply Hn, Hi. }
  assert (forall m, (m <= n)%nat -> psd m Kn) as HK by (intros m Hm; exact (psd_sub n m Kn Hm HP)).
  assert (forall i j, (i < n)%nat -> (j < n)%nat -> Rsum (fun k => L i k * L j k) n = Kn i j + (if (i =? j)%nat then D i else 0)) as HS by exact H4.
  pose proof (fun i Hi => v_up n L Kn D v H1 H2 H3 HS i Hi) as Vu. pose proof (fun i Hi => v_low n L Kn D v H1 H2 H3 HS HD HK i Hi) as Vl.
  pose proof (u_up n L Kn D v u (fun i => nth i y 0 - mu) H1 H2 H3 HS H5 HD HK) as Uu.
  pose proof (fun i Hi => u_low n L Kn D v u (fun i => nth i y 0 - mu) H1 H2 H3 HS H5 i Hi) as Ul. cbv beta in Uu, Ul.
  assert (forall i, Kn i i = s2) as Kd by (intros i; apply H0). 
  assert (forall a b, a <= b -> 0 < a -> ln a <= ln b) as lnle by (intros a b [Hl|Hl] Ha; [left; apply ln_increasing; assumption|right; rewrite Hl; reflexivity]).
  assert (Rsum (fun i => ln (v i)) n <= Rsum (fun i => ln (s2 + D i)) n) as A1.
  { apply Rsum_le. intros i Hi. apply lnle; [|apply H3, Hi]. rewrite <- (Kd i). apply Vu, Hi. }
  assert (Rsum (fun i => ln (D i)) n <= Rsum (fun i => ln (v i)) n) as A2 by (apply Rsum_le; intros i Hi; apply lnle; [apply Vl, Hi|apply HD, Hi]).
  rewrite Rsum_minus, !Rsum_scal. split.
  - rewrite (Rsum_ext (fun i => (nth i y 0 - mu) ^ 2 / D i) (fun i => (nth i y 0 - mu) * (nth i y 0 - mu) / D i)) by (intros; unfold Rdiv; ring). lra.
  - intros k Hk. specialize (Ul k Hk). rewrite Kd in Ul. replace ((nth k y 0 - mu) ^ 2) with ((nth k y 0 - mu) * (nth k y 0 - mu)) by ring. lra.
Qed.
