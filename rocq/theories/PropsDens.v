(** C30 with the likelihood written as the density of a multivariate normal vector, with the determinant (Laplace expansion) and the
    inverse of the covariance matrix of the measurements; and C30 at theta_0 = 0. *)
From Coq Require Import Reals List Arith ZArith Lra Lia Bool Permutation.
From Coquelicot Require Import Complex.
From Verif Require Import Arith Res ListLemmas KFModel Spec Gauss Emb History InitProof KF1X KF1Main KF1More.
From Verif Require Import Cx KFpModel KFpProof SpecCarma CLin KFpX KFpMain KFpTop KFpMore SpecModel CarpackModel RootsProof PriorProof LogLikProof LogLikMain CarpackTop CarpackRefute.
From Verif Require Import PropsCarpack Det LogDens DetUniq ZeroProof.
Import ListNotations.
Local Open Scope R_scope.

(** covariance matrix of measurements at the times t, with error standard deviations sqrt(scale) e, of a process with covariance function K *)
Definition meas_cov (K : R -> R -> R) (t e : list R) (scale : R) (i j : nat) : R :=
  K (nth i t 0) (nth j t 0) + (if (i =? j)%nat then scale * (nth i e 0 * nth i e 0) else 0).

(** C30: the factored log-likelihood is the logarithm of the normal density
    - 1/2 log det S - 1/2 (y - mu)^T S^-1 (y - mu), S_ij = K(t_i, t_j) + [i = j] scale e_i^2; det S > 0 and S is invertible. *)
Theorem C30_loglik_is_density : forall K (t y e : list R) scale mu x,
  (forall s r, K s r = K r s) -> 0 <= scale -> length y = length t -> length e = length t -> is_loglik K t y e scale mu x ->
  is_normal_ll (length t) (meas_cov K t e scale) (fun i => nth i y 0 - mu) x.
Proof. exact is_loglik_normal. Qed.
Print Assumptions C30_loglik_is_density.
(** C30: there is only one such number. *)
Theorem C30_density_unique : forall n S d x z, is_normal_ll n S d x -> is_normal_ll n S d z -> x = z.
Proof. exact is_normal_ll_unique. Qed.
Print Assumptions C30_density_unique.
(** C30: the determinant used is linear in every row, zero when two rows agree and 1 at the identity.  These properties
    determine it: C30_det_unique. *)
Theorem C30_det_properties : forall n,
  (forall M r a b u v, (r < n)%nat -> det n (setrow M r (fun j => a * u j + b * v j)) = a * det n (setrow M r u) + b * det n (setrow M r v)) /\
  (forall M r s, (r < s < n)%nat -> (forall j, (j < n)%nat -> M r j = M s j) -> det n M = 0) /\
  det n (fun i j => if (i =? j)%nat then 1 else 0) = 1.
Proof.
  intros n. split; [|split].
  - intros M r a b u v Hr. apply det_lin. exact Hr.
  - intros M r s (H1 & H2) H. exact (det_eq_rows n s M r H1 H2 H).
  - rewrite det_upper; [|intros i j Hi Hj; destruct (Nat.eqb_spec i j); [lia|reflexivity]].
    induction n as [|n IH]; [reflexivity|]. cbn. rewrite IH, Nat.eqb_refl. ring.
Qed.
Print Assumptions C30_det_properties.
(** C30: any function of the entries of n x n matrices that is linear in every row, zero when two rows agree and 1 at the identity is this determinant. *)
Theorem C30_det_unique : forall n (D : (nat -> nat -> R) -> R),
  (forall M M', (forall i j, (i < n)%nat -> (j < n)%nat -> M i j = M' i j) -> D M = D M') ->
  (forall M r a b u v, (r < n)%nat -> D (setrow M r (fun j => a * u j + b * v j)) = a * D (setrow M r u) + b * D (setrow M r v)) ->
  (forall M r s, (r < s < n)%nat -> (forall j, (j < n)%nat -> M r j = M s j) -> D M = 0) ->
  D (fun i j => if (i =? j)%nat then 1 else 0) = 1 -> forall M, D M = det n M.
Proof. exact det_unique. Qed.
Print Assumptions C30_det_unique.

(** C30, CAR(1): LogDensity is the logarithm of the normal density plus the log-prior. *)
Theorem C30_density_car1 : forall (si : list (F AX) -> option (list nat)) (raw : kf1 AX) (t y e th : list R),
  valid_sort_index si -> (2 <= length t)%nat -> length y = length t -> length e = length t -> strictly_increasing t ->
  (4 <= length th)%nat -> nth 0 th 0 <> 0 ->
  exists b smax fmin fmax, car1_new si raw (map Fin t) (map Fin y) (map Fin e) = Ok b /\ data_bounds t y smax fmin fmax /\
    forall b1, touched (car1_cls AX) (@setpar1 AX) b b1 -> in_prior1 smax fmin fmax th ->
    exists x b', LogDensity (car1_cls AX) b1 (map Fin th) = Ok (Fin (x + log_sichi (nth 1 th 0)), b') /\
      is_normal_ll (length t) (meas_cov (fun a c => nth 0 th 0 * nth 0 th 0 * exp (- (exp (nth 3 th 0) * Rabs (a - c)))) t e (nth 1 th 0)) (fun i => nth i y 0 - nth 2 th 0) x.
Proof.
  intros si raw t y e th H1 H2 H3 H4 H5 H6 H7. destruct (C30_logdensity_car1 si raw t y e th H1 H2 H3 H4 H5 H6 H7) as (b & smax & fmin & fmax & E & Hd & H).
  exists b, smax, fmin, fmax. split; [exact E|]. split; [exact Hd|]. intros b1 Ht Hin.
  destruct (H b1 Ht) as (Hi & _). destruct (Hi Hin) as (x & b' & EL & Hx). exists x, b'. split; [exact EL|].
  apply C30_loglik_is_density; try assumption.
  - intros s r. rewrite Rabs_minus_sym. reflexivity.
  - destruct Hin as (_ & _ & Hs). lra.
Qed.
Print Assumptions C30_density_car1.

(** C30, CAR(p), p >= 2: LogDensity is the logarithm of the normal density plus the log-prior. *)
Theorem C30_density_carp : forall solve (si : list (F AX) -> option (list nat)) (raw : kfp AX) p (t y e th : list R),
  valid_solve solve -> valid_sort_index si -> goodp raw ->
  (2 <= length t)%nat -> length y = length t -> length e = length t -> strictly_increasing t ->
  (2 <= p)%nat -> (3 + p <= length th)%nat -> nth 0 th 0 <> 0 ->
  exists b smax fmin fmax om ma, carp_new si raw p (map Fin t) (map Fin y) (map Fin e) = Ok b /\ data_bounds t y smax fmin fmax /\
    (length om = p /\ forall s, roots_poly om s = quad_poly th 3 p s) /\ (forall z, ma_poly ma z = RtoC 1) /\
    forall b1, touched (carp_cls solve p) (@setparp AX) b b1 -> in_prior smax fmin fmax th om ->
    exists x b', LogDensity (carp_cls solve p) b1 (map Fin th) = Ok (Fin (x + log_sichi (nth 1 th 0)), b') /\
      is_normal_ll (length t) (meas_cov (carma_cov (nth 0 th 0 * nth 0 th 0 / carma_acv 1 ma om 0) ma om) t e (nth 1 th 0)) (fun i => nth i y 0 - nth 2 th 0) x.
Proof.
  intros solve si raw p t y e th H1 H2 H3 H4 H5 H6 H7 H8 H9 H10. destruct (C30_logdensity_carp solve si raw p t y e th H1 H2 H3 H4 H5 H6 H7 H8 H9 H10) as (b & smax & fmin & fmax & om & ma & E & Hd & M0 & M1 & H).
  exists b, smax, fmin, fmax, om, ma. split; [exact E|]. split; [exact Hd|]. split; [exact M0|]. split; [exact M1|]. intros b1 Ht Hin.
  destruct (H b1 Ht) as (Hi & _). destruct (Hi Hin) as (x & b' & EL & Hx). exists x, b'. split; [exact EL|].
  apply C30_loglik_is_density; try assumption.
  - intros s r. unfold carma_cov. rewrite Rabs_minus_sym. reflexivity.
  - pose proof (pr_scale _ _ _ _ _ Hin). lra.
Qed.
Print Assumptions C30_density_carp.

(** C30, CARMA(p,q), p >= 2: LogDensity is the logarithm of the normal density plus the log-prior. *)
Theorem C30_density_carma : forall solve (si : list (F AX) -> option (list nat)) (raw : kfp AX) p q (t y e th : list R),
  valid_solve solve -> valid_sort_index si -> goodp raw ->
  (2 <= length t)%nat -> length y = length t -> length e = length t -> strictly_increasing t ->
  (2 <= p)%nat -> (q < p)%nat -> (3 + p + q <= length th)%nat -> nth 0 th 0 <> 0 ->
  exists b smax fmin fmax om ma, carp_new si raw p (map Fin t) (map Fin y) (map Fin e) = Ok b /\ data_bounds t y smax fmin fmax /\
    (length om = p /\ forall s, roots_poly om s = quad_poly th 3 p s) /\
    (length ma = p /\ forall z, Cmult (ma_poly ma z) (quad_poly th (3 + p) q (RtoC 0)) = quad_poly th (3 + p) q z) /\
    forall b1, touched (carma_cls solve p q) (@setparp AX) b b1 -> in_prior smax fmin fmax th om ->
    exists x b', LogDensity (carma_cls solve p q) b1 (map Fin th) = Ok (Fin (x + log_sichi (nth 1 th 0)), b') /\
      is_normal_ll (length t) (meas_cov (carma_cov (nth 0 th 0 * nth 0 th 0 / carma_acv 1 ma om 0) ma om) t e (nth 1 th 0)) (fun i => nth i y 0 - nth 2 th 0) x.
Proof.
  intros solve si raw p q t y e th H1 H2 H3 H4 H5 H6 H7 H8 H9 H10 H11. destruct (C30_logdensity_carma solve si raw p q t y e th H1 H2 H3 H4 H5 H6 H7 H8 H9 H10 H11) as (b & smax & fmin & fmax & om & ma & E & Hd & M0 & M1 & H).
  exists b, smax, fmin, fmax, om, ma. split; [exact E|]. split; [exact Hd|]. split; [exact M0|]. split; [exact M1|]. intros b1 Ht Hin.
  destruct (H b1 Ht) as (Hi & _). destruct (Hi Hin) as (x & b' & EL & Hx). exists x, b'. split; [exact EL|].
  apply C30_loglik_is_density; try assumption.
  - intros s r. unfold carma_cov. rewrite Rabs_minus_sym. reflexivity.
  - pose proof (pr_scale _ _ _ _ _ Hin). lra.
Qed.
Print Assumptions C30_density_carma.

(** C30, ZCARMA(p), p >= 2: LogDensity is the logarithm of the normal density plus the log-prior. *)
Theorem C30_density_zcarma : forall solve (si : list (F AX) -> option (list nat)) (raw : kfp AX) p klow khigh (t y e th : list R),
  valid_solve solve -> valid_sort_index si -> goodp raw ->
  (2 <= length t)%nat -> length y = length t -> length e = length t -> strictly_increasing t ->
  (2 <= p)%nat -> (4 + p <= length th)%nat -> 0 < klow < khigh -> nth 0 th 0 <> 0 ->
  exists b smax fmin fmax om ma kappa pr, carp_new si raw p (map Fin t) (map Fin y) (map Fin e) = Ok b /\ data_bounds t y smax fmin fmax /\
    (length om = p /\ forall s, roots_poly om s = quad_poly th 3 p s) /\
    (klow < kappa < khigh /\ forall z, ma_poly ma z = Cpown (Cplus (RtoC 1) (Cdiv z (RtoC kappa))) (p - 1)) /\
    forall b1, touched (zcarma_cls solve p (Fin klow : F AX) (Fin khigh)) (@setparp AX) b b1 -> in_prior smax fmin fmax th om ->
    LogPrior_z AX p (map Fin th) = Ok (Fin pr) /\ exists x b', LogDensity (zcarma_cls solve p (Fin klow : F AX) (Fin khigh)) b1 (map Fin th) = Ok (Fin (x + pr), b') /\
      is_normal_ll (length t) (meas_cov (carma_cov (nth 0 th 0 * nth 0 th 0 / carma_acv 1 ma om 0) ma om) t e (nth 1 th 0)) (fun i => nth i y 0 - nth 2 th 0) x.
Proof.
  intros solve si raw p klow khigh t y e th H1 H2 H3 H4 H5 H6 H7 H8 H9 H10 H11. destruct (C30_logdensity_zcarma solve si raw p klow khigh t y e th H1 H2 H3 H4 H5 H6 H7 H8 H9 H10 H11) as (b & smax & fmin & fmax & om & ma & kappa & pr & E & Hd & M0 & M1 & H).
  exists b, smax, fmin, fmax, om, ma, kappa, pr. split; [exact E|]. split; [exact Hd|]. split; [exact M0|]. split; [exact M1|]. intros b1 Ht Hin.
  destruct (H b1 Ht) as (Hi & _). destruct (Hi Hin) as (Ep & x & b' & EL & Hx). split; [exact Ep|]. exists x, b'. split; [exact EL|].
  apply C30_loglik_is_density; try assumption.
  - intros s r. unfold carma_cov. rewrite Rabs_minus_sym. reflexivity.
  - pose proof (pr_scale _ _ _ _ _ Hin). lra.
Qed.
Print Assumptions C30_density_zcarma.

(** C30 at theta_0 = 0, CAR(1): the process vanishes, the measurements are independent normals; with an exact measurement (e_i = 0) the
    log-density is NaN, so neither finite nor -infinity. *)
Theorem C30_zero_car1 : forall (si : list (F AX) -> option (list nat)) (raw : kf1 AX) (t y e th : list R),
  valid_sort_index si -> (2 <= length t)%nat -> length y = length t -> length e = length t -> strictly_increasing t ->
  (4 <= length th)%nat -> nth 0 th 0 = 0 ->
  exists b smax fmin fmax, car1_new si raw (map Fin t) (map Fin y) (map Fin e) = Ok b /\ data_bounds t y smax fmin fmax /\
    forall b1, touched (car1_cls AX) (@setpar1 AX) b b1 -> in_prior1 smax fmin fmax th ->
    ((forall i, (i < length t)%nat -> nth i e 0 <> 0) -> exists x b', LogDensity (car1_cls AX) b1 (map Fin th) = Ok (Fin (x + log_sichi (nth 1 th 0)), b') /\
       is_normal_ll (length t) (meas_cov (fun _ _ => 0) t e (nth 1 th 0)) (fun i => nth i y 0 - nth 2 th 0) x) /\
    ((exists i, (i < length t)%nat /\ nth i e 0 = 0) -> exists b', LogDensity (car1_cls AX) b1 (map Fin th) = Ok (NaN, b')).
Proof.
  intros si raw t y e th Hsi Hn Hy He Hinc HL Ht0.
  destruct (base_new_Fin _ si raw t y e Hsi Hn Hy He Hinc) as (b & smax & fmin & fmax & E & Hb & Hd).
  exists b, smax, fmin, fmax. split; [exact E|]. split; [exact Hd|]. intros b1 Ht Hin.
  pose proof (holds_touched1 b b1 t y e _ Hb Ht) as Hb1.
  pose proof (LD1_zero b1 t y e th smax fmin fmax false Hb1 HL Hin Ht0) as HZ. destruct Hin as (_ & _ & Hs & _).
  destruct HZ as (Z1 & Z2). split; [|exact Z2]. intros Hnz. destruct (Z1 Hnz) as (x & b' & EL & Hx). exists x, b'. split; [exact EL|].
  apply C30_loglik_is_density; try assumption; [reflexivity|lra].
Qed.
Print Assumptions C30_zero_car1.

(** C30 at theta_0 = 0, CAR(p), p >= 2: the process vanishes, the measurements are independent normals; with an exact measurement (e_i = 0) the
    log-density is NaN, so neither finite nor -infinity. *)
Theorem C30_zero_carp : forall solve (si : list (F AX) -> option (list nat)) (raw : kfp AX) p (t y e th : list R),
  valid_solve solve -> valid_sort_index si -> goodp raw ->
  (2 <= length t)%nat -> length y = length t -> length e = length t -> strictly_increasing t ->
  (2 <= p)%nat -> (3 + p <= length th)%nat -> nth 0 th 0 = 0 ->
  exists b smax fmin fmax om, carp_new si raw p (map Fin t) (map Fin y) (map Fin e) = Ok b /\ data_bounds t y smax fmin fmax /\
    (length om = p /\ forall s, roots_poly om s = quad_poly th 3 p s) /\
    forall b1, touched (carp_cls solve p) (@setparp AX) b b1 -> in_prior smax fmin fmax th om ->
    ((forall i, (i < length t)%nat -> nth i e 0 <> 0) -> exists x b', LogDensity (carp_cls solve p) b1 (map Fin th) = Ok (Fin (x + log_sichi (nth 1 th 0)), b') /\
       is_normal_ll (length t) (meas_cov (fun _ _ => 0) t e (nth 1 th 0)) (fun i => nth i y 0 - nth 2 th 0) x) /\
    ((exists i, (i < length t)%nat /\ nth i e 0 = 0) -> exists b', LogDensity (carp_cls solve p) b1 (map Fin th) = Ok (NaN, b')).
Proof.
  intros solve si raw p t y e th Hsv Hsi Hg Hn Hy He Hinc Hp HL Ht0.
  destruct (carp_new_Fin si raw p t y e Hsi Hn Hy He Hinc ltac:(lia)) as (b & smax & fmin & fmax & E & Hb & Hd).
  assert (3 + p <= length th)%nat as HL' by lia.
  destruct (roots_of p th HL') as (om & EA & Lo & Hneg & _ & Hpoly & _).
  exists b, smax, fmin, fmax, om. split; [exact E|]. split; [exact Hd|]. split; [split; assumption|].
  intros b1 Ht Hin. destruct (carp_new_wfb AX si raw p (map Fin t) (map Fin y) (map Fin e) b ltac:(rewrite !map_length; assumption) ltac:(rewrite !map_length; assumption) Hg E) as (_ & _ & _ & Hgb & _ & _).
  pose proof (holds_touchedp solve p _ _ b b1 t y e _ Hb Hgb Ht) as Hb1.
  assert (0 < nth 1 th 0) as Hs by (pose proof (pr_scale _ _ _ _ _ Hin); lra).
  assert (HZ := LDp_zero solve p (fun _ => Ok (carp_ma AX p)) (LogPrior AX) b1 t y e th (upd (repeat 0 p) 0 1) om smax fmin fmax (log_sichi (nth 1 th 0)) Hsv Hb1 Hp HL').
  specialize (HZ ltac:(rewrite carp_ma_Fin; reflexivity)).
  specialize (HZ ltac:(apply carp_ma_len)).
  specialize (HZ ltac:(apply carp_ma_nz; lia)).
  specialize (HZ ltac:(apply LogPrior_main; [lia|exact Hs])).
  specialize (HZ ltac:(exact EA)).
  specialize (HZ ltac:(exact Hin)).
  specialize (HZ ltac:(exact Ht0)).
  destruct HZ as (Z1 & Z2). split; [|exact Z2]. intros Hnz. destruct (Z1 Hnz) as (x & b' & EL & Hx). exists x, b'. split; [exact EL|].
  apply C30_loglik_is_density; try assumption; [reflexivity|lra].
Qed.
Print Assumptions C30_zero_carp.

(** C30 at theta_0 = 0, CARMA(p,q), p >= 2: the process vanishes, the measurements are independent normals; with an exact measurement (e_i = 0) the
    log-density is NaN, so neither finite nor -infinity. *)
Theorem C30_zero_carma : forall solve (si : list (F AX) -> option (list nat)) (raw : kfp AX) p q (t y e th : list R),
  valid_solve solve -> valid_sort_index si -> goodp raw ->
  (2 <= length t)%nat -> length y = length t -> length e = length t -> strictly_increasing t ->
  (2 <= p)%nat -> (q < p)%nat -> (3 + p + q <= length th)%nat -> nth 0 th 0 = 0 ->
  exists b smax fmin fmax om, carp_new si raw p (map Fin t) (map Fin y) (map Fin e) = Ok b /\ data_bounds t y smax fmin fmax /\
    (length om = p /\ forall s, roots_poly om s = quad_poly th 3 p s) /\
    forall b1, touched (carma_cls solve p q) (@setparp AX) b b1 -> in_prior smax fmin fmax th om ->
    ((forall i, (i < length t)%nat -> nth i e 0 <> 0) -> exists x b', LogDensity (carma_cls solve p q) b1 (map Fin th) = Ok (Fin (x + log_sichi (nth 1 th 0)), b') /\
       is_normal_ll (length t) (meas_cov (fun _ _ => 0) t e (nth 1 th 0)) (fun i => nth i y 0 - nth 2 th 0) x) /\
    ((exists i, (i < length t)%nat /\ nth i e 0 = 0) -> exists b', LogDensity (carma_cls solve p q) b1 (map Fin th) = Ok (NaN, b')).
Proof.
  intros solve si raw p q t y e th Hsv Hsi Hg Hn Hy He Hinc Hp Hq HL Ht0.
  destruct (carp_new_Fin si raw p t y e Hsi Hn Hy He Hinc ltac:(lia)) as (b & smax & fmin & fmax & E & Hb & Hd).
  assert (3 + p <= length th)%nat as HL' by lia.
  destruct (roots_of p th HL') as (om & EA & Lo & Hneg & _ & Hpoly & _).
  destruct (ExtractMA_carma_main p q th Hq HL) as (ma & EM & Lm & H0 & _).
  exists b, smax, fmin, fmax, om. split; [exact E|]. split; [exact Hd|]. split; [split; assumption|].
  intros b1 Ht Hin. destruct (carp_new_wfb AX si raw p (map Fin t) (map Fin y) (map Fin e) b ltac:(rewrite !map_length; assumption) ltac:(rewrite !map_length; assumption) Hg E) as (_ & _ & _ & Hgb & _ & _).
  pose proof (holds_touchedp solve p _ _ b b1 t y e _ Hb Hgb Ht) as Hb1.
  assert (0 < nth 1 th 0) as Hs by (pose proof (pr_scale _ _ _ _ _ Hin); lra).
  assert (HZ := LDp_zero solve p (ExtractMA_carma AX p q) (LogPrior AX) b1 t y e th ma om smax fmin fmax (log_sichi (nth 1 th 0)) Hsv Hb1 Hp HL').
  specialize (HZ ltac:(exact EM)).
  specialize (HZ ltac:(exact Lm)).
  specialize (HZ ltac:(exists O; rewrite H0; lra)).
  specialize (HZ ltac:(apply LogPrior_main; [lia|exact Hs])).
  specialize (HZ ltac:(exact EA)).
  specialize (HZ ltac:(exact Hin)).
  specialize (HZ ltac:(exact Ht0)).
  destruct HZ as (Z1 & Z2). split; [|exact Z2]. intros Hnz. destruct (Z1 Hnz) as (x & b' & EL & Hx). exists x, b'. split; [exact EL|].
  apply C30_loglik_is_density; try assumption; [reflexivity|lra].
Qed.
Print Assumptions C30_zero_carma.

(** C30 at theta_0 = 0, ZCARMA(p), p >= 2: the process vanishes, the measurements are independent normals; with an exact measurement (e_i = 0) the
    log-density is NaN, so neither finite nor -infinity. *)
Theorem C30_zero_zcarma : forall solve (si : list (F AX) -> option (list nat)) (raw : kfp AX) p klow khigh (t y e th : list R),
  valid_solve solve -> valid_sort_index si -> goodp raw ->
  (2 <= length t)%nat -> length y = length t -> length e = length t -> strictly_increasing t ->
  (2 <= p)%nat -> (4 + p <= length th)%nat -> 0 < klow < khigh -> nth 0 th 0 = 0 ->
  exists b smax fmin fmax om pr, carp_new si raw p (map Fin t) (map Fin y) (map Fin e) = Ok b /\ data_bounds t y smax fmin fmax /\
    (length om = p /\ forall s, roots_poly om s = quad_poly th 3 p s) /\
    forall b1, touched (zcarma_cls solve p (Fin klow : F AX) (Fin khigh)) (@setparp AX) b b1 -> in_prior smax fmin fmax th om ->
    LogPrior_z AX p (map Fin th) = Ok (Fin pr) /\
    ((forall i, (i < length t)%nat -> nth i e 0 <> 0) -> exists x b', LogDensity (zcarma_cls solve p (Fin klow : F AX) (Fin khigh)) b1 (map Fin th) = Ok (Fin (x + pr), b') /\
       is_normal_ll (length t) (meas_cov (fun _ _ => 0) t e (nth 1 th 0)) (fun i => nth i y 0 - nth 2 th 0) x) /\
    ((exists i, (i < length t)%nat /\ nth i e 0 = 0) -> exists b', LogDensity (zcarma_cls solve p (Fin klow : F AX) (Fin khigh)) b1 (map Fin th) = Ok (NaN, b')).
Proof.
  intros solve si raw p klow khigh t y e th Hsv Hsi Hg Hn Hy He Hinc Hp HL Hk Ht0.
  destruct (carp_new_Fin si raw p t y e Hsi Hn Hy He Hinc ltac:(lia)) as (b & smax & fmin & fmax & E & Hb & Hd).
  assert (3 + p <= length th)%nat as HL' by lia.
  destruct (roots_of p th HL') as (om & EA & Lo & Hneg & _ & Hpoly & _).
  destruct (ExtractMA_zcarma_main p klow khigh th ltac:(lia) HL Hk) as (ma & kappa & EM & Hkap & Lm & _ & Hmp).
  assert (exists pr, 0 < nth 1 th 0 -> LogPrior_z AX p (map Fin th) = Ok (Fin pr)) as (pr & Epr).
  { destruct (Rlt_dec 0 (nth 1 th 0)) as [Ht1|Ht1]; [destruct (LogPrior_z_main p th HL Ht1) as (D & _ & _ & Epr); eexists; intros _; exact Epr|exists 0; intros; lra]. }
  exists b, smax, fmin, fmax, om, pr. split; [exact E|]. split; [exact Hd|]. split; [split; assumption|].
  intros b1 Ht Hin. destruct (carp_new_wfb AX si raw p (map Fin t) (map Fin y) (map Fin e) b ltac:(rewrite !map_length; assumption) ltac:(rewrite !map_length; assumption) Hg E) as (_ & _ & _ & Hgb & _ & _).
  pose proof (holds_touchedp solve p _ _ b b1 t y e _ Hb Hgb Ht) as Hb1.
  assert (0 < nth 1 th 0) as Hs by (pose proof (pr_scale _ _ _ _ _ Hin); lra).
  split; [exact (Epr Hs)|].
  assert (HZ := LDp_zero solve p (ExtractMA_zcarma AX p (Fin klow) (Fin khigh)) (LogPrior_z AX p) b1 t y e th ma om smax fmin fmax (pr) Hsv Hb1 Hp HL').
  specialize (HZ ltac:(exact EM)).
  specialize (HZ ltac:(exact Lm)).
  assert (exists l, nth l ma 0 <> 0) as Nz.
  { exists O. intros Hz. assert (ma_poly ma (RtoC 0) = RtoC 1) as H1.
    { rewrite Hmp. unfold Cdiv. rewrite Cmult_0_l, Cplus_0_r. generalize (p - 1)%nat as n. induction n as [|n IH]; [reflexivity|]. cbn [Cpown]. rewrite IH. ring. }
    unfold ma_poly in H1. destruct ma as [|c0 ma]; [cbn in Lm; lia|]. cbn [length] in H1.
    rewrite Csum_first in H1 by (intros k; cbn [Cpown]; ring). cbn [nth Cpown] in *. subst c0.
    apply (f_equal fst) in H1. cbn in H1. lra. }
  specialize (HZ Nz).
  specialize (HZ ltac:(exact (Epr Hs))).
  specialize (HZ ltac:(exact EA)).
  specialize (HZ ltac:(exact Hin)).
  specialize (HZ ltac:(exact Ht0)).
  destruct HZ as (Z1 & Z2). split; [|exact Z2]. intros Hnz. destruct (Z1 Hnz) as (x & b' & EL & Hx). exists x, b'. split; [exact EL|].
  apply C30_loglik_is_density; try assumption; [reflexivity|lra].
Qed.
Print Assumptions C30_zero_zcarma.

(** ** The hypotheses are met (those for theta_0 <> 0 by ex_prior1, ex_priorp, ex_goodp and ex_touched of PropsCarpack) *)
Example ex_zero1 : forall smax fmin fmax, data_bounds tS yS smax fmin fmax -> in_prior1 smax fmin fmax (0 :: tl thS).
Proof.
  intros smax fmin fmax H. pose proof (priorS smax fmin fmax H) as Hp. unfold in_prior1 in *. cbn [nth tl thS] in *. cbn in *. lra.
Qed.
Example ex_zerop : forall smax fmin fmax, data_bounds tE yE smax fmin fmax ->
  exists om, length om = 2%nat /\ (forall s, roots_poly om s = quad_poly (0 :: tl thE) 3 2 s) /\ in_prior smax fmin fmax (0 :: tl thE) om.
Proof.
  intros smax fmin fmax H. destruct (ex_priorp smax fmin fmax H) as (om & L & Hq & [I1 I2 I3 I4 I5 I6]). exists om. split; [exact L|]. split; [exact Hq|].
  constructor; try assumption. cbn [nth tl thE] in *. lra.
Qed.
(** a normal density in two dimensions: S = [[2,1],[1,2]], d = (1,0): -1/2 ln 3 - 1/3 *)
Example ex_normal : is_normal_ll 2 (fun i j => if (i =? j)%nat then 2 else 1) (fun i => if (i =? 0)%nat then 1 else 0) (- (1 / 2) * ln 3 - 1 / 3).
Proof.
  exists (fun i j => if (i =? j)%nat then 2 / 3 else - (1 / 3)).
  assert (det 2 (fun i j : nat => if (i =? j)%nat then 2 else 1) = 3) as E by (cbn; ring).
  rewrite E. split; [|split; [lra|]].
  - intros [|[|i]] [|[|j]] Hi Hj; try lia; split; cbn; field.
  - cbn. field.
Qed.
