(** Property theorems about the model classes of carpack.hpp (C19, C21-C32). *)
From Coq Require Import Reals List Arith ZArith Lra Lia Bool Permutation.
From Coquelicot Require Import Complex.
From Verif Require Import Arith Res ListLemmas KFModel Spec Gauss Emb History InitProof KF1X KF1Main KF1More.
From Verif Require Import Cx KFpModel KFpProof SpecCarma CLin KFpX KFpMain KFpTop KFpMore SpecModel CarpackModel RootsProof PriorProof LogLikProof LogLikMain CarpackTop CarpackRefute.
Import ListNotations.
Local Open Scope R_scope.

(** C21: the autoregressive polynomial built from theta is the product of the quadratic terms; its roots are stable and
    closed under conjugation. *)
Theorem C21_ar_roots_stable : forall p (th : list R), (3 + p <= length th)%nat ->
  exists roots : list C, ARRoots AX p (map Fin th) = Ok (map FinC roots) /\ length roots = p /\
    (forall r, In r roots -> fst r < 0) /\ conj_closed roots /\ forall s, roots_poly roots s = quad_poly th 3 p s.
Proof. exact ARRoots_main. Qed.
Print Assumptions C21_ar_roots_stable.

(** C22: polycoefs multiplies out prod (x - r). *)
Theorem C22_polycoefs : forall l : list C, exists cs : list C, polycoefs (map FinC l) = map (fun c => Fin (fst c)) cs /\
  length cs = S (length l) /\ nth 0 cs (RtoC 0) = RtoC 1 /\ (forall x, desc_poly cs x = roots_poly l x) /\
  (conj_closed l -> forall c, In c cs -> snd c = 0).
Proof. exact polycoefs_main. Qed.
Print Assumptions C22_polycoefs.

(** C23: the moving average coefficients of a CARMA(p,q) model. *)
Theorem C23_ma_normalised_invertible : forall p q (th : list R), (q < p)%nat -> (3 + p + q <= length th)%nat ->
  exists ma : list R, ExtractMA_carma AX p q (map Fin th) = Ok (map Fin ma) /\ length ma = p /\ nth 0 ma 0 = 1 /\
    (forall i, (i <= q)%nat -> 0 < nth i ma 0) /\ (forall i, (q < i)%nat -> nth i ma 0 = 0) /\
    (forall z, Cmult (ma_poly ma z) (quad_poly th (3 + p) q (RtoC 0)) = quad_poly th (3 + p) q z) /\
    (forall z, ma_poly ma z = RtoC 0 -> fst z < 0).
Proof. exact ExtractMA_carma_main. Qed.
Print Assumptions C23_ma_normalised_invertible.
Theorem C23_q_too_large_throws : forall A p q (theta : list (F A)), (p <= q)%nat -> ExtractMA_carma A p q theta = Throw Elogic.
Proof. exact ExtractMA_carma_throws. Qed.
Print Assumptions C23_q_too_large_throws.

(** C24: the moving average polynomial of ZCARMA, and logit / inv_logit. *)
Theorem C24_zcarma_ma : forall p klow khigh (th : list R), (1 <= p)%nat -> (4 + p <= length th)%nat -> 0 < klow < khigh ->
  exists (ma : list R) (kappa : R), ExtractMA_zcarma AX p (Fin klow) (Fin khigh) (map Fin th) = Ok (map Fin ma) /\
    klow < kappa < khigh /\ length ma = p /\
    logit AX (Fin ((kappa - klow) / (khigh - klow))) = Fin (nth (3 + p) th 0) /\
    (forall z, ma_poly ma z = Cpown (Cplus (RtoC 1) (Cdiv z (RtoC kappa))) (p - 1)).
Proof. exact ExtractMA_zcarma_main. Qed.
Print Assumptions C24_zcarma_ma.
Theorem C24_logit_inverse : (forall x, logit AX (inv_logit AX (Fin x)) = Fin x) /\
  (forall u, 0 < u < 1 -> inv_logit AX (logit AX (Fin u)) = Fin u) /\
  (forall x, exists u, inv_logit AX (Fin x) = Fin u /\ 0 < u < 1).
Proof.
  split; [exact logit_inv_logit|]. split; [exact inv_logit_logit|]. intros x. exists (rinv_logit x).
  split; [apply inv_logit_Fin|apply rinv_logit_range].
Qed.
Print Assumptions C24_logit_inverse.

(** C25: the log-priors. *)
Theorem C25_measerr_prior : forall th : list R, (2 <= length th)%nat -> 0 < nth 1 th 0 ->
  LogPrior AX (map Fin th) = Ok (Fin (log_sichi (nth 1 th 0))) /\
  (nth 1 th 0 <> 50 / 52 -> log_sichi (nth 1 th 0) < log_sichi (50 / 52)).
Proof. intros th HL Hs. split; [apply LogPrior_main; assumption|intros Hn; apply log_sichi_max; assumption]. Qed.
Print Assumptions C25_measerr_prior.
Theorem C25_zcarma_prior : forall p (th : list R) (f : R -> R), (4 + p <= length th)%nat -> 0 < nth 1 th 0 ->
  (forall x, inv_logit AX (Fin x) = Fin (f x)) ->
  exists D, derivable_pt_lim f (nth (p + 3) th 0) D /\ 0 < D /\
    LogPrior_z AX p (map Fin th) = Ok (Fin (log_sichi (nth 1 th 0) + ln D)).
Proof.
  intros p th f HL Hs Hf. destruct (LogPrior_z_main p th HL Hs) as (D & HD & H). exists D. split; [|exact H].
  intros eps Heps. destruct (HD eps Heps) as [del Hd]. exists del. intros h Hh Hl. specialize (Hd h Hh Hl).
  assert (forall x, f x = rinv_logit x) as E. { intros x. specialize (Hf x). rewrite inv_logit_Fin in Hf. injection Hf as Hf. symmetry. exact Hf. }
  rewrite !E. exact Hd.
Qed.
Print Assumptions C25_zcarma_prior.

(** C27: CheckPriorBounds decides membership of the prior region of SpecModel.v, with the bounds of the data set. *)
Theorem C27_prior_bounds_carp : forall p smax fmin fmax (th : list R), (3 + p <= length th)%nat ->
  exists roots : list C, ARRoots AX p (map Fin th) = Ok (map FinC roots) /\
    exists b, CheckPriorBoundsp p (mkB AX (Fin smax) (Fin fmax) (Fin fmin) false) (map Fin th) = Ok b /\
      (b = true <-> in_prior smax fmin fmax th roots).
Proof. exact CheckPriorBoundsp_main. Qed.
Print Assumptions C27_prior_bounds_carp.
Theorem C27_prior_bounds_car1 : forall smax fmin fmax ign (th : list R), (4 <= length th)%nat ->
  exists b, CheckPriorBounds1 (mkB AX (Fin smax) (Fin fmax) (Fin fmin) ign) (map Fin th) = Ok b /\
    (b = true <-> in_prior1 smax fmin fmax th).
Proof. exact CheckPriorBounds1_main. Qed.
Print Assumptions C27_prior_bounds_car1.
Theorem C27_bounds_from_data : forall X (si : list (F AX) -> option (list nat)) (raw : kf AX X) (t y e : list R),
  valid_sort_index si -> (2 <= length t)%nat -> length y = length t -> length e = length t -> strictly_increasing t ->
  exists b smax fmin fmax, base_new si raw (map Fin t) (map Fin y) (map Fin e) = Ok b /\
    b_bounds b = mkB AX (Fin smax) (Fin fmax) (Fin fmin) false /\ data_bounds t y smax fmin fmax.
Proof.
  intros X si raw t y e H1 H2 H3 H4 H5. destruct (base_new_Fin X si raw t y e H1 H2 H3 H4 H5) as (b & smax & fmin & fmax & E & Hb & Hd).
  exists b, smax, fmin, fmax. split; [exact E|]. split; [apply Hb|exact Hd].
Qed.
Print Assumptions C27_bounds_from_data.

(** C28: unique_roots; the quotient is infinite when the two roots add to zero. *)
Theorem C28_unique_roots : forall tol (l : list C), 0 < tol ->
  (unique_roots (map FinC l) (Fin tol) = true <->
   forall i j, (i < j)%nat -> (j < length l)%nat ->
     Cplus (nth i l (RtoC 0)) (nth j l (RtoC 0)) = RtoC 0 \/ frac_apart tol (nth i l (RtoC 0)) (nth j l (RtoC 0))).
Proof. exact unique_roots_main. Qed.
Print Assumptions C28_unique_roots.

(** C19: for every class with AR roots r and MA coefficients ma, the variance of the first measurement is
    theta0^2 plus its error variance. *)
Theorem C19_theta0_is_stdev : forall solve p maf (th ma : list R) (om : list C) s (tr yr er : list R) sig,
  valid_solve solve -> (2 <= p)%nat -> (3 + p <= length th)%nat ->
  maf (map Fin th) = Ok (map Fin ma) -> length ma = p -> (exists l, nth l ma 0 <> 0) ->
  ARRoots AX p (map Fin th) = Ok (map FinC om) -> NoDup om -> nth 0 th 0 <> 0 ->
  Sigp AX p maf (map Fin th) = Ok (Fin sig) -> holdsp s tr yr er sig om ma -> strictly_increasing tr ->
  carma_acv sig ma om 0 = nth 0 th 0 * nth 0 th 0 /\
  exists s', Filter (methodsp solve) s = Ok s' /\
    nth_error (k_var s') 0 = Some (Fin (nth 0 th 0 * nth 0 th 0 + nth 0 er 0 * nth 0 er 0)).
Proof.
  intros solve p maf th ma om s tr yr er sig Hsv Hp HL Hma Lma Nma Hom Hnd Ht0 Hsig Hs Hinc.
  rewrite (Sigp_Fin p maf th ma om Hp HL Hma Lma Nma Hom Hnd) in Hsig.
  injection Hsig as <-. split; [apply (sig_acv p th ma om Hp HL Lma Nma Hom Hnd)|].
  pose proof (acv1_pos p th ma om Hp HL Lma Nma Hom Hnd) as Hpos.
  destruct (om_roots p th om HL Hom Hnd) as (L & Hn & Hst).
  set (sig := nth 0 th 0 * nth 0 th 0 / carma_acv 1 ma om 0) in *.
  assert (0 < sig) as Hsp by (apply Rdiv_lt_0_compat; [nra|exact Hpos]).
  assert (carma_ok sig om ma) as Hok.
  { split; [exact Hst|]. split; [lia|]. split; [congruence|]. split; [exact Nma|exact Hsp]. }
  destruct (filterp solve Hsv s tr yr er sig om ma Hs Hinc Hok) as (s' & EF & Lm & Lv & Hc). exists s'. split; [exact EF|].
  assert (1 <= length tr)%nat as Ln by (destruct Hs as ((U & _) & _ & E & _); rewrite E, map_length in U; lia).
  destruct (Hc O Ln) as (m & v & _ & H2 & H3 & _). etransitivity; [exact H2|]. f_equal. f_equal.
  destruct H3 as (a & _ & _ & Hv). cbn [firstn length Rsum] in Hv. rewrite K_diag in Hv.
  assert (carma_acv sig ma om 0 = nth 0 th 0 * nth 0 th 0) as E0 by exact (sig_acv p th ma om Hp HL Lma Nma Hom Hnd).
  rewrite E0 in Hv. lra.
Qed.
Print Assumptions C19_theta0_is_stdev.

(** C29: whatever was called before, LogDensity(theta) returns the same result. *)
Theorem C29_logdensity_history_car1 : forall A (si : list (F A) -> option (list nat)) (raw : kf1 A) t y e b b' theta,
  length y = length t -> length e = length t -> car1_new si raw t y e = Ok b -> length (k_time (b_kf b)) = length t ->
  forall ign, touched (car1_cls A) (@setpar1 A) (SetMLE b ign) b' ->
  obs_fst (LogDensity (car1_cls A) b' theta) = obs_fst (LogDensity (car1_cls A) (SetMLE b ign) theta).
Proof.
  intros A si raw t y e b b' theta Hy He Hb Hk ign Ht. apply LD_history1; [|exact Ht]. apply SetMLE_wfb.
  apply (base_new_wfb A _ si raw t y e b Hy He Hb). exact Hk.
Qed.
Print Assumptions C29_logdensity_history_car1.
Theorem C29_logdensity_history_carp : forall A solve p maf prior (si : list (F A) -> option (list nat)) (raw : kfp A) t y e b b' theta,
  length y = length t -> length e = length t -> goodp raw -> carp_new si raw p t y e = Ok b -> length (k_time (b_kf b)) = length t ->
  forall ign, touched (pcls solve p maf prior) (@setparp A) (SetMLE b ign) b' ->
  obs_fst (LogDensity (pcls solve p maf prior) b' theta) = obs_fst (LogDensity (pcls solve p maf prior) (SetMLE b ign) theta).
Proof.
  intros A solve p maf prior si raw t y e b b' theta Hy He Hg Hb Hk ign Ht.
  destruct (carp_new_wfb A si raw p t y e b Hy He Hg Hb) as (_ & _ & _ & Hg' & Hw & _).
  apply LD_historyp; [|exact Hg'|exact Ht]. apply SetMLE_wfb, Hw, Hk.
Qed.
Print Assumptions C29_logdensity_history_carp.

(** C30: CAR(1), from the constructor on and after any history. *)
Theorem C30_logdensity_car1 : forall (si : list (F AX) -> option (list nat)) (raw : kf1 AX) (t y e th : list R),
  valid_sort_index si -> (2 <= length t)%nat -> length y = length t -> length e = length t -> strictly_increasing t ->
  (4 <= length th)%nat -> nth 0 th 0 <> 0 ->
  exists b smax fmin fmax, car1_new si raw (map Fin t) (map Fin y) (map Fin e) = Ok b /\ data_bounds t y smax fmin fmax /\
    forall b1, touched (car1_cls AX) (@setpar1 AX) b b1 ->
    (in_prior1 smax fmin fmax th -> exists x b', LogDensity (car1_cls AX) b1 (map Fin th) = Ok (Fin (x + log_sichi (nth 1 th 0)), b') /\
      is_loglik (fun a c => nth 0 th 0 * nth 0 th 0 * exp (- (exp (nth 3 th 0) * Rabs (a - c)))) t y e (nth 1 th 0) (nth 2 th 0) x) /\
    (~ in_prior1 smax fmin fmax th -> LogDensity (car1_cls AX) b1 (map Fin th) = Ok (NInf, b1)).
Proof.
  intros si raw t y e th Hsi Hn Hy He Hinc HL Ht0.
  destruct (base_new_Fin _ si raw t y e Hsi Hn Hy He Hinc) as (b & smax & fmin & fmax & E & Hb & Hd).
  exists b, smax, fmin, fmax. split; [exact E|]. split; [exact Hd|]. intros b1 Ht.
  pose proof (holds_touched1 b b1 t y e _ Hb Ht) as Hb1. split.
  - intros Hin. destruct (LD1_inside b1 t y e th smax fmin fmax false Hb1 Hinc HL Hin Ht0) as (m & v & b' & EL & _ & _ & _ & _ & Hc).
    eexists; exists b'. split; [exact EL|]. exists (fun i => nth i m 0), (fun i => nth i v 0). split; [exact Hc|reflexivity].
  - intros Hn1. exact (LD1_outside b1 t y e th smax fmin fmax false Hb1 HL Hn1).
Qed.
Print Assumptions C30_logdensity_car1.

(** The same for CAR(p), CARMA(p,q) and ZCARMA(p), p >= 2. *)
Theorem C30_logdensity_carma : forall solve (si : list (F AX) -> option (list nat)) (raw : kfp AX) p q (t y e th : list R),
  valid_solve solve -> valid_sort_index si -> goodp raw ->
  (2 <= length t)%nat -> length y = length t -> length e = length t -> strictly_increasing t ->
  (2 <= p)%nat -> (q < p)%nat -> (3 + p + q <= length th)%nat -> nth 0 th 0 <> 0 ->
  exists b smax fmin fmax om ma, carp_new si raw p (map Fin t) (map Fin y) (map Fin e) = Ok b /\ data_bounds t y smax fmin fmax /\
    (length om = p /\ forall s, roots_poly om s = quad_poly th 3 p s) /\
    (length ma = p /\ forall z, Cmult (ma_poly ma z) (quad_poly th (3 + p) q (RtoC 0)) = quad_poly th (3 + p) q z) /\
    forall b1, touched (carma_cls solve p q) (@setparp AX) b b1 ->
    (in_prior smax fmin fmax th om -> exists x b', LogDensity (carma_cls solve p q) b1 (map Fin th) = Ok (Fin (x + log_sichi (nth 1 th 0)), b') /\
      is_loglik (carma_cov (nth 0 th 0 * nth 0 th 0 / carma_acv 1 ma om 0) ma om) t y e (nth 1 th 0) (nth 2 th 0) x) /\
    (~ in_prior smax fmin fmax th om -> LogDensity (carma_cls solve p q) b1 (map Fin th) = Ok (NInf, b1)).
Proof.
  intros solve si raw p q t y e th Hsv Hsi Hg Hn Hy He Hinc Hp Hq HL Ht0.
  destruct (carp_new_Fin si raw p t y e Hsi Hn Hy He Hinc ltac:(lia)) as (b & smax & fmin & fmax & E & Hb & Hd).
  assert (3 + p <= length th)%nat as HL' by lia.
  destruct (roots_of p th HL') as (om & EA & Lo & Hneg & _ & Hpoly & _).
  destruct (ExtractMA_carma_main p q th Hq HL) as (ma & EM & Lm & H0 & _ & _ & Hmp & _).
  exists b, smax, fmin, fmax, om, ma. split; [exact E|]. split; [exact Hd|]. split; [split; assumption|]. split; [split; assumption|].
  intros b1 Ht. destruct (carp_new_wfb AX si raw p (map Fin t) (map Fin y) (map Fin e) b ltac:(rewrite !map_length; assumption) ltac:(rewrite !map_length; assumption) Hg E) as (_ & _ & _ & Hgb & _ & _).
  pose proof (holds_touchedp solve p _ _ b b1 t y e _ Hb Hgb Ht) as Hb1. split.
  - intros Hin. assert (0 < nth 1 th 0) as Ht1 by (pose proof (pr_scale _ _ _ _ _ Hin); lra).
    apply (LDp_all solve p _ _ b1 t y e th ma om smax fmin fmax false (log_sichi (nth 1 th 0)) Hsv Hb1 Hinc Hp HL' EM Lm); try assumption.
    + exists O. rewrite H0. lra.
    + intros _. apply LogPrior_main; [lia|exact Ht1].
    + intros _. exact Hin.
    + intros F; discriminate F.
  - intros Hno. exact (LDp_none solve p _ _ b1 t y e th om smax fmin fmax Hb1 HL' EA Hno).
Qed.
Print Assumptions C30_logdensity_carma.
Theorem C30_logdensity_carp : forall solve (si : list (F AX) -> option (list nat)) (raw : kfp AX) p (t y e th : list R),
  valid_solve solve -> valid_sort_index si -> goodp raw ->
  (2 <= length t)%nat -> length y = length t -> length e = length t -> strictly_increasing t ->
  (2 <= p)%nat -> (3 + p <= length th)%nat -> nth 0 th 0 <> 0 ->
  exists b smax fmin fmax om ma, carp_new si raw p (map Fin t) (map Fin y) (map Fin e) = Ok b /\ data_bounds t y smax fmin fmax /\
    (length om = p /\ forall s, roots_poly om s = quad_poly th 3 p s) /\ (forall z, ma_poly ma z = RtoC 1) /\
    forall b1, touched (carp_cls solve p) (@setparp AX) b b1 ->
    (in_prior smax fmin fmax th om -> exists x b', LogDensity (carp_cls solve p) b1 (map Fin th) = Ok (Fin (x + log_sichi (nth 1 th 0)), b') /\
      is_loglik (carma_cov (nth 0 th 0 * nth 0 th 0 / carma_acv 1 ma om 0) ma om) t y e (nth 1 th 0) (nth 2 th 0) x) /\
    (~ in_prior smax fmin fmax th om -> LogDensity (carp_cls solve p) b1 (map Fin th) = Ok (NInf, b1)).
Proof.
  intros solve si raw p t y e th Hsv Hsi Hg Hn Hy He Hinc Hp HL Ht0.
  destruct (carp_new_Fin si raw p t y e Hsi Hn Hy He Hinc ltac:(lia)) as (b & smax & fmin & fmax & E & Hb & Hd).
  destruct (roots_of p th HL) as (om & EA & Lo & Hneg & _ & Hpoly & _).
  exists b, smax, fmin, fmax, om, (upd (repeat 0 p) 0 1). split; [exact E|]. split; [exact Hd|]. split; [split; assumption|].
  split; [intros z; apply carp_ma_poly; lia|].
  intros b1 Ht. destruct (carp_new_wfb AX si raw p (map Fin t) (map Fin y) (map Fin e) b ltac:(rewrite !map_length; assumption) ltac:(rewrite !map_length; assumption) Hg E) as (_ & _ & _ & Hgb & _ & _).
  pose proof (holds_touchedp solve p _ _ b b1 t y e _ Hb Hgb Ht) as Hb1. split.
  - intros Hin. assert (0 < nth 1 th 0) as Ht1 by (pose proof (pr_scale _ _ _ _ _ Hin); lra).
    apply (LDp_all solve p _ _ b1 t y e th _ om smax fmin fmax false (log_sichi (nth 1 th 0)) Hsv Hb1 Hinc Hp HL); try assumption.
    + rewrite carp_ma_Fin. reflexivity.
    + apply carp_ma_len.
    + apply carp_ma_nz. lia.
    + intros _. apply LogPrior_main; [lia|exact Ht1].
    + intros _. exact Hin.
    + intros F; discriminate F.
  - intros Hno. exact (LDp_none solve p _ _ b1 t y e th om smax fmin fmax Hb1 HL EA Hno).
Qed.
Print Assumptions C30_logdensity_carp.
Theorem C30_logdensity_zcarma : forall solve (si : list (F AX) -> option (list nat)) (raw : kfp AX) p klow khigh (t y e th : list R),
  valid_solve solve -> valid_sort_index si -> goodp raw ->
  (2 <= length t)%nat -> length y = length t -> length e = length t -> strictly_increasing t ->
  (2 <= p)%nat -> (4 + p <= length th)%nat -> 0 < klow < khigh -> nth 0 th 0 <> 0 ->
  exists b smax fmin fmax om ma kappa pr, carp_new si raw p (map Fin t) (map Fin y) (map Fin e) = Ok b /\ data_bounds t y smax fmin fmax /\
    (length om = p /\ forall s, roots_poly om s = quad_poly th 3 p s) /\
    (klow < kappa < khigh /\ forall z, ma_poly ma z = Cpown (Cplus (RtoC 1) (Cdiv z (RtoC kappa))) (p - 1)) /\
    forall b1, touched (zcarma_cls solve p (Fin klow : F AX) (Fin khigh)) (@setparp AX) b b1 ->
    (in_prior smax fmin fmax th om -> LogPrior_z AX p (map Fin th) = Ok (Fin pr) /\
      exists x b', LogDensity (zcarma_cls solve p (Fin klow : F AX) (Fin khigh)) b1 (map Fin th) = Ok (Fin (x + pr), b') /\
      is_loglik (carma_cov (nth 0 th 0 * nth 0 th 0 / carma_acv 1 ma om 0) ma om) t y e (nth 1 th 0) (nth 2 th 0) x) /\
    (~ in_prior smax fmin fmax th om -> LogDensity (zcarma_cls solve p (Fin klow : F AX) (Fin khigh)) b1 (map Fin th) = Ok (NInf, b1)).
Proof.
  intros solve si raw p klow khigh t y e th Hsv Hsi Hg Hn Hy He Hinc Hp HL Hk Ht0.
  destruct (carp_new_Fin si raw p t y e Hsi Hn Hy He Hinc ltac:(lia)) as (b & smax & fmin & fmax & E & Hb & Hd).
  assert (3 + p <= length th)%nat as HL' by lia.
  destruct (roots_of p th HL') as (om & EA & Lo & Hneg & _ & Hpoly & _).
  destruct (ExtractMA_zcarma_main p klow khigh th ltac:(lia) HL Hk) as (ma & kappa & EM & Hkap & Lm & _ & Hmp).
  destruct (Rlt_dec 0 (nth 1 th 0)) as [Ht1|Ht1].
  - destruct (LogPrior_z_main p th HL Ht1) as (D & _ & _ & Epr).
    exists b, smax, fmin, fmax, om, ma, kappa, (log_sichi (nth 1 th 0) + ln D). split; [exact E|]. split; [exact Hd|]. split; [split; assumption|]. split; [split; assumption|].
    intros b1 Ht. destruct (carp_new_wfb AX si raw p (map Fin t) (map Fin y) (map Fin e) b ltac:(rewrite !map_length; assumption) ltac:(rewrite !map_length; assumption) Hg E) as (_ & _ & _ & Hgb & _ & _).
    pose proof (holds_touchedp solve p _ _ b b1 t y e _ Hb Hgb Ht) as Hb1. split.
    + intros Hin. split; [exact Epr|].
      apply (LDp_all solve p _ _ b1 t y e th ma om smax fmin fmax false (log_sichi (nth 1 th 0) + ln D) Hsv Hb1 Hinc Hp HL' EM Lm); try assumption.
      * exists O. intros Hz. assert (ma_poly ma (RtoC 0) = RtoC 1) as H1.
        { rewrite Hmp. unfold Cdiv. rewrite Cmult_0_l, Cplus_0_r. generalize (p - 1)%nat as n. induction n as [|n IH]; [reflexivity|]. cbn [Cpown]. rewrite IH. ring. }
        unfold ma_poly in H1. destruct ma as [|c0 ma]; [cbn in Lm; lia|]. cbn [length] in H1.
        rewrite Csum_first in H1 by (intros k; cbn [Cpown]; ring). cbn [nth Cpown] in *. subst c0.
        apply (f_equal fst) in H1. cbn in H1. lra.
      * intros _. exact Epr.
      * intros _. exact Hin.
      * intros F; discriminate F.
    + intros Hno. exact (LDp_none solve p _ _ b1 t y e th om smax fmin fmax Hb1 HL' EA Hno).
  - exists b, smax, fmin, fmax, om, ma, kappa, 0. split; [exact E|]. split; [exact Hd|]. split; [split; assumption|]. split; [split; assumption|].
    intros b1 Ht. destruct (carp_new_wfb AX si raw p (map Fin t) (map Fin y) (map Fin e) b ltac:(rewrite !map_length; assumption) ltac:(rewrite !map_length; assumption) Hg E) as (_ & _ & _ & Hgb & _ & _).
    pose proof (holds_touchedp solve p _ _ b b1 t y e _ Hb Hgb Ht) as Hb1. split.
    + intros Hin. pose proof (pr_scale _ _ _ _ _ Hin). lra.
    + intros Hno. exact (LDp_none solve p _ _ b1 t y e th om smax fmin fmax Hb1 HL' EA Hno).
Qed.
Print Assumptions C30_logdensity_zcarma.

(** The specification is_loglik has at most one solution. *)
Theorem C30_loglik_unique : forall sig om ma (t y e : list R) scale mu x x',
  strictly_increasing t -> carma_ok sig om ma ->
  is_loglik (carma_cov sig ma om) t y e scale mu x -> is_loglik (carma_cov sig ma om) t y e scale mu x' -> x = x'.
Proof.
  intros sig om ma t y e scale mu x x' Hinc Hok (m & v & H & ->) (m' & v' & H' & ->).
  destruct valid_solve_exists as [sv Hsv].
  apply Rsum_ext. intros i Hi. destruct (H i Hi) as [H1 _]. destruct (H' i Hi) as [H1' _].
  assert (strictly_increasing (firstn i t)) as Hi'.
  { intros a c Hac Hc. rewrite firstn_length in Hc. rewrite !nth_firstn_lt by lia. apply Hinc; lia. }
  destruct (cond_detp sv Hsv (firstn i t) _ _ sig om ma Hi' Hok _ _ _ H1) as [Hu _].
  destruct (Hu _ _ H1') as [E1 E2]. rewrite E1. replace (v' i) with (v i) by lra. reflexivity.
Qed.
Print Assumptions C30_loglik_unique.

(** C26 is false.  For every data set (with distinct times), every theta, every arithmetic, ZCAR(p) has the log-density of CAR(p) ... *)
Theorem C26_zcar_equals_carp : forall A solve (si : list (F A) -> option (list nat)) (raw : kfp A) p t y e zb,
  length y = length t -> length e = length t -> goodp raw -> zcar_new si raw p t y e = Ok zb -> length (k_time (b_kf zb)) = length t ->
  exists b, carp_new si raw p t y e = Ok b /\
    forall theta, obs_fst (LogDensity (zcar_cls solve p) zb theta) = obs_fst (LogDensity (carp_cls solve p) b theta).
Proof. exact zcar_is_carp. Qed.
Print Assumptions C26_zcar_equals_carp.
(** ... and there are data for which the log-likelihood with the Belcher polynomial is a different number. *)
Theorem C26_zcar_uses_belcher_refuted : forall solve (si : list (F AX) -> option (list nat)) (raw : kfp AX),
  valid_solve solve -> valid_sort_index si -> goodp raw ->
  exists zb x b', zcar_new si raw 2 (map Fin tW) (map Fin zW) (map Fin zW) = Ok zb /\
    LogDensity (zcar_cls solve 2) (SetMLE zb true) (map Fin thW) = Ok (Fin x, b') /\
    forall ma ll, (forall z, ma_poly ma z = Cpown (Cplus (RtoC 1) (Cdiv z (RtoC (1 / (1 - 0))))) (2 - 1)) ->
      is_loglik (carma_cov (1 / carma_acv 1 ma omW 0) ma omW) tW zW zW 1 0 ll -> x <> ll + log_sichi 1.
Proof. exact zcar_refuted. Qed.
Print Assumptions C26_zcar_uses_belcher_refuted.

(** C31 is false: the prior on the measurement error scale stays in the value (here it is -25) ... *)
Theorem C31_mle_has_no_prior_refuted : forall solve (si : list (F AX) -> option (list nat)) (raw : kfp AX),
  valid_solve solve -> valid_sort_index si ->
  exists b x b', carp_new si raw 2 (map Fin tW) (map Fin zW) (map Fin zW) = Ok b /\
    LogDensity (carp_cls solve 2) (SetMLE b true) (map Fin thW) = Ok (Fin x, b') /\
    forall ma ll, (forall z, ma_poly ma z = RtoC 1) ->
      is_loglik (carma_cov (1 / carma_acv 1 ma omW 0) ma omW) tW zW zW 1 0 ll -> x = ll - 25.
Proof. exact mle_refuted. Qed.
Print Assumptions C31_mle_has_no_prior_refuted.
(** ... for every data set and every theta with distinct roots and a positive scale ... *)
Theorem C31_mle_value : forall solve (si : list (F AX) -> option (list nat)) (raw : kfp AX) p q (t y e th : list R) om,
  valid_solve solve -> valid_sort_index si ->
  (2 <= length t)%nat -> length y = length t -> length e = length t -> strictly_increasing t ->
  (2 <= p)%nat -> (q < p)%nat -> (3 + p + q <= length th)%nat -> nth 0 th 0 <> 0 -> 0 < nth 1 th 0 ->
  length om = p -> (forall s, roots_poly om s = quad_poly th 3 p s) -> NoDup om ->
  exists b ma om' x b', carp_new si raw p (map Fin t) (map Fin y) (map Fin e) = Ok b /\ Permutation om om' /\
    (length ma = p /\ forall z, Cmult (ma_poly ma z) (quad_poly th (3 + p) q (RtoC 0)) = quad_poly th (3 + p) q z) /\
    LogDensity (carma_cls solve p q) (SetMLE b true) (map Fin th) = Ok (Fin (x + log_sichi (nth 1 th 0)), b') /\
    is_loglik (carma_cov (nth 0 th 0 * nth 0 th 0 / carma_acv 1 ma om' 0) ma om') t y e (nth 1 th 0) (nth 2 th 0) x.
Proof.
  intros solve si raw p q t y e th om Hsv Hsi Hn Hy He Hinc Hp Hq HL Ht0 Ht1 Lo Hpo Hnd.
  destruct (carp_new_Fin si raw p t y e Hsi Hn Hy He Hinc ltac:(lia)) as (b & smax & fmin & fmax & E & Hb & Hd).
  assert (3 + p <= length th)%nat as HL' by lia.
  destruct (roots_of p th HL') as (om' & EA & Lo' & Hneg & _ & Hpoly & _).
  destruct (ExtractMA_carma_main p q th Hq HL) as (ma & EM & Lm & H0 & _ & _ & Hmp & _).
  assert (Permutation om om') as Hperm.
  { apply NoDup_Permutation_bis; [exact Hnd|lia|]. intros z Hz. apply roots_poly_0. rewrite Hpoly, <- Hpo. apply roots_poly_0, Hz. }
  destruct (LDp_all solve p (ExtractMA_carma AX p q) (LogPrior AX) (SetMLE b true) t y e th ma om' smax fmin fmax true (log_sichi (nth 1 th 0)) Hsv
     (SetMLE_holds _ b t y e smax fmin fmax false true Hb) Hinc Hp HL' EM Lm) as (x & b' & EL & HLL); try assumption.
  - exists O. rewrite H0. lra.
  - intros _. apply LogPrior_main; [lia|exact Ht1].
  - intros F; discriminate F.
  - intros _. apply (Permutation_NoDup Hperm Hnd).
  - exists b, ma, om', x, b'. split; [exact E|]. split; [exact Hperm|]. split; [split; assumption|]. split; [exact EL|exact HLL].
Qed.
Print Assumptions C31_mle_value.
(** ... and CAR(1) ignores the flag altogether. *)
Theorem C31_car1_ignores_flag : forall A (si : list (F A) -> option (list nat)) (raw : kf1 A) t y e b ign theta,
  length y = length t -> length e = length t -> car1_new si raw t y e = Ok b -> length (k_time (b_kf b)) = length t ->
  obs_fst (LogDensity (car1_cls A) (SetMLE b ign) theta) = obs_fst (LogDensity (car1_cls A) b theta).
Proof.
  intros A si raw t y e b ign theta Hy He Hb Hk. apply SetMLE_car1. apply (base_new_wfb A _ si raw t y e b Hy He Hb). exact Hk.
Qed.
Print Assumptions C31_car1_ignores_flag.

(** C32 is false: for the sorted records some theta has a finite log-density, for the permuted records every theta has -inf ... *)
Theorem C32_unsorted_data_refuted : forall (si : list (F AX) -> option (list nat)) (raw : kf1 AX), valid_sort_index si ->
  Permutation (combine (combine tU yU) eS) (combine (combine tS yS) eS) /\
  exists b b', car1_new si raw (map Fin tS) (map Fin yS) (map Fin eS) = Ok b /\ car1_new si raw (map Fin tU) (map Fin yU) (map Fin eS) = Ok b' /\
    (exists x b1, LogDensity (car1_cls AX) b (map Fin thS) = Ok (Fin x, b1)) /\
    forall th, (4 <= length th)%nat -> LogDensity (car1_cls AX) b' (map Fin th) = Ok (NInf, b').
Proof. exact unsorted_refuted. Qed.
Print Assumptions C32_unsorted_data_refuted.
(** ... and this happens for every time series with a step back in time. *)
Theorem C32_unsorted_car1_always_minus_inf : forall (si : list (F AX) -> option (list nat)) (raw : kf1 AX) (t y e : list R) i b (th : list R),
  (2 <= length t)%nat -> length y = length t -> (S i < length t)%nat -> nth (S i) t 0 < nth i t 0 ->
  car1_new si raw (map Fin t) (map Fin y) (map Fin e) = Ok b -> (4 <= length th)%nat ->
  LogDensity (car1_cls AX) b (map Fin th) = Ok (NInf, b).
Proof. exact unsorted1. Qed.
Print Assumptions C32_unsorted_car1_always_minus_inf.
Theorem C32_unsorted_carp_always_minus_inf : forall solve maf prior (si : list (F AX) -> option (list nat)) (raw : kfp AX) p (t y e : list R) i b (th : list R),
  (2 <= length t)%nat -> length y = length t -> (S i < length t)%nat -> nth (S i) t 0 < nth i t 0 ->
  carp_new si raw p (map Fin t) (map Fin y) (map Fin e) = Ok b -> (3 + p <= length th)%nat ->
  LogDensity (pcls solve p maf prior) b (map Fin th) = Ok (NInf, b).
Proof. exact unsortedp. Qed.
Print Assumptions C32_unsorted_carp_always_minus_inf.

(** ** The hypotheses are met *)
(** a CAR(1) parameter inside the prior region of a data set, so both cases of C30_logdensity_car1 occur *)
Example ex_prior1 : forall smax fmin fmax, data_bounds tS yS smax fmin fmax -> in_prior1 smax fmin fmax thS /\
  ~ in_prior1 smax fmin fmax [-1; 1; 0; 0] /\ nth 0 thS 0 <> 0 /\ strictly_increasing tS.
Proof.
  intros smax fmin fmax H. split; [exact (priorS smax fmin fmax H)|]. split; [intros (_ & (H0 & _) & _); cbn in H0; lra|].
  split; [cbn; lra|exact tS_inc].
Qed.
(** a CARMA(2,1) parameter inside the prior region: roots -1 +- i *)
Definition tE : list R := [0; 1; 101].
Definition yE : list R := [0; 1; 0].
Definition thE : list R := [1; 1; 0; ln 2; ln 2; 0].
Lemma tE_inc : strictly_increasing tE.
Proof. intros [|[|[|i]]] [|[|[|j]]] H1 H2; cbn in *; try lia; lra. Qed.
Lemma Cmod_R2 (z : C) : Cmod z * Cmod z = fst z * fst z + snd z * snd z.
Proof. unfold Cmod. rewrite sqrt_sqrt; [ring|]. pose proof (pow2_ge_0 (fst z)). pose proof (pow2_ge_0 (snd z)). lra. Qed.
Example ex_priorp : forall smax fmin fmax, data_bounds tE yE smax fmin fmax ->
  exists om, length om = 2%nat /\ (forall s, roots_poly om s = quad_poly thE 3 2 s) /\ in_prior smax fmin fmax thE om.
Proof.
  intros smax fmin fmax [H1 H2 H3 H4 H5]. exists [(-1, -1); (-1, 1)]. split; [reflexivity|]. split.
  { intros s. unfold quad_poly, expc, thE. cbn [Nat.odd Nat.even negb]. change (2 / 2)%nat with 1%nat. cbn [Cprod Nat.add Nat.mul nth roots_poly].
    rewrite !exp_ln by lra. destruct s as [a b0]. apply C_eq; cbn; ring. }
  unfold tE in H5. cbn [length nth Nat.sub] in H5. pose proof (H3 0%nat ltac:(cbn; lia)) as G. cbn [nth tE] in G.
  assert (1 <= fmax) as Hf. { apply (Rmult_le_reg_r (1 / fmax)); [apply Rdiv_lt_0_compat; lra|]. replace (fmax * (1 / fmax)) with 1 by (field; lra). lra. }
  pose proof PI_RGT_0. pose proof PI2_3_2. pose proof PI_4.
  assert (1 / 8 <= 1 / (2 * PI) <= 1 / 6) as Hpi.
  { split; apply (Rmult_le_reg_r (2 * PI)); try lra; replace (1 / (2 * PI) * (2 * PI)) with 1 by (field; lra); lra. }
  assert (Rabs 1 = 1 /\ Rabs (-1) = 1) as [A1 A2] by (split; [apply Rabs_R1|rewrite <- Rabs_Ropp; replace (- -1) with 1 by ring; apply Rabs_R1]).
  assert (svar yE = 1 / 3) as Esv by (unfold svar, smean, yE; cbn [length Rsum nth INR]; field).
  assert (1 / 2 <= sqrt (1 / 3)). { apply Rsqr_incr_0_var; [|apply sqrt_pos]. rewrite Rsqr_sqrt by lra. unfold Rsqr. lra. }
  constructor.
  - intros r [<-|[<-|[]]]; cbn [snd]; rewrite ?A1, ?A2; lra.
  - intros r [<-|[<-|[]]]; cbn [fst]; replace (- -1) with 1 by ring; lra.
  - unfold thE. cbn [nth]. rewrite H1, Esv. lra.
  - unfold thE. cbn [nth]. lra.
  - intros [|i] Hi; cbn in Hi; [|lia]. cbn [nth snd]. rewrite A1, A2. lra.
  - intros [|[|i]] [|[|j]] Hij Hj; cbn in Hj; try lia. cbn [nth]. unfold frac_apart.
    assert (Cplus (-1, -1) (-1, 1) = RtoC (-2)) as -> by (apply C_eq; cbn; ring).
    assert (Cminus (-1, -1) (-1, 1) = (0, -2)) as -> by (apply C_eq; cbn; ring).
    pose proof (Cmod_R2 (0, -2)) as P1. pose proof (Cmod_R2 (RtoC (-2))) as P2. cbn [fst snd RtoC] in P1, P2.
    pose proof (Cmod_ge_0 (0, -2)). pose proof (Cmod_ge_0 (RtoC (-2))). nra.
Qed.
(** the filter of a freshly built CARp object (empty vectors) satisfies the class invariant *)
Example ex_goodp : forall (raw : kfp AX), goodp (setparp raw ([], [])).
Proof. intros raw. apply good_set. Qed.
(** histories exist: evaluating the log-density and running the filter *)
Example ex_touched : forall (b : base AX (F AX)) (t y e : list R) smax fmin fmax, base_holds b t y e (mkB AX (Fin smax) (Fin fmax) (Fin fmin) false) ->
  strictly_increasing t -> in_prior1 smax fmin fmax thS -> exists b1, touched (car1_cls AX) (@setpar1 AX) b b1 /\ length (k_mean (b_kf b1)) = length t.
Proof.
  intros b t y e smax fmin fmax Hb Hinc Hin.
  destruct (LD1_inside b t y e thS smax fmin fmax false Hb Hinc ltac:(cbn; lia) Hin ltac:(cbn; lra)) as (m & v & b1 & E & Em & _ & L & _).
  exists b1. split; [eapply t_density; [apply t_refl|exact E]|]. rewrite Em, map_length. exact L.
Qed.
