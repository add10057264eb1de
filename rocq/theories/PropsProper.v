(** C122: the posterior is a proper distribution in the mean, the scale and the autoregressive parameters, not in the moving average parameters. *)
From Coq Require Import Reals List Arith ZArith Lra Lia Bool.
From Coquelicot Require Import Coquelicot.
From Verif Require Import Arith Res ListLemmas KFModel Spec SpecCarma Emb InitProof History KF1X KF1Main Cx KFpModel KFpProof KFpX KFpMain KFpTop KFpMore SpecModel CarpackModel RootsProof PriorProof LogLikProof LogLikMain CarpackTop CarpackRefute Sym Proper.
From Verif Require PropsCarpack PropsEngine.
Import ListNotations.
Local Open Scope R_scope.
Local Notation length := List.length.

(** C122, CAR(1): with non-zero error bars the log-density lies between bounds which depend on the parameters only through the standard deviation, the
    error scale and the mean ([ld_low], [ld_high] of Proper.v), for every object of the class whatever it evaluated before. *)
Theorem C122_bounds_car1 : forall (si : list (F AX) -> option (list nat)) (raw : kf1 AX) (t y e : list R),
  valid_sort_index si -> (2 <= length t)%nat -> length y = length t -> length e = length t -> strictly_increasing t ->
  (forall i, (i < length t)%nat -> nth i e 0 <> 0) ->
  exists b smax fmin fmax, car1_new si raw (map Fin t) (map Fin y) (map Fin e) = Ok b /\ data_bounds t y smax fmin fmax /\
    forall th b1, touched (car1_cls AX) (@setpar1 AX) b b1 -> (4 <= length th)%nat -> nth 0 th 0 <> 0 -> in_prior1 smax fmin fmax th ->
    exists lp b', LogDensity (car1_cls AX) b1 (map Fin th) = Ok (Fin lp, b') /\
      ld_low t y e (nth 0 th 0) (nth 1 th 0) (nth 2 th 0) + log_sichi (nth 1 th 0) <= lp /\
      forall k, (k < length t)%nat -> lp <= ld_high t y e (nth 0 th 0) (nth 1 th 0) (nth 2 th 0) k + log_sichi (nth 1 th 0) /\
        lp <= peak t e - (nth 2 th 0 - nth k y 0) ^ 2 / (2 * (smax * smax + 2 * (nth k e 0 * nth k e 0))).
Proof.
  intros si raw t y e Hsi Hn Hy He Hinc Hne.
  destruct (base_new_Fin _ si raw t y e Hsi Hn Hy He Hinc) as (b & smax & fmin & fmax & E & Hb & Hd).
  exists b, smax, fmin, fmax. split; [exact E|]. split; [exact Hd|]. intros th b1 Ht HL Hz Hin.
  pose proof (holds_touched1 b b1 t y e _ Hb Ht) as Hb1.
  destruct (LD1_inside b1 t y e th smax fmin fmax false Hb1 Hinc HL Hin Hz) as (m & v & b' & EL & _ & _ & _ & _ & Hc).
  destruct Hin as (_ & Hsd & Hs). assert (0 < nth 1 th 0) as Hs0 by lra.
  destruct (bounds_car1 t y e (nth 0 th 0) (nth 1 th 0) (nth 2 th 0) (exp (nth 3 th 0)) _ Hinc Hy He Hs0 Hz (exp_pos _) Hne
    (ex_intro _ (fun i => nth i m 0) (ex_intro _ (fun i => nth i v 0) (Logic.conj Hc eq_refl)))) as [B1 B2].
  eexists. exists b'. split; [exact EL|]. split; [lra|]. intros k Hk. specialize (B2 k Hk).
  pose proof (high_uniform t y e smax (nth 0 th 0) (nth 1 th 0) (nth 2 th 0) k Hne Hk Hsd Hs). lra.
Qed.
Print Assumptions C122_bounds_car1.

(** C122, CARMA(p,q), p >= 2 and q < p, with the roots om that the class computes.  The bounds do not involve the moving average parameters. *)
Theorem C122_bounds_carma : forall solve (si : list (F AX) -> option (list nat)) (raw : kfp AX) p q (t y e : list R),
  valid_solve solve -> valid_sort_index si -> goodp raw ->
  (2 <= length t)%nat -> length y = length t -> length e = length t -> strictly_increasing t -> (2 <= p)%nat -> (q < p)%nat ->
  (forall i, (i < length t)%nat -> nth i e 0 <> 0) ->
  exists b smax fmin fmax, carp_new si raw p (map Fin t) (map Fin y) (map Fin e) = Ok b /\ data_bounds t y smax fmin fmax /\
    forall th om b1, touched (carma_cls solve p q) (@setparp AX) b b1 -> (3 + p + q <= length th)%nat -> nth 0 th 0 <> 0 ->
    ARRoots AX p (map Fin th) = Ok (map FinC om) -> in_prior smax fmin fmax th om ->
    exists lp b', LogDensity (carma_cls solve p q) b1 (map Fin th) = Ok (Fin lp, b') /\
      ld_low t y e (nth 0 th 0) (nth 1 th 0) (nth 2 th 0) + log_sichi (nth 1 th 0) <= lp /\
      forall k, (k < length t)%nat -> lp <= ld_high t y e (nth 0 th 0) (nth 1 th 0) (nth 2 th 0) k + log_sichi (nth 1 th 0) /\
        lp <= peak t e - (nth 2 th 0 - nth k y 0) ^ 2 / (2 * (smax * smax + 2 * (nth k e 0 * nth k e 0))).
Proof.
  intros solve si raw p q t y e Hsv Hsi Hg Hn Hy He Hinc Hp Hq Hne.
  destruct (carp_new_Fin si raw p t y e Hsi Hn Hy He Hinc ltac:(lia)) as (b & smax & fmin & fmax & E & Hb & Hd).
  exists b, smax, fmin, fmax. split; [exact E|]. split; [exact Hd|]. intros th om b1 Ht HL Hz Hom Hin. assert (3 + p <= length th)%nat as HL' by lia.
  apply (ARRoots_q p th om HL') in Hom. subst om.
  destruct (carp_new_wfb AX si raw p (map Fin t) (map Fin y) (map Fin e) b ltac:(rewrite !map_length; assumption) ltac:(rewrite !map_length; assumption) Hg E) as (_ & _ & _ & Hgb & _ & _).
  pose proof (holds_touchedp solve p _ _ b b1 t y e _ Hb Hgb Ht) as Hb1.
  destruct (ExtractMA_carma_main p q th Hq HL) as (ma & EM & Lm & H0 & _). assert (exists l, nth l ma 0 <> 0) as Nma by (exists O; rewrite H0; lra).
  destruct (LDp_bounds solve p _ b1 t y e th ma smax fmin fmax Hsv Hb1 Hinc Hy He Hne Hp HL' EM Lm Nma Hin Hz) as (lp & b' & EL & B1 & B2).
  exists lp, b'. split; [exact EL|]. split; [exact B1|]. intros k Hk. specialize (B2 k Hk).
  pose proof (high_uniform t y e smax (nth 0 th 0) (nth 1 th 0) (nth 2 th 0) k Hne Hk (pr_stdev _ _ _ _ _ Hin) (pr_scale _ _ _ _ _ Hin)). lra.
Qed.
Print Assumptions C122_bounds_carma.

(** C122, CAR(p), p >= 2. *)
Theorem C122_bounds_carp : forall solve (si : list (F AX) -> option (list nat)) (raw : kfp AX) p (t y e : list R),
  valid_solve solve -> valid_sort_index si -> goodp raw ->
  (2 <= length t)%nat -> length y = length t -> length e = length t -> strictly_increasing t -> (2 <= p)%nat ->
  (forall i, (i < length t)%nat -> nth i e 0 <> 0) ->
  exists b smax fmin fmax, carp_new si raw p (map Fin t) (map Fin y) (map Fin e) = Ok b /\ data_bounds t y smax fmin fmax /\
    forall th om b1, touched (carp_cls solve p) (@setparp AX) b b1 -> (3 + p <= length th)%nat -> nth 0 th 0 <> 0 ->
    ARRoots AX p (map Fin th) = Ok (map FinC om) -> in_prior smax fmin fmax th om ->
    exists lp b', LogDensity (carp_cls solve p) b1 (map Fin th) = Ok (Fin lp, b') /\
      ld_low t y e (nth 0 th 0) (nth 1 th 0) (nth 2 th 0) + log_sichi (nth 1 th 0) <= lp /\
      forall k, (k < length t)%nat -> lp <= ld_high t y e (nth 0 th 0) (nth 1 th 0) (nth 2 th 0) k + log_sichi (nth 1 th 0) /\
        lp <= peak t e - (nth 2 th 0 - nth k y 0) ^ 2 / (2 * (smax * smax + 2 * (nth k e 0 * nth k e 0))).
Proof.
  intros solve si raw p t y e Hsv Hsi Hg Hn Hy He Hinc Hp Hne.
  destruct (carp_new_Fin si raw p t y e Hsi Hn Hy He Hinc ltac:(lia)) as (b & smax & fmin & fmax & E & Hb & Hd).
  exists b, smax, fmin, fmax. split; [exact E|]. split; [exact Hd|]. intros th om b1 Ht HL Hz Hom Hin.
  apply (ARRoots_q p th om HL) in Hom. subst om.
  destruct (carp_new_wfb AX si raw p (map Fin t) (map Fin y) (map Fin e) b ltac:(rewrite !map_length; assumption) ltac:(rewrite !map_length; assumption) Hg E) as (_ & _ & _ & Hgb & _ & _).
  pose proof (holds_touchedp solve p _ _ b b1 t y e _ Hb Hgb Ht) as Hb1.
  assert (Ok (carp_ma AX p) = Ok (map Fin (upd (repeat 0 p) 0 1))) as EM by (rewrite carp_ma_Fin; reflexivity).
  assert (exists l, nth l (upd (repeat 0 p) 0 1) 0 <> 0) as Nma by (apply carp_ma_nz; lia).
  destruct (LDp_bounds solve p (fun _ => Ok (carp_ma AX p)) b1 t y e th _ smax fmin fmax Hsv Hb1 Hinc Hy He Hne Hp HL EM (carp_ma_len p) Nma Hin Hz) as (lp & b' & EL & B1 & B2).
  exists lp, b'. split; [exact EL|]. split; [exact B1|]. intros k Hk. specialize (B2 k Hk).
  pose proof (high_uniform t y e smax (nth 0 th 0) (nth 1 th 0) (nth 2 th 0) k Hne Hk (pr_stdev _ _ _ _ _ Hin) (pr_scale _ _ _ _ _ Hin)). lra.
Qed.
Print Assumptions C122_bounds_carp.

(** C122, ZCARMA(p), p >= 2: its one moving average parameter x = theta_(3+p) has a proper prior, the derivative D of the logistic function at x. *)
Theorem C122_bounds_zcarma : forall solve (si : list (F AX) -> option (list nat)) (raw : kfp AX) p klow khigh (t y e : list R),
  valid_solve solve -> valid_sort_index si -> goodp raw ->
  (2 <= length t)%nat -> length y = length t -> length e = length t -> strictly_increasing t -> (2 <= p)%nat -> 0 < klow < khigh ->
  (forall i, (i < length t)%nat -> nth i e 0 <> 0) ->
  exists b smax fmin fmax, carp_new si raw p (map Fin t) (map Fin y) (map Fin e) = Ok b /\ data_bounds t y smax fmin fmax /\
    forall th om b1, touched (zcarma_cls solve p (Fin klow : F AX) (Fin khigh)) (@setparp AX) b b1 -> (4 + p <= length th)%nat -> nth 0 th 0 <> 0 ->
    ARRoots AX p (map Fin th) = Ok (map FinC om) -> in_prior smax fmin fmax th om ->
    exists lp b' D, LogDensity (zcarma_cls solve p (Fin klow : F AX) (Fin khigh)) b1 (map Fin th) = Ok (Fin lp, b') /\
      0 < D /\ derivable_pt_lim (fun x => exp x / (1 + exp x)) (nth (p + 3) th 0) D /\
      ld_low t y e (nth 0 th 0) (nth 1 th 0) (nth 2 th 0) + log_sichi (nth 1 th 0) + ln D <= lp /\
      forall k, (k < length t)%nat -> lp <= ld_high t y e (nth 0 th 0) (nth 1 th 0) (nth 2 th 0) k + log_sichi (nth 1 th 0) + ln D /\
        lp <= peak t e - (nth 2 th 0 - nth k y 0) ^ 2 / (2 * (smax * smax + 2 * (nth k e 0 * nth k e 0))) + ln D.
Proof.
  intros solve si raw p klow khigh t y e Hsv Hsi Hg Hn Hy He Hinc Hp Hk Hne.
  destruct (carp_new_Fin si raw p t y e Hsi Hn Hy He Hinc ltac:(lia)) as (b & smax & fmin & fmax & E & Hb & Hd).
  exists b, smax, fmin, fmax. split; [exact E|]. split; [exact Hd|]. intros th om b1 Ht HL Hz Hom Hin. assert (3 + p <= length th)%nat as HL' by lia.
  apply (ARRoots_q p th om HL') in Hom. subst om.
  destruct (carp_new_wfb AX si raw p (map Fin t) (map Fin y) (map Fin e) b ltac:(rewrite !map_length; assumption) ltac:(rewrite !map_length; assumption) Hg E) as (_ & _ & _ & Hgb & _ & _).
  pose proof (holds_touchedp solve p _ _ b b1 t y e _ Hb Hgb Ht) as Hb1.
  destruct (ExtractMA_zcarma_main p klow khigh th ltac:(lia) HL Hk) as (ma & kappa & EM & Hkap & Lm & _ & Hmp).
  assert (exists l, nth l ma 0 <> 0) as Nma.
  { exists O. intros Hz0. assert (ma_poly ma (RtoC 0) = RtoC 1) as H1.
    { rewrite Hmp. unfold Cdiv. rewrite Cmult_0_l, Cplus_0_r. generalize (p - 1)%nat as n. induction n as [|n IH]; [reflexivity|]. cbn [Cpown]. rewrite IH. ring. }
    unfold ma_poly in H1. destruct ma as [|c0 ma]; [cbn in Lm; lia|]. cbn [length] in H1.
    rewrite Csum_first in H1 by (intros k; cbn [Cpown]; ring). cbn [nth Cpown] in *. subst c0. apply (f_equal fst) in H1. cbn in H1. lra. }
  pose proof (pr_scale _ _ _ _ _ Hin) as Hs.
  destruct (LogPrior_z_main p th HL ltac:(lra)) as (D & HD & HD0 & Epr).
  destruct (LDp_bounds_pr solve p _ _ _ b1 t y e th ma smax fmin fmax Hsv Hb1 Hinc Hy He Hne Hp HL' EM Lm Nma Hin Hz Epr) as (lp & b' & EL & B1 & B2).
  exists lp, b', D. split; [exact EL|]. split; [exact HD0|]. split; [exact HD|]. split; [lra|]. intros k Hk'. specialize (B2 k Hk').
  pose proof (high_uniform t y e smax (nth 0 th 0) (nth 1 th 0) (nth 2 th 0) k Hne Hk' (pr_stdev _ _ _ _ _ Hin) Hs). lra.
Qed.
Print Assumptions C122_bounds_zcarma.

(** C122: the prior region is bounded in the autoregressive parameters (the standard deviation and the error scale are bounded by in_prior itself). *)
Theorem C122_ar_bounded : forall smax fmin fmax (th : list R) p om, (3 + p <= length th)%nat -> 0 <= fmin ->
  ARRoots AX p (map Fin th) = Ok (map FinC om) -> in_prior smax fmin fmax th om ->
  (forall i, (2 * i + 1 < p)%nat -> (2 * PI * fmin) ^ 2 < exp (nth (3 + 2 * i) th 0) < 2 * (2 * PI * fmax) ^ 2 /\
    2 * (2 * PI * fmin) < exp (nth (3 + 2 * i + 1) th 0) < 2 * (2 * PI * fmax)) /\
  (Nat.odd p = true -> 2 * PI * fmin < exp (nth (3 + p - 1) th 0) < 2 * PI * fmax).
Proof. intros smax fmin fmax th p om HL Hf Hom Hin. apply (ARRoots_q p th om HL) in Hom. subst om. exact (ar_bounded smax fmin fmax th p Hf Hin). Qed.
Print Assumptions C122_ar_bounded.

(** the log-density of an object as a function of the parameters *)
Definition ld_at solve p q (b : base AX (kpx AX)) (th : list R) : R :=
  match LogDensity (carma_cls solve p q) b (map Fin th) with Ok (Fin l, _) => l | _ => 0 end.

(** C122 fails for the moving average parameters of CARMA(p,q), q >= 1: at every point of the prior region, along every moving average parameter the
    posterior density stays above a positive constant.  Hence any function G which gives each interval at least its length times the smallest density
    in it is unbounded: the density cannot be normalised. *)
Theorem C122_moving_average_refuted : forall solve (si : list (F AX) -> option (list nat)) (raw : kfp AX) p q (t y e : list R),
  valid_solve solve -> valid_sort_index si -> goodp raw ->
  (2 <= length t)%nat -> length y = length t -> length e = length t -> strictly_increasing t -> (2 <= p)%nat -> (q < p)%nat ->
  (forall i, (i < length t)%nat -> nth i e 0 <> 0) ->
  exists b smax fmin fmax, carp_new si raw p (map Fin t) (map Fin y) (map Fin e) = Ok b /\ data_bounds t y smax fmin fmax /\
    forall th om j, length th = (3 + p + q)%nat -> (3 + p <= j < 3 + p + q)%nat -> nth 0 th 0 <> 0 ->
    ARRoots AX p (map Fin th) = Ok (map FinC om) -> in_prior smax fmin fmax th om ->
    (forall x, exists b', LogDensity (carma_cls solve p q) b (map Fin (upd th j x)) = Ok (Fin (ld_at solve p q b (upd th j x)), b')) /\
    (exists c, 0 < c /\ forall x, c <= exp (ld_at solve p q b (upd th j x))) /\
    forall G, carries (fun x => exp (ld_at solve p q b (upd th j x))) G -> forall B, exists lo hi, lo <= hi /\ B < G hi - G lo.
Proof.
  intros solve si raw p q t y e Hsv Hsi Hg Hn Hy He Hinc Hp Hq Hne.
  destruct (C122_bounds_carma solve si raw p q t y e Hsv Hsi Hg Hn Hy He Hinc Hp Hq Hne) as (b & smax & fmin & fmax & E & Hd & H).
  exists b, smax, fmin, fmax. split; [exact E|]. split; [exact Hd|]. intros th om j HL Hj Hz Hom Hin.
  assert (3 + p <= length th)%nat as HL3 by lia.
  set (low := ld_low t y e (nth 0 th 0) (nth 1 th 0) (nth 2 th 0) + log_sichi (nth 1 th 0)).
  assert (forall x, exists b', LogDensity (carma_cls solve p q) b (map Fin (upd th j x)) = Ok (Fin (ld_at solve p q b (upd th j x)), b') /\ low <= ld_at solve p q b (upd th j x)) as K.
  { intros x. pose proof (proj1 (ARRoots_q p th om HL3) Hom) as Eo.
    assert (ARRoots AX p (map Fin (upd th j x)) = Ok (map FinC om)) as Hom'.
    { apply ARRoots_q; [rewrite upd_length; lia|]. rewrite Eo. apply qroots_ext. intros i Hi. rewrite nth_upd_other by lia. reflexivity. }
    assert (in_prior smax fmin fmax (upd th j x) om) as Hin'.
    { destruct Hin as [A1 A2 A3 A4 A5 A6]. constructor; try assumption; rewrite nth_upd_other by lia; assumption. }
    destruct (H (upd th j x) om b) as (lp & b' & EL & B1 & _); [constructor|rewrite upd_length; lia|rewrite nth_upd_other by lia; exact Hz|exact Hom'|exact Hin'|].
    assert (ld_at solve p q b (upd th j x) = lp) as -> by (unfold ld_at; rewrite EL; reflexivity). exists b'. split; [exact EL|].
    rewrite !nth_upd_other in B1 by lia. exact B1. }
  assert (forall x, exp low <= exp (ld_at solve p q b (upd th j x))) as Hc.
  { intros x. destruct (K x) as (_ & _ & [Q|Q]); [left; apply exp_increasing, Q|right; rewrite Q; reflexivity]. }
  split; [intros x; destruct (K x) as (b' & EL & _); exists b'; exact EL|]. split; [exists (exp low); split; [apply exp_pos|exact Hc]|].
  intros G HG B. exact (carries_unbounded _ G (exp low) (exp_pos _) Hc HG B).
Qed.
Print Assumptions C122_moving_average_refuted.

(** the condition on G is met by the integral of any function that is integrable on every interval *)
Example ex_carries : forall f : R -> R, (forall a b, ex_RInt f a b) -> carries f (fun x => RInt f 0 x).
Proof.
  intros f Hf a b m Hab Hm. pose proof (RInt_Chasles (V := R_CompleteNormedModule) f 0 a b (Hf 0 a) (Hf a b)) as Q. change (RInt f 0 a + RInt f a b = RInt f 0 b) in Q. rewrite <- Q.
  assert (RInt (fun _ => m) a b <= RInt f a b) as L.
  { apply RInt_le; [exact Hab|apply ex_RInt_const|apply Hf|]. intros x Hx. apply Hm. lra. }
  rewrite RInt_const in L. change ((b - a) * m <= RInt f a b) in L. lra.
Qed.
(** a CARMA(2,1) parameter, with its data, meets the hypotheses *)
Example ex_improper : exists (solve : list (list (cx AX)) -> list (cx AX) -> option (list (cx AX))) si (raw : kfp AX) b smax fmin fmax, valid_solve solve /\ valid_sort_index si /\ goodp raw /\
  carp_new (si : list (F AX) -> option (list nat)) raw 2 (map Fin PropsEngine.tX) (map Fin PropsEngine.yX) (map Fin [1; 1; 1]) = Ok b /\ data_bounds PropsEngine.tX PropsEngine.yX smax fmin fmax /\
  exists c, 0 < c /\ forall x, c <= exp (ld_at solve 2 1 b (upd PropsEngine.thX 5 x)).
Proof.
  destruct PropsEngine.ex_oracles as (_ & _ & [sv Hsv] & [si Hsi] & _). destruct PropsEngine.ex_tX as [Ht Hne].
  set (raw := setparp (mkKF AX [] [] [] [] [] [] (Fin 0) 0%nat (Fin 0) (Fin 0) (mkX (A := AX) [] [] [] [] [] [] [] [] (Fin 0) [] [])) ([], [])).
  destruct (C122_moving_average_refuted sv si raw 2 1 PropsEngine.tX PropsEngine.yX [1; 1; 1] Hsv Hsi (PropsCarpack.ex_goodp _) ltac:(cbn; lia) eq_refl eq_refl Ht ltac:(lia) ltac:(lia)) as (b & smax & fmin & fmax & E & Hd & H).
  { intros [|[|[|i]]] Hi; cbn in *; try lra. lia. }
  exists sv, si, raw, b, smax, fmin, fmax. split; [exact Hsv|]. split; [exact Hsi|]. split; [apply PropsCarpack.ex_goodp|]. split; [exact E|]. split; [exact Hd|].
  assert (in_prior smax fmin fmax PropsEngine.thX PropsEngine.omX) as Hin.
  { destruct Hd as [D1 D2 D3 (i & Hi & D4) D5]. cbn in D5. assert (fmin = 1 / 101) as E1 by (rewrite D5; field).
    assert (1 / fmax = 1) as E2 by (pose proof (D3 0%nat ltac:(cbn; lia)) as Q; destruct i as [|[|i]]; cbn in *; [lra|lra|lia]).
    assert (fmax = 1) as E3 by (apply (Rmult_eq_reg_l (1 / fmax)); [rewrite E2 at 2; field; lra|lra]).
    assert (svar PropsEngine.yX = 1 / 3) as Es by (unfold svar, smean, PropsEngine.yX; cbn [List.length Rsum nth INR]; field).
    assert (1 / 2 <= sqrt (1 / 3)) by (apply Rsqr_incr_0_var; [|apply sqrt_pos]; rewrite Rsqr_sqrt by lra; unfold Rsqr; lra).
    destruct PropsEngine.ex_priorX as [A1 A2 A3 A4 A5 A6]. rewrite E1, E3. constructor; try assumption. rewrite D1, Es. cbn. lra. }
  exact (proj1 (proj2 (H PropsEngine.thX PropsEngine.omX 5%nat eq_refl ltac:(cbn; lia) ltac:(cbn; lra) PropsEngine.ex_rootsX Hin))).
Qed.
