(** LogDensity with one more measurement, in terms of Predict without it. *)
From Coq Require Import Reals List Arith ZArith Lra Lia Bool Permutation.
From Coquelicot Require Import Complex.
From Verif Require Import Arith Res ListLemmas KFModel Spec Gauss Emb History InitProof KF1X KF1Main KF1More.
From Verif Require Import Cx KFpModel KFpProof SpecCarma CLin KFpX KFpMain KFpTop KFpMore SpecModel CarpackModel RootsProof PriorProof LogLikProof LogLikMain CarpackTop CarpackRefute.
From Verif Require Import Det LogDens DetUniq Insert.
Import ListNotations.
Local Open Scope R_scope.
Local Notation length := List.length.

(** log-density, up to the constant -(1/2) log(2 pi), of a normal value x with mean m and variance v *)
Definition log_normal (x m v : R) : R := - (1 / 2) * ln v - (x - m) ^ 2 / (2 * v).

Lemma log_normal_eq x m v : 0 < v -> - (1 / 2) * ln v - 1 / 2 * (x - m) ^ 2 / v = log_normal x m v.
Proof. intros H. unfold log_normal. field. lra. Qed.

Lemma new_time_ok k (t e : list R) : (k < length t)%nat -> strictly_increasing t ->
  forall i, (i < length (without k t))%nat -> nth i (without k t) 0 = nth k t 0 -> nth i e 0 <> 0.
Proof.
  intros Hk Hi i Hlt E. exfalso. rewrite without_len in Hlt by exact Hk. rewrite without_nth in E by exact Hk.
  pose proof (skip_ne k i) as Hne. assert (skip k i < length t)%nat as Hs by (unfold skip; destruct (Nat.ltb_spec i k); lia).
  destruct (Nat.lt_trichotomy (skip k i) k) as [H|[H|H]]; [|contradiction|].
  - pose proof (Hi _ _ H Hk). lra.
  - pose proof (Hi _ _ H Hs). lra.
Qed.

(** the data given to the filter by LogDensity: the mean subtracted, the errors rescaled *)
Definition centred (mu : R) (y : list R) : list R := map (fun a => a - mu) y.
Definition noise (scale : R) (e : list R) : list R := map (fun a => sqrt scale * a) e.

Lemma insert1 k (t y e th : list R) smax fmin fmax smax' fmin' fmax' (b b' : base AX (F AX)) r r' w w' (s : kf1 AX) :
  (k < length t)%nat -> strictly_increasing t -> (4 <= length th)%nat -> nth 0 th 0 <> 0 ->
  base_holds b t y e (mkB AX (Fin smax) (Fin fmax) (Fin fmin) false) ->
  base_holds b' (without k t) (without k y) (without k e) (mkB AX (Fin smax') (Fin fmax') (Fin fmin') false) ->
  LogDensity (car1_cls AX) b (map Fin th) = Ok (r, w) -> LogDensity (car1_cls AX) b' (map Fin th) = Ok (r', w') -> r <> NInf -> r' <> NInf ->
  holds1 s (without k t) (centred (nth 2 th 0) (without k y)) (noise (nth 1 th 0) (without k e)) (2 * exp (nth 3 th 0) * (nth 0 th 0 * nth 0 th 0)) (exp (nth 3 th 0)) ->
  exists x' m v s1, r' = Fin x' /\ Predict1 s (Fin (nth k t 0)) = Ok ((Fin m, Fin v), s1) /\ 0 < v /\
    r = Fin (x' + log_normal (nth k y 0) (nth 2 th 0 + m) (v + nth 1 th 0 * (nth k e 0 * nth k e 0))).
Proof.
  intros Hk Hinc HL H0 Hb Hb' E E' Hr Hr' Hs.
  destruct (base_holds_lens _ _ _ _ _ _ Hb) as (Ly & Le & Ln).
  pose proof (without_inc k t Hk Hinc) as Hinc'.
  destruct (Classical_Prop.classic (in_prior1 smax fmin fmax th)) as [Hin|Hout].
  2:{ pose proof (LD1_outside b t y e th smax fmin fmax false Hb HL Hout) as Eo. rewrite E in Eo. injection Eo as -> _. contradiction. }
  destruct (Classical_Prop.classic (in_prior1 smax' fmin' fmax' th)) as [Hin'|Hout].
  2:{ pose proof (LD1_outside b' _ _ _ th smax' fmin' fmax' false Hb' HL Hout) as Eo. rewrite E' in Eo. injection Eo as -> _. contradiction. }
  pose proof Hin as (_ & _ & Hsc).
  destruct (LD1_inside b t y e th smax fmin fmax false Hb Hinc HL Hin H0) as (m1 & v1 & w1 & E1 & _ & _ & _ & _ & Hc).
  destruct (LD1_inside b' _ _ _ th smax' fmin' fmax' false Hb' Hinc' HL Hin' H0) as (m2 & v2 & w2 & E2 & _ & _ & _ & _ & Hc').
  rewrite E in E1. injection E1 as -> _. rewrite E' in E2. injection E2 as -> _.
  set (om := exp (nth 3 th 0)) in *. assert (0 < om) as Hw by apply exp_pos.
  assert (0 < 2 * om * (nth 0 th 0 * nth 0 th 0)) as Hsig. { apply Rmult_lt_0_compat; [lra|]. destruct (Rdichotomy _ _ H0); nra. }
  pose proof (new_time_ok k t (noise (nth 1 th 0) (without k e)) Hk Hinc) as Hnew.
  destruct (predict_c07 s _ _ _ _ _ (nth k t 0) Hs Hinc' Hsig Hw Hnew) as (m & v & s1 & EP & Hcd).
  destruct (predict_c08 s _ _ _ _ _ (nth k t 0) Hs Hinc' Hsig Hw Hnew) as (m' & v' & s1' & EP' & Hv & _).
  rewrite EP in EP'. injection EP' as <- <- _.
  eexists; exists m, v, s1. split; [reflexivity|]. split; [exact EP|]. split; [apply Hv|]. f_equal.
  set (x1 := gauss_ll (length t) (fun i => nth i y 0 - nth 2 th 0) (fun i => nth i m1 0) (fun i => nth i v1 0)).
  set (x2 := gauss_ll (length (without k t)) (fun i => nth i (without k y) 0 - nth 2 th 0) (fun i => nth i m2 0) (fun i => nth i v2 0)).
  assert (0 < v + nth 1 th 0 * (nth k e 0 * nth k e 0)) as Hpos by (assert (0 <= nth k e 0 * nth k e 0) by (apply Rle_0_sqr); nra).
  pose proof (loglik_insert (fun a c => nth 0 th 0 * nth 0 th 0 * exp (- (om * Rabs (a - c)))) t y e (nth 1 th 0) (nth 2 th 0) k x1 x2 m v) as HI.
  rewrite HI; [| |lra|exact Ly|exact Le|exact Hk| | | |exact Hpos].
  - rewrite <- log_normal_eq by exact Hpos. replace (nth k y 0 - (nth 2 th 0 + m)) with (nth k y 0 - nth 2 th 0 - m) by ring. ring.
  - intros a c. rewrite Rabs_minus_sym. reflexivity.
  - exists (fun i => nth i m1 0), (fun i => nth i v1 0). split; [exact Hc|reflexivity].
  - exists (fun i => nth i m2 0), (fun i => nth i v2 0). split; [exact Hc'|reflexivity].
  - eapply cond_dist_ext; [|exact Hcd]. intros a c. unfold ou_cov. f_equal. field. lra.
Qed.

Lemma insertp solve p maf prior k (t y e th ma : list R) (om : list C) pr smax fmin fmax smax' fmin' fmax' (b b' : base AX (kpx AX)) r r' w w' (s : kfp AX) :
  valid_solve solve -> (k < length t)%nat -> strictly_increasing t -> (2 <= p)%nat -> (3 + p <= length th)%nat -> nth 0 th 0 <> 0 ->
  ARRoots AX p (map Fin th) = Ok (map FinC om) -> maf (map Fin th) = Ok (map Fin ma) -> length ma = p -> (exists l, nth l ma 0 <> 0) ->
  (0 < nth 1 th 0 -> prior (map Fin th) = Ok (Fin pr)) ->
  base_holds b t y e (mkB AX (Fin smax) (Fin fmax) (Fin fmin) false) ->
  base_holds b' (without k t) (without k y) (without k e) (mkB AX (Fin smax') (Fin fmax') (Fin fmin') false) ->
  LogDensity (pcls solve p maf prior) b (map Fin th) = Ok (r, w) -> LogDensity (pcls solve p maf prior) b' (map Fin th) = Ok (r', w') -> r <> NInf -> r' <> NInf ->
  holdsp s (without k t) (centred (nth 2 th 0) (without k y)) (noise (nth 1 th 0) (without k e)) (nth 0 th 0 * nth 0 th 0 / carma_acv 1 ma om 0) om ma ->
  exists x' m v s1, r' = Fin x' /\ Predictp solve s (Fin (nth k t 0)) = Ok ((Fin m, Fin v), s1) /\ 0 < v /\
    r = Fin (x' + log_normal (nth k y 0) (nth 2 th 0 + m) (v + nth 1 th 0 * (nth k e 0 * nth k e 0))).
Proof.
  intros Hsv Hk Hinc Hp HL H0 EA Em Lma Nma Ep Hb Hb' E E' Hr Hr' Hs.
  destruct (base_holds_lens _ _ _ _ _ _ Hb) as (Ly & Le & Ln).
  pose proof (without_inc k t Hk Hinc) as Hinc'.
  destruct (Classical_Prop.classic (in_prior smax fmin fmax th om)) as [Hin|Hout].
  2:{ pose proof (LDp_none solve p maf prior b t y e th om smax fmin fmax Hb HL EA Hout) as Eo. rewrite E in Eo. injection Eo as -> _. contradiction. }
  destruct (Classical_Prop.classic (in_prior smax' fmin' fmax' th om)) as [Hin'|Hout].
  2:{ pose proof (LDp_none solve p maf prior b' _ _ _ th om smax' fmin' fmax' Hb' HL EA Hout) as Eo. rewrite E' in Eo. injection Eo as -> _. contradiction. }
  pose proof (pr_scale _ _ _ _ _ Hin) as Hsc.
  destruct (LDp_all solve p maf prior b t y e th ma om smax fmin fmax false pr Hsv Hb Hinc Hp HL Em Lma Nma Ep EA ltac:(auto) ltac:(discriminate) H0 ltac:(lra)) as (x1 & w1 & E1 & Hx1).
  destruct (LDp_all solve p maf prior b' _ _ _ th ma om smax' fmin' fmax' false pr Hsv Hb' Hinc' Hp HL Em Lma Nma Ep EA ltac:(auto) ltac:(discriminate) H0 ltac:(lra)) as (x2 & w2 & E2 & Hx2).
  rewrite E in E1. injection E1 as -> _. rewrite E' in E2. injection E2 as -> _.
  assert (NoDup om) as Hnd.
  { destruct (roots_of p th HL) as (om' & Eo & _ & Hn & _). rewrite EA in Eo. injection Eo as Eo.
    assert (om = om') as ->. { revert om' Eo Hn. clear. induction om as [|a l IH]; intros [|a' l'] E0 Hn; try discriminate; [reflexivity|]. cbn [map] in E0. injection E0 as E1 E2 E3.
      f_equal; [apply C_eq; congruence|apply IH; [exact E3|]]. intros r Hr. apply Hn. right. exact Hr. }
    exact (apart_NoDup _ _ _ _ _ Hn Hin). }
  destruct (om_roots p th om HL EA Hnd) as (Lo & Hneg & Hst).
  pose proof (carma_acv_pos om ma Hst ltac:(lia) ltac:(congruence) Nma) as Hpos1.
  set (sig := nth 0 th 0 * nth 0 th 0 / carma_acv 1 ma om 0) in *.
  assert (0 < sig) as Hsig. { unfold sig. apply Rdiv_lt_0_compat; [|exact Hpos1]. destruct (Rdichotomy _ _ H0); nra. }
  assert (carma_ok sig om ma) as Hok. { split; [exact Hst|]. split; [lia|]. split; [congruence|]. split; [exact Nma|exact Hsig]. }
  pose proof (new_time_ok k t (noise (nth 1 th 0) (without k e)) Hk Hinc) as Hnew.
  destruct (predictp solve Hsv s _ _ _ _ _ _ Hs Hinc' Hok (nth k t 0) Hnew) as (m & v & s1 & EP & Hcd & Hv).
  eexists; exists m, v, s1. split; [reflexivity|]. split; [exact EP|]. split; [apply Hv|]. f_equal.
  assert (0 < v + nth 1 th 0 * (nth k e 0 * nth k e 0)) as Hpos by (assert (0 <= nth k e 0 * nth k e 0) by (apply Rle_0_sqr); nra).
  rewrite (loglik_insert (carma_cov sig ma om) t y e (nth 1 th 0) (nth 2 th 0) k x1 x2 m v); [| |lra|exact Ly|exact Le|exact Hk|exact Hx1|exact Hx2|exact Hcd|exact Hpos].
  - rewrite <- log_normal_eq by exact Hpos. replace (nth k y 0 - (nth 2 th 0 + m)) with (nth k y 0 - nth 2 th 0 - m) by ring. ring.
  - intros a c. unfold carma_cov. rewrite Rabs_minus_sym. reflexivity.
Qed.
