(** C98 for CarmaSample.predict and Car1Sample.predict: the same data and samples in other units. *)
From Coq Require Import Reals List Arith ZArith Lra Lia Bool Permutation.
From Coquelicot Require Import Complex.
From Verif Require Import Arith Res ListLemmas KFModel KF1Proof Spec Gauss Emb KF1R History InitProof SimProof KF1Main KF1More KF1Hist.
From Verif Require Import Cx KFpModel KFpProof SpecCarma KFpX KFpMain KFpTop KFpMore CarpackModel PyModel PyPredict PropsKFp.
From Verif Require Import Arith Res ListLemmas KFModel KF1Proof Spec Gauss Emb KF1R History KF1X InitProof OUpd SimProof KF1Main KF1More KF1Refute.
From Verif Require Import Cx KFpModel KFpProof SpecCarma CLin KFpX KFpMain KFpTop KFpMore SpecModel CarpackModel RootsProof PriorProof LogLikMain PyModel PySim PyFuns PyDerive.
From Verif Require Import LogDens Sym SymTime PredLaw PropsPredPy.
From Verif Require PyExtra PropsPy.
Import ListNotations.
Local Open Scope R_scope.
Local Notation length := List.length.

(** the answers of predict in the new units *)
Definition in_units (a c : R) (o : list (R * R)) : list (R * R) := map (fun mv => (a * fst mv + c, a * a * snd mv)) o.
(** the answers as Python numbers *)
Definition fin2 (o : list (R * R)) : list (xr * xr) := map (fun mv => (Fin (fst mv), Fin (snd mv))) o.
(** a sample of the CAR(1) model in the new units: theta_3 is the logarithm of a frequency *)
Definition reparam1 (a c k : R) (th : list R) : list R :=
  match th with [t0; t1; t2; t3] => [a * t0; t1; a * t2 + c; t3 - ln k] | _ => th end.

Lemma first_max_unique lp i j : first_max lp i -> first_max lp j -> i = j.
Proof.
  intros (A1 & A2 & A3) (B1 & B2 & B3). destruct (Nat.lt_trichotomy i j) as [H|[H|H]]; [|exact H|].
  - specialize (B3 i H). specialize (A2 j B1). lra.
  - specialize (A3 j H). specialize (B2 i A1). lra.
Qed.
Lemma first_max_shift dl lp i : first_max (map (fun l => l + dl) lp) i -> first_max lp i.
Proof.
  intros (A1 & A2 & A3). rewrite map_length in *. split; [exact A1|]. split.
  - intros j Hj. specialize (A2 j Hj). rewrite !nth_map0 in A2 by lia. lra.
  - intros j Hj. specialize (A3 j Hj). rewrite !nth_map0 in A3 by lia. lra.
Qed.
Lemma predictions_unique K t y e mu ts :
  (forall tp m v m' v', cond_dist K t (map (fun x => x - mu) y) e tp m v -> cond_dist K t (map (fun x => x - mu) y) e tp m' v' -> m' = m /\ v' = v) ->
  forall o o', predictions K t y e mu ts o -> predictions K t y e mu ts o' -> o' = o.
Proof.
  intros Hu. unfold predictions. induction ts as [|tp ts IH]; intros o o' H H'; inversion H; inversion H'; subst; [reflexivity|].
  f_equal; [|apply IH; assumption].
  match goal with H1 : _ /\ cond_dist _ _ _ _ _ (fst ?p - mu) _, H2 : _ /\ cond_dist _ _ _ _ _ (fst ?p' - mu) _ |- ?p' = ?p =>
    destruct (Hu _ _ _ _ _ (proj2 H1) (proj2 H2)) as [E1 E2]; destruct p, p'; cbn [fst snd] in *; f_equal; lra end.
Qed.
Lemma centred a c mu y : map (fun x => x - (a * mu + c)) (map (fun x => a * x + c) y) = map (fun x => a * x) (map (fun x => x - mu) y).
Proof. rewrite !map_map. apply map_ext. intros. ring. Qed.
Lemma predictions_units K K' a c k s0 t y e mu ts o : 0 < a -> 0 < k -> length y = length t -> length e = length t ->
  (forall p q, K' (k * (p + s0)) (k * (q + s0)) = a * a * K p q) -> predictions K t y e mu ts o ->
  predictions K' (map (fun x => k * (x + s0)) t) (map (fun x => a * x + c) y) (map (fun x => a * x) e) (a * mu + c) (map (fun x => k * (x + s0)) ts) (in_units a c o).
Proof.
  intros Ha Hk Hy He HK H. unfold predictions in *. induction H as [|tp mv ts o (Hv & Hc) _ IH]; cbn [map in_units]; constructor; [|exact IH].
  cbn [fst snd]. split; [apply Rmult_lt_0_compat; nra|]. rewrite centred.
  assert (length (map (fun x => x - mu) y) = length t) as L by (rewrite map_length; exact Hy).
  pose proof (cond_units K K' false a k s0 t (map (fun x => x - mu) y) e tp (fst mv - mu) (snd mv) Hk L He HK Hc) as Hu.
  rewrite new_times_map, !rescale_map in Hu. unfold new_time in Hu.
  replace (a * fst mv + c - (a * mu + c)) with (a * (fst mv - mu)) by ring. exact Hu.
Qed.
Lemma no_exact_units a k s0 t e ts : 0 < a -> 0 < k -> length e = length t -> no_exact t e ts ->
  no_exact (map (fun x => k * (x + s0)) t) (map (fun x => a * x) e) (map (fun x => k * (x + s0)) ts).
Proof.
  intros Ha Hk He H i Hi Hin. rewrite map_length in Hi. rewrite nth_map0 in Hin by exact Hi. rewrite nth_map0 by lia.
  apply in_map_iff in Hin as (x & E & Hx). assert (x = nth i t 0) as -> by (apply Rmult_eq_reg_l in E; lra).
  apply Rmult_integral_contrapositive_currified; [lra|]. exact (H i Hi Hx).
Qed.

Lemma sig_form p q th sig om ma : (3 <= length th)%nat -> carma_params p q th sig om ma -> carma_ok sig om ma ->
  0 < carma_acv 1 ma om 0 /\ sig = nth 0 th 0 * nth 0 th 0 / carma_acv 1 ma om 0.
Proof.
  intros L (Pa & Pm & Ps) (Hst & H2 & Hl & Hex & _). pose proof Hst as (Hnd & Hneg & Hcc).
  assert (0 < carma_acv 1 ma om 0) as Hpos by (apply carma_acv_pos; assumption). split; [exact Hpos|].
  unfold Sigp in Ps. rewrite Pa in Ps. cbn [bind] in Ps. rewrite Pm in Ps. cbn [bind] in Ps. rewrite vget_Fin in Ps by lia. cbn [bind] in Ps.
  change (fofZ AX 1) with (Fin 1) in Ps. change (fofZ AX 0) with (Fin 0) in Ps.
  rewrite (Variance_Fin om ma 1 0 Hnd Hneg) in Ps. replace (1 * 1) with 1 in Ps by ring.
  assert (fdiv AX (fmul AX (Fin (nth 0 th 0)) (Fin (nth 0 th 0))) (Fin (carma_acv 1 ma om 0)) = Fin (nth 0 th 0 * nth 0 th 0 / carma_acv 1 ma om 0)) as E by (refine (fin_div _ _ _); lra).
  injection Ps as Ps. apply (eq_trans (eq_sym E)) in Ps. injection Ps as <-. reflexivity.
Qed.

Lemma carma_map_units (isreal : list (cx AX) -> bool) (si : list (F AX) -> option (list nat)) (raw raw' : kfp AX) p q (t y e : list R) (rows : list (list R)) (lp : list R) a c k s0 dl :
  valid_sort_index si -> 0 < a -> 0 < k -> strictly_increasing t -> (2 <= length t)%nat -> length y = length t -> length e = length t ->
  (2 <= p)%nat -> (q < p)%nat -> lp <> [] -> length rows = length lp ->
  (forall th, In th rows -> length th = (3 + p + q)%nat /\ nth 0 th 0 <> 0 /\ forall om : list C, ARRoots AX p (map Fin th) = Ok (map FinC om) -> NoDup om) ->
  exists s mu s' sig om ma sig' om' ma',
    carma_map_filter isreal si raw (map Fin t) (map Fin y) (map Fin e) q (map (map Fin) rows) (map Fin lp) = Ok (s, Fin mu) /\
    carma_map_filter isreal si raw' (map Fin (map (fun x => k * (x + s0)) t)) (map Fin (map (fun x => a * x + c) y)) (map Fin (map (fun x => a * x) e)) q
      (map (map Fin) (map (fun th => reparam a c (new_unit k p q th)) rows)) (map Fin (map (fun l => l + dl) lp)) = Ok (s', Fin (a * mu + c)) /\
    holdsp s t (map (fun x => x - mu) y) e sig om ma /\
    holdsp s' (map (fun x => k * (x + s0)) t) (map (fun x => x - (a * mu + c)) (map (fun x => a * x + c) y)) (map (fun x => a * x) e) sig' om' ma' /\
    carma_ok sig om ma /\ carma_ok sig' om' ma' /\
    forall p0 q0, carma_cov sig' ma' om' (k * (p0 + s0)) (k * (q0 + s0)) = a * a * carma_cov sig ma om p0 q0.
Proof.
  intros Hsi Ha Hk Hinc Ht Hy He Hp Hq Hlp Hlen Hrows.
  destruct (carma_map_holds isreal si raw p q t y e rows lp Hsi Hinc Ht Hy He Hp Hq Hlp Hlen Hrows) as (i & s & sig & om & ma & Hm & Es & Hpar & Hs & Hok). cbv zeta in *.
  set (th := nth i rows []) in *. set (f := fun th => reparam a c (new_unit k p q th)).
  assert (strictly_increasing (map (fun x => k * (x + s0)) t)) as Hinc' by (rewrite <- new_times_map; apply new_times_inc; assumption).
  assert (forall x, (3 + p + q <= length x)%nat -> ARRoots AX p (map Fin x) = Ok (map FinC (qroots x 3 p)) /\ ARRoots AX p (map Fin (f x)) = Ok (map FinC (map (scl (/ k)) (qroots x 3 p)))) as HAR.
  { intros x Lx. split; [apply quad_roots_Fin; lia|]. unfold f. rewrite ARRoots_reparam. unfold ARRoots. change (list (F AX)) with (list xr).
    rewrite quad_roots_Fin by (rewrite new_unit_len; lia). rewrite ar_scale by (assumption || lia). reflexivity. }
  destruct (carma_map_holds isreal si raw' p q (map (fun x => k * (x + s0)) t) (map (fun x => a * x + c) y) (map (fun x => a * x) e) (map f rows) (map (fun l => l + dl) lp) Hsi Hinc')
    as (j & s' & sig' & om' & ma' & Hm' & Es' & Hpar' & Hs' & Hok'); rewrite ?map_length; try assumption.
  { destruct lp; [contradiction|discriminate]. }
  { intros th0 Hin. apply in_map_iff in Hin as (x & <- & Hx). destruct (Hrows x Hx) as (L & N & D). split; [unfold f; rewrite reparam_len, new_unit_len; exact L|].
    split; [unfold f; rewrite reparam_0, new_unit_low by (rewrite ?new_unit_len; lia); apply Rmult_integral_contrapositive_currified; [lra|exact N]|].
    destruct (HAR x ltac:(lia)) as [A1 A2]. intros om0 E0. rewrite A2 in E0. injection E0 as E0. apply map_FinC_inj in E0. subst om0. apply stable_units; [exact Hk|].
    split; [exact (D _ A1)|]. split; [intros r; apply qroots_neg|intros r Hr; apply conj_closed_in; [apply qroots_conj|exact Hr]]. }
  cbv zeta in *. apply first_max_shift in Hm'. rewrite <- (first_max_unique _ _ _ Hm Hm') in *. clear Hm' j.
  pose proof Hm as (Hi & _). destruct (Hrows th ltac:(apply nth_In; lia)) as (Lth & _ & _).
  assert (nth i (map f rows) [] = f th) as Eth.
  { rewrite (nth_indep _ [] (f [])) by (rewrite map_length; lia). apply map_nth. }
  rewrite Eth in *. destruct (HAR th ltac:(lia)) as [A1 A2].
  assert (length (f th) = length th) as Lf by (unfold f; rewrite reparam_len, new_unit_len; reflexivity).
  assert (nth 0 (f th) 0 = a * nth 0 th 0) as F0 by (unfold f; rewrite reparam_0, new_unit_low by (rewrite ?new_unit_len; lia); reflexivity).
  assert (nth 2 (f th) 0 = a * nth 2 th 0 + c) as F2 by (unfold f; rewrite reparam_2, new_unit_low by (rewrite ?new_unit_len; lia); reflexivity).
  destruct (sig_form p q th sig om ma ltac:(lia) Hpar Hok) as (Hpos & Esig). destruct (sig_form p q (f th) sig' om' ma' ltac:(lia) Hpar' Hok') as (Hpos' & Esig').
  rewrite F0 in Esig'. destruct Hpar as (Pa & Pm & _), Hpar' as (Pa' & Pm' & _).
  assert (om = qroots th 3 p) as Eom by (apply map_FinC_inj; congruence).
  assert (om' = map (scl (/ k)) om) as -> by (apply map_FinC_inj; rewrite Eom; congruence).
  assert (forall z, ma_poly ma' (scl (/ k) z) = ma_poly ma z) as Hmp.
  { destruct (ExtractMA_carma_main p q th Hq ltac:(lia)) as (m1 & E1 & _ & _ & _ & _ & M1 & _).
    destruct (ExtractMA_carma_main p q (new_unit k p q th) Hq ltac:(rewrite new_unit_len; lia)) as (m2 & E2 & _ & _ & _ & _ & M2 & _).
    assert (ma = m1) as -> by (apply map_Fin_inj; congruence).
    assert (ExtractMA_carma AX p q (map Fin (f th)) = ExtractMA_carma AX p q (map Fin (new_unit k p q th))) as EM.
    { unfold f, ExtractMA_carma. rewrite quad_roots_reparam by lia. reflexivity. }
    assert (ma' = m2) as -> by (apply map_Fin_inj; congruence).
    apply (ma_poly_scale k p q th); [exact Hk|lia|exact M1|exact M2]. }
  exists s, (nth 2 th 0), s', sig, om, ma, sig', (map (scl (/ k)) om), ma'. rewrite F2 in Es', Hs'.
  split; [exact Es|]. split; [exact Es'|]. split; [exact Hs|]. split; [exact Hs'|]. split; [exact Hok|]. split; [exact Hok'|].
  assert (forall z, (z < length om)%nat -> carma_denom om z <> RtoC 0) as Hd by (intros; apply denom_nz; [apply Hok|assumption]).
    intros. unfold carma_cov. replace (k * (p0 + s0) - k * (q0 + s0)) with (k * (p0 - q0)) by ring. rewrite Rabs_mult, (Rabs_right k) by lra.
    assert (forall g m o1 tau, carma_acv g m o1 tau = g * carma_acv 1 m o1 tau) as Hlin by (intros; unfold carma_acv; ring).
    rewrite Hlin, (Hlin sig), (acv_scale k om ma ma' _ Hk Hd Hmp), Esig, Esig'.
    pose proof (acv_scale k om ma ma' 0 Hk Hd Hmp) as A0. rewrite Rmult_0_r in A0. rewrite A0 in Hpos' |- *.
    set (w := / (/ k * (/ k * / k) ^ (length om - 1))) in *. clearbody w. clear - Hpos Hpos'.
    assert (w <> 0) by (intros ->; lra). field. split; [lra|assumption].
Qed.

(** C98, CarmaSample.predict: times in another unit k and from another origin, values and errors in another unit a and from another zero c, the
    samples in these units (theta_0 and theta_2, and the autoregressive and moving average parameters for the unit of time, [new_unit] of C92),
    and log-posteriors that differ by a constant (C91, C92): predict chooses the same sample and returns the same means and variances in the new units. *)
Theorem C98_sample_predict_carma : forall solve solve' (isreal : list (cx AX) -> bool) (si : list (F AX) -> option (list nat)) (raw raw' : kfp AX) p q (t y e : list R) (rows : list (list R)) (lp ts : list R) a c k s0 dl,
  valid_solve solve -> valid_solve solve' -> valid_sort_index si -> 0 < a -> 0 < k ->
  strictly_increasing t -> (2 <= length t)%nat -> length y = length t -> length e = length t ->
  (2 <= p)%nat -> (q < p)%nat -> lp <> [] -> length rows = length lp ->
  (forall th, In th rows -> length th = (3 + p + q)%nat /\ nth 0 th 0 <> 0 /\ forall om : list C, ARRoots AX p (map Fin th) = Ok (map FinC om) -> NoDup om) ->
  no_exact t e ts ->
  exists s mu s' mu' o,
    carma_map_filter isreal si raw (map Fin t) (map Fin y) (map Fin e) q (map (map Fin) rows) (map Fin lp) = Ok (s, Fin mu) /\
    py_predict (methodsp solve) s (Fin mu : F AX) (map Fin ts) = Ok (fin2 o) /\
    carma_map_filter isreal si raw' (map Fin (map (fun x => k * (x + s0)) t)) (map Fin (map (fun x => a * x + c) y)) (map Fin (map (fun x => a * x) e)) q
      (map (map Fin) (map (fun th => reparam a c (new_unit k p q th)) rows)) (map Fin (map (fun l => l + dl) lp)) = Ok (s', Fin mu') /\
    py_predict (methodsp solve') s' (Fin mu' : F AX) (map Fin (map (fun x => k * (x + s0)) ts)) = Ok (fin2 (in_units a c o)).
Proof.
  intros solve solve' isreal si raw raw' p q t y e rows lp ts a c k s0 dl Hsv Hsv' Hsi Ha Hk Hinc Ht Hy He Hp Hq Hlp Hlen Hrows Hnz.
  destruct (carma_map_units isreal si raw raw' p q t y e rows lp a c k s0 dl Hsi Ha Hk Hinc Ht Hy He Hp Hq Hlp Hlen Hrows)
    as (s & mu & s' & sig & om & ma & sig' & om' & ma' & Es & Es' & Hs & Hs' & Hok & Hok' & HK).
  assert (strictly_increasing (map (fun x => k * (x + s0)) t)) as Hinc' by (rewrite <- new_times_map; apply new_times_inc; assumption).
  destruct (predictp_holds solve Hsv s t _ e sig om ma mu ts Hs Hinc Hok Hnz) as (o & Eo & Ho).
  destruct (predictp_holds solve' Hsv' s' _ _ _ sig' om' ma' (a * mu + c) (map (fun x => k * (x + s0)) ts) Hs' Hinc' Hok'
    (no_exact_units a k s0 t e ts Ha Hk He Hnz)) as (o' & Eo' & Ho').
  exists s, mu, s', (a * mu + c), o. split; [exact Es|]. split; [exact Eo|]. split; [exact Es'|].
  enough (o' = in_units a c o) as <- by exact Eo'.
  pose proof (predictions_units _ _ a c k s0 t y e mu ts o Ha Hk Hy He HK Ho) as Hu.
  refine (predictions_unique _ _ _ _ _ _ _ _ _ Hu Ho'). intros tp m v m' v' H1 H2.
  destruct (C17_spec_is_unique_and_optimal _ _ ma' _ _ _ tp m v Hinc' Hok' H1) as [U _]. exact (U m' v' H2).
Qed.
Print Assumptions C98_sample_predict_carma.

(** C98, Car1Sample.predict: as before, and with times in another unit k (theta_3 is the logarithm of a frequency). *)
Theorem C98_sample_predict_car1 : forall (si : list (F AX) -> option (list nat)) (raw raw' : kf1 AX) (t y e : list R) (rows : list (list R)) (lp ts : list R) a c k s0 dl,
  valid_sort_index si -> 0 < a -> 0 < k ->
  strictly_increasing t -> (2 <= length t)%nat -> length y = length t -> length e = length t -> lp <> [] -> length rows = length lp ->
  (forall th, In th rows -> length th = 4%nat /\ nth 0 th 0 <> 0) -> no_exact t e ts ->
  exists s mu s' mu' o,
    car1_map_filter si raw (map Fin t) (map Fin y) (map Fin e) (map (map Fin) rows) (map Fin lp) = Ok (s, Fin mu) /\
    py_predict (methods1 AX) s (Fin mu : F AX) (map Fin ts) = Ok (fin2 o) /\
    car1_map_filter si raw' (map Fin (map (fun x => k * (x + s0)) t)) (map Fin (map (fun x => a * x + c) y)) (map Fin (map (fun x => a * x) e))
      (map (map Fin) (map (reparam1 a c k) rows)) (map Fin (map (fun l => l + dl) lp)) = Ok (s', Fin mu') /\
    py_predict (methods1 AX) s' (Fin mu' : F AX) (map Fin (map (fun x => k * (x + s0)) ts)) = Ok (fin2 (in_units a c o)).
Proof.
  intros si raw raw' t y e rows lp ts a c k s0 dl Hsi Ha Hk Hinc Ht Hy He Hlp Hlen Hrows Hnz.
  destruct (car1_predict_map si raw t y e rows lp ts Hsi Hinc Ht Hy He Hlp Hlen Hrows Hnz) as (i & s & o & Hm & Es & Eo & Ho). cbv zeta in *.
  set (th := nth i rows []) in *.
  assert (strictly_increasing (map (fun x => k * (x + s0)) t)) as Hinc' by (rewrite <- new_times_map; apply new_times_inc; assumption).
  destruct (car1_predict_map si raw' (map (fun x => k * (x + s0)) t) (map (fun x => a * x + c) y) (map (fun x => a * x) e) (map (reparam1 a c k) rows) (map (fun l => l + dl) lp)
    (map (fun x => k * (x + s0)) ts) Hsi Hinc') as (j & s' & o' & Hm' & Es' & Eo' & Ho'); rewrite ?map_length; try assumption.
  { destruct lp; [contradiction|discriminate]. }
  { intros th0 Hin. apply in_map_iff in Hin as (x & <- & Hx). destruct (Hrows x Hx) as (L & N).
    destruct x as [|x0 [|x1 [|x2 [|x3 [|? ?]]]]]; try discriminate L. cbn in *. split; [reflexivity|]. apply Rmult_integral_contrapositive_currified; [lra|exact N]. }
  { apply no_exact_units; assumption. }
  cbv zeta in *. apply first_max_shift in Hm'. rewrite <- (first_max_unique _ _ _ Hm Hm') in *. clear Hm' j.
  pose proof Hm as (Hi & _). destruct (Hrows th ltac:(apply nth_In; lia)) as (Lth & Nth).
  assert (nth i (map (reparam1 a c k) rows) [] = reparam1 a c k th) as Eth by (exact (map_nth (reparam1 a c k) rows [] i)).
  rewrite Eth in *. clearbody th. destruct th as [|x0 [|x1 [|x2 [|x3 [|? ?]]]]]; try discriminate Lth. cbn [nth reparam1] in *.
  exists s, x2, s', (a * x2 + c), o. split; [exact Es|]. split; [exact Eo|]. split; [exact Es'|].
  enough (o' = in_units a c o) as <- by exact Eo'.
  set (K' := fun a0 c0 => a * x0 * (a * x0) * exp (- (exp (x3 - ln k) * Rabs (a0 - c0)))) in *.
  assert (forall p q, K' (k * (p + s0)) (k * (q + s0)) = a * a * (x0 * x0 * exp (- (exp x3 * Rabs (p - q))))) as HK.
  { intros. unfold K'. replace (k * (p + s0) - k * (q + s0)) with (k * (p - q)) by ring. rewrite Rabs_mult, (Rabs_pos_eq k) by lra.
    assert (exp (x3 - ln k) = exp x3 * / k) as -> by (unfold Rminus; rewrite exp_plus, exp_Ropp, exp_ln by exact Hk; reflexivity).
    replace (exp x3 * / k * (k * Rabs (p - q))) with (exp x3 * Rabs (p - q)) by (field; lra). ring. }
  pose proof (predictions_units _ _ a c k s0 t y e x2 ts o Ha Hk Hy He HK Ho) as Hu.
  refine (predictions_unique _ _ _ _ _ _ _ _ _ Hu Ho').
  intros tp m v m' v' H1 H2. set (thN := [a * x0; x1; a * x2 + c; x3 - ln k]).
  assert (forall p q, K' p q = ou_cov (2 * (nth 0 thN 0 * nth 0 thN 0) * exp (nth 3 thN 0)) (exp (nth 3 thN 0)) p q) as EK by (intros; rewrite car1_K_ou; reflexivity).
  assert (0 < 2 * (nth 0 thN 0 * nth 0 thN 0) * exp (nth 3 thN 0)) as Hsig.
  { cbn [nth thN]. pose proof (exp_pos (x3 - ln k)). assert (0 < (a * x0) * (a * x0)) by (apply Rsqr_pos_lt; apply Rmult_integral_contrapositive_currified; [lra|exact Nth]). nra. }
  destruct (cond_determined _ _ _ _ _ tp m v Hinc' Hsig (exp_pos _) (cond_dist_ext _ _ _ _ _ _ _ _ EK H1)) as [U _].
  apply U. exact (cond_dist_ext _ _ _ _ _ _ _ _ EK H2).
Qed.
Print Assumptions C98_sample_predict_car1.

(** The hypotheses are met: two samples of a CAR(1) model, and a sample of a CARMA(2,0) model. *)
Example C98_sample_car1_hypotheses_met : let rows := [[1; 1; 0; 0]; [2; 1; 1; -1]] in
  (forall th, In th rows -> length th = 4%nat /\ nth 0 th 0 <> 0) /\ length rows = length [-3; -1] /\ strictly_increasing [0; 1; 3] /\ no_exact [0; 1; 3] [1; 0; 2] [2; 3; 5].
Proof.
  split; [intros th [<-|[<-|[]]]; cbn; (split; [reflexivity|lra])|]. split; [reflexivity|]. split.
  - intros [|[|[|i]]] [|[|[|j]]] Hij Hj; cbn in *; try lra; lia.
  - intros [|[|[|i]]] Hi Hin; cbn in *; try lra.
Qed.
Example C98_sample_carma_hypotheses_met : (forall th, In th [PyExtra.thA] ->
    length th = (3 + 2 + 0)%nat /\ nth 0 th 0 <> 0 /\ forall om : list C, ARRoots AX 2 (map Fin th) = Ok (map FinC om) -> NoDup om) /\
  strictly_increasing PropsPy.tE /\ no_exact PropsPy.tE PropsPy.eE [2; 5; 1].
Proof.
  split; [|split; [exact (proj1 PropsPy.ex_tE)|exact (proj1 PropsPy.ex_times)]].
  intros th Hth. destruct (PropsPy.ex_row th Hth) as (L & N & _ & D). split; [exact L|]. split; [exact N|exact D].
Qed.
