(** C91-C94: what the log-density does when the measurements are expressed in other units; the bounds of kappa; the order of the factors. *)
From Coq Require Import Reals List Arith ZArith Lra Lia Bool Permutation.
From Coquelicot Require Import Complex.
From Verif Require Import Arith Res ListLemmas KFModel Spec Gauss Emb History InitProof KF1X KF1Main KF1More.
From Verif Require Import Cx KFpModel KFpProof SpecCarma CLin KFpX KFpMain KFpTop KFpMore SpecModel CarpackModel RootsProof PriorProof LogLikProof LogLikMain CarpackTop CarpackRefute.
From Verif Require Import SimProof RamProof Det LogDens DetUniq ZeroProof Sym SymTime Kappa Switch SymWit.
Import ListNotations.
Local Open Scope R_scope.
Local Notation length := List.length.

(** *** Both problems are built and used *)
Lemma built1 (si : list (F AX) -> option (list nat)) (raw raw' : kf1 AX) (t y e t' y' e' : list R) smax' fmin' fmax' : valid_sort_index si -> (2 <= length t)%nat -> length y = length t -> length e = length t -> strictly_increasing t ->
  (2 <= length t')%nat -> length y' = length t' -> length e' = length t' -> strictly_increasing t' ->
  (forall smax fmin fmax, data_bounds t y smax fmin fmax -> data_bounds t' y' (smax' smax) (fmin' fmin) (fmax' fmax)) ->
  exists b b' smax fmin fmax, car1_new si raw (map Fin t) (map Fin y) (map Fin e) = Ok b /\ car1_new si raw' (map Fin t') (map Fin y') (map Fin e') = Ok b' /\
    forall b1 b1', touched (car1_cls AX) (@setpar1 AX) b b1 -> touched (car1_cls AX) (@setpar1 AX) b' b1' ->
      base_holds b1 t y e (mkB AX (Fin smax) (Fin fmax) (Fin fmin) false) /\
      base_holds b1' t' y' e' (mkB AX (Fin (smax' smax)) (Fin (fmax' fmax)) (Fin (fmin' fmin)) false).
Proof.
  intros Hsi Hn Hy He Hinc Hn' Hy' He' Hinc' Hbd.
  destruct (base_new_Fin _ si raw t y e Hsi Hn Hy He Hinc) as (b & smax & fmin & fmax & E & Hb & Hd).
  destruct (base_new_Fin _ si raw' t' y' e' Hsi Hn' Hy' He' Hinc') as (b' & s2 & f2 & g2 & E' & Hb' & Hd').
  destruct (bounds_unique _ _ _ _ _ _ _ _ Hd' (Hbd _ _ _ Hd)) as (-> & -> & ->).
  exists b, b', smax, fmin, fmax. split; [exact E|]. split; [exact E'|]. intros b1 b1' Ht Ht'.
  split; [exact (holds_touched1 b b1 t y e _ Hb Ht)|exact (holds_touched1 b' b1' t' y' e' _ Hb' Ht')].
Qed.
Lemma builtp solve p maf prior (si : list (F AX) -> option (list nat)) (raw raw' : kfp AX) (t y e t' y' e' : list R) smax' fmin' fmax' : valid_sort_index si -> goodp raw -> goodp raw' -> p <> O ->
  (2 <= length t)%nat -> length y = length t -> length e = length t -> strictly_increasing t ->
  (2 <= length t')%nat -> length y' = length t' -> length e' = length t' -> strictly_increasing t' ->
  (forall smax fmin fmax, data_bounds t y smax fmin fmax -> data_bounds t' y' (smax' smax) (fmin' fmin) (fmax' fmax)) ->
  exists b b' smax fmin fmax, carp_new si raw p (map Fin t) (map Fin y) (map Fin e) = Ok b /\ carp_new si raw' p (map Fin t') (map Fin y') (map Fin e') = Ok b' /\
    data_bounds t y smax fmin fmax /\
    forall b1 b1', touched (pcls solve p maf prior) (@setparp AX) b b1 -> touched (pcls solve p maf prior) (@setparp AX) b' b1' ->
      base_holds b1 t y e (mkB AX (Fin smax) (Fin fmax) (Fin fmin) false) /\
      base_holds b1' t' y' e' (mkB AX (Fin (smax' smax)) (Fin (fmax' fmax)) (Fin (fmin' fmin)) false).
Proof.
  intros Hsi Hg Hg' Hp Hn Hy He Hinc Hn' Hy' He' Hinc' Hbd.
  destruct (carp_new_Fin si raw p t y e Hsi Hn Hy He Hinc Hp) as (b & smax & fmin & fmax & E & Hb & Hd).
  destruct (carp_new_Fin si raw' p t' y' e' Hsi Hn' Hy' He' Hinc' Hp) as (b' & s2 & f2 & g2 & E' & Hb' & Hd').
  destruct (bounds_unique _ _ _ _ _ _ _ _ Hd' (Hbd _ _ _ Hd)) as (-> & -> & ->).
  destruct (carp_new_wfb AX si raw p (map Fin t) (map Fin y) (map Fin e) b ltac:(rewrite !map_length; assumption) ltac:(rewrite !map_length; assumption) Hg E) as (_ & _ & _ & Hgb & _ & _).
  destruct (carp_new_wfb AX si raw' p (map Fin t') (map Fin y') (map Fin e') b' ltac:(rewrite !map_length; assumption) ltac:(rewrite !map_length; assumption) Hg' E') as (_ & _ & _ & Hgb' & _ & _).
  exists b, b', smax, fmin, fmax. split; [exact E|]. split; [exact E'|]. split; [exact Hd|]. intros b1 b1' Ht Ht'.
  split; [exact (holds_touchedp solve p _ _ b b1 t y e _ Hb Hgb Ht)|exact (holds_touchedp solve p _ _ b' b1' t' y' e' _ Hb' Hgb' Ht')].
Qed.

(** *** C91 *)
(** C91, CAR(1): measure time from another origin or backwards, and the values and their errors in another unit a from another origin c;
    with the standard deviation and the mean expressed in the new unit, LogDensity changes by - n log a at every theta (inside or outside the prior,
    infinite or NaN values unchanged), whatever the two objects have been used for before. *)
Theorem C91_car1 : forall (si : list (F AX) -> option (list nat)) (raw raw' : kf1 AX) back a c s (t y e : list R),
  valid_sort_index si -> 0 < a -> (2 <= length t)%nat -> length y = length t -> length e = length t -> strictly_increasing t ->
  exists b b', car1_new si raw (map Fin t) (map Fin y) (map Fin e) = Ok b /\
    car1_new si raw' (map Fin (retime back s t)) (map Fin (rescale back a c y)) (map Fin (rescale back a 0 e)) = Ok b' /\
    forall b1 b1' th, touched (car1_cls AX) (@setpar1 AX) b b1 -> touched (car1_cls AX) (@setpar1 AX) b' b1' -> (4 <= length th)%nat ->
    exists v w w', LogDensity (car1_cls AX) b1 (map Fin th) = Ok (v, w) /\
      LogDensity (car1_cls AX) b1' (map Fin (reparam a c th)) = Ok (lower_by (INR (length t) * ln a) v, w').
Proof.
  intros si raw raw' back a c s t y e Hsi Ha Hn Hy He Hinc.
  destruct (built1 si raw raw' t y e (retime back s t) (rescale back a c y) (rescale back a 0 e) (fun x => a * x) (fun x => x) (fun x => x)) as (b & b' & smax & fmin & fmax & E & E' & H);
    try assumption; rewrite ?retime_len, ?rescale_len; try assumption; try (apply retime_inc, Hinc).
  - intros smax fmin fmax Hd. apply bounds_transform; assumption.
  - exists b, b'. split; [exact E|]. split; [exact E'|]. intros b1 b1' th Ht Ht' HL. destruct (H b1 b1' Ht Ht') as (Hb & Hb').
    exact (sym1 back a c s t y e th smax fmin fmax b1 b1' Ha Hinc HL Hb Hb').
Qed.
Print Assumptions C91_car1.

(** C91, CAR(p), p >= 2. *)
Theorem C91_carp : forall solve (si : list (F AX) -> option (list nat)) (raw raw' : kfp AX) p back a c s (t y e : list R),
  valid_solve solve -> valid_sort_index si -> goodp raw -> goodp raw' -> (2 <= p)%nat ->
  0 < a -> (2 <= length t)%nat -> length y = length t -> length e = length t -> strictly_increasing t ->
  exists b b', carp_new si raw p (map Fin t) (map Fin y) (map Fin e) = Ok b /\
    carp_new si raw' p (map Fin (retime back s t)) (map Fin (rescale back a c y)) (map Fin (rescale back a 0 e)) = Ok b' /\
    forall b1 b1' th, touched (carp_cls solve p) (@setparp AX) b b1 -> touched (carp_cls solve p) (@setparp AX) b' b1' -> (3 + p <= length th)%nat ->
    exists v w w', LogDensity (carp_cls solve p) b1 (map Fin th) = Ok (v, w) /\
      LogDensity (carp_cls solve p) b1' (map Fin (reparam a c th)) = Ok (lower_by (INR (length t) * ln a) v, w').
Proof.
  intros solve si raw raw' p back a c s t y e Hsv Hsi Hg Hg' Hp Ha Hn Hy He Hinc.
  destruct (builtp solve p (fun _ => Ok (carp_ma AX p)) (LogPrior AX) si raw raw' t y e (retime back s t) (rescale back a c y) (rescale back a 0 e) (fun x => a * x) (fun x => x) (fun x => x)) as (b & b' & smax & fmin & fmax & E & E' & _ & H);
    try assumption; try lia; rewrite ?retime_len, ?rescale_len; try assumption; try (apply retime_inc, Hinc).
  - intros smax fmin fmax Hd. apply bounds_transform; assumption.
  - exists b, b'. split; [exact E|]. split; [exact E'|]. intros b1 b1' th Ht Ht' HL. destruct (H b1 b1' Ht Ht') as (Hb & Hb').
    apply (symp solve p _ _ back a c s t y e th (upd (repeat 0 p) 0 1) (log_sichi (nth 1 th 0)) smax fmin fmax b1 b1'); try assumption.
    + apply carp_ma_len.
    + apply carp_ma_nz. lia.
    + rewrite carp_ma_Fin. reflexivity.
    + rewrite carp_ma_Fin. reflexivity.
    + intros H1. apply LogPrior_main; [lia|exact H1].
    + intros H1. unfold LogPrior. change (F AX) with xr. rewrite vget1_reparam. apply LogPrior_main; [lia|exact H1].
Qed.
Print Assumptions C91_carp.

(** C91, CARMA(p,q), p >= 2, q < p. *)
Theorem C91_carma : forall solve (si : list (F AX) -> option (list nat)) (raw raw' : kfp AX) p q back a c s (t y e : list R),
  valid_solve solve -> valid_sort_index si -> goodp raw -> goodp raw' -> (2 <= p)%nat -> (q < p)%nat ->
  0 < a -> (2 <= length t)%nat -> length y = length t -> length e = length t -> strictly_increasing t ->
  exists b b', carp_new si raw p (map Fin t) (map Fin y) (map Fin e) = Ok b /\
    carp_new si raw' p (map Fin (retime back s t)) (map Fin (rescale back a c y)) (map Fin (rescale back a 0 e)) = Ok b' /\
    forall b1 b1' th, touched (carma_cls solve p q) (@setparp AX) b b1 -> touched (carma_cls solve p q) (@setparp AX) b' b1' -> (3 + p + q <= length th)%nat ->
    exists v w w', LogDensity (carma_cls solve p q) b1 (map Fin th) = Ok (v, w) /\
      LogDensity (carma_cls solve p q) b1' (map Fin (reparam a c th)) = Ok (lower_by (INR (length t) * ln a) v, w').
Proof.
  intros solve si raw raw' p q back a c s t y e Hsv Hsi Hg Hg' Hp Hq Ha Hn Hy He Hinc.
  destruct (builtp solve p (ExtractMA_carma AX p q) (LogPrior AX) si raw raw' t y e (retime back s t) (rescale back a c y) (rescale back a 0 e) (fun x => a * x) (fun x => x) (fun x => x)) as (b & b' & smax & fmin & fmax & E & E' & _ & H);
    try assumption; try lia; rewrite ?retime_len, ?rescale_len; try assumption; try (apply retime_inc, Hinc).
  - intros smax fmin fmax Hd. apply bounds_transform; assumption.
  - exists b, b'. split; [exact E|]. split; [exact E'|]. intros b1 b1' th Ht Ht' HL. destruct (H b1 b1' Ht Ht') as (Hb & Hb').
    destruct (ExtractMA_carma_main p q th Hq HL) as (ma & EM & Lm & H0 & _).
    apply (symp solve p _ _ back a c s t y e th ma (log_sichi (nth 1 th 0)) smax fmin fmax b1 b1'); try assumption; try lia.
    + exists O. rewrite H0. lra.
    + unfold ExtractMA_carma in *. rewrite quad_roots_reparam by lia. exact EM.
    + intros H1. apply LogPrior_main; [lia|exact H1].
    + intros H1. unfold LogPrior. change (F AX) with xr. rewrite vget1_reparam. apply LogPrior_main; [lia|exact H1].
Qed.
Print Assumptions C91_carma.

(** C91, ZCARMA(p), p >= 2 (the same kappa bounds in both problems). *)
Theorem C91_zcarma : forall solve (si : list (F AX) -> option (list nat)) (raw raw' : kfp AX) p klow khigh back a c s (t y e : list R),
  valid_solve solve -> valid_sort_index si -> goodp raw -> goodp raw' -> (2 <= p)%nat -> 0 < klow < khigh ->
  0 < a -> (2 <= length t)%nat -> length y = length t -> length e = length t -> strictly_increasing t ->
  exists b b', carp_new si raw p (map Fin t) (map Fin y) (map Fin e) = Ok b /\
    carp_new si raw' p (map Fin (retime back s t)) (map Fin (rescale back a c y)) (map Fin (rescale back a 0 e)) = Ok b' /\
    forall b1 b1' th, touched (zcarma_cls solve p (Fin klow : F AX) (Fin khigh)) (@setparp AX) b b1 -> touched (zcarma_cls solve p (Fin klow : F AX) (Fin khigh)) (@setparp AX) b' b1' -> (4 + p <= length th)%nat ->
    exists v w w', LogDensity (zcarma_cls solve p (Fin klow : F AX) (Fin khigh)) b1 (map Fin th) = Ok (v, w) /\
      LogDensity (zcarma_cls solve p (Fin klow : F AX) (Fin khigh)) b1' (map Fin (reparam a c th)) = Ok (lower_by (INR (length t) * ln a) v, w').
Proof.
  intros solve si raw raw' p klow khigh back a c s t y e Hsv Hsi Hg Hg' Hp Hk Ha Hn Hy He Hinc.
  destruct (builtp solve p (ExtractMA_zcarma AX p (Fin klow) (Fin khigh)) (LogPrior_z AX p) si raw raw' t y e (retime back s t) (rescale back a c y) (rescale back a 0 e) (fun x => a * x) (fun x => x) (fun x => x)) as (b & b' & smax & fmin & fmax & E & E' & _ & H);
    try assumption; try lia; rewrite ?retime_len, ?rescale_len; try assumption; try (apply retime_inc, Hinc).
  - intros smax fmin fmax Hd. apply bounds_transform; assumption.
  - exists b, b'. split; [exact E|]. split; [exact E'|]. intros b1 b1' th Ht Ht' HL. destruct (H b1 b1' Ht Ht') as (Hb & Hb').
    destruct (ExtractMA_zcarma_main p klow khigh th ltac:(lia) HL Hk) as (ma & kappa & EM & Hkap & Lm & _ & Hmp).
    assert (exists pr, 0 < nth 1 th 0 -> LogPrior_z AX p (map Fin th) = Ok (Fin pr)) as (pr & Hpr).
    { destruct (Rlt_dec 0 (nth 1 th 0)) as [H1|H1]; [|exists 0; intros; contradiction]. destruct (LogPrior_z_main p th HL H1) as (D & _ & _ & Ep). eexists. intros _. exact Ep. }
    apply (symp solve p _ _ back a c s t y e th ma pr smax fmin fmax b1 b1'); try assumption; try lia.
    + exists O. intros Hz. assert (ma_poly ma (RtoC 0) = RtoC 1) as H1.
      { rewrite Hmp. unfold Cdiv. rewrite Cmult_0_l, Cplus_0_r. generalize (p - 1)%nat as n. induction n as [|n IH]; [reflexivity|]. cbn [Cpown]. rewrite IH. ring. }
      assert (ma_poly ma (RtoC 0) = RtoC (nth 0 ma 0)) as H2.
      { unfold ma_poly. destruct ma as [|m0 ma0]; [cbn in Lm; lia|]. cbn [length]. rewrite Csum_first; [cbn; ring|]. intros k. cbn [Cpown]. ring. }
      rewrite H1, Hz in H2. apply (f_equal fst) in H2. cbn in H2. lra.
    + unfold ExtractMA_zcarma in *. change (F AX) with xr in *. rewrite vget_reparam by lia. exact EM.
    + intros H1. unfold LogPrior_z, LogPrior in *. change (F AX) with xr in *. rewrite vget1_reparam, vget_reparam by lia. exact (Hpr H1).
Qed.
Print Assumptions C91_zcarma.

(** *** C92 *)
(** C92, CAR(1): multiply every time by k and divide the rate exp(theta_3) by k: LogDensity does not change, at any theta. *)
Theorem C92_car1 : forall (si : list (F AX) -> option (list nat)) (raw raw' : kf1 AX) k (t y e : list R),
  valid_sort_index si -> 0 < k -> (2 <= length t)%nat -> length y = length t -> length e = length t -> strictly_increasing t ->
  exists b b', car1_new si raw (map Fin t) (map Fin y) (map Fin e) = Ok b /\
    car1_new si raw' (map Fin (stretch k t)) (map Fin y) (map Fin e) = Ok b' /\
    forall b1 b1' th, touched (car1_cls AX) (@setpar1 AX) b b1 -> touched (car1_cls AX) (@setpar1 AX) b' b1' -> (4 <= length th)%nat ->
    exists v w w', LogDensity (car1_cls AX) b1 (map Fin th) = Ok (v, w) /\ LogDensity (car1_cls AX) b1' (map Fin (new_unit k 1 0 th)) = Ok (v, w').
Proof.
  intros si raw raw' k t y e Hsi Hk Hn Hy He Hinc.
  destruct (built1 si raw raw' t y e (stretch k t) y e (fun x => x) (fun x => x / k) (fun x => x / k)) as (b & b' & smax & fmin & fmax & E & E' & H);
    try assumption; rewrite ?stretch_len; try assumption; try (apply stretch_inc; assumption).
  - intros smax fmin fmax Hd. apply bounds_stretch; assumption.
  - exists b, b'. split; [exact E|]. split; [exact E'|]. intros b1 b1' th Ht Ht' HL. destruct (H b1 b1' Ht Ht') as (Hb & Hb').
    exact (time1 k t y e th smax fmin fmax b1 b1' Hk Hinc HL Hb Hb').
Qed.
Print Assumptions C92_car1.

(** C92, CAR(p), p >= 2: the same with every coefficient in the new unit, when the centroids are in decreasing order. *)
Theorem C92_carp : forall solve (si : list (F AX) -> option (list nat)) (raw raw' : kfp AX) p k (t y e : list R),
  valid_solve solve -> valid_sort_index si -> goodp raw -> goodp raw' -> (2 <= p)%nat ->
  0 < k -> (2 <= length t)%nat -> length y = length t -> length e = length t -> strictly_increasing t ->
  exists b b', carp_new si raw p (map Fin t) (map Fin y) (map Fin e) = Ok b /\ carp_new si raw' p (map Fin (stretch k t)) (map Fin y) (map Fin e) = Ok b' /\
    forall b1 b1' th, touched (carp_cls solve p) (@setparp AX) b b1 -> touched (carp_cls solve p) (@setparp AX) b' b1' -> (3 + p <= length th)%nat ->
    exists v v' w w', LogDensity (carp_cls solve p) b1 (map Fin th) = Ok (v, w) /\ LogDensity (carp_cls solve p) b1' (map Fin (new_unit k p 0 th)) = Ok (v', w') /\
      (centroids_ordered p th -> v' = v) /\ (v <> NInf -> v' <> NInf -> v' = v).
Proof.
  intros solve si raw raw' p k t y e Hsv Hsi Hg Hg' Hp Hk Hn Hy He Hinc.
  destruct (builtp solve p (fun _ => Ok (carp_ma AX p)) (LogPrior AX) si raw raw' t y e (stretch k t) y e (fun x => x) (fun x => x / k) (fun x => x / k)) as (b & b' & smax & fmin & fmax & E & E' & _ & H);
    try assumption; try lia; rewrite ?stretch_len; try assumption; try (apply stretch_inc; assumption).
  - intros smax fmin fmax Hd. apply bounds_stretch; assumption.
  - exists b, b'. split; [exact E|]. split; [exact E'|]. intros b1 b1' th Ht Ht' HL. destruct (H b1 b1' Ht Ht') as (Hb & Hb').
    destruct (timep2 solve p 0 (fun _ => Ok (carp_ma AX p)) (fun _ => Ok (carp_ma AX p)) (LogPrior AX) k t y e th (upd (repeat 0 p) 0 1) (upd (repeat 0 p) 0 1) (log_sichi (nth 1 th 0)) smax fmin fmax b1 b1') as (v & v' & w & w' & E1 & E2 & Hv);
      try assumption; try lia.
    + apply carp_ma_len.
    + apply carp_ma_len.
    + apply carp_ma_nz. lia.
    + apply carp_ma_nz. lia.
    + rewrite carp_ma_Fin. reflexivity.
    + rewrite carp_ma_Fin. reflexivity.
    + intros z. rewrite !carp_ma_poly by lia. reflexivity.
    + intros H1. apply LogPrior_main; [lia|exact H1].
    + intros H1. rewrite LogPrior_main; rewrite ?new_unit_len, ?new_unit_low by lia; [reflexivity|lia|exact H1].
    + exists v, v', w, w'. split; [exact E1|]. split; [exact E2|]. split.
      * intros Ho. destruct Hv as [Hv|[(Hv & _)|(Hv & _)]]; [exact Hv| |]; exfalso; apply Hv; [apply ordered_in_order, Ho|apply ordered_new; assumption].
      * intros N1 N2. destruct Hv as [Hv|[(_ & Hv)|(_ & Hv)]]; [exact Hv| |]; contradiction.
Qed.
Print Assumptions C92_carp.

(** C92, CARMA(p,q), p >= 2, q < p. *)
Theorem C92_carma : forall solve (si : list (F AX) -> option (list nat)) (raw raw' : kfp AX) p q k (t y e : list R),
  valid_solve solve -> valid_sort_index si -> goodp raw -> goodp raw' -> (2 <= p)%nat -> (q < p)%nat ->
  0 < k -> (2 <= length t)%nat -> length y = length t -> length e = length t -> strictly_increasing t ->
  exists b b', carp_new si raw p (map Fin t) (map Fin y) (map Fin e) = Ok b /\ carp_new si raw' p (map Fin (stretch k t)) (map Fin y) (map Fin e) = Ok b' /\
    forall b1 b1' th, touched (carma_cls solve p q) (@setparp AX) b b1 -> touched (carma_cls solve p q) (@setparp AX) b' b1' -> (3 + p + q <= length th)%nat ->
    exists v v' w w', LogDensity (carma_cls solve p q) b1 (map Fin th) = Ok (v, w) /\ LogDensity (carma_cls solve p q) b1' (map Fin (new_unit k p q th)) = Ok (v', w') /\
      (centroids_ordered p th -> v' = v) /\ (v <> NInf -> v' <> NInf -> v' = v).
Proof.
  intros solve si raw raw' p q k t y e Hsv Hsi Hg Hg' Hp Hq Hk Hn Hy He Hinc.
  destruct (builtp solve p (ExtractMA_carma AX p q) (LogPrior AX) si raw raw' t y e (stretch k t) y e (fun x => x) (fun x => x / k) (fun x => x / k)) as (b & b' & smax & fmin & fmax & E & E' & _ & H);
    try assumption; try lia; rewrite ?stretch_len; try assumption; try (apply stretch_inc; assumption).
  - intros smax fmin fmax Hd. apply bounds_stretch; assumption.
  - exists b, b'. split; [exact E|]. split; [exact E'|]. intros b1 b1' th Ht Ht' HL. destruct (H b1 b1' Ht Ht') as (Hb & Hb').
    destruct (ExtractMA_carma_main p q th Hq HL) as (ma & EM & Lm & H0 & _ & _ & Hmp & _).
    destruct (ExtractMA_carma_main p q (new_unit k p q th) Hq ltac:(rewrite new_unit_len; exact HL)) as (ma' & EM' & Lm' & H0' & _ & _ & Hmp' & _).
    destruct (timep2 solve p q (ExtractMA_carma AX p q) (ExtractMA_carma AX p q) (LogPrior AX) k t y e th ma ma' (log_sichi (nth 1 th 0)) smax fmin fmax b1 b1') as (v & v' & w & w' & E1 & E2 & Hv);
      try assumption; try lia.
    + exists O. rewrite H0. lra.
    + exists O. rewrite H0'. lra.
    + exact (ma_poly_scale k p q th ma ma' Hk HL Hmp Hmp').
    + intros H1. apply LogPrior_main; [lia|exact H1].
    + intros H1. rewrite LogPrior_main; rewrite ?new_unit_len, ?new_unit_low by lia; [reflexivity|lia|exact H1].
    + exists v, v', w, w'. split; [exact E1|]. split; [exact E2|]. split.
      * intros Ho. destruct Hv as [Hv|[(Hv & _)|(Hv & _)]]; [exact Hv| |]; exfalso; apply Hv; [apply ordered_in_order, Ho|apply ordered_new; [assumption|lia|assumption]].
      * intros N1 N2. destruct Hv as [Hv|[(_ & Hv)|(_ & Hv)]]; [exact Hv| |]; contradiction.
Qed.
Print Assumptions C92_carma.

(** C92, ZCARMA(p), p >= 2, with the bounds of kappa that the constructor derives from the times of at least three measurements (theta_{p+3} does not change). *)
Theorem C92_zcarma : forall vsort solve (si : list (F AX) -> option (list nat)) (raw raw' : kfp AX) p k (t y e : list R),
  valid_vsort vsort -> valid_solve solve -> valid_sort_index si -> goodp raw -> goodp raw' -> (2 <= p)%nat ->
  0 < k -> (3 <= length t)%nat -> length y = length t -> length e = length t -> strictly_increasing t ->
  exists b b' klow khigh klow' khigh', carp_new si raw p (map Fin t) (map Fin y) (map Fin e) = Ok b /\ carp_new si raw' p (map Fin (stretch k t)) (map Fin y) (map Fin e) = Ok b' /\
    kappa_bounds AX vsort (map Fin t) = Ok (klow, khigh) /\ kappa_bounds AX vsort (map Fin (stretch k t)) = Ok (klow', khigh') /\
    forall b1 b1' th, touched (zcarma_cls solve p klow khigh) (@setparp AX) b b1 -> touched (zcarma_cls solve p klow' khigh') (@setparp AX) b' b1' -> (4 + p <= length th)%nat ->
    exists v v' w w', LogDensity (zcarma_cls solve p klow khigh) b1 (map Fin th) = Ok (v, w) /\ LogDensity (zcarma_cls solve p klow' khigh') b1' (map Fin (new_unit k p 0 th)) = Ok (v', w') /\
      (centroids_ordered p th -> v' = v) /\ (v <> NInf -> v' <> NInf -> v' = v).
Proof.
  intros vsort solve si raw raw' p k t y e Hv Hsv Hsi Hg Hg' Hp Hk Hn Hy He Hinc.
  destruct (kappa_main vsort t Hv Hinc ltac:(lia)) as (lo & hi & Ek & Kr). destruct (kappa_main vsort (stretch k t) Hv (stretch_inc k t Hk Hinc) ltac:(rewrite stretch_len; lia)) as (lo' & hi' & Ek' & Kr').
  destruct (kappa_unique _ _ _ _ _ Kr' (kappa_stretch k t lo hi Hk Hinc ltac:(lia) Kr)) as (-> & ->). clear Kr'.
  destruct (kappa_order t lo hi Hinc ltac:(lia) Kr) as (Hlo & _ & Hlt). specialize (Hlt Hn).
  assert (0 < lo / k < hi / k) as Hlk by (assert (0 < / k) by (apply Rinv_0_lt_compat, Hk); unfold Rdiv; split; nra).
  destruct (carp_new_Fin si raw p t y e Hsi ltac:(lia) Hy He Hinc ltac:(lia)) as (b & smax & fmin & fmax & E & Hb & Hd).
  destruct (carp_new_Fin si raw' p (stretch k t) y e Hsi ltac:(rewrite stretch_len; lia) ltac:(rewrite stretch_len; assumption) ltac:(rewrite stretch_len; assumption) (stretch_inc k t Hk Hinc) ltac:(lia)) as (b' & s2 & f2 & g2 & E' & Hb' & Hd').
  destruct (bounds_unique _ _ _ _ _ _ _ _ Hd' (bounds_stretch k t y _ _ _ Hk ltac:(lia) Hinc Hd)) as (-> & -> & ->).
  destruct (carp_new_wfb AX si raw p (map Fin t) (map Fin y) (map Fin e) b ltac:(rewrite !map_length; assumption) ltac:(rewrite !map_length; assumption) Hg E) as (_ & _ & _ & Hgb & _ & _).
  destruct (carp_new_wfb AX si raw' p (map Fin (stretch k t)) (map Fin y) (map Fin e) b' ltac:(rewrite !map_length, stretch_len; assumption) ltac:(rewrite !map_length, stretch_len; assumption) Hg' E') as (_ & _ & _ & Hgb' & _ & _).
  exists b, b', (Fin lo), (Fin hi), (Fin (lo / k)), (Fin (hi / k)). split; [exact E|]. split; [exact E'|]. split; [exact Ek|]. split; [exact Ek'|].
  intros b1 b1' th Ht Ht' HL. pose proof (holds_touchedp solve p _ _ b b1 t y e _ Hb Hgb Ht) as Hb1. pose proof (holds_touchedp solve p _ _ b' b1' _ y e _ Hb' Hgb' Ht') as Hb1'.
  destruct (ExtractMA_zcarma_main p lo hi th ltac:(lia) HL ltac:(lra)) as (ma & kappa & EM & Hkap & Lm & Hlg & Hmp).
  destruct (ExtractMA_zcarma_main p (lo / k) (hi / k) (new_unit k p 0 th) ltac:(lia) ltac:(rewrite new_unit_len; exact HL) ltac:(lra)) as (ma' & kappa' & EM' & Hkap' & Lm' & Hlg' & Hmp').
  assert (nth (3 + p) (new_unit k p 0 th) 0 = nth (3 + p) th 0) as Eth.
  { rewrite new_unit_nth by lia. unfold unit_shift. destruct (Nat.ltb_spec (3 + p) 3); [lia|]. destruct (Nat.ltb_spec (3 + p) (3 + p)); [lia|]. destruct (Nat.ltb_spec (3 + p) (3 + p + 0)); [lia|]. ring. }
  assert (kappa' = kappa / k) as Ekap.
  { rewrite Eth, <- Hlg in Hlg'. apply (f_equal (inv_logit AX)) in Hlg'.
    assert (forall x l h, l < x < h -> 0 < (x - l) / (h - l) < 1) as Hfrac.
    { intros x l h Hx. assert (0 < / (h - l)) by (apply Rinv_0_lt_compat; lra). unfold Rdiv. split; [nra|]. assert ((h - l) * / (h - l) = 1) by (field; lra). nra. }
    rewrite !inv_logit_logit in Hlg' by (apply Hfrac; assumption). injection Hlg' as Hq.
    assert (kappa' - lo / k = (kappa - lo) / (hi - lo) * (hi / k - lo / k)) as Hz by (rewrite <- Hq; field; split; lra).
    assert (kappa' = lo / k + (kappa - lo) / (hi - lo) * (hi / k - lo / k)) as -> by lra. field. split; lra. }
  subst kappa'.
  assert (forall m, (forall z, ma_poly m z = Cpown (Cplus (RtoC 1) (Cdiv z (RtoC kappa))) (p - 1) \/ ma_poly m z = Cpown (Cplus (RtoC 1) (Cdiv z (RtoC (kappa / k)))) (p - 1)) -> length m = p -> exists l, nth l m 0 <> 0) as Hnz.
  { intros m Hm L. exists O. intros Hz. assert (ma_poly m (RtoC 0) = RtoC 1) as H1.
    { destruct (Hm (RtoC 0)) as [-> | ->]; unfold Cdiv; rewrite Cmult_0_l, Cplus_0_r; generalize (p - 1)%nat as n; (induction n as [|n IH]; [reflexivity|]; cbn [Cpown]; rewrite IH; ring). }
    assert (ma_poly m (RtoC 0) = RtoC (nth 0 m 0)) as H2.
    { unfold ma_poly. destruct m as [|m0 ma0]; [cbn in L; lia|]. cbn [length]. rewrite Csum_first; [cbn; ring|]. intros j. cbn [Cpown]. ring. }
    rewrite H1, Hz in H2. apply (f_equal fst) in H2. cbn in H2. lra. }
  assert (exists pr, 0 < nth 1 th 0 -> LogPrior_z AX p (map Fin th) = Ok (Fin pr)) as (pr & Hpr).
  { destruct (Rlt_dec 0 (nth 1 th 0)) as [H1|H1]; [|exists 0; intros; contradiction]. destruct (LogPrior_z_main p th HL H1) as (D & _ & _ & Ep). eexists. intros _. exact Ep. }
  set (maf := fun x : list (F AX) => ExtractMA_zcarma AX p (Fin lo) (Fin hi) x).
  (* both classes have the same prior, and the moving average coefficients enter only through their values *)
  destruct (timep2 solve p 0 (ExtractMA_zcarma AX p (Fin lo) (Fin hi)) (ExtractMA_zcarma AX p (Fin (lo / k)) (Fin (hi / k))) (LogPrior_z AX p) k t y e th ma ma' pr smax fmin fmax b1 b1') as (v & v' & w & w' & E1 & E2 & Hvv);
    try assumption; try lia.
  - apply (Hnz ma); [intros z; left; apply Hmp|exact Lm].
  - apply (Hnz ma'); [intros z; right; apply Hmp'|exact Lm'].
  - apply (belcher_scale k p ma ma' kappa Hk ltac:(lra) Hmp Hmp').
  - intros H1. refine (eq_trans _ (Hpr H1)). unfold LogPrior_z, LogPrior. change (F AX) with xr. rewrite !vget_Fin by (rewrite ?new_unit_len; lia).
    rewrite new_unit_low by lia. replace (p + 3)%nat with (3 + p)%nat by lia. rewrite Eth. reflexivity.
  - exists v, v', w, w'. split; [exact E1|]. split; [exact E2|]. split.
    + intros Ho. destruct Hvv as [Hvv|[(Hvv & _)|(Hvv & _)]]; [exact Hvv| |]; exfalso; apply Hvv; [apply ordered_in_order, Ho|apply ordered_new; [assumption|lia|assumption]].
    + intros N1 N2. destruct Hvv as [Hvv|[(_ & Hvv)|(_ & Hvv)]]; [exact Hvv| |]; contradiction.
Qed.
Print Assumptions C92_zcarma.

(** C92: the hypothesis on the centroids is needed: the order is checked with the absolute tolerance 1e-8, so parameters can be
    accepted in one unit of time and rejected in another. *)
Theorem C92_tolerance_refuted : exists (k : R) (t y e th : list R), 0 < k /\ strictly_increasing t /\ length t = 3%nat /\ length y = 3%nat /\ length e = 3%nat /\ length th = 7%nat /\
  forall solve (si : list (F AX) -> option (list nat)) (raw raw' : kfp AX), valid_solve solve -> valid_sort_index si -> goodp raw -> goodp raw' ->
  exists b b' x w, carp_new si raw 4 (map Fin t) (map Fin y) (map Fin e) = Ok b /\ carp_new si raw' 4 (map Fin (stretch k t)) (map Fin y) (map Fin e) = Ok b' /\
    LogDensity (carp_cls solve 4) b (map Fin th) = Ok (Fin x, w) /\ LogDensity (carp_cls solve 4) b' (map Fin (new_unit k 4 0 th)) = Ok (NInf, b').
Proof.
  exists (1 / 1000), tU, yU, eU, thU. split; [lra|]. split; [exact tU_inc|]. repeat (split; [reflexivity|]).
  intros solve si raw raw' Hsv Hsi Hg Hg'. assert (0 < 1 / 1000) as Hk by lra.
  destruct (carp_new_Fin si raw 4 tU yU eU Hsi ltac:(cbn; lia) eq_refl eq_refl tU_inc ltac:(lia)) as (b & smax & fmin & fmax & E & Hb & Hd).
  destruct (bounds_unique _ _ _ _ _ _ _ _ Hd tU_bounds) as (-> & -> & ->).
  destruct (carp_new_Fin si raw' 4 (stretch (1 / 1000) tU) yU eU Hsi ltac:(cbn; lia) eq_refl eq_refl (stretch_inc _ _ Hk tU_inc) ltac:(lia)) as (b' & s2 & f2 & g2 & E' & Hb' & Hd').
  destruct (LDp_all solve 4 (fun _ => Ok (carp_ma AX 4)) (LogPrior AX) b tU yU eU thU (upd (repeat 0 4) 0 1) (qroots thU 3 4) _ _ _ false (log_sichi (nth 1 thU 0)) Hsv Hb tU_inc) as (x & w & EL & _);
    try (cbn; lia); try (cbn; lra).
  - rewrite carp_ma_Fin. reflexivity.
  - apply carp_ma_nz. lia.
  - intros _. apply LogPrior_main; cbn; [lia|lra].
  - apply quad_roots_Fin. cbn. lia.
  - intros _. exact thU_in.
  - exists b, b', (x + log_sichi (nth 1 thU 0)), w. split; [exact E|]. split; [exact E'|]. split; [exact EL|].
    apply (LD_unordered solve 4 _ _ b' _ _ _ _ _ _ _) with (2 := Hb'); [rewrite new_unit_len; cbn; lia|exact thU_out].
Qed.
Print Assumptions C92_tolerance_refuted.

(** *** C93 *)
(** C93: the constructor of ZCARMA bounds kappa from below by 1 over the time span, or 1 over ten median gaps if that is larger, and from above by
    1 over the smallest gap; the interval is not empty, and a single point exactly when there are two measurements. *)
Theorem C93_kappa_bounds : forall vsort (t : list R), valid_vsort vsort -> strictly_increasing t -> (2 <= length t)%nat ->
  exists lo hi, kappa_bounds AX vsort (map Fin t) = Ok (Fin lo, Fin hi) /\ kappa_range t lo hi /\ 0 < lo <= hi /\ (lo = hi <-> length t = 2%nat).
Proof.
  intros vsort t Hv Hinc Hn. destruct (kappa_main vsort t Hv Hinc Hn) as (lo & hi & E & Kr). destruct (kappa_order t lo hi Hinc Hn Kr) as (H0 & H2 & H3).
  exists lo, hi. split; [exact E|]. split; [exact Kr|]. destruct (Nat.eq_dec (length t) 2) as [E2|E2].
  - specialize (H2 E2). split; [lra|tauto].
  - specialize (H3 ltac:(lia)). split; [lra|]. split; [intros; lra|intros; contradiction].
Qed.
Print Assumptions C93_kappa_bounds.
(** C93: they are determined by the times. *)
Theorem C93_kappa_unique : forall t lo hi lo' hi', kappa_range t lo hi -> kappa_range t lo' hi' -> lo = lo' /\ hi = hi'.
Proof. exact kappa_unique. Qed.
Print Assumptions C93_kappa_unique.

(** *** C94 *)
(** C94, CAR(p), p >= 2: listing the quadratic factors of the autoregressive polynomial in another order does not change LogDensity, except that arrangements
    whose centroids are not in decreasing order (within the tolerance) are rejected; when every gap is at least 1e8 time units nothing is rejected for its order. *)
Theorem C94_carp : forall solve (si : list (F AX) -> option (list nat)) (raw : kfp AX) p (t y e : list R),
  valid_solve solve -> valid_sort_index si -> goodp raw -> (2 <= p)%nat ->
  (2 <= length t)%nat -> length y = length t -> length e = length t -> strictly_increasing t ->
  exists b, carp_new si raw p (map Fin t) (map Fin y) (map Fin e) = Ok b /\
    forall b1 b1' sg th th', touched (carp_cls solve p) (@setparp AX) b b1 -> touched (carp_cls solve p) (@setparp AX) b b1' -> (3 + p <= length th)%nat -> reordered 3 (p / 2) sg th th' ->
    exists v v' w w', LogDensity (carp_cls solve p) b1 (map Fin th) = Ok (v, w) /\ LogDensity (carp_cls solve p) b1' (map Fin th') = Ok (v', w') /\
      (v <> NInf -> v' <> NInf -> v' = v) /\
      (centroids_ordered p th -> centroids_ordered p th' -> v' = v) /\
      (forall i, (2 * i + 3 < p)%nat -> sqrt (osc th' i) + 4 * PI / 100000000 < sqrt (osc th' (S i)) -> v' = NInf) /\
      ((forall i, (S i < length t)%nat -> 100000000 <= nth (S i) t 0 - nth i t 0) -> v' = v).
Proof.
  intros solve si raw p t y e Hsv Hsi Hg Hp Hn Hy He Hinc.
  destruct (builtp solve p (fun _ => Ok (carp_ma AX p)) (LogPrior AX) si raw raw t y e t y e (fun x => x) (fun x => x) (fun x => x)) as (b & b' & smax & fmin & fmax & E & E' & Hd & H); try assumption; try lia; [tauto|].
  pose proof (eq_trans (eq_sym E) E') as Q. injection Q as <-.
  exists b. split; [exact E|]. intros b1 b1' sg th th' Ht Ht' HL Hr. destruct (H b1 b1' Ht Ht') as (Hb & Hb').
  pose proof (reordered_roots 3 p sg th th' Hr) as HP. pose proof (ro_len _ _ _ _ _ Hr) as HLe.
  destruct (switchp solve p (fun _ => Ok (carp_ma AX p)) (LogPrior AX) t y e th th' (upd (repeat 0 p) 0 1) (upd (repeat 0 p) 0 1) (log_sichi (nth 1 th 0)) smax fmin fmax b1 b1') as (v & v' & w & w' & E1 & E2 & Hv);
    try assumption; try lia; try apply carp_ma_len; try (apply carp_ma_nz; lia); try (rewrite carp_ma_Fin; reflexivity).
  - reflexivity.
  - intros H1. apply LogPrior_main; [lia|exact H1].
  - intros H1. pose proof (ro_other _ _ _ _ _ Hr 1%nat ltac:(lia)) as R1. rewrite <- R1. apply LogPrior_main; [lia|]. rewrite R1. exact H1.
  - intros j Hj. apply (ro_other _ _ _ _ _ Hr). lia.
  - exists v, v', w, w'. split; [exact E1|]. split; [exact E2|]. split; [|split; [|split]].
    + intros N1 N2. destruct Hv as [Hv|(_ & [(_ & Hv)|(_ & Hv)])]; [exact Hv| |]; contradiction.
    + intros O1 O2. destruct Hv as [Hv|(_ & [(Hv & _)|(Hv & _)])]; [exact Hv| |]; exfalso; apply Hv; apply ordered_in_order; assumption.
    + intros i Hi Hs. pose proof (LD_unordered solve p (fun _ => Ok (carp_ma AX p)) (LogPrior AX) b1' t y e th' smax fmin fmax ltac:(lia) Hb' (not_ordered p th' i Hi Hs)) as Ex.
      pose proof (eq_trans (eq_sym E2) Ex) as Q. injection Q as Q _. exact Q.
    + intros Hgap. destruct Hv as [Hv|(Hf & _)]; [exact Hv|]. exfalso. destruct Hd as [_ P _ (i & Hi & A) _].
      pose proof (Hgap i Hi) as Hge. rewrite <- A in Hge. apply (Rmult_le_compat_l fmax) in Hge; [|lra]. replace (fmax * (1 / fmax)) with 1 in Hge by (field; lra). lra.
Qed.
Print Assumptions C94_carp.

(** C94, CARMA(p,q): the factors of the autoregressive polynomial. *)
Theorem C94_carma_ar : forall solve (si : list (F AX) -> option (list nat)) (raw : kfp AX) p q (t y e : list R),
  valid_solve solve -> valid_sort_index si -> goodp raw -> (2 <= p)%nat -> (q < p)%nat ->
  (2 <= length t)%nat -> length y = length t -> length e = length t -> strictly_increasing t ->
  exists b, carp_new si raw p (map Fin t) (map Fin y) (map Fin e) = Ok b /\
    forall b1 b1' sg th th', touched (carma_cls solve p q) (@setparp AX) b b1 -> touched (carma_cls solve p q) (@setparp AX) b b1' -> (3 + p + q <= length th)%nat -> reordered 3 (p / 2) sg th th' ->
    exists v v' w w', LogDensity (carma_cls solve p q) b1 (map Fin th) = Ok (v, w) /\ LogDensity (carma_cls solve p q) b1' (map Fin th') = Ok (v', w') /\
      (v <> NInf -> v' <> NInf -> v' = v) /\
      (centroids_ordered p th -> centroids_ordered p th' -> v' = v) /\
      (forall i, (2 * i + 3 < p)%nat -> sqrt (osc th' i) + 4 * PI / 100000000 < sqrt (osc th' (S i)) -> v' = NInf) /\
      ((forall i, (S i < length t)%nat -> 100000000 <= nth (S i) t 0 - nth i t 0) -> v' = v).
Proof.
  intros solve si raw p q t y e Hsv Hsi Hg Hp Hq Hn Hy He Hinc.
  destruct (builtp solve p (ExtractMA_carma AX p q) (LogPrior AX) si raw raw t y e t y e (fun x => x) (fun x => x) (fun x => x)) as (b & b' & smax & fmin & fmax & E & E' & Hd & H); try assumption; try lia; [tauto|].
  pose proof (eq_trans (eq_sym E) E') as Q. injection Q as <-.
  exists b. split; [exact E|]. intros b1 b1' sg th th' Ht Ht' HL Hr. destruct (H b1 b1' Ht Ht') as (Hb & Hb').
  pose proof (reordered_roots 3 p sg th th' Hr) as HP. pose proof (ro_len _ _ _ _ _ Hr) as HLe. pose proof (half2 p) as H2p.
  destruct (ExtractMA_carma_main p q th Hq HL) as (ma & EM & Lm & H0 & _ & _ & Hmp & _).
  destruct (ExtractMA_carma_main p q th' Hq ltac:(lia)) as (ma' & EM' & Lm' & H0' & _ & _ & Hmp' & _).
  assert (qroots th' (3 + p) q = qroots th (3 + p) q) as Hma.
  { apply qroots_ext. intros i Hi. apply (ro_other _ _ _ _ _ Hr). right. lia. }
  destruct (switchp solve p (ExtractMA_carma AX p q) (LogPrior AX) t y e th th' ma ma' (log_sichi (nth 1 th 0)) smax fmin fmax b1 b1') as (v & v' & w & w' & E1 & E2 & Hv); try assumption; try lia.
  - exists O. rewrite H0. lra.
  - exists O. rewrite H0'. lra.
  - apply (ma_poly_reorder p q th th' ma ma'); try assumption. rewrite Hma. apply Permutation_refl.
  - intros H1. apply LogPrior_main; [lia|exact H1].
  - intros H1. pose proof (ro_other _ _ _ _ _ Hr 1%nat ltac:(lia)) as R1. rewrite <- R1. apply LogPrior_main; [lia|]. rewrite R1. exact H1.
  - intros j Hj. apply (ro_other _ _ _ _ _ Hr). lia.
  - exists v, v', w, w'. split; [exact E1|]. split; [exact E2|]. split; [|split; [|split]].
    + intros N1 N2. destruct Hv as [Hv|(_ & [(_ & Hv)|(_ & Hv)])]; [exact Hv| |]; contradiction.
    + intros O1 O2. destruct Hv as [Hv|(_ & [(Hv & _)|(Hv & _)])]; [exact Hv| |]; exfalso; apply Hv; apply ordered_in_order; assumption.
    + intros i Hi Hs. pose proof (LD_unordered solve p (ExtractMA_carma AX p q) (LogPrior AX) b1' t y e th' smax fmin fmax ltac:(lia) Hb' (not_ordered p th' i Hi Hs)) as Ex.
      pose proof (eq_trans (eq_sym E2) Ex) as Q. injection Q as Q _. exact Q.
    + intros Hgap. destruct Hv as [Hv|(Hf & _)]; [exact Hv|]. exfalso. destruct Hd as [_ P _ (i & Hi & A) _].
      pose proof (Hgap i Hi) as Hge. rewrite <- A in Hge. apply (Rmult_le_compat_l fmax) in Hge; [|lra]. replace (fmax * (1 / fmax)) with 1 in Hge by (field; lra). lra.
Qed.
Print Assumptions C94_carma_ar.

(** C94, CARMA(p,q): no order is imposed on the factors of the moving average polynomial: every arrangement has the same LogDensity. *)
Theorem C94_carma_ma : forall solve (si : list (F AX) -> option (list nat)) (raw : kfp AX) p q (t y e : list R),
  valid_solve solve -> valid_sort_index si -> goodp raw -> (2 <= p)%nat -> (q < p)%nat ->
  (2 <= length t)%nat -> length y = length t -> length e = length t -> strictly_increasing t ->
  exists b, carp_new si raw p (map Fin t) (map Fin y) (map Fin e) = Ok b /\
    forall b1 b1' sg th th', touched (carma_cls solve p q) (@setparp AX) b b1 -> touched (carma_cls solve p q) (@setparp AX) b b1' -> (3 + p + q <= length th)%nat -> reordered (3 + p) (q / 2) sg th th' ->
    exists v w w', LogDensity (carma_cls solve p q) b1 (map Fin th) = Ok (v, w) /\ LogDensity (carma_cls solve p q) b1' (map Fin th') = Ok (v, w').
Proof.
  intros solve si raw p q t y e Hsv Hsi Hg Hp Hq Hn Hy He Hinc.
  destruct (builtp solve p (ExtractMA_carma AX p q) (LogPrior AX) si raw raw t y e t y e (fun x => x) (fun x => x) (fun x => x)) as (b & b' & smax & fmin & fmax & E & E' & Hd & H); try assumption; try lia; [tauto|].
  pose proof (eq_trans (eq_sym E) E') as Q. injection Q as <-.
  exists b. split; [exact E|]. intros b1 b1' sg th th' Ht Ht' HL Hr. destruct (H b1 b1' Ht Ht') as (Hb & Hb').
  pose proof (reordered_roots (3 + p) q sg th th' Hr) as HP. pose proof (ro_len _ _ _ _ _ Hr) as HLe.
  destruct (ExtractMA_carma_main p q th Hq HL) as (ma & EM & Lm & H0 & _ & _ & Hmp & _).
  destruct (ExtractMA_carma_main p q th' Hq ltac:(lia)) as (ma' & EM' & Lm' & H0' & _ & _ & Hmp' & _).
  assert (qroots th' 3 p = qroots th 3 p) as Har.
  { apply qroots_ext. intros i Hi. apply (ro_other _ _ _ _ _ Hr). left. lia. }
  destruct (switchp solve p (ExtractMA_carma AX p q) (LogPrior AX) t y e th th' ma ma' (log_sichi (nth 1 th 0)) smax fmin fmax b1 b1') as (v & v' & w & w' & E1 & E2 & Hv); try assumption; try lia.
  - exists O. rewrite H0. lra.
  - exists O. rewrite H0'. lra.
  - apply (ma_poly_reorder p q th th' ma ma'); assumption.
  - intros H1. apply LogPrior_main; [lia|exact H1].
  - intros H1. pose proof (ro_other _ _ _ _ _ Hr 1%nat ltac:(lia)) as R1. rewrite <- R1. apply LogPrior_main; [lia|]. rewrite R1. exact H1.
  - rewrite Har. apply Permutation_refl.
  - intros j Hj. apply (ro_other _ _ _ _ _ Hr). lia.
  - exists v, w, w'. split; [exact E1|]. destruct Hv as [->|(_ & Hv)]; [exact E2|]. rewrite Har in Hv.
    assert (~ in_order (qroots th 3 p)) as Ho by tauto.
    pose proof (LD_unordered solve p (ExtractMA_carma AX p q) (LogPrior AX) b1 t y e th smax fmin fmax ltac:(lia) Hb Ho) as Ex.
    pose proof (LD_unordered solve p (ExtractMA_carma AX p q) (LogPrior AX) b1' t y e th' smax fmin fmax ltac:(lia) Hb' ltac:(rewrite Har; exact Ho)) as Ex'.
    pose proof (eq_trans (eq_sym E1) Ex) as Q. injection Q as -> _. pose proof (eq_trans (eq_sym E2) Ex') as Q. injection Q as -> _. exact E2.
Qed.
Print Assumptions C94_carma_ma.

(** *** The hypotheses are met *)
Example ex_retime : retime true 10 [0; 1; 3] = [10 - 3; 10 - 1; 10 - 0] /\ rescale true 2 5 [1; 2; 4] = [2 * 4 + 5; 2 * 2 + 5; 2 * 1 + 5] /\
  reparam 2 5 [1; 1; 3; 7] = [2 * 1; 1; 2 * 3 + 5; 7].
Proof. split; [reflexivity|]. split; reflexivity. Qed.
Example ex_new_unit : forall a b c d, new_unit (exp 1) 3 1 [1; 1; 0; a; b; c; d] = [1; 1; 0; a - 2; b - 1; c - 1; d - 1].
Proof.
  intros. assert (ln (exp 1) = 1) as E by apply ln_exp. unfold new_unit, unit_shift, quad_shift. cbn [length seq map nth Nat.ltb Nat.leb Nat.add Nat.sub Nat.odd Nat.even negb andb Nat.eqb].
  rewrite E. do 3 (f_equal; [ring|]). repeat (f_equal; [ring|]). f_equal; ring.
Qed.
(** a CAR(4) parameter vector in decreasing order, in the prior for the data of C92_tolerance_refuted in both units, and its reordering *)
Example ex_reordered : forall a b c d, reordered 3 (4 / 2) [1%nat; 0%nat] [1; 1; 0; a; b; c; d] [1; 1; 0; c; d; a; b].
Proof.
  intros. constructor.
  - reflexivity.
  - change (4 / 2)%nat with 2%nat. apply perm_swap.
  - intros k Hk. change (4 / 2)%nat with 2%nat in Hk. destruct k as [|[|k]]; [split; reflexivity|split; reflexivity|lia].
  - intros j Hj. change (4 / 2)%nat with 2%nat in Hj. destruct j as [|[|[|j]]]; try reflexivity. destruct j as [|[|[|[|j]]]]; try (exfalso; lia). destruct j; reflexivity.
Qed.
Example ex_ordered : centroids_ordered 4 [1; 1; 0; ln 5; ln 2; ln 2; ln 2] /\
  sqrt (osc [1; 1; 0; ln 2; ln 2; ln 5; ln 2] 0) + 4 * PI / 100000000 < sqrt (osc [1; 1; 0; ln 2; ln 2; ln 5; ln 2] 1).
Proof.
  unfold centroids_ordered, osc. split.
  - intros i Hi. assert (i = 0%nat) as -> by lia. cbn [nth Nat.add Nat.mul]. rewrite !exp_ln by lra. rewrite !Rmax_right by lra. lra.
  - cbn [nth Nat.add Nat.mul]. rewrite !exp_ln by lra. rewrite !Rmax_right by lra.
    replace (4 * 2 - 2 * 2) with (2 * 2) by ring. replace (4 * 5 - 2 * 2) with (4 * 4) by ring. rewrite !sqrt_square by lra. pose proof PI_4. lra.
Qed.
(** three measurements: kappa between 1/9 and 1 *)
Example ex_kappa : kappa_range [0; 1; 9] (1 / 9) 1.
Proof.
  constructor.
  - lra.
  - intros i Hi. cbn [length] in Hi. destruct i as [|[|i]]; cbn [nth]; try lia; lra.
  - exists 0%nat. cbn. split; [lia|lra].
  - exists ((1 + 8) / 2). split.
    + exists [1; 8]. split; [|split].
      * unfold gaps. cbn [length Nat.sub seq map nth]. replace (1 - 0) with 1 by ring. replace (9 - 1) with 8 by ring. apply Permutation_refl.
      * intros i j Hij Hj. cbn [length] in Hj. destruct i as [|i], j as [|[|j]]; cbn [nth]; try lia; lra.
      * unfold gaps. cbn. lra.
    + cbn [length Nat.sub nth]. rewrite Rmax_left by lra. lra.
Qed.
Example ex_wide : strictly_increasing [0; 100000000; 300000000] /\ forall i, (S i < length [0; 100000000; 300000000])%nat -> 100000000 <= nth (S i) [0; 100000000; 300000000] 0 - nth i [0; 100000000; 300000000] 0.
Proof.
  split.
  - intros i j Hij Hj. cbn [length] in Hj. destruct i as [|[|i]], j as [|[|[|j]]]; cbn [nth]; try lia; lra.
  - intros i Hi. cbn [length] in Hi. destruct i as [|[|i]]; cbn [nth]; try lia; lra.
Qed.
