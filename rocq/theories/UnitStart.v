(** Default starting values in another unit of time: CAR(p) and ZCAR objects. *)
From Coq Require Import Reals List Arith ZArith Bool String Lra Lia Permutation.
From Coquelicot Require Import Complex.
From Verif Require Import Arith Res ListLemmas KFModel KF1Proof Spec Gauss Emb History InitProof OUpd SimProof KF1R KF1X KF1Main KF1More.
From Verif Require Import Cx CLin SpecCarma KFpModel KFpProof KFpX KFpMain KFpTop SpecModel CarpackModel RootsProof PriorProof LogLikProof LogLikMain CarpackTop CarpackRefute.
From Verif Require Import EngineModel StartModel EngineSpec EngineProof EngineInv CholProof RamProof EngineHist EngineClass EngineDriver EngineTop StartProof TotalProof TotalClass TotalTop EngineAX Start1Proof SeedProof EngineRuns SeedRefute EngineReal Sym SymTime ShiftProof ShiftTop ShiftRun UnitRun StartLaw StartRun.
Import ListNotations.
Local Open Scope R_scope.

Set Implicit Arguments.
Unset Strict Implicit.
Local Notation length := List.length.

(** a uniform draw from a translated interval is the translated draw (lo + (hi - lo) u of one uniform variate u) *)
Definition shift_uniform (R0 : rng AX) : Prop :=
  forall lo hi c g, lo < hi -> b_uniform R0 (Fin (lo + c)) (Fin (hi + c)) g = (xadd (fst (b_uniform R0 (Fin lo) (Fin hi) g)) (Fin c), snd (b_uniform R0 (Fin lo) (Fin hi) g)).

Lemma between_unit k fmin fmax u : 0 < k -> 0 < fmin -> between (fmin / k) (fmax / k) u = between fmin fmax u / k.
Proof. intros Hk Hf. unfold between. replace (fmax / k / (fmin / k)) with (fmax / fmin) by (field; lra). field. lra. Qed.
Lemma ln_unit k x : 0 < k -> 0 < x -> ln (x / k) = ln x - ln k.
Proof. intros Hk Hx. unfold Rdiv. rewrite ln_mult by (try apply Rinv_0_lt_compat; assumption). rewrite ln_Rinv by exact Hk. ring. Qed.
Lemma coded_unit k c w : 0 < k -> 0 < c -> 0 < w -> coded (c / k) (w / k) = [nth 0 (coded c w) 0 - 2 * ln k; nth 1 (coded c w) 0 - ln k].
Proof.
  intros Hk Hc Hw. pose proof PI_RGT_0. unfold coded. cbn [nth]. f_equal; [|f_equal].
  - replace ((2 * PI * (w / k)) ^ 2 + (2 * PI * (c / k)) ^ 2) with (((2 * PI * w) ^ 2 + (2 * PI * c) ^ 2) / k / k) by (field; lra).
    assert (0 < (2 * PI * w) ^ 2 + (2 * PI * c) ^ 2) as H1 by (assert (0 < 2 * PI * w) by nra; nra). rewrite !ln_unit; try assumption; [ring|]. apply Rdiv_lt_0_compat; assumption.
  - replace (4 * PI * (w / k)) with (4 * PI * w / k) by (field; lra). apply ln_unit; [exact Hk|]. nra.
Qed.
Lemma lorentz_unit k c w : 0 < k -> lorentz (c / k) (w / k) = map (scl (/ k)) (lorentz c w).
Proof. intros Hk. unfold lorentz. cbn [map]. rewrite !scl_parts. cbn [fst snd]. f_equal; [|f_equal]; apply C_eq; cbn [fst snd]; field; lra. Qed.
Lemma unit_last k wl : 0 < k -> (- (2 * PI * (wl / k)), 0) = scl (/ k) (- (2 * PI * wl), 0).
Proof. intros Hk. rewrite scl_parts. apply C_eq; cbn [fst snd]; field; lra. Qed.

(** coordinates after the autoregressive ones are not converted when q = 0 *)
Lemma new_unit_app k p (l ex : list R) : length l = (3 + p)%nat -> forall l', new_unit k p 0 l = l' -> new_unit k p 0 (l ++ ex) = l' ++ ex.
Proof.
  intros L l' <-. unfold new_unit. rewrite app_length, seq_app, map_app. f_equal.
  - apply map_ext_in. intros j Hj. apply in_seq in Hj. rewrite app_nth1 by lia. reflexivity.
  - apply (nth_ext _ _ 0 0); [rewrite map_length, seq_length; reflexivity|]. intros i Hi. rewrite map_length, seq_length in Hi.
    set (f := fun j => nth j (l ++ ex) 0 - unit_shift k p 0 j). rewrite (nth_indep _ 0 (f 0%nat)) by (rewrite map_length, seq_length; exact Hi).
    rewrite (map_nth f), seq_nth by exact Hi. unfold f, unit_shift. rewrite app_nth2 by lia.
    replace (0 + length l + i <? 3)%nat with false by (symmetry; apply Nat.ltb_ge; lia). replace (0 + length l + i <? 3 + p)%nat with false by (symmetry; apply Nat.ltb_ge; lia).
    replace (0 + length l + i <? 3 + p + 0)%nat with false by (symmetry; apply Nat.ltb_ge; lia). rewrite Rminus_0_r. f_equal. lia.
Qed.
Lemma new_unit_short k p q l : length l = (3 + p)%nat -> new_unit k p q l = new_unit k p 0 l.
Proof.
  intros L. unfold new_unit. apply map_ext_in. intros j Hj. apply in_seq in Hj. f_equal. unfold unit_shift. destruct (j <? 3)%nat; [reflexivity|].
  replace (j <? 3 + p)%nat with true by (symmetry; apply Nat.ltb_lt; lia). reflexivity.
Qed.

Section Cand.
Variable R0 : rng AX.
Hypothesis HU : shift_uniform R0.
Variable k : R.
Hypothesis Hk : 0 < k.
Variables (y : list R) (fmin fmax : R).
Hypothesis Hf : 0 < fmin < fmax.
Lemma div_nth (c : list R) i : nth i (map (fun x => x / k) c) 0 = nth i c 0 / k.
Proof using Hk. replace 0 with (0 / k) at 1 by (field; lra). exact (map_nth (fun x => x / k) c 0 i). Qed.
Hypothesis HR : valid_rng R0.

Lemma cand_unit n p g th om g' : (2 <= p <= 3)%nat -> candidate (ma_extra (R0 := R0) n) p y fmin fmax g th om g' ->
  candidate (ma_extra (R0 := R0) n) p y (fmin / k) (fmax / k) g (new_unit k p 0 th) (map (scl (/ k)) om) g'.
Proof using All.
  intros Hp (u1 & a1 & u2 & a2 & c & w & wl & gb1 & ex & gx & a3 & c1 & gb2 & sd & mu & gb3 & c2 & gb4 & T1 & L1 & Hperm & Hsort & T2 & L2 & Ew & Hlast & Hex & E1 & Esd & E2 & E3 & Eom & Eth & Eg).
  assert (0 < p / 2 < (p + 1) / 2 + 1)%nat as Hh by (destruct p as [|[|[|[|]]]]; try lia; cbn; lia).
  assert (length c = ((p + 1) / 2)%nat) as Lc by (rewrite <- (Permutation_length Hperm), map_length; exact L1).
  assert (forall g, exists x, fst (a_randu R0 g) = Fin x /\ 0 < x < 1) as HUU by exact (vr_randu HR).
  pose proof (taken_all HUU T1) as Q1. pose proof (taken_all HUU T2) as Q2.
  assert (List.Forall (fun x => fmin < x < fmax) c) as Fc.
  { refine (Permutation_Forall Hperm _). apply Forall_map. refine (Forall_impl _ _ Q1). intros u Hu. apply between_range; lra. }
  assert (List.Forall (fun x => fmin < x < fmax) w) as Fw.
  { rewrite Ew. apply Forall_map. refine (Forall_impl _ _ Q2). intros u Hu. apply between_range; lra. }
  assert (length w = ((p + 1) / 2)%nat) as Lw by (rewrite Ew, map_length; exact L2).
  assert (p / 2 <= (p + 1) / 2)%nat as Hle by (apply Nat.div_le_mono; lia).
  assert (forall i, (i < (p + 1) / 2)%nat -> fmin < nth i c 0 < fmax) as Nc by (intros i Hi; apply (proj1 (Forall_forall _ _) Fc), nth_In; lia).
  assert (forall i, (i < (p + 1) / 2)%nat -> fmin < nth i w 0 < fmax) as Nw by (intros i Hi; apply (proj1 (Forall_forall _ _) Fw), nth_In; lia).
  exists u1, a1, u2, a2, (map (fun x => x / k) c), (map (fun x => x / k) w), (wl / k), gb1, ex, gx, a3, c1, gb2, sd, mu, gb3, c2, gb4.
  split; [exact T1|]. split; [exact L1|]. split.
  { rewrite (map_ext_in (between (fmin / k) (fmax / k)) (fun u => between fmin fmax u / k)) by (intros u _; apply between_unit; lra).
    rewrite <- (map_map (between fmin fmax) (fun x => x / k)). apply Permutation_map, Hperm. }
  split. { intros i j Hi Hj. rewrite <- map_rev in *. rewrite map_length in Hj. rewrite !div_nth. apply Rmult_le_compat_r; [left; apply Rinv_0_lt_compat, Hk|]. exact (Hsort i j Hi Hj). }
  split; [exact T2|]. split; [exact L2|]. split.
  { rewrite Ew, map_map. apply map_ext. intros u. symmetry. apply between_unit; lra. }
  split.
  { destruct (Nat.odd p); [|exact Hlast]. destruct Hlast as (u & Eu & ->). exists (u - ln k). rewrite div_nth.
    pose proof (Nc (p / 2 - 1)%nat ltac:(lia)) as Hc. rewrite !ln_unit by lra. split.
    - pose proof (HU (lo := ln fmin) (hi := ln (nth (p / 2 - 1) c 0)) (- ln k) (fst g) ltac:(apply ln_increasing; lra)) as K. rewrite Eu in K. cbn [fst snd xadd] in K. exact K.
    - unfold Rminus. rewrite exp_plus, exp_Ropp, exp_ln by exact Hk. reflexivity. }
  split; [exact Hex|]. split; [exact E1|]. split; [exact Esd|]. split; [exact E2|]. split; [exact E3|]. split; [|split; [|exact Eg]].
  - rewrite Eom, map_app. f_equal.
    + rewrite map_flat. apply flat_map_ext. intros i. rewrite !div_nth. symmetry. apply lorentz_unit, Hk.
    + destruct (Nat.odd p); [|reflexivity]. cbn [map]. rewrite <- (unit_last wl Hk). reflexivity.
  - rewrite Eth. clear Eth Eom. pose proof (Nc 0%nat ltac:(lia)) as C0. pose proof (Nw 0%nat ltac:(lia)) as W0. pose proof PI_RGT_0 as HPI.
    destruct p as [|[|[|[|]]]]; try lia.
    + cbn [Nat.odd Nat.even negb Nat.div Nat.divmod fst seq flat_map app Nat.sub]. rewrite !div_nth. rewrite coded_unit by lra. unfold coded. cbn [app nth].
      match goal with |- new_unit _ _ _ (?a :: ?b :: ?c :: ?d :: ?f :: _) = _ => exact (@new_unit_app k 2 [a; b; c; d; f] ex eq_refl _ ltac:(unfold new_unit, unit_shift, quad_shift; cbn; rewrite !Rminus_0_r; reflexivity)) end.
    + assert (0 < wl) as Hwl by (cbn in Hlast; destruct Hlast as (u & _ & ->); apply exp_pos).
      cbn [Nat.odd Nat.even negb Nat.div Nat.divmod fst seq flat_map app Nat.sub]. rewrite !div_nth. rewrite coded_unit by lra.
      replace (2 * PI * (wl / k)) with (2 * PI * wl / k) by (field; lra). rewrite (ln_unit Hk (x := 2 * PI * wl)) by nra.
      unfold coded. cbn [app nth].
      match goal with |- new_unit _ _ _ (?a :: ?b :: ?c :: ?d :: ?f :: ?h :: _) = _ => exact (@new_unit_app k 3 [a; b; c; d; f; h] ex eq_refl _ ltac:(unfold new_unit, unit_shift, quad_shift; cbn; rewrite !Rminus_0_r; reflexivity)) end.
Qed.
(** no two roots of a candidate agree *)
Lemma cand_nodup n p g th om g' : (2 <= p <= 3)%nat -> candidate (ma_extra (R0 := R0) n) p y fmin fmax g th om g' -> NoDup om.
Proof using HR Hf.
  intros Hp (u1 & a1 & u2 & a2 & c & w & wl & gb1 & ex & gx & a3 & c1 & gb2 & sd & mu & gb3 & c2 & gb4 & T1 & L1 & Hperm & _ & _ & _ & _ & _ & _ & _ & _ & _ & _ & Eom & _).
  assert (forall g, exists x, fst (a_randu R0 g) = Fin x /\ 0 < x < 1) as HUU by exact (vr_randu HR).
  pose proof (taken_all HUU T1) as Q1.
  assert (List.Forall (fun x => fmin < x < fmax) c) as Fc.
  { refine (Permutation_Forall Hperm _). apply Forall_map. refine (Forall_impl _ _ Q1). intros u Hu. apply between_range; lra. }
  assert (length c = ((p + 1) / 2)%nat) as Lc by (rewrite <- (Permutation_length Hperm), map_length; exact L1).
  assert (0 < (p + 1) / 2)%nat as Hh by (destruct p as [|[|[|[|]]]]; try lia; cbn; lia).
  assert (fmin < nth 0 c 0 < fmax) as C0 by (apply (proj1 (Forall_forall _ _) Fc), nth_In; lia). pose proof PI_RGT_0 as HPI.
  assert (0 < 2 * PI * nth 0 c 0) as Hp0 by nra. rewrite Eom.
  destruct p as [|[|[|[|]]]]; try lia; cbn [Nat.odd Nat.even negb Nat.div Nat.divmod fst seq flat_map app lorentz].
  - constructor; [|constructor; [intros []|constructor]]. intros [Q|[]]. apply (f_equal snd) in Q. cbn [snd] in Q. lra.
  - constructor; [|constructor; [|constructor; [intros []|]]].
    + intros [Q|[Q|[]]]; apply (f_equal snd) in Q; cbn [snd] in Q; lra.
    + intros [Q|[]]; apply (f_equal snd) in Q; cbn [snd] in Q; lra.
    + constructor.
Qed.
(** the prior on a candidate, in the two units *)
Lemma cand_prior p q smax th om : (2 <= p <= 3)%nat -> (3 + p <= length th)%nat -> ARRoots AX p (map Fin th) = Ok (map FinC om) ->
  in_prior smax fmin fmax th om <-> in_prior smax (fmin / k) (fmax / k) (new_unit k p q th) (map (scl (/ k)) om).
Proof using Hk Hf.
  intros Hp HL EA. pose proof (quad_roots_Fin th 3 p ltac:(lia)) as EA'. unfold ARRoots in EA. rewrite EA in EA'. injection EA' as Eo.
  assert (om = qroots th 3 p) as ->.
  { clear - Eo. revert Eo. generalize (qroots th 3 p). induction om as [|a l IH]; intros [|a' l'] E0; try discriminate; [reflexivity|].
    cbn [map] in E0. injection E0 as Q1 Q2 Q3. f_equal; [apply C_eq; congruence|apply IH, Q3]. }
  assert (centroids_ordered p th) as Ho by (intros i Hi; lia).
  pose proof (in_prior_u_scale k p q smax fmin fmax th (qroots th 3 p) Hk ltac:(lia)) as Hiff. rewrite !in_prior_split.
  pose proof (ordered_in_order p th Ho) as O1. pose proof (ordered_new k p q th Hk ltac:(lia) Ho) as O2. rewrite (ar_scale k p q th Hk ltac:(lia)) in O2. tauto.
Qed.
End Cand.

(** ** The loop of StartingValue() in the two units *)
Section Loop.
Variable R0 : rng AX.
Hypothesis HR : valid_rng R0.
Hypothesis HU : shift_uniform R0.
Variable dsort : list (F AX) -> option (list (F AX)).
Hypothesis Hds : valid_dsort dsort.
Variable solve : list (list (cx AX)) -> list (cx AX) -> option (list (cx AX)).
Hypothesis Hsv : valid_solve solve.
Variables t y e : list R.
Hypothesis Hy : length y = length t.
Hypothesis Ht : strictly_increasing t.
Hypothesis H3 : (3 <= length t)%nat.
Hypothesis Hne : exists a b, In a y /\ In b y /\ a <> b.
Variable k : R.
Hypothesis Hk : 0 < k.
Local Notation t' := (stretch k t).
Variables smax fmin fmax : R.
Hypothesis HB : run_bounds t y smax fmin fmax.
Local Notation bd := (mkB AX (Fin smax) (Fin fmax) (Fin fmin) false).
Local Notation bd' := (mkB AX (Fin smax) (Fin (fmax / k)) (Fin (fmin / k)) false).
Variables p q : nat.
Hypothesis Hp : (2 <= p <= 3)%nat.
Variables b0 b0' : base AX (kpx AX).
Hypothesis Hb0 : base_holds b0 t y e bd.
Hypothesis Hb0' : base_holds b0' t' y e bd'.
Local Notation C := (pcls solve p (fun _ => Ok (carp_ma AX p)) (LogPrior AX)).
Local Notation ext := (fun g : gen R0 => (@nil (F AX), g)).
Local Notation cand := (candidate (R0 := R0) (ma_extra (R0 := R0) 0) p y fmin fmax).
Local Notation cand' := (candidate (R0 := R0) (ma_extra (R0 := R0) 0) p y (fmin / k) (fmax / k)).
Definition RXd (x x' : base AX (kpx AX)) : Prop := okb (static_of b0) x /\ mreal p false x /\ okb (static_of b0') x' /\ mreal p false x'.

Lemma ex_len (a : gen R0) ex a' : ma_extra 0 a ex a' -> length ex = 0%nat.
Proof. intros (zs & _ & _ & L & ->). rewrite map_length. exact L. Qed.
Lemma ex_X (a : gen R0) ex a' : ma_extra 0 a ex a' -> ext a = (map Fin ex, a').
Proof.
  destruct a as [gb a], a' as [gb' a']. intros (zs & T & Eb & L & ->). cbn [fst snd] in *. destruct zs; [|discriminate]. inversion T; subst. reflexivity.
Qed.
Lemma ex_ma (tl : list R) : length tl = (p + 0)%nat -> exists m, realma p m /\ forall a b c : R, (fun _ => @Ok (list xr) (carp_ma AX p)) (map Fin (a :: b :: c :: tl)) = Ok (map Fin m).
Proof using Hp.
  clear - Hp. intros _. exists (upd (repeat 0 p) 0 1). split; [split; [refine (@carp_ma_len AR p)|apply carp_ma_nz; lia]|]. intros. rewrite carp_ma_Fin. reflexivity.
Qed.
Lemma ex_pr (th : list R) : length th = (3 + p + 0)%nat -> 0 < nth 1 th 0 -> exists pr, LogPrior AX (map Fin th) = Ok (Fin pr).
Proof using. intros HL Hs. eexists. apply LogPrior_main; [rewrite HL; apply le_n_S, le_n_S, Nat.le_0_l|exact Hs]. Qed.
Lemma f_order : 0 < fmin < fmax.
Proof using HB Ht H3. clear - HB Ht H3. split; [exact (fpos Ht H3 HB)|exact (flt' Ht H3 HB)]. Qed.

Lemma loop_unit fuel : forall x x' g v x1 g1, RXd x x' -> start_while dsort solve p C ext false false fuel x g = Ok (v, x1, g1) ->
  realv (3 + p) v /\ exists x1', start_while dsort solve p C ext false false fuel x' g = Ok (tauU k p q v, x1', g1) /\ RXd x1 x1'.
Proof using All.
  assert (length y = length t') as Hy' by (rewrite stretch_len; exact Hy). assert (strictly_increasing t') as Ht' by (apply stretch_inc; assumption).
  assert (3 <= length t')%nat as H3' by (rewrite stretch_len; exact H3). pose proof (run_bounds_stretch Hk (ltac:(lia) : (2 <= length t)%nat) Ht HB) as HB'.
  assert (0 < svar y) as Hys by (exact (ys Hy H3 Hne)).
  pose proof f_order as Hf. assert (2 <= p)%nat as Hp2 by lia.
  assert (forall a, exists ex a', ma_extra (R0 := R0) 0 a ex a') as HE by (intros a; exists [], a, []; repeat split; constructor).
  induction fuel as [|m IH]; intros x x' g v x1 g1 (Hx & Mx & Hx' & Mx') E; [discriminate|]. cbn [start_while] in *.
  destruct (@cand_exists R0 HR t y Ht H3 smax fmin fmax HB p Hp2 (ma_extra 0) Hys Hy HE g) as (th & om & g2 & Hc).
  pose proof (cand_nodup Hf HR Hp Hc) as Hnd. pose proof (cand_unit HU Hk Hf HR Hp Hc) as Hc'.
  pose proof (cand_nodup (fmin := fmin / k) (fmax := fmax / k) ltac:(split; [apply Rdiv_lt_0_compat; lra|apply Rmult_lt_compat_r; [apply Rinv_0_lt_compat, Hk|lra]]) HR Hp Hc') as Hnd'.
  destruct (@cand_facts R0 HR t y Ht H3 smax fmin fmax HB p Hp2 (ma_extra 0) 0%nat ex_len Hys Hy g th om g2 Hc) as (Lth & Lom & HA & _).
  destruct (@pass R0 HR dsort Hds t y e Ht H3 smax fmin fmax HB p Hp2 (ma_extra 0) 0%nat ex_len Hys Hy solve Hsv _ _ ext ex_X ex_ma ex_pr false false b0 Hb0 x g th om g2 Hx Mx Hc Hnd)
    as (b1 & ok & E1 & Hb1 & Mb1 & Hiff).
  destruct (@pass R0 HR dsort Hds t' y e Ht' H3' smax (fmin / k) (fmax / k) HB' p Hp2 (ma_extra 0) 0%nat ex_len Hys Hy' solve Hsv _ _ ext ex_X ex_ma ex_pr false false b0' Hb0' x' g _ _ g2 Hx' Mx' Hc' Hnd')
    as (b1' & ok' & E1' & Hb1' & Mb1' & Hiff').
  rewrite Nat.add_0_r in Lth. rewrite <- (new_unit_short k q Lth) in *.
  assert (ARRoots AX p (map Fin th) = Ok (map FinC om)) as EA by (destruct th as [|u1 [|u2 [|u3 tl]]]; try (cbn in Lth; lia); exact (HA u1 u2 u3)).
  pose proof (cand_prior Hk Hf q smax Hp (ltac:(lia) : (3 + p <= length th)%nat) EA) as Hpi.
  assert (ok' = ok) as -> by (destruct ok, ok'; try reflexivity; exfalso; intuition congruence).
  change (F AX) with xr in *. rewrite E1 in E. rewrite E1'. cbn [bind] in *. assert (RXd b1 b1') as HX1 by (split; [exact Hb1|split; [exact Mb1|split; [exact Hb1'|exact Mb1']]]).
  destruct ok; [|exact (IH _ _ _ _ _ _ HX1 E)].
  injection E as <- <- <-. split; [exists th; split; [reflexivity|exact Lth]|]. exists b1'. split; [rewrite tauU_Fin; reflexivity|exact HX1].
Qed.
Lemma LD_RXd x x' v l x1 w l' x1' : RXd x x' -> LogDensity C x v = Ok (l, x1) -> LogDensity C x' w = Ok (l', x1') -> RXd x1 x1'.
Proof using Hp.
  clear - Hp. intros (Hx & Mx & Hx' & Mx') E E'.
  assert (forall s b u r b1, okb s b -> mreal p false b -> LogDensity C b u = Ok (r, b1) -> mreal p false b1) as K.
  { intros s b u r b1 Hb Mb EL. destruct Mb as [Mb|(m & Em & Hm)]; [discriminate Mb|]. right. destruct (LD_keeps Hb EL) as [Q|Q].
    - exists m. rewrite Q. split; assumption.
    - exists (upd (repeat 0 p) 0 1). injection Q as Q. rewrite <- Q. split; [apply carp_ma_Fin|]. split; [refine (@carp_ma_len AR p)|apply carp_ma_nz; lia]. }
  split; [exact (proj2 (LDp_ok Hx E))|]. split; [exact (K _ _ _ _ _ Hx Mx E)|]. split; [exact (proj2 (LDp_ok Hx' E'))|exact (K _ _ _ _ _ Hx' Mx' E')].
Qed.
Lemma RXd_RXu x x' : RXd x x' -> RXu p b0 b0' x x'.
Proof.
  intros (Hx & Mx & Hx' & Mx'). assert (forall b, mreal p false b -> length (x_ma (k_ext (b_kf b))) = p) as K.
  { intros b [Q|(m & Em & Hm & _)]; [discriminate Q|]. rewrite Em, map_length. exact Hm. }
  split; split; try assumption; apply K; assumption.
Qed.
End Loop.

Lemma flat_walker {R0 : rng AX} p q z : z = true \/ q = 0%nat ->
  walker_ma (A := AX) p q z = (fun _ => Ok (carp_ma AX p)) /\ walker_extra (A := AX) (R := R0) q z = (fun g => ([], g)) /\ walker_early q z = false /\ walker_dim p q z = (3 + p)%nat.
Proof. intros [->| ->]; [repeat split|]. destruct z; repeat split. cbn. lia. Qed.

(** ** Runs *)
Section Runs.
Variable R0 : rng AX.
Hypothesis HR : valid_rng R0.
Hypothesis HU : shift_uniform R0.
Variable dsort : list (F AX) -> option (list (F AX)).
Hypothesis Hds : valid_dsort dsort.
Variable solve : list (list (cx AX)) -> list (cx AX) -> option (list (cx AX)).
Variable si : list (F AX) -> option (list nat).
Variable chol : mat AX -> option (mat AX).
Hypothesis Hsv : valid_solve solve.
Hypothesis Hsi : valid_sort_index si.
Hypothesis Hch : valid_chol chol.
Variables t y e : list R.
Hypothesis Hy : length y = length t.
Hypothesis He : length e = length t.
Hypothesis Ht : strictly_increasing t.
Hypothesis H3 : (3 <= length t)%nat.
Hypothesis Hne : exists a b, In a y /\ In b y /\ a <> b.
Variable k : R.
Hypothesis Hk : 0 < k.
Local Notation t' := (stretch k t).
Variables smax fmin fmax : R.
Hypothesis HB : run_bounds t y smax fmin fmax.

Theorem carp_default fuel N burnin p q nw z thin (init : list xr) raw raw' v0 v0' l0 l0' a0 (g : gen R0) w g' :
  (2 <= p <= 3)%nat -> (z = true \/ q = 0%nat) -> moves R0 (walker_dim p q z) -> length v0 = walker_dim p q z -> length v0' = walker_dim p q z ->
  length init <> walker_dim p q z ->
  RunCarmaSampler (R := R0) dsort solve si chol fuel N burnin (map Fin t) (map Fin y) (map Fin e) p q nw z thin init raw v0 l0 a0 g = Ok (w, g') ->
  exists w', RunCarmaSampler (R := R0) dsort solve si chol fuel N burnin (map Fin t') (map Fin y) (map Fin e) p q nw z thin init raw' v0' l0' a0 g = Ok (w', g') /\
    unit_run k p q w w'.
Proof using All.
  intros Hp23 Hq Hmv Hv0 Hv0' Hli E. assert (length y = length t') as Hy' by (rewrite stretch_len; exact Hy). assert (length e = length t') as He' by (rewrite stretch_len; exact He).
  assert (strictly_increasing t') as Ht' by (apply stretch_inc; assumption). pose proof (two_obs Hy Hne) as H2.
  assert (z = true \/ (q < p)%nat) as Hq' by (destruct Hq as [->| ->]; [left; reflexivity|right; lia]).
  destruct (RunCarma_inv E) as (b & b1 & r & _ & _ & _ & Hp & Hnw & Eb & Eb1 & Er & _).
  destruct (walker_prior Hsi Hy He Ht Hne raw z Hp) as (b2 & b12 & smax0 & fmin0 & fmax0 & Eb2 & Eb12 & Hb1 & HB0).
  pose proof (eq_trans (eq_sym Eb) Eb2) as Q. injection Q as <-. pose proof (eq_trans (eq_sym Eb1) Eb12) as Q. injection Q as <-. clear Eb2 Eb12.
  destruct (run_bounds_unique HB HB0) as (-> & -> & ->). clear HB0.
  destruct (walker_prior Hsi Hy' He' Ht' Hne raw' z Hp) as (b' & b1' & smax' & fmin' & fmax' & Eb' & Eb1' & Hb1' & HB').
  pose proof (run_bounds_stretch Hk H2 Ht HB) as HBs. destruct (run_bounds_unique HBs HB') as (-> & -> & ->).
  assert (3 <= length t')%nat as H3' by (rewrite stretch_len; exact H3).
  destruct (@run_object_holds si Hsi t y e Hy He Ht H3 Hne _ _ _ HB p q z Hp Hq' raw b1 (ex_intro _ b (Logic.conj Eb Eb1))) as (_ & m1 & Em1 & Hm1).
  destruct (@run_object_holds si Hsi t' y e Hy' He' Ht' H3' Hne _ _ _ HBs p q z Hp Hq' raw' b1' (ex_intro _ b' (Logic.conj Eb' Eb1'))) as (_ & m1' & Em1' & Hm1').
  rewrite RunCarma_eq' in E by exact Hp. rewrite RunCarma_eq' by exact Hp.
  rewrite (run_carma_fwd _ _ _ _ _ _ _ _ Hnw Eb Eb1 Er) in E. rewrite (run_carma_fwd _ _ _ _ _ _ _ _ Hnw Eb' Eb1' Er).
  apply bind_Ok in E. destruct E as (s1 & Erun & E). apply bind_Ok in E. destruct E as (w1 & Ew1 & E). injection E as <- <-.
  rewrite walker_par_eq in *. destruct (flat_walker (R0 := R0) p Hq) as (F1 & F2 & F3 & F4).
  rewrite F1, F2, F3 in *. set (dim := walker_dim p q z) in *. set (C := pcls solve p (fun _ => Ok (carp_ma AX p)) (LogPrior AX)) in *.
  set (rx := RXd p b1 b1').
  assert (forall x x' v l x1, rx x x' -> realv dim v -> LogDensity C x v = Ok (l, x1) -> exists x1', LogDensity C x' (tauU k p q v) = Ok (l, x1') /\ rx x1 x1') as HLD.
  { intros x x' v l x1 HX Hv EL. pose proof (RXd_RXu HX) as HX'. 
    pose proof (@LD_unit R0 t y e H2 Ht k Hk _ _ _ dsort solve Hsv p q z Hp23 Hq' b1 b1' Hb1 Hb1' x x' v l x1 HX' Hv) as K. rewrite F1 in K.
    destruct (K EL) as (x1' & EL' & _). exists x1'. split; [exact EL'|].
    exact (LD_RXd Hp23 HX EL EL'). }
  assert (forall x x' (g0 : gen R0) v x1 g1, rx x x' -> start_while dsort solve p C (fun g => ([], g)) false false fuel x g0 = Ok (v, x1, g1) ->
    realv dim v /\ exists x1', start_while dsort solve p C (fun g => ([], g)) false false fuel x' g0 = Ok (tauU k p q v, x1', g1) /\ rx x1 x1') as HST.
  { intros x x' g0 v x1 g1 HX Es. rewrite F4. exact (loop_unit HR HU Hds Hsv Hy Ht H3 Hne Hk HB q Hp23 Hb1 Hb1' HX Es). }
  destruct (@Run_shift R0 _ (parp dsort solve fuel p C (fun g => ([], g)) false false dim) (@student_draw AX R0) dim (1 / 4)) with
    (ta := tauU k p q) (ns := True) (RX := rx) (init := init) (init' := init) (N := N) (burnin := burnin) (thin := thin) (t := [(walker_label q z, 0%nat)])
    (y := mkSys (walkers b1 v0 l0 (walker_label q z) nw) (hot_steps (nw - 1) r (mkExch AX (Z.of_nat (burnin + thin * N)) 0 0 a0) ++ [SRam 0 r]) g)
    (y' := mkSys (walkers b1' v0' l0' (walker_label q z) nw) (hot_steps (nw - 1) r (mkExch AX (Z.of_nat (burnin + thin * N)) 0 0 a0) ++ [SRam 0 r]) g) (y1 := s1) as (s1' & Erun' & Hrel);
    cbn [o_LogDensity o_Save o_Start o_SetStart parp y_pars y_steps y_gen].
  - lra.
  - exact Hmv.
  - apply tauU_len.
  - intros v s0 w0. apply vadd_tauU.
  - exact HLD.
  - intros x x' v HX Hv. pose proof (@save_unit R0 t y e H2 Ht k Hk _ _ _ dsort solve Hsv p q z Hp23 Hq' b1 b1' Hb1 Hb1' x x' v (RXd_RXu HX) Hv) as K. rewrite F1 in K. exact K.
  - intros x x' g0 v x1 g1 _. apply HST.
  - reflexivity.
  - intros x x' g0 v x1 g1 HX Es. unfold set_start in *. change (F AX) with xr in *. rewrite (proj2 (Nat.eqb_neq _ _) Hli) in *. cbn [negb] in *. exact (HST _ _ _ _ _ _ HX Es).
  - assert (rx b1 b1') as Hrx.
    { split; [split; [exact (proj1 Hb1)|reflexivity]|]. split; [right; exists m1; split; [exact Em1|exact Hm1]|].
      split; [split; [exact (proj1 Hb1')|reflexivity]|]. right; exists m1'; split; [exact Em1'|exact Hm1']. }
    assert (forall T tr, prew (tauU k p q) rx (SetTracking (new_param b1 v0 l0 T false (walker_label q z)) tr) (SetTracking (new_param b1' v0' l0' T false (walker_label q z)) tr)) as K.
    { intros T tr. split; [exact Hrx|]. split; [reflexivity|]. split; [reflexivity|]. split; [reflexivity|]. split; [reflexivity|]. split; [reflexivity|]. exact (eq_trans Hv0' (eq_sym Hv0)). }
    unfold walkers. destruct (temp_ladder AX nw) as [|T Ts]; cbn [map]; constructor; [apply K|].
    induction Ts as [|T1 Ts IH]; cbn [map]; constructor; [exact (K T1 false)|exact IH].
  - reflexivity.
  - reflexivity.
  - intros i r' Hir. rewrite (steps_adapt Hir). apply (ram_new_real Hch Hne (n := dim) (burnin := burnin) (a0 := a0)); [lia|exact Er].
  - intros j Hj. apply (steps_cover (n := nw)). change (F AX) with xr in *. rewrite walkers_len in Hj. exact Hj.
  - left. exact I.
  - exact Erun.
  - change (F AX) with xr in *. rewrite Erun'. cbn [bind]. destruct Hrel as (Hw & _ & Hg & _). destruct (F2_vget Hw Ew1) as (w1' & Ew1' & Hr).
    change (F AX) with xr in *. rewrite Ew1'. cbn [bind]. exists w1'. split; [rewrite Hg; reflexivity|].
    destruct Hr as ((_ & _ & _ & _ & R1 & R2 & _) & R3 & R4). split; [exact R1|]. split; [exact R2|]. split; [exact R3|exact R4].
Qed.
End Runs.

(** ** CAR(1) *)
Lemma med_unique l m m' : is_median l m -> is_median l m' -> m = m'.
Proof.
  intros (s & P & S & ->) (s' & P' & S' & ->). assert (s = s') as -> by (apply sorted_unique; try assumption; rewrite <- P; exact P'). reflexivity.
Qed.
Lemma med_scale k l m : 0 < k -> is_median l m -> is_median (map (fun x => k * x) l) (k * m).
Proof.
  intros Hk (s & P & S & ->). assert (forall i, nth i (map (fun x => k * x) s) 0 = k * nth i s 0) as Hn by (exact (stretch_nth k s)).
  exists (map (fun x => k * x) s). split; [apply Permutation_map, P|]. split.
  - intros i j Hi Hj. rewrite map_length in Hj. rewrite !Hn. apply Rmult_le_compat_l; [lra|]. exact (S i j Hi Hj).
  - rewrite map_length, !Hn. destruct (Nat.even _); [field|reflexivity].
Qed.
Lemma diffs_stretch k t : diffs AR (stretch k t) = map (fun x => k * x) (diffs AR t).
Proof.
  change (F AR) with R. apply (nth_ext _ _ 0 0).
  - rewrite map_length, !dlen, stretch_len. reflexivity.
  - intros i Hi. rewrite dlen, stretch_len in Hi. change (fun x => k * x) with (fun x => k * x). rewrite (stretch_nth k (diffs AR t)).
    rewrite !dnth by (rewrite ?stretch_len; lia). rewrite !stretch_nth. ring.
Qed.
Lemma Start1_gen (R0 : rng AX) vsort (b b' : base AX (F AX)) (g : gen R0) v b1 g1 v' b1' g1' : b_y b' = b_y b -> Start1 vsort b g = Ok (v, b1, g1) -> Start1 vsort b' g = Ok (v', b1', g1') -> g1' = g1.
Proof.
  intros Ey E E'. unfold Start1 in E, E'. rewrite Ey in E'. apply bind_Ok in E. destruct E as (vv & Ev & E). rewrite Ev in E'. cbn [bind] in E'.
  destruct (scaled_inverse_chisqr _ _ _) as [sd2 g2]. destruct (rnorm _ _ _) as [mu g3].
  apply bind_Ok in E. destruct E as (dt & _ & E). apply bind_Ok in E'. destruct E' as (dt' & _ & E').
  apply bind_Ok in E. destruct E as (med & _ & E). apply bind_Ok in E'. destruct E' as (med' & _ & E').
  destruct (runiform _ _ _) as [u g4]. cbv zeta in E, E'. destruct (draw_scale _) as [sc g5].
  apply bind_Ok in E. destruct E as (b2 & _ & E). apply bind_Ok in E'. destruct E' as (b2' & _ & E'). injection E as _ _ <-. injection E' as _ _ <-. reflexivity.
Qed.

Section One.
Variable R0 : rng AX.
Hypothesis HR : valid_rng R0.
Variable vsort : list (F AX) -> option (list (F AX)).
Hypothesis Hvs : valid_vsort vsort.
Variables t y e : list R.
Hypothesis Hn : (2 <= length t)%nat.
Hypothesis Ht : strictly_increasing t.
Variable k : R.
Hypothesis Hk : 0 < k.
Local Notation t' := (stretch k t).
Variables smax fmin fmax : R.
Hypothesis HB : run_bounds t y smax fmin fmax.
Local Notation bd := (mkB AX (Fin smax) (Fin fmax) (Fin fmin) false).
Local Notation bd' := (mkB AX (Fin smax) (Fin (fmax / k)) (Fin (fmin / k)) false).
Variables b0 b0' : base AX (F AX).
Hypothesis Hb0 : base_holds b0 t y e bd.
Hypothesis Hb0' : base_holds b0' t' y e bd'.

Lemma Start1_unit x x' (g : gen R0) v x1 g1 : RX1 b0 b0' x x' -> Start1 vsort x g = Ok (v, x1, g1) ->
  realv 4 v /\ exists x1', Start1 vsort x' g = Ok (tauU k 1 0 v, x1', g1) /\ RX1 b0 b0' x1 x1'.
Proof using All.
  intros [Hx Hx'] E. pose proof (base_holds_static Hb0 Hx) as B. pose proof (base_holds_static Hb0' Hx') as B'.
  pose proof HB as (_ & F2 & F3 & _). pose proof (run_bounds_stretch Hk Hn Ht HB) as (_ & F2' & F3' & _).
  destruct (@start1_prior R0 HR vsort Hvs t y e x smax fmin fmax B F2 F3 g) as (sd & sc & mu & lo & med & u & x2 & g2 & Es & D & _ & _ & Hm & _).
  destruct (@start1_prior R0 HR vsort Hvs t' y e x' smax (fmin / k) (fmax / k) B' F2' F3' g) as (sd' & sc' & mu' & lo' & med' & u' & x2' & g2' & Es' & D' & _ & _ & Hm' & _).
  assert (g2' = g2) as -> by (refine (Start1_gen _ Es Es'); transitivity (map Fin y : list (F AX)); [apply B'|symmetry; apply B]).
  pose proof (eq_trans (eq_sym E) Es) as Q. injection Q as -> -> ->.
  destruct D as (c & c2 & h1 & h2 & h3 & D1 & D2 & D3 & D4 & D5 & D6 & D7 & D8 & D9 & D10 & D11).
  destruct D' as (c' & c2' & h1' & h2' & h3' & D1' & D2' & D3' & D4' & D5' & D6' & D7' & D8' & D9' & D10' & D11').
  rewrite D1 in D1'. injection D1' as <- <-. subst sd'. subst sd. rewrite D4 in D4'. injection D4' as <- <-. rewrite D6 in D6'. injection D6' as <- <-.
  rewrite D9 in D9'. injection D9' as <-. subst sc sc'. rewrite diffs_stretch in D5'. pose proof (med_unique D5' (med_scale Hk D5)) as ->.
  assert (lo' = lo - ln k) as ->.
  { apply exp_inv. rewrite D8'. unfold Rminus. rewrite exp_plus, exp_Ropp, exp_ln, D8 by exact Hk. field. split; [lra|split; lra]. }
  split; [match type of Es with _ = Ok (map Fin ?l, _, _) => exists l end; split; reflexivity|]. exists x2'. split.
  - match type of Es with _ = Ok (map Fin ?l, _, _) => change (Start1 vsort x' g = Ok (tauU k 1 0 (map Fin l), x2', g2)) end. rewrite Es', tauU_Fin. unfold new_unit, unit_shift, quad_shift. cbn. rewrite !Rminus_0_r. reflexivity.
  - split; [exact (Start1_ok Hx Es)|exact (Start1_ok Hx' Es')].
Qed.
End One.

Theorem car1_default (R0 : rng AX) vsort si chol (t y e : list R) (k smax fmin fmax : R) N burnin thin (init : list xr) raw raw' v0 v0' l0 l0' a0 (g : gen R0) w g' :
  valid_rng R0 -> valid_vsort vsort -> valid_sort_index si -> valid_chol chol -> length y = length t -> length e = length t -> strictly_increasing t ->
  (exists a b, In a y /\ In b y /\ a <> b) -> 0 < k -> run_bounds t y smax fmin fmax -> moves R0 4 -> length v0 = 4%nat -> length v0' = 4%nat ->
  length init <> 4%nat ->
  RunCar1Sampler (R := R0) vsort si chol N burnin (map Fin t) (map Fin y) (map Fin e) thin init raw v0 l0 a0 g = Ok (w, g') ->
  exists w', RunCar1Sampler (R := R0) vsort si chol N burnin (map Fin (stretch k t)) (map Fin y) (map Fin e) thin init raw' v0' l0' a0 g = Ok (w', g') /\
    unit_run k 1 0 w w'.
Proof.
  intros HR Hvs Hsi Hch Hy He Ht Hne Hk HB Hmv Hv0 Hv0' Hli E. unfold RunCar1Sampler in *. 
  assert (length y = length (stretch k t)) as Hy' by (rewrite stretch_len; exact Hy). assert (length e = length (stretch k t)) as He' by (rewrite stretch_len; exact He).
  assert (strictly_increasing (stretch k t)) as Ht' by (apply stretch_inc; assumption). pose proof (two_obs Hy Hne) as H2.
  destruct (car1_built Hsi Hy He Ht Hne raw) as (b & fm & fM & Eb & Hb & _). destruct (set_prior_built Hy He Ht Hne Hb eq_refl) as (b1 & smax0 & fmin0 & fmax0 & Eb1 & Hb1 & HB0).
  destruct (run_bounds_unique HB HB0) as (-> & -> & ->). clear HB.
  destruct (car1_built Hsi Hy' He' Ht' Hne raw') as (b' & fm' & fM' & Eb' & Hb' & _).
  destruct (set_prior_built Hy' He' Ht' Hne Hb' eq_refl) as (b1' & smax' & fmin' & fmax' & Eb1' & Hb1' & HB').
  destruct (run_bounds_unique (run_bounds_stretch Hk H2 Ht HB0) HB') as (-> & -> & ->).
  change (F AX) with xr in *. rewrite Eb in E. rewrite Eb'. cbn [bind] in *. rewrite Eb1 in E. rewrite Eb1'. cbn [bind] in *. cbv zeta in *.
  apply bind_Ok in E. destruct E as (r & Er & E). change (F AX) with xr in *. rewrite Er. cbn [bind AddSteps AddStep step_par vgetU nth_error new_param w_track w_label track_insert app] in *.
  apply bind_Ok in E. destruct E as (s1 & Erun & E). apply bind_Ok in E. destruct E as (w1 & Ew1 & E). injection E as <- <-.
  assert (okb (static_of b1) b1) as Hok by (split; [exact (proj1 Hb1)|reflexivity]).
  assert (okb (static_of b1') b1') as Hok' by (split; [exact (proj1 Hb1')|reflexivity]).
  destruct (@Run_shift R0 _ (par1 R0 vsort) (@student_draw AX R0) 4%nat (1 / 4)) with
    (ta := tauU k 1 0) (ns := True) (RX := RX1 b1 b1') (init := init) (init' := init) (N := N) (burnin := burnin) (thin := thin) (t := [("CAR(1)"%string, 0%nat)])
    (y := mkSys [new_param b1 v0 l0 (fofZ AX 1) true "CAR(1)"] [SRam 0 r] g) (y' := mkSys [new_param b1' v0' l0' (fofZ AX 1) true "CAR(1)"] [SRam 0 r] g) (y1 := s1) as (s1' & Erun' & Hrel);
    cbn [o_LogDensity o_Save o_Start o_SetStart par1 y_pars y_steps y_gen].
  - lra.
  - exact Hmv.
  - apply tauU_len.
  - intros v s0 w0. apply vadd_tauU.
  - intros x x' v l x1 HX Hv EL. exact (LD1_unit R0 H2 Ht Hk vsort Hb1 Hb1' HX Hv EL).
  - intros x x' v HX Hv. exact (save1_unit R0 H2 Ht Hk vsort Hb1 Hb1' HX Hv).
  - intros x x' g0 v x1 g1 _ HX Es. exact (Start1_unit HR Hvs H2 Ht Hk HB0 Hb1 Hb1' HX Es).
  - reflexivity.
  - intros x x' g0 v x1 g1 HX Es. unfold SetStart1 in *. change (F AX) with xr in *. rewrite (proj2 (Nat.eqb_neq _ _) Hli) in *. cbn [negb] in *. exact (Start1_unit HR Hvs H2 Ht Hk HB0 Hb1 Hb1' HX Es).
  - constructor; [|constructor]. split; [exact (Logic.conj Hok Hok')|]. split; [reflexivity|]. split; [reflexivity|]. split; [reflexivity|]. split; [reflexivity|]. split; [reflexivity|]. exact (eq_trans Hv0' (eq_sym Hv0)).
  - reflexivity.
  - reflexivity.
  - intros i r' [Q|[]]. injection Q as _ <-. apply (ram_new_real Hch Hne (n := 4) (burnin := burnin) (a0 := a0)); [lia|exact Er].
  - intros j Hj. cbn in *. left. lia.
  - left. exact I.
  - exact Erun.
  - change (F AX) with xr in *. rewrite Erun'. cbn [bind]. destruct Hrel as (Hw & _ & Hg & _). destruct (F2_vget Hw Ew1) as (w1' & Ew1' & Hr).
    change (F AX) with xr in *. rewrite Ew1'. cbn [bind]. exists w1'. split; [rewrite Hg; reflexivity|].
    destruct Hr as ((_ & _ & _ & _ & R1 & R2 & _) & R3 & R4). split; [exact R1|]. split; [exact R2|]. split; [exact R3|exact R4].
Qed.

(** ** StartingValue() itself, moving average coordinates included *)
Section Start.
Variable R0 : rng AX.
Hypothesis HR : valid_rng R0.
Hypothesis HU : shift_uniform R0.
Variable dsort : list (F AX) -> option (list (F AX)).
Hypothesis Hds : valid_dsort dsort.
Variable solve : list (list (cx AX)) -> list (cx AX) -> option (list (cx AX)).
Hypothesis Hsv : valid_solve solve.
Variable si : list (F AX) -> option (list nat).
Hypothesis Hsi : valid_sort_index si.
Variables t y e : list R.
Hypothesis Hy : length y = length t.
Hypothesis He : length e = length t.
Hypothesis Ht : strictly_increasing t.
Hypothesis H3 : (3 <= length t)%nat.
Hypothesis Hne : exists a b, In a y /\ In b y /\ a <> b.
Variable k : R.
Hypothesis Hk : 0 < k.
Local Notation t' := (stretch k t).
Variables smax fmin fmax : R.
Hypothesis HB : run_bounds t y smax fmin fmax.
Variables (p q : nat) (z : bool).
Hypothesis Hp : (2 <= p <= 3)%nat.
Hypothesis Hq : z = true \/ (q < p)%nat.
Local Notation cand := (candidate (R0 := R0) (ma_extra (R0 := R0) (nma q z)) p y fmin fmax).
Local Notation cand' := (candidate (R0 := R0) (ma_extra (R0 := R0) (nma q z)) p y (fmin / k) (fmax / k)).
Lemma good_unit j g th g' : first_good cand (in_prior smax fmin fmax) j g th g' -> first_good cand' (in_prior smax (fmin / k) (fmax / k)) j g (new_unit k p 0 th) g'.
Proof using All.
  pose proof (f_order Ht H3 HB) as Hf. assert (2 <= p)%nat as Hp2 by lia.
  assert (0 < fmin / k < fmax / k) as Hf' by (split; [apply Rdiv_lt_0_compat; lra|apply Rmult_lt_compat_r; [apply Rinv_0_lt_compat, Hk|lra]]).
  assert (forall g th om g', cand g th om g' -> in_prior smax fmin fmax th om <-> in_prior smax (fmin / k) (fmax / k) (new_unit k p 0 th) (map (scl (/ k)) om)) as K.
  { intros g1 th1 om1 g2 Hc. destruct (@walker_candidate R0 HR t y Hy Ht H3 Hne smax fmin fmax HB p q z Hp2 g1 th1 om1 g2 Hc) as (L & _ & EA & _).
    exact (cand_prior Hk Hf 0 smax Hp (ltac:(lia) : (3 + p <= length th1)%nat) EA). }
  intros H. induction H as [g th om g' Hc Hnd Hg|j g th om g1 th' g' Hc Hnd Hg H IH].
  - pose proof (cand_unit HU Hk Hf HR Hp Hc) as Hc'. apply fg_now with (map (scl (/ k)) om); [exact Hc'|exact (cand_nodup Hf' HR Hp Hc')|]. apply (K _ _ _ _ Hc), Hg.
  - pose proof (cand_unit HU Hk Hf HR Hp Hc) as Hc'. apply fg_later with (new_unit k p 0 th) (map (scl (/ k)) om) g1; [exact Hc'|exact (cand_nodup Hf' HR Hp Hc')| |exact IH].
    intros Q. apply Hg, (K _ _ _ _ Hc), Q.
Qed.
Theorem start_unit raw raw' b1 b1' fuel g v x g' : run_object si t y e p z raw b1 -> run_object si t' y e p z raw' b1' ->
  o_Start (walker_par R0 dsort solve fuel p q z) b1 g = Ok (v, x, g') ->
  exists th x', v = map Fin th /\ length th = walker_dim p q z /\ o_Start (walker_par R0 dsort solve fuel p q z) b1' g = Ok (map Fin (new_unit k p 0 th), x', g').
Proof using All.
  intros Ho Ho' E. assert (2 <= p)%nat as Hp2 by lia. pose proof (f_order Ht H3 HB) as Hf.
  assert (length y = length t') as Hy' by (rewrite stretch_len; exact Hy). assert (length e = length t') as He' by (rewrite stretch_len; exact He).
  assert (strictly_increasing t') as Ht' by (apply stretch_inc; assumption). assert (3 <= length t')%nat as H3' by (rewrite stretch_len; exact H3).
  pose proof (run_bounds_stretch Hk (ltac:(lia) : (2 <= length t)%nat) Ht HB) as HB'.
  destruct (@walker_only R0 HR dsort solve si Hds Hsv Hsi t y e Hy He Ht H3 Hne smax fmin fmax HB p q z Hp2 Hq raw b1 fuel g Ho (fun g th om g' Hc => cand_nodup Hf HR Hp Hc)) as [(j & th & g1 & x1 & Hj & Hfg & E1)|(E1 & _)].
  2:{ pose proof (eq_trans (eq_sym E) E1) as Q. discriminate Q. }
  pose proof (eq_trans (eq_sym E) E1) as Q. injection Q as -> -> ->.
  destruct (@walker_first R0 HR dsort solve si Hds Hsv Hsi t' y e Hy' He' Ht' H3' Hne smax _ _ HB' p q z Hp2 Hq raw' b1' fuel j g _ g1 Ho' (good_unit Hfg) Hj) as (x' & E').
  exists th, x'. split; [reflexivity|]. split; [|exact E'].
  assert (exists g0 om g2, cand g0 th om g2) as (g0 & om & g2 & Hc) by (clear - Hfg; induction Hfg as [g th om g' Hc _ _|j g th om g1 th' g' _ _ _ _ IH]; [do 3 eexists; exact Hc|exact IH]).
  destruct (@walker_candidate R0 HR t y Hy Ht H3 Hne smax fmin fmax HB p q z Hp2 g0 th om g2 Hc) as (L & _). rewrite L. unfold nma, walker_dim. destruct z; lia.
Qed.
End Start.

(** a run of a CAR(2) process from the default start which returns *)
Lemma run_Vk (solve : list (list (cx AX)) -> list (cx AX) -> option (list (cx AX))) (dsort : list (F AX) -> option (list (F AX))) (si : list (F AX) -> option (list nat)) (chol : mat AX -> option (mat AX)) ks fuel N thin raw v0 l0 a0 (g : gen (rngV ks)) : valid_solve solve -> never_fails solve -> valid_dsort dsort -> valid_sort_index si -> valid_chol chol ->
  List.length v0 = 5%nat ->
  exists w g', RunCarmaSampler (R := rngV ks) dsort solve si chol (S fuel) N 0 (map Fin tV) (map Fin yV) (map Fin eV) 2 0 1 false thin [] raw v0 l0 a0 g = Ok (w, g').
Proof.
  intros Hsv Hnf Hds Hsi Hch Hv0.
    destruct (@walker_prior si Hsi tV yV eV eq_refl eq_refl tV_inc yV_ne raw 2 false (le_n 2)) as (b & b1 & smax & fmin & fmax & Eb & E1 & Hb1 & HB).
  destruct (@chol_init chol 5 yV Hch yV_ne) as (L & EL & HL).
  assert (all_kept si (map Fin tV)) as Hk by (apply kept_distinct; [exact Hsi|apply increasing_NoDup, tV_inc]).
  destruct (@carp_new_okt AX si raw 2 (map Fin tV) (map Fin yV) (map Fin eV) b false eq_refl eq_refl Hk (le_n 2) Eb) as (Hwb & Hma & _).
  destruct (SetPrior_inv E1) as (_ & Ek1 & Hw1). set (st := static_of b1).
  assert (okt 2 st b1) as Hok by (split; [split; [exact (Hw1 Hwb)|reflexivity]|rewrite Ek1; exact Hma]).
  assert (forall x (g0 : gen (rngV ks)), okt 2 st x -> exists b', start_while (R := rngV ks) dsort solve 2 (walker_cls solve 2 0 false) (fun g => ([], g)) false false (S fuel) x g0 = Ok (map Fin (thV (snd g0)), b', g0) /\ okt 2 st b') as Hst.
  { intros x g0 Hx. assert (static_of x = st) as Es by exact (proj2 (proj1 Hx)).
    destruct (@start_V solve Hsv Hnf dsort Hds ks fuel x smax fmin fmax g0 (base_holds_static Hb1 (proj1 Hx)) HB) as (b' & E & H); [rewrite Es; exact Hx|].
    exists b'. rewrite Es in H. split; [exact E|exact H]. }
  assert (exists w g', RunCarmaSampler (R := rngV ks) dsort solve si chol (S fuel) N 0 (map Fin tV) (map Fin yV) (map Fin eV) 2 0 1 false thin [] raw v0 l0 a0 g = Ok (w, g')) as (w & g' & E).
  { enough (exists x, RunCarmaSampler (R := rngV ks) dsort solve si chol (S fuel) N 0 (map Fin tV) (map Fin yV) (map Fin eV) 2 0 1 false thin [] raw v0 l0 a0 g = Ok x /\ True) as ([w g'] & E & _) by (exists w, g'; exact E).
    apply wp_total; [|apply carma_safe; lia].
    destruct (@RunCarma_eq AX (rngV ks) dsort solve si chol (S fuel) N 0 (map Fin tV) (map Fin yV) (map Fin eV) 2 0 1 false thin [] raw v0 l0 a0 g (le_n 2)) as [label ->].
    change (walker_dim 2 0 false) with 5%nat.
    assert (forall th : list (F AX), List.length th = 5%nat -> wp False False (fun m => List.length m = 2%nat) (Ok (carp_ma AX 2))) as HmaW by (intros; apply carp_ma_len).
    assert (forall th : list (F AX), List.length th = 5%nat -> wp False False (fun _ => True) (LogPrior AX th)) as HprW by (intros th Hth; apply LogPrior_wp; lia).
    eapply run_carma_wp with (ok := okt 2 st) (b := b) (b1 := b1) (L := FinM L); try assumption.
    - intros x v Hx Hv. exact (@LDp_wp AX False False solve 2 5 (fun _ => Ok (carp_ma AX 2)) (LogPrior AX) (le_n 2) (le_n 5) HmaW HprW st x v Hx Hv).
    - intros x v Hx Hv. exact (@savep_wp AX False False solve 2 5 (fun _ => Ok (carp_ma AX 2)) (LogPrior AX) (le_n 2) (le_n 5) HprW st x v Hx Hv).
    - intros x g0 Hx. cbn [List.length Nat.eqb]. destruct (Hst x g0 Hx) as (b' & Es & Hb'). 
      match goal with |- wp _ _ _ ?r => replace r with (@Ok (list (F AX) * base AX (kpx AX) * gen (rngV ks)) (map Fin (thV (snd g0)), b', g0)) by (symmetry; exact Es) end.
      split; [exact Hb'|reflexivity].
    - lia.
    - apply FinM_square, HL. }
  exists w, g'. exact E.
Qed.
