(** C108: which vector StartingValue() of the CARp, ZCAR and CARMA objects of a run returns. *)
From Coq Require Import Reals List Arith ZArith Bool Lra Lia Permutation.
From Coquelicot Require Import Complex.
From Verif Require Import Arith Res KFModel Spec Emb InitProof SimProof KF1More Cx CLin SpecCarma KFpModel KFpX KFpMain KFpTop SpecModel CarpackModel PriorProof LogLikMain CarpackTop.
From Verif Require Import EngineModel StartModel EngineProof EngineDriver EngineAX Start1Proof SeedRefute EngineReal StartLaw StartRun.
Import ListNotations.
Local Open Scope R_scope.
Local Notation length := List.length.

(** *** C108 *)
(** C108, the candidates: a candidate has 3 + p + q coordinates (3 + p for ZCAR), its standard deviation and measurement error scale are positive and in range, the
    roots the class computes from it are the Lorentzians it was drawn as, and it lies in the prior region exactly when the standard deviation is at most its bound,
    no two roots are closer than the fraction 1/10000 and, for odd p, the last width exceeds the smallest frequency; the order of the centroids and the other
    frequency bounds hold by construction. *)
Theorem C108_candidate : forall (R0 : rng AX), valid_rng R0 -> forall t y : list R, length y = length t -> strictly_increasing t -> (3 <= length t)%nat ->
  (exists a b, In a y /\ In b y /\ a <> b) -> forall smax fmin fmax, run_bounds t y smax fmin fmax -> forall (p q : nat) (z : bool), (2 <= p)%nat ->
  forall (g : gen R0) th om g', candidate (R0 := R0) (ma_extra (R0 := R0) (if z then 0%nat else q)) p y fmin fmax g th om g' ->
  length th = (3 + p + (if z then 0 else q))%nat /\ length om = p /\ ARRoots AX p (map Fin th) = Ok (map FinC om) /\ 0 < nth 0 th 0 /\ 51 / 100 <= nth 1 th 0 <= 199 / 100 /\
  (in_prior smax fmin fmax th om <->
     nth 0 th 0 <= smax /\ pairwise_apart om /\ (Nat.odd p = true -> fmin < - fst (nth (p - 1) om (RtoC 0)) / (2 * PI))).
Proof.
  intros R0 HR t y Hy Ht H3 Hne smax fmin fmax HB p q z Hp g th om g' Hc.
  exact (@walker_candidate R0 HR t y Hy Ht H3 Hne smax fmin fmax HB p q z Hp g th om g' Hc).
Qed.
Print Assumptions C108_candidate.

(** C108, totality: from every state of the generators there is a candidate. *)
Theorem C108_candidate_exists : forall (R0 : rng AX), valid_rng R0 -> forall t y : list R, length y = length t -> strictly_increasing t -> (3 <= length t)%nat ->
  (exists a b, In a y /\ In b y /\ a <> b) -> forall smax fmin fmax, run_bounds t y smax fmin fmax -> forall (p q : nat) (z : bool), (2 <= p)%nat ->
  forall g : gen R0, exists th om g', candidate (R0 := R0) (ma_extra (R0 := R0) (if z then 0%nat else q)) p y fmin fmax g th om g'.
Proof.
  intros R0 HR t y Hy Ht H3 Hne smax fmin fmax HB p q z Hp g.
  exact (@walker_candidates R0 HR t y Hy Ht H3 Hne smax fmin fmax HB p q z Hp g).
Qed.
Print Assumptions C108_candidate_exists.

(** C108, the result: if the j-th candidate, drawn after the j - 1 candidates before it, is the first in the prior region, StartingValue() returns that candidate and
    leaves the generators as they are after drawing it (the model needs a loop counter of at least j). *)
Theorem C108_first : forall (R0 : rng AX) dsort solve si, valid_rng R0 -> valid_dsort dsort -> valid_solve solve -> valid_sort_index si ->
  forall t y e : list R, length y = length t -> length e = length t -> strictly_increasing t -> (3 <= length t)%nat ->
  (exists a b, In a y /\ In b y /\ a <> b) -> forall smax fmin fmax, run_bounds t y smax fmin fmax -> forall (p q : nat) (z : bool), (2 <= p)%nat -> z = true \/ (q < p)%nat ->
  forall raw b b1, walker_new (A := AX) si raw p z (map Fin t) (map Fin y) (map Fin e) = Ok b ->
  SetPrior b (fmul AX (fofZ AX 10) (fsqrt AX (pop_var AX (map Fin y)))) = Ok b1 ->
  forall fuel j (g : gen R0) th g',
  first_good (candidate (R0 := R0) (ma_extra (R0 := R0) (if z then 0%nat else q)) p y fmin fmax) (in_prior smax fmin fmax) j g th g' -> (j <= fuel)%nat ->
  exists b', o_Start (walker_par R0 dsort solve fuel p q z) b1 g = Ok (map Fin th, b', g').
Proof.
  intros R0 ds sv si HR Hds Hsv Hsi t y e Hy He Ht H3 Hne smax fmin fmax HB p q z Hp Hq raw b b1 Eb E1 fuel j g th g' Hf Hj.
  exact (@walker_first R0 HR ds sv si Hds Hsv Hsi t y e Hy He Ht H3 Hne smax fmin fmax HB p q z Hp Hq raw b1 fuel j g th g' (ex_intro _ b (Logic.conj Eb E1)) Hf Hj).
Qed.
Print Assumptions C108_first.

(** C108, and nothing else: if no candidate has a repeated root, then either StartingValue() returns the first candidate in the prior region, or it is still drawing. *)
Theorem C108_only : forall (R0 : rng AX) dsort solve si, valid_rng R0 -> valid_dsort dsort -> valid_solve solve -> valid_sort_index si ->
  forall t y e : list R, length y = length t -> length e = length t -> strictly_increasing t -> (3 <= length t)%nat ->
  (exists a b, In a y /\ In b y /\ a <> b) -> forall smax fmin fmax, run_bounds t y smax fmin fmax -> forall (p q : nat) (z : bool), (2 <= p)%nat -> z = true \/ (q < p)%nat ->
  forall raw b b1, walker_new (A := AX) si raw p z (map Fin t) (map Fin y) (map Fin e) = Ok b ->
  SetPrior b (fmul AX (fofZ AX 10) (fsqrt AX (pop_var AX (map Fin y)))) = Ok b1 ->
  let cand := candidate (R0 := R0) (ma_extra (R0 := R0) (if z then 0%nat else q)) p y fmin fmax in
  (forall g th om g', cand g th om g' -> NoDup om) -> forall fuel (g : gen R0),
  (exists j th g' b', (j <= fuel)%nat /\ first_good cand (in_prior smax fmin fmax) j g th g' /\ o_Start (walker_par R0 dsort solve fuel p q z) b1 g = Ok (map Fin th, b', g')) \/
  (o_Start (walker_par R0 dsort solve fuel p q z) b1 g = Diverge /\ forall j th g', first_good cand (in_prior smax fmin fmax) j g th g' -> (fuel < j)%nat).
Proof.
  intros R0 ds sv si HR Hds Hsv Hsi t y e Hy He Ht H3 Hne smax fmin fmax HB p q z Hp Hq raw b b1 Eb E1 cand Hn fuel g.
  exact (@walker_only R0 HR ds sv si Hds Hsv Hsi t y e Hy He Ht H3 Hne smax fmin fmax HB p q z Hp Hq raw b1 fuel g (ex_intro _ b (Logic.conj Eb E1)) Hn).
Qed.
Print Assumptions C108_only.

(** C108 for ZCARMA: the same, a candidate ending with the logit of a uniform variate strictly between 0 and 1. *)
Theorem C108_zcarma : forall (R0 : rng AX) dsort solve si, valid_rng R0 -> valid_dsort dsort -> valid_solve solve -> valid_sort_index si ->
  forall t y e : list R, length y = length t -> length e = length t -> strictly_increasing t -> (3 <= length t)%nat ->
  (exists a b, In a y /\ In b y /\ a <> b) -> forall smax fmin fmax, run_bounds t y smax fmin fmax -> forall p : nat, (2 <= p)%nat -> forall klow khigh : R, 0 < klow < khigh ->
  forall raw b b1, walker_new (A := AX) si raw p false (map Fin t) (map Fin y) (map Fin e) = Ok b ->
  SetPrior b (fmul AX (fofZ AX 10) (fsqrt AX (pop_var AX (map Fin y)))) = Ok b1 ->
  forall fuel j (g : gen R0) th g',
  first_good (candidate (R0 := R0) (kappa_extra (R0 := R0)) p y fmin fmax) (in_prior smax fmin fmax) j g th g' -> (j <= fuel)%nat ->
  exists b', o_Start (par_zcarma R0 dsort solve fuel p (Fin klow : F AX) (Fin khigh)) b1 g = Ok (map Fin th, b', g').
Proof.
  intros R0 ds sv si HR Hds Hsv Hsi t y e Hy He Ht H3 Hne smax fmin fmax HB p Hp kl kh Hk raw b b1 Eb E1 fuel j g th g' Hf Hj.
  exact (@kappa_first R0 HR ds sv si Hds Hsv Hsi t y e Hy He Ht H3 Hne smax fmin fmax HB p 0 false Hp (or_intror (Nat.lt_le_trans 0 2 p ltac:(lia) Hp)) kl kh Hk raw b1 fuel j g th g' eq_refl (ex_intro _ b (Logic.conj Eb E1)) Hf Hj).
Qed.
Print Assumptions C108_zcarma.
(** its moving average polynomial is (1 + s/kappa)^(p-1), kappa lying between the bounds as the uniform variate does between 0 and 1 *)
Theorem C108_zcarma_kappa : forall (R0 : rng AX), valid_rng R0 -> forall t y : list R, length y = length t -> strictly_increasing t -> (3 <= length t)%nat ->
  (exists a b, In a y /\ In b y /\ a <> b) -> forall smax fmin fmax, run_bounds t y smax fmin fmax -> forall p : nat, (2 <= p)%nat -> forall klow khigh : R, 0 < klow < khigh ->
  forall (g : gen R0) th om g', candidate (R0 := R0) (kappa_extra (R0 := R0)) p y fmin fmax g th om g' ->
  exists u gb gb' (ma : list R), b_uniform R0 (Fin 0) (Fin 1) gb = (Fin u, gb') /\ 0 < u < 1 /\
    ExtractMA_zcarma AX p (Fin klow) (Fin khigh) (map Fin th) = Ok (map Fin ma) /\ length ma = p /\
    forall s, ma_poly ma s = Cpown (Cplus (RtoC 1) (Cdiv s (RtoC (klow + u * (khigh - klow))))) (p - 1).
Proof.
  intros R0 HR t y Hy Ht H3 Hne smax fmin fmax HB p Hp kl kh Hk g th om g' Hc.
  destruct valid_dsort_exists as [ds Hds]. destruct valid_solve_exists as [sv Hsv]. destruct valid_sort_index_exists as [si Hsi].
  exact (@kappa_value R0 HR ds sv si Hds Hsv Hsi t y y Hy Hy Ht H3 Hne smax fmin fmax HB p 0 false Hp (or_intror (Nat.lt_le_trans 0 2 p ltac:(lia) Hp)) kl kh Hk g th om g' Hc).
Qed.
Print Assumptions C108_zcarma_kappa.

(** C108 is false for two measurements: the smallest and the largest frequency of the prior are then equal, no candidate is acceptable, and a run of even order
    p >= 2 which records anything never returns: it throws or draws starting values for ever, whatever the data, the generators and the number of passes allowed. *)
Theorem C108_two_measurements_refuted : forall (R0 : rng AX) dsort solve si chol (t y e : list R) fuel N burnin p q nw z thin (init : list R) raw v0 l0 a0 (g : gen R0),
  valid_rng R0 -> valid_dsort dsort -> valid_sort_index si -> valid_chol chol -> length t = 2%nat -> length y = 2%nat -> length e = 2%nat ->
  strictly_increasing t -> (exists a b, In a y /\ In b y /\ a <> b) -> (2 <= p)%nat -> Nat.even p = true -> z = true \/ (q < p)%nat -> (0 < nw)%nat -> (0 < N)%nat ->
  length v0 = walker_dim p q z -> moves R0 (walker_dim p q z) ->
  let r := RunCarmaSampler (A := AX) (R := R0) dsort solve si chol fuel N burnin (map Fin t) (map Fin y) (map Fin e) p q nw z thin (map Fin init) raw v0 l0 a0 g in
  r = Throw Eruntime \/ r = Diverge.
Proof. exact two_never. Qed.
Print Assumptions C108_two_measurements_refuted.

(** *** The hypotheses are met *)
(** a generator whose first two chi-square variates are small, the later ones the number of degrees of freedom *)
Definition rngU : rng AX :=
  @mkRng AX nat unit (fun _ => 0%nat)
    (fun lo hi g => (fadd AX lo (fmul AX (fsub AX hi lo) (Fin (1 / 2))), g))
    (fun lo _ g => (lo, g)) (fun mu _ g => (mu, g)) (fun dof g => (Fin (if (g <? 2)%nat then 1 / 1000 else IZR dof), S g)) (fun _ g => (Fin 1, g)) (fun m _ g => (fexp AX m, g))
    (fun g => (Fin (1 / 3), g)) (fun g => (Fin (-2), g)).
Lemma rngU_valid : valid_rng rngU.
Proof.
  constructor; cbn.
  - intros lo hi _ H. exists (lo + (hi - lo) * (1 / 2)). split; [reflexivity|lra].
  - intros mu sd _ _. exists mu. reflexivity.
  - intros dof g H. eexists. split; [reflexivity|]. match goal with |- _ < (if ?b then _ else _) => destruct b end; [lra|]. apply (IZR_lt 0), H.
  - intros dof _ _. exists 1. reflexivity.
  - intros lo hi _ H. lia.
  - intros g. eexists. split; [reflexivity|]. lra.
  - intros _. eexists. reflexivity.
Qed.
Lemma boundsV : run_bounds tV yV (10 * sqrt (pvar yV)) (1 / 2) 1.
Proof.
  repeat split; try lra.
  - intros i Hi. cbn in Hi. destruct i as [|[|i]]; cbn; try lra; lia.
  - exists 0%nat. cbn. split; [lia|lra].
  - cbn. field.
Qed.
Lemma svarV : svar yV = 1 / 3. Proof. unfold svar, smean. cbn. field. Qed.
Lemma pvarV : pvar yV = 2 / 9. Proof. unfold pvar, smean. cbn. field. Qed.
(** the candidates drawn with this generator for a CARMA(2,1) process *)
Definition cU : R := between (1 / 2) 1 (1 / 3).
Definition thU (n : nat) : list R :=
  let c1 := if (n <? 2)%nat then 1 / 1000 else 2 in let c2 := if (S n <? 2)%nat then 1 / 1000 else 50 in
  [sqrt (svar yV / c1 * (3 - 1)); Rmax (Rmin (1 / c2 * 50) (199 / 100)) (51 / 100); smean yV] ++ coded cU cU ++ [2].
Lemma candU n : candidate (R0 := rngU) (ma_extra (R0 := rngU) 1) 2 yV (1 / 2) 1 (n, tt) (thU n) (lorentz cU cU) (S (S n), tt).
Proof.
  exists [1 / 3], tt, [1 / 3], tt, [cU], [cU], 0, n, [2], n, tt, (if (n <? 2)%nat then 1 / 1000 else 2), (S n), (nth 0 (thU n) 0), (smean yV), (S n), (if (S n <? 2)%nat then 1 / 1000 else 50), (S (S n)).
  split; [repeat econstructor|]. split; [reflexivity|]. split; [apply Permutation_refl|]. split; [intros i j Hi Hj; cbn in Hj; assert (i = 0 /\ j = 0)%nat as [-> ->] by lia; lra|].
  split; [repeat econstructor|]. split; [reflexivity|]. split; [reflexivity|]. split; [reflexivity|].
  split; [exists [-2]; split; [repeat econstructor|]; split; [reflexivity|]; split; [reflexivity|]; cbn; unfold Rabs; destruct (Rcase_abs (-2)); [|lra]; f_equal; lra|].
  split; [reflexivity|]. split; [cbn; f_equal; f_equal; f_equal; lra|]. split; [reflexivity|]. split; [reflexivity|]. split; [reflexivity|].
  split; reflexivity.
Qed.
(** the first of them is not acceptable, the second is: StartingValue() makes two passes *)
Example ex_second : first_good (candidate (R0 := rngU) (ma_extra (R0 := rngU) 1) 2 yV (1 / 2) 1) (in_prior (10 * sqrt (pvar yV)) (1 / 2) 1) 2 (0%nat, tt) (thU 2) (4%nat, tt).
Proof.
  assert (1 / 2 < cU < 1) as Hc by (apply between_range; lra). pose proof PI_RGT_0 as HP.
  assert (NoDup (lorentz cU cU)) as Hn.
  { constructor; [|constructor; [intros []|constructor]]. intros [Q|[]]. apply (f_equal snd) in Q. cbn in Q. nra. }
  pose proof (fun n => proj2 (proj2 (proj2 (proj2 (proj2 (@C108_candidate rngU rngU_valid tV yV eq_refl tV_inc ltac:(cbn; lia) yV_ne _ _ _ boundsV 2 1 false ltac:(lia) _ _ _ _ (candU n))))))) as HI.
  apply fg_later with (thU 0) (lorentz cU cU) (2%nat, tt); [exact (candU 0%nat)|exact Hn| |].
  - rewrite (HI 0%nat). intros [Q _]. cbn [thU nth app] in Q. rewrite svarV, pvarV in Q. change (0 <? 2)%nat with true in Q. cbv iota in Q.
    assert (10 * sqrt (2 / 9) < 10) as Q1. { assert (sqrt (2 / 9) < sqrt 1) by (apply sqrt_lt_1; lra). rewrite sqrt_1 in H. lra. }
    assert (10 < sqrt (1 / 3 / (1 / 1000) * (3 - 1))) as Q2. { replace 10 with (sqrt (10 * 10)) at 1 by (apply sqrt_square; lra). apply sqrt_lt_1; lra. }
    lra.
  - apply fg_now with (lorentz cU cU); [exact (candU 2%nat)|exact Hn|]. rewrite (HI 2%nat). split; [|split].
    + cbn [thU nth app]. rewrite svarV, pvarV. change (2 <? 2)%nat with false. cbv iota.
      replace (1 / 3 / 2 * (3 - 1)) with (1 / 3) by field. assert (sqrt (1 / 3) <= sqrt (10 * 10 * (2 / 9))) as Q by (apply sqrt_le_1; lra).
      rewrite sqrt_mult, sqrt_square in Q by lra. exact Q.
    + intros i j Hij Hj. cbn in Hj. assert (i = 0 /\ j = 1)%nat as [-> ->] by lia. unfold frac_apart. cbn [nth lorentz].
      set (x := 2 * PI * cU) in *. assert (0 < x) as Hx by (unfold x; nra).
      unfold Cminus, Cplus, Copp, Cmod. cbn [fst snd].
      replace ((- x + - x) ^ 2 + (- x + x) ^ 2) with ((2 * x) * (2 * x)) by ring.
      replace ((- x + - - x) ^ 2 + (- x + - x) ^ 2) with ((2 * x) * (2 * x)) by ring. rewrite sqrt_square by lra. lra.
    + discriminate.
Qed.
(** the same draws for a ZCARMA(2) process: logit(1/2) instead of the moving average coordinate *)
Definition thK (n : nat) : list R :=
  let c1 := if (n <? 2)%nat then 1 / 1000 else 2 in let c2 := if (S n <? 2)%nat then 1 / 1000 else 50 in
  [sqrt (svar yV / c1 * (3 - 1)); Rmax (Rmin (1 / c2 * 50) (199 / 100)) (51 / 100); smean yV] ++ coded cU cU ++ [ln (1 / 2 / (1 - 1 / 2))].
Example ex_candK n : candidate (R0 := rngU) (kappa_extra (R0 := rngU)) 2 yV (1 / 2) 1 (n, tt) (thK n) (lorentz cU cU) (S (S n), tt).
Proof.
  exists [1 / 3], tt, [1 / 3], tt, [cU], [cU], 0, n, [ln (1 / 2 / (1 - 1 / 2))], n, tt, (if (n <? 2)%nat then 1 / 1000 else 2), (S n), (nth 0 (thK n) 0), (smean yV), (S n), (if (S n <? 2)%nat then 1 / 1000 else 50), (S (S n)).
  split; [repeat econstructor|]. split; [reflexivity|]. split; [apply Permutation_refl|]. split; [intros i j Hi Hj; cbn in Hj; assert (i = 0 /\ j = 0)%nat as [-> ->] by lia; lra|].
  split; [repeat econstructor|]. split; [reflexivity|]. split; [reflexivity|]. split; [reflexivity|].
  split; [exists (1 / 2); split; [cbn; f_equal; f_equal; lra|]; split; [reflexivity|]; split; [lra|reflexivity]|].
  split; [reflexivity|]. split; [cbn; f_equal; f_equal; f_equal; lra|]. split; [reflexivity|]. split; [reflexivity|]. split; [reflexivity|].
  split; reflexivity.
Qed.
(** the object exists *)
Example ex_object : forall si raw, valid_sort_index si -> exists b b1, walker_new (A := AX) si raw 2 false (map Fin tV) (map Fin yV) (map Fin eV) = Ok b /\ SetPrior b (fmul AX (fofZ AX 10) (fsqrt AX (pop_var AX (map Fin yV)))) = Ok b1.
Proof.
  intros si raw Hsi. destruct (@walker_prior si Hsi tV yV eV eq_refl eq_refl tV_inc yV_ne raw 2 false ltac:(lia)) as (b & b1 & s & f & F & E & E1 & _). exists b, b1. split; assumption.
Qed.
(** no candidate of a CAR(2) or CARMA(2,q) model has a repeated root *)
Example ex_nodup : forall (R0 : rng AX) q g th om g', valid_rng R0 -> candidate (R0 := R0) (ma_extra (R0 := R0) q) 2 yV (1 / 2) 1 g th om g' -> NoDup om.
Proof.
  intros R0 q g th om g' HR Hc. pose proof Hc as (u1 & a1 & u2 & a2 & c & w & wl & gb1 & ex & gx & a3 & c1 & gb2 & sd & mu & gb3 & c2 & gb4 & T1 & L1 & P1 & _ & _ & _ & _ & _ & _ & _ & _ & _ & _ & Eo & _).
  destruct u1 as [|u [|u' u1]]; try (cbn in L1; discriminate). cbn [map] in P1. apply Permutation_length_1_inv in P1. subst c.
  assert (0 < u < 1) as Hu by (inversion T1; subst; destruct (vr_randu HR (snd g)) as (x & Q & Hx); rewrite H2 in Q; cbn in Q; injection Q as ->; exact Hx).
  assert (1 / 2 < between (1 / 2) 1 u < 1) as B by (apply between_range; lra). pose proof PI_RGT_0. rewrite Eo. cbn [Nat.odd Nat.even negb seq Nat.div flat_map app nth lorentz].
  constructor; [|constructor; [intros []|constructor]]. intros [Q|[]]. apply (f_equal snd) in Q. cbn in Q. nra.
Qed.
(** two measurements *)
Example ex_two : strictly_increasing [0; 1] /\ (exists a b, In a [0; 1] /\ In b [0; 1] /\ a <> b) /\ moves rngU 5.
Proof.
  split; [intros [|[|i]] [|[|j]] H1 H2; cbn in *; try lia; lra|]. split; [exists 0, 1; cbn; repeat split; [tauto|tauto|lra]|].
  apply moves_student; [exact rngU_valid|lia|]. intros g. cbn. intros Q. injection Q. lra.
Qed.
