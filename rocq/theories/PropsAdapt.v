(** C132: the adaptation of the proposals fades: after k iterations one more changes a proposal covariance by a factor within
    n / k^(2/3) of one, up when the proposal was likelier than 1/4 to be accepted and down otherwise, and no history of a run takes
    the covariance outside explicit multiples of the initial one. *)
From Coq Require Import String.
From Coq Require Import Reals List Arith ZArith Lra Lia Bool.
From Verif Require Import Arith Res ListLemmas KFModel Emb Spec History InitProof SimProof KF1Main KF1More Cx KFpModel KFpProof KFpX KFpMain KFpTop SpecModel CarpackModel RootsProof EngineModel StartModel EngineSpec EngineProof EngineInv CholProof RamProof EngineHist EngineDriver EngineTop EngineAX Start1Proof EngineRuns SeedRefute EngineReal AdaptProof.
From Verif Require PropsEngine.
Import ListNotations.
Local Open Scope R_scope.
Local Notation length := List.length.

(** ** The specification *)
(** the variance that covariance matrix K gives to the combination a of the n parameters *)
Definition variance_along (n : nat) (K : nat -> nat -> R) (a : nat -> R) : R := Rsum (fun i => Rsum (fun j => a i * K i j * a j) n) n.
(** the weight of iteration j: 1, then n / j^(2/3) when that is less *)
Definition weight (n j : nat) : R := match j with O => 1 | _ => Rmin 1 (INR n / Rpower (INR j) (2 / 3)) end.
Fixpoint product (f : nat -> R) (k : nat) : R := match k with O => 1 | S j => product f j * f j end.
Definition narrowest (n k : nat) : R := product (fun j => 1 - weight n j / 4) k.
Definition widest (n k : nat) : R := product (fun j => 1 + 3 * weight n j / 4) k.
(** the covariance matrix that the step proposes with is C *)
Definition proposes_with (n : nat) (r : ram AX) (C : list (list R)) : Prop := GetCovariance r = FinM C /\ CholProof.square n C.

Lemma weight_eta n j : weight n j = eta n j.
Proof. destruct j; reflexivity. Qed.
Lemma narrowest_shrunk n b k : shrunk (1 / 4) n b k = narrowest n (Nat.min k b).
Proof.
  induction k as [|k IH]; [reflexivity|]. cbn [shrunk]. rewrite IH. destruct (Nat.ltb_spec k b) as [H|H].
  - rewrite (Nat.min_l k b), (Nat.min_l (S k) b) by lia. unfold narrowest. cbn [product]. rewrite weight_eta. f_equal. field.
  - rewrite (Nat.min_r k b), (Nat.min_r (S k) b) by lia. apply Rmult_1_r.
Qed.
Lemma widest_grown n b k : grown (1 / 4) n b k = widest n (Nat.min k b).
Proof.
  induction k as [|k IH]; [reflexivity|]. cbn [grown]. rewrite IH. destruct (Nat.ltb_spec k b) as [H|H].
  - rewrite (Nat.min_l k b), (Nat.min_l (S k) b) by lia. unfold widest. cbn [product]. rewrite weight_eta. f_equal. field.
  - rewrite (Nat.min_r k b), (Nat.min_r (S k) b) by lia. apply Rmult_1_r.
Qed.
Lemma good_proposes n t (r : ram AX) : good_ram n t r -> exists C, proposes_with n r C.
Proof. intros H. destruct (good_cov H) as (C & H1 & H2 & _). exists C. split; assumption. Qed.
Lemma proposes_quad n r C a : proposes_with n r C -> mquad n (GetCovariance r) a = variance_along n (rent C) a.
Proof. intros [-> _]. apply mquad_Fin. Qed.

(** One step of AdaptiveMetro with target rate t: up to its last adaptive iteration the variances move towards the target, by no more than the
    weight times the distance of the acceptance probability from the target; afterwards they do not move. *)
Theorem C132_step :
  forall (R0 : rng AX) (X : Type) (P : methodsP R0 X (list (F AX))) (draw : F AX -> gen R0 -> F AX * gen R0) (n : nat) (t : R),
  0 < t < 1 ->
  (forall g, exists u g1, draws n (draw (Fin 0)) g = (map Fin u, g1) /\ nonzero u) ->
  forall (r : ram AX) (w : param AX X (list (F AX))) (g : gen R0) (r' : ram AX) (w' : param AX X (list (F AX))) (g' : gen R0),
  good_ram n t r -> length (w_value w) = n -> ram_step P draw r w g = Ok (r', w', g') ->
  exists (C C' : list (list R)) (alpha : R), proposes_with n r C /\ proposes_with n r' C' /\ r_alpha r' = Fin alpha /\ 0 <= alpha <= 1 /\
  forall a, 
    ((r_niter r < r_maxiter r)%nat ->
      (t <= alpha -> variance_along n (rent C) a <= variance_along n (rent C') a <= (1 + weight n (r_niter r) * (alpha - t)) * variance_along n (rent C) a) /\
      (alpha <= t -> (1 - weight n (r_niter r) * (t - alpha)) * variance_along n (rent C) a <= variance_along n (rent C') a <= variance_along n (rent C) a)) /\
    ((r_maxiter r <= r_niter r)%nat -> variance_along n (rent C') a = variance_along n (rent C) a).
Proof.
  intros R0 X P draw n t Ht Hd r w g r' w' g' Hr Hw E. destruct (good_proposes _ _ _ Hr) as (C & HC).
  assert (good_ram n t r') as Hr'.
  { pose proof Hr as (Hg & Htg & L & HL). destruct (Hd g) as (u & g1 & Eu & Hnz). exact (proj1 (ram_step_vihola R0 X P draw n t r w g u g1 r' w' g' L Ht HL Hg Htg Hw Eu Hnz E)). }
  destruct (good_proposes _ _ _ Hr') as (C' & HC').
  destruct (ram_step_between R0 X P draw n t Ht Hd r w g r' w' g' Hr Hw E) as (_ & _ & alpha & Hal & Hrg & H). exists C, C', alpha.
  split; [exact HC|]. split; [exact HC'|]. split; [exact Hal|]. split; [exact Hrg|]. intros a. rewrite weight_eta, <- (proposes_quad n r C a HC), <- (proposes_quad n r' C' a HC'). exact (H a).
Qed.
Print Assumptions C132_step.

Lemma Forall2_In {X Y} (Q : X -> Y -> Prop) l l' : Forall2 Q l l' -> forall y, In y l' -> exists x, In x l /\ Q x y.
Proof.
  intros H. induction H as [|x y l l' H _ IH]; intros z [].
  - subst z. exists x. split; [left; reflexivity|exact H].
  - destruct (IH _ H0) as (x' & Hx & Hq). exists x'. split; [right; exact Hx|exact Hq].
Qed.
Lemma Forall2_nth {X Y} (Q : X -> Y -> Prop) l l' : Forall2 Q l l' -> forall m x, nth_error l m = Some x -> exists y, nth_error l' m = Some y /\ Q x y.
Proof.
  intros H. induction H as [|x y l l' H _ IH]; intros [|m] z E; cbn in E; try discriminate.
  - injection E as <-. exists y. split; [reflexivity|exact H].
  - exact (IH m z E).
Qed.

(** the run of a chain, given its initial state *)
Section Run.
Variable R0 : rng AX.
Variable X : Type.
Variable P : methodsP R0 X (list (F AX)).
Variable n b : nat.
Variable y : list R.
Variable r : ram AX.
Variable y0 : sys R0 X.
Hypothesis Hmv : moves R0 n.
Hypothesis Hr : proposes_with n r (mbuild n n (pdiag y)).
Hypothesis Hr0 : r_niter r = 0%nat /\ r_maxiter r = b.
Hypothesis Hst : forall i r', In (SRam i r') (y_steps y0) -> r' = r.
Hypothesis Hall : forall k yk, sweeps P (@student_draw AX R0) k y0 yk -> real_state n (1 / 4) (y_pars yk) (y_steps yk).
Lemma real_good k yk : sweeps P (@student_draw AX R0) k y0 yk -> good_state n (1 / 4) (y_pars yk) (y_steps yk).
Proof using Hall. intros H. destruct (Hall k yk H) as [H1 H2]. split; [|exact H2]. exact (Forall_impl _ (@realw_len X n) H1). Qed.
Lemma run_bounded k yk i rk : sweeps P (@student_draw AX R0) k y0 yk -> In (SRam i rk) (y_steps yk) ->
  exists C, proposes_with n rk C /\ forall a,
    narrowest n (Nat.min k b) * variance_along n (pdiag y) a <= variance_along n (rent C) a <= widest n (Nat.min k b) * variance_along n (pdiag y) a.
Proof using Hmv Hr Hr0 Hst Hall.
  intros Hs Hin. destruct (good_proposes _ _ _ (proj2 (real_good _ _ Hs) _ _ Hin)) as (C & HC). exists C. split; [exact HC|]. intros a.
  pose proof (sweeps_drifted R0 X P (@student_draw AX R0) n (1 / 4) ltac:(lra) Hmv k y0 yk Hs (real_good 0 y0 (sw_0 _ _ _))) as F2.
  destruct (Forall2_In _ _ _ F2 _ Hin) as (s & Hs0 & Hd). destruct s as [i0 r0|]; cbn [drifted] in Hd; [|contradiction].
  rewrite (Hst _ _ Hs0) in Hd. destruct Hr0 as [Hn Hm]. destruct Hd as (_ & _ & Hd). destruct (Hd Hn) as [_ Ha]. specialize (Ha a).
  rewrite Hm, narrowest_shrunk, widest_grown, (proposes_quad n rk C a HC), (proposes_quad n r _ a Hr) in Ha.
  assert (variance_along n (rent (mbuild n n (pdiag y))) a = variance_along n (pdiag y) a) as <-; [|exact Ha].
  apply (quad_ext n). intros; apply rent_mbuild; assumption.
Qed.
Lemma run_pass k yk yk1 m i rk : sweeps P (@student_draw AX R0) k y0 yk -> sweeps P (@student_draw AX R0) 1 yk yk1 -> nth_error (y_steps yk) m = Some (SRam i rk) ->
  exists rk1 C C1, nth_error (y_steps yk1) m = Some (SRam i rk1) /\ proposes_with n rk C /\ proposes_with n rk1 C1 /\ forall a,
    ((k < b)%nat -> (1 - weight n k / 4) * variance_along n (rent C) a <= variance_along n (rent C1) a <= (1 + 3 * weight n k / 4) * variance_along n (rent C) a) /\
    ((b <= k)%nat -> variance_along n (rent C1) a = variance_along n (rent C) a).
Proof using Hmv Hr Hr0 Hst Hall.
  intros Hs H1 Hm. inversion H1 as [|m1 q1 ya q2 Hz Ho Em Eq1 Eq2]. assert (ya = yk) as -> by (inversion Hz; reflexivity). clear Hz H1 m1 q1 q2 Em Eq1 Eq2.
  pose proof (real_good _ _ Hs) as Hg. pose proof (sw_S _ Hs Ho) as Hs1. pose proof (real_good _ _ Hs1) as Hg1.
  pose proof (in_order_passed R0 X P (@student_draw AX R0) n (1 / 4) ltac:(lra) Hmv _ _ _ _ _ _ Ho Hg) as F2.
  destruct (Forall2_nth _ _ _ F2 _ _ Hm) as (s1 & Hm1 & Hp). destruct s1 as [i1 rk1|]; cbn [passed] in Hp; [|contradiction]. destruct Hp as (-> & _ & _ & Ha).
  destruct (good_proposes _ _ _ (proj2 Hg _ _ (nth_error_In _ _ Hm))) as (C & HC). destruct (good_proposes _ _ _ (proj2 Hg1 _ _ (nth_error_In _ _ Hm1))) as (C1 & HC1).
  exists rk1, C, C1. split; [exact Hm1|]. split; [exact HC|]. split; [exact HC1|]. intros a. specialize (Ha a).
  rewrite (proposes_quad n rk C a HC), (proposes_quad n rk1 C1 a HC1) in Ha.
  assert (r_niter rk = k /\ r_maxiter rk = b) as [Ek Eb].
  { pose proof (sweeps_drifted R0 X P (@student_draw AX R0) n (1 / 4) ltac:(lra) Hmv k y0 yk Hs (real_good 0 y0 (sw_0 _ _ _))) as F3.
    destruct (Forall2_In _ _ _ F3 _ (nth_error_In _ _ Hm)) as (s & Hs0 & Hd). destruct s as [i0 r0|]; cbn [drifted] in Hd; [|contradiction].
    rewrite (Hst _ _ Hs0) in Hd. destruct Hr0 as [Hn0 Hm0]. destruct Hd as (_ & E2 & Hd). destruct (Hd Hn0) as [E1 _]. split; congruence. }
  rewrite Ek, Eb in Ha. rewrite weight_eta. destruct (Nat.ltb_spec k b) as [Hl|Hl]; split; intros Q; try lia; lra.
Qed.
End Run.
Lemma ram_new_start chol n b (y : list R) a0 r : valid_chol chol -> (exists a b, In a y /\ In b y /\ a <> b) ->
  ram_new chol (prop_covar AX n (map Fin y)) (fdec AX 1 4) b a0 = Ok r -> proposes_with n r (mbuild n n (pdiag y)) /\ r_niter r = 0%nat /\ r_maxiter r = b.
Proof.
  intros Hc Hne E. destruct (@chol_init chol n y Hc Hne) as (L & EL & HL & H1 & H2 & HG). unfold ram_new in E.
  change (list (F AX)) with (list xr) in *. change (F AX) with xr in *. rewrite EL in E. injection E as <-. split; [|split; reflexivity].
  split.
  - etransitivity; [apply (cov_of n _ L); split; [reflexivity|split; [exact HL|split; [exact H1|exact H2]]]|]. f_equal. apply vbuild_ext. intros i Hi. apply vbuild_ext. intros j Hj. apply HG; assumption.
  - split; [apply vbuild_len|]. intros i Hi. unfold mbuild. rewrite vbuild_nth by exact Hi. apply vbuild_len.
Qed.

(** C132, CARMA and ZCARMA runs. *)
Theorem C132_carma :
  forall (R0 : rng AX) (dsort : list (F AX) -> option (list (F AX))) (solve : list (list (cx AX)) -> list (cx AX) -> option (list (cx AX)))
    (si : list (F AX) -> option (list nat)) (chol : mat AX -> option (mat AX)) (t y e : list R) (fuel N burnin p q nw : nat) (z : bool) (thin : nat)
    (init : list R) (raw : kfp AX) (v0 : list (F AX)) (l0 a0 : F AX) (g : gen R0) (w : param AX (base AX (kpx AX)) (list (F AX))) (g' : gen R0),
  let n := walker_dim p q z in
  valid_rng R0 -> moves R0 n -> valid_dsort dsort -> valid_sort_index si -> valid_chol chol ->
  length y = length t -> length e = length t -> strictly_increasing t -> (exists a b, In a y /\ In b y /\ a <> b) ->
  Nat.even p = true \/ (3 <= length t)%nat ->
  RunCarmaSampler dsort solve si chol fuel N burnin (map Fin t) (map Fin y) (map Fin e) p q nw z thin (map Fin init) raw v0 l0 a0 g = Ok (w, g') ->
  exists b r ex label y0,
    begun (walker_par R0 dsort solve fuel p q z) (map Fin init) (walkers b v0 l0 label nw) (hot_steps (nw - 1) r ex ++ [SRam 0 r]) g y0 /\
    recorded (walker_par R0 dsort solve fuel p q z) y0 burnin N thin w g' /\
    forall k yk, sweeps (walker_par R0 dsort solve fuel p q z) (student_draw (R:=R0)) k y0 yk ->
    (forall i rk, In (SRam i rk) (y_steps yk) -> exists C, proposes_with n rk C /\ forall a,
      narrowest n (Nat.min k burnin) * variance_along n (pdiag y) a <= variance_along n (rent C) a <= widest n (Nat.min k burnin) * variance_along n (pdiag y) a) /\
    (forall yk1 m i rk, sweeps (walker_par R0 dsort solve fuel p q z) (student_draw (R:=R0)) 1 yk yk1 -> nth_error (y_steps yk) m = Some (SRam i rk) ->
      exists rk1 C C1, nth_error (y_steps yk1) m = Some (SRam i rk1) /\ proposes_with n rk C /\ proposes_with n rk1 C1 /\ forall a,
      ((k < burnin)%nat -> (1 - weight n k / 4) * variance_along n (rent C) a <= variance_along n (rent C1) a <= (1 + 3 * weight n k / 4) * variance_along n (rent C) a) /\
      ((burnin <= k)%nat -> variance_along n (rent C1) a = variance_along n (rent C) a)).
Proof.
  intros R0 dsort solve si chol t y e fuel N burnin p q nw z thin init raw v0 l0 a0 g w g' n HR Hmv Hds Hsi Hch Hy He Ht Hne Hodd E.
  destruct (RunCarma_inv E) as (_ & _ & _ & _ & _ & _ & Hp & _).
  destruct (walker_prior Hsi Hy He Ht Hne raw z Hp) as (_ & _ & smax & fmin & fmax & _ & _ & _ & HB).
  destruct (carma_real_full HR Hds Hsi Hch Hy He Ht Hne HB Hodd Hmv E) as ((b & r & ex & label & y0 & H1 & H2 & Er & Hall) & _).
  exists b, r, ex, label, y0. split; [exact H1|]. split; [exact H2|]. destruct (ram_new_start _ _ _ _ _ _ Hch Hne Er) as [Hr Hr0].
  assert (forall i r', In (SRam i r') (y_steps y0) -> r' = r) as Hst by (intros i r' Hin; rewrite (proj1 H1) in Hin; exact (steps_adapt Hin)).
  intros k yk Hk. split.
  - intros i rk Hin. exact (run_bounded R0 _ _ n burnin y r y0 Hmv Hr Hr0 Hst Hall k yk i rk Hk Hin).
  - intros yk1 m i rk Hs Hm. exact (run_pass R0 _ _ n burnin y r y0 Hmv Hr Hr0 Hst Hall k yk yk1 m i rk Hk Hs Hm).
Qed.
Print Assumptions C132_carma.

(** C132, CAR(1) runs. *)
Theorem C132_car1 :
  forall (R0 : rng AX) (vsort : list (F AX) -> option (list (F AX))) (si : list (F AX) -> option (list nat)) (chol : mat AX -> option (mat AX)) (t y e : list R)
    (N burnin thin : nat) (init : list R) (raw : kf1 AX) (v0 : list (F AX)) (l0 a0 : F AX) (g : gen R0) (w : param AX (base AX (F AX)) (list (F AX))) (g' : gen R0),
  valid_rng R0 -> moves R0 4 -> valid_vsort vsort -> valid_sort_index si -> valid_chol chol ->
  length y = length t -> length e = length t -> strictly_increasing t -> (exists a b, In a y /\ In b y /\ a <> b) ->
  RunCar1Sampler vsort si chol N burnin (map Fin t) (map Fin y) (map Fin e) thin (map Fin init) raw v0 l0 a0 g = Ok (w, g') ->
  exists b r y0,
    begun (par1 R0 vsort) (map Fin init) [new_param b v0 l0 (fofZ AX 1) true "CAR(1)"] [SRam 0 r] g y0 /\
    recorded (par1 R0 vsort) y0 burnin N thin w g' /\
    forall k yk, sweeps (par1 R0 vsort) (student_draw (R:=R0)) k y0 yk ->
    (forall i rk, In (SRam i rk) (y_steps yk) -> exists C, proposes_with 4 rk C /\ forall a,
      narrowest 4 (Nat.min k burnin) * variance_along 4 (pdiag y) a <= variance_along 4 (rent C) a <= widest 4 (Nat.min k burnin) * variance_along 4 (pdiag y) a) /\
    (forall yk1 m i rk, sweeps (par1 R0 vsort) (student_draw (R:=R0)) 1 yk yk1 -> nth_error (y_steps yk) m = Some (SRam i rk) ->
      exists rk1 C C1, nth_error (y_steps yk1) m = Some (SRam i rk1) /\ proposes_with 4 rk C /\ proposes_with 4 rk1 C1 /\ forall a,
      ((k < burnin)%nat -> (1 - weight 4 k / 4) * variance_along 4 (rent C) a <= variance_along 4 (rent C1) a <= (1 + 3 * weight 4 k / 4) * variance_along 4 (rent C) a) /\
      ((burnin <= k)%nat -> variance_along 4 (rent C1) a = variance_along 4 (rent C) a)).
Proof.
  intros R0 vsort si chol t y e N burnin thin init raw v0 l0 a0 g w g' HR Hmv Hvs Hsi Hch Hy He Ht Hne E.
  destruct (car1_built Hsi Hy He Ht Hne raw) as (b' & fm0 & fM0 & Eb' & Hb' & _).
  destruct (set_prior_built Hy He Ht Hne Hb' eq_refl) as (_ & smax & fmin & fmax & _ & _ & HB).
  destruct (car1_real_full HR Hvs Hsi Hch Hy He Ht Hne HB Hmv E) as (b & r & y0 & w0 & H1 & _ & H2 & Er & Hall & _).
  exists b, r, y0. split; [exact H1|]. split; [exact H2|]. destruct (ram_new_start _ _ _ _ _ _ Hch Hne Er) as [Hr Hr0].
  assert (forall i r', In (SRam i r') (y_steps y0) -> r' = r) as Hst by (intros i r' Hin; rewrite (proj1 H1) in Hin; destruct Hin as [Q|[]]; congruence).
  intros k yk Hk. split.
  - intros i rk Hin. exact (run_bounded R0 _ _ 4 burnin y r y0 Hmv Hr Hr0 Hst Hall k yk i rk Hk Hin).
  - intros yk1 m i rk Hs Hm. exact (run_pass R0 _ _ 4 burnin y r y0 Hmv Hr Hr0 Hst Hall k yk yk1 m i rk Hk Hs Hm).
Qed.
Print Assumptions C132_car1.

Lemma exp_mono x y : x <= y -> exp x <= exp y.
Proof. intros [H| ->]; [left; apply exp_increasing, H|apply Rle_refl]. Qed.
(** C132, the bounds themselves: the weights fade, and the products of k of them are within exponentials of the cube root of k. *)
Theorem C132_bounds : forall n k : nat,
  0 <= weight n k <= 1 /\ weight n (S k) <= INR n / Rpower (INR (S k)) (2 / 3) /\
  exp (- (1 + 3 * INR n * Rpower (INR k) (1 / 3)) / 3) <= narrowest n k <= 1 /\
  1 <= widest n k <= exp (3 * (1 + 3 * INR n * Rpower (INR k) (1 / 3)) / 4).
Proof.
  intros n k. rewrite !weight_eta. split; [apply eta_range|]. split; [apply eta_dim; lia|].
  assert (forall m, exp (- Rsum (eta n) m / 3) <= narrowest n m <= 1 /\ 1 <= widest n m <= exp (3 * Rsum (eta n) m / 4)) as K.
  { induction m as [|m [[I1 I2] [I3 I4]]]; [cbn [Rsum]; unfold narrowest, widest; cbn [product]; replace (-0 / 3) with 0 by lra; replace (3 * 0 / 4) with 0 by lra; rewrite exp_0; lra|].
    pose proof (eta_range n m) as [E0 E1]. unfold narrowest, widest in *. cbn [product Rsum]. rewrite weight_eta.
    pose proof (quarter_exp (eta n m / 4) ltac:(lra)) as Q1. pose proof (exp_ge_1x (3 * eta n m / 4)) as Q2.
    pose proof (exp_pos (- Rsum (eta n) m / 3)) as X1. pose proof (exp_pos (- (4 / 3 * (eta n m / 4)))) as X2.
    replace (- (Rsum (eta n) m + eta n m) / 3) with (- Rsum (eta n) m / 3 + - (4 / 3 * (eta n m / 4))) by field.
    replace (3 * (Rsum (eta n) m + eta n m) / 4) with (3 * Rsum (eta n) m / 4 + 3 * eta n m / 4) by field. rewrite !exp_plus.
    set (A := product _ m) in *. set (B := product (fun j => 1 + _) m) in *. split; split.
    - apply Rmult_le_compat; lra.
    - apply (Rle_trans _ (1 * 1)); [apply Rmult_le_compat; lra|lra].
    - apply (Rle_trans _ (1 * 1)); [lra|apply Rmult_le_compat; lra].
    - apply Rmult_le_compat; lra. }
  destruct (K k) as [[K1 K2] [K3 K4]]. pose proof (eta_sum_all n k) as S. split; split; try assumption.
  - refine (Rle_trans _ _ _ _ K1). apply exp_mono. lra.
  - apply (Rle_trans _ _ _ K4). apply exp_mono. lra.
Qed.
Print Assumptions C132_bounds.

(** ** The hypotheses are met *)
(** a CARMA(2,1) run of three chains: a state after 12 passes, 4 of them adapting *)
Example C132_carma_hypotheses_met : exists ds sv si ch (raw : kfp AX) w g' y0 y12,
  RunCarmaSampler (A := AX) (R := rngV 1) ds sv si ch 1 5 4 (map Fin PropsEngine.tX) (map Fin PropsEngine.yX) (map Fin [1; 1; 1]) 2 1 3 false 2 (map Fin PropsEngine.thX) raw (map Fin [0; 0; 0; 0; 0; 0]) (Fin 0) (Fin 0) (tt, true) = Ok (w, g') /\
  sweeps (walker_par (rngV 1) ds sv 1 2 1 false) (student_draw (R:=rngV 1)) 12 y0 y12 /\
  forall i rk, In (SRam i rk) (y_steps y12) -> exists C, proposes_with 6 rk C /\ forall a,
    narrowest 6 4 * variance_along 6 (pdiag PropsEngine.yX) a <= variance_along 6 (rent C) a <= widest 6 4 * variance_along 6 (pdiag PropsEngine.yX) a.
Proof.
  destruct PropsEngine.ex_run as (ds & sv & si & ch & raw & w & g' & Hds & Hsv & Hsi & Hch & Hmv & E & _). destruct PropsEngine.ex_tX as [Ht Hne].
  destruct (C132_carma (rngV 1) ds sv si ch PropsEngine.tX PropsEngine.yX [1; 1; 1] 1%nat 5%nat 4%nat 2%nat 1%nat 3%nat false 2%nat PropsEngine.thX raw
    (map Fin [0; 0; 0; 0; 0; 0]) (Fin 0) (Fin 0) (tt, true) w g' (rngV_valid 1) Hmv Hds Hsi Hch eq_refl eq_refl Ht Hne (or_introl eq_refl) E)
    as (b & r & ex & label & y0 & _ & (_ & _ & Hrec & _) & H).
  destruct (Hrec 3%nat ltac:(lia)) as (y12 & _ & Hs & _). exists ds, sv, si, ch, raw, w, g', y0, y12. split; [exact E|]. split; [exact Hs|]. exact (proj1 (H 12%nat y12 Hs)).
Qed.
