(** MetropStep with the normal, Student's t, log-normal and multivariate normal proposals: what a step does, and the distribution it
    leaves unchanged, with the integrals of Stationary.v. *)
From Coq Require Import Reals List Arith ZArith Bool Lra Lia.
From Coquelicot Require Import Coquelicot.
From Verif Require Import Arith Res ListLemmas Spec Gauss Emb Cx KFpProof EngineModel EngineSpec EngineProof EngineInv CholProof RamProof EngineHist Balance ProposalProof Stationary RandModel GaussInt.
Import ListNotations.

Set Implicit Arguments.
Unset Strict Implicit.
Local Open Scope R_scope.
Local Notation length := List.length.

(** ** The step (specification) *)
(** the integral over the plane: first over x, then over z *)
Definition plane (h : R -> R -> R) (v : R) : Prop := exists E, (forall z, line (fun x => h x z) (E z)) /\ line E v.
(** the new value when y is proposed from x and [odds] is the ratio of the proposal densities q(x|y) / q(y|x): accept with probability
    min(1, odds exp((ell y - ell x)/T)), never when the log-density is not finite *)
Definition metro_prob (T odds : R) (lx ly : xr) : R := match lx, ly with Fin a, Fin b => Rmin 1 (odds * exp ((b - a) / T)) | _, _ => 0 end.
Definition metro_next {V} (ell : V -> xr) (T odds : R) (x y : V) (t : R) : V := if Rlt_dec t (metro_prob T odds (ell x) (ell y)) then y else x.

(** ** Stationarity *)
Lemma metro_prob_range T odds lx ly : 0 < odds -> 0 <= metro_prob T odds lx ly <= 1.
Proof.
  intros Ho. unfold metro_prob. destruct lx as [a| | |], ly as [b| | |]; try lra. split; [|apply Rmin_l].
  apply Rmin_glb; [lra|]. left. apply Rmult_lt_0_compat; [exact Ho|apply exp_pos].
Qed.
Lemma metro_balance T odds lx ly : 0 < T -> 0 < odds -> tempered T lx * metro_prob T odds lx ly = tempered T ly * metro_prob T (/ odds) ly lx * odds.
Proof.
  intros HT Ho. unfold tempered, metro_prob. destruct lx as [a| | |], ly as [b| | |]; try ring.
  assert (exp ((b - a) / T) = exp (b / T) * / exp (a / T)) as ->. { rewrite <- exp_Ropp, <- exp_plus. f_equal. field. lra. }
  assert (exp ((a - b) / T) = exp (a / T) * / exp (b / T)) as ->. { rewrite <- exp_Ropp, <- exp_plus. f_equal. field. lra. }
  pose proof (exp_pos (a / T)) as Ha. pose proof (exp_pos (b / T)) as Hb. set (ea := exp (a / T)) in *. set (eb := exp (b / T)) in *.
  assert (ea * Rmin 1 (odds * (eb * / ea)) = Rmin ea (odds * eb)) as ->.
  { unfold Rmin. destruct (Rle_dec 1 _) as [H|H], (Rle_dec ea _) as [K|K]; try lra.
    - exfalso. apply K. apply (Rmult_le_compat_l ea) in H; [|lra]. replace (ea * (odds * (eb * / ea))) with (odds * eb) in H by (field; lra). lra.
    - exfalso. apply H. apply (Rmult_le_reg_l ea); [exact Ha|]. replace (ea * (odds * (eb * / ea))) with (odds * eb) by (field; lra). lra.
    - field. lra. }
  unfold Rmin. destruct (Rle_dec ea _) as [K|K], (Rle_dec 1 _) as [H|H]; try lra.
  - apply (Rmult_le_compat_l (odds * eb)) in H; [|left; apply Rmult_lt_0_compat; assumption]. replace (odds * eb * (/ odds * (ea * / eb))) with ea in H by (field; lra). lra.
  - field. lra.
  - exfalso. apply H. apply (Rmult_le_reg_l (odds * eb)); [apply Rmult_lt_0_compat; assumption|]. replace (odds * eb * (/ odds * (ea * / eb))) with ea by (field; lra). lra.
Qed.
Lemma metro_mean V (f : V -> R) ell T odds x y : 0 < odds ->
  RInt (fun t => f (metro_next ell T odds x y t)) 0 1 = metro_prob T odds (ell x) (ell y) * f y + (1 - metro_prob T odds (ell x) (ell y)) * f x.
Proof.
  intros Ho. rewrite <- RInt_choice by (apply metro_prob_range, Ho). apply RInt_ext. intros t _. unfold metro_next. destruct (Rlt_dec _ _); reflexivity.
Qed.

Lemma line_opp g v : line g v -> line (fun x => g (- x)) v.
Proof.
  intros H. pose proof (@line_affine g v (-1) 0 ltac:(lra) H) as H'. clear H; rename H' into H. rewrite Rabs_left in H by lra. replace (v / - -1) with v in H by field.
  apply (line_ext (g1 := fun x => g (-1 * x + 0))); [|exact H]. intros x. f_equal. ring.
Qed.
Lemma plane_unique h v w : plane h v -> plane h w -> v = w.
Proof. intros (E & H1 & H2) (E' & K1 & K2). apply (line_unique (g := E) H2). apply (line_ext (g1 := E')); [|exact K2]. intros z. exact (line_unique (K1 z) (H1 z)). Qed.
Lemma plane_ext h1 h2 v : (forall x z, h1 x z = h2 x z) -> plane h1 v -> plane h2 v.
Proof. intros H (E & H1 & H2). exists E. split; [|exact H2]. intros z. apply (line_ext (g1 := fun x => h1 x z)); [intros; apply H|apply H1]. Qed.
Lemma plane_minus h1 h2 v1 v2 : plane h1 v1 -> plane h2 v2 -> plane (fun x z => h1 x z - h2 x z) (v1 - v2).
Proof. intros (E & H1 & H2) (E' & K1 & K2). exists (fun z => E z - E' z). split; [intros z; apply line_minus; auto|apply line_minus; assumption]. Qed.
Lemma plane_opp h v : plane h v -> plane (fun x z => - h x z) (- v).
Proof.
  intros (E & H1 & H2). exists (fun z => - E z). split.
  - intros z. apply (line_ext (g1 := fun x => -1 * h x z)); [intros; ring|]. replace (- E z) with (-1 * E z) by ring. apply line_scal, H1.
  - apply (line_ext (g1 := fun x => -1 * E x)); [intros; ring|]. replace (- v) with (-1 * v) by ring. apply line_scal, H2.
Qed.
(** the reversed move: from k(z) x + c(z) with the number -z *)
Lemma plane_rev (k c : R -> R) h v : (forall z, 0 < k z) -> plane h v -> plane (fun x z => h (k z * x + c z) (- z) * k z) v.
Proof.
  intros Hk (E & H1 & H2). exists (fun z => E (- z)). split; [|apply line_opp, H2].
  intros z. pose proof (Hk z) as Hz. pose proof (@line_affine (fun x => h x (- z)) (E (- z)) (k z) (c z) ltac:(lra) (H1 (- z))) as Q. apply (line_scal (k := k z)) in Q.
  rewrite Rabs_right in Q by lra. replace (k z * (E (- z) / k z)) with (E (- z)) in Q by (field; lra).
  apply (line_ext (g1 := fun x => k z * h (k z * x + c z) (- z))); [intros; ring|exact Q].
Qed.
Theorem metro_stationary (k c : R -> R) (ell : R -> xr) T (q : R -> R) f m v : 0 < T -> (forall z, 0 < k z) -> (forall z, k (- z) = / k z) -> (forall z, c (- z) = - (c z / k z)) ->
  (forall z, q (- z) = q z) -> line q 1 ->
  line (fun x => tempered T (ell x) * f x) m ->
  plane (fun x z => tempered T (ell x) * q z * RInt (fun t => f (metro_next ell T (k z) x (k z * x + c z) t)) 0 1) v ->
  v = m.
Proof.
  intros HT Hk Hki Hc Hq Hq1 Hm Hv.
  assert (plane (fun x z => tempered T (ell x) * q z * f x) m) as Hm2.
  { exists (fun z => q z * m). split.
    - intros z. apply (line_ext (g1 := fun x => q z * (tempered T (ell x) * f x))); [intros; ring|]. apply line_scal, Hm.
    - pose proof (line_scal (k := m) Hq1) as Q. rewrite Rmult_1_r in Q. apply (line_ext (g1 := fun z => m * q z)); [intros; ring|exact Q]. }
  pose proof (plane_minus Hv Hm2) as D. pose proof (plane_rev (k := k) c Hk D) as D'. cbv beta in D'. pose proof (plane_opp D) as Do. cbv beta in Do.
  enough (v - m = - (v - m)) by lra.
  apply (plane_unique D'). refine (plane_ext _ Do). clear D D' Do Hv Hm Hm2 Hq1. intros x z. pose proof (Hk z) as Hz.
  rewrite !metro_mean by apply Hk. rewrite Hq, Hki, Hc.
  assert (/ k z * (k z * x + c z) + - (c z / k z) = x) as -> by (field; lra).
  pose proof (metro_balance (ell x) (ell (k z * x + c z)) HT Hz) as B.
  set (y := k z * x + c z) in *. set (a := metro_prob T (k z) _ _) in *. set (a' := metro_prob T (/ k z) _ _) in *.
  transitivity (tempered T (ell x) * a * (q z * (f x - f y))); [ring|]. rewrite B. ring.
Qed.

(** ** MultiNormalProposal *)
Definition mvnormal_density (u : list R) : R := fold_right Rmult 1 (map normal_density u).
Lemma mvnormal_density_one n : space n mvnormal_density 1.
Proof.
  induction n as [|k IH]; cbn [space]; [reflexivity|]. exists (fun x => normal_density x * 1). split.
  - intros x. apply (space_ext (f1 := fun xs => normal_density x * mvnormal_density xs)); [reflexivity|]. apply space_scal, IH.
  - apply (line_ext (g1 := normal_density)); [intros; ring|apply normal_density_one].
Qed.
Lemma normal_density_even z : normal_density (- z) = normal_density z.
Proof. unfold normal_density. replace ((- z) ^ 2) with (z ^ 2) by ring. reflexivity. Qed.
Lemma mvnormal_density_even u : mvnormal_density (ropp u) = mvnormal_density u.
Proof.
  unfold mvnormal_density, ropp. induction u as [|z r IH]; [reflexivity|]. cbn [map fold_right]. rewrite IH. f_equal.
  replace (-1 * z) with (- z) by ring || idtac. apply normal_density_even.
Qed.
Theorem mv_stationary n (ell : list R -> xr) L T f m v : 0 < T ->
  space n (fun x => tempered T (ell x) * f x) m ->
  space2 n n (fun x u => tempered T (ell x) * mvnormal_density u * RInt (fun t => f (metro_next ell T 1 x (jump n L x u) t)) 0 1) v ->
  v = m.
Proof.
  intros HT Hm Hv.
  assert (space2 n n (fun x u => tempered T (ell x) * mvnormal_density u * f x) m) as Hm2.
  { exists (fun u => mvnormal_density u * m). split.
    - intros u _. apply (space_ext (f1 := fun x => mvnormal_density u * (tempered T (ell x) * f x))); [intros; ring|]. apply space_scal, Hm.
    - pose proof (space_scal m (mvnormal_density_one n)) as Q. rewrite Rmult_1_r in Q. apply (space_ext (f1 := fun u => m * mvnormal_density u)); [intros; ring|exact Q]. }
  pose proof (space2_minus Hv Hm2) as D. pose proof (space2_rev L D) as D'. cbv beta in D'. pose proof (space2_opp D) as Do. cbv beta in Do.
  enough (v - m = - (v - m)) by lra.
  apply (space2_unique D'). refine (space2_ext _ Do). clear D D' Do Hv Hm Hm2. intros x u Hx Hu.
  rewrite !metro_mean by lra. rewrite (jump_back _ _ Hx), mvnormal_density_even.
  pose proof (metro_balance (ell x) (ell (jump n L x u)) HT Rlt_0_1) as B. rewrite Rinv_1 in B.
  set (y := jump n L x u) in *. set (a := metro_prob T 1 (ell x) _) in *. set (a' := metro_prob T 1 (ell y) _) in *.
  transitivity (tempered T (ell x) * a * (mvnormal_density u * (f x - f y))); [ring|]. rewrite B. ring.
Qed.

(** ** Corollaries for the proposals of proposals.hpp *)
(** NormalProposal and StudentProposal: y = x + s z *)
Theorem shift_stationary (ell : R -> xr) T s (q : R -> R) f m v : 0 < T -> (forall z, q (- z) = q z) -> line q 1 ->
  line (fun x => tempered T (ell x) * f x) m ->
  plane (fun x z => tempered T (ell x) * q z * RInt (fun t => f (metro_next ell T 1 x (x + s * z) t)) 0 1) v ->
  v = m.
Proof.
  intros HT Hq Hq1 Hm Hv. refine (@metro_stationary (fun _ => 1) (fun z => s * z) ell T q f m v HT _ _ _ Hq Hq1 Hm _).
  - intros; lra.
  - intros; rewrite Rinv_1; reflexivity.
  - intros; field.
  - refine (plane_ext _ Hv). intros x z. rewrite Rmult_1_l. reflexivity.
Qed.
(** LogNormalProposal: y = x exp(s z); the densities of the two moves have the ratio y / x = exp(s z) *)
Theorem scale_stationary (ell : R -> xr) T s (q : R -> R) f m v : 0 < T -> (forall z, q (- z) = q z) -> line q 1 ->
  line (fun x => tempered T (ell x) * f x) m ->
  plane (fun x z => tempered T (ell x) * q z * RInt (fun t => f (metro_next ell T (exp (s * z)) x (x * exp (s * z)) t)) 0 1) v ->
  v = m.
Proof.
  intros HT Hq Hq1 Hm Hv. refine (@metro_stationary (fun z => exp (s * z)) (fun z => 0) ell T q f m v HT _ _ _ Hq Hq1 Hm _).
  - intros; apply exp_pos.
  - intros z. rewrite <- exp_Ropp. f_equal. ring.
  - intros z. unfold Rdiv. rewrite Rmult_0_l. ring.
  - refine (plane_ext _ Hv). intros x z. replace (exp (s * z) * x + 0) with (x * exp (s * z)) by ring. reflexivity.
Qed.

(** ** The code *)
Section Code.
Variables (R0 : rng AX) (X : Type).
(** normal_distribution(mu, s) returns mu + s z, and lognormal_distribution(mu, s) exp(mu + s z), with the unit variate z drawn from
    the engine (boost/random/normal_distribution.hpp, lognormal_distribution.hpp) *)
Definition normals_from (unit : Gb R0 -> R * Gb R0) : Prop := forall mu s g, 0 < s ->
  b_normal R0 (Fin mu) (Fin s) g = (Fin (mu + s * fst (unit g)), snd (unit g)) /\
  b_lognormal R0 (Fin mu) (Fin s) g = (Fin (exp (mu + s * fst (unit g))), snd (unit g)).

Lemma metro_code V (P : methodsP R0 X V) Q (draw : V -> gen R0 -> res (V * Q * gen R0)) (qld : Q -> param AX X V -> V -> V -> xr) m (w : param AX X V) g new q0 g1 (lx ly : xr) T o uu g2 (c1 c2 : R) m' w' g' :
  0 < T -> 0 <= uu -> draw (w_value w) g = Ok (new, q0, g1) -> o_LogDensity P (w_obj w) new = Ok (ly, o) ->
  w_logpost w = lx -> w_temp w = Fin T -> @runiform AX R0 (Fin 0) (Fin 1) g1 = (Fin uu, g2) ->
  qld q0 (set_obj w o) (w_value w) new = Fin c1 -> qld q0 (set_obj w o) new (w_value w) = Fin c2 ->
  metrop_step P draw qld m w g = Ok (m', w', g') ->
  w_value w' = if Rlt_dec uu (metro_prob T (exp (c1 - c2)) lx ly) then new else w_value w.
Proof.
  intros HT Hu Hd HL Hlx HTw Hun H1 H2 E. pose proof (metrop_step_decides Hu Hd HL Hun E) as K. cbv zeta in K. rewrite Hlx, HTw, H1, H2 in K.
  assert (macc (xsub (xadd (xsub (xdiv ly (Fin T)) (xdiv lx (Fin T))) (Fin c1)) (Fin c2)) = metro_prob T (exp (c1 - c2)) lx ly) as Em.
  { 
    destruct lx as [a| | |], ly as [b| | |]; rewrite ?fin_div by lra; cbn [xdiv]; try (unfold rsgn; destruct (Rlt_dec T 0); [lra|]; destruct (Rlt_dec 0 T); [|lra]); try reflexivity.
    cbn [xsub xadd macc metro_prob]. rewrite <- exp_plus. f_equal. f_equal. field. lra. }
  rewrite Em in K. destruct (Rlt_dec uu _); [exact (proj1 K)|]. rewrite K. reflexivity.
Qed.

Theorem normal_step_code (P : methodsP R0 X (F AX)) unit (ell : R -> xr) T s m (w : param AX X (F AX)) g x uu g2 o m' w' g' :
  normals_from unit -> 0 < T -> 0 < s -> 0 <= uu -> w_value w = Fin x -> w_logpost w = ell x -> w_temp w = Fin T ->
  let z := fst (unit (fst g)) in
  o_LogDensity P (w_obj w) (Fin (x + s * z)) = Ok (ell (x + s * z), o) ->
  @runiform AX R0 (Fin 0) (Fin 1) (snd (unit (fst g)), snd g) = (Fin uu, g2) ->
  metrop_step P (fun v g => let (y, g') := normal_draw (R := R0) (Fin s) v g in Ok (y, tt, g')) (fun _ _ new old => symmetric_logdens AX new old) m w g = Ok (m', w', g') ->
  w_value w' = Fin (metro_next ell T 1 x (x + s * z) uu).
Proof.
  intros HN HT Hs Hu Hv Hlx HTw z HL Hun E. destruct (HN x s (fst g) Hs) as [Hb _]. fold z in Hb.
  assert ((fun v g => let (y, g') := normal_draw (R := R0) (Fin s) v g in Ok (y, tt, g')) (w_value w) g = Ok (Fin (x + s * z), tt, (snd (unit (fst g)), snd g))) as Hd.
  { cbv beta. rewrite Hv. unfold normal_draw, rnorm, on_b. rewrite Hb. reflexivity. }
  pose proof (metro_code (draw := fun v g => let (y, g') := normal_draw (R := R0) (Fin s) v g in Ok (y, tt, g')) (c1 := 0) (c2 := 0) HT Hu Hd HL Hlx HTw Hun eq_refl eq_refl E) as K.
  rewrite K, Rminus_0_r, exp_0; clear K. unfold metro_next. destruct (Rlt_dec _ _); [reflexivity|exact Hv].
Qed.
Theorem lognormal_step_code2 (P : methodsP R0 X (F AX)) unit (ell : R -> xr) T s m (w : param AX X (F AX)) g x uu g2 o m' w' g' :
  normals_from unit -> 0 < T -> 0 < s -> 0 <= uu -> 0 < x -> w_value w = Fin x -> w_logpost w = ell x -> w_temp w = Fin T ->
  let z := fst (unit (fst g)) in
  o_LogDensity P (w_obj w) (Fin (x * exp (s * z))) = Ok (ell (x * exp (s * z)), o) ->
  @runiform AX R0 (Fin 0) (Fin 1) (snd (unit (fst g)), snd g) = (Fin uu, g2) ->
  metrop_step P (fun v g => let (y, g') := lognormal_draw (R := R0) (Fin s) v g in Ok (y, tt, g')) (fun _ _ new old => lognormal_logdens AX new old) m w g = Ok (m', w', g') ->
  w_value w' = Fin (metro_next ell T (exp (s * z)) x (x * exp (s * z)) uu).
Proof.
  intros HN HT Hs Hu Hx Hv Hlx HTw z HL Hun E. destruct (HN (ln x) s (fst g) Hs) as [_ Hb]. fold z in Hb. rewrite exp_plus, exp_ln in Hb by exact Hx.
  assert (0 < x * exp (s * z)) as Hy by (apply Rmult_lt_0_compat; [exact Hx|apply exp_pos]).
  assert ((fun v g => let (y, g') := lognormal_draw (R := R0) (Fin s) v g in Ok (y, tt, g')) (w_value w) g = Ok (Fin (x * exp (s * z)), tt, (snd (unit (fst g)), snd g))) as Hd.
  { cbv beta. rewrite Hv. unfold lognormal_draw, rlognormal, on_b. cbn [flog AX]. rewrite fin_log by exact Hx. rewrite Hb. reflexivity. }
  assert (forall (a : R) (b : xr), 0 < a -> lognormal_logdens AX (Fin a) b = Fin (- ln a)) as Hq.
  { intros a b Ha. unfold lognormal_logdens. cbn [flog fmul fneg fofZ AX]. rewrite fin_log by exact Ha. cbn [xneg xmul]. f_equal. ring. }
  pose proof (metro_code (draw := fun v g => let (y, g') := lognormal_draw (R := R0) (Fin s) v g in Ok (y, tt, g')) (qld := fun _ _ new old => lognormal_logdens AX new old)
    (c1 := - ln x) (c2 := - ln (x * exp (s * z))) HT Hu Hd HL Hlx HTw Hun (eq_trans (f_equal (fun v => lognormal_logdens AX v _) Hv) (Hq x _ Hx)) (Hq _ _ Hy) E) as K.
  rewrite K; clear K. rewrite ln_mult, ln_exp by (try apply exp_pos; exact Hx). replace (- ln x - - (ln x + s * z)) with (s * z) by ring.
  unfold metro_next. destruct (Rlt_dec _ _); [reflexivity|exact Hv].
Qed.
Theorem student_step_code (P : methodsP R0 X (F AX)) (ell : R -> xr) T dof s z m (w : param AX X (F AX)) g gb x uu g2 o m' w' g' :
  b_student R0 (Fin dof) (fst g) = (Fin z, gb) -> 0 < T -> 0 <= uu -> w_value w = Fin x -> w_logpost w = ell x -> w_temp w = Fin T ->
  o_LogDensity P (w_obj w) (Fin (x + s * z)) = Ok (ell (x + s * z), o) ->
  @runiform AX R0 (Fin 0) (Fin 1) (gb, snd g) = (Fin uu, g2) ->
  metrop_step P (fun v g => let (y, g') := tdist (R := R0) (Fin dof) v (Fin s) g in Ok (y, tt, g')) (fun _ _ new old => symmetric_logdens AX new old) m w g = Ok (m', w', g') ->
  w_value w' = Fin (metro_next ell T 1 x (x + s * z) uu).
Proof.
  intros Hb HT Hu Hv Hlx HTw HL Hun E.
  assert ((fun v g => let (y, g') := tdist (R := R0) (Fin dof) v (Fin s) g in Ok (y, tt, g')) (w_value w) g = Ok (Fin (x + s * z), tt, (gb, snd g))) as Hd.
  { cbv beta. rewrite Hv. unfold tdist, on_b. rewrite Hb. reflexivity. }
  pose proof (metro_code (draw := fun v g => let (y, g') := tdist (R := R0) (Fin dof) v (Fin s) g in Ok (y, tt, g')) (c1 := 0) (c2 := 0) HT Hu Hd HL Hlx HTw Hun eq_refl eq_refl E) as K.
  rewrite K, Rminus_0_r, exp_0; clear K. unfold metro_next. destruct (Rlt_dec _ _); [reflexivity|exact Hv].
Qed.
(** MetropStep<arma::vec> with MultiNormalProposal: arma::chol returns an upper triangular root L of the covariance matrix *)
Theorem mvnormal_step_code (P : methodsP R0 X (list (F AX))) chol covar n M L (ell : list R -> xr) T u m (w : param AX X (list (F AX))) g g1 x uu g2 o m' w' g' :
  chol covar = Some M -> length covar = n -> good_chol n M L ->
  draws n (rnorm (R := R0) (Fin 0) (Fin 1)) g = (map Fin u, g1) -> length u = n ->
  0 < T -> 0 <= uu -> length x = n -> w_value w = map Fin x -> w_logpost w = ell x -> w_temp w = Fin T ->
  o_LogDensity P (w_obj w) (map Fin (jump n L x u)) = Ok (ell (jump n L x u), o) ->
  @runiform AX R0 (Fin 0) (Fin 1) g1 = (Fin uu, g2) ->
  metrop_step P (fun v g => '(y, g') <- mvnormal_draw (R := R0) chol covar v g ;; Ok (y, tt, g')) (fun _ _ new old => Fin 0) m w g = Ok (m', w', g') ->
  w_value w' = map Fin (metro_next ell T 1 x (jump n L x u) uu).
Proof.
  intros Hc Hn (EL & HS & _) Hdr Hul HT Hu Hx Hv Hlx HTw HL Hun E.
  assert ((fun v g => '(y, g') <- mvnormal_draw (R := R0) chol covar v g ;; Ok (y, tt, g')) (w_value w) g = Ok (map Fin (jump n L x u), tt, g1)) as Hd.
  { cbv beta. rewrite Hv. unfold mvnormal_draw, mvnormal. rewrite Hc, Hn. change (fofZ AX 0) with (Fin 0). change (fofZ AX 1) with (Fin 1). rewrite Hdr.
    assert (mtmul (A := AX) M (map Fin u) = Ok (map Fin (rtmul n L u))) as Em.
    { etransitivity; [exact (f_equal (fun M => mtmul (A := AX) M (map Fin u)) EL)|]. apply mtmul_Fin; assumption. }
    refine (eq_trans (f_equal (fun r => bind (bind (bind r _) _) _) Em) _). cbn [bind].
    refine (eq_trans (f_equal (fun r => bind (bind r _) _) (@vadd_Fin x (rtmul n L u) _)) _); [rewrite Hx; unfold rtmul; rewrite vbuild_len; reflexivity|]. reflexivity. }
  pose proof (metro_code (draw := fun v g => '(y, g') <- mvnormal_draw (R := R0) chol covar v g ;; Ok (y, tt, g')) (c1 := 0) (c2 := 0) HT Hu Hd HL Hlx HTw Hun eq_refl eq_refl E) as K.
  rewrite K, Rminus_0_r, exp_0; clear K. unfold metro_next. destruct (Rlt_dec _ _); [reflexivity|exact Hv].
Qed.
End Code.
