(** C131: MetropStep with each of the proposals of proposals.hpp that are not adaptive: the step, and the distribution it leaves
    unchanged.  [metro_next ell T odds x y t] (MetropStat.v) is y if the uniform number t is below min(1, odds exp((ell y - ell x)/T)),
    else x; [tempered T (ell x)] is exp(ell(x)/T), zero where ell is not finite; [line], [plane], [space], [space2] are improper
    Riemann integrals over the line, over pairs of numbers, over vectors and over pairs of vectors. *)
From Coq Require Import Reals List Arith ZArith Bool Lra Lia.
From Coquelicot Require Import Coquelicot.
From Verif Require Import Arith Res ListLemmas Spec Gauss Emb Cx KFpProof EngineModel EngineSpec EngineProof EngineInv CholProof RamProof EngineHist Balance ProposalProof Stationary RandModel GaussInt MetropStat PropsStat.
Import ListNotations.
Local Open Scope R_scope.
Local Notation length := List.length.

(** C131: the normal density integrates to one and is even. *)
Theorem C131_normal_density : line normal_density 1 /\ (forall z, normal_density (- z) = normal_density z) /\ (forall z, normal_density z = exp (- (z ^ 2) / 2) / sqrt (2 * PI)).
Proof. exact (Logic.conj normal_density_one (Logic.conj normal_density_even (fun z => eq_refl))). Qed.
Print Assumptions C131_normal_density.

(** C131: a step with a NormalProposal or StudentProposal; z is the unit variate, with any even density q (by the previous theorem the
    normal one is such a density; for Student's t with 8 degrees of freedom see C117_unit_density). *)
Theorem C131_shift : forall (ell : R -> xr) (T s : R) (q f : R -> R) (m v : R), 0 < T -> (forall z, q (- z) = q z) -> line q 1 ->
  line (fun x => tempered T (ell x) * f x) m ->
  plane (fun x z => tempered T (ell x) * q z * @RInt R_CompleteNormedModule (fun t => f (metro_next ell T 1 x (x + s * z) t)) 0 1) v ->
  v = m.
Proof. exact shift_stationary. Qed.
Print Assumptions C131_shift.
Theorem C131_normal_step : forall (R0 : rng AX) (X : Type) (P : methodsP R0 X (F AX)) (unit : Gb R0 -> R * Gb R0) (ell : R -> xr) (T s : R) (m : metrop AX) (w : param AX X (F AX)) (g : gen R0)
    (x uu : R) (g2 : gen R0) (o : X) (m' : metrop AX) (w' : param AX X (F AX)) (g' : gen R0),
  normals_from unit -> 0 < T -> 0 < s -> 0 <= uu -> w_value w = Fin x -> w_logpost w = ell x -> w_temp w = Fin T ->
  let z := fst (unit (fst g)) in
  o_LogDensity P (w_obj w) (Fin (x + s * z)) = Ok (ell (x + s * z), o) ->
  @runiform AX R0 (Fin 0) (Fin 1) (snd (unit (fst g)), snd g) = (Fin uu, g2) ->
  metrop_step P (fun v g => let (y, g') := normal_draw (A := AX) (R := R0) (Fin s) v g in Ok (y, tt, g')) (fun _ _ new old => symmetric_logdens AX new old) m w g = Ok (m', w', g') ->
  w_value w' = Fin (metro_next ell T 1 x (x + s * z) uu).
Proof. exact @normal_step_code. Qed.
Print Assumptions C131_normal_step.
Theorem C131_student_step : forall (R0 : rng AX) (X : Type) (P : methodsP R0 X (F AX)) (ell : R -> xr) (T dof s z : R) (m : metrop AX) (w : param AX X (F AX)) (g : gen R0)
    (gb : Gb R0) (x uu : R) (g2 : gen R0) (o : X) (m' : metrop AX) (w' : param AX X (F AX)) (g' : gen R0),
  b_student R0 (Fin dof) (fst g) = (Fin z, gb) -> 0 < T -> 0 <= uu -> w_value w = Fin x -> w_logpost w = ell x -> w_temp w = Fin T ->
  o_LogDensity P (w_obj w) (Fin (x + s * z)) = Ok (ell (x + s * z), o) ->
  @runiform AX R0 (Fin 0) (Fin 1) (gb, snd g) = (Fin uu, g2) ->
  metrop_step P (fun v g => let (y, g') := tdist (A := AX) (R := R0) (Fin dof) v (Fin s) g in Ok (y, tt, g')) (fun _ _ new old => symmetric_logdens AX new old) m w g = Ok (m', w', g') ->
  w_value w' = Fin (metro_next ell T 1 x (x + s * z) uu).
Proof. exact @student_step_code. Qed.
Print Assumptions C131_student_step.

(** C131: a step with a LogNormalProposal; the ratio of the proposal densities q(x|y)/q(y|x) is y/x = exp(s z). *)
Theorem C131_scale : forall (ell : R -> xr) (T s : R) (q f : R -> R) (m v : R), 0 < T -> (forall z, q (- z) = q z) -> line q 1 ->
  line (fun x => tempered T (ell x) * f x) m ->
  plane (fun x z => tempered T (ell x) * q z * @RInt R_CompleteNormedModule (fun t => f (metro_next ell T (exp (s * z)) x (x * exp (s * z)) t)) 0 1) v ->
  v = m.
Proof. exact scale_stationary. Qed.
Print Assumptions C131_scale.
Theorem C131_lognormal_step : forall (R0 : rng AX) (X : Type) (P : methodsP R0 X (F AX)) (unit : Gb R0 -> R * Gb R0) (ell : R -> xr) (T s : R) (m : metrop AX) (w : param AX X (F AX)) (g : gen R0)
    (x uu : R) (g2 : gen R0) (o : X) (m' : metrop AX) (w' : param AX X (F AX)) (g' : gen R0),
  normals_from unit -> 0 < T -> 0 < s -> 0 <= uu -> 0 < x -> w_value w = Fin x -> w_logpost w = ell x -> w_temp w = Fin T ->
  let z := fst (unit (fst g)) in
  o_LogDensity P (w_obj w) (Fin (x * exp (s * z))) = Ok (ell (x * exp (s * z)), o) ->
  @runiform AX R0 (Fin 0) (Fin 1) (snd (unit (fst g)), snd g) = (Fin uu, g2) ->
  metrop_step P (fun v g => let (y, g') := lognormal_draw (A := AX) (R := R0) (Fin s) v g in Ok (y, tt, g')) (fun _ _ new old => lognormal_logdens AX new old) m w g = Ok (m', w', g') ->
  w_value w' = Fin (metro_next ell T (exp (s * z)) x (x * exp (s * z)) uu).
Proof. exact @lognormal_step_code2. Qed.
Print Assumptions C131_lognormal_step.

(** C131: a step of a vector parameter with a MultiNormalProposal; the unit variates u have the product of normal densities and
    [jump n L x u] is x + L^T u with the upper triangular root L of the covariance matrix that arma::chol returns. *)
Theorem C131_vector : forall (n : nat) (ell : list R -> xr) (L : list (list R)) (T : R) (f : list R -> R) (m v : R), 0 < T ->
  space n (fun x => tempered T (ell x) * f x) m ->
  space2 n n (fun x u => tempered T (ell x) * mvnormal_density u * @RInt R_CompleteNormedModule (fun t => f (metro_next ell T 1 x (jump n L x u) t)) 0 1) v ->
  v = m.
Proof. exact mv_stationary. Qed.
Print Assumptions C131_vector.
Theorem C131_vector_density : forall n : nat, space n mvnormal_density 1 /\ (forall u, mvnormal_density u = fold_right Rmult 1 (map (fun z => exp (- (z ^ 2) / 2) / sqrt (2 * PI)) u)).
Proof. exact (fun n => Logic.conj (mvnormal_density_one n) (fun u => eq_refl)). Qed.
Print Assumptions C131_vector_density.
Theorem C131_vector_step : forall (R0 : rng AX) (X : Type) (P : methodsP R0 X (list (F AX))) (chol : mat AX -> option (mat AX)) (covar : mat AX) (n : nat) (M : mat AX) (L : list (list R))
    (ell : list R -> xr) (T : R) (u : list R) (m : metrop AX) (w : param AX X (list (F AX))) (g g1 : gen R0) (x : list R) (uu : R) (g2 : gen R0) (o : X) (m' : metrop AX)
    (w' : param AX X (list (F AX))) (g' : gen R0),
  chol covar = Some M -> length covar = n -> good_chol n M L ->
  draws n (rnorm (A := AX) (R := R0) (Fin 0) (Fin 1)) g = (map Fin u, g1) -> length u = n ->
  0 < T -> 0 <= uu -> length x = n -> w_value w = map Fin x -> w_logpost w = ell x -> w_temp w = Fin T ->
  o_LogDensity P (w_obj w) (map Fin (jump n L x u)) = Ok (ell (jump n L x u), o) ->
  @runiform AX R0 (Fin 0) (Fin 1) g1 = (Fin uu, g2) ->
  metrop_step P (fun v g => '(y, g') <- mvnormal_draw (A := AX) (R := R0) chol covar v g ;; Ok (y, tt, g')) (fun _ _ new old => Fin 0) m w g = Ok (m', w', g') ->
  w_value w' = map Fin (metro_next ell T 1 x (jump n L x u) uu).
Proof. exact @mvnormal_step_code. Qed.
Print Assumptions C131_vector_step.

(** ** The hypotheses are met *)
(** a density constant on [1, 2], moves of either kind, and the mean *)
Definition on12 (x : R) : xr := if Rle_dec 1 x then if Rle_dec x 2 then Fin 0 else NInf else NInf.
Lemma on12_in x : 1 <= x <= 2 -> on12 x = Fin 0.
Proof. intros H. unfold on12. destruct (Rle_dec 1 x); [|lra]. destruct (Rle_dec x 2); [reflexivity|lra]. Qed.
Lemma on12_out x : x < 1 \/ 2 < x -> on12 x = NInf.
Proof. intros H. unfold on12. destruct (Rle_dec 1 x); [|reflexivity]. destruct (Rle_dec x 2); [lra|reflexivity]. Qed.
Lemma tempered0 : tempered 1 (Fin 0) = 1.
Proof. cbn. replace (0 / 1) with 0 by field. apply exp_0. Qed.
Lemma mean12 : line (fun x => tempered 1 (on12 x) * x) (3 / 2).
Proof.
  apply (@compact_line 1 2); [lra| | |].
  - intros x Hx. rewrite on12_out by lra. cbn. ring.
  - intros x Hx. rewrite on12_out by lra. cbn. ring.
  - pose proof (int_id 1 2 0) as Q. replace ((2 * 2 - 1 * 1) / 2 + 0 * (2 - 1)) with (3 / 2) in Q by field.
    refine (is_RInt_ext _ _ _ _ _ _ Q). intros x. rewrite Rmin_left, Rmax_right by lra. intros Hx. rewrite on12_in, tempered0 by lra. req. ring.
Qed.
Lemma mean12_next odds x y : 0 < odds -> 1 <= x <= 2 -> @eq R (@RInt R_CompleteNormedModule (fun t => metro_next on12 1 odds x y t) 0 1)
  (if Rle_dec 1 y then if Rle_dec y 2 then Rmin 1 odds * y + (1 - Rmin 1 odds) * x else x else x).
Proof.
  intros Ho Hx. etransitivity; [exact (@metro_mean R (fun v => v) on12 1 odds x y Ho)|]. rewrite (on12_in x) by lra. unfold on12.
  destruct (Rle_dec 1 y); [destruct (Rle_dec y 2)|]; cbn [metro_prob]; try ring. replace ((0 - 0) / 1) with 0 by field. rewrite exp_0, Rmult_1_r. reflexivity.
Qed.
(** a move x -> k x + c that meets [1, 2] in [lo, hi], accepted with probability a *)
Lemma part12 (a k c lo hi : R) : 1 <= lo <= hi -> hi <= 2 ->
  is_RInt (fun x => if Rle_dec lo x then if Rle_dec x hi then a * (k * x + c) + (1 - a) * x else x else x) 1 2
    (3 / 2 + a * ((k - 1) * (hi * hi - lo * lo) / 2 + c * (hi - lo))).
Proof.
  intros H1 H2. pose proof (int_id 1 lo 0) as Q1. pose proof (int_id hi 2 0) as Q3.
  pose proof (is_RInt_plus (V := R_NormedModule) _ _ _ _ _ _ (int_id lo hi 0)
    (is_RInt_plus (V := R_NormedModule) _ _ _ _ _ _ (is_RInt_scal (V := R_NormedModule) _ _ _ (a * (k - 1)) _ (int_id lo hi 0)) (is_RInt_const (V := R_NormedModule) lo hi (a * c)))) as Q2.
  set (h := fun x => if Rle_dec lo x then if Rle_dec x hi then a * (k * x + c) + (1 - a) * x else x else x).
  apply (is_RInt_ext _ h) in Q1. 2:{ intros x. rewrite Rmin_left, Rmax_right by lra. intros Hx. unfold h. destruct (Rle_dec lo x); [lra|req; ring]. }
  apply (is_RInt_ext _ h) in Q3. 2:{ intros x. rewrite Rmin_left, Rmax_right by lra. intros Hx. unfold h. destruct (Rle_dec lo x); [|lra]. destruct (Rle_dec x hi); [lra|req; ring]. }
  apply (is_RInt_ext _ h) in Q2. 2:{ intros x. rewrite Rmin_left, Rmax_right by lra. intros Hx. unfold h, plus, scal; cbn; unfold mult; cbn. destruct (Rle_dec lo x); [|lra]. destruct (Rle_dec x hi); [req; ring|lra]. }
  refine (eq_ind _ (fun w => is_RInt h 1 2 w) (is_RInt_Chasles _ _ _ _ _ _ Q1 (is_RInt_Chasles _ _ _ _ _ _ Q2 Q3)) _ _).
  unfold plus, scal; cbn; unfold mult; cbn; req. field.
Qed.
Definition piece (Z : R) (D1 D2 : R -> R) (z : R) : R := if Rle_dec (- Z) z then if Rle_dec z 0 then D1 z else if Rle_dec z Z then D2 z else 0 else 0.
Lemma normal_density_cont z : continuous normal_density z.
Proof.
  apply (ex_derive_continuous (V := R_NormedModule)). unfold normal_density. auto_derive. pose proof PI_RGT_0. pose proof (sqrt_lt_R0 (2 * PI) ltac:(lra)). exact I || lra.
Qed.
Lemma outer12 Z D1 D2 : 0 < Z -> (forall z, continuous D1 z) -> (forall z, continuous D2 z) -> exists v, line (fun z => normal_density z * (3 / 2 + piece Z D1 D2 z)) v.
Proof.
  intros HZ C1 C2.
  assert (exists w1, is_RInt (fun z => normal_density z * D1 z) (- Z) 0 w1) as [w1 H1].
  { apply (ex_RInt_continuous (V := R_CompleteNormedModule)). intros z _. apply (continuous_mult (K := R_AbsRing)); [apply normal_density_cont|apply C1]. }
  assert (exists w2, is_RInt (fun z => normal_density z * D2 z) 0 Z w2) as [w2 H2].
  { apply (ex_RInt_continuous (V := R_CompleteNormedModule)). intros z _. apply (continuous_mult (K := R_AbsRing)); [apply normal_density_cont|apply C2]. }
  set (h := fun z => normal_density z * piece Z D1 D2 z).
  apply (is_RInt_ext _ h) in H1. 2:{ intros z. rewrite Rmin_left, Rmax_right by lra. intros Hz. unfold h, piece. destruct (Rle_dec (- Z) z); [|lra]. destruct (Rle_dec z 0); [reflexivity|lra]. }
  apply (is_RInt_ext _ h) in H2. 2:{ intros z. rewrite Rmin_left, Rmax_right by lra. intros Hz. unfold h, piece. destruct (Rle_dec (- Z) z); [|lra]. destruct (Rle_dec z 0); [lra|]. destruct (Rle_dec z Z); [reflexivity|lra]. }
  assert (line h (plus w1 w2)) as L2.
  { apply (@compact_line (- Z) Z); [lra| | |].
    - intros z Hz. unfold h, piece. destruct (Rle_dec (- Z) z); [lra|ring].
    - intros z Hz. unfold h, piece. destruct (Rle_dec (- Z) z); [|ring]. destruct (Rle_dec z 0); [lra|]. destruct (Rle_dec z Z); [lra|ring].
    - exact (is_RInt_Chasles _ _ _ _ _ _ H1 H2). }
  exists (3 / 2 * 1 - -1 * plus w1 w2). refine (line_ext _ (line_minus (line_scal (k := 3 / 2) normal_density_one) (line_scal (k := -1) L2))).
  intros z. unfold h. ring.
Qed.
Lemma inner12 (k c D : R) : 0 < k ->
  is_RInt (fun x => if Rle_dec 1 (k * x + c) then if Rle_dec (k * x + c) 2 then Rmin 1 k * (k * x + c) + (1 - Rmin 1 k) * x else x else x) 1 2 (3 / 2 + D) ->
  forall q, line (fun x => tempered 1 (on12 x) * q * @RInt R_CompleteNormedModule (fun t => metro_next on12 1 k x (k * x + c) t) 0 1) (q * (3 / 2 + D)).
Proof.
  intros Hk H q. apply (@compact_line 1 2); [lra| | |].
  - intros x Hx. rewrite on12_out by lra. cbn. ring.
  - intros x Hx. rewrite on12_out by lra. cbn. ring.
  - refine (is_RInt_ext _ _ _ _ _ _ (is_RInt_scal (V := R_NormedModule) _ _ _ q _ H)). intros x. rewrite Rmin_left, Rmax_right by lra. intros Hx.
    rewrite mean12_next by lra. rewrite on12_in, tempered0 by lra. unfold scal; cbn; unfold mult; cbn. req. ring.
Qed.
Lemma none12 (k c : R) : (forall x, 1 < x < 2 -> k * x + c < 1 \/ 2 < k * x + c) ->
  is_RInt (fun x => if Rle_dec 1 (k * x + c) then if Rle_dec (k * x + c) 2 then Rmin 1 k * (k * x + c) + (1 - Rmin 1 k) * x else x else x) 1 2 (3 / 2 + 0).
Proof.
  intros H. refine (eq_ind _ (fun w => is_RInt _ 1 2 w) (is_RInt_ext _ _ _ _ _ _ (int_id 1 2 0)) _ _); [|req; field].
  intros x. rewrite Rmin_left, Rmax_right by lra. intros Hx. specialize (H x Hx). destruct (Rle_dec 1 (k * x + c)); [|req; ring]. destruct (Rle_dec (k * x + c) 2); [lra|req; ring].
Qed.
Lemma some12 (a k c lo hi : R) : 1 <= lo <= hi -> hi <= 2 -> a = Rmin 1 k -> (forall x, 1 < x < 2 -> (1 <= k * x + c <-> lo <= x)) -> (forall x, 1 < x < 2 -> (k * x + c <= 2 <-> x <= hi)) ->
  is_RInt (fun x => if Rle_dec 1 (k * x + c) then if Rle_dec (k * x + c) 2 then Rmin 1 k * (k * x + c) + (1 - Rmin 1 k) * x else x else x) 1 2
    (3 / 2 + a * ((k - 1) * (hi * hi - lo * lo) / 2 + c * (hi - lo))).
Proof.
  intros H1 H2 -> Hl Hh. refine (is_RInt_ext _ _ _ _ _ _ (part12 (Rmin 1 k) k c lo hi H1 H2)). intros x. rewrite Rmin_left, Rmax_right by lra. intros Hx.
  specialize (Hl x Hx). specialize (Hh x Hx).
  destruct (Rle_dec lo x), (Rle_dec 1 (k * x + c)); try tauto. destruct (Rle_dec x hi), (Rle_dec (k * x + c) 2); tauto.
Qed.
(** the two moves with the normal density for z *)
Example C131_shift_hypotheses_met : line (fun x => tempered 1 (on12 x) * x) (3 / 2) /\
  exists v, plane (fun x z => tempered 1 (on12 x) * normal_density z * @RInt R_CompleteNormedModule (fun t => metro_next on12 1 1 x (x + 1 * z) t) 0 1) v.
Proof.
  split; [exact mean12|].
  destruct (outer12 1 (fun z => z * (1 + z)) (fun z => z * (1 - z))) as [v Hv]; [lra| | |].
  1,2: intros z; apply (ex_derive_continuous (V := R_NormedModule)); auto_derive; exact I.
  exists v. exists (fun z => normal_density z * (3 / 2 + piece 1 (fun z => z * (1 + z)) (fun z => z * (1 - z)) z)). split; [|exact Hv].
  intros z. refine (line_ext _ (inner12 1 (1 * z) _ Rlt_0_1 _ (normal_density z))); [intros x; rewrite (Rmult_1_l x); reflexivity|].
  unfold piece. assert (1 = Rmin 1 1) as Hm by (rewrite Rmin_left; lra). destruct (Rle_dec (- (1)) z); [|apply none12; intros; lra].
  destruct (Rle_dec z 0); [|destruct (Rle_dec z 1); [|apply none12; intros; lra]].
  - refine (eq_ind _ (fun w => is_RInt _ 1 2 w) (some12 1 1 (1 * z) (1 - z) 2 _ _ Hm _ _) _ _); try lra; intros; split; lra.
  - refine (eq_ind _ (fun w => is_RInt _ 1 2 w) (some12 1 1 (1 * z) 1 (2 - z) _ _ Hm _ _) _ _); try lra; intros; split; lra.
Qed.
Example C131_scale_hypotheses_met : line (fun x => tempered 1 (on12 x) * x) (3 / 2) /\
  exists v, plane (fun x z => tempered 1 (on12 x) * normal_density z * @RInt R_CompleteNormedModule (fun t => metro_next on12 1 (exp (1 * z)) x (x * exp (1 * z)) t) 0 1) v.
Proof.
  split; [exact mean12|].
  assert (0 < ln 2) as HZ by (rewrite <- ln_1; apply ln_increasing; lra).
  set (D1 := fun z => exp z * ((exp z - 1) * (4 - / exp z * / exp z) / 2)). set (D2 := fun z => (exp z - 1) * (4 * (/ exp z * / exp z) - 1) / 2).
  assert (forall z, continuous D1 z) as C1.
  { intros z. pose proof (exp_pos z). apply (ex_derive_continuous (V := R_NormedModule)). unfold D1. auto_derive. repeat split; lra. }
  assert (forall z, continuous D2 z) as C2.
  { intros z. pose proof (exp_pos z). apply (ex_derive_continuous (V := R_NormedModule)). unfold D2. auto_derive. repeat split; lra. }
  destruct (outer12 (ln 2) D1 D2 HZ C1 C2) as [v Hv].
  exists v. exists (fun z => normal_density z * (3 / 2 + piece (ln 2) D1 D2 z)). split; [|exact Hv].
  intros z. rewrite (Rmult_1_l z). pose proof (exp_pos z) as Hk.
  refine (line_ext _ (inner12 (exp z) 0 _ Hk _ (normal_density z))); [intros x; replace (exp z * x + 0) with (x * exp z) by ring; reflexivity|].
  unfold piece. set (k := exp z) in *.
  assert (- ln 2 <= z -> / 2 <= k) as B1. { intros H. unfold k. rewrite <- (exp_ln 2) by lra. rewrite <- exp_Ropp. destruct H as [H| <-]; [left; apply exp_increasing, H|right; reflexivity]. }
  assert (z < - ln 2 -> k < / 2) as B2. { intros H. unfold k. rewrite <- (exp_ln 2) by lra. rewrite <- exp_Ropp. apply exp_increasing, H. }
  assert (z <= 0 -> k <= 1) as B3. { intros H. unfold k. rewrite <- exp_0. destruct H as [H| ->]; [left; apply exp_increasing, H|right; reflexivity]. }
  assert (0 < z -> 1 < k) as B4. { intros H. unfold k. rewrite <- exp_0. apply exp_increasing, H. }
  assert (z <= ln 2 -> k <= 2) as B5. { intros H. unfold k. rewrite <- (exp_ln 2) by lra. destruct H as [H| ->]; [left; apply exp_increasing, H|right; reflexivity]. }
  assert (ln 2 < z -> 2 < k) as B6. { intros H. unfold k. rewrite <- (exp_ln 2) by lra. apply exp_increasing, H. }
  destruct (Rle_dec (- ln 2) z) as [H1|H1]; [|apply none12; intros x Hx; left; specialize (B2 ltac:(lra)); nra].
  destruct (Rle_dec z 0) as [H2|H2]; [|destruct (Rle_dec z (ln 2)) as [H3|H3]; [|apply none12; intros x Hx; right; specialize (B6 ltac:(lra)); nra]].
  - specialize (B1 H1). specialize (B3 H2).
    assert (1 <= / k <= 2) as Hi. { split; [rewrite <- Rinv_1; apply Rinv_le_contravar; lra|]. rewrite <- (Rinv_inv 2). apply Rinv_le_contravar; lra. }
    assert (k * / k = 1) as Hki by (field; lra).
    refine (eq_ind _ (fun w => is_RInt _ 1 2 w) (some12 k k 0 (/ k) 2 _ _ _ _ _) _ _); try lra.
    + rewrite Rmin_right; lra.
    + intros x Hx. split; intros Q; nra.
    + intros x Hx. split; intros Q; nra.
    + unfold D1. fold k. req. field. lra.
  - assert (0 < z) as Hz by lra. specialize (B4 Hz). specialize (B5 H3).
    assert (1 <= 2 / k <= 2) as Hi. { split; [apply (Rmult_le_reg_r k); [lra|]; unfold Rdiv; rewrite Rmult_assoc, Rinv_l by lra; lra|]. apply (Rmult_le_reg_r k); [lra|]. unfold Rdiv. rewrite Rmult_assoc, Rinv_l by lra. lra. }
    assert (k * (2 / k) = 2) as Hki by (field; lra).
    refine (eq_ind _ (fun w => is_RInt _ 1 2 w) (some12 1 k 0 1 (2 / k) _ _ _ _ _) _ _); try lra.
    + rewrite Rmin_left; lra.
    + intros x Hx. split; intros Q; nra.
    + intros x Hx. split; intros Q; nra.
    + unfold D2. fold k. req. field. lra.
Qed.
(** a generator with the unit variate 1, and a parameter with this density: the steps return *)
Definition rngU : rng AX := @mkRng AX unit unit (fun _ => tt) (fun _ _ g => (Fin (1 / 2), g)) (fun lo _ g => (lo, g)) (fun m s g => (fadd AX m (fmul AX s (Fin 1)), g))
  (fun _ g => (Fin 1, g)) (fun _ g => (Fin 1, g)) (fun m s g => (fexp AX (fadd AX m (fmul AX s (Fin 1))), g)) (fun g => (Fin (1 / 2), g)) (fun g => (Fin 1, g)).
Definition parU : methodsP rngU unit (F AX) :=
  @mkP AX rngU unit (F AX) (fun o v => Ok (match (v : xr) with Fin r => on12 r | _ => NaN end, o)) (fun o g => Ok (Fin (3 / 2), o, g)) (fun o v g => Ok (v, o, g)) (fun _ _ => Ok (Fin 0)).
Definition parV : methodsP rngU unit (list (F AX)) :=
  @mkP AX rngU unit (list (F AX)) (fun o v => Ok (match (v : list xr) with Fin r :: _ => on12 r | _ => NaN end, o)) (fun o g => Ok ([Fin (3 / 2)], o, g)) (fun o v g => Ok (v, o, g)) (fun _ _ => Ok (Fin 0)).
Lemma step_returns V (P : methodsP rngU unit V) (draw : V -> gen rngU -> res (V * unit * gen rngU)) qld m (w : param AX unit V) g :
  (exists y g1, draw (w_value w) g = Ok (y, tt, g1)) -> (forall o v, exists l, o_LogDensity P o v = Ok (l, o)) -> exists m' w' g', metrop_step P draw qld m w g = Ok (m', w', g').
Proof.
  intros (y & g1 & Hd) HL. unfold metrop_step. rewrite Hd. cbn [bind].
  assert (exists b m1 w1 g2, metrop_accept P (qld tt) m w y (w_value w) g1 = Ok (b, m1, w1, g2)) as (b & m1 & w1 & g2 & ->).
  { unfold metrop_accept, LD. destruct (HL (w_obj w) y) as [l ->]. cbn [bind]. destruct (negb _); [do 4 eexists; reflexivity|]. destruct (runiform _ _ _). do 4 eexists. reflexivity. }
  cbn [bind].
  assert (exists w2, (if b then Save P w1 y else Ok w1) = Ok w2) as [w2 ->].
  { destruct b; [|eexists; reflexivity]. unfold Save. destruct (HL (w_obj w1) y) as [l ->]. eexists. reflexivity. }
  cbn [bind]. destruct (Z.eqb _ _); do 3 eexists; reflexivity.
Qed.
Example C131_step_hypotheses_met : @normals_from rngU (fun g => (1, g)) /\
  (forall (dof : R) g, b_student rngU (Fin dof) g = (Fin 1, g)) /\
  @runiform AX rngU (Fin 0) (Fin 1) (tt, tt) = (Fin (1 / 2), (tt, tt)) /\
  (forall v, o_LogDensity parU tt (Fin v) = Ok (on12 v, tt)) /\
  (forall m (w : param AX unit (F AX)), w_value w = Fin (3 / 2) -> exists m' w' g',
     metrop_step parU (fun v g => let (y, g') := lognormal_draw (A := AX) (R := rngU) (Fin 1) v g in Ok (y, tt, g')) (fun _ _ new old => lognormal_logdens AX new old) m w (tt, tt) = Ok (m', w', g')) /\
  (forall m (w : param AX unit (F AX)), w_value w = Fin (3 / 2) -> exists m' w' g',
     metrop_step parU (fun v g => let (y, g') := normal_draw (A := AX) (R := rngU) (Fin 1) v g in Ok (y, tt, g')) (fun _ _ new old => symmetric_logdens AX new old) m w (tt, tt) = Ok (m', w', g')) /\
  good_chol 1 (FinM [[2]]) [[2]] /\ draws 1 (rnorm (A := AX) (R := rngU) (Fin 0) (Fin 1)) (tt, tt) = (map Fin [1], (tt, tt)) /\
  (forall m (w : param AX unit (list (F AX))), w_value w = map Fin [3 / 2] -> exists m' w' g',
     metrop_step parV (fun v g => '(y, g') <- mvnormal_draw (A := AX) (R := rngU) (fun _ => Some (FinM [[2]])) (FinM [[4]]) v g ;; Ok (y, tt, g')) (fun _ _ new old => Fin 0) m w (tt, tt) = Ok (m', w', g')).
Proof.
  split; [intros mu s g Hs; split; reflexivity|]. split; [reflexivity|]. split; [reflexivity|]. split; [reflexivity|].
  split; [|split; [|split; [|split]]].
  - intros m w Hw. apply step_returns; [do 2 eexists; rewrite Hw; reflexivity|]. intros [] v. eexists. reflexivity.
  - intros m w Hw. apply step_returns; [do 2 eexists; rewrite Hw; reflexivity|]. intros [] v. eexists. reflexivity.
  - split; [reflexivity|]. split; [split; [reflexivity|intros [|i] H; cbn; try lia; reflexivity]|]. split; [intros [|i] [|j] H1 H2; cbn; try lia|intros [|i] H; cbn; try lia; lra].
  - cbn. unfold rnorm, on_b. cbn. do 3 f_equal. ring.
  - intros m w Hw. apply step_returns; [do 2 eexists; rewrite Hw; reflexivity|]. intros [] v. eexists. reflexivity.
Qed.
Example C131_vector_hypotheses_met : let ell := fun x => on12 (ex_f x) in space 1 (fun x => tempered 1 (ell x) * ex_f x) (3 / 2) /\
  exists v, space2 1 1 (fun x u => tempered 1 (ell x) * mvnormal_density u * @RInt R_CompleteNormedModule (fun t => ex_f (metro_next ell 1 1 x (jump 1 [[1]] x u) t)) 0 1) v.
Proof.
  intros ell. split; [cbn [space]; eexists; split; [reflexivity|exact mean12]|].
  destruct C131_shift_hypotheses_met as (_ & v & E & H1 & H2). exists v. exists (fun u => E (ex_f u)). split.
  - intros [|u [|? ?]] Hu; try discriminate. cbn [space ex_f]. eexists. split; [reflexivity|]. refine (line_ext _ (H1 u)). intros x. unfold mvnormal_density. cbn [map fold_right].
    rewrite !Rmult_1_r. unfold ell. cbn [ex_f]. f_equal. apply RInt_ext. intros t _. rewrite ex_jump. unfold metro_next. cbn [ex_f]. rewrite (Rmult_1_l u). destruct (Rlt_dec _ _); reflexivity.
  - cbn [space ex_f]. eexists. split; [reflexivity|exact H2].
Qed.
