(** C117: the tempered posteriors are stationary under the steps of the sampler, with actual integrals over the state and the random
    numbers of a step ([line], [space], [space2] of Stationary.v: iterated improper Riemann integrals).
    [tempered T (ell x)] is the density exp(ell(x)/T) of the chain at temperature T, zero where the log-density ell is not finite;
    [ram_next], [exch_next] and [stretch_next] are the states after a step of the code (C36_ram_next_code, C38_exch_next_code, C45_stretch_step). *)
From Coq Require Import Reals List Arith ZArith Bool Lra Lia.
From Coquelicot Require Import Coquelicot.
From Verif Require Import Arith Res ListLemmas Spec Gauss Emb Cx KFpProof EngineModel EngineSpec EngineProof EngineInv CholProof RamProof EngineHist Balance ProposalProof Stationary.
Import ListNotations.
Local Open Scope R_scope.
Local Notation length := List.length.

(** C117: a step of AdaptiveMetro with the proposal scale L, from a state with the tempered posterior as its (unnormalised) law: the
    expectation of any f after the step is the one before it. *)
Theorem C117_ram : forall (n : nat) (ell : list R -> xr) (L : list (list R)) (T : R) (f : list R -> R) (m v : R), 0 < T ->
  space n (fun x => tempered T (ell x) * f x) m ->
  space2 n n (fun x u => tempered T (ell x) * unit_density u * @RInt R_CompleteNormedModule (fun t => f (ram_next n ell L T x u t)) 0 1) v ->
  v = m.
Proof. exact ram_stationary. Qed.
Print Assumptions C117_ram.

(** C117: [unit_density] is a probability density: Student's t with 8 degrees of freedom in each of the n components. *)
Theorem C117_unit_density : forall n : nat, space n unit_density 1 /\
  (forall u : list R, length u = n -> 0 < unit_density u /\ unit_density u = fold_right Rmult 1 (map (fun z => Rpower (1 + z * z / 8) (- (9 / 2)) / (sqrt 8 * (32 / 35))) u)).
Proof.
  intros n. split; [apply unit_density_one|]. intros u _. pose proof t8_mass_pos as Hp.
  assert (forall u, unit_density u = fold_right Rmult 1 (map (fun z => Rpower (1 + z * z / 8) (- (9 / 2)) / (sqrt 8 * (32 / 35))) u)) as E.
  { induction u0 as [|z r IH].
    - unfold unit_density, student8. cbn. field.
    - cbn [map fold_right]. rewrite <- IH. unfold unit_density, student8. cbn [map fold_right List.length pow]. fold t8_mass. field. split; [apply pow_nonzero|]; lra. }
  split; [|apply E]. rewrite E. induction u as [|z r IH]; [cbn; lra|]. cbn [map fold_right]. apply Rmult_lt_0_compat; [|exact IH].
  apply Rdiv_lt_0_compat; [apply exp_pos|exact Hp].
Qed.
Print Assumptions C117_unit_density.

(** C117: an exchange of two chains whose joint law is the product of their tempered posteriors. *)
Theorem C117_exchange : forall (n : nat) (ell : list R -> xr) (Tw To : R) (f : list R * list R -> R) (m v : R), 0 < Tw -> 0 < To ->
  both n (fun x y => tempered Tw (ell x) * tempered To (ell y) * f (x, y)) m ->
  both n (fun x y => tempered Tw (ell x) * tempered To (ell y) * @RInt R_CompleteNormedModule (fun t => f (exch_next ell Tw To x y t)) 0 1) v ->
  v = m.
Proof. exact exch_stationary. Qed.
Print Assumptions C117_exchange.

(** C117: a stretch move of a walker with the partner c, the scale z having the density 1/sqrt z on [1/a, a]. *)
Theorem C117_stretch : forall (c : list R) (ell : list R -> xr) (T a : R) (f : list R -> R) (m : R) (E : R -> R), 0 < T -> 1 < a ->
  space (length c) (fun x => tempered T (ell x) * f x) m ->
  (forall z, / a <= z <= a -> space (length c) (fun x => tempered T (ell x) * @RInt R_CompleteNormedModule (fun t => f (stretch_next c ell T x z t)) 0 1) (E z)) ->
  (forall z, / a <= z <= a -> continuous E z) ->
  is_RInt (fun z => scale_density a z * E z) (/ a) a m.
Proof. exact stretch_stationary. Qed.
Print Assumptions C117_stretch.
Theorem C117_scale_density : forall a : R, 1 < a -> is_RInt (scale_density a) (/ a) a 1 /\ (forall z, 0 < z -> scale_density a z = / sqrt z / (2 * (sqrt a - sqrt (/ a)))).
Proof.
  intros a Ha. split; [apply scale_density_one, Ha|]. intros z Hz. unfold scale_density, gz. rewrite Rpower_Ropp. replace (1 / 2) with (/ 2) by lra.
  rewrite Rpower_sqrt by exact Hz. reflexivity.
Qed.
Print Assumptions C117_scale_density.

(** ** The hypotheses are met: the uniform distribution on [0, 1], and the mean *)
Definition ex_box (x : list R) : xr := match x with [a] => if Rle_dec 0 a then if Rle_dec a 1 then Fin 0 else NInf else NInf | _ => NInf end.
Definition ex_f (x : list R) : R := match x with a :: _ => a | [] => 0 end.

Ltac req := match goal with |- @eq _ ?a ?b => change (@eq R a b) end.
Lemma compact_line lo hi g v : lo <= hi -> (forall x, x < lo -> g x = 0) -> (forall x, hi < x -> g x = 0) -> is_RInt g lo hi v -> line g v.
Proof.
  intros Hlh H0 H1 H. apply line_char. intros eps He. exists lo, hi. intros a b Ha Hb. exists v. split; [|rewrite Rminus_eq_0, Rabs_R0; exact He].
  assert (is_RInt g a lo 0) as I1.
  { apply (is_RInt_ext (fun _ => 0)); [|pose proof (is_RInt_const (V := R_NormedModule) a lo 0) as Q; unfold scal in Q; cbn in Q; unfold mult in Q; cbn in Q; rewrite Rmult_0_r in Q; exact Q].
    intros x. rewrite Rmin_left, Rmax_right by lra. intros Hx. symmetry. apply H0. lra. }
  assert (is_RInt g hi b 0) as I2.
  { apply (is_RInt_ext (fun _ => 0)); [|pose proof (is_RInt_const (V := R_NormedModule) hi b 0) as Q; unfold scal in Q; cbn in Q; unfold mult in Q; cbn in Q; rewrite Rmult_0_r in Q; exact Q].
    intros x. rewrite Rmin_left, Rmax_right by lra. intros Hx. symmetry. apply H1. lra. }
  pose proof (is_RInt_Chasles _ _ _ _ _ _ (is_RInt_Chasles _ _ _ _ _ _ I1 H) I2) as Q.
  refine (eq_ind _ (fun w => is_RInt g a b w) Q _ _). unfold plus; cbn; req; ring.
Qed.
Lemma int_id a b c : is_RInt (fun x => x + c) a b ((b * b - a * a) / 2 + c * (b - a)).
Proof.
  replace ((b * b - a * a) / 2 + c * (b - a)) with (minus (b * b / 2 + c * b) (a * a / 2 + c * a)) by (unfold minus, plus, opp; cbn; field).
  refine (is_RInt_derive (V := R_CompleteNormedModule) (fun x => x * x / 2 + c * x) _ a b _ _); intros x _.
  - auto_derive; [exact I|field].
  - apply (ex_derive_continuous (V := R_NormedModule)). auto_derive. exact I.
Qed.
Lemma ex_box_in x : 0 <= x <= 1 -> tempered 1 (ex_box [x]) = 1.
Proof. intros H. unfold ex_box. destruct (Rle_dec 0 x); [|lra]. destruct (Rle_dec x 1); [|lra]. cbn. replace (0 / 1) with 0 by field. apply exp_0. Qed.
Lemma ex_box_out x : x < 0 \/ 1 < x -> ex_box [x] = NInf.
Proof. intros H. unfold ex_box. destruct (Rle_dec 0 x); [|reflexivity]. destruct (Rle_dec x 1); [lra|reflexivity]. Qed.
Lemma ex_box_fin x : 0 <= x <= 1 -> ex_box [x] = Fin 0.
Proof. intros H. unfold ex_box. destruct (Rle_dec 0 x); [|lra]. destruct (Rle_dec x 1); [|lra]. reflexivity. Qed.
Lemma ex_mean : space 1 (fun x => tempered 1 (ex_box x) * ex_f x) (1 / 2).
Proof.
  cbn [space]. exists (fun x => tempered 1 (ex_box [x]) * ex_f [x]). split; [reflexivity|].
  apply (@compact_line 0 1); [lra| | |].
  - intros x Hx. rewrite ex_box_out by lra. cbn. ring.
  - intros x Hx. rewrite ex_box_out by lra. cbn. ring.
  - pose proof (int_id 0 1 0) as Q. replace ((1 * 1 - 0 * 0) / 2 + 0 * (1 - 0)) with (1 / 2) in Q by field.
    refine (is_RInt_ext _ _ _ _ _ _ Q). intros x. rewrite Rmin_left, Rmax_right by lra. intros Hx. rewrite ex_box_in by lra. cbn. ring.
Qed.
Lemma ex_jump x u : jump 1 [[1]] [x] [u] = [x + u].
Proof. unfold jump, rtmul, radd, tmul, rent, rv. cbn. f_equal. ring. Qed.
Lemma ex_ap00 : accept_prob (Fin 0) (Fin 0) (Fin 1) = 1.
Proof. unfold accept_prob, xsub, xdiv. cbn. destruct (Req_EM_T 1 0); [lra|]. replace ((0 + - 0) / 1) with 0 by field. replace ((0 - 0) / 1) with 0 by field. rewrite exp_0. apply Rmin_left. lra. Qed.
Lemma ex_next x u : 0 <= x <= 1 ->
  @eq R (@RInt R_CompleteNormedModule (fun t => ex_f (ram_next 1 ex_box [[1]] 1 [x] [u] t)) 0 1) (if Rle_dec 0 (x + u) then if Rle_dec (x + u) 1 then x + u else x else x).
Proof.
  intros Hx.
  transitivity (accept_prob (ex_box [x + u]) (ex_box [x]) (Fin 1) * (x + u) + (1 - accept_prob (ex_box [x + u]) (ex_box [x]) (Fin 1)) * x).
  { rewrite <- RInt_choice by apply accept_prob_range. apply RInt_ext. intros t _. unfold ram_next. rewrite ex_jump. destruct (Rlt_dec _ _); reflexivity. }
  rewrite (ex_box_fin x Hx). destruct (Rle_dec 0 (x + u)).
  - destruct (Rle_dec (x + u) 1).
    + rewrite ex_box_fin by lra. rewrite ex_ap00. ring.
    + rewrite ex_box_out by lra. assert (accept_prob NInf (Fin 0) (Fin 1) = 0) as ->; [|ring]. unfold accept_prob. cbn. unfold rsgn. destruct (Rlt_dec 1 0); [lra|]. destruct (Rlt_dec 0 1); reflexivity.
  - rewrite ex_box_out by lra. assert (accept_prob NInf (Fin 0) (Fin 1) = 0) as ->; [|ring]. unfold accept_prob. cbn. unfold rsgn. destruct (Rlt_dec 1 0); [lra|]. destruct (Rlt_dec 0 1); reflexivity.
Qed.
(** the mean after the move with the unit proposal u *)
Definition ex_after (u : R) : R := if Rle_dec (Rabs u) 1 then 1 / 2 + u * (1 - Rabs u) else 1 / 2.
Lemma ex_inner u : is_RInt (fun x => if Rle_dec 0 (x + u) then if Rle_dec (x + u) 1 then x + u else x else x) 0 1 (ex_after u).
Proof.
  unfold ex_after. destruct (Rle_dec (Rabs u) 1) as [H|H].
  - destruct (Rle_dec 0 u) as [Hu|Hu].
    + rewrite (Rabs_right u) in * by lra. pose proof (int_id 0 (1 - u) u) as Q1. pose proof (int_id (1 - u) 1 0) as Q2.
      apply (is_RInt_ext _ (fun x => if Rle_dec 0 (x + u) then if Rle_dec (x + u) 1 then x + u else x else x)) in Q1.
      2:{ intros x. rewrite Rmin_left, Rmax_right by lra. intros Hx. destruct (Rle_dec 0 (x + u)); [|try lra; req; lra]. destruct (Rle_dec (x + u) 1); try lra; req; lra. }
      apply (is_RInt_ext _ (fun x => if Rle_dec 0 (x + u) then if Rle_dec (x + u) 1 then x + u else x else x)) in Q2.
      2:{ intros x. rewrite Rmin_left, Rmax_right by lra. intros Hx. destruct (Rle_dec 0 (x + u)); [|try lra; req; lra]. destruct (Rle_dec (x + u) 1); try lra; req; lra. }
      refine (eq_ind _ (fun w => is_RInt _ 0 1 w) (is_RInt_Chasles _ _ _ _ _ _ Q1 Q2) _ _). unfold plus; cbn; req; field.
    + rewrite (Rabs_left u) in * by lra. pose proof (int_id 0 (- u) 0) as Q1. pose proof (int_id (- u) 1 u) as Q2.
      apply (is_RInt_ext _ (fun x => if Rle_dec 0 (x + u) then if Rle_dec (x + u) 1 then x + u else x else x)) in Q1.
      2:{ intros x. rewrite Rmin_left, Rmax_right by lra. intros Hx. destruct (Rle_dec 0 (x + u)); try lra; req; lra. }
      apply (is_RInt_ext _ (fun x => if Rle_dec 0 (x + u) then if Rle_dec (x + u) 1 then x + u else x else x)) in Q2.
      2:{ intros x. rewrite Rmin_left, Rmax_right by lra. intros Hx. destruct (Rle_dec 0 (x + u)); [|try lra; req; lra]. destruct (Rle_dec (x + u) 1); try lra; req; lra. }
      refine (eq_ind _ (fun w => is_RInt _ 0 1 w) (is_RInt_Chasles _ _ _ _ _ _ Q1 Q2) _ _). unfold plus; cbn; req; field.
  - pose proof (int_id 0 1 0) as Q. refine (eq_ind _ (fun w => is_RInt _ 0 1 w) (is_RInt_ext _ _ _ _ _ _ Q) _ _); [|req; field].
    intros x. rewrite Rmin_left, Rmax_right by lra. intros Hx.
    assert (u < -1 \/ 1 < u) as Hu by (revert H; unfold Rabs; destruct (Rcase_abs u); lra).
    destruct (Rle_dec 0 (x + u)); [|try lra; req; lra]. destruct (Rle_dec (x + u) 1); try lra; req; lra.
Qed.
Example ex_C117_ram :
  space 1 (fun x => tempered 1 (ex_box x) * ex_f x) (1 / 2) /\
  exists v, space2 1 1 (fun x u => tempered 1 (ex_box x) * unit_density u * @RInt R_CompleteNormedModule (fun t => ex_f (ram_next 1 ex_box [[1]] 1 x u t)) 0 1) v.
Proof.
  split; [exact ex_mean|].
  assert (exists w, is_RInt (fun u => unit_density [u] * (u * (1 - Rabs u))) (-1) 1 w) as [w Hw].
  { apply (ex_RInt_continuous (V := R_CompleteNormedModule)). intros u _. apply (continuous_mult (K := R_AbsRing)).
    - apply (continuous_ext (fun u => / t8_mass * t8 u)); [intros z; unfold unit_density, student8; cbn [map fold_right List.length pow]; unfold t8, Rdiv; rewrite !Rmult_1_r; req; ring|].
      apply (continuous_scal_r (V := R_NormedModule)), t8_continuous.
    - apply (continuous_mult (K := R_AbsRing)); [apply continuous_id|]. apply (continuous_minus (V := R_NormedModule)); [apply continuous_const|apply continuous_Rabs]. }
  exists (/ 2 + w). exists (fun u => unit_density u * ex_after (ex_f u)). split.
  - intros [|u [|? ?]] Hu; try discriminate. cbn [ex_f space]. exists (fun x => tempered 1 (ex_box [x]) * unit_density [u] * RInt (fun t => ex_f (ram_next 1 ex_box [[1]] 1 [x] [u] t)) 0 1).
    split; [reflexivity|]. apply (@compact_line 0 1); [lra| | |].
    + intros x Hx. rewrite ex_box_out by lra. cbn. ring.
    + intros x Hx. rewrite ex_box_out by lra. cbn. ring.
    + pose proof (is_RInt_scal (V := R_NormedModule) _ _ _ (unit_density [u]) _ (ex_inner u)) as Q. refine (is_RInt_ext _ _ _ _ _ _ Q).
      intros x. rewrite Rmin_left, Rmax_right by lra. intros Hx. rewrite ex_box_in, ex_next by lra. unfold scal. cbn -[unit_density]. unfold mult. cbn -[unit_density]. ring.
  - cbn [space]. exists (fun u => unit_density [u] * ex_after u). split; [reflexivity|].
    assert (line (fun u => unit_density [u]) 1) as L1.
    { destruct (unit_density_one 1) as (g & Hg & Hl). refine (line_ext _ Hl). intros x. exact (eq_sym (Hg x)). }
    assert (line (fun u => if Rle_dec (Rabs u) 1 then unit_density [u] * (u * (1 - Rabs u)) else 0) w) as L2.
    { apply (@compact_line (-1) 1); [lra| | |].
      - intros u Hu. destruct (Rle_dec (Rabs u) 1); [|reflexivity]. revert r. rewrite Rabs_left by lra. lra.
      - intros u Hu. destruct (Rle_dec (Rabs u) 1); [|reflexivity]. revert r. rewrite Rabs_right by lra. lra.
      - refine (is_RInt_ext _ _ _ _ _ _ Hw). intros u. rewrite Rmin_left, Rmax_right by lra. intros Hu. destruct (Rle_dec (Rabs u) 1) as [|H]; [reflexivity|]. exfalso. apply H. apply Rabs_le. lra. }
    pose proof (line_minus (line_scal (k := / 2) L1) (line_scal (k := -1) L2)) as Q. replace (/ 2 * 1 - -1 * w) with (/ 2 + w) in Q by ring.
    refine (line_ext _ Q). intros u. cbv beta. unfold ex_after. destruct (Rle_dec (Rabs u) 1); field.
Qed.

(** two chains, both uniform on [0, 1] *)
Lemma ex_pair (a b : R) (h : list R -> list R -> R) :
  (forall x y, 0 <= x <= 1 -> 0 <= y <= 1 -> h [x] [y] = a * x + b * y) -> (forall x y, x < 0 \/ 1 < x \/ y < 0 \/ 1 < y -> h [x] [y] = 0) ->
  space2 1 1 h ((a + b) / 2).
Proof.
  intros Hin Hout. exists (fun y => if Rle_dec 0 (ex_f y) then if Rle_dec (ex_f y) 1 then a / 2 + b * ex_f y else 0 else 0). split.
  - intros [|y [|? ?]] Hy; try discriminate. cbn [ex_f space]. exists (fun x => h [x] [y]). split; [reflexivity|].
    apply (@compact_line 0 1); [lra|intros x Hx; apply Hout; lra|intros x Hx; apply Hout; lra|].
    destruct (Rle_dec 0 y) as [H0|H0]; [destruct (Rle_dec y 1) as [H1|H1]|].
    + pose proof (is_RInt_plus (V := R_NormedModule) _ _ _ _ _ _ (is_RInt_scal (V := R_NormedModule) _ _ _ a _ (int_id 0 1 0)) (is_RInt_const (V := R_NormedModule) 0 1 (b * y))) as Q.
      refine (eq_ind _ (fun w => is_RInt _ 0 1 w) (is_RInt_ext _ _ _ _ _ _ Q) _ _); [|unfold plus, scal; cbn; unfold mult; cbn; req; field].
      intros x. rewrite Rmin_left, Rmax_right by lra. intros Hx. rewrite Hin by lra. unfold plus, scal; cbn; unfold mult; cbn; req; ring.
    + refine (eq_ind _ (fun w => is_RInt _ 0 1 w) (is_RInt_ext _ _ _ _ _ _ (is_RInt_const (V := R_NormedModule) 0 1 0)) _ _); [|unfold scal; cbn; unfold mult; cbn; req; ring].
      intros x _. symmetry. apply Hout. lra.
    + refine (eq_ind _ (fun w => is_RInt _ 0 1 w) (is_RInt_ext _ _ _ _ _ _ (is_RInt_const (V := R_NormedModule) 0 1 0)) _ _); [|unfold scal; cbn; unfold mult; cbn; req; ring].
      intros x _. symmetry. apply Hout. lra.
  - cbn [space ex_f]. eexists. split; [reflexivity|]. cbv beta. apply (@compact_line 0 1); [lra| | |].
    + intros y Hy. destruct (Rle_dec 0 y); [lra|reflexivity].
    + intros y Hy. destruct (Rle_dec 0 y); [|reflexivity]. destruct (Rle_dec y 1); [lra|reflexivity].
    + pose proof (is_RInt_plus (V := R_NormedModule) _ _ _ _ _ _ (is_RInt_scal (V := R_NormedModule) _ _ _ b _ (int_id 0 1 0)) (is_RInt_const (V := R_NormedModule) 0 1 (a / 2))) as Q.
      refine (eq_ind _ (fun w => is_RInt _ 0 1 w) (is_RInt_ext _ _ _ _ _ _ Q) _ _); [|unfold plus, scal; cbn; unfold mult; cbn; req; field].
      intros y. rewrite Rmin_left, Rmax_right by lra. intros Hy. destruct (Rle_dec 0 y); [|lra]. destruct (Rle_dec y 1); [|lra].
      unfold plus, scal; cbn; unfold mult; cbn; req; field.
Qed.
Definition ex_f2 (z : list R * list R) : R := ex_f (fst z) + 2 * ex_f (snd z).
Lemma ex_temp T x : 0 < T -> 0 <= x <= 1 -> tempered T (ex_box [x]) = 1.
Proof. intros HT H. rewrite ex_box_fin by exact H. cbn. replace (0 / T) with 0 by (field; lra). apply exp_0. Qed.
Lemma ex_exch x y : 0 <= x <= 1 -> 0 <= y <= 1 -> @eq R (@RInt R_CompleteNormedModule (fun t => ex_f2 (exch_next ex_box 1 2 [x] [y] t)) 0 1) (2 * x + y).
Proof.
  intros Hx Hy. transitivity (1 * (2 * x + y) + (1 - 1) * (x + 2 * y)); [|ring].
  rewrite <- RInt_choice by lra. apply RInt_ext. intros t _. unfold exch_next. rewrite !ex_box_fin by assumption. cbn [swap_prob].
  assert (exch_prob 1 2 0 0 = 1) as ->.
  { unfold exch_prob. match goal with |- context [exp ?e] => replace e with 0 by field end. rewrite exp_0. apply Rmin_left. lra. }
  destruct (Rlt_dec t 1); unfold ex_f2; cbn [fst snd ex_f]; req; ring.
Qed.
Example ex_C117_exchange :
  both 1 (fun x y => tempered 1 (ex_box x) * tempered 2 (ex_box y) * ex_f2 (x, y)) (3 / 2) /\
  both 1 (fun x y => tempered 1 (ex_box x) * tempered 2 (ex_box y) * @RInt R_CompleteNormedModule (fun t => ex_f2 (exch_next ex_box 1 2 x y t)) 0 1) (3 / 2).
Proof.
  assert (forall (g : list R -> list R -> R) x y, x < 0 \/ 1 < x \/ y < 0 \/ 1 < y -> tempered 1 (ex_box [x]) * tempered 2 (ex_box [y]) * g [x] [y] = 0) as Z.
  { intros g x y [H|[H|H]]; [rewrite (@ex_box_out x) by lra|rewrite (@ex_box_out x) by lra|rewrite (@ex_box_out y) by lra]; cbn; ring. }
  split; split.
  - replace (3 / 2) with ((1 + 2) / 2) by lra. apply ex_pair; [|intros x y H; apply (Z (fun x y => ex_f2 (x, y))), H].
    intros x y Hx Hy. rewrite !ex_temp by (assumption || lra). unfold ex_f2. cbn. ring.
  - replace (3 / 2) with ((2 + 1) / 2) by lra. apply ex_pair; [|intros x y H; apply (Z (fun x y => ex_f2 (x, y))); lra].
    intros x y Hx Hy. rewrite !ex_temp by (assumption || lra). unfold ex_f2. cbn. ring.
  - replace (3 / 2) with ((2 + 1) / 2) by lra. apply ex_pair; [|intros x y H; apply (Z (fun x y => RInt (fun t => ex_f2 (exch_next ex_box 1 2 x y t)) 0 1)), H].
    intros x y Hx Hy. rewrite !ex_temp by (assumption || lra). rewrite ex_exch by assumption. ring.
  - replace (3 / 2) with ((1 + 2) / 2) by lra. apply ex_pair; [|intros x y H; apply (Z (fun x y => RInt (fun t => ex_f2 (exch_next ex_box 1 2 x y t)) 0 1)); lra].
    intros x y Hx Hy. rewrite !ex_temp by (assumption || lra). rewrite ex_exch by assumption. ring.
Qed.

(** the stretch move towards or away from the partner 0, with the code's scales in [1/2, 2] *)
Definition ex_E (z : R) : R := (z + 1 - Rabs (z - 1)) / 4 + (/ ((z + 1 + Rabs (z - 1)) / 2) - / ((z + 1 + Rabs (z - 1)) / 2) * / ((z + 1 + Rabs (z - 1)) / 2)) / 2.
Lemma ex_stretch x z : 0 < z -> 0 <= x <= 1 ->
  @eq R (@RInt R_CompleteNormedModule (fun t => ex_f (stretch_next [0] ex_box 1 [x] z t)) 0 1) (if Rle_dec (z * x) 1 then z * x else x).
Proof.
  intros Hz Hx.
  assert (stretch_pt [0] z [x] = [z * x]) as Ep by (unfold stretch_pt; cbn; f_equal; ring).
  assert (0 <= z * x) as Hp by (apply Rmult_le_pos; lra).
  transitivity ((if Rle_dec (z * x) 1 then 1 else 0) * (z * x) + (1 - if Rle_dec (z * x) 1 then 1 else 0) * x); [|destruct (Rle_dec (z * x) 1); ring].
  rewrite <- RInt_choice by (destruct (Rle_dec (z * x) 1); lra). apply RInt_ext. intros t. rewrite Rmin_left, Rmax_right by lra. intros Ht. unfold stretch_next. rewrite Ep, (ex_box_fin x Hx).
  destruct (Rle_dec (z * x) 1) as [H|H].
  - rewrite ex_box_fin by lra. cbn [stretch_prob List.length]. replace (INR 1 - 1) with 0 by (cbn; ring). rewrite Rpower_O by exact Hz. replace ((0 - 0) / 1) with 0 by field. rewrite exp_0, Rmult_1_r, Rmin_left by lra.
    destruct (Rlt_dec t 1); reflexivity.
  - rewrite ex_box_out by lra. cbn [stretch_prob]. destruct (Rlt_dec t 0); reflexivity.
Qed.
Lemma int_lin k a b : is_RInt (fun x => k * x) a b (k * ((b * b - a * a) / 2)).
Proof.
  refine (eq_ind _ (fun w => is_RInt _ a b w) (is_RInt_ext _ _ _ _ _ _ (is_RInt_scal (V := R_NormedModule) _ _ _ k _ (int_id a b 0))) _ _).
  - intros x _. unfold scal; cbn; unfold mult; cbn; req; ring.
  - unfold scal; cbn; unfold mult; cbn; req; field.
Qed.
Lemma ex_E_int z : 0 < z -> is_RInt (fun x => if Rle_dec (z * x) 1 then z * x else x) 0 1 (ex_E z).
Proof.
  intros Hz. unfold ex_E. destruct (Rle_dec z 1) as [H|H].
  - rewrite (Rabs_left1 (z - 1)) by lra. refine (eq_ind _ (fun w => is_RInt _ 0 1 w) (is_RInt_ext _ _ _ _ _ _ (int_lin z 0 1)) _ _); [|req; replace ((z + 1 + - (z - 1)) / 2) with 1 by field; field].
    intros x. rewrite Rmin_left, Rmax_right by lra. intros Hx. destruct (Rle_dec (z * x) 1) as [|K]; [reflexivity|]. exfalso. apply K. apply Rle_trans with (1 * 1); [|lra]. apply Rmult_le_compat; lra.
  - rewrite (Rabs_right (z - 1)) by lra. assert (0 < / z < 1) as Hi by (split; [apply Rinv_0_lt_compat; lra|rewrite <- Rinv_1; apply Rinv_lt_contravar; lra]).
    pose proof (int_lin z 0 (/ z)) as Q1. pose proof (int_id (/ z) 1 0) as Q2.
    apply (is_RInt_ext _ (fun x => if Rle_dec (z * x) 1 then z * x else x)) in Q1.
    2:{ intros x. rewrite Rmin_left, Rmax_right by lra. intros Hx. destruct (Rle_dec (z * x) 1) as [|K]; [reflexivity|]. exfalso. apply K. replace 1 with (z * / z) by (field; lra). apply Rmult_le_compat_l; lra. }
    apply (is_RInt_ext _ (fun x => if Rle_dec (z * x) 1 then z * x else x)) in Q2.
    2:{ intros x. rewrite Rmin_left, Rmax_right by lra. intros Hx. destruct (Rle_dec (z * x) 1) as [K|]; [|req; ring]. exfalso. apply (Rlt_irrefl 1). apply Rlt_le_trans with (z * x); [|exact K]. replace 1 with (z * / z) by (field; lra). apply Rmult_lt_compat_l; lra. }
    refine (eq_ind _ (fun w => is_RInt _ 0 1 w) (is_RInt_Chasles _ _ _ _ _ _ Q1 Q2) _ _). unfold plus; cbn; req. field. split; lra.
Qed.
Example ex_C117_stretch :
  space 1 (fun x => tempered 1 (ex_box x) * ex_f x) (1 / 2) /\
  (forall z, / 2 <= z <= 2 -> space 1 (fun x => tempered 1 (ex_box x) * @RInt R_CompleteNormedModule (fun t => ex_f (stretch_next [0] ex_box 1 x z t)) 0 1) (ex_E z)) /\
  (forall z, / 2 <= z <= 2 -> continuous ex_E z) /\
  is_RInt (fun z => scale_density 2 z * ex_E z) (/ 2) 2 (1 / 2).
Proof.
  assert (forall z, / 2 <= z <= 2 -> space 1 (fun x => tempered 1 (ex_box x) * @RInt R_CompleteNormedModule (fun t => ex_f (stretch_next [0] ex_box 1 x z t)) 0 1) (ex_E z)) as H1.
  { intros z Hz. cbn [space]. exists (fun x => tempered 1 (ex_box [x]) * RInt (fun t => ex_f (stretch_next [0] ex_box 1 [x] z t)) 0 1). split; [reflexivity|].
    apply (@compact_line 0 1); [lra| | |].
    - intros x Hx. rewrite ex_box_out by lra. cbn. ring.
    - intros x Hx. rewrite ex_box_out by lra. cbn. ring.
    - refine (is_RInt_ext _ _ _ _ _ _ (ex_E_int z _)); [|lra]. intros x. rewrite Rmin_left, Rmax_right by lra. intros Hx. rewrite ex_box_in, ex_stretch by lra. destruct (Rle_dec (z * x) 1); symmetry; apply Rmult_1_l. }
  assert (forall z, / 2 <= z <= 2 -> continuous ex_E z) as H2.
  { intros z Hz.
    assert (continuous (fun z => Rabs (z - 1)) z) as CA.
    { apply (continuous_comp (fun z => z - 1) Rabs); [apply (ex_derive_continuous (V := R_NormedModule)); auto_derive; exact I|apply continuous_Rabs]. }
    assert (continuous (fun z => z + 1) z) as CB by (apply (ex_derive_continuous (V := R_NormedModule)); auto_derive; exact I).
    assert (continuous (fun z => (z + 1 + Rabs (z - 1)) / 2) z) as CM.
    { apply (continuous_mult (K := R_AbsRing)); [apply (continuous_plus (V := R_NormedModule)); assumption|apply continuous_const]. }
    assert (continuous (fun z => / ((z + 1 + Rabs (z - 1)) / 2)) z) as CI.
    { apply (continuous_comp (fun z => (z + 1 + Rabs (z - 1)) / 2) Rinv); [exact CM|]. apply continuous_Rinv. pose proof (Rabs_pos (z - 1)). lra. }
    unfold ex_E. apply (continuous_plus (V := R_NormedModule)).
    - apply (continuous_mult (K := R_AbsRing)); [apply (continuous_minus (V := R_NormedModule)); assumption|apply continuous_const].
    - apply (continuous_mult (K := R_AbsRing)); [|apply continuous_const]. apply (continuous_minus (V := R_NormedModule)); [exact CI|]. apply (continuous_mult (K := R_AbsRing)); exact CI. }
  split; [exact ex_mean|]. split; [exact H1|]. split; [exact H2|].
  apply (C117_stretch [0] ex_box 1 2 ex_f (1 / 2) ex_E); [lra|lra|exact ex_mean|exact H1|exact H2].
Qed.
