(** Invariance of the tempered posteriors under the Metropolis, exchange and stretch moves.

    Integration over the state of a chain and the random proposal is abstract: any additive functional on a space of
    integrands, with the change of variables formula for the one map the move is built on.  (Lebesgue integration has
    it: the Jacobian of (x,u) -> (x + S^T u, -u) is 1 in absolute value, that of (x,y) -> (y,x) is 1, and that of
    (x,z) -> (c + z (x - c), 1/z) is z^(n-2).)  Integration over the uniform number of the acceptance test is the
    Riemann integral. *)
From Coq Require Import Reals List Arith ZArith Bool Lra Lia.
From Coquelicot Require Import Coquelicot.
From Verif Require Import Arith Res ListLemmas Spec Gauss Emb Cx KFpProof EngineModel EngineSpec EngineProof EngineInv CholProof RamProof EngineHist.
Import ListNotations.

Set Implicit Arguments.
Unset Strict Implicit.
Local Open Scope R_scope.

Record integral (Z : Type) (ok : Z -> Prop) (T : Z -> Z) (J : Z -> R) := mkInt {
  i_dom : (Z -> R) -> Prop;
  i_val : (Z -> R) -> R;
  i_ext : forall h1 h2, (forall z, ok z -> h1 z = h2 z) -> i_dom h1 -> i_dom h2 /\ i_val h1 = i_val h2;
  i_sub : forall h1 h2, i_dom h1 -> i_dom h2 -> i_dom (fun z => h1 z - h2 z) /\ i_val (fun z => h1 z - h2 z) = i_val h1 - i_val h2;
  i_var : forall h, i_dom h -> i_dom (fun z => h (T z) * J z) /\ i_val (fun z => h (T z) * J z) = i_val h }.

Section Abs.
Variables (Z : Type) (ok : Z -> Prop) (T : Z -> Z) (J : Z -> R) (I : integral ok T J).
Lemma i_odd h : i_dom I h -> (forall z, ok z -> h (T z) * J z = - h z) -> i_val I h = 0.
Proof.
  intros H Ho. destruct (i_var H) as [H1 E1]. destruct (i_sub H1 H) as [Hs Es].
  destruct (i_sub Hs H1) as [Ht Et]. destruct (@i_ext _ _ _ _ I (fun z => h (T z) * J z - h z - h (T z) * J z) (fun z => h (T z) * J z)) as [_ E].
  - intros z Hz. rewrite (Ho z Hz). ring.
  - exact Ht.
  - rewrite Et, Es, E1 in E. lra.
Qed.
Lemma i_balance h1 h2 : i_dom I h1 -> i_dom I h2 ->
  (forall z, ok z -> (h1 (T z) - h2 (T z)) * J z = - (h1 z - h2 z)) -> i_val I h1 = i_val I h2.
Proof. intros H1 H2 H. destruct (i_sub H1 H2) as [D E]. pose proof (i_odd D H) as Q. lra. Qed.
End Abs.

(** weighted sums over an orbit are such functionals *)
Definition orbit_sum (Z : Type) (ok : Z -> Prop) (T : Z -> Z) (J : Z -> R) (z0 : Z)
  (H0 : ok z0) (H1 : ok (T z0)) (H2 : T (T z0) = z0) (HJ : J (T z0) * J z0 = 1) : integral ok T J.
Proof.
  refine (@mkInt _ _ _ _ (fun _ => True) (fun h => h z0 + h (T z0) * J z0) _ _ _).
  - intros h1 h2 E _. split; [exact I|]. rewrite (E z0 H0), (E (T z0) H1). reflexivity.
  - intros h1 h2 _ _. split; [exact I|]. ring.
  - intros h _. split; [exact I|]. rewrite H2. rewrite (Rmult_assoc (h z0)), HJ. ring.
Defined.

(** integral over the uniform number *)
Lemma uniform_choice a (u v : R) : 0 <= a <= 1 -> is_RInt (fun t => if Rlt_dec t a then u else v) 0 1 (a * u + (1 - a) * v).
Proof.
  intros Ha.
  assert (is_RInt (fun t => if Rlt_dec t a then u else v) 0 a (scal (a - 0) u)) as H1.
  { apply (is_RInt_ext (fun _ => u)); [|exact (is_RInt_const 0 a u)]. intros t Ht. rewrite Rmin_left, Rmax_right in Ht by lra. destruct (Rlt_dec t a); [reflexivity|lra]. }
  assert (is_RInt (fun t => if Rlt_dec t a then u else v) a 1 (scal (1 - a) v)) as H2.
  { apply (is_RInt_ext (fun _ => v)); [|exact (is_RInt_const a 1 v)]. intros t Ht. rewrite Rmin_left, Rmax_right in Ht by lra. destruct (Rlt_dec t a); [lra|reflexivity]. }
  pose proof (is_RInt_Chasles _ _ _ _ _ _ H1 H2) as H.
  replace (a * u + (1 - a) * v) with (plus (scal (a - 0) u) (scal (1 - a) v)); [exact H|]. unfold plus, scal. cbn. unfold mult. cbn. ring.
Qed.
Lemma RInt_choice a (u v : R) : 0 <= a <= 1 -> RInt (fun t => if Rlt_dec t a then u else v) 0 1 = a * u + (1 - a) * v.
Proof. intros H. apply is_RInt_unique, uniform_choice, H. Qed.

(** unnormalised density of a tempered posterior with log-density l (zero where l is not finite) *)
Definition tempered (T : R) (l : xr) : R := match l with Fin r => exp (r / T) | _ => 0 end.

Section Ram.
Variable R0 : rng AX.
Variable X : Type.
Variable P : methodsP R0 X (list (F AX)).
Variable draw : F AX -> gen R0 -> F AX * gen R0.
Local Notation param := (param AX X (list (F AX))).

(** log-density on real vectors of length n *)
Variable n : nat.
Variable ell : list R -> xr.
Variable L : list (list R).
Variable T : R.
Hypothesis HT : 0 < T.

Definition jump (x u : list R) : list R := radd x (rtmul n L u).
(** the value after the step, from the value x, the unit proposal u and the uniform number t *)
Definition ram_next (x u : list R) (t : R) : list R :=
  if Rlt_dec t (accept_prob (ell (jump x u)) (ell x) (Fin T)) then jump x u else x.

(** the code computes ram_next *)
Theorem ram_next_code (r : ram AX) (w : param) g (u : list R) g1 (uu : R) g2 (x : list R) o r' w' g' :
  o_LogDensity P (w_obj w) (map Fin (jump x u)) = Ok (ell (jump x u), o) ->
  good_chol n (r_chol r) L -> length x = n -> w_value w = map Fin x -> w_logpost w = ell x -> w_temp w = Fin T ->
  draws n (draw (Fin 0)) g = (map Fin u, g1) -> length u = n -> 0 <= uu ->
  @runiform AX R0 (Fin 0) (Fin 1) g1 = (Fin uu, g2) ->
  ram_step P draw r w g = Ok (r', w', g') ->
  w_value w' = map Fin (ram_next x u uu).
Proof.
  intros HL (EL & HS & _) Hx Hv Hlx HTw Hdr Hu Huu Hun E. unfold ram_step in E. rewrite Hv in E. change (F AX) with xr in E. rewrite map_length, Hx in E.
  change (fofZ AX 0) with (Fin 0) in E. rewrite Hdr in E.
  assert (mtmul (A := AX) (r_chol r) (map Fin u) = Ok (map Fin (rtmul n L u))) as Em.
  { etransitivity; [exact (f_equal (fun M => mtmul (A := AX) M (map Fin u)) EL)|]. apply mtmul_Fin; assumption. }
  apply bind_Ok in E. destruct E as (sc & Esc & E). assert (sc = map Fin (rtmul n L u)) as -> by (pose proof (eq_trans (eq_sym Esc) Em) as K; injection K as K; exact K).
  apply bind_Ok in E. destruct E as (new & Enew & E). rewrite vadd_Fin in Enew by (rewrite Hx; unfold rtmul; rewrite vbuild_len; reflexivity). injection Enew as <-.
  apply bind_Ok in E. destruct E as ([[[a r1] w1] g3] & Ea & E). apply bind_Ok in E. destruct E as (w2 & Es & E). apply bind_Ok in E. destruct E as (r2 & Er & E).
  injection E as <- <- <-. fold (jump x u) in Ea, Es. unfold ram_accept, LD in Ea. rewrite HL in Ea. cbn [bind w_logpost w_temp set_obj] in Ea. rewrite Hlx, HTw in Ea.
  change (fdiv AX (fsub AX (ell (jump x u)) (ell x)) (Fin T)) with (xdiv (xsub (ell (jump x u)) (ell x)) (Fin T)) in Ea.
  unfold ram_next, accept_prob.
  assert (forall b, (if b : bool then Save P w1 (map Fin (jump x u)) else Ok w1) = Ok w2 -> w_value w1 = map Fin x -> w_value w2 = map Fin (if b then jump x u else x)) as Hs.
  { intros b Hb Hw1. destruct b; [|injection Hb as <-; exact Hw1]. unfold Save in Hb. apply bind_Ok in Hb. destruct Hb as ([? ?] & _ & Q). injection Q as <-. reflexivity. }
  destruct (xdiv (xsub (ell (jump x u)) (ell x)) (Fin T)) as [d| | |]; cbn [ffin AX xfin negb] in Ea.
  2-4: injection Ea as <- <- <- <-; destruct (Rlt_dec uu 0); [lra|exact (Hs false Es Hv)].
  change (fofZ AX 0) with (Fin 0) in Ea. change (fofZ AX 1) with (Fin 1) in Ea. rewrite Hun in Ea.
  assert (fmin AX (fexp AX (Fin d)) (Fin 1) = Fin (Rmin (exp d) 1)) as Em2.
  { unfold fmin. cbn [flt fexp AX xexp xlt]. destruct (Rlt_dec 1 (exp d)); [rewrite Rmin_right by lra|rewrite Rmin_left by lra]; reflexivity. }
  rewrite Em2 in Ea. cbn [flt AX xlt] in Ea.
  destruct (Rlt_dec uu (Rmin (exp d) 1)); injection Ea as <- <- <- <-; [exact (Hs true Es Hv)|exact (Hs false Es Hv)].
Qed.

Lemma accept_balance lx ly : tempered T lx * accept_prob ly lx (Fin T) = tempered T ly * accept_prob lx ly (Fin T).
Proof.
  unfold tempered. destruct lx as [a| | |], ly as [b| | |]; try (cbn; ring); try (unfold accept_prob; cbn; destruct (rsgn T); ring).
  rewrite !accept_prob_Fin by exact HT. apply metropolis_balance, HT.
Qed.
Lemma jump_len x u : length x = n -> length (jump x u) = n.
Proof. intros H. unfold jump, radd. rewrite map_length, combine_length. unfold rtmul. rewrite vbuild_len. lia. Qed.
Lemma jump_back x u : length x = n -> jump (jump x u) (ropp u) = x.
Proof. intros H. unfold jump. rewrite rtmul_opp. apply radd_back. unfold rtmul. rewrite vbuild_len. exact H. Qed.
Lemma ropp_ropp u : ropp (ropp u) = u.
Proof. unfold ropp. rewrite map_map. rewrite (map_ext _ (fun x => x)) by (intros; ring). apply map_id. Qed.

(** the reversal of a move: from the end point with the opposite unit proposal *)
Definition ram_rev (z : list R * list R) : list R * list R := (jump (fst z) (snd z), ropp (snd z)).
Definition sized (z : list R * list R) : Prop := length (fst z) = n /\ length (snd z) = n.
Lemma ram_rev_invol z : sized z -> sized (ram_rev z) /\ ram_rev (ram_rev z) = z.
Proof.
  intros [H1 H2]. split; [split; [apply jump_len, H1|unfold ram_rev, ropp; cbn [snd]; rewrite map_length; exact H2]|].
  destruct z as [x u]. unfold ram_rev. cbn [fst snd] in *. rewrite jump_back by exact H1. rewrite ropp_ropp. reflexivity.
Qed.

(** detailed balance of the joint law of state and proposal *)
Theorem ram_detailed_balance x u : length x = n ->
  tempered T (ell x) * student8 u * accept_prob (ell (jump x u)) (ell x) (Fin T) =
  tempered T (ell (jump x u)) * student8 (ropp u) * accept_prob (ell (jump (jump x u) (ropp u))) (ell (jump x u)) (Fin T).
Proof.
  intros H. rewrite jump_back by exact H. rewrite student8_even. pose proof (accept_balance (ell x) (ell (jump x u))) as E.
  transitivity (tempered T (ell x) * accept_prob (ell (jump x u)) (ell x) (Fin T) * student8 u); [ring|]. rewrite E. ring.
Qed.

(** The tempered posterior is invariant under the step with a fixed proposal scale L. *)
Theorem ram_invariant (I : integral sized ram_rev (fun _ => 1)) (f : list R -> R) :
  i_dom I (fun z => tempered T (ell (fst z)) * student8 (snd z) * RInt (fun t => f (ram_next (fst z) (snd z) t)) 0 1) ->
  i_dom I (fun z => tempered T (ell (fst z)) * student8 (snd z) * f (fst z)) ->
  i_val I (fun z => tempered T (ell (fst z)) * student8 (snd z) * RInt (fun t => f (ram_next (fst z) (snd z) t)) 0 1) =
  i_val I (fun z => tempered T (ell (fst z)) * student8 (snd z) * f (fst z)).
Proof.
  intros D1 D2. apply (i_balance D1 D2).
  assert (forall x u, RInt (fun t => f (ram_next x u t)) 0 1 =
     accept_prob (ell (jump x u)) (ell x) (Fin T) * f (jump x u) + (1 - accept_prob (ell (jump x u)) (ell x) (Fin T)) * f x) as K.
  { intros x u. rewrite <- RInt_choice by apply accept_prob_range. apply RInt_ext. intros t _. unfold ram_next. destruct (Rlt_dec _ _); reflexivity. }
  intros [x u] [H1 H2]. unfold ram_rev. cbn [fst snd] in *. rewrite !K. pose proof (ram_detailed_balance u H1) as B. rewrite jump_back in * by exact H1.
  rewrite student8_even in *.
  set (px := tempered T (ell x)) in *. set (py := tempered T (ell (jump x u))) in *. set (q := student8 u) in *.
  set (a := accept_prob _ _ _) in *. set (a' := accept_prob (ell x) _ _) in *.
  transitivity ((py * q * a') * (f x - f (jump x u))); [ring|]. rewrite <- B. ring.
Qed.
End Ram.

(** ** Exchange *)
Section Exch.
Variable ell : list R -> xr.
Variables Tw To : R.
Hypothesis HTw : 0 < Tw.
Hypothesis HTo : 0 < To.
(** probability of the swap of states with log-posteriors lw (temperature Tw) and lo (temperature To) *)
Definition swap_prob (lw lo : xr) : R := match lw, lo with Fin a, Fin b => exch_prob Tw To a b | _, _ => 0 end.
Definition exch_next (x y : list R) (t : R) : list R * list R :=
  if Rlt_dec t (swap_prob (ell x) (ell y)) then (y, x) else (x, y).
Definition swap2 (z : list R * list R) : list R * list R := (snd z, fst z).
Lemma exch_prob_range a b : 0 <= exch_prob Tw To a b <= 1.
Proof. unfold exch_prob. split; [apply Rmin_glb; [lra|left; apply exp_pos]|apply Rmin_l]. Qed.
Lemma swap_prob_range a b : 0 <= swap_prob a b <= 1.
Proof. unfold swap_prob. destruct a, b; try lra. apply exch_prob_range. Qed.
Lemma swap_balance lw lo : tempered Tw lw * tempered To lo * swap_prob lw lo = tempered Tw lo * tempered To lw * swap_prob lo lw.
Proof. unfold tempered, swap_prob. destruct lw, lo; try ring. apply exch_balance; assumption. Qed.
Theorem exch_invariant (I : integral (fun _ => True) swap2 (fun _ => 1)) (f : list R * list R -> R) :
  let law := fun z => tempered Tw (ell (fst z)) * tempered To (ell (snd z)) in
  i_dom I (fun z => law z * RInt (fun t => f (exch_next (fst z) (snd z) t)) 0 1) ->
  i_dom I (fun z => law z * f z) ->
  i_val I (fun z => law z * RInt (fun t => f (exch_next (fst z) (snd z) t)) 0 1) = i_val I (fun z => law z * f z).
Proof.
  intros law D1 D2. apply (i_balance D1 D2).
  assert (forall x y, RInt (fun t => f (exch_next x y t)) 0 1 = swap_prob (ell x) (ell y) * f (y, x) + (1 - swap_prob (ell x) (ell y)) * f (x, y)) as K.
  { intros x y. rewrite <- RInt_choice by apply swap_prob_range. apply RInt_ext. intros t _. unfold exch_next. destruct (Rlt_dec _ _); reflexivity. }
  intros [x y] _. unfold law, swap2. cbn [fst snd]. rewrite !K. pose proof (swap_balance (ell x) (ell y)) as B.
  set (p := tempered Tw (ell x)) in *. set (p' := tempered Tw (ell y)) in *. set (q := tempered To (ell x)) in *. set (q' := tempered To (ell y)) in *.
  set (a := swap_prob (ell x) _) in *. set (a' := swap_prob _ (ell x)) in *.
  transitivity (p' * q * a' * (f (x, y) - f (y, x))); [ring|]. rewrite <- B. ring.
Qed.
End Exch.

(** the code computes exch_next, for every log-posterior (also -inf and NaN) *)
Section ExchCode.
Variable R0 : rng AX.
Variable X : Type.
Variable P : methodsP R0 X (list (F AX)).
Local Notation param := (param AX X (list (F AX))).
Theorem exch_next_code ell e (w o : param) g (Tw To : R) (x y : list R) (uu : R) g1 e' w' o' g' : 0 < Tw -> 0 < To -> 0 <= uu ->
  w_temp w = Fin Tw -> w_temp o = Fin To -> w_value w = map Fin x -> w_value o = map Fin y -> w_logpost w = ell x -> w_logpost o = ell y ->
  @runiform AX R0 (Fin 0) (Fin 1) g = (Fin uu, g1) -> exch_step P e w o g = Ok (e', w', o', g') ->
  w_value w' = map Fin (fst (exch_next ell Tw To x y uu)) /\ w_value o' = map Fin (snd (exch_next ell Tw To x y uu)) /\
  w_logpost w' = ell (fst (exch_next ell Tw To x y uu)) /\ w_logpost o' = ell (snd (exch_next ell Tw To x y uu)) /\
  w_temp w' = Fin Tw /\ w_temp o' = Fin To.
Proof.
  intros H1 H2 Hu Ew Eo Vw Vo Lw Lo Hun E. unfold exch_next.
  assert (rsgn (1 / Tw) = Gt /\ rsgn (1 / To) = Gt) as [S1 S2].
  { assert (0 < 1 / Tw) by (apply Rdiv_lt_0_compat; lra). assert (0 < 1 / To) by (apply Rdiv_lt_0_compat; lra).
    unfold rsgn. destruct (Rlt_dec (1/Tw) 0); [lra|]. destruct (Rlt_dec (1/To) 0); [lra|]. destruct (Rlt_dec 0 (1/Tw)); [|lra]. destruct (Rlt_dec 0 (1/To)); [|lra]. split; reflexivity. }
  destruct (ell x) as [a| | |] eqn:Ex; destruct (ell y) as [b| | |] eqn:Ey; cbn [swap_prob].
  1: { destruct (exch_move H1 H2 Ew Eo Lw Lo Hun E) as (_ & K1 & K2 & K). destruct (Rlt_dec uu (exch_prob Tw To a b)); cbn [fst snd].
       - destruct K as (-> & -> & -> & ->). rewrite K1, K2, Vw, Vo, Lw, Lo, Ex, Ey. repeat split; assumption.
       - destruct K as [-> ->]. rewrite Ew, Eo, Vw, Vo, Lw, Lo, Ex, Ey. repeat split. }
  all: assert (w' = w /\ o' = o) as [-> ->] by
    (refine (exch_nonfinite _ Hu Hun E); rewrite Ew, Eo, Lw, Lo; cbn [fdiv AX]; rewrite !fin_div by lra;
     cbn [fsub fmul fadd AX xsub xmul xadd xneg]; rewrite ?S1, ?S2; reflexivity);
    destruct (Rlt_dec uu 0); [lra|]; cbn [fst snd]; rewrite Ex, Ey; repeat split; assumption.
Qed.
End ExchCode.
