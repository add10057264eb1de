(** The proposals and MetropStep (C45, C46, C47). *)
From Coq Require Import Reals List Arith ZArith Bool Lra Lia.
From Coquelicot Require Import Coquelicot.
From Verif Require Import Arith Res ListLemmas Spec Gauss Emb Cx KFpProof EngineModel EngineSpec EngineProof EngineInv CholProof RamProof EngineHist Balance.
Import ListNotations.

Set Implicit Arguments.
Unset Strict Implicit.
Local Open Scope R_scope.

Lemma xpow_pos a b : 0 < a -> xpow (Fin a) (Fin b) = Fin (Rpower a b).
Proof. intros H. unfold xpow, rsgn. destruct (Rlt_dec a 0); [lra|]. destruct (Rlt_dec 0 a); [reflexivity|lra]. Qed.
Lemma Rpower_pos a b : 0 < Rpower a b.
Proof. apply exp_pos. Qed.
Lemma Rpower_inv_exp x s : 0 < x -> s <> 0 -> Rpower (Rpower x (1 / s)) s = x.
Proof. intros Hx Hs. rewrite Rpower_mult. replace (1 / s * s) with 1 by (field; exact Hs). apply Rpower_1, Hx. Qed.
Lemma Rpower_lt_base x y s : 0 < x < y -> 0 < s -> Rpower x s < Rpower y s.
Proof. intros [H1 H2] Hs. unfold Rpower. apply exp_increasing. apply Rmult_lt_compat_l; [exact Hs|]. apply ln_increasing; assumption. Qed.
Lemma Rpower_lt_base_neg x y s : 0 < x < y -> s < 0 -> Rpower y s < Rpower x s.
Proof. intros [H1 H2] Hs. unfold Rpower. apply exp_increasing. apply Rmult_lt_gt_compat_neg_l; [exact Hs|]. apply ln_increasing; assumption. Qed.

(** cumulative distribution function of the power law x^s on [lo, hi] *)
Definition powerlaw_cdf (lo hi s x : R) : R := (Rpower x (s + 1) - Rpower lo (s + 1)) / (Rpower hi (s + 1) - Rpower lo (s + 1)).

Section Pr.
Variable R0 : rng AX.

Theorem powerlaw_exact (lo hi s u : R) g g1 : 0 < lo < hi -> s <> -1 -> 0 <= u <= 1 ->
  @runiform AX R0 (Fin 0) (Fin 1) g = (Fin u, g1) ->
  exists x : R, powerlaw (R := R0) (Fin lo) (Fin hi) (Fin s) g = (Fin x, g1) /\ lo <= x <= hi /\ powerlaw_cdf lo hi s x = u.
Proof.
  intros Hl Hs Hu Hun. unfold powerlaw. change (fofZ AX 0) with (Fin 0). change (fofZ AX 1) with (Fin 1). rewrite Hun.
  cbn [fadd fsub fmul fdiv fpow AX xadd]. rewrite fin_div by lra. rewrite !xpow_pos by lra. cbn [xsub xmul xadd].
  set (p := s + 1). assert (p <> 0) as Hp by (unfold p; lra).
  set (B := (Rpower hi p - Rpower lo p) * u + Rpower lo p).
  pose proof (Rpower_pos lo p) as Plo. pose proof (Rpower_pos hi p) as Phi.
  assert (0 < B) as HB.
  { unfold B. replace ((Rpower hi p - Rpower lo p) * u + Rpower lo p) with (Rpower hi p * u + Rpower lo p * (1 - u)) by ring.
    destruct (Rle_dec u (1/2)); [|]; nra. }
  rewrite xpow_pos by exact HB. exists (Rpower B (1 / p)). split; [reflexivity|].
  assert (Rpower (Rpower B (1 / p)) p = B) as EB by (apply Rpower_inv_exp; assumption).
  pose proof (Rpower_pos B (1 / p)) as Px.
  assert (Rpower hi p <> Rpower lo p) as Hne.
  { destruct (Rtotal_order p 0) as [Hn|[Hz|Hpos]]; [|lra|].
    - pose proof (@Rpower_lt_base_neg lo hi p ltac:(lra) Hn). lra.
    - pose proof (@Rpower_lt_base lo hi p ltac:(lra) Hpos). lra. }
  split.
  - destruct (Rtotal_order p 0) as [Hn|[Hz|Hpos]]; [|lra|].
    + pose proof (@Rpower_lt_base_neg lo hi p ltac:(lra) Hn) as Hlt.
      assert (Rpower hi p <= B <= Rpower lo p) as HBr by (unfold B; split; nra).
      split; apply Rnot_lt_le; intros Hc.
      * pose proof (@Rpower_lt_base_neg (Rpower B (1 / p)) lo p ltac:(lra) Hn). lra.
      * pose proof (@Rpower_lt_base_neg hi (Rpower B (1 / p)) p ltac:(lra) Hn). lra.
    + pose proof (@Rpower_lt_base lo hi p ltac:(lra) Hpos) as Hlt.
      assert (Rpower lo p <= B <= Rpower hi p) as HBr by (unfold B; split; nra).
      split; apply Rnot_lt_le; intros Hc.
      * pose proof (@Rpower_lt_base (Rpower B (1 / p)) lo p ltac:(lra) Hpos). lra.
      * pose proof (@Rpower_lt_base hi (Rpower B (1 / p)) p ltac:(lra) Hpos). lra.
  - unfold powerlaw_cdf. fold p. rewrite EB. unfold B. field. lra.
Qed.

(** ** MetropStep::Accept: the move is made exactly when the uniform number is below min(1, exp(alpha)) *)
Definition macc (alpha : xr) : R := match alpha with Fin d => Rmin 1 (exp d) | _ => 0 end.
Section Metrop.
Variables (X V : Type).
Variable P : methodsP R0 X V.
Local Notation param := (param AX X V).
Lemma metrop_accept_decides qld m (w : param) new old g l o (uu : R) g1 b m' w' g' : 0 <= uu ->
  o_LogDensity P (w_obj w) new = Ok (l, o) -> @runiform AX R0 (Fin 0) (Fin 1) g = (Fin uu, g1) ->
  metrop_accept P qld m w new old g = Ok (b, m', w', g') ->
  let alpha := xsub (xadd (xsub (xdiv l (w_temp w)) (xdiv (w_logpost w) (w_temp w))) (qld (set_obj w o) old new)) (qld (set_obj w o) new old) in
  b = (if Rlt_dec uu (macc alpha) then true else false) /\ w' = set_obj w o.
Proof.
  intros Hu HL Hun E alpha. unfold metrop_accept, LD in E. rewrite HL in E. cbn [bind w_temp w_logpost set_obj] in E.
  match type of E with context [ffin AX ?a] => change a with alpha in E end.
  destruct alpha as [d| | |]; cbn [ffin AX xfin negb macc] in *.
  2-4: injection E as <- _ <- _; destruct (Rlt_dec uu 0); [lra|split; reflexivity].
  change (fofZ AX 0) with (Fin 0) in E. change (fofZ AX 1) with (Fin 1) in E. rewrite Hun in E.
  assert (fmin AX (fexp AX (Fin d)) (Fin 1) = Fin (Rmin 1 (exp d))) as Em2.
  { unfold fmin. cbn [flt fexp AX xexp xlt]. destruct (Rlt_dec 1 (exp d)); [rewrite Rmin_left by lra|rewrite Rmin_right by lra]; reflexivity. }
  rewrite Em2 in E. injection E as <- _ <- _. cbn [flt AX xlt]. split; [destruct (Rlt_dec _ _); reflexivity|reflexivity].
Qed.
(** MetropStep::DoStep *)
Theorem metrop_step_decides Q (draw : V -> gen R0 -> res (V * Q * gen R0)) (qld : Q -> param -> V -> V -> xr) m (w : param) g new q g1 l o (uu : R) g2 m' w' g' : 0 <= uu ->
  draw (w_value w) g = Ok (new, q, g1) ->
  o_LogDensity P (w_obj w) new = Ok (l, o) -> @runiform AX R0 (Fin 0) (Fin 1) g1 = (Fin uu, g2) ->
  metrop_step P draw qld m w g = Ok (m', w', g') ->
  let w1 := set_obj w o in
  let alpha := xsub (xadd (xsub (xdiv l (w_temp w)) (xdiv (w_logpost w) (w_temp w))) (qld q w1 (w_value w) new)) (qld q w1 new (w_value w)) in
  if Rlt_dec uu (macc alpha) then w_value w' = new /\ exists o', o_LogDensity P o new = Ok (w_logpost w', o') else w' = w1.
Proof.
  intros Hu Hd HL Hun E w1 alpha. unfold metrop_step in E. rewrite Hd in E. cbn [bind] in E.
  apply bind_Ok in E. destruct E as ([[[a m1] w2] g3] & Ea & E). apply bind_Ok in E. destruct E as (w3 & Es & E).
  destruct (metrop_accept_decides Hu HL Hun Ea) as [Hb Hw]. fold w1 in Hb, Hw. fold alpha in Hb.
  assert (w' = w3) as -> by (destruct (Z.eqb _ _); injection E as _ <- _; reflexivity).
  destruct (Rlt_dec uu (macc alpha)); subst a w2.
  - unfold Save in Es. apply bind_Ok in Es. destruct Es as ([l' x] & EL & Q0). injection Q0 as <-. cbn. split; [reflexivity|]. exists x. exact EL.
  - injection Es as <-. reflexivity.
Qed.
End Metrop.
End Pr.

(** ** The stretch move *)
(** the point c + z (x - c) *)
Definition stretch_pt (c : list R) (z : R) (x : list R) : list R := map (fun p => fst p + z * (snd p - fst p)) (combine c x).
Lemma stretch_len c z x : length x = length c -> length (stretch_pt c z x) = length c.
Proof. intros H. unfold stretch_pt. rewrite map_length, combine_length. lia. Qed.
Lemma stretch_back c z x : z <> 0 -> length x = length c -> stretch_pt c (/ z) (stretch_pt c z x) = x.
Proof.
  intros Hz. unfold stretch_pt. revert x. induction c as [|a c IH]; intros [|b x] H; try discriminate; [reflexivity|]. cbn in *. rewrite IH by lia. f_equal. field. exact Hz.
Qed.
(** current and proposed value closer than 1e-10 in every coordinate *)
Definition close (x y : list R) : Prop := List.Forall (fun p : R * R => Rabs (fst p - snd p) < 1 / 10000000000) (combine x y).
Definition close_dec x y : {close x y} + {~ close x y}.
Proof. unfold close. apply Forall_dec. intros p. apply Rlt_dec. Defined.

Section Stretch.
Variable R0 : rng AX.
Lemma stretch_logdens_spec (x y : list R) z (old : list xr) : 0 < z -> length x = length y ->
  stretch_logdens AX (map Fin x) (Fin z) (map Fin y) old = Fin (if close_dec x y then (INR (length y) - 1) * ln z else 0).
Proof.
  intros Hz Hl. unfold stretch_logdens. change (F AX) with xr. rewrite map_length.
  assert (forallb (fun p : xr * xr => flt AX (fabs AX (fsub AX (fst p) (snd p))) (fdec AX 1 10000000000)) (combine (map Fin x) (map Fin y)) = if close_dec x y then true else false) as E.
  { assert (forall x y, forallb (fun p : xr * xr => flt AX (fabs AX (fsub AX (fst p) (snd p))) (fdec AX 1 10000000000)) (combine (map Fin x) (map Fin y)) = true <-> close x y) as K.
    { clear. intros x. unfold close. induction x as [|a x IH]; intros [|b y]; cbn [map combine forallb]; try (split; [constructor|reflexivity]).
      cbn [fst snd fsub AX xsub fabs xabs flt fdec xlt]. rewrite andb_true_iff, IH. destruct (Rlt_dec (Rabs (a - b)) _) as [H|H].
      - split; [intros [_ K]; constructor; assumption|intros K; inversion K; split; [reflexivity|assumption]].
      - split; [intros [K _]; discriminate|intros K; inversion K; contradiction]. }
    destruct (close_dec x y) as [H|H]; [apply K, H|]. apply not_true_iff_false. intros Q. apply H, K, Q. }
  rewrite E. destruct (close_dec x y); [|reflexivity]. cbn [fmul fsub flog fofZ AX xsub]. rewrite fin_log by exact Hz. cbn [xmul]. rewrite <- INR_IZR_INZ. reflexivity.
Qed.
Lemma close_refl x : close x x.
Proof. unfold close. induction x as [|a x IH]; cbn; constructor; [cbn; rewrite Rminus_eq_0, Rabs_R0; lra|exact IH]. Qed.

(** boost's uniform_int_distribution returns an integer in its range *)
Definition valid_int := forall lo hi g, (lo <= hi)%Z -> (lo <= fst (b_int R0 lo hi g) <= hi)%Z.
Lemma grab_index_other fuel size me g j g' : (0 < size)%nat -> valid_int -> grab_index (R := R0) fuel size me g = Ok (j, g') -> (j < size)%nat /\ j <> me.
Proof.
  intros Hs Hv. revert g. induction fuel as [|fuel IH]; intros g E; [discriminate|]. cbn [grab_index] in E. unfold on_b in E.
  pose proof (Hv 0%Z (Z.of_nat size - 1)%Z (fst g) ltac:(lia)) as Hr. destruct (b_int R0 0 (Z.of_nat size - 1) (fst g)) as [k b]. cbn [fst] in Hr.
  destruct (Z.eqb_spec k (Z.of_nat me)) as [->|Hne]; [exact (IH _ E)|]. injection E as <- _. lia.
Qed.
(** a walker without partner never finds one *)
Lemma grab_index_alone fuel g : valid_int -> grab_index (R := R0) fuel 1 0 g = Diverge.
Proof.
  intros Hv. revert g. induction fuel as [|fuel IH]; intros g; [reflexivity|]. cbn [grab_index]. unfold on_b.
  pose proof (Hv 0%Z (Z.of_nat 1 - 1)%Z (fst g) ltac:(lia)) as Hr. destruct (b_int R0 0 (Z.of_nat 1 - 1) (fst g)) as [k b]. cbn [fst] in Hr.
  destruct (Z.eqb_spec k (Z.of_nat 0)); [apply IH|lia].
Qed.

(** What Draw returns.  The scale z is the quantile u of the power law z^(-1/2) on [1/a, a]. *)
Theorem stretch_draw_spec fuel (vs : list (list R)) me (a : R) (x : list R) g y z g' : 1 < a -> valid_int ->
  (forall g, exists (u : R) g1, @runiform AX R0 (Fin 0) (Fin 1) g = (Fin u, g1) /\ 0 <= u <= 1) ->
  List.Forall (fun c => length c = length x) vs -> vs <> [] ->
  stretch_draw (R := R0) fuel (map (map Fin) vs) me (Fin a) (map Fin x) g = Ok (y, z, g') ->
  exists j c (zr u : R) g1, j <> me /\ nth_error vs j = Some c /\ @runiform AX R0 (Fin 0) (Fin 1) g1 = (Fin u, g') /\
    z = Fin zr /\ 1 / a <= zr <= a /\ powerlaw_cdf (1 / a) a (- (1 / 2)) zr = u /\ y = map Fin (stretch_pt c zr x).
Proof.
  intros Ha Hv Hun Hl Hne E. unfold stretch_draw in E. apply bind_Ok in E. destruct E as ([j g1] & Ej & E).
  assert (0 < List.length (map (map Fin) vs))%nat as Hp by (rewrite map_length; destruct vs; [congruence|cbn; lia]).
  destruct (grab_index_other Hp Hv Ej) as [Hj Hm]. apply bind_Ok in E. destruct E as (other & Eo & E). apply vgetU_nth in Eo.
  rewrite map_length in Hj.
  assert (exists c, nth_error vs j = Some c /\ other = map Fin c) as (c & Hc & ->).
  { pose proof (@nth_error_map _ _ (map Fin) j vs) as Q. pose proof (eq_trans (eq_sym Q) Eo) as Q2. destruct (nth_error vs j) as [c|]; [|discriminate]. cbn in Q2. exists c. split; [reflexivity|]. injection Q2 as <-. reflexivity. }
  assert (length c = length x) as Hcl by exact (proj1 (Forall_nth_error _ _) Hl _ _ Hc).
  destruct (Hun g1) as (u & g2 & Hu & Hur). assert (0 < 1 / a < a) as Hr.
  { split; [apply Rdiv_lt_0_compat; lra|]. apply (Rmult_lt_reg_r a); [lra|]. unfold Rdiv. rewrite Rmult_assoc, Rinv_l by lra. nra. }
  destruct (@powerlaw_exact R0 (1 / a) a (- (1 / 2)) u g1 g2 Hr ltac:(lra) Hur Hu) as (zr & Ez & Hz & Hcdf).
  assert (fdiv AX (fofZ AX 1) (Fin a) = Fin (1 / a)) as E1 by (change (fofZ AX 1) with (Fin 1); apply fin_div; lra).
  change (fneg AX (fdec AX 1 2)) with (Fin (- (1 / 2))) in E. rewrite E1, Ez in E.
  unfold vsub, vadd in E. change (F AX) with xr in E. rewrite !map_length, Hcl, Nat.eqb_refl in E. cbn [bind] in E. change (F AX) with xr in E.
  unfold vscale in E. rewrite !map_length, combine_length, !map_length, Hcl, Nat.min_id, Nat.eqb_refl in E. cbn [bind] in E. injection E as <- <- <-.
  exists j, c, zr, u, g1. split; [exact Hm|]. split; [exact Hc|]. split; [exact Hu|]. split; [reflexivity|]. split; [exact Hz|]. split; [exact Hcdf|].
  unfold stretch_pt. clear - Hcl. revert x Hcl. induction c as [|p c IH]; intros [|q x] H; try discriminate; [reflexivity|]. cbn in *. rewrite IH by lia. reflexivity.
Qed.

(** density of z (not normalised), its symmetry, and that it is the density of the distribution function above *)
Definition gz (z : R) : R := Rpower z (- (1 / 2)).
Lemma gz_sym z : 0 < z -> gz (/ z) = z * gz z.
Proof.
  intros H. unfold gz. rewrite <- (Rpower_1 z H) at 2. rewrite <- Rpower_plus. 
  unfold Rpower. f_equal. rewrite ln_Rinv by exact H. field.
Qed.
Lemma gz_density a z : 1 < a -> 0 < z ->
  is_derive (fun z => powerlaw_cdf (1 / a) a (- (1 / 2)) z) z (gz z / (2 * (Rpower a (1 / 2) - Rpower (1 / a) (1 / 2)))).
Proof.
  intros Ha Hz. unfold powerlaw_cdf. replace (- (1 / 2) + 1) with (1 / 2) by field.
  assert (0 < 1 / a < a) as Hr.
  { split; [apply Rdiv_lt_0_compat; lra|]. apply (Rmult_lt_reg_r a); [lra|]. unfold Rdiv. rewrite Rmult_assoc, Rinv_l by lra. nra. }
  pose proof (@Rpower_lt_base (1 / a) a (1 / 2) Hr ltac:(lra)) as Hne.
  set (D := Rpower a (1 / 2) - Rpower (1 / a) (1 / 2)). assert (0 < D) as HD by (unfold D; lra).
  assert (is_derive (fun z => Rpower z (1 / 2)) z (1 / 2 * Rpower z (1 / 2 - 1))) as H1.
  { apply is_derive_Reals. exact (derivable_pt_lim_power z (1 / 2) Hz). }
  replace (gz z / (2 * D)) with (/ D * (1 / 2 * Rpower z (1 / 2 - 1))).
  - apply (is_derive_ext (fun z => / D * (Rpower z (1 / 2) - Rpower (1 / a) (1 / 2)))); [intros t; change (/ D * (Rpower t (1 / 2) - Rpower (1 / a) (1 / 2)) = (Rpower t (1 / 2) - Rpower (1 / a) (1 / 2)) / D); field; lra|].
    apply is_derive_scal. apply (is_derive_ext (fun z => Rpower z (1 / 2) + - Rpower (1 / a) (1 / 2))); [intros t; change (Rpower t (1 / 2) + - Rpower (1 / a) (1 / 2) = Rpower t (1 / 2) - Rpower (1 / a) (1 / 2)); ring|].
    replace (1 / 2 * Rpower z (1 / 2 - 1)) with (plus (1 / 2 * Rpower z (1 / 2 - 1)) 0) by (unfold plus; cbn; ring).
    apply (is_derive_plus (fun z => Rpower z (1 / 2)) (fun _ => - Rpower (1 / a) (1 / 2))); [exact H1|exact (is_derive_const (- Rpower (1 / a) (1 / 2)) z)].
  - unfold gz. replace (1 / 2 - 1) with (- (1 / 2)) by field. field. lra.
Qed.

(** probability min(1, z^(n-1) pi_T(y)/pi_T(x)) of a stretch from log-density lx to ly *)
Definition stretch_prob (n : nat) (T z : R) (lx ly : xr) : R :=
  match lx, ly with Fin a, Fin b => Rmin 1 (Rpower z (INR n - 1) * exp ((b - a) / T)) | _, _ => 0 end.
Lemma stretch_prob_range n T z a b : 0 <= stretch_prob n T z a b <= 1.
Proof.
  unfold stretch_prob. destruct a, b; try lra. split; [|apply Rmin_l]. apply Rmin_glb; [lra|]. left. apply Rmult_lt_0_compat; [apply Rpower_pos|apply exp_pos].
Qed.

Section Step.
Variable X : Type.
Variable P : methodsP R0 X (list (F AX)).
Local Notation param := (param AX X (list (F AX))).
(** MetropStep with a stretch proposal that moved to y with scale z.  [x] is the current value, lx its log-posterior. *)
Theorem stretch_step_code fuel vals me (a : xr) m (w : param) g (x y : list R) (z T lx uu : R) ly g1 g2 o m' w' g' : 0 < T -> 0 < z -> 0 <= uu ->
  length x = length y -> w_value w = map Fin x -> w_logpost w = Fin lx -> w_temp w = Fin T -> (exists r, ly = Fin r) \/ ly = NInf ->
  stretch_draw (R := R0) fuel vals me a (map Fin x) g = Ok (map Fin y, Fin z, g1) ->
  o_LogDensity P (w_obj w) (map Fin y) = Ok (ly, o) -> @runiform AX R0 (Fin 0) (Fin 1) g1 = (Fin uu, g2) ->
  metrop_step P (stretch_draw (R := R0) fuel vals me a) (fun q v new old => stretch_logdens AX (w_value v) q new old) m w g = Ok (m', w', g') ->
  w_value w' = map Fin (if Rlt_dec uu (if close_dec x y then stretch_prob 1 T z (Fin lx) ly else stretch_prob (length x) T z (Fin lx) ly) then y else x).
Proof.
  intros HT Hz Hu Hl Hv Hlx HTw Hly Hd HL Hun E.
  assert (stretch_draw (R := R0) fuel vals me a (w_value w) g = Ok (map Fin y, Fin z, g1)) as Hd' by (rewrite Hv; exact Hd).
  pose proof (metrop_step_decides Hu Hd' HL Hun E) as K. cbv zeta in K. cbn [w_value set_obj] in K. rewrite Hlx, HTw, Hv in K.
  rewrite (stretch_logdens_spec (map Fin y) Hz (eq_refl (length x))) in K. rewrite (stretch_logdens_spec (map Fin x) Hz Hl) in K.
  destruct (close_dec x x) as [_|H]; [|contradiction (H (close_refl x))].
  assert (macc (xsub (xadd (xsub (xdiv ly (Fin T)) (xdiv (Fin lx) (Fin T))) (Fin ((INR (length x) - 1) * ln z))) (Fin (if close_dec x y then (INR (length y) - 1) * ln z else 0))) =
     (if close_dec x y then stretch_prob 1 T z (Fin lx) ly else stretch_prob (length x) T z (Fin lx) ly)) as Em.
  { destruct Hly as [[r ->]| ->]; [|rewrite fin_div by lra; cbn [xdiv]; unfold rsgn; destruct (Rlt_dec T 0); [lra|]; destruct (Rlt_dec 0 T); destruct (close_dec x y); reflexivity].
    rewrite !fin_div by lra. cbn [xsub xadd macc stretch_prob]. destruct (close_dec x y).
    - f_equal. unfold Rpower. rewrite <- exp_plus. f_equal. rewrite Hl. cbn [INR]. field. lra.
    - f_equal. unfold Rpower. rewrite <- exp_plus. f_equal. field. lra. }
  rewrite Em in K. destruct (Rlt_dec uu _); [exact (proj1 K)|]. exact (eq_trans (f_equal (@w_value AX X (list xr)) K) Hv).
Qed.
End Step.
End Stretch.

(** Detailed balance of the stretch move with a fixed partner c, and invariance of the tempered posterior *)
Section StretchBal.
Variable c : list R.
Variable ell : list R -> xr.
Variable T : R.
Hypothesis HT : 0 < T.
Local Notation n := (length c).
Definition stretch_rev (s : list R * R) : list R * R := (stretch_pt c (snd s) (fst s), / snd s).
Definition stretch_jac (s : list R * R) : R := Rpower (snd s) (INR n - 2).
Definition stretch_ok (s : list R * R) : Prop := length (fst s) = n /\ 0 < snd s.
Definition stretch_next (x : list R) (z t : R) : list R :=
  if Rlt_dec t (stretch_prob n T z (ell x) (ell (stretch_pt c z x))) then stretch_pt c z x else x.
Lemma stretch_prob_balance z lx ly : 0 < z ->
  tempered T lx * gz z * stretch_prob n T z lx ly = tempered T ly * gz (/ z) * stretch_prob n T (/ z) ly lx * Rpower z (INR n - 2).
Proof.
  intros Hz. unfold tempered, stretch_prob. destruct lx as [a| | |], ly as [b| | |]; try ring.
  rewrite gz_sym by exact Hz.
  assert (Rpower (/ z) (INR n - 1) = / Rpower z (INR n - 1)) as E1.
  { unfold Rpower. rewrite ln_Rinv by exact Hz. rewrite <- exp_Ropp. f_equal. ring. }
  assert (z * Rpower z (INR n - 2) = Rpower z (INR n - 1)) as E2.
  { rewrite <- (Rpower_1 z Hz) at 1. rewrite <- Rpower_plus. f_equal. ring. }
  rewrite E1. set (W := Rpower z (INR n - 1)) in *. assert (0 < W) as HW by apply Rpower_pos.
  assert (forall p q k, 0 < k -> exp p * Rmin 1 (k * exp (q - p)) = Rmin (exp p) (k * exp q)) as K.
  { intros p q k Hk. replace (exp q) with (exp p * exp (q - p)) by (rewrite <- exp_plus; f_equal; ring).
    pose proof (exp_pos p). pose proof (exp_pos (q - p)). unfold Rmin. set (e := exp (q - p)) in *. set (ep := exp p) in *.
    destruct (Rle_dec 1 (k * e)); destruct (Rle_dec ep (k * (ep * e))); try lra; nra. }
  replace ((b - a) / T) with (b / T - a / T) by (field; lra). replace ((a - b) / T) with (a / T - b / T) by (field; lra).
  transitivity (gz z * (exp (a / T) * Rmin 1 (W * exp (b / T - a / T)))); [ring|].
  transitivity (gz z * (z * Rpower z (INR n - 2)) * (exp (b / T) * Rmin 1 (/ W * exp (a / T - b / T)))); [|ring].
  rewrite E2, !K; [|apply Rinv_0_lt_compat, HW|exact HW]. rewrite Rmult_assoc. f_equal.
  pose proof (exp_pos (a / T)). pose proof (exp_pos (b / T)). set (ea := exp (a / T)) in *. set (eb := exp (b / T)) in *.
  assert (W * (/ W * ea) = ea) as Ew by (field; lra). assert (0 < / W) by (apply Rinv_0_lt_compat, HW).
  unfold Rmin. destruct (Rle_dec ea (W * eb)); destruct (Rle_dec eb (/ W * ea)); try nra.
Qed.
Theorem stretch_detailed_balance x z : length x = n -> 0 < z -> let y := stretch_pt c z x in
  tempered T (ell x) * gz z * stretch_prob n T z (ell x) (ell y) =
  tempered T (ell y) * gz (/ z) * stretch_prob n T (/ z) (ell y) (ell (stretch_pt c (/ z) y)) * stretch_jac (x, z).
Proof. intros H Hz y. unfold y. rewrite stretch_back by (exact H || lra). exact (stretch_prob_balance _ _ Hz). Qed.
Theorem stretch_invariant (I : integral stretch_ok stretch_rev stretch_jac) (f : list R -> R) :
  let law := fun s => tempered T (ell (fst s)) * gz (snd s) in
  i_dom I (fun s => law s * RInt (fun t => f (stretch_next (fst s) (snd s) t)) 0 1) ->
  i_dom I (fun s => law s * f (fst s)) ->
  i_val I (fun s => law s * RInt (fun t => f (stretch_next (fst s) (snd s) t)) 0 1) = i_val I (fun s => law s * f (fst s)).
Proof.
  intros law D1 D2. apply (i_balance D1 D2).
  assert (forall x z, RInt (fun t => f (stretch_next x z t)) 0 1 =
    stretch_prob n T z (ell x) (ell (stretch_pt c z x)) * f (stretch_pt c z x) + (1 - stretch_prob n T z (ell x) (ell (stretch_pt c z x))) * f x) as K.
  { intros x z. rewrite <- RInt_choice by apply stretch_prob_range. apply RInt_ext. intros t _. unfold stretch_next. destruct (Rlt_dec _ _); reflexivity. }
  intros [x z] [H1 H2]. cbn [fst snd] in *. unfold law, stretch_rev. cbn [fst snd]. rewrite !K. rewrite stretch_back by (exact H1 || lra).
  pose proof (stretch_prob_balance (ell x) (ell (stretch_pt c z x)) H2) as B. unfold stretch_jac. cbn [snd].
  set (px := tempered T (ell x)) in *. set (py := tempered T (ell (stretch_pt c z x))) in *. set (J := Rpower z (INR n - 2)) in *.
  set (a := stretch_prob n T z _ _) in *. set (a' := stretch_prob n T (/ z) _ _) in *.
  transitivity (py * gz (/ z) * a' * J * (f x - f (stretch_pt c z x))); [ring|]. rewrite <- B. ring.
Qed.
End StretchBal.

(** ** Log-normal proposals *)
(** density of the log-normal proposal at x given the current value y *)
Definition lognormal_density (s x y : R) : R := / (x * s * sqrt (2 * PI)) * exp (- (ln x - ln y) ^ 2 / (2 * s ^ 2)).
Theorem lognormal_ratio s x y : 0 < s -> 0 < x -> 0 < y ->
  fsub AX (lognormal_logdens AX (Fin x) (Fin y)) (lognormal_logdens AX (Fin y) (Fin x)) =
  Fin (ln (lognormal_density s x y / lognormal_density s y x)).
Proof.
  intros Hs Hx Hy. unfold lognormal_logdens. cbn [flog fmul fneg fsub fofZ AX]. rewrite !fin_log by assumption. cbn [xneg xmul xsub]. f_equal.
  assert (0 < sqrt (2 * PI)) as Hp by (apply sqrt_lt_R0; pose proof PI_RGT_0; lra).
  unfold lognormal_density. replace ((ln y - ln x) ^ 2) with ((ln x - ln y) ^ 2) by ring. pose proof (exp_pos (- (ln x - ln y) ^ 2 / (2 * s ^ 2))).
  set (e := exp _) in *. replace (/ (x * s * sqrt (2 * PI)) * e / (/ (y * s * sqrt (2 * PI)) * e)) with (y * / x) by (field; repeat split; lra).
  rewrite ln_mult by (try apply Rinv_0_lt_compat; assumption). rewrite ln_Rinv by exact Hx. ring.
Qed.
(** MetropStep with a log-normal proposal: acceptance probability min(1, pi_T(y) q(x|y) / (pi_T(x) q(y|x))) *)
Theorem lognormal_step_code (R0 : rng AX) X (P : methodsP R0 X (F AX)) (logsd : xr) m (w : param AX X (F AX)) g (x y lx ly T s uu : R) g1 g2 o m' w' g' :
  0 < T -> 0 < s -> 0 < x -> 0 < y -> 0 <= uu ->
  w_value w = Fin x -> w_logpost w = Fin lx -> w_temp w = Fin T ->
  lognormal_draw (R := R0) logsd (Fin x) g = (Fin y, g1) ->
  o_LogDensity P (w_obj w) (Fin y) = Ok (Fin ly, o) -> @runiform AX R0 (Fin 0) (Fin 1) g1 = (Fin uu, g2) ->
  metrop_step P (fun v g => let (y, g') := lognormal_draw (R := R0) logsd v g in Ok (y, tt, g')) (fun _ _ new old => lognormal_logdens AX new old) m w g = Ok (m', w', g') ->
  w_value w' = Fin (if Rlt_dec uu (Rmin 1 (exp (ly / T) * lognormal_density s x y / (exp (lx / T) * lognormal_density s y x))) then y else x).
Proof.
  intros HT Hs Hx Hy Hu Hv Hlx HTw Hd HL Hun E.
  assert ((fun v g => let (y, g') := lognormal_draw (R := R0) logsd v g in Ok (y, tt, g')) (w_value w) g = Ok (Fin y, tt, g1)) as Hd'.
  { cbv beta. rewrite Hv. rewrite Hd. reflexivity. }
  pose proof (metrop_step_decides (draw := fun v g => let (y, g') := lognormal_draw (R := R0) logsd v g in Ok (y, tt, g')) Hu Hd' HL Hun E) as K. cbv zeta in K. rewrite Hlx, HTw, Hv in K.
  rewrite !fin_div in K by lra.
  match type of K with context [macc ?a] => assert (macc a = Rmin 1 (exp (ly / T) * lognormal_density s x y / (exp (lx / T) * lognormal_density s y x))) as Em end.
  { pose proof (lognormal_ratio Hs Hx Hy) as Q.
    assert (forall s x y, 0 < s -> 0 < x -> 0 < lognormal_density s x y) as Hpos.
    { clear. intros s x y Hs Hx. unfold lognormal_density. apply Rmult_lt_0_compat; [|apply exp_pos]. apply Rinv_0_lt_compat.
      assert (0 < sqrt (2 * PI)) by (apply sqrt_lt_R0; pose proof PI_RGT_0; lra). repeat apply Rmult_lt_0_compat; assumption. }
    pose proof (Hpos s x y Hs Hx) as P1. pose proof (Hpos s y x Hs Hy) as P2.
    unfold lognormal_logdens in *. cbn [flog fmul fneg fsub fofZ AX] in *. rewrite !fin_log in * by assumption. cbn [xneg xmul xsub xadd macc] in *.
    injection Q as Q. f_equal.
    replace (exp (ly / T) * lognormal_density s x y / (exp (lx / T) * lognormal_density s y x)) with (exp (ly / T) * exp (- (lx / T)) * (lognormal_density s x y / lognormal_density s y x)).
    2: { rewrite exp_Ropp. field. split; [lra|]. pose proof (exp_pos (lx / T)). lra. }
    rewrite <- (exp_ln (lognormal_density s x y / lognormal_density s y x)) by (apply Rdiv_lt_0_compat; assumption). rewrite <- Q, <- !exp_plus. f_equal. ring. }
  rewrite Em in K. destruct (Rlt_dec uu _); [exact (proj1 K)|]. rewrite K. exact Hv.
Qed.
