(** The variance of the measured values as the drivers of src/carmcmc.cpp compute it in double precision, and what a run
    makes of it: the prior bound on the total standard deviation and the first proposal covariance. *)
From Coq Require Import Reals ZArith Bool Lra Lia List String.
From Flocq Require Import Core BinarySingleNaN.
From Verif Require Import Arith Res ListLemmas KFModel Cx KFpModel KFpProof Spec SpecCarma SpecModel Gauss Emb CLin CarpackModel CarpackTop LogLikProof Float64 Float64KF Float64Var.
From Verif Require Import EngineModel StartModel EngineSpec EngineProof EngineInv CholProof RamProof EngineHist EngineClass EngineDriver EngineTop EngineAX.
Import ListNotations.
Local Open Scope R_scope.
Local Notation p2 e := (bpow radix2 e).

(** ** The sums stay finite *)
Lemma sum_in (B : R) : B <= p2 960 -> forall l acc (i : nat), (forall x, In x l -> fin x /\ Rabs (val x) <= B) -> fin acc -> Rabs (val acc) <= 2 * INR i * B ->
  (Z.of_nat (i + List.length l) < 2 ^ 50)%Z -> fin (fold_left (Bplus mode_NE) l acc) /\ Rabs (val (fold_left (Bplus mode_NE) l acc)) <= 2 * INR (i + List.length l) * B.
Proof.
  intros HB. induction l as [|x l IH]; intros acc i Hl Fa Ha Hn; cbn [fold_left List.length]; [rewrite Nat.add_0_r; split; assumption|].
  destruct (Hl x (or_introl eq_refl)) as [Fx Hx]. assert (0 <= B) as HB0 by (pose proof (Rabs_pos (val x)); lra).
  cbn [List.length] in Hn. assert (INR i + 1 <= p2 50) as Hi.
  { rewrite <- S_INR, INR_IZR_INZ. change (p2 50) with (IZR (2 ^ 50)). apply IZR_le. lia. }
  pose proof (pos_INR i) as Hi0.
  assert (Rabs (val acc + val x) <= (2 * INR i + 1) * B) as Hs by (eapply Rle_trans; [apply Rabs_triang|]; lra).
  assert ((2 * INR i + 2) * B <= p2 1011) as Hbig.
  { change 1011%Z with (51 + 960)%Z. rewrite bpow_plus. apply Rmult_le_compat; try lra. change (p2 51) with (2 * p2 50). lra. }
  assert (repr (p2 1011)) as Hr by (replace (p2 1011) with (IZR 1 * p2 (40 + 971)) by (rewrite Rmult_1_l; reflexivity); rewrite bpow_plus; replace (IZR 1 * (p2 40 * p2 971)) with (IZR (2 ^ 40) * p2 971) by (change (p2 40) with (IZR (2 ^ 40)); ring); apply repr_F; lia).
  destruct (add_in (- p2 1011) (p2 1011) acc x Fa Fx (repr_opp _ Hr) Hr) as [Fp _]; [apply abs_le; lra|].
  destruct (add_val _ _ Fp) as (_ & _ & Ev). pose proof (plus_err _ _ (repr_val acc) (repr_val x)) as He. rewrite <- Ev in He.
  replace (i + S (List.length l))%nat with (S i + List.length l)%nat by lia. apply IH; [intros z Hz; apply Hl; right; exact Hz|exact Fp| |lia].
  rewrite S_INR. set (a := val (Bplus mode_NE acc x)) in *. set (r := val acc + val x) in *.
  assert (Rabs a <= (1 + u53) * Rabs r) as H1 by (replace a with ((a - r) + r) by ring; eapply Rle_trans; [apply Rabs_triang|lra]).
  assert (u53 * (2 * INR i + 1) <= 1) as H2.
  { unfold u53. change (p2 (-52)) with (/ 4503599627370496). change (p2 50) with 1125899906842624 in Hi. lra. }
  pose proof u53_pos as Hu. assert ((1 + u53) * Rabs r <= (1 + u53) * ((2 * INR i + 1) * B)) as H3 by (apply Rmult_le_compat_l; lra).
  assert (u53 * (2 * INR i + 1) * B <= 1 * B) as H4 by (apply Rmult_le_compat_r; lra). lra.
Qed.
Lemma repr_pow e : (0 <= e <= 1020)%Z -> repr (p2 e).
Proof.
  intros H. split; [apply generic_format_bpow; unfold FLT_exp; lia|]. rewrite Rabs_pos_eq by apply bpow_ge_0. apply bpow_lt. lia.
Qed.
Lemma sq_fold l acc : fold_left sqstep l acc = fold_left (Bplus mode_NE) (map (fun x => Bmult mode_NE x x) l) acc.
Proof. revert acc. induction l as [|x l IH]; intros acc; [reflexivity|]. cbn [fold_left map]. rewrite IH. reflexivity. Qed.
(** finite measurements at most 2^450 in size have a finite variance *)
Lemma var_fin (l : list b64) : l <> [] -> (Z.of_nat (List.length l) < 2 ^ 50)%Z -> (forall x, In x l -> fin x /\ Rabs (val x) <= p2 450) -> fin (var64 l).
Proof.
  intros Hl Hn HB. assert (0 < List.length l)%nat as Hl0 by (destruct l; [congruence|cbn; lia]).
  destruct (ofZ_val (Z.of_nat (List.length l))) as [Fn Vn]; [lia|]. rewrite <- INR_IZR_INZ in Vn. destruct (ofZ_val 0) as [F0 V0]; [lia|]. set (k := INR (List.length l)) in *.
  assert (1 <= k) as Hk by (change 1 with (INR 1); apply le_INR; lia). assert (val (ofZ64 (Z.of_nat (List.length l))) <> 0) as Hn0 by (rewrite Vn; lra).
  assert (forall r B, 0 <= B -> Rabs r <= 2 * k * B -> Rabs (r / k) <= 2 * B) as Hq.
  { intros r B HB0 Hr. unfold Rdiv. rewrite Rabs_mult, (Rabs_pos_eq (/ k)) by (left; apply Rinv_0_lt_compat; lra). apply Rmult_le_reg_r with k; [lra|]. rewrite Rmult_assoc, Rinv_l by lra. lra. }
  destruct (@sum_in (p2 450) (bpow_le radix2 450 960 ltac:(lia)) l (ofZ64 0) 0 HB F0 ltac:(rewrite V0, Rabs_R0; change (INR 0) with 0; lra) ltac:(exact Hn)) as [Fs Hs].
  destruct (@sum_in (p2 900) (bpow_le radix2 900 960 ltac:(lia)) (map (fun x => Bmult mode_NE x x) l) (ofZ64 0) 0) as [Fq Hqs].
  - intros x Hx. apply in_map_iff in Hx. destruct Hx as (w & <- & Hw). destruct (HB w Hw) as [Fw Bw].
    destruct (mul_in 0 (p2 900) w w Fw Fw repr_0 (repr_pow 900 ltac:(lia))) as [Fm Bm]; [|split; [exact Fm|apply Rabs_le; pose proof (bpow_ge_0 radix2 900); lra]].
    split; [apply Rle_0_sqr|]. replace (val w * val w) with (Rabs (val w) * Rabs (val w)) by (rewrite <- Rabs_mult; apply Rabs_pos_eq, Rle_0_sqr).
    change 900%Z with (450 + 450)%Z. rewrite bpow_plus. apply Rmult_le_compat; try apply Rabs_pos; exact Bw.
  - exact F0.
  - rewrite V0, Rabs_R0. change (INR 0) with 0. lra.
  - rewrite map_length. exact Hn.
  - rewrite <- sq_fold in Fq, Hqs. rewrite map_length in Hqs. cbn [Nat.add] in Hs, Hqs. fold k in Hs, Hqs.
    apply Hq in Hs; [|apply bpow_ge_0]. apply Hq in Hqs; [|apply bpow_ge_0]. replace (2 * p2 450) with (p2 451) in Hs by (change 451%Z with (1 + 450)%Z; rewrite bpow_plus; reflexivity).
    replace (2 * p2 900) with (p2 901) in Hqs by (change 901%Z with (1 + 900)%Z; rewrite bpow_plus; reflexivity).
    apply abs_le in Hs. apply abs_le in Hqs. unfold var64.
    destruct (div_in (- p2 451) (p2 451) _ _ Fs Fn Hn0 (repr_opp _ (repr_pow 451 ltac:(lia))) (repr_pow 451 ltac:(lia))) as [Fm Bm]; [rewrite Vn; exact Hs|].
    destruct (div_in (- p2 901) (p2 901) _ _ Fq Fn Hn0 (repr_opp _ (repr_pow 901 ltac:(lia))) (repr_pow 901 ltac:(lia))) as [Fd Bd]; [rewrite Vn; exact Hqs|].
    set (mb := Bdiv mode_NE (fold_left (Bplus mode_NE) l (ofZ64 0)) (ofZ64 (Z.of_nat (List.length l)))) in *. set (db := Bdiv mode_NE (fold_left sqstep l (ofZ64 0)) (ofZ64 (Z.of_nat (List.length l)))) in *.
    destruct (mul_in 0 (p2 902) mb mb Fm Fm repr_0 (repr_pow 902 ltac:(lia))) as [Fw Bw].
    { split; [apply Rle_0_sqr|]. change 902%Z with (451 + 451)%Z. rewrite bpow_plus. pose proof (bpow_gt_0 radix2 451). nra. }
    refine (proj1 (sub_in (- p2 903) (p2 903) db _ Fd Fw (repr_opp _ (repr_pow 903 ltac:(lia))) (repr_pow 903 ltac:(lia)) _)).
    change 903%Z with (1 + 902)%Z. rewrite bpow_plus. change (p2 1) with 2. pose proof (bpow_le radix2 901 902 ltac:(lia)). lra.
Qed.

(** ** Real numbers *)
(** the mean of the squares *)
Definition msq (y : list R) : R := Rsum (fun i => nth i y 0 * nth i y 0) (List.length y) / INR (List.length y).
Lemma sumf_Rsum f (l : list b64) : sumf f l = Rsum (fun i => f (nth i (map val l) 0)) (List.length (map val l)).
Proof.
  rewrite map_length. unfold sumf. induction l as [|x l IH]; [reflexivity|]. cbn [List.length]. rewrite Rsum_shift. cbn [map nth fold_right]. rewrite IH. reflexivity.
Qed.
Lemma pvar_msq (y : list R) : y <> [] -> pvar y = msq y - smean y * smean y.
Proof.
  intros Hy. unfold pvar, msq. set (m := smean y). set (S1 := Rsum (fun i => nth i y 0) (List.length y)). set (S2 := Rsum (fun i => nth i y 0 * nth i y 0) (List.length y)).
  assert (INR (List.length y) <> 0) as Hn by (apply not_0_INR; destruct y; [congruence|discriminate]).
  assert (m = S1 / INR (List.length y)) as Em by reflexivity.
  assert (Rsum (fun i => (nth i y 0 - m) ^ 2) (List.length y) = S2 - 2 * m * S1 + m ^ 2 * INR (List.length y)) as E.
  { unfold S1, S2. clearbody m. clear. generalize (List.length y) as n. induction n as [|n IH]; [cbn; ring|]. rewrite S_INR. cbn [Rsum]. rewrite IH. ring. }
  rewrite E, Em. field. exact Hn.
Qed.
(** the bound on the rounding error *)
Definition var_tol (y : list R) : R := (8 * INR (List.length y) + 20) * p2 (-53) * msq y + p2 (-1072).
Theorem var_real (l : list b64) : l <> [] -> (Z.of_nat (List.length l) < 2 ^ 50)%Z -> fin (var64 l) -> Rabs (val (var64 l) - pvar (map val l)) <= var_tol (map val l).
Proof.
  intros Hl Hn Hf. pose proof (var_err l Hl Hn Hf) as H. cbv zeta in H. rewrite !sumf_Rsum in H.
  assert (map val l <> []) as Hm by (destruct l; [congruence|discriminate]). rewrite (pvar_msq _ Hm). unfold var_tol, msq, smean. rewrite !map_length in *. exact H.
Qed.

Lemma vbuild_nth_error T n (f : nat -> T) i : (i < n)%nat -> nth_error (vbuild n f) i = Some (f i).
Proof. intros H. rewrite (nth_error_nth' _ (f i)) by (rewrite vbuild_len; exact H). rewrite vbuild_nth by exact H. reflexivity. Qed.
(** ** Doubles *)
Section D.
Variables exp64 log64 sin64 cos64 : b64 -> b64.
Variable pow64 : b64 -> b64 -> b64.
Notation A := (A64 exp64 log64 sin64 cos64 pow64).
Lemma pop_var64 (y : list b64) : pop_var A y = var64 y. Proof. reflexivity. Qed.
Lemma finite_laws_64 : finite_laws A.
Proof.
  constructor; [|reflexivity]. cbn [ffin fdiv fsub]. intros a b c H. change (is_finite a = true). change (fin (Bdiv mode_NE (Bminus mode_NE a b) c)) in H.
  assert (is_finite (Bminus mode_NE a b) = true) as H1 by (destruct (Bminus mode_NE a b) as [s|s| |s m e Hb], c; try reflexivity; discriminate H).
  exact (proj1 (sub_fin a b H1)).
Qed.
(** LAPACK's potrf, which arma::chol calls, fails when a pivot is not positive (or NaN); a pivot is at most the diagonal element *)
Definition chol_sane (chol : mat A -> option (mat A)) : Prop :=
  forall M L, chol M = Some L -> forall i row, nth_error M i = Some row -> forall d, nth_error row i = Some d -> Bltb (ofZ64 0) d = true.
Lemma ram_needs_var chol n y target burnin a0 r : chol_sane chol -> (3 <= n)%nat -> ram_new chol (prop_covar A n y) target burnin a0 = Ok r ->
  Bltb (ofZ64 0) (Bdiv mode_NE (var64 y) (ofZ64 (Z.of_nat (List.length y)))) = true.
Proof.
  intros Hc Hn E. unfold ram_new in E. destruct (chol (prop_covar A n y)) as [L|] eqn:EL; [|discriminate].
  refine (Hc _ _ EL 2%nat (vbuild n (fun j => if negb (2 =? j)%nat then ofZ64 0 else Bdiv mode_NE (var64 y) (ofZ64 (Z.of_nat (List.length y))))) _ _ _).
  - unfold prop_covar, mbuild. rewrite vbuild_nth_error by lia. reflexivity.
  - rewrite vbuild_nth_error by lia. reflexivity.
Qed.
Lemma ltb_val (x y : b64) : fin x -> fin y -> Bltb x y = true -> val x < val y.
Proof. intros Fx Fy H. rewrite (Bltb_correct 53 1024 _ _ Fx Fy) in H. unfold val. revert H. case Rlt_bool_spec; intros; [assumption|discriminate]. Qed.
Lemma ltb_val_false (x y : b64) : fin x -> fin y -> Bltb x y = false -> val y <= val x.
Proof. intros Fx Fy H. rewrite (Bltb_correct 53 1024 _ _ Fx Fy) in H. unfold val. revert H. case Rlt_bool_spec; intros; [discriminate|assumption]. Qed.
Lemma div_pos v n : fin v -> fin n -> 1 <= val n -> Bltb (ofZ64 0) (Bdiv mode_NE v n) = true -> 0 < val v.
Proof.
  intros Fv Fn Hn H. assert (val n <> 0) as Hn0 by lra. destruct (ofZ_val 0) as [F0 V0]; [lia|].
  assert (repr (Rabs (val v))) as Hr by (destruct (repr_val v) as [R1 R2]; split; [apply generic_format_abs, R1|rewrite Rabs_Rabsolu; exact R2]).
  destruct (Rle_or_lt (val v) 0) as [Hv|Hv]; [|exact Hv].
  destruct (div_in (- Rabs (val v)) 0 v n Fv Fn Hn0 (repr_opp _ Hr) repr_0) as [Fd Bd].
  - rewrite Rabs_left1 by exact Hv. assert (0 < / val n) as Hi by (apply Rinv_0_lt_compat; lra). assert (/ val n <= 1) by (rewrite <- Rinv_1; apply Rinv_le_contravar; lra). unfold Rdiv. nra.
  - apply ltb_val in H; [|exact F0|exact Fd]. lra.
Qed.
(** ** A run *)
Section Run.
Variable R : rng A.
Variables vsort dsort : list (F A) -> option (list (F A)).
Variable solve : list (list (cx A)) -> list (cx A) -> option (list (cx A)).
Variable si : list (F A) -> option (list nat).
Variable chol : mat A -> option (mat A).
Hypothesis Hc : chol_sane chol.
Lemma small_n (y : list b64) : y <> [] -> (Z.of_nat (List.length y) < 2 ^ 50)%Z -> fin (ofZ64 (Z.of_nat (List.length y))) /\ 1 <= val (ofZ64 (Z.of_nat (List.length y))).
Proof.
  intros Hy Hn. destruct (ofZ_val (Z.of_nat (List.length y))) as [Fn Vn]; [lia|]. split; [exact Fn|]. rewrite Vn. apply (IZR_le 1). destruct y; [congruence|cbn [List.length]; lia].
Qed.
Definition moderate (y : list b64) : Prop := y <> [] /\ (Z.of_nat (List.length y) < 2 ^ 50)%Z /\ forall x, In x y -> fin x /\ Rabs (val x) <= p2 450.
Lemma var_pos n y target burnin a0 r : moderate y -> (3 <= n)%nat -> ram_new chol (prop_covar A n y) target burnin a0 = Ok r -> 0 < val (var64 y).
Proof using Hc.
  intros (Hy & Hn & HB) H3 E. destruct (small_n y Hy Hn) as [Fn Bn]. exact (div_pos _ _ (var_fin y Hy Hn HB) Fn Bn (ram_needs_var chol n y target burnin a0 r Hc H3 E)).
Qed.
Lemma carma_needs_var fuel N burnin t y e p q nw z thin init raw v0 l0 a0 (g : gen R) w g' : moderate y ->
  RunCarmaSampler (R := R) dsort solve si chol fuel N burnin t y e p q nw z thin init raw v0 l0 a0 g = Ok (w, g') -> 0 < val (var64 y).
Proof using Hc.
  intros Hm E. destruct (RunCarma_inv E) as (b & b1 & r & ex & s & label & Hp & _ & _ & _ & Er & _). refine (var_pos _ y _ _ _ r Hm _ Er). unfold walker_dim. destruct z; lia.
Qed.
Lemma car1_needs_var N burnin t y e thin init raw v0 l0 a0 (g : gen R) w g' : moderate y ->
  RunCar1Sampler (R := R) vsort si chol N burnin t y e thin init raw v0 l0 a0 g = Ok (w, g') -> 0 < val (var64 y).
Proof using Hc.
  intros Hm E. destruct (RunCar1_inv E) as (b & b1 & r & s & _ & _ & Er & _). refine (var_pos 4 y _ _ _ r Hm _ Er). lia.
Qed.
End Run.
End D.

(** ** The prior bound in use, in any arithmetic *)
Section Bound.
Variable A : Arith.
Variable R : rng A.
Variable dsort : list (F A) -> option (list (F A)).
Variable solve : list (list (cx A)) -> list (cx A) -> option (list (cx A)).
Variable si : list (F A) -> option (list nat).
Variable chol : mat A -> option (mat A).
Lemma walker_new_prior raw p z t y e b : walker_new (A := A) si raw p z t y e = Ok b -> ignore_prior (b_bounds b) = false.
Proof.
  assert (forall b, carp_new (A := A) si raw p t y e = Ok b -> ignore_prior (b_bounds b) = false) as H.
  { intros b0 E. unfold carp_new in E. apply bind_Ok in E. destruct E as (b1 & E1 & E). unfold base_new in E1. apply bind_Ok in E1. destruct E1 as (v & _ & E1).
    apply bind_Ok in E1. destruct E1 as (bd & Eb & E1). apply bind_Ok in E1. destruct E1 as (s & _ & E1). injection E1 as <-. destruct (p =? 0)%nat; [discriminate|]. injection E as <-.
    unfold make_bounds in Eb. apply bind_Ok in Eb. destruct Eb as (d & _ & Eb). apply bind_Ok in Eb. destruct Eb as (m & _ & Eb). apply bind_Ok in Eb. destruct Eb as (hi & _ & Eb).
    apply bind_Ok in Eb. destruct Eb as (lo & _ & Eb). injection Eb as <-. reflexivity. }
  unfold walker_new. destruct z; [|apply H]. unfold zcar_new. intros E. apply bind_Ok in E. destruct E as (b0 & E0 & E). apply bind_Ok in E. destruct E as (d & _ & E).
  apply bind_Ok in E. destruct E as (m & _ & E). apply bind_Ok in E. destruct E as (ma & _ & E). injection E as <-. exact (H _ E0).
Qed.
Lemma run_stdev fuel N burnin t y e p q nw z thin init raw v0 l0 a0 (g : gen R) w g' :
  List.length y = List.length t -> List.length e = List.length t -> all_kept si t ->
  RunCarmaSampler (R := R) dsort solve si chol fuel N burnin t y e p q nw z thin init raw v0 l0 a0 g = Ok (w, g') ->
  max_stdev (b_bounds (w_obj w)) = fmul A (fofZ A 10) (fsqrt A (pop_var A y)) /\ ignore_prior (b_bounds (w_obj w)) = false.
Proof.
  intros Hy He Hk E. destruct (RunCarma_inv E) as (b & b1 & r & ex & s & label & _ & _ & Eb & Eb1 & _ & Erun & Hw & ->).
  destruct (SetPrior_ok (walker_new_kept Hy He Hk Eb) Eb1) as (Hwf & _).
  assert (max_stdev (b_bounds b1) = fmul A (fofZ A 10) (fsqrt A (pop_var A y)) /\ ignore_prior (b_bounds b1) = false) as Hb1.
  { pose proof (walker_new_prior _ _ _ _ _ _ _ Eb) as Hi. unfold SetPrior in Eb1. apply bind_Ok in Eb1. destruct Eb1 as (bd & Em & E1). injection E1 as <-. cbn [b_bounds].
    unfold make_bounds in Em. apply bind_Ok in Em. destruct Em as (d & _ & Em). apply bind_Ok in Em. destruct Em as (m & _ & Em). apply bind_Ok in Em. destruct Em as (hi & _ & Em).
    apply bind_Ok in Em. destruct Em as (lo & _ & Em). injection Em as <-. split; [reflexivity|exact Hi]. }
  set (st := static_of b1).
  assert (Forall (fun w => @okb A _ st (w_obj w)) (walkers b1 v0 l0 label nw)) as Hok by (apply walkers_all; intros T tr; split; [exact Hwf|reflexivity]).
  assert (covered (hot_steps (nw - 1) r ex ++ [SRam 0 r]) (List.length (walkers b1 v0 l0 label nw))) as Hcov by (rewrite walkers_len; apply steps_cover).
  destruct (@Run_inv _ _ _ (walker_par R dsort solve fuel p q z) (@student_draw A R) (@okb A _ st) (pldw solve p q z st) (@w_ld A R dsort solve fuel p q z st)
    (fun x g v x' g' H E => proj1 (w_start H E)) (fun x i g v x' g' H E => proj1 (w_set H E)) _ _ _ _ _ _ _ Erun Hok Hcov) as (y0' & _ & Hfin & _ & _).
  destruct (proj1 (Forall_nth_error _ _) Hfin _ _ Hw) as [[_ Hst] _]. change (b_bounds (w_obj w)) with (st_bounds (static_of (w_obj w))). rewrite Hst. exact Hb1.
Qed.
End Bound.

(** ** The recorded standard deviations *)
Lemma sqrt_val (x : b64) : 0 < val x -> fin x -> Float64.rng 0 (p2 512) (Bsqrt mode_NE x) /\ val (Bsqrt mode_NE x) = rnd (sqrt (val x)).
Proof.
  intros Hx Fx. split.
  - apply sqrt_in; [exact Fx|apply repr_0|apply repr_pow; lia|lra|]. split; [apply sqrt_pos|].
    replace (p2 512) with (sqrt (p2 1024)). { apply sqrt_le_1_alt. destruct (repr_val x) as [_ H]. rewrite Rabs_pos_eq in H by lra. lra. }
    change 1024%Z with (512 + 512)%Z. rewrite bpow_plus. apply sqrt_square, bpow_ge_0.
  - pose proof (Bsqrt_correct 53 1024 p53 p53_1024 mode_NE x) as HC. cbn [round_mode] in HC. change (SpecFloat.fexp 53 1024) with fx in HC. exact (proj1 HC).
Qed.
Lemma stdev_step (u h r a b : R) : 0 < u -> u <= / 1000 -> 0 < h -> 0 <= r -> 0 <= a -> Rabs (a - r) <= u * Rabs r + h -> Rabs (b - 10 * a) <= u * Rabs (10 * a) + h ->
  b <= 10 * r * (1 + 4 * u) + 16 * h.
Proof.
  intros Hu Hs Hh Hr Ha H1 H2. rewrite (Rabs_pos_eq r) in H1 by exact Hr. rewrite (Rabs_pos_eq (10 * a)) in H2 by lra. apply abs_le in H1, H2.
  assert (a <= (1 + u) * r + h) as B1 by lra. assert (b <= (1 + u) * (10 * a) + h) as B2 by lra.
  assert ((1 + u) * (10 * a) <= (1 + u) * (10 * ((1 + u) * r + h))) as B3 by (apply Rmult_le_compat_l; lra).
  assert (u * u * r <= u * r) as B4 by (apply Rmult_le_compat_r; [exact Hr|nra]). assert (0 <= u * r) by nra.  assert (u * h <= / 1000 * h) by (apply Rmult_le_compat_r; lra). nra.
Qed.
Lemma stdev_val (v : b64) : fin v -> 0 < val v -> fin (Bmult mode_NE (ofZ64 10) (Bsqrt mode_NE v)) /\
  val (Bmult mode_NE (ofZ64 10) (Bsqrt mode_NE v)) <= 10 * sqrt (val v) * (1 + p2 (-51)) + p2 (-1071).
Proof.
  intros Fv Hv. destruct (sqrt_val v Hv Fv) as [[Fs Bs] Es]. destruct (ofZ_val 10) as [F10 V10]; [lia|].
  destruct (mul_in 0 (p2 516) (ofZ64 10) (Bsqrt mode_NE v) F10 Fs repr_0 (repr_pow 516 ltac:(lia))) as [Fm Bm].
  { rewrite V10. change 516%Z with (4 + 512)%Z. rewrite bpow_plus. change (p2 4) with 16. lra. }
  split; [exact Fm|]. destruct (mul_val _ _ Fm) as (_ & _ & Em). rewrite V10 in Em.
  pose proof (rnd_err (sqrt (val v))) as E1. rewrite <- Es in E1. pose proof (rnd_err (10 * val (Bsqrt mode_NE v))) as E2. rewrite <- Em in E2.
  assert (u53 = p2 (-53)) as Eu by (unfold u53; change (-52)%Z with (1 + -53)%Z; rewrite bpow_plus; change (p2 1) with 2; field).
  assert (u53 <= / 1000) as Hus. { rewrite Eu. apply Rle_trans with (p2 (-10)); [apply bpow_le; lia|]. change (p2 (-10)) with (/ 1024). lra. }
  pose proof (stdev_step _ _ _ _ _ u53_pos Hus eta_pos (sqrt_pos _) (proj1 Bs) E1 E2) as H.
  replace (p2 (-51)) with (4 * u53) by (rewrite Eu; change (-51)%Z with (2 + -53)%Z; rewrite bpow_plus; reflexivity).
  replace (p2 (-1071)) with (16 * Float64Var.eta) by (unfold Float64Var.eta; change (-1071)%Z with (3 + -1074)%Z; rewrite bpow_plus; change (p2 3) with 8; field). exact H.
Qed.
Lemma Ok_eq T (a b : T) : Ok a = Ok b -> a = b. Proof. intros E. injection E as E. exact E. Qed.
Section Stdev.
Variables exp64 log64 sin64 cos64 : b64 -> b64.
Variable pow64 : b64 -> b64 -> b64.
Notation A := (A64 exp64 log64 sin64 cos64 pow64).
Variable R : rng A.
Variable dsort : list (F A) -> option (list (F A)).
Variable solve : list (list (cx A)) -> list (cx A) -> option (list (cx A)).
Variable si : list (F A) -> option (list nat).
Variable chol : mat A -> option (mat A).
Hypothesis Hc : chol_sane exp64 log64 sin64 cos64 pow64 chol.
Theorem carma_stdev fuel N burnin t (y : list b64) e p q nw z thin init raw v0 l0 a0 (g : gen R) w g' : moderate y ->
  List.length y = List.length t -> List.length e = List.length t -> all_kept si t ->
  RunCarmaSampler (R := R) dsort solve si chol fuel N burnin t y e p q nw z thin init raw v0 l0 a0 g = Ok (w, g') ->
  exists V, 0 < V /\ Rabs (V - pvar (map val y)) <= var_tol (map val y) /\
    forall i v (s : b64), nth_error (w_samples w) i = Some v -> nth_error v 0 = Some s -> fin s -> 0 <= val s <= 10 * sqrt V * (1 + p2 (-51)) + p2 (-1071).
Proof using Hc.
  intros Hm Hy He Hk E. pose proof Hm as (Hy0 & Hn & HB). pose proof (var_fin y Hy0 Hn HB) as Fv. assert (0 < val (var64 y)) as Hv by (eapply carma_needs_var; [exact Hc|exact Hm|exact E]).
  exists (val (var64 y)). split; [exact Hv|]. split; [exact (var_real y Hy0 Hn Fv)|].
  intros i v s Hi Hs Fs. destruct (carma_inside (fun _ => None) (finite_laws_64 _ _ _ _ _) Hy He Hk E Hi) as [_ Hch].
  assert (max_stdev (b_bounds (w_obj w)) = fmul A (fofZ A 10) (fsqrt A (pop_var A y)) /\ ignore_prior (b_bounds (w_obj w)) = false) as [Em Ei] by (eapply run_stdev; [exact Hy|exact He|exact Hk|exact E]).
  unfold CheckPriorBoundsp in Hch. rewrite Ei in Hch. apply bind_Ok in Hch. destruct Hch as (ys & Eys & Hch). apply bind_Ok in Hch. destruct Hch as (sc & _ & Hch).
  apply bind_Ok in Hch. destruct Hch as (roots & _ & Hch). apply Ok_eq in Hch. cbv zeta in Hch.
  apply andb_prop in Hch. destruct Hch as [Hch _]. apply andb_prop in Hch. destruct Hch as [_ Hch]. apply negb_true_iff in Hch. unfold scalar_bad in Hch.
  apply orb_false_iff in Hch. destruct Hch as [Hch _]. apply orb_false_iff in Hch. destruct Hch as [Hch _]. apply orb_false_iff in Hch. destruct Hch as [H1 H2].
  assert (ys = s) as ->. { unfold vget in Eys. rewrite Hs in Eys. injection Eys as <-. reflexivity. }
  rewrite Em in H1. destruct (stdev_val (var64 y) Fv Hv) as [F1 B1]. destruct (ofZ_val 0) as [F0 V0]; [lia|].
  pose proof (ltb_val_false _ _ F1 Fs H1) as Q1. pose proof (ltb_val_false _ _ Fs F0 H2) as Q2. rewrite V0 in Q2. split; [exact Q2|lra].
Qed.
End Stdev.

(** ** The witness: alternating measured values 2^27 and 2^27 + 1 *)
Definition y27 : list b64 := [ofZ64 134217728; ofZ64 134217729; ofZ64 134217728; ofZ64 134217729].
Lemma y27_val : map val y27 = [134217728; 134217729; 134217728; 134217729].
Proof. unfold y27. cbn [map]. rewrite (proj2 (ofZ_val 134217728 ltac:(lia))), (proj2 (ofZ_val 134217729 ltac:(lia))). reflexivity. Qed.
Lemma y27_moderate : moderate y27.
Proof.
  split; [discriminate|]. split; [reflexivity|].
  assert (forall z, (Z.abs z < 2 ^ 53)%Z -> fin (ofZ64 z) /\ Rabs (val (ofZ64 z)) <= p2 450) as H.
  { intros z Hz. destruct (ofZ_val z Hz) as [Fz Vz]. split; [exact Fz|]. rewrite Vz, <- abs_IZR. apply Rle_trans with (p2 53); [|apply bpow_le; lia]. change (p2 53) with (IZR (2 ^ 53)). apply IZR_le. lia. }
  intros x [<-|[<-|[<-|[<-|[]]]]]; apply H; lia.
Qed.
Lemma y27_pvar : pvar (map val y27) = / 4.
Proof. rewrite y27_val. unfold pvar, smean. cbn. field. Qed.
Lemma y27_var : val (var64 y27) = 0.
Proof. assert (var64 y27 = B754_zero false) as -> by (vm_compute; reflexivity). reflexivity. Qed.
