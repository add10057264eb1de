(** carma_pack.py: carma_variance, power_spectrum, get_ar_roots. *)
From Coq Require Import Reals List Arith ZArith Lra Lia Bool Permutation.
From Coquelicot Require Import Complex.
From Verif Require Import Arith Res ListLemmas KFModel KFpProof CholProof Spec Emb KF1R Cx KFpModel SpecCarma CLin KFpX KFpMore SpecModel CarpackModel RootsProof PriorProof PyModel PySim.
Import ListNotations.
Local Open Scope R_scope.

(** ** carma_variance *)
Lemma py_den_Fin om k : py_den (map FinC om) k = FinC (carma_denom om k).
Proof.
  unfold py_den, carma_denom. rewrite vnth_FinC, map_length.
  rewrite (FinC_prod _ (fun l => if Nat.eqb l k then RtoC 1
                         else Cmult (Cminus (nth l om (RtoC 0)) (nth k om (RtoC 0))) (Cplus (Cconj (nth l om (RtoC 0))) (nth k om (RtoC 0))))).
  - change (fst (FinC (nth k om (RtoC 0)))) with (Fin (fst (nth k om (RtoC 0)))). change (fneg AX (fofZ AX 2)) with (Fin (- (2))).
    refine (eq_trans (f_equal _ (FinC_scale _ _)) _). refine (eq_trans (FinC_scale _ _) _). f_equal. cbv zeta beta.
    rewrite Cmult_assoc. f_equal. apply C_eq; cbn [fst snd RtoC Cmult]; ring.
  - intros l _. destruct (Nat.eqb l k); [reflexivity|]. rewrite vnth_FinC, FinC_sub, FinC_conj, FinC_add, FinC_mul. reflexivity.
Qed.
Lemma py_masum_Fin (ma : list R) z : @py_masum AX (length ma) (map Fin ma) (FinC z) = FinC (ma_poly ma z).
Proof.
  unfold py_masum, ma_poly. apply FinC_sum. intros k Hk.
  change (nth k (map Fin ma) (fofZ AX 0)) with (nth k (map Fin ma) (Fin 0)). rewrite nth_map_Fin, FinC_pown. apply FinC_scale.
Qed.
Theorem carma_variance_Fin (om : list C) ma sig lag : NoDup om -> (forall z, In z om -> fst z < 0) -> (length ma <= length om)%nat ->
  carma_variance (Fin sig : F AX) (map FinC om) (map Fin ma) (Fin lag) = Fin (carma_acv sig ma om (Rabs lag)).
Proof.
  intros Hnd Hneg Hl. rewrite <- (carma_acv_pad sig ma (length om - length ma) om).
  unfold carma_variance. rewrite map_length. change (F AX) with xr. rewrite (py_pad_pad _ _ Hl).
  set (m := ma ++ repeat 0 (length om - length ma)). assert (length om = length m) as Lm by (unfold m; rewrite app_length, repeat_length; lia).
  cbv zeta. unfold carma_acv.
  rewrite (FinC_sum _ (fun k => Cdiv (Cmult (Cmult (ma_poly m (nth k om (RtoC 0))) (ma_poly m (Copp (nth k om (RtoC 0)))))
                                        (Cexp (Cmult (nth k om (RtoC 0)) (RtoC (Rabs lag))))) (carma_denom om k))).
  - reflexivity.
  - intros k Hk. rewrite vnth_FinC, py_den_Fin. change (fneg AX (fofZ AX 1)) with (Fin (- (1))).
    assert (cscale (Fin (- (1)) : F AX) (FinC (nth k om (RtoC 0))) = FinC (Copp (nth k om (RtoC 0)))) as ->.
    { refine (eq_trans (FinC_scale _ _) _). f_equal. destruct (nth k om (RtoC 0)). apply C_eq; cbn [fst snd RtoC Cmult Copp]; ring. }
    rewrite Lm. rewrite !py_masum_Fin, FinC_mul. change (fabs AX (Fin lag)) with (Fin (Rabs lag)).
    rewrite FinC_scale, FinC_exp, FinC_mul, FinC_div by (apply carma_denom_neq0; assumption).
    rewrite (Cmult_comm (RtoC (Rabs lag))). reflexivity.
Qed.

(** The C++ function called with the same arguments *)
Theorem carma_variance_cpp (om : list C) ma s lag : NoDup om -> (forall z, In z om -> fst z < 0) -> (length ma <= length om)%nat -> 0 <= lag ->
  carma_variance (Fin (s * s) : F AX) (map FinC om) (map Fin ma) (Fin lag) = Variance (map FinC om) (map Fin ma) (Fin s : F AX) (Fin lag).
Proof. intros Hnd Hneg Hl H0. rewrite carma_variance_Fin, Variance_Fin, Rabs_pos_eq by assumption. reflexivity. Qed.
(** and the padded list gives the same *)
Theorem carma_variance_pad (om : list C) ma n sig lag : NoDup om -> (forall z, In z om -> fst z < 0) -> (length ma + n <= length om)%nat ->
  carma_variance (Fin sig : F AX) (map FinC om) (map Fin (ma ++ repeat 0 n)) (Fin lag) =
  carma_variance (Fin sig : F AX) (map FinC om) (map Fin ma) (Fin lag).
Proof. intros Hnd Hneg Hl. rewrite !carma_variance_Fin, carma_acv_pad by (try rewrite app_length, repeat_length; try assumption; lia). reflexivity. Qed.
(** A negative lag: the C++ function does not take its absolute value *)
Theorem carma_variance_negative_lag : exists (om : list C) ma s lag, NoDup om /\ (forall z, In z om -> fst z < 0) /\ (length ma <= length om)%nat /\
  carma_variance (Fin (s * s) : F AX) (map FinC om) (map Fin ma) (Fin lag) <> Variance (map FinC om) (map Fin ma) (Fin s : F AX) (Fin lag).
Proof.
  set (om0 := [(-1, 0)] : list C).
  assert (NoDup om0) as H1 by (repeat constructor; intros []). assert (forall z, In z om0 -> fst z < 0) as H2 by (intros z [<-|[]]; cbn; lra).
  exists om0, [1], 1, (-1). split; [exact H1|]. split; [exact H2|]. split; [cbn; lia|].
  rewrite carma_variance_Fin, Variance_Fin by (try assumption; cbn; lia).
  replace (1 * 1) with 1 by ring. replace (Rabs (-1)) with 1 by (rewrite Rabs_left; lra).
  assert (forall t, carma_acv 1 [1] [(-1, 0)] t = exp (- t) / 2) as E.
  { intros t. unfold carma_acv, ma_poly, carma_denom, Cdiv, Cexp, Cinv, Cmult, Cplus, Cminus, Copp, Cconj, RtoC.
    cbn [length nth Csum Cprod Nat.eqb Cpown fst snd]. cbn [fst snd].
    replace (-1 * t - 0 * 0) with (- t) by ring. replace (-1 * 0 + 0 * t) with 0 by ring. rewrite cos_0, sin_0. cbn [fst snd]. unfold Cplus, Cmult, RtoC. cbn [fst snd]. field. }
  intros H. injection H as H. change (carma_acv 1 [1] [(-1, 0)] 1 = carma_acv 1 [1] [(-1, 0)] (-1)) in H. rewrite !E in H. replace (- -1) with 1 in H by ring.
  pose proof (exp_increasing (-(1)) 1 ltac:(lra)). lra.
Qed.

(** ** power_spectrum *)
Local Open Scope C_scope.
Lemma desc_snoc c a x : desc_poly (c ++ [a]) x = desc_poly c x * x + a.
Proof.
  unfold desc_poly. rewrite app_length. cbn [length]. replace (length c + 1)%nat with (S (length c)) by lia. rewrite Csum_S. f_equal.
  - rewrite (Cmult_comm _ x), <- Csum_scal. apply Csum_ext. intros k Hk. rewrite app_nth1 by exact Hk.
    replace (S (length c) - 1 - k)%nat with (S (length c - 1 - k)) by lia. cbn [Cpown]. ring.
  - rewrite app_nth2 by lia. rewrite Nat.sub_diag. cbn [nth]. replace (S (length c) - 1 - length c)%nat with O by lia. cbn [Cpown]. ring.
Qed.
Lemma desc_rev (ma : list R) x : desc_poly (map RtoC (rev ma)) x = ma_poly ma x.
Proof.
  induction ma as [|a ma IH]; [reflexivity|]. cbn [rev]. rewrite map_app. cbn [map]. rewrite desc_snoc, IH. unfold ma_poly. cbn [length].
  rewrite Csum_shift. cbn [nth Cpown]. rewrite Cmult_1_r, Cplus_comm. f_equal. rewrite (Cmult_comm _ x), <- Csum_scal. apply Csum_ext. intros k _. ring.
Qed.
Lemma polyval_Fin (p : list R) x : @polyval AX (map Fin p) (FinC x) = FinC (desc_poly (map RtoC p) x).
Proof.
  induction p as [|a p IH] using rev_ind; [reflexivity|].
  rewrite (map_app RtoC). cbn [map]. rewrite desc_snoc, <- FinC_add, <- FinC_mul, <- IH. rewrite map_app. unfold polyval.
  refine (eq_trans (fold_left_app _ _ _ _) _). reflexivity.
Qed.
Lemma rev_map_Fin (l : list R) : rev (map Fin l) = map Fin (rev l).
Proof. symmetry. apply map_rev. Qed.
Local Open Scope R_scope.

(** The power spectrum of a CARMA process with autoregressive polynomial [ar] (highest power first) *)
Definition spectrum (sigma : R) (ar ma : list R) (f : R) : R :=
  sigma * sigma * (Cmod (ma_poly ma (0, 2 * PI * f)) * Cmod (ma_poly ma (0, 2 * PI * f))) /
  (Cmod (desc_poly (map RtoC ar) (0, 2 * PI * f)) * Cmod (desc_poly (map RtoC ar) (0, 2 * PI * f))).
Lemma power_spectrum_Fin f sigma ar ma : desc_poly (map RtoC ar) (0, 2 * PI * f) <> RtoC 0 ->
  power_spectrum AX (Fin f) (Fin sigma) (map Fin ar) (map Fin ma) = Fin (spectrum sigma ar ma f).
Proof.
  intros H. unfold power_spectrum. change (F AX) with xr. rewrite rev_map_Fin.
  change ((fofZ AX 0, fmul AX (fmul AX (fofZ AX 2) (fpi AX)) (Fin f)) : cx AX) with (FinC (0, 2 * PI * f)).
  rewrite !polyval_Fin, desc_rev, !cabs_FinC. cbv zeta. unfold spectrum.
  assert (0 < Cmod (desc_poly (map RtoC ar) (0, 2 * PI * f))) as Hp by (apply Cmod_gt_0, H).
  refine (fin_div _ _ _). intros E. apply Rmult_integral in E. lra.
Qed.
Lemma Cmod_conj z : Cmod (Cconj z) = Cmod z.
Proof. unfold Cmod, Cconj. f_equal. cbn [fst snd]. ring. Qed.
Lemma ma_poly_conj ma z : Cconj (ma_poly ma z) = ma_poly ma (Cconj z).
Proof.
  unfold ma_poly. rewrite conj_sum. apply Csum_ext. intros k _. rewrite conj_mult, conj_R, conj_pown. reflexivity.
Qed.
Lemma spectrum_even sigma ar ma f : spectrum sigma ar ma (- f) = spectrum sigma ar ma f.
Proof.
  unfold spectrum. assert (((0, 2 * PI * - f) : C) = Cconj (0, 2 * PI * f)) as -> by (unfold Cconj; apply C_eq; cbn; ring).
  assert (forall ar : list R, Cmod (desc_poly (map RtoC ar) (Cconj (0, 2 * PI * f))) = Cmod (desc_poly (map RtoC ar) (0, 2 * PI * f))) as H.
  { intros l. rewrite <- (rev_involutive l), !desc_rev, <- ma_poly_conj. apply Cmod_conj. }
  rewrite H. rewrite <- (desc_rev ma), H. rewrite desc_rev. reflexivity.
Qed.
Lemma spectrum_nonneg sigma ar ma f : desc_poly (map RtoC ar) (0, 2 * PI * f) <> RtoC 0 -> 0 <= spectrum sigma ar ma f.
Proof.
  intros H. unfold spectrum. assert (0 < Cmod (desc_poly (map RtoC ar) (0, 2 * PI * f))) as Hp by (apply Cmod_gt_0, H).
  apply Rmult_le_pos; [|left; apply Rinv_0_lt_compat; nra].
  pose proof (Cmod_ge_0 (ma_poly ma (0, 2 * PI * f))). apply Rmult_le_pos; nra.
Qed.

(** numpy.poly of finite roots: the coefficients of the monic polynomial with these roots *)
Lemma convolve_Fin l : forall (c : nat -> C) i, (forall k, (i < k)%nat -> c k = RtoC 0) ->
  fold_left (@convolve1 AX) (map FinC l) (vbuild (S i) (fun k => FinC (c k))) = vbuild (S (i + length l)) (fun k => FinC (pcoef l c k)).
Proof.
  induction l as [|r l IH]; intros c i Hc; cbn [map fold_left length].
  - rewrite Nat.add_0_r. reflexivity.
  - replace (i + S (length l))%nat with (S i + length l)%nat by lia. change (fun k => FinC (pcoef (r :: l) c k)) with (fun k => FinC (pcoef l (pstep c r) k)).
    rewrite <- (IH (pstep c r) (S i)).
    2:{ intros k Hk. unfold pstep. destruct k as [|k]; [lia|]. rewrite !Hc by lia. ring. }
    f_equal. unfold convolve1. rewrite vbuild_len. replace (S i + 1)%nat with (S (S i)) by lia.
    apply CholProof.vbuild_ext. intros k Hk.
    assert (forall k, vnth (vbuild (S i) (fun k => FinC (c k))) k = FinC (c k)) as Hn.
    { intros j. unfold vnth. destruct (Nat.lt_ge_cases j (S i)) as [E|E]; [apply vbuild_nth, E|].
      rewrite nth_overflow by (rewrite vbuild_len; exact E). rewrite Hc by lia. reflexivity. }
    rewrite !Hn. unfold pstep. destruct k as [|k].
    + change (0 =? 0)%nat with true. cbv iota. change (c0 AX) with (FinC (RtoC 0)). rewrite FinC_sub. f_equal. ring.
    + change (S k =? 0)%nat with false. cbv iota. replace (S k - 1)%nat with k by lia. rewrite FinC_mul, FinC_sub. reflexivity.
Qed.
Lemma np_poly_re isreal l : map fst (@np_poly AX isreal (map FinC l)) = polycoefs (map FinC l).
Proof.
  rewrite polycoefs_Fin. unfold np_poly. change [c1 AX] with (vbuild 1 (fun k => FinC (delta0 k))).
  rewrite convolve_Fin by (intros [|k] H; [lia|reflexivity]). cbn [Nat.add]. unfold vbuild.
  destruct (isreal _); rewrite !map_map; reflexivity.
Qed.
Lemma np_poly_real isreal l : conj_closed l -> @np_poly AX isreal (map FinC l) = map (fun k => FinC (RtoC (fst (pcoef l delta0 k)))) (seq 0 (S (length l))).
Proof.
  intros H. unfold np_poly. change [c1 AX] with (vbuild 1 (fun k => FinC (delta0 k))).
  rewrite convolve_Fin by (intros [|k] E; [lia|reflexivity]). cbn [Nat.add]. unfold vbuild.
  destruct (isreal _); [rewrite map_map; reflexivity|]. apply map_ext. intros k. f_equal. pose proof (pcoef_real l k H) as E.
  destruct (pcoef l delta0 k) as [a b]. cbn [fst snd] in *. rewrite E. reflexivity.
Qed.

(** with the coefficients CarmaSample derives from roots of negative real part, closed under conjugation *)
Theorem power_spectrum_stable isreal (om : list C) sigma ma f : (forall z, In z om -> fst z < 0) -> conj_closed om ->
  let P := fun f => sigma * sigma * (Cmod (ma_poly ma (0, 2 * PI * f)) * Cmod (ma_poly ma (0, 2 * PI * f))) /
                    (Cmod (roots_poly om (0, 2 * PI * f)) * Cmod (roots_poly om (0, 2 * PI * f))) in
  power_spectrum AX (Fin f) (Fin sigma) (py_ar_coefs isreal (map FinC om)) (map Fin ma) = Fin (P f) /\
  0 <= P f /\ P (- f) = P f.
Proof.
  intros Hneg Hc P. unfold py_ar_coefs. rewrite np_poly_re.
  destruct (polycoefs_main om) as (cs & E & Hlen & _ & Hev & Hre). specialize (Hre Hc).
  assert (polycoefs (map FinC om) = map Fin (map fst cs)) as -> by (rewrite E, map_map; reflexivity).
  assert (map RtoC (map fst cs) = cs) as Ecs.
  { rewrite map_map. rewrite <- (map_id cs) at 2. apply map_ext_in. intros z Hz. specialize (Hre z Hz). destruct z as [a b]. cbn [fst snd] in *.
    rewrite Hre. reflexivity. }
  assert (forall g, P g = spectrum sigma (map fst cs) ma g) as EP.
  { intros g. unfold P, spectrum. rewrite Ecs, Hev. reflexivity. }
  assert (forall g, desc_poly (map RtoC (map fst cs)) (0, 2 * PI * g) <> RtoC 0) as Hnz.
  { intros g. rewrite Ecs, Hev. intros E0. apply roots_poly_0 in E0. apply Hneg in E0. cbn [fst] in E0. lra. }
  rewrite !EP. split; [apply power_spectrum_Fin, Hnz|]. split; [apply spectrum_nonneg, Hnz|apply spectrum_even].
Qed.
(** any real coefficients *)
Theorem power_spectrum_any sigma (ar ma : list R) f : desc_poly (map RtoC ar) (0, 2 * PI * f) <> RtoC 0 ->
  let P := fun f => sigma * sigma * (Cmod (ma_poly ma (0, 2 * PI * f)) * Cmod (ma_poly ma (0, 2 * PI * f))) /
                    (Cmod (desc_poly (map RtoC ar) (0, 2 * PI * f)) * Cmod (desc_poly (map RtoC ar) (0, 2 * PI * f))) in
  power_spectrum AX (Fin f) (Fin sigma) (map Fin ar) (map Fin ma) = Fin (P f) /\ 0 <= P f /\ P (- f) = P f.
Proof. intros H P. split; [apply power_spectrum_Fin, H|]. split; [apply (spectrum_nonneg _ _ _ _ H)|apply (spectrum_even sigma ar ma f)]. Qed.

(** ** get_ar_roots *)
(** the roots of a Lorentzian of width [w] and centroid [c] *)
Definition lorentz_roots (wc : R * R) : list C :=
  let '(w, c) := wc in
  if Req_EM_T c 0 then [(- (2 * PI * w), 0)] else [(- (2 * PI * w), - (2 * PI * c)); (- (2 * PI * w), 2 * PI * c)].
Lemma eps10 : IZR 1 / IZR (Z.pos (10 ^ 10)) = 1 / 10 ^ 10.
Proof. rewrite (pow_IZR 10 10). reflexivity. Qed.
Lemma ar_roots_loop_Fin : forall (c w : list R), (length c <= length w)%nat -> (forall x, In x c -> x = 0 \/ 1 / 10 ^ 10 < x) ->
  exists l : list C, ar_roots_loop AX (map Fin w) (map Fin c) = Ok (map FinC l) /\
    map (fun z => Cmult (RtoC (- (2) * PI)) z) l = flat_map lorentz_roots (combine w c).
Proof.
  induction c as [|c cs IH]; intros w Hl Hc.
  - exists []. split; destruct w; reflexivity.
  - destruct w as [|w ws]; [cbn in Hl; lia|]. destruct (IH ws) as (l & E & El); [cbn in Hl; lia|intros x Hx; apply Hc; right; exact Hx|].
    cbn [map ar_roots_loop]. change (F AX) with xr in *. rewrite E. cbn [bind combine flat_map]. rewrite <- El.
    assert (flt AX (fdec AX 1 (10 ^ 10)) (Fin c) = if Rlt_dec (1 / 10 ^ 10) c then true else false) as ->.
    { cbn [flt AX xlt fdec]. rewrite eps10.
      destruct (Rlt_dec (1 / 10 ^ 10) c); reflexivity. }
    assert (c = 0 \/ 1 / 10 ^ 10 < c) as Hc0 by (apply Hc; left; reflexivity). unfold lorentz_roots.
    assert (0 < 1 / 10 ^ 10) as Hp by lra.
    destruct (Rlt_dec (1 / 10 ^ 10) c) as [H|H].
    + exists ((w, c) :: (w, - c) :: l). split; [reflexivity|]. destruct (Req_EM_T c 0) as [E0|_]; [lra|].
      cbn [map app]. f_equal; [|f_equal]; apply C_eq; cbn [fst snd Cmult RtoC]; ring.
    + exists ((w, c) :: l). split; [reflexivity|]. destruct (Req_EM_T c 0) as [E0|E0]; [|destruct Hc0; contradiction].
      cbn [map app]. f_equal. apply C_eq; cbn [fst snd Cmult RtoC]; rewrite ?E0; ring.
Qed.
Lemma comb_r (a : list R) : forall b : list R, length a = length b -> forall x, combine a (b ++ [x]) = combine a b.
Proof. induction a as [|u a IH]; intros [|v b] H x; try discriminate; [reflexivity|]. cbn [combine app]. f_equal. apply IH. injection H as H; exact H. Qed.
Theorem get_ar_roots_spec (w c : list R) : (length w = length c \/ length w = length c + 1)%nat ->
  (forall x, In x c -> x = 0 \/ 1 / 10 ^ 10 < x) -> (forall x, In x w -> 0 < x) ->
  exists l : list C, get_ar_roots AX (map Fin w) (map Fin c) = Ok (map FinC l) /\
    l = flat_map lorentz_roots (combine w (c ++ [0])) /\
    (forall z, In z l -> fst z < 0) /\ conj_closed l.
Proof.
  intros Hl Hc Hw. destruct (ar_roots_loop_Fin c w) as (l & E & El); [lia|exact Hc|].
  assert (exists l' : list C, get_ar_roots AX (map Fin w) (map Fin c) = Ok (map (cscale (Fin (- (2) * PI) : F AX)) (map FinC l')) /\
    map (fun z => Cmult (RtoC (- (2) * PI)) z) l' = flat_map lorentz_roots (combine w (c ++ [0]))) as (l' & E' & El').
  { unfold get_ar_roots. change (F AX) with xr in *. rewrite E. cbn [bind]. rewrite !map_length. destruct Hl as [Hl|Hl].
    - exists l. destruct (Nat.eqb_spec (length w) (length c + 1)); [lia|]. cbn [bind]. split; [reflexivity|]. rewrite El.
      rewrite (comb_r w c Hl). reflexivity.
    - destruct (Nat.eqb_spec (length w) (length c + 1)); [|lia]. rewrite vget_Fin by lia. cbn [bind].
      exists (l ++ [(nth (length w - 1) w 0, 0)]). split; [rewrite (map_app FinC); reflexivity|].
      rewrite map_app, El. destruct (exists_last (l := w)) as (w' & x & ->); [intros ->; cbn in Hl; lia|].
      rewrite app_length in *. cbn [length] in *. rewrite app_nth2 by lia. replace (length w' + 1 - 1 - length w')%nat with O by lia. cbn [nth map].
      assert (length w' = length c) as Hlw by lia.
      assert (forall a b : list R, length a = length b -> forall x y, combine (a ++ [x]) (b ++ [y]) = combine a b ++ [(x, y)]) as C1.
      { clear. induction a as [|u a IH]; intros [|v b] H x y; try discriminate; [reflexivity|]. cbn [combine app]. f_equal. apply IH. injection H as H; exact H. }
      assert (forall a b : list R, length a = length b -> forall x, combine (a ++ [x]) b = combine a b) as C2.
      { clear. induction a as [|u a IH]; intros [|v b] H x; try discriminate; [reflexivity|]. cbn [combine app]. f_equal. apply IH. injection H as H; exact H. }
      rewrite C1, C2 by exact Hlw. rewrite flat_map_app. f_equal. cbn [flat_map lorentz_roots app].
      destruct (Req_EM_T 0 0) as [_|H]; [|contradiction]. cbn [app]. f_equal. apply C_eq; cbn [fst snd Cmult RtoC]; ring. }
  exists (flat_map lorentz_roots (combine w (c ++ [0]))). rewrite <- El'. split.
  { rewrite E'. f_equal. rewrite !map_map. apply map_ext. intros z. apply FinC_scale. }
  split; [reflexivity|]. rewrite El'. pose proof PI_RGT_0 as Hpi. split.
  - intros z Hz. apply in_flat_map in Hz. destruct Hz as ((a, b) & Hab & Hz).
    assert (0 < a) as Ha by (apply Hw; exact (in_combine_l _ _ _ _ Hab)).
    cbn [lorentz_roots] in Hz. destruct (Req_EM_T b 0); cbn [In] in Hz; intuition; subst z; cbn [fst]; nra.
  - generalize (combine w (c ++ [0])). intros m. induction m as [|(a, b) m IH]; [apply Permutation_refl|].
    cbn [flat_map]. apply conj_closed_app; [|exact IH]. cbn [lorentz_roots]. destruct (Req_EM_T b 0); unfold conj_closed; cbn [map].
    + unfold Cconj. cbn [fst snd]. rewrite Ropp_0. apply Permutation_refl.
    + unfold Cconj. cbn [fst snd]. rewrite Ropp_involutive. apply perm_swap.
Qed.
(** The roots have the widths and centroids they were made from, as CarmaSample computes them (psd_width, psd_centroid). *)
Theorem lorentz_round_trip w c z : 0 <= c -> In z (lorentz_roots (w, c)) ->
  py_width (FinC z : cx AX) = Fin w /\ py_centroid (FinC z : cx AX) = Fin c.
Proof.
  intros Hc Hz. pose proof PI_RGT_0 as Hpi. unfold py_width, py_centroid.
  assert (forall a, fdiv AX (Fin a) (fmul AX (fofZ AX 2) (fpi AX)) = Fin (a / (2 * PI))) as D by (intros a; refine (fin_div _ _ _); lra).
  assert (fst z = - (2 * PI * w) /\ Rabs (snd z) = 2 * PI * c) as [E1 E2].
  { cbn [lorentz_roots] in Hz. destruct (Req_EM_T c 0) as [->|N]; cbn [In] in Hz.
    - destruct Hz as [<-|[]]. cbn [fst snd]. rewrite Rabs_R0. split; ring.
    - assert (0 <= 2 * PI * c) by (apply Rmult_le_pos; lra).
      destruct Hz as [<-|[<-|[]]]; cbn [fst snd]; (split; [reflexivity|]); [rewrite Rabs_Ropp|]; apply Rabs_pos_eq; assumption. }
  change (fst (FinC z)) with (Fin (fst z)). change (snd (FinC z)) with (Fin (snd z)).
  change (fneg AX (Fin (fst z))) with (Fin (- fst z)). change (fabs AX (Fin (snd z))) with (Fin (Rabs (snd z))).
  rewrite !D, E1, E2. split; f_equal; field; lra.
Qed.
(** Positive widths and centroids, but a centroid of at most 1e-10: the conjugate root is missing *)
Theorem get_ar_roots_not_closed : exists (w c : list R) (l : list C), (forall x, In x w -> 0 < x) /\ (forall x, In x c -> 0 < x) /\
  length w = length c /\ get_ar_roots AX (map Fin w) (map Fin c) = Ok (map FinC l) /\ ~ conj_closed l.
Proof.
  set (e := 1 / 10 ^ 10).
  exists [1], [e], [Cmult (RtoC (- (2) * PI)) (1, e)].
  split; [intros x [<-|[]]; lra|]. split; [intros x [<-|[]]; unfold e; lra|]. split; [reflexivity|]. split.
  - unfold get_ar_roots. cbn [map ar_roots_loop bind length].
    assert (flt AX (fdec AX 1 (10 ^ 10)) (Fin e) = false) as ->.
    { cbn [flt AX xlt fdec]. rewrite eps10.
      destruct (Rlt_dec (1 / 10 ^ 10) e); [unfold e in *; lra|reflexivity]. }
    cbn [Nat.eqb Nat.add bind map]. f_equal. f_equal. apply (FinC_scale (- (2) * PI) (1, e)).
  - unfold conj_closed. cbn [map]. intros H. apply Permutation_length_1 in H. apply (f_equal snd) in H. pose proof PI_RGT_0.
    cbn [Cmult Cconj RtoC fst snd] in H. assert (0 < e) by (unfold e; lra). assert (0 < PI * e) by (apply Rmult_lt_0_compat; assumption). lra.
Qed.
(** More centroids than widths: an exception *)
Theorem get_ar_roots_short A (w c : list (F A)) : (length w < length c)%nat -> get_ar_roots A w c = Throw Elogic.
Proof.
  intros H. unfold get_ar_roots. assert (ar_roots_loop A w c = Throw Elogic) as ->; [|reflexivity].
  revert c H. induction w as [|a w IH]; intros [|b c] H; cbn [length] in H; try lia; [reflexivity|].
  cbn [ar_roots_loop]. rewrite IH by lia. reflexivity.
Qed.
