(** KalmanFilter1: simulation, linearity, limits. *)
From Coq Require Import Reals List Arith ZArith Lra Lia Bool Permutation.
From Verif Require Import Arith Res ListLemmas KFModel KF1Proof Spec Gauss Emb KF1R History KF1X InitProof OUpd SimProof KF1Main.
Import ListNotations.
Local Open Scope R_scope.

(** ** Simulate *)
Lemma pp1_spec sig w : 0 < sig -> 0 < w ->
  forall tr yr er tp, length yr = length tr -> length er = length tr -> (2 <= length tr)%nat ->
  times_ok tr er -> (forall i, (i < length tr)%nat -> nth i tr 0 = tp -> nth i er 0 <> 0) ->
  exists m v, pp1 AX (mkSetup AX (map Fin tr) (diffs AX (map Fin tr)) (map Fin yr) (map Fin er) (Fin sig) (Fin w)) (Fin tp) = Ok (Fin m, Fin v) /\
    0 < v /\ cond_dist (ou_cov sig w) tr yr er tp m v.
Proof.
  intros Hsig Hw tr yr er tp Hy He Hn Hok Hnz. unfold pp1. cbn [s_time s_dt s_y s_yerr s_sig s_par].
  rewrite diffs_Fin, (predpure_fin tr yr er sig w Hok Hsig Hw Hy He tp Hnz).
  destruct (predict_blp tr yr er sig w Hok Hsig Hw tp Hnz) as (m & v & Ep & Hv & Hb & _).
  replace (predpure AR tr (diffs AR tr) yr er sig w tp) with ((m, v) : F AR * F AR) by (symmetry; exact Ep).
  exists m, v. split; [reflexivity|]. split; [lra|]. unfold cond_dist. rewrite ou_diag. exact Hb.
Qed.

Lemma sorted_strict l : NoDup l -> nondecreasing l -> strictly_increasing l.
Proof.
  intros Hn Hd i j Hij Hj. destruct (Hd i j Hij Hj) as [H|H]; [exact H|]. exfalso.
  assert (i = j) by (apply (proj1 (NoDup_nth l 0) Hn); [lia|exact Hj|exact H]). lia.
Qed.

Lemma simulate_main G (draw : G -> F AX * G) (vsort : list (F AX) -> option (list (F AX))) (s : kf1 AX) tr yr er sig w ts (g : G) :
  holds1 s tr yr er sig w -> strictly_increasing tr -> 0 < sig -> 0 < w ->
  (forall g0, exists z, fst (draw g0) = Fin z) -> valid_vsort vsort ->
  NoDup ts -> (forall i, (i < length tr)%nat -> In (nth i tr 0) ts -> nth i er 0 <> 0) ->
  exists sorted out s', Simulate (methods1 AX) draw vsort s (map Fin ts) g
      = Ok (map Fin out, s', gen_after draw (length ts) g) /\
    Permutation ts sorted /\ strictly_increasing sorted /\
    sim_spec (ou_cov sig w) G draw tr yr er sorted out g.
Proof.
  intros Hs Hinc Hsig Hw Hd Hvs Hnd Hnz.
  destruct (holds1_lens _ _ _ _ _ _ Hs) as (Hy & He & Hn & Edt).
  destruct Hs as (Hu & E1 & E2 & E3 & E4 & E5).
  destruct (Hvs ts) as (sorted & Es & Hp & Hsd).
  assert (strictly_increasing sorted) as Hst.
  { apply sorted_strict; [|exact Hsd]. eapply Permutation_NoDup; eassumption. }
  destruct (psim_loop_spec (F AX) (ou_cov sig w) G draw Hd (pp1 AX) sig (Fin w) 2%nat (pp1_spec sig w Hsig Hw) tr yr er Hy He
              sorted [] [] tr yr er g g) as (out & u & Eo & Ho); try assumption; try reflexivity.
  - apply strict_times_ok, Hinc.
  - cbn [length repeat]. rewrite !app_nil_r. reflexivity.
  - intros i Hi Hin. apply Hnz; [exact Hi|]. eapply Permutation_in; [symmetry; exact Hp|exact Hin].
  - split; [reflexivity|]. intros k Hk. cbn in Hk. lia.
  - destruct (Simulate_pure draw vsort (pureP1 AX) (good_data1 AX) (map Fin ts) g Hu I) as [Hobs _].
    unfold psim in Hobs. rewrite Es in Hobs. cbn [setup_of] in Hobs. unfold setup_of in Hobs.
    rewrite E1, E2, E3, E4, E5, Edt, <- diffs_Fin in Hobs. cbn [map] in Eo.
    match type of Hobs with context [bind ?b _] => replace b with (Ok (map Fin out, u, gen_after draw (length ([] ++ sorted)) g)) in Hobs by (symmetry; exact Eo) end.
    cbn [bind app] in Hobs.
    destruct (Simulate (methods1 AX) draw vsort s (map Fin ts) g) as [[[o s'] g']|ex| |] eqn:Esim; try discriminate Hobs.
    injection Hobs as -> ->. exists sorted, out, s'. rewrite (Permutation_length Hp). auto.
Qed.

(** ** The specification determines its values *)
Lemma strict_idx tr i j : strictly_increasing tr -> (i < j)%nat -> (j < length tr)%nat -> nth i tr 0 < nth j tr 0.
Proof. intros H. apply H. Qed.

Lemma spec_determined sig w tr er c c0 y k m v : strictly_increasing tr -> 0 < sig -> 0 < w -> (k <= length tr)%nat ->
  let K := obs_cov (ou_cov sig w) (fun i => nth i tr 0) (fun i => nth i er 0) in
  is_blp k K c c0 y m v ->
  (forall m' v', is_blp k K c c0 y m' v' -> m' = m /\ v' = v) /\
  (forall a, v <= mse k K c c0 a).
Proof.
  intros Hinc Hsig Hw Hk K H.
  assert (pd k K) as Hpd by (apply ou_pd; try assumption; intros; apply Hinc; lia).
  assert (forall i j, K i j = K j i) as Hsym by (intros; apply obs_sym).
  split.
  - intros m' v' H'. destruct (blp_unique _ _ _ _ _ _ _ _ _ Hsym Hpd H' H). auto.
  - apply (blp_optimal k K c c0 y m v Hsym (pd_psd _ _ Hpd) H).
Qed.

Lemma blp_var_prefix sig w tr er c c0 y k n m v m' v' : strictly_increasing tr -> 0 < sig -> 0 < w ->
  (n <= length tr)%nat -> (k <= n)%nat ->
  let K := obs_cov (ou_cov sig w) (fun i => nth i tr 0) (fun i => nth i er 0) in
  is_blp n K c c0 y m v -> is_blp k K c c0 y m' v' -> v <= v'.
Proof.
  intros Hinc Hsig Hw Hn Hk K H (a & A1 & A2 & A3).
  destruct (spec_determined sig w tr er c c0 y n m v Hinc Hsig Hw Hn H) as [_ Hopt].
  set (a' := fun i => if Nat.ltb i k then a i else 0).
  assert (forall f, Rsum (fun i => a' i * f i) n = Rsum (fun i => a i * f i) k) as Hcut.
  { intros f. replace n with (k + (n - k))%nat by lia. rewrite Rsum_app.
    rewrite (Rsum_0 (fun j => a' (k + j)%nat * f (k + j)%nat)).
    2:{ intros j Hj. unfold a'. destruct (Nat.ltb_spec (k + j) k); [lia|ring]. }
    rewrite Rplus_0_r. apply Rsum_ext. intros i Hi. unfold a'. destruct (Nat.ltb_spec i k); [reflexivity|lia]. }
  eapply Rle_trans; [apply (Hopt a')|]. right. unfold mse. fold K. rewrite A3, Hcut.
  rewrite (Rsum_ext (fun i => Rsum (fun j => a' i * K i j * a' j) n) (fun i => a' i * Rsum (fun j => a j * K i j) k)).
  2:{ intros i Hi. rewrite <- (Hcut (fun j => K i j)), <- Rsum_scal. apply Rsum_ext. intros; ring. }
  rewrite (Hcut (fun i => Rsum (fun j => a j * K i j) k)).
  rewrite (Rsum_ext (fun i => a i * Rsum (fun j => a j * K i j) k) (fun i => a i * c i)); [ring|].
  intros i Hi. f_equal. rewrite <- (A1 i Hi). apply Rsum_ext. intros j Hj. f_equal. apply obs_sym.
Qed.

(** ** Linearity and time shifts *)
Lemma blp_scale n K c c0 y m v l : is_blp n K c c0 y m v -> is_blp n K c c0 (fun i => l * y i) (l * m) v.
Proof.
  intros (a & A1 & A2 & A3). exists a. split; [exact A1|]. split; [|exact A3].
  rewrite A2, <- Rsum_scal. apply Rsum_ext. intros; ring.
Qed.

Lemma blp_ext n K K' c c' c0 y y' m v : (forall i j, (i < n)%nat -> (j < n)%nat -> K i j = K' i j) ->
  (forall j, (j < n)%nat -> c j = c' j) -> (forall j, (j < n)%nat -> y j = y' j) ->
  is_blp n K c c0 y m v -> is_blp n K' c' c0 y' m v.
Proof.
  intros HK Hc Hy (a & A1 & A2 & A3). exists a. split; [|split].
  - intros j Hj. rewrite <- (Hc j Hj), <- (A1 j Hj). apply Rsum_ext. intros k Hk. rewrite HK by assumption. reflexivity.
  - rewrite A2. apply Rsum_ext. intros k Hk. rewrite Hy by exact Hk. reflexivity.
  - rewrite A3. f_equal. apply Rsum_ext. intros k Hk. rewrite Hc by exact Hk. reflexivity.
Qed.

Lemma nth_map0 (f : R -> R) l i : (i < length l)%nat -> nth i (map f l) 0 = f (nth i l 0).
Proof. intros H. rewrite (nth_indep _ 0 (f 0)) by (rewrite map_length; exact H). apply map_nth. Qed.

Lemma ou_shift sig w d a b : ou_cov sig w (a + d) (b + d) = ou_cov sig w a b.
Proof. unfold ou_cov. replace (a + d - (b + d)) with (a - b) by ring. reflexivity. Qed.

Lemma list_nth_error_eq T (l l' : list T) : length l = length l' ->
  (forall i, (i < length l)%nat -> nth_error l i = nth_error l' i) -> l = l'.
Proof.
  revert l'; induction l as [|x l IH]; intros [|x' l'] H Hn; try discriminate; [reflexivity|].
  f_equal.
  - specialize (Hn O ltac:(simpl; lia)). cbn in Hn. congruence.
  - apply IH; [simpl in H; lia|]. intros i Hi. apply (Hn (S i)). simpl. lia.
Qed.

Section Linear.
Variables (s s2 : kf1 AX) (tr yr er : list R) (sig w d c : R).
Hypothesis Hs : holds1 s tr yr er sig w.
Hypothesis Hs2 : holds1 s2 (map (fun x => x + d) tr) (map (fun x => c * x) yr) er sig w.
Hypothesis Hinc : strictly_increasing tr.
Hypothesis Hsig : 0 < sig.
Hypothesis Hw : 0 < w.

Lemma shift_strict : strictly_increasing (map (fun x => x + d) tr).
Proof.
  intros i j Hij Hj. rewrite map_length in Hj. rewrite !nth_map0 by lia. specialize (Hinc i j Hij Hj). lra.
Qed.

Lemma filter_linear : exists s' s2', Filter (methods1 AX) s = Ok s' /\ Filter (methods1 AX) s2 = Ok s2' /\
  k_mean s2' = map (fun m => fmul AX (Fin c) m) (k_mean s') /\ k_var s2' = k_var s'.
Proof.
  destruct (holds1_lens _ _ _ _ _ _ Hs) as (Hy & He & Hn & _).
  destruct (filter_main s tr yr er sig w Hs (strict_times_ok _ _ Hinc) Hsig Hw) as (s' & E & L1 & L2 & H).
  destruct (filter_main s2 _ _ er sig w Hs2 (strict_times_ok _ _ shift_strict) Hsig Hw) as (s2' & E2 & M1 & M2 & H2).
  exists s', s2'. split; [exact E|]. split; [exact E2|].
  rewrite !map_length in *.
  assert (forall i, (i < length tr)%nat ->
    nth_error (k_mean s2') i = option_map (fun m => fmul AX (Fin c) m) (nth_error (k_mean s') i) /\
    nth_error (k_var s2') i = nth_error (k_var s') i) as Hall.
  { intros i Hi. destruct (H i Hi) as (m & v & Em & Ev & Hb & _). destruct (H2 i Hi) as (m2 & v2 & Em2 & Ev2 & Hb2 & _).
    rewrite Em, Ev, Em2, Ev2.
    assert (m2 = c * m /\ v2 = v) as [-> ->]; [|split; reflexivity].
    apply (blp_scale _ _ _ _ _ _ _ c) in Hb.
    destruct (spec_determined sig w tr er _ _ _ i _ _ Hinc Hsig Hw ltac:(lia) Hb) as [Hu _]. apply Hu.
    replace (obs_cov (ou_cov sig w) (fun i0 => nth i0 tr 0) (fun i0 => nth i0 er 0) i i) with
      (obs_cov (ou_cov sig w) (fun i0 => nth i0 (map (fun x => x + d) tr) 0) (fun i0 => nth i0 er 0) i i).
    2:{ unfold obs_cov. rewrite nth_map0 by exact Hi. rewrite ou_shift. reflexivity. }
    eapply blp_ext; [| | |exact Hb2].
    - intros a b Ha Hb0. unfold obs_cov. rewrite !nth_map0 by lia. rewrite ou_shift. reflexivity.
    - intros j Hj. rewrite !nth_map0 by lia. apply ou_shift.
    - intros j Hj. apply nth_map0. lia. }
  split; apply list_nth_error_eq.
  - rewrite map_length. congruence.
  - rewrite M1. intros i Hi. rewrite nth_error_map. apply Hall, Hi.
  - congruence.
  - rewrite M2. intros i Hi. apply Hall, Hi.
Qed.

Lemma predict_linear tp : (forall i, (i < length tr)%nat -> nth i tr 0 = tp -> nth i er 0 <> 0) ->
  exists m v s' s2', Predict1 s (Fin tp) = Ok ((Fin m, Fin v), s') /\
    Predict1 s2 (Fin (tp + d)) = Ok ((Fin (c * m), Fin v), s2').
Proof.
  intros Hnz. destruct (holds1_lens _ _ _ _ _ _ Hs) as (Hy & He & Hn & _).
  destruct (predict_main s tr yr er sig w Hs (strict_times_ok _ _ Hinc) Hsig Hw tp Hnz) as (m & v & s' & E & Hb & _).
  destruct (predict_main s2 _ _ er sig w Hs2 (strict_times_ok _ _ shift_strict) Hsig Hw (tp + d)) as (m2 & v2 & s2' & E2 & Hb2 & _).
  { intros i Hi. rewrite map_length in Hi. rewrite nth_map0 by exact Hi. intros Hq. apply Hnz; [exact Hi|lra]. }
  exists m, v, s', s2'. split; [exact E|]. rewrite E2.
  assert (m2 = c * m /\ v2 = v) as [-> ->]; [|reflexivity].
  apply (blp_scale _ _ _ _ _ _ _ c) in Hb.
  destruct (spec_determined sig w tr er _ _ _ _ _ _ Hinc Hsig Hw (Nat.le_refl _) Hb) as [Hu _]. apply Hu.
  rewrite map_length in Hb2. rewrite ou_shift in Hb2.
  eapply blp_ext; [| | |exact Hb2].
  - intros a b Ha Hb0. unfold obs_cov. rewrite !nth_map0 by lia. rewrite ou_shift. reflexivity.
  - intros j Hj. cbv beta. rewrite !nth_map0 by lia. apply ou_shift.
  - intros j Hj. apply nth_map0. lia.
Qed.
End Linear.

(** ** Forecasts far ahead *)
Lemma lt_prefix_all l t : (forall i, (i < length l)%nat -> nth i l 0 < t) -> lt_prefix AR l t = length l.
Proof.
  induction l as [|a l IH]; intros H; [reflexivity|]. simpl. assert (a < t) by (apply (H O); simpl; lia).
  destruct (Rlt_dec a t); [|lra]. rewrite IH; [reflexivity|]. intros i Hi. apply (H (S i)). simpl. lia.
Qed.

Section Forecast.
Variables (s : kf1 AX) (tr yr er : list R) (sig w : R).
Hypothesis Hs : holds1 s tr yr er sig w.
Hypothesis Hinc : strictly_increasing tr.
Hypothesis Hsig : 0 < sig.
Hypothesis Hw : 0 < w.
Let tl := nth (length tr - 1) tr 0.

Lemma forecast_form : exists a b, 0 <= b <= sig / (2 * w) /\ forall tp, tl < tp -> exists s',
  Predict1 s (Fin tp) = Ok ((Fin (exp (- (w * (tp - tl))) * a),
                             Fin (sig / (2 * w) - exp (- (w * (tp - tl))) * exp (- (w * (tp - tl))) * b)), s').
Proof.
  destruct (holds1_lens _ _ _ _ _ _ Hs) as (Hy & He & Hn & Edt).
  set (n1 := (length tr - 1)%nat) in *. assert (length tr = S n1) as Ln by (unfold n1; lia).
  pose proof (strict_times_ok tr er Hinc) as Hok.
  pose proof (V_both tr er sig w Hok Hsig Hw n1 ltac:(lia)) as HVB.
  set (V := vpure AR (diffs AR tr) er sig w n1) in *.
  set (M := mpure AR (diffs AR tr) yr er sig w n1).
  set (e := nth n1 er 0) in *.
  pose (V' := (V : R)). pose (M' := (M : R)).
  change (0 <= V' - e * e <= sig / (2 * w) /\ 0 < V') in HVB. destruct HVB as [HP HV].
  assert (0 <= e * e / V' <= 1) as Hq.
  { pose proof (Rle_0_sqr e) as H0. unfold Rsqr in H0. split.
    - apply Rmult_le_pos; [exact H0|]. left. apply Rinv_0_lt_compat, HV.
    - apply Rmult_le_reg_r with V'; [exact HV|]. unfold Rdiv. rewrite Rmult_assoc, Rinv_l by lra. lra. }
  exists (M' + (V' - e * e) / V' * (nth n1 yr 0 - M')), (sig / (2 * w) - (V' - e * e) * (e * e / V')).
  assert (0 <= (V' - e * e) * (e * e / V') <= sig / (2 * w)) as Hb.
  { split; [apply Rmult_le_pos; lra|]. apply Rle_trans with ((V' - e * e) * 1); [apply Rmult_le_compat_l; lra|lra]. }
  split; [lra|]. intros tp Htp.
  assert (forall i, (i < length tr)%nat -> nth i tr 0 < tp) as Hall.
  { intros i Hi. destruct (Nat.eq_dec i n1) as [->|Hne]; [exact Htp|].
    apply Rlt_trans with tl; [apply Hinc; unfold n1; lia|exact Htp]. }
  destruct Hs as (Hu & E1 & E2 & E3 & E4 & E5).
  destruct (pureP1 AX s (Fin tp) Hu I) as [Ho Hs']. cbn [m_Predict methods1] in Ho.
  destruct (Predict1 s (Fin tp)) as [[r s']|ex| |] eqn:EF; try discriminate Ho.
  cbn [obs_fst] in Ho. unfold pp1 in Ho.
  cbn [setup_of s_dt s_y s_yerr s_sig s_par s_time] in Ho. rewrite E1, E2, E3, E4, E5, Edt in Ho.
  rewrite (predpure_fin tr yr er sig w Hok Hsig Hw Hy He tp) in Ho.
  2:{ intros i Hi Hq'. exfalso. specialize (Hall i Hi). lra. }
  exists s'. f_equal. f_equal. injection Ho as ->. unfold predpure.
  rewrite (lt_prefix_all tr tp Hall). change (@length (F AR) tr) with (length tr). rewrite Nat.eqb_refl.
  unfold forecast. rewrite Ln. unfold nextm, nextv. cbn [fst snd].
  change (fexp AR (fmul AR (fneg AR (fsub AR tp (nth n1 tr (fofZ AR 0)))) w)) with (exp (- (tp - tl) * w)).
  replace (- (tp - tl) * w) with (- (w * (tp - tl))) by ring.
  set (r := exp (- (w * (tp - tl)))). fold V. fold M. fold e.
  f_equal; f_equal.
  - change (r * M' + r * ((V' - e * e) / V') * (nth n1 yr 0 - M') = r * (M' + (V' - e * e) / V' * (nth n1 yr 0 - M'))). ring.
  - change (sig / (2 * w) * (1 - r * r) + r * r * (V' - e * e) * (1 - (V' - e * e) / V') =
            sig / (2 * w) - r * r * (sig / (2 * w) - (V' - e * e) * (e * e / V'))). field. lra.
Qed.

Lemma exp_small a : forall eps, 0 < eps -> exists T, forall x, T < x -> exp (- (w * x)) * Rabs a < eps.
Proof.
  intros eps Heps. set (q := eps / (Rabs a + 1)). pose proof (Rabs_pos a) as Ha.
  assert (0 < q) as Hq by (apply Rdiv_lt_0_compat; lra).
  exists (- ln q / w). intros x Hx.
  assert (exp (- (w * x)) < q) as H1.
  { rewrite <- (exp_ln q Hq). apply exp_increasing.
    apply (Rmult_lt_compat_l w) in Hx; [|exact Hw].
    replace (w * (- ln q / w)) with (- ln q) in Hx by (field; lra). lra. }
  pose proof (exp_pos (- (w * x))).
  apply Rle_lt_trans with (exp (- (w * x)) * (Rabs a + 1)); [nra|].
  replace eps with (q * (Rabs a + 1)) by (unfold q; field; lra). apply Rmult_lt_compat_r; lra.
Qed.

Lemma forecast_limits : forall eps, 0 < eps -> exists T, forall tp, T < tp -> exists m v s',
  Predict1 s (Fin tp) = Ok ((Fin m, Fin v), s') /\ Rabs m < eps /\ sig / (2 * w) - eps < v <= sig / (2 * w).
Proof.
  intros eps Heps. destruct forecast_form as (a & b & Hb & Hf).
  destruct (exp_small a eps Heps) as [T1 H1]. destruct (exp_small b eps Heps) as [T2 H2].
  exists (tl + Rmax 0 (Rmax T1 T2)). intros tp Htp.
  pose proof (Rmax_l 0 (Rmax T1 T2)). pose proof (Rmax_r 0 (Rmax T1 T2)).
  pose proof (Rmax_l T1 T2). pose proof (Rmax_r T1 T2).
  destruct (Hf tp) as [s' E]; [lra|]. eexists _, _, s'. split; [exact E|].
  specialize (H1 (tp - tl) ltac:(lra)). specialize (H2 (tp - tl) ltac:(lra)).
  rewrite (Rabs_right b) in H2 by lra.
  assert (0 < exp (- (w * (tp - tl))) < 1) as Hr by (apply exp_lt_1; nra).
  set (r := exp (- (w * (tp - tl)))) in *. split.
  - rewrite Rabs_mult, (Rabs_right r) by lra. exact H1.
  - assert (0 <= r * r * b <= r * b); [|lra]. split; [apply Rmult_le_pos; nra|].
    replace (r * r * b) with (r * (r * b)) by ring.
    assert (0 <= r * b) by (apply Rmult_le_pos; lra). nra.
Qed.

Lemma forecast_monotone tp1 tp2 : tl < tp1 <= tp2 -> exists m1 v1 s1 m2 v2 s2,
  Predict1 s (Fin tp1) = Ok ((Fin m1, Fin v1), s1) /\ Predict1 s (Fin tp2) = Ok ((Fin m2, Fin v2), s2) /\ 
  v1 <= v2 /\ Rabs m2 <= Rabs m1.
Proof.
  intros H. destruct forecast_form as (a & b & Hb & Hf).
  destruct (Hf tp1) as [s1 E1]; [lra|]. destruct (Hf tp2) as [s2 E2]; [lra|].
  eexists _, _, s1, _, _, s2. split; [exact E1|]. split; [exact E2|].
  assert (exp (- (w * (tp2 - tl))) <= exp (- (w * (tp1 - tl)))) as Hle.
  { destruct (Req_dec tp1 tp2) as [->|]; [lra|]. left. apply exp_increasing. nra. }
  pose proof (exp_pos (- (w * (tp2 - tl)))) as Hp.
  set (r1 := exp (- (w * (tp1 - tl)))) in *. set (r2 := exp (- (w * (tp2 - tl)))) in *.
  split.
  - assert (r2 * r2 <= r1 * r1) by nra. assert (r2 * r2 * b <= r1 * r1 * b) by (apply Rmult_le_compat_r; lra). lra.
  - rewrite !Rabs_mult, (Rabs_right r1), (Rabs_right r2) by lra. apply Rmult_le_compat_r; [apply Rabs_pos|exact Hle].
Qed.
End Forecast.

(** ** Statements in the form used by the property files *)
Lemma construct_c01 X si (raw : kf AX X) t y e :
  valid_sort_index si -> length y = length t -> length e = length t ->
  (exists a b, In a t /\ In b t /\ a <> b) ->
  exists s t' y' e', kf_new (A:=AX) si raw (map Fin t) (map Fin y) (map Fin e) = Ok s /\
    k_time s = map Fin t' /\ k_y s = map Fin y' /\ k_yerr s = map Fin e' /\
    strictly_increasing t' /\ (forall x, In x t' <-> In x t) /\
    (forall i, (i < length t')%nat -> exists k, (k < length t)%nat /\
       nth i t' 0 = nth k t 0 /\ nth i y' 0 = nth k y 0 /\ nth i e' 0 = nth k e 0) /\
    length y' = length t' /\ length e' = length t' /\
    usable s /\ k_sig s = k_sig raw /\ k_ext s = k_ext raw.
Proof.
  intros H1 H2 H3 H4. destruct (construct_main X si raw t y e H1 H2 H3 H4)
    as (s & t' & y' & e' & E & E1 & E2 & E3 & I1 & I2 & I3 & _ & Hu & I4 & I5 & _).
  exists s, t', y', e'. pose proof Hu as (U1 & U2 & U3 & U4 & _). rewrite E1, E2, ?map_length in U3. rewrite E1, E3, !map_length in U4.
  repeat (split; [solve [auto | intros; apply I2; auto]|]).
  split; [|auto]. intros i Hi. destruct (I3 i Hi) as (k & Hk & Q1 & Q2 & Q3 & _). exists k. auto.
Qed.

Lemma nth_mapFin (L : list (F AX)) (tr : list R) i (x : R) :
  L = map Fin tr -> (i < length tr)%nat -> nth i tr 0 = x -> nth_error L i = Some (Fin x : F AX).
Proof. intros -> Hi <-. apply (map_nth_error Fin i tr (d:=nth i tr 0)), nth_error_nth', Hi. Qed.

Lemma construct_c02 X si (raw : kf AX X) t y e :
  valid_sort_index si -> length y = length t -> length e = length t ->
  (exists a b, In a t /\ In b t /\ a <> b) ->
  exists s, kf_new (A:=AX) si raw (map Fin t) (map Fin y) (map Fin e) = Ok s /\
    kf_init (A:=AX) si s = Ok s /\
    (strictly_increasing t -> k_time s = map Fin t /\ k_y s = map Fin y /\ k_yerr s = map Fin e) /\
    (nondecreasing t -> forall i, (i < length (k_time s))%nat -> exists k, (k < length t)%nat /\
       nth_error (k_time s) i = Some (Fin (nth k t 0)) /\ nth_error (k_y s) i = Some (Fin (nth k y 0)) /\
       nth_error (k_yerr s) i = Some (Fin (nth k e 0)) /\ forall j, (j < k)%nat -> nth j t 0 < nth k t 0).
Proof.
  intros H1 H2 H3 H4. destruct (construct_main X si raw t y e H1 H2 H3 H4)
    as (s & t' & y' & e' & E & E1 & E2 & E3 & I1 & I2 & I3 & I6 & Hu & I4 & I5 & I7).
  exists s. split; [exact E|]. split; [exact I7|]. split.
  - intros Hs. destruct (I6 Hs) as (-> & -> & ->). auto.
  - intros Hn i Hi. pose proof Hu as (U1 & U2 & U3 & U4 & _). rewrite E1, E2, ?map_length in U3. rewrite E1, E3, !map_length in U4.
    rewrite E1, map_length in Hi. destruct (I3 i Hi) as (k & Hk & Q1 & Q2 & Q3 & Q4). exists k. split; [exact Hk|].
    split; [eapply nth_mapFin; [exact E1|lia|congruence]|]. split; [eapply nth_mapFin; [exact E2|lia|congruence]|].
    split; [eapply nth_mapFin; [exact E3|lia|congruence]|]. 
    auto.
Qed.

Lemma nth_firstn_lt (l : list R) i k : (k < i)%nat -> nth k (firstn i l) 0 = nth k l 0.
Proof.
  revert i k; induction l as [|x l IH]; intros i k H; [rewrite firstn_nil; reflexivity|].
  destruct i; [lia|]. destruct k; [reflexivity|]. simpl. apply IH. lia.
Qed.

Lemma cond_firstn C tr yr er i tp m v : (i <= length tr)%nat ->
  cond_dist C (firstn i tr) (firstn i yr) (firstn i er) tp m v <->
  is_blp i (obs_cov C (fun k => nth k tr 0) (fun k => nth k er 0)) (fun j => C tp (nth j tr 0)) (C tp tp) (fun k => nth k yr 0) m v.
Proof.
  intros Hi. unfold cond_dist. rewrite firstn_length, Nat.min_l by exact Hi.
  split; apply blp_ext; intros; unfold obs_cov; rewrite ?nth_firstn_lt by assumption; reflexivity.
Qed.

Lemma filter_c05 s tr yr er sig w :
  holds1 s tr yr er sig w -> strictly_increasing tr -> 0 < sig -> 0 < w ->
  exists s', Filter (methods1 AX) s = Ok s' /\ length (k_mean s') = length tr /\ length (k_var s') = length tr /\
  forall i, (i < length tr)%nat -> exists m v,
    nth_error (k_mean s') i = Some (Fin m) /\ nth_error (k_var s') i = Some (Fin v) /\
    cond_dist (ou_cov sig w) (firstn i tr) (firstn i yr) (firstn i er) (nth i tr 0) m (v - nth i er 0 * nth i er 0) /\
    (forall a, v <= mse i (obs_cov (ou_cov sig w) (fun k => nth k tr 0) (fun k => nth k er 0))
                    (fun j => ou_cov sig w (nth i tr 0) (nth j tr 0))
                    (sig / (2 * w) + nth i er 0 * nth i er 0) a).
Proof.
  intros Hs Hinc Hsig Hw.
  destruct (filter_main s tr yr er sig w Hs (strict_times_ok _ _ Hinc) Hsig Hw) as (s' & E & L1 & L2 & H).
  exists s'. split; [exact E|]. split; [exact L1|]. split; [exact L2|].
  intros i Hi. destruct (H i Hi) as (m & v & Em & Ev & Hb & _). exists m, v. split; [exact Em|]. split; [exact Ev|].
  assert (obs_cov (ou_cov sig w) (fun k => nth k tr 0) (fun k => nth k er 0) i i = sig / (2 * w) + nth i er 0 * nth i er 0) as Ed.
  { unfold obs_cov. rewrite Nat.eqb_refl, ou_diag. reflexivity. }
  split.
  - apply cond_firstn; [lia|]. destruct Hb as (a & A1 & A2 & A3). exists a. split; [exact A1|]. split; [exact A2|].
    rewrite A3, Ed, ou_diag. ring.
  - intros a. rewrite <- Ed.
    destruct (spec_determined sig w tr er _ _ _ i m v Hinc Hsig Hw ltac:(lia) Hb) as [_ Ho]. apply Ho.
Qed.

Lemma cond_determined sig w tr yr er tp m v :
  strictly_increasing tr -> 0 < sig -> 0 < w -> cond_dist (ou_cov sig w) tr yr er tp m v ->
  (forall m' v', cond_dist (ou_cov sig w) tr yr er tp m' v' -> m' = m /\ v' = v) /\
  (forall a, v <= mse (length tr) (obs_cov (ou_cov sig w) (fun i => nth i tr 0) (fun i => nth i er 0))
                  (fun j => ou_cov sig w tp (nth j tr 0)) (ou_cov sig w tp tp) a).
Proof. intros Hinc Hsig Hw H. apply (spec_determined sig w tr er _ _ _ _ _ _ Hinc Hsig Hw (Nat.le_refl _) H). Qed.

Lemma filter_c06 s tr yr er sig w :
  holds1 s tr yr er sig w -> strictly_increasing tr -> 0 < sig -> 0 < w ->
  exists s', Filter (methods1 AX) s = Ok s' /\
  forall i, (i < length tr)%nat -> exists m v,
    nth_error (k_mean s') i = Some (Fin m) /\ nth_error (k_var s') i = Some (Fin v) /\
    nth i er 0 * nth i er 0 < v <= sig / (2 * w) + nth i er 0 * nth i er 0.
Proof.
  intros Hs Hinc Hsig Hw.
  destruct (filter_main s tr yr er sig w Hs (strict_times_ok _ _ Hinc) Hsig Hw) as (s' & E & L1 & L2 & H).
  exists s'. split; [exact E|]. intros i Hi. destruct (H i Hi) as (m & v & Em & Ev & _ & _ & Hle & Hlt).
  exists m, v. split; [exact Em|]. split; [exact Ev|]. specialize (Hlt Hinc). lra.
Qed.

Lemma predict_c07 s tr yr er sig w tp :
  holds1 s tr yr er sig w -> strictly_increasing tr -> 0 < sig -> 0 < w ->
  (forall i, (i < length tr)%nat -> nth i tr 0 = tp -> nth i er 0 <> 0) ->
  exists m v s', Predict1 s (Fin tp) = Ok ((Fin m, Fin v), s') /\ cond_dist (ou_cov sig w) tr yr er tp m v.
Proof.
  intros Hs Hinc Hsig Hw Hnz.
  destruct (predict_main s tr yr er sig w Hs (strict_times_ok _ _ Hinc) Hsig Hw tp Hnz) as (m & v & s' & E & Hb & _).
  exists m, v, s'. split; [exact E|exact Hb].
Qed.

Lemma predict_c08 s tr yr er sig w tp :
  holds1 s tr yr er sig w -> strictly_increasing tr -> 0 < sig -> 0 < w ->
  (forall i, (i < length tr)%nat -> nth i tr 0 = tp -> nth i er 0 <> 0) ->
  exists m v s', Predict1 s (Fin tp) = Ok ((Fin m, Fin v), s') /\ 0 < v <= sig / (2 * w) /\
  forall k m' v', (k <= length tr)%nat ->
    cond_dist (ou_cov sig w) (firstn k tr) (firstn k yr) (firstn k er) tp m' v' -> v <= v'.
Proof.
  intros Hs Hinc Hsig Hw Hnz.
  destruct (predict_main s tr yr er sig w Hs (strict_times_ok _ _ Hinc) Hsig Hw tp Hnz) as (m & v & s' & E & Hb & Hv).
  exists m, v, s'. split; [exact E|]. split; [exact Hv|]. intros k m' v' Hk Hc. apply (proj1 (cond_firstn _ _ _ _ _ _ _ _ Hk)) in Hc.
  eapply (blp_var_prefix sig w tr er); [exact Hinc|exact Hsig|exact Hw|apply Nat.le_refl|exact Hk|exact Hb|exact Hc].
Qed.

(** ** Sorting oracles exist *)
Fixpoint rinsert (x : R) (l : list R) : list R :=
  match l with [] => [x] | a :: r => if Rle_dec x a then x :: l else a :: rinsert x r end.
Fixpoint risort (l : list R) : list R := match l with [] => [] | a :: r => rinsert a (risort r) end.

Lemma rinsert_perm x l : Permutation (x :: l) (rinsert x l).
Proof.
  induction l as [|a l IH]; [reflexivity|]. simpl. destruct (Rle_dec x a); [reflexivity|].
  etransitivity; [apply perm_swap|]. constructor. exact IH.
Qed.
Lemma risort_perm l : Permutation l (risort l).
Proof. induction l as [|a l IH]; [constructor|]. simpl. etransitivity; [constructor; exact IH|]. apply rinsert_perm. Qed.

Lemma nondecr_cons a l : (forall x, In x l -> a <= x) -> nondecreasing l -> nondecreasing (a :: l).
Proof.
  intros Ha Hl i j Hij Hj. destruct j as [|j]; [lia|]. simpl in Hj. destruct i as [|i].
  - cbn [nth]. apply Ha, nth_In. lia.
  - cbn [nth]. apply Hl; lia.
Qed.
Lemma nondecr_inv a l : nondecreasing (a :: l) -> (forall x, In x l -> a <= x) /\ nondecreasing l.
Proof.
  intros H. split.
  - intros x Hx. apply (In_nth _ _ 0) in Hx. destruct Hx as (n & Hn & <-). apply (H 0%nat (S n)); simpl; lia.
  - intros i j Hij Hj. apply (H (S i) (S j)); simpl; lia.
Qed.
Lemma rinsert_sorted x l : nondecreasing l -> nondecreasing (rinsert x l).
Proof.
  induction l as [|a l IH]; intros H.
  - intros i j Hij Hj. simpl in Hj. lia.
  - apply nondecr_inv in H. destruct H as [H1 H2]. simpl. destruct (Rle_dec x a) as [Hle|Hgt].
    + apply nondecr_cons; [|apply nondecr_cons; assumption]. intros z [<-|Hz]; [exact Hle|]. specialize (H1 z Hz). lra.
    + apply nondecr_cons; [|apply IH, H2]. intros z Hz.
      apply (Permutation_in _ (Permutation_sym (rinsert_perm x l))) in Hz. destruct Hz as [<-|Hz]; [lra|apply H1, Hz].
Qed.
Lemma risort_sorted l : nondecreasing (risort l).
Proof. induction l as [|a l IH]; [intros i j Hij Hj; simpl in Hj; lia|]. apply rinsert_sorted, IH. Qed.

Definition unFin (x : xr) : R := match x with Fin r => r | _ => 0 end.
Lemma unFin_map l : map unFin (map Fin l) = l.
Proof. rewrite map_map. apply map_id. Qed.

Lemma valid_vsort_exists : exists vs, valid_vsort vs.
Proof.
  exists (fun l => Some (map Fin (risort (map unFin l)))). intros l. exists (risort l). rewrite unFin_map.
  split; [reflexivity|]. split; [apply risort_perm|apply risort_sorted].
Qed.

(** index sort: insert indices by value *)
Fixpoint iinsert (v : list R) (x : nat) (l : list nat) : list nat :=
  match l with [] => [x] | a :: r => if Rle_dec (nth x v 0) (nth a v 0) then x :: l else a :: iinsert v x r end.
Fixpoint iisort (v : list R) (l : list nat) : list nat := match l with [] => [] | a :: r => iinsert v a (iisort v r) end.
Lemma iinsert_map v x l : map (fun i => nth i v 0) (iinsert v x l) = rinsert (nth x v 0) (map (fun i => nth i v 0) l).
Proof. induction l as [|a l IH]; [reflexivity|]. simpl. destruct (Rle_dec _ _); [reflexivity|]. simpl. rewrite IH. reflexivity. Qed.
Lemma iisort_map v l : map (fun i => nth i v 0) (iisort v l) = risort (map (fun i => nth i v 0) l).
Proof. induction l as [|a l IH]; [reflexivity|]. simpl. rewrite iinsert_map, IH. reflexivity. Qed.
Lemma iinsert_perm v x l : Permutation (x :: l) (iinsert v x l).
Proof.
  induction l as [|a l IH]; [reflexivity|]. simpl. destruct (Rle_dec _ _); [reflexivity|].
  etransitivity; [apply perm_swap|]. constructor. exact IH.
Qed.
Lemma iisort_perm v l : Permutation l (iisort v l).
Proof. induction l as [|a l IH]; [constructor|]. simpl. etransitivity; [constructor; exact IH|]. apply iinsert_perm. Qed.

Lemma valid_sort_index_exists : exists si, valid_sort_index si.
Proof.
  exists (fun l => Some (iisort (map unFin l) (seq 0 (length l)))). intros l. exists (iisort l (seq 0 (length l))).
  rewrite unFin_map, map_length. split; [reflexivity|]. split; [symmetry; apply iisort_perm|].
  intros i j Hij Hj. pose proof (risort_sorted (map (fun i => nth i l 0) (seq 0 (length l)))) as H.
  rewrite <- iisort_map in H. specialize (H i j Hij).
  assert (length (iisort l (seq 0 (length l))) = length l) as Hl.
  { rewrite <- (Permutation_length (iisort_perm l (seq 0 (length l)))). apply seq_length. }
  rewrite map_length, Hl in H. specialize (H Hj).
  rewrite !(nth_indep (map _ _) 0 (nth 0 l 0)) in H by (rewrite map_length; lia).
  rewrite !(map_nth (fun i => nth i l 0)) in H. exact H.
Qed.
