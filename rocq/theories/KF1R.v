(** KalmanFilter1 over the reals: exactness of Filter and Predict. *)
From Coq Require Import Reals List Arith ZArith Lra Lia Bool.
From Verif Require Import Arith Res ListLemmas KFModel KF1Proof Spec Gauss Emb.
Import ListNotations.
Local Open Scope R_scope.

Lemma diffs_length A l : length (diffs A l) = (length l - 1)%nat.
Proof.
  induction l as [|a l IH]; [reflexivity|]. destruct l as [|b l]; [reflexivity|].
  change (length (diffs A (a :: b :: l))) with (S (length (diffs A (b :: l)))). rewrite IH. simpl. lia.
Qed.

Lemma diffs_nth A l i d d' : (S i < length l)%nat ->
  nth i (diffs A l) d = fsub A (nth (S i) l d') (nth i l d').
Proof.
  revert i; induction l as [|a l IH]; intros i H; [simpl in H; lia|].
  destruct l as [|b l]; [simpl in H; lia|].
  change (diffs A (a :: b :: l)) with (fsub A b a :: diffs A (b :: l)).
  destruct i as [|i]; [reflexivity|]. simpl in H.
  change (nth (S i) (fsub A b a :: diffs A (b :: l)) d) with (nth i (diffs A (b :: l)) d).
  rewrite IH by (simpl; lia). reflexivity.
Qed.

Lemma diffs_Fin l : diffs AX (map Fin l) = map Fin (diffs AR l).
Proof.
  induction l as [|a l IH]; [reflexivity|]. destruct l as [|b l]; [reflexivity|].
  simpl in IH |- *. rewrite IH. reflexivity.
Qed.

Lemma lt_prefix_Fin l t : lt_prefix AX (map Fin l) (Fin t) = lt_prefix AR l t.
Proof.
  induction l as [|a l IH]; [reflexivity|]. simpl in *. destruct (Rlt_dec a t); [rewrite IH|]; reflexivity.
Qed.

(** times in order; a time may be repeated only if the later record is noisy *)
Definition times_ok (tr er : list R) : Prop :=
  (forall i j, (i < j)%nat -> (j < length tr)%nat -> nth i tr 0 <= nth j tr 0) /\
  (forall i, (S i < length tr)%nat -> nth i tr 0 = nth (S i) tr 0 -> nth (S i) er 0 <> 0).

Lemma strict_times_ok tr er : strictly_increasing tr -> times_ok tr er.
Proof.
  intros H. split.
  - intros i j Hij Hj. left. apply H; assumption.
  - intros i Hi E. exfalso. assert (nth i tr 0 < nth (S i) tr 0) by (apply H; lia). lra.
Qed.

Lemma lt_prefix_spec l t i : (forall i j, (i < j)%nat -> (j < length l)%nat -> nth i l 0 <= nth j l 0) -> (i < length l)%nat ->
  ((i < lt_prefix AR l t)%nat <-> nth i l 0 < t).
Proof.
  revert i; induction l as [|a l IH]; intros i Hs Hi; [simpl in Hi; lia|].
  assert (forall i j, (i < j)%nat -> (j < length l)%nat -> nth i l 0 <= nth j l 0) as Hs'.
  { intros j k Hjk Hk. apply (Hs (S j) (S k)); simpl; lia. }
  simpl. destruct (Rlt_dec a t) as [Hat|Hat].
  - destruct i as [|i]; [split; [intros; exact Hat|lia]|].
    simpl in Hi. rewrite <- (IH i Hs') by lia. lia.
  - split; [lia|]. intros H. exfalso. apply Hat. destruct i as [|i]; [exact H|].
    assert (nth 0 (a :: l) 0 <= nth (S i) (a :: l) 0) as H2 by (apply Hs; [lia|exact Hi]). simpl in H2. lra.
Qed.

Lemma lt_prefix_len A l t : (lt_prefix A l t <= length l)%nat.
Proof. induction l as [|x l IH]; simpl; [lia|]. destruct (flt A x t); lia. Qed.

Section Data.
Variables (tr yr er : list R) (sig w : R).
Let n := length tr.
Hypothesis Hinc : times_ok tr er.
Hypothesis Hsig : 0 < sig.
Hypothesis Hw : 0 < w.
Let t i := nth i tr 0.
Let y i := nth i yr 0.
Let e i := nth i er 0.
Let dt : list R := diffs AR tr.
Let S0 := sig / (2 * w).
Let V : nat -> R := vpure AR dt er sig w.
Let M : nat -> R := mpure AR dt yr er sig w.
Let C i j := ou_cov sig w (t i) (t j).
Let K := obs_cov (ou_cov sig w) t e.
Let rho i := exp (- 1 * w * (t (S i) - t i)).

Lemma S0_pos : 0 < S0.
Proof. unfold S0. apply Rdiv_lt_0_compat; lra. Qed.

Lemma exp_lt_1 x : x < 0 -> 0 < exp x < 1.
Proof. intros H. split; [apply exp_pos|]. rewrite <- exp_0. apply exp_increasing, H. Qed.

Lemma V_0 : V 0 = S0 + e 0%nat * e 0%nat.
Proof. reflexivity. Qed.

Lemma V_S b : (S b < n)%nat ->
  V (S b) = S0 * (1 - rho b * rho b) + rho b * rho b * (V b - e b * e b) * (1 - (V b - e b * e b) / V b)
            + e (S b) * e (S b).
Proof.
  intros H. unfold V at 1. cbn [vpure]. fold V. unfold nextv.
  unfold dt. rewrite (diffs_nth AR tr b (fofZ AR 0) 0 H). reflexivity.
Qed.

Lemma M_S b : (S b < n)%nat ->
  M (S b) = rho b * M b + rho b * ((V b - e b * e b) / V b) * (y b - M b).
Proof.
  intros H. unfold M at 1. cbn [mpure]. fold V. fold M. unfold nextm.
  unfold dt. rewrite (diffs_nth AR tr b (fofZ AR 0) 0 H). reflexivity.
Qed.

Lemma t_le i j : (i <= j)%nat -> (j < n)%nat -> t i <= t j.
Proof. intros Hij Hj. destruct (Nat.eq_dec i j) as [->|]; [lra|]. apply Hinc; [lia|exact Hj]. Qed.

Lemma rho_bounds b : (S b < n)%nat -> 0 < rho b <= 1.
Proof.
  intros H. split; [apply exp_pos|]. unfold rho. rewrite <- exp_0. 
  assert (t b <= t (S b)) as Hle by (apply t_le; [lia|exact H]).
  destruct (Req_dec (t b) (t (S b))) as [E|E].
  - right. f_equal. rewrite E. ring.
  - left. apply exp_increasing. nra.
Qed.

Lemma rho_or_err b : (S b < n)%nat -> rho b < 1 \/ 0 < e (S b) * e (S b).
Proof.
  intros H. assert (t b <= t (S b)) as Hle by (apply t_le; [lia|exact H]).
  destruct (Req_dec (t b) (t (S b))) as [E|E].
  - right. assert (e (S b) <> 0) by (apply Hinc; assumption). nra.
  - left. apply exp_lt_1. nra.
Qed.

(** one prediction step keeps the noise-free variance nonnegative and below the stationary one *)
Lemma step_bounds P ev r : 0 < r <= 1 -> 0 <= P <= S0 -> 0 <= ev -> 0 < P + ev ->
  S0 * (1 - r * r) <= S0 * (1 - r * r) + r * r * P * (1 - P / (P + ev)) <= S0.
Proof.
  intros Hr HP Hev Hpe. pose proof S0_pos as H0.
  assert (1 - P / (P + ev) = ev / (P + ev)) as -> by (field; lra).
  assert (0 <= ev / (P + ev) <= 1) as [Hq0 Hq1].
  { split; [apply Rmult_le_pos; [exact Hev|]; left; apply Rinv_0_lt_compat; lra|].
    apply Rmult_le_reg_r with (P + ev); [lra|]. unfold Rdiv. rewrite Rmult_assoc, Rinv_l by lra. lra. }
  set (q := ev / (P + ev)) in *.
  assert (0 < r * r <= 1) as Hrr by nra. set (rr := r * r) in *.
  assert (0 <= rr * P * q) by (apply Rmult_le_pos; [apply Rmult_le_pos; lra|exact Hq0]).
  assert (rr * P * q <= rr * S0).
  { apply Rle_trans with (rr * P * 1); [apply Rmult_le_compat_l; [apply Rmult_le_pos; lra|exact Hq1]|].
    rewrite Rmult_1_r. apply Rmult_le_compat_l; lra. }
  split; nra.
Qed.

Lemma V_both i : (i < n)%nat -> 0 <= V i - e i * e i <= S0 /\ 0 < V i.
Proof.
  induction i as [|i IH]; intros Hi.
  - rewrite V_0. pose proof S0_pos. pose proof (Rle_0_sqr (e 0%nat)). unfold Rsqr in *. lra.
  - rewrite V_S by exact Hi. assert (i < n)%nat as Hi' by lia. destruct (IH Hi') as [HP Hv].
    set (P := V i - e i * e i) in *. assert (V i = P + e i * e i) as E by (unfold P; ring). rewrite E in *.
    pose proof (step_bounds P (e i * e i) (rho i) (rho_bounds i Hi) HP (Rle_0_sqr (e i)) Hv) as H.
    pose proof (rho_bounds i Hi) as Hr. pose proof S0_pos as H0.
    assert (0 <= S0 * (1 - rho i * rho i)) as H1 by (apply Rmult_le_pos; nra).
    pose proof (Rle_0_sqr (e (S i))) as He. unfold Rsqr in He.
    split; [lra|].
    destruct (rho_or_err i Hi) as [Hlt|Hlt]; [|lra].
    assert (0 < S0 * (1 - rho i * rho i)) by (apply Rmult_lt_0_compat; nra). lra.
Qed.

Lemma V_bounds0 i : (i < n)%nat -> 0 <= V i - e i * e i <= S0.
Proof. intros Hi. apply V_both, Hi. Qed.
Lemma V_pos i : (i < n)%nat -> 0 < V i.
Proof. intros Hi. apply V_both, Hi. Qed.

Lemma V_bounds i : strictly_increasing tr -> (i < n)%nat -> 0 < V i - e i * e i <= S0.
Proof.
  intros Hs Hi. split; [|apply V_bounds0, Hi]. destruct i as [|i].
  - rewrite V_0. pose proof S0_pos. lra.
  - rewrite V_S by exact Hi. assert (i < n)%nat as Hi' by lia. destruct (V_both i Hi') as [HP Hv].
    set (P := V i - e i * e i) in *. assert (V i = P + e i * e i) as E by (unfold P; ring). rewrite E in *.
    pose proof (step_bounds P (e i * e i) (rho i) (rho_bounds i Hi) HP (Rle_0_sqr (e i)) Hv) as H.
    pose proof S0_pos as H0.
    assert (0 < rho i < 1) as Hr.
    { apply exp_lt_1. assert (t i < t (S i)) by (apply Hs; [lia|exact Hi]). nra. }
    assert (0 < S0 * (1 - rho i * rho i)) by (apply Rmult_lt_0_compat; nra). lra.
Qed.

Lemma ou_sym a b : ou_cov sig w a b = ou_cov sig w b a.
Proof. unfold ou_cov. rewrite Rabs_minus_sym. reflexivity. Qed.

Lemma C_sym i j : C i j = C j i.
Proof. apply ou_sym. Qed.

Lemma K_sym i j : K i j = K j i.
Proof.
  unfold K, obs_cov. rewrite ou_sym. f_equal. destruct (Nat.eqb_spec i j) as [->|H].
  - rewrite Nat.eqb_refl. reflexivity.
  - destruct (Nat.eqb_spec j i); [congruence|reflexivity].
Qed.

Lemma K_off i j : i <> j -> K i j = C i j.
Proof. intros H. unfold K, obs_cov. destruct (Nat.eqb_spec i j); [contradiction|]. unfold C. ring. Qed.

Lemma K_diag i : K i i = S0 + e i * e i.
Proof.
  unfold K, obs_cov, ou_cov. rewrite Nat.eqb_refl, Rminus_diag_eq by reflexivity.
  rewrite Rabs_R0, Rmult_0_r, Ropp_0, exp_0. unfold S0. ring.
Qed.

Lemma ou_diag a : ou_cov sig w a a = S0.
Proof. unfold ou_cov. rewrite Rminus_diag_eq, Rabs_R0, Rmult_0_r, Ropp_0, exp_0 by reflexivity. unfold S0. ring. Qed.

(** the Markov property of the covariance *)
Lemma ou_markov a b c : a <= b <= c -> ou_cov sig w c a = exp (- 1 * w * (c - b)) * ou_cov sig w b a.
Proof.
  intros H. unfold ou_cov. rewrite !Rabs_right by lra.
  rewrite <- Rmult_assoc, (Rmult_comm (exp _)), Rmult_assoc, <- exp_plus. f_equal. f_equal. ring.
Qed.

(** One step of the filter: from the predictor of x(t_i) given y_0..y_{i-1} to the predictor of x(s) given
    y_0..y_i, for any s after t_i. *)
Lemma forward_step i s m P :
  (i < n)%nat -> t i <= s ->
  0 < P + e i * e i ->
  is_blp i K (C i) S0 y m P ->
  let r := exp (- 1 * w * (s - t i)) in
  let g := P / (P + e i * e i) in
  is_blp (S i) K (fun k => ou_cov sig w s (t k)) S0 y
    (r * m + r * g * (y i - m)) (S0 * (1 - r * r) + r * r * P * (1 - g)).
Proof.
  intros Hi Hs Hv (wt & Hne & Hm & HP) r g.
  exists (fun k => if Nat.eqb k i then r * g else r * (1 - g) * wt k).
  assert (forall f, Rsum (fun k => (if Nat.eqb k i then r * g else r * (1 - g) * wt k) * f k) (S i)
          = r * (1 - g) * Rsum (fun k => wt k * f k) i + r * g * f i) as Hsum.
  { intros f. rewrite Rsum_S, Nat.eqb_refl. f_equal. rewrite <- Rsum_scal. apply Rsum_ext.
    intros k Hk. destruct (Nat.eqb_spec k i); [lia|]. ring. }
  assert (g * (P + e i * e i) = P) as Hg by (unfold g; field; lra).
  assert (forall k, (k <= i)%nat -> ou_cov sig w s (t k) = r * C i k) as Hmk.
  { intros k Hk. apply ou_markov. split; [|exact Hs].
    apply t_le; lia. }
  assert (Rsum (fun k => wt k * C i k) i = S0 - P) as HSP by lra.
  split; [|split].
  - intros j Hj. rewrite Hsum, Hmk by lia. destruct (Nat.eq_dec j i) as [->|Hji].
    + rewrite (Rsum_ext _ (fun k => wt k * C i k)).
      2:{ intros k Hk. rewrite K_off by lia. rewrite C_sym. reflexivity. }
      rewrite HSP, K_diag. unfold C. rewrite ou_diag.
      replace (r * (1 - g) * (S0 - P) + r * g * (S0 + e i * e i))
        with (r * (S0 - P + g * (P + e i * e i))) by ring.
      rewrite Hg. ring.
    + rewrite (Hne j) by lia. rewrite K_off by lia. ring.
  - rewrite Hsum, <- Hm. ring.
  - rewrite Hsum. rewrite (Rsum_ext _ (fun k => r * (wt k * C i k))).
    2:{ intros k Hk. rewrite Hmk by lia. ring. }
    rewrite Rsum_scal, HSP, Hmk by lia. unfold C. rewrite ou_diag. ring.
Qed.

(** Filter: mean and noise-free variance at index i solve the prediction problem *)
Lemma filter_blp i : (i < n)%nat -> is_blp i K (C i) S0 y (M i) (V i - e i * e i).
Proof.
  induction i as [|i IH]; intros Hi.
  - exists (fun _ => 0). split; [intros j Hj; lia|]. split; [reflexivity|]. rewrite V_0. simpl. ring.
  - assert (i < n)%nat as Hi' by lia. specialize (IH Hi').
    pose proof (V_pos i Hi') as Hv.
    assert (t i <= t (S i)) as Ht by (apply t_le; lia).
    assert (0 < V i - e i * e i + e i * e i) as Hv' by lra.
    pose proof (forward_step i (t (S i)) (M i) (V i - e i * e i) Hi' Ht Hv' IH) as H. cbv zeta in H.
    fold (rho i) in H. replace (V i - e i * e i + e i * e i) with (V i) in H by ring.
    rewrite M_S, V_S by exact Hi.
    match goal with |- is_blp _ _ _ _ _ _ ?v => match type of H with is_blp _ _ _ _ _ _ ?v' =>
      replace v with v' by ring end end.
    exact H.
Qed.

Lemma V_blp i : (i < n)%nat -> is_blp i K (fun j => K i j) (K i i) y (M i) (V i).
Proof.
  intros Hi. destruct (filter_blp i Hi) as (wt & H1 & H2 & H3). exists wt. split; [|split].
  - intros j Hj. rewrite H1 by exact Hj. rewrite K_off by lia. reflexivity.
  - exact H2.
  - rewrite (Rsum_ext _ (fun k => wt k * C i k)).
    2:{ intros k Hk. rewrite K_off by lia. reflexivity. }
    rewrite K_diag. lra.
Qed.

(** *** Prediction at an arbitrary time *)
Section Pred.
Variable tp : R.
Let ip := lt_prefix AR tr tp.
Let c k := ou_cov sig w tp (t k).
Let cc (k : nat) : R := cconst AR tr dt yr er sig w tp ip k.
Let cs (k : nat) : R := cslope AR tr dt yr er sig w tp ip k.
Let cv (k : nat) : R := cvar AR tr dt yr er sig w tp ip k.

Lemma before i : (i < n)%nat -> (i < ip)%nat -> t i < tp.
Proof. intros Hi H. apply (lt_prefix_spec tr tp i (proj1 Hinc) Hi), H. Qed.
Lemma after i : (i < n)%nat -> (ip <= i)%nat -> tp <= t i.
Proof.
  intros Hi H. destruct (Rlt_dec (t i) tp) as [H2|H2]; [|lra].
  apply (lt_prefix_spec tr tp i (proj1 Hinc) Hi) in H2. unfold ip in H. lia.
Qed.
Lemma ip_le : (ip <= n)%nat.
Proof. apply lt_prefix_len. Qed.

Lemma forecast_blp : exists m0 v0 : R, forecast AR tr dt yr er sig w tp ip = (m0, v0) /\
  is_blp ip K c S0 y m0 v0 /\ 0 < v0 <= S0.
Proof.
  pose proof S0_pos as HS. pose proof ip_le as Hle.
  unfold forecast. destruct ip as [|b] eqn:E.
  - exists 0, S0. split; [reflexivity|]. split; [|lra].
    exists (fun _ => 0). split; [intros j Hj; lia|]. split; [reflexivity|]. simpl. ring.
  - assert (b < n)%nat as Hb by lia.
    assert (t b < tp) as Hlt by (apply before; [exact Hb|]; unfold ip in E; lia).
    pose proof (V_bounds0 b Hb) as HP. pose proof (V_pos b Hb) as Hv.
    set (r := exp (- 1 * w * (tp - t b))).
    exists (r * M b + r * ((V b - e b * e b) / V b) * (y b - M b)),
           (S0 * (1 - r * r) + r * r * (V b - e b * e b) * (1 - (V b - e b * e b) / V b)).
    split; [|split].
    + assert (r = exp (- (tp - t b) * w)) as -> by (unfold r; f_equal; ring). reflexivity.
    + assert (0 < V b - e b * e b + e b * e b) as Hv' by lra.
      pose proof (forward_step b tp (M b) (V b - e b * e b) Hb (Rlt_le _ _ Hlt) Hv' (filter_blp b Hb)) as H.
      cbv zeta in H. fold r in H. replace (V b - e b * e b + e b * e b) with (V b) in H by ring. exact H.
    + assert (0 < r < 1) as Hr by (apply exp_lt_1; nra).
      pose proof (step_bounds (V b - e b * e b) (e b * e b) r ltac:(lra) HP (Rle_0_sqr (e b)) ltac:(lra)) as H.
      replace (V b - e b * e b + e b * e b) with (V b) in H by ring.
      assert (0 < S0 * (1 - r * r)) by (apply Rmult_lt_0_compat; nra). lra.
Qed.

Lemma cs_0 : cs 0 = exp (- Rabs (t ip - tp) * w).
Proof. reflexivity. Qed.
Lemma cc_0 : cc 0 = 0.
Proof. reflexivity. Qed.
Lemma cv_0 : cv 0 = S0 * (1 - cs 0 * cs 0) + e ip * e ip.
Proof. reflexivity. Qed.

Lemma cpure_S k : (S (ip + k) < n)%nat ->
  let b := (ip + k)%nat in let P := cv k - e b * e b in let g := P / cv k in
  cc (S k) = cc k * rho b * (1 - g) + rho b * g * y b /\
  cs (S k) = cs k * (rho b * (1 - g)) /\
  cv (S k) = S0 * (1 - rho b * rho b) + rho b * rho b * P * (1 - g) + e (S b) * e (S b).
Proof.
  intros H b P g.
  pose proof (diffs_nth AR tr b (fofZ AR 0) 0 H) as Hd.
  assert (exp (- 1 * nth b dt (fofZ AR 0) * w) = rho b) as Hr.
  { replace (nth b dt (fofZ AR 0)) with (t (S b) - t b) by (symmetry; exact Hd). unfold rho. f_equal. ring. }
  subst g P. unfold cc, cs, cv, cconst, cslope, cvar. cbn [cpure].
  destruct (cpure AR tr dt yr er sig w tp ip k) as [[co sl] vb]. cbn [fst snd].
  fold b. unfold nextv.
  change (fexp AR (fmul AR (fmul AR (fneg AR (fofZ AR 1)) (nth b dt (fofZ AR 0))) w))
    with (exp (- 1 * nth b dt (fofZ AR 0) * w)).
  rewrite Hr. repeat split; reflexivity.
Qed.

Hypothesis Hip : (ip < n)%nat.
(** t is not the time of a noise-free measurement *)
Hypothesis Hok : tp <> t ip \/ e ip <> 0.

Lemma cs0_bounds : 0 < cs 0 <= 1.
Proof.
  rewrite cs_0. split; [apply exp_pos|].
  destruct (Req_dec (t ip) tp) as [->|Hne].
  - rewrite Rminus_diag_eq, Rabs_R0, Ropp_0, Rmult_0_l, exp_0 by reflexivity. lra.
  - assert (0 < Rabs (t ip - tp)) by (apply Rabs_pos_lt; lra).
    left. apply exp_lt_1. nra.
Qed.

Lemma cv_bounds k : (ip + k < n)%nat ->
  0 <= cv k - e (ip + k)%nat * e (ip + k)%nat <= S0 /\ 0 < cv k.
Proof.
  induction k as [|k IH]; intros Hk.
  - rewrite Nat.add_0_r. rewrite cv_0. pose proof cs0_bounds as Hb. pose proof S0_pos as HS.
    pose proof (Rle_0_sqr (e ip)) as He. unfold Rsqr in He.
    assert (0 <= cs 0 * cs 0 <= 1) as Hq by nra.
    split; [nra|].
    destruct (Req_dec (t ip) tp) as [Heq|Hne].
    + assert (0 < e ip * e ip) by (destruct Hok as [H|H]; [congruence|]; nra). nra.
    + assert (0 < cs 0 < 1) as Hlt.
      { rewrite cs_0. apply exp_lt_1. assert (0 < Rabs (t ip - tp)) by (apply Rabs_pos_lt; lra). nra. }
      assert (cs 0 * cs 0 < 1) by nra. nra.
  - assert (S (ip + k) < n)%nat as Hk' by lia.
    destruct (cpure_S k Hk') as (_ & _ & E). cbv zeta in E.
    replace (ip + S k)%nat with (S (ip + k)) by lia.
    rewrite E. destruct IH as [HP Hv]; [lia|]. pose proof S0_pos as HS.
    pose proof (rho_bounds (ip + k) Hk') as Hr.
    set (b := (ip + k)%nat) in *. set (P := cv k - e b * e b) in *.
    assert (cv k = P + e b * e b) as Ecv by (unfold P; ring). rewrite Ecv.
    pose proof (Rle_0_sqr (e b)) as He. unfold Rsqr in He.
    pose proof (Rle_0_sqr (e (S b))) as He'. unfold Rsqr in He'.
    assert (1 - P / (P + e b * e b) = e b * e b / (P + e b * e b)) as -> by (field; lra).
    assert (0 <= e b * e b / (P + e b * e b) <= 1) as [Hq0 Hq1].
    { split; [apply Rmult_le_pos; [exact He|]; left; apply Rinv_0_lt_compat; lra|].
      apply Rmult_le_reg_r with (P + e b * e b); [lra|]. unfold Rdiv. rewrite Rmult_assoc, Rinv_l by lra. lra. }
    set (q := e b * e b / (P + e b * e b)) in *. set (r := rho b) in *.
    pose proof (rho_or_err b Hk') as Hro. fold r in Hro.
    assert (0 < r * r <= 1) as Hrr by nra. 
    assert (r * r < 1 \/ 0 < e (S b) * e (S b)) as Hro' by (destruct Hro; [left; nra|right; assumption]).
    set (rr := r * r) in *.
    assert (0 <= rr * P * q) by (apply Rmult_le_pos; [apply Rmult_le_pos; lra|exact Hq0]).
    assert (rr * P * q <= rr * S0).
    { apply Rle_trans with (rr * P * 1); [apply Rmult_le_compat_l; [apply Rmult_le_pos; lra|exact Hq1]|].
      rewrite Rmult_1_r. apply Rmult_le_compat_l; lra. }
    assert (0 <= S0 * (1 - rr)) by (apply Rmult_le_pos; lra).
    split; [split; nra|].
    destruct Hro' as [Hl|Hl]; [|lra].
    assert (0 < S0 * (1 - rr)) by (apply Rmult_lt_0_compat; lra). lra.
Qed.

(** regression of observation ip + k on the earlier observations and the value at tp *)
Lemma coefs_regression k : (ip + k < n)%nat ->
  let i := (ip + k)%nat in
  exists beta,
    (forall j, (j < i)%nat -> Rsum (fun l => beta l * K l j) i + cs k * c j = K i j) /\
    Rsum (fun l => beta l * c l) i + cs k * S0 = c i /\
    cv k = K i i - Rsum (fun l => beta l * K l i) i - cs k * c i /\
    cc k = Rsum (fun l => beta l * y l) i.
Proof.
  induction k as [|k IH]; intros Hk i.
  - assert (i = ip) as -> by (unfold i; lia).
    assert (cs 0 = exp (- 1 * w * (t ip - tp))) as Ecs.
    { rewrite cs_0. f_equal. rewrite Rabs_right; [ring|]. pose proof (after ip Hip (Nat.le_refl _)). lra. }
    assert (c ip = cs 0 * S0) as Ec.
    { unfold c. rewrite ou_sym, Ecs. rewrite <- (ou_diag tp). apply ou_markov.
      pose proof (after ip Hip (Nat.le_refl _)). lra. }
    exists (fun _ => 0). split; [|split; [|split]].
    + intros j Hj. rewrite Rsum_0 by (intros; ring). rewrite Rplus_0_l, K_off by lia.
      unfold C, c. rewrite (ou_markov (t j) tp (t ip)).
      2:{ pose proof (after ip Hip (Nat.le_refl _)). assert (t j < tp) by (apply before; lia). lra. }
      rewrite Ecs. reflexivity.
    + rewrite Rsum_0 by (intros; ring). rewrite Ec. ring.
    + rewrite Rsum_0 by (intros; ring). rewrite cv_0, K_diag, Ec. ring.
    + rewrite Rsum_0 by (intros; ring). apply cc_0.
  - assert (S (ip + k) < n)%nat as Hk' by lia.
    destruct (cpure_S k Hk') as (E1 & E2 & E3). cbv zeta in E1, E2, E3.
    destruct (cv_bounds k) as [HP Hv]; [lia|].
    destruct IH as (beta & B1 & B2 & B3 & B4); [lia|]. cbv zeta in *.
    assert (i = S (ip + k)) as -> by (unfold i; lia).
    set (b := (ip + k)%nat) in *.
    set (P := cv k - e b * e b) in *. set (g := P / cv k) in *.
    assert (g * cv k = P) as Hg by (unfold g; field; lra).
    assert (t b <= t (S b)) as Ht by (apply t_le; lia).
    assert (forall a, a <= t b -> ou_cov sig w (t (S b)) a = rho b * ou_cov sig w (t b) a) as Hmk.
    { intros a Ha. apply ou_markov. lra. }
    assert (c (S b) = rho b * c b) as Hc.
    { unfold c. rewrite !(ou_sym tp). apply Hmk. apply after; lia. }
    set (r := rho b) in *.
    assert (forall f, Rsum (fun l => (if Nat.eqb l b then r * g else r * (1 - g) * beta l) * f l) (S b)
            = r * (1 - g) * Rsum (fun l => beta l * f l) b + r * g * f b) as Hsum.
    { intros f. rewrite Rsum_S, Nat.eqb_refl. f_equal. rewrite <- Rsum_scal. apply Rsum_ext.
      intros l Hl. destruct (Nat.eqb_spec l b); [lia|]. ring. }
    exists (fun l => if Nat.eqb l b then r * g else r * (1 - g) * beta l).
    assert (forall j, (j <= b)%nat -> K (S b) j = r * C b j) as HKS.
    { intros j Hj. rewrite K_off by lia. apply Hmk.
      apply t_le; lia. }
    split; [|split; [|split]].
    + intros j Hj. rewrite Hsum, HKS, E2 by lia. destruct (Nat.eq_dec j b) as [->|Hjb].
      * unfold C. rewrite ou_diag. rewrite K_diag in B3 |- *.
        assert (Rsum (fun l => beta l * K l b) b = S0 + e b * e b - cv k - cs k * c b) as -> by lra.
        replace (r * (1 - g) * (S0 + e b * e b - cv k - cs k * c b) + r * g * (S0 + e b * e b) + cs k * (r * (1 - g)) * c b)
          with (r * (S0 + e b * e b - cv k + g * cv k)) by ring.
        rewrite Hg. unfold P. ring.
      * rewrite (K_off b j) by lia.
        assert (Rsum (fun l => beta l * K l j) b = C b j - cs k * c j) as ->.
        { rewrite <- (K_off b j) by lia. rewrite <- (B1 j) by lia. ring. }
        ring.
    + rewrite Hsum, E2, Hc. rewrite <- B2. ring.
    + rewrite Hsum, E2, E3, K_diag.
      rewrite (Rsum_ext _ (fun l => r * (beta l * K l b))).
      2:{ intros l Hl. rewrite (K_sym l (S b)), (K_sym l b), HKS by lia. rewrite (K_off b l) by lia. ring. }
      rewrite Rsum_scal, (K_sym b (S b)), HKS by lia. unfold C. rewrite ou_diag, Hc.
      rewrite K_diag in B3.
      assert (Rsum (fun l => beta l * K l b) b = S0 + e b * e b - cv k - cs k * c b) as -> by lra.
      fold P. replace (cv k) with (P + e b * e b) by (unfold P; ring). ring.
    + rewrite Hsum, E1, <- B4. ring.
Qed.

Lemma absorb_blp (m0 v0 : R) k : forecast AR tr dt yr er sig w tp ip = (m0, v0) -> (ip + k <= n)%nat ->
  exists mm pp : R, apure AR tr dt yr er sig w tp ip k (m0 * (1 / v0), 1 / v0) = (mm, pp) /\
    1 / v0 <= pp /\ is_blp (ip + k) K c S0 y (mm / pp) (1 / pp).
Proof.
  intros Hf. destruct forecast_blp as (m0' & v0' & Hf' & Hblp & Hv0).
  rewrite Hf' in Hf. injection Hf as -> ->.
  assert (0 < 1 / v0) as Hi0 by (apply Rdiv_lt_0_compat; lra).
  induction k as [|k IH]; intros Hk.
  - exists (m0 * (1 / v0)), (1 / v0). split; [reflexivity|]. split; [lra|]. rewrite Nat.add_0_r.
    replace (m0 * (1 / v0) / (1 / v0)) with m0 by (field; lra).
    replace (1 / (1 / v0)) with v0 by (field; lra). exact Hblp.
  - destruct IH as (mm & pp & Ea & Hpp & Hb); [lia|].
    destruct (coefs_regression k) as (beta & B1 & B2 & B3 & B4); [lia|]. cbv zeta in *.
    destruct (cv_bounds k) as [HP Hv]; [lia|].
    cbn [apure]. rewrite Ea. unfold apure1.
    fold (cc k). fold (cs k). fold (cv k). fold (y (ip + k)).
    set (i := (ip + k)%nat) in *.
    exists (mm + cs k * (y i - cc k) / cv k), (pp + cs k * cs k / cv k).
    assert (0 <= cs k * cs k / cv k) as Hge.
    { apply Rmult_le_pos; [apply Rle_0_sqr|]. left. apply Rinv_0_lt_compat, Hv. }
    split; [reflexivity|]. split; [lra|].
    replace (ip + S k)%nat with (S i) by (unfold i; lia).
    assert (0 < pp) as Hp0 by lra.
    assert (0 < 1 / pp) as Hip0 by (apply Rdiv_lt_0_compat; lra).
    pose proof (absorb_lemma i K c S0 y (mm / pp) (1 / pp) beta (cs k) (cc k) (cv k) K_sym Hb B1 B2 B3 B4) as H.
    assert (mm / pp / (1 / pp) = mm) as Em by (field; lra).
    assert (1 / (1 / pp) = pp) as Ep by (field; lra).
    rewrite Em, Ep in H. apply H; try lra.
    pose proof (Rle_0_sqr (cs k)). unfold Rsqr in *.
    assert (0 <= cs k * cs k * (1 / pp)) by (apply Rmult_le_pos; lra). lra.
Qed.
End Pred.

(** Predict, as a function of the data over the reals *)
Lemma predict_blp tp :
  (forall i, (i < n)%nat -> t i = tp -> e i <> 0) ->
  exists m v : R, predpure AR tr dt yr er sig w tp = (m, v) /\ 0 < v <= S0 /\
    is_blp n K (fun k => ou_cov sig w tp (t k)) S0 y m v /\
    (let '(_, v0) := forecast AR tr dt yr er sig w tp (lt_prefix AR tr tp) in v <= v0).
Proof.
  intros Hnz. unfold predpure.
  destruct (forecast_blp tp) as (m0 & v0 & Hf & Hblp & Hv0). rewrite Hf.
  pose proof (ip_le tp) as Hle. change (@length (F AR) tr) with n.
  destruct (Nat.eqb_spec (lt_prefix AR tr tp) n) as [Heq|Hneq].
  - exists m0, v0. split; [reflexivity|]. split; [exact Hv0|]. rewrite Heq in Hblp. split; [exact Hblp|lra].
  - assert (lt_prefix AR tr tp < n)%nat as Hlt by lia.
    destruct (absorb_blp tp Hlt) with (m0 := m0) (v0 := v0) (k := (n - lt_prefix AR tr tp)%nat)
      as (mm & pp & Ea & Hpp & Hb).
    + destruct (Req_dec tp (t (lt_prefix AR tr tp))) as [E|E]; [right|left; exact E].
      apply Hnz; [exact Hlt|symmetry; exact E].
    + exact Hf.
    + lia.
    + match goal with |- context [apure ?a ?b ?c ?d ?e ?f ?g ?h ?i ?j ?k] =>
        replace (apure a b c d e f g h i j k) with ((mm, pp) : F AR * F AR) by (symmetry; exact Ea) end.
      assert (0 < 1 / v0) as H0 by (apply Rdiv_lt_0_compat; lra).
      assert (0 < pp) as Hp by lra.
      exists (mm * (1 / pp)), (1 / pp). split; [reflexivity|].
      assert (1 / pp <= v0) as Hq.
      { replace v0 with (1 / (1 / v0)) by (field; lra). unfold Rdiv. rewrite !Rmult_1_l.
        apply Rinv_le_contravar; [|]; unfold Rdiv in *; lra. }
      assert (0 < 1 / pp) by (apply Rdiv_lt_0_compat; lra).
      split; [lra|]. split; [|exact Hq].
      replace (mm * (1 / pp)) with (mm / pp) by (field; lra).
      replace n with (lt_prefix AR tr tp + (n - lt_prefix AR tr tp))%nat by lia. exact Hb.
Qed.
End Data.
