(** The population variance of the drivers (src/carmcmc.cpp L35-38, L85-88) in double precision: bound on the rounding error. *)
From Coq Require Import Reals ZArith Bool Lra Lia List.
From Flocq Require Import Core BinarySingleNaN Relative Plus_error.
From Verif Require Import Arith Float64.
Import ListNotations.
Local Open Scope R_scope.

(** ** Finite results *)
Lemma over_inf s : is_finite_SF (binary_overflow 53 1024 mode_NE s) = false.
Proof. destruct s; reflexivity. Qed.
Lemma fin_SF (x : b64) : is_finite_SF (B2SF x) = is_finite x.
Proof. destruct x; reflexivity. Qed.
Lemma add_fin (x y : b64) : fin (Bplus mode_NE x y) -> fin x /\ fin y.
Proof. unfold fin. destruct x as [s|s| |s m e H]; destruct y as [s'|s'| |s' m' e' H']; cbn; try (intros Q; split; reflexivity); try discriminate; destruct s, s'; discriminate. Qed.
Lemma add_val (x y : b64) : fin (Bplus mode_NE x y) -> fin x /\ fin y /\ val (Bplus mode_NE x y) = rnd (val x + val y).
Proof.
  intros H. destruct (add_fin x y H) as [Fx Fy]. split; [exact Fx|]. split; [exact Fy|].
  pose proof (Bplus_correct 53 1024 p53 p53_1024 mode_NE x y Fx Fy) as HC. cbn [round_mode] in HC. change (SpecFloat.fexp 53 1024) with fx in HC.
  destruct (Rlt_bool _ _); [exact (proj1 HC)|]. exfalso. destruct HC as [E _]. unfold fin in H. rewrite <- fin_SF, E, over_inf in H. discriminate.
Qed.
Lemma sub_fin (x y : b64) : fin (Bminus mode_NE x y) -> fin x /\ fin y.
Proof. unfold fin. destruct x as [s|s| |s m e H]; destruct y as [s'|s'| |s' m' e' H']; cbn; try (intros Q; split; reflexivity); try discriminate; destruct s, s'; discriminate. Qed.
Lemma sub_val (x y : b64) : fin (Bminus mode_NE x y) -> fin x /\ fin y /\ val (Bminus mode_NE x y) = rnd (val x - val y).
Proof.
  intros H. destruct (sub_fin x y H) as [Fx Fy]. split; [exact Fx|]. split; [exact Fy|].
  pose proof (Bminus_correct 53 1024 p53 p53_1024 mode_NE x y Fx Fy) as HC. cbn [round_mode] in HC. change (SpecFloat.fexp 53 1024) with fx in HC.
  destruct (Rlt_bool _ _); [exact (proj1 HC)|]. exfalso. destruct HC as [E _]. unfold fin in H. rewrite <- fin_SF, E, over_inf in H. discriminate.
Qed.
Lemma mul_val (x y : b64) : fin (Bmult mode_NE x y) -> fin x /\ fin y /\ val (Bmult mode_NE x y) = rnd (val x * val y).
Proof.
  intros H. pose proof (Bmult_correct 53 1024 p53 p53_1024 mode_NE x y) as HC. cbn [round_mode] in HC. change (SpecFloat.fexp 53 1024) with fx in HC.
  destruct (Rlt_bool _ _).
  - destruct HC as (E & Ef & _). unfold fin in H. rewrite Ef in H. apply andb_prop in H. destruct H as [Fx Fy]. split; [exact Fx|]. split; [exact Fy|exact E].
  - exfalso. unfold fin in H. rewrite <- fin_SF, HC, over_inf in H. discriminate.
Qed.
Lemma div_val (x y : b64) : val y <> 0 -> fin (Bdiv mode_NE x y) -> fin x /\ val (Bdiv mode_NE x y) = rnd (val x / val y).
Proof.
  intros Hy H. pose proof (Bdiv_correct 53 1024 p53 p53_1024 mode_NE x y Hy) as HC. cbn [round_mode] in HC. change (SpecFloat.fexp 53 1024) with fx in HC.
  destruct (Rlt_bool _ _).
  - destruct HC as (E & Ef & _). unfold fin in *. rewrite Ef in H. split; [exact H|exact E].
  - exfalso. unfold fin in H. rewrite <- fin_SF, HC, over_inf in H. discriminate.
Qed.

(** ** Rounding errors *)
Definition u53 : R := / 2 * bpow radix2 (-52).
Definition eta : R := / 2 * bpow radix2 (-1074).
Lemma u53_pos : 0 < u53. Proof. unfold u53. pose proof (bpow_gt_0 radix2 (-52)). lra. Qed.
Lemma eta_pos : 0 < eta. Proof. unfold eta. pose proof (bpow_gt_0 radix2 (-1074)). lra. Qed.
Lemma rnd_err r : Rabs (rnd r - r) <= u53 * Rabs r + eta.
Proof.
  destruct (error_N_FLT radix2 (-1074) 53 eq_refl (fun x => negb (Z.even x)) r) as (e & h & He & Hh & _ & E). change (- (53) + 1)%Z with (-52)%Z in He.
  fold u53 in He. fold eta in Hh. rewrite E. replace (r * (1 + e) + h - r) with (r * e + h) by ring.
  eapply Rle_trans; [apply Rabs_triang|]. rewrite Rabs_mult. apply Rplus_le_compat; [|exact Hh]. rewrite Rmult_comm. apply Rmult_le_compat_r; [apply Rabs_pos|exact He].
Qed.
Lemma plus_err x y : repr x -> repr y -> Rabs (rnd (x + y) - (x + y)) <= u53 * Rabs (x + y).
Proof.
  intros [Hx _] [Hy _]. destruct (FLT_plus_error_N_ex radix2 (-1074) 53 (fun x => negb (Z.even x)) x y Hx Hy) as (e & He & E). rewrite E.
  change (u_ro radix2 53) with u53 in He. replace ((x + y) * (1 + e) - (x + y)) with (e * (x + y)) by ring. rewrite Rabs_mult. apply Rmult_le_compat_r; [apply Rabs_pos|].
  pose proof u53_pos as Hu. eapply Rle_trans; [exact He|]. apply Rmult_le_reg_r with (1 + u53); [lra|]. unfold Rdiv. rewrite Rmult_assoc, Rinv_l by lra. nra.
Qed.

(** ** Sums *)
Definition rho (k : nat) : R := (1 + u53) ^ k.
Lemma rho_1 k : 1 <= rho k. Proof. apply pow_R1_Rle. pose proof u53_pos. lra. Qed.
Lemma rho_S k : rho (S k) = (1 + u53) * rho k. Proof. reflexivity. Qed.
Lemma rho_le j k : (j <= k)%nat -> rho j <= rho k.
Proof. intros H. apply Rle_pow; [pose proof u53_pos; lra|exact H]. Qed.
Definition sumf (f : R -> R) (l : list b64) : R := fold_right (fun x s => f (val x) + s) 0 l.
Lemma sumf_nonneg f l : (forall x, 0 <= f x) -> 0 <= sumf f l.
Proof. intros H. induction l as [|a l IH]; cbn; [lra|]. pose proof (H (val a)). unfold sumf in IH. lra. Qed.
Lemma abs_le a b : Rabs a <= b -> - b <= a <= b. Proof. intros H. pose proof (Rle_abs a). pose proof (Rle_abs (- a)). rewrite Rabs_Ropp in *. lra. Qed.

Lemma fold_fin (step : b64 -> b64 -> b64) : (forall a x, fin (step a x) -> fin a) -> forall l acc, fin (fold_left step l acc) -> fin acc.
Proof. intros Hs. induction l as [|b l IH]; intros z H; [exact H|]. cbn in H. apply IH in H. exact (Hs _ _ H). Qed.
Lemma sum_step (u r x y w F S T : R) : 0 < u -> 1 <= r -> 0 <= T -> Rabs (w - (x + y)) <= u * Rabs (x + y) -> Rabs (F - (w + S)) <= (r - 1) * (Rabs w + T) ->
  Rabs (F - (x + (y + S))) <= ((1 + u) * r - 1) * (Rabs x + (Rabs y + T)).
Proof.
  intros Hu Hr HT He IH.
  assert (Rabs (x + y) <= Rabs x + Rabs y) as Ht by apply Rabs_triang.
  assert (Rabs w <= (1 + u) * (Rabs x + Rabs y)) as Hw.
  { replace w with ((w - (x + y)) + (x + y)) by ring. eapply Rle_trans; [apply Rabs_triang|]. nra. }
  replace (F - (x + (y + S))) with ((F - (w + S)) + (w - (x + y))) by ring. eapply Rle_trans; [apply Rabs_triang|].
  assert (0 <= Rabs x + Rabs y) by (pose proof (Rabs_pos x); pose proof (Rabs_pos y); lra).
  apply Rle_trans with ((r - 1) * ((1 + u) * (Rabs x + Rabs y) + T) + u * (Rabs x + Rabs y)).
  + apply Rplus_le_compat; [|nra]. eapply Rle_trans; [exact IH|]. apply Rmult_le_compat_l; lra.
  + assert (0 <= (u * r) * T) by (apply Rmult_le_pos; [nra|assumption]). nra.
Qed.
Lemma sum_err : forall l acc, fin (fold_left (Bplus mode_NE) l acc) ->
  Rabs (val (fold_left (Bplus mode_NE) l acc) - (val acc + sumf (fun x => x) l)) <= (rho (List.length l) - 1) * (Rabs (val acc) + sumf Rabs l).
Proof.
  induction l as [|a l IH]; intros acc H; cbn [fold_left List.length sumf fold_right].
  - rewrite !Rplus_0_r, Rminus_diag_eq, Rabs_R0 by reflexivity. unfold rho. cbn [pow]. lra.
  - cbn [fold_left] in H. specialize (IH _ H).
    assert (fin (Bplus mode_NE acc a)) as Fa by (apply (fold_fin (Bplus mode_NE)) in H; [exact H|intros b x Q; exact (proj1 (add_fin _ _ Q))]).
    destruct (add_val _ _ Fa) as (_ & _ & E). pose proof (plus_err _ _ (repr_val acc) (repr_val a)) as He. rewrite <- E in He.
    fold (sumf (fun x => x) l) (sumf Rabs l). pose proof (sumf_nonneg Rabs l Rabs_pos) as HT. rewrite rho_S. pose proof (rho_1 (List.length l)) as Hr. pose proof u53_pos as Hu.
    exact (sum_step _ _ _ _ _ _ _ _ Hu Hr HT He IH).
Qed.
Definition sqstep (s x : b64) : b64 := Bplus mode_NE s (Bmult mode_NE x x).
Lemma sq_step (u h r k x q m w F T : R) : 0 < u -> 0 < h -> 1 <= r -> 0 <= k -> 0 <= q -> 0 <= T -> Rabs (m - q) <= u * Rabs q + h -> Rabs (w - (x + m)) <= u * Rabs (x + m) ->
  Rabs (F - (w + T)) <= (r - 1) * Rabs w + ((1 + u) * r - 1) * T + k * r * h ->
  Rabs (F - (x + (q + T))) <= ((1 + u) * r - 1) * Rabs x + ((1 + u) * ((1 + u) * r) - 1) * (q + T) + (k + 1) * ((1 + u) * r) * h.
Proof.
  intros Hu Hh Hr Hk Hq HT Hm He IH.
  rewrite (Rabs_pos_eq q) in Hm by exact Hq. pose proof (Rabs_pos x) as Hx.
  assert (Rabs m <= (1 + u) * q + h) as Hm'. { replace m with ((m - q) + q) by ring. eapply Rle_trans; [apply Rabs_triang|]. rewrite (Rabs_pos_eq q) by exact Hq. lra. }
  assert (Rabs (x + m) <= Rabs x + Rabs m) as Ht by apply Rabs_triang.
  assert (Rabs (w - (x + q)) <= u * Rabs x + ((1 + u) * (1 + u) - 1) * q + (1 + u) * h) as Hd.
  { replace (w - (x + q)) with ((w - (x + m)) + (m - q)) by ring. eapply Rle_trans; [apply Rabs_triang|]. nra. }
  assert (Rabs w <= (1 + u) * Rabs x + (1 + u) * (1 + u) * q + (1 + u) * h) as Hw.
  { replace w with ((w - (x + q)) + (x + q)) by ring. eapply Rle_trans; [apply Rabs_triang|]. assert (Rabs (x + q) <= Rabs x + q) by (eapply Rle_trans; [apply Rabs_triang|]; rewrite (Rabs_pos_eq q) by exact Hq; lra). lra. }
  replace (F - (x + (q + T))) with ((F - (w + T)) + (w - (x + q))) by ring. eapply Rle_trans; [apply Rabs_triang|].
  apply Rle_trans with ((r - 1) * ((1 + u) * Rabs x + (1 + u) * (1 + u) * q + (1 + u) * h) + ((1 + u) * r - 1) * T + k * r * h + (u * Rabs x + ((1 + u) * (1 + u) - 1) * q + (1 + u) * h)).
  { assert ((r - 1) * Rabs w <= (r - 1) * ((1 + u) * Rabs x + (1 + u) * (1 + u) * q + (1 + u) * h)) by (apply Rmult_le_compat_l; lra). lra. }
  assert (0 <= u * r * (1 + u) * T) as A1 by (repeat apply Rmult_le_pos; lra).
  assert (0 <= k * r * h * u) as A2 by (repeat apply Rmult_le_pos; lra).
  replace ((1 + u) * ((1 + u) * r) - 1) with ((1 + u) * r - 1 + u * r * (1 + u)) by ring. nra.
Qed.
Lemma sq_err : forall l acc, fin (fold_left sqstep l acc) ->
  Rabs (val (fold_left sqstep l acc) - (val acc + sumf (fun x => x * x) l)) <=
  (rho (List.length l) - 1) * Rabs (val acc) + (rho (S (List.length l)) - 1) * sumf (fun x => x * x) l + INR (List.length l) * rho (List.length l) * eta.
Proof.
  induction l as [|a l IH]; intros acc H.
  - cbn [fold_left List.length sumf fold_right]. rewrite !Rplus_0_r, Rminus_diag_eq, Rabs_R0 by reflexivity. unfold rho. cbn [pow INR]. lra.
  - cbn [fold_left] in H |- *. specialize (IH _ H).
    assert (fin (sqstep acc a)) as Fa by (apply (fold_fin sqstep) in H; [exact H|intros b x Q; exact (proj1 (add_fin _ _ Q))]).
    destruct (add_val _ _ Fa) as (_ & Fm & E). destruct (mul_val _ _ Fm) as (_ & _ & Em). fold (sqstep acc a) in E.
    pose proof (plus_err _ _ (repr_val acc) (repr_val (Bmult mode_NE a a))) as He. rewrite <- E in He. pose proof (rnd_err (val a * val a)) as Hm. rewrite <- Em in Hm.
    cbn [sumf fold_right]. fold (sumf (fun x => x * x) l). pose proof (sumf_nonneg (fun x => x * x) l Rle_0_sqr) as HT.
    change (List.length (a :: l)) with (S (List.length l)). rewrite S_INR, !rho_S in *. pose proof (rho_1 (List.length l)) as Hr. pose proof u53_pos as Hu. pose proof eta_pos as Hh. pose proof (pos_INR (List.length l)) as Hk.
    exact (sq_step _ _ _ _ _ _ _ _ _ _ Hu Hh Hr Hk (Rle_0_sqr (val a)) HT Hm He IH).
Qed.

(** ** The variance *)
Lemma cauchy_step (k x Q T : R) : 0 <= k -> 0 <= x -> 0 <= Q -> 0 <= T -> T * T <= k * Q -> (x + T) * (x + T) <= (k + 1) * (x * x + Q).
Proof.
  intros Hk Hx HQ HT IH.
  (* 2 x T <= k x^2 + Q *)
  destruct (Req_dec k 0) as [->|Hk0].
  - assert (T * T <= 0) by lra. assert (T = 0) as -> by nra. nra.
  - assert (0 < k) by lra. assert (0 <= (k * x - T) * (k * x - T)) as Hs by apply Rle_0_sqr. assert (2 * (k * x) * T <= k * (k * x * x + Q)) as H2 by nra.
    assert (2 * x * T <= k * x * x + Q). { apply Rmult_le_reg_l with k; [assumption|]. lra. } nra.
Qed.
Lemma cauchy (l : list b64) : (sumf Rabs l) * (sumf Rabs l) <= INR (List.length l) * sumf (fun x => x * x) l.
Proof.
  induction l as [|a l IH]; [cbn; lra|]. change (List.length (a :: l)) with (S (List.length l)). rewrite S_INR. cbn [sumf fold_right]. fold (sumf Rabs l) (sumf (fun x => x * x) l).
  replace (val a * val a) with (Rabs (val a) * Rabs (val a)) by (rewrite <- Rabs_mult; apply Rabs_pos_eq, Rle_0_sqr).
  pose proof (pos_INR (List.length l)) as Hk. pose proof (sumf_nonneg Rabs l Rabs_pos) as HT. pose proof (sumf_nonneg (fun x => x * x) l Rle_0_sqr) as HQ.
  exact (cauchy_step _ _ _ _ Hk (Rabs_pos _) HQ HT IH).
Qed.
Lemma abs_sum l : Rabs (sumf (fun x => x) l) <= sumf Rabs l.
Proof. induction l as [|a l IH]; cbn [sumf fold_right]; [rewrite Rabs_R0; lra|]. fold (sumf (fun x => x) l) (sumf Rabs l). eapply Rle_trans; [apply Rabs_triang|]. lra. Qed.
Lemma eta_small : eta * eta * (1 + u53) * (1 + / u53) <= eta.
Proof.
  assert (u53 <= 1) as H1. { unfold u53. assert (bpow radix2 (-52) <= 1) by (apply (bpow_le radix2 (-52) 0); lia). lra. }
  assert (/ u53 = 2 * bpow radix2 52) as E. { unfold u53. rewrite Rinv_mult, Rinv_inv. f_equal. rewrite <- bpow_opp. reflexivity. }
  rewrite E. assert (eta * (4 * (2 * bpow radix2 52)) <= 1) as H2.
  { unfold eta. replace (/ 2 * bpow radix2 (-1074) * (4 * (2 * bpow radix2 52))) with (4 * (bpow radix2 (-1074) * bpow radix2 52)) by field. rewrite <- bpow_plus. change 4 with (bpow radix2 2). rewrite <- bpow_plus. apply (bpow_le radix2 _ 0). lia. }
  assert (1 <= bpow radix2 52) as H3 by (apply (bpow_le radix2 0 52); lia). pose proof eta_pos as He. pose proof u53_pos as Hu. set (b := bpow radix2 52) in *. clearbody b. clear E.
  assert ((1 + u53) * (1 + 2 * b) <= 4 * (2 * b)) by nra. assert (eta * ((1 + u53) * (1 + 2 * b)) <= eta * (4 * (2 * b))) by (apply Rmult_le_compat_l; lra).
  replace (eta * eta * (1 + u53) * (1 + 2 * b)) with (eta * (eta * ((1 + u53) * (1 + 2 * b)))) by ring. nra.
Qed.
Lemma rho_bound k : INR k * u53 <= / 2 -> rho k - 1 <= 2 * (INR k * u53).
Proof.
  intros H. pose proof u53_pos as Hu.
  assert (forall j, rho j * (1 - INR j * u53) <= 1) as HI.
  { induction j as [|j IH]; [unfold rho; cbn; lra|]. rewrite rho_S, S_INR. pose proof (rho_1 j). pose proof (pos_INR j).
    assert (0 <= rho j * (INR j * u53 * u53 + u53 * u53)) by (apply Rmult_le_pos; [lra|nra]). nra. }
  specialize (HI k). pose proof (rho_1 k). pose proof (pos_INR k). nra.
Qed.
Lemma mean_step (u h R T S s m k : R) : 0 < u -> 0 < h -> 0 < k -> 1 <= R -> Rabs S <= T -> Rabs (s - S) <= (R - 1) * T -> Rabs (m - s / k) <= u * Rabs (s / k) + h ->
  Rabs (m - S / k) <= ((1 + u) * R - 1) * (T / k) + h.
Proof.
  intros Hu Hh Hk HR HS Hs Hm. assert (0 < / k) as Hi by (apply Rinv_0_lt_compat, Hk).
  assert (Rabs (s / k - S / k) <= (R - 1) * (T / k)) as H1.
  { replace (s / k - S / k) with ((s - S) * / k) by (unfold Rdiv; ring). rewrite Rabs_mult, (Rabs_pos_eq (/ k)) by lra. unfold Rdiv. nra. }
  assert (Rabs (S / k) <= T / k) as H2 by (unfold Rdiv; rewrite Rabs_mult, (Rabs_pos_eq (/ k)) by lra; apply Rmult_le_compat_r; lra).
  assert (Rabs (s / k) <= R * (T / k)) as H3. { replace (s / k) with ((s / k - S / k) + S / k) by ring. eapply Rle_trans; [apply Rabs_triang|]. lra. }
  replace (m - S / k) with ((m - s / k) + (s / k - S / k)) by ring. eapply Rle_trans; [apply Rabs_triang|]. assert (u * Rabs (s / k) <= u * (R * (T / k))) by (apply Rmult_le_compat_l; lra). lra.
Qed.
Lemma square_step (u h P t M m0 m w : R) : 0 < u -> 0 < h -> 1 <= P -> 0 <= t -> t * t <= M -> Rabs m0 <= t -> Rabs (m - m0) <= (P - 1) * t + h -> Rabs (w - m * m) <= u * Rabs (m * m) + h ->
  h * h * (1 + u) * (1 + / u) <= h -> Rabs (w - m0 * m0) <= ((1 + u) * (1 + u) * (P * P) - 1) * M + 2 * h.
Proof.
  intros Hu Hh HP Ht HM H0 Hm Hw Hs.
  assert (Rabs m <= P * t + h) as Hm1. { replace m with ((m - m0) + m0) by ring. eapply Rle_trans; [apply Rabs_triang|]. lra. }
  assert (Rabs (m + m0) <= (P + 1) * t + h) as Hm2 by (eapply Rle_trans; [apply Rabs_triang|]; lra).
  assert (Rabs (m * m - m0 * m0) <= ((P - 1) * t + h) * ((P + 1) * t + h)) as H1.
  { replace (m * m - m0 * m0) with ((m - m0) * (m + m0)) by ring. rewrite Rabs_mult. apply Rmult_le_compat; try apply Rabs_pos; assumption. }
  assert (Rabs (m * m) <= (P * t + h) * (P * t + h)) as H2 by (rewrite Rabs_mult; apply Rmult_le_compat; try apply Rabs_pos; assumption).
  assert (0 <= P * t) as HPt by (apply Rmult_le_pos; lra).
  assert (2 * (P * t) * h <= u * (P * t * (P * t)) + h * h * / u) as H3.
  { assert (0 <= (u * (P * t) - h) * (u * (P * t) - h)) as Q by apply Rle_0_sqr. apply Rmult_le_reg_l with u; [exact Hu|].
    replace (u * (u * (P * t * (P * t)) + h * h * / u)) with (u * (P * t) * (u * (P * t)) + h * h) by (field; lra). lra. }
  replace (w - m0 * m0) with ((w - m * m) + (m * m - m0 * m0)) by ring. eapply Rle_trans; [apply Rabs_triang|].
  assert (u * Rabs (m * m) <= u * ((P * t + h) * (P * t + h))) as H4 by (apply Rmult_le_compat_l; lra).
  apply Rle_trans with (((1 + u) * (1 + u) * (P * P) - 1) * (t * t) + 2 * h).
  - apply Rle_trans with (u * ((P * t + h) * (P * t + h)) + h + ((P - 1) * t + h) * ((P + 1) * t + h)); [lra|].
    replace (u * ((P * t + h) * (P * t + h)) + h + ((P - 1) * t + h) * ((P + 1) * t + h)) with ((1 + u) * (P * t * (P * t)) - t * t + (1 + u) * (2 * (P * t) * h) + (1 + u) * (h * h) + h) by ring.
    assert ((1 + u) * (2 * (P * t) * h) <= (1 + u) * (u * (P * t * (P * t)) + h * h * / u)) by (apply Rmult_le_compat_l; lra).
    replace (h * h * (1 + u) * (1 + / u)) with ((1 + u) * (h * h) + (1 + u) * (h * h * / u)) in Hs by ring. lra.
  - assert (1 <= (1 + u) * (1 + u) * (P * P)) by nra. assert (((1 + u) * (1 + u) * (P * P) - 1) * (t * t) <= ((1 + u) * (1 + u) * (P * P) - 1) * M) by (apply Rmult_le_compat_l; lra). lra.
Qed.
Lemma msq_step (u h R Q q d k : R) : 0 < u -> 0 < h -> 0 < k -> 1 <= R -> 0 <= Q -> Rabs (q - Q) <= ((1 + u) * R - 1) * Q + k * R * h -> Rabs (d - q / k) <= u * Rabs (q / k) + h ->
  Rabs (d - Q / k) <= ((1 + u) * ((1 + u) * R) - 1) * (Q / k) + (1 + u) * R * h + h.
Proof.
  intros Hu Hh Hk HR HQ Hq Hd. assert (0 < / k) as Hi by (apply Rinv_0_lt_compat, Hk).
  assert (Rabs (q / k - Q / k) <= ((1 + u) * R - 1) * (Q / k) + R * h) as H1.
  { replace (q / k - Q / k) with ((q - Q) * / k) by (unfold Rdiv; ring). rewrite Rabs_mult, (Rabs_pos_eq (/ k)) by lra.
    replace (((1 + u) * R - 1) * (Q / k) + R * h) with ((((1 + u) * R - 1) * Q + k * R * h) * / k) by (field; lra). apply Rmult_le_compat_r; lra. }
  assert (0 <= Q / k) as H2 by (apply Rmult_le_pos; lra).
  assert (Rabs (q / k) <= (1 + u) * R * (Q / k) + R * h) as H3. { replace (q / k) with ((q / k - Q / k) + Q / k) by ring. eapply Rle_trans; [apply Rabs_triang|]. rewrite (Rabs_pos_eq (Q / k)) by exact H2. lra. }
  replace (d - Q / k) with ((d - q / k) + (q / k - Q / k)) by ring. eapply Rle_trans; [apply Rabs_triang|]. assert (u * Rabs (q / k) <= u * ((1 + u) * R * (Q / k) + R * h)) by (apply Rmult_le_compat_l; lra). lra.
Qed.
(** the computed variance *)
Definition var64 (l : list b64) : b64 :=
  let n := ofZ64 (Z.of_nat (List.length l)) in let mean := Bdiv mode_NE (fold_left (Bplus mode_NE) l (ofZ64 0)) n in
  Bminus mode_NE (Bdiv mode_NE (fold_left sqstep l (ofZ64 0)) n) (Bmult mode_NE mean mean).
Theorem var_err (l : list b64) : l <> [] -> (Z.of_nat (List.length l) < 2 ^ 50)%Z -> fin (var64 l) ->
  let k := INR (List.length l) in
  Rabs (val (var64 l) - (sumf (fun x => x * x) l / k - (sumf (fun x => x) l / k) * (sumf (fun x => x) l / k))) <=
  (8 * k + 20) * bpow radix2 (-53) * (sumf (fun x => x * x) l / k) + bpow radix2 (-1072).
Proof.
  intros Hl Hn H k. assert (0 < List.length l)%nat as Hl0 by (destruct l; [congruence|cbn; lia]).
  destruct (ofZ_val (Z.of_nat (List.length l))) as [Fn Vn]; [lia|]. rewrite <- INR_IZR_INZ in Vn. fold k in Vn. destruct (ofZ_val 0) as [_ V0]; [lia|].
  assert (0 < k) as Hk by (apply (lt_INR 0), Hl0). assert (val (ofZ64 (Z.of_nat (List.length l))) <> 0) as Hn0 by (rewrite Vn; lra).
  unfold var64 in H |- *. destruct (sub_val _ _ H) as (Fd & Fw & Ev). destruct (mul_val _ _ Fw) as (Fm & _ & Ew). destruct (div_val _ _ Hn0 Fm) as [Fs Em]. destruct (div_val _ _ Hn0 Fd) as [Fq Ed].
  rewrite Vn in Em, Ed. pose proof (sum_err l _ Fs) as Hs. pose proof (sq_err l _ Fq) as Hq. rewrite V0, Rabs_R0, !Rplus_0_l in Hs. rewrite V0, Rabs_R0, Rmult_0_r, !Rplus_0_l in Hq.
  set (s := val (fold_left (Bplus mode_NE) l (ofZ64 0))) in *. set (q := val (fold_left sqstep l (ofZ64 0))) in *.
  set (mb := Bdiv mode_NE (fold_left (Bplus mode_NE) l (ofZ64 0)) (ofZ64 (Z.of_nat (List.length l)))) in *. set (db := Bdiv mode_NE (fold_left sqstep l (ofZ64 0)) (ofZ64 (Z.of_nat (List.length l)))) in *.
  set (wb := Bmult mode_NE mb mb) in *. pose proof (rnd_err (s / k)) as Hm. rewrite <- Em in Hm. pose proof (rnd_err (q / k)) as Hd. rewrite <- Ed in Hd. pose proof (rnd_err (val mb * val mb)) as Hw. rewrite <- Ew in Hw.
  assert (Rabs (val (Bminus mode_NE db wb) - (val db - val wb)) <= u53 * Rabs (val db - val wb)) as Hv by (rewrite Ev; exact (plus_err (val db) (- val wb) (repr_val db) (repr_opp _ (repr_val wb)))).
  pose proof u53_pos as Hu. pose proof eta_pos as Hh. pose proof (rho_1 (List.length l)) as HR. pose proof (sumf_nonneg (fun x => x * x) l Rle_0_sqr) as HQ. pose proof (sumf_nonneg Rabs l Rabs_pos) as HT.
  pose proof (abs_sum l) as HS. pose proof (cauchy l) as HC. fold k in HC. rewrite rho_S in Hq. fold k in Hq.
  set (R := rho (List.length l)) in *. set (S := sumf (fun x => x) l) in *. set (T := sumf Rabs l) in *. set (Q := sumf (fun x => x * x) l) in *.
  pose proof (mean_step _ _ _ _ _ _ _ _ Hu Hh Hk HR HS Hs Hm) as B1.
  assert (0 < / k) as Hi by (apply Rinv_0_lt_compat, Hk).
  assert (T / k * (T / k) <= Q / k) as HM. { replace (T / k * (T / k)) with (T * T * (/ k * / k)) by (unfold Rdiv; ring). replace (Q / k) with (k * Q * (/ k * / k)) by (field; lra). apply Rmult_le_compat_r; [nra|exact HC]. }
  assert (0 <= T / k) as HTk by (apply Rmult_le_pos; lra).
  assert (Rabs (S / k) <= T / k) as HSk by (unfold Rdiv; rewrite Rabs_mult, (Rabs_pos_eq (/ k)) by lra; apply Rmult_le_compat_r; lra).
  assert (1 <= (1 + u53) * R) as HP by nra.
  pose proof (square_step _ _ _ _ _ _ _ _ Hu Hh HP HTk HM HSk B1 Hw eta_small) as B2.
  pose proof (msq_step _ _ _ _ _ _ _ Hu Hh Hk HR HQ Hq Hd) as B3.
  set (M := Q / k) in *. set (m0 := S / k) in *. assert (0 <= M) as HM0 by nra.
  assert (rho (2 * List.length l + 5) = (1 + u53) * ((1 + u53) * (1 + u53) * (((1 + u53) * R) * ((1 + u53) * R)))) as E1.
  { unfold R, rho. replace (2 * List.length l + 5)%nat with (5 + (List.length l + List.length l))%nat by lia. rewrite !pow_add. ring. }
  assert (rho (List.length l + 3) = (1 + u53) * ((1 + u53) * ((1 + u53) * R))) as E2 by (unfold R, rho; rewrite pow_add; ring).
  assert (rho (List.length l + 3) <= rho (2 * List.length l + 5)) as E3 by (apply rho_le; lia).
  assert (INR (2 * List.length l + 5) = 2 * k + 5) as EI by (rewrite plus_INR, mult_INR; cbn [INR]; fold k; lra).
  assert (u53 = bpow radix2 (-53)) as Eu by (unfold u53; change (-52)%Z with (1 + -53)%Z; rewrite bpow_plus; change (bpow radix2 1) with 2; field).
  assert (k <= bpow radix2 50) as Hk50 by (unfold k; rewrite INR_IZR_INZ; change (bpow radix2 50) with (IZR (2 ^ 50)); apply IZR_le; lia).
  assert ((2 * k + 5) * u53 <= / 2) as Hsmall.
  { rewrite Eu. apply Rle_trans with (bpow radix2 52 * bpow radix2 (-53)).
    - apply Rmult_le_compat_r; [apply bpow_ge_0|]. change (bpow radix2 52) with 4503599627370496. change (bpow radix2 50) with 1125899906842624 in Hk50. lra.
    - rewrite <- bpow_plus. right. reflexivity. }
  pose proof (rho_bound (2 * List.length l + 5)) as HB. rewrite EI in HB. specialize (HB Hsmall).
  assert (R <= rho (2 * List.length l + 5)) as HRb by (apply rho_le; lia).
  assert (6 * eta <= bpow radix2 (-1072)) as Heta.
  { unfold eta. change (-1072)%Z with (2 + -1074)%Z. rewrite bpow_plus. change (bpow radix2 2) with 4. pose proof (bpow_gt_0 radix2 (-1074)). lra. }
  replace (val (Bminus mode_NE db wb) - (M - m0 * m0)) with ((val (Bminus mode_NE db wb) - (val db - val wb)) + ((val db - M) - (val wb - m0 * m0))) by ring.
  eapply Rle_trans; [apply Rabs_triang|].
  assert (Rabs ((val db - M) - (val wb - m0 * m0)) <= Rabs (val db - M) + Rabs (val wb - m0 * m0)) as HX by (unfold Rminus at 1; eapply Rle_trans; [apply Rabs_triang|]; rewrite Rabs_Ropp; lra).
  assert (Rabs (M - m0 * m0) <= M) as HY.
  { assert (m0 * m0 <= M) by (replace (m0 * m0) with (Rabs m0 * Rabs m0) by (rewrite <- Rabs_mult; apply Rabs_pos_eq, Rle_0_sqr); pose proof (Rabs_pos m0); nra). pose proof (Rle_0_sqr m0) as Q0. unfold Rsqr in Q0. rewrite Rabs_pos_eq by lra. lra. }
  assert (Rabs (val db - val wb) <= Rabs ((val db - M) - (val wb - m0 * m0)) + M) as HZ.
  { replace (val db - val wb) with (((val db - M) - (val wb - m0 * m0)) + (M - m0 * m0)) by ring. eapply Rle_trans; [apply Rabs_triang|]. lra. }
  rewrite <- Eu. set (D := Rabs ((val db - M) - (val wb - m0 * m0))) in *.
  set (X := Rabs (val db - M)) in *. set (Y := Rabs (val wb - m0 * m0)) in *.
  set (p5 := rho (2 * List.length l + 5)) in *. set (p3 := rho (List.length l + 3)) in *. set (V := Rabs (val db - val wb)) in *.
  assert (u53 * V <= u53 * (X + Y + M)) as Q1 by (apply Rmult_le_compat_l; lra).
  apply Rle_trans with ((1 + u53) * (X + Y) + u53 * M); [lra|].
  assert ((1 + u53) * X <= (1 + u53) * (((1 + u53) * ((1 + u53) * R) - 1) * M + (1 + u53) * R * eta + eta)) as Q2 by (apply Rmult_le_compat_l; lra).
  assert ((1 + u53) * Y <= (1 + u53) * (((1 + u53) * (1 + u53) * ((1 + u53) * R * ((1 + u53) * R)) - 1) * M + 2 * eta)) as Q3 by (apply Rmult_le_compat_l; lra).
  apply Rle_trans with ((p5 + p3 - 2 - u53) * M + (1 + u53) * (3 + (1 + u53) * R) * eta).
  { rewrite E1, E2. apply Rle_trans with ((1 + u53) * X + (1 + u53) * Y + u53 * M); [lra|]. eapply Rle_trans; [apply Rplus_le_compat_r, Rplus_le_compat; [exact Q2|exact Q3]|]. right. ring. }
  assert ((p5 + p3 - 2 - u53) * M <= (8 * k + 20) * u53 * M) as Q4 by (apply Rmult_le_compat_r; lra).
  assert (u53 <= / 1000) as Hus. { rewrite Eu. apply Rle_trans with (bpow radix2 (-10)); [apply bpow_le; lia|]. change (bpow radix2 (-10)) with (/ 1024). lra. }
  assert (R <= 2) as HR2 by lra.
  assert ((1 + u53) * (3 + (1 + u53) * R) * eta <= 6 * eta) as Q5.
  { apply Rmult_le_compat_r; [lra|]. assert ((1 + u53) * R <= (1 + / 1000) * 2) by (apply Rmult_le_compat; lra). apply Rle_trans with ((1 + / 1000) * (3 + (1 + / 1000) * 2)); [apply Rmult_le_compat; lra|lra]. }
  lra.
Qed.
