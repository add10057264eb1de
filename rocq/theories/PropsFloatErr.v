(** C125: how far the double precision CAR(1) filter is from the exact one. *)
From Coq Require Import Reals ZArith Bool Lra Lia List.
From Flocq Require Import Core BinarySingleNaN.
From Verif Require Import Arith Res ListLemmas KFModel KF1Proof KF1R KF1X KF1More Emb Spec History Float64 Float64KF Float64Top FloatErr FloatErrKF.
Import ListNotations.
Local Open Scope R_scope.
Local Notation p2 e := (bpow radix2 e).
Local Notation "l .[ i ]" := (nth i l (ofZ64 0)) (at level 2, format "l .[ i ]").

(** The data of C125: finite sorted times of size at most 2^500, at most 2^40 of them; measurements of size at most 2^k;
    error bars between emin and emax, these between 2^-200 and 2^200; sigma^2 in (0, 2^500] and omega in [2^-200, 2^200]. *)
Record data64 {exp64 log64 sin64 cos64 pow64} (k : Z) (emin emax : R) (s : kf1 (A64 exp64 log64 sin64 cos64 pow64)) : Prop := {
  d_use : usable s;
  d_n : (Z.of_nat (length (k_time s)) <= 2 ^ 40)%Z;
  d_times : times64 (k_time s);
  d_big : forall i, (i < length (k_time s))%nat -> Rabs (val (k_time s).[i]) <= p2 500;
  d_y : forall i, (i < length (k_time s))%nat -> fin (k_y s).[i] /\ Rabs (val (k_y s).[i]) <= p2 k;
  d_e : forall i, (i < length (k_time s))%nat -> fin (k_yerr s).[i] /\ emin <= val (k_yerr s).[i] <= emax;
  d_emin : p2 (-200) <= emin;
  d_emax : emax <= p2 200;
  d_sig : fin (k_sig s) /\ 0 < val (k_sig s) <= p2 500;
  d_w : fin (k_ext s) /\ p2 (-200) <= val (k_ext s) <= p2 200 }.

(** The largest variance a measurement can have: that of the process and of the largest error bar. *)
Definition Wmax (sig w emax : R) : R := sig / (2 * w) + emax * emax.

Section Top.
Variables (exp64 log64 sin64 cos64 : b64 -> b64) (pow64 : b64 -> b64 -> b64).
Local Notation A := (A64 exp64 log64 sin64 cos64 pow64).
Variables (k : Z) (emin emax : R) (s : kf1 A).
Hypothesis HE : exp_sane exp64.
Hypothesis HX : exp_accurate exp64.
Hypothesis Hk : (-900 <= k <= 1000)%Z.
Hypothesis HD : data64 k emin emax s.
Lemma ry i : (i < length (k_time s))%nat -> rng (- p2 k) (p2 k) (k_y s).[i].
Proof. intros Hi. destruct (d_y _ _ _ _ HD i Hi) as [F B]. split; [exact F|apply Rabs_le_inv, B]. Qed.
Lemma re i : (i < length (k_time s))%nat -> rng (p2 (-200)) (p2 200) (k_yerr s).[i].
Proof. intros Hi. destruct (d_e _ _ _ _ HD i Hi) as [F B]. pose proof (d_emin _ _ _ _ HD). pose proof (d_emax _ _ _ _ HD). split; [exact F|lra]. Qed.
Lemma rsig : rng 0 (p2 500) (k_sig s).
Proof. destruct (d_sig _ _ _ _ HD) as [F B]. split; [exact F|lra]. Qed.
Lemma rw : rng (p2 (-200)) (p2 200) (k_ext s).
Proof. exact (d_w _ _ _ _ HD). Qed.
Lemma nv (l : list (F A)) i : nth i (map val l) 0 = val l.[i].
Proof. exact (nthv l i). Qed.
Local Notation er := (map val (k_yerr s)).
Local Notation yr := (map val (k_y s)).
Lemma rem i : (i < length (k_time s))%nat -> 0 < emin <= nth i er 0 /\ nth i er 0 <= emax.
Proof. intros Hi. rewrite nv. destruct (d_e _ _ _ _ HD i Hi) as [F B]. pose proof (d_emin _ _ _ _ HD). pose proof (bpow_gt_0 radix2 (-200)). lra. Qed.
Lemma n_pos : (0 < length (k_time s))%nat.
Proof. pose proof (d_use _ _ _ _ HD) as U. destruct U as (U1 & _). lia. Qed.
Lemma re5 i : (i < length (k_time s))%nat -> rng (p2 (-500)) (p2 500) (k_yerr s).[i].
Proof. intros Hi. eapply rng_weaken; [apply re, Hi| |]; apply bpow_le; lia. Qed.
Lemma rw5 : rng (p2 (-499)) (p2 500) (k_ext s).
Proof. eapply rng_weaken; [apply rw| |]; apply bpow_le; lia. Qed.
Lemma sig0 : 0 < val (k_sig s).
Proof. apply (d_sig _ _ _ _ HD). Qed.
Lemma w0 : 0 < val (k_ext s).
Proof. exact (vw_pos _ rw). Qed.
Lemma eta_e i : (i < length (k_time s))%nat -> eta <= u * (nth i er 0 * nth i er 0).
Proof.
  intros Hi. rewrite nv. destruct (re i Hi) as [_ B]. unfold eta, u. apply Rle_trans with (p2 (-53) * (p2 (-200) * p2 (-200))).
  - rewrite <- !bpow_plus. apply bpow_le. lia.
  - apply Rmult_le_compat_l; [apply bpow_ge_0|]. pose proof (bpow_ge_0 radix2 (-200)). apply Rmult_le_compat; lra.
Qed.
Lemma q_close i : (i < length (k_time s))%nat -> Rabs (val (Bmult mode_NE (k_yerr s).[i] (k_yerr s).[i]) - nth i er 0 * nth i er 0) <= 6 * (u * (nth i er 0 * nth i er 0)).
Proof.
  intros Hi. pose proof (eta_e i Hi) as E. rewrite nv in *. destruct (err_in _ (re5 i Hi)) as [[Fq _] _]. pose proof (near_mul _ _ Fq) as N. unfold near in N.
  assert (0 <= val (k_yerr s).[i] * val (k_yerr s).[i]) as P by (apply Rle_0_sqr). rewrite (Rabs_pos_eq _ P) in N. pose proof u_pos. assert (0 <= u * (val (k_yerr s).[i] * val (k_yerr s).[i])) by (apply Rmult_le_pos; lra).
  apply Rle_trans with (1 := N). lra.
Qed.
Lemma y_close i : (i < length (k_time s))%nat -> Rabs (val (k_y s).[i] - nth i yr 0) <= 2 * (u * p2 k).
Proof. intros _. rewrite nv. replace (val (k_y s).[i] - val (k_y s).[i]) with 0 by ring. rewrite Rabs_R0. pose proof u_pos. pose proof (bpow_gt_0 radix2 k). apply Rmult_le_pos; [lra|apply Rmult_le_pos; lra]. Qed.
Let W := Wmax (val (k_sig s)) (val (k_ext s)) emax.
Lemma Wp : 0 < W.
Proof. exact (W_pos (k_time s) n_pos er (val (k_sig s)) (val (k_ext s)) emin emax sig0 w0 rem). Qed.
Lemma S_close : Rabs (val (Bdiv mode_NE (k_sig s) (Bmult mode_NE (ofZ64 2) (k_ext s))) - val (k_sig s) / (2 * val (k_ext s))) <= 4 * (u * W).
Proof.
  pose proof (S0_near _ _ rsig rw) as N. unfold near in N. pose proof w0. pose proof sig0. assert (0 < val (k_sig s) / (2 * val (k_ext s))) as P by (apply Rmult_lt_0_compat; [assumption|apply Rinv_0_lt_compat; lra]).
  rewrite (Rabs_pos_eq (val (k_sig s) / _)) in N by lra. apply Rle_trans with (1 := N).
  pose proof (eta_uW (k_time s) n_pos er (val (k_sig s)) (val (k_ext s)) emin emax sig0 w0 rem eta_e) as E. pose proof Wp as HW. pose proof u_pos as Hu.
  assert (u * (val (k_sig s) / (2 * val (k_ext s))) <= u * W) as X by (apply Rmult_le_compat_l; [lra|]; unfold W, Wmax; pose proof (Rle_0_sqr emax) as Q; unfold Rsqr in Q; lra).
  assert (0 <= u * W) by (apply Rmult_le_pos; lra). change (val (k_sig s) / (2 * val (k_ext s)) + emax * emax) with W in E. lra.
Qed.
Lemma w_close : Rabs (val (k_ext s) - val (k_ext s)) <= 2 * (u * val (k_ext s)).
Proof. replace (val (k_ext s) - val (k_ext s)) with 0 by ring. rewrite Rabs_R0. pose proof u_pos. pose proof w0. apply Rmult_le_pos; [lra|apply Rmult_le_pos; lra]. Qed.
Lemma weak_v c c' x i : 0 <= c <= c' -> Rabs x <= c * INR i * (u * W) -> Rabs x <= c' * INR i * p2 (-53) * W.
Proof.
  intros Hc H. apply Rle_trans with (1 := H). pose proof u_pos as Hu. pose proof (pos_INR i) as Hi.
  pose proof Wp as HW.
  change (p2 (-53)) with u. rewrite <- (Rmult_assoc (c * INR i)). apply Rmult_le_compat_r; [lra|]. apply Rmult_le_compat_r; [lra|]. apply Rmult_le_compat_r; lra.
Qed.
Lemma weak_m c c' x i : 0 <= c <= c' -> Rabs x <= c * (INR i * INR i) * (u * (W / (emin * emin)) * p2 k) -> Rabs x <= c' * INR i ^ 2 * p2 (-53) * (W / emin ^ 2) * p2 k.
Proof.
  intros Hc H. apply Rle_trans with (1 := H). pose proof u_pos as Hu. pose proof (pos_INR i) as Hi.
  pose proof Wp as HW.
  pose proof (rem 0 n_pos) as He. change (p2 (-53)) with u. pose proof (bpow_gt_0 radix2 k) as HB.
  replace (c' * INR i ^ 2 * u * (W / emin ^ 2) * p2 k) with (c' * (INR i * INR i) * (u * (W / (emin * emin)) * p2 k)) by (field; lra).
  apply Rmult_le_compat_r.
  - apply Rmult_le_pos; [apply Rmult_le_pos; [lra|]|lra]. apply Rmult_le_pos; [lra|]. left. apply Rinv_0_lt_compat. apply Rmult_lt_0_compat; lra.
  - apply Rmult_le_compat_r; [apply Rmult_le_pos; lra|lra].
Qed.

Lemma filter_error : exists s', Filter (methods1 A) s = Ok s' /\
  forall i, (i < length (k_time s))%nat -> exists m v,
    cond_dist (ou_cov (val (k_sig s)) (val (k_ext s))) (firstn i (map val (k_time s))) (firstn i (map val (k_y s))) (firstn i (map val (k_yerr s))) (val (k_time s).[i]) m v /\
    fin (k_mean s').[i] /\ Rabs (val (k_mean s').[i] - m) <= 4096 * INR i ^ 2 * p2 (-53) * (W / emin ^ 2) * p2 k /\
    fin (k_var s').[i] /\ Rabs (val (k_var s').[i] - (v + val (k_yerr s).[i] * val (k_yerr s).[i])) <= 256 * INR (S i) * p2 (-53) * W.
Proof.
  pose proof (d_use _ _ _ _ HD) as Hu. pose proof (usable_wf A s Hu) as Hwf. rewrite (Filter1_ok Hwf). eexists. split; [reflexivity|].
  destruct Hu as (U1 & U2 & U3 & U4 & U5 & U6). unfold fstate. cbn [k_mean k_var k_time]. intros i Hi.
  pose proof (d_times _ _ _ _ HD) as Ht. pose proof (proj1 (proj2 (d_sig _ _ _ _ HD))) as Hs0.
  pose proof (cond_filter (k_time s) Ht yr er _ _ emin emax sig0 w0 rem i Hi) as HC.
  pose proof (rho_close exp64 log64 sin64 cos64 pow64 HX (k_time s) (k_ext s) _ Ht (d_big _ _ _ _ HD) rw w0 w_close) as Hrho.
  pose proof (V_err exp64 log64 sin64 cos64 pow64 HE (k_time s) (k_yerr s) (k_sig s) (k_ext s) Ht re5 rsig rw5 n_pos (d_n _ _ _ _ HD) er _ _ emin emax sig0 w0 rem eta_e q_close S_close Hrho i Hi) as HV.
  pose proof (M_err k Hk exp64 log64 sin64 cos64 pow64 HE (k_time s) (k_y s) (k_yerr s) (k_sig s) (k_ext s) Ht ry re5 rsig rw5 n_pos (d_n _ _ _ _ HD) yr er _ _ emin emax sig0 w0 rem eta_e q_close y_close S_close Hrho i Hi) as HM.
  do 2 eexists. split; [exact HC|]. rewrite U2. rewrite !(@nth_filled (F A)) by exact Hi.
  split; [|split; [|split]].
  - exact (fin_add_in _ _ _ (min k Hk exp64 log64 sin64 cos64 pow64 HE (k_time s) (k_y s) (k_yerr s) (k_sig s) (k_ext s) Ht ry re5 rsig rw5 i Hi)).
  - apply (weak_m 2420); [lra|]. exact HM.
  - exact (fin_add_in _ _ _ (vin exp64 log64 sin64 cos64 pow64 HE (k_time s) (k_yerr s) (k_sig s) (k_ext s) Ht re5 rsig rw5 i Hi)).
  - apply (weak_v 175); [lra|]. assert (forall a c : R, a - c + c = a) as X by (intros; ring). rewrite <- !nv, X. exact HV.
Qed.
Lemma forecast_error x : fin x -> Rabs (val x) <= p2 500 -> val (k_time s).[length (k_time s) - 1] < val x ->
  exists a c s' m v, m_Predict (methods1 A) s x = Ok ((a, c), s') /\
    cond_dist (ou_cov (val (k_sig s)) (val (k_ext s))) (map val (k_time s)) (map val (k_y s)) (map val (k_yerr s)) (val x) m v /\
    fin a /\ Rabs (val a - m) <= 4096 * INR (length (k_time s)) ^ 2 * p2 (-53) * (W / emin ^ 2) * p2 k /\
    fin c /\ Rabs (val c - v) <= 256 * INR (S (length (k_time s))) * p2 (-53) * W.
Proof.
  intros Fx Bx Hlast. pose proof (d_use _ _ _ _ HD) as Hu. pose proof (usable_wf A s Hu) as Hwf. pose proof (d_times _ _ _ _ HD) as Ht. pose proof (proj1 (proj2 (d_sig _ _ _ _ HD))) as Hs0.
  destruct (@Predict1_ok A s Hwf x) as (s' & E & _). cbn [m_Predict methods1].
  destruct Hu as (U1 & U2 & U3 & U4 & U5 & U6).
  assert (exists b, length (k_time s) = S b) as [b Eb] by (destruct (length (k_time s)); [lia|eexists; reflexivity]).
  assert (predpure A (k_time s) (k_dt s) (k_y s) (k_yerr s) (k_sig s) (k_ext s) x = forecast A (k_time s) (diffs A (k_time s)) (k_y s) (k_yerr s) (k_sig s) (k_ext s) x (S b)) as Ep.
  { unfold predpure. rewrite (lt_prefix_all exp64 log64 sin64 cos64 pow64 (k_time s) x Fx).
    - change (@length (F A) (k_time s)) with (@length b64 (k_time s)). change (@length b64 (k_time s)) with (@length (F A) (k_time s)). rewrite Eb, U2.
      destruct (forecast _ _ _ _ _ _ _ _ _) as [a c]. rewrite Nat.eqb_refl. reflexivity.
    - intros i Hi. split; [apply Ht, Hi|]. eapply Rle_lt_trans; [|exact Hlast]. exact (times64_le (k_time s) Ht i _ (proj1 (aux_pred _ _ Hi)) (proj2 (aux_pred _ _ Hi))). }
  rewrite Ep in E.
  assert (val (k_time s).[b] <= val x) as Hle. { left. rewrite Eb in Hlast. cbn [Nat.sub] in Hlast. rewrite Nat.sub_0_r in Hlast. exact Hlast. }
  pose proof (rho_close exp64 log64 sin64 cos64 pow64 HX (k_time s) (k_ext s) _ Ht (d_big _ _ _ _ HD) rw w0 w_close) as Hrho.
  destruct (rho_last exp64 HE HX (k_time s) (k_ext s) _ Ht (d_big _ _ _ _ HD) rw w0 w_close x b (eq_ind_r (fun n => (b < n)%nat) (Nat.lt_succ_diag_r b) Eb) Fx Bx Hle) as [Hr1 Hr2].
  pose proof (forecast_err k Hk exp64 log64 sin64 cos64 pow64 HE (k_time s) (k_y s) (k_yerr s) (k_sig s) (k_ext s) Ht ry re5 rsig rw5 n_pos (d_n _ _ _ _ HD) yr er _ _ emin emax sig0 w0 rem eta_e q_close y_close S_close Hrho x b Eb Fx Hle Hr1 Hr2) as [HM HV].
  pose proof (cond_forecast (k_time s) Ht yr er _ _ emin emax sig0 w0 rem (val x) b Eb Hle) as HC.
  destruct (forecast_in k Hk exp64 log64 sin64 cos64 pow64 HE (k_time s) (k_y s) (k_yerr s) (k_sig s) (k_ext s) Ht ry re5 rsig rw5 x b Eb Fx Hle) as [[Fm _] [Fv _]].
  set (r := forecast A (k_time s) (diffs A (k_time s)) (k_y s) (k_yerr s) (k_sig s) (k_ext s) x (S b)) in *.
  exists (fst r), (snd r), s'. do 2 eexists. split; [rewrite E; do 2 f_equal; apply surjective_pairing|]. split; [exact HC|]. rewrite Eb.
  split; [exact Fm|]. split; [apply (weak_m 2420); [lra|]; exact HM|]. split; [exact Fv|]. apply (weak_v 175); [lra|]. exact HV.
Qed.
End Top.

(** C125: Filter() on doubles returns, and its i-th mean and variance are those of the exact conditional distribution of the
    i-th measurement given the earlier ones, for the Ornstein-Uhlenbeck process and the numbers the doubles stand for, up to
      256 (i+1) 2^-53 W           in the variance, and
      4096 i^2 2^-53 (W/emin^2) 2^k   in the mean,
    where W = sigma^2/(2 omega) + emax^2.  Of libm's exp it is used that at numbers <= 0 and at -infinity it is between 0
    and 1 and that at numbers <= 0 it is off by at most 2^-53. *)
Theorem C125_filter_error : forall exp64 log64 sin64 cos64 pow64 (k : Z) (emin emax : R) (s : kf1 (A64 exp64 log64 sin64 cos64 pow64)),
  exp_sane exp64 -> (forall x, fin x -> val x <= 0 -> Rabs (val (exp64 x) - exp (val x)) <= p2 (-53)) ->
  (-900 <= k <= 1000)%Z -> data64 k emin emax s ->
  exists s', Filter (methods1 (A64 exp64 log64 sin64 cos64 pow64)) s = Ok s' /\
    forall i, (i < length (k_time s))%nat -> exists m v,
      cond_dist (ou_cov (val (k_sig s)) (val (k_ext s))) (firstn i (map val (k_time s))) (firstn i (map val (k_y s)))
        (firstn i (map val (k_yerr s))) (val (k_time s).[i]) m v /\
      fin (k_mean s').[i] /\
      Rabs (val (k_mean s').[i] - m) <= 4096 * INR i ^ 2 * p2 (-53) * (Wmax (val (k_sig s)) (val (k_ext s)) emax / emin ^ 2) * p2 k /\
      fin (k_var s').[i] /\
      Rabs (val (k_var s').[i] - (v + val (k_yerr s).[i] * val (k_yerr s).[i])) <= 256 * INR (S i) * p2 (-53) * Wmax (val (k_sig s)) (val (k_ext s)) emax.
Proof. intros exp64 log64 sin64 cos64 pow64 k emin emax s HE HX Hk HD. exact (filter_error exp64 log64 sin64 cos64 pow64 k emin emax s HE HX Hk HD). Qed.
Print Assumptions C125_filter_error.

(** and so for the mean and variance predicted at a time x after the last measurement *)
Theorem C125_forecast_error : forall exp64 log64 sin64 cos64 pow64 (k : Z) (emin emax : R) (s : kf1 (A64 exp64 log64 sin64 cos64 pow64)) (x : b64),
  exp_sane exp64 -> (forall x, fin x -> val x <= 0 -> Rabs (val (exp64 x) - exp (val x)) <= p2 (-53)) ->
  (-900 <= k <= 1000)%Z -> data64 k emin emax s ->
  fin x -> Rabs (val x) <= p2 500 -> val (k_time s).[length (k_time s) - 1] < val x ->
  exists a c s' m v, m_Predict (methods1 (A64 exp64 log64 sin64 cos64 pow64)) s x = Ok ((a, c), s') /\
    cond_dist (ou_cov (val (k_sig s)) (val (k_ext s))) (map val (k_time s)) (map val (k_y s)) (map val (k_yerr s)) (val x) m v /\
    fin a /\ Rabs (val a - m) <= 4096 * INR (length (k_time s)) ^ 2 * p2 (-53) * (Wmax (val (k_sig s)) (val (k_ext s)) emax / emin ^ 2) * p2 k /\
    fin c /\ Rabs (val c - v) <= 256 * INR (S (length (k_time s))) * p2 (-53) * Wmax (val (k_sig s)) (val (k_ext s)) emax.
Proof. intros exp64 log64 sin64 cos64 pow64 k emin emax s x HE HX Hk HD. exact (forecast_error exp64 log64 sin64 cos64 pow64 k emin emax s HE HX Hk HD x). Qed.
Print Assumptions C125_forecast_error.

(** What is asked of exp holds of a correctly rounded one, and three measurements, the last two at times 3/10 (rounded) and 4,
    meet the rest, as does a later time.  The bound on the second variance is then below 3 10^-13. *)
Example C125_hypotheses_met : exists exp64, exp_sane exp64 /\ (forall x, fin x -> val x <= 0 -> Rabs (val (exp64 x) - exp (val x)) <= p2 (-53)) /\
  forall log64 sin64 cos64 pow64, exists s : kf1 (A64 exp64 log64 sin64 cos64 pow64),
  data64 3 1 2 s /\ length (k_time s) = 3%nat /\ val (k_time s).[2%nat] < val (ofZ64 5) /\ Rabs (val (ofZ64 5)) <= p2 500 /\
  256 * INR 2 * p2 (-53) * Wmax (val (k_sig s)) (val (k_ext s)) 2 <= 3 / 10 ^ 13.
Proof.
  destruct libm_exists as (e & l & He & _). exists e. destruct (exp_correct_sane e He) as [H1 _]. pose proof (exp_correct_accurate e He) as H2.
  split; [exact H1|]. split; [exact H2|]. intros log64 sin64 cos64 pow64. set (A := A64 e log64 sin64 cos64 pow64).
  pose proof (fun z H => proj1 (ofZ_val z H)) as Fz. pose proof (fun z H => proj2 (ofZ_val z H)) as Vz.
  assert (rng (1 / 4) (1 / 2) (Bdiv mode_NE (ofZ64 3) (ofZ64 10))) as [F3 B3].
  { apply div_in; try (apply Fz; reflexivity); rewrite ?Vz by reflexivity; [lra| | |lra].
    - replace (1 / 4) with (p2 (-2)) by (cbn; lra). apply repr_p2; lia.
    - replace (1 / 2) with (p2 (-1)) by (cbn; lra). apply repr_p2; lia. }
  set (c := Bdiv mode_NE (ofZ64 3) (ofZ64 10)) in *.
  exists (mkKF A [ofZ64 0; c; ofZ64 4] (diffs A [ofZ64 0; c; ofZ64 4]) [ofZ64 3; ofZ64 (-5); ofZ64 7] [ofZ64 1; ofZ64 2; ofZ64 1] [ofZ64 0; ofZ64 0; ofZ64 0] [ofZ64 0; ofZ64 0; ofZ64 0] (ofZ64 2) 0%nat (ofZ64 0) (ofZ64 0) (ofZ64 1) : kf1 A).
  assert (p2 (-200) <= p2 0) by (apply bpow_le; lia). assert (p2 3 <= p2 200) by (apply bpow_le; lia). assert (p2 3 <= p2 500) by (apply bpow_le; lia).
  change (p2 0) with 1 in *. change (p2 3) with 8 in *.
  split; [|split; [reflexivity|split; [cbn [k_time nth]; rewrite !Vz by reflexivity; lra|split; [rewrite Vz by reflexivity; rewrite Rabs_pos_eq; lra|]]]].
  - split; cbn [k_time k_y k_yerr k_sig k_ext].
    + repeat split; try reflexivity. cbn; lia.
    + cbn; lia.
    + split; intros i Hi; destruct i as [|[|[|i]]]; cbn [length nth] in *; try lia; try (apply Fz; reflexivity); try exact F3; rewrite !Vz by reflexivity; lra.
    + intros i Hi. destruct i as [|[|[|i]]]; cbn [length nth] in *; try lia; rewrite ?Vz by reflexivity; apply Rabs_le; lra.
    + intros i Hi. change (p2 3) with 8. destruct i as [|[|[|i]]]; cbn [length nth] in *; try lia; (split; [apply Fz; reflexivity|]); rewrite ?Vz by reflexivity; apply Rabs_le; lra.
    + intros i Hi. destruct i as [|[|[|i]]]; cbn [length nth] in *; try lia; (split; [apply Fz; reflexivity|]); rewrite ?Vz by reflexivity; lra.
    + lra.
    + lra.
    + split; [apply Fz; reflexivity|]. rewrite Vz by reflexivity. lra.
    + split; [apply Fz; reflexivity|]. rewrite Vz by reflexivity. lra.
  - cbn [k_sig k_ext]. unfold Wmax. rewrite !Vz by reflexivity. simpl INR. cbn [bpow]. change (Z.pow_pos radix2 53) with 9007199254740992%Z. lra.
Qed.
