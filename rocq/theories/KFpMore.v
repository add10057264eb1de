(** KalmanFilterp: padding of the moving average vector, linearity, limits of forecasts. *)
From Coq Require Import Reals List Arith ZArith Lra Lia Bool Permutation.
From Coquelicot Require Import Complex.
From Verif Require Import Arith Res ListLemmas KFModel KF1Proof Spec Gauss Emb KF1R History InitProof OUpd SimProof KF1Main KF1More KF1Hist.
From Verif Require Import Cx KFpModel KFpProof SpecCarma CLin KFpR KFpX KFpMain KFpTop.
Import ListNotations.
Local Open Scope R_scope.

(** ** Zeros appended to the moving average vector change nothing *)
Lemma ma_poly_pad ma k z : ma_poly (ma ++ repeat 0 k) z = ma_poly ma z.
Proof.
  unfold ma_poly. rewrite app_length, repeat_length. induction k as [|k IH].
  - rewrite Nat.add_0_r, app_nil_r. reflexivity.
  - replace (length ma + S k)%nat with (S (length ma + k)) by lia. cbn [Csum].
    rewrite <- IH.
    replace (nth (length ma + k) (ma ++ repeat 0 (S k)) 0) with 0.
    2:{ symmetry. rewrite app_nth2 by lia. replace (length ma + k - length ma)%nat with k by lia. apply nth_repeat. }
    replace (Cmult (RtoC 0) (Cpown z (length ma + k))) with (RtoC 0) by ring. rewrite Cplus_0_r. apply Csum_ext. intros l Hl. f_equal. f_equal.
    destruct (Nat.lt_ge_cases l (length ma)); [rewrite !app_nth1 by assumption; reflexivity|].
    rewrite !app_nth2 by assumption. rewrite !nth_repeat. reflexivity.
Qed.
Lemma carma_acv_pad sig ma k om tau : carma_acv sig (ma ++ repeat 0 k) om tau = carma_acv sig ma om tau.
Proof. unfold carma_acv. f_equal. f_equal. apply Csum_ext. intros i _. rewrite !ma_poly_pad. reflexivity. Qed.
Lemma carma_cov_pad sig ma k om a b : carma_cov sig (ma ++ repeat 0 k) om a b = carma_cov sig ma om a b.
Proof. apply carma_acv_pad. Qed.

Lemma carma_shift sig ma om d a b : carma_cov sig ma om (a + d) (b + d) = carma_cov sig ma om a b.
Proof. unfold carma_cov. replace (a + d - (b + d)) with (a - b) by ring. reflexivity. Qed.

Lemma cond_dist_ext K K' tr yr er tp m v : (forall a b, K a b = K' a b) -> cond_dist K tr yr er tp m v -> cond_dist K' tr yr er tp m v.
Proof.
  intros H Hc. unfold cond_dist in *. rewrite <- H. eapply blp_ext; [| |reflexivity|exact Hc].
  - intros i j _ _. unfold obs_cov. rewrite H. reflexivity.
  - intros j _. cbv beta. apply H.
Qed.

(** ** Linearity *)
Section Lin.
Variable solve : list (list (cx AX)) -> list (cx AX) -> option (list (cx AX)).
Hypothesis Hsolve : valid_solve solve.
Variables (s s2 : kfp AX) (tr yr er : list R) (sig : R) (om : list C) (ma : list R) (d c : R).
Hypothesis Hs : holdsp s tr yr er sig om ma.
Hypothesis Hs2 : holdsp s2 (map (fun x => x + d) tr) (map (fun x => c * x) yr) er sig om ma.
Hypothesis Hinc : strictly_increasing tr.
Hypothesis Hok : carma_ok sig om ma.
Local Notation K := (carma_cov sig ma om).

Lemma shiftp_strict : strictly_increasing (map (fun x => x + d) tr).
Proof.
  intros i j Hi. rewrite map_length. intros Hj. rewrite !nth_map0 by lia. apply Rplus_lt_compat_r, Hinc; assumption.
Qed.

Lemma filterp_linear : exists s' s2', Filter (methodsp solve) s = Ok s' /\ Filter (methodsp solve) s2 = Ok s2' /\
  k_mean s2' = map (fun m => fmul AX (Fin c) m) (k_mean s') /\ k_var s2' = k_var s'.
Proof.
  destruct (holdsp_lens _ _ _ _ _ _ _ Hs) as (Hy & He & Hn & _).
  destruct (filterp solve Hsolve s tr yr er sig om ma Hs Hinc Hok) as (s' & E & L1 & L2 & H).
  destruct (filterp solve Hsolve s2 _ _ er sig om ma Hs2 shiftp_strict Hok) as (s2' & E2 & M1 & M2 & H2).
  exists s', s2'. split; [exact E|]. split; [exact E2|].
  rewrite !map_length in *.
  assert (forall i, (i < length tr)%nat ->
    nth_error (k_mean s2') i = option_map (fun m => fmul AX (Fin c) m) (nth_error (k_mean s') i) /\
    nth_error (k_var s2') i = nth_error (k_var s') i) as Hall.
  { intros i Hi. destruct (H i Hi) as (m & v & Em & Ev & Hb & _). destruct (H2 i Hi) as (m2 & v2 & Em2 & Ev2 & Hb2 & _).
    rewrite Em, Ev, Em2, Ev2.
    assert (m2 = c * m /\ v2 - nth i er 0 * nth i er 0 = v - nth i er 0 * nth i er 0) as [-> Hv2].
    2:{ replace v2 with v by lra. split; reflexivity. }
    unfold cond_dist in Hb, Hb2. rewrite !firstn_length, !map_length in *. rewrite Nat.min_l in Hb, Hb2 by lia.
    apply (blp_scale _ _ _ _ _ _ _ c) in Hb.
    assert (forall i0, (i0 < i)%nat -> nth i0 (firstn i tr) 0 = nth i0 tr 0 /\ nth i0 (firstn i yr) 0 = nth i0 yr 0 /\ nth i0 (firstn i er) 0 = nth i0 er 0) as Hf.
    { intros i0 H0. rewrite !nth_firstn_lt by exact H0. auto. }
    destruct (detp solve Hsolve tr er sig om ma Hinc Hok i (fun j => K (nth i tr 0) (nth j tr 0)) (K (nth i tr 0) (nth i tr 0)) (fun j => c * nth j yr 0)
      (c * m) (v - nth i er 0 * nth i er 0) ltac:(lia)) as [Hu _].
    { eapply blp_ext; [| | |exact Hb]; cbv beta.
      - intros a b Ha Hb0. unfold obs_cov. destruct (Hf a Ha) as (-> & _ & ->). destruct (Hf b Hb0) as (-> & _). reflexivity.
      - intros j Hj. destruct (Hf j Hj) as (-> & _). reflexivity.
      - intros j Hj. destruct (Hf j Hj) as (_ & -> & _). reflexivity. }
    apply Hu. rewrite nth_map0 in Hb2 by exact Hi. rewrite carma_shift in Hb2.
    eapply blp_ext; [| | |exact Hb2]; cbv beta.
    - intros a b Ha Hb0. unfold obs_cov. destruct (Hf a Ha) as (_ & _ & ->). rewrite !nth_firstn_lt by assumption. rewrite !nth_map0 by lia. rewrite carma_shift. reflexivity.
    - intros j Hj. rewrite nth_firstn_lt by exact Hj. rewrite nth_map0 by lia. apply carma_shift.
    - intros j Hj. rewrite nth_firstn_lt by exact Hj. apply nth_map0. lia. }
  split; apply list_nth_error_eq.
  - rewrite map_length. congruence.
  - rewrite M1. intros i Hi. rewrite nth_error_map. apply Hall, Hi.
  - congruence.
  - rewrite M2. intros i Hi. apply Hall, Hi.
Qed.

Lemma predictp_linear tp : (forall i, (i < length tr)%nat -> nth i tr 0 = tp -> nth i er 0 <> 0) ->
  exists m v s' s2', Predictp solve s (Fin tp) = Ok ((Fin m, Fin v), s') /\
    Predictp solve s2 (Fin (tp + d)) = Ok ((Fin (c * m), Fin v), s2').
Proof.
  intros Hnz. destruct (holdsp_lens _ _ _ _ _ _ _ Hs) as (Hy & He & Hn & _).
  destruct (predictp solve Hsolve s tr yr er sig om ma Hs Hinc Hok tp Hnz) as (m & v & s' & E & Hb & _).
  destruct (predictp solve Hsolve s2 _ _ er sig om ma Hs2 shiftp_strict Hok (tp + d)) as (m2 & v2 & s2' & E2 & Hb2 & _).
  { intros i Hi. rewrite map_length in Hi. rewrite nth_map0 by exact Hi. intros Hq. apply Hnz; [exact Hi|lra]. }
  exists m, v, s', s2'. split; [exact E|]. rewrite E2.
  assert (m2 = c * m /\ v2 = v) as [-> ->]; [|reflexivity].
  apply (blp_scale _ _ _ _ _ _ _ c) in Hb.
  destruct (detp solve Hsolve tr er sig om ma Hinc Hok _ _ _ _ _ _ (Nat.le_refl _) Hb) as [Hu _]. apply Hu.
  unfold cond_dist in Hb2. rewrite map_length in Hb2. rewrite carma_shift in Hb2.
  eapply blp_ext; [| | |exact Hb2]; cbv beta.
  - intros a b Ha Hb0. unfold obs_cov. rewrite !nth_map0 by lia. rewrite carma_shift. reflexivity.
  - intros j Hj. rewrite !nth_map0 by lia. apply carma_shift.
  - intros j Hj. apply nth_map0. lia.
Qed.
End Lin.

(** ** Functions vanishing at infinity *)
Definition vanish (f : R -> R) : Prop := forall eps, 0 < eps -> exists T, forall x, T < x -> Rabs (f x) < eps.
Lemma vanish_0 : vanish (fun _ => 0).
Proof. intros eps H. exists 0. intros. rewrite Rabs_R0. exact H. Qed.
Lemma vanish_plus f g : vanish f -> vanish g -> vanish (fun x => f x + g x).
Proof.
  intros Hf Hg eps H. destruct (Hf (eps / 2)) as [T1 H1]; [lra|]. destruct (Hg (eps / 2)) as [T2 H2]; [lra|].
  exists (Rmax T1 T2). intros x Hx. pose proof (Rmax_l T1 T2). pose proof (Rmax_r T1 T2).
  specialize (H1 x ltac:(lra)). specialize (H2 x ltac:(lra)). pose proof (Rabs_triang (f x) (g x)). lra.
Qed.
Lemma vanish_bdd f g M : (forall x, Rabs (g x) <= M) -> vanish f -> vanish (fun x => g x * f x).
Proof.
  intros Hg Hf eps H. pose proof (Hg 0) as H0. pose proof (Rabs_pos (g 0)) as Hp.
  destruct (Hf (eps / (M + 1))) as [T HT]; [apply Rdiv_lt_0_compat; lra|].
  exists T. intros x Hx. specialize (HT x Hx). rewrite Rabs_mult. specialize (Hg x). pose proof (Rabs_pos (g x)). pose proof (Rabs_pos (f x)).
  assert (Rabs (f x) * (M + 1) < eps).
  { apply (Rmult_lt_compat_r (M + 1)) in HT; [|lra]. replace (eps / (M + 1) * (M + 1)) with eps in HT by (field; lra). exact HT. }
  nra.
Qed.
Lemma vanish_scal f k : vanish f -> vanish (fun x => k * f x).
Proof. intros H. apply (vanish_bdd f (fun _ => k) (Rabs k)); [intros; lra|exact H]. Qed.
Lemma vanish_sum (f : nat -> R -> R) n : (forall i, (i < n)%nat -> vanish (f i)) -> vanish (fun x => Rsum (fun i => f i x) n).
Proof.
  induction n as [|n IH]; intros H; [exact vanish_0|]. cbn [Rsum]. apply vanish_plus; [apply IH; intros; apply H; lia|apply H; lia].
Qed.
Lemma vanish_exp a : a < 0 -> vanish (fun x => exp (a * x)).
Proof.
  intros Ha eps H. exists (Rmax 0 (/ (- a * eps))). intros x Hx. pose proof (Rmax_l 0 (/ (- a * eps))). pose proof (Rmax_r 0 (/ (- a * eps))).
  rewrite Rabs_pos_eq by (left; apply exp_pos).
  assert (0 < - a * x) by nra. pose proof (exp_ineq1 (- a * x) ltac:(lra)).
  replace (a * x) with (- (- a * x)) by ring. rewrite exp_Ropp.
  assert (/ eps < exp (- a * x)) as HL.
  { apply Rlt_trans with (- a * x); [|lra]. assert (0 < - a * eps) by nra.
    assert (/ (- a * eps) * (- a * eps) < x * (- a * eps)) as HK4 by (apply Rmult_lt_compat_r; lra).
    rewrite Rinv_l in HK4 by lra. apply Rmult_lt_reg_r with eps; [exact H|]. rewrite Rinv_l by lra. lra. }
  rewrite <- (Rinv_inv eps). apply Rinv_lt_contravar; [|exact HL]. apply Rmult_lt_0_compat; [apply Rinv_0_lt_compat, H|apply exp_pos].
Qed.
Lemma vanish_ext f g : (forall x, f x = g x) -> vanish f -> vanish g.
Proof. intros H Hf eps He. destruct (Hf eps He) as [T HT]. exists T. intros x Hx. rewrite <- H. apply HT, Hx. Qed.
Lemma vanish_from f g T0 : (forall x, T0 < x -> f x = g x) -> vanish f -> vanish g.
Proof.
  intros H Hf eps He. destruct (Hf eps He) as [T HT]. exists (Rmax T T0). intros x Hx. pose proof (Rmax_l T T0). pose proof (Rmax_r T T0).
  rewrite <- H by lra. apply HT. lra.
Qed.

Lemma fst_Csum (f : nat -> C) n : fst (Csum f n) = Rsum (fun i => fst (f i)) n.
Proof. induction n as [|n IH]; [reflexivity|]. cbn [Csum Rsum]. rewrite <- IH. reflexivity. Qed.

Lemma carma_acv_vanish sig ma om : (forall z, In z om -> fst z < 0) -> vanish (carma_acv sig ma om).
Proof.
  intros H. unfold carma_acv. apply vanish_scal. eapply vanish_ext; [intros x; symmetry; apply fst_Csum|].
  apply (vanish_sum (fun k x => fst (Cdiv (Cmult (Cmult (ma_poly ma (nth k om (RtoC 0))) (ma_poly ma (Copp (nth k om (RtoC 0)))))
     (Cexp (Cmult (nth k om (RtoC 0)) (RtoC x)))) (carma_denom om k)))).
  intros k Hk. set (r := nth k om (RtoC 0)).
  set (q := Cmult (Cmult (ma_poly ma r) (ma_poly ma (Copp r))) (Cinv (carma_denom om k))).
  assert (fst r < 0) as Hr by (apply H, nth_In, Hk).
  apply (vanish_ext (fun x => (fst q * cos (snd r * x) - snd q * sin (snd r * x)) * exp (fst r * x))).
  - intros x. unfold Cdiv. replace (Cmult (Cmult (Cmult (ma_poly ma r) (ma_poly ma (Copp r))) (Cexp (Cmult r (RtoC x)))) (Cinv (carma_denom om k)))
      with (Cmult q (Cexp (Cmult r (RtoC x)))) by (unfold q; ring).
    destruct q as [a b]. destruct r as [c d]. unfold Cexp, Cmult, RtoC. cbn [fst snd].
    replace (c * x - d * 0) with (c * x) by ring. replace (c * 0 + d * x) with (d * x) by ring. ring.
  - apply vanish_bdd with (M := Rabs (fst q) + Rabs (snd q)); [|apply vanish_exp, Hr].
    intros x. pose proof (COS_bound (snd r * x)) as Hc. pose proof (SIN_bound (snd r * x)) as Hsn.
    eapply Rle_trans; [apply Rabs_triang|]. rewrite Rabs_Ropp, !Rabs_mult.
    assert (Rabs (cos (snd r * x)) <= 1) by (apply Rabs_le; lra). assert (Rabs (sin (snd r * x)) <= 1) by (apply Rabs_le; lra).
    pose proof (Rabs_pos (fst q)). pose proof (Rabs_pos (snd q)). nra.
Qed.

(** ** A positive definite system can be solved for every right hand side *)
Lemma pd_solve n (K : nat -> nat -> R) : (forall i j, K i j = K j i) -> pd n K ->
  forall c : nat -> R, exists a, forall j, (j < n)%nat -> Rsum (fun k => a k * K k j) n = c j.
Proof.
  intros Hsym. induction n as [|n IH]; intros Hpd c; [exists (fun _ => 0); intros; lia|].
  assert (pd n K) as Hpd'.
  { intros a (i & Hi & Ha). pose (a' := fun j => if Nat.ltb j n then a j else 0).
    assert (0 < quad (S n) K a') as Hq. { apply Hpd. exists i. split; [lia|]. unfold a'. destruct (Nat.ltb_spec i n); [exact Ha|lia]. }
    unfold quad in *. cbn [Rsum] in Hq.
    rewrite (Rsum_0 (fun j => a' n * K n j * a' j)) in Hq by (intros; unfold a' at 1; destruct (Nat.ltb_spec n n); [lia|ring]).
    replace (a' n) with 0 in Hq by (unfold a'; destruct (Nat.ltb_spec n n); [lia|reflexivity]).
    rewrite (Rsum_ext _ (fun i0 => Rsum (fun j => a i0 * K i0 j * a j) n)) in Hq.
    - lra.
    - intros i0 Hi0. rewrite Rmult_0_r, Rplus_0_r. apply Rsum_ext. intros j Hj. unfold a'. destruct (Nat.ltb_spec i0 n); [|lia]. destruct (Nat.ltb_spec j n); [reflexivity|lia]. }
  destruct (IH Hpd' c) as (a & Ha). destruct (IH Hpd' (fun j => K n j)) as (b & Hb).
  set (S := K n n - Rsum (fun k => b k * K k n) n).
  assert (0 < S) as HS.
  { pose (w := fun j => if Nat.ltb j n then - b j else 1).
    assert (0 < quad (Datatypes.S n) K w) as Hq. { apply Hpd. exists n. split; [lia|]. unfold w. destruct (Nat.ltb_spec n n); lia || lra. }
    assert (w n = 1) as Hwn by (unfold w; destruct (Nat.ltb_spec n n); [lia|reflexivity]).
    assert (forall j, (j < n)%nat -> w j = - b j) as Hwj by (intros j Hj; unfold w; destruct (Nat.ltb_spec j n); [reflexivity|lia]).
    replace (quad (Datatypes.S n) K w) with S in Hq; [exact Hq|].
    unfold quad. cbn [Rsum]. rewrite Hwn.
    rewrite (Rsum_ext (fun i => Rsum (fun j => w i * K i j * w j) n + w i * K i n * 1) (fun i => - (b i * K i n) + Rsum (fun j => w i * K i j * w j) n)).
    2:{ intros i Hi. rewrite (Hwj i Hi). ring. }
    rewrite Rsum_plus. rewrite (Rsum_ext (fun i => - (b i * K i n)) (fun i => (-1) * (b i * K i n))) by (intros; ring). rewrite Rsum_scal.
    rewrite (Rsum_swap (fun i j => w i * K i j * w j)).
    rewrite (Rsum_ext (fun j => Rsum (fun i => w i * K i j * w j) n) (fun j => b j * K j n)).
    2:{ intros j Hj. rewrite (Rsum_ext _ (fun i => b j * (b i * K i j))) by (intros i Hi; rewrite !Hwj by assumption; ring).
        rewrite Rsum_scal, Hb by exact Hj. rewrite (Hsym j n). reflexivity. }
    rewrite (Rsum_ext (fun j => 1 * K n j * w j) (fun j => (-1) * (b j * K j n))) by (intros j Hj; rewrite Hwj by exact Hj; rewrite (Hsym n j); ring).
    rewrite Rsum_scal. unfold S. ring. }
  set (x := (c n - Rsum (fun k => a k * K k n) n) / S).
  exists (fun j => if Nat.ltb j n then a j - x * b j else x). intros j Hj. cbn [Rsum]. destruct (Nat.ltb_spec n n); [lia|].
  rewrite (Rsum_ext _ (fun k => a k * K k j + (- x) * (b k * K k j))).
  2:{ intros k Hk. destruct (Nat.ltb_spec k n); [ring|lia]. }
  rewrite Rsum_plus, Rsum_scal. destruct (Nat.eq_dec j n) as [->|Hne].
  - replace (K n n) with (S + Rsum (fun k => b k * K k n) n) by (unfold S; ring). unfold x. field. lra.
  - rewrite Ha, Hb by lia. ring.
Qed.

(** ** Forecasts revert to the mean *)
Section Limits.
Variable solve : list (list (cx AX)) -> list (cx AX) -> option (list (cx AX)).
Hypothesis Hsolve : valid_solve solve.
Variables (s : kfp AX) (tr yr er : list R) (sig : R) (om : list C) (ma : list R).
Hypothesis Hs : holdsp s tr yr er sig om ma.
Hypothesis Hinc : strictly_increasing tr.
Hypothesis Hok : carma_ok sig om ma.
Local Notation K := (carma_cov sig ma om).

Lemma forecastp_limits eps : 0 < eps -> exists T, forall tp, T < tp -> exists m v s',
  Predictp solve s (Fin tp) = Ok ((Fin m, Fin v), s') /\ Rabs m < eps /\
  carma_acv sig ma om 0 - eps < v <= carma_acv sig ma om 0.
Proof.
  intros Heps.
  set (n := length tr). set (KK := obs_cov K (fun i => nth i tr 0) (fun i => nth i er 0)).
  assert (pd n KK) as Hpd by (apply (carma_pd solve Hsolve sig om ma Hok tr er (strict_times_ok _ _ Hinc))).
  assert (forall i j, KK i j = KK j i) as Hsym.
  { intros i j. unfold KK, obs_cov. rewrite K_sym. destruct (Nat.eqb_spec i j) as [->|Hne]; [rewrite Nat.eqb_refl; reflexivity|].
    destruct (Nat.eqb_spec j i); [congruence|reflexivity]. }
  assert (exists aa : nat -> nat -> R, forall i, (i < n)%nat -> forall j, (j < n)%nat -> Rsum (fun k => aa i k * KK k j) n = if Nat.eqb i j then 1 else 0) as (aa & Haa).
  { clear - Hpd Hsym. assert (forall m, exists aa : nat -> nat -> R, forall i, (i < m)%nat -> forall j, (j < n)%nat -> Rsum (fun k => aa i k * KK k j) n = if Nat.eqb i j then 1 else 0) as Hm.
    { induction m as [|m (aa & IH)]; [exists (fun _ _ => 0); intros; lia|].
      destruct (pd_solve n KK Hsym Hpd (fun j => if Nat.eqb m j then 1 else 0)) as (a & Ha).
      exists (fun i => if Nat.eqb i m then a else aa i). intros i Hi j Hj. destruct (Nat.eqb_spec i m) as [->|Hne]; [apply Ha, Hj|apply IH; lia]. }
    apply Hm. }
  set (cv := fun tp j => K tp (nth j tr 0)).
  set (at' := fun tp k => Rsum (fun i => cv tp i * aa i k) n).
  assert (forall tp j, (j < n)%nat -> Rsum (fun k => at' tp k * KK k j) n = cv tp j) as Hat.
  { intros tp j Hj. unfold at'.
    rewrite (Rsum_ext _ (fun k => Rsum (fun i => cv tp i * (aa i k * KK k j)) n)).
    2:{ intros k Hk. rewrite Rmult_comm, <- Rsum_scal. apply Rsum_ext. intros i Hi. ring. }
    rewrite Rsum_swap. rewrite (Rsum_ext _ (fun i => if Nat.eqb i j then cv tp i else 0)).
    2:{ intros i Hi. rewrite Rsum_scal, Haa by assumption. destruct (Nat.eqb i j); ring. }
    clear - Hj. induction n as [|n IH]; [lia|]. cbn [Rsum]. destruct (Nat.eqb_spec n j) as [->|Hne].
    - rewrite Rsum_0; [ring|]. intros i Hi. destruct (Nat.eqb_spec i j); [lia|reflexivity].
    - rewrite IH by lia. ring. }
  assert (forall j, vanish (fun tp => cv tp j)) as Hvc.
  { intros j. destruct Hok as ((_ & Hneg & _) & _). pose proof (carma_acv_vanish sig ma om Hneg) as Hv0.
    intros e He. destruct (Hv0 e He) as [T HT]. exists (Rmax 0 T + Rabs (nth j tr 0)). intros tp Htp. unfold cv, carma_cov. apply HT.
    pose proof (Rmax_r 0 T). pose proof (Rle_abs (tp - nth j tr 0)). pose proof (Rle_abs (nth j tr 0)). lra. }
  assert (forall k, vanish (fun tp => at' tp k)) as Hva.
  { intros k. apply (vanish_sum (fun i tp => cv tp i * aa i k)). intros i _.
    apply (vanish_ext (fun tp => aa i k * cv tp i)); [intros; ring|]. apply vanish_scal, Hvc. }
  assert (vanish (fun tp => Rsum (fun k => at' tp k * nth k yr 0) n)) as Hvm.
  { apply (vanish_sum (fun k tp => at' tp k * nth k yr 0)). intros k _. apply (vanish_ext (fun tp => nth k yr 0 * at' tp k)); [intros; ring|]. apply vanish_scal, Hva. }
  assert (forall a b, Rabs (K a b) <= K 0 0) as Hbd.
  { intros x y.
    assert (forall e : R, 0 < e -> Rabs (K x y) <= K 0 0 + e) as Hlt.
    { intros e0 He0. destruct (Req_dec x y) as [->|Hne].
      - rewrite K_diag, <- (K_diag sig om ma 0). rewrite Rabs_pos_eq; [lra|]. 
        assert (strictly_increasing [0]) as Hst1 by (intros i j Hi Hj; simpl in Hj; lia).
        pose proof (carma_pd solve Hsolve sig om ma Hok [0] [0] (strict_times_ok _ _ Hst1) (fun _ => 1)
          ltac:(exists 0%nat; split; [simpl; lia|lra])) as Hq. unfold quad in Hq. simpl in Hq. unfold obs_cov in Hq. simpl in Hq. lra.
      - assert (strictly_increasing [Rmin x y; Rmax x y]) as Hst.
        { intros i j Hi Hj. simpl in Hj. assert (i = 0%nat /\ j = 1%nat) as [-> ->] by lia. simpl. unfold Rmin, Rmax. destruct (Rle_dec x y); lra. }
        assert (K (Rmin x y) (Rmax x y) = K x y) as Emm.
        { unfold Rmin, Rmax. destruct (Rle_dec x y); [reflexivity|apply K_sym]. }
        pose proof (carma_pd solve Hsolve sig om ma Hok [Rmin x y; Rmax x y] [0; 0] (strict_times_ok _ _ Hst)) as Hp2.
        pose proof (Hp2 (fun _ => 1) ltac:(exists 0%nat; split; [simpl; lia|lra])) as Q1.
        pose proof (Hp2 (fun i => if Nat.eqb i 0 then 1 else -1) ltac:(exists 0%nat; split; [simpl; lia|simpl; lra])) as Q2.
        unfold quad in Q1, Q2. simpl in Q1, Q2. unfold obs_cov in Q1, Q2. simpl in Q1, Q2.
        rewrite !K_diag in Q1, Q2. rewrite (K_sym sig om ma (Rmax x y) (Rmin x y)), Emm in Q1, Q2. rewrite K_diag.
        apply Rabs_le. lra. }
    destruct (Rle_lt_dec (Rabs (K x y)) (K 0 0)) as [Hl|Hl]; [exact Hl|]. specialize (Hlt ((Rabs (K x y) - K 0 0) / 2) ltac:(lra)). lra. }
  assert (vanish (fun tp => Rsum (fun k => at' tp k * cv tp k) n)) as Hvv.
  { apply (vanish_sum (fun k tp => at' tp k * cv tp k)). intros k _. apply (vanish_ext (fun tp => cv tp k * at' tp k)); [intros; ring|].
    apply vanish_bdd with (M := K 0 0); [|apply Hva]. intros x. apply Hbd. }
  destruct (Hvm eps Heps) as [T1 H1]. destruct (Hvv eps Heps) as [T2 H2].
  exists (Rmax (nth (n - 1) tr 0) (Rmax T1 T2)). intros tp Htp.
  pose proof (Rmax_l (nth (n - 1) tr 0) (Rmax T1 T2)). pose proof (Rmax_r (nth (n - 1) tr 0) (Rmax T1 T2)).
  pose proof (Rmax_l T1 T2). pose proof (Rmax_r T1 T2).
  destruct (predictp solve Hsolve s tr yr er sig om ma Hs Hinc Hok tp) as (m & v & s' & E & Hc & Hv).
  { intros i Hi Htie. destruct (Nat.eq_dec i (n - 1)) as [->|Hne]; [lra|].
    pose proof (Hinc i (n - 1)%nat ltac:(subst n; lia) ltac:(subst n; lia)). lra. }
  destruct (cond_detp solve Hsolve tr yr er sig om ma Hinc Hok tp m v Hc) as [Hu _].
  destruct (Hu (Rsum (fun k => at' tp k * nth k yr 0) n) (K tp tp - Rsum (fun k => at' tp k * cv tp k) n)) as [Em Ev].
  { exists (at' tp). split; [|split; reflexivity]. intros j Hj. apply Hat, Hj. }
  exists m, v, s'. split; [exact E|]. rewrite <- Em. split; [apply H1; lra|]. split; [|apply Hv].
  rewrite <- Ev, K_diag. specialize (H2 tp ltac:(lra)). apply Rabs_def2 in H2. lra.
Qed.
End Limits.
