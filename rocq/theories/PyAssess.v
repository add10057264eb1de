(** Proofs about PyAssessModel: assess_fit and plot_autocorr. *)
From Coq Require Import List Arith ZArith Reals Lra Lia Permutation Bool String.
From Coquelicot Require Import Coquelicot.
From Verif Require Import Arith Res ListLemmas KFModel KF1Proof KFpProof CholProof Spec Gauss Emb KF1R KF1X KF1Main KF1More OUpd SimProof InitProof Cx KFpModel SpecCarma CLin KFpX KFpMain KFpTop KFpMore SpecModel
  CarpackModel RootsProof PriorProof LogLikProof LogLikMain CarpackTop EngineModel RamProof StartModel PyModel PySim PyFuns PyDerive PyPredict PyMore PyExtra PyBox PyKFSim PySampleModel PyQuant PyPsd PySampleProof PyFitProof PyFit2 PySum PyAssessModel HistProof.
Import ListNotations.
Local Open Scope R_scope.
Local Notation length := List.length.
Local Notation Forall2 := List.Forall2.

(** ** Autocorrelations *)
(** sum of x_i x_(i+k) *)
Definition acov (x : list R) (k : nat) : R := Rsum (fun i => nth i x 0 * nth (i + k) x 0) (length x - k).
(** the autocorrelations at the lags -m .. m *)
Definition is_acf (x : list R) (m : nat) (a : list R) : Prop :=
  length a = (2 * m + 1)%nat /\ forall k, (k <= m)%nat -> nth (m + k) a 0 = acov x k / acov x 0 /\ nth (m - k) a 0 = acov x k / acov x 0.
(** ... not numbers if x is zero *)
Definition acf_out (x : list R) (m : nat) (out : list xr) : Prop :=
  ((exists i, nth i x 0 <> 0) -> exists a, out = map Fin a /\ is_acf x m a) /\
  ((forall i, nth i x 0 = 0) -> out = repeat NaN (2 * m + 1)).

Lemma dot_Fin : forall x y : list R, dot AX (map Fin x) (map Fin y) = Fin (Rsum (fun i => nth i x 0 * nth i y 0) (Nat.min (length x) (length y))).
Proof.
  intros x y. unfold dot. assert (map (fun p : xr * xr => xmul (fst p) (snd p)) (combine (map Fin x) (map Fin y)) = map Fin (map (fun p => fst p * snd p) (combine x y))) as E.
  { revert y. induction x as [|a x IH]; intros [|b y]; try reflexivity. cbn [map combine]. f_equal. apply IH. }
  change (vsum AX (map (fun p : xr * xr => xmul (fst p) (snd p)) (combine (map Fin x) (map Fin y))) = Fin (Rsum (fun i => nth i x 0 * nth i y 0) (Nat.min (length x) (length y)))).
  rewrite E, vsum_Fin, map_length, combine_length. f_equal. clear E. apply Rsum_ext. intros i. revert x y.
  induction i as [|i IH]; intros [|a x] [|b y] Hi; cbn [length Nat.min] in Hi; try lia; cbn [combine map nth fst snd]; [reflexivity|]. apply IH. lia.
Qed.
Lemma nth_skipn_R (x : list R) k i : nth i (skipn k x) 0 = nth (k + i) x 0.
Proof. revert k i. induction x as [|a x IH]; intros [|k] i; cbn [skipn]; try reflexivity; [destruct i; reflexivity|]. apply IH. Qed.
Lemma dot_lag (x : list R) k : (k <= length x)%nat ->
  dot AX (map Fin (skipn k x)) (map Fin x) = Fin (acov x k) /\ dot AX (map Fin x) (map Fin (skipn k x)) = Fin (acov x k).
Proof.
  intros Hk. rewrite !dot_Fin, skipn_length. replace (Nat.min (length x - k) (length x)) with (length x - k)%nat by lia. replace (Nat.min (length x) (length x - k)) with (length x - k)%nat by lia.
  unfold acov. split; f_equal; apply Rsum_ext; intros i Hi; rewrite nth_skipn_R, (Nat.add_comm k i); ring.
Qed.
Lemma acov0_sq (x : list R) : acov x 0 = Rsum (fun i => nth i x 0 ^ 2) (length x).
Proof. unfold acov. rewrite Nat.sub_0_r. apply Rsum_ext. intros i _. rewrite Nat.add_0_r. ring. Qed.
Lemma acov0_pos (x : list R) : (exists i, nth i x 0 <> 0) -> 0 < acov x 0.
Proof.
  intros (i & H). rewrite acov0_sq. assert (i < length x)%nat as Hi by (destruct (Nat.lt_ge_cases i (length x)) as [L|L]; [exact L|rewrite nth_overflow in H by exact L; congruence]).
  apply (Rsum_pos _ _ i Hi); [intros k _; apply pow2_ge_0|]. assert (0 <> nth i x 0 ^ 2) by (apply not_eq_sym, pow_nonzero, H). pose proof (pow2_ge_0 (nth i x 0)). lra.
Qed.
Lemma acov_bound (x : list R) k : Rabs (acov x k) <= acov x 0.
Proof.
  destruct (Nat.le_gt_cases k (length x)) as [Hk|Hk].
  2:{ unfold acov at 1. replace (length x - k)%nat with 0%nat by lia. cbn [Rsum]. rewrite Rabs_R0, acov0_sq. apply Rsum_nonneg. intros i _. apply pow2_ge_0. }
  assert (Rsum (fun i => nth i x 0 ^ 2) (length x - k) <= acov x 0) as H1.
  { rewrite acov0_sq. replace (length x) with ((length x - k) + k)%nat at 2 by lia. rewrite Rsum_app.
    pose proof (Rsum_nonneg (fun i => nth (length x - k + i) x 0 ^ 2) k ltac:(intros; apply pow2_ge_0)). lra. }
  assert (Rsum (fun i => nth (i + k) x 0 ^ 2) (length x - k) <= acov x 0) as H2.
  { rewrite acov0_sq. replace (length x) with (k + (length x - k))%nat at 2 by lia. rewrite Rsum_app.
    pose proof (Rsum_nonneg (fun i => nth i x 0 ^ 2) k ltac:(intros; apply pow2_ge_0)).
    rewrite (Rsum_ext (fun i => nth (i + k) x 0 ^ 2) (fun i => nth (k + i) x 0 ^ 2)) by (intros; rewrite Nat.add_comm; reflexivity). lra. }
  apply Rabs_le. unfold acov at 2 3. split.
  - apply Ropp_le_cancel. rewrite Ropp_involutive.
    apply Rle_trans with (/ 2 * (Rsum (fun i => nth i x 0 ^ 2) (length x - k) + Rsum (fun i => nth (i + k) x 0 ^ 2) (length x - k))); [|lra].
    rewrite <- Rsum_plus, <- Rsum_scal. replace (- Rsum (fun i => nth i x 0 * nth (i + k) x 0) (length x - k)) with (Rsum (fun i => -1 * (nth i x 0 * nth (i + k) x 0)) (length x - k)) by (rewrite Rsum_scal; ring).
    apply Rsum_le. intros i _. pose proof (pow2_ge_0 (nth i x 0 + nth (i + k) x 0)). lra.
  - apply Rle_trans with (/ 2 * (Rsum (fun i => nth i x 0 ^ 2) (length x - k) + Rsum (fun i => nth (i + k) x 0 ^ 2) (length x - k))); [|lra].
    rewrite <- Rsum_plus, <- Rsum_scal. apply Rsum_le. intros i _. pose proof (pow2_ge_0 (nth i x 0 - nth (i + k) x 0)). lra.
Qed.
(** the autocorrelation at lag 0 is 1, the others are between -1 and 1 *)
Lemma acf_range (x : list R) m a : (exists i, nth i x 0 <> 0) -> is_acf x m a -> nth m a 0 = 1 /\ forall j, (j <= 2 * m)%nat -> -1 <= nth j a 0 <= 1.
Proof.
  intros Hx (L & H). pose proof (acov0_pos x Hx) as Hp.
  assert (forall k, -1 <= acov x k / acov x 0 <= 1) as B.
  { intros k. pose proof (acov_bound x k) as Hb. apply Rabs_le_between in Hb. split.
    - apply (Rmult_le_reg_r (acov x 0)); [exact Hp|]. unfold Rdiv. rewrite Rmult_assoc, Rinv_l by lra. lra.
    - apply (Rmult_le_reg_r (acov x 0)); [exact Hp|]. unfold Rdiv. rewrite Rmult_assoc, Rinv_l by lra. lra. }
  split.
  - destruct (H 0%nat ltac:(lia)) as [E _]. rewrite Nat.add_0_r in E. rewrite E. field. lra.
  - intros j Hj. destruct (Nat.le_gt_cases m j) as [C|C].
    + destruct (H (j - m)%nat ltac:(lia)) as [E _]. replace (m + (j - m))%nat with j in E by lia. rewrite E. apply B.
    + destruct (H (m - j)%nat ltac:(lia)) as [_ E]. replace (m - (m - j))%nat with j in E by lia. rewrite E. apply B.
Qed.

Lemma skipn_map_Fin k (x : list R) : skipn k (map Fin x) = map Fin (skipn k x).
Proof. revert k. induction x as [|a x IH]; intros [|k]; try reflexivity. apply IH. Qed.
Lemma map_seq_const T (c : T) n : forall j, map (fun _ : nat => c) (seq j n) = repeat c n.
Proof. induction n as [|n IH]; intros j; [reflexivity|]. cbn [seq map repeat]. f_equal. apply IH. Qed.
Lemma plt_acorr_Fin (x : list R) m : (0 < m)%nat -> (m < length x)%nat -> exists out, plt_acorr AX (map Fin x) m = Ok out /\ acf_out x m out.
Proof.
  intros Hm Hx. unfold plt_acorr. rewrite map_length. destruct (0 <? m)%nat eqn:E1; [|apply Nat.ltb_ge in E1; lia]. destruct (m <? length x)%nat eqn:E2; [|apply Nat.ltb_ge in E2; lia].
  cbn [andb]. eexists. split; [reflexivity|].
  pose proof (proj1 (dot_lag x 0 ltac:(lia))) as D0. cbn [skipn] in D0. change (F AX) with xr in *. rewrite D0.
  pose proof (acov_bound x 0) as Hnn. pose proof (Rabs_pos (acov x 0)) as Hab.
  change (fsqrt AX (fmul AX (Fin (acov x 0)) (Fin (acov x 0)))) with (xsqrt (Fin (acov x 0 * acov x 0))).
  rewrite fin_sqrt by (apply Rle_0_sqr). rewrite sqrt_square by lra.
  set (lag := fun j : nat => if (m <=? j)%nat then (j - m)%nat else (m - j)%nat).
  assert (forall j, (j < 2 * m + 1)%nat -> (if (m <=? j)%nat then dot AX (skipn (j - m) (map Fin x)) (map Fin x) else dot AX (map Fin x) (skipn (m - j) (map Fin x))) = Fin (acov x (lag j))) as HD.
  { intros j Hj. unfold lag. rewrite !skipn_map_Fin. destruct (m <=? j)%nat eqn:Ej; apply (dot_lag x); [apply Nat.leb_le in Ej|apply Nat.leb_gt in Ej]; lia. }
  split.
  - intros Hne. pose proof (acov0_pos x Hne) as Hp. exists (map (fun j => acov x (lag j) / acov x 0) (seq 0 (2 * m + 1))). split.
    + unfold vbuild. rewrite map_map. apply map_ext_in. intros j Hj. apply in_seq in Hj. change (F AX) with xr. rewrite HD by lia. apply fin_div. lra.
    + split; [rewrite map_length, seq_length; reflexivity|]. intros k Hk.
      assert (forall j, (j < 2 * m + 1)%nat -> nth j (map (fun j => acov x (lag j) / acov x 0) (seq 0 (2 * m + 1))) 0 = acov x (lag j) / acov x 0) as HN.
      { intros j Hj. rewrite (nth_indep _ 0 ((fun j => acov x (lag j) / acov x 0) 0%nat)) by (rewrite map_length, seq_length; exact Hj).
        rewrite (map_nth (fun j => acov x (lag j) / acov x 0)), seq_nth by exact Hj. reflexivity. }
      rewrite !HN by lia. unfold lag. split.
      * destruct (m <=? m + k)%nat eqn:E; [|apply Nat.leb_gt in E; lia]. replace (m + k - m)%nat with k by lia. reflexivity.
      * destruct (m <=? m - k)%nat eqn:E; [apply Nat.leb_le in E; replace (m - k - m)%nat with k by lia|replace (m - (m - k))%nat with k by lia]; reflexivity.
  - intros Hz. unfold vbuild. assert (forall k, acov x k = 0) as Z by (intros k; unfold acov; apply Rsum_0; intros i _; rewrite Hz; ring).
    rewrite (map_ext_in _ (fun _ => NaN)).
    + apply map_seq_const.
    + intros j Hj. apply in_seq in Hj. change (F AX) with xr. rewrite HD by lia. rewrite !Z. cbn [fdiv AX xdiv]. unfold xdiv. destruct (Req_EM_T 0 0); [|congruence].
      unfold xinf_times, rsgn. destruct (Rlt_dec 0 0); [lra|]. reflexivity.
Qed.
Lemma plt_acorr_short (A : Arith) (x : list (F A)) m : (length x <= m)%nat -> plt_acorr A x m = Throw Elogic.
Proof. intros H. unfold plt_acorr. replace (m <? length x)%nat with false by (symmetry; apply Nat.ltb_ge; exact H). rewrite Bool.andb_false_r. reflexivity. Qed.

(** ** The times of the interpolation *)
(** n equally spaced numbers from a to b *)
Definition even_grid (a b : R) (n : nat) (l : list R) : Prop :=
  length l = n /\ forall j, (j < n)%nat -> nth j l 0 = a + INR j / INR (n - 1) * (b - a).
Definition interp_times (t : list R) (n : nat) : list R :=
  map (fun j => 1001 / 1000 * nth 0 t 0 + INR j / INR (n - 1) * (nth (length t - 1) t 0 - 1001 / 1000 * nth 0 t 0)) (seq 0 n).
Lemma interp_even t n : even_grid (1001 / 1000 * nth 0 t 0) (nth (length t - 1) t 0) n (interp_times t n).
Proof.
  split; [unfold interp_times; rewrite map_length, seq_length; reflexivity|]. intros j Hj. unfold interp_times.
  match goal with |- nth j (map ?f _) 0 = _ => rewrite (nth_indep _ 0 (f 0%nat)) by (rewrite map_length, seq_length; exact Hj); rewrite (map_nth f), seq_nth by exact Hj end. reflexivity.
Qed.
Lemma si_first (t : list R) x : strictly_increasing t -> In x t -> nth 0 t 0 <= x <= nth (length t - 1) t 0.
Proof.
  intros Hinc Hx. apply (In_nth _ _ 0) in Hx. destruct Hx as (i & Hi & <-). split.
  - destruct i as [|i]; [lra|]. pose proof (Hinc 0%nat (S i) ltac:(lia) Hi). lra.
  - destruct (Nat.eq_dec i (length t - 1)) as [->|N]; [lra|]. pose proof (Hinc i (length t - 1)%nat ltac:(lia) ltac:(lia)). lra.
Qed.
Lemma assess_times_Fin (t : list R) n : t <> [] -> strictly_increasing t -> (2 <= n)%nat ->
  assess_times AX (map Fin t) n = Ok (map Fin (interp_times t n)).
Proof.
  intros Hne Hinc Hn. unfold assess_times.
  destruct (vmin_ok t Hne) as (lo & El & Hl1 & Hl2). destruct (vmax_ok t Hne) as (hi & Eh & Hh1 & Hh2).
  assert (0 < length t)%nat as Ht by (destruct t; [congruence|cbn; lia]).
  assert (lo = nth 0 t 0) as -> by (pose proof (Hl2 (nth 0 t 0) ltac:(apply nth_In; lia)); pose proof (si_first t lo Hinc Hl1); lra).
  assert (hi = nth (length t - 1) t 0) as -> by (pose proof (Hh2 (nth (length t - 1) t 0) ltac:(apply nth_In; lia)); pose proof (si_first t hi Hinc Hh1); lra).
  change (F AX) with xr in *. rewrite El. cbn [bind]. change (F AX) with xr in *. rewrite Eh. cbn [bind]. f_equal.
  set (t0 := nth 0 t 0). set (tn := nth (length t - 1) t 0).
  assert (0 < INR (n - 1)) as Hp by (apply lt_0_INR; lia).
  unfold np_linspace, interp_times, vbuild. fold t0 tn. rewrite map_map. apply map_ext_in. intros j Hj. apply in_seq in Hj.
  change (fsub AX (Fin tn) (fmul AX (fdec AX 1001 1000) (Fin t0))) with (Fin (tn - IZR 1001 / IZR 1000 * t0)). cbn [fofZ AX]. rewrite <- !INR_IZR_INZ.
  assert (fdiv AX (Fin (tn - IZR 1001 / IZR 1000 * t0)) (Fin (INR (n - 1))) = Fin ((tn - IZR 1001 / IZR 1000 * t0) / INR (n - 1))) as -> by (refine (fin_div _ _ _); lra).
  destruct (j =? n - 1)%nat eqn:Ej.
  - apply Nat.eqb_eq in Ej. subst j. f_equal. field. lra.
  - cbn [fmul fadd fdec AX xmul xadd]. f_equal. field. lra.
Qed.
(** inside the data, in order, ending at the last measurement *)
Theorem interp_inside (t : list R) n : t <> [] -> strictly_increasing t -> (2 <= n)%nat -> 0 <= nth 0 t 0 -> 1001 / 1000 * nth 0 t 0 < nth (length t - 1) t 0 ->
  strictly_increasing (interp_times t n) /\ (forall x, In x (interp_times t n) -> nth 0 t 0 <= x <= nth (length t - 1) t 0) /\
  nth 0 (interp_times t n) 0 = 1001 / 1000 * nth 0 t 0 /\ nth (n - 1) (interp_times t n) 0 = nth (length t - 1) t 0.
Proof.
  intros Hne Hinc Hn H0 Hlt. destruct (interp_even t n) as (L & E). set (a := 1001 / 1000 * nth 0 t 0) in *. set (b := nth (length t - 1) t 0) in *.
  assert (0 < INR (n - 1)) as Hp by (apply lt_0_INR; lia).
  assert (forall j, (j < n)%nat -> 0 <= INR j / INR (n - 1) <= 1) as Hr.
  { intros j Hj. split; [apply Rdiv_le_0_compat; [apply pos_INR|exact Hp]|]. apply (Rmult_le_reg_r (INR (n - 1))); [exact Hp|]. unfold Rdiv. rewrite Rmult_assoc, Rinv_l by lra. rewrite Rmult_1_r, Rmult_1_l. apply le_INR. lia. }
  split; [|split; [|split]].
  - intros i j Hij Hj. rewrite L in Hj. rewrite !E by lia. assert (INR i < INR j) by (apply lt_INR; exact Hij).
    apply Rplus_lt_compat_l. apply Rmult_lt_compat_r; [lra|]. unfold Rdiv. apply Rmult_lt_compat_r; [apply Rinv_0_lt_compat; exact Hp|assumption].
  - intros x Hx. apply (In_nth _ _ 0) in Hx. destruct Hx as (j & Hj & <-). rewrite L in Hj. rewrite E by exact Hj. pose proof (Hr j Hj). unfold a in *. nra.
  - rewrite E by lia. cbn [INR]. field. lra.
  - rewrite E by lia. field. lra.
Qed.
(** the factor 1.001 is not small compared with times far from zero: the times of the interpolation then decrease from after the end of the data *)
Theorem interp_late (t : list R) n : t <> [] -> strictly_increasing t -> (2 <= n)%nat -> nth (length t - 1) t 0 < 1001 / 1000 * nth 0 t 0 ->
  (forall j, (j < n - 1)%nat -> nth (length t - 1) t 0 < nth j (interp_times t n) 0) /\
  (forall i j, (i < j)%nat -> (j < n)%nat -> nth j (interp_times t n) 0 < nth i (interp_times t n) 0).
Proof.
  intros Hne Hinc Hn Hlt. destruct (interp_even t n) as (L & E). set (a := 1001 / 1000 * nth 0 t 0) in *. set (b := nth (length t - 1) t 0) in *.
  assert (0 < INR (n - 1)) as Hp by (apply lt_0_INR; lia). split.
  - intros j Hj. rewrite E by lia. assert (INR j / INR (n - 1) < 1) as Hr.
    { apply (Rmult_lt_reg_r (INR (n - 1))); [exact Hp|]. unfold Rdiv. rewrite Rmult_assoc, Rinv_l by lra. rewrite Rmult_1_r, Rmult_1_l. apply lt_INR. lia. }
    nra.
  - intros i j Hij Hj. rewrite !E by lia. assert (INR i < INR j) by (apply lt_INR; exact Hij).
    assert (INR i / INR (n - 1) < INR j / INR (n - 1)) by (unfold Rdiv; apply Rmult_lt_compat_r; [apply Rinv_0_lt_compat; exact Hp|assumption]). nra.
Qed.
Theorem interp_negative (t : list R) n : (2 <= n)%nat -> nth 0 t 0 < 0 -> nth 0 (interp_times t n) 0 < nth 0 t 0.
Proof. intros Hn H. destruct (interp_even t n) as (L & E). rewrite E by lia. cbn [INR]. unfold Rdiv at 2. rewrite Rmult_0_l, Rmult_0_l. lra. Qed.

(** ** assess_fit *)
Definition centred_squares (r : list R) : list R := map (fun x => x * x - smean (map (fun z => z * z) r)) r.
Definition assessed (K : R -> R -> R) (t y e : list R) (mu : R) (n : nat) (f : fit AX) : Prop :=
  exists o r, predictions K t y e mu (interp_times t n) o /\ residuals K t y e mu r /\
    f_times f = map Fin (interp_times t n) /\ f_mean f = map (fun mv => Fin (fst mv)) o /\
    f_low f = map (fun mv => Fin (fst mv - sqrt (snd mv))) o /\ f_high f = map (fun mv => Fin (fst mv + sqrt (snd mv))) o /\
    f_resid f = map Fin r /\ f_noise f = Fin (196 / 100 / sqrt (INR (length t))) /\
    acf_out r 50 (f_acf f) /\ acf_out (centred_squares r) 50 (f_acf2 f) /\
    (* the histogram of the residuals in ten bins, and the normal curve *)
    exists lo hi c, range_of r lo hi /\ counts r 10 lo hi c /\ bars_of 10 lo hi c (2 / 5 * nth (length t - 1) t 0) (f_bars f) /\
      normal_curve_of (map (bin_edge lo hi 10) (seq 0 10)) (2 / 5 * nth (length t - 1) t 0) (f_curve f).

Lemma assess_from {X} (M : methods AX X) s mu K (t y e : list R) n o r : t <> [] -> strictly_increasing t -> (2 <= n)%nat -> (50 < length t)%nat ->
  py_predict M s (Fin mu : F AX) (map Fin (interp_times t n)) = Ok (map (fun mv => (Fin (fst mv), Fin (snd mv))) o) -> predictions K t y e mu (interp_times t n) o ->
  std_residuals M s (map Fin y) (Fin mu : F AX) = Ok (map Fin r) -> residuals K t y e mu r ->
  exists f, assess_fit M (Ok (s, Fin mu : F AX)) (map Fin t) (map Fin y) n = Ok f /\ assessed K t y e mu n f.
Proof.
  intros Hne Hinc Hn Ht Eo Ho Er Hr. pose proof Hr as (Lr & _).
  destruct (plt_acorr_Fin r 50 ltac:(lia) ltac:(rewrite Lr; exact Ht)) as (a & Ea & Ha).
  destruct (plt_acorr_Fin (centred_squares r) 50 ltac:(lia) ltac:(unfold centred_squares; rewrite map_length, Lr; exact Ht)) as (a2 & Ea2 & Ha2).
  assert (map (fun x => fsub AX x (vmean AX (map (fun x => fmul AX x x) (map Fin r)))) (map (fun x => fmul AX x x) (map Fin r)) = map Fin (centred_squares r)) as E2.
  { assert (map (fun x => fmul AX x x) (map Fin r) = map Fin (map (fun z => z * z) r)) as -> by (rewrite !map_map; reflexivity).
    rewrite vmean_Fin by (destruct r; [cbn in Lr; lia|discriminate]). unfold centred_squares. rewrite !map_map. reflexivity. }
  assert (forall mv, In mv o -> 0 < snd mv) as Hpos.
  { intros mv Hmv. apply (In_nth _ _ (0, 0)) in Hmv. destruct Hmv as (j & Hj & <-). pose proof (F2_len Ho) as Lo.
    destruct (nth_F2 _ _ _ 0 (0, 0) j Ho ltac:(lia)) as (Hp & _). exact Hp. }
  assert (vmax AX (map Fin t) = Ok (Fin (nth (length t - 1) t 0))) as Em.
  { destruct (vmax_ok t Hne) as (hi & Eh & Hh1 & Hh2). change (F AX) with xr in *. rewrite Eh. f_equal. f_equal.
    pose proof (Hh2 (nth (length t - 1) t 0) ltac:(apply nth_In; lia)). pose proof (si_first t hi Hinc Hh1). lra. }
  destruct (hist_bars_Fin r 10 (4 / 10) (nth (length t - 1) t 0) ltac:(intros ->; cbn in Lr; lia) ltac:(lia)) as (lo & hi & c & bars & Eb & Hrg & Hc & Hb).
  destruct (normal_curve_Fin (map (bin_edge lo hi 10) (seq 0 10)) (nth (length t - 1) t 0) ltac:(discriminate)) as (curve & Ec & Hcv).
  rewrite map_map in Ec.
  unfold assess_fit. rewrite (assess_times_Fin t n Hne Hinc Hn). cbn [bind]. change (F AX) with xr in *. rewrite Eo. cbn [bind]. change (F AX) with xr in *. rewrite Er. cbn [bind].
  change (F AX) with xr in *. rewrite Em. cbn [bind].
  change (fdec AX 4 10) with (Fin (4 / 10)). change (F AX) with xr in *. rewrite Eb. cbn [bind]. change (F AX) with xr in *. rewrite Ec. cbn [bind].
  change (F AX) with xr in *. rewrite Ea. cbn [bind]. cbv zeta. change (F AX) with xr in *. rewrite E2. rewrite Ea2. cbn [bind]. eexists. split; [reflexivity|].
  exists o, r. split; [exact Ho|]. split; [exact Hr|]. cbn [f_times f_mean f_low f_high f_resid f_noise f_acf f_acf2 f_bars f_edges f_curve]. split; [reflexivity|]. split; [rewrite map_map; reflexivity|].
  split; [|split].
  - rewrite map_map. apply map_ext_in. intros mv Hmv. cbn [fst snd]. change (fsqrt AX (Fin (snd mv))) with (xsqrt (Fin (snd mv))). rewrite fin_sqrt by (apply Rlt_le, Hpos, Hmv). reflexivity.
  - rewrite map_map. apply map_ext_in. intros mv Hmv. cbn [fst snd]. change (fsqrt AX (Fin (snd mv))) with (xsqrt (Fin (snd mv))). rewrite fin_sqrt by (apply Rlt_le, Hpos, Hmv). reflexivity.
  - split; [reflexivity|]. split; [|split; [exact Ha|split; [exact Ha2|]]].
    2:{ exists lo, hi, c. split; [exact Hrg|]. split; [exact Hc|]. split; [|exact Hcv]. replace (2 / 5) with (4 / 10) by lra. exact Hb. }
    rewrite map_length. cbn [fofZ AX]. rewrite <- INR_IZR_INZ.
    change (fsqrt AX (Fin (INR (length t)))) with (xsqrt (Fin (INR (length t)))). rewrite fin_sqrt by apply pos_INR.
    refine (fin_div _ _ _). apply Rgt_not_eq, sqrt_lt_R0, lt_0_INR. lia.
Qed.

Theorem Car1Sample_assess np_sort (si : list (F AX) -> option (list nat)) (raw : kf1 AX) (fn : option (file AX)) (rows : list (list R)) (lp : list R) (d : dict AX) (t y e : list R) bf n :
  valid_np_sort np_sort -> valid_sort_index si -> rows <> [] -> (forall th, In th rows -> row1_ok th) -> length lp = length rows ->
  Car1Sample_new fn (map Fin lp) (map (map Fin) rows) = Ok d ->
  strictly_increasing t -> (50 < length t)%nat -> length y = length t -> length e = length t -> (2 <= n)%nat -> no_exact t e (interp_times t n) ->
  exists sigsqr mu lo f, car1_best bf rows lp sigsqr mu lo /\ 0 < sigsqr /\
    assess_fit (methods1 AX) (car1_sample_filter np_sort si raw (map Fin t) (map Fin y) (map Fin e) bf d) (map Fin t) (map Fin y) n = Ok f /\
    assessed (ou_cov sigsqr (exp lo)) t y e mu n f.
Proof.
  intros Hsort Hsi Hne Hok Hlp E Hinc Ht Hy He Hn Hnz.
  destruct (Car1Sample_holds np_sort si raw fn rows lp d t y e bf Hsort Hsi Hne Hok Hlp E Hinc ltac:(lia) Hy He) as (sigsqr & mu & lo & s & Hb & Hpos & Es & Hs).
  destruct (predict1_holds s t _ e _ _ mu (interp_times t n) Hs Hinc Hpos (exp_pos _) Hnz) as (o & Eo & Ho).
  destruct (residuals1_holds s t y e _ _ mu Hs Hinc Hpos (exp_pos _)) as (r & Er & Hr).
  destruct (assess_from (methods1 AX) s mu _ t y e n o r ltac:(intros ->; cbn in Ht; lia) Hinc Hn Ht Eo Ho Er Hr) as (f & Ef & Hf).
  exists sigsqr, mu, lo, f. split; [exact Hb|]. split; [exact Hpos|]. split; [|exact Hf]. change (F AX) with xr in *. rewrite Es. exact Ef.
Qed.
Theorem CarmaSample_assess_map np_sort csort isreal p q (Hp : (2 <= p)%nat) (Hq : (q < p)%nat) (si : list (F AX) -> option (list nat)) (raw : kfp AX) {X Om} (Cl : cls AX X Om) (b : base AX X) (fn : option (file AX)) (rows : list (list R))
  solve (t y e lp : list R) d j n : valid_sort_index si -> valid_solve solve -> rows <> [] -> (forall th, In th rows -> row_ok p q th) ->
  strictly_increasing t -> (50 < length t)%nat -> length y = length t -> length e = length t -> (2 <= n)%nat -> no_exact t e (interp_times t n) ->
  length lp = length rows -> CarmaSample_new Cl b isreal q fn (map Fin lp) (map (map Fin) rows) = Ok d ->
  exists i sig om ma f, first_max lp i /\ let th := nth i rows [] in carma_params p q th sig om ma /\
    assess_fit (methodsp solve) (carma_sample_filter np_sort csort si raw (map Fin t) (map Fin y) (map Fin e) j BMap d) (map Fin t) (map Fin y) n = Ok f /\
    assessed (carma_cov sig ma om) t y e (nth 2 th 0) n f.
Proof.
  intros Hsi Hsv Hne Hok Hinc Ht Hy He Hn Hnz Hlp E.
  destruct (CarmaSample_map_holds np_sort csort isreal p q Hp Hq si raw Hsi X Om Cl b fn rows Hne Hok t y e lp d j Hinc ltac:(lia) Hy He Hlp E) as (i & s & sig & om & ma & Hm & H). cbv zeta in H. destruct H as (Es & Hpar & Hs & Hk).
  destruct (predictp_holds solve Hsv s t _ e _ om ma (nth 2 (nth i rows []) 0) (interp_times t n) Hs Hinc Hk Hnz) as (o & Eo & Ho).
  destruct (residualsp_holds solve Hsv s t y e _ om ma (nth 2 (nth i rows []) 0) Hs Hinc Hk) as (r & Er & Hr).
  destruct (assess_from (methodsp solve) s (nth 2 (nth i rows []) 0) _ t y e n o r ltac:(intros ->; cbn in Ht; lia) Hinc Hn Ht Eo Ho Er Hr) as (f & Ef & Hf).
  exists i, sig, om, ma, f. split; [exact Hm|]. cbv zeta. split; [exact Hpar|]. split; [|exact Hf]. change (F AX) with xr in *. rewrite Es. exact Ef.
Qed.
(** the mean and the median, when their roots are those of a process *)
Theorem CarmaSample_assess_cols np_sort csort isreal p q (Hp : (2 <= p)%nat) (Hq : (q < p)%nat) (si : list (F AX) -> option (list nat)) (raw : kfp AX) {X Om} (Cl : cls AX X Om) (b : base AX X) (fn : option (file AX)) (rows : list (list R))
  solve (t y e : list R) (lp : list (F AX)) d i bf n : valid_np_sort np_sort -> valid_csort csort -> valid_sort_index si -> valid_solve solve -> (bf = BMedian \/ bf = BMean) ->
  rows <> [] -> (forall th, In th rows -> row_ok p q th) ->
  strictly_increasing t -> (50 < length t)%nat -> length y = length t -> length e = length t -> (2 <= n)%nat -> no_exact t e (interp_times t n) ->
  length lp = length rows -> CarmaSample_new Cl b isreal q fn lp (map (map Fin) rows) = Ok d ->
  exists S sig mu om ma, Forall2 (row_par p q) rows S /\ carma_best bf p q rows S sig mu om ma /\
    (NoDup om -> conj_closed om -> exists f,
       assess_fit (methodsp solve) (carma_sample_filter np_sort csort si raw (map Fin t) (map Fin y) (map Fin e) i bf d) (map Fin t) (map Fin y) n = Ok f /\
       assessed (carma_cov sig (ma ++ repeat 0 (p - Datatypes.S q)) om) t y e mu n f).
Proof.
  intros Hsort Hcsort Hsi Hsv Hbf Hne Hok Hinc Ht Hy He Hn Hnz Hlp E.
  destruct (CarmaSample_cols_holds np_sort csort isreal p q Hp Hq si raw Cl b fn rows t y e lp d i bf Hsort Hcsort Hsi Hbf Hne Hok Hinc ltac:(lia) Hy He Hlp E) as (S & sig & mu & om & ma & s & H1 & H2 & H3 & H4 & H5 & H6).
  exists S, sig, mu, om, ma. split; [exact H1|]. split; [exact H2|]. intros Hnd Hcc. destruct (H6 Hnd Hcc) as (Hs & Hk).
  destruct (predictp_holds solve Hsv s t _ e _ om _ mu (interp_times t n) Hs Hinc Hk Hnz) as (o & Eo & Ho).
  destruct (residualsp_holds solve Hsv s t y e _ om _ mu Hs Hinc Hk) as (r & Er & Hr).
  destruct (assess_from (methodsp solve) s mu _ t y e n o r ltac:(intros ->; cbn in Ht; lia) Hinc Hn Ht Eo Ho Er Hr) as (f & Ef & Hf).
  exists f. split; [|exact Hf]. change (F AX) with xr in *. rewrite H5. exact Ef.
Qed.
(** with at most 50 measurements assess_fit cannot succeed, whatever the filter *)
Theorem assess_short (A : Arith) X (M : methods A X) mk (time y : list (F A)) n f : (length y <= 50)%nat -> assess_fit M mk time y n <> Ok f.
Proof.
  intros Hy. unfold assess_fit. destruct (assess_times A time n) as [ts|?| |]; cbn [bind]; try discriminate. destruct mk as [[s mu]|?| |]; cbn [bind]; try discriminate.
  destruct (py_predict M s mu ts) as [mv|?| |]; cbn [bind]; try discriminate.
  destruct (std_residuals M s y mu) as [r|?| |] eqn:Er; cbn [bind]; try discriminate.
  destruct (vmax A time) as [tm|?| |]; cbn [bind]; try discriminate.
  destruct (hist_bars A r 10 (fdec A 4 10) tm) as [[bars edges]|?| |]; cbn [bind]; try discriminate.
  destruct (normal_curve A edges tm) as [cv|?| |]; cbn [bind]; try discriminate.
  rewrite plt_acorr_short; [discriminate|]. unfold std_residuals in Er. destruct (Filter M s) as [s'|?| |]; cbn [bind] in Er; try discriminate Er. injection Er as <-.
  rewrite map_length, combine_length. lia.
Qed.

(** ** plot_autocorr *)
Definition centred (c : list R) : list R := map (fun x => x - smean c) c.
Theorem plot_autocorr_ok (acor : list (F AX) -> res (F AX)) (d : dict AX) k (m : list (list R)) c (tau : nat -> F AX) :
  dget d k = Some (V2 AX (map (map Fin) m)) -> (2 <= length m)%nat -> (forall row, In row m -> length row = c) ->
  (forall i, (i < c)%nat -> acor (map Fin (rcolumn m i)) = Ok (tau i)) ->
  exists l, plot_autocorr acor d k = Ok (Some l) /\ length l = c /\
    forall i a u, nth_error l i = Some (a, u) -> u = tau i /\ acf_out (centred (rcolumn m i)) (length m - 1) a.
Proof.
  intros Hd Hm Hc Ha. assert (forall i, (i < c)%nat -> column AX (map (map Fin) m) i = Ok (map Fin (rcolumn m i))) as Hcol.
  { intros i Hi. unfold column, rcolumn. rewrite map_map. apply rmap_map. intros row Hrow. apply vget_Fin. rewrite (Hc row Hrow). exact Hi. }
  assert (length (hd [] (map (map Fin) m)) = c) as Ew by (destruct m as [|row m]; [cbn in Hm; lia|]; cbn; rewrite map_length; apply Hc; left; reflexivity).
  unfold plot_autocorr. rewrite Hd. cbn [timescales]. change (F AX) with xr in *. rewrite Ew.
  rewrite (rmap_ok _ _ tau) by (intros i Hi; apply in_seq in Hi; rewrite Hcol by lia; cbn [bind]; apply (Ha i ltac:(lia))). cbn [bind].
  match goal with |- context [rmap ?h (seq 0 c)] => set (g := h) end.
  assert (forall i, (i < c)%nat -> exists p, g i = Ok p /\ snd p = tau i /\ acf_out (centred (rcolumn m i)) (length m - 1) (fst p)) as Hg.
  { intros i Hi. assert (length (rcolumn m i) = length m) as Lc by (unfold rcolumn; apply map_length).
    destruct (plt_acorr_Fin (centred (rcolumn m i)) (length m - 1) ltac:(lia) ltac:(unfold centred; rewrite map_length, Lc; lia)) as (a & Ea & Hacf).
    exists (a, tau i). split; [|split; [reflexivity|exact Hacf]]. unfold g. rewrite Hcol by exact Hi. cbn [bind].
    assert (map (fun x => fsub AX x (vmean AX (map Fin (rcolumn m i)))) (map Fin (rcolumn m i)) = map Fin (centred (rcolumn m i))) as E2.
    { rewrite vmean_Fin by (intros E0; apply (f_equal (@length R)) in E0; cbn in E0; lia). unfold centred. rewrite !map_map. reflexivity. }
    change (F AX) with xr in *. rewrite E2, map_length, Ea. cbn [bind]. rewrite vget_ok with (d := tau 0%nat) by (rewrite map_length, seq_length; exact Hi).
    rewrite map_nth, seq_nth by exact Hi. reflexivity. }
  assert (exists ss, rmap g (seq 0 c) = Ok ss /\ Forall2 (fun i p => snd p = tau i /\ acf_out (centred (rcolumn m i)) (length m - 1) (fst p)) (seq 0 c) ss) as (ss & E & HF).
  { assert (forall l, (forall i, In i l -> (i < c)%nat) -> exists ss, rmap g l = Ok ss /\
      Forall2 (fun i p => snd p = tau i /\ acf_out (centred (rcolumn m i)) (length m - 1) (fst p)) l ss) as G; [|apply G; intros i Hi; apply in_seq in Hi; lia].
    induction l as [|i l IH]; intros Hl; [exists []; split; [reflexivity|constructor]|].
    destruct IH as (ss & E & HF); [intros j Hj; apply Hl; right; exact Hj|]. destruct (Hg i (Hl i (or_introl eq_refl))) as (s & Es & Hs).
    exists (s :: ss). split; [|constructor; assumption]. cbn [rmap]. rewrite Es. cbn [bind]. rewrite E. reflexivity. }
  exists ss. rewrite E. split; [reflexivity|]. split; [pose proof (F2_len HF) as L; rewrite seq_length in L; congruence|].
  intros i a u Es. assert (i < length ss)%nat as Hi by (apply nth_error_Some; congruence). pose proof (F2_len HF) as L. rewrite seq_length in L.
  pose proof (nth_F2 _ _ _ 0%nat (a, u) i HF ltac:(rewrite seq_length; lia)) as K. rewrite seq_nth in K by lia. cbn [Nat.add] in K. rewrite (nth_error_nth _ _ _ Es) in K. exact K.
Qed.
(** one sample: raises (and draws nothing if there are no columns) *)
Theorem plot_autocorr_one (A : Arith) acor (d : dict A) k (row : list (F A)) l : dget d k = Some (V2 A [row]) -> row <> [] -> plot_autocorr acor d k <> Ok l.
Proof.
  intros Hd Hr. unfold plot_autocorr. rewrite Hd. destruct (timescales acor (V2 A [row])) as [ts|?| |]; cbn [bind]; try discriminate.
  destruct row as [|x row]; [congruence|]. cbn [hd length seq rmap column vget nth_error bind Nat.sub].
  unfold plt_acorr. cbn [Nat.ltb Nat.leb andb bind]. discriminate.
Qed.
(** a parameter that was never sampled, or that is constant along the chain *)
Lemma centred_const (c : list R) x : c <> [] -> (forall z, In z c -> z = x) -> forall i, nth i (centred c) 0 = 0.
Proof.
  intros Hne H i. destruct (Nat.lt_ge_cases i (length c)) as [L|L]; [|apply nth_overflow; unfold centred; rewrite map_length; exact L].
  unfold centred. rewrite (nth_indep _ 0 ((fun z => z - smean c) 0)) by (rewrite map_length; exact L). rewrite (map_nth (fun z => z - smean c)).
  rewrite (H (nth i c 0)), (smean_const c x) by (assumption || (apply nth_In; exact L)). ring.
Qed.
