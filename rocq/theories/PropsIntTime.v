(** Property theorems about an integer array of times given to carma_process and to KalmanFilterDeprecated (C130). *)
From Coq Require Import Reals List Arith ZArith Bool Lia Lra Permutation.
From Coquelicot Require Import Complex.
From Flocq Require Import Core.
From Verif Require Import Arith Res ListLemmas KFModel KF1Proof Spec Gauss Emb KF1R InitProof OUpd SimProof KF1Main Cx KFpModel KFpProof SpecCarma CLin KFpR KFpX KFpMain KFpTop KFpMore PyModel PyData PySim PyKFModel PyKFProof PyKFTop PyIntModel PyIntProof.
From Verif Require PropsIdent PropsKF1 PropsKFp LLBound LogLikMain PyKFSim.
Import ListNotations.
Local Open Scope R_scope.

(** Assigning a float to an element of an integer array drops the part after the decimal point; a number that is not finite raises
    (ValueError or OverflowError).  Numbers too large for a 64-bit integer are not considered. *)
Definition whole_store (store : F AX -> res (F AX)) : Prop :=
  (forall x, store (Fin x) = Ok (Fin (IZR (Ztrunc x)))) /\ (forall w, (forall x, w <> Fin x) -> store w = Throw Elogic).

(** C130: with an integer array of times each value is the whole part of a draw from the conditional law given the values
    returned before it. *)
Theorem C130_law :
  forall vsort solve store (tz : list Z) (sig : R) (om : list C) (ma : list R),
  whole_store store -> valid_vsort vsort -> valid_solve solve -> stable_roots om -> (2 <= length om)%nat -> (length ma <= length om)%nat ->
  (exists l, nth l ma 0 <> 0) -> 0 < sig -> tz <> [] -> NoDup tz ->
  exists ts, Permutation (map IZR tz) ts /\ strictly_increasing ts /\
    forall z : nat -> R, exists y,
      carma_process_i (A := AX) store (fun i => Fin (z i)) vsort solve (map Fin (map IZR tz)) (Fin sig) (map FinC om) (map Fin ma) = Ok (map Fin y, map Fin ts) /\
      length y = length ts /\ forall i, (i < length ts)%nat -> exists m v,
        0 < v /\ cond_dist (carma_cov sig ma om) (firstn i ts) (firstn i y) (repeat 0 i) (nth i ts 0) m v /\
        nth i y 0 = IZR (Ztrunc (m + sqrt v * z i)).
Proof.
  intros vsort solve store tz sig om ma Hs Hv Hsv Hst H2 Hl Hnz Hsig Hne Hnd.
  apply (process_i vsort solve store (fun x => IZR (Ztrunc x)) (map IZR tz) sig om ma (proj1 Hs) Hv Hsv Hst H2 Hl Hnz Hsig).
  - intros H. apply Hne. destruct tz; [reflexivity|discriminate].
  - clear -Hnd. induction Hnd as [|x l Hx Hl IH]; cbn [map]; constructor; [|exact IH].
    rewrite in_map_iff. intros (k & Ek & Hk). apply eq_IZR in Ek. subst k. contradiction.
Qed.
Print Assumptions C130_law.

Lemma trunc_small x : Rabs x < 1 -> Ztrunc x = 0%Z.
Proof.
  intros H. apply Rabs_def2 in H. destruct (Rle_or_lt 0 x) as [L|L].
  - rewrite Ztrunc_floor by exact L. apply Zfloor_imp. cbn. lra.
  - rewrite Ztrunc_ceil by lra. apply Zceil_imp. cbn. lra.
Qed.
Lemma repeat_0 k n : nth k (repeat 0 n) 0 = 0.
Proof. revert k. induction n as [|n IH]; intros [|k]; cbn; auto. Qed.

(** the conditional variance is at most the variance of the process, and positive *)
Lemma cond_le sig om ma ts y i m v : carma_ok sig om ma -> strictly_increasing ts -> (i < length ts)%nat ->
  cond_dist (carma_cov sig ma om) (firstn i ts) y (repeat 0 i) (nth i ts 0) m v -> v <= carma_acv sig ma om 0.
Proof.
  intros Hok Hinc Hi H. set (c0 := carma_cov sig ma om (nth i ts 0) (nth i ts 0)).
  assert (c0 = carma_acv sig ma om 0) as <- by (unfold c0, carma_cov; f_equal; rewrite Rminus_diag_eq by reflexivity; apply Rabs_R0).
  assert (length (firstn i ts) = i) as Lf by (apply firstn_length_le; lia).
  assert (strictly_increasing (firstn i ts)) as Hf.
  { intros a c Hac Hc. rewrite Lf in Hc. rewrite !KF1More.nth_firstn_lt by lia. apply Hinc; lia. }
  unfold cond_dist in H.
  eapply Rle_trans; [refine (blp_optimal _ _ _ _ _ _ _ _ _ H (fun _ => 0))|].
  - intros a c. unfold obs_cov, carma_cov. rewrite (Rabs_minus_sym (nth a (firstn i ts) 0)), (Nat.eqb_sym c a).
    destruct (Nat.eqb_spec a c) as [->|]; reflexivity.
  - apply pd_psd. apply (PropsIdent.carma_times_pd sig om ma Hok). apply strict_times_ok, Hf.
  - right. unfold mse. rewrite !Rsum_0 by (intros; try apply Rsum_0; intros; ring). fold c0. ring.
Qed.

Lemma pad_ok sig (om : list C) (ma : list R) : stable_roots om -> (2 <= length om)%nat -> (length ma <= length om)%nat -> (exists l, nth l ma 0 <> 0) -> 0 < sig ->
  carma_ok sig om (ma ++ repeat 0 (length om - length ma)).
Proof.
  intros Hst H2 Hlm (l & Hl) Hsig. split; [exact Hst|]. split; [exact H2|]. split; [rewrite app_length, repeat_length; lia|]. split; [|exact Hsig].
  exists l. destruct (Nat.lt_ge_cases l (length ma)) as [H|H]; [rewrite app_nth1 by exact H; exact Hl|]. rewrite nth_overflow in Hl by exact H. lra.
Qed.

(** Numbers drawn within one over the standard deviation of the process give the constant series 0. *)
Theorem C130_zeros :
  forall vsort solve store (tz : list Z) (sig : R) (om : list C) (ma : list R) (z : nat -> R),
  whole_store store -> valid_vsort vsort -> valid_solve solve -> stable_roots om -> (2 <= length om)%nat -> (length ma <= length om)%nat ->
  (exists l, nth l ma 0 <> 0) -> 0 < sig -> tz <> [] -> NoDup tz ->
  (forall i, (i < length tz)%nat -> sqrt (carma_acv sig ma om 0) * Rabs (z i) < 1) ->
  exists ts,
    carma_process_i (A := AX) store (fun i => Fin (z i)) vsort solve (map Fin (map IZR tz)) (Fin sig) (map FinC om) (map Fin ma) = Ok (repeat (Fin 0) (length tz), ts).
Proof.
  intros vsort solve store tz sig om ma z Hs Hv Hsv Hst H2 Hl Hnz Hsig Hne Hnd Hz.
  destruct (C130_law vsort solve store tz sig om ma Hs Hv Hsv Hst H2 Hl Hnz Hsig Hne Hnd) as (ts & Hp & Hinc & H).
  destruct (H z) as (y & E & Ly & Hy). exists (map Fin ts). rewrite E.
  assert (length ts = length tz) as Lt by (rewrite <- (Permutation_length Hp); apply map_length). rewrite <- Lt, <- Ly.
  assert (forall i, (i < length ts)%nat -> nth i y 0 = 0) as H0.
  { intros i. induction i as [i IH] using (well_founded_induction lt_wf). intros Hi.
    destruct (Hy i Hi) as (m & v & Hv0 & Hc & ->).
    assert (m = 0) as ->.
    { destruct Hc as (wt & _ & -> & _). apply Rsum_0. intros k Hk. rewrite firstn_length_le in Hk by lia.
      rewrite KF1More.nth_firstn_lt by exact Hk. rewrite IH by lia. ring. }
    assert (v <= carma_acv sig ma om 0) as Hle.
    { rewrite <- (carma_acv_pad sig ma (length om - length ma) om). eapply (cond_le sig om _ ts (firstn i y) i); [apply pad_ok; assumption|exact Hinc|exact Hi|].
      eapply cond_dist_ext; [|exact Hc]. intros. symmetry. apply carma_cov_pad. }
    rewrite trunc_small; [reflexivity|]. rewrite Rplus_0_l, Rabs_mult, (Rabs_pos_eq (sqrt v)) by apply sqrt_pos.
    eapply Rle_lt_trans; [|apply (Hz i); lia]. apply Rmult_le_compat_r; [apply Rabs_pos|]. apply sqrt_le_1_alt, Hle. }
  assert (forall l, (forall i, (i < length l)%nat -> nth i l 0 = 0) -> map Fin l = repeat (Fin 0) (length l)) as G.
  { clear. induction l as [|x l IH]; intros H; [reflexivity|]. cbn [map length repeat]. f_equal.
    - f_equal. exact (H O ltac:(cbn; lia)).
    - apply IH. intros i Hi. exact (H (S i) ltac:(cbn; lia)). }
  refine (f_equal (fun l => Ok (l, map Fin ts)) (G y _)). intros i Hi. apply H0. lia.
Qed.
Print Assumptions C130_zeros.

Lemma Rsum_one c k n : (k < n)%nat -> forall f : nat -> R, Rsum (fun j => f j * (if Nat.eqb j k then c else 0)) n = f k * c.
Proof.
  induction n as [|n IH]; intros H f; [lia|]. cbn [Rsum]. destruct (Nat.eq_dec k n) as [->|Hne].
  - rewrite Nat.eqb_refl, Rsum_0; [ring|]. intros j Hj. destruct (Nat.eqb_spec j n); [lia|ring].
  - rewrite IH by lia. destruct (Nat.eqb_spec n k); [lia|]. ring.
Qed.

(** False for integer times, of every input: that the series is L z for the standard normal numbers z drawn, with L L^T the covariance
    matrix of the process (C57 proves it for the same times given as floats). *)
Theorem C130_covariance_refuted :
  forall vsort solve store (tz : list Z) (sig : R) (om : list C) (ma : list R),
  whole_store store -> valid_vsort vsort -> valid_solve solve -> stable_roots om -> (2 <= length om)%nat -> (length ma <= length om)%nat ->
  (exists l, nth l ma 0 <> 0) -> 0 < sig -> tz <> [] -> NoDup tz ->
  ~ exists ts (L : nat -> nat -> R),
    (forall i j, (i < length ts)%nat -> (j < length ts)%nat -> Rsum (fun k => L i k * L j k) (length ts) = carma_cov sig ma om (nth i ts 0) (nth j ts 0)) /\
    forall z : nat -> R, exists y,
      carma_process_i (A := AX) store (fun i => Fin (z i)) vsort solve (map Fin (map IZR tz)) (Fin sig) (map FinC om) (map Fin ma) = Ok (map Fin y, map Fin ts) /\
      length y = length ts /\ forall i, (i < length ts)%nat -> nth i y 0 = Rsum (fun k => L i k * z k) (length ts).
Proof.
  intros vsort solve store tz sig om ma Hs Hv Hsv Hst H2 Hl Hnz Hsig Hne Hnd (ts & L & LL & H).
  assert (0 < carma_acv sig ma om 0) as Hpos.
  { rewrite <- (carma_acv_pad sig ma (length om - length ma) om).
    destruct (C130_law vsort solve store tz sig om ma Hs Hv Hsv Hst H2 Hl Hnz Hsig Hne Hnd) as (ts1 & Hp & Hinc & H1).
    destruct (H1 (fun _ => 0)) as (y & _ & Ly & Hy).
    assert (0 < length ts1)%nat as L1. { rewrite <- (Permutation_length Hp), map_length. destruct tz; [contradiction|cbn; lia]. }
    destruct (Hy O L1) as (m & v & Hv0 & Hc & _). eapply Rlt_le_trans; [exact Hv0|].
    eapply (cond_le sig om _ ts1 (firstn 0 y) 0 m v); [apply pad_ok; assumption|exact Hinc|exact L1|].
    eapply cond_dist_ext; [|exact Hc]. intros. symmetry. apply carma_cov_pad. }
  set (s := sqrt (carma_acv sig ma om 0)) in *. assert (0 < s) as Hs0 by (apply sqrt_lt_R0, Hpos).
  set (c := / (2 * s)). assert (0 < c) as Hc by (apply Rinv_0_lt_compat; lra).
  assert (length tz = length ts) as Lt.
  { destruct (H (fun _ => 0)) as (y & E & Ly & _).
    destruct (C130_law vsort solve store tz sig om ma Hs Hv Hsv Hst H2 Hl Hnz Hsig Hne Hnd) as (ts1 & Hp & _ & H1).
    destruct (H1 (fun _ => 0)) as (y1 & E1 & _). rewrite E in E1. injection E1 as _ E2.
    rewrite <- (map_length (B := xr) Fin ts), E2, map_length, <- (Permutation_length Hp). symmetry. apply map_length. }
  assert (0 < length ts)%nat as L0 by (destruct tz; [contradiction|cbn in Lt; lia]).
  assert (forall k, (k < length ts)%nat -> L O k = 0) as HL.
  { intros k Hk. set (z := fun j => if Nat.eqb j k then c else 0).
    destruct (C130_zeros vsort solve store tz sig om ma z Hs Hv Hsv Hst H2 Hl Hnz Hsig Hne Hnd) as (ts1 & E1).
    { intros i _. fold s. unfold z. destruct (Nat.eqb i k); [|rewrite Rabs_R0; lra]. rewrite Rabs_pos_eq by lra. unfold c. field_simplify; lra. }
    destruct (H z) as (y & E & Ly & Hy). rewrite E in E1. injection E1 as E1 _.
    pose proof (Hy O L0) as Hy0. unfold z in Hy0. rewrite (Rsum_one c k (length ts) Hk (L O)) in Hy0.
    assert (nth 0 y 0 = 0) as E0.
    { destruct y as [|y0 y']; [reflexivity|]. rewrite Lt, <- Ly in E1. cbn [map length repeat] in E1. injection E1 as E1 _. exact E1. }
    rewrite E0 in Hy0. apply (Rmult_eq_reg_r c); lra. }
  specialize (LL O O L0 L0). rewrite Rsum_0 in LL by (intros k Hk; rewrite HL by exact Hk; ring).
  unfold carma_cov in LL. rewrite Rminus_diag_eq, Rabs_R0 in LL by reflexivity. lra.
Qed.
Print Assumptions C130_covariance_refuted.

(** A process of order one is not affected: for integer times in non-decreasing order the series is L z. *)
Theorem C130_order_one :
  forall vsort solve store (tz : list Z) (sig w : R),
  0 < sig -> 0 < w -> tz <> [] -> nondecreasing (map IZR tz) ->
  exists L : nat -> nat -> R,
    (forall i j, (i < length tz)%nat -> (j < length tz)%nat ->
       Rsum (fun k => L i k * L j k) (length tz) = ou_cov sig w (IZR (nth i tz 0%Z)) (IZR (nth j tz 0%Z))) /\
    forall z : nat -> R, exists y,
      carma_process_i (A := AX) store (fun i => Fin (z i)) vsort solve (map Fin (map IZR tz)) (Fin sig) [FinC (- w, 0)] [Fin 1] = Ok (map Fin y, map Fin (map IZR tz)) /\
      length y = length tz /\ forall i, (i < length tz)%nat -> nth i y 0 = Rsum (fun k => L i k * z k) (length tz).
Proof.
  intros vsort solve store tz sig w Hsig Hw Hne Hnd.
  destruct (car1_process_exact sig (1 / w) Hsig ltac:(apply Rdiv_lt_0_compat; lra) (map IZR tz)) as (L & LL & H).
  - intros E. apply Hne. destruct tz; [reflexivity|discriminate].
  - exact Hnd.
  - rewrite map_length in *. exists L. split.
    + intros i j Hi Hj. rewrite LL by assumption. replace (1 / (1 / w)) with w by (field; lra).
      rewrite !(map_nth IZR tz 0%Z). reflexivity.
    + intros z. destruct (H z) as (y & E & Ly & Hy). exists y. split; [|split; [exact Ly|exact Hy]].
      unfold carma_process_i. cbn [length Nat.eqb]. unfold vnth, nth, FinC. cbn [fst].
      replace (fdiv AX (fneg AX (fofZ AX 1)) (Fin (- w))) with (Fin (1 / w) : F AX); [change (F AX) with xr in *; rewrite E; reflexivity|].
      cbn. destruct (Req_EM_T (- w) 0) as [E0|E0]; [exfalso; lra|]. f_equal. field. lra.
Qed.
Print Assumptions C130_order_one.

(** ** KalmanFilterDeprecated *)
Section Filter.
Variable A : Arith.
Variable store : F A -> res (F A).
Variable solve : list (list (cx A)) -> list (cx A) -> option (list (cx A)).
Variable empty : nat -> F A.
Let stored (x : F A) : Prop := exists w, store w = Ok x.

Definition inv n c (d : dkf A) m0 v0 : Prop :=
  length (d_mean d) = n /\ length (d_var d) = n /\ d_cur d = c /\ (1 <= c)%nat /\
  (forall i x, (i < c)%nat -> stored (nth i (d_mean d) x) /\ stored (nth i (d_var d) x)) /\
  forall x, nth 0 (d_mean d) x = m0 /\ nth 0 (d_var d) x = v0.

Lemma upd_nth_eq T (l : list T) i v x : (i < length l)%nat -> nth i (upd l i v) x = v.
Proof. revert i. induction l as [|a l IH]; intros [|i] H; cbn in *; try lia; [reflexivity|]. apply IH. lia. Qed.
Lemma upd_nth_ne T (l : list T) i j v x : i <> j -> nth j (upd l i v) x = nth j l x.
Proof. revert i j. induction l as [|a l IH]; intros [|i] [|j] H; cbn; try lia; try reflexivity. apply IH. lia. Qed.
Lemma upd_len T (l : list T) i v : length (upd l i v) = length l.
Proof. revert i. induction l as [|a l IH]; intros [|i]; cbn; congruence. Qed.
Lemma vset_inv T (l : list T) i v l' : vset l i v = Ok l' -> (i < length l)%nat /\ l' = upd l i v.
Proof. unfold vset. destruct (Nat.ltb_spec i (length l)); intros H1; [|discriminate]. injection H1 as <-. auto. Qed.

Lemma step_inv n c d d' m0 v0 : inv n c d m0 v0 -> i_update store d = Ok d' -> inv n (S c) d' m0 v0.
Proof.
  intros (L4 & L5 & Ec & Hc & Hst & H0) H. unfold i_update in H. rewrite Ec in H.
  apply bind_Ok in H. destruct H as (b & _ & H). apply bind_Ok in H. destruct H as (vb & _ & H).
  apply bind_Ok in H. destruct H as (tc & _ & H). apply bind_Ok in H. destruct H as (tb & _ & H).
  apply bind_Ok in H. destruct H as (m & Em & H). apply bind_Ok in H. destruct H as (mean & Emean & H).
  apply bind_Ok in H. destruct H as (q & _ & H). apply bind_Ok in H. destruct H as (var1 & Evar1 & H).
  apply bind_Ok in H. destruct H as (v1 & _ & H). apply bind_Ok in H. destruct H as (yv & _ & H).
  apply bind_Ok in H. destruct H as (v2 & Ev2 & H). apply bind_Ok in H. destruct H as (var & Evar & H).
  apply bind_Ok in H. destruct H as (yc & _ & H). apply bind_Ok in H. destruct H as (mc & _ & H). injection H as <-.
  apply vset_inv in Emean, Evar1, Evar. destruct Emean as (N1 & ->), Evar1 as (N2 & ->), Evar as (N3 & ->).
  unfold inv. cbn [d_mean d_var d_cur]. rewrite !upd_len.
  split; [exact L4|]. split; [exact L5|]. split; [reflexivity|]. split; [lia|]. split.
  - intros i x Hi. destruct (Nat.eq_dec i c) as [->|Hne].
    + rewrite !upd_nth_eq by assumption. split; eexists; eassumption.
    + rewrite !upd_nth_ne by lia. apply Hst. lia.
  - intros x. rewrite !upd_nth_ne by lia. apply H0.
Qed.

Lemma steps_inv k : forall n c d d' m0 v0 a, inv n c d m0 v0 -> for_ a k (fun _ s => i_update store s) d = Ok d' -> inv n (c + k) d' m0 v0.
Proof.
  induction k as [|k IH]; intros n c d d' m0 v0 a H E.
  - injection E as <-. rewrite Nat.add_0_r. exact H.
  - cbn [for_] in E. apply bind_Ok in E. destruct E as (d1 & E1 & E). replace (c + S k)%nat with (S c + k)%nat by lia.
    exact (IH n (S c) d1 d' m0 v0 (S a) (step_inv _ _ _ _ _ _ H E1) E).
Qed.

Lemma reset_inv d d' : i_reset store solve empty d = Ok d' -> exists J m0 v0, inv (length (d_time d)) 1 d' m0 v0 /\
  solve (EigenMat (d_roots d)) (Rvector A (length (d_roots d))) = Some J /\ (2 <= length (d_roots d))%nat /\ store (fofZ A 0) = Ok m0 /\
  store (fadd A (quadf (length (d_roots d)) (rotated (d_roots d) (d_ma d)) (dStateVar (d_sig d) (d_roots d) J)) (nth 0 (d_yvar d) (fofZ A 0))) = Ok v0.
Proof.
  unfold i_reset. destruct (Nat.ltb_spec (length (d_roots d)) 2) as [|Hp]; [discriminate|]. destruct (solve _ _) as [J|] eqn:EJ; [|discriminate].
  destruct (negb _); [discriminate|]. intros H.
  apply bind_Ok in H. destruct H as (m0 & Em0 & H). apply bind_Ok in H. destruct H as (mean & Emean & H).
  apply bind_Ok in H. destruct H as (yv & Eyv & H). apply bind_Ok in H. destruct H as (v0 & Ev0 & H).
  apply bind_Ok in H. destruct H as (var & Evar & H). apply bind_Ok in H. destruct H as (y0 & _ & H). injection H as <-.
  apply vset_inv in Emean, Evar. destruct Emean as (N1 & ->), Evar as (N2 & ->).
  exists J, m0, v0. split; [|split; [reflexivity|split; [exact Hp|split; [exact Em0|]]]].
  - unfold inv. cbn [d_mean d_var d_cur]. rewrite !upd_len, map_length, seq_length.
    split; [reflexivity|]. split; [reflexivity|]. split; [reflexivity|]. split; [lia|]. split.
    + intros i x Hi. replace i with O by lia. rewrite !upd_nth_eq by assumption. split; eexists; eassumption.
    + intros x. rewrite !upd_nth_eq by assumption. split; reflexivity.
  - rewrite <- Ev0. do 2 f_equal. destruct (d_yvar d) as [|w l]; [discriminate|]. injection Eyv as ->. reflexivity.
Qed.
End Filter.

(** the variance of the process, as reset() computes it *)
Lemma first_var solve sig om ma J : valid_solve solve -> carma_ok sig om ma ->
  solve (EigenMat (map FinC om)) (Rvector AX (length (map FinC om))) = Some J ->
  quadf (length (map FinC om)) (rotated (map FinC om) (map Fin ma : list (F AX))) (dStateVar (Fin sig : F AX) (map FinC om) J) = Fin (carma_acv sig ma om 0).
Proof.
  intros Hsv Hok E. destruct (solve_ok solve Hsv sig om ma Hok) as (J1 & EJ & HlJ & HJ). rewrite EJ in E. injection E as <-.
  unfold dStateVar. rewrite !map_length.
  assert (strictly_increasing [0]) as Hinc by (intros i j Hij Hj; cbn in Hj; lia).
  refine (eq_trans (quadf_fin (length om) _ _ (b_rep om ma) _ _ (sv_rep sig om ma Hok J1 HlJ)) _).
  refine (eq_trans (f_equal Fin (eq_sym (vf_quad sig om ma J1 [0] 0))) _). f_equal.
  destruct (wt_facts sig om ma Hok J1 HlJ HJ [0] Hinc 0 ltac:(cbn; lia)) as (_ & W).
  refine (eq_trans W _). cbn [Rsum nth]. rewrite Rminus_0_r. unfold carma_cov. f_equal. rewrite Rminus_diag_eq by reflexivity. apply Rabs_R0.
Qed.

(** filter with an integer array of times, if it returns: every mean and every variance is a whole number, and the first variance is
    the whole part of the right one. *)
Theorem C130_filter_whole :
  forall store solve empty (tz : list Z) (y v : list R) (sig : R) (om : list C) (ma : list R) d ml vl d',
  whole_store store -> valid_solve solve -> length v = length tz -> tz <> [] ->
  stable_roots om -> (2 <= length om)%nat -> (length ma <= length om)%nat -> (exists c, In c ma /\ c <> 0) -> 0 < sig ->
  d_new (A := AX) (map Fin (map IZR tz)) (map Fin y) (map Fin v) (Fin sig : F AX) (map FinC om) (map Fin ma) = Ok d ->
  i_filter (A := AX) store solve empty d = Ok ((ml, vl), d') ->
  length ml = length tz /\ length vl = length tz /\
  (forall i, (i < length tz)%nat -> exists a b : Z, nth i ml NaN = Fin (IZR a) /\ nth i vl NaN = Fin (IZR b)) /\
  nth 0 ml NaN = Fin 0 /\ nth 0 vl NaN = Fin (IZR (Ztrunc (carma_acv sig ma om 0 + nth 0 v 0))).
Proof.
  intros store solve empty tz y v sig om ma d ml vl d' (Hs1 & Hs2) Hsv Hv Hne Hst H2 Hl Hc Hsig Ed EF.
  destruct (PyKFSim.new_holdsd (map IZR tz) y v sig om ma Hst H2 Hl Hc Hsig) as (d0 & Ed0 & Hd & Hok). rewrite Ed in Ed0. injection Ed0 as <-.
  destruct Hd as (E1 & E2 & E3 & E4 & E5 & E6).
  unfold i_filter in EF. apply bind_Ok in EF. destruct EF as (d1 & Er & EF). apply bind_Ok in EF. destruct EF as (d2 & El & EF).
  injection EF as <- <- <-. destruct (reset_inv _ _ _ _ _ _ Er) as (J & m0 & v0 & Hi & EJ & _ & Em & Ev).
  pose proof (steps_inv _ _ _ _ _ _ _ _ _ _ Hi El) as (L1 & L2 & _ & _ & Hall & H0).
  assert (length (d_time d) = length tz) as Ln by (rewrite E1; change (F AX) with xr; rewrite !map_length; reflexivity).
  assert (1 <= length tz)%nat as Hn by (destruct tz; [contradiction|cbn; lia]).
  split; [congruence|]. split; [congruence|]. split.
  - intros i Hi'. destruct (Hall i NaN ltac:(lia)) as ((w & Ew) & (w' & Ew')).
    assert (forall w x, store w = Ok x -> exists k : Z, x = Fin (IZR k)) as Hw.
    { intros u x Eu. destruct u as [u| | |]; [rewrite Hs1 in Eu; injection Eu as <-; eexists; reflexivity|..]; rewrite Hs2 in Eu by discriminate; discriminate. }
    destruct (Hw _ _ Ew) as (a & Ea), (Hw _ _ Ew') as (b & Eb). exists a, b. split; assumption.
  - destruct (H0 NaN) as (-> & ->). split.
    + change (fofZ AX 0) with (Fin 0) in Em. rewrite Hs1 in Em. injection Em as <-. rewrite trunc_small by (rewrite Rabs_R0; lra). reflexivity.
    + rewrite E3, E4, E5, E6 in Ev. rewrite E5 in EJ. rewrite (first_var solve sig om _ J Hsv Hok EJ) in Ev. rewrite carma_acv_pad in Ev.
      assert (@nth (F AX) 0 (map Fin v) (fofZ AX 0) = Fin (nth 0 v 0)) as En by (destruct v; reflexivity).
      change (F AX) with xr in *. rewrite En in Ev. change (fadd AX (Fin (carma_acv sig ma om 0)) (Fin (nth 0 v 0))) with (Fin (carma_acv sig ma om 0 + nth 0 v 0)) in Ev.
      rewrite Hs1 in Ev. injection Ev as <-. reflexivity.
Qed.
Print Assumptions C130_filter_whole.

(** numbers that are not finite stay so *)
Definition nonfin (x : xr) : Prop := forall r, x <> Fin r.
Lemma nf_add_l a b : nonfin a -> nonfin (xadd a b).
Proof. intros H r. destruct a as [u| | |]; [destruct (H u eq_refl)|..]; destruct b; discriminate. Qed.
Lemma nf_add_r a b : nonfin b -> nonfin (xadd a b).
Proof. intros H r. destruct b as [u| | |]; [destruct (H u eq_refl)|..]; destruct a; discriminate. Qed.
Lemma nf_sub_l a b : nonfin a -> nonfin (xsub a b).
Proof. intros H r. destruct a as [u| | |]; [destruct (H u eq_refl)|..]; destruct b; discriminate. Qed.
Lemma nf_times p c : nonfin (xinf_times p c).
Proof. intros r. destruct p, c; discriminate. Qed.
Lemma nf_mul_l a b : nonfin a -> nonfin (xmul a b).
Proof. intros H r. destruct a as [u| | |]; [destruct (H u eq_refl)|..]; destruct b; try discriminate; apply nf_times. Qed.
Lemma nf_mul_r a b : nonfin b -> nonfin (xmul a b).
Proof. intros H r. destruct b as [u| | |]; [destruct (H u eq_refl)|..]; destruct a; try discriminate; apply nf_times. Qed.
Lemma nf_div0 a : nonfin (xdiv a (Fin 0)).
Proof. intros r. destruct a; cbn; try discriminate; [destruct (Req_EM_T 0 0); [apply nf_times|lra]|..]; destruct (rsgn 0); discriminate. Qed.

(** filter raises if the variances of the process and of the first measurement have a sum less than 1 and there are two measurements
    or more: the first variance stored is 0, and the second mean is not a number. *)
Theorem C130_filter_raises :
  forall store solve empty (tz : list Z) (y v : list R) (sig : R) (om : list C) (ma : list R),
  whole_store store -> valid_solve solve -> length y = length tz -> length v = length tz -> (2 <= length tz)%nat ->
  stable_roots om -> (2 <= length om)%nat -> (length ma <= length om)%nat -> (exists c, In c ma /\ c <> 0) -> 0 < sig ->
  0 <= nth 0 v 0 -> carma_acv sig ma om 0 + nth 0 v 0 < 1 ->
  exists d, d_new (A := AX) (map Fin (map IZR tz)) (map Fin y) (map Fin v) (Fin sig : F AX) (map FinC om) (map Fin ma) = Ok d /\
    i_filter (A := AX) store solve empty d = Throw Elogic.
Proof.
  intros store solve empty tz y v sig om ma (Hs1 & Hs2) Hsv Hy Hv Hn Hst H2 Hl Hc Hsig Hv0 Hlt.
  destruct (PyKFSim.new_holdsd (map IZR tz) y v sig om ma Hst H2 Hl Hc Hsig) as (d & Ed & Hd & Hok).
  exists d. split; [exact Ed|]. destruct Hd as (E1 & E2 & E3 & E4 & E5 & E6).
  destruct (solve_ok solve Hsv sig om _ Hok) as (J & EJ & HlJ & HJ).
  assert (0 < carma_acv sig ma om 0) as Hpos.
  { rewrite <- (carma_acv_pad sig ma (length om - length ma) om). destruct Hok as (K1 & K2 & K3 & K4 & K5). rewrite LogLikMain.carma_acv_scale. apply Rmult_lt_0_compat; [assumption|]. apply LogLikMain.carma_acv_pos; assumption. }
  assert (@length (F AX) (d_time d) = length tz) as L1 by (rewrite E1; change (F AX) with xr; rewrite !map_length; reflexivity).
  assert (@length (F AX) (d_y d) = length tz) as L2 by (rewrite E2; change (F AX) with xr; rewrite map_length; assumption).
  assert (@length (F AX) (d_yvar d) = length tz) as L3 by (rewrite E3; change (F AX) with xr; rewrite map_length; assumption).
  assert (length (d_roots d) = length om) as Lr by (rewrite E5; apply map_length).
  assert (@length (F AX) (d_ma d) = length om) as Lm by (rewrite E6; change (F AX) with xr; rewrite map_length; apply Hok).
  assert (store (Fin 0) = Ok (Fin 0)) as S0 by (rewrite Hs1, trunc_small by (rewrite Rabs_R0; lra); reflexivity).
  set (junk := map empty (seq 0 (length tz))). assert (length junk = length tz) as Lj by (unfold junk; rewrite map_length, seq_length; reflexivity).
  assert (exists d1, i_reset (A := AX) store solve empty d = Ok d1 /\ d_time d1 = d_time d /\ d_roots d1 = d_roots d /\ d_cur d1 = 1%nat /\ d_var d1 = upd junk 0 (Fin 0)) as (d1 & Er & T1 & R1 & C1 & V1).
  { unfold i_reset. rewrite Lr. destruct (Nat.ltb_spec (length om) 2); [lia|]. rewrite E5. rewrite map_length in EJ. rewrite EJ.
    rewrite Lm, Nat.eqb_refl. cbn [negb]. change (fofZ AX 0) with (Fin 0). rewrite S0. cbn [bind]. rewrite L1. fold junk.
    rewrite vset_ok by lia. cbn [bind]. rewrite (@vget_ok (F AX) (d_yvar d) 0 (Fin 0)) by lia. cbn [bind].
    rewrite E3, E4, E6. pose proof (first_var solve sig om _ (map FinC J) Hsv Hok) as Q. rewrite map_length in Q. rewrite (Q EJ), carma_acv_pad.
    assert (@nth (F AX) 0 (map Fin v) (Fin 0) = Fin (nth 0 v 0)) as -> by (destruct v; reflexivity).
    change (fadd AX (Fin (carma_acv sig ma om 0)) (Fin (nth 0 v 0))) with (Fin (carma_acv sig ma om 0 + nth 0 v 0)).
    rewrite Hs1, trunc_small by (rewrite Rabs_pos_eq; lra). cbn [bind]. rewrite vset_ok by lia. cbn [bind].
    rewrite (@vget_ok (F AX) (d_y d) 0 (Fin 0)) by lia. cbn [bind]. eexists. split; [reflexivity|]. cbn [d_time d_roots d_cur d_var]. auto. }
  unfold i_filter. rewrite Er. cbn [bind]. rewrite L1.
  destruct (length tz) as [|[|n]] eqn:En; [lia|lia|]. cbn [Nat.sub for_].
  assert (i_update (A := AX) store d1 = Throw Elogic) as ->; [|reflexivity].
  unfold i_update. rewrite C1. cbn [idxm1 bind]. rewrite V1.
  rewrite (@vget_ok (F AX) (upd junk 0 (Fin 0)) 0 (Fin 0)) by (rewrite upd_len; lia). cbn [bind]. rewrite upd_nth_eq by lia.
  rewrite T1. rewrite (@vget_ok (F AX) (d_time d) 1 (Fin 0)), (@vget_ok (F AX) (d_time d) 0 (Fin 0)) by lia. cbn [bind]. rewrite R1, Lr.
  rewrite Hs2; [reflexivity|].
  set (dt := fsub AX _ _). set (st := d_state d1). set (b := d_rma d1). set (PV := d_PV d1). set (inn := d_innov d1). set (rr := rhof _ _ _).
  assert (exists k, length om = S k) as (k & Ek) by (destruct (length om); [lia|eexists; reflexivity]). rewrite Ek.
  unfold linf. cbn [csum]. change (nonfin (fst (cadd (csum (fun i => cmul (vnth b i) (vnth (schur (S k) rr (axpy (S k) st (gainf (S k) b PV (Fin 0)) inn)) i)) k)
    (cmul (vnth b k) (vnth (schur (S k) rr (axpy (S k) st (gainf (S k) b PV (Fin 0)) inn)) k))))).
  assert (nonfin (fst (vnth (schur (S k) rr (axpy (S k) st (gainf (S k) b PV (Fin 0)) inn)) k))) as N.
  { unfold schur, vnth at 1. rewrite vbuild_nth by lia. cbn [cmul fst]. apply nf_sub_l, nf_mul_r.
    unfold axpy, vnth at 1. rewrite vbuild_nth by lia. cbn [cadd fst]. apply nf_add_r. cbn [cscale fst]. apply nf_mul_r.
    unfold gainf, vnth at 1. rewrite vbuild_nth by lia. apply nf_div0. }
  cbn [cadd fst]. apply nf_add_r. cbn [cmul fst]. apply nf_sub_l, nf_mul_r, N.
Qed.
Print Assumptions C130_filter_raises.

(** *** The hypotheses are met *)
Definition to_whole (w : F AX) : res (F AX) := match w with Fin x => Ok (Fin (IZR (Ztrunc x))) | _ => Throw Elogic end.
Lemma to_whole_ok : whole_store to_whole.
Proof. split; [reflexivity|]. intros [x| | |] H; try reflexivity. destruct (H x eq_refl). Qed.

(** The times 2, 0, 1 in integers: the order-two process with roots -1+i and -1-i and a variance of 1/2, numbers drawn of absolute value at
    most 1, gives 0, 0, 0, and its filter raises. *)
Example C130_hypotheses_met : exists vsort solve sig,
  valid_vsort vsort /\ valid_solve solve /\ 0 < sig /\ carma_acv sig [1] PropsKFp.omE 0 = 1 / 2 /\
  (forall z, (forall i, Rabs (z i) <= 1) -> exists ts,
     carma_process_i (A := AX) to_whole (fun i => Fin (z i)) vsort solve (map Fin (map IZR [2; 0; 1]%Z)) (Fin sig) (map FinC PropsKFp.omE) [Fin 1] = Ok ([Fin 0; Fin 0; Fin 0], ts)) /\
  exists d, d_new (A := AX) (map Fin (map IZR [0; 1]%Z)) (map Fin [5; 6]) (map Fin [1 / 4; 1 / 4]) (Fin sig : F AX) (map FinC PropsKFp.omE) [Fin 1] = Ok d /\
    i_filter (A := AX) to_whole solve (fun _ => Fin 0) d = Throw Elogic.
Proof.
  destruct valid_solve_exists as (solve & Hsv). destruct PropsKF1.ex_valid_vsort as (vsort & Hvs).
  set (a := carma_acv 1 [1] PropsKFp.omE 0). assert (0 < a) as Ha.
  { unfold a. rewrite <- (carma_acv_pad 1 [1] 1 PropsKFp.omE). apply LogLikMain.carma_acv_pos; [exact PropsKFp.ex_stable|cbn; lia|reflexivity|exists O; cbn; lra]. }
  exists vsort, solve, (/ (2 * a)). assert (0 < / (2 * a)) as Hs by (apply Rinv_0_lt_compat; lra).
  assert (carma_acv (/ (2 * a)) [1] PropsKFp.omE 0 = 1 / 2) as Eh by (rewrite LogLikMain.carma_acv_scale; fold a; field; lra).
  split; [exact Hvs|]. split; [exact Hsv|]. split; [exact Hs|]. split; [exact Eh|]. split.
  - intros z Hz. apply (C130_zeros vsort solve to_whole [2; 0; 1]%Z (/ (2 * a)) PropsKFp.omE [1] z to_whole_ok Hvs Hsv PropsKFp.ex_stable).
    + cbn; lia.
    + cbn; lia.
    + exists O. cbn. lra.
    + exact Hs.
    + discriminate.
    + repeat constructor; cbn; lia.
    + intros i _. rewrite Eh. assert (sqrt (1 / 2) < 1) as H1 by (pose proof (sqrt_lt_1_alt (1 / 2) 1 ltac:(lra)) as H1; rewrite sqrt_1 in H1; exact H1).
      pose proof (Hz i) as H2. pose proof (Rabs_pos (z i)) as H3. pose proof (sqrt_pos (1 / 2)) as H4.
      eapply Rle_lt_trans; [apply (Rmult_le_compat_l _ _ 1); [exact H4|exact H2]|]. lra.
  - apply (C130_filter_raises to_whole solve (fun _ => Fin 0) [0; 1]%Z [5; 6] [1 / 4; 1 / 4] (/ (2 * a)) PropsKFp.omE [1] to_whole_ok Hsv eq_refl eq_refl); try (cbn; lia).
    + exact PropsKFp.ex_stable.
    + exists 1. split; [left; reflexivity|lra].
    + exact Hs.
    + cbn. lra.
    + rewrite Eh. cbn. lra.
Qed.
