(** The value of LogDensity for each class after any history, and the counterexamples C26, C31, C32. *)
From Coq Require Import Reals List Arith ZArith Lra Lia Bool Permutation.
From Coquelicot Require Import Complex.
From Verif Require Import Arith Res ListLemmas KFModel Spec Gauss Emb History InitProof KF1R OUpd KF1X KF1Main KF1More.
From Verif Require Import Cx KFpModel KFpProof SpecCarma CLin KFpR KFpX KFpMain KFpTop KFpMore SpecModel CarpackModel RootsProof PriorProof LogLikProof LogLikMain CarpackTop.
Import ListNotations.
Local Open Scope R_scope.

(** ** Histories *)
Lemma holds_touched1 (b b' : base AX (F AX)) t y e bd : base_holds b t y e bd -> touched (car1_cls AX) (@setpar1 AX) b b' ->
  base_holds b' t y e bd.
Proof.
  intros (Hw & H1 & H2 & H3 & H4 & H5) Ht.
  destruct (@touched_static _ _ _ _ (car1_cls AX) (fun x => x) (fun om (_ : list (F AX)) => om) (@good1 AX) (@pf1 AX) (pureF1 AX) (@good_data1 AX) (@Hset1 AX)
           (@setpar1 AX) (@pp1 AX) (pureP1 AX) (@setpar_ok1 AX) b b' Hw I Ht) as (Es & Hw' & _).
  split; [exact Hw'|].
  pose proof (f_equal (@st_time _) Es) as S1. pose proof (f_equal (@st_y _) Es) as S2. pose proof (f_equal (@st_yerr _) Es) as S3.
  pose proof (f_equal (@st_ktime _) Es) as S4. pose proof (f_equal (@st_bounds _) Es) as S5. split; [exact (eq_trans S1 H1)|]. split; [exact (eq_trans S2 H2)|].
  split; [exact (eq_trans S3 H3)|]. split; [exact (eq_trans S4 H4)|exact (eq_trans S5 H5)].
Qed.
Lemma holds_touchedp solve p maf prior (b b' : base AX (kpx AX)) t y e bd : base_holds b t y e bd -> goodp (b_kf b) ->
  touched (pcls solve p maf prior) (@setparp AX) b b' -> base_holds b' t y e bd.
Proof.
  intros (Hw & H1 & H2 & H3 & H4 & H5) Hg Ht.
  destruct (@touched_static _ _ _ _ (pcls solve p maf prior) (@par_of AX) (fun om ma => (om, ma)) (@goodp AX) (@pfp AX solve) (pureFp solve) (@good_datap AX)
           (@Hsetp AX solve p maf prior) (@setparp AX) (@ppp AX solve) (purePp solve) (@setpar_okp AX) b b' Hw Hg Ht) as (Es & Hw' & _).
  split; [exact Hw'|].
  pose proof (f_equal (@st_time _) Es) as S1. pose proof (f_equal (@st_y _) Es) as S2. pose proof (f_equal (@st_yerr _) Es) as S3.
  pose proof (f_equal (@st_ktime _) Es) as S4. pose proof (f_equal (@st_bounds _) Es) as S5. split; [exact (eq_trans S1 H1)|]. split; [exact (eq_trans S2 H2)|].
  split; [exact (eq_trans S3 H3)|]. split; [exact (eq_trans S4 H4)|exact (eq_trans S5 H5)].
Qed.

Lemma carp_ma_Fin p : carp_ma AX p = map Fin (upd (repeat 0 p) 0 1).
Proof.
  unfold carp_ma, zeros. destruct p as [|p]; [reflexivity|]. cbn [repeat upd map].
  f_equal. induction p as [|p IH]; [reflexivity|]. cbn [repeat map]. f_equal. exact IH.
Qed.
Lemma Csum_first (f : nat -> C) n : (forall k, f (S k) = RtoC 0) -> Csum f (S n) = f O.
Proof. intros H. induction n as [|n IH]; [cbn; ring|]. change (Csum f (S (S n))) with (Cplus (Csum f (S n)) (f (S n))). rewrite IH, H. ring. Qed.
Lemma carp_ma_poly p z : (1 <= p)%nat -> ma_poly (upd (repeat 0 p) 0 1) z = RtoC 1.
Proof.
  intros Hp. unfold ma_poly. destruct p as [|p]; [lia|]. cbn [repeat upd length]. rewrite Csum_first; [cbn; ring|].
  intros k. cbn [nth]. rewrite nth_repeat. ring.
Qed.
Lemma carp_ma_len p : length (upd (repeat 0 p) 0 1) = p.
Proof. destruct p; [reflexivity|]. cbn [repeat upd length]. rewrite repeat_length. reflexivity. Qed.
Lemma carp_ma_nz p : (1 <= p)%nat -> exists l, nth l (upd (repeat 0 p) 0 1) 0 <> 0.
Proof. intros H. exists O. destruct p; [lia|]. cbn. lra. Qed.

(** the autoregressive roots as the code computes them *)
Lemma roots_of p th : (3 + p <= length th)%nat -> exists om : list C, ARRoots AX p (map Fin th) = Ok (map FinC om) /\
  length om = p /\ (forall r, In r om -> fst r < 0) /\ conj_closed om /\ (forall s, roots_poly om s = quad_poly th 3 p s) /\
  forall smax fmin fmax, exists ok, CheckPriorBoundsp p (mkB AX (Fin smax) (Fin fmax) (Fin fmin) false) (map Fin th) = Ok ok /\
     (ok = true <-> in_prior smax fmin fmax th om).
Proof.
  intros HL. destruct (ARRoots_main p th HL) as (om & E & H1 & H2 & H3 & H4). exists om. repeat split; try assumption; try apply H4.
  intros smax fmin fmax. destruct (CheckPriorBoundsp_main p smax fmin fmax th HL) as (om' & E' & ok & Hok).
  rewrite E in E'. injection E' as E'. exists ok.
  assert (om' = om) as <-; [|exact Hok]. clear - E'. revert om' E'. induction om as [|a l IH]; intros [|a' l'] E0; try discriminate; [reflexivity|].
  cbn [map] in E0. injection E0 as E1 E2 E3. f_equal; [|apply IH, E3]. apply C_eq; congruence.
Qed.

(** every class of order p >= 2, with the prior on and off *)
Lemma LDp_all solve p maf prior (b : base AX (kpx AX)) (t y e th ma : list R) (om : list C) smax fmin fmax ign pr :
  valid_solve solve -> base_holds b t y e (mkB AX (Fin smax) (Fin fmax) (Fin fmin) ign) -> strictly_increasing t ->
  (2 <= p)%nat -> (3 + p <= length th)%nat -> maf (map Fin th) = Ok (map Fin ma) -> length ma = p -> (exists l, nth l ma 0 <> 0) ->
  (0 < nth 1 th 0 -> prior (map Fin th) = Ok (Fin pr)) -> ARRoots AX p (map Fin th) = Ok (map FinC om) ->
  (ign = false -> in_prior smax fmin fmax th om) -> (ign = true -> NoDup om) -> nth 0 th 0 <> 0 -> 0 < nth 1 th 0 ->
  exists x b', LogDensity (pcls solve p maf prior) b (map Fin th) = Ok (Fin (x + pr), b') /\
    is_loglik (carma_cov (nth 0 th 0 * nth 0 th 0 / carma_acv 1 ma om 0) ma om) t y e (nth 1 th 0) (nth 2 th 0) x.
Proof.
  intros Hsv Hb Hinc Hp HL Hma Lma Nma Hpr Hom Hin Hnd Ht0 Ht1.
  destruct (roots_of p th HL) as (om' & E & _ & Hn & _ & _ & Hck). rewrite Hom in E.
  assert (om' = om) as ->.
  { injection E as E. clear - E. revert om' E. induction om as [|a l IH]; intros [|a' l'] E0; try discriminate; [reflexivity|].
    cbn [map] in E0. injection E0 as E1 E2 E3. f_equal; [|apply IH, E3]. apply C_eq; congruence. }
  assert (NoDup om) as Hd.
  { destruct ign; [apply Hnd; reflexivity|]. apply (apart_NoDup smax fmin fmax th); [exact Hn|apply Hin; reflexivity]. }
  assert (CheckPriorBoundsp p (mkB AX (Fin smax) (Fin fmax) (Fin fmin) ign) (map Fin th) = Ok true) as Hc.
  { destruct ign; [reflexivity|]. destruct (Hck smax fmin fmax) as (ok & E' & Hiff). rewrite E'. f_equal. apply Hiff, Hin. reflexivity. }
  destruct (LDp_value solve Hsv p maf prior b t y e th ma om _ pr Hb Hinc Hp HL Hma Lma Nma (Hpr Ht1) Hom Hd Hc Ht0 Ht1)
    as (m & v & b' & EL & _ & _ & _ & _ & Hcd).
  exists (gauss_ll (length t) (fun i => nth i y 0 - nth 2 th 0) (fun i => nth i m 0) (fun i => nth i v 0)), b'. split; [exact EL|].
  exists (fun i => nth i m 0), (fun i => nth i v 0). split; [|reflexivity].
  intros i Hi. destruct (Hcd i Hi) as [H1 H2]. split; [exact H1|lra].
Qed.
Lemma LDp_none solve p maf prior (b : base AX (kpx AX)) (t y e th : list R) (om : list C) smax fmin fmax :
  base_holds b t y e (mkB AX (Fin smax) (Fin fmax) (Fin fmin) false) -> (3 + p <= length th)%nat ->
  ARRoots AX p (map Fin th) = Ok (map FinC om) -> ~ in_prior smax fmin fmax th om ->
  LogDensity (pcls solve p maf prior) b (map Fin th) = Ok (NInf, b).
Proof.
  intros Hb HL Hom Hn. destruct (CheckPriorBoundsp_main p smax fmin fmax th HL) as (om' & E' & ok & Hok & Hiff).
  rewrite Hom in E'. injection E' as E'.
  assert (om' = om) as ->.
  { clear - E'. revert om' E'. induction om as [|a l IH]; intros [|a' l'] E0; try discriminate; [reflexivity|].
    cbn [map] in E0. injection E0 as E1 E2 E3. f_equal; [|apply IH, E3]. apply C_eq; congruence. }
  destruct ok; [exfalso; apply Hn, Hiff; reflexivity|]. apply (LDp_outside solve p maf prior b t y e th _ Hb Hok).
Qed.

(** ** The two-point example: roots -2 and -1, theta0 = 1, scale 1, mean 0, two zeros measured exactly at 0 and 1 *)
Definition thW : list R := [1; 1; 0; ln 2; ln 3].
Definition omW : list C := [(-2, 0); (-1, 0)].
Definition tW : list R := [0; 1].
Definition zW : list R := [0; 0].
Lemma rootsW : ARRoots AX 2 (map Fin thW) = Ok (map FinC omW).
Proof.
  unfold ARRoots. rewrite (quad_roots_Fin thW 3 2) by (cbn; lia). f_equal. f_equal.
  unfold qroots. change (2 / 2)%nat with 1%nat. cbn [Nat.odd Nat.even negb qloop Nat.add]. rewrite !app_nil_r.
  unfold thW. cbn [nth]. unfold rpair. rewrite !exp_ln by lra.
  assert (sqrt (3 * 3 - 4 * 2) = 1) as -> by (replace (3 * 3 - 4 * 2) with 1 by ring; apply sqrt_1).
  destruct (Rlt_dec 0 (3 * 3 - 4 * 2)) as [_|H]; [|lra]. unfold omW. f_equal; [f_equal; lra|]. f_equal. f_equal; lra.
Qed.
Lemma tW_inc : strictly_increasing tW.
Proof. intros [|[|i]] [|[|j]] H1 H2; cbn in *; try lia; lra. Qed.
Lemma omW_nodup : NoDup omW.
Proof.
  constructor; [|constructor; [intros []|constructor]]. intros [H|[]]. apply (f_equal fst) in H. cbn in H. lra.
Qed.
Lemma Cexp_R x : Cexp (RtoC x) = RtoC (exp x).
Proof. unfold Cexp, RtoC. cbn [fst snd]. rewrite cos_0, sin_0. f_equal; ring. Qed.
Definition b_of (ma : list R) (x : R) : C := Cmult (ma_poly ma (RtoC x)) (ma_poly ma (RtoC (- x))).
Lemma acvW s ma tau : carma_acv s ma omW tau =
  s * fst (Cplus (Cdiv (Cmult (b_of ma (-2)) (RtoC (exp (-2 * tau)))) (RtoC (-12)))
                 (Cdiv (Cmult (b_of ma (-1)) (RtoC (exp (-1 * tau)))) (RtoC 6))).
Proof.
  unfold carma_acv, omW. cbn [length Csum nth]. change ((-2, 0)) with (RtoC (-2)). change ((-1, 0)) with (RtoC (-1)).
  unfold carma_denom. cbn [length Cprod nth Nat.eqb fst RtoC]. change ((-2, 0)) with (RtoC (-2)). change ((-1, 0)) with (RtoC (-1)).
  unfold b_of. f_equal. f_equal. rewrite Cplus_0_l.
  replace (Copp (RtoC (-2))) with (RtoC (- -2)) by (apply C_eq; cbn; ring).
  replace (Copp (RtoC (-1))) with (RtoC (- -1)) by (apply C_eq; cbn; ring).
  rewrite <- !RtoC_mult, !Cexp_R. f_equal; f_equal.
  - apply C_eq; cbn; ring.
  - apply C_eq; cbn; ring.
Qed.
(** with ma = (1, 0): 1/6 exp(-tau) - 1/12 exp(-2 tau) *)
Lemma acvW_car ma tau : (forall z, ma_poly ma z = RtoC 1) -> forall s, carma_acv s ma omW tau = s * (exp (- tau) / 6 - exp (-2 * tau) / 12).
Proof.
  intros H s. rewrite acvW. unfold b_of. rewrite !H. f_equal. replace (-1 * tau) with (- tau) by ring.
  unfold Cdiv. rewrite <- !RtoC_inv by lra. rewrite <- !RtoC_mult, <- RtoC_plus. cbn [RtoC fst]. field.
Qed.
(** with beta(z) = 1 + z: 1/4 exp(-2 tau) *)
Lemma acvW_belcher ma tau : (forall z, ma_poly ma z = Cplus (RtoC 1) z) -> forall s, carma_acv s ma omW tau = s * (exp (-2 * tau) / 4).
Proof.
  intros H s. rewrite acvW. unfold b_of. rewrite !H. f_equal.
  unfold Cdiv. rewrite <- !RtoC_inv by lra. rewrite <- !RtoC_plus, <- !RtoC_mult, <- RtoC_plus. cbn [RtoC fst]. field.
Qed.
Lemma two_point K x : K 0 0 = 1 -> K 1 1 = 1 -> K 1 0 = K 0 1 -> is_loglik K tW zW zW 1 0 x -> x = - (1 / 2) * ln (1 - K 1 0 * K 1 0).
Proof.
  intros H00 H11 Hs (m & v & H & ->). unfold gauss_ll, tW, zW. cbn [length Rsum nth].
  destruct (H 0%nat ltac:(cbn; lia)) as [[a0 (_ & Hm0 & Hv0)] _].
  destruct (H 1%nat ltac:(cbn; lia)) as [[a1 (Ha1 & Hm1 & Hv1)] _].
  cbn [firstn map length Rsum nth tW zW] in *. specialize (Ha1 0%nat ltac:(lia)). unfold obs_cov in *. cbn [Nat.eqb] in *.
  rewrite sqrt_1 in *. rewrite H00 in *. rewrite H11 in *.
  assert (m 0%nat = 0) as -> by lra. assert (v 0%nat = 1) as -> by lra.
  assert (m 1%nat = 0) as -> by lra. assert (a1 0%nat = K 1 0) as Ea by lra.
  assert (v 1%nat = 1 - K 1 0 * K 1 0) as -> by (rewrite Ea in Hv1; lra).
  rewrite ln_1. unfold Rdiv. ring.
Qed.

(** C26: ZCAR ignores its Belcher polynomial *)
Lemma LDW solve maf (b : base AX (kpx AX)) smax fmin fmax ma : valid_solve solve ->
  base_holds b tW zW zW (mkB AX (Fin smax) (Fin fmax) (Fin fmin) true) ->
  maf (map Fin thW) = Ok (map Fin ma) -> length ma = 2%nat -> (exists l, nth l ma 0 <> 0) ->
  exists x b', LogDensity (pcls solve 2 maf (LogPrior AX)) b (map Fin thW) = Ok (Fin (x + - 25), b') /\
    is_loglik (carma_cov (1 / carma_acv 1 ma omW 0) ma omW) tW zW zW 1 0 x.
Proof.
  intros Hsv Hb Hma Lma Nma.
  destruct (LDp_all solve 2 maf (LogPrior AX) b tW zW zW thW ma omW smax fmin fmax true (-25) Hsv Hb tW_inc) as (x & b' & E & H);
    try assumption; try (cbn; lia); try (cbn; lra).
  - intros Hs. rewrite LogPrior_main by (cbn; lia || exact Hs). f_equal. f_equal. unfold log_sichi, thW. cbn [nth]. rewrite ln_1. field.
  - exact rootsW.
  - intros _. apply omW_nodup.
  - exists x, b'. split; [exact E|]. cbn [thW nth] in H. rewrite Rmult_1_l in H. exact H.
Qed.
Lemma carma_cov_diag s ma om a : carma_cov s ma om a a = carma_acv s ma om 0.
Proof. unfold carma_cov. rewrite Rminus_diag_eq by reflexivity. rewrite Rabs_R0. reflexivity. Qed.
Lemma LLW_car ma x : (forall z, ma_poly ma z = RtoC 1) -> is_loglik (carma_cov (1 / carma_acv 1 ma omW 0) ma omW) tW zW zW 1 0 x ->
  x = - (1 / 2) * ln (1 - (2 * exp (-1) - exp (-2)) * (2 * exp (-1) - exp (-2))).
Proof.
  intros Hma H. assert (carma_acv 1 ma omW 0 = 1 / 12) as E0.
  { rewrite acvW_car by exact Hma. rewrite Rmult_0_r, Ropp_0, exp_0. field. }
  rewrite E0 in H. apply two_point in H.
  - assert (carma_cov (1 / (1 / 12)) ma omW 1 0 = 2 * exp (-1) - exp (-2)) as E.
    { unfold carma_cov. rewrite Rminus_0_r, Rabs_R1, acvW_car by exact Hma. rewrite Rmult_1_r. change (Ropp 1) with (IZR (-1)). field. }
    rewrite E in H. exact H.
  - rewrite carma_cov_diag, carma_acv_scale, E0. field.
  - rewrite carma_cov_diag, carma_acv_scale, E0. field.
  - unfold carma_cov. rewrite Rabs_minus_sym. reflexivity.
Qed.
Lemma LLW_belcher ma x : (forall z, ma_poly ma z = Cplus (RtoC 1) z) -> is_loglik (carma_cov (1 / carma_acv 1 ma omW 0) ma omW) tW zW zW 1 0 x ->
  x = - (1 / 2) * ln (1 - exp (-2) * exp (-2)).
Proof.
  intros Hma H. assert (carma_acv 1 ma omW 0 = 1 / 4) as E0.
  { rewrite acvW_belcher by exact Hma. rewrite Rmult_0_r, exp_0. field. }
  rewrite E0 in H. apply two_point in H.
  - assert (carma_cov (1 / (1 / 4)) ma omW 1 0 = exp (-2)) as E.
    { unfold carma_cov. rewrite Rminus_0_r, Rabs_R1, acvW_belcher by exact Hma. rewrite Rmult_1_r. field. }
    rewrite E in H. exact H.
  - rewrite carma_cov_diag, carma_acv_scale, E0. field.
  - rewrite carma_cov_diag, carma_acv_scale, E0. field.
  - unfold carma_cov. rewrite Rabs_minus_sym. reflexivity.
Qed.
Lemma rho_differ : - (1 / 2) * ln (1 - (2 * exp (-1) - exp (-2)) * (2 * exp (-1) - exp (-2))) <> - (1 / 2) * ln (1 - exp (-2) * exp (-2)).
Proof.
  assert (exp (-2) = exp (-1) * exp (-1)) as E2 by (rewrite <- exp_plus; f_equal; lra). rewrite E2.
  set (u := exp (-1)). assert (0 < u) by apply exp_pos.
  assert (u < 1) by (unfold u; rewrite <- exp_0; apply exp_increasing; lra).
  intros E.
  assert (0 < 1 - (2 * u - u * u) * (2 * u - u * u)) as P1.
  { assert (0 < 2 * u - u * u < 1) by nra. nra. }
  assert (0 < 1 - u * u * (u * u)) as P2 by (assert (u * u < 1) by nra; assert (0 < u * u) by nra; nra).
  assert (ln (1 - (2 * u - u * u) * (2 * u - u * u)) = ln (1 - u * u * (u * u))) as El by lra.
  apply ln_inv in El; [|exact P1|exact P2].
  assert (0 < u * u * (1 - u)) by (apply Rmult_lt_0_compat; nra). lra.
Qed.

Lemma zcar_refuted solve (si : list (F AX) -> option (list nat)) (raw : kfp AX) : valid_solve solve -> valid_sort_index si -> goodp raw ->
  exists zb x b', zcar_new si raw 2 (map Fin tW) (map Fin zW) (map Fin zW) = Ok zb /\
    LogDensity (zcar_cls solve 2) (SetMLE zb true) (map Fin thW) = Ok (Fin x, b') /\
    forall ma ll, (forall z, ma_poly ma z = Cpown (Cplus (RtoC 1) (Cdiv z (RtoC (1 / (1 - 0))))) (2 - 1)) ->
      is_loglik (carma_cov (1 / carma_acv 1 ma omW 0) ma omW) tW zW zW 1 0 ll -> x <> ll + log_sichi 1.
Proof.
  intros Hsv Hsi Hg.
  destruct (carp_new_Fin si raw 2 tW zW zW Hsi ltac:(cbn; lia) eq_refl eq_refl tW_inc ltac:(discriminate)) as (b & smax & fmin & fmax & E & Hb & _).
  assert (exists ma, belcher AX 2 (Fin 1) = Ok ma) as [mb Emb].
  { eexists. apply belcher_Fin; [lia|lra]. }
  assert (zcar_new si raw 2 (map Fin tW) (map Fin zW) (map Fin zW) = Ok (set_kf b (SetMAp (b_kf b) mb))) as Ez.
  { unfold zcar_new. rewrite E. cbn [bind]. rewrite make_dt_Fin by (cbn; lia). cbn [bind].
    change (diffs AR tW) with [1 - 0]. replace (1 - 0) with 1 by ring. cbn [map]. unfold vmin. cbn [fold_left].
    change (flt AX (Fin 1) (finf AX)) with true. cbv iota. cbn [bind].
    replace (fdiv AX (fofZ AX 1) (Fin 1)) with (Fin 1) by (symmetry; cbn [fofZ AX fdiv]; rewrite fin_div by lra; f_equal; field).
    rewrite Emb. reflexivity. }
  assert (base_holds (SetMLE (set_kf b (SetMAp (b_kf b) mb)) true) tW zW zW (mkB AX (Fin smax) (Fin fmax) (Fin fmin) true)) as Hb'.
  { apply (SetMLE_holds _ _ tW zW zW smax fmin fmax false true). exact Hb. }
  destruct (LDW solve (fun _ => Ok (carp_ma AX 2)) _ smax fmin fmax (upd (repeat 0 2) 0 1) Hsv Hb') as (x & b' & EL & HL).
  { rewrite carp_ma_Fin. reflexivity. }
  { apply carp_ma_len. }
  { apply carp_ma_nz. lia. }
  exists (set_kf b (SetMAp (b_kf b) mb)), (x + -25), b'. split; [exact Ez|]. split; [exact EL|].
  intros ma ll Hma Hll. apply LLW_car in HL; [|intros z; apply carp_ma_poly; lia].
  apply LLW_belcher in Hll.
  2:{ intros z. rewrite Hma. cbn [Nat.sub Cpown]. replace (1 / (1 - 0)) with 1 by field. unfold Cdiv. rewrite <- RtoC_inv by lra. rewrite Rinv_1. ring. }
  rewrite HL, Hll. pose proof rho_differ. unfold log_sichi. rewrite ln_1. intros Eq. apply H. lra.
Qed.

(** C31: the prior on the measurement error scale stays in *)
Lemma mle_refuted solve (si : list (F AX) -> option (list nat)) (raw : kfp AX) : valid_solve solve -> valid_sort_index si ->
  exists b x b', carp_new si raw 2 (map Fin tW) (map Fin zW) (map Fin zW) = Ok b /\
    LogDensity (carp_cls solve 2) (SetMLE b true) (map Fin thW) = Ok (Fin x, b') /\
    forall ma ll, (forall z, ma_poly ma z = RtoC 1) ->
      is_loglik (carma_cov (1 / carma_acv 1 ma omW 0) ma omW) tW zW zW 1 0 ll -> x = ll - 25.
Proof.
  intros Hsv Hsi.
  destruct (carp_new_Fin si raw 2 tW zW zW Hsi ltac:(cbn; lia) eq_refl eq_refl tW_inc ltac:(discriminate)) as (b & smax & fmin & fmax & E & Hb & _).
  assert (base_holds (SetMLE b true) tW zW zW (mkB AX (Fin smax) (Fin fmax) (Fin fmin) true)) as Hb'.
  { apply (SetMLE_holds _ _ tW zW zW smax fmin fmax false true). exact Hb. }
  destruct (LDW solve (fun _ => Ok (carp_ma AX 2)) _ smax fmin fmax (upd (repeat 0 2) 0 1) Hsv Hb') as (x & b' & EL & HL).
  { rewrite carp_ma_Fin. reflexivity. }
  { apply carp_ma_len. }
  { apply carp_ma_nz. lia. }
  exists b, (x + -25), b'. split; [exact E|]. split; [exact EL|].
  intros ma ll Hma Hll. apply LLW_car in HL; [|intros z; apply carp_ma_poly; lia]. apply LLW_car in Hll; [|exact Hma]. lra.
Qed.

(** C32: on unsorted times the prior bounds exclude everything *)
Lemma unsorted_bounds t (sd : F AX) ign i : (2 <= length t)%nat -> (S i < length t)%nat -> nth (S i) t 0 < nth i t 0 ->
  exists fmin fmax, make_bounds AX (map Fin t) sd ign = Ok (mkB AX sd (Fin fmax) (Fin fmin) ign) /\ fmax < 0.
Proof.
  intros Hn Hi Hd. unfold make_bounds. rewrite make_dt_Fin by exact Hn. cbn [bind].
  assert (length (diffs AR t) = length t - 1)%nat as Ld by apply dlen.
  assert (diffs AR t <> []) as Hne by (intros E; rewrite E in Ld; cbn in Ld; lia).
  destruct (vmin_ok (diffs AR t) Hne) as (m & Em & Hin & Hmin). rewrite Em. cbn [bind].
  assert (m < 0) as Hm.
  { assert (m <= nth i (diffs AR t) 0) as H. { apply Hmin, nth_In. change (length (diffs AR t)) with (@length R (diffs AR t)) in *. lia. }
    rewrite dnth in H by exact Hi. lra. }
  assert (t <> []) as Htn by (destruct t; [cbn in Hn; lia|discriminate]).
  destruct (vmax_ok t Htn) as (hi & Eh & Hh1 & Hh2). rewrite Eh. cbn [bind].
  destruct (vmin_ok t Htn) as (lo & El & Hl1 & Hl2). rewrite El. cbn [bind].
  assert (lo < hi) as Hlh.
  { assert (nth i t 0 <= hi) by (apply Hh2, nth_In; lia). assert (lo <= nth (S i) t 0) by (apply Hl2, nth_In; lia). lra. }
  exists (1 / (hi - lo)), (1 / m). split.
  { change (fofZ AX 1) with (Fin 1). change (fdiv AX) with xdiv. cbn [fsub AX xsub]. rewrite fin_div by lra. rewrite fin_div by lra. reflexivity. }
  unfold Rdiv. rewrite Rmult_1_l. apply Rinv_lt_0_compat, Hm.
Qed.
Lemma unsorted1 (si : list (F AX) -> option (list nat)) (raw : kf1 AX) t y e i b th : (2 <= length t)%nat -> length y = length t -> (S i < length t)%nat -> nth (S i) t 0 < nth i t 0 ->
  car1_new si raw (map Fin t) (map Fin y) (map Fin e) = Ok b -> (4 <= length th)%nat ->
  LogDensity (car1_cls AX) b (map Fin th) = Ok (NInf, b).
Proof.
  intros Hn Hy Hi Hd Hb HL. unfold car1_new, base_new in Hb.
  rewrite vvar_Fin in Hb by lia. cbn [bind] in Hb.
  replace (fmul AX (fofZ AX 10) (fsqrt AX (Fin (svar y)))) with (Fin (10 * sqrt (svar y))) in Hb
    by (cbn [fsqrt fmul fofZ AX]; rewrite fin_sqrt by (apply svar_nonneg; lia); reflexivity).
  destruct (unsorted_bounds t (Fin (10 * sqrt (svar y))) false i Hn Hi Hd) as (fmin & fmax & Em & Hneg). rewrite Em in Hb. cbn [bind] in Hb.
  apply bind_Ok in Hb. destruct Hb as (s & _ & Hb). injection Hb as <-.
  destruct (CheckPriorBounds1_main (10 * sqrt (svar y)) fmin fmax false th HL) as (ok & E & Hiff).
  unfold LogDensity. cbn [v_Check car1_cls b_bounds]. rewrite E. cbn [bind]. destruct ok; [|reflexivity].
  exfalso. destruct (proj1 Hiff eq_refl) as ((_ & H) & _). pose proof (exp_pos (nth 3 th 0)). lra.
Qed.
Lemma unsortedp solve maf prior (si : list (F AX) -> option (list nat)) (raw : kfp AX) p t y e i b th : (2 <= length t)%nat -> length y = length t -> (S i < length t)%nat -> nth (S i) t 0 < nth i t 0 ->
  carp_new si raw p (map Fin t) (map Fin y) (map Fin e) = Ok b -> (3 + p <= length th)%nat ->
  LogDensity (pcls solve p maf prior) b (map Fin th) = Ok (NInf, b).
Proof.
  intros Hn Hy Hi Hd Hb HL. unfold carp_new, base_new in Hb.
  rewrite vvar_Fin in Hb by lia. cbn [bind] in Hb.
  replace (fmul AX (fofZ AX 10) (fsqrt AX (Fin (svar y)))) with (Fin (10 * sqrt (svar y))) in Hb
    by (cbn [fsqrt fmul fofZ AX]; rewrite fin_sqrt by (apply svar_nonneg; lia); reflexivity).
  destruct (unsorted_bounds t (Fin (10 * sqrt (svar y))) false i Hn Hi Hd) as (fmin & fmax & Em & Hneg). rewrite Em in Hb. cbn [bind] in Hb.
  apply bind_Ok in Hb. destruct Hb as (b0 & Hb0 & Hb). apply bind_Ok in Hb0. destruct Hb0 as (s & _ & Hb0). injection Hb0 as <-.
  destruct (Nat.eqb_spec p 0) as [->|Hp]; [discriminate|]. injection Hb as <-.
  destruct (roots_of p th HL) as (om & EA & Lo & _ & _ & _ & Hck). destruct (Hck (10 * sqrt (svar y)) fmin fmax) as (ok & E & Hiff).
  unfold LogDensity. cbn [v_Check pcls b_bounds set_kf]. rewrite E. cbn [bind]. destruct ok; [|reflexivity].
  exfalso. pose proof (proj1 Hiff eq_refl) as Hin. destruct om as [|r om]; [cbn in Lo; lia|].
  pose proof (pr_centroid _ _ _ _ _ Hin r (or_introl eq_refl)) as H. pose proof (Rabs_pos (snd r)). pose proof PI_RGT_0.
  assert (0 <= Rabs (snd r) / (2 * PI)) by (apply Rmult_le_pos; [assumption|apply Rlt_le, Rinv_0_lt_compat; lra]). lra.
Qed.

(** the sorted records of the C32 example: value finite for some theta *)
Definition tS : list R := [0; 1; 3].
Definition tU : list R := [1; 0; 3].
Definition yS : list R := [0; 1; 0].
Definition yU : list R := [1; 0; 0].
Definition eS : list R := [0; 0; 0].
Definition thS : list R := [1; 1; 0; ln (1 / 2)].
Lemma tS_inc : strictly_increasing tS.
Proof. intros [|[|[|i]]] [|[|[|j]]] H1 H2; cbn in *; try lia; lra. Qed.
Lemma svarS : svar yS = 1 / 3.
Proof. unfold svar, smean, yS. cbn [length Rsum nth INR]. field. Qed.
Lemma priorS smax fmin fmax : data_bounds tS yS smax fmin fmax -> in_prior1 smax fmin fmax thS.
Proof.
  intros [H1 H2 H3 H4 H5]. unfold tS in H5. cbn [length nth Nat.sub] in H5.
  pose proof (H3 0%nat ltac:(cbn; lia)) as G. cbn [nth tS] in G.
  assert (1 <= fmax) as Hf. { apply (Rmult_le_reg_r (1 / fmax)); [apply Rdiv_lt_0_compat; lra|]. replace (fmax * (1 / fmax)) with 1 by (field; lra). lra. }
  unfold in_prior1, thS. cbn [nth]. rewrite exp_ln by lra. rewrite H1, svarS.
  assert (1 / 2 <= sqrt (1 / 3)). { apply Rsqr_incr_0_var; [|apply sqrt_pos]. rewrite Rsqr_sqrt by lra. unfold Rsqr. lra. }
  rewrite H5. repeat split; lra.
Qed.
Lemma unsorted_refuted (si : list (F AX) -> option (list nat)) (raw : kf1 AX) : valid_sort_index si ->
  Permutation (combine (combine tU yU) eS) (combine (combine tS yS) eS) /\
  exists b b', car1_new si raw (map Fin tS) (map Fin yS) (map Fin eS) = Ok b /\ car1_new si raw (map Fin tU) (map Fin yU) (map Fin eS) = Ok b' /\
    (exists x b1, LogDensity (car1_cls AX) b (map Fin thS) = Ok (Fin x, b1)) /\
    forall th, (4 <= length th)%nat -> LogDensity (car1_cls AX) b' (map Fin th) = Ok (NInf, b').
Proof.
  intros Hsi. split; [cbn; apply perm_swap|].
  destruct (base_new_Fin _ si raw tS yS eS Hsi ltac:(cbn; lia) eq_refl eq_refl tS_inc) as (b & smax & fmin & fmax & E & Hb & Hd).
  destruct (construct_main _ si raw tU yU eS Hsi eq_refl eq_refl) as (s & _ & _ & _ & Es & _).
  { exists 1, 0. cbn. split; [tauto|]. split; [tauto|lra]. }
  destruct (unsorted_bounds tU (Fin (10 * sqrt (svar yU))) false 0 ltac:(cbn; lia) ltac:(cbn; lia) ltac:(cbn; lra)) as (f1 & f2 & Em & _).
  assert (exists b', car1_new si raw (map Fin tU) (map Fin yU) (map Fin eS) = Ok b') as [b' Eb'].
  { eexists. unfold car1_new, base_new. rewrite vvar_Fin by (cbn; lia). cbn [bind].
    replace (fmul AX (fofZ AX 10) (fsqrt AX (Fin (svar yU)))) with (Fin (10 * sqrt (svar yU)))
      by (cbn [fsqrt fmul fofZ AX]; rewrite fin_sqrt by (apply svar_nonneg; cbn; lia); reflexivity).
    rewrite Em. cbn [bind]. rewrite Es. reflexivity. }
  exists b, b'. split; [exact E|]. split; [exact Eb'|]. split.
  - destruct (LD1_inside b tS yS eS thS smax fmin fmax false Hb tS_inc ltac:(cbn; lia) (priorS _ _ _ Hd) ltac:(cbn; lra)) as (m & v & b1 & EL & _).
    eexists; exists b1. exact EL.
  - intros th HL. apply (unsorted1 si raw tU yU eS 0 b' th); try (cbn; lia); try (cbn; lra); assumption || reflexivity.
Qed.
