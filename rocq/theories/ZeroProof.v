(** The log-density at theta_0 = 0, where the process has no variance: the measurements are independent with their own error
    variances, and one exact measurement makes the value NaN. *)
From Coq Require Import Reals List Arith ZArith Lra Lia Bool Permutation.
From Coquelicot Require Import Complex.
From Verif Require Import Arith Res ListLemmas KFModel KF1Proof Spec Gauss Emb History InitProof KF1R OUpd KF1X KF1Main KF1More.
From Verif Require Import Cx KFpModel KFpProof SpecCarma CLin KFpR KFpX KFpMain KFpTop KFpMore SpecModel CarpackModel RootsProof PriorProof LogLikProof LogLikMain CarpackRefute.
Import ListNotations.
Local Open Scope R_scope.

Lemma rsgn_0 : rsgn 0 = Eq.
Proof. unfold rsgn. destruct (Rlt_dec 0 0) as [H|_]; [lra|reflexivity]. Qed.
Lemma rsgn_pos r : 0 < r -> rsgn r = Gt.
Proof. intros H. unfold rsgn. destruct (Rlt_dec r 0); [lra|]. destruct (Rlt_dec 0 r); [reflexivity|lra]. Qed.
Lemma rsgn_neg r : r < 0 -> rsgn r = Lt.
Proof. intros H. unfold rsgn. destruct (Rlt_dec r 0); [reflexivity|lra]. Qed.

(** one NaN term makes the sum NaN *)
Lemma xadd_NaN_r x : xadd x NaN = NaN.
Proof. destruct x; reflexivity. Qed.
Lemma lik_NaN n (y m v : list xr) (mu : xr) k : length y = n -> length m = n -> length v = n -> (k < n)%nat ->
  nth k v NaN = Fin 0 -> lik AX n y m v mu = Ok NaN.
Proof.
  intros Ly Lm Lv Hk Hv. unfold lik.
  set (T := fun i => let yc := fsub AX (fsub AX (nth i y NaN) (nth i m NaN)) mu in
     fsub AX (fmul AX (fneg AX (fdec AX 1 2)) (flog AX (nth i v NaN))) (fdiv AX (fmul AX (fmul AX (fdec AX 1 2) yc) yc) (nth i v NaN))).
  set (st := fun i => nat_rect (fun _ => xr) (Fin 0) (fun j a => xadd a (T j)) i).
  assert (T k = NaN) as HT.
  { unfold T. cbv zeta. change (F AX) with xr in *. rewrite Hv.
    set (yc := fsub AX _ mu). cbn [fsub fmul fneg fdec flog fdiv AX xneg].
    replace (xlog (Fin 0)) with NInf by (unfold xlog; rewrite rsgn_0; reflexivity).
    cbn [xmul]. rewrite (rsgn_neg (- (1 / 2))) by lra. cbn [xinf_times].
    match goal with |- xsub PInf ?q = NaN => cut (q = PInf \/ q = NaN); [intros [-> | ->]; reflexivity|] end.
    destruct yc as [r| | |]; cbn [xmul].
    - cbn [xdiv]. destruct (Req_EM_T 0 0) as [_|]; [|congruence]. destruct (Req_dec r 0) as [->|Hr].
      + rewrite Rmult_0_r, rsgn_0. right. reflexivity.
      + rewrite rsgn_pos by nra. left. reflexivity.
    - rewrite rsgn_pos by lra. cbn. rewrite rsgn_0. left. reflexivity.
    - rewrite rsgn_pos by lra. cbn. rewrite rsgn_0. left. reflexivity.
    - right. reflexivity. }
  assert (forall j, (k < j)%nat -> st j = NaN) as Hst.
  { assert (forall j, st (S j) = xadd (st j) (T j)) as HS by reflexivity. clearbody st. clearbody T.
    induction j as [|j IH]; intros Hj; [lia|]. rewrite HS. destruct (Nat.eq_dec j k) as [->|].
    - rewrite HT. apply xadd_NaN_r.
    - rewrite IH by lia. reflexivity. }
  assert (forall l : list xr, length l = n -> forall i, (i < n)%nat -> vget l i = Ok (nth i l NaN)) as Hg.
  { intros l Hl i Hi. unfold vget. rewrite (nth_error_nth' l NaN) by (rewrite Hl; exact Hi). reflexivity. }
  rewrite <- (Hst n Hk). apply (@for_exact xr _ st 0 n). intros i _ Hi. cbn [Nat.add] in Hi.
  change (F AX) with xr. rewrite !Hg by assumption. reflexivity.
Qed.

(** means and variances of a filter run for a process without variance *)
Definition zero_run (e : list R) (mean var : list xr) : Prop :=
  length mean = length e /\ length var = length e /\
  forall i, (i < length e)%nat -> (forall k, (k < i)%nat -> nth k e 0 <> 0) ->
    nth i mean NaN = Fin 0 /\ nth i var NaN = Fin (nth i e 0 * nth i e 0).

(** the first exact measurement *)
Lemma first_zero (e : list R) : (forall i, (i < length e)%nat -> nth i e 0 <> 0) \/
  exists k, (k < length e)%nat /\ nth k e 0 = 0 /\ forall j, (j < k)%nat -> nth j e 0 <> 0.
Proof.
  induction e as [|a e IH]; [left; cbn; intros; lia|]. destruct (Req_dec a 0) as [Ha|Ha].
  - right. exists O. cbn. split; [lia|]. split; [exact Ha|]. intros; lia.
  - destruct IH as [IH|(k & Hk & Ek & Hb)].
    + left. intros [|i] Hi; [exact Ha|]. apply IH. cbn in Hi. lia.
    + right. exists (S k). cbn. split; [lia|]. split; [exact Ek|]. intros [|j] Hj; [exact Ha|]. apply Hb. lia.
Qed.

Lemma is_loglik_zero (K : R -> R -> R) (t y e : list R) scale mu : (forall a c, K a c = 0) -> 0 < scale -> length e = length t ->
  (forall i, (i < length t)%nat -> nth i e 0 <> 0) ->
  is_loglik K t y e scale mu (gauss_ll (length t) (fun i => nth i y 0 - mu) (fun _ => 0) (fun i => scale * (nth i e 0 * nth i e 0))).
Proof.
  intros HK Hs Le Hne. exists (fun _ => 0), (fun i => scale * (nth i e 0 * nth i e 0)). split; [|reflexivity].
  intros i Hi. split.
  - exists (fun _ => 0). split; [|split].
    + intros j Hj. rewrite HK. apply Rsum_0. intros; ring.
    + symmetry. apply Rsum_0. intros; ring.
    + rewrite HK. rewrite (Rsum_0 (fun k => 0 * _)) by (intros; ring). ring.
  - pose proof (Hne i Hi). apply Rmult_lt_0_compat; [exact Hs|]. nra.
Qed.

(** the value of the likelihood loop *)
Lemma zero_lik (t y e : list R) (scale mu : R) (mean var : list xr) : 0 < scale -> length y = length t -> length e = length t ->
  zero_run (map (fun x => sqrt scale * x) e) mean var ->
  ((forall i, (i < length t)%nat -> nth i e 0 <> 0) ->
     lik AX (length t) (map Fin y) mean var (Fin mu) =
       Ok (Fin (gauss_ll (length t) (fun i => nth i y 0 - mu) (fun _ => 0) (fun i => scale * (nth i e 0 * nth i e 0))))) /\
  ((exists i, (i < length t)%nat /\ nth i e 0 = 0) -> lik AX (length t) (map Fin y) mean var (Fin mu) = Ok NaN).
Proof.
  intros Hs Ly Le (Lm & Lv & H). rewrite map_length in Lm, Lv, H.
  assert (0 < sqrt scale) as Hq by (apply sqrt_lt_R0; exact Hs).
  assert (forall i, (i < length e)%nat -> nth i (map (fun x => sqrt scale * x) e) 0 = sqrt scale * nth i e 0) as Hn
    by (intros i Hi; apply nth_map_R; exact Hi).
  assert (forall i, (i < length e)%nat -> (forall k, (k < i)%nat -> nth k e 0 <> 0) ->
     nth i mean NaN = Fin 0 /\ nth i var NaN = Fin (scale * (nth i e 0 * nth i e 0))) as H'.
  { intros i Hi Hk. destruct (H i Hi) as [H1 H2].
    - intros k Hki. rewrite Hn by lia. pose proof (Hk k Hki). apply Rmult_integral_contrapositive_currified; [lra|assumption].
    - split; [exact H1|]. rewrite H2, Hn by exact Hi. f_equal. replace scale with (sqrt scale * sqrt scale) at 3 by (apply sqrt_sqrt; lra). ring. }
  split.
  - intros Hne.
    set (v := map (fun x => scale * (x * x)) e). set (m := map (fun _ : R => 0) e).
    assert (mean = map Fin m) as ->.
    { apply (nth_ext _ _ NaN NaN); [unfold m; rewrite !map_length; lia|]. intros i Hi. rewrite Lm in Hi.
      rewrite (proj1 (H' i Hi ltac:(intros; apply Hne; lia))).
      rewrite (nth_indep _ NaN (Fin 0)) by (unfold m; rewrite !map_length; lia). rewrite map_nth. unfold m. rewrite nth_map_R by lia. reflexivity. }
    assert (var = map Fin v) as ->.
    { apply (nth_ext _ _ NaN NaN); [unfold v; rewrite !map_length; lia|]. intros i Hi. rewrite Lv in Hi.
      rewrite (proj2 (H' i Hi ltac:(intros; apply Hne; lia))).
      rewrite (nth_indep _ NaN (Fin 0)) by (unfold v; rewrite !map_length; lia). rewrite map_nth. unfold v. rewrite nth_map_R by lia. reflexivity. }
    assert (forall i, (i < length t)%nat -> nth i v 0 = scale * (nth i e 0 * nth i e 0)) as Ev by (intros i Hi; apply nth_map_R; lia).
    rewrite lik_Fin.
    + f_equal. f_equal. apply Rsum_ext. intros i Hi. rewrite Ev by exact Hi. unfold m. rewrite nth_map_R by lia. reflexivity.
    + exact Ly.
    + unfold m. rewrite map_length. exact Le.
    + unfold v. rewrite map_length. exact Le.
    + intros i Hi. rewrite Ev by exact Hi. pose proof (Hne i Hi). apply Rmult_lt_0_compat; [exact Hs|nra].
  - intros (i & Hi & Ei). destruct (first_zero e) as [Hall|(k & Hk & Ek & Hb)]; [exfalso; apply (Hall i); [lia|exact Ei]|].
    apply (lik_NaN _ _ _ _ _ k); [rewrite map_length; exact Ly|lia|lia|lia|].
    rewrite (proj2 (H' k Hk Hb)), Ek. f_equal. ring.
Qed.

(** ** KalmanFilter1 *)
Lemma zero_filter1 (s : kf1 AX) (tr yr er : list R) w : holds1 s tr yr er 0 w -> 0 < w ->
  exists s', Filter (methods1 AX) s = Ok s' /\ zero_run er (k_mean s') (k_var s').
Proof.
  intros Hs Hw. destruct (holds1_lens _ _ _ _ _ _ Hs) as (Hy & He & Hn & Edt).
  destruct Hs as (Hu & E1 & E2 & E3 & E4 & E5).
  destruct (pureF1 AX s Hu I) as [Ho Hs'].
  destruct (Filter (methods1 AX) s) as [s'|ex| |] eqn:EF; try discriminate Ho.
  exists s'. split; [reflexivity|]. cbn [obs_filter] in Ho. unfold pf1 in Ho.
  cbn [setup_of s_dt s_y s_yerr s_sig s_par s_time] in Ho. rewrite E1, E2, E3, E4, E5, Edt, map_length in Ho.
  injection Ho as Hm0 Hv0.
  set (mp := mpure AX (map Fin (diffs AR tr)) (map Fin yr) (map Fin er) (Fin 0) (Fin w)) in *.
  set (vp := vpure AX (map Fin (diffs AR tr)) (map Fin er) (Fin 0) (Fin w)) in *.
  assert (k_mean s' = map mp (seq 0 (length tr))) as Hm by exact Hm0. assert (k_var s' = map vp (seq 0 (length tr))) as Hv by exact Hv0.
  split; [rewrite Hm, map_length, seq_length; lia|]. split; [rewrite Hv, map_length, seq_length; lia|].
  intros i Hi Hk.
  assert (forall f : nat -> xr, nth i (map f (seq 0 (length tr))) NaN = f i) as Hnth.
  { intros f. rewrite (nth_indep _ NaN (f O)) by (rewrite map_length, seq_length; lia). rewrite map_nth, seq_nth by lia. reflexivity. }
  rewrite Hm, Hv. change (F AX) with xr. rewrite !Hnth. clear Hnth Hm Hv Hm0 Hv0 Hs' EF.
  assert (mp i = Fin 0 /\ vp i = Fin (nth i er 0 * nth i er 0)) as Hres; [|exact Hres].
  induction i as [|i IH].
  - split; [reflexivity|]. unfold vp. cbn [vpure]. rewrite S0_fin by exact Hw. rewrite nth_map_Fin. cbn [fadd fmul AX xmul xadd]. f_equal. unfold Rdiv. ring.
  - destruct IH as [IHm IHv]; [lia|intros k Hki; apply Hk; lia|]. pose proof (Hk i ltac:(lia)) as Hne.
    assert (nth i er 0 * nth i er 0 <> 0) as Hne2 by nra.
    set (rho := exp (- 1 * w * nth i (diffs AR tr) 0)).
    assert (forall d, d = Fin (nth i (diffs AR tr) 0) -> fexp AX (fmul AX (fmul AX (fneg AX (fofZ AX 1)) (Fin w)) d) = Fin rho) as Er by (intros d ->; reflexivity).
    pose proof (nth_map_Fin i (diffs AR tr)) as Nd. pose proof (nth_map_Fin i er) as Ne. pose proof (nth_map_Fin (S i) er) as Ne'. pose proof (nth_map_Fin i yr) as Ny.
    split.
    + assert (mp (S i) = nextm AX (Fin rho) (Fin (nth i er 0 * nth i er 0)) (Fin (nth i er 0)) (Fin 0) (Fin (nth i yr 0))) as ->.
      { rewrite <- IHm, <- IHv, <- Ne, <- Ny, <- (Er _ Nd). reflexivity. }
      rewrite nextm_fin by exact Hne2. f_equal. unfold nextm. cbn. field. exact Hne.
    + assert (vp (S i) = fadd AX (nextv AX (Fin 0) (Fin w) (Fin rho) (Fin (nth i er 0 * nth i er 0)) (Fin (nth i er 0))) (fmul AX (Fin (nth (S i) er 0)) (Fin (nth (S i) er 0)))) as ->.
      { rewrite <- IHv, <- Ne, <- Ne', <- (Er _ Nd). reflexivity. }
      rewrite nextv_fin by assumption. cbn [fadd fmul AX xmul xadd].
      f_equal. unfold nextv. cbn. field. split; [exact Hne|lra].
Qed.

(** ** KalmanFilterp *)
Lemma Cdiv_0_l (z : C) : Cdiv (RtoC 0) z = RtoC 0.
Proof. unfold Cdiv. apply Cmult_0_l. Qed.
Lemma conj_zero : Cconj (RtoC 0) = RtoC 0.
Proof. apply C_eq; simpl; ring. Qed.

Section Zp.
Variable solve : list (list (cx AX)) -> list (cx AX) -> option (list (cx AX)).
Hypothesis Hsolve : valid_solve solve.
Variables (om : list C) (ma : list R).
Hypothesis Hok : carma_ok 1 om ma.
Let p := length om.
Let b := CarmaKernel.b p (fun i => nth i om (RtoC 0)) (fun l => nth l ma 0).
Let bX : list (cx AX) := rotated (map FinC om) (map Fin ma).
Let Hb : repv p bX b := b_rep om ma.

Lemma SV_zero (J : list C) : length J = p -> repm p (StateVar (Fin 0 : F AX) (map FinC om) (map FinC J)) (fun _ _ => RtoC 0).
Proof using Hok.
  intros HJ.
  assert (forall i j, (i < p)%nat -> (j < p)%nat -> state_upper (Fin 0 : F AX) (map FinC om) (map FinC J) i j = FinC (RtoC 0)) as Hup.
  { intros i j Hi Hj. unfold state_upper. rewrite !(omX_rep om) by assumption.
    assert (repv p (map FinC J) (fun i => nth i J (RtoC 0))) as HJr.
    { intros a Ha. unfold vnth. rewrite (nth_indep _ _ (FinC (RtoC 0))) by (rewrite map_length, HJ; exact Ha). apply (map_nth FinC). }
    rewrite !HJr by assumption. change (fneg AX (Fin 0)) with (Fin (- 0)).
    rewrite FinC_scale, !FinC_conj, FinC_mul, FinC_add, FinC_div.
    - f_equal. replace (RtoC (- 0)) with (RtoC 0) by (f_equal; ring). rewrite !Cmult_0_l. apply Cdiv_0_l.
    - apply (CarmaKernel.omsum_neq p (fun i => nth i om (RtoC 0))); [|exact Hi|exact Hj]. apply (re_r 1 om ma Hok). }
  intros i j Hi Hj. unfold StateVar. assert (length (map FinC om) = p) as -> by apply map_length.
  rewrite mbuild_mnth by assumption. destruct (Nat.leb_spec i j).
  - apply Hup; assumption.
  - rewrite Hup by assumption. rewrite FinC_conj, conj_zero. reflexivity.
Qed.

Section Run.
Variables (SV : list (list (cx AX))) (tr yr er : list R).
Hypothesis HSV : repm p SV (fun _ _ => RtoC 0).
Let dtX : list (F AX) := map Fin (diffs AR tr). Let yX : list (F AX) := map Fin yr. Let eX : list (F AX) := map Fin er.
Let core := fcorep dtX yX eX p (map FinC om) bX SV.

Lemma bform_zero : bform p b (fun _ _ => RtoC 0) b = RtoC 0.
Proof. unfold bform. apply Csum_0. intros i Hi. apply Csum_0. intros j Hj. ring. Qed.
Lemma mulb_zero a : mulb p b (fun _ _ => RtoC 0) a = RtoC 0.
Proof. unfold mulb. apply Csum_0. intros i Hi. ring. Qed.

Lemma core_var x i : repm p (snd x) (fun _ _ => RtoC 0) -> fvar eX p bX x i = Fin (nth i er 0 * nth i er 0).
Proof using Hb.
  intros H. unfold fvar. rewrite (quadf_fin p bX b Hb _ _ H), bform_zero. unfold eX.
  pose proof (nth_map_Fin i er) as E. change (fofZ AX 0) with (Fin 0). cbn [AX F] in *. rewrite E. cbn. f_equal. ring.
Qed.

Lemma zero_core i : (i < length tr)%nat -> (forall k, (k < i)%nat -> nth k er 0 <> 0) ->
  repv p (fst (core i)) (fun _ => RtoC 0) /\ repm p (snd (core i)) (fun _ _ => RtoC 0).
Proof using Hb HSV.
  induction i as [|i IH]; intros Hi Hk.
  - split; [apply czeros_rep|exact HSV].
  - destruct IH as [IHx IHV]; [lia|intros k Hki; apply Hk; lia|].
    unfold core. cbn [fcorep]. fold core. unfold dtX. rewrite dt_nth by exact Hi.
    set (d := _ - _). unfold fstep. rewrite (core_var (core i) i IHV).
    pose proof (Hk i ltac:(lia)) as Hne. assert (nth i er 0 * nth i er 0 <> 0) as Hne2 by nra.
    assert (exists r, finn yX p bX (core i) i = Fin r) as (r & ->).
    { unfold finn, yX. destruct i as [|i']; [exists (nth 0 yr 0); apply nth_map_Fin|].
      rewrite (linf_fin p bX b Hb _ _ IHx). pose proof (nth_map_Fin (S i') yr) as E. change (fofZ AX 0) with (Fin 0). cbn [AX F] in *. rewrite E.
      eexists. reflexivity. }
    pose proof (gainf_fin p bX b Hb _ _ _ IHV Hne2) as Hg.
    assert (repv p (gainf p bX (snd (core i)) (Fin (nth i er 0 * nth i er 0))) (fun _ => RtoC 0)) as Hg0.
    { eapply repv_ext; [exact Hg|]. intros a Ha. cbn beta. rewrite mulb_zero. apply Cdiv_0_l. }
    split; cbn [fst snd].
    + eapply repv_ext; [apply schur_fin; [apply (rhof_fin p _ _ (omX_rep om))|apply axpy_fin; [exact IHx|exact Hg0]]|].
      intros a Ha. cbn beta. ring.
    + eapply repm_ext; [apply (propV_fin p SV _ HSV); [apply (rhof_fin p _ _ (omX_rep om))|apply condV_fin; [exact IHV|exact Hg0]]|].
      intros a c Ha Hc. cbn beta. rewrite conj_zero. ring.
Qed.
End Run.

Lemma zero_filterp (s : kfp AX) (tr yr er : list R) : holdsp s tr yr er 0 om ma ->
  exists s', Filter (methodsp solve) s = Ok s' /\ zero_run er (k_mean s') (k_var s').
Proof using Hsolve Hok Hb.
  intros Hs. destruct (holdsp_lens _ _ _ _ _ _ _ Hs) as (Hy & He & Hn & Edt).
  destruct Hs as (Hu & Hg & E1 & E2 & E3 & E4 & E5 & E6).
  destruct (pureFp solve Hu Hg) as [Ho _].
  assert (setup_of (par_of (A:=AX)) s = mkSetup AX (map Fin tr) (map Fin (diffs AR tr)) (map Fin yr) (map Fin er) (Fin 0) (map FinC om, map Fin ma)) as Es.
  { unfold setup_of, par_of. rewrite E1, E2, E3, E4, E5, E6, Edt. reflexivity. }
  rewrite Es in Ho. unfold pfp in Ho.
  destruct (resetp_ok solve Hsolve 1 om ma Hok (mkSetup AX (map Fin tr) (map Fin (diffs AR tr)) (map Fin yr) (map Fin er) (Fin 0) (map FinC om, map Fin ma)) eq_refl)
    as (J & EJ & HlJ & _).
  rewrite EJ in Ho. cbn [bind s_dt s_y s_yerr s_sig s_par s_time fst snd] in Ho. rewrite !map_length in Ho.
  destruct (Filter (methodsp solve) s) as [s'|ex| |] eqn:EF; try discriminate Ho. cbn [obs_filter] in Ho. injection Ho as Hm Hv.
  exists s'. split; [reflexivity|]. fold p in Hm, Hv. fold bX in Hm, Hv.
  pose proof (SV_zero J HlJ) as HSV.
  split; [rewrite Hm, map_length, seq_length; lia|]. split; [rewrite Hv, map_length, seq_length; lia|].
  intros i Hi Hk.
  assert (forall f : nat -> xr, nth i (map f (seq 0 (length tr))) NaN = f i) as Hnth.
  { intros f. rewrite (nth_indep _ NaN (f O)) by (rewrite map_length, seq_length; lia). rewrite map_nth, seq_nth by lia. reflexivity. }
  change (F AX) with xr in *. rewrite Hm, Hv, !Hnth.
  destruct (zero_core _ tr yr er HSV i ltac:(lia) Hk) as [Hx HV]. split.
  - unfold mp, fmean. destruct i as [|i]; [reflexivity|]. rewrite (linf_fin p bX b Hb _ _ Hx), dotv_0. reflexivity.
  - unfold vp. apply (core_var er _ _ HV).
Qed.
End Zp.

(** ** LogDensity *)
Lemma LD1_zero (b : base AX (F AX)) (t y e th : list R) smax fmin fmax ign :
  base_holds b t y e (mkB AX (Fin smax) (Fin fmax) (Fin fmin) ign) -> (4 <= length th)%nat ->
  in_prior1 smax fmin fmax th -> nth 0 th 0 = 0 ->
  ((forall i, (i < length t)%nat -> nth i e 0 <> 0) ->
     exists x b', LogDensity (car1_cls AX) b (map Fin th) = Ok (Fin (x + log_sichi (nth 1 th 0)), b') /\
       is_loglik (fun _ _ => 0) t y e (nth 1 th 0) (nth 2 th 0) x) /\
  ((exists i, (i < length t)%nat /\ nth i e 0 = 0) -> exists b', LogDensity (car1_cls AX) b (map Fin th) = Ok (NaN, b')).
Proof.
  intros Hb HL Hin Ht0. pose proof Hb as (Hw & E1 & E2 & E3 & E4 & Eb). destruct (base_holds_lens _ _ _ _ _ _ Hb) as (Ly & Le & Ln).
  destruct (CheckPriorBounds1_main smax fmin fmax ign th HL) as (ok & E & Hiff).
  destruct ok; [|apply Hiff in Hin; discriminate]. destruct Hin as (_ & Hs0 & Hs1).
  set (t1 := nth 1 th 0) in *. set (mu := nth 2 th 0) in *. set (w := exp (nth 3 th 0)). assert (0 < w) as Hpw by apply exp_pos.
  set (s := load (car1_cls AX) b (Fin 0 : F AX) (Fin w) (zeros AX 1) (Fin t1) (Fin mu)).
  set (yr := map (fun x => x - mu) y). set (er := map (fun x => sqrt t1 * x) e).
  assert (holds1 s t yr er 0 w) as Hh.
  { destruct (@load_ok AX xr xr xr (car1_cls AX) (fun x => x) (fun om _ => om) (@good1 AX) (@good_data1 AX) (@Hset1 AX)
                b (Fin 0) (Fin w) (zeros AX 1) (Fin t1) (Fin mu) Hw) as (Hu & _ & Hs).
    unfold s. split; [exact Hu|].
    pose proof (f_equal (@s_time _ _) Hs) as S1. pose proof (f_equal (@s_y _ _) Hs) as S3. pose proof (f_equal (@s_yerr _ _) Hs) as S4.
    pose proof (f_equal (@s_sig _ _) Hs) as S5. pose proof (f_equal (@s_par _ _) Hs) as S6.
    split; [etransitivity; [exact S1|exact E4]|].
    split; [etransitivity; [exact S3|]; etransitivity; [exact (f_equal (fun l => cent AX l (Fin mu)) E2)|apply cent_Fin]|].
    split; [etransitivity; [exact S4|]; etransitivity; [exact (f_equal (fun l => scaled AX l (Fin t1)) E3)|apply scaled_Fin; lra]|].
    split; [exact S5|exact S6]. }
  destruct (zero_filter1 s t yr er w Hh Hpw) as (s' & EF & Hz).
  destruct (zero_lik t y e t1 mu (k_mean s') (k_var s') ltac:(lra) Ly Le Hz) as [Hfin Hnan].
  assert (forall ll, lik AX (length t) (map Fin y) (k_mean s') (k_var s') (Fin mu) = Ok ll ->
     LogDensity (car1_cls AX) b (map Fin th) = Ok (fadd AX ll (Fin (log_sichi t1)), set_kf b s')) as HV.
  { intros ll Hll. eapply (@LD_value AX _ _ (car1_cls AX) b (map Fin th) (Fin w) (zeros AX 1) (Fin 0) (Fin t1) (Fin mu) s' ll (Fin (log_sichi t1))).
    + rewrite Eb. exact E.
    + cbn [v_AR car1_cls]. rewrite vget_Fin by lia. reflexivity.
    + reflexivity.
    + cbn [v_Sig car1_cls]. rewrite !vget_Fin by lia. cbn [bind]. rewrite Ht0. cbn. f_equal. f_equal. ring.
    + apply vget_Fin. lia.
    + apply vget_Fin. lia.
    + exact EF.
    + rewrite E1, E2, map_length. exact Hll.
    + apply LogPrior_main; [lia|unfold t1 in Hs1; lra]. }
  split.
  - intros Hne. eexists; exists (set_kf b s'). split; [exact (HV _ (Hfin Hne))|].
    apply is_loglik_zero; [reflexivity|lra|exact Le|exact Hne].
  - intros He. exists (set_kf b s'). exact (HV _ (Hnan He)).
Qed.

Lemma LDp_zero solve p maf prior (b : base AX (kpx AX)) (t y e th ma : list R) (om : list C) smax fmin fmax pr :
  valid_solve solve -> base_holds b t y e (mkB AX (Fin smax) (Fin fmax) (Fin fmin) false) ->
  (2 <= p)%nat -> (3 + p <= length th)%nat -> maf (map Fin th) = Ok (map Fin ma) -> length ma = p -> (exists l, nth l ma 0 <> 0) ->
  prior (map Fin th) = Ok (Fin pr) -> ARRoots AX p (map Fin th) = Ok (map FinC om) ->
  in_prior smax fmin fmax th om -> nth 0 th 0 = 0 ->
  ((forall i, (i < length t)%nat -> nth i e 0 <> 0) ->
     exists x b', LogDensity (pcls solve p maf prior) b (map Fin th) = Ok (Fin (x + pr), b') /\
       is_loglik (fun _ _ => 0) t y e (nth 1 th 0) (nth 2 th 0) x) /\
  ((exists i, (i < length t)%nat /\ nth i e 0 = 0) -> exists b', LogDensity (pcls solve p maf prior) b (map Fin th) = Ok (NaN, b')).
Proof.
  intros Hsv Hb Hp HL Hma Lma Nma Hpr Hom Hin Ht0. pose proof Hb as (Hw & E1 & E2 & E3 & E4 & Eb). destruct (base_holds_lens _ _ _ _ _ _ Hb) as (Ly & Le & Ln).
  destruct (roots_of p th HL) as (om' & E & _ & Hn & _ & _ & Hck). rewrite Hom in E.
  assert (om' = om) as ->.
  { injection E as E. clear - E. revert om' E. induction om as [|a l IH]; intros [|a' l'] E0; try discriminate; [reflexivity|].
    cbn [map] in E0. injection E0 as E1 E2 E3. f_equal; [|apply IH, E3]. apply C_eq; congruence. }
  assert (NoDup om) as Hd by (apply (apart_NoDup smax fmin fmax th); assumption).
  assert (CheckPriorBoundsp p (mkB AX (Fin smax) (Fin fmax) (Fin fmin) false) (map Fin th) = Ok true) as Hc.
  { destruct (Hck smax fmin fmax) as (ok & E' & Hiff). rewrite E'. f_equal. apply Hiff, Hin. }
  destruct (om_roots p th om HL Hom Hd) as (L & _ & Hst).
  pose proof (acv1_pos p th ma om Hp HL Lma Nma Hom Hd) as Hpos.
  pose proof (Sigp_Fin p maf th ma om Hp HL Hma Lma Nma Hom Hd) as HS.
  assert (0 < nth 1 th 0) as Ht1 by (pose proof (pr_scale _ _ _ _ _ Hin); lra).
  set (t1 := nth 1 th 0) in *. set (mu := nth 2 th 0) in *.
  assert (Sigp AX p maf (map Fin th) = Ok (Fin 0)) as HS0.
  { rewrite HS. f_equal. f_equal. rewrite Ht0. field. lra. }
  assert (carma_ok 1 om ma) as Hok.
  { split; [exact Hst|]. split; [lia|]. split; [congruence|]. split; [exact Nma|lra]. }
  set (s := load (pcls solve p maf prior) b (Fin 0 : F AX) (map FinC om) (map Fin ma) (Fin t1) (Fin mu)).
  set (yr := map (fun x => x - mu) y). set (er := map (fun x => sqrt t1 * x) e).
  assert (holdsp s t yr er 0 om ma) as Hh.
  { destruct (@load_ok AX _ _ _ (pcls solve p maf prior) (@par_of AX) (fun om ma => (om, ma)) (@goodp AX) (@good_datap AX) (@Hsetp AX solve p maf prior)
                b (Fin 0) (map FinC om) (map Fin ma) (Fin t1) (Fin mu) Hw) as (Hu & Hg & Hs).
    unfold s. split; [exact Hu|]. split; [exact Hg|].
    pose proof (f_equal (@s_time _ _) Hs) as S1. pose proof (f_equal (@s_y _ _) Hs) as S3. pose proof (f_equal (@s_yerr _ _) Hs) as S4.
    pose proof (f_equal (@s_sig _ _) Hs) as S5. pose proof (f_equal (fun u => fst (s_par u)) Hs) as S6. pose proof (f_equal (fun u => snd (s_par u)) Hs) as S7.
    split; [etransitivity; [exact S1|exact E4]|].
    split; [etransitivity; [exact S3|]; etransitivity; [exact (f_equal (fun l => cent AX l (Fin mu)) E2)|apply cent_Fin]|].
    split; [etransitivity; [exact S4|]; etransitivity; [exact (f_equal (fun l => scaled AX l (Fin t1)) E3)|apply scaled_Fin; lra]|].
    split; [exact S5|]. split; [exact S6|exact S7]. }
  destruct (zero_filterp solve Hsv om ma Hok s t yr er Hh) as (s' & EF & Hz).
  destruct (zero_lik t y e t1 mu (k_mean s') (k_var s') Ht1 Ly Le Hz) as [Hfin Hnan].
  assert (forall ll, lik AX (length t) (map Fin y) (k_mean s') (k_var s') (Fin mu) = Ok ll ->
     LogDensity (pcls solve p maf prior) b (map Fin th) = Ok (fadd AX ll (Fin pr), set_kf b s')) as HV.
  { intros ll Hll. eapply (@LD_value AX _ _ (pcls solve p maf prior) b (map Fin th) (map FinC om) (map Fin ma) (Fin 0) (Fin t1) (Fin mu) s' ll (Fin pr)).
    + rewrite Eb. exact Hc.
    + exact Hom.
    + exact Hma.
    + exact HS0.
    + apply vget_Fin. lia.
    + apply vget_Fin. lia.
    + exact EF.
    + rewrite E1, E2, map_length. exact Hll.
    + exact Hpr. }
  split.
  - intros Hne. eexists; exists (set_kf b s'). split; [exact (HV _ (Hfin Hne))|].
    apply is_loglik_zero; [reflexivity|lra|exact Le|exact Hne].
  - intros He. exists (set_kf b s'). exact (HV _ (Hnan He)).
Qed.
