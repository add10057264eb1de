(** KalmanFilterp: statements in the form used by PropsKFp. *)
From Coq Require Import Reals List Arith ZArith Lra Lia Bool Permutation ClassicalEpsilon.
From Coquelicot Require Import Complex.
From Verif Require Import Arith Res ListLemmas KFModel KF1Proof Spec Gauss Emb KF1R History InitProof OUpd SimProof KF1Main KF1More KF1Hist.
From Verif Require Import Cx KFpModel KFpProof SpecCarma CLin KFpR KFpX KFpMain.
Import ListNotations.
Local Open Scope R_scope.

(** ** Construction, any arithmetic *)
Lemma velem_len T (l : list T) idx l' : velem l idx = Ok l' -> length l' = length idx.
Proof.
  revert l'; induction idx as [|i idx IH]; intros l' H; cbn [velem] in H; [injection H as <-; reflexivity|].
  apply bind_Ok in H. destruct H as (x & _ & H). apply bind_Ok in H. destruct H as (xs & E & H). injection H as <-.
  simpl. rewrite (IH _ E). reflexivity.
Qed.

Section AnyA.
Variable A : Arith.

Lemma new_usable X si (raw : kf A X) t y e s : length y = length t -> length e = length t ->
  kf_new si raw t y e = Ok s -> usable s /\ k_sig s = k_sig raw /\ k_ext s = k_ext raw.
Proof.
  intros Hy He H. unfold kf_new, kf_init in H.
  set (raw' := SetTimeSeriesErr (SetTimeSeries (SetTime raw t) y) e) in *.
  apply bind_Ok in H. destruct H as (d & Ed & H). apply bind_Ok in H. destruct H as (m & _ & H).
  apply bind_Ok in H. destruct H as (s1 & E1 & H). apply bind_Ok in H. destruct H as (m' & _ & H).
  apply bind_Ok in H. destruct H as (s2 & E2 & H). injection H as <-.
  assert (forall l d, make_dt A l = Ok d -> (2 <= length l)%nat /\ d = diffs A l) as Hmd.
  { intros l d0 Hl. unfold make_dt in Hl. destruct (Nat.ltb_spec (length l) 2); [discriminate|]. injection Hl as <-. split; [lia|reflexivity]. }
  assert (forall s0 : kf A X, k_sig s0 = k_sig raw /\ k_ext s0 = k_ext raw -> forall idx s',
    (t0 <- velem (k_time s0) idx ;; y0 <- velem (k_y s0) idx ;; e0 <- velem (k_yerr s0) idx ;; d' <- make_dt A t0 ;;
     Ok (set_dt (SetTimeSeriesErr (SetTimeSeries (SetTime s0 t0) y0) e0) d')) = Ok s' ->
    ((2 <= length (k_time s'))%nat /\ k_dt s' = diffs A (k_time s') /\ length (k_y s') = length (k_time s') /\
    length (k_yerr s') = length (k_time s')) /\ k_sig s' = k_sig raw /\ k_ext s' = k_ext raw) as Hre.
  { intros s0 Hs0 idx s' Hs. apply bind_Ok in Hs. destruct Hs as (t0 & Et & Hs). apply bind_Ok in Hs. destruct Hs as (y0 & Ey & Hs).
    apply bind_Ok in Hs. destruct Hs as (e0 & Ee & Hs). apply bind_Ok in Hs. destruct Hs as (d' & Ed' & Hs). injection Hs as <-.
    apply velem_len in Et, Ey, Ee. apply Hmd in Ed'. destruct Ed' as [Ed1 ->]. split; [|exact Hs0]. cbn. repeat split; congruence || lia. }
  assert (((2 <= length (k_time s1))%nat /\ k_dt s1 = diffs A (k_time s1) /\ length (k_y s1) = length (k_time s1) /\
    length (k_yerr s1) = length (k_time s1)) /\ k_sig s1 = k_sig raw /\ k_ext s1 = k_ext raw) as H1.
  { destruct (flt A m (fofZ A 0)).
    - destruct (si (k_time raw')) as [idx|]; [|discriminate]. apply (Hre raw' (Logic.conj eq_refl eq_refl) idx), E1.
    - injection E1 as <-. apply Hmd in Ed. destruct Ed as [Ed ->]. split; [|split; reflexivity]. cbn. repeat split; assumption. }
  assert (((2 <= length (k_time s2))%nat /\ k_dt s2 = diffs A (k_time s2) /\ length (k_y s2) = length (k_time s2) /\
    length (k_yerr s2) = length (k_time s2)) /\ k_sig s2 = k_sig raw /\ k_ext s2 = k_ext raw) as H2.
  { destruct (feq A m' (fofZ A 0)).
    - apply (Hre s1 (proj2 H1) _ _ E2).
    - injection E2 as <-. exact H1. }
  destruct H2 as ((A1 & A2 & A3 & A4) & A5). split; [|exact A5]. unfold usable. cbn. rewrite !zeros_len. repeat split; assumption.
Qed.

Lemma newp_ok si (raw : kfp A) t y e sig om ma s : length y = length t -> length e = length t ->
  kfp_new si raw t y e sig om ma = Ok s ->
  usable s /\ goodp s /\ k_sig s = sig /\ x_omega (k_ext s) = om /\ x_ma (k_ext s) = pad_ma A (length om) ma.
Proof.
  intros Hy He H. unfold kfp_new in H. destruct (new_usable _ _ _ _ _ _ _ Hy He H) as (Hu & E1 & E2).
  split; [exact Hu|]. unfold goodp. rewrite E1, E2. split; [|split; [reflexivity|split; reflexivity]].
  exact (good_set om (pad_ma A (length om) ma) (SetSigsqr raw sig)).
Qed.

(** ** What Filter and Predict do with each shape of the parameters *)
Variable solve : list (list (cx A)) -> list (cx A) -> option (list (cx A)).
Lemma shape_fail (s : kfp A) : usable s -> goodp s ->
  (length (x_omega (k_ext s)) < 2)%nat \/ length (x_ma (k_ext s)) <> length (x_omega (k_ext s)) ->
  exists ex, Filter (methodsp solve) s = Throw ex /\ forall t, Predictp solve s t = Throw ex.
Proof.
  intros Hu Hg H. assert (forall J, resetp solve (setup_of (@par_of A) s) <> Ok J) as Hn.
  { intros J. unfold resetp. cbn [setup_of s_par par_of fst snd]. destruct (Nat.ltb_spec (length (x_omega (k_ext s))) 2); [discriminate|].
    destruct (solve _ _); [|discriminate]. destruct (Nat.eqb_spec (length (x_ma (k_ext s))) (length (x_omega (k_ext s)))); [lia|discriminate]. }
  destruct (Resetp_fail solve Hg Hn) as (ex & E1 & _). exists ex. split.
  - unfold Filter. cbn [m_Reset methodsp]. rewrite E1. reflexivity.
  - intros t. unfold Predictp. rewrite (ipredict_wf t (usable_wf' Hu)). cbn [bind]. rewrite E1. reflexivity.
Qed.

Lemma shape_ok (s : kfp A) : usable s -> goodp s ->
  (2 <= length (x_omega (k_ext s)))%nat -> length (x_ma (k_ext s)) = length (x_omega (k_ext s)) ->
  if solve (EigenMat (x_omega (k_ext s))) (Rvector A (length (x_omega (k_ext s))))
  then (exists s', Filter (methodsp solve) s = Ok s') /\ (forall t, exists r s', Predictp solve s t = Ok (r, s'))
  else Filter (methodsp solve) s = Throw Eruntime /\ (forall t, Predictp solve s t = Throw Eruntime).
Proof.
  intros Hu Hg H2 Hl. pose proof (pureFp solve Hu Hg) as [HF _].
  assert (forall t, obs_fst (Predictp solve s t) = ppp solve (setup_of (@par_of A) s) t) as HP by (intros t; apply (purePp solve t Hu Hg)).
  unfold pfp in HF. unfold ppp in HP.
  assert (resetp solve (setup_of (@par_of A) s) = match solve (EigenMat (x_omega (k_ext s))) (Rvector A (length (x_omega (k_ext s)))) with
    | None => Throw Eruntime | Some J => Ok J end) as ER.
  { unfold resetp. cbn [setup_of s_par par_of fst snd]. destruct (Nat.ltb_spec (length (x_omega (k_ext s))) 2); [lia|].
    destruct (solve _ _); [|reflexivity]. rewrite Hl, Nat.eqb_refl. reflexivity. }
  rewrite ER in HF. assert (forall t, obs_fst (Predictp solve s t) = (J <- match solve (EigenMat (x_omega (k_ext s))) (Rvector A (length (x_omega (k_ext s)))) with
    | None => Throw Eruntime | Some J => Ok J end ;; Ok (predp (s_time (setup_of (@par_of A) s)) (s_dt (setup_of (@par_of A) s))
       (s_y (setup_of (@par_of A) s)) (s_yerr (setup_of (@par_of A) s)) (length (fst (s_par (setup_of (@par_of A) s)))) (fst (s_par (setup_of (@par_of A) s)))
       (rotated (fst (s_par (setup_of (@par_of A) s))) (snd (s_par (setup_of (@par_of A) s))))
       (StateVar (s_sig (setup_of (@par_of A) s)) (fst (s_par (setup_of (@par_of A) s))) J) t))) as HP'.
  { intros t. rewrite HP, ER. reflexivity. }
  destruct (solve _ _) as [J|]; cbn [bind] in *.
  - split.
    + destruct (Filter (methodsp solve) s); try discriminate HF. eexists; reflexivity.
    + intros t. specialize (HP' t). destruct (Predictp solve s t) as [[r s']| | |]; try discriminate HP'. exists r, s'. reflexivity.
  - split.
    + destruct (Filter (methodsp solve) s); cbn [obs_filter] in HF; congruence.
    + intros t. specialize (HP' t). destruct (Predictp solve s t) as [[r s']| | |]; cbn [obs_fst] in HP'; congruence.
Qed.

(** ** Histories *)
Variable G : Type.
Variable draw : G -> F A * G.
Variable vsort : list (F A) -> option (list (F A)).
Local Notation runp := (run_calls (methodsp solve) (@setparp A) draw vsort).

Lemma histp l (s0 : kfp A) g0 s g fresh :
  usable s0 -> goodp s0 -> Forall (call_ok (length (k_time s0))) l ->
  runp l (s0, g0) = Ok (s, g) ->
  usable fresh -> goodp fresh ->
  setup_of (@par_of A) fresh = fold_left (fun u c => spec_call c u) l (setup_of (@par_of A) s0) ->
  obs_filter (Filter (methodsp solve) s) = obs_filter (Filter (methodsp solve) fresh) /\
  (forall t, obs_fst (Predictp solve s t) = obs_fst (Predictp solve fresh t)) /\
  (forall ts g', obs_sim (Simulate (methodsp solve) draw vsort s ts g') = obs_sim (Simulate (methodsp solve) draw vsort fresh ts g')).
Proof.
  intros H1 H1' H2 H3 H4 H4' H5.
  exact (history_independent (@setparp A) draw vsort (pureFp solve) (purePp solve) (@good_datap A) (@setpar_okp A) g0 H1 H1' H2 H3 H4 H4' H5).
Qed.

Lemma intactp l (s0 : kfp A) g0 s g : usable s0 -> goodp s0 -> Forall (query A) l -> runp l (s0, g0) = Ok (s, g) ->
  k_time s = k_time s0 /\ k_dt s = k_dt s0 /\ k_y s = k_y s0 /\ k_yerr s = k_yerr s0 /\ k_sig s = k_sig s0 /\
  x_omega (k_ext s) = x_omega (k_ext s0) /\ x_ma (k_ext s) = x_ma (k_ext s0).
Proof.
  intros H1 H1' H2 H3.
  destruct (run_calls_setup (@setparp A) draw vsort (pureFp solve) (purePp solve) (@good_datap A) (@setpar_okp A) g0 H1 H1' (query_ok _ _ _ H2) H3) as [E _].
  rewrite (fold_query _ _ _ H2) in E. injection E as E1 E2 E3 E4 E5 E6 E7. repeat split; assumption.
Qed.
End AnyA.

(** ** Construction with finite data *)
Lemma pad_Fin k (ma : list R) : pad_ma AX k (map Fin ma) = map Fin (ma ++ repeat 0 (k - length ma)).
Proof.
  unfold pad_ma. rewrite map_app, map_length. f_equal. generalize (k - length ma)%nat as n.
  induction n as [|n IH]; [reflexivity|]. cbn [repeat map]. rewrite <- IH. reflexivity.
Qed.

Lemma constructp (si : list (F AX) -> option (list nat)) (raw : kfp AX) (t y e : list R) (sig : R) (om : list C) (ma : list R) :
  valid_sort_index si -> length y = length t -> length e = length t ->
  (exists a b, In a t /\ In b t /\ a <> b) ->
  exists s t' y' e', kfp_new si raw (map Fin t) (map Fin y) (map Fin e) (Fin sig : F AX) (map FinC om) (map Fin ma) = Ok s /\
    strictly_increasing t' /\ (strictly_increasing t -> t' = t /\ y' = y /\ e' = e) /\
    holdsp s t' y' e' sig om (ma ++ repeat 0 (length om - length ma)).
Proof.
  intros H1 H2 H3 H4.
  destruct (construct_main _ si (SetMAp (SetOmegap (SetSigsqr raw (Fin sig : F AX)) (map FinC om)) (pad_ma AX (length (map FinC om)) (map Fin ma))) t y e H1 H2 H3 H4)
    as (s & t' & y' & e' & E & E1 & E2 & E3 & I1 & _ & _ & I6 & Hu & I4 & I5 & _).
  exists s, t', y', e'. split; [exact E|]. split; [exact I1|]. split; [exact I6|].
  unfold holdsp. split; [exact Hu|]. split.
  { unfold goodp. rewrite I5. exact (good_set (map FinC om) (pad_ma AX (length (map FinC om)) (map Fin ma)) (SetSigsqr raw (Fin sig : F AX))). }
  split; [exact E1|]. split; [exact E2|]. split; [exact E3|]. split; [exact I4|]. rewrite I5. split; [reflexivity|].
  change (pad_ma AX (length (map FinC om)) (map Fin ma) = map Fin (ma ++ repeat 0 (length om - length ma))).
  rewrite map_length. apply pad_Fin.
Qed.

Section Top.
Variable solve : list (list (cx AX)) -> list (cx AX) -> option (list (cx AX)).
Hypothesis Hsolve : valid_solve solve.
Variables (s : kfp AX) (tr yr er : list R) (sig : R) (om : list C) (ma : list R).
Hypothesis Hs : holdsp s tr yr er sig om ma.
Hypothesis Hinc : strictly_increasing tr.
Hypothesis Hok : carma_ok sig om ma.
Local Notation K := (carma_cov sig ma om).

Lemma setup_s : setup_of (@par_of AX) s = mkSetup AX (map Fin tr) (map Fin (diffs AR tr)) (map Fin yr) (map Fin er) (Fin sig) (map FinC om, map Fin ma).
Proof.
  destruct (holdsp_lens _ _ _ _ _ _ _ Hs) as (_ & _ & _ & Edt). destruct Hs as (Hu & Hg & E1 & E2 & E3 & E4 & E5 & E6).
  unfold setup_of, par_of. rewrite E1, E2, E3, E4, E5, E6, Edt. reflexivity.
Qed.

Lemma K_sym a b : K a b = K b a.
Proof. unfold carma_cov. rewrite Rabs_minus_sym. reflexivity. Qed.
Lemma K_diag a : K a a = carma_acv sig ma om 0.
Proof. unfold carma_cov. replace (a - a) with 0 by ring. rewrite Rabs_R0. reflexivity. Qed.

Lemma detp k c c0 y m v : (k <= length tr)%nat ->
  let KK := obs_cov K (fun i => nth i tr 0) (fun i => nth i er 0) in
  is_blp k KK c c0 y m v ->
  (forall m' v', is_blp k KK c c0 y m' v' -> m' = m /\ v' = v) /\ (forall a, v <= mse k KK c c0 a).
Proof.
  intros Hk KK H.
  assert (pd k KK) as Hpd.
  { intros a (i & Hi & Ha). pose proof (carma_pd solve Hsolve sig om ma Hok tr er (strict_times_ok _ _ Hinc)) as Hp.
    pose (a' := fun j => if Nat.ltb j k then a j else 0).
    specialize (Hp a'). assert (0 < quad (length tr) KK a') as Hq.
    { apply Hp. exists i. split; [lia|]. unfold a'. destruct (Nat.ltb_spec i k); [exact Ha|lia]. }
    unfold quad in Hq. replace (length tr) with (k + (length tr - k))%nat in Hq by lia.
    rewrite Rsum_app in Hq. rewrite (Rsum_0 (fun j => Rsum (fun j0 => a' (k + j)%nat * KK (k + j)%nat j0 * a' j0) (k + (length tr - k)))) in Hq.
    2:{ intros j Hj. apply Rsum_0. intros j0 _. unfold a' at 1. destruct (Nat.ltb_spec (k + j) k); [lia|ring]. }
    rewrite Rplus_0_r in Hq. erewrite Rsum_ext; [exact Hq|]. intros j Hj. cbv beta. rewrite Rsum_app.
    rewrite (Rsum_0 (fun j0 => a' j * KK j (k + j0)%nat * a' (k + j0)%nat)).
    2:{ intros j0 Hj0. unfold a' at 2. destruct (Nat.ltb_spec (k + j0) k); [lia|ring]. }
    rewrite Rplus_0_r. apply Rsum_ext. intros j0 Hj0. unfold a'. destruct (Nat.ltb_spec j k); [|lia]. destruct (Nat.ltb_spec j0 k); [reflexivity|lia]. }
  assert (forall i j, KK i j = KK j i) as Hsym.
  { intros i j. unfold KK, obs_cov. rewrite K_sym. destruct (Nat.eqb_spec i j) as [->|Hne]; [rewrite Nat.eqb_refl; reflexivity|].
    destruct (Nat.eqb_spec j i); [congruence|reflexivity]. }
  split.
  - intros m' v' H'. destruct (blp_unique _ _ _ _ _ _ _ _ _ Hsym Hpd H' H). auto.
  - apply (blp_optimal k KK c c0 y m v Hsym (pd_psd _ _ Hpd) H).
Qed.

Lemma mse_0 n KK c c0 : mse n KK c c0 (fun _ => 0) = c0.
Proof. unfold mse. rewrite !Rsum_0; [ring|..]; intros; try apply Rsum_0; intros; ring. Qed.

Lemma filterp : exists s', Filter (methodsp solve) s = Ok s' /\ length (k_mean s') = length tr /\ length (k_var s') = length tr /\
  forall i, (i < length tr)%nat -> exists m v,
    nth_error (k_mean s') i = Some (Fin m) /\ nth_error (k_var s') i = Some (Fin v) /\
    cond_dist K (firstn i tr) (firstn i yr) (firstn i er) (nth i tr 0) m (v - nth i er 0 * nth i er 0) /\
    0 < v <= carma_acv sig ma om 0 + nth i er 0 * nth i er 0.
Proof.
  pose proof Hs as (Hu & Hg & _).
  destruct (pureFp solve Hu Hg) as [Ho _].
  destruct (pfp_spec solve Hsolve sig om ma Hok tr yr er _ (strict_times_ok _ _ Hinc) setup_s) as (ml & vl & E & L1 & L2 & H).
  rewrite E in Ho.
  destruct (Filter (methodsp solve) s) as [s'|ex| |] eqn:EF; try discriminate Ho. cbn [obs_filter] in Ho. injection Ho as Hm Hv.
  exists s'. split; [reflexivity|]. rewrite Hm, Hv, !map_length. split; [exact L1|]. split; [exact L2|].
  intros i Hi. exists (nth i ml 0), (nth i vl 0). split; [|split].
  - apply (map_nth_error Fin i ml), nth_error_nth'. lia.
  - apply (map_nth_error Fin i vl), nth_error_nth'. lia.
  - destruct (H i Hi) as [H1 H2]. split; [apply cond_firstn; [lia|exact H1]|]. split; [exact H2|].
    destruct (detp i _ _ _ _ _ ltac:(lia) H1) as [_ Hopt]. specialize (Hopt (fun _ => 0)). rewrite mse_0, K_diag in Hopt. lra.
Qed.

Lemma predictp tp : (forall i, (i < length tr)%nat -> nth i tr 0 = tp -> nth i er 0 <> 0) ->
  exists m v s', Predictp solve s (Fin tp) = Ok ((Fin m, Fin v), s') /\ cond_dist K tr yr er tp m v /\
    0 < v <= carma_acv sig ma om 0.
Proof.
  intros Hnz. pose proof Hs as (Hu & Hg & _).
  destruct (purePp solve (Fin tp : F AX) Hu Hg) as [Ho _]. rewrite setup_s in Ho.
  destruct (ppp_spec solve Hsolve sig om ma Hok tr yr er tp (strict_times_ok _ _ Hinc) Hnz) as (m & v & E & Hv & Hc).
  cbn [m_Predict methodsp] in Ho. apply (fun H => eq_trans H E) in Ho.
  destruct (Predictp solve s (Fin tp)) as [[rr s']|ex| |] eqn:EP; try discriminate Ho.
  cbn [obs_fst] in Ho. injection Ho as ->. exists m, v, s'. split; [reflexivity|]. split; [exact Hc|]. split; [exact Hv|].
  destruct (detp (length tr) _ _ _ _ _ (Nat.le_refl _) Hc) as [_ Hopt]. specialize (Hopt (fun _ => 0)). rewrite mse_0, K_diag in Hopt. exact Hopt.
Qed.

Lemma cond_detp tp m v : cond_dist K tr yr er tp m v ->
  (forall m' v', cond_dist K tr yr er tp m' v' -> m' = m /\ v' = v) /\
  (forall a, v <= mse (length tr) (obs_cov K (fun i => nth i tr 0) (fun i => nth i er 0)) (fun j => K tp (nth j tr 0)) (K tp tp) a).
Proof. intros H. apply (detp (length tr) _ _ _ _ _ (Nat.le_refl _) H). Qed.

Lemma simulatep G (draw : G -> F AX * G) (vsort : list (F AX) -> option (list (F AX))) ts (g : G) :
  (forall g0, exists z, fst (draw g0) = Fin z) -> valid_vsort vsort ->
  NoDup ts -> (forall i, (i < length tr)%nat -> In (nth i tr 0) ts -> nth i er 0 <> 0) ->
  exists sorted out s', Simulate (methodsp solve) draw vsort s (map Fin ts) g
      = Ok (map Fin out, s', gen_after draw (length ts) g) /\
    Permutation ts sorted /\ strictly_increasing sorted /\
    sim_spec K G draw tr yr er sorted out g.
Proof.
  intros Hd Hvs Hnd Hnz.
  destruct (holdsp_lens _ _ _ _ _ _ _ Hs) as (Hy & He & Hn & Edt). pose proof Hs as (Hu & Hg & _).
  destruct (Hvs ts) as (sorted & Es & Hp & Hsd).
  assert (strictly_increasing sorted) as Hst.
  { apply sorted_strict; [|exact Hsd]. eapply Permutation_NoDup; eassumption. }
  destruct (psim_loop_spec (parp AX) K G draw Hd (ppp solve) sig (map FinC om, map Fin ma) 2%nat) with (t := tr) (y := yr) (e := er)
     (todo := sorted) (done := @nil R) (outd := @nil R) (tr := tr) (yr := yr) (er := er) (g0 := g) (g := g) as (out & u & Eo & Ho);
    try assumption; try reflexivity.
  - intros tr0 yr0 er0 tp0 _ _ _ Hok0 Hnz0. 
    destruct (ppp_spec solve Hsolve sig om ma Hok tr0 yr0 er0 tp0 Hok0 Hnz0) as (m & v & E & Hv & Hc).
    exists m, v. split; [rewrite diffs_Fin; exact E|]. split; [exact Hv|exact Hc].
  - apply strict_times_ok, Hinc.
  - cbn [length repeat]. rewrite !app_nil_r. reflexivity.
  - intros i Hi Hin. apply Hnz; [exact Hi|]. eapply Permutation_in; [symmetry; exact Hp|exact Hin].
  - split; [reflexivity|]. intros k Hk. cbn in Hk. lia.
  - destruct (Simulate_pure draw vsort (purePp solve) (@good_datap AX) (map Fin ts) g Hu Hg) as [Hobs _].
    unfold psim in Hobs. rewrite Es in Hobs. rewrite setup_s, <- diffs_Fin in Hobs. cbn [map] in Eo.
    match type of Hobs with context [bind ?b _] => replace b with (Ok (map Fin out, u, gen_after draw (length ([] ++ sorted)) g)) in Hobs by (symmetry; exact Eo) end.
    cbn [bind app] in Hobs.
    destruct (Simulate (methodsp solve) draw vsort s (map Fin ts) g) as [[[o s'] g']|ex| |] eqn:Esim; try discriminate Hobs.
    injection Hobs as -> ->. exists sorted, out, s'. rewrite (Permutation_length Hp). auto.
Qed.
End Top.

(** ** A solver exists *)
Definition unC (z : cx AX) : C := (unFin (fst z), unFin (snd z)).
Lemma unC_map l : map unC (map FinC l) = l.
Proof. rewrite map_map. rewrite <- (map_id l) at 2. apply map_ext. intros [a b]. reflexivity. Qed.
Lemma unC_map2 M : map (map unC) (map (map FinC) M) = M.
Proof. rewrite map_map. rewrite <- (map_id M) at 2. apply map_ext. apply unC_map. Qed.
Lemma valid_solve_exists : exists sv, valid_solve sv.
Proof.
  exists (fun MX rX => let M := map (map unC) MX in let r := map unC rX in
    match excluded_middle_informative (exists x, lin_sol (length M) M r x) with
    | left H => Some (map FinC (proj1_sig (constructive_indefinite_description _ H)))
    | right _ => None
    end).
  intros n M r HM Hrow Hr (x & Hx & Hux). cbv zeta. rewrite unC_map2, unC_map, HM.
  destruct (excluded_middle_informative _) as [H|H]; [|destruct H; exists x; exact Hx].
  destruct (constructive_indefinite_description _ H) as [x' Hx']. exists x'. split; [reflexivity|exact Hx'].
Qed.
