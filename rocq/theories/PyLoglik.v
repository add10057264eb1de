(** carma_pack.py: the 'loglik' entries of CarmaSample and Car1Sample. *)
From Coq Require Import Reals List Arith ZArith Lra Lia Bool Permutation.
From Coquelicot Require Import Complex.
From Verif Require Import Arith Res ListLemmas KFModel Spec Gauss Emb KF1R History InitProof KF1X OUpd KF1Main KF1More.
From Verif Require Import Cx KFpModel KFpProof SpecCarma CLin KFpX KFpMain KFpTop KFpMore SpecModel CarpackModel RootsProof PriorProof LogLikProof LogLikMain CarpackTop CarpackRefute PyModel PyDerive PyPredict.
Import ListNotations.
Local Open Scope R_scope.

(** The prior density of the measurement error scale is far below 1 everywhere. *)
Lemma log_sichi_small s : 0 < s -> log_sichi s < -24.
Proof.
  intros Hs. unfold log_sichi. set (x := 25 / (26 * s)).
  assert (0 < x) as Hx by (unfold x; apply Rdiv_lt_0_compat; lra).
  assert (ln s = - ln x - ln (26 / 25)) as El.
  { assert (s = / (x * (26 / 25))) as Es by (unfold x; field; lra). rewrite Es at 1.
    rewrite ln_Rinv, ln_mult by (try lra; apply Rmult_lt_0_compat; lra). ring. }
  assert (forall z, 0 < z -> ln z <= z - 1) as Hln.
  { intros z Hz. pose proof (exp_ineq1_le (ln z)) as H. rewrite exp_ln in H by exact Hz. lra. }
  pose proof (Hln x Hx) as H1. pose proof (Hln (26 / 25) ltac:(lra)) as H2. rewrite El.
  assert (50 / (2 * s) = 26 * x) as -> by (unfold x; field; lra). lra.
Qed.

(** ** CarmaSample *)
Section Carma.
Variable solve : list (list (cx AX)) -> list (cx AX) -> option (list (cx AX)).
Hypothesis Hsolve : valid_solve solve.
Variables (p : nat) (maf : list (F AX) -> res (list (F AX))).
Variables (t y e : list R) (smax fmin fmax : R).
Hypothesis Hinc : strictly_increasing t.
Hypothesis Hp : (2 <= p)%nat.
(** the moving average vector of a row, the roots and the entry *)
Definition entry (th : list R) (x : R) : Prop :=
  exists ll om ma, ARRoots AX p (map Fin th) = Ok (map FinC om) /\ maf (map Fin th) = Ok (map Fin ma) /\
    is_loglik (carma_cov (nth 0 th 0 * nth 0 th 0 / carma_acv 1 ma om 0) ma om) t y e (nth 1 th 0) (nth 2 th 0) ll /\ x = ll + log_sichi (nth 1 th 0).
Definition row_ok (th : list R) : Prop :=
  (3 + p <= length th)%nat /\ nth 0 th 0 <> 0 /\ 0 < nth 1 th 0 /\
  (exists ma, maf (map Fin th) = Ok (map Fin ma) /\ length ma = p /\ exists l, nth l ma 0 <> 0) /\
  exists om : list C, ARRoots AX p (map Fin th) = Ok (map FinC om) /\ NoDup om.
Lemma LD_keeps (b b' : base AX (kpx AX)) bd th v : base_holds b t y e bd -> LogDensity (pcls solve p maf (LogPrior AX)) b th = Ok (v, b') -> base_holds b' t y e bd.
Proof.
  intros (Hw & H1 & H2 & H3 & H4 & H5) E.
  destruct (@LD_pure _ _ _ _ (pcls solve p maf (LogPrior AX)) (@par_of AX) (fun om ma => (om, ma)) (@goodp AX) (@pfp AX solve) (pureFp solve) (@good_datap AX)
           (@Hsetp AX solve p maf (LogPrior AX)) b th Hw) as [_ H]. destruct (H _ _ E) as [Es Hw'].
  split; [exact Hw'|].
  pose proof (f_equal (@st_time _) Es) as S1. pose proof (f_equal (@st_y _) Es) as S2. pose proof (f_equal (@st_yerr _) Es) as S3.
  pose proof (f_equal (@st_ktime _) Es) as S4. pose proof (f_equal (@st_bounds _) Es) as S5. split; [exact (eq_trans S1 H1)|]. split; [exact (eq_trans S2 H2)|].
  split; [exact (eq_trans S3 H3)|]. split; [exact (eq_trans S4 H4)|exact (eq_trans S5 H5)].
Qed.
Lemma py_logliks_spec : forall rows (b : base AX (kpx AX)), base_holds b t y e (mkB AX (Fin smax) (Fin fmax) (Fin fmin) true) ->
  (forall th, In th rows -> row_ok th) ->
  exists xs, py_logliks (pcls solve p maf (LogPrior AX)) b (map (map Fin) rows) = Ok (map Fin xs) /\ Forall2 entry rows xs.
Proof using All.
  induction rows as [|th rows IH]; intros b Hb Hr.
  - exists []. split; [reflexivity|constructor].
  - destruct (Hr th (or_introl eq_refl)) as (HL & Ht0 & Ht1 & (ma & Ema & Lma & Nma) & om & Eom & Hnd).
    destruct (LDp_all solve p maf (LogPrior AX) b t y e th ma om smax fmin fmax true (log_sichi (nth 1 th 0)) Hsolve Hb Hinc Hp HL Ema Lma Nma) as (x & b' & EL & HLL);
      try assumption; try (intros F; discriminate F).
    + intros _. apply LogPrior_main; [lia|exact Ht1].
    + intros _. exact Hnd.
    + destruct (IH b' (LD_keeps _ _ _ _ _ Hb EL)) as (xs & Exs & Hf); [intros th' Hin; apply Hr; right; exact Hin|].
      exists ((x + log_sichi (nth 1 th 0)) :: xs). split.
      * cbn [map py_logliks]. change (F AX) with xr in *. rewrite EL. cbn [bind]. change (F AX) with xr in *. rewrite Exs. reflexivity.
      * constructor; [|exact Hf]. exists x, om, ma. repeat split; assumption.
Qed.
End Carma.

(** ** The log-likelihood is determined by the data and the parameters *)
Lemma incr_firstn (t : list R) i : strictly_increasing t -> strictly_increasing (firstn i t).
Proof.
  intros H a b Hab Hb. rewrite firstn_length in Hb. rewrite !nth_firstn_lt by lia. apply H; lia.
Qed.
Lemma obs_cov_sym (K : R -> R -> R) t e : (forall a b, K a b = K b a) -> forall i j, obs_cov K t e i j = obs_cov K t e j i.
Proof. intros H i j. unfold obs_cov. rewrite H. destruct (Nat.eqb_spec i j) as [->|Hn]; [rewrite Nat.eqb_refl; reflexivity|]. destruct (Nat.eqb_spec j i); [congruence|reflexivity]. Qed.
Lemma loglik_unique K t y e sc mu x x' : (forall a b, K a b = K b a) ->
  (forall i, (i <= length t)%nat -> pd (length (firstn i t)) (obs_cov K (fun k => nth k (firstn i t) 0) (fun k => nth k (firstn i (map (fun x => sqrt sc * x) e)) 0))) ->
  is_loglik K t y e sc mu x -> is_loglik K t y e sc mu x' -> x = x'.
Proof.
  intros Hsym Hpd (m & v & H & ->) (m' & v' & H' & ->). unfold gauss_ll. apply Rsum_ext. intros i Hi.
  destruct (H i Hi) as [Hc _]. destruct (H' i Hi) as [Hc' _]. unfold cond_dist in Hc, Hc'.
  destruct (blp_unique _ _ _ _ _ _ _ _ _ (obs_cov_sym K _ _ Hsym) (Hpd i ltac:(lia)) Hc Hc') as [E1 E2].
  assert (v i = v' i) as -> by lra. rewrite E1. reflexivity.
Qed.
Lemma loglik_unique_carma t y e sc mu sig om ma x x' : strictly_increasing t -> carma_ok sig om ma ->
  is_loglik (carma_cov sig ma om) t y e sc mu x -> is_loglik (carma_cov sig ma om) t y e sc mu x' -> x = x'.
Proof.
  intros Hinc Hok. destruct valid_solve_exists as (sv & Hsv). apply loglik_unique; [intros; apply K_sym|].
  intros i Hi. apply (carma_pd sv Hsv sig om ma Hok). apply strict_times_ok, incr_firstn, Hinc.
Qed.
Lemma loglik_unique_ou t y e sc mu sig w x x' : strictly_increasing t -> 0 < sig -> 0 < w ->
  is_loglik (ou_cov sig w) t y e sc mu x -> is_loglik (ou_cov sig w) t y e sc mu x' -> x = x'.
Proof.
  intros Hinc Hsig Hw. apply loglik_unique; [intros; unfold ou_cov; rewrite Rabs_minus_sym; reflexivity|].
  intros i Hi. apply ou_pd; try assumption. intros a b Hab Hb. apply (incr_firstn t i Hinc); assumption.
Qed.

(** ** CarmaSample: no entry of 'loglik' is the log-likelihood of its sample *)
Theorem CarmaSample_loglik_wrong solve (si : list (F AX) -> option (list nat)) (raw : kfp AX) p q (t y e : list R) (rows : list (list R)) :
  valid_solve solve -> valid_sort_index si -> goodp raw ->
  (2 <= length t)%nat -> length y = length t -> length e = length t -> strictly_increasing t -> (2 <= p)%nat -> (q < p)%nat ->
  (forall th, In th rows -> (3 + p + q <= length th)%nat /\ nth 0 th 0 <> 0 /\ 0 < nth 1 th 0 /\
     forall om : list C, ARRoots AX p (map Fin th) = Ok (map FinC om) -> NoDup om) ->
  exists b, carp_new si raw p (map Fin t) (map Fin y) (map Fin e) = Ok b /\
    forall b1, touched (carma_cls solve p q) (@setparp AX) b b1 ->
    exists xs, CarmaSample_loglik (carma_cls solve p q) b1 (map (map Fin) rows) = Ok (map Fin xs) /\
      Forall2 (fun th x => exists om ma ll, ARRoots AX p (map Fin th) = Ok (map FinC om) /\ ExtractMA_carma AX p q (map Fin th) = Ok (map Fin ma) /\
        let K := carma_cov (nth 0 th 0 * nth 0 th 0 / carma_acv 1 ma om 0) ma om in
        is_loglik K t y e (nth 1 th 0) (nth 2 th 0) ll /\ x = ll + log_sichi (nth 1 th 0) /\ x < ll - 24 /\
        ~ is_loglik K t y e (nth 1 th 0) (nth 2 th 0) x) rows xs.
Proof.
  intros Hsv Hsi Hg Hn Hy He Hinc Hp Hq Hrows.
  destruct (carp_new_Fin si raw p t y e Hsi Hn Hy He Hinc ltac:(lia)) as (b & smax & fmin & fmax & E & Hb & Hd).
  exists b. split; [exact E|]. intros b1 Ht.
  destruct (carp_new_wfb AX si raw p (map Fin t) (map Fin y) (map Fin e) b ltac:(rewrite !map_length; assumption) ltac:(rewrite !map_length; assumption) Hg E) as (_ & _ & _ & Hgb & _ & _).
  pose proof (holds_touchedp solve p _ (LogPrior AX) b b1 t y e _ Hb Hgb Ht) as Hb1.
  destruct (py_logliks_spec solve Hsv p (ExtractMA_carma AX p q) t y e smax fmin fmax Hinc Hp rows (SetMLE b1 true)) as (xs & Exs & Hf).
  - apply (SetMLE_holds _ b1 t y e smax fmin fmax false true Hb1).
  - intros th Hin. destruct (Hrows th Hin) as (HL & Ht0 & Ht1 & Hnd). split; [lia|]. split; [exact Ht0|]. split; [exact Ht1|]. split.
    + destruct (ExtractMA_carma_main p q th Hq HL) as (ma & Em & Lm & H0 & _). exists ma. split; [exact Em|]. split; [exact Lm|]. exists O. rewrite H0. lra.
    + destruct (ARRoots_main p th ltac:(lia)) as (om & Eo & _). exists om. split; [exact Eo|apply Hnd, Eo].
  - exists xs. split; [exact Exs|].
    eapply Forall2_impl_in; [|exact Hf]. intros th x Hin (ll & om & ma & Eo & Em & Hll & Ex).
    destruct (Hrows th Hin) as (HL & Ht0 & Ht1 & Hnd). pose proof (log_sichi_small _ Ht1) as Hs. exists om, ma, ll.
    split; [exact Eo|]. split; [exact Em|]. cbv zeta. split; [exact Hll|]. split; [exact Ex|]. split; [lra|].
    intros Hx. enough (x = ll) by lra. refine (loglik_unique_carma _ _ _ _ _ _ _ _ _ _ Hinc _ Hx Hll).
    destruct (ARRoots_main p th ltac:(lia)) as (om' & Eo' & Lo & Hneg & Hcc & _). assert (om' = om) as -> by (apply map_FinC_inj; congruence).
    destruct (ExtractMA_carma_main p q th Hq HL) as (ma' & Em' & Lm & H0 & _). assert (ma' = ma) as -> by (apply map_Fin_inj; congruence).
    specialize (Hnd om Eo). assert (stable_roots om) as Hst by (split; [exact Hnd|split; [exact Hneg|intros z Hz; apply conj_closed_in; assumption]]).
    assert (exists l, nth l ma 0 <> 0) as Hex by (exists O; rewrite H0; lra).
    repeat split; try apply Hst; try lia; try exact Hex. apply Rdiv_lt_0_compat; [nra|]. apply carma_acv_pos; [exact Hst|lia|congruence|exact Hex].
Qed.

(** ** Car1Sample: the entries are the log-likelihoods *)
Theorem Car1Sample_loglik_right (si : list (F AX) -> option (list nat)) (raw : kf1 AX) (t y e : list R) :
  valid_sort_index si -> (2 <= length t)%nat -> length y = length t -> length e = length t -> strictly_increasing t ->
  exists b smax fmin fmax, car1_new si raw (map Fin t) (map Fin y) (map Fin e) = Ok b /\ data_bounds t y smax fmin fmax /\
  forall rows lps, (forall th, In th rows -> (4 <= length th)%nat /\ nth 0 th 0 <> 0 /\ in_prior1 smax fmin fmax th) ->
    (** the log-posteriors recorded by the sampler: values of LogDensity in some states of the object *)
    Forall2 (fun th lp => exists b1 b2, touched (car1_cls AX) (@setpar1 AX) b b1 /\ LogDensity (car1_cls AX) b1 (map Fin th) = Ok (lp, b2)) rows lps ->
    exists xs, Car1Sample_loglik AX (map (map Fin) rows) lps = Ok (map Fin xs) /\
      Forall2 (fun th x => is_loglik (car1_K th) t y e (nth 1 th 0) (nth 2 th 0) x) rows xs.
Proof.
  intros Hsi Hn Hy He Hinc. destruct (base_new_Fin _ si raw t y e Hsi Hn Hy He Hinc) as (b & smax & fmin & fmax & E & Hb & Hd).
  exists b, smax, fmin, fmax. split; [exact E|]. split; [exact Hd|]. intros rows lps Hr H.
  induction H as [|th lp rows lps (b1 & b2 & Ht & EL) H IH].
  - exists []. split; [reflexivity|constructor].
  - destruct IH as (xs & Exs & Hf); [intros th' H'; apply Hr; right; exact H'|].
    destruct (Hr th (or_introl eq_refl)) as (HL & Ht0 & Hin). pose proof (holds_touched1 b b1 t y e _ Hb Ht) as Hb1.
    destruct (LD1_inside b1 t y e th smax fmin fmax false Hb1 Hinc HL Hin Ht0) as (m & v & b' & EL' & _ & _ & _ & _ & Hc).
    rewrite EL in EL'. injection EL' as -> _. eexists (_ :: xs). split.
    + cbn [map Car1Sample_loglik]. change (F AX) with xr in *. rewrite LogPrior_main by (lia || (destruct Hin as (_ & _ & ?); lra)). cbn [bind]. rewrite Exs. cbn [bind map].
      f_equal. f_equal. cbn [AX fsub xsub xadd xneg]. reflexivity.
    + constructor; [|exact Hf]. exists (fun i => nth i m 0), (fun i => nth i v 0). split; [exact Hc|]. ring.
Qed.
