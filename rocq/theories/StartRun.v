(** StartingValue() of the objects of a run (CARp, CARMA, ZCAR): the first acceptable candidate. *)
From Coq Require Import Reals List Arith ZArith Bool String Lra Lia Permutation.
From Coquelicot Require Import Complex.
From Verif Require Import Arith Res ListLemmas KFModel KF1Proof Spec Gauss Emb History InitProof OUpd SimProof KF1R KF1X KF1Main KF1More.
From Verif Require Import Cx CLin SpecCarma KFpModel KFpProof KFpX KFpMain KFpTop SpecModel CarpackModel RootsProof PriorProof LogLikProof LogLikMain CarpackTop CarpackRefute.
From Verif Require Import EngineModel StartModel EngineSpec EngineProof EngineInv EngineClass EngineDriver EngineTop StartProof TotalProof TotalClass TotalTop EngineAX Start1Proof StartTop SeedProof EngineRuns SeedRefute EngineReal StartLaw.
Import ListNotations.
Local Open Scope R_scope.
Local Notation length := List.length.

Set Implicit Arguments.
Unset Strict Implicit.

Lemma quad_loop_skip A (x : F A) l k : forall off, quad_loop A (x :: l) (S off) k = quad_loop A l off k.
Proof. induction k as [|k IH]; intros off; [reflexivity|]. cbn [quad_loop]. change (S off + 1)%nat with (S (off + 1)). change (S off + 2)%nat with (S (off + 2)). rewrite IH. reflexivity. Qed.
Lemma quad_roots_skip A (x : F A) l off n : (0 < n)%nat -> quad_roots A (x :: l) (S off) n = quad_roots A l off n.
Proof.
  intros Hn. unfold quad_roots. rewrite quad_loop_skip. replace (S off + n - 1)%nat with (S (off + n - 1)) by lia. reflexivity.
Qed.
Lemma MA_skip A p q (a b c a' b' c' : F A) tl : (0 < q)%nat -> ExtractMA_carma A p q (a :: b :: c :: tl) = ExtractMA_carma A p q (a' :: b' :: c' :: tl).
Proof. intros Hq. unfold ExtractMA_carma. change (3 + p)%nat with (S (S (S p))). rewrite !quad_roots_skip by exact Hq. reflexivity. Qed.

Section Run.
Variable R0 : rng AX.
Hypothesis HR : valid_rng R0.
Variable dsort : list (F AX) -> option (list (F AX)).
Variable solve : list (list (cx AX)) -> list (cx AX) -> option (list (cx AX)).
Variable si : list (F AX) -> option (list nat).
Hypothesis Hds : valid_dsort dsort.
Hypothesis Hsv : valid_solve solve.
Hypothesis Hsi : valid_sort_index si.
Variables t y e : list R.
Hypothesis Hy : length y = length t.
Hypothesis He : length e = length t.
Hypothesis Ht : strictly_increasing t.
Hypothesis H3 : (3 <= length t)%nat.
Hypothesis Hne : exists a b, In a y /\ In b y /\ a <> b.
Variables smax fmin fmax : R.
Hypothesis HB : run_bounds t y smax fmin fmax.
Variables (p q : nat) (z : bool).
Hypothesis Hp : (2 <= p)%nat.
Hypothesis Hq : z = true \/ (q < p)%nat.

(** the object a run starts from *)
Definition run_object (raw : kfp AX) (b1 : base AX (kpx AX)) : Prop :=
  exists b, walker_new si raw p z (map Fin t) (map Fin y) (map Fin e) = Ok b /\
    SetPrior b (fmul AX (fofZ AX 10) (fsqrt AX (pop_var AX (map Fin y)))) = Ok b1.
Definition nma : nat := if z then 0%nat else q.

Lemma run_object_holds raw b1 : run_object raw b1 -> base_holds b1 t y e (mkB AX (Fin smax) (Fin fmax) (Fin fmin) false) /\
  exists m : list R, x_ma (k_ext (b_kf b1)) = map Fin m /\ length m = p /\ exists l, nth l m 0 <> 0.
Proof using Hsi Hy He Ht Hne HB Hp H3 Hq.
  intros (b & Eb & E1). destruct (walker_prior Hsi Hy He Ht Hne raw z Hp) as (b' & b1' & s & f & F & Eb' & E1' & Hb & HB').
  rewrite Eb in Eb'. injection Eb' as <-. rewrite E1 in E1'. injection E1' as <-. destruct (run_bounds_unique HB HB') as (-> & -> & ->). split; [exact Hb|].
  assert (k_ext (b_kf b1) = k_ext (b_kf b)) as ->.
  { unfold SetPrior in E1. apply bind_Ok in E1. destruct E1 as (bd & _ & Q). injection Q as <-. reflexivity. }
  assert (forall b, carp_new si raw p (map Fin t) (map Fin y) (map Fin e) = Ok b -> x_ma (k_ext (b_kf b)) = map Fin (upd (repeat 0 p) 0 1)) as Hc.
  { intros b2 E. unfold carp_new in E. apply bind_Ok in E. destruct E as (b3 & _ & E). destruct (Nat.eqb_spec p 0); [lia|]. injection E as <-. cbn. apply carp_ma_Fin. }
  unfold walker_new in Eb. destruct z.
  - unfold zcar_new in Eb. apply bind_Ok in Eb. destruct Eb as (b2 & _ & Eb). apply bind_Ok in Eb. destruct Eb as (d & Ed & Eb). apply bind_Ok in Eb. destruct Eb as (m & Em & Eb).
    apply bind_Ok in Eb. destruct Eb as (ma & Ema & Eb). injection Eb as <-.
    rewrite make_dt_Fin in Ed by lia. injection Ed as <-. assert (length (diffs AR t) = length t - 1)%nat as Ld by apply dlen.
    assert (diffs AR t <> []) as Hnd by (intros Q; rewrite Q in Ld; cbn in Ld; lia).
    destruct (vmin_ok (diffs AR t) Hnd) as (mr & Emr & Hin & _). pose proof (eq_trans (eq_sym Em) Emr) as Q. injection Q as ->.
    assert (0 < mr) as Hmr.
    { apply (In_nth _ _ 0) in Hin. destruct Hin as (i & Hi & <-). assert (S i < length t)%nat as Hi2 by (change (F AR) with R in Hi, Ld; clear - Hi Ld; lia). pose proof (@diffs_nth AR t i 0 0 Hi2) as Qd. change (F AR) with R in Qd. rewrite Qd. pose proof (Ht (Nat.lt_succ_diag_r i) Hi2) as Q2. revert Q2. cbn. lra. }
    assert (fdiv AX (fofZ AX 1) (Fin mr) = Fin (1 / mr)) as Ek by (refine (fin_div _ _ _); lra). rewrite Ek in Ema.
    assert (0 < 1 / mr) as Hk by (apply Rdiv_lt_0_compat; lra). rewrite (belcher_Fin p (1 / mr) ltac:(lia) Hk) in Ema. injection Ema as <-.
    eexists. split; [reflexivity|]. split; [rewrite map_length, seq_length; reflexivity|]. exists 0%nat. destruct p as [|p']; [lia|]. cbn [seq map nth]. rewrite pow_O.
    assert (binom (S p' - 1) 0 = 1%Z) as -> by (destruct (S p' - 1)%nat; reflexivity). lra.
  - exists (upd (repeat 0 p) 0 1). split; [exact (Hc _ Eb)|]. split; [refine (@carp_ma_len AR p)|]. apply carp_ma_nz. lia.
Qed.
Lemma ys : 0 < svar y.
Proof using Hne H3 Hy. clear - Hne H3 Hy.
  destruct Hne as (a & b & Ia & Ib & Hab). apply (In_nth _ _ 0) in Ia. apply (In_nth _ _ 0) in Ib. destruct Ia as (i & Hi & Ei). destruct Ib as (j & Hj & Ej).
  destruct (Req_dec a (smean y)) as [Q|Q]; [apply (@svar_pos y j)|apply (@svar_pos y i)]; try lia; try congruence.
Qed.

Local Notation cand := (candidate (R0 := R0) (ma_extra (R0 := R0) nma) p y fmin fmax).
Lemma extra_len a ex a' : ma_extra (R0 := R0) nma a ex a' -> length ex = nma.
Proof. intros (zs & _ & _ & L & ->). rewrite map_length. exact L. Qed.
Lemma extra_ex a : exists ex a', ma_extra (R0 := R0) nma a ex a'.
Proof using HR.
  assert (forall g, exists x, fst (a_randn R0 g) = Fin x /\ True) as HN by (intros g; destruct (vr_randn HR g) as [x E]; exists x; split; [exact E|exact I]).
  destruct (taken_exists HN nma (snd a)) as (l & g' & T & L & _). exists (map Rabs l), (fst a, g'), l. split; [exact T|]. split; [reflexivity|]. split; [exact L|reflexivity].
Qed.
Lemma prior_ok (th : list R) : length th = (3 + p + nma)%nat -> 0 < nth 1 th 0 -> exists pr, LogPrior AX (map Fin th) = Ok (Fin pr).
Proof.
  intros HL Hs. eexists. apply LogPrior_main; [rewrite HL; apply le_n_S, le_n_S, Nat.le_0_l|exact Hs].
Qed.

Lemma walker_first raw b1 fuel j g th g' : run_object raw b1 -> first_good cand (in_prior smax fmin fmax) j g th g' -> (j <= fuel)%nat ->
  exists b', o_Start (walker_par R0 dsort solve fuel p q z) b1 g = Ok (map Fin th, b', g').
Proof using All.
  intros Ho Hfg Hj. destruct (run_object_holds Ho) as (Hb & m & Em & Hm). assert (okb (static_of b1) b1) as Hok by (split; [exact (proj1 Hb)|reflexivity]).
  assert (nma = 0%nat -> forall C early, (forall th, v_MA C th = Ok (carp_ma AX p)) -> C = pcls solve p (fun _ => Ok (carp_ma AX p)) (LogPrior AX) ->
    exists b', start_while dsort solve p C (fun g => ([], g)) early false fuel b1 g = Ok (map Fin th, b', g')) as HC.
  { intros En C early _ ->. refine (@loop_first R0 HR dsort Hds t y e Ht H3 smax fmin fmax HB p Hp (ma_extra (R0 := R0) nma) nma extra_len ys Hy solve Hsv _ _ (fun g => ([], g)) _ _ _ early false b1 Hb fuel j b1 g th g' Hok _ Hfg Hj).
    - intros [gb a] ex [gb' a'] (zs & T & Eb & L & ->). cbn [fst snd] in *. rewrite En in L. destruct zs; [|discriminate]. inversion T; subst. reflexivity.
    - intros tl _. exists (upd (repeat 0 p) 0 1). split; [split; [refine (@carp_ma_len AR p)|apply carp_ma_nz; lia]|]. intros. rewrite carp_ma_Fin. reflexivity.
    - exact prior_ok.
    - right. exists m. split; [exact Em|exact Hm]. }
  unfold walker_par. destruct z eqn:Ez; [|destruct (Nat.eqb_spec q 0) as [Eq|Eq]]; cbn [o_Start par_zcar par_carp par_carma parp].
  - apply HC; try reflexivity. unfold nma. rewrite Ez. reflexivity.
  - apply HC; try reflexivity. unfold nma. rewrite Ez. exact Eq.
  - assert (nma = q) as En by (unfold nma; rewrite Ez; reflexivity). destruct Hq as [|Hq']; [congruence|].
    refine (@loop_first R0 HR dsort Hds t y e Ht H3 smax fmin fmax HB p Hp (ma_extra (R0 := R0) nma) nma extra_len ys Hy solve Hsv _ _ (@StartingMA AX R0 q) _ _ _ true true b1 Hb fuel j b1 g th g' Hok _ Hfg Hj).
    + intros [gb a] ex [gb' a'] (zs & T & Eb & L & ->). cbn [fst snd] in *. subst gb'. unfold StartingMA. rewrite <- En, <- L, (taken_draws T gb). f_equal. change (F AX) with xr. rewrite !map_map. apply map_ext. intros x. reflexivity.
    + intros tl Ltl. rewrite En in Ltl. destruct (ExtractMA_carma_main p q (0 :: 0 :: 0 :: tl) Hq') as (ma & Ema & Lm & Hm0 & _); [cbn [length]; lia|]. exists ma.
      split; [split; [exact Lm|exists 0%nat; rewrite Hm0; lra]|]. intros a b c. rewrite <- Ema. refine (@MA_skip AX p q (Fin a) (Fin b) (Fin c) (Fin 0) (Fin 0) (Fin 0) (map Fin tl) _). lia.
    + exact prior_ok.
    + left. reflexivity.
Qed.
Lemma walker_only raw b1 fuel g : run_object raw b1 -> (forall g th om g', cand g th om g' -> NoDup om) ->
  (exists j th g' b', (j <= fuel)%nat /\ first_good cand (in_prior smax fmin fmax) j g th g' /\ o_Start (walker_par R0 dsort solve fuel p q z) b1 g = Ok (map Fin th, b', g')) \/
  (o_Start (walker_par R0 dsort solve fuel p q z) b1 g = Diverge /\ forall j th g', first_good cand (in_prior smax fmin fmax) j g th g' -> (fuel < j)%nat).
Proof using All.
  intros Ho Hall. destruct (run_object_holds Ho) as (Hb & m & Em & Hm). assert (okb (static_of b1) b1) as Hok by (split; [exact (proj1 Hb)|reflexivity]).
  assert (nma = 0%nat -> forall C early, C = pcls solve p (fun _ => Ok (carp_ma AX p)) (LogPrior AX) ->
    (exists j th g' b', (j <= fuel)%nat /\ first_good cand (in_prior smax fmin fmax) j g th g' /\ start_while dsort solve p C (fun g => ([], g)) early false fuel b1 g = Ok (map Fin th, b', g')) \/
    (start_while dsort solve p C (fun g => ([], g)) early false fuel b1 g = Diverge /\ forall j th g', first_good cand (in_prior smax fmin fmax) j g th g' -> (fuel < j)%nat)) as HC.
  { intros En C early ->. refine (@loop_only R0 HR dsort Hds t y e Ht H3 smax fmin fmax HB p Hp (ma_extra (R0 := R0) nma) nma extra_len ys Hy solve Hsv _ _ (fun g => ([], g)) _ _ _ early false b1 Hb fuel extra_ex Hall b1 g Hok _).
    - intros [gb a] ex [gb' a'] (zs & T & Eb & L & ->). cbn [fst snd] in *. rewrite En in L. destruct zs; [|discriminate]. inversion T; subst. reflexivity.
    - intros tl _. exists (upd (repeat 0 p) 0 1). split; [split; [refine (@carp_ma_len AR p)|apply carp_ma_nz; lia]|]. intros. rewrite carp_ma_Fin. reflexivity.
    - exact prior_ok.
    - right. exists m. split; [exact Em|exact Hm]. }
  unfold walker_par. destruct z eqn:Ez; [|destruct (Nat.eqb_spec q 0) as [Eq|Eq]]; cbn [o_Start par_zcar par_carp par_carma parp].
  - apply HC; try reflexivity. unfold nma. rewrite Ez. reflexivity.
  - apply HC; try reflexivity. unfold nma. rewrite Ez. exact Eq.
  - assert (nma = q) as En by (unfold nma; rewrite Ez; reflexivity). destruct Hq as [|Hq']; [congruence|].
    refine (@loop_only R0 HR dsort Hds t y e Ht H3 smax fmin fmax HB p Hp (ma_extra (R0 := R0) nma) nma extra_len ys Hy solve Hsv _ _ (@StartingMA AX R0 q) _ _ _ true true b1 Hb fuel extra_ex Hall b1 g Hok _).
    + intros [gb a] ex [gb' a'] (zs & T & Eb & L & ->). cbn [fst snd] in *. subst gb'. unfold StartingMA. rewrite <- En, <- L, (taken_draws T gb). f_equal. change (F AX) with xr. rewrite !map_map. apply map_ext. intros x. reflexivity.
    + intros tl Ltl. rewrite En in Ltl. destruct (ExtractMA_carma_main p q (0 :: 0 :: 0 :: tl) Hq') as (ma & Ema & Lm & Hm0 & _); [cbn [length]; lia|]. exists ma.
      split; [split; [exact Lm|exists 0%nat; rewrite Hm0; lra]|]. intros a b c. rewrite <- Ema. refine (@MA_skip AX p q (Fin a) (Fin b) (Fin c) (Fin 0) (Fin 0) (Fin 0) (map Fin tl) _). lia.
    + exact prior_ok.
    + left. reflexivity.
Qed.
(** what is accepted *)
Lemma walker_candidate g th om g' : cand g th om g' ->
  length th = (3 + p + nma)%nat /\ length om = p /\ ARRoots AX p (map Fin th) = Ok (map FinC om) /\ 0 < nth 0 th 0 /\ 51 / 100 <= nth 1 th 0 <= 199 / 100 /\
  (in_prior smax fmin fmax th om <->
     nth 0 th 0 <= smax /\ pairwise_apart om /\ (Nat.odd p = true -> fmin < - fst (nth (p - 1) om (RtoC 0)) / (2 * PI))).
Proof using HR Hy Ht H3 Hne HB Hp.
  intros Hc. destruct (@cand_facts R0 HR t y Ht H3 smax fmin fmax HB p Hp (ma_extra (R0 := R0) nma) nma extra_len ys Hy g th om g' Hc) as (L & Lo & HA & H).
  split; [exact L|]. split; [exact Lo|]. split; [|exact H]. destruct th as [|a [|b [|c tl]]]; try (cbn in L; clear - L; lia). exact (HA a b c).
Qed.
Lemma walker_candidates g : exists th om g', cand g th om g'.
Proof using HR Hy Ht H3 Hne HB Hp. exact (@cand_exists R0 HR t y Ht H3 smax fmin fmax HB p Hp (ma_extra (R0 := R0) nma) ys Hy extra_ex g). Qed.

(** ZCARMA: the same with the logit of kappa after the autoregressive coordinates.  The object: built and given its prior as in a run. *)
Local Notation candk := (candidate (R0 := R0) (kappa_extra (R0 := R0)) p y fmin fmax).
Lemma kappa_len a ex a' : kappa_extra (R0 := R0) a ex a' -> length ex = 1%nat.
Proof. intros (u & _ & _ & _ & ->). reflexivity. Qed.
Lemma MAz_skip kl kh (a b c a' b' c' : F AX) tl : ExtractMA_zcarma AX p kl kh (a :: b :: c :: tl) = ExtractMA_zcarma AX p kl kh (a' :: b' :: c' :: tl).
Proof. unfold ExtractMA_zcarma. change (3 + p)%nat with (S (S (S p))). reflexivity. Qed.
Section K.
Variables kl kh : R.
Hypothesis Hk : 0 < kl < kh.
Lemma logit_Fin u : 0 < u < 1 -> logit AX (Fin u) = Fin (ln (u / (1 - u))).
Proof using.
  intros Hu. unfold logit. change (fsub AX (fofZ AX 1) (Fin u)) with (Fin (1 - u)).
  assert (fdiv AX (Fin u) (Fin (1 - u)) = Fin (u / (1 - u))) as -> by (refine (fin_div _ _ _); lra). refine (fin_log _ _). apply Rdiv_lt_0_compat; lra.
Qed.
Lemma kappa_first raw b1 fuel j g th g' : z = false -> run_object raw b1 -> first_good candk (in_prior smax fmin fmax) j g th g' -> (j <= fuel)%nat ->
  exists b', o_Start (par_zcarma R0 dsort solve fuel p (Fin kl : F AX) (Fin kh)) b1 g = Ok (map Fin th, b', g').
Proof using All.
  intros Ez Ho Hfg Hj. destruct (run_object_holds Ho) as (Hb & m & Em & Hm). assert (okb (static_of b1) b1) as Hok by (split; [exact (proj1 Hb)|reflexivity]).
  cbn [o_Start par_zcarma parp].
  refine (@loop_first R0 HR dsort Hds t y e Ht H3 smax fmin fmax HB p Hp (kappa_extra (R0 := R0)) 1%nat kappa_len ys Hy solve Hsv _ _ (@start_kappa AX R0) _ _ _ false true b1 Hb fuel j b1 g th g' Hok _ Hfg Hj).
  - intros [gb a] ex [gb' a'] (u & Eu & Ea & Hu & ->). cbn [fst snd] in *. subst a'. unfold start_kappa, runiform, on_b. cbn [fst snd]. change (fofZ AX 0) with (Fin 0). change (fofZ AX 1) with (Fin 1).
    rewrite Eu. rewrite (logit_Fin Hu). reflexivity.
  - intros tl Ltl. destruct (ExtractMA_zcarma_main p kl kh (0 :: 0 :: 0 :: tl) ltac:(lia) ltac:(cbn [length]; lia) Hk) as (ma & kappa & EM & Hkap & Lm & _ & Hmp). exists ma. split.
    + split; [exact Lm|]. exists O. intros Hz. assert (ma_poly ma (RtoC 0) = RtoC 1) as H1.
      { rewrite Hmp. unfold Cdiv. rewrite Cmult_0_l, Cplus_0_r. generalize (p - 1)%nat as n. induction n as [|n IH]; [reflexivity|]. cbn [Cpown]. rewrite IH. ring. }
      unfold ma_poly in H1. destruct ma as [|c0 ma]; [cbn in Lm; lia|]. cbn [length] in H1.
      rewrite Csum_first in H1 by (intros k; cbn [Cpown]; ring). cbn [nth Cpown] in *. subst c0.
      apply (f_equal fst) in H1. cbn in H1. lra.
    + intros a b c. rewrite <- EM. exact (MAz_skip (Fin kl) (Fin kh) (Fin a) (Fin b) (Fin c) (Fin 0) (Fin 0) (Fin 0) (map Fin tl)).
  - intros th0 L0 Hs. destruct (LogPrior_z_main p th0 ltac:(lia) Hs) as (D & _ & _ & Epr). eexists. exact Epr.
  - left. reflexivity.
Qed.
(** kappa itself: spread over the bounds as the uniform variate is over 0..1 *)
Lemma kappa_value g th om g' : candk g th om g' -> exists u gb gb' (ma : list R), b_uniform R0 (Fin 0) (Fin 1) gb = (Fin u, gb') /\ 0 < u < 1 /\
  ExtractMA_zcarma AX p (Fin kl) (Fin kh) (map Fin th) = Ok (map Fin ma) /\ length ma = p /\
  forall s, ma_poly ma s = Cpown (Cplus (RtoC 1) (Cdiv s (RtoC (kl + u * (kh - kl))))) (p - 1).
Proof using All.
  intros Hc. destruct (@cand_facts R0 HR t y Ht H3 smax fmin fmax HB p Hp (kappa_extra (R0 := R0)) 1%nat kappa_len ys Hy g th om g' Hc) as (L & _).
  destruct Hc as (u1 & a1 & u2 & a2 & c & w & wl & gb1 & ex & gx & a3 & c1 & gb2 & sd & mu & gb3 & c2 & gb4 & T1 & L1 & Hperm & Hsort & T2 & L2 & Ew & Hlast & (u & Eu & _ & Hu & ->) & _ & _ & _ & _ & _ & Eth & _).
  exists u, gb1, gx. cbn [fst] in Eu.
  destruct (ExtractMA_zcarma_main p kl kh th ltac:(lia) ltac:(lia) Hk) as (ma & kappa & EM & Hkap & Lm & El & Hmp). exists ma.
  split; [exact Eu|]. split; [exact Hu|]. split; [exact EM|]. split; [exact Lm|].
  assert (nth (3 + p) th 0 = ln (u / (1 - u))) as En.
  { rewrite app_assoc, app_assoc in Eth. match type of Eth with _ = ?l ++ _ => set (pre := l) in Eth end.
    assert (length pre = (3 + p)%nat) as Lp by (rewrite Eth, app_length in L; cbn [length] in L; lia). rewrite Eth, <- Lp, app_nth2, Nat.sub_diag by lia. reflexivity. }
  assert (0 < (kappa - kl) / (kh - kl) < 1) as Hv.
  { split; [apply Rdiv_lt_0_compat; lra|]. apply Rmult_lt_reg_r with (kh - kl); [lra|]. unfold Rdiv. rewrite Rmult_assoc, Rinv_l by lra. lra. }
  rewrite (logit_Fin Hv), En in El. injection El as El. set (v := (kappa - kl) / (kh - kl)) in *.
  assert (v = u) as Ev.
  { apply ln_inv in El; [|apply Rdiv_lt_0_compat; lra|apply Rdiv_lt_0_compat; lra]. assert (v * (1 - u) = u * (1 - v)) as Q; [|lra].
    apply (f_equal (fun x => x * ((1 - v) * (1 - u)))) in El. replace (v / (1 - v) * ((1 - v) * (1 - u))) with (v * (1 - u)) in El by (field; lra).
    replace (u / (1 - u) * ((1 - v) * (1 - u))) with (u * (1 - v)) in El by (field; lra). exact El. }
  assert (kl + u * (kh - kl) = kappa) as -> by (rewrite <- Ev; unfold v; field; lra). exact Hmp.
Qed.
End K.
End Run.

(** two measurements: a run of even order never returns *)
Lemma two_never (R0 : rng AX) dsort solve si chol (t y e : list R) fuel N burnin p q nw z thin (init : list R) raw v0 l0 a0 (g : gen R0) :
  valid_rng R0 -> valid_dsort dsort -> valid_sort_index si -> valid_chol chol -> length t = 2%nat -> length y = 2%nat -> length e = 2%nat ->
  strictly_increasing t -> (exists a b, In a y /\ In b y /\ a <> b) -> (2 <= p)%nat -> Nat.even p = true -> z = true \/ (q < p)%nat -> (0 < nw)%nat -> (0 < N)%nat ->
  List.length v0 = walker_dim p q z -> moves R0 (walker_dim p q z) ->
  let r := RunCarmaSampler (A := AX) (R := R0) dsort solve si chol fuel N burnin (map Fin t) (map Fin y) (map Fin e) p q nw z thin (map Fin init) raw v0 l0 a0 g in
  r = Throw Eruntime \/ r = Diverge.
Proof.
  intros HR Hds Hsi Hch Lt Ly Le Ht Hne Hp Hev Hq Hnw HN Hv0 Hmv r.
  destruct (@carma_outcomes_real R0 HR dsort solve si chol Hds Hsi Hch t y e ltac:(lia) ltac:(lia) Ht Hne fuel N burnin p q nw z thin (map Fin init) raw v0 l0 a0 g Hp Hq Hnw Hv0) as [(w & g' & E)|H]; [|exact H].
  exfalso. destruct (walker_prior Hsi (ltac:(lia) : length y = length t) (ltac:(lia) : length e = length t) Ht Hne raw z Hp) as (b & b1 & smax & fmin & fmax & _ & _ & _ & HB).
  destruct (@carma_real R0 HR dsort solve si chol Hds Hsi Hch t y e ltac:(lia) ltac:(lia) Ht Hne smax fmin fmax HB fuel N burnin p q nw z thin init raw v0 l0 a0 g w g' (or_introl Hev) Hmv E) as [_ HS].
  destruct (HS 0%nat HN) as (th & lp & roots & _ & Lth & _ & EA & Hin).
  destruct HB as (_ & Hf & _ & (i & Hi & Hgap) & Hspan). assert (i = 0%nat) as -> by lia. rewrite Lt in Hspan. change (2 - 1)%nat with 1%nat in Hspan.
  assert (fmin = fmax) as Eff. { rewrite Hspan, <- Hgap. field. lra. }
  destruct (ARRoots_main p th ltac:(rewrite Lth; unfold walker_dim; destruct z; lia)) as (rs & Er & Lr & _).
  rewrite EA in Er. injection Er as Er. destruct roots as [|r0 roots].
  - destruct rs; [cbn in Lr; lia|discriminate].
  - pose proof (pr_width _ _ _ _ _ Hin r0 (or_introl eq_refl)). lra.
Qed.
