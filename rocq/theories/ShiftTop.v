(** The samplers under a change of the origins of time and of the measured values, and of the direction of time. *)
From Coq Require Import Reals List Arith ZArith Bool String Lra Lia Permutation.
From Coquelicot Require Import Complex.
From Verif Require Import Arith Res ListLemmas KFModel KF1Proof Spec Gauss Emb History InitProof OUpd SimProof KF1R KF1X KF1Main KF1More.
From Verif Require Import Cx KFpModel KFpProof KFpX KFpMain KFpTop SpecModel CarpackModel RootsProof PriorProof LogLikProof LogLikMain CarpackTop CarpackRefute.
From Verif Require Import EngineModel StartModel EngineSpec EngineProof EngineInv CholProof RamProof EngineHist EngineClass EngineDriver EngineTop StartProof TotalProof TotalClass TotalTop EngineAX Start1Proof SeedProof EngineRuns SeedRefute EngineReal Sym ShiftProof.
Import ListNotations.
Local Open Scope R_scope.

Set Implicit Arguments.
Unset Strict Implicit.
Local Notation length := List.length.

(** a normal variate is its mean plus a variate with mean zero: boost's normal_distribution (random.cpp L55-62 draws from it) *)
Definition shift_normal (R0 : rng AX) : Prop :=
  forall mu sd c g, 0 <= sd -> b_normal R0 (Fin (mu + c)) (Fin sd) g = (xadd (fst (b_normal R0 (Fin mu) (Fin sd) g)) (Fin c), snd (b_normal R0 (Fin mu) (Fin sd) g)).

Lemma lower_0 n v : lower_by (n * ln 1) v = v.
Proof. rewrite ln_1. destruct v; cbn; try reflexivity. f_equal. ring. Qed.

Lemma for_total T (body : nat -> T -> res T) k : forall a s0, (forall i s, (a <= i < a + k)%nat -> exists s', body i s = Ok s') -> exists s', for_ a k body s0 = Ok s'.
Proof.
  induction k as [|k IH]; intros a s0 H; cbn [for_]; [eexists; reflexivity|]. destruct (H a s0 ltac:(lia)) as (s1 & E). rewrite E. cbn [bind].
  apply IH. intros i s2 Hi. apply H. lia.
Qed.
Lemma lik_total n (yy m v : list xr) mu : (n <= length yy)%nat -> (n <= length m)%nat -> (n <= length v)%nat -> exists l, lik AX n yy m v mu = Ok l.
Proof.
  intros H1 H2 H3. unfold lik. apply for_total. intros i s0 Hi. change (F AX) with xr. rewrite !(vget_ok _ (Fin 0)) by lia. cbn [bind]. eexists. reflexivity.
Qed.
Lemma save_total X Om (K : cls AX X Om) b v : wfb b -> (3 <= length v)%nat -> (forall v, (2 <= length v)%nat -> exists r, v_Prior K v = Ok r) -> exists l, base_save K b v = Ok l.
Proof.
  intros ((_ & _ & _ & _ & Hm & Hv) & Wt & Wy & _) Hl Hpr. unfold base_save. change (F AX) with xr in *. rewrite (vget_ok _ (Fin 0)) by lia. cbn [bind].
  destruct (@lik_total (length (b_time b)) (b_y b) (k_mean (b_kf b)) (k_var (b_kf b)) (nth 2 v (Fin 0))) as (ll & El); try (apply Nat.eq_le_incl; refine (eq_trans Wt (eq_sym _)); assumption).
  change (loglik b (b_kf b) (nth 2 v (Fin 0))) with (lik AX (length (b_time b)) (b_y b) (k_mean (b_kf b)) (k_var (b_kf b)) (nth 2 v (Fin 0))).
  change (F AX) with xr in *. rewrite El. cbn [bind]. destruct (Hpr v ltac:(lia)) as (r & Er). change (F AX) with xr in *. rewrite Er. cbn [bind]. eexists. reflexivity.
Qed.
Lemma LogPrior_total (v : list xr) : (2 <= length v)%nat -> exists r, LogPrior AX v = Ok r.
Proof. intros H. unfold LogPrior. change (F AX) with xr. rewrite (vget_ok _ (Fin 0)) by lia. cbn [bind]. eexists. reflexivity. Qed.

Section Data.
Variable R0 : rng AX.
Hypothesis HR : valid_rng R0.
Hypothesis Hshift : shift_normal R0.
Variable dsort : list (F AX) -> option (list (F AX)).
Variable solve : list (list (cx AX)) -> list (cx AX) -> option (list (cx AX)).
Hypothesis Hds : valid_dsort dsort.
Hypothesis Hsv : valid_solve solve.
Variables t y e : list R.
Hypothesis Hn : (2 <= length t)%nat.
Hypothesis Ht : strictly_increasing t.
Variable back : bool.
Variables c s : R.
Local Notation t' := (retime back s t).
Local Notation y' := (rescale back 1 c y).
Local Notation e' := (rescale back 1 0 e).
Variables smax fmin fmax : R.
Local Notation bd := (mkB AX (Fin smax) (Fin fmax) (Fin fmin) false).
Hypothesis HB : run_bounds t y smax fmin fmax.
Hypothesis HB' : run_bounds t' y' smax fmin fmax.

(** ** CAR(p), CARMA(p,q) *)
Section P.
Variables p q : nat.
Variable z : bool.
Hypothesis Hp : (2 <= p)%nat.
Hypothesis Hq : z = true \/ (q < p)%nat.
Hypothesis Hodd : Nat.even p = true \/ (3 <= length t)%nat.
Variables b0 b0' : base AX (kpx AX).
Hypothesis Hb0 : base_holds b0 t y e bd.
Hypothesis Hb0' : base_holds b0' t' y' e' bd.
Local Notation dim := (walker_dim p q z).
Local Notation C := (pcls solve p (walker_ma (A := AX) p q z) (LogPrior AX)).
Local Notation st := (static_of b0).
Local Notation st' := (static_of b0').
Definition RXp (x x' : base AX (kpx AX)) : Prop := okt p st x /\ okt p st' x'.

Lemma dim_le : (3 + p <= dim)%nat. Proof using All. unfold walker_dim. destruct z; lia. Qed.
Lemma HmaW (th : list xr) : length th = dim -> wp True True (fun m => length m = p) (walker_ma (A := AX) p q z th).
Proof using All. intros H. exact (@walker_ma_wp AX True True p q z th Hp Hq H). Qed.
Lemma HprW (th : list xr) : length th = dim -> wp True True (fun _ => True) (LogPrior AX th).
Proof using All. intros H. apply LogPrior_wp. pose proof dim_le. change (F AX) with xr. lia. Qed.

Lemma walker_ma_real th : length th = dim -> exists ma, length ma = p /\ (exists l, nth l ma 0 <> 0) /\
  walker_ma (A := AX) p q z (map Fin th) = Ok (map Fin ma) /\ walker_ma (A := AX) p q z (map Fin (reparam 1 c th)) = Ok (map Fin ma).
Proof using All.
  intros Hl. unfold walker_ma, walker_dim in *.
  assert (exists ma, length ma = p /\ (exists l, nth l ma 0 <> 0) /\ carp_ma AX p = map Fin ma) as (ma & H1 & H2 & H3).
  { exists (upd (repeat 0 p) 0 1). split; [rewrite upd_length, repeat_length; reflexivity|]. split; [apply carp_ma_nz; lia|apply carp_ma_Fin]. }
  destruct z; [exists ma; rewrite H3; auto|]. destruct (Nat.eqb_spec q 0) as [Eq|Eq]; [exists ma; rewrite H3; auto|].
  destruct Hq as [|Hq']; [discriminate|]. destruct (ExtractMA_carma_main p q th Hq' ltac:(lia)) as (m & EM & Lm & H0 & _). exists m.
  split; [exact Lm|]. split; [exists O; rewrite H0; lra|]. split; [exact EM|]. unfold ExtractMA_carma in *. rewrite quad_roots_reparam by lia. exact EM.
Qed.
Lemma LD_shift x x' v l x1 : RXp x x' -> realv dim v -> LogDensity C x v = Ok (l, x1) ->
  exists x1', LogDensity C x' (tau c v) = Ok (l, x1') /\ RXp x1 x1'.
Proof using All.
  intros [Hx Hx'] (th & -> & Hl) E. pose proof dim_le as Hd. rewrite tau_Fin by lia.
  destruct (walker_ma_real Hl) as (ma & Lma & Nma & Em & Em').
  pose proof (base_holds_static Hb0 (proj1 Hx)) as B. pose proof (base_holds_static Hb0' (proj1 Hx')) as B'.
  destruct (symp solve p (walker_ma (A := AX) p q z) (LogPrior AX) back 1 c s t y e th ma (log_sichi (nth 1 th 0)) smax fmin fmax x x') as (v & w & w' & E1 & E2); try assumption; try lra; try lia.
  { intros H1. apply LogPrior_main; [lia|exact H1]. }
  { intros H1. unfold LogPrior. change (F AX) with xr. rewrite vget1_reparam. apply LogPrior_main; [lia|exact H1]. }
  { rewrite Rmult_1_l. exact B'. }
  rewrite lower_0 in E2. pose proof (eq_trans (eq_sym E) E1) as Q. injection Q as -> ->. exists w'. split; [exact E2|].
  pose proof (@LDp_wp AX True True solve p dim (walker_ma (A := AX) p q z) (LogPrior AX) Hp dim_le HmaW HprW st x (map Fin th) Hx ltac:(rewrite map_length; exact Hl)) as W.
  pose proof (@LDp_wp AX True True solve p dim (walker_ma (A := AX) p q z) (LogPrior AX) Hp dim_le HmaW HprW st' x' (map Fin (reparam 1 c th)) Hx' ltac:(rewrite map_length, reparam_len; exact Hl)) as W'.
  change (F AX) with xr in *. rewrite E in W. rewrite E2 in W'. split; assumption.
Qed.
Lemma save_shift x x' v : RXp x x' -> realv dim v -> exists l, base_save C x' (tau c v) = Ok l.
Proof using All.
  intros [_ [Hx' _]] Hv. pose proof dim_le. apply save_total; [exact (proj1 Hx')|rewrite tau_len, (proj2 (realv_inv Hv)); lia|]. intros w Hw. exact (LogPrior_total Hw).
Qed.

Lemma AR_len (v : list xr) r : length v = dim -> ARRoots AX p v = Ok r -> length r = p.
Proof using All.
  intros Hl E. pose proof dim_le. pose proof (@quad_roots_wp AX True True v 3 p) as Q. unfold ARRoots in E. change (F AX) with xr in *.
  specialize (Q ltac:(lia)). rewrite E in Q. exact Q.
Qed.
Lemma ma_len (v : list xr) r : length v = dim -> walker_ma (A := AX) p q z v = Ok r -> length r = p.
Proof using All. intros Hl E. pose proof (HmaW Hl) as Q. rewrite E in Q. exact Q. Qed.
(** the filter can be loaded in both or in neither: arma::solve sees the autoregressive roots only *)
Lemma filter_shift b b' sig om ma scale mu sig' ma' scale' mu' b1 : RXp b b' -> length om = p ->
  (forall m, ma = Some m -> length m = p) -> (forall m, ma' = Some m -> length m = p) ->
  set_filterp solve b sig om ma scale mu = Ok b1 -> exists b1', set_filterp solve b' sig' om ma' scale' mu' = Ok b1' /\ RXp b1 b1'.
Proof using All.
  intros [Hx Hx'] Ho Hm Hm' E.
  pose proof (@set_filterp_wp AX True True solve p dim (walker_ma (A := AX) p q z) (LogPrior AX) Hp dim_le st b sig om ma scale mu I Hx Ho Hm) as W. rewrite E in W. cbn [wp] in W.
  pose proof (@set_filterp_wp AX True True solve p dim (walker_ma (A := AX) p q z) (LogPrior AX) Hp dim_le st' b' sig' om ma' scale' mu' I Hx' Ho Hm') as W'.
  assert (exists b1', set_filterp solve b' sig' om ma' scale' mu' = Ok b1') as (b1' & E').
  { unfold set_filterp in *. cbv zeta in *. apply bind_Ok in E. destruct E as (s1 & E & _).
    set (m := match ma with Some m => m | None => x_ma (k_ext (b_kf b)) end).
    set (m' := match ma' with Some m => m | None => x_ma (k_ext (b_kf b')) end).
    assert (length m = p) as Hml by (unfold m; destruct ma; [apply Hm; reflexivity|exact (proj2 Hx)]).
    assert (length m' = p) as Hml' by (unfold m'; destruct ma'; [apply Hm'; reflexivity|exact (proj2 Hx')]).
    assert (Filter (methodsp solve) (load C b sig om m scale mu) = Ok s1) as E1 by (refine (eq_trans _ E); unfold m; destruct ma; reflexivity).
    destruct (@load_ok _ _ _ _ C (@par_of AX) (fun om ma => (om, ma)) (@goodp AX) (@good_datap AX) (@Hsetp AX solve p (walker_ma (A := AX) p q z) (LogPrior AX)) b sig om m scale mu (proj1 (proj1 Hx))) as (Hu & Hg & _).
    destruct (@load_ok _ _ _ _ C (@par_of AX) (fun om ma => (om, ma)) (@goodp AX) (@good_datap AX) (@Hsetp AX solve p (walker_ma (A := AX) p q z) (LogPrior AX)) b' sig' om m' scale' mu' (proj1 (proj1 Hx'))) as (Hu' & Hg' & _).
    pose proof (@shape_ok AX solve _ Hu Hg) as K. pose proof (@shape_ok AX solve _ Hu' Hg') as K'.
    change (x_omega (k_ext (load C b sig om m scale mu))) with om in K. change (x_ma (k_ext (load C b sig om m scale mu))) with m in K.
    change (x_omega (k_ext (load C b' sig' om m' scale' mu'))) with om in K'. change (x_ma (k_ext (load C b' sig' om m' scale' mu'))) with m' in K'.
    specialize (K ltac:(lia) ltac:(lia)). specialize (K' ltac:(lia) ltac:(lia)).
    destruct (solve _ _) as [J|]; [|destruct K as [K _]; pose proof (eq_trans (eq_sym K) E1) as Q; discriminate Q].
    destruct K' as [[s1' E1'] _]. exists (set_kf b' s1').
    assert (forall r, r = Ok s1' -> (s0 <- r ;; Ok (set_kf b' s0)) = Ok (set_kf b' s1')) as Kb by (intros r ->; reflexivity). apply Kb.
    refine (eq_trans _ E1'). unfold m'. destruct ma'; reflexivity. }
  rewrite E' in W'. exists b1'. split; [exact E'|]. split; [exact W|exact W'].
Qed.

(** ** Starting values *)
Lemma lens : length y = length t /\ length e = length t.
Proof using All. destruct (base_holds_lens _ _ _ _ _ _ Hb0) as (H1 & H2 & _). split; assumption. Qed.
Lemma StartingAR_shift b b' g : RXp b b' -> StartingAR (R := R0) dsort p b' g = StartingAR (R := R0) dsort p b g.
Proof using All.
  intros [Hx Hx']. pose proof (base_holds_static Hb0 (proj1 Hx)) as B. pose proof (base_holds_static Hb0' (proj1 Hx')) as B'.
  pose proof (time_span Hn Ht HB B) as T. pose proof (time_span (t := t') ltac:(rewrite retime_len; exact Hn) (retime_inc back s t Ht) HB' B') as T'.
  destruct B as (_ & _ & _ & _ & _ & Eb). destruct B' as (_ & _ & _ & _ & _ & Eb').
  unfold StartingAR. rewrite Eb, Eb'. revert T T'. destruct (vmax AX (b_time b)) as [hi| | |]; [|discriminate..]. destruct (vmin AX (b_time b)) as [lo| | |]; [|discriminate..].
  destruct (vmax AX (b_time b')) as [hi'| | |]; [|discriminate..]. destruct (vmin AX (b_time b')) as [lo'| | |]; [|discriminate..]. cbn [bind]. intros T T'.
  assert (forall u w : xr, @Ok xr u = Ok w -> u = w) as Ki by (intros u w Q; injection Q as Q; exact Q).
  apply Ki in T. apply Ki in T'. change (F AX) with xr in *. rewrite T, T'. reflexivity.
Qed.
Variable extra : gen R0 -> list (F AX) * gen R0.
Hypothesis Hex : forall g, List.Forall isF (fst (extra g)) /\ (length (fst (extra g)) + p + 3 = dim)%nat.
Variables early withma : bool.
Lemma start_try_shift b b' g th b1 ok g1 : RXp b b' -> start_try dsort solve p C extra early withma b g = Ok (th, b1, ok, g1) ->
  exists th' b1', start_try dsort solve p C extra early withma b' g = Ok (th', b1', ok, g1) /\ RXp b1 b1' /\ (ok = true -> th' = tau c th /\ realv dim th).
Proof using All.
  intros HX E. pose proof HX as [Hx Hx']. pose proof (base_holds_static Hb0 (proj1 Hx)) as B. pose proof (base_holds_static Hb0' (proj1 Hx')) as B'.
  destruct lens as [Ly Le]. unfold start_try in *. rewrite (StartingAR_shift g HX). apply bind_Ok in E. destruct E as ([loga g2] & El & E). rewrite El. cbn [bind].
  destruct (StartingAR_real HR Hds Hn Ht HB Hodd B El) as [Hl1 Hl2]. cbn [fst] in Hl1, Hl2.
  destruct (Hex g2) as [He1 He2]. destruct (extra g2) as [ex g3]. cbn [fst] in He1, He2. cbv zeta in *.
  apply bind_Ok in E. destruct E as (ma & Em & E). rewrite Em. cbn [bind].
  destruct B as (_ & _ & Ey & _). destruct B' as (_ & _ & Ey' & _). rewrite Ey in E. rewrite Ey'.
  assert (y <> []) as Hy0 by (intros Q; rewrite Q in Ly; cbn in Ly; lia).
  assert (length y' = length y) as Ly' by apply rescale_len.
  assert (y' <> []) as Hy0' by (intros Q; rewrite Q in Ly'; cbn in Ly'; lia).
  change (F AX) with xr in *. rewrite vvar_Fin in E by lia. rewrite vvar_Fin by lia. rewrite svar_rescale by lia. cbn [bind] in *.
  rewrite vmean_Fin in E by exact Hy0. rewrite vmean_Fin by exact Hy0'. rewrite smean_rescale by exact Hy0.
  assert (forall l : list R, dofs AX (map Fin l) = (Z.of_nat (length l) - 1)%Z) as Ed by (intros l; unfold dofs; change (F AX) with xr; rewrite map_length; reflexivity).
  assert (forall l : list R, nobs AX (map Fin l) = Fin (INR (length l))) as En by (intros l; unfold nobs; change (F AX) with xr; rewrite map_length, INR_IZR_INZ; reflexivity).
  rewrite Ed, En in *. rewrite Ly'. replace (1 * 1 * svar y) with (svar y) by ring. rewrite Rmult_1_l.
  destruct (sic_Fin HR (dof := (Z.of_nat (length y) - 1)%Z) (s := svar y) g3) as (yv & g4 & Eyv & Hyv); [lia|apply EngineReal.svar_nonneg; lia|]. rewrite Eyv in *.
  assert (fsqrt AX (Fin yv) = Fin (sqrt yv)) as Esq by (refine (fin_sqrt _ _); exact Hyv).
  assert (fdiv AX (fsqrt AX (Fin yv)) (Fin (INR (length y))) = Fin (sqrt yv / INR (length y))) as Edv.
  { rewrite Esq. refine (fin_div _ _ _). apply not_0_INR. lia. }
  rewrite Edv in *. 
  assert (0 <= sqrt yv / INR (length y)) as Hsd by (apply Rmult_le_pos; [apply sqrt_pos|]; left; apply Rinv_0_lt_compat, lt_0_INR; lia).
  destruct (rnorm_Fin HR (smean y) (sd := sqrt yv / INR (length y)) g4 Hsd) as (mu & g5 & Emu). rewrite Emu in E.
  assert (@rnorm AX R0 (Fin (smean y + c)) (Fin (sqrt yv / INR (length y))) g4 = (Fin (mu + c), g5)) as Emu'.
  { unfold rnorm, on_b in *. rewrite Hshift by exact Hsd. destruct (b_normal R0 (Fin (smean y)) _ (fst g4)) as [x gb]. cbn [fst snd]. injection Emu as -> <-. reflexivity. }
  rewrite Emu'. apply bind_Ok in E. destruct E as (roots & Er & E). rewrite Er. cbn [bind].
  assert (length (fofZ AX 0 :: fofZ AX 0 :: fofZ AX 0 :: loga ++ ex) = dim) as Hld by (cbn [List.length]; rewrite app_length; change (F AX) with xr; lia).
  assert (length roots = p) as Lr by exact (AR_len Hld Er). assert (length ma = p) as Lm by exact (ma_len Hld Em).
  destruct (early && negb _); [injection E as <- <- <- <-; eexists; exists b'; split; [reflexivity|]; split; [exact HX|discriminate]|].
  destruct (draw_scale_Fin HR g5) as (sc & g6 & Esc). rewrite Esc in *. rewrite Esq in *.
  apply bind_Ok in E. destruct E as (b2 & Eb2 & E).
  assert (forall m, (if withma then Some ma else None) = Some m -> length m = p) as Hm by (intros m Q; destruct withma; [injection Q as <-; exact Lm|discriminate]).
  destruct (filter_shift (fdiv AX (Fin yv) (Variance roots ma (fofZ AX 1) (fofZ AX 0))) (Fin sc) (Fin (mu + c)) HX Lr Hm Hm Eb2) as (b2' & Eb2' & HX2).
  change (F AX) with xr in *. rewrite Eb2'. cbn [bind]. apply bind_Ok in E. destruct E as ([lp b3] & EL & E). injection E as <- <- <- <-.
  assert (realv dim (Fin (sqrt yv) :: Fin sc :: Fin mu :: loga ++ ex)) as Hre.
  { apply realv_of; [|cbn [List.length]; rewrite app_length; lia].
    constructor; [eexists; reflexivity|]. constructor; [eexists; reflexivity|]. constructor; [eexists; reflexivity|]. apply Forall_app. split; assumption. }
  destruct (LD_shift HX2 Hre EL) as (b3' & EL' & HX3). cbn [tau xadd] in EL'. change (F AX) with xr in *. rewrite EL'. cbn [bind].
  eexists. eexists. split; [reflexivity|]. split; [exact HX3|]. intros _. split; [reflexivity|exact Hre].
Qed.
Lemma start_while_shift fuel : forall b b' g th b1 g1, RXp b b' -> start_while dsort solve p C extra early withma fuel b g = Ok (th, b1, g1) ->
  realv dim th /\ exists b1', start_while dsort solve p C extra early withma fuel b' g = Ok (tau c th, b1', g1) /\ RXp b1 b1'.
Proof using All.
  induction fuel as [|k IH]; intros b b' g th b1 g1 HX E; cbn [start_while] in *; [discriminate|].
  apply bind_Ok in E. destruct E as ([[[th2 b2] ok] g2] & E2 & E). destruct (start_try_shift HX E2) as (th2' & b2' & E2' & HX2 & Hok). rewrite E2'. cbn [bind].
  destruct ok; [|exact (IH _ _ _ _ _ _ HX2 E)]. injection E as <- <- <-. destruct (Hok eq_refl) as [-> Hr]. split; [exact Hr|]. exists b2'. split; [reflexivity|exact HX2].
Qed.
Lemma set_start_shift fuel x b b' g th b1 g1 : RXp b b' -> set_start dsort solve p C extra early withma dim fuel b (map Fin x) g = Ok (th, b1, g1) ->
  realv dim th /\ exists b1', set_start dsort solve p C extra early withma dim fuel b' (tau c (map Fin x)) g = Ok (tau c th, b1', g1) /\ RXp b1 b1'.
Proof using All.
  intros HX E. unfold set_start in *. change (F AX) with xr in *. rewrite tau_len. destruct (Nat.eqb_spec (length (map Fin x)) dim) as [Hl|]; cbn [negb] in *; [|exact (start_while_shift HX E)].
  assert (realv dim (map Fin x)) as Hre by (exists x; split; [reflexivity|rewrite map_length in Hl; exact Hl]).
  apply bind_Ok in E. destruct E as ([lp b2] & EL & E). destruct (LD_shift HX Hre EL) as (b2' & EL' & HX2). change (F AX) with xr in *. rewrite EL'. cbn [bind].
  destruct (negb (ffin AX lp)); [exact (start_while_shift HX2 E)|].
  rewrite map_length in Hl. pose proof dim_le as Hd. destruct x as [|x0 [|x1 [|x2 xr0]]]; cbn [List.length] in Hl; try lia.
  set (v := map Fin (x0 :: x1 :: x2 :: xr0)) in *.
  assert (tau c v = map Fin (reparam 1 c (x0 :: x1 :: x2 :: xr0))) as Etau by (apply tau_Fin; cbn [List.length]; lia).
  assert (vget (tau c v) 0 = vget v 0) as G0 by reflexivity. assert (vget (tau c v) 1 = vget v 1) as G1 by reflexivity.
  assert (ARRoots AX p (tau c v) = ARRoots AX p v) as GR by (rewrite Etau; apply ARRoots_reparam).
  assert (v_MA C (tau c v) = v_MA C v) as GM.
  { destruct (@walker_ma_real (x0 :: x1 :: x2 :: xr0)) as (m & _ & _ & M1 & M2); [exact Hl|]. cbn [v_MA pcls]. rewrite Etau. change (F AX) with xr in *. exact (eq_trans M2 (eq_sym M1)). }
  apply bind_Ok in E. destruct E as (t0 & E0 & E). apply bind_Ok in E. destruct E as (sc & E1 & E). apply bind_Ok in E. destruct E as (mu & _ & E).
  apply bind_Ok in E. destruct E as (roots & Er & E). apply bind_Ok in E. destruct E as (ma & Em & E). cbv zeta in E. apply bind_Ok in E. destruct E as (b3 & Eb3 & E).
  injection E as <- <- <-. change (F AX) with xr in *. rewrite G0, E0. cbn [bind]. rewrite G1, E1. cbn [bind].
  assert (vget (tau c v) 2 = Ok (Fin (x2 + c))) as G2 by reflexivity. change (F AX) with xr in *. rewrite G2. cbn [bind]. rewrite GR, Er. cbn [bind]. rewrite GM, Em. cbn [bind]. cbv zeta.
  assert (length v = dim) as Hld by (unfold v; rewrite map_length; exact Hl).
  assert (length roots = p) as Lr by exact (AR_len Hld Er). assert (length ma = p) as Lm by exact (ma_len Hld Em).
  assert (forall m, (if withma then Some ma else None) = Some m -> length m = p) as Hm by (intros m Q; destruct withma; [injection Q as <-; exact Lm|discriminate]).
  destruct (filter_shift (fdiv AX (fmul AX t0 t0) (Variance roots ma (fofZ AX 1) (fofZ AX 0))) sc (Fin (x2 + c)) HX2 Lr Hm Hm Eb3) as (b3' & Eb3' & HX3).
  change (F AX) with xr in *. rewrite Eb3'. cbn [bind]. split; [exact Hre|]. exists b3'. split; [reflexivity|exact HX3].
Qed.
End P.
End Data.
