(** LogDensity on finite data: the exact Gaussian log-likelihood plus the log-prior. *)
From Coq Require Import Reals List Arith ZArith Lra Lia Bool Permutation.
From Coquelicot Require Import Complex.
From Verif Require Import Arith Res ListLemmas KFModel Spec Gauss Emb History InitProof KF1R OUpd KF1X KF1Main KF1More.
From Verif Require Import Cx KFpModel KFpProof SpecCarma CLin KFpR KFpX KFpMain KFpTop KFpMore SpecModel CarpackModel RootsProof PriorProof LogLikProof.
Import ListNotations.
Local Open Scope R_scope.

Lemma lik_Fin n (y m v : list R) mu : length y = n -> length m = n -> length v = n -> (forall i, (i < n)%nat -> 0 < nth i v 0) ->
  lik AX n (map Fin y) (map Fin m) (map Fin v) (Fin mu) =
  Ok (Fin (gauss_ll n (fun i => nth i y 0 - mu) (fun i => nth i m 0) (fun i => nth i v 0))).
Proof.
  intros Hy Hm Hv Hp. unfold lik, gauss_ll.
  set (f := fun i => - (1 / 2) * ln (nth i v 0) - 1 / 2 * (nth i y 0 - mu - nth i m 0) ^ 2 / nth i v 0).
  apply (@for_exact xr _ (fun i => Fin (Rsum f i)) 0 n). intros i _ Hi. cbn [Nat.add] in Hi.
  rewrite !vget_Fin by lia. cbn [bind]. pose proof (Hp i Hi) as Hpi.
  cbn [fadd fneg fdec fmul flog fsub fdiv AX xsub xneg xmul]. rewrite fin_log by exact Hpi. rewrite fin_div by lra.
  cbn [xsub xmul xadd Rsum]. f_equal. f_equal. f_equal. unfold f. field. lra.
Qed.

Lemma list_Fin (l : list xr) n (P : nat -> R -> Prop) : length l = n ->
  (forall i, (i < n)%nat -> exists m, nth_error l i = Some (Fin m) /\ P i m) ->
  exists ml : list R, l = map Fin ml /\ length ml = n /\ forall i, (i < n)%nat -> P i (nth i ml 0).
Proof.
  revert n P; induction l as [|a l IH]; intros n P HL H; cbn [length] in HL; subst n.
  - exists []. repeat split. intros i Hi. lia.
  - destruct (H O ltac:(lia)) as (m0 & E & H0). cbn in E. injection E as ->.
    destruct (IH (length l) (fun i => P (S i)) eq_refl) as (ml & -> & Hl & HP).
    { intros i Hi. apply (H (S i)). lia. }
    exists (m0 :: ml). split; [reflexivity|]. split; [cbn; rewrite map_length; reflexivity|].
    intros [|i] Hi; [exact H0|]. apply HP. lia.
Qed.

Definition base_holds {X} (b : base AX X) (t y e : list R) (bd : bounds AX) : Prop :=
  wfb b /\ b_time b = map Fin t /\ b_y b = map Fin y /\ b_yerr b = map Fin e /\ k_time (b_kf b) = map Fin t /\ b_bounds b = bd.
Lemma base_holds_lens X (b : base AX X) t y e bd : base_holds b t y e bd -> length y = length t /\ length e = length t /\ (2 <= length t)%nat.
Proof.
  intros ((Hu & H1 & H2 & H3) & E1 & E2 & E3 & E4 & _). rewrite E1, E4, !map_length in H1. rewrite E2, E4, !map_length in H2.
  rewrite E3, E4, !map_length in H3. destruct Hu as (Hn & _). rewrite E4, map_length in Hn. repeat split; assumption.
Qed.

Lemma cent_Fin (y : list R) mu : cent AX (map Fin y) (Fin mu) = map Fin (map (fun x => x - mu) y).
Proof. unfold cent. rewrite !map_map. reflexivity. Qed.
Lemma scaled_Fin (e : list R) s : 0 <= s -> scaled AX (map Fin e) (Fin s) = map Fin (map (fun x => sqrt s * x) e).
Proof.
  intros H. unfold scaled. rewrite !map_map. apply map_ext. intros x. cbn [fsqrt fmul AX]. rewrite fin_sqrt by exact H. reflexivity.
Qed.
Lemma nth_map_R (f : R -> R) l i : (i < length l)%nat -> nth i (map f l) 0 = f (nth i l 0).
Proof. intros H. rewrite nth_indep with (d' := f 0) by (rewrite map_length; exact H). apply map_nth. Qed.

(** ** CAR(1) *)
Section Car1.
Variables (b : base AX (F AX)) (t y e th : list R) (smax fmin fmax : R) (ign : bool).
Hypothesis Hb : base_holds b t y e (mkB AX (Fin smax) (Fin fmax) (Fin fmin) ign).
Hypothesis Hinc : strictly_increasing t.
Hypothesis HL : (4 <= length th)%nat.
Let t0 := nth 0 th 0. Let t1 := nth 1 th 0. Let mu := nth 2 th 0. Let w := exp (nth 3 th 0).

Lemma LD1_outside : ~ in_prior1 smax fmin fmax th -> LogDensity (car1_cls AX) b (map Fin th) = Ok (NInf, b).
Proof using Hb HL.
  intros H. destruct Hb as (_ & _ & _ & _ & _ & Eb).
  destruct (CheckPriorBounds1_main smax fmin fmax ign th HL) as (ok & E & Hiff). unfold LogDensity. rewrite Eb.
  cbn [v_Check car1_cls]. rewrite E. cbn [bind]. destruct ok; [exfalso; apply H, Hiff; reflexivity|]. reflexivity.
Qed.

Lemma LD1_inside : in_prior1 smax fmin fmax th -> t0 <> 0 ->
  exists (m v : list R) b', LogDensity (car1_cls AX) b (map Fin th) =
      Ok (Fin (gauss_ll (length t) (fun i => nth i y 0 - mu) (fun i => nth i m 0) (fun i => nth i v 0) + log_sichi t1), b') /\
    k_mean (b_kf b') = map Fin m /\ k_var (b_kf b') = map Fin v /\ length m = length t /\ length v = length t /\
    forall i, (i < length t)%nat ->
      cond_dist (fun a c => t0 * t0 * exp (- (w * Rabs (a - c)))) (firstn i t) (firstn i (map (fun x => x - mu) y))
        (firstn i (map (fun x => sqrt t1 * x) e)) (nth i t 0) (nth i m 0) (nth i v 0 - t1 * (nth i e 0 * nth i e 0)) /\ 0 < nth i v 0.
Proof using Hb HL Hinc.
  intros Hin Ht0. pose proof Hb as (Hw & E1 & E2 & E3 & E4 & Eb). destruct (base_holds_lens _ _ _ _ _ _ Hb) as (Ly & Le & Ln).
  destruct (CheckPriorBounds1_main smax fmin fmax ign th HL) as (ok & E & Hiff).
  destruct ok; [|apply Hiff in Hin; discriminate].
  destruct Hin as (_ & Hs0 & Hs1). fold t0 in Hs0. fold t1 in Hs1.
  set (sig := 2 * t0 * t0 * w).
  set (s := load (car1_cls AX) b (Fin sig : F AX) (Fin w) (zeros AX 1) (Fin t1) (Fin mu)).
  assert (0 < w) as Hpw by apply exp_pos.
  assert (0 < t0) as Hp0 by (destruct Hs0 as [[H0|H0] _]; [exact H0|congruence]).
  assert (0 < sig) as Hsig by (unfold sig; apply Rmult_lt_0_compat; nra).
  set (yr := map (fun x => x - mu) y). set (er := map (fun x => sqrt t1 * x) e).
  assert (holds1 s t yr er sig w) as Hh.
  { destruct (@load_ok AX xr xr xr (car1_cls AX) (fun x => x) (fun om _ => om) (@good1 AX) (@good_data1 AX) (@Hset1 AX)
                b (Fin sig) (Fin w) (zeros AX 1) (Fin t1) (Fin mu) Hw) as (Hu & _ & Hs).
    unfold s. split; [exact Hu|].
    pose proof (f_equal (@s_time _ _) Hs) as S1. pose proof (f_equal (@s_y _ _) Hs) as S3. pose proof (f_equal (@s_yerr _ _) Hs) as S4.
    pose proof (f_equal (@s_sig _ _) Hs) as S5. pose proof (f_equal (@s_par _ _) Hs) as S6.
    split; [etransitivity; [exact S1|exact E4]|].
    split; [etransitivity; [exact S3|]; etransitivity; [exact (f_equal (fun l => cent AX l (Fin mu)) E2)|apply cent_Fin]|].
    split; [etransitivity; [exact S4|]; etransitivity; [exact (f_equal (fun l => scaled AX l (Fin t1)) E3)|apply scaled_Fin; lra]|].
    split; [exact S5|exact S6]. }
  destruct (filter_c05 s t yr er sig w Hh Hinc Hsig Hpw) as (s' & EF & Lm & Lv & Hc).
  destruct (filter_main s t yr er sig w Hh (strict_times_ok _ _ Hinc) Hsig Hpw) as (s'' & EF' & _ & _ & Hp).
  assert (s'' = s') as -> by congruence. clear EF'.
  destruct (list_Fin (k_var s') (length t) (fun i v => 0 < v) Lv) as (v & Ev & LV & Hvp).
  { intros i Hi. destruct (Hp i Hi) as (mi & vi & _ & Hv & _ & Hpos & _). exists vi. split; assumption. }
  destruct (list_Fin (k_mean s') (length t) (fun i m => True) Lm) as (m & Em & LM & _).
  { intros i Hi. destruct (Hp i Hi) as (mi & vi & Hm & _). exists mi. split; [assumption|exact I]. }
  exists m, v, (set_kf b s').
  split; [|split; [exact Em|split; [exact Ev|split; [exact LM|split; [exact LV|]]]]].
  - eapply (@LD_value AX _ _ (car1_cls AX) b (map Fin th) (Fin w) (zeros AX 1) (Fin sig) (Fin t1) (Fin mu) s'
             (Fin (gauss_ll (length t) (fun i => nth i y 0 - mu) (fun i => nth i m 0) (fun i => nth i v 0))) (Fin (log_sichi t1))).
    + rewrite Eb. exact E.
    + cbn [v_AR car1_cls]. rewrite vget_Fin by lia. reflexivity.
    + reflexivity.
    + cbn [v_Sig car1_cls]. rewrite !vget_Fin by lia. reflexivity.
    + apply vget_Fin. lia.
    + apply vget_Fin. lia.
    + exact EF.
    + rewrite E1, E2, map_length. etransitivity; [|apply lik_Fin; [exact Ly|exact LM|exact LV|exact Hvp]].
      f_equal; assumption.
    + apply LogPrior_main; [lia|fold t1; lra].
  - intros i Hi. split; [|apply Hvp, Hi]. destruct (Hc i Hi) as (mi & vi & H1 & H2 & H3 & _).
    apply (fun H => eq_trans (eq_sym (f_equal (fun l => nth_error l i) Em)) H) in H1.
    apply (fun H => eq_trans (eq_sym (f_equal (fun l => nth_error l i) Ev)) H) in H2.
    rewrite nth_error_map in H1, H2. rewrite (nth_error_nth' m 0) in H1 by lia. rewrite (nth_error_nth' v 0) in H2 by lia.
    injection H1 as H1. injection H2 as H2. rewrite H1, H2.
    replace (t1 * (nth i e 0 * nth i e 0)) with (nth i er 0 * nth i er 0).
    2:{ unfold er. rewrite nth_map_R by lia. replace t1 with (sqrt t1 * sqrt t1) at 3 by (apply sqrt_sqrt; lra). ring. }
    eapply cond_dist_ext; [|exact H3]. intros a c. unfold ou_cov, sig. f_equal. field. lra.
Qed.
End Car1.

(** ** CAR(p), CARMA(p,q), ZCARMA(p) *)
Lemma conj_closed_in l z : conj_closed l -> In z l -> In (Cconj z) l.
Proof. intros H Hz. apply (Permutation_in _ H). apply in_map, Hz. Qed.
Lemma carma_acv_scale s ma om tau : carma_acv s ma om tau = s * carma_acv 1 ma om tau.
Proof. unfold carma_acv. ring. Qed.
Lemma carma_acv_pos om ma : stable_roots om -> (2 <= length om)%nat -> length ma = length om -> (exists l, nth l ma 0 <> 0) ->
  0 < carma_acv 1 ma om 0.
Proof.
  intros H1 H2 H3 H4. destruct valid_solve_exists as [sv Hsv].
  assert (carma_ok 1 om ma) as Hok by (repeat split; try apply H1; try assumption; lra).
  assert (times_ok [0] [0]) as Ht by (split; intros; cbn in *; lia).
  pose proof (carma_pd sv Hsv 1 om ma Hok [0] [0] Ht (fun _ => 1)) as H.
  cbn [length Rsum] in H. unfold obs_cov in H. cbn [nth Nat.eqb] in H. rewrite K_diag in H.
  assert (exists k, (k < 1)%nat /\ 1 <> 0) as Hx by (exists O; split; [lia|lra]). specialize (H Hx). lra.
Qed.

Section Carp.
Variable solve : list (list (cx AX)) -> list (cx AX) -> option (list (cx AX)).
Hypothesis Hsolve : valid_solve solve.
Variables (p : nat) (maf : list (F AX) -> res (list (F AX))) (prior : list (F AX) -> res (F AX)).
Variables (b : base AX (kpx AX)) (t y e th ma : list R) (om : list C) (bd : bounds AX) (pr : R).
Hypothesis Hb : base_holds b t y e bd.
Hypothesis Hinc : strictly_increasing t.
Hypothesis Hp : (2 <= p)%nat.
Hypothesis HL : (3 + p <= length th)%nat.
Hypothesis Hma : maf (map Fin th) = Ok (map Fin ma).
Hypothesis Lma : length ma = p.
Hypothesis Nma : exists l, nth l ma 0 <> 0.
Hypothesis Hpr : prior (map Fin th) = Ok (Fin pr).
Hypothesis Hom : ARRoots AX p (map Fin th) = Ok (map FinC om).
Hypothesis Hnd : NoDup om.
Let t0 := nth 0 th 0. Let t1 := nth 1 th 0. Let mu := nth 2 th 0.
Let sig := t0 * t0 / carma_acv 1 ma om 0.

Lemma om_roots : length om = p /\ (forall r, In r om -> fst r < 0) /\ stable_roots om.
Proof using HL Hom Hnd.
  destruct (ARRoots_main p th HL) as (om' & E & L & Hn & Hc & _).
  assert (om = om') as <-.
  { rewrite Hom in E. injection E as E.
    assert (forall l l', map FinC l = map FinC l' -> l = l') as Hinj.
    { induction l as [|a l IH]; intros [|a' l'] E0; try discriminate; [reflexivity|]. cbn [map] in E0. injection E0 as E2 E3 E4. f_equal; [|apply IH, E4].
      apply C_eq; assumption. }
    apply Hinj, E. }
  split; [exact L|]. split; [exact Hn|]. split; [exact Hnd|]. split; [exact Hn|]. intros z Hz. apply conj_closed_in; assumption.
Qed.
Lemma acv1_pos : 0 < carma_acv 1 ma om 0.
Proof using HL Hom Hnd Hp Lma Nma.
  destruct om_roots as (L & _ & Hst). apply carma_acv_pos; [exact Hst|lia|congruence|exact Nma].
Qed.
Lemma Sigp_Fin : Sigp AX p maf (map Fin th) = Ok (Fin sig).
Proof using HL Hom Hnd Hp Lma Nma Hma.
  destruct om_roots as (L & Hn & _). pose proof acv1_pos as Hpos.
  unfold Sigp. rewrite Hom. cbn [bind]. rewrite Hma. cbn [bind]. rewrite vget_Fin by lia. cbn [bind]. fold t0.
  change (fofZ AX 1) with (Fin 1). change (fofZ AX 0) with (Fin 0).
  rewrite (Variance_Fin om ma 1 0 Hnd Hn). replace (1 * 1) with 1 by ring.
  f_equal. exact (fin_div (t0 * t0) _ (Rgt_not_eq _ _ Hpos)).
Qed.
Lemma sig_acv : carma_acv sig ma om 0 = t0 * t0.
Proof using HL Hom Hnd Hp Lma Nma.
  pose proof acv1_pos. rewrite carma_acv_scale. unfold sig. field. lra.
Qed.

Lemma LDp_value : CheckPriorBoundsp p bd (map Fin th) = Ok true -> t0 <> 0 -> 0 < t1 ->
  exists (m v : list R) b', LogDensity (pcls solve p maf prior) b (map Fin th) =
      Ok (Fin (gauss_ll (length t) (fun i => nth i y 0 - mu) (fun i => nth i m 0) (fun i => nth i v 0) + pr), b') /\
    k_mean (b_kf b') = map Fin m /\ k_var (b_kf b') = map Fin v /\ length m = length t /\ length v = length t /\
    forall i, (i < length t)%nat ->
      cond_dist (carma_cov sig ma om) (firstn i t) (firstn i (map (fun x => x - mu) y))
        (firstn i (map (fun x => sqrt t1 * x) e)) (nth i t 0) (nth i m 0) (nth i v 0 - t1 * (nth i e 0 * nth i e 0)) /\
      0 < nth i v 0 <= t0 * t0 + t1 * (nth i e 0 * nth i e 0).
Proof using All.
  intros Hck Ht0 Ht1. pose proof Hb as (Hw & E1 & E2 & E3 & E4 & Eb). destruct (base_holds_lens _ _ _ _ _ _ Hb) as (Ly & Le & Ln).
  destruct om_roots as (L & Hn & Hst). pose proof acv1_pos as Hpos.
  set (s := load (pcls solve p maf prior) b (Fin sig : F AX) (map FinC om) (map Fin ma) (Fin t1) (Fin mu)).
  assert (0 < sig) as Hsig by (unfold sig; apply Rdiv_lt_0_compat; [nra|exact Hpos]).
  set (yr := map (fun x => x - mu) y). set (er := map (fun x => sqrt t1 * x) e).
  assert (carma_ok sig om ma) as Hok.
  { split; [exact Hst|]. split; [lia|]. split; [congruence|]. split; [exact Nma|exact Hsig]. }
  assert (holdsp s t yr er sig om ma) as Hh.
  { destruct (@load_ok AX _ _ _ (pcls solve p maf prior) (@par_of AX) (fun om ma => (om, ma)) (@goodp AX) (@good_datap AX) (@Hsetp AX solve p maf prior)
                b (Fin sig) (map FinC om) (map Fin ma) (Fin t1) (Fin mu) Hw) as (Hu & Hg & Hs).
    unfold s. split; [exact Hu|]. split; [exact Hg|].
    pose proof (f_equal (@s_time _ _) Hs) as S1. pose proof (f_equal (@s_y _ _) Hs) as S3. pose proof (f_equal (@s_yerr _ _) Hs) as S4.
    pose proof (f_equal (@s_sig _ _) Hs) as S5. pose proof (f_equal (fun u => fst (s_par u)) Hs) as S6. pose proof (f_equal (fun u => snd (s_par u)) Hs) as S7.
    split; [etransitivity; [exact S1|exact E4]|].
    split; [etransitivity; [exact S3|]; etransitivity; [exact (f_equal (fun l => cent AX l (Fin mu)) E2)|apply cent_Fin]|].
    split; [etransitivity; [exact S4|]; etransitivity; [exact (f_equal (fun l => scaled AX l (Fin t1)) E3)|apply scaled_Fin; lra]|].
    split; [exact S5|]. split; [exact S6|exact S7]. }
  destruct (filterp solve Hsolve s t yr er sig om ma Hh Hinc Hok) as (s' & EF & Lm & Lv & Hc).
  assert (forall i, (i < length t)%nat -> nth i er 0 * nth i er 0 = t1 * (nth i e 0 * nth i e 0)) as Her.
  { intros i Hi. unfold er. rewrite nth_map_R by lia. replace t1 with (sqrt t1 * sqrt t1) at 3 by (apply sqrt_sqrt; lra). ring. }
  destruct (list_Fin (k_var s') (length t) (fun i v => 0 < v) Lv) as (v & Ev & LV & Hvp).
  { intros i Hi. destruct (Hc i Hi) as (mi & vi & _ & Hv & _ & Hpos' & _). exists vi. split; assumption. }
  destruct (list_Fin (k_mean s') (length t) (fun i m => True) Lm) as (m & Em & LM & _).
  { intros i Hi. destruct (Hc i Hi) as (mi & vi & Hm & _). exists mi. split; [assumption|exact I]. }
  exists m, v, (set_kf b s').
  split; [|split; [exact Em|split; [exact Ev|split; [exact LM|split; [exact LV|]]]]].
  - eapply (@LD_value AX _ _ (pcls solve p maf prior) b (map Fin th) (map FinC om) (map Fin ma) (Fin sig) (Fin t1) (Fin mu) s'
             (Fin (gauss_ll (length t) (fun i => nth i y 0 - mu) (fun i => nth i m 0) (fun i => nth i v 0))) (Fin pr)).
    + rewrite Eb. exact Hck.
    + exact Hom.
    + exact Hma.
    + exact Sigp_Fin.
    + apply vget_Fin. lia.
    + apply vget_Fin. lia.
    + exact EF.
    + rewrite E1, E2, map_length. etransitivity; [|apply lik_Fin; [exact Ly|exact LM|exact LV|exact Hvp]].
      f_equal; assumption.
    + exact Hpr.
  - intros i Hi. destruct (Hc i Hi) as (mi & vi & H1 & H2 & H3 & H4).
    apply (fun H => eq_trans (eq_sym (f_equal (fun l => nth_error l i) Em)) H) in H1.
    apply (fun H => eq_trans (eq_sym (f_equal (fun l => nth_error l i) Ev)) H) in H2.
    rewrite nth_error_map in H1, H2. rewrite (nth_error_nth' m 0) in H1 by lia. rewrite (nth_error_nth' v 0) in H2 by lia.
    injection H1 as H1. injection H2 as H2. rewrite H1, H2. rewrite <- Her by exact Hi. split; [exact H3|].
    rewrite <- sig_acv. exact H4.
Qed.
Lemma LDp_outside : CheckPriorBoundsp p bd (map Fin th) = Ok false -> LogDensity (pcls solve p maf prior) b (map Fin th) = Ok (NInf, b).
Proof using Hb.
  intros H. destruct Hb as (_ & _ & _ & _ & _ & Eb). unfold LogDensity. rewrite Eb. cbn [v_Check pcls]. rewrite H. reflexivity.
Qed.

(** C19: the variance before noise is theta0^2 *)
Lemma first_var s yr er : t0 <> 0 -> holdsp s t yr er sig om ma ->
  exists s', Filter (methodsp solve) s = Ok s' /\ nth_error (k_var s') 0 = Some (Fin (t0 * t0 + nth 0 er 0 * nth 0 er 0)).
Proof using All.
  intros Ht0 Hs. destruct om_roots as (L & Hn & Hst). pose proof acv1_pos as Hpos.
  assert (0 < sig) as Hsig by (unfold sig; apply Rdiv_lt_0_compat; [nra|exact Hpos]).
  assert (carma_ok sig om ma) as Hok.
  { split; [exact Hst|]. split; [lia|]. split; [congruence|]. split; [exact Nma|exact Hsig]. }
  destruct (filterp solve Hsolve s t yr er sig om ma Hs Hinc Hok) as (s' & EF & Lm & Lv & Hc). exists s'. split; [exact EF|].
  destruct (base_holds_lens _ _ _ _ _ _ Hb) as (_ & _ & Ln).
  destruct (Hc O ltac:(lia)) as (m & v & _ & H2 & H3 & _). etransitivity; [exact H2|]. f_equal. f_equal.
  destruct H3 as (a & _ & _ & Hv). cbn [firstn length Rsum] in Hv. rewrite K_diag, sig_acv in Hv. lra.
Qed.
End Carp.

Lemma frac_irrefl z : ~ frac_apart (1 / 10000) z z.
Proof.
  unfold frac_apart. replace (Cminus z z) with (RtoC 0) by ring. rewrite Cmod_0. pose proof (Cmod_ge_0 (Cplus z z)). lra.
Qed.
Lemma apart_NoDup smax fmin fmax th om : (forall r, In r om -> fst r < 0) -> in_prior smax fmin fmax th om -> NoDup om.
Proof.
  intros Hn H. apply (NoDup_nth om (RtoC 0)). intros i j Hi Hj E.
  assert (forall i j, (i < j)%nat -> (j < length om)%nat -> nth i om (RtoC 0) <> nth j om (RtoC 0)) as Hne.
  { intros a c Hac Hc Eq. pose proof (pr_apart _ _ _ _ _ H a c Hac Hc) as Ha.
    exact (frac_irrefl _ (eq_ind _ (fun z => frac_apart (1 / 10000) z (nth c om (RtoC 0))) Ha _ Eq)). }
  destruct (Nat.lt_trichotomy i j) as [Hlt|[->|Hlt]]; [exfalso; apply (Hne i j)|reflexivity|exfalso; apply (Hne j i)]; auto.
Qed.
