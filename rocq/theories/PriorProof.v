(** Prior bounds, prior densities and the variance normalisation on finite parameters. *)
From Coq Require Import Reals List Arith ZArith Lra Lia Bool Permutation.
From Coquelicot Require Import Complex.
From Verif Require Import Arith Res ListLemmas KFModel Spec Gauss Emb Cx KFpModel KFpProof SpecCarma CLin KFpR KFpX
  KFpMain SpecModel CarpackModel RootsProof.
Import ListNotations.
Local Open Scope R_scope.

(** ** unique_roots *)
Definition apart (tol : R) (a b : C) : Prop := Cplus a b = RtoC 0 \/ frac_apart tol a b.

Lemma cabs_FinC z : cabs (FinC z) = Fin (Cmod z).
Proof.
  unfold cabs, FinC. cbn [fst snd fmul fadd fsqrt AX xmul xadd]. rewrite fin_sqrt by nra. unfold Cmod. f_equal. f_equal. simpl. ring.
Qed.
Lemma Cmod_pos z : z <> RtoC 0 -> 0 < Cmod z.
Proof. intros H. apply Cmod_gt_0, H. Qed.
Lemma frac_diff_Fin a b : Cplus a b <> RtoC 0 -> frac_diff (FinC a) (FinC b) = Fin (Cmod (Cminus a b) / Cmod (Cplus a b)).
Proof.
  intros H. unfold frac_diff. rewrite FinC_add, FinC_sub, FinC_div by exact H. rewrite cabs_FinC, Cmod_div by exact H. reflexivity.
Qed.
Lemma frac_diff_NaN a b : Cplus a b = RtoC 0 -> frac_diff (FinC a) (FinC b) = NaN.
Proof.
  intros H. unfold frac_diff. rewrite FinC_add, FinC_sub, H. unfold cdiv, FinC, cabs.
  cbn [fst snd fmul fadd fsub fdiv fsqrt AX xmul xadd xsub RtoC]. unfold xdiv.
  destruct (Req_EM_T (0 * 0 + 0 * 0) 0) as [_|E]; [|exfalso; apply E; ring].
  unfold rsgn. destruct (Rlt_dec (fst (Cminus a b) * 0 + snd (Cminus a b) * 0) 0); [lra|].
  destruct (Rlt_dec 0 (fst (Cminus a b) * 0 + snd (Cminus a b) * 0)); [lra|]. reflexivity.
Qed.
Lemma flt_Fin a b : flt AX (Fin a) (Fin b) = true <-> a < b.
Proof. cbn. destruct (Rlt_dec a b); split; intros; try discriminate; try lra; reflexivity. Qed.
Lemma flt_Fin_false a b : flt AX (Fin a) (Fin b) = false <-> b <= a.
Proof. cbn. destruct (Rlt_dec a b); split; intros; try discriminate; try lra; reflexivity. Qed.
Lemma ratio_apart tol a b : Cplus a b <> RtoC 0 -> (tol < Cmod (Cminus a b) / Cmod (Cplus a b) <-> frac_apart tol a b).
Proof.
  intros H. apply Cmod_pos in H. unfold frac_apart. split; intros E.
  - apply (Rmult_lt_compat_r _ _ _ H) in E. unfold Rdiv in E. rewrite Rmult_assoc, Rinv_l in E by lra. lra.
  - apply (Rmult_lt_reg_r (Cmod (Cplus a b))); [exact H|]. unfold Rdiv. rewrite Rmult_assoc, Rinv_l by lra. lra.
Qed.
Lemma fold_frac tol a l : forall m, exists m',
  fold_left (fun m b => if flt AX (frac_diff (FinC a) b) m then frac_diff (FinC a) b else m) (map FinC l) (Fin m) = Fin m' /\
  (tol < m' <-> tol < m /\ Forall (apart tol a) l).
Proof.
  induction l as [|b l IH]; intros m.
  - exists m. split; [reflexivity|]. split; [intros; split; [assumption|constructor]|tauto].
  - cbn [map fold_left]. destruct (Ceq_dec (Cplus a b) (RtoC 0)) as [E|E].
    + rewrite frac_diff_NaN by exact E. change (flt AX NaN (Fin m)) with false. cbn iota.
      destruct (IH m) as (m' & H1 & H2). exists m'. split; [exact H1|]. rewrite H2. split; intros [Ha Hb]; split; auto.
      * constructor; [left; exact E|exact Hb].
      * inversion Hb; assumption.
    + rewrite frac_diff_Fin by exact E. set (f := Cmod (Cminus a b) / Cmod (Cplus a b)).
      destruct (flt AX (Fin f) (Fin m)) eqn:Elt.
      * apply flt_Fin in Elt. destruct (IH f) as (m' & H1 & H2). exists m'. split; [exact H1|]. rewrite H2. split; intros [Ha Hb].
        -- split; [lra|]. constructor; [right; apply ratio_apart; assumption|exact Hb].
        -- inversion Hb as [|? ? [Hc|Hc] Hd]; subst; [contradiction|]. split; [|exact Hd]. apply ratio_apart; assumption.
      * apply flt_Fin_false in Elt. destruct (IH m) as (m' & H1 & H2). exists m'. split; [exact H1|]. rewrite H2. split; intros [Ha Hb].
        -- split; [exact Ha|]. constructor; [right; apply ratio_apart; [exact E|fold f; lra]|exact Hb].
        -- split; [exact Ha|]. inversion Hb; assumption.
Qed.
Lemma min_frac_Fin tol l : forall m, exists m',
  min_frac (map FinC l) (Fin m) = Fin m' /\ (tol < m' <-> tol < m /\ ForallOrdPairs (apart tol) l).
Proof.
  induction l as [|a l IH]; intros m.
  - exists m. split; [reflexivity|]. split; [intros; split; [assumption|constructor]|tauto].
  - cbn [map min_frac]. destruct (fold_frac tol a l m) as (m1 & H1 & H2).
    replace (fold_left _ (map FinC l) (Fin m)) with (Fin m1) by (symmetry; exact H1).
    destruct (IH m1) as (m' & H3 & H4). exists m'. split; [exact H3|]. rewrite H4, H2. split.
    + intros [[Ha Hb] Hc]. split; [exact Ha|]. constructor; assumption.
    + intros [Ha Hb]. inversion Hb; subst. tauto.
Qed.
Lemma FOP_nth T (P : T -> T -> Prop) (l : list T) d :
  ForallOrdPairs P l <-> forall i j, (i < j)%nat -> (j < length l)%nat -> P (nth i l d) (nth j l d).
Proof.
  induction l as [|a l IH]; split.
  - intros _ i j _ Hj. simpl in Hj. lia.
  - intros _. constructor.
  - intros H i j Hij Hj. inversion H as [|? ? Ha Hl]; subst. destruct j as [|j]; [lia|]. destruct i as [|i]; cbn [nth length] in *.
    + rewrite Forall_forall in Ha. apply Ha, nth_In. lia.
    + apply IH; [exact Hl|lia|lia].
  - intros H. constructor.
    + apply Forall_forall. intros x Hx. apply (In_nth _ _ d) in Hx. destruct Hx as (k & Hk & <-).
      apply (H O (S k)); cbn [length]; lia.
    + apply IH. intros i j Hij Hj. apply (H (S i) (S j)); cbn [length]; lia.
Qed.
Theorem unique_roots_main tol (l : list C) : 0 < tol ->
  (unique_roots (map FinC l) (Fin tol) = true <->
   forall i j, (i < j)%nat -> (j < length l)%nat ->
     Cplus (nth i l (RtoC 0)) (nth j l (RtoC 0)) = RtoC 0 \/ frac_apart tol (nth i l (RtoC 0)) (nth j l (RtoC 0))).
Proof.
  intros Ht. unfold unique_roots. cbn [fmul fofZ AX xmul].
  destruct (min_frac_Fin tol l (100 * tol)) as (m' & H1 & H2).
  replace (min_frac (map FinC l) (Fin (100 * tol))) with (Fin m') by (symmetry; exact H1).
  etransitivity; [apply flt_Fin|]. rewrite H2, (FOP_nth _ _ _ (RtoC 0)). unfold apart. split; [tauto|]. intros H; split; [lra|exact H].
Qed.
Lemma unique_roots_neg tol (l : list C) : 0 < tol -> (forall r, In r l -> fst r < 0) ->
  (unique_roots (map FinC l) (Fin tol) = true <->
   forall i j, (i < j)%nat -> (j < length l)%nat -> frac_apart tol (nth i l (RtoC 0)) (nth j l (RtoC 0))).
Proof.
  intros Ht Hn. rewrite unique_roots_main by exact Ht. split; intros H i j Hij Hj.
  - destruct (H i j Hij Hj) as [E|E]; [|exact E]. exfalso.
    assert (fst (nth i l (RtoC 0)) < 0) by (apply Hn, nth_In; lia).
    assert (fst (nth j l (RtoC 0)) < 0) by (apply Hn, nth_In; lia).
    apply (f_equal fst) in E. cbn [Cplus fst RtoC] in E. lra.
  - right. apply H; assumption.
Qed.

(** ** CheckPriorBounds *)
Lemma centroid_Fin r : centroid (FinC r) = Fin (Rabs (snd r) / (2 * PI)).
Proof.
  pose proof PI_RGT_0. unfold centroid, FinC. cbn [snd fabs fdiv fofZ fpi AX xabs]. rewrite fin_div by lra.
  rewrite fin_div by lra. f_equal. field. lra.
Qed.
Lemma width_Fin r : width (FinC r) = Fin (- fst r / (2 * PI)).
Proof.
  pose proof PI_RGT_0. unfold width, FinC. cbn [fst fneg fdiv fofZ fpi AX xneg]. rewrite fin_div by lra.
  rewrite fin_div by lra. f_equal. field. lra.
Qed.
Lemma descending_Fin (l : list R) : descending AX (map Fin l) = true <->
  forall i, (S i < length l)%nat -> nth (S i) l 0 <= nth i l 0 + 1 / 100000000.
Proof.
  induction l as [|a [|b l] IH].
  - split; [intros _ i Hi; simpl in Hi; lia|reflexivity].
  - split; [intros _ i Hi; simpl in Hi; lia|reflexivity].
  - change (descending AX (map Fin (a :: b :: l))) with
      (negb (flt AX (Fin (1 / 100000000)) (Fin (b - a))) && descending AX (map Fin (b :: l))).
    rewrite andb_true_iff, negb_true_iff, flt_Fin_false, IH. split.
    + intros [H1 H2] [|i] Hi; [cbn [nth]; lra|]. apply (H2 i). cbn [length] in *. lia.
    + intros H. split; [pose proof (H O ltac:(cbn [length]; lia)) as H0; cbn [nth] in H0; lra|].
      intros i Hi. apply (H (S i)). cbn [length] in *. lia.
Qed.
Lemma scalar_bad_Fin smax fmax fmin ign s m :
  negb (scalar_bad (mkB AX (Fin smax) fmax fmin ign) (Fin s) (Fin m)) = true <-> 0 <= s <= smax /\ 1 / 2 <= m <= 2.
Proof.
  unfold scalar_bad. cbn [max_stdev fofZ fdec AX].
  rewrite negb_true_iff, !orb_false_iff.
  change (xr) with (F AX). change (Fin 0) with (Fin 0).
  pose proof (flt_Fin_false smax s). pose proof (flt_Fin_false s 0). pose proof (flt_Fin_false m (1 / 2)). pose proof (flt_Fin_false 2 m).
  cbn [flt AX] in *. tauto.
Qed.
Lemma nth_mapC (f : C -> R) (l : list C) i : (i < length l)%nat -> nth i (map f l) 0 = f (nth i l (RtoC 0)).
Proof. intros H. rewrite nth_indep with (d' := f (RtoC 0)) by (rewrite map_length; exact H). apply map_nth. Qed.
Theorem CheckPriorBoundsp_main p smax fmin fmax (th : list R) : (3 + p <= length th)%nat ->
  exists roots : list C, ARRoots AX p (map Fin th) = Ok (map FinC roots) /\
    exists b, CheckPriorBoundsp p (mkB AX (Fin smax) (Fin fmax) (Fin fmin) false) (map Fin th) = Ok b /\
      (b = true <-> in_prior smax fmin fmax th roots).
Proof.
  intros HL. destruct (ARRoots_main p th HL) as (roots & HR & Hlen & Hneg & _). exists roots. split; [exact HR|].
  unfold CheckPriorBoundsp. cbn [ignore_prior]. rewrite !vget_Fin by lia. cbn [bind]. rewrite HR. cbn [bind].
  eexists. split; [reflexivity|]. cbn [max_freq min_freq].
  change (fdec AX 1 10000) with (Fin (1 / 10000)).
  rewrite !andb_true_iff, unique_roots_neg by (lra || exact Hneg). rewrite scalar_bad_Fin, !forallb_forall.
  assert (map (@centroid AX) (map FinC roots) = map Fin (map (fun r => Rabs (snd r) / (2 * PI)) roots)) as Ec.
  { rewrite !map_map. apply map_ext. intros r. apply centroid_Fin. }
  assert (map (@width AX) (map FinC roots) = map Fin (map (fun r => - fst r / (2 * PI)) roots)) as Ew.
  { rewrite !map_map. apply map_ext. intros r. apply width_Fin. }
  change (cx AX) with (F AX * F AX)%type in *.
  rewrite Ec, Ew. split.
  - intros (((((H1 & H2) & H3) & H4) & H5) & H6d). pose proof (proj1 (descending_Fin _) H6d) as H6. rewrite map_length in H6.
    constructor; try tauto.
    + intros r Hr. apply flt_Fin. apply H2. apply in_map, in_map_iff. exists r. split; [reflexivity|exact Hr].
    + intros r Hr. split; apply flt_Fin; [apply H4|apply H3]; apply in_map, in_map_iff; exists r; (split; [reflexivity|exact Hr]).
    + intros i Hi. specialize (H6 i Hi).
      rewrite !nth_mapC in H6 by (exact Hi || exact (Nat.lt_succ_l _ _ Hi)). exact H6.
  - intros [H1 H2 H3 H4 H5 H6]. repeat split; try tauto.
    + intros x Hx. apply in_map_iff in Hx. destruct Hx as (y & <- & Hy). apply in_map_iff in Hy. destruct Hy as (r & <- & Hr).
      apply flt_Fin, H1, Hr.
    + intros x Hx. apply in_map_iff in Hx. destruct Hx as (y & <- & Hy). apply in_map_iff in Hy. destruct Hy as (r & <- & Hr).
      apply flt_Fin, H2, Hr.
    + intros x Hx. apply in_map_iff in Hx. destruct Hx as (y & <- & Hy). apply in_map_iff in Hy. destruct Hy as (r & <- & Hr).
      apply flt_Fin, H2, Hr.
    + apply descending_Fin. rewrite map_length. intros i Hi. specialize (H5 i Hi).
      rewrite !nth_mapC by (exact Hi || exact (Nat.lt_succ_l _ _ Hi)). exact H5.
Qed.
Theorem CheckPriorBounds1_main smax fmin fmax ign (th : list R) : (4 <= length th)%nat ->
  exists b, CheckPriorBounds1 (mkB AX (Fin smax) (Fin fmax) (Fin fmin) ign) (map Fin th) = Ok b /\
    (b = true <-> in_prior1 smax fmin fmax th).
Proof.
  intros HL. unfold CheckPriorBounds1. rewrite !vget_Fin by lia. cbn [bind]. eexists. split; [reflexivity|].
  cbn [max_freq min_freq fexp AX xexp]. rewrite !negb_orb, !andb_true_iff, scalar_bad_Fin, !negb_true_iff.
  pose proof (flt_Fin_false fmax (exp (nth 3 th 0))). pose proof (flt_Fin_false (exp (nth 3 th 0)) fmin).
  cbn [flt AX] in *. unfold in_prior1. tauto.
Qed.

(** ** prior densities *)
Theorem LogPrior_main (th : list R) : (2 <= length th)%nat -> 0 < nth 1 th 0 -> LogPrior AX (map Fin th) = Ok (Fin (log_sichi (nth 1 th 0))).
Proof.
  intros HL Hs. unfold LogPrior. rewrite vget_Fin by lia. cbn [bind]. f_equal.
  cbn [fneg fdec fmul fofZ fdiv fsub fadd flog AX xneg xmul]. rewrite fin_div by lra. rewrite fin_div by lra.
  rewrite fin_log by exact Hs. cbn [xsub xadd xmul]. f_equal. unfold log_sichi. field. lra.
Qed.
Lemma ln_lt_id x : 0 < x -> x <> 1 -> ln x < x - 1.
Proof.
  intros Hx Hn. assert (ln x <> 0) as Hl.
  { intros E. apply Hn. rewrite <- (exp_ln x Hx), E. apply exp_0. }
  pose proof (exp_ineq1 (ln x) Hl) as H. rewrite exp_ln in H by exact Hx. lra.
Qed.
Theorem log_sichi_max s : 0 < s -> s <> 50 / 52 -> log_sichi s < log_sichi (50 / 52).
Proof.
  intros Hs Hn. unfold log_sichi. set (u := (50 / 52) / s).
  assert (0 < u) as Hu by (apply Rdiv_lt_0_compat; lra).
  assert (u <> 1) as Hu1.
  { intros E. apply Hn. unfold u in E. apply (f_equal (fun x => x * s)) in E. unfold Rdiv at 1 in E. rewrite Rmult_assoc, Rinv_l in E by lra. lra. }
  pose proof (ln_lt_id u Hu Hu1) as H. unfold u, Rdiv at 1 in H. rewrite ln_mult in H by (try apply Rinv_0_lt_compat; lra).
  rewrite ln_Rinv in H by exact Hs.
  replace (50 / (2 * s)) with (26 * u) by (unfold u; field; lra). replace (50 / (2 * (50 / 52))) with 26 by field.
  replace (1 + 50 / 2) with 26 by field. fold u in H. unfold u in *. lra.
Qed.
Lemma rinv_logit_deriv x : derivable_pt_lim rinv_logit x (exp (- x) / ((1 + exp (- x)) * (1 + exp (- x)))).
Proof.
  pose proof (exp_pos x) as P. assert (exp (- x) = / exp x) as E by apply exp_Ropp. rewrite E.
  replace (/ exp x / ((1 + / exp x) * (1 + / exp x))) with
    ((exp x * (1 + exp x) - (0 + exp x) * exp x) / Rsqr (1 + exp x)).
  2:{ unfold Rsqr. field. repeat split; try lra. }
  unfold rinv_logit. apply (derivable_pt_lim_div exp (fun y => 1 + exp y)).
  - apply derivable_pt_lim_exp.
  - apply (derivable_pt_lim_plus (fun _ => 1) exp); [apply derivable_pt_lim_const|apply derivable_pt_lim_exp].
  - lra.
Qed.
Theorem LogPrior_z_main p (th : list R) : (4 + p <= length th)%nat -> 0 < nth 1 th 0 ->
  exists D, derivable_pt_lim rinv_logit (nth (p + 3) th 0) D /\ 0 < D /\
    LogPrior_z AX p (map Fin th) = Ok (Fin (log_sichi (nth 1 th 0) + ln D)).
Proof.
  intros HL Hs. set (x := nth (p + 3) th 0).
  pose proof (exp_pos (- x)) as P.
  exists (exp (- x) / ((1 + exp (- x)) * (1 + exp (- x)))). split; [apply rinv_logit_deriv|].
  split; [apply Rdiv_lt_0_compat; nra|].
  unfold LogPrior_z. rewrite !vget_Fin by lia. cbn [bind]. fold x. f_equal.
  cbn [fneg fdec fmul fofZ fdiv fsub fadd flog fexp AX xneg xmul xexp]. rewrite fin_div by lra. rewrite fin_div by lra.
  rewrite fin_log by exact Hs. cbn [xadd]. rewrite fin_log by lra. cbn [xsub xadd xmul]. f_equal.
  assert (ln (exp (- x) / ((1 + exp (- x)) * (1 + exp (- x)))) = - x - 2 * ln (1 + exp (- x))) as ->.
  { unfold Rdiv. rewrite ln_mult by (try apply Rinv_0_lt_compat; nra). rewrite ln_Rinv by nra. rewrite ln_mult by lra. rewrite ln_exp. ring. }
  unfold log_sichi. field. lra.
Qed.

(** ** Variance *)
Lemma FinC_prod f g n : (forall k, (k < n)%nat -> f k = FinC (g k)) -> cprod f n = FinC (Cprod g n).
Proof.
  induction n as [|n IH]; intros H; [reflexivity|]. cbn [cprod Cprod]. rewrite IH, H by (intros; try apply H; lia). apply FinC_mul.
Qed.
Lemma vnth_FinC l i : vnth (map FinC l) i = FinC (nth i l (RtoC 0)).
Proof. unfold vnth. rewrite FinC_0. apply map_nth. Qed.
Lemma ma_sum_Fin (ma : list R) z : @ma_sum AX (map Fin ma) (FinC z) = FinC (ma_poly ma z).
Proof.
  unfold ma_sum, ma_poly. rewrite map_length. apply FinC_sum. intros k Hk.
  change (nth k (map Fin ma) (fofZ AX 0)) with (nth k (map Fin ma) (Fin 0)). rewrite nth_map_Fin, FinC_pown. apply FinC_scale.
Qed.
Lemma var_denom_Fin om k : var_denom (map FinC om) k = FinC (carma_denom om k).
Proof.
  unfold var_denom, carma_denom. rewrite vnth_FinC, map_length.
  rewrite (FinC_prod _ (fun l => if Nat.eqb l k then RtoC 1
                         else Cmult (Cminus (nth l om (RtoC 0)) (nth k om (RtoC 0))) (Cplus (Cconj (nth l om (RtoC 0))) (nth k om (RtoC 0))))).
  - change (fmul AX (fneg AX (fofZ AX 2)) (fst (FinC (nth k om (RtoC 0))))) with (Fin (- (2) * fst (nth k om (RtoC 0)))).
    etransitivity; [apply FinC_scale|]. reflexivity.
  - intros l _. destruct (Nat.eqb l k); [reflexivity|]. rewrite vnth_FinC, FinC_sub, FinC_conj, FinC_add, FinC_mul. reflexivity.
Qed.
Lemma Csub0 (a b : C) : Cminus a b = RtoC 0 -> a = b.
Proof. destruct a, b. intros E. injection E as E1 E2. f_equal; lra. Qed.
Lemma Cconj_add0 (a b : C) : fst a < 0 -> fst b < 0 -> Cplus (Cconj a) b = RtoC 0 -> False.
Proof. destruct a, b. intros H1 H2 E. injection E as E1 E2. cbn [fst] in *. lra. Qed.
Lemma carma_denom_neq0 om k : NoDup om -> (forall z, In z om -> fst z < 0) -> (k < length om)%nat -> carma_denom om k <> RtoC 0.
Proof.
  intros Hnd Hneg Hk. unfold carma_denom. cbv zeta beta. intros E. apply Cmult_integral in E.
  assert (fst (nth k om (RtoC 0)) < 0) as Hr by (apply Hneg, nth_In, Hk).
  destruct E as [E|E].
  - revert E. apply RtoC_neq0. assert (-2 * fst (nth k om (RtoC 0)) <> 0) as Hx by (intros E1; lra). exact Hx.
  - revert E. apply Cprod_neq0. intros l Hl. destruct (Nat.eqb_spec l k) as [->|Hne]; [apply RtoC_neq0; lra|].
    intros E. apply Cmult_integral in E. assert (fst (nth l om (RtoC 0)) < 0) as Hrl by (apply Hneg, nth_In, Hl).
    destruct E as [E|E].
    + apply Hne. apply (proj1 (NoDup_nth om (RtoC 0)) Hnd); try assumption.
      exact (Csub0 _ _ E).
    + exact (Cconj_add0 _ _ Hrl Hr E).
Qed.
Theorem Variance_Fin om ma s dt : NoDup om -> (forall z, In z om -> fst z < 0) ->
  Variance (map FinC om) (map Fin ma) (Fin s : F AX) (Fin dt) = Fin (carma_acv (s * s) ma om dt).
Proof.
  intros Hnd Hneg. unfold Variance, carma_acv. rewrite map_length.
  rewrite (FinC_sum _ (fun k => Cdiv (Cmult (Cmult (ma_poly ma (nth k om (RtoC 0))) (ma_poly ma (Copp (nth k om (RtoC 0)))))
                                        (Cexp (Cmult (nth k om (RtoC 0)) (RtoC dt)))) (carma_denom om k))).
  - reflexivity.
  - intros k Hk. rewrite vnth_FinC, var_denom_Fin. change (cneg (FinC (nth k om (RtoC 0)))) with (FinC (Copp (nth k om (RtoC 0)))).
    rewrite !ma_sum_Fin, FinC_mul. rewrite FinC_scale, FinC_exp, FinC_mul, FinC_div by (apply carma_denom_neq0; assumption).
    rewrite (Cmult_comm (RtoC dt)). reflexivity.
Qed.
