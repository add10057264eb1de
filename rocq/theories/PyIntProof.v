(** carma_process and KalmanFilterDeprecated.filter with an integer array of times. *)
From Coq Require Import Reals List Arith ZArith Bool Lia Lra Permutation.
From Coquelicot Require Import Complex.
From Flocq Require Import Core.
From Verif Require Import Arith Res ListLemmas KFModel KF1Proof Spec Gauss Emb KF1R InitProof OUpd SimProof KF1Main Cx KFpModel KFpProof SpecCarma CLin KFpR KFpX KFpMain KFpTop KFpMore PyModel PyData PySim PyKFModel PyIntModel.
From Verif Require CarmaKernel KF1More.
Import ListNotations.
Local Open Scope R_scope.

Section Sim.
Variable solve : list (list (cx AX)) -> list (cx AX) -> option (list (cx AX)).
Hypothesis Hsolve : valid_solve solve.
Variable store : F AX -> res (F AX).
Variable tr0 : R -> R.
Hypothesis Hstore : forall x, store (Fin x) = Ok (Fin (tr0 x)).
Variables (sig : R) (om : list C) (ma : list R).
Hypothesis Hok : carma_ok sig om ma.
Let p := length om.
Let r i := nth i om (RtoC 0).
Let mf l := nth l ma 0.
Let omX : list (cx AX) := map FinC om.
Let bX := rotated omX (map Fin ma : list (F AX)).
Let b := CarmaKernel.b p r mf.
Variable J : list C.
Hypothesis HlJ : length J = p.
Hypothesis HJ : forall k, (k < p)%nat -> Csum (fun i => Cmult (Cpown (r i) k) (nth i J (RtoC 0))) p = if Nat.eqb k (p - 1) then RtoC 1 else RtoC 0.
Let V := CarmaKernel.V r (fun i => nth i J (RtoC 0)) sig.
Let E := CarmaKernel.E r.
Let SVX := mbuild p p (state_upper (Fin sig : F AX) omX (map FinC J)).
Variable tr : list R.
Hypothesis Hinc : strictly_increasing tr.
Let n := length tr.
Let t i := nth i tr 0.
Let e : nat -> R := fun _ => 0.

Lemma carma_loop_i_spec (z : nat -> R) : forall k i (yp : list R) st PX, (i + k = n)%nat -> length yp = i -> (0 < i)%nat ->
  repv p st (xf p b V E t e (fun j => nth j yp 0) (i - 1)) -> repm p PX (PV p b V E t e (i - 1)) ->
  exists ys, carma_loop_i (A := AX) store (fun i => Fin (z i)) p omX bX SVX i (Fin (t (i - 1))) st PX (Fin (vf p b V E t e (i - 1)))
      (Fin (nth (i - 1) yp 0 - fst (dotv p b (xf p b V E t e (fun j => nth j yp 0) (i - 1))))) (map Fin (skipn i tr)) = Ok (map Fin ys) /\ length ys = k /\
    forall j, (i <= j < n)%nat -> nth j (yp ++ ys) 0 = tr0 (fst (dotv p b (xf p b V E t e (fun j => nth j (yp ++ ys) 0) j)) + sqrt (vf p b V E t e j) * z j).
Proof.
  induction k as [|k IH]; intros i yp st PX Hik Hl Hi0 Hst HP.
  { exists []. replace (skipn i tr) with (@nil R) by (symmetry; apply skipn_all2; fold n; lia). split; [reflexivity|]. split; [reflexivity|]. intros; lia. }
  assert (skipn i tr = t i :: skipn (S i) tr) as Es.
  { unfold t. clear -Hik. revert i Hik. unfold n. clear. induction tr as [|x l IH]; intros i H; cbn [length] in H; [lia|].
    destruct i as [|i]; [reflexivity|]. change (skipn (S i) (x :: l)) with (skipn i l). change (skipn (S (S i)) (x :: l)) with (skipn (S i) l).
    rewrite IH by lia. reflexivity. }
  destruct i as [|i']; [lia|]. replace (S i' - 1)%nat with i' in * by lia.
  pose proof (pos_v sig om ma Hok J HlJ HJ tr Hinc i' ltac:(fold n; lia)) as Hv. pose proof (pos_v sig om ma Hok J HlJ HJ tr Hinc (S i') ltac:(fold n; lia)) as Hv'.
  change (0 < vf p b V E t e i') in Hv. change (0 < vf p b V E t e (S i')) in Hv'.
  set (v := vf p b V E t e i') in *. set (yf := fun j => nth j yp 0) in *.
  pose proof (gainf_fin p bX b (b_rep om ma) PX _ v HP ltac:(lra)) as Hg.
  set (inn := nth i' yp 0 - fst (dotv p b (xf p b V E t e yf i'))).
  pose proof (rhof_fin p omX r (omX_rep om) (t (S i') - t i')) as Hr.
  set (st2 := schur p (rhof p omX (Fin (t (S i') - t i'))) (axpy p st (gainf p bX PX (Fin v)) (Fin inn))).
  set (P2 := propV p (rhof p omX (Fin (t (S i') - t i'))) (condV p PX (gainf p bX PX (Fin v)) (Fin v)) SVX).
  assert (repv p st2 (xf p b V E t e yf (S i'))) as Hst2.
  { eapply repv_ext; [apply schur_fin; [exact Hr|apply axpy_fin; [exact Hst|exact Hg]]|].
    intros a Ha. cbn [xf]. fold (yf i'). f_equal. f_equal. rewrite Cmult_comm. reflexivity. }
  assert (repm p P2 (PV p b V E t e (S i'))) as HP2.
  { eapply repm_ext; [apply propV_fin; [exact (sv_rep sig om ma Hok J HlJ)|exact Hr|apply condV_fin; [exact HP|exact Hg]]|]. intros a c Ha Hc. reflexivity. }
  set (m := fst (dotv p b (xf p b V E t e yf (S i')))). set (v' := vf p b V E t e (S i')) in *.
  set (y1 := tr0 (m + sqrt v' * z (S i'))).
  assert (forall j, (j <= i')%nat -> nth j (yp ++ [y1]) 0 = yf j) as Ey by (intros j Hj; apply app_nth1; lia).
  assert (nth (S i') (yp ++ [y1]) 0 = y1) as Ey1 by (rewrite app_nth2, Hl, Nat.sub_diag by lia; reflexivity).
  assert (fst (dotv p b (xf p b V E t e (fun j => nth j (yp ++ [y1]) 0) (S i'))) = m) as Em.
  { apply (mean_ext sig om ma J tr). intros j Hj. apply Ey. lia. }
  destruct (IH (S (S i')) (yp ++ [y1]) st2 P2) as (ys & Eq & Hly & Hy).
  - lia.
  - rewrite app_length, Hl. cbn. lia.
  - lia.
  - cbn [Nat.sub]. eapply repv_ext; [exact Hst2|]. intros a Ha. apply (xf_ext sig om ma J tr); [|exact Ha]. intros j Hj. symmetry. apply Ey. lia.
  - exact HP2.
  - exists (y1 :: ys). rewrite Es. cbn [map carma_loop_i].
    cbn [Nat.sub] in Eq. rewrite Em, Ey1 in Eq. fold v' in Eq. split; [|split].
    + change (fsub AX (Fin (t (S i'))) (Fin (t i'))) with (Fin (t (S i') - t i')). fold st2. fold P2.
      assert (linf p bX st2 = Fin m) as -> by (apply (linf_fin p bX b (b_rep om ma)); exact Hst2).
      assert (quadf p bX P2 = Fin v') as -> by (refine (eq_trans (quadf_fin p bX b (b_rep om ma) P2 _ HP2) (f_equal Fin (eq_sym (vf_quad sig om ma J tr (S i')))))).
      assert (fsqrt AX (Fin v') = Fin (sqrt v')) as -> by (refine (fin_sqrt _ _); lra).
      cbn [fmul fadd fsub AX xmul xadd xsub]. rewrite Hstore. cbn [bind xsub]. fold y1. change (xsub (Fin y1) (Fin m)) with (Fin (y1 - m)). change (F AX) with xr in *. rewrite Eq. reflexivity.
    + cbn [length]. lia.
    + assert ((yp ++ [y1]) ++ ys = yp ++ y1 :: ys) as Ea by (rewrite <- app_assoc; reflexivity). rewrite Ea in Hy.
      intros j Hj. destruct (Nat.eq_dec j (S i')) as [->|Hne]; [|apply Hy; lia].
      rewrite (mean_ext sig om ma J tr (fun j => nth j (yp ++ y1 :: ys) 0) yf) by (intros k0 Hk0; apply app_nth1; lia).
      rewrite app_nth2, Hl, Nat.sub_diag by lia. reflexivity.
Qed.

(** the mean and the variance of the step are those of the conditional distribution *)
Lemma step_cond (y : list R) i : (i < n)%nat -> length y = n ->
  cond_dist (carma_cov sig ma om) (firstn i tr) (firstn i y) (repeat 0 i) (t i) (fst (dotv p b (xf p b V E t e (fun j => nth j y 0) i))) (vf p b V E t e i).
Proof.
  intros Hi Ly. destruct (wt_facts sig om ma Hok J HlJ HJ tr Hinc i Hi) as (W1 & W2).
  unfold cond_dist. rewrite firstn_length_le by (fold n; lia).
  assert (forall k, (k < i)%nat -> nth k (firstn i tr) 0 = nth k tr 0) as Ht by (intros; apply KF1More.nth_firstn_lt; assumption).
  assert (forall k, (k < i)%nat -> nth k (firstn i y) 0 = nth k y 0) as Hyy by (intros; apply KF1More.nth_firstn_lt; assumption).
  exists (wt p b V E t e i). split; [|split].
  - intros j Hj. rewrite (Ht j Hj). refine (eq_trans _ (W1 j Hj)). apply Rsum_ext. intros k Hk. unfold obs_cov. rewrite (Ht j Hj), (Ht k Hk).
    f_equal. destruct (Nat.eqb k j); [|apply Rplus_0_r].
    replace (nth k (repeat 0 i) 0) with 0 by (clear; revert k; induction i as [|i' IH]; intros [|k]; cbn; auto). rewrite Rmult_0_r. apply Rplus_0_r.
  - rewrite mean_wt. apply Rsum_ext. intros k Hk. rewrite (Hyy k Hk). reflexivity.
  - refine (eq_trans W2 _). f_equal. apply Rsum_ext. intros k Hk. rewrite (Ht k Hk). reflexivity.
Qed.
End Sim.

Theorem process_i vsort solve store (tr0 : R -> R) (t : list R) (sig : R) (om : list C) (ma : list R) :
  (forall x, store (Fin x) = Ok (Fin (tr0 x))) ->
  valid_vsort vsort -> valid_solve solve -> stable_roots om -> (2 <= length om)%nat -> (length ma <= length om)%nat ->
  (exists l, nth l ma 0 <> 0) -> 0 < sig -> t <> [] -> NoDup t ->
  exists ts, Permutation t ts /\ strictly_increasing ts /\
    forall z : nat -> R, exists y,
      carma_process_i (A := AX) store (fun i => Fin (z i)) vsort solve (map Fin t) (Fin sig) (map FinC om) (map Fin ma) = Ok (map Fin y, map Fin ts) /\
      length y = length ts /\ forall i, (i < length ts)%nat -> exists m v,
        0 < v /\ cond_dist (carma_cov sig ma om) (firstn i ts) (firstn i y) (repeat 0 i) (nth i ts 0) m v /\ nth i y 0 = tr0 (m + sqrt v * z i).
Proof.
  intros Hstore Hvs Hsolve Hst H2 Hlm Hnz Hsig Hne Hnd. destruct (Hvs t) as (ts & Es & Pt & Nd). exists ts. split; [exact Pt|].
  assert (strictly_increasing ts) as Hinc.
  { intros i j Hij Hj. destruct (Nd i j Hij Hj) as [L|L]; [exact L|]. exfalso.
    pose proof (proj1 (NoDup_nth ts 0) (Permutation_NoDup Pt Hnd) i j ltac:(lia) Hj L). lia. }
  split; [exact Hinc|].
  set (p := length om). set (mp := ma ++ repeat 0 (p - length ma)).
  assert (carma_ok sig om mp) as Hok.
  { split; [exact Hst|]. split; [exact H2|]. split; [unfold mp; rewrite app_length, repeat_length; fold p; unfold p; lia|]. split; [|exact Hsig].
    destruct Hnz as (l & Hl). exists l. unfold mp. destruct (Nat.lt_ge_cases l (length ma)) as [H|H]; [rewrite app_nth1 by exact H; exact Hl|].
    rewrite nth_overflow in Hl by exact H. lra. }
  destruct (solve_ok solve Hsolve sig om mp Hok) as (J & EJ & HlJ & HJ).
  intros z.
  set (b := CarmaKernel.b p (fun i => nth i om (RtoC 0)) (fun l => nth l mp 0)) in *.
  set (V := CarmaKernel.V (fun i => nth i om (RtoC 0)) (fun i => nth i J (RtoC 0)) sig) in *.
  set (E := CarmaKernel.E (fun i => nth i om (RtoC 0))) in *.
  set (tt := fun i => nth i ts 0) in *. set (e := fun _ : nat => 0) in *.
  assert (forall y, length y = length ts -> (forall i, (i < length ts)%nat -> nth i y 0 = tr0 (fst (dotv p b (xf p b V E tt e (fun j => nth j y 0) i)) + sqrt (vf p b V E tt e i) * z i)) ->
    forall i, (i < length ts)%nat -> exists m v,
        0 < v /\ cond_dist (carma_cov sig ma om) (firstn i ts) (firstn i y) (repeat 0 i) (nth i ts 0) m v /\ nth i y 0 = tr0 (m + sqrt v * z i)) as Fin'.
  { intros y Ly H i Hi. exists (fst (dotv p b (xf p b V E tt e (fun j => nth j y 0) i))), (vf p b V E tt e i).
    split; [exact (pos_v sig om mp Hok J HlJ HJ ts Hinc i Hi)|]. split; [|exact (H i Hi)].
    eapply cond_dist_ext; [|exact (step_cond sig om mp Hok J HlJ HJ ts Hinc y i Hi Ly)]. intros. apply carma_cov_pad. }
  destruct ts as [|t0 ts']. { exfalso. apply Permutation_sym, Permutation_nil in Pt. subst t. contradiction. }
  assert (0 < vf p b V E tt e 0) as Hv0 by (apply (pos_v sig om mp Hok J HlJ HJ (t0 :: ts') Hinc 0); cbn; lia).
  set (y0 := tr0 (sqrt (vf p b V E tt e 0) * z O)).
  destruct (carma_loop_i_spec store tr0 Hstore sig om mp Hok J HlJ HJ (t0 :: ts') Hinc z (length ts') 1 [y0] (czeros AX p) (mbuild p p (state_upper (Fin sig : F AX) (map FinC om) (map FinC J))))
    as (ys & Eq & Hly & Hy).
  - reflexivity.
  - reflexivity.
  - lia.
  - apply czeros_rep.
  - exact (sv_rep sig om mp Hok J HlJ).
  - exists (y0 :: ys). split; [|split].
    + unfold carma_process_i. rewrite !map_length. fold p. destruct (Nat.eqb_spec p 1); [unfold p in *; lia|]. destruct (Nat.eqb_spec p 0); [unfold p in *; lia|].
      change (F AX) with xr. rewrite Es. rewrite map_length in EJ. fold p in EJ. rewrite EJ.
      rewrite py_pad_pad by exact Hlm. fold mp. rewrite map_length. assert (length mp = p) as Hmp by (unfold mp; rewrite app_length, repeat_length; unfold p; lia).
      rewrite Hmp, Nat.eqb_refl. cbn [negb map].
      set (SV := mbuild p p _).
      assert (quadf p (rotated (map FinC om) (map Fin mp : list (F AX))) SV = Fin (vf p b V E tt e 0)) as ->.
      { refine (eq_trans _ (f_equal Fin (eq_sym (vf_quad sig om mp J (t0 :: ts') 0)))). apply (quadf_fin p _ b (b_rep om mp)). exact (sv_rep sig om mp Hok J HlJ). }
      assert (fsqrt AX (Fin (vf p b V E tt e 0)) = Fin (sqrt (vf p b V E tt e 0))) as -> by (refine (fin_sqrt _ _); lra).
      assert (fadd AX (fofZ AX 0) (fmul AX (Fin (sqrt (vf p b V E tt e 0))) (Fin (z O))) = Fin (sqrt (vf p b V E tt e 0) * z O)) as -> by (cbn; f_equal; ring).
      rewrite Hstore. cbn [bind]. fold y0.
      cbn [Nat.sub nth skipn xf] in Eq. rewrite dotv_0 in Eq. cbn [fst RtoC] in Eq. rewrite Rminus_0_r in Eq.
      refine (eq_trans (f_equal (fun r => bind r (fun ys => Ok (Fin y0 :: ys, map Fin (t0 :: ts')))) Eq) _). reflexivity.
    + cbn [length]. rewrite Hly. reflexivity.
    + apply Fin'; [cbn [length]; rewrite Hly; reflexivity|]. intros [|i] Hi.
      * cbn [nth xf]. rewrite dotv_0. cbn [fst RtoC]. unfold y0. f_equal. ring.
      * exact (Hy (S i) ltac:(cbn [length] in *; lia)).
Qed.
