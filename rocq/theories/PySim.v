(** car1_process and carma_process: the simulated series has the covariance of the process. *)
From Coq Require Import Reals List Arith ZArith Bool Lia Lra Permutation.
From Coquelicot Require Import Complex.
From Verif Require Import Arith Res ListLemmas KFModel KF1Proof Spec Gauss Emb KF1R InitProof OUpd SimProof KF1Main Cx KFpModel KFpProof SpecCarma CLin KFpR KFpX KFpMain KFpTop KFpMore PyModel PyData.
From Verif Require CarmaKernel.
Import ListNotations.
Local Open Scope R_scope.

(** ** A lower triangular factor from one-step weights *)
Lemma innov_factor n (K w : nat -> nat -> R) (v : nat -> R) : (forall i j, K i j = K j i) ->
  (forall i j, (i < n)%nat -> (j < i)%nat -> Rsum (fun k => w i k * K k j) i = K i j) ->
  (forall i, (i < n)%nat -> v i = K i i - Rsum (fun k => w i k * K i k) i) -> (forall i, (i < n)%nat -> 0 <= v i) ->
  exists L : nat -> nat -> R, ((forall i k, (i < n)%nat -> (i < k)%nat -> L i k = 0) /\ forall i, (i < n)%nat -> L i i = sqrt (v i)) /\
    (forall i j, (i < n)%nat -> (j < n)%nat -> Rsum (fun k => L i k * L j k) n = K i j) /\
    forall y z, (forall i, (i < n)%nat -> y i = Rsum (fun k => w i k * y k) i + sqrt (v i) * z i) ->
      forall i, (i < n)%nat -> y i = Rsum (fun k => L i k * z k) n.
Proof.
  intros Ks. induction n as [|n IH]; intros Hn Hv Hp.
  { exists (fun _ _ => 0). split; [split; intros; lia|]. split; intros; lia. }
  destruct IH as (L & (Lt & Ld) & LL & Ly); [intros; apply Hn; lia|intros; apply Hv; lia|intros; apply Hp; lia|].
  exists (fun i k => if Nat.eqb i n then (if Nat.eqb k n then sqrt (v n) else if Nat.ltb k n then Rsum (fun j => w n j * L j k) n else 0) else L i k).
  assert (forall i, (i < n)%nat -> Nat.eqb i n = false) as Ne by (intros; apply Nat.eqb_neq; lia).
  assert (forall (f : nat -> R), Rsum (fun k => (if Nat.eqb k n then sqrt (v n) else if Nat.ltb k n then Rsum (fun j => w n j * L j k) n else 0) * f k) n
     = Rsum (fun j => w n j * Rsum (fun k => L j k * f k) n) n) as Row.
  { intros f. rewrite (Rsum_ext _ (fun k => Rsum (fun j => w n j * (L j k * f k)) n)).
    - rewrite Rsum_swap. apply Rsum_ext. intros j _. apply Rsum_scal.
    - intros k Hk. rewrite (Ne k Hk). destruct (Nat.ltb_spec k n); [|lia]. rewrite Rmult_comm, <- Rsum_scal. apply Rsum_ext. intros; ring. }
  assert (forall j, (j < n)%nat -> Rsum (fun m => w n m * Rsum (fun k => L m k * L j k) n) n = K n j) as Mix.
  { intros j Hj. rewrite (Rsum_ext _ (fun m => w n m * K m j)) by (intros m Hm; rewrite LL by assumption; reflexivity). apply Hn; lia. }
  split; [split|split].
  - intros i k Hi Hk. destruct (Nat.eqb_spec i n) as [->|]; [|apply Lt; lia].
    destruct (Nat.eqb_spec k n); [lia|]. destruct (Nat.ltb_spec k n); [lia|reflexivity].
  - intros i Hi. destruct (Nat.eqb_spec i n) as [->|]; [reflexivity|apply Ld; lia].
  - assert (forall j, (j < n)%nat ->
      Rsum (fun k => (if Nat.eqb k n then sqrt (v n) else if Nat.ltb k n then Rsum (fun j => w n j * L j k) n else 0) * L j k) (S n) = K n j) as Off.
    { intros j Hj. cbn [Rsum]. rewrite (Lt j n) by lia. rewrite Rmult_0_r, Rplus_0_r, Row. apply Mix, Hj. }
    intros i j Hi Hj. destruct (Nat.eqb_spec i n) as [->|Hi']; destruct (Nat.eqb_spec j n) as [->|Hj'].
    + cbn [Rsum]. rewrite Nat.eqb_refl, sqrt_sqrt by (apply Hp; lia). rewrite Row.
      rewrite (Rsum_ext _ (fun j => w n j * K n j)); [rewrite (Hv n) by lia; ring|].
      intros j Hj0. f_equal. rewrite <- (Mix j Hj0), <- Row. apply Rsum_ext. intros; ring.
    + apply Off. lia.
    + rewrite Ks, <- Off by lia. apply Rsum_ext. intros; ring.
    + cbn [Rsum]. rewrite (Lt i n) by lia. rewrite LL by lia. ring.
  - intros y z Hy i Hi. assert (forall i, (i < n)%nat -> y i = Rsum (fun k => L i k * z k) n) as Yl by (apply Ly; intros; apply Hy; lia).
    destruct (Nat.eqb_spec i n) as [->|Hi'].
    + rewrite (Hy n) by lia. cbn [Rsum]. rewrite Nat.eqb_refl, Row. f_equal. apply Rsum_ext. intros k Hk. rewrite (Yl k Hk). reflexivity.
    + cbn [Rsum]. rewrite (Lt i n) by lia. rewrite (Yl i) by lia. ring.
Qed.

(** ** car1_process *)
Section Car1.
Variables (sig tau : R).
Hypothesis Hsig : 0 < sig.
Hypothesis Htau : 0 < tau.
Let mv := sig * tau / 2.
Let rho (d : R) := exp (- d / tau).

Lemma rho_pos d : 0 < rho d.
Proof. apply exp_pos. Qed.
Lemma rho_le1 d : 0 <= d -> rho d <= 1.
Proof.
  intros H. rewrite <- exp_0. unfold rho. destruct (Req_dec d 0) as [->|Hn]; [right; f_equal; field; lra|]. left. apply exp_increasing.
  assert (0 < d / tau) by (apply Rdiv_lt_0_compat; lra). lra.
Qed.

Lemma car1_loop_spec (z : nat -> R) ts : forall i tp yp, (forall k, (k < length ts)%nat -> nth k (tp :: ts) 0 <= nth k ts 0) ->
  exists ys, car1_loop AX (fun i => Fin (z i)) (Fin mv) (Fin tau) i (Fin tp) (Fin yp) (map Fin ts) = map Fin ys /\ length ys = length ts /\
    forall k, (k < length ts)%nat -> nth k ys 0 = rho (nth k ts 0 - nth k (tp :: ts) 0) * nth k (yp :: ys) 0
      + sqrt (mv * (1 - rho (nth k ts 0 - nth k (tp :: ts) 0) * rho (nth k ts 0 - nth k (tp :: ts) 0))) * z (i + k)%nat.
Proof.
  induction ts as [|t ts IH]; intros i tp yp Hinc.
  { exists []. split; [reflexivity|]. split; [reflexivity|]. cbn. intros; lia. }
  pose proof (Hinc O ltac:(cbn; lia)) as H0. cbn [nth] in H0. set (d := t - tp) in *.
  assert (0 <= 1 - rho d * rho d) as Hr.
  { pose proof (rho_pos d). pose proof (rho_le1 d ltac:(unfold d; lra)). nra. }
  assert (0 <= mv * (1 - rho d * rho d)) as Hc.
  { apply Rmult_le_pos; [|exact Hr]. unfold mv. assert (0 < sig * tau) by (apply Rmult_lt_0_compat; assumption). lra. }
  set (y1 := rho d * yp + sqrt (mv * (1 - rho d * rho d)) * z i).
  destruct (IH (S i) t y1) as (ys & E & Hl & Hy).
  { intros k Hk. exact (Hinc (S k) ltac:(cbn [length]; lia)). }
  exists (y1 :: ys). split; [|split].
  - cbn [map car1_loop]. rewrite <- E.
    assert (fdiv AX (fneg AX (fsub AX (Fin t) (Fin tp))) (Fin tau) = Fin (- d / tau)) as -> by (refine (fin_div _ _ _); lra).
    change (fexp AX (Fin (- d / tau))) with (Fin (rho d)).
    assert (fsqrt AX (fmul AX (Fin mv) (fsub AX (fofZ AX 1) (fmul AX (Fin (rho d)) (Fin (rho d))))) = Fin (sqrt (mv * (1 - rho d * rho d)))) as ->
      by (refine (fin_sqrt _ _); exact Hc).
    reflexivity.
  - cbn [length]. rewrite Hl. reflexivity.
  - intros [|k] Hk.
    + cbn [nth]. fold d. rewrite Nat.add_0_r. reflexivity.
    + cbn [nth length] in *. rewrite Hy by lia. replace (i + S k)%nat with (S i + k)%nat by lia. reflexivity.
Qed.

Theorem car1_process_exact (t : list R) : t <> [] -> nondecreasing t ->
  exists L : nat -> nat -> R,
    (forall i j, (i < length t)%nat -> (j < length t)%nat -> Rsum (fun k => L i k * L j k) (length t) = ou_cov sig (1 / tau) (nth i t 0) (nth j t 0)) /\
    forall z : nat -> R, exists y, car1_process AX (fun i => Fin (z i)) (map Fin t) (Fin sig) (Fin tau) = Ok (map Fin y) /\ length y = length t /\
      forall i, (i < length t)%nat -> nth i y 0 = Rsum (fun k => L i k * z k) (length t).
Proof.
  intros Hne Hinc. set (n := length t). set (K := fun i j => ou_cov sig (1 / tau) (nth i t 0) (nth j t 0)).
  set (d := fun i => nth i t 0 - nth (i - 1) t 0).
  set (w := fun i k => if Nat.eqb (S k) i then rho (d i) else 0).
  set (v := fun i => match i with O => mv | S _ => mv * (1 - rho (d i) * rho (d i)) end).
  assert (0 < mv) as Hmv by (unfold mv; assert (0 < sig * tau) by (apply Rmult_lt_0_compat; assumption); lra).
  assert (forall i j, (j <= i)%nat -> (i < n)%nat -> nth j t 0 <= nth i t 0) as Hle.
  { intros i j H1 H2. destruct (Nat.eq_dec j i) as [->|]; [lra|]. apply Hinc; [lia|exact H2]. }
  assert (forall i j, (j <= i)%nat -> (i < n)%nat -> K i j = mv * rho (nth i t 0 - nth j t 0)) as HK.
  { intros i j H1 H2. unfold K, ou_cov, rho, mv. rewrite Rabs_pos_eq by (pose proof (Hle i j H1 H2); lra). f_equal; [field; lra|f_equal; field; lra]. }
  assert (forall i j, K i j = K j i) as Ks by (intros i j; unfold K, ou_cov; rewrite Rabs_minus_sym; reflexivity).
  assert (forall i (f : nat -> R), Rsum (fun k => w (S i) k * f k) (S i) = rho (d (S i)) * f i) as Hw.
  { intros i f. cbn [Rsum]. rewrite (Rsum_0 (fun k => w (S i) k * f k)).
    - unfold w. rewrite Nat.eqb_refl. ring.
    - intros k Hk. unfold w. destruct (Nat.eqb_spec (S k) (S i)); [lia|ring]. }
  assert (forall a b, rho a * rho b = rho (a + b)) as Hrr.
  { intros a b. unfold rho. rewrite <- exp_plus. f_equal. field. lra. }
  assert (forall i, (i < n)%nat -> 0 <= v i) as Hv.
  { intros [|i] Hi; unfold v; [lra|]. apply Rmult_le_pos; [lra|].
    assert (0 <= d (S i)) as Hd by (unfold d; pose proof (Hle (S i) (S i - 1)%nat ltac:(lia) Hi); lra).
    pose proof (rho_pos (d (S i))). pose proof (rho_le1 _ Hd). nra. }
  destruct (innov_factor n K w v Ks) as (L & _ & LL & Ly).
  - intros i j Hi Hj. destruct i as [|i]; [lia|]. rewrite Hw, !HK by lia.
    replace (nth (S i) t 0 - nth j t 0) with (d (S i) + (nth i t 0 - nth j t 0)) by (unfold d; replace (S i - 1)%nat with i by lia; ring).
    rewrite <- Hrr. ring.
  - intros [|i] Hi.
    + cbn [Rsum]. rewrite HK by lia. unfold v, rho, Rminus. rewrite Rplus_opp_r. unfold Rdiv. rewrite Ropp_0, Rmult_0_l, exp_0. ring.
    + rewrite Hw, !HK by lia. replace (nth (S i) t 0 - nth i t 0) with (d (S i)) by (unfold d; replace (S i - 1)%nat with i by lia; reflexivity).
      unfold v. replace (rho (nth (S i) t 0 - nth (S i) t 0)) with 1; [ring|]. unfold rho, Rminus. rewrite Rplus_opp_r. unfold Rdiv. rewrite Ropp_0, Rmult_0_l, exp_0. reflexivity.
  - exact Hv.
  - exists L. split; [exact LL|]. intros z.
    destruct t as [|t0 ts]; [contradiction|]. cbn [length] in n.
    destruct (car1_loop_spec z ts 1 t0 (sqrt mv * z O)) as (ys & E & Hl & Hy).
    { intros k Hk. apply (Hle (S k) k); unfold n; lia. }
    exists (sqrt mv * z O :: ys). split; [|split].
    + unfold car1_process. cbn [map].
      assert (fdiv AX (fmul AX (Fin sig) (Fin tau)) (fofZ AX 2) = Fin mv) as -> by (refine (fin_div _ _ _); lra).
      assert (fsqrt AX (Fin mv) = Fin (sqrt mv)) as -> by (refine (fin_sqrt _ _); lra).
      cbn [fmul AX xmul]. rewrite <- E. reflexivity.
    + cbn [length]. rewrite Hl. reflexivity.
    + apply (Ly (fun i => nth i (sqrt mv * z O :: ys) 0)). intros [|i] Hi.
      * cbn [nth Rsum v]. ring.
      * rewrite Hw. change (nth (S i) (sqrt mv * z O :: ys) 0) with (nth i ys 0). rewrite Hy by (unfold n in Hi; lia). unfold v.
        assert (d (S i) = nth i ts 0 - nth i (t0 :: ts) 0) as -> by (unfold d; cbn [Nat.sub]; rewrite Nat.sub_0_r; reflexivity).
        reflexivity.
Qed.
End Car1.

(** ** carma_process *)
Lemma py_pad_pad p (ma : list R) : (length ma <= p)%nat -> py_pad AX p (map Fin ma) = map Fin (ma ++ repeat 0 (p - length ma)).
Proof.
  intros H. unfold py_pad. rewrite map_length. destruct (Nat.ltb_spec (length ma) p) as [L|L].
  - rewrite map_app. f_equal. generalize (p - length ma)%nat as n. induction n as [|n IH]; [reflexivity|]. cbn [repeat map]. rewrite <- IH. reflexivity.
  - replace (p - length ma)%nat with O by lia. cbn [repeat]. rewrite app_nil_r. reflexivity.
Qed.

Section Sim.
Variable solve : list (list (cx AX)) -> list (cx AX) -> option (list (cx AX)).
Hypothesis Hsolve : valid_solve solve.
Variables (sig : R) (om : list C) (ma : list R).
Hypothesis Hok : carma_ok sig om ma.
Let p := length om.
Let r i := nth i om (RtoC 0).
Let mf l := nth l ma 0.
Let omX : list (cx AX) := map FinC om.
Let bX := rotated omX (map Fin ma : list (F AX)).
Let b := CarmaKernel.b p r mf.
Variable J : list C.
Hypothesis HlJ : length J = p.
Hypothesis HJ : forall k, (k < p)%nat -> Csum (fun i => Cmult (Cpown (r i) k) (nth i J (RtoC 0))) p = if Nat.eqb k (p - 1) then RtoC 1 else RtoC 0.
Let V := CarmaKernel.V r (fun i => nth i J (RtoC 0)) sig.
Let E := CarmaKernel.E r.
Let SVX := mbuild p p (state_upper (Fin sig : F AX) omX (map FinC J)).

Variable tr : list R.
Hypothesis Hinc : strictly_increasing tr.
Let n := length tr.
Let t i := nth i tr 0.
Let e : nat -> R := fun _ => 0.

Lemma sv_rep : repm p SVX V.
Proof. intros i j Hi Hj. unfold SVX. rewrite mbuild_mnth by assumption. exact (up_rep sig om ma Hok J HlJ i j Hi Hj). Qed.
Lemma pos_v i : (i < n)%nat -> 0 < vf p b V E t e i.
Proof.
  intros Hi. refine (proj2 (proj2 (ss_filter sig om ma Hok J HJ t e n _ _ (fun _ => 0) i Hi))).
  - intros a c H1 H2. destruct (Nat.eq_dec a c) as [->|]; [lra|]. left. apply Hinc; [lia|exact H2].
  - intros a H1 H2. pose proof (Hinc a (S a) ltac:(lia) H1). unfold t in H2. lra.
Qed.
Lemma xf_ext y y' i : (forall k, (k < i)%nat -> y k = y' k) -> forall a, (a < p)%nat -> xf p b V E t e y i a = xf p b V E t e y' i a.
Proof. intros H a Ha. rewrite !xf_W by exact Ha. apply Csum_ext. intros k Hk. rewrite (H k Hk). reflexivity. Qed.
Lemma mean_ext y y' i : (forall k, (k < i)%nat -> y k = y' k) -> fst (dotv p b (xf p b V E t e y i)) = fst (dotv p b (xf p b V E t e y' i)).
Proof. intros H. f_equal. apply dotv_ext; [reflexivity|]. apply xf_ext, H. Qed.
Lemma vf_quad i : vf p b V E t e i = fst (bform p b (PV p b V E t e i) b).
Proof. unfold vf, vof, e. ring. Qed.

Lemma carma_loop_spec (z : nat -> R) : forall k i (yp : list R) st PX, (i + k = n)%nat -> length yp = i -> (0 < i)%nat ->
  repv p st (xf p b V E t e (fun j => nth j yp 0) (i - 1)) -> repm p PX (PV p b V E t e (i - 1)) ->
  exists ys, carma_loop (A := AX) (fun i => Fin (z i)) p omX bX SVX i (Fin (t (i - 1))) st PX (Fin (vf p b V E t e (i - 1)))
      (Fin (nth (i - 1) yp 0 - fst (dotv p b (xf p b V E t e (fun j => nth j yp 0) (i - 1))))) (map Fin (skipn i tr)) = map Fin ys /\ length ys = k /\
    forall j, (i <= j < n)%nat -> nth j (yp ++ ys) 0 = fst (dotv p b (xf p b V E t e (fun j => nth j (yp ++ ys) 0) j)) + sqrt (vf p b V E t e j) * z j.
Proof.
  induction k as [|k IH]; intros i yp st PX Hik Hl Hi0 Hst HP.
  { exists []. replace (skipn i tr) with (@nil R) by (symmetry; apply skipn_all2; fold n; lia). split; [reflexivity|]. split; [reflexivity|]. intros; lia. }
  assert (skipn i tr = t i :: skipn (S i) tr) as Es.
  { unfold t. clear -Hik. revert i Hik. unfold n. clear. induction tr as [|x l IH]; intros i H; cbn [length] in H; [lia|].
    destruct i as [|i]; [reflexivity|]. change (skipn (S i) (x :: l)) with (skipn i l). change (skipn (S (S i)) (x :: l)) with (skipn (S i) l).
    rewrite IH by lia. reflexivity. }
  destruct i as [|i']; [lia|]. replace (S i' - 1)%nat with i' in * by lia.
  pose proof (pos_v i' ltac:(lia)) as Hv. pose proof (pos_v (S i') ltac:(lia)) as Hv'.
  set (v := vf p b V E t e i') in *. set (yf := fun j => nth j yp 0) in *.
  pose proof (gainf_fin p bX b (b_rep om ma) PX _ v HP ltac:(lra)) as Hg.
  set (inn := nth i' yp 0 - fst (dotv p b (xf p b V E t e yf i'))).
  pose proof (rhof_fin p omX r (omX_rep om) (t (S i') - t i')) as Hr.
  set (st2 := schur p (rhof p omX (Fin (t (S i') - t i'))) (axpy p st (gainf p bX PX (Fin v)) (Fin inn))).
  set (P2 := propV p (rhof p omX (Fin (t (S i') - t i'))) (condV p PX (gainf p bX PX (Fin v)) (Fin v)) SVX).
  assert (repv p st2 (xf p b V E t e yf (S i'))) as Hst2.
  { eapply repv_ext; [apply schur_fin; [exact Hr|apply axpy_fin; [exact Hst|exact Hg]]|].
    intros a Ha. cbn [xf]. fold (yf i'). f_equal. f_equal. rewrite Cmult_comm. reflexivity. }
  assert (repm p P2 (PV p b V E t e (S i'))) as HP2.
  { eapply repm_ext; [apply propV_fin; [exact sv_rep|exact Hr|apply condV_fin; [exact HP|exact Hg]]|]. intros a c Ha Hc. reflexivity. }
  set (m := fst (dotv p b (xf p b V E t e yf (S i')))). set (v' := vf p b V E t e (S i')) in *.
  set (y1 := m + sqrt v' * z (S i')).
  assert (forall j, (j <= i')%nat -> nth j (yp ++ [y1]) 0 = yf j) as Ey by (intros j Hj; apply app_nth1; lia).
  assert (nth (S i') (yp ++ [y1]) 0 = y1) as Ey1 by (rewrite app_nth2, Hl, Nat.sub_diag by lia; reflexivity).
  assert (fst (dotv p b (xf p b V E t e (fun j => nth j (yp ++ [y1]) 0) (S i'))) = m) as Em.
  { apply mean_ext. intros j Hj. apply Ey. lia. }
  destruct (IH (S (S i')) (yp ++ [y1]) st2 P2) as (ys & Eq & Hly & Hy).
  - lia.
  - rewrite app_length, Hl. cbn. lia.
  - lia.
  - cbn [Nat.sub]. eapply repv_ext; [exact Hst2|]. intros a Ha. apply xf_ext; [|exact Ha]. intros j Hj. symmetry. apply Ey. lia.
  - exact HP2.
  - exists (y1 :: ys). rewrite Es. cbn [map carma_loop].
    cbn [Nat.sub] in Eq. rewrite Em, Ey1 in Eq. fold v' in Eq. split; [|split].
    + change (fsub AX (Fin (t (S i'))) (Fin (t i'))) with (Fin (t (S i') - t i')). fold st2. fold P2.
      assert (linf p bX st2 = Fin m) as -> by (apply (linf_fin p bX b (b_rep om ma)); exact Hst2).
      assert (quadf p bX P2 = Fin v') as -> by (unfold v'; rewrite vf_quad; apply (quadf_fin p bX b (b_rep om ma)); exact HP2).
      assert (fsqrt AX (Fin v') = Fin (sqrt v')) as -> by (refine (fin_sqrt _ _); lra).
      cbn [fmul fadd fsub AX xmul xadd xsub]. fold y1. rewrite <- Eq. reflexivity.
    + cbn [length]. lia.
    + assert ((yp ++ [y1]) ++ ys = yp ++ y1 :: ys) as Ea by (rewrite <- app_assoc; reflexivity). rewrite Ea in Hy.
      intros j Hj. destruct (Nat.eq_dec j (S i')) as [->|Hne]; [|apply Hy; lia].
      rewrite (mean_ext (fun j => nth j (yp ++ y1 :: ys) 0) yf) by (intros k0 Hk0; apply app_nth1; lia).
      rewrite app_nth2, Hl, Nat.sub_diag by lia. reflexivity.
Qed.

Lemma wt_facts i : (i < n)%nat -> let K := fun i j => carma_cov sig ma om (t i) (t j) in
  (forall j, (j < i)%nat -> Rsum (fun k => wt p b V E t e i k * K k j) i = K i j) /\
  vf p b V E t e i = K i i - Rsum (fun k => wt p b V E t e i k * K i k) i.
Proof.
  intros Hi K.
  assert (forall k j, obs_cov (Kc p b V E) t e k j = K k j) as EK.
  { intros k j. unfold obs_cov, K, e. pose proof (Kk_carma sig om ma Hok J HJ (t k) (t j)) as H. cbv zeta in H. rewrite <- H. destruct (Nat.eqb k j); [rewrite Rmult_0_r|]; apply Rplus_0_r. }
  assert (forall y, is_blp i K (fun j => K i j) (K i i) y (Rsum (fun k => wt p b V E t e i k * y k) i) (vf p b V E t e i)) as HB.
  { intros y. rewrite <- mean_wt.
    assert (is_blp i (obs_cov (Kc p b V E) t e) (fun j => obs_cov (Kc p b V E) t e i j) (obs_cov (Kc p b V E) t e i i) y (fst (dotv p b (xf p b V E t e y i))) (vf p b V E t e i)) as H.
    { refine (proj1 (ss_filter sig om ma Hok J HJ t e n _ _ y i Hi)).
      - intros a c H1 H2. destruct (Nat.eq_dec a c) as [->|]; [lra|]. left. apply Hinc; [lia|exact H2].
      - intros a H1 H2. pose proof (Hinc a (S a) ltac:(lia) H1). unfold t in H2. lra. }
    destruct H as (w & W1 & W2 & W3). exists w. split; [|split; [exact W2|]].
    - intros j Hj. rewrite <- EK, <- (W1 j Hj). apply Rsum_ext. intros k Hk. rewrite EK. reflexivity.
    - rewrite W3, EK. f_equal. apply Rsum_ext. intros k Hk. rewrite EK. reflexivity. }
  split.
  - intros j Hj. destruct (HB (fun k => K k j)) as (w & W1 & W2 & _). rewrite W2. apply W1, Hj.
  - destruct (HB (fun k => K i k)) as (w & _ & W2 & W3). rewrite W2, W3. reflexivity.
Qed.

Lemma series_exact : exists L : nat -> nat -> R,
  (forall i j, (i < n)%nat -> (j < n)%nat -> Rsum (fun k => L i k * L j k) n = carma_cov sig ma om (t i) (t j)) /\
  forall z y, (forall i, (i < n)%nat -> y i = fst (dotv p b (xf p b V E t e y i)) + sqrt (vf p b V E t e i) * z i) ->
    forall i, (i < n)%nat -> y i = Rsum (fun k => L i k * z k) n.
Proof.
  set (K := fun i j => carma_cov sig ma om (t i) (t j)).
  destruct (innov_factor n K (wt p b V E t e) (vf p b V E t e)) as (L & _ & LL & Ly).
  - intros i j. unfold K, carma_cov. rewrite Rabs_minus_sym. reflexivity.
  - intros i j Hi Hj. apply (wt_facts i Hi), Hj.
  - intros i Hi. apply (wt_facts i Hi).
  - intros i Hi. left. apply pos_v, Hi.
  - exists L. split; [exact LL|]. intros z y H. apply Ly. intros i Hi. rewrite <- mean_wt. apply H, Hi.
Qed.
End Sim.

Theorem carma_process_exact vsort solve (t : list R) (sig : R) (om : list C) (ma : list R) :
  valid_vsort vsort -> valid_solve solve -> stable_roots om -> (2 <= length om)%nat -> (length ma <= length om)%nat ->
  (exists l, nth l ma 0 <> 0) -> 0 < sig -> t <> [] -> NoDup t ->
  exists ts, Permutation t ts /\ strictly_increasing ts /\
  exists L : nat -> nat -> R,
    (forall i j, (i < length ts)%nat -> (j < length ts)%nat -> Rsum (fun k => L i k * L j k) (length ts) = carma_cov sig ma om (nth i ts 0) (nth j ts 0)) /\
    forall z : nat -> R, exists y,
      carma_process (A := AX) (fun i => Fin (z i)) vsort solve (map Fin t) (Fin sig) (map FinC om) (map Fin ma) = Ok (map Fin y, map Fin ts) /\
      length y = length ts /\ forall i, (i < length ts)%nat -> nth i y 0 = Rsum (fun k => L i k * z k) (length ts).
Proof.
  intros Hvs Hsolve Hst H2 Hlm Hnz Hsig Hne Hnd. destruct (Hvs t) as (ts & Es & Pt & Nd). exists ts. split; [exact Pt|].
  assert (strictly_increasing ts) as Hinc.
  { intros i j Hij Hj. destruct (Nd i j Hij Hj) as [L|L]; [exact L|]. exfalso.
    pose proof (proj1 (NoDup_nth ts 0) (Permutation_NoDup Pt Hnd) i j ltac:(lia) Hj L). lia. }
  split; [exact Hinc|].
  set (p := length om). set (mp := ma ++ repeat 0 (p - length ma)).
  assert (carma_ok sig om mp) as Hok.
  { split; [exact Hst|]. split; [exact H2|]. split; [unfold mp; rewrite app_length, repeat_length; fold p; unfold p; lia|]. split; [|exact Hsig].
    destruct Hnz as (l & Hl). exists l. unfold mp. destruct (Nat.lt_ge_cases l (length ma)) as [H|H]; [rewrite app_nth1 by exact H; exact Hl|].
    rewrite nth_overflow in Hl by exact H. lra. }
  destruct (solve_ok solve Hsolve sig om mp Hok) as (J & EJ & HlJ & HJ).
  destruct (series_exact sig om mp Hok J HlJ HJ ts Hinc) as (L & LL & Ly). fold p in Ly.
  exists L. split. { intros i j Hi Hj. rewrite LL by assumption. unfold mp. apply carma_cov_pad. }
  intros z.
  set (b := CarmaKernel.b p (fun i => nth i om (RtoC 0)) (fun l => nth l mp 0)) in *.
  set (V := CarmaKernel.V (fun i => nth i om (RtoC 0)) (fun i => nth i J (RtoC 0)) sig) in *.
  set (E := CarmaKernel.E (fun i => nth i om (RtoC 0))) in *.
  set (tt := fun i => nth i ts 0) in *. set (e := fun _ : nat => 0) in *.
  destruct ts as [|t0 ts']. { exfalso. apply Permutation_sym, Permutation_nil in Pt. subst t. contradiction. }
  assert (0 < vf p b V E tt e 0) as Hv0 by (apply (pos_v sig om mp Hok J HlJ HJ (t0 :: ts') Hinc 0); cbn; lia).
  set (y0 := sqrt (vf p b V E tt e 0) * z O).
  destruct (carma_loop_spec sig om mp Hok J HlJ HJ (t0 :: ts') Hinc z (length ts') 1 [y0] (czeros AX p) (mbuild p p (state_upper (Fin sig : F AX) (map FinC om) (map FinC J))))
    as (ys & Eq & Hly & Hy).
  - reflexivity.
  - reflexivity.
  - lia.
  - apply czeros_rep.
  - exact (sv_rep sig om mp Hok J HlJ).
  - exists (y0 :: ys). split; [|split].
    + unfold carma_process. rewrite !map_length. fold p. destruct (Nat.eqb_spec p 1); [unfold p in *; lia|]. destruct (Nat.eqb_spec p 0); [unfold p in *; lia|].
      change (F AX) with xr. rewrite Es. rewrite map_length in EJ. fold p in EJ. rewrite EJ.
      rewrite py_pad_pad by exact Hlm. fold mp. rewrite map_length. assert (length mp = p) as Hmp by (unfold mp; rewrite app_length, repeat_length; unfold p; lia).
      rewrite Hmp, Nat.eqb_refl. cbn [negb map].
      set (SV := mbuild p p _).
      assert (quadf p (rotated (map FinC om) (map Fin mp : list (F AX))) SV = Fin (vf p b V E tt e 0)) as ->.
      { refine (eq_trans _ (f_equal Fin (eq_sym (vf_quad sig om mp J (t0 :: ts') 0)))). apply (quadf_fin p _ b (b_rep om mp)). exact (sv_rep sig om mp Hok J HlJ). }
      assert (fsqrt AX (Fin (vf p b V E tt e 0)) = Fin (sqrt (vf p b V E tt e 0))) as -> by (refine (fin_sqrt _ _); lra).
      assert (fadd AX (fofZ AX 0) (fmul AX (Fin (sqrt (vf p b V E tt e 0))) (Fin (z O))) = Fin y0) as -> by (cbn; f_equal; unfold y0; ring).
      cbn [Nat.sub nth skipn xf] in Eq. rewrite dotv_0 in Eq. cbn [fst RtoC] in Eq. rewrite Rminus_0_r in Eq.
      f_equal. f_equal. f_equal. exact Eq.
    + cbn [length]. rewrite Hly. reflexivity.
    + apply Ly. intros [|i] Hi.
      * cbn [nth xf]. rewrite dotv_0. cbn [fst RtoC]. unfold y0. ring.
      * exact (Hy (S i) ltac:(cbn [length] in *; lia)).
Qed.
