(** KalmanFilterDeprecated over the reals: the conditional distributions. *)
From Coq Require Import Reals List Arith ZArith Lra Lia Bool Permutation.
From Coquelicot Require Import Complex.
From Verif Require Import Arith Res ListLemmas KFModel KF1Proof Spec Gauss Emb KF1R History InitProof OUpd SimProof KF1Main KF1More KF1Hist.
From Verif Require Import Cx KFpModel KFpProof SpecCarma CLin KFpR KFpX KFpMain KFpTop PyKFModel PyKFProof.
Import ListNotations.
Local Open Scope R_scope.

(** the two state covariance matrices are the same *)
Lemma dStateVar_eq sig om ma (J : list C) : carma_ok sig om ma -> length J = length om ->
  dStateVar (Fin sig : F AX) (map FinC om) (map FinC J) = StateVar (Fin sig : F AX) (map FinC om) (map FinC J).
Proof.
  intros Hok HlJ. unfold dStateVar, StateVar, mbuild, vbuild. rewrite map_length.
  apply map_ext_in. intros i Hi. apply in_seq in Hi. apply map_ext_in. intros j Hj. apply in_seq in Hj.
  destruct (Nat.leb_spec i j); [reflexivity|].
  rewrite !(up_rep sig om ma Hok J HlJ) by lia. rewrite FinC_conj. f_equal. 
  apply (CarmaKernel.V_herm _ _ sig j i).
Qed.

Lemma last_lt_Fin (tr : list R) (tp : R) : nondecreasing tr ->
  last_lt AX (map Fin tr) (Fin tp) = match lt_prefix AR tr tp with O => None | S k => Some k end.
Proof.
  induction tr as [|x tr IH]; intros Hnd; [reflexivity|].
  assert (nondecreasing tr) as Hnd'.
  { intros i j Hij Hj. apply (Hnd (S i) (S j)); simpl; lia. }
  cbn [map last_lt lt_prefix]. rewrite IH by exact Hnd'.
  change (flt AX (Fin x) (Fin tp)) with (if Rlt_dec x tp then true else false).
  change (flt AR x tp) with (if Rlt_dec x tp then true else false).
  destruct (Rlt_dec x tp) as [E|E].
  - destruct (lt_prefix AR tr tp); reflexivity.
  - assert (lt_prefix AR tr tp = O) as ->; [|reflexivity].
    destruct tr as [|x' tr]; [reflexivity|]. cbn [lt_prefix]. change (flt AR x' tp) with (if Rlt_dec x' tp then true else false).
    destruct (Rlt_dec x' tp) as [E'|]; [|reflexivity]. exfalso.
    pose proof (Hnd O 1%nat ltac:(lia) ltac:(simpl; lia)) as Hle. cbn [nth] in Hle. lra.
Qed.

(** the object holds this series and these parameters (variances, not error bars) *)
Definition holdsd (d : dkf AX) (tr yr vr : list R) (sig : R) (om : list C) (ma : list R) : Prop :=
  d_time d = map Fin tr /\ d_y d = map Fin yr /\ d_yvar d = map Fin vr /\ d_sig d = Fin sig /\
  d_roots d = map FinC om /\ d_ma d = map Fin ma.

Section Top.
Variable solve : list (list (cx AX)) -> list (cx AX) -> option (list (cx AX)).
Hypothesis Hsolve : valid_solve solve.
Variable empty : nat -> F AX.
Variables (sig : R) (om : list C) (ma : list R).
Hypothesis Hok : carma_ok sig om ma.
Local Notation K := (carma_cov sig ma om).
Local Notation u tr yr er := (mkSetup AX (map Fin tr) (map Fin (diffs AR tr)) (map Fin yr) (map Fin er) (Fin sig : F AX) (map FinC om, map Fin ma)).

Section Series.
Variables (d : dkf AX) (tr yr vr : list R).
Hypothesis Hd : holdsd d tr yr vr sig om ma.
Hypothesis Hy : length yr = length tr.
Hypothesis Hv : length vr = length tr.
Hypothesis Hn : (1 <= length tr)%nat.
Variable er : list R.
Hypothesis sq_er : forall i, (i < length tr)%nat -> nth i er 0 * nth i er 0 = nth i vr 0.

Lemma sq_erX i : (i < length tr)%nat -> fmul AX (nth i (map Fin er) (fofZ AX 0)) (nth i (map Fin er) (fofZ AX 0)) = nth i (map Fin vr) (fofZ AX 0).
Proof.
  intros Hi. change (fofZ AX 0) with (Fin 0). rewrite !(map_nth Fin). cbn [fmul AX xmul]. f_equal. apply sq_er, Hi.
Qed.

Lemma solveJ : exists J, solve (EigenMat (map FinC om)) (Rvector AX (length (map FinC om))) = Some (map FinC J) /\ length J = length om.
Proof. destruct (solve_ok solve Hsolve sig om ma Hok) as (J & E & L & _). exists J. split; assumption. Qed.

(** filter returns what the C++ class returns with the error bars *)
Lemma d_filter_cpp : exists r d', d_filter solve empty d = Ok (r, d') /\ pfp solve (u tr yr er) = Ok r.
Proof.
  destruct solveJ as (J & EJ & HlJ). destruct Hd as (E1 & E2 & E3 & E4 & E5 & E6). destruct Hok as (_ & H2 & Hl & _).
  destruct (@d_filter_ok AX solve empty d) with (J := map FinC J) (yerr := map Fin er) as (d' & E); rewrite ?E1, ?E2, ?E3, ?E4, ?E5, ?E6, ?map_length; try lia.
  - rewrite <- EJ. rewrite map_length. reflexivity.
  - intros i Hi. apply sq_erX, Hi.
  - rewrite E1, E2, E4, E5, E6, diffs_Fin in E. rewrite (dStateVar_eq sig om ma J Hok HlJ) in E.
    eexists _, d'. split; [exact E|].
    unfold pfp, resetp. cbn [s_par fst snd]. rewrite EJ. rewrite !map_length. rewrite Hl, Nat.eqb_refl.
    destruct (Nat.ltb_spec (length om) 2); [lia|]. cbn [bind s_dt s_y s_yerr s_sig s_time]. rewrite !map_length. reflexivity.
Qed.

Lemma d_predict_cpp tp : times_ok tr er -> nth 0 tr 0 < tp ->
  (forall i, (i < length tr)%nat -> nth i tr 0 = tp -> nth i er 0 <> 0) ->
  exists m v d', d_predict solve empty d (Fin tp : F AX) = Ok ((Fin m, Fin v), d') /\
    ppp solve (u tr yr er) (Fin tp : F AX) = Ok (Fin m, Fin v) /\ 0 < v /\ cond_dist K tr yr er tp m v.
Proof.
  intros Ht Hfirst Hnz.
  destruct (ppp_spec solve Hsolve sig om ma Hok tr yr er tp Ht Hnz) as (m & v & EP & Hvp & Hcd).
  exists m, v. cut (exists d', d_predict solve empty d (Fin tp : F AX) = Ok ((Fin m, Fin v), d')).
  { intros (d' & E). exists d'. auto. }
  destruct (solve_ok solve Hsolve sig om ma Hok) as (J & EJ & HlJ & HJ).
  pose proof Hd as (E1 & E2 & E3 & E4 & E5 & E6). pose proof Hok as (_ & H2 & Hl & _).
  assert (nondecreasing tr) as Hnd by exact (proj1 Ht).
  pose proof (lt_prefix_len AR tr tp) as Hle. change (@length (F AR) tr) with (length tr) in Hle.
  assert (forall i, (i < length tr)%nat -> (i < lt_prefix AR tr tp)%nat <-> nth i tr 0 < tp) as Hsp
    by (intros; apply lt_prefix_spec; assumption).
  pose proof (last_lt_Fin tr tp Hnd) as Hlast.
  destruct (lt_prefix AR tr tp) as [|k0] eqn:Eip.
  { exfalso. apply (Hsp O) in Hfirst; [lia|exact Hn]. }
  assert (nth k0 tr 0 < tp) as Hk0 by (apply Hsp; lia).
  set (b := CarmaKernel.b (length om) (fun i => nth i om (RtoC 0)) (fun l => nth l ma 0)).
  set (V := CarmaKernel.V (fun i => nth i om (RtoC 0)) (fun i => nth i J (RtoC 0)) sig).
  set (EE := CarmaKernel.E (fun i => nth i om (RtoC 0))).
  set (t := fun i => nth i tr 0). set (e := fun i => nth i er 0). set (y := fun i => nth i yr 0).
  assert (forall t e n, (forall i j, (i <= j)%nat -> (j < n)%nat -> (t i <= t j)%R) -> (forall i, (S i < n)%nat -> t i = t (S i) -> e (S i) <> 0%R) ->
     forall i, (i < n)%nat -> (0 < vf (length om) b V EE t e i)%R) as Hpos.
  { intros t0 e0 n0 A1 A2 i Hi. apply (ss_filter sig om ma Hok J HJ t0 e0 n0 A1 A2 (fun _ => 0%R) i Hi). }
  set (omX := map FinC om) in *. set (bX := rotated omX (map Fin ma : list (F AX))). set (SVX := StateVar (Fin sig : F AX) omX (map FinC J)).
  pose proof (fcastmv_fin (length om) omX bX SVX _ b V (omX_rep om) (b_rep om ma) (V_rep sig om ma Hok J HlJ) Hpos tr yr er Ht tp Hnz) as Hfc.
  rewrite Eip in Hfc. fold EE in Hfc.
  destruct (@d_predict_ok AX solve empty d) with (J := map FinC J) (yerr := map Fin er) (t := Fin tp : F AX) (k0 := k0) as [HA _];
    rewrite ?E1, ?E2, ?E3, ?E4, ?E5, ?E6; unfold omX; rewrite ?map_length; try lia.
  - rewrite <- EJ. unfold omX. rewrite map_length. reflexivity.
  - intros i Hi. apply sq_erX, Hi.
  - exact Hlast.
  - change (fofZ AX 0) with (Fin 0). rewrite (map_nth Fin). cbn. f_equal. apply Rabs_pos_eq. lra.
  - intros Hlt. change (fofZ AX 0) with (Fin 0). rewrite (map_nth Fin). cbn. f_equal. apply Rabs_pos_eq.
    destruct (Rlt_dec (nth (S k0) tr 0) tp) as [Hc|]; [|lra]. apply Hsp in Hc; lia.
  - apply HA. clear HA. unfold dpredp. rewrite E1, E2, E4, E5, E6, diffs_Fin.
    pose proof (dStateVar_eq sig om ma J Hok HlJ) as EV. fold omX in EV. fold SVX in EV. rewrite EV. clear EV. fold bX.
    assert (length omX = length om) as El by apply map_length. rewrite El. rewrite !(map_length Fin).
    assert (@length (F AX) (map Fin ma) = length om) as El2 by (etransitivity; [apply map_length|exact Hl]).
    unfold ppp, resetp in EP. cbn [s_par fst snd] in EP. change (map FinC om) with omX in EP. rewrite EJ, El, El2, Nat.eqb_refl in EP.
    destruct (Nat.ltb_spec (length om) 2); [lia|]. cbn [bind s_dt s_y s_yerr s_sig s_time] in EP. injection EP as EP.
    fold bX SVX in EP. unfold predp in EP. rewrite lt_prefix_Fin, Eip, !(map_length Fin) in EP.
    set (FC := fcastmv _ _ _ _ _ _ _ _ _ _) in *.
    assert (0 < v0 (length om) b V EE t e (S k0) tp) as Hw.
    { apply (ss_forecast sig om ma Hok J HJ t e y (length tr) (S k0) tp).
      - intros i j Hij Hj. destruct (Nat.eq_dec i j) as [->|]; [lra|]. apply Ht; [lia|exact Hj].
      - apply Ht.
      - exact Hle.
      - intros k Hk. apply Hsp; lia.
      - intros k Hk Hk2. destruct (Rlt_dec (t k) tp) as [Hc|]; [|lra]. apply Hsp in Hc; [lia|exact Hk2].
      - intros Hlt Et. apply Hnz; assumption. }
    change (FC = (Fin (m0 (length om) b V EE t e y (S k0) tp), Fin (v0 (length om) b V EE t e (S k0) tp))) in Hfc.
    clearbody FC. subst FC. revert EP Hw.
    generalize (m0 (length om) b V EE t e y (S k0) tp) as M. generalize (v0 (length om) b V EE t e (S k0) tp) as w.
    intros w M EP Hw. cbn [fst snd] in EP |- *.
    assert (feq AX (Fin w) (fofZ AX 0) = false) as ->.
    { cbn. destruct (Req_EM_T w 0); [lra|reflexivity]. }
    destruct (Nat.eqb_spec (S k0) (length tr)) as [Heq|Hne].
    + destruct (Nat.leb_spec (length tr) (S k0)); [|lia]. f_equal. exact EP.
    + destruct (Nat.leb_spec (length tr) (S k0)); [lia|].
      assert (fdiv AX (fofZ AX 1) (Fin w) = Fin (1 / w)) as Ed by (apply fin_div; lra).
      rewrite Ed in EP |- *.
      assert (1 / w <> 0) as Hw1 by (unfold Rdiv; rewrite Rmult_1_l; apply Rinv_neq_0_compat; lra).
      assert (fdiv AX (fmul AX (Fin M) (Fin (1 / w))) (Fin (1 / w)) = Fin M) as Em.
      { cbn [fdiv fmul AX xmul]. rewrite fin_div by exact Hw1. f_equal. field. lra. }
      rewrite Em in EP.
      assert (fmul AX (Fin (1 / w)) (Fin M) = fmul AX (Fin M) (Fin (1 / w))) as -> by (cbn [fmul AX xmul]; f_equal; ring).
      destruct (pacc _ _ _ _ _ _ _ _ _ _ _ _ _ _) as [a1 a2]. f_equal. exact EP.
Qed.
End Series.
End Top.

Lemma d_filter_spec solve (Hsolve : valid_solve solve) empty sig om ma (Hok : carma_ok sig om ma) (d : dkf AX) tr yr vr er :
  holdsd d tr yr vr sig om ma -> length yr = length tr -> length vr = length tr -> (1 <= length tr)%nat ->
  (forall i, (i < length tr)%nat -> nth i er 0 * nth i er 0 = nth i vr 0) -> times_ok tr er -> length er = length tr ->
  exists ml vl d', d_filter solve empty d = Ok ((map Fin ml, map Fin vl), d') /\ length ml = length tr /\ length vl = length tr /\
  forall i, (i < length tr)%nat ->
    cond_dist (carma_cov sig ma om) (firstn i tr) (firstn i yr) (firstn i er) (nth i tr 0) (nth i ml 0) (nth i vl 0 - nth i vr 0) /\ 0 < nth i vl 0 /\
    (strictly_increasing tr -> nth i vl 0 <= carma_acv sig ma om 0 + nth i vr 0).
Proof.
  intros Hd Hy Hv Hn Hsq Ht Hle.
  destruct (d_filter_cpp solve Hsolve empty sig om ma Hok d tr yr vr Hd Hy Hv Hn er Hsq) as (r & d' & E & EC).
  destruct (pfp_spec solve Hsolve sig om ma Hok tr yr er _ Ht eq_refl) as (ml & vl & EP & L1 & L2 & H).
  pose proof (eq_trans (eq_sym EC) EP) as Q. injection Q as ->. exists ml, vl, d'. split; [exact E|]. split; [exact L1|]. split; [exact L2|].
  intros i Hi. destruct (H i Hi) as [H1 H2]. rewrite <- Hsq by exact Hi.
  split; [apply cond_firstn; [lia|exact H1]|]. split; [exact H2|]. intros Hinc.
  destruct (detp solve Hsolve tr er sig om ma Hinc Hok i _ _ _ _ _ (Nat.lt_le_incl _ _ Hi) H1) as [_ Hopt].
  specialize (Hopt (fun _ => 0)). rewrite mse_0, K_diag in Hopt. lra.
Qed.
