(** KalmanFilter1: the end-to-end lemmas behind the property theorems. *)
From Coq Require Import Reals List Arith ZArith Lra Lia Bool Permutation.
From Verif Require Import Arith Res ListLemmas KFModel KF1Proof Spec Gauss Emb KF1R History KF1X InitProof.
Import ListNotations.
Local Open Scope R_scope.

(** [s] is a usable filter object holding this finite data and these parameters. *)
Definition holds1 (s : kf1 AX) (tr yr er : list R) (sig w : R) : Prop :=
  usable s /\ k_time s = map Fin tr /\ k_y s = map Fin yr /\ k_yerr s = map Fin er /\
  k_sig s = Fin sig /\ k_ext s = Fin w.

Lemma holds1_lens s tr yr er sig w : holds1 s tr yr er sig w ->
  length yr = length tr /\ length er = length tr /\ (2 <= length tr)%nat /\ k_dt s = map Fin (diffs AR tr).
Proof.
  intros ((H1 & H2 & H3 & H4 & H5 & H6) & E1 & E2 & E3 & E4 & E5).
  rewrite E1, E2 in H3. rewrite E1, E3 in H4. rewrite E1 in H1. rewrite !map_length in *.
  repeat split; try assumption. rewrite H2, E1. apply diffs_Fin.
Qed.

Lemma nth_error_map_seq T (f : nat -> T) n i : (i < n)%nat -> nth_error (map f (seq 0 n)) i = Some (f i).
Proof.
  intros H. rewrite nth_error_map. rewrite (nth_error_nth' _ O) by (rewrite seq_length; exact H).
  rewrite seq_nth by exact H. reflexivity.
Qed.

Section Main.
Variables (s : kf1 AX) (tr yr er : list R) (sig w : R).
Hypothesis Hs : holds1 s tr yr er sig w.
Hypothesis Hinc : times_ok tr er.
Hypothesis Hsig : 0 < sig.
Hypothesis Hw : 0 < w.
Let t i := nth i tr 0.
Let y i := nth i yr 0.
Let e i := nth i er 0.
Let K := obs_cov (ou_cov sig w) t e.

Lemma filter_main : exists s', Filter (methods1 AX) s = Ok s' /\
  length (k_mean s') = length tr /\ length (k_var s') = length tr /\
  forall i, (i < length tr)%nat -> exists m v,
    nth_error (k_mean s') i = Some (Fin m) /\ nth_error (k_var s') i = Some (Fin v) /\
    is_blp i K (fun j => ou_cov sig w (t i) (t j)) (K i i) y m v /\
    0 < v /\ e i * e i <= v <= sig / (2 * w) + e i * e i /\
    (strictly_increasing tr -> e i * e i < v).
Proof.
  destruct (holds1_lens _ _ _ _ _ _ Hs) as (Hy & He & Hn & Edt).
  destruct Hs as (Hu & E1 & E2 & E3 & E4 & E5).
  destruct (pureF1 AX s Hu I) as [Ho Hs'].
  destruct (Filter (methods1 AX) s) as [s'|ex| |] eqn:EF; try discriminate Ho.
  exists s'. split; [reflexivity|]. cbn [obs_filter] in Ho. unfold pf1 in Ho.
  cbn [setup_of s_dt s_y s_yerr s_sig s_par s_time] in Ho. rewrite E1, E2, E3, E4, E5, Edt, map_length in Ho.
  injection Ho as Hm0 Hv0.
  assert (k_mean s' = map (mpure AX (map Fin (diffs AR tr)) (map Fin yr) (map Fin er) (Fin sig) (Fin w)) (seq 0 (length tr))) as Hm by exact Hm0.
  assert (k_var s' = map (vpure AX (map Fin (diffs AR tr)) (map Fin er) (Fin sig) (Fin w)) (seq 0 (length tr))) as Hv by exact Hv0.
  rewrite Hm, Hv, !map_length, !seq_length. split; [reflexivity|]. split; [reflexivity|].
  intros i Hi.
  exists (mpure AR (diffs AR tr) yr er sig w i), (vpure AR (diffs AR tr) er sig w i).
  rewrite !nth_error_map_seq by exact Hi.
  rewrite (mpure_fin tr yr er sig w Hinc Hsig Hw Hy He i Hi), (vpure_fin tr yr er sig w Hinc Hsig Hw Hy He i Hi).
  split; [reflexivity|]. split; [reflexivity|]. split.
  - destruct (V_blp tr yr er sig w Hinc Hsig Hw i Hi) as (wt & B1 & B2 & B3). exists wt.
    split; [|split].
    + intros j Hj. etransitivity; [exact (B1 j Hj)|]. apply (K_off tr er sig w). lia.
    + exact B2.
    + etransitivity; [exact B3|]. f_equal. apply Rsum_ext. intros k Hk. f_equal.
      apply (K_off tr er sig w). lia.
  - assert (forall vv : R, 0 <= vv - e i * e i <= sig / (2 * w) -> e i * e i <= vv <= sig / (2 * w) + e i * e i) as HH
      by (intros; lra).
    assert (forall vv : R, 0 < vv - e i * e i <= sig / (2 * w) -> e i * e i < vv) as HH' by (intros; lra).
    split; [exact (V_pos tr er sig w Hinc Hsig Hw i Hi)|].
    split; [exact (HH _ (V_bounds0 tr er sig w Hinc Hsig Hw i Hi))|].
    intros Hst. exact (HH' _ (V_bounds tr er sig w Hinc Hsig Hw i Hst Hi)).
Qed.

Lemma predict_main tp :
  (forall i, (i < length tr)%nat -> t i = tp -> e i <> 0) ->
  exists m v s', Predict1 s (Fin tp) = Ok ((Fin m, Fin v), s') /\
    is_blp (length tr) K (fun j => ou_cov sig w tp (t j)) (ou_cov sig w tp tp) y m v /\
    0 < v <= sig / (2 * w).
Proof.
  intros Hnz.
  destruct (holds1_lens _ _ _ _ _ _ Hs) as (Hy & He & Hn & Edt).
  destruct Hs as (Hu & E1 & E2 & E3 & E4 & E5).
  destruct (pureP1 AX s (Fin tp) Hu I) as [Ho Hs']. cbn [m_Predict methods1] in Ho.
  destruct (Predict1 s (Fin tp)) as [[r s']|ex| |] eqn:EF; try discriminate Ho.
  cbn [obs_fst] in Ho. unfold pp1 in Ho.
  cbn [setup_of s_dt s_y s_yerr s_sig s_par s_time] in Ho. rewrite E1, E2, E3, E4, E5, Edt in Ho.
  rewrite (predpure_fin tr yr er sig w Hinc Hsig Hw Hy He tp Hnz) in Ho.
  destruct (predict_blp tr yr er sig w Hinc Hsig Hw tp Hnz) as (m & v & Ep & Hv & Hb & _).
  replace (predpure AR tr (diffs AR tr) yr er sig w tp) with ((m, v) : F AR * F AR) in Ho by (symmetry; exact Ep).
  injection Ho as ->. exists m, v, s'. split; [reflexivity|].
  rewrite ou_diag. split; [exact Hb|exact Hv].
Qed.
End Main.

(** Data of a freshly built object. *)
Lemma construct_main X si (raw : kf AX X) t y e :
  valid_sort_index si ->
  length y = length t -> length e = length t ->
  (exists a b, In a t /\ In b t /\ a <> b) ->
  exists s t' y' e', @kf_new AX X si raw (map Fin t) (map Fin y) (map Fin e) = Ok s /\
    k_time s = map Fin t' /\ k_y s = map Fin y' /\ k_yerr s = map Fin e' /\
    strictly_increasing t' /\ (forall x, In x t' <-> In x t) /\
    (forall i, (i < length t')%nat -> exists k, (k < length t)%nat /\
       nth i t' 0 = nth k t 0 /\ nth i y' 0 = nth k y 0 /\ nth i e' 0 = nth k e 0 /\
       (nondecreasing t -> forall j, (j < k)%nat -> nth j t 0 < nth k t 0)) /\
    (strictly_increasing t -> t' = t /\ y' = y /\ e' = e) /\
    usable s /\ k_sig s = k_sig raw /\ k_ext s = k_ext raw /\
    kf_init (A:=AX) si s = Ok s.
Proof.
  intros Hsi Hy He Hd.
  assert (2 <= length t)%nat as Hn.
  { destruct Hd as (a & b & Ha & Hb & Hab). destruct t as [|x [|x' r]]; simpl in *; [contradiction| |lia].
    destruct Ha as [Ha|[]], Hb as [Hb|[]]. congruence. }
  destruct (init_ok X si Hsi raw t y e Hn Hy He Hd) as (idx & E & I1 & I2 & I3 & I4 & I5 & I6).
  exists (built X raw (pick idx t) (pick idx y) (pick idx e)), (pick idx t), (pick idx y), (pick idx e).
  assert (usable (built X raw (pick idx t) (pick idx y) (pick idx e))) as Hu.
  { apply built_usable; rewrite !pick_len; try reflexivity. exact I6. }
  split; [exact E|]. split; [reflexivity|]. split; [reflexivity|]. split; [reflexivity|].
  split; [exact I1|]. split.
  { intros x. split; [|apply I3]. intros Hx. apply pick_In in Hx. destruct Hx as (i & Hi & ->). apply nth_In, I2, Hi. }
  split.
  { intros i Hi. rewrite pick_len in Hi. exists (nth i idx O).
    assert (In (nth i idx O) idx) as Hin by (apply nth_In; exact Hi).
    split; [apply I2, Hin|]. rewrite !pick_nth by exact Hi. split; [reflexivity|]. split; [reflexivity|]. split; [reflexivity|].
    intros Hnd j Hj. apply (I4 Hnd _ Hin j Hj). }
  split.
  { intros Hs. rewrite (I5 Hs).
    assert (forall l, length l = length t -> pick (seq 0 (length t)) l = l) as Hp.
    { intros l Hl. unfold pick. rewrite <- Hl. symmetry. apply list_as_map_seq. }
    rewrite !Hp by (assumption || reflexivity). repeat split. }
  split; [exact Hu|]. split; [reflexivity|]. split; [reflexivity|].
  (* idempotence *)
  set (T := pick idx t) in *. set (Y := pick idx y) in *. set (EE := pick idx e) in *.
  assert (length T = length idx /\ length Y = length idx /\ length EE = length idx) as (LT & LY & LE)
    by (unfold T, Y, EE; rewrite !pick_len; auto).
  destruct (init_ok X si Hsi (built X raw T Y EE) T Y EE) as (idx2 & E2 & J1 & J2 & J3 & J4 & J5 & J6).
  - lia.
  - lia.
  - lia.
  - destruct Hd as (a & b & Ha & Hb & Hab). exists a, b. auto.
  - rewrite (J5 I1) in E2. clear J1 J2 J3 J4 J5 J6.
    assert (forall l, length l = length T -> pick (seq 0 (length T)) l = l) as Hp.
    { intros l Hl. unfold pick. rewrite <- Hl. symmetry. apply list_as_map_seq. }
    rewrite !Hp in E2 by lia. exact E2.
Qed.

(** construction never yields UB *)
Lemma construct_degenerate X si (raw : kf AX X) t y e :
  (forall a b, In a t -> In b t -> a = b) -> @kf_new AX X si raw (map Fin t) (map Fin y) (map Fin e) = Throw Elogic.
Proof. apply init_all_equal. Qed.
