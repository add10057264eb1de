(** The bounds of the parameter kappa of ZCARMA. *)
From Coq Require Import Reals List Arith ZArith Lra Lia Bool Permutation.
From Coquelicot Require Import Complex.
From Verif Require Import Arith Res ListLemmas KFModel Spec Gauss Emb History InitProof KF1X KF1Main SimProof KF1More.
From Verif Require Import Cx KFpModel KFpProof SpecCarma CLin KFpX KFpMain KFpTop KFpMore SpecModel CarpackModel RootsProof PriorProof LogLikProof LogLikMain CarpackTop CarpackRefute.
From Verif Require Import PySum Sym SymTime.
Import ListNotations.
Local Open Scope R_scope.
Local Notation length := List.length.

(** ** Specification *)
Definition gaps (t : list R) : list R := map (fun i => nth (S i) t 0 - nth i t 0) (seq 0 (length t - 1)).
(** middle of the ordered values: the middle one, or the mean of the two middle ones *)
Definition is_median (l : list R) (m : R) : Prop := exists s, Permutation l s /\ nondecreasing s /\
  m = if Nat.even (length l) then (nth (length l / 2 - 1) s 0 + nth (length l / 2) s 0) / 2 else nth (length l / 2) s 0.
(** from 1 over the time span, or over ten median gaps if this is larger, to 1 over the smallest gap *)
Record kappa_range (t : list R) (lo hi : R) : Prop := {
  kr_pos : 0 < hi;
  kr_min : forall i, (S i < length t)%nat -> 1 / hi <= nth (S i) t 0 - nth i t 0;
  kr_attained : exists i, (S i < length t)%nat /\ 1 / hi = nth (S i) t 0 - nth i t 0;
  kr_low : exists m, is_median (gaps t) m /\ lo = Rmax (1 / (nth (length t - 1) t 0 - nth 0 t 0)) (1 / (10 * m)) }.

(** ** Facts *)
Lemma gaps_len t : length (gaps t) = (length t - 1)%nat.
Proof. unfold gaps. rewrite map_length, seq_length. reflexivity. Qed.
Lemma gaps_nth t i : (S i < length t)%nat -> nth i (gaps t) 0 = nth (S i) t 0 - nth i t 0.
Proof.
  intros H. unfold gaps. set (f := fun i => nth (S i) t 0 - nth i t 0). rewrite (nth_indep _ 0 (f 0%nat)) by (rewrite map_length, seq_length; lia).
  rewrite (map_nth f), seq_nth by lia. reflexivity.
Qed.
Lemma gaps_diffs t : diffs AR t = gaps t.
Proof.
  apply (nth_ext _ _ 0 0).
  - refine (eq_trans (dlen t) _). symmetry. apply gaps_len.
  - intros i Hi. pose proof (dlen t) as Hl. assert (i < length t - 1)%nat as Hi' by (refine (Nat.lt_le_trans _ _ _ Hi _); apply Nat.eq_le_incl; exact Hl).
    refine (eq_trans (dnth t i ltac:(lia)) _). symmetry. apply gaps_nth. lia.
Qed.
Lemma median_unique l m m' : is_median l m -> is_median l m' -> m = m'.
Proof.
  intros (s & P & N & ->) (s' & P' & N' & ->).
  assert (s = s') as -> by (apply nd_perm_eq; [exact N|exact N'|exact (perm_trans (Permutation_sym P) P')]). reflexivity.
Qed.
Lemma median_scale k l m : 0 < k -> is_median l m -> is_median (map (fun x => k * x) l) (k * m).
Proof.
  intros Hk (s & P & N & ->). exists (map (fun x => k * x) s). split; [apply Permutation_map, P|].
  assert (forall i, nth i (map (fun x => k * x) s) 0 = k * nth i s 0) as E.
  { intros i. rewrite <- (Rmult_0_r k) at 1. apply (map_nth (fun x => k * x)). }
  split.
  - intros i j Hij Hj. rewrite map_length in Hj. rewrite !E. apply Rmult_le_compat_l; [lra|apply N; assumption].
  - rewrite map_length, !E. destruct (Nat.even (length l)); [field|reflexivity].
Qed.
Lemma median_ge l m c : l <> [] -> is_median l m -> (forall x, In x l -> c <= x) -> c <= m.
Proof.
  intros Hl (s & P & N & ->) H. pose proof (Permutation_length P) as L.
  assert (forall i, (i < length l)%nat -> c <= nth i s 0) as Hs.
  { intros i Hi. apply H. apply (Permutation_in _ (Permutation_sym P)). apply nth_In. lia. }
  assert (0 < length l)%nat as H0 by (destruct l; [congruence|cbn; lia]).
  pose proof (Nat.div_lt (length l) 2 H0 ltac:(lia)). pose proof (Hs (length l / 2)%nat ltac:(lia)). pose proof (Hs (length l / 2 - 1)%nat ltac:(lia)).
  destruct (Nat.even (length l)); lra.
Qed.
Lemma vmedian_Fin vsort l : valid_vsort vsort -> l <> [] -> exists m, vmedian AX vsort (map Fin l) = Ok (Fin m) /\ is_median l m.
Proof.
  intros Hv Hl. destruct (Hv l) as (s & E & P & N). pose proof (Permutation_length P) as L. assert (0 < length l)%nat as H0 by (destruct l; [congruence|cbn; lia]).
  pose proof (Nat.div_lt (length l) 2 H0 ltac:(lia)) as Hd.
  assert (vmedian AX vsort (map Fin l) = if Nat.even (length l) then bind (vget (map Fin s) (length l / 2 - 1)) (fun a => bind (vget (map Fin s) (length l / 2)) (fun b => Ok (fdiv AX (fadd AX a b) (fofZ AX 2)))) else vget (map Fin s) (length l / 2)) as ->.
  { destruct l as [|x l]; [congruence|]. unfold vmedian. change (F AX) with xr in *. rewrite E. rewrite map_length. reflexivity. }
  rewrite !vget_Fin by lia. eexists. split; [|exists s; split; [exact P|]; split; [exact N|reflexivity]].
  destruct (Nat.even (length l)); [|reflexivity]. cbn [bind fdiv fadd fofZ AX xadd]. rewrite fin_div by lra. reflexivity.
Qed.

Lemma kappa_unique t lo hi lo' hi' : kappa_range t lo hi -> kappa_range t lo' hi' -> lo = lo' /\ hi = hi'.
Proof.
  intros [P M (i & Hi & A) (m & Hm & ->)] [P' M' (j & Hj & B) (m' & Hm' & ->)]. split.
  - rewrite (median_unique _ _ _ Hm Hm'). reflexivity.
  - assert (1 / hi = 1 / hi') as E by (apply Rle_antisym; [rewrite B; apply M, Hj|rewrite A; apply M', Hi]).
    assert (hi = 1 / (1 / hi)) as -> by (field; lra). rewrite E. field. lra.
Qed.
Lemma gaps_stretch k t : gaps (stretch k t) = map (fun x => k * x) (gaps t).
Proof.
  unfold gaps. rewrite stretch_len, map_map. apply map_ext. intros i. rewrite !stretch_nth. ring.
Qed.
Lemma gap_pos t i : strictly_increasing t -> (S i < length t)%nat -> 0 < nth (S i) t 0 - nth i t 0.
Proof. intros H Hi. pose proof (H i (S i) ltac:(lia) Hi). lra. Qed.
Lemma median_gap t hi m : strictly_increasing t -> (2 <= length t)%nat -> 0 < hi -> (forall i, (S i < length t)%nat -> 1 / hi <= nth (S i) t 0 - nth i t 0) -> is_median (gaps t) m -> 1 / hi <= m.
Proof.
  intros Hinc Hn Hp H Hm. apply (median_ge (gaps t)); [intros E; pose proof (gaps_len t) as L; rewrite E in L; cbn in L; lia|exact Hm|].
  intros x Hx. destruct (In_nth _ _ 0 Hx) as (i & Hi & <-). rewrite gaps_len in Hi. rewrite gaps_nth by lia. apply H. lia.
Qed.
Lemma kappa_stretch k t lo hi : 0 < k -> strictly_increasing t -> (2 <= length t)%nat -> kappa_range t lo hi -> kappa_range (stretch k t) (lo / k) (hi / k).
Proof.
  intros Hk Hinc Hn [P M (i & Hi & A) (m & Hm & ->)]. assert (1 / (hi / k) = k * (1 / hi)) as E by (field; lra). constructor.
  - apply Rdiv_lt_0_compat; assumption.
  - intros j Hj. rewrite stretch_len in Hj. rewrite !stretch_nth, E. pose proof (M j Hj). nra.
  - exists i. rewrite stretch_len. split; [exact Hi|]. rewrite !stretch_nth, E, A. ring.
  - exists (k * m). rewrite gaps_stretch. split; [apply median_scale; assumption|].
    pose proof (median_gap t hi m Hinc Hn P M Hm) as Hg. assert (0 < 1 / hi) by (apply Rdiv_lt_0_compat; lra).
    pose proof (Hinc 0%nat (length t - 1)%nat ltac:(lia) ltac:(lia)) as HT. rewrite stretch_len, !stretch_nth.
    replace (1 / (k * nth (length t - 1) t 0 - k * nth 0 t 0)) with (/ k * (1 / (nth (length t - 1) t 0 - nth 0 t 0))) by (field; repeat split; try lra; nra).
    replace (1 / (10 * (k * m))) with (/ k * (1 / (10 * m))) by (field; lra).
    rewrite RmaxRmult by (apply Rlt_le, Rinv_0_lt_compat, Hk). unfold Rdiv. ring.
Qed.
Lemma kappa_order t lo hi : strictly_increasing t -> (2 <= length t)%nat -> kappa_range t lo hi -> 0 < lo /\ (length t = 2%nat -> lo = hi) /\ ((3 <= length t)%nat -> lo < hi).
Proof.
  intros Hinc Hn [P M (i & Hi & A) (m & Hm & ->)].
  pose proof (median_gap t hi m Hinc Hn P M Hm) as Hg. assert (0 < 1 / hi) as H0 by (apply Rdiv_lt_0_compat; lra).
  assert (1 / (10 * m) < hi) as H1.
  { replace hi with (1 / (1 / hi)) by (field; lra). apply Rmult_lt_compat_l; [lra|]. apply Rinv_lt_contravar; nra. }
  pose proof (Hinc 0%nat (length t - 1)%nat ltac:(lia) ltac:(lia)) as HT.
  assert (0 < 1 / (nth (length t - 1) t 0 - nth 0 t 0)) as H2 by (apply Rdiv_lt_0_compat; lra).
  split; [eapply Rlt_le_trans; [exact H2|apply Rmax_l]|]. split.
  - intros E. assert (i = 0%nat) as -> by lia. rewrite E in *. cbn [Nat.sub] in *. rewrite <- A.
    replace (1 / (1 / hi)) with hi by (field; lra). apply Rmax_left. lra.
  - intros H3. apply Rmax_lub_lt; [|exact H1].
    replace hi with (1 / (1 / hi)) by (field; lra). apply Rmult_lt_compat_l; [lra|]. apply Rinv_lt_contravar; [apply Rmult_lt_0_compat; lra|].
    rewrite A. destruct (Nat.eq_dec i 0) as [->|Hne].
    + pose proof (Hinc 1%nat (length t - 1)%nat ltac:(lia) ltac:(lia)). lra.
    + pose proof (Hinc 0%nat i ltac:(lia) ltac:(lia)). destruct (Nat.eq_dec (S i) (length t - 1)) as [->|Hn2]; [lra|].
      pose proof (Hinc (S i) (length t - 1)%nat ltac:(lia) ltac:(lia)). lra.
Qed.
Lemma kappa_main vsort t : valid_vsort vsort -> strictly_increasing t -> (2 <= length t)%nat ->
  exists lo hi, kappa_bounds AX vsort (map Fin t) = Ok (Fin lo, Fin hi) /\ kappa_range t lo hi.
Proof.
  intros Hv Hinc Hn. unfold kappa_bounds. rewrite make_dt_Fin by exact Hn. cbn [bind].
  assert (diffs AR t <> []) as Hne by (intros E; pose proof (dlen t) as L; rewrite E in L; cbn in L; lia).
  destruct (vmin_ok (diffs AR t) Hne) as (m & Em & Hin & Hmin). rewrite Em. cbn [bind].
  assert (t <> []) as Htn by (destruct t; [cbn in Hn; lia|discriminate]).
  destruct (vmax_ok t Htn) as (hi & Eh & Hh1 & Hh2). rewrite Eh. cbn [bind].
  destruct (vmin_ok t Htn) as (lo & El & Hl1 & Hl2). rewrite El. cbn [bind].
  assert (hi = nth (length t - 1) t 0) as ->.
  { apply Rle_antisym; [|apply Hh2, nth_In; lia]. destruct (In_nth _ _ 0 Hh1) as (k & Hk & <-).
    destruct (Nat.eq_dec k (length t - 1)) as [->|Hne']; [lra|]. apply Rlt_le, Hinc; lia. }
  assert (lo = nth 0 t 0) as ->.
  { apply Rle_antisym; [apply Hl2, nth_In; lia|]. destruct (In_nth _ _ 0 Hl1) as (k & Hk & <-).
    destruct k as [|k]; [lra|]. apply Rlt_le, Hinc; lia. }
  destruct (vmedian_Fin vsort (diffs AR t) Hv Hne) as (md & Emd & Hmd). change (F AX) with xr in *. rewrite Emd. cbn [bind].
  rewrite gaps_diffs in *.
  destruct (In_nth _ _ 0 Hin) as (i & Hi & Ei). rewrite gaps_len in Hi. rewrite gaps_nth in Ei by lia.
  assert (0 < m) as Hm by (rewrite <- Ei; apply gap_pos; [exact Hinc|lia]).
  pose proof (Hinc 0%nat (length t - 1)%nat ltac:(lia) ltac:(lia)) as HT.
  assert (m <= md) as Hmm by (apply (median_ge (gaps t)); assumption).
  assert (1 / (1 / m) = m) as Emm by (field; lra).
  exists (Rmax (1 / (nth (length t - 1) t 0 - nth 0 t 0)) (1 / (10 * md))), (1 / m). split.
  - change (fofZ AX 1) with (Fin 1). change (fofZ AX 10) with (Fin 10). change (fdiv AX) with xdiv. cbn [fsub fmul AX xsub xmul]. rewrite !fin_div by lra.
    f_equal. f_equal. unfold fmax. destruct (flt AX _ _) eqn:E.
    + apply flt_Fin in E. rewrite Rmax_right by lra. reflexivity.
    + apply flt_Fin_false in E. rewrite Rmax_left by lra. reflexivity.
  - constructor; rewrite ?Emm.
    + apply Rdiv_lt_0_compat; lra.
    + intros j Hj. rewrite <- gaps_nth by exact Hj. apply Hmin, nth_In. rewrite gaps_len. lia.
    + exists i. split; [lia|congruence].
    + exists md. split; [exact Hmd|reflexivity].
Qed.

(** the moving average polynomial in the new unit *)
Lemma belcher_scale k p (ma ma' : list R) kappa : 0 < k -> 0 < kappa -> (forall z, ma_poly ma z = Cpown (Cplus (RtoC 1) (Cdiv z (RtoC kappa))) (p - 1)) ->
  (forall z, ma_poly ma' z = Cpown (Cplus (RtoC 1) (Cdiv z (RtoC (kappa / k)))) (p - 1)) -> forall z, ma_poly ma' (scl (/ k) z) = ma_poly ma z.
Proof.
  intros Hk Hp H H' z. rewrite H, H'. f_equal. f_equal. unfold Cdiv. rewrite <- !RtoC_inv by (try lra; apply Rgt_not_eq, Rdiv_lt_0_compat; assumption).
  destruct z as [x w]. apply C_eq; cbn [fst snd scl Cmult RtoC]; field; lra.
Qed.
