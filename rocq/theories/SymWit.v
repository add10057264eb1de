(** A data set and parameters that are accepted in one unit of time and rejected in another. *)
From Coq Require Import Reals List Arith ZArith Lra Lia Bool Permutation.
From Coquelicot Require Import Complex.
From Verif Require Import Arith Res ListLemmas KFModel Spec Gauss Emb History InitProof KF1X KF1Main KF1More.
From Verif Require Import Cx KFpModel KFpProof SpecCarma CLin KFpX KFpMain KFpTop KFpMore SpecModel CarpackModel RootsProof PriorProof LogLikProof LogLikMain CarpackTop CarpackRefute.
From Verif Require Import Sym SymTime.
Import ListNotations.
Local Open Scope R_scope.
Local Notation length := List.length.

Definition tU : list R := [0; 1; 100].
Definition yU : list R := [0; 1; 0].
Definition eU : list R := [1; 1; 1].
(** the second centroid exceeds the first by 1e-8 / (2 pi) *)
Definition dU : R := 1 + 1 / 100000000.
Definition thU : list R := [1; 1; 0; ln 2; ln 2; ln (4 + dU * dU); ln 4].

Lemma tU_inc : strictly_increasing tU.
Proof. intros i j Hij Hj. unfold tU in *. cbn [length] in Hj. destruct i as [|[|[|i]]], j as [|[|[|j]]]; cbn [nth]; try lia; lra. Qed.
Lemma tU_bounds : data_bounds tU yU (10 * sqrt (1 / 3)) (1 / 100) 1.
Proof.
  constructor.
  - f_equal. f_equal. unfold svar, smean, yU. cbn [length nth Rsum INR]. field.
  - lra.
  - intros i Hi. unfold tU in *. cbn [length] in Hi. destruct i as [|[|i]]; cbn [nth]; try lia; lra.
  - exists 0%nat. unfold tU. cbn [length nth]. split; [lia|lra].
  - unfold tU. cbn. lra.
Qed.
Lemma rpair_c c d : 0 < d -> 0 < c -> rpair (ln (c * c + d * d)) (ln (2 * c)) = [(- c, - d); (- c, d)].
Proof.
  intros Hd Hc. unfold rpair. rewrite !exp_ln by nra. destruct (Rlt_dec 0 _) as [H|H]; [nra|].
  replace (- (2 * c * (2 * c) - 4 * (c * c + d * d))) with ((2 * d) * (2 * d)) by ring. rewrite sqrt_square by lra.
  f_equal; [f_equal; field|]. f_equal. f_equal; field.
Qed.
Lemma omU : qroots thU 3 4 = [(- (1), - (1)); (- (1), 1); (- (2), - dU); (- (2), dU)].
Proof.
  unfold qroots. change (4 / 2)%nat with 2%nat. change (Nat.odd 4) with false. rewrite app_nil_r. cbn [qloop]. rewrite app_nil_r.
  unfold thU. cbn [nth Nat.add].
  replace (rpair (ln 2) (ln 2)) with (rpair (ln (1 * 1 + 1 * 1)) (ln (2 * 1))) by (do 2 f_equal; ring).
  replace (rpair (ln (4 + dU * dU)) (ln 4)) with (rpair (ln (2 * 2 + dU * dU)) (ln (2 * 2))) by (do 2 f_equal; ring).
  rewrite !rpair_c; unfold dU; try lra. reflexivity.
Qed.
Lemma apart_re a b c d : 1 / 10000 * (Rabs (a + c) + Rabs (b + d)) < Rabs (a - c) -> frac_apart (1 / 10000) (a, b) (c, d).
Proof.
  intros H. unfold frac_apart. change (Cplus (a, b) (c, d)) with (a + c, b + d). replace (Cminus (a, b) (c, d)) with (a - c, b - d) by (apply C_eq; cbn; ring).
  assert (Cmod (a + c, b + d) <= Rabs (a + c) + Rabs (b + d)) as H1.
  { replace (a + c, b + d) with (Cplus (RtoC (a + c)) (0, b + d)) by (apply C_eq; cbn; ring). eapply Rle_trans; [apply Cmod_triangle|].
    rewrite Cmod_R. apply Rplus_le_compat_l. unfold Cmod. cbn [fst snd]. replace (0 ^ 2 + (b + d) ^ 2) with (Rsqr (b + d)) by (unfold Rsqr; ring). rewrite sqrt_Rsqr_abs. lra. }
  assert (Rabs (a - c) <= Cmod (a - c, b - d)) as H2 by (apply (Rle_trans _ _ _ (Rmax_l _ _) (Rmax_Cmod (a - c, b - d)))).
  assert (0 < 1 / 10000) by lra. nra.
Qed.
Lemma apart_im a b c d : 1 / 10000 * (Rabs (a + c) + Rabs (b + d)) < Rabs (b - d) -> frac_apart (1 / 10000) (a, b) (c, d).
Proof.
  intros H. unfold frac_apart. change (Cplus (a, b) (c, d)) with (a + c, b + d). replace (Cminus (a, b) (c, d)) with (a - c, b - d) by (apply C_eq; cbn; ring).
  assert (Cmod (a + c, b + d) <= Rabs (a + c) + Rabs (b + d)) as H1.
  { replace (a + c, b + d) with (Cplus (RtoC (a + c)) (0, b + d)) by (apply C_eq; cbn; ring). eapply Rle_trans; [apply Cmod_triangle|].
    rewrite Cmod_R. apply Rplus_le_compat_l. unfold Cmod. cbn [fst snd]. replace (0 ^ 2 + (b + d) ^ 2) with (Rsqr (b + d)) by (unfold Rsqr; ring). rewrite sqrt_Rsqr_abs. lra. }
  assert (Rabs (b - d) <= Cmod (a - c, b - d)) as H2 by (apply (Rle_trans _ _ _ (Rmax_r _ _) (Rmax_Cmod (a - c, b - d)))).
  assert (0 < 1 / 10000) by lra. nra.
Qed.
Lemma PI_range : 3 < PI <= 4.
Proof. pose proof PI2_3_2 as H. split; [lra|exact PI_4]. Qed.
Lemma div2pi x : 0 < x -> x / 8 <= x / (2 * PI) < x / 6.
Proof.
  intros Hx. destruct PI_range as (H1 & H2). unfold Rdiv. split.
  - apply Rmult_le_compat_l; [lra|]. apply Rinv_le_contravar; lra.
  - apply Rmult_lt_compat_l; [lra|]. apply Rinv_lt_contravar; nra.
Qed.
Lemma thU_in : in_prior (10 * sqrt (1 / 3)) (1 / 100) 1 thU (qroots thU 3 4).
Proof.
  rewrite omU. assert (0 < dU /\ dU - 1 = 1 / 100000000) as (Hd & Ed) by (unfold dU; lra). constructor.
  - intros r [<-|[<-|[<-|[<-|[]]]]]; cbn [snd]; rewrite ?Rabs_Ropp, Rabs_right by lra; eapply Rlt_trans; try (apply div2pi; lra); lra.
  - intros r [<-|[<-|[<-|[<-|[]]]]]; cbn [fst]; rewrite Ropp_involutive; split; try (eapply Rlt_le_trans; [|apply div2pi; lra]; lra); eapply Rlt_trans; try (apply div2pi; lra); lra.
  - cbn [nth thU]. assert (1 / 10 <= sqrt (1 / 3)); [|lra]. replace (1 / 10) with (sqrt (1 / 10 * (1 / 10))) by (apply sqrt_square; lra). apply sqrt_le_1_alt. lra.
  - cbn [nth thU]. lra.
  - intros i Hi. cbn [length] in Hi. destruct i as [|[|[|i]]]; try lia; cbn [nth snd]; rewrite ?Rabs_Ropp, !Rabs_right by lra; try lra.
    pose proof (div2pi (dU - 1) ltac:(lra)) as H. assert (dU / (2 * PI) = 1 / (2 * PI) + (dU - 1) / (2 * PI)) as -> by (unfold Rdiv; ring). lra.
  - intros i j Hij Hj. cbn [length] in Hj.
    destruct i as [|[|[|i]]], j as [|[|[|[|j]]]]; try lia; cbn [nth]; unfold dU; first [apply apart_re; solve [split_Rabs; lra] | apply apart_im; solve [split_Rabs; lra]].
Qed.
Lemma thU_out : ~ in_order (qroots (new_unit (1 / 1000) 4 0 thU) 3 4).
Proof.
  rewrite ar_scale by (try lra; cbn; lia). rewrite omU. intros H. specialize (H 1%nat ltac:(cbn; lia)). cbn [map nth] in H.
  rewrite !scl_parts in H. cbn [snd] in H. assert (/ (1 / 1000) = 1000) as E by field. rewrite E in H.
  assert (0 < dU /\ dU - 1 = 1 / 100000000) as (Hd & Ed) by (unfold dU; lra).
  replace (1000 * - dU) with (- (1000 * dU)) in H by ring. rewrite Rabs_Ropp, !Rabs_right in H by lra.
  assert (1000 * dU / (2 * PI) = 1000 * 1 / (2 * PI) + (1000 * (dU - 1)) / (2 * PI)) as E2 by (unfold Rdiv; ring). rewrite E2 in H.
  pose proof (div2pi (1000 * (dU - 1)) ltac:(lra)). lra.
Qed.
