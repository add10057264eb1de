(** What the filters return is a function of the autocovariance function: uniqueness of conditional distributions for
    measurements in any order, and its consequences for Filter, Predict and Simulate. *)
From Coq Require Import Reals List Arith ZArith Lra Lia Bool Permutation FinFun Sorted Classical.
From Coquelicot Require Import Complex.
From Verif Require Import Arith Res ListLemmas KFModel Spec Gauss Emb History InitProof SimProof KF1R KF1Main KF1More KF1Hist OUpd.
From Verif Require Import Cx KFpModel KFpProof SpecCarma CLin KFpX KFpMain KFpTop KFpMore PredLaw PySum Spectrum SpectrumTop SpecIdent.
Import ListNotations.
Local Open Scope R_scope.

(** ** Sorting measurements by time, exact ones first *)
Definition ple (a b : R * R) : Prop := fst a < fst b \/ (fst a = fst b /\ (snd a = 0 \/ snd b <> 0)).
Lemma ple_trans a b c : ple a b -> ple b c -> ple a c.
Proof.
  unfold ple. intros [H|[E H]] [H'|[E' H']]; [left; lra|left; lra|left; lra|]. right. split; [lra|]. destruct H as [H|H]; [left; exact H|].
  destruct H' as [H'|H']; [contradiction|right; exact H'].
Qed.
Lemma ple_total a b : ple a b \/ ple b a.
Proof.
  unfold ple. destruct (Rtotal_order (fst a) (fst b)) as [H|[H|H]]; [left; left; exact H| |right; left; exact H].
  destruct (Req_dec (snd a) 0) as [E|N]; [left; right; auto|right; right; split; [lra|right; exact N]].
Qed.
Lemma pins x l : StronglySorted ple l -> exists l', Permutation (x :: l) l' /\ StronglySorted ple l'.
Proof.
  induction 1 as [|a l Hs (l' & Hp & Hs') Ha]; [exists [x]; split; [apply Permutation_refl|repeat constructor]|].
  destruct (ple_total x a) as [H|H].
  - exists (x :: a :: l). split; [apply Permutation_refl|]. constructor; [constructor; assumption|]. constructor; [exact H|].
    eapply Forall_impl; [|exact Ha]. intros b Hb. eapply ple_trans; eassumption.
  - exists (a :: l'). split; [rewrite perm_swap; apply perm_skip, Hp|]. constructor; [exact Hs'|]. eapply Permutation_Forall; [exact Hp|]. constructor; assumption.
Qed.
Lemma psort l : exists l', Permutation l l' /\ StronglySorted ple l'.
Proof.
  induction l as [|x l (l' & Hp & Hs)]; [exists []; split; [apply Permutation_refl|constructor]|].
  destruct (pins x l' Hs) as (l2 & Hp2 & Hs2). exists l2. split; [|exact Hs2]. transitivity (x :: l'); [apply perm_skip, Hp|exact Hp2].
Qed.
Lemma sorted_nth l d : StronglySorted ple l -> forall i j, (i < j)%nat -> (j < length l)%nat -> ple (nth i l d) (nth j l d).
Proof.
  induction 1 as [|a l Hs IH Ha]; intros i j Hij Hj; [cbn in Hj; lia|]. destruct j as [|j]; [lia|]. cbn [length] in Hj. destruct i as [|i]; cbn [nth].
  - rewrite Forall_forall in Ha. apply Ha, nth_In. lia.
  - apply IH; lia.
Qed.

Lemma nthf (l : list (R * R)) i : nth i (map fst l) 0 = fst (nth i l (0, 0)).
Proof. exact (map_nth fst l (0, 0) i). Qed.
Lemma nths (l : list (R * R)) i : nth i (map snd l) 0 = snd (nth i l (0, 0)).
Proof. exact (map_nth snd l (0, 0) i). Qed.

(** measurements at the same time are not both exact *)
Definition separated (t e : list R) : Prop :=
  forall i j, (i < length t)%nat -> (j < length t)%nat -> i <> j -> nth i t 0 = nth j t 0 -> nth i e 0 <> 0 \/ nth j e 0 <> 0.

Lemma pd_bij n K f : bFun n f -> bInjective n f -> pd n (fun i j => K (f i) (f j)) -> pd n K.
Proof.
  intros Hf Hi Hp a (i0 & Hi0 & Ha0).
  assert (quad n K a = quad n (fun i j => K (f i) (f j)) (fun i => a (f i))) as E.
  { unfold quad. rewrite <- (Rsum_bij f n (fun i => Rsum (fun j => a i * K i j * a j) n) Hf Hi). apply Rsum_ext. intros i _.
    rewrite <- (Rsum_bij f n (fun j => a (f i) * K (f i) j * a j) Hf Hi). reflexivity. }
  change (0 < quad n K a). rewrite E. apply Hp. destruct (proj1 (bInjective_bSurjective Hf) Hi i0 Hi0) as (k & Hk & <-). exists k. split; assumption.
Qed.
Section Any.
Variable K : R -> R -> R.
Hypothesis Ksym : forall a b, K a b = K b a.
Hypothesis Kpd : forall t e, times_ok t e -> pd (length t) (obs_cov K (fun i => nth i t 0) (fun i => nth i e 0)).
Lemma any_pd t e : length e = length t -> separated t e -> pd (length t) (obs_cov K (fun i => nth i t 0) (fun i => nth i e 0)).
Proof.
  intros Le Hsep. destruct (psort (combine t e)) as (l & Hp & Hs).
  pose proof (Permutation_length Hp) as Ll. rewrite combine_length, Le, Nat.min_id in Ll.
  apply (Permutation_nth _ _ (0, 0)) in Hp. cbv zeta in Hp. destruct Hp as (_ & f & Hf & Hi & Hn). rewrite combine_length, Le, Nat.min_id in *.
  assert (forall x, (x < length t)%nat -> nth x (map fst l) 0 = nth (f x) t 0 /\ nth x (map snd l) 0 = nth (f x) e 0) as Hx.
  { intros x Hx. specialize (Hn x Hx). rewrite combine_nth in Hn by (symmetry; exact Le).
    rewrite nthf, nths, Hn. split; reflexivity. }
  apply (pd_bij _ _ f Hf Hi). assert (times_ok (map fst l) (map snd l)) as Hok.
  { split.
    - intros i j Hij Hj. rewrite map_length, <- Ll in Hj. rewrite !nthf.
      destruct (sorted_nth l (0, 0) Hs i j Hij ltac:(lia)) as [H|[H _]]; lra.
    - intros i Hj E E0. rewrite map_length, <- Ll in Hj. destruct (Hx i ltac:(lia)) as [A1 A2]. destruct (Hx (S i) Hj) as [B1 B2].
      destruct (sorted_nth l (0, 0) Hs i (S i) (Nat.lt_succ_diag_r i) ltac:(lia)) as [H|[_ H]].
      + rewrite !nthf in E. lra.
      + rewrite A1, B1 in E. destruct (Hsep (f i) (f (S i))) as [N|N]; [apply Hf; lia|apply Hf; lia| |exact E| |].
        * intros Ef. apply Hi in Ef; lia.
        * destruct H as [H|H]; [apply N; rewrite <- A2; rewrite nths; exact H|].
          apply H. rewrite nths in E0. exact E0.
        * apply N. rewrite <- B2. exact E0. }
  specialize (Kpd _ _ Hok). rewrite map_length, <- Ll in Kpd. intros a Ha. specialize (Kpd a Ha). erewrite Rsum_ext; [exact Kpd|].
  intros i Hi'. apply Rsum_ext. intros j Hj. cbv beta. f_equal. f_equal. unfold obs_cov. destruct (Hx i Hi') as [-> ->]. destruct (Hx j Hj) as [-> _]. f_equal.
  destruct (Nat.eqb_spec i j) as [->|N]; [rewrite Nat.eqb_refl; reflexivity|]. destruct (Nat.eqb_spec (f i) (f j)) as [Ef|]; [|reflexivity].
  exfalso. apply N, Hi; assumption.
Qed.
Lemma any_unique t y e tp m v m' v' : length e = length t -> separated t e ->
  cond_dist K t y e tp m v -> cond_dist K t y e tp m' v' -> m = m' /\ v = v'.
Proof.
  intros Le Hsep H H'. refine (blp_unique _ _ _ _ _ m v m' v' _ (any_pd t e Le Hsep) H H'). intros i j. apply obs_cov_sym, Ksym.
Qed.
Lemma strict_neq t : strictly_increasing t -> forall i j, (i < length t)%nat -> (j < length t)%nat -> i <> j -> nth i t 0 = nth j t 0 -> False.
Proof.
  intros Hi i j Hi' Hj N E. destruct (Nat.lt_total i j) as [H|[H|H]]; [|contradiction|].
  - pose proof (Hi i j H Hj). lra.
  - pose proof (Hi j i H Hi'). lra.
Qed.
Lemma strict_sep t e : strictly_increasing t -> separated t e.
Proof. intros Hi i j Hi' Hj N E. destruct (strict_neq t Hi i j Hi' Hj N E). Qed.
Lemma firstn_snoc (d : R) l k : (k < length l)%nat -> firstn (S k) l = firstn k l ++ [nth k l d].
Proof. revert k. induction l as [|a l IH]; intros k Hk; [cbn in Hk; lia|]. destruct k as [|k]; [reflexivity|]. cbn [length] in Hk. cbn [firstn nth app]. rewrite <- IH by lia. reflexivity. Qed.
Lemma sim_unique G (draw : G -> F AX * G) t y e sorted out out' g : length e = length t -> strictly_increasing t -> strictly_increasing sorted ->
  (forall i, (i < length t)%nat -> In (nth i t 0) sorted -> nth i e 0 <> 0) ->
  sim_spec K G draw t y e sorted out g -> sim_spec K G draw t y e sorted out' g -> out = out'.
Proof.
  intros Le Ht Hst Hnz (L & H) (L' & H').
  assert (forall k, (k <= length sorted)%nat -> firstn k out = firstn k out') as Q.
  { induction k as [|k IH]; intros Hk; [reflexivity|]. specialize (IH ltac:(lia)).
    destruct (H k ltac:(lia)) as (m & v & z & Ez & _ & Hc & Eo). destruct (H' k ltac:(lia)) as (m' & v' & z' & Ez' & _ & Hc' & Eo').
    rewrite IH in Hc. rewrite Ez in Ez'. injection Ez' as <-.
    assert (length (e ++ repeat 0 k) = length (t ++ firstn k sorted)) as Lq by (rewrite !app_length, firstn_length, repeat_length, Le; lia).
    assert (separated (t ++ firstn k sorted) (e ++ repeat 0 k)) as Hsep.
    { intros i j Hi Hj N E. rewrite app_length, firstn_length in Hi, Hj. rewrite Nat.min_l in Hi, Hj by lia.
      assert (forall a, (length t <= a)%nat -> (a < length t + k)%nat -> nth a (t ++ firstn k sorted) 0 = nth (a - length t) sorted 0) as An.
      { intros a Ha Ha'. rewrite app_nth2 by exact Ha. rewrite <- (firstn_skipn k sorted) at 2. rewrite app_nth1 by (rewrite firstn_length; lia). reflexivity. }
      destruct (le_lt_dec (length t) i) as [Gi|Gi], (le_lt_dec (length t) j) as [Gj|Gj].
      + exfalso. rewrite !An in E by lia. destruct (Nat.lt_total (i - length t) (j - length t)) as [X|[X|X]].
        * pose proof (Hst _ _ X ltac:(lia)). lra.
        * lia.
        * pose proof (Hst _ _ X ltac:(lia)). lra.
      + right. rewrite An in E by lia. rewrite app_nth1 in E by exact Gj. rewrite app_nth1 by (rewrite Le; exact Gj). apply Hnz; [exact Gj|]. rewrite <- E. apply nth_In. lia.
      + left. rewrite (An j) in E by lia. rewrite app_nth1 in E by exact Gi. rewrite app_nth1 by (rewrite Le; exact Gi). apply Hnz; [exact Gi|]. rewrite E. apply nth_In. lia.
      + exfalso. rewrite !app_nth1 in E by assumption. exact (strict_neq t Ht i j Gi Gj N E). }
    destruct (any_unique _ _ _ _ _ _ _ _ Lq Hsep Hc Hc') as [<- <-].
    rewrite !(firstn_snoc 0) by lia. rewrite IH, Eo, Eo'. reflexivity. }
  specialize (Q (length sorted) (Nat.le_refl _)). rewrite <- L in Q at 1. rewrite <- L', !firstn_all in Q. exact Q.
Qed.
End Any.

Lemma nth_firstn_low (l : list R) d : forall n i, (i < n)%nat -> nth i (firstn n l) d = nth i l d.
Proof. induction l as [|a l IH]; intros [|n] [|i] H; try lia; try reflexivity. cbn [firstn nth]. apply IH. lia. Qed.
Lemma strict_nondecreasing l : strictly_increasing l -> nondecreasing l.
Proof. intros H i j Hij Hj. left. apply H; assumption. Qed.

(** ** Agreement of two objects over the same measurements *)
(** what a filter object over the data t, y, e returns, when its predictions are those of the covariance function K *)
Record answers (K : R -> R -> R) (X : Type) (M : methods AX X) (P : kf AX X -> F AX -> res ((F AX * F AX) * kf AX X)) (s : kf AX X) (t y e : list R) : Prop := {
  a_filter : exists s', Filter M s = Ok s' /\ length (k_mean s') = length t /\ length (k_var s') = length t /\
    forall i, (i < length t)%nat -> exists m v, nth_error (k_mean s') i = Some (Fin m) /\ nth_error (k_var s') i = Some (Fin v) /\
      cond_dist K (firstn i t) (firstn i y) (firstn i e) (nth i t 0) m (v - nth i e 0 * nth i e 0);
  a_predict : forall tp, (forall i, (i < length t)%nat -> nth i t 0 = tp -> nth i e 0 <> 0) ->
    exists m v s', P s (Fin tp) = Ok ((Fin m, Fin v), s') /\ cond_dist K t y e tp m v;
  a_simulate : forall G (draw : G -> F AX * G) (vsort : list (F AX) -> option (list (F AX))) ts (g : G),
    (forall g0, exists z, fst (draw g0) = Fin z) -> valid_vsort vsort -> NoDup ts ->
    (forall i, (i < length t)%nat -> In (nth i t 0) ts -> nth i e 0 <> 0) ->
    exists sorted out s', Simulate M draw vsort s (map Fin ts) g = Ok (map Fin out, s', gen_after draw (length ts) g) /\
      Permutation ts sorted /\ strictly_increasing sorted /\ sim_spec K G draw t y e sorted out g }.
Lemma sim_spec_ext K K' G (draw : G -> F AX * G) t y e sorted out g : (forall a b, K a b = K' a b) -> sim_spec K G draw t y e sorted out g -> sim_spec K' G draw t y e sorted out g.
Proof.
  intros E (L & H). split; [exact L|]. intros k Hk. destruct (H k Hk) as (m & v & z & A & B & D & F). exists m, v, z. split; [exact A|]. split; [exact B|]. split; [|exact F].
  eapply cond_dist_ext; eassumption.
Qed.
Lemma answers_ext K K' X M P (s : kf AX X) t y e : (forall a b, K a b = K' a b) -> answers K X M P s t y e -> answers K' X M P s t y e.
Proof.
  intros E [(s' & A & B & D & H) Hp Hs]. split.
  - exists s'. split; [exact A|]. split; [exact B|]. split; [exact D|]. intros i Hi. destruct (H i Hi) as (m & v & A1 & A2 & A3). exists m, v. split; [exact A1|]. split; [exact A2|].
    eapply cond_dist_ext; eassumption.
  - intros tp Hok. destruct (Hp tp Hok) as (m & v & s1 & A1 & A2). exists m, v, s1. split; [exact A1|]. eapply cond_dist_ext; eassumption.
  - intros G draw vsort ts g Hd Hv Hn Hnz. destruct (Hs G draw vsort ts g Hd Hv Hn Hnz) as (so & out & s1 & A1 & A2 & A3 & A4). exists so, out, s1. split; [exact A1|].
    split; [exact A2|]. split; [exact A3|]. eapply sim_spec_ext; eassumption.
Qed.
Lemma answers1 s t y e sig w : holds1 s t y e sig w -> strictly_increasing t -> 0 < sig -> 0 < w -> answers (ou_cov sig w) (F AX) (methods1 AX) (@Predict1 AX) s t y e.
Proof.
  intros Hs Hi Hsig Hw. split.
  - destruct (filter_c05 s t y e sig w Hs Hi Hsig Hw) as (s' & A & B & D & H). exists s'. split; [exact A|]. split; [exact B|]. split; [exact D|].
    intros i Hi'. destruct (H i Hi') as (m & v & A1 & A2 & A3 & _). exists m, v. split; [exact A1|]. split; [exact A2|exact A3].
  - intros tp Hok. exact (predict_c07 s t y e sig w tp Hs Hi Hsig Hw Hok).
  - intros G draw vsort ts g Hd Hv Hn Hnz. exact (simulate_main G draw vsort s t y e sig w ts g Hs Hi Hsig Hw Hd Hv Hn Hnz).
Qed.
Lemma answersp solve s t y e sig om ma : valid_solve solve -> holdsp s t y e sig om ma -> strictly_increasing t -> carma_ok sig om ma ->
  answers (carma_cov sig ma om) (kpx AX) (methodsp solve) (Predictp solve) s t y e.
Proof.
  intros Hsv Hs Hi Hm. split.
  - destruct (filterp solve Hsv s t y e sig om ma Hs Hi Hm) as (s' & A & B & D & H). exists s'. split; [exact A|]. split; [exact B|]. split; [exact D|].
    intros i Hi'. destruct (H i Hi') as (m & v & A1 & A2 & A3 & _). exists m, v. split; [exact A1|]. split; [exact A2|exact A3].
  - intros tp Hok. destruct (predictp solve Hsv s t y e sig om ma Hs Hi Hm tp Hok) as (m & v & s1 & A & B & _). exists m, v, s1. split; assumption.
  - intros G draw vsort ts g Hd Hv Hn Hnz. exact (simulatep solve Hsv s t y e sig om ma Hs Hi Hm G draw vsort ts g Hd Hv Hn Hnz).
Qed.
(** two objects return the same *)
Definition agree (t e : list R) (X X' : Type) (M : methods AX X) (M' : methods AX X') (P : kf AX X -> F AX -> res ((F AX * F AX) * kf AX X))
  (P' : kf AX X' -> F AX -> res ((F AX * F AX) * kf AX X')) (s : kf AX X) (s' : kf AX X') : Prop :=
  (exists s1 s1', Filter M s = Ok s1 /\ Filter M' s' = Ok s1' /\ k_mean s1 = k_mean s1' /\ k_var s1 = k_var s1') /\
  (forall tp, (forall i, (i < length t)%nat -> nth i t 0 = tp -> nth i e 0 <> 0) ->
     exists m v s1 s1', P s (Fin tp) = Ok ((Fin m, Fin v), s1) /\ P' s' (Fin tp) = Ok ((Fin m, Fin v), s1')) /\
  (forall G (draw : G -> F AX * G) (vsort : list (F AX) -> option (list (F AX))) ts (g : G),
     (forall g0, exists z, fst (draw g0) = Fin z) -> valid_vsort vsort -> NoDup ts ->
     (forall i, (i < length t)%nat -> In (nth i t 0) ts -> nth i e 0 <> 0) ->
     exists out s1 s1' g', Simulate M draw vsort s (map Fin ts) g = Ok (map Fin out, s1, g') /\ Simulate M' draw vsort s' (map Fin ts) g = Ok (map Fin out, s1', g')).
Lemma list_ext_nth (l l' : list (F AX)) n : length l = n -> length l' = n -> (forall i, (i < n)%nat -> nth_error l i = nth_error l' i) -> l = l'.
Proof.
  revert l l'. induction n as [|n IH]; intros [|a l] [|b l'] L L' H; try discriminate; [reflexivity|].
  f_equal; [specialize (H 0%nat ltac:(lia)); injection H as ->; reflexivity|]. apply IH; [exact (eq_add_S _ _ L)|exact (eq_add_S _ _ L')|].
  intros i Hi. exact (H (S i) ltac:(lia)).
Qed.
Lemma answers_agree K (Ksym : forall a b, K a b = K b a)
  (Kpd : forall t e, times_ok t e -> pd (length t) (obs_cov K (fun i => nth i t 0) (fun i => nth i e 0)))
  X X' M M' P P' (s : kf AX X) (s' : kf AX X') t y e :
  length e = length t -> strictly_increasing t -> answers K X M P s t y e -> answers K X' M' P' s' t y e -> agree t e X X' M M' P P' s s'.
Proof.
  intros Le Hi [(s1 & A1 & A2 & A3 & A4) Hp Hs] [(s1' & B1 & B2 & B3 & B4) Hp' Hs']. split; [|split].
  - exists s1, s1'. split; [exact A1|]. split; [exact B1|].
    assert (forall i, (i < length t)%nat -> nth_error (k_mean s1) i = nth_error (k_mean s1') i /\ nth_error (k_var s1) i = nth_error (k_var s1') i) as H.
    { intros i Hi'. destruct (A4 i Hi') as (m & v & C1 & C2 & C3). destruct (B4 i Hi') as (m' & v' & D1 & D2 & D3).
      destruct (any_unique K Ksym Kpd (firstn i t) (firstn i y) (firstn i e) (nth i t 0) m (v - nth i e 0 * nth i e 0) m' (v' - nth i e 0 * nth i e 0)) as [<- Ev]; try assumption.
      - rewrite !firstn_length. lia.
      - apply strict_sep. intros a b Hab Hb. rewrite firstn_length in Hb. rewrite !nth_firstn_low by lia. apply Hi; lia.
      - assert (v' = v) as -> by lra. rewrite C1, C2, D1, D2. split; reflexivity. }
    split; apply (list_ext_nth _ _ (length t)); try assumption; intros i Hi'; apply H, Hi'.
  - intros tp Hok. destruct (Hp tp Hok) as (m & v & u & C1 & C2). destruct (Hp' tp Hok) as (m' & v' & u' & D1 & D2).
    destruct (any_unique K Ksym Kpd t y e tp m v m' v' Le (strict_sep t e Hi) C2 D2) as [<- <-]. exists m, v, u, u'. split; assumption.
  - intros G draw vsort ts g Hd Hv Hn Hnz. destruct (Hs G draw vsort ts g Hd Hv Hn Hnz) as (so & out & u & C1 & C2 & C3 & C4).
    destruct (Hs' G draw vsort ts g Hd Hv Hn Hnz) as (so' & out' & u' & D1 & D2 & D3 & D4).
    assert (so = so') as <-.
    { apply nd_perm_eq; [apply strict_nondecreasing, C3|apply strict_nondecreasing, D3|]. transitivity ts; [symmetry; exact C2|exact D2]. }
    rewrite (sim_unique K Ksym Kpd G draw t y e so out out' g Le Hi C3) in C1; [|intros i Hi' Hin; apply Hnz; [exact Hi'|eapply Permutation_in; [symmetry; exact C2|exact Hin]]|exact C4|exact D4].
    exists out', u, u', (gen_after draw (length ts) g). split; assumption.
Qed.
