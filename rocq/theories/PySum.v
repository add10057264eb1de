(** Proofs about PySampleModel: summaries, the frequency grid, samples read from a file. *)
From Coq Require Import List Arith ZArith Reals Lra Lia Permutation Bool String Ascii.
From Coquelicot Require Import Coquelicot.
From Verif Require Import Arith Res ListLemmas KFModel KF1Proof KFpProof CholProof Spec Gauss Emb KF1R KF1X KF1Main KF1More OUpd SimProof InitProof Cx KFpModel SpecCarma CLin KFpX KFpMain KFpTop KFpMore SpecModel
  CarpackModel RootsProof PriorProof LogLikProof LogLikMain CarpackTop EngineModel StartModel PyModel PySim PyFuns PyDerive PyPredict PyExtra PyBox PyKFSim PySampleModel PyQuant PyPsd PySampleProof PyFitProof PyFit2.
Import ListNotations.
Local Open Scope R_scope.
Local Open Scope string_scope.
Local Notation length := List.length.
Local Notation Forall2 := List.Forall2.

(** ** There is one percentile *)
Lemma nd_cons a l : nondecreasing (a :: l) -> nondecreasing l /\ (forall x, In x l -> a <= x).
Proof.
  intros H. split.
  - intros i j Hij Hj. apply (H (S i) (S j)); cbn [List.length]; lia.
  - intros x Hx. apply (In_nth _ _ 0) in Hx. destruct Hx as (k & Hk & <-). apply (nd_le (a :: l) 0 (S k)); [exact H|lia|cbn [List.length]; lia].
Qed.
Lemma nd_perm_eq s s' : nondecreasing s -> nondecreasing s' -> Permutation s s' -> s = s'.
Proof.
  revert s'. induction s as [|a s IH]; intros s' H H' P; [symmetry; apply Permutation_nil, P|].
  destruct s' as [|b s']; [exfalso; eapply Permutation_nil_cons; symmetry; exact P|].
  destruct (nd_cons a s H) as (G & L), (nd_cons b s' H') as (G' & L').
  assert (a = b) as <-.
  { apply Rle_antisym.
    - assert (In b (a :: s)) as [->|K] by (apply (Permutation_in b (Permutation_sym P)); left; reflexivity); [lra|apply L, K].
    - assert (In a (b :: s')) as [->|K] by (apply (Permutation_in a P); left; reflexivity); [lra|apply L', K]. }
  f_equal. apply IH; [exact G|exact G'|]. eapply Permutation_cons_inv. exact P.
Qed.
Theorem percentile_unique l q v w : percentile_of l q v -> percentile_of l q w -> v = w.
Proof.
  intros (s & P & S & A) (s' & P' & S' & A'). assert (s = s') as <- by (apply nd_perm_eq; [exact S|exact S'|]; etransitivity; [symmetry; exact P|exact P']).
  destruct A as (k & _ & Hk & ->), A' as (k' & _ & Hk' & ->). rewrite (floor_unique k k' _ Hk Hk'). reflexivity.
Qed.

(** ** Summaries *)
(** what is printed for a column of samples with the autocorrelation time tau *)
Definition summary_of (c : list R) (tau : R) (s : summary AX) : Prop :=
  exists med l68 u68 l95 u95 l99 u99, s = mkSum AX (Fin (INR (length c) / tau)) (Fin med) (Fin (sqrt (pvar c))) (Fin l68, Fin u68) (Fin l95, Fin u95) (Fin l99, Fin u99) /\
    percentile_of c 50 med /\ percentile_of c 16 l68 /\ percentile_of c 84 u68 /\ percentile_of c (5 / 2) l95 /\ percentile_of c (195 / 2) u95 /\
    percentile_of c (1 / 2) l99 /\ percentile_of c (199 / 2) u99 /\ l99 <= l95 <= l68 /\ l68 <= med <= u68 /\ u68 <= u95 <= u99.
Lemma summarise_Fin np_sort (c : list R) tau : valid_np_sort np_sort -> c <> [] ->
  exists s, summarise AX np_sort (map Fin c) (Fin (INR (length c) / tau)) = Ok s /\ summary_of c tau s.
Proof.
  intros Hsort Hne. destruct (sorted_list np_sort Hsort c) as (s & Es & Hp & Hs).
  destruct (pct_Fin np_sort c s 16 Es Hp Hne ltac:(lra)) as (l1 & E1 & H1).
  destruct (pct_Fin np_sort c s 84 Es Hp Hne ltac:(lra)) as (u1 & E2 & H2).
  destruct (pct_Fin np_sort c s (5/2) Es Hp Hne ltac:(lra)) as (l2 & E3 & H3).
  destruct (pct_Fin np_sort c s (195/2) Es Hp Hne ltac:(lra)) as (u2 & E4 & H4).
  destruct (pct_Fin np_sort c s (1/2) Es Hp Hne ltac:(lra)) as (l3 & E5 & H5).
  destruct (pct_Fin np_sort c s (199/2) Es Hp Hne ltac:(lra)) as (u3 & E6 & H6).
  destruct (median_Fin np_sort c s Es Hp Hne) as (me & E7 & H7).
  eexists. split.
  - unfold summarise, interval. change (fofZ AX 16) with (Fin 16). change (fofZ AX 84) with (Fin 84).
    change (fdec AX 5 2) with (Fin (5 / 2)). change (fdec AX 195 2) with (Fin (195 / 2)). change (fdec AX 1 2) with (Fin (1 / 2)). change (fdec AX 199 2) with (Fin (199 / 2)).
    change (F AX) with xr in *. rewrite E1; cbn [bind]; rewrite E2; cbn [bind]; rewrite E3; cbn [bind]; rewrite E4; cbn [bind]; rewrite E5; cbn [bind]; rewrite E6; cbn [bind]; rewrite E7.
    rewrite np_std_Fin by exact Hne. reflexivity.
  - exists me, l1, u1, l2, u2, l3, u3. split; [reflexivity|].
    do 7 (split; [exists s; auto|]). pose proof (pos_INR (length c - 1)) as Hn.
    assert (forall p q v w, p <= q -> at_position s (INR (length c - 1) * (p / 100)) v -> at_position s (INR (length c - 1) * (q / 100)) w -> v <= w) as M.
    { intros p q v w Hpq A B. eapply at_position_mono; [exact Hs| |exact A|exact B]. apply Rmult_le_compat_l; lra. }
    repeat split; (eapply M; [|eassumption|eassumption]; lra).
Qed.
Definition rcolumn (m : list (list R)) (i : nat) : list R := map (fun row => nth i row 0) m.
Theorem posterior_summaries_ok np_sort (acor : list (F AX) -> res (F AX)) (d : dict AX) k (m : list (list R)) c (tau : nat -> R) : valid_np_sort np_sort ->
  dget d k = Some (V2 AX (map (map Fin) m)) -> m <> [] -> (forall row, In row m -> length row = c) ->
  (forall i, (i < c)%nat -> acor (map Fin (rcolumn m i)) = Ok (Fin (tau i)) /\ tau i <> 0) ->
  exists ss, posterior_summaries np_sort acor d k = Ok ss /\ length ss = c /\
    forall i s, nth_error ss i = Some s -> summary_of (rcolumn m i) (tau i) s.
Proof.
  intros Hsort Hd Hne Hc Ha. assert (forall i, (i < c)%nat -> column AX (map (map Fin) m) i = Ok (map Fin (rcolumn m i))) as Hcol.
  { intros i Hi. unfold column, rcolumn. rewrite map_map. apply rmap_map. intros row Hrow. apply vget_Fin. rewrite (Hc row Hrow). exact Hi. }
  assert (length (hd [] (map (map Fin) m)) = c) as Ew by (destruct m as [|row m]; [congruence|]; cbn; rewrite map_length; apply Hc; left; reflexivity).
  unfold posterior_summaries, get_samples, effective_samples. rewrite Hd. cbn [bind timescales nrows].
  change (F AX) with xr in *. rewrite Ew.
  rewrite (rmap_ok _ _ (fun i => Fin (tau i))) by (intros i Hi; apply in_seq in Hi; rewrite Hcol by lia; cbn [bind]; apply (proj1 (Ha i ltac:(lia)))).
  cbn [bind].
  match goal with |- exists ss, rmap ?h _ = _ /\ _ => set (g := h) end.
  assert (forall i, (i < c)%nat -> exists s, g i = Ok s /\ summary_of (rcolumn m i) (tau i) s) as Hg.
  { intros i Hi. destruct (summarise_Fin np_sort (rcolumn m i) (tau i) Hsort) as (s & Es & Hs); [unfold rcolumn; destruct m; [congruence|discriminate]|].
    exists s. split; [|exact Hs]. unfold g. rewrite Hcol by exact Hi. cbn [bind].
    rewrite vget_ok with (d := fdiv AX (fofZ AX (Z.of_nat (length (map (map Fin) m)))) (Fin (tau 0%nat))) by (rewrite !map_length, seq_length; exact Hi).
    rewrite map_nth, (map_nth (fun i => Fin (tau i))), seq_nth by exact Hi. cbn [bind Nat.add]. cbn [fofZ AX]. rewrite <- INR_IZR_INZ, map_length.
    change (fdiv AX (Fin (INR (length m))) (Fin (tau i))) with (xdiv (Fin (INR (length m))) (Fin (tau i))). rewrite fin_div by apply (Ha i Hi).
    unfold rcolumn in Es at 2. rewrite map_length in Es. exact Es. }
  assert (exists ss, rmap g (seq 0 c) = Ok ss /\ Forall2 (fun i s => summary_of (rcolumn m i) (tau i) s) (seq 0 c) ss) as (ss & E & HF).
  { assert (forall l, (forall i, In i l -> (i < c)%nat) -> exists ss, rmap g l = Ok ss /\
      Forall2 (fun i s => summary_of (rcolumn m i) (tau i) s) l ss) as G; [|apply G; intros i Hi; apply in_seq in Hi; lia].
    induction l as [|i l IH]; intros Hl; [exists []; split; [reflexivity|constructor]|].
    destruct IH as (ss & E & HF); [intros j Hj; apply Hl; right; exact Hj|]. destruct (Hg i (Hl i (or_introl eq_refl))) as (s & Es & Hs).
    exists (s :: ss). split; [|constructor; assumption]. cbn [rmap]. rewrite Es. cbn [bind]. rewrite E. reflexivity. }
  exists ss. split; [exact E|]. split; [pose proof (F2_len HF) as L; rewrite seq_length in L; congruence|].
  intros i s Es. assert (i < length ss)%nat as Hi by (apply nth_error_Some; congruence). pose proof (F2_len HF) as L. rewrite seq_length in L.
  pose proof (nth_F2 _ _ _ 0%nat s i HF ltac:(rewrite seq_length; lia)) as K. rewrite seq_nth in K by lia. cbn [Nat.add] in K. rewrite (nth_error_nth _ _ _ Es) in K. exact K.
Qed.
Theorem summaries_1d (A : Arith) np_sort acor (d : dict A) k v : dget d k = Some (V1 A v) -> posterior_summaries np_sort acor d k = Throw Elogic /\ effective_samples acor d k = Throw Elogic.
Proof. intros H. unfold posterior_summaries, get_samples, effective_samples. rewrite H. split; reflexivity. Qed.
Theorem effective_unknown (A : Arith) acor (d : dict A) k : dget d k = None -> effective_samples acor d k = Ok None.
Proof. intros H. unfold effective_samples. rewrite H. reflexivity. Qed.

(** ** The frequency grid *)
Theorem freqs_increasing (t : list R) : (2 <= length t)%nat -> strictly_increasing t ->
  (4 <= length t)%nat \/ (exists i, (S i < length t)%nat /\ 2 * (nth (S i) t 0 - nth i t 0) < nth (length t - 1) t 0 - nth 0 t 0) ->
  exists fs, psd_freqs AX (map Fin t) = Ok (map Fin fs) /\ length fs = 1000%nat /\ strictly_increasing fs /\
    nth 0 fs 0 = 1 / (nth (length t - 1) t 0 - nth 0 t 0) /\ exists d, 0 < d /\ min_spacing t d /\ nth 999 fs 0 = 1 / (2 * d).
Proof.
  intros Hn Hinc Hw. destruct (psd_freqs_Fin t Hn Hinc) as (d & Hd & Hm & E). set (T := nth (length t - 1) t 0 - nth 0 t 0) in *.
  assert (2 * d < T) as Hlt.
  { destruct Hw as [H4|(i & Hi & H)]; [|pose proof (proj1 Hm i Hi); lra]. pose proof (spacing_span t d Hn Hm) as S. fold T in S.
    assert (3 <= INR (length t - 1)) as H3 by (replace 3 with (INR 3) by (cbn; lra); apply le_INR; lia). nra. }
  exists (log_grid (1 / T) (1 / (2 * d))). split; [exact E|]. split; [apply log_grid_length|].
  assert (0 < 1 / T) by (apply Rdiv_lt_0_compat; lra). assert (0 < 1 / (2 * d)) by (apply Rdiv_lt_0_compat; lra).
  split; [apply log_grid_increasing; [assumption|]|].
  { apply (Rmult_lt_reg_r (T * (2 * d))); [apply Rmult_lt_0_compat; lra|]. replace (1 / T * (T * (2 * d))) with (2 * d) by (field; lra). replace (1 / (2 * d) * (T * (2 * d))) with T by (field; lra). exact Hlt. }
  destruct (log_grid_ends (1 / T) (1 / (2 * d))) as (E0 & E1); [assumption|assumption|]. split; [exact E0|]. exists d. split; [exact Hd|]. split; [exact Hm|exact E1].
Qed.
Theorem freqs_two (a b : R) : a < b -> exists fs, psd_freqs AX (map Fin [a; b]) = Ok (map Fin fs) /\ length fs = 1000%nat /\
  (forall i j, (i < j)%nat -> (j < 1000)%nat -> nth j fs 0 < nth i fs 0) /\ nth 0 fs 0 = 1 / (b - a) /\ nth 999 fs 0 = 1 / (2 * (b - a)).
Proof.
  intros Hab. assert (strictly_increasing [a; b]) as Hinc by (intros [|[|i]] [|[|j]] Hij Hj; cbn in *; try lia; exact Hab).
  destruct (psd_freqs_Fin [a; b] ltac:(cbn; lia) Hinc) as (d & Hd & (_ & (i & Hi & ->)) & E). destruct i as [|i]; [|cbn in Hi; lia]. cbn [nth List.length Nat.sub] in *.
  exists (log_grid (1 / (b - a)) (1 / (2 * (b - a)))). split; [exact E|]. split; [apply log_grid_length|].
  assert (0 < 1 / (b - a)) by (apply Rdiv_lt_0_compat; lra). assert (0 < 1 / (2 * (b - a))) by (apply Rdiv_lt_0_compat; lra).
  split; [|apply log_grid_ends; assumption]. intros i j Hij Hj. apply log_grid_decreasing; [assumption| |assumption|assumption].
  apply (Rmult_lt_reg_r (2 * (b - a))); [lra|]. replace (1 / (2 * (b - a)) * (2 * (b - a))) with 1 by (field; lra). replace (1 / (b - a) * (2 * (b - a))) with 2 by (field; lra). lra.
Qed.

(** ** Files *)
Theorem filename_ignored (A : Arith) X Om (C : cls A X Om) b isreal q (f : file A) lp trace :
  CarmaSample_new C b isreal q (Some f) lp trace = CarmaSample_new C b isreal q None lp trace /\ Car1Sample_new (Some f) lp trace = Car1Sample_new None lp trace.
Proof. split; reflexivity. Qed.
Lemma append_newline s : String.append s (String (ascii_of_nat 10) EmptyString) <> s.
Proof. intros E. apply (f_equal String.length) in E. induction s as [|c s IH]; [discriminate|]. cbn in E, IH. injection E as E. exact (IH E). Qed.
Theorem file_header (A : Arith) (f : file A) : exists d, MCMCSample_new (Some f) = Ok d /\ get_samples d (f_header f) = Throw Elogic /\
  get_samples d (readline f) = Ok (f_data f) /\ map fst d = [readline f].
Proof.
  exists [(readline f, f_data f)]. unfold get_samples. cbn [dget]. rewrite String.eqb_refl.
  assert (String.eqb (f_header f) (readline f) = false) as -> by (apply String.eqb_neq; intros E; exact (append_newline (f_header f) (eq_sym E))). repeat split.
Qed.
