(** Proofs about PyPlotModel. *)
From Coq Require Import List Arith ZArith Reals Lra Lia Bool String.
From Verif Require Import Arith Res ListLemmas KFModel InitProof Cx KFpModel CarpackModel RootsProof CarpackTop Emb EngineModel StartModel PyModel PySampleModel PyBox PySampleProof PyQuant PySum PyAssessModel PyAssess HistProof PyPlotModel.
Import ListNotations.
Local Open Scope R_scope.
Local Notation length := List.length.

(** ** Columns *)
Lemma real_column_ok (m : list (list R)) c i : (forall row, In row m -> length row = c) -> (i < c)%nat ->
  real_column (V2 AX (map (map Fin) m)) i = Ok (map Fin (rcolumn m i)).
Proof.
  intros Hc Hi. cbn [real_column]. unfold column, rcolumn. rewrite map_map. apply rmap_map. intros row Hrow. apply vget_Fin. rewrite (Hc row Hrow). exact Hi.
Qed.
Lemma ncols_ok (m : list (list R)) c : m <> [] -> (forall row, In row m -> length row = c) -> ncols (V2 AX (map (map Fin) m)) = Ok c.
Proof. intros Hm Hc. destruct m as [|row m]; [congruence|]. cbn. rewrite map_length. f_equal. apply Hc. left. reflexivity. Qed.
Lemma rcolumn_len (m : list (list R)) i : length (rcolumn m i) = length m.
Proof. unfold rcolumn. apply map_length. Qed.
Lemma rcolumn_ne (m : list (list R)) i : m <> [] -> rcolumn m i <> [].
Proof. unfold rcolumn. destruct m; [congruence|discriminate]. Qed.

(** ** plot_trace *)
Theorem plot_trace_ok (d : dict AX) k (m : list (list R)) c : dget d k = Some (V2 AX (map (map Fin) m)) -> m <> [] ->
  (forall row, In row m -> length row = c) -> (0 < c)%nat ->
  exists l, plot_trace d k = Ok (Some l) /\ length l = c /\ forall i, (i < c)%nat -> In (S i, map Fin (rcolumn m i)) l.
Proof.
  intros Hd Hm Hc Hp. unfold plot_trace. rewrite Hd, (ncols_ok m c Hm Hc). cbn [bind].
  destruct (Nat.eqb_spec c 0); [lia|]. rewrite (real_column_ok m c (c - 1) Hc) by lia. cbn [bind].
  rewrite (rmap_ok _ _ (fun i => ((i + 1)%nat, map Fin (rcolumn m i)))).
  2:{ intros i Hi. apply in_seq in Hi. rewrite (real_column_ok m c i Hc) by lia. reflexivity. }
  cbn [bind]. eexists. split; [reflexivity|]. split; [cbn [length]; rewrite map_length, seq_length; lia|].
  intros i Hi. destruct (Nat.eq_dec i (c - 1)) as [->|N].
  - left. f_equal. lia.
  - right. apply in_map_iff. exists i. split; [f_equal; lia|]. apply in_seq. lia.
Qed.

(** ** Histograms *)
Definition edges_of (lo hi : R) (nb : nat) : list xr := map (fun i => Fin (bin_edge lo hi nb i)) (seq 0 (nb + 1)).
Lemma plt_hist_ok (x : list R) nb density : x <> [] -> (0 < nb)%nat -> exists lo hi c h,
  plt_hist AX (map Fin x) nb density = Ok (map Fin h, edges_of lo hi nb) /\ range_of x lo hi /\ counts x nb lo hi c /\ length h = nb /\
  forall i, (i < nb)%nat -> nth i h 0 = if density then INR (nth i c 0%nat) / ((hi - lo) / INR nb) / INR (length x) else INR (nth i c 0%nat).
Proof.
  intros Hx Hn. destruct (np_histogram_Fin x nb Hx Hn) as (lo & hi & c & E & Hr & Hc).
  pose proof (range_lt x lo hi Hr) as Hlt. pose proof (width_pos lo hi nb Hn Hlt) as Hw.
  assert (list_sum c = length x) as Ht by (apply (counts_total x nb lo hi c Hn Hlt (fun v => range_in x lo hi v Hr) Hc)).
  assert (0 < INR (length x)) as Hl by (apply lt_0_INR; destruct x; [congruence|cbn; lia]).
  exists lo, hi, c, (map (fun i => if density then INR (nth i c 0%nat) / ((hi - lo) / INR nb) / INR (length x) else INR (nth i c 0%nat)) (seq 0 nb)).
  split; [|split; [exact Hr|split; [exact Hc|split; [rewrite map_length; apply seq_length|]]]].
  2:{ intros i Hi. rewrite (nth_map_seq (fun i => if density then INR (nth i c 0%nat) / ((hi - lo) / INR nb) / INR (length x) else INR (nth i c 0%nat))) by exact Hi. reflexivity. }
  unfold plt_hist. rewrite E. cbn [bind]. fold (edges_of lo hi nb). f_equal. f_equal. unfold vbuild. rewrite map_map. apply map_ext_in. intros i Hi. apply in_seq in Hi.
  cbv zeta. cbn [fofZ AX]. rewrite <- !INR_IZR_INZ. destruct density; [|reflexivity].
  assert (forall k, (k <= nb)%nat -> nth k (edges_of lo hi nb) (Fin 0) = Fin (bin_edge lo hi nb k)) as En.
  { intros k Hk. unfold edges_of. rewrite (nth_map_seq (fun i => Fin (bin_edge lo hi nb i))) by lia. reflexivity. }
  change (Fin (IZR 0)) with (Fin 0). rewrite !En by lia. replace (i + 1)%nat with (S i) by lia. rewrite edge_step.
  change (fsub AX (Fin (bin_edge lo hi nb i + (hi - lo) / INR nb)) (Fin (bin_edge lo hi nb i))) with (Fin (bin_edge lo hi nb i + (hi - lo) / INR nb - bin_edge lo hi nb i)).
  replace (bin_edge lo hi nb i + (hi - lo) / INR nb - bin_edge lo hi nb i) with ((hi - lo) / INR nb) by lra. rewrite Ht.
  assert (fdiv AX (Fin (INR (nth i c 0%nat))) (Fin ((hi - lo) / INR nb)) = Fin (INR (nth i c 0%nat) / ((hi - lo) / INR nb))) as -> by (refine (fin_div _ _ _); lra).
  refine (fin_div _ _ _). lra.
Qed.
(** the area is one *)
Lemma density_area (x : list R) nb lo hi c h : x <> [] -> (0 < nb)%nat -> range_of x lo hi -> counts x nb lo hi c -> length h = nb ->
  (forall i, (i < nb)%nat -> nth i h 0 = INR (nth i c 0%nat) / ((hi - lo) / INR nb) / INR (length x)) ->
  fold_right Rplus 0 (map (fun v => v * ((hi - lo) / INR nb)) h) = 1.
Proof.
  intros Hx Hn Hr Hc Hl Hh. pose proof (range_lt x lo hi Hr) as Hlt. pose proof (width_pos lo hi nb Hn Hlt) as Hw.
  assert (list_sum c = length x) as Ht by (apply (counts_total x nb lo hi c Hn Hlt (fun v => range_in x lo hi v Hr) Hc)).
  assert (0 < INR (length x)) as Hp by (apply lt_0_INR; destruct x; [congruence|cbn; lia]).
  assert (map (fun v => v * ((hi - lo) / INR nb)) h = map (fun k => INR k / INR (length x)) c) as ->.
  { apply (nth_ext _ _ 0 0); [rewrite !map_length, Hl; symmetry; exact (proj1 Hc)|]. intros i Hi. rewrite map_length, Hl in Hi.
    rewrite (nth_indep _ 0 (0 * ((hi - lo) / INR nb))) by (rewrite map_length, Hl; exact Hi). rewrite (map_nth (fun v => v * ((hi - lo) / INR nb))).
    rewrite (nth_indep (map _ c) 0 (INR 0 / INR (length x))) by (rewrite map_length, (proj1 Hc); exact Hi). rewrite (map_nth (fun k => INR k / INR (length x))).
    rewrite Hh by exact Hi. set (w := (hi - lo) / INR nb) in *. field. split; lra. }
  assert (forall l, fold_right Rplus 0 (map (fun k => INR k / INR (length x)) l) = INR (list_sum l) / INR (length x)) as S.
  { induction l as [|k l IH]; [cbn; field; lra|]. change (list_sum (k :: l)) with (k + list_sum l)%nat. cbn [map fold_right]. rewrite IH, plus_INR. field. lra. }
  rewrite S, Ht. field. lra.
Qed.

Theorem plot_1dpdf_ok (d : dict AX) k (m : list (list R)) c : dget d k = Some (V2 AX (map (map Fin) m)) -> m <> [] ->
  (forall row, In row m -> length row = c) ->
  exists l, plot_1dpdf d k = Ok (Some l) /\ length l = c /\ forall i he, nth_error l i = Some he -> exists lo hi cs h,
    he = (map Fin h, edges_of lo hi 50) /\ range_of (rcolumn m i) lo hi /\ counts (rcolumn m i) 50 lo hi cs /\ length h = 50%nat /\
    (forall j, (j < 50)%nat -> nth j h 0 = INR (nth j cs 0%nat) / ((hi - lo) / 50) / INR (length m)) /\
    fold_right Rplus 0 (map (fun v => v * ((hi - lo) / 50)) h) = 1.
Proof.
  intros Hd Hm Hc. unfold plot_1dpdf. rewrite Hd. rewrite (ncols_ok m c Hm Hc). cbn [bind].
  match goal with |- context [rmap ?h (seq 0 c)] => set (g := h) end.
  set (P := fun i (he : list xr * list xr) => exists lo hi cs h,
    he = (map Fin h, edges_of lo hi 50) /\ range_of (rcolumn m i) lo hi /\ counts (rcolumn m i) 50 lo hi cs /\ length h = 50%nat /\
    (forall j, (j < 50)%nat -> nth j h 0 = INR (nth j cs 0%nat) / ((hi - lo) / 50) / INR (length m)) /\
    fold_right Rplus 0 (map (fun v => v * ((hi - lo) / 50)) h) = 1).
  assert (forall i, (i < c)%nat -> exists he, g i = Ok he /\ P i he) as Hg.
  { intros i Hi. pose proof (rcolumn_ne m i Hm) as Hx. destruct (plt_hist_ok (rcolumn m i) 50 true Hx ltac:(lia)) as (lo & hi & cs & h & E & Hr & Hcs & Hl & Hh).
    pose proof (density_area (rcolumn m i) 50 lo hi cs h Hx ltac:(lia) Hr Hcs Hl Hh) as Ha.
    replace (INR 50) with 50 in * by (cbn; lra). rewrite rcolumn_len in Hh.
    eexists. split; [unfold g; rewrite (real_column_ok m c i Hc Hi); cbn [bind]; exact E|]. exists lo, hi, cs, h. repeat split; try assumption; exact (proj1 Hcs) || apply Hcs. }
  assert (forall l, (forall i, In i l -> (i < c)%nat) -> exists ss, rmap g l = Ok ss /\ List.Forall2 P l ss) as G.
  { induction l as [|i l IH]; intros Hl; [exists []; split; [reflexivity|constructor]|].
    destruct IH as (ss & E & HF); [intros j Hj; apply Hl; right; exact Hj|]. destruct (Hg i (Hl i (or_introl eq_refl))) as (s & Es & Hs).
    exists (s :: ss). split; [|constructor; assumption]. cbn [rmap]. rewrite Es. cbn [bind]. rewrite E. reflexivity. }
  destruct (G (seq 0 c) ltac:(intros i Hi; apply in_seq in Hi; lia)) as (ss & E & HF). change (F AX) with xr in *. rewrite E. cbn [bind]. exists ss. split; [reflexivity|].
  pose proof (F2_len HF) as L. rewrite seq_length in L. split; [congruence|].
  intros i he Es. assert (i < length ss)%nat as Hi by (apply nth_error_Some; congruence).
  pose proof (nth_F2 _ _ _ 0%nat he i HF ltac:(rewrite seq_length; lia)) as K. rewrite seq_nth in K by lia. cbn [Nat.add] in K. rewrite (nth_error_nth _ _ _ Es) in K. exact K.
Qed.

(** ** plot_2dpdf *)
(** the column a Python index means *)
Definition col_index (c : nat) (i : Z) : nat := Z.to_nat (i mod Z.of_nat c).
Lemma pyindex_ok c i : (- Z.of_nat c <= i < Z.of_nat c)%Z -> pyindex c i = Ok (col_index c i) /\ (col_index c i < c)%nat.
Proof.
  intro H. unfold pyindex, col_index. replace ((i <? - Z.of_nat c) || (Z.of_nat c <=? i))%Z with false.
  2:{ symmetry. apply orb_false_iff. split; [apply Z.ltb_ge|apply Z.leb_gt]; lia. }
  assert (0 <= i mod Z.of_nat c < Z.of_nat c)%Z as Hm by (apply Z.mod_pos_bound; lia).
  split; [|lia]. f_equal. f_equal. destruct (Z.ltb_spec i 0).
  - symmetry. rewrite <- (Z.mod_small (i + Z.of_nat c) (Z.of_nat c)) by lia. rewrite <- (Z_mod_plus_full i 1 (Z.of_nat c)). f_equal. lia.
  - symmetry. apply Z.mod_small. lia.
Qed.
Lemma two_columns_ok (d : dict AX) k1 k2 (m1 m2 : list (list R)) c1 c2 i1 i2 :
  dget d k1 = Some (V2 AX (map (map Fin) m1)) -> dget d k2 = Some (V2 AX (map (map Fin) m2)) -> m1 <> [] -> m2 <> [] ->
  (forall row, In row m1 -> length row = c1) -> (forall row, In row m2 -> length row = c2) ->
  (- Z.of_nat c1 <= i1 < Z.of_nat c1)%Z -> (- Z.of_nat c2 <= i2 < Z.of_nat c2)%Z ->
  two_columns d k1 k2 i1 i2 = Ok (Some (map Fin (rcolumn m1 (col_index c1 i1)), map Fin (rcolumn m2 (col_index c2 i2)))).
Proof.
  intros Hd1 Hd2 Hm1 Hm2 Hc1 Hc2 Hi1 Hi2. unfold two_columns. rewrite Hd1, Hd2, (ncols_ok m1 c1 Hm1 Hc1). cbn [bind].
  replace (Z.of_nat c1 <=? i1)%Z with false by (symmetry; apply Z.leb_gt; lia). rewrite (ncols_ok m2 c2 Hm2 Hc2). cbn [bind].
  replace (Z.of_nat c2 <=? i2)%Z with false by (symmetry; apply Z.leb_gt; lia).
  destruct (pyindex_ok c1 i1 Hi1) as [-> L1]. destruct (pyindex_ok c2 i2 Hi2) as [-> L2]. cbn [bind].
  rewrite (real_column_ok m1 c1 _ Hc1 L1), (real_column_ok m2 c2 _ Hc2 L2). reflexivity.
Qed.
Theorem plot_2dpdf_ok (d : dict AX) k1 k2 (m1 m2 : list (list R)) c1 c2 i1 i2 :
  dget d k1 = Some (V2 AX (map (map Fin) m1)) -> dget d k2 = Some (V2 AX (map (map Fin) m2)) -> m1 <> [] -> length m2 = length m1 ->
  (forall row, In row m1 -> length row = c1) -> (forall row, In row m2 -> length row = c2) ->
  (- Z.of_nat c1 <= i1 < Z.of_nat c1)%Z -> (- Z.of_nat c2 <= i2 < Z.of_nat c2)%Z ->
  exists pts h1 e1 h2 e2, plot_2dpdf d k1 k2 i1 i2 = Ok (Some (pts, (h1, e1), (h2, e2))) /\
    pts = map (fun p => (Fin (fst p), Fin (snd p))) (combine (rcolumn m1 (col_index c1 i1)) (rcolumn m2 (col_index c2 i2))) /\
    (exists lo hi c, range_of (rcolumn m1 (col_index c1 i1)) lo hi /\ counts (rcolumn m1 (col_index c1 i1)) 100 lo hi c /\
       e1 = edges_of lo hi 100 /\ h1 = map (fun k => Fin (INR k)) c) /\
    (exists lo hi c, range_of (rcolumn m2 (col_index c2 i2)) lo hi /\ counts (rcolumn m2 (col_index c2 i2)) 100 lo hi c /\
       e2 = edges_of lo hi 100 /\ h2 = map (fun k => Fin (INR k)) c).
Proof.
  intros Hd1 Hd2 Hm1 Hl Hc1 Hc2 Hi1 Hi2. assert (m2 <> []) as Hm2 by (intros ->; destruct m1; [congruence|discriminate]).
  assert (forall x : list R, x <> [] -> exists h e, plt_hist AX (map Fin x) 100 false = Ok (h, e) /\ exists lo hi c, range_of x lo hi /\ counts x 100 lo hi c /\
       e = edges_of lo hi 100 /\ h = map (fun k => Fin (INR k)) c) as HH.
  { intros x Hx. destruct (plt_hist_ok x 100 false Hx ltac:(lia)) as (lo & hi & c & h & E & Hr & Hc & Hlh & Hh). eexists _, _. split; [exact E|]. exists lo, hi, c. repeat split; try assumption; try apply Hc.
    rewrite <- (map_map INR Fin). f_equal. apply (nth_ext _ _ 0 0); [rewrite map_length, Hlh; symmetry; apply Hc|]. intros i Hi. rewrite Hlh in Hi. rewrite Hh by exact Hi.
    rewrite (nth_indep (map INR c) 0 (INR 0)) by (rewrite map_length, (proj1 Hc); exact Hi). now rewrite (map_nth INR). }
  destruct (HH _ (rcolumn_ne m1 (col_index c1 i1) Hm1)) as (h1 & e1 & E1 & H1). destruct (HH _ (rcolumn_ne m2 (col_index c2 i2) Hm2)) as (h2 & e2 & E2 & H2).
  unfold plot_2dpdf. rewrite (two_columns_ok d k1 k2 m1 m2 c1 c2 i1 i2 Hd1 Hd2 Hm1 Hm2 Hc1 Hc2 Hi1 Hi2). cbn [bind].
  rewrite !map_length, !rcolumn_len, Hl, Nat.eqb_refl. cbn [negb]. change (F AX) with xr in *. rewrite E1. cbn [bind]. change (F AX) with xr in *. rewrite E2. cbn [bind].
  eexists _, h1, e1, h2, e2. split; [reflexivity|]. split; [|split; assumption].
  generalize (rcolumn m1 (col_index c1 i1)) (rcolumn m2 (col_index c2 i2)). clear. induction l as [|a l IH]; intros [|b l']; try reflexivity. cbn [map combine]. rewrite IH. reflexivity.
Qed.

(** ** plot_parameter *)
Theorem plot_parameter_ok (acor : list (F AX) -> res (F AX)) (d : dict AX) k (pindex : Z) (x : list R) tau :
  (dget d k = Some (V1 AX (map Fin x)) \/
   exists m c, dget d k = Some (V2 AX (map (map Fin) m)) /\ (forall row, In row m -> length row = c) /\
     (- Z.of_nat c <= pindex < Z.of_nat c)%Z /\ x = rcolumn m (col_index c pindex)) ->
  (2 <= length x)%nat -> acor (map Fin x) = Ok (Fin tau : F AX) ->
  exists p lo hi c, plot_parameter acor d k pindex = Ok (Some p) /\ sp_trace p = map Fin x /\
    range_of x lo hi /\ counts x 25 lo hi c /\ bars_of 25 lo hi c (34 / 100 * INR (length x)) (sp_bars p) /\
    acf_out (centred x) (length x - 1) (sp_acf p) /\ sp_xmax p = Fin (Rmin (5 * tau) (INR (length x))).
Proof.
  intros Hd Hn Ha. assert (x <> []) as Hx by (intros ->; cbn in Hn; lia).
  destruct (hist_bars_Fin x 25 (34 / 100) (INR (length x)) Hx ltac:(lia)) as (lo & hi & c & bars & Eb & Hr & Hc & Hb).
  destruct (plt_acorr_Fin (centred x) (length x - 1) ltac:(lia) ltac:(unfold centred; rewrite map_length; lia)) as (a & Ea & Hacf).
  assert (map (fun v => fsub AX v (vmean AX (map Fin x))) (map Fin x) = map Fin (centred x)) as E2.
  { rewrite vmean_Fin by exact Hx. unfold centred. rewrite !map_map. reflexivity. }
  assert (timescales acor (V2 AX (map (fun v => [v]) (map Fin x))) = Ok [Fin tau]) as Et.
  { cbn [timescales]. change (F AX) with xr in *. assert (length (hd [] (map (fun v : xr => [v]) (map Fin x))) = 1%nat) as -> by (destruct x; [congruence|reflexivity]).
    cbn [seq rmap]. assert (column AX (map (fun v : xr => [v]) (map Fin x)) 0 = Ok (map Fin x)) as ->.
    { unfold column. rewrite map_map. apply rmap_map. reflexivity. }
    cbn [bind]. change (F AX) with xr in *. rewrite Ha. reflexivity. }
  assert (forall p, p = @mkSP AX (map Fin x) bars a (Fin (Rmin (5 * tau) (INR (length x)))) ->
    (x0 <- Ok (map Fin x) ;; (let n := List.length x0 in
     '(bars, _) <- hist_bars AX x0 25 (fdec AX 34 100) (fofZ AX (Z.of_nat n)) ;;
     acf <- plt_acorr AX (map (fun v => fsub AX v (vmean AX x0)) x0) (n - 1) ;;
     ts <- timescales acor (V2 AX (map (fun v => [v]) x0)) ;;
     t <- vget ts 0 ;;
     xmax <- vmin AX [fmul AX (fofZ AX 5) t; fofZ AX (Z.of_nat n)] ;;
     Ok (Some (@mkSP AX x0 bars acf xmax)))) = Ok (Some p)) as Q.
  { intros p ->. cbn [bind]. cbv zeta. rewrite map_length. cbn [fofZ AX]. rewrite <- INR_IZR_INZ.
    change (fdec AX 34 100) with (Fin (34 / 100)). change (F AX) with xr in *. rewrite Eb. cbn [bind]. rewrite E2. rewrite Ea. cbn [bind]. rewrite Et. cbn [bind vget nth_error].
    change (fmul AX (Fin 5) (Fin tau)) with (Fin (5 * tau)).
    destruct (vmin_ok [5 * tau; INR (length x)] ltac:(discriminate)) as (mn & Em & Hin & Hmin). cbn [map] in Em. change (F AX) with xr in *. rewrite Em. cbn [bind].
    do 3 f_equal. f_equal. pose proof (Hmin (5 * tau) (or_introl eq_refl)) as M1. pose proof (Hmin (INR (length x)) (or_intror (or_introl eq_refl))) as M2. destruct Hin as [<- | [<- | []]]; [now rewrite Rmin_left|now rewrite Rmin_right]. }
  eexists _, lo, hi, c. split; [|split; [|split; [exact Hr|split; [exact Hc|split; [|split]]]]].
  - unfold plot_parameter. destruct Hd as [Hd | (m & cc & Hd & Hrow & Hi & Ex)].
    + rewrite Hd. apply Q. reflexivity.
    + rewrite Hd. assert (m <> []) as Hm by (intros ->; rewrite Ex in Hx; now apply Hx).
      rewrite (ncols_ok m cc Hm Hrow). cbn [bind]. destruct (pyindex_ok cc pindex Hi) as [-> L]. cbn [bind].
      rewrite (real_column_ok m cc _ Hrow L). rewrite <- Ex. apply Q. reflexivity.
  - reflexivity.
  - exact Hb.
  - exact Hacf.
  - reflexivity.
Qed.

(** the bars are half a bin too low: none reaches the largest value, and the lowest begins below the range *)
Theorem bars_low (x : list R) nb lo hi c scale (bars : list (bar AX)) : (0 < nb)%nat -> range_of x lo hi -> bars_of nb lo hi c scale bars ->
  (forall b u, In b bars -> b_hi b = Fin u -> u <= hi - (hi - lo) / INR nb / 2) /\
  (exists b, nth_error bars 0 = Some b /\ b_lo b = Fin (lo - (hi - lo) / INR nb / 2)).
Proof.
  intros Hn Hr [Hl Hb]. pose proof (range_lt x lo hi Hr) as Hlt. pose proof (width_pos lo hi nb Hn Hlt) as Hw. split.
  - intros b u Hin Hu. apply In_nth_error in Hin. destruct Hin as (i & Ei).
    assert (i < nb)%nat as Hi by (rewrite <- Hl; apply nth_error_Some; congruence). destruct (Hb i Hi) as (w & -> & Eb). rewrite Eb in Ei. injection Ei as <-.
    cbn [b_hi] in Hu. injection Hu as <-. pose proof (edge_le lo hi nb (S i) nb Hn Hlt ltac:(lia)) as He. rewrite edge_step, edge_last in He by exact Hn. lra.
  - destruct (Hb 0%nat Hn) as (w & -> & Eb). eexists. split; [exact Eb|]. cbn [b_lo]. now rewrite edge_0.
Qed.

(** ** Bisection *)
Definition tol (x : R) : R := 2 / 1000000000000 + 4 * (1 / 4503599627370496) * Rabs x.
Lemma tol_pos x : 2 / 1000000000000 <= tol x.
Proof. unfold tol. pose proof (Rabs_pos x). nra. Qed.

Section Bisect.
Variable f : F AX -> F AX.
Variable g : R -> R.
Hypothesis Hf : forall l, f (Fin l) = Fin (g l).

(** one step, over the reals *)
Lemma loop_step n xa dm : bisect_loop AX f false (S n) (Fin xa) (Fin dm) =
  (let xm := xa + dm / 2 in
   if Req_EM_T (g xm) 0 then Ok (Fin xm) else if Rlt_dec (Rabs (dm / 2)) (tol xm) then Ok (Fin xm)
   else bisect_loop AX f false n (if Rlt_dec (g xm) 0 then Fin xa else Fin xm) (Fin (dm / 2))).
Proof.
  cbn [bisect_loop]. cbv zeta.
  assert (fmul AX (Fin dm) (fdec AX 5 10) = Fin (dm / 2)) as -> by (cbn; f_equal; lra).
  assert (fadd AX (Fin xa) (Fin (dm / 2)) = Fin (xa + dm / 2)) as -> by reflexivity. rewrite Hf.
  change (fofZ AX 0) with (Fin 0). change (feq AX (Fin (g (xa + dm / 2))) (Fin 0)) with (if Req_EM_T (g (xa + dm / 2)) 0 then true else false).
  change (fabs AX (Fin (dm / 2))) with (Fin (Rabs (dm / 2))). change (fabs AX (Fin (xa + dm / 2))) with (Fin (Rabs (xa + dm / 2))).
  assert (fadd AX (fdec AX 2 1000000000000) (fmul AX (fmul AX (fofZ AX 4) (fdec AX 1 4503599627370496)) (Fin (Rabs (xa + dm / 2)))) = Fin (tol (xa + dm / 2))) as -> by reflexivity.
  assert (forall a b, flt AX (Fin a) (Fin b) = if Rlt_dec a b then true else false) as L by (intros a b; cbn; destruct (Rlt_dec a b); reflexivity).
  rewrite !L. destruct (Req_EM_T (g (xa + dm / 2)) 0); [reflexivity|]. cbn [orb]. destruct (Rlt_dec (Rabs (dm / 2)) (tol (xa + dm / 2))); [reflexivity|].
  destruct (Rlt_dec (g (xa + dm / 2)) 0); reflexivity.
Qed.

Lemma loop_spec n : forall xa dm v, 0 < dm -> 0 < g xa -> g (xa + dm) < 0 -> bisect_loop AX f false n (Fin xa) (Fin dm) = Ok v ->
  exists L, v = Fin L /\ xa <= L <= xa + dm /\ exists l u, xa <= l /\ l <= L <= u /\ u <= xa + dm /\ u - l <= 2 * tol L /\ 0 <= g l /\ g u <= 0.
Proof.
  induction n as [|n IH]; intros xa dm v Hd Hxa Hxb; [discriminate|]. rewrite loop_step. cbv zeta. set (xm := xa + dm / 2).
  pose proof (tol_pos xm) as Ht.
  destruct (Req_EM_T (g xm) 0) as [E|N].
  - intro H. injection H as <-. exists xm. split; [reflexivity|]. split; [unfold xm; lra|]. exists xm, xm. unfold xm in *. repeat split; lra.
  - destruct (Rlt_dec (Rabs (dm / 2)) (tol xm)) as [T|T].
    + rewrite Rabs_pos_eq in T by lra. intro H. injection H as <-. exists xm. split; [reflexivity|]. split; [unfold xm; lra|].
      exists xa, (xa + dm). unfold xm in *. repeat split; lra.
    + destruct (Rlt_dec (g xm) 0) as [S|S].
      * intro H. destruct (IH xa (dm / 2) v ltac:(lra) Hxa S H) as (L & -> & HL & l & u & H1 & H2 & H3 & H4 & H5 & H6). exists L. split; [reflexivity|]. split; [lra|].
        exists l, u. repeat split; lra.
      * intro H. unfold xm in *. destruct (IH (xa + dm / 2) (dm / 2) v ltac:(lra) ltac:(lra) ltac:(replace (xa + dm / 2 + dm / 2) with (xa + dm) by lra; exact Hxb) H) as (L & -> & HL & l & u & H1 & H2 & H3 & H4 & H5 & H6).
        exists L. split; [reflexivity|]. split; [lra|]. exists l, u. repeat split; lra.
Qed.
Lemma loop_conv n : forall xa dm, 0 < dm -> dm < 2 ^ n * (2 / 1000000000000) -> (0 < n)%nat -> exists v, bisect_loop AX f false n (Fin xa) (Fin dm) = Ok v.
Proof.
  induction n as [|n IH]; intros xa dm Hd Hn Hp; [lia|]. rewrite loop_step. cbv zeta. destruct (Req_EM_T (g (xa + dm / 2)) 0); [eexists; reflexivity|].
  destruct (Rlt_dec (Rabs (dm / 2)) (tol (xa + dm / 2))) as [T|T]; [eexists; reflexivity|].
  pose proof (tol_pos (xa + dm / 2)). rewrite Rabs_pos_eq in T by lra. cbn [pow] in Hn. destruct n as [|n]; [cbn [pow] in Hn; lra|].
  destruct (Rlt_dec (g (xa + dm / 2)) 0); apply IH; (lra || lia).
Qed.
End Bisect.

(** a smaller function has a smaller zero *)
Lemma loop_mono f1 g1 f2 g2 : (forall l, f1 (Fin l : F AX) = Fin (g1 l)) -> (forall l, f2 (Fin l : F AX) = Fin (g2 l)) -> (forall l, g1 l <= g2 l) ->
  forall n xa dm L1 L2, 0 < dm -> 0 < g1 xa -> 0 < g2 xa -> g1 (xa + dm) < 0 -> g2 (xa + dm) < 0 ->
  bisect_loop AX f1 false n (Fin xa) (Fin dm) = Ok (Fin L1) -> bisect_loop AX f2 false n (Fin xa) (Fin dm) = Ok (Fin L2) -> L1 <= L2.
Proof.
  intros H1 H2 Hg. induction n as [|n IH]; intros xa dm L1 L2 Hd Ha1 Ha2 Hb1 Hb2; [discriminate|].
  rewrite (loop_step f1 g1 H1), (loop_step f2 g2 H2). cbv zeta. set (xm := xa + dm / 2). pose proof (Hg xm) as Hm.
  assert (forall f g (Hf : forall l, f (Fin l : F AX) = Fin (g l)) L, 0 < g xa -> g xm < 0 -> bisect_loop AX f false n (Fin xa) (Fin (dm / 2)) = Ok (Fin L) -> L <= xm) as Lo.
  { intros f g Hf L A B E. unfold xm in *. destruct (loop_spec f g Hf n xa (dm / 2) (Fin L) ltac:(lra) A B E) as (L' & Q & HL & _). injection Q as ->. lra. }
  assert (forall f g (Hf : forall l, f (Fin l : F AX) = Fin (g l)) L, 0 < g xm -> g (xa + dm) < 0 -> bisect_loop AX f false n (Fin xm) (Fin (dm / 2)) = Ok (Fin L) -> xm <= L) as Hi.
  { intros f g Hf L A B E. unfold xm in *. destruct (loop_spec f g Hf n (xa + dm / 2) (dm / 2) (Fin L) ltac:(lra) A ltac:(replace (xa + dm / 2 + dm / 2) with (xa + dm) by lra; exact B) E) as (L' & Q & HL & _). injection Q as ->. lra. }
  destruct (Req_EM_T (g1 xm) 0) as [E1|N1]; destruct (Req_EM_T (g2 xm) 0) as [E2|N2].
  - intros Q1 Q2. injection Q1 as <-. injection Q2 as <-. lra.
  - intros Q1. injection Q1 as <-. destruct (Rlt_dec (Rabs (dm / 2)) (tol xm)); [intro Q2; injection Q2 as <-; lra|].
    destruct (Rlt_dec (g2 xm) 0); [lra|]. intro Q2. apply (Hi f2 g2 H2 L2 ltac:(lra) Hb2 Q2).
  - intros Q1 Q2. injection Q2 as <-. destruct (Rlt_dec (Rabs (dm / 2)) (tol xm)); [injection Q1 as <-; lra|].
    destruct (Rlt_dec (g1 xm) 0); [|lra]. apply (Lo f1 g1 H1 L1 Ha1 ltac:(lra) Q1).
  - destruct (Rlt_dec (Rabs (dm / 2)) (tol xm)).
    + intros Q1 Q2. injection Q1 as <-. injection Q2 as <-. lra.
    + destruct (Rlt_dec (g1 xm) 0) as [S1|S1]; destruct (Rlt_dec (g2 xm) 0) as [S2|S2]; intros Q1 Q2.
      * apply (IH xa (dm / 2) L1 L2 ltac:(lra) Ha1 Ha2 S1 S2 Q1 Q2).
      * apply Rle_trans with xm; [apply (Lo f1 g1 H1 L1 Ha1 S1 Q1) | apply (Hi f2 g2 H2 L2 ltac:(lra) Hb2 Q2)].
      * lra.
      * unfold xm in *. apply (IH (xa + dm / 2) (dm / 2) L1 L2); try assumption; try lra; replace (xa + dm / 2 + dm / 2) with (xa + dm) by lra; assumption.
Qed.
(** functions with the same signs have the same zero *)
Lemma loop_same f1 g1 f2 g2 : (forall l, f1 (Fin l : F AX) = Fin (g1 l)) -> (forall l, f2 (Fin l : F AX) = Fin (g2 l)) ->
  forall n xa dm, 0 < dm -> (forall l, xa <= l <= xa + dm -> g1 l <> 0 /\ g2 l <> 0 /\ (g1 l < 0 <-> g2 l < 0)) ->
  bisect_loop AX f1 false n (Fin xa) (Fin dm) = bisect_loop AX f2 false n (Fin xa) (Fin dm).
Proof.
  intros H1 H2. induction n as [|n IH]; intros xa dm Hd Hs; [reflexivity|]. rewrite (loop_step f1 g1 H1), (loop_step f2 g2 H2). cbv zeta.
  destruct (Hs (xa + dm / 2) ltac:(lra)) as (N1 & N2 & S). destruct (Req_EM_T (g1 (xa + dm / 2)) 0); [contradiction|]. destruct (Req_EM_T (g2 (xa + dm / 2)) 0); [contradiction|].
  destruct (Rlt_dec (Rabs (dm / 2)) (tol (xa + dm / 2))); [reflexivity|].
  destruct (Rlt_dec (g1 (xa + dm / 2)) 0) as [S1|S1]; destruct (Rlt_dec (g2 (xa + dm / 2)) 0) as [S2|S2]; try tauto;
  (apply IH; [lra|]; intros l Hl; apply Hs; lra).
Qed.
