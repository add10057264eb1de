(** Proofs about PySampleModel: best fits, Car1Sample, summaries, samples read from a file. *)
From Coq Require Import List Arith ZArith Reals Lra Lia Permutation Bool String.
From Coquelicot Require Import Coquelicot.
From Verif Require Import Arith Res ListLemmas KFModel KF1Proof KFpProof CholProof Spec Gauss Emb KF1R KF1X KF1Main KF1More OUpd SimProof InitProof Cx KFpModel SpecCarma CLin KFpX KFpMain KFpTop KFpMore SpecModel
  CarpackModel RootsProof PriorProof LogLikProof LogLikMain CarpackTop EngineModel StartModel PyModel PySim PyFuns PyDerive PyPredict PyExtra PyBox PyKFSim PySampleModel PyQuant PyPsd PySampleProof.
Import ListNotations.
Local Open Scope R_scope.
Local Open Scope string_scope.
Local Notation length := List.length.
Local Notation Forall2 := List.Forall2.

(** ** CarmaSample: one sample as best fit *)
Section Carma.
Variables (np_sort : list (F AX) -> list (F AX)) (csort : list (cx AX) -> list (cx AX)).
Variables (isreal : list (cx AX) -> bool) (p q : nat).
Hypothesis Hp : (2 <= p)%nat.
Hypothesis Hq : (q < p)%nat.
Variables (si : list (F AX) -> option (list nat)) (raw : kfp AX).
Hypothesis Hsi : valid_sort_index si.

Lemma vbuild_rows (D : list (drow AX)) :
  vbuild (length (map (fun d => d_var d) D)) (fun j => mkD (nth j (map (fun d => d_var d) D) (fofZ AX 0)) (nth j (map (fun d => d_scale d) D) (fofZ AX 0))
     (nth j (map (fun d => d_mu d) D) (fofZ AX 0)) (nth j (map (fun d => d_roots d) D) []) (nth j (map (fun d => d_ma d) D) []) (nth j (map (fun d => d_sigma d) D) (fofZ AX 0))) = D.
Proof.
  unfold vbuild. rewrite map_length. set (d0 := mkD (fofZ AX 0) (fofZ AX 0) (fofZ AX 0) [] [] (fofZ AX 0)).
  apply nth_ext with (d := d0) (d' := d0); [rewrite map_length, seq_length; reflexivity|]. intros j Hj. rewrite map_length, seq_length in Hj.
  set (f := fun j => _). rewrite (nth_indep _ d0 (f 0%nat)) by (rewrite map_length, seq_length; exact Hj). rewrite (map_nth f), seq_nth by exact Hj. unfold f. cbn [Nat.add].
  change (fofZ AX 0) with (d_var d0) at 1. rewrite (map_nth (fun d => d_var d)). change (fofZ AX 0) with (d_scale d0) at 1. rewrite (map_nth (fun d => d_scale d)).
  change (fofZ AX 0) with (d_mu d0) at 1. rewrite (map_nth (fun d => d_mu d)). change (@nil (cx AX)) with (d_roots d0) at 1. rewrite (map_nth (fun d => d_roots d)).
  change (@nil (F AX)) with (d_ma d0) at 1. rewrite (map_nth (fun d => d_ma d)). change (fofZ AX 0) with (d_sigma d0). rewrite (map_nth (fun d => d_sigma d)).
  destruct (nth j D d0). reflexivity.
Qed.

Variables (X Om : Type) (C : cls AX X Om) (b : base AX X) (fn : option (file AX)) (rows : list (list R)).
Hypothesis Hne : rows <> [].
Hypothesis Hok : forall th, In th rows -> row_ok p q th.

Lemma filter_fit (t y e : list R) (lp : list (F AX)) d i bf : length lp = length rows -> CarmaSample_new C b isreal q fn lp (map (map Fin) rows) = Ok d ->
  exists S, Forall2 (more isreal p q) rows S /\
    carma_sample_filter np_sort csort si raw (map Fin t) (map Fin y) (map Fin e) i bf d =
    carma_fit_filter np_sort csort si raw (map Fin t) (map Fin y) (map Fin e) i bf (map drow_of (combine rows S)) lp.
Proof.
  intros Hlp E. destruct (sample_inv isreal p q Hp Hq C b fn rows lp d Hne Hok Hlp E) as (S & ll & HS & ->). exists S. split; [exact HS|].
  set (D := map drow_of (combine rows S)). unfold carma_sample_filter.
  rewrite (scalars_col _ "var" (fun d => d_var d) D) by reflexivity. cbn [bind].
  rewrite (scalars_col _ "measerr_scale" (fun d => d_scale d) D) by reflexivity. cbn [bind].
  rewrite (scalars_col _ "mu" (fun d => d_mu d) D) by reflexivity. cbn [bind].
  rewrite (cvectors_ok _ "ar_roots" (map (fun d => d_roots d) D)) by reflexivity. cbn [bind].
  rewrite (vectors_ok _ "ma_coefs" (map (fun d => d_ma d) D)) by reflexivity. cbn [bind].
  rewrite (scalars_col _ "sigma" (fun d => d_sigma d) D) by reflexivity. cbn [bind].
  rewrite (scalars_col _ "logpost" (fun x => x) lp) by reflexivity. cbn [bind]. rewrite map_id, vbuild_rows. reflexivity.
Qed.

Lemma fit_one (t y e : list R) lp S i bf : Forall2 (more isreal p q) rows S -> (i < length rows)%nat ->
  carma_fit np_sort csort i bf (map drow_of (combine rows S)) lp =
    (let r := drow_of (nth i rows [], nth i S (0, [], [])) in Ok (fmul AX (d_sigma r) (d_sigma r), d_mu r, d_roots r, d_ma r)) ->
  strictly_increasing t -> (2 <= length t)%nat -> length y = length t -> length e = length t ->
  exists s sig om ma, let th := nth i rows [] in
    carma_fit_filter np_sort csort si raw (map Fin t) (map Fin y) (map Fin e) i bf (map drow_of (combine rows S)) lp = Ok (s, Fin (nth 2 th 0)) /\
    carma_params p q th sig om ma /\ holdsp s t (map (fun x => x - nth 2 th 0) y) e sig om ma /\ carma_ok sig om ma.
Proof.
  intros HS Hi Ef Hinc Ht Hy He. pose proof (nth_F2 (more isreal p q) rows S [] (0, [], []) i HS Hi) as (Hpar & _ & Hk & Hcc & _).
  destruct (nth i S (0, [], [])) as [[sg om] ms]. destruct Hpar as (Hpar & Hsg & Lom & Lms). cbn [fst snd] in *. set (th := nth i rows []) in *.
  destruct (carma_filter_Fin si raw t y e sg (nth 2 th 0) om ms Hsi Hinc Ht Hy He) as (s & Es & Hs). rewrite Lom, Lms in Hs.
  exists s, (sg * sg), om, (ms ++ repeat 0 (p - Datatypes.S q))%list. cbv zeta. fold th. split; [|split; [exact Hpar|split; [exact Hs|exact Hk]]].
  unfold carma_fit_filter. cbv zeta in Ef. rewrite Ef. cbn [bind drow_of d_sigma d_mu d_roots d_ma fst snd]. unfold carma_filter in Es.
  change (F AX) with xr in *. rewrite Es. reflexivity.
Qed.

Lemma nth_D S i : Forall2 (more isreal p q) rows S -> (i < length rows)%nat -> vget (map drow_of (combine rows S)) i = Ok (drow_of (nth i rows [], nth i S (0, [], []))).
Proof.
  intros HS Hi. pose proof (F2_len HS) as LS. rewrite vget_ok with (d := drow_of ([], (0, [], []))) by (rewrite map_length, combine_length; lia).
  rewrite map_nth, combine_nth by exact LS. reflexivity.
Qed.

Lemma CarmaSample_random_holds (t y e : list R) (lp : list (F AX)) d i bf : (bf = BRandom \/ bf = BOther) -> (i < length rows)%nat ->
  strictly_increasing t -> (2 <= length t)%nat -> length y = length t -> length e = length t ->
  length lp = length rows -> CarmaSample_new C b isreal q fn lp (map (map Fin) rows) = Ok d ->
  exists s sig om ma, let th := nth i rows [] in
    carma_sample_filter np_sort csort si raw (map Fin t) (map Fin y) (map Fin e) i bf d = Ok (s, Fin (nth 2 th 0)) /\
    carma_params p q th sig om ma /\ holdsp s t (map (fun x => x - nth 2 th 0) y) e sig om ma /\ carma_ok sig om ma.
Proof.
  intros Hbf Hi Hinc Ht Hy He Hlp E. destruct (filter_fit t y e lp d i bf Hlp E) as (S & HS & ->).
  destruct (fit_one t y e lp S i bf HS Hi) as (s & sig & om & ma & H); [|assumption..|].
  { unfold carma_fit. destruct Hbf as [-> | ->]; rewrite (nth_D S i HS Hi); reflexivity. }
  cbv zeta in H. destruct H as (Es & Hpar & Hs & Hk).
  exists s, sig, om, ma. cbv zeta. split; [exact Es|]. split; [exact Hpar|]. split; [exact Hs|exact Hk].
Qed.
(** 'random' (or a string that is not a best fit): the sample that was drawn *)
Theorem CarmaSample_random solve (t y e ts : list R) (lp : list (F AX)) d i bf : valid_solve solve -> (bf = BRandom \/ bf = BOther) -> (i < length rows)%nat ->
  strictly_increasing t -> (2 <= length t)%nat -> length y = length t -> length e = length t -> no_exact t e ts ->
  length lp = length rows -> CarmaSample_new C b isreal q fn lp (map (map Fin) rows) = Ok d ->
  exists s o sig om ma, let th := nth i rows [] in
    carma_sample_filter np_sort csort si raw (map Fin t) (map Fin y) (map Fin e) i bf d = Ok (s, Fin (nth 2 th 0)) /\
    py_predict (methodsp solve) s (Fin (nth 2 th 0) : F AX) (map Fin ts) = Ok (map (fun mv => (Fin (fst mv), Fin (snd mv))) o) /\
    carma_params p q th sig om ma /\ predictions (carma_cov sig ma om) t y e (nth 2 th 0) ts o.
Proof.
  intros Hsv Hbf Hi Hinc Ht Hy He Hnz Hlp E. destruct (CarmaSample_random_holds t y e lp d i bf Hbf Hi Hinc Ht Hy He Hlp E) as (s & sig & om & ma & H). cbv zeta in H. destruct H as (Es & Hpar & Hs & Hk).
  destruct (predictp_holds solve Hsv s t _ e _ om ma (nth 2 (nth i rows []) 0) ts Hs Hinc Hk Hnz) as (o & Eo & Ho).
  exists s, o, sig, om, ma. cbv zeta. split; [exact Es|]. split; [exact Eo|]. split; [exact Hpar|exact Ho].
Qed.
Lemma CarmaSample_map_holds (t y e lp : list R) d j : 
  strictly_increasing t -> (2 <= length t)%nat -> length y = length t -> length e = length t ->
  length lp = length rows -> CarmaSample_new C b isreal q fn (map Fin lp) (map (map Fin) rows) = Ok d ->
  exists i s sig om ma, first_max lp i /\ let th := nth i rows [] in
    carma_sample_filter np_sort csort si raw (map Fin t) (map Fin y) (map Fin e) j BMap d = Ok (s, Fin (nth 2 th 0)) /\
    carma_params p q th sig om ma /\ holdsp s t (map (fun x => x - nth 2 th 0) y) e sig om ma /\ carma_ok sig om ma.
Proof.
  intros Hinc Ht Hy He Hlp E. destruct (filter_fit t y e (map Fin lp) d j BMap ltac:(rewrite map_length; exact Hlp) E) as (S & HS & ->).
  destruct (np_argmax_Fin lp) as (i & Ei & Hm); [intros ->; destruct rows; [congruence|discriminate]|]. pose proof Hm as (Hi & _). rewrite Hlp in Hi.
  destruct (fit_one t y e (map Fin lp) S i BMap HS Hi) as (s & sig & om & ma & H); [|assumption..|].
  { unfold carma_fit. change (F AX) with xr in *. rewrite Ei. cbn [bind]. change (F AX) with xr in *. rewrite (nth_D S i HS Hi). reflexivity. }
  cbv zeta in H. destruct H as (Es & Hpar & Hs & Hk).
  exists i, s, sig, om, ma. split; [exact Hm|]. cbv zeta. split; [|split; [exact Hpar|split; [exact Hs|exact Hk]]].
  rewrite <- Es. unfold carma_fit_filter, carma_fit. reflexivity.
Qed.
(** 'map': the first sample of the largest log-posterior *)
Theorem CarmaSample_map solve (t y e ts lp : list R) d j : valid_solve solve ->
  strictly_increasing t -> (2 <= length t)%nat -> length y = length t -> length e = length t -> no_exact t e ts ->
  length lp = length rows -> CarmaSample_new C b isreal q fn (map Fin lp) (map (map Fin) rows) = Ok d ->
  exists i s o sig om ma, first_max lp i /\ let th := nth i rows [] in
    carma_sample_filter np_sort csort si raw (map Fin t) (map Fin y) (map Fin e) j BMap d = Ok (s, Fin (nth 2 th 0)) /\
    py_predict (methodsp solve) s (Fin (nth 2 th 0) : F AX) (map Fin ts) = Ok (map (fun mv => (Fin (fst mv), Fin (snd mv))) o) /\
    carma_params p q th sig om ma /\ predictions (carma_cov sig ma om) t y e (nth 2 th 0) ts o.
Proof.
  intros Hsv Hinc Ht Hy He Hnz Hlp E. destruct (CarmaSample_map_holds t y e lp d j Hinc Ht Hy He Hlp E) as (i & s & sig & om & ma & Hm & H). cbv zeta in H. destruct H as (Es & Hpar & Hs & Hk).
  destruct (predictp_holds solve Hsv s t _ e _ om ma (nth 2 (nth i rows []) 0) ts Hs Hinc Hk Hnz) as (o & Eo & Ho).
  exists i, s, o, sig, om, ma. split; [exact Hm|]. cbv zeta. split; [exact Es|]. split; [exact Eo|]. split; [exact Hpar|exact Ho].
Qed.
End Carma.

(** ** CarmaSample: medians and means of the columns as best fit *)
(** complex numbers are ordered by the real part, then by the imaginary part *)
Definition clex (a b : C) : Prop := fst a < fst b \/ (fst a = fst b /\ snd a <= snd b).
Definition valid_csort (csort : list (cx AX) -> list (cx AX)) : Prop :=
  forall l : list C, exists s, csort (map FinC l) = map FinC s /\ Permutation l s /\ forall i j, (i < j)%nat -> (j < length s)%nat -> clex (nth i s (RtoC 0)) (nth j s (RtoC 0)).

Lemma csum_cols (f : nat -> C) n : csum (fun i => FinC (f i) : cx AX) n = FinC (Csum f n).
Proof. apply FinC_sum. reflexivity. Qed.
Lemma Csum_neg (f : nat -> C) n : (0 < n)%nat -> (forall i, (i < n)%nat -> fst (f i) < 0) -> fst (Csum f n) < 0.
Proof.
  induction n as [|n IH]; intros H0 H; [lia|]. rewrite Csum_S. cbn [Cplus fst]. destruct n as [|n]; [cbn [Csum fst RtoC]; pose proof (H 0%nat ltac:(lia)); lra|].
  pose proof (IH ltac:(lia) ltac:(intros i Hi; apply H; lia)). pose proof (H (S n) ltac:(lia)). lra.
Qed.
Lemma median_pos (np_sort : list (F AX) -> list (F AX)) (l : list R) : valid_np_sort np_sort -> l <> [] -> (forall x, In x l -> 0 < x) -> exists m, np_median AX np_sort (map Fin l) = Fin m /\ 0 < m.
Proof.
  intros Hv Hne Hpos. destruct (sorted_list np_sort Hv l) as (s & E & Hpm & Hs). pose proof (median_ok np_sort Hv l Hne) as (m & Em & s' & Hpm' & Hs' & k & Hk & Hkh & Ev).
  exists m. split; [exact Em|].
  assert (forall i, (i < length s')%nat -> 0 < nth i s' 0) as H by (intros i Hi; apply Hpos, (Permutation_in _ (Permutation_sym Hpm')), nth_In, Hi).
  assert (Nat.min (k + 1) (length s' - 1) < length s')%nat as H1 by lia. pose proof (H k Hk) as Ha. pose proof (H _ H1) as Hb.
  rewrite Ev. set (a := nth k s' 0) in *. set (c := nth (Nat.min (k + 1) (length s' - 1)) s' 0) in *. set (h := INR (length l - 1) * (50 / 100)) in *.
  set (u := h - INR k). assert (0 <= u < 1) as Hu by (unfold u; lra). replace (a + u * (c - a)) with ((1 - u) * a + u * c) by ring.
  assert (0 < (1 - u) * a) by (apply Rmult_lt_0_compat; lra). assert (0 <= u * c) by (apply Rmult_le_pos; lra). lra.
Qed.
Lemma smean_pos (l : list R) : l <> [] -> (forall x, In x l -> 0 < x) -> 0 < smean l.
Proof.
  intros Hne H. unfold smean. apply Rdiv_lt_0_compat; [|apply lt_0_INR; destruct l; [congruence|cbn; lia]].
  assert (forall n, (0 < n <= length l)%nat -> 0 < Rsum (fun i => nth i l 0) n) as Hn.
  { induction n as [|n IH]; intros Hn; [lia|]. cbn [Rsum]. destruct n as [|n]; [cbn [Rsum]; pose proof (H (nth 0 l 0) ltac:(apply nth_In; lia)); lra|].
    pose proof (IH ltac:(lia)). pose proof (H (nth (S n) l 0) ltac:(apply nth_In; lia)). lra. }
  apply Hn. destruct l; [congruence|cbn; lia].
Qed.

(** the mean and the median of complex numbers *)
Definition cmean (l : list C) : C := (smean (map fst l), smean (map snd l)).
Definition cmedian_of (l : list C) (z : C) : Prop :=
  exists s, Permutation l s /\ (forall i j, (i < j)%nat -> (j < length s)%nat -> clex (nth i s (RtoC 0)) (nth j s (RtoC 0))) /\
    let n := length s in let a := nth (n / 2 - 1) s (RtoC 0) in let b := nth (n / 2) s (RtoC 0) in
    z = if Nat.odd n then b else ((fst a + fst b) / 2, (snd a + snd b) / 2).
Lemma cmedian_ok csort (l : list C) : valid_csort csort -> exists z, np_cmedian (A := AX) csort (map FinC l) = FinC z /\ cmedian_of l z.
Proof.
  intros Hv. destruct (Hv l) as (s & E & Hpm & Hs). eexists. split; [|exists s; split; [exact Hpm|split; [exact Hs|cbv zeta; reflexivity]]].
  unfold np_cmedian. rewrite E, map_length, !vnth_FinC. destruct (Nat.odd (length s)); [reflexivity|].
  unfold cdivr, cadd, FinC. cbn [fst snd]. f_equal; refine (fin_div _ _ _); cbn; lra.
Qed.
Lemma cmedian_neg (l : list C) z : l <> [] -> (forall x, In x l -> fst x < 0) -> cmedian_of l z -> fst z < 0.
Proof.
  intros Hne HP (s & Hpm & _ & Ez). cbv zeta in Ez. assert (0 < length s)%nat as H0. { rewrite <- (Permutation_length Hpm). destruct l; [congruence|cbn; lia]. }
  assert (forall i, (i < length s)%nat -> fst (nth i s (RtoC 0)) < 0) as Hs by (intros i Hi; apply HP, (Permutation_in _ (Permutation_sym Hpm)), nth_In, Hi).
  assert (length s / 2 < length s)%nat as H1 by (apply Nat.div_lt; lia). pose proof (Hs _ H1). pose proof (Hs (length s / 2 - 1)%nat ltac:(lia)).
  destruct (Nat.odd (length s)); rewrite Ez; [assumption|cbn [fst]; lra].
Qed.
Lemma Csum_parts (l : list C) n : (n <= length l)%nat -> Csum (fun i => nth i l (RtoC 0)) n = (Rsum (fun i => nth i (map fst l) 0) n, Rsum (fun i => nth i (map snd l) 0) n).
Proof.
  induction n as [|n IH]; intros Hn; [reflexivity|]. rewrite Csum_S, IH by lia. cbn [Rsum]. unfold Cplus. cbn [fst snd].
  f_equal; f_equal; [change 0 with (fst (RtoC 0)) at 2|change 0 with (snd (RtoC 0)) at 2]; rewrite map_nth; reflexivity.
Qed.
Lemma cmean_neg (l : list C) : l <> [] -> (forall x, In x l -> fst x < 0) -> fst (cmean l) < 0.
Proof.
  intros Hne H. assert (0 < smean (map Ropp (map fst l))) as Hp.
  { apply smean_pos; [destruct l; [congruence|discriminate]|]. intros x Hx. apply in_map_iff in Hx. destruct Hx as (y & <- & Hy). apply in_map_iff in Hy. destruct Hy as (z & <- & Hz).
    pose proof (H z Hz). lra. }
  cbn [cmean fst]. unfold smean in *. rewrite !map_length in Hp. rewrite map_length. assert (0 < INR (length l)) by (apply lt_0_INR; destruct l; [congruence|cbn; lia]).
  assert (forall n, (n <= length l)%nat -> Rsum (fun i => nth i (map Ropp (map fst l)) 0) n = - Rsum (fun i => nth i (map fst l) 0) n) as Hs.
  { induction n as [|n IH]; intros Hn; [cbn [Rsum]; ring|]. cbn [Rsum]. rewrite IH by lia. replace 0 with (Ropp 0) at 1 by ring. rewrite (map_nth Ropp). ring. }
  change (@List.length C l) with (@List.length (R * R) l) in *.   rewrite (Hs _ (Nat.le_refl _)) in Hp. unfold Rdiv in *. lra.
Qed.
Lemma choose_idx {T V} n (f : nat -> T) (P : nat -> V -> Prop) (h : V -> T) (d : V) : (forall k, (k < n)%nat -> exists z, f k = h z /\ P k z) ->
  exists l : list V, vbuild n f = map h l /\ length l = n /\ forall k, (k < n)%nat -> P k (nth k l d).
Proof.
  induction n as [|n IH]; intros H; [exists []; repeat split; intros k Hk; lia|].
  destruct IH as (om & E & L & HP); [intros k Hk; apply H; lia|]. destruct (H n ltac:(lia)) as (z & Ez & Hz).
  exists (om ++ [z])%list. split; [|split; [rewrite app_length; cbn; lia|]].
  - unfold vbuild in *. rewrite seq_S, !map_app, E. cbn [map Nat.add]. rewrite Ez. reflexivity.
  - intros k Hk. destruct (Nat.eq_dec k n) as [->|Hkn]; [rewrite app_nth2, L, Nat.sub_diag by lia; exact Hz|rewrite app_nth1 by lia; apply HP; lia].
Qed.

(** the documented best fits: each parameter is the median or the mean of its samples.  A sample is sigma, the roots, the moving average coefficients. *)
Definition carma_best (bf : bestfit) (p q : nat) (rows : list (list R)) (S : list (R * list C * list R)) (sigsqr mu : R) (om : list C) (ma : list R) : Prop :=
  length om = p /\ length ma = Datatypes.S q /\
  match bf with
  | BMedian => (exists m, percentile_of (map (fun s => fst (fst s)) S) 50 m /\ sigsqr = m * m) /\ percentile_of (map (fun th => nth 2 th 0) rows) 50 mu /\
      (forall k, (k < p)%nat -> cmedian_of (map (fun s => nth k (snd (fst s)) (RtoC 0)) S) (nth k om (RtoC 0))) /\
      (forall k, (k <= q)%nat -> percentile_of (map (fun s => nth k (snd s) 0) S) 50 (nth k ma 0))
  | _ => sigsqr = smean (map (fun s => fst (fst s) * fst (fst s)) S) /\ mu = smean (map (fun th => nth 2 th 0) rows) /\
      (forall k, (k < p)%nat -> nth k om (RtoC 0) = cmean (map (fun s => nth k (snd (fst s)) (RtoC 0)) S)) /\
      (forall k, (k <= q)%nat -> nth k ma 0 = smean (map (fun s => nth k (snd s) 0) S))
  end.

Section CarmaCols.
Variables (np_sort : list (F AX) -> list (F AX)) (csort : list (cx AX) -> list (cx AX)).
Hypothesis Hsort : valid_np_sort np_sort.
Hypothesis Hcsort : valid_csort csort.
Variables (p q : nat) (S : list (list R * (R * list C * list R))).
Hypothesis Hne : S <> [].
Hypothesis HS : forall x, In x S -> 0 < fst (fst (snd x)) /\ length (snd (fst (snd x))) = p /\ length (snd (snd x)) = Datatypes.S q /\ (forall z, In z (snd (fst (snd x))) -> fst z < 0).
Let D := map drow_of S.

Lemma len0 : match D with [] => 0%nat | r :: _ => length (d_roots r) end = p /\ match D with [] => 0%nat | r :: _ => length (d_ma r) end = Datatypes.S q.
Proof.
  unfold D. destruct S as [|x S']; [congruence|]. destruct (HS x (or_introl eq_refl)) as (_ & L1 & L2 & _).
  cbn [map drow_of d_roots d_ma]. rewrite !map_length. split; assumption.
Qed.
Theorem carma_fit_cols i bf lp : bf = BMedian \/ bf = BMean ->
  exists sig mu om ma, carma_fit np_sort csort i bf D lp = Ok (Fin sig : F AX, Fin mu, map FinC om, map Fin ma) /\
    carma_best bf p q (map fst S) (map snd S) sig mu om ma /\ 0 < sig /\ forall z, In z om -> fst z < 0.
Proof.
  intros Hbf. unfold carma_fit. destruct len0 as [E1 E2]. rewrite E1, E2. clear E1 E2.
  assert (map (fun r => d_sigma r) D = map Fin (map (fun x => fst (fst (snd x))) S)) as Esg by (unfold D; rewrite !map_map; reflexivity).
  assert (map (fun r => d_mu r) D = map Fin (map (fun x => nth 2 (fst x) 0) S)) as Emu by (unfold D; rewrite !map_map; reflexivity).
  assert (forall k, map (fun r => vnth (d_roots r) k) D = map FinC (map (fun x => nth k (snd (fst (snd x))) (RtoC 0)) S)) as Ert.
  { intros k. unfold D. rewrite !map_map. apply map_ext. intros x. apply vnth_FinC. }
  assert (forall k, map (fun r => nth k (d_ma r) (fofZ AX 0)) D = map Fin (map (fun x => nth k (snd (snd x)) 0) S)) as Ema.
  { intros k. unfold D. rewrite !map_map. apply map_ext. intros x. apply nthX. }
  assert (forall T (g : _ -> T), map g S <> []) as Hn by (intros T g E; apply map_eq_nil in E; contradiction).
  assert (forall k z, (k < p)%nat -> In z (map (fun x => nth k (snd (fst (snd x))) (RtoC 0)) S) -> fst z < 0) as Hneg.
  { intros k z Hk Hz. apply in_map_iff in Hz. destruct Hz as (x & <- & Hx). destruct (HS x Hx) as (_ & L & _ & Hng). apply Hng, nth_In. rewrite L. exact Hk. }
  assert (forall (om : list C) (P : C -> Prop), length om = p -> (forall k, (k < p)%nat -> P (nth k om (RtoC 0))) -> forall z, In z om -> P z) as Hall.
  { intros om P L H z Hz. apply (In_nth _ _ (RtoC 0)) in Hz. destruct Hz as (k & Hk & <-). apply H. lia. }
  destruct Hbf as [-> | ->].
  - destruct (median_pos np_sort (map (fun x => fst (fst (snd x))) S) Hsort (Hn _ _)) as (m & Em & Hm).
    { intros x Hx. apply in_map_iff in Hx. destruct Hx as (y & <- & Hy). apply (HS y Hy). }
    destruct (median_ok np_sort Hsort (map (fun x => fst (fst (snd x))) S) (Hn _ _)) as (m' & Em' & Hm'). pose proof (eq_trans (eq_sym Em) Em') as Q. injection Q as <-.
    destruct (median_ok np_sort Hsort (map (fun x => nth 2 (fst x) 0) S) (Hn _ _)) as (mu & Eu & Hmu).
    destruct (choose_idx p (fun k => np_cmedian csort (map (fun r => vnth (d_roots r) k) D)) (fun k z => cmedian_of (map (fun x => nth k (snd (fst (snd x))) (RtoC 0)) S) z) (FinC : C -> cx AX) (RtoC 0)) as (om & Eom & Lom & Hom).
    { intros k Hk. rewrite Ert. apply cmedian_ok, Hcsort. }
    destruct (choose_idx (Datatypes.S q) (fun k => np_median AX np_sort (map (fun r => nth k (d_ma r) (fofZ AX 0)) D)) (fun k v => percentile_of (map (fun x => nth k (snd (snd x)) 0) S) 50 v) Fin 0) as (ma & Em2 & Lm & Hma).
    { intros k Hk. rewrite Ema. apply (median_ok np_sort Hsort _ (Hn _ _)). }
    exists (m * m), mu, om, ma. split; [|split; [|split; [nra|]]].
    + cbv zeta. rewrite Eom, Em2, Esg, Emu. change (F AX) with xr in *. rewrite Em, Eu. reflexivity.
    + split; [exact Lom|]. split; [exact Lm|]. rewrite !map_map. split; [exists m; split; [exact Hm'|reflexivity]|]. split; [exact Hmu|].
      split; [intros k Hk; rewrite map_map; apply Hom, Hk|intros k Hk; rewrite map_map; apply Hma; lia].
    + apply (Hall om (fun z => fst z < 0) Lom). intros k Hk. apply (cmedian_neg (map (fun x => nth k (snd (fst (snd x))) (RtoC 0)) S)); [apply Hn|intros z; apply Hneg, Hk|apply Hom, Hk].
  - assert (map (fun r => fmul AX (d_sigma r) (d_sigma r)) D = map Fin (map (fun x => fst (fst (snd x)) * fst (fst (snd x))) S)) as Es2 by (unfold D; rewrite !map_map; reflexivity).
    destruct (choose_idx p (fun k => cdivr (csum (fun i => vnth (nth i (map (fun r => d_roots r) D) []) k) (length D)) (fofZ AX (Z.of_nat (length D)))) (fun k z => z = cmean (map (fun x => nth k (snd (fst (snd x))) (RtoC 0)) S)) (FinC : C -> cx AX) (RtoC 0)) as (om & Eom & Lom & Hom).
    { intros k Hk. eexists. split; [|reflexivity]. assert (length D = length S) as LD by (unfold D; apply map_length). rewrite LD.
      assert (0 < length S)%nat as H0 by (destruct S; [congruence|cbn; lia]). assert (0 < INR (length S)) as Hn0 by (apply lt_0_INR; exact H0).
      set (l := map (fun x => nth k (snd (fst (snd x))) (RtoC 0)) S). assert (length l = length S) as Ll by apply map_length.
      rewrite (FinC_sum _ (fun i => nth i l (RtoC 0))).
      - rewrite Csum_parts by lia. unfold cmean, smean. rewrite !map_length. change (@List.length (R * R) l) with (@List.length C l). rewrite Ll.
        unfold cdivr, FinC. cbn [fst snd]. f_equal; (refine (eq_trans (fin_div _ _ _) _); [cbn; rewrite IZR_nat; lra|cbn; rewrite IZR_nat; reflexivity]).
      - intros j Hj. unfold l, D. rewrite map_map. set (g := fun x => d_roots (drow_of x)).
        rewrite (nth_indep _ [] (g ([], (0, [], [])))) by (rewrite map_length; exact Hj). rewrite (map_nth g). unfold g. cbn [drow_of d_roots].
        rewrite vnth_FinC. set (x0 := ([], (0, [], [])) : list R * (R * list C * list R)).
        rewrite (nth_indep (map (fun x => nth k (snd (fst (snd x))) (RtoC 0)) S) (RtoC 0) ((fun x => nth k (snd (fst (snd x))) (RtoC 0)) x0)) by (rewrite map_length; exact Hj).
        rewrite (map_nth (fun x => nth k (snd (fst (snd x))) (RtoC 0))). reflexivity. }
    destruct (choose_idx (Datatypes.S q) (fun k => vmean AX (map (fun r => nth k (d_ma r) (fofZ AX 0)) D)) (fun k v => v = smean (map (fun x => nth k (snd (snd x)) 0) S)) Fin 0) as (ma & Em2 & Lm & Hma).
    { intros k Hk. rewrite Ema. eexists. split; [apply vmean_Fin, Hn|reflexivity]. }
    eexists _, _, om, ma. split; [|split; [|split]].
    + cbv zeta. unfold mean_roots. rewrite map_length, Eom, Em2, Es2, Emu. change (F AX) with xr. rewrite !vmean_Fin by apply Hn. reflexivity.
    + split; [exact Lom|]. split; [exact Lm|]. rewrite !map_map. split; [reflexivity|]. split; [reflexivity|].
      split; [intros k Hk; rewrite map_map; apply Hom, Hk|intros k Hk; rewrite map_map; apply Hma; lia].
    + apply smean_pos; [apply Hn|]. intros x Hx. apply in_map_iff in Hx. destruct Hx as (y & <- & Hy). destruct (HS y Hy) as (Hpos & _). nra.
    + apply (Hall om (fun z => fst z < 0) Lom). intros k Hk. rewrite (Hom k Hk). apply cmean_neg; [apply Hn|intros z; apply Hneg, Hk].
Qed.
End CarmaCols.

Lemma percentile_const (l : list R) c q v : (forall x, In x l -> x = c) -> percentile_of l q v -> v = c.
Proof.
  intros H (s & P & _ & k & Hk & _ & ->). assert (forall i, (i < length s)%nat -> nth i s 0 = c) as G by (intros i Hi; apply H, (Permutation_in _ (Permutation_sym P)), nth_In, Hi).
  rewrite !G by lia. ring.
Qed.
Lemma smean_const (l : list R) c : l <> [] -> (forall x, In x l -> x = c) -> smean l = c.
Proof.
  intros Hne H. unfold smean. assert (forall n, (n <= length l)%nat -> Rsum (fun i => nth i l 0) n = INR n * c) as Hs.
  { induction n as [|n IH]; intros Hn; [cbn [Rsum INR]; ring|]. cbn [Rsum]. rewrite IH, S_INR, (H (nth n l 0)) by (lia || (apply nth_In; lia)). ring. }
  rewrite Hs by lia. field. apply not_0_INR. destruct l; [congruence|discriminate].
Qed.
Lemma CarmaSample_cols_holds np_sort csort isreal p q (Hp : (2 <= p)%nat) (Hq : (q < p)%nat) (si : list (F AX) -> option (list nat)) (raw : kfp AX) {X Om} (Cl : cls AX X Om) (b : base AX X) (fn : option (file AX)) (rows : list (list R))
  (t y e : list R) (lp : list (F AX)) d i bf : valid_np_sort np_sort -> valid_csort csort -> valid_sort_index si -> (bf = BMedian \/ bf = BMean) ->
  rows <> [] -> (forall th, In th rows -> row_ok p q th) ->
  strictly_increasing t -> (2 <= length t)%nat -> length y = length t -> length e = length t -> 
  length lp = length rows -> CarmaSample_new Cl b isreal q fn lp (map (map Fin) rows) = Ok d ->
  exists S sig mu om ma s, Forall2 (row_par p q) rows S /\ carma_best bf p q rows S sig mu om ma /\ 0 < sig /\ (forall z, In z om -> fst z < 0) /\
    carma_sample_filter np_sort csort si raw (map Fin t) (map Fin y) (map Fin e) i bf d = Ok (s, Fin mu) /\
    (NoDup om -> conj_closed om -> holdsp s t (map (fun x => x - mu) y) e sig om (ma ++ repeat 0 (p - Datatypes.S q)) /\ carma_ok sig om (ma ++ repeat 0 (p - Datatypes.S q))).
Proof.
  intros Hsort Hcsort Hsi Hbf Hne Hok Hinc Ht Hy He Hlp E.
  destruct (filter_fit np_sort csort isreal p q Hp Hq si raw X Om Cl b fn rows Hne Hok t y e lp d i bf Hlp E) as (S & HS & EF). rewrite EF. clear EF. pose proof (F2_len HS) as LS.
  assert (forall x, In x (combine rows S) -> 0 < fst (fst (snd x)) /\ length (snd (fst (snd x))) = p /\ length (snd (snd x)) = Datatypes.S q /\ (forall z, In z (snd (fst (snd x))) -> fst z < 0)) as HC.
  { intros x Hx. apply (In_nth _ _ ([], (0, [], []))) in Hx. destruct Hx as (k & Hk & <-). rewrite combine_length in Hk. rewrite combine_nth by exact LS. cbn [fst snd].
    pose proof (nth_F2 _ rows S [] (0, [], []) k HS ltac:(lia)) as (Hpar & _ & _ & _ & Hng). destruct Hpar as (_ & Hsg & Lo & Lm). repeat split; assumption. }
  destruct (carma_fit_cols np_sort csort Hsort Hcsort p q (combine rows S)) with (i := i) (bf := bf) (lp := lp) as (sig & mu & om & ma & Ef & Hb & Hpos & Hng).
  { intros Ec. apply (f_equal (@length _)) in Ec. rewrite combine_length in Ec. destruct rows; [congruence|]. destruct S; [discriminate LS|discriminate Ec]. }
  { exact HC. } { exact Hbf. }
  rewrite (map_combine_snd (fun x => x)), map_id in Hb by exact LS.
  assert (map fst (combine rows S) = rows) as Efst.
  { clear - LS. revert S LS. induction rows as [|a r IH]; intros [|c S] L; try discriminate; [reflexivity|]. cbn. f_equal. apply IH. injection L as L. exact L. }
  rewrite Efst in Hb.
  destruct (carma_filter_Fin si raw t y e (sqrt sig) mu om ma Hsi Hinc Ht Hy He) as (s & Es & Hs). assert (sqrt sig * sqrt sig = sig) as Eq by (apply sqrt_sqrt; lra). rewrite Eq in Hs.
  pose proof Hb as (Lom & Lma & Hv). rewrite Lom, Lma in Hs.
  exists S, sig, mu, om, ma, s. split.
  { clear - HS. induction HS as [|th s rows S H HF IH]; constructor; [apply H|exact IH]. }
  split; [exact Hb|]. split; [exact Hpos|]. split; [exact Hng|]. split.
  { unfold carma_fit_filter. change (F AX) with xr in *. rewrite Ef. cbn [bind]. unfold carma_filter in Es. change (fmul AX (Fin (sqrt sig)) (Fin (sqrt sig))) with (Fin (sqrt sig * sqrt sig)) in Es. rewrite Eq in Es.
    change (F AX) with xr in *. rewrite Es. reflexivity. }
  intros Hnd Hcc. split; [exact Hs|].
  assert (forall x, In x (map (fun s => nth 0 (snd s) 0) S) -> x = 1) as H1.
  { intros x Hx. apply in_map_iff in Hx. destruct Hx as (s0 & <- & Hs0). apply (In_nth _ _ (0, [], [])) in Hs0. destruct Hs0 as (k & Hk & <-).
    pose proof (nth_F2 _ rows S [] (0, [], []) k HS ltac:(lia)) as (Hpar & _). destruct Hpar as ((_ & Em & _) & _ & _ & Lm).
    assert (k < length rows)%nat as Hk' by lia. destruct (Hok (nth k rows []) (nth_In _ _ Hk')) as (Lth & _). destruct (ExtractMA_carma_main p q (nth k rows []) Hq ltac:(lia)) as (ma' & Ema' & _ & H0 & _).
    pose proof (eq_trans (eq_sym Em) Ema') as Q. injection Q as Q. apply map_Fin_inj in Q. rewrite <- Q in H0. rewrite app_nth1 in H0 by lia. exact H0. }
  assert (nth 0 ma 0 = 1) as Hma.
  { destruct Hbf as [-> | ->]; destruct Hv as (_ & _ & _ & Hv).
    - eapply percentile_const; [exact H1|apply Hv; lia].
    - rewrite Hv by lia. apply smean_const; [|exact H1]. destruct rows; [congruence|]. destruct S; [discriminate LS|discriminate]. }
  split; [split; [exact Hnd|split; [exact Hng|intros z Hz; apply conj_closed_in; assumption]]|]. split; [lia|]. split; [rewrite app_length, repeat_length; lia|]. split; [|exact Hpos].
  exists 0%nat. rewrite app_nth1 by lia. lra.
Qed.
(** 'median' and 'mean': the filter is made from these parameters; if the roots are distinct and closed under conjugation, it predicts with them *)
Theorem CarmaSample_cols np_sort csort isreal p q (Hp : (2 <= p)%nat) (Hq : (q < p)%nat) (si : list (F AX) -> option (list nat)) (raw : kfp AX) {X Om} (Cl : cls AX X Om) (b : base AX X) (fn : option (file AX)) (rows : list (list R))
  solve (t y e : list R) (lp : list (F AX)) d i bf : valid_np_sort np_sort -> valid_csort csort -> valid_sort_index si -> valid_solve solve -> (bf = BMedian \/ bf = BMean) ->
  rows <> [] -> (forall th, In th rows -> row_ok p q th) ->
  strictly_increasing t -> (2 <= length t)%nat -> length y = length t -> length e = length t -> 
  length lp = length rows -> CarmaSample_new Cl b isreal q fn lp (map (map Fin) rows) = Ok d ->
  exists S sig mu om ma s, Forall2 (row_par p q) rows S /\ carma_best bf p q rows S sig mu om ma /\ 0 < sig /\ (forall z, In z om -> fst z < 0) /\
    carma_sample_filter np_sort csort si raw (map Fin t) (map Fin y) (map Fin e) i bf d = Ok (s, Fin mu) /\
    (NoDup om -> conj_closed om -> forall ts, no_exact t e ts -> exists o,
       py_predict (methodsp solve) s (Fin mu : F AX) (map Fin ts) = Ok (map (fun mv => (Fin (fst mv), Fin (snd mv))) o) /\
       predictions (carma_cov sig (ma ++ repeat 0 (p - Datatypes.S q)) om) t y e mu ts o).
Proof.
  intros Hsort Hcsort Hsi Hsv Hbf Hne Hok Hinc Ht Hy He Hlp E.
  destruct (CarmaSample_cols_holds np_sort csort isreal p q Hp Hq si raw Cl b fn rows t y e lp d i bf Hsort Hcsort Hsi Hbf Hne Hok Hinc Ht Hy He Hlp E) as (S & sig & mu & om & ma & s & H1 & H2 & H3 & H4 & H5 & H6).
  exists S, sig, mu, om, ma, s. split; [exact H1|]. split; [exact H2|]. split; [exact H3|]. split; [exact H4|]. split; [exact H5|].
  intros Hnd Hcc ts Hnz. destruct (H6 Hnd Hcc) as (Hs & Hk).
  destruct (predictp_holds solve Hsv s t _ e _ om _ mu ts Hs Hinc Hk Hnz) as (o & Eo & Ho). exists o. split; [exact Eo|exact Ho].
Qed.
