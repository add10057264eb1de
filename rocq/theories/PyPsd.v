(** plot_power_spectrum: the frequencies, the samples used and the credible bands. *)
From Coq Require Import List Arith ZArith Reals Lra Lia Permutation Bool.
From Coquelicot Require Import Coquelicot.
From Verif Require Import Arith Res ListLemmas KFModel KFpProof CholProof Spec Emb KF1R InitProof Cx KFpModel SpecCarma CLin KFpX KFpMore SpecModel
  CarpackModel RootsProof PriorProof CarpackTop PyModel PySim PyFuns PyExtra PyBox PyKFSim PySampleModel PyQuant.
Import ListNotations.
Local Open Scope R_scope.

(** ** One sample at one frequency *)
Lemma carma_psd_Fin p f sigma (ar ma : list R) : length ar = S p -> desc_poly (map RtoC ar) (0, 2 * PI * f) <> RtoC 0 ->
  carma_psd AX p (Fin f) (Fin sigma) (map Fin ar) (map Fin ma) = Fin (spectrum sigma ar ma f).
Proof.
  intros Hlen H. unfold carma_psd. change (F AX) with xr.
  change ((fofZ AX 0, fmul AX (fmul AX (fofZ AX 2) (fpi AX)) (Fin f)) : cx AX) with (FinC (0, 2 * PI * f)). set (x := (0, 2 * PI * f)) in *.
  set (a := cadd _ _). assert (a = FinC (desc_poly (map RtoC ar) x)) as ->.
  { unfold a. rewrite (FinC_sum _ (fun k => Cmult (nth k (map RtoC ar) (RtoC 0)) (Cpown x (length (map RtoC ar) - 1 - k)))).
    - rewrite nthX. change ((Fin (nth p ar 0), fofZ AX 0) : cx AX) with (FinC (RtoC (nth p ar 0))). rewrite FinC_add. f_equal.
      unfold desc_poly. rewrite map_length, Hlen, Csum_S. replace (S p - 1 - p)%nat with O by lia. cbn [Cpown]. rewrite Cmult_1_r.
      f_equal. rewrite <- (map_nth RtoC). reflexivity.
    - intros k Hk. rewrite nthX, FinC_pown, FinC_scale. f_equal. rewrite <- (map_nth RtoC), map_length, Hlen. do 2 f_equal. lia. }
  set (b := csum _ _). assert (b = FinC (ma_poly ma x)) as ->.
  { unfold b. rewrite map_length. apply FinC_sum. intros k Hk. rewrite nthX, FinC_pown, FinC_scale. reflexivity. }
  rewrite !cabs_FinC. unfold spectrum. fold x.
  assert (0 < Cmod (desc_poly (map RtoC ar) x)) as Hp by (apply Cmod_gt_0, H).
  refine (fin_div _ _ _). intros E. apply Rmult_integral in E. lra.
Qed.

(** the spectrum of the process with autoregressive roots om (the P of C54) *)
Definition root_spectrum (sigma : R) (om : list C) (ma : list R) (f : R) : R :=
  sigma * sigma * (Cmod (ma_poly ma (0, 2 * PI * f)) * Cmod (ma_poly ma (0, 2 * PI * f))) /
  (Cmod (roots_poly om (0, 2 * PI * f)) * Cmod (roots_poly om (0, 2 * PI * f))).

Lemma carma_psd_stable isreal (om : list C) sigma ma f : (forall z, In z om -> fst z < 0) -> conj_closed om ->
  carma_psd AX (length om) (Fin f) (Fin sigma) (py_ar_coefs isreal (map FinC om)) (map Fin ma) = Fin (root_spectrum sigma om ma f).
Proof.
  intros Hneg Hc. unfold py_ar_coefs. rewrite np_poly_re.
  destruct (polycoefs_main om) as (cs & E & Hlen & _ & Hev & Hre). specialize (Hre Hc).
  assert (polycoefs (map FinC om) = map Fin (map fst cs)) as -> by (rewrite E, map_map; reflexivity).
  assert (map RtoC (map fst cs) = cs) as Ecs.
  { rewrite map_map. rewrite <- (map_id cs) at 2. apply map_ext_in. intros z Hz. specialize (Hre z Hz). destruct z as [a b]. cbn [fst snd] in *.
    rewrite Hre. reflexivity. }
  rewrite carma_psd_Fin.
  - unfold spectrum, root_spectrum. rewrite Ecs, Hev. reflexivity.
  - rewrite map_length. exact Hlen.
  - rewrite Ecs, Hev. intros E0. apply roots_poly_0 in E0. apply Hneg in E0. cbn [fst] in E0. lra.
Qed.

(** ** The frequencies *)
(** the smallest spacing of the times *)
Definition min_spacing (t : list R) (d : R) : Prop :=
  (forall i, (S i < length t)%nat -> d <= nth (S i) t 0 - nth i t 0) /\ (exists i, (S i < length t)%nat /\ d = nth (S i) t 0 - nth i t 0).
(** 1000 frequencies, equally spaced in the logarithm, from a to b *)
Definition log_grid (a b : R) : list R := map (fun j => a * exp (INR j / 999 * ln (b / a))) (seq 0 1000).

Lemma time_range (t : list R) : (2 <= length t)%nat -> strictly_increasing t ->
  exists d, 0 < d /\ min_spacing t d /\ vmin AX (diffs AX (map Fin t)) = Ok (Fin d) /\
    exists hi lo, vmax AX (map Fin t) = Ok (Fin hi) /\ vmin AX (map Fin t) = Ok (Fin lo) /\ hi - lo = nth (length t - 1) t 0 - nth 0 t 0.
Proof.
  intros Hn Hinc. destruct (make_bounds_Fin t (Fin 0) false Hn Hinc) as (f & g & Eb & P1 & P2 & P3 & P4).
  unfold make_bounds, make_dt in Eb. rewrite map_length in Eb.
  destruct (length t <? 2)%nat eqn:EL; [apply Nat.ltb_lt in EL; lia|]. cbn [bind] in Eb.
  destruct (vmin AX (diffs AX (map Fin t))) as [m|?| |]; try discriminate Eb. cbn [bind] in Eb.
  destruct (vmax AX (map Fin t)) as [hi|?| |]; try discriminate Eb. cbn [bind] in Eb.
  destruct (vmin AX (map Fin t)) as [lo|?| |]; try discriminate Eb. cbn [bind] in Eb.
  pose proof (f_equal (fun r : res (bounds AX) => match r with Ok b => max_freq b | _ => NaN : F AX end) Eb) as E1. change (fdiv AX (fofZ AX 1) m = Fin g) in E1.
  pose proof (f_equal (fun r : res (bounds AX) => match r with Ok b => min_freq b | _ => NaN : F AX end) Eb) as E2. change (fdiv AX (fofZ AX 1) (fsub AX hi lo) = Fin f) in E2.
  clear Eb. change (F AX) with xr in m, hi, lo.
  pose proof (Hinc 0%nat (length t - 1)%nat ltac:(lia) ltac:(lia)) as Hsp.
  assert (exists r, m = Fin r /\ r = 1 / g) as (r & -> & Er).
  { destruct m as [r| | |]; cbn [fdiv fofZ AX xdiv] in E1; try discriminate E1; [|injection E1 as E1; lra|injection E1 as E1; lra].
    destruct (Req_EM_T r 0) as [X|X]; [unfold xinf_times, rsgn in E1; destruct (Rlt_dec 1 0); [lra|]; destruct (Rlt_dec 0 1); [discriminate E1|lra]|].
    injection E1 as E1. exists r. split; [reflexivity|]. rewrite <- E1. field. exact X. }
  exists (1 / g). rewrite <- Er. split; [rewrite Er; apply Rdiv_lt_0_compat; lra|]. rewrite Er at 1. split; [split; [exact P2|]|]. { destruct P3 as (i & Hi & E). exists i. auto. }
  split; [reflexivity|].
  assert (0 < f) as Hf by (rewrite P4; apply Rdiv_lt_0_compat; lra).
  destruct hi as [hi| | |], lo as [lo| | |]; cbn [fdiv fofZ fsub AX xdiv xsub xadd xneg] in E2; try discriminate E2; try (injection E2 as E2; lra).
  destruct (Req_EM_T (hi - lo) 0) as [X|X]; [unfold xinf_times, rsgn in E2; destruct (Rlt_dec 1 0); [lra|]; destruct (Rlt_dec 0 1); [discriminate E2|lra]|].
  injection E2 as E2. exists hi, lo. split; [reflexivity|]. split; [reflexivity|].
  rewrite P4 in E2. apply (f_equal (fun x => / x)) in E2. unfold Rdiv in E2. rewrite !Rmult_1_l, !Rinv_inv in E2. exact E2.
Qed.

Lemma log_of_grid a b j : 0 < a -> 0 < b -> exp (INR j * ((ln b - ln a) / 999) + ln a) = a * exp (INR j / 999 * ln (b / a)).
Proof.
  intros Ha Hb. rewrite exp_plus, exp_ln, Rmult_comm by exact Ha. f_equal. f_equal. unfold Rdiv at 3. rewrite ln_mult, ln_Rinv by (try apply Rinv_0_lt_compat; lra).
  field.
Qed.

Lemma psd_freqs_Fin (t : list R) : (2 <= length t)%nat -> strictly_increasing t ->
  exists d, 0 < d /\ min_spacing t d /\
    psd_freqs AX (map Fin t) = Ok (map Fin (log_grid (1 / (nth (length t - 1) t 0 - nth 0 t 0)) (1 / (2 * d)))).
Proof.
  intros Hn Hinc. destruct (time_range t Hn Hinc) as (d & Hd & Hm & E1 & hi & lo & E2 & E3 & ET).
  exists d. split; [exact Hd|]. split; [exact Hm|]. unfold psd_freqs. rewrite E1. cbn [bind]. rewrite E2. cbn [bind]. rewrite E3. cbn [bind].
  pose proof (Hinc 0%nat (length t - 1)%nat ltac:(lia) ltac:(lia)) as Hsp. set (T := nth (length t - 1) t 0 - nth 0 t 0) in *.
  assert (0 < T) as HT by (unfold T; lra).
  assert (0 < 1 / T) as Ha by (apply Rdiv_lt_0_compat; lra). assert (0 < 1 / (2 * d)) as Hb by (apply Rdiv_lt_0_compat; lra).
  assert (fdiv AX (fdec AX 1 2) (Fin d) = Fin (1 / (2 * d))) as ->.
  { change (fdec AX 1 2) with (Fin (1 / 2)). refine (eq_trans (fin_div _ _ _) _); [lra|]. f_equal. field. lra. }
  change (fsub AX (Fin hi) (Fin lo)) with (Fin (hi - lo)). rewrite ET.
  assert (fdiv AX (fofZ AX 1) (Fin T) = Fin (1 / T)) as -> by (refine (fin_div _ _ _); lra).
  assert (flog AX (Fin (1 / T)) = Fin (ln (1 / T))) as -> by (refine (fin_log _ _); exact Ha).
  assert (flog AX (Fin (1 / (2 * d))) = Fin (ln (1 / (2 * d)))) as -> by (refine (fin_log _ _); exact Hb).
  f_equal. unfold np_linspace, vbuild, log_grid. rewrite !map_map. apply map_ext_in. intros j Hj. apply in_seq in Hj.
  set (a := 1 / T) in *. set (b := 1 / (2 * d)) in *.
  change (Z.of_nat (1000 - 1)) with 999%Z. change (1000 - 1)%nat with 999%nat. cbn [fsub AX xsub fofZ].
  assert (fdiv AX (Fin (ln b - ln a)) (Fin 999) = Fin ((ln b - ln a) / 999)) as -> by (refine (fin_div _ _ _); lra).
  destruct (Nat.eqb_spec j 999) as [->|Hne].
  - cbn [fexp AX xexp]. f_equal. rewrite <- log_of_grid by assumption.
    assert (INR 999 = 999) as -> by (rewrite INR_IZR_INZ; reflexivity). f_equal. field.
  - cbn [fmul fadd fexp AX xmul xadd xexp]. f_equal. rewrite <- INR_IZR_INZ. apply log_of_grid; assumption.
Qed.

Lemma log_grid_length a b : length (log_grid a b) = 1000%nat.
Proof. unfold log_grid. rewrite map_length, seq_length. reflexivity. Qed.
Lemma log_grid_nth a b j : (j < 1000)%nat -> nth j (log_grid a b) 0 = a * exp (INR j / 999 * ln (b / a)).
Proof.
  intros Hj. unfold log_grid. set (f := fun j => _). rewrite (nth_indep _ 0 (f 0%nat)) by (rewrite map_length, seq_length; exact Hj).
  rewrite (map_nth f), seq_nth by exact Hj. reflexivity.
Qed.
Lemma log_grid_ends a b : 0 < a -> 0 < b -> nth 0 (log_grid a b) 0 = a /\ nth 999 (log_grid a b) 0 = b.
Proof.
  intros Ha Hb. rewrite !log_grid_nth by lia. split.
  - cbn [INR]. replace (0 / 999 * ln (b / a)) with 0 by field. rewrite exp_0. ring.
  - assert (INR 999 = 999) as -> by (rewrite INR_IZR_INZ; reflexivity). replace (999 / 999 * ln (b / a)) with (ln (b / a)) by field.
    rewrite exp_ln by (apply Rdiv_lt_0_compat; lra). field. lra.
Qed.
Lemma log_grid_increasing a b : 0 < a -> a < b -> strictly_increasing (log_grid a b).
Proof.
  intros Ha Hab i j Hij Hj. rewrite log_grid_length in Hj. rewrite !log_grid_nth by lia. apply Rmult_lt_compat_l; [exact Ha|]. apply exp_increasing.
  assert (0 < ln (b / a)) as Hl.
  { rewrite <- ln_1. apply ln_increasing; [lra|]. apply (Rmult_lt_reg_r a); [exact Ha|]. replace (b / a * a) with b by (field; lra). lra. }
  apply Rmult_lt_compat_r; [exact Hl|]. assert (INR i < INR j) by (apply lt_INR; exact Hij). lra.
Qed.
Lemma log_grid_decreasing a b i j : 0 < b -> b < a -> (i < j)%nat -> (j < 1000)%nat -> nth j (log_grid a b) 0 < nth i (log_grid a b) 0.
Proof.
  intros Hb Hab Hij Hj. rewrite !log_grid_nth by lia. apply Rmult_lt_compat_l; [lra|]. apply exp_increasing.
  assert (ln (b / a) < 0) as Hl.
  { rewrite <- ln_1. apply ln_increasing; [apply Rdiv_lt_0_compat; lra|]. apply (Rmult_lt_reg_r a); [lra|]. replace (b / a * a) with b by (field; lra). lra. }
  assert (INR i < INR j) by (apply lt_INR; exact Hij). nra.
Qed.
(** with four measurements or more (or three unequally spaced ones) the last frequency is above the first *)
Lemma spacing_span (t : list R) d : (2 <= length t)%nat -> min_spacing t d -> INR (length t - 1) * d <= nth (length t - 1) t 0 - nth 0 t 0.
Proof.
  intros Hn (H & _). assert (forall k, (k < length t)%nat -> INR k * d <= nth k t 0 - nth 0 t 0) as G.
  { induction k as [|k IH]; intros Hk; [cbn; lra|]. specialize (IH ltac:(lia)). specialize (H k Hk). rewrite S_INR. lra. }
  apply G. lia.
Qed.

(** ** The samples used *)
Lemma findex_div (n0 n i : nat) : (0 < n)%nat -> (i < n)%nat ->
  findex AX n0 (fmul AX (fofZ AX (Z.of_nat i)) (fdiv AX (fofZ AX (Z.of_nat n0)) (fofZ AX (Z.of_nat n)))) = (i * n0 / n)%nat.
Proof.
  intros Hn Hi. cbn [fofZ AX]. rewrite <- !INR_IZR_INZ. assert (0 < INR n) as Hp by (apply lt_0_INR; exact Hn).
  change (fdiv AX (Fin (INR n0)) (Fin (INR n))) with (xdiv (Fin (INR n0)) (Fin (INR n))). rewrite fin_div by lra.
  change (fmul AX (Fin (INR i)) (Fin (INR n0 / INR n))) with (Fin (INR i * (INR n0 / INR n))).
  pose proof (pos_INR i) as Hi0. pose proof (pos_INR n0) as Hn0.
  assert (0 <= INR i * (INR n0 / INR n)) as Hh by (apply Rmult_le_pos; [exact Hi0|]; apply Rmult_le_pos; [exact Hn0|]; left; apply Rinv_0_lt_compat; exact Hp).
  destruct (findex_spec n0 _ Hh) as (H1 & H2 & H3). set (h := INR i * (INR n0 / INR n)) in *. set (k := findex AX n0 (Fin h)) in *.
  assert (h * INR n = INR (i * n0)) as Eh by (unfold h; rewrite mult_INR; field; lra).
  assert (k * n <= i * n0)%nat as G1. { apply INR_le. rewrite <- Eh, mult_INR. apply Rmult_le_compat_r; lra. }
  destruct (le_lt_eq_dec _ _ H1) as [Hlt|He].
  - specialize (H3 Hlt). assert (i * n0 < (k + 1) * n)%nat as G2. { apply INR_lt. rewrite <- Eh, mult_INR, plus_INR. cbn [INR]. apply Rmult_lt_compat_r; lra. }
    apply (Nat.div_unique _ _ k (i * n0 - n * k)%nat); nia.
  - assert (n0 = 0)%nat as E0. { destruct n0; [reflexivity|]. exfalso. rewrite He in G1. nia. }
    rewrite He, E0, Nat.mul_0_r, Nat.div_0_l by lia. reflexivity.
Qed.

(** the rows that a call with nsamples = n uses *)
Definition used (n0 : nat) (nsamples : option nat) : list nat :=
  match nsamples with None => seq 0 n0 | Some n => map (fun i => i * n0 / n)%nat (seq 0 n) end.
Lemma psd_index_Fin n0 ns : ns <> Some 0%nat -> psd_index AX n0 ns = Ok (used n0 ns).
Proof.
  intros Hn. destruct ns as [[|n]|]; [easy| |reflexivity]. cbn [psd_index used]. f_equal. apply map_ext_in. intros i Hi. apply in_seq in Hi.
  apply findex_div; lia.
Qed.
Lemma used_lt n0 ns i : (0 < n0)%nat -> In i (used n0 ns) -> (i < n0)%nat.
Proof.
  intros H0. destruct ns as [n|]; cbn [used]; [|intros H; apply in_seq in H; lia].
  intros H. apply in_map_iff in H. destruct H as (j & <- & Hj). apply in_seq in Hj. apply Nat.div_lt_upper_bound; nia.
Qed.
(** not more samples than there are: no row twice *)
Lemma used_distinct n0 n : (0 < n <= n0)%nat -> forall i j, (i < j < n)%nat -> (nth i (used n0 (Some n)) 0 < nth j (used n0 (Some n)) 0)%nat.
Proof.
  intros Hn i j Hij. cbn [used]. rewrite !(nth_indep _ 0%nat ((fun i => i * n0 / n)%nat 0%nat)) by (rewrite map_length, seq_length; lia).
  rewrite !(map_nth (fun i => i * n0 / n)%nat), !seq_nth by lia. cbn [Nat.add]. apply Nat.lt_le_trans with (((i + 1) * n0) / n)%nat.
  - apply Nat.lt_le_trans with ((i * n0 + 1 * n) / n)%nat; [rewrite Nat.div_add by lia; lia|]. apply Nat.div_le_mono; nia.
  - apply Nat.div_le_mono; nia.
Qed.

(** ** The bands *)
Section Bands.
Variable np_sort : list (F AX) -> list (F AX).
Hypothesis Hsort : valid_np_sort np_sort.

(** what is plotted at the frequency f for the values l *)
Definition band (l : list R) (pc lo me up : R) : Prop :=
  percentile_of l ((100 - pc) / 2) lo /\ percentile_of l 50 me /\ percentile_of l (100 - (100 - pc) / 2) up /\ lo <= me <= up.

Lemma bands_Fin (sample : F AX -> list (F AX)) (P : R -> list R) pc (fs : list R) :
  (forall f, sample (Fin f) = map Fin (P f)) -> (forall f, P f <> []) -> 0 <= pc <= 100 ->
  exists bs : list (R * R * R), rmap (fun f => psd_band AX np_sort (Fin pc) (sample f)) (map Fin fs) =
      Ok (map (fun b => (Fin (fst (fst b)), Fin (snd (fst b)), Fin (snd b))) bs) /\
    Forall2 (fun f b => band (P f) pc (fst (fst b)) (snd (fst b)) (snd b)) fs bs.
Proof.
  intros HS HP Hpc. induction fs as [|f fs (bs & E & HF)]; [exists []; split; [reflexivity|constructor]|].
  destruct (band_ok np_sort Hsort (P f) pc (HP f) Hpc) as (lo & me & up & E1 & Hb).
  exists ((lo, me, up) :: bs). split.
  - cbn [map rmap]. rewrite HS, E1. cbn [bind]. change (F AX) with xr in *. rewrite E. reflexivity.
  - constructor; [exact Hb|exact HF].
Qed.

Lemma psd_result_Fin (t : list R) pc sp (sample : F AX -> list (F AX)) (P : R -> list R) :
  (2 <= length t)%nat -> strictly_increasing t -> (forall f, sample (Fin f) = map Fin (P f)) -> (forall f, P f <> []) -> 0 <= pc <= 100 ->
  exists d lo me up, 0 < d /\ min_spacing t d /\
    let fs := log_grid (1 / (nth (length t - 1) t 0 - nth 0 t 0)) (1 / (2 * d)) in
    psd_result AX np_sort (map Fin t) (Fin pc) sp sample = Ok (mkPO AX (map Fin lo) (map Fin up) (map Fin me) (map Fin fs) false) /\
    length lo = 1000%nat /\ length me = 1000%nat /\ length up = 1000%nat /\
    forall j, (j < 1000)%nat -> band (P (nth j fs 0)) pc (nth j lo 0) (nth j me 0) (nth j up 0).
Proof.
  intros Hn Hinc HS HP Hpc. destruct (psd_freqs_Fin t Hn Hinc) as (d & Hd & Hm & E).
  set (fs := log_grid (1 / (nth (length t - 1) t 0 - nth 0 t 0)) (1 / (2 * d))) in *.
  destruct (bands_Fin sample P pc fs HS HP Hpc) as (bs & Eb & HF).
  exists d, (map (fun b => fst (fst b)) bs), (map (fun b => snd (fst b)) bs), (map snd bs).
  split; [exact Hd|]. split; [exact Hm|]. cbv zeta. fold fs. assert (length bs = 1000%nat) as Hlb.
  { rewrite <- (F2_len HF). apply log_grid_length. }
  split. { unfold psd_result. rewrite E. cbn [bind]. change (F AX) with xr in *. rewrite Eb. cbn [bind negb]. rewrite !map_map. reflexivity. }
  split; [rewrite map_length; exact Hlb|]. split; [rewrite map_length; exact Hlb|]. split; [rewrite map_length; exact Hlb|].
  intros j Hj. clear - HF Hj Hlb. assert (length fs = 1000%nat) as Hlf by apply log_grid_length.
  rewrite <- Hlf in Hj. clear Hlf Hlb. revert j Hj. induction HF as [|f b fs bs H HF IH]; intros j Hj; [cbn in Hj; lia|].
  destruct j as [|j]; [exact H|]. cbn [map nth]. apply IH. cbn in Hj. lia.
Qed.

(** CarmaSample.plot_power_spectrum on the samples (sigma, roots, moving average coefficients) *)
Theorem carma_plot_ok isreal p (t : list R) (samples : list (R * list C * list R)) pc ns sp :
  (2 <= length t)%nat -> strictly_increasing t -> samples <> [] -> ns <> Some 0%nat -> 0 <= pc <= 100 ->
  (forall s, In s samples -> length (snd (fst s)) = p /\ (forall z, In z (snd (fst s)) -> fst z < 0) /\ conj_closed (snd (fst s))) ->
  let rows := map (fun s => (Fin (fst (fst s)), py_ar_coefs isreal (map FinC (snd (fst s))), map Fin (snd s))) samples in
  let sel := map (fun i => nth i samples (0, [], [])) (used (length samples) ns) in
  let P := fun f => map (fun s => root_spectrum (fst (fst s)) (snd (fst s)) (snd s) f) sel in
  exists d lo me up, 0 < d /\ min_spacing t d /\
    let fs := log_grid (1 / (nth (length t - 1) t 0 - nth 0 t 0)) (1 / (2 * d)) in
    carma_plot_psd AX np_sort p (map Fin t) rows (Fin pc) ns sp = Ok (mkPO AX (map Fin lo) (map Fin up) (map Fin me) (map Fin fs) false) /\
    length lo = 1000%nat /\ length me = 1000%nat /\ length up = 1000%nat /\
    forall j, (j < 1000)%nat -> band (P (nth j fs 0)) pc (nth j lo 0) (nth j me 0) (nth j up 0).
Proof.
  intros Hn Hinc Hne Hns Hpc Hs rows sel P. assert (0 < length samples)%nat as H0 by (destruct samples; [easy|cbn; lia]).
  assert (velem rows (used (length samples) ns) = Ok (map (fun s => (Fin (fst (fst s)), py_ar_coefs isreal (map FinC (snd (fst s))), map Fin (snd s))) sel)) as Ev.
  { unfold rows. rewrite (@velem_ok _ _ _ ((fun s => (Fin (fst (fst s)), py_ar_coefs isreal (map FinC (snd (fst s))), map Fin (snd s))) (0, [], []))).
    - f_equal. unfold sel. rewrite map_map. apply map_ext. intros i. apply (map_nth (fun s => (Fin (fst (fst s)), py_ar_coefs isreal (map FinC (snd (fst s))), map Fin (snd s)))).
    - intros i Hi. rewrite map_length. exact (used_lt _ _ _ H0 Hi). }
  assert (forall s, In s sel -> In s samples) as Hsel.
  { intros s H. unfold sel in H. apply in_map_iff in H. destruct H as (i & <- & Hi). apply nth_In. exact (used_lt _ _ _ H0 Hi). }
  assert (sel <> []) as Hsn.
  { unfold sel. destruct ns as [[|n]|]; cbn [used]; [easy|discriminate|]. destruct samples; [easy|discriminate]. }
  unfold carma_plot_psd. change (F AX) with xr in *. unfold rows at 1. rewrite map_length, psd_index_Fin by exact Hns. cbn [bind]. rewrite Ev. cbn [bind].
  apply psd_result_Fin; [exact Hn|exact Hinc| | |exact Hpc].
  - intros f. rewrite map_map. unfold P. rewrite map_map. apply map_ext_in. intros s Hi. cbn [fst snd]. destruct (Hs s (Hsel s Hi)) as (E1 & E2 & E3).
    rewrite <- E1. apply carma_psd_stable; assumption.
  - intros f Ef. unfold P in Ef. apply map_eq_nil in Ef. exact (Hsn Ef).
Qed.

(** Car1Sample.plot_power_spectrum with all samples (sigma, log_omega) *)
Theorem car1_plot_ok (t : list R) (samples : list (R * R)) pc sp :
  (2 <= length t)%nat -> strictly_increasing t -> samples <> [] -> 0 <= pc <= 100 ->
  let P := fun f => map (fun s => fst s * fst s / (exp (snd s) * exp (snd s) + (2 * PI * f) * (2 * PI * f))) samples in
  exists d lo me up, 0 < d /\ min_spacing t d /\
    let fs := log_grid (1 / (nth (length t - 1) t 0 - nth 0 t 0)) (1 / (2 * d)) in
    car1_plot_psd AX np_sort (map Fin t) (map (fun s => (Fin (fst s), Fin (snd s))) samples) (Fin pc) None sp =
      Ok (mkPO AX (map Fin lo) (map Fin up) (map Fin me) (map Fin fs) false) /\
    length lo = 1000%nat /\ length me = 1000%nat /\ length up = 1000%nat /\
    forall j, (j < 1000)%nat -> band (P (nth j fs 0)) pc (nth j lo 0) (nth j me 0) (nth j up 0).
Proof.
  intros Hn Hinc Hne Hpc P. unfold car1_plot_psd. apply psd_result_Fin; [exact Hn|exact Hinc| | |exact Hpc].
  - intros f. unfold P. rewrite !map_map. apply map_ext. intros s. cbn [fst snd]. apply (car1_psd_spec (fst s) (snd s) f).
  - intros f Ef. unfold P in Ef. apply map_eq_nil in Ef. exact (Hne Ef).
Qed.
End Bands.
