(** carma_pack.py: the parameters CarmaSample derives from a row of the trace are those the C++ likelihood used. *)
From Coq Require Import Reals List Arith ZArith Lra Lia Bool Permutation.
From Coquelicot Require Import Complex.
From Verif Require Import Arith Res ListLemmas KFModel KFpProof CholProof Spec Emb KF1R Cx KFpModel SpecCarma CLin KFpX KFpMain KFpMore SpecModel CarpackModel RootsProof PriorProof LogLikMain PyModel PySim PyFuns.
Import ListNotations.
Local Open Scope R_scope.

(** ** roots *)
Lemma py_quad_Fin t1 t2 : py_quad AX (Fin (exp t1)) (Fin (exp t2)) = map FinC (rpair t1 t2).
Proof.
  unfold py_quad, rpair. cbn [fmul fsub fofZ flt AX xmul xsub xlt fdec fneg fsqrt fabs xsqrt xabs].
  destruct (Rlt_dec 0 (exp t2 * exp t2 - 4 * exp t1)) as [H|H].
  - destruct (Rlt_dec (exp t2 * exp t2 - 4 * exp t1) 0) as [N|_]; [lra|].
    cbv zeta. unfold cscale, cadd, csub. cbn [fst snd map FinC fmul fadd fsub AX xmul xadd xsub xneg].
    unfold FinC. cbn [fst snd].
    f_equal; [|f_equal]; apply pair_equal_spec; split; apply (f_equal Fin); field.
  - rewrite Rabs_left1 by lra. destruct (Rlt_dec (- (exp t2 * exp t2 - 4 * exp t1)) 0) as [N|_]; [lra|].
    cbv zeta. unfold cscale, cadd, csub. cbn [fst snd map FinC fmul fadd fsub AX xmul xadd xsub xneg].
    unfold FinC. cbn [fst snd].
    f_equal; [|f_equal]; apply pair_equal_spec; split; apply (f_equal Fin); field.
Qed.
Lemma vget_nth_error T (l : list T) i x : nth_error l i = Some x -> vget l i = Ok x.
Proof. intros H. unfold vget. rewrite H. reflexivity. Qed.
Lemma nth_error_skipn T (l : list T) m i : nth_error (skipn m l) i = nth_error l (m + i).
Proof. revert m. induction l as [|a l IH]; intros [|m]; cbn; try reflexivity; [destruct i; reflexivity|apply IH]. Qed.
Lemma py_quads_Fin th : forall k (qc : list xr) off, (forall i, (i < 2 * k)%nat -> nth_error qc i = Some (Fin (exp (nth (off + i) th 0)))) ->
  @py_quads AX qc k = Ok (map FinC (qloop th off k)).
Proof.
  induction k as [|k IH]; intros qc off H; [reflexivity|]. cbn [py_quads qloop]. change (F AX) with xr.
  rewrite (vget_nth_error _ _ _ _ (H 0%nat ltac:(lia))), (vget_nth_error _ _ _ _ (H 1%nat ltac:(lia))). cbn [bind].
  change (F AX) with xr. rewrite (IH (skipn 2 qc) (off + 2)%nat).
  - cbn [bind]. rewrite Nat.add_0_r, py_quad_Fin, map_app. reflexivity.
  - intros i Hi. rewrite nth_error_skipn, H by lia. replace (off + (2 + i))%nat with (off + 2 + i)%nat by lia. reflexivity.
Qed.
Lemma py_roots_Fin th (qc : list xr) off n : length qc = n -> (forall i, (i < n)%nat -> nth_error qc i = Some (Fin (exp (nth (off + i) th 0)))) ->
  @py_roots AX qc n = Ok (map FinC (qroots th off n)).
Proof.
  intros HL H. unfold py_roots, qroots. pose proof (half2 n) as Hn.
  rewrite (py_quads_Fin th (n / 2) qc off) by (intros i Hi; apply H; lia). cbn [bind]. revert Hn. destruct (Nat.odd n) eqn:Eo; intros Hn.
  - change (F AX) with xr. rewrite HL, (vget_nth_error _ _ _ _ (H (n - 1)%nat ltac:(lia))). cbn [bind].
    rewrite map_app. replace (off + n - 1)%nat with (off + (n - 1))%nat by lia. reflexivity.
  - rewrite app_nil_r. reflexivity.
Qed.
Lemma slice_exp (th : list R) off n : (off + n <= length th)%nat -> forall i, (i < n)%nat ->
  nth_error (map (fexp AX) (firstn n (skipn off (map Fin th)))) i = Some (Fin (exp (nth (off + i) th 0))).
Proof.
  intros HL i Hi. rewrite nth_error_map.
  assert (nth_error (firstn n (skipn off (map Fin th))) i = Some (Fin (nth (off + i) th 0))) as E; [|exact (f_equal (option_map (fexp AX)) E)].
  assert (nth_error (firstn n (skipn off (map Fin th))) i = nth_error (skipn off (map Fin th)) i) as ->.
  { generalize (skipn off (map Fin th)). intros l. revert n i HL Hi. clear. intros n i _. revert n i.
    induction l as [|a l IH]; intros [|n] [|i] H; cbn; try reflexivity; try lia. apply IH. lia. }
  rewrite nth_error_skipn, nth_error_map, (nth_error_nth' th 0) by lia. reflexivity.
Qed.
Lemma slice_len (th : list R) off n : (off + n <= length th)%nat -> length (map (fexp AX) (firstn n (skipn off (map Fin th)))) = n.
Proof. intros H. rewrite map_length, firstn_length, skipn_length, map_length. lia. Qed.

Lemma py_ar_roots_Fin p (th : list R) : (3 + p <= length th)%nat -> py_ar_roots AX p (map Fin th) = Ok (map FinC (qroots th 3 p)).
Proof. intros H. unfold py_ar_roots. exact (py_roots_Fin th _ 3 p (slice_len th 3 p H) (slice_exp th 3 p H)). Qed.

(** ** moving average *)
(** the moving average coefficients, without and with zeros up to p *)
Lemma py_ma_Fin (isreal : list (cx AX) -> bool) p q (th : list R) : (q < p)%nat -> length th = (3 + p + q)%nat ->
  exists ma : list R, py_ma_coefs isreal p q (map Fin th) = Ok (map Fin ma) /\ length ma = S q /\
    ExtractMA_carma AX p q (map Fin th) = Ok (map Fin (ma ++ repeat 0 (p - S q))).
Proof.
  intros Hq HL. set (rt := qroots th (3 + p) q). destruct (posc_qroots th (3 + p) q) as (d & H1 & H2 & H3). fold rt in H1.
  assert (0 < d q) as Hdq by (apply H2; lia). assert (length rt = q) as Hlen by apply qroots_len.
  set (ma := map (fun i => d (q - i)%nat / d q) (seq 0 (S q))).
  assert (length ma = S q) as Lma by (unfold ma; rewrite map_length, seq_length; reflexivity).
  exists ma. split; [|split; [exact Lma|]].
  - unfold py_ma_coefs. destruct (Nat.eqb_spec q 0) as [->|Hq0].
    + unfold ma. cbn [seq map Nat.sub]. unfold Rdiv. rewrite Rinv_r by lra. reflexivity.
    + assert (py_roots AX (map (fexp AX) (skipn (3 + p) (map Fin th))) q = Ok (map FinC rt)) as E.
      { assert (skipn (3 + p) (map Fin th) = firstn q (skipn (3 + p) (map Fin th))) as Ef.
        { symmetry. apply firstn_all2. rewrite skipn_length, map_length. lia. }
        change (F AX) with xr. rewrite Ef. assert (3 + p + q <= length th)%nat as Hb by lia.
        exact (py_roots_Fin th _ (3 + p) q (slice_len th (3 + p) q Hb) (slice_exp th (3 + p) q Hb)). }
      refine (eq_trans (f_equal (fun r => bind r _) E) _). cbn [bind].
      rewrite np_poly_real by apply qroots_conj. rewrite Hlen.
      assert (vget (map (fun k => FinC (RtoC (fst (pcoef rt delta0 k)))) (seq 0 (S q))) q = Ok (FinC (RtoC (d q)))) as Eg.
      { rewrite vget_ok with (d := FinC (RtoC 0)) by (rewrite map_length, seq_length; lia).
        rewrite nth_map_seq by lia. rewrite H1. reflexivity. }
      cbv zeta. refine (eq_trans (f_equal (fun r => bind r _) Eg) _). cbn [bind]. f_equal.
      rewrite map_map, <- map_rev. rewrite map_map.
      assert (forall k, cdiv (FinC (RtoC (fst (pcoef rt delta0 k)))) (FinC (RtoC (d q))) = FinC (RtoC (d k / d q))) as Ed.
      { intros k. rewrite FinC_div by (apply RtoC_neq0; lra). rewrite H1. cbn [fst RtoC]. rewrite RtoC_div by lra. reflexivity. }
      rewrite (map_ext _ (fun k => Fin (d k / d q))) by (intros k; rewrite Ed; reflexivity).
      unfold ma. rewrite map_map.
      apply List.nth_ext with (d := Fin 0) (d' := Fin 0); [rewrite !map_length, rev_length; reflexivity|].
      rewrite map_length, rev_length, seq_length. intros i Hi.
      rewrite map_rev, rev_nth by (rewrite map_length, seq_length; exact Hi). rewrite map_length, seq_length.
      assert (S q - S i = q - i)%nat as -> by lia.
      rewrite !nth_map_seq by lia. reflexivity.
  - unfold ExtractMA_carma. rewrite quad_roots_Fin by lia. cbn [bind]. fold rt. rewrite polycoefs_Fin, Hlen.
    rewrite vget_ok with (d := Fin 0) by (rewrite map_length, seq_length; lia). cbn [bind].
    rewrite nth_map_seq by lia. rewrite map_map.
    rewrite (map_ext _ (fun k => Fin (d k / d q))).
    2:{ intros k. rewrite !H1. cbn [fst RtoC]. apply (fin_div (d k) (d q)). lra. }
    rewrite ma_fill_ok by exact Hq. f_equal.
    apply List.nth_ext with (d := Fin 0) (d' := Fin 0); rewrite !map_length, !seq_length.
    + rewrite app_length, repeat_length, Lma. lia.
    + intros i Hi. rewrite nth_map_seq by exact Hi. rewrite nth_map_Fin. destruct (Nat.leb_spec i q) as [E|E].
      * rewrite app_nth1 by lia. unfold ma. rewrite nth_map_seq by lia. reflexivity.
      * rewrite app_nth2 by lia. rewrite nth_repeat. reflexivity.
Qed.

(** ** sigma *)
Lemma py_denom_Fin om k : @py_denom AX (map FinC om) k = FinC (carma_denom om k).
Proof.
  unfold py_denom, carma_denom. rewrite map_length. cbv zeta.
  set (g := fun l => if Nat.eqb l k then RtoC 1 else
     Cmult (Cminus (nth l om (RtoC 0)) (nth k om (RtoC 0))) (Cplus (Cconj (nth l om (RtoC 0))) (nth k om (RtoC 0)))).
  assert (forall n d, fold_left (fun (d : cx AX) l => if Nat.eqb l k then d else
     cmul d (cmul (csub (vnth (map FinC om) l) (vnth (map FinC om) k)) (cadd (conj (vnth (map FinC om) l)) (vnth (map FinC om) k))))
     (seq 0 n) (FinC d) = FinC (Cmult d (Cprod g n))) as H.
  { induction n as [|n IH]; intros d.
    - cbn [seq fold_left Cprod]. f_equal. ring.
    - rewrite seq_S, fold_left_app, IH. cbn [fold_left Nat.add Cprod]. destruct (Nat.eqb n k) eqn:En.
      + assert (g n = RtoC 1) as -> by (unfold g; rewrite En; reflexivity). f_equal. ring.
      + rewrite !vnth_FinC, FinC_sub, FinC_conj, FinC_add, !FinC_mul. f_equal. rewrite <- Cmult_assoc. f_equal. f_equal. unfold g. rewrite En. reflexivity. }
  rewrite <- H. f_equal. rewrite vnth_FinC. reflexivity.
Qed.
Lemma csum_NaN (f : nat -> cx AX) k n : (k < n)%nat -> fst (f k) = NaN -> fst (csum f n) = NaN.
Proof.
  intros Hk H. induction n as [|n IH]; [lia|]. cbn [csum]. unfold cadd. cbn [fst]. destruct (Nat.eq_dec k n) as [->|Hn].
  - rewrite H. destruct (fst (csum f n)); reflexivity.
  - rewrite IH by lia. reflexivity.
Qed.
Lemma cdiv_0 a : @cdiv AX (FinC a) (FinC (RtoC 0)) = (NaN, NaN).
Proof.
  unfold cdiv, FinC. cbn [fst snd RtoC fmul fadd fsub fdiv AX xmul xadd xsub].
  assert (forall x, x = 0 -> xdiv (Fin x) (Fin (0 * 0 + 0 * 0)) = NaN) as D.
  { intros x ->. unfold xdiv. destruct (Req_EM_T (0 * 0 + 0 * 0) 0) as [_|H]; [|exfalso; apply H; ring].
    unfold rsgn. destruct (Rlt_dec 0 0); [lra|reflexivity]. }
  f_equal; apply D; ring.
Qed.
Lemma not_NoDup_nth (l : list C) : ~ NoDup l -> exists i j, (i < length l)%nat /\ (j < length l)%nat /\ i <> j /\ nth i l (RtoC 0) = nth j l (RtoC 0).
Proof.
  intros H. apply Classical_Prop.NNPP. intros Hn. apply H. apply (NoDup_nth l (RtoC 0)). intros i j Hi Hj E.
  destruct (Nat.eq_dec i j) as [->|Hne]; [reflexivity|]. exfalso. apply Hn. exists i, j. repeat split; assumption.
Qed.
Lemma carma_denom_0 om i j : (i < length om)%nat -> (j < length om)%nat -> i <> j -> nth i om (RtoC 0) = nth j om (RtoC 0) -> carma_denom om i = RtoC 0.
Proof.
  intros Hi Hj Hne E. unfold carma_denom. cbv zeta. set (g := fun l => if Nat.eqb l i then _ else _).
  assert (g j = RtoC 0) as Hg.
  { unfold g. destruct (Nat.eqb_spec j i); [congruence|]. rewrite E. ring. }
  assert (forall n, (j < n)%nat -> Cprod g n = RtoC 0) as H0.
  2:{ rewrite (H0 _ Hj). ring. }
  clear Hi Hj. induction n as [|n IH]; intros Hj; [lia|]. cbn [Cprod]. destruct (Nat.eq_dec j n) as [->|Hn]; [rewrite Hg; ring|].
  rewrite IH by lia. ring.
Qed.
Lemma acv0 (om : list C) ma : (forall z, In z om -> fst z < 0) -> NoDup om ->
  carma_acv 1 ma om 0 = fst (Csum (fun k => Cdiv (Cmult (ma_poly ma (nth k om (RtoC 0))) (ma_poly ma (Copp (nth k om (RtoC 0))))) (carma_denom om k)) (length om)).
Proof.
  intros _ _. unfold carma_acv. rewrite Rmult_1_l. f_equal. apply Csum_ext. intros k _.
  assert (Cexp (Cmult (nth k om (RtoC 0)) (RtoC 0)) = RtoC 1) as ->; [|rewrite Cmult_1_r; reflexivity].
  destruct (nth k om (RtoC 0)) as [a b]. unfold Cexp. cbn [Cmult fst snd RtoC].
  replace (a * 0 - b * 0) with 0 by ring. replace (a * 0 + b * 0) with 0 by ring. rewrite exp_0, cos_0, sin_0. apply C_eq; cbn [fst snd RtoC]; ring.
Qed.

Lemma map_FinC_inj : forall l l' : list C, map FinC l = map FinC l' -> l = l'.
Proof.
  induction l as [|a l IH]; intros [|a' l'] E; try discriminate; [reflexivity|]. cbn [map] in E. injection E as E2 E3 E4.
  f_equal; [|apply IH, E4]. apply C_eq; assumption.
Qed.
Theorem py_derive_cpp (isreal : list (cx AX) -> bool) p q (th : list R) : (2 <= p)%nat -> (q < p)%nat -> length th = (3 + p + q)%nat ->
  exists d : drow AX, py_derive isreal q (map Fin th) = Ok d /\
    d_var d = Fin (nth 0 th 0 * nth 0 th 0) /\ d_scale d = Fin (nth 1 th 0) /\ d_mu d = Fin (nth 2 th 0) /\
    ARRoots AX p (map Fin th) = Ok (d_roots d) /\
    ExtractMA_carma AX p q (map Fin th) = Ok (py_pad AX p (d_ma d)) /\
    Sigp AX p (ExtractMA_carma AX p q) (map Fin th) = Ok (fmul AX (d_sigma d) (d_sigma d)) /\
    (forall om : list C, d_roots d = map FinC om -> NoDup om -> exists s, d_sigma d = Fin s /\ 0 <= s).
Proof.
  intros Hp Hq HL. set (om := qroots th 3 p). destruct (py_ma_Fin isreal p q th Hq HL) as (ma & Ema & Lma & Ecpp).
  set (var := nth 0 th 0 * nth 0 th 0).
  assert (ARRoots AX p (map Fin th) = Ok (map FinC om)) as Eroots by (apply quad_roots_Fin; lia).
  assert (forall z, In z om -> fst z < 0) as Hneg by (intros z; apply qroots_neg).
  assert (length om = p) as Lom by apply qroots_len.
  exists (mkD (Fin var : F AX) (Fin (nth 1 th 0)) (Fin (nth 2 th 0)) (map FinC om) (map Fin ma) (py_sigma (map FinC om) (map Fin ma) (Fin var))).
  split.
  { unfold py_derive. change (F AX) with xr. rewrite map_length, HL. replace (3 + p + q - 3 - q)%nat with p by lia. rewrite !vget_Fin by lia. cbn [bind].
    rewrite py_ar_roots_Fin by lia. cbn [bind]. rewrite Ema. reflexivity. }
  cbn [d_var d_scale d_mu d_roots d_ma d_sigma]. do 3 (split; [reflexivity|]). split; [exact Eroots|].
  assert (py_pad AX p (map Fin ma) = map Fin (ma ++ repeat 0 (p - S q))) as Epad.
  { rewrite <- Lma. apply py_pad_pad. lia. }
  split; [rewrite Epad; exact Ecpp|].
  set (mp := ma ++ repeat 0 (p - S q)) in *.
  set (cs := fun k => Cdiv (Cmult (ma_poly mp (nth k om (RtoC 0))) (ma_poly mp (Copp (nth k om (RtoC 0))))) (carma_denom om k)).
  assert (forall k, cdiv (cmul (ma_sum (map Fin ma : list (F AX)) (vnth (map FinC om) k))
             (ma_sum (map Fin ma : list (F AX)) (cscale (fneg AX (fofZ AX 1)) (vnth (map FinC om) k)))) (py_denom (map FinC om) k) =
           cdiv (FinC (Cmult (ma_poly mp (nth k om (RtoC 0))) (ma_poly mp (Copp (nth k om (RtoC 0)))))) (FinC (carma_denom om k))) as Eterm.
  { intros k. rewrite py_denom_Fin, vnth_FinC. change (fneg AX (fofZ AX 1)) with (Fin (- (1))).
    assert (cscale (Fin (- (1)) : F AX) (FinC (nth k om (RtoC 0))) = FinC (Copp (nth k om (RtoC 0)))) as ->.
    { refine (eq_trans (FinC_scale _ _) _). f_equal. destruct (nth k om (RtoC 0)). apply C_eq; cbn [fst snd RtoC Cmult Copp]; ring. }
    rewrite !ma_sum_Fin, FinC_mul. unfold mp. rewrite !ma_poly_pad. reflexivity. }
  assert (Sigp AX p (ExtractMA_carma AX p q) (map Fin th) = Ok (fdiv AX (Fin var) (Variance (map FinC om) (map Fin mp) (Fin 1 : F AX) (Fin 0)))) as ES.
  { unfold Sigp. rewrite Eroots. cbn [bind]. rewrite Ecpp. cbn [bind]. rewrite vget_Fin by lia. reflexivity. }
  rewrite ES. destruct (Classical_Prop.classic (NoDup om)) as [Hnd|Hnd].
  - assert (0 < carma_acv 1 mp om 0) as Hpos.
    { destruct (ExtractMA_carma_main p q th Hq ltac:(lia)) as (ma' & E' & L' & N' & _).
      rewrite Ecpp in E'. injection E' as E'. apply map_Fin_inj in E'. subst ma'.
      apply carma_acv_pos; [|lia|rewrite L', Lom; reflexivity|exists O; rewrite N'; lra].
      split; [exact Hnd|]. split; [exact Hneg|]. intros z Hz. apply conj_closed_in; [apply qroots_conj|exact Hz]. }
    assert (py_sigma (map FinC om) (map Fin ma) (Fin var : F AX) = Fin (sqrt (var / carma_acv 1 mp om 0))) as Es.
    { unfold py_sigma. rewrite map_length. rewrite (FinC_sum _ cs).
      - cbv zeta. change (fst (FinC (Csum cs (length om)))) with (Fin (fst (Csum cs (length om)))). unfold cs. rewrite <- (acv0 om mp Hneg Hnd).
        assert (fdiv AX (Fin var) (Fin (carma_acv 1 mp om 0)) = Fin (var / carma_acv 1 mp om 0)) as -> by (refine (fin_div _ _ _); lra).
        refine (fin_sqrt _ _). apply Rmult_le_pos; [unfold var; nra|left; apply Rinv_0_lt_compat, Hpos].
      - intros k Hk. rewrite Eterm. apply FinC_div. apply carma_denom_neq0; assumption. }
    assert (0 <= var / carma_acv 1 mp om 0) as Hnn by (apply Rmult_le_pos; [unfold var; nra|left; apply Rinv_0_lt_compat, Hpos]).
    rewrite Es. split.
    + f_equal. rewrite (Variance_Fin om mp 1 0 Hnd Hneg). replace (1 * 1) with 1 by ring.
      assert (fdiv AX (Fin var) (Fin (carma_acv 1 mp om 0)) = Fin (var / carma_acv 1 mp om 0)) as -> by (refine (fin_div _ _ _); lra).
      change (Fin (var / carma_acv 1 mp om 0) = Fin (sqrt (var / carma_acv 1 mp om 0) * sqrt (var / carma_acv 1 mp om 0))).
      f_equal. symmetry. apply sqrt_sqrt, Hnn.
    + intros _ _ _. exists (sqrt (var / carma_acv 1 mp om 0)). split; [reflexivity|apply sqrt_pos].
  - destruct (not_NoDup_nth om Hnd) as (i & j & Hi & Hj & Hne & Eij). pose proof (carma_denom_0 om i j Hi Hj Hne Eij) as D0.
    assert (py_sigma (map FinC om) (map Fin ma) (Fin var : F AX) = NaN) as Es.
    { unfold py_sigma. rewrite map_length. cbv zeta. refine (eq_trans (f_equal (fun x => fsqrt AX (fdiv AX (Fin var) x)) (csum_NaN _ i (length om) Hi _)) _); [|reflexivity].
      rewrite Eterm, D0, cdiv_0. reflexivity. }
    assert (Variance (map FinC om) (map Fin mp) (Fin 1 : F AX) (Fin 0) = NaN) as Ev.
    { unfold Variance. rewrite map_length. cbv zeta. refine (eq_trans (f_equal (fun x => fmul AX (fmul AX (Fin 1) (Fin 1)) x) (csum_NaN _ i (length om) Hi _)) _); [|reflexivity].
      rewrite vnth_FinC, var_denom_Fin, D0. change (cneg (FinC (nth i om (RtoC 0)))) with (FinC (Copp (nth i om (RtoC 0)))).
      rewrite !ma_sum_Fin, FinC_mul. rewrite FinC_scale, FinC_exp, FinC_mul, cdiv_0. reflexivity. }
    rewrite Es, Ev. split; [reflexivity|]. intros om' E' Hnd'. exfalso. apply Hnd. apply map_FinC_inj in E'. subst om'. exact Hnd'.
Qed.
