(** The order of the factors of the autoregressive and moving average polynomials. *)
From Coq Require Import Reals List Arith ZArith Lra Lia Bool Permutation FinFun.
From Coquelicot Require Import Complex.
From Verif Require Import Arith Res ListLemmas KFModel Spec Gauss Emb History InitProof KF1X KF1Main SimProof KF1More.
From Verif Require Import Cx KFpModel KFpProof SpecCarma CLin KFpX KFpMain KFpTop KFpMore SpecModel CarpackModel RootsProof PriorProof LogLikProof LogLikMain CarpackTop CarpackRefute.
From Verif Require Import RamProof Det LogDens DetUniq ZeroProof Sym SymTime.
Import ListNotations.
Local Open Scope R_scope.
Local Notation length := List.length.

(** th' is th with its m quadratic factors from index off in the order sg *)
Record reordered (off m : nat) (sg : list nat) (th th' : list R) : Prop := {
  ro_len : length th' = length th;
  ro_perm : Permutation sg (seq 0 m);
  ro_fac : forall k, (k < m)%nat -> nth (off + 2 * k) th' 0 = nth (off + 2 * nth k sg 0%nat) th 0 /\ nth (off + 2 * k + 1) th' 0 = nth (off + 2 * nth k sg 0%nat + 1) th 0;
  ro_other : forall j, (j < off \/ off + 2 * m <= j)%nat -> nth j th' 0 = nth j th 0 }.

Lemma qloop_flat th m : forall off, qloop th off m = flat_map (fun k => rpair (nth (off + 2 * k) th 0) (nth (off + 2 * k + 1) th 0)) (seq 0 m).
Proof.
  induction m as [|m IH]; intros off; [reflexivity|]. cbn [qloop seq flat_map]. rewrite Nat.mul_0_r, Nat.add_0_r. f_equal.
  rewrite IH, <- seq_shift, !flat_map_concat_map, map_map. f_equal. apply map_ext. intros k. do 2 f_equal; lia.
Qed.
Lemma map_seq_nth {T} (f : nat -> T) (sg : list nat) m : length sg = m -> map (fun k => f (nth k sg 0%nat)) (seq 0 m) = map f sg.
Proof.
  intros <-. induction sg as [|a sg IH]; [reflexivity|]. cbn [length seq map nth]. f_equal. rewrite <- seq_shift, map_map. exact IH.
Qed.
Lemma reordered_roots off n sg th th' : reordered off (n / 2) sg th th' -> Permutation (qroots th off n) (qroots th' off n).
Proof.
  intros [L P Fc O]. pose proof (half2 n) as Hn. unfold qroots. apply Permutation_app.
  - rewrite !qloop_flat. rewrite (flat_map_concat_map _ (seq 0 (n / 2))).
    rewrite (flat_map_concat_map (fun k => rpair (nth (off + 2 * k) th' 0) (nth (off + 2 * k + 1) th' 0))).
    set (f := fun k => rpair (nth (off + 2 * k) th 0) (nth (off + 2 * k + 1) th 0)).
    rewrite (map_ext_in (fun k => rpair (nth (off + 2 * k) th' 0) (nth (off + 2 * k + 1) th' 0)) (fun k => f (nth k sg 0%nat))).
    2:{ intros k Hk. apply in_seq in Hk. destruct (Fc k ltac:(lia)) as (-> & ->). reflexivity. }
    rewrite (map_seq_nth f) by (rewrite (Permutation_length P); apply seq_length). rewrite <- !flat_map_concat_map. apply Permutation_flat_map, Permutation_sym, P.
  - destruct (Nat.odd n); [|apply Permutation_refl]. rewrite (O (off + n - 1)%nat) by (right; lia). apply Permutation_refl.
Qed.

(** *** The process does not depend on the order of the roots *)
Lemma acv_perm ma om om' tau : Permutation om om' -> carma_acv 1 ma om' tau = carma_acv 1 ma om tau.
Proof.
  intros P. destruct (proj1 (Permutation_nth om om' (RtoC 0)) P) as (L & f & Hf & Hi & Hn). cbv zeta in L. set (n := length om) in *.
  unfold carma_acv. rewrite L. fold n. f_equal. f_equal.
  set (G := fun k => Cdiv (Cmult (Cmult (ma_poly ma (nth k om (RtoC 0))) (ma_poly ma (Copp (nth k om (RtoC 0))))) (Cexp (Cmult (nth k om (RtoC 0)) (RtoC tau)))) (carma_denom om k)).
  refine (eq_trans _ (Csum_bij f n G Hf Hi)). apply Csum_ext. intros k Hk. unfold G. rewrite (Hn k Hk). f_equal.
  unfold carma_denom. rewrite L. fold n. rewrite (Hn k Hk). f_equal.
  set (H := fun l => if Nat.eqb l (f k) then RtoC 1 else Cmult (Cminus (nth l om (RtoC 0)) (nth (f k) om (RtoC 0))) (Cplus (Cconj (nth l om (RtoC 0))) (nth (f k) om (RtoC 0)))).
  refine (eq_trans _ (Cprod_bij f n H Hf Hi)). apply Cprod_ext. intros l Hl. unfold H. rewrite (Hn l Hl).
  destruct (Nat.eqb_spec l k) as [E|E], (Nat.eqb_spec (f l) (f k)) as [E'|E']; try reflexivity; [congruence|exfalso; apply E, Hi; assumption].
Qed.
Lemma acv_ma_ext ma ma' om tau : (forall z, ma_poly ma' z = ma_poly ma z) -> carma_acv 1 ma' om tau = carma_acv 1 ma om tau.
Proof. intros H. unfold carma_acv. f_equal. f_equal. apply Csum_ext. intros k _. rewrite !H. reflexivity. Qed.
Lemma roots_poly_perm om om' z : Permutation om om' -> roots_poly om' z = roots_poly om z.
Proof. intros P. induction P; cbn [roots_poly]; [reflexivity|rewrite IHP; reflexivity|ring|congruence]. Qed.

(** *** The prior apart from the order *)
Lemma frac_sym tol r s : frac_apart tol r s -> frac_apart tol s r.
Proof.
  unfold frac_apart. intros H. replace (Cplus s r) with (Cplus r s) by ring. replace (Cminus s r) with (Copp (Cminus r s)) by ring. rewrite Cmod_opp. exact H.
Qed.
Lemma in_prior_u_perm smax fmin fmax th th' om om' : Permutation om om' -> nth 0 th' 0 = nth 0 th 0 -> nth 1 th' 0 = nth 1 th 0 ->
  in_prior_u smax fmin fmax th om -> in_prior_u smax fmin fmax th' om'.
Proof.
  intros P E0 E1 [H1 H2 H3 H4 H5]. constructor.
  - intros r Hr. apply H1, (Permutation_in _ (Permutation_sym P)), Hr.
  - intros r Hr. apply H2, (Permutation_in _ (Permutation_sym P)), Hr.
  - rewrite E0. exact H3.
  - rewrite E1. exact H4.
  - destruct (proj1 (Permutation_nth om om' (RtoC 0)) P) as (L & f & Hf & Hi & Hn). cbv zeta in L. intros i j Hij Hj.
    rewrite !Hn by lia. pose proof (Hf i ltac:(lia)). pose proof (Hf j ltac:(lia)).
    destruct (Nat.lt_trichotomy (f i) (f j)) as [Hlt|[He|Hlt]]; [apply H5; assumption| |apply frac_sym, H5; assumption].
    apply Hi in He; lia.
Qed.
Lemma order_void fmax om : fmax <= 1 / 100000000 -> (forall r, In r om -> Rabs (snd r) / (2 * PI) < fmax) -> in_order om.
Proof.
  intros Hf H i Hi. eapply Rle_trans; [apply Rlt_le, H, nth_In, Hi|]. pose proof PI_RGT_0.
  assert (0 <= Rabs (snd (nth i om (RtoC 0))) / (2 * PI)) as Hn by (apply Rmult_le_pos; [apply Rabs_pos|apply Rlt_le, Rinv_0_lt_compat; lra]).
  apply (Rle_trans _ (0 + 1 / 100000000)); [lra|]. apply Rplus_le_compat_r. exact Hn.
Qed.

(** *** LogDensity *)
Lemma loglik_cov_ext K K' (t y e : list R) scale mu x z : (forall p q, K p q = K q p) -> (forall p q, K' p q = K p q) ->
  0 <= scale -> length y = length t -> length e = length t -> is_loglik K t y e scale mu x -> is_loglik K' t y e scale mu z -> z = x.
Proof.
  intros HK HK' Hs Hy He Hx Hz. apply is_loglik_normal in Hx; try assumption. apply is_loglik_normal in Hz; try assumption; [|intros; rewrite !HK'; apply HK].
  eapply is_normal_ll_unique; [exact Hz|]. eapply normal_ext; [| |exact Hx]; [|reflexivity].
  intros i j Hi Hj. cbn beta. rewrite HK'. reflexivity.
Qed.

Lemma switchp solve p maf prior (t y e th th' ma ma' : list R) pr smax fmin fmax (b b' : base AX (kpx AX)) : valid_solve solve -> strictly_increasing t ->
  (2 <= p)%nat -> (3 + p <= length th)%nat -> length th' = length th -> length ma = p -> length ma' = p -> (exists l, nth l ma 0 <> 0) -> (exists l, nth l ma' 0 <> 0) ->
  maf (map Fin th) = Ok (map Fin ma) -> maf (map Fin th') = Ok (map Fin ma') -> (forall z, ma_poly ma' z = ma_poly ma z) ->
  (0 < nth 1 th 0 -> prior (map Fin th) = Ok (Fin pr)) -> (0 < nth 1 th 0 -> prior (map Fin th') = Ok (Fin pr)) ->
  Permutation (qroots th 3 p) (qroots th' 3 p) -> (forall j, (j < 3)%nat -> nth j th' 0 = nth j th 0) ->
  base_holds b t y e (mkB AX (Fin smax) (Fin fmax) (Fin fmin) false) -> base_holds b' t y e (mkB AX (Fin smax) (Fin fmax) (Fin fmin) false) ->
  exists v v' w w', LogDensity (pcls solve p maf prior) b (map Fin th) = Ok (v, w) /\ LogDensity (pcls solve p maf prior) b' (map Fin th') = Ok (v', w') /\
    (v' = v \/ (fmax > 1 / 100000000 /\ ((~ in_order (qroots th 3 p) /\ v = NInf) \/ (~ in_order (qroots th' 3 p) /\ v' = NInf)))).
Proof.
  intros Hsv Hinc Hp HL HLe Lma Lma' Nma Nma' Em Em' Hm Ep Ep' HP Hlow Hb Hb'. destruct (base_holds_lens _ _ _ _ _ _ Hb) as (Ly & Le & Ln).
  pose proof (quad_roots_Fin th 3 p HL) as EA. assert (3 + p <= length th')%nat as HL' by (rewrite HLe; exact HL).
  pose proof (quad_roots_Fin th' 3 p HL') as EA'.
  pose proof (Hlow 0%nat ltac:(lia)) as T0. pose proof (Hlow 1%nat ltac:(lia)) as T1. pose proof (Hlow 2%nat ltac:(lia)) as T2.
  set (om := qroots th 3 p) in *. set (om' := qroots th' 3 p) in *.
  assert (in_prior_u smax fmin fmax th om <-> in_prior_u smax fmin fmax th' om') as Hiff.
  { split; apply in_prior_u_perm; try assumption; [apply Permutation_sym; assumption|congruence|congruence]. }
  assert (length om = p) as Lom by apply qroots_len.
  pose proof (in_prior_split smax fmin fmax th om) as S1. pose proof (in_prior_split smax fmin fmax th' om') as S2.
  assert (forall (P : Prop), P \/ ~ P) as EM by exact Classical_Prop.classic.
  assert (in_prior_u smax fmin fmax th om -> ~ in_order om -> fmax > 1 / 100000000) as V1.
  { intros Hu Ho. apply Rnot_le_gt. intros Hf. apply Ho, (order_void fmax); [exact Hf|apply (pu_centroid _ _ _ _ _ Hu)]. }
  assert (in_prior_u smax fmin fmax th om -> ~ in_order om' -> fmax > 1 / 100000000) as V2.
  { intros Hu Ho. apply Hiff in Hu. apply Rnot_le_gt. intros Hf. apply Ho, (order_void fmax); [exact Hf|apply (pu_centroid _ _ _ _ _ Hu)]. }
  destruct (EM (in_prior smax fmin fmax th om)) as [Hin|Hout], (EM (in_prior smax fmin fmax th' om')) as [Hin'|Hout'].
  - pose proof (pr_scale _ _ _ _ _ Hin) as Hs. specialize (Ep ltac:(lra)). specialize (Ep' ltac:(lra)).
    destruct (Req_dec (nth 0 th 0) 0) as [E0|E0].
    + pose proof (LDp_zero solve p maf prior b t y e th ma om smax fmin fmax pr Hsv Hb Hp HL Em Lma Nma Ep EA Hin E0) as (Z1 & Z2).
      pose proof (LDp_zero solve p maf prior b' _ _ _ _ ma' om' _ _ _ pr Hsv Hb' Hp HL' Em' Lma' Nma' Ep' EA' Hin' ltac:(rewrite T0; exact E0)) as (Z1' & Z2').
      rewrite T1, T2 in *. destruct (EM (exists i, (i < length t)%nat /\ nth i e 0 = 0)) as [Hz|Hz].
      * destruct (Z2 Hz) as (w & E). destruct (Z2' Hz) as (w' & E'). exists NaN, NaN, w, w'. split; [exact E|]. split; [exact E'|left; reflexivity].
      * assert (forall i, (i < length t)%nat -> nth i e 0 <> 0) as Hnz by (intros i Hi Ei; apply Hz; exists i; auto).
        destruct (Z1 Hnz) as (x & w & E & Hx). destruct (Z1' Hnz) as (z & w' & E' & Hz').
        exists (Fin (x + pr)), (Fin (z + pr)), w, w'. split; [exact E|]. split; [exact E'|]. left.
        rewrite (loglik_cov_ext (fun _ _ => 0) (fun _ _ => 0) t y e (nth 1 th 0) (nth 2 th 0) x z); try assumption; try reflexivity. lra.
    + destruct (LDp_all solve p maf prior b t y e th ma om smax fmin fmax false pr Hsv Hb Hinc Hp HL Em Lma Nma ltac:(auto) EA ltac:(auto) ltac:(discriminate) E0 ltac:(lra)) as (x & w & E & Hx).
      destruct (LDp_all solve p maf prior b' _ _ _ th' ma' om' _ _ _ false pr Hsv Hb' Hinc Hp HL' Em' Lma' Nma' ltac:(auto) EA' ltac:(auto) ltac:(discriminate)
        ltac:(rewrite T0; exact E0) ltac:(rewrite T1; lra)) as (z & w' & E' & Hz).
      rewrite T0, T1, T2 in Hz.
      exists (Fin (x + pr)), (Fin (z + pr)), w, w'. split; [exact E|]. split; [exact E'|]. left.
      assert (z = x) as ->; [|reflexivity].
      eapply loglik_cov_ext; [| | | | |exact Hx|exact Hz]; try assumption; try lra.
      * intros u v. unfold carma_cov. rewrite Rabs_minus_sym. reflexivity.
      * intros u v. unfold carma_cov. rewrite carma_acv_scale, (carma_acv_scale _ ma om). rewrite !(acv_perm ma' om om' _ HP), !(acv_ma_ext ma ma' om _ Hm). reflexivity.
  - pose proof (proj1 (proj1 S1 Hin)) as Hu. destruct (EM (in_order om')) as [Ho|Ho]; [exfalso; apply Hout', S2; split; [apply Hiff, Hu|exact Ho]|].
    pose proof (LDp_none solve p maf prior b' _ _ _ _ om' _ _ _ Hb' HL' EA' Hout') as E'. pose proof (pr_scale _ _ _ _ _ Hin) as Hs.
    destruct (Req_dec (nth 0 th 0) 0) as [E0|E0].
    + destruct (LDp_zero solve p maf prior b t y e th ma om smax fmin fmax pr Hsv Hb Hp HL Em Lma Nma (Ep ltac:(lra)) EA Hin E0) as (Z1 & Z2).
      destruct (EM (exists i, (i < length t)%nat /\ nth i e 0 = 0)) as [Hz|Hz].
      * destruct (Z2 Hz) as (w & E). exists NaN, NInf, w, b'. split; [exact E|]. split; [exact E'|]. right; split; [auto|]. right. split; [exact Ho|reflexivity].
      * destruct Z1 as (x & w & E & _). { intros i Hi Ei. apply Hz. exists i. auto. }
        exists (Fin (x + pr)), NInf, w, b'. split; [exact E|]. split; [exact E'|]. right; split; [auto|]. right. split; [exact Ho|reflexivity].
    + destruct (LDp_all solve p maf prior b t y e th ma om smax fmin fmax false pr Hsv Hb Hinc Hp HL Em Lma Nma ltac:(auto) EA ltac:(auto) ltac:(discriminate) E0 ltac:(lra)) as (x & w & E & _).
      exists (Fin (x + pr)), NInf, w, b'. split; [exact E|]. split; [exact E'|]. right; split; [auto|]. right. split; [exact Ho|reflexivity].
  - pose proof (proj2 Hiff (proj1 (proj1 S2 Hin'))) as Hu. destruct (EM (in_order om)) as [Ho|Ho]; [exfalso; apply Hout, S1; split; [exact Hu|exact Ho]|].
    pose proof (LDp_none solve p maf prior b _ _ _ _ om _ _ _ Hb HL EA Hout) as E. pose proof (pr_scale _ _ _ _ _ Hin') as Hs. rewrite T1 in Hs.
    destruct (Req_dec (nth 0 th 0) 0) as [E0|E0].
    + destruct (LDp_zero solve p maf prior b' _ _ _ _ ma' om' _ _ _ pr Hsv Hb' Hp HL' Em' Lma' Nma' (Ep' ltac:(lra)) EA' Hin' ltac:(rewrite T0; exact E0)) as (Z1 & Z2).
      destruct (EM (exists i, (i < length t)%nat /\ nth i e 0 = 0)) as [Hz|Hz].
      * destruct (Z2 Hz) as (w & E'). exists NInf, NaN, b, w. split; [exact E|]. split; [exact E'|]. right; split; [auto|]. left. split; [exact Ho|reflexivity].
      * destruct Z1 as (x & w & E' & _). { intros i Hi Ei. apply Hz. exists i. auto. }
        exists NInf, (Fin (x + pr)), b, w. split; [exact E|]. split; [exact E'|]. right; split; [auto|]. left. split; [exact Ho|reflexivity].
    + destruct (LDp_all solve p maf prior b' _ _ _ th' ma' om' _ _ _ false pr Hsv Hb' Hinc Hp HL' Em' Lma' Nma'
        ltac:(intros _; apply Ep'; lra) EA' ltac:(auto) ltac:(discriminate) ltac:(rewrite T0; exact E0) ltac:(rewrite T1; lra)) as (x & w & E' & _).
      exists NInf, (Fin (x + pr)), b, w. split; [exact E|]. split; [exact E'|]. right; split; [auto|]. left. split; [exact Ho|reflexivity].
  - exists NInf, NInf, b, b'. split; [exact (LDp_none solve p maf prior b _ _ _ _ om _ _ _ Hb HL EA Hout)|].
    split; [exact (LDp_none solve p maf prior b' _ _ _ _ om' _ _ _ Hb' HL' EA' Hout')|]. left. reflexivity.
Qed.

(** two strictly differently ordered arrangements: an arrangement in which a centroid exceeds its predecessor by more than the tolerance is rejected *)
Lemma not_ordered p th i : (2 * i + 3 < p)%nat -> sqrt (osc th i) + 4 * PI / 100000000 < sqrt (osc th (S i)) -> ~ in_order (qroots th 3 p).
Proof.
  intros Hi H Ho. pose proof (half2 p) as Hp. assert (S (2 * i + 1) < length (qroots th 3 p))%nat as Hl by (rewrite qroots_len; lia).
  specialize (Ho (2 * i + 1)%nat Hl). revert Ho. pose proof (qloop_len th (p / 2) 3) as Hq. unfold qroots.
  assert (S (2 * i + 1) < 2 * (p / 2))%nat as Hlt by (revert Hp; destruct (Nat.odd p); lia).
  rewrite (app_nth1 _ _ _ (n := S (2 * i + 1))) by (rewrite Hq; lia). rewrite (app_nth1 _ _ _ (n := (2 * i + 1)%nat)) by (rewrite Hq; lia).
  rewrite !qloop_im by lia. replace (S (2 * i + 1) / 2)%nat with (S i).
  2:{ replace (S (2 * i + 1)) with (S i * 2)%nat by lia. rewrite Nat.div_mul by lia. reflexivity. }
  replace ((2 * i + 1) / 2)%nat with i.
  2:{ replace (2 * i + 1)%nat with (1 + i * 2)%nat by lia. rewrite Nat.div_add by lia. cbn. lia. }
  unfold osc in H. replace (3 + 2 * S i + 1)%nat with (4 + 2 * S i)%nat by lia. replace (3 + 2 * i + 1)%nat with (4 + 2 * i)%nat by lia.
  set (u := sqrt (Rmax 0 (4 * exp (nth (3 + 2 * S i) th 0) - exp (nth (4 + 2 * S i) th 0) * exp (nth (4 + 2 * S i) th 0)))) in *.
  set (v := sqrt (Rmax 0 (4 * exp (nth (3 + 2 * i) th 0) - exp (nth (4 + 2 * i) th 0) * exp (nth (4 + 2 * i) th 0)))) in *.
  pose proof PI_RGT_0. intros Hle. apply Rmult_le_compat_l with (r := 4 * PI) in Hle; [|lra].
  replace (4 * PI * (u / 2 / (2 * PI))) with u in Hle by (field; lra). replace (4 * PI * (v / 2 / (2 * PI) + 1 / 100000000)) with (v + 4 * PI / 100000000) in Hle by (field; lra). lra.
Qed.

(** out of order: rejected *)
Lemma LD_unordered solve p maf prior (b : base AX (kpx AX)) (t y e th : list R) smax fmin fmax : (3 + p <= length th)%nat ->
  base_holds b t y e (mkB AX (Fin smax) (Fin fmax) (Fin fmin) false) -> ~ in_order (qroots th 3 p) -> LogDensity (pcls solve p maf prior) b (map Fin th) = Ok (NInf, b).
Proof.
  intros HL Hb Ho. apply (LDp_none solve p maf prior b t y e th (qroots th 3 p) smax fmin fmax Hb HL); [apply quad_roots_Fin; exact HL|].
  intros H. apply Ho. exact (proj2 (proj1 (in_prior_split _ _ _ _ _) H)).
Qed.

(** the moving average coefficients do not depend on the order of the moving average factors *)
Lemma qloop_ext th th' m : forall off, (forall i, (i < 2 * m)%nat -> nth (off + i) th' 0 = nth (off + i) th 0) -> qloop th' off m = qloop th off m.
Proof.
  induction m as [|m IH]; intros off H; [reflexivity|]. cbn [qloop]. f_equal.
  - f_equal; [pose proof (H 0%nat ltac:(lia)) as E; rewrite Nat.add_0_r in E; exact E|exact (H 1%nat ltac:(lia))].
  - apply IH. intros i Hi. replace (off + 2 + i)%nat with (off + (2 + i))%nat by lia. apply H. lia.
Qed.
Lemma qroots_ext th th' off n : (forall i, (i < n)%nat -> nth (off + i) th' 0 = nth (off + i) th 0) -> qroots th' off n = qroots th off n.
Proof.
  intros H. pose proof (half2 n) as Hn. unfold qroots. f_equal.
  - apply qloop_ext. intros i Hi. apply H. lia.
  - destruct (Nat.odd n); [|reflexivity]. replace (off + n - 1)%nat with (off + (n - 1))%nat by lia. rewrite H by lia. reflexivity.
Qed.
Lemma ma_poly_reorder p q th th' ma ma' : Permutation (qroots th (3 + p) q) (qroots th' (3 + p) q) ->
  (forall z, Cmult (ma_poly ma z) (quad_poly th (3 + p) q (RtoC 0)) = quad_poly th (3 + p) q z) ->
  (forall z, Cmult (ma_poly ma' z) (quad_poly th' (3 + p) q (RtoC 0)) = quad_poly th' (3 + p) q z) ->
  forall z, ma_poly ma' z = ma_poly ma z.
Proof.
  intros HP H H' z. pose proof (H z) as E. pose proof (H' z) as E'. rewrite <- !qroots_poly in E, E'. rewrite !(roots_poly_perm _ _ _ HP) in E'.
  set (A := roots_poly (qroots th (3 + p) q) (RtoC 0)) in *.
  assert (A <> RtoC 0) as HA. { intros E0. apply roots_poly_0 in E0. apply qroots_neg in E0. cbn in E0. lra. }
  replace (ma_poly ma' z) with (Cdiv (Cmult (ma_poly ma' z) A) A) by (field; assumption). rewrite E', <- E. field. assumption.
Qed.
