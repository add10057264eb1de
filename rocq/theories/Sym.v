(** Symmetries of the log-density: the origin and the direction of time, the origin and the unit of the measurements. *)
From Coq Require Import Reals List Arith ZArith Lra Lia Bool Permutation.
From Coquelicot Require Import Complex.
From Verif Require Import Arith Res ListLemmas KFModel Spec Gauss Emb History InitProof KF1X KF1Main KF1More.
From Verif Require Import Cx KFpModel KFpProof SpecCarma CLin KFpX KFpMain KFpTop KFpMore SpecModel CarpackModel RootsProof PriorProof LogLikProof LogLikMain CarpackTop CarpackRefute.
From Verif Require Import RamProof Det LogDens DetUniq ZeroProof.
Import ListNotations.
Local Open Scope R_scope.
Local Notation length := List.length.

(** ** The transformed problem *)
(** the measurements in another order, at other times: t + s, or s - t (which reverses the order) *)
Definition turn (back : bool) (l : list R) : list R := if back then rev l else l.
Definition retime (back : bool) (s : R) (t : list R) : list R := map (fun x => if back then s - x else x + s) (turn back t).
(** the measurements in another unit, from another origin: a y + c *)
Definition rescale (back : bool) (a c : R) (y : list R) : list R := map (fun x => a * x + c) (turn back y).
(** the parameters in these units: standard deviation a theta_0, mean a theta_2 + c *)
Definition reparam (a c : R) (th : list R) : list R :=
  match th with t0 :: t1 :: t2 :: r => a * t0 :: t1 :: a * t2 + c :: r | _ => th end.
(** the log-density shifts by a constant, infinities and NaN stay *)
Definition lower_by (d : R) (v : xr) : xr := match v with Fin x => Fin (x - d) | w => w end.

Definition back_idx (back : bool) (n i : nat) : nat := if back then (n - 1 - i)%nat else i.
Lemma turn_len back l : length (turn back l) = length l.
Proof. destruct back; [apply rev_length|reflexivity]. Qed.
Lemma retime_len back s t : length (retime back s t) = length t.
Proof. unfold retime. rewrite map_length. apply turn_len. Qed.
Lemma rescale_len back a c y : length (rescale back a c y) = length y.
Proof. unfold rescale. rewrite map_length. apply turn_len. Qed.
Lemma turn_nth back l i : (i < length l)%nat -> nth i (turn back l) 0 = nth (back_idx back (length l) i) l 0.
Proof.
  intros H. destruct back; cbn [turn back_idx]; [|reflexivity]. rewrite rev_nth by exact H. f_equal. lia.
Qed.
Lemma retime_nth back s t i : (i < length t)%nat -> nth i (retime back s t) 0 = (if back then s - nth (back_idx back (length t) i) t 0 else nth (back_idx back (length t) i) t 0 + s).
Proof. intros H. unfold retime. rewrite nth_map_R by (rewrite turn_len; exact H). rewrite turn_nth by exact H. reflexivity. Qed.
Lemma rescale_nth back a c y i : (i < length y)%nat -> nth i (rescale back a c y) 0 = a * nth (back_idx back (length y) i) y 0 + c.
Proof. intros H. unfold rescale. rewrite nth_map_R by (rewrite turn_len; exact H). rewrite turn_nth by exact H. reflexivity. Qed.
Lemma back_reorders back n : reorders n (back_idx back n) (back_idx back n).
Proof. intros i Hi. destruct back; cbn [back_idx]; lia. Qed.
Lemma back_lt back n i : (i < n)%nat -> (back_idx back n i < n)%nat.
Proof. intros H. destruct back; cbn; lia. Qed.

Lemma retime_inc back s t : strictly_increasing t -> strictly_increasing (retime back s t).
Proof.
  intros H i j Hij Hj. rewrite retime_len in Hj. rewrite !retime_nth by lia. destruct back; cbn [back_idx].
  - pose proof (H (length t - 1 - j)%nat (length t - 1 - i)%nat ltac:(lia) ltac:(lia)). lra.
  - pose proof (H i j Hij Hj). lra.
Qed.

(** ** The prior bounds *)
Lemma bounds_unique t y s1 f1 g1 s2 f2 g2 : data_bounds t y s1 f1 g1 -> data_bounds t y s2 f2 g2 -> s1 = s2 /\ f1 = f2 /\ g1 = g2.
Proof.
  intros [A1 A2 A3 (i & Hi & A4) A5] [B1 B2 B3 (j & Hj & B4) B5]. split; [congruence|]. split; [congruence|].
  assert (1 / g1 = 1 / g2) as E by (apply Rle_antisym; [rewrite B4; apply A3, Hj|rewrite A4; apply B3, Hi]).
  assert (g1 = 1 / (1 / g1)) as -> by (field; lra). rewrite E. field. lra.
Qed.
Lemma smean_rescale back a c y : y <> [] -> smean (rescale back a c y) = a * smean y + c.
Proof.
  intros H. unfold smean. rewrite rescale_len. assert (0 < INR (length y)) as Hn by (apply lt_0_INR; destruct y; [contradiction|cbn; lia]).
  rewrite (Rsum_ext _ (fun i => a * nth (back_idx back (length y) i) y 0 + c)) by (intros k Hk; apply rescale_nth, Hk).
  rewrite Rsum_plus, Rsum_scal, (Rsum_reorder (fun i => nth i y 0) _ _ _ (back_reorders back (length y))).
  assert (forall n, Rsum (fun _ => c) n = INR n * c) as Ec. { clear. induction n as [|n IH]; [cbn; ring|]. rewrite Rsum_S, IH, S_INR. ring. }
  rewrite Ec. field. lra.
Qed.
Lemma svar_rescale back a c y : (2 <= length y)%nat -> svar (rescale back a c y) = a * a * svar y.
Proof.
  intros H. assert (y <> []) as Hne by (intros ->; cbn in H; lia). assert (1 < INR (length y)) as Hn by (apply (lt_INR 1); lia).
  unfold svar. rewrite smean_rescale by exact Hne. rewrite rescale_len.
  rewrite (Rsum_ext _ (fun i => a * a * (nth (back_idx back (length y) i) y 0 - smean y) ^ 2)) by (intros k Hk; rewrite rescale_nth by exact Hk; ring).
  rewrite Rsum_scal, (Rsum_reorder (fun i => (nth i y 0 - smean y) ^ 2) _ _ _ (back_reorders back (length y))). field. lra.
Qed.
Lemma bounds_transform back a c s t y smax fmin fmax : 0 < a -> (2 <= length t)%nat -> length y = length t ->
  data_bounds t y smax fmin fmax -> data_bounds (retime back s t) (rescale back a c y) (a * smax) fmin fmax.
Proof.
  intros Ha Hn Hy [A1 A2 A3 (i & Hi & A4) A5]. constructor.
  - rewrite svar_rescale by lia. rewrite sqrt_mult; [|nra|apply svar_nonneg; lia]. rewrite sqrt_square by lra. rewrite A1. ring.
  - exact A2.
  - intros j Hj. rewrite retime_len in Hj. rewrite !retime_nth by lia. destruct back; cbn [back_idx].
    + pose proof (A3 (length t - 1 - S j)%nat ltac:(lia)) as E. replace (S (length t - 1 - S j))%nat with (length t - 1 - j)%nat in E by lia. lra.
    + pose proof (A3 j Hj). lra.
  - exists (if back then length t - 1 - S i else i)%nat. rewrite retime_len. split; [destruct back; lia|]. rewrite !retime_nth by (destruct back; lia).
    destruct back; cbn [back_idx]; rewrite A4.
    + replace (length t - 1 - S (length t - 1 - S i))%nat with i by lia. replace (length t - 1 - (length t - 1 - S i))%nat with (S i) by lia. ring.
    + ring.
  - rewrite retime_len, !retime_nth by lia. rewrite A5. destruct back; cbn [back_idx].
    + replace (length t - 1 - (length t - 1))%nat with 0%nat by lia. rewrite Nat.sub_0_r. f_equal. ring.
    + f_equal. ring.
Qed.

(** ** Parameters *)
Lemma reparam_len a c th : length (reparam a c th) = length th.
Proof. destruct th as [|t0 [|t1 [|t2 r]]]; reflexivity. Qed.
Lemma reparam_0 a c th : (3 <= length th)%nat -> nth 0 (reparam a c th) 0 = a * nth 0 th 0.
Proof. destruct th as [|t0 [|t1 [|t2 r]]]; cbn; intros; try lia; reflexivity. Qed.
Lemma reparam_1 a c th : nth 1 (reparam a c th) 0 = nth 1 th 0.
Proof. destruct th as [|t0 [|t1 [|t2 r]]]; reflexivity. Qed.
Lemma reparam_2 a c th : (3 <= length th)%nat -> nth 2 (reparam a c th) 0 = a * nth 2 th 0 + c.
Proof. destruct th as [|t0 [|t1 [|t2 r]]]; cbn; intros; try lia; reflexivity. Qed.
Lemma reparam_3 a c th i : nth (3 + i) (reparam a c th) 0 = nth (3 + i) th 0.
Proof. destruct th as [|t0 [|t1 [|t2 r]]]; reflexivity. Qed.
Lemma vget_reparam a c th i : (3 <= i)%nat -> vget (map Fin (reparam a c th)) i = vget (map Fin th) i.
Proof.
  intros H. replace i with (3 + (i - 3))%nat by lia. destruct th as [|t0 [|t1 [|t2 r]]]; reflexivity.
Qed.
Lemma vget1_reparam a c th : vget (map Fin (reparam a c th)) 1 = vget (map Fin th) 1.
Proof. destruct th as [|t0 [|t1 [|t2 r]]]; reflexivity. Qed.
Lemma quad_loop_reparam a c th off m : (3 <= off)%nat -> quad_loop AX (map Fin (reparam a c th)) off m = quad_loop AX (map Fin th) off m.
Proof.
  revert off. induction m as [|m IH]; intros off H; [reflexivity|]. cbn [quad_loop]. rewrite IH by lia. change (F AX) with xr in *. rewrite !vget_reparam by lia. reflexivity.
Qed.
Lemma quad_roots_reparam a c th off m : (3 <= off)%nat -> quad_roots AX (map Fin (reparam a c th)) off m = quad_roots AX (map Fin th) off m.
Proof.
  intros H. unfold quad_roots. rewrite quad_loop_reparam by exact H. destruct (quad_loop AX (map Fin th) off (m / 2)); try reflexivity. cbn [bind].
  destruct m as [|m]; [reflexivity|]. change (F AX) with xr. rewrite vget_reparam by lia. reflexivity.
Qed.
Lemma ARRoots_reparam a c p th : ARRoots AX p (map Fin (reparam a c th)) = ARRoots AX p (map Fin th).
Proof. apply quad_roots_reparam. lia. Qed.

Lemma in_prior_reparam a c smax fmin fmax th om : 0 < a -> (3 <= length th)%nat ->
  in_prior smax fmin fmax th om <-> in_prior (a * smax) fmin fmax (reparam a c th) om.
Proof.
  intros Ha HL. split; intros [H1 H2 H3 H4 H5 H6]; constructor; try assumption.
  - rewrite reparam_0 by exact HL. nra.
  - rewrite reparam_1. exact H4.
  - rewrite reparam_0 in H3 by exact HL. nra.
  - rewrite reparam_1 in H4. exact H4.
Qed.
Lemma in_prior1_reparam a c smax fmin fmax th : 0 < a -> (3 <= length th)%nat ->
  in_prior1 smax fmin fmax th <-> in_prior1 (a * smax) fmin fmax (reparam a c th).
Proof.
  intros Ha HL. unfold in_prior1. rewrite reparam_0 by exact HL. rewrite reparam_1. change 3%nat with (3 + 0)%nat. rewrite reparam_3.
  split; intros (H1 & H2 & H3); (split; [exact H1|]; split; [nra|exact H3]).
Qed.

(** ** The likelihood *)
(** k is an autocovariance function; the process in the other unit has a^2 k. *)
Lemma loglik_transform (k : R -> R) back a c s (t y e : list R) scale mu x : 0 < a -> 0 <= scale -> length y = length t -> length e = length t ->
  is_loglik (fun p q => k (Rabs (p - q))) t y e scale mu x ->
  forall K' z, (forall p q, K' p q = a * a * k (Rabs (p - q))) -> is_loglik K' (retime back s t) (rescale back a c y) (rescale back a 0 e) scale (a * mu + c) z ->
  z = x - INR (length t) * ln a.
Proof.
  intros Ha Hs Hy He Hx K' z HK Hz.
  apply is_loglik_normal in Hx; try assumption; [|intros p q; rewrite Rabs_minus_sym; reflexivity].
  apply is_loglik_normal in Hz; [|intros p q; rewrite !HK, Rabs_minus_sym; reflexivity|exact Hs|rewrite rescale_len, retime_len; exact Hy|rewrite rescale_len, retime_len; exact He].
  rewrite retime_len in Hz.
  apply (normal_scale _ a _ _ _ Ha) in Hx. apply (normal_reorder _ _ _ _ _ _ (back_reorders back (length t))) in Hx.
  eapply is_normal_ll_unique; [exact Hz|]. eapply normal_ext; [| |exact Hx].
  - intros i j Hi Hj. cbn beta. rewrite HK, !retime_nth by assumption. rewrite rescale_nth by lia. rewrite He.
    set (ti := nth (back_idx back (length t) i) t 0). set (tj := nth (back_idx back (length t) j) t 0).
    replace (Rabs ((if back then s - ti else ti + s) - (if back then s - tj else tj + s))) with (Rabs (ti - tj)).
    2:{ destruct back; [rewrite <- (Rabs_Ropp (ti - tj))|]; f_equal; ring. }
    destruct (back_reorders back (length t) i Hi) as (_ & _ & Bi & _), (back_reorders back (length t) j Hj) as (_ & _ & Bj & _).
    destruct (Nat.eqb_spec i j) as [E|E], (Nat.eqb_spec (back_idx back (length t) i) (back_idx back (length t) j)) as [E'|E']; try (exfalso; congruence); ring.
  - intros i Hi. cbn beta. rewrite rescale_nth by lia. rewrite Hy. ring.
Qed.

(** ** LogDensity *)
(** the log-densities v and w of the original and of the transformed problem *)
Lemma sym1 back a c s (t y e th : list R) smax fmin fmax (b b' : base AX (F AX)) : 0 < a -> strictly_increasing t -> (4 <= length th)%nat ->
  base_holds b t y e (mkB AX (Fin smax) (Fin fmax) (Fin fmin) false) ->
  base_holds b' (retime back s t) (rescale back a c y) (rescale back a 0 e) (mkB AX (Fin (a * smax)) (Fin fmax) (Fin fmin) false) ->
  exists v w w', LogDensity (car1_cls AX) b (map Fin th) = Ok (v, w) /\
    LogDensity (car1_cls AX) b' (map Fin (reparam a c th)) = Ok (lower_by (INR (length t) * ln a) v, w').
Proof.
  intros Ha Hinc HL Hb Hb'. destruct (base_holds_lens _ _ _ _ _ _ Hb) as (Ly & Le & Ln).
  pose proof (in_prior1_reparam a c smax fmin fmax th Ha ltac:(lia)) as Hiff.
  assert (4 <= length (reparam a c th))%nat as HL' by (rewrite reparam_len; exact HL).
  assert (in_prior1 smax fmin fmax th \/ ~ in_prior1 smax fmin fmax th) as [Hin|Hout] by apply Classical_Prop.classic.
  - pose proof (proj1 Hiff Hin) as Hin'. pose proof Hin as (_ & _ & Hs).
    destruct (Req_dec (nth 0 th 0) 0) as [E0|E0].
    + pose proof (LD1_zero b t y e th smax fmin fmax false Hb HL Hin E0) as (Z1 & Z2).
      pose proof (LD1_zero b' _ _ _ _ _ fmin fmax false Hb' HL' Hin' ltac:(rewrite reparam_0 by lia; rewrite E0; ring)) as (Z1' & Z2').
      rewrite retime_len in *. destruct (Classical_Prop.classic (exists i, (i < length t)%nat /\ nth i e 0 = 0)) as [Hz|Hz].
      * destruct (Z2 Hz) as (w & E). destruct Z2' as (w' & E').
        { destruct Hz as (i & Hi & Ei). exists (back_idx back (length t) i). destruct (back_reorders back (length t) i Hi) as (B1 & _ & B2 & _).
          split; [exact B1|]. rewrite rescale_nth by lia. rewrite Le, B2, Ei. ring. }
        exists NaN, w, w'. split; [exact E|exact E'].
      * destruct Z1 as (x & w & E & Hx). { intros i Hi Ei. apply Hz. exists i. auto. }
        destruct Z1' as (z & w' & E' & Hz').
        { intros i Hi Ei. apply Hz. exists (back_idx back (length t) i). split; [apply back_lt, Hi|]. rewrite rescale_nth in Ei by lia. rewrite Le in Ei. nra. }
        exists (Fin (x + log_sichi (nth 1 th 0))), w, w'. split; [exact E|]. refine (eq_trans E' _). rewrite reparam_1 in *. rewrite reparam_2 in Hz' by lia.
        rewrite (loglik_transform (fun _ => 0) back a c s t y e (nth 1 th 0) (nth 2 th 0) x Ha ltac:(lra) Ly Le Hx (fun _ _ => 0) z); [|intros; ring|exact Hz'].
        cbn [lower_by]. do 3 f_equal. ring.
    + destruct (LD1_inside b t y e th smax fmin fmax false Hb Hinc HL Hin E0) as (m & v & w & E & _ & _ & _ & _ & Hc).
      destruct (LD1_inside b' _ _ _ _ _ fmin fmax false Hb' (retime_inc back s t Hinc) HL' Hin' ltac:(rewrite reparam_0 by lia; nra)) as (m' & v' & w' & E' & _ & _ & _ & _ & Hc').
      eexists; exists w, w'. split; [exact E|]. refine (eq_trans E' _). cbn [lower_by]. do 3 f_equal.
      rewrite reparam_1 in *. rewrite retime_len in *. rewrite reparam_2 in * by lia.
      rewrite (loglik_transform (fun d => nth 0 th 0 * nth 0 th 0 * exp (- (exp (nth 3 th 0) * d))) back a c s t y e (nth 1 th 0) (nth 2 th 0)
        (gauss_ll (length t) (fun i => nth i y 0 - nth 2 th 0) (fun i => nth i m 0) (fun i => nth i v 0)) Ha ltac:(lra) Ly Le
        (ex_intro _ _ (ex_intro _ _ (Logic.conj Hc eq_refl)))
        (fun p q => nth 0 (reparam a c th) 0 * nth 0 (reparam a c th) 0 * exp (- (exp (nth 3 (reparam a c th) 0) * Rabs (p - q))))
        (gauss_ll (length t) (fun i => nth i (rescale back a c y) 0 - (a * nth 2 th 0 + c)) (fun i => nth i m' 0) (fun i => nth i v' 0))).
      * ring.
      * intros p q. rewrite reparam_0 by lia. change 3%nat with (3 + 0)%nat. rewrite reparam_3. ring.
      * exists (fun i => nth i m' 0), (fun i => nth i v' 0). rewrite retime_len. split; [exact Hc'|reflexivity].
  - exists NInf, b, b'. split; [exact (LD1_outside b t y e th smax fmin fmax false Hb HL Hout)|].
    apply (LD1_outside b' _ _ _ _ (a * smax) fmin fmax false Hb' HL'). intros H. apply Hout, Hiff, H.
Qed.

Lemma symp solve p maf prior back a c s (t y e th ma : list R) pr smax fmin fmax (b b' : base AX (kpx AX)) : valid_solve solve -> 0 < a -> strictly_increasing t ->
  (2 <= p)%nat -> (3 + p <= length th)%nat -> length ma = p -> (exists l, nth l ma 0 <> 0) ->
  maf (map Fin th) = Ok (map Fin ma) -> maf (map Fin (reparam a c th)) = Ok (map Fin ma) ->
  (0 < nth 1 th 0 -> prior (map Fin th) = Ok (Fin pr)) -> (0 < nth 1 th 0 -> prior (map Fin (reparam a c th)) = Ok (Fin pr)) ->
  base_holds b t y e (mkB AX (Fin smax) (Fin fmax) (Fin fmin) false) ->
  base_holds b' (retime back s t) (rescale back a c y) (rescale back a 0 e) (mkB AX (Fin (a * smax)) (Fin fmax) (Fin fmin) false) ->
  exists v w w', LogDensity (pcls solve p maf prior) b (map Fin th) = Ok (v, w) /\
    LogDensity (pcls solve p maf prior) b' (map Fin (reparam a c th)) = Ok (lower_by (INR (length t) * ln a) v, w').
Proof.
  intros Hsv Ha Hinc Hp HL Lma Nma Em Em' Ep Ep' Hb Hb'. destruct (base_holds_lens _ _ _ _ _ _ Hb) as (Ly & Le & Ln).
  destruct (roots_of p th HL) as (om & EA & Lo & Hneg & _). pose proof (ARRoots_reparam a c p th) as EA'. rewrite EA in EA'.
  pose proof (in_prior_reparam a c smax fmin fmax th om Ha ltac:(lia)) as Hiff.
  assert (3 + p <= length (reparam a c th))%nat as HL' by (rewrite reparam_len; exact HL).
  destruct (Classical_Prop.classic (in_prior smax fmin fmax th om)) as [Hin|Hout].
  - pose proof (proj1 Hiff Hin) as Hin'. pose proof (pr_scale _ _ _ _ _ Hin) as Hs. specialize (Ep ltac:(lra)). specialize (Ep' ltac:(lra)).
    destruct (Req_dec (nth 0 th 0) 0) as [E0|E0].
    + pose proof (LDp_zero solve p maf prior b t y e th ma om smax fmin fmax pr Hsv Hb Hp HL Em Lma Nma Ep EA Hin E0) as (Z1 & Z2).
      pose proof (LDp_zero solve p maf prior b' _ _ _ _ ma om _ fmin fmax pr Hsv Hb' Hp HL' Em' Lma Nma Ep' EA' Hin' ltac:(rewrite reparam_0 by lia; rewrite E0; ring)) as (Z1' & Z2').
      rewrite retime_len in *. destruct (Classical_Prop.classic (exists i, (i < length t)%nat /\ nth i e 0 = 0)) as [Hz|Hz].
      * destruct (Z2 Hz) as (w & E). destruct Z2' as (w' & E').
        { destruct Hz as (i & Hi & Ei). exists (back_idx back (length t) i). destruct (back_reorders back (length t) i Hi) as (B1 & _ & B2 & _).
          split; [exact B1|]. rewrite rescale_nth by lia. rewrite Le, B2, Ei. ring. }
        exists NaN, w, w'. split; [exact E|exact E'].
      * destruct Z1 as (x & w & E & Hx). { intros i Hi Ei. apply Hz. exists i. auto. }
        destruct Z1' as (z & w' & E' & Hz').
        { intros i Hi Ei. apply Hz. exists (back_idx back (length t) i). split; [apply back_lt, Hi|]. rewrite rescale_nth in Ei by lia. rewrite Le in Ei. nra. }
        exists (Fin (x + pr)), w, w'. split; [exact E|]. refine (eq_trans E' _). rewrite reparam_1 in *. rewrite reparam_2 in Hz' by lia.
        rewrite (loglik_transform (fun _ => 0) back a c s t y e (nth 1 th 0) (nth 2 th 0) x Ha ltac:(lra) Ly Le Hx (fun _ _ => 0) z); [|intros; ring|exact Hz'].
        cbn [lower_by]. do 3 f_equal. ring.
    + destruct (LDp_all solve p maf prior b t y e th ma om smax fmin fmax false pr Hsv Hb Hinc Hp HL Em Lma Nma ltac:(auto) EA ltac:(auto) ltac:(discriminate) E0 ltac:(lra)) as (x & w & E & Hx).
      destruct (LDp_all solve p maf prior b' _ _ _ (reparam a c th) ma om _ fmin fmax false pr Hsv Hb' (retime_inc back s t Hinc) Hp HL' Em' Lma Nma ltac:(auto) EA' ltac:(auto) ltac:(discriminate)
        ltac:(rewrite reparam_0 by lia; nra) ltac:(rewrite reparam_1; lra)) as (z & w' & E' & Hz).
      exists (Fin (x + pr)), w, w'. split; [exact E|]. refine (eq_trans E' _). rewrite reparam_1 in Hz. rewrite reparam_2 in Hz by lia. cbn [lower_by]. do 3 f_equal.
      rewrite (loglik_transform (carma_acv (nth 0 th 0 * nth 0 th 0 / carma_acv 1 ma om 0) ma om) back a c s t y e (nth 1 th 0) (nth 2 th 0) x Ha ltac:(lra) Ly Le Hx
        (carma_cov (nth 0 (reparam a c th) 0 * nth 0 (reparam a c th) 0 / carma_acv 1 ma om 0) ma om) z); [| |exact Hz].
      2:{ intros u q. unfold carma_cov. rewrite carma_acv_scale. rewrite (carma_acv_scale (nth 0 th 0 * nth 0 th 0 / carma_acv 1 ma om 0)).
          rewrite reparam_0 by lia. unfold Rdiv. ring. }
      ring.
  - exists NInf, b, b'. split; [exact (LDp_none solve p maf prior b t y e th om smax fmin fmax Hb HL EA Hout)|].
    apply (LDp_none solve p maf prior b' _ _ _ _ om (a * smax) fmin fmax Hb' HL' EA'). intros H. apply Hout, Hiff, H.
Qed.
