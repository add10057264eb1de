(** Objects as the constructors of carpack.hpp leave them, and the counterexamples C26, C31, C32. *)
From Coq Require Import Reals List Arith ZArith Lra Lia Bool Permutation.
From Coquelicot Require Import Complex.
From Verif Require Import Arith Res ListLemmas KFModel Spec Gauss Emb History InitProof KF1R OUpd KF1X KF1Main KF1More.
From Verif Require Import Cx KFpModel KFpProof SpecCarma CLin KFpR KFpX KFpMain KFpTop KFpMore SpecModel CarpackModel RootsProof PriorProof LogLikProof LogLikMain.
Import ListNotations.
Local Open Scope R_scope.

(** ** Any arithmetic: the constructors give well-formed objects unless times are dropped *)
Section Gen.
Variable A : Arith.
Local Notation vec := (list (F A)).
Lemma base_new_wfb X si (raw : kf A X) t y e b : length y = length t -> length e = length t ->
  base_new si raw t y e = Ok b ->
  b_time b = t /\ b_y b = y /\ b_yerr b = e /\ k_ext (b_kf b) = k_ext raw /\ (length (k_time (b_kf b)) = length t -> wfb b).
Proof.
  intros Hy He H. unfold base_new in H.
  apply bind_Ok in H. destruct H as (v & _ & H). apply bind_Ok in H. destruct H as (bd & _ & H).
  apply bind_Ok in H. destruct H as (s & Es & H). injection H as <-. cbn [b_time b_y b_yerr b_kf].
  destruct (new_usable A X si raw t y e s Hy He Es) as (Hu & _ & Hx).
  split; [reflexivity|]. split; [reflexivity|]. split; [reflexivity|]. split; [exact Hx|].
  intros Hk. unfold wfb. cbn [b_time b_y b_yerr b_kf]. repeat split; try apply Hu; congruence.
Qed.
Lemma carp_new_wfb si (raw : kfp A) p t y e b : length y = length t -> length e = length t -> goodp raw ->
  carp_new si raw p t y e = Ok b ->
  b_time b = t /\ b_y b = y /\ b_yerr b = e /\ goodp (b_kf b) /\ (length (k_time (b_kf b)) = length t -> wfb b) /\ p <> O.
Proof.
  intros Hy He Hg H. unfold carp_new in H. apply bind_Ok in H. destruct H as (b0 & E0 & H).
  destruct (base_new_wfb _ si raw t y e b0 Hy He E0) as (H1 & H2 & H3 & H4 & H5).
  destruct (Nat.eqb_spec p 0) as [->|Hp]; [discriminate|]. injection H as <-.
  split; [exact H1|]. split; [exact H2|]. split; [exact H3|]. split; [|split; [exact H5|exact Hp]].
  unfold goodp, dims_ok in *. cbn [b_kf set_kf SetMAp set_ext k_ext x_state x_SV x_omega]. rewrite H4. exact Hg.
Qed.
Lemma zcar_new_inv si (raw : kfp A) p t y e b : zcar_new si raw p t y e = Ok b ->
  exists b0, carp_new si raw p t y e = Ok b0 /\ static_of b = static_of b0 /\ (wfb b0 -> wfb b).
Proof.
  intros H. unfold zcar_new in H. apply bind_Ok in H. destruct H as (b0 & E0 & H).
  apply bind_Ok in H. destruct H as (d & _ & H). apply bind_Ok in H. destruct H as (m & _ & H).
  apply bind_Ok in H. destruct H as (ma & _ & H). injection H as <-. exists b0. split; [exact E0|]. split; [reflexivity|trivial].
Qed.
Lemma zcar_is_carp solve si (raw : kfp A) p t y e zb : length y = length t -> length e = length t -> goodp raw ->
  zcar_new si raw p t y e = Ok zb -> length (k_time (b_kf zb)) = length t ->
  exists b, carp_new si raw p t y e = Ok b /\
    forall theta, obs_fst (LogDensity (zcar_cls solve p) zb theta) = obs_fst (LogDensity (carp_cls solve p) b theta).
Proof.
  intros Hy He Hg Hz Hk. destruct (zcar_new_inv _ _ _ _ _ _ _ Hz) as (b & E & Hs & Hw). exists b. split; [exact E|].
  destruct (carp_new_wfb si raw p t y e b Hy He Hg E) as (_ & _ & _ & _ & Hwf & _).
  assert (wfb b) as Hwb by (apply Hwf; rewrite <- Hk; exact (f_equal (fun u => length (st_ktime u)) (eq_sym Hs))).
  intros theta. destruct (@LD_purep A solve p (fun _ => Ok (carp_ma A p)) (LogPrior A) b theta Hwb) as [E1 _].
  destruct (@LD_purep A solve p (fun _ => Ok (carp_ma A p)) (LogPrior A) zb theta (Hw Hwb)) as [E2 _].
  unfold zcar_cls, carp_cls. rewrite E1, E2, Hs. reflexivity.
Qed.

(** SetMLE only changes the flag *)
Lemma SetMLE_wfb X (b : base A X) ign : wfb b -> wfb (SetMLE b ign).
Proof. intros H. exact H. Qed.
Lemma SetMLE_car1 (b : base A (F A)) ign theta : wfb b ->
  obs_fst (LogDensity (car1_cls A) (SetMLE b ign) theta) = obs_fst (LogDensity (car1_cls A) b theta).
Proof.
  intros Hw. destruct (@LD_pure1 A b theta Hw) as [E1 _]. destruct (@LD_pure1 A (SetMLE b ign) theta Hw) as [E2 _].
  rewrite E1, E2. reflexivity.
Qed.
End Gen.

(** ** Finite data *)
Lemma fold_Rsum (l : list R) a : fold_left (fadd AX) (map Fin l) (Fin a) = Fin (a + Rsum (fun i => nth i l 0) (length l)).
Proof.
  revert a; induction l as [|x l IH]; intros a; cbn [map fold_left length]; [cbn [Rsum]; f_equal; ring|].
  change (fadd AX (Fin a) (Fin x)) with (Fin (a + x)). rewrite IH, Rsum_shift. cbn [nth]. f_equal. ring.
Qed.
Lemma vsum_Fin l : vsum AX (map Fin l) = Fin (Rsum (fun i => nth i l 0) (length l)).
Proof. unfold vsum. change (fofZ AX 0) with (Fin 0). rewrite fold_Rsum. f_equal. ring. Qed.
Lemma IZR_nat n : IZR (Z.of_nat n) = INR n. Proof. symmetry. apply INR_IZR_INZ. Qed.
Lemma vmean_Fin l : l <> [] -> vmean AX (map Fin l) = Fin (smean l).
Proof.
  intros H. unfold vmean. rewrite vsum_Fin, map_length. cbn [fofZ AX]. rewrite IZR_nat.
  apply fin_div. apply not_0_INR. destruct l; [congruence|discriminate].
Qed.
Lemma vvar_Fin y : (2 <= length y)%nat -> vvar AX (map Fin y) = Ok (Fin (svar y)).
Proof.
  intros H. destruct y as [|a [|c r]]; cbn [length] in H; try lia. set (y := a :: c :: r) in *.
  change (vvar AX (map Fin y)) with (let m := vmean AX (map Fin y) in
     Ok (fdiv AX (vsum AX (map (fun x => fmul AX (fsub AX m x) (fsub AX m x)) (map Fin y))) (fofZ AX (Z.of_nat (length (map Fin y) - 1))))).
  cbv zeta. rewrite vmean_Fin by discriminate. rewrite map_map.
  change (map (fun x => fmul AX (fsub AX (Fin (smean y)) (Fin x)) (fsub AX (Fin (smean y)) (Fin x))) y)
    with (map (fun x => Fin ((smean y - x) * (smean y - x))) y).
  rewrite <- (map_map (fun x => (smean y - x) * (smean y - x)) Fin). rewrite vsum_Fin, !map_length. cbn [fofZ AX]. rewrite IZR_nat.
  f_equal. rewrite minus_INR by (cbn; lia). change (INR 1) with 1.
  assert (1 < INR (length y)) as H1 by (apply (lt_INR 1); cbn; lia).
  change (fdiv AX) with xdiv. rewrite fin_div by lra. f_equal. unfold svar. f_equal. apply Rsum_ext. intros i Hi.
  rewrite (nth_map_R (fun x => (smean y - x) * (smean y - x))) by exact Hi. ring.
Qed.
Lemma svar_pos y i : (2 <= length y)%nat -> (i < length y)%nat -> nth i y 0 <> smean y -> 0 < svar y.
Proof.
  intros H2 Hi Hne. unfold svar. assert (1 < INR (length y)) as H1 by (apply (lt_INR 1); lia).
  apply Rdiv_lt_0_compat; [|lra]. set (f := fun i => (nth i y 0 - smean y) ^ 2).
  assert (forall n, 0 <= Rsum f n) as Hnn.
  { induction n as [|n IH]; cbn [Rsum]; [lra|]. pose proof (pow2_ge_0 (nth n y 0 - smean y)). unfold f at 2. lra. }
  replace (length y) with (S i + (length y - S i))%nat by lia. rewrite Rsum_app, Rsum_S. pose proof (Hnn i).
  assert (0 < f i) by (unfold f; pose proof (pow2_ge_0 (nth i y 0 - smean y)); assert (nth i y 0 - smean y <> 0) by lra; pose proof (pow_nonzero _ 2 H3); lra).
  assert (0 <= Rsum (fun k => f (S i + k)%nat) (length y - S i)).
  { generalize (length y - S i)%nat as n. induction n as [|n IH]; cbn [Rsum]; [lra|]. unfold f at 2. pose proof (pow2_ge_0 (nth (S i + n) y 0 - smean y)). lra. }
  lra.
Qed.
Lemma svar_nonneg y : (2 <= length y)%nat -> 0 <= svar y.
Proof.
  intros H2. unfold svar. assert (1 < INR (length y)) as H1 by (apply (lt_INR 1); lia).
  apply Rmult_le_pos; [|apply Rlt_le, Rinv_0_lt_compat; lra].
  generalize (length y) as n. intros n. induction n as [|n IH]; cbn [Rsum]; [lra|]. pose proof (pow2_ge_0 (nth n y 0 - smean y)). lra.
Qed.

Lemma vmax_fold (d : list R) (m0 : R) :
  exists m, fold_left (fun m x => if flt AX m x then x else m) (map Fin d) (Fin m0) = Fin m /\ (m = m0 \/ In m d) /\ m0 <= m /\ forall x, In x d -> x <= m.
Proof.
  revert m0; induction d as [|x d IH]; intros m0; cbn [map fold_left].
  - exists m0. split; [reflexivity|]. split; [left; reflexivity|]. split; [lra|intros ? []].
  - destruct (flt AX (Fin m0) (Fin x)) eqn:E.
    + destruct (IH x) as (m & H1 & H2 & H3 & H4). exists m. split; [exact H1|].
      assert (m0 < x) by (apply flt_Fin; exact E).
      split; [right; destruct H2 as [->|H2]; [left; reflexivity|right; exact H2]|]. split; [lra|].
      intros z [<-|Hz]; [exact H3|apply H4, Hz].
    + destruct (IH m0) as (m & H1 & H2 & H3 & H4). exists m. split; [exact H1|].
      assert (~ m0 < x) by (intros Hlt; apply flt_Fin in Hlt; rewrite Hlt in E; discriminate).
      split; [destruct H2 as [->|H2]; [left; reflexivity|right; right; exact H2]|]. split; [exact H3|].
      intros z [<-|Hz]; [lra|apply H4, Hz].
Qed.
Lemma vmax_ok (d : list R) : d <> [] -> exists m, vmax AX (map Fin d) = Ok (Fin m) /\ In m d /\ forall x, In x d -> x <= m.
Proof.
  destruct d as [|x d]; [congruence|]. intros _. cbn [map]. unfold vmax. cbn [fold_left].
  change (flt AX (fneg AX (finf AX)) (Fin x)) with true. cbv iota.
  destruct (vmax_fold d x) as (m & E & H1 & H2 & H3). exists m. rewrite E. split; [reflexivity|].
  split; [destruct H1 as [->|H1]; [left; reflexivity|right; exact H1]|]. intros z [<-|Hz]; [exact H2|apply H3, Hz].
Qed.

Lemma make_bounds_Fin t (sd : F AX) ign : (2 <= length t)%nat -> strictly_increasing t ->
  exists fmin fmax, make_bounds AX (map Fin t) sd ign = Ok (mkB AX sd (Fin fmax) (Fin fmin) ign) /\ 0 < fmax /\
   (forall i, (S i < length t)%nat -> 1 / fmax <= nth (S i) t 0 - nth i t 0) /\
   (exists i, (S i < length t)%nat /\ 1 / fmax = nth (S i) t 0 - nth i t 0) /\ fmin = 1 / (nth (length t - 1) t 0 - nth 0 t 0).
Proof.
  intros Hn Hinc. unfold make_bounds. rewrite make_dt_Fin by exact Hn. cbn [bind].
  assert (length (diffs AR t) = length t - 1)%nat as Ld by apply dlen.
  assert (diffs AR t <> []) as Hne by (intros E; rewrite E in Ld; cbn in Ld; lia).
  destruct (vmin_ok (diffs AR t) Hne) as (m & Em & Hin & Hmin). rewrite Em. cbn [bind].
  destruct (In_nth _ _ 0 Hin) as (i & Hi & Ei). change (length (diffs AR t)) with (@length R (diffs AR t)) in Ld. rewrite Ld in Hi.
  rewrite dnth in Ei by lia.
  assert (0 < m) as Hm by (rewrite <- Ei; pose proof (Hinc i (S i) ltac:(lia) ltac:(lia)); lra).
  assert (t <> []) as Htn by (destruct t; [cbn in Hn; lia|discriminate]).
  destruct (vmax_ok t Htn) as (hi & Eh & Hh1 & Hh2). rewrite Eh. cbn [bind].
  destruct (vmin_ok t Htn) as (lo & El & Hl1 & Hl2). rewrite El. cbn [bind].
  assert (hi = nth (length t - 1) t 0) as ->.
  { apply Rle_antisym; [|apply Hh2, nth_In; lia]. destruct (In_nth _ _ 0 Hh1) as (k & Hk & <-).
    destruct (Nat.eq_dec k (length t - 1)) as [->|Hne']; [lra|]. apply Rlt_le, Hinc; lia. }
  assert (lo = nth 0 t 0) as ->.
  { apply Rle_antisym; [apply Hl2, nth_In; lia|]. destruct (In_nth _ _ 0 Hl1) as (k & Hk & <-).
    destruct k as [|k]; [lra|]. apply Rlt_le, Hinc; lia. }
  pose proof (Hinc 0%nat (length t - 1)%nat ltac:(lia) ltac:(lia)) as Hsp.
  exists (1 / (nth (length t - 1) t 0 - nth 0 t 0)), (1 / m).
  assert (1 / (1 / m) = m) as Emm by (field; lra).
  split.
  { change (fofZ AX 1) with (Fin 1). change (fdiv AX) with xdiv. cbn [fsub AX xsub]. rewrite fin_div by lra.
    rewrite fin_div by lra. reflexivity. }
  split; [apply Rdiv_lt_0_compat; lra|]. rewrite Emm. split.
  { intros j Hj. rewrite <- dnth by exact Hj. apply Hmin. apply nth_In. change (length (diffs AR t)) with (@length R (diffs AR t)). lia. }
  split; [exists i; split; [lia|congruence]|reflexivity].
Qed.

Lemma increasing_distinct t : (2 <= length t)%nat -> strictly_increasing t -> exists a b, In a t /\ In b t /\ a <> b.
Proof.
  intros Hn Hinc. exists (nth 0 t 0), (nth 1 t 0). split; [apply nth_In; lia|]. split; [apply nth_In; lia|].
  pose proof (Hinc 0%nat 1%nat ltac:(lia) ltac:(lia)). lra.
Qed.

(** objects built from finite data with distinct increasing times *)
Lemma base_new_Fin X (si : list (F AX) -> option (list nat)) (raw : kf AX X) (t y e : list R) : valid_sort_index si -> (2 <= length t)%nat -> length y = length t -> length e = length t ->
  strictly_increasing t ->
  exists b smax fmin fmax, base_new si raw (map Fin t) (map Fin y) (map Fin e) = Ok b /\
    base_holds b t y e (mkB AX (Fin smax) (Fin fmax) (Fin fmin) false) /\ data_bounds t y smax fmin fmax.
Proof.
  intros Hsi Hn Hy He Hinc.
  destruct (construct_main X si raw t y e Hsi Hy He (increasing_distinct t Hn Hinc)) as (s & t' & y' & e' & Es & S1 & S2 & S3 & _ & _ & _ & Hid & Hu & _ & Hx & _).
  destruct (Hid Hinc) as (-> & -> & ->).
  assert (fmul AX (fofZ AX 10) (fsqrt AX (Fin (svar y))) = Fin (10 * sqrt (svar y))) as Esd.
  { cbn [fsqrt fmul fofZ AX]. rewrite fin_sqrt by (apply svar_nonneg; lia). reflexivity. }
  destruct (make_bounds_Fin t (Fin (10 * sqrt (svar y))) false Hn Hinc) as (fmin & fmax & Eb & P1 & P2 & P3 & P4).
  exists (@mkBase AX X (map Fin t) (map Fin y) (map Fin e) s (mkB AX (Fin (10 * sqrt (svar y))) (Fin fmax) (Fin fmin) false)), (10 * sqrt (svar y)), fmin, fmax.
  split; [|split].
  - unfold base_new. rewrite vvar_Fin by lia. cbn [bind]. rewrite Esd, Eb. cbn [bind]. rewrite Es. reflexivity.
  - unfold base_holds, wfb. cbn [b_time b_y b_yerr b_kf b_bounds]. rewrite S1, !map_length. repeat split; try assumption; apply Hu.
  - constructor; try assumption; reflexivity.
Qed.
Lemma carp_new_Fin (si : list (F AX) -> option (list nat)) (raw : kfp AX) p (t y e : list R) : valid_sort_index si -> (2 <= length t)%nat -> length y = length t -> length e = length t ->
  strictly_increasing t -> p <> O ->
  exists b smax fmin fmax, carp_new si raw p (map Fin t) (map Fin y) (map Fin e) = Ok b /\
    base_holds b t y e (mkB AX (Fin smax) (Fin fmax) (Fin fmin) false) /\ data_bounds t y smax fmin fmax.
Proof.
  intros Hsi Hn Hy He Hinc Hp. destruct (base_new_Fin _ si raw t y e Hsi Hn Hy He Hinc) as (b & smax & fmin & fmax & E & Hb & Hd).
  exists (set_kf b (SetMAp (b_kf b) (carp_ma AX p))), smax, fmin, fmax. split; [|split; [|exact Hd]].
  - unfold carp_new. rewrite E. cbn [bind]. destruct (Nat.eqb_spec p 0); [contradiction|reflexivity].
  - exact Hb.
Qed.
Lemma SetMLE_holds X (b : base AX X) t y e smax fmin fmax ign ign' : base_holds b t y e (mkB AX (Fin smax) (Fin fmax) (Fin fmin) ign) ->
  base_holds (SetMLE b ign') t y e (mkB AX (Fin smax) (Fin fmax) (Fin fmin) ign').
Proof.
  intros (H1 & H2 & H3 & H4 & H5 & H6). unfold base_holds. cbn [SetMLE b_time b_y b_yerr b_kf b_bounds]. rewrite H6.
  repeat split; try assumption; apply H1.
Qed.
