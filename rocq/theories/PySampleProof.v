(** Proofs about PySampleModel: add_mle, the dictionary of samples, the summaries and the best fits. *)
From Coq Require Import List Arith ZArith Reals Lra Lia Permutation Bool String.
From Coquelicot Require Import Coquelicot.
From Verif Require Import Arith Res ListLemmas KFModel KF1Proof KFpProof CholProof Spec Gauss Emb KF1R KF1X KF1Main KF1More OUpd SimProof InitProof Cx KFpModel SpecCarma CLin KFpX KFpMain KFpTop KFpMore SpecModel
  CarpackModel RootsProof PriorProof LogLikProof LogLikMain CarpackTop EngineModel StartModel PyModel PySim PyFuns PyDerive PyPredict PyExtra PyBox PyKFSim PySampleModel PyQuant PyPsd.
Import ListNotations.
Local Open Scope R_scope.
Local Notation length := List.length.
Local Notation Forall2 := List.Forall2.

(** ** Loops *)
Lemma rmap_F2 {T U} (f : T -> res U) l l' : Forall2 (fun x y => f x = Ok y) l l' -> rmap f l = Ok l'.
Proof. intros H. induction H as [|x y l l' E H IH]; [reflexivity|]. cbn [rmap]. rewrite E. cbn [bind]. rewrite IH. reflexivity. Qed.
Lemma rmap_map {T U V} (f : T -> res U) (g : V -> T) (h : V -> U) l : (forall v, In v l -> f (g v) = Ok (h v)) -> rmap f (map g l) = Ok (map h l).
Proof.
  intros H. apply rmap_F2. induction l as [|v l IH]; constructor; [apply H; left; reflexivity|]. apply IH. intros w Hw. apply H. right. exact Hw.
Qed.
Lemma rmap_ok {T U} (f : T -> res U) l (h : T -> U) : (forall v, In v l -> f v = Ok (h v)) -> rmap f l = Ok (map h l).
Proof. intros H. rewrite <- (map_id l) at 1. apply rmap_map. exact H. Qed.
Lemma velem_seq {T} (l : list T) : velem l (seq 0 (length l)) = Ok l.
Proof.
  destruct l as [|a l']; [reflexivity|]. set (l := a :: l'). rewrite (@velem_ok _ _ _ a) by (intros i Hi; apply in_seq in Hi; lia).
  f_equal. apply nth_ext with (d := a) (d' := a); [rewrite map_length, seq_length; reflexivity|].
  intros i Hi. rewrite map_length, seq_length in Hi. rewrite (nth_indep _ a (nth 0 l a)) by (rewrite map_length, seq_length; exact Hi).
  rewrite (map_nth (fun i => nth i l a)), seq_nth by exact Hi. reflexivity.
Qed.

(** ** add_mle *)
(** In Python 3 the call raises, after four of the ten entries were written *)
Theorem add_mle_py3 A (isreal : list (cx A) -> bool) p q (old : mle_dict A) (m : opt A) x0 x1 x2 xs : o_x m = x0 :: x1 :: x2 :: xs ->
  add_mle isreal true p q old m =
    (mkMle (Some (fneg A (o_fun m))) (Some (fmul A x0 x0)) (Some x1) (Some x2) None None None None None None, Throw Elogic).
Proof. intros E. unfold add_mle. rewrite E. reflexivity. Qed.

(** With integer division: the entries are those of the derived parameters of the C++ library at the same vector *)
Lemma mle_ma_derive (isreal : list (cx AX) -> bool) p q x : mle_ma isreal false p q x = py_ma_coefs isreal p q x.
Proof.
  unfold mle_ma, py_ma_coefs. destruct (q =? 0)%nat; [reflexivity|]. unfold range_half, py_roots. cbn [bind].
  destruct (py_quads AX (map (fexp AX) (skipn (3 + p) x)) (q / 2)) as [r| | |]; cbn [bind]; try reflexivity.
  match goal with |- bind ?x _ = _ => destruct x as [roots| | |]; cbn [bind]; try reflexivity end.
  destruct (vget (np_poly isreal roots) q) as [d| | |]; cbn [bind]; try reflexivity. f_equal. rewrite map_rev, map_map. reflexivity.
Qed.
Definition mle_good (p q : nat) (th : list R) (g : R) (d : mle_dict AX) : Prop :=
  exists (om : list C) (ma ar : list R) (sg sig : R),
    d = mkMle (A := AX) (Some (Fin (- g))) (Some (Fin (nth 0 th 0 * nth 0 th 0))) (Some (Fin (nth 1 th 0))) (Some (Fin (nth 2 th 0)))
          (Some (map FinC om)) (Some (map (fun z => Fin (- fst z / (2 * PI))) om)) (Some (map (fun z => Fin (Rabs (snd z) / (2 * PI))) om))
          (Some (map Fin ar)) (Some (map Fin ma)) (Some (Fin sg)) /\
    carma_params p q th sig om (ma ++ repeat 0 (p - S q)) /\ length ma = S q /\ length om = p /\
    length ar = S p /\ (forall x, desc_poly (map RtoC ar) x = roots_poly om x) /\ 0 < sg /\ sg * sg = sig.
Lemma pi_div r : fdiv AX (Fin r) (fmul AX (fofZ AX 2) (fpi AX)) = Fin (r / (2 * PI)).
Proof. refine (fin_div _ _ _). pose proof PI_RGT_0. lra. Qed.

(** the derived row, with everything the filter needs *)
Lemma derive_row (isreal : list (cx AX) -> bool) p q (th : list R) : (2 <= p)%nat -> (q < p)%nat -> length th = (3 + p + q)%nat -> nth 0 th 0 <> 0 ->
  (forall om : list C, ARRoots AX p (map Fin th) = Ok (map FinC om) -> NoDup om) ->
  exists (om : list C) (ms : list R) (sg : R), let ma := ms ++ repeat 0 (p - S q) in
    py_derive isreal q (map Fin th) = Ok (mkD (Fin (nth 0 th 0 * nth 0 th 0) : F AX) (Fin (nth 1 th 0)) (Fin (nth 2 th 0)) (map FinC om) (map Fin ms) (Fin sg)) /\
    py_ar_roots AX p (map Fin th) = Ok (map FinC om) /\ py_ma_coefs isreal p q (map Fin th) = Ok (map Fin ms) /\
    carma_params p q th (sg * sg) om ma /\ carma_ok (sg * sg) om ma /\ 0 < sg /\ length om = p /\ length ms = S q /\ conj_closed om /\
    sg * sg = nth 0 th 0 * nth 0 th 0 / carma_acv 1 ma om 0 /\ 0 < carma_acv 1 ma om 0 /\ NoDup om /\ (forall z, In z om -> fst z < 0).
Proof.
  intros Hp Hq Lth Ht0 Hnd.
  destruct (py_derive_cpp isreal p q th Hp Hq Lth) as (d & Ed & Ev & Esc & Emu & Ear & Ema & Esig & Hfin).
  destruct (ARRoots_main p th ltac:(lia)) as (om & Eom & Lom & Hneg & Hcc & _).
  destruct (ExtractMA_carma_main p q th Hq ltac:(lia)) as (ma & Ema' & Lma & Hma0 & _).
  specialize (Hnd om Eom). assert (d_roots d = map FinC om) as Edr by congruence.
  destruct (Hfin om Edr Hnd) as (sg & Esg & Hsg).
  destruct (py_ma_Fin isreal p q th Hq Lth) as (ms & Ems & Lms & Ecpp).
  assert (py_ar_roots AX p (map Fin th) = Ok (map FinC om)) as Epr.
  { rewrite py_ar_roots_Fin by lia. rewrite <- Eom. symmetry. apply quad_roots_Fin. lia. }
  assert (d_ma d = map Fin ms) as Edm.
  { unfold py_derive in Ed. change (F AX) with xr in Ed. rewrite map_length, Lth in Ed. replace (3 + p + q - 3 - q)%nat with p in Ed by lia.
    rewrite !vget_Fin in Ed by lia. cbn [bind] in Ed. rewrite Epr in Ed. cbn [bind] in Ed. rewrite Ems in Ed. cbn [bind] in Ed.
    injection Ed as <-. reflexivity. }
  assert (ma = ms ++ repeat 0 (p - S q)) as Em by (apply map_Fin_inj; congruence).
  assert (stable_roots om) as Hst by (split; [exact Hnd|split; [exact Hneg|intros z Hz; apply conj_closed_in; assumption]]).
  assert (exists l, nth l ma 0 <> 0) as Hex by (exists O; rewrite Hma0; lra).
  assert (0 < carma_acv 1 ma om 0) as Hpos by (apply carma_acv_pos; [exact Hst|lia|congruence|exact Hex]).
  assert (sg * sg = nth 0 th 0 * nth 0 th 0 / carma_acv 1 ma om 0) as Esq.
  { rewrite Esg in Esig. unfold Sigp in Esig. rewrite Eom in Esig. cbn [bind] in Esig. rewrite Ema' in Esig. cbn [bind] in Esig. rewrite vget_Fin in Esig by lia.
    cbn [bind] in Esig. change (fofZ AX 1) with (Fin 1) in Esig. change (fofZ AX 0) with (Fin 0) in Esig.
    rewrite (Variance_Fin om ma 1 0 Hnd Hneg) in Esig. replace (1 * 1) with 1 in Esig by ring.
    assert (fdiv AX (fmul AX (Fin (nth 0 th 0)) (Fin (nth 0 th 0))) (Fin (carma_acv 1 ma om 0)) = Fin (nth 0 th 0 * nth 0 th 0 / carma_acv 1 ma om 0)) as E by (refine (fin_div _ _ _); lra).
    injection Esig as Esig. apply (fun H => eq_trans (eq_sym E) H) in Esig. injection Esig as Esig. symmetry. exact Esig. }
  assert (0 < sg * sg) as Hp2 by (rewrite Esq; apply Rdiv_lt_0_compat; [nra|exact Hpos]).
  assert (carma_ok (sg * sg) om ma) as Hok.
  { repeat split; try apply Hst; try lia; try exact Hex. exact Hp2. }
  exists om, ms, sg. cbv zeta. rewrite <- Em. split.
  { rewrite Ed. destruct d as [a1 a2 a3 a4 a5 a6]. cbn [d_var d_scale d_mu d_roots d_ma d_sigma] in *. congruence. }
  split; [exact Epr|]. split; [exact Ems|]. split.
  { split; [exact Eom|]. split; [exact Ema'|]. rewrite Esig, Esg. reflexivity. }
  split; [exact Hok|]. split; [nra|]. split; [exact Lom|]. split; [exact Lms|]. split; [exact Hcc|]. split; [exact Esq|]. split; [exact Hpos|].
  split; [exact Hnd|exact Hneg].
Qed.

Lemma ar_coefs_Fin isreal (om : list C) : conj_closed om ->
  exists ar : list R, py_ar_coefs isreal (map FinC om) = map Fin ar /\ length ar = S (length om) /\ (forall x, desc_poly (map RtoC ar) x = roots_poly om x).
Proof.
  intros Hc. unfold py_ar_coefs. rewrite np_poly_re. destruct (polycoefs_main om) as (cs & E & Hlen & _ & Hev & Hre). specialize (Hre Hc).
  exists (map fst cs). split; [rewrite E, map_map; reflexivity|]. split; [rewrite map_length; exact Hlen|].
  assert (map RtoC (map fst cs) = cs) as Ecs.
  { rewrite map_map. rewrite <- (map_id cs) at 2. apply map_ext_in. intros z Hz. specialize (Hre z Hz). destruct z as [a b]. cbn [fst snd] in *.
    rewrite Hre. reflexivity. }
  intros x. rewrite Ecs. apply Hev.
Qed.

Theorem add_mle_py2 (isreal : list (cx AX) -> bool) p q (old : mle_dict AX) (th : list R) (g : R) : (2 <= p)%nat -> (q < p)%nat -> length th = (3 + p + q)%nat ->
  nth 0 th 0 <> 0 -> (forall om : list C, ARRoots AX p (map Fin th) = Ok (map FinC om) -> NoDup om) ->
  exists d, add_mle isreal false p q old (mkOpt AX (map Fin th) (Fin g)) = (d, Ok tt) /\ mle_good p q th g d.
Proof.
  intros Hp Hq Lth Ht0 Hd. destruct (derive_row isreal p q th Hp Hq Lth Ht0 Hd) as (om & ms & sg & H). cbv zeta in H.
  destruct H as (_ & Epr & Ems & Hpar & Hok & Hsg & Lom & Lms & Hcc & Esq & Hpos & Hnd & Hneg).
  destruct (ar_coefs_Fin isreal om Hcc) as (ar & Ear & Lar & Har).
  eexists. split.
  - unfold add_mle. cbn [o_x o_fun]. change (F AX) with xr. rewrite !vget_Fin by lia. change (F AX) with xr in *.
    pose proof Epr as Epr'. unfold py_ar_roots, py_roots in Epr'. unfold range_half. cbn [bind]. change (F AX) with xr in *.
    rewrite Epr'. rewrite (mle_ma_derive isreal p q (map Fin th)). change (F AX) with xr in *. rewrite Ems. reflexivity.
  - exists om, ms, ar, sg, (sg * sg). split.
    + cbn [ml_loglik ml_var ml_scale ml_mu ml_roots ml_width ml_cent ml_ar ml_ma ml_sigma]. rewrite Ear, !map_map. f_equal; try reflexivity.
      * f_equal. apply map_ext. intros z. unfold py_width. refine (eq_trans (pi_div _) _). reflexivity.
      * f_equal. apply map_ext. intros z. unfold py_centroid. refine (eq_trans (pi_div _) _). reflexivity.
      * f_equal. change (fofZ AX 1) with (Fin 1). change (fofZ AX 0) with (Fin 0). rewrite carma_variance_Fin by (try assumption; lia). rewrite Rabs_R0.
        rewrite (carma_acv_pad 1 ms (p - S q) om 0) in Hpos, Esq.
        assert (fdiv AX (fmul AX (Fin (nth 0 th 0)) (Fin (nth 0 th 0))) (Fin (carma_acv 1 ms om 0)) = Fin (sg * sg)) as ->.
        { rewrite Esq. refine (fin_div _ _ _). lra. }
        refine (eq_trans (fin_sqrt _ _) _); [nra|]. rewrite sqrt_square by lra. reflexivity.
    + split; [exact Hpar|]. split; [exact Lms|]. split; [exact Lom|]. split; [rewrite Lar, Lom; reflexivity|]. split; [exact Har|]. split; [exact Hsg|reflexivity].
Qed.

(** ** The dictionary of a CarmaSample *)
Local Open Scope string_scope.
Section Dict.
Variable A : Arith.
Local Notation F := (F A).
Variables (isreal : list (cx A) -> bool) (p q : nat).

Lemma derive_inv row (d : drow A) : py_derive isreal q row = Ok d -> length row = (3 + p + q)%nat ->
  exists x0, vget row 0 = Ok x0 /\ d_var d = fmul A x0 x0 /\ vget row 1 = Ok (d_scale d) /\ vget row 2 = Ok (d_mu d) /\
    py_ar_roots A p row = Ok (d_roots d) /\ py_ma_coefs isreal p q row = Ok (d_ma d) /\ d_sigma d = py_sigma (d_roots d) (d_ma d) (d_var d).
Proof.
  intros E L. unfold py_derive in E. rewrite L in E. replace (3 + p + q - 3 - q)%nat with p in E by lia.
  destruct (vget row 0) as [x0| | |]; try discriminate. cbn [bind] in E. destruct (vget row 1) as [x1| | |]; try discriminate. cbn [bind] in E.
  destruct (vget row 2) as [x2| | |]; try discriminate. cbn [bind] in E. destruct (py_ar_roots A p row) as [rt| | |]; try discriminate. cbn [bind] in E.
  destruct (py_ma_coefs isreal p q row) as [ma| | |]; try discriminate. cbn [bind] in E. injection E as <-. exists x0. cbn [d_var d_scale d_mu d_roots d_ma d_sigma].
  repeat split.
Qed.

Variables (trace : list (list F)) (D : list (drow A)).
Hypothesis Hne : trace <> [].
Hypothesis Hlen : forall row, In row trace -> length row = (3 + p + q)%nat.
Hypothesis HD : Forall2 (fun row d => py_derive isreal q row = Ok d) trace D.

Lemma rmap_D {U} (f : list F -> res U) (g : drow A -> U) :
  (forall row d, length row = (3 + p + q)%nat -> py_derive isreal q row = Ok d -> f row = Ok (g d)) -> rmap f trace = Ok (map g D).
Proof.
  intros H. apply rmap_F2. clear Hne. induction HD as [|row d tr D' E HF IH]; [constructor|]. cbn [map]. constructor.
  - apply H; [apply Hlen; left; reflexivity|exact E].
  - apply IH; [|exact HF]. intros r Hr. apply Hlen. right. exact Hr.
Qed.
Lemma zip_D : exists c0, rmap (fun row => vget row 0) trace = Ok c0 /\ map (fun x => fmul A x x) c0 = map (fun d => d_var d) D /\
  map (fun x => py_sigma (fst (fst x)) (snd (fst x)) (fmul A (snd x) (snd x))) (combine (combine (map (fun d => d_roots d) D) (map (fun d => d_ma d) D)) c0) =
  map (fun d => d_sigma d) D.
Proof.
  clear Hne. induction HD as [|row d tr D' E HF IH]; [exists []; repeat split|].
  destruct IH as (c0 & E1 & E2 & E3); [intros r Hr; apply Hlen; right; exact Hr|exact HF|].
  destruct (derive_inv row d E (Hlen row (or_introl eq_refl))) as (x0 & H0 & Hv & _ & _ & _ & _ & Hs).
  exists (x0 :: c0). cbn [rmap]. rewrite H0. cbn [bind]. rewrite E1. cbn [bind map combine fst snd]. rewrite E2, E3, <- Hv, <- Hs. repeat split.
Qed.

Definition col {T} (g : T -> F) (l : list T) : arr A := @V2 A (map (fun x => [g x]) l).
Definition carma_dict (lp ll : list F) : dict A :=
  [("logpost", col (fun x => x) lp); ("var", col (fun d => d_var d) D); ("measerr_scale", col (fun d => d_scale d) D); ("mu", col (fun d => d_mu d) D);
   ("quad_coefs", @V2 A (map (fun row => map (fexp A) (firstn p (skipn 3 row))) trace)); ("ar_roots", @Z2 A (map (fun d => d_roots d) D));
   ("psd_centroid", @V2 A (map (fun d => map (py_centroid (A := A)) (d_roots d)) D)); ("psd_width", @V2 A (map (fun d => map (py_width (A := A)) (d_roots d)) D));
   ("ar_coefs", @V2 A (map (fun d => py_ar_coefs isreal (d_roots d)) D)); ("ma_coefs", @V2 A (map (fun d => d_ma d) D)); ("sigma", col (fun d => d_sigma d) D);
   ("loglik", col (fun x => x) ll)].
Theorem CarmaSample_dict {X Om} (C : cls A X Om) (b : base A X) fn lp : length lp = length trace ->
  CarmaSample_new C b isreal q fn lp trace = (ll <- CarmaSample_loglik C b trace ;; Ok (carma_dict lp ll)).
Proof.
  intros Hlp. unfold CarmaSample_new, samples_init, carma_set_logpost, carma_from_trace. cbn [bind dset].
  destruct zip_D as (c0 & E0 & Ev & Es). destruct trace as [|row0 tr] eqn:Et; [congruence|]. rewrite <- Et in *.
  assert (length row0 - 3 - q = p)%nat as Ep by (rewrite (Hlen row0) by (rewrite Et; left; reflexivity); lia). rewrite Ep, E0.
  rewrite (rmap_D (fun row => vget row 1) (fun d => d_scale d)) by (intros row d L E; destruct (derive_inv row d E L) as (x0 & H0 & Hv & H1 & H2 & H3 & H4 & H5); assumption).
  rewrite (rmap_D (fun row => vget row 2) (fun d => d_mu d)) by (intros row d L E; destruct (derive_inv row d E L) as (x0 & H0 & Hv & H1 & H2 & H3 & H4 & H5); assumption).
  rewrite (rmap_D (fun row => py_ar_roots A p row) (fun d => d_roots d)) by (intros row d L E; destruct (derive_inv row d E L) as (x0 & H0 & Hv & H1 & H2 & H3 & H4 & H5); assumption).
  rewrite (rmap_D (fun row => py_ma_coefs isreal p q row) (fun d => d_ma d)) by (intros row d L E; destruct (derive_inv row d E L) as (x0 & H0 & Hv & H1 & H2 & H3 & H4 & H5); assumption).
  rewrite Hlp, velem_seq. cbn [bind]. destruct (CarmaSample_loglik C b trace) as [ll| | |]; cbn [bind]; try reflexivity.
  unfold carma_dict, col. cbn [dset String.eqb Ascii.eqb Bool.eqb newaxis map fst snd]. rewrite Ev, Es, !map_map. reflexivity.
Qed.
End Dict.

(** row i of the array stored under a name *)
Definition at_row {A} (d : dict A) (k : string) (i : nat) : option (list (F A)) := match dget d k with Some (V2 m) => nth_error m i | _ => None end.
Definition at_rowC {A} (d : dict A) (k : string) (i : nat) : option (list (cx A)) := match dget d k with Some (Z2 m) => nth_error m i | _ => None end.

(** a usable row of the trace of a CARMA(p, q) model *)
Definition row_ok (p q : nat) (th : list R) : Prop :=
  length th = (3 + p + q)%nat /\ nth 0 th 0 <> 0 /\ forall om : list C, ARRoots AX p (map Fin th) = Ok (map FinC om) -> NoDup om.
(** sigma, the roots and the moving average coefficients (without padding) that the C++ library computes from it *)
Definition row_par (p q : nat) (th : list R) (s : R * list C * list R) : Prop :=
  let sg := fst (fst s) in let om := snd (fst s) in let ma := snd s in
  carma_params p q th (sg * sg) om (ma ++ repeat 0 (p - S q)) /\ 0 < sg /\ length om = p /\ length ma = S q.

Lemma nth_F2 {T U} (P : T -> U -> Prop) l l' d d' i : Forall2 P l l' -> (i < length l)%nat -> P (nth i l d) (nth i l' d').
Proof. intros H. revert i. induction H as [|a b l l' HP HF IH]; intros [|i] Hi; cbn in Hi |- *; try lia; [exact HP|apply IH; lia]. Qed.
Lemma nth_error_col {T} (g : T -> list (F AX)) l d i : (i < length l)%nat -> nth_error (map g l) i = Some (g (nth i l d)).
Proof. intros H. rewrite nth_error_map, (nth_error_nth' l d H). reflexivity. Qed.
Lemma scalars_col {T} (d : dict AX) k (g : T -> F AX) (l : list T) : dget d k = Some (col AX g l) -> scalars d k = Ok (map g l).
Proof. intros E. unfold scalars, get_samples. rewrite E. cbn [bind col0 col]. apply rmap_map. reflexivity. Qed.
Lemma vectors_ok (d : dict AX) k m : dget d k = Some (@V2 AX m) -> vectors d k = Ok m.
Proof. intros E. unfold vectors, get_samples. rewrite E. reflexivity. Qed.
Lemma cvectors_ok (d : dict AX) k m : dget d k = Some (@Z2 AX m) -> cvectors d k = Ok m.
Proof. intros E. unfold cvectors, get_samples. rewrite E. reflexivity. Qed.
Lemma combine_map_l {T U V} (f : T -> U) (g : T -> V) (l : list T) : combine (map f l) (map g l) = map (fun x => (f x, g x)) l.
Proof. induction l as [|a l IH]; [reflexivity|]. cbn [map combine]. rewrite IH. reflexivity. Qed.
Lemma map_combine_snd {T U V} (f : U -> V) (l : list T) (l' : list U) : length l = length l' -> map (fun x => f (snd x)) (combine l l') = map f l'.
Proof. revert l'. induction l as [|a l IH]; intros [|b l'] H; cbn in H; try lia; [reflexivity|]. cbn [combine map snd]. rewrite IH by lia. reflexivity. Qed.
Lemma F2_in_r {T U} (P : T -> U -> Prop) l l' : Forall2 P l l' -> forall b, In b l' -> exists a, In a l /\ P a b.
Proof.
  intros H. induction H as [|a b l l' HP HF IH]; intros x []; [subst; exists a; split; [left; reflexivity|exact HP]|].
  destruct (IH x H) as (a' & Ha & HP'). exists a'. split; [right; exact Ha|exact HP'].
Qed.

Section DictX.
Variables (isreal : list (cx AX) -> bool) (p q : nat).
Hypothesis Hp : (2 <= p)%nat.
Hypothesis Hq : (q < p)%nat.
Definition drow_of (x : list R * (R * list C * list R)) : drow AX :=
  let th := fst x in let s := snd x in
  mkD (Fin (nth 0 th 0 * nth 0 th 0) : F AX) (Fin (nth 1 th 0)) (Fin (nth 2 th 0)) (map FinC (snd (fst s))) (map Fin (snd s)) (Fin (fst (fst s))).
Definition more (th : list R) (s : R * list C * list R) : Prop :=
  row_par p q th s /\ py_derive isreal q (map Fin th) = Ok (drow_of (th, s)) /\
  carma_ok (fst (fst s) * fst (fst s)) (snd (fst s)) (snd s ++ repeat 0 (p - S q)) /\ conj_closed (snd (fst s)) /\ (forall z, In z (snd (fst s)) -> fst z < 0).
Lemma derive_more rows : (forall th, In th rows -> row_ok p q th) -> exists S, Forall2 more rows S.
Proof.
  induction rows as [|th rows IH]; intros H; [exists []; constructor|]. destruct IH as (S & HS); [intros th' Hin; apply H; right; exact Hin|].
  destruct (H th (or_introl eq_refl)) as (L & H0 & Hd). destruct (derive_row isreal p q th Hp Hq L H0 Hd) as (om & ms & sg & HH). cbv zeta in HH.
  destruct HH as (Ed & _ & _ & Hpar & Hok & Hsg & Lom & Lms & Hcc & _ & _ & _ & Hneg).
  exists ((sg, om, ms) :: S). constructor; [|exact HS]. split; [|split; [exact Ed|split; [exact Hok|split; [exact Hcc|exact Hneg]]]].
  unfold row_par. cbn [fst snd]. split; [exact Hpar|]. split; [exact Hsg|]. split; [exact Lom|exact Lms].
Qed.
Lemma more_D rows S : Forall2 more rows S -> Forall2 (fun row d => py_derive isreal q row = Ok d) (map (map Fin) rows) (map drow_of (combine rows S)).
Proof. intros H. induction H as [|th s rows S (H1 & H2 & _) HF IH]; cbn [combine map]; constructor; [exact H2|exact IH]. Qed.


Definition names : list string :=
  ["logpost"; "var"; "measerr_scale"; "mu"; "quad_coefs"; "ar_roots"; "psd_centroid"; "psd_width"; "ar_coefs"; "ma_coefs"; "sigma"; "loglik"].
Theorem CarmaSample_rows {X Om} (C : cls AX X Om) (b : base AX X) fn (rows : list (list R)) lp ll : rows <> [] ->
  (forall th, In th rows -> row_ok p q th) -> length lp = length rows -> CarmaSample_loglik C b (map (map Fin) rows) = Ok ll -> length ll = length rows ->
  exists d, CarmaSample_new C b isreal q fn lp (map (map Fin) rows) = Ok d /\ map fst d = names /\
    (forall k a, dget d k = Some a -> nrows a = length rows) /\
    forall i, (i < length rows)%nat -> let th := nth i rows [] in
    exists (om : list Complex.C) (ma ar : list R) (sg : R), row_par p q th (sg, om, ma) /\
      at_row d "logpost" i = Some [nth i lp NaN] /\ at_row d "loglik" i = Some [nth i ll NaN] /\
      at_row d "var" i = Some [Fin (nth 0 th 0 * nth 0 th 0)] /\ at_row d "measerr_scale" i = Some [Fin (nth 1 th 0)] /\ at_row d "mu" i = Some [Fin (nth 2 th 0)] /\
      at_row d "quad_coefs" i = Some (map (fun j => Fin (exp (nth (3 + j) th 0))) (seq 0 p)) /\
      at_rowC d "ar_roots" i = Some (map FinC om) /\
      at_row d "psd_width" i = Some (map (fun z => Fin (- fst z / (2 * PI))) om) /\
      at_row d "psd_centroid" i = Some (map (fun z => Fin (Rabs (snd z) / (2 * PI))) om) /\
      at_row d "ar_coefs" i = Some (map Fin ar) /\ length ar = S p /\ (forall x, desc_poly (map RtoC ar) x = roots_poly om x) /\
      at_row d "ma_coefs" i = Some (map Fin ma) /\ at_row d "sigma" i = Some [Fin sg].
Proof.
  intros Hne Hok Hlp Hll Lll. destruct (derive_more rows Hok) as (S & HS). pose proof (F2_len HS) as LS.
  set (D := map drow_of (combine rows S)). assert (length D = length rows) as LD by (unfold D; rewrite map_length, combine_length; lia).
  exists (carma_dict AX isreal p (map (map Fin) rows) D lp ll). split.
  { rewrite (CarmaSample_dict AX isreal p q (map (map Fin) rows) D); [rewrite Hll; reflexivity|destruct rows; [congruence|discriminate]| |apply more_D; exact HS|rewrite map_length; exact Hlp].
    intros row Hr. apply in_map_iff in Hr. destruct Hr as (th & <- & Hth). rewrite map_length. apply (Hok th Hth). }
  split; [reflexivity|]. split.
  { intros k a. unfold carma_dict, dget, col.
    repeat (match goal with |- context [String.eqb k ?s] => destruct (String.eqb k s); [intros E; injection E as <-; unfold nrows; rewrite ?map_length; assumption || reflexivity|] end).
    discriminate. }
  intros i Hi th. pose proof (nth_F2 more rows S [] (0, [], []) i HS Hi) as (Hpar & _ & _ & Hcc & _). fold th in Hpar, Hcc.
  assert (nth i D (drow_of ([], (0, [], []))) = drow_of (th, nth i S (0, [], []))) as En.
  { unfold D. rewrite map_nth, combine_nth by (symmetry; lia). reflexivity. }
  destruct (nth i S (0, [], [])) as [[sg om] ms] eqn:Es. cbn [fst snd] in *. destruct (ar_coefs_Fin isreal om Hcc) as (ar & Ear & Lar & Har).
  exists om, ms, ar, sg. split; [exact Hpar|].
  unfold at_row, at_rowC, carma_dict, col. cbn [dget String.eqb Ascii.eqb Bool.eqb].
  split; [rewrite (nth_error_nth' _ [NaN]) by (rewrite map_length; lia); rewrite (map_nth (fun x : F AX => [x])); reflexivity|].
  split; [rewrite (nth_error_nth' _ [NaN]) by (rewrite map_length; lia); rewrite (map_nth (fun x : F AX => [x])); reflexivity|].
  split; [rewrite (nth_error_col _ D (drow_of ([], (0, [], [])))) by lia; rewrite En; reflexivity|].
  split; [rewrite (nth_error_col _ D (drow_of ([], (0, [], [])))) by lia; rewrite En; reflexivity|].
  split; [rewrite (nth_error_col _ D (drow_of ([], (0, [], [])))) by lia; rewrite En; reflexivity|].
  split.
  { rewrite map_map. rewrite (nth_error_col _ rows []) by exact Hi. fold th. f_equal.
    assert (length th = (3 + p + q)%nat) as Lth by (apply (Hok th); apply nth_In; exact Hi).
    apply nth_ext with (d := Fin 0) (d' := Fin (exp (nth (3 + 0) th 0))); [rewrite !map_length, firstn_length, skipn_length, map_length, seq_length; lia|].
    intros j Hj. rewrite map_length, firstn_length, skipn_length, map_length in Hj.
    pose proof (slice_exp th 3 p ltac:(lia) j ltac:(lia)) as E. apply nth_error_nth with (d := Fin 0) in E. refine (eq_trans E _).
    rewrite (map_nth (fun j => Fin (exp (nth (3 + j) th 0)))), seq_nth by lia. reflexivity. }
  split; [rewrite nth_error_map, (nth_error_nth' D (drow_of ([], (0, [], [])))) by lia; rewrite En; reflexivity|].
  split; [rewrite (nth_error_col _ D (drow_of ([], (0, [], [])))) by lia; rewrite En; cbn [drow_of d_roots fst snd]; rewrite map_map; f_equal; apply map_ext; intros z; apply pi_div|].
  split; [rewrite (nth_error_col _ D (drow_of ([], (0, [], [])))) by lia; rewrite En; cbn [drow_of d_roots fst snd]; rewrite map_map; f_equal; apply map_ext; intros z; apply pi_div|].
  split; [rewrite (nth_error_col _ D (drow_of ([], (0, [], [])))) by lia; rewrite En; cbn [drow_of d_roots fst snd]; rewrite Ear; reflexivity|].
  split; [rewrite Lar; apply f_equal, Hpar|]. split; [exact Har|].
  split; [rewrite (nth_error_col _ D (drow_of ([], (0, [], [])))) by lia; rewrite En; reflexivity|].
  rewrite (nth_error_col _ D (drow_of ([], (0, [], [])))) by lia; rewrite En; reflexivity.
Qed.

(** whenever the constructor succeeds the dictionary is this one *)
Lemma sample_inv {X Om} (C : cls AX X Om) (b : base AX X) fn (rows : list (list R)) lp d : rows <> [] ->
  (forall th, In th rows -> row_ok p q th) -> length lp = length rows -> CarmaSample_new C b isreal q fn lp (map (map Fin) rows) = Ok d ->
  exists S ll, Forall2 more rows S /\ d = carma_dict AX isreal p (map (map Fin) rows) (map drow_of (combine rows S)) lp ll.
Proof.
  intros Hne Hok Hlp E. destruct (derive_more rows Hok) as (S & HS). exists S.
  rewrite (CarmaSample_dict AX isreal p q (map (map Fin) rows) (map drow_of (combine rows S))) in E.
  - destruct (CarmaSample_loglik C b (map (map Fin) rows)) as [ll| | |]; try discriminate. cbn [bind] in E. injection E as <-. exists ll. split; [exact HS|reflexivity].
  - destruct rows; [congruence|discriminate].
  - intros row Hr. apply in_map_iff in Hr. destruct Hr as (th & <- & Hth). rewrite map_length. apply (Hok th Hth).
  - apply more_D. exact HS.
  - rewrite map_length. exact Hlp.
Qed.

(** plot_power_spectrum of a CarmaSample *)
Theorem CarmaSample_plot np_sort {X Om} (C : cls AX X Om) (b : base AX X) fn (rows : list (list R)) lp d (t : list R) pc ns sp : valid_np_sort np_sort ->
  rows <> [] -> (forall th, In th rows -> row_ok p q th) -> length lp = length rows -> CarmaSample_new C b isreal q fn lp (map (map Fin) rows) = Ok d ->
  (2 <= length t)%nat -> strictly_increasing t -> ns <> Some 0%nat -> 0 <= pc <= 100 ->
  exists S, Forall2 (row_par p q) rows S /\
  let sel := map (fun i => nth i S (0, [], [])) (used (length rows) ns) in
  let P := fun f => map (fun s => root_spectrum (fst (fst s)) (snd (fst s)) (snd s) f) sel in
  exists dt lo me up, 0 < dt /\ min_spacing t dt /\
    let fs := log_grid (1 / (nth (length t - 1) t 0 - nth 0 t 0)) (1 / (2 * dt)) in
    carma_sample_plot np_sort p (map Fin t) d (Fin pc : F AX) ns sp = Ok (mkPO AX (map Fin lo) (map Fin up) (map Fin me) (map Fin fs) false) /\
    length lo = 1000%nat /\ length me = 1000%nat /\ length up = 1000%nat /\
    forall j, (j < 1000)%nat -> band (P (nth j fs 0)) pc (nth j lo 0) (nth j me 0) (nth j up 0).
Proof.
  intros Hsort Hne Hok Hlp E Ht Hinc Hns Hpc. destruct (sample_inv C b fn rows lp d Hne Hok Hlp E) as (S & ll & HS & ->).
  pose proof (F2_len HS) as LS. exists S. split. { clear - HS. induction HS as [|th s rows S (H & _) HF IH]; constructor; assumption. }
  cbv zeta. rewrite LS. set (D := map drow_of (combine rows S)). unfold carma_sample_plot.
  rewrite (scalars_col _ "sigma" (fun d => d_sigma d) D) by reflexivity. cbn [bind].
  rewrite (vectors_ok _ "ar_coefs" (map (fun d => py_ar_coefs isreal (d_roots d)) D)) by reflexivity. cbn [bind].
  rewrite (vectors_ok _ "ma_coefs" (map (fun d => d_ma d) D)) by reflexivity. cbn [bind].
  rewrite !combine_map_l. unfold D. rewrite map_map.
  assert (map (fun x => (d_sigma (drow_of x), py_ar_coefs isreal (d_roots (drow_of x)), d_ma (drow_of x))) (combine rows S) =
          map (fun s => (Fin (fst (fst s)), py_ar_coefs isreal (map FinC (snd (fst s))), map Fin (snd s))) S) as Er by (apply (map_combine_snd (fun s => (Fin (fst (fst s)), py_ar_coefs isreal (map FinC (snd (fst s))), map Fin (snd s)))); exact LS).
  change (F AX) with xr in *. rewrite Er. apply carma_plot_ok; try assumption.
  - destruct S; [cbn in LS; destruct rows; [congruence|discriminate]|discriminate].
  - intros s Hs. destruct (F2_in_r more rows S HS s Hs) as (th & _ & ((_ & _ & L & _) & _ & _ & Hcc & Hneg)). split; [exact L|]. split; [exact Hneg|exact Hcc].
Qed.
End DictX.
