(** Proofs about PySampleModel: the median of complex roots, Car1Sample, summaries, samples read from a file. *)
From Coq Require Import List Arith ZArith Reals Lra Lia Permutation Bool String Ascii.
From Coquelicot Require Import Coquelicot.
From Verif Require Import Arith Res ListLemmas KFModel KF1Proof KFpProof CholProof Spec Gauss Emb KF1R KF1X KF1Main KF1More OUpd SimProof InitProof Cx KFpModel SpecCarma CLin KFpX KFpMain KFpTop KFpMore SpecModel
  CarpackModel RootsProof PriorProof LogLikProof LogLikMain CarpackTop EngineModel StartModel PyModel PySim PyFuns PyDerive PyPredict PyExtra PyBox PyKFSim PySampleModel PyQuant PyPsd PySampleProof PyFitProof.
Import ListNotations.
Local Open Scope R_scope.
Local Open Scope string_scope.
Local Notation length := List.length.
Local Notation Forall2 := List.Forall2.

(** ** A sort of complex numbers exists *)
Lemma clex_total a b : clex a b \/ clex b a.
Proof. unfold clex. destruct (Rtotal_order (fst a) (fst b)) as [H|[H|H]]; [left; left; exact H| |right; left; exact H]. destruct (Rle_dec (snd a) (snd b)); [left|right]; right; lra. Qed.
Lemma clex_trans a b c : clex a b -> clex b c -> clex a c.
Proof. unfold clex. intros [H|[H1 H2]] [K|[K1 K2]]; [left; lra|left; lra|left; lra|right; lra]. Qed.
Definition clexb (a b : C) : bool := if Rlt_dec (fst a) (fst b) then true else if Req_EM_T (fst a) (fst b) then (if Rle_dec (snd a) (snd b) then true else false) else false.
Lemma clexb_ok a b : if clexb a b then clex a b else clex b a.
Proof.
  unfold clexb. destruct (Rlt_dec (fst a) (fst b)) as [H|H]; [left; exact H|]. destruct (Req_EM_T (fst a) (fst b)) as [E|E].
  - destruct (Rle_dec (snd a) (snd b)); right; lra.
  - left. lra.
Qed.
Fixpoint cins (x : C) (l : list C) : list C := match l with [] => [x] | y :: r => if clexb x y then x :: l else y :: cins x r end.
Fixpoint cisort (l : list C) : list C := match l with [] => [] | x :: r => cins x (cisort r) end.
Lemma cins_perm x l : Permutation (x :: l) (cins x l).
Proof. induction l as [|y r IH]; [apply Permutation_refl|]. cbn. destruct (clexb x y); [apply Permutation_refl|]. etransitivity; [apply perm_swap|]. apply perm_skip, IH. Qed.
Lemma cisort_perm l : Permutation l (cisort l).
Proof. induction l as [|x l IH]; [constructor|]. cbn. etransitivity; [apply perm_skip, IH|apply cins_perm]. Qed.
Fixpoint csorted (l : list C) : Prop := match l with [] => True | x :: r => (forall y, In y r -> clex x y) /\ csorted r end.
Lemma cins_sorted x l : csorted l -> csorted (cins x l).
Proof.
  induction l as [|y r IH]; intros H; [cbn; split; [intros y []|exact I]|]. cbn [cins]. pose proof (clexb_ok x y) as Hb. destruct H as [H1 H2]. destruct (clexb x y).
  - cbn [csorted]. split; [|split; assumption]. intros z [<-|Hz]; [exact Hb|]. eapply clex_trans; [exact Hb|apply H1, Hz].
  - cbn [csorted]. split; [|apply IH, H2]. intros z Hz. apply (Permutation_in _ (Permutation_sym (cins_perm x r))) in Hz. destruct Hz as [<-|Hz]; [exact Hb|apply H1, Hz].
Qed.
Lemma cisort_sorted l : csorted (cisort l). Proof. induction l as [|x l IH]; [exact I|]. cbn. apply cins_sorted, IH. Qed.
Lemma csorted_nth l : csorted l -> forall i j, (i < j)%nat -> (j < length l)%nat -> clex (nth i l (RtoC 0)) (nth j l (RtoC 0)).
Proof.
  induction l as [|x l IH]; intros H i j Hij Hj; [cbn in Hj; lia|]. destruct H as [H1 H2]. destruct j as [|j]; [lia|]. destruct i as [|i]; cbn [nth].
  - apply H1, nth_In. cbn in Hj. lia.
  - apply IH; [exact H2|lia|cbn in Hj; lia].
Qed.
Definition unfin (x : xr) : R := match x with Fin r => r | _ => 0 end.
Lemma valid_csort_exists : exists c, valid_csort c.
Proof.
  exists (fun l => map FinC (cisort (map (fun z => (unfin (fst z), unfin (snd z))) l))). intros l.
  exists (cisort l). split; [|split; [apply cisort_perm|apply csorted_nth, cisort_sorted]].
  rewrite map_map. do 2 f_equal. rewrite <- (map_id l) at 2. apply map_ext. intros [a b]. reflexivity.
Qed.
(** the middle one of three sorted numbers *)
Lemma median3 csort (a b c : C) : valid_csort csort -> clex a b -> clex b c -> (forall x y, clex x y -> clex y x -> x = y) ->
  forall l, Permutation [a; b; c] l -> np_cmedian (A := AX) csort (map FinC l) = FinC b.
Proof.
  intros Hv Hab Hbc Hanti l Hp. destruct (Hv l) as (s & E & Hps & Hs). unfold np_cmedian. rewrite E, map_length.
  assert (Permutation [a; b; c] s) as Hpp by (etransitivity; eassumption). pose proof (Permutation_length Hpp) as L. cbn [length] in L. rewrite <- L.
  change (Nat.odd 3) with true. change (3 / 2)%nat with 1%nat. cbn iota. rewrite vnth_FinC. f_equal.
  destruct s as [|x [|y [|z [|]]]]; cbn in L; try lia. cbn [nth].
  pose proof (Hs 0%nat 1%nat ltac:(lia) ltac:(cbn; lia)) as H1. pose proof (Hs 1%nat 2%nat ltac:(lia) ltac:(cbn; lia)) as H2. cbn [nth] in H1, H2.
  assert (In b [x; y; z]) as Hb by (apply (Permutation_in _ Hpp); right; left; reflexivity).
  destruct Hb as [->|[->|[->|[]]]]; [|reflexivity|].
  - apply Permutation_sym in Hpp. assert (Permutation [b; y; z] [b; a; c]) as HH by (etransitivity; [exact Hpp|apply perm_swap]). apply Permutation_cons_inv in HH.
    assert (clex y a) as Hya.
    { assert (In a [y; z]) as Ha by (apply (Permutation_in _ (Permutation_sym HH)); left; reflexivity). destruct Ha as [->|[->|[]]]; [right; lra|exact H2]. }
    apply Hanti; [exact (clex_trans _ _ _ Hya Hab)|exact H1].
  - apply Permutation_sym in Hpp. assert (Permutation [b; x; y] [b; a; c]) as HH.
    { etransitivity; [|etransitivity; [exact Hpp|apply perm_swap]]. etransitivity; [apply perm_swap|]. apply perm_skip. apply perm_swap. }
    apply Permutation_cons_inv in HH.
    assert (clex c y) as Hcy.
    { assert (In c [x; y]) as Ha by (apply (Permutation_in _ (Permutation_sym HH)); right; left; reflexivity). destruct Ha as [->|[->|[]]]; [exact H1|right; lra]. }
    apply Hanti; [exact H2|exact (clex_trans _ _ _ Hbc Hcy)].
Qed.
Lemma clex_anti x y : clex x y -> clex y x -> x = y.
Proof. unfold clex. intros [H|[H1 H2]] [K|[K1 K2]]; try lra. apply C_eq; lra. Qed.

(** ** The median of the roots is not a set of roots of a real process *)
Definition thD : list R := [1; 1; 0; ln (3/2); ln (7/2)].
Definition thE : list R := [1; 1; 0; ln (41/25); ln (8/5)].
Lemma rootsD : py_ar_roots AX 2 (map Fin thD) = Ok (map FinC [(-3, 0); (-1/2, 0)]).
Proof.
  rewrite py_ar_roots_Fin by (cbn; lia). f_equal. f_equal. unfold qroots, thD. change (2 / 2)%nat with 1%nat. cbn [qloop nth Nat.add Nat.odd Nat.even negb app].
  unfold rpair. rewrite !exp_ln by lra. replace (7/2 * (7/2) - 4 * (3/2)) with (5/2 * (5/2)) by field. rewrite sqrt_square by lra.
  destruct (Rlt_dec 0 (5/2 * (5/2))) as [_|H]; [|lra]. cbn [app]. repeat (f_equal; try field).
Qed.
Lemma rootsE : py_ar_roots AX 2 (map Fin thE) = Ok (map FinC [(-4/5, -1); (-4/5, 1)]).
Proof.
  rewrite py_ar_roots_Fin by (cbn; lia). f_equal. f_equal. unfold qroots, thE. change (2 / 2)%nat with 1%nat. cbn [qloop nth Nat.add Nat.odd Nat.even negb app].
  unfold rpair. rewrite !exp_ln by lra. replace (8/5 * (8/5) - 4 * (41/25)) with (- (2 * 2)) by field. rewrite Ropp_involutive, sqrt_square by lra.
  destruct (Rlt_dec 0 (- (2 * 2))) as [H|_]; [lra|]. cbn [app]. repeat (f_equal; try field).
Qed.
Lemma derive2 (isreal : list (cx AX) -> bool) (th : list R) (om : list C) : length th = 5%nat -> py_ar_roots AX 2 (map Fin th) = Ok (map FinC om) ->
  exists d : drow AX, py_derive isreal 0 (map Fin th) = Ok d /\ d_roots d = map FinC om /\ d_ma d = [Fin 1].
Proof.
  intros L E. eexists. split; [|split].
  - unfold py_derive. change (F AX) with xr. rewrite map_length, L. change (5 - 3 - 0)%nat with 2%nat. rewrite !vget_Fin by lia. cbn [bind]. change (F AX) with xr in *. rewrite E. cbn [bind]. reflexivity.
  - reflexivity.
  - reflexivity.
Qed.
Theorem median_roots_not_closed : exists (rows : list (list R)), length rows = 3%nat /\ (forall th, In th rows -> row_ok 2 0 th) /\
  forall (np_sort : list (F AX) -> list (F AX)) csort (isreal : list (cx AX) -> bool) i (lp : list (F AX)), valid_csort csort ->
  exists (D : list (drow AX)) (sig mu : F AX) (om : list C) (ma : list (F AX)), Forall2 (fun th d => py_derive isreal 0 (map Fin th) = Ok d) rows D /\
    carma_fit np_sort csort i BMedian D lp = Ok (sig, mu, map FinC om, ma) /\ ~ conj_closed om.
Proof.
  exists [thB; thD; thE]. split; [reflexivity|]. split.
  { assert (forall th om, length th = 5%nat -> nth 0 th 0 = 1 -> py_ar_roots AX 2 (map Fin th) = Ok (map FinC om) -> NoDup om -> row_ok 2 0 th) as H.
    { intros th om L H0 E Hn. split; [exact L|]. split; [rewrite H0; lra|]. intros om' E'. rewrite py_ar_roots_Fin in E by lia.
      unfold ARRoots in E'. assert (map FinC om' = map FinC om) as Q.
      { assert (Ok (map FinC om') = Ok (map FinC om)) as Q; [|injection Q; auto]. rewrite <- E', <- E. apply quad_roots_Fin. lia. }
      apply map_FinC_inj in Q. rewrite Q. exact Hn. }
    intros th [<-|[<-|[<-|[]]]].
    - apply (H thB _ eq_refl eq_refl rootsB). repeat constructor; [intros [Q|[]]|intros []]. apply (f_equal snd) in Q. cbn in Q. lra.
    - apply (H thD _ eq_refl eq_refl rootsD). repeat constructor; [intros [Q|[]]|intros []]. apply (f_equal fst) in Q. cbn in Q. lra.
    - apply (H thE _ eq_refl eq_refl rootsE). repeat constructor; [intros [Q|[]]|intros []]. apply (f_equal snd) in Q. cbn in Q. lra. }
  intros np_sort csort isreal i lp Hc.
  destruct (derive2 isreal thB _ eq_refl rootsB) as (d1 & E1 & R1 & M1). destruct (derive2 isreal thD _ eq_refl rootsD) as (d2 & E2 & R2 & M2). destruct (derive2 isreal thE _ eq_refl rootsE) as (d3 & E3 & R3 & M3).
  exists [d1; d2; d3]. eexists _, _, [(-1, -1); (-4/5, 1)], _. split; [repeat constructor; assumption|]. split.
  - unfold carma_fit. cbv zeta. rewrite R1. cbn [map length]. unfold vbuild at 1. cbn [seq map]. rewrite R1, R2, R3. cbn [map].
    unfold vnth. cbn [nth].
    pose proof (median3 csort (-3, 0) (-1, -1) (-4/5, -1) Hc ltac:(left; cbn; lra) ltac:(left; cbn; lra) clex_anti [(-1, -1); (-3, 0); (-4/5, -1)] ltac:(apply perm_swap)) as Q1.
    pose proof (median3 csort (-1, 1) (-4/5, 1) (-1/2, 0) Hc ltac:(left; cbn; lra) ltac:(left; cbn; lra) clex_anti [(-1, 1); (-1/2, 0); (-4/5, 1)] ltac:(apply perm_skip, perm_swap)) as Q2.
    cbn [map] in Q1, Q2. rewrite Q1, Q2. reflexivity.
  - unfold conj_closed. intros H. assert (In (-1, - -1) [(-1, -1); (-4/5, 1)]) as Hin by (apply (Permutation_in _ H); left; reflexivity).
    destruct Hin as [Q|[Q|[]]]; apply (f_equal fst) in Q as Q1; apply (f_equal snd) in Q as Q2; cbn in Q1, Q2; lra.
Qed.

(** ** Car1Sample *)
Definition row1_ok (th : list R) : Prop := length th = 4%nat /\ nth 0 th 0 <> 0.
(** sigma^2 of a row: the process variance is t0^2 *)
Definition sig1 (th : list R) : R := sqrt (2 * (nth 0 th 0 * nth 0 th 0) * exp (nth 3 th 0)).
Definition names1 : list string := ["logpost"; "var"; "measerr_scale"; "mu"; "log_omega"; "sigma"; "loglik"].
Definition car1_dict (rows : list (list R)) (lp ll : list (F AX)) : dict AX :=
  [("logpost", col AX (fun x => x) lp); ("var", col AX (fun th => Fin (nth 0 th 0 * nth 0 th 0)) rows); ("measerr_scale", col AX (fun th => Fin (nth 1 th 0)) rows);
   ("mu", col AX (fun th => Fin (nth 2 th 0)) rows); ("log_omega", col AX (fun th => Fin (nth 3 th 0)) rows);
   ("sigma", col AX (fun th => Fin (sig1 th)) rows); ("loglik", col AX (fun x => x) ll)].
Lemma sig1_sq th : sig1 th * sig1 th = 2 * (nth 0 th 0 * nth 0 th 0) * exp (nth 3 th 0).
Proof. apply sqrt_sqrt. pose proof (exp_pos (nth 3 th 0)). apply Rmult_le_pos; [nra|lra]. Qed.
Lemma sig1_pos th : nth 0 th 0 <> 0 -> 0 < sig1 th.
Proof. intros H. apply sqrt_lt_R0. pose proof (exp_pos (nth 3 th 0)). apply Rmult_lt_0_compat; [nra|lra]. Qed.
Lemma Car1Sample_dict (fn : option (file AX)) (rows : list (list R)) (lp : list (F AX)) : rows <> [] -> (forall th, In th rows -> row1_ok th) -> length lp = length rows ->
  Car1Sample_new fn lp (map (map Fin) rows) = (ll <- Car1Sample_loglik AX (map (map Fin) rows) lp ;; Ok (car1_dict rows lp ll)).
Proof.
  intros Hne Hok Hlp. assert (forall k, (k < 4)%nat -> rmap (fun row => vget row k) (map (map Fin) rows) = Ok (map (fun th => Fin (nth k th 0)) rows)) as Hc.
  { intros k Hk. apply rmap_map. intros th Hth. apply vget_Fin. rewrite (proj1 (Hok th Hth)). exact Hk. }
  unfold Car1Sample_new, samples_init, carma_set_logpost, car1_from_trace. cbn [bind dset].
  destruct (map (map Fin) rows) as [|row0 tr] eqn:Et; [destruct rows; [congruence|discriminate]|]. rewrite <- Et in *.
  change (F AX) with xr in *. rewrite !Hc by lia. cbn [bind].
  assert (length lp = length (map (map Fin) rows)) as -> by (rewrite map_length; exact Hlp). rewrite velem_seq. cbn [bind].
  destruct (Car1Sample_loglik AX (map (map Fin) rows) lp) as [ll| | |]; cbn [bind]; try reflexivity.
  unfold car1_dict, col. cbn [dset String.eqb Ascii.eqb Bool.eqb newaxis map fst snd]. rewrite combine_map_l, !map_map. cbn [fst snd].
  assert (forall th : list R, car1_sigma AX (fmul AX (Fin (nth 0 th 0)) (Fin (nth 0 th 0))) (Fin (nth 3 th 0)) = Fin (sig1 th)) as Es.
  { intros th. refine (fin_sqrt _ _). pose proof (exp_pos (nth 3 th 0)). apply Rmult_le_pos; [nra|lra]. }
  erewrite (map_ext (fun th : list R => [car1_sigma AX _ _])) by (intros th; rewrite (Es th); reflexivity). reflexivity.
Qed.
Theorem Car1Sample_rows (fn : option (file AX)) (rows : list (list R)) (lp ll : list (F AX)) : rows <> [] -> (forall th, In th rows -> row1_ok th) -> length lp = length rows ->
  Car1Sample_loglik AX (map (map Fin) rows) lp = Ok ll -> length ll = length rows ->
  exists d, Car1Sample_new fn lp (map (map Fin) rows) = Ok d /\ map fst d = names1 /\ (forall k a, dget d k = Some a -> nrows a = length rows) /\
    forall i, (i < length rows)%nat -> let th := nth i rows [] in
      at_row d "logpost" i = Some [nth i lp NaN] /\ at_row d "loglik" i = Some [nth i ll NaN] /\
      at_row d "var" i = Some [Fin (nth 0 th 0 * nth 0 th 0)] /\ at_row d "measerr_scale" i = Some [Fin (nth 1 th 0)] /\ at_row d "mu" i = Some [Fin (nth 2 th 0)] /\
      at_row d "log_omega" i = Some [Fin (nth 3 th 0)] /\
      exists sg, at_row d "sigma" i = Some [Fin sg] /\ 0 < sg /\ sg * sg / (2 * exp (nth 3 th 0)) = nth 0 th 0 * nth 0 th 0.
Proof.
  intros Hne Hok Hlp Hll Lll. exists (car1_dict rows lp ll). split; [rewrite Car1Sample_dict, Hll by assumption; reflexivity|]. split; [reflexivity|]. split.
  { intros k a. unfold car1_dict, dget, col.
    repeat (match goal with |- context [String.eqb k ?s] => destruct (String.eqb k s); [intros E; injection E as <-; unfold nrows; rewrite ?map_length; assumption || reflexivity|] end).
    discriminate. }
  intros i Hi th. unfold at_row, car1_dict, col. cbn [dget String.eqb Ascii.eqb Bool.eqb].
  split; [rewrite (nth_error_nth' _ [NaN]) by (rewrite map_length; lia); rewrite (map_nth (fun x : F AX => [x])); reflexivity|].
  split; [rewrite (nth_error_nth' _ [NaN]) by (rewrite map_length; lia); rewrite (map_nth (fun x : F AX => [x])); reflexivity|].
  do 4 (split; [rewrite (nth_error_col _ rows []) by exact Hi; reflexivity|]).
  exists (sig1 th). split; [rewrite (nth_error_col _ rows []) by exact Hi; reflexivity|]. split; [apply sig1_pos, (Hok th), nth_In, Hi|].
  rewrite sig1_sq. pose proof (exp_pos (nth 3 th 0)). field. lra.
Qed.
Lemma car1_inv (fn : option (file AX)) (rows : list (list R)) (lp : list (F AX)) (d : dict AX) : rows <> [] -> (forall th, In th rows -> row1_ok th) -> length lp = length rows ->
  Car1Sample_new fn lp (map (map Fin) rows) = Ok d -> exists ll, d = car1_dict rows lp ll.
Proof.
  intros Hne Hok Hlp E. rewrite Car1Sample_dict in E by assumption. destruct (Car1Sample_loglik AX (map (map Fin) rows) lp) as [ll| | |]; try discriminate.
  cbn [bind] in E. injection E as <-. exists ll. reflexivity.
Qed.

(** the spectrum of the CAR(1) process of a row: variance t0^2 and decay rate w *)
Definition ou_spectrum (th : list R) (f : R) : R :=
  let w := exp (nth 3 th 0) in 2 * (nth 0 th 0 * nth 0 th 0) * w / (w * w + (2 * PI * f) * (2 * PI * f)).
Theorem Car1Sample_plot np_sort (fn : option (file AX)) (rows : list (list R)) (lp : list (F AX)) (d : dict AX) (t : list R) pc sp : valid_np_sort np_sort ->
  rows <> [] -> (forall th, In th rows -> row1_ok th) -> length lp = length rows -> Car1Sample_new fn lp (map (map Fin) rows) = Ok d ->
  (2 <= length t)%nat -> strictly_increasing t -> 0 <= pc <= 100 ->
  exists dt lo me up, 0 < dt /\ min_spacing t dt /\
    let fs := log_grid (1 / (nth (length t - 1) t 0 - nth 0 t 0)) (1 / (2 * dt)) in
    car1_sample_plot np_sort (map Fin t) d (Fin pc : F AX) None sp = Ok (mkPO AX (map Fin lo) (map Fin up) (map Fin me) (map Fin fs) false) /\
    length lo = 1000%nat /\ length me = 1000%nat /\ length up = 1000%nat /\
    forall j, (j < 1000)%nat -> band (map (fun th => ou_spectrum th (nth j fs 0)) rows) pc (nth j lo 0) (nth j me 0) (nth j up 0).
Proof.
  intros Hsort Hne Hok Hlp E Ht Hinc Hpc. destruct (car1_inv fn rows lp d Hne Hok Hlp E) as (ll & ->). unfold car1_sample_plot.
  rewrite (scalars_col _ "sigma" (fun th => Fin (sig1 th)) rows) by reflexivity. cbn [bind].
  rewrite (scalars_col _ "log_omega" (fun th => Fin (nth 3 th 0)) rows) by reflexivity. cbn [bind]. rewrite combine_map_l.
  pose proof (car1_plot_ok np_sort Hsort t (map (fun th => (sig1 th, nth 3 th 0)) rows) pc sp Ht Hinc) as H. rewrite map_map in H. cbn [fst snd] in H.
  destruct H as (dt & lo & me & up & H1 & H2 & H3 & H4 & H5 & H6 & H7); [destruct rows; [congruence|discriminate]|exact Hpc|].
  exists dt, lo, me, up. split; [exact H1|]. split; [exact H2|]. split; [exact H3|]. split; [exact H4|]. split; [exact H5|]. split; [exact H6|].
  intros j Hj. specialize (H7 j Hj). rewrite map_map in H7. cbn [fst snd] in H7. erewrite map_ext; [exact H7|]. intros th. unfold ou_spectrum. cbv zeta. rewrite sig1_sq. reflexivity.
Qed.
Theorem Car1Sample_plot_nsamples np_sort (time : list (F AX)) (d : dict AX) sg lo pc n sp : scalars d "sigma" = Ok sg -> scalars d "log_omega" = Ok lo ->
  car1_sample_plot np_sort time d pc (Some n) sp = Throw Elogic.
Proof. intros E1 E2. unfold car1_sample_plot. rewrite E1, E2. reflexivity. Qed.

(** the documented best fits *)
Definition car1_best (bf : bestfit) (rows : list (list R)) (lp : list R) (sigsqr mu lo : R) : Prop :=
  match bf with
  | BMap => exists i, first_max lp i /\ let th := nth i rows [] in sigsqr = 2 * (nth 0 th 0 * nth 0 th 0) * exp (nth 3 th 0) /\ mu = nth 2 th 0 /\ lo = nth 3 th 0
  | BMedian => exists s0, percentile_of (map sig1 rows) 50 s0 /\ sigsqr = s0 * s0 /\ percentile_of (map (fun th => nth 2 th 0) rows) 50 mu /\
      percentile_of (map (fun th => nth 3 th 0) rows) 50 lo
  | _ => sigsqr = smean (map (fun th => 2 * (nth 0 th 0 * nth 0 th 0) * exp (nth 3 th 0)) rows) /\ mu = smean (map (fun th => nth 2 th 0) rows) /\
      lo = smean (map (fun th => nth 3 th 0) rows)
  end.
Lemma car1_fit_Fin np_sort bf (rows : list (list R)) lp : valid_np_sort np_sort -> rows <> [] -> (forall th, In th rows -> row1_ok th) -> length lp = length rows ->
  exists sigsqr mu lo, car1_fit AX np_sort bf (map (fun th => (Fin (sig1 th), Fin (nth 2 th 0), Fin (nth 3 th 0))) rows) (map Fin lp) = Ok (Fin sigsqr : F AX, Fin mu, Fin lo) /\
    car1_best bf rows lp sigsqr mu lo /\ 0 < sigsqr.
Proof.
  intros Hsort Hne Hok Hlp. assert (forall T (g : _ -> T), map g rows <> []) as Hn by (intros T g E; apply map_eq_nil in E; contradiction).
  assert (exists sigsqr mu lo : R, Ok (vmean AX (map (fun s => fmul AX s s) (map Fin (map sig1 rows))), vmean AX (map Fin (map (fun th => nth 2 th 0) rows)), vmean AX (map Fin (map (fun th => nth 3 th 0) rows))) =
       Ok (Fin sigsqr : F AX, Fin mu, Fin lo) /\ (sigsqr = smean (map (fun th => 2 * (nth 0 th 0 * nth 0 th 0) * exp (nth 3 th 0)) rows) /\ mu = smean (map (fun th => nth 2 th 0) rows) /\
      lo = smean (map (fun th => nth 3 th 0) rows)) /\ 0 < sigsqr) as Hmean.
  { eexists _, _, _. split; [|split; [split; [|split]; reflexivity|]].
    - assert (map (fun s : F AX => fmul AX s s) (map Fin (map sig1 rows)) = map Fin (map (fun th => 2 * (nth 0 th 0 * nth 0 th 0) * exp (nth 3 th 0)) rows)) as ->.
      { rewrite !map_map. apply map_ext. intros th. rewrite <- sig1_sq. reflexivity. }
      rewrite !vmean_Fin by apply Hn. reflexivity.
    - apply smean_pos; [apply Hn|]. intros x Hx. apply in_map_iff in Hx. destruct Hx as (th & <- & Hth). rewrite <- sig1_sq. pose proof (sig1_pos th (proj2 (Hok th Hth))). nra. }
  unfold car1_fit. rewrite !map_map. cbn [fst snd]. destruct bf; cbn [car1_best].
  - destruct (np_argmax_Fin lp) as (i & Ei & Hm); [intros ->; destruct rows; [congruence|discriminate]|]. pose proof Hm as (Hi & _). rewrite Hlp in Hi.
    set (th := nth i rows []). exists (2 * (nth 0 th 0 * nth 0 th 0) * exp (nth 3 th 0)), (nth 2 th 0), (nth 3 th 0).
    split; [|split; [exists i; split; [exact Hm|]; cbv zeta; repeat split|rewrite <- sig1_sq; pose proof (sig1_pos th (proj2 (Hok th (nth_In _ _ Hi)))); nra]].
    change (F AX) with xr in *. rewrite Ei. cbn [bind].
    rewrite vget_ok with (d := (Fin (sig1 []), Fin (nth 2 [] 0), Fin (nth 3 [] 0))) by (rewrite map_length; exact Hi).
    rewrite (map_nth (fun th => (Fin (sig1 th), Fin (nth 2 th 0), Fin (nth 3 th 0)))). cbn [bind fst snd]. fold th. rewrite <- sig1_sq. reflexivity.
  - destruct (median_pos np_sort (map sig1 rows) Hsort (Hn _ _)) as (s0 & E0 & H0).
    { intros x Hx. apply in_map_iff in Hx. destruct Hx as (th & <- & Hth). apply sig1_pos, (Hok th Hth). }
    destruct (median_ok np_sort Hsort (map sig1 rows) (Hn _ _)) as (s1 & E1 & H1). pose proof (eq_trans (eq_sym E0) E1) as Q. injection Q as <-.
    destruct (median_ok np_sort Hsort (map (fun th => nth 2 th 0) rows) (Hn _ _)) as (mu & E2 & H2).
    destruct (median_ok np_sort Hsort (map (fun th => nth 3 th 0) rows) (Hn _ _)) as (lo & E3 & H3).
    exists (s0 * s0), mu, lo. split; [|split; [exists s0; split; [exact H1|split; [reflexivity|split; assumption]]|nra]].
    rewrite map_map in E0, E2, E3. change (F AX) with xr in *. rewrite E0, E2, E3. reflexivity.
  - rewrite !map_map in Hmean. exact Hmean.
  - rewrite !map_map in Hmean. exact Hmean.
  - rewrite !map_map in Hmean. exact Hmean.
Qed.
Lemma Car1Sample_holds np_sort (si : list (F AX) -> option (list nat)) (raw : kf1 AX) (fn : option (file AX)) (rows : list (list R)) (lp : list R) (d : dict AX) (t y e : list R) bf :
  valid_np_sort np_sort -> valid_sort_index si -> rows <> [] -> (forall th, In th rows -> row1_ok th) -> length lp = length rows ->
  Car1Sample_new fn (map Fin lp) (map (map Fin) rows) = Ok d ->
  strictly_increasing t -> (2 <= length t)%nat -> length y = length t -> length e = length t ->
  exists sigsqr mu lo s, car1_best bf rows lp sigsqr mu lo /\ 0 < sigsqr /\
    car1_sample_filter np_sort si raw (map Fin t) (map Fin y) (map Fin e) bf d = Ok (s, Fin mu) /\
    holds1 s t (map (fun x => x - mu) y) e sigsqr (exp lo).
Proof.
  intros Hsort Hsi Hne Hok Hlp E Hinc Ht Hy He. destruct (car1_inv fn rows (map Fin lp) d Hne Hok ltac:(rewrite map_length; exact Hlp) E) as (ll & ->).
  destruct (car1_fit_Fin np_sort bf rows lp Hsort Hne Hok Hlp) as (sigsqr & mu & lo & Ef & Hb & Hpos).
  destruct (car1_filter_Fin si raw t y e (sqrt sigsqr) mu lo Hsi Hinc Ht Hy He) as (s & Es & Hs). unfold car1_filter in Es.
  assert (sqrt sigsqr * sqrt sigsqr = sigsqr) as Eq by (apply sqrt_sqrt; lra). rewrite Eq in Hs.
  exists sigsqr, mu, lo, s. split; [exact Hb|]. split; [exact Hpos|]. split; [|exact Hs].
  unfold car1_sample_filter.
  rewrite (scalars_col _ "sigma" (fun th => Fin (sig1 th)) rows) by reflexivity. cbn [bind].
  rewrite (scalars_col _ "mu" (fun th => Fin (nth 2 th 0)) rows) by reflexivity. cbn [bind].
  rewrite (scalars_col _ "log_omega" (fun th => Fin (nth 3 th 0)) rows) by reflexivity. cbn [bind].
  rewrite (scalars_col _ "logpost" (fun x => x) (map Fin lp)) by reflexivity. cbn [bind]. rewrite map_id, !combine_map_l.
  unfold car1_fit_filter. change (F AX) with xr in *. rewrite Ef. cbn [bind].
  change (fmul AX (Fin (sqrt sigsqr)) (Fin (sqrt sigsqr))) with (Fin (sqrt sigsqr * sqrt sigsqr)) in Es. rewrite Eq in Es. rewrite Es. reflexivity.
Qed.
Theorem Car1Sample_predict np_sort (si : list (F AX) -> option (list nat)) (raw : kf1 AX) (fn : option (file AX)) (rows : list (list R)) (lp : list R) (d : dict AX) (t y e ts : list R) bf :
  valid_np_sort np_sort -> valid_sort_index si -> rows <> [] -> (forall th, In th rows -> row1_ok th) -> length lp = length rows ->
  Car1Sample_new fn (map Fin lp) (map (map Fin) rows) = Ok d ->
  strictly_increasing t -> (2 <= length t)%nat -> length y = length t -> length e = length t -> no_exact t e ts ->
  exists sigsqr mu lo s o, car1_best bf rows lp sigsqr mu lo /\ 0 < sigsqr /\
    car1_sample_filter np_sort si raw (map Fin t) (map Fin y) (map Fin e) bf d = Ok (s, Fin mu) /\
    py_predict (methods1 AX) s (Fin mu) (map Fin ts) = Ok (map (fun mv => (Fin (fst mv), Fin (snd mv))) o) /\
    predictions (ou_cov sigsqr (exp lo)) t y e mu ts o.
Proof.
  intros Hsort Hsi Hne Hok Hlp E Hinc Ht Hy He Hnz. destruct (Car1Sample_holds np_sort si raw fn rows lp d t y e bf Hsort Hsi Hne Hok Hlp E Hinc Ht Hy He) as (sigsqr & mu & lo & s & Hb & Hpos & Es & Hs).
  destruct (predict1_holds s t _ e _ _ mu ts Hs Hinc Hpos (exp_pos _) Hnz) as (o & Eo & Ho).
  exists sigsqr, mu, lo, s, o. split; [exact Hb|]. split; [exact Hpos|]. split; [exact Es|]. split; [exact Eo|exact Ho].
Qed.
(** 'random' is the mean, which need not be a sample *)
Theorem Car1Sample_random_mean np_sort (si : list (F AX) -> option (list nat)) (raw : kf1 AX) (t y e : list (F AX)) (d : dict AX) :
  car1_sample_filter np_sort si raw t y e BRandom d = car1_sample_filter np_sort si raw t y e BMean d /\
  car1_sample_filter np_sort si raw t y e BOther d = car1_sample_filter np_sort si raw t y e BMean d.
Proof. split; reflexivity. Qed.
Theorem Car1Sample_random_refuted : exists (rows : list (list R)) (lp : list R), rows <> [] /\ (forall th, In th rows -> row1_ok th) /\ length lp = length rows /\
  forall np_sort (si : list (F AX) -> option (list nat)) (raw : kf1 AX) (fn : option (file AX)) (d : dict AX) (t y e : list R) s mu, valid_np_sort np_sort -> valid_sort_index si ->
  strictly_increasing t -> (2 <= length t)%nat -> length y = length t -> length e = length t ->
  Car1Sample_new fn (map Fin lp) (map (map Fin) rows) = Ok d ->
  car1_sample_filter np_sort si raw (map Fin t) (map Fin y) (map Fin e) BRandom d = Ok (s, mu) -> forall i, (i < length rows)%nat -> mu <> Fin (nth 2 (nth i rows []) 0).
Proof.
  exists [[1; 1; 0; 0]; [1; 1; 2; 0]], [0; 0]. split; [discriminate|]. assert (forall th, In th [[1; 1; 0; 0]; [1; 1; 2; 0]] -> row1_ok th) as Hok by (intros th [<-|[<-|[]]]; (split; [reflexivity|cbn; lra])).
  split; [exact Hok|]. split; [reflexivity|]. intros np_sort si raw fn d t y e s mu Hsort Hsi Hinc Ht Hy He E Ef.
  destruct (Car1Sample_predict np_sort si raw fn [[1; 1; 0; 0]; [1; 1; 2; 0]] [0; 0] d t y e [] BRandom Hsort Hsi ltac:(discriminate) Hok eq_refl E Hinc Ht Hy He ltac:(intros i Hi [])) as (sg & mu' & lo & s' & o & Hb & _ & Ef' & _).
  pose proof (eq_trans (eq_sym Ef) Ef') as Q. injection Q as Q1 Q2. destruct Hb as (_ & Hmu & _). cbn [map nth] in Hmu. unfold smean in Hmu. cbn [Rsum nth length INR] in Hmu.
  rewrite Q2. intros [|[|i]] Hi; cbn [nth] in *; [| |cbn in Hi; lia]; intros Q; injection Q as Q; lra.
Qed.
