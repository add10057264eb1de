(** C129: samples loaded from a file. *)
From Coq Require Import List Arith ZArith Bool String Ascii Lia Reals.
From Verif Require Import Arith Res ListLemmas KFModel PyModel PySampleModel PyFileModel Emb.
Import ListNotations.
Local Open Scope string_scope.
Local Notation length := List.length.

(** The file of the samples [ths] with the log-posteriors [lps]: on line i the parameter vector and then the log-posterior of sample i *)
Definition sample_file {A : Arith} (ths : list (list (F A))) (lps : list (F A)) : list (list (F A)) := map (fun x => (fst x ++ [snd x])%list) (combine ths lps).
(** column i *)
Definition col {A : Arith} (i : nat) (ths : list (list (F A))) : list (F A) := map (fun th => nth i th (fofZ A 0)) ths.

Section File.
Variable A : Arith.

Lemma nth_firstn' {T} (d : T) l : forall n i, i < n -> nth i (firstn n l) d = nth i l d.
Proof. induction l as [|x l IH]; intros [|n] [|i] H; try lia; try reflexivity. cbn. apply IH. lia. Qed.
Lemma nth_skipn' {T} (d : T) : forall k l i, nth i (skipn k l) d = nth (k + i) l d.
Proof. induction k as [|k IH]; intros l i; [reflexivity|]. destruct l as [|x l]; [cbn; destruct i; reflexivity|]. cbn. apply IH. Qed.
Lemma nth_map' {T U} (f : T -> U) d d' : forall l i, i < length l -> nth i (map f l) d' = f (nth i l d).
Proof. induction l as [|x l IH]; intros [|i] H; cbn in *; try lia; [reflexivity|]. apply IH. lia. Qed.
Lemma rmap_ok {T U} (f : T -> res U) (h : T -> U) l : (forall x, In x l -> f x = Ok (h x)) -> rmap f l = Ok (map h l).
Proof.
  induction l as [|x l IH]; intros H; [reflexivity|]. cbn [rmap map]. rewrite (H x (or_introl eq_refl)). cbn [bind]. rewrite IH by (intros y Hy; apply H; right; exact Hy). reflexivity.
Qed.
Lemma rmap_col i (ths : list (list (F A))) : (forall th, In th ths -> i < length th) -> rmap (fun row => vget row i) ths = Ok (col i ths).
Proof. intros H. apply rmap_ok. intros th Hth. apply (@vget_ok _ th i (fofZ A 0)), H, Hth. Qed.
Lemma file_init (ths : list (list (F A))) lps : length lps = length ths -> map (fun row => firstn (length row - 1) row) (sample_file ths lps) = ths.
Proof.
  revert lps. induction ths as [|th ths IH]; intros [|l lps] H; try discriminate H; [reflexivity|]. unfold sample_file in *. cbn [combine map fst snd]. rewrite IH by (cbn in H; lia).
  rewrite app_length. cbn [length]. rewrite Nat.add_sub, firstn_app, firstn_all, Nat.sub_diag. cbn [firstn]. rewrite app_nil_r. reflexivity.
Qed.
Lemma file_last (ths : list (list (F A))) lps : length lps = length ths -> rmap (fun row => vget row (length row - 1)) (sample_file ths lps) = Ok lps.
Proof.
  revert lps. induction ths as [|th ths IH]; intros [|l lps] H; try discriminate H; [reflexivity|]. unfold sample_file in *. cbn [combine map fst snd rmap]. 
  rewrite app_length. cbn [length]. rewrite Nat.add_sub. unfold vget at 1. rewrite nth_error_app2, Nat.sub_diag by lia. cbn [nth_error bind]. rewrite IH by (cbn in H; lia). reflexivity.
Qed.
Lemma file_long (ths : list (list (F A))) lps : length lps = length ths -> 2 <= length ths -> genfromtxt A (sample_file ths lps) = V2 A (sample_file ths lps).
Proof. intros H H2. destruct ths as [|t1 [|t2 ths]], lps as [|l1 [|l2 lps]]; cbn in *; try lia; reflexivity. Qed.

Lemma dget_same (d : dict A) k a : dget (dset d k a) k = Some a.
Proof. induction d as [|[k' a'] d IH]; cbn; [rewrite String.eqb_refl; reflexivity|]. destruct (String.eqb k k') eqn:E; cbn; [rewrite String.eqb_refl; reflexivity|]. rewrite E. exact IH. Qed.
Lemma dget_other (d : dict A) k k1 a : k <> k1 -> dget (dset d k1 a) k = dget d k.
Proof.
  intros H. apply String.eqb_neq in H. induction d as [|[k' a'] d IH]; cbn; [rewrite H; reflexivity|].
  destruct (String.eqb k1 k') eqn:E; cbn; [|rewrite IH; reflexivity]. rewrite H. apply String.eqb_eq in E. subst. rewrite H. reflexivity.
Qed.
End File.

Ltac keys := repeat (first [rewrite dget_same; reflexivity | rewrite dget_other by (first [discriminate | assumption])]); try reflexivity.

(** C129: generate_from_file([name]) on a file of at least two samples, in any arithmetic, whatever the object holds: var, measerr_scale, mu, quad_coefs and
    logpost are those of the file, sample by sample, and every other array is as it was. *)
Theorem C129_carma : forall (A : Arith) q (fs : files A) name more h ths lps (d : dict A) m, fs name = Some (h, sample_file ths lps) ->
  length lps = length ths -> 2 <= length ths -> (forall th, In th ths -> length th = m) -> 3 + q <= m ->
  exists d', carma_generate_from_file q fs (NList (name :: more)) d = Ok d' /\
    get_samples d' "logpost" = Ok (V1 A lps) /\ get_samples d' "var" = Ok (V1 A (map (fun x => fmul A x x) (col 0 ths))) /\
    get_samples d' "measerr_scale" = Ok (V1 A (col 1 ths)) /\ get_samples d' "mu" = Ok (V1 A (col 2 ths)) /\
    get_samples d' "quad_coefs" = Ok (V2 A (map (fun th => map (fun i => fexp A (nth (3 + i) th (fofZ A 0))) (seq 0 (m - 3 - q))) ths)) /\
    forall k, ~ In k ["logpost"; "var"; "measerr_scale"; "mu"; "quad_coefs"] -> get_samples d' k = get_samples d k.
Proof.
  intros A q fs name more h ths lps d m Ef Hl H2 Hm Hq. unfold carma_generate_from_file, first_name, fopen. cbn [elements bind]. rewrite Ef. cbn [bind]. unfold carma_from_file. cbn [f_data].
  rewrite file_long by assumption. rewrite file_init, file_last by assumption. unfold carma_from_trace. destruct ths as [|th0 ths'] eqn:E; [cbn in H2; lia|]. rewrite <- E in *.
  rewrite !rmap_col by (intros th Hth; rewrite (Hm th Hth); lia). cbn [bind]. unfold carma_set_logpost. eexists. split; [reflexivity|]. unfold get_samples.
  split; [keys|]. split; [keys|]. split; [keys|]. split; [keys|]. split.
  - rewrite dget_other by discriminate. rewrite dget_same. do 2 f_equal. apply map_ext_in. intros th Hth.
    assert (length th0 = m) as -> by (apply Hm; rewrite E; left; reflexivity). pose proof (Hm th Hth) as Lt.
    apply nth_ext with (d := fofZ A 0) (d' := fofZ A 0).
    + rewrite !map_length, seq_length, firstn_length, skipn_length. lia.
    + rewrite map_length, firstn_length, skipn_length. intros i Hi.
      rewrite (nth_map' (fexp A) (fofZ A 0) (fofZ A 0)) by (rewrite firstn_length, skipn_length; lia).
      rewrite (nth_map' (fun j => fexp A (nth (3 + j) th (fofZ A 0))) 0 (fofZ A 0)) by (rewrite seq_length; lia).
      rewrite seq_nth by lia. f_equal. rewrite nth_firstn' by lia. rewrite nth_skipn'. reflexivity.
  - intros k Hk. cbn [In] in Hk. rewrite !dget_other by (intros ->; tauto). reflexivity.
Qed.
Print Assumptions C129_carma.

(** C129: the same of a Car1Sample, with log_omega in the place of quad_coefs. *)
Theorem C129_car1 : forall (A : Arith) (fs : files A) name more h ths lps (d : dict A), fs name = Some (h, sample_file ths lps) ->
  length lps = length ths -> 2 <= length ths -> (forall th, In th ths -> 4 <= length th) ->
  exists d', car1_generate_from_file fs (NList (name :: more)) d = Ok d' /\
    get_samples d' "logpost" = Ok (V1 A lps) /\ get_samples d' "var" = Ok (V1 A (map (fun x => fmul A x x) (col 0 ths))) /\
    get_samples d' "measerr_scale" = Ok (V1 A (col 1 ths)) /\ get_samples d' "mu" = Ok (V1 A (col 2 ths)) /\ get_samples d' "log_omega" = Ok (V1 A (col 3 ths)) /\
    forall k, ~ In k ["logpost"; "var"; "measerr_scale"; "mu"; "log_omega"] -> get_samples d' k = get_samples d k.
Proof.
  intros A fs name more h ths lps d Ef Hl H2 Hm. unfold car1_generate_from_file, first_name, fopen. cbn [elements bind]. rewrite Ef. cbn [bind]. unfold car1_from_file. cbn [f_data].
  rewrite file_long by assumption. rewrite file_init, file_last by assumption. unfold car1_from_trace. destruct ths as [|th0 ths'] eqn:E; [cbn in H2; lia|]. rewrite <- E in *.
  rewrite !rmap_col by (intros th Hth; pose proof (Hm th Hth); lia). cbn [bind]. unfold carma_set_logpost. eexists. split; [reflexivity|]. unfold get_samples.
  split; [keys|]. split; [keys|]. split; [keys|]. split; [keys|]. split; [keys|].
  intros k Hk. cbn [In] in Hk. rewrite !dget_other by (intros ->; tauto). reflexivity.
Qed.
Print Assumptions C129_car1.

(** C129 is false of the documented call generate_from_file(name): it opens the file whose name is the first letter.  So it raises if there is no such
    file, in all three classes, whatever the file called name holds; *)
Theorem C129_string_refuted : forall (A : Arith) q (fs : files A) c s (d : dict A), fs (String c EmptyString) = None ->
  carma_generate_from_file q fs (NStr (String c s)) d = Throw Elogic /\ car1_generate_from_file fs (NStr (String c s)) d = Throw Elogic /\
  base_generate_from_file fs (NStr (String c s)) d = Throw Elogic.
Proof. intros A q fs c s d E. unfold carma_generate_from_file, car1_generate_from_file, base_generate_from_file, first_name, fopen. cbn. unfold fopen. rewrite E. repeat split. Qed.
Print Assumptions C129_string_refuted.
(** and if there is one, that file is loaded. *)
Theorem C129_letter_refuted : forall (A : Arith) q (fs : files A) c s (d : dict A),
  carma_generate_from_file q fs (NStr (String c s)) d = carma_generate_from_file q fs (NList [String c EmptyString]) d /\
  car1_generate_from_file fs (NStr (String c s)) d = car1_generate_from_file fs (NList [String c EmptyString]) d.
Proof. intros. split; reflexivity. Qed.
Print Assumptions C129_letter_refuted.

(** C129 is false of a file with one sample: it raises. *)
Theorem C129_one_sample_refuted : forall (A : Arith) q (fs : files A) name more h th lp (d : dict A), fs name = Some (h, sample_file [th] [lp]) ->
  carma_generate_from_file q fs (NList (name :: more)) d = Throw Elogic /\ car1_generate_from_file fs (NList (name :: more)) d = Throw Elogic.
Proof. intros A q fs name more h th lp d E. unfold carma_generate_from_file, car1_generate_from_file, first_name, fopen. cbn [elements bind]. rewrite E. split; reflexivity. Qed.
Print Assumptions C129_one_sample_refuted.

(** C129: the other files of the list are not read. *)
Theorem C129_more_refuted : forall (A : Arith) q (fs : files A) name more (d : dict A),
  carma_generate_from_file q fs (NList (name :: more)) d = carma_generate_from_file q fs (NList [name]) d.
Proof. reflexivity. Qed.
Print Assumptions C129_more_refuted.

(** C129 is false of the derived arrays: a Car1Sample of one sample into which a file of two is loaded has two values of mu and one of sigma, and the arrays
    have different shapes. *)
Theorem C129_derived_refuted : exists (fs : files AX) d d' mu sg, Car1Sample_new (A := AX) None [Fin 0] [[Fin 1; Fin 1; Fin 0; Fin 0]] = Ok d /\
  car1_generate_from_file fs (NList ["a"]) d = Ok d' /\ get_samples d' "mu" = Ok (V1 AX mu) /\ length mu = 2 /\ get_samples d' "sigma" = Ok (V2 AX sg) /\ length sg = 1.
Proof.
  pose (ths := [[Fin 1; Fin 1; Fin 0; Fin 0]; [Fin 2; Fin 1; Fin 1; Fin 1]] : list (list (F AX))). pose (lps := [Fin 0; Fin 1] : list (F AX)).
  pose (fs := (fun n => if String.eqb n "a" then Some ("header", sample_file ths lps) else None) : files AX).
  destruct (Car1Sample_new (A := AX) None [Fin 0] [[Fin 1; Fin 1; Fin 0; Fin 0]]) as [d|e| |] eqn:E; try (cbn in E; discriminate E).
  destruct (C129_car1 AX fs "a" [] "header" ths lps d eq_refl eq_refl (le_n 2)) as (d' & E1 & _ & _ & _ & E2 & _ & E3).
  { intros th [<-|[<-|[]]]; cbn; lia. }
  exists fs, d, d'. do 2 eexists. split; [reflexivity|]. split; [exact E1|]. split; [exact E2|]. split; [reflexivity|].
  rewrite E3 by (cbn; intuition discriminate). cbn in E. injection E as <-. split; reflexivity.
Qed.
Print Assumptions C129_derived_refuted.

(** C129: generate_from_file of a plain MCMCSample with a list of readable files: every file is stored under its first line, newline included, unless the name
    is taken; what was there stays. *)
Theorem C129_plain : forall (A : Arith) (fs : files A) l (d : dict A), (forall n, In n l -> fs n <> None) ->
  exists d', base_generate_from_file fs (NList l) d = Ok d' /\
    (forall k a, get_samples d k = Ok a -> get_samples d' k = Ok a) /\
    (forall n h rows, In n l -> fs n = Some (h, rows) -> exists a, get_samples d' (h ++ String (ascii_of_nat 10) EmptyString) = Ok a) /\
    (forall n r h rows, l = n :: r -> fs n = Some (h, rows) -> get_samples d (h ++ String (ascii_of_nat 10) EmptyString) = Throw Elogic ->
       get_samples d' (h ++ String (ascii_of_nat 10) EmptyString) = Ok (genfromtxt A rows)).
Proof.
  intros A fs l. unfold base_generate_from_file. cbn [elements]. induction l as [|n l IH]; intros d H.
  - exists d. split; [reflexivity|]. split; [tauto|]. split; [intros ? ? ? []|discriminate].
  - cbn [base_generate]. unfold fopen. destruct (fs n) as [[h rows]|] eqn:E; [|exfalso; apply (H n (or_introl eq_refl)), E]. cbn [bind]. unfold base_from_file, readline. cbn [f_header f_data bind].
    set (nl := h ++ String (ascii_of_nat 10) EmptyString) in *.
    destruct (IH (match dget d nl with Some _ => d | None => dset d nl (genfromtxt A rows) end)) as (d' & Ed & K1 & K2 & K3); [intros x Hx; apply H; right; exact Hx|].
    exists d'. split; [exact Ed|].
    assert (exists a, get_samples d' nl = Ok a) as Hnl.
    { destruct (dget d nl) as [a|] eqn:En; [exists a; apply K1; unfold get_samples; rewrite En; reflexivity|]. exists (genfromtxt A rows). apply K1. unfold get_samples. rewrite dget_same. reflexivity. }
    split; [|split].
    + intros k a Ha. apply K1. destruct (dget d nl) as [a'|] eqn:En; [exact Ha|]. unfold get_samples in *. destruct (String.eqb_spec k nl) as [->|Hk]; [rewrite En in Ha; discriminate Ha|].
      rewrite dget_other by exact Hk. exact Ha.
    + intros x h1 r1 [<-|Hx] Ex; [rewrite E in Ex; injection Ex as <- <-; exact Hnl|exact (K2 x h1 r1 Hx Ex)].
    + intros x r h1 r1 Q Ex Hn. injection Q as <- <-. rewrite E in Ex. injection Ex as <- <-. apply K1. fold nl in Hn. unfold get_samples in *. destruct (dget d nl); [discriminate Hn|]. rewrite dget_same. reflexivity.
Qed.
Print Assumptions C129_plain.

(** A file of two CARMA(2,1) samples meets the hypotheses of C129_carma, one of two CAR(1) samples those of C129_car1. *)
Example C129_hypotheses_met : let ths := [map Fin [1; 1; 0; 0; 0; 0]; map Fin [2; 1; 1; 0; 1; 0]]%R in let lps := [Fin 0; Fin 1] in
  exists fs : files AX, fs "samples.txt" = Some ("h", sample_file (A := AX) ths lps) /\ length lps = length ths /\ 2 <= length ths /\ (forall th, In th ths -> length th = 6) /\ 3 + 1 <= 6.
Proof. intros ths lps. exists (fun _ => Some ("h", sample_file (A := AX) ths lps)). repeat split; try (cbn; lia). intros th [<-|[<-|[]]]; reflexivity. Qed.
