(** The MCMC drivers on real data: the hypotheses of the run theorems are met. *)
From Coq Require Import Reals List Arith ZArith Bool String Lra Lia Permutation ClassicalEpsilon.
From Coquelicot Require Import Complex.
From Verif Require Import Arith Res ListLemmas KFModel Spec Gauss Emb History InitProof OUpd SimProof KF1R KF1X KF1Main KF1More.
From Verif Require Import Cx KFpModel KFpProof SpecCarma CLin KFpX KFpMain KFpTop KFpMore SpecModel CarpackModel RootsProof PriorProof LogLikProof LogLikMain CarpackTop CarpackRefute.
From Verif Require Import EngineModel StartModel EngineSpec EngineProof EngineInv CholProof RamProof EngineHist EngineClass EngineDriver EngineTop TotalProof TotalClass TotalTop.
Import ListNotations.
Local Open Scope R_scope.

Set Implicit Arguments.
Unset Strict Implicit.

(** ** Arithmetic *)
Lemma finite_laws_AX : finite_laws AX.
Proof.
  constructor; [|reflexivity]. intros [a| | |] [b| | |] [c| | |]; cbn [ffin fdiv fsub AX]; unfold xsub, xadd, xneg, xdiv, xfin;
    try reflexivity; try (intros; discriminate); repeat (unfold rsgn; match goal with |- context [Rlt_dec ?x ?y] => destruct (Rlt_dec x y) end); cbn; intros; try discriminate; try reflexivity.
Qed.

(** ** No observation is dropped when the times are distinct *)
Lemma kf_new_time A X si (raw : kf A X) t y e s y' e' s' : kf_new si raw t y e = Ok s -> kf_new si raw t y' e' = Ok s' -> k_time s = k_time s'.
Proof.
  unfold kf_new, kf_init. intros E E'. apply bind_Ok in E. destruct E as (d & Ed & E). apply bind_Ok in E'. destruct E' as (d' & Ed' & E').
  cbn [k_time SetTime SetTimeSeries SetTimeSeriesErr] in Ed, Ed'. rewrite Ed in Ed'. injection Ed' as <-.
  apply bind_Ok in E. destruct E as (m & Em & E). apply bind_Ok in E'. destruct E' as (m' & Em' & E'). cbn [k_dt set_dt SetTime SetTimeSeries SetTimeSeriesErr] in Em, Em'.
  pose proof (eq_trans (eq_sym Em) Em') as Q. injection Q as <-. clear Em'.
  apply bind_Ok in E. destruct E as (s1 & E1 & E). apply bind_Ok in E'. destruct E' as (s1' & E1' & E').
  assert (k_time s1 = k_time s1' /\ k_dt s1 = k_dt s1') as [H1 H2].
  { clear E E'. destruct (flt A m (fofZ A 0)).
    - cbn [k_time set_dt SetTime SetTimeSeries SetTimeSeriesErr] in E1, E1'. destruct (si t) as [idx|]; [|discriminate].
      cbn [bind] in E1, E1'. apply bind_Ok in E1. destruct E1 as (t1 & Et & E1). apply bind_Ok in E1'. destruct E1' as (t1' & Et' & E1').
      pose proof (eq_trans (eq_sym Et) Et') as Q. injection Q as <-.
      apply bind_Ok in E1. destruct E1 as (y1 & _ & E1). apply bind_Ok in E1'. destruct E1' as (y1' & _ & E1').
      apply bind_Ok in E1. destruct E1 as (e1 & _ & E1). apply bind_Ok in E1'. destruct E1' as (e1' & _ & E1').
      apply bind_Ok in E1. destruct E1 as (d1 & Ed1 & E1). apply bind_Ok in E1'. destruct E1' as (d1' & Ed1' & E1').
      pose proof (eq_trans (eq_sym Ed1) Ed1') as Q. injection Q as <-. injection E1 as <-. injection E1' as <-. split; reflexivity.
    - injection E1 as <-. injection E1' as <-. split; reflexivity. }
  apply bind_Ok in E. destruct E as (m2 & Em2 & E). apply bind_Ok in E'. destruct E' as (m2' & Em2' & E'). rewrite <- H2 in Em2'.
  pose proof (eq_trans (eq_sym Em2) Em2') as Q. injection Q as <-.
  apply bind_Ok in E. destruct E as (s2 & E2 & E). apply bind_Ok in E'. destruct E' as (s2' & E2' & E'). injection E as <-. injection E' as <-.
  change (k_time s2 = k_time s2'). destruct (feq A m2 (fofZ A 0)).
  - apply bind_Ok in E2. destruct E2 as (t1 & Et & E2). apply bind_Ok in E2'. destruct E2' as (t1' & Et' & E2'). rewrite <- H1, <- H2 in Et'.
    pose proof (eq_trans (eq_sym Et) Et') as Q. injection Q as <-.
    apply bind_Ok in E2. destruct E2 as (y1 & _ & E2). apply bind_Ok in E2'. destruct E2' as (y1' & _ & E2').
    apply bind_Ok in E2. destruct E2 as (e1 & _ & E2). apply bind_Ok in E2'. destruct E2' as (e1' & _ & E2').
    apply bind_Ok in E2. destruct E2 as (d1 & Ed1 & E2). apply bind_Ok in E2'. destruct E2' as (d1' & Ed1' & E2').
    injection E2 as <-. injection E2' as <-. reflexivity.
  - injection E2 as <-. injection E2' as <-. exact H1.
Qed.
Lemma distinct_pair (t : list R) : (2 <= List.length t)%nat -> NoDup t -> exists a b, In a t /\ In b t /\ a <> b.
Proof.
  destruct t as [|a [|b t]]; cbn [List.length]; try lia. intros _ H. exists a, b. split; [left; reflexivity|]. split; [right; left; reflexivity|].
  inversion H as [|? ? Hn _]; subst. intros ->. apply Hn. left; reflexivity.
Qed.
Lemma increasing_NoDup (t : list R) : strictly_increasing t -> NoDup t.
Proof.
  intros H. apply (NoDup_nth t 0). intros i j Hi Hj E. destruct (Nat.lt_trichotomy i j) as [L|[L|L]]; [|exact L|].
  - specialize (H i j L Hj). lra.
  - specialize (H j i L Hi). lra.
Qed.
Theorem kept_distinct (si : list (F AX) -> option (list nat)) (t : list R) : valid_sort_index si -> NoDup t -> all_kept si (map Fin t).
Proof.
  intros Hsi Hnd X raw y e s E.
  assert (2 <= List.length t)%nat as H2.
  { unfold kf_new, kf_init in E. apply bind_Ok in E. destruct E as (d & Ed & _). cbn [k_time SetTime SetTimeSeries SetTimeSeriesErr] in Ed.
    unfold make_dt in Ed. rewrite map_length in Ed. destruct (Nat.ltb_spec (List.length t) 2); [discriminate|lia]. }
  destruct (construct_main X si raw t t t Hsi eq_refl eq_refl (distinct_pair H2 Hnd)) as (s' & t' & y' & e' & Es & S1 & _ & _ & Hi & Hin & _).
  rewrite (kf_new_time E Es), S1. rewrite !map_length. apply Permutation_length, NoDup_Permutation; [apply increasing_NoDup, Hi|exact Hnd|exact Hin].
Qed.

(** ** arma::chol *)
Definition msym (n : nat) (K : nat -> nat -> R) : Prop := forall i j, (i < n)%nat -> (j < n)%nat -> K i j = K j i.
(** arma::chol factors symmetric positive definite matrices: K = L^T L with L upper triangular with positive diagonal *)
Definition valid_chol (chol : mat AX -> option (mat AX)) : Prop :=
  forall n (K : nat -> nat -> R), msym n K -> pd n K ->
    exists L, chol (FinM (mbuild n n K)) = Some (FinM L) /\ CholProof.square n L /\ upper n (rent L) /\ posdiag n (rent L) /\
      forall i j, (i < n)%nat -> (j < n)%nat -> gram n (rent L) i j = K i j.

(** L^T c = b for upper triangular L *)
Lemma forward_subst n M b : upper n M -> posdiag n M ->
  exists c : nat -> R, forall j, (j < n)%nat -> Rsum (fun m => M m j * c m) n = b j.
Proof.
  intros Hu Hd.
  assert (forall k, (k <= n)%nat -> exists c : nat -> R, (forall m, (k <= m)%nat -> c m = 0) /\ forall j, (j < k)%nat -> Rsum (fun m => M m j * c m) n = b j) as K.
  { induction k as [|k IH]; intros Hk; [exists (fun _ => 0); split; [reflexivity|intros; lia]|].
    destruct (IH ltac:(lia)) as (c & C1 & C2). set (x := (b k - Rsum (fun m => M m k * c m) n) / M k k).
    exists (fun m => if (m =? k)%nat then x else c m). split.
    - intros m Hm. assert (m =? k = false)%nat as -> by (apply Nat.eqb_neq; lia). apply C1. lia.
    - intros j Hj. rewrite (Rsum_change _ (fun m => M m j * c m) n k) by (try lia; intros m Hm _; apply Nat.eqb_neq in Hm; rewrite Hm; reflexivity).
      rewrite Nat.eqb_refl, (C1 k) by lia. destruct (Nat.eq_dec j k) as [->|Hne].
      + unfold x. pose proof (Hd k ltac:(lia)). field. lra.
      + rewrite (Hu k j) by lia. rewrite C2 by lia. ring. }
  destruct (K n (le_n n)) as (c & _ & H). exists c. exact H.
Qed.
Lemma pd_sub n K : pd (S n) K -> pd n K.
Proof.
  intros H a (k & Hk & Ha). set (a' := fun i => if (i <? n)%nat then a i else 0).
  specialize (H a'). assert (exists k, (k < S n)%nat /\ a' k <> 0) as Hx.
  { exists k. split; [lia|]. unfold a'. destruct (Nat.ltb_spec k n); [exact Ha|lia]. }
  specialize (H Hx). cbn [Rsum] in H. assert (a' n = 0) as E0 by (unfold a'; rewrite Nat.ltb_irrefl; reflexivity).
  rewrite (Rsum_ext _ (fun k => Rsum (fun j => a k * K k j * a j) n) n) in H.
  - rewrite E0 in H. rewrite (Rsum_0 (fun j => 0 * K n j * a' j)) in H by (intros; ring). lra.
  - intros i Hi. rewrite E0, Rmult_0_r, Rplus_0_r. apply Rsum_ext. intros j Hj. unfold a'.
    destruct (Nat.ltb_spec i n); [|lia]. destruct (Nat.ltb_spec j n); [|lia]. reflexivity.
Qed.
Lemma cholesky n K : msym n K -> pd n K -> exists M : nat -> nat -> R, upper n M /\ posdiag n M /\
  forall i j, (i < n)%nat -> (j < n)%nat -> gram n M i j = K i j.
Proof.
  induction n as [|n IH]; intros Hs Hp.
  - exists (fun _ _ => 0). split; [intros i j _ H; lia|]. split; [intros i H; lia|intros i j H; lia].
  - destruct IH as (M & Hu & Hd & HG); [intros i j Hi Hj; apply Hs; lia|apply pd_sub, Hp|].
    destruct (@forward_subst n M (fun j => K j n) Hu Hd) as [c Hc].
    (* the pivot: take a with M a = - c on the first n coordinates and a_n = 1 *)
    assert (0 < K n n - Rsum (fun m => c m ^ 2) n) as Hpiv.
    { assert (exists a : nat -> R, forall m, (m < n)%nat -> Rsum (fun j => M m j * a j) n = - c m) as [a Ha].
      { assert (forall d, (d <= n)%nat -> exists a : nat -> R, (forall j, (j < n - d)%nat -> a j = 0) /\
                 forall m, (m < n)%nat -> (n - d <= m)%nat -> Rsum (fun j => M m j * a j) n = - c m) as Q.
        { induction d as [|d IHd]; intros Hdn; [exists (fun _ => 0); split; [reflexivity|intros; lia]|].
          destruct (IHd ltac:(lia)) as (a & A1 & A2). set (k := (n - S d)%nat). set (x := (- c k - Rsum (fun j => M k j * a j) n) / M k k).
          exists (fun j => if (j =? k)%nat then x else a j). split.
          - intros j Hj. assert (j =? k = false)%nat as -> by (apply Nat.eqb_neq; unfold k in *; lia). apply A1. lia.
          - intros m Hm Hm2. rewrite (Rsum_change _ (fun j => M m j * a j) n k) by (try (unfold k; lia); intros j Hj _; apply Nat.eqb_neq in Hj; rewrite Hj; reflexivity).
            rewrite Nat.eqb_refl, (A1 k) by (unfold k; lia). destruct (Nat.eq_dec m k) as [->|Hne].
            + unfold x. pose proof (Hd k ltac:(unfold k; lia)). field. lra.
            + rewrite (Hu m k) by (unfold k in *; lia). rewrite A2 by (unfold k in *; lia). ring. }
        destruct (Q n (le_n n)) as (a & _ & Ha). exists a. intros m Hm. apply Ha; lia. }
      set (a' := fun j => if (j <? n)%nat then a j else 1).
      specialize (Hp a'). assert (exists k, (k < S n)%nat /\ a' k <> 0) as Hx by (exists n; split; [lia|unfold a'; rewrite Nat.ltb_irrefl; lra]).
      specialize (Hp Hx). cbn [Rsum] in Hp. assert (a' n = 1) as E1 by (unfold a'; rewrite Nat.ltb_irrefl; reflexivity).
      assert (forall j, (j < n)%nat -> a' j = a j) as Ea by (intros j Hj; unfold a'; destruct (Nat.ltb_spec j n); [reflexivity|lia]).
      rewrite (Rsum_ext _ (fun k => Rsum (fun j => a k * gram n M k j * a j) n + a k * K k n) n) in Hp.
      2:{ intros i Hi. rewrite E1, (Ea i Hi), Rmult_1_r. f_equal. apply Rsum_ext. intros j Hj. rewrite (Ea j Hj), HG by assumption. reflexivity. }
      rewrite Rsum_plus, quad_gram in Hp.
      rewrite (Rsum_ext (fun m => Rsum (fun j => M m j * a j) n ^ 2) (fun m => c m ^ 2) n) in Hp by (intros m Hm; rewrite Ha by exact Hm; ring).
      rewrite (Rsum_ext (fun j => a' n * K n j * a' j) (fun k => a k * K k n) n) in Hp by (intros j Hj; rewrite E1, (Ea j Hj), (Hs n j) by lia; ring).
      rewrite E1 in Hp.
      assert (Rsum (fun k => a k * K k n) n = - Rsum (fun m => c m ^ 2) n) as ES.
      { transitivity (Rsum (fun k => Rsum (fun m => a k * (M m k * c m)) n) n).
        - apply Rsum_ext. intros k Hk. rewrite <- (Hc k Hk), Rsum_scal. reflexivity.
        - rewrite Rsum_swap. transitivity (Rsum (fun m => c m * Rsum (fun j => M m j * a j) n) n).
          + apply Rsum_ext. intros m _. rewrite <- Rsum_scal. apply Rsum_ext. intros; ring.
          + rewrite (Rsum_ext _ (fun m => -1 * c m ^ 2) n) by (intros m Hm; rewrite Ha by exact Hm; ring). rewrite Rsum_scal. ring. }
      rewrite ES in Hp. lra. }
    set (r := sqrt (K n n - Rsum (fun m => c m ^ 2) n)).
    assert (0 < r) as Hr by (apply sqrt_lt_R0, Hpiv). assert (r * r = K n n - Rsum (fun m => c m ^ 2) n) as Hrr by (apply sqrt_sqrt; lra).
    exists (fun i j => if (i <? n)%nat then (if (j <? n)%nat then M i j else c i) else if (j <? n)%nat then 0 else r). split; [|split].
    + intros i j Hij Hi. destruct (Nat.ltb_spec i n) as [H|H].
      * destruct (Nat.ltb_spec j n); [|lia]. apply Hu; assumption.
      * destruct (Nat.ltb_spec j n); [reflexivity|lia].
    + intros i Hi. destruct (Nat.ltb_spec i n); [apply Hd; assumption|exact Hr].
    + intros i j Hi Hj. unfold gram. cbn [Rsum]. rewrite Nat.ltb_irrefl.
      destruct (Nat.ltb_spec i n) as [Hi'|Hi']; destruct (Nat.ltb_spec j n) as [Hj'|Hj'].
      * rewrite (Rsum_ext _ (fun m => M m i * M m j) n) by (intros m Hm; destruct (Nat.ltb_spec m n); [reflexivity|lia]).
        change (gram n M i j + 0 * 0 = K i j). rewrite HG by assumption. ring.
      * replace j with n by lia. rewrite (Rsum_ext _ (fun m => M m i * c m) n) by (intros m Hm; destruct (Nat.ltb_spec m n); [reflexivity|lia]).
        rewrite Hc by exact Hi'. ring.
      * replace i with n by lia. rewrite (Rsum_ext _ (fun m => M m j * c m) n) by (intros m Hm; destruct (Nat.ltb_spec m n); [ring|lia]).
        rewrite Hc by exact Hj'. rewrite (Hs n j) by lia. ring.
      * replace i with n by lia. replace j with n by lia. rewrite (Rsum_ext _ (fun m => c m ^ 2) n) by (intros m Hm; destruct (Nat.ltb_spec m n); [ring|lia]).
        rewrite Hrr. ring.
Qed.
Definition factor n (K : nat -> nat -> R) (L : list (list R)) : Prop :=
  CholProof.square n L /\ upper n (rent L) /\ posdiag n (rent L) /\ forall i j, (i < n)%nat -> (j < n)%nat -> gram n (rent L) i j = K i j.
Lemma rent_mbuild n (K : nat -> nat -> R) i j : (i < n)%nat -> (j < n)%nat -> rent (mbuild n n K) i j = K i j.
Proof. intros Hi Hj. unfold rent, mbuild. rewrite (@vbuild_nth _ n (fun i => vbuild n (K i)) i []) by exact Hi. apply vbuild_nth, Hj. Qed.
Lemma square_mbuild n (K : nat -> nat -> R) : CholProof.square n (mbuild n n K).
Proof. split; [apply vbuild_len|]. intros i Hi. unfold mbuild. rewrite (@vbuild_nth _ n (fun i => vbuild n (K i)) i []) by exact Hi. apply vbuild_len. Qed.
Lemma cholesky_list n K : msym n K -> pd n K -> exists L, factor n K L.
Proof.
  intros Hs Hp. destruct (cholesky Hs Hp) as (M & Hu & Hd & HG). exists (mbuild n n M). split; [apply square_mbuild|]. split; [|split].
  - intros i j Hij Hi. rewrite rent_mbuild by lia. apply Hu; assumption.
  - intros i Hi. rewrite rent_mbuild by lia. apply Hd, Hi.
  - intros i j Hi Hj. rewrite <- HG by assumption. apply Rsum_ext. intros m Hm. rewrite !rent_mbuild by assumption. reflexivity.
Qed.
Lemma valid_chol_exists : exists chol, valid_chol chol.
Proof.
  exists (fun MX => let M := map (map unFin) MX in
    match excluded_middle_informative (exists L, factor (List.length M) (rent M) L) with
    | left H => Some (FinM (proj1_sig (constructive_indefinite_description _ H)))
    | right _ => None
    end).
  intros n K Hs Hp. cbv zeta.
  replace (map (map unFin) (FinM (mbuild n n K))) with (mbuild n n K).
  2:{ unfold FinM. rewrite map_map. symmetry. rewrite <- (map_id (mbuild n n K)) at 2. apply map_ext. intros a. apply unFin_map. }
  rewrite (proj1 (square_mbuild n K)).
  destruct (excluded_middle_informative _) as [H|H].
  - destruct (constructive_indefinite_description _ H) as [L (H1 & H2 & H3 & H4)]. cbn [proj1_sig]. exists L. split; [reflexivity|].
    split; [exact H1|]. split; [exact H2|]. split; [exact H3|]. intros i j Hi Hj. rewrite H4 by assumption. apply rent_mbuild; assumption.
  - exfalso. apply H. destruct (cholesky_list Hs Hp) as (L & H1 & H2 & H3 & H4). exists L. split; [exact H1|]. split; [exact H2|]. split; [exact H3|].
    intros i j Hi Hj. rewrite H4 by assumption. symmetry. apply rent_mbuild; assumption.
Qed.

(** ** The initial proposal covariance *)
(** the population variance *)
Definition pvar (y : list R) : R := Rsum (fun i => (nth i y 0 - smean y) ^ 2) (List.length y) / INR (List.length y).
Lemma fold_sq (l : list R) a : fold_left (fun s x => fadd AX s (fmul AX x x)) (map Fin l) (Fin a) = Fin (a + Rsum (fun i => nth i l 0 * nth i l 0) (List.length l)).
Proof.
  revert a; induction l as [|x l IH]; intros a; cbn [map fold_left List.length]; [cbn [Rsum]; f_equal; ring|].
  change (fadd AX (Fin a) (fmul AX (Fin x) (Fin x))) with (Fin (a + x * x)). rewrite IH, Rsum_shift. cbn [nth]. f_equal. ring.
Qed.
Lemma pop_var_Fin (y : list R) : y <> [] -> pop_var AX (map Fin y) = Fin (pvar y).
Proof.
  intros Hy. unfold pop_var, nobs. change (fofZ AX 0) with (Fin 0). rewrite fold_Rsum, fold_sq, map_length. cbn [fofZ AX]. rewrite IZR_nat.
  assert (INR (List.length y) <> 0) as Hn by (apply not_0_INR; destruct y; [congruence|discriminate]).
  change (fdiv AX) with xdiv. rewrite !fin_div by exact Hn.
  change (Fin ((0 + Rsum (fun i : nat => nth i y 0 * nth i y 0) (List.length y)) / INR (List.length y) -
    (0 + Rsum (fun i : nat => nth i y 0) (List.length y)) / INR (List.length y) * ((0 + Rsum (fun i : nat => nth i y 0) (List.length y)) / INR (List.length y))) = Fin (pvar y)).
  f_equal. unfold pvar. set (m := smean y). set (S1 := Rsum (fun i => nth i y 0) (List.length y)). set (S2 := Rsum (fun i => nth i y 0 * nth i y 0) (List.length y)).
  assert (m = S1 / INR (List.length y)) as Em by reflexivity.
  assert (Rsum (fun i => (nth i y 0 - m) ^ 2) (List.length y) = S2 - 2 * m * S1 + m ^ 2 * INR (List.length y)) as E.
  { unfold S1, S2. clearbody m. clear. generalize (List.length y) as n. induction n as [|n IH]; [cbn; ring|]. rewrite S_INR. cbn [Rsum]. rewrite IH. ring. }
  rewrite E, Em. field. exact Hn.
Qed.
Lemma pvar_pos (y : list R) : (exists a b, In a y /\ In b y /\ a <> b) -> 0 < pvar y.
Proof.
  intros (a & b & Ha & Hb & Hab). destruct (In_nth _ _ 0 Ha) as (i & Hi & <-). destruct (In_nth _ _ 0 Hb) as (j & Hj & <-).
  assert (0 < INR (List.length y)) as Hn by (apply lt_0_INR; lia). apply Rdiv_lt_0_compat; [|exact Hn].
  assert (exists k, (k < List.length y)%nat /\ nth k y 0 <> smean y) as (k & Hk & Hne).
  { destruct (Req_dec (nth i y 0) (smean y)) as [E|E]; [exists j|exists i]; split; try assumption. intros E2. apply Hab. congruence. }
  apply (@Rsum_pos _ _ k Hk); [intros; apply pow2_ge_0|]. pose proof (pow2_ge_0 (nth k y 0 - smean y)). pose proof (pow_nonzero (nth k y 0 - smean y) 2 ltac:(lra)). lra.
Qed.
Definition pdiag (y : list R) (i j : nat) : R :=
  if negb (i =? j)%nat then 0 else if (i =? 0)%nat then 2 * pvar y * pvar y / INR (List.length y)
  else if (i =? 2)%nat then pvar y / INR (List.length y) else 1 * (1 / 100) * (1 / 100).
Lemma prop_covar_Fin n (y : list R) : y <> [] -> prop_covar AX n (map Fin y) = FinM (mbuild n n (pdiag y)).
Proof.
  intros Hy. unfold prop_covar, nobs. rewrite pop_var_Fin, map_length by exact Hy. cbv zeta. unfold mbuild, FinM. rewrite map_vbuild. apply vbuild_ext. intros i _.
  rewrite map_vbuild. apply vbuild_ext. intros j _. unfold pdiag. cbn [fofZ AX]. rewrite IZR_nat.
  assert (INR (List.length y) <> 0) as Hn by (apply not_0_INR; destruct y; [congruence|discriminate]).
  destruct (negb (i =? j)%nat); [reflexivity|]. destruct (i =? 0)%nat; [|destruct (i =? 2)%nat].
  - exact (fin_div _ _ Hn).
  - exact (fin_div _ _ Hn).
  - reflexivity.
Qed.
Lemma pdiag_pd n (y : list R) : 0 < pvar y -> (0 < List.length y)%nat -> msym n (pdiag y) /\ pd n (pdiag y).
Proof.
  intros Hp Hl. assert (0 < INR (List.length y)) as Hn by (apply lt_0_INR; exact Hl). split.
  - intros i j _ _. unfold pdiag. rewrite (Nat.eqb_sym j i). destruct (Nat.eqb_spec i j) as [->|]; reflexivity.
  - assert (forall i, 0 < pdiag y i i) as Hd.
    { intros i. unfold pdiag. rewrite Nat.eqb_refl. cbn [negb]. destruct (i =? 0)%nat; [apply Rdiv_lt_0_compat; nra|].
      destruct (i =? 2)%nat; [apply Rdiv_lt_0_compat; assumption|lra]. }
    intros a (k & Hk & Ha).
    rewrite (Rsum_ext _ (fun k => pdiag y k k * a k ^ 2) n).
    + apply (@Rsum_pos _ _ k Hk); [intros i _; pose proof (Hd i); pose proof (pow2_ge_0 (a i)); nra|].
      pose proof (Hd k). pose proof (pow2_ge_0 (a k)). pose proof (pow_nonzero (a k) 2 Ha). apply Rmult_lt_0_compat; lra.
    + intros i Hi. rewrite (Rsum_ext _ (fun j => (if (i =? j)%nat then 1 else 0) * (a i * pdiag y i j * a j)) n).
      * rewrite Rsum_delta by exact Hi. ring.
      * intros j _. destruct (Nat.eqb_spec i j) as [|Hne]; [ring|]. unfold pdiag. apply Nat.eqb_neq in Hne. rewrite Hne. cbn [negb]. ring.
Qed.
Lemma FinM_square n L : CholProof.square n L -> TotalProof.square (A := AX) n (FinM L).
Proof.
  intros [H1 H2]. split; [unfold FinM; rewrite map_length; exact H1|]. apply Forall_forall. intros r Hr.
  unfold FinM in Hr. apply in_map_iff in Hr. destruct Hr as (l & <- & Hl). rewrite map_length. destruct (In_nth _ _ [] Hl) as (i & Hi & <-). apply H2. rewrite <- H1. exact Hi.
Qed.
(** the initial proposal factor *)
Lemma chol_init chol n (y : list R) : valid_chol chol -> (exists a b, In a y /\ In b y /\ a <> b) ->
  exists L, chol (prop_covar AX n (map Fin y)) = Some (FinM L) /\ factor n (pdiag y) L.
Proof.
  intros Hc Hy. pose proof (pvar_pos Hy) as Hp. assert (y <> []) as Hne by (destruct Hy as (a & _ & Ha & _); intros ->; destruct Ha).
  destruct (@pdiag_pd n y Hp ltac:(destruct y; [congruence|cbn; lia])) as [H1 H2]. rewrite prop_covar_Fin by exact Hne.
  destruct (Hc n _ H1 H2) as (L & E & HL). exists L. split; [exact E|exact HL].
Qed.

(** ** Runs on real data *)
Section Runs.
Variable R0 : rng AX.
Variables vsort dsort : list (F AX) -> option (list (F AX)).
Variable solve : list (list (cx AX)) -> list (cx AX) -> option (list (cx AX)).
Variable si : list (F AX) -> option (list nat).
Variable chol : mat AX -> option (mat AX).
Hypothesis Hvs : valid_vsort vsort.
Hypothesis Hsi : valid_sort_index si.
Hypothesis Hch : valid_chol chol.
Variables t y e : list R.
Hypothesis Hy : List.length y = List.length t.
Hypothesis He : List.length e = List.length t.
Hypothesis Ht : strictly_increasing t.
Hypothesis Hne : exists a b, In a y /\ In b y /\ a <> b.

Lemma two_obs : (2 <= List.length t)%nat.
Proof using Hne Hy.
  clear - Hy Hne. rewrite <- Hy. destruct Hne as (a & b & Ha & Hb & Hab). destruct y as [|c [|d l]]; cbn in *; try lia; try tauto.
  destruct Ha as [<-|[]], Hb as [<-|[]]. congruence.
Qed.
(** the objects and their bounds *)
Lemma car1_built raw : exists b fmin fmax, car1_new si raw (map Fin t) (map Fin y) (map Fin e) = Ok b /\
  base_holds b t y e (mkB AX (Fin (10 * sqrt (svar y))) (Fin fmax) (Fin fmin) false) /\ data_bounds t y (10 * sqrt (svar y)) fmin fmax.
Proof using Hsi Hy He Ht Hne.
  destruct (base_new_Fin _ si raw t y e Hsi two_obs Hy He Ht) as (b & smax & fmin & fmax & E & Hb & Hd).
  pose proof (db_sd _ _ _ _ _ Hd) as ->. exists b, fmin, fmax. split; [exact E|]. split; assumption.
Qed.
Theorem car1_completes_real N burnin thin init raw v0 l0 a0 (g : gen R0) : List.length v0 = 4%nat ->
  exists w g', RunCar1Sampler (R := R0) vsort si chol N burnin (map Fin t) (map Fin y) (map Fin e) thin init raw v0 l0 a0 g = Ok (w, g').
Proof.
  intros Hv0. destruct (car1_built raw) as (b & fmin & fmax & Eb & _). destruct (@chol_init chol 4 y Hch Hne) as (L & EL & HL).
  refine (@car1_completes AX R0 vsort si chol N burnin (map Fin t) (map Fin y) (map Fin e) thin init raw v0 l0 a0 g b (FinM L) _ _ _ Eb _ EL _ Hv0).
  - change (F AX) with xr. rewrite !map_length. exact Hy.
  - change (F AX) with xr. rewrite !map_length. exact He.
  - apply kept_distinct; [exact Hsi|apply increasing_NoDup, Ht].
  - rewrite diffs_Fin. destruct (Hvs (diffs AR t)) as (l' & E & Hp & _). exists (map Fin l'). split; [exact E|]. change (F AX) with xr. rewrite !map_length.
    symmetry. exact (Permutation_length Hp).
  - apply FinM_square, HL.
Qed.

(** the prior bounds of a run: as of the documentation but with ten population standard deviations *)
Definition run_bounds (smax fmin fmax : R) : Prop :=
  smax = 10 * sqrt (pvar y) /\ 0 < fmax /\ (forall i, (S i < List.length t)%nat -> 1 / fmax <= nth (S i) t 0 - nth i t 0) /\
  (exists i, (S i < List.length t)%nat /\ 1 / fmax = nth (S i) t 0 - nth i t 0) /\ fmin = 1 / (nth (List.length t - 1) t 0 - nth 0 t 0).
Lemma set_prior_built X (b : base AX X) bd0 : base_holds b t y e bd0 -> ignore_prior bd0 = false ->
  exists b1 smax fmin fmax, SetPrior b (fmul AX (fofZ AX 10) (fsqrt AX (pop_var AX (map Fin y)))) = Ok b1 /\
    base_holds b1 t y e (mkB AX (Fin smax) (Fin fmax) (Fin fmin) false) /\ run_bounds smax fmin fmax.
Proof using Hy He Ht Hne.
  intros Hb Hig. pose proof Hb as (Hw & E1 & E2 & E3 & E4 & E5). assert (y <> []) as Hyn by (destruct Hne as (a & _ & Ha & _); intros E; rewrite E in Ha; destruct Ha).
  destruct (make_bounds_Fin t (Fin (10 * sqrt (pvar y))) false two_obs Ht) as (fmin & fmax & Em & B1 & B2 & B3 & B4).
  exists (mkBase (b_time b) (b_y b) (b_yerr b) (b_kf b) (mkB AX (Fin (10 * sqrt (pvar y))) (Fin fmax) (Fin fmin) false)), (10 * sqrt (pvar y)), fmin, fmax.
  split; [|split].
  - unfold SetPrior. rewrite E5, Hig, E1, pop_var_Fin by exact Hyn.
    replace (fmul AX (fofZ AX 10) (fsqrt AX (Fin (pvar y)))) with (Fin (10 * sqrt (pvar y)))
      by (cbn [fsqrt fmul fofZ AX]; rewrite fin_sqrt by (apply Rlt_le, pvar_pos, Hne); reflexivity).
    rewrite Em. reflexivity.
  - split; [exact Hw|]. repeat (split; [assumption|]). reflexivity.
  - repeat (split; [first [reflexivity|assumption]|]). exact B4.
Qed.
Lemma walker_built raw p z : (2 <= p)%nat -> exists b bd, walker_new si raw p z (map Fin t) (map Fin y) (map Fin e) = Ok b /\ base_holds b t y e bd /\ ignore_prior bd = false.
Proof using Hsi Hy He Ht Hne.
  intros Hp. destruct (carp_new_Fin si raw p t y e Hsi two_obs Hy He Ht ltac:(lia)) as (b & smax & fmin & fmax & E & Hb & _).
  unfold walker_new. destruct z; [|exists b; eexists; split; [exact E|]; split; [exact Hb|reflexivity]].
  unfold zcar_new. rewrite E. cbn [bind]. rewrite make_dt_Fin by exact two_obs. cbn [bind].
  assert (List.length (diffs AR t) = List.length t - 1)%nat as Ld by apply dlen.
  assert (diffs AR t <> []) as Hnd by (intros Q; rewrite Q in Ld; cbn in Ld; pose proof two_obs; lia).
  destruct (vmin_ok (diffs AR t) Hnd) as (m & Em & _). rewrite Em. cbn [bind].
  assert (exists ma, belcher AX p (fdiv AX (fofZ AX 1) (Fin m)) = Ok ma) as [ma Ema].
  { unfold belcher. destruct (Nat.eqb_spec p 0); [lia|]. eexists. reflexivity. }
  rewrite Ema. cbn [bind]. do 2 eexists. split; [reflexivity|]. split; [exact Hb|reflexivity].
Qed.
(** the objects of a CARMA run *)
Lemma walker_prior raw p z : (2 <= p)%nat -> exists b b1 smax fmin fmax, walker_new si raw p z (map Fin t) (map Fin y) (map Fin e) = Ok b /\
  SetPrior b (fmul AX (fofZ AX 10) (fsqrt AX (pop_var AX (map Fin y)))) = Ok b1 /\
  base_holds b1 t y e (mkB AX (Fin smax) (Fin fmax) (Fin fmin) false) /\ run_bounds smax fmin fmax.
Proof using Hsi Hy He Ht Hne.
  intros Hp. destruct (walker_built raw z Hp) as (b & bd & Eb & Hb & Hi). destruct (set_prior_built Hb Hi) as (b1 & smax & fmin & fmax & E1 & Hb1 & HB).
  exists b, b1, smax, fmin, fmax. split; [exact Eb|]. split; [exact E1|]. split; [exact Hb1|exact HB].
Qed.
Lemma walker_finite (b1 : base AX (kpx AX)) smax fmin fmax p q z (th : list R) om : valid_solve solve ->
  base_holds b1 t y e (mkB AX (Fin smax) (Fin fmax) (Fin fmin) false) -> (2 <= p)%nat -> (z = true \/ (q < p)%nat) -> List.length th = walker_dim p q z ->
  ARRoots AX p (map Fin th) = Ok (map FinC om) -> in_prior smax fmin fmax th om -> nth 0 th 0 <> 0 ->
  exists lp b2, LogDensity (walker_cls solve p q z) b1 (map Fin th) = Ok (Fin lp, b2).
Proof using Ht Hy He.
  intros Hsv Hb Hp Hq HL Hom Hin H0. rewrite walker_cls_eq.
  assert (3 + p <= List.length th)%nat as HL3 by (rewrite HL; unfold walker_dim; destruct z; lia).
  assert (exists ma : list R, walker_ma (A := AX) p q z (map Fin th) = Ok (map Fin ma) /\ List.length ma = p /\ exists l, nth l ma 0 <> 0) as (ma & Ema & Lma & Nma).
  { unfold walker_ma. destruct z; [|destruct (Nat.eqb_spec q 0)].
    - exists (upd (repeat 0 p) 0 1). rewrite carp_ma_Fin. split; [reflexivity|]. split; [apply CarpackRefute.carp_ma_len|apply carp_ma_nz; lia].
    - exists (upd (repeat 0 p) 0 1). rewrite carp_ma_Fin. split; [reflexivity|]. split; [apply CarpackRefute.carp_ma_len|apply carp_ma_nz; lia].
    - destruct Hq as [|Hq]; [discriminate|]. destruct (ExtractMA_carma_main p q th Hq) as (ma & Em & Lm & Hm0 & _); [rewrite HL; unfold walker_dim; lia|].
      exists ma. split; [exact Em|]. split; [exact Lm|]. exists O. rewrite Hm0. lra. }
  pose proof (pr_scale _ _ _ _ _ Hin) as Hs.
  destruct (LDp_all solve p (walker_ma (A := AX) p q z) (LogPrior AX) b1 t y e th ma om smax fmin fmax false (log_sichi (nth 1 th 0)) Hsv Hb Ht Hp HL3 Ema Lma Nma) as (x & b' & EL & _);
    try assumption; try (intros; discriminate); try lra; try (intros; assumption).
  - intros Hs0. apply LogPrior_main; [lia|exact Hs0].
  - eexists; eexists. exact EL.
Qed.
Theorem carma_completes_real fuel N burnin p q nw z thin (th : list R) om smax fmin fmax raw v0 l0 a0 (g : gen R0) : valid_solve solve ->
  (2 <= p)%nat -> (z = true \/ (q < p)%nat) -> (0 < nw)%nat -> List.length th = walker_dim p q z -> List.length v0 = walker_dim p q z ->
  run_bounds smax fmin fmax -> ARRoots AX p (map Fin th) = Ok (map FinC om) -> in_prior smax fmin fmax th om -> nth 0 th 0 <> 0 ->
  exists w g', RunCarmaSampler (R := R0) dsort solve si chol fuel N burnin (map Fin t) (map Fin y) (map Fin e) p q nw z thin (map Fin th) raw v0 l0 a0 g = Ok (w, g').
Proof.
  intros Hsv Hp Hq Hnw HL Hv0 HB Hom Hin H0. destruct (walker_prior raw z Hp) as (b & b1 & smax' & fmin' & fmax' & Eb & E1 & Hb1 & HB').
  assert (smax' = smax /\ fmin' = fmin /\ fmax' = fmax) as (-> & -> & ->).
  { destruct HB as (S1 & S2 & S3 & (i & S4 & S5) & S6), HB' as (U1 & U2 & U3 & (j & U4 & U5) & U6). split; [congruence|]. split; [congruence|].
    pose proof (S3 j U4) as Q1. pose proof (U3 i S4) as Q2. rewrite <- U5 in Q1. rewrite <- S5 in Q2.
    assert (1 / fmax = 1 / fmax') as Q by lra. apply (f_equal Rinv) in Q. unfold Rdiv in Q. rewrite !Rmult_1_l, !Rinv_inv in Q. congruence. }
  destruct (walker_finite Hsv Hb1 Hp Hq HL Hom Hin H0) as (lp & b2 & EL). destruct (@chol_init chol (walker_dim p q z) y Hch Hne) as (L & ELc & HLc).
  refine (@carma_completes AX R0 dsort solve si chol fuel N burnin (map Fin t) (map Fin y) (map Fin e) p q nw z thin (map Fin th) raw v0 l0 a0 g b b1 (Fin lp) b2 (FinM L)
    eq_refl Hp Hq Hnw _ _ _ Eb E1 _ EL eq_refl ELc _ Hv0).
  - change (F AX) with xr. rewrite !map_length. exact Hy.
  - change (F AX) with xr. rewrite !map_length. exact He.
  - apply kept_distinct; [exact Hsi|apply increasing_NoDup, Ht].
  - change (F AX) with xr. rewrite map_length. exact HL.
  - apply FinM_square, HLc.
Qed.
End Runs.
