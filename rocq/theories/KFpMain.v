(** KalmanFilterp: the end-to-end lemmas behind the property theorems. *)
From Coq Require Import Reals List Arith ZArith Lra Lia Bool Permutation.
From Coquelicot Require Import Complex.
From Verif Require Import Arith Res ListLemmas KFModel KF1Proof Spec Gauss Emb KF1R History InitProof OUpd SimProof KF1Main KF1More.
From Verif Require Import Cx KFpModel KFpProof SpecCarma CLin KFpR KFpX.
From Verif Require CarmaKernel.
Import ListNotations.
Local Open Scope R_scope.
Local Open Scope C_scope.

(** ** Linear systems *)
Definition lin_sol (n : nat) (M : list (list C)) (r x : list C) : Prop :=
  length x = n /\ forall i, (i < n)%nat -> Csum (fun j => nth j (nth i M []) 0 * nth j x 0) n = nth i r 0.
(** arma::solve on a finite square system with exactly one solution returns it. *)
Definition valid_solve (solve : list (list (cx AX)) -> list (cx AX) -> option (list (cx AX))) : Prop :=
  forall n M r, length M = n -> (forall row, In row M -> length row = n) -> length r = n ->
  (exists x, lin_sol n M r x /\ forall x', lin_sol n M r x' -> x' = x) ->
  exists x, solve (map (map FinC) M) (map FinC r) = Some (map FinC x) /\ lin_sol n M r x.

(** divided differences of the monomials *)
Definition dd (p : nat) (om : nat -> C) (f : C -> C) : C :=
  Csum (fun i => f (om i) / Cprod (fun l => if Nat.eqb l i then 1 else om i - om l) p) p.
Definition inj_on (p : nat) (om : nat -> C) : Prop := forall i j, (i < p)%nat -> (j < p)%nat -> om i = om j -> i = j.

Lemma sub_neq0 (a b : C) : a <> b -> a - b <> 0.
Proof. intros H E. apply H. replace a with (a - b + b) by ring. rewrite E. ring. Qed.

Lemma prod_neq0 p om i : inj_on p om -> (i < p)%nat -> Cprod (fun l => if Nat.eqb l i then 1 else om i - om l) p <> 0.
Proof.
  intros H Hi. apply Cprod_neq0. intros l Hl. destruct (Nat.eqb_spec l i) as [->|Hne]; [apply RtoC_neq0; lra|].
  apply sub_neq0. intros E. apply Hne. symmetry. apply H; assumption.
Qed.

Lemma dd_last p om f : inj_on (S p) om -> dd (S p) om (fun x => (x - om p) * f x) = dd p om f.
Proof.
  intros H. unfold dd at 1. cbn [Csum]. replace (om p - om p) with (RtoC 0) by ring.
  rewrite (Csum_ext _ (fun i => f (om i) / Cprod (fun l => if Nat.eqb l i then 1 else om i - om l) p)).
  - unfold dd, Cdiv. ring.
  - intros i Hi. cbn [Cprod]. destruct (Nat.eqb_spec p i); [lia|].
    assert (om i - om p <> 0) by (apply sub_neq0; intros E; apply H in E; lia).
    assert (Cprod (fun l => if Nat.eqb l i then 1 else om i - om l) p <> 0).
    { apply prod_neq0; [|exact Hi]. intros a b Ha Hb. apply H; lia. }
    field. split; assumption.
Qed.

Lemma Cprod_shift (f : nat -> C) n : Cprod f (S n) = f O * Cprod (fun k => f (S k)) n.
Proof. induction n as [|n IH]; [simpl; ring|]. cbn [Cprod] in *. rewrite IH. ring. Qed.

Lemma dd_first p om f : inj_on (S p) om -> dd (S p) om (fun x => (x - om O) * f x) = dd p (fun i => om (S i)) f.
Proof.
  intros H. unfold dd at 1. rewrite Csum_shift. replace (om O - om O) with (RtoC 0) by ring.
  rewrite (Csum_ext (fun k => (om (S k) - om O) * f (om (S k)) / Cprod (fun l => if Nat.eqb l (S k) then 1 else om (S k) - om l) (S p))
     (fun i => f (om (S i)) / Cprod (fun l => if Nat.eqb l i then 1 else om (S i) - om (S l)) p)).
  - unfold dd, Cdiv. ring.
  - intros i Hi. rewrite Cprod_shift. cbn [Nat.eqb].
    assert (om (S i) - om O <> 0) by (apply sub_neq0; intros E; apply H in E; lia).
    assert (Cprod (fun l => if Nat.eqb l i then 1 else om (S i) - om (S l)) p <> 0).
    { apply (prod_neq0 p (fun i => om (S i))); [|exact Hi]. intros a b Ha Hb E. apply H in E; lia. }
    field. split; assumption.
Qed.

Lemma dd_lin p om f g h (c : C) : (forall x, f x = g x + c * h x) -> dd p om f = dd p om g + c * dd p om h.
Proof.
  intros H. unfold dd. rewrite <- Csum_scal, <- Csum_plus. apply Csum_ext. intros i _. rewrite H. unfold Cdiv. ring.
Qed.

Lemma dd_pow p : forall om k, inj_on p om -> (k < p)%nat -> dd p om (fun x => Cpown x k) = if Nat.eqb k (p - 1) then 1 else 0.
Proof.
  induction p as [|p IH]; intros om k Hinj Hk; [lia|]. destruct p as [|p].
  - assert (k = O) by lia. subst k. unfold dd. simpl. field. apply RtoC_neq0. lra.
  - assert (inj_on (S p) om) as H1 by (intros a b Ha Hb; apply Hinj; lia).
    assert (inj_on (S p) (fun i => om (S i))) as H2 by (intros a b Ha Hb E; apply Hinj in E; lia).
    assert (forall j, (j < S p)%nat -> dd (S (S p)) om (fun x => Cpown x j) = 0) as Hlow.
    { intros j Hj.
      assert (om (S p) - om O <> 0) as Hne by (apply sub_neq0; intros E; apply Hinj in E; lia).
      pose proof (dd_last (S p) om (fun x => Cpown x j) Hinj) as L1.
      pose proof (dd_first (S p) om (fun x => Cpown x j) Hinj) as L2.
      rewrite IH in L1 by assumption. rewrite IH in L2 by assumption.
      rewrite (dd_lin _ _ _ (fun x => (x - om (S p)) * Cpown x j) (fun x => Cpown x j) (om (S p) - om O)) in L2 by (intros; ring).
      rewrite L1 in L2. set (D := dd (S (S p)) om (fun x => Cpown x j)) in *.
      replace D with (/ (om (S p) - om O) * ((om (S p) - om O) * D)) by (field; exact Hne).
      set (q := if Nat.eqb j (S p - 1) then RtoC 1 else RtoC 0) in *.
      replace ((om (S p) - om O) * D) with (q + (om (S p) - om O) * D - q) by ring. rewrite L2. ring. }
    destruct (Nat.eqb_spec k (S (S p) - 1)) as [->|Hne]; [|apply Hlow; lia].
    replace (S (S p) - 1)%nat with (S p) by lia.
    rewrite (dd_lin _ _ _ (fun x => (x - om (S p)) * Cpown x p) (fun x => Cpown x p) (om (S p))) by (intros; simpl; ring).
    rewrite dd_last by exact Hinj. rewrite IH by (assumption || lia). rewrite Hlow by lia.
    destruct (Nat.eqb_spec p (S p - 1)); [ring|lia].
Qed.

Lemma nth_map_seq0 (f : nat -> C) n i : (i < n)%nat -> nth i (map f (seq 0 n)) 0 = f i.
Proof. intros H. apply nth_map_seq, H. Qed.

(** the Vandermonde system has exactly one solution *)
Lemma vander_unique (om : list C) : NoDup om -> (1 <= length om)%nat ->
  let p := length om in let r i := nth i om 0 in
  let M := map (fun k => map (fun j => Cpown (r j) k) (seq 0 p)) (seq 0 p) in
  let d := map (fun k => if Nat.eqb k (p - 1) then RtoC 1 else 0) (seq 0 p) in
  (exists x, lin_sol p M d x /\ forall x', lin_sol p M d x' -> x' = x) /\
  (forall x, lin_sol p M d x -> length x = p /\
     forall k, (k < p)%nat -> Csum (fun i => Cpown (r i) k * nth i x 0) p = if Nat.eqb k (p - 1) then 1 else 0).
Proof.
  intros Hnd Hp p r M d.
  assert (inj_on p r) as Hinj by (intros i j Hi Hj; apply (proj1 (NoDup_nth om 0) Hnd); assumption).
  assert (forall x, lin_sol p M d x <-> length x = p /\
     forall k, (k < p)%nat -> Csum (fun i => Cpown (r i) k * nth i x 0) p = if Nat.eqb k (p - 1) then 1 else 0) as Heq.
  { intros x. unfold lin_sol. apply and_iff_compat_l.
    assert (forall i, (i < p)%nat -> Csum (fun j => nth j (nth i M []) 0 * nth j x 0) p = Csum (fun j => Cpown (r j) i * nth j x 0) p) as E1.
    { intros i Hi. apply Csum_ext. intros j Hj. f_equal. unfold M. rewrite (nth_map_seq (fun k => map (fun j => Cpown (r j) k) (seq 0 p)) []) by exact Hi.
      apply (nth_map_seq0 (fun j => Cpown (r j) i)), Hj. }
    assert (forall i, (i < p)%nat -> nth i d 0 = if Nat.eqb i (p - 1) then 1 else 0) as E2.
    { intros i Hi. unfold d. rewrite (nth_map_seq0 (fun k => if Nat.eqb k (p - 1) then RtoC 1 else 0)) by exact Hi. reflexivity. }
    split; intros H i Hi; specialize (H i Hi).
    - rewrite <- E1, H by exact Hi. apply E2, Hi.
    - rewrite E1 by exact Hi. etransitivity; [exact H|]. symmetry. apply E2, Hi. }
  split; [|intros x Hx; apply Heq, Hx].
  set (x0 := map (fun i => / Cprod (fun l => if Nat.eqb l i then 1 else r i - r l) p) (seq 0 p)).
  assert (forall i, (i < p)%nat -> nth i x0 0 = / Cprod (fun l => if Nat.eqb l i then 1 else r i - r l) p) as Ex.
  { intros i Hi. unfold x0. apply (nth_map_seq0 (fun i => / Cprod (fun l => if Nat.eqb l i then 1 else r i - r l) p)), Hi. }
  exists x0. split.
  - apply Heq. split; [unfold x0; rewrite map_length, seq_length; reflexivity|]. intros k Hk.
    etransitivity; [|apply (dd_pow p r k Hinj Hk)]. unfold dd. apply Csum_ext. intros i Hi. rewrite Ex by exact Hi. reflexivity.
  - intros x' H. apply Heq in H. destruct H as [Hl H]. apply (List.nth_ext _ _ (RtoC 0) (RtoC 0)).
    + rewrite Hl. unfold x0. rewrite map_length, seq_length. reflexivity.
    + intros i Hi. rewrite Hl in Hi. rewrite Ex by exact Hi.
      pose proof (J_explicit p r (fun i => nth i x' 0) Hp H i Hi) as HJ. cbv beta in HJ.
      pose proof (prod_neq0 p r i Hinj Hi) as Hne.
      set (Q := Cprod (fun l => if Nat.eqb l i then 1 else r i - r l) p) in *.
      replace (nth i x' 0) with (nth i x' 0 * Q * / Q) by (field; exact Hne).
      etransitivity; [apply (f_equal (fun z => z * / Q)); exact HJ|]. ring.
Qed.

(** ** The index of the conjugate root *)
Lemma C_dec (a b : C) : {a = b} + {a <> b}.
Proof.
  destruct a as [a1 a2], b as [b1 b2]. destruct (Req_EM_T a1 b1) as [->|H]; [|right; congruence].
  destruct (Req_EM_T a2 b2) as [->|H]; [left; reflexivity|right; congruence].
Qed.
Fixpoint idx (z : C) (l : list C) : nat := match l with [] => O | a :: r => if C_dec a z then O else S (idx z r) end.
Lemma idx_spec z l : In z l -> (idx z l < length l)%nat /\ nth (idx z l) l 0 = z.
Proof.
  induction l as [|a l IH]; intros H; [contradiction|]. simpl. destruct (C_dec a z) as [E|E]; [split; [lia|exact E]|].
  destruct H as [H|H]; [contradiction|]. destruct (IH H). split; [lia|assumption].
Qed.

(** ** Objects *)
Definition holdsp (s : kfp AX) (tr yr er : list R) (sig : R) (om : list C) (ma : list R) : Prop :=
  usable s /\ goodp s /\ k_time s = map Fin tr /\ k_y s = map Fin yr /\ k_yerr s = map Fin er /\
  k_sig s = Fin sig /\ x_omega (k_ext s) = map FinC om /\ x_ma (k_ext s) = map Fin ma.

Lemma holdsp_lens s tr yr er sig om ma : holdsp s tr yr er sig om ma ->
  length yr = length tr /\ length er = length tr /\ (2 <= length tr)%nat /\ k_dt s = map Fin (diffs AR tr).
Proof.
  intros ((H1 & H2 & H3 & H4 & H5 & H6) & _ & E1 & E2 & E3 & _).
  rewrite E1, E2 in H3. rewrite E1, E3 in H4. rewrite E1 in H1. rewrite !map_length in *.
  repeat split; try assumption. rewrite H2, E1. apply diffs_Fin.
Qed.

(** admissible CARMA parameters *)
Definition carma_ok (sig : R) (om : list C) (ma : list R) : Prop :=
  stable_roots om /\ (2 <= length om)%nat /\ length ma = length om /\ (exists l, nth l ma 0%R <> 0%R) /\ (0 < sig)%R.

Section Par.
Variable solve : list (list (cx AX)) -> list (cx AX) -> option (list (cx AX)).
Hypothesis Hsolve : valid_solve solve.
Variables (sig : R) (om : list C) (ma : list R).
Hypothesis Hok : carma_ok sig om ma.
Let p := length om.
Let r i := nth i om 0.
Let mf l := nth l ma 0%R.
Let pi i := idx (Cconj (r i)) om.
Let omX : list (cx AX) := map FinC om.
Let maX : list (F AX) := map Fin ma.

Lemma Hp1 : (1 <= p)%nat.
Proof. destruct Hok as (_ & H & _). unfold p. lia. Qed.
Lemma inj_r i j : (i < p)%nat -> (j < p)%nat -> r i = r j -> i = j.
Proof. destruct Hok as ((H & _) & _). apply (proj1 (NoDup_nth om 0) H). Qed.
Lemma re_r i : (i < p)%nat -> (fst (r i) < 0)%R.
Proof. destruct Hok as ((_ & H & _) & _). intros Hi. apply H, nth_In, Hi. Qed.
Lemma pi_lt i : (i < p)%nat -> (pi i < p)%nat.
Proof. destruct Hok as ((_ & _ & H) & _). intros Hi. apply idx_spec, H, nth_In, Hi. Qed.
Lemma r_pi i : (i < p)%nat -> r (pi i) = Cconj (r i).
Proof. destruct Hok as ((_ & _ & H) & _). intros Hi. apply idx_spec, H, nth_In, Hi. Qed.
Lemma pi_pi i : (i < p)%nat -> pi (pi i) = i.
Proof.
  intros Hi. apply inj_r; [apply pi_lt, pi_lt, Hi|exact Hi|]. rewrite !r_pi by (try apply pi_lt; exact Hi).
  apply C_eq; simpl; ring.
Qed.
Lemma ma_nz : exists l, (l < p)%nat /\ mf l <> 0%R.
Proof.
  destruct Hok as (_ & _ & Hl & (l & H) & _). exists l. split; [|exact H].
  destruct (Nat.lt_ge_cases l p) as [?|Hge]; [assumption|]. exfalso. apply H. apply nth_overflow. rewrite Hl. exact Hge.
Qed.

Lemma omX_rep : repv p omX r.
Proof. intros a Ha. unfold vnth, omX. rewrite (nth_indep _ _ (FinC 0)) by (rewrite map_length; exact Ha). apply (map_nth FinC). Qed.

Lemma solve_ok : exists J, solve (EigenMat omX) (Rvector AX (length omX)) = Some (map FinC J) /\ length J = p /\
  forall k, (k < p)%nat -> Csum (fun i => Cpown (r i) k * nth i J 0) p = if Nat.eqb k (p - 1) then 1 else 0.
Proof.
  destruct Hok as ((Hnd & _) & _). destruct (vander_unique om Hnd Hp1) as [H1 H2]. fold p in H1. fold p in H2.
  set (M := map (fun k => map (fun j => Cpown (nth j om 0) k) (seq 0 p)) (seq 0 p)) in *.
  set (d := map (fun k => if Nat.eqb k (p - 1) then RtoC 1 else 0) (seq 0 p)) in *.
  destruct (Hsolve p M d) as (x & E & Hx); [..|exact H1|].
  - unfold M. rewrite map_length, seq_length. reflexivity.
  - intros row Hr. unfold M in Hr. apply in_map_iff in Hr. destruct Hr as (k & <- & _). rewrite map_length, seq_length. reflexivity.
  - unfold d. rewrite map_length, seq_length. reflexivity.
  - destruct (H2 x Hx) as [Hl Hm]. exists x. split; [|split; assumption].
    rewrite <- E. f_equal.
    + unfold EigenMat, mbuild, vbuild, M. assert (length omX = p) as -> by (unfold omX; apply map_length).
      rewrite map_map. apply map_ext_in. intros k Hk. rewrite map_map. apply map_ext_in. intros j Hj. apply in_seq in Hj.
      rewrite omX_rep by lia. apply FinC_pown.
    + unfold Rvector, vbuild, d. assert (length omX = p) as -> by (unfold omX; apply map_length).
      rewrite map_map. apply map_ext. intros k. destruct (Nat.eqb k (p - 1)); reflexivity.
Qed.

Section WithJ.
Variable J : list C.
Hypothesis HlJ : length J = p.
Let Jf i := nth i J 0.
Hypothesis HJ : forall k, (k < p)%nat -> Csum (fun i => Cpown (r i) k * Jf i) p = if Nat.eqb k (p - 1) then 1 else 0.
Let b := CarmaKernel.b p r mf.
Let V := CarmaKernel.V r Jf sig.
Let E := CarmaKernel.E r.

Lemma Hsig : (0 < sig)%R.
Proof. apply Hok. Qed.

Lemma b_rep : repv p (rotated omX maX) b.
Proof.
  intros a Ha. unfold rotated. assert (length omX = p) as El by (unfold omX; apply map_length). rewrite El.
  rewrite vbuild_vnth by exact Ha. unfold b, CarmaKernel.b, CarmaKernel.beta, peval.
  apply FinC_sum. intros k Hk. rewrite omX_rep by exact Ha. rewrite FinC_pown.
  etransitivity; [|apply FinC_scale]. f_equal. exact (nth_map_Fin k ma).
Qed.

Lemma up_rep i j : (i < p)%nat -> (j < p)%nat -> state_upper (Fin sig : F AX) omX (map FinC J) i j = FinC (V i j).
Proof.
  intros Hi Hj. unfold state_upper. rewrite !omX_rep by assumption.
  assert (repv p (map FinC J) Jf) as HJr.
  { intros a Ha. unfold vnth. rewrite (nth_indep _ _ (FinC 0)) by (rewrite map_length, HlJ; exact Ha). apply (map_nth FinC). }
  rewrite !HJr by assumption. change (fneg AX (Fin sig)) with (Fin (- sig)).
  rewrite FinC_scale, !FinC_conj, FinC_mul, FinC_add, FinC_div.
  - unfold V, CarmaKernel.V. f_equal. f_equal. f_equal. f_equal. apply C_eq; simpl; ring.
  - apply (CarmaKernel.omsum_neq p r re_r i j Hi Hj).
Qed.

Lemma V_rep : repm p (StateVar (Fin sig : F AX) omX (map FinC J)) V.
Proof.
  intros i j Hi Hj. unfold StateVar. assert (length omX = p) as -> by (unfold omX; apply map_length).
  rewrite mbuild_mnth by assumption. destruct (Nat.leb_spec i j).
  - apply up_rep; assumption.
  - rewrite up_rep by assumption. rewrite FinC_conj. f_equal. symmetry. apply (CarmaKernel.V_herm r Jf sig j i).
Qed.

Let Kk : R -> R -> R := Kc p b V E.

Lemma ss_filter (t e : nat -> R) n :
  (forall i j, (i <= j)%nat -> (j < n)%nat -> (t i <= t j)%R) ->
  (forall i, (S i < n)%nat -> t i = t (S i) -> e (S i) <> 0%R) ->
  forall y i, (i < n)%nat ->
  is_blp i (obs_cov Kk t e) (fun j => obs_cov Kk t e i j) (obs_cov Kk t e i i) y (fst (dotv p b (xf p b V E t e y i))) (vf p b V E t e i) /\
  is_blp i (obs_cov Kk t e) (fun j => Kk (t i) (t j)) (Kk (t i) (t i)) y (fst (dotv p b (xf p b V E t e y i))) (vf p b V E t e i - e i * e i)%R /\
  (0 < vf p b V E t e i)%R.
Proof.
  intros H1 H2 y i Hi.
  exact (filter_exact p b V E pi pi_lt pi_pi (CarmaKernel.b_conj p r mf pi r_pi) (CarmaKernel.V_herm r Jf sig)
    (CarmaKernel.V_conj p r Jf sig pi Hp1 pi_lt pi_pi r_pi HJ) (CarmaKernel.E_conj p r pi r_pi) (CarmaKernel.E_plus r) (CarmaKernel.E_0 r)
    (CarmaKernel.V_psd p r Jf sig Hp1 re_r Hsig) (CarmaKernel.Q_psd p r Jf sig Hp1 re_r Hsig)
    (CarmaKernel.Qb_pos p r Jf mf sig Hp1 inj_r re_r HJ Hsig ma_nz) (CarmaKernel.Vb_pos p r Jf mf sig Hp1 inj_r re_r HJ Hsig ma_nz)
    t e n H1 H2 y i Hi).
Qed.

Lemma ss_pd (t e : nat -> R) n :
  (forall i j, (i <= j)%nat -> (j < n)%nat -> (t i <= t j)%R) ->
  (forall i, (S i < n)%nat -> t i = t (S i) -> e (S i) <> 0%R) ->
  pd n (obs_cov Kk t e).
Proof.
  intros H1 H2.
  eapply obs_pd with (pi := pi) (n := n); [exact pi_lt|exact pi_pi|exact (CarmaKernel.b_conj p r mf pi r_pi)|exact (CarmaKernel.V_herm r Jf sig)|
    exact (CarmaKernel.V_conj p r Jf sig pi Hp1 pi_lt pi_pi r_pi HJ)|exact (CarmaKernel.E_conj p r pi r_pi)|exact (CarmaKernel.E_plus r)|exact (CarmaKernel.E_0 r)|
    exact (CarmaKernel.V_psd p r Jf sig Hp1 re_r Hsig)|exact (CarmaKernel.Q_psd p r Jf sig Hp1 re_r Hsig)|
    exact (CarmaKernel.Qb_pos p r Jf mf sig Hp1 inj_r re_r HJ Hsig ma_nz)|exact (CarmaKernel.Vb_pos p r Jf mf sig Hp1 inj_r re_r HJ Hsig ma_nz)|
    exact H1|exact H2|apply Nat.le_refl].
Qed.

Section P.
Variables (t e y : nat -> R) (n ip : nat) (tp : R).
Hypothesis Hle : forall i j, (i <= j)%nat -> (j < n)%nat -> (t i <= t j)%R.
Hypothesis Htie : forall i, (S i < n)%nat -> t i = t (S i) -> e (S i) <> 0%R.
Hypothesis Hip : (ip <= n)%nat.
Hypothesis Hbef : forall k, (k < ip)%nat -> (t k < tp)%R.
Hypothesis Haft : forall k, (ip <= k)%nat -> (k < n)%nat -> (tp <= t k)%R.
Hypothesis Hnz : (ip < n)%nat -> t ip = tp -> e ip <> 0%R.

Lemma ss_forecast : is_blp ip (obs_cov Kk t e) (fun j => Kk tp (t j)) (Kk tp tp) y (m0 p b V E t e y ip tp) (v0 p b V E t e ip tp) /\
  (0 < v0 p b V E t e ip tp)%R.
Proof.
  exact (forecast_exact p b V E pi pi_lt pi_pi (CarmaKernel.b_conj p r mf pi r_pi) (CarmaKernel.V_herm r Jf sig)
    (CarmaKernel.V_conj p r Jf sig pi Hp1 pi_lt pi_pi r_pi HJ) (CarmaKernel.E_conj p r pi r_pi) (CarmaKernel.E_plus r) (CarmaKernel.E_0 r)
    (CarmaKernel.V_psd p r Jf sig Hp1 re_r Hsig) (CarmaKernel.Q_psd p r Jf sig Hp1 re_r Hsig)
    (CarmaKernel.Qb_pos p r Jf mf sig Hp1 inj_r re_r HJ Hsig ma_nz) (CarmaKernel.Vb_pos p r Jf mf sig Hp1 inj_r re_r HJ Hsig ma_nz)
    t e y n ip tp Hle Htie Hip Hbef Haft Hnz).
Qed.
Lemma ss_pred : let m := fst (accR p b V E t e y ip tp (n - ip)) in let q := snd (accR p b V E t e y ip tp (n - ip)) in
  (0 < q)%R /\ (1 / q <= v0 p b V E t e ip tp)%R /\
  is_blp n (obs_cov Kk t e) (fun j => Kk tp (t j)) (Kk tp tp) y (m * (1 / q))%R (1 / q)%R.
Proof.
  exact (pred_exact p b V E pi pi_lt pi_pi (CarmaKernel.b_conj p r mf pi r_pi) (CarmaKernel.V_herm r Jf sig)
    (CarmaKernel.V_conj p r Jf sig pi Hp1 pi_lt pi_pi r_pi HJ) (CarmaKernel.E_conj p r pi r_pi) (CarmaKernel.E_plus r) (CarmaKernel.E_0 r)
    (CarmaKernel.V_psd p r Jf sig Hp1 re_r Hsig) (CarmaKernel.Q_psd p r Jf sig Hp1 re_r Hsig)
    (CarmaKernel.Qb_pos p r Jf mf sig Hp1 inj_r re_r HJ Hsig ma_nz) (CarmaKernel.Vb_pos p r Jf mf sig Hp1 inj_r re_r HJ Hsig ma_nz)
    t e y n ip tp Hle Htie Hip Hbef Haft Hnz).
Qed.
End P.

(** the covariance is the CARMA one *)
Lemma beta_poly z : CarmaKernel.beta p mf z = ma_poly ma z.
Proof.
  unfold CarmaKernel.beta, peval, ma_poly. destruct Hok as (_ & _ & Hl & _). rewrite Hl. reflexivity.
Qed.
Lemma acv_carma h : CarmaKernel.acv p r Jf mf sig h = carma_acv sig ma om h.
Proof.
  rewrite (CarmaKernel.acv_formula p r Jf mf sig pi Hp1 inj_r re_r pi_lt pi_pi r_pi HJ h).
  unfold carma_acv. f_equal. f_equal. apply Csum_ext. intros k Hk. rewrite !beta_poly. reflexivity.
Qed.
Lemma Kk_carma s1 s2 : Kk s1 s2 = carma_cov sig ma om s1 s2.
Proof. unfold Kk, Kc, carma_cov. rewrite <- acv_carma. reflexivity. Qed.
End WithJ.

Local Notation Kq := (carma_cov sig ma om).
Lemma blp_K n t e c c' c0 c0' y m v (K1 : R -> R -> R) : (forall s1 s2, K1 s1 s2 = Kq s1 s2) ->
  (forall j, (j < n)%nat -> c j = c' j) -> c0 = c0' ->
  is_blp n (obs_cov K1 t e) c c0 y m v -> is_blp n (obs_cov Kq t e) c' c0' y m v.
Proof.
  intros HK Hc <- H. eapply blp_ext; [| | |exact H].
  - intros i j _ _. unfold obs_cov. rewrite HK. reflexivity.
  - exact Hc.
  - reflexivity.
Qed.

Lemma carma_pd tr er : times_ok tr er -> pd (length tr) (obs_cov Kq (fun i => nth i tr 0%R) (fun i => nth i er 0%R)).
Proof.
  intros Ht. destruct solve_ok as (J & _ & HlJ & HJ).
  pose proof (ss_pd J HJ (fun i => nth i tr 0%R) (fun i => nth i er 0%R) (length tr)) as H.
  intros a Ha. erewrite Rsum_ext; [apply H; [| |exact Ha]|].
  - intros i j Hij Hj. destruct (Nat.eq_dec i j) as [->|]; [lra|]. apply Ht; [lia|exact Hj].
  - apply Ht.
  - intros k Hk. apply Rsum_ext. intros j Hj. f_equal. f_equal. unfold obs_cov. rewrite (Kk_carma J HJ). reflexivity.
Qed.

(** Reset succeeds *)
Lemma resetp_ok (u : setup AX (parp AX)) : s_par u = (omX, maX) -> exists J, resetp solve u = Ok (map FinC J) /\ length J = p /\
  forall k, (k < p)%nat -> Csum (fun i => Cpown (r i) k * nth i J 0) p = if Nat.eqb k (p - 1) then 1 else 0.
Proof.
  intros Eu. destruct solve_ok as (J & E & HlJ & HJ). exists J. split; [|split; assumption].
  unfold resetp. rewrite Eu. cbn [fst snd]. rewrite E.
  destruct Hok as (_ & H2 & Hl & _). unfold omX, maX. rewrite !map_length. rewrite Hl, Nat.eqb_refl.
  destruct (Nat.ltb_spec (length om) 2); [lia|reflexivity].
Qed.

Lemma pfp_spec tr yr er u : times_ok tr er ->
  u = mkSetup AX (map Fin tr) (map Fin (diffs AR tr)) (map Fin yr) (map Fin er) (Fin sig) (omX, maX) ->
  exists ml vl, pfp solve u = Ok (map Fin ml, map Fin vl) /\ length ml = length tr /\ length vl = length tr /\
  forall i, (i < length tr)%nat ->
    is_blp i (obs_cov Kq (fun k => nth k tr 0%R) (fun k => nth k er 0%R)) (fun j => Kq (nth i tr 0%R) (nth j tr 0%R))
       (Kq (nth i tr 0%R) (nth i tr 0%R)) (fun k => nth k yr 0%R) (nth i ml 0%R) (nth i vl 0 - nth i er 0 * nth i er 0)%R /\
    (0 < nth i vl 0)%R.
Proof.
  intros Ht ->. destruct (resetp_ok (mkSetup AX (map Fin tr) (map Fin (diffs AR tr)) (map Fin yr) (map Fin er) (Fin sig) (omX, maX)) eq_refl)
    as (J & E & HlJ & HJ).
  set (b := CarmaKernel.b p r mf). set (V := CarmaKernel.V r (fun i => nth i J 0) sig). set (EE := CarmaKernel.E r).
  set (t := fun i => nth i tr 0%R). set (e := fun i => nth i er 0%R). set (y := fun i => nth i yr 0%R).
  assert (forall t e n, (forall i j, (i <= j)%nat -> (j < n)%nat -> (t i <= t j)%R) -> (forall i, (S i < n)%nat -> t i = t (S i) -> e (S i) <> 0%R) ->
     forall i, (i < n)%nat -> (0 < vf p b V EE t e i)%R) as Hpos.
  { intros t0 e0 n0 A1 A2 i Hi. apply (ss_filter J HJ t0 e0 n0 A1 A2 (fun _ => 0%R) i Hi). }
  exists (map (fun i => fst (dotv p b (xf p b V EE t e y i))) (seq 0 (length tr))), (map (vf p b V EE t e) (seq 0 (length tr))).
  rewrite !map_length, !seq_length. split; [|split; [reflexivity|split; [reflexivity|]]].
  - unfold pfp. rewrite E. cbn [bind s_dt s_y s_yerr s_sig s_par s_time fst snd]. rewrite !map_length.
    assert (length omX = p) as El by (unfold omX; apply map_length). rewrite El.
    f_equal. f_equal; rewrite map_map; apply map_ext_in; intros i Hi; apply in_seq in Hi.
    + apply (mp_fin p omX (rotated omX maX) (StateVar (Fin sig : F AX) omX (map FinC J)) r b V omX_rep b_rep (V_rep J HlJ) Hpos tr yr er Ht i). lia.
    + apply (vp_fin p omX (rotated omX maX) (StateVar (Fin sig : F AX) omX (map FinC J)) r b V omX_rep b_rep (V_rep J HlJ) Hpos tr yr er Ht i). lia.
  - intros i Hi. rewrite !nth_map_seq by exact Hi.
    destruct (ss_filter J HJ t e (length tr)) with (y := y) (i := i) as (_ & H2 & H3); [| |exact Hi|].
    + intros a c Hac Hc. destruct (Nat.eq_dec a c) as [->|]; [lra|]. apply Ht; [lia|exact Hc].
    + apply Ht.
    + split; [|exact H3]. eapply blp_K; [exact (Kk_carma J HJ)| | |exact H2].
      * intros j _. apply (Kk_carma J HJ).
      * apply (Kk_carma J HJ).
Qed.

Lemma ppp_spec tr yr er tp : times_ok tr er -> (forall i, (i < length tr)%nat -> nth i tr 0%R = tp -> nth i er 0%R <> 0%R) ->
  exists m v, ppp solve (mkSetup AX (map Fin tr) (map Fin (diffs AR tr)) (map Fin yr) (map Fin er) (Fin sig) (omX, maX)) (Fin tp)
     = Ok (Fin m, Fin v) /\ (0 < v)%R /\ cond_dist Kq tr yr er tp m v.
Proof.
  intros Ht Hnz. destruct (resetp_ok (mkSetup AX (map Fin tr) (map Fin (diffs AR tr)) (map Fin yr) (map Fin er) (Fin sig) (omX, maX)) eq_refl)
    as (J & E & HlJ & HJ).
  set (b := CarmaKernel.b p r mf). set (V := CarmaKernel.V r (fun i => nth i J 0) sig). set (EE := CarmaKernel.E r).
  set (t := fun i => nth i tr 0%R). set (e := fun i => nth i er 0%R). set (y := fun i => nth i yr 0%R).
  assert (forall t e n, (forall i j, (i <= j)%nat -> (j < n)%nat -> (t i <= t j)%R) -> (forall i, (S i < n)%nat -> t i = t (S i) -> e (S i) <> 0%R) ->
     forall i, (i < n)%nat -> (0 < vf p b V EE t e i)%R) as Hpos.
  { intros t0 e0 n0 A1 A2 i Hi. apply (ss_filter J HJ t0 e0 n0 A1 A2 (fun _ => 0%R) i Hi). }
  pose proof (predp_fin p omX (rotated omX maX) (StateVar (Fin sig : F AX) omX (map FinC J)) r b V omX_rep b_rep (V_rep J HlJ) Hpos tr yr er Ht tp Hnz) as HP.
  set (ip := lt_prefix AR tr tp) in *.
  assert (ip <= length tr)%nat as Hip by apply lt_prefix_len.
  assert (forall i j, (i <= j)%nat -> (j < length tr)%nat -> (t i <= t j)%R) as Hle.
  { intros a c Hac Hc. destruct (Nat.eq_dec a c) as [->|]; [lra|]. apply Ht; [lia|exact Hc]. }
  assert (forall k, (k < ip)%nat -> (t k < tp)%R) as Hbef.
  { intros k Hk. apply (lt_prefix_spec tr tp k (proj1 Ht)); [lia|exact Hk]. }
  assert (forall k, (ip <= k)%nat -> (k < length tr)%nat -> (tp <= t k)%R) as Haft.
  { intros k Hk Hk2. destruct (Rlt_dec (t k) tp) as [H2|H2]; [|lra].
    apply (lt_prefix_spec tr tp k (proj1 Ht) Hk2) in H2. unfold ip in Hk. lia. }
  assert ((ip < length tr)%nat -> t ip = tp -> e ip <> 0%R) as Hok' by (intros; apply Hnz; assumption).
  unfold ppp. rewrite E. cbn [bind s_dt s_y s_yerr s_sig s_par s_time fst snd].
  assert (length omX = p) as El by (unfold omX; apply map_length). rewrite El.
  destruct (Nat.eqb_spec ip (length tr)) as [Heq|Hne].
  - destruct (ss_forecast J HJ t e y (length tr) ip tp Hle (proj2 Ht) Hip Hbef Haft Hok') as [H1 H2].
    exists (m0 p b V EE t e y ip tp), (v0 p b V EE t e ip tp). split; [f_equal; exact HP|]. split; [exact H2|].
    unfold cond_dist. eapply blp_K; [exact (Kk_carma J HJ)| | |].
    3:{ rewrite <- Heq. exact H1. }
    + intros j _. apply (Kk_carma J HJ).
    + apply (Kk_carma J HJ).
  - destruct (ss_pred J HJ t e y (length tr) ip tp Hle (proj2 Ht) Hip Hbef Haft Hok') as (H1 & _ & H2).
    eexists _, _. split; [f_equal; exact HP|]. split.
    + unfold Rdiv. rewrite Rmult_1_l. apply Rinv_0_lt_compat. exact H1.
    + unfold cond_dist. eapply blp_K; [exact (Kk_carma J HJ)| | |exact H2].
      * intros j _. apply (Kk_carma J HJ).
      * apply (Kk_carma J HJ).
Qed.
End Par.
