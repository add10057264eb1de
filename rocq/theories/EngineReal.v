(** Runs on real data with a proper generator: all states are finite, samples satisfy the prior (C34), proposal
    covariances stay positive definite (C40). *)
From Coq Require Import Reals List Arith ZArith Bool String Lra Lia Permutation.
From Coquelicot Require Import Complex.
From Verif Require Import Arith Res ListLemmas KFModel KF1Proof Spec Gauss Emb History InitProof OUpd SimProof KF1R KF1X KF1Main KF1More.
From Verif Require Import Cx KFpModel KFpProof KFpX KFpMain KFpTop SpecModel CarpackModel RootsProof PriorProof LogLikProof LogLikMain CarpackTop CarpackRefute.
From Verif Require Import EngineModel StartModel EngineSpec EngineProof EngineInv CholProof RamProof EngineHist EngineClass EngineDriver EngineTop StartProof TotalProof TotalClass TotalTop EngineAX Start1Proof SeedProof EngineRuns SeedRefute.
Import ListNotations.
Local Open Scope R_scope.

Set Implicit Arguments.
Unset Strict Implicit.

(** ** Partial correctness *)
Definition post {T} (Q : T -> Prop) (r : res T) : Prop := forall x, r = Ok x -> Q x.
Lemma post_bind T U (Q1 : T -> Prop) (Q : U -> Prop) r k : post Q1 r -> (forall x, Q1 x -> post Q (k x)) -> post Q (bind r k).
Proof. intros H K x E. apply bind_Ok in E. destruct E as (z & Ez & E). exact (K z (H z Ez) x E). Qed.
Lemma post_Ok T (Q : T -> Prop) x : Q x -> post Q (Ok x).
Proof. intros H z E. injection E as <-. exact H. Qed.
Lemma post_True T (r : res T) : post (fun _ => True) r.
Proof. intros x _. exact I. Qed.
Lemma post_for T (Q : T -> Prop) (body : nat -> T -> res T) k : forall a s,
  (forall i s, (a <= i < a + k)%nat -> Q s -> post Q (body i s)) -> Q s -> post Q (for_ a k body s).
Proof.
  induction k as [|k IH]; intros a s H Hs; cbn [for_]; [apply post_Ok, Hs|].
  apply post_bind with (Q1 := Q); [apply H; [lia|exact Hs]|]. intros x Hx. apply IH; [intros; apply H; [lia|assumption]|exact Hx].
Qed.
Lemma post_vget T (Q : T -> Prop) l i : List.Forall Q l -> post Q (vget l i).
Proof. intros H x E. unfold vget in E. destruct (nth_error l i) eqn:En; [|discriminate]. injection E as <-. exact (proj1 (Forall_nth_error _ _) H _ _ En). Qed.
Lemma post_vset T (Q : T -> Prop) l i v : List.Forall Q l -> Q v -> post (fun l' => List.Forall Q l' /\ List.length l' = List.length l /\ (i < List.length l)%nat /\ l' = upd l i v) (vset l i v).
Proof.
  intros H Hv x E. destruct (Nat.lt_ge_cases i (List.length l)) as [Hi|Hi].
  - rewrite vset_ok in E by exact Hi. injection E as <-. split; [apply Forall_upd; assumption|]. split; [apply upd_length|]. split; [exact Hi|reflexivity].
  - unfold vset in E. destruct (Nat.ltb_spec i (List.length l)); [lia|discriminate].
Qed.

(** ** Finite numbers *)
Definition isF (x : xr) : Prop := exists r, x = Fin r.
Definition posF (x : xr) : Prop := exists r, x = Fin r /\ 0 < r.
Lemma posF_isF x : posF x -> isF x. Proof. intros (r & E & _). exists r. exact E. Qed.
Lemma isF_map (l : list xr) : List.Forall isF l <-> exists r, l = map Fin r.
Proof.
  split.
  - intros H. induction H as [|x l [r ->] _ [rs ->]]; [exists []; reflexivity|]. exists (r :: rs). reflexivity.
  - intros [r ->]. apply Forall_forall. intros x Hx. apply in_map_iff in Hx. destruct Hx as (z & <- & _). exists z. reflexivity.
Qed.
Lemma draws_all (R0 : rng AX) (Q : xr -> Prop) (d : gen R0 -> F AX * gen R0) : (forall g, Q (fst (d g))) -> forall n (g : gen R0), List.Forall Q (fst (draws n d g)).
Proof.
  intros H. induction n as [|n IH]; intros g; cbn [draws]; [constructor|]. pose proof (H g) as Hx. destruct (d g) as [x g1]. cbn [fst] in Hx.
  specialize (IH g1). destruct (draws n d g1) as [l g2]. constructor; assumption.
Qed.

Section StartReal.
Variable R0 : rng AX.
Hypothesis HR : valid_rng R0.
Variable dsort : list (F AX) -> option (list (F AX)).
Hypothesis Hds : valid_dsort dsort.
Variables t y e : list R.
Hypothesis Hlen : (2 <= List.length t)%nat.
Hypothesis Ht : strictly_increasing t.
Variables smax fmin fmax : R.
Hypothesis HB : run_bounds t y smax fmin fmax.

Lemma span_pos : 0 < nth (List.length t - 1) t 0 - nth 0 t 0.
Proof using Ht Hlen. pose proof (Ht (i := 0%nat) (j := (List.length t - 1)%nat) ltac:(lia) ltac:(lia)). lra. Qed.
Lemma fmin_pos : 0 < fmin.
Proof using HB Ht Hlen. destruct HB as (_ & _ & _ & _ & ->). apply Rdiv_lt_0_compat; [lra|exact span_pos]. Qed.
Lemma gap_span : 1 / fmax <= nth (List.length t - 1) t 0 - nth 0 t 0 /\ ((3 <= List.length t)%nat -> 1 / fmax < nth (List.length t - 1) t 0 - nth 0 t 0).
Proof using HB Ht Hlen.
  destruct HB as (_ & _ & H & _ & _). pose proof (H 0%nat ltac:(lia)) as H0. split.
  - destruct (Nat.eq_dec (List.length t) 2) as [E|E]; [rewrite E; exact H0|]. pose proof (Ht (i := 1%nat) (j := (List.length t - 1)%nat) ltac:(lia) ltac:(lia)). lra.
  - intros H3. pose proof (Ht (i := 1%nat) (j := (List.length t - 1)%nat) ltac:(lia) ltac:(lia)). lra.
Qed.
Lemma fmin_fmax : fmin <= fmax /\ ((3 <= List.length t)%nat -> fmin < fmax).
Proof using HB Ht Hlen.
  destruct gap_span as [G1 G2]. pose proof span_pos as Hs. destruct HB as (_ & Hf & _ & _ & ->).
  assert (0 < 1 / fmax) as Hp by (apply Rdiv_lt_0_compat; lra).
  assert (fmax = 1 / (1 / fmax)) as Ef by (field; lra). split.
  - rewrite Ef. unfold Rdiv. rewrite !Rmult_1_l. apply Rinv_le_contravar; [unfold Rdiv in Hp; rewrite Rmult_1_l in Hp; exact Hp|]. unfold Rdiv in G1. rewrite Rmult_1_l in G1. exact G1.
  - intros H3. specialize (G2 H3). rewrite Ef. unfold Rdiv in *. rewrite !Rmult_1_l in *. apply Rinv_lt_contravar; [|exact G2]. apply Rmult_lt_0_compat; assumption.
Qed.

Definition gridF (x : xr) : Prop := exists r, x = Fin r /\ fmin <= r <= fmax /\ ((3 <= List.length t)%nat -> fmin < r).
Lemma log_grid_Fin u : 0 < u < 1 -> gridF (log_grid AX (Fin fmax) (Fin fmin) (Fin u)).
Proof using HB Ht Hlen.
  intros Hu. pose proof fmin_pos as Hp. destruct fmin_fmax as [Hle Hlt]. unfold log_grid.
  change (fdiv AX (Fin fmax) (Fin fmin)) with (xdiv (Fin fmax) (Fin fmin)). rewrite fin_div by lra.
  assert (0 < fmax / fmin) as Hq by (apply Rdiv_lt_0_compat; lra). change (flog AX) with xlog. rewrite !fin_log by assumption.
  exists (exp (ln (fmax / fmin) * u + ln fmin)). split; [reflexivity|].
  assert (1 <= fmax / fmin) as Hq1 by (apply Rmult_le_reg_r with fmin; [exact Hp|]; unfold Rdiv; rewrite Rmult_assoc, Rinv_l by lra; lra).
  assert (0 <= ln (fmax / fmin)) as Hl by (rewrite <- ln_1; destruct Hq1 as [Hq1|<-]; [left; apply ln_increasing; lra|right; reflexivity]).
  assert (exp (ln fmin) = fmin) as E1 by (apply exp_ln, Hp).
  assert (exp (ln (fmax / fmin) + ln fmin) = fmax) as E2 by (rewrite exp_plus, !exp_ln by assumption; field; lra).
  assert (forall a b, a <= b -> exp a <= exp b) as Mon by (intros a b [H|<-]; [left; apply exp_increasing, H|right; reflexivity]).
  split; [split|].
  - rewrite <- E1 at 1. apply Mon. nra.
  - rewrite <- E2 at 2. apply Mon. nra.
  - intros H3. specialize (Hlt H3). rewrite <- E1 at 1. apply exp_increasing.
    assert (1 < fmax / fmin) as Hq2 by (apply Rmult_lt_reg_r with fmin; [exact Hp|]; unfold Rdiv; rewrite Rmult_assoc, Rinv_l by lra; lra).
    assert (0 < ln (fmax / fmin)) by (rewrite <- ln_1; apply ln_increasing; lra). nra.
Qed.
Lemma gridF_pos x : gridF x -> posF x.
Proof using HB Ht Hlen. intros (r & -> & H & _). exists r. split; [reflexivity|]. pose proof fmin_pos. lra. Qed.

Lemma time_span (b : base AX (kpx AX)) bd : base_holds b t y e bd ->
  (hi <- vmax AX (b_time b) ;; lo <- vmin AX (b_time b) ;; Ok (fdiv AX (fofZ AX 1) (fsub AX hi lo))) = Ok (Fin fmin).
Proof using HB Ht Hlen.
  intros (_ & Et & _). rewrite Et. assert (t <> []) as Hn by (intros ->; cbn in Hlen; lia).
  destruct (vmax_ok t Hn) as (hi & -> & Hi & Hmax). destruct (vmin_ok t Hn) as (lo & -> & Hl & Hmin). cbn [bind]. f_equal.
  assert (hi = nth (List.length t - 1) t 0) as ->.
  { apply Rle_antisym; [|apply Hmax, nth_In; lia]. apply (In_nth _ _ 0) in Hi. destruct Hi as (i & Hi & <-). destruct (Nat.eq_dec i (List.length t - 1)) as [->|Hd]; [lra|]. left. apply Ht; lia. }
  assert (lo = nth 0 t 0) as ->.
  { apply Rle_antisym; [apply Hmin, nth_In; lia|]. apply (In_nth _ _ 0) in Hl. destruct Hl as (i & Hi' & <-). destruct i as [|i]; [lra|]. left. apply Ht; lia. }
  pose proof span_pos. destruct HB as (_ & _ & _ & _ & ->). refine (fin_div _ _ _). lra.
Qed.

Lemma randu_grid n (g : gen R0) : List.Forall gridF (map (log_grid AX (Fin fmax) (Fin fmin)) (fst (draws n (on_a (a_randu R0)) g))).
Proof using HR HB Ht Hlen.
  apply Forall_map. refine (draws_all (Q := fun x => gridF (log_grid AX (Fin fmax) (Fin fmin) x)) _ n g). intros g0. unfold on_a.
  destruct (vr_randu HR (snd g0)) as (u & Eu & Hu). destruct (a_randu R0 (snd g0)) as [x a]. cbn [fst] in *. rewrite Eu. apply log_grid_Fin, Hu.
Qed.

(** CARp::StartingAR *)
Lemma StartingAR_real p (b : base AX (kpx AX)) sm (g : gen R0) : Nat.even p = true \/ (3 <= List.length t)%nat ->
  base_holds b t y e (mkB AX sm (Fin fmax) (Fin fmin) false) ->
  post (fun q => List.Forall isF (fst q) /\ List.length (fst q) = p) (StartingAR (R := R0) dsort p b g).
Proof using HR HB Ht Hlen Hds.
  intros Hodd Hb. pose proof (time_span Hb) as Hsp. pose proof Hb as (_ & _ & _ & _ & _ & Eb). unfold StartingAR.
  destruct (vmax AX (b_time b)) as [hi|?| |] eqn:Ehi; try discriminate. destruct (vmin AX (b_time b)) as [lo|?| |] eqn:Elo; try discriminate.
  cbn [bind] in Hsp |- *. assert (fdiv AX (fofZ AX 1) (fsub AX hi lo) = Fin fmin) as Hsp1 by (exact (f_equal (fun r => match r with Ok x => x | _ => Fin fmin end) Hsp)). cbv zeta. rewrite Hsp1, Eb. cbn [max_freq].
  pose proof (randu_grid ((p + 1) / 2) g) as Hc0. pose proof (draws_len ((p + 1) / 2) (on_a (a_randu R0)) g) as HL1. destruct (draws ((p + 1) / 2) (on_a (a_randu R0)) g) as [c0 g1]. cbn [fst] in Hc0, HL1.
  assert (forall cent0, dsort (map (log_grid AX (Fin fmax) (Fin fmin)) c0) = Some cent0 -> List.Forall gridF cent0) as Hsorted.
  { intros cent0 E. destruct (proj1 (isF_map _) (Forall_impl _ (fun x H => posF_isF (gridF_pos H)) Hc0)) as (rs & Ers). 
    destruct (Hds rs) as (l' & El & Hp & _). pose proof (eq_trans (eq_sym E) (eq_trans (f_equal dsort Ers) El)) as Q. injection Q as ->.
    assert (List.Forall gridF (map Fin rs)) as Hc1 by (exact (eq_ind _ (List.Forall gridF) Hc0 _ Ers)). exact (Permutation_Forall (Permutation_map Fin Hp) Hc1). }
  destruct (dsort _) as [cent0|]; [|discriminate]. specialize (Hsorted _ eq_refl).
  pose proof (randu_grid ((p + 1) / 2) g1) as Hw0. destruct (draws ((p + 1) / 2) (on_a (a_randu R0)) g1) as [w0 g2]. cbn [fst] in Hw0.
  set (wid0 := map (log_grid AX (Fin fmax) (Fin fmin)) w0) in *.
  apply post_bind with (Q1 := fun q => List.Forall isF (fst (fst q)) /\ List.Forall posF (snd (fst q))).
  { destruct (Nat.odd p) eqn:Eo; [|apply post_Ok; split; cbn [fst snd]; [exact (Forall_impl _ (fun x H => posF_isF (gridF_pos H)) Hsorted)|exact (Forall_impl _ gridF_pos Hw0)]].
    assert (3 <= List.length t)%nat as H3 by (destruct Hodd as [H|H]; [unfold Nat.odd in Eo; rewrite H in Eo; discriminate|exact H]).
    apply post_bind with (Q1 := fun cent => List.Forall isF cent /\ (p / 2 < List.length cent0)%nat /\ cent = upd cent0 (p / 2) (fofZ AX 0)).
    { intros cent Ec. destruct (post_vset (Q := isF) (l := cent0) (i := (p / 2)%nat) (v := fofZ AX 0) (Forall_impl _ (fun x H => posF_isF (gridF_pos H)) Hsorted) (ex_intro _ 0 eq_refl) Ec) as (K1 & _ & K2 & K3). repeat split; assumption. }
    intros cent (Hcent & Hcl & ->). destruct (p / 2)%nat as [|j] eqn:Ej; [discriminate|]. cbn [idxm1 bind].
    apply post_bind with (Q1 := gridF).
    { intros cj Ecj. unfold vget in Ecj. rewrite nth_error_upd in Ecj. destruct (Nat.eqb_spec (S j) j) as [|_]; [lia|].
      destruct (nth_error cent0 j) eqn:En; [|discriminate]. injection Ecj as <-. exact (proj1 (Forall_nth_error _ _) Hsorted _ _ En). }
    intros cj (r & -> & Hr & Hlt). specialize (Hlt H3). pose proof fmin_pos as Hp.
    unfold runiform, on_b. change (flog AX) with xlog. rewrite !fin_log by lra.
    destruct (@vr_uniform _ HR (ln fmin) (ln r) (fst g2)) as (u & Eu & _); [apply ln_increasing; assumption|].
    destruct (b_uniform R0 (Fin (ln fmin)) (Fin (ln r)) (fst g2)) as [x gb]. cbn [fst] in Eu. subst x.
    apply post_bind with (Q1 := List.Forall posF).
    { intros wid Ew. refine (proj1 (post_vset (Q := posF) (Forall_impl _ gridF_pos Hw0) _ Ew)). exists (exp u). split; [reflexivity|apply exp_pos]. }
    intros wid Hwid. apply post_Ok. split; assumption. }
  intros [[cent wid] g3] [Hcent Hwid]. cbn [fst snd] in Hcent, Hwid. pose proof PI_RGT_0 as HPI.
  set (Q2 := fun l : list xr => List.Forall isF l /\ List.length l = p).
  assert (forall l i v, Q2 l -> isF v -> post Q2 (vset l i v)) as HQ2.
  { intros l i v [H1 H2] Hv l' El. destruct (post_vset (Q := isF) H1 Hv El) as (K1 & K2 & _). split; [exact K1|rewrite K2; exact H2]. }
  apply post_bind with (Q1 := Q2).
  { apply post_for.
    - intros i acc Hi Hacc. apply post_bind with (Q1 := posF); [apply post_vget, Hwid|]. intros w (rw & -> & Hrw).
      apply post_bind with (Q1 := isF); [apply post_vget, Hcent|]. intros c (rc & ->).
      change (fmul AX (fmul AX (fneg AX (fofZ AX 2)) (fpi AX)) (Fin rw)) with (Fin (- (2) * PI * rw)).
      change (fmul AX (fmul AX (fofZ AX 2) (fpi AX)) (Fin rc)) with (Fin (2 * PI * rc)).
      set (re := - (2) * PI * rw). set (im := 2 * PI * rc). assert (re < 0) as Hre by (unfold re; nra).
      assert (flog AX (fadd AX (fmul AX (Fin re) (Fin re)) (fmul AX (Fin im) (Fin im))) = Fin (ln (re * re + im * im))) as -> by (refine (fin_log _ _); nra).
      assert (flog AX (fmul AX (fneg AX (fofZ AX 2)) (Fin re)) = Fin (ln (- (2) * re))) as -> by (refine (fin_log _ _); lra).
      apply post_bind with (Q1 := Q2); [exact (HQ2 _ _ _ Hacc (ex_intro _ _ eq_refl))|].
      intros l1 H1. exact (HQ2 _ _ _ H1 (ex_intro _ _ eq_refl)).
    - split; [|apply repeat_length]. apply Forall_forall. intros x Hx. apply repeat_spec in Hx. exists 0. exact Hx. }
  intros loga Hla. apply post_bind with (Q1 := Q2).
  { destruct (Nat.odd p); [|apply post_Ok, Hla]. apply post_bind with (Q1 := posF); [apply post_vget, Hwid|]. intros w (rw & -> & Hrw).
    change (fneg AX (fmul AX (fmul AX (fneg AX (fofZ AX 2)) (fpi AX)) (Fin rw))) with (Fin (- (- (2) * PI * rw))).
    assert (flog AX (Fin (- (- (2) * PI * rw))) = Fin (ln (- (- (2) * PI * rw)))) as -> by (refine (fin_log _ _); nra).
    exact (HQ2 _ _ _ Hla (ex_intro _ _ eq_refl)). }
  intros la Hla'. apply post_Ok. exact Hla'.
Qed.

(** one pass and the loop of StartingValue *)
Section Class.
Variable solve : list (list (cx AX)) -> list (cx AX) -> option (list (cx AX)).
Variables p k : nat.
Variable maf : list xr -> res (list xr).
Variable prior : list xr -> res xr.
Local Notation C := (pcls solve p maf prior).
Variable extra : gen R0 -> list xr * gen R0.
Hypothesis Hex : forall g, List.Forall isF (fst (extra g)) /\ List.length (fst (extra g)) = k.
Variables early withma : bool.
Hypothesis Hodd : Nat.even p = true \/ (3 <= List.length t)%nat.
Variable b0 : base AX (kpx AX).
Variable sm : F AX.
Hypothesis Hb0 : base_holds b0 t y e (mkB AX sm (Fin fmax) (Fin fmin) false).
(** a vector of finite numbers of the right length *)
Definition realv (n : nat) (v : list xr) : Prop := exists x, v = map Fin x /\ List.length x = n.
Lemma realv_of n v : List.Forall isF v -> List.length v = n -> realv n v.
Proof. intros H Hl. apply isF_map in H. destruct H as [x ->]. exists x. split; [reflexivity|]. rewrite <- Hl, map_length. reflexivity. Qed.
Lemma realv_inv n v : realv n v -> List.Forall isF v /\ List.length v = n.
Proof. intros (x & -> & <-). split; [apply isF_map; exists x; reflexivity|apply map_length]. Qed.

Lemma sic_Fin dof s (g : gen R0) : (0 < dof)%Z -> 0 <= s -> exists r (g' : gen R0), @scaled_inverse_chisqr AX R0 dof (Fin s) g = (Fin r, g') /\ 0 <= r.
Proof using HR.
  intros Hd Hs. unfold scaled_inverse_chisqr, on_b. destruct (vr_chisqr HR (fst g) Hd) as (c & Ec & Hc). destruct (b_chisqr R0 dof (fst g)) as [x gb]. cbn [fst] in Ec. subst x.
  assert (fdiv AX (Fin s) (Fin c) = Fin (s / c)) as -> by (refine (fin_div _ _ _); lra).
  exists (s / c * IZR dof). eexists. split; [reflexivity|]. apply IZR_lt in Hd. apply Rmult_le_pos; [|lra]. apply Rmult_le_pos; [exact Hs|]. left. apply Rinv_0_lt_compat, Hc.
Qed.
Lemma draw_scale_Fin (g : gen R0) : exists r (g' : gen R0), draw_scale g = (Fin r, g').
Proof using HR.
  unfold draw_scale. destruct (sic_Fin (s := 1) g (eq_refl : (0 < 50)%Z)) as (r & g' & E & _); [lra|].
  change (fofZ AX 1) with (Fin 1). rewrite E. rewrite clamp_Fin. eexists. eexists. reflexivity.
Qed.
Lemma rnorm_Fin mu sd (g : gen R0) : 0 <= sd -> exists r (g' : gen R0), @rnorm AX R0 (Fin mu) (Fin sd) g = (Fin r, g').
Proof using HR.
  intros Hs. unfold rnorm, on_b. destruct (vr_normal HR mu (fst g) Hs) as (x & E). destruct (b_normal R0 (Fin mu) (Fin sd) (fst g)) as [z gb]. cbn [fst] in E. subst z.
  eexists. eexists. reflexivity.
Qed.
Lemma svar_nonneg (l : list R) : (2 <= List.length l)%nat -> 0 <= svar l.
Proof.
  intros H. unfold svar. apply Rmult_le_pos; [|left; apply Rinv_0_lt_compat; assert (2 <= INR (List.length l)) by (change 2 with (INR 2); apply le_INR, H); lra].
  apply Rsum_nonneg. intros i _. apply pow2_ge_0.
Qed.

Lemma start_try_real b g : okb (static_of b0) b ->
  post (fun q => let '(th, b', ok, g') := q in okb (static_of b0) b' /\ (ok = true -> realv (3 + p + k) th)) (start_try dsort solve p C extra early withma b g).
Proof using HR HB Ht Hlen Hds Hex Hodd Hb0.
  intros Hok [[[th b'] ok] g'] E. split; [exact (proj1 (start_try_ok Hok E))|]. intros ->. pose proof (base_holds_static Hb0 Hok) as Hb.
  destruct (base_holds_lens _ _ _ _ _ _ Hb) as (Ly & _ & _). pose proof Hb as (_ & _ & Ey & _). revert E. 
  unfold start_try. intros E. apply bind_Ok in E. destruct E as ([loga g1] & El & E). destruct (StartingAR_real Hodd Hb El) as [Hl1 Hl2]. cbn [fst] in Hl1, Hl2.
  destruct (Hex g1) as [He1 He2]. destruct (extra g1) as [ex g2]. cbn [fst] in He1, He2. cbv zeta in E.
  apply bind_Ok in E. destruct E as (ma & _ & E). rewrite Ey in E. assert (y <> []) as Hy0 by (intros ->; cbn in Ly; lia).
  assert (vvar AX (map Fin y) = Ok (Fin (svar y))) as Ev by (apply vvar_Fin; rewrite Ly; exact Hlen).
  assert (vmean AX (map Fin y) = Fin (smean y)) as Em by (apply vmean_Fin, Hy0).
  assert (dofs AX (map Fin y) = (Z.of_nat (List.length y) - 1)%Z) as Ed by (unfold dofs; change (F AX) with xr; rewrite map_length; reflexivity).
  assert (nobs AX (map Fin y) = Fin (INR (List.length y))) as En by (unfold nobs; change (F AX) with xr; rewrite map_length, INR_IZR_INZ; reflexivity).
  assert (exists s, realv (3 + p + k) s /\ th = s) as (s & Hs & ->); [|exact Hs].
  change (F AX) with xr in E. rewrite Ev in E. cbn [bind] in E. rewrite Em, Ed, En in E.
  destruct (sic_Fin (dof := (Z.of_nat (List.length y) - 1)%Z) (s := svar y) g2) as (yv & g3 & Eyv & Hyv); [lia|apply svar_nonneg; lia|]. rewrite Eyv in E.
  assert (fdiv AX (fsqrt AX (Fin yv)) (Fin (INR (List.length y))) = Fin (sqrt yv / INR (List.length y))) as Eq.
  { assert (fsqrt AX (Fin yv) = Fin (sqrt yv)) as -> by (refine (fin_sqrt _ _); exact Hyv). refine (fin_div _ _ _). apply not_0_INR. lia. }
  rewrite Eq in E. destruct (rnorm_Fin (smean y) (sd := sqrt yv / INR (List.length y)) g3) as (mu & g4 & Emu).
  { apply Rmult_le_pos; [apply sqrt_pos|]. left. apply Rinv_0_lt_compat, lt_0_INR. lia. }
  rewrite Emu in E. apply bind_Ok in E. destruct E as (roots & _ & E).
  destruct (early && negb _); [discriminate|]. destruct (draw_scale_Fin g4) as (sc & g5 & Esc). rewrite Esc in E.
  apply bind_Ok in E. destruct E as (b1 & _ & E). apply bind_Ok in E. destruct E as ([lp b2] & _ & E).
  apply (f_equal (fun r => match r with Ok q => fst (fst (fst q)) | _ => [] end)) in E. cbn [fst] in E. subst th.
  eexists. split; [|reflexivity].
  assert (fsqrt AX (Fin yv) = Fin (sqrt yv)) as -> by (refine (fin_sqrt _ _); exact Hyv).
  apply realv_of; [|cbn [List.length]; rewrite app_length; lia].
  constructor; [eexists; reflexivity|]. constructor; [eexists; reflexivity|]. constructor; [eexists; reflexivity|]. apply Forall_app. split; assumption.
Qed.
Lemma start_while_real fuel : forall b g, okb (static_of b0) b ->
  post (fun q => realv (3 + p + k) (fst (fst q))) (start_while dsort solve p C extra early withma fuel b g).
Proof using HR HB Ht Hlen Hds Hex Hodd Hb0.
  induction fuel as [|n IH]; intros b g Hok; cbn [start_while]; [discriminate|].
  eapply post_bind; [apply start_try_real, Hok|]. intros [[[th b'] ok] g'] [H1 H2]. destruct ok; [apply post_Ok, H2; reflexivity|apply IH, H1].
Qed.
Lemma set_start_real fuel init b g : okb (static_of b0) b ->
  (exists x, init = map Fin x) ->
  post (fun q => realv (3 + p + k) (fst (fst q))) (set_start dsort solve p C extra early withma (3 + p + k) fuel b init g).
Proof using HR HB Ht Hlen Hds Hex Hodd Hb0.
  intros Hok (x & ->). unfold set_start. change (F AX) with xr. destruct (Nat.eqb_spec (List.length (map Fin x)) (3 + p + k)) as [Hl|]; cbn [negb]; [|apply start_while_real, Hok].
  intros [[th b'] g'] E. apply bind_Ok in E. destruct E as ([lp b1] & EL & E). destruct (LDp_ok Hok EL) as [_ Hok1].
  destruct (negb _); [exact (start_while_real Hok1 E)|].
  apply bind_Ok in E. destruct E as (t0 & _ & E). apply bind_Ok in E. destruct E as (sc & _ & E). apply bind_Ok in E. destruct E as (mu & _ & E).
  apply bind_Ok in E. destruct E as (roots & _ & E). apply bind_Ok in E. destruct E as (ma & _ & E). cbv zeta in E. apply bind_Ok in E. destruct E as (b2 & _ & E).
  apply (f_equal (fun r => match r with Ok q => fst (fst q) | _ => [] end)) in E. cbn [fst] in E |- *. subst th. exists x. split; [reflexivity|]. rewrite map_length in Hl. exact Hl.
Qed.
End Class.
End StartReal.

(** ** Chains of real vectors *)
Section Chain.
Variable R0 : rng AX.
Variable X : Type.
Variable P : methodsP R0 X (list (F AX)).
Variable draw : F AX -> gen R0 -> F AX * gen R0.
Variable n : nat.
Variable tg : R.
Hypothesis Htg : 0 < tg < 1.
Hypothesis Hdraw : forall g, exists u g1, draws n (draw (Fin 0)) g = (map Fin u, g1) /\ nonzero u.
Local Notation param := (param AX X (list xr)).
Definition realw (w : param) : Prop := realv n (w_value w).
Definition real_state (ws : list param) (ss : list (step AX)) : Prop :=
  List.Forall realw ws /\ (forall i r, In (SRam i r) ss -> good_ram n tg r).
Lemma realw_len (w : param) : realw w -> List.length (w_value w) = n.
Proof. intros H. exact (proj2 (realv_inv H)). Qed.
Lemma do_step_real s ws g s' ws' g' : List.Forall realw ws ->
  (forall i r, s = SRam i r -> good_ram n tg r) -> do_step P draw s ws g = Ok (s', ws', g') ->
  List.Forall realw ws' /\ (forall i r, s' = SRam i r -> good_ram n tg r).
Proof using Hdraw Htg.
  intros H Hr E. pose proof (proj1 (Forall_nth_error _ _) H) as Hn.
  assert (List.Forall (fun w : param => List.length (w_value w) = n) ws) as HL by (exact (Forall_impl _ realw_len H)).
  split; [|exact (proj2 (do_step_good Htg Hdraw HL Hr E))].
  destruct s as [i r|[|j] ex]; cbn [do_step] in E; [|discriminate|].
  - apply bind_Ok in E. destruct E as (w & Ew & E). apply vgetU_nth in Ew. pose proof (Hn _ _ Ew) as Hw. apply bind_Ok in E. destruct E as ([[r' w'] g1] & E1 & E). injection E as _ <- _.
    apply Forall_upd; [exact H|]. specialize (Hr i r eq_refl). destruct Hr as (_ & _ & L & HLc). destruct Hw as (x & Ex & Hx).
    unfold ram_step in E1. change (fofZ AX 0) with (Fin 0) in E1. assert (List.length (w_value w) = n) as Hlw by (exact (proj1 (Forall_nth_error _ _) HL _ _ Ew)).
    change (F AX) with xr in *. rewrite Hlw in E1. destruct (Hdraw g) as (u & g2 & Eu & _). rewrite Eu in E1.
    assert (List.length u = n) as Hu by (pose proof (draws_len n (draw (Fin 0)) g) as Q; rewrite Eu in Q; cbn [fst] in Q; refine (eq_trans (eq_sym _) Q); apply map_length).
    destruct HLc as (EL & HS & _).
    apply bind_Ok in E1. destruct E1 as (sc & Esc & E1). pose proof (mtmul_Fin n L u HS Hu) as Em.
    assert (sc = map Fin (vbuild n (tmul n (rent L) (rv u)))) as ->.
    { pose proof (eq_trans (eq_sym Esc) (eq_trans (f_equal (fun M => mtmul (A := AX) M (map Fin u)) EL) Em)) as K. injection K as K. exact K. }
    apply bind_Ok in E1. destruct E1 as (new & Enew & E1).
    assert (realv n new) as Hnew.
    { pose proof (eq_trans (eq_sym Enew) (f_equal (fun v => vadd AX v (map Fin (vbuild n (tmul n (rent L) (rv u))))) Ex)) as K.
      rewrite vadd_Fin in K by (rewrite vbuild_len; exact Hx). injection K as ->. eexists. split; [reflexivity|]. unfold radd. rewrite map_length, combine_length, vbuild_len, Hx. apply Nat.min_id. }
    apply bind_Ok in E1. destruct E1 as ([[[a r1] w1] g3] & Ea & E1). apply bind_Ok in E1. destruct E1 as (w2 & Ew2 & E1). apply bind_Ok in E1. destruct E1 as (r2 & _ & E1). injection E1 as _ <- _.
    destruct a.
    + unfold Save in Ew2. apply bind_Ok in Ew2. destruct Ew2 as ([l x2] & _ & Q). injection Q as <-. exact Hnew.
    + injection Ew2 as <-. unfold ram_accept, LD in Ea. apply bind_Ok in Ea. destruct Ea as ([l w3] & E3 & Ea). apply bind_Ok in E3. destruct E3 as ([l' x'] & _ & Q). injection Q as _ <-.
      assert (w1 = set_obj w x') as ->.
      { destruct (negb _); [injection Ea; congruence|]. destruct (runiform _ _ _) as [uu gu]. destruct (flt AX _ _); [discriminate|injection Ea; congruence]. }
      exists x. split; [exact Ex|exact Hx].
  - apply bind_Ok in E. destruct E as (w & Ew & E). apply bind_Ok in E. destruct E as (o & Eo & E). apply vgetU_nth in Ew. apply vgetU_nth in Eo.
    apply bind_Ok in E. destruct E as ([[[e' w'] o'] g1] & E1 & E). injection E as _ <- _. pose proof (Hn _ _ Ew) as Hw. pose proof (Hn _ _ Eo) as Ho.
    unfold exch_step in E1. cbv zeta in E1. destruct (runiform _ _ g) as [uu gu]. apply bind_Ok in E1. destruct E1 as ([[w2 o2] na] & E2 & E1). injection E1 as _ <- <- _.
    assert (realw w2 /\ realw o2) as [K1 K2]; [|apply Forall_upd; [apply Forall_upd; assumption|assumption]].
    destruct (flt AX uu _); [|injection E2 as <- <- _; split; assumption].
    apply bind_Ok in E2. destruct E2 as (w1 & Ew1 & E2). apply bind_Ok in E2. destruct E2 as (o1 & Eo1 & E2). injection E2 as <- <- _.
    unfold Save in Ew1. apply bind_Ok in Ew1. destruct Ew1 as ([l1 x1] & _ & Q). injection Q as <-. unfold SaveDerived in Eo1. apply bind_Ok in Eo1. destruct Eo1 as (l2 & _ & Q). injection Q as <-.
    split; assumption.
Qed.
Lemma in_order_real ss ws g ss' ws' g' : in_order P draw ss ws g ss' ws' g' -> real_state ws ss -> real_state ws' ss'.
Proof using Hdraw Htg.
  intros H. induction H as [|s ss ws g s' ws1 g1 ss' ws2 g2 E _ IH]; intros [H1 H2]; [split; [exact H1|intros i r []]|].
  destruct (do_step_real H1 (fun i r Q => H2 i r (or_introl Q)) E) as [K1 K2].
  destruct (IH (Logic.conj K1 (fun i r Q => H2 i r (or_intror Q)))) as [J1 J2]. split; [exact J1|].
  intros i r [->|Hin]; [exact (K2 i r eq_refl)|exact (J2 i r Hin)].
Qed.
Theorem sweeps_real k y y' : sweeps P draw k y y' -> real_state (y_pars y) (y_steps y) -> real_state (y_pars y') (y_steps y').
Proof using Hdraw Htg. intros H. induction H as [|k y y1 y2 _ IH H]; intros H0; [exact H0|]. exact (in_order_real H (IH H0)). Qed.
End Chain.

(** ** Runs *)
Lemma run_bounds_unique t y s f F s' f' F' : run_bounds t y s f F -> run_bounds t y s' f' F' -> s' = s /\ f' = f /\ F' = F.
Proof.
  intros (S1 & S2 & S3 & (i & S4 & S5) & S6) (U1 & U2 & U3 & (j & U4 & U5) & U6). split; [congruence|]. split; [congruence|].
  pose proof (S3 j U4) as Q1. pose proof (U3 i S4) as Q2. rewrite <- U5 in Q1. rewrite <- S5 in Q2.
  assert (1 / F = 1 / F') as Q by lra. apply (f_equal Rinv) in Q. unfold Rdiv in Q. rewrite !Rmult_1_l, !Rinv_inv in Q. congruence.
Qed.
(** every vector of n numbers from student_t_distribution(8) is a vector of reals with a non-zero element *)
Definition moves (R0 : rng AX) (n : nat) : Prop :=
  forall g : gen R0, exists u g1, draws n (@student_draw AX R0 (Fin 0)) g = (map Fin u, g1) /\ nonzero u.
Lemma moves_student (R0 : rng AX) n : valid_rng R0 -> (0 < n)%nat -> (forall g, fst (b_student R0 (Fin 8) g) <> Fin 0) -> moves R0 n.
Proof.
  intros HR Hn H0 g.
  assert (forall g : gen R0, exists u, fst (@student_draw AX R0 (Fin 0) g) = Fin u /\ u <> 0) as Hd.
  { intros g0. unfold student_draw, tdist, on_b. change (fofZ AX 8) with (Fin 8). destruct (vr_student HR (dof := 8) (fst g0)) as (x & Ex); [lra|]. specialize (H0 (fst g0)).
    destruct (b_student R0 (Fin 8) (fst g0)) as [z gb]. cbn [fst] in *. subst z. exists (0 + 1 * x). split; [reflexivity|]. intros Q. apply H0. f_equal. lra. }
  pose proof (draws_all (R0 := R0) (Q := fun x => exists u, x = Fin u /\ u <> 0) (d := @student_draw AX R0 (Fin 0)) Hd n g) as HF.
  pose proof (draws_len n (@student_draw AX R0 (Fin 0)) g) as HL. destruct (draws n _ g) as [l g1]. cbn [fst] in HF, HL.
  assert (List.Forall isF l) as HF1 by (refine (Forall_impl _ _ HF); intros x (u & E & _); exists u; exact E).
  destruct (proj1 (isF_map l) HF1) as (u & ->).
  exists u, g1. split; [reflexivity|]. change (F AX) with xr in HL. rewrite map_length in HL. exists 0%nat. split; [lia|]. destruct u as [|a u]; [cbn in HL; lia|].
  inversion HF as [|? ? (u0 & E & Hu) _]; subst. injection E as ->. exact Hu.
Qed.

Section RunReal.
Variable R0 : rng AX.
Hypothesis HR : valid_rng R0.
Variables vsort dsort : list (F AX) -> option (list (F AX)).
Variable solve : list (list (cx AX)) -> list (cx AX) -> option (list (cx AX)).
Variable si : list (F AX) -> option (list nat).
Variable chol : mat AX -> option (mat AX).
Hypothesis Hvs : valid_vsort vsort.
Hypothesis Hds : valid_dsort dsort.
Hypothesis Hsi : valid_sort_index si.
Hypothesis Hch : valid_chol chol.
Variables t y e : list R.
Hypothesis Hy : List.length y = List.length t.
Hypothesis He : List.length e = List.length t.
Hypothesis Ht : strictly_increasing t.
Hypothesis Hne : exists a b, In a y /\ In b y /\ a <> b.
Variables smax fmin fmax : R.
Hypothesis HB : run_bounds t y smax fmin fmax.

Lemma StartingMA_real q (g : gen R0) : List.Forall isF (fst (@StartingMA AX R0 q g)) /\ List.length (fst (@StartingMA AX R0 q g)) = q.
Proof using HR.
  unfold StartingMA. pose proof (draws_all (R0 := R0) (Q := isF) (d := on_a (a_randn R0))) as HF.
  specialize (HF (fun g => match g with (gb, ga) => ltac:(unfold on_a; cbn [fst snd]; destruct (vr_randn HR ga) as (x & Ex); destruct (a_randn R0 ga); exists x; exact Ex) end) q g).
  pose proof (draws_len q (on_a (a_randn R0)) g) as HL. destruct (draws q _ g) as [z g1]. cbn [fst] in *. split; [|rewrite map_length; exact HL].
  apply isF_map in HF. destruct HF as [u ->]. apply isF_map. exists (map Rabs u). change (F AX) with xr. rewrite !map_map. reflexivity.
Qed.
Section Walk.
Variables fuel p q : nat.
Variable z : bool.
Hypothesis Hodd : Nat.even p = true \/ (3 <= List.length t)%nat.
Variable b0 : base AX (kpx AX).
Hypothesis Hb0 : base_holds b0 t y e (mkB AX (Fin smax) (Fin fmax) (Fin fmin) false).
Let H2 : (2 <= List.length t)%nat := two_obs Hy Hne.
Lemma walker_start_real x g v x' g' : okb (static_of b0) x ->
  o_Start (walker_par R0 dsort solve fuel p q z) x g = Ok (v, x', g') -> realv (walker_dim p q z) v.
Proof using HR Hds Hy He Hne Ht HB Hodd Hb0.
  intros Hok E. unfold walker_par in E. destruct z; [|destruct (Nat.eqb_spec q 0) as [Eq|Eq]]; cbn [o_Start par_zcar par_carp par_carma parp] in E; cbn [walker_dim].
  - pose proof (@start_while_real R0 HR dsort Hds t y e H2 Ht smax fmin fmax HB solve p 0 _ _ (fun g => ([], g)) (fun _ => Logic.conj (Forall_nil _) eq_refl) false false Hodd b0 _ Hb0 fuel x g Hok _ E) as K. rewrite Nat.add_0_r in K. exact K.
  - pose proof (@start_while_real R0 HR dsort Hds t y e H2 Ht smax fmin fmax HB solve p 0 _ _ (fun g => ([], g)) (fun _ => Logic.conj (Forall_nil _) eq_refl) false false Hodd b0 _ Hb0 fuel x g Hok _ E) as K. rewrite Eq. exact K.
  - exact (@start_while_real R0 HR dsort Hds t y e H2 Ht smax fmin fmax HB solve p q _ _ (@StartingMA AX R0 q) (StartingMA_real q) true true Hodd b0 _ Hb0 fuel x g Hok _ E).
Qed.
Lemma walker_set_real (init : list R) x g v x' g' : okb (static_of b0) x ->
  o_SetStart (walker_par R0 dsort solve fuel p q z) x (map Fin init) g = Ok (v, x', g') -> realv (walker_dim p q z) v.
Proof using HR Hds Hy He Hne Ht HB Hodd Hb0.
  intros Hok E. unfold walker_par in E. destruct z; [|destruct (Nat.eqb_spec q 0) as [Eq|Eq]]; cbn [o_SetStart par_zcar par_carp par_carma parp] in E; cbn [walker_dim].
  - replace (p + 3)%nat with (3 + p + 0)%nat in E by lia.
    pose proof (@set_start_real R0 HR dsort Hds t y e H2 Ht smax fmin fmax HB solve p 0 _ _ (fun g => ([], g)) (fun _ => Logic.conj (Forall_nil _) eq_refl) false false Hodd b0 _ Hb0 fuel _ x g Hok (ex_intro _ init eq_refl) _ E) as K. rewrite Nat.add_0_r in K. exact K.
  - replace (p + 3)%nat with (3 + p + 0)%nat in E by lia.
    pose proof (@set_start_real R0 HR dsort Hds t y e H2 Ht smax fmin fmax HB solve p 0 _ _ (fun g => ([], g)) (fun _ => Logic.conj (Forall_nil _) eq_refl) false false Hodd b0 _ Hb0 fuel _ x g Hok (ex_intro _ init eq_refl) _ E) as K. rewrite Eq. exact K.
  - replace (p + q + 3)%nat with (3 + p + q)%nat in E by lia.
    exact (@set_start_real R0 HR dsort Hds t y e H2 Ht smax fmin fmax HB solve p q _ _ (@StartingMA AX R0 q) (StartingMA_real q) true true Hodd b0 _ Hb0 fuel _ x g Hok (ex_intro _ init eq_refl) _ E).
Qed.
End Walk.

(** what holds of every state of a run: the chains are real vectors, the proposal covariances of the RAM steps are
    symmetric positive definite matrices *)
Definition sound_state {X} (n : nat) (s : sys R0 X) : Prop :=
  List.Forall (fun w => exists x, w_value w = map Fin x /\ List.length x = n) (y_pars s) /\
  forall i r, In (SRam i r) (y_steps s) -> exists C, GetCovariance r = FinM C /\ CholProof.square n C /\ pd n (rent C) /\ msym n (rent C).
Lemma real_sound X n (s : sys R0 X) : real_state n (1 / 4) (y_pars s) (y_steps s) -> sound_state n s.
Proof. intros [H1 H2]. split; [exact H1|]. intros i r Hin. exact (good_cov (H2 i r Hin)). Qed.
Lemma ram_new_real n burnin a0 r : (3 <= n)%nat -> ram_new chol (prop_covar AX n (map Fin y)) (fdec AX 1 4) burnin a0 = Ok r -> good_ram n (1 / 4) r.
Proof using Hch Hne.
  intros Hn E. destruct (@chol_init chol n y Hch Hne) as (L & EL & HL & H1 & H2). unfold ram_new in E. 
  change (list (F AX)) with (list xr) in *. change (F AX) with xr in *. rewrite EL in E. injection E as <-.
  split; [cbn [r_gamma]; refine (fin_div _ _ _); lra|]. split; [reflexivity|]. exists L. cbn [r_chol]. repeat split; assumption || apply HL || apply H1 || apply H2.
Qed.

(** the same with the initial proposal covariance, and the whole invariant *)
Theorem carma_real_full fuel N burnin p q nw z thin (init : list R) raw v0 l0 a0 (g : gen R0) w g' :
  (Nat.even p = true \/ (3 <= List.length t)%nat) -> moves R0 (walker_dim p q z) ->
  RunCarmaSampler (R := R0) dsort solve si chol fuel N burnin (map Fin t) (map Fin y) (map Fin e) p q nw z thin (map Fin init) raw v0 l0 a0 g = Ok (w, g') ->
  (exists b r ex label y0, begun (walker_par R0 dsort solve fuel p q z) (map Fin init) (walkers b v0 l0 label nw) (hot_steps (nw - 1) r ex ++ [SRam 0 r]) g y0 /\
    recorded (walker_par R0 dsort solve fuel p q z) y0 burnin N thin w g' /\
    ram_new chol (prop_covar AX (walker_dim p q z) (map Fin y)) (fdec AX 1 4) burnin a0 = Ok r /\
    forall k yk, sweeps (walker_par R0 dsort solve fuel p q z) (@student_draw AX R0) k y0 yk -> real_state (walker_dim p q z) (1 / 4) (y_pars yk) (y_steps yk)) /\
  forall i, (i < N)%nat -> exists th lp roots, nth_error (w_samples w) i = Some (map Fin th) /\ List.length th = walker_dim p q z /\
    nth_error (w_logposts w) i = Some (Fin lp) /\ ARRoots AX p (map Fin th) = Ok (map FinC roots) /\ in_prior smax fmin fmax th roots.
Proof using HR Hds Hsi Hch Hy He Ht Hne HB.
  intros Hodd Hmv E. assert (all_kept si (map Fin t)) as Hk by (apply kept_distinct; [exact Hsi|apply increasing_NoDup, Ht]).
  assert (List.length (map Fin y) = List.length (map Fin t) /\ List.length (map Fin e) = List.length (map Fin t)) as [Hy' He'] by (rewrite !map_length; split; assumption).
  pose proof (carma_inside (fun _ => None) finite_laws_AX Hy' He' Hk E) as Hin.
  destruct (RunCarma_inv E) as (b & b1 & r & ex & s & label & Hp & Hnw & Eb & Eb1 & Er & Erun & Hw & Egs).
  destruct (walker_prior Hsi Hy He Ht Hne raw z Hp) as (b' & b1' & sm' & fm' & fM' & Eb' & Eb1' & Hb1 & HB').
  assert (b1' = b1) as ->.
  { pose proof (eq_trans (eq_sym Eb) Eb') as Q. injection Q as <-. pose proof (eq_trans (eq_sym Eb1) Eb1') as Q. injection Q as <-. reflexivity. }
  destruct (run_bounds_unique HB HB') as (-> & -> & ->).
  assert (wfb b1) as Hwf by (exact (proj1 Hb1)).
  assert (3 <= walker_dim p q z)%nat as Hdim by (unfold walker_dim; destruct z; lia).
  pose proof (ram_new_real Hdim Er) as Hgr.
  destruct (Run_recorded Erun Hw) as (y0 & Hbeg & Hrec).
  assert (real_state (walker_dim p q z) (1 / 4) (y_pars y0) (y_steps y0)) as Hreal.
  { destruct Hbeg as (Ess & use & ws1 & Hst & Ho & _ & _). split; [|rewrite Ess; intros i r' Hin'; rewrite (steps_adapt Hin'); exact Hgr].
    set (st := static_of b1) in *.
    assert (List.Forall (fun w => @okb AX _ st (w_obj w)) (walkers b1 v0 l0 label nw)) as Hok by (apply walkers_all; intros T tr; split; [exact Hwf|reflexivity]).
    assert (List.Forall (fun w : param AX (base AX (kpx AX)) (list xr) => okb st (w_obj w)) ws1) as Hok1 by exact (map_obj_ok (ok := @okb AX _ st) Ho Hok).
    assert (forall x g w g', okb st x -> just_started (walker_par R0 dsort solve fuel p q z) use (map Fin init) x g w g' -> okb st (w_obj w) /\ realw (walker_dim p q z) w) as HQ.
    { intros x g0 w0 g0' Hx (x1 & Hs1 & EL). split.
      - assert (okb st x1) as Hx1 by (destruct use; [exact (proj1 (w_set Hx Hs1))|exact (proj1 (w_start Hx Hs1))]). exact (proj2 (w_ld Hx1 EL)).
      - destruct use; [exact (walker_set_real Hodd Hb1 Hx Hs1)|exact (walker_start_real Hodd Hb1 Hx Hs1)]. }
    destruct (started_each (fun _ => None) (fun _ => None) (fun _ => None) HQ Hst Hok1) as (_ & Hall & _).
    apply Forall_nth_error. intros j wj Hj. apply (Hall _ _ Hj). apply (steps_cover (n := nw)). 
    rewrite <- (walkers_len b1 v0 l0 label nw), <- (map_len Ho). destruct (started_len Hst) as [<- _]. apply nth_error_Some. intros Q. pose proof (eq_trans (eq_sym Hj) Q). discriminate. }
  assert (forall k yk, sweeps (walker_par R0 dsort solve fuel p q z) (@student_draw AX R0) k y0 yk -> real_state (walker_dim p q z) (1 / 4) (y_pars yk) (y_steps yk)) as Hall.
  { intros k yk Hs. refine (sweeps_real (P := walker_par R0 dsort solve fuel p q z) (draw := @student_draw AX R0) (tg := 1 / 4) _ Hmv Hs Hreal). lra. }
  split.
  { exists b1, r, ex, label, y0. split; [exact Hbeg|]. split; [rewrite Egs; exact Hrec|]. split; [exact Er|exact Hall]. }
  intros i Hi. destruct Hrec as (L1 & _ & Hrec & Hend). destruct (Hrec i Hi) as (yi & wi & Hsi' & Hwi & Hvi & Hli).
  destruct (Hall _ _ Hsi') as [Hri _]. pose proof (proj1 (Forall_nth_error _ _) Hri _ _ Hwi) as (th & Eth & Hth).
  destruct (Hin i _ Hvi) as ((l & Hl & Hf) & Hc).
  assert (exists lp, l = Fin lp) as (lp & ->) by (destruct l as [lp| | |]; try discriminate Hf; exists lp; reflexivity).
  assert (b_bounds (w_obj w) = mkB AX (Fin smax) (Fin fmax) (Fin fmin) false) as Ebd.
  { set (st := static_of b1).
    assert (List.Forall (fun w => @okb AX _ st (w_obj w)) (walkers b1 v0 l0 label nw)) as Hok by (apply walkers_all; intros T tr; split; [exact Hwf|reflexivity]).
    assert (covered (hot_steps (nw - 1) r ex ++ [SRam 0 r]) (List.length (walkers b1 v0 l0 label nw))) as Hcov by (rewrite walkers_len; apply steps_cover).
    destruct (@Run_inv _ _ _ (walker_par R0 dsort solve fuel p q z) (@student_draw AX R0) (@okb AX _ st) (pldw solve p q z st) (@w_ld AX R0 dsort solve fuel p q z st)
      (fun x g v x' g' H E => proj1 (w_start H E)) (fun x i g v x' g' H E => proj1 (w_set H E)) _ _ _ _ _ _ _ Erun Hok Hcov) as (y0' & _ & Hfin & _ & _).
    destruct (proj1 (Forall_nth_error _ _) Hfin _ _ Hw) as [Hst _]. exact (proj2 (proj2 (proj2 (proj2 (proj2 (base_holds_static Hb1 Hst)))))). }
  assert (3 + p <= List.length th)%nat as Hlt by (rewrite Hth; unfold walker_dim; destruct z; lia).
  destruct (@CheckPriorBoundsp_main p smax fmin fmax th Hlt) as (roots & Hroots & bb & Ebb & Hiff).
  exists th, lp, roots. rewrite <- Eth. split; [exact Hvi|]. split; [exact Hth|]. split; [exact Hl|]. split; [rewrite Eth; exact Hroots|].
  apply Hiff. pose proof (eq_trans (eq_sym Hc) (f_equal2 (fun bd v => CheckPriorBoundsp (A := AX) p bd v) Ebd Eth)) as Q. pose proof (eq_trans Q Ebb) as Q2. injection Q2 as <-. reflexivity.
Qed.

Theorem carma_real fuel N burnin p q nw z thin (init : list R) raw v0 l0 a0 (g : gen R0) w g' :
  (Nat.even p = true \/ (3 <= List.length t)%nat) -> moves R0 (walker_dim p q z) ->
  RunCarmaSampler (R := R0) dsort solve si chol fuel N burnin (map Fin t) (map Fin y) (map Fin e) p q nw z thin (map Fin init) raw v0 l0 a0 g = Ok (w, g') ->
  (exists b r ex label y0, begun (walker_par R0 dsort solve fuel p q z) (map Fin init) (walkers b v0 l0 label nw) (hot_steps (nw - 1) r ex ++ [SRam 0 r]) g y0 /\
    recorded (walker_par R0 dsort solve fuel p q z) y0 burnin N thin w g' /\
    forall k yk, sweeps (walker_par R0 dsort solve fuel p q z) (@student_draw AX R0) k y0 yk -> sound_state (walker_dim p q z) yk) /\
  forall i, (i < N)%nat -> exists th lp roots, nth_error (w_samples w) i = Some (map Fin th) /\ List.length th = walker_dim p q z /\
    nth_error (w_logposts w) i = Some (Fin lp) /\ ARRoots AX p (map Fin th) = Ok (map FinC roots) /\ in_prior smax fmin fmax th roots.
Proof using HR Hds Hsi Hch Hy He Ht Hne HB.
  intros Hodd Hmv E. destruct (carma_real_full Hodd Hmv E) as ((b & r & ex & label & y0 & H1 & H2 & _ & H3) & H4). split; [|exact H4].
  exists b, r, ex, label, y0. split; [exact H1|]. split; [exact H2|]. intros k yk Hs. apply real_sound, (H3 _ _ Hs).
Qed.

Theorem car1_real_full N burnin thin (init : list R) raw v0 l0 a0 (g : gen R0) w g' : moves R0 4 ->
  RunCar1Sampler (R := R0) vsort si chol N burnin (map Fin t) (map Fin y) (map Fin e) thin (map Fin init) raw v0 l0 a0 g = Ok (w, g') ->
  exists b r y0 w0, begun (par1 R0 vsort) (map Fin init) [new_param b v0 l0 (fofZ AX 1) true "CAR(1)"] [SRam 0 r] g y0 /\ y_pars y0 = [w0] /\
    recorded (par1 R0 vsort) y0 burnin N thin w g' /\
    ram_new chol (prop_covar AX 4 (map Fin y)) (fdec AX 1 4) burnin a0 = Ok r /\
    (forall k yk, sweeps (par1 R0 vsort) (@student_draw AX R0) k y0 yk -> real_state 4 (1 / 4) (y_pars yk) (y_steps yk)) /\
    forall i, (i < N)%nat -> exists th lp, nth_error (w_samples w) i = Some (map Fin th) /\ List.length th = 4%nat /\ nth_error (w_logposts w) i = Some lp /\
      (ffin AX (w_logpost w0) = true -> ffin AX lp = true /\ in_prior1 smax fmin fmax th).
Proof using HR Hvs Hsi Hch Hy He Ht Hne HB.
  intros Hmv E. assert (all_kept si (map Fin t)) as Hk by (apply kept_distinct; [exact Hsi|apply increasing_NoDup, Ht]).
  assert (List.length (map Fin y) = List.length (map Fin t) /\ List.length (map Fin e) = List.length (map Fin t)) as [Hy' He'] by (rewrite !map_length; split; assumption).
  destruct (RunCar1_inv E) as (b & b1 & r & s & Eb & Eb1 & Er & Erun & Hw & Egs).
  destruct (car1_built Hsi Hy He Ht Hne raw) as (b' & fm0 & fM0 & Eb' & Hb' & _).
  pose proof (eq_trans (eq_sym Eb) Eb') as Q. injection Q as <-.
  destruct (set_prior_built Hy He Ht Hne Hb' eq_refl) as (b1' & sm' & fm' & fM' & Eb1' & Hb1 & HB'). pose proof (eq_trans (eq_sym Eb1) Eb1') as Q. injection Q as <-.
  destruct (run_bounds_unique HB HB') as (-> & -> & ->).
  assert (wfb b1) as Hwf by (exact (proj1 Hb1)). set (st := static_of b1) in *. pose proof HB as (_ & Hf & Hgap & _).
  assert (forall x (g0 : gen R0) v x' g0', okb st x -> Start1 vsort x g0 = Ok (v, x', g0') -> realv 4 v) as Hstart.
  { intros x g0 v x' g0' Hx Es. pose proof (base_holds_static Hb1 Hx) as Hbx.
    destruct (@start1_prior R0 HR vsort Hvs t y e x smax fmin fmax Hbx Hf Hgap g0) as (sd & sc & mu & lo & med & u & bb & gg & Es' & _).
    pose proof (eq_trans (eq_sym Es) Es') as Q. injection Q as -> _ _. exists [sd; sc; mu; lo]. split; reflexivity. }
  assert (good_ram 4 (1 / 4) r) as Hgr by (apply (ram_new_real (n := 4) (burnin := burnin) (a0 := a0)); [lia|exact Er]).
  destruct (Run_recorded Erun Hw) as (y0 & Hbeg & Hrec). pose proof Hbeg as (Ess & use & ws1 & Hst & Ho & _ & _).
  assert (List.Forall (fun w => @okb AX _ st (w_obj w)) [new_param b1 v0 l0 (fofZ AX 1) true "CAR(1)"]) as Hok by (constructor; [split; [exact Hwf|reflexivity]|constructor]).
  assert (List.Forall (fun w : param AX (base AX xr) (list xr) => okb st (w_obj w)) ws1) as Hok1 by exact (map_obj_ok (ok := @okb AX _ st) Ho Hok).
  assert (List.length (y_pars y0) = 1%nat) as Hl0 by (destruct (started_len Hst) as [-> _]; apply map_len in Ho; exact Ho).
  destruct (y_pars y0) as [|w0 [|? ?]] eqn:Ey0; try discriminate.
  exists b1, r, y0, w0. split; [exact Hbeg|]. split; [exact Ey0|]. split; [rewrite Egs; exact Hrec|].
  pose proof (fun x v l x' H E => @LD1_ok AX st x v l x' H E) as Hld.
  assert (forall x g w g', okb st x -> just_started (par1 R0 vsort) use (map Fin init) x g w g' -> okb st (w_obj w) /\ realw 4 w) as HQ.
  { intros x g0 w1 g0' Hx (x1 & Hs1 & EL). cbn [o_Start o_SetStart o_LogDensity par1] in Hs1, EL. split.
    - assert (okb st x1) as Hx1 by (destruct use; [exact (SetStart1_ok Hx Hs1)|exact (Start1_ok Hx Hs1)]). exact (proj2 (LD1_ok Hx1 EL)).
    - destruct use; [|exact (Hstart _ _ _ _ _ Hx Hs1)]. unfold SetStart1 in Hs1. change (F AX) with xr in Hs1.
      destruct (Nat.eqb_spec (List.length (map Fin init)) 4) as [Hl|]; cbn [negb] in Hs1; [|exact (Hstart _ _ _ _ _ Hx Hs1)].
      apply bind_Ok in Hs1. destruct Hs1 as ([lp b3] & EL3 & Hs1). destruct (LD1_ok Hx EL3) as [_ Hx3].
      destruct (negb _); [exact (Hstart _ _ _ _ _ Hx3 Hs1)|].
      apply bind_Ok in Hs1. destruct Hs1 as (c0 & _ & Hs1). apply bind_Ok in Hs1. destruct Hs1 as (c1 & _ & Hs1). apply bind_Ok in Hs1. destruct Hs1 as (c2 & _ & Hs1).
      apply bind_Ok in Hs1. destruct Hs1 as (c3 & _ & Hs1). cbv zeta in Hs1. apply bind_Ok in Hs1. destruct Hs1 as (b4 & _ & Hs1).
      apply (f_equal (fun q => match q with Ok q => fst (fst q) | _ => [] end)) in Hs1. cbn [fst] in Hs1. exists init. split; [symmetry; exact Hs1|]. rewrite map_length in Hl. exact Hl. }
  destruct (started_each (fun _ => None) (fun _ => None) (fun _ => None) HQ Hst Hok1) as (_ & Hall0 & _).
  assert (real_state 4 (1 / 4) (y_pars y0) (y_steps y0)) as Hreal.
  { split; [|rewrite Ess; intros i r' [Q|[]]; injection Q as _ <-; exact Hgr]. rewrite Ey0. constructor; [|constructor]. apply (Hall0 0%nat w0 eq_refl). left. reflexivity. }
  assert (forall k yk, sweeps (par1 R0 vsort) (@student_draw AX R0) k y0 yk -> real_state 4 (1 / 4) (y_pars yk) (y_steps yk)) as Hall.
  { intros k yk Hs. refine (sweeps_real (P := par1 R0 vsort) (draw := @student_draw AX R0) (tg := 1 / 4) _ Hmv Hs Hreal). lra. }
  split; [exact Er|]. split; [exact Hall|].
  assert (List.Forall (@inv AX _ (@okb AX _ st) (pld1 st)) (y_pars y0)) as Hi0.
  { rewrite Ey0. refine (@started_all _ _ _ (par1 R0 vsort) (@okb AX _ st) (pld1 st) Hld
      (fun x g v x' g' H E => Start1_ok H E) (fun x i g v x' g' H E => SetStart1_ok H E) _ _ _ _ _ _ _ Hst Hok1 _).
    intros j Hj. rewrite (map_len Ho) in Hj. left. cbn in *. lia. }
  intros i Hi. destruct Hrec as (L1 & _ & Hrec & _). destruct (Hrec i Hi) as (yi & wi & Hsi' & Hwi & Hvi & Hli).
  destruct (Hall _ _ Hsi') as [Hri _]. pose proof (proj1 (Forall_nth_error _ _) Hri _ _ Hwi) as (th & Eth & Hth).
  exists th, (w_logpost wi). rewrite <- Eth. split; [exact Hvi|]. split; [exact Hth|]. split; [exact Hli|]. intros Hfin.
  assert (List.Forall (@finw AX (base AX xr)) (y_pars y0)) as Hf0 by (rewrite Ey0; constructor; [exact Hfin|constructor]).
  pose proof (proj1 (Forall_nth_error _ _) (sweeps_fin (P := par1 R0 vsort) (ok := @okb AX _ st) (pld := pld1 st) Hld (fl_ratio finite_laws_AX) Hsi' Hi0 Hf0) _ _ Hwi) as F1.
  pose proof (proj1 (Forall_nth_error _ _) (sweeps_inv (P := par1 R0 vsort) (ok := @okb AX _ st) (pld := pld1 st) Hld Hsi' Hi0) _ _ Hwi) as [I1 I2].
  split; [exact F1|]. unfold pld1 in I2. pose proof (finite_prior finite_laws_AX I2 F1) as Hc. cbn [v_Check car1_cls] in Hc.
  assert (st_bounds st = mkB AX (Fin smax) (Fin fmax) (Fin fmin) false) as Ebd by (exact (proj2 (proj2 (proj2 (proj2 (proj2 Hb1)))))).
  destruct (@CheckPriorBounds1_main smax fmin fmax false th) as (bb & Ebb & Hiff); [rewrite Hth; apply le_n|].
  apply Hiff. pose proof (eq_trans (eq_sym Hc) (f_equal2 (fun bd v => CheckPriorBounds1 (A := AX) bd v) Ebd Eth)) as Q. pose proof (eq_trans Q Ebb) as Q2. injection Q2 as <-. reflexivity.
Qed.
Theorem car1_real N burnin thin (init : list R) raw v0 l0 a0 (g : gen R0) w g' : moves R0 4 ->
  RunCar1Sampler (R := R0) vsort si chol N burnin (map Fin t) (map Fin y) (map Fin e) thin (map Fin init) raw v0 l0 a0 g = Ok (w, g') ->
  exists b r y0 w0, begun (par1 R0 vsort) (map Fin init) [new_param b v0 l0 (fofZ AX 1) true "CAR(1)"] [SRam 0 r] g y0 /\ y_pars y0 = [w0] /\
    recorded (par1 R0 vsort) y0 burnin N thin w g' /\
    (forall k yk, sweeps (par1 R0 vsort) (@student_draw AX R0) k y0 yk -> sound_state 4 yk) /\
    forall i, (i < N)%nat -> exists th lp, nth_error (w_samples w) i = Some (map Fin th) /\ List.length th = 4%nat /\ nth_error (w_logposts w) i = Some lp /\
      (ffin AX (w_logpost w0) = true -> ffin AX lp = true /\ in_prior1 smax fmin fmax th).
Proof using HR Hvs Hsi Hch Hy He Ht Hne HB.
  intros Hmv E. destruct (car1_real_full Hmv E) as (b & r & y0 & w0 & H1 & H2 & H3 & _ & H4 & H5).
  exists b, r, y0, w0. split; [exact H1|]. split; [exact H2|]. split; [exact H3|]. split; [intros k yk Hs; apply real_sound, (H4 _ _ Hs)|exact H5].
Qed.
End RunReal.

(** A CARMA run on real data ends with a result, with the exception of a failed solve, or not at all (its while loop). *)
Section Outcomes.
Variable R0 : rng AX.
Hypothesis HR : valid_rng R0.
Variable dsort : list (F AX) -> option (list (F AX)).
Variable solve : list (list (cx AX)) -> list (cx AX) -> option (list (cx AX)).
Variable si : list (F AX) -> option (list nat).
Variable chol : mat AX -> option (mat AX).
Hypothesis Hds : valid_dsort dsort.
Hypothesis Hsi : valid_sort_index si.
Hypothesis Hch : valid_chol chol.
Variables t y e : list R.
Hypothesis Hy : List.length y = List.length t.
Hypothesis He : List.length e = List.length t.
Hypothesis Ht : strictly_increasing t.
Hypothesis Hne : exists a b, In a y /\ In b y /\ a <> b.
Theorem carma_outcomes_real fuel N burnin p q nw z thin init raw v0 l0 a0 (g : gen R0) :
  (2 <= p)%nat -> (z = true \/ (q < p)%nat) -> (0 < nw)%nat -> List.length v0 = walker_dim p q z ->
  let r := RunCarmaSampler (R := R0) dsort solve si chol fuel N burnin (map Fin t) (map Fin y) (map Fin e) p q nw z thin init raw v0 l0 a0 g in
  (exists w g', r = Ok (w, g')) \/ r = Throw Eruntime \/ r = Diverge.
Proof using All.
  intros Hp Hq Hnw Hv0. destruct (walker_prior Hsi Hy He Ht Hne raw z Hp) as (b & b1 & smax & fmin & fmax & Eb & Eb1 & Hb1 & HB).
  destruct (@chol_init chol (walker_dim p q z) y Hch Hne) as (L & ELc & HLc).
  refine (@carma_outcomes AX R0 dsort solve si chol fuel N burnin (map Fin t) (map Fin y) (map Fin e) p q nw z thin init raw v0 l0 a0 g b b1 (FinM L)
    (fun x => exists u, x = Fin u /\ 0 < u < 1) Hp Hq Hnw _ _ _ Eb Eb1 (vr_randu HR) _ ELc _ Hv0).
  - change (F AX) with xr. rewrite !map_length. exact Hy.
  - change (F AX) with xr. rewrite !map_length. exact He.
  - apply kept_distinct; [exact Hsi|apply increasing_NoDup, Ht].
  - intros mn l Hl Hlen Emn.
    assert (2 <= List.length t)%nat as H2 by exact (two_obs Hy Hne).
    assert (mn = Fin fmin) as ->.
    { pose proof (time_span H2 Ht HB Hb1) as Q. destruct Hb1 as (_ & Et & _). rewrite Et in Q. pose proof (eq_trans (eq_sym Emn) Q) as Q2. injection Q2 as ->. reflexivity. }
    assert (max_freq (b_bounds b1) = Fin fmax) as -> by (rewrite (proj2 (proj2 (proj2 (proj2 (proj2 Hb1))))); reflexivity).
    assert (List.Forall isF (map (log_grid AX (Fin fmax) (Fin fmin)) l)) as HF.
    { apply Forall_map. refine (Forall_impl _ _ Hl). intros x (u & -> & Hu). exact (posF_isF (gridF_pos H2 Ht HB (log_grid_Fin H2 Ht HB Hu))). }
    apply isF_map in HF. destruct HF as (rs & Ers). destruct (Hds rs) as (l' & El & Hpm & _).
    exists (map Fin l'). split; [exact (eq_trans (f_equal dsort Ers) El)|].
    pose proof (f_equal (@List.length _) Ers) as Q. rewrite !map_length in Q. change (F AX) with xr in *. rewrite map_length, Q. symmetry. exact (Permutation_length Hpm).
  - apply FinM_square, HLc.
Qed.
End Outcomes.
