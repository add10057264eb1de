(** Two CARMA processes with the same power spectrum have the same autocovariance function. *)
From Coq Require Import Reals List Arith Lra Lia FinFun Classical.
From Coquelicot Require Import Complex Coquelicot.
From Verif Require Import Spec Gauss SimProof SpecCarma CLin Spectrum SpectrumTop.
From Verif Require CarmaKernel.
Import ListNotations.
Local Open Scope C_scope.

(** ** Sums over lists of (coefficient, point) *)
Fixpoint lsum (g : C -> C) (l : list (C * C)) : C := match l with [] => 0 | (c, r) :: l => c * g r + lsum g l end.
Lemma lsum_app g l l' : lsum g (l ++ l') = lsum g l + lsum g l'.
Proof. induction l as [|[c r] l IH]; cbn [lsum app]; [ring|]. rewrite IH. ring. Qed.
Lemma lsum_ext g g' l : (forall c r, In (c, r) l -> g r = g' r) -> lsum g l = lsum g' l.
Proof.
  induction l as [|[c r] l IH]; intros H; cbn [lsum]; [reflexivity|]. rewrite (H c r) by (left; reflexivity). rewrite IH; [reflexivity|].
  intros c' r' Hi. apply (H c' r'). right. exact Hi.
Qed.
Lemma lsum_zero g l : (forall (c r : C), In (c, r) l -> c = 0) -> lsum g l = 0.
Proof.
  induction l as [|[c r] l IH]; intros H; cbn [lsum]; [reflexivity|]. rewrite (H c r) by (left; reflexivity). rewrite IH; [ring|].
  intros c' r' Hi. apply (H c' r'). right. exact Hi.
Qed.
Lemma lsum_map g (f : C -> C -> C) (h : C -> C) l : lsum g (map (fun x => (f (fst x) (snd x), h (snd x))) l) =
  lsum (fun x => x) (map (fun x => (RtoC 1, f (fst x) (snd x) * g (h (snd x)))) l).
Proof. induction l as [|[c r] l IH]; cbn [lsum map fst snd]; [reflexivity|]. rewrite IH. ring. Qed.
Lemma lsum_seq g (c r : nat -> C) n : lsum g (map (fun k => (c k, r k)) (seq 0 n)) = Csum (fun k => c k * g (r k)) n.
Proof.
  induction n as [|n IH]; [reflexivity|]. rewrite seq_S, map_app, lsum_app, IH. cbn [map lsum Csum Nat.add]. change (Csum (fun k => c k * g (r k)) n + c n * g (r n)) with (Csum (fun k => c k * g (r k)) n + c n * g (r n)). ring.
Qed.

Lemma group l : exists l', NoDup (map snd l') /\ incl (map snd l') (map snd l) /\ forall g, lsum g l' = lsum g l.
Proof.
  induction l as [|[c r] l (l' & Hn & Hi & Hs)]; [exists []; split; [constructor|split; [intros x []|reflexivity]]|].
  destruct (classic (In r (map snd l'))) as [H|H].
  - apply in_map_iff in H. destruct H as ([c' r'] & E & H). cbn [snd] in E. subst r'. apply in_split in H. destruct H as (a & b & ->).
    exists (a ++ (c' + c, r) :: b). rewrite map_app in *. cbn [map snd] in *. split; [exact Hn|]. split; [apply incl_tl; exact Hi|].
    intros g. cbn [lsum]. rewrite <- Hs, !lsum_app. cbn [lsum]. ring.
  - exists ((c, r) :: l'). cbn [map snd]. split; [constructor; assumption|]. split; [intros x [<-|Hx]; [left; reflexivity|right; apply Hi, Hx]|].
    intros g. cbn [lsum]. rewrite Hs. reflexivity.
Qed.

(** ** Partial fractions are linearly independent *)
Lemma far a x : (2 * Cmod a + 1 <= x)%R -> (Cmod (a / (RtoC x + a))%C <= 2 * Cmod a / x)%R.
Proof.
  intros H. pose proof (Cmod_ge_0 a) as Ha. assert (0 < x)%R as Hx by lra.
  assert (x / 2 <= Cmod (RtoC x + a)%C)%R as Hd.
  { pose proof (Cmod_triangle (RtoC x + a) (- a)) as T. replace (RtoC x + a + - a) with (RtoC x) in T by ring. rewrite Cmod_opp, Cmod_R, Rabs_pos_eq in T by lra. lra. }
  rewrite Cmod_div by (apply Cmod_gt_0; lra). unfold Rdiv. rewrite (Rmult_comm 2), Rmult_assoc. apply Rmult_le_compat_l; [exact Ha|].
  replace (2 * / x)%R with (/ (x / 2))%R by (field; lra). apply Rinv_le_contravar; lra.
Qed.
Lemma lsum_small l : exists K X, (0 <= K)%R /\ (0 < X)%R /\ forall x, (X <= x)%R -> (Cmod (lsum (fun a => (a / (RtoC x + a))%C) l) <= K / x)%R.
Proof.
  induction l as [|[c a] l (K & X & HK & HX & H)].
  - exists 0%R, 1%R. split; [lra|]. split; [lra|]. intros x Hx. cbn [lsum]. rewrite Cmod_0. unfold Rdiv. rewrite Rmult_0_l. lra.
  - pose proof (Cmod_ge_0 a). pose proof (Cmod_ge_0 c). exists (K + Cmod c * (2 * Cmod a))%R, (X + (2 * Cmod a + 1))%R.
    assert (0 <= Cmod c * (2 * Cmod a))%R by (apply Rmult_le_pos; lra). split; [lra|]. split; [lra|]. intros x Hx. cbn [lsum].
    eapply Rle_trans; [apply Cmod_triangle|]. rewrite Cmod_mult. specialize (H x ltac:(lra)). pose proof (far a x ltac:(lra)) as F.
    unfold Rdiv in *. rewrite Rmult_plus_distr_r, Rplus_comm. apply Rplus_le_compat; [exact H|]. rewrite Rmult_assoc. apply Rmult_le_compat_l; assumption.
Qed.
Lemma lsum_const_split l x a : (forall b, In b (map snd l) -> RtoC x + b <> 0) ->
  (RtoC x + a) * lsum (fun b => / (RtoC x + b)) l = lsum (fun _ => 1) l + lsum (fun b => / (RtoC x + b)) (map (fun y => (fst y * (a - snd y), snd y)) l).
Proof.
  induction l as [|[c b] l IH]; intros H; cbn [lsum map fst snd]; [ring|].
  rewrite Cmult_plus_distr_l, IH by (intros; apply H; right; assumption). cbn [fst snd].
  assert (RtoC x + b <> 0) as Hb by (apply H; left; reflexivity). set (S1 := lsum (fun _ => 1) l). set (S2 := lsum _ (map _ l)).
  replace ((RtoC x + a) * (c * / (RtoC x + b))) with (c * 1 + c * (a - b) * / (RtoC x + b)) by (field; exact Hb). ring.
Qed.
Lemma lsum_neg l x : (forall b, In b (map snd l) -> RtoC x + b <> 0) ->
  RtoC x * lsum (fun b => / (RtoC x + b)) l = lsum (fun _ => 1) l - lsum (fun b => b / (RtoC x + b)) l.
Proof.
  induction l as [|[c b] l IH]; intros H; cbn [lsum]; [ring|].
  rewrite Cmult_plus_distr_l, IH by (intros; apply H; right; assumption). assert (RtoC x + b <> 0) as Hb by (apply H; left; reflexivity).
  replace (RtoC x * (c * / (RtoC x + b))) with (c * 1 - c * (b / (RtoC x + b))) by (field; exact Hb). ring.
Qed.
Lemma total_zero l : (forall b x, In b (map snd l) -> (0 < x)%R -> RtoC x + b <> 0) ->
  (forall x, (0 < x)%R -> lsum (fun b => / (RtoC x + b)) l = 0) -> lsum (fun _ => 1) l = 0.
Proof.
  intros Hn Hz. destruct (lsum_small l) as (K & X & HK & HX & H). apply Cmod_eq_0. set (T := lsum (fun _ => 1) l) in *.
  destruct (Req_dec (Cmod T) 0) as [E|N]; [exact E|exfalso]. pose proof (Cmod_ge_0 T) as P.
  set (x := (X + 1 + K / Cmod T)%R). assert (0 <= K / Cmod T)%R by (apply Rmult_le_pos; [exact HK|left; apply Rinv_0_lt_compat; lra]).
  assert (0 < x)%R as Hx by (unfold x; lra). specialize (H x ltac:(unfold x; lra)).
  pose proof (lsum_neg l x (fun b Hb => Hn b x Hb Hx)) as E. rewrite Hz in E by exact Hx. fold T in E.
  assert (lsum (fun a => a / (RtoC x + a)) l = T) as ET.
  { replace (lsum (fun b => b / (RtoC x + b)) l) with (T - RtoC x * 0) by (rewrite E; ring). ring. }
  rewrite ET in H. assert (Cmod T * x <= K)%R as H1.
  { apply Rmult_le_compat_r with (r := x) in H; [|lra]. replace (K / x * x)%R with K in H by (field; lra). exact H. }
  assert (Cmod T * x = Cmod T * (X + 1) + K)%R as H2 by (unfold x; field; exact N).
  assert (0 < Cmod T * (X + 1))%R by (apply Rmult_lt_0_compat; lra). lra.
Qed.
Lemma pf_indep : forall l, NoDup (map snd l) -> (forall b x, In b (map snd l) -> (0 < x)%R -> RtoC x + b <> 0) ->
  (forall x, (0 < x)%R -> lsum (fun b => / (RtoC x + b)) l = 0) -> forall (c b : C), In (c, b) l -> c = 0.
Proof.
  intros l. remember (length l) as n eqn:En. revert l En. induction n as [|n IH]; intros l En Hd Hn Hz.
  { destruct l; [intros c b []|discriminate En]. }
  destruct l as [|[c a] l]; [discriminate En|]. cbn [map snd] in Hd. inversion_clear Hd as [|? ? Ha Hd']. 
  pose proof (total_zero _ Hn Hz) as HT. set (l2 := map (fun y => (fst y * (a - snd y), snd y)) l).
  assert (map snd l2 = map snd l) as E2 by (unfold l2; rewrite map_map; reflexivity).
  assert (forall (c' b' : C), In (c', b') l2 -> c' = 0) as H0.
  { apply IH; [unfold l2; rewrite map_length; injection En as ->; reflexivity|rewrite E2; exact Hd'|rewrite E2; intros; apply Hn; [right|]; assumption|].
    intros x Hx. pose proof (lsum_const_split ((c, a) :: l) x a (fun b Hb => Hn b x Hb Hx)) as E. rewrite Hz in E by exact Hx.
    rewrite HT in E. cbn [map lsum fst snd] in E. fold l2 in E.
    replace (lsum (fun b => / (RtoC x + b)) l2) with (0 + (c * (a - a) * / (RtoC x + a) + lsum (fun b => / (RtoC x + b)) l2)) by ring. rewrite <- E. ring. }
  assert (forall (c' b' : C), In (c', b') l -> c' = 0) as Hl.
  { intros c' b' Hi. assert (In (c' * (a - b'), b') l2) as Hi2.
    { unfold l2. apply in_map_iff. exists (c', b'). split; [reflexivity|exact Hi]. }
    apply H0 in Hi2. apply Cmult_integral in Hi2. destruct Hi2 as [E|E]; [exact E|exfalso]. apply Ha.
    replace a with (a - b' + b') by ring. rewrite E. replace (0 + b') with b' by ring. apply in_map_iff. exists (c', b'). split; [reflexivity|exact Hi]. }
  intros c' b' [E|Hi]; [|exact (Hl c' b' Hi)]. injection E as <- <-. cbn [lsum] in HT. rewrite (lsum_zero _ l Hl) in HT.
  replace c with (c * 1 + 0) by ring. exact HT.
Qed.

(** ** Sums of damped exponentials and their spectra *)
Lemma sq_inj (r s : C) : (fst r < 0)%R -> (fst s < 0)%R -> r * r = s * s -> r = s.
Proof.
  intros Hr Hs E. assert ((r - s) * (r + s) = 0) as E2 by (replace ((r - s) * (r + s)) with (r * r - s * s) by ring; rewrite E; ring).
  apply Cmult_integral in E2. destruct E2 as [E2|E2].
  - transitivity (r - s + s); [ring|]. rewrite E2. ring.
  - exfalso. apply (f_equal fst) in E2. simpl in E2. lra.
Qed.
Lemma sq_off (r : C) (x : R) : (fst r < 0)%R -> (0 < x)%R -> RtoC x + r * r <> 0.
Proof.
  intros Hr Hx E. destruct r as [a b]. cbn [fst] in Hr. pose proof (f_equal fst E) as E1. pose proof (f_equal snd E) as E2. simpl in E1, E2.
  assert (b = 0)%R as -> by nra. nra.
Qed.
Lemma ident l : (forall r, In r (map snd l) -> (fst r < 0)%R) ->
  (forall w : R, lsum (fun r => r / (RtoC (w * w) + r * r)) l = 0) -> forall g, lsum g l = 0.
Proof.
  intros Hre Hz g. destruct (group l) as (l' & Hd & Hi & Hs). rewrite <- Hs. apply lsum_zero.
  set (l2 := map (fun y => (fst y * snd y, snd y * snd y)) l').
  assert (map snd l2 = map (fun r => r * r) (map snd l')) as E2 by (unfold l2; rewrite !map_map; reflexivity).
  assert (forall r, In r (map snd l') -> (fst r < 0)%R) as Hre' by (intros r Hr; apply Hre, Hi, Hr).
  assert (forall (c b : C), In (c, b) l2 -> c = 0) as H0.
  { apply pf_indep.
    - rewrite E2. clear - Hd Hre'. induction (map snd l') as [|r m IH]; [constructor|]. inversion_clear Hd. cbn [map]. constructor.
      + intros Hc. apply in_map_iff in Hc. destruct Hc as (s & E & Hs). apply H. rewrite <- (sq_inj s r); [exact Hs| | |exact E]; apply Hre'; [right|left]; [exact Hs|reflexivity].
      + apply IH; [assumption|]. intros s Hs. apply Hre'. right. exact Hs.
    - intros b x Hb Hx. rewrite E2 in Hb. apply in_map_iff in Hb. destruct Hb as (r & <- & Hr). apply sq_off; [apply Hre', Hr|exact Hx].
    - intros x Hx. specialize (Hz (sqrt x)). rewrite sqrt_sqrt in Hz by lra. rewrite <- Hs in Hz. rewrite <- Hz.
      unfold l2. rewrite (lsum_map _ (fun c r => c * r) (fun r => r * r)). clear. induction l' as [|[c r] l' IH]; cbn [map lsum fst snd]; [reflexivity|].
      rewrite IH. unfold Cdiv. ring. }
  intros c r Hin. assert (In (c * r, r * r) l2) as Hin2 by (unfold l2; apply in_map_iff; exists (c, r); split; [reflexivity|exact Hin]).
  apply H0 in Hin2. apply Cmult_integral in Hin2. destruct Hin2 as [E|E]; [exact E|exfalso].
  assert (fst r < 0)%R as Hr by (apply Hre'; apply in_map_iff; exists (c, r); split; [reflexivity|exact Hin]). rewrite E in Hr. simpl in Hr. lra.
Qed.

Definition cflip (l : list (C * C)) : list (C * C) := map (fun y => (Cconj (fst y), Cconj (snd y))) l.
Lemma lsum_cflip g l : (forall r, g (Cconj r) = Cconj (g r)) -> lsum g (cflip l) = Cconj (lsum g l).
Proof.
  intros Hg. induction l as [|[c r] l IH]; cbn [cflip map lsum fst snd]; [symmetry; apply conj_R|].
  fold (cflip l). rewrite IH, conj_plus, conj_mult, Hg. reflexivity.
Qed.
Lemma ident_re l : (forall r, In r (map snd l) -> (fst r < 0)%R) ->
  (forall w : R, fst (lsum (fun r => r / (RtoC (w * w) + r * r)) l) = 0%R) ->
  forall g, (forall r, g (Cconj r) = Cconj (g r)) -> fst (lsum g l) = 0%R.
Proof.
  intros Hre Hz g Hg.
  assert (forall g, (forall r, g (Cconj r) = Cconj (g r)) -> lsum g (l ++ cflip l) = RtoC (2 * fst (lsum g l))) as K.
  { intros g' Hg'. rewrite lsum_app, lsum_cflip by exact Hg'. apply C_eq; simpl; ring. }
  assert (lsum g (l ++ cflip l) = 0) as E.
  { apply ident.
    - intros r Hr. rewrite map_app in Hr. apply in_app_iff in Hr. destruct Hr as [Hr|Hr]; [apply Hre, Hr|].
      unfold cflip in Hr. rewrite map_map in Hr. apply in_map_iff in Hr. destruct Hr as ([c s] & <- & Hr). cbn [snd].
      assert (fst s < 0)%R as H by (apply Hre; apply in_map_iff; exists (c, s); split; [reflexivity|exact Hr]). exact H.
    - intros w. rewrite K; [rewrite Hz; apply C_eq; simpl; ring|]. intros r. rewrite conj_div, conj_plus, conj_mult, conj_R. reflexivity. }
  rewrite K in E by exact Hg. apply (f_equal fst) in E. simpl in E. lra.
Qed.

(** ** The spectrum of a sum of damped exponentials *)
Lemma fst_Cplus (a b : C) : fst (a + b) = (fst a + fst b)%R.
Proof. reflexivity. Qed.
Section Terms.
Variables (n : nat) (c s : nat -> C).
Hypothesis Hs : forall i, (i < n)%nat -> (fst (s i) < 0)%R.
Let hc i := RtoC (/ 2) * c i.
Let sm (w : R) i := s i - (0, w)%R.
Let sp (w : R) i := s i + (0, w)%R.
Lemma sm_re w i : (i < n)%nat -> (fst (sm w i) < 0)%R.
Proof. intros Hi. pose proof (Hs i Hi). unfold sm. simpl. lra. Qed.
Lemma sp_re w i : (i < n)%nat -> (fst (sp w i) < 0)%R.
Proof. intros Hi. pose proof (Hs i Hi). unfold sp. simpl. lra. Qed.
Lemma Cexp_pm w x : RtoC (cos (w * x)) = RtoC (/ 2) * (Cexp (- (0, w)%R * RtoC x) + Cexp ((0, w)%R * RtoC x)).
Proof.
  apply C_eq; simpl.
  - replace (- 0 * x - - w * 0)%R with 0%R by ring. replace (0 * x - w * 0)%R with 0%R by ring. rewrite exp_0.
    replace (- 0 * 0 + - w * x)%R with (- (w * x))%R by ring. replace (0 * 0 + w * x)%R with (w * x)%R by ring. rewrite cos_neg. field.
  - replace (- 0 * x - - w * 0)%R with 0%R by ring. replace (0 * x - w * 0)%R with 0%R by ring. rewrite exp_0.
    replace (- 0 * 0 + - w * x)%R with (- (w * x))%R by ring. replace (0 * 0 + w * x)%R with (w * x)%R by ring. rewrite cos_neg, sin_neg. field.
Qed.
Lemma esum_cos w x : (esum n c s x * cos (w * x) = esum n hc (sm w) x + esum n hc (sp w) x)%R.
Proof.
  unfold esum. rewrite <- !fst_Csum.
  transitivity (fst (RtoC (cos (w * x)) * Csum (fun i => c i * Cexp (s i * RtoC x)) n)); [simpl; ring|].
  rewrite <- Csum_scal. rewrite <- fst_Cplus. rewrite <- Csum_plus. f_equal. apply Csum_ext. intros i _.
  rewrite Cexp_pm. unfold sm, sp, hc.
  replace ((s i - (0, w)%R) * RtoC x) with (s i * RtoC x + - (0, w)%R * RtoC x) by ring.
  replace ((s i + (0, w)%R) * RtoC x) with (s i * RtoC x + (0, w)%R * RtoC x) by ring. rewrite !Cexp_plus. ring.
Qed.
Lemma den_nz w i : (i < n)%nat -> RtoC (w * w) + s i * s i <> 0.
Proof.
  intros Hi E. pose proof (Hs i Hi) as H. destruct (s i) as [a b]. simpl in H. pose proof (f_equal fst E) as E1. pose proof (f_equal snd E) as E2. simpl in E1, E2.
  assert (b = 0)%R as -> by nra. nra.
Qed.
Lemma terms_transform w : whole_line (fun t => esum n c s (Rabs t) * cos (w * t))%R
  (-2 * fst (Csum (fun i => (c i * (s i / (RtoC (w * w) + s i * s i)))%C) n))%R.
Proof.
  set (Phi := fun x => (eprim n hc (sm w) x + eprim n hc (sp w) x)%R).
  assert (-2 * fst (Csum (fun i => (c i * (s i / (RtoC (w * w) + s i * s i)))%C) n) = 2 * (0 - Phi 0))%R as ->.
  { unfold Phi. rewrite !eprim_0 by (first [apply sm_re|apply sp_re]). rewrite <- fst_Cplus. rewrite <- Csum_plus.
    replace (Csum (fun i => hc i / sm w i + hc i / sp w i) n) with (Csum (fun i => c i * (s i / (RtoC (w * w) + s i * s i))) n); [ring|].
    apply Csum_ext. intros i Hi. unfold hc.
    assert (RtoC (w * w) + s i * s i = sm w i * sp w i) as Ed.
    { unfold sm, sp. destruct (s i) as [a b]. apply C_eq; simpl; ring. }
    pose proof (den_nz w i Hi) as Hn. rewrite Ed in *. assert (sm w i <> 0) as N1 by (intros E; apply Hn; rewrite E; ring).
    assert (sp w i <> 0) as N2 by (intros E; apply Hn; rewrite E; ring).
    assert (s i = RtoC (/ 2) * (sm w i + sp w i)) as Es by (unfold sm, sp; destruct (s i) as [a b]; apply C_eq; simpl; field).
    rewrite Es at 1. field. split; assumption. }
  apply (gen_even _ Phi (fun x => esum n hc (sm w) x + esum n hc (sp w) x)%R (fun x => ederi n hc (sm w) x + ederi n hc (sp w) x)%R).
  - intros x. apply (is_derive_plus (V := R_NormedModule)); apply eprim_derive; intros i Hi; [apply sm_re|apply sp_re]; exact Hi.
  - intros x. apply (is_derive_plus (V := R_NormedModule)); apply esum_derive.
  - replace 0%R with (0 + 0)%R by ring. apply is_lim_plus'; apply eprim_lim; intros i Hi; [apply sm_re|apply sp_re]; exact Hi.
  - intros x Hx. rewrite <- esum_cos, Rabs_Ropp, Rabs_pos_eq by lra. split; [reflexivity|]. replace (w * - x)%R with (- (w * x))%R by ring. rewrite cos_neg. reflexivity.
Qed.
End Terms.

(** ** The terms of a CARMA autocovariance *)
Definition tcoef (sig : R) (ma : list R) (om : list C) (k : nat) : C :=
  RtoC sig * (ma_poly ma (nth k om 0) * ma_poly ma (- nth k om 0)) / carma_denom om k.
Definition terms (sig : R) (ma : list R) (om : list C) : list (C * C) :=
  map (fun k => (tcoef sig ma om k, nth k om 0)) (seq 0 (length om)).
Lemma acv_terms sig ma om tau : carma_acv sig ma om tau = fst (lsum (fun r => Cexp (r * RtoC tau)) (terms sig ma om)).
Proof.
  unfold terms. rewrite lsum_seq. unfold carma_acv, tcoef.
  transitivity (fst (RtoC sig * Csum (fun k => ma_poly ma (nth k om 0) * ma_poly ma (- nth k om 0) * Cexp (nth k om 0 * RtoC tau) / carma_denom om k) (length om))); [simpl; ring|].
  rewrite <- Csum_scal. f_equal. apply Csum_ext. intros k _. unfold Cdiv. ring.
Qed.
Lemma psd_terms sig ma om f : stable_roots om -> om <> [] -> (length ma <= length om)%nat ->
  carma_psd sig ma om f = (-2 * fst (lsum (fun r => (r / (RtoC ((2 * PI * f) * (2 * PI * f)) + r * r))%C) (terms sig ma om)))%R.
Proof.
  intros Hst Hne Hl. destruct (proj1 (wiener_khinchin sig om ma Hst Hne Hl) f) as [Hc _].
  assert (forall i, (i < length om)%nat -> (fst (nth i om 0) < 0)%R) as Hre by (intros i Hi; apply (proj1 (proj2 Hst)), nth_In, Hi).
  pose proof (terms_transform (length om) (tcoef sig ma om) (fun i => nth i om 0) Hre (2 * PI * f)) as Ht.
  unfold terms. rewrite lsum_seq. 
  assert (whole_line (fun t => carma_acv sig ma om (Rabs t) * cos (2 * PI * f * t))%R (-2 * fst (Csum (fun i => (tcoef sig ma om i * (nth i om 0 / (RtoC (2 * PI * f * (2 * PI * f)) + nth i om 0 * nth i om 0)))%C) (length om)))%R) as Ht'.
  { eapply is_RInt_gen_ext; [|exact Ht]. apply filter_forall. intros ab x _. cbv beta. f_equal. rewrite acv_terms. unfold terms. rewrite lsum_seq. unfold esum. rewrite <- fst_Csum. reflexivity. }
  pose proof (is_RInt_gen_unique (V := R_CompleteNormedModule) _ _ Hc) as U1. pose proof (is_RInt_gen_unique (V := R_CompleteNormedModule) _ _ Ht') as U2.
  rewrite <- U1, <- U2. reflexivity.
Qed.

(** ** The autocovariance is determined by the spectrum, and the other way round *)
Definition tneg (l : list (C * C)) : list (C * C) := map (fun y => (- fst y, snd y)) l.
Lemma lsum_tneg g l : lsum g (tneg l) = - lsum g l.
Proof. induction l as [|[c r] l IH]; cbn [tneg map lsum fst snd]; [ring|]. fold (tneg l). rewrite IH. ring. Qed.
Theorem psd_acv sig1 ma1 om1 sig2 ma2 om2 :
  stable_roots om1 -> om1 <> [] -> (length ma1 <= length om1)%nat -> stable_roots om2 -> om2 <> [] -> (length ma2 <= length om2)%nat ->
  (forall f, carma_psd sig1 ma1 om1 f = carma_psd sig2 ma2 om2 f) <-> (forall tau, (0 <= tau)%R -> carma_acv sig1 ma1 om1 tau = carma_acv sig2 ma2 om2 tau).
Proof.
  intros H1 N1 L1 H2 N2 L2. split.
  - intros E tau _. rewrite !acv_terms. set (g := fun r => Cexp (r * RtoC tau)).
    assert (forall sig ma om r, stable_roots om -> In r (map snd (terms sig ma om)) -> (fst r < 0)%R) as Hin.
    { intros sig ma om r (_ & Hre & _) Hr. unfold terms in Hr. rewrite map_map in Hr. cbn [snd] in Hr. apply in_map_iff in Hr.
      destruct Hr as (k & <- & Hk). apply in_seq in Hk. apply Hre, nth_In. lia. }
    assert (fst (lsum g (terms sig1 ma1 om1 ++ tneg (terms sig2 ma2 om2))) = 0%R) as Z.
    { apply ident_re.
      - intros r Hr. rewrite map_app in Hr. apply in_app_iff in Hr. destruct Hr as [Hr|Hr]; [exact (Hin sig1 ma1 om1 r H1 Hr)|].
        unfold tneg in Hr. rewrite map_map in Hr. cbn [snd] in Hr. exact (Hin sig2 ma2 om2 r H2 Hr).
      - intros w. specialize (E (w / (2 * PI))%R). rewrite !psd_terms in E by assumption. pose proof PI_RGT_0.
        replace (2 * PI * (w / (2 * PI)))%R with w in E by (field; lra). rewrite lsum_app, lsum_tneg. simpl. lra.
      - intros r. unfold g. apply C_eq; simpl; replace (fst r * tau - - snd r * 0)%R with (fst r * tau - snd r * 0)%R by ring;
        replace (fst r * 0 + - snd r * tau)%R with (- (fst r * 0 + snd r * tau))%R by ring; rewrite ?cos_neg, ?sin_neg; ring. }
    rewrite lsum_app, lsum_tneg in Z. simpl in Z. lra.
  - intros E f. destruct (proj1 (wiener_khinchin sig1 om1 ma1 H1 N1 L1) f) as [A _]. destruct (proj1 (wiener_khinchin sig2 om2 ma2 H2 N2 L2) f) as [B _].
    assert (whole_line (fun t => carma_acv sig2 ma2 om2 (Rabs t) * cos (2 * PI * f * t))%R (carma_psd sig1 ma1 om1 f)) as A'.
    { eapply is_RInt_gen_ext; [|exact A]. apply filter_forall. intros ab x _. cbv beta. rewrite E by apply Rabs_pos. reflexivity. }
    pose proof (is_RInt_gen_unique (V := R_CompleteNormedModule) _ _ A') as U1. pose proof (is_RInt_gen_unique (V := R_CompleteNormedModule) _ _ B) as U2.
    rewrite <- U1, <- U2. reflexivity.
Qed.
