(** What StartingValue() of the CARp, ZCAR and CARMA classes draws, and when its loop ends. *)
From Coq Require Import Reals List Arith ZArith Bool String Lra Lia Permutation.
From Coquelicot Require Import Complex.
From Verif Require Import Arith Res ListLemmas KFModel KF1Proof Spec Gauss Emb History InitProof OUpd SimProof KF1R KF1X KF1Main KF1More.
From Verif Require Import Cx CLin SpecCarma KFpModel KFpProof KFpX KFpMain KFpTop SpecModel CarpackModel RootsProof PriorProof LogLikProof LogLikMain CarpackTop CarpackRefute.
From Verif Require Import EngineModel StartModel EngineSpec EngineProof EngineInv EngineClass EngineDriver EngineTop StartProof TotalProof TotalClass TotalTop EngineAX Start1Proof StartTop SeedProof EngineRuns SeedRefute EngineReal.
Import ListNotations.
Local Open Scope R_scope.
Local Notation length := List.length.

Set Implicit Arguments.
Unset Strict Implicit.

(** ** Specification *)
(** consecutive results of a generator *)
Inductive taken {G : Type} (f : G -> xr * G) : G -> list R -> G -> Prop :=
| tk_nil g : taken f g [] g
| tk_cons g x g1 l g2 : f g = (Fin x, g1) -> taken f g1 l g2 -> taken f g (x :: l) g2.
(** log-uniform between fmin and fmax *)
Definition between (fmin fmax u : R) : R := fmin * exp (u * ln (fmax / fmin)).
(** the pair of roots of a Lorentzian with centroid c and width w, and the coordinates that encode it *)
Definition lorentz (c w : R) : list C := [(- (2 * PI * w), - (2 * PI * c)); (- (2 * PI * w), 2 * PI * c)].
Definition coded (c w : R) : list R := [ln ((2 * PI * w) ^ 2 + (2 * PI * c) ^ 2); ln (4 * PI * w)].

(** one candidate: its roots om, its parameter vector th, the generators afterwards *)
Definition candidate (R0 : rng AX) (extra : gen R0 -> list R -> gen R0 -> Prop) (p : nat) (y : list R) (fmin fmax : R)
    (g : gen R0) (th : list R) (om : list C) (g' : gen R0) : Prop :=
  exists u1 a1 u2 a2 c w wl gb1 ex gx a3 c1 gb2 sd mu gb3 c2 gb4,
    taken (a_randu R0) (snd g) u1 a1 /\ length u1 = ((p + 1) / 2)%nat /\
    Permutation (map (between fmin fmax) u1) c /\ nondecreasing (rev c) /\
    taken (a_randu R0) a1 u2 a2 /\ length u2 = ((p + 1) / 2)%nat /\ w = map (between fmin fmax) u2 /\
    (if Nat.odd p then exists u, b_uniform R0 (Fin (ln fmin)) (Fin (ln (nth (p / 2 - 1) c 0))) (fst g) = (Fin u, gb1) /\ wl = exp u
     else gb1 = fst g) /\
    extra (gb1, a2) ex (gx, a3) /\
    b_chisqr R0 (Z.of_nat (length y) - 1) gx = (Fin c1, gb2) /\ sd = sqrt (svar y / c1 * (INR (length y) - 1)) /\
    b_normal R0 (Fin (smean y)) (Fin (sd / INR (length y))) gb2 = (Fin mu, gb3) /\
    b_chisqr R0 50 gb3 = (Fin c2, gb4) /\
    om = flat_map (fun i => lorentz (nth i c 0) (nth i w 0)) (seq 0 (p / 2)) ++ (if Nat.odd p then [(- (2 * PI * wl), 0)] else []) /\
    th = [sd; Rmax (Rmin (1 / c2 * 50) (199 / 100)) (51 / 100); mu] ++
         flat_map (fun i => coded (nth i c 0) (nth i w 0)) (seq 0 (p / 2)) ++ (if Nat.odd p then [ln (2 * PI * wl)] else []) ++ ex /\
    g' = (gb4, a3).

(** what is drawn after the autoregressive coordinates *)
Definition ma_extra (R0 : rng AX) (q : nat) (g : gen R0) (ex : list R) (g' : gen R0) : Prop :=
  exists z, taken (a_randn R0) (snd g) z (snd g') /\ fst g' = fst g /\ length z = q /\ ex = map Rabs z.
(** ZCARMA: the logit of a uniform variate strictly between 0 and 1 *)
Definition kappa_extra (R0 : rng AX) (g : gen R0) (ex : list R) (g' : gen R0) : Prop :=
  exists u, b_uniform R0 (Fin 0) (Fin 1) (fst g) = (Fin u, fst g') /\ snd g' = snd g /\ 0 < u < 1 /\ ex = [ln (u / (1 - u))].

(** the first acceptable candidate is the n-th; candidates are drawn one after the other *)
Inductive first_good {G : Type} (cand : G -> list R -> list C -> G -> Prop) (good : list R -> list C -> Prop) : nat -> G -> list R -> G -> Prop :=
| fg_now g th om g' : cand g th om g' -> NoDup om -> good th om -> first_good cand good 1 g th g'
| fg_later n g th om g1 th' g' : cand g th om g1 -> NoDup om -> ~ good th om -> first_good cand good n g1 th' g' -> first_good cand good (S n) g th' g'.

(** ** Lists *)
Lemma sorted_unique (l : list R) : forall l', Permutation l l' -> nondecreasing l -> nondecreasing l' -> l = l'.
Proof.
  assert (forall (a : R) r, nondecreasing (a :: r) -> nondecreasing r) as Tl.
  { intros a r H i j Hi Hj. exact (H (S i) (S j) ltac:(lia) ltac:(cbn; lia)). }
  assert (forall (a : R) r x, nondecreasing (a :: r) -> In x (a :: r) -> a <= x) as Hd.
  { intros a r x H [<-|Hx]; [lra|]. apply (In_nth _ _ 0) in Hx. destruct Hx as (i & Hi & <-). exact (H 0%nat (S i) ltac:(lia) ltac:(cbn; lia)). }
  induction l as [|a r IH]; intros [|b r'] Hp H H'; [reflexivity|apply Permutation_nil in Hp; discriminate|apply Permutation_sym, Permutation_nil in Hp; discriminate|].
  assert (a = b) as <-.
  { apply Rle_antisym; [apply (Hd a r); [exact H|apply (Permutation_in _ (Permutation_sym Hp)); left; reflexivity]|].
    apply (Hd b r'); [exact H'|apply (Permutation_in _ Hp); left; reflexivity]. }
  f_equal. apply IH; [exact (Permutation_cons_inv Hp)|exact (Tl _ _ H)|exact (Tl _ _ H')].
Qed.
Lemma upd_mid T (l : list T) x r v : upd (l ++ x :: r) (length l) v = l ++ v :: r.
Proof. induction l as [|a l IH]; [reflexivity|]. cbn [app length upd]. f_equal. exact IH. Qed.
Lemma map_upd T U (h : T -> U) l i v : map h (upd l i v) = upd (map h l) i (h v).
Proof. revert i. induction l as [|a l IH]; intros i; [reflexivity|]. destruct i; cbn [upd map]; [reflexivity|]. f_equal. apply IH. Qed.
Lemma flat_len T (f : nat -> list T) : (forall i, length (f i) = 2%nat) -> forall k a, length (flat_map f (seq a k)) = (2 * k)%nat.
Proof. intros H. induction k as [|k IH]; intros a; [reflexivity|]. cbn [seq flat_map]. rewrite app_length, H, IH. lia. Qed.
Lemma flat_S T (f : nat -> list T) k : flat_map f (seq 0 (S k)) = flat_map f (seq 0 k) ++ f k.
Proof. rewrite seq_S, flat_map_app. cbn [flat_map]. rewrite app_nil_r. reflexivity. Qed.
Lemma map_flat T U (h : T -> U) (f : nat -> list T) l : map h (flat_map f l) = flat_map (fun i => map h (f i)) l.
Proof. induction l as [|a l IH]; [reflexivity|]. cbn [flat_map]. rewrite map_app, IH. reflexivity. Qed.

(** ** Numbers *)
Lemma between_range fmin fmax u : 0 < fmin -> fmin < fmax -> 0 < u < 1 -> fmin < between fmin fmax u < fmax.
Proof.
  intros H1 H2 Hu. assert (1 < fmax / fmin) as Hq by (apply Rmult_lt_reg_r with fmin; [exact H1|]; unfold Rdiv; rewrite Rmult_assoc, Rinv_l by lra; lra).
  assert (0 < ln (fmax / fmin)) as Hl by (rewrite <- ln_1; apply ln_increasing; lra).
  assert (1 < exp (u * ln (fmax / fmin)) < fmax / fmin) as [B1 B2].
  { split; [rewrite <- exp_0; apply exp_increasing; nra|]. rewrite <- (exp_ln (fmax / fmin)) at 2 by lra. apply exp_increasing. nra. }
  unfold between. split; [nra|]. replace fmax with (fmin * (fmax / fmin)) at 2 by (field; lra). apply Rmult_lt_compat_l; assumption.
Qed.
Lemma log_grid_between fmin fmax u : 0 < fmin -> 0 < fmax -> log_grid AX (Fin fmax) (Fin fmin) (Fin u) = Fin (between fmin fmax u).
Proof.
  intros H1 H2. unfold log_grid. change (fdiv AX (Fin fmax) (Fin fmin)) with (xdiv (Fin fmax) (Fin fmin)). rewrite fin_div by lra.
  assert (0 < fmax / fmin) by (apply Rdiv_lt_0_compat; lra). change (flog AX) with xlog. rewrite !fin_log by assumption.
  change (Fin (exp (ln (fmax / fmin) * u + ln fmin)) = Fin (between fmin fmax u)). f_equal. unfold between. rewrite exp_plus, exp_ln by exact H1. rewrite Rmult_comm. f_equal. f_equal. ring.
Qed.
Lemma rpair_coded c w : 0 <= c -> 0 < w -> rpair (nth 0 (coded c w) 0) (nth 1 (coded c w) 0) = lorentz c w.
Proof.
  intros Hc Hw. pose proof PI_RGT_0 as HP. cbn [nth coded]. unfold rpair, lorentz. cbv zeta.
  assert (0 < (2 * PI * w) ^ 2 + (2 * PI * c) ^ 2) as H1 by (assert (0 < 2 * PI * w) by nra; nra). rewrite !exp_ln by nra.
  replace (4 * PI * w * (4 * PI * w) - 4 * ((2 * PI * w) ^ 2 + (2 * PI * c) ^ 2)) with (- ((4 * PI * c) * (4 * PI * c))) by ring.
  destruct (Rlt_dec 0 (- (4 * PI * c * (4 * PI * c)))) as [H|_]; [exfalso; nra|]. rewrite Ropp_involutive, sqrt_square by nra.
  f_equal; [|f_equal]; apply C_eq; cbn [fst snd]; field.
Qed.
Lemma qloop_shift (pre : list R) th k : forall off, qloop (pre ++ th) (length pre + off) k = qloop th off k.
Proof.
  induction k as [|k IH]; intros off; [reflexivity|]. cbn [qloop]. replace (length pre + off + 2)%nat with (length pre + (off + 2))%nat by lia. rewrite IH. f_equal.
  rewrite !app_nth2 by lia. f_equal; f_equal; lia.
Qed.
Lemma qloop_coded (c w : nat -> R) rest k : forall a, (forall i, (a <= i < a + k)%nat -> 0 <= c i /\ 0 < w i) ->
  qloop (flat_map (fun i => coded (c i) (w i)) (seq a k) ++ rest) 0 k = flat_map (fun i => lorentz (c i) (w i)) (seq a k).
Proof.
  induction k as [|k IH]; intros a H; [reflexivity|]. cbn [seq flat_map qloop]. rewrite <- app_assoc.
  destruct (H a ltac:(lia)) as [H1 H2]. f_equal; [exact (rpair_coded H1 H2)|].
  exact (eq_trans (qloop_shift (coded (c a) (w a)) _ k 0) (IH (S a) (fun i Hi => H i ltac:(lia)))).
Qed.

Lemma taken_draws (R0 : rng AX) (f : Ga R0 -> F AX * Ga R0) (a : Ga R0) l a' : taken f a l a' ->
  forall b, draws (length l) (on_a (R := R0) f) (b, a) = (map Fin l, (b, a')).
Proof.
  intros H. induction H as [g|g x g1 l g2 E H IH]; intros b; [reflexivity|]. cbn [length draws]. unfold on_a at 1. cbn [fst snd]. rewrite E, IH. reflexivity.
Qed.
Lemma taken_exists (G : Type) (f : G -> xr * G) (Q : R -> Prop) : (forall g, exists x, fst (f g) = Fin x /\ Q x) ->
  forall n g, exists l g', taken f g l g' /\ length l = n /\ List.Forall Q l.
Proof.
  intros H. induction n as [|n IH]; intros g; [exists [], g; repeat constructor|]. destruct (H g) as (x & Ex & Hx). destruct (f g) as [z g1] eqn:E. cbn [fst] in Ex. subst z.
  destruct (IH g1) as (l & g2 & H1 & H2 & H3). exists (x :: l), g2. split; [econstructor; eassumption|]. split; [cbn; lia|constructor; assumption].
Qed.
Lemma taken_all (G : Type) (f : G -> xr * G) (Q : R -> Prop) : (forall g, exists x, fst (f g) = Fin x /\ Q x) -> forall g l g', taken f g l g' -> List.Forall Q l.
Proof.
  intros H g l g' T. induction T as [|g x g1 l g2 E _ IH]; [constructor|]. constructor; [|exact IH]. destruct (H g) as (x' & Ex & Hx). rewrite E in Ex. injection Ex as ->. exact Hx.
Qed.

(** ** One pass *)
Section Law.
Variable R0 : rng AX.
Hypothesis HR : valid_rng R0.
Variable dsort : list (F AX) -> option (list (F AX)).
Hypothesis Hds : valid_dsort dsort.
Variables t y e : list R.
Hypothesis Ht : strictly_increasing t.
Hypothesis H3 : (3 <= length t)%nat.
Variables smax fmin fmax : R.
Hypothesis HB : run_bounds t y smax fmin fmax.

Lemma Hlen2 : (2 <= length t)%nat. Proof using H3. lia. Qed.
Lemma fpos : 0 < fmin. Proof using HB Ht H3. exact (fmin_pos Hlen2 Ht HB). Qed.
Lemma flt' : fmin < fmax. Proof using HB Ht H3. exact (proj2 (fmin_fmax Hlen2 Ht HB) H3). Qed.

Section P.
Variable p : nat.
Hypothesis Hp : (2 <= p)%nat.
Let h := ((p + 1) / 2)%nat.
Let k := (p / 2)%nat.
Lemma hk : (1 <= k)%nat /\ h = (k + if Nat.odd p then 1 else 0)%nat /\ p = (2 * k + if Nat.odd p then 1 else 0)%nat.
Proof using Hp H3.
  assert (p = 2 * k + if Nat.odd p then 1 else 0)%nat as E.
  { unfold k. rewrite (Nat.div2_odd p) at 1. rewrite Nat.div2_div. destruct (Nat.odd p); reflexivity. }
  split; [destruct (Nat.odd p); lia|]. split; [|exact E]. unfold h. destruct (Nat.odd p).
  - replace (p + 1)%nat with ((k + 1) * 2)%nat by lia. apply Nat.div_mul. lia.
  - replace (p + 1)%nat with (1 + k * 2)%nat by lia. rewrite Nat.div_add by lia. change (1 / 2)%nat with 0%nat. lia.
Qed.

Lemma StartingAR_cand (b : base AX (kpx AX)) sm (g : gen R0) u1 a1 u2 a2 c wl gb1 :
  base_holds b t y e (mkB AX sm (Fin fmax) (Fin fmin) false) ->
  taken (a_randu R0) (snd g) u1 a1 -> length u1 = h ->
  Permutation (map (between fmin fmax) u1) c -> nondecreasing (rev c) ->
  taken (a_randu R0) a1 u2 a2 -> length u2 = h ->
  (if Nat.odd p then exists u, b_uniform R0 (Fin (ln fmin)) (Fin (ln (nth (k - 1) c 0))) (fst g) = (Fin u, gb1) /\ wl = exp u else gb1 = fst g) ->
  StartingAR (R := R0) dsort p b g =
    Ok (map Fin (flat_map (fun i => coded (nth i c 0) (nth i (map (between fmin fmax) u2) 0)) (seq 0 k) ++ (if Nat.odd p then [ln (2 * PI * wl)] else [])), (gb1, a2)).
Proof using HR Hds HB Ht H3 Hp.
  intros Hb T1 L1 Hperm Hsort T2 L2 Hlast. pose proof fpos as Hf. pose proof flt' as Hff. destruct hk as (Hk1 & Hh & Hpk).
  assert (forall g, exists x, fst (a_randu R0 g) = Fin x /\ 0 < x < 1) as HU by exact (vr_randu HR).
  pose proof (taken_all HU T1) as Q1. pose proof (taken_all HU T2) as Q2.
  pose proof (time_span Hlen2 Ht HB Hb) as Hsp. pose proof Hb as (_ & _ & _ & _ & _ & Eb). unfold StartingAR.
  destruct (vmax AX (b_time b)) as [hi|?| |] eqn:Ehi; try discriminate. destruct (vmin AX (b_time b)) as [lo|?| |] eqn:Elo; try discriminate.
  cbn [bind] in Hsp |- *. assert (fdiv AX (fofZ AX 1) (fsub AX hi lo) = Fin fmin) as Hsp1 by (exact (f_equal (fun r => match r with Ok x => x | _ => Fin fmin end) Hsp)).
  cbv zeta. rewrite Hsp1, Eb. cbn [max_freq]. fold h k.
  assert (forall us : list R, map (log_grid AX (Fin fmax) (Fin fmin)) (map Fin us) = map Fin (map (between fmin fmax) us)) as Hgrid.
  { intros us. rewrite !map_map. apply map_ext. intros u. apply log_grid_between; lra. }
  pose proof (taken_draws T1 (fst g)) as D1. destruct g as [gb a0]. cbn [fst snd] in *. rewrite L1 in D1. rewrite D1. change (F AX) with xr in *. rewrite Hgrid.
  destruct (Hds (map (between fmin fmax) u1)) as (c' & Ec & Hp' & Hs'). change (F AX) with xr in *. rewrite Ec.
  assert (c' = c) as ->.
  { assert (rev c' = rev c) as E; [|rewrite <- (rev_involutive c'), E; apply rev_involutive].
    apply sorted_unique; [|exact Hs'|exact Hsort]. rewrite <- !Permutation_rev. rewrite <- Hp'. exact Hperm. }
  clear Hp' Hs' Ec. pose proof (taken_draws T2 gb) as D2. rewrite L2 in D2. change (F AX) with xr in D2. rewrite D2. rewrite Hgrid. set (w := map (between fmin fmax) u2).
  assert (length c = h) as Lc by (rewrite <- (Permutation_length Hperm), map_length; exact L1). assert (length w = h) as Lw by (unfold w; rewrite map_length; exact L2).
  assert (List.Forall (fun x => fmin < x < fmax) c) as Fc.
  { refine (Permutation_Forall Hperm _). apply Forall_map. refine (Forall_impl _ _ Q1). intros u Hu. apply between_range; assumption. }
  assert (List.Forall (fun x => fmin < x < fmax) w) as Fw.
  { unfold w. apply Forall_map. refine (Forall_impl _ _ Q2). intros u Hu. apply between_range; assumption. }
  assert (forall i, (i < h)%nat -> fmin < nth i c 0 < fmax) as Nc by (intros i Hi; exact (proj1 (Forall_forall _ _) Fc _ (nth_In c 0 (eq_ind_r (fun n => (i < n)%nat) Hi Lc)))).
  assert (forall i, (i < h)%nat -> fmin < nth i w 0 < fmax) as Nw by (intros i Hi; exact (proj1 (Forall_forall _ _) Fw _ (nth_In w 0 (eq_ind_r (fun n => (i < n)%nat) Hi Lw)))).
  set (cent := if Nat.odd p then upd c k 0 else c). set (wid := if Nat.odd p then upd w k wl else w).
  match goal with |- bind ?e1 _ = _ => assert (e1 = Ok (map Fin cent, map Fin wid, (gb1, a2))) as -> end.
  { unfold cent, wid. destruct (Nat.odd p); [|rewrite Hlast; reflexivity]. destruct Hlast as (u & Eu & ->).
    rewrite vset_ok by (rewrite map_length; lia). cbn [bind]. destruct k as [|j] eqn:Ek; [lia|]. cbn [idxm1 bind].
    change (fofZ AX 0) with (Fin 0). rewrite <- (map_upd Fin). replace (S j - 1)%nat with j in Eu by lia.
    rewrite vget_Fin by (rewrite upd_length; lia). cbn [bind]. assert (nth j (upd c (S j) 0) 0 = nth j c 0) as ->.
    { apply nth_upd_other. lia. }
    pose proof (Nc j ltac:(lia)) as Hj. unfold runiform, on_b. cbn [fst snd]. change (flog AX) with xlog. rewrite !fin_log by lra. rewrite Eu.
    rewrite vset_ok by (rewrite map_length; lia). cbn [bind]. change (fexp AX (Fin u)) with (Fin (exp u)). rewrite <- (map_upd Fin). reflexivity. }
  cbn [bind]. pose proof PI_RGT_0 as HPI.
  assert (length cent = h /\ length wid = h) as [Lc' Lw'] by (unfold cent, wid; destruct (Nat.odd p); rewrite ?upd_length; split; assumption).
  assert (forall i, (i < k)%nat -> nth i cent 0 = nth i c 0 /\ nth i wid 0 = nth i w 0) as Hlow.
  { intros i Hi. unfold cent, wid. destruct (Nat.odd p); [|split; reflexivity]. rewrite !nth_upd_other by lia. split; reflexivity. }
  set (f := fun i => coded (nth i c 0) (nth i w 0)).
  match goal with |- bind ?e1 _ = _ => assert (e1 = Ok (map Fin (flat_map f (seq 0 k) ++ repeat 0 (p - 2 * k)))) as -> end.
  { assert (zeros AX p = map Fin (flat_map f (seq 0 0) ++ repeat 0 (p - 2 * 0))) as ->.
    { cbn [seq flat_map app]. rewrite Nat.mul_0_r, Nat.sub_0_r. unfold zeros. clear. induction p as [|n IH]; [reflexivity|]. cbn [repeat map]. f_equal. exact IH. }
    refine (@for_exact _ _ (fun i => map Fin (flat_map f (seq 0 i) ++ repeat 0 (p - 2 * i)%nat)) 0 k _).
    intros i _ Hi. cbv beta. rewrite !vget_Fin by lia. cbn [bind]. destruct (Hlow i ltac:(lia)) as [-> ->].
    pose proof (Nc i ltac:(lia)) as Hci. pose proof (Nw i ltac:(lia)) as Hwi. set (ci := nth i c 0) in *. set (wi := nth i w 0) in *.
    change (fmul AX (fmul AX (fneg AX (fofZ AX 2)) (fpi AX)) (Fin wi)) with (Fin (- (2) * PI * wi)).
    change (fmul AX (fmul AX (fofZ AX 2) (fpi AX)) (Fin ci)) with (Fin (2 * PI * ci)).
    assert (0 < 2 * PI * wi) as Hpw by nra.
    assert (flog AX (fadd AX (fmul AX (Fin (- (2) * PI * wi)) (Fin (- (2) * PI * wi))) (fmul AX (Fin (2 * PI * ci)) (Fin (2 * PI * ci)))) = Fin (nth 0 (coded ci wi) 0)) as ->.
    { etransitivity; [refine (fin_log _ _); nra|]. cbn [coded nth]. f_equal. f_equal. ring. }
    assert (flog AX (fmul AX (fneg AX (fofZ AX 2)) (Fin (- (2) * PI * wi))) = Fin (nth 1 (coded ci wi) 0)) as ->.
    { etransitivity; [refine (fin_log _ _); nra|]. cbn [coded nth]. f_equal. f_equal. ring. }
    assert (length (flat_map f (seq 0 i)) = (2 * i)%nat) as Lf by (apply flat_len; intros; reflexivity).
    replace (p - 2 * i)%nat with (S (S (p - 2 * S i))) by lia. cbn [repeat].
    rewrite vset_ok by (rewrite map_length, app_length; cbn [length]; rewrite repeat_length; lia). cbn [bind]. rewrite <- (map_upd Fin), <- Lf, upd_mid.
    rewrite vset_ok by (rewrite map_length, app_length; cbn [length]; rewrite repeat_length; lia). rewrite <- (map_upd Fin). do 2 f_equal.
    rewrite flat_S. change (f i) with [nth 0 (coded ci wi) 0; nth 1 (coded ci wi) 0].
    replace (flat_map f (seq 0 i) ++ nth 0 (coded ci wi) 0 :: 0 :: repeat 0 (p - 2 * S i)) with ((flat_map f (seq 0 i) ++ [nth 0 (coded ci wi) 0]) ++ 0 :: repeat 0 (p - 2 * S i)) by (rewrite <- app_assoc; reflexivity).
    replace (1 + length (flat_map f (seq 0 i)))%nat with (length (flat_map f (seq 0 i) ++ [nth 0 (coded ci wi) 0])) by (rewrite app_length; cbn [length]; lia).
    rewrite upd_mid, <- !app_assoc. reflexivity. }
  cbn [bind]. assert (length (flat_map f (seq 0 k)) = (2 * k)%nat) as Lf by (apply flat_len; intros; reflexivity).
  destruct (Nat.odd p) eqn:Eo.
  - rewrite vget_Fin by lia. cbn [bind]. assert (nth k wid 0 = wl) as ->.
    { unfold wid. apply nth_upd_same. lia. }
    destruct Hlast as (u & _ & ->). pose proof (exp_pos u) as Hu.
    change (fneg AX (fmul AX (fmul AX (fneg AX (fofZ AX 2)) (fpi AX)) (Fin (exp u)))) with (Fin (- (- (2) * PI * exp u))).
    assert (flog AX (Fin (- (- (2) * PI * exp u))) = Fin (ln (2 * PI * exp u))) as ->.
    { etransitivity; [refine (fin_log _ _); nra|]. f_equal. f_equal. ring. }
    replace (p - 2 * k)%nat with 1%nat by lia. cbn [repeat]. rewrite vset_ok by (rewrite map_length, app_length; cbn [length]; lia).
    rewrite <- (map_upd Fin). replace (p - 1)%nat with (length (flat_map f (seq 0 k))) by lia. rewrite upd_mid. reflexivity.
  - replace (p - 2 * k)%nat with 0%nat by lia. reflexivity.
Qed.

(** the facts about a candidate *)
Definition pairwise_apart (om : list C) : Prop :=
  forall i j, (i < j)%nat -> (j < length om)%nat -> frac_apart (1 / 10000) (nth i om (RtoC 0)) (nth j om (RtoC 0)).
Lemma qroots_cand (c w : nat -> R) wl (pre ex : list R) : length pre = 3%nat -> (forall i, (i < k)%nat -> 0 <= c i /\ 0 < w i) -> 0 < wl ->
  qroots (pre ++ flat_map (fun i => coded (c i) (w i)) (seq 0 k) ++ (if Nat.odd p then [ln (2 * PI * wl)] else []) ++ ex) 3 p =
  flat_map (fun i => lorentz (c i) (w i)) (seq 0 k) ++ (if Nat.odd p then [(- (2 * PI * wl), 0)] else []).
Proof using Hp H3.
  intros Lp Hcw Hwl. destruct hk as (Hk1 & Hh & Hpk). unfold qroots. fold k. f_equal.
  - pose proof (qloop_shift pre (flat_map (fun i => coded (c i) (w i)) (seq 0 k) ++ (if Nat.odd p then [ln (2 * PI * wl)] else []) ++ ex) k 0) as E.
    rewrite Lp in E. change (3 + 0)%nat with 3%nat in E. rewrite E. apply qloop_coded. intros i Hi. apply Hcw. lia.
  - destruct (Nat.odd p); [|reflexivity]. f_equal. f_equal. f_equal. replace (3 + p - 1)%nat with (length pre + (2 * k + 0))%nat by lia. rewrite app_nth2_plus.
    assert (length (flat_map (fun i => coded (c i) (w i)) (seq 0 k)) = (2 * k)%nat) as L by (apply flat_len; intros; reflexivity).
    rewrite <- L, app_nth2_plus. cbn [app nth]. apply exp_ln. pose proof PI_RGT_0. nra.
Qed.
Lemma in_lorentz_flat (c w : nat -> R) r : In r (flat_map (fun i => lorentz (c i) (w i)) (seq 0 k)) -> exists i, (i < k)%nat /\ fst r = - (2 * PI * w i) /\ Rabs (snd r) = Rabs (2 * PI * c i).
Proof.
  intros H. apply in_flat_map in H. destruct H as (i & Hi & H). apply in_seq in Hi. exists i. split; [lia|].
  destruct H as [<-|[<-|[]]]; cbn [fst snd]; split; try reflexivity. apply Rabs_Ropp.
Qed.
Lemma nth_flat2 T (f : nat -> list T) (d : T) m : (forall i, length (f i) = 2%nat) -> forall a j, (j < 2 * m)%nat -> nth j (flat_map f (seq a m)) d = nth (j mod 2) (f (a + j / 2)%nat) d.
Proof.
  intros H. induction m as [|m IH]; intros a j Hj; [lia|]. cbn [seq flat_map]. destruct (Nat.lt_ge_cases j 2) as [Hs|Hs].
  - rewrite app_nth1 by (rewrite H; exact Hs). rewrite Nat.mod_small, Nat.div_small by exact Hs. rewrite Nat.add_0_r. reflexivity.
  - rewrite app_nth2 by (rewrite H; exact Hs). rewrite H, IH by lia. replace j with ((j - 2) + 1 * 2)%nat at 3 4 by lia.
    rewrite Nat.mod_add, Nat.div_add by lia. f_equal. f_equal. lia.
Qed.

Variable extra : gen R0 -> list R -> gen R0 -> Prop.
Variable n : nat.
Hypothesis Hlex : forall a ex a', extra a ex a' -> length ex = n.
Hypothesis Hys : 0 < svar y.
Hypothesis Hly : length y = length t.
Local Notation cand := (candidate extra p y fmin fmax).

Lemma cand_facts g th om g' : cand g th om g' ->
  length th = (3 + p + n)%nat /\ length om = p /\
  (forall a b c, ARRoots AX p (map Fin (a :: b :: c :: skipn 3 th)) = Ok (map FinC om)) /\
  0 < nth 0 th 0 /\ 51 / 100 <= nth 1 th 0 <= 199 / 100 /\
  (in_prior smax fmin fmax th om <->
     nth 0 th 0 <= smax /\ pairwise_apart om /\ (Nat.odd p = true -> fmin < - fst (nth (p - 1) om (RtoC 0)) / (2 * PI))).
Proof using HR HB Ht H3 Hp Hlex Hys Hly.
  intros (u1 & a1 & u2 & a2 & c & w & wl & gb1 & ex & gx & a3 & c1 & gb2 & sd & mu & gb3 & c2 & gb4 & T1 & L1 & Hperm & Hsort & T2 & L2 & Ew & Hlast & Hex & E1 & Esd & E2 & E3 & Eom & Eth & _).
  pose proof fpos as Hf. pose proof flt' as Hff. destruct hk as (Hk1 & Hh & Hpk). pose proof PI_RGT_0 as HPI. fold k in Hlast, Eom, Eth. fold h in L1, L2.
  assert (forall g, exists x, fst (a_randu R0 g) = Fin x /\ 0 < x < 1) as HU by exact (vr_randu HR).
  pose proof (taken_all HU T1) as Q1. pose proof (taken_all HU T2) as Q2.
  assert (length c = h) as Lc by (rewrite <- (Permutation_length Hperm), map_length; exact L1). assert (length w = h) as Lw by (rewrite Ew, map_length; exact L2).
  assert (List.Forall (fun x => fmin < x < fmax) c) as Fc.
  { refine (Permutation_Forall Hperm _). apply Forall_map. refine (Forall_impl _ _ Q1). intros u Hu. apply between_range; assumption. }
  assert (List.Forall (fun x => fmin < x < fmax) w) as Fw.
  { rewrite Ew. apply Forall_map. refine (Forall_impl _ _ Q2). intros u Hu. apply between_range; assumption. }
  assert (forall i, (i < h)%nat -> fmin < nth i c 0 < fmax) as Nc by (intros i Hi; exact (proj1 (Forall_forall _ _) Fc _ (nth_In c 0 (eq_ind_r (fun n => (i < n)%nat) Hi Lc)))).
  assert (forall i, (i < h)%nat -> fmin < nth i w 0 < fmax) as Nw by (intros i Hi; exact (proj1 (Forall_forall _ _) Fw _ (nth_In w 0 (eq_ind_r (fun n => (i < n)%nat) Hi Lw)))).
  assert (Nat.odd p = true -> 0 < wl < fmax) as Hwl.
  { intros Eo. rewrite Eo in Hlast. destruct Hlast as (u & Eu & ->). split; [apply exp_pos|]. pose proof (Nc (k - 1)%nat ltac:(lia)) as Hc.
    destruct (@vr_uniform _ HR (ln fmin) (ln (nth (k - 1) c 0)) (fst g)) as (u' & Eu' & Hu); [apply ln_increasing; lra|]. rewrite Eu in Eu'. injection Eu' as <-.
    apply Rle_lt_trans with (nth (k - 1) c 0); [|lra]. rewrite <- (exp_ln (nth (k - 1) c 0)) by lra. destruct Hu as [_ Hu]; destruct Hu as [Hu|Hu]; [left; apply exp_increasing, Hu|right; rewrite Hu; reflexivity]. }
  set (tl := flat_map (fun i => coded (nth i c 0) (nth i w 0)) (seq 0 k) ++ (if Nat.odd p then [ln (2 * PI * wl)] else []) ++ ex) in *.
  assert (forall a b c', ARRoots AX p (map Fin (a :: b :: c' :: tl)) = Ok (map FinC om)) as HA.
  { intros a b c'. unfold ARRoots. assert (length tl = (p + n)%nat) as Lt.
    { unfold tl. rewrite !app_length, (@flat_len _ (fun i => coded (nth i c 0) (nth i w 0)) (fun i => eq_refl)), (Hlex Hex). destruct (Nat.odd p); cbn [length]; lia. }
    rewrite (quad_roots_Fin (a :: b :: c' :: tl) 3 p) by (cbn [length]; lia). f_equal. f_equal. rewrite Eom.
    destruct (Nat.odd p) eqn:Eo.
    - pose proof (@qroots_cand (fun i => nth i c 0) (fun i => nth i w 0) wl [a; b; c'] ex eq_refl) as K. rewrite Eo in K. apply K; [|apply Hwl; reflexivity].
      intros i Hi. pose proof (Nc i ltac:(lia)). pose proof (Nw i ltac:(lia)). lra.
    - pose proof (@qroots_cand (fun i => nth i c 0) (fun i => nth i w 0) 1 [a; b; c'] ex eq_refl) as K. rewrite Eo in K. apply K; [|lra].
      intros i Hi. pose proof (Nc i ltac:(lia)). pose proof (Nw i ltac:(lia)). lra. }
  assert (length tl = (p + n)%nat) as Lt.
  { unfold tl. rewrite !app_length, (@flat_len _ (fun i => coded (nth i c 0) (nth i w 0)) (fun i => eq_refl)), (Hlex Hex). destruct (Nat.odd p); cbn [length]; lia. }
  assert (length (flat_map (fun i => lorentz (nth i c 0) (nth i w 0)) (seq 0 k)) = (2 * k)%nat) as Lo by (apply flat_len; intros; reflexivity).
  assert (length om = p) as Lom by (rewrite Eom, app_length, Lo; destruct (Nat.odd p); cbn [length]; lia).
  assert (0 < sd) as Hsd.
  { destruct (vr_chisqr HR (dof := Z.of_nat (length y) - 1) gx ltac:(lia)) as (c1' & Ec1 & Hc1). rewrite E1 in Ec1. injection Ec1 as <-. rewrite Esd. apply sqrt_lt_R0.
    apply Rmult_lt_0_compat; [apply Rdiv_lt_0_compat; assumption|]. assert (1 < INR (length y)) by (apply (lt_INR 1); lia). lra. }
  assert (51 / 100 <= Rmax (Rmin (1 / c2 * 50) (199 / 100)) (51 / 100) <= 199 / 100) as Hsc.
  { split; [apply Rmax_r|]. apply Rmax_lub; [apply Rmin_r|lra]. }
  subst th. cbn [app length nth skipn]. split; [lia|]. split; [exact Lom|]. split; [exact HA|]. split; [exact Hsd|]. split; [exact Hsc|].
  set (thx := sd :: Rmax (Rmin (1 / c2 * 50) (199 / 100)) (51 / 100) :: mu :: tl).
  assert (forall r, In r om -> exists i, ((i < k)%nat /\ fst r = - (2 * PI * nth i w 0) /\ Rabs (snd r) = Rabs (2 * PI * nth i c 0)) \/ (Nat.odd p = true /\ r = (- (2 * PI * wl), 0))) as Hin.
  { intros r Hr. rewrite Eom in Hr. apply in_app_or in Hr. destruct Hr as [Hr|Hr].
    - destruct (@in_lorentz_flat (fun i => nth i c 0) (fun i => nth i w 0) r Hr) as (i & Hi). exists i. left. exact Hi.
    - exists 0%nat. right. destruct (Nat.odd p); [|destruct Hr]. destruct Hr as [<-|[]]. split; reflexivity. }
  assert (forall i, (i < k)%nat -> Rabs (2 * PI * nth i c 0) / (2 * PI) = nth i c 0) as Hac.
  { intros i Hi. pose proof (Nc i ltac:(lia)). rewrite Rabs_right by nra. field. lra. }
  assert (Nat.odd p = true -> nth (p - 1) om (RtoC 0) = (- (2 * PI * wl), 0)) as Hlr.
  { intros Eo. rewrite Eom, Eo. rewrite app_nth2 by (rewrite Lo; rewrite Eo in Hpk; lia). rewrite Lo. replace (p - 1 - 2 * k)%nat with 0%nat by (rewrite Eo in Hpk; lia). reflexivity. }
  split.
  - intros Hin'. split; [exact (proj2 (pr_stdev _ _ _ _ _ Hin'))|]. split; [exact (pr_apart _ _ _ _ _ Hin')|]. intros Eo. apply (pr_width _ _ _ _ _ Hin'). apply nth_In. lia.
  - intros (S1 & S2 & S3). constructor; cbn [nth].
    + intros r Hr. destruct (Hin r Hr) as (i & [(Hi & _ & Er)|(_ & Er)]); rewrite Er; [rewrite Hac by exact Hi; apply Nc; lia|]. cbn [snd]. rewrite Rabs_R0. unfold Rdiv. rewrite Rmult_0_l. lra.
    + intros r Hr. destruct (Hin r Hr) as (i & [(Hi & Er & _)|(Eo & Er)]).
      * rewrite Er. replace (- - (2 * PI * nth i w 0) / (2 * PI)) with (nth i w 0) by (field; lra). apply Nw. lia.
      * specialize (S3 Eo). rewrite (Hlr Eo) in S3. rewrite Er. cbn [fst] in *. split; [exact S3|]. replace (- - (2 * PI * wl) / (2 * PI)) with wl by (field; lra). apply Hwl, Eo.
    + change (nth 0 thx 0) with sd. split; [lra|exact S1].
    + change (nth 1 thx 0) with (Rmax (Rmin (1 / c2 * 50) (199 / 100)) (51 / 100)). lra.
    + intros i Hi. rewrite Lom in Hi.
      assert (forall j, (j < 2 * k)%nat -> Rabs (snd (nth j om (RtoC 0))) / (2 * PI) = nth (j / 2) c 0) as Hj.
      { intros j Hj. rewrite Eom, app_nth1 by lia. rewrite (@nth_flat2 _ (fun i => lorentz (nth i c 0) (nth i w 0)) (RtoC 0) k (fun i => eq_refl) 0 j Hj). rewrite Nat.add_0_l.
        assert (j / 2 < k)%nat as Hjk by (apply Nat.div_lt_upper_bound; lia).
        pose proof (Nat.mod_upper_bound j 2 ltac:(lia)) as Hm. destruct (j mod 2)%nat as [|[|m]]; [| |lia]; cbn [nth lorentz snd]; rewrite ?Rabs_Ropp; apply Hac, Hjk. }
      destruct (Nat.lt_ge_cases (S i) (2 * k)) as [Hs|Hs].
      * rewrite !Hj by lia. assert (nth (S i / 2) c 0 <= nth (i / 2) c 0); [|lra].
        assert (i / 2 <= S i / 2)%nat as Hle by (apply Nat.div_le_mono; lia). destruct (Nat.eq_dec (i / 2) (S i / 2)) as [->|Hne]; [lra|].
        assert (S i / 2 < k)%nat as Hk2 by (apply Nat.div_lt_upper_bound; lia).
        pose proof (Hsort (h - 1 - S i / 2)%nat (h - 1 - i / 2)%nat ltac:(lia)) as Hn. rewrite rev_length in Hn. specialize (Hn ltac:(lia)).
        rewrite !rev_nth in Hn by lia. replace (length c - S (h - 1 - S i / 2))%nat with (S i / 2)%nat in Hn by lia. replace (length c - S (h - 1 - i / 2))%nat with (i / 2)%nat in Hn by lia. exact Hn.
      * assert (Nat.odd p = true) as Eo by (destruct (Nat.odd p); [reflexivity|lia]). replace (S i) with (p - 1)%nat by (rewrite Eo in Hpk; lia). rewrite (Hlr Eo). cbn [snd]. rewrite Rabs_R0.
        assert (0 <= Rabs (snd (nth i om (RtoC 0))) / (2 * PI)); [|unfold Rdiv at 1; rewrite Rmult_0_l; lra].
        apply Rmult_le_pos; [apply Rabs_pos|left; apply Rinv_0_lt_compat; lra].
    + exact S2.
Qed.

Lemma cand_exists : (forall a, exists ex a', extra a ex a') -> forall g, exists th om g', cand g th om g'.
Proof using HR HB Ht H3 Hp Hys Hly.
  intros HE g. pose proof fpos as Hf. pose proof flt' as Hff. destruct hk as (Hk1 & Hh & Hpk).
  assert (forall g, exists x, fst (a_randu R0 g) = Fin x /\ 0 < x < 1) as HU by exact (vr_randu HR).
  destruct (taken_exists HU h (snd g)) as (u1 & a1 & T1 & L1 & Q1). destruct (taken_exists HU h a1) as (u2 & a2 & T2 & L2 & _).
  destruct valid_vsort_exists as [vs Hvs]. destruct (Hvs (map (between fmin fmax) u1)) as (s & _ & Hps & Hs).
  set (c := rev s). assert (Permutation (map (between fmin fmax) u1) c) as Hperm by (unfold c; rewrite <- Permutation_rev; exact Hps).
  assert (nondecreasing (rev c)) as Hsort by (unfold c; rewrite rev_involutive; exact Hs).
  assert (List.Forall (fun x => fmin < x < fmax) c) as Fc.
  { refine (Permutation_Forall Hperm _). apply Forall_map. refine (Forall_impl _ _ Q1). intros u Hu. apply between_range; assumption. }
  assert (length c = h) as Lc by (rewrite <- (Permutation_length Hperm), map_length; exact L1).
  assert (exists wl gb1, if Nat.odd p then exists u, b_uniform R0 (Fin (ln fmin)) (Fin (ln (nth (k - 1) c 0))) (fst g) = (Fin u, gb1) /\ wl = exp u else gb1 = fst g) as (wl & gb1 & Hlast).
  { destruct (Nat.odd p); [|exists 0, (fst g); reflexivity]. 
    assert (fmin < nth (k - 1) c 0 < fmax) as Hc by (apply (proj1 (Forall_forall _ _) Fc), nth_In; lia).
    destruct (@vr_uniform _ HR (ln fmin) (ln (nth (k - 1) c 0)) (fst g)) as (u & Eu & _); [apply ln_increasing; lra|].
    destruct (b_uniform R0 (Fin (ln fmin)) (Fin (ln (nth (k - 1) c 0))) (fst g)) as [x gb1] eqn:E. cbn [fst] in Eu. subst x. exists (exp u), gb1, u. split; reflexivity. }
  destruct (HE (gb1, a2)) as (ex & [gx a3] & Hex).
  destruct (vr_chisqr HR (dof := Z.of_nat (length y) - 1) gx ltac:(lia)) as (c1 & Ec1 & Hc1). destruct (b_chisqr R0 (Z.of_nat (length y) - 1) gx) as [x1 gb2] eqn:E1. cbn [fst] in Ec1. subst x1.
  destruct (vr_normal HR (sd := sqrt (svar y / c1 * (INR (length y) - 1)) / INR (length y)) (smean y) gb2) as (mu & Emu).
  { apply Rmult_le_pos; [apply sqrt_pos|]. left. apply Rinv_0_lt_compat, lt_0_INR. lia. }
  destruct (b_normal R0 _ _ gb2) as [x2 gb3] eqn:E2. cbn [fst] in Emu. subst x2.
  destruct (vr_chisqr HR (dof := 50) gb3 eq_refl) as (c2 & Ec2 & Hc2). destruct (b_chisqr R0 50 gb3) as [x3 gb4] eqn:E3. cbn [fst] in Ec2. subst x3.
  do 3 eexists. exists u1, a1, u2, a2, c, (map (between fmin fmax) u2), wl, gb1, ex, gx, a3, c1, gb2, (sqrt (svar y / c1 * (INR (length y) - 1))), mu, gb3, c2, gb4.
  repeat match goal with |- _ /\ _ => split end; try eassumption; reflexivity.
Qed.

Variable solve : list (list (cx AX)) -> list (cx AX) -> option (list (cx AX)).
Hypothesis Hsolve : valid_solve solve.
Variable maf : list xr -> res (list xr).
Variable prior : list xr -> res xr.
Local Notation C := (pcls solve p maf prior).
Variable extraX : gen R0 -> list xr * gen R0.
Hypothesis HexX : forall a ex a', extra a ex a' -> extraX a = (map Fin ex, a').
Definition realma (m : list R) : Prop := length m = p /\ exists l, nth l m 0 <> 0.
Hypothesis Hma : forall tl : list R, length tl = (p + n)%nat -> exists m, realma m /\ forall a b c, maf (map Fin (a :: b :: c :: tl)) = Ok (map Fin m).
Hypothesis Hpr : forall th : list R, length th = (3 + p + n)%nat -> 0 < nth 1 th 0 -> exists pr, prior (map Fin th) = Ok (Fin pr).
Variables early withma : bool.
Definition mreal (b : base AX (kpx AX)) : Prop := withma = true \/ exists m, x_ma (k_ext (b_kf b)) = map Fin m /\ realma m.
Variable b0 : base AX (kpx AX).
Hypothesis Hb0 : base_holds b0 t y e (mkB AX (Fin smax) (Fin fmax) (Fin fmin) false).

Lemma load_filter b om m sig t1 mu : base_holds b t y e (mkB AX (Fin smax) (Fin fmax) (Fin fmin) false) -> stable_roots om -> length om = p -> realma m -> 0 < sig -> 0 < t1 ->
  exists s', Filter (methodsp solve) (load C b (Fin sig) (map FinC om) (map Fin m) (Fin t1) (Fin mu)) = Ok s' /\ x_ma (k_ext s') = map Fin m.
Proof using Hsolve Hp Ht Hly H3.
  intros Hb Hst L [Lm Nm] Hsig Ht1. pose proof Hb as (Hw & E1 & E2 & E3 & E4 & Eb).
  set (s := load C b (Fin sig : F AX) (map FinC om) (map Fin m) (Fin t1) (Fin mu)).
  set (yr := map (fun x => x - mu) y). set (er := map (fun x => sqrt t1 * x) e).
  assert (carma_ok sig om m) as Hok. { split; [exact Hst|]. split; [lia|]. split; [congruence|]. split; [exact Nm|exact Hsig]. }
  destruct (@load_ok AX _ _ _ (pcls solve p maf prior) (@par_of AX) (fun om ma => (om, ma)) (@goodp AX) (@good_datap AX) (@Hsetp AX solve p maf prior)
                b (Fin sig) (map FinC om) (map Fin m) (Fin t1) (Fin mu) Hw) as (Hu & Hg & Hs).
  assert (holdsp s t yr er sig om m) as Hh.
  { unfold s. split; [exact Hu|]. split; [exact Hg|].
    pose proof (f_equal (@s_time _ _) Hs) as S1. pose proof (f_equal (@s_y _ _) Hs) as S3. pose proof (f_equal (@s_yerr _ _) Hs) as S4.
    pose proof (f_equal (@s_sig _ _) Hs) as S5. pose proof (f_equal (fun u => fst (s_par u)) Hs) as S6. pose proof (f_equal (fun u => snd (s_par u)) Hs) as S7.
    split; [etransitivity; [exact S1|exact E4]|].
    split; [etransitivity; [exact S3|]; etransitivity; [exact (f_equal (fun l => cent AX l (Fin mu)) E2)|apply cent_Fin]|].
    split; [etransitivity; [exact S4|]; etransitivity; [exact (f_equal (fun l => scaled AX l (Fin t1)) E3)|apply scaled_Fin; lra]|].
    split; [exact S5|]. split; [exact S6|exact S7]. }
  destruct (filterp solve Hsolve s t yr er sig om m Hh Ht Hok) as (s' & EF & _). exists s'. split; [exact EF|].
  destruct (pureFp solve Hu Hg) as [_ Hpf]. destruct (Hpf _ EF) as (Hs' & _).
  pose proof (f_equal (fun u => snd (s_par u)) (eq_trans Hs' Hs)) as Q. exact Q.
Qed.
Lemma LD_keeps st b v l b' : okb st b -> LogDensity C b v = Ok (l, b') -> x_ma (k_ext (b_kf b')) = x_ma (k_ext (b_kf b)) \/ maf v = Ok (x_ma (k_ext (b_kf b'))).
Proof.
  intros [Hw _] E. unfold LogDensity in E. apply bind_Ok in E. destruct E as (ok & _ & E). destruct (negb ok); [injection E as _ <-; left; reflexivity|].
  apply bind_Ok in E. destruct E as (om & E1 & E). apply bind_Ok in E. destruct E as (ma & E2 & E). apply bind_Ok in E. destruct E as (sig & E3 & E).
  apply bind_Ok in E. destruct E as (sc & E4 & E). apply bind_Ok in E. destruct E as (mu & E5 & E). cbv zeta in E. right. cbn [v_MA pcls] in E2. rewrite E2. f_equal.
  destruct (@load_ok AX _ _ _ (pcls solve p maf prior) (@par_of AX) (fun om ma => (om, ma)) (@goodp AX) (@good_datap AX) (@Hsetp AX solve p maf prior) b sig om ma sc mu Hw) as (Hu & Hg & Hs).
  pose proof (f_equal (fun u => snd (s_par u)) Hs) as Q. destruct (pureFp solve Hu Hg) as [_ Hpf].
  destruct (Filter (v_meth C) (load C b sig om ma sc mu)) as [s'|[|]| |] eqn:EF; try discriminate.
  - apply bind_Ok in E. destruct E as (ll & _ & E). apply bind_Ok in E. destruct E as (pr & _ & E). injection E as _ <-. destruct (Hpf _ EF) as (Hs' & _).
    symmetry. exact (f_equal (fun u => snd (s_par u)) (eq_trans Hs' Hs)).
  - injection E as _ <-. symmetry. exact Q.
Qed.

Lemma pass b g th om g' : okb (static_of b0) b -> mreal b -> cand g th om g' -> NoDup om ->
  exists b' ok, start_try dsort solve p C extraX early withma b g = Ok (map Fin th, b', ok, g') /\ okb (static_of b0) b' /\ mreal b' /\
    (ok = true <-> in_prior smax fmin fmax th om).
Proof using All.
  intros Hok Hmr Hc Hnd. destruct (cand_facts Hc) as (Lth & Lom & HA & Hsd & Hsc & _).
  pose proof (base_holds_static Hb0 Hok) as Hb. pose proof Hb as (_ & _ & Ey & _).
  destruct Hc as (u1 & a1 & u2 & a2 & c & w & wl & gb1 & ex & gx & a3 & c1 & gb2 & sd & mu & gb3 & c2 & gb4 & T1 & L1 & Hperm & Hsort & T2 & L2 & Ew & Hlast & Hex & E1 & Esd & E2 & E3 & Eom & Eth & Eg').
  fold k in Hlast, Eom, Eth. fold h in L1, L2. subst w. pose proof (StartingAR_cand Hb T1 L1 Hperm Hsort T2 L2 Hlast) as EA.
  set (w := map (between fmin fmax) u2) in *. set (ar := flat_map (fun i => coded (nth i c 0) (nth i w 0)) (seq 0 k) ++ (if Nat.odd p then [ln (2 * PI * wl)] else [])) in *.
  set (sc := Rmax (Rmin (1 / c2 * 50) (199 / 100)) (51 / 100)) in *.
  assert (th = sd :: sc :: mu :: ar ++ ex) as Eth' by (rewrite Eth; unfold ar; rewrite <- app_assoc; reflexivity). clear Eth. subst th.
  cbn [nth skipn length] in *. assert (length (ar ++ ex) = (p + n)%nat) as Lt by lia.
  destruct (Hma Lt) as (m & Hm & Em). pose proof Hm as [Lm Nm].
  destruct (vr_chisqr HR (dof := Z.of_nat (length y) - 1) gx ltac:(lia)) as (c1' & Ec1 & Hc1). rewrite E1 in Ec1. injection Ec1 as <-.
  destruct (vr_chisqr HR (dof := 50) gb3 eq_refl) as (c2' & Ec2 & Hc2). rewrite E3 in Ec2. injection Ec2 as <-.
  assert (1 < INR (length y)) as Hn1 by (apply (lt_INR 1); lia).
  set (yv := svar y / c1 * (INR (length y) - 1)) in *. assert (0 < yv) as Hyv by (apply Rmult_lt_0_compat; [apply Rdiv_lt_0_compat; assumption|lra]).
  assert (y <> []) as Hy0 by (intros Q; rewrite Q in Hly; cbn in Hly; lia).
  assert (vvar AX (map Fin y) = Ok (Fin (svar y))) as Ev by (apply vvar_Fin; lia).
  assert (vmean AX (map Fin y) = Fin (smean y)) as Emn by (apply vmean_Fin, Hy0).
  assert (dofs AX (map Fin y) = (Z.of_nat (length y) - 1)%Z) as Ed by (unfold dofs; change (F AX) with xr; rewrite map_length; reflexivity).
  assert (nobs AX (map Fin y) = Fin (INR (length y))) as En by (unfold nobs; change (F AX) with xr; rewrite map_length, INR_IZR_INZ; reflexivity).
  assert (fsqrt AX (Fin yv) = Fin sd) as Esq by (rewrite Esd; refine (fin_sqrt _ _); lra).
  assert (@scaled_inverse_chisqr AX R0 (Z.of_nat (length y) - 1) (Fin (svar y)) (gx, a3) = (Fin yv, (gb2, a3))) as Esic.
  { unfold scaled_inverse_chisqr, on_b. cbn [fst snd]. rewrite E1. f_equal. 
    assert (fdiv AX (Fin (svar y)) (Fin c1) = Fin (svar y / c1)) as -> by (refine (fin_div _ _ _); lra).
    assert (fofZ AX (Z.of_nat (length y) - 1) = Fin (INR (length y) - 1)) as -> by (cbn [fofZ AX]; rewrite minus_IZR, IZR_nat; reflexivity). reflexivity. }
  assert (@rnorm AX R0 (Fin (smean y)) (fdiv AX (Fin sd) (Fin (INR (length y)))) (gb2, a3) = (Fin mu, (gb3, a3))) as Enm.
  { assert (fdiv AX (Fin sd) (Fin (INR (length y))) = Fin (sd / INR (length y))) as -> by (refine (fin_div _ _ _); lra).
    unfold rnorm, on_b. cbn [fst snd]. rewrite E2. reflexivity. }
  assert (@draw_scale AX R0 (gb3, a3) = (Fin sc, (gb4, a3))) as Eds.
  { unfold draw_scale, scaled_inverse_chisqr, on_b. cbn [fst snd]. rewrite E3. change (fofZ AX 1) with (Fin 1). change (fofZ AX 50) with (Fin 50).
    assert (fdiv AX (Fin 1) (Fin c2) = Fin (1 / c2)) as -> by (refine (fin_div _ _ _); lra).
    change (fmul AX (Fin (1 / c2)) (Fin 50)) with (Fin (1 / c2 * 50)). rewrite clamp_Fin. reflexivity. }
  assert (forall r, In r om -> fst r < 0) as Hneg.
  { destruct (ARRoots_main p (sd :: sc :: mu :: ar ++ ex)) as (om' & Eo & _ & Hn' & _); [cbn [length]; lia|]. rewrite HA in Eo. injection Eo as Eo.
    assert (om = om') as ->; [|exact Hn']. clear - Eo. revert om' Eo. induction om as [|a l IH]; intros [|a' l'] E0; try discriminate; [reflexivity|].
    cbn [map] in E0. injection E0 as Q1 Q2 Q3. f_equal; [apply C_eq; congruence|apply IH, Q3]. }
  assert (0 < carma_acv 1 m om 0) as Hacv.
  { apply (@acv1_pos p (sd :: sc :: mu :: ar ++ ex) m om); [exact Hp|cbn [length]; lia|exact Lm|exact Nm|apply HA|exact Hnd]. }
  assert (stable_roots om) as Hst.
  { apply (@om_roots p (sd :: sc :: mu :: ar ++ ex) om); [cbn [length]; lia|apply HA|exact Hnd]. }
  set (sg := sd * sd / carma_acv 1 m om 0).
  assert (sd * sd = yv) as Hsq by (rewrite Esd; apply sqrt_sqrt; lra).
  assert (fdiv AX (Fin yv) (Variance (map FinC om) (map Fin m) (fofZ AX 1) (fofZ AX 0)) = Fin sg) as Esg.
  { change (fofZ AX 1) with (Fin 1). change (fofZ AX 0) with (Fin 0). rewrite (Variance_Fin om m 1 0 Hnd Hneg). replace (1 * 1) with 1 by ring.
    unfold sg. rewrite Hsq. refine (fin_div _ _ _). lra. }
  assert (0 < sg) as Hsg by (unfold sg; apply Rdiv_lt_0_compat; [nra|exact Hacv]).
  assert (exists b1, set_filterp solve b (Fin sg) (map FinC om) (if withma then Some (map Fin m) else None) (Fin sc) (Fin mu) = Ok b1 /\ mreal b1) as (b1 & Esf & Hm1).
  { assert (exists m1, realma m1 /\ map Fin m1 = match (if withma then Some (map Fin m) else None) with Some z => z | None => x_ma (k_ext (b_kf b)) end) as (m1 & Hm1 & Em1).
    { destruct Hmr as [->|(m1 & Hx & Hr)]; [exists m; split; [exact Hm|reflexivity]|]. destruct withma; [exists m; split; [exact Hm|reflexivity]|]. exists m1. split; [exact Hr|symmetry; exact Hx]. }
    destruct (@load_filter b om m1 sg sc mu Hb Hst Lom Hm1 Hsg ltac:(lra)) as (s' & EF & Ex). exists (set_kf b s'). split; [|right; exists m1; split; [exact Ex|exact Hm1]].
    rewrite Em1 in EF. unfold set_filterp. cbv zeta. destruct withma; exact (f_equal (fun r => bind r (fun s => Ok (set_kf b s))) EF). }
  pose proof (@set_filterp_ok AX solve p maf prior _ _ _ _ _ _ _ _ Hok Esf) as Hok1. pose proof (base_holds_static Hb0 Hok1) as Hb1.
  destruct (CheckPriorBoundsp_main p smax fmin fmax (sd :: sc :: mu :: ar ++ ex)) as (om' & Eo & okp & Eck & Hiff); [cbn [length]; lia|].
  assert (om' = om) as ->.
  { rewrite HA in Eo. injection Eo as Eo. clear - Eo. revert om' Eo. induction om as [|a l IH]; intros [|a' l'] E0; try discriminate; [reflexivity|].
    cbn [map] in E0. injection E0 as Q1 Q2 Q3. f_equal; [apply C_eq; congruence|apply IH, Q3]. }
  assert (exists lp b2, LogDensity C b1 (map Fin (sd :: sc :: mu :: ar ++ ex)) = Ok (lp, b2) /\ ffin AX lp = okp) as (lp & b2 & EL & Hf).
  { destruct okp.
    - destruct (Hpr (th := sd :: sc :: mu :: ar ++ ex)) as (pr & Epr); [cbn [length]; lia|cbn [nth]; lra|].
      destruct (@LDp_value solve Hsolve p maf prior b1 t y e (sd :: sc :: mu :: ar ++ ex) m om _ pr Hb1 Ht Hp ltac:(cbn [length]; lia) (Em sd sc mu) Lm Nm Epr (HA sd sc mu) Hnd Eck ltac:(cbn [nth]; lra) ltac:(cbn [nth]; lra))
        as (mm & vv & b2 & EL & _). eexists. exists b2. split; [exact EL|reflexivity].
    - exists NInf, b1. split; [|reflexivity]. exact (@LDp_outside solve p maf prior b1 t y e (sd :: sc :: mu :: ar ++ ex) _ Hb1 Eck). }
  destruct (LDp_ok Hok1 EL) as [_ Hok2].
  exists b2, okp. split; [|split; [exact Hok2|split; [|exact Hiff]]].
  - unfold start_try. rewrite EA. cbn [bind]. rewrite (HexX Hex). cbv zeta. change (F AX) with xr in *. rewrite Ey.
    change (fofZ AX 0 :: fofZ AX 0 :: fofZ AX 0 :: map Fin ar ++ map Fin ex) with (Fin 0 :: Fin 0 :: Fin 0 :: map Fin ar ++ map Fin ex).
    assert (forall a b c : R, Fin a :: Fin b :: Fin c :: map Fin ar ++ map Fin ex = map Fin (a :: b :: c :: ar ++ ex)) as Eap by (intros; cbn [map]; rewrite map_app; reflexivity).
    rewrite Eap. cbn [v_MA pcls]. rewrite Em. cbn [bind]. rewrite Ev. cbn [bind]. rewrite Emn, Ed, En. change (F AX) with xr in Esic, Enm, Eds. rewrite Esic, Esq, Enm.
    rewrite HA. cbn [bind]. rewrite Esg. replace (early && negb (ffin AX (Fin sg)))%bool with false by (destruct early; reflexivity).
    rewrite Eds, Esf. cbn [bind]. rewrite Eap, EL. cbn [bind]. rewrite Hf, Eg'. reflexivity.
  - destruct Hm1 as [Hm1|Hm1]; [left; exact Hm1|]. right. destruct (LD_keeps Hok1 EL) as [Ex|Ex]; [rewrite Ex; exact Hm1|].
    exists m. split; [|exact Hm]. rewrite Em in Ex. injection Ex as Ex. symmetry. exact Ex.
Qed.

(** ** The loop *)
Lemma loop_first fuel j : forall b g th g', okb (static_of b0) b -> mreal b -> first_good cand (in_prior smax fmin fmax) j g th g' -> (j <= fuel)%nat ->
  exists b', start_while dsort solve p C extraX early withma fuel b g = Ok (map Fin th, b', g').
Proof using All.
  revert j. induction fuel as [|m IH]; intros j b g th g' Hok Hmr Hfg Hj; [inversion Hfg; lia|]. cbn [start_while].
  inversion Hfg as [? ? om ? Hc Hnd Hg|j' ? th1 om g1 ? ? Hc Hnd Hg Hr]; subst.
  - destruct (pass Hok Hmr Hc Hnd) as (b' & ok & E & _ & _ & Hiff). rewrite E. cbn [bind]. rewrite (proj2 Hiff Hg). exists b'. reflexivity.
  - destruct (pass Hok Hmr Hc Hnd) as (b' & ok & E & Hok' & Hmr' & Hiff). rewrite E. cbn [bind].
    destruct ok; [exfalso; apply Hg, Hiff; reflexivity|]. exact (IH j' b' g1 th g' Hok' Hmr' Hr ltac:(lia)).
Qed.
Lemma loop_only fuel : (forall a, exists ex a', extra a ex a') -> (forall g th om g', cand g th om g' -> NoDup om) ->
  forall b g, okb (static_of b0) b -> mreal b ->
  (exists j th g' b', (j <= fuel)%nat /\ first_good cand (in_prior smax fmin fmax) j g th g' /\ start_while dsort solve p C extraX early withma fuel b g = Ok (map Fin th, b', g')) \/
  (start_while dsort solve p C extraX early withma fuel b g = Diverge /\ forall j th g', first_good cand (in_prior smax fmin fmax) j g th g' -> (fuel < j)%nat).
Proof using All.
  intros HE Hall. induction fuel as [|m IH]; intros b g Hok Hmr; [right; split; [reflexivity|intros j th g' H; inversion H; lia]|]. cbn [start_while].
  destruct (cand_exists HE g) as (th & om & g1 & Hc). pose proof (Hall _ _ _ _ Hc) as Hnd. destruct (pass Hok Hmr Hc Hnd) as (b' & ok & E & Hok' & Hmr' & Hiff). rewrite E. cbn [bind].
  destruct ok.
  - left. exists 1%nat, th, g1, b'. split; [lia|]. split; [|reflexivity]. exact (fg_now Hc Hnd (proj1 Hiff eq_refl)).
  - assert (~ in_prior smax fmin fmax th om) as Hng by (intros Q; apply Hiff in Q; discriminate).
    destruct (IH b' g1 Hok' Hmr') as [(j & th' & g' & b2 & H1 & H2 & H4)|[H1 H2]].
    + left. exists (S j), th', g', b2. split; [lia|]. split; [|exact H4]. exact (fg_later Hc Hnd Hng H2).
    + right. split; [exact H1|]. intros j th' g' Hfg.
      inversion Hfg as [? ? om2 ? Hc2 Hnd2 Hg2|j' ? th1 om2 g2 ? ? Hc2 Hnd2 Hg2 Hr2]; subst.
      * exfalso. destruct (pass Hok Hmr Hc2 Hnd2) as (b2 & ok2 & E2' & _ & _ & Hiff2). rewrite E in E2'. injection E2' as _ _ Q _. subst ok2. apply Hiff2 in Hg2. discriminate.
      * destruct (pass Hok Hmr Hc2 Hnd2) as (b2 & ok2 & E2' & _). rewrite E in E2'. injection E2' as _ _ _ Q. subst g2. specialize (H2 _ _ _ Hr2). lia.
Qed.
End P.
End Law.
