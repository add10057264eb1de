(** SetSeed does not determine a CARMA run (C48): Armadillo's generator chooses the starting value. *)
From Coq Require Import Reals List Arith ZArith Bool String Lra Lia Permutation.
From Coquelicot Require Import Complex.
From Verif Require Import Arith Res ListLemmas KFModel KF1Proof Spec Gauss Emb History InitProof OUpd SimProof KF1R KF1X KF1Main KF1More.
From Verif Require Import Cx KFpModel KFpProof KFpX KFpMain KFpTop SpecModel CarpackModel RootsProof PriorProof LogLikProof LogLikMain CarpackTop CarpackRefute.
From Verif Require Import EngineModel StartModel EngineSpec EngineProof EngineInv CholProof RamProof EngineHist EngineClass EngineDriver EngineTop StartProof TotalProof TotalClass TotalTop EngineAX Start1Proof SeedProof EngineRuns.
Import ListNotations.
Local Open Scope R_scope.

Set Implicit Arguments.
Unset Strict Implicit.

(** arma::sort(x, "descend") *)
Definition valid_dsort (ds : list xr -> option (list xr)) : Prop :=
  forall l : list R, exists l', ds (map Fin l) = Some (map Fin l') /\ Permutation l l' /\ nondecreasing (rev l').
Lemma valid_dsort_exists : exists ds, valid_dsort ds.
Proof.
  destruct valid_vsort_exists as [vs Hvs]. exists (fun l => option_map (@rev _) (vs l)). intros l. destruct (Hvs l) as (l' & E & Hp & Hs).
  exists (rev l'). rewrite E. cbn [option_map]. split; [f_equal; symmetry; apply map_rev|]. split; [exact (perm_trans Hp (Permutation_rev l'))|]. rewrite rev_involutive. exact Hs.
Qed.
Lemma dsort_one ds x : valid_dsort ds -> ds [Fin x] = Some [Fin x].
Proof. intros H. destruct (H [x]) as (l' & E & Hp & _). cbn [map] in E. rewrite E. apply Permutation_length_1_inv in Hp. rewrite Hp. reflexivity. Qed.
(** a solver that never fails *)
Definition never_fails (sv : list (list (cx AX)) -> list (cx AX) -> option (list (cx AX))) : Prop := forall M r, sv M r <> None.
Lemma valid_solve_total : exists sv, valid_solve sv /\ never_fails sv.
Proof.
  destruct valid_solve_exists as [sv Hsv]. exists (fun M r => match sv M r with Some x => Some x | None => Some [] end). split.
  - intros n M r H1 H2 H3 H4. destruct (Hsv n M r H1 H2 H3 H4) as (x & E & Hx). exists x. rewrite E. split; [reflexivity|exact Hx].
  - intros M r. destruct (sv M r); discriminate.
Qed.

(** ** The example *)
Definition tV : list R := [0; 1; 2]. Definition yV : list R := [1; 2; 1]. Definition eV : list R := [1; 1; 1].
Lemma tV_inc : strictly_increasing tV.
Proof. intros i j Hij Hj. cbn in Hj. destruct j as [|[|[|j]]]; [lia| | |lia]; destruct i as [|[|i]]; cbn; try lra; lia. Qed.
Lemma yV_ne : exists a b, In a yV /\ In b yV /\ a <> b.
Proof. exists 1, 2. cbn. repeat split; [tauto|tauto|lra]. Qed.
(** a generator whose Armadillo part has two states *)
Definition rngV (k : R) : rng AX :=
  @mkRng AX unit bool (fun _ => tt)
    (fun lo hi g => (fadd AX lo (fmul AX (fsub AX hi lo) (Fin (1 / 2))), g))
    (fun lo _ g => (lo, g)) (fun mu _ g => (mu, g)) (fun dof g => (Fin (IZR dof), g)) (fun _ g => (Fin k, g)) (fun m _ g => (fexp AX m, g))
    (fun g => (Fin (if g then 1 / 3 else 2 / 3), g)) (fun g => (Fin 0, g)).
Lemma rngV_valid k : valid_rng (rngV k).
Proof.
  constructor; cbn.
  - intros lo hi _ H. exists (lo + (hi - lo) * (1 / 2)). split; [reflexivity|lra].
  - intros mu sd _ _. exists mu. reflexivity.
  - intros dof _ H. exists (IZR dof). split; [reflexivity|]. apply (IZR_lt 0), H.
  - intros dof _ _. exists k. reflexivity.
  - intros lo hi _ H. lia.
  - intros g. eexists. split; [reflexivity|]. destruct g; lra.
  - intros _. exists 0. reflexivity.
Qed.
(** the frequency drawn for the only pair of roots *)
Definition fq (a : bool) : R := exp (ln (1 / (1 / (2 - 0))) * (if a then 1 / 3 else 2 / 3) + ln (1 / (2 - 0))).
Lemma fq_range a : 1 / 2 < fq a < 1.
Proof.
  unfold fq. replace (1 / (2 - 0)) with (/ 2) by field. replace (1 / / 2) with 2 by field. rewrite ln_Rinv by lra.
  assert (0 < ln 2) as H by (rewrite <- ln_1; apply ln_increasing; lra). split.
  - replace (1 / 2) with (exp (- ln 2)) by (rewrite exp_Ropp, exp_ln by lra; field). apply exp_increasing. destruct a; nra.
  - apply Rlt_le_trans with (exp 0); [|rewrite exp_0; lra]. apply exp_increasing. destruct a; nra.
Qed.
Lemma fq_diff : fq true <> fq false.
Proof.
  intros E. apply (f_equal ln) in E. unfold fq in E. rewrite !ln_exp in E. replace (1 / (2 - 0)) with (/ 2) in E by field. replace (1 / / 2) with 2 in E by field.
  assert (0 < ln 2) as H by (rewrite <- ln_1; apply ln_increasing; lra). nra.
Qed.
Definition reV (a : bool) : R := - (2) * PI * fq a.
Definition imV (a : bool) : R := 2 * PI * fq a.
Definition logaV (a : bool) : list R := [ln (reV a * reV a + imV a * imV a); ln (- (2) * reV a)].
Lemma re_neg a : reV a < 0. Proof. unfold reV. pose proof (fq_range a). pose proof PI_RGT_0. nra. Qed.
Lemma im_pos a : 0 < imV a. Proof. unfold imV. pose proof (fq_range a). pose proof PI_RGT_0. nra. Qed.
Lemma logaV_diff : logaV true <> logaV false.
Proof.
  intros E. injection E as _ E. pose proof (re_neg true). pose proof (re_neg false). apply ln_inv in E; [|lra|lra]. apply fq_diff.
  unfold reV in E. pose proof PI_RGT_0. nra.
Qed.
(** the roots: one complex pair *)
Lemma rootsV a : rpair (ln (reV a * reV a + imV a * imV a)) (ln (- (2) * reV a)) = [(reV a, - imV a); (reV a, imV a)].
Proof.
  pose proof (re_neg a) as Hr. pose proof (im_pos a) as Hi. unfold rpair. rewrite !exp_ln by nra.
  destruct (Rlt_dec 0 _) as [H|_]; [exfalso; nra|].
  replace (- (- (2) * reV a * (- (2) * reV a) - 4 * (reV a * reV a + imV a * imV a))) with ((2 * imV a) * (2 * imV a)) by ring.
  rewrite sqrt_square by lra. repeat f_equal; field.
Qed.
Definition scV : R := Rmax (Rmin (1 / 50 * 50) (199 / 100)) (51 / 100).
Definition sdV : R := sqrt (svar yV / 2 * 2).
Definition thV (a : bool) : list R := sdV :: scV :: smean yV :: logaV a.
Lemma svarV : svar yV = 1 / 3.
Proof. unfold svar, smean, yV. cbn [List.length Rsum nth]. replace (INR 3) with 3 by (cbn; ring). field. Qed.
Lemma pvarV : pvar yV = 2 / 9.
Proof. unfold pvar, smean, yV. cbn [List.length Rsum nth]. replace (INR 3) with 3 by (cbn; ring). field. Qed.
Lemma sdV_range : 0 < sdV <= 10 * sqrt (pvar yV).
Proof.
  unfold sdV. rewrite svarV, pvarV. split; [apply sqrt_lt_R0; lra|]. replace 10 with (sqrt (10 * 10)) by (apply sqrt_square; lra). rewrite <- sqrt_mult by lra. apply sqrt_le_1; lra.
Qed.
Lemma boundsV smax fmin fmax : run_bounds tV yV smax fmin fmax -> smax = 10 * sqrt (pvar yV) /\ fmin = 1 / 2 /\ fmax = 1.
Proof.
  intros (H1 & H2 & _ & (i & Hi & H3) & H4). split; [exact H1|]. split; [rewrite H4; cbn; field|]. cbn in Hi.
  assert (1 / fmax = 1) as Q by (rewrite H3; destruct i as [|[|i]]; [cbn; ring|cbn; ring|lia]).
  apply (f_equal (fun x => x * fmax)) in Q. unfold Rdiv in Q. rewrite Rmult_assoc, Rinv_l in Q by lra. lra.
Qed.
Lemma in_priorV a smax fmin fmax : run_bounds tV yV smax fmin fmax -> in_prior smax fmin fmax (thV a) (qroots (thV a) 3 2).
Proof.
  intros HB. destruct (boundsV HB) as (-> & -> & ->). change (qroots (thV a) 3 2) with ((rpair (ln (reV a * reV a + imV a * imV a)) (ln (- (2) * reV a)) ++ []) ++ []).
  rewrite rootsV. cbn [app]. pose proof (re_neg a) as Hr. pose proof (im_pos a) as Hi. pose proof (fq_range a) as Hq. pose proof PI_RGT_0 as HP.
  assert (- reV a / (2 * PI) = fq a) as Q1 by (unfold reV; field; lra). assert (imV a / (2 * PI) = fq a) as Q2 by (unfold imV; field; lra).
  assert (Rabs (- imV a) = imV a) as A1 by (rewrite Rabs_Ropp; apply Rabs_pos_eq; lra). assert (Rabs (imV a) = imV a) as A2 by (apply Rabs_pos_eq; lra).
  constructor.
  - intros r [<-|[<-|[]]]; cbn [snd]; rewrite ?A1, ?A2, Q2; lra.
  - intros r [<-|[<-|[]]]; cbn [fst]; rewrite Q1; lra.
  - exact (Logic.conj (Rlt_le _ _ (proj1 sdV_range)) (proj2 sdV_range)).
  - cbn [nth thV]. pose proof (clamp_range (1 / 50 * 50)). unfold scV. lra.
  - intros i Hi'. cbn in Hi'. assert (i = 0%nat) as -> by lia. cbn [nth snd]. rewrite A1, A2. lra.
  - intros i j Hij Hj. cbn in Hj. assert (i = 0 /\ j = 1)%nat as [-> ->] by lia. cbn [nth]. unfold frac_apart.
    replace (Cplus (reV a, - imV a) (reV a, imV a)) with (2 * reV a, 0) by (unfold Cplus; cbn; f_equal; ring).
    replace (Cminus (reV a, - imV a) (reV a, imV a)) with (0, - (2) * imV a) by (unfold Cminus, Cplus, Copp; cbn; f_equal; ring).
    unfold Cmod. cbn [fst snd]. replace ((2 * reV a) ^ 2 + 0 ^ 2) with ((- (2) * reV a) * (- (2) * reV a)) by ring.
    replace (0 ^ 2 + (- (2) * imV a) ^ 2) with ((2 * imV a) * (2 * imV a)) by ring. rewrite !sqrt_square by lra.
    assert (imV a = - reV a) as -> by (unfold imV, reV; ring). lra.
Qed.

(** ** The starting value *)
Section StartV.
Variable solve : list (list (cx AX)) -> list (cx AX) -> option (list (cx AX)).
Hypothesis Hsv : valid_solve solve.
Hypothesis Hnf : never_fails solve.
Variable dsort : list (F AX) -> option (list (F AX)).
Hypothesis Hds : valid_dsort dsort.

Lemma set_filterp_total p st (b : base AX (kpx AX)) sig om scale mu : (2 <= p)%nat -> okt p st b -> List.length om = p ->
  exists b', set_filterp solve b sig om None scale mu = Ok b' /\ okt p st b'.
Proof using Hnf.
  intros Hp Hb Ho. set (maf := fun _ : list (F AX) => Ok (carp_ma AX p)).
  pose proof (@set_filterp_wp AX False True solve p (3 + p) maf (LogPrior AX) Hp (le_n _) st b sig om None scale mu I Hb Ho ltac:(discriminate)) as K.
  enough (exists b', set_filterp solve b sig om None scale mu = Ok b') as [b' E] by (exists b'; rewrite E in K; split; [exact E|exact K]).
  unfold set_filterp. cbv zeta.
  destruct (@load_ok _ _ _ _ (pcls solve p maf (LogPrior AX)) (@par_of AX) (fun om ma => (om, ma)) (@goodp AX) (@good_datap AX) (@Hsetp AX solve p maf (LogPrior AX)) b sig om (x_ma (k_ext (b_kf b))) scale mu (proj1 (proj1 Hb))) as (Hu & Hg & _).
  pose proof (@shape_ok AX solve _ Hu Hg) as Q. cbn [x_omega x_ma k_ext] in Q.
  match goal with |- context [Filter _ ?s] => assert (s = load (pcls solve p maf (LogPrior AX)) b sig om (x_ma (k_ext (b_kf b))) scale mu) as -> by reflexivity end.
  set (s := load _ _ _ _ _ _ _) in *.
  assert (x_omega (k_ext s) = om) as Eo by reflexivity. assert (x_ma (k_ext s) = x_ma (k_ext (b_kf b))) as Em by reflexivity.
  rewrite Eo, Em in Q. specialize (Q ltac:(lia) ltac:(rewrite (proj2 Hb), Ho; reflexivity)).
  destruct (solve _ _) as [J|] eqn:EJ; [|exfalso; exact (Hnf EJ)]. destruct Q as [[s' E] _]. rewrite E. eexists. reflexivity.
Qed.

Lemma StartingAR_V k (b : base AX (kpx AX)) smax fmin fmax (g : gen (rngV k)) :
  base_holds b tV yV eV (mkB AX (Fin smax) (Fin fmax) (Fin fmin) false) -> run_bounds tV yV smax fmin fmax ->
  StartingAR (R := rngV k) dsort 2 b g = Ok (map Fin (logaV (snd g)), g).
Proof using Hds.
  intros Hb HB. destruct (boundsV HB) as (_ & _ & ->). destruct Hb as (_ & Et & _ & _ & _ & Eb). destruct g as [[] a]. cbn [snd].
  unfold StartingAR. rewrite Et, Eb. cbn [max_freq].
  assert (vmax AX (map Fin tV) = Ok (Fin 2)) as ->.
  { unfold vmax, tV. cbn. destruct (Rlt_dec 0 1); [|lra]. cbn. destruct (Rlt_dec 1 2); [reflexivity|lra]. }
  assert (vmin AX (map Fin tV) = Ok (Fin 0)) as ->.
  { unfold vmin, tV. cbn. destruct (Rlt_dec 1 0); [lra|]. cbn. destruct (Rlt_dec 2 0); [lra|reflexivity]. }
  cbn [bind]. cbv zeta. change ((2 + 1) / 2)%nat with 1%nat.
  assert (fdiv AX (fofZ AX 1) (fsub AX (Fin 2) (Fin 0)) = Fin (1 / (2 - 0))) as -> by (refine (fin_div _ _ _); lra).
  assert (log_grid AX (Fin 1) (Fin (1 / (2 - 0))) (Fin (if a then 1 / 3 else 2 / 3)) = Fin (fq a)) as EG.
  { unfold log_grid. change (fdiv AX (Fin 1) (Fin (1 / (2 - 0)))) with (xdiv (Fin 1) (Fin (1 / (2 - 0)))). rewrite fin_div by lra.
    change (flog AX) with xlog. rewrite !fin_log by lra. reflexivity. }
  cbn [draws]. unfold on_a. cbn [a_randu rngV fst snd map].
  change (F AX) with xr in *. rewrite EG. rewrite (dsort_one _ Hds). cbn [Nat.odd Nat.even negb]. cbn [bind].
  change (2 / 2)%nat with 1%nat. cbn [for_ Nat.sub vget nth_error bind zeros repeat].
  assert (fmul AX (fmul AX (fneg AX (fofZ AX 2)) (fpi AX)) (Fin (fq a)) = Fin (reV a)) as -> by reflexivity.
  assert (fmul AX (fmul AX (fofZ AX 2) (fpi AX)) (Fin (fq a)) = Fin (imV a)) as -> by reflexivity.
  pose proof (re_neg a) as Hr. pose proof (im_pos a) as Hi.
  assert (flog AX (fadd AX (fmul AX (Fin (reV a)) (Fin (reV a))) (fmul AX (Fin (imV a)) (Fin (imV a)))) = Fin (ln (reV a * reV a + imV a * imV a))) as -> by (refine (fin_log _ _); nra).
  assert (flog AX (fmul AX (fneg AX (fofZ AX 2)) (Fin (reV a))) = Fin (ln (- (2) * reV a))) as -> by (refine (fin_log _ _); lra).
  reflexivity.
Qed.

Lemma ARRoots_V a : ARRoots AX 2 (map Fin (thV a)) = Ok (map FinC (qroots (thV a) 3 2)).
Proof. unfold ARRoots. apply quad_roots_Fin. cbn. lia. Qed.

Lemma start_V k fuel (b : base AX (kpx AX)) smax fmin fmax (g : gen (rngV k)) :
  base_holds b tV yV eV (mkB AX (Fin smax) (Fin fmax) (Fin fmin) false) -> run_bounds tV yV smax fmin fmax -> okt 2 (static_of b) b ->
  exists b', start_while dsort solve 2 (walker_cls solve 2 0 false) (fun g => ([], g)) false false (S fuel) b g = Ok (map Fin (thV (snd g)), b', g) /\ okt 2 (static_of b) b'.
Proof using Hsv Hnf Hds.
  intros Hb HB Hok. cbn [start_while]. unfold start_try. rewrite (@StartingAR_V k b smax fmin fmax g Hb HB). destruct g as [[] a]. cbn [bind snd]. cbv zeta. rewrite app_nil_r.
  pose proof Hb as (_ & _ & Ey & _).
  cbn [v_MA walker_cls Nat.eqb carp_cls pcls bind]. rewrite Ey.
  rewrite (vvar_Fin yV) by (cbn; lia). cbn [bind].
  unfold scaled_inverse_chisqr, on_b. cbn [b_chisqr rngV fst snd].
  change (dofs AX (map Fin yV)) with 2%Z. change (fofZ AX 2) with (Fin 2).
  assert (fdiv AX (Fin (svar yV)) (Fin 2) = Fin (svar yV / 2)) as -> by (refine (fin_div _ _ _); lra).
  change (fmul AX (Fin (svar yV / 2)) (Fin 2)) with (Fin (svar yV / 2 * 2)).
  assert (fsqrt AX (Fin (svar yV / 2 * 2)) = Fin sdV) as -> by (refine (fin_sqrt _ _); rewrite svarV; lra).
  rewrite (vmean_Fin yV) by discriminate. unfold rnorm, on_b. cbn [b_normal rngV fst snd].
  assert (ARRoots AX 2 (fofZ AX 0 :: fofZ AX 0 :: fofZ AX 0 :: map Fin (logaV a)) = Ok (map FinC (qroots (thV a) 3 2))) as -> by (refine (eq_trans _ (ARRoots_V a)); reflexivity).
  cbn [bind andb]. unfold draw_scale, scaled_inverse_chisqr, on_b. cbn [b_chisqr rngV fst snd].
  assert (clamp_scale AX (fmul AX (fdiv AX (fofZ AX 1) (Fin 50)) (fofZ AX 50)) = Fin scV) as ->.
  { change (fdiv AX (fofZ AX 1) (Fin 50)) with (xdiv (Fin 1) (Fin 50)). rewrite fin_div by lra. exact (clamp_Fin (1 / 50 * 50)). }
  match goal with |- context [set_filterp solve b ?sg ?om None ?sc ?mu] => destruct (@set_filterp_total 2 (static_of b) b sg om sc mu (le_n 2) Hok) as (b1 & -> & Hok1) end.
  { change (list (cx AX)) with (list (xr * xr)). rewrite map_length. apply qroots_len. }
  cbn [bind]. pose proof (base_holds_static Hb (proj1 Hok1)) as Hb1.
  destruct (@walker_finite solve tV yV eV eq_refl eq_refl tV_inc b1 smax fmin fmax 2 0 false (thV a) _ Hsv Hb1 (le_n 2) ltac:(right; lia) eq_refl (ARRoots_V a) (in_priorV a HB)) as (lp & b2 & EL).
  { cbn [nth thV]. pose proof sdV_range. lra. }
  cbn [walker_cls Nat.eqb] in EL. change (Fin sdV :: Fin scV :: Fin (smean yV) :: map Fin (logaV a)) with (map Fin (thV a)).
  rewrite EL. cbn [bind ffin AX xfin]. exists b2. split; [reflexivity|].
  pose proof (@LDp_wp AX False False solve 2 5 (fun _ => Ok (carp_ma AX 2)) (LogPrior AX) (le_n 2) (le_n 5)) as W.
  specialize (W ltac:(intros; apply carp_ma_len) ltac:(intros th Hth; apply LogPrior_wp; lia) (static_of b) b1 (map Fin (thV a)) Hok1 eq_refl).
  match type of W with wp _ _ _ ?x => replace x with (@Ok (F AX * base AX (kpx AX)) (Fin lp, b2)) in W by (symmetry; exact EL) end. exact W.
Qed.
End StartV.

(** ** Chains whose proposals are their current value *)
Lemma draws_zero n (g : gen (rngV 0)) : draws n (student_draw (R := rngV 0) (fofZ AX 0)) g = (map Fin (repeat 0 n), g).
Proof.
  induction n as [|n IH]; [reflexivity|]. cbn [draws repeat map]. change (student_draw (fofZ AX 0) g) with ((Fin (0 + 1 * 0)), (fst g, snd g)). rewrite <- surjective_pairing, IH.
  replace (0 + 1 * 0) with 0 by ring. reflexivity.
Qed.
Lemma rtmul_zero L : rtmul 5 L (repeat 0 5) = repeat 0 5.
Proof. unfold rtmul, vbuild, tmul, rv. cbn [seq map Rsum nth repeat]. repeat (apply f_equal2; [ring|]). reflexivity. Qed.
Section Still.
Variable X : Type.
Variable M : methodsP (rngV 0) X (list (F AX)).
Variable L : list (list R).
Hypothesis HL : CholProof.square 5 L.
Variable th : list R.
Hypothesis Hth : List.length th = 5%nat.
Definition idle (r : ram AX) : Prop := r_chol r = FinM L /\ r_maxiter r = 0%nat.
Lemma still_ram r (w : param AX X (list (F AX))) g r' w' g' : idle r -> w_value w = map Fin th -> ram_step M (@student_draw AX (rngV 0)) r w g = Ok (r', w', g') ->
  w_value w' = map Fin th /\ idle r'.
Proof using HL Hth.
  intros [Hr1 Hr2] Hv E. unfold ram_step in E. rewrite Hv in E.
  assert (@List.length (F AX) (map Fin th) = 5%nat) as Q5 by (rewrite map_length; exact Hth). rewrite Q5, draws_zero, Hr1 in E.
  assert (mtmul (A := AX) (FinM L) (map Fin (repeat 0 5)) = Ok (map Fin (repeat 0 5))) as Em.
  { rewrite <- (rtmul_zero L) at 2. apply mtmul_Fin; [exact HL|reflexivity]. }
  rewrite Em in E. cbn [bind] in E.
  assert (vadd AX (map Fin th) (map Fin (repeat 0 5)) = Ok (map Fin th)) as Ev.
  { rewrite vadd_Fin by (rewrite Hth; reflexivity). do 2 f_equal. destruct th as [|a [|b [|c [|d [|e [|? ?]]]]]]; try discriminate. unfold radd. cbn. rewrite !Rplus_0_r. reflexivity. }
  rewrite Ev in E. cbn [bind] in E.
  apply bind_Ok in E. destruct E as ([[[acc r1] w1] g2] & Ea & E). apply bind_Ok in E. destruct E as (w2 & Ew & E). apply bind_Ok in E. destruct E as (r2 & Er & E).
  injection E as <- <- _.
  assert (idle r1 /\ w_value w1 = map Fin th) as [[I1 I2] V1].
  { unfold ram_accept, LD in Ea. apply bind_Ok in Ea. destruct Ea as ([l w3] & El & Ea). apply bind_Ok in El. destruct El as ([l' x] & _ & Q). injection Q as _ <-.
    destruct (negb _); [injection Ea as _ <- <- _; repeat split; assumption|]. destruct (runiform _ _ _) as [uu g3]. destruct (flt _ _ _); injection Ea as _ <- <- _; repeat split; assumption. }
  split.
  - destruct acc; [|injection Ew as <-; exact V1]. unfold Save in Ew. apply bind_Ok in Ew. destruct Ew as ([l x] & _ & Q). injection Q as <-. reflexivity.
  - unfold ram_adapt in Er. rewrite I2 in Er. cbn [Nat.ltb Nat.leb andb] in Er. injection Er as <-. split; assumption.
Qed.
Lemma still_sweeps k y yk : sweeps M (@student_draw AX (rngV 0)) k y yk -> forall w r, y_pars y = [w] -> w_value w = map Fin th -> y_steps y = [SRam 0 r] -> idle r ->
  exists w' r', y_pars yk = [w'] /\ y_steps yk = [SRam 0 r'] /\ w_value w' = map Fin th /\ idle r'.
Proof using HL Hth.
  intros H. induction H as [y|k y y1 y2 _ IH H]; intros w r Ew Hv Er Hi.
  - exists w, r. repeat (split; [assumption|]). assumption.
  - destruct (IH _ _ Ew Hv Er Hi) as (w1 & r1 & E1 & E2 & E3 & E4). rewrite E1, E2 in H.
    inversion H as [|s ss ws g s' ws1 g1 ss' ws2 g2 Hd Hr]; subst. inversion Hr; subst.
    cbn [do_step vgetU nth_error bind] in Hd. apply bind_Ok in Hd. destruct Hd as ([[r' w'] g'] & Es & Q). injection Q as <- <- _.
    destruct (still_ram E4 E3 Es) as [S1 S2]. exists w', r'. split; [cbn; congruence|]. split; [congruence|]. split; [exact S1|exact S2].
Qed.
End Still.

(** ** Two runs with one seed *)
Section RunV.
Variable solve : list (list (cx AX)) -> list (cx AX) -> option (list (cx AX)).
Hypothesis Hsv : valid_solve solve.
Hypothesis Hnf : never_fails solve.
Variable dsort : list (F AX) -> option (list (F AX)).
Hypothesis Hds : valid_dsort dsort.
Variable si : list (F AX) -> option (list nat).
Variable chol : mat AX -> option (mat AX).
Hypothesis Hsi : valid_sort_index si.
Hypothesis Hch : valid_chol chol.

Lemma run_V fuel N thin raw v0 l0 a0 (g : gen (rngV 0)) : List.length v0 = 5%nat ->
  exists w g', RunCarmaSampler (R := rngV 0) dsort solve si chol (S fuel) N 0 (map Fin tV) (map Fin yV) (map Fin eV) 2 0 1 false thin [] raw v0 l0 a0 g = Ok (w, g') /\
    w_samples w = repeat (map Fin (thV (snd g))) N.
Proof using All.
  intros Hv0.
  destruct (@walker_prior si Hsi tV yV eV eq_refl eq_refl tV_inc yV_ne raw 2 false (le_n 2)) as (b & b1 & smax & fmin & fmax & Eb & E1 & Hb1 & HB).
  destruct (@chol_init chol 5 yV Hch yV_ne) as (L & EL & HL).
  assert (all_kept si (map Fin tV)) as Hk by (apply kept_distinct; [exact Hsi|apply increasing_NoDup, tV_inc]).
  destruct (@carp_new_okt AX si raw 2 (map Fin tV) (map Fin yV) (map Fin eV) b false eq_refl eq_refl Hk (le_n 2) Eb) as (Hwb & Hma & _).
  destruct (SetPrior_inv E1) as (_ & Ek1 & Hw1). set (st := static_of b1).
  assert (okt 2 st b1) as Hok by (split; [split; [exact (Hw1 Hwb)|reflexivity]|rewrite Ek1; exact Hma]).
  assert (forall x (g0 : gen (rngV 0)), okt 2 st x -> exists b', start_while (R := rngV 0) dsort solve 2 (walker_cls solve 2 0 false) (fun g => ([], g)) false false (S fuel) x g0 = Ok (map Fin (thV (snd g0)), b', g0) /\ okt 2 st b') as Hst.
  { intros x g0 Hx. assert (static_of x = st) as Es by exact (proj2 (proj1 Hx)).
    destruct (@start_V solve Hsv Hnf dsort Hds 0 fuel x smax fmin fmax g0 (base_holds_static Hb1 (proj1 Hx)) HB) as (b' & E & H); [rewrite Es; exact Hx|].
    exists b'. rewrite Es in H. split; [exact E|exact H]. }
  assert (exists w g', RunCarmaSampler (R := rngV 0) dsort solve si chol (S fuel) N 0 (map Fin tV) (map Fin yV) (map Fin eV) 2 0 1 false thin [] raw v0 l0 a0 g = Ok (w, g')) as (w & g' & E).
  { enough (exists x, RunCarmaSampler (R := rngV 0) dsort solve si chol (S fuel) N 0 (map Fin tV) (map Fin yV) (map Fin eV) 2 0 1 false thin [] raw v0 l0 a0 g = Ok x /\ True) as ([w g'] & E & _) by (exists w, g'; exact E).
    apply wp_total; [|apply carma_safe; lia].
    destruct (@RunCarma_eq AX (rngV 0) dsort solve si chol (S fuel) N 0 (map Fin tV) (map Fin yV) (map Fin eV) 2 0 1 false thin [] raw v0 l0 a0 g (le_n 2)) as [label ->].
    change (walker_dim 2 0 false) with 5%nat.
    assert (forall th : list (F AX), List.length th = 5%nat -> wp False False (fun m => List.length m = 2%nat) (Ok (carp_ma AX 2))) as HmaW by (intros; apply carp_ma_len).
    assert (forall th : list (F AX), List.length th = 5%nat -> wp False False (fun _ => True) (LogPrior AX th)) as HprW by (intros th Hth; apply LogPrior_wp; lia).
    eapply run_carma_wp with (ok := okt 2 st) (b := b) (b1 := b1) (L := FinM L); try assumption.
    - intros x v Hx Hv. exact (@LDp_wp AX False False solve 2 5 (fun _ => Ok (carp_ma AX 2)) (LogPrior AX) (le_n 2) (le_n 5) HmaW HprW st x v Hx Hv).
    - intros x v Hx Hv. exact (@savep_wp AX False False solve 2 5 (fun _ => Ok (carp_ma AX 2)) (LogPrior AX) (le_n 2) (le_n 5) HprW st x v Hx Hv).
    - intros x g0 Hx. cbn [List.length Nat.eqb]. destruct (Hst x g0 Hx) as (b' & Es & Hb'). 
      match goal with |- wp _ _ _ ?r => replace r with (@Ok (list (F AX) * base AX (kpx AX) * gen (rngV 0)) (map Fin (thV (snd g0)), b', g0)) by (symmetry; exact Es) end.
      split; [exact Hb'|reflexivity].
    - lia.
    - apply FinM_square, HL. }
  exists w, g'. split; [exact E|].
  destruct (RunCarma_inv E) as (b' & b1' & r & ex & s & label & _ & _ & Eb' & Eb1' & Er & Erun & Hw & ->).
  pose proof (eq_trans (eq_sym Eb) Eb') as Q. injection Q as <-. pose proof (eq_trans (eq_sym E1) Eb1') as Q. injection Q as <-.
  unfold ram_new in Er. change (walker_dim 2 0 false) with 5%nat in Er. rewrite EL in Er. injection Er as Er.
  assert (idle L r) as Hidle by (rewrite <- Er; split; reflexivity).
  destruct (Run_recorded Erun Hw) as (y0 & (Hss & use & ws1 & Hstd & Ho & _ & Huse) & (R1 & _ & R3 & _)).
  destruct ws1 as [|w1 [|? ?]]; try discriminate. clear Er. assert (List.length (w_samples w) <= N)%nat as R2 by lia. clear R1.
  cbn [hot_steps Nat.sub app] in Hstd, Hss, Huse. specialize (Huse _ _ eq_refl eq_refl).
  assert (use = false) as -> by (rewrite Huse; match goal with |- (_ =? @List.length _ ?v) = _ => change v with v0 end; rewrite Hv0; reflexivity).
  inversion Hstd as [|s0 ss0 ws0 ga w2 w0 ws2 gb ws3 gc Hn Hj _ _ _ _ _ Hws Hrest]; subst. cbn in Hn. injection Hn as <-.
  assert (w_obj w1 = b1) as Hob by (injection Ho as Ho; exact Ho). destruct Hj as (x1 & E2 & _). cbn [o_Start walker_par Nat.eqb par_carp parp] in E2. rewrite Hob in E2.
  destruct (Hst b1 g Hok) as (b' & E3 & _). cbn [walker_cls Nat.eqb] in E3. pose proof (eq_trans (eq_sym E3) E2) as Q. injection Q as Qv _ _.
  assert (y_pars y0 = [w0]) as Q3 by (cbn in Hrest; inversion Hrest; first [reflexivity|congruence]). symmetry in Qv.
  apply list_ext. intros i. destruct (Nat.lt_ge_cases i N) as [Hi|Hi].
  - destruct (R3 i Hi) as (yi & wi & Hsw & Hwi & V1 & _).
    destruct (@still_sweeps _ _ L (proj1 HL) (thV (snd g)) eq_refl _ _ _ Hsw w0 r Q3 Qv Hss Hidle) as (w' & r' & K1 & _ & K3 & _). rewrite K1 in Hwi. injection Hwi as <-.
    refine (eq_trans V1 _). rewrite nth_error_repeat by exact Hi. apply f_equal. exact K3.
  - refine (eq_trans (proj2 (nth_error_None _ _) _) _); [lia|]. symmetry. apply nth_error_None. rewrite repeat_length. exact Hi.
Qed.
End RunV.

(** the same data, settings and seed, two different samples *)
Theorem carma_seed_refuted : exists (R0 : rng AX) dsort solve si chol (t y e : list R) (g1 g2 : gen R0) (seed : Z),
  valid_rng R0 /\ valid_dsort dsort /\ valid_solve solve /\ valid_sort_index si /\ valid_chol chol /\
  List.length y = List.length t /\ List.length e = List.length t /\ strictly_increasing t /\ (exists a b, In a y /\ In b y /\ a <> b) /\
  forall fuel N thin raw v0 l0 a0, List.length v0 = 5%nat -> (0 < N)%nat -> exists w1 w2 g1' g2',
    RunCarmaSampler (A := AX) (R := R0) dsort solve si chol (S fuel) N 0 (map Fin t) (map Fin y) (map Fin e) 2 0 1 false thin [] raw v0 l0 a0 (SetSeed seed g1) = Ok (w1, g1') /\
    RunCarmaSampler (A := AX) (R := R0) dsort solve si chol (S fuel) N 0 (map Fin t) (map Fin y) (map Fin e) 2 0 1 false thin [] raw v0 l0 a0 (SetSeed seed g2) = Ok (w2, g2') /\
    w_samples w1 <> w_samples w2.
Proof.
  destruct valid_solve_total as (sv & Hsv & Hnf). destruct valid_dsort_exists as [ds Hds]. destruct valid_sort_index_exists as [si Hsi]. destruct valid_chol_exists as [ch Hch].
  exists (rngV 0), ds, sv, si, ch, tV, yV, eV, (tt, true), (tt, false), 7%Z. split; [apply rngV_valid|].
  repeat (split; [first [assumption|reflexivity|exact tV_inc|exact yV_ne]|]).
  intros fuel N thin raw v0 l0 a0 Hv0 HN.
  destruct (@run_V sv Hsv Hnf ds Hds si ch Hsi Hch fuel N thin raw v0 l0 a0 (SetSeed (R := rngV 0) 7 (tt, true)) Hv0) as (w1 & g1' & E1 & S1).
  destruct (@run_V sv Hsv Hnf ds Hds si ch Hsi Hch fuel N thin raw v0 l0 a0 (SetSeed (R := rngV 0) 7 (tt, false)) Hv0) as (w2 & g2' & E2 & S2).
  exists w1, w2, g1', g2'. split; [exact E1|]. split; [exact E2|]. rewrite S1, S2. destruct N as [|N]; [lia|]. cbn [repeat SetSeed snd]. intros Q.
  apply (f_equal (fun l : list (list xr) => nth 4 (hd [] l) NInf)) in Q. apply fq_diff. assert (ln (- (2) * reV true) = ln (- (2) * reV false)) as K by (cbn in Q; injection Q as Q; exact Q).
  pose proof (re_neg true). pose proof (re_neg false). apply ln_inv in K; [|lra|lra]. unfold reV in K. pose proof PI_RGT_0. nra.
Qed.
