(** CAR1 starting values (C43). *)
From Coq Require Import Reals List Arith ZArith Bool String Lra Lia Permutation.
From Verif Require Import Arith Res ListLemmas KFModel KF1Proof Spec Gauss Emb History InitProof OUpd SimProof KF1R KF1X KF1Main KF1More.
From Verif Require Import Cx KFpModel KFpProof SpecModel CarpackModel PriorProof LogLikProof LogLikMain CarpackTop CarpackRefute.
From Verif Require Import EngineModel StartModel EngineSpec EngineProof EngineInv CholProof RamProof EngineHist EngineClass EngineDriver EngineTop TotalProof TotalClass TotalTop EngineAX.
Import ListNotations.
Local Open Scope R_scope.

Set Implicit Arguments.
Unset Strict Implicit.

(** random numbers in the range of their distributions *)
Record valid_rng (R0 : rng AX) : Prop := {
  vr_uniform : forall lo hi g, lo < hi -> exists u, fst (b_uniform R0 (Fin lo) (Fin hi) g) = Fin u /\ lo <= u <= hi;
  vr_normal : forall mu sd g, 0 <= sd -> exists x, fst (b_normal R0 (Fin mu) (Fin sd) g) = Fin x;
  vr_chisqr : forall dof g, (0 < dof)%Z -> exists c, fst (b_chisqr R0 dof g) = Fin c /\ 0 < c;
  vr_student : forall dof g, 0 < dof -> exists x, fst (b_student R0 (Fin dof) g) = Fin x;
  vr_int : forall lo hi g, (lo <= hi)%Z -> (lo <= fst (b_int R0 lo hi g) <= hi)%Z;
  vr_randu : forall g, exists u, fst (a_randu R0 g) = Fin u /\ 0 < u < 1;
  vr_randn : forall g, exists x, fst (a_randn R0 g) = Fin x }.

(** med is the median of the numbers d *)
Definition is_median (d : list R) (med : R) : Prop :=
  exists s, Permutation d s /\ nondecreasing s /\
    med = if Nat.even (List.length d) then (nth (List.length d / 2 - 1) s 0 + nth (List.length d / 2) s 0) / 2 else nth (List.length d / 2) s 0.
Lemma vmedian_Fin vsort (d : list R) : valid_vsort vsort -> d <> [] -> exists med, vmedian AX vsort (map Fin d) = Ok (Fin med) /\ is_median d med.
Proof.
  intros Hvs Hd. destruct (Hvs d) as (s & Es & Hp & Hs). pose proof (Permutation_length Hp) as Hl.
  assert (0 < List.length d)%nat as H0 by (destruct d; [congruence|cbn; lia]).
  pose proof (Nat.div_lt (List.length d) 2 H0 ltac:(lia)) as Hlt.
  eexists. split; [|exists s; split; [exact Hp|]; split; [exact Hs|reflexivity]].
  unfold vmedian. rewrite Es, map_length. destruct (map Fin d) eqn:E; [destruct d; [congruence|discriminate]|].
  destruct (Nat.even (List.length d)).
  - change (F AX) with xr. rewrite !(vget_ok (map Fin s) (Fin 0)) by (rewrite map_length; lia). cbn [bind]. rewrite !nth_map_Fin.
    change (Ok (xdiv (Fin (nth (List.length d / 2 - 1) s 0 + nth (List.length d / 2) s 0)) (Fin 2)) = Ok (Fin ((nth (List.length d / 2 - 1) s 0 + nth (List.length d / 2) s 0) / 2))).
    rewrite fin_div by lra. reflexivity.
  - change (F AX) with xr. rewrite (vget_ok (map Fin s) (Fin 0)) by (rewrite map_length; lia). rewrite nth_map_Fin. reflexivity.
Qed.
Lemma median_range (d : list R) med a c : d <> [] -> is_median d med -> (forall x, In x d -> a <= x <= c) -> a <= med <= c.
Proof.
  intros Hd (s & Hp & Hs & ->) H. pose proof (Permutation_length Hp) as Hl.
  assert (0 < List.length d)%nat as H0 by (destruct d; [congruence|cbn; lia]).
  pose proof (Nat.div_lt (List.length d) 2 H0 ltac:(lia)) as Hlt.
  assert (forall i, (i < List.length d)%nat -> a <= nth i s 0 <= c) as K.
  { intros i Hi. apply H. apply (Permutation_in _ (Permutation_sym Hp)). apply nth_In. lia. }
  destruct (Nat.even _); [|apply K; lia]. pose proof (K (List.length d / 2 - 1)%nat ltac:(lia)). pose proof (K (List.length d / 2)%nat ltac:(lia)). lra.
Qed.
(** The starting value of the CAR(1) sampler as draws from the generator in state g: sd^2 from the scaled inverse
    chi-square with n-1 degrees of freedom at the sample variance, mu normal about the sample mean, omega the
    reciprocal of the median gap times a uniform number between 1 and 50, the measurement error scale from the scaled
    inverse chi-square with 50 degrees of freedom, clamped *)
Definition car1_drawn (R0 : rng AX) (t y : list R) (g : Gb R0) (sd scale mu lo med u : R) : Prop :=
  exists c c2 g1 g2 g3,
    b_chisqr R0 (Z.of_nat (List.length y) - 1) g = (Fin c, g1) /\ 0 < c /\ sd = sqrt (svar y / c * (INR (List.length y) - 1)) /\
    b_normal R0 (Fin (smean y)) (Fin (sd / INR (List.length y))) g1 = (Fin mu, g2) /\
    is_median (diffs AR t) med /\ b_uniform R0 (Fin 1) (Fin 50) g2 = (Fin u, g3) /\ 1 <= u <= 50 /\ exp lo = 1 / (med * u) /\
    fst (b_chisqr R0 50 g3) = Fin c2 /\ 0 < c2 /\ scale = Rmax (Rmin (1 / c2 * 50) (199 / 100)) (51 / 100).

Lemma clamp_Fin x : clamp_scale AX (Fin x) = Fin (Rmax (Rmin x (199 / 100)) (51 / 100)).
Proof.
  unfold clamp_scale, fmin, fmax. cbn [fdec AX flt xlt].
  destruct (Rlt_dec (199 / 100) x) as [H|H].
  - rewrite Rmin_right by lra. cbn [xlt]. destruct (Rlt_dec (199 / 100) (51 / 100)); [lra|]. rewrite Rmax_left by lra. reflexivity.
  - rewrite Rmin_left by lra. cbn [xlt]. destruct (Rlt_dec x (51 / 100)); [rewrite Rmax_right by lra|rewrite Rmax_left by lra]; reflexivity.
Qed.
Lemma clamp_range x : 51 / 100 <= Rmax (Rmin x (199 / 100)) (51 / 100) <= 199 / 100.
Proof.
  pose proof (Rmax_r (Rmin x (199 / 100)) (51 / 100)). split; [exact H|]. apply Rmax_lub; [apply Rmin_r|lra].
Qed.

Section Start.
Variable R0 : rng AX.
Hypothesis HR : valid_rng R0.
Variable vsort : list (F AX) -> option (list (F AX)).
Hypothesis Hvs : valid_vsort vsort.
Variables t y e : list R.
Variable b : base AX (F AX).
Variables smax fmin fmax : R.
Hypothesis Hb : base_holds b t y e (mkB AX (Fin smax) (Fin fmax) (Fin fmin) false).
Hypothesis Hf : 0 < fmax.
Hypothesis Hgap : forall i, (S i < List.length t)%nat -> 1 / fmax <= nth (S i) t 0 - nth i t 0.

Lemma draw_scale_Fin (g : gen R0) : exists c g', 0 < c /\ fst (b_chisqr R0 50 (fst g)) = Fin c /\ draw_scale g = (Fin (Rmax (Rmin (1 / c * 50) (199 / 100)) (51 / 100)), g').
Proof using HR.
  unfold draw_scale, scaled_inverse_chisqr, on_b. destruct (vr_chisqr HR (fst g) (eq_refl : (0 < 50)%Z)) as (c & Ec & Hc).
  destruct (b_chisqr R0 50 (fst g)) as [x b'] eqn:E. cbn [fst] in Ec. subst x. exists c. eexists. split; [exact Hc|]. split; [reflexivity|].
  change (fofZ AX 1) with (Fin 1). change (fofZ AX 50) with (Fin 50). change (fdiv AX) with xdiv. rewrite fin_div by lra.
  change (fmul AX (Fin (1 / c)) (Fin 50)) with (Fin (1 / c * 50)). rewrite clamp_Fin. reflexivity.
Qed.

Theorem start1_prior (g : gen R0) : exists sd scale mu lo med u b' g',
  Start1 vsort b g = Ok (map Fin [sd; scale; mu; lo], b', g') /\
  car1_drawn t y (fst g) sd scale mu lo med u /\
  51 / 100 <= scale <= 199 / 100 /\ 0 <= sd /\ 0 < med /\ exp lo <= fmax /\
  (in_prior1 smax fmin fmax [sd; scale; mu; lo] <-> sd <= smax /\ fmin <= 1 / (med * u)).
Proof using HR Hvs Hb Hf Hgap.
  pose proof Hb as (Hw & E1 & E2 & E3 & E4 & Ebd). destruct (base_holds_lens _ _ _ _ _ _ Hb) as (Ly & Le & Ln).
  unfold Start1. rewrite E2, vvar_Fin by lia. cbn [bind].
  assert (1 < INR (List.length y)) as Hn1 by (apply (lt_INR 1); lia).
  unfold scaled_inverse_chisqr at 1, on_b at 1, dofs. change (F AX) with xr in *. rewrite map_length.
  destruct (vr_chisqr HR (dof := Z.of_nat (List.length y) - 1) (fst g) ltac:(lia)) as (c1 & Ec1 & Hc1).
  destruct (b_chisqr R0 (Z.of_nat (List.length y) - 1) (fst g)) as [x1 gb1] eqn:Eg1. cbn [fst] in Ec1. subst x1.
  change (fdiv AX) with xdiv at 1. rewrite fin_div by lra.
  assert (fofZ AX (Z.of_nat (List.length y) - 1) = Fin (INR (List.length y) - 1)) as -> by (cbn [fofZ AX]; rewrite minus_IZR, IZR_nat; reflexivity).
  change (fmul AX (Fin (svar y / c1)) (Fin (INR (List.length y) - 1))) with (Fin (svar y / c1 * (INR (List.length y) - 1))).
  set (sd2 := svar y / c1 * (INR (List.length y) - 1)).
  assert (0 <= sd2) as Hsd2.
  { unfold sd2. apply Rmult_le_pos; [|lra]. apply Rmult_le_pos; [apply svar_nonneg; lia|]. apply Rlt_le, Rinv_0_lt_compat, Hc1. }
  change (fsqrt AX) with xsqrt. rewrite fin_sqrt by exact Hsd2. set (sd := sqrt sd2). assert (0 <= sd) as Hsd by apply sqrt_pos. cbv zeta.
  rewrite vmean_Fin by (intros ->; cbn in Ly; lia). unfold nobs. rewrite map_length. cbn [fofZ AX]. rewrite IZR_nat. change (fdiv AX) with xdiv. rewrite fin_div by lra.
  unfold rnorm, on_b at 1. cbn [fst snd].
  assert (0 <= sd / INR (List.length y)) as Hsn by (apply Rmult_le_pos; [exact Hsd|apply Rlt_le, Rinv_0_lt_compat; lra]).
  destruct (vr_normal HR (smean y) gb1 Hsn) as (mu & Emu).
  destruct (b_normal R0 (Fin (smean y)) (Fin (sd / INR (List.length y))) gb1) as [x2 gb2] eqn:Eg2. cbn [fst] in Emu. subst x2.
  rewrite E1, make_dt_Fin by exact Ln. cbn [bind].
  assert (List.length (diffs AR t) = List.length t - 1)%nat as Ld by apply dlen.
  assert (diffs AR t <> []) as Hne by (intros E; rewrite E in Ld; cbn in Ld; lia).
  destruct (vmedian_Fin Hvs Hne) as (med & Emed & Hmed). rewrite Emed. cbn [bind].
  assert (0 < 1 / fmax) as Hif by (apply Rdiv_lt_0_compat; lra).
  assert (1 / fmax <= med) as Hmedlo.
  { destruct (vmax_ok (diffs AR t) Hne) as (mx & _ & _ & Hmx). apply (@median_range (diffs AR t) med (1 / fmax) mx Hne Hmed). intros x Hx. split; [|apply Hmx, Hx].
    destruct (In_nth _ _ 0 Hx) as (i & Hi & <-). pose proof (eq_ind _ (fun k => (i < k)%nat) Hi _ Ld) as Hi2. cbv beta in Hi2. rewrite dnth by lia. apply Hgap. lia. }
  unfold runiform, on_b at 1. cbn [fst snd]. destruct (vr_uniform HR (lo := 1) (hi := 50) gb2 ltac:(lra)) as (u & Eu & Hu).
  change (fofZ AX 1) with (Fin 1). change (fofZ AX 50) with (Fin 50).
  destruct (b_uniform R0 (Fin 1) (Fin 50) gb2) as [x3 gb3] eqn:Eg3. cbn [fst] in Eu. subst x3.
  assert (0 < med * u) as Hmu by nra.
  rewrite Ebd. cbn [max_freq].
  change (fmul AX (Fin med) (Fin u)) with (Fin (med * u)). change (flog AX) with xlog. rewrite fin_log by exact Hmu.
  change (fmul AX (fneg AX (Fin 1)) (Fin (ln (med * u)))) with (Fin (- (1) * ln (med * u))).
  set (lo := - (1) * ln (med * u)).
  assert (exp lo = 1 / (med * u)) as Elo by (unfold lo; replace (- (1) * ln (med * u)) with (- ln (med * u)) by ring; rewrite exp_Ropp, exp_ln by exact Hmu; unfold Rdiv; ring).
  assert (1 / (med * u) <= fmax) as Hlo.
  { apply (Rmult_le_reg_r (med * u)); [exact Hmu|]. unfold Rdiv. rewrite Rmult_1_l, Rinv_l by lra.
    assert (1 = fmax * (1 / fmax)) as -> by (field; lra). apply Rmult_le_compat_l; [lra|]. nra. }
  assert (lo < fmax) as Hlt.
  { rewrite <- Elo in Hlo. pose proof (exp_ineq1_le lo). lra. }
  unfold Arith.fmin. cbn [flt AX xlt]. destruct (Rlt_dec fmax lo) as [|_]; [lra|].
  set (sigma := fmul AX (Fin sd) (xsqrt (fmul AX (Fin 2) (fexp AX (Fin lo))))).
  destruct (@draw_scale_Fin (gb3, snd g)) as (c2 & g4 & Hc2 & Ec2 & Esc). cbn [fst snd] in Esc, Ec2. rewrite Esc.
  set (scale := Rmax (Rmin (1 / c2 * 50) (199 / 100)) (51 / 100)) in *.
  assert (exists b', set_filter1 b (fexp AX (Fin lo)) (fmul AX sigma sigma) (Fin scale) (Fin mu) = Ok b') as [b' Eb'].
  { unfold set_filter1.
    destruct (@load_ok _ _ _ _ (car1_cls AX) (fun x => x) (fun om (_ : list (F AX)) => om) (@good1 AX) (@good_data1 AX) (@Hset1 AX) b (fmul AX sigma sigma) (fexp AX (Fin lo)) [] (Fin scale) (Fin mu) Hw) as (Hus & _ & _).
    pose proof (Filter1_ok (usable_wf' Hus)) as EF.
    match goal with |- context [Filter _ ?s] => change s with (load (car1_cls AX) b (fmul AX sigma sigma) (fexp AX (Fin lo)) [] (Fin scale) (Fin mu)) end. rewrite EF. eexists. reflexivity. }
  exists sd, scale, mu, lo, med, u, b', g4. split.
  { match goal with |- context [set_filter1 ?a ?b ?c ?d ?f] => change (set_filter1 a b c d f) with (set_filter1 a (fexp AX (Fin lo)) (fmul AX sigma sigma) (Fin scale) (Fin mu)) end. rewrite Eb'. reflexivity. }
  split.
  { exists c1, c2, gb1, gb2, gb3. split; [exact Eg1|]. split; [exact Hc1|]. split; [reflexivity|]. split; [exact Eg2|]. split; [exact Hmed|].
    split; [exact Eg3|]. split; [exact Hu|]. split; [exact Elo|]. split; [exact Ec2|]. split; [exact Hc2|reflexivity]. }
  split; [apply clamp_range|]. split; [exact Hsd|]. split; [lra|]. split; [rewrite Elo; exact Hlo|].
  unfold in_prior1. cbn [nth]. rewrite Elo. pose proof (clamp_range (1 / c2 * 50)) as Hs. fold scale in Hs. split; [tauto|]. intros [G1 G2]. lra.
Qed.
End Start.

(** ** A chain outside the prior never moves *)
Lemma stuck_accept (l T : xr) : ffin AX (fdiv AX (fsub AX l NInf) T) = false.
Proof. destruct l, T; try reflexivity; cbn; unfold rsgn; repeat (match goal with |- context [Rlt_dec ?x ?y] => destruct (Rlt_dec x y) end); reflexivity. Qed.
Section Stuck.
Variable R0 : rng AX.
Variable X : Type.
Variable M : methodsP R0 X (list (F AX)).
Variable draw : F AX -> gen R0 -> F AX * gen R0.
Lemma stuck_ram r (w : param AX X (list (F AX))) g r' w' g' : w_logpost w = NInf -> ram_step M draw r w g = Ok (r', w', g') ->
  w_value w' = w_value w /\ w_logpost w' = NInf.
Proof.
  intros Hl E. unfold ram_step in E. destruct (draws _ _ g) as [u g1]. apply bind_Ok in E. destruct E as (sc & _ & E). apply bind_Ok in E. destruct E as (new & _ & E).
  apply bind_Ok in E. destruct E as ([[[a r1] w1] g2] & Ea & E). apply bind_Ok in E. destruct E as (w2 & Ew & E). apply bind_Ok in E. destruct E as (r2 & _ & E).
  injection E as _ <- _. unfold ram_accept, LD in Ea. apply bind_Ok in Ea. destruct Ea as ([l w3] & El & Ea). apply bind_Ok in El. destruct El as ([l' x] & _ & Q). injection Q as <- <-.
  assert (ffin AX (fdiv AX (fsub AX l' (w_logpost w)) (w_temp w)) = false) as Hf by (rewrite Hl; apply stuck_accept).
  match type of Ea with context [negb ?c] => replace c with false in Ea by (symmetry; exact Hf) end. cbn [negb] in Ea. injection Ea as <- _ <- _. injection Ew as <-. split; [reflexivity|exact Hl].
Qed.
Lemma stuck_sweeps k y yk : sweeps M draw k y yk -> forall w, y_pars y = [w] -> w_logpost w = NInf -> (exists r, y_steps y = [SRam 0 r]) ->
  exists w' r', y_pars yk = [w'] /\ y_steps yk = [SRam 0 r'] /\ w_value w' = w_value w /\ w_logpost w' = NInf.
Proof.
  intros H. induction H as [y|k y y1 y2 _ IH H]; intros w Ew Hl [r Er].
  - exists w, r. repeat split; assumption.
  - destruct (IH _ Ew Hl (ex_intro _ r Er)) as (w1 & r1 & E1 & E2 & E3 & E4). rewrite E1, E2 in H.
    inversion H as [|s ss ws g s' ws1 g1 ss' ws2 g2 Hd Hr]; subst. inversion Hr; subst.
    cbn [do_step vgetU nth_error bind] in Hd. apply bind_Ok in Hd. destruct Hd as ([[r' w'] g'] & Es & Q). injection Q as <- <- _.
    destruct (stuck_ram E4 Es) as [S1 S2]. exists w', r'. split; [cbn; congruence|]. split; [congruence|]. split; [congruence|exact S2].
Qed.
End Stuck.

(** ** Runs of the CAR(1) sampler without a usable starting value *)
Lemma base_holds_static X (b b' : base AX X) t y e bd : base_holds b t y e bd -> okb (static_of b) b' -> base_holds b' t y e bd.
Proof.
  intros (_ & E1 & E2 & E3 & E4 & E5) [Hw Hs]. split; [exact Hw|].
  pose proof (f_equal (@st_time _) Hs) as S1. pose proof (f_equal (@st_y _) Hs) as S2. pose proof (f_equal (@st_yerr _) Hs) as S3.
  pose proof (f_equal (@st_ktime _) Hs) as S4. pose proof (f_equal (@st_bounds _) Hs) as S5. cbn in S1, S2, S3, S4, S5.
  repeat split; congruence.
Qed.
Section RunStart.
Variable R0 : rng AX.
Hypothesis HR : valid_rng R0.
Variable vsort : list (F AX) -> option (list (F AX)).
Variable si : list (F AX) -> option (list nat).
Variable chol : mat AX -> option (mat AX).
Hypothesis Hvs : valid_vsort vsort.
Hypothesis Hsi : valid_sort_index si.
Hypothesis Hch : valid_chol chol.
Variables t y e : list R.
Hypothesis Hy : List.length y = List.length t.
Hypothesis He : List.length e = List.length t.
Hypothesis Ht : strictly_increasing t.
Hypothesis Hne : exists a b, In a y /\ In b y /\ a <> b.

Theorem car1_start_real N burnin thin init raw v0 l0 a0 (g : gen R0) : List.length v0 = 4%nat -> List.length init <> 4%nat ->
  exists w g' sd scale mu lo med u smax fmin fmax,
    RunCar1Sampler vsort si chol N burnin (map Fin t) (map Fin y) (map Fin e) thin init raw v0 l0 a0 g = Ok (w, g') /\
    run_bounds t y smax fmin fmax /\ car1_drawn t y (fst g) sd scale mu lo med u /\
    0 <= sd /\ 51 / 100 <= scale <= 199 / 100 /\ 0 < med /\
    (in_prior1 smax fmin fmax [sd; scale; mu; lo] <-> sd <= smax /\ fmin <= 1 / (med * u)) /\
    (~ in_prior1 smax fmin fmax [sd; scale; mu; lo] ->
       forall i, (i < N)%nat -> nth_error (w_samples w) i = Some (map Fin [sd; scale; mu; lo]) /\ nth_error (w_logposts w) i = Some NInf) /\
    (in_prior1 smax fmin fmax [sd; scale; mu; lo] -> sd <> 0 ->
       forall i, (i < N)%nat -> exists v l, nth_error (w_samples w) i = Some v /\ nth_error (w_logposts w) i = Some (Fin l)).
Proof using All.
  intros Hv0 Hi. destruct (@car1_completes_real R0 vsort si chol Hvs Hsi Hch t y e Hy He Ht Hne N burnin thin init raw v0 l0 a0 g Hv0) as (w & g' & E).
  exists w, g'.
  assert (@List.length (F AX) (map Fin y) = @List.length (F AX) (map Fin t)) as Ly by (rewrite !map_length; exact Hy).
  assert (@List.length (F AX) (map Fin e) = @List.length (F AX) (map Fin t)) as Le by (rewrite !map_length; exact He).
  destruct (RunCar1_inv E) as (b & b1 & r & s & Eb & Eb1 & _ & Erun & Hw & ->).
  destruct (@car1_built si Hsi t y e Hy He Ht Hne raw) as (b' & fmin0 & fmax0 & Eb' & Hb' & _). pose proof (eq_trans (eq_sym Eb) Eb') as Q. injection Q as <-.
  destruct (@set_prior_built t y e Hy He Ht Hne _ b _ Hb' eq_refl) as (b1' & smax & fmin & fmax & Eb1' & Hb1 & HB). pose proof (eq_trans (eq_sym Eb1) Eb1') as Q. injection Q as <-.
  pose proof HB as (HB1 & HB2 & HB3 & _ & _).
  destruct (@start1_prior R0 HR vsort Hvs t y e b1 smax fmin fmax Hb1 HB2 HB3 g) as (sd & scale & mu & lo & med & u & b2 & g2 & Es & P0 & P1 & P2 & P4 & _ & P8).
  exists sd, scale, mu, lo, med, u, smax, fmin, fmax. repeat (split; [assumption|]).
  set (st := static_of b1). assert (okb st b1) as Hok by (split; [apply Hb1|reflexivity]).
  pose proof (Start1_ok Hok Es) as Hok2. pose proof (base_holds_static Hb1 Hok2) as Hb2.
  destruct (Run_recorded Erun Hw) as (y0 & (Hss & use & ws1 & Hst & Ho & _ & Huse) & Hrec).
  destruct ws1 as [|w1 [|? ?]]; try discriminate. injection Ho as Ho.
  specialize (Huse _ _ eq_refl eq_refl). cbn [new_param w_value] in Huse.
  assert (use = false) as -> by (rewrite Huse; apply Nat.eqb_neq; rewrite Hv0; exact Hi).
  inversion Hst as [|s0 ss0 ws0 g0 w2 w0 ws2 ga ws3 gb Hn Hj _ _ _ _ _ Hws Hrest]; subst. cbn in Hn. injection Hn as <-.
  destruct Hj as (x1 & E1 & E2). cbn [o_Start o_LogDensity par1 new_param w_obj] in E1, E2.
  pose proof (eq_trans (eq_sym Es) E1) as Q. injection Q as Qv Qx Qg.
  assert (LogDensity (car1_cls AX) b2 (map Fin [sd; scale; mu; lo]) = Ok (w_logpost w0, w_obj w0)) as E3.
  { refine (eq_trans _ E2). exact (f_equal2 (fun x v => LogDensity (car1_cls AX) x v) Qx Qv). }
  assert (y_pars y0 = [w0]) as Q3 by (inversion Hrest; symmetry; assumption).
  destruct Hrec as (R1 & R2 & R3 & _). split.
  - intros Hout i Hlt. pose proof (LD1_outside b2 t y e [sd; scale; mu; lo] _ fmin fmax false Hb2 (le_n 4) Hout) as EL. pose proof (eq_trans (eq_sym EL) E3) as Q. injection Q as Ql _.
    destruct (R3 i Hlt) as (yi & wi & Hsw & Hwi & V1 & V2). symmetry in Ql.
    destruct (stuck_sweeps Hsw Q3 Ql (ex_intro _ r Hss)) as (w' & r' & K1 & _ & K3 & K4). rewrite K1 in Hwi. injection Hwi as <-.
    rewrite V1, V2, K3, K4. split; [|reflexivity]. apply f_equal. symmetry. exact Qv.
  - intros Hin Hsd i Hlt. destruct (LD1_inside b2 t y e [sd; scale; mu; lo] _ fmin fmax false Hb2 Ht (le_n 4) Hin Hsd) as (m & v & b3 & EL & _).
    pose proof (eq_trans (eq_sym EL) E3) as Q. injection Q as Ql _. destruct (R3 i Hlt) as (yi & wi & Hsw & Hwi & V1 & V2).
    assert (Forall (@inv AX _ (@okb AX _ st) (pld1 st)) (y_pars y0)) as Hi0.
    { rewrite Q3. constructor; [|constructor]. destruct (LD1_ok Hok2 E3) as [L1 L2]. split; [exact L2|]. refine (eq_trans _ L1). apply f_equal. symmetry. exact Qv. }
    assert (Forall (@finw AX (base AX (F AX))) (y_pars y0)) as Hf0 by (rewrite Q3; constructor; [exact (eq_trans (f_equal (ffin AX) (eq_sym Ql)) eq_refl)|constructor]).
    pose proof (proj1 (Forall_nth_error _ _) (sweeps_fin (P := par1 R0 vsort) (ok := @okb AX _ st) (pld := pld1 st) (fun x v l x' H E => @LD1_ok AX st x v l x' H E) (fl_ratio finite_laws_AX) Hsw Hi0 Hf0) _ _ Hwi) as F1.
    unfold finw in F1. destruct (w_logpost wi) as [l| | |] eqn:Ewi; try discriminate. exists (w_value wi), l. split; [exact V1|]. rewrite V2. f_equal.
Qed.
End RunStart.

Lemma list_ext T (l l' : list T) : (forall i, nth_error l i = nth_error l' i) -> l = l'.
Proof.
  revert l'; induction l as [|a l IH]; intros [|b l'] H; try reflexivity; try (specialize (H 0%nat); discriminate).
  f_equal; [specialize (H 0%nat); injection H as ->; reflexivity|]. apply IH. intros i. exact (H (S i)).
Qed.
(** ** A run that never leaves a point outside the prior *)
(** a generator: every distribution returns a fixed number of its range *)
Definition rngW : rng AX :=
  @mkRng AX unit unit (fun _ => tt)
    (fun lo hi g => (fadd AX lo (fmul AX (fsub AX hi lo) (Fin (9 / 49))), g))
    (fun lo _ g => (lo, g)) (fun mu _ g => (mu, g)) (fun dof g => (Fin (IZR dof), g)) (fun _ g => (Fin 1, g)) (fun m _ g => (fexp AX m, g))
    (fun g => (Fin (1 / 2), g)) (fun g => (Fin 0, g)).
Lemma rngW_valid : valid_rng rngW.
Proof.
  constructor; cbn.
  - intros lo hi _ H. exists (lo + (hi - lo) * (9 / 49)). split; [reflexivity|lra].
  - intros mu sd _ _. exists mu. reflexivity.
  - intros dof _ H. exists (IZR dof). split; [reflexivity|]. apply (IZR_lt 0), H.
  - intros dof _ _. exists 1. reflexivity.
  - intros lo hi _ H. lia.
  - intros _. exists (1 / 2). split; [reflexivity|lra].
  - intros _. exists 0. reflexivity.
Qed.
Theorem car1_start_stuck : exists (R0 : rng AX) vsort si chol (t y e : list R), valid_rng R0 /\ valid_vsort vsort /\ valid_sort_index si /\ valid_chol chol /\
  List.length y = List.length t /\ List.length e = List.length t /\ strictly_increasing t /\ (exists a b, In a y /\ In b y /\ a <> b) /\
  forall N burnin thin raw v0 l0 a0 (g : gen R0), List.length v0 = 4%nat ->
  exists w g' v, RunCar1Sampler (A := AX) (R := R0) vsort si chol N burnin (map Fin t) (map Fin y) (map Fin e) thin [] raw v0 l0 a0 g = Ok (w, g') /\
    w_samples w = repeat v N /\ w_logposts w = repeat NInf N.
Proof.
  destruct valid_vsort_exists as [vs Hvs]. destruct valid_sort_index_exists as [si Hsi]. destruct valid_chol_exists as [ch Hch].
  exists rngW, vs, si, ch, [0; 1; 2], [1; 2; 1], [1; 1; 1].
  assert (strictly_increasing [0; 1; 2]) as Ht.
  { intros i j Hij Hj. cbn in Hj. destruct j as [|[|[|j]]]; [lia| | |lia]; destruct i as [|[|i]]; cbn; try lra; lia. }
  assert (exists a b, In a [1; 2; 1] /\ In b [1; 2; 1] /\ a <> b) as Hne by (exists 1, 2; cbn; repeat split; [tauto|tauto|lra]).
  split; [exact rngW_valid|]. repeat (split; [first [assumption|reflexivity]|]).
  intros N burnin thin raw v0 l0 a0 g Hv0.
  destruct (@car1_start_real rngW rngW_valid vs si ch Hvs Hsi Hch [0; 1; 2] [1; 2; 1] [1; 1; 1] eq_refl eq_refl Ht Hne N burnin thin [] raw v0 l0 a0 g Hv0 ltac:(discriminate))
    as (w & g' & sd & scale & mu & lo & med & u & smax & fmin & fmax & E & (_ & _ & _ & _ & HB) & Hd & _ & _ & _ & Hin & Hout & _).
  exists w, g', (map Fin [sd; scale; mu; lo]). split; [exact E|].
  assert (~ in_prior1 smax fmin fmax [sd; scale; mu; lo]) as Hno.
  { rewrite Hin. intros [_ H]. destruct Hd as (c & c2 & g1 & g2 & g3 & _ & _ & _ & _ & Hm & Hu & _). cbn in Hu. injection Hu as Hu _.
    assert (1 <= med <= 1) as Hmed.
    { apply (@median_range (diffs AR [0; 1; 2]) med 1 1); [discriminate|exact Hm|]. intros x Hx. cbn in Hx. destruct Hx as [<-|[<-|[]]]; lra. }
    assert (med = 1) as -> by lra. cbn in HB. rewrite HB, <- Hu in H. clear -H. assert (1 / (2 - 0) = / 2) as Q by field. rewrite Q in H.
    assert (1 / (1 * (1 + (50 - 1) * (9 / 49))) = / 10) as Q' by field. rewrite Q' in H. lra. }
  specialize (Hout Hno). destruct (car1_recorded E) as (_ & _ & y0 & _ & L1 & L2 & _).
  split; apply list_ext; intros i; destruct (Nat.lt_ge_cases i N) as [Hi|Hi].
  - destruct (Hout i Hi) as [H _]. refine (eq_trans H _). symmetry. apply nth_error_repeat, Hi.
  - refine (eq_trans (proj2 (nth_error_None _ _) _) _); [lia|]. symmetry. apply nth_error_None. rewrite repeat_length. exact Hi.
  - destruct (Hout i Hi) as [_ H]. refine (eq_trans H _). symmetry. apply nth_error_repeat, Hi.
  - refine (eq_trans (proj2 (nth_error_None _ _) _) _); [lia|]. symmetry. apply nth_error_None. rewrite repeat_length. exact Hi.
Qed.
