(** The first sample of a CAR(1) run, and runs on measured values in another unit (C118). *)
From Coq Require Import Reals List Arith ZArith Bool String Lra Lia Permutation.
From Verif Require Import Arith Res ListLemmas KFModel KF1Proof Spec Gauss Emb History InitProof OUpd SimProof KF1R KF1X KF1Main KF1More.
From Verif Require Import Cx KFpModel KFpProof SpecModel CarpackModel PriorProof LogLikProof LogLikMain CarpackTop CarpackRefute.
From Verif Require Import EngineModel StartModel EngineSpec EngineProof EngineInv CholProof RamProof EngineHist EngineClass EngineDriver EngineTop TotalProof TotalClass TotalTop EngineAX Start1Proof EngineRuns StaleProof Balance EngineReal.
From Verif Require ZeroProof.
Import ListNotations.
Local Open Scope R_scope.
Local Notation length := List.length.

Set Implicit Arguments.
Unset Strict Implicit.

(** the Cholesky factor of the initial proposal covariance is diagonal *)
Lemma factor_diag (y : list R) (L : list (list R)) : factor 4 (pdiag y) L ->
  forall i j, (i < 4)%nat -> (j < 4)%nat -> if (i =? j)%nat then 0 < rent L i i /\ rent L i i * rent L i i = pdiag y i i else rent L i j = 0.
Proof.
  intros (_ & Hu & Hd & HG).
  assert (forall i j, (i < 4)%nat -> (j < 4)%nat -> i <> j -> gram 4 (rent L) i j = 0) as HG0.
  { intros i j Hi Hj Hij. rewrite HG by assumption. unfold pdiag. destruct (Nat.eqb_spec i j); [contradiction|reflexivity]. }
  pose proof (Hu 1%nat 0%nat ltac:(lia) ltac:(lia)) as U10. pose proof (Hu 2%nat 0%nat ltac:(lia) ltac:(lia)) as U20. pose proof (Hu 3%nat 0%nat ltac:(lia) ltac:(lia)) as U30.
  pose proof (Hu 2%nat 1%nat ltac:(lia) ltac:(lia)) as U21. pose proof (Hu 3%nat 1%nat ltac:(lia) ltac:(lia)) as U31. pose proof (Hu 3%nat 2%nat ltac:(lia) ltac:(lia)) as U32.
  pose proof (HG0 0%nat 2%nat ltac:(lia) ltac:(lia) ltac:(lia)) as G02. pose proof (HG0 0%nat 3%nat ltac:(lia) ltac:(lia) ltac:(lia)) as G03.
  pose proof (HG0 1%nat 2%nat ltac:(lia) ltac:(lia) ltac:(lia)) as G12. pose proof (HG0 1%nat 3%nat ltac:(lia) ltac:(lia) ltac:(lia)) as G13.
  pose proof (HG0 2%nat 3%nat ltac:(lia) ltac:(lia) ltac:(lia)) as G23. pose proof (HG0 0%nat 1%nat ltac:(lia) ltac:(lia) ltac:(lia)) as G01.
  pose proof (Hd 0%nat ltac:(lia)) as D0. pose proof (Hd 1%nat ltac:(lia)) as D1. pose proof (Hd 2%nat ltac:(lia)) as D2. pose proof (Hd 3%nat ltac:(lia)) as D3.
  pose proof (HG 0%nat 0%nat ltac:(lia) ltac:(lia)) as G00. pose proof (HG 1%nat 1%nat ltac:(lia) ltac:(lia)) as G11.
  pose proof (HG 2%nat 2%nat ltac:(lia) ltac:(lia)) as G22. pose proof (HG 3%nat 3%nat ltac:(lia) ltac:(lia)) as G33.
  unfold gram in *. cbn [Rsum] in *. rewrite U10, U20, U30, U21, U31, U32 in *.
  assert (forall a b, 0 < a -> 0 + a * b + 0 * 0 + 0 * 0 + 0 * 0 = 0 -> b = 0) as Z by (intros a b Ha Hb; apply Rmult_eq_reg_l with a; lra).
  assert (rent L 0 1 = 0) as Z1 by (apply (Rmult_eq_reg_l (rent L 0 0)); lra). assert (rent L 0 2 = 0) as Z2 by (apply (Rmult_eq_reg_l (rent L 0 0)); lra).
  assert (rent L 0 3 = 0) as Z3 by (apply (Rmult_eq_reg_l (rent L 0 0)); lra). rewrite Z1, Z2, Z3 in *.
  assert (rent L 1 2 = 0) as Z4 by (apply (Rmult_eq_reg_l (rent L 1 1)); lra). assert (rent L 1 3 = 0) as Z5 by (apply (Rmult_eq_reg_l (rent L 1 1)); lra). rewrite Z4, Z5 in *.
  assert (rent L 2 3 = 0) as Z6 by (apply (Rmult_eq_reg_l (rent L 2 2)); lra). rewrite Z6 in *.
  intros i j Hi Hj. destruct i as [|[|[|[|i]]]]; try lia; destruct j as [|[|[|[|j]]]]; try lia; cbn [Nat.eqb]; try assumption; split; try assumption; lra.
Qed.
(** the proposal from x with the unit proposal u *)
Lemma jump_diag (y : list R) L (x0 x1 x2 x3 u0 u1 u2 u3 : R) : factor 4 (pdiag y) L ->
  jump 4 L [x0; x1; x2; x3] [u0; u1; u2; u3] = [x0 + rent L 0 0 * u0; x1 + rent L 1 1 * u1; x2 + rent L 2 2 * u2; x3 + rent L 3 3 * u3].
Proof.
  intros HL. pose proof (factor_diag HL) as D.
  assert (forall i j, (i < 4)%nat -> (j < 4)%nat -> (i =? j)%nat = false -> rent L i j = 0) as Z by (intros i j Hi Hj E; specialize (D i j Hi Hj); rewrite E in D; exact D).
  unfold jump, radd, rtmul, vbuild, tmul, rv. cbn [seq map Rsum nth combine fst snd].
  rewrite (Z 1%nat 0%nat), (Z 2%nat 0%nat), (Z 3%nat 0%nat), (Z 0%nat 1%nat), (Z 2%nat 1%nat), (Z 3%nat 1%nat), (Z 0%nat 2%nat), (Z 1%nat 2%nat), (Z 3%nat 2%nat), (Z 0%nat 3%nat), (Z 1%nat 3%nat), (Z 2%nat 3%nat) by (lia || reflexivity).
  repeat (apply f_equal2; [ring|]). reflexivity.
Qed.

Section First.
Variable R0 : rng AX.
Variables (vsort : list (F AX) -> option (list (F AX))) (si : list (F AX) -> option (list nat)) (chol : mat AX -> option (mat AX)).
Hypothesis Hvs : valid_vsort vsort.
Hypothesis Hsi : valid_sort_index si.
Hypothesis Hch : valid_chol chol.
Variables t y e : list R.
Hypothesis Hy : length y = length t.
Hypothesis He : length e = length t.
Hypothesis Ht : strictly_increasing t.
Hypothesis Hne : exists a b, In a y /\ In b y /\ a <> b.
Variables smax fmin fmax : R.
Hypothesis HB : run_bounds t y smax fmin fmax.

(** a run of one sample without burn-in: the starting vector, moved by one step with the initial proposal scale *)
Lemma first_sample (init u : list R) (uu : R) raw v0 l0 a0 (g g1 g2 : gen R0) w g' : length init = 4%nat -> in_prior1 smax fmin fmax init -> nth 0 init 0 <> 0 -> length v0 = 4%nat ->
  draws 4 (student_draw (R := R0) (Fin 0)) g = (map Fin u, g1) -> length u = 4%nat -> 0 <= uu -> @runiform AX R0 (Fin 0) (Fin 1) g1 = (Fin uu, g2) ->
  RunCar1Sampler (A := AX) (R := R0) vsort si chol 1 0 (map Fin t) (map Fin y) (map Fin e) 1 (map Fin init) raw v0 l0 a0 g = Ok (w, g') ->
  exists L (ell : list R -> xr), factor 4 (pdiag y) L /\ w_samples w = [map Fin (ram_next 4 ell L 1 init u uu)] /\
    (forall x, length x = 4%nat -> in_prior1 smax fmin fmax x -> nth 0 x 0 <> 0 -> exists l, ell x = Fin l) /\
    (forall x, length x = 4%nat -> ~ in_prior1 smax fmin fmax x -> ell x = NInf).
Proof using All.
  intros Li Hin Hi0 Hv0 Hdr Lu Huu Hun E.
  destruct (@car1_built si Hsi t y e Hy He Ht Hne raw) as (b & fmin0 & fmax0 & Eb & Hb & _).
  destruct (@set_prior_built t y e Hy He Ht Hne _ b _ Hb eq_refl) as (b1 & smax' & fmin' & fmax' & Eb1 & Hb1 & HB').
  destruct (run_bounds_unique HB HB') as (-> & -> & ->).
  destruct (@chol_init chol 4 y Hch Hne) as (L & EL & HL).
  set (st := static_of b1). assert (okb st b1) as Hok by (split; [apply Hb1|reflexivity]).
  set (ell := fun x : list R => match pld1 st (map Fin x) with Ok l => l | _ => NaN end : xr).
  assert (forall x o, length x = 4%nat -> okb st o -> exists o', LogDensity (car1_cls AX) o (map Fin x) = Ok (ell x, o')) as Hev.
  { intros x o Lx Ho. assert (length (map Fin x) = 4%nat) as Lx' by (rewrite map_length; exact Lx).
    pose proof (@LD1_wp AX False False st o (map Fin x) Ho Lx') as W. pose proof (@safe_LD1 AX o (map Fin x)) as W2. unfold wp, safe in *. destruct (LogDensity (car1_cls AX) o (map Fin x)) as [[l o']|[|]| |] eqn:Eo; try contradiction; try (exfalso; exact W).
    exists o'. assert (ell x = l) as -> by exact (f_equal (fun r : res xr => match r with Ok l => l | _ => NaN end) (proj1 (LD1_ok Ho Eo))). reflexivity. }
  destruct (Hev init b1 Li Hok) as (b2 & E0).
  assert (forall x, length x = 4%nat -> in_prior1 smax fmin fmax x -> nth 0 x 0 <> 0 -> exists l, ell x = Fin l) as Hfin.
  { intros x Lx Hx H0. destruct (LD1_inside b1 t y e x _ _ _ false Hb1 Ht (eq_ind_r (fun n => (4 <= n)%nat) (le_n 4) Lx) Hx H0) as (m & v & b3 & E3 & _).
    eexists. exact (f_equal (fun r : res xr => match r with Ok l => l | _ => NaN end) (proj1 (LD1_ok Hok E3))). }
  assert (forall x, length x = 4%nat -> ~ in_prior1 smax fmin fmax x -> ell x = NInf) as Hout.
  { intros x Lx Hx. pose proof (LD1_outside b1 t y e x _ _ _ false Hb1 (eq_ind_r (fun n => (4 <= n)%nat) (le_n 4) Lx) Hx) as E3.
    exact (f_equal (fun r : res xr => match r with Ok l => l | _ => NaN end) (proj1 (LD1_ok Hok E3))). }
  destruct (Hfin init Li Hin Hi0) as (lp0 & Hlp0).
  destruct (@car1_starts_at_init AX R0 vsort si chol 1 0 (map Fin t) (map Fin y) (map Fin e) 1 (map Fin init) raw v0 l0 a0 g w g' b b1 (ell init) b2)
    as (r & y0 & w0 & Er & Hbeg & Hrec & Hg & Ey & Hv & Hl & Hok0); try assumption; try reflexivity; try (rewrite ?map_length; assumption).
  { apply kept_distinct; [exact Hsi|apply increasing_NoDup, Ht]. }
  { rewrite Hlp0. reflexivity. }
  destruct Hbeg as (Hss & use & ws1 & Hst & _ & Htm & _).
  assert (w_temp w0 = Fin 1) as HT by (pose proof (eq_trans (started_temps Hst) Htm) as Q; rewrite Ey in Q; injection Q as Q; exact Q).
  assert (r_chol r = FinM L) as Hr by (unfold ram_new in Er; rewrite EL in Er; injection Er as <-; reflexivity). clear Er Hst Htm.
  destruct Hrec as (Ls & _ & Hrec & _). destruct (Hrec 0%nat ltac:(lia)) as (yn & wn & Hsw & Hwn & Q1 & _).
  inversion Hsw as [|k ya yb yc Hs0 Hio]; subst. inversion Hs0; subst. clear Hsw Hs0. rewrite Hss, Ey in Hio.
  inversion Hio as [|s ss ws g0 s' ws2 g3 ss' ws3 g4 Hd Hr2]; subst. inversion Hr2; subst. clear Hio Hr2.
  cbn [do_step vgetU nth_error bind] in Hd. apply bind_Ok in Hd. destruct Hd as ([[r' w'] gg] & Es & Q). injection Q as _ Q _.
  match type of Q with _ = y_pars ?yy => assert (y_pars yy = [w']) as Qw by (symmetry; exact Q) end. rewrite Qw in Hwn. injection Hwn as <-. clear Q Qw.
  exists L, ell. split; [exact HL|]. split; [|split; [exact Hfin|exact Hout]].
  assert (length (jump 4 L init u) = 4%nat) as Lj by (unfold jump, radd, rtmul; rewrite map_length, combine_length, vbuild_len, Li; reflexivity).
  destruct (Hev (jump 4 L init u) (w_obj w0) Lj Hok0) as (o & Eo).
  pose proof (@ram_next_code R0 _ (par1 R0 vsort) (@student_draw AX R0) 4 ell L 1 r w0 _ u g1 uu g2 init o r' w' gg Eo
    (Logic.conj Hr (Logic.conj (proj1 HL) (Logic.conj (proj1 (proj2 HL)) (proj1 (proj2 (proj2 HL)))))) Li Hv Hl HT Hdr Lu Huu Hun Es) as Hnext.
  rewrite Hnext in Q1. destruct (w_samples w) as [|s1 [|? ?]]; try discriminate. cbn in Q1. injection Q1 as ->. reflexivity.
Qed.
End First.

(** ** Another unit of the measured values *)
Definition rscale (c : R) (l : list R) : list R := map (fun x => c * x) l.
Lemma rscale_nth c l i : nth i (rscale c l) 0 = c * nth i l 0.
Proof. unfold rscale. rewrite <- (map_nth (fun x => c * x)). f_equal. ring. Qed.
Lemma smean_rscale c l : smean (rscale c l) = c * smean l.
Proof.
  unfold smean. replace (List.length (rscale c l)) with (List.length l) by (unfold rscale; rewrite map_length; reflexivity).
  unfold Rdiv. rewrite <- Rmult_assoc. f_equal. rewrite <- Rsum_scal. apply Rsum_ext. intros i _. apply rscale_nth.
Qed.
Lemma pvar_rscale c l : pvar (rscale c l) = c ^ 2 * pvar l.
Proof.
  unfold pvar. replace (List.length (rscale c l)) with (List.length l) by (unfold rscale; rewrite map_length; reflexivity).
  unfold Rdiv. rewrite <- Rmult_assoc. f_equal. rewrite <- Rsum_scal. apply Rsum_ext. intros i _. rewrite rscale_nth, smean_rscale. ring.
Qed.
Lemma run_bounds_rscale c t y smax fmin fmax : 0 < c -> run_bounds t y smax fmin fmax -> run_bounds t (rscale c y) (c * smax) fmin fmax.
Proof.
  intros Hc (-> & H). split; [|exact H]. rewrite pvar_rscale, sqrt_mult_alt by apply pow2_ge_0. rewrite sqrt_pow2 by lra. ring.
Qed.
(** size of the first trial move of the standard deviation *)
Lemma first_scale (y : list R) L : factor 4 (pdiag y) L -> (exists a b, In a y /\ In b y /\ a <> b) -> rent L 0 0 = sqrt (2 / INR (length y)) * pvar y.
Proof.
  intros HL Hne. destruct (factor_diag HL (i := 0) (j := 0) ltac:(lia) ltac:(lia)) as [Hp Hq]. pose proof (pvar_pos Hne) as Hv.
  assert (0 < INR (length y)) as Hn. { apply lt_0_INR. destruct Hne as (a & b & Ha & _). destruct y; [destruct Ha|cbn; lia]. }
  rewrite <- (sqrt_square (rent L 0 0)) by lra. rewrite Hq. unfold pdiag. cbn [Nat.eqb negb].
  replace (2 * pvar y * pvar y / INR (length y)) with (2 / INR (length y) * (pvar y * pvar y)) by (field; lra).
  rewrite sqrt_mult_alt by (apply Rmult_le_pos; [lra|left; apply Rinv_0_lt_compat, Hn]). rewrite sqrt_square by lra. reflexivity.
Qed.
Lemma other_scale (y : list R) L : factor 4 (pdiag y) L -> (exists a b, In a y /\ In b y /\ a <> b) ->
  rent L 1 1 = 1 / 100 /\ rent L 2 2 = sqrt (pvar y / INR (length y)) /\ rent L 3 3 = 1 / 100.
Proof.
  intros HL Hne. pose proof (factor_diag HL) as D.
  destruct (D 1%nat 1%nat ltac:(lia) ltac:(lia)) as [P1 Q1]. destruct (D 2%nat 2%nat ltac:(lia) ltac:(lia)) as [P2 Q2]. destruct (D 3%nat 3%nat ltac:(lia) ltac:(lia)) as [P3 Q3].
  unfold pdiag in *. cbn [Nat.eqb negb] in *.
  assert (forall x, 0 < x -> x * x = 1 * (1 / 100) * (1 / 100) -> x = 1 / 100) as Z by (intros x Hx Hq; nra).
  split; [apply Z; assumption|]. split; [|apply Z; assumption]. rewrite <- Q2, sqrt_square by lra. reflexivity.
Qed.

(** the first variate after a seed is d, the others are zero; uniforms are at the lower end *)
Definition rngD (d : R) : rng AX :=
  @mkRng AX nat unit (fun _ => 0%nat)
    (fun lo hi g => (lo, g))
    (fun lo _ g => (lo, g)) (fun mu _ g => (mu, g)) (fun dof g => (Fin (IZR dof), g)) (fun _ g => (Fin (if Nat.eqb g 0 then d else 0), S g)) (fun m _ g => (fexp AX m, g))
    (fun g => (Fin (1 / 2), g)) (fun g => (Fin 0, g)).
Lemma rngD_valid d : valid_rng (rngD d).
Proof.
  constructor; cbn.
  - intros lo hi _ H. exists lo. split; [reflexivity|lra].
  - intros mu sd _ _. exists mu. reflexivity.
  - intros dof _ H. exists (IZR dof). split; [reflexivity|]. apply (IZR_lt 0), H.
  - intros dof g _. eexists. reflexivity.
  - intros lo hi _ H. lia.
  - intros _. exists (1 / 2). split; [reflexivity|lra].
  - intros _. exists 0. reflexivity.
Qed.

Section Unit.
Variables (vsort : list (F AX) -> option (list (F AX))) (si : list (F AX) -> option (list nat)) (chol : mat AX -> option (mat AX)).
Hypothesis Hvs : valid_vsort vsort.
Hypothesis Hsi : valid_sort_index si.
Hypothesis Hch : valid_chol chol.
Variables t y e : list R.
Hypothesis Hy : length y = length t.
Hypothesis He : length e = length t.
Hypothesis Ht : strictly_increasing t.
Hypothesis Hne : exists a b, In a y /\ In b y /\ a <> b.
Variables smax fmin fmax : R.
Hypothesis HB : run_bounds t y smax fmin fmax.

(** the first trial move *)
Definition trial (s k m lw u0 u1 u2 u3 : R) : list R :=
  [s + sqrt (2 / INR (length y)) * pvar y * u0; k + u1 / 100; m + sqrt (pvar y / INR (length y)) * u2; lw + u3 / 100].
Theorem first_move (R0 : rng AX) (s k m lw u0 u1 u2 u3 uu : R) raw v0 l0 a0 (g g1 g2 : gen R0) w g' :
  in_prior1 smax fmin fmax [s; k; m; lw] -> s <> 0 -> length v0 = 4%nat ->
  draws 4 (student_draw (R := R0) (Fin 0)) g = (map Fin [u0; u1; u2; u3], g1) -> 0 <= uu -> @runiform AX R0 (Fin 0) (Fin 1) g1 = (Fin uu, g2) ->
  RunCar1Sampler (A := AX) (R := R0) vsort si chol 1 0 (map Fin t) (map Fin y) (map Fin e) 1 (map Fin [s; k; m; lw]) raw v0 l0 a0 g = Ok (w, g') ->
  exists th, w_samples w = [map Fin th] /\
    (th = [s; k; m; lw] \/ th = trial s k m lw u0 u1 u2 u3 /\ in_prior1 smax fmin fmax th) /\
    (uu = 0 -> in_prior1 smax fmin fmax (trial s k m lw u0 u1 u2 u3) -> nth 0 (trial s k m lw u0 u1 u2 u3) 0 <> 0 -> th = trial s k m lw u0 u1 u2 u3).
Proof using All.
  intros Hin Hs Hv0 Hdr Huu Hun E.
  destruct (@first_sample R0 vsort si chol Hvs Hsi Hch t y e Hy He Ht Hne smax fmin fmax HB [s; k; m; lw] [u0; u1; u2; u3] uu raw v0 l0 a0 g g1 g2 w g' eq_refl Hin Hs Hv0 Hdr eq_refl Huu Hun E)
    as (L & ell & HL & Hsm & Hfin & Hout).
  assert (jump 4 L [s; k; m; lw] [u0; u1; u2; u3] = trial s k m lw u0 u1 u2 u3) as Hj.
  { rewrite (jump_diag (y := y) _ _ _ _ _ _ _ _ HL), (first_scale HL Hne). destruct (other_scale HL Hne) as (-> & -> & ->). unfold trial. repeat (apply f_equal2; [field|]). reflexivity. }
  exists (ram_next 4 ell L 1 [s; k; m; lw] [u0; u1; u2; u3] uu). split; [exact Hsm|]. unfold ram_next. rewrite Hj.
  destruct (Hfin [s; k; m; lw] eq_refl Hin Hs) as (l0' & El0). rewrite El0.
  set (x := trial s k m lw u0 u1 u2 u3) in *.
  split.
  - destruct (Rlt_dec _ _) as [Hlt|]; [right|left; reflexivity]. split; [reflexivity|].
    apply Classical_Prop.NNPP. intros Hx. rewrite (Hout x eq_refl Hx) in Hlt. cbn in Hlt. unfold accept_prob in Hlt.
    replace (xdiv (xsub NInf (Fin l0')) (Fin 1)) with NInf in Hlt; [lra|].
    cbn. rewrite ZeroProof.rsgn_pos by lra. reflexivity.
  - intros -> Hx Hx0. destruct (Hfin x eq_refl Hx Hx0) as (l1 & El1). rewrite El1. destruct (Rlt_dec _ _) as [|Hn]; [reflexivity|]. exfalso. apply Hn. unfold accept_prob.
    replace (xdiv (xsub (Fin l1) (Fin l0')) (Fin 1)) with (Fin (l1 - l0')) by (symmetry; refine (eq_trans (fin_div _ _ _) _); [lra|f_equal; field]).
    apply Rmin_glb_lt; [apply exp_pos|lra].
Qed.
End Unit.
