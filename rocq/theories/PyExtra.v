(** Further facts about the Python functions: unsorted and repeated times in the simulators, the parameters of a Car1Sample,
    the number of parameters in the AICc, and the averaged roots. *)
From Coq Require Import Reals List Arith ZArith Bool Lia Lra Permutation.
From Coquelicot Require Import Complex.
From Verif Require Import Arith Res ListLemmas KFModel KF1Proof Spec Gauss Emb KF1R InitProof OUpd SimProof KF1Main Cx KFpModel KFpProof SpecCarma CLin KFpR KFpX KFpMain KFpTop KFpMore
  CarpackModel SpecModel RootsProof PyModel PyData PyMLE PySim PyFuns PyDerive PyBox.
From Verif Require Import PriorProof LogLikProof LogLikMain CarpackTop CarpackRefute KF1More PyPredict PyLoglik PyMore.
From Verif Require CarmaKernel.
Import ListNotations.
Local Open Scope R_scope.

Lemma nan_add_l x : xadd NaN x = NaN. Proof. destruct x; reflexivity. Qed.
Lemma nan_add_r x : xadd x NaN = NaN. Proof. destruct x; reflexivity. Qed.
Lemma nan_mul_l x : xmul NaN x = NaN. Proof. destruct x; reflexivity. Qed.
Lemma nan_mul_r x : xmul x NaN = NaN. Proof. destruct x; reflexivity. Qed.
Lemma nan_sub_l x : xsub NaN x = NaN. Proof. destruct x; reflexivity. Qed.
Lemma nan_sub_r x : xsub x NaN = NaN. Proof. destruct x; reflexivity. Qed.
Lemma nan_div_l x : xdiv NaN x = NaN. Proof. destruct x; reflexivity. Qed.
Lemma nan_div_r x : xdiv x NaN = NaN. Proof. destruct x; reflexivity. Qed.

(** ** car1_process with a step back in time *)
Lemma car1_loop_nan (z : nat -> xr) mv tau : forall ts i tp j, (j < length ts)%nat -> nth j (car1_loop AX z mv tau i tp NaN ts) (Fin 0) = NaN.
Proof.
  induction ts as [|t ts IH]; intros i tp j Hj; cbn [length] in Hj; [lia|]. cbn [car1_loop].
  match goal with |- context [fadd AX ?a ?b] => assert (fadd AX a b = NaN) as E end.
  { cbn [fadd fmul AX]. rewrite nan_mul_r. apply nan_add_l. }
  rewrite E. destruct j as [|j]; [reflexivity|]. cbn [nth]. apply IH. lia.
Qed.
Lemma car1_loop_len (z : nat -> xr) mv tau : forall ts i tp yp, length (car1_loop AX z mv tau i tp yp ts) = length ts.
Proof. induction ts as [|t ts IH]; intros; [reflexivity|]. cbn [car1_loop length]. rewrite IH. reflexivity. Qed.
Lemma car1_loop_back (z : nat -> xr) mv tau : 0 < mv -> 0 < tau -> forall ts i tp yp k j, (k < length ts)%nat -> nth k ts 0 < nth k (tp :: ts) 0 ->
  (k <= j < length ts)%nat -> nth j (car1_loop AX z (Fin mv) (Fin tau) i (Fin tp) yp (map Fin ts)) (Fin 0) = NaN.
Proof.
  intros Hmv Htau. induction ts as [|t ts IH]; intros i tp yp k j Hk Hb Hj; cbn [length] in *; [lia|]. cbn [map car1_loop].
  destruct k as [|k].
  - cbn [nth] in Hb.
    match goal with |- context [fadd AX ?a (fmul AX (fsqrt AX ?b) ?c)] => assert (fsqrt AX b = NaN) as E end.
    { assert (fdiv AX (fneg AX (fsub AX (Fin t) (Fin tp))) (Fin tau) = Fin (- (t - tp) / tau)) as -> by (refine (fin_div _ _ _); lra).
      set (r := exp (- (t - tp) / tau)).
      assert (1 < r) as Hr.
      { unfold r. rewrite <- exp_0. apply exp_increasing. apply Rdiv_lt_0_compat; lra. }
      change (xsqrt (Fin (mv * (1 - r * r))) = NaN). cbn [xsqrt]. destruct (Rlt_dec (mv * (1 - r * r)) 0) as [_|N]; [reflexivity|].
      exfalso. apply N. assert (1 < r * r) by nra. assert (0 < mv * (r * r - 1)) by (apply Rmult_lt_0_compat; lra). lra. }
    rewrite E. match goal with |- context [fadd AX ?a ?b] => assert (fadd AX a b = NaN) as E2 end.
    { cbn [fadd fmul AX]. rewrite nan_mul_l. apply nan_add_r. }
    rewrite E2. destruct j as [|j]; [reflexivity|]. cbn [nth]. apply car1_loop_nan. rewrite map_length. lia.
  - destruct j as [|j]; [lia|]. cbn [nth]. apply (IH _ _ _ k); [lia|exact Hb|lia].
Qed.
(** Every value from the first step back in time on is NaN. *)
Theorem car1_process_back sig tau (t : list R) (z : nat -> xr) k : 0 < sig -> 0 < tau -> (S k < length t)%nat -> nth (S k) t 0 < nth k t 0 ->
  exists y, car1_process AX z (map Fin t) (Fin sig) (Fin tau) = Ok y /\ length y = length t /\
    forall j, (k < j < length t)%nat -> nth j y (Fin 0) = NaN.
Proof.
  intros Hs Ht Hk Hb. destruct t as [|t0 t]; cbn [length] in *; [lia|]. unfold car1_process. cbn [map].
  assert (fdiv AX (fmul AX (Fin sig) (Fin tau)) (fofZ AX 2) = Fin (sig * tau / 2)) as -> by (refine (fin_div _ _ _); lra).
  assert (0 < sig * tau) by (apply Rmult_lt_0_compat; assumption).
  eexists. split; [reflexivity|]. split; [cbn [length]; rewrite car1_loop_len, map_length; reflexivity|].
  intros [|j] Hj; [lia|]. cbn [nth] in *. apply (car1_loop_back z (sig * tau / 2) tau ltac:(lra) Ht t 1 t0 _ k); [lia|exact Hb|lia].
Qed.

(** ** carma_process when the smallest time is repeated *)
Definition nanv (p : nat) (v : list (cx AX)) : Prop := forall a, (a < p)%nat -> vnth v a = (NaN, NaN).
Lemma nan_cadd_l c : @cadd AX (NaN, NaN) c = (NaN, NaN).
Proof. unfold cadd. cbn [fst snd fadd AX]. rewrite !nan_add_l. reflexivity. Qed.
Lemma nan_cadd_r c : @cadd AX c (NaN, NaN) = (NaN, NaN).
Proof. unfold cadd. cbn [fst snd fadd AX]. rewrite !nan_add_r. reflexivity. Qed.
Lemma nan_cmul_r c : @cmul AX c (NaN, NaN) = (NaN, NaN).
Proof. unfold cmul. cbn [fst snd fadd fsub fmul AX]. rewrite !nan_mul_r. reflexivity. Qed.
Lemma nan_cscale r : @cscale AX r (NaN, NaN) = (NaN, NaN).
Proof. unfold cscale. cbn [fst snd fmul AX]. rewrite !nan_mul_r. reflexivity. Qed.
Lemma nan_csum (f : nat -> cx AX) n k : (k < n)%nat -> f k = (NaN, NaN) -> csum f n = (NaN, NaN).
Proof.
  induction n as [|n IH]; intros Hk Hf; [lia|]. cbn [csum]. destruct (Nat.eq_dec k n) as [->|]; [rewrite Hf; apply nan_cadd_r|].
  rewrite IH by (try exact Hf; lia). apply nan_cadd_l.
Qed.
Lemma nan_axpy_l p v g x : nanv p v -> nanv p (axpy p v g x).
Proof. intros H a Ha. unfold axpy. rewrite vbuild_vnth, H by exact Ha. apply nan_cadd_l. Qed.
Lemma nan_axpy_r p v g x : nanv p g -> nanv p (axpy p v g x).
Proof. intros H a Ha. unfold axpy. rewrite vbuild_vnth, H, nan_cscale by exact Ha. apply nan_cadd_r. Qed.
Lemma nan_schur p r v : nanv p v -> nanv p (schur p r v).
Proof. intros H a Ha. unfold schur. rewrite vbuild_vnth, H by exact Ha. apply nan_cmul_r. Qed.
Lemma nan_linf p b v : (0 < p)%nat -> nanv p v -> linf p b v = NaN.
Proof. intros Hp H. unfold linf. rewrite (nan_csum _ p 0 Hp); [reflexivity|]. rewrite H by exact Hp. apply nan_cmul_r. Qed.
Lemma carma_loop_len (z : nat -> xr) p om b SV : forall ts i tp st PV kv inn, length (carma_loop (A := AX) z p om b SV i tp st PV kv inn ts) = length ts.
Proof. induction ts as [|t ts IH]; intros; [reflexivity|]. cbn [carma_loop length]. rewrite IH. reflexivity. Qed.
Lemma carma_loop_nan (z : nat -> xr) p om b SV : (0 < p)%nat -> forall ts i tp st PV kv inn j,
  nanv p (axpy p st (gainf p b PV kv) inn) -> (j < length ts)%nat -> nth j (carma_loop (A := AX) z p om b SV i tp st PV kv inn ts) (Fin 0) = NaN.
Proof.
  intros Hp. induction ts as [|t ts IH]; intros i tp st PV kv inn j Hn Hj; cbn [length] in Hj; [lia|]. cbn [carma_loop].
  assert (nanv p (schur p (rhof p om (fsub AX t tp)) (axpy p st (gainf p b PV kv) inn))) as H2 by (apply nan_schur, Hn).
  destruct j as [|j].
  - cbn [nth]. rewrite (nan_linf p b _ Hp H2). apply nan_add_l.
  - cbn [nth]. apply IH; [|lia]. apply nan_axpy_l, H2.
Qed.

Section Rep.
Variables (sig : R) (om : list C) (ma : list R).
Hypothesis Hok : carma_ok sig om ma.
Let p := length om.
Let r i := nth i om (RtoC 0).
Let mf l := nth l ma 0.
Let omX : list (cx AX) := map FinC om.
Let bX := rotated omX (map Fin ma : list (F AX)).
Let b := CarmaKernel.b p r mf.
Variable J : list C.
Hypothesis HlJ : length J = p.
Hypothesis HJ : forall k, (k < p)%nat -> Csum (fun i => Cmult (Cpown (r i) k) (nth i J (RtoC 0))) p = if Nat.eqb k (p - 1) then RtoC 1 else RtoC 0.
Let V := CarmaKernel.V r (fun i => nth i J (RtoC 0)) sig.
Let E := CarmaKernel.E r.
Let SVX := mbuild p p (state_upper (Fin sig : F AX) omX (map FinC J)).
Let v0 := fst (bform p b V b).
Let t0 : nat -> R := fun _ => 0.

Lemma v0_pos : 0 < v0.
Proof.
  pose proof (proj2 (proj2 (ss_filter sig om ma Hok J HJ t0 t0 1 ltac:(intros; unfold t0; lra) ltac:(intros; lia) (fun _ => 0) 0%nat ltac:(lia)))) as H.
  unfold vf, vof, t0 in H. cbn [PV] in H. fold p r mf b V in H. unfold v0. lra.
Qed.
Lemma bVb : bform p b V b = RtoC v0.
Proof.
  pose proof (bform_herm p V (CarmaKernel.V_herm r (fun i => nth i J (RtoC 0)) sig) b b) as H. apply C_eq; [reflexivity|].
  apply (f_equal snd) in H. cbn [Cconj snd] in H. cbn [RtoC snd]. lra.
Qed.
(** after a noiseless observation and a step of length zero *)
Definition M1 (a c : nat) : C := (V a c - RtoC v0 * ((mulb p b V a / RtoC v0) * Cconj (mulb p b V c / RtoC v0)))%C.
Lemma M1b a : mulb p b M1 a = RtoC 0.
Proof.
  pose proof v0_pos as Hv. assert (RtoC v0 <> RtoC 0) as Hn by (intros H; apply (f_equal fst) in H; cbn in H; lra).
  assert (mulb p b M1 a = (mulb p b V a - mulb p b V a * Cconj (dotv p b (mulb p b V) / RtoC v0))%C) as ->.
  { unfold M1. unfold mulb at 1.
    rewrite (Csum_ext _ (fun j => (V a j * Cconj (b j) + (- mulb p b V a) * Cconj (b j * (mulb p b V j / RtoC v0)))%C)).
    - rewrite Csum_plus, Csum_scal, <- conj_sum.
      assert (Csum (fun i => (b i * (mulb p b V i / RtoC v0))%C) p = (dotv p b (mulb p b V) / RtoC v0)%C) as ->.
      { unfold Cdiv. rewrite Cmult_comm. unfold dotv. rewrite <- Csum_scal. apply Csum_ext. intros; ring. }
      fold (mulb p b V a). ring.
    - intros j _. rewrite conj_mult. field. exact Hn. }
  rewrite <- bform_dot, bVb. replace (RtoC v0 / RtoC v0)%C with (RtoC 1) by (field; exact Hn). rewrite conj_R. ring.
Qed.
Lemma M1q : fst (bform p b M1 b) = 0.
Proof. rewrite bform_dot. unfold dotv. rewrite (Csum_ext _ (fun _ => RtoC 0)); [|intros i _; rewrite M1b; ring]. clear. induction p as [|n IH]; [reflexivity|]. cbn [Csum Cplus fst RtoC]. cbn in *. rewrite IH. ring. Qed.

Lemma repeat_nan (z : nat -> R) a y0 ts j : (j < length ts)%nat ->
  nth (S j) (carma_loop (A := AX) (fun i => Fin (z i)) p omX bX SVX 1 (Fin a) (czeros AX p) SVX (Fin v0) (Fin y0) (Fin a :: ts)) (Fin 0) = NaN.
Proof.
  intros Hj. pose proof v0_pos as Hv. assert (0 < p)%nat as Hp by (destruct Hok as (_ & H & _); fold p in H; lia).
  pose proof (gainf_fin p bX b (b_rep om ma) SVX _ v0 (sv_rep sig om ma Hok J HlJ) ltac:(lra)) as Hg.
  pose proof (rhof_fin p omX r (omX_rep om) (a - a)) as Hr.
  cbn [carma_loop]. change (fsub AX (Fin a) (Fin a)) with (Fin (a - a)).
  set (P2 := propV p (rhof p omX (Fin (a - a))) (condV p SVX (gainf p bX SVX (Fin v0)) (Fin v0)) SVX).
  assert (repm p P2 M1) as HP2.
  { eapply repm_ext; [apply propV_fin; [exact (sv_rep sig om ma Hok J HlJ)|exact Hr|apply condV_fin; [exact (sv_rep sig om ma Hok J HlJ)|exact Hg]]|].
    intros x c Hx Hc. cbv beta. replace (a - a) with 0 by ring. pose proof (CarmaKernel.E_0 r) as E0. unfold CarmaKernel.E in E0.
    rewrite !E0. unfold M1. rewrite conj_R. fold r mf p V b. ring. }
  assert (quadf p bX P2 = Fin 0) as Eq.
  { refine (eq_trans (quadf_fin p bX b (b_rep om ma) P2 M1 HP2) _). f_equal. exact M1q. }
  assert (nanv p (gainf p bX P2 (Fin 0))) as Hn.
  { intros k Hk. unfold gainf. rewrite vbuild_vnth by exact Hk. rewrite (FinC_sum _ (fun j => Cmult (M1 k j) (Cconj (b j)))).
    - change (Csum (fun j => Cmult (M1 k j) (Cconj (b j))) p) with (mulb p b M1 k). rewrite M1b.
      unfold cdivr, FinC. cbn [fst snd RtoC fdiv AX xdiv]. destruct (Req_EM_T 0 0) as [_|N]; [|contradiction]. unfold rsgn.
      destruct (Rlt_dec 0 0) as [H|H]; [lra|reflexivity].
    - intros l Hl. rewrite HP2, (b_rep om ma) by assumption. reflexivity. }
  rewrite Eq. cbn [nth]. apply carma_loop_nan; [exact Hp| |exact Hj]. apply nan_axpy_r, Hn.
Qed.
End Rep.

(** When the smallest time occurs twice, every value after the first two is NaN (in exact arithmetic the variance of the second
    value given the first is zero, and the next gain is 0/0). *)
Theorem carma_process_repeat vsort solve (t : list R) (sig : R) (om : list C) (ma : list R) a ts (z : nat -> R) :
  valid_solve solve -> stable_roots om -> (2 <= length om)%nat -> (length ma <= length om)%nat ->
  (exists l, nth l ma 0 <> 0) -> 0 < sig -> vsort (map Fin t) = Some (map Fin (a :: a :: ts)) ->
  exists y, carma_process (A := AX) (fun i => Fin (z i)) vsort solve (map Fin t) (Fin sig) (map FinC om) (map Fin ma) = Ok (y, map Fin (a :: a :: ts)) /\
    length y = S (S (length ts)) /\ forall j, (2 <= j < length y)%nat -> nth j y (Fin 0) = NaN.
Proof.
  intros Hsolve Hst H2 Hlm Hnz Hsig Es.
  set (p := length om). set (mp := ma ++ repeat 0 (p - length ma)).
  assert (carma_ok sig om mp) as Hok.
  { split; [exact Hst|]. split; [exact H2|]. split; [unfold mp; rewrite app_length, repeat_length; fold p; unfold p; lia|]. split; [|exact Hsig].
    destruct Hnz as (l & Hl). exists l. unfold mp. destruct (Nat.lt_ge_cases l (length ma)) as [H|H]; [rewrite app_nth1 by exact H; exact Hl|].
    rewrite nth_overflow in Hl by exact H. lra. }
  destruct (solve_ok solve Hsolve sig om mp Hok) as (J & EJ & HlJ & HJ).
  pose proof (v0_pos sig om mp Hok J HlJ HJ) as Hv. pose proof (repeat_nan sig om mp Hok J HlJ HJ z a) as HN.
  set (v0 := fst (bform (length om) _ _ _)) in *.
  unfold carma_process. rewrite !map_length. fold p. destruct (Nat.eqb_spec p 1); [unfold p in *; lia|]. destruct (Nat.eqb_spec p 0); [unfold p in *; lia|].
  change (F AX) with xr. rewrite Es. rewrite map_length in EJ. fold p in EJ. rewrite EJ.
  rewrite py_pad_pad by exact Hlm. fold mp. rewrite map_length. assert (length mp = p) as Hmp by (unfold mp; rewrite app_length, repeat_length; unfold p; lia).
  rewrite Hmp, Nat.eqb_refl. cbn [negb map].
  set (SV := mbuild p p _) in *.
  assert (quadf p (rotated (map FinC om) (map Fin mp : list (F AX))) SV = Fin v0) as ->.
  { apply (quadf_fin p _ _ (b_rep om mp)). exact (sv_rep sig om mp Hok J HlJ). }
  assert (fsqrt AX (Fin v0) = Fin (sqrt v0)) as -> by (refine (fin_sqrt _ _); lra).
  eexists. split; [reflexivity|]. split; [cbn [length]; rewrite carma_loop_len; cbn [length]; rewrite map_length; reflexivity|].
  cbn [length]. rewrite carma_loop_len. cbn [length]. rewrite map_length. intros [|[|j]] Hj; try lia. 
  change (nth (S j) (carma_loop (A := AX) (fun i => Fin (z i)) p (map FinC om) (rotated (map FinC om) (map Fin mp : list (F AX))) SV 1 (Fin a) (czeros AX p) SV (Fin v0)
    (Fin (0 + sqrt v0 * z O)) (Fin a :: map Fin ts)) (Fin 0) = NaN).
  apply HN. rewrite map_length. lia.
Qed.

(** ** Car1Sample: the parameters are those of the likelihood *)
Theorem car1_sigma_spec t0 lo : car1_sigma AX (fmul AX (Fin t0) (Fin t0)) (Fin lo) = Fin (sqrt (2 * t0 * t0 * exp lo)) /\
  fmul AX (Fin (sqrt (2 * t0 * t0 * exp lo))) (Fin (sqrt (2 * t0 * t0 * exp lo))) = Fin (2 * t0 * t0 * exp lo).
Proof.
  pose proof (exp_pos lo) as He. assert (0 <= t0 * t0) as H0 by nra. assert (0 <= 2 * t0 * t0 * exp lo) as H by (replace (2 * t0 * t0 * exp lo) with (2 * (t0 * t0) * exp lo) by ring; apply Rmult_le_pos; lra).
  split.
  - unfold car1_sigma. cbn [fmul AX xmul fofZ fexp xexp]. replace (2 * (t0 * t0) * exp lo) with (2 * t0 * t0 * exp lo) by ring. refine (fin_sqrt _ _). exact H.
  - cbn [fmul AX xmul]. f_equal. apply sqrt_sqrt, H.
Qed.
(** the spectrum plotted for a CAR(1) sample is power_spectrum with the AR polynomial x + omega, and equals sigma^2/(omega^2 + (2 pi f)^2) *)
Theorem car1_psd_spec sigma lo f :
  car1_psd AX (Fin sigma) (Fin lo) (Fin f) = Fin (sigma * sigma / (exp lo * exp lo + (2 * PI * f) * (2 * PI * f))) /\
  power_spectrum AX (Fin f) (Fin sigma) [Fin 1; Fin (exp lo)] [Fin 1] = car1_psd AX (Fin sigma) (Fin lo) (Fin f).
Proof.
  pose proof (exp_pos lo) as He. set (w := exp lo) in *. set (x := 2 * PI * f).
  assert (0 < w * w + x * x) as Hd by nra.
  assert (car1_psd AX (Fin sigma) (Fin lo) (Fin f) = Fin (sigma * sigma / (w * w + x * x))) as E1.
  { unfold car1_psd. refine (fin_div _ _ _). fold w. fold x. lra. }
  split; [exact E1|]. rewrite E1. unfold power_spectrum, polyval. cbn [rev app fold_left].
  assert (forall a b, 0 <= a * a + b * b -> @cabs AX (Fin a, Fin b) = Fin (sqrt (a * a + b * b))) as Ca by (intros a b H; unfold cabs; cbn [fst snd]; refine (fin_sqrt _ _); exact H).
  set (m := cabs _). assert (m = Fin (sqrt (1 * 1 + 0 * 0))) as ->.
  { unfold m. rewrite <- (Ca 1 0) by lra. f_equal. unfold cadd, cmul, c0. cbn [fst snd fadd fsub fmul AX xadd xsub xmul fofZ fpi]. f_equal; f_equal; ring. }
  set (m' := cabs _). assert (m' = Fin (sqrt (w * w + x * x))) as ->.
  { unfold m'. rewrite <- (Ca w x) by lra. f_equal. unfold cadd, cmul, c0. cbn [fst snd fadd fsub fmul AX xadd xsub xmul fofZ fpi]. f_equal; f_equal; unfold x; ring. }
  cbn [fmul AX xmul]. refine (eq_trans (fin_div _ _ _) _); rewrite !sqrt_sqrt by lra; [lra|]. f_equal. f_equal. ring.
Qed.

(** ** The number of parameters in the AICc *)
(** the optimiser moves a vector of 3 + p + q numbers *)
Lemma mle_box_len p q s a c : length (mle_box p q s a c) = if (p =? 1)%nat then 4%nat else (3 + p + q)%nat.
Proof. unfold mle_box. destruct (p =? 1)%nat; [reflexivity|]. cbn [app length]. rewrite app_length, !repeat_length. reflexivity. Qed.

(** 3 + p + q numbers are fitted but the penalty counts 2 + p + q: with seven measurements the order (2, 0) is returned although
    the AICc of the two fits, with the number of parameters each of them adjusted, is smaller for (1, 0). *)
Definition fit10 : opt AX := mkOpt AX [Fin 1; Fin 1; Fin 0; Fin 0] (Fin 10).
Definition fit20 : opt AX := mkOpt AX [Fin 1; Fin 1; Fin 0; Fin 0; Fin 0] (Fin 0).
Theorem choose_order_count : exists (trials : nat * nat -> list (opt AX)) (m m' : cmodel AX) a,
  length (c_time m) = 7%nat /\
  choose_order 4 2 trials m 2 None (Some [(1, 0); (2, 0)]%nat) = Ok (fit20, [(1, 0); (2, 0)]%nat, a, m') /\ c_p m' = 2%nat /\ c_q m' = 0%nat /\
  trials (1, 0)%nat = [fit10] /\ trials (2, 0)%nat = [fit20] /\
  length (o_x fit10) = 4%nat /\ length (o_x fit20) = 5%nat /\
  aicc_spec 7 (length (o_x fit10)) 10 < aicc_spec 7 (length (o_x fit20)) 0.
Proof.
  set (tr := fun pq : nat * nat => if (fst pq =? 1)%nat then [fit10] else [fit20]).
  set (m := mkCM AX (map Fin [0; 1; 2; 3; 4; 5; 6]) (map Fin [0; 1; 2; 3; 4; 5; 6]) (map Fin [0; 1; 2; 3; 4; 5; 6]) 1 0).
  destruct (@choose_order_spec 4 2 tr m 2 None (Some [(1, 0); (2, 0)]%nat) [fit10; fit20] [(1, 0); (2, 0)]%nat eq_refl ltac:(discriminate) eq_refl)
    as (best & a & p' & q' & E & Ea & H).
  - intros [|[|i]] pq e H1 H2; cbn [nth_error] in H1, H2; try discriminate; [| |destruct i; discriminate];
      injection H1 as <-; injection H2 as <-; cbn; unfold better; cbn [flt AX xlt o_fun fit10 fit20];
      match goal with |- context [Rlt_dec ?a ?b] => destruct (Rlt_dec a b); [lra|reflexivity] end.
  - intros pq [<-|[<-|[]]]; discriminate.
  - assert (a = [Fin 34; Fin 28]) as Ev.
    { rewrite Ea. cbn [combine map fst snd aicc o_fun fit10 fit20 Nat.add c_time m length]. unfold aicc_spec. cbn [INR].
      f_equal; [|f_equal]; f_equal; field. }
    clear Ea. subst a. exists tr, m, (mkCM AX (c_time m) (c_y m) (c_ysig m) 2 0), [Fin 34; Fin 28].
    assert (best = fit20 /\ p' = 2%nat /\ q' = 0%nat) as (-> & -> & ->).
    { destruct H as [(i & N1 & N2 & ai & Na & _ & Hmin & _)|(Hall & _)].
      - destruct i as [|[|i]]; cbn [nth_error] in *.
        + injection Na as <-. exfalso. pose proof (Hmin (Fin 28) ltac:(right; left; reflexivity)) as Hx. cbn [xlt] in Hx. destruct (Rlt_dec 28 34); [discriminate|lra].
        + injection N1 as <-. injection N2 as <- <-. auto.
        + destruct i; discriminate.
      - exfalso. pose proof (Hall (Fin 28) ltac:(right; left; reflexivity)) as Hx. cbn [xlt] in Hx.
        destruct (Rlt_dec 28 (10 ^ 300)) as [|N]; [discriminate|]. apply N. apply Rlt_le_trans with (10 ^ 2); [cbn; lra|]. apply Rle_pow; [lra|lia]. }
    split; [reflexivity|]. split; [exact E|]. do 6 (split; [reflexivity|]). cbn [length o_x fit10 fit20]. unfold aicc_spec. cbn [INR]. 
    replace (2 * (1 + 1 + 1 + 1) * (1 + 1 + 1 + 1 + 1) / (1 + 1 + 1 + 1 + 1 + 1 + 1 - (1 + 1 + 1 + 1) - 1)) with 20 by field.
    replace (2 * (1 + 1 + 1 + 1 + 1) * (1 + 1 + 1 + 1 + 1 + 1) / (1 + 1 + 1 + 1 + 1 + 1 + 1 - (1 + 1 + 1 + 1 + 1) - 1)) with 60 by field. lra.
Qed.
(** fewer measurements than fitted parameters: the correction is negative and a worse fit with more parameters wins *)
Theorem choose_order_short : exists (trials : nat * nat -> list (opt AX)) (m m' : cmodel AX) a f1 f2 best,
  length (c_time m) = 6%nat /\
  choose_order 4 2 trials m 3 None (Some [(1, 0); (3, 2)]%nat) = Ok (best, [(1, 0); (3, 2)]%nat, a, m') /\ c_p m' = 3%nat /\ c_q m' = 2%nat /\
  trials (1, 0)%nat = [mkOpt AX [] (Fin f1)] /\ trials (3, 2)%nat = [mkOpt AX [] (Fin f2)] /\ f1 < f2.
Proof.
  set (g1 := mkOpt AX [] (Fin 0) : opt AX). set (g2 := mkOpt AX [] (Fin 1) : opt AX).
  set (tr := fun pq : nat * nat => if (fst pq =? 1)%nat then [g1] else [g2]).
  set (m := mkCM AX (map Fin [0; 1; 2; 3; 4; 5]) (map Fin [0; 1; 2; 3; 4; 5]) (map Fin [0; 1; 2; 3; 4; 5]) 1 0).
  destruct (@choose_order_spec 4 2 tr m 3 None (Some [(1, 0); (3, 2)]%nat) [g1; g2] [(1, 0); (3, 2)]%nat eq_refl ltac:(discriminate) eq_refl)
    as (best & a & p' & q' & E & Ea & H).
  - intros [|[|i]] pq e H1 H2; cbn [nth_error] in H1, H2; try discriminate; [| |destruct i; discriminate];
      injection H1 as <-; injection H2 as <-; cbn; unfold better; cbn [flt AX xlt o_fun g1 g2];
      match goal with |- context [Rlt_dec ?a ?b] => destruct (Rlt_dec a b); [lra|reflexivity] end.
  - intros pq [<-|[<-|[]]]; discriminate.
  - assert (a = [Fin 18; Fin (-40)]) as Ev.
    { rewrite Ea. cbn [combine map fst snd aicc o_fun g1 g2 Nat.add c_time m length]. unfold aicc_spec. cbn [INR].
      f_equal; [|f_equal]; f_equal; field. }
    clear Ea. subst a. exists tr, m, (mkCM AX (c_time m) (c_y m) (c_ysig m) 3 2), [Fin 18; Fin (-40)], 0, 1, best.
    assert (p' = 3%nat /\ q' = 2%nat) as (-> & ->).
    { destruct H as [(i & N1 & N2 & ai & Na & _ & Hmin & _)|(Hall & _)].
      - destruct i as [|[|i]]; cbn [nth_error] in *.
        + injection Na as <-. exfalso. pose proof (Hmin (Fin (-40)) ltac:(right; left; reflexivity)) as Hx. cbn [xlt] in Hx. destruct (Rlt_dec (-40) 18); [discriminate|lra].
        + injection N1 as <-. injection N2 as <- <-. auto.
        + destruct i; discriminate.
      - exfalso. pose proof (Hall (Fin (-40)) ltac:(right; left; reflexivity)) as Hx. cbn [xlt] in Hx.
        destruct (Rlt_dec (-40) (10 ^ 300)) as [|N]; [discriminate|]. apply N. apply Rlt_trans with 0; [lra|]. apply pow_lt. lra. }
    split; [reflexivity|]. split; [exact E|]. do 4 (split; [reflexivity|]). lra.
Qed.

(** ** simulate and the residuals of assess_fit, at the posterior mode *)
Lemma simulated_ext {G} (draw : G -> F AX * G) g (K K' : R -> R -> R) t y e mu ts out : (forall a c, K a c = K' a c) ->
  simulated draw g K t y e mu ts out -> simulated draw g K' t y e mu ts out.
Proof.
  intros HK (sorted & H1 & H2 & H3 & H). exists sorted. split; [exact H1|]. split; [exact H2|]. split; [exact H3|].
  intros k Hk. destruct (H k Hk) as (m & v & z & Hz & Hv & Hc & Ho). exists m, v, z. split; [exact Hz|]. split; [exact Hv|]. split; [|exact Ho].
  eapply cond_dist_ext; [|exact Hc]. exact HK.
Qed.
Lemma residuals_ext (K K' : R -> R -> R) t y e mu r : (forall a c, K a c = K' a c) -> residuals K t y e mu r -> residuals K' t y e mu r.
Proof.
  intros HK (L & H). split; [exact L|]. intros i Hi. destruct (H i Hi) as (m & v & Hv & Hc & Hr). exists m, v. split; [exact Hv|]. split; [|exact Hr].
  eapply cond_dist_ext; [|exact Hc]. exact HK.
Qed.
Theorem car1_simulate_map G (draw : G -> F AX * G) vsort g (si : list (F AX) -> option (list nat)) (raw : kf1 AX) (t y e : list R) (rows : list (list R)) (lp ts : list R) :
  valid_sort_index si -> strictly_increasing t -> (2 <= length t)%nat ->
  length y = length t -> length e = length t -> lp <> [] -> length rows = length lp ->
  (forall th, In th rows -> length th = 4%nat /\ nth 0 th 0 <> 0) ->
  (forall g0, exists z, fst (draw g0) = Fin z) -> valid_vsort vsort -> NoDup ts -> no_exact t e ts ->
  exists i s o r, first_max lp i /\ let th := nth i rows [] in
    car1_map_filter si raw (map Fin t) (map Fin y) (map Fin e) (map (map Fin) rows) (map Fin lp) = Ok (s, Fin (nth 2 th 0)) /\
    py_simulate (methods1 AX) draw vsort s (Fin (nth 2 th 0)) (map Fin ts) g = Ok (map Fin o, gen_after draw (length ts) g) /\
    simulated draw g (car1_K th) t y e (nth 2 th 0) ts o /\
    std_residuals (methods1 AX) s (map Fin y) (Fin (nth 2 th 0)) = Ok (map Fin r) /\ residuals (car1_K th) t y e (nth 2 th 0) r.
Proof.
  intros Hsi Hinc Ht Hy He Hlp Hlen Hrows Hd Hvs Hnd Hnz.
  destruct (car1_map_holds si raw t y e rows lp Hsi Hinc Ht Hy He Hlp Hlen Hrows) as (i & s & Hm & Es & Hs & Hpos). cbv zeta in *.
  destruct (simulate1_holds s t y e _ _ (nth 2 (nth i rows []) 0) ts G draw vsort g Hs Hinc Hpos (exp_pos _) Hd Hvs Hnd Hnz) as (o & Eo & Ho).
  destruct (residuals1_holds s t y e _ _ (nth 2 (nth i rows []) 0) Hs Hinc Hpos (exp_pos _)) as (r & Er & Hr).
  exists i, s, o, r. split; [exact Hm|]. split; [exact Es|]. split; [exact Eo|]. split; [|split; [exact Er|]].
  - eapply simulated_ext; [|exact Ho]. intros a c. apply car1_K_ou.
  - eapply residuals_ext; [|exact Hr]. intros a c. apply car1_K_ou.
Qed.
Theorem carma_simulate_map solve G (draw : G -> F AX * G) vsort g (isreal : list (cx AX) -> bool) (si : list (F AX) -> option (list nat)) (raw : kfp AX) p q (t y e : list R) (rows : list (list R)) (lp ts : list R) :
  valid_solve solve -> valid_sort_index si ->
  strictly_increasing t -> (2 <= length t)%nat -> length y = length t -> length e = length t ->
  (2 <= p)%nat -> (q < p)%nat -> lp <> [] -> length rows = length lp ->
  (forall th, In th rows -> length th = (3 + p + q)%nat /\ nth 0 th 0 <> 0 /\ forall om : list C, ARRoots AX p (map Fin th) = Ok (map FinC om) -> NoDup om) ->
  (forall g0, exists z, fst (draw g0) = Fin z) -> valid_vsort vsort -> NoDup ts -> no_exact t e ts ->
  exists i s o r sig om ma, first_max lp i /\ let th := nth i rows [] in
    carma_map_filter isreal si raw (map Fin t) (map Fin y) (map Fin e) q (map (map Fin) rows) (map Fin lp) = Ok (s, Fin (nth 2 th 0)) /\
    carma_params p q th sig om ma /\
    py_simulate (methodsp solve) draw vsort s (Fin (nth 2 th 0) : F AX) (map Fin ts) g = Ok (map Fin o, gen_after draw (length ts) g) /\
    simulated draw g (carma_cov sig ma om) t y e (nth 2 th 0) ts o /\
    std_residuals (methodsp solve) s (map Fin y) (Fin (nth 2 th 0) : F AX) = Ok (map Fin r) /\ residuals (carma_cov sig ma om) t y e (nth 2 th 0) r.
Proof.
  intros Hsv Hsi Hinc Ht Hy He Hp Hq Hlp Hlen Hrows Hd Hvs Hnd Hnz.
  destruct (carma_map_holds isreal si raw p q t y e rows lp Hsi Hinc Ht Hy He Hp Hq Hlp Hlen Hrows) as (i & s & sig & om & ma & Hm & Es & Hpar & Hs & Hok). cbv zeta in *.
  destruct (simulatep_holds solve Hsv s t y e _ om ma (nth 2 (nth i rows []) 0) ts G draw vsort g Hs Hinc Hok Hd Hvs Hnd Hnz) as (o & Eo & Ho).
  destruct (residualsp_holds solve Hsv s t y e _ om ma (nth 2 (nth i rows []) 0) Hs Hinc Hok) as (r & Er & Hr).
  exists i, s, o, r, sig, om, ma. split; [exact Hm|]. split; [exact Es|]. split; [exact Hpar|]. split; [exact Eo|]. split; [exact Ho|]. split; [exact Er|exact Hr].
Qed.

(** ** The DIC of a CarmaSample *)
Theorem CarmaSample_dic solve (si : list (F AX) -> option (list nat)) (raw : kfp AX) p q (t y e : list R) (rows : list (list R)) sc :
  valid_solve solve -> valid_sort_index si -> goodp raw ->
  (2 <= length t)%nat -> length y = length t -> length e = length t -> strictly_increasing t -> (2 <= p)%nat -> (q < p)%nat -> rows <> [] -> 0 < sc ->
  (forall th, In th rows -> (3 + p + q <= length th)%nat /\ nth 0 th 0 <> 0 /\ nth 1 th 0 = sc /\
     forall om : list C, ARRoots AX p (map Fin th) = Ok (map FinC om) -> NoDup om) ->
  exists b xs lls, carp_new si raw p (map Fin t) (map Fin y) (map Fin e) = Ok b /\
    CarmaSample_loglik (carma_cls solve p q) b (map (map Fin) rows) = Ok (map Fin xs) /\
    Forall2 (fun th ll => exists om ma, ARRoots AX p (map Fin th) = Ok (map FinC om) /\ ExtractMA_carma AX p q (map Fin th) = Ok (map Fin ma) /\
      is_loglik (carma_cov (nth 0 th 0 * nth 0 th 0 / carma_acv 1 ma om 0) ma om) t y e (nth 1 th 0) (nth 2 th 0) ll) rows lls /\
    py_dic AX (map Fin xs) = Fin (dic lls - 2 * log_sichi sc) /\ dic lls + 48 < dic lls - 2 * log_sichi sc.
Proof.
  intros Hsv Hsi Hg Hn Hy He Hinc Hp Hq Hne Hsc Hrows.
  destruct (CarmaSample_loglik_wrong solve si raw p q t y e rows Hsv Hsi Hg Hn Hy He Hinc Hp Hq) as (b & E & H).
  { intros th Hin. destruct (Hrows th Hin) as (A1 & A2 & A3 & A4). rewrite A3. auto. }
  destruct (H b (t_refl _ _ b)) as (xs & Exs & Hf). exists b, xs, (map (fun x => x - log_sichi sc) xs).
  split; [exact E|]. split; [exact Exs|].
  assert (xs <> []) as Hx by (intros ->; inversion Hf; congruence).
  split.
  - clear -Hf Hrows. induction Hf as [|th x rows xs (om & ma & ll & Eo & Em & Hll & Ex & _) Hf IH]; [constructor|].
    cbn [map]. constructor; [|apply IH; intros th' Hin; apply Hrows; right; exact Hin].
    destruct (Hrows th (or_introl eq_refl)) as (_ & _ & A3 & _). exists om, ma. split; [exact Eo|]. split; [exact Em|].
    rewrite Ex, A3. replace (ll + log_sichi sc - log_sichi sc) with ll by ring. rewrite <- A3 at 1. exact Hll.
  - pose proof (log_sichi_small sc Hsc) as Hs. split; [|lra]. rewrite py_dic_Fin by exact Hx. f_equal.
    rewrite <- dic_shift by (destruct xs; [congruence|discriminate]). f_equal. rewrite map_map. rewrite <- (map_id xs) at 1. apply map_ext. intros x. ring.
Qed.

(** ** bestfit = 'mean': the averaged roots are not the roots of a real process *)
Definition thA : list R := [1; 1; 0; ln 3; ln 4].
Definition thB : list R := [1; 1; 0; ln 2; ln 2].
Lemma rootsA : py_ar_roots AX 2 (map Fin thA) = Ok (map FinC [(-3, 0); (-1, 0)]).
Proof.
  rewrite py_ar_roots_Fin by (cbn; lia). f_equal. f_equal. unfold qroots, thA. change (2 / 2)%nat with 1%nat. cbn [qloop nth Nat.add Nat.odd Nat.even negb app].
  unfold rpair. rewrite !exp_ln by lra. replace (4 * 4 - 4 * 3) with (2 * 2) by ring. rewrite sqrt_square by lra.
  destruct (Rlt_dec 0 (2 * 2)) as [_|H]; [|lra]. cbn [app]. repeat (f_equal; try field).
Qed.
Lemma rootsB : py_ar_roots AX 2 (map Fin thB) = Ok (map FinC [(-1, -1); (-1, 1)]).
Proof.
  rewrite py_ar_roots_Fin by (cbn; lia). f_equal. f_equal. unfold qroots, thB. change (2 / 2)%nat with 1%nat. cbn [qloop nth Nat.add Nat.odd Nat.even negb app].
  unfold rpair. rewrite !exp_ln by lra. replace (2 * 2 - 4 * 2) with (- (2 * 2)) by ring. rewrite Ropp_involutive, sqrt_square by lra.
  destruct (Rlt_dec 0 (- (2 * 2))) as [H|_]; [lra|]. cbn [app]. repeat (f_equal; try field).
Qed.
Theorem mean_roots_not_closed : exists (rowA rowB : list R) (ra rb m : list C),
  py_ar_roots AX 2 (map Fin rowA) = Ok (map FinC ra) /\ conj_closed ra /\ py_ar_roots AX 2 (map Fin rowB) = Ok (map FinC rb) /\ conj_closed rb /\
  mean_roots (A := AX) 2 [map FinC ra; map FinC rb] = map FinC m /\ ~ conj_closed m /\ ~ Permutation m (map Cconj m).
Proof.
  exists thA, thB, [(-3, 0); (-1, 0)], [(-1, -1); (-1, 1)], [(-2, -1/2); (-1, 1/2)].
  split; [exact rootsA|]. split; [unfold conj_closed, Cconj; cbn [map fst snd]; rewrite !Ropp_0; apply Permutation_refl|].
  split; [exact rootsB|]. split; [unfold conj_closed, Cconj; cbn [map fst snd]; replace (- -1) with 1 by lra; replace (- (1)) with (-1) by lra; apply perm_swap|].
  assert (~ conj_closed [(-2, -1/2); (-1, 1/2)]) as Hn.
  { unfold conj_closed. intros H. assert (In (-2, - (-1/2)) [(-2, -1/2); (-1, 1/2)]) as Hin by (apply (Permutation_in _ H); left; reflexivity).
    destruct Hin as [E|[E|[]]]; apply (f_equal fst) in E as E1; apply (f_equal snd) in E as E2; cbn in E1, E2; lra. }
  split; [|split; [exact Hn|intros H; apply Hn; apply Permutation_sym, H]].
  unfold mean_roots, vbuild. cbn [length seq map].
  assert (forall a b : C, @cdivr AX (csum (fun i => nth i [FinC a; FinC b] (c0 AX)) 2) (fofZ AX (Z.of_nat 2)) = FinC ((fst a + fst b) / 2, (snd a + snd b) / 2)) as D.
  { intros a b. cbn [csum nth]. unfold cdivr, cadd, c0, FinC. cbn [fst snd fadd AX xadd fofZ]. f_equal.
    - refine (eq_trans (fin_div _ _ _) _); [cbn; lra|]. f_equal. cbn. field.
    - refine (eq_trans (fin_div _ _ _) _); [cbn; lra|]. f_equal. cbn. field. }
  pose proof (D (-3, 0) (-1, -1)) as D1. pose proof (D (-1, 0) (-1, 1)) as D2.
  f_equal; [|f_equal].
  - refine (eq_trans _ (eq_trans D1 _)); [reflexivity|]. cbn [fst snd]. f_equal. f_equal; field.
  - refine (eq_trans _ (eq_trans D2 _)); [reflexivity|]. cbn [fst snd]. f_equal. f_equal; field.
Qed.
