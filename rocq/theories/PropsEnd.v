(** From the data given to CarmaModel to the samples recorded by run_mcmc. *)
From Coq Require Import Reals List Arith ZArith Bool String Lra Lia Permutation.
From Coquelicot Require Import Complex.
From Verif Require Import Arith Res ListLemmas KFModel Spec Gauss Emb History InitProof KF1X KF1Main KF1More.
From Verif Require Import Cx KFpModel KFpProof SpecCarma CLin KFpX KFpMain KFpTop SpecModel CarpackModel RootsProof PriorProof LogLikProof LogLikMain CarpackTop CarpackRefute.
From Verif Require Import EngineModel StartModel EngineSpec EngineProof EngineInv CholProof RamProof EngineHist EngineClass EngineDriver EngineTop StartProof TotalTop EngineAX Start1Proof EngineRuns SeedRefute EngineReal.
From Verif Require Import SimProof PyModel PyData Det LogDens PropsDens EndToEnd PropsEngine PropsPy.
Import ListNotations.
Local Open Scope R_scope.

(** t', y', e' are the measurements with repeated times dropped, in the order of time. *)
Definition kept_data (t y e t' y' e' : list R) : Prop :=
  List.length y' = List.length t' /\ List.length e' = List.length t' /\ strictly_increasing t' /\ (forall x, In x t' <-> In x t) /\
  forall i, (i < List.length t')%nat -> exists k, (k < List.length t)%nat /\ nth i t' 0 = nth k t 0 /\ nth i y' 0 = nth k y 0 /\ nth i e' 0 = nth k e 0.

Lemma real_list (l : list xr) (r : list R) : (forall i, (i < List.length l)%nat -> exists k, (k < List.length r)%nat /\ nth i l NaN = nth k (map Fin r) NaN) ->
  exists l', l = map Fin l'.
Proof.
  intros H. induction l as [|a l IH]; [exists []; reflexivity|].
  destruct (H 0%nat ltac:(cbn; lia)) as (k & Hk & E). destruct IH as (l' & ->); [intros i Hi; exact (H (S i) ltac:(cbn; lia))|].
  exists (nth k r 0 :: l'). cbn [map nth] in *. rewrite E. f_equal. rewrite (nth_indep _ NaN (Fin 0)) by (rewrite map_length; exact Hk). apply map_nth.
Qed.
Lemma nth_Fin_eq (l r : list R) i k : (i < List.length l)%nat -> (k < List.length r)%nat -> nth i (map Fin l) NaN = nth k (map Fin r) NaN -> nth i l 0 = nth k r 0.
Proof.
  intros Hi Hk. rewrite (nth_indep (map Fin l) NaN (Fin 0)), (nth_indep (map Fin r) NaN (Fin 0)) by (rewrite map_length; assumption).
  rewrite !map_nth. intros E. injection E as E. exact E.
Qed.

(** C73: the model keeps real data, sorted and without repeats. *)
Theorem C73_model_keeps : forall (argsort usort : list xr -> list nat) (t y e : list R) (p q : nat),
  valid_argsort argsort -> valid_argsort usort -> List.length y = List.length t -> List.length e = List.length t ->
  exists t' y' e', CarmaModel_new AX argsort usort (map Fin t) (map Fin y) (map Fin e) p q = Ok (mkCM AX (map Fin t') (map Fin y') (map Fin e') p q) /\
    kept_data t y e t' y' e'.
Proof.
  intros argsort usort t y e p q Ha Hu Hy He.
  destruct (C04_carmamodel_data argsort usort t (map Fin y) (map Fin e) p q Ha Hu ltac:(rewrite map_length; exact Hy) ltac:(rewrite map_length; exact He))
    as (t' & y' & e' & E & Ly & Le & Hi & Hin & Hk & _).
  destruct (real_list y' y) as (yr & ->); [intros i Hi'; rewrite Ly in Hi'; destruct (Hk i Hi') as (k & K1 & _ & K2 & _); exists k; split; [lia|exact K2]|].
  destruct (real_list e' e) as (er & ->); [intros i Hi'; rewrite Le in Hi'; destruct (Hk i Hi') as (k & K1 & _ & _ & K2); exists k; split; [lia|exact K2]|].
  rewrite map_length in Ly, Le. exists t', yr, er. split; [exact E|]. split; [exact Ly|]. split; [exact Le|]. split; [exact Hi|]. split; [exact Hin|].
  intros i Hi'. destruct (Hk i Hi') as (k & K1 & K2 & K3 & K4). exists k. split; [exact K1|]. split; [exact K2|].
  split; [apply nth_Fin_eq|apply nth_Fin_eq]; lia || assumption.
Qed.
Print Assumptions C73_model_keeps.

(** C73, p >= 2: run_mcmc returns, raises a RuntimeError or keeps looking for a starting point; when it returns, every recorded sample
    lies in the prior region and its recorded log-posterior is the normal log-density of the kept measurements plus the log-prior. *)
Theorem C73_run_mcmc_carma : forall (R0 : rng AX) dsort solve si chol argsort usort (t y e : list R) (p q : nat),
  valid_rng R0 -> valid_dsort dsort -> valid_solve solve -> valid_sort_index si -> valid_chol chol -> valid_argsort argsort -> valid_argsort usort ->
  List.length y = List.length t -> List.length e = List.length t -> (2 <= p)%nat -> (q < p)%nat ->
  exists m t' y' e', CarmaModel_new AX argsort usort (map Fin t) (map Fin y) (map Fin e) p q = Ok m /\ kept_data t y e t' y' e' /\
    ((exists a b, In a y' /\ In b y' /\ a <> b) ->
     forall fuel N nburnin nt nthin (init : option (list R)) raw v0 l0 a0 (g : gen R0), nt <> Some 0%nat -> List.length v0 = (3 + p + q)%nat ->
     let r := run_mcmcp (R := R0) dsort solve si chol fuel m N nburnin nt nthin (option_map (map Fin) init) raw v0 l0 a0 g in
     ((exists w g', r = Ok (w, g')) \/ r = Throw Eruntime \/ r = Diverge) /\
     (moves R0 (3 + p + q) -> (Nat.even p = true \/ (3 <= List.length t')%nat) -> forall w g', r = Ok (w, g') ->
      exists smax fmin fmax, run_bounds t' y' smax fmin fmax /\
      forall i, (i < N)%nat -> exists th om ma x, nth_error (w_samples w) i = Some (map Fin th) /\ List.length th = (3 + p + q)%nat /\
        (List.length om = p /\ forall s, roots_poly om s = quad_poly th 3 p s) /\ in_prior smax fmin fmax th om /\
        (List.length ma = p /\ forall s, Cmult (ma_poly ma s) (quad_poly th (3 + p) q (RtoC 0)) = quad_poly th (3 + p) q s) /\
        nth_error (w_logposts w) i = Some (Fin (x + log_sichi (nth 1 th 0))) /\
        is_normal_ll (List.length t') (meas_cov (carma_cov (nth 0 th 0 * nth 0 th 0 / carma_acv 1 ma om 0) ma om) t' e' (nth 1 th 0))
          (fun i => nth i y' 0 - nth 2 th 0) x)).
Proof.
  intros R0 dsort solve si chol argsort usort t y e p q HR Hds Hsv Hsi Hch Ha Hu Hy He Hp Hq.
  destruct (C73_model_keeps argsort usort t y e p q Ha Hu Hy He) as (t' & y' & e' & E & Hk).
  eexists; exists t', y', e'. split; [exact E|]. split; [exact Hk|]. destruct Hk as (Ly & Le & Hinc & _). intros Hne fuel N nburnin nt nthin init raw v0 l0 a0 g Hnt Hv0.
  assert (default_init AX (option_map (map Fin) init) = map Fin (match init with Some v => v | None => [] end)) as Ei by (destruct init; reflexivity).
  unfold run_mcmcp. cbn [c_time c_y c_ysig c_p c_q]. rewrite Ei. split.
  - apply (C65_carma_outcomes_real R0 HR dsort solve si chol Hds Hsi Hch t' y' e' Ly Le Hinc Hne); try assumption.
    + right. exact Hq.
    + unfold default_temps. destruct nt as [[|k]|]; cbn [c_p c_q]; try lia. exfalso. apply Hnt. reflexivity.
  - intros Hmv Hodd w g' Er.
    destruct (carma_posterior (z := false) Hsi Ly Le Hinc Hne HR Hds Hch Hsv Hodd (or_intror Hq) Hmv Er) as (smax & fmin & fmax & HB & H).
    exists smax, fmin, fmax. split; [exact HB|]. intros i Hi. destruct (H i Hi) as (th & om & ma & x & H1 & H2 & H3 & H4 & H5 & H6 & H7).
    exists th, om, ma, x. split; [exact H1|]. split; [exact H2|]. split; [exact H3|]. split; [exact H4|]. split; [exact H5|]. split; [exact H6|].
    apply C30_loglik_is_density; try assumption.
    + intros s r. unfold carma_cov. rewrite Rabs_minus_sym. reflexivity.
    + pose proof (pr_scale _ _ _ _ _ H4). lra.
Qed.
Print Assumptions C73_run_mcmc_carma.

(** C73, p = 1: run_mcmc returns; a recorded log-posterior that is a number is that of a sample in the prior region and is the normal
    log-density of the kept measurements plus the log-prior.  (A chain that starts outside the prior region records -infinity: C43.) *)
Theorem C73_run_mcmc_car1 : forall (R0 : rng AX) vsort si chol argsort usort (t y e : list R) (q : nat),
  valid_rng R0 -> valid_vsort vsort -> valid_sort_index si -> valid_chol chol -> valid_argsort argsort -> valid_argsort usort ->
  List.length y = List.length t -> List.length e = List.length t ->
  exists m t' y' e', CarmaModel_new AX argsort usort (map Fin t) (map Fin y) (map Fin e) 1 q = Ok m /\ kept_data t y e t' y' e' /\
    ((exists a b, In a y' /\ In b y' /\ a <> b) ->
     forall N nburnin nthin (init : option (list R)) raw v0 l0 a0 (g : gen R0), List.length v0 = 4%nat ->
     exists w g', run_mcmc1 (R := R0) vsort si chol m N nburnin nthin (option_map (map Fin) init) raw v0 l0 a0 g = Ok (w, g') /\
     (moves R0 4 -> exists smax fmin fmax, run_bounds t' y' smax fmin fmax /\
      forall i, (i < N)%nat -> exists th lp, nth_error (w_samples w) i = Some (map Fin th) /\ List.length th = 4%nat /\ nth_error (w_logposts w) i = Some lp /\
        forall r, lp = Fin r -> in_prior1 smax fmin fmax th /\ exists x, r = x + log_sichi (nth 1 th 0) /\
          is_normal_ll (List.length t') (meas_cov (fun a c => nth 0 th 0 * nth 0 th 0 * exp (- (exp (nth 3 th 0) * Rabs (a - c)))) t' e' (nth 1 th 0))
            (fun i => nth i y' 0 - nth 2 th 0) x)).
Proof.
  intros R0 vsort si chol argsort usort t y e q HR Hvs Hsi Hch Ha Hu Hy He.
  destruct (C73_model_keeps argsort usort t y e 1 q Ha Hu Hy He) as (t' & y' & e' & E & Hk).
  eexists; exists t', y', e'. split; [exact E|]. split; [exact Hk|]. destruct Hk as (Ly & Le & Hinc & _). intros Hne N nburnin nthin init raw v0 l0 a0 g Hv0.
  assert (default_init AX (option_map (map Fin) init) = map Fin (match init with Some v => v | None => [] end)) as Ei by (destruct init; reflexivity).
  unfold run_mcmc1. cbn [c_time c_y c_ysig]. rewrite Ei.
  destruct (C64_car1_completes_real R0 vsort si chol Hvs Hsi Hch t' y' e' Ly Le Hinc Hne N (default_burnin N nburnin) nthin
    (map Fin (match init with Some v => v | None => [] end)) raw v0 l0 a0 g Hv0) as (w & g' & Er).
  exists w, g'. split; [exact Er|]. intros Hmv.
  destruct (car1_posterior Hsi Ly Le Hinc Hne HR Hvs Hch Hmv Er) as (smax & fmin & fmax & HB & H).
  exists smax, fmin, fmax. split; [exact HB|]. intros i Hi. destruct (H i Hi) as (th & lp & H1 & H2 & H3 & H4).
  exists th, lp. split; [exact H1|]. split; [exact H2|]. split; [exact H3|]. intros r Hr. destruct (H4 r Hr) as (Hin & x & -> & Hx).
  split; [exact Hin|]. exists x. split; [reflexivity|]. apply C30_loglik_is_density; try assumption.
  - intros s r0. rewrite Rabs_minus_sym. reflexivity.
  - destruct Hin as (_ & _ & Hs). lra.
Qed.
Print Assumptions C73_run_mcmc_car1.

(** ** The hypotheses are met: sorting and linear algebra oracles exist (ex_oracles, C04_applies), a generator that moves exists (ex_moves),
    and unsorted data with a repeated time keep two different measurements *)
Example ex_kept : forall t' y' e', kept_data [1; 0; 101; 1] [1; 0; 0; 1] [1; 1; 1; 1] t' y' e' -> exists a b, In a y' /\ In b y' /\ a <> b.
Proof.
  intros t' y' e' (Ly & _ & _ & Hin & Hk).
  assert (In 0 t' /\ In 1 t') as (H0 & H1) by (split; apply Hin; cbn; tauto).
  destruct (In_nth _ _ 0 H0) as (i & Hi & Ei). destruct (In_nth _ _ 0 H1) as (j & Hj & Ej).
  exists (nth i y' 0), (nth j y' 0). split; [apply nth_In; lia|]. split; [apply nth_In; lia|].
  destruct (Hk i Hi) as (k & K1 & K2 & K3 & _). destruct (Hk j Hj) as (l & L1 & L2 & L3 & _). rewrite Ei in K2. rewrite Ej in L2. rewrite K3, L3.
  destruct k as [|[|[|[|k]]]]; cbn in K1, K2 |- *; try lia; try lra; destruct l as [|[|[|[|l]]]]; cbn in L1, L2 |- *; try lia; lra.
Qed.
(** a run_mcmc call on sorted data returns: the CARMA(2,1) run of ex_run is run_mcmcp with these arguments *)
Example ex_run_mcmc : exists ds sv si ch (raw : kfp AX) w g', valid_dsort ds /\ valid_solve sv /\ valid_sort_index si /\ valid_chol ch /\ moves (rngV 1) 6 /\
  run_mcmcp (R := rngV 1) ds sv si ch 1 (mkCM AX (map Fin tX) (map Fin yX) (map Fin [1; 1; 1]) 2 1) 5 (Some 4%nat) (Some 3%nat) 2 (Some (map Fin thX)) raw
    (map Fin [0; 0; 0; 0; 0; 0]) (Fin 0) (Fin 0) (tt, true) = Ok (w, g') /\ List.length (w_samples w) = 5%nat.
Proof. exact ex_run. Qed.
