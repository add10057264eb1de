(** Theorems added after edits of the model that no theorem noticed: C73 (the default settings of run_mcmc), C95 (exp, gamma and chisqr), C105 (complex parameters). *)
From Coq Require Import List Arith ZArith Reals Lra Lia Bool String.
From Coquelicot Require Import Coquelicot.
From Verif Require Import Arith Res ListLemmas KFModel Emb Cx KFpModel CarpackModel EngineModel StartModel PyModel PySampleModel PyPlotModel RandModel RandProof.
Import ListNotations.
Local Open Scope R_scope.
Local Notation length := List.length.

(** C73: run_mcmc without nburnin is run_mcmc with half the number of samples (rounded down); without ntemperatures it is run_mcmc with p + q chains, but at least ten; without
    init it is run_mcmc with an empty starting value. *)
Theorem C73_defaults : forall (A : Arith) (R0 : rng A) dsort solve si chol vsort fuel (m : cmodel A) N nthin init (raw : kfp A) (raw1 : kf1 A) v0 l0 a0 (g : gen R0) nb nt,
  (2 * nb <= N < 2 * nb + 2)%nat -> (10 <= nt)%nat -> (c_p m + c_q m <= nt)%nat -> (nt = 10 \/ nt = c_p m + c_q m)%nat ->
  (forall t, run_mcmcp (R := R0) dsort solve si chol fuel m N None t nthin init raw v0 l0 a0 g = run_mcmcp (R := R0) dsort solve si chol fuel m N (Some nb) t nthin init raw v0 l0 a0 g) /\
  (forall b, run_mcmcp (R := R0) dsort solve si chol fuel m N b None nthin init raw v0 l0 a0 g = run_mcmcp (R := R0) dsort solve si chol fuel m N b (Some nt) nthin init raw v0 l0 a0 g) /\
  (forall b t, run_mcmcp (R := R0) dsort solve si chol fuel m N b t nthin None raw v0 l0 a0 g = run_mcmcp (R := R0) dsort solve si chol fuel m N b t nthin (Some []) raw v0 l0 a0 g) /\
  run_mcmc1 (R := R0) vsort si chol m N None nthin init raw1 v0 l0 a0 g = run_mcmc1 (R := R0) vsort si chol m N (Some nb) nthin init raw1 v0 l0 a0 g.
Proof.
  intros A R0 dsort solve si chol vsort fuel m N nthin init raw raw1 v0 l0 a0 g nb nt Hb H1 H2 H3.
  assert (N / 2 = nb)%nat as E1 by (symmetry; apply (Nat.div_unique N 2 nb (N - 2 * nb)); lia). assert (Nat.max 10 (c_p m + c_q m) = nt) as E2 by lia.
  unfold run_mcmcp, run_mcmc1, default_burnin, default_temps. rewrite E1, E2. repeat split.
Qed.
Print Assumptions C73_defaults.
(** seven samples of a CARMA(2,1) model *)
Example C73_defaults_case : (2 * 3 <= 7 < 2 * 3 + 2)%nat /\ (10 <= 10)%nat /\ (2 + 1 <= 10)%nat /\ (10 = 10 \/ 10 = 2 + 1)%nat.
Proof. repeat split; try lia. Qed.

(** C95: the density in the comment above exp, random.cpp L57-60; boost's exponential_distribution(rate) has the same one *)
Definition exp_dens (lambda x : R) : R := lambda * exp (- (lambda * x)).
Lemma carries_id (p : R -> R) : (forall x, 0 < x -> continuous p x) -> carries_density positive p (fun x => x) positive p.
Proof.
  intros Hc. exists 1. split; [lra|]. intros a b Ha Hb Hab. unfold positive in *.
  assert (ex_RInt p a b) as [v Hv]. { apply (ex_RInt_continuous (V := R_CompleteNormedModule)). intros x Hx. rewrite Rmin_left, Rmax_right in Hx by lra. apply Hc. lra. }
  exists a, b, v. split; [exact Ha|]. split; [exact Hb|]. split; [exact Hab|]. split; [tauto|]. split; [exact Hv|]. rewrite Rmult_1_l. exact Hv.
Qed.

(** C95: exp, gamma and chisqr hand on the variate of the boost distribution with the documented density: rate lambda; shape alpha and scale beta; dof degrees of freedom.  They use the
    boost generator only. *)
Theorem C95_direct : forall (R0 : rng AX) (bg : F AX -> F AX -> Gb R0 -> F AX * Gb R0) (be : F AX -> Gb R0 -> F AX * Gb R0) (lambda alpha beta : R) (dof : Z),
  0 < lambda -> 0 < alpha -> 0 < beta -> (0 < dof)%Z ->
  (exists f : R -> R, (forall (g : gen R0) x b, 0 < x -> be (Fin lambda) (fst g) = (Fin x, b) -> rexp be (Fin lambda) g = (Fin (f x), (b, snd g))) /\
     carries_density positive (exp_dens lambda) f positive (exp_dens lambda)) /\
  (exists f : R -> R, (forall (g : gen R0) x b, 0 < x -> bg (Fin alpha) (Fin beta) (fst g) = (Fin x, b) -> rgamma bg (Fin alpha) (Fin beta) g = (Fin (f x), (b, snd g))) /\
     carries_density positive (gamma_dens alpha beta) f positive (gamma_dens alpha beta)) /\
  (exists f : R -> R, (forall (g : gen R0) x b, 0 < x -> b_chisqr R0 dof (fst g) = (Fin x, b) -> rchisqr (R := R0) dof g = (Fin (f x), (b, snd g))) /\
     carries_density positive (chisqr_dens (IZR dof)) f positive (chisqr_dens (IZR dof))).
Proof.
  intros R0 bg be lambda alpha beta dof Hl Ha Hb Hd. split; [|split]; exists (fun x => x); (split; [|apply carries_id]).
  - intros [gb ga] x b _ E. unfold rexp, on_b. cbn [fst snd] in *. rewrite E. reflexivity.
  - intros x Hx. unfold exp_dens. apply (ex_derive_continuous (V := R_NormedModule)). auto_derive. exact I.
  - intros [gb ga] x b _ E. unfold rgamma, on_b. cbn [fst snd] in *. rewrite E. reflexivity.
  - intros x Hx. apply gamma_cont; assumption.
  - intros [gb ga] x b _ E. unfold rchisqr, on_b. cbn [fst snd] in *. rewrite E. reflexivity.
  - intros x Hx. apply chisqr_cont. exact Hx.
Qed.
Print Assumptions C95_direct.

(** C105: plot_trace of a complex parameter (ar_roots) draws what it draws for the array of the real parts, in any arithmetic. *)
Theorem C105_complex : forall (A : Arith) (d d' : dict A) k (m : list (list (cx A))), dget d k = Some (Z2 m) -> dget d' k = Some (V2 A (map (map fst) m)) -> plot_trace d k = plot_trace d' k.
Proof.
  intros A d d' k m E E'. unfold plot_trace. rewrite E, E'.
  assert (@ncols A (Z2 m) = ncols (V2 A (map (map fst) m))) as -> by (cbn; destruct m as [|row m]; [reflexivity|cbn; rewrite map_length; reflexivity]).
  assert (forall i, @real_column A (Z2 m) i = real_column (V2 A (map (map fst) m)) i) as Hc.
  { intros i. cbn [real_column]. unfold column. clear. induction m as [|row m IH]; [reflexivity|]. cbn [map rmap]. rewrite IH. unfold vget. rewrite nth_error_map. change (cx A) with (F A * F A)%type in *. destruct (nth_error row i); reflexivity. }
  destruct (ncols _) as [n|e| |]; cbn [bind]; try reflexivity. rewrite Hc. destruct (n =? 0)%nat; [reflexivity|]. destruct (real_column _ _); cbn [bind]; try reflexivity.
  assert (rmap (fun i => c <- real_column (Z2 m) i ;; Ok ((i + 1)%nat, c)) (seq 0 (n - 1)) = rmap (fun i => c <- real_column (V2 A (map (map fst) m)) i ;; Ok ((i + 1)%nat, c)) (seq 0 (n - 1))) as ->;
    [|reflexivity].
  generalize (seq 0 (n - 1)). intros l. induction l as [|i l IH]; [reflexivity|]. cbn [rmap]. rewrite IH, Hc. reflexivity.
Qed.
Print Assumptions C105_complex.
Example C105_complex_case : let m := [[(Fin 1, Fin 2); (Fin 1, Fin (-2))]] in exists d d' : dict AX, dget d "ar_roots" = Some (Z2 (A := AX) m) /\ dget d' "ar_roots" = Some (V2 AX (map (map fst) m)) /\
  plot_trace d "ar_roots" = Ok (Some [(2%nat, [Fin 1]); (1%nat, [Fin 1])]).
Proof. cbv zeta. exists [("ar_roots"%string, Z2 (A := AX) [[(Fin 1, Fin 2); (Fin 1, Fin (-2))]])]. eexists [("ar_roots"%string, V2 AX _)]. split; [reflexivity|]. split; reflexivity. Qed.
