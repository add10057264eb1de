(** C95-C97: the variates of random.cpp and proposals.cpp, and the saved state of the generator. *)
From Coq Require Import String.
From Coq Require Import Reals List Arith ZArith Lra Lia Bool Permutation.
From Coquelicot Require Import Coquelicot.
From Verif Require Import Arith Res ListLemmas KFModel Spec Gauss Emb History InitProof.
From Verif Require Import Cx KFpModel KFpX KFpMain KFpTop SpecModel CarpackModel EngineModel StartModel EngineSpec EngineProof CholProof RamProof EngineHist EngineDriver ProposalProof EngineAX SeedProof SeedRefute EngineReal StartTop LogDens RandModel RandProof StartProof TotalTop Start1Proof.
Import ListNotations.
Local Open Scope R_scope.
Local Notation length := List.length.

(** C95: powerlaw turns a uniform number into a variate with density proportional to x^slope on [lower, upper]. *)
Theorem C95_powerlaw (R0 : rng AX) (lo hi s : R) : 0 < lo < hi -> s <> -1 ->
  exists f : R -> R,
    (forall (g g1 : gen R0) u, 0 <= u <= 1 -> @runiform AX R0 (Fin 0) (Fin 1) g = (Fin u, g1) -> @powerlaw AX R0 (Fin lo) (Fin hi) (Fin s) g = (Fin (f u), g1)) /\
    carries_density (within 0 1) flat_dens f (within lo hi) (powerlaw_dens s).
Proof. intros Hl Hs. exists (powerlaw_of lo hi s). split; [intros; apply powerlaw_code; assumption|exact (powerlaw_density Hl Hs)]. Qed.
Print Assumptions C95_powerlaw.
(** The stretch move's slope -1/2 between 1/2 and 2 meets the hypotheses. *)
Example C95_powerlaw_case : 0 < 1 / 2 < 2 /\ - (1 / 2) <> -1.
Proof. split; lra. Qed.

(** C95 is false at slope -1: every variate is 1, even when 1 is not between the bounds. *)
Theorem C95_powerlaw_refuted : exists lo hi : R, 0 < lo < hi /\ forall (R0 : rng AX) (g g1 : gen R0) u, @runiform AX R0 (Fin 0) (Fin 1) g = (Fin u, g1) ->
  exists x, @powerlaw AX R0 (Fin lo) (Fin hi) (Fin (-1)) g = (Fin x, g1) /\ ~ lo <= x <= hi.
Proof.
  exists 2, 3. split; [lra|]. intros R0 g g1 u E. exists 1. split; [|lra]. exact (@powerlaw_minus_one R0 2 3 g g1 u ltac:(lra) E).
Qed.
Print Assumptions C95_powerlaw_refuted.

(** C95: tdist turns a Student variate into one with the documented density. *)
Theorem C95_tdist (R0 : rng AX) (nu m s : R) : 0 < nu -> 0 < s ->
  exists f : R -> R,
    (forall (g : gen R0) x b, b_student R0 (Fin nu) (fst g) = (Fin x, b) -> tdist (R := R0) (Fin nu) (Fin m) (Fin s) g = (Fin (f x), (b, snd g))) /\
    carries_density anywhere (student_dens nu) f anywhere (tdist_dens nu m s).
Proof. intros Hn Hs. exists (fun z => m + s * z). split; [intros; apply tdist_code; assumption|exact (tdist_density m Hn Hs)]. Qed.
Print Assumptions C95_tdist.

(** C95: scaled_inverse_chisqr turns a chi-square variate into a scaled inverse chi-square one. *)
Theorem C95_scaled_inverse_chisqr (R0 : rng AX) (dof : Z) (s : R) : (0 < dof)%Z -> 0 < s ->
  exists f : R -> R,
    (forall (g : gen R0) x b, 0 < x -> b_chisqr R0 dof (fst g) = (Fin x, b) -> scaled_inverse_chisqr (R := R0) dof (Fin s) g = (Fin (f x), (b, snd g))) /\
    carries_density positive (chisqr_dens (IZR dof)) f positive (sichi_dens (IZR dof) s).
Proof. intros Hn Hs. exists (fun x => s / x * IZR dof). split; [intros; apply sichi_code; assumption|]. apply sichi_density; [apply (IZR_lt 0); exact Hn|exact Hs]. Qed.
Print Assumptions C95_scaled_inverse_chisqr.

(** C95: the density in the comment above scaled_inverse_chisqr is another one: 4 degrees of freedom, scale 1. *)
Theorem C95_scaled_inverse_chisqr_refuted : exists (dof : Z) (s : R), (0 < dof)%Z /\ 0 < s /\
  forall f : R -> R, (forall (R0 : rng AX) (g : gen R0) x b, 0 < x -> b_chisqr R0 dof (fst g) = (Fin x, b) -> scaled_inverse_chisqr (R := R0) dof (Fin s) g = (Fin (f x), (b, snd g))) ->
    ~ carries_density positive (chisqr_dens (IZR dof)) f positive (sichi_comment (IZR dof) s).
Proof.
  exists 4%Z, 1. split; [lia|]. split; [lra|]. intros f Hf H. apply sichi_comment_wrong.
  destruct H as (k & Hk & H). exists k. split; [exact Hk|]. intros a b Ha Hb Hab. destruct (H a b Ha Hb Hab) as (c & d & v & Hc & Hd & Hcd & HE & HI).
  exists c, d, v. split; [exact Hc|]. split; [exact Hd|]. split; [exact Hcd|]. split; [|exact HI]. intros x Hx.
  assert (f x = 1 / x * 4) as <-; [|exact (HE x Hx)].
  set (R1 := @mkRng AX unit unit (fun _ : Z => tt) (fun lo hi g => (lo, g)) (fun lo hi g => (lo, g)) (fun m s g => (m, g)) (fun d g => (Fin x, g))
    (fun d g => (Fin 1, g)) (fun m s g => (m, g)) (fun g => (Fin 0, g)) (fun g => (Fin 0, g))).
  pose proof (Hf R1 (tt, tt) x tt Hx eq_refl) as E1. rewrite (@sichi_code R1 4 1 (tt, tt) x tt Hx eq_refl) in E1. injection E1 as <-. reflexivity.
Qed.
Print Assumptions C95_scaled_inverse_chisqr_refuted.

(** C95: invgamma turns a gamma variate into one with the documented density. *)
Theorem C95_invgamma (R0 : rng AX) (bg : F AX -> F AX -> Gb R0 -> F AX * Gb R0) (alpha beta : R) : 0 < alpha -> 0 < beta ->
  exists f : R -> R,
    (forall (g : gen R0) x b, 0 < x -> bg (Fin alpha) (Fin (1 / beta)) (fst g) = (Fin x, b) -> invgamma bg (Fin alpha) (Fin beta) g = (Fin (f x), (b, snd g))) /\
    carries_density positive (gamma_dens alpha (1 / beta)) f positive (invgamma_dens alpha beta).
Proof. intros Ha Hb. exists (fun x => 1 / x). split; [intros; apply invgamma_code; assumption|exact (invgamma_density alpha Hb)]. Qed.
Print Assumptions C95_invgamma.

(** C95 is false of beta, weibull and mtdist: their result does not depend on the generator, which they leave as it was (and mtdist's not on its
    arguments beyond their size); that of beta and weibull is always zero. *)
Theorem C95_placeholders_refuted : forall (A : Arith) (R0 : rng A) (junk : nat -> list (F A)) (c c' : mat A) (d d' : F A) (g g' : gen R0), length c = length c' ->
  rbeta g = (fofZ A 0, g) /\ rweibull g = (fofZ A 0, g) /\ fst (mtdist (R := R0) junk c d g) = fst (mtdist (R := R0) junk c' d' g') /\
  snd (mtdist (R := R0) junk c d g) = g.
Proof. intros. unfold mtdist. rewrite H. repeat split. Qed.
Print Assumptions C95_placeholders_refuted.

(** C96: normal(covar) is a linear image M z of standard normal numbers z with M M^T = covar; the logarithm of its density is, up to a constant,
    that of the density of z. *)
Theorem C96_mvnormal (R0 : rng AX) (chol : mat AX -> option (mat AX)) (n : nat) (K : nat -> nat -> R) : valid_chol chol -> msym n K -> pd n K ->
  exists (M : nat -> nat -> R) (c : R),
    (forall i k, (i < n)%nat -> (k < n)%nat -> Rsum (fun j => M i j * M k j) n = K i k) /\
    (forall i j, (i < n)%nat -> (i < j)%nat -> M i j = 0) /\
    forall (g g1 : gen R0) z, length z = n -> draws n (rnorm (R := R0) (Fin 0) (Fin 1)) g = (map Fin z, g1) ->
      exists x, mvnormal (R := R0) chol (FinM (mbuild n n K)) g = Ok (map Fin x, g1) /\ length x = n /\
        (forall i, (i < n)%nat -> nth i x 0 = Rsum (fun j => M i j * nth j z 0) n) /\
        is_normal_ll n K (fun i => nth i x 0) (c - 1 / 2 * Rsum (fun j => nth j z 0 * nth j z 0) n).
Proof. exact (@mvnormal_code R0 chol n K). Qed.
Print Assumptions C96_mvnormal.

Example C96_case : let K := fun i j : nat => if (i =? j)%nat then 2 else 1 in (exists chol, valid_chol chol) /\ msym 2 K /\ pd 2 K.
Proof.
  cbv zeta. split; [exact valid_chol_exists|]. split.
  - intros i j _ _. rewrite Nat.eqb_sym. reflexivity.
  - intros a (k & Hk & Ha). cbn. assert (0 < a 0%nat * a 0%nat + a 1%nat * a 1%nat + (a 0%nat + a 1%nat) * (a 0%nat + a 1%nat)); [|nra].
    destruct k as [|[|k]]; [| |lia]; [assert (0 < a 0%nat * a 0%nat) by nra|assert (0 < a 1%nat * a 1%nat) by nra]; nra.
Qed.

(** C96: MultiNormalProposal.Draw adds it to the current value, whatever the current value. *)
Theorem C96_proposal (R0 : rng AX) (chol : mat AX -> option (mat AX)) (n : nat) (K : nat -> nat -> R) : valid_chol chol -> msym n K -> pd n K ->
  exists c : R, forall (g g1 : gen R0) z st, length z = n -> length st = n -> draws n (rnorm (R := R0) (Fin 0) (Fin 1)) g = (map Fin z, g1) ->
    exists v, mvnormal_draw (R := R0) chol (FinM (mbuild n n K)) (map Fin st) g = Ok (map Fin v, g1) /\ length v = n /\
      is_normal_ll n K (fun i => nth i v 0 - nth i st 0) (c - 1 / 2 * Rsum (fun j => nth j z 0 * nth j z 0) n).
Proof.
  intros Hch Hs Hp. destruct (@mvnormal_code R0 chol n K Hch Hs Hp) as (M & c & _ & _ & H). exists c. intros g g1 z st Hz Hst E.
  destruct (H g g1 z Hz E) as (x & Ex & Hx & _ & Hl). exists (radd st x). split; [|split].
  - apply mvnormal_draw_code; [exact Ex|]. rewrite Hst, Hx. reflexivity.
  - unfold radd. rewrite map_length, combine_length, Hst, Hx. apply Nat.min_id.
  - destruct Hl as (V & HV & HD & HE). exists V. split; [exact HV|]. split; [exact HD|]. rewrite HE. do 2 f_equal. apply Rsum_ext. intros i Hi. apply Rsum_ext. intros j Hj.
    rewrite !(@radd_nth st x) by lia. ring.
Qed.
Print Assumptions C96_proposal.

(** C96: the densities of a move and of its reverse agree, as LogDensity() = 0 of the normal and the Student proposals says. *)
Theorem C96_symmetric : forall n K (x y : nat -> R) l,
  (is_normal_ll n K (fun i => y i - x i) l -> is_normal_ll n K (fun i => x i - y i) l) /\
  (forall nu s a b, tdist_dens nu a s b = tdist_dens nu b s a) /\ symmetric_logdens AX (Fin (x 0%nat)) (Fin (y 0%nat)) = Fin 0.
Proof.
  intros n K x y l. split; [|split].
  - intros (V & HV & HD & ->). exists V. split; [exact HV|]. split; [exact HD|]. do 2 f_equal. apply Rsum_ext. intros i _. apply Rsum_ext. intros j _. ring.
  - intros nu s a b. unfold tdist_dens. do 3 f_equal. ring.
  - reflexivity.
Qed.
Print Assumptions C96_symmetric.

(** C96: a covariance matrix that cannot be factored, or a value of another size, is an error, not a draw. *)
Theorem C96_errors : forall (A : Arith) (R0 : rng A) (chol : mat A -> option (mat A)) (covar : mat A) (st : list (F A)) (g : gen R0) r,
  mvnormal_draw (R := R0) chol covar st g = Ok r -> chol covar <> None /\ length (fst r) = length st.
Proof.
  intros A R0 chol covar st g [v g1] E. unfold mvnormal_draw in E. apply bind_Ok in E. destruct E as ([x g2] & E1 & E). apply bind_Ok in E. destruct E as (w & Ew & Q). injection Q as <- <-.
  split; [|exact (vadd_len _ _ _ _ Ew)]. intros Hn. unfold mvnormal in E1. rewrite Hn in E1. discriminate.
Qed.
Print Assumptions C96_errors.

(** C97: after SaveSeed and RecoverSeed of the same file (not written in between) the boost generator is where it was; Armadillo's is not touched. *)
Theorem C97_recover : forall (A : Arith) (R0 : rng A) (text : Type) (show : Gb R0 -> text) (read : text -> Gb R0 -> Gb R0) can name fs fs' (g g' : gen R0),
  round_trip show read -> can name = true -> fs' name = SaveSeed show can name fs g name ->
  fst (RecoverSeed read name fs' g') = fst g /\ snd (RecoverSeed read name fs' g') = snd g'.
Proof. intros A R0 text show read can name fs fs' g g' H H0 H1. exact (@recovered A R0 text show read can name fs g g' fs' H H0 H1). Qed.
Print Assumptions C97_recover.

(** C97, several files: SaveSeed changes no other file, so that states saved in two files are recovered from both; a file that cannot be written, or that is
    missing, changes nothing. *)
Theorem C97_files : forall (A : Arith) (R0 : rng A) (text : Type) (show : Gb R0 -> text) (read : text -> Gb R0 -> Gb R0) can name name' fs (g1 g2 g' : gen R0),
  round_trip show read -> name <> name' ->
  SaveSeed show can name' fs g2 name = fs name /\
  (can name' = false -> forall n, SaveSeed show can name' fs g2 n = fs n) /\
  (fs name = None -> RecoverSeed read name fs g' = g') /\
  (can name = true -> can name' = true ->
   let fs' := SaveSeed show can name' (SaveSeed show can name fs g1) g2 in
   fst (RecoverSeed read name fs' g') = fst g1 /\ fst (RecoverSeed read name' fs' g') = fst g2).
Proof.
  intros A R0 text show read can name name' fs g1 g2 g' Hrt Hn.
  assert (forall fs, SaveSeed show can name' fs g2 name = fs name) as Ho.
  { intros fs0. unfold SaveSeed. destruct (can name'); [|reflexivity]. destruct (String.eqb_spec name name'); [contradiction|reflexivity]. }
  split; [apply Ho|]. split; [intros E n; unfold SaveSeed; rewrite E; reflexivity|]. split; [intros E; unfold RecoverSeed; rewrite E; reflexivity|].
  intros H1 H2. cbv zeta. split.
  - apply (C97_recover A R0 text show read can name fs _ g1 g' Hrt H1). apply Ho.
  - apply (C97_recover A R0 text show read can name' (SaveSeed show can name fs g1) _ g2 g' Hrt H2). reflexivity.
Qed.
Print Assumptions C97_files.

(** C97: so a CAR(1) run after RecoverSeed gives what it would have given at SaveSeed. *)
Theorem C97_car1 : forall (A : Arith) (R0 : rng A) (text : Type) (show : Gb R0 -> text) (read : text -> Gb R0 -> Gb R0) can name fs fs' (g g' : gen R0)
    (vsort : list (F A) -> option (list (F A))) (si : list (F A) -> option (list nat)) (chol : mat A -> option (mat A))
    (N burnin : nat) (t y e : list (F A)) (thin : nat) (init : list (F A)) (raw : kf1 A) (v0 : list (F A)) (l0 a0 : F A),
  round_trip show read -> can name = true -> fs' name = SaveSeed show can name fs g name ->
  seen (R := R0) (RunCar1Sampler vsort si chol N burnin t y e thin init raw v0 l0 a0 (RecoverSeed read name fs' g')) =
  seen (R := R0) (RunCar1Sampler vsort si chol N burnin t y e thin init raw v0 l0 a0 g).
Proof. intros. apply car1_boost. exact (proj1 (recovered g' H H0 H1)). Qed.
Print Assumptions C97_car1.

(** C97: and so does a CARMA run from an initial value of finite log-density. *)
Theorem C97_carma : forall (A : Arith) (R0 : rng A) (text : Type) (show : Gb R0 -> text) (read : text -> Gb R0 -> Gb R0) can name fs fs' (g g' : gen R0)
    (dsort : list (F A) -> option (list (F A))) (solve : list (list (cx A)) -> list (cx A) -> option (list (cx A)))
    (si : list (F A) -> option (list nat)) (chol : mat A -> option (mat A)) (fuel N burnin : nat) (t y e : list (F A)) (p q nw : nat) (z : bool)
    (thin : nat) (init : list (F A)) (raw : kfp A) (v0 : list (F A)) (l0 a0 : F A) (b b1 : base A (kpx A)) (lp : F A) (b2 : base A (kpx A)),
  ffin A (fneg A (finf A)) = false -> length y = length t -> length e = length t -> all_kept (A:=A) si t ->
  walker_new (A:=A) si raw p z t y e = Ok b -> SetPrior b (fmul A (fofZ A 10) (fsqrt A (pop_var A y))) = Ok b1 ->
  length init = walker_dim p q z -> length v0 = walker_dim p q z -> LogDensity (walker_cls (A:=A) solve p q z) b1 init = Ok (lp, b2) -> ffin A lp = true ->
  round_trip show read -> can name = true -> fs' name = SaveSeed show can name fs g name ->
  seen (R := R0) (RunCarmaSampler dsort solve si chol fuel N burnin t y e p q nw z thin init raw v0 l0 a0 (RecoverSeed read name fs' g')) =
  seen (R := R0) (RunCarmaSampler dsort solve si chol fuel N burnin t y e p q nw z thin init raw v0 l0 a0 g).
Proof.
  intros. eapply carma_boost; try eassumption. exact (proj1 (recovered g' H9 H10 H11)).
Qed.
Print Assumptions C97_carma.

(** C97 is false without an initial value: the state of Armadillo's generator is not in the file. *)
Theorem C97_carma_refuted :
  exists (R0 : rng AX) (show : Gb R0 -> Gb R0) (read : Gb R0 -> Gb R0 -> Gb R0) (dsort : list xr -> option (list xr)) (solve : list (list (cx AX)) -> list (cx AX) -> option (list (cx AX)))
    (si : list xr -> option (list nat)) (chol : mat AX -> option (mat AX)) (t y e : list R) (g g' : gen R0),
    valid_rng R0 /\ round_trip show read /\ valid_dsort dsort /\ valid_solve solve /\ valid_sort_index si /\ valid_chol chol /\
    length y = length t /\ length e = length t /\ strictly_increasing t /\
    (forall can name fs (fuel N thin : nat) (raw : kfp AX) (v0 : list (F AX)) (l0 a0 : F AX), can name = true -> length v0 = 5%nat -> (0 < N)%nat ->
     exists (w1 w2 : param AX (base AX (kpx AX)) (list (F AX))) (g1' g2' : gen R0),
       RunCarmaSampler (A := AX) (R := R0) dsort solve si chol (S fuel) N 0 (map Fin t) (map Fin y) (map Fin e) 2 0 1 false thin [] raw v0 l0 a0 g = Ok (w1, g1') /\
       RunCarmaSampler (A := AX) (R := R0) dsort solve si chol (S fuel) N 0 (map Fin t) (map Fin y) (map Fin e) 2 0 1 false thin [] raw v0 l0 a0
         (RecoverSeed read name (SaveSeed show can name fs g) g') = Ok (w2, g2') /\
       w_samples w1 <> w_samples w2).
Proof.
  destruct carma_seed_refuted as (R0 & dsort & solve & si & chol & t & y & e & g1 & g2 & seed & H1 & H2 & H3 & H4 & H5 & H6 & H7 & H8 & _ & H).
  exists R0, (fun b => b), (fun b _ => b), dsort, solve, si, chol, t, y, e, (SetSeed seed g1), g2.
  assert (round_trip (fun b : Gb R0 => b) (fun b _ => b)) as HR by (intros b b'; reflexivity).
  repeat (split; [assumption|]). intros can name fs fuel N thin raw v0 l0 a0 Hc Hv HN.
  assert (RecoverSeed (fun b _ => b) name (SaveSeed (fun b => b) can name fs (SetSeed seed g1)) g2 = SetSeed seed g2) as ->.
  { unfold RecoverSeed, SaveSeed. rewrite Hc, String.eqb_refl. reflexivity. }
  exact (H fuel N thin raw v0 l0 a0 Hv HN).
Qed.
Print Assumptions C97_carma_refuted.
