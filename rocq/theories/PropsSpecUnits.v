(** C134: the power spectrum and the autocovariance of the Python module in other units. *)
From Coq Require Import Reals List Arith Lra Lia Permutation.
From Coquelicot Require Import Complex.
From Verif Require Import Arith Emb Spec Cx SpecCarma CLin KFpX KFpMain SpecModel RootsProof PyModel PySim PyFuns SymTime PredLaw PropsPy.
Import ListNotations.
Local Open Scope R_scope.
Local Notation length := List.length.

Lemma freq_scl k f : (0, 2 * PI * (f / k)) = scl (/ k) (0, 2 * PI * f).
Proof. rewrite scl_parts. cbn [fst snd]. f_equal; unfold Rdiv; ring. Qed.
Lemma conj_closed_scl r om : conj_closed om -> conj_closed (map (scl r) om).
Proof.
  unfold conj_closed. intros H. rewrite map_map. rewrite (map_ext (fun z => Cconj (scl r z)) (fun z => scl r (Cconj z))).
  - rewrite <- (map_map Cconj (scl r)). apply Permutation_map, H.
  - intros z. rewrite !scl_parts. unfold Cconj. cbn [fst snd]. f_equal. ring.
Qed.
Lemma neg_scl k om : 0 < k -> (forall z : C, In z om -> fst z < 0) -> forall z, In z (map (scl (/ k)) om) -> fst z < 0.
Proof.
  intros Hk H z Hz. apply in_map_iff in Hz. destruct Hz as (x & <- & Hx). rewrite scl_parts. cbn [fst]. specialize (H x Hx).
  assert (0 < / k) by (apply Rinv_0_lt_compat, Hk). assert (0 < / k * - fst x) by (apply Rmult_lt_0_compat; lra). lra.
Qed.

(** C134, power_spectrum: values in a unit 1/a of the old one and times in a unit 1/k, so that the frequencies are f / k.  The roots are divided by k, the l-th
    moving average coefficient is multiplied by k^l, and sigma^2 becomes a^2 sigma^2 / k^(2p-1) (C92, C98).  The spectrum is multiplied by a^2 k. *)
Theorem C134_power_spectrum : forall isreal isreal' (om : list C) sigma sigma' (ma : list R) f a k, 0 < k ->
  (forall z, In z om -> fst z < 0) -> conj_closed om -> (1 <= length om)%nat ->
  sigma' * sigma' = a * a * (sigma * sigma) / k ^ (2 * length om - 1) ->
  exists P, power_spectrum AX (Fin f) (Fin sigma) (py_ar_coefs isreal (map FinC om)) (map Fin ma) = Fin P /\
    power_spectrum AX (Fin (f / k)) (Fin sigma') (py_ar_coefs isreal' (map FinC (map (scl (/ k)) om))) (map Fin (map (fun l => k ^ l * nth l ma 0) (seq 0 (length ma)))) = Fin (a * a * k * P).
Proof.
  intros isreal isreal' om sigma sigma' ma f a k Hk Hneg Hcc Hp Hs.
  destruct (C54_power_spectrum isreal om sigma ma f Hneg Hcc) as (E & _).
  destruct (C54_power_spectrum isreal' (map (scl (/ k)) om) sigma' (ma_units k ma) (f / k) (neg_scl k om Hk Hneg) (conj_closed_scl _ om Hcc)) as (E' & _).
  eexists. split; [exact E|]. fold (ma_units k ma). rewrite E'. f_equal. rewrite freq_scl, ma_poly_units by exact Hk. rewrite roots_poly_scale, Cmod_mult, Hs.
  assert (roots_poly om (0, 2 * PI * f) <> RtoC 0) as Hr. { intros E0. apply roots_poly_0 in E0. apply Hneg in E0. cbn [fst] in E0. lra. }
  apply Cmod_gt_0 in Hr. rewrite Cpown_RtoC, Cmod_R. assert (0 < / k) as Hik by (apply Rinv_0_lt_compat, Hk).
  rewrite Rabs_right by (apply Rle_ge, pow_le; lra). rewrite pow_inv.
  assert (k ^ length om * k ^ length om = k * k ^ (2 * length om - 1)) as Ek by (rewrite <- pow_add, tech_pow_Rmult; f_equal; lia).
  assert (0 < k ^ length om) as K1 by (apply pow_lt, Hk). assert (0 < k ^ (2 * length om - 1)) as K2 by (apply pow_lt, Hk).
  set (R0 := Cmod (roots_poly om (0, 2 * PI * f))) in *. set (M := Cmod (ma_poly ma (0, 2 * PI * f))). set (u := k ^ length om) in *. set (v := k ^ (2 * length om - 1)) in *.
  transitivity (a * a * (sigma * sigma) * (M * M) * (u * u) / (v * (R0 * R0))); [field; lra|]. rewrite Ek. field. lra.
Qed.
Print Assumptions C134_power_spectrum.

(** C134, the spectrum of a CAR(1) sample. *)
Theorem C134_car1_psd : forall sigma sigma' lo f a k, 0 < k -> sigma' * sigma' = a * a * (sigma * sigma) / k ->
  exists P, car1_psd AX (Fin sigma) (Fin lo) (Fin f) = Fin P /\ car1_psd AX (Fin sigma') (Fin (lo - ln k)) (Fin (f / k)) = Fin (a * a * k * P).
Proof.
  intros sigma sigma' lo f a k Hk Hs. destruct (C54_car1 sigma lo f) as (E & _). destruct (C54_car1 sigma' (lo - ln k) (f / k)) as (E' & _).
  eexists. split; [exact E|]. rewrite E'. f_equal. rewrite Hs.
  assert (exp (lo - ln k) = exp lo / k) as -> by (unfold Rminus, Rdiv; rewrite exp_plus, exp_Ropp, exp_ln by exact Hk; reflexivity).
  pose proof (exp_pos lo) as Hl. assert (0 < exp lo * exp lo + 2 * PI * f * (2 * PI * f)) as Hd.
  { assert (0 < exp lo * exp lo) by (apply Rmult_lt_0_compat; assumption). pose proof (Rle_0_sqr (2 * PI * f)) as Q. unfold Rsqr in Q. lra. }
  set (w := exp lo) in *. replace (w / k * (w / k) + 2 * PI * (f / k) * (2 * PI * (f / k))) with ((w * w + 2 * PI * f * (2 * PI * f)) / (k * k)) by (field; lra).
  set (D := w * w + 2 * PI * f * (2 * PI * f)) in *. field. lra.
Qed.
Print Assumptions C134_car1_psd.

(** C134, carma_variance: at the lags k tau the autocovariance is multiplied by a^2. *)
Theorem C134_carma_variance : forall (om : list C) (ma : list R) sig lag a k, 0 < k -> stable_roots om -> (1 <= length om)%nat -> (length ma <= length om)%nat ->
  exists v, carma_variance (Fin sig : F AX) (map FinC om) (map Fin ma) (Fin lag) = Fin v /\
    carma_variance (Fin (a * a * sig / k ^ (2 * length om - 1)) : F AX) (map FinC (map (scl (/ k)) om)) (map Fin (map (fun l => k ^ l * nth l ma 0) (seq 0 (length ma)))) (Fin (k * lag)) = Fin (a * a * v).
Proof.
  intros om ma sig lag a k Hk Hst Hp Hl. pose proof Hst as (Hnd & Hneg & _). pose proof (stable_units k om Hk Hst) as (Hnd' & Hneg' & _).
  eexists. split; [apply C55_carma_variance; assumption|]. fold (ma_units k ma).
  rewrite C55_carma_variance by (rewrite ?ma_units_len, ?map_length; assumption). f_equal.
  pose proof (carma_units false a k 0 sig ma om lag 0 Hk Hst Hp) as E. unfold carma_cov, new_time, sig_units in E. rewrite !Rplus_0_r, Rmult_0_r, !Rminus_0_r in E. exact E.
Qed.
Print Assumptions C134_carma_variance.

(** The hypotheses are met: a CARMA(2,1) process, days into hours and magnitudes into millimagnitudes. *)
Example C134_hypotheses_met : exists (om : list C) sigma', stable_roots om /\ conj_closed om /\ length om = 2%nat /\ snd (nth 0 om (RtoC 0)) <> 0 /\
  sigma' * sigma' = 1000 * 1000 * (3 * 3) / 24 ^ (2 * length om - 1).
Proof.
  exists [(-1, -1); (-1, 1)], (sqrt (1000 * 1000 * (3 * 3) / 24 ^ 3)). split; [|split; [|split; [reflexivity|split; [cbn; lra|]]]].
  - split; [|split].
    + constructor; [intros [E|[]]; injection E; lra|constructor; [intros []|constructor]].
    + intros z [<-|[<-|[]]]; cbn; lra.
    + intros z [<-|[<-|[]]]; unfold Cconj; cbn [fst snd]; [right; left|left]; f_equal; ring.
  - unfold conj_closed. cbn [map]. unfold Cconj. cbn [fst snd]. replace (- -1) with 1 by ring. replace (- (1)) with (-1) by ring. apply perm_swap.
  - cbn [length Nat.mul Nat.add Nat.sub]. apply sqrt_sqrt. apply Rlt_le, Rdiv_lt_0_compat; [lra|apply pow_lt; lra].
Qed.
