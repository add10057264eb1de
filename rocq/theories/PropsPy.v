(** Property theorems about the Python layer, carma_pack.py (C04, C51-C60, C66-C72). *)
From Coq Require Import Reals List Arith ZArith Lra Lia Bool Permutation.
From Coquelicot Require Import Complex.
From Verif Require Import Arith Res ListLemmas KFModel KF1Proof Spec Gauss Emb KF1R History KF1X InitProof OUpd SimProof KF1Main KF1More.
From Verif Require Import Cx KFpModel KFpProof SpecCarma CLin KFpX KFpMain KFpTop KFpMore SpecModel CarpackModel RootsProof PriorProof LogLikProof LogLikMain CarpackTop CarpackRefute.
From Verif Require Import EngineModel StartModel PyModel PyData PyMLE PySim PyFuns PyDerive PyPredict PyLoglik PyMore PyBox PyExtra.
Import ListNotations.
Local Open Scope R_scope.

(** C04: the data stored by CarmaModel: strictly increasing times, exactly the distinct input times, each with the y and ysig of one input
    record; sorted distinct data are stored as they are.  [y] and [e] may hold any numbers. *)
Theorem C04_carmamodel_data :
  forall (argsort usort : list xr -> list nat) (t : list R) (y e : list xr) (p q : nat),
  valid_argsort argsort -> valid_argsort usort -> length y = length t -> length e = length t ->
  exists (t' : list R) (y' e' : list xr),
    CarmaModel_new AX argsort usort (map Fin t) y e p q = Ok (mkCM AX (map Fin t') y' e' p q) /\
    length y' = length t' /\ length e' = length t' /\
    strictly_increasing t' /\ (forall x, In x t' <-> In x t) /\
    (forall i, (i < length t')%nat -> exists k, (k < length t)%nat /\
       nth i t' 0 = nth k t 0 /\ nth i y' NaN = nth k y NaN /\ nth i e' NaN = nth k e NaN) /\
    (strictly_increasing t -> t' = t /\ y' = y /\ e' = e).
Proof. exact @CarmaModel_data. Qed.
Print Assumptions C04_carmamodel_data.

(** valid sorts exist, so the theorem applies to every data set *)
Example C04_applies : exists argsort, valid_argsort argsort.
Proof. destruct valid_sort_index_exists as (si & H). eexists. exact (valid_argsort_of H). Qed.

(** C51, with two or more jobs: the first best trial, unless the first trial has a NaN objective. *)
Theorem C51_parallel_best :
  forall cpus njobs (m0 : opt AX) trials,
  jobs cpus njobs <> 1%Z ->
  (o_fun m0 <> NaN -> exists i r, get_mle cpus njobs (m0 :: trials) = Ok r /\ first_min (@o_fun AX) (m0 :: trials) i r) /\
  (o_fun m0 = NaN -> get_mle cpus njobs (m0 :: trials) = Ok m0).
Proof. exact @get_mle_best. Qed.
Print Assumptions C51_parallel_best.

(** C51 is false: with the default njobs = 1 the call always raises TypeError... *)
Theorem C51_default_refuted : forall (A : Arith) cpus trials, get_mle (A := A) cpus 1 trials = Throw Elogic.
Proof. intros. apply get_mle_serial. reflexivity. Qed.
Print Assumptions C51_default_refuted.
(** ... and otherwise a NaN in the first trial hides all the finite ones. *)
Theorem C51_nan_refuted : exists (trials : list (opt AX)) r best, get_mle 4 2 trials = Ok r /\ o_fun r = NaN /\ In best trials /\ o_fun best = Fin 1.
Proof.
  exists [mkOpt AX [] NaN; mkOpt AX [] (Fin 1)], (mkOpt AX [] NaN), (mkOpt AX [] (Fin 1)).
  split; [|split; [reflexivity|split; [right; left; reflexivity|reflexivity]]].
  refine (proj2 (@get_mle_best 4 2 (mkOpt AX [] NaN) [mkOpt AX [] (Fin 1)] _) _); [discriminate|reflexivity].
Qed.
Print Assumptions C51_nan_refuted.

(** C52: the first order of the list with the least AICc below 1e300 is returned and stored; the rest of the object is unchanged. *)
Theorem C52_choose_order :
  forall cpus njobs trials (m : cmodel AX) pmax qmax pql ms l,
  l = match pql with Some l => l | None => pq_grid pmax qmax end -> l <> [] -> length ms = length l ->
  (forall i pq e, nth_error l i = Some pq -> nth_error ms i = Some e -> get_mle cpus njobs (trials pq) = Ok e) ->
  (forall pq, In pq l -> length (c_time m) <> 2 + fst pq + snd pq + 1)%nat ->
  exists best a p' q', choose_order cpus njobs trials m pmax qmax pql = Ok (best, l, a, mkCM AX (c_time m) (c_y m) (c_ysig m) p' q') /\
    a = map (fun x : opt AX * (nat * nat) => aicc (length (c_time m)) (snd x) (o_fun (fst x))) (combine ms l) /\
    ((exists i, nth_error ms i = Some best /\ nth_error l i = Some (p', q') /\
        (exists ai, nth_error a i = Some ai /\ xlt ai (Fin (10 ^ 300)) = true /\ (forall x, In x a -> xlt x ai = false) /\
         forall j x, (j < i)%nat -> nth_error a j = Some x -> x = NaN \/ xlt ai x = true)) \/
     ((forall x, In x a -> xlt x (Fin (10 ^ 300)) = false) /\ nth_error ms 0 = Some best /\ p' = c_p m /\ q' = c_q m)).
Proof. exact @choose_order_spec. Qed.
Print Assumptions C52_choose_order.

(** C52: the default list is every pair with p <= pmax and q < p, whatever qmax is. *)
Theorem C52_grid :
  forall pmax qmax p q,
  In (p, q) (pq_grid pmax qmax) <-> (1 <= p <= pmax /\ q < p)%nat.
Proof. exact @pq_grid_spec. Qed.
Print Assumptions C52_grid.

(** C52 is false: qmax is ignored... *)
Theorem C52_qmax_refuted : exists pmax qmax p q, In (p, q) (pq_grid pmax (Some qmax)) /\ (qmax < q)%nat.
Proof. exists 3%nat, 0%nat, 3%nat, 2%nat. split; [apply pq_grid_spec; lia|lia]. Qed.
Print Assumptions C52_qmax_refuted.

(** ... and with fewer measurements than parameters the correction is negative: a worse fit with more parameters is chosen. *)
Theorem C52_short_refuted :
  exists (trials : nat * nat -> list (opt AX)) (m m' : cmodel AX) a f1 f2 best,
  length (c_time m) = 6%nat /\
  choose_order 4 2 trials m 3 None (Some [(1, 0); (3, 2)]%nat) = Ok (best, [(1, 0); (3, 2)]%nat, a, m') /\ c_p m' = 3%nat /\ c_q m' = 2%nat /\
  trials (1, 0)%nat = [mkOpt AX [] (Fin f1)] /\ trials (3, 2)%nat = [mkOpt AX [] (Fin f2)] /\ f1 < f2.
Proof. exact @choose_order_short. Qed.
Print Assumptions C52_short_refuted.

(** With n = p + q + 3 measurements the search stops with a ZeroDivisionError. *)
Theorem C52_zero_division :
  forall n pq f,
  (n = 2 + fst pq + snd pq + 1)%nat -> py_aicc AX n pq f = Throw Elogic.
Proof. exact @py_aicc_zero. Qed.
Print Assumptions C52_zero_division.

(** C53, CarmaSample: roots, moving average coefficients (up to the zeros the C++ vector is filled with) and sigma^2 are those of the
    likelihood, for every outcome of numpy's test for conjugate roots. *)
Theorem C53_carma :
  forall (isreal : list (cx AX) -> bool) p q (th : list R),
  (2 <= p)%nat -> (q < p)%nat -> length th = (3 + p + q)%nat ->
  exists d : drow AX, py_derive isreal q (map Fin th) = Ok d /\
    d_var d = Fin (nth 0 th 0 * nth 0 th 0) /\ d_scale d = Fin (nth 1 th 0) /\ d_mu d = Fin (nth 2 th 0) /\
    ARRoots AX p (map Fin th) = Ok (d_roots d) /\
    ExtractMA_carma AX p q (map Fin th) = Ok (py_pad AX p (d_ma d)) /\
    Sigp AX p (ExtractMA_carma AX p q) (map Fin th) = Ok (fmul AX (d_sigma d) (d_sigma d)) /\
    (forall om : list C, d_roots d = map FinC om -> NoDup om -> exists s, d_sigma d = Fin s /\ 0 <= s).
Proof. exact @py_derive_cpp. Qed.
Print Assumptions C53_carma.

(** C53, Car1Sample: sigma^2 is the 2 theta_0^2 omega of CAR1::ExtractSigsqr. *)
Theorem C53_car1 :
  forall t0 lo,
  car1_sigma AX (fmul AX (Fin t0) (Fin t0)) (Fin lo) = Fin (sqrt (2 * t0 * t0 * exp lo)) /\
  fmul AX (Fin (sqrt (2 * t0 * t0 * exp lo))) (Fin (sqrt (2 * t0 * t0 * exp lo))) = Fin (2 * t0 * t0 * exp lo).
Proof. exact @car1_sigma_spec. Qed.
Print Assumptions C53_car1.

(** the first hypotheses of C53 are met, and the sigma of a non-trivial row is a number *)
Example C53_applies (isreal : list (cx AX) -> bool) : exists d s, py_derive isreal 1 (map Fin (thA ++ [0])) = Ok d /\ d_sigma d = Fin s.
Proof.
  destruct (py_derive_cpp isreal 2 1 (thA ++ [0]) ltac:(lia) ltac:(lia) eq_refl) as (d & E & _ & _ & _ & Er & _ & _ & H).
  assert (d_roots d = map FinC [(-3, 0); (-1, 0)]) as Ed.
  { pose proof rootsA as HA. rewrite (py_ar_roots_Fin 2 thA ltac:(cbn; lia)) in HA. unfold py_derive in E. change (F AX) with xr in E. rewrite map_length in E.
    change (length (thA ++ [0%R]) - 3 - 1)%nat with 2%nat in E. rewrite !vget_Fin in E by (cbn; lia). cbn [bind] in E.
    rewrite (py_ar_roots_Fin 2 (thA ++ [0]) ltac:(cbn; lia)) in E. change (qroots (thA ++ [0]) 3 2) with (qroots thA 3 2) in E.
    injection HA as HA. cbn [bind] in E. destruct (py_ma_coefs _ _ _ _); try discriminate. cbn [bind] in E. injection E as <-. cbn [d_roots]. exact HA. }
  destruct (H _ Ed) as (s & Es & _). { constructor; [intros [F|[]]; apply (f_equal fst) in F; cbn in F; lra|repeat constructor; intros []]. }
  exists d, s. split; [exact E|exact Es].
Qed.

(** C54, with the AR coefficients that CarmaSample derives from its roots. *)
Theorem C54_power_spectrum :
  forall isreal (om : list C) sigma ma f,
  (forall z, In z om -> fst z < 0) -> conj_closed om ->
  let P := fun f => sigma * sigma * (Cmod (ma_poly ma (0, 2 * PI * f)) * Cmod (ma_poly ma (0, 2 * PI * f))) /
                    (Cmod (roots_poly om (0, 2 * PI * f)) * Cmod (roots_poly om (0, 2 * PI * f))) in
  power_spectrum AX (Fin f) (Fin sigma) (py_ar_coefs isreal (map FinC om)) (map Fin ma) = Fin (P f) /\
  0 <= P f /\ P (- f) = P f.
Proof. exact @power_spectrum_stable. Qed.
Print Assumptions C54_power_spectrum.

(** C54, for any coefficients and a frequency where the AR polynomial does not vanish. *)
Theorem C54_power_spectrum_coefs :
  forall sigma (ar ma : list R) f,
  desc_poly (map RtoC ar) (0, 2 * PI * f) <> RtoC 0 ->
  let P := fun f => sigma * sigma * (Cmod (ma_poly ma (0, 2 * PI * f)) * Cmod (ma_poly ma (0, 2 * PI * f))) /
                    (Cmod (desc_poly (map RtoC ar) (0, 2 * PI * f)) * Cmod (desc_poly (map RtoC ar) (0, 2 * PI * f))) in
  power_spectrum AX (Fin f) (Fin sigma) (map Fin ar) (map Fin ma) = Fin (P f) /\ 0 <= P f /\ P (- f) = P f.
Proof. exact @power_spectrum_any. Qed.
Print Assumptions C54_power_spectrum_coefs.

(** C54, the spectrum of a CAR(1) sample. *)
Theorem C54_car1 :
  forall sigma lo f,
  car1_psd AX (Fin sigma) (Fin lo) (Fin f) = Fin (sigma * sigma / (exp lo * exp lo + (2 * PI * f) * (2 * PI * f))) /\
  power_spectrum AX (Fin f) (Fin sigma) [Fin 1; Fin (exp lo)] [Fin 1] = car1_psd AX (Fin sigma) (Fin lo) (Fin f).
Proof. exact @car1_psd_spec. Qed.
Print Assumptions C54_car1.

(** C55: the autocovariance of the specification, and... *)
Theorem C55_carma_variance :
  forall (om : list C) ma sig lag,
  NoDup om -> (forall z, In z om -> fst z < 0) -> (length ma <= length om)%nat ->
  carma_variance (Fin sig : F AX) (map FinC om) (map Fin ma) (Fin lag) = Fin (carma_acv sig ma om (Rabs lag)).
Proof. exact @carma_variance_Fin. Qed.
Print Assumptions C55_carma_variance.

(** ... the value of the C++ function for a lag that is not negative... *)
Theorem C55_cpp :
  forall (om : list C) ma s lag,
  NoDup om -> (forall z, In z om -> fst z < 0) -> (length ma <= length om)%nat -> 0 <= lag ->
  carma_variance (Fin (s * s) : F AX) (map FinC om) (map Fin ma) (Fin lag) = Variance (map FinC om) (map Fin ma) (Fin s : F AX) (Fin lag).
Proof. exact @carma_variance_cpp. Qed.
Print Assumptions C55_cpp.

(** ... and no change by zeros at the end. *)
Theorem C55_padding :
  forall (om : list C) ma n sig lag,
  NoDup om -> (forall z, In z om -> fst z < 0) -> (length ma + n <= length om)%nat ->
  carma_variance (Fin sig : F AX) (map FinC om) (map Fin (ma ++ repeat 0 n)) (Fin lag) =
  carma_variance (Fin sig : F AX) (map FinC om) (map Fin ma) (Fin lag).
Proof. exact @carma_variance_pad. Qed.
Print Assumptions C55_padding.

(** C55 is false at negative lags: the C++ function does not take the absolute value of the lag. *)
Theorem C55_negative_lag_refuted :
  exists (om : list C) ma s lag, NoDup om /\ (forall z, In z om -> fst z < 0) /\ (length ma <= length om)%nat /\
  carma_variance (Fin (s * s) : F AX) (map FinC om) (map Fin ma) (Fin lag) <> Variance (map FinC om) (map Fin ma) (Fin s : F AX) (Fin lag).
Proof. exact @carma_variance_negative_lag. Qed.
Print Assumptions C55_negative_lag_refuted.

(** C56: the series is L z, with L L^T the covariance matrix, for non-decreasing times. *)
Theorem C56_car1_process :
  forall sig tau : R, 0 < sig -> 0 < tau -> forall (t : list R),
  t <> [] -> nondecreasing t ->
  exists L : nat -> nat -> R,
    (forall i j, (i < length t)%nat -> (j < length t)%nat -> Rsum (fun k => L i k * L j k) (length t) = ou_cov sig (1 / tau) (nth i t 0) (nth j t 0)) /\
    forall z : nat -> R, exists y, car1_process AX (fun i => Fin (z i)) (map Fin t) (Fin sig) (Fin tau) = Ok (map Fin y) /\ length y = length t /\
      forall i, (i < length t)%nat -> nth i y 0 = Rsum (fun k => L i k * z k) (length t).
Proof. exact @car1_process_exact. Qed.
Print Assumptions C56_car1_process.

(** Without increasing times: every value from the first step back in time on is NaN. *)
Theorem C56_step_back :
  forall sig tau (t : list R) (z : nat -> xr) k,
  0 < sig -> 0 < tau -> (S k < length t)%nat -> nth (S k) t 0 < nth k t 0 ->
  exists y, car1_process AX z (map Fin t) (Fin sig) (Fin tau) = Ok y /\ length y = length t /\
    forall j, (k < j < length t)%nat -> nth j y (Fin 0) = NaN.
Proof. exact @car1_process_back. Qed.
Print Assumptions C56_step_back.

(** C57: the times are sorted, and the series at the sorted times is L z with L L^T the covariance matrix, for distinct times. *)
Theorem C57_carma_process :
  forall vsort solve (t : list R) (sig : R) (om : list C) (ma : list R),
  valid_vsort vsort -> valid_solve solve -> stable_roots om -> (2 <= length om)%nat -> (length ma <= length om)%nat ->
  (exists l, nth l ma 0 <> 0) -> 0 < sig -> t <> [] -> NoDup t ->
  exists ts, Permutation t ts /\ strictly_increasing ts /\
  exists L : nat -> nat -> R,
    (forall i j, (i < length ts)%nat -> (j < length ts)%nat -> Rsum (fun k => L i k * L j k) (length ts) = carma_cov sig ma om (nth i ts 0) (nth j ts 0)) /\
    forall z : nat -> R, exists y,
      carma_process (A := AX) (fun i => Fin (z i)) vsort solve (map Fin t) (Fin sig) (map FinC om) (map Fin ma) = Ok (map Fin y, map Fin ts) /\
      length y = length ts /\ forall i, (i < length ts)%nat -> nth i y 0 = Rsum (fun k => L i k * z k) (length ts).
Proof. exact @carma_process_exact. Qed.
Print Assumptions C57_carma_process.

(** C57 is false with repeated times: if the smallest time occurs twice every value after the first two is NaN. *)
Theorem C57_repeated_refuted :
  forall vsort solve (t : list R) (sig : R) (om : list C) (ma : list R) a ts (z : nat -> R),
  valid_solve solve -> stable_roots om -> (2 <= length om)%nat -> (length ma <= length om)%nat ->
  (exists l, nth l ma 0 <> 0) -> 0 < sig -> vsort (map Fin t) = Some (map Fin (a :: a :: ts)) ->
  exists y, carma_process (A := AX) (fun i => Fin (z i)) vsort solve (map Fin t) (Fin sig) (map FinC om) (map Fin ma) = Ok (y, map Fin (a :: a :: ts)) /\
    length y = S (S (length ts)) /\ forall j, (2 <= j < length y)%nat -> nth j y (Fin 0) = NaN.
Proof. exact @carma_process_repeat. Qed.
Print Assumptions C57_repeated_refuted.

(** C58, when every centroid is 0 or greater than 1e-10. *)
Theorem C58_get_ar_roots :
  forall (w c : list R),
  (length w = length c \/ length w = length c + 1)%nat ->
  (forall x, In x c -> x = 0 \/ 1 / 10 ^ 10 < x) -> (forall x, In x w -> 0 < x) ->
  exists l : list C, get_ar_roots AX (map Fin w) (map Fin c) = Ok (map FinC l) /\
    l = flat_map lorentz_roots (combine w (c ++ [0])) /\
    (forall z, In z l -> fst z < 0) /\ conj_closed l.
Proof. exact @get_ar_roots_spec. Qed.
Print Assumptions C58_get_ar_roots.

(** The roots have the widths and centroids they were made from. *)
Theorem C58_round_trip :
  forall w c z,
  0 <= c -> In z (lorentz_roots (w, c)) ->
  py_width (FinC z : cx AX) = Fin w /\ py_centroid (FinC z : cx AX) = Fin c.
Proof. exact @lorentz_round_trip. Qed.
Print Assumptions C58_round_trip.

(** C58 is false for a positive centroid up to 1e-10: the conjugate root is missing. *)
Theorem C58_small_centroid_refuted :
  exists (w c : list R) (l : list C), (forall x, In x w -> 0 < x) /\ (forall x, In x c -> 0 < x) /\
  length w = length c /\ get_ar_roots AX (map Fin w) (map Fin c) = Ok (map FinC l) /\ ~ conj_closed l.
Proof. exact @get_ar_roots_not_closed. Qed.
Print Assumptions C58_small_centroid_refuted.

(** Fewer widths than centroids: an exception, in every arithmetic. *)
Theorem C58_short :
  forall A (w c : list (F A)),
  (length w < length c)%nat -> get_ar_roots A w c = Throw Elogic.
Proof. exact @get_ar_roots_short. Qed.
Print Assumptions C58_short.

(** C59 is false: a sample with scale 2, for which the predicted variance is not the one of the model of the likelihood. *)
Theorem C59_scale_refuted :
  forall (si : list (F AX) -> option (list nat)) (raw : kf1 AX),
  valid_sort_index si ->
  exists s m v m' v', car1_map_filter si raw (map Fin tQ) (map Fin yQ) (map Fin eQ) [map Fin thQ] [Fin 0] = Ok (s, Fin (nth 2 thQ 0)) /\
    py_predict (methods1 AX) s (Fin (nth 2 thQ 0)) [Fin 0] = Ok [(Fin m, Fin v)] /\
    (** the model of the likelihood: errors multiplied by the square root of the scale *)
    cond_dist (car1_K thQ) tQ (map (fun x => x - nth 2 thQ 0) yQ) (map (fun x => sqrt (nth 1 thQ 0) * x) eQ) 0 m' v' /\ v <> v'.
Proof. exact @predict_scale_refuted. Qed.
Print Assumptions C59_scale_refuted.

(** C59: in every arithmetic the filter is the same whatever the scales are, for Car1Sample... *)
Theorem C59_car1_unscaled :
  forall (A : Arith) (si : list (F A) -> option (list nat)) raw time y ysig rows rows' lp,
  Forall2 same_but_scale rows rows' ->
  car1_map_filter si raw time y ysig rows lp = car1_map_filter si raw time y ysig rows' lp.
Proof. exact @car1_filter_unscaled. Qed.
Print Assumptions C59_car1_unscaled.

(** ... and for CarmaSample. *)
Theorem C59_carma_unscaled :
  forall (A : Arith) isreal (si : list (F A) -> option (list nat)) raw time y ysig q rows rows' lp,
  Forall2 same_but_scale rows rows' ->
  carma_map_filter isreal si raw time y ysig q rows lp = carma_map_filter isreal si raw time y ysig q rows' lp.
Proof. exact @carma_filter_unscaled. Qed.
Print Assumptions C59_carma_unscaled.

(** C60 is false for every CarmaSample: each entry is the log-likelihood plus the log-prior of the scale, smaller than the log-likelihood by more
    than 24, and is not the log-likelihood. *)
Theorem C60_carma_refuted :
  forall solve (si : list (F AX) -> option (list nat)) (raw : kfp AX) p q (t y e : list R) (rows : list (list R)),
  valid_solve solve -> valid_sort_index si -> goodp raw ->
  (2 <= length t)%nat -> length y = length t -> length e = length t -> strictly_increasing t -> (2 <= p)%nat -> (q < p)%nat ->
  (forall th, In th rows -> (3 + p + q <= length th)%nat /\ nth 0 th 0 <> 0 /\ 0 < nth 1 th 0 /\
     forall om : list C, ARRoots AX p (map Fin th) = Ok (map FinC om) -> NoDup om) ->
  exists b, carp_new si raw p (map Fin t) (map Fin y) (map Fin e) = Ok b /\
    forall b1, touched (carma_cls solve p q) (@setparp AX) b b1 ->
    exists xs, CarmaSample_loglik (carma_cls solve p q) b1 (map (map Fin) rows) = Ok (map Fin xs) /\
      Forall2 (fun th x => exists om ma ll, ARRoots AX p (map Fin th) = Ok (map FinC om) /\ ExtractMA_carma AX p q (map Fin th) = Ok (map Fin ma) /\
        let K := carma_cov (nth 0 th 0 * nth 0 th 0 / carma_acv 1 ma om 0) ma om in
        is_loglik K t y e (nth 1 th 0) (nth 2 th 0) ll /\ x = ll + log_sichi (nth 1 th 0) /\ x < ll - 24 /\
        ~ is_loglik K t y e (nth 1 th 0) (nth 2 th 0) x) rows xs.
Proof. exact @CarmaSample_loglik_wrong. Qed.
Print Assumptions C60_carma_refuted.

(** C60 holds for Car1Sample. *)
Theorem C60_car1 :
  forall (si : list (F AX) -> option (list nat)) (raw : kf1 AX) (t y e : list R),
  valid_sort_index si -> (2 <= length t)%nat -> length y = length t -> length e = length t -> strictly_increasing t ->
  exists b smax fmin fmax, car1_new si raw (map Fin t) (map Fin y) (map Fin e) = Ok b /\ data_bounds t y smax fmin fmax /\
  forall rows lps, (forall th, In th rows -> (4 <= length th)%nat /\ nth 0 th 0 <> 0 /\ in_prior1 smax fmin fmax th) ->
    (** the log-posteriors recorded by the sampler: values of LogDensity in some states of the object *)
    Forall2 (fun th lp => exists b1 b2, touched (car1_cls AX) (@setpar1 AX) b b1 /\ LogDensity (car1_cls AX) b1 (map Fin th) = Ok (lp, b2)) rows lps ->
    exists xs, Car1Sample_loglik AX (map (map Fin) rows) lps = Ok (map Fin xs) /\
      Forall2 (fun th x => is_loglik (car1_K th) t y e (nth 1 th 0) (nth 2 th 0) x) rows xs.
Proof. exact @Car1Sample_loglik_right. Qed.
Print Assumptions C60_car1.

(** The log-likelihood is one number: the data and the parameters determine it. *)
Theorem C60_loglik_unique_carma :
  forall t y e sc mu sig om ma x x',
  strictly_increasing t -> carma_ok sig om ma ->
  is_loglik (carma_cov sig ma om) t y e sc mu x -> is_loglik (carma_cov sig ma om) t y e sc mu x' -> x = x'.
Proof. exact @loglik_unique_carma. Qed.
Print Assumptions C60_loglik_unique_carma.

(** ... likewise for CAR(1). *)
Theorem C60_loglik_unique_car1 :
  forall t y e sc mu sig w x x',
  strictly_increasing t -> 0 < sig -> 0 < w ->
  is_loglik (ou_cov sig w) t y e sc mu x -> is_loglik (ou_cov sig w) t y e sc mu x' -> x = x'.
Proof. exact @loglik_unique_ou. Qed.
Print Assumptions C60_loglik_unique_car1.

(** C66: the point handed to the optimiser is inside its box, for three or more measurements; entries without bounds are kept. *)
Theorem C66_start_in_box :
  forall (u : nat -> F AX -> F AX -> F AX) p q (t y th : list R),
  (forall j lo hi, lo <= hi -> exists x, u j (Fin lo) (Fin hi) = Fin x /\ lo <= x <= hi) ->
  (3 <= length t)%nat -> length y = length t -> strictly_increasing t -> (1 <= p)%nat -> (q < p)%nat -> length th = (3 + p + q)%nat ->
  exists smax fmin fmax th', data_bounds t y smax fmin fmax /\ mle_start AX u p q (map Fin t) (map Fin y) (map Fin th) = Ok (map Fin th') /\
    in_box th' (mle_box p q (sqrt (pvar y)) fmin fmax) /\ nth 1 th' 0 = 1 /\ nth 2 th' 0 = nth 2 th 0 /\
    (forall i, (3 + p <= i)%nat -> nth i th' 0 = nth i th 0).
Proof. exact @mle_start_in_box. Qed.
Print Assumptions C66_start_in_box.

(** C66: on the box the objective is a number; it is minus the sum of the log-likelihood and the log-prior of the scale... *)
Theorem C66_objective_car1 :
  forall (si : list (F AX) -> option (list nat)) (raw : kf1 AX) (t y e : list R) i,
  valid_sort_index si -> (2 <= length t)%nat -> length y = length t -> length e = length t -> strictly_increasing t ->
  (i < length y)%nat -> nth i y 0 <> smean y ->
  exists b smax fmin fmax, car1_new si raw (map Fin t) (map Fin y) (map Fin e) = Ok b /\ data_bounds t y smax fmin fmax /\
  forall b1 th, touched (car1_cls AX) (@setpar1 AX) b b1 -> in_box th (mle_box 1 0 (sqrt (pvar y)) fmin fmax) ->
    exists ll, mle_objective (car1_cls AX) b1 (map Fin th) = Ok (Fin (- (ll + log_sichi (nth 1 th 0)))) /\
      is_loglik (car1_K th) t y e (nth 1 th 0) (nth 2 th 0) ll.
Proof. exact @mle_objective_car1. Qed.
Print Assumptions C66_objective_car1.

(** ... for CARMA too, where the roots are distinct. *)
Theorem C66_objective_carma :
  forall solve (si : list (F AX) -> option (list nat)) (raw : kfp AX) p q (t y e : list R) i,
  valid_solve solve -> valid_sort_index si -> goodp raw -> (2 <= length t)%nat -> length y = length t -> length e = length t -> strictly_increasing t ->
  (2 <= p)%nat -> (q < p)%nat -> (i < length y)%nat -> nth i y 0 <> smean y ->
  exists b smax fmin fmax, carp_new si raw p (map Fin t) (map Fin y) (map Fin e) = Ok b /\ data_bounds t y smax fmin fmax /\
  forall b1 th om, touched (carma_cls solve p q) (@setparp AX) b b1 -> in_box th (mle_box p q (sqrt (pvar y)) fmin fmax) ->
    ARRoots AX p (map Fin th) = Ok (map FinC om) -> NoDup om ->
    exists ll ma, mle_objective (carma_cls solve p q) (SetMLE b1 true) (map Fin th) = Ok (Fin (- (ll + log_sichi (nth 1 th 0)))) /\
      ExtractMA_carma AX p q (map Fin th) = Ok (map Fin ma) /\
      is_loglik (carma_cov (nth 0 th 0 * nth 0 th 0 / carma_acv 1 ma om 0) ma om) t y e (nth 1 th 0) (nth 2 th 0) ll.
Proof. exact @mle_objective_carma. Qed.
Print Assumptions C66_objective_carma.

(** C66 is false with two measurements: the box of a CAR(1) model is empty. *)
Theorem C66_empty_box_refuted :
  forall (t y : list R) smax fmin fmax,
  length t = 2%nat -> data_bounds t y smax fmin fmax -> 0 < fmin ->
  ln (9 / 10 * fmax) < ln fmin /\ forall th s, ~ in_box th (mle_box 1 0 s fmin fmax).
Proof. exact @mle_box_empty. Qed.
Print Assumptions C66_empty_box_refuted.

(** C67: predict at the sample of the largest log-posterior.  Car1Sample... *)
Theorem C67_predict_car1 :
  forall (si : list (F AX) -> option (list nat)) (raw : kf1 AX) (t y e : list R) (rows : list (list R)) (lp ts : list R),
  valid_sort_index si -> strictly_increasing t -> (2 <= length t)%nat ->
  length y = length t -> length e = length t -> lp <> [] -> length rows = length lp ->
  (forall th, In th rows -> length th = 4%nat /\ nth 0 th 0 <> 0) -> no_exact t e ts ->
  exists i s o, first_max lp i /\ let th := nth i rows [] in
    car1_map_filter si raw (map Fin t) (map Fin y) (map Fin e) (map (map Fin) rows) (map Fin lp) = Ok (s, Fin (nth 2 th 0)) /\
    py_predict (methods1 AX) s (Fin (nth 2 th 0)) (map Fin ts) = Ok (map (fun mv => (Fin (fst mv), Fin (snd mv))) o) /\
    predictions (fun a c => nth 0 th 0 * nth 0 th 0 * exp (- (exp (nth 3 th 0) * Rabs (a - c)))) t y e (nth 2 th 0) ts o.
Proof. exact @car1_predict_map. Qed.
Print Assumptions C67_predict_car1.

(** ... and CarmaSample. *)
Theorem C67_predict_carma :
  forall solve (isreal : list (cx AX) -> bool) (si : list (F AX) -> option (list nat)) (raw : kfp AX) p q (t y e : list R) (rows : list (list R)) (lp ts : list R),
  valid_solve solve -> valid_sort_index si ->
  strictly_increasing t -> (2 <= length t)%nat -> length y = length t -> length e = length t ->
  (2 <= p)%nat -> (q < p)%nat -> lp <> [] -> length rows = length lp ->
  (forall th, In th rows -> length th = (3 + p + q)%nat /\ nth 0 th 0 <> 0 /\ forall om : list C, ARRoots AX p (map Fin th) = Ok (map FinC om) -> NoDup om) ->
  no_exact t e ts ->
  exists i s o sig om ma, first_max lp i /\ let th := nth i rows [] in
    carma_map_filter isreal si raw (map Fin t) (map Fin y) (map Fin e) q (map (map Fin) rows) (map Fin lp) = Ok (s, Fin (nth 2 th 0)) /\
    py_predict (methodsp solve) s (Fin (nth 2 th 0) : F AX) (map Fin ts) = Ok (map (fun mv => (Fin (fst mv), Fin (snd mv))) o) /\
    carma_params p q th sig om ma /\
    predictions (carma_cov sig ma om) t y e (nth 2 th 0) ts o.
Proof. exact @carma_predict_map. Qed.
Print Assumptions C67_predict_carma.

(** C68: simulate (and, for C69, the residuals of assess_fit) at the sample of the largest log-posterior.  Car1Sample... *)
Theorem C68_simulate_car1 :
  forall G (draw : G -> F AX * G) vsort g (si : list (F AX) -> option (list nat)) (raw : kf1 AX) (t y e : list R) (rows : list (list R)) (lp ts : list R),
  valid_sort_index si -> strictly_increasing t -> (2 <= length t)%nat ->
  length y = length t -> length e = length t -> lp <> [] -> length rows = length lp ->
  (forall th, In th rows -> length th = 4%nat /\ nth 0 th 0 <> 0) ->
  (forall g0, exists z, fst (draw g0) = Fin z) -> valid_vsort vsort -> NoDup ts -> no_exact t e ts ->
  exists i s o r, first_max lp i /\ let th := nth i rows [] in
    car1_map_filter si raw (map Fin t) (map Fin y) (map Fin e) (map (map Fin) rows) (map Fin lp) = Ok (s, Fin (nth 2 th 0)) /\
    py_simulate (methods1 AX) draw vsort s (Fin (nth 2 th 0)) (map Fin ts) g = Ok (map Fin o, gen_after draw (length ts) g) /\
    simulated draw g (car1_K th) t y e (nth 2 th 0) ts o /\
    std_residuals (methods1 AX) s (map Fin y) (Fin (nth 2 th 0)) = Ok (map Fin r) /\ residuals (car1_K th) t y e (nth 2 th 0) r.
Proof. exact @car1_simulate_map. Qed.
Print Assumptions C68_simulate_car1.

(** ... and CarmaSample. *)
Theorem C68_simulate_carma :
  forall solve G (draw : G -> F AX * G) vsort g (isreal : list (cx AX) -> bool) (si : list (F AX) -> option (list nat)) (raw : kfp AX) p q (t y e : list R) (rows : list (list R)) (lp ts : list R),
  valid_solve solve -> valid_sort_index si ->
  strictly_increasing t -> (2 <= length t)%nat -> length y = length t -> length e = length t ->
  (2 <= p)%nat -> (q < p)%nat -> lp <> [] -> length rows = length lp ->
  (forall th, In th rows -> length th = (3 + p + q)%nat /\ nth 0 th 0 <> 0 /\ forall om : list C, ARRoots AX p (map Fin th) = Ok (map FinC om) -> NoDup om) ->
  (forall g0, exists z, fst (draw g0) = Fin z) -> valid_vsort vsort -> NoDup ts -> no_exact t e ts ->
  exists i s o r sig om ma, first_max lp i /\ let th := nth i rows [] in
    carma_map_filter isreal si raw (map Fin t) (map Fin y) (map Fin e) q (map (map Fin) rows) (map Fin lp) = Ok (s, Fin (nth 2 th 0)) /\
    carma_params p q th sig om ma /\
    py_simulate (methodsp solve) draw vsort s (Fin (nth 2 th 0) : F AX) (map Fin ts) g = Ok (map Fin o, gen_after draw (length ts) g) /\
    simulated draw g (carma_cov sig ma om) t y e (nth 2 th 0) ts o /\
    std_residuals (methodsp solve) s (map Fin y) (Fin (nth 2 th 0) : F AX) = Ok (map Fin r) /\ residuals (carma_cov sig ma om) t y e (nth 2 th 0) r.
Proof. exact @carma_simulate_map. Qed.
Print Assumptions C68_simulate_carma.

(** C69: the residuals drawn by assess_fit, at the sample of the largest log-posterior.  Car1Sample... *)
Theorem C69_residuals_car1 :
  forall (si : list (F AX) -> option (list nat)) (raw : kf1 AX) (t y e : list R) (rows : list (list R)) (lp : list R),
  valid_sort_index si -> strictly_increasing t -> (2 <= length t)%nat ->
  length y = length t -> length e = length t -> lp <> [] -> length rows = length lp ->
  (forall th, In th rows -> length th = 4%nat /\ nth 0 th 0 <> 0) ->
  exists i s r, first_max lp i /\ let th := nth i rows [] in
    car1_map_filter si raw (map Fin t) (map Fin y) (map Fin e) (map (map Fin) rows) (map Fin lp) = Ok (s, Fin (nth 2 th 0)) /\
    std_residuals (methods1 AX) s (map Fin y) (Fin (nth 2 th 0)) = Ok (map Fin r) /\ residuals (car1_K th) t y e (nth 2 th 0) r.
Proof.
  intros si raw t y e rows lp H1 H2 H3 H4 H5 H6 H7 H8. destruct valid_vsort_exists as (vs & Hvs).
  destruct (@car1_simulate_map unit (fun g => (Fin 0, g)) vs tt si raw t y e rows lp [] H1 H2 H3 H4 H5 H6 H7 H8) as (i & s & o & r & A1 & A2 & _ & _ & A3 & A4).
  - intros []. exists 0. reflexivity.
  - exact Hvs.
  - constructor.
  - intros i Hi [].
  - exists i, s, r. split; [exact A1|]. split; [exact A2|]. split; [exact A3|exact A4].
Qed.
Print Assumptions C69_residuals_car1.
(** ... and CarmaSample. *)
Theorem C69_residuals_carma :
  forall solve (isreal : list (cx AX) -> bool) (si : list (F AX) -> option (list nat)) (raw : kfp AX) p q (t y e : list R) (rows : list (list R)) (lp : list R),
  valid_solve solve -> valid_sort_index si ->
  strictly_increasing t -> (2 <= length t)%nat -> length y = length t -> length e = length t ->
  (2 <= p)%nat -> (q < p)%nat -> lp <> [] -> length rows = length lp ->
  (forall th, In th rows -> length th = (3 + p + q)%nat /\ nth 0 th 0 <> 0 /\ forall om : list C, ARRoots AX p (map Fin th) = Ok (map FinC om) -> NoDup om) ->
  exists i s r sig om ma, first_max lp i /\ let th := nth i rows [] in
    carma_map_filter isreal si raw (map Fin t) (map Fin y) (map Fin e) q (map (map Fin) rows) (map Fin lp) = Ok (s, Fin (nth 2 th 0)) /\
    carma_params p q th sig om ma /\
    std_residuals (methodsp solve) s (map Fin y) (Fin (nth 2 th 0) : F AX) = Ok (map Fin r) /\ residuals (carma_cov sig ma om) t y e (nth 2 th 0) r.
Proof.
  intros solve isreal si raw p q t y e rows lp H0 H1 H2 H3 H4 H5 H6 H7 H8 H9 H10. destruct valid_vsort_exists as (vs & Hvs).
  destruct (@carma_simulate_map solve unit (fun g => (Fin 0, g)) vs tt isreal si raw p q t y e rows lp [] H0 H1 H2 H3 H4 H5 H6 H7 H8 H9 H10) as (i & s & o & r & sig & om & ma & A1 & A2 & A3 & _ & _ & A5 & A6).
  - intros []. exists 0. reflexivity.
  - exact Hvs.
  - constructor.
  - intros i Hi [].
  - exists i, s, r, sig, om, ma. split; [exact A1|]. split; [exact A2|]. split; [exact A3|]. split; [exact A5|exact A6].
Qed.
Print Assumptions C69_residuals_carma.

(** C70 is false: 3 + p + q numbers are fitted, 2 + p + q are counted, and with seven measurements this selects another order. *)
Theorem C70_parameter_count_refuted :
  exists (trials : nat * nat -> list (opt AX)) (m m' : cmodel AX) a,
  length (c_time m) = 7%nat /\
  choose_order 4 2 trials m 2 None (Some [(1, 0); (2, 0)]%nat) = Ok (fit20, [(1, 0); (2, 0)]%nat, a, m') /\ c_p m' = 2%nat /\ c_q m' = 0%nat /\
  trials (1, 0)%nat = [fit10] /\ trials (2, 0)%nat = [fit20] /\
  length (o_x fit10) = 4%nat /\ length (o_x fit20) = 5%nat /\
  aicc_spec 7 (length (o_x fit10)) 10 < aicc_spec 7 (length (o_x fit20)) 0.
Proof. exact @choose_order_count. Qed.
Print Assumptions C70_parameter_count_refuted.

(** C71 is false: a sample with two real roots and one with a conjugate pair have average roots that are not closed under conjugation. *)
Theorem C71_mean_roots_refuted :
  exists (rowA rowB : list R) (ra rb m : list C),
  py_ar_roots AX 2 (map Fin rowA) = Ok (map FinC ra) /\ conj_closed ra /\ py_ar_roots AX 2 (map Fin rowB) = Ok (map FinC rb) /\ conj_closed rb /\
  mean_roots (A := AX) 2 [map FinC ra; map FinC rb] = map FinC m /\ ~ conj_closed m /\ ~ Permutation m (map Cconj m).
Proof. exact @mean_roots_not_closed. Qed.
Print Assumptions C71_mean_roots_refuted.

(** C72 is false for every CarmaSample whose samples share a scale: the DIC is too large by more than 48. *)
Theorem C72_dic_refuted :
  forall solve (si : list (F AX) -> option (list nat)) (raw : kfp AX) p q (t y e : list R) (rows : list (list R)) sc,
  valid_solve solve -> valid_sort_index si -> goodp raw ->
  (2 <= length t)%nat -> length y = length t -> length e = length t -> strictly_increasing t -> (2 <= p)%nat -> (q < p)%nat -> rows <> [] -> 0 < sc ->
  (forall th, In th rows -> (3 + p + q <= length th)%nat /\ nth 0 th 0 <> 0 /\ nth 1 th 0 = sc /\
     forall om : list C, ARRoots AX p (map Fin th) = Ok (map FinC om) -> NoDup om) ->
  exists b xs lls, carp_new si raw p (map Fin t) (map Fin y) (map Fin e) = Ok b /\
    CarmaSample_loglik (carma_cls solve p q) b (map (map Fin) rows) = Ok (map Fin xs) /\
    Forall2 (fun th ll => exists om ma, ARRoots AX p (map Fin th) = Ok (map FinC om) /\ ExtractMA_carma AX p q (map Fin th) = Ok (map Fin ma) /\
      is_loglik (carma_cov (nth 0 th 0 * nth 0 th 0 / carma_acv 1 ma om 0) ma om) t y e (nth 1 th 0) (nth 2 th 0) ll) rows lls /\
    py_dic AX (map Fin xs) = Fin (dic lls - 2 * log_sichi sc) /\ dic lls + 48 < dic lls - 2 * log_sichi sc.
Proof. exact @CarmaSample_dic. Qed.
Print Assumptions C72_dic_refuted.

(** C72: the DIC of the numbers given. *)
Theorem C72_dic :
  forall ll,
  ll <> [] -> py_dic AX (map Fin ll) = Fin (dic ll).
Proof. exact @py_dic_Fin. Qed.
Print Assumptions C72_dic.

(** ** The hypotheses are met *)
Definition tE : list R := [0; 1; 3].
Definition yE : list R := [1; 0; 2].
Definition eE : list R := [1; 1; 1].
Example ex_tE : strictly_increasing tE /\ nth 1 yE 0 <> smean yE.
Proof.
  split; [intros [|[|[|i]]] [|[|[|j]]] H1 H2; cbn in *; try lia; lra|]. unfold smean, yE. cbn [length Rsum nth INR]. lra.
Qed.
(** a CARMA(2,0) sample with scale 1 for C60, C67, C68 and C72; thA and thB also serve for C53, C71 *)
Example ex_row : forall th, In th [thA] -> length th = (3 + 2 + 0)%nat /\ nth 0 th 0 <> 0 /\ nth 1 th 0 = 1 /\
  forall om : list C, ARRoots AX 2 (map Fin th) = Ok (map FinC om) -> NoDup om.
Proof.
  intros th [<-|[]]. split; [reflexivity|]. split; [cbn; lra|]. split; [reflexivity|]. intros om E.
  destruct (py_derive_cpp (fun _ => true) 2 0 thA ltac:(lia) ltac:(lia) eq_refl) as (d & Ed & _ & _ & _ & Er & _).
  assert (d_roots d = map FinC [(-3, 0); (-1, 0)]) as Edr.
  { pose proof rootsA as HA. unfold py_derive in Ed. change (F AX) with xr in Ed. rewrite map_length in Ed. change (length thA - 3 - 0)%nat with 2%nat in Ed.
    rewrite !vget_Fin in Ed by (cbn; lia). cbn [bind] in Ed. rewrite HA in Ed. cbn [bind] in Ed. destruct (py_ma_coefs _ _ _ _); try discriminate. injection Ed as <-. reflexivity. }
  assert (om = [(-3, 0); (-1, 0)]) as -> by (apply map_FinC_inj; congruence).
  constructor; [intros [F|[]]; apply (f_equal fst) in F; cbn in F; lra|repeat constructor; intros []].
Qed.
Example ex_times : no_exact tE eE [2; 5; 1] /\ NoDup [2; 5; 1].
Proof.
  split; [|repeat constructor; cbn; intros H; repeat destruct H as [H|H]; try lra; exact H].
  intros [|[|[|i]]] Hi; cbn in Hi |- *; try lia; intros _; lra.
Qed.
(** one complete instance of C67 and C68: predictions and a simulated series for CARMA(2,0) *)
Example ex_predict : exists sv si raw s o sig om ma, valid_solve sv /\ valid_sort_index si /\
  carma_map_filter (A := AX) (fun _ => true) si raw (map Fin tE) (map Fin yE) (map Fin eE) 0 [map Fin thA] [Fin 7] = Ok (s, Fin 0) /\
  py_predict (methodsp sv) s (Fin 0 : F AX) (map Fin [2; 5; 1]) = Ok (map (fun mv => (Fin (fst mv), Fin (snd mv))) o) /\ length o = 3%nat /\
  predictions (carma_cov sig ma om) tE yE eE 0 [2; 5; 1] o.
Proof.
  destruct valid_solve_exists as (sv & Hsv). destruct valid_sort_index_exists as (si & Hsi).
  set (raw := mkKF AX [] [] [] [] [] [] (Fin 0) O (Fin 0) (Fin 0) (@mkX AX [] [] [] [] [] [] [] [] (Fin 0) [] []) : kfp AX).
  destruct (carma_predict_map sv (fun _ => true) si raw 2 0 tE yE eE [thA] [7] [2; 5; 1] Hsv Hsi (proj1 ex_tE)) as (i & s & o & sig & om & ma & Hm & Es & Ep & _ & Ho);
    try (cbn; lia); try discriminate; try reflexivity.
  - intros th Hin. destruct (ex_row th Hin) as (A1 & A2 & _ & A4). auto.
  - apply ex_times.
  - assert (i = 0%nat) as -> by (destruct Hm as [Hi _]; cbn in Hi; lia).
    exists sv, si, raw, s, o, sig, om, ma. split; [exact Hsv|]. split; [exact Hsi|]. split; [exact Es|]. split; [exact Ep|]. split; [|exact Ho].
    unfold predictions in Ho. clear - Ho. repeat (match goal with H : Forall2 _ _ _ |- _ => inversion H; clear H; subst end). reflexivity.
Qed.
(** the box of three measurements and a uniform draw that stays inside *)
Example ex_uniform : forall j lo hi, lo <= hi -> exists x, (fun (_ : nat) (l h : F AX) => l) j (Fin lo) (Fin hi) = Fin x /\ lo <= x <= hi.
Proof. intros j lo hi H. exists lo. split; [reflexivity|lra]. Qed.
(** parameters for C56 and C57 *)
Example ex_sim : exists vs sv, valid_vsort vs /\ valid_solve sv /\ stable_roots [(-1, -1); (-1, 1)] /\ NoDup [3; 1; 2] /\
  vs (map Fin [1; 1; 2]) = Some (map Fin [1; 1; 2]).
Proof.
  destruct valid_vsort_exists as (vs & Hvs). destruct valid_solve_exists as (sv & Hsv). exists vs, sv. split; [exact Hvs|]. split; [exact Hsv|].
  split; [|split; [repeat constructor; cbn; intros H; repeat destruct H as [H|H]; try lra; exact H|]].
  - split; [constructor; [intros [F|[]]; apply (f_equal snd) in F; cbn in F; lra|repeat constructor; intros []]|].
    split; [intros z [<-|[<-|[]]]; cbn; lra|]. intros z [<-|[<-|[]]]; unfold Cconj; cbn [fst snd].
    + right. left. f_equal; lra.
    + left. f_equal; lra.
  - destruct (Hvs [1; 1; 2]) as (l & E & P & N). rewrite E. f_equal. f_equal.
    pose proof (Permutation_length P) as L. destruct l as [|a [|b [|c [|d l]]]]; cbn in L; try lia.
    pose proof (N 0%nat 1%nat ltac:(lia) ltac:(cbn; lia)) as N1. pose proof (N 1%nat 2%nat ltac:(lia) ltac:(cbn; lia)) as N2. cbn in N1, N2.
    assert (forall x, In x [a; b; c] -> x = 1 \/ x = 2) as Hx.
    { intros x Hx. apply (Permutation_in _ (Permutation_sym P)) in Hx. cbn in Hx. intuition. }
    assert (a + b + c = 4) as Hs.
    { assert (forall l l', Permutation l l' -> fold_right Rplus 0 l = fold_right Rplus 0 l') as Hf.
      { clear. induction 1; cbn; lra. }
      apply Hf in P. cbn in P. lra. }
    destruct (Hx a) as [->| ->]; [left; reflexivity| |]; (destruct (Hx b) as [->| ->]; [right; left; reflexivity| |]); (destruct (Hx c) as [->| ->]; [right; right; left; reflexivity| |]);
      try lra; reflexivity.
Qed.
