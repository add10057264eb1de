{
 "claims": [
  {
   "property": "C01",
   "status": "proved",
   "theorems": [
    "C01_construction_normalises"
   ],
   "note": "every data set over the extended reals with finite entries, every valid unstable index sort"
  },
  {
   "property": "C02",
   "status": "proved",
   "theorems": [
    "C02_clean_data_unchanged"
   ],
   "note": "idempotence, identity on clean data, first record kept"
  },
  {
   "property": "C03",
   "status": "proved",
   "theorems": [
    "C03_too_few_points_rejected",
    "C03_equal_times_rejected"
   ],
   "note": "C03_too_few_points_rejected holds for every arithmetic"
  },
  {
   "property": "C04",
   "status": "proved",
   "theorems": [
    "C04_carmamodel_data"
   ],
   "note": "real data; repeated times are removed by numpy.unique and the first value of each kept"
  },
  {
   "property": "C05",
   "status": "proved",
   "theorems": [
    "C05_filter_exact",
    "C05_spec_is_unique_and_optimal"
   ],
   "note": "real arithmetic; plus uniqueness and optimality of the specification"
  },
  {
   "property": "C06",
   "status": "proved",
   "theorems": [
    "C06_filter_variances_bounded"
   ],
   "note": "real arithmetic"
  },
  {
   "property": "C07",
   "status": "proved",
   "theorems": [
    "C07_predict_exact"
   ],
   "note": "real arithmetic; excludes the time of a noise-free measurement, where C13 shows NaN"
  },
  {
   "property": "C08",
   "status": "proved",
   "theorems": [
    "C08_predict_variance_bounds"
   ],
   "note": "real arithmetic; comparison with every initial part of the data"
  },
  {
   "property": "C09",
   "status": "proved",
   "theorems": [
    "C09_kf1_history_independent",
    "C09_kfp_history_independent"
   ],
   "note": "KalmanFilter1 and KalmanFilterp, every arithmetic"
  },
  {
   "property": "C10",
   "status": "proved",
   "theorems": [
    "C10_kf1_data_intact",
    "C10_kfp_data_intact"
   ],
   "note": "KalmanFilter1 and KalmanFilterp, every arithmetic"
  },
  {
   "property": "C11",
   "status": "proved",
   "theorems": [
    "C11_kf1_simulate_exact",
    "C11_kfp_simulate_exact"
   ],
   "note": "KalmanFilter1 and KalmanFilterp, real arithmetic"
  },
  {
   "property": "C12",
   "status": "proved",
   "theorems": [
    "C12_simulate_order_refuted"
   ],
   "note": "the property is false: Simulate returns values in the order of the sorted times"
  },
  {
   "property": "C13",
   "status": "proved",
   "theorems": [
    "C13_finite_outputs_refuted"
   ],
   "note": "the property is false: NaN at the time of a noise-free measurement"
  },
  {
   "property": "C14",
   "status": "proved",
   "theorems": [
    "C14_getvar_after_predict_refuted"
   ],
   "note": "the property is false: Predict overwrites the variances"
  },
  {
   "property": "C15",
   "status": "proved",
   "theorems": [
    "C15_filter_linear",
    "C15_predict_linear",
    "C15_kfp_filter_linear",
    "C15_kfp_predict_linear"
   ],
   "note": "KalmanFilter1 and KalmanFilterp, real arithmetic"
  },
  {
   "property": "C16",
   "status": "proved",
   "theorems": [
    "C16_forecast_limits",
    "C16_forecast_monotone",
    "C16_kfp_forecast_limits"
   ],
   "note": "real arithmetic; the limits also for KalmanFilterp"
  },
  {
   "property": "C17",
   "status": "proved",
   "theorems": [
    "C17_filter_exact",
    "C17_from_construction",
    "C17_spec_is_unique_and_optimal"
   ],
   "note": "real arithmetic; autocovariance given by the closed formula of SpecCarma.v"
  },
  {
   "property": "C18",
   "status": "proved",
   "theorems": [
    "C18_predict_exact"
   ],
   "note": "real arithmetic; excludes the time of a noise-free measurement"
  },
  {
   "property": "C19",
   "status": "proved",
   "theorems": [
    "C19_theta0_is_stdev"
   ],
   "note": "real arithmetic, distinct roots, p >= 2, theta0 <> 0"
  },
  {
   "property": "C20",
   "status": "proved",
   "theorems": [
    "C20_bad_orders_throw",
    "C20_otherwise_only_solve_fails",
    "C20_constructed_states"
   ],
   "note": "every state satisfying the class invariant, every arithmetic"
  },
  {
   "property": "C21",
   "status": "proved",
   "theorems": [
    "C21_ar_roots_stable"
   ],
   "note": "real arithmetic, every p and theta"
  },
  {
   "property": "C22",
   "status": "proved",
   "theorems": [
    "C22_polycoefs"
   ],
   "note": "real arithmetic"
  },
  {
   "property": "C23",
   "status": "proved",
   "theorems": [
    "C23_ma_normalised_invertible",
    "C23_q_too_large_throws"
   ],
   "note": "real arithmetic; the exception for q >= p for every arithmetic"
  },
  {
   "property": "C24",
   "status": "proved",
   "theorems": [
    "C24_zcarma_ma",
    "C24_logit_inverse"
   ],
   "note": "real arithmetic"
  },
  {
   "property": "C25",
   "status": "proved",
   "theorems": [
    "C25_measerr_prior",
    "C25_zcarma_prior"
   ],
   "note": "real arithmetic"
  },
  {
   "property": "C26",
   "status": "proved",
   "theorems": [
    "C26_zcar_equals_carp",
    "C26_zcar_uses_belcher_refuted"
   ],
   "note": "the property is false: ZCAR has the log-density of CAR(p) for every data set, theta and arithmetic; C26_zcar_uses_belcher_refuted gives data where this is the wrong value"
  },
  {
   "property": "C27",
   "status": "proved",
   "theorems": [
    "C27_prior_bounds_carp",
    "C27_prior_bounds_car1",
    "C27_bounds_from_data"
   ],
   "note": "real arithmetic"
  },
  {
   "property": "C28",
   "status": "proved",
   "theorems": [
    "C28_unique_roots"
   ],
   "note": "real arithmetic; the quotient counts as infinite when the two roots add to zero"
  },
  {
   "property": "C29",
   "status": "proved",
   "theorems": [
    "C29_logdensity_history_car1",
    "C29_logdensity_history_carp"
   ],
   "note": "CAR1, CARp, CARMA, ZCAR, ZCARMA; every arithmetic; data sets without repeated times"
  },
  {
   "property": "C30",
   "status": "proved",
   "theorems": [
    "C30_logdensity_car1",
    "C30_logdensity_carma",
    "C30_logdensity_carp",
    "C30_logdensity_zcarma",
    "C30_loglik_unique",
    "C30_loglik_is_density",
    "C30_density_unique",
    "C30_det_properties",
    "C30_det_unique",
    "C30_density_car1",
    "C30_density_carp",
    "C30_density_carma",
    "C30_density_zcarma",
    "C30_zero_car1",
    "C30_zero_carp",
    "C30_zero_carma",
    "C30_zero_zcarma"
   ],
   "note": "CAR1, CARp, CARMA, ZCARMA; real arithmetic; distinct increasing times. Also as the multivariate normal density of all measurements (density), and at theta_0 = 0 (zero): NaN when a measurement is exact"
  },
  {
   "property": "C31",
   "status": "proved",
   "theorems": [
    "C31_mle_has_no_prior_refuted",
    "C31_mle_value",
    "C31_car1_ignores_flag"
   ],
   "note": "the property is false: the prior on the error scale stays in, and CAR1 ignores the flag"
  },
  {
   "property": "C32",
   "status": "proved",
   "theorems": [
    "C32_unsorted_data_refuted",
    "C32_unsorted_car1_always_minus_inf",
    "C32_unsorted_carp_always_minus_inf"
   ],
   "note": "the property is false: for unsorted times every theta is outside the prior bounds"
  },
  {
   "property": "C33",
   "status": "proved",
   "theorems": [
    "C33_carma_logposts",
    "C33_car1_logposts"
   ],
   "note": "every arithmetic, random generator and data set without repeated times"
  },
  {
   "property": "C34",
   "status": "proved",
   "theorems": [
    "C34_carma_inside",
    "C34_car1_inside",
    "C34_carma_real",
    "C34_car1_real"
   ],
   "note": "CARMA: every run; CAR(1): when the start has a finite log-posterior, which C43 shows need not be; on real data the prior region of the specification"
  },
  {
   "property": "C35",
   "status": "proved",
   "theorems": [
    "C35_carma_recorded",
    "C35_car1_recorded",
    "C35_carma_safe",
    "C35_car1_safe",
    "C35_no_walkers_undefined"
   ],
   "note": "every arithmetic; C35_no_walkers_undefined: with nwalkers = 0 the driver indexes an empty vector"
  },
  {
   "property": "C36",
   "status": "proved",
   "theorems": [
    "C36_ram_move",
    "C36_metropolis_balance",
    "C36_ram_next_code",
    "C36_ram_detailed_balance",
    "C36_ram_invariant"
   ],
   "note": "real arithmetic; the step of the code, detailed balance, and invariance for every linear functional that is invariant under the volume-preserving reversal map (the Lebesgue integral is not constructed)"
  },
  {
   "property": "C37",
   "status": "proved",
   "theorems": [
    "C37_ram_reject",
    "C37_exch_reject",
    "C37_exch_nonfinite",
    "C37_metrop_step"
   ],
   "note": "every arithmetic for the two steps used by the drivers; MetropStep in real arithmetic"
  },
  {
   "property": "C38",
   "status": "proved",
   "theorems": [
    "C38_step_frame",
    "C38_exch_move",
    "C38_exch_balance",
    "C38_exch_next_code",
    "C38_exch_invariant"
   ],
   "note": "real arithmetic; swap structure for every arithmetic"
  },
  {
   "property": "C39",
   "status": "proved",
   "theorems": [
    "C39_chol_update"
   ],
   "note": "real arithmetic, every dimension"
  },
  {
   "property": "C40",
   "status": "proved",
   "theorems": [
    "C40_ram_adapts",
    "C40_covariance_pd",
    "C40_kept_good",
    "C40_start_good"
   ],
   "note": "real arithmetic; unit proposals not zero"
  },
  {
   "property": "C41",
   "status": "proved",
   "theorems": [
    "C41_carma_adaptation_stops",
    "C41_car1_adaptation_stops",
    "C41_adaptation_stops",
    "C41_carma_schedule",
    "C41_car1_schedule"
   ],
   "note": "every arithmetic; C41_carma_schedule and C41_car1_schedule: the iteration counter, acceptances and settings after k passes"
  },
  {
   "property": "C42",
   "status": "proved",
   "theorems": [
    "C42_ladder_values",
    "C42_ladder",
    "C42_temps_kept",
    "C42_one_walker_refuted",
    "C42_recorded_chain"
   ],
   "note": "two or more walkers; C42_one_walker_refuted: with one walker the recorded chain has temperature 100"
  },
  {
   "property": "C43",
   "status": "proved",
   "theorems": [
    "C43_car1_start",
    "C43_car1_start_run",
    "C43_car1_start_refuted"
   ],
   "note": "the property is false: C43_car1_start_refuted; C43_car1_start says exactly when it holds"
  },
  {
   "property": "C44",
   "status": "proved",
   "theorems": [
    "C44_starting_value_finite",
    "C44_set_starting_value_finite",
    "C44_set_starting_value_takes",
    "C44_set_starting_value_length",
    "C44_set_starting_value_nonfinite",
    "C44_carma_starts_at_init",
    "C44_car1_starts_at_init"
   ],
   "note": "every arithmetic with a non-finite infinity"
  },
  {
   "property": "C45",
   "status": "proved",
   "theorems": [
    "C45_stretch_draw",
    "C45_stretch_step",
    "C45_stretch_detailed_balance",
    "C45_stretch_invariant",
    "C45_alone_diverges"
   ],
   "note": "real arithmetic; C45_alone_diverges: an ensemble of one walker never finds a partner"
  },
  {
   "property": "C46",
   "status": "proved",
   "theorems": [
    "C46_lognormal_ratio",
    "C46_lognormal_step"
   ],
   "note": "real arithmetic"
  },
  {
   "property": "C47",
   "status": "proved",
   "theorems": [
    "C47_powerlaw"
   ],
   "note": "real arithmetic"
  },
  {
   "property": "C48",
   "status": "proved",
   "theorems": [
    "C48_car1_seeded",
    "C48_carma_seeded",
    "C48_carma_seed_refuted"
   ],
   "note": "true for CAR(1) and for CARMA given an admissible init; C48_carma_seed_refuted: false otherwise, the Armadillo generator is not seeded"
  },
  {
   "property": "C49",
   "status": "proved",
   "theorems": [
    "C49_get_samples"
   ],
   "note": "undefined for a run of length zero, exact otherwise"
  },
  {
   "property": "C50",
   "status": "proved",
   "theorems": [
    "C50_kalman_stale_refuted",
    "C50_ram_fresh",
    "C50_exch_fresh",
    "C50_fresh_exact"
   ],
   "note": "the property is false after a rejected move; what holds is C50_ram_fresh, C50_exch_fresh, C50_fresh_exact"
  },
  {
   "property": "C51",
   "status": "proved",
   "theorems": [
    "C51_parallel_best",
    "C51_default_refuted",
    "C51_nan_refuted"
   ],
   "note": "true for njobs other than 1 and finite objective values; C51_default_refuted: the default njobs=1 raises TypeError; C51_nan_refuted: a first trial with NaN is never replaced"
  },
  {
   "property": "C52",
   "status": "proved",
   "theorems": [
    "C52_choose_order",
    "C52_grid",
    "C52_qmax_refuted",
    "C52_short_refuted",
    "C52_zero_division"
   ],
   "note": "the first order with the least AICc is returned unless no AICc is below 1e300 or some n = p + q + 3 (C52_zero_division); false parts: C52_qmax_refuted (qmax is ignored), C52_short_refuted (with few measurements the correction is negative)"
  },
  {
   "property": "C53",
   "status": "proved",
   "theorems": [
    "C53_carma",
    "C53_car1"
   ],
   "note": "real arithmetic; the test of numpy.poly for conjugate roots is arbitrary"
  },
  {
   "property": "C54",
   "status": "proved",
   "theorems": [
    "C54_power_spectrum",
    "C54_power_spectrum_coefs",
    "C54_car1"
   ],
   "note": "real arithmetic; the Wiener-Khinchin relation to the autocovariance is not part of it"
  },
  {
   "property": "C55",
   "status": "proved",
   "theorems": [
    "C55_carma_variance",
    "C55_cpp",
    "C55_padding",
    "C55_negative_lag_refuted"
   ],
   "note": "non-negative lags; C55_negative_lag_refuted: the C++ Variance differs at negative lags"
  },
  {
   "property": "C56",
   "status": "proved",
   "theorems": [
    "C56_car1_process",
    "C56_step_back"
   ],
   "note": "increasing times; C56_step_back: every value from the first step back in time is not a number"
  },
  {
   "property": "C57",
   "status": "proved",
   "theorems": [
    "C57_carma_process",
    "C57_repeated_refuted"
   ],
   "note": "distinct times in any order; C57_repeated_refuted: a repeated first time gives NaN (in real arithmetic)"
  },
  {
   "property": "C58",
   "status": "proved",
   "theorems": [
    "C58_get_ar_roots",
    "C58_round_trip",
    "C58_small_centroid_refuted",
    "C58_short"
   ],
   "note": "true when each centroid is at least the size that makes the pair complex; C58_small_centroid_refuted otherwise"
  },
  {
   "property": "C59",
   "status": "proved",
   "theorems": [
    "C59_scale_refuted",
    "C59_car1_unscaled",
    "C59_carma_unscaled"
   ],
   "note": "the property is false: C59_scale_refuted; C59_*_unscaled say what the code does"
  },
  {
   "property": "C60",
   "status": "proved",
   "theorems": [
    "C60_carma_refuted",
    "C60_car1",
    "C60_loglik_unique_carma",
    "C60_loglik_unique_car1"
   ],
   "note": "the property is false for CarmaSample (C60_carma_refuted) and true for Car1Sample"
  },
  {
   "property": "C61",
   "status": "proved",
   "theorems": [
    "C61_settime_ignored_by_filter",
    "C61_settime_takes_effect_refuted"
   ],
   "note": "the property is false: dt_ is not recomputed"
  },
  {
   "property": "C62",
   "status": "proved",
   "theorems": [
    "C62_kf1_never_fails"
   ],
   "note": "every arithmetic"
  },
  {
   "property": "C63",
   "status": "proved",
   "theorems": [
    "C63_repeated_times_refuted",
    "C63_repeated_times_car1",
    "C63_repeated_times_carma"
   ],
   "note": "the property is false for every data set with a repeated time"
  },
  {
   "property": "C64",
   "status": "proved",
   "theorems": [
    "C64_car1_completes",
    "C64_car1_completes_real"
   ],
   "note": "every arithmetic given the results of the constructor and of chol; on real data no hypothesis on them is left"
  },
  {
   "property": "C65",
   "status": "proved",
   "theorems": [
    "C65_carma_completes",
    "C65_carma_completes_real",
    "C65_carma_outcomes",
    "C65_carma_outcomes_real"
   ],
   "note": "every arithmetic given the results of the constructor and of chol; on real data no hypothesis on them is left"
  },
  {
   "property": "C66",
   "status": "proved",
   "theorems": [
    "C66_start_in_box",
    "C66_objective_car1",
    "C66_objective_carma",
    "C66_empty_box_refuted"
   ],
   "note": "three or more distinct times; C66_empty_box_refuted: with two measurements the box of CAR(1) is empty"
  },
  {
   "property": "C67",
   "status": "proved",
   "theorems": [
    "C67_predict_car1",
    "C67_predict_carma"
   ],
   "note": "real arithmetic; the measurement errors are not scaled (see C59)"
  },
  {
   "property": "C68",
   "status": "proved",
   "theorems": [
    "C68_simulate_car1",
    "C68_simulate_carma"
   ],
   "note": "real arithmetic; the measurement errors are not scaled (see C59)"
  },
  {
   "property": "C69",
   "status": "proved",
   "theorems": [
    "C69_residuals_car1",
    "C69_residuals_carma"
   ],
   "note": "real arithmetic; the measurement errors are not scaled (see C59)"
  },
  {
   "property": "C70",
   "status": "proved",
   "theorems": [
    "C70_parameter_count_refuted"
   ],
   "note": "the property is false: 2 + p + q are counted, 3 + p + q fitted, and the choice can differ"
  },
  {
   "property": "C71",
   "status": "proved",
   "theorems": [
    "C71_mean_roots_refuted"
   ],
   "note": "the property is false"
  },
  {
   "property": "C72",
   "status": "proved",
   "theorems": [
    "C72_dic_refuted",
    "C72_dic"
   ],
   "note": "the property is false for CarmaSample: C72_dic_refuted; C72_dic is the formula for the stored values"
  },
  {
   "property": "C73",
   "status": "proved",
   "theorems": [
    "C73_model_keeps",
    "C73_run_mcmc_carma",
    "C73_run_mcmc_car1",
    "C73_defaults"
   ],
   "note": "real arithmetic; kept measurements not all equal; p = 1, or p >= 2 and q < p; for odd p at least three kept times; proposals are never exactly zero (moves)"
  },
  {
   "property": "C74",
   "status": "proved",
   "theorems": [
    "C74_psd_is_transform",
    "C74_car1",
    "C74_transform_unique"
   ],
   "note": "real arithmetic; integrals are Coquelicot improper Riemann integrals"
  },
  {
   "property": "C75",
   "status": "proved",
   "theorems": [
    "C75_filter_exact",
    "C75_predict_exact",
    "C75_agrees_with_cpp"
   ],
   "note": "real arithmetic, float64 arrays; scipy.linalg.solve is an oracle that solves uniquely solvable systems"
  },
  {
   "property": "C76",
   "status": "proved",
   "theorems": [
    "C76_simulate_exact",
    "C76_simulate_scalar",
    "C76_simulate_restores"
   ],
   "note": "exactness in real arithmetic, the restoring of the data in any arithmetic"
  },
  {
   "property": "C77",
   "status": "proved",
   "theorems": [
    "C77_interrupted_simulate",
    "C77_always_restores_refuted",
    "C77_no_backcast",
    "C77_orders"
   ],
   "note": "the property is false: C77_always_restores_refuted gives a witness for simulate, C77_interrupted_simulate, C77_no_backcast and C77_orders say exactly what happens instead"
  },
  {
   "property": "C78",
   "status": "proved",
   "theorems": [
    "C78_history_independent"
   ],
   "note": "any arithmetic"
  },
  {
   "property": "C79",
   "status": "proved",
   "theorems": [
    "C79_filter_double",
    "C79_forecast_double",
    "C79_predict_double",
    "C79_close_refuted",
    "C79_exact_data_refuted"
   ],
   "note": "on Flocq binary64 numbers, rounding to nearest; predictions at any time are C79_predict_double; the failures are C79_close_refuted and C79_exact_data_refuted"
  },
  {
   "property": "C80",
   "status": "proved",
   "theorems": [
    "C80_logdensity_double"
   ],
   "note": "on Flocq binary64 numbers, rounding to nearest"
  },
  {
   "property": "C81",
   "status": "proved",
   "theorems": [
    "C81_add_mle",
    "C81_python3_refuted"
   ],
   "note": "real arithmetic, Python 2; in Python 3 the property is false: C81_python3_refuted, every call raises"
  },
  {
   "property": "C82",
   "status": "proved",
   "theorems": [
    "C82_carma",
    "C82_car1",
    "C82_percentile_unique",
    "C82_percentile_counts"
   ],
   "note": "real arithmetic; np.percentile with the default linear interpolation; the sort is an oracle"
  },
  {
   "property": "C83",
   "status": "proved",
   "theorems": [
    "C83_increasing",
    "C83_two_refuted"
   ],
   "note": "real arithmetic; four measurements, or a spacing below half of the duration; C83_two_refuted: with two measurements the frequencies decrease"
  },
  {
   "property": "C84",
   "status": "proved",
   "theorems": [
    "C84_carma",
    "C84_too_many_refuted",
    "C84_car1_refuted",
    "C84_axes_refuted"
   ],
   "note": "C84_carma is the true part; false parts: C84_too_many_refuted, C84_car1_refuted (Python 3), C84_axes_refuted"
  },
  {
   "property": "C85",
   "status": "proved",
   "theorems": [
    "C85_carma",
    "C85_car1",
    "C85_filename_refuted",
    "C85_header_refuted"
   ],
   "note": "real arithmetic; distinct roots; false parts: C85_filename_refuted, C85_header_refuted"
  },
  {
   "property": "C86",
   "status": "proved",
   "theorems": [
    "C86_summaries",
    "C86_vector_refuted"
   ],
   "note": "real arithmetic; real arrays; acor is an oracle; C86_vector_refuted: one-dimensional arrays raise"
  },
  {
   "property": "C87",
   "status": "proved",
   "theorems": [
    "C87_car1",
    "C87_car1_random_refuted",
    "C87_carma_map",
    "C87_carma_random",
    "C87_carma_columns",
    "C87_median_refuted"
   ],
   "note": "real arithmetic; false parts: C87_car1_random_refuted, C87_median_refuted; C87_carma_random covers unknown names, which are not rejected"
  },
  {
   "property": "C88",
   "status": "proved",
   "theorems": [
    "C88_car1",
    "C88_carma_map",
    "C88_carma_columns",
    "C88_range",
    "C88_short_refuted"
   ],
   "note": "real arithmetic; more than 50 measurements, otherwise the property is false: C88_short_refuted; includes the histogram of the residuals and the normal curve (C106: its bars are half a bin too low)"
  },
  {
   "property": "C89",
   "status": "proved",
   "theorems": [
    "C89_times",
    "C89_late_refuted",
    "C89_negative_refuted"
   ],
   "note": "real arithmetic; the first time not negative and less than the last divided by 1.001, otherwise the property is false: C89_late_refuted, C89_negative_refuted"
  },
  {
   "property": "C90",
   "status": "proved",
   "theorems": [
    "C90_autocorr",
    "C90_single_refuted",
    "C90_constant_refuted"
   ],
   "note": "real arithmetic; real arrays with two rows or more (C90_single_refuted); constant columns give NaN (C90_constant_refuted)"
  },
  {
   "property": "C91",
   "status": "proved",
   "theorems": [
    "C91_car1",
    "C91_carp",
    "C91_carma",
    "C91_zcarma"
   ],
   "note": "C91_car1, C91_carp, C91_carma, C91_zcarma: for the objects built from the data and from the shifted, reversed and rescaled data, whatever they were used for before, LogDensity at the re-expressed theta is LogDensity at theta minus n log a, at every theta (theta_0 = 0, NaN and outside the prior included). For ZCARMA the kappa bounds are the same in both problems."
  },
  {
   "property": "C92",
   "status": "proved",
   "theorems": [
    "C92_car1",
    "C92_carp",
    "C92_carma",
    "C92_zcarma",
    "C92_tolerance_refuted"
   ],
   "note": "C92_car1 at every theta. C92_carp, C92_carma, C92_zcarma (with the bounds of kappa that the constructor computes, at least three measurements): the log-densities agree when the centroids are in decreasing order, and whenever both are not -infinity. Without the order hypothesis it is false: C92_tolerance_refuted gives a CAR(4) parameter vector accepted in one unit and rejected in another, because the order is checked with the absolute tolerance 1e-8."
  },
  {
   "property": "C93",
   "status": "proved",
   "theorems": [
    "C93_kappa_bounds",
    "C93_kappa_unique"
   ],
   "note": "C93_kappa_bounds, C93_kappa_unique."
  },
  {
   "property": "C94",
   "status": "proved",
   "theorems": [
    "C94_carp",
    "C94_carma_ar",
    "C94_carma_ma"
   ],
   "note": "C94_carp, C94_carma_ar, C94_carma_ma. C94_carp and C94_carma_ar also show that the ordering constraint is void when every gap is at least 1e8 time units (fmax below the absolute tolerance): then every arrangement is accepted with the same log-density."
  },
  {
   "property": "C95",
   "status": "proved",
   "theorems": [
    "C95_powerlaw",
    "C95_powerlaw_refuted",
    "C95_tdist",
    "C95_scaled_inverse_chisqr",
    "C95_scaled_inverse_chisqr_refuted",
    "C95_invgamma",
    "C95_placeholders_refuted",
    "C95_direct"
   ],
   "note": "C95_direct, C95_powerlaw, C95_tdist, C95_scaled_inverse_chisqr, C95_invgamma. False parts: C95_powerlaw_refuted (slope -1 always gives 1), C95_scaled_inverse_chisqr_refuted (the density in the comment is not the one of the variate, which is the standard scaled inverse chi-square density), C95_placeholders_refuted (beta, weibull, mtdist are constants)."
  },
  {
   "property": "C96",
   "status": "proved",
   "theorems": [
    "C96_mvnormal",
    "C96_proposal",
    "C96_symmetric",
    "C96_errors"
   ],
   "note": "C96_mvnormal, C96_proposal, C96_symmetric, C96_errors; real arithmetic except C96_errors."
  },
  {
   "property": "C97",
   "status": "proved",
   "theorems": [
    "C97_recover",
    "C97_files",
    "C97_car1",
    "C97_carma",
    "C97_carma_refuted"
   ],
   "note": "any arithmetic: C97_recover, C97_files, C97_car1, C97_carma (initial value of finite log-density); without it false: C97_carma_refuted, the state of Armadillo's generator is not saved."
  },
  {
   "property": "C98",
   "status": "proved",
   "theorems": [
    "C98_predict1",
    "C98_predictp",
    "C98_predict_py",
    "C98_filter_py",
    "C98_sample_predict_carma",
    "C98_sample_predict_car1",
    "C98_sample_simulate_carma",
    "C98_sample_simulate_car1",
    "C98_filter_simulate1",
    "C98_filter_simulatep"
   ],
   "note": "C98_predict1, C98_predictp; C98_filter_simulate1, C98_filter_simulatep for Filter and Simulate; C98_predict_py, C98_filter_py for the Python class; C98_sample_predict_carma, C98_sample_predict_car1 for predict, C98_sample_simulate_carma, C98_sample_simulate_car1 for simulate and the residuals of the sample objects (real arithmetic)."
  },
  {
   "property": "C99",
   "status": "proved",
   "theorems": [
    "C99_more_data1",
    "C99_more_datap",
    "C99_more_data_py"
   ],
   "note": "C99_more_data1, C99_more_datap; C99_more_data_py for the Python class (real arithmetic)."
  },
  {
   "property": "C100",
   "status": "proved",
   "theorems": [
    "C100_curve1",
    "C100_curvep"
   ],
   "note": "C100_curve1, C100_curvep (real arithmetic); at the measured times without error themselves Predict returns NaN (C13)."
  },
  {
   "property": "C101",
   "status": "proved",
   "theorems": [
    "C101_rejected_refuted",
    "C101_no_sample",
    "C101_no_density",
    "C101_car1_ignores_q"
   ],
   "note": "False of the constructor: C101_rejected_refuted. C101_no_sample: for 2 <= p <= q no run returns a sample; C101_no_density; C101_car1_ignores_q: for p = 1 every q is accepted and ignored. Any arithmetic."
  },
  {
   "property": "C102",
   "status": "proved",
   "theorems": [
    "C102_usable",
    "C102_answers"
   ],
   "note": "std::cin is modelled by characters (words, decimal numbers of int and unsigned long, failbit); names of files are strings, which can be opened is arbitrary."
  },
  {
   "property": "C103",
   "status": "proved",
   "theorems": [
    "C103_sample_size",
    "C103_thin",
    "C103_exponent",
    "C103_burnin",
    "C103_range_size",
    "C103_range_thin",
    "C103_range_burnin",
    "C103_asked_again_refuted"
   ],
   "note": "False: C103_asked_again_refuted. C103_sample_size, C103_thin, C103_exponent (answers such as 1e4): the prompt never returns; C103_burnin: 0 is assumed and an unassigned seed is used. C103_range_size/_thin/_burnin: an answer below the range of int: never returns; above: 2147483647 is assumed and an unassigned variable is used."
  },
  {
   "property": "C104",
   "status": "proved",
   "theorems": [
    "C104_data_erased",
    "C104_data_kept_refuted"
   ],
   "note": "False: C104_data_kept_refuted. C104_data_erased: the data are erased exactly when the output file has the same name; C102_usable: the output file is emptied, no other file changes."
  },
  {
   "property": "C105",
   "status": "proved",
   "theorems": [
    "C105_trace",
    "C105_pdf",
    "C105_counts",
    "C105_pairs",
    "C105_index",
    "C105_vector_refuted",
    "C105_complex"
   ],
   "note": "Real arithmetic; matrices of samples; C105_complex for complex ones. False of parameters with one value per sample (logpost, loglik): C105_vector_refuted; C105_index: indices out of range."
  },
  {
   "property": "C106",
   "status": "proved",
   "theorems": [
    "C106_parameter",
    "C106_bars_refuted",
    "C106_shift"
   ],
   "note": "C106_parameter (real arithmetic, at least two samples). False of the places of the bars: C106_bars_refuted, C106_shift."
  },
  {
   "property": "C107",
   "status": "proved",
   "theorems": [
    "C107_levels",
    "C107_peak_refuted",
    "C107_one_bin_refuted",
    "C107_coarse_refuted"
   ],
   "note": "C107_levels for every positive density. False of coarse meshes, where ValueError is raised: C107_peak_refuted, C107_one_bin_refuted, C107_coarse_refuted. gaussian_kde is an argument; SciPy's bisect is modelled."
  },
  {
   "property": "C108",
   "status": "proved",
   "theorems": [
    "C108_candidate",
    "C108_candidate_exists",
    "C108_first",
    "C108_only",
    "C108_zcarma",
    "C108_zcarma_kappa",
    "C108_two_measurements_refuted"
   ],
   "note": "C108_first and C108_only: StartingValue returns the first candidate in the prior region, for at least three measurements at distinct times. What a candidate is and when it is acceptable: C108_candidate, C108_candidate_exists. False of two measurements, where a run of even order never returns: C108_two_measurements_refuted. C108_zcarma, C108_zcarma_kappa: the same for ZCARMA objects (uniform variates equal to 0 or 1, whose logit is infinite, are outside)."
  },
  {
   "property": "C109",
   "status": "proved",
   "theorems": [
    "C109_variance_double",
    "C109_positive_double",
    "C109_stdev_double",
    "C109_returns_double",
    "C109_large_offset_refuted"
   ],
   "note": "Doubles. C109_variance_double bounds the rounding error, C109_positive_double says when the variance stays positive, C109_stdev_double bounds the recorded standard deviations, C109_returns_double: a run returns only if the computed variance is positive. The claim itself is false of data with a large offset: C109_large_offset_refuted (values 2^27 and 2^27+1). Used of arma::chol: it fails when a diagonal element is not positive."
  },
  {
   "property": "C110",
   "status": "proved",
   "theorems": [
    "C110_car1",
    "C110_carp",
    "C110_carma",
    "C110_zcarma"
   ],
   "note": "Exact reals. One theorem per class; the full and the reduced object are the ones the constructors return, after any earlier calls. The prediction is Predict of a filter holding the remaining measurements with theta[2] subtracted and the error bars scaled by sqrt(theta[1])."
  },
  {
   "property": "C111",
   "status": "proved",
   "theorems": [
    "C111_car1",
    "C111_carp_refuted"
   ],
   "note": "Exact reals. True of CAR(1), after the last and before the first measurement (C111_car1). False for p >= 2: C111_carp_refuted (roots -1/4 + i and -1/4 - i, two exact measurements half a cycle apart)."
  },
  {
   "property": "C112",
   "status": "proved",
   "theorems": [
    "C112_carma",
    "C112_car1"
   ],
   "note": "Any arithmetic. C112_carma covers CAR(p), CARMA(p,q) and ZCAR(p), C112_car1 the CAR(1). Statement on the C++ entry points; the Python method's default burn-in is half of nsamples, so there it holds for an explicit nburnin."
  },
  {
   "property": "C113",
   "status": "proved",
   "theorems": [
    "C113_carma",
    "C113_car1"
   ],
   "note": "Exact arithmetic; assumes that a normal draw is its mean plus a draw that does not depend on the mean (boost's is). The unit of the values is not covered: the initial proposal variance of the standard deviation is 2 var^2/n, which does not scale like a square of the unit (C118)."
  },
  {
   "property": "C114",
   "status": "proved",
   "theorems": [
    "C114_carmamodel_order",
    "C114_repeated_refuted"
   ],
   "note": "Python level. C114_carmamodel_order for distinct times, C114_repeated_refuted for repeated times. run_mcmc_carma called directly with unsorted data is C32."
  },
  {
   "property": "C115",
   "status": "proved",
   "theorems": [
    "C115_carma",
    "C115_car1",
    "C115_negative_carma",
    "C115_negative_car1",
    "C115_overflow_carma",
    "C115_overflow_car1",
    "C115_all_ints_refuted"
   ],
   "note": "C115_carma, C115_car1: equal outcomes when the product and the sum are ints. C115_negative_*: errors. C115_overflow_*: undefined behaviour. C115_all_ints_refuted: 50000 samples at thinning 50000. p and q are natural numbers."
  },
  {
   "property": "C116",
   "status": "proved",
   "theorems": [
    "C116_carma",
    "C116_car1",
    "C116_default_carp",
    "C116_default_car1",
    "C116_start_carma",
    "C116_start_refuted"
   ],
   "note": "C116_carma, C116_car1 (given start); C116_default_carp, C116_default_car1 (default start); C116_start_carma and C116_start_refuted (default start with a moving average, where it fails). For p >= 4 it fails because of the absolute tolerance 1e-8 in the order of the roots (C92_tolerance_refuted). In exact arithmetic; the default start of CAR(p) assumes that a uniform variate from a translated interval is the translated variate."
  },
  {
   "property": "C117",
   "status": "proved",
   "theorems": [
    "C117_ram",
    "C117_unit_density",
    "C117_exchange",
    "C117_stretch",
    "C117_scale_density"
   ],
   "note": "C117_ram, C117_exchange, C117_stretch, C117_unit_density, C117_scale_density. The next state ram_next, exch_next, stretch_next is the one of the code by C36_ram_next_code, C38_exch_next_code and C45. The iterated integrals are in the order x first, then the random number; the exchange asks for both orders. The adaptation of the proposal scale is outside."
  },
  {
   "property": "C118",
   "status": "proved",
   "theorems": [
    "C118_first_move",
    "C118_unit_refuted"
   ],
   "note": "C118_first_move, C118_unit_refuted. The log-density itself does not depend on the unit but for a constant (C91) and a run does not depend on the origin of the values (C113) or the unit of time (C116). Partial only in scope: stated for one recorded iteration; later iterations adapt the scale (C37)."
  },
  {
   "property": "C119",
   "status": "proved",
   "theorems": [
    "C119_kf1_data",
    "C119_kf1_refuted",
    "C119_kfp_refuted",
    "C119_order"
   ],
   "note": "C119_kf1_data; C119_kf1_refuted and C119_kfp_refuted (the results); C119_order ties Reset with a stored order to the model of C17-C18."
  },
  {
   "property": "C120",
   "status": "proved",
   "theorems": [
    "C120_same_spectrum",
    "C120_first_order",
    "C120_spectrum_determined",
    "C120_first_order_parameters",
    "C120_sign_pattern",
    "C120_parameters_refuted",
    "C120_order_refuted"
   ],
   "note": "C120_same_spectrum (two KalmanFilterp), C120_first_order (KalmanFilter1 and KalmanFilterp), C120_spectrum_determined (the converse), C120_first_order_parameters, C120_sign_pattern; C120_parameters_refuted and C120_order_refuted for the parameters."
  },
  {
   "property": "C121",
   "status": "proved",
   "theorems": [
    "C121_carma_reaches",
    "C121_car1_reaches"
   ],
   "note": "C121_carma_reaches, C121_car1_reaches. For CAR(1) the first value must have a finite log-density (C43 shows that the default start can violate the prior)."
  },
  {
   "property": "C122",
   "status": "proved",
   "theorems": [
    "C122_bounds_car1",
    "C122_bounds_carma",
    "C122_bounds_carp",
    "C122_bounds_zcarma",
    "C122_ar_bounded",
    "C122_moving_average_refuted"
   ],
   "note": "C122_bounds_car1, C122_bounds_carp, C122_bounds_carma, C122_bounds_zcarma, C122_ar_bounded, C122_moving_average_refuted. The integral over the whole parameter space is not formalised: the dominating function (C122_bounds_*) and the unbounded primitive along one parameter (C122_moving_average_refuted) are."
  },
  {
   "property": "C123",
   "status": "proved",
   "theorems": [
    "C123_predict1",
    "C123_predictp",
    "C123_large_error1",
    "C123_large_errorp",
    "C123_density_car1",
    "C123_density_carma",
    "C123_infinite_error_refuted",
    "C123_large_error_refuted"
   ],
   "note": "C123_predict1, C123_predictp, C123_large_error1, C123_large_errorp, C123_density_car1, C123_density_carma on exact reals; C123_infinite_error_refuted, C123_large_error_refuted on IEEE doubles (the latter with a correctly rounded exp)."
  },
  {
   "property": "C124",
   "status": "proved",
   "theorems": [
    "C124_same_run_carma",
    "C124_same_run_car1",
    "C124_carma_output",
    "C124_car1_output",
    "C124_rate",
    "C124_metrop"
   ],
   "note": "C124_carma_output, C124_car1_output, C124_metrop (output in terms of the decisions of the steps), C124_rate (exact numbers), C124_same_run_carma, C124_same_run_car1 (erasing the output gives the run of C33-C50)."
  },
  {
   "property": "C125",
   "status": "proved",
   "theorems": [
    "C125_filter_error",
    "C125_forecast_error"
   ],
   "note": "C125_filter_error, C125_forecast_error; exact values are those of the specification of C05/C06 (conditional distribution of an Ornstein-Uhlenbeck process). The log-density is in C126; interpolation and CARMA(p,q) are not covered by an error bound."
  },
  {
   "property": "C126",
   "status": "proved",
   "theorems": [
    "C126_logdensity_error"
   ],
   "note": "C126_logdensity_error; the exact density is the one of the specification of C30 (is_loglik, log_sichi). CARMA(p,q) on doubles is not covered."
  },
  {
   "property": "C127",
   "status": "proved",
   "theorems": [
    "C127_acceptance_probability",
    "C127_outside",
    "C127_run"
   ],
   "note": "C127_acceptance_probability, C127_outside for one step at temperature 1; C127_run for every sweep of a completed run, assuming of the Cholesky routine only that it fails unless the diagonal is positive. The exact posterior is that of C30 and C126. The proposals themselves are taken as they are on doubles."
  },
  {
   "property": "C128",
   "status": "proved",
   "theorems": [
    "C128_variance_error",
    "C128_scatter_suffices",
    "C128_no_run",
    "C128_car1_completes",
    "C128_zero_level_refuted"
   ],
   "note": "C128_variance_error, C128_scatter_suffices, C128_no_run, C128_car1_completes, C128_zero_level_refuted. Completion is shown for CAR(1); for CARMA runs C65 gives it from an admissible init."
  },
  {
   "property": "C129",
   "status": "proved",
   "theorems": [
    "C129_carma",
    "C129_car1",
    "C129_string_refuted",
    "C129_letter_refuted",
    "C129_one_sample_refuted",
    "C129_more_refuted",
    "C129_derived_refuted",
    "C129_plain"
   ],
   "note": "C129_carma, C129_car1, C129_plain; C129_string_refuted, C129_letter_refuted, C129_one_sample_refuted, C129_more_refuted, C129_derived_refuted for the claims that are false. The parsing of the text by np.genfromtxt is not modelled beyond the shape of the array."
  },
  {
   "property": "C130",
   "status": "proved",
   "theorems": [
    "C130_forecast",
    "C130_forecast_refuted",
    "C130_predict_raises",
    "C130_law",
    "C130_zeros",
    "C130_covariance_refuted",
    "C130_order_one",
    "C130_filter_whole",
    "C130_filter_raises"
   ],
   "note": "C130_law, C130_zeros, C130_order_one, C130_filter_whole, C130_filter_raises, C130_predict_raises, C130_forecast (one measurement); C130_covariance_refuted and C130_forecast_refuted for the claims that are false. Integers are unbounded in the model."
  },
  {
   "property": "C131",
   "status": "proved",
   "theorems": [
    "C131_normal_density",
    "C131_shift",
    "C131_normal_step",
    "C131_student_step",
    "C131_scale",
    "C131_lognormal_step",
    "C131_vector",
    "C131_vector_density",
    "C131_vector_step"
   ],
   "note": "C131_shift, C131_scale, C131_vector (stationarity); C131_normal_step, C131_student_step, C131_lognormal_step, C131_vector_step (the code makes these steps); C131_normal_density, C131_vector_density (the normal density integrates to one). Student's t with other than 8 degrees of freedom: its density is any even function with integral one."
  },
  {
   "property": "C132",
   "status": "proved",
   "theorems": [
    "C132_step",
    "C132_carma",
    "C132_car1",
    "C132_bounds"
   ],
   "note": "C132_step (one step), C132_carma, C132_car1 (runs), C132_bounds (the products are between exp(-(1 + 3 n k^(1/3))/3) and exp(3(1 + 3 n k^(1/3))/4))."
  },
  {
   "property": "C133",
   "status": "proved",
   "theorems": [
    "C133_car1",
    "C133_carma",
    "C133_refuted"
   ],
   "note": "C133_car1, C133_carma: true if the last time is positive and the first at most 0.4 of it; nothing is visible if the first time is later than 0.4 of the last or the last is negative. C133_refuted: modified Julian dates, whatever the values."
  },
  {
   "property": "C134",
   "status": "proved",
   "theorems": [
    "C134_power_spectrum",
    "C134_car1_psd",
    "C134_carma_variance"
   ],
   "note": "C134_power_spectrum, C134_car1_psd, C134_carma_variance (real arithmetic)."
  }
 ]
}