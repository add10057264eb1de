# carma_pack: formal model and theorems

Target: brandonckelly/carma_pack, C++ sources in `/repo/src` (Kalman filters, CAR/CARMA models, MCMC
engine) and the parts of `/repo/src/carmcmc/carma_pack.py` that carry logic. The code was read as text, never run.

## 1. How the code is modelled

* **Language.** Rocq/Coq 8.16.1. Every modelled function is a total computable Gallina function; every
  definition cites file and lines in `/repo`.
* **Arithmetic.** The model is written once, generic in a record `Arith` (a type `F` of numbers with the
  operations the code uses: + - * / sqrt exp log sin cos pow, `<`, `==`, `is_finite`, infinities).
  * Theorems quantified over *every* `Arith` need no property of the numbers at all, so they hold for IEEE
    doubles with rounding, overflow and NaN (history independence, data restoration, bookkeeping, "the recorded
    log-posterior is the log-density of the recorded sample", ...).
  * Numeric theorems are about the instance `AX`: extended reals `Fin r | PInf | NInf | NaN` with IEEE rules for
    special values (x/0, 0/0, inf-inf, sqrt of negatives, log 0, comparisons with NaN) but exact real arithmetic
    on finite values: no rounding, overflow, underflow or sign of zero.
  * C79, C80, C109, C125-C128 and the two refutations of C123 are about the instance `A64` (`Float64.v`): Flocq's IEEE binary64 numbers, rounding to nearest even, with NaN,
    infinities, signed zeros and subnormals. exp, log, sin, cos and pow are arguments; of exp and log the theorems assume range
    properties only (`exp_sane`, `exp_total`, `log_sane`), which a correctly rounded libm has (`libm_hypotheses_met`), and C125 and C126 that exp is off by at most
    2^-53 at numbers <= 0 (`exp_accurate`; also true of a correctly rounded one, `exp_correct_accurate`), and C126 that exp has a relative error of at most 2^-52
    where it is between 2^-200 and 2^200 and log is off by at most 2^-53 (1 + |log x|) (`exp_relative`, `log_accurate`; `exp_correct_relative`, `log_correct_accurate`), and C127 also that exp is at least 1 at positive numbers (`exp_above`). C128 asks of arma::chol on doubles that it fails unless the diagonal is positive and succeeds on positive diagonal matrices (`chol_checks`, `chol_diagonal`). x87 extended
    precision and fused multiply-add are not modelled.
* **Outcomes.** `res T = Ok x | Throw e | UB | Diverge`. Armadillo's checked accessors (`x(i)`, `span`, `elem`,
  `rows`, size mismatches) throw a `logic_error`; failed `chol`/`solve` throw a `runtime_error` (the only kind
  `LogDensity` catches); unchecked `x[i]` out of range and reads of never-written memory are `UB`; a rejection loop
  that exhausts its fuel is `Diverge`, and theorems exclude or mention it explicitly.
* **External code.** `sort_index` is any function returning a permutation that sorts (ties in any order);
  `arma::solve` is any function whose successful result solves the system; the two random generators (boost
  `RandGen`, and Armadillo's own `randu/randn`) are arbitrary deterministic generators with abstract state. They are
  record fields / section variables that are universally quantified in the theorems: no axioms.
* **Objects.** A C++ object is a record, a method a function returning the new record. Uninitialised members are
  arbitrary values of the initial record, so theorems quantify over them.

Files (all in `rocq/theories`): `Arith` numbers, `Res` outcomes, vectors; `*Model` model only; `Spec*`, `EngineSpec`
independent specifications; `*Proof`, `*Main`, `*Top`, ... proofs; `Props*` theorem statements, each closed by `exact` (or
a short proof) and followed by `Print Assumptions`, with the examples showing the hypotheses are satisfiable beside them.

| model file | code |
|---|---|
| `KFModel` | kfilter.hpp/kfilter.cpp: KalmanFilter (init, Filter, Simulate), KalmanFilter1 |
| `Cx`, `KFpModel` | kfilter.cpp: KalmanFilterp (complex arithmetic, Reset, Update, Predict, coefficients) |
| `CarpackModel` | carpack.hpp/cpp: CARMA_Base, CAR1, CARp, CARMA, ZCARMA: constructors, ARRoots, polycoefs, MA coefficients, Variance, priors, LogDensity |
| `EngineModel` | parameters.hpp, steps.hpp/cpp, samplers.hpp/cpp, proposals.hpp, random.hpp/cpp, the two drivers of carmcmc.cpp |
| `RandModel` | random.cpp: the methods the drivers do not use, SaveSeed, RecoverSeed; proposals.cpp: MultiNormalProposal |
| `PromptModel` | samplers.cpp: mcmc_options_prompt, write_to_file, read_from_file; extraction of words, int and unsigned long (64 bits) from std::cin as in C++11 (a failed conversion stores 0); the names of two files are different files when the strings differ |
| `StartModel` | carpack.cpp: StartingValue, SetStartingValue, StartingAR, StartingMA of each class |
| `PyModel` | carma_pack.py: CarmaModel (`__init__`, get_mle, _get_mle_single, choose_order), CarmaSample and Car1Sample (derived traces, makeKalmanFilter, predict, simulate, residuals of assess_fit, DIC), power_spectrum, carma_variance, car1_process, carma_process, get_ar_roots |
| `PyKFModel` | carma_pack.py: KalmanFilterDeprecated (`__init__`, reset, update, filter, predict, simulate), float64 arrays (integer `time`: PyIntModel); ndarray.sort and np.random.normal are arguments |
| `PySampleModel` | samplers.py: MCMCSample (`__init__`, generate_from_file for one file, get_samples, autocorr_timescale, effective_samples, posterior_summaries, newaxis); carma_pack.py: CarmaSample and Car1Sample (`__init__`, set_logpost, generate_from_trace, generate_from_file, add_mle, the arrays returned by plot_power_spectrum, every best fit of makeKalmanFilter); np.percentile, np.median, np.linspace; `acor`, the real and the complex sort are arguments |
| `PyFileModel` | samplers.py and carma_pack.py: generate_from_file with its argument (a string or a list of names), the files that can be opened and the shape of what np.genfromtxt makes of them |
| `PyIntModel` | carma_pack.py: carma_process and KalmanFilterDeprecated's reset, update, filter, predict with an integer array of times (the arrays made by np.empty_like are integer; unbounded integers) |
| `PyAssessModel` | carma_pack.py: the numbers drawn by assess_fit; samplers.py: those drawn by plot_autocorr (real arrays); matplotlib's acorr and barh, np.histogram (exact bins) |
| `CtorModel` | kfilter.hpp: the constructors of KalmanFilter1 and KalmanFilterp which take the data alone (unset members arbitrary), KalmanFilterp::Reset and Predict with a stored order p_ |
| `PrintModel` | the lines printed by steps.hpp/steps.cpp (the three acceptance-rate reports), Sampler::Run and the drivers in carmcmc.cpp: the functions of EngineModel and StartModel with their output; the numbers, not their formatting |
| `PyPlotModel` | samplers.py: the numbers drawn by plot_trace, plot_1dpdf, plot_2dpdf, plot_2dkde (without the single points outside the contours), plot_parameter; matplotlib's hist and the check of contour levels, scipy.optimize.bisect; scipy.stats.gaussian_kde is an argument |

Python simplifications (Python 3 semantics; add_mle also with the integer division of Python 2): exceptions are `Throw Elogic`; NumPy's `argsort`, the conjugacy test inside `np.poly`,
`scipy.linalg.solve`, `np.random` are arguments; SciPy's optimiser is any function (only its box, start and objective are modelled);
an integer `time` array is modelled in PyIntModel only (carma_process and the reset, update, filter and predict of KalmanFilterDeprecated). The NaN results for repeated times are statements about exact arithmetic.

Not modelled: the conversions of boost_python_wrapper.cpp, progress bars, file output, the test directory,
the drawing calls (modelled are the numbers drawn), histograms of complex values,
aliasing of NumPy arrays (arrays are values), complex arrays in posterior_summaries,
SciPy's optimiser itself.

## 2. Plan per property

| id | model | statement / proof method |
|----|-------|--------------------------|
| C01-C03 | `KalmanFilter::init` and constructors | invariants of sort+dedupe for any valid sort oracle; error outcomes |
| C04 | `CarmaModel.__init__` | same, argsort oracle + `np.unique(return_index)` |
| C05,C06 | `KalmanFilter1` Reset/Update/Filter | spec = normal equations of linear prediction (`Spec`), induction on i over `AX` |
| C07,C08 | `KalmanFilter1::Predict` | kriging normal equations updated one observation at a time |
| C09,C10 | all filter methods, any `Arith` | simulation: output depends only on (data, parameters); induction over call lists |
| C11-C14 | `Simulate` | fold of Predict+insert; C12, C13, C14 expected false: `_refuted` with witnesses |
| C15,C16 | KF1 | algebra / limits |
| C17-C20 | `KalmanFilterp` | complex vectors over `AX`; vector normal equations; residue identity for the stationary variance |
| C21-C28 | ARRoots, polycoefs, ExtractMA, priors, bounds | algebra over R; C26 expected false |
| C29-C32 | LogDensity | purity for any `Arith`; value over `AX`; C31, C32 expected false |
| C33-C35, C37, C41, C49 | engine: Parameter, Step, Sampler, drivers, any `Arith` | invariants over arbitrary step lists / generators |
| C36, C38, C45-C47 | acceptance rules over `AX` | detailed balance identities |
| C39, C40 | CholUpdateR1, AdaptiveMetro::DoStep | matrix identity by induction on the dimension; history induction |
| C42-C44, C48, C50 | drivers and starting values | proof / refutation (C42 at nwalkers=1, C43, C48, C50 expected false) |
| C51-C60 | Python layer | list functions and formulas; C51, C52 (qmax), C59, C60 expected false in part |
| C61 | SetTime, every filter | false: the stored time differences are not recomputed |
| C62 | `KalmanFilter1` | totality of every call sequence, every `Arith` |
| C63 | constructors + LogDensity | false: the class keeps the original data, the filter the reduced data, sizes disagree |
| C64, C65 | drivers | weakest-precondition style totality over every random stream |
| C66 | get_mle, _get_mle_single | the box and the start as functions of the data; objective through C30; false with two measurements |
| C67-C69 | CarmaSample / Car1Sample at the largest log-posterior | argmax + derived parameters (C53) + the filter theorems (C07, C11, C20) |
| C70-C72 | choose_order, 'mean' roots, DIC | false: witnesses |
| C73 | CarmaModel + run_mcmc | composition of C04, C64/C65, C34, C33 and C30 (including theta_0 = 0) |
| C74 | power_spectrum, carma_variance | improper integrals of decaying exponentials and of rational functions (`Spectrum.v`), partial fractions of the spectrum |
| C75 | KalmanFilterDeprecated (`PyKFModel.v`) | step-by-step equality with the KalmanFilterp computation on the error bars sqrt(yvar) (`PyKFTop.v`), then C17 and C18 |
| C76 | KalmanFilterDeprecated.simulate | lockstep with the pure simulation loop of C11 (`PyKFSim.v`) |
| C77 | the same | false as stated: a witness, and theorems saying when each call raises and what the object holds then |
| C78 | the same | the results depend on the six data attributes only; every completed call keeps those |
| C79 | KalmanFilter1 over `A64` | interval invariants of the recursion (e_i^2 <= var_i <= 8 * 2^1000, mean within 4 times the bound of the data), preserved because rounding is monotone and fixes representable bounds; for predictions bounds that count the steps (`Float64Pred.v`); a two-point witness for a prediction just after a precise measurement and a three-point witness for zero error bars |
| C80 | CAR1 constructor, CheckPriorBounds, LogDensity over `A64` | the same invariants, bounds on each term of the sum, and the history independence theorem for every `Arith` |
| C81 | CarmaSample.add_mle (`PySampleModel.v`) | equality with the row computation of C53, then C53; false in Python 3 |
| C82, C84 | plot_power_spectrum | percentiles of the sorted values (`PyQuant.v`), the spectrum of the roots (`PyPsd.v`), the index i N / n; false parts by theorem |
| C83 | the frequency grid | monotonicity of the exponential; false for two measurements |
| C85 | the dictionary of arrays | induction over the trace (`PySampleProof.v`) |
| C86 | posterior_summaries | as C82 |
| C87 | makeKalmanFilter with each best fit | column medians and means (`PyFitProof.v`, `PyFit2.v`), then C67; false parts with witnesses |
| C88 | assess_fit (`PyAssessModel.v`) | C67, C69 and C87 composed with sums of products for the autocorrelations, Cauchy-Schwarz for their range (`PyAssess.v`); false for 50 measurements or fewer |
| C89 | the interpolation times | arithmetic of the grid; false for times far from zero or negative |
| C90 | plot_autocorr | as C88; false for a single sample |
| C91 | LogDensity on the shifted, reversed, rescaled data | the log-likelihood is a normal density (C30) and determinants are invariant under reordering and homogeneous (`DetUniq.v`), the prior bounds scale (`Sym.v`) |
| C92 | LogDensity in another unit of time | roots, autocovariances and bounds scale (`SymTime.v`, `Kappa.v`); false without an order hypothesis: absolute tolerance (`SymWit.v`) |
| C93 | kappa_bounds of the ZCARMA constructor | order statistics of the gaps (`Kappa.v`) |
| C94 | LogDensity at theta with permuted factors | the autocovariance is symmetric in the roots (`Switch.v`) |
| C95 | the transformations of `random.cpp` applied to boost variates (`RandModel.v`, `EngineModel.v`) | change of variable in the integral of the density over every interval (`RandProof.v`) |
| C96 | RandGen.normal(covar), MultiNormalProposal | the Cholesky factor's identity; the normal density as in C30 |
| C97 | SaveSeed, RecoverSeed, a file system as a map | the runs depend on boost's state only (`SeedProof.v`); a witness where Armadillo's generator matters |
| C98 | KalmanFilter1/KalmanFilterp::Predict, Filter and Simulate on two objects | the conditional distribution transforms linearly and is unique (`PredLaw.v`); for Simulate, induction over the simulated times with the values drawn so far added to the data (`PropsUnitSim.v`); KalmanFilterDeprecated: the same argument from C75 (`PropsPredPy.v`); the sample objects: the same argument from C67, with the parameters changed as in C91 and C92 (`PropsPredUnits.v`, `PropsSimUnits.v`) |
| C99 | the same | the best linear predictor minimises the mean squared error; the weights of the poorer data set are candidates for the better one; KalmanFilterDeprecated in `PropsPredPy.v` |
| C100 | the same, all times at once | the conditional mean and variance written with the inverse covariance matrix are continuous in the time |
| C101 | CarmaModel.__init__, run_mcmc, CARMA::ExtractMA, both drivers | the loop filling ma_coefs_ leaves its range when q >= p, on every path of a run |
| C102 | samplers.cpp mcmc_options_prompt, read_from_file, write_to_file | induction on the rejected answers; decimal notation of the standard library read back digit by digit |
| C103 | the same | false: after a failed extraction std::cin is never read again, so the loop for a number never ends (the burn-in, or a number above the range of int: an unassigned variable is used) |
| C104 | write_to_file | false when both names are equal: opening for writing empties the file |
| C105 | plot_trace, plot_1dpdf, plot_2dpdf (`PyPlotModel.v`) | every value is in exactly one bin, so counts add up (`HistProof.v`); false of one-dimensional arrays |
| C106 | plot_parameter, assess_fit | as C88; false of the places of the bars: matplotlib centres them on the lower edges |
| C107 | plot_2dkde, scipy.optimize.bisect | invariant of the bracket by induction on the steps; two functions ordered pointwise have ordered zeros, functions of equal signs the same zero (`KdeProof.v`); false of coarse meshes |
| C108 | StartingValue of CARp, ZCAR, CARMA | one pass of the loop equals the relational description of a candidate; induction on the rejected candidates (`StartLaw.v`, `StartRun.v`); false of two measurements, where the frequency range is empty |
| C109 | the variance of the measured values in RunCarmaSampler and RunCar1Sampler, on doubles | forward error analysis of the two sums by induction on the data (`Float64Var.v`, finite results only), then the drivers (`VarRun.v`); false of data with a large offset, by computation |
| C110 | LogDensity of the four classes with one measurement left out, and Predict | the covariance of the data with the k-th row and column moved last factors into the covariance of the rest and the conditional variance (`Insert.v`); both densities by C30's theorem, the conditional law by C07/C20 (`InsertTop.v`) |
| C111 | Predict outside the range of the data | CAR(1): closed form of the forecast, and C98 (reversed time) for backcasts; p >= 2: false, an explicit CAR(2) process whose conditional law is solved by hand (`FarProof.v`) |
| C112 | RunCarmaSampler and RunCar1Sampler with two values of (sample_size, thin) | simulation: chains equal up to the kept samples and up to the counters of the exchange steps (which hold the report interval burnin + thin*sample_size) make equal moves; sweeps are deterministic (`ThinProof.v`), then the drivers (`ThinTop.v`) |
| C113 | RunCarmaSampler and RunCar1Sampler on two light curves | simulation of the engine between chains whose third coordinates differ by c (`ShiftProof.v`); log-density, Filter, StartingValue and SetStartingValue of both objects (`ShiftTop.v`, using C91-C94); the gaps have the same median, the bounds and proposal covariance are equal, then the drivers (`ShiftRun.v`) |
| C114 | CarmaModel.__init__ on two permutations of one light curve | two strictly increasing lists with the same elements are equal; a measurement is determined by its time (`PropsShuffle.v`, from C04's `CarmaModel_data`); the indices kept depend on the times alone |
| C115 | the drivers, Sampler and steps with 32-bit counters (`IntModel.v`) | simulation between the int run and the run in natural numbers: after k passes every counter is at most k, and the counters of the exchange steps are not looked at by the chain (`IntProof.v`) |
| C116 | whole runs on t and on k t, from a starting vector that is taken and from the default one | the simulation of C113 with the conversion of units instead of the shift (`ShiftProof.v`); the log-densities agree by C92's `timep2` and `time1` (`UnitRun.v`); the default start draw by draw from C108's description of the candidates, whose frequencies scale with the bounds (`UnitStart.v`); refuted for moving average coordinates |
| C117 | steps as maps of the state and the random numbers of the step | iterated improper Riemann integrals (`line`, `space`, `space2` in `Stationary.v`); change of variables in each coordinate; detailed balance; the exact mass of the t density from its antiderivative |
| C118 | RunCar1Sampler with one sample, no burn-in | the Cholesky factor of the initial proposal covariance is diagonal with the stated entries; the recorded value is ram_next of the start (Balance); the refutation chooses the first variate so that the first run halves the standard deviation |
| C119 | the constructors without parameters, the members not set being arbitrary | init() reads the data only (`CtorProof.v`); a witness for the memory from C05; a KalmanFilterp without roots fails in Reset for every p_ |
| C120 | the specification of C17/C18 (conditional distributions for the autocovariance) and the spectrum of C74 | partial fractions 1/(x + r^2) with distinct r^2 are linearly independent, so equal spectra give equal autocovariances (`SpecIdent.v`); conditional distributions are unique for measurements in any order, hence also Simulate agrees (`IdentProof.v`) |
| C121 | the run as in C41 (`begun`, `sweeps`, `in_order`); `Reach.reaches` states what one step can do | the proposal factor stays upper triangular with a positive diagonal in every state (C40), so the trial numbers solve a triangular system with one solution; the log-density is finite on the prior region (C30) |
| C122 | LogDensity of the classes of carpack.hpp on finite reals; `ld_low`, `ld_high`, `peak` of Proper.v state the bounds in terms of the data | the log-likelihood is that of a Gaussian vector with covariance K + D (C30), K positive semidefinite with constant diagonal; bounds on the Cholesky pivots and on the quadratic form (LLBound.v) |
| C123 | Predict1 and Predictp on the extended reals; LogDensity of CAR1 and CARMA; KalmanFilter1 over Flocq's binary64 | rank-one update of the best linear predictor (`cond_insert` of Influence.v) and uniqueness of the conditional distribution; for the doubles exact evaluation of the rounded operations (PropsMask.v) |
| C124 | PrintModel: the steps, Sampler::Run and the drivers with the lines they print (without progress bars) | erasure to the engine model; invariant relating the counters of every step to the list of decisions (PrintProof) |
| C125 | KFModel over A64 (Flocq binary64) and over the reals | per-operation relative/absolute error, non-expansiveness of the variance recursion, sensitivity of exp at non-positive arguments, induction over the series (FloatErr, FloatErrKF) |
| C126 | CarpackModel.LogDensity over A64 (Flocq binary64) | C125's error bounds with the perturbed sigma^2, omega and centred data that LogDensity sets, sensitivity of each normal term, error of the sum (FloatErrLD) |
| C127 | EngineModel.ram_accept over A64, StartModel.par1 | C126 for both values, the acceptance rule is 1-Lipschitz in the difference of the log-densities, rounding of the difference and of exp (FloatErrAcc); along a run: the states of the chain keep the measurements, the bounds and the log-posterior of the held value (RunStates), and one sweep is one decision |
| C128 | StartModel.pop_var, prop_covar, RunCar1Sampler, RunCarmaSampler over A64 | rounding error of a left-to-right sum (FloatVar), C64 for any arithmetic, the Cholesky oracle with the stated properties |
| C129 | PyFileModel (the argument, the files, genfromtxt), PySampleModel.carma_from_file, car1_from_file, base_from_file | the columns of the file of pairs (vector, log-posterior); dictionary lemmas; induction over the list of files |
| C130 | PyIntModel (carma_process_i, i_filter, i_predict: as PyModel and PyKFModel, with the conversion made by an assignment to an element of an integer array) | the induction of C57 with a conversion at each step; zeros stay zeros; numbers that are not finite propagate; the forecast after one measurement by evaluating the two quadratic forms (PropsIntPred) |
| C131 | EngineModel (metrop_step, normal_draw, lognormal_draw, tdist), RandModel (mvnormal_draw) | reversal of a move with the opposite variate changes the sign of the difference of the integrals; the Gaussian integral is proved in `GaussInt.v` |
| C132 | EngineModel (ram_step, ram_adapt, RunCarmaSampler, RunCar1Sampler) | C40's update as a quadratic form, bounded by the Cauchy-Schwarz inequality; induction over the passes of a run |
| C133 | the bars and the curve of assess_fit (C88) against the limits set by plt.xlim | lengths of the bars are between 0 and 0.4 time.max(), the longest is equal to it; false in general, with a series of modified Julian dates as witness (`PropsHistView.v`). matplotlib: barh draws from 0, xlim fixes the axis |
| C134 | power_spectrum, car1_psd, carma_variance on two sets of parameters | closed forms of C54 and C55, polynomials and roots under scaling (`PropsSpecUnits.v`) |

### Amendments made while proving

* C30: the likelihood theorems ask theta_0 <> 0; the case theta_0 = 0 (allowed by the prior) is `C30_zero_*`: independent normal
  measurements when every error bar is non-zero, NaN when one is 0.  `C30_density_*` (PropsDens) write the same likelihood as the
  multivariate normal log-density of all measurements, with determinant (`Det.v`, Laplace expansion; its row properties are
  `C30_det_properties`) and inverse of their covariance matrix.
* C36, C38, C45: the code's decision is proved to be the acceptance rule; detailed balance is proved pointwise; invariance of
  the target is proved for every functional `integral` that is linear and unchanged by the (volume preserving) reversal map.
  The Lebesgue integral on R^n is not constructed.
* C42: with one walker `linspace(0, log 100, 1)` is `[log 100]`, so the only chain has temperature 100.
* C43: false; a first value of the standard deviation above the prior bound leaves the chain stuck at log-posterior -inf.
* C48: false when CARMA starting values are drawn: Armadillo's generator is not seeded by `SetSeed`.
* C50: false after a rejected move.
* Odd p with two data points: the interval of the extra starting centroid is a point (`uniform(lo, lo)`); modelled as the generator returns.
* `Diverge` on the starting-value searches means that the fuel ran out for the given stream; C65 states the three outcomes.

## 3. Trusted base

* Coq's kernel (8.16.1). Libraries used: Coq's standard library, Coquelicot and Flocq (definitions and lemmas; no axioms of their own).
* `Print Assumptions`, printed under each theorem in the `Props*` files, lists at most these axioms, all of the standard library:
  `ClassicalDedekindReals.sig_forall_dec`, `ClassicalDedekindReals.sig_not_dec`,
  `FunctionalExtensionality.functional_extensionality_dep` (the real numbers), `Classical_Prop.classic` and
  `ClassicalEpsilon.constructive_indefinite_description` (Coquelicot's integral and limits, existence of oracles).
  Most theorems quantified over every `Arith` are closed under the global context.
* The reading of the C++/Python code by hand, as cited at each definition.
* The documented behaviour of Armadillo and Boost, as hypotheses of the theorems:
  `valid_sort_index` (a sorting permutation), `valid_vsort`, `valid_dsort` (sorted values, ascending / descending),
  `valid_np_sort` (ascending, NaN last), `valid_csort` (complex numbers by real part, then by imaginary part),
  `valid_solve` (a uniquely solvable system gets its solution; nothing is assumed about singular ones), `valid_chol` (an upper triangular factor with
  positive diagonal, for positive definite matrices), `valid_rng` (uniform within its interval, positive chi-square, ...). Each is shown to be satisfiable by an instance.
* For C109 of arma::chol only `chol_sane` (`VarRun.v`): it fails when a diagonal element is not positive (LAPACK's potrf reports a non-positive or NaN pivot, and a pivot is at most the diagonal element).
* For C79, C80 and C123_large_error_refuted (`exp_correct`: exp rounded to nearest) also the ranges assumed of libm's exp and log, `exp_sane`, `exp_total`, `log_sane` (`Float64KF.v`, `Float64LD.v`), and in C79_predict_double that exp is at most 1 - 2^-42 at numbers <= -2^-41.
* Nothing is assumed about the distribution of the generators' outputs: statements about distributions are about densities.

## 4. The log of edited models

In `seeded/LOG.jsonl`, `failed` lists the theorems that no longer have a proof after the edit: their own script fails, or a lemma they
use has a script that fails.  A script can fail although the statement is still true, so an entry shows that the edit is noticed, not that
every listed statement is false of it.  The entries K01-K16 for `KFModel` were made with a build without `PropsPy` and `PropsDens`, and only the
entries whose edit is in `PyKFModel` were made with `PropsEnd`, `PropsSpec` and `PropsPyKF` in the build, so theorems of those files are missing from the other lists.
