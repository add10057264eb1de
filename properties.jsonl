{"id": "C01", "title": "Kalman filter construction normalises the data", "statement": "Building a KalmanFilter1/KalmanFilterp from (time, y, yerr) of equal length with at least two distinct times succeeds, and GetTime() afterwards is strictly increasing, contains exactly the distinct input times, and at every position the triple (time, y, yerr) is one of the input triples.", "quantifier": "every number of points >= 2, every order of the times, every pattern of duplicates, every y and yerr, every admissible result of the unstable index sort", "why_tests_cant": "the number of orderings and duplicate patterns is unbounded and the library sort is not stable, so tests see one tie-breaking only", "anchors": ["src/include/kfilter.hpp: KalmanFilter::init", "src/include/kfilter.hpp: KalmanFilter1/KalmanFilterp constructors"]}
{"id": "C02", "title": "Clean data are left alone and initialisation is idempotent", "statement": "If the times are already strictly increasing the constructor stores time, y, yerr unchanged; initialising twice (as one KalmanFilterp constructor does) gives the same object as once; if the times are non-decreasing the record kept for a repeated time is the first one given.", "quantifier": "every data set", "why_tests_cant": "universal statement over all data sets", "anchors": ["src/include/kfilter.hpp: KalmanFilter::init", "src/include/kfilter.hpp: KalmanFilterp(arma::vec&,arma::vec&,arma::vec&)"]}
{"id": "C03", "title": "Degenerate data sets are rejected, not half-initialised", "statement": "Constructing a filter from fewer than two points, or from points whose times are all equal, ends in an exception; it never returns an object and never touches memory out of bounds.", "quantifier": "every such data set", "why_tests_cant": "the failing cases form an infinite family and differ in which statement throws", "anchors": ["src/include/kfilter.hpp: KalmanFilter::init"]}
{"id": "C04", "title": "CarmaModel sorts and deduplicates consistently", "statement": "CarmaModel(time, y, ysig) stores strictly increasing times, exactly the distinct input times, each with the y and ysig of one input record having that time, for every admissible argsort.", "quantifier": "every input array and every valid argsort permutation", "why_tests_cant": "argsort is unstable by default; tests see one permutation", "anchors": ["src/carmcmc/carma_pack.py: CarmaModel.__init__"]}
{"id": "C05", "title": "KalmanFilter1.Filter computes the exact one-step predictions", "statement": "After Filter(), GetMean()[i] is the best linear predictor of y[i] from y[0..i-1] under the covariance sigsqr/(2 omega) exp(-omega|ti-tj|) + yerr_i^2 [i=j], and GetVar()[i] is its mean squared error, for every i.", "quantifier": "every n, every strictly increasing time grid, every y, every yerr, every sigsqr > 0 and omega > 0, every i < n", "why_tests_cant": "tests compare a few series statistically; exactness for all series lengths needs induction", "anchors": ["src/kfilter.cpp: KalmanFilter1::Reset, Update", "src/include/kfilter.hpp: KalmanFilter::Filter"]}
{"id": "C06", "title": "KalmanFilter1.Filter variances are well defined and bounded", "statement": "After Filter() every GetVar()[i] is finite and satisfies yerr_i^2 < var_i <= sigsqr/(2 omega) + yerr_i^2; no division by zero happens and every mean is finite.", "quantifier": "every data set with strictly increasing times, sigsqr > 0, omega > 0", "why_tests_cant": "needs induction over the recursion", "anchors": ["src/kfilter.cpp: KalmanFilter1::Update"]}
{"id": "C07", "title": "KalmanFilter1.Predict is the exact conditional distribution", "statement": "Predict(t) returns the best linear predictor of the noise-free process at t given all n measurements, and its mean squared error, whether t lies before, between or after the data (t at a measurement with zero error excepted).", "quantifier": "every data set, every t, every parameter value", "why_tests_cant": "tests check three t values on one series to 1e-6", "anchors": ["src/kfilter.cpp: KalmanFilter1::Predict, InitializeCoefs, UpdateCoefs"]}
{"id": "C08", "title": "Predictive variance never exceeds the process variance", "statement": "The variance returned by KalmanFilter1.Predict is positive and at most sigsqr/(2 omega), and is at most the variance of the forecast that uses only the data before t.", "quantifier": "every data set and t", "why_tests_cant": "universal inequality over reals", "anchors": ["src/kfilter.cpp: KalmanFilter1::Predict"]}
{"id": "C09", "title": "Filter results do not depend on the call history", "statement": "For any sequence of earlier Filter/Predict/Simulate calls and parameter changes, the values a later Filter() or Predict(t) produces are those a freshly built filter with the same data and parameters produces.", "quantifier": "every finite history of calls, every arithmetic (including rounding and NaN)", "why_tests_cant": "histories are unbounded; state is mutable and shared", "anchors": ["src/kfilter.cpp: all KalmanFilter1 and KalmanFilterp methods", "src/include/kfilter.hpp: Filter, Simulate"]}
{"id": "C10", "title": "Filter, Predict and Simulate leave the measured data intact", "statement": "GetTime, GetTimeSeries, GetTimeSeriesErr and the parameters are unchanged by any sequence of Filter, Predict and Simulate calls that return normally, although Simulate temporarily inserts simulated points.", "quantifier": "every history, every arithmetic", "why_tests_cant": "histories are unbounded", "anchors": ["src/include/kfilter.hpp: KalmanFilter::Simulate, Filter", "src/kfilter.cpp: Predict"]}
{"id": "C11", "title": "Simulate draws from the exact joint conditional distribution", "statement": "The k-th value Simulate returns is m_k + sqrt(v_k) z_k where m_k, v_k are the conditional mean and variance of the process at the k-th smallest requested time given the measurements and the k-1 values already drawn, and z_k is the k-th standard normal draw.", "quantifier": "every data set, every list of distinct requested times away from noise-free data, every draw sequence", "why_tests_cant": "statistical tests only see samples", "anchors": ["src/include/kfilter.hpp: KalmanFilter::Simulate"]}
{"id": "C12", "title": "Simulate returns values in the order requested", "statement": "The i-th value returned by Simulate(times) belongs to times[i].", "quantifier": "every list of requested times", "why_tests_cant": "tests only ever pass increasing times", "anchors": ["src/include/kfilter.hpp: KalmanFilter::Simulate", "src/carmcmc/carma_pack.py: CarmaSample.simulate"]}
{"id": "C13", "title": "Predict and Simulate return finite numbers", "statement": "Predict(t) and every value of Simulate(times) are finite for every t and every times, repeated times and times of noise-free measurements included.", "quantifier": "every t and times", "why_tests_cant": "needs the boundary cases nobody lists", "anchors": ["src/kfilter.cpp: KalmanFilter1::Predict, InitializeCoefs", "src/include/kfilter.hpp: KalmanFilter::Simulate"]}
{"id": "C14", "title": "GetMean/GetVar describe the filtered series after any query", "statement": "After Filter(), calling Predict(t) does not change what GetMean() and GetVar() return.", "quantifier": "every data set and t", "why_tests_cant": "interaction of two calls", "anchors": ["src/kfilter.cpp: Predict, InitializeCoefs, UpdateCoefs", "src/include/kfilter.hpp: GetMeanSvec, GetVarSvec"]}
{"id": "C15", "title": "The filter is linear in the data and its variances ignore them", "statement": "Scaling y by c scales every predicted mean (Filter and Predict) by c; the variances do not depend on y; shifting all times (and t) by a constant changes nothing.", "quantifier": "every data set, c, shift", "why_tests_cant": "universally quantified algebraic law", "anchors": ["src/kfilter.cpp: KalmanFilter1::*"]}
{"id": "C16", "title": "Forecasts revert to the process mean", "statement": "As t goes to infinity Predict(t) tends to mean 0 and variance sigsqr/(2 omega); the forecast variance is non-decreasing in t.", "quantifier": "every data set", "why_tests_cant": "limit statement", "anchors": ["src/kfilter.cpp: KalmanFilter1::Predict"]}
{"id": "C17", "title": "KalmanFilterp.Filter computes the exact one-step predictions", "statement": "For p >= 2 distinct roots with negative real parts closed under conjugation and real MA coefficients, after Filter() GetMean()[i], GetVar()[i] are the best linear predictor of y[i] from y[0..i-1] and its mean squared error under the CARMA autocovariance CARp::Variance(roots, ma, sqrt(sigsqr), |ti-tj|) plus yerr_i^2 on the diagonal.", "quantifier": "every p, n, time grid, y, yerr, admissible roots and MA coefficients", "why_tests_cant": "tests check one model on one series", "anchors": ["src/kfilter.cpp: KalmanFilterp::Reset, Update", "src/carpack.cpp: CARp::Variance"]}
{"id": "C18", "title": "KalmanFilterp.Predict is the exact conditional distribution", "statement": "Under the hypotheses of C17, Predict(t) returns the best linear predictor of the noise-free CARMA process at t given all measurements and its mean squared error.", "quantifier": "every data set, t, admissible parameters", "why_tests_cant": "tests check three t values on one series", "anchors": ["src/kfilter.cpp: KalmanFilterp::Predict, InitializeCoefs, UpdateCoefs"]}
{"id": "C19", "title": "The first CARMA parameter is the standard deviation of the process", "statement": "With the driving-noise variance ExtractSigsqr(theta) = theta0^2/Variance(roots, ma, 1), the stationary variance used by KalmanFilterp (the variance of the first measurement before noise) is exactly theta0^2.", "quantifier": "every p, every distinct stable root set, every MA vector", "why_tests_cant": "an identity between two unrelated formulas, tested at one point only", "anchors": ["src/carpack.cpp: CARp::Variance", "src/include/carpack.hpp: ExtractSigsqr", "src/kfilter.cpp: KalmanFilterp::Reset"]}
{"id": "C20", "title": "KalmanFilterp rejects orders it cannot handle", "statement": "Filter() on a KalmanFilterp with a single AR root, or with more MA coefficients than roots, throws instead of computing numbers; with p >= 2, matching MA length and data it never throws except when the linear solve reports singularity.", "quantifier": "every state", "why_tests_cant": "error paths over all shapes", "anchors": ["src/kfilter.cpp: KalmanFilterp::Reset"]}
{"id": "C21", "title": "The AR parameterisation always gives a stationary real process", "statement": "For every theta, ARRoots(theta) has p roots, all with strictly negative real part, closed under complex conjugation with multiplicity, and prod (s - r) = prod (s^2 + exp(theta[4+2i]) s + exp(theta[3+2i])) times (s + exp(theta[p+2])) for odd p.", "quantifier": "every p and every real theta", "why_tests_cant": "tests sample thetas", "anchors": ["src/carpack.cpp: CARp::ARRoots"]}
{"id": "C22", "title": "polycoefs returns the polynomial of its roots", "statement": "polycoefs(r) returns n+1 numbers c with c_0 = 1 and sum_k c_k x^(n-k) = prod (x - r_i) whenever the roots are closed under conjugation (for arbitrary roots: the real parts of those coefficients).", "quantifier": "every n and roots", "why_tests_cant": "universal algebraic identity", "anchors": ["src/carpack.cpp: polycoefs"]}
{"id": "C23", "title": "The MA parameterisation is normalised and invertible", "statement": "For q < p, CARMA ExtractMA(theta) has length p, first entry 1, zeros after index q, strictly positive entries up to q, and its polynomial vanishes exactly at the roots built from theta; for q >= p it throws.", "quantifier": "every p, q, theta", "why_tests_cant": "universal", "anchors": ["src/carpack.cpp: CARMA::ExtractMA"]}
{"id": "C24", "title": "The z-transformed MA parameterisation is (1 + s/kappa)^(p-1) with bounded kappa", "statement": "ZCARMA ExtractMA(theta) are the coefficients of (1+s/kappa)^(p-1) for some kappa strictly between the two bounds; logit and inv_logit are mutually inverse.", "quantifier": "every p, theta, bounds 0<low<high", "why_tests_cant": "universal", "anchors": ["src/carpack.cpp: ZCARMA::ExtractMA, logit, inv_logit"]}
{"id": "C25", "title": "The ZCARMA log-prior is the change-of-variable density of a uniform kappa", "statement": "exp of the kappa part of ZCARMA LogPrior is the derivative of inv_logit, and the measurement-error part is the log density of a scaled inverse chi-square with 50 degrees of freedom up to a constant, maximal at 50/52.", "quantifier": "every theta", "why_tests_cant": "a calculus identity over all reals", "anchors": ["src/include/carpack.hpp: ZCARMA::LogPrior, CARMA_Base::LogPrior"]}
{"id": "C26", "title": "ZCAR uses its Belcher MA polynomial", "statement": "The log-density of a ZCAR(p) model is computed with the MA polynomial (1+s/kappa)^(p-1), kappa = 1/min(dt), and therefore in general differs from that of CAR(p).", "quantifier": "every data set and theta", "why_tests_cant": "tests compare ZCAR only with itself", "anchors": ["src/include/carpack.hpp: class ZCAR, CARp::ExtractMA"]}
{"id": "C27", "title": "Prior bounds are exactly the documented ones", "statement": "CARp CheckPriorBounds(theta) holds iff every centroid < max_freq, every width is strictly between min_freq and max_freq, 0 <= theta0 <= max_stdev, 0.5 <= theta1 <= 2, the centroids are non-increasing up to 1e-8 and every pair of roots differs fractionally by more than 1e-4; CAR1 CheckPriorBounds holds iff min_freq <= exp(theta3) <= max_freq and the same scalar bounds.", "quantifier": "every theta and data set", "why_tests_cant": "conjunction of boundary conditions over all reals", "anchors": ["src/carpack.cpp: CARp::CheckPriorBounds, CAR1::CheckPriorBounds"]}
{"id": "C28", "title": "unique_roots detects every nearly equal pair", "statement": "For tol > 0, unique_roots(r, tol) is true iff every pair i<j has |r_i - r_j| / |r_i + r_j| > tol.", "quantifier": "every root vector", "why_tests_cant": "all pairs", "anchors": ["src/carpack.cpp: unique_roots"]}
{"id": "C29", "title": "LogDensity is a function of theta alone", "statement": "getLogDensity(theta) on a CAR1/CARp/CARMA object returns the same value whatever calls (getLogDensity, starting values, MCMC steps, exchanges) were made before, for fixed data, prior and MLE flag.", "quantifier": "every history, every arithmetic", "why_tests_cant": "the object carries a mutable Kalman filter; histories are unbounded", "anchors": ["src/include/carpack.hpp: CARMA_Base::LogDensity"]}
{"id": "C30", "title": "LogDensity is the Gaussian log-likelihood plus the log-prior", "statement": "For theta inside the prior bounds with theta0 > 0, CAR1 getLogDensity(theta) - getLogPrior(theta) = sum_i -1/2 log v_i - 1/2 (y_i - mu - m_i)^2 / v_i with m_i, v_i the exact conditional mean and variance of y_i - mu given the earlier data with errors sqrt(theta1) yerr; it is -inf exactly when the bounds are violated.", "quantifier": "every data set and theta", "why_tests_cant": "exactness for all n", "anchors": ["src/include/carpack.hpp: CARMA_Base::LogDensity", "src/carpack.cpp: CAR1::CheckPriorBounds"]}
{"id": "C31", "title": "SetMLE(True) turns getLogDensity into the log-likelihood", "statement": "After SetMLE(True), getLogDensity(theta) contains no prior term.", "quantifier": "every theta and data set", "why_tests_cant": "tests never use SetMLE", "anchors": ["src/include/carpack.hpp: SetMLE, LogDensity, CheckPriorBounds", "src/carmcmc/carma_pack.py: _get_mle_single, CarmaSample.__init__"]}
{"id": "C32", "title": "Likelihood of unsorted data", "statement": "getLogDensity gives the same value for a permutation of the (time, y, yerr) records as for the sorted records.", "quantifier": "every data set and permutation", "why_tests_cant": "tests only use sorted data", "anchors": ["src/include/carpack.hpp: CARMA_Base::LogDensity, SetPrior", "src/include/kfilter.hpp: init, SetTimeSeries"]}
{"id": "C33", "title": "Recorded log-posteriors belong to recorded samples", "statement": "After a run, GetLogLikes()[i] = getLogDensity(getSamples()[i]) for every i, for the CAR(1) and for the parallel-tempering CARMA sampler.", "quantifier": "every data set, sample size, burn-in, thinning, number of temperatures, random generator and arithmetic", "why_tests_cant": "schedules and random streams are unbounded; exchanges move values between objects", "anchors": ["src/include/parameters.hpp: Parameter::Save, AddToSample", "src/steps.cpp: AdaptiveMetro::DoStep", "src/include/steps.hpp: ExchangeStep::DoStep", "src/samplers.cpp: Sampler::Run", "src/carmcmc.cpp: RunCarmaSampler, RunCar1Sampler"]}
{"id": "C34", "title": "Samples stay inside the prior", "statement": "If the starting log-posteriors are finite then every recorded sample has a finite log-posterior, hence satisfies the prior bounds.", "quantifier": "every run", "why_tests_cant": "random streams are unbounded", "anchors": ["src/steps.cpp: AdaptiveMetro::Accept", "src/include/steps.hpp: ExchangeStep::DoStep"]}
{"id": "C35", "title": "Sample bookkeeping", "statement": "A run records exactly sample_size samples, sample i being the state of the coolest chain after burnin + (i+1)*thin sweeps; no index is ever out of range.", "quantifier": "every sample_size, burnin, thin >= 0 and step list", "why_tests_cant": "unbounded loop counts", "anchors": ["src/samplers.cpp: Sampler::Run, Iterate, SaveValues", "src/include/parameters.hpp: SetSampleSize, AddToSample"]}
{"id": "C36", "title": "RAM Metropolis moves satisfy detailed balance", "statement": "An AdaptiveMetro proposal x -> y at temperature T is accepted exactly when u < a(x,y) with exp(l(x)/T) a(x,y) = exp(l(y)/T) a(y,x); the proposal is symmetric, so with a fixed proposal scale the tempered posterior is invariant.", "quantifier": "every pair of states with finite log-density, every T > 0, every u", "why_tests_cant": "probabilistic identity for all states", "anchors": ["src/steps.cpp: AdaptiveMetro::Accept, DoStep"]}
{"id": "C37", "title": "Rejected or non-finite proposals change nothing", "statement": "If a proposal has non-finite log-density ratio, or is rejected, the value and log-posterior of every chain are unchanged.", "quantifier": "every state and arithmetic", "why_tests_cant": "NaN and infinities in every position", "anchors": ["src/steps.cpp: AdaptiveMetro::Accept, DoStep", "src/include/steps.hpp: MetropStep::Accept, ExchangeStep::DoStep"]}
{"id": "C38", "title": "Exchange moves satisfy detailed balance and only permute", "statement": "An exchange between adjacent chains either leaves both chains alone or swaps exactly their values and log-posteriors (temperatures stay); it is accepted with a probability satisfying detailed balance for the product of tempered posteriors.", "quantifier": "every pair of chain states and temperatures", "why_tests_cant": "probabilistic identity for all states", "anchors": ["src/include/steps.hpp: ExchangeStep::DoStep"]}
{"id": "C39", "title": "Rank-one Cholesky update is exact", "statement": "CholUpdateR1(L, v, downdate) turns an upper triangular L with positive diagonal into an upper triangular L' with positive diagonal and L'^T L' = L^T L + v v^T (or - v v^T when that matrix is positive definite).", "quantifier": "every dimension, L and v", "why_tests_cant": "all dimensions", "anchors": ["src/steps.cpp: CholUpdateR1"]}
{"id": "C40", "title": "RAM adaptation is Vihola's update and keeps a valid proposal covariance", "statement": "After every adaptive step GetCovariance() equals S^T (I + eta (alpha - target) u u^T/|u|^2) S with eta = min(1, n / niter^(2/3)) and is positive definite, for every history with non-zero unit proposals and target in (0,1).", "quantifier": "every history of steps", "why_tests_cant": "unbounded histories; the downdate could fail at any step", "anchors": ["src/steps.cpp: AdaptiveMetro::DoStep, CholUpdateR1"]}
{"id": "C41", "title": "Adaptation stops after burn-in", "statement": "During the sampling phase of a run the proposal scale matrix of every chain never changes. Until then the adaptation follows its schedule: after k passes every chain's step has counted exactly k iterations, at most k of them accepted, with the target rate 1/4, the exponent 2/3 and the last adaptive iteration burnin unchanged.", "quantifier": "every run", "why_tests_cant": "unbounded histories", "anchors": ["src/steps.cpp: AdaptiveMetro::DoStep", "src/carmcmc.cpp: RunCar1Sampler, RunCarmaSampler"]}
{"id": "C42", "title": "The temperature ladder starts at 1", "statement": "With nwalkers chains the temperatures are strictly increasing from 1 (the recorded chain) to 100.", "quantifier": "every nwalkers >= 1", "why_tests_cant": "tests use nwalkers 2, 10, 13 and never look at the temperatures", "anchors": ["src/carmcmc.cpp: RunCarmaSampler", "src/carmcmc/carma_pack.py: CarmaModel.run_mcmc"]}
{"id": "C43", "title": "CAR(1) starting values satisfy the prior", "statement": "The CAR1 starting value lies inside the prior bounds, so the chain can move.", "quantifier": "every data set and random draw", "why_tests_cant": "tests use 100 regular points, for which the bad region of draws is tiny", "anchors": ["src/carpack.cpp: CAR1::StartingValue, CheckPriorBounds", "src/steps.cpp: AdaptiveMetro::Accept"]}
{"id": "C44", "title": "CARMA starting values have finite posterior", "statement": "CARp/CARMA/ZCARMA StartingValue returns only values with finite LogDensity; SetStartingValue(init) returns init iff init has the right length and finite LogDensity and otherwise a StartingValue.", "quantifier": "every data set, init and random stream", "why_tests_cant": "rejection loop over an unbounded stream", "anchors": ["src/carpack.cpp: CARp::StartingValue, SetStartingValue, CARMA::StartingValue, SetStartingValue, CAR1::SetStartingValue"]}
{"id": "C45", "title": "Stretch moves satisfy detailed balance", "statement": "The Goodman-Weare stretch proposal used with MetropStep draws z in [1/a, a] from a density with g(1/z) = z g(z), proposes a point on the line through the partner and is accepted with min(1, z^(n-1) pi(y)/pi(x)) unless the proposal is within 1e-10 of the current point; the partner is never the walker itself.", "quantifier": "every ensemble, walker, draw", "why_tests_cant": "probabilistic identity", "anchors": ["src/include/proposals.hpp: StretchProposal", "src/random.cpp: RandomGenerator::powerlaw", "src/include/steps.hpp: MetropStep::Accept"]}
{"id": "C46", "title": "Log-normal proposals carry the right Hastings correction", "statement": "The difference of LogNormalProposal::LogDensity values used by MetropStep equals the log ratio of the true log-normal proposal densities.", "quantifier": "every pair of positive values", "why_tests_cant": "identity over reals", "anchors": ["src/include/proposals.hpp: LogNormalProposal", "src/include/steps.hpp: MetropStep::Accept"]}
{"id": "C47", "title": "powerlaw draws follow the bounded power law", "statement": "For 0 < lower < upper, slope <> -1 and u in [0,1], powerlaw returns x in [lower, upper] with (x^(s+1) - lower^(s+1)) / (upper^(s+1) - lower^(s+1)) = u.", "quantifier": "every parameter and u", "why_tests_cant": "all reals", "anchors": ["src/random.cpp: RandomGenerator::powerlaw"]}
{"id": "C48", "title": "SetSeed makes runs reproducible", "statement": "Two runs started from the same seed give the same samples.", "quantifier": "every data set and seed", "why_tests_cant": "tests never fix a seed", "anchors": ["src/random.cpp: SetSeed", "src/carpack.cpp: CARp::StartingAR, CARMA::StartingMA"]}
{"id": "C49", "title": "getSamples is safe", "statement": "getSamples() returns exactly the recorded samples and never reads outside its storage.", "quantifier": "every run length including zero", "why_tests_cant": "tests never use zero samples", "anchors": ["src/include/carpack.hpp: CARMA_Base::getSamples"]}
{"id": "C50", "title": "Kalman quantities reported by a sampler object describe its current value", "statement": "After every MCMC step GetKalmanMean()/GetKalmanVar() are those of the filter run at Value().", "quantifier": "every history", "why_tests_cant": "only visible after a rejection or an exchange", "anchors": ["src/include/carpack.hpp: GetKalmanMean", "src/steps.cpp: AdaptiveMetro::DoStep", "src/include/steps.hpp: ExchangeStep::DoStep"]}
{"id": "C51", "title": "get_mle returns the best optimum found", "statement": "get_mle returns a trial whose objective is minimal among all trials with a finite objective.", "quantifier": "every list of optimiser results, NaN included", "why_tests_cant": "depends on the order of NaN results", "anchors": ["src/carmcmc/carma_pack.py: CarmaModel.get_mle"]}
{"id": "C52", "title": "choose_order minimises the AICc over the requested grid", "statement": "choose_order returns the first (p,q) of its list with minimal AICc, stores it in self.p, self.q, and searches exactly the pairs with p <= pmax and q <= min(qmax, p-1).", "quantifier": "every pmax, qmax, list of objectives", "why_tests_cant": "grid sizes unbounded, NaN values", "anchors": ["src/carmcmc/carma_pack.py: CarmaModel.choose_order"]}
{"id": "C53", "title": "Python and C++ agree on the derived parameters", "statement": "For the same theta, the AR roots, MA coefficients and driving-noise sigma computed in Python from the samples equal those the C++ likelihood used (sigma^2 = ExtractSigsqr).", "quantifier": "every p, q, theta", "why_tests_cant": "two independent implementations over all parameters", "anchors": ["src/carmcmc/carma_pack.py: CarmaSample._ar_roots, _ma_coefs, _sigma_noise", "src/carpack.cpp: ARRoots, ExtractMA, Variance"]}
{"id": "C54", "title": "power_spectrum is the CARMA power spectrum", "statement": "power_spectrum(f) = sigma^2 |beta(2 pi i f)|^2/|alpha(2 pi i f)|^2, is non-negative, even in f, and finite for stable roots.", "quantifier": "every f and coefficients", "why_tests_cant": "all reals", "anchors": ["src/carmcmc/carma_pack.py: power_spectrum"]}
{"id": "C55", "title": "carma_variance agrees with CARp::Variance and is insensitive to zero padding", "statement": "Python carma_variance(sigma^2, roots, ma, lag) equals C++ Variance(roots, ma, sigma, lag) for every MA vector not longer than the roots.", "quantifier": "every roots, ma, lag", "why_tests_cant": "two implementations", "anchors": ["src/carmcmc/carma_pack.py: carma_variance", "src/carpack.cpp: CARp::Variance"]}
{"id": "C56", "title": "car1_process simulates the exact CAR(1) covariance", "statement": "The series returned by car1_process is L z for the standard normal draws z with L L^T the CAR(1) covariance matrix of the time grid.", "quantifier": "every increasing time grid", "why_tests_cant": "statistical tests only", "anchors": ["src/carmcmc/carma_pack.py: car1_process"]}
{"id": "C57", "title": "carma_process simulates the exact CARMA covariance", "statement": "For p > 1 the series returned by carma_process is L z with L L^T the CARMA autocovariance matrix of the (sorted) time grid.", "quantifier": "every time grid and admissible parameters", "why_tests_cant": "statistical tests only", "anchors": ["src/carmcmc/carma_pack.py: carma_process"]}
{"id": "C58", "title": "get_ar_roots maps Lorentzians to stable roots", "statement": "get_ar_roots(width, centroid) with positive widths returns roots with negative real part closed under conjugation, one per real Lorentzian and a conjugate pair per oscillatory one.", "quantifier": "every list of widths and centroids", "why_tests_cant": "list lengths unbounded", "anchors": ["src/carmcmc/carma_pack.py: get_ar_roots"]}
{"id": "C59", "title": "predict uses the fitted measurement error scale", "statement": "The Kalman filter behind CarmaSample.predict/simulate/assess_fit uses the same measurement errors sqrt(measerr_scale)*ysig as the likelihood that produced the sample.", "quantifier": "every sample", "why_tests_cant": "needs comparison of two code paths", "anchors": ["src/carmcmc/carma_pack.py: CarmaSample.makeKalmanFilter, predict", "src/include/carpack.hpp: LogDensity"]}
{"id": "C60", "title": "The 'loglik' trace is the log-likelihood", "statement": "The 'loglik' entries of CarmaSample and Car1Sample are the log-likelihoods of the samples (log-posterior minus log-prior).", "quantifier": "every sample", "why_tests_cant": "tests never compare the two classes", "anchors": ["src/carmcmc/carma_pack.py: CarmaSample.__init__, Car1Sample.__init__", "src/include/carpack.hpp: SetMLE, LogDensity"]}
{"id": "C61", "title": "SetTime takes effect", "statement": "After SetTime(t) on a filter object, Filter() gives the results of a filter constructed with times t (same y, yerr and parameters).", "quantifier": "every filter object and every new time vector of the same length", "why_tests_cant": "the stale member is invisible in any single call that does not compare with a fresh object", "anchors": ["src/include/kfilter.hpp: KalmanFilter::SetTime, Filter", "src/kfilter.cpp: KalmanFilter1::Update"]}
{"id": "C62", "title": "KalmanFilter1 never fails after construction", "statement": "On a KalmanFilter1 built by its constructor every sequence of Filter, Predict, Simulate and setter calls (setters given vectors of the right length) completes: no exception, no out-of-range access.", "quantifier": "every call sequence of every length, every argument including NaN and infinities, every random stream", "why_tests_cant": "the set of call sequences is infinite", "anchors": ["src/include/kfilter.hpp: KalmanFilter::Filter, Simulate", "src/kfilter.cpp: KalmanFilter1::Reset, Update, Predict"]}
{"id": "C63", "title": "Data with repeated times can be evaluated", "statement": "For a data set with repeated observation times (which the filter reduces to distinct ones) LogDensity of parameters inside the prior bounds returns a number.", "quantifier": "every data set with a repeated time, every theta", "why_tests_cant": "the failure needs a comparison of sizes of two copies of the data inside two classes", "anchors": ["src/include/kfilter.hpp: KalmanFilter::init", "src/include/carpack.hpp: CARMA_Base::LogDensity"]}
{"id": "C64", "title": "CAR(1) runs complete", "statement": "RunCar1Sampler completes: no exception, no out-of-range access and no endless loop, for distinct times and non-constant data.", "quantifier": "every such data set, sample size, burn-in, thinning, initial value and random stream", "why_tests_cant": "the set of random streams is infinite", "anchors": ["src/carmcmc.cpp: RunCar1Sampler", "src/carpack.cpp: CAR1::StartingValue"]}
{"id": "C65", "title": "CARMA runs complete from an admissible initial value", "statement": "RunCarmaSampler completes when given an initial value inside the prior bounds; without one it completes, or keeps drawing starting values, or throws the runtime_error of a singular linear system.", "quantifier": "every such data set, p, q, number of walkers, sizes and random stream", "why_tests_cant": "the set of random streams is infinite", "anchors": ["src/carmcmc.cpp: RunCarmaSampler", "src/carpack.cpp: CARp::StartingValue, SetStartingValue"]}
{"id": "C66", "title": "The optimiser starts inside its box and the objective is finite there", "statement": "For data with at least three distinct times the box given to the optimiser by get_mle is not empty, the (clipped) starting point lies in it, and minus the log-likelihood is a finite number at every point of the box with distinct roots.", "quantifier": "every data set, order and uniform draw", "why_tests_cant": "a random start is different in each run", "anchors": ["src/carmcmc/carma_pack.py: CarmaModel.get_mle, _get_mle_single"]}
{"id": "C67", "title": "predict returns the conditional distribution at the best sample", "statement": "CarmaSample.predict and Car1Sample.predict with bestfit='map' return the mean and variance of the process at the requested times given all measurements, at the parameters of the sample with the largest log-posterior.", "quantifier": "every set of samples, data and requested times (in any order)", "why_tests_cant": "needs the conditional law, not a stored value", "anchors": ["src/carmcmc/carma_pack.py: CarmaSample.predict, makeKalmanFilter", "src/include/kfilter.hpp: KalmanFilter::Predict"]}
{"id": "C68", "title": "simulate draws from the conditional distribution at the best sample", "statement": "simulate(time, bestfit='map') returns, in the order of the requested times, a series built by drawing each value (in increasing time) from its distribution given the measurements and the values drawn before.", "quantifier": "every set of samples, data, distinct times and random stream", "why_tests_cant": "statistical tests only", "anchors": ["src/carmcmc/carma_pack.py: CarmaSample.simulate", "src/include/kfilter.hpp: KalmanFilter::Simulate"]}
{"id": "C69", "title": "assess_fit plots standardised innovations", "statement": "The standardised residuals of assess_fit are the one-step prediction errors divided by their standard deviations, at the sample with the largest log-posterior.", "quantifier": "every set of samples and data", "why_tests_cant": "needs the conditional law, not a stored value", "anchors": ["src/carmcmc/carma_pack.py: CarmaSample.assess_fit"]}
{"id": "C70", "title": "AICc counts the fitted parameters", "statement": "The AICc used by choose_order counts every number that the optimiser fits.", "quantifier": "every order", "why_tests_cant": "two functions far apart must agree", "anchors": ["src/carmcmc/carma_pack.py: CarmaModel.choose_order, _get_mle_single"]}
{"id": "C71", "title": "The 'mean' best fit has conjugate roots", "statement": "The AR roots of bestfit='mean' are closed under conjugation, so that they are roots of a real polynomial.", "quantifier": "every set of samples", "why_tests_cant": "needs a sample whose root types differ", "anchors": ["src/carmcmc/carma_pack.py: CarmaSample.makeKalmanFilter"]}
{"id": "C72", "title": "DIC is computed from the log-likelihood", "statement": "DIC() is mean deviance plus effective number of parameters, with deviance minus two times the log-likelihood.", "quantifier": "every set of samples", "why_tests_cant": "depends on C60", "anchors": ["src/carmcmc/carma_pack.py: CarmaSample.DIC"]}
{"id": "C73", "title": "From the data to the recorded posterior samples", "statement": "CarmaModel(time, y, ysig, p, q) keeps the measurements sorted and without repeated times, whatever the order given; run_mcmc on it returns (p = 1), or returns, raises a RuntimeError or keeps drawing starting values (p > 1); when it returns, each recorded sample with a finite log-posterior lies in the prior region computed from the kept data and its log-posterior is the multivariate normal log-density of the kept measurements under the CARMA process of the sample, plus the log-prior. Without nburnin half the samples (rounded down) are burn-in iterations, without ntemperatures there are p + q chains but at least ten.", "quantifier": "every real data set in any order and with repeats, every p, q < p, run sizes, initial value and random stream", "why_tests_cant": "crosses Python, the sampler and the filter; the set of data and random streams is infinite", "anchors": ["src/carmcmc/carma_pack.py: CarmaModel.__init__, run_mcmc", "src/carmcmc.cpp: RunCar1Sampler, RunCarmaSampler", "src/include/carpack.hpp: CARMA_Base::LogDensity"]}
{"id": "C74", "title": "The power spectrum is the Fourier transform of the autocovariance function", "statement": "power_spectrum(freq, sigma, ar_coefs, ma_coefs) with the coefficients of a set of stable roots is, at every frequency, the Fourier transform of carma_variance(sigma**2, ar_roots, ma_coefs, lag), and its integral over all frequencies is the variance of the process; likewise for the CAR(1) spectrum of Car1Sample.plot_power_spectrum.", "quantifier": "every stable set of distinct roots closed under conjugation, every MA polynomial with at most p coefficients, sigma, frequency", "why_tests_cant": "an improper integral at every frequency; a test can only integrate numerically", "anchors": ["src/carmcmc/carma_pack.py: power_spectrum, carma_variance, get_ar_roots", "src/carmcmc/carma_pack.py: Car1Sample.plot_power_spectrum"]}
{"id": "C75", "title": "KalmanFilterDeprecated: filter and predict are the exact conditional distributions", "statement": "For an object of KalmanFilterDeprecated with p >= 2 stable roots, filter() returns the mean and variance of each measurement given the earlier ones, and predict(t), for t after the first measurement, the mean and variance of the process given all measurements; both agree with the C++ class KalmanFilterp on the same data when its error bars are the square roots of the variances.", "quantifier": "every strictly increasing series, non-negative variances, stable roots, MA coefficients and t", "why_tests_cant": "needs the conditional law; the two implementations differ in their update order", "anchors": ["src/carmcmc/carma_pack.py: KalmanFilterDeprecated.__init__, reset, update, filter, predict", "src/kfilter.cpp: KalmanFilterp"]}
{"id": "C76", "title": "KalmanFilterDeprecated.simulate draws from the conditional law and puts the data back", "statement": "simulate(times) with distinct times after the first measurement draws each value, in increasing time, from its distribution given the measurements and the values drawn before, with one normal deviate each; the caller's array is sorted in place; whenever the call returns, the measured series of the object is the one before the call.", "quantifier": "every series, parameters, set of distinct times and random stream; the restoring also for floating point and any input", "why_tests_cant": "statistical tests only; the intermediate series is overwritten", "anchors": ["src/carmcmc/carma_pack.py: KalmanFilterDeprecated.simulate"]}
{"id": "C77", "title": "KalmanFilterDeprecated accepts what its documentation allows", "statement": "The class works for every order p >= 1 and every prediction time, and simulate leaves the object's data unchanged even when it raises.", "quantifier": "every order, time and requested array", "why_tests_cant": "the failures need particular orders or times; the object looks intact after the exception", "anchors": ["src/carmcmc/carma_pack.py: KalmanFilterDeprecated.__init__, reset, predict, simulate"]}
{"id": "C78", "title": "KalmanFilterDeprecated has no hidden state", "statement": "After any sequence of reset, filter, predict and simulate calls that returned, every method gives the same result as on a new object with the same arguments.", "quantifier": "every sequence of calls, every arithmetic", "why_tests_cant": "the set of call sequences is infinite", "anchors": ["src/carmcmc/carma_pack.py: KalmanFilterDeprecated"]}
{"id": "C79", "title": "In double precision the CAR(1) filter returns finite means and positive variances", "statement": "On IEEE doubles, KalmanFilter1 on finite sorted times with bounded measurements, positive error bars and positive omega returns from Filter() with finite means of bounded size and with finite variances that are positive and at least the rounded square of the error bar; the forecast for a time after the data is finite with a variance >= 0. Predict at any time, before, between or after the data, is finite with a positive variance unless that time follows a measurement by less than 2^-40 in units of 1/omega; closer than that Predict can return NaN. Without error bars the filter's variances can be NaN although the exact variances are positive.", "quantifier": "every series of any length and every parameter within the stated ranges of magnitude, every libm whose exp maps numbers <= 0 into [0,1]", "why_tests_cant": "rounding errors accumulate over the series; tests see a few series", "anchors": ["src/kfilter.cpp: KalmanFilter1::Reset, Update, Predict"]}
{"id": "C80", "title": "In double precision the CAR(1) log-density is a number", "statement": "On IEEE doubles, CAR1::LogDensity of a model built from data of ordinary magnitude returns at every finite theta, whatever was called before: a finite number if the prior check accepts theta, else minus infinity; never NaN, never plus infinity, no exception.", "quantifier": "every data set with strictly increasing times and positive error bars within the stated ranges, every theta, every history of the object", "why_tests_cant": "overflow, underflow and cancellation can occur at any length of the series", "anchors": ["src/include/carpack.hpp: CARMA_Base::LogDensity", "src/carpack.cpp: CAR1::CheckPriorBounds", "src/kfilter.cpp: KalmanFilter1"]}
{"id": "C81", "title": "add_mle stores the parameters of the maximum-likelihood model", "statement": "CarmaSample.add_mle(MLE) fills the dictionary mle with -MLE.fun as loglik and with the parameters of the CARMA model with the vector MLE.x: var, measerr_scale, mu, the roots, ar_coefs, ma_coefs and sigma that the C++ code uses for that vector, and the widths and centroids of the roots.", "quantifier": "every order p >= 2, q < p, every vector and objective value", "why_tests_cant": "the roots and coefficients are checked only against themselves by a unit test", "anchors": ["src/carmcmc/carma_pack.py: CarmaSample.add_mle"]}
{"id": "C82", "title": "plot_power_spectrum returns the credibility band of the power spectra of the samples", "statement": "The three arrays returned by plot_power_spectrum are, at each returned frequency, the lower percentile, the upper percentile and the median of the power spectra sigma^2 |beta(2 pi i f)|^2 / |alpha(2 pi i f)|^2 of the samples; lower <= median <= upper.", "quantifier": "every number of samples, parameter values, time series and percentile in [0,100], CarmaSample and Car1Sample", "why_tests_cant": "the band depends on all samples; a test cannot tell a percentile from a neighbouring order statistic", "anchors": ["src/carmcmc/carma_pack.py: CarmaSample.plot_power_spectrum, Car1Sample.plot_power_spectrum"]}
{"id": "C83", "title": "The frequency grid of plot_power_spectrum increases between the frequencies the data probe", "statement": "The 1000 returned frequencies increase strictly from one over the duration of the series to one over twice its smallest spacing.", "quantifier": "every strictly increasing series of two or more times", "why_tests_cant": "fails only for the shortest series", "anchors": ["src/carmcmc/carma_pack.py: CarmaSample.plot_power_spectrum, Car1Sample.plot_power_spectrum"]}
{"id": "C84", "title": "plot_power_spectrum: the documented arguments and return values", "statement": "nsamples=n uses n different samples spread over the chain and is rejected if there are fewer; this holds for both classes; without an axes object (sp=None) the axes are returned as the last element.", "quantifier": "every n, every number of samples", "why_tests_cant": "the selection for every n cannot be enumerated", "anchors": ["src/carmcmc/carma_pack.py: CarmaSample.plot_power_spectrum, Car1Sample.plot_power_spectrum"]}
{"id": "C85", "title": "Row i of every sample array belongs to sample i", "statement": "The constructed CarmaSample and Car1Sample have under each documented name an array with one row per MCMC sample, in the order of the chain: row i of ar_roots, ar_coefs, ma_coefs, sigma, psd_width, psd_centroid, var, mu, logpost, loglik is computed from row i of the trace. Samples given by a file are available under the name in the header.", "quantifier": "every number of samples, every order, every parameter values, every history of the sampler's model", "why_tests_cant": "alignment for all lengths and orders", "anchors": ["src/carmcmc/carma_pack.py: CarmaSample.__init__, generate_from_trace, _ar_roots, _ar_coefs, _ma_coefs, _sigma_noise, Car1Sample.__init__, generate_from_trace", "src/carmcmc/samplers.py: MCMCSample.__init__, generate_from_file, get_samples, newaxis"]}
{"id": "C86", "title": "posterior_summaries prints the summaries of the samples", "statement": "For a parameter with c columns posterior_summaries prints for each column the effective number of samples, the median, the standard deviation and the 68, 95 and 99 per cent intervals of that column, and the intervals are nested; for a one-dimensional array it prints one summary.", "quantifier": "every array and every result of acor", "why_tests_cant": "percentiles of arbitrary arrays", "anchors": ["src/carmcmc/samplers.py: MCMCSample.posterior_summaries, effective_samples, autocorr_timescale"]}
{"id": "C87", "title": "The best fits are what their names say", "statement": "makeKalmanFilter(bestfit): 'map' uses the parameters of the sample of the largest log-posterior, 'median' the medians, 'mean' the means, 'random' the parameters of one sample; the filter predicts with a valid process of these parameters; other names are rejected.", "quantifier": "every chain, series and prediction time", "why_tests_cant": "predictions look plausible for wrong parameters", "anchors": ["src/carmcmc/carma_pack.py: CarmaSample.makeKalmanFilter, Car1Sample.makeKalmanFilter"]}
{"id": "C88", "title": "assess_fit draws the fit, its standardised residuals and their autocorrelations", "statement": "assess_fit(bestfit) succeeds and draws: the conditional mean of the fitted process at the interpolation times with a band of one conditional standard deviation around it; the residuals of the one-step predictions divided by their standard deviations; the autocorrelations of these residuals and of their centred squares at the lags -50 .. 50, which are 1 at lag 0 and between -1 and 1; and the white-noise bound 1.96/sqrt(n).", "quantifier": "every series, sample and best fit whose parameters are those of a process, every number of plotted points", "why_tests_cant": "a plot cannot be checked by a unit test; the failure for short series depends on the length only", "anchors": ["src/carmcmc/carma_pack.py: CarmaSample.assess_fit"]}
{"id": "C89", "title": "The interpolation of assess_fit covers the data", "statement": "The times at which assess_fit interpolates are equally spaced, increasing, and lie between the first and the last measurement.", "quantifier": "every strictly increasing series, every number of points", "why_tests_cant": "fails only for an origin of time far from the data", "anchors": ["src/carmcmc/carma_pack.py: CarmaSample.assess_fit"]}
{"id": "C90", "title": "plot_autocorr draws the autocorrelation function of each parameter", "statement": "plot_autocorr(name) draws for each element of the parameter the autocorrelations of its sampled values minus their mean, at every lag, and marks its autocorrelation time.", "quantifier": "every array of samples, every result of acor", "why_tests_cant": "autocorrelations of arbitrary arrays", "anchors": ["src/carmcmc/samplers.py: MCMCSample.plot_autocorr"]}
{"id": "C91", "title": "The log-density does not depend on the origins or on the unit of the measurements", "statement": "Shifting all times, reversing time, adding a constant to all values and multiplying values and errors by a > 0 changes LogDensity by exactly -n log a, when the standard deviation and the mean in theta are expressed in the new units; infinite and undefined values stay the same.", "quantifier": "every data set, every theta inside or outside the prior, CAR(1), CAR(p), CARMA(p,q), ZCARMA(p), every a > 0, shift and origin, objects used in any way before", "why_tests_cant": "a test can try some shifts; a term that depends on the origin or on the unit shows up only for particular data", "anchors": ["src/include/carpack.hpp: CARMA_Base, LogDensity, CheckPriorBounds", "src/carpack.cpp: CARp::CheckPriorBounds", "src/kfilter.cpp: KalmanFilter1, KalmanFilterp"]}
{"id": "C92", "title": "The log-density does not depend on the unit of time", "statement": "Multiplying all times by k > 0 and expressing the autoregressive and moving average coefficients in theta in the new unit does not change LogDensity, for CAR(1) at every theta and for the other classes when the centroids in theta are in decreasing order (the check of this order has an absolute tolerance, so for unordered centroids acceptance can depend on the unit).", "quantifier": "every data set, every theta, every k > 0, the four classes", "why_tests_cant": "the prior bounds, the roots and the covariances scale differently; agreement at a few values of k proves nothing about the thresholds", "anchors": ["src/include/carpack.hpp: CARMA_Base, LogDensity, ZCARMA", "src/carpack.cpp: CAR1::CheckPriorBounds, CARp::CheckPriorBounds, ARRoots, ExtractMA"]}
{"id": "C93", "title": "The bounds of kappa are a range of frequencies the data can resolve", "statement": "The ZCARMA constructor sets kappa_low to the larger of 1/(time span) and 1/(10 median gap) and kappa_high to 1/(smallest gap); 0 < kappa_low <= kappa_high, with equality exactly for two measurements.", "quantifier": "every strictly increasing series of two or more times", "why_tests_cant": "the median is computed by sorting; all lengths of both parities", "anchors": ["src/include/carpack.hpp: ZCARMA"]}
{"id": "C94", "title": "The order of the factors only matters for the ordering constraint", "statement": "Listing the quadratic factors of the autoregressive polynomial in theta in another order does not change LogDensity unless it is rejected: arrangements whose centroids increase by more than the tolerance have log-density -infinity. No order is imposed on the moving average factors: all arrangements have the same log-density.", "quantifier": "every data set, every theta, every permutation of the factors, every order p and q", "why_tests_cant": "permutations of all orders cannot be enumerated", "anchors": ["src/carpack.cpp: CARp::CheckPriorBounds, ARRoots, CARMA::ExtractMA", "src/include/carpack.hpp: LogDensity"]}
{"id": "C95", "title": "The variates of RandomGenerator have the documented densities", "statement": "exp, gamma, chisqr, powerlaw, tdist, scaled_inverse_chisqr and invgamma turn a variate of the underlying boost distribution into one whose probability of every interval is the integral of the density in the comment above the method; beta, weibull and mtdist return variates too.", "quantifier": "every parameter value in the documented range, every interval", "why_tests_cant": "tests can only sample", "anchors": ["src/random.cpp: RandomGenerator::powerlaw, tdist, scaled_inverse_chisqr, invgamma, mtdist, beta, weibull"]}
{"id": "C96", "title": "The multivariate normal proposal has the covariance it was given", "statement": "RandGen.normal(covar) returns a linear image M z of independent standard normal numbers with M M^T = covar, so its log-density at the returned point is that of z up to a constant; MultiNormalProposal.Draw adds it to the current value; a move and its reverse have the same density, as its LogDensity = 0 says; a matrix that cannot be factored or a value of another size raises an error.", "quantifier": "every dimension, every positive definite matrix, every value and stream of normal numbers", "why_tests_cant": "sampling tests cannot tell R z from R^T z reliably; all dimensions", "anchors": ["src/random.cpp: RandomGenerator::normal(arma::mat)", "src/proposals.cpp: MultiNormalProposal::Draw"]}
{"id": "C97", "title": "RecoverSeed resumes the random stream", "statement": "After SaveSeed(file), any calls, and RecoverSeed(file), a sampler run gives what it would have given at the time of SaveSeed. SaveSeed changes no other file; a file that cannot be written or does not exist changes nothing.", "quantifier": "every state of the generators, every run", "why_tests_cant": "needs all states", "anchors": ["src/random.cpp: SaveSeed, RecoverSeed", "src/carmcmc.cpp"]}
{"id": "C98", "title": "Predictions do not depend on the units", "statement": "Expressing the measurements with times in another unit, from another origin or running backwards, and values and errors in another unit, and the parameters of the filter in these units, Predict returns the same mean and variance in the new units. When time is not reversed and the sign of the values is kept, Filter leaves the same means and variances in the new units, and Simulate, started from the same state of the random number generator, returns the same values in the new units. The filter and predict of the Python class KalmanFilterDeprecated do the same when time is not reversed. If a sample object is made from the same data and posterior samples with times and values in other units and from other zero points, then at the best sample its predict returns the same means and variances in these units, its simulate, started from the same state of the random number generator, returns the same values in these units, and the standardised residuals of assess_fit are the same numbers.", "quantifier": "every data set, every stable parameter set, every unit and origin, every prediction time and every list of distinct times to simulate at (none of them measured without error), every random number generator", "why_tests_cant": "the backward case runs through entirely different branches (forecasting becomes backcasting); rescaled floating point tests only show closeness at a few points", "anchors": ["src/kfilter.cpp: KalmanFilter1::Predict, KalmanFilterp::Predict", "src/kfilter.cpp: KalmanFilter::Filter, KalmanFilter::Simulate", "src/carmcmc/carma_pack.py: KalmanFilterDeprecated.filter, predict; CarmaSample.predict, Car1Sample.predict"]}
{"id": "C99", "title": "More or better data never make a prediction less certain", "statement": "If one filter object holds every measurement of another, with error bars that are no larger, and the parameters are equal, its predicted variance at any time is no larger, whatever the measured values. The same holds for the predict of KalmanFilterDeprecated at times after the first measurements of both objects.", "quantifier": "every pair of data sets related in this way, every stable parameter set, every prediction time", "why_tests_cant": "a statement about pairs of runs for all data sets; a violation could be confined to particular gaps", "anchors": ["src/kfilter.cpp: KalmanFilter1::Predict, KalmanFilterp::Predict", "src/carmcmc/carma_pack.py: KalmanFilterDeprecated.predict"]}
{"id": "C100", "title": "Predictions form continuous curves through the exact measurements", "statement": "The means and variances returned by Predict at all times lie on two continuous functions of time; at a time measured without error these take the measured value and the variance zero.", "quantifier": "every data set, every stable parameter set, every real time", "why_tests_cant": "continuity across the branches of Predict (forecast, interpolation, backcast) is a limit statement", "anchors": ["src/kfilter.cpp: KalmanFilter1::Predict, KalmanFilterp::Predict"]}
{"id": "C101", "title": "Orders with p <= q are rejected", "statement": "CarmaModel requires p > q: a model with p <= q is rejected and never produces samples.", "quantifier": "every p and q, every data set, every argument of run_mcmc, any arithmetic", "why_tests_cant": "all orders and all runs", "anchors": ["src/carmcmc/carma_pack.py: CarmaModel.__init__, run_mcmc", "src/carpack.cpp: CARMA::ExtractMA", "src/carmcmc.cpp: RunCarmaSampler"]}
{"id": "C102", "title": "mcmc_options_prompt returns the user's answers, and only usable ones", "statement": "Each question of mcmc_options_prompt is repeated until it is answered with a file that can be opened or a number that is large enough; the returned options are the last answers: sample size and thinning interval of at least one, burn-in of at least zero, one chain, a data file that can be read. RandGen is seeded with the seed typed, with the time for 0, and from seed.txt for 1 (with the time if there is none); Armadillo's generator is untouched.", "quantifier": "every sequence of answers, every file system, every content of the input stream", "why_tests_cant": "the loops accept any number of wrong answers; the options must be valid for every input stream", "anchors": ["src/samplers.cpp: mcmc_options_prompt, read_from_file, write_to_file"]}
{"id": "C103", "title": "A mistyped number is asked for again", "statement": "When an answer to mcmc_options_prompt is not a number, or is a number that does not fit in an int, the question is repeated.", "quantifier": "every dialogue, every mistyped word and every number out of range", "why_tests_cant": "non-termination cannot be observed by a test; all words", "anchors": ["src/samplers.cpp: mcmc_options_prompt"]}
{"id": "C104", "title": "mcmc_options_prompt leaves the data file alone", "statement": "The prompt only checks that the output file can be written; the data file is unchanged when it returns.", "quantifier": "every dialogue, every file system", "why_tests_cant": "the effect depends on the two names typed", "anchors": ["src/samplers.cpp: write_to_file, mcmc_options_prompt"]}
{"id": "C105", "title": "The plots of single parameters and of pairs show the sampled values", "statement": "plot_trace(name) draws the sampled values of every element of the parameter (their real parts if they are complex), plot_1dpdf(name) their histograms with 50 equal bins from the smallest to the largest value and total area one, plot_2dpdf(name1, name2, i1, i2) the pairs of values of the two chosen elements and their counts in 100 bins; every value is counted in exactly one bin.", "quantifier": "every array of samples, every pair of indices, any number of elements", "why_tests_cant": "a plot cannot be checked by a unit test; the counts must be right for every array, with values on the edges of bins", "anchors": ["src/carmcmc/samplers.py: MCMCSample.plot_trace, plot_1dpdf, plot_2dpdf"]}
{"id": "C106", "title": "plot_parameter shows the values, their histogram beside them and their autocorrelation", "statement": "plot_parameter(name, pindex) draws the values of the chosen element, bars beside them at the places of the bins whose lengths are proportional to the numbers of values in them, and the autocorrelations of the values minus their mean, up to five autocorrelation times.", "quantifier": "every array of samples, every index, every result of acor", "why_tests_cant": "the bars are slightly displaced in every plot; only a comparison with the bins of all arrays settles where they belong", "anchors": ["src/carmcmc/samplers.py: MCMCSample.plot_parameter", "src/carmcmc/carma_pack.py: CarmaSample.assess_fit"]}
{"id": "C107", "title": "The contours of plot_2dkde enclose 0.9973, 0.9545 and 0.6827 of the density", "statement": "The three contour levels of plot_2dkde are those at which the mesh points of no smaller density carry 0.9973, 0.9545 and 0.6827 of the summed density, in increasing order, and the contours are drawn.", "quantifier": "every pair of samples, every positive density estimate, every number of bins", "why_tests_cant": "the levels are found by bisection of a step function; whether it converges and whether the levels are distinct depends on all the densities", "anchors": ["src/carmcmc/samplers.py: MCMCSample.plot_2dkde"]}
{"id": "C108", "title": "A run starts from the first draw that lies in the prior region", "statement": "StartingValue of a CARp, CARMA, ZCAR or ZCARMA object draws candidates one after the other, from the generators as the previous candidate left them: centroids and widths log-uniform between the smallest and the largest frequency of the prior, centroids in descending order, the last width of an odd order log-uniform below the last centroid, moving average coordinates |normal| (CARMA) or kappa uniform between its bounds (ZCARMA), standard deviation, mean and measurement error scale from their data-driven distributions. It returns the first candidate in the prior region, and so every run starts.", "quantifier": "every light curve, order, state of the generators, number of rejected draws", "why_tests_cant": "the number of passes is unbounded and depends on the random draws; a loop which repeats one draw, or never accepts, looks like a slow start", "anchors": ["src/carpack.cpp: CARp::StartingValue, CARp::StartingAR, CARMA::StartingValue, CARMA::StartingMA, ZCARMA::StartingValue, ZCARMA::StartingKappa", "src/steps.cpp: Sampler::Run"]}
{"id": "C109", "title": "The sampler accepts every data set whose values are not all equal", "statement": "run_mcmc bounds the total standard deviation by ten times the standard deviation of the measured values and starts its proposals from their variance; in double precision these are the population values up to rounding, so every data set of moderate size whose values differ can be sampled.", "quantifier": "every list of finite doubles up to 2^450 in size, every order and setting, any libm", "why_tests_cant": "the rounding error of the two sums depends on all the values; the failure needs data with a large offset", "anchors": ["src/carmcmc.cpp: RunCar1Sampler, RunCarmaSampler (the variance of the measured values, prop_covar)", "src/steps.cpp: AdaptiveMetro::AdaptiveMetro", "src/include/carpack.hpp: SetPrior"]}
{"id": "C110", "title": "One more measurement adds the log-density of its prediction", "statement": "Leave one measurement out of a light curve: wherever both log-densities are not -inf, getLogDensity of the full curve equals getLogDensity of the curve without it plus the logarithm of the normal density of the left-out value with mean theta[2] + Predict's mean and variance Predict's variance + theta[1] * yerr^2, the prediction being made at its time from the remaining measurements.", "quantifier": "every light curve of at least three points, every position of the left-out measurement (first, last or in between), every parameter vector with theta[0] != 0, CAR(1), CAR(p), CARMA(p,q) and ZCARMA(p)", "why_tests_cant": "ties three separately coded recursions (filter, interpolation, density) for every series and every position; a sign or off-by-one in one branch shows only at some positions", "anchors": ["src/include/carpack.hpp: CARMA_Base::LogDensity", "src/kfilter.cpp: KalmanFilter1::Predict, KalmanFilterp::Predict, InitializeCoefs, UpdateCoefs"]}
{"id": "C111", "title": "Predictions become less certain further from the data", "statement": "Moving the predicted time further away from the measurements, after the last or before the first one, never lowers the predicted variance and never moves the predicted mean away from zero.", "quantifier": "every light curve, every pair of times outside it, every parameter value", "why_tests_cant": "holds for every CAR(1) process and fails for some oscillating CAR(2) processes, so examples prove neither", "anchors": ["src/kfilter.cpp: KalmanFilter1::Predict, KalmanFilterp::Predict"]}
{"id": "C112", "title": "Thinning and the number of samples only select from one chain", "statement": "With the same data, settings, burn-in, starting value and states of the generators, run_mcmc_carma/run_mcmc_car1 with N samples at thinning k and with N' samples at thinning k' follow one chain: sample i of the one and sample i' of the other, with their log-posteriors, are equal whenever (i+1)*k = (i'+1)*k'. If the run making more passes returns, so does the other; with the same number of passes the final state of the chain and of the generators are equal too.", "quantifier": "every N, k, N', k', light curve, order, number of walkers, burn-in, starting vector and generator state; any arithmetic, doubles included", "why_tests_cant": "relates pairs of runs; a step whose counters or report interval (which depend on N*k) leak into the chain, a sample stored one pass early or an extra draw per stored sample changes the chain only for some settings", "anchors": ["src/samplers.cpp: Sampler::Run, Sampler::Iterate, Sampler::SaveValues", "src/include/steps.hpp: ExchangeStep::DoStep", "src/carmcmc.cpp: RunCar1Sampler, RunCarmaSampler"]}
{"id": "C113", "title": "A run does not depend on the origin or direction of time nor on the zero point of the values", "statement": "With the same settings and states of the generators, run_mcmc_carma/run_mcmc_car1 on a light curve whose times are moved by s (or replaced by s - t, in increasing order) and whose values are moved by c, from a starting vector whose mean is moved by c, returns whenever the run on the original light curve does; its samples are those of the original run with c added to the mean, its log-posteriors are the same, and it leaves the generators in the same state.", "quantifier": "every light curve with distinct values, increasing times and matching lengths, every s, c and direction, order, number of walkers, burn-in, thinning, starting vector and generator state; exact arithmetic", "why_tests_cant": "relates two whole runs of any length: one draw, bound, proposal covariance, filter update or starting value that depends on an absolute time or an absolute value makes the chains part, possibly after many steps", "anchors": ["src/carmcmc.cpp: RunCar1Sampler, RunCarmaSampler", "src/carpack.cpp: CAR1::StartingValue, CARp::StartingValue, CARp::StartingAR, CARMA::StartingValue, SetStartingValue", "src/include/carpack.hpp: CARMA_Base::LogDensity", "src/samplers.cpp: Sampler::Run"]}
{"id": "C114", "title": "The order in which the measurements are given does not matter", "statement": "CarmaModel(time, y, ysig, p, q) built from the same measurements in another order is the same object, if no two times are equal, so every fit, prediction and sample computed from it is the same. With two measurements at one time this is false: exchanging them changes which of the two is kept.", "quantifier": "every list of measurements with distinct times (values and error bars arbitrary, NaN included), every permutation of it and every valid sorting routine; the refutation for every valid sorting routine", "why_tests_cant": "a claim about all permutations of data of any size and all sorting routines; an index applied twice, or applied to one of the three arrays only, goes unnoticed on data that are already sorted", "anchors": ["src/carmcmc/carma_pack.py: CarmaModel.__init__"]}
{"id": "C115", "title": "The whole-number arguments of a run", "statement": "run_mcmc_car1 and run_mcmc_carma behave, for every int sample_size, burnin, thin and nwalkers, as the run with exact counts: no int overflows, a negative burnin or thin acts as 0, and a negative sample_size or nwalkers raises an error. This is false in general: it holds when thin*sample_size and burnin + thin*sample_size fit in an int; beyond that, and without walkers, the behaviour is undefined.", "quantifier": "all ints sample_size, burnin, thin, nwalkers; all data, orders, starting values, generators and arithmetics", "why_tests_cant": "overflow shows after more than 2^31 passes or not at all; all combinations of four ints", "anchors": ["src/carmcmc.cpp: RunCar1Sampler, RunCarmaSampler", "src/samplers.cpp: Sampler::Run, Sampler::Iterate", "src/steps.cpp: AdaptiveMetro", "src/include/steps.hpp: ExchangeStep", "src/include/parameters.hpp: SetSampleSize"]}
{"id": "C116", "title": "A run does not depend on the unit of time", "statement": "Multiply every time by k > 0 and give the starting vector in the new unit (the characteristic rates divided by k). run_mcmc_car1, and run_mcmc_carma with p = 2 or 3, then return the samples of the run in the old unit, converted to the new one, with the same log-posteriors, and leave the generators in the same state. The same holds without a starting vector for run_mcmc_car1 and for the CAR(p) and ZCAR models of order 2 or 3. It is false for the default start of a CARMA(p,q) model with q > 0: StartingValue() converts the autoregressive coordinates but draws the same numbers for the moving average coordinates in every unit.", "quantifier": "every k > 0, every light curve with increasing times and values that are not all equal, every starting vector inside the prior with a standard deviation that is not zero, all numbers of samples, burn-in, thinning and walkers, all generators and valid numerical routines", "why_tests_cant": "a claim about whole runs for all generators and all units; a bound on a rate or a proposal width that is not converted changes the samples only where the sampler happens to meet it", "anchors": ["src/carmcmc.cpp: RunCar1Sampler, RunCarmaSampler", "src/samplers.cpp: Sampler::Run", "src/carpack.cpp: CARp::CheckPriorBounds, CARp::LogDensity", "src/include/carpack.hpp: CARMA_Base::SetPrior"]}
{"id": "C117", "title": "The tempered posteriors are stationary under the steps of the sampler, as integrals", "statement": "If the value of a chain has the tempered posterior exp(LogDensity/T) as its law, the expectation of any function f of the value is the same after a step of AdaptiveMetro with a given proposal scale, the unit proposal having independent Student t (8 degrees of freedom) components; the same for a stretch move whose scale has the density proportional to 1/sqrt(z) on [1/a, a]; and the expectation of any function of the values of two chains with the product of their tempered posteriors as joint law is the same after an ExchangeStep. Expectations are iterated improper integrals over the values and the random numbers; the densities of the random numbers integrate to one.", "quantifier": "every dimension, log-density (finite or not at each point), proposal scale, temperature > 0, function f whose expectations before and after the step exist", "why_tests_cant": "a claim about integrals over all states and random numbers; a test sees finitely many draws and cannot tell a slightly wrong acceptance ratio from noise", "anchors": ["src/include/steps.hpp: AdaptiveMetro::DoStep, ExchangeStep::DoStep", "src/include/proposals.hpp: StudentProposal::Draw, StretchProposal", "src/samplers.cpp: Sampler::Run"]}
{"id": "C118", "title": "The first trial move of a CAR(1) run, and its dependence on the unit of the measured values", "statement": "run_mcmc_car1 from a start (s, k, m, log w) in the prior's range, with one sample and no burn-in, records either the start or the trial (s + sqrt(2/n) var(y) u0, k + u1/100, m + sqrt(var(y)/n) u2, log w + u3/100), where u0..u3 are its t variates, and the trial only if it is in the range. The standard deviation is therefore moved in proportion to the square of the unit of the values (the code uses 2 var^2/n, the variance of a variance, for a parameter which is a standard deviation): expressing the same data in another unit changes the samples by more than the unit. For all data, starts and factors c > 0 other than 1 there is a generator for which the run on c*y, c*yerr from (c s, k, c m, log w) does not return c times the standard deviation of the first run.", "quantifier": "all increasing times, values not all equal, error bars, starts in the prior's range with s > 0, t and uniform variates; all c > 0 other than 1", "why_tests_cant": "a test in one unit passes; the dependence shows only when runs on the same data in two units are compared, for every generator state", "anchors": ["src/carmcmc.cpp: RunCar1Sampler (prop_covar)", "src/include/steps.hpp: AdaptiveMetro::DoStep"]}
{"id": "C119", "title": "The filter objects constructed from the data alone", "statement": "KalmanFilter1(time, y, yerr) and KalmanFilterp(time, y, yerr) keep the same data and raise the same errors as the constructors with parameters, and GetMean() and GetVar() are zero before the first call. What their methods return is not determined by the arguments, though: KalmanFilter1 computes with uninitialised sigma^2 and omega (the Python interface has no setter), so that for any data the first variance after Filter() can be any number above the squared error bar; KalmanFilterp raises an error on every Filter, Predict and Simulate of one time or more.", "quantifier": "all data, all contents of the uninitialised memory, all arithmetics (the refutation: all data with increasing times, exact arithmetic)", "why_tests_cant": "a test sees the memory contents of its own process; uninitialised members often happen to be zero", "anchors": ["src/include/kfilter.hpp: KalmanFilter1 and KalmanFilterp constructors", "src/kfilter.cpp: KalmanFilter1::Reset, KalmanFilterp::Reset", "src/boost_python_wrapper.cpp: class_<KalmanFilter1>, class_<KalmanFilterp>"]}
{"id": "C120", "title": "The filters see the parameters through the power spectrum alone", "statement": "Two filter objects over the same measurements whose parameters have the same power_spectrum at all frequencies return the same Filter means and variances, the same predictions and, with the same random numbers, the same simulated values, also when they are of different orders or classes (KalmanFilter1 and KalmanFilterp). Conversely filters that agree on two exact measurements at every separation have the same power spectrum. The parameters themselves are not determined: moving average coefficients 1, 1 and 1, -1 cannot be told apart, nor a CARMA(2,1) whose moving average polynomial cancels a root from a CAR(1). For CAR(1) sigma and log_omega are determined.", "quantifier": "all data with increasing times, all orders, all admissible parameters (distinct conjugate-closed roots in the left half plane, sigma non-zero), all prediction times, all streams of random numbers", "why_tests_cant": "a test compares two parameter values at a few frequencies and times; that equal spectra force equal answers for all data is a uniqueness theorem about Fourier transforms", "anchors": ["src/kfilter.cpp: KalmanFilter1, KalmanFilterp Reset, Update, Predict", "src/include/kfilter.hpp: KalmanFilter::Filter, Simulate", "src/carmcmc/carma_pack.py: power_spectrum, get_ar_roots, CarSample1.plot_power_spectrum"]}
{"id": "C121", "title": "No point of the prior region is out of reach of the sampler", "statement": "At every RAM step of run_mcmc_car1 and run_mcmc_carma, for every chain of the ladder, from whatever state the run has come to: every parameter vector with a finite log-density (in particular every point of the prior region with a non-zero standard deviation) is proposed by exactly one vector of trial numbers and is then accepted with a positive probability, the Metropolis probability at the chain's temperature; with those trial numbers the step ends at that parameter if the uniform number is below that probability and stays where it was otherwise. The chains therefore cannot be trapped in a part of the prior region, at any stage of the adaptation.", "quantifier": "all data with increasing times and non-constant values, all orders (odd p needs three measurements), all numbers of walkers, burn-in, thinning and sample sizes, all random generators whose trial numbers are not all zero, all states of the run, all target parameter vectors", "why_tests_cant": "a test sees a chain visit some region; that no target in the continuum is excluded in any reachable state, after any adaptation, is a statement about all states and all targets", "anchors": ["src/include/steps.hpp: AdaptiveMetro::DoStep, Accept", "src/include/proposals.hpp: StudentProposal", "src/carmcmc.cpp: RunCar1Sampler, RunCarmaSampler", "src/include/carpack.hpp: LogDensity"]}
{"id": "C122", "title": "The posterior is proper in the mean, the scales and the autoregressive parameters, and not in the moving average parameters", "statement": "With non-zero error bars, getLogDensity of an object made by CAR1, CARp or CARMA lies, at every point of the prior region, between two explicit functions of the data, the standard deviation, the error scale and the mean. The upper one is a constant minus a quadratic in the mean, the same for the whole region; together with the bounds the prior puts on the standard deviation, the error scale and the autoregressive parameters this makes the density without moving average terms integrable. The same holds for ZCARMA, whose one moving average parameter has the derivative of the logistic function as prior. For CARMA(p,q) with q >= 1 the claim is false: along every moving average parameter the density stays above a positive constant, so it has an infinite integral and the sampler has no stationary probability distribution in those parameters.", "quantifier": "all data with increasing times and non-zero error bars, all orders p and q < p, all parameters of the prior region with non-zero standard deviation, all previous evaluations of the object", "why_tests_cant": "a run of any length stays in a bounded region; whether the density has a finite integral over an unbounded region cannot be seen from finitely many evaluations", "anchors": ["src/include/carpack.hpp: CARMA_Base::LogDensity, CheckPriorBounds, LogPrior", "src/carpack.cpp: CARMA::ExtractMA, CARp::CheckPriorBounds", "src/include/kfilter.hpp: Filter"]}
{"id": "C123", "title": "The effect of one measurement on a prediction, and of a large error bar", "statement": "Predict, as a function of one measurement and its error bar, is a rank-one correction of the prediction from the other measurements: there is one number c, not depending on the measured value Y or its error bar E and with c^2 at most the product of the two variances, such that the mean moves by c (Y - m) / (v + E^2) and the variance falls by c^2 / (v + E^2), where m and v are what the others predict for the measurement. So a measurement whose error bar grows without bound leaves every prediction, and up to its own normalisation the log-density, as they are without it. On doubles the CAR(1) filter breaks this: after an infinite error bar all means and variances are NaN, and with error bars from 2^27 times the standard deviation of the process on Filter takes the process as known exactly at that time and reports about half the exact variance for a measurement shortly after.", "quantifier": "all measurements at increasing times, all positions of the measurement, all values and error bars of it, all prediction times, all CAR(1) parameters and all CARMA models with distinct stable roots; for the doubles every CAR(1) filter with an infinite error bar, and every error bar 2^j with 27 <= j <= 500", "why_tests_cant": "error bars are used to mask bad measurements; that the result does not depend on the masked value is a limit over all values and error bars, and the failure on doubles shows up as a plausible number, not as an error", "anchors": ["src/kfilter.cpp: KalmanFilter1::Update, Predict, KalmanFilterp::Predict", "src/include/carpack.hpp: CARMA_Base::LogDensity"]}
{"id": "C124", "title": "The acceptance rates that a run prints", "statement": "A CARMA run with nw chains, N >= 1 samples at thinning >= 1 prints the number of steps (2 nw - 1), one tracked parameter, the source and the value of the first start, then, at the last pass of the burn-in, for each chain from the hottest to the coolest the fraction of its moves accepted by the Metropolis rule during the burn-in, then 'Sampling...' and, at the last pass, for each pair of neighbouring chains from the hottest on the fraction of exchanges accepted in the whole run, burn-in included. Nothing else is printed; in particular no rate of the moves made while sampling, and no rates of moves if there is no burn-in. A CAR(1) run prints one rate, at the end of the burn-in. A MetropStep prints in a call exactly when its report interval k > 0 divides the number of calls, and then the fraction accepted of the last k. The printed rates are between 0 and 1, and the output does not change the run.", "quantifier": "all data, settings, starting values, random streams and numbers of chains, over any arithmetic, and all executions which return", "why_tests_cant": "the rates are what a user judges the sampler by; which passes and which chain a printed number refers to is a matter of counters over the whole run, and a test sees only that some number appears", "anchors": ["src/steps.cpp: AdaptiveMetro::DoStep", "src/include/steps.hpp: ExchangeStep::DoStep, ExchangeStep::Report, MetropStep::DoStep, MetropStep::Report", "src/samplers.cpp: Sampler::Run, Sampler::Iterate", "src/carmcmc.cpp: RunCarmaSampler, RunCar1Sampler"]}
{"id": "C125", "title": "Rounding error of the CAR(1) filter", "statement": "On IEEE doubles rounded to nearest, for at most 2^40 sorted times, measurements of size at most 2^k, error bars between emin and emax (within 2^-200 .. 2^200), sigma^2 in (0, 2^500] and omega in [2^-200, 2^200], the i-th (counting from 0) one-step variance computed by KalmanFilter1::Filter differs from the exact conditional variance of the i-th measurement given the earlier ones by at most 256 (i+1) 2^-53 W, and the i-th mean from the exact conditional mean by at most 4096 i^2 2^-53 (W/emin^2) 2^k, where W = sigma^2/(2 omega) + emax^2. The same bounds, with i the number of data, hold for the mean and variance Predict returns at a time after the last measurement.", "quantifier": "all data, parameters and series lengths in the ranges, and all exp functions that at numbers <= 0 lie in [0,1] and are off by at most 2^-53", "why_tests_cant": "rounding errors enter every step of the recursion and are passed on to all later ones; a test compares two floating point programs on a few series and cannot show that the errors add up rather than grow", "anchors": ["src/kfilter.cpp: KalmanFilter1::Reset, KalmanFilter1::Update, KalmanFilter1::Predict", "src/include/kfilter.hpp: KalmanFilter::Filter"]}
{"id": "C126", "title": "Rounding error of the CAR(1) log-density", "statement": "On IEEE doubles rounded to nearest, for a CAR1 object made from n <= 2^40 measurements (times and values of size at most 2^100, gaps and error bars at least 2^-100), whatever has been done to it since, and any parameters (sd, scale, mu, log omega) with sd > 0 that its prior check accepts, LogDensity returns a number which differs from the exact logarithm of the normal density of the measurements (without the constant -(n/2) log(2 pi)) plus the exact log-prior by at most 2^17 n^3 2^-53 (sd^2 + scale emax^2)/(scale emin^2) (1 + 4^k/(scale emin^2)), where the error bars are between emin and emax and the measured values and mu are at most 2^k in size.", "quantifier": "all data, accepted parameters, series lengths and call histories in the ranges, and all exp and log with the stated accuracy (among them correctly rounded ones)", "why_tests_cant": "the sampler compares log-densities; a test compares two floating point programs on a few series, with a tolerance chosen to make it pass, and cannot bound the difference from the exact posterior for all data and parameters", "anchors": ["src/include/carpack.hpp: CARMA_Base::LogDensity, CARMA_Base::LogPrior, CAR1::ExtractAR", "src/kfilter.cpp: KalmanFilter1::Reset, KalmanFilter1::Update"]}
{"id": "C127", "title": "The Metropolis decisions of a CAR(1) run in double precision", "statement": "On IEEE doubles rounded to nearest, in the setting of C126, with a CAR1 object of a run whose recorded log-posterior is the LogDensity of its value and a proposal, both in the prior region: AdaptiveMetro::Accept takes one uniform variate and accepts if it is less than a number alpha in [0,1] that differs from the exact acceptance probability min(1, posterior(proposal)/posterior(value)) by at most the sum of the two bounds of C126 and 2^-49. So the decision is that of exact arithmetic unless the variate is that close to the exact probability, and the same alpha drives the adaptation. A proposal outside the prior region is rejected without using a variate, with alpha = 0. In every completed CAR(1) run whose starting value has a finite log-posterior, every sweep is one such decision about one proposal and the log-posterior stays finite.", "quantifier": "all data, values, proposals, call histories and uniform variates in the ranges of C126, all states of the proposal, all generators, and all exp and log with the stated accuracy (among them correctly rounded ones)", "why_tests_cant": "the chain on doubles is not the chain of the theory; how often a rounding error can change a decision is a bound over all data and parameters that a finite number of runs cannot give", "anchors": ["src/steps.cpp: AdaptiveMetro::Accept", "src/include/carpack.hpp: CARMA_Base::LogDensity"]}
{"id": "C128", "title": "The zero level of the measurements and the start of a run in double precision", "statement": "RunCar1Sampler and RunCarmaSampler compute the variance of the measurements as mean square minus squared mean; from it they make the upper prior bound of the standard deviation and the initial proposal covariance. On IEEE doubles its error is at most (3n+15) 2^-53 4^k for n measurements of magnitude at most 2^k. If the population variance is at least twice that, a CAR(1) run completes for all sizes, starting values and random numbers. If the computed variance is not positive, RunCar1Sampler throws and RunCarmaSampler does not return. So whether a run is made depends on the zero level of the measurements: the claim that adding a constant changes nothing is false, 0, 1, 0, 1 being accepted and 2^30, 2^30+1, 2^30, 2^30+1 not, with the same variance 1/4 and every number an exact double.", "quantifier": "all measurements, times and error bars in the stated ranges, all numbers of measurements below 2^50, all sizes, init vectors, generators, all exp, log, sin, cos, pow, all Cholesky factorizations that fail unless the diagonal is positive and succeed on positive diagonal matrices", "why_tests_cant": "cancellation depends on the ratio of offset to scatter; tests use data near zero, and in exact arithmetic (C64) two different measurements suffice", "anchors": ["src/carmcmc.cpp: RunCar1Sampler", "src/carmcmc.cpp: RunCarmaSampler", "src/steps.cpp: AdaptiveMetro::AdaptiveMetro"]}
{"id": "C129", "title": "Samples loaded from a file", "statement": "CarmaSample.generate_from_file and Car1Sample.generate_from_file with a list whose first element names a file of at least two samples, the parameter vector and then the log-posterior on each line, make var, measerr_scale, mu, quad_coefs (log_omega) and logpost those of the file, sample by sample, and leave every other array as it was. A plain MCMCSample stores each file of the list under its first line, newline included, unless that name is taken. Not true are: that the documented argument, the name of the file, works (a string opens the file named by its first letter); that a file with one sample can be loaded (it raises); that the later files of the list are read; that the derived arrays (sigma, ar_roots, ..., loglik) then belong to the loaded samples.", "quantifier": "every arithmetic, every number of samples from two, every order, every contents of the object and of the files", "why_tests_cant": "alignment for all files and all earlier contents of the object; a test would load one file", "anchors": ["src/carmcmc/samplers.py: MCMCSample.generate_from_file", "src/carmcmc/carma_pack.py: CarmaSample.generate_from_file, generate_from_trace, set_logpost, Car1Sample.generate_from_trace"]}
{"id": "C130", "title": "Integer times in carma_process and KalmanFilterDeprecated", "statement": "carma_process given its times as an integer array (np.arange) and two or more roots returns whole numbers: each value is the whole part of a draw from the conditional law given the values returned before it; if every number drawn is smaller in absolute value than one over the standard deviation of the process, the whole series is 0. Not true of any such input is that the series has the covariance of the process (true of the same times given as floats, C57). With one root the series is right. KalmanFilterDeprecated.filter on integer times, if it returns, returns whole means and variances, the first variance being the whole part of the right one; it raises if the variances of the process and of the first measurement add up to less than 1, and then so does predict for every time (after a single measurement it returns numbers that are not finite instead). If they add up to x, at least 1, predict after one measurement returns the right mean times f and a variance of the process reduced by f times the right reduction, f being x over its whole part (between 1 and 2): the variance is never too large, and for all roots and coefficients there is a noise variance for which it is negative at every time soon after the measurement.", "quantifier": "all integer times (distinct), all stable roots, moving average coefficients and variances, all numbers drawn, exact arithmetic", "why_tests_cant": "the type of the caller's array changes the law of the result for all inputs; a test that uses float times, or looks at one random series, does not see it", "anchors": ["src/carmcmc/carma_pack.py: carma_process (L1232), car1_process (L1137), KalmanFilterDeprecated.reset, update, filter (L1329-1330), predict (L1377-1488)"]}
{"id": "C131", "title": "Metropolis steps with the fixed proposals leave the posterior unchanged", "statement": "A MetropStep whose proposal is a NormalProposal, StudentProposal, LogNormalProposal (positive parameter) or MultiNormalProposal, on a parameter whose law is its tempered posterior, leaves that law unchanged: the expectation of every function of the parameter is the same after the step as before it.", "quantifier": "every log-density, temperature, proposal width or covariance matrix with a Cholesky root, every function with the two integrals, every dimension; integrals over the parameter, the variates of the proposal and the uniform number of the decision", "why_tests_cant": "a statement about integrals; a missing or inverted Jacobian in the log-normal case biases every chain but no single step looks wrong", "anchors": ["src/include/steps.hpp: MetropStep (L119-186)", "src/include/proposals.hpp: NormalProposal, StudentProposal, MultiNormalProposal, LogNormalProposal", "src/proposals.cpp: Draw", "src/random.cpp: normal, lognormal, tdist"]}
{"id": "C132", "title": "The adaptation of the proposals fades", "statement": "While AdaptiveMetro adapts, one step with acceptance probability alpha changes the proposal variance of every combination of the n parameters towards the target rate: it never falls when alpha is at least the target and never rises when it is at most the target, and it changes by a factor within w_k |alpha - target| of one, w_k = min(1, n / k^(2/3)) at iteration k. Hence in every run of RunCarmaSampler and RunCar1Sampler and after any number k of passes the proposal covariance of every chain is between prod (1 - w_j/4) and prod (1 + 3 w_j/4) times the initial diagonal one, the products over j < min(k, burnin), and it is constant afterwards.", "quantifier": "every log-density, random generator, data set, order, number of chains, history of acceptances and rejections, number of passes, combination of parameters", "why_tests_cant": "the bound is over all histories of random acceptances and all directions in parameter space, for any length of burn-in", "anchors": ["src/steps.cpp: AdaptiveMetro::DoStep (L60-104), CholUpdateR1", "src/carmcmc.cpp: RunCar1Sampler, RunCarmaSampler (prop_covar, RAM steps, burnin)"]}
{"id": "C133", "title": "The histogram of assess_fit is visible in its panel", "statement": "The histogram of the standardised residuals and the normal curve, which assess_fit draws over the residuals, have a part inside the panel, whose axis goes from the first to the last time.", "quantifier": "every strictly increasing series of more than 50 measurements, every sample", "why_tests_cant": "depends on the origin of time only; a plot is not checked by a unit test", "anchors": ["src/carmcmc/carma_pack.py: CarmaSample.assess_fit"]}
{"id": "C134", "title": "Power spectra and autocovariances in other units", "statement": "Expressing the parameters of a process for times multiplied by k and values multiplied by a, power_spectrum at the frequency f/k returns a^2 k times its value at f, the spectrum of a CAR(1) sample as well, and carma_variance at the lag k tau returns a^2 times its value at tau.", "quantifier": "every process, frequency, lag and change of units", "why_tests_cant": "an identity between two calls for all real parameters", "anchors": ["src/carmcmc/carma_pack.py: power_spectrum, carma_variance, Car1Sample.plot_power_spectrum"]}
