{"id": "C01", "title": "Resampled indices are valid, complete and ordered", "statement": "systematic, stratified and multinomial (fbs.samplers.resampling) called with n weights return exactly n indices, every one in [0, n-1], in non-decreasing order.", "quantifier": "every n >= 1, every weight vector (normalised or not, including zeros), every value of the uniform draws in [0,1)", "why_tests_cant": "A test fixes a handful of weight vectors and PRNG seeds; the claim is about every weight vector, every length and every value the uniforms can take.", "anchors": [{"file": "fbs/samplers/resampling.py", "symbols": ["systematic", "stratified", "multinomial", "_systematic_or_stratified", "_sorted_uniforms"]}]}
{"id": "C02", "title": "Systematic resampling keeps offspring counts within one of N*w", "statement": "With normalised weights, the number of times systematic returns index i differs from n*w_i by less than 1 (at most 1 in the boundary case where the uniform draw is exactly 0); in particular a particle of weight zero is never selected unless the draw is exactly 0.", "quantifier": "every n, every normalised non-negative weight vector, every index i, every uniform draw", "why_tests_cant": "A test fixes a handful of weight vectors and PRNG seeds; the claim is about every weight vector, every length and every value the uniforms can take. The boundary draw u=0 has probability 2^-23 or less and is never hit by a seeded test.", "anchors": [{"file": "fbs/samplers/resampling.py", "symbols": ["systematic"]}, {"file": "fbs/samplers/csmc/resamplings.py", "symbols": ["_standard_systematic"]}]}
{"id": "C03", "title": "Stratified resampling keeps offspring counts within two of N*w", "statement": "With normalised weights, the number of times stratified returns index i differs from n*w_i by less than 2, when no draw is exactly 0.", "quantifier": "every n, every normalised non-negative weight vector, every index i, every vector of n uniform draws", "why_tests_cant": "A test fixes a handful of weight vectors and PRNG seeds; the claim is about every weight vector, every length and every value the uniforms can take.", "anchors": [{"file": "fbs/samplers/resampling.py", "symbols": ["stratified"]}]}
{"id": "C04", "title": "Systematic and stratified resampling are unbiased", "statement": "The expected number of copies of particle i returned by systematic (and by stratified) is exactly n*w_i, the expectation being over the uniform draw(s).", "quantifier": "every n, every normalised non-negative weight vector, every index i", "why_tests_cant": "Equality of probability laws can only be approximated by Monte Carlo in a test, for one model and one particle count; a bias smaller than the Monte Carlo error, or one that appears only for other models or sizes, goes unseen.", "anchors": [{"file": "fbs/samplers/resampling.py", "symbols": ["systematic", "stratified"]}]}
{"id": "C05", "title": "Killing resampling has the killing law and does nothing on equal weights", "statement": "killing keeps particle i in slot i with probability w_i/max(w) and otherwise redraws it from the weights, independently over slots; hence the expected number of copies of i is n*w_i, indices are in range, and when all weights are equal the identity is returned for every random draw.", "quantifier": "every n, every positive-maximum normalised weight vector, every random draw", "why_tests_cant": "Equality of probability laws can only be approximated by Monte Carlo in a test, for one model and one particle count; a bias smaller than the Monte Carlo error, or one that appears only for other models or sizes, goes unseen.", "anchors": [{"file": "fbs/samplers/resampling.py", "symbols": ["killing"]}, {"file": "fbs/samplers/csmc/resamplings.py", "symbols": ["killing"]}]}
{"id": "C06", "title": "Conditional resampling always keeps the reference ancestor", "statement": "Conditional multinomial and conditional killing called with reference (i, j) return n in-range indices whose entry j equals i; conditional systematic raises instead of returning.", "quantifier": "every n, weights, i, j in range and every random draw", "why_tests_cant": "A test fixes a handful of weight vectors and PRNG seeds; the claim is about every weight vector, every length and every value the uniforms can take.", "anchors": [{"file": "fbs/samplers/csmc/resamplings.py", "symbols": ["multinomial", "killing", "systematic", "_conditional_systematic"]}]}
{"id": "C07", "title": "Conditional resampling is the conditional law of an unbiased resampling scheme", "statement": "There is a (random-shift) resampling law r with P(A_j = i) = w_i for every slot j such that the conditional scheme called with (i, j) has exactly the law of A given A_j = i. This is the condition under which conditional SMC is exact.", "quantifier": "every n, every normalised weight vector, every i with w_i > 0, every j, every test function of the ancestor vector", "why_tests_cant": "Equality of probability laws can only be approximated by Monte Carlo in a test, for one model and one particle count; a bias smaller than the Monte Carlo error, or one that appears only for other models or sizes, goes unseen.", "anchors": [{"file": "fbs/samplers/csmc/resamplings.py", "symbols": ["multinomial", "killing"]}]}
{"id": "C08", "title": "Weighted random selection draws index i with probability w_i", "statement": "Selection of an index from normalised weights by one uniform draw (the categorical draws used by every sampler, and the Barker move) returns i with probability exactly w_i, and only ever returns an index in range.", "quantifier": "every length, every normalised weight vector", "why_tests_cant": "Equality of probability laws can only be approximated by Monte Carlo in a test, for one model and one particle count; a bias smaller than the Monte Carlo error, or one that appears only for other models or sizes, goes unseen.", "anchors": [{"file": "fbs/samplers/csmc/csmc.py", "symbols": ["barker_move"]}, {"file": "fbs/samplers/smc.py", "symbols": ["bootstrap_backward_smoother"]}, {"file": "fbs/samplers/gibbs.py", "symbols": ["force_move"]}]}
{"id": "C09", "title": "The conditional SMC forward pass never loses the reference trajectory", "statement": "In the output of the conditional SMC forward pass, at every time k the particle in slot bs_star[k] is us_star[k] and its recorded ancestor is bs_star[k-1]; all ancestor arrays are in range; the outputs have K, K+1, K+1 rows; every row of weights is normalised.", "quantifier": "every horizon K >= 1, number of particles, reference, reference indices in range, model functions, and every random draw", "why_tests_cant": "A test fixes a handful of weight vectors and PRNG seeds; the claim is about every weight vector, every length and every value the uniforms can take.", "anchors": [{"file": "fbs/samplers/csmc/csmc.py", "symbols": ["forward_pass", "normalise"]}]}
{"id": "C10", "title": "Conditional SMC returns a genuine ancestral path", "statement": "The pair (path, indices) returned by csmc_kernel satisfies: path[k] is the particle in slot indices[k] at time k for all k; with backward tracing, indices[k-1] is the recorded ancestor of indices[k]. Lengths are K+1 and indices are in range, so the output can be fed back as the next reference.", "quantifier": "every horizon, particle number, model, reference and random draw; both values of `backward`", "why_tests_cant": "A test fixes a handful of weight vectors and PRNG seeds; the claim is about every weight vector, every length and every value the uniforms can take.", "anchors": [{"file": "fbs/samplers/csmc/csmc.py", "symbols": ["csmc_kernel", "backward_scanning_pass", "backward_sampling_pass"]}]}
{"id": "C11", "title": "Conditional SMC (ancestor tracing) leaves the smoothing distribution invariant", "statement": "If the reference path is drawn from the smoothing law (proportional to initial law x initial potential x product of transition x likelihood p(v_k | u_{k-1}, v_{k-1})) and the indices uniformly, then the path returned by csmc_kernel(backward=False) has the same law and again uniform indices, for any number of particles.", "quantifier": "every state space with finitely supported initial and transition laws, every horizon, every N >= 1, every positive likelihood, resampling = multinomial or killing", "why_tests_cant": "Equality of probability laws can only be approximated by Monte Carlo in a test, for one model and one particle count; a bias smaller than the Monte Carlo error, or one that appears only for other models or sizes, goes unseen.", "anchors": [{"file": "fbs/samplers/csmc/csmc.py", "symbols": ["csmc_kernel", "forward_pass", "backward_scanning_pass"]}, {"file": "fbs/samplers/csmc/resamplings.py", "symbols": ["killing", "multinomial"]}]}
{"id": "C12", "title": "Conditional SMC with backward sampling leaves the smoothing distribution invariant", "statement": "csmc_kernel(backward=True) should leave the same smoothing law invariant as csmc_kernel(backward=False).", "quantifier": "as for the tracing variant", "why_tests_cant": "Equality of probability laws can only be approximated by Monte Carlo in a test, for one model and one particle count; a bias smaller than the Monte Carlo error, or one that appears only for other models or sizes, goes unseen. The bias of an omitted factor is model dependent: it vanishes for constant likelihoods.", "anchors": [{"file": "fbs/samplers/csmc/csmc.py", "symbols": ["csmc_kernel", "backward_sampling_pass"]}]}
{"id": "C13", "title": "Forced-move selection is reversible for the weights", "statement": "force_move applied to an index distributed according to the normalised weights is in detailed balance with the weights, so the selected particle is again distributed according to them; the returned index is always in range.", "quantifier": "every number of particles, every pair of indices, every normalised weight vector whose entries are below the degeneracy threshold max(1-exp(-M), 1-1e-12) of the code or equal to 1", "why_tests_cant": "Equality of probability laws can only be approximated by Monte Carlo in a test, for one model and one particle count; a bias smaller than the Monte Carlo error, or one that appears only for other models or sizes, goes unseen.", "anchors": [{"file": "fbs/samplers/gibbs.py", "symbols": ["force_move"]}]}
{"id": "C14", "title": "Forced-move reports its acceptance probability", "statement": "The second value returned by force_move is the probability that the proposed index is accepted, and lies in [0,1].", "quantifier": "every weight vector and current index", "why_tests_cant": "The value is an aggregate over random outcomes; a test can compare one or two hand-computed cases only.", "anchors": [{"file": "fbs/samplers/gibbs.py", "symbols": ["force_move"]}]}
{"id": "C15", "title": "The Gibbs kernel (ancestor tracing) leaves the posterior invariant", "statement": "If the noising law and the discretised backward law define the same joint law of the (x, y) path, gibbs_kernel with explicit_backward=False maps x0 distributed as p(x0 | y0) with uniform indices to the same law.", "quantifier": "every finitely supported model, every horizon and particle number", "why_tests_cant": "Equality of probability laws can only be approximated by Monte Carlo in a test, for one model and one particle count; a bias smaller than the Monte Carlo error, or one that appears only for other models or sizes, goes unseen.", "anchors": [{"file": "fbs/samplers/gibbs.py", "symbols": ["gibbs_kernel"]}, {"file": "fbs/samplers/csmc/csmc.py", "symbols": ["csmc_kernel"]}]}
{"id": "C16", "title": "The Gibbs kernel (forced move, fresh path) leaves the posterior invariant", "statement": "Under the same compatibility assumption gibbs_kernel with explicit_backward=True (the default) leaves p(x0 | y0) x uniform indices invariant.", "quantifier": "every finitely supported model, every horizon and particle number, weights below the internal degeneracy threshold", "why_tests_cant": "Equality of probability laws can only be approximated by Monte Carlo in a test, for one model and one particle count; a bias smaller than the Monte Carlo error, or one that appears only for other models or sizes, goes unseen.", "anchors": [{"file": "fbs/samplers/gibbs.py", "symbols": ["gibbs_kernel", "force_move"]}]}
{"id": "C17", "title": "The explicit-final option targets the same posterior", "statement": "gibbs_kernel with explicit_final=True (initial particles redrawn from the reference distribution) targets the same conditional law as with explicit_final=False.", "quantifier": "every model, horizon and particle number", "why_tests_cant": "Equality of probability laws can only be approximated by Monte Carlo in a test, for one model and one particle count; a bias smaller than the Monte Carlo error, or one that appears only for other models or sizes, goes unseen.", "anchors": [{"file": "fbs/samplers/gibbs.py", "symbols": ["gibbs_kernel"]}]}
{"id": "C18", "title": "Gibbs kernel bookkeeping", "statement": "gibbs_kernel returns x0_next equal to the last element of the returned path, K+1 indices valid for the number of particles simulated (nparticles, plus one with explicit_final), and flags that are exactly the positions where the index changed; the us_star argument has no influence on the result.", "quantifier": "every input and every random draw, every combination of the option flags", "why_tests_cant": "A test fixes a handful of weight vectors and PRNG seeds; the claim is about every weight vector, every length and every value the uniforms can take.", "anchors": [{"file": "fbs/samplers/gibbs.py", "symbols": ["gibbs_kernel"]}]}
{"id": "C19", "title": "The bootstrap filter's likelihood estimate is unbiased", "statement": "exp(-nell) returned by bootstrap_filter has expectation equal to the exact marginal likelihood of the observations.", "quantifier": "every finitely supported model, horizon, number of particles, every resampling scheme that is unbiased", "why_tests_cant": "Equality of probability laws can only be approximated by Monte Carlo in a test, for one model and one particle count; a bias smaller than the Monte Carlo error, or one that appears only for other models or sizes, goes unseen.", "anchors": [{"file": "fbs/samplers/smc.py", "symbols": ["bootstrap_filter"]}]}
{"id": "C20", "title": "The particle MCMC filter's likelihood estimate is unbiased", "statement": "exp(log_ell) returned by pmcmc_filter_step has expectation equal to the exact marginal likelihood, and weighted by it the average over the returned particles is an unbiased estimate of the unnormalised filtering expectation of any test function.", "quantifier": "every finitely supported model, horizon, number of particles, test function, every unbiased resampling scheme", "why_tests_cant": "Equality of probability laws can only be approximated by Monte Carlo in a test, for one model and one particle count; a bias smaller than the Monte Carlo error, or one that appears only for other models or sizes, goes unseen.", "anchors": [{"file": "fbs/samplers/smc.py", "symbols": ["pmcmc_filter_step"]}]}
{"id": "C21", "title": "Particle MCMC leaves the pseudo-marginal target invariant", "statement": "pmcmc_kernel leaves invariant the extended law in which (uT, log_ell, ys) is a filter output on a path ys weighted by exp(log_ell); hence ys has the exact posterior law whenever the likelihood estimate is unbiased.", "quantifier": "every finitely supported model, every proposal reversible for the law of ys, every horizon and particle number", "why_tests_cant": "Equality of probability laws can only be approximated by Monte Carlo in a test, for one model and one particle count; a bias smaller than the Monte Carlo error, or one that appears only for other models or sizes, goes unseen.", "anchors": [{"file": "fbs/samplers/smc.py", "symbols": ["pmcmc_kernel", "pmcmc_filter_step"]}]}
{"id": "C22", "title": "The single particle kept by particle MCMC is a fair draw", "statement": "The particle prop_uTs[which_u] kept by pmcmc_kernel has, after weighting by exp(log_ell), the exact (unnormalised) filtering law, for every which_u and every resampling scheme offered by the library.", "quantifier": "every model, which_u, resampling scheme and particle number", "why_tests_cant": "Equality of probability laws can only be approximated by Monte Carlo in a test, for one model and one particle count; a bias smaller than the Monte Carlo error, or one that appears only for other models or sizes, goes unseen. With two particles no bias exists, so small tests pass.", "anchors": [{"file": "fbs/samplers/smc.py", "symbols": ["pmcmc_kernel"]}, {"file": "fbs/samplers/resampling.py", "symbols": ["stratified", "systematic", "multinomial", "killing"]}]}
{"id": "C23", "title": "The pCN proposal preserves the prior", "statement": "If x has mean m and variance s and the sampler draws independent values of mean m and variance s, the pCN proposal has mean m and variance s, and the pair (current, proposed) is exchangeable up to second order with correlation 2/(2+delta) (hence reversible in the Gaussian case).", "quantifier": "every delta >= 0, mean, variance", "why_tests_cant": "Equality of probability laws can only be approximated by Monte Carlo in a test, for one model and one particle count; a bias smaller than the Monte Carlo error, or one that appears only for other models or sizes, goes unseen.", "anchors": [{"file": "fbs/samplers/smc.py", "symbols": ["pcn_proposal"]}]}
{"id": "C24", "title": "Metropolis outcome is all-or-nothing and truthful", "statement": "pmcmc_kernel returns either the complete proposed triple (uT, log_ell, ys), exactly when log z < min(0, prop_log_ell - log_ell), or the complete unchanged current triple; the reported acceptance probability is min(1, exp(prop_log_ell - log_ell)) and is the probability of acceptance.", "quantifier": "every input and every random draw", "why_tests_cant": "A test fixes a handful of weight vectors and PRNG seeds; the claim is about every weight vector, every length and every value the uniforms can take.", "anchors": [{"file": "fbs/samplers/smc.py", "symbols": ["pmcmc_kernel"]}, {"file": "fbs/samplers/common.py", "symbols": ["MCMCState"]}]}
{"id": "C25", "title": "Twisted SMC is properly weighted", "statement": "twisted_smc returns normalised log-weights; the weighted particles, multiplied by the running product of mean incremental weights, give an unbiased estimate of the twisted target (initial law x product of transition x final twisting function), whatever the proposal with full support.", "quantifier": "every finitely supported model, proposal, twisting function, horizon and particle number; every unbiased resampling scheme", "why_tests_cant": "Equality of probability laws can only be approximated by Monte Carlo in a test, for one model and one particle count; a bias smaller than the Monte Carlo error, or one that appears only for other models or sizes, goes unseen.", "anchors": [{"file": "fbs/samplers/smc.py", "symbols": ["twisted_smc"]}]}
{"id": "C26", "title": "Backward smoother returns members of the filter clouds", "statement": "bootstrap_backward_smoother returns one element of each row of filter_us, in order, with the last drawn uniformly from the last row and the k-th drawn with probability proportional to the transition density to the (k+1)-th.", "quantifier": "every horizon, particle number, filter output and random draw", "why_tests_cant": "A test fixes a handful of weight vectors and PRNG seeds; the claim is about every weight vector, every length and every value the uniforms can take.", "anchors": [{"file": "fbs/samplers/smc.py", "symbols": ["bootstrap_backward_smoother"]}]}
{"id": "C27", "title": "No random key is ever used twice", "statement": "Within one call of any of bootstrap_filter, pmcmc_filter_step, pmcmc_kernel, twisted_smc, csmc_kernel, gibbs_kernel, force_move, gibbs_init (methods filter, debug), the resampling schemes and the simulators, no key is consumed by two random draws, and no key is both consumed and split.", "quantifier": "every input, every horizon, every model function that only uses the key it is given", "why_tests_cant": "Key reuse produces correlated but individually plausible numbers; no assertion on outputs detects it.", "anchors": [{"file": "fbs/samplers/smc.py", "symbols": ["bootstrap_filter", "pmcmc_filter_step", "pmcmc_kernel", "twisted_smc"]}, {"file": "fbs/samplers/csmc/csmc.py", "symbols": ["csmc_kernel"]}, {"file": "fbs/samplers/gibbs.py", "symbols": ["gibbs_kernel", "gibbs_init", "force_move"]}, {"file": "fbs/samplers/csmc/resamplings.py", "symbols": ["killing"]}, {"file": "fbs/sdes/simulators.py", "symbols": ["euler_maruyama"]}]}
{"id": "C28", "title": "Documented inputs of the samplers are honoured", "statement": "bootstrap_filter honours its `log` flag; twisted_smc evaluates each transition at the time of the state it leaves, as the other samplers do; gibbs_init rejects unknown methods.", "quantifier": "every input", "why_tests_cant": "A test that never varies the flag, or uses a time-homogeneous model, cannot see the difference.", "anchors": [{"file": "fbs/samplers/smc.py", "symbols": ["bootstrap_filter", "twisted_smc"]}, {"file": "fbs/samplers/gibbs.py", "symbols": ["gibbs_init"]}]}
{"id": "C29", "title": "Discretisation of linear SDEs composes", "statement": "For each linear SDE family, discretising s->t then t->u gives the same transition coefficient and variance as s->u directly; s->s is the identity with zero variance.", "quantifier": "all times s, t, u and all parameters for which the formulas are defined", "why_tests_cant": "Equality of real functions for all times and parameters; tests check a few points to a tolerance.", "anchors": [{"file": "fbs/sdes/linear.py", "symbols": ["make_linear_sde", "StationaryConstLinearSDE", "StationaryLinLinearSDE", "StationaryExpLinearSDE"]}]}
{"id": "C30", "title": "Discretisation solves the moment equations of the documented SDE", "statement": "The transition coefficient F(t,s) and variance Q(t,s) satisfy F' = a(t) F, F(s,s)=1 and Q' = 2 a(t) Q + b(t)^2, Q(s,s)=0, where a and b are the drift coefficient and dispersion exposed by the same SDE object; Q is non-negative for t >= s.", "quantifier": "all t, s and parameters in the documented domain", "why_tests_cant": "Requires derivatives at every time and parameter.", "anchors": [{"file": "fbs/sdes/linear.py", "symbols": ["make_linear_sde", "StationaryConstLinearSDE", "StationaryLinLinearSDE", "StationaryExpLinearSDE", "make_ou_sde"]}]}
{"id": "C31", "title": "The linear noise schedule is the documented one", "statement": "beta(t0)=beta_min, beta(T)=beta_max, beta is affine and stays between them; beta_integral(t,s) is the integral of beta from s to t.", "quantifier": "all t, s, beta_min, beta_max, t0 != T", "why_tests_cant": "Requires an integral identity for all arguments.", "anchors": [{"file": "fbs/sdes/linear.py", "symbols": ["StationaryLinLinearSDE.beta", "StationaryLinLinearSDE.beta_integral"]}]}
{"id": "C32", "title": "mean/variance methods agree with the discretisation and with stationarity", "statement": "mean(t,s,m0) and variance(t,s) of an SDE object equal F*m0 and Q of the discretisation; the documented stationary law is preserved by every transition.", "quantifier": "all times, parameters, initial values", "why_tests_cant": "Equality of real functions over all arguments.", "anchors": [{"file": "fbs/sdes/linear.py", "symbols": ["StationaryConstLinearSDE.mean", "StationaryConstLinearSDE.variance", "StationaryLinLinearSDE.mean", "StationaryLinLinearSDE.variance", "make_linear_sde"]}]}
{"id": "C33", "title": "The conditional score is the gradient of the transition log-density", "statement": "cond_score_t_0(x,t,x0,s) is the derivative in x of the log of the Gaussian density with mean F(t,s) x0 and variance Q(t,s).", "quantifier": "all x, x0, t, s with Q > 0", "why_tests_cant": "Requires a derivative for all arguments.", "anchors": [{"file": "fbs/sdes/linear.py", "symbols": ["make_linear_sde", "make_ou_sde"]}]}
{"id": "C34", "title": "Exact path simulation has the right joint law", "statement": "simulate_cond_forward(keep_path=True) starts at x0, has len(ts) rows, and X_k = F(t_k,t_0) x0 + noise with Var = Q(t_k,t_0) and Cov(X_j,X_k) = F(t_k,t_j) Q(t_j,t_0); keep_path=False gives the same one-time marginals.", "quantifier": "all time grids (any length), all parameters", "why_tests_cant": "Equality of probability laws can only be approximated by Monte Carlo in a test, for one model and one particle count; a bias smaller than the Monte Carlo error, or one that appears only for other models or sizes, goes unseen.", "anchors": [{"file": "fbs/sdes/linear.py", "symbols": ["make_linear_sde", "make_ou_sde"]}]}
{"id": "C35", "title": "The OU helpers agree with the general linear SDE helpers", "statement": "make_ou_sde(a,b) and make_linear_sde(StationaryConstLinearSDE(a,b)) produce the same discretisation, score and paths; a Lin SDE with constant beta equals the Const SDE with a=-beta/2, b=sqrt(beta); the score-matching loss of both agree when t0=0.", "quantifier": "all parameters, grids and noise values", "why_tests_cant": "Equality over all arguments.", "anchors": [{"file": "fbs/sdes/linear.py", "symbols": ["make_ou_sde", "make_linear_sde", "make_ou_score_matching_loss"]}]}
{"id": "C36", "title": "The bridge drift is Doob's h-transform", "statement": "bridge_drift(x,t,target,T) = a(t) x + b(t)^2 * d/dx log p(target at T | x at t), in closed form.", "quantifier": "all x, t < T, targets, parameters", "why_tests_cant": "Requires a derivative for all arguments.", "anchors": [{"file": "fbs/sdes/linear.py", "symbols": ["StationaryConstLinearSDE.bridge_drift", "StationaryLinLinearSDE.bridge_drift"]}]}
{"id": "C37", "title": "Euler-Maruyama evaluates the SDE inside the time grid", "statement": "euler_maruyama on an increasing grid starts at x0, returns len(ts) rows, makes integration_nsteps equal sub-steps per interval, evaluates drift and dispersion only at the left endpoints of the sub-intervals, hence never outside [t_0, t_n); with and without return_path the terminal value agrees.", "quantifier": "all grids (increasing or decreasing), numbers of sub-steps, drifts and noises", "why_tests_cant": "Requires all grids and sub-step numbers; decreasing grids with several sub-steps are never tested.", "anchors": [{"file": "fbs/sdes/simulators.py", "symbols": ["euler_maruyama"]}]}
{"id": "C38", "title": "The reverse simulator runs the forward coefficients backwards in time", "statement": "reverse_simulator on ts evaluates score, drift and dispersion at times running from ts[-1] down towards ts[0], never outside [ts[0], ts[-1]].", "quantifier": "all grids and numbers of sub-steps", "why_tests_cant": "Tests use ts[0]=0 only.", "anchors": [{"file": "fbs/sdes/simulators.py", "symbols": ["reverse_simulator"]}]}
{"id": "C39", "title": "Doob bridges hit both ends and never evaluate the singular time", "statement": "doob_bridge_simulator returns a path starting at x0; with replace=True it ends at xT; the bridge drift is never evaluated at the terminal time, where it is singular.", "quantifier": "all grids, sub-step numbers, endpoints and noises", "why_tests_cant": "A test fixes a handful of weight vectors and PRNG seeds; the claim is about every weight vector, every length and every value the uniforms can take.", "anchors": [{"file": "fbs/sdes/simulators.py", "symbols": ["doob_bridge_simulator"]}, {"file": "fbs/samplers/gibbs.py", "symbols": ["bridge_sampler"]}]}
{"id": "C40", "title": "The discrete-time simulator reproduces the exact simulator", "statement": "discrete_time_simulator with f = F*x and q = sqrt(Q) returns the terminal value of the exact path simulation driven by the same noise; Euler-Maruyama with one sub-step is the discrete-time simulator with f = x + drift*dt.", "quantifier": "all grids, models, noises", "why_tests_cant": "Equality over all arguments.", "anchors": [{"file": "fbs/sdes/simulators.py", "symbols": ["discrete_time_simulator", "euler_maruyama"]}, {"file": "fbs/sdes/linear.py", "symbols": ["make_linear_sde"]}]}
{"id": "C41", "title": "The Gaussian Schrodinger bridge matches both end points and its own drift", "statement": "make_gaussian_bw_sb: marginal mean/cov at 0 and 1 are the given ones, the covariance is symmetric, and mean and covariance solve the moment ODEs of dX = drift dt + sig dW.", "quantifier": "all Gaussian end points, all sig, all t in [0,1]", "why_tests_cant": "Requires matrix identities and derivatives for all arguments.", "anchors": [{"file": "fbs/sdes/linear.py", "symbols": ["make_gaussian_bw_sb"]}]}
{"id": "C42", "title": "Score-matching losses are non-negative and vanish at the true score", "statement": "The loss returned by make_linear_sde_law_loss is >= 0 and equals 0 when the network returns exactly the conditional quantity; unknown loss types raise; the memory-saving variant accepts the same loss types.", "quantifier": "all batches, grids, noises, networks", "why_tests_cant": "All inputs; the ipf types of the memory-saving variant are never exercised.", "anchors": [{"file": "fbs/sdes/linear.py", "symbols": ["make_linear_sde_law_loss", "make_ou_score_matching_loss"]}]}
{"id": "C43", "title": "The two implementations of the IPF loss agree", "statement": "ipf_loss_cont and ipf_loss_cont_v return the same number for the same inputs and noise, it is >= 0, and 0 iff the parametric drift satisfies the mean-matching identity along the path.", "quantifier": "all batches (non-empty), grids with at least one step, drifts, dispersions, noises", "why_tests_cant": "The docstring claims identity for all inputs; tests compare a few.", "anchors": [{"file": "fbs/dsb/base.py", "symbols": ["ipf_loss_cont", "ipf_loss_cont_v", "ipf_loss_disc"]}]}
{"id": "C44", "title": "The inpainting mask partitions the image", "statement": "gen_mask for an inpainting task returns unobserved and observed index sets that are disjoint, without repetition, cover all pixels, with the unobserved set a width x height rectangle inside the image, whenever the window fits.", "quantifier": "all image sizes, window sizes, shifts", "why_tests_cant": "All sizes and random shifts.", "anchors": [{"file": "fbs/data/images.py", "symbols": ["ImageRestore._gen_inpaint_mask", "ImageRestore.gen_mask"]}]}
{"id": "C45", "title": "The super-resolution mask observes one pixel per block", "statement": "gen_mask for a super-resolution task returns disjoint duplicate-free index sets covering the image, with exactly one observed pixel in each rate x rate block, when rate divides both sides.", "quantifier": "all image sizes, rates dividing them, random shifts", "why_tests_cant": "All sizes and random shifts.", "anchors": [{"file": "fbs/data/images.py", "symbols": ["ImageRestore._gen_supr_mask", "ImageRestore.gen_mask"]}]}
{"id": "C46", "title": "unpack and concat are inverse of each other", "statement": "For every mask produced by gen_mask, concat(*unpack(img, mask), mask) = img, and unpack(concat(x, y, mask), mask) = (x, y).", "quantifier": "all images, all masks, all sizes", "why_tests_cant": "All images and masks.", "anchors": [{"file": "fbs/data/images.py", "symbols": ["ImageRestore.unpack", "ImageRestore.concat", "Image.concat", "Image.unpack"]}]}
{"id": "C47", "title": "unobs_shape announces the shape of the unobserved part", "statement": "The attribute unobs_shape equals the shape of the first output of unpack for every mask that gen_mask produces.", "quantifier": "all task strings, image shapes, random draws", "why_tests_cant": "All sizes.", "anchors": [{"file": "fbs/data/images.py", "symbols": ["ImageRestore.__init__", "ImageRestore.unpack"]}]}
{"id": "C48", "title": "Random-rectangle corruption stays inside the image and changes nothing else", "statement": "paint sets to zero exactly one rectangle of the requested size fully inside the image and leaves every other pixel unchanged; corrupt dispatches on the task name and rejects unknown tasks.", "quantifier": "all images, rectangle sizes not exceeding the image, random draws", "why_tests_cant": "All sizes and draws.", "anchors": [{"file": "fbs/data/images.py", "symbols": ["Image.paint", "Image.corrupt"]}]}
{"id": "C49", "title": "Nearest-neighbour degradation is a projection", "statement": "downsample returns an image of the original shape whose values are values of the input; when the ratio divides the size, applying the same ratio again changes nothing and every block is constant.", "quantifier": "all images and sizes", "why_tests_cant": "All sizes.", "anchors": [{"file": "fbs/data/images.py", "symbols": ["Image.downsample"]}]}
{"id": "C50", "title": "Image normalisation lands in [0,1]", "statement": "normalise(img,'clip') is in [0,1], is the identity on [0,1] and is idempotent and monotone; normalise(img,'norm') maps each channel onto [0,1] attaining both ends, if the channel is not constant.", "quantifier": "all images", "why_tests_cant": "All images.", "anchors": [{"file": "fbs/data/images.py", "symbols": ["normalise"]}]}
{"id": "C51", "title": "One epoch visits each used datum exactly once", "statement": "init_enumeration(batch_size) returns n//batch_size disjoint batches of batch_size indices each, covering {0,...,batch_size*(n//batch_size)-1} exactly once; enumerate_subset(i) returns the data at the i-th batch.", "quantifier": "all n, batch_size <= n, all permutations drawn", "why_tests_cant": "All sizes and draws.", "anchors": [{"file": "fbs/data/base.py", "symbols": ["Dataset.init_enumeration", "Dataset.enumerate_subset"]}]}
{"id": "C52", "title": "Standardisation gives zero mean and unit variance", "statement": "standardise returns, per column, mean 0 and variance 1 when the column is not constant; reshape turns scalars and vectors into 2-d arrays with the same number of elements.", "quantifier": "all arrays", "why_tests_cant": "All arrays.", "anchors": [{"file": "fbs/data/base.py", "symbols": ["Dataset.standardise", "Dataset.reshape"]}]}
{"id": "C53", "title": "The crescent posterior is normalised and uses the documented prior", "statement": "Crescent.log_prior_pdf is the log density of the prior from which Crescent.sampler draws; posterior is non-negative and has unit trapezoid mass on the mesh.", "quantifier": "all parameters, meshes, observations", "why_tests_cant": "All arguments.", "anchors": [{"file": "fbs/data/bayesian.py", "symbols": ["Crescent.log_prior_pdf", "Crescent.posterior", "Crescent.sampler"]}]}
{"id": "C54", "title": "PixelShuffle is a bijective rearrangement", "statement": "PixelShuffle(scale) maps an (h, w, scale^2*c) array to (h*scale, w*scale, c), each input entry appearing exactly once in the output, and can be inverted.", "quantifier": "all sizes, channel counts, scales", "why_tests_cant": "All shapes.", "anchors": [{"file": "fbs/nn/utils.py", "symbols": ["PixelShuffle"]}]}
{"id": "C55", "title": "Sinusoidal time embedding", "statement": "sinusoidal_embedding returns out_dim numbers in [-1,1] with sin^2+cos^2=1 pairs, frequencies running geometrically from 1 to 1/max_period; odd out_dim raises; t can be recovered (embedding is injective on small times).", "quantifier": "all t, all even out_dim >= 4", "why_tests_cant": "All dims and times.", "anchors": [{"file": "fbs/nn/base.py", "symbols": ["sinusoidal_embedding"]}]}
{"id": "C56", "title": "The U-Net preserves the image shape", "statement": "UNet applied to (B,H,W,C) with B>=2 succeeds and returns (B,H,W,out) for every list of channel multipliers, exactly when H and W are divisible by 2^(levels-1) (and group counts divide the channel counts).", "quantifier": "all batch sizes, image sizes, channel counts, numbers of levels", "why_tests_cant": "All architectures and sizes.", "anchors": [{"file": "fbs/nn/unet.py", "symbols": ["UNet", "Downsample", "Upsample", "ResnetBlock", "AttnBlock", "Attention", "LinearAttention"]}]}
{"id": "C57", "title": "Exponential moving average of parameters", "statement": "Iterating ema_kernel keeps each coordinate within the range of the parameters seen, follows the closed form of an EMA after the start count, ignores counts not divisible by count_every, and equals the current parameters before the start.", "quantifier": "all parameter histories, counts, decays in [0,1]", "why_tests_cant": "All histories.", "anchors": [{"file": "fbs/nn/utils.py", "symbols": ["make_optax_kernel"]}]}
{"id": "C58", "title": "Attention averages values", "statement": "The softmax attention block returns, per head, convex combinations of the value vectors; the query/key normalisation makes every query and key a unit vector.", "quantifier": "all inputs", "why_tests_cant": "All inputs.", "anchors": [{"file": "fbs/nn/unet.py", "symbols": ["Attention", "l2norm", "LinearAttention"]}]}
{"id": "C59", "title": "Gaussian divergences are the documented quantities", "statement": "kl(m0,cov0,m1,cov1) is the Kullback-Leibler divergence of the two Gaussians; bures_dist is the squared Wasserstein distance; both vanish on equal arguments and are non-negative.", "quantifier": "all dimensions, means and positive definite covariances", "why_tests_cant": "All arguments.", "anchors": [{"file": "fbs/utils.py", "symbols": ["kl", "bures_dist", "_log_det", "sqrtm"]}]}
{"id": "C60", "title": "LTI discretisation", "statement": "discretise_lti_sde(A, gamma, dt) returns the exact transition matrix and covariance: composing dt and dt' gives dt+dt', and for scalars it agrees with the OU formulas.", "quantifier": "all A, gamma, dt", "why_tests_cant": "All arguments.", "anchors": [{"file": "fbs/utils.py", "symbols": ["discretise_lti_sde"]}]}
{"id": "C61", "title": "Particle-filter initialisation of particle MCMC passes a log-likelihood", "statement": "The scripts that start a particle MCMC chain from bootstrap_filter hand over (particle, log-likelihood) with the sign pmcmc_kernel expects.", "quantifier": "all models and random draws", "why_tests_cant": "Scripts are not covered by tests.", "anchors": [{"file": "experiments/toy/gp_pmcmc.py", "symbols": ["pmcmc_init"]}, {"file": "fbs/samplers/smc.py", "symbols": ["bootstrap_filter", "pmcmc_kernel"]}]}
{"id": "C62", "title": "Reference samplers draw from the advertised Gaussian", "statement": "The reference samplers of the GP experiments (x -> mean + noise @ cholesky(cov)) produce samples with covariance cov.", "quantifier": "all covariance matrices", "why_tests_cant": "A test with diagonal covariance cannot see a transposed factor.", "anchors": [{"file": "experiments/toy/gp_pmcmc.py", "symbols": ["ref_sampler"]}, {"file": "experiments/toy/gp_twisted.py", "symbols": ["init_sampler"]}, {"file": "fbs/data/bayesian.py", "symbols": ["Crescent.sampler"]}]}
{"id": "C63", "title": "Padding average preserves mass", "statement": "_avg_n_nplusone(x) has one more entry than x, the same sum, and preserves non-negativity.", "quantifier": "all arrays", "why_tests_cant": "All arrays.", "anchors": [{"file": "fbs/samplers/resampling.py", "symbols": ["_avg_n_nplusone"]}]}
{"id": "C64", "title": "Forced move above the degeneracy threshold", "statement": "force_move leaves the normalised weights invariant also when a weight exceeds the threshold max(1-exp(-M), 1-1e-12) at which the code replaces the weights of the others by zero.", "quantifier": "every normalised weight vector", "why_tests_cant": "A weight that close to one never occurs in a seeded test, and the bias is below any Monte Carlo error.", "anchors": [{"file": "fbs/samplers/gibbs.py", "symbols": ["force_move"]}]}
{"id": "C65", "title": "The backward smoother uses each key once", "statement": "bootstrap_backward_smoother consumes no key that it also splits.", "quantifier": "every input", "why_tests_cant": "Key reuse produces correlated but individually plausible numbers; no assertion on outputs detects it.", "anchors": [{"file": "fbs/samplers/smc.py", "symbols": ["bootstrap_backward_smoother"]}]}
{"id": "C66", "title": "The backward smoother draws from the smoothing law", "statement": "Given filter rows that represent the filtering laws exactly, bootstrap_backward_smoother draws a path from the smoothing law.", "quantifier": "every model whose measurement density depends on the previous state, as bootstrap_filter allows", "why_tests_cant": "Equality of probability laws can only be approximated by Monte Carlo in a test, for one model and one particle count; a bias smaller than the Monte Carlo error, or one that appears only for other models or sizes, goes unseen.", "anchors": [{"file": "fbs/samplers/smc.py", "symbols": ["bootstrap_backward_smoother", "bootstrap_filter"]}]}
{"id": "C67", "title": "gibbs_init returns a consistent pair", "statement": "The x0 returned by gibbs_init is the end of the path us_star returned with it (us_star[-1] = x0).", "quantifier": "every model, horizon, particle number, method filter or smoother, every random draw", "why_tests_cant": "Both values are plausible on their own.", "anchors": [{"file": "fbs/samplers/gibbs.py", "symbols": ["gibbs_init"]}]}
{"id": "C68", "title": "Refreshed reference indices cover every slot", "statement": "With explicit_final the reference indices drawn by gibbs_kernel are uniform over all nparticles+1 particle slots.", "quantifier": "every model, particle number and random draw", "why_tests_cant": "Equality of probability laws can only be approximated by Monte Carlo in a test, for one model and one particle count; a bias smaller than the Monte Carlo error, or one that appears only for other models or sizes, goes unseen.", "anchors": [{"file": "fbs/samplers/gibbs.py", "symbols": ["gibbs_kernel"]}]}
{"id": "C69", "title": "Reverse simulation with the exact score reproduces the forward marginals", "statement": "For every linear SDE started from a Gaussian, the drift and dispersion that reverse_simulator integrates, given the exact score, keep a Gaussian whose mean and variance at reverse time tau are the forward mean and variance at T - tau.", "quantifier": "all linear SDE classes, initial means and variances, horizons and times", "why_tests_cant": "Equality of laws at all times for all parameters; simulation only gives noisy estimates for a few.", "anchors": [{"file": "fbs/sdes/simulators.py", "symbols": ["reverse_simulator"]}, {"file": "fbs/sdes/linear.py", "symbols": ["LinearSDE"]}]}
{"id": "C70", "title": "The bridge drift generates the Gaussian bridge", "statement": "The drift and dispersion integrated by doob_bridge_simulator have as solution the Gaussian bridge: the law of X_t given both end points, with zero variance and the prescribed values at both ends.", "quantifier": "the constant and linear-schedule SDE classes, all end points, times strictly before the terminal time", "why_tests_cant": "Equality of laws at all times for all parameters; simulation only gives noisy estimates for a few.", "anchors": [{"file": "fbs/sdes/simulators.py", "symbols": ["doob_bridge_simulator"]}, {"file": "fbs/sdes/linear.py", "symbols": ["bridge_drift"]}]}
{"id": "C71", "title": "Simulators and losses use each key once", "statement": "euler_maruyama, simulate_cond_forward and the training loss never use a key twice nor a key together with one derived from it.", "quantifier": "every grid, state dimension, number of sub-steps", "why_tests_cant": "Key reuse produces correlated but individually plausible numbers; no assertion on outputs detects it.", "anchors": [{"file": "fbs/sdes/simulators.py", "symbols": ["euler_maruyama"]}, {"file": "fbs/sdes/linear.py", "symbols": ["make_linear_sde", "make_linear_sde_law_loss"]}]}
{"id": "C72", "title": "The Gaussian bridge drift is the optimal one", "statement": "make_gaussian_bw_sb: the drift is a gradient field (its slope matrix A(t) is symmetric) and A' = -A^2, the optimality equation of the Schrodinger bridge with Brownian reference; the cross covariance C solves C^2 + sig^2 C = cov0 cov1 with C cov0 = cov0 C^T.", "quantifier": "all Gaussian end points, all sig, all t at which the marginal covariance is invertible", "why_tests_cant": "Moment tests pass for every choice of C; only a matrix identity for all arguments tells the optimal bridge from another.", "anchors": [{"file": "fbs/sdes/linear.py", "symbols": ["make_gaussian_bw_sb"]}]}
{"id": "C73", "title": "Every pixel can be hidden by the inpainting window", "statement": "The random window of an inpainting task can cover any pixel of the image.", "quantifier": "all image and window sizes", "why_tests_cant": "Needs all random draws at once; any one mask looks right.", "anchors": [{"file": "fbs/data/images.py", "symbols": ["ImageRestore._gen_inpaint_mask"]}]}
{"id": "C74", "title": "Dataset samplers use each key once", "statement": "The samplers of the datasets (Image.sampler, Image.enumerate, ImageRestore.sampler, Crescent.sampler) never use a key twice nor a key together with one derived from it.", "quantifier": "all data, tasks, sizes", "why_tests_cant": "Key reuse produces correlated but individually plausible numbers; no assertion on outputs detects it.", "anchors": [{"file": "fbs/data/images.py", "symbols": ["Image.sampler", "ImageRestore.sampler"]}, {"file": "fbs/data/bayesian.py", "symbols": ["Crescent.sampler"]}]}
{"id": "C75", "title": "The blur acts channel by channel", "statement": "conv blurs each colour channel on its own and returns values in [0,1].", "quantifier": "all images, channel counts, kernel draws", "why_tests_cant": "Grey-scale tests cannot see channel mixing; the output range and shape are right.", "anchors": [{"file": "fbs/data/images.py", "symbols": ["Image.conv"]}]}
{"id": "C76", "title": "A restoration sample is consistent", "statement": "ImageRestore.sampler returns a datum x, with y and mask such that the mask splits the image, y is the observed part of x, and putting the parts back gives x.", "quantifier": "all data sets, tasks, sizes and random draws", "why_tests_cant": "Needs all draws of image and mask.", "anchors": [{"file": "fbs/data/images.py", "symbols": ["ImageRestore.sampler"]}]}
{"id": "C77", "title": "PixelShuffle is the torch operation", "statement": "PixelShuffle(scale) on channels-last arrays gives the entries of torch.nn.PixelShuffle(scale) on the transposed array.", "quantifier": "all sizes, scales, channel counts", "why_tests_cant": "The test compares one output channel only, where two different channel orders coincide.", "anchors": [{"file": "fbs/nn/utils.py", "symbols": ["PixelShuffle"]}]}
{"id": "C78", "title": "The training script averages parameters over the whole training", "statement": "After the start count, the moving average kept by experiments/imgs/train.py averages the parameters of all earlier steps.", "quantifier": "all parameter histories, epoch lengths, numbers of epochs", "why_tests_cant": "Needs the whole training history; a short run cannot show that the counter restarts.", "anchors": [{"file": "experiments/imgs/train.py", "symbols": ["ema_kernel"]}, {"file": "fbs/nn/utils.py", "symbols": ["make_optax_kernel"]}]}
{"id": "C79", "title": "Linear attention averages values", "statement": "LinearAttention returns, per head, sqrt(dim_head) H W times less than a convex combination of the value vectors.", "quantifier": "all inputs", "why_tests_cant": "All real inputs and sizes.", "anchors": [{"file": "fbs/nn/unet.py", "symbols": ["LinearAttention"]}]}
{"id": "C80", "title": "The simple networks accept a batch with a scalar time", "statement": "make_simple_st_nn with its default network initialises for every batch size and input shape, and MNISTAutoEncoder accepts a batch with a scalar time.", "quantifier": "all batch sizes, input shapes, embedding dimensions", "why_tests_cant": "Shapes for all sizes.", "anchors": [{"file": "fbs/nn/models.py", "symbols": ["make_simple_st_nn", "MNISTAutoEncoder"]}]}
{"id": "C81", "title": "MNISTResConv accepts both decoders", "statement": "MNISTResConv maps a batch of n images to an (n, 784) array, with the pixel_shuffle decoder as well as with the resize decoder.", "quantifier": "all batch sizes >= 2", "why_tests_cant": "Shapes for all sizes; the second branch is never run.", "anchors": [{"file": "fbs/nn/models.py", "symbols": ["MNISTResConv"]}]}
{"id": "C82", "title": "sinusoidal_embedding accepts vectors of times", "statement": "For an array t (as the type annotation allows) sinusoidal_embedding returns the embedding of each time (shape (..., out_dim)).", "quantifier": "all vectors t, all even out_dim >= 4", "why_tests_cant": "Broadcasting hides the mistake for one lucky length.", "anchors": [{"file": "fbs/nn/base.py", "symbols": ["sinusoidal_embedding"]}]}
{"id": "C83", "title": "Matrix square root", "statement": "For a positive semi-definite matrix sqrtm returns the positive semi-definite square root: symmetric, with square equal to the argument, and the same whatever eigenvectors the library picks.", "quantifier": "all sizes, all positive semi-definite matrices, all eigendecompositions", "why_tests_cant": "Eigenvectors are not unique; tests see one choice.", "anchors": [{"file": "fbs/utils.py", "symbols": ["sqrtm"]}]}
{"id": "C84", "title": "The start state of particle MCMC belongs to its path", "statement": "The state (x0, log_ell, ys) from which the scripts start pmcmc_kernel is a state the kernel can carry: log_ell and x0 come from a filter run on the path ys.", "quantifier": "all models, particle numbers and random draws", "why_tests_cant": "Every component looks right on its own, and the mismatch has no visible effect on shapes or ranges.", "anchors": [{"file": "experiments/toy/gp_pmcmc.py", "symbols": ["pmcmc_init"]}, {"file": "experiments/imgs/inpainting.py", "symbols": ["pmcmc_kernel"]}, {"file": "experiments/imgs/supr.py", "symbols": ["pmcmc_kernel"]}]}
{"id": "C85", "title": "The conditional moments of the scripts are those of the joint Gaussian", "statement": "The mean and covariance that ref_sampler and the GP regression compute from a joint Gaussian law of (u, v) are those of the law of u given v: the joint log density is the sum of the marginal and the conditional one; the conditional covariance is positive definite.", "quantifier": "all dimensions, means, positive definite covariances and observations", "why_tests_cant": "An identity of densities for all real arguments and sizes.", "anchors": [{"file": "experiments/toy/gp_pmcmc.py", "symbols": ["ref_sampler"]}, {"file": "experiments/toy/gp_kf.py", "symbols": ["ref_solver"]}, {"file": "experiments/sb/gibbs.py", "symbols": ["ref_sampler"]}]}
{"id": "C86", "title": "Every factorisation in the scripts exists", "statement": "The kernel matrix on the grid, the joint covariance of function and observations, and the forward covariance at every positive time are symmetric positive definite, so every Cholesky factor asked for exists.", "quantifier": "all grid sizes, kernel parameters, noise variances, linear SDEs, positive times", "why_tests_cant": "For all sizes and parameters; a failed factorisation only shows up as nan for some.", "anchors": [{"file": "experiments/toy/gp_pmcmc.py", "symbols": ["cov_fn", "forward_m_cov"]}]}
{"id": "C87", "title": "The reverse drift of the scripts retraces the forward marginals", "statement": "With the score of the Gaussian marginals, the reverse drift of the GP and the Schrodinger bridge scripts carries mean and covariance back through the forward marginals.", "quantifier": "all dimensions, linear SDEs, Gaussian initial laws, horizons and times at which the marginal covariance is invertible", "why_tests_cant": "Equality of laws at all times; simulation only gives noisy estimates for a few.", "anchors": [{"file": "experiments/toy/gp_pmcmc.py", "symbols": ["reverse_drift", "score"]}, {"file": "experiments/sb/gibbs.py", "symbols": ["reverse_drift"]}]}
{"id": "C88", "title": "The conditional score of the GP experiment is exact", "statement": "reverse_drift of gp_csgm.py (prior score plus gradient of the log density of y given x_t) is the reverse drift for the forward process started from the posterior, and the terminal reference moments are those of that process.", "quantifier": "all dimensions, kernels, linear SDEs, observations, states and times", "why_tests_cant": "An identity for all real arguments.", "anchors": [{"file": "experiments/toy/gp_csgm.py", "symbols": ["reverse_drift"]}]}
{"id": "C89", "title": "The reference draw of the conditional score experiment", "statement": "cond_ref_sampler of gp_csgm.py draws with covariance cond_cov_ref.", "quantifier": "all covariance matrices", "why_tests_cant": "Laws of draws; a test with unit covariance cannot see it.", "anchors": [{"file": "experiments/toy/gp_csgm.py", "symbols": ["cond_ref_sampler"]}]}
{"id": "C90", "title": "Transition and likelihood densities are those of one joint Euler step", "statement": "transition_logpdf plus likelihood_logpdf is the log density of one Euler step of the reverse process of (u, v); transition_sampler draws with the mean and covariance of transition_logpdf.", "quantifier": "all dimensions, drifts, dispersions, positive step sizes, states", "why_tests_cant": "An identity of densities for all real arguments.", "anchors": [{"file": "experiments/toy/gp_pmcmc.py", "symbols": ["transition_sampler", "transition_logpdf", "likelihood_logpdf"]}, {"file": "experiments/sb/gibbs.py", "symbols": ["transition_sampler", "likelihood_logpdf"]}]}
{"id": "C91", "title": "The Kalman filter of the GP experiment is the exact filter of the Euler chain", "statement": "Each step of adhoc_kf in gp_kf.py turns the filtering moments of u given the past of v into those given the new v, for the Euler chain of the reverse process.", "quantifier": "all dimensions, SDEs, grids, observations", "why_tests_cant": "The reference solution of the experiment itself; there is nothing to compare it with in a test.", "anchors": [{"file": "experiments/toy/gp_kf.py", "symbols": ["adhoc_kf", "cond_state_cov", "cond_obs_cov"]}]}
{"id": "C92", "title": "Image transition and likelihood are those of one joint Euler step of the whole image", "statement": "For a mask that divides the image, transition_logpdf plus likelihood_logpdf of the image scripts is the log density of one Euler step of the reverse process of the whole image; transition_sampler is the unobserved part of such a step.", "quantifier": "all image sizes, channels, masks dividing the image, drifts, dispersions, step sizes, states", "why_tests_cant": "An identity for all real pixel values and all masks.", "anchors": [{"file": "experiments/imgs/inpainting.py", "symbols": ["transition_sampler", "transition_logpdf", "likelihood_logpdf"]}, {"file": "experiments/imgs/supr.py", "symbols": ["transition_logpdf", "likelihood_logpdf"]}, {"file": "experiments/sb_imgs/supr.py", "symbols": ["transition_logpdf", "likelihood_logpdf"]}]}
{"id": "C93", "title": "Restored images agree with the observation", "statement": "Every image that the restoration scripts keep agrees with the test image on the observed pixels and has the shape of the test image; this includes the twisted and score-based variants.", "quantifier": "all data sets, tasks, sizes, methods, particle numbers and random draws", "why_tests_cant": "For all random draws, masks and networks.", "anchors": [{"file": "experiments/imgs/inpainting.py", "symbols": ["restored"]}, {"file": "experiments/imgs/supr.py", "symbols": ["restored"]}, {"file": "experiments/imgs/inpainting_csgm.py", "symbols": ["conditional_sampler"]}, {"file": "experiments/imgs/inpainting_twisted.py", "symbols": ["conditional_sampler"]}]}
{"id": "C94", "title": "Test images were not trained on", "statement": "The images of the test set used by the restoration scripts are not among the images on which the network was trained.", "quantifier": "all data sets and all outcomes of the shuffle", "why_tests_cant": "Training and testing are separate runs of separate scripts.", "anchors": [{"file": "fbs/data/images.py", "symbols": ["CelebAHQRestore"]}, {"file": "experiments/imgs/train.py", "symbols": ["dataset"]}, {"file": "experiments/imgs/inpainting.py", "symbols": ["dataset_sampler"]}]}
{"id": "C95", "title": "The test loop is reproducible", "statement": "All methods see the same test images and masks; no key is used twice in one run; a run resumed with --start_from produces for the remaining images what the full run would have produced.", "quantifier": "all seeds, numbers of test images, samples and start indices", "why_tests_cant": "Key bookkeeping over whole runs; collisions leave no trace in the output.", "anchors": [{"file": "experiments/imgs/inpainting.py", "symbols": ["start_from", "data_key"]}, {"file": "experiments/imgs/supr.py", "symbols": ["start_from", "data_key"]}]}
{"id": "C96", "title": "The training scripts use each key once", "statement": "In one run of a training script no random key is used twice, and none is both consumed and split.", "quantifier": "all numbers of epochs, steps and bridge iterations, all kernels", "why_tests_cant": "Key reuse leaves no trace in the output.", "anchors": [{"file": "experiments/imgs/train.py", "symbols": ["data_key", "subkey"]}, {"file": "experiments/sb_imgs/train.py", "symbols": ["sb_kernel", "param_bwd"]}]}
{"id": "C97", "title": "A finished training run leaves its parameters on disk", "statement": "After training, the parameters of the last epoch have been saved under the number of that epoch, once, and the file read by the test scripts exists after the training they document.", "quantifier": "all numbers of epochs and all training kernels", "why_tests_cant": "Training runs are too long for tests.", "anchors": [{"file": "experiments/imgs/train.py", "symbols": ["nepochs"]}, {"file": "experiments/sb_imgs/train.py", "symbols": ["nsbs"]}, {"file": "experiments/imgs/inpainting.py", "symbols": ["test_epoch"]}]}
{"id": "C98", "title": "The learning rate follows the chosen schedule", "statement": "The cosine schedule is defined for every number of epochs, starts at lr, never increases, stays within [lr/100, lr] and reaches lr/100 after 95% of the epochs; in bridge training every iteration runs through the schedule; the exponential schedule decays by 0.96 per epoch.", "quantifier": "all rates, numbers of epochs, steps per epoch and bridge iterations", "why_tests_cant": "The optimiser state that carries the counter is hidden, and the effect shows only after full training.", "anchors": [{"file": "experiments/imgs/train.py", "symbols": ["until_steps", "schedule"]}, {"file": "experiments/sb_imgs/train.py", "symbols": ["until_steps", "sb_kernel"]}]}
{"id": "C99", "title": "The score-based sampler noises the observation like the forward process", "statement": "The noised observations that the score-based conditional sampler feeds to the network are a path of the forward process started from the observation; no key is used twice.", "quantifier": "all linear SDEs, horizons, grids, observations, and all white noises", "why_tests_cant": "Equality of joint laws.", "anchors": [{"file": "experiments/imgs/inpainting_csgm.py", "symbols": ["reverse_drift", "conditional_sampler"]}, {"file": "experiments/imgs/supr_csgm.py", "symbols": ["reverse_drift"]}]}
{"id": "C100", "title": "The random time grids of bridge training are grids", "statement": "The random grid runs from 0 to T in nsteps non-decreasing steps, and the reversed one from T to 0 in non-increasing steps, for all draws.", "quantifier": "all horizons of at least 1e-5, numbers of steps, and all uniform draws", "why_tests_cant": "For all random draws.", "anchors": [{"file": "experiments/sb_imgs/train.py", "symbols": ["loss_fn_init", "loss_fn_bwd", "loss_fn_fwd"]}]}
{"id": "C101", "title": "Multinomial resampling draws independently from the weights", "statement": "The indices returned by multinomial are jointly distributed as n independent draws from the weights put in increasing order: the normalised partial sums of minus the logarithms of n+1 uniforms are uniform order statistics. Every particle has n w_i expected copies.", "quantifier": "all weight vectors and sizes", "why_tests_cant": "A statement about a joint law for every weight vector; the function is marked as not tested in its docstring.", "anchors": [{"file": "fbs/samplers/resampling.py", "symbols": ["_sorted_uniforms", "multinomial"]}]}
{"id": "C102", "title": "The error of resampling vanishes with the number of particles", "statement": "The mean square error of an average over the resampled particles, around the weighted average, is at most b^2/n for functions bounded by b, whatever the weights and the order of the particles.", "quantifier": "all weight vectors, sizes, orders of the particles, functions and keys", "why_tests_cant": "A bound over all weight vectors and sizes; the bad inputs of systematic resampling form a measure-zero family that random tests do not hit.", "anchors": [{"file": "fbs/samplers/resampling.py", "symbols": ["systematic", "stratified", "multinomial", "killing"]}]}
{"id": "C103", "title": "The particle filters converge at the Monte Carlo rate", "statement": "The mean square errors of the bootstrap filter's likelihood and filtering expectations, and of the filter inside PMCMC, are at most a constant over n for bounded likelihoods and test functions, the constant depending only on the number of steps, the bounds and (for filtering expectations) the likelihood.", "quantifier": "all models with finite laws and bounded likelihoods, observations, grids, particle numbers and keys", "why_tests_cant": "A statement about limits.", "anchors": [{"file": "fbs/samplers/smc.py", "symbols": ["bootstrap_filter", "pmcmc_filter_step"]}, {"file": "fbs/samplers/resampling.py", "symbols": ["stratified", "multinomial", "killing"]}]}
{"id": "C104", "title": "Twisting functions approximate the likelihood of the observation", "statement": "In the twisted experiments the guided drift is the reverse drift plus dispersion squared times the gradient of the log twisting function and is defined everywhere; the final twisting function is proportional to the likelihood of the observation, so that the sampler targets the posterior; the denoising estimate is the conditional mean of the clean state; the variance of the image scripts' twisting function is the conditional variance given the data variance.", "quantifier": "all dimensions, length scales, observations, states, times and both noising processes", "why_tests_cant": "The sampler runs and produces plausible samples whatever the twisting function is.", "anchors": [{"file": "experiments/toy/gp_twisted.py", "symbols": ["twisting_logpdf", "reverse_cond_drift", "reverse_drift"]}, {"file": "experiments/imgs/inpainting_twisted.py", "symbols": ["twisting_logpdf"]}, {"file": "experiments/imgs/supr_twisted.py", "symbols": ["twisting_logpdf"]}]}
{"id": "C105", "title": "Conditional SMC ignores the indices of its reference path", "statement": "With path tracing, the law of the path returned by csmc_kernel depends on the reference path but not on the indices bs_star it is stored at (nor on the key), for multinomial and for killing conditional resampling.", "quantifier": "all models with finite laws, reference paths, index vectors, keys, numbers of particles and steps", "why_tests_cant": "An equality of two joint laws of random paths.", "anchors": [{"file": "fbs/samplers/csmc/csmc.py", "symbols": ["csmc_kernel", "forward_pass", "scanning"]}, {"file": "fbs/samplers/csmc/resamplings.py", "symbols": ["killing", "multinomial"]}]}
{"id": "C106", "title": "The conditional SMC chain converges to the smoothing law", "statement": "Iterating csmc_kernel with path tracing from any reference path and indices, expectations of bounded functions of the path converge to their smoothing expectations at a geometric rate uniform in the start, for bounded likelihoods and at least two particles.", "quantifier": "all models with finite laws and bounded likelihoods, starts, keys, numbers of particles, steps and iterations", "why_tests_cant": "A limit over iterations; a test can look at one chain only.", "anchors": [{"file": "fbs/samplers/csmc/csmc.py", "symbols": ["csmc_kernel"]}, {"file": "fbs/samplers/csmc/resamplings.py", "symbols": ["killing", "multinomial"]}, {"file": "tests/test_csmc.py", "symbols": ["test_csmc_gibbs"]}]}
{"id": "C107", "title": "The Gibbs sampler forgets everything but x0", "statement": "Without explicit_final the law of the x0 returned by gibbs_kernel depends on the incoming x0 (and y0) but not on us_star, the reference indices bs_star or the key, with and without explicit_backward and marg_y.", "quantifier": "all models with finite laws, states, index vectors, stored paths, keys, numbers of particles and steps, both flags", "why_tests_cant": "An equality of laws for all pairs of index vectors.", "anchors": [{"file": "fbs/samplers/gibbs.py", "symbols": ["gibbs_kernel", "force_move"]}, {"file": "fbs/samplers/csmc/csmc.py", "symbols": ["forward_pass", "csmc_kernel"]}]}
{"id": "C108", "title": "The Gibbs chain converges to the conditional law", "statement": "Iterating gibbs_kernel from any x0, indices and stored path, expectations of bounded functions of x0 converge to their expectations under the law of x0 given y0 at a geometric rate uniform in the start, when the noised laws of all starting points overlap and the likelihoods are bounded.", "quantifier": "all compatible models with finite laws and bounded likelihoods, starts, keys, both flags, at least two particles, any number of iterations", "why_tests_cant": "A limit over iterations, uniform over the starting points.", "anchors": [{"file": "fbs/samplers/gibbs.py", "symbols": ["gibbs_kernel", "force_move"]}, {"file": "experiments/toy/gp_gibbs.py", "symbols": ["gibbs_kernel_chain_vmap"]}]}
{"id": "C109", "title": "The sample reported by the filter experiments follows the filtering law", "statement": "The sample that the filter experiments (and gibbs_init with method filter) report, the first particle of the last cloud of bootstrap_filter, has the filtering law given the drawn observation path up to an error that vanishes as the number of particles grows.", "quantifier": "all models with finite laws and bounded likelihoods, observation paths, grids, particle numbers and keys", "why_tests_cant": "A statement about a limit; the average over the whole cloud, which a test would look at, does converge.", "anchors": [{"file": "experiments/toy/gp_filter.py", "symbols": ["conditional_sampler"]}, {"file": "experiments/sb/filter.py", "symbols": ["conditional_sampler"]}, {"file": "fbs/samplers/gibbs.py", "symbols": ["gibbs_init"]}, {"file": "fbs/samplers/smc.py", "symbols": ["bootstrap_filter"]}]}
{"id": "C110", "title": "The sample reported by the twisted experiments converges to the twisted target", "statement": "The self-normalised averages over the cloud returned by twisted_smc have a mean square error of at most a constant over n around the expectation under the reference chain reweighted by the last twisting function; the sample drawn with the final weights has that law up to a bias of a constant over n; with one particle it follows the proposal whatever the twisting functions.", "quantifier": "all models with finite laws and bounded incremental weights, proposals, twisting functions, observations, grids, particle numbers and keys", "why_tests_cant": "A statement about the law of one draw and its limit; single runs give plausible samples whatever the law is.", "anchors": [{"file": "experiments/toy/gp_twisted.py", "symbols": ["conditional_sampler"]}, {"file": "experiments/imgs/inpainting_twisted.py", "symbols": ["conditional_sampler"]}, {"file": "experiments/imgs/supr_twisted.py", "symbols": ["conditional_sampler"]}, {"file": "fbs/samplers/smc.py", "symbols": ["twisted_smc"]}]}
{"id": "C111", "title": "The particle MCMC chain converges to the posterior of (x0, path)", "statement": "Iterated with the keys of the scripts from any state with a value of log_ell the filter can produce, pmcmc_kernel has a law that approaches, at a geometric rate in the number of iterations and for every bounded test function, the exact posterior law of the pair (reported x0, observation path).", "quantifier": "all models with bounded likelihoods, unbiased resampling schemes, proposals reversible for the path law and containing a multiple of it (independent proposals do), particle numbers, kept slots, start states, chain indices, keys and chain lengths", "why_tests_cant": "Convergence to the exact law is a statement about all chain lengths; with the finite runs a test can afford, a limit that is off by a few percent looks like Monte Carlo error.", "anchors": [{"file": "fbs/samplers/smc.py", "symbols": ["pmcmc_kernel", "pmcmc_filter_step"]}, {"file": "experiments/toy/gp_pmcmc.py", "symbols": []}]}
{"id": "C112", "title": "Euler-Maruyama converges with the step: forwards to the moments of the SDE, backwards (exact score) to the moments of the data", "statement": "For each linear SDE class, each horizon T and each dimension there is a constant K such that euler_maruyama with the SDE's drift and dispersion, on any increasing grid from 0 to T with any number of integration sub-steps of length at most h, started from a law whose mean and covariance are within e of (m0, C0), ends with mean and covariance within K (e + h) of the exact ones, F m0 and F^2 C0 + Q I. Likewise reverse_simulator with the exact score of data of mean m0 and positive definite covariance C0 (full, not diagonal), started within e of the marginal at T, ends within K (e + h) of (m0, C0). The error does not vanish: one Euler step of the constant SDE never has the exact mean.", "quantifier": "all SDE classes with defined coefficients and non-negative noise on [0,T], all T >= 0, dimensions, means, covariances, grids, numbers of sub-steps, noise laws with zero mean and identity covariance, initial laws, keys", "why_tests_cant": "A test runs one grid and one dimension and compares sample moments, whose Monte-Carlo error hides the discretisation error; the constant must hold for all grids at once.", "anchors": [{"file": "fbs/sdes/simulators.py", "symbols": ["euler_maruyama", "reverse_simulator"]}, {"file": "fbs/sdes/linear.py", "symbols": ["make_linear_sde"]}]}
{"id": "C113", "title": "An Euler step of the reverse simulator with the exact score is the time reversal of the forward transition", "statement": "Started from the exact marginal at t, one step of reverse_simulator (constant SDE, exact Gaussian score) from t to s gives the pair (X_s, X_t) the joint second moments of the forward pair. This is what the invariance results of the Gibbs and filter samplers ask of the reverse transition.", "quantifier": "all a < 0, b <> 0, data means and variances, times 0 <= s < t, laws of the start and of the noise with the right moments", "why_tests_cant": "The difference is of second order in the step and invisible to any test with sampling noise; the claim quantifies over all steps.", "anchors": [{"file": "fbs/sdes/simulators.py", "symbols": ["reverse_simulator", "euler_maruyama"]}, {"file": "fbs/sdes/linear.py", "symbols": ["StationaryConstLinearSDE"]}]}
{"id": "C114", "title": "A whole experiment run uses each random key once, and its chains and samples are independent", "statement": "In the main loops of the toy and sb scripts (nchains chains advanced together by a vmapped kernel from split keys; or a sampler called nsamples times on fresh sub-keys) no key is consumed twice or both consumed and split, over the whole run. The joint law of the chains is the product of the laws each chain has alone, and the recorded samples of the filter and twisted scripts are independent draws from one law.", "quantifier": "all numbers of chains, samples and iterations; all kernels, transition samplers, resampling schemes and initialisers that respect the key discipline themselves; all starting states", "why_tests_cant": "A reused key shows up as a correlation between chains or samples, which no unit test of a single call can see; independence quantifies over all test functions.", "anchors": [{"file": "experiments/toy/gp_gibbs.py", "symbols": ["gibbs_kernel_chain_vmap"]}, {"file": "experiments/toy/gp_pmcmc.py", "symbols": ["pmcmc_kernel"]}, {"file": "experiments/toy/gp_filter.py", "symbols": ["conditional_sampler"]}, {"file": "experiments/toy/gp_twisted.py", "symbols": ["conditional_sampler"]}, {"file": "experiments/sb/filter.py", "symbols": ["conditional_sampler"]}, {"file": "fbs/samplers/gibbs.py", "symbols": ["gibbs_kernel"]}, {"file": "fbs/samplers/smc.py", "symbols": ["pmcmc_kernel", "bootstrap_filter"]}]}
{"id": "C115", "title": "The mean, covariance and error columns of the toy table estimate what they are compared with", "statement": "For a script whose samples are independent draws from a law D (C114), the sample mean and covariance computed by tabulate_toy.py are unbiased for the mean and covariance of D, and the tabulated error of the mean lies between the bias of D and the bias plus the standard error. For a stationary chain the mean is still unbiased. The covariance is symmetric positive semi-definite and has a Cholesky factor, as kl needs. For a stationary chain the covariance is unbiased as well.", "quantifier": "all dimensions, sample sizes, finite laws and reference moments; for chains all stationary kernels with finite laws and all identically distributed runs", "why_tests_cant": "Expectations over all runs; a test sees one table.", "anchors": [{"file": "experiments/tabulators/tabulate_toy.py", "symbols": ["approx_mean", "approx_cov", "err_m"]}, {"file": "experiments/toy/gp_gibbs.py", "symbols": ["gibbs_samples"]}, {"file": "experiments/toy/gp_pmcmc.py", "symbols": ["pmcmc_samples"]}, {"file": "fbs/utils.py", "symbols": ["kl", "bures_dist"]}]}
{"id": "C116", "title": "Each set of results has a file name of its own and the toy table and bridge plot read the settings they print", "statement": "The file a toy or sb script writes is determined by method (with its options), SDE, number of particles and id, and no two different such settings share a name. A row of tabulate_toy.py therefore reads the result of the last run with the settings of that row. After run_toy_all.sh and run_sb_all.sh, whatever order the jobs end in, every file the table and the plot read exists.", "quantifier": "all runs, settings, ids and particle numbers; all orders of completion; SDE names without a dash", "why_tests_cant": "Name clashes are between pairs of runs with any settings, and depend on the order of whole experiments.", "anchors": [{"file": "experiments/toy/gp_gibbs.py", "symbols": ["np.savez"]}, {"file": "experiments/toy/gp_pmcmc.py", "symbols": ["np.savez"]}, {"file": "experiments/toy/gp_filter.py", "symbols": ["np.savez"]}, {"file": "experiments/toy/gp_twisted.py", "symbols": ["np.savez"]}, {"file": "experiments/toy/gp_csgm.py", "symbols": ["np.savez"]}, {"file": "experiments/sb/filter.py", "symbols": ["np.savez"]}, {"file": "experiments/sb/gibbs.py", "symbols": ["np.savez"]}, {"file": "experiments/sb_imgs/supr.py", "symbols": ["gibbs-init"]}, {"file": "experiments/tabulators/tabulate_toy.py", "symbols": ["methods"]}, {"file": "experiments/tabulators/plot_sb.py", "symbols": ["nparticles"]}, {"file": "experiments/run_toy_all.sh", "symbols": ["0.005"]}, {"file": "experiments/run_sb_all.sh", "symbols": ["sb_filter_dardel"]}]}
{"id": "C117", "title": "The image table compares restorations with the image they restore, made by the method of the row", "statement": "If all runs use one test seed then, whatever runs were made in whatever order, the true image and the restorations which tabulate_imgs.py compares come from the same data set, task and draw of the test image, and the restorations from the method, SDE and particle number of the row. After run_imgs_all.sh all files exist. The options the scripts parse out of the method name are those written in it.", "quantifier": "all sets of runs and write orders, all tasks and data sets, all image indices, all option values whose decimal text has no dash", "why_tests_cant": "Concerns interleavings of whole experiments writing one directory.", "anchors": [{"file": "experiments/tabulators/tabulate_imgs.py", "symbols": ["path_head"]}, {"file": "experiments/imgs/supr.py", "symbols": ["path_head"]}, {"file": "experiments/imgs/inpainting.py", "symbols": ["path_head"]}, {"file": "experiments/imgs/supr_csgm.py", "symbols": ["path_head"]}, {"file": "experiments/imgs/inpainting_csgm.py", "symbols": ["path_head"]}, {"file": "experiments/run_imgs_all.sh", "symbols": ["inpainting"]}]}
{"id": "C118", "title": "The image scores order restorations by their error, and what a posterior sampler can score", "statement": "The PSNR column of tabulate_imgs.py is never negative, falls strictly as the mean squared error of the clipped images grows, and clipping never lowers it. For restorations which copy the observed pixels it is the PSNR of the hidden pixels plus a constant of the task. The printed mean PSNR is at least the PSNR of the mean error. The expected error is the spread of the posterior plus the squared bias plus the spread of the restorations. SSIM lies in [-1,1] and a window scores 1 exactly when the images agree there. The exact posterior scores best, and LPIPS gets (1,c,h,w) tensors.", "quantifier": "all image sizes and images, all masks, all finite laws of truths and restorations, all window sets", "why_tests_cant": "Inequalities over all images and expectations over all sampler laws.", "anchors": [{"file": "experiments/tabulators/tabulate_imgs.py", "symbols": ["to_img", "to_torch_tensor", "psnr", "ssim"]}, {"file": "fbs/data/images.py", "symbols": ["normalise"]}]}
{"id": "C119", "title": "What the training losses are minimised by", "statement": "For any law of the data and any arrival state y of the noising step, the expected squared error of the 'score' and 'ipf-score' losses has exactly one minimiser over the outputs of the network at y: the gradient of the log density of the noised data. The 'ipf' loss is minimised by (2-F)y + Q grad log p(y), and the two Schroedinger-bridge losses by the drift -f + g^2 grad log p of the time reversal and by its mean. The 'ipf' loss learns the mean of the previous state. With two different data the score loss is positive for every network.", "quantifier": "all finite laws of the data or of the previous state, all linear SDEs with positive step variance, all simulators, times, dimensions, states and network outputs", "why_tests_cant": "An argmin over all functions of an expectation under an arbitrary law; a test trains one network on one data set and never reaches it.", "anchors": [{"file": "fbs/sdes/linear.py", "symbols": ["make_linear_sde_law_loss", "loss_fn", "cond_score_t_0"]}, {"file": "fbs/dsb/base.py", "symbols": ["ipf_loss_disc", "ipf_loss_cont"]}]}
{"id": "C120", "title": "What the autocorrelation figures show", "statement": "Both autocorrelation figures start at 1 and stay within [-1,1], do not depend on the scale and offset of the variables nor on the length of the Fourier transform; the lags of every series add up to -1/2. Every run gives a curve. The toy figure bounds the autocorrelation of every variable; the image figure is the autocorrelation of the best pixel. Independent samples show zero on average.", "quantifier": "all series, numbers of samples, chains, runs and variables, all transform lengths, all exchangeable laws of the samples", "why_tests_cant": "Identities for all series and expectations under all exchangeable laws.", "anchors": [{"file": "experiments/tabulators/plot_autocorrs_toy.py", "symbols": ["autocorr_over_chains", "autocorrelation"]}, {"file": "experiments/tabulators/plot_autocorrs_imgs.py", "symbols": ["ac_fn", "nanmin"]}]}
{"id": "C121", "title": "Which result files the figures read", "statement": "After the complete synthetic and image experiments, in whatever order their jobs end, the autocorrelation, contour and trace figures find for every method label the results of a run with exactly these settings, and no run with other settings is read under a label. The image figure, which cuts its labels at the dashes, finds the restorations of its label.", "quantifier": "all orders of the jobs, all labels, ids, stored contents", "why_tests_cant": "All interleavings of hundreds of jobs.", "anchors": [{"file": "experiments/tabulators/plot_autocorrs_toy.py", "symbols": ["methods"]}, {"file": "experiments/tabulators/plot_toy_contours.py", "symbols": ["methods"]}, {"file": "experiments/tabulators/plot_pmcmc_trace.py", "symbols": ["filename"]}, {"file": "experiments/tabulators/plot_autocorrs_imgs.py", "symbols": ["path_head"]}, {"file": "experiments/run_toy_all.sh", "symbols": ["toy_pmcmc"]}]}
{"id": "C122", "title": "The standardized convolution", "statement": "WeightStandardizedConv convolves with a kernel of mean 0 and variance 1 per output channel, so that an offset or a positive factor in the parameters does not matter and the same constant added to all entries of the image changes nothing; a constant kernel gives the bias; the output differs from the bias by at most sqrt(k*k*C) times the norm of the window.", "quantifier": "all kernels, biases, images, kernel sizes, strides, paddings and channels", "why_tests_cant": "Identities and inequalities over all real kernels and images.", "anchors": [{"file": "fbs/nn/unet.py", "symbols": ["WeightStandardizedConv", "standardized_kernel"]}]}
{"id": "C123", "title": "The U-Net treats the elements of a batch separately", "statement": "The output of UNet for an image and a time does not depend on the other images and times of the batch, on its place in the batch, on the batch size, on whether the time is one scalar or one per image, or on whether the image is given without batch axis. The computed values have the shapes of C56 and the call fails exactly when C56 says so.", "quantifier": "all parameters, channel multipliers, group counts, upsampling methods, image sizes, batches, images and times", "why_tests_cant": "Relates all pairs of batches; the network has unboundedly many configurations and parameters.", "anchors": [{"file": "fbs/nn/unet.py", "symbols": ["UNet", "ResnetBlock", "AttnBlock", "l2norm"]}, {"file": "fbs/nn/base.py", "symbols": ["sinusoidal_embedding"]}]}
{"id": "C124", "title": "The U-Net grows at most linearly", "statement": "For given parameters and image size there are constants a and g such that every entry of UNet(x, t) is at most a + g max|x|, whatever the image, the time, the batch and the place in it; the change made by a ResnetBlock that keeps the number of channels is bounded.", "quantifier": "all parameters, configurations, images, times and batches", "why_tests_cant": "A bound uniform in unboundedly large images and all times.", "anchors": [{"file": "fbs/nn/unet.py", "symbols": ["UNet", "GroupNorm", "Attention", "LinearAttention", "Upsample"]}]}
{"id": "C125", "title": "The U-Net is Lipschitz in the image and the time", "statement": "For given parameters and image size there is a constant k such that two images that differ by at most d in every entry, at times that differ by at most d, have UNet outputs that differ by at most k d in every entry, whatever the images, the times, the batches and the places in them (or both calls fail).", "quantifier": "all parameters, configurations, pairs of images, times and batches", "why_tests_cant": "A modulus of continuity over all pairs of real images of any magnitude; sampling pairs gives only lower bounds of k.", "anchors": [{"file": "fbs/nn/unet.py", "symbols": ["UNet", "GroupNorm", "Attention", "LinearAttention", "l2norm"]}, {"file": "fbs/nn/base.py", "symbols": ["sinusoidal_embedding"]}]}
{"id": "C126", "title": "The U-Net sampler is stable in its initial value and does not explode", "statement": "With a U-Net as the score, reverse_simulator returns samples that are Lipschitz in the initial value with the constant exp(K T), and whose mean square is at most exp(C T) (mean square of the initial value + B T), where K, C and B depend on the network parameters, the SDE and T only: not on the time grid, the number of sub-steps, the noise or the initial value.", "quantifier": "all parameters and configurations that run on the image size, all linear SDEs, grids, sub-step counts, noises and initial laws", "why_tests_cant": "Bounds uniform over all grids, i.e. over unboundedly many network evaluations in sequence.", "anchors": [{"file": "fbs/sdes/simulators.py", "symbols": ["reverse_simulator", "euler_maruyama"]}, {"file": "fbs/nn/unet.py", "symbols": ["UNet"]}, {"file": "fbs/nn/base.py", "symbols": ["make_st_nn"]}, {"file": "experiments/imgs/train.py", "symbols": ["rev_sim"]}]}
{"id": "C127", "title": "Sub-steps per interval change the U-Net sampler by at most the mesh of the grid", "statement": "With a U-Net as the score, reverse_simulator with integration_nsteps = m and with one step per interval, driven by the same noise (the single steps use the normalised sums of the sub-steps' noise), return samples whose mean-square distance is at most C e (1 + |u0|^2), where e is the largest interval of the grid and C depends on the network parameters, the SDE and T only: not on the grid, m or u0. So the expectations of a Lipschitz statistic under the two samplers differ by at most L sqrt(C e (1 + |u0|^2)), whatever keys they use.", "quantifier": "all parameters and configurations that run on the image size, all linear SDEs (also with a square-root dispersion), grids, sub-step counts, noise laws and initial values", "why_tests_cant": "A strong convergence bound over all grids and all sub-step counts at once, for a score without closed form.", "anchors": [{"file": "fbs/sdes/simulators.py", "symbols": ["reverse_simulator", "euler_maruyama"]}, {"file": "fbs/nn/unet.py", "symbols": ["UNet"]}, {"file": "fbs/nn/base.py", "symbols": ["make_st_nn"]}, {"file": "experiments/imgs/train.py", "symbols": ["rev_sim"]}]}
{"id": "C128", "title": "The error of the samples is bounded by the error of the score network", "statement": "Run reverse_simulator with a U-Net as the score and with another score, from the same initial value with the same noise. The squared distance of the two samples is at most C times the squared distance of the two scores integrated along the run of the other score, where C depends on the network, the SDE and T only: not on the grid, the number of sub-steps, the noise, the initial value or the other score. For data with mean m0 and covariance C0 the mean and covariance of the network's samples therefore differ from m0 and C0 by the discretisation error and by terms that vanish with the mean-square score error along the run of the exact score.", "quantifier": "all parameters and configurations that run on the image size, all linear SDEs, grids, sub-step counts, noises, initial values and comparison scores", "why_tests_cant": "Relates what training minimises to the quality of the samples, uniformly over unboundedly many network evaluations in sequence.", "anchors": [{"file": "fbs/sdes/simulators.py", "symbols": ["reverse_simulator", "euler_maruyama"]}, {"file": "fbs/nn/unet.py", "symbols": ["UNet"]}, {"file": "fbs/nn/base.py", "symbols": ["make_st_nn"]}, {"file": "experiments/imgs/train.py", "symbols": ["rev_sim"]}]}
{"id": "C129", "title": "The ancestors of the filter's particles coalesce, and the coalescence figure shows them", "statement": "Follow the slot of the initial cloud each particle of bootstrap_filter descends from. The set of ancestors can only shrink from step to step; all particles end up with one common ancestor, at a rate that does not depend on the likelihood or the transition; and the figure made from gibbs_init(method='debug') draws the trajectories of particles, whose merging it shows.", "quantifier": "all transitions and likelihoods, numbers of particles, observation paths, time grids, keys and runs", "why_tests_cant": "Needs the law of the genealogy over all steps and an adversarial likelihood; the filter never returns ancestors, so no test of its output can see them.", "anchors": [{"file": "fbs/samplers/smc.py", "symbols": ["bootstrap_filter"]}, {"file": "fbs/samplers/resampling.py", "symbols": ["stratified", "systematic", "multinomial", "killing"]}, {"file": "fbs/samplers/gibbs.py", "symbols": ["gibbs_init"]}, {"file": "experiments/tabulators/plot_img_coalescence.py", "symbols": ["x0s"]}]}
{"id": "C130", "title": "The divergence between the samplers with two scores is the weighted score error", "statement": "Run reverse_simulator with a score s. The expected log-density of its run (all sub-steps) under s minus that under another score s' equals half of the squared distance of the two scores, weighted with the squared dispersion and integrated along the run at the times and with the step lengths of the simulator. It is therefore non-negative, so no other score explains the runs of s better, and it lies between multiples of the score error of C128. The density of a step is the product of the transition and the likelihood density that the filters use, so the same number is the divergence between the joint laws of the state and observation paths on which they condition.", "quantifier": "all dimensions, linear SDEs with positive dispersion, scores (U-Nets included), strictly ascending grids, sub-step counts, initial values and noise laws with mean 0 and covariance I", "why_tests_cant": "An identity between an expectation over all runs and a sum over all network evaluations.", "anchors": [{"file": "fbs/sdes/simulators.py", "symbols": ["reverse_simulator", "euler_maruyama"]}, {"file": "fbs/nn/unet.py", "symbols": ["UNet"]}, {"file": "experiments/toy/gp_pmcmc.py", "symbols": ["transition_logpdf", "likelihood_logpdf"]}]}
{"id": "C131", "title": "The conditional sampler inherits the error of the reverse dynamics", "statement": "Let the transitions and likelihoods used by the filter be an inexact model of the true time reversal of the noising (an inexact score or drift). Averaged over the observation and its noised path, the squared difference between the normalised measure targeted by bootstrap_filter and the true law of the hidden path given the observations is at most 2 B^2 times the divergence of the model from the true reverse process, added up over the initial law and the steps, for every test function bounded by B. Hence the sample reported by conditional_sampler follows the posterior of x0 given y0 up to B sqrt(2 divergence) plus the Monte Carlo error of C109, in mean over y0.", "quantifier": "all finitely supported true reverse processes and models with positive density ratio, grids, particle counts, bounded test functions and keys; killing resampling for the reported sample", "why_tests_cant": "Joins the error of the learnt dynamics to the error of the whole randomised filter, for every model; no run shows the true posterior.", "anchors": [{"file": "fbs/samplers/smc.py", "symbols": ["bootstrap_filter"]}, {"file": "experiments/toy/gp_filter.py", "symbols": ["conditional_sampler", "transition_sampler", "likelihood_logpdf"]}, {"file": "experiments/sb/filter.py", "symbols": ["conditional_sampler"]}]}
{"id": "C132", "title": "The small networks treat rows separately, are Lipschitz in space, and all but one in time", "statement": "CrescentMLP accepts exactly the vectors and batches whose number of rows broadcasts with the number of times, and returns the result without axes of size one; GMSBMLP accepts exactly batches with one time or one per row and keeps both axes. In both, every row of the result is what the network gives on that row alone at its own time. For all parameters, CrescentMLP, GMSBMLP, ClassicMLP and MNISTAutoEncoder are Lipschitz in the input with one constant for all times; the last three are Lipschitz in input and time together, CrescentMLP on bounded sets only: there are parameters for which the change of its output between two fixed times is unbounded. With CrescentMLP as the score, the reverse sampler is Lipschitz in its initial value and has a bounded second moment, uniformly over the grids.", "quantifier": "all parameters, widths, inputs, scalar or per-row times, dt; for the sampler all linear SDEs, grids, sub-steps and noises", "why_tests_cant": "Quantifies over all parameters and all inputs; the failing direction needs an unbounded family of inputs with chosen parameters.", "anchors": [{"file": "fbs/nn/models.py", "symbols": ["CrescentMLP", "_CrescentTimeBlock", "GMSBMLP", "ClassicMLP", "MNISTAutoEncoder", "make_simple_st_nn"]}, {"file": "fbs/sdes/simulators.py", "symbols": ["reverse_simulator"]}]}
{"id": "C133", "title": "MNISTResConv is bounded and Lipschitz in image and time, hence never close to an affine score", "statement": "MNISTResConv (pixel-shuffle decoder, scalar time) accepts exactly vectors of 784 entries and batches of such rows, and returns the batch without axes of size one; images of one batch do not influence each other. For all parameters its outputs are bounded over all images and times, and are Lipschitz in image and time together with one constant. Consequently, whatever the parameters, its distance to a score with a linear part (as for noised Gaussian data) is unbounded.", "quantifier": "all parameters, dt, batches, images, times", "why_tests_cant": "Quantifies over all parameters and all inputs; the bound and the negative statement are about unbounded sets of inputs.", "anchors": [{"file": "fbs/nn/models.py", "symbols": ["MNISTResConv"]}, {"file": "fbs/nn/utils.py", "symbols": ["PixelShuffle"]}]}
{"id": "C134", "title": "The start of the noised observation path in the bridge filter", "statement": "experiments/sb/filter.py noises (x0, y0) forwards to get the observation path it filters on. If x0 is drawn from the posterior, and the reverse process is exact, the filtering law averaged over the noised observation path is exactly the posterior of x0 given y0. If x0 is drawn from another law nu (--x0 heuristic, the three starts of sb_imgs/supr.py), the reported sample is off by at most 2 B TV(nu, posterior) times the share of the observation path law that depends on x0, plus the Monte Carlo error; when the noising is separable the start does not matter at all; otherwise a heuristic start does not give the posterior even with infinitely many particles. The start and the noising draw from separate keys, each used once. gp_posterior_sampler, which --x0 proper uses, draws from the GP posterior.", "quantifier": "all state spaces, data laws, noising processes with their exact reversal, starting laws, observations, particle numbers, bounded test functions; all grid sizes and kernel parameters", "why_tests_cant": "A statement about the law of the output for all models and starts, in the limit of many particles; the error of the start is invisible in a run.", "anchors": [{"file": "experiments/sb/filter.py", "symbols": ["fwd_ys_sampler_proper", "fwd_ys_sampler_heuristic", "conditional_sampler", "gp_posterior_sampler"]}, {"file": "experiments/sb/gibbs.py", "symbols": ["fwd_ys_sampler_heuristic"]}, {"file": "experiments/sb_imgs/supr.py", "symbols": ["random_x0_sampler", "blank_x0_sampler", "interp_x0_sampler"]}]}
{"id": "C135", "title": "The low-resolution image and the interpolated start in super-resolution", "statement": "In the super-resolution scripts, reshaping the observation to (resolution // rate, resolution // rate) gives the small image whose pixel (i, j) is the observed pixel of block (i, j), for random and fixed masks. interp_x0_sampler of sb_imgs/supr.py enlarges this image bilinearly and returns one value per hidden pixel, all within the range of the observed values; the enlarged image passes through the observed pixels and reproduces images that vary linearly.", "quantifier": "all rates and resolutions divisible by the rate, all masks drawn by gen_mask, all images, all hidden pixels (linear images: those between the centres of the outer blocks)", "why_tests_cant": "Depends on the order in which gen_mask lists the pixels, on the sampling grid of jax.image.resize, and on the parity of the rate; a picture that looks right can be half a pixel off.", "anchors": [{"file": "experiments/sb_imgs/supr.py", "symbols": ["interp_x0_sampler", "low_res"]}, {"file": "experiments/imgs/supr.py", "symbols": ["low_res"]}, {"file": "fbs/data/images.py", "symbols": ["_gen_supr_mask", "unpack"]}]}
{"id": "C136", "title": "The matrix routines always return and the closed form bridge is defined on all of [0, 1]", "statement": "eigh has a result on every symmetric matrix, so sqrtm and bures_dist return on every covariance; the Cholesky factorisation succeeds on every symmetric positive definite matrix and solving with it inverts. In make_gaussian_bw_sb both square roots exist, the linear solve has exactly one solution, the marginal covariance handed to cho_factor is positive definite at every time of [0, 1], the returned mean, covariance and drift satisfy the moment equations there, and inside the interval the drift is a gradient field with a differentiable slope A solving A' = -A^2.", "quantifier": "all dimensions, all symmetric positive definite covariances, all means, all diffusion coefficients, all times of the unit interval", "why_tests_cant": "A test can only try covariances; whether some pair of covariances and some time make the factorised matrix indefinite (the code would silently return NaN) needs an argument about all of them.", "anchors": [{"file": "fbs/sdes/linear.py", "symbols": ["make_gaussian_bw_sb"]}, {"file": "fbs/utils.py", "symbols": ["sqrtm", "bures_dist"]}]}
{"id": "C137", "title": "What the Bures and variance columns measure on independent samples", "statement": "bures_dist lies between the squared distance of the means and that plus ||cov1 - cov0||_F^2 / lambda_min(cov0), also when cov1 is singular. Over n >= 2 independent samples of a law with mean m, covariance c and coordinates within B of their means, the expected Bures column against a reference (M, C) is at least |m - M|^2 + tr(c)/n and at most that plus (||c - C||_F^2 + 16 d^2 B^4 / n) / lambda_min(C); for a sampler with exactly the reference moments it is at least tr(C)/n and O(1/n). The variance column is within 4 B^2 / sqrt(n) of the mean absolute error of the variances, and never below it in expectation.", "quantifier": "all dimensions, all sample sizes n >= 2, all finite laws, all reference means and positive definite covariances, all keys", "why_tests_cant": "An expectation over all samples of a nonlinear matrix function; a test sees a few runs and cannot tell the method's error from the sampling floor.", "anchors": [{"file": "experiments/tabulators/tabulate_toy.py", "symbols": ["err_bures", "err_var"]}, {"file": "experiments/tabulators/plot_sb.py", "symbols": ["err_bures"]}, {"file": "fbs/utils.py", "symbols": ["bures_dist"]}]}
{"id": "C138", "title": "The closed form drift is the control of least energy: make_gaussian_bw_sb does return the Schroedinger bridge", "statement": "Among all controlled processes dX = u dt + sig dW on [0, 1] whose state starts with mean and covariance (mean0, cov0) and ends with (mean1, cov1), driving the state with the returned drift has the least expected energy E int |u|^2 dt; the energy of any other control is that minimum plus the time integral of the mean squared distance of the control from the returned drift, so a control of the same energy equals the drift at every atom of positive mass at every interior time.", "quantifier": "all dimensions, all means, all symmetric positive definite covariances, all diffusion coefficients, all controls (open loop or feedback, of any functional form) represented by joint laws of state and control that satisfy the moment equations", "why_tests_cant": "A test can check that the two end points are reached, but many drifts reach them; that no other control is cheaper is a statement about an infinite dimensional family.", "anchors": [{"file": "fbs/sdes/linear.py", "symbols": ["make_gaussian_bw_sb"]}]}
{"id": "C139", "title": "The simulated Doob bridge follows the bridge before the end and misses the target by the square root of a step", "statement": "At every grid time up to T1 < T, doob_bridge_simulator has the mean and covariance of the SDE conditioned on both its end points up to a constant times the length of the integration sub-steps, whatever replace is; with replace = False the last point is within a constant times that length of the target in mean square, and on no grid is it equal to the target.", "quantifier": "all constant and linear-schedule SDEs with positive noise on [0, T], all horizons, dimensions, end points, time grids (uneven ones too), numbers of sub-steps, keys, and all noise laws with mean zero and unit covariance", "why_tests_cant": "The bridge drift is singular at T, so no Lipschitz argument covers the last step and no finite set of step sizes shows a rate; the constant has to work for every grid and every law of the noise.", "anchors": [{"file": "fbs/sdes/simulators.py", "symbols": ["doob_bridge_simulator", "euler_maruyama"]}, {"file": "fbs/sdes/linear.py", "symbols": ["bridge_drift"]}]}
{"id": "C140", "title": "Simulating the closed form bridge reaches its marginals, forwards and backwards", "statement": "Euler-Maruyama with the drift returned by make_gaussian_bw_sb, started within e of (mean0, cov0), has at every grid time the mean and covariance returned by marginal_mean and marginal_cov up to a constant times e plus the length of the sub-steps, and so ends at (mean1, cov1); with the reverse drift and score of the bridge scripts, started within e of (mean1, cov1), it has the marginals of the mirrored times and ends at (mean0, cov0).", "quantifier": "all dimensions, means, symmetric positive definite covariances, diffusion coefficients, time grids on [0, 1] (uneven ones too), numbers of sub-steps, keys, initial laws and noise laws with mean zero and unit covariance", "why_tests_cant": "One run compares one covariance with a Monte Carlo estimate at one step size; a rate with one constant for all grids and laws needs bounds of the drift and of the inverse covariance on the whole of [0, 1].", "anchors": [{"file": "fbs/sdes/linear.py", "symbols": ["make_gaussian_bw_sb"]}, {"file": "fbs/sdes/simulators.py", "symbols": ["euler_maruyama"]}, {"file": "experiments/sb/filter.py", "symbols": ["reverse_drift", "score", "fwd_ys_sampler_proper"]}, {"file": "experiments/sb/gibbs.py", "symbols": ["reverse_drift", "fwd_sampler"]}]}
{"id": "C141", "title": "What reverse_simulator returns from a start that is not the marginal at T", "statement": "Started within e of any mean ma and covariance Sa, reverse_simulator with the exact score of data (m0, C0) ends within a constant times e + h of m0 + F C0 W (ma - F m0) and C0 + F^2 C0 W (Sa - P) W C0, where P = F^2 C0 + Q I is the covariance of the marginal at T and W its inverse. These are the moments of the data only for ma = F m0 and Sa = P. From mean zero and the stationary covariance the errors are of the order of F^2 / Q in the mean and of its square in the covariance, with one constant for all SDEs and horizons.", "quantifier": "all SDE classes with defined coefficients, horizons, dimensions, data moments with positive definite covariance, starts, grids, numbers of sub-steps, keys, noise laws with mean zero and unit covariance", "why_tests_cant": "A test starts from one reference law at one horizon; it cannot tell the bias of the start from that of the discretisation, and cannot show that no other start is right.", "anchors": [{"file": "fbs/sdes/simulators.py", "symbols": ["reverse_simulator", "euler_maruyama"]}, {"file": "fbs/sdes/linear.py", "symbols": ["make_linear_sde"]}]}
{"id": "C142", "title": "The conditional score sampler of the GP experiment converges to the GP posterior", "statement": "conditional_sampler of gp_csgm.py, as the grid is refined, ends with the mean and the covariance of the GP posterior.", "quantifier": "all dimensions, kernels, observations, SDEs of the script, grids, keys, noise laws with mean zero and unit covariance", "why_tests_cant": "The script compares samples with the posterior only through plots and tables; whether an error is due to the step, the number of samples or the start needs the limit itself.", "anchors": [{"file": "experiments/toy/gp_csgm.py", "symbols": ["conditional_sampler", "cond_ref_sampler", "reverse_drift"]}]}
{"id": "C143", "title": "The conditional score sampler of the image experiments converges to the conditional law", "statement": "conditional_sampler of inpainting_csgm.py and supr_csgm.py, with the exact score in place of the network and as the number of steps grows, returns draws with the mean and the variance of the unobserved pixels given the observed ones.", "quantifier": "all stationary SDEs of the scripts, horizons, correlations, observed values, keys, noise laws with mean zero and unit variance, numbers of steps", "why_tests_cant": "The script has no reference for the conditional law of an image; samples of one trained network cannot separate the error of the network from that of replacing the observation path by a fresh draw at each step.", "anchors": [{"file": "experiments/imgs/inpainting_csgm.py", "symbols": ["conditional_sampler", "euler_maruyama", "reverse_drift", "cond_ref_sampler"]}, {"file": "experiments/imgs/supr_csgm.py", "symbols": ["conditional_sampler", "euler_maruyama", "reverse_drift", "cond_ref_sampler"]}]}
{"id": "C144", "title": "What the KL column of the toy table measures on independent samples", "statement": "The number err_kl of tabulate_toy.py is a function of the samples, undefined when there are no more samples than dimensions. When the sample covariance is within lam/2 of the reference covariance (lam a lower bound of its eigenvalues, Frobenius norm), it is defined, at most 2 |dC|^2 / lam^2 + 3 |dm|^2 / lam and at least |dm|^2 / (Lam + lam/2). Over n independent samples that event fails with a probability at most 4 eC / lam^2, and on it the expected value is at most 2 eC / lam^2 + 3 eM / lam, with eC and eM the squared errors of the sampler's moments plus terms of order 1/n.", "quantifier": "all dimensions, numbers of samples, reference moments with a positive definite covariance, samplers with bounded coordinates, keys", "why_tests_cant": "A test sees one number of one table; that it is finite with high probability, and small exactly when the moments are right, is a statement about all samplers and sample sizes.", "anchors": [{"file": "experiments/tabulators/tabulate_toy.py", "symbols": []}, {"file": "fbs/utils.py", "symbols": ["kl"]}]}
{"id": "C145", "title": "The Kalman filter of the GP experiment finds the posterior covariance on a fine grid", "statement": "Every covariance adhoc_kf of gp_kf.py returns is a covariance, the filter is defined on every path, and with more and more steps what it returns approaches the posterior covariance of the GP.", "quantifier": "all linear SDEs with positive dispersion, horizons, dimensions, kernel matrices, observation variances, paths, initial moments, grids", "why_tests_cant": "A test runs one grid and one path; the limit, and that no path or start avoids it, are statements about all of them.", "anchors": [{"file": "experiments/toy/gp_kf.py", "symbols": ["adhoc_kf", "cond_obs_cov", "cond_obs_mean"]}]}
{"id": "C146", "title": "The filter of the Euler chain that the toy samplers target has the GP posterior covariance in the limit", "statement": "Conditioning the Euler chain of the reverse GP diffusion on a path of v, from the law of u given v at the terminal time, gives a covariance that differs from the posterior covariance of the GP by at most K dt in every entry, for every path; the filter of gp_kf.py computes these covariances.", "quantifier": "all linear SDEs with positive dispersion, horizons, dimensions, kernel matrices, observation variances, paths, terminal observations, grids with dt <= 1", "why_tests_cant": "The constant is uniform over paths and grids and the statement is about a limit; a test sees one path and one grid, and the only reference the experiment has is the filter that is wrong.", "anchors": [{"file": "experiments/toy/gp_pmcmc.py", "symbols": ["transition_sampler", "reverse_drift_u", "reverse_drift_v"]}, {"file": "experiments/toy/gp_kf.py", "symbols": ["adhoc_kf", "cond_state_cov", "cond_obs_cov"]}]}
{"id": "C147", "title": "The filter of the Euler chain that the toy samplers target has the GP posterior mean in the limit", "statement": "Conditioning the Euler chain of the reverse GP diffusion on a path of v, from the law of u given the terminal value of the path, gives a mean that depends in the limit only on the end of the path: it differs from the GP posterior mean given the observation by at most K dt times the size of the path, so by the order of sqrt(dt) for diffusion paths.", "quantifier": "all linear SDEs with positive dispersion, horizons, dimensions, kernel matrices, observation variances, paths of v, grids with dt <= 1", "why_tests_cant": "The samplers draw a new path of v for every sample; that the path does not matter, uniformly over paths and grids, is not visible from one run.", "anchors": [{"file": "experiments/toy/gp_pmcmc.py", "symbols": ["transition_sampler", "reverse_drift_u", "reverse_drift_v"]}, {"file": "experiments/toy/gp_kf.py", "symbols": ["adhoc_kf"]}]}
{"id": "C148", "title": "The Kalman filter of the GP experiment finds the posterior mean on a fine grid", "statement": "With more and more steps the mean adhoc_kf of gp_kf.py returns approaches the posterior mean of the GP given the end of the path, as the mean of the exact filter of the Euler chain does.", "quantifier": "all linear SDEs with positive dispersion, horizons, dimensions, kernel matrices with a direction of variance below the observation variance, grids", "why_tests_cant": "The script is the reference the other samplers are compared with; one run gives one mean, and there is nothing in the code to compare it with.", "anchors": [{"file": "experiments/toy/gp_kf.py", "symbols": ["adhoc_kf", "cond_obs_cov", "cond_obs_mean"]}]}
