{"id": "C01", "title": "Block tridiagonal products agree with the dense matrix", "statement": "For every LowerTriangular/SymmetricBlockTriDiagonal object B and every right hand side x, B.dense_mult(x) (and with transpose_left=True) equals the product of the matrix B.to_dense() (resp. its transpose) with x.", "quantifier": "all block counts, block sizes, block values, with and without a sub-diagonal, all right hand sides", "why_tests_cant": "tests fix a handful of sizes and random draws; the claim ranges over all sizes and all real entries", "anchors": ["markovflow/block_tri_diag.py: dense_mult, to_dense, _flatten_right, _unflatten_right"]}
{"id": "C02", "title": "Adding block tridiagonal matrices is dense addition", "statement": "(a + b).to_dense() = a.to_dense() + b.to_dense() for every combination of present/absent sub-diagonals, for both classes.", "quantifier": "all block counts >= 1, block sizes, values, and all four combinations of sub-diagonal presence", "why_tests_cant": "tests fix a handful of sizes and random draws; the claim ranges over all sizes and all real entries; four presence cases times all sizes", "anchors": ["markovflow/block_tri_diag.py: LowerTriangularBlockTriDiagonal.__add__, SymmetricBlockTriDiagonal.__add__"]}
{"id": "C03", "title": "solve inverts dense_mult", "statement": "For a lower triangular block bidiagonal L whose diagonal has no zero entry, L.solve(L.dense_mult(x)) = x and L.dense_mult(L.solve(x)) = x, also with transpose_left, and solve satisfies the block forward (backward) substitution recursion.", "quantifier": "all sizes, entries and right hand sides", "why_tests_cant": "tests fix a handful of sizes and random draws; the claim ranges over all sizes and all real entries", "anchors": ["markovflow/block_tri_diag.py: solve, dense_mult"]}
{"id": "C04", "title": "Block Cholesky is the Cholesky factor of the dense matrix", "statement": "If B.to_dense() is symmetric positive definite then B.cholesky.to_dense() is lower triangular with positive diagonal and multiplies with its transpose to B.to_dense(): nothing outside the block diagonal and block sub-diagonal is lost by keeping the block bidiagonal form.", "quantifier": "all symmetric positive definite block tridiagonal matrices of every size", "why_tests_cant": "tests fix a handful of sizes and random draws; the claim ranges over all sizes and all real entries; fill-in outside the band would only be excluded for tried matrices", "anchors": ["markovflow/block_tri_diag.py: SymmetricBlockTriDiagonal.cholesky, _banded_to_block_tri"]}
{"id": "C05", "title": "UDU factorisation reconstructs the matrix", "statement": "For every positive definite symmetric block tridiagonal K, upper_diagonal_lower() returns (U^T, chol_D) with U D U^T = K.to_dense(), U^T unit block lower bidiagonal, D = chol_D chol_D^T block diagonal and positive definite; every Cholesky taken inside the loop is of a positive definite matrix.", "quantifier": "all positive definite inputs with at least two blocks", "why_tests_cant": "tests fix a handful of sizes and random draws; the claim ranges over all sizes and all real entries; the backward loop runs an unbounded number of steps", "anchors": ["markovflow/block_tri_diag.py: upper_diagonal_lower"]}
{"id": "C06", "title": "abs_log_det is the log absolute determinant", "statement": "L.abs_log_det() = log |det L.to_dense()|.", "quantifier": "all lower block bidiagonal matrices with non-zero diagonal entries", "why_tests_cant": "tests fix a handful of sizes and random draws; the claim ranges over all sizes and all real entries", "anchors": ["markovflow/block_tri_diag.py: abs_log_det"]}
{"id": "C07", "title": "block_diagonal_of_inverse returns the blocks of the inverse", "statement": "L.block_diagonal_of_inverse() are the diagonal blocks of (L L^T)^{-1} computed densely, and they satisfy the backward block recursion.", "quantifier": "all lower block bidiagonal L with non-zero diagonal", "why_tests_cant": "tests fix a handful of sizes and random draws; the claim ranges over all sizes and all real entries", "anchors": ["markovflow/block_tri_diag.py: block_diagonal_of_inverse"]}
{"id": "C08", "title": "Band storage round trip", "statement": "Converting a block bidiagonal matrix to band storage and back with _banded_to_block_tri returns the lower triangles of the diagonal blocks and the sub-diagonal blocks, and the unpacked band equals to_dense.", "quantifier": "all block counts and block sizes, with or without sub-diagonal", "why_tests_cant": "index arithmetic (div/mod by block size, padding with a zero block) must be right for every size", "anchors": ["markovflow/block_tri_diag.py: _convert_to_band, _banded_to_block_tri, bandwidth"]}
{"id": "C09", "title": "SSM marginal means and covariances are the moments of the generative recursion", "statement": "For x_0 = mu_0 + chol_P_0 e_0, x_{k+1} = A_k x_k + b_k + chol_Q_k e_{k+1} with e white noise, marginal_means and marginal_covariances are the means and covariances of x_k; covariance_blocks returns the covariances of (x_{k+1}, x_k).", "quantifier": "all state space models with invertible process noise, all lengths and dimensions", "why_tests_cant": "tests fix a handful of sizes and random draws; the claim ranges over all sizes and all real entries; the claim chains two solves, a Cholesky and an inverse over an unbounded horizon", "anchors": ["markovflow/state_space_model.py: marginal_means, marginal_covariances, subsequent_covariances, covariance_blocks"]}
{"id": "C10", "title": "SSM precision is the inverse joint covariance", "statement": "ssm.precision.to_dense() multiplied by the joint covariance of all states is the identity.", "quantifier": "all lengths, dimensions, transition matrices, offsets, lower triangular noise factors with non-zero diagonal", "why_tests_cant": "tests fix a handful of sizes and random draws; the claim ranges over all sizes and all real entries", "anchors": ["markovflow/state_space_model.py: _build_precision, precision"]}
{"id": "C11", "title": "log_det_precision is the log determinant of the precision", "statement": "ssm.log_det_precision() = log det(ssm.precision.to_dense()) = - log det(joint covariance).", "quantifier": "all SSMs with invertible noise factors", "why_tests_cant": "tests fix a handful of sizes and random draws; the claim ranges over all sizes and all real entries", "anchors": ["markovflow/state_space_model.py: log_det_precision"]}
{"id": "C12", "title": "log_pdf is the joint Gaussian log density", "statement": "ssm.log_pdf(x) equals the log density at x of the multivariate normal with the joint mean and joint covariance of the chain.", "quantifier": "all SSMs with invertible noise, all trajectories x", "why_tests_cant": "tests fix a handful of sizes and random draws; the claim ranges over all sizes and all real entries", "anchors": ["markovflow/state_space_model.py: log_pdf, _log_pdf_factors"]}
{"id": "C13", "title": "KL divergence formula", "statement": "ssm1.kl_divergence(ssm2) equals the KL divergence formula between the two dense multivariate normals.", "quantifier": "all pairs of SSMs of equal shape with invertible noise", "why_tests_cant": "tests fix a handful of sizes and random draws; the claim ranges over all sizes and all real entries; only the block tridiagonal part of the covariance is used, so agreement for all inputs is a structural fact", "anchors": ["markovflow/state_space_model.py: kl_divergence"]}
{"id": "C14", "title": "KL divergence is non-negative and vanishes exactly on equal distributions", "statement": "ssm1.kl_divergence(ssm2) >= 0, with equality iff the two chains have the same joint mean and covariance; in particular the divergence of an SSM from itself is 0.", "quantifier": "all pairs of SSMs of equal shape", "why_tests_cant": "an inequality over all inputs; a test can only sample it", "anchors": ["markovflow/state_space_model.py: kl_divergence"]}
{"id": "C15", "title": "sample maps white noise to the joint law", "statement": "The samples returned are an affine function of the standard normal draws whose constant term is the joint mean and whose linear part M satisfies M M^T = joint covariance; each trajectory satisfies the generative recursion.", "quantifier": "all SSMs, all noise draws", "why_tests_cant": "a statistical test only checks moments up to Monte Carlo error for one model", "anchors": ["markovflow/state_space_model.py: sample"]}
{"id": "C16", "title": "normalizer is the log partition function", "statement": "ssm.normalizer() = 1/2 (n log 2 pi + log det K + m^T K^{-1} m) for the joint mean m and covariance K.", "quantifier": "all SSMs with invertible noise", "why_tests_cant": "tests fix a handful of sizes and random draws; the claim ranges over all sizes and all real entries", "anchors": ["markovflow/state_space_model.py: normalizer"]}
{"id": "C17", "title": "state_space_model_from_covariances keeps the covariances", "statement": "The constructed model has exactly the given initial and process covariances, each either positive definite or zero, and zero stays exactly zero.", "quantifier": "all lists of covariances each zero or positive definite, mixed in any pattern", "why_tests_cant": "the masked Cholesky must be right for every mix of zero and non-zero blocks", "anchors": ["markovflow/state_space_model.py: state_space_model_from_covariances, cholesky_or_zero"]}
{"id": "C18", "title": "Kalman posterior is the exact Bayesian posterior", "statement": "posterior_state_space_model() has joint precision K^{-1} + G^T S^{-1} G and joint mean solving (K^{-1} + G^T S^{-1} G) m = G^T S^{-1} y + K^{-1} mu, equivalently mean mu + K G^T (G K G^T + S)^{-1}(y - G mu) and covariance K - K G^T (G K G^T + S)^{-1} G K.", "quantifier": "all prior SSMs, emission matrices (time varying), observation covariances, observations, lengths >= 2", "why_tests_cant": "tests fix a handful of sizes and random draws; the claim ranges over all sizes and all real entries; equality of information form and textbook conditioning for every horizon", "anchors": ["markovflow/kalman_filter.py: posterior_state_space_model, _k_inv_post, _back_project_y_to_state"]}
{"id": "C19", "title": "Kalman log likelihood is the exact log evidence", "statement": "log_likelihood() equals log N(y; G mu, G K G^T + S).", "quantifier": "all prior SSMs, emissions, observation covariances, observations, horizons", "why_tests_cant": "tests fix a handful of sizes and random draws; the claim ranges over all sizes and all real entries", "anchors": ["markovflow/kalman_filter.py: log_likelihood"]}
{"id": "C20", "title": "Gaussian sites are time varying observations", "statement": "KalmanFilterWithSites built on natural parameters (nat1, nat2) gives the posterior and log likelihood of observations -nat1/(2 nat2) with precision -2 nat2, and the posterior equals prior times the product of the site factors in natural parameters.", "quantifier": "all site parameters with nat2 < 0, all priors", "why_tests_cant": "tests fix a handful of sizes and random draws; the claim ranges over all sizes and all real entries", "anchors": ["markovflow/kalman_filter.py: UnivariateGaussianSitesNat, KalmanFilterWithSites"]}
{"id": "C21", "title": "Sparse sites equal conditioning on the observed subset only", "statement": "KalmanFilterWithSparseSites over a grid gives the posterior and the log evidence of the model conditioned on the observed grid points only, whatever the grid; grid points without an observation do not influence the result.", "quantifier": "all grids, all sets of distinct observation indices, all values", "why_tests_cant": "ranges over all index subsets and grid lengths", "anchors": ["markovflow/kalman_filter.py: KalmanFilterWithSparseSites"]}
{"id": "C22", "title": "Repeated sparse observation indices are merged incorrectly", "statement": "When two sparse observations share a grid index, the filter should behave like two independent observations of that state.", "quantifier": "all index vectors with repetition", "why_tests_cant": "quantifies over all index vectors; a witness refutes it", "anchors": ["markovflow/kalman_filter.py: sparse_to_dense, _r_inv, observations"]}
{"id": "C23", "title": "Natural parameters describe the joint density", "statement": "ssm_to_naturals returns (theta, Theta) with log p(x) = theta^T x + x^T Theta x (sub-diagonal counted once) + const for every trajectory, and the constant is minus normalizer().", "quantifier": "all SSMs and trajectories", "why_tests_cant": "tests fix a handful of sizes and random draws; the claim ranges over all sizes and all real entries", "anchors": ["markovflow/ssm_gaussian_transformations.py: ssm_to_naturals"]}
{"id": "C24", "title": "Natural parameter round trips", "statement": "naturals_to_ssm_params(ssm_to_naturals(s)) = s for every SSM with lower triangular positive-diagonal factors; conversely for every valid natural parameter triple (positive definite precision) ssm_to_naturals of the returned SSM gives it back. Same for the no-smoothing pair.", "quantifier": "all SSMs / all valid natural parameters, all lengths >= 2", "why_tests_cant": "tests fix a handful of sizes and random draws; the claim ranges over all sizes and all real entries", "anchors": ["markovflow/ssm_gaussian_transformations.py: ssm_to_naturals, naturals_to_ssm_params, ssm_to_naturals_no_smoothing, naturals_to_ssm_params_no_smoothing"]}
{"id": "C25", "title": "Expectation parameters and their round trip", "statement": "ssm_to_expectations returns E[x_k], E[x_k x_k^T], E[x_{k+1} x_k^T] of the chain, and expectations_to_ssm_params inverts it.", "quantifier": "all SSMs with positive diagonal lower triangular factors, all lengths", "why_tests_cant": "tests fix a handful of sizes and random draws; the claim ranges over all sizes and all real entries", "anchors": ["markovflow/ssm_gaussian_transformations.py: ssm_to_expectations, expectations_to_ssm_params"]}
{"id": "C26", "title": "Conditional statistics are Gaussian conditioning", "statement": "For transitions A_mt,Q_mt,A_tp,Q_tp the returned D,E,T satisfy: x_t - D x_- - E x_+ is uncorrelated with x_- and x_+ and has covariance T, for any covariance of x_-; the precision variant returns T^{-1}.", "quantifier": "all transition matrices, all positive definite process covariances, every initial covariance", "why_tests_cant": "tests fix a handful of sizes and random draws; the claim ranges over all sizes and all real entries", "anchors": ["markovflow/conditionals.py: _conditional_statistics_from_transitions"]}
{"id": "C27", "title": "Prediction equals marginalising the augmented chain", "statement": "For a new time strictly inside the training range, conditional_predict applied to the pairwise marginals of a (prior or posterior) SSM equals the marginal mean and covariance of the state in the chain augmented with that time point.", "quantifier": "all SSMs, all insertion positions, all kernels with consistent transitions", "why_tests_cant": "tests fix a handful of sizes and random draws; the claim ranges over all sizes and all real entries; requires joint correctness of index lookup, pairwise marginals and conditional algebra", "anchors": ["markovflow/conditionals.py: conditional_predict, pairwise_marginals, base_conditional_predict", "markovflow/posterior.py: ConditionalProcess.predict_state"]}
{"id": "C28", "title": "Neighbour lookup brackets the query time", "statement": "For sorted training times z and query t with index i = searchsorted(z,t), the neighbours used satisfy z_minus < t <= z_plus and no training point lies strictly between; a query equal to a training time uses that time as right neighbour.", "quantifier": "all sorted time vectors and all query times in (-1e10, 1e10]", "why_tests_cant": "boundary behaviour for all lists, including repeated and extreme times", "anchors": ["markovflow/conditionals.py: _conditional_statistics", "markovflow/models/sparse_variational_cvi.py: update_sites"]}
{"id": "C29", "title": "Prediction at a training time returns the posterior marginal", "statement": "With zero jitter, conditional_predict at a time equal to a training time returns exactly the posterior marginal mean and covariance of that state.", "quantifier": "all training sets, all indices, all posteriors", "why_tests_cant": "tests fix a handful of sizes and random draws; the claim ranges over all sizes and all real entries", "anchors": ["markovflow/conditionals.py: conditional_predict", "markovflow/posterior.py: predict_state"]}
{"id": "C30", "title": "Cyclic reduction statistics have the documented shape and meaning", "statement": "cyclic_reduction_conditional_statistics returns F, G, L with F, G restricted along the time axis as documented.", "quantifier": "all state dimensions and numbers of points", "why_tests_cant": "shape claim over all sizes; refuted by a witness", "anchors": ["markovflow/conditionals.py: cyclic_reduction_conditional_statistics"]}
{"id": "C31", "title": "Kernel transitions form a semigroup", "statement": "For every stationary kernel, state_transitions over 0 is the identity and over s+t is the product of those over s and t.", "quantifier": "all times s,t >= 0 and all kernel parameters", "why_tests_cant": "an identity of transcendental functions over all reals", "anchors": ["markovflow/kernels/matern.py: Matern12, Matern32, Matern52, OrnsteinUhlenbeck", "markovflow/kernels/periodic.py", "markovflow/kernels/constant.py", "markovflow/kernels/sde_kernel.py"]}
{"id": "C32", "title": "state_transitions is the matrix exponential of feedback_matrix", "statement": "d/dt A(t) = F A(t) for A = state_transitions, F = feedback_matrix and A(0)=I (uniqueness makes A = exp(Ft)).", "quantifier": "all kernel parameters and all t", "why_tests_cant": "differential identity over all reals", "anchors": ["markovflow/kernels/matern.py", "markovflow/kernels/periodic.py", "markovflow/kernels/constant.py"]}
{"id": "C33", "title": "Steady state covariance solves the Lyapunov equation and drives process covariances", "statement": "F P + P F^T = - (a positive semidefinite diffusion) for P = steady_state_covariance; process covariance over dt equals P - A P A^T and is symmetric positive semidefinite for dt >= 0, positive definite for dt > 0 where claimed.", "quantifier": "all kernel parameters, all dt", "why_tests_cant": "positivity over all reals; tests sample dt", "anchors": ["markovflow/kernels/sde_kernel.py: StationaryKernel.process_covariances, steady_state_covariance", "markovflow/kernels/matern.py"]}
{"id": "C34", "title": "Kernel covariance function", "statement": "The state space prior built by kernel.state_space_model at any ordered times, projected by the emission, has covariance equal to the Matern/OU/constant/cosine covariance function k(|t-t'|) and variance equal to the variance parameter.", "quantifier": "all ordered time lists, all parameters", "why_tests_cant": "needs induction over the number of time points", "anchors": ["markovflow/kernels/sde_kernel.py: state_space_model, generate_emission_model", "markovflow/kernels/matern.py"]}
{"id": "C35", "title": "Refining the grid does not change the prior", "statement": "With zero jitter, the prior law at a set of times does not depend on which other times are included: removing a time point from state_space_model gives the marginal law (Chapman-Kolmogorov Q(s+t) = A(t) Q(s) A(t)^T + Q(t)).", "quantifier": "all ordered time lists, any removed point, all stationary kernels", "why_tests_cant": "for all grids and all parameters; also shows the jitter breaks it", "anchors": ["markovflow/kernels/sde_kernel.py: transition_statistics, process_covariances"]}
{"id": "C36", "title": "Sum kernel adds covariances", "statement": "The prior of a Sum kernel projected to f has covariance equal to the sum of the component covariances; block structure keeps components independent.", "quantifier": "all finite lists of component kernels, all times", "why_tests_cant": "over all component lists", "anchors": ["markovflow/kernels/sde_kernel.py: Sum, ConcatKernel, generate_emission_model"]}
{"id": "C37", "title": "Product kernel multiplies covariances", "statement": "The Product kernel's state covariance between two times, projected by the product emission, is the product of component covariances.", "quantifier": "all lists of component kernels, all times", "why_tests_cant": "over all component lists", "anchors": ["markovflow/kernels/sde_kernel.py: Product"]}
{"id": "C38", "title": "Product feedback matrix generates its transitions", "statement": "Product.state_transitions(dt) = exp(dt * Product.feedback_matrix).", "quantifier": "all component kernels", "why_tests_cant": "refuted by a witness", "anchors": ["markovflow/kernels/sde_kernel.py: Product.feedback_matrix"]}
{"id": "C39", "title": "Prior mean of combined kernels is stationary", "statement": "For Sum/concat kernels of components with non-zero state mean, the marginal mean of the prior is constant in time.", "quantifier": "all component means", "why_tests_cant": "refuted by witness for the combined kernels; proved for single kernels", "anchors": ["markovflow/kernels/sde_kernel.py: ConcatKernel.initial_mean, StationaryKernel.state_offsets"]}
{"id": "C40", "title": "Stationary kernel marginals are stationary", "statement": "With zero jitter the prior SSM of a stationary kernel has marginal mean state_mean and marginal covariance steady_state_covariance at all times.", "quantifier": "all time grids and kernels", "why_tests_cant": "induction over the grid", "anchors": ["markovflow/kernels/sde_kernel.py: StationaryKernel.state_offsets, process_covariances, initial_covariance"]}
{"id": "C41", "title": "Piecewise kernel picks the right segment", "statement": "PiecewiseKernel governs a transition starting at t by the kernel of the interval [c_i, c_(i+1)) containing t. For sorted times, transitions, offsets, process covariances and emission matrices come out entry by entry in the order of the times; per-time lookups (steady state covariance, feedback matrix, state mean) do so in any order. Exactly the times outside [-1e10, 1e10) are refused. The state space model starts in the steady state of the first governing kernel and its covariance relaxes towards that of the kernel governing each step.", "quantifier": "all kernels, sorted change points, time lists, grids and jitters", "why_tests_cant": "all lists of times and change points", "anchors": ["markovflow/kernels/piecewise_stationary.py: split_time_indices, _state_transitions"]}
{"id": "C42", "title": "to_delta_time validation", "statement": "to_delta_time raises for any non strictly increasing input, as documented.", "quantifier": "all time vectors", "why_tests_cant": "quantifies over all vectors; witness refutes strictness, partial theorem proves the non-decreasing check", "anchors": ["markovflow/utils.py: to_delta_time"]}
{"id": "C43", "title": "Emission projection identities", "statement": "project_state_to_f / project_state_covariance_to_f compute H m and H P H^T (full) or its diagonal, for plain, stacked and composed emission models; composed pair equals multiplying the emission matrices.", "quantifier": "all dimensions and values", "why_tests_cant": "tests fix a handful of sizes and random draws; the claim ranges over all sizes and all real entries", "anchors": ["markovflow/emission_model.py: EmissionModel, ComposedPairEmissionModel, StackEmissionModel"]}
{"id": "C44", "title": "Impulse and step mean functions are responses of the kernel's process", "statement": "ImpulseMeanFunction and StepMeanFunction return, at every time, the emission of the solution of dx/dt = F x that starts at the kernel's state mean, jumps by the action at each action time (impulse), or is driven by the action in force (step); zero and linear mean functions are their formulas. Holds for every library kernel whose feedback matrix generates its transitions.", "quantifier": "all times, actions, kernels", "why_tests_cant": "recursion over arbitrary action sequences", "anchors": ["markovflow/mean_function.py"]}
{"id": "C45", "title": "Sorting and unsorting of query times", "statement": "Sampling at new time points given in any order, with repetitions, returns samples in the callers' order: the joint prior samples used are distributed as the process at (conditioning points ++ new points) in that order, whatever permutation the sort picks for ties, and no order of the times is refused.", "quantifier": "all time lists including ties", "why_tests_cant": "all permutations of all lengths", "anchors": ["markovflow/posterior.py: ConditionalProcess.sample_state_trajectories"]}
{"id": "C46", "title": "Importance weights are normalised", "statement": "The weights ImportanceWeightedPosteriorProcess resamples with are positive, sum to one and do not change when a constant is added to the log weights; each weight is p(y|s) p(u) / q(u); expected_value is the self-normalised weighted average of the function over the draws and equals the expectation over the resampled states.", "quantifier": "all numbers of samples and log weights", "why_tests_cant": "all real vectors", "anchors": ["markovflow/posterior.py: ImportanceWeightedPosteriorProcess", "markovflow/models/iwvi.py"]}
{"id": "C47", "title": "Importance weighted bound is monotone and bounded", "statement": "The expected importance weighted bound with one draw is the expected log weight (the ELBO); it does not decrease with the number of draws; it never exceeds the log of the expected weight (the log evidence).", "quantifier": "all sample counts, all log weight functions, all exchangeable distributions of the draws", "why_tests_cant": "inequality over all inputs", "anchors": ["markovflow/models/iwvi.py: elbo"]}
{"id": "C48", "title": "ELBO equals evidence minus KL for Gaussian likelihoods", "statement": "For a Gaussian likelihood the variational ELBO plus the KL from q to the exact posterior equals the exact log evidence; so ELBO <= log evidence with equality at the exact posterior.", "quantifier": "all q in the SSM family, all data", "why_tests_cant": "identity over all q", "anchors": ["markovflow/models/variational.py: elbo", "markovflow/kalman_filter.py"]}
{"id": "C49", "title": "CVI with Gaussian likelihood and unit step converges in one step", "statement": "update_sites with learning rate 1 and a Gaussian likelihood sets every site to the exact likelihood factor whatever the start; with rate r after n steps site - site* = (1-r)^n (site_0 - site*).", "quantifier": "all starts, all data, all n", "why_tests_cant": "induction over the number of updates", "anchors": ["markovflow/models/variational_cvi.py: update_sites, local_objective_and_gradients, gradient_transformation_mean_var_to_expectation"]}
{"id": "C50", "title": "CVI posterior is prior times sites", "statement": "dist_q and posterior_kalman of CVIGaussianProcess describe the same distribution: joint precision = prior precision + site precisions back-projected, linear term = back-projected nat1.", "quantifier": "all site parameters with valid precision", "why_tests_cant": "tests fix a handful of sizes and random draws; the claim ranges over all sizes and all real entries", "anchors": ["markovflow/models/variational_cvi.py: dist_q, posterior_kalman, back_project_nats"]}
{"id": "C51", "title": "Sparse CVI assembles pair sites into the right blocks", "statement": "For pair-of-state sites on the intervals between inducing points, dist_q's natural parameters equal prior plus the sum over intervals of the embedded site factors; data routed by searchsorted go to exactly one interval and every datum is counted once. dist_q of a new model is the prior.", "quantifier": "all inducing grids, data lists, sites", "why_tests_cant": "all partitions of all data sets", "anchors": ["markovflow/models/sparse_variational_cvi.py: dist_q, update_sites"]}
{"id": "C52", "title": "PEP with Gaussian likelihood, alpha=1", "statement": "For a Gaussian likelihood with power one, updates of groups of sites in any order and grouping move each site towards the exact likelihood factor by the factor 1 - learning_rate per visit, whatever the cavities; with learning rate one the posterior is exact and the elbo the log evidence once each site has been visited, and a second visit makes the normalisation of the site exact.", "quantifier": "all kernels, data, initial sites, schedules of index groups, learning rates in [0, 1]", "why_tests_cant": "all schedules and all data", "anchors": ["markovflow/models/pep.py: update_sites, gradient_correction", "markovflow/likelihoods/likelihoods.py: PEPGaussian"]}
{"id": "C53", "title": "PEP with Gaussian likelihood, alpha below 1", "statement": "The exact likelihood factor is a fixed point of the PEP update for every alpha in (0,1].", "quantifier": "all alpha", "why_tests_cant": "refuted by witness", "anchors": ["markovflow/models/pep.py", "markovflow/likelihoods/likelihoods.py: PEPGaussian.log_expected_density"]}
{"id": "C54", "title": "PEP default update updates every site", "statement": "update_sites() without arguments updates all sites; with indices it updates exactly the listed sites once.", "quantifier": "all models, index lists and sites", "why_tests_cant": "refuted for every model", "anchors": ["markovflow/models/pep.py: mask_indices, update_sites"]}
{"id": "C55", "title": "Natural gradient step", "statement": "Without momentum, SSMNaturalGradient moves the natural parameters by -gamma times the gradient in expectation parameters and assigns the SSM with these natural parameters. For the variational model with a Gaussian likelihood, r steps leave (1-gamma)^r of the distance to the exact posterior, the bound never decreases, and one step with gamma=1 reaches the exact posterior and the log evidence.", "quantifier": "all gradients, all gamma in [0,1], all step counts, all kernels and data", "why_tests_cant": "history dependent: holds for every step count", "anchors": ["markovflow/ssm_natgrad.py: _natgrad_step"]}
{"id": "C56", "title": "Minibatch ELBO scaling is unbiased", "statement": "The sparse variational bound of a minibatch (temporal and spatio-temporal models), with num_data the size of the data, averaged over any family of equal sized batches that uses every datum equally often (a partition, all subsets, all draws with replacement) equals the bound of all the data, for any likelihood.", "quantifier": "all balanced families of batches, all likelihoods, all variational distributions", "why_tests_cant": "over all partitions", "anchors": ["markovflow/models/sparse_variational.py: elbo", "markovflow/models/spatio_temporal_variational.py: elbo"]}
{"id": "C57", "title": "Multivariate Gaussian likelihood formulas", "statement": "MultivariateGaussian: the log probability is the log density of N(f, S) at the observation; the variational expectation is the exact expectation of that log density under the Gaussian over f; the predictive density and moments are those of the observation once f is integrated out; and the variational expectation is at most the log predictive density.", "quantifier": "all output dimensions, means, positive definite covariances and observations", "why_tests_cant": "identities between integrals over all real means, covariances and observations of any dimension", "anchors": ["markovflow/likelihoods/multivariate_gaussian.py"]}
{"id": "C58", "title": "Multi-stage likelihood is a probability", "statement": "For every latent value the probabilities that the multi-stage likelihood gives to the counts 0, 1, 2, ... are non-negative and sum to one, they are the product of the stage decisions, sampling returns a count with that probability, and the variational expectation is the expectation of the log probability stage by stage.", "quantifier": "all latent values, links with values in the unit interval and infinitely many counts", "why_tests_cant": "an infinite sum over counts for every real latent value", "anchors": ["markovflow/likelihoods/mutlistage_likelihood.py: _log_prob"]}
{"id": "C59", "title": "Linear drift round trip", "statement": "Setting a LinearDrift from a state space model with a step dt and converting it back with to_ssm on a grid of constant step dt gives the same transitions and offsets; converting a drift to a state space model and setting it back gives the same drift.", "quantifier": "all state dimensions, numbers of transitions, models, non-zero steps and grids of constant step", "why_tests_cant": "tests fix a handful of sizes and random draws; the claim ranges over all sizes and all real entries", "anchors": ["markovflow/sde/drift.py: set_from_ssm, to_ssm"]}
{"id": "C60", "title": "Euler-Maruyama output is the discretised path", "statement": "euler_maruyama returns the initial value followed by, at each later index, the Euler update of the previous value over the corresponding interval of the grid it was given, one value more than the grid has points. For a linear drift the values are a path of the state space model of that drift.", "quantifier": "all drifts, diffusions, initial values, grids and noise draws", "why_tests_cant": "a recursion over a grid of any length with any drift", "anchors": ["markovflow/sde/sde_utils.py: euler_maruyama"]}
{"id": "C61", "title": "GPR model equals textbook GP regression", "statement": "GaussianProcessRegression with a stationary kernel: log_likelihood = log N(y; m(X), k(X,X)+s^2 I) and the posterior at any time inside the data range has the textbook GP mean and variance.", "quantifier": "all ordered data sets, all kernels and emission functions of a Markov process, all mean functions, all query times in the closed range of the data", "why_tests_cant": "end-to-end composition over all data sets", "anchors": ["markovflow/models/gaussian_process_regression.py", "markovflow/posterior.py"]}
{"id": "C62", "title": "Extrapolation", "statement": "Predicting outside the data range equals prior propagation of the last (first) posterior marginal; where it does not, the error is bounded by what the kernel still remembers over the distance to the artificial end points at +-1e10, and is negligible for the Matern kernels.", "quantifier": "all stationary kernels, posteriors, times and queries outside the range", "why_tests_cant": "depends on 1e10 standing for infinity: exact error term for all inputs", "anchors": ["markovflow/conditionals.py: _conditional_statistics", "markovflow/conditionals.py: pairwise_marginals", "markovflow/base.py: APPROX_INF"]}
{"id": "C63", "title": "batch_base_conditional is the Gaussian conditional", "statement": "Given Kmm, Kmn, Knn and a distribution of g2 with mean f and covariance given by q_sqrt (none, standard deviations, or a lower triangular square root), batch_base_conditional returns the mean and the variance of g1 = g(x) when g1 given g2 follows the prior; with white=True f and q_sqrt describe v with g2 = chol(Kmm) v.", "quantifier": "all sizes, positive definite Kmm, cross covariances, f and q_sqrt", "why_tests_cant": "a linear algebra identity for every size; the shipped tests only use square roots for which the fault is invisible", "anchors": ["markovflow/utils.py: batch_base_conditional"]}
{"id": "C64", "title": "Spatio-temporal predictions", "statement": "space_time_predict_f returns the mean and variance of f(x,t) when q describes the inducing states and f(x,t) given the states follows the prior with covariance k_space * k_time. In particular when q is the prior the variance is k_space(x,x) k_time(t,t).", "quantifier": "all spatial kernels, Markovian time kernels, inducing points, covered times, mean functions", "why_tests_cant": "needs the law of the prior at arbitrary points; refuted for the variance", "anchors": ["markovflow/models/spatio_temporal_variational.py: SpatioTemporalBase.space_time_predict_f", "markovflow/utils.py: batch_base_conditional"]}
{"id": "C65", "title": "A state space model needs at least two time points", "statement": "Building marginal means, the precision or samples of a state space model succeeds exactly when there is at least one transition; a single time point, which the constructor accepts, is rejected with an error by every later computation.", "quantifier": "all state space models and all numbers of transitions", "why_tests_cant": "the boundary has to be right for every size and every parameter value", "anchors": ["markovflow/block_tri_diag.py: BlockTriDiagonal.__init__", "markovflow/state_space_model.py: StateSpaceModel._build_precision, _a_inv_block"]}
{"id": "C66", "title": "Prediction respects a non-zero prior state mean", "statement": "For a kernel with a constant non-zero state mean, predict_state from the prior at a time strictly inside the grid returns the prior mean.", "quantifier": "all kernels with a state mean, all grids and query times", "why_tests_cant": "quantifies over every kernel, mean and grid; a witness refutes it because the offsets are ignored", "anchors": ["markovflow/conditionals.py: conditional_predict, base_conditional_predict", "markovflow/kernels/sde_kernel.py: StationaryKernel.state_offsets"]}
{"id": "C67", "title": "Pathwise samples have the law of the conditional process", "statement": "sample_state_trajectories at new times, together with the posterior states at the conditioning times, has jointly the law of the Gaussian process conditioned on the observations.", "quantifier": "all kernels, grids, sets of new time points inside the range and linear Gaussian observations", "why_tests_cant": "equality of joint distributions for every grid; sampling tests only estimate a few moments", "anchors": ["markovflow/posterior.py: ConditionalProcess.sample_state_trajectories"]}
{"id": "C68", "title": "Jitter accumulates over the grid", "statement": "With a positive jitter the prior at time points i and j has covariance equal to the kernel's plus jitter times one term for every time point up to min(i, j); for a Constant kernel the covariance is variance + (min(i,j)+1) * jitter, so the prior depends on the grid and not only on the times.", "quantifier": "all grids, jitters and stationary kernels", "why_tests_cant": "an exact law for every number of points", "anchors": ["markovflow/kernels/sde_kernel.py: StationaryKernel.transition_statistics, initial_covariance"]}
{"id": "C69", "title": "Product kernels with several outputs are rejected", "statement": "generate_emission_model of a Product of kernels succeeds exactly when the output dimension is one or there is a single child.", "quantifier": "all output dimensions and numbers of children", "why_tests_cant": "for all sizes", "anchors": ["markovflow/kernels/sde_kernel.py: Product.generate_emission_model"]}
{"id": "C70", "title": "Mixing noisy and noiseless children without jitter cannot be factorised", "statement": "A Sum (or other concatenation) with a child that adds noise and one that adds none (Constant, HarmonicOscillator), at the default zero jitter, has for every step a process covariance that is neither zero nor has a Cholesky factor, the two cases the state space model construction handles; likewise a stack that pads a noiseless child.", "quantifier": "all lists of children with one of each kind, all steps", "why_tests_cant": "for all kernels and steps", "anchors": ["markovflow/kernels/sde_kernel.py: ConcatKernel, StackKernel", "markovflow/state_space_model.py: state_space_model_from_covariances"]}
{"id": "C71", "title": "Padded stacks are proper state space kernels", "statement": "For StackKernel the transition over zero time is the identity and state_transitions is generated by feedback_matrix.", "quantifier": "all children and amounts of padding", "why_tests_cant": "refuted for every child that is padded", "anchors": ["markovflow/kernels/sde_kernel.py: StackKernel.state_transitions, StackKernel.feedback_matrix", "markovflow/utils.py: augment_square_matrix"]}
{"id": "C72", "title": "Piecewise transitions keep the order of unsorted times", "statement": "PiecewiseKernel.state_transitions returns, for unsorted times as well, the transition of each time at its own position, as steady_state_covariances does.", "quantifier": "all time lists", "why_tests_cant": "refuted: the entries are grouped by segment, so for unsorted times transitions and steady states refer to different times; the grouped order is proved for all lists", "anchors": ["markovflow/kernels/piecewise_stationary.py: split_time_indices, _split_input, state_transitions"]}
{"id": "C73", "title": "Adding time points to a piecewise process", "statement": "At zero jitter, adding a time point to a grid inside the segment governing the step it splits leaves the joint law of the other states unchanged; adding the change point to a step that jumps over it changes the law.", "quantifier": "all kernels, change points, grids and inserted times", "why_tests_cant": "all grids and insertions; equality of laws", "anchors": ["markovflow/kernels/piecewise_stationary.py: transition_statistics, state_space_model"]}
{"id": "C74", "title": "Step mean function of a Product kernel", "statement": "StepMeanFunction gives the response of the kernel's process to the step input for Product kernels as well (refuted: Product.feedback_matrix is the Kronecker product of the children's matrices, not their Kronecker sum, so the step response is wrong).", "quantifier": "all product kernels, times and actions", "why_tests_cant": "claim about the exact solution of a differential equation for all kernels and inputs", "anchors": ["markovflow/mean_function.py: StepMeanFunction", "markovflow/kernels/sde_kernel.py: Product.feedback_matrix"]}
{"id": "C75", "title": "Posterior process of any distribution at the conditioning points", "statement": "For every Gauss-Markov distribution q of the states at the conditioning points (variational or exact), predict_f returns the moments and sample_state_trajectories / sample_f draw from the joint law of the textbook process p(x | x(z)) q(x(z)), plus the mean function, at new times in any order, with repetitions and at the conditioning points.", "quantifier": "all kernels, conditioning points, new times and distributions q", "why_tests_cant": "laws of affine maps of white noise for all sizes and orders", "anchors": ["markovflow/posterior.py: ConditionalProcess.predict_f, sample_state_trajectories, sample_f"]}
{"id": "C76", "title": "Sparse bound never exceeds the evidence", "statement": "For a Gaussian likelihood the bound of SparseVariationalGaussianProcess is log N(y; m(X), Qff + s2 I) - tr(Kff - Qff)/(2 s2) - KL(q, optimal q), and is at most the exact log evidence log N(y; m(X), Kff + s2 I), wherever the inducing points are.", "quantifier": "all inducing grids covering the data, all data sets in any order with repetitions, all variational distributions, all mean functions", "why_tests_cant": "a test compares one grid, one data set and one q; an error in the projection or the KL term can stay below the evidence on the tested cases", "anchors": ["markovflow/models/sparse_variational.py:SparseVariationalGaussianProcess.elbo", "markovflow/posterior.py:ConditionalProcess.predict_f", "markovflow/conditionals.py"]}
{"id": "C77", "title": "Importance weighted model starts from the given distribution", "statement": "ImportanceWeightedVI built with initial_distribution starts its variational distribution there. (Refuted: the argument reaches the num_data parameter and the model starts at the prior.)", "quantifier": "all kernels, inducing points and initial distributions", "why_tests_cant": "all initial distributions; the model still trains", "anchors": ["markovflow/models/iwvi.py: ImportanceWeightedVI.__init__", "markovflow/models/sparse_variational.py: SparseVariationalGaussianProcess.__init__"]}
{"id": "C78", "title": "Importance weights use the data for any number of new points", "statement": "The importance weights of ImportanceWeightedPosteriorProcess are computed from the states at the data points, for every number of new time points. (Refuted for zero new points: the slice [:-0] is empty.)", "quantifier": "all numbers of new time points", "why_tests_cant": "boundary case of a slice over all sizes", "anchors": ["markovflow/posterior.py: _iwvi_samples_and_weights"]}
{"id": "C79", "title": "CVI posterior keeps the state mean of the kernel", "statement": "For a kernel with a non-zero state mean, dist_q of CVIGaussianProcess and the posterior of posterior_kalman describe the same distribution. (Refuted: dist_q drops the prior's linear term, so they agree exactly when the state mean is zero.)", "quantifier": "all kernels, time grids, sites with negative nat2", "why_tests_cant": "tests use kernels with zero state mean", "anchors": ["markovflow/models/variational_cvi.py: dist_q, posterior_kalman"]}
{"id": "C80", "title": "CVI predictions include the mean function", "statement": "With a Gaussian likelihood at convergence, posterior.predict_f of CVIGaussianProcess with a mean function equals regression with that mean function. (Refuted: the mean function is stored and never used; the two agree at the data points exactly when it is zero there.)", "quantifier": "all mean functions, kernels, data", "why_tests_cant": "tests pass no mean function", "anchors": ["markovflow/models/variational_cvi.py: __init__, posterior, update_sites"]}
{"id": "C81", "title": "Gradients are transformed to expectation parameters", "statement": "gradient_transformation_mean_var_to_expectation maps the partial derivatives of an objective in mean and variance to its partial derivatives in the expectation parameters (E f, E f^2).", "quantifier": "all objectives differentiable at the point, all points", "why_tests_cant": "chain rule over all differentiable functions", "anchors": ["markovflow/models/variational_cvi.py: gradient_transformation_mean_var_to_expectation"]}
{"id": "C82", "title": "PEP cavity distribution", "statement": "compute_cavity returns, at each data point, the mean and variance of f there under the posterior in which the site of that point is raised to the power 1 - alpha (left out for alpha = 1), and the factorisations it needs exist.", "quantifier": "all kernels, data, sites that do not increase the variance, alpha in [0, 1], data points", "why_tests_cant": "all inputs; the joint posterior is never formed by the code", "anchors": ["markovflow/models/pep.py: compute_cavity, compute_cavity_from_marginals"]}
{"id": "C83", "title": "Log expected density under a power of the likelihood", "statement": "log_expected_density(mean, variance, y, alpha) is the log of the integral of N(f; mean, variance) p(y | f)^alpha over f, for PEPGaussian and for PEPScalarLikelihood around a Gaussian likelihood.", "quantifier": "all means, variances, observations and powers", "why_tests_cant": "integral identity over all reals; refuted for every alpha other than one", "anchors": ["markovflow/likelihoods/likelihoods.py: PEPScalarLikelihood.log_expected_density, PEPGaussian.log_expected_density"]}
{"id": "C84", "title": "PEP updates match moments", "statement": "After update_sites on one site with learning rate one, the posterior of f at that data point has the mean mu + v g1 and variance v + v^2 g2 of the tilted distribution, where mu, v are those of the cavity and g1, g2 the derivatives of the log expected density in the mean.", "quantifier": "all likelihoods with g2 < 0 and 1 + v g2 > 0, all kernels, data, sites and powers", "why_tests_cant": "all likelihoods; joint posterior over all states", "anchors": ["markovflow/models/pep.py: update_sites, gradient_correction"]}
{"id": "C85", "title": "PEP energy is the log evidence for a Gaussian likelihood", "statement": "energy() at the exact sites of a Gaussian likelihood with power one equals the log evidence.", "quantifier": "all kernels and data", "why_tests_cant": "identity over all inputs; refuted with the exact difference", "anchors": ["markovflow/models/pep.py: energy, compute_log_norm"]}
{"id": "C86", "title": "Natural gradient with momentum", "statement": "With momentum, step r moves the natural parameters along a weighted average of all gradients so far, divided by the root of a weighted average of their norms plus epsilon/sqrt(1-beta2^r); the weights of both averages sum to one (debiasing). The norm is the squared norm of the natural gradient, which is never negative.", "quantifier": "all gradient histories of any length, all decay rates in [0,1)", "why_tests_cant": "depends on the whole history; refuted for the norm: the sub-diagonal part is counted twice, and the first step can give NaN", "anchors": ["markovflow/ssm_natgrad.py: SSMNaturalGradient._natgrad_step"]}
{"id": "C87", "title": "Natural gradient of a divergence", "statement": "The gradient of the KL divergence from q to p with respect to the expectation parameters of q (ssm_to_expectations) exists, is unique, and is the difference of the natural parameters (ssm_to_naturals) of q and p.", "quantifier": "all Gauss-Markov models of every length and state dimension", "why_tests_cant": "derivative in every direction, over all models", "anchors": ["markovflow/ssm_natgrad.py: _natgrad_step", "markovflow/ssm_gaussian_transformations.py: ssm_to_expectations, expectations_to_ssm_params, ssm_to_naturals", "markovflow/state_space_model.py: kl_divergence"]}
{"id": "C88", "title": "CVI is natural gradient ascent", "statement": "Starting from the same distribution, r updates of the sites of CVIGaussianProcess with learning rate lr and r natural gradient steps with gamma=lr on the bound of VariationalGaussianProcess give the same joint distribution of the states, for every likelihood whose variational expectations are differentiable and decreasing in the variance.", "quantifier": "all kernels, data, likelihoods, learning rates in [0,1] and step counts", "why_tests_cant": "equality of two algorithms along every run", "anchors": ["markovflow/models/cvi.py: update_sites", "markovflow/ssm_natgrad.py: _natgrad_step", "markovflow/models/variational.py: elbo"]}
{"id": "C89", "title": "Spatio-temporal prior covariance", "statement": "Under the prior of SparseSpatioTemporalKernel the output a at time s and the output b at time t are jointly Gaussian with mean zero and covariance k_space(Z_a, Z_b) k_time(s, t).", "quantifier": "all symmetric positive definite spatial Gram matrices, time kernels, numbers of spatial points and increasing times", "why_tests_cant": "covariances at all pairs of times and all sizes", "anchors": ["markovflow/models/spatio_temporal_variational.py: SparseSpatioTemporalKernel.generate_emission_model"]}
{"id": "C90", "title": "Spatio-temporal projections", "statement": "state_to_space_conditional_projection P satisfies P s = K(x,Z) K(Z,Z)^-1 f(Z,t) for every state s, and projection_inducing_states_to_observations applied to the states at the two inducing times around t is the conditional mean of f(x,t) given the states at all the inducing times.", "quantifier": "all kernels, spatial and temporal inducing points, covered times and states", "why_tests_cant": "an identity over every input and size", "anchors": ["markovflow/models/spatio_temporal_variational.py: state_to_space_conditional_projection, projection_inducing_states_to_observations"]}
{"id": "C91", "title": "SpatioTemporalSparseCVI updates", "statement": "update_sites replaces the log density of the sites by (1-lr) times itself plus lr times the linear and quadratic terms given by the gradients of the variational expectations in the conditional mean of f(x,t). With a Gaussian likelihood and learning rate 1 one update from any sites makes dist_q the optimal Gaussian for the inducing states given the observations minus the mean function; with learning rate lr the distance to it shrinks by 1-lr per update.", "quantifier": "all kernels, data, mean functions, site histories, learning rates in [0,1], numbers of updates", "why_tests_cant": "holds along every run of updates and for every data set", "anchors": ["markovflow/models/spatio_temporal_variational.py: SpatioTemporalSparseCVI.update_sites, dist_q"]}
{"id": "C92", "title": "Spatio-temporal evidence lower bound", "statement": "elbo of the spatio-temporal models is at most the log evidence of the data under the prior with covariance k_space * k_time.", "quantifier": "all kernels, data and variational distributions", "why_tests_cant": "an inequality over every distribution; refuted by a freshly constructed model", "anchors": ["markovflow/models/spatio_temporal_variational.py: SpatioTemporalBase.elbo"]}
{"id": "C93", "title": "The doubly reparameterised objective gives the gradient of the bound", "statement": "Differentiating dregs_objective with respect to the variational parameters gives the gradient of the importance weighted bound up to terms whose expectation is zero: for each draw, the derivative of its normalised weight along its own path minus the weight times the score of the proposal (expectation over the normal noise of the draws).", "quantifier": "all numbers of draws, draws, reparameterisations and differentiable log weights", "why_tests_cant": "an identity between two random gradients for every draw; a test only sees noisy estimates", "anchors": ["markovflow/models/iwvi.py: ImportanceWeightedVI.dregs_objective, elbo"]}
{"id": "C94", "title": "Chain rule of the KL divergence", "statement": "The KL divergence returned for two state space models is the KL divergence between their initial states plus, for each transition, the expectation over the state of the first model of the KL divergence between the two conditional laws of the next state.", "quantifier": "all state dimensions, numbers of transitions and pairs of models with non-singular noise", "why_tests_cant": "a sum over any number of transitions of expectations over all states", "anchors": ["markovflow/state_space_model.py: kl_divergence"]}
{"id": "C95", "title": "Linearising an SDE gives the best linear fit", "statement": "linearize_sde returns the Euler discretisation of the affine drift that is closest in mean square to the drift of the SDE under the given Gaussian marginal at each time. The Ornstein-Uhlenbeck drift is returned exactly, and the double well has slope 4 - 12 (m^2 + v) and intercept 8 m^3 around N(m, v).", "quantifier": "all polynomial drifts of degree below twice the number of quadrature points, all marginals, time grids and competing affine drifts", "why_tests_cant": "the best fit is compared with every other affine drift under every Gaussian", "anchors": ["markovflow/sde/sde_utils.py: linearize_sde", "markovflow/sde/sde.py: expected_drift, expected_gradient_drift"]}
{"id": "C96", "title": "The drift difference along a path is a KL divergence", "statement": "squared_drift_difference_along_Gaussian_path is half the time integral, as a Riemann sum, of the expected squared difference of the two drifts over the diffusion. When the drift of the SDE is affine and the path is that of the linear drift it equals the KL divergence of the two discretised state space models.", "quantifier": "all polynomial drifts, linear drifts, paths, steps and numbers of transitions", "why_tests_cant": "an identity between an expectation over paths and a KL divergence for every drift and step", "anchors": ["markovflow/sde/sde_utils.py: squared_drift_difference_along_Gaussian_path", "markovflow/state_space_model.py: kl_divergence"]}
{"id": "C97", "title": "Converting a linear drift does not change it", "statement": "A LinearDrift that can be compared with an SDE before to_ssm is called can still be compared afterwards.", "quantifier": "all shapes of drifts and paths, all histories of calls to set_from_ssm and to_ssm", "why_tests_cant": "a property of call histories: the failure appears only after a conversion", "anchors": ["markovflow/sde/drift.py: LinearDrift.to_ssm", "markovflow/sde/sde_utils.py: squared_drift_difference_along_Gaussian_path"]}
{"id": "C98", "title": "Cavities of sparse power expectation propagation", "statement": "SparsePowerExpectationPropagation.compute_cavity returns, for each data point, the mean and variance that predict_f gives at its time when the site of its interval is raised to the power 1 - alpha/(number of data points of that interval) and the other sites are unchanged.", "quantifier": "all Markovian kernels with zero mean, inducing points, data points between the first and the last one (any number per interval), sites with non-positive precision corrections, powers alpha in [0, 1]", "why_tests_cant": "an identity between two computations of a Gaussian marginal for every grid, kernel and site value; the code takes the pairwise marginals, one of them with a point before the first inducing point", "anchors": ["markovflow/models/sparse_pep.py: SparsePowerExpectationPropagation.compute_cavity, remove_cavity_from_marginals, fraction_sites"]}
{"id": "C99", "title": "Update of sparse power expectation propagation", "statement": "Each call of update_sites replaces every site by a convex combination of the site and of the sum, over the data points of its interval, of the quadratic given by the gradients at the cavity; the sites stay valid. For a Gaussian likelihood r calls leave (1 - learning_rate*alpha)^r of the distance to a target that does not depend on alpha, and one call with power and learning rate one gives the optimum of the sparse variational bound, with classic_elbo the collapsed bound. log_norm moves by the factor learning_rate*alpha towards the log normalisers of the new sites, and dist_q of a new model is the prior given observations 0 of every inducing state with noise variance 2.5e9.", "quantifier": "all kernels, inducing points, data in range, number r of updates, valid starting sites, powers and learning rates in [0, 1]; all likelihoods with concave expected densities for the first statement", "why_tests_cant": "a rate for every number of updates and every starting point", "anchors": ["markovflow/models/sparse_pep.py: SparsePowerExpectationPropagation.update_sites, compute_new_sites, classic_elbo"]}
{"id": "C100", "title": "Sparse power expectation propagation is exact for data at inducing points", "statement": "With a Gaussian likelihood, power and learning rate one and all data points at inducing points, one call of update_sites makes dist_q the exact posterior of the inducing states and energy the log evidence.", "quantifier": "all kernels, inducing points, data at inducing points (with repetitions), starting sites", "why_tests_cant": "equality of a recursive computation and the exact log evidence for every data set; it fails only for some data sets (two observations at one time)", "anchors": ["markovflow/models/sparse_pep.py: SparsePowerExpectationPropagation.energy, compute_log_norm, dist_q"]}
{"id": "C101", "title": "Sparse power expectation propagation is exact for one data point", "statement": "With a Gaussian likelihood and power one, expectation propagation on a single observation is exact: dist_q is the posterior of the inducing states given that observation, wherever it is between the inducing points.", "quantifier": "all times between the inducing points, kernels, noise variances, observations and starting sites", "why_tests_cant": "a statement about every position of the data point; it holds at the inducing points, where tests usually put the data", "anchors": ["markovflow/models/sparse_pep.py: SparsePowerExpectationPropagation.update_sites, energy"]}
{"id": "C102", "title": "Predictive densities are those of a new observation given the data", "statement": "For regression, predict_y at a new time returns the mean and the covariance of the Gaussian whose log density at y is the log likelihood of the data with the observation y at that time added, minus the log likelihood of the data; predict_density of the likelihood at the result of predict_f is that log density. With a Gaussian likelihood, predict_log_density of a converged CVI model is the difference between the ELBOs of two converged models, with and without the new observation.", "quantifier": "all kernels, data sets, mean functions, noise covariances, new times strictly between data points, and new observations", "why_tests_cant": "an identity between predictions of one model and likelihoods of another, over every data set and every inserted point", "anchors": ["markovflow/posterior.py: AnalyticPosteriorProcess.predict_y", "markovflow/likelihoods/multivariate_gaussian.py: MultivariateGaussian.predict_density, predict_mean_and_var", "markovflow/models/variational_cvi.py: CVIGaussianProcess.predict_log_density"]}
{"id": "C103", "title": "Variational bounds are expected log weights and never exceed the log evidence, for any likelihood", "statement": "For every likelihood whose variational_expectations are the expected log_prob, the elbo of VariationalGaussianProcess and of SparseVariationalGaussianProcess is the expected log importance weight of one draw of states sampled from the variational posterior (log p(y|s) + log p(u) - log q(u)); hence it is at most the expected importance weighted bound with any number of draws, which is at most the log of the expected weight, the log evidence.", "quantifier": "all likelihoods, kernels, inducing grids, data sets between inducing points, variational distributions and numbers of draws", "why_tests_cant": "an identity between a closed form and an expectation over continuous draws, and an inequality, over all likelihoods and all variational distributions", "anchors": ["markovflow/models/variational.py: VariationalGaussianProcess.elbo", "markovflow/models/sparse_variational.py: SparseVariationalGaussianProcess.elbo", "markovflow/models/iwvi.py: ImportanceWeightedVI.elbo", "markovflow/posterior.py: log_importance_weights, sample_state_trajectories"]}
{"id": "C104", "title": "Adding inducing points never lowers the best sparse bound", "statement": "With a Gaussian likelihood, if the inducing points z are among the inducing points z', then some variational distribution at z' has the largest elbo of all distributions at z', and that elbo is at least the elbo of every variational distribution at z; when every data time is among z' it equals the log likelihood of GaussianProcessRegression.", "quantifier": "all kernels, one-output observation models, pairs of nested inducing grids, data sets in range and variational distributions", "why_tests_cant": "compares the maximum over all variational distributions for every pair of nested grids", "anchors": ["markovflow/models/sparse_variational.py: SparseVariationalGaussianProcess.elbo", "markovflow/models/sparse_variational_cvi.py: SparseCVIGaussianProcess.update_sites", "markovflow/conditionals.py: conditional_statistics"]}
{"id": "C105", "title": "Regression does not depend on the origin, direction or units of time and observations", "statement": "GaussianProcessRegression gives the same log likelihood and predictions when all times (and the mean function) are moved by a constant, and, for kernels whose covariance depends on the distance of two times, when time runs backwards. For the Matern kernels, multiplying times and lengthscale by a and observations, noise and mean by b (variance by b^2) multiplies predicted means by b and covariances by b^2, and lowers the log likelihood by ln b for every observed number.", "quantifier": "all stationary library kernels, data sets, query times in the range of the data, shifts and positive scales", "why_tests_cant": "a relation between two runs for all data sets, shifts and scales", "anchors": ["markovflow/models/gaussian_process_regression.py: GaussianProcessRegression.log_likelihood, predict_f", "markovflow/kernels/matern.py: Matern12, Matern32, Matern52", "markovflow/kernels/sde_kernel.py: StationaryKernel"]}
{"id": "C106", "title": "More data and less noise never make a regression less certain, and predictions are linear in the observations", "statement": "Adding observations to a GaussianProcessRegression (keeping all old times, whatever the observed values) never increases a predicted covariance, and no predicted covariance exceeds the prior's: the differences are positive semidefinite. Increasing the observation noise never decreases a predicted covariance. The predicted mean is linear in the observations and the mean function together, and the predicted covariance depends on neither.", "quantifier": "all kernels, emission matrices, data sets and larger data sets, noise factors, mean functions and query times in the range of the data", "why_tests_cant": "an inequality between the results of two runs, for all pairs of nested data sets and all query times", "anchors": ["markovflow/models/gaussian_process_regression.py: GaussianProcessRegression", "markovflow/posterior.py: AnalyticPosteriorProcess.predict_f", "markovflow/kalman_filter.py: KalmanFilter.posterior_state_space_model"]}
{"id": "C107", "title": "Sparse models with inducing points at the data points are the dense models", "statement": "SparseCVIGaussianProcess with its inducing points at the data points has, after any number of update_sites calls with any likelihood and learning rate, the same posterior distribution, predictions and lower bound as CVIGaussianProcess on the same data, when both start from sites with the same product; and the lower bound of SparseVariationalGaussianProcess is that of VariationalGaussianProcess for every variational distribution.", "quantifier": "all kernels with zero state mean, emission matrices, likelihoods with non-positive variance gradient, data, learning rates in [0, 1], numbers of updates, starting sites and query times in the range of the data", "why_tests_cant": "an equality between the histories of two models of any length, for all data and likelihoods", "anchors": ["markovflow/models/sparse_variational_cvi.py: SparseCVIGaussianProcess.update_sites", "markovflow/models/variational_cvi.py: CVIGaussianProcess.update_sites", "markovflow/models/sparse_variational.py: SparseVariationalGaussianProcess.elbo", "markovflow/models/variational.py: VariationalGaussianProcess.elbo"]}
{"id": "C108", "title": "Predicted covariances are positive definite, and predictive log densities are log integrals", "statement": "predict_state returns a positive definite covariance at every time strictly between -1e10 and 1e10, whether before, between, at or after the conditioning times, and for every posterior distribution with nonsingular covariance factors. predict_f returns a symmetric positive semidefinite covariance, in which a combination of outputs has positive variance exactly when the emission matrix does not cancel it, and the variances returned without full_output_cov are its diagonal. Hence predict_log_density of the sparse variational, CVI, PEP, sparse CVI and sparse PEP models is, for a Gaussian likelihood, well defined and equal to the log of the integral of p(y|f) against the normal density with the mean and variance of predict_f, summed over the outputs.", "quantifier": "every kernel with Markov transitions, every increasing grid, every nonsingular posterior or every set of sites that do not increase the variance, every new time, emission matrix, observation and noise variance", "why_tests_cant": "A test evaluates particular times and posteriors; a covariance that loses definiteness for one posterior, one side of the data or exactly at a conditioning time gives NaN log densities only there.", "anchors": ["markovflow/posterior.py: ConditionalProcess.predict_state, predict_f", "markovflow/conditionals.py: conditional_predict, pairwise_marginals", "markovflow/models/sparse_variational.py: predict_log_density", "markovflow/models/variational_cvi.py: predict_log_density", "markovflow/models/pep.py: predict_log_density", "markovflow/models/sparse_pep.py: predict_log_density", "markovflow/models/models.py: MarkovFlowSparseModel.predict_log_density"]}
{"id": "C109", "title": "Kernel expressions with + and * mean what they say", "statement": "For kernels built with the operators + and * to any depth from stationary zero-mean kernels with one output, the prior at any increasing grid has as covariance function the expression evaluated on the covariance functions of its kernels. With noise in every step the result is a Markov kernel, so that the theorems about the models apply to it. Two expressions with equal covariance functions, such as a product of a sum and the sum of the products, give the same regression log likelihood and the same predictions, although their states have different sizes. + and * of independent multi-output stacks act position by position.", "quantifier": "every expression tree in + and *, every choice of kernels at the leaves (with or without process noise, as long as no sum mixes the two kinds), every grid, data set and new time in the range of the data", "why_tests_cant": "Tests combine two or three fixed kernels; the claim is about every tree, every parameter and every grid.", "anchors": ["markovflow/kernels/sde_kernel.py: SDEKernel.__add__, SDEKernel.__mul__, Sum, Product, IndependentMultiOutputStack.__add__, IndependentMultiOutputStack.__mul__"]}
{"id": "C110", "title": "Sparse CVI is natural gradient ascent on the sparse bound", "statement": "Starting from the same distribution of the states at the inducing points, r updates of the sites of SparseCVIGaussianProcess with learning rate lr and r natural gradient steps with gamma=lr on the bound of SparseVariationalGaussianProcess give the same joint distribution of the states at the inducing points, for every likelihood whose variational expectations are differentiable and decreasing in the variance, with the data anywhere in the range of the inducing points.", "quantifier": "all kernels, inducing points, data, likelihoods, learning rates in [0,1] and step counts", "why_tests_cant": "equality of two algorithms along every run; tests compare a few steps on one data set", "anchors": ["markovflow/models/sparse_variational_cvi.py: update_sites, dist_q", "markovflow/ssm_natgrad.py: _natgrad_step", "markovflow/models/sparse_variational.py: elbo"]}
{"id": "C111", "title": "Regression with independent outputs is one regression per output", "statement": "GaussianProcessRegression with an IndependentMultiOutput kernel and observation noise that is uncorrelated between outputs has as log likelihood the sum of the log likelihoods of one GaussianProcessRegression per output, with that output's kernel, mean function, observations and noise. At every time between the first and the last observation its predicted means are those of the separate models and its predicted covariance has their covariances on the diagonal and zeros elsewhere.", "quantifier": "all numbers of outputs, stationary kernels per output, observation times, observations, noise and covered prediction times", "why_tests_cant": "an equality between models of different state dimensions for every data set", "anchors": ["markovflow/kernels/sde_kernel.py: IndependentMultiOutput", "markovflow/models/gaussian_process_regression.py: GaussianProcessRegression.log_likelihood, posterior"]}
{"id": "C112", "title": "Sparse models depend on the data set, not on the order of the data points", "statement": "Listing the data points in another order, and in a different order for every step, changes neither the bound of SparseVariationalGaussianProcess and SpatioTemporalSparseVariational, nor the sites and bounds of SparseCVIGaussianProcess and SpatioTemporalSparseCVI after any number of updates, nor the sites, normalisers and energy of SparsePowerExpectationPropagation. This holds for kernels with a constant state covariance, and for every Markov kernel when the data are within the range of the inducing points. It fails for data outside that range when the state covariance changes over time, because predict_state evaluates the initial covariance at whichever new time comes first.", "quantifier": "all data sets, permutations of them, sequences of updates, kernels, inducing points and likelihoods", "why_tests_cant": "there are N! orders per step; tests use sorted data", "anchors": ["markovflow/models/sparse_variational.py: elbo", "markovflow/models/sparse_variational_cvi.py: update_sites", "markovflow/models/sparse_pep.py: update_sites, energy", "markovflow/models/spatio_temporal_variational.py: elbo, update_sites", "markovflow/posterior.py: ConditionalProcess.predict_state"]}
{"id": "C113", "title": "A mean function is subtracted from the observations and added to the predictions", "statement": "GaussianProcessRegression with a mean function has the log likelihood and loss of the same regression with ZeroMeanFunction on the observations minus the mean function at their times, and its predictions are those of that regression with the mean function at the new times added and the same covariance; so are those of predict_y, and the predictive log density of new observations is that of the observations minus the mean function. The bounds of VariationalGaussianProcess and SparseVariationalGaussianProcess, and their predictive log densities, have the same property for the Gaussian likelihood and any other that depends on the observation minus the function value.", "quantifier": "all mean functions, kernels, data, variational distributions, new times", "why_tests_cant": "the mean function is arbitrary user code; tests try constants and lines", "anchors": ["markovflow/models/gaussian_process_regression.py: _kalman, posterior", "markovflow/models/variational.py: elbo", "markovflow/models/sparse_variational.py: elbo", "markovflow/posterior.py: predict_f", "markovflow/mean_function.py: ZeroMeanFunction"]}
