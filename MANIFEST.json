{
 "claims": [
  {
   "property": "C01",
   "status": "proved",
   "theorems": [
    "C01_to_dense_layout",
    "C01_dense_mult"
   ],
   "note": "proved for all sizes, both classes, both transposition flags"
  },
  {
   "property": "C02",
   "status": "proved",
   "theorems": [
    "C02_add"
   ],
   "note": ""
  },
  {
   "property": "C03",
   "status": "proved",
   "theorems": [
    "C03_solve_mult",
    "C03_substitution"
   ],
   "note": ""
  },
  {
   "property": "C04",
   "status": "proved",
   "theorems": [
    "C04_cholesky",
    "C04_cholesky_blocks"
   ],
   "note": "exact arithmetic; positive definiteness of the dense matrix is the only hypothesis"
  },
  {
   "property": "C05",
   "status": "proved",
   "theorems": [
    "C05_udu",
    "C05_udu_defined",
    "C05_udu_loop"
   ],
   "note": "also shows every matrix factorised inside the loop is positive definite, and that the call fails exactly without a sub-diagonal"
  },
  {
   "property": "C06",
   "status": "proved",
   "theorems": [
    "C06_abs_log_det"
   ],
   "note": ""
  },
  {
   "property": "C07",
   "status": "proved",
   "theorems": [
    "C07_inverse_blocks",
    "C07_inverse_blocks_recursion",
    "C07_cholesky_inverse_blocks"
   ],
   "note": ""
  },
  {
   "property": "C08",
   "status": "proved",
   "theorems": [
    "C08_band_round_trip"
   ],
   "note": ""
  },
  {
   "property": "C09",
   "status": "proved",
   "theorems": [
    "C09_law_exists_unique",
    "C09_marginals",
    "C09_moment_recursions"
   ],
   "note": ""
  },
  {
   "property": "C10",
   "status": "proved",
   "theorems": [
    "C10_precision"
   ],
   "note": ""
  },
  {
   "property": "C11",
   "status": "proved",
   "theorems": [
    "C11_log_det_precision"
   ],
   "note": ""
  },
  {
   "property": "C12",
   "status": "proved",
   "theorems": [
    "C12_log_pdf"
   ],
   "note": ""
  },
  {
   "property": "C13",
   "status": "proved",
   "theorems": [
    "C13_kl_divergence",
    "C13_kl_expectation"
   ],
   "note": ""
  },
  {
   "property": "C14",
   "status": "proved",
   "theorems": [
    "C14_kl_nonneg"
   ],
   "note": ""
  },
  {
   "property": "C15",
   "status": "proved",
   "theorems": [
    "C15_sample"
   ],
   "note": ""
  },
  {
   "property": "C16",
   "status": "proved",
   "theorems": [
    "C16_normalizer"
   ],
   "note": ""
  },
  {
   "property": "C17",
   "status": "proved",
   "theorems": [
    "C17_from_covariances"
   ],
   "note": ""
  },
  {
   "property": "C18",
   "status": "proved",
   "theorems": [
    "C18_posterior",
    "C18_posterior_information",
    "C18_bayes"
   ],
   "note": "conditional law in covariance form, information form (singular observation precisions allowed) and Bayes' rule for densities"
  },
  {
   "property": "C19",
   "status": "proved",
   "theorems": [
    "C19_log_likelihood"
   ],
   "note": ""
  },
  {
   "property": "C20",
   "status": "proved",
   "theorems": [
    "C20_sites_posterior",
    "C20_sites_log_likelihood",
    "C20_sites_factors"
   ],
   "note": ""
  },
  {
   "property": "C21",
   "status": "proved",
   "theorems": [
    "C21_sparse_posterior",
    "C21_sparse_log_likelihood",
    "C21_sparse_bayes",
    "C21_grid_independence"
   ],
   "note": "distinct indices; see C22 for repeated ones"
  },
  {
   "property": "C22",
   "status": "partial",
   "theorems": [
    "C22_repeated_index_refuted",
    "C22_posterior",
    "C22_log_likelihood"
   ],
   "note": "refuted: C22_repeated_index_refuted (two observations of one state). C22_posterior and C22_log_likelihood say exactly what is computed for every index vector and when the posterior is right; the covariance always is"
  },
  {
   "property": "C23",
   "status": "proved",
   "theorems": [
    "C23_naturals_density",
    "C23_density_of_naturals"
   ],
   "note": ""
  },
  {
   "property": "C24",
   "status": "proved",
   "theorems": [
    "C24_model_naturals_model",
    "C24_model_naturals_model_any_factor",
    "C24_naturals_model_naturals",
    "C24_no_smoothing",
    "C24_no_smoothing_naturals"
   ],
   "note": ""
  },
  {
   "property": "C25",
   "status": "proved",
   "theorems": [
    "C25_expectations",
    "C25_model_expectations_model",
    "C25_expectations_model_expectations"
   ],
   "note": ""
  },
  {
   "property": "C26",
   "status": "proved",
   "theorems": [
    "C26_conditional_statistics",
    "C26_conditional_precision"
   ],
   "note": ""
  },
  {
   "property": "C27",
   "status": "proved",
   "theorems": [
    "C27_predict_prior",
    "C27_predict_posterior",
    "C27_predict_kalman"
   ],
   "note": ""
  },
  {
   "property": "C28",
   "status": "proved",
   "theorems": [
    "C28_neighbours"
   ],
   "note": ""
  },
  {
   "property": "C29",
   "status": "proved",
   "theorems": [
    "C29_at_training_time",
    "C29_at_first_training_time"
   ],
   "note": ""
  },
  {
   "property": "C30",
   "status": "partial",
   "theorems": [
    "C30_cyclic_shape_refuted",
    "C30_cyclic_meaning_partial"
   ],
   "note": "refuted: witness proved (the slices act on the state axis); the _partial theorem says what F, G and L mean before the slices"
  },
  {
   "property": "C31",
   "status": "proved",
   "theorems": [
    "C31_semigroup",
    "C31_stack_compose"
   ],
   "note": "every concrete kernel and every nesting of Sum/Concat/Product; StackKernel composes but see C71"
  },
  {
   "property": "C32",
   "status": "proved",
   "theorems": [
    "C32_generator",
    "C32_exponential"
   ],
   "note": "every concrete kernel and every nesting of Sum/Concat; Product see C38"
  },
  {
   "property": "C33",
   "status": "proved",
   "theorems": [
    "C33_lyapunov",
    "C33_process_covariance",
    "C33_positive_or_zero",
    "C33_combined"
   ],
   "note": "Lyapunov for concrete kernels and concatenations; process covariances also for products"
  },
  {
   "property": "C34",
   "status": "proved",
   "theorems": [
    "C34_covariance_function",
    "C34_variance",
    "C34_leg"
   ],
   "note": ""
  },
  {
   "property": "C35",
   "status": "proved",
   "theorems": [
    "C35_prior_law",
    "C35_grid_refinement"
   ],
   "note": ""
  },
  {
   "property": "C36",
   "status": "proved",
   "theorems": [
    "C36_sum",
    "C36_independent_outputs",
    "C36_factor_analysis",
    "C36_stack",
    "C36_library_children"
   ],
   "note": ""
  },
  {
   "property": "C37",
   "status": "proved",
   "theorems": [
    "C37_product"
   ],
   "note": ""
  },
  {
   "property": "C38",
   "status": "partial",
   "theorems": [
    "C38_product_feedback_refuted",
    "C38_kronecker_sum"
   ],
   "note": "refuted: witness proved (product of two Matern 1/2 kernels); the Kronecker sum is proved to be the generator"
  },
  {
   "property": "C39",
   "status": "partial",
   "theorems": [
    "C39_single_kernel",
    "C39_sum_mean",
    "C39_sum_mean_refuted",
    "C39_stack_mean_refuted"
   ],
   "note": "refuted for Sum and stack: witnesses and exact means proved; proved for single kernels"
  },
  {
   "property": "C40",
   "status": "proved",
   "theorems": [
    "C40_stationary"
   ],
   "note": "for every stationary kernel given by a semigroup and a steady state, zero jitter; instances for the concrete kernels with C31-C34"
  },
  {
   "property": "C41",
   "status": "proved",
   "theorems": [
    "C41_sorted_times",
    "C41_lookups",
    "C41_interval",
    "C41_raises",
    "C41_no_change_points",
    "C41_law"
   ],
   "note": "sorted times pointwise, lookups in any order, refusal of exactly the out-of-range times, law of the state space model"
  },
  {
   "property": "C42",
   "status": "partial",
   "theorems": [
    "C42_to_delta_time_refuted",
    "C42_to_delta_time_partial"
   ],
   "note": "refuted: repeated times are accepted, witness proved; the _partial theorem characterises exactly which vectors are accepted"
  },
  {
   "property": "C43",
   "status": "proved",
   "theorems": [
    "C43_projection",
    "C43_law",
    "C43_composed",
    "C43_stack"
   ],
   "note": "projection formulas, law of the projected states, composed and stacked emissions"
  },
  {
   "property": "C44",
   "status": "proved",
   "theorems": [
    "C44_impulse_sum",
    "C44_impulse_response",
    "C44_step_response",
    "C44_response_unique",
    "C44_library",
    "C44_linear"
   ],
   "note": "impulse sum formula, both responses characterised by a differential equation with a unique solution, instantiated at the library kernels"
  },
  {
   "property": "C45",
   "status": "proved",
   "theorems": [
    "C45_unsort",
    "C45_joint_samples",
    "C45_no_error"
   ],
   "note": "tf.argsort enters through its contract (any permutation that orders the keys)"
  },
  {
   "property": "C46",
   "status": "proved",
   "theorems": [
    "C46_weights",
    "C46_weight_formula",
    "C46_expected_value"
   ],
   "note": "tf.nn.softmax is an external contract; draws are inputs; expectation over the categorical draw is the weighted sum."
  },
  {
   "property": "C47",
   "status": "proved",
   "theorems": [
    "C47_bound",
    "C47_leave_one_out"
   ],
   "note": "Expectation over the draws is an abstract positive, normalised, linear functional invariant under exchanging draws; instance: independent draws from finitely many values."
  },
  {
   "property": "C48",
   "status": "proved",
   "theorems": [
    "C48_elbo_identity",
    "C48_elbo_bound"
   ],
   "note": "Gaussian likelihood, any number of outputs and any mean function; kernels with zero initial mean (see C66); needs two data points, as kf_posterior does."
  },
  {
   "property": "C49",
   "status": "proved",
   "theorems": [
    "C49_unit_step",
    "C49_predict",
    "C49_rate"
   ],
   "note": "One output, kernels with zero state mean, no mean function; the derivatives returned by GradientTape are those of gpflow's Gaussian variational expectation."
  },
  {
   "property": "C50",
   "status": "proved",
   "theorems": [
    "C50_posterior",
    "C50_kalman",
    "C50_new_model"
   ],
   "note": "Density of dist_q and equality with posterior_kalman, for zero state mean (see C79 for the other case)."
  },
  {
   "property": "C51",
   "status": "proved",
   "theorems": [
    "C51_posterior",
    "C51_new_model",
    "C51_update",
    "C51_unit_step",
    "C51_rate"
   ],
   "note": "Data between the first and last inducing point. For any likelihood the update counts every point once; for a Gaussian likelihood one unit step gives the optimal q and the collapsed bound."
  },
  {
   "property": "C52",
   "status": "proved",
   "theorems": [
    "C52_schedule",
    "C52_exact",
    "C52_normalisation"
   ],
   "note": "State mean of the kernel zero; groups without repeated indices."
  },
  {
   "property": "C53",
   "status": "partial",
   "theorems": [
    "C53_power",
    "C53_power_refuted"
   ],
   "note": "refuted: C53_power_refuted, for every power below one; C53_power is the exact condition."
  },
  {
   "property": "C54",
   "status": "partial",
   "theorems": [
    "C54_default_refuted",
    "C54_indices_partial",
    "C54_repeated_refuted"
   ],
   "note": "refuted: C54_default_refuted (no indices: nothing changes), C54_repeated_refuted (repeated index); C54_indices_partial is what holds."
  },
  {
   "property": "C55",
   "status": "proved",
   "theorems": [
    "C55_step",
    "C55_regression"
   ],
   "note": "the two gradients of the tape are inputs; C55_regression assumes they are the gradients, and C55_example shows that they exist; the first momentum step is the case r = 0 of C86_momentum"
  },
  {
   "property": "C56",
   "status": "proved",
   "theorems": [
    "C56_minibatch",
    "C56_space_time_minibatch"
   ],
   "note": "C56 for any likelihood: the variational expectations are an arbitrary function of the predicted means and variances. C56_space_time_minibatch is the same for the spatio-temporal models."
  },
  {
   "property": "C57",
   "status": "proved",
   "theorems": [
    "C57_log_density",
    "C57_expectation",
    "C57_density",
    "C57_density_formula",
    "C57_moments",
    "C57_bound"
   ],
   "note": "gpflow's Gaussian log density, variational expectation and predictive density are the code of the likelihood class itself; the matrix factorisations are contracts"
  },
  {
   "property": "C58",
   "status": "proved",
   "theorems": [
    "C58_tree",
    "C58_probability",
    "C58_sample",
    "C58_expectation",
    "C58_default_links",
    "C58_other_values"
   ],
   "note": "the link functions take values in (0, 1); the stage quadrature is a contract"
  },
  {
   "property": "C59",
   "status": "proved",
   "theorems": [
    "C59_from_ssm",
    "C59_from_drift"
   ],
   "note": ""
  },
  {
   "property": "C60",
   "status": "partial",
   "theorems": [
    "C60_values",
    "C60_grid_refuted",
    "C60_size_refuted",
    "C60_linear",
    "C60_library_steps"
   ],
   "note": "refuted: C60_grid_refuted, C60_size_refuted. C60_values and C60_linear say what the output is for every grid: the Euler path on the grid with 0 in front and the last time removed"
  },
  {
   "property": "C61",
   "status": "proved",
   "theorems": [
    "C61_log_likelihood",
    "C61_loss",
    "C61_predict",
    "C61_library"
   ],
   "note": "Query times in the closed range of the data; observation times included when the first is above -1e10."
  },
  {
   "property": "C62",
   "status": "partial",
   "theorems": [
    "C62_right_of_data_partial",
    "C62_left_of_data_partial",
    "C62_right_of_data_formula_partial",
    "C62_right_of_data_bound",
    "C62_left_of_data_bound",
    "C62_right_of_data_refuted",
    "C62_matern_bound"
   ],
   "note": "refuted as an exact statement: for the Matern 1/2 kernel the extrapolated mean is never exactly the propagated one. The error is bounded: by 2r (mean) and 8r(1+v) (covariance) relative to the stationary covariance, for every stationary kernel that remembers a fraction r <= 1/2 over the distance to 1e10, and by 2^-897 for the three Matern kernels a thousand lengthscales away from 1e10. The _partial theorems give the exact formula and the limit case"
  },
  {
   "property": "C63",
   "status": "partial",
   "theorems": [
    "C63_mean",
    "C63_variance",
    "C63_white",
    "C63_triangular_partial",
    "C63_triangular_refuted"
   ],
   "note": "refuted for a triangular q_sqrt: C63_triangular_refuted (the code uses L^T L for L L^T); C63_triangular_partial says exactly what is computed; everything else proved"
  },
  {
   "property": "C64",
   "status": "partial",
   "theorems": [
    "C64_mean",
    "C64_prior_partial",
    "C64_two_points_refuted",
    "C64_one_point_partial"
   ],
   "note": "mean proved; variance refuted: C64_two_points_refuted for every correlated pair of inducing points, C64_prior_partial gives the exact value and the exact condition when the Cholesky factor is normal; C64_one_point_partial gives the exact variance for every posterior with one spatial inducing point"
  },
  {
   "property": "C65",
   "status": "proved",
   "theorems": [
    "C65_single_time_point"
   ],
   "note": ""
  },
  {
   "property": "C66",
   "status": "partial",
   "theorems": [
    "C66_prediction_mean_refuted",
    "C66_prediction_mean_error"
   ],
   "note": "refuted: the offsets are ignored; witness and exact error proved"
  },
  {
   "property": "C67",
   "status": "proved",
   "theorems": [
    "C67_pathwise_sampling"
   ],
   "note": ""
  },
  {
   "property": "C68",
   "status": "proved",
   "theorems": [
    "C68_jitter_accumulates",
    "C68_jitter_law"
   ],
   "note": ""
  },
  {
   "property": "C69",
   "status": "proved",
   "theorems": [
    "C69_product_outputs"
   ],
   "note": ""
  },
  {
   "property": "C70",
   "status": "proved",
   "theorems": [
    "C70_degenerate_combination",
    "C70_degenerate_stack"
   ],
   "note": ""
  },
  {
   "property": "C71",
   "status": "partial",
   "theorems": [
    "C71_stack_identity_refuted",
    "C71_stack_feedback_refuted"
   ],
   "note": "refuted for every padded child"
  },
  {
   "property": "C72",
   "status": "partial",
   "theorems": [
    "C72_unsorted_refuted",
    "C72_grouped"
   ],
   "note": "refuted: with change point 1, unsorted times [2, 0] give the transitions of the wrong kernels; C72_grouped proves the order actually returned for every list"
  },
  {
   "property": "C73",
   "status": "proved",
   "theorems": [
    "C73_refinement",
    "C73_crossing"
   ],
   "note": "refinement inside a segment proved; a concrete pair of Matern12 kernels shows the law changes when the change point itself is added (the class documents that change points should be on the grid)"
  },
  {
   "property": "C74",
   "status": "partial",
   "theorems": [
    "C74_step_product_refuted",
    "C74_two_matern12_refuted",
    "C74_step_product_partial",
    "C74_one_child"
   ],
   "note": "refuted, for every product of two Matern 1/2 kernels; C74_step_product_partial characterises the steps on which the response is right, which are all steps for a product of one kernel."
  },
  {
   "property": "C75",
   "status": "proved",
   "theorems": [
    "C75_samples",
    "C75_samples_observed",
    "C75_sample_f",
    "C75_predict_f"
   ],
   "note": "samples for times between the first and last conditioning points; predictions strictly between conditioning points, for kernels with zero state mean (C66)"
  },
  {
   "property": "C76",
   "status": "proved",
   "theorems": [
    "C76_sparse_elbo"
   ],
   "note": "Data inside the range of the inducing points; outside it predictions are those of C62."
  },
  {
   "property": "C77",
   "status": "partial",
   "theorems": [
    "C77_initial_distribution_refuted",
    "C77_starts_at_prior"
   ],
   "note": "refuted: initial_distribution is passed in the num_data position."
  },
  {
   "property": "C78",
   "status": "partial",
   "theorems": [
    "C78_no_new_points_refuted",
    "C78_weight_without_data_refuted",
    "C78_slices_partial"
   ],
   "note": "refuted for zero new points, where the weights do not depend on the data at all; with one or more new points C78_slices_partial and C46_weight_formula."
  },
  {
   "property": "C79",
   "status": "partial",
   "theorems": [
    "C79_state_mean",
    "C79_state_mean_refuted"
   ],
   "note": "refuted: C79_state_mean_refuted exhibits a Matern 1/2 kernel; C79_state_mean is the exact condition."
  },
  {
   "property": "C80",
   "status": "partial",
   "theorems": [
    "C80_mean_function",
    "C80_mean_function_refuted"
   ],
   "note": "refuted: C80_mean_function_refuted; C80_mean_function is the exact condition."
  },
  {
   "property": "C81",
   "status": "proved",
   "theorems": [
    "C81_expectation_gradient"
   ],
   "note": "Joint differentiability in the sense of Coquelicot's differentiable_pt_lim."
  },
  {
   "property": "C82",
   "status": "proved",
   "theorems": [
    "C82_cavity",
    "C82_cavity_exists"
   ],
   "note": "State mean of the kernel zero."
  },
  {
   "property": "C83",
   "status": "partial",
   "theorems": [
    "C83_value",
    "C83_unit_power",
    "C83_gaussian_refuted",
    "C83_scalar_refuted",
    "C83_scalar_fixed_point",
    "C83_scalar_schedule"
   ],
   "note": "refuted for alpha other than one: C83_gaussian_refuted, C83_scalar_refuted; holds for alpha = 1 (C83_unit_power). C83_scalar_fixed_point and C83_scalar_schedule give the effect on the posterior. The integral is specified by completing the square, not with an integral of the library."
  },
  {
   "property": "C84",
   "status": "proved",
   "theorems": [
    "C84_moments"
   ],
   "note": "The moments are stated through the derivatives g1, g2 returned by the likelihood; that these formulas are the tilted moments is the usual identity, not proved for general likelihoods."
  },
  {
   "property": "C85",
   "status": "partial",
   "theorems": [
    "C85_energy",
    "C85_energy_refuted"
   ],
   "note": "refuted: C85_energy_refuted; C85_energy is the exact difference."
  },
  {
   "property": "C86",
   "status": "partial",
   "theorems": [
    "C86_weights",
    "C86_momentum",
    "C86_run",
    "C86_norm_refuted"
   ],
   "note": "refuted: C86_norm_refuted, the norm used by the code can be negative for a true gradient; the averaging and debiasing is proved for every history"
  },
  {
   "property": "C87",
   "status": "proved",
   "theorems": [
    "C87_kl_gradient",
    "C87_run"
   ],
   "note": "derivatives in all directions with symmetric diagonal blocks"
  },
  {
   "property": "C88",
   "status": "proved",
   "theorems": [
    "C88_cvi"
   ],
   "note": "assumes the gradient of the variational expectation in the variance is not positive, as for log-concave likelihoods, so that the sites stay valid"
  },
  {
   "property": "C89",
   "status": "proved",
   "theorems": [
    "C89_prior"
   ],
   "note": "any number of spatial points and times"
  },
  {
   "property": "C90",
   "status": "proved",
   "theorems": [
    "C90_space",
    "C90_space_time"
   ],
   "note": ""
  },
  {
   "property": "C91",
   "status": "proved",
   "theorems": [
    "C91_update",
    "C91_unit_step",
    "C91_rate",
    "C91_new_model"
   ],
   "note": "the gradients of the variational expectations are a contract (gradients_of); the update theorem holds for any likelihood with variance gradient at most 0"
  },
  {
   "property": "C92",
   "status": "partial",
   "theorems": [
    "C92_bound_refuted",
    "C92_value",
    "C92_bound_partial",
    "C92_one_point_partial"
   ],
   "note": "refuted: C92_bound_refuted; C92_value gives the exact value for every Gaussian likelihood, data set and posterior; C92_bound_partial: the bound holds when no predicted variance at the data is too small; C92_one_point_partial: so it holds for one spatial inducing point and temporal variance at most 1"
  },
  {
   "property": "C93",
   "status": "proved",
   "theorems": [
    "C93_gradient",
    "C93_zero_mean"
   ],
   "note": "identity between the two gradients for every set of draws; for normal proposals of any dimension the difference is a sum of terms, each with expectation zero over one component of the noise given the rest"
  },
  {
   "property": "C94",
   "status": "proved",
   "theorems": [
    "C94_chain_rule"
   ],
   "note": ""
  },
  {
   "property": "C95",
   "status": "proved",
   "theorems": [
    "C95_best_fit",
    "C95_integral",
    "C95_ou",
    "C95_double_well"
   ],
   "note": "Gauss-Hermite rules are a contract (exact for degree below 2 H); polynomial drifts"
  },
  {
   "property": "C96",
   "status": "proved",
   "theorems": [
    "C96_value",
    "C96_integral",
    "C96_kl"
   ],
   "note": "Gauss-Hermite rules are a contract; the value for polynomial drifts, the KL identity for affine drifts"
  },
  {
   "property": "C97",
   "status": "partial",
   "theorems": [
    "C97_before",
    "C97_after_refuted"
   ],
   "note": "refuted: C97_after_refuted (shapes only)"
  },
  {
   "property": "C98",
   "status": "proved",
   "theorems": [
    "C98_cavity"
   ],
   "note": "C98_cavity"
  },
  {
   "property": "C99",
   "status": "proved",
   "theorems": [
    "C99_update",
    "C99_new_model",
    "C99_log_norm",
    "C99_rate",
    "C99_unit_step"
   ],
   "note": "C99_update for every likelihood with concave expected density; C99_rate and C99_unit_step for the Gaussian one. The code passes no power to the gradients, so the fixed point is that of power one for every alpha."
  },
  {
   "property": "C100",
   "status": "partial",
   "theorems": [
    "C100_posterior",
    "C100_energy",
    "C100_refuted"
   ],
   "note": "refuted for the energy when two data points at one inducing point have different observations: C100_refuted; the posterior part holds (C100_posterior), C100_energy is the exact difference."
  },
  {
   "property": "C101",
   "status": "partial",
   "theorems": [
    "C101_energy",
    "C101_single",
    "C101_refuted"
   ],
   "note": "refuted: C101_refuted; C101_single says exactly when it holds, C101_energy gives the energy."
  },
  {
   "property": "C102",
   "status": "proved",
   "theorems": [
    "C102_regression",
    "C102_cvi",
    "C102_contracts"
   ],
   "note": "C102_regression (any number of outputs, any mean function) and C102_cvi. New times outside the range of the data are not covered: the code reaches them through placeholder points at plus and minus 1e10."
  },
  {
   "property": "C103",
   "status": "proved",
   "theorems": [
    "C103_sparse_bound",
    "C103_dense_bound"
   ],
   "note": "Expectation is any positive linear functional over draws whose noise has mean 0 and covariance 1; the variational expectations are a contract (shown for the Gaussian likelihood). That the expected weight is the evidence is read off the weight formula of C46 and not derived by a change of measure."
  },
  {
   "property": "C104",
   "status": "proved",
   "theorems": [
    "C104_more_points"
   ],
   "note": "Gaussian likelihood and one output. For other likelihoods the optimum at z extends to z' by the prior conditional, which need not be a state space model over z', so nothing is claimed."
  },
  {
   "property": "C105",
   "status": "proved",
   "theorems": [
    "C105_shift",
    "C105_reversal",
    "C105_units"
   ],
   "note": "Exact arithmetic; predictions between the first and the last observation. Shifting needs an emission matrix that does not depend on time."
  },
  {
   "property": "C106",
   "status": "proved",
   "theorems": [
    "C106_more_data",
    "C106_more_noise",
    "C106_linear"
   ],
   "note": "Exact arithmetic; predictions between the first and the last observation of the smaller data set."
  },
  {
   "property": "C107",
   "status": "proved",
   "theorems": [
    "C107_sparse_cvi",
    "C107_matching_sites",
    "C107_variational"
   ],
   "note": "Data points above -1e10; the variance gradient of the likelihood is non-positive, so that every precision stays positive definite. The initial sites of the library differ by 1e-10 per data point (C50_new_model, C51_new_model)."
  },
  {
   "property": "C108",
   "status": "proved",
   "theorems": [
    "C108_state",
    "C108_function",
    "C108_variational",
    "C108_sites",
    "C108_sparse_sites"
   ],
   "note": "C108_state, C108_function over any real closed field; C108_variational, C108_sites, C108_sparse_sites over R with the Gaussian likelihood. Times at or beyond 1e10 are outside. The spatio-temporal models are not included (their variances are wrong, C64)."
  },
  {
   "property": "C109",
   "status": "proved",
   "theorems": [
    "C109_prior",
    "C109_markov",
    "C109_regression",
    "C109_stacks"
   ],
   "note": "T_Expr.v. Products are for kernels with one output (C69 shows why). Sums that mix a noiseless and a noisy kernel are excluded: their process covariance is singular (C70)."
  },
  {
   "property": "C110",
   "status": "proved",
   "theorems": [
    "C110_sparse_cvi"
   ],
   "note": "T_NatGrad.v. Without momentum and for the whole data set (num_data=None). Gradients come from automatic differentiation, which is outside the model: the theorem is about any gradient of the bound, and the example shows that one exists."
  },
  {
   "property": "C111",
   "status": "proved",
   "theorems": [
    "C111_log_likelihood",
    "C111_predict"
   ],
   "note": "T_Expr.v. Jitter zero, as in C61."
  },
  {
   "property": "C112",
   "status": "proved",
   "theorems": [
    "C112_bound",
    "C112_bound_in_range",
    "C112_first_point_refuted",
    "C112_sparse_cvi",
    "C112_sparse_cvi_bound",
    "C112_sparse_pep",
    "C112_sparse_pep_energy",
    "C112_spatio_temporal_bound",
    "C112_spatio_temporal_update"
   ],
   "note": "T_Order.v. True for all stationary kernels and for data in range; C112_first_point_refuted shows that it is false in general (posterior.py:208-228)."
  },
  {
   "property": "C113",
   "status": "proved",
   "theorems": [
    "C113_log_likelihood",
    "C113_loss",
    "C113_predict",
    "C113_variational",
    "C113_sparse_variational",
    "C113_variational_predict",
    "C113_predict_y",
    "C113_predict_density",
    "C113_predict_log_density"
   ],
   "note": "T_Shift.v. The CVI models are not covered: CVIGaussianProcess does not use its mean function, see C80."
  }
 ]
}