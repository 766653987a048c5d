# Formal model of markovflow in Rocq

This document says what is modelled, how each property is proved, and what the
proofs rest on.  The properties are in `properties.jsonl` (ids `C01`...), the
status of each one in `MANIFEST.json`, the record of edited models in
`seeded/LOG.jsonl`.  Edits that did not typecheck tested nothing: in the last series they are listed there with a
note, in earlier series they were dropped from the log.
In the manifest `proved` means that the statement in `properties.jsonl` is proved.  `partial` means that the model
refutes that statement, in full or in some case (`_refuted`), or that only the `_partial` theorems hold; the note says which.

## 1. Approach

* **Numbers.** The code runs in floating point.  The model uses exact numbers.
  Facts that need only field operations, order and square roots are proved over
  an arbitrary `rcfType`/`realFieldType`/`fieldType` of mathcomp (no axioms).
  Facts with `log`, `exp`, `sin`, `cos`, `pi`, derivatives, series or integrals are
  proved over Coq's `R`, which `RealStruct.v` equips with the mathcomp structures.
* **Tensors.** A tensor with a time axis is a function `nat -> 'M_d` together
  with an explicit length; entries past the length are arbitrary and no theorem
  depends on them.  Leading batch dimensions are pointwise in the code, so the
  model treats one batch element.
* **Dense matrices.** `Lin.v` has the dense matrix of a block matrix (`dense`).  It is
  the specification side of all linear algebra claims and does not mention the model.
* **Gaussian laws.** `S_SSM.v` says what it means for a linear function of white noise to
  have given means and covariances (`has_law`): the coefficients of the noise are compared,
  so no measure theory is needed and no axiom.  Densities, evidences and divergences are
  the closed forms of `S_Gauss.v`; `expects` is the expectation of a quadratic function
  under a mean and a covariance.  Expectations of other functions are either contracts (an
  abstract linear functional, with an instance shown), polynomial expectations (`S_Sde.v`), or
  integrals of Coquelicot.
* **External libraries.** Calls to `banded_matrices`, `tf`, `tfp` and `gpflow` are
  modelled by what the operation returns in exact arithmetic (section 4.1).
* **Failure.** A raised exception is `None`; where it matters the theorems say exactly when
  it occurs.
* **Disagreements.** Where the code does not do what its documentation says, the
  faithful model is kept, and the property is answered by a theorem named
  `..._refuted` with a witness (section 5).
* **Simplifications** are stated in the comment of each definition, next to the file and lines it
  models.

## 2. Files

All files are in `rocq/theories`.  `M_*.v` is the model, `S_*.v` the specification
vocabulary, `P_*.v` the proofs, `T_*.v` the property theorems: each one closed by `exact`,
followed by `Print Assumptions`, with an `Example` that meets its hypotheses.  The other
files are libraries that mention no code (`RealStruct`, `Nat`, `Alg`, `Lin`, `Ent`, `Spd`, `Log`,
`MCalc`, `MExp`, `MLyap`, `MCont`, `MInv`, `Stein`, `GaussInt` (the Gaussian integral and the moments of a normal density as improper integrals)).

| repository file | model | specification | theorems |
|---|---|---|---|
| `block_tri_diag.py` | `M_Block`, `M_BlockLog` | `S_Block` | `T_Block` |
| `state_space_model.py`, `gauss_markov.py` (check of the time points) | `M_SSM`, `M_SSMLog` | `S_SSM`, `S_Gauss` | `T_SSM`, `T_Sde` (C94) |
| `kalman_filter.py` | `M_Kalman` | `S_Kalman` | `T_Kalman` |
| `ssm_gaussian_transformations.py` | `M_Trans` | `S_Trans` | `T_Trans` |
| `conditionals.py`, `posterior.py` (states) | `M_Cond` | `S_Kernel` | `T_Cond` |
| `posterior.py` (sorting, functions) | `M_Sort` | `S_GP` | `T_Sort` |
| `posterior.py` (importance weights), `models/iwvi.py` | `M_IW` | `S_IW`, `S_Dregs` | `T_IW` |
| `kernels/sde_kernel.py`, `kernels/kernel.py` | `M_Kernel`, `M_Comb` | `S_Kernel`, `S_Comb` | `T_Cond`, `T_Kernel` |
| `kernels/matern.py`, `constant.py`, `periodic.py`, `latent_exp_generated.py` | `M_KernelR` | `S_KernelR` | `T_Kernel` |
| `kernels/piecewise_stationary.py` | `M_Piece` | `S_Piece` | `T_Piece` |
| `emission_model.py`, `mean_function.py` | `M_Emission`, `M_Mean` | `S_Mean` | `T_Mean` |
| `models/gaussian_process_regression.py`, `variational.py`, `sparse_variational.py` | `M_Models` | `S_GP`, `S_Expect` | `T_Models`, `T_Elbo` |
| `models/variational_cvi.py`, `sparse_variational_cvi.py` | `M_Cvi` | `S_Cvi` | `T_Cvi` |
| `models/pep.py`, `likelihoods/likelihoods.py` (PEP) | `M_Pep` | `S_Pep` | `T_Pep` |
| `models/sparse_pep.py` | `M_SPep` | `S_SPep` | `T_SPep` |
| predictive densities: `posterior.py` predict_y, `models/` predict_log_density of the variational, CVI and PEP models, `likelihoods/multivariate_gaussian.py` predict_density | `M_Density` | `S_Density` | `T_Density` |
| operators + and * on kernels: `kernels/sde_kernel.py` __add__, __mul__ | `M_Expr` | `S_Expr` | `T_Expr` |
| `ssm_natgrad.py` | `M_NatGrad` | `S_NatGrad` | `T_NatGrad` |
| `models/spatio_temporal_variational.py`, `utils.py` (conditional) | `M_Space` | `S_Space` | `T_Space` |
| `likelihoods/multivariate_gaussian.py`, `mutlistage_likelihood.py` | `M_Lik` | `S_Lik` | `T_Lik` |
| `sde/*.py` | `M_Sde` | `S_Sde` | `T_Sde` |

## 3. Plan and proof of each property

Status is that of `MANIFEST.json`.  "Refuted" means: the faithful model violates the
property, a witness is proved, and the theorems say what holds instead.

| id | property | what is modelled, how it is proved | theorems |
|---|---|---|---|
| C01 | Block tridiagonal products agree with the dense matrix | the record of diagonal blocks and optional sub-diagonal, band storage, `to_dense`, `dense_mult` with both transposition flags, for the symmetric and the lower triangular class; entry by entry comparison of the band with the dense block matrix, for all sizes | `to_dense_layout`, `dense_mult` |
| C02 | Adding block tridiagonal matrices is dense addition | `+` on both classes with and without sub-diagonals; blockwise | `add` |
| C03 | solve inverts dense_mult | `solve` as the triangular band solve; inverse of a triangular matrix, and the block substitution recursion by induction on the blocks | `solve_mult`, `substitution` |
| C04 | Block Cholesky is the Cholesky factor of the dense matrix | `cholesky` through the band; uniqueness of the factor with positive diagonal, block recursion by Schur complements | `cholesky`, `cholesky_blocks` |
| C05 | UDU factorisation reconstructs the matrix | the loop of `upper_diagonal_lower`; induction from the last block; every matrix factorised in the loop is positive definite; defined exactly when there is a sub-diagonal | `udu`, `udu_defined`, `udu_loop` |
| C06 | abs_log_det is the log absolute determinant | sum of the logs of the diagonal; determinant of a triangular matrix | `abs_log_det` |
| C07 | block_diagonal_of_inverse returns the blocks of the inverse | `block_diagonal_of_inverse` and the recursion of the sparse inverse subset; inverse of the dense matrix | `inverse_blocks`, `inverse_blocks_recursion`, `cholesky_inverse_blocks` |
| C08 | Band storage round trip | index arithmetic of `block_to_band` and `band_to_block` | `band_round_trip` |
| C09 | SSM marginal means and covariances are the moments of the generative recursion | the `ssm` record, `marginal_means`, `marginal_covariances`, `covariance_blocks`; the law of x_0 = mu + L e, x_(k+1) = A x_k + b + L e as coefficients of the noise, unique; comparison with the inverse of the precision | `law_exists_unique`, `marginals`, `moment_recursions` |
| C10 | SSM precision is the inverse joint covariance | `precision` as block products; A^-T Q^-1 A^-1 with the bidiagonal factor | `precision` |
| C11 | log_det_precision is the log determinant of the precision | `log_det_precision`; determinant of the bidiagonal factor is one | `log_det_precision` |
| C12 | log_pdf is the joint Gaussian log density | `log_pdf` step by step; quadratic form of the precision and C11 | `log_pdf` |
| C13 | KL divergence formula | `kl_divergence` with its banded trace; the dense formula, and the expectation of the log ratio | `kl_divergence`, `kl_expectation` |
| C14 | KL divergence is non-negative and vanishes exactly on equal distributions | Gibbs' inequality by simultaneous Cholesky factors and ln x <= x - 1; equality case | `kl_nonneg` |
| C15 | sample maps white noise to the joint law | `sample` as the solve with the bidiagonal factor; equals the generative recursion | `sample` |
| C16 | normalizer is the log partition function | `normalizer`; completing the square in the exponent | `normalizer` |
| C17 | state_space_model_from_covariances keeps the covariances | `state_space_model_from_covariances` with both kinds of arguments; the joint law has the given blocks | `from_covariances` |
| C18 | Kalman posterior is the exact Bayesian posterior | `posterior_state_space_model`; the U D U factorisation of prior plus observation precisions; conditional law by Woodbury, information form and Bayes' rule for densities | `posterior`, `posterior_information`, `bayes` |
| C19 | Kalman log likelihood is the exact log evidence | `log_likelihood` with the smart sum of terms; determinant lemma and Woodbury against the dense evidence | `log_likelihood` |
| C20 | Gaussian sites are time varying observations | `GaussianSites` variants; reduction to the plain filter with time-varying noise | `sites_posterior`, `sites_log_likelihood`, `sites_factors` |
| C21 | Sparse sites equal conditioning on the observed subset only | `KalmanFilterWithSparseSites`: scatter and gather; selection matrices, distinct indices | `sparse_posterior`, `sparse_log_likelihood`, `sparse_bayes`, `grid_independence` |
| C22 | Repeated sparse observation indices are merged incorrectly (refuted) | the same with repeated indices; concrete witness; beside the refutation the exact posterior and log likelihood computed for every index vector | `repeated_index_refuted`, `posterior`, `log_likelihood` |
| C23 | Natural parameters describe the joint density | `ssm_to_naturals`; exponent of the log density, both ways | `naturals_density`, `density_of_naturals` |
| C24 | Natural parameter round trips | `naturals_to_ssm`, `ssm_to_naturals_no_smoothing`; uniqueness of the U D U factorisation | `model_naturals_model`, `model_naturals_model_any_factor`, `naturals_model_naturals`, `no_smoothing`, `no_smoothing_naturals` |
| C25 | Expectation parameters and their round trip | `ssm_to_expectations`, `expectations_to_ssm_params`; second moments, inverse by blocks | `expectations`, `model_expectations_model`, `expectations_model_expectations` |
| C26 | Conditional statistics are Gaussian conditioning | `conditional_statistics` of `conditionals.py`; orthogonality of the residual, and precision form | `conditional_statistics`, `conditional_precision` |
| C27 | Prediction equals marginalising the augmented chain | `predict_state` with dummy points at plus and minus 1e10; marginalising the chain with the time inserted, by induction on the list of times | `predict_prior`, `predict_posterior`, `predict_kalman` |
| C28 | Neighbour lookup brackets the query time | `_conditional_statistics_from_transitions` and searchsorted; counting | `neighbours` |
| C29 | Prediction at a training time returns the posterior marginal | transition over a zero interval is the identity; C27 | `at_training_time`, `at_first_training_time` |
| C30 | Cyclic reduction statistics have the documented shape and meaning (refuted) | `cyclic_reduction_conditional_statistics` with its slices; witness for the shape, meaning of the three matrices before slicing | `cyclic_shape_refuted`, `cyclic_meaning_partial` |
| C31 | Kernel transitions form a semigroup | `state_transitions` of each kernel; products of exponentials and trigonometric identities, Kronecker products, block diagonals | `semigroup`, `stack_compose` |
| C32 | state_transitions is the matrix exponential of feedback_matrix | derivative at every time and the power series of the matrix exponential | `generator`, `exponential` |
| C33 | Steady state covariance solves the Lyapunov equation and drives process covariances | F P + P F^T + L Q L^T = 0 for each kernel; integral positivity by monotonicity of P - A P A^T | `lyapunov`, `process_covariance`, `positive_or_zero`, `combined` |
| C34 | Kernel covariance function | H A(r) P H^T against the documented covariance functions | `covariance_function`, `variance`, `leg` |
| C35 | Refining the grid does not change the prior | the law of the model built on a grid, restricted to a subgrid; induction on the grid | `prior_law`, `grid_refinement` |
| C36 | Sum kernel adds covariances | block diagonal states; covariances add; children of the library and any nesting | `sum`, `independent_outputs`, `factor_analysis`, `stack`, `library_children` |
| C37 | Product kernel multiplies covariances | Kronecker states; covariances multiply | `product` |
| C38 | Product feedback matrix generates its transitions (refuted) | `feedback_matrix` of Product; witness, and the correct generator | `product_feedback_refuted`, `kronecker_sum` |
| C39 | Prior mean of combined kernels is stationary (refuted) | `state_mean` and `initial_mean` of combinations; exact means and witnesses | `single_kernel`, `sum_mean`, `sum_mean_refuted`, `stack_mean_refuted` |
| C40 | Stationary kernel marginals are stationary | marginals of the model of a stationary kernel by induction | `stationary` |
| C41 | Piecewise kernel picks the right segment | `PiecewiseKernel` lookups with dynamic_partition, unique, gather; counting change points; law of the model | `sorted_times`, `lookups`, `interval`, `raises`, `no_change_points`, `law` |
| C42 | to_delta_time validation (refuted) | `to_delta_time` with its assertion; witness and exact set of accepted vectors | `to_delta_time_refuted`, `to_delta_time_partial` |
| C43 | Emission projection identities | `EmissionModel`, composed and stacked; sums written out, law of the projected states | `projection`, `law`, `composed`, `stack` |
| C44 | Impulse and step mean functions are responses of the kernel's process | `mean_function.py`; solution of the linear differential equation with inputs, unique | `impulse_sum`, `impulse_response`, `step_response`, `response_unique`, `library`, `linear` |
| C45 | Sorting and unsorting of query times | `sample_state_trajectories`: argsort twice; permutation lemmas; what can fail | `unsort`, `joint_samples`, `no_error` |
| C46 | Importance weights are normalised | `log_importance_weights`, `expected_value`; softmax sums to one, formula of the weights | `weights`, `weight_formula`, `expected_value` |
| C47 | Importance weighted bound is monotone and bounded | `elbo` of iwvi; Jensen for the concave log over an abstract expectation, leave-one-out averages | `bound`, `leave_one_out` |
| C48 | ELBO equals evidence minus KL for Gaussian likelihoods | `elbo` of variational.py with a Gaussian likelihood; trace identities, KL >= 0 | `elbo_identity`, `elbo_bound` |
| C49 | CVI with Gaussian likelihood and unit step converges in one step | `update_sites` of variational_cvi.py; Gaussian gradients, C18-C20; geometric rate | `unit_step`, `predict`, `rate` |
| C50 | CVI posterior is prior times sites | `dist_q`; exponent of prior times sites; equality with the Kalman route; a new model is near the prior | `posterior`, `kalman`, `new_model` |
| C51 | Sparse CVI assembles pair sites into the right blocks | sparse CVI: pair sites, dynamic_partition; density of `dist_q`, every datum once, optimal posterior in one unit step, rate | `posterior`, `new_model`, `update`, `unit_step`, `rate` |
| C52 | PEP with Gaussian likelihood, alpha=1 | `update_sites` of pep.py with alpha = 1; induction over any schedule of site groups | `schedule`, `exact`, `normalisation` |
| C53 | PEP with Gaussian likelihood, alpha below 1 (refuted) | the same with alpha < 1; exact condition and witness for every alpha below one | `power`, `power_refuted` |
| C54 | PEP default update updates every site (refuted) | `mask_indices`; evaluation, witnesses | `default_refuted`, `indices_partial`, `repeated_refuted` |
| C55 | Natural gradient step | `SSMNaturalGradient` step; gradient in expectation parameters, exact regression in one unit step | `step`, `regression` |
| C56 | Minibatch ELBO scaling is unbiased | `elbo` with num_data; average over all minibatches of a given size; also for the spatio-temporal models | `minibatch`, `space_time_minibatch` |
| C57 | Multivariate Gaussian likelihood formulas | `MultivariateGaussian`; products of Gaussian densities, quadratic expectations | `log_density`, `expectation`, `density`, `density_formula`, `moments`, `bound` |
| C58 | Multi-stage likelihood is a probability | `MultiStageLikelihood`; exponential series, tree of decisions, draws of `sample_y` | `tree`, `probability`, `sample`, `expectation`, `default_links`, `other_values` |
| C59 | Linear drift round trip | `LinearDrift`; field operations at every transition | `from_ssm`, `from_drift` |
| C60 | Euler-Maruyama output is the discretised path (refuted) | `euler_maruyama` as a scan; induction on the grid; witnesses | `values`, `grid_refuted`, `size_refuted`, `linear`, `library_steps` |
| C61 | GPR model equals textbook GP regression | `GaussianProcessRegression`; C19, C27 and the covariance function; all library kernels | `log_likelihood`, `loss`, `predict`, `library` |
| C62 | Extrapolation (refuted) | `predict_state` outside the data: exact formulas; the dummy time point makes an exact statement false for Matern 1/2; explicit error bounds by whitening with the stationary covariance and operator-norm estimates, and 2^-897 for the Matern kernels | `right_of_data_partial`, `left_of_data_partial`, `right_of_data_formula_partial`, `right_of_data_bound`, `left_of_data_bound`, `right_of_data_refuted`, `matern_bound` |
| C63 | batch_base_conditional is the Gaussian conditional (refuted) | `batch_base_conditional` branch by branch; triangular case: exact value and witness | `mean`, `variance`, `white`, `triangular_partial`, `triangular_refuted` |
| C64 | Spatio-temporal predictions | `space_time_predict_f`; composition of C63 and the emission; exact variance and witness | `mean`, `prior_partial`, `two_points_refuted`, `one_point_partial` |
| C65 | A state space model needs at least two time points | assertions of `state_space_model` for one time point | `single_time_point` |
| C66 | Prediction respects a non-zero prior state mean (refuted) | `predict_state` with a non-zero state mean; exact error and witness | `prediction_mean_refuted`, `prediction_mean_error` |
| C67 | Pathwise samples have the law of the conditional process | pathwise samples: prior sample plus correction has the conditional law | `pathwise_sampling` |
| C68 | Jitter accumulates over the grid | `jitter` in the process covariances; exact law by induction | `jitter_accumulates`, `jitter_law` |
| C69 | Product kernels with several outputs are rejected | `Product` constructor check | `product_outputs` |
| C70 | Mixing noisy and noiseless children without jitter cannot be factorised | covariance of a combination with a noiseless child is singular: no factor exists | `degenerate_combination`, `degenerate_stack` |
| C71 | Padded stacks are proper state space kernels (refuted) | `StackKernel` padding: zero blocks; refuted for every padded child | `stack_identity_refuted`, `stack_feedback_refuted` |
| C72 | Piecewise transitions keep the order of unsorted times (refuted) | piecewise transitions for unsorted times: the order returned, witness | `unsorted_refuted`, `grouped` |
| C73 | Adding time points to a piecewise process | insertion of a time inside a segment; law across a change point, two Matern kernels | `refinement`, `crossing` |
| C74 | Step mean function of a Product kernel (refuted) | `StepMeanFunction` with `Product`: wrong generator (C38); refutation for two Matern 1/2 kernels with any lengthscales, and the exact steps on which both generators agree | `step_product_refuted`, `two_matern12_refuted`, `step_product_partial`, `one_child` |
| C75 | Posterior process of any distribution at the conditioning points | `sample_f`, `predict_f` for any distribution at the conditioning points; C67, C27 | `samples`, `samples_observed`, `sample_f`, `predict_f` |
| C76 | Sparse bound never exceeds the evidence | `elbo` of sparse_variational.py; augmented chain, data processing, KL >= 0 | `sparse_elbo` |
| C77 | Importance weighted model starts from the given distribution (refuted) | constructors with positional arguments; evaluation | `initial_distribution_refuted`, `starts_at_prior` |
| C78 | Importance weights use the data for any number of new points (refuted) | Python slices `-m:`: m = 0 loses the data points, m >= 1 splits the draws as intended | `no_new_points_refuted`, `weight_without_data_refuted`, `slices_partial` |
| C79 | CVI posterior keeps the state mean of the kernel (refuted) | `dist_q` with a non-zero state mean; exact condition, witness | `state_mean`, `state_mean_refuted` |
| C80 | CVI predictions include the mean function (refuted) | `posterior` without the mean function; exact condition, witness | `mean_function`, `mean_function_refuted` |
| C81 | Gradients are transformed to expectation parameters | `gradient_transformation_mean_var_to_expectation`; chain rule | `expectation_gradient` |
| C82 | PEP cavity distribution | `compute_cavity`; the law of the state with a power of the site removed; existence | `cavity`, `cavity_exists` |
| C83 | Log expected density under a power of the likelihood (refuted) | `PEPGaussian`, `PEPScalarLikelihood`; the integral of the power in closed form; witnesses; fixed points with a scalar likelihood | `value`, `unit_power`, `gaussian_refuted`, `scalar_refuted`, `scalar_fixed_point`, `scalar_schedule` |
| C84 | PEP updates match moments | `gradient_correction`; matching of means and variances | `moments` |
| C85 | PEP energy is the log evidence for a Gaussian likelihood (refuted) | `energy`, `compute_log_norm`; exact difference from the log evidence, witness | `energy`, `energy_refuted` |
| C86 | Natural gradient with momentum (refuted) | momentum buffers; closed form of the averages by induction on the history; the norm can be negative | `weights`, `momentum`, `run`, `norm_refuted` |
| C87 | Natural gradient of a divergence | gradient of the divergence in natural and expectation coordinates; repeated calls | `kl_gradient`, `run` |
| C88 | CVI is natural gradient ascent | CVI update equals the natural gradient step, for any likelihood | `cvi` |
| C89 | Spatio-temporal prior covariance | `SparseSpatioTemporalKernel`; covariance is the product of the two kernels | `prior` |
| C90 | Spatio-temporal projections | `state_to_space_conditional_projection`; triangular solves | `space`, `space_time` |
| C91 | SpatioTemporalSparseCVI updates | `SpatioTemporalSparseCVI.update_sites`; assembly of pair sites, unit step optimal, rate | `update`, `unit_step`, `rate`, `new_model` |
| C92 | Spatio-temporal evidence lower bound (refuted) | `elbo` of the spatio-temporal models; the wrong variance of C63 breaks the bound: witness; exact value in terms of the predicted variances; bound under a condition on them, which holds for one spatial inducing point and temporal variance at most 1 | `bound_refuted`, `value`, `bound_partial`, `one_point_partial` |
| C93 | The doubly reparameterised objective gives the gradient of the bound | `dregs_objective`; derivative of the softmax; the correction is a sum of total derivatives against the normal density, so each integral over one noise component is zero | `gradient`, `zero_mean` |
| C94 | Chain rule of the KL divergence | `kl_divergence` of C13 rearranged: block trace and quadratic form of the bidiagonal factor | `chain_rule` |
| C95 | Linearising an SDE gives the best linear fit | `linearize_sde`, quadrature, `to_ssm`; Stein's identity for polynomials and least squares; expectations of polynomials shown to be improper integrals against the normal density; quadrature rules with the assumed exactness exist for every number of points, at the roots of the Hermite polynomials (`P_Hermite`) | `best_fit`, `integral`, `ou`, `double_well` |
| C96 | The drift difference along a path is a KL divergence | `squared_drift_difference_along_Gaussian_path`; quadrature is exact; the expectations as integrals; C94 with equal diffusions | `value`, `integral`, `kl` |
| C97 | Converting a linear drift does not change it (refuted) | shapes of `LinearDrift` through `handle_tensor_shape`; every successful `to_ssm` changes the ranks | `before`, `after_refuted` |
| C98 | Cavities of sparse power expectation propagation | `models/sparse_pep.py` line by line; natural parameters of the pairwise marginals, Schur complements, the point before the first inducing point apart | `cavity` |
| C99 | Update of sparse power expectation propagation | the contribution of a data point is a quadratic in E[f | u]; induction on the number of updates; the target is that of the sparse CVI model | `update`, `new_model`, `log_norm`, `rate`, `unit_step` |
| C100 | Sparse power expectation propagation is exact for data at inducing points (refuted) | C99 with Qff = Kff; normalisers as log densities of Gaussians, one data point removed at a time; refuted for repeated times with different observations | `posterior`, `energy`, `refuted` |
| C101 | Sparse power expectation propagation is exact for one data point (refuted) | one data point: the posterior covariance is Kzz - k k^T / (w + s2), the exact one has w + unexplained variance; refuted for Matern 1/2 at every point strictly between two inducing points | `energy`, `single`, `refuted` |
| C102 | Predictive densities are those of a new observation given the data | chain rule for a Gaussian density by a block factorisation, invariance under reordering of the data, and C61, C49 for the two data sets; the two external Gaussian functions are shown to be the integrals they stand for | `regression`, `cvi`, `contracts` |
| C103 | Variational bounds are expected log weights and never exceed the log evidence, for any likelihood | moments of affine and quadratic functions of white noise; pathwise samples split into conditional mean and an independent remainder; C13 for the divergence, C47 for Jensen's inequality | `sparse_bound`, `dense_bound` |
| C104 | Adding inducing points never lowers the best sparse bound | the Nystrom matrix grows with the inducing points (congruence by I - K P'(PKP')^-1 P), the collapsed bound of C76 grows with it (the inequality behind C48), and the optimum is attained by one unit step of the sparse natural gradient updates (C53) | `more_points` |
| C105 | Regression does not depend on the origin, direction or units of time and observations | C61 for both runs; the covariance matrices are related by a permutation and a factor, under which Gaussian densities and conditionals transform | `shift`, `reversal`, `units` |
| C106 | More data and less noise never make a regression less certain, and predictions are linear in the observations | C61 for both runs; the smaller data set is a selection of the larger one, and a projection of the inverse covariance in the metric of the covariance is monotone | `more_data`, `more_noise`, `linear` |
| C107 | Sparse models with inducing points at the data points are the dense models | induction over the updates; the invariant is that the pair sites and the sites have the same exponent, so both distributions have the same density; the projection of the inducing states on a data point picks that point's state | `sparse_cvi`, `matching_sites`, `variational` |
| C108 | Predicted covariances are positive definite, and predictive log densities are log integrals | The pair covariances of pairwise_marginals are principal blocks of the dense posterior covariance (or block diagonal with the prior), so positive semidefinite; the prediction adds the conditional covariance, positive definite as the inverse of a positive definite precision; at a conditioning time it is a diagonal block of the posterior covariance. The log densities use C102_contracts (Gaussian integrals), with the variance positive by the first part. | `state`, `function`, `variational`, `sites`, `sparse_sites` |
| C109 | Kernel expressions with + and * mean what they say | Induction on the expression tree: sums and products of plain kernels are plain, their noise is that of the children (C33), their covariance functions are sums and products (C36, C37). Regression depends on the kernel only through its covariance function (C61). | `prior`, `markov`, `regression`, `stacks` |
| C110 | Sparse CVI is natural gradient ascent on the sparse bound | Write the sites on pairs of neighbouring states as a triple of natural parameters that is linear in the gradients. The mean and the second moment of f at a data point are, up to constants, the products of two such triples with the expectation parameters (from C29 and C31). The argument of C88 then applies to the sparse bound; induction on the steps. | `sparse_cvi` |
| C111 | Regression with independent outputs is one regression per output | The covariance of the stacked observations is, after reordering, block diagonal with one block per output (C36). Determinant, inverse and conditioning formulas split (C61). The reordering is a sum of selection matrices, so no permutation is needed. | `log_likelihood`, `predict` |
| C112 | Sparse models depend on the data set, not on the order of the data points | Data enter through sums over all points or over the points of an interval; reindexing by the permutation gives the same sums, once predictions at a point do not depend on the first point of the batch. Induction over the updates. The counterexample is a Brownian motion with exponential variance and two points to the right of the inducing points, by the formula of C62. | `bound`, `bound_in_range`, `first_point_refuted`, `sparse_cvi`, `sparse_cvi_bound`, `sparse_pep`, `sparse_pep_energy`, `spatio_temporal_bound`, `spatio_temporal_update` |
| C113 | A mean function is subtracted from the observations and added to the predictions | Residuals of the two models are equal, and predict_f adds the mean function to the projected state mean. For the bounds, each term of the sum is shifted by the mean function at its data point. | `log_likelihood`, `loss`, `predict`, `variational`, `sparse_variational`, `variational_predict`, `predict_y`, `predict_density`, `predict_log_density` |

Theorem names carry the id as a prefix (`C01_dense_mult`).  The `.v` file of each theorem is in section 4.3.

## 4. Trusted base

* Coq 8.16.1's kernel and the definitions (not the proofs) of mathcomp and Coquelicot that
  occur in statements: matrices, determinants, ordered fields, polynomials, `is_derive`,
  `is_series`, `is_RInt_gen`.
* That the `M_*.v` files say what the code does; each definition cites file and lines.
* The contracts of section 4.1.

### 4.1 External operations

| operation | what the model assumes it returns |
|---|---|
| `tf.linalg.cholesky`, `banded.cholesky_band` | the lower triangular factor with positive diagonal of a positive definite matrix (`ext_cholesky`; for other matrices the value is arbitrary) |
| `tf.linalg.cholesky_solve`, `triangular_solve`, `tf.linalg.solve` | the product with the inverse; the triangular solves read only their triangle |
| `banded_matrices` products, triangular solves, `inverse_from_cholesky_band`, `block_to_band`, `band_to_block`, `symmetrise_band` | the dense operation restricted to the band, entry by entry (`M_Block.v`) |
| `tf.searchsorted` (left, right) | the number of entries below, or not above, the query |
| `tf.argsort` | any permutation that puts the keys in order (not assumed stable) |
| `tf.gather`, `tf.scatter_nd`, `tf.dynamic_partition`, `tf.unique_with_counts` | as documented; `scatter_nd` adds repeated indices; `gather` fails out of range |
| `tf.linalg.expm` | the matrix exponential, `MExp.v` |
| `tf.einsum`, `matmul`, reductions | the written-out sums |
| `tf.math.reduce_logsumexp`, `tf.nn.softmax` | their formulas |
| `tf.scan` | the states after each element |
| `tf.random.normal`, `tf.random.categorical`, Bernoulli and Poisson draws | inputs of the functions; the laws are those of white noise, of the weights, of the rates |
| `tf.GradientTape` | the derivatives of the differentiated function: inputs, with the hypothesis `gradients_of`, `is_derive` or `differentiable_pt_lim` where a theorem needs it |
| `tf.stop_gradient` | the identity on values; an argument held fixed when differentiating |
| `tfp.MultivariateNormalTriL.log_prob` | `ext_mvn_tril_log_prob`: the formula with the triangular factor, proved to be the density |
| `gpflow.likelihoods.Gaussian`, `Bernoulli`, `Poisson`, `gpflow.logdensities.gaussian` | their formulas |
| `gpflow.quadrature` | a rule with H nodes, exact for polynomials of degree below 2 H (`gauss_hermite`) |
| `gpflow` spatial kernels | a covariance function, positive definite at the inducing points where needed |
| `gpflow` parameters and their transforms | the value of the parameter |
| `tf.math.lgamma`, `erf` | the log factorial on counts; values between -1 and 1 |

### 4.2 Not modelled

* Floating point: rounding, overflow, NaN (except where a theorem says that a square root of a
  negative number is taken), the loss of accuracy of the factorisations.
* TensorFlow itself: graph mode, `tf.function`, name scopes, dtypes, devices; shape checks and
  broadcasting other than those of C42, C65, C69, C97; batch dimensions, except that they
  are pointwise.
* Trainable parameters: constraints, bijectors, `create_trainable_state_space_model` and
  `create_non_trainable_state_space_model` (which only wrap the tensors), `base.py`.
* Optimisers other than `SSMNaturalGradient`; the convergence of gradient descent.
* `models/models.py` (abstract methods); `loss`, `local_objective` and `mask_indices` of `models/sparse_pep.py`, which raise.
* Random number generators.
* Plotting, notebooks, tests and benchmarks.

### 4.3 Print Assumptions

Every theorem is followed by `Print Assumptions`.  The axioms are those of Coq's standard
library and no others:

* E = `Epsilon.epsilon_statement`, D = `ClassicalDedekindReals.sig_forall_dec`,
  N = `ClassicalDedekindReals.sig_not_dec`,
  X = `FunctionalExtensionality.functional_extensionality_dep`, C = `Classical_Prop.classic`.

* `T_Block.v`: closed (no axioms): C01_to_dense_layout, C01_dense_mult, C02_add, C03_solve_mult, C03_substitution, C04_cholesky, C04_cholesky_blocks, C05_udu, C05_udu_defined, C05_udu_loop, C07_inverse_blocks, C07_inverse_blocks_recursion, C07_cholesky_inverse_blocks, C08_band_round_trip; axioms C, D, E, N, X: C06_abs_log_det.
* `T_Cond.v`: closed (no axioms): C26_conditional_statistics, C26_conditional_precision, C27_predict_prior, C27_predict_posterior, C27_predict_kalman, C28_neighbours, C29_at_training_time, C29_at_first_training_time, C30_cyclic_shape_refuted, C30_cyclic_meaning_partial, C35_prior_law, C35_grid_refinement, C40_stationary, C42_to_delta_time_refuted, C42_to_delta_time_partial, C62_right_of_data_partial, C62_left_of_data_partial, C62_right_of_data_formula_partial, C62_right_of_data_bound, C62_left_of_data_bound, C67_pathwise_sampling.
* `T_Cvi.v`: axioms C, D, E, N, X: C50_posterior, C50_kalman, C50_new_model, C79_state_mean, C79_state_mean_refuted, C49_unit_step, C49_predict, C49_rate, C80_mean_function, C80_mean_function_refuted, C51_posterior, C51_new_model, C51_update, C51_unit_step, C51_rate, C107_sparse_cvi, C107_variational; axioms D, E, N, X: C107_matching_sites; axioms D, E, X: C81_expectation_gradient.
* `T_Density.v`: closed (no axioms): C108_state, C108_function; axioms C, D, E, N, X: C102_regression, C102_cvi, C102_contracts, C108_variational, C108_sites, C108_sparse_sites.
* `T_Elbo.v`: axioms C, D, E, N, X: C103_sparse_bound, C103_dense_bound, C104_more_points.
* `T_Expr.v`: closed (no axioms): C109_prior, C109_markov, C109_stacks; axioms C, D, E, N, X: C109_regression, C111_log_likelihood; axioms D, E, N, X: C111_predict.
* `T_IW.v`: closed (no axioms): C78_slices_partial; axioms C, D, E, N, X: C46_weight_formula, C78_weight_without_data_refuted, C47_bound, C47_leave_one_out, C77_initial_distribution_refuted, C93_gradient, C93_zero_mean; axioms D, E, N, X: C46_weights, C46_expected_value, C77_starts_at_prior; axioms D, E, X: C78_no_new_points_refuted.
* `T_Kalman.v`: closed (no axioms): C18_posterior, C18_posterior_information, C20_sites_posterior, C21_sparse_posterior, C22_repeated_index_refuted, C22_posterior; axioms C, D, E, N, X: C18_bayes, C19_log_likelihood, C20_sites_log_likelihood, C20_sites_factors, C21_sparse_log_likelihood, C21_sparse_bayes, C21_grid_independence, C22_log_likelihood.
* `T_Kernel.v`: closed (no axioms): C31_stack_compose, C33_combined, C36_sum, C36_independent_outputs, C36_factor_analysis, C36_stack, C37_product, C39_single_kernel, C39_sum_mean, C66_prediction_mean_error, C68_jitter_law, C69_product_outputs, C70_degenerate_combination, C70_degenerate_stack, C71_stack_identity_refuted; axioms C, D, E, N, X: C31_semigroup, C32_generator, C32_exponential, C33_process_covariance, C33_positive_or_zero, C34_covariance_function, C34_leg, C36_library_children, C38_product_feedback_refuted, C38_kronecker_sum, C39_sum_mean_refuted, C39_stack_mean_refuted, C62_right_of_data_refuted, C62_matern_bound, C66_prediction_mean_refuted, C71_stack_feedback_refuted; axioms D, E, N, X: C33_lyapunov, C34_variance, C68_jitter_accumulates.
* `T_Lik.v`: axioms C, D, E, N, X: C57_log_density, C57_expectation, C57_density, C57_density_formula, C57_bound, C58_tree, C58_probability, C58_sample, C58_expectation, C58_other_values; axioms D, E, N, X: C57_moments, C58_default_links.
* `T_Mean.v`: closed (no axioms): C43_projection, C43_law, C43_composed, C43_stack, C44_impulse_sum, C44_linear; axioms C, D, E, N, X: C44_response_unique, C44_library, C74_step_product_refuted, C74_two_matern12_refuted, C74_step_product_partial; axioms D, E, N, X: C44_impulse_response, C44_step_response, C74_one_child.
* `T_Models.v`: axioms C, D, E, N, X: C61_log_likelihood, C61_loss, C61_library, C105_shift, C105_reversal, C105_units, C48_elbo_identity, C48_elbo_bound, C76_sparse_elbo, C56_minibatch; axioms D, E, N, X: C61_predict, C106_more_data, C106_more_noise, C106_linear.
* `T_NatGrad.v`: axioms C, D, E, N, X: C55_regression, C87_kl_gradient, C87_run, C88_cvi, C110_sparse_cvi, C86_norm_refuted; axioms D, E, N, X: C55_step, C86_momentum, C86_run; axioms D, E, X: C86_weights.
* `T_Order.v`: axioms C, D, E, N, X: C112_bound, C112_bound_in_range, C112_first_point_refuted, C112_sparse_cvi_bound, C112_sparse_pep, C112_sparse_pep_energy, C112_spatio_temporal_bound; axioms D, E, N, X: C112_sparse_cvi, C112_spatio_temporal_update.
* `T_Pep.v`: axioms C, D, E, N, X: C82_cavity, C82_cavity_exists, C84_moments, C52_schedule, C52_exact, C52_normalisation, C53_power, C53_power_refuted, C54_default_refuted, C54_indices_partial, C54_repeated_refuted, C83_value, C83_unit_power, C83_gaussian_refuted, C83_scalar_refuted, C83_scalar_fixed_point, C83_scalar_schedule, C85_energy, C85_energy_refuted.
* `T_Piece.v`: closed (no axioms): C41_sorted_times, C41_lookups, C41_interval, C41_raises, C41_no_change_points, C41_law, C72_grouped, C73_refinement; axioms C, D, E, N, X: C72_unsorted_refuted, C73_crossing.
* `T_SPep.v`: axioms C, D, E, N, X: C98_cavity, C99_update, C99_new_model, C99_log_norm, C99_rate, C99_unit_step, C100_posterior, C100_energy, C100_refuted, C101_energy, C101_single, C101_refuted.
* `T_SSM.v`: closed (no axioms): C09_law_exists_unique, C09_marginals, C09_moment_recursions, C10_precision, C15_sample, C17_from_covariances, C65_single_time_point; axioms C, D, E, N, X: C11_log_det_precision, C12_log_pdf, C13_kl_divergence, C13_kl_expectation, C14_kl_nonneg, C16_normalizer.
* `T_Sde.v`: closed (no axioms): C59_from_ssm, C59_from_drift, C60_values, C60_grid_refuted, C60_size_refuted, C60_linear, C60_library_steps, C95_ou, C95_double_well, C96_value, C97_before, C97_after_refuted; axioms C, D, E, N, X: C94_chain_rule, C95_integral, C96_integral, C96_kl; axioms D, E, N, X: C95_best_fit.
* `T_Shift.v`: axioms C, D, E, N, X: C113_log_likelihood, C113_loss, C113_variational, C113_sparse_variational, C113_predict_density; axioms D, E, N, X: C113_predict, C113_variational_predict, C113_predict_y, C113_predict_log_density.
* `T_Sort.v`: closed (no axioms): C45_unsort, C45_joint_samples, C45_no_error, C75_samples, C75_samples_observed, C75_sample_f, C75_predict_f.
* `T_Space.v`: closed (no axioms): C63_mean, C63_variance, C63_white, C63_triangular_partial, C63_triangular_refuted, C89_prior, C90_space, C64_mean, C64_prior_partial, C64_two_points_refuted; axioms C, D, E, N, X: C91_update, C91_unit_step, C91_rate, C92_bound_refuted, C92_value, C92_bound_partial, C92_one_point_partial, C56_space_time_minibatch; axioms D, E, N, X: C90_space_time, C64_one_point_partial, C91_new_model.
* `T_Trans.v`: closed (no axioms): C24_model_naturals_model, C24_model_naturals_model_any_factor, C24_naturals_model_naturals, C24_no_smoothing, C24_no_smoothing_naturals, C25_expectations, C25_model_expectations_model, C25_expectations_model_expectations; axioms C, D, E, N, X: C23_naturals_density, C23_density_of_naturals.

## 5. Findings

Places where the code and its documentation (or the property a user would expect) disagree.
The first list is proved; the second was found while reading and is outside the model or a
matter of documentation only.

### 5.1 Proved

* **Repeated indices of sparse sites** (C22). `KalmanFilterWithSparseSites` merges two observations of
  one time wrongly.
* **Cyclic reduction statistics** (C30). The slices `[..., 1:, :]` act on the state axis.
* **Product.feedback_matrix** (C38) is the Kronecker product, not the Kronecker sum: it does not
  generate `state_transitions`. Step mean functions of a product kernel are therefore wrong (C74).
* **State means of Sum and StackKernel** (C39) are not the sums of the children's means.
* **to_delta_time** (C42) is documented as strictly increasing; repeated times are accepted.
* **Prediction ignores the state mean of the kernel** (C66), and so do CVI and PEP (C79).
* **CVI ignores the mean function** in its posterior (C80).
* **Padded stacks** (C71): for a padded child the transition over a zero interval is not the identity.
* **Piecewise transitions of unsorted times** (C72) are grouped by segment, so they are in the wrong
  order.  A change point between two grid times is not inserted (C73).
* **Extrapolation** (C62) goes through a dummy time point 1e10: exact only up to the transition over
  that interval.  The error is bounded, and below 2^-897 for Matern kernels with lengthscales up to about 1e7.
* **PEP with alpha < 1** (C53, C83): `PEPGaussian` uses wrong gradients and log density for powers other than
  one; `PEPScalarLikelihood` ignores the power.
* **PEP.update_sites()** without indices changes nothing; repeated indices overshoot (C54).
* **Sparse PEP ignores the power in the gradients** (C99): `compute_new_sites` (sparse_pep.py:338) calls
  `local_objective_gradients` without `alpha`, so the fixed point is that of power one for every `alpha`.
* **Sparse PEP is not exact for one observation** (C101): the site uses the noise variance `s2` where expectation
  propagation needs `s2` plus the variance of f that the inducing states leave unexplained. The result is the
  sparse variational optimum, which is exact only at the inducing points.
* **Sparse PEP energy** (C100): the cavity of a data point takes out an average share of the site of its interval,
  not its own contribution. With two different observations at one time the energy is larger than the log evidence.
* `SparsePowerExpectationPropagation.loss`, `local_objective` and `mask_indices` read attributes that are not set.
* **PEP energy** (C85): `compute_log_norm` evaluates the objective at the marginals instead of the
  cavity, so the energy is not the log evidence.
* **ImportanceWeightedVI** passes `initial_distribution` in the position of `num_data` (C77).
* **Importance weights with no new points** (C78): `[..., -0:, :]` takes everything, so the data term is lost.
* **batch_base_conditional** (C63): for a triangular `q_sqrt` the variance uses L^T L for L L^T.
  The spatio-temporal variances (C64) and the bound (C92) are wrong as a consequence.
* **Natural gradient norm** (C86): the sub-diagonal is counted twice; the squared norm can be
  negative, and its square root is NaN.
* **euler_maruyama** (C60) starts the clock at zero whatever the grid, returns one value fewer than
  documented and repeats the initial value when the grid starts at zero.
* **LinearDrift.to_ssm changes the drift** (C97): afterwards
  `squared_drift_difference_along_Gaussian_path` raises.
* **MultiStageLikelihood** gives log probability zero to values below two that are not counts
  (`C58_other_values`).

### 5.2 Noted

* `PiecewiseKernel`: no change points always raises; times from 1e10 on raise; the documentation
  speaks of K+1 intervals and closed intervals; `initial_covariance` has no jitter; surplus kernels are
  ignored.
* The documentation of the neighbour lookup says `x- <= t < x+`, the code does `x- < t <= x+`.
* `ImpulseMeanFunction` is documented with `time_points[:-1]`.
* `Constant` documents a feedback matrix of another shape; the Matern 3/2 and 5/2 documentation has
  the wrong sign in the exponential.
* `HarmonicOscillator` overrides `process_covariances`, but `state_space_model` goes through
  `transition_statistics` of the base class.
* `LatentExponentiallyGenerated`: the default emission makes all outputs identical.
* `sample_state_trajectories`: a sign in the documented formula; importance weighted
  `sample_state_trajectories` returns the conditioning samples without resampling them.
* Predictions left of the data depend on the first new time of the call (the initial covariance is
  evaluated there).
* `LinearDrift.to_ssm` documents `(A + I) * dt`; the code has `A * dt + I`. `linearize_sde`
  documents the offset with the slope after discretisation.
* `SparsePowerExpectationPropagation`: `compute_new_sites` calls `local_objective_gradients` without the
  power; `loss` calls `self.elbo`, which does not exist; `local_objective` and
  `PowerExpectationPropagation.local_objective` read `_likelihood`, `mask_indices` reads `_time_points`, neither of
  which is set.
* `KalmanFilterWithSparseSites` does not use the means of the sites.
* `naturals_to_ssm` needs at least one transition, so natural gradients fail for a single time.
* `back_project_nats` asserts two-dimensional natural parameters: one output only.
* `SparsePowerExpectationPropagation.posterior` is a plain method, not a property, so the inherited `predict_f` and
  `predict_state` (models.py:176-204, `self.posterior.predict_f`) raise. Its posterior has no mean function.
* `predict_log_density` of the sparse variational and sparse PEP models ignores `full_output_cov`.
* `predict_state` evaluates the initial covariance at the first of the new time points. For kernels whose state covariance
  changes over time, predictions outside the range of the conditioning points therefore depend on which new point comes
  first, and so do the sparse bounds (C112_first_point_refuted).
