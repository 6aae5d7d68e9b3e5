{
 "claims": [
  {
   "property": "C01",
   "status": "proved",
   "theorems": [
    "sizeof_is_cardinality",
    "sizeof_empty_range"
   ],
   "note": "For d >= 1 and all bounds; cardinality of any duplicate-free list of the set."
  },
  {
   "property": "C02",
   "status": "proved",
   "theorems": [
    "generate_enumerates"
   ],
   "note": "All d >= 1 and lower <= upper."
  },
  {
   "property": "C03",
   "status": "proved",
   "theorems": [
    "generate_glex_sorted"
   ],
   "note": "All pairs of rows."
  },
  {
   "property": "C04",
   "status": "proved",
   "theorems": [
    "indexof_is_position",
    "indexof_of_row",
    "indexof_monotone"
   ],
   "note": "Also with a non-zero lower_sum argument."
  },
  {
   "property": "C05",
   "status": "proved",
   "theorems": [
    "gram_hankel_tables_correct"
   ],
   "note": "Targets, ranges, shapes and symmetry for all N, d >= 1."
  },
  {
   "property": "C06",
   "status": "proved",
   "theorems": [
    "extract_moments_correct",
    "extract_mean_correct",
    "extract_cov_correct",
    "marginalise_moments_correct"
   ],
   "note": "Moment vector is any function of the multi-index laid out along the generated rows. Subtraction of mean products for raw moments is done by callers, not by extract_cov."
  },
  {
   "property": "C07",
   "status": "proved",
   "theorems": [
    "cartesian_indices_enumerate",
    "cartesian_prod_entries"
   ],
   "note": "All d, n."
  },
  {
   "property": "C56",
   "status": "partial",
   "theorems": [
    "cartesian_prod_2_refuted",
    "cartesian_prod_2_entries",
    "cartesian_prod_2_partial",
    "cartesian_prod_2_wrong"
   ],
   "note": "False of the code: the stacked meshgrid is reshaped without moving the axis. Every entry is computed; right for one dimension or one point per dimension, wrong for every d >= 2 and n >= 2 with disjoint first rows."
  },
  {
   "property": "C08",
   "status": "proved",
   "theorems": [
    "moment_quadrature_reproduces_moments",
    "moment_quadrature_raw_moments"
   ],
   "note": "For every Cholesky and eigh oracle meeting their specifications (both exist: chol_ref, eigh_ref), either value of the LDL flag."
  },
  {
   "property": "C09",
   "status": "proved",
   "theorems": [
    "moment_quadrature_weights",
    "moment_quadrature_bounds",
    "moment_quadrature_polynomials"
   ],
   "note": "Admissible moment sequences."
  },
  {
   "property": "C10",
   "status": "proved",
   "theorems": [
    "moment_quadrature_representation"
   ],
   "note": "Equality of the functional for every integrand, also across the LDL flag."
  },
  {
   "property": "C11",
   "status": "proved",
   "theorems": [
    "golub_welsch_exact",
    "golub_welsch_is_moment_quadrature"
   ],
   "note": "Sequences of length at least 4; the second theorem identifies the rule with the moment quadrature of the first 2n-2 moments."
  },
  {
   "property": "C12",
   "status": "proved",
   "theorems": [
    "taylor_quadrature_exact"
   ],
   "note": "Differentiation (jax.grad) is an argument assumed correct on the polynomial."
  },
  {
   "property": "C15",
   "status": "proved",
   "theorems": [
    "ldl_correct",
    "ldl_unique",
    "ldl_pivots_iff_posdef"
   ],
   "note": "All sizes >= 1."
  },
  {
   "property": "C16",
   "status": "proved",
   "theorems": [
    "ldl_chol_correct",
    "ldl_chol_completion",
    "ldl_chol_eq_chol",
    "ldl_chol_columns",
    "ldl_chol_default_eps"
   ],
   "note": "R R^T >= A holds for every eps, since a negative pivot is replaced by eps^2 >= 0; the leading pivots are assumed non-zero, as in ldl."
  },
  {
   "property": "C17",
   "status": "proved",
   "theorems": [
    "standard_normal_double_factorial",
    "normal_moments_recursion",
    "normal_recursion_characterises",
    "normal_central_is_raw_at_zero",
    "normal_central_moments"
   ],
   "note": "Non-negative variance (a negative one yields NaN in the code)."
  },
  {
   "property": "C18",
   "status": "proved",
   "theorems": [
    "raw_to_central_correct",
    "raw_to_central_functional",
    "central_to_raw_correct",
    "raw_central_round_trip",
    "central_raw_round_trip",
    "conversions_keep_size"
   ],
   "note": "All lengths; central_raw_round_trip needs entries 1 and 0 at orders 0 and 1."
  },
  {
   "property": "C19",
   "status": "proved",
   "theorems": [
    "raw_to_scaled_correct",
    "raw_to_scaled_default_is_std",
    "raw_to_scaled_standardised",
    "scaled_to_central_correct",
    "scaled_central_round_trip"
   ],
   "note": "All lengths."
  },
  {
   "property": "C20",
   "status": "partial",
   "theorems": [
    "euler_raw_moments",
    "euler_central_moments",
    "euler_scaled_moments_partial",
    "euler_scaled_moments_always_wrong",
    "euler_scaled_moments_refuted",
    "tme_moments_agree"
   ],
   "note": "Raw and central moments proved; the scaled ones are false of the code: every order is divided by the product of all powers of scale. The TME version is proved consistent for any linear expectation."
  },
  {
   "property": "C21",
   "status": "proved",
   "theorems": [
    "cumulants_of_raw",
    "cumulants_of_scaled",
    "cumulants_give_moments",
    "cumulants_determined"
   ],
   "note": "Raw moments with mean 0 and scale 1; central and scaled moments with any mean and scale."
  },
  {
   "property": "C22",
   "status": "proved",
   "theorems": [
    "partial_bell_coefficient",
    "complete_bell_is_sum",
    "complete_bell_recursion"
   ],
   "note": "Argument lists long enough for the indices read."
  },
  {
   "property": "C23",
   "status": "proved",
   "theorems": [
    "hermite_recurrence",
    "hermite_monic",
    "hermite_orthogonal",
    "hermite_derivative"
   ],
   "note": "The Gaussian integral is the Gaussian moment functional."
  },
  {
   "property": "C24",
   "status": "proved",
   "theorems": [
    "gram_charlier_matches_moments",
    "gram_charlier_from_moments",
    "gram_charlier_base",
    "gram_charlier_normal"
   ],
   "note": "Integration against the Gaussian base is the Gaussian moment functional; exp and pi only appear in the base."
  },
  {
   "property": "C25",
   "status": "partial",
   "theorems": [
    "legendre_expansion_default",
    "legendre_expansion_partial",
    "legendre_expansion_wrong_elsewhere",
    "legendre_expansion_refuted"
   ],
   "note": "Proved on [-1, 1]. On every other interval the code is wrong: it matches the moments of the variable mapped to [-1, 1]."
  },
  {
   "property": "C26",
   "status": "partial",
   "theorems": [
    "saddle_equation_partial",
    "saddle_point_refuted"
   ],
   "note": "False of the code: coefficients are passed where roots are expected. The polynomial itself is right."
  },
  {
   "property": "C57",
   "status": "proved",
   "theorems": [
    "truncated_cgf_representation",
    "truncated_cgf_value"
   ],
   "note": "log is an argument."
  },
  {
   "property": "C37",
   "status": "proved",
   "theorems": [
    "gaussian_sum1d_consistent",
    "gaussian_sum1d_single_order_variance_is_zero",
    "gaussian_sum_nd_consistent"
   ],
   "note": "Both classes. Finding: with N = 1 the stored variance is always 0 (clamped read of order 2)."
  },
  {
   "property": "C27",
   "status": "proved",
   "theorems": [
    "raw_filter_invariant",
    "central_filter_invariant",
    "scaled_filter_invariant"
   ],
   "note": "Positive likelihood, admissible initial and conditional moments, any number of steps. The scaled filter needs at least four moments: with two its scale is always zero (scaled_filter_two_moments_degenerate)."
  },
  {
   "property": "C28",
   "status": "proved",
   "theorems": [
    "raw_central_filters_agree",
    "raw_central_filters_agree_euler"
   ],
   "note": "Also across the LDL flag; the second theorem is the instance for the library's Euler-Maruyama moments."
  },
  {
   "property": "C29",
   "status": "proved",
   "theorems": [
    "central_scaled_filters_agree"
   ],
   "note": "At least four moments; also across the LDL flag. Holds although the predicted scale is not the standard deviation (C58)."
  },
  {
   "property": "C30",
   "status": "proved",
   "theorems": [
    "update_keeps_positive_definite",
    "raw_filter_invariant",
    "central_filter_invariant",
    "scaled_filter_invariant"
   ],
   "note": "One update, and every state of a whole run."
  },
  {
   "property": "C31",
   "status": "proved",
   "theorems": [
    "filter_exact_on_hidden_markov_chains"
   ],
   "note": "Every point keeps a positive probability; log is an argument."
  },
  {
   "property": "C32",
   "status": "proved",
   "theorems": [
    "raw_filter_likelihood",
    "central_filter_likelihood",
    "scaled_filter_likelihood",
    "raw_filter_likelihood_product"
   ],
   "note": "log is an argument; the product form needs log 1 = 0 and log (ab) = log a + log b."
  },
  {
   "property": "C33",
   "status": "proved",
   "theorems": [
    "raw_filter_resumes",
    "central_filter_resumes",
    "scaled_filter_resumes"
   ],
   "note": "All three one-dimensional filters."
  },
  {
   "property": "C58",
   "status": "partial",
   "theorems": [
    "predicted_scale_partial",
    "predicted_scale_refuted"
   ],
   "note": "False of the code: the predicted scale is the root of the mean conditional variance and leaves out the variance of the conditional mean; the first theorem gives the exact relation."
  },
  {
   "property": "C13",
   "status": "proved",
   "theorems": [
    "nd_quadrature_raw_moments",
    "nd_quadrature_central_moments",
    "nd_quadrature_scaled_moments",
    "nd_quadrature_polynomials",
    "nd_quadrature_discrete_exact"
   ],
   "note": "Every dimension and order, any Cholesky and eigh oracle meeting the specification, either LDL flag. The last theorem: exact for every function when the law has as many atoms as basis monomials and they are unisolvent."
  },
  {
   "property": "C14",
   "status": "proved",
   "theorems": [
    "nd_quadrature_weights",
    "nd_quadrature_scaled_representation",
    "nd_quadrature_central_representation",
    "affine_nd_discrete"
   ],
   "note": "Equality of the functional for every integrand, not only product functions; affine_nd_discrete checks the change-of-variable specification on discrete laws."
  },
  {
   "property": "C38",
   "status": "proved",
   "theorems": [
    "nd_raw_filter_normalised",
    "nd_central_filter_normalised",
    "nd_scaled_filter_normalised",
    "nd_raw_central_filters_agree",
    "nd_raw_scaled_filters_agree"
   ],
   "note": "Normalisation for any callbacks; equivalence along every history whose raw moments and predictions are admissible, for any initial centre and scale and across the LDL flag."
  },
  {
   "property": "C39",
   "status": "proved",
   "theorems": [
    "nd_filters_reject_bad_length",
    "nd_filters_signatures_agree"
   ],
   "note": "For all three multi-dimensional filters."
  },
  {
   "property": "C59",
   "status": "proved",
   "theorems": [
    "nd_raw_filter_exact_on_chains"
   ],
   "note": "log is an argument."
  },
  {
   "property": "C60",
   "status": "partial",
   "theorems": [
    "nd_predicted_scale_partial",
    "nd_predicted_scale_refuted"
   ],
   "note": "False of the code, as in one dimension (C58)."
  },
  {
   "property": "C61",
   "status": "proved",
   "theorems": [
    "nd_raw_filter_resumes",
    "nd_central_filter_resumes",
    "nd_scaled_filter_resumes"
   ],
   "note": "All three multi-dimensional filters."
  },
  {
   "property": "C40",
   "status": "partial",
   "theorems": [
    "kf_exact_bayes",
    "kf_vector_shape_error",
    "kf_vector_not_bayes",
    "kf_vector_bayes_refuted",
    "log_mvn_pdf_uncorrelated",
    "log_mvn_pdf_refuted"
   ],
   "note": "Scalar measurements: proved along whole histories, including the log-likelihood. Vector measurements: false of the code, which keeps only the diagonal of the Cholesky factor of the innovation covariance (triangular_solve with default arguments), raises when the number of measurements is neither 1 nor the state dimension, and evaluates a wrong log-density for correlated innovations."
  },
  {
   "property": "C41",
   "status": "partial",
   "theorems": [
    "kf_covariances",
    "kf_covariances_data_free",
    "kf_vector_covariance_refuted"
   ],
   "note": "Scalar measurements: proved. For vector measurements a returned covariance can be negative definite."
  },
  {
   "property": "C42",
   "status": "proved",
   "theorems": [
    "rts_covariances",
    "kf_rts_covariances"
   ],
   "note": "For any filtering history in which every covariance is at most its prediction, and in particular after kf."
  },
  {
   "property": "C43",
   "status": "proved",
   "theorems": [
    "ekf_is_kf",
    "eks_is_rts",
    "ekf_affine_exact"
   ],
   "note": "jacfwd and jacrev enter through their values on affine maps. Linear models give the kf and rts results for any measurement dimension; affine models, which kf cannot express, give exact filtering."
  },
  {
   "property": "C44",
   "status": "proved",
   "theorems": [
    "sgp_filter_is_kf",
    "sgp_smoother_is_rts",
    "cubature_moments"
   ],
   "note": "Prior and predicted covariances positive definite (Cholesky exists); log multiplicative on positive numbers."
  },
  {
   "property": "C45",
   "status": "proved",
   "theorems": [
    "cubature_moments",
    "cubature_cubic_exact"
   ],
   "note": "Every dimension, mean, factor and cubic."
  },
  {
   "property": "C46",
   "status": "proved",
   "theorems": [
    "gauss_hermite_grid",
    "gauss_hermite_exact",
    "gauss_hermite_moments"
   ],
   "note": "np.roots enters through its specification (roots_ref_spec is a witness); order at least one."
  },
  {
   "property": "C47",
   "status": "proved",
   "theorems": [
    "rk4_taylor_step",
    "rk4_exponential",
    "rk4_constant",
    "rk4_symmetric",
    "rk4_backward_frozen",
    "cd_ekf_prediction"
   ],
   "note": "Any affine right-hand side on pairs (mean, covariance)."
  },
  {
   "property": "C62",
   "status": "proved",
   "theorems": [
    "kf_rts_posterior"
   ],
   "note": "The posterior is given by its quadratic cost; marginals by partial minimisation, which for Gaussians is marginalisation."
  },
  {
   "property": "C63",
   "status": "partial",
   "theorems": [
    "sgp_filter_exact_bayes",
    "sgp_posterior",
    "log_mvn_pdf_uncorrelated",
    "log_mvn_pdf_refuted"
   ],
   "note": "Means and covariances: proved for every measurement dimension. The log-likelihood is right for diagonal Cholesky factors and wrong in general."
  },
  {
   "property": "C64",
   "status": "proved",
   "theorems": [
    "cd_filters_agree",
    "cd_smoothers_agree"
   ],
   "note": "The stage condition is a hypothesis on the run of the extended filter or smoother; cd_filters_ex and cd_smoothers_ex exhibit runs that satisfy it."
  },
  {
   "property": "C34",
   "status": "proved",
   "theorems": [
    "mvn_kan_moments",
    "mvn_moments_unique",
    "mvn_moments_independent",
    "mvn_mgf_is_kan",
    "mvn_central_moments"
   ],
   "note": "The Gaussian law enters as its moment sequence, characterised by the integration-by-parts recursion, which is shown to have one solution. The moment generating function variant is modelled by formal differentiation."
  },
  {
   "property": "C35",
   "status": "proved",
   "theorems": [
    "uniform_nd_moments",
    "uniform_nd_raw_and_central"
   ],
   "note": "Integrals of polynomials through primitives."
  },
  {
   "property": "C36",
   "status": "proved",
   "theorems": [
    "normal_nd_conditional_moments",
    "euler_nd_conditional_moments",
    "euler_nd_filters_agree"
   ],
   "note": "All five callbacks, for Euler and for the normal TME variant with given mean and covariance; the last theorem instantiates the equivalence of the filters."
  },
  {
   "property": "C65",
   "status": "proved",
   "theorems": [
    "tme_nd_conditional_moments"
   ],
   "note": "tme.expectation is any functional linear in the test function."
  },
  {
   "property": "C66",
   "status": "proved",
   "theorems": [
    "gaussian_expectation_exact"
   ],
   "note": "np.roots and pi enter through their specifications; L need not be triangular."
  },
  {
   "property": "C67",
   "status": "proved",
   "theorems": [
    "gaussian_admissible",
    "gaussian_nd_quadrature"
   ],
   "note": "Any Cholesky and eigh oracle meeting the specification."
  },
  {
   "property": "C68",
   "status": "proved",
   "theorems": [
    "linear_prediction_exact",
    "linear_filters_exact",
    "linear_filters_agree"
   ],
   "note": "The likelihood of the last two theorems does not depend on the state; positive definite prior covariance."
  },
  {
   "property": "C48",
   "status": "proved",
   "theorems": [
    "systematic_resampling",
    "equal_weights_identity",
    "resampling_in_range"
   ],
   "note": "searchsorted enters through its specification; draws in (0, 1). The draw 0 is C69."
  },
  {
   "property": "C49",
   "status": "proved",
   "theorems": [
    "stratified_resampling",
    "multinomial_resampling",
    "sorted_uniforms_increasing",
    "schemes_valid",
    "resampling_in_range"
   ],
   "note": "jax.random.uniform and log are arguments; draws in (0, 1)."
  },
  {
   "property": "C50",
   "status": "proved",
   "theorems": [
    "continuous_resampling_monotone",
    "continuous_resampling_quantile",
    "continuous_resampling_exchangeable"
   ],
   "note": "Also: the values are quantiles of the piecewise linear distribution, and do not depend on the order of the samples."
  },
  {
   "property": "C51",
   "status": "proved",
   "theorems": [
    "bootstrap_filter_sound",
    "bootstrap_filter_continuous",
    "bootstrap_offspring",
    "bootstrap_likelihood_scale",
    "particle_filter_sound",
    "particle_filter_bootstrap"
   ],
   "note": "Samplers, key splitting and log are arguments. The correlation of the random streams is not modelled."
  },
  {
   "property": "C52",
   "status": "proved",
   "theorems": [
    "brute_force_chapman_euler",
    "brute_force_chapman_tme",
    "brute_force_chapman_nonneg",
    "brute_force_kolmogorov",
    "brute_force_scale_invariant",
    "brute_force_methods"
   ],
   "note": "The Gaussian density, derivatives, square root, TME statistics and int() are arguments."
  },
  {
   "property": "C69",
   "status": "partial",
   "theorems": [
    "systematic_zero_weight_refuted"
   ],
   "note": "False: with the draw 0 a leading particle of zero weight is selected. True for positive draws (C48)."
  },
  {
   "property": "C70",
   "status": "partial",
   "theorems": [
    "brute_force_unknown_chapman_refuted",
    "brute_force_methods"
   ],
   "note": "False: a method containing 'chapman' that is neither Euler nor TME ends in a NameError. True for the names that do not contain 'chapman'."
  },
  {
   "property": "C71",
   "status": "proved",
   "theorems": [
    "kolmogorov_operator_exact"
   ],
   "note": "Derivatives through their specification; the witness is the central difference on quadratics."
  },
  {
   "property": "C53",
   "status": "proved",
   "theorems": [
    "lanczos_tridiagonal",
    "lanczos_full",
    "lanczos_moment_match",
    "lanczos_breakdown_iff",
    "lanczos_ritz_powers",
    "lanczos_ritz_full"
   ],
   "note": "eigh through its specification. Breakdown is characterised as linear dependence of the Krylov vectors."
  },
  {
   "property": "C54",
   "status": "proved",
   "theorems": [
    "pcrlb_is_kalman",
    "pcrlb_is_bayes"
   ],
   "note": "Second derivatives through their specification on quadratics. kf is used for scalar measurements (its vector branch is C40); Bayes' rule for measurements of every dimension."
  },
  {
   "property": "C55",
   "status": "proved",
   "theorems": [
    "characteristic_fn_total",
    "characteristic_fn_laws",
    "characteristic_fn_positive_definite",
    "characteristic_fn_affine",
    "characteristic_fn_representation",
    "characteristic_fn_exact",
    "characteristic_fn_error",
    "characteristic_fn_reals",
    "characteristic_fn_error_reals"
   ],
   "note": "The complex exponential is an argument: modulus one and conjugate symmetry on the imaginary axis, the functional equation where stated, Taylor's inequality for the error bound (laws with any finite number of atoms)."
  },
  {
   "property": "C72",
   "status": "proved",
   "theorems": [
    "characteristic_from_pdf_laws",
    "characteristic_from_pdf_bound",
    "characteristic_from_pdf_shift",
    "inverse_fourier_real",
    "inverse_fourier_shift",
    "inverse_fourier_bound",
    "inverse_fourier_max",
    "characteristic_from_pdf_reals"
   ],
   "note": "The complex exponential and pi are arguments."
  },
  {
   "property": "C73",
   "status": "proved",
   "theorems": [
    "C73_lti_chapman_kolmogorov",
    "C73_lti_zero",
    "C73_lti_cov_symmetric",
    "C73_lti_moment_equations",
    "C73_lti_nilpotent"
   ],
   "note": "expm is an argument with the group, transposition and intertwining laws (and the derivative where stated) on a class of matrices; for nilpotent matrices these are proved of the finite exponential sum, so only its value is assumed."
  },
  {
   "property": "C74",
   "status": "proved",
   "theorems": [
    "C74_simulate_path",
    "C74_simulate_diagonal",
    "C74_simulate_lti_exact"
   ],
   "note": "The random generator is an arbitrary array of the requested shape."
  },
  {
   "property": "C75",
   "status": "proved",
   "theorems": [
    "C75_vmap_list_of_funcs"
   ],
   "note": "jax.lax.switch with its clamped index."
  },
  {
   "property": "C76",
   "status": "proved",
   "theorems": [
    "raw_filter_affine_equivariant",
    "central_filter_affine_equivariant",
    "normal_filter_affine_equivariant",
    "normal_central_filter_affine_equivariant",
    "euler_filter_affine_equivariant",
    "euler_central_filter_affine_equivariant"
   ],
   "note": "Exact arithmetic; the LDL flag may differ between the two runs. The scaled filter is not covered."
  },
  {
   "property": "C77",
   "status": "proved",
   "theorems": [
    "benes_bernoulli_logistic",
    "benes_bernoulli_pmf",
    "benes_bernoulli_drift",
    "initial_condition_symmetric",
    "time_grids"
   ],
   "note": "jnp.exp is an argument: positive, exp x exp(-x) = 1, increasing."
  },
  {
   "property": "C78",
   "status": "proved",
   "theorems": [
    "benes_bernoulli_reflection",
    "benes_bernoulli_reals"
   ],
   "note": "Euler transition moments."
  },
  {
   "property": "C79",
   "status": "proved",
   "theorems": [
    "well_poisson_emission",
    "well_poisson_pmf",
    "well_poisson_drift",
    "well_poisson_distribution"
   ],
   "note": "jnp.exp and jnp.log are arguments, inverse to each other."
  },
  {
   "property": "C80",
   "status": "proved",
   "theorems": [
    "parameter_estimation_likelihood_even",
    "parameter_transforms",
    "parameter_estimation_objective",
    "parameter_estimation_reals"
   ],
   "note": "The Euler branch of the script (args.euler)."
  },
  {
   "property": "C81",
   "status": "proved",
   "theorems": [
    "prey_predator_field",
    "prey_predator_equilibria",
    "prey_predator_milstein",
    "prey_predator_axes_invariant",
    "prey_predator_observation",
    "prey_predator_initial"
   ],
   "note": "Exact arithmetic; jnp.exp is an argument."
  },
  {
   "property": "C82",
   "status": "proved",
   "theorems": [
    "satellite_model",
    "satellite_reals"
   ],
   "note": "jnp.sin is an odd argument; the energy statement is the inner product of the drift with the gradient."
  },
  {
   "property": "C83",
   "status": "partial",
   "theorems": [
    "prey_predator_positive_partial",
    "prey_predator_positive_pp_partial",
    "prey_predator_positive_refuted"
   ],
   "note": "False without a bound on the predator population (refuted); proved under one (100 n predators for n integration steps)."
  },
  {
   "property": "C84",
   "status": "proved",
   "theorems": [
    "real_expm_series",
    "lti_real_exact",
    "lti_real_covariance",
    "simulate_lti_real"
   ],
   "note": "Over the real numbers of the standard library, with its axioms; exact arithmetic."
  },
  {
   "property": "C85",
   "status": "proved",
   "theorems": [
    "ekf_linearised_exact",
    "eks_linearised",
    "cd_ekf_small_step",
    "cd_ekf_nonlinear",
    "cd_eks_nonlinear"
   ],
   "note": "jacfwd and jacrev are right wherever the function is differentiable (real_jac_spec is a witness over the reals). Scalar measurements: the vector branch of _linear_update is C41."
  },
  {
   "property": "C86",
   "status": "proved",
   "theorems": [
    "sgp_filter_nonlinear",
    "sgp_likelihood_nonlinear",
    "sgp_smoother_nonlinear",
    "cd_sgp_small_step",
    "cd_sgp_smoother_nonlinear"
   ],
   "note": "Cholesky through its specification. With const_measurement_cov the measurement covariance must be constant. Likelihood: scalar measurements (C63)."
  },
  {
   "property": "C87",
   "status": "proved",
   "theorems": [
    "conv_kernel_chain",
    "conv_stationary",
    "conv_simulation",
    "conv_ou_discretised"
   ],
   "note": "exp through its functional equation, positivity and monotonicity, chol through its specification; the SDE part over the real numbers with the standard library's axioms."
  },
  {
   "property": "C88",
   "status": "proved",
   "theorems": [
    "conv_kf_regression",
    "conv_rts_regression",
    "conv_kf_library"
   ],
   "note": "exp and log through their functional equations. Exact arithmetic."
  },
  {
   "property": "C89",
   "status": "proved",
   "theorems": [
    "conv_optimal_proposal",
    "conv_pf_weights",
    "conv_pf_samplers",
    "conv_pf_statistics"
   ],
   "note": "The random keys are arguments."
  },
  {
   "property": "C90",
   "status": "proved",
   "theorems": [
    "conv_kl_divergence",
    "conv_mean_error"
   ],
   "note": "Expectation as the moment functional of the Gaussian on the quadratic difference of log densities."
  },
  {
   "property": "C91",
   "status": "proved",
   "theorems": [
    "conv_mf_predict",
    "conv_mf_modes"
   ],
   "note": "chol and eigh through their specifications."
  },
  {
   "property": "C92",
   "status": "partial",
   "theorems": [
    "convergence_mf_type_error",
    "convergence_mf_runs_refuted",
    "convergence_mf_imports",
    "convergence_mf_unshadowed"
   ],
   "note": "Refuted: lines 116-132 rebind moment_filter_rms and moment_filter_cms to one-argument jitted wrappers whose bodies call these names with 4 and 6 arguments, so both modes raise TypeError. C91 is about the bodies with the names read as the imports. Name lookup and arity are modelled, not jit."
  },
  {
   "property": "C93",
   "status": "proved",
   "theorems": [
    "cf_errors_metric",
    "cf_errors_compare",
    "cf_grid_laws",
    "cf_errors_bound",
    "mean_errors"
   ],
   "note": "Exact arithmetic; exp on complex numbers through the Taylor bound it satisfies (a theorem over the reals)."
  },
  {
   "property": "C94",
   "status": "proved",
   "theorems": [
    "particle_cf_laws",
    "proposal_moments"
   ],
   "note": "The random normal draws are a function of the key; expectation over keys as a finite weighted sum."
  },
  {
   "property": "C95",
   "status": "proved",
   "theorems": [
    "spatial_grid_bounds",
    "spatial_grid_mass",
    "true_mean_in_grid"
   ],
   "note": "Exact arithmetic."
  },
  {
   "property": "C96",
   "status": "proved",
   "theorems": [
    "bernoulli_matched",
    "well_poisson_ghf",
    "well_poisson_ghf_tracks",
    "prey_predator_euler"
   ],
   "note": "exp and log through their specifications; that the Poisson law has mean and variance equal to its rate is well_poisson_distribution (C79) over the reals."
  },
  {
   "property": "C97",
   "status": "proved",
   "theorems": [
    "benes_bernoulli_ekf_blind",
    "benes_bernoulli_ghf_tracks",
    "benes_bernoulli_ekf_blind_real"
   ],
   "note": "The last theorem is the instance with the order-one transition and the functions on the real numbers."
  },
  {
   "property": "C98",
   "status": "partial",
   "theorems": [
    "gh_file_is_ekf_file",
    "ghf_ekf_objectives_differ",
    "gh_file_refuted",
    "gh_file_not_correct",
    "gh_file_not_correct_real"
   ],
   "note": "Refuted: the solver of the Gauss-Hermite part is built with fun=obj_func_ekf, so both files hold the extended Kalman estimate; the two objectives differ at every parameter. The optimiser is an arbitrary function."
  },
  {
   "property": "C99",
   "status": "proved",
   "theorems": [
    "prey_predator_raw_means"
   ],
   "note": ""
  },
  {
   "property": "C100",
   "status": "proved",
   "theorems": [
    "particle_cf_moments",
    "characteristic_fn_moments",
    "ghf_cf_moments"
   ],
   "note": "Over the real numbers of the standard library with its axioms; exact arithmetic."
  },
  {
   "property": "C101",
   "status": "proved",
   "theorems": [
    "continuous_resampling_continuous",
    "bootstrap_filter_parameters",
    "pf_objective_formula",
    "pf_objective_continuous",
    "pf_objective_continuous_tme",
    "pf_objective_continuous_reals"
   ],
   "note": "Exact arithmetic. With eps > 0 the condition on the weights cannot be dropped: the code replaces small gaps of the distribution function."
  },
  {
   "property": "C102",
   "status": "partial",
   "theorems": [
    "pf_objective_stratified_refuted",
    "pf_objective_stratified_reals_refuted",
    "continuous_resampling_ties_refuted"
   ],
   "note": "Refuted: for every parameter there are admissible draws for which the stratified objective jumps there, and continuous_resampling jumps by at least 1/6 where two particles with different weights meet (three particles, one draw). Under the conditions of C101 both are continuous."
  },
  {
   "property": "C103",
   "status": "proved",
   "theorems": [
    "choice_interval",
    "gaussian_sum_sampler_moments",
    "gaussian_sum_nd_sampler"
   ],
   "note": "jax.random.choice by its inverse-cdf definition; expectation as a linear functional of mass one on functions of the key under which component and normal draw are independent."
  },
  {
   "property": "C104",
   "status": "proved",
   "theorems": [
    "wp_proposal_moments",
    "pp_proposal_moments",
    "benes_bernoulli_pf",
    "prey_predator_pf",
    "prey_predator_pf_errors"
   ],
   "note": "The random draws are functions of the key. The Cholesky factor of the prey-predator covariance exists if neither population is zero."
  },
  {
   "property": "C105",
   "status": "proved",
   "theorems": [
    "bb_modes_agree_normal",
    "bb_modes_agree_tme",
    "bb_mode_output",
    "bb_mode_errors"
   ],
   "note": "tme.expectation as a functional that is linear on polynomials; tme.mean_and_cov with the same mean and positive variance. N = 0 fails while tracing in every mode."
  },
  {
   "property": "C106",
   "status": "partial",
   "theorems": [
    "bb_scaled_normal_contracts",
    "bb_scaled_normal_too_small",
    "bb_scaled_normal_refuted"
   ],
   "note": "Refuted, a consequence of C20: every prediction of the scaled mode is contracted about its mean by the predicted scale, so that for every order and every symmetric transition law with variances below one (the Euler law of the model is one) the first filtering mean is strictly between zero and that of the central mode."
  },
  {
   "property": "C107",
   "status": "proved",
   "theorems": [
    "quadrature_separation",
    "quadrature_distribution"
   ],
   "note": "Laws as integrals (positive normalised linear functionals on a class of functions that holds the polynomials); the indicators must be integrable."
  },
  {
   "property": "C108",
   "status": "proved",
   "theorems": [
    "quadrature_nodes_in_hull",
    "quadrature_error_bound",
    "quadrature_even_moment"
   ],
   "note": ""
  },
  {
   "property": "C109",
   "status": "proved",
   "theorems": [
    "raw_filter_converges",
    "central_filter_converges",
    "scaled_filter_converges"
   ],
   "note": "Continuity is stated as uniform approximation by polynomials (Weierstrass). For the scaled filter the transition variances are bounded below, since it divides by the posterior scale. Exact arithmetic. Witness over the reals with the Riemann integral: jump_filters_converge in RealFilterConv."
  },
  {
   "property": "C110",
   "status": "proved",
   "theorems": [
    "systematic_unbiased",
    "systematic_copies",
    "stratified_unbiased",
    "stratified_copies",
    "stratified_variance"
   ],
   "note": "The law of the keys is an expectation on a class of integrable functions; uniformity is given by the distribution function. Witnesses over the reals (Riemann integral over [0,1] and iterated integral over the square) in RealResample."
  },
  {
   "property": "C111",
   "status": "proved",
   "theorems": [
    "systematic_particles",
    "stratified_particles",
    "bootstrap_unbiased",
    "bootstrap_likelihood_unbiased"
   ],
   "note": "Independence of the split keys is a hypothesis (the PRNG is an oracle). The expectation is total; the witness uses keys made of fair bits, for every measurement sequence."
  },
  {
   "property": "C112",
   "status": "partial",
   "theorems": [
    "continuous_unbiased_refuted"
   ],
   "note": "Refuted: for weights (1, 0) and samples (0, 1) the expected number of resampled particles up to 1/2 is 3/2 instead of 2, for every law with uniform draws."
  },
  {
   "property": "C113",
   "status": "proved",
   "theorems": [
    "runs_exactly_once",
    "array_runs_exactly_once"
   ],
   "note": "Natural-number model of the shell arithmetic; sequential_runs > 0."
  },
  {
   "property": "C114",
   "status": "proved",
   "theorems": [
    "prey_predator_same_data",
    "prey_predator_divergent",
    "prey_predator_terminates"
   ],
   "note": "Simulator, splitting and filters are arguments; NaN is None; the while loop has fuel, and termination is characterised."
  },
  {
   "property": "C115",
   "status": "proved",
   "theorems": [
    "time_profile_mf",
    "time_profile_mf_ends",
    "time_profile_mf_keys",
    "time_profile_plain",
    "time_profile_same_data"
   ],
   "note": "The measured time is represented by the data that was filtered while timing."
  },
  {
   "property": "C116",
   "status": "partial",
   "theorems": [
    "time_profile_same_data",
    "time_profile_same_data_refuted"
   ],
   "note": "Refuted when a run diverges; proved when none does."
  },
  {
   "property": "C117",
   "status": "proved",
   "theorems": [
    "names_benes_bernoulli",
    "names_parameter_estimation",
    "names_convergence_and_times",
    "names_prey_predator"
   ],
   "note": "Names are Coq strings, numbers their decimal representation."
  },
  {
   "property": "C118",
   "status": "partial",
   "theorems": [
    "names_settings_refuted"
   ],
   "note": "Refuted: eight options are missing from the names."
  },
  {
   "property": "C119",
   "status": "proved",
   "theorems": [
    "pack_benes_bernoulli",
    "pack_benes_bernoulli_missing",
    "pack_convergence"
   ],
   "note": "A directory is a list of names; rm of a glob is deletion of the names with the prefix."
  },
  {
   "property": "C120",
   "status": "partial",
   "theorems": [
    "plots_read_written_files",
    "plot_convergence_pf_refuted"
   ],
   "note": "Refuted for pf.npz of plot_convergence.py; proved for the other files."
  },
  {
   "property": "C121",
   "status": "proved",
   "theorems": [
    "find_valid_selects",
    "rm_divergent_selects",
    "prey_predator_selects"
   ],
   "note": ""
  },
  {
   "property": "C122",
   "status": "partial",
   "theorems": [
    "printed_divergences_correct",
    "printed_divergences_general",
    "printed_divergences_refuted",
    "prey_predator_comparison_refuted"
   ],
   "note": "Refuted in general; the number of divergences is proved correct when no trajectory has NaN."
  },
  {
   "property": "C123",
   "status": "partial",
   "theorems": [
    "gram_charlier_negative",
    "gram_charlier_skewed_negative",
    "gram_charlier_nonnegative_refuted"
   ],
   "note": "Refuted; the condition under which it fails is stated for every number of cumulants."
  },
  {
   "property": "C124",
   "status": "proved",
   "theorems": [
    "normal_density_is_law",
    "norm_pdf_is_density",
    "moments_of_normal_integrals",
    "gram_charlier_integrals",
    "conv_kl_integral",
    "normal_quadrature_integrals"
   ],
   "note": "Real numbers of the standard library, improper Riemann integrals of Coquelicot; Gaussian integral proved, not assumed."
  },
  {
   "property": "C125",
   "status": "proved",
   "theorems": [
    "kalman_update_is_bayes",
    "kalman_prediction_is_bayes",
    "conv_kf_is_bayes",
    "bayes_filter_unique"
   ],
   "note": "Real numbers of the standard library; the model's exp, log and pi are the real ones."
  },
  {
   "property": "C126",
   "status": "proved",
   "theorems": [
    "gaussian_characteristic_function"
   ],
   "note": "Real numbers of the standard library; Taylor remainders integrated term by term."
  },
  {
   "property": "C127",
   "status": "partial",
   "theorems": [
    "nd_quadrature_marginals_partial",
    "nd_quadrature_products_bounded",
    "nd_quadrature_weights_nonneg_refuted",
    "nd_filter_evidence_positive_refuted"
   ],
   "note": "Refuted by a law on six points with N = 2, for every chol and eigh meeting their specifications; marginals and products proved for all admissible moments."
  },
  {
   "property": "C128",
   "status": "partial",
   "theorems": [
    "filters_read_their_keys",
    "samplers_read_their_keys",
    "simulator_reads_its_key",
    "conv_filter_reads_its_keys",
    "filter_draws_distinct",
    "script_draws_distinct_partial",
    "runs_share_no_key",
    "script_draws_distinct_refuted",
    "first_particles_share_noise"
   ],
   "note": "Keys are symbolic (seed and path of splits). Holds for every number of steps but two, and between runs; refuted for two steps. The first four theorems tie the traces to the modelled filters."
  },
  {
   "property": "C129",
   "status": "partial",
   "theorems": [
    "single_use_partial",
    "single_use_refuted"
   ],
   "note": "Refuted for the samplers, filters and scripts listed in the theorem, for every key and number of steps."
  },
  {
   "property": "C130",
   "status": "proved",
   "theorems": [
    "scripts_share_data",
    "data_not_seen_by_filter"
   ],
   "note": "Symbolic keys: different paths of splits are different keys."
  },
  {
   "property": "C131",
   "status": "proved",
   "theorems": [
    "fourier_inversion_normal",
    "inverse_fourier_normal",
    "inverse_fourier_mixture",
    "inverse_fourier_converges"
   ],
   "note": "Over the reals of the standard library, with integrals of Coquelicot; exact arithmetic."
  },
  {
   "property": "C132",
   "status": "proved",
   "theorems": [
    "plot_moments",
    "plot_mixture",
    "plot_uniform",
    "plot_gamma"
   ],
   "note": "Over the reals of the standard library, with integrals of Coquelicot; math.gamma at the positive integers, where the script evaluates it; cholesky and eigh by their specifications."
  },
  {
   "property": "C133",
   "status": "proved",
   "theorems": [
    "plot2d_mixture",
    "plot2d_uniform",
    "plot2d_polygon",
    "product_law_admissible",
    "mixture_law_admissible"
   ],
   "note": "Exact arithmetic over any real closed field; the moments of normal components are any sequence with the integration-by-parts recursion, the uniform moments are primitives; the moments of the polygon come from sympy and are an argument assumed admissible; cholesky and eigh by their specifications."
  },
  {
   "property": "C134",
   "status": "proved",
   "theorems": [
    "plot2d_scale_correct",
    "plot2d_points_once",
    "plot2d_uniform_points_twice"
   ],
   "note": "The colours, contours and axes are not modelled."
  },
  {
   "property": "C135",
   "status": "proved",
   "theorems": [
    "frames_at_their_times"
   ],
   "note": "Out-of-range reads of jax arrays clamp."
  },
  {
   "property": "C136",
   "status": "partial",
   "theorems": [
    "histogram_bars_partial",
    "histogram_misses_smallest",
    "histogram_bars_cover_refuted"
   ],
   "note": "Proved: counts and area. Refuted: bar centres each bar at the right edge of its bin, so all bars are half a bin too far to the right and the smallest sample lies left of every bar unless all samples are equal."
  },
  {
   "property": "C137",
   "status": "proved",
   "theorems": [
    "convergence_same_statistic",
    "convergence_statistic",
    "convergence_wrong_runs",
    "convergence_single_run",
    "convergence_time_curve",
    "convergence_time_mean"
   ],
   "note": "Exact arithmetic; a file with exactly one run is broadcast by numpy and modelled so."
  },
  {
   "property": "C138",
   "status": "partial",
   "theorems": [
    "convergence_violins",
    "convergence_violins_last_refuted",
    "convergence_band_partial",
    "convergence_band_log_refuted"
   ],
   "note": "Proved: times and data of each violin belong together; the band is positive exactly if four times the variance of the run means is below the squared mean. Refuted: the slice 19:-1:20 leaves out step 100, and the lower end of the band can be negative for non-negative errors."
  },
  {
   "property": "C139",
   "status": "proved",
   "theorems": [
    "cramer_rao_alignment",
    "cramer_rao_initial",
    "cramer_rao_is_kalman",
    "cramer_rao_likelihood"
   ],
   "note": "Derivatives by their specification on quadratics (C54); the tme transition density of the script is an argument; exp and log by their specifications."
  },
  {
   "property": "C140",
   "status": "proved",
   "theorems": [
    "gs1_pdf_correct",
    "gsn_pdf_correct",
    "gsn_logpdf_correct",
    "logsumexp_no_overflow",
    "gsn_pdf_dim1",
    "gs1_pdf_density",
    "gs1_pdf_moments"
   ],
   "note": "exp, log and cholesky by their specifications, which hold of the real functions; gs1_pdf_density and gs1_pdf_moments over the reals of the standard library with its axioms."
  },
  {
   "property": "C141",
   "status": "proved",
   "theorems": [
    "prey_predator_bands",
    "prey_predator_bands_mass"
   ],
   "note": "At one time; the arrays over time are handled entry by entry. Laws with finitely many atoms, which include all those of the quadrature rules."
  },
  {
   "property": "C142",
   "status": "partial",
   "theorems": [
    "prey_predator_bands_95_refuted",
    "prey_predator_bands_mass"
   ],
   "note": "Refuted by a law of three atoms with the mass 3/4 in the band; prey_predator_bands_mass is the bound that holds."
  },
  {
   "property": "C143",
   "status": "partial",
   "theorems": [
    "nb_euler_refuted",
    "nb_euler_second_moment",
    "nb_euler_moments"
   ],
   "note": "Refuted with dt and dispersion of the notebook for every drift and state: the variance lacks the factor dt. nb_euler_moments says what is returned; nb_euler_second_moment that the mean is right and the second moment only for dt = 1 or without noise."
  },
  {
   "property": "C144",
   "status": "proved",
   "theorems": [
    "nb_bearing_transition",
    "nb_bearing_step",
    "nb_bearing_moments"
   ],
   "note": "expm is the finite exponential sum on nilpotent matrices, cholesky by its specification; the normal variables of the simulation are arguments."
  }
 ]
}