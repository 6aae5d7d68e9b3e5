{"id": "C01", "title": "Size of a multi-index range is its cardinality", "statement": "sizeof_multi_indices(d, upper, lower) returns exactly the number of d-tuples of non-negative integers whose sum lies between lower and upper (0 when upper < lower).", "quantifier": "every dimension d >= 1 and all natural numbers lower and upper", "why_tests_cant": "The function is a closed formula over three unbounded integers; tests only compare a few small cases with an enumeration.", "anchors": [{"file": "mfs/multi_dims/multi_indices.py", "symbols": ["sizeof_multi_indices"]}]}
{"id": "C02", "title": "Multi-index generation lists every multi-index exactly once", "statement": "generate_graded_lexico_multi_indices(d, upper, lower) returns each d-tuple with lower <= |n| <= upper exactly once and no other tuple, and the number of rows equals sizeof_multi_indices(d, upper, lower).", "quantifier": "every dimension d >= 1 and all natural numbers lower <= upper", "why_tests_cant": "The generator iterates a successor function; completeness for all (d, lower, upper) is an induction, a test checks a few sizes.", "anchors": [{"file": "mfs/multi_dims/multi_indices.py", "symbols": ["generate_graded_lexico_multi_indices", "_next_graded_lexico_multi_index", "sizeof_multi_indices"]}]}
{"id": "C03", "title": "Generated multi-indices are strictly increasing in graded lexicographic order", "statement": "The rows returned by generate_graded_lexico_multi_indices are strictly increasing in the graded lexicographic order (first by total degree, ties broken by comparing components), so the row for the zero index comes first and the degree-one rows follow.", "quantifier": "every dimension d >= 1, all bounds lower <= upper, and every pair of rows", "why_tests_cant": "Order over all pairs of rows for all sizes cannot be enumerated.", "anchors": [{"file": "mfs/multi_dims/multi_indices.py", "symbols": ["generate_graded_lexico_multi_indices", "_next_graded_lexico_multi_index"]}]}
{"id": "C04", "title": "graded_lexico_indexof_multi_index is the inverse of generation", "statement": "For every multi-index n, graded_lexico_indexof_multi_index(n) is the row number of n in generate_graded_lexico_multi_indices(d, upper) for any upper >= |n|; hence it is injective, order preserving and onto [0, sizeof_multi_indices(d, upper)).", "quantifier": "every dimension, every multi-index and every upper bound", "why_tests_cant": "A rank formula made of binomial sums against an iterative enumeration: agreement for all inputs needs induction.", "anchors": [{"file": "mfs/multi_dims/multi_indices.py", "symbols": ["graded_lexico_indexof_multi_index", "generate_graded_lexico_multi_indices"]}]}
{"id": "C05", "title": "Gram and Hankel index tables address the right moments and never run out of range", "statement": "In the tables returned by gram_and_hankel_indices_graded_lexico(N, d), Gram entry (i, j) is the position of n_i + n_j and the k-th Hankel entry (i, j) is the position of n_i + n_j + e_k in the moment vector of orders 0..2N-1; all entries are smaller than sizeof_multi_indices(d, 2N-1), and every table is symmetric.", "quantifier": "every N >= 1, d >= 1, every pair of rows and every coordinate k", "why_tests_cant": "An out-of-range gather in JAX is silently clamped, so a wrong table gives wrong moments without an error; tests cover only a few (N, d).", "anchors": [{"file": "mfs/multi_dims/multi_indices.py", "symbols": ["gram_and_hankel_indices_graded_lexico", "find_indices"]}, {"file": "mfs/multi_dims/quadratures.py", "symbols": ["moment_quadrature_nd"]}]}
{"id": "C06", "title": "Moment extraction and marginalisation pick the right entries", "statement": "Given a moment vector in graded lexicographic order, extract_mean returns the d first-order moments in coordinate order, extract_cov returns the symmetric matrix of E[x_i x_j] (minus mean products for raw moments), extract_moments returns the moments of the requested multi-indices, and marginalise_moments returns E[x_k^p] for every order.", "quantifier": "every dimension, every order, every moment vector and every coordinate", "why_tests_cant": "Positions are computed by formulas; correctness for all (d, N) is a combinatorial statement.", "anchors": [{"file": "mfs/multi_dims/moments.py", "symbols": ["extract_moments", "extract_mean", "extract_cov", "marginalise_moments"]}]}
{"id": "C07", "title": "Cartesian product enumerates every combination exactly once", "statement": "nd_cartesian_prod_indices lists every tuple of [0, n)^d exactly once, and nd_cartesian_prod places x[a, r_a] in column a of row r, so that node grids and weight grids are aligned.", "quantifier": "all n and d, all input arrays", "why_tests_cant": "Row counts grow like n^d; tests only check tiny grids.", "anchors": [{"file": "mfs/multi_dims/quadratures.py", "symbols": ["nd_cartesian_prod_indices", "nd_cartesian_prod"]}]}
{"id": "C08", "title": "One-dimensional moment quadrature reproduces all the 2n given moments", "statement": "For moments m_0..m_{2n-1} with positive definite Hankel matrix, the n nodes and weights returned by moment_quadrature satisfy sum_i w_i x_i^k = m_k / m_0 for every k <= 2n-1 (for central or scaled moments: the matching statement about ((x_i - mean)/scale)^k).", "quantifier": "every n >= 1, every admissible moment sequence, every mean and non-zero scale, every valid eigen-decomposition", "why_tests_cant": "A statement about all real moment sequences and all orders; floating-point tests sample a few distributions.", "anchors": [{"file": "mfs/one_dim/quadtures.py", "symbols": ["moment_quadrature", "hankel_indices"]}]}
{"id": "C09", "title": "One-dimensional quadrature weights are a probability vector", "statement": "The weights returned by moment_quadrature are non-negative and sum to one; as a consequence the quadrature of a function bounded in [a, b] stays in [a, b], and it integrates every polynomial of degree at most 2n-1 exactly.", "quantifier": "every n, every moment sequence, every eigen-decomposition, every integrand", "why_tests_cant": "Universally quantified over reals and functions.", "anchors": [{"file": "mfs/one_dim/quadtures.py", "symbols": ["moment_quadrature"]}]}
{"id": "C10", "title": "Quadrature does not depend on the moment representation", "statement": "Calling moment_quadrature with raw moments, with the central moments and the mean, or with the scaled central moments, mean and scale of the same sequence yields the same integration functional: sum_i w_i f(x_i) is the same for every function f.", "quantifier": "every moment sequence with positive definite Hankel matrix, every mean and positive scale, every integrand", "why_tests_cant": "Needs an algebraic argument (congruence by a triangular matrix and uniqueness of functional calculus), tests compare a few distributions.", "anchors": [{"file": "mfs/one_dim/quadtures.py", "symbols": ["moment_quadrature"]}, {"file": "mfs/one_dim/moments.py", "symbols": ["raw_to_central", "raw_to_scaled"]}]}
{"id": "C11", "title": "Golub-Welsch quadrature is exact up to its degree", "statement": "For 2n raw moments, the Golub-Welsch variant returns n-1 nodes and weights with sum_i w_i x_i^k = m_k / m_0 for all k <= 2n-3.", "quantifier": "every n >= 2, every moment sequence with positive definite Hankel matrix", "why_tests_cant": "Universally quantified over reals and orders; the variant is not tested for every order.", "anchors": [{"file": "mfs/one_dim/quadtures.py", "symbols": ["_gauss_quadrature_golub_welsch", "moment_quadrature"]}]}
{"id": "C12", "title": "Taylor quadrature is exact on polynomials", "statement": "taylor_quadrature of order N applied to a polynomial of degree at most N returns exactly the expectation of that polynomial under the given central moments and mean.", "quantifier": "every order, every polynomial, every mean and central-moment sequence", "why_tests_cant": "Universally quantified over polynomials.", "anchors": [{"file": "mfs/one_dim/quadtures.py", "symbols": ["taylor_quadrature", "make_derivatives"]}]}
{"id": "C13", "title": "Multi-dimensional moment quadrature reproduces all given moments", "statement": "For a moment vector with positive definite Gram matrix, the N^d-type product rule of moment_quadrature_nd satisfies sum_r w_r prod_a x_{r,a}^{k_a} = m_k / m_0 for every multi-index k with |k| <= 2N-1.", "quantifier": "every dimension d, order N, admissible moment vector, multi-index k and valid eigen-decomposition", "why_tests_cant": "The rule is a product of non-commuting matrix functions; exactness for all orders is an induction over degrees and dimension.", "anchors": [{"file": "mfs/multi_dims/quadratures.py", "symbols": ["moment_quadrature_nd", "_chained_inner_products"]}]}
{"id": "C14", "title": "Multi-dimensional quadrature weights are normalised and representation independent", "statement": "The weights of moment_quadrature_nd sum to one, and the rule built from central (resp. scaled central) moments with the matching mean (and scale) defines the same integration functional on product functions as the one built from raw moments.", "quantifier": "every dimension, order, moment vector, mean, positive scale vector, product integrand", "why_tests_cant": "Individual weights may differ (degenerate eigenspaces, repository TODO), so only the functional is invariant; a test on weights cannot settle it.", "anchors": [{"file": "mfs/multi_dims/quadratures.py", "symbols": ["moment_quadrature_nd"]}]}
{"id": "C15", "title": "LDL factorisation is correct", "statement": "ldl(A) returns a unit lower-triangular L and a vector d with L diag(d) L^T = A for every symmetric A with non-zero leading pivots, and d_i > 0 for all i exactly when A is positive definite.", "quantifier": "every size and every symmetric matrix with non-zero pivots", "why_tests_cant": "Universally quantified over matrices of all sizes; algorithm has nested loops.", "anchors": [{"file": "mfs/utils.py", "symbols": ["ldl"]}]}
{"id": "C16", "title": "LDL-based Cholesky equals Cholesky on positive definite matrices", "statement": "ldl_chol(A) is lower triangular with positive diagonal and R R^T = A whenever A is symmetric positive definite (so the 'stable' flag of the filters changes nothing for admissible moments); otherwise, when no pivot is zero, R R^T - A is positive semi-definite.", "quantifier": "every size, every symmetric matrix with non-zero pivots", "why_tests_cant": "Universally quantified over matrices.", "anchors": [{"file": "mfs/utils.py", "symbols": ["ldl_chol", "ldl"]}, {"file": "mfs/multi_dims/filtering.py", "symbols": ["moment_filter_nd_scms"]}]}
{"id": "C17", "title": "Moments of the normal distribution obey the Gaussian recursion", "statement": "raw_moment_of_standard_normal(p) = (p-1)!! for even p and 0 for odd p; central_moment_of_normal and raw_moment_of_normal satisfy M_0 = 1, M_1 = m and M_{p+1} = m M_p + p v M_{p-1}, which characterises Gaussian moments; the central one is the raw one at m = 0.", "quantifier": "every order p, every mean and variance", "why_tests_cant": "Unbounded order p and all reals.", "anchors": [{"file": "mfs/one_dim/moments.py", "symbols": ["central_moment_of_normal", "raw_moment_of_standard_normal", "raw_moment_of_normal"]}]}
{"id": "C18", "title": "Raw and central moment conversions are correct and mutually inverse", "statement": "raw_to_central maps the raw moments of any discrete distribution to its central moments, central_to_raw maps them back, and both are inverse to each other on every moment vector starting with 1 (and with the right mean).", "quantifier": "every length, every moment vector, every mean, every discrete distribution", "why_tests_cant": "Binomial identities for all orders.", "anchors": [{"file": "mfs/one_dim/moments.py", "symbols": ["raw_to_central", "central_to_raw", "_make_pascal_triangle"]}]}
{"id": "C19", "title": "Scaled central moment conversions are correct", "statement": "raw_to_scaled yields E[((x-mean)/scale)^k] for any discrete distribution, scaled moments have entries 1, 0, 1 at orders 0, 1, 2 when scale is the standard deviation, and scaled_to_central inverts the scaling.", "quantifier": "every length, every moment vector, mean and non-zero scale", "why_tests_cant": "Universally quantified over reals and orders.", "anchors": [{"file": "mfs/one_dim/moments.py", "symbols": ["raw_to_scaled", "scaled_to_central"]}]}
{"id": "C20", "title": "Euler conditional moments in one dimension are those of the Euler transition", "statement": "The three functions returned by the one-dimensional sde_cond_moments_euler give, at every state x, the raw moments, the central moments about the given mean and the scaled central moments (divided by scale^n) of N(x + a(x) dt, b(x)^2 dt).", "quantifier": "every drift, dispersion, step, state, mean, scale and order", "why_tests_cant": "Functions and reals are universally quantified; the scaled variant is explicitly untested in the repository.", "anchors": [{"file": "mfs/one_dim/moments.py", "symbols": ["sde_cond_moments_euler", "sde_cond_moments_tme_normal"]}]}
{"id": "C21", "title": "Cumulants satisfy the moment-cumulant relation", "statement": "sms_to_cumulants returns k_1.. such that k_{n} = m_n - sum_{j=1}^{n-1} C(n-1, j-1) k_j m_{n-j} for the raw moments, whichever of the raw, central or scaled representations was given, and the moments are recovered from the cumulants by the complete Bell polynomials.", "quantifier": "every length, moment vector, mean and scale", "why_tests_cant": "Unbounded order and all reals.", "anchors": [{"file": "mfs/one_dim/moments.py", "symbols": ["sms_to_cumulants"]}, {"file": "mfs/utils.py", "symbols": ["complete_bell", "partial_bell"]}]}
{"id": "C22", "title": "Bell polynomials", "statement": "partial_bell(n, k, xs) is n!/k! times the coefficient of t^n in (sum_j x_j t^j / j!)^k, complete_bell(n, xs) is the sum over k of the partial ones and satisfies B_{n+1} = sum_i C(n, i) B_{n-i} x_{i+1}.", "quantifier": "every n, k and argument list", "why_tests_cant": "Unbounded orders.", "anchors": [{"file": "mfs/utils.py", "symbols": ["partial_bell", "complete_bell"]}]}
{"id": "C23", "title": "Probabilists' Hermite polynomials are orthogonal", "statement": "hermite_probabilist(n, .) is the monic polynomial with He_{n+1}(x) = x He_n(x) - n He_{n-1}(x), and E[He_n(Z) He_m(Z)] = n! if n = m and 0 otherwise for the standard normal moment functional.", "quantifier": "every n and m and every argument", "why_tests_cant": "Unbounded orders.", "anchors": [{"file": "mfs/utils.py", "symbols": ["hermite_probabilist"]}]}
{"id": "C24", "title": "Gram-Charlier expansion matches the moments it was built from", "statement": "For cumulants computed from a moment sequence with positive variance, the density approximation returned by gram_charlier has (with respect to its Gaussian base) total mass one and the same moments up to the order of the cumulants.", "quantifier": "every order and every cumulant sequence with positive variance", "why_tests_cant": "Unbounded order and all reals; integral identities.", "anchors": [{"file": "mfs/one_dim/pdf_approximations.py", "symbols": ["gram_charlier"]}]}
{"id": "C25", "title": "Legendre expansion matches the moments it was built from", "statement": "The density returned by legendre_poly_expansion(rms, a, b) integrates on [a, b] to the given raw moments rms[k] for all k < 2n.", "quantifier": "every order, moment sequence and interval a < b", "why_tests_cant": "Unbounded order and all reals; the repository only tests the default interval.", "anchors": [{"file": "mfs/one_dim/pdf_approximations.py", "symbols": ["legendre_poly_expansion"]}]}
{"id": "C26", "title": "Saddle-point approximation solves the saddle equation", "statement": "The point s used by the density returned by saddle_point solves K'(s) = x for the truncated cumulant-generating function K, at least whenever the saddle polynomial has real roots.", "quantifier": "every admissible scaled moment vector, mean, scale and x", "why_tests_cant": "Explicitly 'NOT TESTED' in the repository.", "anchors": [{"file": "mfs/one_dim/pdf_approximations.py", "symbols": ["saddle_point"]}]}
{"id": "C27", "title": "Moment filters return normalised filtering moments", "statement": "At each time step the one-dimensional filters return moments that are normalised: the raw filter has order-0 moment 1, the central filter has order-0 moment 1 and order-1 moment 0 together with the mean, the scaled filter additionally has order-2 moment 1.", "quantifier": "every initial moment vector, transition model, non-vanishing likelihood, measurement sequence and time step", "why_tests_cant": "Quantified over all measurement histories of any length.", "anchors": [{"file": "mfs/one_dim/filtering.py", "symbols": ["moment_filter_rms", "moment_filter_cms", "moment_filter_scms"]}]}
{"id": "C28", "title": "Raw and central one-dimensional moment filters are equivalent", "statement": "Started from matching initial moments and run with matching conditional-moment functions, moment_filter_cms returns at every step the mean and central moments of the raw moments returned by moment_filter_rms, and the same negative log-likelihoods.", "quantifier": "every measurement sequence of every length, every likelihood, every admissible initial condition and transition model", "why_tests_cant": "Refinement along histories of unbounded length.", "anchors": [{"file": "mfs/one_dim/filtering.py", "symbols": ["moment_filter_rms", "moment_filter_cms"]}]}
{"id": "C29", "title": "Central and scaled one-dimensional moment filters are equivalent", "statement": "Started from matching initial moments and with matching conditional-moment functions, moment_filter_scms returns at every step the mean, standard deviation and scaled central moments of the distribution tracked by moment_filter_cms, and the same negative log-likelihoods.", "quantifier": "every measurement sequence of every length, every likelihood, every admissible initial condition and transition model", "why_tests_cant": "Refinement along histories of unbounded length.", "anchors": [{"file": "mfs/one_dim/filtering.py", "symbols": ["moment_filter_cms", "moment_filter_scms"]}]}
{"id": "C30", "title": "Filtering update never destroys positive definiteness", "statement": "If the predicted moment sequence has a positive definite Hankel matrix and the likelihood is positive, then the updated moments again have a positive definite Hankel matrix, so the next quadrature is well defined; hence the filter does not break down along any history on which predictions are admissible.", "quantifier": "every admissible moment sequence, positive likelihood, and every history", "why_tests_cant": "Quantified over histories and reals.", "anchors": [{"file": "mfs/one_dim/filtering.py", "symbols": ["moment_filter_rms"]}, {"file": "mfs/one_dim/quadtures.py", "symbols": ["moment_quadrature"]}]}
{"id": "C31", "title": "The moment filter is exact for finite-state hidden Markov models", "statement": "If the hidden state takes n distinct values and all forward probabilities are positive, the filter run with 2n moments returns exactly the moments of the forward-algorithm filtering distribution and its exact negative log-likelihood, at every time step.", "quantifier": "every number of states, transition matrix, likelihood and measurement sequence keeping all states possible", "why_tests_cant": "Quantified over models and histories.", "anchors": [{"file": "mfs/one_dim/filtering.py", "symbols": ["moment_filter_rms"]}]}
{"id": "C32", "title": "Filter log-likelihood is the accumulated log predictive likelihood", "statement": "The cumulative negative log-likelihood returned at step t is the sum over s <= t of -log of the predictive quadrature of the likelihood of y_s, i.e. -log of their product.", "quantifier": "every history and every step", "why_tests_cant": "Quantified over histories.", "anchors": [{"file": "mfs/one_dim/filtering.py", "symbols": ["moment_filter_rms", "moment_filter_cms", "moment_filter_scms"]}]}
{"id": "C33", "title": "Filters are causal and resumable", "statement": "The outputs at times 1..t depend only on the measurements y_1..y_t, and running the filter on the concatenation of two measurement blocks equals running it on the first block and restarting it from the last state on the second block.", "quantifier": "every split of every measurement sequence, all filters", "why_tests_cant": "Quantified over histories.", "anchors": [{"file": "mfs/one_dim/filtering.py", "symbols": ["moment_filter_rms", "moment_filter_cms", "moment_filter_scms"]}, {"file": "mfs/multi_dims/filtering.py", "symbols": ["moment_filter_nd_scms", "moment_filter_nd_cms", "moment_filter_nd_rms"]}, {"file": "mfs/classical_filters_smoothers/gfs.py", "symbols": ["kf"]}]}
{"id": "C34", "title": "Multivariate normal moments obey the Gaussian recursion", "statement": "raw_moments_mvn_kan(mean, cov, index) satisfies M_0 = 1 and M_{n+e_i} = mean_i M_n + sum_j cov_ij n_j M_{n-e_j}, which characterises the moments of N(mean, cov); central_moments_mvn_kan equals the raw ones at mean zero and vanishes for odd |n|.", "quantifier": "every dimension, mean vector, symmetric covariance and multi-index", "why_tests_cant": "Alternating sums over products of binomials for unbounded orders.", "anchors": [{"file": "mfs/multi_dims/moments.py", "symbols": ["central_moments_mvn_kan", "raw_moments_mvn_kan", "raw_moments_mvn_mgf"]}]}
{"id": "C35", "title": "Moments of the multivariate uniform distribution", "statement": "moments_nd_uniform(bounds, k, means) is the moment of order k about means of the uniform law on the box: the product over the axes of the average of (x_i - means_i)^{k_i} over the side; without means it is the raw moment, and the moments about means are the binomial conversion of the raw ones.", "quantifier": "every dimension, box and order", "why_tests_cant": "Unbounded order and all reals.", "anchors": [{"file": "mfs/multi_dims/moments.py", "symbols": ["moments_nd_uniform"]}]}
{"id": "C36", "title": "Multi-dimensional Euler conditional moments", "statement": "The functions returned by the multi-dimensional sde_cond_moments_euler_maruyama give the raw moments, central moments about the given mean and scaled central moments of N(x + a(x) dt, b(x) b(x)^T dt), in agreement with one another.", "quantifier": "every dimension, drift, dispersion, step, state, mean, scale and multi-index", "why_tests_cant": "Functions and reals are universally quantified.", "anchors": [{"file": "mfs/multi_dims/moments.py", "symbols": ["sde_cond_moments_euler_maruyama"]}]}
{"id": "C37", "title": "Gaussian sums expose consistent moments", "statement": "For a Gaussian mixture object, the stored mean, variance/covariance, raw, central and scaled moments all belong to the same mixture: central moments are the conversion of the raw moments about the mean, the order-2 central moments equal the covariance.", "quantifier": "every number of components, weights summing to one, means and covariances", "why_tests_cant": "Universally quantified over mixtures and orders.", "anchors": [{"file": "mfs/utils.py", "symbols": ["GaussianSum1D", "GaussianSumND"]}]}
{"id": "C38", "title": "Multi-dimensional filters: normalisation and equivalence of representations", "statement": "moment_filter_nd_rms, moment_filter_nd_cms and moment_filter_nd_scms, started from matching moments and run with matching conditional-moment functions, return at every step matching normalised moments, means, scales and log-likelihoods.", "quantifier": "every dimension, order, history along which the moments stay admissible, likelihood, transition and initial representation", "why_tests_cant": "Refinement along histories of unbounded length.", "anchors": [{"file": "mfs/multi_dims/filtering.py", "symbols": ["moment_filter_nd_scms", "moment_filter_nd_cms", "moment_filter_nd_rms"]}]}
{"id": "C39", "title": "Multi-dimensional filter argument handling", "statement": "moment_filter_nd_scms rejects an initial moment vector whose length is not sizeof_multi_indices(d, 2N-1) and gives the same result for conditional-moment functions with the 'index' and the 'multi-index' signature whenever they agree through graded_lexico_indexof_multi_index.", "quantifier": "every length, dimension, order and pair of equivalent callables", "why_tests_cant": "Universally quantified over callables.", "anchors": [{"file": "mfs/multi_dims/filtering.py", "symbols": ["moment_filter_nd_scms"]}]}
{"id": "C40", "title": "Kalman filter step is exact Bayesian conditioning", "statement": "For scalar measurements, the kf update satisfies, for every x and y, N(y; Hx, R) N(x; m, P) = N(y; Hm, HPH^T+R) N(x; m', P') as an identity of quadratic forms and determinants, and the returned log-likelihood increment is the log predictive density; for vector measurements the same is expected.", "quantifier": "every state dimension, measurement dimension, model matrices, prior and measurement", "why_tests_cant": "Universally quantified over matrices; the repository tests scalar measurements only.", "anchors": [{"file": "mfs/classical_filters_smoothers/gfs.py", "symbols": ["kf", "_linear_update", "_linear_predict", "_log_normal_pdf", "_log_mvn_pdf"]}]}
{"id": "C41", "title": "Kalman covariances stay symmetric and positive semi-definite and shrink", "statement": "Along every history, each filtering covariance returned by kf (scalar measurements) is symmetric positive semi-definite and not larger than the predicted covariance in the Loewner order; covariances do not depend on the measurements.", "quantifier": "every model, every history, every step", "why_tests_cant": "Quantified over histories and matrices.", "anchors": [{"file": "mfs/classical_filters_smoothers/gfs.py", "symbols": ["kf", "_linear_predict", "_linear_update"]}]}
{"id": "C42", "title": "RTS smoother fixes the final state and never increases covariance", "statement": "rts returns at the last step the filtering result, and each smoothed covariance is symmetric and not larger than the filtering covariance in the Loewner order.", "quantifier": "every model and every filtering history", "why_tests_cant": "Quantified over histories and matrices.", "anchors": [{"file": "mfs/classical_filters_smoothers/gfs.py", "symbols": ["rts", "_gaussian_smoother_shared", "_stack_smoothing_results"]}]}
{"id": "C43", "title": "Extended Kalman filter and smoother coincide with Kalman on linear models", "statement": "For affine dynamics and measurement functions, ekf returns the kf results and eks the rts results at every step.", "quantifier": "every linear model and history (scalar measurements)", "why_tests_cant": "Refinement along histories of unbounded length.", "anchors": [{"file": "mfs/classical_filters_smoothers/gfs.py", "symbols": ["ekf", "eks", "_ekf_update", "kf", "rts"]}]}
{"id": "C44", "title": "Sigma-point filters coincide with Kalman on linear models", "statement": "For linear dynamics and measurements, sgp_filter returns the kf results (and sgp_smoother the rts results) for every sigma-point rule with unit mass, zero mean and identity covariance, in particular the cubature rule.", "quantifier": "every linear model, sigma-point rule with these moments and history (scalar measurements)", "why_tests_cant": "Refinement along histories of unbounded length.", "anchors": [{"file": "mfs/classical_filters_smoothers/gfs.py", "symbols": ["sgp_filter", "sgp_smoother", "_sgp_prediction", "_sgp_update"]}, {"file": "mfs/classical_filters_smoothers/quadratures.py", "symbols": ["SigmaPoints"]}]}
{"id": "C45", "title": "Spherical cubature rule integrates cubic polynomials exactly", "statement": "SigmaPoints.cubature(d) has weights summing to one, mean zero, identity covariance and zero third moments, so gen_sigma_points/expectation integrate every polynomial of degree at most three exactly under N(m, L L^T).", "quantifier": "every dimension d >= 1, mean, factor and polynomial of degree <= 3", "why_tests_cant": "Universally quantified over dimension and polynomials.", "anchors": [{"file": "mfs/classical_filters_smoothers/quadratures.py", "symbols": ["SigmaPoints.cubature", "gen_sigma_points", "expectation"]}]}
{"id": "C46", "title": "Gauss-Hermite rule is a full tensor grid with matching weights", "statement": "SigmaPoints.gauss_hermite(d, order) uses each tuple of one-dimensional roots exactly once with the product weight, and, provided the root finder returns the roots of the Hermite polynomial, integrates every polynomial of degree at most 2*order-1 in each variable exactly.", "quantifier": "every dimension and order", "why_tests_cant": "Unbounded dimension and order.", "anchors": [{"file": "mfs/classical_filters_smoothers/quadratures.py", "symbols": ["SigmaPoints.gauss_hermite", "_gen_hermite_poly_coeff"]}]}
{"id": "C47", "title": "Runge-Kutta step on linear moment equations", "statement": "For linear ODEs, rk4_m_cov performs exactly the fourth-order Taylor step of the exponential, preserves symmetry of the covariance, and is exact for constant right-hand sides; the backward variant with frozen filtering terms is the same map.", "quantifier": "every linear ODE, state, step", "why_tests_cant": "Universally quantified over matrices.", "anchors": [{"file": "mfs/classical_filters_smoothers/quadratures.py", "symbols": ["rk4_m_cov", "rk4_m_cov_backward"]}]}
{"id": "C48", "title": "Systematic resampling is unbiased within one", "statement": "systematic returns n indices in non-decreasing order, within range, and the number of occurrences of each index i differs from n w_i by strictly less than one; indices of zero weight are never chosen for a uniform draw u > 0.", "quantifier": "every n, every normalised non-negative weight vector, every uniform draw in (0, 1)", "why_tests_cant": "Statement about all weights and all random draws.", "anchors": [{"file": "mfs/classical_filters_smoothers/resampling.py", "symbols": ["systematic", "_systematic_or_stratified"]}]}
{"id": "C49", "title": "Stratified and multinomial resampling return valid sorted ancestors", "statement": "stratified and multinomial return in-range, non-decreasing indices; in stratified resampling each index occurs fewer than n w_i + 2 times and more than n w_i - 2; zero-weight particles are never selected for positive draws; the auxiliary sorted uniforms are increasing in [0, 1].", "quantifier": "every n, weights and random draws", "why_tests_cant": "Statement about all weights and all random draws.", "anchors": [{"file": "mfs/classical_filters_smoothers/resampling.py", "symbols": ["stratified", "multinomial", "_sorted_uniforms"]}]}
{"id": "C50", "title": "Continuous resampling stays within the sample range and is monotone", "statement": "continuous_resampling returns non-decreasing values that lie between the smallest and largest input sample.", "quantifier": "every sample vector, weights and random draws", "why_tests_cant": "Statement about all inputs and random draws.", "anchors": [{"file": "mfs/classical_filters_smoothers/resampling.py", "symbols": ["continuous_resampling", "_avg_n_nplusone"]}]}
{"id": "C51", "title": "Particle filters only propagate existing particles and report the right likelihood", "statement": "In bootstrap_filter and particle_filter every resampled particle at each step is one of that step's propagated particles, weights are normalised, and the returned negative log-likelihood is the accumulated -log of the average unnormalised weight.", "quantifier": "every model, random stream, number of particles and history", "why_tests_cant": "Quantified over histories and random draws.", "anchors": [{"file": "mfs/classical_filters_smoothers/smc.py", "symbols": ["bootstrap_filter", "particle_filter"]}]}
{"id": "C52", "title": "Brute-force filter returns normalised densities independent of likelihood scale", "statement": "brute_force_filter returns at every step grid densities whose trapezoidal integral is one, non-negative for the Chapman-Kolmogorov method when likelihood and transition density are non-negative, and unchanged when the likelihood is multiplied by a positive constant; an unknown method is rejected.", "quantifier": "every grid, initial density, model and history with non-zero normalisers", "why_tests_cant": "Quantified over histories.", "anchors": [{"file": "mfs/classical_filters_smoothers/brute_force.py", "symbols": ["brute_force_filter"]}]}
{"id": "C53", "title": "Lanczos tridiagonalisation", "statement": "lanczos(A, v, m) yields, absent breakdown, orthonormal columns V with V^T A V = T tridiagonal symmetric, and A = V T V^T when m = n; lanczos_ritz with m pairs represents A^k v for k < m, and for all k when m = n.", "quantifier": "every symmetric matrix, start vector and size without breakdown", "why_tests_cant": "Universally quantified over matrices of every size.", "anchors": [{"file": "mfs/utils.py", "symbols": ["lanczos", "lanczos_ritz"]}]}
{"id": "C54", "title": "Posterior Cramer-Rao bound equals the Kalman covariance on linear Gaussian models", "statement": "For linear Gaussian models, the recursion of posterior_cramer_rao produces the inverse of the kf filtering covariance at every step.", "quantifier": "every linear Gaussian model with invertible noise covariance and every horizon", "why_tests_cant": "Refinement along unbounded horizons.", "anchors": [{"file": "mfs/utils.py", "symbols": ["posterior_cramer_rao"]}, {"file": "mfs/classical_filters_smoothers/gfs.py", "symbols": ["kf"]}]}
{"id": "C55", "title": "Characteristic function of the quadrature measure", "statement": "characteristic_fn evaluated through the moment quadrature is one at zero, has modulus at most one, is conjugate symmetric and positive definite, transforms under mean and scale as a characteristic function should, is exact on laws with n atoms, and for every law with the given 2n moments differs from its characteristic function by at most 2 z^{2n} E[X^{2n}] / (2n)!.", "quantifier": "every moment sequence and every frequency", "why_tests_cant": "Universally quantified over reals.", "anchors": [{"file": "mfs/one_dim/moments.py", "symbols": ["characteristic_fn"]}]}
{"id": "C56", "title": "The alternative Cartesian product returns the same combinations", "statement": "nd_cartesian_prod_2(x) returns all the combinations of one entry per row of x, i.e. the same rows as nd_cartesian_prod(x) up to order.", "quantifier": "all n and d, all input arrays", "why_tests_cant": "The function is documented as a comparison implementation but never tested.", "anchors": [{"file": "mfs/multi_dims/quadratures.py", "symbols": ["nd_cartesian_prod_2"]}]}
{"id": "C57", "title": "Truncated cumulant-generating function does not depend on the moment representation", "statement": "truncated_cumulant_generating_function(z, ms, mean, scale) equals z * mean + log(sum_n s_n (z scale)^n / n!) and takes the same value for central moments with scale 1 and for scaled central moments with their scale.", "quantifier": "every length, argument, mean and scale", "why_tests_cant": "Universally quantified over reals and lengths.", "anchors": [{"file": "mfs/one_dim/pdf_approximations.py", "symbols": ["truncated_cumulant_generating_function"]}, {"file": "mfs/one_dim/moments.py", "symbols": ["scaled_to_central"]}]}
{"id": "C58", "title": "The predicted scale of the scaled filter is the standard deviation", "statement": "After the prediction step of moment_filter_scms the scale equals sqrt(E[(X_k - m_k)^2]) under the predicted moments, as documented, i.e. the predicted scaled moment of order 2 is 1.", "quantifier": "every transition model and admissible state", "why_tests_cant": "the filter output does not depend on the predicted scale in exact arithmetic, so end-to-end tests pass", "anchors": [{"file": "mfs/one_dim/filtering.py", "symbols": ["moment_filter_scms"]}]}
{"id": "C59", "title": "Multi-dimensional raw filter is exact on finite hidden Markov chains", "statement": "When the hidden state lives on C(N-1+d, d) points of R^d that determine the polynomials of degree < N, moment_filter_nd_rms with the exact conditional moments returns the moments of the exact forward-algorithm filtering distribution and the exact negative log-likelihood.", "quantifier": "every dimension, order, point set, transition matrix, likelihood and history", "why_tests_cant": "Refinement of a reference algorithm along histories of unbounded length.", "anchors": [{"file": "mfs/multi_dims/filtering.py", "symbols": ["moment_filter_nd_rms"]}]}
{"id": "C60", "title": "The predicted scale of the multi-dimensional scaled filter is the standard deviation", "statement": "After the prediction step of moment_filter_nd_scms the scale equals the vector of standard deviations under the predicted moments, i.e. the predicted scaled moments 2 e_i are 1.", "quantifier": "every transition model, dimension and admissible state", "why_tests_cant": "the filter output does not depend on the predicted scale in exact arithmetic, so end-to-end tests pass", "anchors": [{"file": "mfs/multi_dims/filtering.py", "symbols": ["moment_filter_nd_scms"]}]}
{"id": "C61", "title": "Multi-dimensional filters resume", "statement": "Running a multi-dimensional moment filter on a concatenated measurement sequence gives the concatenation of the run on the first block and the run on the second block from the last returned state, and the negative log-likelihoods add.", "quantifier": "every filter representation, callback, history and split point", "why_tests_cant": "Quantified over unbounded histories and callbacks.", "anchors": [{"file": "mfs/multi_dims/filtering.py", "symbols": ["moment_filter_nd_scms", "moment_filter_nd_cms", "moment_filter_nd_rms"]}]}
{"id": "C62", "title": "Kalman filter followed by the RTS smoother gives the posterior", "statement": "For scalar measurements of a linear Gaussian model, kf followed by rts returns at every time the mean and covariance of the exact smoothing marginal, and the list of smoothed means is the unique most probable trajectory.", "quantifier": "every state dimension, model with positive definite noise covariances, prior and non-empty history", "why_tests_cant": "Exactness along histories of unbounded length; tests compare two implementations on one random model.", "anchors": [{"file": "mfs/classical_filters_smoothers/gfs.py", "symbols": ["kf", "rts"]}]}
{"id": "C63", "title": "Sigma-point filter and smoother are exact for vector measurements of linear models", "statement": "For affine dynamics and vector measurements sgp_filter performs Bayes' rule at every step, and followed by sgp_smoother (linear case) gives the exact smoothing marginals and the most probable trajectory; its log-likelihood is exact when the innovation covariance is diagonal and expected to be exact in general.", "quantifier": "every dimension, affine model, sigma-point rule with unit mass, zero mean and identity covariance, and history", "why_tests_cant": "Universally quantified over models and histories; the vector-valued likelihood is never tested.", "anchors": [{"file": "mfs/classical_filters_smoothers/gfs.py", "symbols": ["sgp_filter", "sgp_smoother", "_log_mvn_pdf"]}]}
{"id": "C64", "title": "Continuous-discrete sigma-point and extended filters coincide on affine drifts", "statement": "For an affine drift and constant dispersion cd_sgp_filter returns the results of cd_ekf (scalar measurements) and cd_sgp_smoother those of cd_eks, as long as the Runge-Kutta stages of the covariance stay positive definite.", "quantifier": "every affine drift, dispersion, step, sigma-point rule and history with positive definite stages", "why_tests_cant": "Agreement of four-stage integrations over whole histories.", "anchors": [{"file": "mfs/classical_filters_smoothers/gfs.py", "symbols": ["cd_ekf", "cd_eks", "cd_sgp_filter", "cd_sgp_smoother"]}]}
{"id": "C65", "title": "Multi-dimensional TME conditional moments are consistent", "statement": "The raw, central, scaled and mean functions returned by the multi-dimensional sde_cond_moments_tme are the moments, shifted moments, standardised moments and first moments of one linear functional, for any expansion order.", "quantifier": "every dimension, SDE, order, state, multi-index, mean and scale", "why_tests_cant": "Functions are universally quantified; tests fix one SDE.", "anchors": [{"file": "mfs/multi_dims/moments.py", "symbols": ["sde_cond_moments_tme"]}]}
{"id": "C66", "title": "Gauss-Hermite expectations are exact under every Gaussian", "statement": "gaussian_expectation integrates every polynomial of total degree at most 2*order - 1 exactly under N(m, L L^T), for each of the supplied means and factors.", "quantifier": "every dimension, order >= 1, list of means and covariance factors, polynomial of that degree", "why_tests_cant": "Universally quantified over polynomials and Gaussians; the repository does not test it.", "anchors": [{"file": "mfs/classical_filters_smoothers/quadratures.py", "symbols": ["gaussian_expectation", "SigmaPoints"]}]}
{"id": "C67", "title": "Gaussian moments are admissible and their moment quadrature is exact", "statement": "For every Gaussian with positive definite covariance the moments returned by raw_moments_mvn_kan form a positive definite Gram matrix of every order, and moment_quadrature_nd built from them integrates every monomial of degree at most 2N - 1 to the Gaussian moment.", "quantifier": "every dimension, order, mean and positive definite covariance", "why_tests_cant": "Positive definiteness of infinitely many Gram matrices.", "anchors": [{"file": "mfs/multi_dims/quadratures.py", "symbols": ["moment_quadrature_nd"]}, {"file": "mfs/multi_dims/moments.py", "symbols": ["raw_moments_mvn_kan"]}]}
{"id": "C68", "title": "Moment filters reproduce the Kalman prediction on linear SDEs", "statement": "For a linear drift A x + b and constant dispersion B, one prediction of the multi-dimensional moment filter with the Euler-Maruyama callbacks maps the moments of N(m, P) to those of N(F m + dt b, F P F^T + dt B B^T) with F = I + dt A; under state-independent likelihoods the raw, central and scaled filters follow these predictions for any number of steps.", "quantifier": "every dimension, order, linear SDE, step, Gaussian with positive definite covariance, and history length", "why_tests_cant": "Exactness for all linear models along histories of unbounded length.", "anchors": [{"file": "mfs/multi_dims/filtering.py", "symbols": ["moment_filter_nd_scms", "moment_filter_nd_cms", "moment_filter_nd_rms"]}, {"file": "mfs/multi_dims/moments.py", "symbols": ["sde_cond_moments_euler_maruyama"]}]}
{"id": "C69", "title": "No particle of zero weight survives systematic resampling, whatever the draw", "statement": "systematic never selects an index of zero weight, for any draw that jax.random.uniform can return, including 0.", "quantifier": "every weight vector and draw in [0, 1)", "why_tests_cant": "The failing draw has probability about 2^-23 per call, so that random tests do not meet it.", "anchors": [{"file": "mfs/classical_filters_smoothers/resampling.py", "symbols": ["systematic", "_systematic_or_stratified"]}]}
{"id": "C70", "title": "Unknown prediction methods are rejected as not implemented", "statement": "brute_force_filter raises NotImplementedError for every pred_method other than 'kolmogorov', 'chapman-euler' and 'chapman-tme-?'.", "quantifier": "every string", "why_tests_cant": "Infinitely many strings; the repository tests only valid ones.", "anchors": [{"file": "mfs/classical_filters_smoothers/brute_force.py", "symbols": ["brute_force_filter"]}]}
{"id": "C71", "title": "The discretised Kolmogorov operator is exact on quadratics", "statement": "On an even grid, two points away from the ends, kolmogorov_fwd_opt applied to the values of a quadratic density is the value of the Fokker-Planck operator -(a p)' + (b^2 p)''/2 at the node, for any polynomial drift a and dispersion b.", "quantifier": "every even grid, quadratic density, polynomial drift and dispersion, interior node", "why_tests_cant": "Universally quantified over polynomials and grids.", "anchors": [{"file": "mfs/classical_filters_smoothers/brute_force.py", "symbols": ["brute_force_filter"]}]}
{"id": "C72", "title": "Discrete Fourier transforms of tabulated densities", "statement": "characteristic_from_pdf at zero is the trapezoidal mass, is conjugate symmetric, bounded by the mass and multiplied by exp(i z a) when the grid is shifted by a; inverse_fourier of data symmetric about zero has no imaginary part to drop, is translated by a when the transform is multiplied by exp(i a z), is bounded by the integral of the modulus, and for a non-negative transform is largest at zero.", "quantifier": "every grid, every tabulated function on it, and every argument", "why_tests_cant": "Universally quantified over grids, tables and reals; the tests check one Gaussian on one grid.", "anchors": [{"file": "mfs/one_dim/moments.py", "symbols": ["characteristic_from_pdf"]}, {"file": "mfs/one_dim/pdf_approximations.py", "symbols": ["inverse_fourier"]}]}
{"id": "C73", "title": "Discretisation of linear SDEs", "statement": "discretise_lti_sde returns (F, Q) with F(s+t) = F(s) F(t) and Q(s+t) = F(s) Q(t) F(s)^T + Q(s), the identity and zero for a zero step, a symmetric Q, and solves the moment equations dF/dt = A F, dQ/dt = A Q + Q A^T + B B^T; for nilpotent A (integrated Wiener processes) Q is positive semidefinite for every nonnegative step.", "quantifier": "every dimension, drift matrix, dispersion matrix and pair of step lengths", "why_tests_cant": "A functional equation and a differential equation in the step length, for all matrices; the tests compare one matrix and step with a quadrature.", "anchors": [{"file": "mfs/utils.py", "symbols": ["discretise_lti_sde"]}]}
{"id": "C74", "title": "Simulation of SDE trajectories", "statement": "simulate_sde returns T states; the state reported at time t is the one the recursion x <- m(x) + chol(cov(x)) eps with step dt/k reaches after (t+1) k increments taken in row-major order; diagonal_cov=True gives the same trajectory for diagonal covariances; for linear models the reported state is F x0 + sum C_i eps_i with noise-independent C_i and sum C_i C_i^T equal to the exact covariance at that time, for every number of integration steps.", "quantifier": "every model, number of states, number of integration steps, key and noise array", "why_tests_cant": "Equality of laws for all linear models and step counts; the tests check one trajectory statistically.", "anchors": [{"file": "mfs/utils.py", "symbols": ["simulate_sde"]}]}
{"id": "C75", "title": "Vectorised list of functions", "statement": "vmap_list_of_funcs(funcs)(x) is the list of f(x) for f in funcs, in order.", "quantifier": "every list of functions and argument", "why_tests_cant": "Universally quantified over lists and functions.", "anchors": [{"file": "mfs/utils.py", "symbols": ["vmap_list_of_funcs"]}]}
{"id": "C76", "title": "Affine equivariance of the one-dimensional filters", "statement": "If the state is replaced by (X - c)/s with s nonzero (reflections included), the prior, transition moments and likelihood being transformed accordingly and the measurements relabelled, then the raw moment filter returns the transformed moments, the central filter the central moments divided by s^n and the recentred mean, and both the same negative log-likelihood; in particular for the Gaussian (Euler-Maruyama) transitions of recentred diffusions.", "quantifier": "every shift, nonzero scale, number of moments, transition, positive likelihood and measurement sequence", "why_tests_cant": "Equality of two whole runs for all affine maps and models.", "anchors": [{"file": "mfs/one_dim/filtering.py", "symbols": ["moment_filter_rms"]}, {"file": "mfs/one_dim/filtering.py", "symbols": ["moment_filter_cms"]}, {"file": "mfs/one_dim/moments.py", "symbols": ["sde_cond_moments_euler"]}]}
{"id": "C77", "title": "Structure of the Benes-Bernoulli model", "statement": "The logistic map of benes_bernoulli takes values in (0, 1), is increasing and satisfies logistic(-x) = 1 - logistic(x); the pmf is nonnegative, sums to one, is positive exactly on {0, 1} and satisfies pmf(1 - y, -x) = pmf(y, x); the drift is odd, increasing and bounded by one; the initial condition of both one-dimensional models is normalised, has zero odd moments, variance 3/10 and a positive definite Hankel matrix for every order; the time grids are dt, 2 dt, ..., T dt.", "quantifier": "every state, measurement and order N", "why_tests_cant": "Universally quantified over reals and orders.", "anchors": [{"file": "mfs/one_dim/ss_models.py", "symbols": ["benes_bernoulli"]}]}
{"id": "C78", "title": "Reflection symmetry of the Benes-Bernoulli filter", "statement": "Running the Euler moment filter of the Benes-Bernoulli model on complemented measurements multiplies the k-th moment of every step by (-1)^k and leaves the negative log-likelihood unchanged.", "quantifier": "every order N, solver flag and sequence of binary measurements", "why_tests_cant": "Equality of runs over all measurement sequences.", "anchors": [{"file": "mfs/one_dim/ss_models.py", "symbols": ["benes_bernoulli"]}, {"file": "mfs/one_dim/filtering.py", "symbols": ["moment_filter_rms"]}]}
{"id": "C79", "title": "Structure of the Well-Poisson model", "statement": "The emission of well_poisson is positive, increasing in x for p > 0, invariant under (x, p) -> (-x, -p) with exp(emission) = 1 + exp(p x); the pmf is positive, equals 1/(1 + exp(p x)) at zero, satisfies the Poisson recursion and the truncated mean identity; the drift is odd, vanishes exactly at 0 and where p x^2 = 1, and points inwards beyond the wells.", "quantifier": "every state, parameter and count", "why_tests_cant": "Universally quantified over reals and counts.", "anchors": [{"file": "mfs/one_dim/ss_models.py", "symbols": ["well_poisson"]}]}
{"id": "C80", "title": "The parameter-estimation likelihood is even in the emission parameter", "statement": "The objective of the parameter-estimation script (Euler moments) satisfies nell(p1, -p2) = nell(p1, p2), so the sign of p2 is not identifiable; the script's softplus parametrisation takes positive values, is increasing, and is inverted by the formula used for the initial guess.", "quantifier": "every order N, pair of parameters and sequence of counts", "why_tests_cant": "Equality of whole filter runs for all parameters and data.", "anchors": [{"file": "dardel/parameter_estimation/mf.py", "symbols": ["obj_func"]}, {"file": "mfs/one_dim/ss_models.py", "symbols": ["well_poisson"]}]}
{"id": "C81", "title": "Prey-predator model", "statement": "The drift of prey_predator vanishes exactly at the origin and at (1, 1) and preserves delta x - gamma log x + beta y - alp log y; the Milstein step is the Euler step of the library's drift and dispersion plus the diagonal correction; the axes are invariant along every simulated path; the emission takes values in (0, 1) and is increasing; the initial mixture has mean (1, 1) and covariance 0.0015 I.", "quantifier": "every state, noise array, number of steps and integration step", "why_tests_cant": "Invariants of all simulated paths, for all noise.", "anchors": [{"file": "mfs/multi_dims/ss_models.py", "symbols": ["prey_predator"]}]}
{"id": "C82", "title": "Satellite model", "statement": "The drift and dispersion of satellite_orbital_stability are odd and vanish at the origin, the first row of the dispersion is zero and the drift dissipates the energy x1^2/2 - cos x0 - c cos(2 x0)/2 at the rate b x1^2.", "quantifier": "every state and parameter", "why_tests_cant": "Universally quantified over reals.", "anchors": [{"file": "mfs/multi_dims/ss_models.py", "symbols": ["satellite_orbital_stability"]}]}
{"id": "C83", "title": "Prey-predator populations stay positive", "statement": "Every state of a path simulated by prey_predator (Milstein scheme) from a positive initial state is positive.", "quantifier": "every noise array, positive initial state and number of integration steps", "why_tests_cant": "Invariant of all simulated paths, for all noise.", "anchors": [{"file": "mfs/multi_dims/ss_models.py", "symbols": ["prey_predator"]}]}
{"id": "C84", "title": "Linear SDEs over the reals: exact, unique, and nondegenerate exactly when controllable", "statement": "For every real A and B, with expm the sum of the exponential series, discretise_lti_sde returns the pair (F(t), Q(t)) that solves the mean and covariance equations of dX = A X dt + B dW; any mean path and any covariance path solving these equations is F(t) m(0) and F(t) P(0) F(t)^T + Q(t). Q(t) is positive semidefinite for t >= 0, and for t > 0 it is positive definite exactly when (A, B) is controllable. simulate_sde with these moments then draws from the exact law for every number of substeps.", "quantifier": "For all dimensions, all real matrices A and B, all times, all solutions, all numbers of substeps.", "why_tests_cant": "Uniqueness among all paths, and an equivalence between a rank condition and definiteness for all real times.", "anchors": [{"file": "mfs/utils.py", "symbols": ["discretise_lti_sde", "simulate_sde"]}]}
{"id": "C85", "title": "The extended filters linearise at the current estimate", "statement": "On a differentiable nonlinear model with scalar measurements, every step of ekf is exact Bayesian filtering in the affine Gaussian model obtained by linearising the transition at the current filtering mean and the measurement at the predicted mean, including the likelihood increment; eks keeps the last state and is otherwise the Rauch-Tung-Striebel step of the transition linearised at the filtering mean of that time; the moment equations integrated by cd_ekf are the first-order expansion in the time step of the ekf prediction with Euler-Maruyama moments, with remainder exactly t^2 J v J^T; cd_ekf predicts by one Runge-Kutta step of these equations, and cd_eks goes back by one Runge-Kutta step of the smoothing equations linearised at the current smoothed (not the filtering) mean.", "quantifier": "every differentiable model, dimension, prior, history, differentiation mode, time step", "why_tests_cant": "needs an exact posterior of the linearised model at every step of every history; on linear models an expansion point taken anywhere gives the same answer", "anchors": [{"file": "mfs/classical_filters_smoothers/gfs.py", "symbols": ["ekf", "_ekf_update", "eks", "cd_ekf"]}]}
{"id": "C86", "title": "The sigma-point filters on nonlinear models", "statement": "For any model with positive definite noise covariances and a sigma-point rule with nonnegative weights (cubature and Gauss-Hermite are), sgp_filter never fails, every covariance it returns is positive definite, the predicted moments are the mean and (centred) covariance of the Gaussian mixture carried by the sigma points, the posterior is the best linear estimate of the state from the measurement under the sigma-point law (no other gain has a smaller error covariance), and for scalar measurements the likelihood increment is the log density of the predicted Gaussian; sgp_smoother uses the cross covariance of the points; the moment equations of cd_sgp_filter are the first-order expansion of the discrete prediction with Euler-Maruyama moments; cd_sgp_smoother goes back by one Runge-Kutta step of the smoothing equations with the mean and cross covariance of the drift under the sigma-point law.", "quantifier": "every model, rule, dimension, prior, history, either treatment of the measurement noise", "why_tests_cant": "optimality over all gains and positive definiteness along all histories of all models", "anchors": [{"file": "mfs/classical_filters_smoothers/gfs.py", "symbols": ["sgp_filter", "_sgp_prediction", "_sgp_update", "sgp_smoother", "_cd_sgp_shared"]}]}
{"id": "C87", "title": "The convergence experiment simulates the model it filters", "statement": "In the Ornstein-Uhlenbeck convergence experiment the Matern kernel matrix on the time grid is, entry by entry, the covariance of the stationary first-order chain with transition coefficient F and noise variance Sigma; it is positive definite; the trajectory drawn through its Cholesky factor satisfies x_0 = sigma w_0 and x_{i+1} = F x_i + sqrt(Sigma) w_{i+1} for the same normal draws w; and F, Sigma are the exact discretisation of the SDE with the drift and dispersion of the script.", "quantifier": "every number of times T, step dt > 0, length scale ell > 0, magnitude sigma > 0 and all normal draws", "why_tests_cant": "The agreement of a kernel, a Cholesky factor, a recursion and an SDE is a family of identities over all sizes and parameters; the scripts have no tests and a run only shows one noisy trajectory.", "anchors": [{"file": "dardel/convergence/convergence_mf.py", "symbols": ["matern12", "F", "Sigma", "drift", "dispersion", "xs", "ys"]}, {"file": "dardel/convergence/convergence_pf.py", "symbols": ["matern12", "F", "Sigma"]}]}
{"id": "C88", "title": "The reference Kalman filter of the convergence experiment is Gaussian process regression", "statement": "After any number of measurements, the mean and variance of the script's kf are those of Gaussian process regression with the Matern kernel on the measurements so far; its negative log-likelihood is the negative log density of all measurements under the law they are simulated from; it coincides with the library's kf in dimension one; and the library's rts applied to it returns the regression posterior at every time given all measurements.", "quantifier": "every measurement sequence of every length and all positive parameters", "why_tests_cant": "It equates a scalar recursion with a matrix inverse and a determinant of growing size for every data sequence.", "anchors": [{"file": "dardel/convergence/convergence_mf.py", "symbols": ["kf", "matern12"]}, {"file": "dardel/convergence/convergence_pf.py", "symbols": ["kf"]}, {"file": "mfs/classical_filters_smoothers/gfs.py", "symbols": ["kf", "rts"]}]}
{"id": "C89", "title": "The proposal of the convergence particle filter is the optimal one", "statement": "Likelihood times transition density equals proposal density times the predictive density N(y; F a, Sigma + R) for all states x, ancestors a and measurements y, with proposal variance strictly between 0 and Sigma; hence the weights of a particle filter step depend on the ancestors only, not on the samples drawn; averaged over keys with standardised draws the samplers have the mean and variance of the stationary law and of the state given ancestor and measurement; and the outputs are the mean and variance of the particles.", "quantifier": "all real states, ancestors, measurements, ensembles of any size and random keys", "why_tests_cant": "Optimality is an identity between products of densities at all points; a wrong gain still gives a running particle filter with plausible output.", "anchors": [{"file": "dardel/convergence/convergence_pf.py", "symbols": ["proposal_sampler", "proposal_density", "transition_density", "measurement_cond_pdf"]}, {"file": "mfs/classical_filters_smoothers/smc.py", "symbols": ["particle_filter"]}]}
{"id": "C90", "title": "The variance error of the convergence experiment is the Kullback-Leibler divergence", "statement": "The error kl computed from (mean, variance) and the true (mean, variance) is the expectation under N(m, v) of the difference of the two log densities; it is non-negative, and zero only if both the means and the variances agree.", "quantifier": "all real means and all positive variances", "why_tests_cant": "The formula mixes logs and quotients; sign errors give values that still look like errors.", "anchors": [{"file": "dardel/convergence/convergence_mf.py", "symbols": ["errs_kls", "errs_means"]}, {"file": "dardel/convergence/convergence_pf.py", "symbols": ["errs_kls"]}]}
{"id": "C91", "title": "Prediction in the convergence moment filters is exact on Gaussians, and the modes agree", "statement": "With the callbacks of the script, one prediction step of the raw and of the central moment filter maps the first 2N moments of N(m, v) to those of N(F m, F^2 v + Sigma) exactly; the initial moments are those of the stationary law, which is a fixed point of the prediction; and the raw and central modes return the same means and variances for every measurement sequence.", "quantifier": "every N >= 1 (N >= 2 for the modes), every mean, positive variance and measurement sequence", "why_tests_cant": "Exactness of a quadrature of a quadrature for all orders and parameters, and equality of two different recursions on all data.", "anchors": [{"file": "dardel/convergence/convergence_mf.py", "symbols": ["state_cond_raw_moments", "state_cond_central_moments", "state_cond_mean", "moment_filter_rms", "moment_filter_cms"]}, {"file": "mfs/one_dim/filtering.py", "symbols": ["moment_filter_rms", "moment_filter_cms"]}]}
{"id": "C92", "title": "convergence_mf.py reaches the filter of its mode", "statement": "Run in mode raw or central, the script evaluates the library's moment_filter_rms or moment_filter_cms on the measurements.", "quantifier": "both modes", "why_tests_cant": "Name resolution at call time: the import is shadowed by the wrapper defined below it, and no test runs the script.", "anchors": [{"file": "dardel/convergence/convergence_mf.py", "symbols": ["moment_filter_rms", "moment_filter_cms"]}]}
{"id": "C93", "title": "The characteristic-function errors are distances and bound the error of the moment filter", "statement": "The three errors of compute_errs.py between characteristic functions sampled on a grid are distances (zero exactly on equal inputs, symmetric, triangle inequality); l1 <= L sup, l2^2 <= L sup^2, l1^2 <= L l2^2 and l2^2 <= sup l1 with L the length of the grid; the grid is increasing, symmetric and runs from -b to b; and for the characteristic function computed from 2N moments against that of any discrete law with the same moments, sup <= e, l1 <= 2 b e and l2^2 <= 2 b e^2 with e = 2 b^(2N) / (2N)! times the 2N-th moment.", "quantifier": "every grid size m >= 2, half-width b > 0, pair of sampled functions, order N and discrete law", "why_tests_cant": "Inequalities between integrals and suprema for all functions and all grids.", "anchors": [{"file": "dardel/benes_bernoulli/compute_errs.py", "symbols": ["zs", "errs", "cf_l1", "cf_l2", "cf_max"]}, {"file": "mfs/one_dim/moments.py", "symbols": ["characteristic_fn"]}]}
{"id": "C94", "title": "The particle statistics of pf.py are those of the empirical law, and its proposal has the TME moments", "statement": "The particle characteristic function is 1 at zero, bounded by 1 in modulus, conjugate-symmetric and positive semi-definite, and the particle mean lies between the smallest and the largest particle; and the proposal, averaged over any family of keys whose normal draws have mean 0 and variance 1, has the mean and variance that tme.mean_and_cov returns at each particle.", "quantifier": "every nonempty set of particles, every argument, every mean-and-covariance function and every weighting of the keys with the stated moments", "why_tests_cant": "Statements about all ensembles and an average over keys.", "anchors": [{"file": "dardel/benes_bernoulli/pf.py", "symbols": ["proposal_sampler", "pf_cfs"]}]}
{"id": "C95", "title": "The spatial grid of the brute-force filter covers every filtered mean and its integrals are consistent", "statement": "The bounds computed from the moment filter contain [mean - rule sd, mean + rule sd] for every time and are attained; the mass that a law with the filter's central moments has outside the grid is at most cms[2k] / (rule^2 cms[2])^k for every k; and the posterior mean computed by trapezoidal integration lies inside the grid.", "quantifier": "every sequence of means and central moments, every rule > 0, every grid size >= 2 and non-negative density of trapezoidal mass one", "why_tests_cant": "Bounds over all time steps and all inputs.", "anchors": [{"file": "dardel/benes_bernoulli/brute_force.py", "symbols": ["spatial_grids"]}, {"file": "dardel/benes_bernoulli/post_processing_brute_force.py", "symbols": ["true_means"]}]}
{"id": "C96", "title": "The Gaussian filters of the experiment scripts use the measurement moments of their models", "statement": "measurement_cond_m_cov of the Benes-Bernoulli and prey-predator scripts returns the mean and variance of the binary measurement of the model, the variance being positive; with that of the Poisson script and any sigma-point rule with the standard-normal moments and non-negative weights the Gauss-Hermite filter never fails, every step is the best linear estimate under the sigma-point law, and each update moves the mean in the direction of the innovation; the Euler callback of the prey-predator script is the mean and covariance of the Euler step and is non-degenerate exactly when no population is zero.", "quantifier": "every state, every data sequence and every such rule", "why_tests_cant": "All data sequences and states; sign of a matrix expression.", "anchors": [{"file": "dardel/benes_bernoulli/ghf.py", "symbols": ["measurement_cond_m_cov", "ghf"]}, {"file": "dardel/parameter_estimation/ghf_ekf.py", "symbols": ["measurement_cond_m_cov", "state_cond_m_cov"]}, {"file": "dardel/prey_predator/ghf_ekf.py", "symbols": ["state_cond_m_cov"]}]}
{"id": "C97", "title": "The extended Kalman filter is blind on the Benes-Bernoulli model and the Gauss-Hermite filter is not", "statement": "Started at the mean of the initial law, with any differentiable transition that fixes 0, the extended Kalman filter keeps the mean at 0 whatever the binary data, its covariances are those of prediction alone and its likelihood depends on the number of data only (the remark at the head of ghf.py); the Gauss-Hermite filter of the script moves the mean strictly up from its prediction on every 1 and strictly down on every 0.", "quantifier": "every binary data sequence, step and initial variance; every sigma-point rule with standard-normal moments and non-negative weights", "why_tests_cant": "A negative statement about a filter for all data.", "anchors": [{"file": "dardel/benes_bernoulli/ghf.py", "symbols": ["ghf", "measurement_cond_m_cov"]}, {"file": "mfs/classical_filters_smoothers/gfs.py", "symbols": ["ekf", "sgp_filter"]}]}
{"id": "C98", "title": "The gh result of parameter_estimation/ghf_ekf.py is the Gauss-Hermite estimate", "statement": "The parameters written to the gh file are those found by minimising the Gauss-Hermite objective.", "quantifier": "every optimiser, initial guess and data sequence", "why_tests_cant": "No test runs the script; both output files look plausible.", "anchors": [{"file": "dardel/parameter_estimation/ghf_ekf.py", "symbols": ["obj_func_ghf", "obj_func_ekf", "opt_solver"]}]}
{"id": "C99", "title": "The means of the raw mode of prey_predator/mf.py are the means", "statement": "In the raw mode, entries 2 and 1 of the moment vector in graded lexicographic order are the means of the first and second component, for moments of any discrete law.", "quantifier": "every order N >= 1 and every discrete law in dimension two", "why_tests_cant": "The position of a multi-index depends on the enumeration for all N.", "anchors": [{"file": "dardel/prey_predator/mf.py", "symbols": ["mfs"]}, {"file": "mfs/multi_dims/multi_indices.py", "symbols": ["generate_graded_lexico_multi_indices"]}]}
{"id": "C100", "title": "The characteristic functions of the experiments have the moments they are built from", "statement": "The particle characteristic function of pf.py, the Gaussian one of compute_errs.py and characteristic_fn of the library are infinitely often differentiable in the argument, and their k-th derivatives at zero are i^k times the k-th empirical moment, the k-th moment of N(m, v) and, for k < 2N, the k-th moment of the input.", "quantifier": "every nonempty set of particles, every mean and variance v >= 0, every admissible moment sequence with any mean and scale, and every k (k < 2N for the library function)", "why_tests_cant": "A statement about derivatives of every order.", "anchors": [{"file": "dardel/benes_bernoulli/compute_errs.py", "symbols": ["ghf_filtering_cfs"]}, {"file": "dardel/benes_bernoulli/pf.py", "symbols": ["pf_cfs"]}, {"file": "mfs/one_dim/moments.py", "symbols": ["characteristic_fn"]}]}
{"id": "C101", "title": "The --cr objective of the particle filter is continuous in the parameters", "statement": "With continuous_resampling the negative log-likelihood that parameter_estimation/pf.py minimises is a continuous function of the two unconstrained parameters at every point, for fixed random keys; with the interpolation guard eps of the code, and for the TME transition, wherever the normalised weights exceed eps. More generally every output of continuous_resampling is continuous in the samples and weights where equal samples have equal weights, and the likelihood and the particles of bootstrap_filter depend continuously on the parameters of transition and likelihood. The objective is the sum over time of the negative log of the mean Poisson likelihood of the Euler-proposed particles.", "quantifier": "all parameters, measurement sequences, keys, numbers of particles and draws", "why_tests_cant": "Continuity is a statement about a limit; a gradient-based optimiser run on one data set does not show a jump elsewhere.", "anchors": [{"file": "dardel/parameter_estimation/pf.py", "symbols": ["obj_func", "proposal_sampler"]}, {"file": "mfs/classical_filters_smoothers/resampling.py", "symbols": ["continuous_resampling"]}, {"file": "mfs/classical_filters_smoothers/smc.py", "symbols": ["bootstrap_filter"]}]}
{"id": "C102", "title": "The objective of pf.py is continuous without --cr as well", "statement": "The particle-filter objective is continuous in the parameters also with stratified resampling, and continuous_resampling is continuous at all samples and weights.", "quantifier": "all parameters and draws", "why_tests_cant": "For almost all draws a small perturbation shows no jump.", "anchors": [{"file": "dardel/parameter_estimation/pf.py", "symbols": ["obj_func"]}, {"file": "mfs/classical_filters_smoothers/resampling.py", "symbols": ["continuous_resampling", "stratified"]}]}
{"id": "C103", "title": "The samplers of the Gaussian sums draw from the laws whose moments are stored", "statement": "GaussianSum1D.sampler picks component j exactly when its uniform draw lies in an interval of length w_j; averaged over keys with independent component and standard normal moments, the p-th moment of each sample is the p-th raw moment computed by GaussianSum1D.new (p < 2N); GaussianSumND.sampler has the mean and covariance computed by GaussianSumND.new.", "quantifier": "all means, positive (definite) covariances, weights, numbers of samples, indices and orders", "why_tests_cant": "An identity of expectations; sampling tests have Monte Carlo error that hides small variance factors.", "anchors": [{"file": "mfs/utils.py", "symbols": ["GaussianSum1D", "GaussianSumND"]}]}
{"id": "C104", "title": "The particle filters of the experiment scripts", "statement": "The proposals of the Poisson and prey-predator scripts have the conditional mean and covariance given by state_cond_m_cov (for the prey-predator Euler scheme written out), and with 0/1 measurements each step of the Benes-Bernoulli and prey-predator filters returns n particles, particle i being the proposed one picked by the inverse distribution function of the normalised Bernoulli likelihoods at (i + u_i) / n; the errors written by the prey-predator script are the distances of the states to the particle means.", "quantifier": "all particle numbers, measurement sequences of zeros and ones, keys and draws", "why_tests_cant": "Whole runs for all data lengths and particle numbers.", "anchors": [{"file": "dardel/parameter_estimation/pf.py", "symbols": ["proposal_sampler"]}, {"file": "dardel/prey_predator/pf.py", "symbols": ["proposal_sampler", "bf"]}, {"file": "dardel/benes_bernoulli/pf.py", "symbols": ["bf"]}]}
{"id": "C105", "title": "The modes of the Benes-Bernoulli moment filter give the same results", "statement": "mf.py followed by post_processing_mf.py gives the same filtering means, characteristic functions and negative log-likelihood in the raw and the central mode, with and without --normal, and without --normal also in the scaled mode for N >= 2; each run gives one mean and one row of defined characteristic-function values of modulus at most one per measurement; any other mode is NotImplementedError.", "quantifier": "all orders N, measurement sequences, frequency grids and transition-moment callbacks that are linear (TME) or Gaussian", "why_tests_cant": "Equality of three programs for all orders and data; in floating point they only agree up to rounding.", "anchors": [{"file": "dardel/benes_bernoulli/mf.py", "symbols": ["moment_filter"]}, {"file": "dardel/benes_bernoulli/post_processing_mf.py", "symbols": ["cf_rms", "cf_cms", "cf_scms"]}]}
{"id": "C106", "title": "The scaled mode of the Benes-Bernoulli filter with --normal agrees with the other modes", "statement": "With --normal the scaled mode gives the same filtering means as the central mode.", "quantifier": "all orders N >= 2, measurement sequences", "why_tests_cant": "The outputs look plausible: the contraction by the predicted scale is not visible in one run.", "anchors": [{"file": "dardel/benes_bernoulli/mf.py", "symbols": ["moment_filter"]}, {"file": "mfs/one_dim/moments.py", "symbols": ["sde_cond_moments_tme_normal"]}]}
{"id": "C107", "title": "The moment quadrature brackets the distribution function of every law with the given moments", "statement": "For every probability law with the given moments and every node c of the quadrature, the weights of the nodes below c sum to at most the probability of (-inf, c), and the weights of the nodes up to c to at least the probability of (-inf, c] (Chebyshev-Markov-Stieltjes); so the distribution functions differ nowhere by more than the largest weight.", "quantifier": "all laws, orders, moment sequences, centres and scales", "why_tests_cant": "An inequality over all laws with given moments; a test compares with one law.", "anchors": [{"file": "mfs/one_dim/quadtures.py", "symbols": ["moment_quadrature"]}]}
{"id": "C108", "title": "Error of the moment quadrature for functions that are not polynomials", "statement": "The nodes lie in every interval that carries the law; for a function within e of a polynomial of degree below 2N on that interval, the quadrature is within 2e of the integral; for a polynomial of degree 2N with nonnegative leading coefficient it never exceeds the integral.", "quantifier": "all laws, functions, orders, moment sequences, centres and scales", "why_tests_cant": "A bound for all functions and laws.", "anchors": [{"file": "mfs/one_dim/quadtures.py", "symbols": ["moment_quadrature"]}]}
{"id": "C109", "title": "The moment filters converge to the exact Bayesian filter as the order grows", "statement": "For a hidden Markov model on a compact interval with continuous transition laws that are not carried by finitely many points and continuous positive likelihoods, run with the exact moments of the initial law and of the transitions, the raw, central and scaled moment filters give, for every measurement sequence, every time and every moment order, posterior moments (means, scales) that converge to those of the exact Bayesian filter as the number of moments grows, and negative log-likelihoods that converge to the exact one.", "quantifier": "all models on compact intervals, measurement sequences, times and moment orders", "why_tests_cant": "A limit over the order N of the filter: a test runs finitely many orders, and in floating point large orders fail.", "anchors": [{"file": "mfs/one_dim/filtering.py", "symbols": ["moment_filter_rms", "moment_filter_cms", "moment_filter_scms"]}, {"file": "mfs/one_dim/quadtures.py", "symbols": ["moment_quadrature"]}]}
{"id": "C110", "title": "Systematic and stratified resampling are unbiased, and stratified resampling has no larger variance than independent draws", "statement": "With uniform random numbers the expected number of copies of particle j is n w_j, for every weight vector, under systematic resampling (one uniform) and stratified resampling (n uniforms, however dependent); so the expected sum of any function of the particles is n times its weighted mean. With independent uniforms the variance of that sum under stratified resampling is at most n times the weighted variance, that of n independent draws.", "quantifier": "all weight vectors, functions of the index, searchsorted implementations and laws of the keys with uniform draws", "why_tests_cant": "An expectation over a continuous random number, for every weight vector.", "anchors": [{"file": "mfs/classical_filters_smoothers/resampling.py", "symbols": ["systematic", "stratified"]}]}
{"id": "C111", "title": "The bootstrap filter gives unbiased estimates of the likelihood and of the unnormalised filtering expectations", "statement": "For every number of particles and every measurement sequence, the expectation over the keys of exp(-nell) is the exact likelihood of the measurements, and that of exp(-nell) times the mean of f over the last particles is the exact integral of f against the unnormalised filtering law; provided the transition sampler moves particles by the transition kernel, the resampling scheme is unbiased, and the split keys are independent.", "quantifier": "all models, particle numbers, measurement sequences and functions", "why_tests_cant": "An exact statement about an expectation over keys; a test can only average finitely many runs.", "anchors": [{"file": "mfs/classical_filters_smoothers/smc.py", "symbols": ["bootstrap_filter"]}]}
{"id": "C112", "title": "Continuous resampling keeps the weighted mean (refuted)", "statement": "As systematic and stratified resampling, continuous resampling would have expected mean of any function of the resampled particles equal to its weighted mean. It does not: with weights (1, 0) and samples (0, 1) the second resampled particle is uniform on [0, 1), so the sample of weight zero attracts particles.", "quantifier": "all samples, weights, functions, laws of the keys", "why_tests_cant": "A bias over the law of the uniforms.", "anchors": [{"file": "mfs/classical_filters_smoothers/resampling.py", "symbols": ["continuous_resampling"]}]}
{"id": "C113", "title": "The run scripts start every Monte Carlo run exactly once", "statement": "The nested shell loops with k = i*PARALLEL_MAX + j start the runs 0, ..., PARALLEL_MAX*SEQUENTIAL_MAX - 1 in this order and each once, and so do the SLURM array jobs with st_mc = ID*SEQUENTIAL_RUNS and ed_mc = st_mc + SEQUENTIAL_RUNS - 1 (inclusive) or k = ID*PARALLEL_MAX + j; these are the runs the post-processing scripts and plots read.", "quantifier": "all numbers of parallel and sequential runs and of array tasks", "why_tests_cant": "The scripts run for days on a cluster; an off-by-one shows up as one missing or doubled run out of thousands.", "anchors": [{"file": "dardel/run_parameter_estimation_mf.sh", "symbols": ["k"]}, {"file": "dardel/run_prey_predator_mf.sh", "symbols": ["st_mc", "ed_mc"]}, {"file": "dardel/run_parameter_estimation_pf.sh", "symbols": ["k"]}]}
{"id": "C114", "title": "All filters of a prey-predator run see the same data", "statement": "In mf.py, pf.py and ghf_ekf.py of prey_predator, run k uses the first data set without NaN along the keys rng_keys[k], split(rng_keys[k])[0], ...; hence all filters get the same measurements and are compared with the same trajectory, a run has NaN errors exactly when its filter gave NaN, and the loop ends exactly when a data set without NaN can be reached.", "quantifier": "all simulators, key splittings, filters and runs", "why_tests_cant": "Concerns a retry loop whose body almost never runs, in three scripts run separately.", "anchors": [{"file": "dardel/prey_predator/mf.py", "symbols": ["key", "xs"]}, {"file": "dardel/prey_predator/pf.py", "symbols": ["key", "key_pf"]}, {"file": "dardel/prey_predator/ghf_ekf.py", "symbols": ["key"]}]}
{"id": "C115", "title": "The time profile times the moment filter once per run and never on a divergent run", "statement": "time_profile/mf.py assigns elapsed_times[k] exactly once for every k < maxmc, from a call of the filter without NaN in its result: on the data of run k if that has no NaN, otherwise on the next data set of the spare sequence starting at the last key, none of which is used twice; the compile run -1 is not recorded. ghf.py and pf.py time run k on the data of run k. The script ends if infinitely many spare data sets are good and fails when there are fewer keys than runs.", "quantifier": "all filters, simulators, keys and numbers of runs", "why_tests_cant": "A loop with state carried between the runs, and unbounded retries.", "anchors": [{"file": "dardel/time_profile/mf.py", "symbols": ["elapsed_times", "key_nan"]}, {"file": "dardel/time_profile/ghf.py", "symbols": ["elapsed_times"]}, {"file": "dardel/time_profile/pf.py", "symbols": ["elapsed_times"]}]}
{"id": "C116", "title": "The three filters of the time profile are timed on the same data (refuted)", "statement": "elapsed_times[k] of mf.py, ghf.py and pf.py are measured on the same measurements. True when the moment filter diverges on none of the runs; false otherwise, as mf.py replaces the data of a divergent run.", "quantifier": "all filters, simulators, keys and numbers of runs", "why_tests_cant": "Depends on divergences that occur in few runs.", "anchors": [{"file": "dardel/time_profile/mf.py", "symbols": ["key_nan"]}]}
{"id": "C117", "title": "Different experiments write different result files", "statement": "The names of the result files determine the parameters they are made of: mode, normal flag, order, run, grid bound and grid size, Gauss-Hermite order, TME order (benes_bernoulli/ghf.py), Euler flag, resampling flag, number of particles (convergence) and, for prey_predator, any string given as transition; files written by one script to one directory never coincide.", "quantifier": "all parameters, as natural numbers, flags and strings; the modes raw, central and scaled", "why_tests_cant": "Injectivity of a formatting function over infinitely many parameters.", "anchors": [{"file": "dardel/benes_bernoulli/mf.py", "symbols": ["filename"]}, {"file": "dardel/prey_predator/mf.py", "symbols": ["filename"]}, {"file": "dardel/parameter_estimation/pf.py", "symbols": ["filename"]}, {"file": "dardel/parameter_estimation/ghf_ekf.py", "symbols": ["filename"]}, {"file": "dardel/convergence/convergence_pf.py", "symbols": ["filename"]}, {"file": "dardel/time_profile/mf.py", "symbols": ["filename"]}]}
{"id": "C118", "title": "The settings of an experiment are part of its file name (refuted)", "statement": "Two experiments with different settings write different files. False: --tme of the time_profile scripts and of benes_bernoulli/pf.py, --nparticles of prey_predator/pf.py, parameter_estimation/pf.py and benes_bernoulli/pf.py, --gh of prey_predator/ghf_ekf.py and --ngrids of brute_force.py are not in the names, so a second experiment silently overwrites the first.", "quantifier": "all settings", "why_tests_cant": "The overwritten file looks like any other result.", "anchors": [{"file": "dardel/time_profile/mf.py", "symbols": ["filename"]}, {"file": "dardel/prey_predator/pf.py", "symbols": ["filename"]}, {"file": "dardel/prey_predator/ghf_ekf.py", "symbols": ["filename"]}, {"file": "dardel/parameter_estimation/pf.py", "symbols": ["filename"]}]}
{"id": "C119", "title": "Packing the particle-filter runs deletes only what was packed", "statement": "Each block of run_benes_bernoulli_ghf_pf.sh and run_convergence_pf.sh packs all runs of its settings and the following rm deletes exactly the per-run files of these settings (pf_10000_mc_* does not match the files of 100000 particles) and no packed file; with fewer than 1000 runs the packing of benes_bernoulli fails because --maxmc is not passed.", "quantifier": "all settings, numbers of runs and contents of the directory", "why_tests_cant": "Concerns a glob pattern over names with unbounded numbers.", "anchors": [{"file": "dardel/run_benes_bernoulli_ghf_pf.sh", "symbols": ["PARALLEL_MAX", "SEQUENTIAL_MAX"]}, {"file": "dardel/benes_bernoulli/post_processing_pf.py", "symbols": ["filename"]}, {"file": "dardel/convergence/convergence_pf_post_processing.py", "symbols": ["filename"]}]}
{"id": "C120", "title": "The plots read the files the scripts write (refuted)", "statement": "The file names in plot_parameter_estimation.py, plot_benes_bernoulli_errs_and_times.py and plot_prey_predator_errs.py are those the scripts write for the settings of the paper, for every run. In plot_convergence.py the moment-filter files are, but pf.npz is a name no script writes: the packed results are called pf_{nparticles}.npz.", "quantifier": "all runs, orders and particle numbers", "why_tests_cant": "Only visible after the experiments have run.", "anchors": [{"file": "reproduce_paper_plots/plot_convergence.py", "symbols": ["results"]}, {"file": "reproduce_paper_plots/plot_parameter_estimation.py", "symbols": ["filename"]}, {"file": "reproduce_paper_plots/plot_prey_predator_errs.py", "symbols": ["filename"]}]}
{"id": "C121", "title": "The plots keep exactly the valid results, in order, and count the others", "statement": "find_valid keeps the estimates of the runs whose optimiser converged and in which no estimate reaches the bound 10, rm_divergent and plot_prey_predator_errs.py the runs without NaN; the reported number of divergences plus the number of kept runs is the number of runs.", "quantifier": "all arrays of results", "why_tests_cant": "Quantifies over all patterns of failures.", "anchors": [{"file": "reproduce_paper_plots/plot_parameter_estimation.py", "symbols": ["find_valid"]}, {"file": "reproduce_paper_plots/plot_benes_bernoulli_errs_and_times.py", "symbols": ["rm_divergent"]}, {"file": "reproduce_paper_plots/plot_prey_predator_errs.py", "symbols": ["num_nans"]}]}
{"id": "C122", "title": "The reported divergences and mean errors compare the filters (refuted in part)", "statement": "The number printed as divergences of a filter is the number of runs in which the filter has NaN and the reference has not: proved when no trajectory has NaN; otherwise it is reduced by the runs with a NaN in the trajectory alone and can be negative. The mean errors printed by plot_prey_predator_errs.py are over different runs for each filter, so a filter that is better in every run in which both converge can have the larger mean.", "quantifier": "all result arrays", "why_tests_cant": "Depends on the joint pattern of NaNs over the runs.", "anchors": [{"file": "reproduce_paper_plots/plot_benes_bernoulli_errs_and_times.py", "symbols": ["unpack"]}, {"file": "reproduce_paper_plots/plot_prey_predator_errs.py", "symbols": ["errs_pf", "errs_mf"]}]}
{"id": "C123", "title": "The Gram-Charlier approximation is non-negative (refuted)", "statement": "gram_charlier returns a density, so its values are non-negative. False: with an odd number of cumulants, as its documentation asks for, it is negative somewhere whenever the complete Bell polynomial of highest order of the cumulants from the third on is not zero, in particular for every skewed law with three cumulants.", "quantifier": "all cumulants with positive variance; every positive exponential", "why_tests_cant": "The negative values lie in the tail, at places that depend on all cumulants.", "anchors": [{"file": "mfs/one_dim/pdf_approximations.py", "symbols": ["gram_charlier"]}]}
{"id": "C124", "title": "Gaussian expectations are integrals over the real line", "statement": "The moments raw_moment_of_normal and central_moment_of_normal, the moments of the Gram-Charlier density, the KL error of the convergence scripts and the sums of a quadrature rule built from normal moments are the improper Riemann integrals against the density norm.pdf, which integrates to one; the distribution function of such a rule is within its largest weight of that of the normal law.", "quantifier": "all means, positive variances, orders, polynomials and points; every Cholesky and eigendecomposition", "why_tests_cant": "Equates algebraic recursions with integrals; a numerical integral only approximates.", "anchors": [{"file": "mfs/one_dim/moments.py", "symbols": ["raw_moment_of_normal", "central_moment_of_normal"]}, {"file": "mfs/one_dim/pdf_approximations.py", "symbols": ["gram_charlier"]}, {"file": "dardel/convergence/convergence_mf.py", "symbols": ["kf"]}]}
{"id": "C125", "title": "The Kalman recursion of the convergence experiment is the Bayesian filter", "statement": "For every sequence of measurements the normal densities with the means and variances returned by kf in convergence_mf.py are the posterior densities given by Bayes' rule with the transition and measurement densities of the model: prediction by integration, update by multiplication and normalisation. The returned number is minus the log likelihood, the sum of the logarithms of the normalisation constants. These densities and constants are unique.", "quantifier": "all measurement sequences and all positive dt, ell, sigma and noise variances", "why_tests_cant": "Quantifies over all measurement sequences and equates a recursion with integrals over densities.", "anchors": [{"file": "dardel/convergence/convergence_mf.py", "symbols": ["kf"]}]}
{"id": "C126", "title": "The Gaussian filters' characteristic function is that of their normal law", "statement": "exp(i z m - z^2 v / 2), used for the Gaussian filters in the error computation of benes_bernoulli, has as real and imaginary parts the integrals of cos(z x) and sin(z x) against the density of N(m, v).", "quantifier": "all z and m and all positive v", "why_tests_cant": "An integral identity at every real argument.", "anchors": [{"file": "dardel/benes_bernoulli/compute_errs.py", "symbols": ["ghf_filtering_cfs"]}]}
{"id": "C127", "title": "The weights of the multi-dimensional quadrature are non-negative (refuted)", "statement": "moment_quadrature_nd returns a probability rule: its weights are non-negative, so that a non-negative integrand (a likelihood, a variance) has a non-negative expectation. False from two dimensions on: the moments up to order three of a probability law on six points of the plane give a rule with a negative weight, and the raw-moment filter then computes a negative evidence from a strictly positive likelihood. Non-negative integrands of a single coordinate always have a non-negative expectation, and product integrands are bounded by the product of the bounds of their factors.", "quantifier": "all admissible moments, orders and dimensions for the partial statements; every Cholesky and eigendecomposition for the counterexample", "why_tests_cant": "Tests check the moments the rule reproduces, which hold whatever the signs of the weights.", "anchors": [{"file": "mfs/multi_dims/quadratures.py", "symbols": ["moment_quadrature_nd"]}, {"file": "mfs/multi_dims/filtering.py", "symbols": ["moment_filter_nd_rms"]}]}
{"id": "C128", "title": "Every random number of a run has its own key", "statement": "The random numbers of one run of an experiment (data and filter), and of different runs, are drawn from pairwise different jax keys, so that they are independent. True between different rows of rng_keys.npy, and inside a run of the particle filters for every number of steps but two, whatever the number of rejected data sets; false for two steps, where the first key of the steps is the key of the noise of the initial particles, and the first particles are then made from one normal number used twice.", "quantifier": "all keys, numbers of steps, numbers of rejected data sets, pairs of runs", "why_tests_cant": "Reused keys give plausible numbers: no single run looks wrong, only the joint law over runs changes.", "anchors": [{"file": "mfs/utils.py", "symbols": ["GaussianSum1D", "simulate_sde"]}, {"file": "mfs/classical_filters_smoothers/smc.py", "symbols": ["bootstrap_filter", "particle_filter"]}, {"file": "dardel/convergence/convergence_pf.py", "symbols": ["init_sampler"]}]}
{"id": "C129", "title": "A random key is consumed once (refuted)", "statement": "jax's rule for random keys: a key is given to one draw or to one split. False of the samplers of Gaussian mixtures, of both particle filters, of every script that draws its initial state from a mixture, and of the retry loop of the prey-predator scripts; true of simulate_sde, the resampling functions and the convergence script of the moment filter.", "quantifier": "all keys, numbers of steps, numbers of rejected data sets", "why_tests_cant": "The programs run and give plausible numbers; jax does not check the rule.", "anchors": [{"file": "mfs/utils.py", "symbols": ["GaussianSum1D", "GaussianSumND", "simulate_sde"]}, {"file": "mfs/classical_filters_smoothers/smc.py", "symbols": ["bootstrap_filter", "particle_filter"]}]}
{"id": "C130", "title": "All filters of an experiment see the same data, and the filter's numbers are new", "statement": "For one row of rng_keys.npy the scripts of one experiment (moment filter, Gauss-Hermite filter, brute force, particle filter) simulate trajectory and measurements from the same keys, in the same order, and no random number of the particle filter is a random number of the data.", "quantifier": "all keys, numbers of steps, numbers of rejected data sets", "why_tests_cant": "Each script is run alone and writes its own file; a script with another order of splits would still write plausible results.", "anchors": [{"file": "dardel/benes_bernoulli/mf.py", "symbols": ["simulate_trajectory"]}, {"file": "dardel/benes_bernoulli/pf.py", "symbols": ["simulate_trajectory"]}, {"file": "dardel/benes_bernoulli/ghf.py", "symbols": ["simulate_trajectory"]}, {"file": "dardel/benes_bernoulli/brute_force.py", "symbols": ["simulate_trajectory"]}, {"file": "dardel/convergence/convergence_mf.py", "symbols": ["matern12"]}, {"file": "dardel/convergence/convergence_pf.py", "symbols": ["init_sampler"]}, {"file": "dardel/prey_predator/pf.py", "symbols": ["simulate"]}]}
{"id": "C131", "title": "inverse_fourier recovers the density of normal laws and mixtures", "statement": "The inverse Fourier transform of the characteristic function of a normal law, or of a mixture of normal laws, over the real line is 2 pi times its density; inverse_fourier on an increasing grid of mesh h covering [-A, A] has an error bounded by ((|x - m| + sqrt v) h (zn - z0) / 2 + 4 exp(-v A^2 / 2) / sqrt v) / (2 pi) per component, and converges to the density on the grids linspace(-A, A, n) as n and then A grow.", "quantifier": "all means, positive variances, non-negative weights, points x, increasing grids", "why_tests_cant": "The test compares one grid at one tolerance; it does not say which grids suffice or that the limit is the density.", "anchors": [{"file": "mfs/one_dim/pdf_approximations.py", "symbols": ["inverse_fourier"]}, {"file": "dardel/benes_bernoulli/compute_errs.py", "symbols": ["ghf_filtering_cfs"]}]}
{"id": "C132", "title": "The rules of plot_quadrature_rules.py are the Gauss rules of the plotted densities", "statement": "The moments that the script computes for its Gaussian mixture, uniform and gamma laws are the integrals of the powers against the plotted densities; for every N >= 1 the rule drawn beside the density has N distinct nodes and positive weights of sum one, integrates every polynomial of degree below 2 N exactly against the density, keeps its nodes in [a, b] (uniform) or in the non-negative half line (gamma), and its distribution function differs from that of the law by at most the largest weight.", "quantifier": "all N >= 1, means, positive variances, mixture weights, intervals a < b, integer shapes k >= 1, scales theta > 0", "why_tests_cant": "The script draws pictures and checks nothing; the formulas of the moments are not tested anywhere.", "anchors": [{"file": "reproduce_paper_plots/plot_quadrature_rules.py", "symbols": ["rms", "cms", "ws", "xs"]}, {"file": "mfs/one_dim/quadtures.py", "symbols": ["moment_quadrature"]}]}
{"id": "C133", "title": "The rules of plot_quadrature_rules_2d.py have the moments of the plotted laws", "statement": "For every mixture of non-degenerate normals with positive weights of sum one, every box, and every admissible moment table of the polygon, in every dimension and for every N >= 1, the rule that the script draws exists, has C(N-1+d, d)^d nodes and weights of sum one, and reproduces every raw moment of total order at most 2 N - 1 of the law; products of admissible one-dimensional laws and mixtures of admissible laws are admissible.", "quantifier": "all dimensions d >= 1, N >= 1, means, positive definite covariances, positive mixture weights, boxes, moment tables", "why_tests_cant": "The script draws pictures for three values of N and checks nothing; tests use one Gaussian and one table.", "anchors": [{"file": "reproduce_paper_plots/plot_quadrature_rules_2d.py", "symbols": ["weights", "nodes", "gs", "rms"]}, {"file": "mfs/multi_dims/quadratures.py", "symbols": ["moment_quadrature_nd"]}, {"file": "mfs/multi_dims/moments.py", "symbols": ["moments_nd_uniform"]}, {"file": "mfs/utils.py", "symbols": ["GaussianSumND"]}]}
{"id": "C134", "title": "plot_quadrature_rules_2d.py draws every node", "statement": "The marker sizes are the weights times one positive factor and the largest has absolute value one; in the panels of the Gaussian mixture and of the polygon each node is drawn exactly once with its absolute weight as size; in the panel of the uniform law each node is drawn once and those with 0 < abs(weight) < 1e-8 a second time.", "quantifier": "all weight and node arrays", "why_tests_cant": "Nothing tests the plotting script; a node lost by the masks is not visible in the picture.", "anchors": [{"file": "reproduce_paper_plots/plot_quadrature_rules_2d.py", "symbols": ["pos_weights", "neg_weights", "zero_weights"]}]}
{"id": "C135", "title": "The frames of plot_benes_bernoulli_estimation.py carry their own times", "statement": "For every number of steps T > 1, every stride and every result array of length T, each drawn frame shows the result of step k at the time dt (k + 1) of measurement k; the drawn k are the multiples of the stride and the last step, in increasing order, although the code reads index T, and the last bars are drawn at dt T.", "quantifier": "all T > 1, strides >= 1, dt, result arrays", "why_tests_cant": "The script is not tested; an off-by-one between results and times moves the frames by one dt, which is invisible in the figure.", "anchors": [{"file": "reproduce_paper_plots/plot_benes_bernoulli_estimation.py", "symbols": ["true_pdfs", "samples", "ts"]}, {"file": "mfs/one_dim/ss_models.py", "symbols": ["benes_bernoulli"]}]}
{"id": "C136", "title": "The histograms of plot_benes_bernoulli_estimation.py cover the samples", "statement": "Every sample is counted in exactly one of the bins, the bars have area one, and every sample lies under a drawn bar.", "quantifier": "all non-empty sample arrays and numbers of bins", "why_tests_cant": "Nothing tests the drawing; the shift is half a bin wide.", "anchors": [{"file": "reproduce_paper_plots/plot_benes_bernoulli_estimation.py", "symbols": ["hist", "bin_edges"]}]}
{"id": "C137", "title": "plot_convergence.py compares the same statistic of both filters", "statement": "For every result with the number of runs that the script expects and rows of one length, the curve of the moment filter over N shows at each N in 2..15 the same statistic as the line of the particle filter: the mean over all runs and times with twice the standard deviation of the run means; this mean is also the time average of the curve in time; a file with another number of runs above one stops the script.", "quantifier": "all run counts, T >= 1, error arrays", "why_tests_cant": "Nothing tests the plotting script; a wrong axis of a mean gives a plausible curve.", "anchors": [{"file": "reproduce_paper_plots/plot_convergence.py", "symbols": ["vals_means", "vals_vars", "errs_means_pf"]}]}
{"id": "C138", "title": "The violins and bands of plot_convergence.py are drawable and complete (refuted)", "statement": "Each violin shows the errors of step k at the time of step k, the final time has one, and the lower ends of the bands on the logarithmic axes are positive.", "quantifier": "all T > 1, dt, error arrays", "why_tests_cant": "A missing violin and a clipped band raise no error.", "anchors": [{"file": "reproduce_paper_plots/plot_convergence.py", "symbols": ["violins", "fill_between"]}]}
{"id": "C139", "title": "The Cramer-Rao script pairs states and measurements and returns Kalman covariances on linear Gaussian models", "statement": "For every model and all simulated runs, step k of the recursion in cramer_rao.py sees the measurements and states of step k of all runs and the states of step k - 1 (the initial states for k = 1), and T bounds are returned; with linear Gaussian log densities and a normal initial law the bounds are the Kalman filtering covariances, whatever was simulated; the log likelihood is the logarithm of the measurement pmf of the model.", "quantifier": "all models, run counts >= 1, T, trajectories, measurements", "why_tests_cant": "The script is never run; a shift by one between states and measurements changes the bound only slightly.", "anchors": [{"file": "dardel/prey_predator/cramer_rao.py", "symbols": ["xss", "j0", "crlbs", "logpdf_likelihood"]}, {"file": "mfs/utils.py", "symbols": ["posterior_cramer_rao"]}, {"file": "mfs/classical_filters_smoothers/gfs.py", "symbols": ["kf"]}]}
{"id": "C140", "title": "pdf and logpdf of the Gaussian sums are the mixture density and its logarithm", "statement": "For positive variances or positive definite covariances, GaussianSum1D.pdf and GaussianSumND.pdf are the weighted sums of the normal densities; for non-negative weights of which one is positive, GaussianSumND.logpdf is the logarithm of pdf, which is positive; over the reals, GaussianSum1D.pdf is a probability density and the raw moments stored by the constructor are the integrals of the powers against it.", "quantifier": "all dimensions, component counts, means, covariances, weights, points, orders", "why_tests_cant": "Tests compare pdf with nothing and the moments with a quadrature of one mixture at most; logpdf is not tested.", "anchors": [{"file": "mfs/utils.py", "symbols": ["GaussianSum1D", "GaussianSumND"]}]}
{"id": "C141", "title": "The bands of plot_prey_predator_estimation.py are the mean plus and minus 1.96 standard deviations in both modes", "statement": "If the filter returns the moments of a law, the modes raw and central of plot_prey_predator_estimation.py draw the same band of every state, the mean plus and minus 1.96 times the standard deviation, and the band has at least the mass 1 - 1/1.96^2.", "quantifier": "all dimensions, orders, laws with finitely many atoms and states", "why_tests_cant": "The script is not tested and runs one mode.", "anchors": [{"file": "reproduce_paper_plots/plot_prey_predator_estimation.py", "symbols": ["means", "covs", "fill_between"]}, {"file": "mfs/multi_dims/moments.py", "symbols": ["extract_mean", "extract_cov"]}]}
{"id": "C142", "title": "The bands of plot_prey_predator_estimation.py have at least the mass 95% (refuted)", "statement": "The band of 1.96 standard deviations has at least the mass 95% under the law of which the moments are given.", "quantifier": "all laws", "why_tests_cant": "It holds of the normal laws, and the filter is for laws that are not normal.", "anchors": [{"file": "reproduce_paper_plots/plot_prey_predator_estimation.py", "symbols": ["fill_between"]}]}
{"id": "C143", "title": "The notebook benes_bernoulli.ipynb computes the moments of the Euler-Maruyama step (refuted)", "statement": "state_cond_raw_moments_euler_maruyama of examples/benes_bernoulli.ipynb returns the moments of the normal law with mean x + drift(x) dt and variance dispersion(x)^2 dt.", "quantifier": "all drifts, dispersions, steps, states and orders below 2 N", "why_tests_cant": "The notebook is not tested and filters with the other function.", "anchors": [{"file": "examples/benes_bernoulli.ipynb", "symbols": ["state_cond_raw_moments_euler_maruyama"]}, {"file": "mfs/one_dim/moments.py", "symbols": ["raw_moment_of_normal"]}]}
{"id": "C144", "title": "The notebook 2d_bearing_only.ipynb filters with the transition it simulates", "statement": "In examples/2d_bearing_only.ipynb the discretised transition is [1 dt; 0 1] with the covariance [dt^3/3 dt^2/2; dt^2/2 dt], the simulated step has this law, and the conditional central moments and mean given to the filter are those of this law.", "quantifier": "all steps dt, states, centres, multi-indices", "why_tests_cant": "The notebook is not tested.", "anchors": [{"file": "examples/2d_bearing_only.ipynb", "symbols": ["simulate", "state_cond_central_moments", "state_cond_mean"]}, {"file": "mfs/utils.py", "symbols": ["discretise_lti_sde"]}, {"file": "mfs/multi_dims/moments.py", "symbols": ["raw_moments_mvn_kan"]}]}
