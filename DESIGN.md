# Design of the formal model of zgbkdlm/mfs

This document is written before the proofs and updated as the proofs land.
`MANIFEST.json` says what is proved today; this file says what is modelled,
how each property is proved, and what has to be trusted.

## 1. Modelling decisions

* **Language.** Rocq/Coq 8.16.1 with MathComp 1.x (ssreflect, algebra, real-closed
  fields).  Discrete code (multi-indices, Cartesian products, resampling indices) is
  modelled on `nat`/`seq nat`; numerical code is polymorphic in a real closed field
  `R : rcfType` (or a weaker field when no square root is taken).
* **Exact arithmetic.** A float is modelled by an element of `R`.  Rounding, overflow,
  NaN and tolerance are outside the model.  Every theorem is therefore about the
  algorithm, not about the last bits of a result.  Division by zero is totalised by
  MathComp (`x / 0 = 0`), so every theorem that depends on a division carries the
  guard that the divisor is non-zero.
* **Arrays.** A one-dimensional `JArray` is a `seq R`; a gather index beyond the end is
  clamped to the last element (`jget`), as JAX does.  Matrices are `'M[R]_(m,n)`.
  A Python loop becomes a fold or a structural recursion; `jax.lax.scan` becomes
  `scan : (S -> X -> S * O) -> S -> seq X -> S * seq O`.  Python exceptions become
  values (`option`/sum).
* **External library calls are arguments.**  Cholesky, `eigh`, `triangular_solve`,
  `log`, `exp`, the random generator, automatic differentiation and root finders are
  not modelled by code.  They enter as function arguments; the theorem quantifies over
  every such function that meets the written specification (`is_cholesky`, `is_eigh`,
  ...).  For each specification there is a witness, so that the hypotheses are not
  vacuous.
* **User callbacks** (drift, dispersion, likelihood, conditional moments) are
  universally quantified functions.

### File layout (`rocq/theories`)

* `*Model.v`: definitions mirroring the Python code; each carries a comment with the
  file and lines it models.  No proofs of properties.
* `*Spec.v` (or a spec section at the top of a proof file): the independent
  specification.
* `*Proofs.v`: lemmas.
* `*Props.v`: the property theorems, closed by `exact lemma`, each followed by
  `Print Assumptions`, plus the `Example` witnessing its hypotheses.

## 2. Properties

"Model" names the functions modelled; "Proof" the method.

| Id | Model | Proof |
|----|-------|-------|
| C01 | `sizeof_multi_indices` | cardinality of the explicit list of tuples, Pascal/hockey-stick induction |
| C02 | `generate_...`, `_next_...` | the successor function walks the sorted list; induction on the list |
| C03 | same | the same list is `sorted` for the spec order |
| C04 | `graded_lexico_indexof_multi_index` | rank = number of smaller tuples; induction on dimension |
| C05 | `gram_and_hankel_indices_graded_lexico`, `find_indices` | from C02, C04 and degree bounds |
| C06 | `extract_*`, `marginalise_moments` | from C04 |
| C07 | `nd_cartesian_prod*` | induction on dimension |
| C08 | `moment_quadrature`, `hankel_indices` | companion matrix of the moment functional; powers of `K` on the first basis vector; functional calculus of `eigh` |
| C09 | same | weights are squares of the first row of an orthogonal matrix |
| C10 | same + conversions | triangular congruence between Gram matrices; uniqueness of polynomial functional calculus |
| C11 | `_gauss_quadrature_golub_welsch` | Jacobi matrix is a leading block of `K` |
| C12 | `taylor_quadrature` | Taylor formula for polynomials; differentiation is an oracle |
| C13 | `moment_quadrature_nd` | product of the multiplication matrices applied to the first basis vector, induction on degree |
| C14 | same | triangular congruence as in C10 |
| C15 | `ldl` | loop invariant on the columns |
| C16 | `ldl_chol` | from C15 |
| C17 | normal moments | affine change of variable on the standard moments; exponential generating functions as binomial convolutions (`Egf.v`) |
| C18 | `raw_to_central`, `central_to_raw` | binomial theorem for a linear functional |
| C19 | `raw_to_scaled`, `scaled_to_central` | from C18 |
| C20 | `sde_cond_moments_euler` | raw and central part from C17; the scaled part divides by the product of all powers of `scale` and is refuted |
| C21 | `sms_to_cumulants` | logarithm of an exponential generating function, differentiated |
| C22 | `partial_bell`, `complete_bell` | coefficient extraction, induction |
| C23 | `hermite_probabilist` | Stein's identity for the Gaussian functional, repeated integration by parts |
| C24 | `gram_charlier` | C22 + C23; Gaussian integral replaced by the Gaussian moment functional |
| C25 | `legendre_poly_expansion` | Rodrigues' formula, repeated integration by parts, norm by the beta recursion; refuted on every other interval |
| C26 | `saddle_point` (the point, not the final exponential) | refuted: the code takes polynomial coefficients for roots |
| C27 | 1-D filters (`Filter1D*.v`) | invariant of the scan body; `moment_quadrature` of an admissible sequence has positive weights and distinct nodes (`QuadStrict.v`) |
| C28, C29 | 1-D filters | simulation relation between the scan states, C10 |
| C30 | filter update | positive definiteness of a positively reweighted quadrature |
| C31 | raw filter | refinement of the forward algorithm: the n-node rule of an n-atom law is that law (Lagrange interpolation) |
| C32, C33 | all filters | induction on the history |
| C34 | `raw_moments_mvn_kan`, `central_moments_mvn_kan`, `raw_moments_mvn_mgf` | finite differences of polynomials give the integration-by-parts recursion, which has one solution; the generating function by a syntax of formal derivatives |
| C35 | `moments_nd_uniform` | polynomial integral |
| C36 | n-D Euler and normal-TME moments | C34 and the affine action on the recursion |
| C37 | Gaussian sums | C17, C18, C34 |
| C38 | n-D filters (`FilterNd*.v`) | simulation relation between the scan states, C14; normalisation holds for any callbacks because the update divides by its own normaliser |
| C39 | n-D filters | the callbacks are read only at positions of the enumeration, C04 |
| C40 | `kf` update | completion of the square; the vector-measurement branch uses only the diagonal of the Cholesky factor and is refuted |
| C41 | `kf` | Loewner-order invariants |
| C42 | `rts` | Loewner order; `scan` from the right |
| C43 | `ekf`, `eks` | the affine case makes every step equal |
| C44 | `sgp_*` | moments of the sigma-point rule |
| C45 | cubature | direct computation for every dimension |
| C46 | Gauss-Hermite | enumeration; exactness from orthogonality |
| C47 | `rk4_*` | ring identity |
| C48, C49 | `systematic`, `stratified`, `multinomial`, `_sorted_uniforms` (`Resample*.v`) | inverse of the cumulative sums; counting thresholds in an interval |
| C50 | `continuous_resampling`, `_avg_n_nplusone` | linear interpolation is monotone and inverts the piecewise linear distribution |
| C51 | `bootstrap_filter`, `particle_filter` (`SmcProofs.v`) | invariant of the scan |
| C52 | `brute_force_filter` (`Brute*.v`) | invariant of the scan, linearity of the trapezoidal rule; exceptions are values |
| C53 | `lanczos`, `lanczos_ritz` (`Lanczos*.v`) | three-term recurrence as a loop invariant gives orthonormality; Krylov argument for breakdown; T^k e_1 expansion for the powers |
| C54 | PCRLB | matrix inversion lemma |
| C55 | `characteristic_fn` over the complex numbers (`Fourier*.v`) | C09 and the modulus of a convex combination; Bochner form as a sum of squares; the 2n-th moment of the rule is at most that of the law (square of the node polynomial) |
| C56 | `nd_cartesian_prod_2` (NdCart2) | refuted for all d, n >= 2 (every entry is characterised, right for d = 1 or n = 1): the grid is reshaped without moving the stacking axis |
| C57 | `truncated_cumulant_generating_function` | term by term |
| C58 | `moment_filter_scms` prediction | law of total variance; refuted |
| C59 | `moment_filter_nd_rms` | refinement of the forward algorithm; the rule of a law on unisolvent points is that law (C13) |
| C60 | `moment_filter_nd_scms` prediction | law of total variance per axis; refuted on a planar random walk |
| C61 | n-D filters | induction on the history |
| C62 | `kf`, `rts` | dynamic programming: completing the square forwards and backwards gives the value functions of the posterior cost |
| C63 | `sgp_filter`, `sgp_smoother` | moments of the rule, then C62 for any measurement dimension; log-density refuted |
| C64 | `cd_*` | the two right-hand sides agree on positive definite covariances; agreement along the run |
| C65 | n-D TME moments | binomial expansion under a linear functional; `tme` itself is an argument |
| C66 | `gaussian_expectation` | the standard rule satisfies integration by parts up to its degree; affine maps act on the recursion |
| C67 | `moment_quadrature_nd` on Kan moments | a Gauss-Hermite rule with positive weights represents the Gram matrix; unisolvence of grids |
| C68 | n-D filters with Euler callbacks | the quadrature satisfies integration by parts up to degree 2N-1, hence the mixture of the transitions is the Kalman prediction |
| C69 | `systematic` | refuted: searchsorted (left) sends 0 to the first index |
| C70 | `brute_force_filter` | refuted with 'chapman-milstein' |
| C71 | `kolmogorov_fwd_opt` | differences of quadratics, Leibniz rule for polynomials |
| C72 | `characteristic_from_pdf`, `inverse_fourier` | the trapezoidal rule as a sum over cells; reversal of the sum for the symmetric case |
| C73 | `discretise_lti_sde` (`Sde*.v`) | block-triangular exponential from the intertwining law; epsilon-delta derivatives; for nilpotent drifts the pulled-back covariance has polynomial entries with nonnegative derivative (mean value theorem) |
| C74 | `simulate_sde` | scans as a path on the fine grid; uniqueness of the Cholesky factor; C73 along the path |
| C75 | `vmap_list_of_funcs` | the switch index never reaches its clamp |
| C76 | `moment_filter_rms`, `moment_filter_cms` under X -> (X - c)/s | the quadrature of the transformed moments is the transformed rule (`quadrature_discrete`), then a simulation of the two scans |
| C77 | `benes_bernoulli`: logistic, pmf, drift, initial condition, grids | sign and monotonicity arguments from the law exp x exp(-x) = 1; odd moments vanish by reflecting the Gaussian recursion |
| C78 | whole Euler filter run of the Benes-Bernoulli model | corollary of C76 with c = 0, s = -1 and negated measurements |
| C79 | `well_poisson`: emission, pmf, drift | algebra from log(exp x) = x |
| C80 | `obj_func` of the parameter-estimation script | corollary of C76 for the central filter |
| C81 | `prey_predator`: drift, Milstein simulation, observation, initial mixture | ring identities; induction over the path for the axes |
| C82 | `satellite_orbital_stability` | ring identities |
| C83 | positivity of the `prey_predator` paths | partial: false when the predators are too many for the step (`prey_predator_positive_refuted`), proved under a bound; the Milstein factor is 1/2 + (1 + sigma w)^2/2 + O(ddt) |
| C84 | `discretise_lti_sde`, `simulate_sde` over the real numbers | `real_expm` is the exponential series entry by entry (Cauchy products, term-by-term derivative); the pulled-back solution F(-t) D F(-t)^T has derivative zero, so solutions are unique; the quadratic form of F(-t) Q(t) F(-t)^T grows with the square of B^T F(-t)^T u, and its derivatives give Kalman's condition |
| C85 | gfs.ekf, eks, cd_ekf on nonlinear models (EkfLin, NlProps, RealJac) | proved: the differentiation oracle returns the Fréchet derivative wherever it exists; each ekf step satisfies the exact-filtering relation of the linearised model; eks recurrence; small-step expansion of the cd_ekf equations; cd_ekf and cd_eks as Runge-Kutta steps of the linearised equations (NlCdProps). Witness over the reals by epsilon, nonlinear example x + x^2. |
| C86 | gfs.sgp_filter, sgp_smoother, _cd_sgp_shared on nonlinear models (SgpNl, NlProps) | proved: the uncentred sums of the code equal centred covariances of the sigma-point law; the joint covariance is positive definite, so posteriors are; the gain is the Loewner-optimal one; small-step expansion; cd_sgp_smoother as Runge-Kutta steps (NlCdProps). |
| C87 | convergence_mf.py model, kernel and simulation (ConvModel, ConvProofs, ConvProps, RealConv) | proved: `chain_cov` specifies the covariance of a first-order chain and determines it; explicit Cholesky factor of the kernel and its uniqueness; discretisation by uniqueness of the moment equations over the reals. |
| C88 | kf of the convergence scripts, gfs.kf, gfs.rts (ConvGp, ConvProps) | proved: the posterior cost of the trajectories is the regression cost in innovation coordinates, marginals of a Gaussian are unique; block determinant and Schur complement for the likelihood. |
| C89 | proposal and weights of convergence_pf.py with smc.particle_filter (ConvFilter, ConvProps) | proved: completing the square in the exponent. |
| C90 | the KL error of the convergence scripts (ConvFilter, ConvProps) | proved from log u < u - 1 and the moments of the Gaussian. |
| C91 | moment callbacks of convergence_mf.py with moment_filter_rms/cms (ConvFilter, ConvProps) | proved: Stein's identity for the Gaussian functional and exactness of the quadrature; modes by a simulation of the two recursions. |
| C92 | name bindings of convergence_mf.py (ConvModel, ConvProps) | refuted (`convergence_mf_runs_refuted`): the wrappers shadow the imports they call. |
| C93 | compute_errs.py distances and grid (DardelModel, DardelErrs, DardelProps) | proved: trapezoid as a non-negative sum, Cauchy-Schwarz on it, and the error bound of C46 at each grid point. |
| C94 | pf.py statistics and proposal (DardelModel, DardelProps) | proved by sums. |
| C95 | brute_force.py grid and post_processing_brute_force.py means (DardelModel, DardelErrs, DardelProps) | proved: folds of max/min, trapezoid weights. |
| C96 | measurement callbacks and Gauss-Hermite filters of the scripts (DardelGauss, DardelTrack, DardelProps) | proved: strict monotonicity of the emission gives a positive cross covariance in dimension one (`sigma_tracks`). |
| C97 | ekf and sgp_filter on the Benes-Bernoulli model (DardelGauss, DardelTrack, DardelProps, RealDardel) | proved: the Jacobian of the logistic of x^3/5 vanishes at 0. |
| C98 | estimation part of ghf_ekf.py (DardelModel, DardelGauss, DardelProps, RealDardel) | refuted (`gh_file_refuted`): `gh_file_correct` is the full statement; the objectives are shown to differ on one of the counts 0, 1, 2 by comparing the predictive variances. |
| C99 | raw-mode means of prey_predator/mf.py (DardelModel, DardelProps) | proved with the index theorem C04. |
| C100 | characteristic functions of the scripts and characteristic_fn (CfMoments, RealDardel) | proved: derivatives of cos and sin from the standard library, chain of derivatives (`cf_moments`), Gauss quadrature exactness. |
| C101 | parameter_estimation/pf.py with --cr, continuous_resampling and bootstrap_filter under varying parameters (NearSpec, ResampleCont, BootCont, PfModel, PfCont, PfProps, RealPf) | proved: the sorted samples and the knots of the interpolation tend to their values (ties broken either way give the same knots when the weights agree), linear interpolation on knots with gaps is continuous, induction over time; exp and log are continuous because they are inverse monotone functions. |
| C102 | the same without the conditions (PfJump, ResampleTie, PfProps, RealPf) | refuted: draws on the boundary of a stratum, and a tie of particles with weights 1/2 and 1/4. |
| C103 | GaussianSum1D.sampler and GaussianSumND.sampler (PfModel, PfSampler, PfProps) | proved: expectation split over the component drawn, binomial expansion against the Gaussian recursion. |
| C104 | bootstrap filters of benes_bernoulli/pf.py and prey_predator/pf.py, proposals (PfModel, PfRun, PfProps) | proved by induction over the scan and the validity of stratified resampling. |
| C105 | benes_bernoulli/mf.py and post_processing_mf.py (BbMfModel, BbMfProofs, BbMfProps) | proved from the agreement of the raw, central and scaled filters (C28, C29) and the independence of the characteristic function of the representation (C55). |
| C106 | the scaled mode with --normal (BbMfShrink, BbMfRef, BbMfProps) | refuted: a constant factor of the moments does not change the quadrature, so the wrong scaling of C20 leaves the law contracted by the scale; symmetric quadrature and the strictly increasing tilt x (p(x) - 1/2) give strict inequality of the first means for every order. |
| C107 | moment_quadrature against every law with its moments (QuadStieltjes, LawSpec, LawProofs, LawProps) | proved: a polynomial of degree 2n-2 above an indicator that agrees with it at the nodes (Hermite interpolation, sign by counting the zeros of the derivative with Rolle), then exactness of the quadrature on both sides. |
| C108 | the same (LawProofs, LawProps) | proved: a node outside the interval would make the integral of a polynomial that is nonnegative on the law negative; positivity of the weights for the error bound; the square of the node polynomial for the even moment. |
| C109 | the 1-D moment filters with exact moments on a compact interval (LawSpec, FilterConv, FilterConvProps, witness RealInt, RealFilterConv) | proved: by C108 the quadrature law of order N converges on continuous functions; prediction and update are continuous in this topology, induction over the measurements; the central and scaled filters by their agreement with the raw filter (C12, C13). |
| C110 | systematic, stratified under uniform draws (ResampleLaw, ResampleContLaw, ResampleLawProps; witness RealUniform, RealResample) | proved: the draw i picks an index up to j exactly when u_i is at most n c_j - i, so the probabilities are differences of clamped distances whose sum over i is n w_j; the variance by expanding the square, independence and Jensen over the strata. |
| C111 | bootstrap_filter with discrete resampling (PfUnbiased, PfUnbiasedProps) | proved by induction over the measurements: one step maps the mean of the value function over the particles to the mean of the previous value function. |
| C112 | continuous_resampling (ResampleContLaw) | refuted by weights (1, 0). |
| C113 | run numbers of run_*.sh (ScriptsModel, ScriptsRuns) | proved: concatenation of blocks of consecutive numbers, by induction. |
| C114 | simulation loops of prey_predator/{mf,pf,ghf_ekf}.py (ScriptsModel, ScriptsRuns) | proved: the loop returns the least good index (`pp_simulateP`), which is unique. |
| C115 | time_profile/{mf,ghf,pf}.py (ScriptsModel, ScriptsRuns) | proved by induction over the runs with the number of spare data sets drawn as state. |
| C116 | time_profile | partial: `time_profile_same_data` when no run diverges, `time_profile_same_data_refuted` in general. |
| C117 | names of the result files (ScriptsModel, ScriptsNames) | proved: the decimal numbers are parsed from the right or the left, as the separators end or start with no digit. |
| C118 | names of the result files | refuted by omitted options. |
| C119 | blocks of run_benes_bernoulli_ghf_pf.sh, run_convergence_pf.sh (ScriptsModel, ScriptsNames) | proved with the parsing lemmas. |
| C120 | names read by reproduce_paper_plots (ScriptsModel) | partial: pf.npz is never written. |
| C121 | find_valid, rm_divergent, the selection of plot_prey_predator_errs.py (ScriptsModel, ScriptsSelect) | proved: masks are filters. |
| C122 | unpack, the means of plot_prey_predator_errs.py (ScriptsModel, ScriptsSelect) | partial: exact formula for the printed number; refuted by a NaN in the trajectory alone, and by two runs of which one filter fails in the second. |
| C123 | `gram_charlier` (GramCharlier, PdfProps) | refuted: the series is a polynomial of odd degree, hence onto. |
| C124 | normal moments, `gram_charlier`, KL error, `moment_quadrature` as integrals (RealGauss, RealNormal, RealNormalProps) | proved over the reals: Gaussian integral by the two-parameter method (derivative of the square of the error integral), moments by integration by parts, affine substitution. |
| C125 | `kf` of convergence_mf.py (RealBayes, RealNormalProps) | proved: completing the square in the product of two normal densities, induction over the measurements. |
| C126 | `ghf_filtering_cfs` (RealExpLim, RealChar, RealNormalProps) | proved: Taylor remainders of cos and sin integrated against the moments, squeeze with the exponential series. |
| C127 | `moment_quadrature_nd`, `moment_filter_nd_rms` (QuadNdSign, QuadNdSignProps) | refuted: with identity Gram matrix the rule is e0' p(K1) q(K2) e0, computed for squares p, q; marginals are quadratic forms, products bounded by the operator norm. |
| C128 | the splits and draws of `GaussianSum1D/ND.sampler`, `simulate_sde`, the resampling functions, `bootstrap_filter`, `particle_filter` and the scripts of dardel/ (KeysModel, KeysSpec, KeysProofs, KeysLink, KeysProps) | symbolic keys; the filters of PfModel and ConvModel are proved to read random numbers at the keys of the traces only; different for T other than two and between runs; refuted for T = 2. That different paths give different, independent bits is trusted. |
| C129 | the same | refuted for the samplers, both filters and the scripts; holds of `simulate_sde`, the resampling functions and `convergence_mf.py`. |
| C130 | the data-making parts of the scripts of dardel/ | equality and prefixes of traces; disjointness by the paths of splits. |
| C131 | `inverse_fourier` (RealTrapz, RealInvFourier, RealInvFourierProps) | proved: the integral is the characteristic function of the dual normal law (C126); error of the trapezoidal rule for Lipschitz integrands cell by cell, Gaussian tails from the error function. |
| C132 | plot_quadrature_rules.py (PlotQuadModel, RealGamma, RealDensitySpec, RealDensity, RealPlotQuad, PlotQuadProps) | proved: antiderivatives of x^n exp(-x) and x^n, the Gaussian moments of C126; a density that is positive and continuous on an interval gives a law on which no polynomial vanishes, so C107 and C108 apply. |
| C133 | plot_quadrature_rules_2d.py (AdmissibleProd, PlotQuad2dModel, PlotQuad2d, PlotQuad2dProps) | proved: a product law is admissible because the first factor can be replaced by its N-node rule, which has positive weights and distinct nodes, and induction applies to the rest; normals by `gauss_nd_admissible`; then C13, C14. |
| C134 | plot_quadrature_rules_2d.py, masks and scaling | proved by induction on the arrays. |
| C135 | plot_benes_bernoulli_estimation.py, the drawn steps (PlotBbModel, PlotBb, PlotBbProps) | proved: index arithmetic over range(0, T, step), clamped reads, linspace. |
| C136 | plot_benes_bernoulli_estimation.py, np.histogram and bar | partial: counts by telescoping the indicators of the edges, area by the counts; refuted: the bars are shifted by half a bin. |
| C137 | plot_convergence.py, means and standard deviations (PlotConvModel, PlotConv, PlotConvProps) | proved: the mean of row means is the mean of all entries, sums exchanged. |
| C138 | plot_convergence.py, slices and bands | partial: slice arithmetic and the sign of mean - 2 std; refuted by T = 100 and by one run with error one among runs without errors. |
| C139 | prey_predator/cramer_rao.py (CrModel, CrProofs, CrProps) | proved: index arithmetic of the transposed arrays; C54 with the initial information of a normal law. |
| C140 | GaussianSum1D.pdf, GaussianSumND.pdf, logpdf (GsPdfModel, GsPdf, GsPdfProps, GsPdfOne, RealGsPdf) | proved: the Cholesky factor gives the quadratic form and the root of the determinant; the shift of logsumexp cancels; the integrals are those of C132. |
| C141 | reproduce_paper_plots/plot_prey_predator_estimation.py (PlotPpModel, PlotPpProps) | proved: C06 for the entries, the covariance as second moment minus product of the means, Chebyshev's inequality. |
| C142 | the same | refuted by three atoms; the bound of C141 holds. |
| C143 | examples/benes_bernoulli.ipynb, state_cond_raw_moments_euler_maruyama (NbModel, NbProps) | refuted: line 157 has dispersion(x) ** 2 without the factor dt of moments.py line 230; exact formula proved. |
| C144 | examples/2d_bearing_only.ipynb (NbModel, NbProps) | proved: discretisation of the integrated Wiener process (C73), moments by C36. |

## 3. Trusted base

* The Coq kernel (and `coqc` 8.16.1), MathComp as installed.
* `Real*.v` only: the real numbers of the standard library as a `rcfType`, hence its axioms
  `ClassicalDedekindReals.sig_forall_dec`, `ClassicalDedekindReals.sig_not_dec`,
  `FunctionalExtensionality.functional_extensionality_dep`, `Epsilon.epsilon_statement` and, through the
  mean value theorem and the series lemmas, `Classical_Prop.classic`. Coquelicot is used for lemmas on
  power series and for the Riemann integral (`RealInt.v`, `RealUniform.v`, `RealGauss.v`); it adds no axiom. The theorems of all other files do not depend on these files.
* Axioms elsewhere: see the table generated by `Print Assumptions`; expected empty
  ("Closed under the global context") unless a file says otherwise.
* `Print Assumptions` answers "Closed under the global context" for every theorem outside `Real*.v`.
  The checker lists constants of sealed MathComp modules (for example the opaque
  `bigop`, `matrix_key` style locks) as library axioms; they are module parameters that
  MathComp instantiates, not assumptions of the theorems.
* The reading of the Python code: each definition cites its lines.
* The specifications of the library calls listed above.

## 4. Coverage of the code

Modelled (file: functions):

* `mfs/multi_dims/multi_indices.py`: all functions (`MultiIndexModel.v`, `NdIndexModel.v`).
* `mfs/one_dim/quadratures.py` and `mfs/multi_dims/quadratures.py`: `QuadModel.v`,
  `QuadNdModel.v`, `NdIndexModel.v` (grids).
* `mfs/one_dim/moments.py`: `Moments1DModel.v`; `mfs/one_dim/pdf_approximations.py`:
  `PdfModel.v`; the characteristic functions and the inverse Fourier transform: `FourierModel.v`.
* `mfs/multi_dims/moments.py`: `MomentsNdModel.v`, `MgfModel.v`.
* `mfs/one_dim/filtering.py`, `mfs/multi_dims/filtering.py`: `Filter1DModel.v`,
  `FilterNdModel.v`.
* `mfs/utils.py`: Gaussian sums (their densities in `GsPdfModel.v`), Bell and Hermite polynomials, `ldl`, `ldl_chol`
  (`LdlModel.v`, `Moments1DModel.v`, `MomentsNdModel.v`), `lanczos` and `lanczos_ritz`
  (`LanczosModel.v`), `posterior_cramer_rao` (`PcrlbModel.v`), `discretise_lti_sde`,
  `simulate_sde` and `vmap_list_of_funcs` (`SdeModel.v`).
* `mfs/one_dim/ss_models.py`, `mfs/multi_dims/ss_models.py` and the objective function of
  `dardel/parameter_estimation/mf.py` (`SsModel.v`); the trajectory samplers of the
  one-dimensional models are `simulate_sde` (`SdeModel.v`) with the `tme` mean and covariance.
* `dardel/convergence/convergence_mf.py` and `convergence_pf.py`: model, simulation, Kalman filter,
  callbacks, proposal, error formulas and the name bindings (`ConvModel.v`); not the I/O.
* `dardel/benes_bernoulli` (`pf.py`, `ghf.py`, `brute_force.py`,
  `post_processing_brute_force.py`, `compute_errs.py`), `dardel/parameter_estimation/ghf_ekf.py` and
  `dardel/prey_predator` (`mf.py`, `ghf_ekf.py`): callbacks, statistics, grids, error formulas and the
  estimation runs (`DardelModel.v`); not the I/O and the Monte Carlo loops.
* `dardel/parameter_estimation/pf.py`, the bootstrap filters of `dardel/benes_bernoulli/pf.py` and
  `dardel/prey_predator/pf.py`, and the samplers of `GaussianSum1D` and `GaussianSumND`
  (`PfModel.v`); not the I/O and the Monte Carlo loops.
* `dardel/benes_bernoulli/mf.py` and `post_processing_mf.py`: callbacks, modes, errors and the post-processed
  means and characteristic functions of one run (`BbMfModel.v`).
* The loops around the experiments: run numbers of `dardel/run_*.sh`, the retry loops of
  `dardel/prey_predator` and `dardel/time_profile`, the names of all result files, packing and deletion,
  and the selection of results in `reproduce_paper_plots/plot_parameter_estimation.py`,
  `plot_benes_bernoulli_errs_and_times.py`, `plot_prey_predator_errs.py` (`ScriptsModel.v`). The content
  of the files and the measured times are not modelled; NaN is `None`, infinities are left out.
* `reproduce_paper_plots/plot_quadrature_rules_2d.py`: the moments, the rules, the scaling of the weights and the masks (`PlotQuad2dModel.v`); sympy's polygon moments are an argument; not the drawing.
* `reproduce_paper_plots/plot_benes_bernoulli_estimation.py`: the drawn steps, their times and the histogram bars (`PlotBbModel.v`); not the drawing. By reading only: the axis labels of its right panel are swapped, the real part is on the axis labelled Im.
* `reproduce_paper_plots/plot_prey_predator_estimation.py`: means, covariances and bands (`PlotPpModel.v`); not the drawing.
* `examples/`: the transitions of `benes_bernoulli.ipynb` (Euler--Maruyama) and `2d_bearing_only.ipynb` (`NbModel.v`); the callbacks on `tme` are those of `Moments1DModel.v`; not the plots. `convergence_demonstration.ipynb` has no code.
* `reproduce_paper_plots/plot_convergence.py`: means, standard deviations, slices and bands (`PlotConvModel.v`); not the drawing.
* `dardel/prey_predator/cramer_rao.py` (marked "Not used"): arrangement of the runs, initial information, bounds and log likelihood (`CrModel.v`); the log transition density is an argument.
* `reproduce_paper_plots/plot_quadrature_rules.py`: the moments and the rules (`PlotQuadModel.v`); not the drawing.
* `mfs/classical_filters_smoothers/`: `gfs.py` (`GfsModel.v`), `quadratures.py`
  (`SigmaModel.v`), `resampling.py` and `smc.py` (`ResampleModel.v`), `brute_force.py`
  (`BruteModel.v`).

Library calls that are arguments of the models, with the specification used:

| Call | Specification | Witness |
|------|---------------|---------|
| `jnp.linalg.cholesky` | lower triangular, positive diagonal, L L^T = A | `chol_ref` |
| `jnp.linalg.eigh` | orthogonal V, A = V diag V^T | `eigh_ref` |
| `np.roots` | the roots of the polynomial | `rootsR` |
| `jnp.searchsorted` | number of entries below (left) or not above (right) | `ss_left_ref`, `ss_right_ref` |
| `jax.grad`, `jax.jacfwd` | derivative of the polynomial or affine function | difference quotients, `jac_ref` |
| `jax.hessian`, `jacfwd(jacrev(...))` | exact on quadratics | second differences, `refs_spec` |
| `jax.random.*` | a list of the requested length with entries in the stated interval | constant draws |
| `jnp.log`, `norm.pdf`, `jnp.sqrt`, `tme.*` | none, or the property stated in the theorem | - |
| complex `jnp.exp` | `unit_exp`, `exp_morph`, `taylor_exp` in `FourierProofs.v` | Cayley transform, constant, Taylor polynomial; over the reals `real_cexp` (all at once) |
| `jax.scipy.linalg.expm` | `expm_group`, `expm_deriv` in `SdeSpec.v` on a class of matrices | `expm_nil` on nilpotent matrices; over the reals `real_expm` on all matrices |
| real `jnp.exp`, `jnp.log`, `jnp.sin` in `SsModel.v` | `exp_spec`, `log_spec` in `SsProofs.v`; odd | `exp_ref`, `log_ref`; identity; over the reals `exp`, `ln`, `sin` |
| Python `int` | partial function on strings | - |

## 5. What is not modelled

Floating-point rounding, JIT/vmap/tracing behaviour, random-number quality, dtype
promotion, drawing of the plots, the `tme` package
(Taylor moment expansion), the hash behind jax.random (keys are symbolic, C128-C130), `dask`/I-O,
performance.
