{
 "claims": [
  {
   "property": "C01",
   "status": "proved",
   "theorems": [
    "C01_api_program_value",
    "C01_value_independent_of_set_order",
    "C01_operations"
   ],
   "note": "All API programs over an arbitrary number domain and set order. Exact arithmetic."
  },
  {
   "property": "C02",
   "status": "proved",
   "theorems": [
    "C02_term_construction",
    "C02_poly_construction"
   ],
   "note": "Term and Poly construction."
  },
  {
   "property": "C03",
   "status": "proved",
   "theorems": [
    "C03_substitute",
    "C03_substitute_variables",
    "C03_translate_var"
   ],
   "note": "substitute and translate_var; variables of the result."
  },
  {
   "property": "C04",
   "status": "proved",
   "theorems": [
    "C04_collect_reconstructs",
    "C04_highest_power"
   ],
   "note": "Reconstruction from collect/reject, parts free of the variable, highest_power maximal."
  },
  {
   "property": "C05",
   "status": "proved",
   "theorems": [
    "C05_equality_sound",
    "C05_exppoly_equality_sound",
    "C05_equality_reflexive_symmetric",
    "C05_order_of_terms_irrelevant"
   ],
   "note": "Soundness, reflexivity, symmetry, irrelevance of term order for exact numbers."
  },
  {
   "property": "C06",
   "status": "partial",
   "theorems": [
    "C06_without_vanishing_coefficients_partial",
    "C06_equal_functions_compare_equal_refuted"
   ],
   "note": "REFUTED as stated: (x+5)-x != const(5) for every set order. C06_without_vanishing_coefficients_partial proves the claim for all built polynomials without a vanishing coefficient, for exact numbers."
  },
  {
   "property": "C07",
   "status": "partial",
   "theorems": [
    "C07_illegal_operations_raise",
    "C07_zeroth_power_is_polynomial_refuted",
    "C07_empty_polynomial_is_usable_refuted"
   ],
   "note": "The raising half is proved. The closure half is REFUTED: p**0 is the int 1; the empty polynomial cannot be used by highest_power/substitute."
  },
  {
   "property": "C08",
   "status": "proved",
   "theorems": [
    "C08_exppoly_algebra",
    "C08_exppoly_substitute"
   ],
   "note": "Product, scaling, negation, substitution."
  },
  {
   "property": "C09",
   "status": "proved",
   "theorems": [
    "C09_integrate",
    "C09_integrate_iterated"
   ],
   "note": "One variable for every assignment, and the iterated integral for any number of variables; side condition is the 1e-30 floor of safe_sqrt."
  },
  {
   "property": "C10",
   "status": "proved",
   "theorems": [
    "C10_integrate_half"
   ],
   "note": "For every assignment; side conditions are the two 1e-30 floors."
  },
  {
   "property": "C11",
   "status": "proved",
   "theorems": [
    "C11_integrate_half_two"
   ],
   "note": "Negative definite forms; the bivariate normal cdf is defined as an integral, so B.bvn_cdf is trusted to compute that function."
  },
  {
   "property": "C12",
   "status": "proved",
   "theorems": [
    "C12_box_infinite",
    "C12_box_one",
    "C12_box_two"
   ],
   "note": "Any mixture of doubly infinite entries with one or two entries whose upper limit is finite and lower limit finite or -inf; polynomial limits. More than two such entries raise (integrate_half)."
  },
  {
   "property": "C13",
   "status": "partial",
   "theorems": [
    "C13_upper_infinite_partial",
    "C13_upper_infinite_refuted"
   ],
   "note": "REFUTED: integrate_box((x,l,inf)) returns minus the integral below l (C13_upper_infinite_partial for all integrands; a concrete negative result in C13_upper_infinite_refuted)."
  },
  {
   "property": "C14",
   "status": "partial",
   "theorems": [
    "C14_guards",
    "C14_otherwise_returns",
    "C14_otherwise_returns_two",
    "C14_divergent_integral_is_reported_refuted"
   ],
   "note": "Guards and totality proved. The divergence half is REFUTED: exp(x^2) is integrated to a finite number."
  },
  {
   "property": "C15",
   "status": "proved",
   "theorems": [
    "C15_conversions"
   ],
   "note": "Positive reals."
  },
  {
   "property": "C16",
   "status": "proved",
   "theorems": [
    "C16_unit_power",
    "C16_unit_power_default",
    "C16_rgpcm_unit_power"
   ],
   "note": "GPCM and CGPCM for every argument list that leaves alpha_t to the constructor; decay between 1e-12 and 1e12 (numerical floors). RGPCM: see C16_rgpcm theorems."
  },
  {
   "property": "C17",
   "status": "proved",
   "theorems": [
    "C17_filter_grid",
    "C17_rgpcm_filter_grid"
   ],
   "note": "GPCM and CGPCM, requested count at least 2. RGPCM: see the C17_rgpcm theorems."
  },
  {
   "property": "C18",
   "status": "proved",
   "theorems": [
    "C18_excitation_grid",
    "C18_extended_grid"
   ],
   "note": "Non-extended grid, and extended grid compared with the non-extended one of the same arguments."
  },
  {
   "property": "C19",
   "status": "partial",
   "theorems": [
    "C19_caps_partial",
    "C19_caps_refuted",
    "C19_rgpcm_caps"
   ],
   "note": "REFUTED: n_u exceeds n_u_cap by 1 (GPCM) or 2 (CGPCM); the extended n_z exceeds n_z_cap. Proved: n_u <= cap+1/+2, n_z <= cap without extension."
  },
  {
   "property": "C20",
   "status": "partial",
   "theorems": [
    "C20_gamma_sign_partial",
    "C20_positive_gamma_refuted"
   ],
   "note": "REFUTED: gamma < 0 for window 1, scale 2. Proved: gamma > 0 iff scale < sqrt(2) window."
  },
  {
   "property": "C21",
   "status": "proved",
   "theorems": [
    "C21_K_u"
   ],
   "note": "Value, shape, symmetry, positive semi-definiteness for gamma >= 0; always returns with tensor parameters."
  },
  {
   "property": "C22",
   "status": "proved",
   "theorems": [
    "C22_K_z"
   ],
   "note": "omega between 1e-12 and 1e12."
  },
  {
   "property": "C23",
   "status": "proved",
   "theorems": [
    "C23_i_hx"
   ],
   "note": "alpha between 1e-12 and 1e12. Symmetry and stationarity in one statement, across set orders."
  },
  {
   "property": "C24",
   "status": "proved",
   "theorems": [
    "C24_I_ux",
    "C24_I_ux_transpose",
    "C24_I_ux_stationary"
   ],
   "note": "Value of every element, transposition, default equals I_ux(t,t)."
  },
  {
   "property": "C25",
   "status": "proved",
   "theorems": [
    "C25_I_hz"
   ],
   "note": "Double integral and symmetry (exchange of the order of integration is proved)."
  },
  {
   "property": "C26",
   "status": "proved",
   "theorems": [
    "C26_I_uz"
   ],
   "note": "Proved for every GPCM and CGPCM with moderate decays, at all times and inducing points."
  },
  {
   "property": "C27",
   "status": "partial",
   "theorems": [
    "C27_kernels_agree_partial",
    "C27_kernels_agree_refuted"
   ],
   "note": "REFUTED: the kernel object lacks the factor alpha_t^2. Proved: they agree up to that factor."
  },
  {
   "property": "C28",
   "status": "proved",
   "theorems": [
    "C28_integral_abcd",
    "C28_integral_abcd_lu"
   ],
   "note": "The closed form equals the iterated integral for all arguments in the order in which the code uses it."
  },
  {
   "property": "C29",
   "status": "proved",
   "theorems": [
    "C29_I_ux"
   ],
   "note": "hypotheses gamma <> alpha (see C38) and (gamma-alpha)^2 <> lam^2 (see C75)"
  },
  {
   "property": "C30",
   "status": "proved",
   "theorems": [
    "C30_I_hz"
   ],
   "note": "for every sorting routine that argsort may be, all times in [a, b]; see C31 for later times"
  },
  {
   "property": "C31",
   "status": "partial",
   "theorems": [
    "C31_beyond_support_refuted"
   ],
   "note": "REFUTED: at every time after b the computed (0,0) entry is strictly larger than the integral; C30 is the true part (times within the support)"
  },
  {
   "property": "C32",
   "status": "proved",
   "theorems": [
    "C32_I_uz"
   ],
   "note": "times with t and t - t_u in [a, b]; see C72 and C74"
  },
  {
   "property": "C33",
   "status": "proved",
   "theorems": [
    "C33_order"
   ],
   "note": "For every permutation of the frequency indices the integrals are permuted alike."
  },
  {
   "property": "C34",
   "status": "proved",
   "theorems": [
    "C34_invert_perm"
   ],
   "note": "Proved for every permutation of every length."
  },
  {
   "property": "C35",
   "status": "proved",
   "theorems": [
    "C35_K_z"
   ],
   "note": "Symmetric and strictly positive definite for all frequency indices."
  },
  {
   "property": "C36",
   "status": "proved",
   "theorems": [
    "C36_K_u"
   ],
   "note": "Stationary, symmetric, positive semi-definite, and strictly positive definite at distinct points."
  },
  {
   "property": "C37",
   "status": "partial",
   "theorems": [
    "C37_unit_diagonal_partial",
    "C37_unit_diagonal_refuted"
   ],
   "note": "REFUTED: gamma_t = sqrt(2 gamma) is computed before gamma is capped at alpha/1.5, so every default model with n_u >= 6 has diagonal 3(n_u-1)/(4 pi) > 1; proved to be one whenever the cap is not active"
  },
  {
   "property": "C38",
   "status": "proved",
   "theorems": [
    "C38_gamma_below_alpha",
    "C38_initial_factor"
   ],
   "note": "Holds at construction and for all values that the optimiser can assign."
  },
  {
   "property": "C39",
   "status": "proved",
   "theorems": [
    "C39_moments",
    "C39_round_trip"
   ],
   "note": "chol is any routine with the Cholesky specification; normal distributions of every size; C39_moments: the moments are those of the density exp(logpdf), as n-fold improper integrals"
  },
  {
   "property": "C40",
   "status": "proved",
   "theorems": [
    "C40_integral",
    "C40_kl"
   ],
   "note": "For all dimensions; zero exactly for equal distributions; C40_integral: the integral of p (log p - log q)."
  },
  {
   "property": "C41",
   "status": "proved",
   "theorems": [
    "C41_density",
    "C41_logpdf"
   ],
   "note": "For all dimensions, with the normalising constant; C41_density: the density integrates to one."
  },
  {
   "property": "C42",
   "status": "proved",
   "theorems": [
    "C42_sample_moments"
   ],
   "note": "Mean and covariance of the affine image of white noise, for all dimensions."
  },
  {
   "property": "C43",
   "status": "proved",
   "theorems": [
    "C43_summed_terms",
    "C43_integral"
   ],
   "note": "for every Cholesky routine and every integrals record; the ELBO is the per-point expected log-likelihood minus the KL terms, and C43_integral: both as integrals against the posterior densities"
  },
  {
   "property": "C44",
   "status": "proved",
   "theorems": [
    "C44_conditionals",
    "C44_normaliser"
   ],
   "note": "proved for well-posed models; the normaliser of q(u|z) is exhibited; C44_normaliser: log_Z_u is the logarithm of the integral over z"
  },
  {
   "property": "C45",
   "status": "partial",
   "theorems": [
    "C45_ascent",
    "C45_conditioned_refuted"
   ],
   "note": "proved before conditioning (C45_ascent); REFUTED on conditioned models (C45_conditioned_refuted): the ELBO then uses the previous posterior as prior, but the fixed-point updates still use the original prior"
  },
  {
   "property": "C46",
   "status": "partial",
   "theorems": [
    "C46_collapsed",
    "C46_conditioned_refuted"
   ],
   "note": "proved before conditioning (C46_collapsed); REFUTED on conditioned models (C46_conditioned_refuted), same cause as C45"
  },
  {
   "property": "C47",
   "status": "proved",
   "theorems": [
    "C47_kernel_approx"
   ],
   "note": "also for sample_kernel, whose samples are of the whitened variables"
  },
  {
   "property": "C48",
   "status": "proved",
   "theorems": [
    "C48_thousand_samples"
   ],
   "note": "The chain is specified independently (FitSpec.gibbs_chain); draws and the hyperparameter optimiser are arbitrary functions."
  },
  {
   "property": "C49",
   "status": "partial",
   "theorems": [
    "C49_refuted",
    "C49_partial"
   ],
   "note": "REFUTED: iters = 1 (or less) raises IndexError because half of the iterations is zero (C49_refuted); every iters >= 2 completes (C49_partial)."
  },
  {
   "property": "C50",
   "status": "partial",
   "theorems": [
    "C50_refuted",
    "C50_partial",
    "C50_names"
   ],
   "note": "REFUTED: mean-field-gradient raises TypeError (ignore_qs called without its second argument) and mean-field-ca-gradient raises ValueError; all other names complete (C50_partial); C50_names lists the accepted names."
  },
  {
   "property": "C51",
   "status": "partial",
   "theorems": [
    "C51_refuted",
    "C51_partial"
   ],
   "note": "REFUTED: current=False raises ValueError; all other documented values are exact (C51_partial). Exclusions are modelled as posterior indices; how varz resolves patterns is not modelled."
  },
  {
   "property": "C52",
   "status": "proved",
   "theorems": [
    "C52_condition"
   ],
   "note": "over every history of assignments and conditionings"
  },
  {
   "property": "C53",
   "status": "proved",
   "theorems": [
    "C53_fixed_point"
   ],
   "note": "For all numbers of iterations and all tolerances."
  },
  {
   "property": "C54",
   "status": "partial",
   "theorems": [
    "C54_partial",
    "C54_unconditioned_partial",
    "C54_refuted"
   ],
   "note": "REFUTED: predict on an unconditioned structured model raises AttributeError (C54_refuted); after fit and conditioning exactly the first min(num,1000) samples are used (C54_partial); kernel samples of an unconditioned model use fresh prior samples."
  },
  {
   "property": "C55",
   "status": "partial",
   "theorems": [
    "C55_refuted",
    "C55_partial"
   ],
   "note": "REFUTED: every mean-field scheme raises TypeError; the structured scheme works and uses the stored samples (C55_partial)."
  },
  {
   "property": "C56",
   "status": "proved",
   "theorems": [
    "C56_variance"
   ],
   "note": "also derives the per-sample hypothesis for well-posed models with non-negative residual variance, for both schemes"
  },
  {
   "property": "C57",
   "status": "proved",
   "theorems": [
    "C57_coherent_and_on_slice"
   ],
   "note": "Every generator with uniform draws inside their limits and non-negative exponential draws, every prior and likelihood, every history of move and sample; the retry loop takes fuel and theorems hold for every fuel."
  },
  {
   "property": "C58",
   "status": "proved",
   "theorems": [
    "C58_bracket"
   ],
   "note": "Over every pass of every history of move and sample."
  },
  {
   "property": "C59",
   "status": "proved",
   "theorems": [
    "C59_bounded_attempts"
   ],
   "note": "Also shows that the result does not depend on the fuel given to the unbounded retry loop."
  },
  {
   "property": "C60",
   "status": "partial",
   "theorems": [
    "C60_attempts_refuted",
    "C60_attempts_partial"
   ],
   "note": "REFUTED: the reported number is never the number of proposals; it is exactly one more than the proposals of the successful pass."
  },
  {
   "property": "C61",
   "status": "proved",
   "theorems": [
    "C61_autocorr",
    "C61_empty"
   ],
   "note": "Both halves: C61_autocorr for every non-empty series, C61_empty for the empty one (numpy's error)."
  },
  {
   "property": "C62",
   "status": "partial",
   "theorems": [
    "C62_refuted",
    "C62_partial"
   ],
   "note": "REFUTED: the unwindowed estimate divides by n - i and leaves [-1,1] (C62_refuted). C62_partial proves the tight bound n/(n-i)."
  },
  {
   "property": "C63",
   "status": "partial",
   "theorems": [
    "C63_refuted",
    "C63_partial"
   ],
   "note": "REFUTED: the returned density can be negative everywhere (C63_refuted). C63_partial gives the exact two-sided power as a function of the trapezoid that the code subtracts wrongly."
  },
  {
   "property": "C64",
   "status": "proved",
   "theorems": [
    "C64_psd_grid",
    "C64_refuses"
   ],
   "note": "C64_psd_grid and C64_refuses; the FFT is modelled by its defining sum."
  },
  {
   "property": "C65",
   "status": "proved",
   "theorems": [
    "C65_nested_bands"
   ],
   "note": "All sample sets, both modes; np.percentile with linear interpolation is modelled in full."
  },
  {
   "property": "C66",
   "status": "partial",
   "theorems": [
    "C66_refuted",
    "C66_partial"
   ],
   "note": "REFUTED: the band is between the 32nd and 68th percentiles, so it holds 36% (C66_refuted). C66_partial states which central band each pair is."
  },
  {
   "property": "C67",
   "status": "proved",
   "theorems": [
    "C67_closest_psd"
   ],
   "note": "Any matrices satisfying the SVD specification at the argument; covers PSD input (fixed, and pseudo-inverse with inv=True) and PD input (inverse)."
  },
  {
   "property": "C68",
   "status": "partial",
   "theorems": [
    "C68_nearest_partial",
    "C68_nearest_refuted"
   ],
   "note": "REFUTED as stated: for a repeated singular value a valid SVD may return misaligned vectors and the output need not even be symmetric. Proved when the singular values are distinct, or when every pair of singular vectors is aligned up to sign."
  },
  {
   "property": "C69",
   "status": "proved",
   "theorems": [
    "C69_save_load"
   ],
   "note": "All stores with unique names; pickling itself is the identity on dictionaries."
  },
  {
   "property": "C70",
   "status": "proved",
   "theorems": [
    "C70_hessian"
   ],
   "note": "Symmetrisation and shape checks; the automatic differentiation itself is an arbitrary function."
  },
  {
   "property": "C71",
   "status": "proved",
   "theorems": [
    "C71_build_models"
   ],
   "note": "For all argument lists of the model builder."
  },
  {
   "property": "C72",
   "status": "proved",
   "theorems": [
    "C72_sizes_and_supports",
    "C72_default_model_in_range"
   ],
   "note": "Sizes for all constructor arguments; supports cover data and inducing points."
  },
  {
   "property": "C73",
   "status": "partial",
   "theorems": [
    "C73_legal_arithmetic_never_fails_refuted",
    "C73_tensor_programs_never_fail",
    "C73_linear_operations_never_fail"
   ],
   "note": "REFUTED as stated: (x^2+x+1)*(x^2-x+1) raises under one set order and succeeds under another. Proved: never fails with tensor constants; sums, differences, negation, scaling, collect and reject never fail."
  },
  {
   "property": "C74",
   "status": "partial",
   "theorems": [
    "C74_learned_t_u_refuted",
    "C74_learned_t_u_partial"
   ],
   "note": "REFUTED: t_u may grow to 1.5 max(t_u) while the support start a is fixed; exact as long as no point passes the initial maximum"
  },
  {
   "property": "C75",
   "status": "partial",
   "theorems": [
    "C75_I_ux_defined_refuted",
    "C75_I_ux_defined_partial"
   ],
   "note": "REFUTED: at scale = window/(1-1/pi) the default model divides by zero; defined and exact whenever (gamma-alpha)^2 <> lam^2"
  },
  {
   "property": "C76",
   "status": "proved",
   "theorems": [
    "C76_K_z_is_the_gram_matrix"
   ],
   "note": "In the reproducing-kernel inner product, for all frequency indices."
  },
  {
   "property": "C77",
   "status": "proved",
   "theorems": [
    "C77_conditional_moments"
   ],
   "note": "the double integral is an abstract bilinear functional"
  },
  {
   "property": "C78",
   "status": "partial",
   "theorems": [
    "C78_effective_sample_size_refuted",
    "C78_partial"
   ],
   "note": "REFUTED: the sum includes lag zero, so the value is n/(3+2s) with s the sum over positive lags. C78_partial gives the exact reported value for every chain and shows that it is at most n/3 when s >= 0."
  },
  {
   "property": "C79",
   "status": "partial",
   "theorems": [
    "C79_decibel_variance_refuted",
    "C79_partial"
   ],
   "note": "REFUTED: the standard deviation of the linear samples is converted to decibels and squared. C79_partial proves the claim in linear mode, and that the decibel mean is that of the mean power and bounds the mean of the samples in decibels."
  },
  {
   "property": "C80",
   "status": "partial",
   "theorems": [
    "C80_refuted",
    "C80_partial"
   ],
   "note": "REFUTED: the mean-field fit takes no optimise_hypers argument (C80_refuted); the structured scheme keeps the hyperparameters (C80_partial)."
  },
  {
   "property": "C81",
   "status": "partial",
   "theorems": [
    "C81_refuted",
    "C81_partial"
   ],
   "note": "REFUTED: variables loaded before the model is instantiated are created hidden and stay so (C81_refuted); loading into an instantiated model keeps visibility (C81_partial)."
  },
  {
   "property": "C82",
   "status": "proved",
   "theorems": [
    "C82_earlier_posteriors_kept"
   ],
   "note": "Assumes only that the optimisers change no excluded and no hidden variable."
  },
  {
   "property": "C83",
   "status": "partial",
   "theorems": [
    "C83_refuted",
    "C83_partial"
   ],
   "note": "REFUTED: fit with the structured scheme stores samples but predict_filter draws from the parameters, which fit never sets (C83_refuted); right for coordinate ascent (C83_partial)."
  },
  {
   "property": "C84",
   "status": "proved",
   "theorems": [
    "C84_K_u",
    "C84_K_z",
    "C84_constructed"
   ],
   "note": "Equivalence with distinctness of the inducing points, for K_u and K_z, and its consequence for automatic inducing points. The RGPCM is in C35 and C36."
  },
  {
   "property": "C85",
   "status": "partial",
   "theorems": [
    "C85_gpcm_partial",
    "C85_gpcm_automatic",
    "C85_given_points_refuted",
    "C85_long_scale_refuted",
    "C85_rgpcm_partial",
    "C85_rgpcm_automatic"
   ],
   "note": "REFUTED for given filter inducing points that are all non-negative and for length scales of 1.41 windows or more (NaN latent variables). C85_gpcm_partial and C85_rgpcm_partial state the exact condition; it holds for automatic inducing points."
  },
  {
   "property": "C86",
   "status": "proved",
   "theorems": [
    "C86_default",
    "C86_well_posed",
    "C86_prediction"
   ],
   "note": "End to end for the GPCM and the CGPCM: the default constructor gives a good model, the matrices and integrals it computes are well posed for all data, and both approximations then give proper posteriors, a monotone ELBO and predictive variances of at least the noise."
  },
  {
   "property": "C87",
   "status": "proved",
   "theorems": [
    "C87_kernel_psd",
    "C87_sample",
    "C87_marginal"
   ],
   "note": "kernel_approx is positive semi-definite for every u at every finite family of times, with positive variances; sample has the right conditional and marginal second moments. LAB's B.sample is a factor of the covariance times white noise (the factor and the SVD are arguments with specifications; both are shown to exist, the SVD by a proof of the spectral theorem)."
  },
  {
   "property": "C88",
   "status": "proved",
   "theorems": [
    "C88_min_phase",
    "C88_nan",
    "C88_transform"
   ],
   "note": "Exact characterisation: min_phase returns the unique filter with the given gains and minimum phase on the Fourier grid (C88_min_phase), returns nans exactly when the transform has a zero (C88_nan), and keeps length and energy, is idempotent and blind to phase (C88_transform). Minimum phase is meant on the grid of frequencies of the transform: zeros of the polynomial between grid points are not constrained by the code."
  },
  {
   "property": "C89",
   "status": "partial",
   "theorems": [
    "C89_refuted",
    "C89_partial"
   ],
   "note": "REFUTED: the filters (1,2,0) and (2,0,1) are given the same minimum-phase version although their autocorrelations differ (C89_refuted); the transform is circular and the code does not pad. What holds: the circular autocorrelation is kept at every lag (C89_partial)."
  },
  {
   "property": "C90",
   "status": "proved",
   "theorems": [
    "C90_mean_field",
    "C90_bounds",
    "C90_gibbs",
    "C90_likelihood"
   ],
   "note": "integrals are iterated improper Riemann integrals over all coordinates, their existence is part of the theorems; for every Cholesky routine and every well-posed model; the samples are averaged with the exact density of q_u (draws), for every number of samples >= 1; C90_likelihood is for every random function with the first two moments of the model, by Jensen's inequality"
  },
  {
   "property": "C91",
   "status": "partial",
   "theorems": [
    "C91_conditioned_refuted",
    "C91_original_prior_partial"
   ],
   "note": "REFUTED: elbo_collapsed_z integrates z against the original prior K_z instead of the previous posterior, and exceeds the evidence in a model with one inducing point (C91_conditioned_refuted). What holds in every state: it estimates without bias the structured bound under the current prior of u and the original prior of z (C91_original_prior_partial)."
  },
  {
   "property": "C92",
   "status": "proved",
   "theorems": [
    "C92_laplace",
    "C92_exact"
   ],
   "note": "The optimiser and automatic differentiation are arguments: the hypotheses say what they return. Convergence of L-BFGS is not claimed."
  },
  {
   "property": "C93",
   "status": "proved",
   "theorems": [
    "C93_moments",
    "C93_interpolation",
    "C93_causal",
    "C93_models"
   ],
   "note": "For every covariance function k, instantiated for the kernels of all models (C93_witness, gpcm_cov, rgpcm_cov)."
  },
  {
   "property": "C94",
   "status": "partial",
   "theorems": [
    "C94_gpcm_refuted",
    "C94_gpcm_partial",
    "C94_rgpcm_refuted"
   ],
   "note": "REFUTED: GPCM.k_h() lacks alpha_t^2, so the prior variance is wrong at every time that is not an inducing point unless alpha_t^2 = 1; RGPCM.k_h() decays whereas its inducing variables have constant variance. What holds for the GPCM is C94_gpcm_partial."
  },
  {
   "property": "C95",
   "status": "proved",
   "theorems": [
    "C95_samples",
    "C95_min_phase",
    "C95_times"
   ],
   "note": "C95_samples, C95_min_phase and C95_times together; min_phase itself is C88 and C89."
  },
  {
   "property": "C96",
   "status": "proved",
   "theorems": [
    "C96_kernels",
    "C96_samples"
   ],
   "note": "quantities is inhabited by causal and acausal models and by an RGPCM in C96_witness; the RGPCM needs gamma != alpha and (gamma-alpha)^2 != lambda^2, where the closed form divides by zero (C36, C38)."
  },
  {
   "property": "C97",
   "status": "partial",
   "theorems": [
    "C97_refuted",
    "C97_partial"
   ],
   "note": "REFUTED: the samples are returned as they are, the mean variance is only printed, and it exceeds every bound for some samples (C97_refuted). What holds (C97_partial): under the prior its expectation is the variance of the prior, one by default."
  },
  {
   "property": "C98",
   "status": "partial",
   "theorems": [
    "C98_partial",
    "C98_refuted",
    "C98_times"
   ],
   "note": "REFUTED: for all samples and numbers of times there is a spacing beyond which estimate_psd divides by a negative total power, so that every reported value is nan (C98_refuted). What holds: frequencies, transform and report in decibels for positive densities (C98_partial), refusal and defaults (C98_times)."
  },
  {
   "property": "C99",
   "status": "proved",
   "theorems": [
    "C99_default",
    "C99_learned",
    "C99_well_posed",
    "C99_prediction"
   ],
   "note": "Times outside the support are excluded (C31 and C74 show that the entries are wrong there); the exception of C75 is excluded by s <= w or by the hypothesis on the learned decays."
  },
  {
   "property": "C100",
   "status": "proved",
   "theorems": [
    "C100_every_move",
    "C100_reversible"
   ],
   "note": "every successful pass of every generator is a pass on dealt numbers (C100_every_move) and has a reverse pass of equal weight (C100_reversible); the exponential number is assumed positive, which it is with probability one; integration over passes is not formalised"
  },
  {
   "property": "C101",
   "status": "partial",
   "theorems": [
    "C101_retries_refuted",
    "C101_sample_moves_partial"
   ],
   "note": "REFUTED: with a two-level likelihood a run with a failed pass leads from the higher level to the lower, but no pass from the lower level can fail; failed passes are retried, so moves from states where passes fail are too frequent. Proved instead: every sample is reached from the state before it by a reversible pass"
  },
  {
   "property": "C102",
   "status": "proved",
   "theorems": [
    "C102_invariant",
    "C102_draws"
   ],
   "note": "densities are integrated with the iterated improper Riemann integral over R^n; the law of a sample is expressed by the change of variables of its noise"
  },
  {
   "property": "C103",
   "status": "partial",
   "theorems": [
    "C103_conditioned_refuted",
    "C103_original_prior_partial"
   ],
   "note": "REFUTED: the optimal conditionals use the original priors K_u and K_z after conditioning, as in C45, C46 and C91. Proved instead: the posterior under the original priors is invariant"
  },
  {
   "property": "C104",
   "status": "proved",
   "theorems": [
    "C104_gpcm",
    "C104_rgpcm",
    "C104_ca_stops"
   ],
   "note": "exact reals: the tolerance is reached in exact arithmetic; rounding could keep the changes above 1e-6"
  },
  {
   "property": "C105",
   "status": "proved",
   "theorems": [
    "C105_order",
    "C105_gpcm",
    "C105_rgpcm",
    "C105_constructors",
    "C105_times"
   ],
   "note": "exact reals: sums of floats do depend on the order"
  },
  {
   "property": "C106",
   "status": "proved",
   "theorems": [
    "C106_constructor",
    "C106_matrices",
    "C106_rgpcm"
   ],
   "note": "exact reals; the jitter that Cholesky adds has no unit here because the matrices are equal"
  },
  {
   "property": "C107",
   "status": "partial",
   "theorems": [
    "C107_equal_hashes",
    "C107_sets",
    "C107_comparison_partial",
    "C107_unhashable",
    "C107_comparison_refuted"
   ],
   "note": "Proved for hashable coefficients; comparing a polynomial that has a tensor as coefficient raises (refuted)."
  },
  {
   "property": "C108",
   "status": "partial",
   "theorems": [
    "C108_printing_partial",
    "C108_terms",
    "C108_printing_refuted"
   ],
   "note": "Equal polynomials may print in different orders or with extra zeros (refuted); terms print equally and equal polynomials print the same terms."
  },
  {
   "property": "C109",
   "status": "partial",
   "theorems": [
    "C109_options_partial",
    "C109_options_refuted"
   ],
   "note": "--iters 0 is dropped (refuted); all other options arrive."
  },
  {
   "property": "C110",
   "status": "partial",
   "theorems": [
    "C110_spacing_partial",
    "C110_origin_refuted"
   ],
   "note": "The decision depends on the origin of time (refuted); units do not matter and even grids pass."
  },
  {
   "property": "C111",
   "status": "partial",
   "theorems": [
    "C111_panels_partial",
    "C111_panels_refuted"
   ],
   "note": "The sine panel also shows the constant feature (refuted); all other points are at their frequencies."
  },
  {
   "property": "C112",
   "status": "partial",
   "theorems": [
    "C112_error_lines_partial",
    "C112_error_lines_refuted"
   ],
   "note": "The dashed lines count the noise twice (refuted); bands are right and the lines are at most a factor sqrt(2) too wide."
  },
  {
   "property": "C113",
   "status": "partial",
   "theorems": [
    "C113_constructor",
    "C113_matrices",
    "C113_session",
    "C113_inference",
    "C113_kernel",
    "C113_fit_partial",
    "C113_fit_refuted"
   ],
   "note": "exact reals. C113_fit_refuted: the stopping tolerance of coordinate ascent compares natural parameters, which have a unit, so the fit may stop at another iterate; C113_fit_partial: the iterates themselves are the same. All other results are proved equal. The floor 1e-30 of safe square roots is a second hidden unit, excluded by moderate_model on both clocks"
  },
  {
   "property": "C114",
   "status": "proved",
   "theorems": [
    "C114_session",
    "C114_rgpcm",
    "C114_inference",
    "C114_kernel"
   ],
   "note": "Exactly: C114_session and C114_rgpcm show that a reordered model is the model with rows and columns permuted, C114_inference and C114_kernel that the approximations and the kernel respect that."
  },
  {
   "property": "C115",
   "status": "proved",
   "theorems": [
    "C115_reflected",
    "C115_automatic",
    "C115_kernel",
    "C115_default"
   ],
   "note": "Single inducing points are excluded: linspace puts a single point at the left end of its interval. The causal models are excluded by the property."
  },
  {
   "property": "C116",
   "status": "partial",
   "theorems": [
    "C116_rgpcm",
    "C116_gpcm",
    "C116_constructor",
    "C116_inference",
    "C116_gpcm_inference",
    "C116_gpcm_fit_partial",
    "C116_gpcm_fit_refuted",
    "C116_sign"
   ],
   "note": "The GPCM part of the fit by coordinate ascent is refuted: the tolerance of the stopping rule compares precisions of whitened filter values, which have the unit of the filter. The iterates agree as far as both fits go. Everything else, the RGPCM fits and the sign are proved exactly."
  },
  {
   "property": "C117",
   "status": "proved",
   "theorems": [
    "C117_gpcm",
    "C117_rgpcm",
    "C117_posterior",
    "C117_bounds",
    "C117_structured"
   ],
   "note": "The structured half covers more inducing points of the excitation; for more points of the filter the mean-field half applies."
  },
  {
   "property": "C118",
   "status": "proved",
   "theorems": [
    "C118_additive",
    "C118_more",
    "C118_prior",
    "C118_gpcm",
    "C118_rgpcm"
   ],
   "note": "Additive gains and the order of variances, for all data sets and their subsets; the additive statement on the ELBO leaves out the KL terms, which are counted once."
  },
  {
   "property": "C119",
   "status": "proved",
   "theorems": [
    "C119_prior",
    "C119_no_data",
    "C119_gpcm",
    "C119_rgpcm"
   ],
   "note": "Predictions before any conditioning for GPCM, CGPCM and RGPCM; posteriors, fits and bounds with zero observations."
  },
  {
   "property": "C120",
   "status": "proved",
   "theorems": [
    "C120_mirror",
    "C120_symmetric_start"
   ],
   "note": "Simultaneous sign changes, for every model, data set and state of the approximation; with the consequence for symmetric starts."
  },
  {
   "property": "C121",
   "status": "partial",
   "theorems": [
    "C121_predictions",
    "C121_spectrum",
    "C121_reports_refuted",
    "C121_reports_partial"
   ],
   "note": "The saved kernel and spectral density of the crude-oil experiment are in a wrong unit (C121_reports_refuted); predictions and the saved spectrum are right, and the reports are right when the scale is one (C121_reports_partial)."
  },
  {
   "property": "C122",
   "status": "proved",
   "theorems": [
    "C122_crude_oil",
    "C122_first_monday",
    "C122_training",
    "C122_forecasts",
    "C122_weeks"
   ],
   "note": "For all observations, years and windows; downloading and reading of the data are not modelled."
  },
  {
   "property": "C123",
   "status": "proved",
   "theorems": [
    "C123_spectrum",
    "C123_decomposition"
   ],
   "note": "For all positive decays and non-zero scales and all frequencies."
  },
  {
   "property": "C124",
   "status": "proved",
   "theorems": [
    "C124_decibels",
    "C124_even",
    "C124_smk"
   ],
   "note": "For all samples and grids that start at zero; drawing is not modelled."
  },
  {
   "property": "C125",
   "status": "proved",
   "theorems": [
    "C125_tracker",
    "C125_callbacks",
    "C125_best"
   ],
   "note": "Pauses that do not overlap, as in the script."
  },
  {
   "property": "C126",
   "status": "proved",
   "theorems": [
    "C126_compare"
   ],
   "note": "For every distribution function that satisfies symmetric_cdf; C126_witness shows that the normal one does."
  },
  {
   "property": "C127",
   "status": "partial",
   "theorems": [
    "C127_data",
    "C127_shown_refuted",
    "C127_shown_partial",
    "C127_kernel",
    "C127_mauna_loa"
   ],
   "note": "The plot of experiments/eq.py is computed at linspace(44, 44, 500), so it never shows the removed region (C127_shown_refuted); data, kernel, Mauna Loa and the plot of smk.py are as claimed."
  },
  {
   "property": "C128",
   "status": "partial",
   "theorems": [
    "C128_uses_refuted",
    "C128_mean_field",
    "C128_uses_partial"
   ],
   "note": "The mean-field schemes ignore the window that they are conditioned on (C128_uses_refuted, C128_mean_field); proved for the structured scheme, where the mean is linear in the values (C128_uses_partial)."
  },
  {
   "property": "C129",
   "status": "proved",
   "theorems": [
    "C129_third",
    "C129_interpolation",
    "C129_filter",
    "C129_left"
   ],
   "note": "The loops are assumed to end: the theorem is about draws for which they do. Sampling of functions from the kernels is C87."
  },
  {
   "property": "C130",
   "status": "partial",
   "theorems": [
    "C130_spectrum",
    "C130_true_refuted",
    "C130_panels_partial"
   ],
   "note": "The curve of the true spectrum is computed from the true kernel at the frequencies of the prediction, used as lags (C130_true_refuted); the curve of the data, the estimate itself and the true kernel are as claimed (C130_panels_partial, C130_spectrum)."
  },
  {
   "property": "C131",
   "status": "partial",
   "theorems": [
    "C131_filter_refuted",
    "C131_predictions_partial"
   ],
   "note": "With the structured scheme the ELBO refits q(u) and q(z), from which filters are predicted after conditioning, so that predictions of the filter change (C131_filter_refuted); all other predictions do not (C131_predictions_partial)."
  },
  {
   "property": "C132",
   "status": "proved",
   "theorems": [
    "C132_analysis",
    "C132_all_lags",
    "C132_report"
   ],
   "note": "For all lists of kernels with distinct names and all samples. Names of kernels and models are inputs of the model; that slugify gives eq, ceq-1 and matern12 is not modelled."
  },
  {
   "property": "C133",
   "status": "proved",
   "theorems": [
    "C133_report",
    "C133_mean_field",
    "C133_again"
   ],
   "note": "For all lists of models, parameters, data and random states; one global random state."
  }
 ]
}