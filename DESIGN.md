# Design of the formal model of wesselb/gpcm

The model is written in Coq 8.16.1 under `rocq/theories`. Real-analysis parts use the
standard library reals and Coquelicot; matrix parts use MathComp matrices over the standard
reals; discrete parts use lists, `nat`, `Z` and strings. Every model definition cites the
lines of `/repo` it models.

## Conventions

* **Numbers.** Python/NumPy/JAX numbers are modelled by exact arithmetic: real numbers where
  the code computes with floats, `Z`/`nat` where it computes with integers. Rounding,
  overflow, NaN and infinities are *not* modelled; `np.inf` limits are a separate constructor.
* **Tensors.** An element-wise (broadcast) tensor expression is modelled at one index: the
  object `c` has a value `val c : R` there. Whether an object is a Python number (tested by
  `isinstance(x, B.Number)`) or a tensor is kept as a flag of the numeric domain because
  the code branches on it. Genuine matrix operations are modelled by MathComp matrices.
* **Sets.** Python sets are lists; whenever the code iterates over a set the order is given
  by an arbitrary reordering oracle (any function returning a permutation), so that
  theorems hold for every hash seed.
* **Exceptions** are values (`Err e` of a result type), as are dispatch failures.
* **Randomness** is an arbitrary stream/oracle; theorems hold for every stream.
* **Externals** (`B.chol`, `B.svd`, `B.erf`, `B.bvn_cdf`, `np.argsort`, optimisers) are
  Section variables quantified in the theorem, constrained by the mathematical
  specification of the routine (e.g. "lower triangular with positive diagonal and L L^T = A"),
  or are given a mathematical definition (erf and the bivariate normal CDF as integrals).

## Plan per property

| Property | Model | Proof |
| --- | --- | --- |
| C01-C08 | `ExpPolyModel`: Factor/Term/Poly/ExpPoly with merging, set oracles, exceptions | induction over term lists; permutation invariance of sums/products |
| C09-C14 | `_integrate`, `_integrate_half1/2`, `integrate_box` over the reals | Gaussian integral proved from scratch in Coquelicot; completing the square; substitution in improper integrals |
| C15-C20 | constructors of GPCM/CGPCM over R with an integer ceiling | field arithmetic, `lra`/`nra`, properties of ceil |
| C21-C27 | `k_h`, `k_xs`, `compute_*` as ExpPoly programs | instances of C09-C12; PSD through power series of exp |
| C28-C33 | RGPCM closed forms | antiderivatives with Coquelicot; case analysis on signs; list lemmas for sorting |
| C34 | `invert_perm` as array updates | induction, pigeonhole |
| C35-C38,C72 | `compute_K_z`, `compute_K_u`, constructor | quadratic forms, summation by parts |
| C74, C75 | the constructor, `__prior__` and the closed forms together | refuting witnesses inside the declared bounds; true weakenings |
| C76 | `compute_K_z` against the RKHS inner product | orthogonality of harmonics, integration by parts |
| C39-C42 | NaturalNormal over MathComp matrices | linear algebra; Cholesky; ln x <= x-1 |
| C43-C47 | `construct_terms`, `_q_optimal`, `log_Z_u`, `elbo`, `kernel_approx` | completing the square in matrix form, KL >= 0 |
| C77 | `predict_moments` against an abstract bilinear covariance functional | bilinearity, trace algebra |
| C48-C56 | fit/condition/predict orchestration as state machines | induction over iterations and operation histories |
| C80-C83 | command-line options, loading, repeated conditioning and filter prediction in the same state machines | case analysis on schemes, induction over lists; refuting runs |
| C84 | `K_u`, `K_z` of gpcm.py as in C21, C22 | power series of the exponential; vanishing moments of distinct points |
| C85 | `__prior__` of gpcm.py and rgpcm.py with the transforms of varz (`PriorModel.v`) | inversion of each declaration; refuted for given non-negative inducing points and long scales |
| C86 | the constructor, `__prior__` and `construct_terms` composed with both approximations (`GpcmBridge.v`) | every covariance is an inner product of features of Gaussian decay; Bessel's inequality and Fubini for the residual variance; then C44-C47 |
| C87 | `kernel_approx` with the GPCM's integrals, `sample` (`SampleModel.v`) | feature map of the conditional filter; for causal models an induction over the times in order; spectral theorem for the existence of an SVD |
| C88 | `min_phase` with `np.fft` and `scipy.signal.hilbert` spelled out (`MinPhaseModel.v`) | discrete Fourier inversion, Parseval, pairing of the frequencies k and n - k; existence and uniqueness of the causal cepstrum |
| C89 | the same | refuted by two filters that are circular shifts of each other; the circular autocorrelation is kept (Parseval on h plus its shift) |
| C39-C41, C43, C44 (integrals) | `IntegralSpec`: iterated improper integrals over all coordinates | Gaussian integral on the line (`GaussLine`), triangular change of variables by the Cholesky factor (`GaussN`) |
| C90 | `elbo_collapsed_z`, `elbo_gibbs`, `elbo` against `evidence` | existence: sub-Gaussian continuous functions form a class closed under integration in one coordinate (`Tame`, `TameMat`); bounds: tangent-line form of Jensen's inequality; unbiasedness: induction on the number of samples |
| C91 | the same, conditioned | refuted by a model in closed form with one inducing point; the partial theorem as C90 |
| C92 | `maximum_a_posteriori`, `laplace_approximation`; the optimiser and automatic differentiation are arguments with a specification (`LaplaceSpec`) | Fermat's theorem at the maximum; second partial derivatives of quadratic forms computed from their definition as limits; uniqueness of the Hessian |
| C93 | `sample_h` within `predict_filter`; stheno's conditioning is modelled by its formulas | Schur complement of a covariance function; linear maps of random vectors; a factor of a matrix with a zero on the diagonal has a zero row |
| C94 | the same, with the prior of the inducing variables | refuted: the kernel object lacks `alpha_t` (GPCM) or belongs to another process (RGPCM); strict positive definiteness gives a positive residual variance |
| C95 | `predict_filter` as a whole | composition with C88 and C79 |
| C96 | `kernel_approx` of all three models as a function of two times; `sample_kernel`, `predict_kernel` (`KernelModel`) | the quadratic form of the kernel is bounded below by one of a known positive definite kernel; the integrals are dominated for large lags |
| C97 | the same | violated: the quadratic form in a single inducing variable is unbounded; partial: linearity of expectations |
| C98 | `predict_psd` (`KernelModel`) on top of `estimate_psd` | violated: decay of the kernel makes the normaliser negative on coarse grids; partial: composition with C64 and C79 |
| C99 | the RGPCM's constructor, `__prior__` and `construct_terms` composed with both approximations (`RgpcmBridge.v`) | what the frequencies leave of the Matern-1/2 excitation is a limit of sums of products of functions with one jump (innovations form, Riemann sums); Bessel's inequality for the filter; the tail below the support; then C44-C47 |
| C100, C101 | `ESS` run on dealt random numbers; the dealer multiplies up the densities of the numbers it is asked for, at the limits it is given (`EssReverseSpec.v`, `EssReverse.v`) | the reverse pass measures all angles from the accepted one; a rejected angle is on the same side of 0 as of the accepted angle, so brackets shift and keep their widths; the prior is invariant under turning the pair. That the map preserves volume is visible from its formula and not proved as a statement about integrals. A failed pass is retried rather than counted as staying put, so the sampler with retries is not reversible (C101 refuted) |
| C102, C103 | the Gibbs sweep of `elbo_gibbs` and `fit` (`GibbsSpec.v`) as an operator on densities | the posterior factors through both optimal conditionals (C44), so each update integrates to itself; after conditioning the updates still use the original priors (C103 refuted) |
| C104 | `ca_loop`, `fit_mean_field_ca` (ApproxModel.v), `rms_change` (`CaSpec.v`) | one iteration raises the ELBO by exactly two Kullback–Leibler divergences; the ELBO is bounded; a small divergence forces close natural parameters on the bounded set the iterates live in, so some iteration changes less than the tolerance |
| C105 | nothing new: `construct_terms` and its users, the constructors, `gpcm_integrals`, `rgpcm_integrals`; `OrderSpec.v` | sums are reindexed by a bijection of the data; the integrals are computed time by time; minima and maxima do not see the order |
| C106 | nothing new: the constructor, the prior and all matrices of rgpcm.py; `UnitSpec.v` says what arguments and models are on another clock | every function of RgpcmModel.v commutes with the change of clock, exceptions included |
| C107 | hashes of strings, integers, sets and numbers as arbitrary functions (numbers may be unhashable); Python's sets as lists searched by hash and `==` (`HashModel`) | a set searched by hash equals the set searched by `==` alone, because equal objects hash equally; comparison raising for an unhashable coefficient as a refutation (`HashProofs`, `HashProps`) |
| C108 | `__str__` of factors, terms and polynomials with sorting by insertion; printing of numbers as an arbitrary function (`PrintModel`) | sorting a permutation gives the same list; matching of equal terms; two runs of one expression with different set orders as a refutation (`PrintProofs`, `HashProps`) |
| C109 | the options, the keyword arguments built from them and the defaults of `fit` (`ExperimentModel`) | by cases; `--iters 0` as a refutation (`ExperimentProps`) |
| C110 | `np.diff`, `max` and the comparison of `analyse_plots` over lists of reals (`ExperimentModel`) | the test as a bound on second differences; a shift that lets any times pass as a refutation (`ExperimentProps`) |
| C111 | `np.where`, the frequencies and the indices of the two panels (`ExperimentModel`) | by unfolding the basis functions of `RgpcmSpec`; the constant among the sines as a refutation (`ExperimentProps`) |
| C112 | the bands and lines drawn from a predicted variance (`ExperimentModel`) | from the predictive variances of C56; the doubled noise as a refutation (`ErrorLineProps`) |
| C113 | nothing new: the constructor and all matrices of gpcm.py; `GpcmUnitSpec.v` says what arguments and models are on another clock, `ScaleSpec.v` what the approximations see when the filter is in another unit | substitution in the integrals that C01-C05 identify the matrices with (`GpcmUnitEntries`), then every function of ApproxModel.v commutes with the scaling (`ScaleProofs`); the tolerance of coordinate ascent as a refutation with two sweeps near the golden ratio |
| C114 order of the inducing points | BasisSpec/BasisProofs (any invertible change of the inducing variables), ReorderSpec, ReorderSpec2, ReorderEntries, RgpcmReorder, ReorderProofs, ReorderProps: each entry depends only on the points of its row and column (by uniqueness of the integrals for the GPCM, by the closed forms for the RGPCM), so the reordered model is the model under permutation matrices, under which the approximations are equivariant and the stopping criterion invariant |
| C115 no arrow of time | ReverseSpec, ReverseEntries, ReverseInit, ReverseProps: the integrals over the whole line of a reflected integrand are the same (substitution), so the model with reflected points sees the same matrices; `linspace` is symmetric for more than one point, so the automatic model for reversed data is the reflected model in reverse order, and C114 applies |
| C116 unit and sign of the signal | LoudSpec, LoudEntries, LoudInit, OutSpec, OutProofs, FlipProofs, LoudProps: what the approximations see of the model in the other unit follows from linearity of the integrals (`C116_rgpcm`, `C116_gpcm`); everything that they compute from it by algebra (`C116_inference`, `C116_gpcm_inference`); data with the other sign (`C116_sign`); `C116_constructor`. The fit of the GPCM is refuted (`C116_gpcm_fit_refuted`) as in C113 and proved up to the number of sweeps (`C116_gpcm_fit_partial`). |
| C117 more inducing points never make the best bound worse | GrowSpec.v: the model with some of the inducing variables (`some_gp`: rows and columns of the covariances); GrowProofs.v: a posterior of the smaller model extended by the conditional prior (means, second moments, KL, determinant by Sylvester's identity); GrowGp.v: ELBO and predictions from what the posterior changes of the prior; GrowProps.v: sessions of GPCM/CGPCM/RGPCM with subsets of the points (C117_gpcm, C117_rgpcm), C117_posterior, C117_bounds, C117_structured. Not claimed: that the structured bound does not fall when the filter gets more points. |
| C118 observations add information, one by one | InfoSpec.v: `more_observations` (an injection of data sets), `at_least_as_certain` (the order of variances), `gain` over the prior, `only` (one observation); InfoProofs.v: inverses reverse the order of positive-definite matrices, the optimal natural parameters as sums over the data; InfoProps.v: C118_additive, C118_more, C118_prior; C118_gpcm and C118_rgpcm: data sets of the models that are lists with more entries are such data sets. |
| C119 without data, the prior | NoDataProps.v: predictions of an approximation that was not conditioned (C119_prior; C119_gpcm and C119_rgpcm for the models, with the power of C16 and the stationarity of C23), and the posteriors, fits and bounds for zero observations (C119_no_data). |
| C120 the signs of filter and excitation | MirrorSpec.v defines the change of both signs; MirrorProps.v: invariance of everything in ApproxModel.v by algebra and induction over iterations and chains (C120_mirror), and that a fit from zero means never leaves them (C120_symmetric_start) |
| C121 units of the crude-oil experiment | PaperModel.v models the scripts of experiments/paper; PaperSpec.v says what has to be reported for data `a + s f`. Predictions and the saved spectrum of the model are right (C121_predictions, C121_spectrum); the reports on kernels and spectra are not: the kernel is multiplied by the scale instead of its square, its variance by the square instead of the fourth power, and spectra are shifted by 20 ln instead of 20 log10 of the scale (C121_reports_refuted); they are off by exactly these factors and shifts, so right for unit scale (C121_reports_partial) |
| C122 splits of the data | SplitProps.v on PaperModel.v: partition, characterisation of test weeks, non-interference of the values of test points (C122_crude_oil); the first Monday and the calendar (C122_first_monday); order, reference and independence of training data and forecasts (C122_training, C122_forecasts); each observation forecast once (C122_weeks) |
| C123 the spectrum of the VIX prior | SpectrumProofs.v: the Fourier transform of exp(-lam abs(tau)) by antiderivatives and limits; SpectrumProps.v: the closed form of the script is that of `compute_i_hx` (C123_spectrum), and the decomposition (C123_decomposition) |
| C124 plots of the priors | SpectrumProps.v: round trip through decibels and Jensen's inequality (C124_decibels), even extension (C124_even), the kernel of the spectral-mixture data (C124_smk) |
| C125 run times without pauses | TrackModel.v: the tracker as a state machine over events with clock readings; TrackSpec.v: histories of measurements and pauses; TrackProps.v: induction over histories (C125_tracker), callbacks (C125_callbacks), running maximum (C125_best). The witness shows why pauses must not be nested |
| C126 comparing two models | TrackProps.v: C126_compare by algebra on means and standard deviations, for every strictly increasing symmetric distribution function; CompareProps.v shows that the normal one is such |
| C127 toy experiments | ToyModel.v, ToyProps.v: lists of times computed and filtered; C127_shown_refuted: eq.py plots at `linspace(44, 44, 500)`, so never in the removed region; C127_shown_partial states what each plot shows |
| C128 forecasts and their data | ForecastModel.v: `condition` and then `predict`; C128_uses_refuted: the mean-field schemes predict from the fitted posterior and ignore the window (C128_mean_field); C128_uses_partial: linearity for the structured scheme, from the precision of q(z) not depending on the values |
| C129 interpolated samples | InterpModel.v: the loops over a list of draws, mixing, conditioning, normalising; InterpProps.v: linearity of conditioning, C96_kernels for the kernels, the grid of GpcmInit.v for the third inducing point |
| C130 spectra beside predictions | PanelModel.v: the arguments that `analyse_plots` passes to `estimate_psd`; C130_spectrum: the estimate scales with the unit of time; C130_true_refuted: the true spectrum is computed from the kernel at the frequencies of the prediction, taken as lags, so that its frequencies are multiplied where they should be divided; C130_panels_partial: the other curves are right |
| C131 effect of computing the ELBO | ElboEffectProps.v on FitModel.v: the ELBO of the structured scheme refits the mean-field posterior; C131_filter_refuted: the prediction of the filter is made from that posterior and changes; C131_predictions_partial: the other predictions read only samples |
| C132 comparison of the schemes | KernelCompareModel.v: the files that comparison.py saves and comparison_process.py loads, as a list of paths and contents; fitting and sampling are an arbitrary function from scheme and lags to samples, the metrics arbitrary functions, and the names of kernels and models (`slugify`) are given; C132_analysis by induction over the list of kernels, C132_all_lags, and C132_report for the printed table |
| C133 ELBOs of an experiment | ElboReportModel.v: both overloads of `elbo` and the loop of `analyse_elbos` over a global random state and the variables of all models; coordinate ascent and the values of the bounds are arbitrary functions. The specification is an inductive relation that hands states on; C133_report and C133_again by induction over the list of models, C133_mean_field |
| C57-C60 | ESS as a state machine over random streams | invariants by induction over the attempt counter |
| C78 | the effective sample size computed in `ESS.sample` with `autocorr` | algebra; refuting series |
| C79 | `summarise_samples` in decibel mode | refuting two-sample sets |
| C61-C68,C70 | util functions | finite sums, Cauchy-Schwarz, order statistics, matrix algebra |
| C69 | variable store | finite-map reasoning |
| C71 | name-set logic | list lemmas |

Properties the code violates are kept as stated; a theorem with suffix `_refuted` exhibits the
witness and the strongest true weakening is proved next to it.

## Trusted base

* Coq 8.16.1's kernel and the standard library, Coquelicot and MathComp as installed.
* Axioms: every real-analysis theorem rests on a subset of `ClassicalDedekindReals.sig_forall_dec`,
  `ClassicalDedekindReals.sig_not_dec`, `FunctionalExtensionality.functional_extensionality_dep`
  and `Classical_Prop.classic`, all of them from the standard library. The MathComp matrix files
  also use `ClassicalEpsilon.constructive_indefinite_description` (a choice structure on the
  reals, and the existence of Cholesky, factorisation and SVD routines in witnesses). Each `*Props*.v` file runs
  `Print Assumptions` after each theorem, so that the list per theorem is in the build output.
* The transcription of the Python source into the definitions of the `*Model.v` files.

## Which parts of the code are modelled

| File of `/repo` | Modelled, and where | Not modelled |
| --- | --- | --- |
| `gpcm/exppoly.py` | `Factor`, `Term`, `Poly`, `ExpPoly`, `const`, `var`, merging, substitution, collecting, `__eq__`, arithmetic (`ExpPolyModel`); `safe_sqrt`, `is_inf`, `_integrate`, `_integrate_half1`, `_integrate_half2`, `integrate`, `integrate_half`, `integrate_box` (`ExpPolyIntModel`); `__hash__` (`HashModel`), `__str__` (`PrintModel`) | |
| `gpcm/gpcm.py` | conversions, constructors, both `k_h`, `k_xs`, all `compute_*` (`GpcmModel`); `__prior__` (`PriorModel`) | warnings |
| `gpcm/rgpcm.py` | constructor, `__prior__`, all `compute_*`, `integral_abcd`, `integral_abcd_lu`, `psd_matern_12`, the `_integral_*` and `_I_hx_0_*` helpers (`RgpcmModel`, `PriorModel`), `k_h` (`FilterModel`) | warnings |
| `gpcm/normal.py` | all of `NaturalNormal` (`NormalModel`) | `__str__`, data types |
| `gpcm/approx.py` | terms, optimal factors, moments, ELBOs, kernel samples (`ApproxModel`), the structured ELBO estimates (`EvidenceModel`); properties, `condition`, `ignore_qs`, `fit` and `predict` control flow (`FitModel`) | JIT compilation, gradients, progress output |
| `gpcm/model.py` | scheme dispatch, `predict*`, `save`, `load`, `fit` control flow (`FitModel`), `kernel_approx` (`ApproxModel`), `__prior__` matrices (`GpcmBridge`, `RgpcmBridge`), `sample` (`SampleModel`), `predict_filter` (`FilterModel`), `sample_kernel`, `predict_kernel`, `predict_psd` (`KernelModel`) | probmods' wrapping |
| `gpcm/sample.py` | `ESS` (`EssModel`), its diagnostic (`UtilModel`) | printing |
| `gpcm/util.py` | `summarise_samples`, `estimate_psd`, `autocorr`, `hessian` (`UtilModel`), `invert_perm` (`RgpcmModel`), `closest_psd` (`PsdModel`), `min_phase` (`MinPhaseModel`), `maximum_a_posteriori`, `laplace_approximation` (`LaplaceModel`) | `collect`, `method` |
| `experiments/experiment.py` | building, fitting and loading of models (`FitModel`); the training options and what the plots of predictions and of Fourier features show (`ExperimentModel`); the true kernel and the spectra that are plotted beside predictions (`PanelModel`); the reported ELBOs (`ElboReportModel`) | formatting of plots, comparison with other GPs |
| `experiments/paper/*.py` | normalisation, split and reports of `crude_oil.py`; calendar, windows and splits of `vix_forecast.py`; spectra of `vix_analyse.py`; `_extract_samples` and `apply_to_psd` of `priors.py`; the kernel of `smk.py` (`PaperModel`); `Tracker` and the callbacks of `compare_inference.py`, `compare` of `vix_forecast_process.py`, differences of `crude_oil_aggregate.py` (`TrackModel`); `sample.py` and `sample_interpolation.py` (`InterpModel`); what `comparison.py` saves and `comparison_process.py` reports (`KernelCompareModel`) | downloading, fitting calls, formatting of plots, the metrics of `wbml` |
| `experiments/eq.py`, `smk.py`, `mauna_loa.py` | times, removal of the region, plot times, kernel of `smk.py`, normalisation (`ToyModel`); `condition` and `predict` of forecasts (`ForecastModel`) | sampling from the prior, fitting calls, plots |

## Not modelled

Floating point error, JIT compilation, automatic differentiation, the numerics of
optimisers (L-BFGS, Adam), plotting, and probmods' model wrapping (`Model.condition`,
`instancemethod`), whose source is not in the repository.

## Axioms per theorem

What `Print Assumptions` lists, grouped by the list.

* Closed under the global context: C109_options_partial, C109_options_refuted, C122_first_monday, C131_filter_refuted, C131_predictions_partial, C133_again, C133_mean_field, C133_report, C34_invert_perm, C48_thousand_samples, C49_partial, C49_refuted, C50_names, C50_partial, C50_refuted, C51_partial, C51_refuted, C54_partial, C54_refuted, C54_unconditioned_partial, C55_partial, C55_refuted, C61_empty, C69_save_load, C71_build_models, C80_partial, C80_refuted, C81_partial, C81_refuted, C82_earlier_posteriors_kept, C83_partial, C83_refuted.
* `ClassicalDedekindReals.sig_forall_dec`: C05_equality_reflexive_symmetric, C07_empty_polynomial_is_usable_refuted, C07_illegal_operations_raise, C07_zeroth_power_is_polynomial_refuted, C107_comparison_partial, C107_equal_hashes, C107_sets, C107_unhashable, C125_callbacks.
* `ClassicalDedekindReals.sig_forall_dec`, `FunctionalExtensionality.functional_extensionality_dep`: C01_api_program_value, C01_operations, C01_value_independent_of_set_order, C02_poly_construction, C02_term_construction, C03_substitute, C03_substitute_variables, C04_collect_reconstructs, C04_highest_power, C05_equality_sound, C05_order_of_terms_irrelevant, C06_equal_functions_compare_equal_refuted, C06_without_vanishing_coefficients_partial, C107_comparison_refuted, C108_printing_partial, C108_printing_refuted, C108_terms, C110_origin_refuted, C110_spacing_partial, C124_even, C125_best, C125_tracker, C127_data, C127_shown_partial, C127_shown_refuted, C132_all_lags, C61_autocorr, C62_partial, C62_refuted, C73_legal_arithmetic_never_fails_refuted, C73_linear_operations_never_fail, C73_tensor_programs_never_fail, C78_effective_sample_size_refuted, C78_partial.
* `ClassicalDedekindReals.sig_forall_dec`, `ClassicalDedekindReals.sig_not_dec`, `FunctionalExtensionality.functional_extensionality_dep`: C03_translate_var, C05_exppoly_equality_sound, C08_exppoly_algebra, C08_exppoly_substitute, C100_every_move, C100_reversible, C101_sample_moves_partial, C105_constructors, C105_gpcm, C105_rgpcm, C106_constructor, C106_matrices, C106_rgpcm, C111_panels_partial, C111_panels_refuted, C113_constructor, C116_constructor, C118_gpcm, C118_rgpcm, C121_predictions, C122_crude_oil, C126_compare, C127_kernel, C127_mauna_loa, C129_third, C12_box_infinite, C14_guards, C14_otherwise_returns, C14_otherwise_returns_two, C15_conversions, C16_rgpcm_unit_power, C18_excitation_grid, C19_caps_partial, C19_caps_refuted, C19_rgpcm_caps, C20_gamma_sign_partial, C20_positive_gamma_refuted, C27_kernels_agree_partial, C33_order, C35_K_z, C37_unit_diagonal_partial, C38_gamma_below_alpha, C57_coherent_and_on_slice, C58_bracket, C59_bounded_attempts, C60_attempts_partial, C60_attempts_refuted, C70_hessian, C72_sizes_and_supports, C84_K_u.
* `ClassicalDedekindReals.sig_forall_dec`, `ClassicalDedekindReals.sig_not_dec`, `Classical_Prop.classic`, `FunctionalExtensionality.functional_extensionality_dep`: C09_integrate, C09_integrate_iterated, C101_retries_refuted, C10_integrate_half, C113_matrices, C115_kernel, C11_integrate_half_two, C121_reports_partial, C121_reports_refuted, C121_spectrum, C122_forecasts, C122_training, C122_weeks, C123_decomposition, C123_spectrum, C124_decibels, C124_smk, C12_box_one, C12_box_two, C130_panels_partial, C130_spectrum, C130_true_refuted, C132_analysis, C132_report, C13_upper_infinite_partial, C13_upper_infinite_refuted, C14_divergent_integral_is_reported_refuted, C16_unit_power, C16_unit_power_default, C17_filter_grid, C17_rgpcm_filter_grid, C18_extended_grid, C21_K_u, C22_K_z, C23_i_hx, C24_I_ux, C24_I_ux_stationary, C24_I_ux_transpose, C25_I_hz, C26_I_uz, C27_kernels_agree_refuted, C28_integral_abcd, C28_integral_abcd_lu, C29_I_ux, C30_I_hz, C31_beyond_support_refuted, C32_I_uz, C36_K_u, C37_unit_diagonal_refuted, C38_initial_factor, C63_partial, C63_refuted, C64_psd_grid, C64_refuses, C65_nested_bands, C66_partial, C66_refuted, C72_default_model_in_range, C74_learned_t_u_partial, C74_learned_t_u_refuted, C75_I_ux_defined_partial, C75_I_ux_defined_refuted, C76_K_z_is_the_gram_matrix, C79_decibel_variance_refuted, C79_partial, C84_K_z, C84_constructed, C85_given_points_refuted, C85_gpcm_automatic, C85_gpcm_partial, C85_long_scale_refuted, C85_rgpcm_automatic, C85_rgpcm_partial, C86_default, C88_min_phase, C88_nan, C88_transform, C89_partial, C89_refuted, C99_default, C99_learned.
* `ClassicalDedekindReals.sig_forall_dec`, `ClassicalEpsilon.constructive_indefinite_description`, `Classical_Prop.classic`, `FunctionalExtensionality.functional_extensionality_dep`: C113_kernel, C114_kernel, C118_more, C119_prior, C128_mean_field, C128_uses_refuted, C129_filter, C129_left, C39_round_trip, C42_sample_moments, C47_kernel_approx, C52_condition, C67_closest_psd, C68_nearest_partial, C68_nearest_refuted, C77_conditional_moments, C93_causal, C93_interpolation, C93_moments.
* `ClassicalDedekindReals.sig_forall_dec`, `ClassicalDedekindReals.sig_not_dec`, `ClassicalEpsilon.constructive_indefinite_description`, `Classical_Prop.classic`, `FunctionalExtensionality.functional_extensionality_dep`: C102_draws, C102_invariant, C103_conditioned_refuted, C103_original_prior_partial, C104_ca_stops, C104_gpcm, C104_rgpcm, C105_order, C105_times, C112_error_lines_partial, C112_error_lines_refuted, C113_fit_partial, C113_fit_refuted, C113_inference, C113_session, C114_inference, C114_rgpcm, C114_session, C115_automatic, C115_default, C115_reflected, C116_gpcm, C116_gpcm_fit_partial, C116_gpcm_fit_refuted, C116_gpcm_inference, C116_inference, C116_rgpcm, C116_sign, C117_bounds, C117_gpcm, C117_posterior, C117_rgpcm, C117_structured, C118_additive, C118_prior, C119_gpcm, C119_no_data, C119_rgpcm, C120_mirror, C120_symmetric_start, C128_uses_partial, C129_interpolation, C39_moments, C40_integral, C40_kl, C41_density, C41_logpdf, C43_integral, C43_summed_terms, C44_conditionals, C44_normaliser, C45_ascent, C45_conditioned_refuted, C46_collapsed, C46_conditioned_refuted, C53_fixed_point, C56_variance, C86_prediction, C86_well_posed, C87_kernel_psd, C87_marginal, C87_sample, C90_bounds, C90_gibbs, C90_likelihood, C90_mean_field, C91_conditioned_refuted, C91_original_prior_partial, C92_exact, C92_laplace, C93_models, C94_gpcm_partial, C94_gpcm_refuted, C94_rgpcm_refuted, C95_min_phase, C95_samples, C95_times, C96_kernels, C96_samples, C97_partial, C97_refuted, C98_partial, C98_refuted, C98_times, C99_prediction, C99_well_posed.
