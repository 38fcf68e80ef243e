{"id": "C01", "title": "Polynomial arithmetic is evaluation-faithful", "statement": "For polynomials p, q built with the exppoly API and any assignment of values to variables: (p+q), (p-q), (p*q), -p, p+c, c-p, p*c and p**n (n>=1) evaluate to the sum, difference, product, negation and n-th power of the values of p and q; the result does not depend on the iteration order of Python sets (hash seed).", "quantifier": "all polynomials, all scalar/tensor-element coefficients, all variable assignments, all powers, all set iteration orders", "why_tests_cant": "tests compare a handful of literal polynomials under one hash seed", "anchors": ["gpcm/exppoly.py:Poly.__add__,__neg__,__sub__,__rsub__,__mul__,__pow__", "gpcm/exppoly.py:_merge_common_terms"]}
{"id": "C02", "title": "Building terms and polynomials from parts loses nothing", "statement": "Term(c, *factors) evaluates to c times the product of all given factors and Poly(*terms) to the sum of all given terms, whatever repetitions they contain; a Term never holds two factors of one variable, and every stored power is at least 1.", "quantifier": "all factor and term lists with arbitrary repetition, all set iteration orders", "why_tests_cant": "merging by name and by factor set has unboundedly many overlap patterns", "anchors": ["gpcm/exppoly.py:Term.__init__", "gpcm/exppoly.py:_merge_common_factors", "gpcm/exppoly.py:Poly.__init__", "gpcm/exppoly.py:_merge_common_terms"]}
{"id": "C03", "title": "Substitution is semantic substitution", "statement": "p.substitute(x, q) evaluates at any assignment to the value of p at the assignment with x rebound to the value of q there, also when x occurs in q or not in p; translate_var(x, q) evaluates to the expression with x replaced by x+q.", "quantifier": "all polynomials p, q, all variables, all assignments", "why_tests_cant": "captures such as x -> x+q and repeated powers cannot be enumerated", "anchors": ["gpcm/exppoly.py:Term.substitute", "gpcm/exppoly.py:Poly.substitute", "gpcm/exppoly.py:ExpPoly.substitute", "gpcm/exppoly.py:ExpPoly.translate_var"]}
{"id": "C04", "title": "Collecting by powers of a variable reconstructs the polynomial", "statement": "For every polynomial p and variable x, p equals p.reject(x) plus the sum over k=1..p.highest_power(x) of p.collect_for(x^k)*x^k, none of the parts depends on x, and highest_power is the largest power of x present.", "quantifier": "all non-empty polynomials, all variables, all assignments", "why_tests_cant": "unit tests use three-term polynomials", "anchors": ["gpcm/exppoly.py:Poly.collect_for", "gpcm/exppoly.py:Poly.reject", "gpcm/exppoly.py:Poly.highest_power", "gpcm/exppoly.py:Term.collect_for", "gpcm/exppoly.py:Poly.is_function_of"]}
{"id": "C05", "title": "Equality of polynomials is sound", "statement": "If p == q (or ExpPoly e == f) then p and q evaluate identically under every assignment; == is reflexive and symmetric and does not depend on the order in which factors and terms were given.", "quantifier": "all polynomials with numeric coefficients, all assignments", "why_tests_cant": "soundness quantifies over all assignments", "anchors": ["gpcm/exppoly.py:Factor.__eq__", "gpcm/exppoly.py:Term.__eq__", "gpcm/exppoly.py:Poly.__eq__", "gpcm/exppoly.py:ExpPoly.__eq__"]}
{"id": "C06", "title": "Equal polynomials compare equal after cancellation", "statement": "Two polynomials obtained by the API that are the same function compare equal with ==, e.g. (x + 5) - x == const(5).", "quantifier": "all polynomials whose terms cancel", "why_tests_cant": "the tests only try x - x; the failing pattern needs a cancelled term next to a surviving constant", "anchors": ["gpcm/exppoly.py:Poly.__eq__", "gpcm/exppoly.py:_merge_common_terms", "gpcm/exppoly.py:Term.__init__"]}
{"id": "C07", "title": "Illegal polynomial operations raise and legal ones stay polynomials", "statement": "Factor powers below 1, negative powers of polynomials, products of factors of different variables and sums of terms with different factors raise; every other operation returns a polynomial that can be evaluated and substituted into.", "quantifier": "all operands including the empty polynomial and the power 0", "why_tests_cant": "the corner cases p**0, Poly() and substitution into Poly() are not exercised", "anchors": ["gpcm/exppoly.py:Factor.__init__", "gpcm/exppoly.py:Factor.__mul__", "gpcm/exppoly.py:Term.__add__", "gpcm/exppoly.py:Poly.__pow__", "gpcm/exppoly.py:Poly.substitute", "gpcm/exppoly.py:Poly.highest_power"]}
{"id": "C08", "title": "ExpPoly algebra is evaluation-faithful", "statement": "Products of ExpPolys, products with numbers, negation and substitution evaluate to the product, scaling, negation and substituted value of const*exp(poly).", "quantifier": "all ExpPolys, all assignments", "why_tests_cant": "quantifies over all polynomials and assignments", "anchors": ["gpcm/exppoly.py:ExpPoly.eval", "gpcm/exppoly.py:ExpPoly.__mul__", "gpcm/exppoly.py:ExpPoly.__neg__", "gpcm/exppoly.py:ExpPoly.substitute"]}
{"id": "C09", "title": "integrate is the integral over the whole line", "statement": "ExpPoly.integrate(x) evaluates, for every assignment of the remaining variables, to the improper integral over x from -inf to inf whenever the quadratic coefficient is negative (and -pi/a is at least the 1e-30 floor of the safe square root); integrating several variables gives the iterated integral.", "quantifier": "all exponentiated polynomials quadratic in the integration variables, all assignments", "why_tests_cant": "quadrature compares a few numbers to a tolerance", "anchors": ["gpcm/exppoly.py:ExpPoly.integrate", "gpcm/exppoly.py:ExpPoly._integrate", "gpcm/exppoly.py:safe_sqrt"]}
{"id": "C10", "title": "integrate_half over one variable is the integral up to zero", "statement": "ExpPoly.integrate_half(x) equals the improper integral over x from -inf to 0 for every assignment of the remaining variables with negative quadratic coefficient.", "quantifier": "all exponentiated polynomials quadratic in x, all assignments", "why_tests_cant": "only one literal case is tested", "anchors": ["gpcm/exppoly.py:ExpPoly.integrate_half", "gpcm/exppoly.py:ExpPoly._integrate_half1"]}
{"id": "C11", "title": "integrate_half over two variables is the integral over the negative quadrant", "statement": "ExpPoly.integrate_half(x, y) equals the iterated improper integral over x, y from -inf to 0 whenever the quadratic form is negative definite.", "quantifier": "all exponentiated polynomials quadratic in x and y, all assignments", "why_tests_cant": "only one literal case is tested", "anchors": ["gpcm/exppoly.py:ExpPoly._integrate_half2"]}
{"id": "C12", "title": "integrate_box over boxes is the integral over the box", "statement": "integrate_box equals the (iterated) integral between the given limits, for finite limits and for limits that are infinite below or infinite on both sides, where limits may be polynomials in other variables.", "quantifier": "all exponentiated polynomials quadratic in the integration variables, all limits, all assignments", "why_tests_cant": "tests try three boxes", "anchors": ["gpcm/exppoly.py:ExpPoly.integrate_box", "gpcm/exppoly.py:ExpPoly.translate_var", "gpcm/exppoly.py:is_inf"]}
{"id": "C13", "title": "integrate_box handles an infinite upper limit", "statement": "integrate_box((x, l, inf)) with finite l is the integral from l to infinity, as the docstring promises; in particular it is positive for a positive integrand.", "quantifier": "all integrands and lower limits", "why_tests_cant": "no test has an upper-infinite, lower-finite box", "anchors": ["gpcm/exppoly.py:ExpPoly.integrate_box"]}
{"id": "C14", "title": "Integration rejects what it cannot integrate", "statement": "integrate and integrate_half raise whenever the exponent is not of degree exactly two in an integration variable, or (integrate) when the quadratic coefficient is not constant, and otherwise return; a divergent integral (non-negative quadratic coefficient) is not reported as a finite value.", "quantifier": "all exponentiated polynomials", "why_tests_cant": "tests try six polynomials and never a divergent one", "anchors": ["gpcm/exppoly.py:ExpPoly._integrate", "gpcm/exppoly.py:ExpPoly._integrate_half1", "gpcm/exppoly.py:ExpPoly._integrate_half2"]}
{"id": "C15", "title": "Length-scale/decay conversions are inverse bijections", "statement": "scale_to_factor and factor_to_scale are mutually inverse on positive numbers, strictly decreasing and positive.", "quantifier": "all positive reals", "why_tests_cant": "tested at 1 only", "anchors": ["gpcm/gpcm.py:scale_to_factor", "gpcm/gpcm.py:factor_to_scale"]}
{"id": "C16", "title": "Unit prior power by default", "statement": "A GPCM, CGPCM or RGPCM constructed with only a window and a scale has a prior process of variance exactly one at every time: compute_i_hx(t, t) = 1 for every t and every window and scale.", "quantifier": "all windows, scales and times, three model classes", "why_tests_cant": "the test estimates one configuration by Monte Carlo to 5%", "anchors": ["gpcm/gpcm.py:GPCM.__init__", "gpcm/gpcm.py:compute_i_hx", "gpcm/rgpcm.py:RGPCM.__init__", "gpcm/rgpcm.py:compute_i_hx"]}
{"id": "C17", "title": "Filter inducing points cover the window evenly", "statement": "By default t_u is an evenly spaced grid with exactly n_u points that contains 0 and ends where the window has decayed to exp(-pi); it is symmetric for the GPCM, starts two spacings below zero for the CGPCM, and starts at zero for the RGPCM.", "quantifier": "all windows, scales and requested n_u (>= 2)", "why_tests_cant": "one configuration is tested", "anchors": ["gpcm/gpcm.py:GPCM.__init__", "gpcm/rgpcm.py:RGPCM.__init__"]}
{"id": "C18", "title": "Excitation inducing points cover the data evenly, also when extended", "statement": "By default t_z is an evenly spaced grid from min(t) to max(t); extend_t_z keeps every original grid point and the spacing, and extends by at least the filter length on the left (and also on the right for the acausal model).", "quantifier": "all data ranges, n_z >= 2 and windows", "why_tests_cant": "never tested", "anchors": ["gpcm/gpcm.py:GPCM.__init__"]}
{"id": "C19", "title": "Automatic inducing-point counts respect their caps", "statement": "When n_u, n_z or m_max are chosen automatically they are at most n_u_cap, n_z_cap and m_max_cap.", "quantifier": "all windows, scales, data ranges and caps", "why_tests_cant": "never tested", "anchors": ["gpcm/gpcm.py:GPCM.__init__", "gpcm/rgpcm.py:RGPCM.__init__"]}
{"id": "C20", "title": "Window and scale give admissible decays", "statement": "Every positive window and scale yield a positive filter-prior decay gamma for GPCM/CGPCM, so that learning it with a positivity constraint is possible.", "quantifier": "all positive windows and scales", "why_tests_cant": "the tests use scale < window", "anchors": ["gpcm/gpcm.py:GPCM.__init__", "gpcm/gpcm.py:GPCM.__prior__"]}
{"id": "C21", "title": "GPCM K_u is the filter kernel at t_u and is PSD", "statement": "compute_K_u()[i,j] equals alpha_t^2 exp(-alpha(t_i^2+t_j^2)-gamma(t_i-t_j)^2), is symmetric and positive semi-definite for every choice of inducing points.", "quantifier": "all parameters with gamma >= 0, all inducing point vectors, all coefficient vectors", "why_tests_cant": "positive semi-definiteness quantifies over all vectors and all sizes", "anchors": ["gpcm/gpcm.py:GPCM.k_h", "gpcm/gpcm.py:compute_K_u"]}
{"id": "C22", "title": "GPCM K_z is the inter-domain covariance, unit variance and PSD", "statement": "compute_K_z()[i,j] equals the integral over tau of k_xs(t_i,tau) k_xs(tau,t_j), is 1 on the diagonal by default, symmetric and positive semi-definite.", "quantifier": "all omega > 0, all inducing point vectors", "why_tests_cant": "quantifies over all vectors and sizes", "anchors": ["gpcm/gpcm.py:GPCM.k_xs", "gpcm/gpcm.py:compute_K_z"]}
{"id": "C23", "title": "GPCM i_hx is the convolution integral and stationary", "statement": "compute_i_hx(t1,t2) is the integral of k_h(t1-tau,t2-tau) over the line (GPCM) or up to min(t1,t2) (CGPCM); it is symmetric and depends on t1-t2 only.", "quantifier": "all parameters, all time pairs, both variants", "why_tests_cant": "never tested for GPCM/CGPCM", "anchors": ["gpcm/gpcm.py:compute_i_hx"]}
{"id": "C24", "title": "GPCM I_ux is the convolution integral and stationary", "statement": "compute_I_ux(t1,t2)[i,j] is the integral of k_h(t1-tau,t_u[i]) k_h(t_u[j],t2-tau), satisfies I_ux(t1,t2)[i,j]=I_ux(t2,t1)[j,i], and its default (zero times) equals I_ux(t,t) for every t, which the inference code relies on for every data point.", "quantifier": "all parameters, all time pairs, all inducing points, both variants", "why_tests_cant": "never tested for GPCM/CGPCM", "anchors": ["gpcm/gpcm.py:compute_I_ux", "gpcm/approx.py:Approximation.construct_terms"]}
{"id": "C25", "title": "GPCM I_hz is the double convolution integral", "statement": "compute_I_hz(t)[n,i,j] is the double integral of k_h(t_n-tau1,t_n-tau2) k_xs(tau1,t_z[i]) k_xs(t_z[j],tau2) over the plane (GPCM) or the quadrant tau1,tau2<=t_n (CGPCM) and symmetric in i,j.", "quantifier": "all parameters, times, inducing points, both variants", "why_tests_cant": "never tested", "anchors": ["gpcm/gpcm.py:compute_I_hz"]}
{"id": "C26", "title": "GPCM I_uz is the convolution integral", "statement": "compute_I_uz(t)[n,i,j] is the integral of k_h(t_n-tau,t_u[i]) k_xs(tau,t_z[j]) over the line (GPCM) or up to t_n (CGPCM).", "quantifier": "all parameters, times, inducing points, both variants", "why_tests_cant": "never tested", "anchors": ["gpcm/gpcm.py:compute_I_uz"]}
{"id": "C27", "title": "The two kernels of the filter agree", "statement": "The kernel object returned by k_h() for sampling the filter equals the expression k_h(t1,t2) used for inference (restricted to non-negative times for the CGPCM).", "quantifier": "all parameters and times", "why_tests_cant": "never tested", "anchors": ["gpcm/gpcm.py:GPCM.k_h", "gpcm/model.py:AbstractGPCM.predict_filter"]}
{"id": "C28", "title": "integral_abcd closed form is the double integral", "statement": "integral_abcd(a,b,c,d) equals the double integral of exp(c(x+y)-d|x-y|) over x from 0 to a and y from 0 to b for bounds of either sign, c != 0 and c^2 != d^2; integral_abcd_lu does so for arbitrary lower and upper bounds; both are symmetric under exchange of the axes.", "quantifier": "all real bounds and decays", "why_tests_cant": "16 and 64 random sign patterns are compared with quadrature to 1e-5", "anchors": ["gpcm/rgpcm.py:integral_abcd", "gpcm/rgpcm.py:integral_abcd_lu"]}
{"id": "C29", "title": "RGPCM I_ux is the convolution integral and stationary", "statement": "compute_I_ux(t1,t2)[i,j] is the double integral of alpha_t^2 gamma_t^2 exp(-alpha(x+y)-gamma(t_u[i]-x)-gamma(t_u[j]-y)) exp(-lam|(t1-x)-(t2-y)|) over 0<=x<=t_u[.], 0<=y<=t_u[.]; depends on t1-t2 only; and swapping times and inducing points leaves it unchanged.", "quantifier": "all parameters with gamma != alpha and (gamma-alpha)^2 != lam^2, all times and inducing points", "why_tests_cant": "one model is compared with quadrature", "anchors": ["gpcm/rgpcm.py:compute_I_ux"]}
{"id": "C30", "title": "RGPCM I_hz is the windowed integral of the Fourier features", "statement": "compute_I_hz(t)[n,i,j] is the integral up to t_n of alpha_t^2 exp(-2 alpha (t_n-tau)) beta_{ms[i]}(tau) beta_{ms[j]}(tau), with beta the (decaying-continued) Fourier basis, for every t_n in [a,b].", "quantifier": "all parameters, all frequency indices of both kinds, all t in [a,b]", "why_tests_cant": "one model with m_max=2 is compared with quadrature", "anchors": ["gpcm/rgpcm.py:compute_I_hz", "gpcm/rgpcm.py:_I_hx_0_cos", "gpcm/rgpcm.py:_I_hx_0_sin"]}
{"id": "C31", "title": "RGPCM I_hz holds wherever it is queried", "statement": "The same identity holds at prediction times beyond the end b of the basis support.", "quantifier": "all t > b", "why_tests_cant": "tests only query times inside the support", "anchors": ["gpcm/rgpcm.py:compute_I_hz", "gpcm/rgpcm.py:_I_hx_0_cos", "gpcm/approx.py:Structured.predict"]}
{"id": "C32", "title": "RGPCM I_uz is the filter-feature integral", "statement": "compute_I_uz(t)[n,i,j] is the integral over tau in [0,t_u[i]] of alpha_t gamma_t exp(-alpha tau-gamma(t_u[i]-tau)) beta_{ms[j]}(t_n-tau), for every t_n <= b with t_n-t_u[i] >= a.", "quantifier": "all parameters with gamma != alpha, all indices and times in range", "why_tests_cant": "one model is compared with quadrature", "anchors": ["gpcm/rgpcm.py:compute_I_uz", "gpcm/rgpcm.py:_integral_lu0", "gpcm/rgpcm.py:_integral_luk_leq_M", "gpcm/rgpcm.py:_integral_luk_g_M"]}
{"id": "C33", "title": "The order of the frequency indices does not matter", "statement": "For every ordering ms of the frequency indices, entry (i,j) of compute_I_hz and entry j of compute_I_uz is the integral for the frequencies ms[i], ms[j]: the internal sorting is undone exactly.", "quantifier": "all finite lists ms of non-negative indices (any order, repetitions), all sorting permutations", "why_tests_cant": "tests use the sorted default only", "anchors": ["gpcm/rgpcm.py:compute_I_hz", "gpcm/rgpcm.py:compute_I_uz", "gpcm/util.py:invert_perm"]}
{"id": "C34", "title": "invert_perm inverts permutations", "statement": "For every permutation perm of 0..n-1, invert_perm(perm) is its two-sided inverse: inv[perm[i]]=i and perm[inv[i]]=i.", "quantifier": "all permutations of all lengths", "why_tests_cant": "never tested", "anchors": ["gpcm/util.py:invert_perm"]}
{"id": "C35", "title": "RGPCM K_z is symmetric positive definite", "statement": "compute_K_z() is symmetric and x^T K_z x > 0 for every non-zero x, for every list of frequency indices.", "quantifier": "all parameters with lam > 0, a < b, all ms, all vectors", "why_tests_cant": "a Cholesky factorisation of one matrix is attempted", "anchors": ["gpcm/rgpcm.py:compute_K_z", "gpcm/rgpcm.py:psd_matern_12"]}
{"id": "C36", "title": "RGPCM K_u is a stationary PSD kernel matrix", "statement": "compute_K_u() is symmetric, depends on |t_i-t_j| only and is positive semi-definite (positive definite for distinct points) for every choice of inducing points.", "quantifier": "all parameters with gamma > 0, all inducing points, all vectors", "why_tests_cant": "quantifies over all vectors and sizes", "anchors": ["gpcm/rgpcm.py:compute_K_u"]}
{"id": "C37", "title": "RGPCM transform is normalised to unity power by default", "statement": "With gamma_t not given, the diagonal of compute_K_u() is one.", "quantifier": "all windows, scales and inducing points", "why_tests_cant": "the tested configuration does not trigger the cap gamma <= alpha/1.5", "anchors": ["gpcm/rgpcm.py:RGPCM.__init__", "gpcm/rgpcm.py:compute_K_u"]}
{"id": "C38", "title": "RGPCM keeps gamma below alpha", "statement": "After construction gamma <= alpha/1.5 < alpha, and after instantiation gamma = alpha/gamma_factor < alpha for every learnable gamma_factor in (1, 1e4), so that the closed forms never divide by alpha-gamma = 0.", "quantifier": "all constructor arguments with alpha > 0, gamma > 0", "why_tests_cant": "never tested", "anchors": ["gpcm/rgpcm.py:RGPCM.__init__", "gpcm/rgpcm.py:RGPCM.__prior__"]}
{"id": "C39", "title": "Natural and moment parametrisations round-trip", "statement": "NaturalNormal.from_normal(d).to_normal() has the mean and variance of d, from_normal(n.to_normal()) the natural parameters of n, and mean, var, m2 are prec^-1 lam, prec^-1 and var + mean mean^T.", "quantifier": "all dimensions, all means, all positive-definite matrices", "why_tests_cant": "tested on one random 2x2 case", "anchors": ["gpcm/normal.py:NaturalNormal.from_normal", "gpcm/normal.py:NaturalNormal.to_normal", "gpcm/normal.py:NaturalNormal.mean", "gpcm/normal.py:NaturalNormal.var", "gpcm/normal.py:NaturalNormal.m2"]}
{"id": "C40", "title": "KL divergence is the Gaussian KL, non-negative, zero only for equal distributions", "statement": "p.kl(q) equals 0.5(tr(Sq^-1 Sp) - log(det Sp/det Sq) + (mq-mp)^T Sq^-1 (mq-mp) - d), is >= 0, and is 0 iff p and q have the same natural parameters.", "quantifier": "all dimensions, all pairs of natural normals with positive-definite precisions", "why_tests_cant": "tested on one random pair", "anchors": ["gpcm/normal.py:NaturalNormal.kl"]}
{"id": "C41", "title": "logpdf is the Gaussian log-density", "statement": "logpdf(x) equals -0.5(d log 2pi + log det S + (x-m)^T S^-1 (x-m)).", "quantifier": "all dimensions, all natural normals, all points", "why_tests_cant": "tested on one random point", "anchors": ["gpcm/normal.py:NaturalNormal.logpdf"]}
{"id": "C42", "title": "Samples have the right mean and covariance", "statement": "NaturalNormal.sample maps a zero-mean noise with covariance prec to a sample with mean prec^-1 lam and covariance prec^-1.", "quantifier": "all natural normals, all noise laws with the stated moments", "why_tests_cant": "tested by a Monte-Carlo estimate to 5%", "anchors": ["gpcm/normal.py:NaturalNormal.sample"]}
{"id": "C43", "title": "Summed terms agree with per-point moments", "statement": "The aggregated terms used for fitting equal the sums over data points of the per-point terms used for prediction, so that the quadratic in the ELBO is exactly the sum over i of y_i^2 - 2 y_i m1_i + m2_i with (m1,m2) the prediction moments.", "quantifier": "all numbers of data points and inducing points, all integrals and moments", "why_tests_cant": "never tested", "anchors": ["gpcm/approx.py:Approximation.construct_terms", "gpcm/approx.py:Approximation._predict_moments", "gpcm/approx.py:MeanField.elbo"]}
{"id": "C44", "title": "q(z|u) is the exact conditional and log_Z_u its normaliser", "statement": "For every u and z: expected log-likelihood(u,z) + log prior(z) = log_Z_u(u) + log q_z_optimal(u)(z) (and the optimal q(u|z) satisfies the mirrored identity up to a term independent of u).", "quantifier": "all data, all u and z, all sizes", "why_tests_cant": "never tested", "anchors": ["gpcm/approx.py:Structured.log_Z_u", "gpcm/approx.py:Approximation.q_z_optimal", "gpcm/approx.py:Approximation.q_u_optimal", "gpcm/approx.py:Approximation._q_optimal"]}
{"id": "C45", "title": "Coordinate ascent never decreases the mean-field ELBO", "statement": "For every q(z), replacing q(u) by q_u_optimal_mean_field(q(z)) gives the largest mean-field ELBO over all q(u), and symmetrically for q(z); hence the ELBO is non-decreasing along every run of the fixed-point iteration.", "quantifier": "all data, all variational distributions, all numbers of iterations", "why_tests_cant": "never tested; optimality quantifies over all competing distributions", "anchors": ["gpcm/approx.py:Approximation.q_u_optimal_mean_field", "gpcm/approx.py:Approximation.q_z_optimal_mean_field", "gpcm/approx.py:MeanField.elbo", "gpcm/approx.py:_fit_mean_field_ca"]}
{"id": "C46", "title": "The collapsed ELBO dominates the uncollapsed ELBO", "statement": "elbo(collapsed='z') >= elbo(collapsed=None) for all variational parameters, with equality iff the stored q(z) is the optimal one; likewise for 'u'.", "quantifier": "all variational distributions and data", "why_tests_cant": "never tested", "anchors": ["gpcm/approx.py:MeanField.elbo"]}
{"id": "C47", "title": "kernel_approx is the conditional kernel and averages to the prior kernel", "statement": "kernel_approx(t1,t2,u) = i_hx - tr(K_u^-1 I_ux) + u^T K_u^-1 I_ux K_u^-1 u entrywise; replacing u u^T by its prior mean K_u gives i_hx(t1,t2) exactly; exchanging t1 and t2 transposes it.", "quantifier": "all inducing points, all u, all times, all positive-definite K_u", "why_tests_cant": "the test averages 2000 Monte-Carlo samples at one time", "anchors": ["gpcm/model.py:AbstractGPCM.kernel_approx"]}
{"id": "C48", "title": "Structured fitting stores exactly one thousand posterior samples", "statement": "fit with the structured scheme stores exactly 1000 samples of u and of z for every iters >= 2, each the state of the chain after a multiple of the thinning interval, in order.", "quantifier": "all iters, all random streams", "why_tests_cant": "never tested", "anchors": ["gpcm/approx.py:fit", "gpcm/approx.py:Structured.q_u_samples"]}
{"id": "C49", "title": "Structured fitting accepts every positive number of iterations", "statement": "fit(t, y, iters=n) with the structured scheme completes for every n >= 1.", "quantifier": "all n >= 1", "why_tests_cant": "never tested", "anchors": ["gpcm/approx.py:fit"]}
{"id": "C50", "title": "Every documented scheme can be fitted", "statement": "For every scheme name accepted by the constructor documentation, fit reaches the end without raising because of its own configuration.", "quantifier": "the finite set of scheme names, all data, all iters", "why_tests_cant": "the test-suite never calls fit", "anchors": ["gpcm/model.py:AbstractGPCM.__prior__", "gpcm/approx.py:fit", "gpcm/approx.py:Approximation.ignore_qs"]}
{"id": "C51", "title": "ignore_qs selects exactly the documented posteriors", "statement": "ignore_qs(previous, current) returns exclusions for exactly the previous posteriors (if previous) and for the current q_u and/or q_z as requested, where current may be True, False, 'u' or 'z'.", "quantifier": "all conditioning depths, all documented arguments", "why_tests_cant": "never tested", "anchors": ["gpcm/approx.py:Approximation.ignore_qs"]}
{"id": "C52", "title": "Conditioning turns the posterior into the prior and isolates history", "statement": "After condition the prior for u and z is exactly the variational posterior before conditioning; later assignments to the new posterior change neither the new prior nor any earlier posterior.", "quantifier": "all histories of assignments and conditionings", "why_tests_cant": "never tested", "anchors": ["gpcm/approx.py:Approximation.condition", "gpcm/approx.py:Approximation.p_u", "gpcm/approx.py:Approximation.q_u", "gpcm/approx.py:Approximation.p_z", "gpcm/approx.py:Approximation.q_z"]}
{"id": "C53", "title": "The fixed-point iteration stores its last iterate and stops as documented", "statement": "_fit_mean_field_ca runs at most iters iterations, stops early exactly when the change falls below 1e-6, invokes the callback once per iteration and stores the last iterate as the current q_u and q_z.", "quantifier": "all iteration maps, all initial states, all iters", "why_tests_cant": "never tested", "anchors": ["gpcm/approx.py:_fit_mean_field_ca"]}
{"id": "C54", "title": "Structured predictions use the samples that fit stored", "statement": "After fit and one conditioning, predictions and kernel samples average over exactly the first min(num_samples, 1000) stored samples; on an unconditioned model they use num_samples fresh prior samples.", "quantifier": "all num_samples, all stored samples", "why_tests_cant": "never tested", "anchors": ["gpcm/approx.py:Structured._sample_p_u", "gpcm/approx.py:_columns", "gpcm/approx.py:Structured.predict", "gpcm/approx.py:Structured.sample_kernel"]}
{"id": "C55", "title": "Every model can predict Fourier features", "statement": "predict_fourier() works for every approximation scheme of a conditioned model.", "quantifier": "all schemes, all num_samples", "why_tests_cant": "never tested", "anchors": ["gpcm/model.py:AbstractGPCM.predict_fourier", "gpcm/approx.py:Structured.predict_z", "gpcm/approx.py:MeanField.predict_z"]}
{"id": "C56", "title": "Monte-Carlo moments give a non-negative predictive variance", "statement": "If the per-sample second moment is at least the squared per-sample mean, the predictive variance returned by the structured predict is at least the observation noise, for any number of samples; with the predicted Fourier features the variance is non-negative.", "quantifier": "all sample counts and sample values", "why_tests_cant": "never tested", "anchors": ["gpcm/approx.py:Structured.predict", "gpcm/approx.py:Structured.predict_z"]}
{"id": "C57", "title": "ESS keeps its cached log-likelihood coherent and stays on the slice", "statement": "At every point of every run, the cached log-likelihood equals log_lik of the current state, and every accepted state has a log-likelihood strictly above a slice height that lies at or below that of the previous state.", "quantifier": "all likelihoods, all prior and uniform random streams, all histories of move and sample", "why_tests_cant": "one Gaussian target is tested statistically", "anchors": ["gpcm/sample.py:ESS.move", "gpcm/sample.py:ESS._draw", "gpcm/sample.py:ESS._sample"]}
{"id": "C58", "title": "ESS shrinks its bracket around the current state", "statement": "Throughout a draw the bracket contains angle 0 (the current state), each proposal angle lies in the bracket, every rejected angle becomes an end point, and the bracket never widens; every accepted state lies on the ellipse through the current state and the prior draw.", "quantifier": "all random streams and likelihoods", "why_tests_cant": "not observable in a statistical test", "anchors": ["gpcm/sample.py:ESS._draw_bracket", "gpcm/sample.py:ESS._draw", "gpcm/sample.py:ESS._draw_proposal"]}
{"id": "C59", "title": "ESS bounds its attempts and failures leave the chain untouched", "statement": "A draw makes at most 100 likelihood evaluations; a failed draw leaves the current state and cached likelihood unchanged and is retried with a fresh slice and ellipse; sample(n) returns exactly n states.", "quantifier": "all random streams and likelihoods", "why_tests_cant": "failure needs 100 consecutive rejections", "anchors": ["gpcm/sample.py:ESS._draw", "gpcm/sample.py:ESS._sample", "gpcm/sample.py:ESS.sample"]}
{"id": "C60", "title": "ESS reports the number of attempts", "statement": "The number of attempts reported for a sample is the number of proposals that were drawn.", "quantifier": "all runs", "why_tests_cant": "never tested", "anchors": ["gpcm/sample.py:ESS._draw", "gpcm/sample.py:ESS._sample"]}
{"id": "C61", "title": "Autocorrelation is normalised, bounded and complete", "statement": "autocorr(x) starts with 1 for every non-constant series, has len(x) entries (or min(lags+1, len(x))), and with window=True every entry lies in [-1,1]; with cov=True the first entry is the variance.", "quantifier": "all series of all lengths, all lags", "why_tests_cant": "never tested", "anchors": ["gpcm/util.py:autocorr"]}
{"id": "C62", "title": "Unwindowed autocorrelations are correlations", "statement": "autocorr(x) without a window lies in [-1,1].", "quantifier": "all series", "why_tests_cant": "never tested", "anchors": ["gpcm/util.py:autocorr"]}
{"id": "C63", "title": "The estimated PSD integrates to the kernel variance", "statement": "estimate_psd returns a non-negative PSD on increasing non-negative frequencies whose two-sided integral is k[0].", "quantifier": "all kernels with k[0] > 0, all paddings", "why_tests_cant": "never tested", "anchors": ["gpcm/util.py:estimate_psd"]}
{"id": "C64", "title": "The PSD frequency grid is right", "statement": "estimate_psd returns frequencies j/(N dt), j=0..N/2-1, with one PSD value each; the PSD is the cosine transform of the symmetrised zero-padded kernel up to one common factor; times not starting at zero are rejected.", "quantifier": "all kernels, paddings and spacings", "why_tests_cant": "never tested", "anchors": ["gpcm/util.py:estimate_psd"]}
{"id": "C65", "title": "Error bands of sample summaries are nested", "statement": "In summarise_samples the lower bands satisfy 99<=95<=68 and the upper bands 68<=95<=99 with lower<=upper, in both linear and decibel mode.", "quantifier": "all sample sets (positive in decibel mode)", "why_tests_cant": "never tested", "anchors": ["gpcm/util.py:summarise_samples"]}
{"id": "C66", "title": "The 68% band is a 68% band", "statement": "err_68_lower and err_68_upper enclose the central 68% of the samples.", "quantifier": "all sample sets", "why_tests_cant": "never tested", "anchors": ["gpcm/util.py:summarise_samples"]}
{"id": "C67", "title": "closest_psd fixes PSD matrices and inverts PD matrices", "statement": "For a symmetric positive-definite matrix closest_psd returns the matrix itself and, with inv=True, its inverse, whatever singular value decomposition the backend returns; the input is symmetrised first.", "quantifier": "all sizes, all positive-definite matrices, all valid SVDs", "why_tests_cant": "never tested", "anchors": ["gpcm/util.py:closest_psd", "gpcm/model.py:AbstractGPCM.sample", "gpcm/util.py:laplace_approximation"]}
{"id": "C68", "title": "closest_psd projects onto the PSD cone", "statement": "For every symmetric matrix and every valid SVD, closest_psd is the nearest positive semi-definite matrix in Frobenius norm.", "quantifier": "all symmetric matrices, all valid SVDs", "why_tests_cant": "never tested; depends on the SVD the backend picks for repeated singular values", "anchors": ["gpcm/util.py:closest_psd"]}
{"id": "C69", "title": "Saving and loading restores every variable", "statement": "load(save(model)) on any model gives every saved variable its saved value, leaves variables that were not saved untouched, and creates missing ones hidden from optimisation by visibility; loading twice is the same as loading once.", "quantifier": "all variable stores, all name sets", "why_tests_cant": "never tested", "anchors": ["gpcm/model.py:AbstractGPCM.save", "gpcm/model.py:AbstractGPCM.load"]}
{"id": "C70", "title": "Hessians are symmetric and only taken at column vectors", "statement": "hessian rejects every input that is not a column vector and returns a symmetric matrix equal to the true Hessian when that is symmetric.", "quantifier": "all shapes and functions", "why_tests_cant": "never tested", "anchors": ["gpcm/util.py:hessian"]}
{"id": "C71", "title": "Building models builds exactly what was asked for", "statement": "build_models returns exactly one model per requested known name, in the order GPCM, CGPCM, RGPCM, and raises iff an unknown name was requested.", "quantifier": "all lists of names with repetitions", "why_tests_cant": "never tested", "anchors": ["experiments/experiment.py:build_models"]}
{"id": "C72", "title": "RGPCM sizes and supports are consistent", "statement": "The default basis has 2*m_max+1 features, at least n_z when n_z is given; its support starts no later than min(t)-max(t_u) and ends at max(t), so all closed forms are queried inside their range for times in the data range.", "quantifier": "all constructor arguments", "why_tests_cant": "never tested", "anchors": ["gpcm/rgpcm.py:RGPCM.__init__"]}
{"id": "C73", "title": "Legal polynomial arithmetic never fails", "statement": "Adding, subtracting, multiplying, raising to a non-negative integer power and substituting polynomials never raises, and whether it raises does not depend on the hash seed.", "quantifier": "all polynomial programs, all set iteration orders, all kinds of constants", "why_tests_cant": "failure needs an intermediate cancellation in a group of at least three like terms under particular set orders", "anchors": ["gpcm/exppoly.py:_merge_common_terms", "gpcm/exppoly.py:Term.__add__", "gpcm/exppoly.py:Poly.__mul__"]}
{"id": "C74", "title": "RGPCM inducing-variable covariances stay exact while inducing points are learned", "statement": "For every admissible value of the learnable parameters, compute_I_uz at every data time equals the defining integral of the filter against the basis functions.", "quantifier": "all windows, scales, data sets, all parameter values inside their declared bounds", "why_tests_cant": "tests check one fixed parameter setting before any optimisation", "anchors": ["gpcm/rgpcm.py:RGPCM.__prior__", "gpcm/rgpcm.py:compute_I_uz"]}
{"id": "C75", "title": "RGPCM integrals are defined for every model that can be constructed", "statement": "compute_I_ux() returns numbers for every RGPCM built from a window, a scale and data.", "quantifier": "all windows, scales, data sets", "why_tests_cant": "the failing scale is an isolated irrational ratio for each number of inducing points", "anchors": ["gpcm/rgpcm.py:compute_I_ux", "gpcm/rgpcm.py:integral_abcd"]}
{"id": "C76", "title": "RGPCM frequency features are the RKHS projections they claim to be", "statement": "compute_K_z()[i,j] is the inner product of the basis functions of ms[i] and ms[j] in the reproducing kernel Hilbert space of exp(-lam|t-t'|) on [a,b], and the basis functions reproduce, so that they are the covariance between feature and process at every time, inside and outside [a,b].", "quantifier": "all parameters with lam > 0, a < b, all lists of distinct frequency indices, all times", "why_tests_cant": "tests compare against quadrature for a few indices", "anchors": ["gpcm/rgpcm.py:compute_K_z", "gpcm/rgpcm.py:psd_matern_12"]}
{"id": "C77", "title": "Predictive moments are those of the convolution given the inducing variables", "statement": "The mean and second moment that predictions use at a time, for given inducing variables u and z, are the mean and second moment of f(t) = int h(t-s) x(s) ds when h and x are independent Gaussian processes conditioned on u and z: the bilinear functional of the conditional covariances plus outer products of the conditional means.", "quantifier": "all integrals that come from one bilinear functional, all inducing points, all u and z", "why_tests_cant": "tests compare one configuration with a Monte-Carlo estimate", "anchors": ["gpcm/approx.py:_predict_moments", "gpcm/approx.py:construct_terms"]}
{"id": "C78", "title": "The reported effective sample size is that of the chain", "statement": "The effective sample size reported while sampling is n / (1 + 2 * the sum of the autocorrelations at positive lags), so that it does not exceed n for positively correlated chains.", "quantifier": "all chains of all lengths", "why_tests_cant": "tests only run the sampler; the value is printed and never compared", "anchors": ["gpcm/sample.py:ESS.sample", "gpcm/util.py:autocorr"]}
{"id": "C79", "title": "In decibel mode the reported variance is the variance in decibels", "statement": "summarise_samples(x, samples, db=True) reports the mean and the variance of the samples expressed in decibels.", "quantifier": "all sets of positive samples", "why_tests_cant": "tests do not call summarise_samples in decibel mode with a reference", "anchors": ["gpcm/util.py:summarise_samples"]}
{"id": "C80", "title": "Hyperparameters can be kept fixed with every scheme", "statement": "Fitting as the experiment scripts do with --fix-hypers completes for every scheme name and leaves the hyperparameters as they were.", "quantifier": "all scheme names, all data, all iters", "why_tests_cant": "tests do not combine the option with each scheme", "anchors": ["gpcm/approx.py:fit", "experiments/experiment.py:run", "gpcm/model.py:fit"]}
{"id": "C81", "title": "A loaded model can be trained like the one that was saved", "statement": "After load(path), the optimisers see the same variables as they did for the saved model.", "quantifier": "all variable stores, loaded before or after the model is first instantiated", "why_tests_cant": "tests load and predict but do not train after loading", "anchors": ["gpcm/model.py:AbstractGPCM.load", "gpcm/model.py:AbstractGPCM.save"]}
{"id": "C82", "title": "Fitting leaves earlier posteriors alone", "statement": "Fitting a model that has been conditioned any number of times changes no parameters and no stored samples of the posteriors of earlier conditionings.", "quantifier": "all schemes, all conditioning depths, all data, all iters, all optimisers that respect excluded names", "why_tests_cant": "tests condition at most once", "anchors": ["gpcm/approx.py:fit", "gpcm/approx.py:Approximation.ignore_qs", "gpcm/approx.py:Approximation.condition"]}
{"id": "C83", "title": "Filter predictions use the fitted posterior", "statement": "After fit and conditioning, predict_filter summarises filters given inducing variables drawn from the posterior that fit computed.", "quantifier": "all schemes, all data", "why_tests_cant": "tests only check that a prediction is returned", "anchors": ["gpcm/model.py:AbstractGPCM.predict_filter", "gpcm/approx.py:fit", "gpcm/approx.py:Approximation.p_u"]}
{"id": "C84", "title": "Covariances of inducing variables are invertible", "statement": "For distinct inducing points, the covariance matrices of the inducing variables are positive definite, so that instantiating the model can invert them; for repeated inducing points they are singular. Automatically chosen inducing points are distinct.", "quantifier": "all GPCMs and CGPCMs with positive gamma and all numbers and positions of inducing points", "why_tests_cant": "tests invert the matrices of a few default models", "anchors": ["gpcm/gpcm.py:compute_K_u", "gpcm/gpcm.py:compute_K_z", "gpcm/model.py:AbstractGPCM.__prior__"]}
{"id": "C85", "title": "Instantiating a model keeps the parameters it was constructed with", "statement": "A model that has been constructed can be instantiated: every initial value satisfies the constraint under which the parameter is learned, and the parameters are afterwards those that the constructor set.", "quantifier": "all constructor arguments of all models, all fix_* switches", "why_tests_cant": "tests instantiate default models", "anchors": ["gpcm/gpcm.py:GPCM.__prior__", "gpcm/rgpcm.py:RGPCM.__prior__", "gpcm/gpcm.py:GPCM.__init__"]}
{"id": "C86", "title": "A model from its constructor yields well-defined inference and predictions", "statement": "A GPCM or CGPCM constructed with reasonable settings has distinct inducing points and positive parameters; for every such model and all data, the matrices and integrals it hands to its approximations are those of one joint Gaussian model: every conditional posterior is a proper distribution, coordinate ascent never decreases the ELBO, and no predictive variance is below the noise variance.", "quantifier": "all windows, scales and data within the stated ranges, all data times and observations, all prediction times, all samples, all numbers of iterations", "why_tests_cant": "tests run a few fits and cannot check that the integrals of all models fit together", "anchors": ["gpcm/gpcm.py:GPCM.__init__", "gpcm/model.py:AbstractGPCM.__prior__", "gpcm/approx.py:Approximation.construct_terms", "gpcm/approx.py:Structured.predict", "gpcm/approx.py:MeanField.predict"]}
{"id": "C87", "title": "Draws from the prior have a valid kernel and the covariance of the prior", "statement": "The kernel that kernel_approx returns is positive semi-definite with positive variances at every finite set of times, whatever the inducing variables are. sample therefore returns a valid kernel (with variance one at the first time if normalise is set), a function whose covariance given that kernel is the kernel plus the noise, and, averaged over kernels, a function with the covariance of the prior plus the noise.", "quantifier": "all GPCMs and CGPCMs, all finite families of times, all values of the inducing variables, both values of normalise", "why_tests_cant": "tests look at shapes of a few draws", "anchors": ["gpcm/model.py:AbstractGPCM.kernel_approx", "gpcm/model.py:AbstractGPCM.sample", "gpcm/gpcm.py:compute_i_hx", "gpcm/gpcm.py:compute_I_ux", "gpcm/util.py:closest_psd"]}
{"id": "C88", "title": "min_phase returns the minimum-phase filter with the same gains", "statement": "For every filter whose Fourier transform has no zero, min_phase returns the one filter of the same length that has the same gain at every frequency of the transform and minimum phase (its log-response is the transform of a causal sequence); the energy is kept, transforming twice changes nothing, and filters with the same gains are given the same result. If the transform has a zero, the result consists of nans.", "quantifier": "all real filters of all lengths", "why_tests_cant": "tests cannot enumerate filters; even and odd lengths use different weights", "anchors": ["gpcm/util.py:min_phase", "gpcm/model.py:AbstractGPCM.predict_filter"]}
{"id": "C89", "title": "min_phase keeps the autocorrelation of the filter", "statement": "The minimum-phase version of a filter generates from white noise a process with the same covariance: the autocorrelation of the filter is unchanged.", "quantifier": "all real filters of all lengths, all lags", "why_tests_cant": "tests cannot enumerate filters and lags", "anchors": ["gpcm/util.py:min_phase", "gpcm/model.py:AbstractGPCM.predict_filter"]}
{"id": "C90", "title": "Every evidence lower bound is a lower bound of the evidence", "statement": "The value of the mean-field ELBO, collapsed over nothing, z or u, never exceeds the logarithm of the evidence: the integral over the inducing variables of the exponentiated expected log-likelihood against the current priors. Before conditioning, the values are in the order ELBO <= ELBO collapsed over z <= structured ELBO <= log-evidence, the average of elbo_collapsed_z over its random samples is exactly the structured ELBO for every number of samples, and elbo_gibbs returns the logarithm of the integral over z of the joint density at the sample of u that it returns. The log-evidence is at most the log-likelihood of the observations under the model.", "quantifier": "all models, data sets, inducing-point counts, observations, proper priors and posteriors, numbers of samples", "why_tests_cant": "the evidence is an integral over a space of the dimension of the inducing variables, and the claim is an inequality for all posteriors", "anchors": ["gpcm/approx.py:MeanField.elbo", "gpcm/approx.py:Structured.elbo_collapsed_z", "gpcm/approx.py:Structured.elbo_gibbs", "gpcm/approx.py:Structured.log_Z_u"]}
{"id": "C91", "title": "The structured ELBO of a conditioned model is a lower bound of its evidence", "statement": "After conditioning, when the previous posteriors are the priors, the average of elbo_collapsed_z over its samples is at most the logarithm of the evidence under those priors.", "quantifier": "all conditioned models, data sets, posteriors and numbers of samples", "why_tests_cant": "the evidence is an integral and the claim is an inequality for all posteriors", "anchors": ["gpcm/approx.py:Structured.elbo_collapsed_z", "gpcm/approx.py:Structured.log_Z_u", "gpcm/approx.py:Approximation.p_z", "gpcm/approx.py:Approximation.condition"]}
{"id": "C92", "title": "The Laplace approximation matches the density at its mode", "statement": "If the optimiser returns a maximiser at which the log-density has a negative definite Hessian, laplace_approximation returns a proper normal distribution centred at the maximiser, where the gradient vanishes, whose log-density has the same mode and the same Hessian there. For log-densities that are normal up to a constant it returns exactly the normal distribution, and with f_eval the mean of the one and the variance of the other.", "quantifier": "all dimensions, log-densities, starting points, optimisers, symmetric and asymmetric automatic derivatives, both uses of f_eval", "why_tests_cant": "tests try a few densities with numerical tolerances", "anchors": ["gpcm/util.py:laplace_approximation", "gpcm/util.py:maximum_a_posteriori", "gpcm/util.py:hessian", "gpcm/util.py:closest_psd"]}
{"id": "C93", "title": "Sampled filters are the process given its inducing variables", "statement": "Each sample of predict_filter is the process with kernel k_h conditioned on a sample of the inducing variables: the samples have the mean and covariance of that process averaged over the distribution of the inducing variables; without regularisation every single sample takes the sampled inducing variables as its values at the inducing points; for causal models every sample is exactly zero at negative times.", "quantifier": "all kernels, inducing points, distributions of the inducing variables, times and random draws", "why_tests_cant": "moments of the samples are averages over all draws, and interpolation and causality must hold for each", "anchors": ["gpcm/model.py:AbstractGPCM.predict_filter", "gpcm/gpcm.py:GPCM.k_h", "gpcm/rgpcm.py:RGPCM.k_h"]}
{"id": "C94", "title": "Predicting the filter with the prior gives back the prior of the filter", "statement": "If no data has been observed, the filters that predict_filter samples have mean zero and the covariance of the filter under the prior of the model, at all times.", "quantifier": "all models and times", "why_tests_cant": "the covariance is an average over all draws and the claim is for all times", "anchors": ["gpcm/model.py:AbstractGPCM.predict_filter", "gpcm/gpcm.py:GPCM.k_h", "gpcm/rgpcm.py:RGPCM.k_h", "gpcm/gpcm.py:compute_K_u", "gpcm/rgpcm.py:compute_K_u"]}
{"id": "C95", "title": "predict_filter reports on the minimum-phase versions of the samples", "statement": "predict_filter reports, for every time, the mean, variance and values of the filters: of the samples themselves if min_phase is unset, with the given times, and otherwise of the one minimum-phase filter with the gains of the sample, for every sample, with the times shifted to start at zero. The default times are 601 evenly spaced times over the support of the filter on both sides of zero. Without samples there is an error.", "quantifier": "all models, times, numbers of samples and random draws", "why_tests_cant": "tests look at shapes for one model", "anchors": ["gpcm/model.py:AbstractGPCM.predict_filter", "gpcm/util.py:min_phase", "gpcm/util.py:summarise_samples"]}
{"id": "C96", "title": "Predicted kernels are covariance functions of stationary processes", "statement": "Whatever the inducing variables of the filter are, the kernel that kernel_approx returns for the GPCM, CGPCM and RGPCM depends on the lag only, is even, strictly positive definite at distinct times, strictly largest at lag zero and tends to zero for large lags. Every sample of sample_kernel is the value of such a kernel at the requested times (by default 300 evenly spaced times from zero to the extent), and predict_kernel reports the mean, variance and values of these samples at every time.", "quantifier": "all models whose parameters satisfy their constraints, all values of the inducing variables, all finite sets of times, all numbers of samples", "why_tests_cant": "positive definiteness must hold for every finite set of times and every value of the inducing variables, the limit for all large lags", "anchors": ["gpcm/model.py:AbstractGPCM.kernel_approx", "gpcm/model.py:AbstractGPCM.sample_kernel", "gpcm/model.py:AbstractGPCM.predict_kernel", "gpcm/approx.py:Structured.sample_kernel", "gpcm/approx.py:MeanField.sample_kernel"]}
{"id": "C97", "title": "Predicted kernels are normalised", "statement": "sample_kernel and predict_kernel, which document that they normalise the prediction, return samples whose mean variance is one.", "quantifier": "all models, samples of the inducing variables and times", "why_tests_cant": "the variance is unbounded over the samples", "anchors": ["gpcm/model.py:AbstractGPCM.predict_kernel", "gpcm/model.py:AbstractGPCM.sample_kernel"]}
{"id": "C98", "title": "Predicted power spectral densities are in decibels", "statement": "predict_psd returns, at the frequencies j / (N dt), the statistics of the power spectral densities of the sampled kernels in decibels, all of which are numbers. Times that do not start at zero are refused; the default is 1000 evenly spaced times from zero to twice the extent.", "quantifier": "all models, samples of the inducing variables, numbers and spacings of times", "why_tests_cant": "whether the normaliser is positive depends on the kernel and the grid together", "anchors": ["gpcm/model.py:AbstractGPCM.predict_psd", "gpcm/util.py:estimate_psd", "gpcm/util.py:summarise_samples"]}
{"id": "C99", "title": "The RGPCM is well posed from its constructor to its predictions", "statement": "For an RGPCM constructed from a window and a scale of at most the window, and for its versions with learned parameters whose inducing points stay distinct and within the extent and whose decays avoid the singularity of compute_I_ux, construct_terms gives the approximations a well-posed problem at all times of the support: the prior covariances are positive definite, the covariances of the filter, the excitation and the output are jointly positive semi-definite, and the inducing variables never explain more than the prior variance. Hence every conditional of the structured scheme is a proper distribution, coordinate ascent never decreases the ELBO and keeps the posteriors proper, and no predictive variance is below the noise.", "quantifier": "all windows, scales, data, learned parameters, times in the support and observations", "why_tests_cant": "the residual variance involves infinite-dimensional projections of the excitation and of the filter for every time and every set of frequencies", "anchors": ["gpcm/rgpcm.py:RGPCM", "gpcm/rgpcm.py:compute_K_u", "gpcm/rgpcm.py:compute_K_z", "gpcm/rgpcm.py:compute_I_ux", "gpcm/rgpcm.py:compute_I_hz", "gpcm/rgpcm.py:compute_I_uz", "gpcm/approx.py:Approximation.construct_terms", "gpcm/approx.py:Structured.predict", "gpcm/approx.py:MeanField.predict"]}
{"id": "C100", "title": "A slice-sampling move is reversible with respect to the posterior", "statement": "Every successful pass of the elliptical slice sampler from a state x to a state x' has a reverse pass from x' to x with the same slice height, the same rejected points and as many angles, and reversing twice gives back the random numbers of the pass. The posterior density of x (a zero-mean normal prior times the likelihood) times the density with which the pass draws its random numbers equals the posterior density of x' times the density with which the reverse pass draws its own.", "quantifier": "every history of move and sample calls, every generator whose uniform numbers lie between their limits and whose exponential numbers are positive, every likelihood, every precision matrix of the prior in any dimension, every number of rejected angles", "why_tests_cant": "a wrong slice height, bracket or proposal changes the stationary distribution without making any single sample look wrong", "anchors": ["gpcm/sample.py:ESS", "gpcm/sample.py:ESS._sample", "gpcm/sample.py:ESS._draw", "gpcm/sample.py:ESS._draw_proposal", "gpcm/sample.py:ESS._draw_bracket"]}
{"id": "C101", "title": "Sampling with retries is reversible", "statement": "The move from one sample to the next, including passes that fail after 100 attempts and are retried, is reversible: a run that leads from x to x' with a retry has a counterpart from x' to x with a retry.", "quantifier": "every likelihood, every state, every sequence of random numbers", "why_tests_cant": "failed passes are rare events of a hundred rejections in a row; their effect on the distribution of samples cannot be observed in a test", "anchors": ["gpcm/sample.py:ESS._sample", "gpcm/sample.py:ESS._draw", "gpcm/sample.py:SampleFailedException"]}
{"id": "C102", "title": "Gibbs sampling leaves the posterior invariant", "statement": "The posterior density of u and z (the exponential of the expected log-likelihood times the priors) satisfies detailed balance with respect to both updates of the Gibbs sampler, and any number of sweeps turns the posterior density into itself. The states are computed from their noises with the densities of the optimal conditionals.", "quantifier": "every well-posed model with any number of inducing variables, every data set, every number of sweeps, before conditioning", "why_tests_cant": "invariance is a statement about integrals over all states", "anchors": ["gpcm/approx.py:Structured.elbo_gibbs", "gpcm/approx.py:fit", "gpcm/approx.py:Approximation.q_u_optimal", "gpcm/approx.py:Approximation.q_z_optimal", "gpcm/normal.py:NaturalNormal.sample"]}
{"id": "C103", "title": "Gibbs sampling of a conditioned model leaves its posterior invariant", "statement": "After conditioning, when the previous posteriors are the priors, a sweep of the Gibbs sampler leaves the posterior under those priors invariant.", "quantifier": "every well-posed model, every data set, every history of conditioning", "why_tests_cant": "invariance is a statement about integrals over all states", "anchors": ["gpcm/approx.py:Approximation.condition", "gpcm/approx.py:Approximation.p_u", "gpcm/approx.py:Approximation.p_z", "gpcm/approx.py:Approximation.q_u_optimal", "gpcm/approx.py:Approximation.q_z_optimal", "gpcm/approx.py:fit"]}
{"id": "C104", "title": "Coordinate ascent stops by its tolerance", "statement": "Fitting a mean-field approximation by coordinate ascent always reaches its tolerance: with a large enough limit on the iterations the result does not depend on the limit. The stored posteriors are proper, the one for z is optimal for the one for u, the one for u is optimal for the previous one for z, the last callback gets what is stored, and the summed root-mean-square changes since the previous iteration are below 1e-6.", "quantifier": "every well-posed model of any size, every data set, every proper start, conditioned or not; every GPCM and RGPCM from its constructor", "why_tests_cant": "termination from every start is not a finite claim; a test sees only the starts it tries and cannot tell a slow fit from one that never stops", "anchors": ["gpcm/approx.py:_fit_mean_field_ca", "gpcm/approx.py:Approximation.q_u_optimal_mean_field", "gpcm/approx.py:Approximation.q_z_optimal_mean_field", "gpcm/approx.py:fit"]}
{"id": "C105", "title": "The order of observations and the other prediction times do not matter", "statement": "Putting the observations in another order changes nothing: the constructed model, the optimal posteriors, the evidence lower bounds, the fit by coordinate ascent with all its callbacks, the Gibbs chain for the same noise and the predictions are the same. A prediction at a time is the prediction for that time alone, whatever other times are asked for.", "quantifier": "every model (also ones that are not well posed), every data set and every permutation of it, every list of prediction times", "why_tests_cant": "a test tries a few permutations of a few data sets", "anchors": ["gpcm/approx.py:Approximation.construct_terms", "gpcm/approx.py:MeanField.predict", "gpcm/approx.py:Structured.predict", "gpcm/gpcm.py:GPCM", "gpcm/rgpcm.py:RGPCM", "gpcm/gpcm.py:compute_I_hz", "gpcm/rgpcm.py:compute_I_hz"]}
{"id": "C106", "title": "The unit and the origin of time do not matter to the RGPCM", "statement": "Measuring time in another unit from another origin, with the window, the scale, the inducing points and the bounds of the domain converted, gives the same model or the same exception, and all kernel matrices, all integrals and hence every fit and every prediction are the same.", "quantifier": "every positive factor and every shift, every set of arguments (also ones for which the constructor fails), every list of times, before and after learning", "why_tests_cant": "a test tries a few units; a constant with a hidden unit shows only far from the default scale", "anchors": ["gpcm/rgpcm.py:RGPCM", "gpcm/rgpcm.py:compute_K_u", "gpcm/rgpcm.py:compute_K_z", "gpcm/rgpcm.py:compute_i_hx", "gpcm/rgpcm.py:compute_I_ux", "gpcm/rgpcm.py:compute_I_hz", "gpcm/rgpcm.py:compute_I_uz"]}
{"id": "C107", "title": "Equal expressions hash equally, so that merging and comparing polynomials does not depend on hashes", "statement": "Two factors or terms that compare equal have the same hash, whatever the order of their factors. Hence the sets by which factors and terms are merged contain exactly one representative of every variable name and of every set of factors, however hashes collide, and `p == q` of two polynomials is True exactly when they have the same set of terms, and never raises. (The last part fails: a polynomial with a tensor as coefficient, which is not hashable, raises a TypeError when compared with anything, also itself.)", "quantifier": "every hash function of strings and integers, every order-independent hash of sets, every hash of numbers that respects equality, every pair of polynomials and every order of their factors and terms", "why_tests_cant": "hashes of strings are randomised per process, so a test sees one hash function; collisions are rare and cannot be provoked by a test", "anchors": ["gpcm/exppoly.py: Factor.__hash__, Term.__hash__, Factor.__eq__, Term.__eq__, Poly.__eq__, _merge_common_factors, _merge_common_terms"]}
{"id": "C108", "title": "Equal polynomials print equally", "statement": "Polynomials that compare equal print as the same string, in every process. (This fails: the terms are printed in the order of a set, and a term that was cancelled is printed as a zero. What holds: every term prints the same in whatever order its factors were given or stored, equal polynomials print the same terms, and if none was cancelled then each equally often.)", "quantifier": "every pair of equal polynomials, every way to build them and every order of sets", "why_tests_cant": "the order of a set of strings changes with the hash seed of the process; a test sees the orders that happen to occur", "anchors": ["gpcm/exppoly.py: Factor.__str__, Term.__str__, Poly.__str__"]}
{"id": "C109", "title": "The options of an experiment are those that training uses", "statement": "An experiment started with `--iters n` trains every model for n iterations, without `--iters` for the default number, and optimises the hyperparameters unless `--fix-hypers` is given. (This fails for `--iters 0`: the option is dropped and training runs the default number of iterations.)", "quantifier": "every combination of the options and every default of the fitting method", "why_tests_cant": "tests do not run experiments from the command line, and the dropped value looks like a run with defaults", "anchors": ["experiments/experiment.py: setup, run", "gpcm/approx.py: fit"]}
{"id": "C110", "title": "The test whether data are equally spaced depends on the spacing only", "statement": "The autocorrelation of the data is shown exactly when the time points are roughly equally spaced: the decision depends neither on the unit nor on the origin of time, evenly spaced data pass, and fewer than three points raise an error. (The origin matters: changes of the spacing are compared with the largest absolute time, so that any times pass once their origin is far enough.)", "quantifier": "every list of time points, every unit and every origin of time", "why_tests_cant": "a test has one origin of time; the failure needs the same data twice, with a different calendar", "anchors": ["experiments/experiment.py: analyse_plots"]}
{"id": "C111", "title": "The plots of Fourier features pair features with their frequencies", "statement": "In the panels of cosine and sine features of an RGPCM, every plotted estimate belongs to the cosine or sine basis function of the frequency it is plotted at, and every feature is plotted. (The panel of sine features also shows the constant feature, at frequency zero.)", "quantifier": "every RGPCM: every support, number of features and order of the feature indices", "why_tests_cant": "plots are not tested, and the pairing must hold for every order of the indices", "anchors": ["experiments/experiment.py: analyse_plots", "gpcm/rgpcm.py: RGPCM"]}
{"id": "C112", "title": "The error lines of predictions are two standard deviations of an observation", "statement": "In the plots of predictions, the dark and light bands are one and two standard deviations, and the dashed lines, labelled as the error of model and noise, are at two standard deviations of a new observation. (The dashed lines are not: the predicted variance already has the noise in it and they add it again. They are at most a factor sqrt(2) too wide.)", "quantifier": "every well-posed model, both approximations, every set of samples and every prediction time", "why_tests_cant": "plots are not tested, and the excess is small unless the noise dominates", "anchors": ["experiments/experiment.py: analyse_plots", "gpcm/approx.py: Structured.predict, MeanField.predict"]}
{"id": "C113", "title": "The unit and the origin of time do not matter to the GPCM and the CGPCM", "statement": "Measuring time in another unit from another origin, with the window, the scale, the inducing points and all rates converted, gives the same model or the same exception. The filter is a square root of a rate, so its prior and its integrals change by the corresponding power of the unit and everything else stays the same: all optimal posteriors are the same up to that unit, and all evidence bounds, Gibbs chains, sampled kernels and predictions are exactly the same. (The fit by coordinate ascent visits the same iterates but need not stop at the same one: its tolerance 1e-6 compares precisions, which have a unit. The objective of the Gibbs hyperparameter steps is shifted by a constant.)", "quantifier": "every positive factor and every shift, every set of arguments (also ones for which the constructor fails), every model whose rates are within the limits of safe square roots on both clocks, every list of times and data", "why_tests_cant": "a test tries a few units; a constant with a hidden unit shows only far from the default scale", "anchors": ["gpcm/gpcm.py:GPCM", "gpcm/gpcm.py:compute_K_u", "gpcm/gpcm.py:compute_I_ux", "gpcm/gpcm.py:compute_I_uz", "gpcm/approx.py:MeanField", "gpcm/approx.py:Structured", "gpcm/approx.py:_fit_mean_field_ca"]}
{"id": "C114", "title": "The order of the inducing points does not matter", "statement": "A model built with the same inducing points of the filter and of the excitation in another order (GPCM and CGPCM), or with the same inducing points and frequencies in another order (RGPCM), is the same model: every optimal posterior, every coordinate-ascent fit with all of its callbacks, every Gibbs sample for the same noise, every sample of the kernel and every feature of the predicted excitation is the same with its components in the other order, and every bound, density and prediction is the same number.", "quantifier": "all good models, all permutations of both sets of inducing points, all data and prediction times, all data, all states of the approximations and all noise", "why_tests_cant": "Tests build the inducing points with the default grids, which are always sorted; that no formula uses that they are sorted or evenly spaced needs every permutation.", "anchors": ["gpcm/gpcm.py:GPCM.__init__", "gpcm/rgpcm.py:RGPCM.__init__", "gpcm/approx.py:construct_terms", "gpcm/approx.py:Structured", "gpcm/approx.py:MeanField", "gpcm/model.py:Model"]}
{"id": "C115", "title": "The non-causal GPCM has no arrow of time", "statement": "If the times of the data run backwards (t becomes d - t), the non-causal GPCM that the constructor builds for them, with more than one inducing point each, is the mirror image of the model for the data: bounds are the same numbers, predictions at the times in reverse are the same, coordinate-ascent fits are the same with the inducing variables in reverse order, and so are the quantities from which the kernel is computed.", "quantifier": "all offsets d, all data and prediction times, all settings of the automatic constructor (including extended inducing points), all data values, all states of the approximations", "why_tests_cant": "Symmetry under reversal relates two different models with different grids; a test compares one model with recorded values and floating point hides small asymmetries of the formulas.", "anchors": ["gpcm/gpcm.py:GPCM.__init__", "gpcm/gpcm.py:GPCM.compute_I_uz", "gpcm/gpcm.py:GPCM.compute_I_hz", "gpcm/gpcm.py:GPCM.compute_I_ux", "gpcm/approx.py:construct_terms"]}
{"id": "C116", "title": "The unit and the sign of the signal do not matter", "statement": "Measuring the signal in another unit, with the scaling of the filter and the noise converted (y becomes c y, alpha_t becomes c alpha_t, noise becomes c^2 noise), changes nothing but units: all posteriors, Gibbs chains and coordinate-ascent fits of the RGPCM are exactly the same, those of the GPCM and the CGPCM are the same up to the unit of the filter, predicted means are multiplied by c and predicted variances by c^2, and every bound on the evidence shifts by -n log|c|, the density of the change of unit. Data with the other sign give the filter with the other sign, predictions with the other sign and otherwise exactly the same numbers. (In the GPCM and the CGPCM the fit by coordinate ascent visits the same iterates but need not stop at the same one: its tolerance 1e-6 compares precisions, which have a unit.)", "quantifier": "every unit c, every set of constructor arguments that gives alpha_t, every good model, all times and data, all states of the approximations, all noise", "why_tests_cant": "a test tries a few units; a constant with a hidden unit (a jitter, a tolerance, a normalisation) shows only for signals far from order one", "anchors": ["gpcm/gpcm.py:GPCM", "gpcm/rgpcm.py:RGPCM", "gpcm/approx.py:construct_terms", "gpcm/approx.py:MeanField", "gpcm/approx.py:Structured", "gpcm/approx.py:_fit_mean_field_ca"]}
{"id": "C117", "title": "More inducing points never make the best bound worse", "statement": "Take a GPCM, CGPCM or RGPCM and the same model with only some of its inducing points (for the RGPCM: some of its points and frequencies), both conditioned on the same data. Every mean-field posterior of the smaller model is also one of the larger model: there is a posterior of the larger model with the same ELBO, the same KL divergences and the same predictions at all times. Hence the best ELBO of the larger model, collapsed or not, is at least the best of the smaller one, and fitting the larger model from the posterior that the smaller one was fitted to ends at an ELBO that is at least as high. For the structured approximation, given any filter, the log-evidence with more inducing points of the excitation is at least that with fewer, and so is the collapsed bound for the same samples.", "quantifier": "all models with well-defined kernels, all subsets of their inducing points in any order, all data and prediction times, all proper posteriors, all options `collapsed`, all numbers of iterations and all samples", "why_tests_cant": "a test compares two fits of two sizes; that no posterior of the smaller model is lost, for any data and any subset of points, is a statement about all posteriors, and fits in a test stop at different local optima", "anchors": ["gpcm/approx.py:Approximation.construct_terms", "gpcm/approx.py:MeanField.elbo", "gpcm/approx.py:MeanField.predict", "gpcm/approx.py:Structured.log_Z_u", "gpcm/gpcm.py:GPCM", "gpcm/rgpcm.py:RGPCM"]}
{"id": "C118", "title": "Observations add information, one by one", "statement": "What a data set adds to the prior, in the natural parameters of every optimal posterior (of the filter given the excitation, of the excitation given the filter, and of both mean-field updates), is the sum of what each of its observations alone would add; so is the expected log-likelihood in the ELBO. Conditioned on a data set that contains another one, in any order, every optimal posterior is at least as certain: no linear combination of the inducing variables has a larger variance. In particular no posterior, also at the end of a coordinate-ascent fit, is less certain than the prior.", "quantifier": "all models with well-defined kernels, all data sets and all of their subsets in any order, all values of the conditioning variables or proper posteriors, all linear combinations, all numbers of iterations of at least one", "why_tests_cant": "a test compares variances for a few data sets; that no direction gains variance is a statement about all directions and all subsets", "anchors": ["gpcm/approx.py:Approximation.construct_terms", "gpcm/approx.py:Structured.q_u_optimal", "gpcm/approx.py:Structured.q_z_optimal", "gpcm/approx.py:MeanField", "gpcm/approx.py:_fit_mean_field_ca"]}
{"id": "C119", "title": "Without data, posteriors and predictions are those of the prior", "statement": "Before a model is conditioned, its predictions have mean zero and, at every time, the same variance: the power of the process (one, when the scaling of the filter is left to the constructor) plus the variance of the noise; no trace of the inducing variables is left. Conditioning on no observations changes nothing: every optimal posterior is the prior, a coordinate-ascent fit from any start ends at the prior, predictions after it are those of the prior, the ELBO is minus the two KL divergences and is zero at the prior only, and the log-evidence is zero.", "quantifier": "all models with well-defined kernels, all prediction times, all states of the approximation before conditioning, all starts and numbers of iterations of fits, all samples", "why_tests_cant": "that the correction terms of the approximation cancel exactly for all times and all sets of inducing points is not visible from a few predictions with a tolerance", "anchors": ["gpcm/approx.py:Approximation.construct_terms", "gpcm/approx.py:MeanField.predict", "gpcm/approx.py:MeanField.elbo", "gpcm/approx.py:_fit_mean_field_ca", "gpcm/gpcm.py:GPCM.compute_i_hx", "gpcm/rgpcm.py:RGPCM.compute_i_hx"]}
{"id": "C120", "title": "The signs of filter and excitation are only determined together", "statement": "Changing the signs of the inducing variables of filter and excitation at once changes nothing that is observable about the signal: optimal posteriors, fits and Gibbs chains from the mirrored start are the mirror images of those from the original one, and all bounds, predictions and kernels are the same, while predictions of the excitation change sign. Hence a mean-field coordinate-ascent fit from a start in which all means are zero keeps all means zero and predicts zero, whatever the data are.", "quantifier": "all models, data sets, states of the approximation, numbers of iterations, noises of samplers and prediction times", "why_tests_cant": "a test sees one fit; that no data whatsoever can break the symmetry is a statement about all data and all numbers of iterations", "anchors": ["gpcm/approx.py:MeanField.predict", "gpcm/approx.py:Structured.predict", "gpcm/approx.py:_fit_mean_field_ca", "gpcm/approx.py:_fit_structured", "gpcm/model.py:GPApproximation.predict_z"]}
{"id": "C121", "title": "The crude-oil experiment reports in the unit of the data", "statement": "The predictions, kernels and power spectral densities that the crude-oil experiment saves are those of the data, not of the data after normalisation: predictive means and variances are transformed by an affine map and by its squared scale, the mean and the variance of the kernel by the squared and the fourth power of the scale, and power spectral densities in decibels move by 20 log10 of the scale.", "quantifier": "all training data with a positive standard deviation, all samples of kernels and power spectral densities, all predictions", "why_tests_cant": "a wrong power of the scale or a wrong base of a logarithm is invisible when the data have unit scale, and plots in decibels have no reference value to compare with", "anchors": ["experiments/paper/crude_oil.py", "gpcm/util.py:summarise_samples", "gpcm/util.py:estimate_psd"]}
{"id": "C122", "title": "The splits of the data do not leak", "statement": "The training and test points of the crude-oil experiment are a partition of the observations of the year, test points are exactly those in the odd weeks from the 27th to the 51st, no day contributes to both, and the normaliser and the training data do not depend on the values of test points. For the VIX forecasts the first Monday of a year is found within seven days; the training data, and the data that a forecast is conditioned on, lie on earlier days than what is forecast and do not depend on it; both are counted in days since the first observation that is conditioned on; every observation in the hundred weeks is forecast exactly once; and an empty window raises.", "quantifier": "all data sets with any times and values, all years of the calendar, all numbers of forecasts", "why_tests_cant": "a test looks at one data set; leakage at a boundary shows for particular times only and does not raise", "anchors": ["experiments/paper/crude_oil.py", "experiments/paper/vix_forecast.py:first_monday", "experiments/paper/vix_forecast.py:get_data"]}
{"id": "C123", "title": "The spectrum shown for the VIX is the power spectral density of the prior", "statement": "The spectrum that the analysis of the VIX subtracts, in decibels, is the Fourier transform of the covariance function of the signal under the prior of the RGPCM, and the two components of the decomposition that it shows add up, in decibels, to the predicted spectrum: they are the spectra of filter and excitation up to one constant factor for all frequencies and models, and the order of error bounds is kept.", "quantifier": "all decays and scales of the RGPCM, all frequencies, all spectra", "why_tests_cant": "that a closed form is an integral over the whole line at every frequency is not settled by numerical integration at a few", "anchors": ["experiments/paper/vix_analyse.py", "gpcm/rgpcm.py:RGPCM.compute_i_hx"]}
{"id": "C124", "title": "The plots of the priors show even functions and statistics of powers", "statement": "The samples of kernels and spectra that the figure of the priors shows are extended to negative inputs as even functions on an ordered grid with zero once, pairing inputs with values; means and quantiles of spectra are taken of powers and not of decibels, so that they agree with those of predictions, and the mean of decibels would be at most that. The kernel of the data of the spectral-mixture experiment is stationary with unit variance and is what predictions are compared with.", "quantifier": "all samples with positive powers, all grids from zero, all statistics, all pairs of inputs of the kernel", "why_tests_cant": "plots are not tested, and a test of a few samples does not show that statistics agree for all", "anchors": ["experiments/paper/priors.py:_extract_samples", "experiments/paper/priors.py", "gpcm/util.py:summarise_samples", "experiments/paper/smk.py"]}
{"id": "C125", "title": "Run times are measured without pauses", "statement": "In the comparison of inference schemes every value that is tracked has the time since the start less all pauses before it; times are non-negative and in order, whatever happened; what is plotted starts at zero, and raises if there are too few values. The callbacks track the first eighteen iterations and every fifth afterwards, so that an ascending curve stays ascending, and the running maximum shows the best value so far.", "quantifier": "all histories of measurements and pauses that do not overlap, with all readings of a monotone clock, all sequences of values", "why_tests_cant": "timings differ in every run, so that a test cannot compare them with expected values", "anchors": ["experiments/paper/compare_inference.py:Tracker", "experiments/paper/compare_inference.py:callback"]}
{"id": "C126", "title": "Comparing two models is antisymmetric", "statement": "Comparing two models by paired metrics reports the difference of their means with its standard error and a p-value: exchanging the models changes the sign of the difference and nothing else, the order of the test sets and an offset of the metric do not matter, the p-value is at most one half and one half only for equal means, and there is no p-value exactly if all differences are the same.", "quantifier": "all pairs of non-empty lists of metrics of the same length, all permutations and offsets", "why_tests_cant": "a test compares a few numbers; invariance under all permutations and offsets is a universal statement", "anchors": ["experiments/paper/vix_forecast_process.py:compare", "experiments/paper/crude_oil_aggregate.py"]}
{"id": "C127", "title": "The toy experiments fit and show what they claim", "statement": "The toy experiments generate data at 881 times in order, remove exactly those between -8.8 and 8.8 with their values and keep 352 on either side; their plots show the predictions in the removed region, at times in order; the kernel of the spectral mixture example is stationary with unit variance; the Mauna Loa example keeps the last observations paired with their times, from time zero, with zero mean and unit variance.", "quantifier": "all values at the times, all pairs of arguments of the kernel, all series with a non-constant end", "why_tests_cant": "the experiments are run by hand and the plots are not checked; the claims range over all data", "anchors": ["experiments/eq.py", "experiments/smk.py", "experiments/mauna_loa.py"]}
{"id": "C128", "title": "Forecasts use the data that they are conditioned on", "statement": "Conditioning a fitted model on a window of observations and predicting makes a forecast that depends on the values in that window: with each inference scheme there are values that give another predictive mean. With the structured scheme the predictive mean is linear in the values, zero for zero values, and depends on earlier data only through the samples of the filter.", "quantifier": "all models, fitted posteriors, windows, values and times of prediction", "why_tests_cant": "a test compares forecasts for one window; linearity and independence are claims about all values", "anchors": ["gpcm/approx.py:_Approximation.condition", "gpcm/approx.py:Structured.predict", "gpcm/approx.py:MeanField.predict", "experiments/paper/vix_forecast.py"]}
{"id": "C129", "title": "Interpolated samples show the kernels of the interpolated filters", "statement": "When the experiments interpolate between a smooth and a rough sample, whatever was drawn, every kernel that is shown is the one of the filter that is shown beside it: both belong to the same values at the inducing points. Kernels are normalised to unit variance at all times, positive semi-definite, stationary and at most one; the value at the third inducing point, which is at time zero, starts within 0.01 of zero and grows with the weight. The filter takes the values at the inducing points up to the regularisation, and does not depend on those at negative times.", "quantifier": "all models, all sequences of draws for which the loops end, all times, all regularisations", "why_tests_cant": "the experiments use one seed; the loops end after a random number of draws", "anchors": ["experiments/paper/sample_interpolation.py:sample", "experiments/paper/sample.py:sample", "gpcm/gpcm.py:GPCM.__init__"]}
{"id": "C130", "title": "Spectra that are plotted beside predictions are in the unit of the data", "statement": "The curves that the plots of power spectral densities show beside the prediction, estimated from the data and from the true kernel, are the same curves whatever unit time is measured in: frequencies are divided by the factor by which times are multiplied, densities are shifted by its decibels, and the origin of time does not matter; the true kernel in the plot of kernels is likewise at the lags of the prediction.", "quantifier": "all times, values, true kernels, units and origins of time", "why_tests_cant": "plots are not tested; that a curve does not depend on the unit is a statement about all units", "anchors": ["experiments/experiment.py:analyse_plots", "gpcm/util.py:estimate_psd", "gpcm/util.py:autocorr"]}
{"id": "C131", "title": "Computing the ELBO does not change predictions", "statement": "With the structured scheme, computing the ELBO between fitting and conditioning changes none of the predictions made afterwards, of the function, of the kernel, of the Fourier features or of the filter; it changes neither hyperparameters nor samples nor posteriors of other conditionings, and computing it again changes nothing further once coordinate ascent has converged.", "quantifier": "all fitted models, observations, times, numbers of samples and random states", "why_tests_cant": "a test compares predictions of one model; that none is affected ranges over all models and histories", "anchors": ["gpcm/approx.py:Structured.elbo", "gpcm/approx.py:_fit_mean_field_ca", "gpcm/model.py:Model.predict_filter"]}
{"id": "C132", "title": "The comparison of the schemes measures every kernel against the kernel of its data", "statement": "The RMSE and SMLL that the comparison of mean-field and structured schemes reports for a kernel, a scheme and a model are those of the means (and variances) of the kernel samples of that model, fitted with that scheme to data of that kernel, against that kernel, at the same lags, all 200 of them; no file of another kernel, scheme or model is read, and the report raises rather than being incomplete.", "quantifier": "all lists of kernels with distinct names, all sampled kernels, metrics and last lags", "why_tests_cant": "a test runs one comparison with one set of samples; that saved results are never confused ranges over all of them", "anchors": ["experiments/paper/comparison.py", "experiments/paper/comparison_process.py:kernel_analysis", "gpcm/util.py:summarise_samples"]}
{"id": "C133", "title": "The ELBOs that an experiment reports do not interfere", "statement": "The ELBOs that an experiment prints are those that model.elbo(t, y) returns when called for one model after the other: random states are handed on from model to model, each value depends on its own model and that state only, models that are not structured or not in the list stay as they are, mean-field reports depend neither on random states nor on order, and once coordinate ascent has converged a second report differs by its random numbers only.", "quantifier": "all lists of models of both schemes, all parameters, data and random states", "why_tests_cant": "a test prints the values of a few models from one seed; that none affects another ranges over all lists and states", "anchors": ["experiments/experiment.py:analyse_elbos", "gpcm/approx.py:Structured.elbo", "gpcm/approx.py:MeanField.elbo"]}
