{
 "claims": [
  {
   "property": "C01",
   "status": "proved",
   "theorems": [
    "C01_new_accepts_exactly_unit_interval"
   ],
   "note": ""
  },
  {
   "property": "C02",
   "status": "proved",
   "theorems": [
    "C02_reachable_probabilities_valid",
    "C02_mul_not_unchecked_ok"
   ],
   "note": "Includes exact rounded values of the unchecked operations."
  },
  {
   "property": "C03",
   "status": "proved",
   "theorems": [
    "C03_complement_laws",
    "C03_involution_refuted_below_half"
   ],
   "note": "The involution is stated for p >= 1/2 as in the property; the _refuted theorem shows why the restriction is needed."
  },
  {
   "property": "C04",
   "status": "proved",
   "theorems": [
    "C04_checked_ops"
   ],
   "note": ""
  },
  {
   "property": "C05",
   "status": "proved",
   "theorems": [
    "C05_simplex_new"
   ],
   "note": ""
  },
  {
   "property": "C06",
   "status": "proved",
   "theorems": [
    "C06_sample_index"
   ],
   "note": ""
  },
  {
   "property": "C07",
   "status": "partial",
   "theorems": [
    "C07_zero_weight_refuted",
    "C07_zero_weight_partial"
   ],
   "note": "False of the code: refuted with a witness; holds for weights with exact sum 1."
  },
  {
   "property": "C08",
   "status": "proved",
   "theorems": [
    "C08_index_interval"
   ],
   "note": ""
  },
  {
   "property": "C09",
   "status": "partial",
   "theorems": [
    "C09_simplex_sample_partial",
    "C09_simplex_sample_refuted"
   ],
   "note": "False of the code (a sampled entry can be negative): refuted; the sum is 1 and the remaining entries are positive."
  },
  {
   "property": "C10",
   "status": "proved",
   "theorems": [
    "C10_centre"
   ],
   "note": ""
  },
  {
   "property": "C11",
   "status": "proved",
   "theorems": [
    "C11_check_agrees_with_is_satisfied_by"
   ],
   "note": ""
  },
  {
   "property": "C12",
   "status": "proved",
   "theorems": [
    "C12_connectives",
    "C12_order_f64",
    "C12_nan_and_integers"
   ],
   "note": ""
  },
  {
   "property": "C13",
   "status": "partial",
   "theorems": [
    "C13_empty_vec_partial",
    "C13_empty_array_refuted"
   ],
   "note": "Vec case proved; the array impl has the test negated, refuted for every array."
  },
  {
   "property": "C14",
   "status": "partial",
   "theorems": [
    "C14_concentrations_refuted",
    "C14_concentrations_partial"
   ],
   "note": "Refuted for every vector (only the empty one is accepted, a consequence of C13); the partial theorem says exactly what happens."
  },
  {
   "property": "C15",
   "status": "proved",
   "theorems": [
    "C15_params_new"
   ],
   "note": ""
  },
  {
   "property": "C16",
   "status": "partial",
   "theorems": [
    "C16_constraints_match_partial",
    "C16_constraints_match_refuted"
   ],
   "note": "Proved for every parameter type except matrix covariances and the two todo!() lists, which are refuted."
  },
  {
   "property": "C17",
   "status": "partial",
   "theorems": [
    "C17_entrywise_partial",
    "C17_psd_refuted"
   ],
   "note": "Refuted in both directions with witnesses; the partial theorem says exactly what is checked (no negative entry)."
  },
  {
   "property": "C18",
   "status": "proved",
   "theorems": [
    "C18_continuous",
    "C18_special",
    "C18_discrete"
   ],
   "note": ""
  },
  {
   "property": "C19",
   "status": "proved",
   "theorems": [
    "C19_choose",
    "C19_limit_63"
   ],
   "note": ""
  },
  {
   "property": "C20",
   "status": "proved",
   "theorems": [
    "C20_factorial"
   ],
   "note": ""
  },
  {
   "property": "C21",
   "status": "partial",
   "theorems": [
    "C21_log_factorial_partial",
    "C21_max_refuted"
   ],
   "note": "Error bounds for every n < 2^64-1 over exact reals (table entries checked with integer arithmetic in the kernel, Stirling remainder proved); refuted at n = 2^64-1 where n+1 overflows."
  },
  {
   "property": "C22",
   "status": "proved",
   "theorems": [
    "C22_sample_n"
   ],
   "note": ""
  },
  {
   "property": "C23",
   "status": "proved",
   "theorems": [
    "C23_mutual_defaults",
    "C23_neither_diverges",
    "C23_every_impl_terminates",
    "C23_quartiles"
   ],
   "note": ""
  },
  {
   "property": "C24",
   "status": "partial",
   "theorems": [
    "C24_kurtosis_partial",
    "C24_exponential_refuted"
   ],
   "note": "False of Exponential (3 and 6), proved for every other type."
  },
  {
   "property": "C25",
   "status": "proved",
   "theorems": [
    "C25_convolve_many_fold"
   ],
   "note": ""
  },
  {
   "property": "C26",
   "status": "proved",
   "theorems": [
    "C26_uniform_f64"
   ],
   "note": ""
  },
  {
   "property": "C27",
   "status": "partial",
   "theorems": [
    "C27_uniform_cdf_f64_partial",
    "C27_wide_refuted"
   ],
   "note": "Proved, with monotonicity, for every width up to 2^1022; refuted above (a double cdf > 1)."
  },
  {
   "property": "C28",
   "status": "proved",
   "theorems": [
    "C28_uniform_i64"
   ],
   "note": ""
  },
  {
   "property": "C29",
   "status": "partial",
   "theorems": [
    "C29_quantile_partial",
    "C29_quantile_refuted"
   ],
   "note": "Proved for p < 1; refuted at p = 1 for every parameter and as an inverse at p = 1/2."
  },
  {
   "property": "C30",
   "status": "proved",
   "theorems": [
    "C30_exponential"
   ],
   "note": ""
  },
  {
   "property": "C31",
   "status": "partial",
   "theorems": [
    "C31_quantile_inverts_partial",
    "C31_exponential_refuted"
   ],
   "note": "Proved for Uniform, Cauchy (and Normal in C46); refuted for Exponential at every rate and every p."
  },
  {
   "property": "C32",
   "status": "proved",
   "theorems": [
    "C32_cauchy"
   ],
   "note": ""
  },
  {
   "property": "C33",
   "status": "proved",
   "theorems": [
    "C33_logistic"
   ],
   "note": ""
  },
  {
   "property": "C34",
   "status": "proved",
   "theorems": [
    "C34_gumbel"
   ],
   "note": ""
  },
  {
   "property": "C35",
   "status": "partial",
   "theorems": [
    "C35_frechet_partial",
    "C35_sampling_refuted"
   ],
   "note": "Everything proved for every shape except sampling, refuted for every shape (see also C127)."
  },
  {
   "property": "C36",
   "status": "partial",
   "theorems": [
    "C36_gev_partial",
    "C36_gev_refuted"
   ],
   "note": "Proved for shape >= 1e-7; refuted for every smaller shape."
  },
  {
   "property": "C37",
   "status": "partial",
   "theorems": [
    "C37_gpd_partial",
    "C37_mean_refuted"
   ],
   "note": "Proved except the mean, which is refuted for every shape other than 1."
  },
  {
   "property": "C38",
   "status": "proved",
   "theorems": [
    "C38_kumaraswamy"
   ],
   "note": ""
  },
  {
   "property": "C39",
   "status": "proved",
   "theorems": [
    "C39_pareto"
   ],
   "note": ""
  },
  {
   "property": "C40",
   "status": "partial",
   "theorems": [
    "C40_weibull_partial",
    "C40_mode_refuted"
   ],
   "note": "Proved except the mode, refuted for every k > 1."
  },
  {
   "property": "C41",
   "status": "proved",
   "theorems": [
    "C41_arcsine"
   ],
   "note": ""
  },
  {
   "property": "C42",
   "status": "partial",
   "theorems": [
    "C42_cosine_partial",
    "C42_cosine_refuted"
   ],
   "note": "Proved for s = 2; refuted for every other scale."
  },
  {
   "property": "C43",
   "status": "partial",
   "theorems": [
    "C43_triangular_partial",
    "C43_mean_refuted"
   ],
   "note": "Proved except the pdf within 1e-7 of the mode and the mean, which is exactly 3/2 of the true one."
  },
  {
   "property": "C44",
   "status": "partial",
   "theorems": [
    "C44_laplace_refuted",
    "C44_laplace_partial"
   ],
   "note": "cdf and pdf have each other's bodies: refuted for every parameter; everything holds with the two exchanged."
  },
  {
   "property": "C45",
   "status": "partial",
   "theorems": [
    "C45_rayleigh_refuted",
    "C45_rayleigh_partial"
   ],
   "note": "cdf ignores sigma: refuted for every sigma <> 1, proved for sigma = 1; pdf, median, mode, moments proved for every sigma."
  },
  {
   "property": "C46",
   "status": "proved",
   "theorems": [
    "C46_normal",
    "C46_normal_pdf_total"
   ],
   "note": ""
  },
  {
   "property": "C47",
   "status": "partial",
   "theorems": [
    "C47_lognormal_refuted",
    "C47_lognormal_partial"
   ],
   "note": "pdf lacks the Jacobian: refuted for every parameter; moments right exactly when Sigma = 1; the true values are proved."
  },
  {
   "property": "C48",
   "status": "proved",
   "theorems": [
    "C48_bernoulli_f64",
    "C48_bernoulli"
   ],
   "note": ""
  },
  {
   "property": "C49",
   "status": "proved",
   "theorems": [
    "C49_binomial"
   ],
   "note": ""
  },
  {
   "property": "C50",
   "status": "partial",
   "theorems": [
    "C50_binomial_modes_partial",
    "C50_binomial_modes_refuted",
    "C50_support_refuted",
    "C50_categorical_support_refuted"
   ],
   "note": "False of the code: the support contains n+1 (pmf panics there) and floor(np) is a mode iff (n+1)p <= floor(np)+1, both proved."
  },
  {
   "property": "C51",
   "status": "proved",
   "theorems": [
    "C51_geometric"
   ],
   "note": ""
  },
  {
   "property": "C52",
   "status": "partial",
   "theorems": [
    "C52_geometric_refuted",
    "C52_geometric_partial"
   ],
   "note": "False of the code for k >= 2^31: the i32 cast wraps and pmf can exceed 1, cdf(2^31-1) panics; proved for smaller k."
  },
  {
   "property": "C53",
   "status": "proved",
   "theorems": [
    "C53_categorical_f64",
    "C53_categorical"
   ],
   "note": ""
  },
  {
   "property": "C54",
   "status": "proved",
   "theorems": [
    "C54_poisson_pmf",
    "C54_poisson"
   ],
   "note": "Law, moments, mode and convolution relative to an exact log-factorial; pmf with the shipped log-factorial is within a factor exp(+-2e-10) of the law (C54_poisson_pmf)."
  },
  {
   "property": "C55",
   "status": "proved",
   "theorems": [
    "C55_bernoulli_bernoulli",
    "C55_binomial_bernoulli",
    "C55_binomial_binomial"
   ],
   "note": ""
  },
  {
   "property": "C56",
   "status": "partial",
   "theorems": [
    "C56_normal",
    "C56_cauchy",
    "C56_gamma_exponential",
    "C56_gamma_partial",
    "C56_gamma_refuted",
    "C56_chi_squared_partial",
    "C56_chi_squared_refuted"
   ],
   "note": "False of the code for Gamma (different shapes refused) and ChiSq (see _refuted); proved for Normal, Cauchy, Exponential."
  },
  {
   "property": "C57",
   "status": "partial",
   "theorems": [
    "C57_mixture_cdf_pdf_partial",
    "C57_cdf_exceeds_one_refuted",
    "C57_normal_mixture"
   ],
   "note": "Proved for weights with exact sum 1; accepted weights may sum to more, then cdf exceeds 1 (refuted)."
  },
  {
   "property": "C58",
   "status": "proved",
   "theorems": [
    "C58_mixture_moments",
    "C58_higher_moments_panic"
   ],
   "note": ""
  },
  {
   "property": "C59",
   "status": "partial",
   "theorems": [
    "C59_new",
    "C59_from_params_refuted",
    "C59_from_params_partial"
   ],
   "note": "new and support proved; From<Params> is unsafe unless exactly N component parameters are given (refuted), N = 0 panics."
  },
  {
   "property": "C60",
   "status": "proved",
   "theorems": [
    "C60_sample",
    "C60_component_probability"
   ],
   "note": ""
  },
  {
   "property": "C61",
   "status": "partial",
   "theorems": [
    "C61_paired_partial",
    "C61_entropy_refuted"
   ],
   "note": "Everything but the entropy, refuted for every parameter, with the true value proved."
  },
  {
   "property": "C62",
   "status": "partial",
   "theorems": [
    "C62_bivariate_partial",
    "C62_entropy_refuted"
   ],
   "note": "Everything but the entropy, refuted for every parameter, with the true value proved."
  },
  {
   "property": "C63",
   "status": "partial",
   "theorems": [
    "C63_degenerate_refuted",
    "C63_accepted_partial"
   ],
   "note": "Refuted: correlation +-1 is accepted; proved that pdf is finite everywhere exactly when |rho| < 1."
  },
  {
   "property": "C64",
   "status": "partial",
   "theorems": [
    "C64_grad_mul_partial",
    "C64_bivariate_refuted"
   ],
   "note": "Proved for every gradient type except the bivariate one, refuted for every gradient with a non-zero second variance component."
  },
  {
   "property": "C65",
   "status": "partial",
   "theorems": [
    "C65_diagonal_partial",
    "C65_diagonal_refuted",
    "C65_isotropic_partial",
    "C65_isotropic_refuted"
   ],
   "note": "False of the code in every dimension >= 1: squared distance is linear (C65_diagonal_refuted), samples have the squared covariance; moments, determinant, entropy proved."
  },
  {
   "property": "C66",
   "status": "partial",
   "theorems": [
    "C66_general_partial",
    "C66_mahalanobis_refuted",
    "C66_density_refuted"
   ],
   "note": "BLAS/LAPACK routines are oracles specified by lapack_ok (instance proved). Moments, factors, samples proved; squared distance uses one triangle only and is wrong for every non-diagonal matrix (refuted); right for diagonal matrices."
  },
  {
   "property": "C67",
   "status": "partial",
   "theorems": [
    "C67_default_partial",
    "C67_correlation_refuted",
    "C67_users"
   ],
   "note": "Default correlation is wrong unless all variances are 1 (refuted)."
  },
  {
   "property": "C68",
   "status": "partial",
   "theorems": [
    "C68_dirichlet_partial",
    "C68_dirichlet_refuted"
   ],
   "note": "Everything except modes for alphas <= 1, sample and new is proved; those three are refuted."
  },
  {
   "property": "C69",
   "status": "partial",
   "theorems": [
    "C69_log_pmf_partial",
    "C69_multinomial_partial",
    "C69_pmf_refuted"
   ],
   "note": "Moments and correlation proved; log_pmf panics exactly on the possible count vectors (refuted)."
  },
  {
   "property": "C70",
   "status": "partial",
   "theorems": [
    "C70_covariance_partial",
    "C70_diagonal",
    "C70_symmetry_refuted"
   ],
   "note": "Diagonal case proved; upper triangle and variance proved in general; lower triangle refuted (not symmetric)."
  },
  {
   "property": "C71",
   "status": "partial",
   "theorems": [
    "C71_bernoulli",
    "C71_poisson_partial",
    "C71_beta_partial",
    "C71_beta_refuted",
    "C71_normal_refuted",
    "C71_paired_refuted",
    "C71_gamma_refuted"
   ],
   "note": "Bernoulli exact; Poisson within 2e-10 per sample (shipped log-factorial); Beta for samples in [1e-9, 1-1e-9], wrong closer to 0; Normal right only if 2 pi Sigma = 1, PairedNormal only for one sample or all samples at the mean, Gamma wrong for all parameters (refuted)."
  },
  {
   "property": "C72",
   "status": "partial",
   "theorems": [
    "C72_bernoulli_refuted",
    "C72_poisson_refuted",
    "C72_normal_partial",
    "C72_normal_refuted",
    "C72_paired_partial",
    "C72_gamma_partial",
    "C72_gamma_refuted",
    "C72_beta_partial"
   ],
   "note": "Proved: Normal and PairedNormal mean components, Gamma rate, Beta in [1e-9, 1-1e-9]. Refuted: Bernoulli right iff no false sample; Poisson right only on the empty sample; Normal Sigma component is the derivative in sqrt(Sigma); Gamma shape component right iff beta = 1."
  },
  {
   "property": "C73",
   "status": "proved",
   "theorems": [
    "C73_bernoulli",
    "C73_poisson",
    "C73_normal",
    "C73_bernoulli_f64",
    "C73_bernoulli_f64_empty"
   ],
   "note": "Exact arithmetic: the fitted parameter maximises the product likelihood over all parameters (Bernoulli, Poisson, Normal), error cases characterised; in doubles Bernoulli::fit_mle succeeds on every non-empty sample, with the correctly rounded quotient."
  },
  {
   "property": "C74",
   "status": "proved",
   "theorems": [
    "C74_beta",
    "C74_beta_ends",
    "C74_gamma",
    "C74_inverse_gamma",
    "C74_beta_prime",
    "C74_chi_squared",
    "C74_chi",
    "C74_f_dist",
    "C74_student_t_inverse_normal"
   ],
   "note": ""
  },
  {
   "property": "C75",
   "status": "partial",
   "theorems": [
    "C75_valid_everywhere_partial",
    "C75_outside_support_refuted"
   ],
   "note": "False of ten types outside (Laplace: inside) the support; proved for nine."
  },
  {
   "property": "C76",
   "status": "partial",
   "theorems": [
    "C76_deserialize_ok",
    "C76_deserialize_err",
    "C76_serialize",
    "C76_round_trip",
    "C76_probability_refuted",
    "C76_probability_partial"
   ],
   "note": "Array (de)serialisation proved for every N and every serializer / sequence; a deserialised Probability is not validated (refuted)."
  },
  {
   "property": "C77",
   "status": "proved",
   "theorems": [
    "C77_degenerate_f64",
    "C77_degenerate_i64"
   ],
   "note": ""
  },
  {
   "property": "C78",
   "status": "partial",
   "theorems": [
    "C78_guards_partial",
    "C78_pareto",
    "C78_guards_refuted"
   ],
   "note": "False of the code (see _refuted); proved for the listed families."
  },
  {
   "property": "C79",
   "status": "partial",
   "theorems": [
    "C79_bernoulli",
    "C79_binomial",
    "C79_normal",
    "C79_exponential_refuted",
    "C79_poisson_refuted",
    "C79_lognormal_refuted",
    "C79_pareto_partial",
    "C79_pareto_refuted"
   ],
   "note": "Proved for Bernoulli, Binomial, Normal; Pareto returns minus the expected Hessian, which differs from the score covariance (refuted); Exponential and Poisson right only at lambda = 1, LogNormal only at Sigma = 1 (refuted)."
  },
  {
   "property": "C80",
   "status": "partial",
   "theorems": [
    "C80_levy_refuted",
    "C80_levy_partial"
   ],
   "note": "cdf lacks a square root: refuted for every parameter; pdf proved to be the density of the true distribution function; mode proved for mu = 0."
  },
  {
   "property": "C81",
   "status": "partial",
   "theorems": [
    "C81_bernoulli_partial",
    "C81_cdf_refuted",
    "C81_modes_refuted"
   ],
   "note": "False of the code: cdf(false) = 0 instead of 1-p; for p > 1/2 the less likely outcome is returned as the mode."
  },
  {
   "property": "C82",
   "status": "partial",
   "theorems": [
    "C82_categorical_cdf_partial",
    "C82_categorical_cdf_refuted"
   ],
   "note": "False of the code: off by one, cdf(i) is the sum over 0..i exclusive."
  },
  {
   "property": "C83",
   "status": "proved",
   "theorems": [
    "C83_gamma"
   ],
   "note": "Relative to exact special functions (hypotheses on the oracle, an instance satisfying them is exhibited)."
  },
  {
   "property": "C84",
   "status": "partial",
   "theorems": [
    "C84_gamma_sample_refuted"
   ],
   "note": "False of the code unless beta = 1: the rate is passed where the generator expects a scale; proved as an equivalence."
  },
  {
   "property": "C85",
   "status": "proved",
   "theorems": [
    "C85_beta"
   ],
   "note": "Relative to exact special functions (hypotheses on the oracle, an instance satisfying them is exhibited)."
  },
  {
   "property": "C86",
   "status": "partial",
   "theorems": [
    "C86_beta_kurtosis_refuted",
    "C86_beta_median_refuted",
    "C86_beta_median_partial",
    "C86_beta_median_all_odd_refuted"
   ],
   "note": "False of the code: kurtosis wrong for every a = b; median wrong at Beta(3,2); median proved in the cases a = b and one shape 1. The median is refuted for all integers a, b >= 2 with a + b odd (C86_beta_median_all_odd_refuted)."
  },
  {
   "property": "C87",
   "status": "proved",
   "theorems": [
    "C87_inverse_gamma"
   ],
   "note": "Relative to exact special functions (hypotheses on the oracle, an instance satisfying them is exhibited)."
  },
  {
   "property": "C88",
   "status": "partial",
   "theorems": [
    "C88_inverse_gamma_cdf_refuted",
    "C88_inverse_gamma_cdf_partial"
   ],
   "note": "False of the code for every parameter: cdf returns the upper tail; 1 - cdf is proved to be the distribution function."
  },
  {
   "property": "C89",
   "status": "proved",
   "theorems": [
    "C89_beta_prime"
   ],
   "note": "Relative to exact special functions (hypotheses on the oracle, an instance satisfying them is exhibited)."
  },
  {
   "property": "C90",
   "status": "partial",
   "theorems": [
    "C90_beta_prime_kurtosis_refuted",
    "C90_beta_prime_kurtosis_unguarded_refuted",
    "C90_beta_prime_entropy_refuted"
   ],
   "note": "False of the code: kurtosis wrong for alpha >= 1, beta > 4, and returned where it does not exist; entropy strictly too small for all parameters."
  },
  {
   "property": "C91",
   "status": "proved",
   "theorems": [
    "C91_chi"
   ],
   "note": "Relative to exact special functions (hypotheses on the oracle, an instance satisfying them is exhibited)."
  },
  {
   "property": "C92",
   "status": "partial",
   "theorems": [
    "C92_chi_entropy_refuted",
    "C92_chi_entropy_all_refuted"
   ],
   "note": "False of the code for k <= 2."
  },
  {
   "property": "C93",
   "status": "proved",
   "theorems": [
    "C93_chi_squared"
   ],
   "note": "Relative to exact special functions (hypotheses on the oracle, an instance satisfying them is exhibited)."
  },
  {
   "property": "C94",
   "status": "partial",
   "theorems": [
    "C94_chi_chisq_together_refuted",
    "C94_chi_chisq_all_refuted"
   ],
   "note": "False of the code: no function gammainc makes both right at k = 6."
  },
  {
   "property": "C95",
   "status": "proved",
   "theorems": [
    "C95_f_dist",
    "C95_f_dist_guards"
   ],
   "note": "Relative to exact special functions (hypotheses on the oracle, an instance satisfying them is exhibited)."
  },
  {
   "property": "C96",
   "status": "partial",
   "theorems": [
    "C96_f_dist_skewness_refuted",
    "C96_f_dist_kurtosis_refuted",
    "C96_f_dist_entropy_refuted",
    "C96_f_dist_entropy_one_refuted",
    "C96_f_dist_entropy_large_refuted",
    "C96_f_dist_kurtosis_unguarded_refuted",
    "C96_f_dist_skewness_unguarded_refuted"
   ],
   "note": "False of the code: skewness returned at d2 = 5 where it does not exist; kurtosis wrong for all d2 > 8; entropy wrong at (2,2)."
  },
  {
   "property": "C97",
   "status": "proved",
   "theorems": [
    "C97_erlang_moments"
   ],
   "note": "Moments are those of the textbook density, which is not the pdf the code returns (C98)."
  },
  {
   "property": "C98",
   "status": "partial",
   "theorems": [
    "C98_erlang_pdf_refuted",
    "C98_erlang_refuted",
    "C98_erlang_partial",
    "C98_erlang_all_refuted"
   ],
   "note": "False of the code for k = 2 (every lambda); proved for k = 1."
  },
  {
   "property": "C99",
   "status": "proved",
   "theorems": [
    "C99_student_t"
   ],
   "note": "Relative to exact special functions (hypotheses on the oracle, an instance satisfying them is exhibited)."
  },
  {
   "property": "C100",
   "status": "partial",
   "theorems": [
    "C100_student_t_cdf_all_refuted",
    "C100_student_t_cdf_refuted",
    "C100_student_t_cdf_partial"
   ],
   "note": "False of the code unless Gamma(nu/2) = 1 (proved as an equivalence): Gamma(nu/2) multiplies instead of dividing; proved for nu = 2, 4."
  },
  {
   "property": "C101",
   "status": "partial",
   "theorems": [
    "C101_student_t_entropy_large_refuted",
    "C101_student_t_new_refuted",
    "C101_student_t_entropy_refuted"
   ],
   "note": "False of the code: negative nu accepted (density NaN everywhere); entropy wrong at nu = 2."
  },
  {
   "property": "C102",
   "status": "proved",
   "theorems": [
    "C102_inverse_normal"
   ],
   "note": ""
  },
  {
   "property": "C103",
   "status": "proved",
   "theorems": [
    "C103_inverse_normal_sample"
   ],
   "note": ""
  },
  {
   "property": "C104",
   "status": "partial",
   "theorems": [
    "C104_inverse_normal_cdf_refuted",
    "C104_inverse_normal_moments_refuted"
   ],
   "note": "False of the code for all parameters: cdf exceeds 1, excess kurtosis 16 mu/lambda instead of 15, entropy that of a normal."
  },
  {
   "property": "C105",
   "status": "proved",
   "theorems": [
    "C105_folded_normal"
   ],
   "note": "Relative to exact special functions (hypotheses on the oracle, an instance satisfying them is exhibited)."
  },
  {
   "property": "C106",
   "status": "partial",
   "theorems": [
    "C106_folded_normal_modes_partial",
    "C106_folded_normal_modes_refuted"
   ],
   "note": "False of the code for mu >= sigma and mu < -sigma; proved for -sigma <= mu < sigma."
  },
  {
   "property": "C107",
   "status": "proved",
   "theorems": [
    "C107_normal_sample"
   ],
   "note": ""
  },
  {
   "property": "C108",
   "status": "proved",
   "theorems": [
    "C108_beta_binomial"
   ],
   "note": ""
  },
  {
   "property": "C109",
   "status": "partial",
   "theorems": [
    "C109_skewness_is_third_moment_partial",
    "C109_skewness_refuted",
    "C109_kurtosis_refuted",
    "C109_support_cdf_refuted",
    "C109_kurtosis_all_refuted"
   ],
   "note": "The code is wrong: skewness returns the third raw moment (proved, and refuted as a skewness for every n >= 1, a = b), support and cdf are refuted with witnesses. The returned kurtosis is right exactly when alpha(alpha+beta) = 1, for every n >= 1 (C109_kurtosis_all_refuted), with the true kurtosis of the law proved alongside; the partial theorem says what the returned skewness is."
  },
  {
   "property": "C110",
   "status": "proved",
   "theorems": [
    "C110_weibull"
   ],
   "note": ""
  },
  {
   "property": "C111",
   "status": "proved",
   "theorems": [
    "C111_frechet"
   ],
   "note": ""
  },
  {
   "property": "C112",
   "status": "partial",
   "theorems": [
    "C112_gev_partial"
   ],
   "note": "Proved for zeta >= 1e-7 (for smaller zeta C36 shows pdf and cdf disagree)."
  },
  {
   "property": "C113",
   "status": "proved",
   "theorems": [
    "C113_gumbel"
   ],
   "note": ""
  },
  {
   "property": "C114",
   "status": "proved",
   "theorems": [
    "C114_logistic"
   ],
   "note": ""
  },
  {
   "property": "C115",
   "status": "partial",
   "theorems": [
    "C115_binomial_cdf_partial",
    "C115_cdf_refuted"
   ],
   "note": "Binomial proved for k < n; k = n asks the external function for I_q(0, n+1), outside its domain; k > n and Poisson refuted (panic)."
  },
  {
   "property": "C116",
   "status": "partial",
   "theorems": [
    "C116_kurtosis_refuted",
    "C116_excess_partial"
   ],
   "note": "Refuted for every parameter (the methods return the excess kurtosis); the partial theorem proves that."
  },
  {
   "property": "C117",
   "status": "partial",
   "theorems": [
    "C117_geometric_partial",
    "C117_geometric_refuted",
    "C117_binomial_partial",
    "C117_binomial_refuted",
    "C117_poisson_partial",
    "C117_poisson_refuted",
    "C117_binomial_integer_mean",
    "C117_binomial_near",
    "C117_poisson_two_thirds",
    "C117_poisson_near"
   ],
   "note": "Geometric characterised exactly. Binomial: the returned value is a median whenever n p is an integer, and within 1 of a median for all n and p. Poisson: a median for every rate in [n, n + 2/3], n >= 1, and within 1 of one for every rate >= 1. Refuted on ranges (Binomial at small n p, Poisson at rates <= 1/20 and just above ln 2). Missing: which of the two neighbours is exact in the remaining ranges."
  },
  {
   "property": "C118",
   "status": "partial",
   "theorems": [
    "C118_entropy_refuted",
    "C118_entropy_partial"
   ],
   "note": "Refuted (negative) for small variances; the partial theorem states the value computed. No claim about the size of the approximation error elsewhere."
  },
  {
   "property": "C119",
   "status": "partial",
   "theorems": [
    "C119_homogeneous",
    "C119_standard",
    "C119_lognormal_ctors",
    "C119_lognormal_sample",
    "C119_lognormal_sample_partial",
    "C119_lognormal_pdf_refuted"
   ],
   "note": "Constructors and general-covariance sampling proved; diagonal/isotropic sampling proved with the scale the code uses; pdf lacks the Jacobian (refuted unless m = -a/2 in one dimension); cdf panics."
  },
  {
   "property": "C120",
   "status": "partial",
   "theorems": [
    "C120_kumaraswamy_partial",
    "C120_kumaraswamy_refuted"
   ],
   "note": "Mean, variance, skewness proved for all shapes; entropy proved for a = 1 or integer b and refuted for every other shape (harmonic number taken at floor b); excess_kurtosis always panics."
  },
  {
   "property": "C121",
   "status": "partial",
   "theorems": [
    "C121_gpd_refuted",
    "C121_gpd_partial",
    "C121_gpd_formulas_partial"
   ],
   "note": "GPD: below each threshold the moment exists and the method panics, above it the method returns although there is no such moment; right exactly at the thresholds. C121_gpd_formulas_partial: the formulas behind the guards are the moments where those exist, so the guards are the only defect."
  },
  {
   "property": "C122",
   "status": "partial",
   "theorems": [
    "C122_entropies_partial",
    "C122_entropies_refuted"
   ],
   "note": "Proved for Cauchy, Rayleigh, Levy and for Arcsine of width 1; refuted for Arcsine of any other width, for Triangular at every parameter (too large by exactly 1/2), and for LogNormal (in bits, and takes the variance for the standard deviation)."
  },
  {
   "property": "C123",
   "status": "proved",
   "theorems": [
    "C123_levy_moments"
   ],
   "note": ""
  },
  {
   "property": "C124",
   "status": "partial",
   "theorems": [
    "C124_higher_moments_partial",
    "C124_higher_moments_refuted"
   ],
   "note": "True values proved for all parameters; LogNormal right exactly at Sigma = 1; Cosine and Rayleigh kurtosis refuted for every parameter."
  },
  {
   "property": "C125",
   "status": "partial",
   "theorems": [
    "C125_exponential",
    "C125_cauchy",
    "C125_pareto",
    "C125_weibull",
    "C125_triangular",
    "C125_beta",
    "C125_chi_squared",
    "C125_f_dist",
    "C125_student_t",
    "C125_lognormal_refuted"
   ],
   "note": "Proved for nine of the ten; refuted for LogNormal at every parameter (it passes mean() and standard_deviation() of the log-normal as mu and sigma of the underlying normal)."
  },
  {
   "property": "C126",
   "status": "proved",
   "theorems": [
    "C126_binomial",
    "C126_geometric",
    "C126_poisson",
    "C126_uniform_i64",
    "C126_bernoulli"
   ],
   "note": ""
  },
  {
   "property": "C127",
   "status": "partial",
   "theorems": [
    "C127_uniform",
    "C127_kumaraswamy",
    "C127_laplace",
    "C127_frechet_refuted"
   ],
   "note": "Proved for Uniform, Kumaraswamy and Laplace; refuted for Frechet at every shape: the sample has the law of the reciprocal of a Frechet variate."
  },
  {
   "property": "C128",
   "status": "partial",
   "theorems": [
    "C128_elementary",
    "C128_special",
    "C128_refuted"
   ],
   "note": "Proved for 26 families at every parameter; refuted for GEV (shape >= 1e-7) and GeneralisedPareto (shape > 0), which report the whole line and return NaN / infinity at the true end point, and for the point mass."
  },
  {
   "property": "C129",
   "status": "partial",
   "theorems": [
    "C129_zero_off_partial",
    "C129_zero_off_refuted"
   ],
   "note": "Proved for the four families that test the argument (Triangular with both widths >= 1e-7); for sixteen others refuted at every parameter (wrong number or NaN)."
  },
  {
   "property": "C130",
   "status": "partial",
   "theorems": [
    "C130_discrete_partial",
    "C130_discrete_refuted"
   ],
   "note": "Proved for Uniform<i64>, Bernoulli and Geometric with 0 < p < 1, Poisson; refuted for the point mass, p = 1, and (C50, C109) Binomial, BetaBinomial, Categorical."
  },
  {
   "property": "C131",
   "status": "proved",
   "theorems": [
    "C131_defaults",
    "C131_defaults_uniform_bivariate",
    "C131_standard_laws"
   ],
   "note": ""
  },
  {
   "property": "C132",
   "status": "proved",
   "theorems": [
    "C132_triangular_symmetric",
    "C132_half_normal",
    "C132_normals2"
   ],
   "note": ""
  },
  {
   "property": "C133",
   "status": "partial",
   "theorems": [
    "C133_lognormal",
    "C133_laplace_refuted",
    "C133_exponential",
    "C133_logistic",
    "C133_gumbel",
    "C133_frechet",
    "C133_weibull",
    "C133_rayleigh",
    "C133_pareto",
    "C133_kumaraswamy",
    "C133_gpd",
    "C133_gev",
    "C133_cauchy",
    "C133_arcsine_partial",
    "C133_normal",
    "C133_triangular_refuted",
    "C133_arcsine_refuted",
    "C133_exponential_refuted"
   ],
   "note": "Proved for Exponential, Logistic, Gumbel, Frechet, Weibull, Rayleigh, Pareto, Kumaraswamy, GeneralisedPareto, GEV (zeta > 0, from the location on), Cauchy, Normal and LogNormal. Refuted for Triangular (the square overflows), for Arcsine at the upper end of its own support (partial theorem: where the computed x - a is at most w), for Laplace (value 2 at the location with scale 1/4) and for Exponential with the accepted infinite rate. Missing: gamma and beta families, whose cdf is an external function."
  },
  {
   "property": "C134",
   "status": "partial",
   "theorems": [
    "C134_quantile_refuted",
    "C134_unimplemented_refuted",
    "C134_uniform_int",
    "C134_geometric",
    "C134_chi_sq",
    "C134_poisson",
    "C134_erlang",
    "C134_binomial",
    "C134_beta_binomial",
    "C134_choose_fits_62"
   ],
   "note": "Refuted: quantile of every family using the default panics, some samplers/moments are unimplemented, and integer overflow panics exist. For each listed integer family the exact set of arguments that come back is proved. Missing: families whose methods are total functions in the model (nothing to prove there) and the multivariate types (C65-C70 state theirs)."
  },
  {
   "property": "C135",
   "status": "partial",
   "theorems": [
    "C135_pareto_partial",
    "C135_frechet_partial",
    "C135_weibull_partial",
    "C135_exponential",
    "C135_cauchy_partial",
    "C135_cauchy_refuted",
    "C135_normal",
    "C135_lognormal",
    "C135_folded_normal",
    "C135_logistic_partial",
    "C135_logistic_refuted",
    "C135_gumbel_partial",
    "C135_gumbel_refuted",
    "C135_gpd",
    "C135_gev",
    "C135_rayleigh_partial",
    "C135_rayleigh_refuted",
    "C135_weibull_refuted",
    "C135_pareto_refuted",
    "C135_frechet_refuted",
    "C135_uniform",
    "C135_laplace",
    "C135_laplace_nan"
   ],
   "note": "Proved for Exponential, Normal, LogNormal, FoldedNormal, GeneralisedPareto, GEV (from the location on), Uniform (every double) and Laplace. Refuted with finite witnesses (NaN) for Cauchy (subnormal scale), Logistic (standard, x = -1024), Gumbel, Rayleigh, Weibull, Pareto, Frechet; the partial theorems say where it holds, for Weibull, Pareto and Frechet exactly when NaN is returned. Missing: gamma and beta families, whose densities call external functions."
  },
  {
   "property": "C136",
   "status": "partial",
   "theorems": [
    "C136_chi_squared_all_even_refuted",
    "C136_chi_all_even_refuted",
    "C136_uniform_i64",
    "C136_chi_squared_partial",
    "C136_chi_squared_refuted",
    "C136_chi_refuted"
   ],
   "note": "Integer Uniform: proved for every constructible parameter. ChiSq and Chi: refuted for every even k (the Wilson-Hilferty value is rational, the median is not: exp of a non-zero rational is irrational); the partial theorem says the returned value is real and lies between k - 2/3 and k, the known bracket of the approximation. Missing: odd k."
  },
  {
   "property": "C137",
   "status": "partial",
   "theorems": [
    "C137_normal",
    "C137_lognormal",
    "C137_lognormal_refuted",
    "C137_dirichlet_partial",
    "C137_dirichlet_refuted",
    "C137_multinomial_refuted"
   ],
   "note": "Proved for the three Normals and, except for the value at points off the support (NaN instead of 0), for the three LogNormals. Refuted for Dirichlet (density positive off the cube; draws not normalised may leave it) and Multinomial (a count above n is given positive mass); the partial theorem for Dirichlet covers positivity inside."
  },
  {
   "property": "C138",
   "status": "partial",
   "theorems": [
    "C138_order",
    "C138_product",
    "C138_product_assoc_refuted",
    "C138_constants",
    "C138_sum_mixed",
    "C138_constraint",
    "C138_logs_powers"
   ],
   "note": "Everything proved except associativity of the product, refuted in doubles with a witness (0.1, 0.1, 0.3)."
  },
  {
   "property": "C139",
   "status": "proved",
   "theorems": [
    "C139_inverse_normal",
    "C139_categorical"
   ],
   "note": "Laws of the two samplers not delegated to rand_distr; independence of the two draws of InvNormal is expressed by iterated integration."
  },
  {
   "property": "C140",
   "status": "proved",
   "theorems": [
    "C140_small_shape",
    "C140_zero_shape"
   ],
   "note": "Below the threshold the pdf and entropy branches of gev.rs differ from Gumbel unless the shape is exactly 0 (the pdf branch is refuted under its own property); hence the split into C140_small_shape and C140_zero_shape."
  },
  {
   "property": "C141",
   "status": "partial",
   "theorems": [
    "C141_degenerate_i64",
    "C141_undefined",
    "C141_skewness_refuted",
    "C141_pdf_refuted"
   ],
   "note": "Degenerate<i64> proved coherent; kurtosis and quantile panic. Refuted: skewness is reported as 0 although undefined; the density of Degenerate<f64> integrates to 2e-7, not 1."
  },
  {
   "property": "C142",
   "status": "proved",
   "theorems": [
    "C142_exponential",
    "C142_chi_squared",
    "C142_rayleigh",
    "C142_unit_interval",
    "C142_extremes",
    "C142_heavy_tails"
   ],
   "note": "Proved for the functions that are themselves correct; functions refuted elsewhere are compared only where both sides are meaningful."
  },
  {
   "property": "C143",
   "status": "proved",
   "theorems": [
    "C143_gamma",
    "C143_beta",
    "C143_f",
    "C143_chi",
    "C143_exponential",
    "C143_normal",
    "C143_student"
   ],
   "note": ""
  },
  {
   "property": "C144",
   "status": "proved",
   "theorems": [
    "C144_real_line",
    "C144_intervals",
    "C144_scale"
   ],
   "note": "Excludes the densities of Cosine, Laplace and LogNormal and the cdfs of Levy, Rayleigh and Laplace, refuted under their own properties."
  },
  {
   "property": "C145",
   "status": "partial",
   "theorems": [
    "C145_real_line",
    "C145_intervals",
    "C145_plane",
    "C145_triangular_refuted"
   ],
   "note": "False for Triangular::symmetric pdfs whose half-width is below the 1e-7 comparison tolerance around the mode (C145_triangular_refuted); proved for every other parameter. StudentT has no distribution-function half because its cdf is a special-function oracle."
  },
  {
   "property": "C146",
   "status": "proved",
   "theorems": [
    "C146_bernoulli",
    "C146_binomial_reflection",
    "C146_beta_binomial",
    "C146_memoryless",
    "C146_multinomial"
   ],
   "note": "The Multinomial mass function is excluded: it panics on every outcome of the right total (C69)."
  },
  {
   "property": "C147",
   "status": "partial",
   "theorems": [
    "C147_one_dimension",
    "C147_independent",
    "C147_bivariate_samples",
    "C147_dirichlet_beta",
    "C147_lognormal_refuted"
   ],
   "note": "False for LogNormal: it squares the variance parameter again, so it agrees with the one-dimensional MvLogNormal exactly when the variance is 1 (C147_lognormal_refuted). Everything else in the statement is proved."
  },
  {
   "property": "C148",
   "status": "proved",
   "theorems": [
    "C148_beta",
    "C148_exponential",
    "C148_rayleigh",
    "C148_gumbel",
    "C148_pareto",
    "C148_chi_squared"
   ],
   "note": "Proved for the listed families (Gumbel: mode and median only, the mean is Euler constant from an external function)."
  },
  {
   "property": "C149",
   "status": "partial",
   "theorems": [
    "C149_uniform_i64",
    "C149_geometric",
    "C149_categorical_partial",
    "C149_categorical_refuted"
   ],
   "note": "Uniform<i64> and Geometric proved; Categorical refuted: accepted weights may sum to more than 1, so cdf exceeds 1 (weights 1 and 2^-20); the partial theorem gives start, monotonicity and the distance to 1 at the end."
  },
  {
   "property": "C150",
   "status": "partial",
   "theorems": [
    "C150_display",
    "C150_arguments",
    "C150_uniform_i64",
    "C150_dirichlet",
    "C150_lognormal_isotropic",
    "C150_uniform_refuted",
    "C150_arcsine_refuted",
    "C150_triangular_refuted",
    "C150_lognormal_refuted",
    "C150_bivariate_refuted",
    "C150_folded_normal_refuted",
    "C150_degenerate_refuted"
   ],
   "note": "Proved in one theorem for 34 distribution types (C150_display, C150_arguments) and for Uniform<i64>, Dirichlet and isotropic multivariate LogNormal. Refuted in doubles where a rounded or derived quantity is printed: Uniform<f64>, Arcsine, Triangular, LogNormal, FoldedNormal, BvNormal; Degenerate<f64> and Degenerate<i64> print alike. Constraint and error messages are C151."
  },
  {
   "property": "C151",
   "status": "proved",
   "theorems": [
    "C151_constraint_text",
    "C151_message",
    "C151_check",
    "C151_constructors",
    "C151_simplex",
    "C151_convolve_many"
   ],
   "note": "Texts of doubles are an oracle (injective, no punctuation, never the text of an integer; instance proved). Escapes in the Debug text of a target are not modelled."
  },
  {
   "property": "C152",
   "status": "partial",
   "theorems": [
    "C152_uniform",
    "C152_exponential",
    "C152_logistic",
    "C152_gumbel",
    "C152_arcsine",
    "C152_cosine",
    "C152_laplace",
    "C152_rayleigh",
    "C152_normal",
    "C152_gamma",
    "C152_inverse_normal",
    "C152_pareto",
    "C152_inverse_gamma",
    "C152_beta_prime",
    "C152_student_t",
    "C152_erlang",
    "C152_chi_squared",
    "C152_f_dist",
    "C152_uniform_i",
    "C152_bernoulli",
    "C152_binomial",
    "C152_geometric",
    "C152_geometric_negative_zero",
    "C152_poisson",
    "C152_beta_binomial",
    "C152_beta_refuted",
    "C152_beta_partial",
    "C152_triangular_refuted",
    "C152_gpd_refuted",
    "C152_lognormal_refuted",
    "C152_lognormal_partial"
   ],
   "note": "Proved for Uniform (both), Exponential, Logistic, Gumbel, Arcsine, Cosine, Laplace, Rayleigh, Normal, Gamma, InverseNormal, Pareto, InverseGamma, BetaPrime, StudentT, Erlang, ChiSquared, F, Bernoulli, Binomial, Geometric, Poisson, BetaBinomial. Refuted: Beta (NaN for shapes 2^600 or 2^-600; proved between 2^-250 and 2^250), Triangular (negative by cancellation), GPD (negative), LogNormal (0*inf = NaN; proved when neither exponential overflows). Missing: Frechet, GEV, Weibull, Kumaraswamy, Chi, FoldedNormal, whose variances are differences of gamma/erf oracle values."
  },
  {
   "property": "C153",
   "status": "partial",
   "theorems": [
    "C153_uniform",
    "C153_arcsine_partial",
    "C153_arcsine_refuted",
    "C153_beta",
    "C153_bernoulli",
    "C153_binomial",
    "C153_beta_binomial",
    "C153_exponential",
    "C153_gamma",
    "C153_erlang",
    "C153_rayleigh",
    "C153_inverse_gamma",
    "C153_beta_prime",
    "C153_poisson",
    "C153_f_dist",
    "C153_lognormal",
    "C153_gumbel",
    "C153_pareto_partial",
    "C153_pareto_refuted",
    "C153_geometric_partial",
    "C153_geometric_refuted"
   ],
   "note": "Proved for Uniform, Beta, Bernoulli, Binomial, BetaBinomial, Exponential, Gamma, Erlang, Rayleigh, InverseGamma, BetaPrime, Poisson, F, LogNormal, Gumbel (for a finite negative digamma(1)). Refuted: Arcsine (a + b overflows; proved equivalent to a + b being finite), Pareto (one ulp below the minimum for shapes near 2^59; proved to be a number >= 0), Geometric at p = -0.0 (-infinity; proved for every other parameter). Missing: families whose mean is a location parameter (nothing is computed), integer Uniform, Triangular (its mean is wrong, C43), and means computed by gamma-function oracles."
  },
  {
   "property": "C154",
   "status": "proved",
   "theorems": [
    "C154_multivariate",
    "C154_pairs",
    "C154_degenerate",
    "C154_normal",
    "C154_bernoulli"
   ],
   "note": ""
  },
  {
   "property": "C155",
   "status": "partial",
   "theorems": [
    "C155_kumaraswamy",
    "C155_frechet",
    "C155_frechet_refuted",
    "C155_laplace",
    "C155_laplace_partial",
    "C155_laplace_refuted",
    "C155_inv_normal_refuted",
    "C155_pairs"
   ],
   "note": "Proved: Kumaraswamy (in [0,1], monotone), Frechet (>= 0), Laplace (a number on the side of the location given by the sign of the draw; finite for draws inside (-1/2,1/2) and parameters up to 2^1000), paired and bivariate normals (numbers). Refuted: Frechet returns +infinity at draw 0 and Laplace -infinity at draw -1/2, for all parameters; InverseNormal returns -128 for mu = 1e9, lambda = 7, normal draw 3.75, uniform draw 1/2 (cancellation). Samplers delegated to rand_distr are external."
  },
  {
   "property": "C156",
   "status": "partial",
   "theorems": [
    "C156_beta",
    "C156_beta_prime_partial",
    "C156_beta_prime_refuted",
    "C156_f_partial",
    "C156_f_refuted",
    "C156_gamma",
    "C156_gamma_refuted",
    "C156_inverse_gamma",
    "C156_chi_squared",
    "C156_chi",
    "C156_levy_partial",
    "C156_levy_refuted",
    "C156_folded_normal"
   ],
   "note": "The special functions are external: ranges and monotonicity on doubles are explicit hypotheses, met together by a concrete instance in C156_nonvacuous. Partial: the refuted cases (BetaPrime monotonicity, F and Gamma overflow, Levy at -0.0) are exhibited by theorems."
  },
  {
   "property": "C157",
   "status": "partial",
   "theorems": [
    "C157_normal",
    "C157_exponential",
    "C157_cauchy_partial",
    "C157_cauchy_refuted",
    "C157_pareto_partial",
    "C157_pareto_refuted",
    "C157_students_t",
    "C157_cosine",
    "C157_geometric",
    "C157_logistic_refuted",
    "C157_laplace_refuted"
   ],
   "note": "Proved for Normal, Exponential, Student-t, Cosine, Geometric; Cauchy and Pareto under explicit no-overflow conditions with refutations outside them; Logistic refuted for a correctly rounded exp (the density next to the location is one ulp larger); Laplace refuted (pdf returns the cdf)."
  },
  {
   "property": "C158",
   "status": "partial",
   "theorems": [
    "C158_erlang",
    "C158_from_normal",
    "C158_lognormal_correlation_partial",
    "C158_lognormal_correlation_refuted",
    "C158_standard",
    "C158_beta_median",
    "C158_poisson_support",
    "C158_texts"
   ],
   "note": "The default correlation multiplies by the root of the variances instead of dividing (as C67): right only where every variance is 1, refuted otherwise. The constants stored in Beta::median for (3,2) and (2,3) are proved unreachable."
  },
  {
   "property": "C159",
   "status": "partial",
   "theorems": [
    "C159_normal",
    "C159_cauchy",
    "C159_cosine",
    "C159_student_t",
    "C159_folded_normal",
    "C159_uniform",
    "C159_arcsine",
    "C159_triangular",
    "C159_beta",
    "C159_logistic_refuted",
    "C159_arcsine_refuted",
    "C159_triangular_refuted"
   ],
   "note": "Refuted: the logistic density (number at 2048, NaN at -2048), the arcsine density at the end point 0 (+infinity at +0.0, -infinity at -0.0), a symmetric triangular narrower than the hard-coded tolerance at its end points. The evenness of cos and the symmetry of the external beta function are explicit hypotheses."
  },
  {
   "property": "C160",
   "status": "partial",
   "theorems": [
    "C160_normal",
    "C160_cauchy",
    "C160_poisson",
    "C160_gamma",
    "C160_gamma_refuted",
    "C160_gamma_exponential",
    "C160_many_poisson",
    "C160_many_poisson_order",
    "C160_order_refuted",
    "C160_overflow_refuted",
    "C160_binomial",
    "C160_bernoulli"
   ],
   "note": "Refuted: Gamma convolutions of different rates depend on the order (the second rate is ignored), three Poissons with rates 1, 1 and 2^53 convolve to different rates in different orders, and finite Normals convolve to an infinite and then to a NaN location, with Ok."
  },
  {
   "property": "C161",
   "status": "partial",
   "theorems": [
    "C161_cdf",
    "C161_cdf_monotone",
    "C161_pdf",
    "C161_moments",
    "C161_cdf_refuted",
    "C161_pdf_refuted",
    "C161_variance_refuted"
   ],
   "note": "Refuted: with accepted weights 1 and 2^-20 the returned Probability is 1 + 2^-20; a weight of zero times an infinite component density is NaN; two identical components of variance 1 and mean 244675115, weights 3/8 and 5/8 (exact sum 1), have variance -8. Everything else in the property is proved."
  },
  {
   "property": "C162",
   "status": "partial",
   "theorems": [
    "C162_uniform",
    "C162_normal",
    "C162_cauchy",
    "C162_exponential_refuted",
    "C162_medians",
    "C162_gpd_refuted"
   ],
   "note": "Proved in doubles, for every libm within the stated range assumptions: quantiles of Uniform, Normal and Cauchy (numbers, never decreasing), medians of eight families on their support. Refuted: Exponential (every quantile is at most zero, that of 0 is negative); GPD with a shape so small that 2^zeta rounds to 1 (the median is the location)."
  },
  {
   "property": "C163",
   "status": "partial",
   "theorems": [
    "C163_constants",
    "C163_scale",
    "C163_shapes",
    "C163_counts",
    "C163_uniform_mean",
    "C163_triangular_refuted",
    "C163_beta_binomial_refuted"
   ],
   "note": "Proved for 23 families and the pi constants (relative error at most k * 2^-52, k = number of roundings; one rounding for the mean of Uniform whatever cancels). Refuted for the variances of Triangular (computed negative) and beta-binomial (computed 0 for n = 1, alpha = 2^60, beta = 1): no correct digit at moderate parameters."
  },
  {
   "property": "C164",
   "status": "partial",
   "theorems": [
    "C164_rational",
    "C164_exponential",
    "C164_location",
    "C164_normal",
    "C164_folded_normal",
    "C164_rayleigh",
    "C164_pareto",
    "C164_weibull",
    "C164_exponential_cdf_refuted"
   ],
   "note": "Proved for ten densities and the cdfs of Logistic and Gumbel, with the number of units explicit (Uniform 1, Cauchy 10, Exponential 68, Pareto 72, Logistic 398 and 133, Gumbel 652 and 265, Normal 521, FoldedNormal 393, Rayleigh 262, Weibull 665). Refuted for the Exponential cdf, computed as 1 - exp(-lx): at rate 1 and x = 2^-60 no digit is right, whatever accurate exp is used."
  },
  {
   "property": "C165",
   "status": "proved",
   "theorems": [
    "C165_gamma",
    "C165_beta",
    "C165_chi",
    "C165_student_t",
    "C165_f_dist",
    "C165_levy",
    "C165_inverse_gaussian",
    "C165_frechet"
   ],
   "note": "Relative error bounds, proved for all arguments in the stated region, for any exp/pow/gamma/beta within one unit of 2^-52 (C165_accurate exhibits such functions). C165_nonvacuous gives members and arguments meeting every hypothesis."
  },
  {
   "property": "C166",
   "status": "proved",
   "theorems": [
    "C166_constants_exact",
    "C166_constants_f64",
    "C166_bernoulli_half"
   ],
   "note": "Exact values in the real semantics, nearest doubles in the f64 semantics (the pi constants in doubles: C163_constants). Euler's number in doubles (PI_E, PI_E_2, unused by the crate) is only stated exactly."
  },
  {
   "property": "C167",
   "status": "proved",
   "theorems": [
    "C167_binomial",
    "C167_geometric"
   ],
   "note": "Proved with the exponent-dependent bound; C167_accurate proves that repeated squaring (what f64::powi compiles to) meets the assumption on powi."
  },
  {
   "property": "C168",
   "status": "proved",
   "theorems": [
    "C168_pdf",
    "C168_cdf",
    "C168_mean"
   ],
   "note": "Generic in the component type. Composes with C164/C165, whose conclusions have the form of the hypothesis."
  },
  {
   "property": "C169",
   "status": "partial",
   "theorems": [
    "C169_poisson",
    "C169_poisson_err",
    "C169_poisson_order_partial",
    "C169_poisson_order_refuted",
    "C169_normal_mean",
    "C169_normal_constant_partial",
    "C169_normal_constant_refuted",
    "C169_normal_order_refuted"
   ],
   "note": "Refuted in two places, each with a partial next to it: [0.1; 0.1; 0.1] is fitted with a mean above every sample and a nonzero variance (refused exactly when the repeated value is a whole number and sums stay below 2^53), and above 2^53 the order of the sample changes both fits (for counts with total at most 2^53 it does not)."
  },
  {
   "property": "C170",
   "status": "proved",
   "theorems": [
    "C170_standardised",
    "C170_derived",
    "C170_poisson_score",
    "C170_bernoulli_score"
   ],
   "note": "Accuracy of the values computed; that the two scores are not the derivatives of the log-likelihoods is C72."
  },
  {
   "property": "C171",
   "status": "partial",
   "theorems": [
    "C171_log_pmf",
    "C171_log_likelihood",
    "C171_impossible",
    "C171_entropy",
    "C171_geometric_refuted",
    "C171_geometric_partial"
   ],
   "note": "Proved for Bernoulli. Refuted for Geometric: at p = 1, which the constructor accepts, the entropy is NaN in doubles (0 * -infinity; the entropy of that law is 0), for every libm with log2 0 = -infinity; proved to be a number at least 0 for every p between 2^-53 and 1 - 2^-53."
  }
 ]
}