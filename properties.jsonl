{"id": "C01", "title": "Probability::new accepts exactly [0,1]", "statement": "Probability::new(x) (and TryFrom<f64>) returns Ok exactly when x is a finite double with 0 <= x <= 1; the accepted probability unwraps to the very same double; otherwise it returns an error carrying x. NaN and infinities are always rejected. is_valid agrees with this test.", "quantifier": "every IEEE-754 binary64 value, including NaN, infinities, signed zeros and subnormals", "why_tests_cant": "2^64 bit patterns (for binary operations 2^128 pairs); tests sample a handful and miss NaN, signed zero, subnormals and rounding boundaries", "anchors": ["src/probability.rs::Probability::new", "src/probability.rs::Probability::is_valid", "src/probability.rs::TryFrom<f64> for Probability"]}
{"id": "C02", "title": "Checked Probability arithmetic can never leave [0,1]", "statement": "Any Probability obtained from zero/half/one/default/new by any finite sequence of !, *, and the Ok results of +, -, /, % is valid: it unwraps to a finite double in [0,1]. In particular p*q and !p, which are not re-validated by the code, are always valid.", "quantifier": "every finite history of operations on Probability values that avoids new_unchecked", "why_tests_cant": "histories are unbounded and every step rounds; a test explores finitely many", "anchors": ["src/probability.rs::impl_op!", "src/probability.rs::Not for Probability", "src/probability.rs::Probability::mul"]}
{"id": "C03", "title": "Complement laws of Probability", "statement": "For every valid p: p + !p is Ok and equals exactly one; p <= q implies !q <= !p; and !!p == p bit-for-bit-in-value whenever p >= 1/2. (For p < 1/2 the double complement may lose precision.)", "quantifier": "every valid Probability / every pair of valid probabilities", "why_tests_cant": "needs a rounding-error argument over all doubles in [0,1]", "anchors": ["src/probability.rs::Not for Probability", "src/probability.rs::Add for Probability"]}
{"id": "C04", "title": "Checked +, -, /, % on probabilities fail exactly when the rounded result leaves [0,1]", "statement": "For valid p, q: p+q is Ok iff the correctly rounded sum is <= 1 and then holds that sum; p-q is Ok iff q <= p; p/q is Ok iff q is non-zero and the rounded quotient is <= 1 (always Ok when p <= q, q non-zero; 0/0 is an error); p%q is Ok iff q is non-zero and then holds the exact remainder p - q*floor(p/q).", "quantifier": "every pair of valid probabilities", "why_tests_cant": "2^64 bit patterns (for binary operations 2^128 pairs); tests sample a handful and miss NaN, signed zero, subnormals and rounding boundaries", "anchors": ["src/probability.rs::impl_op!(Add)", "src/probability.rs::impl_op!(Sub)", "src/probability.rs::impl_op!(Div)", "src/probability.rs::impl_op!(Rem)"]}
{"id": "C05", "title": "SimplexVector::new decides simplex membership up to 1e-5 and changes nothing", "statement": "SimplexVector::new(ps) is Ok iff every entry is a valid probability and the left-to-right double sum is within 1e-5 of 1; it then stores ps unchanged. If some entry is invalid the error is the InvalidProbability error of the first such entry, otherwise the simplex error. The exact real sum of every accepted vector is within 1e-5 plus a K-proportional rounding allowance of 1.", "quantifier": "every length K and every vector of doubles", "why_tests_cant": "unbounded length and rounding accumulation", "anchors": ["src/probability.rs::TryFrom<[f64; K]> for SimplexVector"]}
{"id": "C06", "title": "sample_index is always in bounds and is the inverse CDF of the weights", "statement": "For K >= 1 sample_index consumes exactly one uniform draw u and returns an index < K: the first i with u < p_0+...+p_i (double sums), or K-1 if there is none. For K = 0 it panics.", "quantifier": "every weight vector and every draw", "why_tests_cant": "all lengths, all draws", "anchors": ["src/probability.rs::SimplexVector::sample_index"]}
{"id": "C07", "title": "sample_index never returns an index of weight zero", "statement": "For every vector accepted by SimplexVector::new and every draw u in [0,1), the returned index has non-zero weight.", "quantifier": "every accepted weight vector and every draw u in [0,1)", "why_tests_cant": "the failing draw has probability below 1e-5 and needs an adversarial vector", "anchors": ["src/probability.rs::SimplexVector::sample_index"]}
{"id": "C08", "title": "sample_index selects index i with probability p_i", "statement": "In exact arithmetic, for weights summing to 1, the set of draws u in [0,1) mapped to index i is exactly an interval of length p_i.", "quantifier": "every weight vector on the simplex, every index", "why_tests_cant": "distributional claim over a continuum of draws", "anchors": ["src/probability.rs::SimplexVector::sample_index", "src/univariate/categorical.rs::Categorical::sample"]}
{"id": "C09", "title": "SimplexVector::sample returns a point of the simplex", "statement": "For every K >= 1 and every sequence of uniform draws in (0,1), SimplexVector::sample returns K entries in [0,1] that sum to 1.", "quantifier": "every K and every draw sequence", "why_tests_cant": "every draw sequence", "anchors": ["src/probability.rs::SimplexVector::sample"]}
{"id": "C10", "title": "SimplexVector::centre is the uniform point and is accepted by SimplexVector::new", "statement": "centre() has K equal entries 1/K, which sum to 1 exactly in real arithmetic; and in double arithmetic the vector passes the check of SimplexVector::new for every K up to a stated bound.", "quantifier": "every K", "why_tests_cant": "all lengths; rounding accumulates with K", "anchors": ["src/probability.rs::SimplexVector::centre"]}
{"id": "C11", "title": "Constraint::check agrees with is_satisfied_by and never changes the value", "statement": "For every constraint built from the primitive constraints and All/Not/And/Or nested to any depth, check(v) is Ok(v) iff is_satisfied_by(&v), and otherwise an error that carries v unchanged.", "quantifier": "every constraint expression of any depth and every value (including NaN)", "why_tests_cant": "constraint expressions are unbounded trees; And/Or/All override check separately from is_satisfied_by", "anchors": ["src/params/constraints.rs::Constraint::check", "src/params/constraints.rs::And", "src/params/constraints.rs::Or", "src/params/constraints.rs::All"]}
{"id": "C12", "title": "Constraint combinators are boolean connectives and All is a universal quantifier", "statement": "Not/And/Or negate/conjoin/disjoin satisfaction; All(c) over an array or Vec is satisfied iff c is satisfied by every element; Positive/NonNegative/.../Interval hold exactly when the corresponding order relation holds between real values, and NaN satisfies none of the order constraints.", "quantifier": "every constraint expression and value", "why_tests_cant": "unbounded expressions and arrays, NaN", "anchors": ["src/params/constraints.rs::Not", "src/params/constraints.rs::And", "src/params/constraints.rs::Or", "src/params/constraints.rs::All", "src/params/constraints.rs::Interval"]}
{"id": "C13", "title": "The Empty constraint recognises empty collections", "statement": "Empty is satisfied exactly by collections of length zero, for fixed-size arrays as well as for Vec.", "quantifier": "every array length and every Vec", "why_tests_cant": "all lengths", "anchors": ["src/params/constraints.rs::Empty"]}
{"id": "C14", "title": "Concentrations::new / Dirichlet::new accept exactly non-empty vectors of positive concentrations", "statement": "Dirichlet::new(alphas) is Ok iff N >= 1 and every alpha is positive, and then keeps alphas unchanged.", "quantifier": "every N and every alpha vector", "why_tests_cant": "all dimensions and values", "anchors": ["src/params/concentrations.rs::Concentrations::new", "src/multivariate/dirichlet.rs::Dirichlet::new"]}
{"id": "C15", "title": "Params::new validates every field, in declaration order, and changes nothing", "statement": "For every params!-generated parameter set, new(...) is Ok iff each argument satisfies its field's constraint; the fields then hold the arguments unchanged; otherwise the error is that of the first violating field in declaration order and carries that argument. Scale/Rate/Shape/DOF require > 0, Count always succeeds for usize, Loc always succeeds (even for NaN).", "quantifier": "every argument tuple of every parameter set", "why_tests_cant": "all argument tuples", "anchors": ["src/params/mod.rs::param!", "src/params/mod.rs::params!"]}
{"id": "C16", "title": "A parameter's constraints() list matches what its constructor enforces", "statement": "For every parameter type, construction succeeds iff every constraint returned by Param::constraints() is satisfied by the value.", "quantifier": "every parameter type and every value", "why_tests_cant": "all values", "anchors": ["src/params/mod.rs::Param::constraints", "src/normal/mod.rs::MatrixCovariance", "src/params/corr.rs", "src/params/concentrations.rs"]}
{"id": "C17", "title": "A checked covariance matrix is symmetric positive semi-definite and every such matrix is accepted", "statement": "MvNormal::new(mu, Sigma) succeeds only for symmetric positive semi-definite Sigma (as documented) and succeeds for all of them.", "quantifier": "every square matrix", "why_tests_cant": "all matrices", "anchors": ["src/normal/mod.rs::MatrixCovariance::matrix", "src/normal/multivariate.rs::MvNormal::new"]}
{"id": "C18", "title": "new, new_unchecked and From<Params> build the same distribution and params() returns what was given", "statement": "For every distribution, whenever new(args) is Ok(d): d equals new_unchecked(args), d equals From(d.params()) including all cached fields (q, variance, prob, pi, rho, ...), and d.params() holds args.", "quantifier": "every distribution type and every argument tuple accepted by new", "why_tests_cant": "all argument tuples; cached fields are invisible to callers", "anchors": ["src/lib.rs::new_dist!", "src/univariate/bernoulli.rs", "src/univariate/binomial.rs", "src/univariate/uniform.rs", "src/univariate/geometric.rs", "src/univariate/beta_binomial.rs", "src/multivariate/dirichlet.rs", "src/normal/multivariate.rs", "src/univariate/exponential.rs::Exponential::new", "src/univariate/exponential.rs::Exponential::new_unchecked", "src/univariate/exponential.rs::Exponential::from", "src/univariate/exponential.rs::Exponential::params", "src/univariate/cauchy.rs::Cauchy::new", "src/univariate/cauchy.rs::Cauchy::new_unchecked", "src/univariate/cauchy.rs::Cauchy::from", "src/univariate/cauchy.rs::Cauchy::params", "src/univariate/logistic.rs::Logistic::new", "src/univariate/logistic.rs::Logistic::new_unchecked", "src/univariate/logistic.rs::Logistic::from", "src/univariate/logistic.rs::Logistic::params", "src/univariate/gumbel.rs::Gumbel::new", "src/univariate/gumbel.rs::Gumbel::new_unchecked", "src/univariate/gumbel.rs::Gumbel::from", "src/univariate/gumbel.rs::Gumbel::params", "src/univariate/frechet.rs::Frechet::new", "src/univariate/frechet.rs::Frechet::new_unchecked", "src/univariate/frechet.rs::Frechet::from", "src/univariate/frechet.rs::Frechet::params", "src/univariate/gev.rs::GeneralisedExtremeValue::new", "src/univariate/gev.rs::GeneralisedExtremeValue::new_unchecked", "src/univariate/gev.rs::GeneralisedExtremeValue::from", "src/univariate/gev.rs::GeneralisedExtremeValue::params", "src/univariate/gpd.rs::GeneralisedPareto::new", "src/univariate/gpd.rs::GeneralisedPareto::new_unchecked", "src/univariate/gpd.rs::GeneralisedPareto::from", "src/univariate/gpd.rs::GeneralisedPareto::params", "src/univariate/pareto.rs::Pareto::new", "src/univariate/pareto.rs::Pareto::new_unchecked", "src/univariate/pareto.rs::Pareto::from", "src/univariate/pareto.rs::Pareto::params", "src/univariate/arcsine.rs::Arcsine::new", "src/univariate/arcsine.rs::Arcsine::new_unchecked", "src/univariate/arcsine.rs::Arcsine::from", "src/univariate/arcsine.rs::Arcsine::params", "src/univariate/cosine.rs::Cosine::new", "src/univariate/cosine.rs::Cosine::new_unchecked", "src/univariate/cosine.rs::Cosine::from", "src/univariate/cosine.rs::Cosine::params"]}
{"id": "C19", "title": "choose(n,k) is the binomial coefficient, exactly", "statement": "For k <= n the internal choose used by Binomial and BetaBinomial pmf returns exactly n!/(k!(n-k)!) whenever no intermediate product exceeds u64 (always so for n <= 62), never loses a remainder in its division, and panics (overflow checks on) otherwise; for k > n it panics.", "quantifier": "every pair of u64 values", "why_tests_cant": "2^128 pairs; integer overflow boundary", "anchors": ["src/utils.rs::choose"]}
{"id": "C20", "title": "factorial(n) is n!, exactly, for n <= 20 and panics on overflow beyond", "statement": "The factorial helpers agree with n! for every n <= 20, and for n > 20 the checked product overflows u64.", "quantifier": "every u64", "why_tests_cant": "table/loop boundary and overflow", "anchors": ["src/utils.rs::factorial", "src/utils.rs::factorial_exact", "src/consts.rs::FACTORIALS_16"]}
{"id": "C21", "title": "log_factorial_stirling(n) approximates ln n!", "statement": "For every n the value used by Poisson and Erlang agrees with ln(n!) up to a stated error (table for n <= 254, Stirling series beyond).", "quantifier": "every u64 n", "why_tests_cant": "unbounded n; analytic error bound", "anchors": ["src/utils.rs::log_factorial_stirling", "src/consts.rs::LOG_FACTORIALS_255"]}
{"id": "C22", "title": "sample_n draws exactly n samples and is a prefix of sample_iter", "statement": "sample_n(rng, n) returns exactly n values, equal to the first n values of sample_iter on the same generator state, and leaves the generator in the same state; drawing n then m equals drawing n+m. The iterator never ends.", "quantifier": "every distribution, generator state and n, m", "why_tests_cant": "unbounded n and arbitrary generator states", "anchors": ["src/lib.rs::Distribution::sample_n", "src/lib.rs::Sampler"]}
{"id": "C23", "title": "Default methods: ccdf, log_cdf, log_pdf, kurtosis/excess, quartiles, fences", "statement": "ccdf(x) = 1 - cdf(x); log variants are logarithms of the plain ones; whenever a distribution overrides only one of kurtosis/excess_kurtosis (resp. variance/standard_deviation, quantile/cquantile, likelihood/log_likelihood) the other is derived from it and terminates; iqr and fences are the documented combinations of quartiles.", "quantifier": "every distribution implementation and input", "why_tests_cant": "mutually recursive defaults can diverge for some implementor only", "anchors": ["src/lib.rs::Distribution", "src/statistics.rs::UvMoments", "src/statistics.rs::Quantiles", "src/fitting.rs::Likelihood"]}
{"id": "C24", "title": "kurtosis() = excess_kurtosis() + 3 for every distribution", "statement": "For every distribution and parameters for which both are defined, kurtosis - excess_kurtosis = 3.", "quantifier": "every univariate distribution and every parameter value", "why_tests_cant": "all parameter values of all distributions", "anchors": ["src/statistics.rs::UvMoments", "src/univariate/*.rs", "src/univariate/bernoulli.rs::Bernoulli::new", "src/univariate/uniform.rs::Uniform<f64>::kurtosis", "src/univariate/uniform.rs::Uniform<f64>::excess_kurtosis", "src/univariate/logistic.rs::Logistic::kurtosis", "src/univariate/logistic.rs::Logistic::excess_kurtosis", "src/univariate/gumbel.rs::Gumbel::kurtosis", "src/univariate/gumbel.rs::Gumbel::excess_kurtosis", "src/univariate/arcsine.rs::Arcsine::kurtosis", "src/univariate/arcsine.rs::Arcsine::excess_kurtosis", "src/univariate/triangular.rs::Triangular::kurtosis", "src/univariate/triangular.rs::Triangular::excess_kurtosis", "src/univariate/laplace.rs::Laplace::kurtosis", "src/univariate/laplace.rs::Laplace::excess_kurtosis", "src/univariate/rayleigh.rs::Rayleigh::kurtosis", "src/univariate/rayleigh.rs::Rayleigh::excess_kurtosis", "src/normal/univariate.rs::UvNormal::kurtosis", "src/normal/univariate.rs::UvNormal::excess_kurtosis", "src/univariate/bernoulli.rs::Bernoulli::kurtosis", "src/univariate/bernoulli.rs::Bernoulli::excess_kurtosis", "src/univariate/exponential.rs::Exponential::kurtosis", "src/univariate/exponential.rs::Exponential::excess_kurtosis"]}
{"id": "C25", "title": "convolve_many is the left fold of convolve over all operands", "statement": "convolve_many(self, rvs) returns an error for fewer than two operands; otherwise it convolves self with every element exactly once, stopping at the first error; for Normal, Cauchy and Poisson the result's parameters are the sums of all parameters.", "quantifier": "every list of distributions", "why_tests_cant": "unbounded operand lists", "anchors": ["src/lib.rs::Convolution::convolve_many"]}
{"id": "C26", "title": "Uniform<f64>: cdf, pdf, quantile, median and moments are coherent", "statement": "For width > 0: cdf is a continuous distribution function, 0 below lb and 1 above ub, pdf is its derivative inside the support and 0 outside, quantile inverts cdf, cdf(median)=1/2, mean and variance are the integrals of x and (x-mean)^2 against pdf, and entropy is the integral of -f ln f.", "quantifier": "every lb, width > 0 and x", "why_tests_cant": "a continuum of inputs and parameters; derivative, limit and monotonicity claims are not finitely testable", "anchors": ["src/univariate/uniform.rs::Uniform<f64>::new", "src/univariate/uniform.rs::Uniform<f64>::support", "src/univariate/uniform.rs::Uniform<f64>::cdf", "src/univariate/uniform.rs::Uniform<f64>::pdf", "src/univariate/uniform.rs::Uniform<f64>::quantile", "src/univariate/uniform.rs::Uniform<f64>::median", "src/univariate/uniform.rs::Uniform<f64>::mean", "src/univariate/uniform.rs::Uniform<f64>::variance", "src/univariate/uniform.rs::Uniform<f64>::skewness", "src/univariate/uniform.rs::Uniform<f64>::kurtosis", "src/univariate/uniform.rs::Uniform<f64>::excess_kurtosis", "src/univariate/uniform.rs::Uniform<f64>::shannon_entropy"]}
{"id": "C27", "title": "Uniform<f64>::cdf is a valid probability in double arithmetic", "statement": "For every finite lb and width accepted by Uniform::new with lb+width and 1/width finite, and every non-NaN x, cdf(x) is a valid Probability (rounding never pushes it outside [0,1]) and cdf is monotone in x.", "quantifier": "every finite double lb, width and every non-NaN double x", "why_tests_cant": "2^64 bit patterns (for binary operations 2^128 pairs); tests sample a handful and miss NaN, signed zero, subnormals and rounding boundaries", "anchors": ["src/univariate/uniform.rs::Uniform<f64>::cdf", "src/univariate/uniform.rs::Uniform<f64>::new"]}
{"id": "C28", "title": "Uniform<i64>: pmf, cdf, moments are coherent", "statement": "For width > 0 (no i64 overflow): pmf is non-negative, zero outside [lb, lb+width], sums to 1 over the support; cdf(k) is the sum of pmf up to k; mean and variance are the sums of k and (k-mean)^2 against pmf; span is the number of points.", "quantifier": "every lb, width and k in i64 range", "why_tests_cant": "a continuum of inputs and parameters; derivative, limit and monotonicity claims are not finitely testable", "anchors": ["src/univariate/uniform.rs::Uniform<i64>::new", "src/univariate/uniform.rs::Uniform<i64>::pmf", "src/univariate/uniform.rs::Uniform<i64>::cdf", "src/univariate/uniform.rs::Uniform<i64>::support", "src/univariate/uniform.rs::Uniform<i64>::span", "src/univariate/uniform.rs::Uniform<i64>::mean", "src/univariate/uniform.rs::Uniform<i64>::variance", "src/univariate/uniform.rs::Uniform<i64>::skewness", "src/univariate/uniform.rs::Uniform<i64>::excess_kurtosis", "src/univariate/uniform.rs::Uniform<i64>::shannon_entropy"]}
{"id": "C29", "title": "Uniform<i64>::quantile returns a support point for every probability", "statement": "For every p in [0,1], quantile(p) lies in the support and is the least k with p <= cdf(k) as documented.", "quantifier": "every p in [0,1] and parameters", "why_tests_cant": "a continuum of p; boundary p = 1", "anchors": ["src/univariate/uniform.rs::Uniform<i64>::quantile", "src/statistics.rs::Quantiles::quantile", "src/univariate/uniform.rs::Uniform<i64>::new", "src/univariate/uniform.rs::Uniform<i64>::cdf"]}
{"id": "C30", "title": "Exponential: cdf, pdf, median, mode and moments are coherent", "statement": "For lambda > 0 on x >= 0: cdf is a distribution function, pdf its derivative, integrates to 1; cdf(median)=1/2; mean 1/lambda and variance 1/lambda^2 are the moment integrals; the mode maximises the pdf; ccdf is memoryless; entropy is -int f ln f.", "quantifier": "every lambda > 0 and x >= 0", "why_tests_cant": "a continuum of inputs and parameters; derivative, limit and monotonicity claims are not finitely testable", "anchors": ["src/univariate/exponential.rs::Exponential::new", "src/univariate/exponential.rs::Exponential::cdf", "src/univariate/exponential.rs::Exponential::pdf", "src/univariate/exponential.rs::Exponential::median", "src/univariate/exponential.rs::Exponential::modes", "src/univariate/exponential.rs::Exponential::mean", "src/univariate/exponential.rs::Exponential::variance", "src/univariate/exponential.rs::Exponential::skewness", "src/univariate/exponential.rs::Exponential::excess_kurtosis", "src/univariate/exponential.rs::Exponential::shannon_entropy"]}
{"id": "C31", "title": "quantile inverts cdf (Uniform, Cauchy, Normal, Exponential)", "statement": "For every distribution that implements quantile and every p in (0,1): cdf(quantile(p)) = p.", "quantifier": "every parameter and every p in (0,1)", "why_tests_cant": "a continuum of p and parameters", "anchors": ["src/univariate/exponential.rs::quantile", "src/univariate/cauchy.rs::quantile", "src/univariate/uniform.rs::quantile", "src/normal/univariate.rs::quantile", "src/univariate/uniform.rs::Uniform<f64>::new", "src/univariate/uniform.rs::Uniform<f64>::cdf", "src/univariate/uniform.rs::Uniform<f64>::quantile", "src/univariate/cauchy.rs::Cauchy::new", "src/univariate/cauchy.rs::Cauchy::cdf", "src/univariate/cauchy.rs::Cauchy::quantile", "src/univariate/exponential.rs::Exponential::new", "src/univariate/exponential.rs::Exponential::quantile", "src/univariate/exponential.rs::Exponential::cdf"]}
{"id": "C32", "title": "Cauchy: cdf, pdf, quantile, median, mode are coherent", "statement": "For gamma > 0: cdf is a distribution function on the line with derivative pdf, quantile is its two-sided inverse on (0,1), cdf(median)=1/2, mode maximises pdf, fwhm is the full width at half maximum.", "quantifier": "every x0, gamma > 0, x, p", "why_tests_cant": "a continuum of inputs and parameters; derivative, limit and monotonicity claims are not finitely testable", "anchors": ["src/univariate/cauchy.rs::Cauchy::new", "src/univariate/cauchy.rs::Cauchy::support", "src/univariate/cauchy.rs::Cauchy::cdf", "src/univariate/cauchy.rs::Cauchy::pdf", "src/univariate/cauchy.rs::Cauchy::quantile", "src/univariate/cauchy.rs::Cauchy::median", "src/univariate/cauchy.rs::Cauchy::modes", "src/univariate/cauchy.rs::Cauchy::fwhm"]}
{"id": "C33", "title": "Logistic: cdf, pdf, median, mode, mean are coherent", "statement": "For s > 0: cdf is a distribution function with derivative pdf, symmetric about mu; cdf(median)=1/2; mode maximises pdf; mean is the moment integral.", "quantifier": "every mu, s > 0, x", "why_tests_cant": "a continuum of inputs and parameters; derivative, limit and monotonicity claims are not finitely testable", "anchors": ["src/univariate/logistic.rs::Logistic::new", "src/univariate/logistic.rs::Logistic::support", "src/univariate/logistic.rs::Logistic::cdf", "src/univariate/logistic.rs::Logistic::pdf", "src/univariate/logistic.rs::Logistic::median", "src/univariate/logistic.rs::Logistic::modes", "src/univariate/logistic.rs::Logistic::mean", "src/univariate/logistic.rs::Logistic::shannon_entropy"]}
{"id": "C34", "title": "Gumbel: cdf, pdf, median, mode are coherent", "statement": "For beta > 0: cdf is a distribution function with derivative pdf; cdf(median)=1/2; mode maximises pdf.", "quantifier": "every mu, beta > 0, x", "why_tests_cant": "a continuum of inputs and parameters; derivative, limit and monotonicity claims are not finitely testable", "anchors": ["src/univariate/gumbel.rs::Gumbel::new", "src/univariate/gumbel.rs::Gumbel::support", "src/univariate/gumbel.rs::Gumbel::cdf", "src/univariate/gumbel.rs::Gumbel::pdf", "src/univariate/gumbel.rs::Gumbel::median", "src/univariate/gumbel.rs::Gumbel::modes"]}
{"id": "C35", "title": "Frechet: cdf, pdf, median, mode are coherent; sample inverts the cdf", "statement": "For alpha > 0 on x > 0: cdf is a distribution function with derivative pdf; cdf(median)=1/2; mode maximises pdf; sample is inverse-transform sampling for this cdf.", "quantifier": "every alpha > 0, x > 0, u in (0,1)", "why_tests_cant": "a continuum of inputs and parameters; derivative, limit and monotonicity claims are not finitely testable", "anchors": ["src/univariate/frechet.rs::Frechet::new", "src/univariate/frechet.rs::Frechet::support", "src/univariate/frechet.rs::Frechet::cdf", "src/univariate/frechet.rs::Frechet::pdf", "src/univariate/frechet.rs::Frechet::median", "src/univariate/frechet.rs::Frechet::modes"]}
{"id": "C36", "title": "GeneralisedExtremeValue: cdf, pdf, median, mode are coherent", "statement": "For sigma, zeta > 0 on the region 1+zeta z > 0: cdf is a distribution function with derivative pdf; cdf(median)=1/2; mode maximises pdf; below the region the value is a probability.", "quantifier": "every mu, sigma, zeta > 0, x", "why_tests_cant": "a continuum of inputs and parameters; derivative, limit and monotonicity claims are not finitely testable", "anchors": ["src/univariate/gev.rs::GeneralisedExtremeValue::new", "src/univariate/gev.rs::GeneralisedExtremeValue::cdf", "src/univariate/gev.rs::GeneralisedExtremeValue::pdf", "src/univariate/gev.rs::GeneralisedExtremeValue::median", "src/univariate/gev.rs::GeneralisedExtremeValue::modes"]}
{"id": "C37", "title": "GeneralisedPareto: cdf, pdf, median, mean are coherent", "statement": "For sigma, zeta > 0 on x >= mu: cdf is a distribution function with derivative pdf; cdf(median)=1/2; mean, when returned, is the moment integral, and is returned whenever it exists (zeta < 1).", "quantifier": "every mu, sigma, zeta > 0, x >= mu", "why_tests_cant": "a continuum of inputs and parameters; derivative, limit and monotonicity claims are not finitely testable", "anchors": ["src/univariate/gpd.rs::GeneralisedPareto::new", "src/univariate/gpd.rs::GeneralisedPareto::cdf", "src/univariate/gpd.rs::GeneralisedPareto::pdf", "src/univariate/gpd.rs::GeneralisedPareto::median", "src/univariate/gpd.rs::GeneralisedPareto::shannon_entropy", "src/univariate/gpd.rs::GeneralisedPareto::mean"]}
{"id": "C38", "title": "Kumaraswamy: cdf, pdf, median, mode, sampling are coherent", "statement": "For a, b > 0 on (0,1): cdf is a distribution function with derivative pdf; cdf(median)=1/2; mode, when returned, maximises pdf; cdf(sample(u)) = u.", "quantifier": "every a, b > 0, x in (0,1), u in (0,1)", "why_tests_cant": "a continuum of inputs and parameters; derivative, limit and monotonicity claims are not finitely testable", "anchors": ["src/univariate/kumaraswamy.rs::Kumaraswamy::from", "src/univariate/kumaraswamy.rs::Kumaraswamy::support", "src/univariate/kumaraswamy.rs::Kumaraswamy::cdf", "src/univariate/kumaraswamy.rs::Kumaraswamy::pdf", "src/univariate/kumaraswamy.rs::Kumaraswamy::median", "src/univariate/kumaraswamy.rs::Kumaraswamy::modes"]}
{"id": "C39", "title": "Pareto: cdf, pdf, median, mode, mean, variance are coherent", "statement": "For x_m > 0, alpha > 0 on x >= x_m: cdf is a distribution function with derivative pdf; cdf(median)=1/2; the mode maximises pdf; mean (alpha > 1) and variance (alpha > 2) are the moment integrals and infinite otherwise.", "quantifier": "every x_m, alpha > 0, x >= x_m", "why_tests_cant": "a continuum of inputs and parameters; derivative, limit and monotonicity claims are not finitely testable", "anchors": ["src/univariate/pareto.rs::Pareto::new", "src/univariate/pareto.rs::Pareto::support", "src/univariate/pareto.rs::Pareto::cdf", "src/univariate/pareto.rs::Pareto::pdf", "src/univariate/pareto.rs::Pareto::median", "src/univariate/pareto.rs::Pareto::modes", "src/univariate/pareto.rs::Pareto::mean", "src/univariate/pareto.rs::Pareto::variance", "src/univariate/pareto.rs::Pareto::skewness", "src/univariate/pareto.rs::Pareto::excess_kurtosis", "src/univariate/pareto.rs::Pareto::shannon_entropy"]}
{"id": "C40", "title": "Weibull: cdf and pdf are coherent, median, mode", "statement": "For lambda, k > 0: cdf is a distribution function, zero for negative x, with derivative pdf on x > 0; cdf(median)=1/2; the returned mode maximises pdf.", "quantifier": "every lambda, k > 0, x", "why_tests_cant": "a continuum of inputs and parameters; derivative, limit and monotonicity claims are not finitely testable", "anchors": ["src/univariate/weibull.rs::Weibull::from", "src/univariate/weibull.rs::Weibull::cdf", "src/univariate/weibull.rs::Weibull::pdf", "src/univariate/weibull.rs::Weibull::median", "src/univariate/weibull.rs::Weibull::modes"]}
{"id": "C41", "title": "Arcsine: cdf, pdf, median, mean, variance, modes are coherent", "statement": "For w > 0 on (a, a+w): cdf is a distribution function with derivative pdf; cdf(median)=1/2; mean and variance are the moment integrals; pdf is infinite at the modes.", "quantifier": "every a, w > 0, x in the support", "why_tests_cant": "a continuum of inputs and parameters; derivative, limit and monotonicity claims are not finitely testable", "anchors": ["src/univariate/arcsine.rs::Arcsine::new", "src/univariate/arcsine.rs::Arcsine::support", "src/univariate/arcsine.rs::Arcsine::cdf", "src/univariate/arcsine.rs::Arcsine::pdf", "src/univariate/arcsine.rs::Arcsine::median", "src/univariate/arcsine.rs::Arcsine::mean", "src/univariate/arcsine.rs::Arcsine::variance", "src/univariate/arcsine.rs::Arcsine::skewness", "src/univariate/arcsine.rs::Arcsine::kurtosis", "src/univariate/arcsine.rs::Arcsine::modes"]}
{"id": "C42", "title": "Cosine: cdf, pdf, median, mode are coherent", "statement": "For s > 0 on [mu-s, mu+s]: cdf is a distribution function with derivative pdf; cdf(median)=1/2; mode maximises pdf.", "quantifier": "every mu, s > 0, x in the support", "why_tests_cant": "a continuum of inputs and parameters; derivative, limit and monotonicity claims are not finitely testable", "anchors": ["src/univariate/cosine.rs::Cosine::new", "src/univariate/cosine.rs::Cosine::support", "src/univariate/cosine.rs::Cosine::cdf", "src/univariate/cosine.rs::Cosine::pdf", "src/univariate/cosine.rs::Cosine::median", "src/univariate/cosine.rs::Cosine::modes", "src/univariate/cosine.rs::Cosine::mean", "src/univariate/cosine.rs::Cosine::variance", "src/univariate/cosine.rs::Cosine::skewness"]}
{"id": "C43", "title": "Triangular: cdf, pdf, median, mode, mean, variance are coherent", "statement": "For a2c, c2b > 0: cdf is a distribution function with derivative pdf; cdf(median)=1/2; mode maximises pdf; mean and variance are the moment integrals.", "quantifier": "every a, a2c, c2b > 0, x", "why_tests_cant": "a continuum of inputs and parameters; derivative, limit and monotonicity claims are not finitely testable", "anchors": ["src/univariate/triangular.rs::Triangular::new", "src/univariate/triangular.rs::Triangular::cdf", "src/univariate/triangular.rs::Triangular::support", "src/univariate/triangular.rs::Triangular::pdf", "src/univariate/triangular.rs::Triangular::median", "src/univariate/triangular.rs::Triangular::modes", "src/univariate/triangular.rs::Triangular::variance", "src/univariate/triangular.rs::Triangular::skewness", "src/univariate/triangular.rs::Triangular::kurtosis", "src/univariate/triangular.rs::Triangular::mean"]}
{"id": "C44", "title": "Laplace: cdf is a distribution function with derivative pdf", "statement": "For b > 0: cdf is a distribution function on the line with derivative pdf, and sampling is inverse-transform sampling for it.", "quantifier": "every mu, b > 0, x, u", "why_tests_cant": "a continuum of inputs and parameters; derivative, limit and monotonicity claims are not finitely testable", "anchors": ["src/univariate/laplace.rs::Laplace::new", "src/univariate/laplace.rs::Laplace::cdf", "src/univariate/laplace.rs::Laplace::pdf", "src/univariate/laplace.rs::Laplace::support", "src/univariate/laplace.rs::Laplace::median", "src/univariate/laplace.rs::Laplace::modes", "src/univariate/laplace.rs::Laplace::mean", "src/univariate/laplace.rs::Laplace::variance", "src/univariate/laplace.rs::Laplace::skewness", "src/univariate/laplace.rs::Laplace::kurtosis", "src/univariate/laplace.rs::Laplace::shannon_entropy"]}
{"id": "C45", "title": "Rayleigh: cdf is a distribution function with derivative pdf", "statement": "For sigma > 0 on x >= 0: cdf is a distribution function with derivative pdf; cdf(median)=1/2; the mode maximises pdf.", "quantifier": "every sigma > 0, x >= 0", "why_tests_cant": "a continuum of inputs and parameters; derivative, limit and monotonicity claims are not finitely testable", "anchors": ["src/univariate/rayleigh.rs::Rayleigh::new", "src/univariate/rayleigh.rs::Rayleigh::cdf", "src/univariate/rayleigh.rs::Rayleigh::pdf", "src/univariate/rayleigh.rs::Rayleigh::median", "src/univariate/rayleigh.rs::Rayleigh::support", "src/univariate/rayleigh.rs::Rayleigh::modes", "src/univariate/rayleigh.rs::Rayleigh::mean", "src/univariate/rayleigh.rs::Rayleigh::variance", "src/univariate/rayleigh.rs::Rayleigh::skewness"]}
{"id": "C46", "title": "Normal (univariate): cdf, pdf, quantile, median, mode, moments are coherent", "statement": "For Sigma > 0, relative to the exact standard normal cdf and its inverse: cdf is a distribution function with derivative pdf, 0 at -inf and 1 at +inf; quantile inverts cdf; cdf(median)=1/2; mode maximises pdf; mean and variance are the moment integrals; pdf integrates to 1.", "quantifier": "every mu, Sigma > 0, x, p", "why_tests_cant": "a continuum of inputs and parameters; derivative, limit and monotonicity claims are not finitely testable", "anchors": ["src/normal/univariate.rs::UvNormal::new", "src/normal/univariate.rs::UvNormal::support", "src/normal/univariate.rs::UvNormal::cdf", "src/normal/univariate.rs::UvNormal::pdf", "src/normal/univariate.rs::UvNormal::quantile", "src/normal/univariate.rs::UvNormal::median", "src/normal/univariate.rs::UvNormal::modes", "src/normal/univariate.rs::UvNormal::mean", "src/normal/univariate.rs::UvNormal::variance", "src/normal/univariate.rs::UvNormal::skewness", "src/normal/univariate.rs::UvNormal::shannon_entropy"]}
{"id": "C47", "title": "LogNormal (univariate): pdf is the derivative of cdf and moments match", "statement": "For sigma > 0 on x > 0: cdf is a distribution function with derivative pdf and mode/moments are those of that distribution.", "quantifier": "every mu, sigma > 0, x > 0", "why_tests_cant": "a continuum of inputs and parameters; derivative, limit and monotonicity claims are not finitely testable", "anchors": ["src/univariate/lognormal.rs::LogNormal::new", "src/univariate/lognormal.rs::LogNormal::cdf", "src/univariate/lognormal.rs::LogNormal::pdf", "src/univariate/lognormal.rs::LogNormal::mean", "src/univariate/lognormal.rs::LogNormal::support", "src/univariate/lognormal.rs::LogNormal::median", "src/univariate/lognormal.rs::LogNormal::variance", "src/univariate/lognormal.rs::LogNormal::skewness", "src/univariate/lognormal.rs::LogNormal::excess_kurtosis", "src/univariate/lognormal.rs::LogNormal::modes"]}
{"id": "C48", "title": "Bernoulli: pmf, moments, median and entropy are coherent", "statement": "For p in [0,1]: pmf is a probability mass function (in doubles: both values valid and summing to exactly 1, new failing on every other double); mean, variance, skewness are the moment sums; median and entropy are right when p is not within 1e-7 of the code's special-cased values.", "quantifier": "every p in [0,1] (every double)", "why_tests_cant": "a continuum of inputs and parameters; derivative, limit and monotonicity claims are not finitely testable", "anchors": ["src/univariate/bernoulli.rs::Bernoulli::new", "src/univariate/bernoulli.rs::Bernoulli::pmf", "src/univariate/bernoulli.rs::Bernoulli::cdf", "src/univariate/bernoulli.rs::Bernoulli::mean", "src/univariate/bernoulli.rs::Bernoulli::variance", "src/univariate/bernoulli.rs::Bernoulli::skewness", "src/univariate/bernoulli.rs::Bernoulli::median", "src/univariate/bernoulli.rs::Bernoulli::shannon_entropy"]}
{"id": "C49", "title": "Binomial: pmf sums to one, mean and variance are the moment sums", "statement": "For n (no u64 overflow in choose) and p in [0,1]: pmf over 0..n is non-negative and sums to 1, mean = sum k pmf, variance = sum (k-mean)^2 pmf.", "quantifier": "every n, p", "why_tests_cant": "a continuum of inputs and parameters; derivative, limit and monotonicity claims are not finitely testable", "anchors": ["src/univariate/binomial.rs::Binomial::new", "src/univariate/binomial.rs::Binomial::pmf", "src/univariate/binomial.rs::Binomial::mean", "src/univariate/binomial.rs::Binomial::variance", "src/univariate/binomial.rs::Binomial::skewness"]}
{"id": "C50", "title": "Binomial: modes() maximise the pmf and the support is 0..n", "statement": "Every value in modes() maximises the pmf over 0..=n, and support() is exactly the set of values with possibly non-zero mass.", "quantifier": "every n, p", "why_tests_cant": "all n and a continuum of p", "anchors": ["src/univariate/binomial.rs::modes", "src/univariate/binomial.rs::support", "src/univariate/beta_binomial.rs::support", "src/univariate/categorical.rs::support", "src/univariate/binomial.rs::Binomial::new", "src/univariate/binomial.rs::Binomial::modes", "src/univariate/binomial.rs::Binomial::support", "src/univariate/binomial.rs::Binomial::pmf", "src/univariate/categorical.rs::Categorical::new", "src/univariate/categorical.rs::Categorical::support", "src/univariate/categorical.rs::Categorical::pmf"]}
{"id": "C51", "title": "Geometric: pmf, cdf, mean, variance, mode are coherent", "statement": "For p in (0,1] and k < 2^31-1: pmf is non-negative, cdf(k) is the sum of pmf over 0..k, tends to 1, the mode 0 maximises pmf, mean and variance are the moment series.", "quantifier": "every p in (0,1], every k", "why_tests_cant": "a continuum of inputs and parameters; derivative, limit and monotonicity claims are not finitely testable", "anchors": ["src/univariate/geometric.rs::Geometric::new", "src/univariate/geometric.rs::Geometric::pmf", "src/univariate/geometric.rs::Geometric::cdf", "src/univariate/geometric.rs::Geometric::modes", "src/univariate/geometric.rs::Geometric::mean", "src/univariate/geometric.rs::Geometric::variance", "src/univariate/geometric.rs::Geometric::skewness", "src/univariate/geometric.rs::Geometric::excess_kurtosis", "src/univariate/geometric.rs::Geometric::shannon_entropy"]}
{"id": "C52", "title": "Geometric pmf/cdf are correct for every u64 argument", "statement": "pmf(k) = p(1-p)^k and cdf(k) = 1-(1-p)^(k+1) for every u64 k.", "quantifier": "every u64 k", "why_tests_cant": "2^64 arguments; the failing ones need k >= 2^31", "anchors": ["src/univariate/geometric.rs::pmf", "src/univariate/geometric.rs::cdf", "src/univariate/geometric.rs::Geometric::new", "src/univariate/geometric.rs::Geometric::cdf", "src/univariate/geometric.rs::Geometric::pmf"]}
{"id": "C53", "title": "Categorical: pmf and modes are coherent", "statement": "pmf(i) = ps[i] for i < N and panics beyond; modes() returns exactly the maximisers of pmf in increasing order (on exact reals and on doubles).", "quantifier": "every N >= 1, weight vector, index", "why_tests_cant": "a continuum of inputs and parameters; derivative, limit and monotonicity claims are not finitely testable", "anchors": ["src/univariate/categorical.rs::Categorical::new", "src/univariate/categorical.rs::Categorical::pmf", "src/univariate/categorical.rs::Categorical::modes"]}
{"id": "C54", "title": "Poisson: pmf, mode, mean, convolution are coherent", "statement": "With exact log-factorials: pmf(k) = lambda^k e^-lambda / k!, non-negative, sums to 1; mean is the moment series; floor(lambda) maximises pmf; convolution adds rates and is the convolution of pmfs.", "quantifier": "every lambda > 0, k", "why_tests_cant": "a continuum of inputs and parameters; derivative, limit and monotonicity claims are not finitely testable", "anchors": ["src/univariate/poisson.rs::Poisson::new", "src/univariate/poisson.rs::Poisson::pmf", "src/univariate/poisson.rs::Poisson::log_pmf", "src/univariate/poisson.rs::Poisson::mean", "src/univariate/poisson.rs::Poisson::variance", "src/univariate/poisson.rs::Poisson::skewness", "src/univariate/poisson.rs::Poisson::modes", "src/univariate/poisson.rs::Poisson::convolve"]}
{"id": "C55", "title": "Convolution of Bernoulli/Binomial is the distribution of the sum", "statement": "Bernoulli+Bernoulli, Binomial+Bernoulli and Binomial+Binomial convolve successfully iff the success probabilities are equal, and the pmf of the result is the discrete convolution of the pmfs.", "quantifier": "every n, m, p, k", "why_tests_cant": "Vandermonde identity over all n, m, k", "anchors": ["src/univariate/bernoulli.rs::convolve", "src/univariate/binomial.rs::convolve", "src/univariate/bernoulli.rs::Bernoulli::new", "src/univariate/bernoulli.rs::Bernoulli::convolve", "src/univariate/binomial.rs::Binomial::pmf", "src/univariate/binomial.rs::Binomial::new", "src/univariate/binomial.rs::Binomial::convolve"]}
{"id": "C56", "title": "Convolution of Normal/Cauchy/ChiSq/Gamma/Exponential adds mean and variance whenever it returns Ok, and is Ok whenever the sum is in the family", "statement": "When convolve returns Ok the resulting mean and variance are the sums; ChiSq convolves for all k1, k2; Gamma convolves for equal rates.", "quantifier": "every pair of parameter sets", "why_tests_cant": "all parameter pairs", "anchors": ["src/normal/univariate.rs::convolve", "src/univariate/cauchy.rs::convolve", "src/univariate/chi_sq.rs::convolve", "src/univariate/gamma.rs::convolve", "src/normal/univariate.rs::UvNormal::new", "src/normal/univariate.rs::UvNormal::convolve", "src/normal/univariate.rs::UvNormal::pdf", "src/univariate/cauchy.rs::Cauchy::new", "src/univariate/cauchy.rs::Cauchy::convolve", "src/univariate/cauchy.rs::Cauchy::pdf", "src/univariate/gamma.rs::Gamma::new", "src/univariate/exponential.rs::Exponential::new", "src/univariate/gamma.rs::Gamma::pdf", "src/univariate/exponential.rs::Exponential::pdf", "src/univariate/gamma.rs::Gamma::convolve", "src/univariate/gamma.rs::Gamma::mean", "src/univariate/chi_sq.rs::ChiSq::new", "src/univariate/chi_sq.rs::ChiSq::convolve", "src/univariate/chi_sq.rs::ChiSq::pdf"]}
{"id": "C57", "title": "Mixture cdf/pdf are weighted averages of the components", "statement": "For weights on the simplex: cdf(x) is a valid probability lying between the smallest and largest component cdf, monotone when the components are, pdf is non-negative and is the derivative of cdf when this holds for the components.", "quantifier": "every number of components, weights, component functions and x", "why_tests_cant": "unbounded component lists and arbitrary components", "anchors": ["src/mixture.rs::cdf", "src/mixture.rs::pdf", "src/mixture.rs::Mixture::new", "src/mixture.rs::Mixture::cdf", "src/mixture.rs::Mixture::pdf", "src/normal/univariate.rs::UvNormal::new"]}
{"id": "C58", "title": "Mixture mean/variance obey the laws of total expectation and variance", "statement": "mean = sum w_i m_i; variance = sum w_i (v_i + (m_i - mean)^2), hence non-negative and at least the average within-component variance, for weights summing to 1.", "quantifier": "every component list and weights on the simplex", "why_tests_cant": "unbounded lists", "anchors": ["src/mixture.rs::mean", "src/mixture.rs::variance", "src/mixture.rs::Mixture::new", "src/mixture.rs::Mixture::mean", "src/mixture.rs::Mixture::variance", "src/mixture.rs::Mixture::skewness", "src/mixture.rs::Mixture::kurtosis"]}
{"id": "C59", "title": "Mixture construction: new fails exactly when the weights are not a simplex; support contains every component support; From<Params> is safe", "statement": "Mixture::new is Ok iff SimplexVector::new accepts the weights; support() contains the support of every component; From<Params> with any component_params vector either builds the mixture or fails cleanly; From(params()) gives back the mixture.", "quantifier": "every component list, weights and params value", "why_tests_cant": "unbounded lists, hidden cached support", "anchors": ["src/mixture.rs::Mixture::new", "src/mixture.rs::compute_support", "src/mixture.rs::From<Params>", "src/mixture.rs::Mixture::new_unchecked", "src/mixture.rs::Mixture::support", "src/mixture.rs::Mixture::params"]}
{"id": "C60", "title": "Mixture::sample draws from component i with the i-th weight", "statement": "Sampling consumes one uniform draw to choose the component through the weights and then samples only that component with the remaining generator state.", "quantifier": "every component list, weights, generator", "why_tests_cant": "all generators", "anchors": ["src/mixture.rs::sample", "src/mixture.rs::Mixture::new", "src/mixture.rs::Mixture::sample"]}
{"id": "C61", "title": "PairedNormal is the product of two univariate normals", "statement": "pdf(x) = product of the UvNormal pdfs, covariance is diagonal with the variances, correlation is the identity, modes is the mean, entropy is the sum of the univariate entropies.", "quantifier": "every mu, Sigma > 0, x", "why_tests_cant": "continuum", "anchors": ["src/normal/paired.rs::PairedNormal::new", "src/normal/paired.rs::PairedNormal::pdf", "src/normal/univariate.rs::UvNormal::new", "src/normal/univariate.rs::UvNormal::pdf", "src/normal/paired.rs::PairedNormal::mean", "src/normal/paired.rs::PairedNormal::variance", "src/normal/paired.rs::PairedNormal::covariance", "src/normal/paired.rs::PairedNormal::correlation", "src/normal/paired.rs::PairedNormal::modes", "src/normal/paired.rs::PairedNormal::sample", "src/normal/paired.rs::PairedNormal::shannon_entropy"]}
{"id": "C62", "title": "BvNormal: covariance, correlation, z and pdf are coherent", "statement": "For variances > 0 and |rho| < 1: covariance is symmetric with correlation rho and determinant s1 s2 (1-rho^2) > 0; z(x) is the quadratic form of the inverse covariance; pdf = exp(-z/2)/(2 pi sqrt det); with rho = 0 it equals PairedNormal; sample is an affine map with that covariance.", "quantifier": "every parameter set and x", "why_tests_cant": "continuum", "anchors": ["src/normal/bivariate.rs::BvNormal::new", "src/normal/bivariate.rs::BvNormal::covariance", "src/normal/bivariate.rs::BvNormal::pdf", "src/normal/bivariate.rs::BvNormal::mean", "src/normal/bivariate.rs::BvNormal::variance", "src/normal/bivariate.rs::BvNormal::correlation", "src/normal/bivariate.rs::BvNormal::z", "src/normal/bivariate.rs::BvNormal::modes", "src/normal/paired.rs::PairedNormal::new", "src/normal/paired.rs::PairedNormal::pdf", "src/normal/bivariate.rs::BvNormal::sample", "src/normal/bivariate.rs::BvNormal::shannon_entropy"]}
{"id": "C63", "title": "BvNormal::new rejects degenerate correlations", "statement": "Every distribution accepted by BvNormal::new has a well-defined (finite) pdf.", "quantifier": "every accepted parameter set", "why_tests_cant": "boundary rho = +-1", "anchors": ["src/normal/bivariate.rs::new", "src/normal/mod.rs::BivariateCovariance", "src/normal/bivariate.rs::BvNormal::new", "src/normal/bivariate.rs::BvNormal::pdf"]}
{"id": "C64", "title": "Gradient scaling multiplies every component", "statement": "(grad * sf) multiplies every component of the Normal gradient types by sf.", "quantifier": "every gradient and scale", "why_tests_cant": "all values", "anchors": ["src/normal/bivariate.rs::Mul<f64> for BvNormalGrad", "src/normal/univariate.rs", "src/normal/multivariate.rs"]}
{"id": "C65", "title": "DiagonalNormal/IsotropicNormal: squared Mahalanobis distance is non-negative and is sum (x_i-mu_i)^2/sigma2_i", "statement": "d_mahalanobis_squared equals the quadratic form of the inverse covariance; pdf is the product of univariate normal pdfs; sample has the stated covariance.", "quantifier": "every dimension, parameter set and x", "why_tests_cant": "unbounded dimension", "anchors": ["src/normal/multivariate.rs::Mahalanobis for DiagonalNormal", "src/normal/multivariate.rs::Mahalanobis for IsotropicNormal"]}
{"id": "C66", "title": "MvNormal: Cholesky factor, determinant, precision and Mahalanobis distance are coherent", "statement": "For symmetric positive definite Sigma: the factor L satisfies L L^T = Sigma, Sigma_det is its determinant, precision is the inverse, and d_mahalanobis_squared(x) = (x-mu)^T Sigma^-1 (x-mu).", "quantifier": "every dimension and SPD matrix", "why_tests_cant": "unbounded dimension; matrix identities", "anchors": ["src/normal/multivariate.rs::MvNormal::new_unchecked", "src/normal/multivariate.rs::Mahalanobis for MvNormal", "src/normal/linalg.rs"]}
{"id": "C67", "title": "MvMoments defaults: variance is the diagonal of covariance, correlation is cov/sqrt(var var)", "statement": "The default variance() is the diagonal of covariance() and the default correlation() has unit diagonal and entries cov_ij/sqrt(cov_ii cov_jj).", "quantifier": "every dimension and covariance", "why_tests_cant": "unbounded dimension", "anchors": ["src/statistics.rs::MvMoments"]}
{"id": "C68", "title": "Dirichlet moments: mean on the simplex, covariance symmetric with zero row sums and diagonal = variance", "statement": "For positive alphas: mean entries are positive and sum to 1; covariance is symmetric, its diagonal equals variance(), its rows sum to 0; modes() (alphas > 1) sums to 1.", "quantifier": "every dimension and alpha vector", "why_tests_cant": "unbounded dimension", "anchors": ["src/multivariate/dirichlet.rs::Dirichlet::new_unchecked", "src/multivariate/dirichlet.rs::Dirichlet::from", "src/multivariate/dirichlet.rs::Dirichlet::pdf", "src/multivariate/dirichlet.rs::Dirichlet::log_pdf", "src/multivariate/dirichlet.rs::Dirichlet::mean", "src/multivariate/dirichlet.rs::Dirichlet::covariance", "src/multivariate/dirichlet.rs::Dirichlet::variance", "src/multivariate/dirichlet.rs::Dirichlet::modes", "src/multivariate/dirichlet.rs::Dirichlet::new", "src/multivariate/dirichlet.rs::Dirichlet::sample"]}
{"id": "C69", "title": "Multinomial moments and pmf domain", "statement": "mean sums to n; covariance is symmetric with zero row sums and diagonal = variance(); correlation is consistent with covariance; pmf is defined (does not panic) exactly for count vectors summing to n.", "quantifier": "every N, n, ps and count vector", "why_tests_cant": "unbounded dimension; panics on part of the domain", "anchors": ["src/multivariate/multinomial.rs::Multinomial::new", "src/multivariate/multinomial.rs::Multinomial::support", "src/multivariate/multinomial.rs::Multinomial::mean", "src/multivariate/multinomial.rs::Multinomial::covariance", "src/multivariate/multinomial.rs::Multinomial::variance", "src/multivariate/multinomial.rs::Multinomial::correlation", "src/multivariate/multinomial.rs::Multinomial::log_pmf", "src/multivariate/multinomial.rs::Multinomial::pmf"]}
{"id": "C70", "title": "Multivariate LogNormal covariance is symmetric and matches variance()", "statement": "covariance() is symmetric with entries exp(mu_i+mu_j+(s_ii+s_jj)/2)(exp(s_ij)-1) and its diagonal equals variance().", "quantifier": "every dimension, mu, Sigma", "why_tests_cant": "in-place update order over unbounded dimension", "anchors": ["src/multivariate/lognormal.rs::covariance", "src/multivariate/lognormal.rs::LogNormal::mean", "src/multivariate/lognormal.rs::LogNormal::variance", "src/multivariate/lognormal.rs::LogNormal::covariance", "src/multivariate/lognormal.rs::LogNormal::diagonal", "src/multivariate/lognormal.rs::LogNormal::new"]}
{"id": "C71", "title": "Log-likelihood is the sum of log-densities", "statement": "For Bernoulli, Poisson, Normal, PairedNormal, Beta, Gamma: log_likelihood(xs) = sum of log pdf/pmf over xs.", "quantifier": "every sample list and parameters", "why_tests_cant": "unbounded sample lists", "anchors": ["src/normal/univariate.rs::log_likelihood", "src/normal/paired.rs::log_likelihood", "src/fitting.rs", "src/univariate/bernoulli.rs::Bernoulli::new", "src/univariate/bernoulli.rs::Bernoulli::log_likelihood", "src/univariate/bernoulli.rs::Bernoulli::pmf", "src/univariate/poisson.rs::Poisson::new", "src/univariate/poisson.rs::Poisson::log_likelihood", "src/univariate/beta.rs::Beta::new", "src/univariate/beta.rs::Beta::log_likelihood", "src/univariate/beta.rs::Beta::pdf", "src/normal/univariate.rs::UvNormal::new", "src/normal/univariate.rs::UvNormal::log_likelihood", "src/normal/univariate.rs::UvNormal::pdf", "src/normal/paired.rs::PairedNormal::new", "src/normal/paired.rs::PairedNormal::log_likelihood", "src/univariate/gamma.rs::Gamma::new", "src/univariate/gamma.rs::Gamma::log_likelihood", "src/univariate/gamma.rs::Gamma::pdf"]}
{"id": "C72", "title": "score is the gradient of the log-likelihood", "statement": "score(xs) is the derivative of the sample log-density sum with respect to the parameters (Bernoulli, Poisson, Normal, PairedNormal, Gamma, Beta).", "quantifier": "every sample list and parameters", "why_tests_cant": "derivative; unbounded sample lists", "anchors": ["src/univariate/bernoulli.rs::score", "src/univariate/poisson.rs::score", "src/normal/univariate.rs::score", "src/univariate/bernoulli.rs::Bernoulli::new", "src/univariate/bernoulli.rs::Bernoulli::score", "src/univariate/poisson.rs::Poisson::new", "src/univariate/poisson.rs::Poisson::score", "src/normal/univariate.rs::UvNormal::new", "src/normal/univariate.rs::UvNormal::score", "src/normal/paired.rs::PairedNormal::new", "src/normal/paired.rs::PairedNormal::score", "src/univariate/gamma.rs::Gamma::new", "src/univariate/gamma.rs::Gamma::score", "src/univariate/beta.rs::Beta::new", "src/univariate/beta.rs::Beta::score"]}
{"id": "C73", "title": "fit_mle maximises the likelihood", "statement": "When fit_mle(xs) returns Ok(d), no other parameter value has a larger sum of log-densities on xs (Bernoulli, Poisson, Normal); Bernoulli::fit_mle succeeds on every non-empty sample (in doubles) and fails cleanly on the empty one; Normal fit fails on constant samples.", "quantifier": "every sample list and competitor parameter", "why_tests_cant": "optimality over a continuum; unbounded sample lists", "anchors": ["src/univariate/bernoulli.rs::fit_mle", "src/univariate/poisson.rs::fit_mle", "src/normal/univariate.rs::fit_mle", "src/univariate/bernoulli.rs::Bernoulli::fit_mle", "src/univariate/bernoulli.rs::Bernoulli::new", "src/univariate/poisson.rs::Poisson::fit_mle", "src/univariate/poisson.rs::Poisson::new", "src/normal/univariate.rs::UvNormal::fit_mle", "src/normal/univariate.rs::UvNormal::new", "src/univariate/bernoulli.rs::Bernoulli::new_unchecked"]}
{"id": "C74", "title": "Mode of the Gamma-like families maximises the density", "statement": "For Beta (a,b>1), Gamma (alpha>=1), InvGamma, BetaPrime (a>=1), ChiSq (k>=2), Chi, FDist (d1>2), StudentT and InvNormal, for any positive normalising constant: the returned mode maximises the pdf over the support.", "quantifier": "every parameter set and x", "why_tests_cant": "continuum", "anchors": ["src/univariate/beta.rs::Beta::new", "src/univariate/beta.rs::Beta::modes", "src/univariate/beta.rs::Beta::pdf", "src/univariate/gamma.rs::Gamma::new", "src/univariate/gamma.rs::Gamma::modes", "src/univariate/gamma.rs::Gamma::pdf", "src/univariate/inverse_gamma.rs::InvGamma::new", "src/univariate/inverse_gamma.rs::InvGamma::modes", "src/univariate/inverse_gamma.rs::InvGamma::pdf", "src/univariate/beta_prime.rs::BetaPrime::new", "src/univariate/beta_prime.rs::BetaPrime::modes", "src/univariate/beta_prime.rs::BetaPrime::pdf", "src/univariate/chi_sq.rs::ChiSq::new", "src/univariate/chi_sq.rs::ChiSq::modes", "src/univariate/chi_sq.rs::ChiSq::pdf", "src/univariate/chi.rs::Chi::new", "src/univariate/chi.rs::Chi::modes", "src/univariate/chi.rs::Chi::pdf", "src/univariate/f_dist.rs::FDist::new", "src/univariate/f_dist.rs::FDist::modes", "src/univariate/f_dist.rs::FDist::pdf", "src/univariate/student_t.rs::StudentT::new", "src/univariate/inverse_normal.rs::InvNormal::new", "src/univariate/student_t.rs::StudentT::modes", "src/univariate/student_t.rs::StudentT::pdf", "src/univariate/inverse_normal.rs::InvNormal::modes", "src/univariate/inverse_normal.rs::InvNormal::pdf"]}
{"id": "C75", "title": "cdf returns a valid Probability for every real argument", "statement": "For every distribution and every finite x (inside or outside the support), cdf(x) lies in [0,1].", "quantifier": "every distribution, parameter set and x", "why_tests_cant": "continuum; behaviour outside the support is rarely tested", "anchors": ["src/lib.rs::Distribution::cdf", "src/univariate/*.rs", "src/univariate/uniform.rs::Uniform<f64>::new", "src/univariate/uniform.rs::Uniform<f64>::cdf", "src/univariate/cauchy.rs::Cauchy::new", "src/univariate/cauchy.rs::Cauchy::cdf", "src/univariate/logistic.rs::Logistic::new", "src/univariate/logistic.rs::Logistic::cdf", "src/univariate/gumbel.rs::Gumbel::new", "src/univariate/gumbel.rs::Gumbel::cdf", "src/univariate/triangular.rs::Triangular::new", "src/univariate/triangular.rs::Triangular::cdf", "src/univariate/weibull.rs::Weibull::cdf", "src/univariate/weibull.rs::Weibull::from", "src/univariate/rayleigh.rs::Rayleigh::new", "src/univariate/rayleigh.rs::Rayleigh::cdf", "src/normal/univariate.rs::UvNormal::new", "src/normal/univariate.rs::UvNormal::cdf", "src/univariate/degenerate.rs::Degenerate<f64>::cdf", "src/univariate/degenerate.rs::Degenerate<f64>::new", "src/univariate/exponential.rs::Exponential::new", "src/univariate/exponential.rs::Exponential::cdf", "src/univariate/pareto.rs::Pareto::new", "src/univariate/pareto.rs::Pareto::cdf", "src/univariate/gpd.rs::GeneralisedPareto::new", "src/univariate/gpd.rs::GeneralisedPareto::cdf", "src/univariate/cosine.rs::Cosine::new", "src/univariate/cosine.rs::Cosine::cdf", "src/univariate/arcsine.rs::Arcsine::new", "src/univariate/arcsine.rs::Arcsine::cdf", "src/univariate/frechet.rs::Frechet::new", "src/univariate/frechet.rs::Frechet::cdf", "src/univariate/gev.rs::GeneralisedExtremeValue::new", "src/univariate/gev.rs::GeneralisedExtremeValue::cdf", "src/univariate/kumaraswamy.rs::Kumaraswamy::cdf", "src/univariate/kumaraswamy.rs::Kumaraswamy::from", "src/univariate/folded_normal.rs::FoldedNormal::new", "src/univariate/folded_normal.rs::FoldedNormal::cdf", "src/univariate/laplace.rs::Laplace::new", "src/univariate/laplace.rs::Laplace::cdf"]}
{"id": "C76", "title": "Serde round trip of fixed-size arrays; deserialised probabilities are valid", "statement": "serialize then deserialize returns the same array for every N; deserialising a sequence of fewer than N elements is an error; a deserialised Probability is valid.", "quantifier": "every N and every array / input sequence", "why_tests_cant": "unbounded lengths, arbitrary inputs", "anchors": ["src/utils.rs::serde_arrays", "src/probability.rs::Probability derive(Deserialize)"]}
{"id": "C77", "title": "Degenerate distribution: cdf is a unit step at k, samples are k", "statement": "cdf is 0 below k and 1 from k on, pmf (i64) is 1 exactly at k, sample returns k and consumes no randomness.", "quantifier": "every k, x, generator", "why_tests_cant": "all values", "anchors": ["src/univariate/degenerate.rs::Degenerate<f64>::new", "src/univariate/degenerate.rs::Degenerate<f64>::cdf", "src/univariate/degenerate.rs::Degenerate<f64>::sample", "src/univariate/degenerate.rs::Degenerate<f64>::mean", "src/univariate/degenerate.rs::Degenerate<f64>::median", "src/univariate/degenerate.rs::Degenerate<f64>::modes", "src/univariate/degenerate.rs::Degenerate<f64>::variance", "src/univariate/degenerate.rs::Degenerate<f64>::shannon_entropy", "src/univariate/degenerate.rs::Degenerate<i64>::new", "src/univariate/degenerate.rs::Degenerate<i64>::cdf", "src/univariate/degenerate.rs::Degenerate<i64>::pmf", "src/univariate/degenerate.rs::Degenerate<i64>::sample", "src/univariate/degenerate.rs::Degenerate<i64>::mean", "src/univariate/degenerate.rs::Degenerate<i64>::median", "src/univariate/degenerate.rs::Degenerate<i64>::modes", "src/univariate/degenerate.rs::Degenerate<i64>::variance"]}
{"id": "C78", "title": "Undefined moments panic and defined ones return", "statement": "BetaPrime, InvGamma, FDist, StudentT, Pareto return a moment exactly when it exists and the returned mean/variance are finite.", "quantifier": "every parameter set", "why_tests_cant": "threshold boundaries over a continuum", "anchors": ["src/univariate/inverse_gamma.rs::InvGamma::new", "src/univariate/beta_prime.rs::BetaPrime::new", "src/univariate/f_dist.rs::FDist::new", "src/univariate/student_t.rs::StudentT::new", "src/univariate/inverse_gamma.rs::InvGamma::mean", "src/univariate/inverse_gamma.rs::InvGamma::pdf", "src/univariate/inverse_gamma.rs::InvGamma::variance", "src/univariate/inverse_gamma.rs::InvGamma::skewness", "src/univariate/inverse_gamma.rs::InvGamma::excess_kurtosis", "src/univariate/beta_prime.rs::BetaPrime::mean", "src/univariate/beta_prime.rs::BetaPrime::pdf", "src/univariate/beta_prime.rs::BetaPrime::variance", "src/univariate/beta_prime.rs::BetaPrime::skewness", "src/univariate/f_dist.rs::FDist::mean", "src/univariate/f_dist.rs::FDist::pdf", "src/univariate/f_dist.rs::FDist::variance", "src/univariate/student_t.rs::StudentT::mean", "src/univariate/student_t.rs::StudentT::pdf", "src/univariate/student_t.rs::StudentT::variance", "src/univariate/student_t.rs::StudentT::skewness", "src/univariate/student_t.rs::StudentT::excess_kurtosis", "src/univariate/pareto.rs::Pareto::new", "src/univariate/pareto.rs::Pareto::mean", "src/univariate/pareto.rs::Pareto::pdf", "src/univariate/pareto.rs::Pareto::variance", "src/univariate/pareto.rs::Pareto::skewness", "src/univariate/pareto.rs::Pareto::excess_kurtosis", "src/univariate/beta_prime.rs::BetaPrime::excess_kurtosis", "src/univariate/f_dist.rs::FDist::skewness"]}
{"id": "C79", "title": "Fisher information equals the variance of the score", "statement": "fisher_information for Bernoulli, Binomial, Exponential, Poisson, Normal, LogNormal and Pareto is the matrix of expected products of the partial derivatives of the log-density.", "quantifier": "every parameter value", "why_tests_cant": "continuum; expectation", "anchors": ["src/univariate/bernoulli.rs::Bernoulli::new", "src/univariate/bernoulli.rs::Bernoulli::fisher_information", "src/univariate/binomial.rs::Binomial::new", "src/univariate/binomial.rs::Binomial::fisher_information", "src/normal/univariate.rs::UvNormal::new", "src/normal/univariate.rs::UvNormal::fisher_information", "src/univariate/exponential.rs::Exponential::new", "src/univariate/exponential.rs::Exponential::fisher_information", "src/univariate/poisson.rs::Poisson::new", "src/univariate/poisson.rs::Poisson::fisher_information", "src/univariate/lognormal.rs::LogNormal::new", "src/univariate/lognormal.rs::LogNormal::cdf", "src/univariate/lognormal.rs::LogNormal::new_unchecked", "src/univariate/lognormal.rs::LogNormal::fisher_information", "src/univariate/pareto.rs::Pareto::new", "src/univariate/pareto.rs::Pareto::fisher_information"]}
{"id": "C80", "title": "Levy: cdf is a distribution function with derivative pdf and the mode maximises pdf", "statement": "For c > 0 on x > mu: cdf is a distribution function with derivative pdf; the returned mode maximises pdf.", "quantifier": "every mu, c > 0, x > mu", "why_tests_cant": "a continuum of inputs and parameters; derivative, limit and monotonicity claims are not finitely testable", "anchors": ["src/univariate/levy.rs::Levy::new", "src/univariate/levy.rs::Levy::cdf", "src/univariate/levy.rs::Levy::pdf", "src/univariate/levy.rs::Levy::support", "src/univariate/levy.rs::Levy::modes"]}
{"id": "C81", "title": "Bernoulli: cdf is the running sum of pmf and modes() are the maximisers of pmf", "statement": "For p in [0,1]: cdf(k) is the sum of pmf up to k; every returned mode maximises pmf and all maximisers are returned.", "quantifier": "every p in [0,1]", "why_tests_cant": "a continuum of inputs and parameters; derivative, limit and monotonicity claims are not finitely testable", "anchors": ["src/univariate/bernoulli.rs::Bernoulli::new", "src/univariate/bernoulli.rs::Bernoulli::cdf", "src/univariate/bernoulli.rs::Bernoulli::modes"]}
{"id": "C82", "title": "Categorical: cdf is the running sum of pmf", "statement": "cdf(i) is the sum of pmf over 0..=i.", "quantifier": "every N >= 1, weight vector, index", "why_tests_cant": "a continuum of inputs and parameters; derivative, limit and monotonicity claims are not finitely testable", "anchors": ["src/univariate/categorical.rs::Categorical::new", "src/univariate/categorical.rs::Categorical::cdf"]}
{"id": "C83", "title": "Gamma: cdf/pdf coherent, moments and entropy are the integrals", "statement": "For alpha, beta > 0 and exact special functions (gamma, digamma, lower incomplete gamma): cdf is the distribution function of pdf on (0, inf), mean, variance, skewness, excess kurtosis and entropy are the corresponding integrals.", "quantifier": "every alpha, beta > 0, x", "why_tests_cant": "continuum of parameters and arguments; integrals and special functions", "anchors": ["src/univariate/gamma.rs::Gamma::new", "src/univariate/gamma.rs::Gamma::support", "src/univariate/gamma.rs::Gamma::cdf", "src/univariate/gamma.rs::Gamma::pdf", "src/univariate/gamma.rs::Gamma::mean", "src/univariate/gamma.rs::Gamma::variance", "src/univariate/gamma.rs::Gamma::skewness", "src/univariate/gamma.rs::Gamma::excess_kurtosis", "src/univariate/gamma.rs::Gamma::shannon_entropy"]}
{"id": "C84", "title": "Gamma::sample draws from the Gamma(alpha, rate beta) law", "statement": "With a generator that draws exactly from the scale-parametrised Gamma law, samples follow the distribution's own cdf.", "quantifier": "every alpha, beta > 0", "why_tests_cant": "continuum of parameters and arguments; integrals and special functions", "anchors": ["src/univariate/gamma.rs::Gamma::new", "src/univariate/gamma.rs::Gamma::cdf", "src/univariate/gamma.rs::Gamma::sample"]}
{"id": "C85", "title": "Beta: cdf/pdf coherent, mean, variance, skewness, entropy are the integrals", "statement": "For alpha, beta > 0 and exact special functions: cdf is the distribution function of pdf on (0,1); mean, variance, skewness and entropy are the corresponding integrals.", "quantifier": "every alpha, beta > 0, x", "why_tests_cant": "continuum of parameters and arguments; integrals and special functions", "anchors": ["src/univariate/beta.rs::Beta::new", "src/univariate/beta.rs::Beta::support", "src/univariate/beta.rs::Beta::cdf", "src/univariate/beta.rs::Beta::pdf", "src/univariate/beta.rs::Beta::mean", "src/univariate/beta.rs::Beta::variance", "src/univariate/beta.rs::Beta::skewness", "src/univariate/beta.rs::Beta::shannon_entropy"]}
{"id": "C86", "title": "Beta: excess kurtosis is the integral and median is a median", "statement": "excess_kurtosis is the fourth standardised moment minus 3; median(), when it returns, returns a median of cdf.", "quantifier": "every alpha, beta > 0", "why_tests_cant": "continuum of parameters and arguments; integrals and special functions", "anchors": ["src/univariate/beta.rs::Beta::new", "src/univariate/beta.rs::Beta::excess_kurtosis", "src/univariate/beta.rs::Beta::pdf", "src/univariate/beta.rs::Beta::median", "src/univariate/beta.rs::Beta::cdf"]}
{"id": "C87", "title": "InvGamma: pdf is a density, moments are returned iff they exist and are then the integrals, entropy", "statement": "For alpha, beta > 0: pdf is positive with integral 1; each of mean, variance, skewness, excess_kurtosis returns the integral when it exists and panics exactly when it does not; entropy is the integral.", "quantifier": "every alpha, beta > 0", "why_tests_cant": "continuum of parameters and arguments; integrals and special functions", "anchors": ["src/univariate/inverse_gamma.rs::InvGamma::new", "src/univariate/inverse_gamma.rs::InvGamma::support", "src/univariate/inverse_gamma.rs::InvGamma::pdf", "src/univariate/inverse_gamma.rs::InvGamma::mean", "src/univariate/inverse_gamma.rs::InvGamma::variance", "src/univariate/inverse_gamma.rs::InvGamma::skewness", "src/univariate/inverse_gamma.rs::InvGamma::excess_kurtosis", "src/univariate/inverse_gamma.rs::InvGamma::shannon_entropy"]}
{"id": "C88", "title": "InvGamma: cdf is the distribution function of pdf", "statement": "cdf is the distribution function with density pdf on (0, inf).", "quantifier": "every alpha, beta > 0, x", "why_tests_cant": "continuum of parameters and arguments; integrals and special functions", "anchors": ["src/univariate/inverse_gamma.rs::InvGamma::new", "src/univariate/inverse_gamma.rs::InvGamma::cdf", "src/univariate/inverse_gamma.rs::InvGamma::pdf"]}
{"id": "C89", "title": "BetaPrime: cdf/pdf coherent; mean, variance, skewness are returned iff they exist", "statement": "cdf is the distribution function of pdf on (0, inf); each of mean, variance, skewness returns the integral when it exists and panics exactly when it does not.", "quantifier": "every alpha, beta > 0, x", "why_tests_cant": "continuum of parameters and arguments; integrals and special functions", "anchors": ["src/univariate/beta_prime.rs::BetaPrime::new", "src/univariate/beta_prime.rs::BetaPrime::support", "src/univariate/beta_prime.rs::BetaPrime::cdf", "src/univariate/beta_prime.rs::BetaPrime::pdf", "src/univariate/beta_prime.rs::BetaPrime::mean", "src/univariate/beta_prime.rs::BetaPrime::variance", "src/univariate/beta_prime.rs::BetaPrime::skewness"]}
{"id": "C90", "title": "BetaPrime: excess kurtosis and entropy are the integrals", "statement": "excess_kurtosis is the fourth standardised moment minus 3 and is returned only if that moment exists; entropy is -int f ln f.", "quantifier": "every alpha, beta > 0", "why_tests_cant": "continuum of parameters and arguments; integrals and special functions", "anchors": ["src/univariate/beta_prime.rs::BetaPrime::new", "src/univariate/beta_prime.rs::BetaPrime::excess_kurtosis", "src/univariate/beta_prime.rs::BetaPrime::pdf", "src/univariate/beta_prime.rs::BetaPrime::shannon_entropy"]}
{"id": "C91", "title": "Chi: cdf/pdf coherent, moments are the integrals", "statement": "For k >= 1 and exact special functions (regularised incomplete gamma): cdf is the distribution function of pdf; mean, variance, skewness, excess kurtosis are the integrals.", "quantifier": "every k >= 1, x", "why_tests_cant": "continuum of parameters and arguments; integrals and special functions", "anchors": ["src/univariate/chi.rs::Chi::new", "src/univariate/chi.rs::Chi::support", "src/univariate/chi.rs::Chi::cdf", "src/univariate/chi.rs::Chi::pdf", "src/univariate/chi.rs::Chi::mean", "src/univariate/chi.rs::Chi::variance", "src/univariate/chi.rs::Chi::skewness", "src/univariate/chi.rs::Chi::excess_kurtosis"]}
{"id": "C92", "title": "Chi: entropy is the integral", "statement": "shannon_entropy = -int f ln f.", "quantifier": "every k >= 1", "why_tests_cant": "continuum of parameters and arguments; integrals and special functions", "anchors": ["src/univariate/chi.rs::Chi::new", "src/univariate/chi.rs::Chi::shannon_entropy", "src/univariate/chi.rs::Chi::pdf"]}
{"id": "C93", "title": "ChiSq: cdf/pdf coherent, moments and entropy are the integrals", "statement": "For k >= 1 and exact special functions (lower incomplete gamma): cdf is the distribution function of pdf; mean, variance (no u64 overflow), skewness, excess kurtosis and entropy are the integrals.", "quantifier": "every k >= 1, x", "why_tests_cant": "continuum of parameters and arguments; integrals and special functions", "anchors": ["src/univariate/chi_sq.rs::ChiSq::new", "src/univariate/chi_sq.rs::ChiSq::support", "src/univariate/chi_sq.rs::ChiSq::cdf", "src/univariate/chi_sq.rs::ChiSq::pdf", "src/univariate/chi_sq.rs::ChiSq::mean", "src/univariate/chi_sq.rs::ChiSq::variance", "src/univariate/chi_sq.rs::ChiSq::skewness", "src/univariate/chi_sq.rs::ChiSq::excess_kurtosis", "src/univariate/chi_sq.rs::ChiSq::shannon_entropy"]}
{"id": "C94", "title": "Chi and ChiSq agree on what the incomplete gamma function is", "statement": "There is a function gammainc for which the cdfs of both Chi(k) and ChiSq(k) are those of their densities.", "quantifier": "every k >= 1 and every candidate gammainc", "why_tests_cant": "continuum of parameters and arguments; integrals and special functions", "anchors": ["src/univariate/chi.rs::Chi::new", "src/univariate/chi_sq.rs::ChiSq::new", "src/univariate/chi.rs::Chi::cdf", "src/univariate/chi.rs::Chi::pdf", "src/univariate/chi_sq.rs::ChiSq::cdf", "src/univariate/chi_sq.rs::ChiSq::pdf"]}
{"id": "C95", "title": "FDist: cdf/pdf coherent; mean and variance are returned iff they exist", "statement": "cdf is the distribution function of pdf on (0, inf); mean and variance return the integral when it exists and panic exactly when not; skewness is right for d2 > 6.", "quantifier": "every d1, d2 >= 1, x", "why_tests_cant": "continuum of parameters and arguments; integrals and special functions", "anchors": ["src/univariate/f_dist.rs::FDist::new", "src/univariate/f_dist.rs::FDist::mean", "src/univariate/f_dist.rs::FDist::variance", "src/univariate/f_dist.rs::FDist::skewness", "src/univariate/f_dist.rs::FDist::excess_kurtosis", "src/univariate/f_dist.rs::FDist::modes", "src/univariate/f_dist.rs::FDist::support", "src/univariate/f_dist.rs::FDist::cdf", "src/univariate/f_dist.rs::FDist::pdf"]}
{"id": "C96", "title": "FDist: skewness guard, excess kurtosis and entropy", "statement": "skewness is returned only if it exists; excess_kurtosis and entropy are the integrals.", "quantifier": "every d1, d2 >= 1", "why_tests_cant": "continuum of parameters and arguments; integrals and special functions", "anchors": ["src/univariate/f_dist.rs::FDist::new", "src/univariate/f_dist.rs::FDist::shannon_entropy", "src/univariate/f_dist.rs::FDist::pdf", "src/univariate/f_dist.rs::FDist::excess_kurtosis", "src/univariate/f_dist.rs::FDist::skewness"]}
{"id": "C97", "title": "Erlang: mean, variance, skewness, excess kurtosis and mode are those of the Erlang density", "statement": "For k >= 1 and lambda > 0 the moments are the integrals against lambda^k x^(k-1) e^(-lambda x)/(k-1)!, and the mode maximises it.", "quantifier": "every k >= 1, lambda > 0", "why_tests_cant": "continuum of parameters and arguments; integrals and special functions", "anchors": ["src/univariate/erlang.rs::Erlang::new", "src/univariate/erlang.rs::Erlang::support", "src/univariate/erlang.rs::Erlang::mean", "src/univariate/erlang.rs::Erlang::variance", "src/univariate/erlang.rs::Erlang::skewness", "src/univariate/erlang.rs::Erlang::excess_kurtosis", "src/univariate/erlang.rs::Erlang::modes"]}
{"id": "C98", "title": "Erlang: pdf integrates to one and cdf is its distribution function", "statement": "pdf is a density on (0, inf) and cdf is its distribution function.", "quantifier": "every k >= 1, lambda > 0, x", "why_tests_cant": "continuum of parameters and arguments; integrals and special functions", "anchors": ["src/univariate/erlang.rs::Erlang::new", "src/univariate/erlang.rs::Erlang::pdf", "src/univariate/erlang.rs::Erlang::cdf"]}
{"id": "C99", "title": "StudentT: pdf is a symmetric density, moments are returned iff they exist, median and mode", "statement": "For nu > 0 and exact gamma/2F1: pdf is positive, even, with integral 1; mean, variance, skewness, excess_kurtosis return the integral exactly when it exists and panic otherwise; cdf(median)=1/2; the mode maximises pdf.", "quantifier": "every nu > 0, x", "why_tests_cant": "continuum of parameters and arguments; integrals and special functions", "anchors": ["src/univariate/student_t.rs::StudentT::new", "src/univariate/student_t.rs::StudentT::support", "src/univariate/student_t.rs::StudentT::pdf", "src/univariate/student_t.rs::StudentT::mean", "src/univariate/student_t.rs::StudentT::variance", "src/univariate/student_t.rs::StudentT::skewness", "src/univariate/student_t.rs::StudentT::excess_kurtosis", "src/univariate/student_t.rs::StudentT::median", "src/univariate/student_t.rs::StudentT::cdf", "src/univariate/student_t.rs::StudentT::modes"]}
{"id": "C100", "title": "StudentT: cdf is the distribution function of pdf", "statement": "cdf is a distribution function with derivative pdf.", "quantifier": "every nu > 0, x", "why_tests_cant": "continuum of parameters and arguments; integrals and special functions", "anchors": ["src/univariate/student_t.rs::StudentT::new", "src/univariate/student_t.rs::StudentT::cdf", "src/univariate/student_t.rs::StudentT::pdf"]}
{"id": "C101", "title": "StudentT: the constructor accepts only degrees of freedom with a density; entropy is the integral", "statement": "new is Ok only for nu > 0; shannon_entropy = -int f ln f.", "quantifier": "every nu", "why_tests_cant": "continuum of parameters and arguments; integrals and special functions", "anchors": ["src/univariate/student_t.rs::StudentT::new", "src/univariate/student_t.rs::StudentT::shannon_entropy", "src/univariate/student_t.rs::StudentT::pdf"]}
{"id": "C102", "title": "InvNormal: pdf is a density; mean, variance, skewness and mode", "statement": "For mu, lambda > 0: pdf is positive with integral 1; mean, variance, skewness are the integrals; the mode maximises pdf.", "quantifier": "every mu, lambda > 0, x > 0", "why_tests_cant": "continuum of parameters and arguments; integrals and special functions", "anchors": ["src/univariate/inverse_normal.rs::InvNormal::new", "src/univariate/inverse_normal.rs::InvNormal::support", "src/univariate/inverse_normal.rs::InvNormal::pdf", "src/univariate/inverse_normal.rs::InvNormal::mean", "src/univariate/inverse_normal.rs::InvNormal::variance", "src/univariate/inverse_normal.rs::InvNormal::skewness", "src/univariate/inverse_normal.rs::InvNormal::modes"]}
{"id": "C103", "title": "InvNormal::sample is a correct transformation with multiple roots", "statement": "From one normal and one uniform draw the sample is a positive root of lambda (t-mu)^2/(mu^2 t) = nu^2, each root being chosen with the probability for which the change of variables yields exactly pdf.", "quantifier": "every mu, lambda > 0, every pair of draws", "why_tests_cant": "continuum of parameters and arguments; integrals and special functions", "anchors": ["src/univariate/inverse_normal.rs::InvNormal::new", "src/univariate/inverse_normal.rs::InvNormal::pdf"]}
{"id": "C104", "title": "InvNormal: cdf, kurtosis and entropy are those of pdf", "statement": "cdf is a distribution function, excess_kurtosis is the fourth standardised moment minus 3, entropy = -int f ln f.", "quantifier": "every mu, lambda > 0", "why_tests_cant": "continuum of parameters and arguments; integrals and special functions", "anchors": ["src/univariate/inverse_normal.rs::InvNormal::new", "src/univariate/inverse_normal.rs::InvNormal::cdf", "src/univariate/inverse_normal.rs::InvNormal::excess_kurtosis", "src/univariate/inverse_normal.rs::InvNormal::pdf", "src/univariate/inverse_normal.rs::InvNormal::shannon_entropy"]}
{"id": "C105", "title": "FoldedNormal: cdf/pdf coherent, mean, variance, sampling", "statement": "For sigma > 0 and exact erf: cdf is the distribution function of pdf on (0, inf); mean and variance are the integrals; with an exact normal generator the draws giving a sample <= y have probability cdf(y).", "quantifier": "every mu, sigma > 0, x, y", "why_tests_cant": "continuum of parameters and arguments; integrals and special functions", "anchors": ["src/univariate/folded_normal.rs::FoldedNormal::new", "src/univariate/folded_normal.rs::FoldedNormal::support", "src/univariate/folded_normal.rs::FoldedNormal::cdf", "src/univariate/folded_normal.rs::FoldedNormal::pdf", "src/univariate/folded_normal.rs::FoldedNormal::mean", "src/univariate/folded_normal.rs::FoldedNormal::variance", "src/univariate/folded_normal.rs::FoldedNormal::sample"]}
{"id": "C106", "title": "FoldedNormal: the mode maximises pdf", "statement": "Every value of modes() maximises pdf over the support.", "quantifier": "every mu, sigma > 0", "why_tests_cant": "continuum of parameters and arguments; integrals and special functions", "anchors": ["src/univariate/folded_normal.rs::FoldedNormal::new", "src/univariate/folded_normal.rs::FoldedNormal::modes", "src/univariate/folded_normal.rs::FoldedNormal::pdf"]}
{"id": "C107", "title": "Normal::sample follows the distribution's own cdf", "statement": "With an exact generator of normals with given standard deviation, samples of UvNormal(mu, Sigma) follow its cdf.", "quantifier": "every mu, Sigma > 0", "why_tests_cant": "continuum of parameters and arguments; integrals and special functions", "anchors": ["src/normal/univariate.rs::UvNormal::new", "src/normal/univariate.rs::UvNormal::cdf", "src/normal/univariate.rs::UvNormal::sample"]}
{"id": "C108", "title": "BetaBinomial: pmf is the beta mixture of binomials, mean and variance are its moments", "statement": "For n >= 1, alpha, beta > 0 and an exact beta function: pmf(k) is the integral of the Binomial(n, p) mass against the Beta(alpha, beta) density of p, sums to one, and mean and variance are its moments.", "quantifier": "every n, alpha, beta > 0, k", "why_tests_cant": "continuum of parameters and arguments; integrals and special functions", "anchors": ["src/univariate/beta_binomial.rs::BetaBinomial::new", "src/univariate/beta_binomial.rs::BetaBinomial::pmf", "src/univariate/beta_binomial.rs::BetaBinomial::mean", "src/univariate/beta_binomial.rs::BetaBinomial::variance"]}
{"id": "C109", "title": "BetaBinomial: skewness, kurtosis, support and cdf are those of the pmf", "statement": "skewness and excess_kurtosis are the standardised moments of the pmf, the support is 0..=n and cdf is its running sum.", "quantifier": "every n, alpha, beta > 0", "why_tests_cant": "continuum of parameters and arguments; integrals and special functions", "anchors": ["src/univariate/beta_binomial.rs::BetaBinomial::new", "src/univariate/beta_binomial.rs::BetaBinomial::kurtosis", "src/univariate/beta_binomial.rs::BetaBinomial::skewness", "src/univariate/beta_binomial.rs::BetaBinomial::support", "src/univariate/beta_binomial.rs::BetaBinomial::pmf", "src/univariate/beta_binomial.rs::BetaBinomial::cdf"]}
{"id": "C110", "title": "Weibull: mean, variance, skewness, excess kurtosis and entropy are those of pdf", "statement": "For lambda, k > 0 and exact gamma/digamma the returned moments and entropy are the integrals against pdf.", "quantifier": "every lambda, k > 0", "why_tests_cant": "continuum of parameters and arguments; integrals and special functions", "anchors": ["src/univariate/weibull.rs::Weibull::from", "src/univariate/weibull.rs::Weibull::mean", "src/univariate/weibull.rs::Weibull::pdf", "src/univariate/weibull.rs::Weibull::variance", "src/univariate/weibull.rs::Weibull::skewness", "src/univariate/weibull.rs::Weibull::excess_kurtosis", "src/univariate/weibull.rs::Weibull::shannon_entropy"]}
{"id": "C111", "title": "Frechet: a moment is returned as a finite number exactly when it exists; entropy", "statement": "For alpha > 0: mean, variance, skewness, excess_kurtosis return the integral when it converges and +inf exactly when no such number exists; entropy = -int f ln f.", "quantifier": "every alpha > 0", "why_tests_cant": "continuum of parameters and arguments; integrals and special functions", "anchors": ["src/univariate/frechet.rs::Frechet::new", "src/univariate/frechet.rs::Frechet::mean", "src/univariate/frechet.rs::Frechet::pdf", "src/univariate/frechet.rs::Frechet::variance", "src/univariate/frechet.rs::Frechet::skewness", "src/univariate/frechet.rs::Frechet::excess_kurtosis", "src/univariate/frechet.rs::Frechet::shannon_entropy"]}
{"id": "C112", "title": "GEV: a moment is returned as a finite number exactly when it exists; entropy", "statement": "For sigma, zeta > 0: mean, variance, skewness, excess_kurtosis return the integral when it converges and +inf exactly when no such number exists; entropy = -int f ln f.", "quantifier": "every mu, sigma > 0, zeta > 0", "why_tests_cant": "continuum of parameters and arguments; integrals and special functions", "anchors": ["src/univariate/gev.rs::GeneralisedExtremeValue::new", "src/univariate/gev.rs::GeneralisedExtremeValue::mean", "src/univariate/gev.rs::GeneralisedExtremeValue::pdf", "src/univariate/gev.rs::GeneralisedExtremeValue::variance", "src/univariate/gev.rs::GeneralisedExtremeValue::skewness", "src/univariate/gev.rs::GeneralisedExtremeValue::excess_kurtosis", "src/univariate/gev.rs::GeneralisedExtremeValue::shannon_entropy"]}
{"id": "C113", "title": "Gumbel: mean, variance, skewness, kurtosis and entropy are those of pdf", "statement": "For beta > 0 and exact digamma and zeta: mean, variance, skewness (12 sqrt 6 zeta(3)/pi^3), kurtosis (27/5), excess kurtosis and entropy are the integrals against pdf.", "quantifier": "every mu, beta > 0", "why_tests_cant": "continuum of parameters and arguments; integrals and special functions", "anchors": ["src/univariate/gumbel.rs::Gumbel::new", "src/univariate/gumbel.rs::Gumbel::mean", "src/univariate/gumbel.rs::Gumbel::pdf", "src/univariate/gumbel.rs::Gumbel::variance", "src/univariate/gumbel.rs::Gumbel::skewness", "src/univariate/gumbel.rs::Gumbel::kurtosis", "src/univariate/gumbel.rs::Gumbel::excess_kurtosis", "src/univariate/gumbel.rs::Gumbel::shannon_entropy"]}
{"id": "C114", "title": "Logistic: variance, skewness and kurtosis are those of pdf", "statement": "For s > 0: variance (s^2 pi^2/3), skewness (0), kurtosis (21/5) and excess kurtosis are the integrals against pdf.", "quantifier": "every mu, s > 0", "why_tests_cant": "continuum of parameters and arguments; integrals and special functions", "anchors": ["src/univariate/logistic.rs::Logistic::new", "src/univariate/logistic.rs::Logistic::mean", "src/univariate/logistic.rs::Logistic::variance", "src/univariate/logistic.rs::Logistic::pdf", "src/univariate/logistic.rs::Logistic::skewness", "src/univariate/logistic.rs::Logistic::kurtosis", "src/univariate/logistic.rs::Logistic::excess_kurtosis"]}
{"id": "C115", "title": "Binomial and Poisson: cdf is the running sum of pmf", "statement": "cdf(k) is the sum of pmf over 0..=k for every k, and never panics.", "quantifier": "every n, p, lambda, k (exact incomplete beta function)", "why_tests_cant": "continuum of parameters and arguments; integrals and special functions", "anchors": ["src/univariate/binomial.rs::Binomial::new", "src/univariate/binomial.rs::Binomial::cdf", "src/univariate/poisson.rs::Poisson::new", "src/univariate/poisson.rs::Poisson::cdf"]}
{"id": "C116", "title": "Bernoulli, Binomial, Poisson: kurtosis() is the kurtosis, not the excess kurtosis", "statement": "kurtosis() is the fourth standardised moment of the pmf.", "quantifier": "every n >= 1, p in (0,1), lambda > 0", "why_tests_cant": "continuum of parameters and arguments; integrals and special functions", "anchors": ["src/univariate/bernoulli.rs::Bernoulli::new", "src/univariate/binomial.rs::Binomial::new", "src/univariate/poisson.rs::Poisson::new", "src/univariate/bernoulli.rs::Bernoulli::kurtosis", "src/univariate/binomial.rs::Binomial::kurtosis", "src/univariate/poisson.rs::Poisson::kurtosis"]}
{"id": "C117", "title": "Geometric, Binomial, Poisson: median() is a median", "statement": "median() returns a number m with P(X <= m) >= 1/2 and P(X >= m) >= 1/2.", "quantifier": "every parameter value", "why_tests_cant": "continuum of parameters and arguments; integrals and special functions", "anchors": ["src/univariate/binomial.rs::Binomial::new", "src/univariate/binomial.rs::Binomial::median", "src/univariate/poisson.rs::Poisson::new", "src/univariate/poisson.rs::Poisson::median", "src/univariate/geometric.rs::Geometric::new", "src/univariate/geometric.rs::Geometric::median"]}
{"id": "C118", "title": "Binomial, Poisson: shannon_entropy is the entropy of the pmf", "statement": "shannon_entropy() is -sum p log p in some base (in particular non-negative).", "quantifier": "every parameter value", "why_tests_cant": "continuum of parameters and arguments; integrals and special functions", "anchors": ["src/univariate/binomial.rs::Binomial::new", "src/univariate/poisson.rs::Poisson::new", "src/univariate/binomial.rs::Binomial::shannon_entropy", "src/univariate/poisson.rs::Poisson::shannon_entropy"]}
{"id": "C119", "title": "Multivariate normal and log-normal: named constructors, log-normal sampling and density", "statement": "homogeneous(n, m, s) and standard(n) build the isotropic distribution with those parameters and fail exactly for n = 0 or s <= 0; log-normal constructors accept the same arguments; log-normal samples are componentwise exponentials of mu + B z with B B^T the inner covariance; the log-normal pdf integrates to one.", "quantifier": "every dimension, mean, covariance, generator state", "why_tests_cant": "continuum of parameters and arguments; integrals and special functions", "anchors": ["src/normal/multivariate.rs", "src/multivariate/lognormal.rs::LogNormal::new", "src/multivariate/lognormal.rs::LogNormal::diagonal", "src/multivariate/lognormal.rs::LogNormal::isotropic", "src/multivariate/lognormal.rs::LogNormal::homogeneous", "src/multivariate/lognormal.rs::LogNormal::standard", "src/multivariate/lognormal.rs::LogNormal::sample", "src/multivariate/lognormal.rs::LogNormal::pdf", "src/multivariate/lognormal.rs::LogNormal::cdf"]}
{"id": "C120", "title": "Kumaraswamy: mean, variance, skewness, kurtosis, entropy are the integrals of the density", "statement": "For a, b > 0: mean, variance and skewness are the moment integrals of pdf over (0,1); excess_kurtosis returns the fourth; shannon_entropy is minus the integral of pdf ln pdf.", "quantifier": "every a, b > 0", "why_tests_cant": "continuum of parameters and arguments; integrals and special functions", "anchors": ["src/univariate/kumaraswamy.rs::Kumaraswamy::from", "src/univariate/kumaraswamy.rs::Kumaraswamy::mean", "src/univariate/kumaraswamy.rs::Kumaraswamy::pdf", "src/univariate/kumaraswamy.rs::Kumaraswamy::variance", "src/univariate/kumaraswamy.rs::Kumaraswamy::skewness", "src/univariate/kumaraswamy.rs::Kumaraswamy::shannon_entropy", "src/univariate/kumaraswamy.rs::Kumaraswamy::excess_kurtosis"]}
{"id": "C121", "title": "GeneralisedPareto: a moment is returned exactly when it exists", "statement": "For every mu, sigma, zeta: mean, variance, skewness and excess_kurtosis return the moment integral when it exists (zeta below 1, 1/2, 1/3, 1/4) and panic when it does not.", "quantifier": "every mu, sigma > 0, zeta > 0", "why_tests_cant": "continuum of parameters and arguments; integrals and special functions", "anchors": ["src/univariate/gpd.rs::GeneralisedPareto::new", "src/univariate/gpd.rs::GeneralisedPareto::pdf", "src/univariate/gpd.rs::GeneralisedPareto::mean", "src/univariate/gpd.rs::GeneralisedPareto::variance", "src/univariate/gpd.rs::GeneralisedPareto::skewness", "src/univariate/gpd.rs::GeneralisedPareto::excess_kurtosis"]}
{"id": "C122", "title": "Cauchy, Arcsine, Triangular, Rayleigh, Levy, LogNormal: shannon_entropy is the differential entropy", "statement": "shannon_entropy() is minus the integral of f ln f, f being the density of the distribution.", "quantifier": "every valid parameter value", "why_tests_cant": "continuum of parameters and arguments; integrals and special functions", "anchors": ["src/univariate/cauchy.rs::Cauchy::new", "src/univariate/rayleigh.rs::Rayleigh::new", "src/univariate/levy.rs::Levy::new", "src/univariate/arcsine.rs::Arcsine::new", "src/univariate/cauchy.rs::Cauchy::shannon_entropy", "src/univariate/cauchy.rs::Cauchy::pdf", "src/univariate/rayleigh.rs::Rayleigh::shannon_entropy", "src/univariate/rayleigh.rs::Rayleigh::pdf", "src/univariate/levy.rs::Levy::shannon_entropy", "src/univariate/levy.rs::Levy::pdf", "src/univariate/arcsine.rs::Arcsine::shannon_entropy", "src/univariate/arcsine.rs::Arcsine::pdf", "src/univariate/triangular.rs::Triangular::new", "src/univariate/lognormal.rs::LogNormal::new", "src/univariate/triangular.rs::Triangular::shannon_entropy", "src/univariate/triangular.rs::Triangular::cdf", "src/univariate/lognormal.rs::LogNormal::cdf", "src/univariate/lognormal.rs::LogNormal::shannon_entropy"]}
{"id": "C123", "title": "Levy: mean and variance are reported infinite, skewness and kurtosis not returned, because none exists", "statement": "The moment integrals of the Levy density diverge; mean() and variance() return +infinity and skewness(), kurtosis() panic.", "quantifier": "every mu, c > 0", "why_tests_cant": "continuum of parameters and arguments; integrals and special functions", "anchors": ["src/univariate/levy.rs::Levy::new", "src/univariate/levy.rs::Levy::mean", "src/univariate/levy.rs::Levy::pdf", "src/univariate/levy.rs::Levy::variance", "src/univariate/levy.rs::Levy::skewness", "src/univariate/levy.rs::Levy::kurtosis"]}
{"id": "C124", "title": "Cosine, Rayleigh, LogNormal: skewness, kurtosis, variance, modes are those of the distribution", "statement": "Rayleigh.kurtosis, Cosine.excess_kurtosis and LogNormal variance, skewness, excess_kurtosis, modes are the central moments and the mode of the density.", "quantifier": "every valid parameter value", "why_tests_cant": "continuum of parameters and arguments; integrals and special functions", "anchors": ["src/univariate/rayleigh.rs::Rayleigh::new", "src/univariate/lognormal.rs::LogNormal::new", "src/univariate/lognormal.rs::LogNormal::cdf", "src/univariate/rayleigh.rs::Rayleigh::pdf", "src/univariate/lognormal.rs::LogNormal::skewness", "src/univariate/lognormal.rs::LogNormal::excess_kurtosis", "src/univariate/cosine.rs::Cosine::new", "src/univariate/cosine.rs::Cosine::excess_kurtosis", "src/univariate/cosine.rs::Cosine::cdf", "src/univariate/rayleigh.rs::Rayleigh::kurtosis", "src/univariate/lognormal.rs::LogNormal::variance", "src/univariate/lognormal.rs::LogNormal::modes"]}
{"id": "C125", "title": "Continuous samplers that delegate to rand_distr draw from the distribution's own law", "statement": "If every rand_distr sampler draws from the law it is named after, then the probability that sample() is at most y equals cdf(y) (StudentT: the integral of pdf up to y), for Exponential, Cauchy, Pareto, Weibull, Triangular, LogNormal, Beta, ChiSq, FDist, StudentT.", "quantifier": "every valid parameter, every y in the support, every assignment of probabilities to generator events", "why_tests_cant": "equality of laws of samples, for every parameter and threshold", "anchors": ["src/univariate/exponential.rs::Exponential::new", "src/univariate/exponential.rs::Exponential::cdf", "src/univariate/cauchy.rs::Cauchy::new", "src/univariate/cauchy.rs::Cauchy::cdf", "src/univariate/pareto.rs::Pareto::new", "src/univariate/pareto.rs::Pareto::cdf", "src/univariate/weibull.rs::Weibull::from", "src/univariate/weibull.rs::Weibull::cdf", "src/univariate/triangular.rs::Triangular::new", "src/univariate/triangular.rs::Triangular::cdf", "src/univariate/beta.rs::Beta::new", "src/univariate/beta.rs::Beta::cdf", "src/univariate/chi_sq.rs::ChiSq::new", "src/univariate/chi_sq.rs::ChiSq::cdf", "src/univariate/f_dist.rs::FDist::new", "src/univariate/f_dist.rs::FDist::cdf", "src/univariate/student_t.rs::StudentT::new", "src/univariate/student_t.rs::StudentT::pdf", "src/univariate/lognormal.rs::LogNormal::new", "src/univariate/lognormal.rs::LogNormal::cdf"]}
{"id": "C126", "title": "Discrete samplers draw each value with the probability given by pmf", "statement": "Under the same hypothesis on rand_distr (gen_bool for Bernoulli), sample() equals k with probability pmf(k), for Binomial, Geometric, Poisson (k below 2^64-1), Uniform<i64>, Bernoulli.", "quantifier": "every valid parameter, every k", "why_tests_cant": "equality of laws of samples, for every parameter and outcome", "anchors": ["src/univariate/binomial.rs::Binomial::new", "src/univariate/binomial.rs::Binomial::pmf", "src/univariate/geometric.rs::Geometric::new", "src/univariate/geometric.rs::Geometric::pmf", "src/univariate/poisson.rs::Poisson::new", "src/univariate/uniform.rs::Uniform<i64>::new", "src/univariate/uniform.rs::Uniform<i64>::pmf", "src/univariate/bernoulli.rs::Bernoulli::new", "src/univariate/bernoulli.rs::Bernoulli::pmf", "src/univariate/bernoulli.rs::Bernoulli::sample"]}
{"id": "C127", "title": "Samplers that transform a uniform variate draw from the distribution's own law", "statement": "Given a uniform generator, the probability that sample() is at most y equals the distribution function at y, for Uniform<f64>, Kumaraswamy, Laplace, Frechet.", "quantifier": "every valid parameter, every y in the support", "why_tests_cant": "equality of laws of samples, for every parameter and threshold", "anchors": ["src/univariate/uniform.rs::Uniform<f64>::new", "src/univariate/uniform.rs::Uniform<f64>::cdf", "src/univariate/uniform.rs::Uniform<f64>::sample", "src/univariate/kumaraswamy.rs::Kumaraswamy::from", "src/univariate/kumaraswamy.rs::Kumaraswamy::cdf", "src/univariate/kumaraswamy.rs::Kumaraswamy::sample", "src/univariate/laplace.rs::Laplace::new", "src/univariate/laplace.rs::Laplace::pdf", "src/univariate/laplace.rs::Laplace::sample", "src/univariate/frechet.rs::Frechet::new", "src/univariate/frechet.rs::Frechet::cdf", "src/univariate/frechet.rs::Frechet::sample"]}
{"id": "C128", "title": "The density is positive throughout the reported support", "statement": "At every interior point of the set returned by support(), pdf returns a positive finite number.", "quantifier": "every continuous distribution, valid parameter and interior point of the support", "why_tests_cant": "continuum of parameters and arguments; integrals and special functions", "anchors": ["src/univariate/gev.rs", "src/univariate/uniform.rs::Uniform<f64>::new", "src/univariate/uniform.rs::Uniform<f64>::support", "src/univariate/uniform.rs::Uniform<f64>::pdf", "src/univariate/exponential.rs::Exponential::new", "src/univariate/exponential.rs::Exponential::support", "src/univariate/exponential.rs::Exponential::pdf", "src/univariate/cauchy.rs::Cauchy::new", "src/univariate/cauchy.rs::Cauchy::support", "src/univariate/cauchy.rs::Cauchy::pdf", "src/univariate/logistic.rs::Logistic::new", "src/univariate/logistic.rs::Logistic::support", "src/univariate/logistic.rs::Logistic::pdf", "src/univariate/gumbel.rs::Gumbel::new", "src/univariate/gumbel.rs::Gumbel::support", "src/univariate/gumbel.rs::Gumbel::pdf", "src/univariate/frechet.rs::Frechet::new", "src/univariate/frechet.rs::Frechet::support", "src/univariate/frechet.rs::Frechet::pdf", "src/univariate/kumaraswamy.rs::Kumaraswamy::from", "src/univariate/kumaraswamy.rs::Kumaraswamy::support", "src/univariate/kumaraswamy.rs::Kumaraswamy::pdf", "src/univariate/pareto.rs::Pareto::new", "src/univariate/pareto.rs::Pareto::support", "src/univariate/pareto.rs::Pareto::pdf", "src/univariate/weibull.rs::Weibull::from", "src/univariate/weibull.rs::Weibull::support", "src/univariate/weibull.rs::Weibull::pdf", "src/univariate/arcsine.rs::Arcsine::new", "src/univariate/arcsine.rs::Arcsine::support", "src/univariate/arcsine.rs::Arcsine::pdf", "src/univariate/cosine.rs::Cosine::new", "src/univariate/cosine.rs::Cosine::support", "src/univariate/cosine.rs::Cosine::pdf", "src/univariate/triangular.rs::Triangular::new", "src/univariate/triangular.rs::Triangular::support", "src/univariate/triangular.rs::Triangular::pdf", "src/univariate/rayleigh.rs::Rayleigh::new", "src/univariate/rayleigh.rs::Rayleigh::support", "src/univariate/rayleigh.rs::Rayleigh::pdf", "src/univariate/levy.rs::Levy::new"]}
{"id": "C129", "title": "The density is zero outside the reported support", "statement": "At every real number outside the closure of the set returned by support(), pdf returns zero.", "quantifier": "every continuous distribution, valid parameter and point off the support", "why_tests_cant": "continuum of parameters and arguments; integrals and special functions", "anchors": ["src/univariate/uniform.rs::Uniform<f64>::new", "src/univariate/uniform.rs::Uniform<f64>::support", "src/univariate/uniform.rs::Uniform<f64>::pdf", "src/univariate/pareto.rs::Pareto::new", "src/univariate/pareto.rs::Pareto::support", "src/univariate/pareto.rs::Pareto::pdf", "src/univariate/weibull.rs::Weibull::from", "src/univariate/weibull.rs::Weibull::support", "src/univariate/weibull.rs::Weibull::pdf", "src/univariate/triangular.rs::Triangular::new", "src/univariate/triangular.rs::Triangular::support", "src/univariate/triangular.rs::Triangular::pdf", "src/univariate/exponential.rs::Exponential::new", "src/univariate/exponential.rs::Exponential::pdf", "src/univariate/rayleigh.rs::Rayleigh::new", "src/univariate/rayleigh.rs::Rayleigh::pdf", "src/univariate/folded_normal.rs::FoldedNormal::new", "src/univariate/folded_normal.rs::FoldedNormal::pdf", "src/univariate/cosine.rs::Cosine::new", "src/univariate/cosine.rs::Cosine::support", "src/univariate/cosine.rs::Cosine::pdf", "src/univariate/arcsine.rs::Arcsine::new", "src/univariate/arcsine.rs::Arcsine::support", "src/univariate/arcsine.rs::Arcsine::pdf", "src/univariate/levy.rs::Levy::new", "src/univariate/levy.rs::Levy::support", "src/univariate/levy.rs::Levy::pdf", "src/univariate/lognormal.rs::LogNormal::new", "src/univariate/lognormal.rs::LogNormal::support", "src/univariate/lognormal.rs::LogNormal::pdf", "src/univariate/inverse_normal.rs::InvNormal::new", "src/univariate/inverse_normal.rs::InvNormal::support", "src/univariate/inverse_normal.rs::InvNormal::pdf", "src/univariate/frechet.rs::Frechet::new", "src/univariate/frechet.rs::Frechet::support", "src/univariate/frechet.rs::Frechet::pdf", "src/univariate/kumaraswamy.rs::Kumaraswamy::pdf", "src/univariate/kumaraswamy.rs::Kumaraswamy::from", "src/univariate/gamma.rs::Gamma::new", "src/univariate/gamma.rs::Gamma::support"]}
{"id": "C130", "title": "An integer is in the reported support iff its mass is positive", "statement": "For discrete distributions, support() contains k iff pmf(k) > 0.", "quantifier": "every discrete distribution, valid parameter and representable k", "why_tests_cant": "continuum of parameters and arguments; integrals and special functions", "anchors": ["src/univariate/uniform.rs::Uniform<i64>::new", "src/univariate/uniform.rs::Uniform<i64>::support", "src/univariate/uniform.rs::Uniform<i64>::pmf", "src/univariate/bernoulli.rs::Bernoulli::new", "src/univariate/bernoulli.rs::Bernoulli::support", "src/univariate/bernoulli.rs::Bernoulli::pmf", "src/univariate/geometric.rs::Geometric::new", "src/univariate/geometric.rs::Geometric::support", "src/univariate/geometric.rs::Geometric::pmf", "src/univariate/poisson.rs::Poisson::new", "src/univariate/degenerate.rs::Degenerate<i64>::new", "src/univariate/degenerate.rs::Degenerate<i64>::support", "src/univariate/degenerate.rs::Degenerate<i64>::pmf"]}
{"id": "C131", "title": "Default and standard distributions are valid and are the textbook standard laws", "statement": "Every Default/standard constructor returns exactly what the checked constructor returns on the documented parameters, in doubles as on the reals, and its density or distribution function is the textbook standard one.", "quantifier": "every distribution with a Default or standard constructor, every argument of its density or distribution function", "why_tests_cant": "continuum of parameters", "anchors": ["src/univariate/exponential.rs::Exponential::new", "src/univariate/exponential.rs::Exponential::default", "src/univariate/cauchy.rs::Cauchy::new", "src/univariate/cauchy.rs::Cauchy::default", "src/univariate/gumbel.rs::Gumbel::new", "src/univariate/gumbel.rs::Gumbel::default", "src/univariate/frechet.rs::Frechet::new", "src/univariate/frechet.rs::Frechet::default", "src/univariate/kumaraswamy.rs::Kumaraswamy::from", "src/univariate/kumaraswamy.rs::Kumaraswamy::default", "src/univariate/arcsine.rs::Arcsine::new", "src/univariate/arcsine.rs::Arcsine::default", "src/univariate/degenerate.rs::Degenerate<f64>::new", "src/univariate/degenerate.rs::Degenerate<f64>::default", "src/univariate/degenerate.rs::Degenerate<i64>::new", "src/univariate/degenerate.rs::Degenerate<i64>::default", "src/normal/univariate.rs::UvNormal::new", "src/normal/univariate.rs::UvNormal::standard", "src/univariate/beta.rs::Beta::new", "src/univariate/beta.rs::Beta::default", "src/univariate/gamma.rs::Gamma::new", "src/univariate/gamma.rs::Gamma::default", "src/univariate/inverse_gamma.rs::InvGamma::new", "src/univariate/inverse_gamma.rs::InvGamma::default", "src/univariate/beta_prime.rs::BetaPrime::new", "src/univariate/beta_prime.rs::BetaPrime::default", "src/univariate/erlang.rs::Erlang::new", "src/univariate/erlang.rs::Erlang::default", "src/univariate/folded_normal.rs::FoldedNormal::new", "src/univariate/folded_normal.rs::FoldedNormal::default", "src/normal/paired.rs::PairedNormal::new", "src/normal/paired.rs::PairedNormal::default", "src/univariate/uniform.rs::Uniform<f64>::new", "src/univariate/uniform.rs::Uniform<f64>::default", "src/normal/bivariate.rs::BvNormal::new", "src/normal/bivariate.rs::BvNormal::default", "src/normal/bivariate.rs::BvNormal::standard", "src/univariate/uniform.rs::Uniform<f64>::cdf", "src/univariate/kumaraswamy.rs::Kumaraswamy::cdf", "src/univariate/beta.rs::Beta::pdf"]}
{"id": "C132", "title": "Named constructors build the distribution they name", "statement": "Triangular::symmetric(a, b) succeeds exactly when a < b and is symmetric about the midpoint; half_normal is FoldedNormal::new(0, scale); PairedNormal/BvNormal isotropic and independent succeed exactly for positive variances, and the independent bivariate normal has the density, moments and samples of the paired one.", "quantifier": "every argument, every generator state", "why_tests_cant": "continuum of parameters", "anchors": ["src/univariate/triangular.rs::Triangular::symmetric", "src/univariate/triangular.rs::Triangular::support", "src/univariate/triangular.rs::Triangular::modes", "src/univariate/triangular.rs::Triangular::median", "src/univariate/triangular.rs::Triangular::variance", "src/univariate/triangular.rs::Triangular::skewness", "src/univariate/triangular.rs::Triangular::pdf", "src/univariate/triangular.rs::Triangular::cdf", "src/univariate/folded_normal.rs::FoldedNormal::new", "src/univariate/folded_normal.rs::FoldedNormal::half_normal", "src/univariate/folded_normal.rs::FoldedNormal::pdf", "src/univariate/folded_normal.rs::FoldedNormal::modes", "src/normal/paired.rs::PairedNormal::isotropic", "src/normal/paired.rs::PairedNormal::isotropic_unchecked", "src/normal/bivariate.rs::BvNormal::isotropic", "src/normal/bivariate.rs::BvNormal::isotropic_unchecked", "src/normal/bivariate.rs::BvNormal::independent", "src/normal/bivariate.rs::BvNormal::independent_unchecked", "src/normal/bivariate.rs::BvNormal::new", "src/normal/paired.rs::PairedNormal::new", "src/normal/bivariate.rs::BvNormal::pdf", "src/normal/paired.rs::PairedNormal::pdf", "src/normal/bivariate.rs::BvNormal::mean", "src/normal/paired.rs::PairedNormal::mean", "src/normal/bivariate.rs::BvNormal::variance", "src/normal/paired.rs::PairedNormal::variance", "src/normal/bivariate.rs::BvNormal::covariance", "src/normal/paired.rs::PairedNormal::covariance", "src/normal/bivariate.rs::BvNormal::correlation", "src/normal/paired.rs::PairedNormal::correlation", "src/normal/bivariate.rs::BvNormal::modes", "src/normal/paired.rs::PairedNormal::modes", "src/normal/bivariate.rs::BvNormal::support", "src/normal/paired.rs::PairedNormal::support", "src/normal/bivariate.rs::BvNormal::sample", "src/normal/paired.rs::PairedNormal::sample", "src/normal/bivariate.rs::BvNormal::from", "src/normal/bivariate.rs::BvNormal::params", "src/normal/paired.rs::PairedNormal::from", "src/normal/paired.rs::PairedNormal::params"]}
{"id": "C133", "title": "In double arithmetic every cdf value is a probability, and the cdf never decreases", "statement": "For every distribution accepted with finite parameters and every double x of its support (infinities included, NaN excluded), the value cdf(x) actually computed in IEEE doubles is finite and in [0, 1], and x <= y implies cdf(x) <= cdf(y), whenever the platform's exp, pow, atan, asin have the right range and are monotone (correctly rounded functions do).", "quantifier": "every accepted finite parameter, every double x of the support, every libm with the stated ranges and monotonicity; Exponential, Logistic, Gumbel, Frechet, Weibull, Rayleigh, Pareto, Kumaraswamy, GeneralisedPareto, GEV, Cauchy, Normal, Arcsine, Triangular", "why_tests_cant": "rounding of every pair of doubles for every parameter and every libm", "anchors": ["src/univariate/exponential.rs::Exponential::new", "src/univariate/exponential.rs::Exponential::cdf", "src/univariate/logistic.rs::Logistic::new", "src/univariate/logistic.rs::Logistic::cdf", "src/univariate/gumbel.rs::Gumbel::new", "src/univariate/gumbel.rs::Gumbel::cdf", "src/univariate/frechet.rs::Frechet::new", "src/univariate/frechet.rs::Frechet::cdf", "src/univariate/weibull.rs::Weibull::from", "src/univariate/weibull.rs::Weibull::cdf", "src/univariate/rayleigh.rs::Rayleigh::new", "src/univariate/rayleigh.rs::Rayleigh::cdf", "src/univariate/pareto.rs::Pareto::new", "src/univariate/pareto.rs::Pareto::cdf", "src/univariate/kumaraswamy.rs::Kumaraswamy::from", "src/univariate/kumaraswamy.rs::Kumaraswamy::cdf", "src/univariate/gpd.rs::GeneralisedPareto::new", "src/univariate/gpd.rs::GeneralisedPareto::cdf", "src/univariate/gev.rs::GeneralisedExtremeValue::new", "src/univariate/gev.rs::GeneralisedExtremeValue::cdf", "src/univariate/cauchy.rs::Cauchy::new", "src/univariate/cauchy.rs::Cauchy::cdf", "src/univariate/arcsine.rs::Arcsine::new", "src/univariate/arcsine.rs::Arcsine::cdf", "src/normal/univariate.rs::UvNormal::new", "src/normal/univariate.rs::UvNormal::cdf", "src/univariate/triangular.rs::Triangular::new", "src/univariate/triangular.rs::Triangular::cdf", "src/univariate/arcsine.rs::Arcsine::support", "src/univariate/lognormal.rs::LogNormal::new", "src/univariate/lognormal.rs::LogNormal::cdf", "src/univariate/laplace.rs::Laplace::new", "src/univariate/laplace.rs::Laplace::cdf"]}
{"id": "C134", "title": "No panics: which calls on an accepted distribution come back", "statement": "Every method called on a distribution returned by its checked constructor, with any argument of its sample type, returns a value instead of panicking (unimplemented, integer overflow, failed internal unwrap). Where it can panic, the exact set of arguments for which it does is stated.", "quantifier": "every accepted distribution and every u64/i64/scalar argument of: quantile, samplers left unimplemented, integer Uniform, Geometric, ChiSq, Poisson, Erlang, Binomial and BetaBinomial, for every scalar type", "why_tests_cant": "every argument of unbounded integer types", "anchors": ["src/univariate/logistic.rs::Logistic::quantile", "src/univariate/gumbel.rs::Gumbel::quantile", "src/univariate/frechet.rs::Frechet::quantile", "src/univariate/gev.rs::GeneralisedExtremeValue::quantile", "src/univariate/gpd.rs::GeneralisedPareto::quantile", "src/univariate/kumaraswamy.rs::Kumaraswamy::quantile", "src/univariate/pareto.rs::Pareto::quantile", "src/univariate/weibull.rs::Weibull::quantile", "src/univariate/arcsine.rs::Arcsine::quantile", "src/univariate/cosine.rs::Cosine::quantile", "src/univariate/triangular.rs::Triangular::quantile", "src/univariate/laplace.rs::Laplace::quantile", "src/univariate/rayleigh.rs::Rayleigh::quantile", "src/univariate/levy.rs::Levy::quantile", "src/univariate/levy.rs::Levy::median", "src/univariate/lognormal.rs::LogNormal::quantile", "src/univariate/beta.rs::Beta::quantile", "src/univariate/chi_sq.rs::ChiSq::quantile", "src/univariate/chi.rs::Chi::quantile", "src/univariate/student_t.rs::StudentT::quantile", "src/univariate/binomial.rs::Binomial::quantile", "src/univariate/bernoulli.rs::Bernoulli::quantile", "src/univariate/geometric.rs::Geometric::quantile", "src/univariate/poisson.rs::Poisson::quantile", "src/univariate/arcsine.rs::Arcsine::sample", "src/univariate/cosine.rs::Cosine::sample", "src/univariate/rayleigh.rs::Rayleigh::sample", "src/univariate/levy.rs::Levy::sample", "src/univariate/levy.rs::Levy::skewness", "src/univariate/levy.rs::Levy::kurtosis", "src/univariate/inverse_gamma.rs::InvGamma::sample", "src/univariate/beta_prime.rs::BetaPrime::sample", "src/univariate/chi.rs::Chi::sample", "src/univariate/erlang.rs::Erlang::sample", "src/univariate/beta_binomial.rs::BetaBinomial::sample", "src/univariate/folded_normal.rs::FoldedNormal::skewness", "src/univariate/folded_normal.rs::FoldedNormal::kurtosis", "src/univariate/folded_normal.rs::FoldedNormal::excess_kurtosis", "src/univariate/kumaraswamy.rs::Kumaraswamy::excess_kurtosis", "src/univariate/poisson.rs::Poisson::cdf"]}
{"id": "C135", "title": "In double arithmetic every pdf value is a number at least 0", "statement": "For every distribution accepted with finite parameters and every double x of its support, the value pdf(x) computed in IEEE doubles is not NaN and is >= 0, whenever the platform's exp and pow have the right range.", "quantifier": "every accepted finite parameter and every double x of the support: Exponential, Cauchy, Normal, LogNormal, FoldedNormal, Logistic, Gumbel, GeneralisedPareto, GEV, Rayleigh, Weibull, Pareto, Frechet, Uniform, Laplace", "why_tests_cant": "rounding, overflow and underflow for every double and every libm", "anchors": ["src/univariate/exponential.rs::Exponential::new", "src/univariate/exponential.rs::Exponential::pdf", "src/univariate/cauchy.rs::Cauchy::new", "src/univariate/cauchy.rs::Cauchy::pdf", "src/normal/univariate.rs::UvNormal::new", "src/normal/univariate.rs::UvNormal::pdf", "src/univariate/lognormal.rs::LogNormal::new", "src/univariate/lognormal.rs::LogNormal::pdf", "src/univariate/folded_normal.rs::FoldedNormal::new", "src/univariate/folded_normal.rs::FoldedNormal::pdf", "src/univariate/logistic.rs::Logistic::new", "src/univariate/logistic.rs::Logistic::pdf", "src/univariate/gumbel.rs::Gumbel::new", "src/univariate/gumbel.rs::Gumbel::pdf", "src/univariate/gpd.rs::GeneralisedPareto::new", "src/univariate/gpd.rs::GeneralisedPareto::pdf", "src/univariate/gev.rs::GeneralisedExtremeValue::new", "src/univariate/gev.rs::GeneralisedExtremeValue::pdf", "src/univariate/rayleigh.rs::Rayleigh::new", "src/univariate/rayleigh.rs::Rayleigh::pdf", "src/univariate/weibull.rs::Weibull::pdf", "src/univariate/weibull.rs::Weibull::from", "src/univariate/pareto.rs::Pareto::new", "src/univariate/pareto.rs::Pareto::pdf", "src/univariate/frechet.rs::Frechet::new", "src/univariate/frechet.rs::Frechet::pdf", "src/univariate/uniform.rs::Uniform<f64>::new", "src/univariate/uniform.rs::Uniform<f64>::pdf", "src/univariate/laplace.rs::Laplace::new", "src/univariate/laplace.rs::Laplace::pdf", "src/univariate/frechet.rs::Frechet::cdf"]}
{"id": "C136", "title": "Integer Uniform, Chi and ChiSq: median() is a median", "statement": "For the integer Uniform, the value returned by median() splits the mass: the pmf sums to at least one half at or below it and to at least one half at or above it. For ChiSq and Chi the returned value is a point where the distribution function equals one half.", "quantifier": "all integer bounds and widths whose construction succeeds; all degrees of freedom accepted by ChiSq/Chi", "why_tests_cant": "continuum of parameters and arguments; integrals and special functions", "anchors": ["src/univariate/uniform.rs::Uniform<i64>::new", "src/univariate/uniform.rs::Uniform<i64>::median", "src/univariate/uniform.rs::Uniform<i64>::pmf", "src/univariate/chi_sq.rs::ChiSq::new", "src/univariate/chi_sq.rs::ChiSq::median", "src/univariate/chi.rs::Chi::median", "src/univariate/chi.rs::Chi::new_unchecked", "src/univariate/chi_sq.rs::ChiSq::pdf", "src/univariate/chi.rs::Chi::new", "src/univariate/chi.rs::Chi::pdf"]}
{"id": "C137", "title": "Multivariate supports agree with the densities and the draws", "statement": "support() of a multivariate distribution lists one space per coordinate; the density is a positive number at every interior point of that box, no point with a coordinate off it has positive density (it is zero there), and every draw lies in it.", "quantifier": "all dimensions and parameters accepted by the constructors of Normal, LogNormal, Dirichlet and Multinomial; all points; all random number sequences", "why_tests_cant": "continuum of parameters and arguments; integrals and special functions", "anchors": ["src/multivariate/lognormal.rs::LogNormal::diagonal", "src/multivariate/lognormal.rs::LogNormal::isotropic", "src/multivariate/lognormal.rs::LogNormal::support", "src/multivariate/lognormal.rs::LogNormal::pdf", "src/multivariate/lognormal.rs::LogNormal::sample", "src/multivariate/lognormal.rs::LogNormal::new", "src/multivariate/dirichlet.rs::Dirichlet::new_unchecked", "src/multivariate/dirichlet.rs::Dirichlet::support", "src/multivariate/dirichlet.rs::Dirichlet::pdf", "src/multivariate/dirichlet.rs::Dirichlet::sample", "src/multivariate/multinomial.rs::Multinomial::new", "src/multivariate/multinomial.rs::Multinomial::support", "src/multivariate/multinomial.rs::Multinomial::pmf"]}
{"id": "C138", "title": "Order, product, sums, logarithms and powers of probabilities", "statement": "In double arithmetic: the comparison operators order valid probabilities by value with zero least and one greatest; the unchecked product is commutative, has one as neutral and zero as absorbing element, is associative, monotone and never exceeds a factor; the named constants have their exact values and !half = half, half+half = one; a sum of n valid probabilities is a finite double in [0, n]; mixed operators with f64 are those of f64; the declared parameter constraint accepts exactly the valid values. In exact arithmetic: logarithms are never positive and additive over products, powers with non-negative exponents are probabilities and exponents add.", "quantifier": "all valid probabilities, all doubles, all lists, all exponents", "why_tests_cant": "rounding of every pair of doubles", "anchors": ["src/probability.rs", "src/probability.rs::Mul for Probability", "src/probability.rs::Probability::new_unchecked"]}
{"id": "C139", "title": "The samplers of InvNormal and Categorical draw from the distribution they belong to", "statement": "InvNormal::sample makes exactly one standard normal and one uniform draw, always returns a positive number, and over those two independent draws the sample is <= y with probability the integral of pdf from 0 to y. Categorical::sample returns index i with probability pmf(i) when the weights sum to one, and within 1e-5 of pmf(i) for every weight vector that new accepts; it always returns a valid index.", "quantifier": "all parameters accepted by new, all generators whose draws are uniform/normal, all thresholds y > 0, all indices", "why_tests_cant": "A test sees finitely many samples; equality of laws is a statement about the measure of the set of draws for every threshold and every parameter.", "anchors": ["src/univariate/inverse_normal.rs: InvNormal::sample, InvNormal::pdf", "src/univariate/categorical.rs: Categorical::sample, Categorical::pmf", "src/probability.rs: SimplexVector::sample_index", "src/univariate/inverse_normal.rs::InvNormal::new", "src/univariate/inverse_normal.rs::InvNormal::sample", "src/univariate/inverse_normal.rs::InvNormal::pdf", "src/univariate/categorical.rs::Categorical::new", "src/univariate/categorical.rs::Categorical::sample", "src/univariate/categorical.rs::Categorical::pmf"]}
{"id": "C140", "title": "GEV with a vanishing shape parameter is the Gumbel law", "statement": "For every GEV whose shape is below the 1e-7 threshold the cdf, mean, variance, median, skewness, kurtosis and modes are those of the Gumbel distribution with the same location and scale; at shape zero the density and entropy are too.", "quantifier": "all locations, all positive scales, all arguments, all shapes in the Gumbel branch", "why_tests_cant": "continuum of parameters and arguments", "anchors": ["src/univariate/gev.rs::GeneralisedExtremeValue::new", "src/univariate/gev.rs::GeneralisedExtremeValue::cdf", "src/univariate/gev.rs::GeneralisedExtremeValue::mean", "src/univariate/gev.rs::GeneralisedExtremeValue::variance", "src/univariate/gev.rs::GeneralisedExtremeValue::skewness", "src/univariate/gev.rs::GeneralisedExtremeValue::excess_kurtosis", "src/univariate/gev.rs::GeneralisedExtremeValue::median", "src/univariate/gev.rs::GeneralisedExtremeValue::modes", "src/univariate/gumbel.rs::Gumbel::new", "src/univariate/gumbel.rs::Gumbel::pdf", "src/univariate/gumbel.rs::Gumbel::cdf", "src/univariate/gumbel.rs::Gumbel::mean", "src/univariate/gumbel.rs::Gumbel::variance", "src/univariate/gumbel.rs::Gumbel::skewness", "src/univariate/gumbel.rs::Gumbel::excess_kurtosis", "src/univariate/gumbel.rs::Gumbel::median", "src/univariate/gumbel.rs::Gumbel::modes", "src/univariate/gev.rs::GeneralisedExtremeValue::new_unchecked", "src/univariate/gev.rs::GeneralisedExtremeValue::pdf", "src/univariate/gev.rs::GeneralisedExtremeValue::shannon_entropy", "src/univariate/gumbel.rs::Gumbel::shannon_entropy"]}
{"id": "C141", "title": "The Degenerate distributions", "statement": "Degenerate<i64> is a coherent discrete distribution concentrated at its parameter: mass one there, the cdf is the running sum of the masses, and mean, variance, median, modes, entropy and samples are those of a point mass; quantities that do not exist for a point mass are not reported as numbers; Degenerate<f64> has a density that integrates to one.", "quantifier": "all parameters and all arguments", "why_tests_cant": "unbounded domain; integral of a density", "anchors": ["src/univariate/degenerate.rs::Degenerate<i64>::new", "src/univariate/degenerate.rs::Degenerate<i64>::pmf", "src/univariate/degenerate.rs::Degenerate<i64>::cdf", "src/univariate/degenerate.rs::Degenerate<i64>::mean", "src/univariate/degenerate.rs::Degenerate<i64>::variance", "src/univariate/degenerate.rs::Degenerate<i64>::median", "src/univariate/degenerate.rs::Degenerate<i64>::modes", "src/univariate/degenerate.rs::Degenerate<i64>::shannon_entropy", "src/univariate/degenerate.rs::Degenerate<i64>::kurtosis", "src/univariate/degenerate.rs::Degenerate<i64>::excess_kurtosis", "src/univariate/degenerate.rs::Degenerate<f64>::kurtosis", "src/univariate/degenerate.rs::Degenerate<f64>::new", "src/univariate/degenerate.rs::Degenerate<f64>::excess_kurtosis", "src/univariate/degenerate.rs::Degenerate<i64>::quantile", "src/univariate/degenerate.rs::Degenerate<f64>::quantile", "src/univariate/degenerate.rs::Degenerate<i64>::skewness", "src/univariate/degenerate.rs::Degenerate<f64>::pdf"]}
{"id": "C142", "title": "Distributions that coincide mathematically agree in the API", "statement": "Exponential, Gamma and Weibull with shape 1; ChiSq(k) and Gamma(k/2, 1/2); Rayleigh and Weibull with shape 2; Arcsine and Beta(1/2,1/2), Uniform(0,1), Kumaraswamy and Beta with a parameter equal to 1; Pareto and GPD, Frechet and GEV; Levy and InvGamma(1/2, c/2), Cauchy and StudentT(1): the pairs return the same densities (and cdf, moments, entropies where stated) from the functions they share.", "quantifier": "all admissible parameters and all arguments in the common support", "why_tests_cant": "continuum of parameters and arguments", "anchors": ["src/univariate/exponential.rs::Exponential::new", "src/univariate/gamma.rs::Gamma::new", "src/univariate/gamma.rs::Gamma::pdf", "src/univariate/exponential.rs::Exponential::pdf", "src/univariate/weibull.rs::Weibull::pdf", "src/univariate/weibull.rs::Weibull::from", "src/univariate/weibull.rs::Weibull::cdf", "src/univariate/exponential.rs::Exponential::cdf", "src/univariate/gamma.rs::Gamma::mean", "src/univariate/exponential.rs::Exponential::mean", "src/univariate/weibull.rs::Weibull::mean", "src/univariate/gamma.rs::Gamma::variance", "src/univariate/exponential.rs::Exponential::variance", "src/univariate/weibull.rs::Weibull::median", "src/univariate/exponential.rs::Exponential::median", "src/univariate/gamma.rs::Gamma::skewness", "src/univariate/exponential.rs::Exponential::skewness", "src/univariate/gamma.rs::Gamma::excess_kurtosis", "src/univariate/exponential.rs::Exponential::excess_kurtosis", "src/univariate/chi_sq.rs::ChiSq::new", "src/univariate/chi_sq.rs::ChiSq::pdf", "src/univariate/chi_sq.rs::ChiSq::cdf", "src/univariate/gamma.rs::Gamma::cdf", "src/univariate/chi_sq.rs::ChiSq::mean", "src/univariate/chi_sq.rs::ChiSq::skewness", "src/univariate/chi_sq.rs::ChiSq::excess_kurtosis", "src/univariate/chi_sq.rs::ChiSq::variance", "src/univariate/rayleigh.rs::Rayleigh::new", "src/univariate/rayleigh.rs::Rayleigh::pdf", "src/univariate/rayleigh.rs::Rayleigh::median", "src/univariate/rayleigh.rs::Rayleigh::mean", "src/univariate/arcsine.rs::Arcsine::new", "src/univariate/beta.rs::Beta::new", "src/univariate/uniform.rs::Uniform<f64>::new", "src/univariate/arcsine.rs::Arcsine::pdf", "src/univariate/beta.rs::Beta::pdf", "src/univariate/uniform.rs::Uniform<f64>::pdf", "src/univariate/kumaraswamy.rs::Kumaraswamy::pdf", "src/univariate/kumaraswamy.rs::Kumaraswamy::from", "src/univariate/pareto.rs::Pareto::new"]}
{"id": "C143", "title": "Distributions defined as transformations of others have the transformed density", "statement": "InvGamma has the density of the reciprocal of a Gamma variable and Gamma scales with its rate; Beta reflects under 1-X and BetaPrime is X/(1-X); FDist is a scaled BetaPrime and its reciprocal swaps the degrees of freedom; ChiSq is the square of Chi; Gumbel, Weibull, Pareto and Frechet are the corresponding transformations of Exponential/Weibull variables; FoldedNormal is |X|, the LogNormal cdf is that of exp X; the square of a StudentT(n) variable is FDist(1, n).", "quantifier": "all admissible parameters and all arguments inside the support", "why_tests_cant": "continuum of parameters and arguments", "anchors": ["src/univariate/gamma.rs::Gamma::new", "src/univariate/inverse_gamma.rs::InvGamma::new", "src/univariate/gamma.rs::Gamma::pdf", "src/univariate/inverse_gamma.rs::InvGamma::pdf", "src/univariate/beta.rs::Beta::new", "src/univariate/beta_prime.rs::BetaPrime::new", "src/univariate/beta.rs::Beta::pdf", "src/univariate/beta_prime.rs::BetaPrime::pdf", "src/univariate/f_dist.rs::FDist::new", "src/univariate/f_dist.rs::FDist::pdf", "src/univariate/chi.rs::Chi::new", "src/univariate/chi_sq.rs::ChiSq::new", "src/univariate/chi_sq.rs::ChiSq::pdf", "src/univariate/chi.rs::Chi::pdf", "src/univariate/exponential.rs::Exponential::new", "src/univariate/gumbel.rs::Gumbel::new", "src/univariate/pareto.rs::Pareto::new", "src/univariate/frechet.rs::Frechet::new", "src/univariate/exponential.rs::Exponential::pdf", "src/univariate/weibull.rs::Weibull::pdf", "src/univariate/weibull.rs::Weibull::from", "src/univariate/gumbel.rs::Gumbel::pdf", "src/univariate/pareto.rs::Pareto::pdf", "src/univariate/frechet.rs::Frechet::pdf", "src/univariate/pareto.rs::Pareto::cdf", "src/univariate/exponential.rs::Exponential::cdf", "src/univariate/weibull.rs::Weibull::cdf", "src/normal/univariate.rs::UvNormal::new", "src/univariate/folded_normal.rs::FoldedNormal::new", "src/univariate/lognormal.rs::LogNormal::new", "src/normal/univariate.rs::UvNormal::pdf", "src/univariate/folded_normal.rs::FoldedNormal::pdf", "src/normal/univariate.rs::UvNormal::cdf", "src/univariate/folded_normal.rs::FoldedNormal::cdf", "src/univariate/lognormal.rs::LogNormal::cdf", "src/normal/univariate.rs::UvNormal::precision", "src/univariate/folded_normal.rs::FoldedNormal::precision", "src/normal/univariate.rs::UvNormal::variance", "src/normal/univariate.rs::UvNormal::width", "src/univariate/student_t.rs::StudentT::new"]}
{"id": "C144", "title": "Location and scale parameters act as shift and stretch", "statement": "For every family with a location and/or scale parameter, the distribution at location m and scale s is that of m + s X for X the standard member: pdf(m + s x) = pdf0(x)/s and cdf(m + s x) = cdf0(x).", "quantifier": "all locations, positive scales, shapes and arguments in the support", "why_tests_cant": "continuum of parameters and arguments", "anchors": ["src/univariate/cauchy.rs::Cauchy::new", "src/univariate/logistic.rs::Logistic::new", "src/univariate/gumbel.rs::Gumbel::new", "src/normal/univariate.rs::UvNormal::new", "src/univariate/cauchy.rs::Cauchy::pdf", "src/univariate/cauchy.rs::Cauchy::cdf", "src/univariate/logistic.rs::Logistic::pdf", "src/univariate/logistic.rs::Logistic::cdf", "src/univariate/gumbel.rs::Gumbel::pdf", "src/univariate/gumbel.rs::Gumbel::cdf", "src/normal/univariate.rs::UvNormal::pdf", "src/normal/univariate.rs::UvNormal::cdf", "src/univariate/uniform.rs::Uniform<f64>::new", "src/univariate/arcsine.rs::Arcsine::new", "src/univariate/cosine.rs::Cosine::new", "src/univariate/gpd.rs::GeneralisedPareto::new", "src/univariate/gev.rs::GeneralisedExtremeValue::new", "src/univariate/levy.rs::Levy::new", "src/univariate/uniform.rs::Uniform<f64>::pdf", "src/univariate/uniform.rs::Uniform<f64>::cdf", "src/univariate/arcsine.rs::Arcsine::pdf", "src/univariate/arcsine.rs::Arcsine::cdf", "src/univariate/cosine.rs::Cosine::cdf", "src/univariate/gpd.rs::GeneralisedPareto::pdf", "src/univariate/gpd.rs::GeneralisedPareto::cdf", "src/univariate/gev.rs::GeneralisedExtremeValue::pdf", "src/univariate/gev.rs::GeneralisedExtremeValue::cdf", "src/univariate/levy.rs::Levy::pdf", "src/univariate/exponential.rs::Exponential::new", "src/univariate/rayleigh.rs::Rayleigh::new", "src/univariate/pareto.rs::Pareto::new", "src/univariate/folded_normal.rs::FoldedNormal::new", "src/univariate/inverse_gamma.rs::InvGamma::new", "src/univariate/gamma.rs::Gamma::new", "src/univariate/exponential.rs::Exponential::pdf", "src/univariate/exponential.rs::Exponential::cdf", "src/univariate/rayleigh.rs::Rayleigh::pdf", "src/univariate/weibull.rs::Weibull::pdf", "src/univariate/weibull.rs::Weibull::from", "src/univariate/weibull.rs::Weibull::cdf"]}
{"id": "C145", "title": "Symmetric families are symmetric about their centre", "statement": "pdf(m+t) = pdf(m-t) and cdf(m+t) + cdf(m-t) = 1 for Cauchy, Logistic, Normal and Cosine about their location, for Uniform and Arcsine about the midpoint of their support, and for Triangular::symmetric about its mode; the pdfs of StudentT (about 0), Beta(a,a) (about 1/2), and of the paired and bivariate Normals (about the mean vector) are even too.", "quantifier": "every parameter the constructors accept and every displacement t (inside the support where the density is only defined there)", "why_tests_cant": "continuum of parameters and arguments; integrals and special functions", "anchors": ["src/univariate/cauchy.rs::Cauchy::new", "src/univariate/logistic.rs::Logistic::new", "src/normal/univariate.rs::UvNormal::new", "src/univariate/cosine.rs::Cosine::new", "src/univariate/student_t.rs::StudentT::new", "src/univariate/cauchy.rs::Cauchy::pdf", "src/univariate/cauchy.rs::Cauchy::cdf", "src/univariate/logistic.rs::Logistic::pdf", "src/univariate/logistic.rs::Logistic::cdf", "src/normal/univariate.rs::UvNormal::pdf", "src/normal/univariate.rs::UvNormal::cdf", "src/univariate/cosine.rs::Cosine::pdf", "src/univariate/cosine.rs::Cosine::cdf", "src/univariate/student_t.rs::StudentT::pdf", "src/univariate/uniform.rs::Uniform<f64>::new", "src/univariate/arcsine.rs::Arcsine::new", "src/univariate/triangular.rs::Triangular::symmetric", "src/univariate/beta.rs::Beta::new", "src/univariate/uniform.rs::Uniform<f64>::pdf", "src/univariate/uniform.rs::Uniform<f64>::cdf", "src/univariate/arcsine.rs::Arcsine::pdf", "src/univariate/arcsine.rs::Arcsine::cdf", "src/univariate/triangular.rs::Triangular::pdf", "src/univariate/triangular.rs::Triangular::cdf", "src/univariate/beta.rs::Beta::pdf", "src/normal/paired.rs::PairedNormal::new", "src/normal/bivariate.rs::BvNormal::new", "src/normal/paired.rs::PairedNormal::pdf", "src/normal/bivariate.rs::BvNormal::pdf"]}
{"id": "C146", "title": "Discrete families agree with their special cases and reflections, and the waiting-time families are memoryless", "statement": "Binomial(1,p) is Bernoulli(p), and both are the Categorical on (1-p,p); Binomial(n,p) at k equals Binomial(n,1-p) at n-k, with mirrored moments; BetaBinomial(n,a,b) at k equals BetaBinomial(n,b,a) at n-k, BetaBinomial(n,1,1) is the uniform distribution on 0..n and BetaBinomial(1,a,b) is Bernoulli(a/(a+b)); the components of a two-category Multinomial have the Binomial moments; the survival functions of Geometric and Exponential are multiplicative.", "quantifier": "all admissible parameters, all counts for which the binomial coefficient fits u64, all arguments", "why_tests_cant": "unbounded counts and a continuum of parameters", "anchors": ["src/univariate/bernoulli.rs::Bernoulli::new", "src/univariate/binomial.rs::Binomial::new", "src/univariate/categorical.rs::Categorical::new", "src/univariate/binomial.rs::Binomial::pmf", "src/univariate/bernoulli.rs::Bernoulli::pmf", "src/univariate/categorical.rs::Categorical::pmf", "src/univariate/binomial.rs::Binomial::mean", "src/univariate/bernoulli.rs::Bernoulli::mean", "src/univariate/binomial.rs::Binomial::variance", "src/univariate/bernoulli.rs::Bernoulli::variance", "src/univariate/binomial.rs::Binomial::skewness", "src/univariate/bernoulli.rs::Bernoulli::skewness", "src/univariate/binomial.rs::Binomial::kurtosis", "src/univariate/bernoulli.rs::Bernoulli::kurtosis", "src/univariate/beta_binomial.rs::BetaBinomial::new", "src/univariate/uniform.rs::Uniform<i64>::new", "src/univariate/beta_binomial.rs::BetaBinomial::pmf", "src/univariate/uniform.rs::Uniform<i64>::pmf", "src/univariate/beta_binomial.rs::BetaBinomial::variance", "src/univariate/beta_binomial.rs::BetaBinomial::mean", "src/univariate/uniform.rs::Uniform<i64>::mean", "src/univariate/uniform.rs::Uniform<i64>::variance", "src/univariate/geometric.rs::Geometric::new", "src/univariate/exponential.rs::Exponential::new", "src/univariate/geometric.rs::Geometric::cdf", "src/univariate/geometric.rs::Geometric::pmf", "src/univariate/exponential.rs::Exponential::cdf", "src/univariate/exponential.rs::Exponential::pdf", "src/multivariate/multinomial.rs::Multinomial::new", "src/multivariate/multinomial.rs::Multinomial::mean", "src/multivariate/multinomial.rs::Multinomial::variance", "src/multivariate/multinomial.rs::Multinomial::covariance", "src/multivariate/multinomial.rs::Multinomial::correlation"]}
{"id": "C147", "title": "Multivariate families agree with their one- and two-dimensional counterparts", "statement": "A one-dimensional MvNormal is the univariate Normal; a two-dimensional MvNormal with zero covariance, PairedNormal and BvNormal with rho=0 share one density, the product of the univariate ones, and their moments; MvNormal in the plane and BvNormal draw the same points from the same random source; the first coordinate of Dirichlet(a,b) is Beta(a,b); a one-dimensional MvLogNormal has the moments of LogNormal.", "quantifier": "all means, positive variances, correlations in (-1,1), all points and all random sources; LAPACK assumed to meet its specification", "why_tests_cant": "continuum of parameters and points; linear algebra", "anchors": ["src/normal/multivariate.rs", "src/normal/univariate.rs::UvNormal::new", "src/normal/univariate.rs::UvNormal::pdf", "src/normal/univariate.rs::UvNormal::z", "src/normal/univariate.rs::UvNormal::mean", "src/normal/univariate.rs::UvNormal::variance", "src/normal/univariate.rs::UvNormal::shannon_entropy", "src/normal/paired.rs::PairedNormal::new", "src/normal/bivariate.rs::BvNormal::new", "src/normal/paired.rs::PairedNormal::pdf", "src/normal/bivariate.rs::BvNormal::pdf", "src/normal/paired.rs::PairedNormal::covariance", "src/normal/bivariate.rs::BvNormal::covariance", "src/normal/bivariate.rs::BvNormal::correlation", "src/normal/paired.rs::PairedNormal::correlation", "src/normal/paired.rs::PairedNormal::mean", "src/normal/paired.rs::PairedNormal::variance", "src/normal/bivariate.rs::BvNormal::mean", "src/normal/bivariate.rs::BvNormal::variance", "src/normal/bivariate.rs::BvNormal::sample", "src/univariate/beta.rs::Beta::new", "src/multivariate/dirichlet.rs::Dirichlet::new_unchecked", "src/multivariate/dirichlet.rs::Dirichlet::pdf", "src/univariate/beta.rs::Beta::pdf", "src/multivariate/dirichlet.rs::Dirichlet::mean", "src/univariate/beta.rs::Beta::mean", "src/multivariate/dirichlet.rs::Dirichlet::variance", "src/univariate/beta.rs::Beta::variance", "src/multivariate/lognormal.rs::LogNormal::isotropic", "src/univariate/lognormal.rs::LogNormal::new", "src/multivariate/lognormal.rs::LogNormal::mean", "src/univariate/lognormal.rs::LogNormal::mean", "src/multivariate/lognormal.rs::LogNormal::variance", "src/univariate/lognormal.rs::LogNormal::variance", "src/multivariate/lognormal.rs::LogNormal::covariance"]}
{"id": "C148", "title": "Order of the reported mode, median and mean", "statement": "For Beta with both shapes above one (and at least 1e-7 apart), Exponential, Rayleigh, Pareto with shape above one, and chi squared, modes() reports one mode and mode < median() < mean() (reversed for Beta when alpha > beta); Gumbel's median lies strictly between its location and location + scale.", "quantifier": "all accepted parameters of the named families in the stated ranges", "why_tests_cant": "continuum of parameters", "anchors": ["src/univariate/beta.rs::Beta::new", "src/univariate/beta.rs::Beta::median", "src/univariate/beta.rs::Beta::modes", "src/univariate/beta.rs::Beta::mean", "src/univariate/exponential.rs::Exponential::new", "src/univariate/exponential.rs::Exponential::modes", "src/univariate/exponential.rs::Exponential::median", "src/univariate/exponential.rs::Exponential::mean", "src/univariate/exponential.rs::Exponential::variance", "src/univariate/rayleigh.rs::Rayleigh::new", "src/univariate/rayleigh.rs::Rayleigh::modes", "src/univariate/rayleigh.rs::Rayleigh::median", "src/univariate/rayleigh.rs::Rayleigh::mean", "src/univariate/gumbel.rs::Gumbel::new", "src/univariate/gumbel.rs::Gumbel::modes", "src/univariate/gumbel.rs::Gumbel::median", "src/univariate/pareto.rs::Pareto::new", "src/univariate/pareto.rs::Pareto::modes", "src/univariate/pareto.rs::Pareto::median", "src/univariate/pareto.rs::Pareto::mean", "src/univariate/chi_sq.rs::ChiSq::new", "src/univariate/chi_sq.rs::ChiSq::modes", "src/univariate/chi_sq.rs::ChiSq::median", "src/univariate/chi_sq.rs::ChiSq::mean"]}
{"id": "C149", "title": "Discrete masses and distribution functions in doubles", "statement": "In IEEE double arithmetic: Uniform<i64> gives a valid probability from pmf and cdf at every integer, cdf never decreases and is exactly 1 at the upper end; Geometric gives valid, non-increasing masses bounded by p for k < 2^31 and a valid, non-decreasing cdf; Categorical's cdf starts at 0, never decreases and ends at a valid probability near 1.", "quantifier": "all accepted parameters, all integer arguments, all libm implementations whose powi maps [0,1] to [0,1] and is antitone in the exponent", "why_tests_cant": "rounding for every parameter in a 2^64-sized range and every integer argument", "anchors": ["src/univariate/uniform.rs::Uniform<i64>::new", "src/univariate/uniform.rs::Uniform<i64>::pmf", "src/univariate/uniform.rs::Uniform<i64>::cdf", "src/univariate/geometric.rs::Geometric::new", "src/univariate/geometric.rs::Geometric::pmf", "src/univariate/geometric.rs::Geometric::cdf", "src/univariate/categorical.rs::Categorical::new", "src/univariate/categorical.rs::Categorical::cdf"]}
{"id": "C150", "title": "The printed form of a distribution determines it", "statement": "to_string() of a distribution is its name followed by the constructor's arguments in order, and two successful constructor calls, of the same or of different distribution types, whose results print the same text are the same call with the same arguments.", "quantifier": "all constructor calls of the univariate distributions, PairedNormal, Categorical, Multinomial, Dirichlet and isotropic multivariate LogNormal on doubles and integers; all formatters of doubles that are injective and print no punctuation", "why_tests_cant": "every pair of constructor calls over all doubles and integers", "anchors": ["src/univariate/gamma.rs", "src/univariate/uniform.rs::Uniform<i64>::new", "src/multivariate/dirichlet.rs::Dirichlet::from", "src/multivariate/lognormal.rs::LogNormal::isotropic", "src/univariate/uniform.rs::Uniform<f64>::new", "src/univariate/arcsine.rs::Arcsine::new", "src/univariate/triangular.rs::Triangular::new", "src/univariate/lognormal.rs::LogNormal::new", "src/normal/bivariate.rs::BvNormal::new", "src/univariate/folded_normal.rs::FoldedNormal::new", "src/univariate/degenerate.rs::Degenerate<f64>::new", "src/univariate/degenerate.rs::Degenerate<i64>::new", "src/univariate/gamma.rs::Display for Gamma", "src/univariate/categorical.rs::Display for Categorical", "src/normal/paired.rs::Display for PairedNormal", "src/multivariate/dirichlet.rs::Display for Dirichlet"]}
{"id": "C151", "title": "Error messages identify the failed constraint and value", "statement": "to_string() of a constraint determines the constraint, and to_string() of an UnsatisfiedConstraintError determines constraint, target and value. When check fails, the message quotes the value given and a part of the constraint that this value violates; when a constructor fails, the message quotes the first inadmissible argument with the requirement of its kind; a rejected weight vector is reported by its first invalid entry or, if all entries are valid, in full; convolve_many with fewer than two distributions says that n must be greater than 1.", "quantifier": "all constraint expressions built from the crate's constraints, all values, all constructor argument tuples, all weight vectors; all formatters of doubles that are injective, print no punctuation and never print an integer's text", "why_tests_cant": "unbounded constraint expressions and all doubles", "anchors": ["src/params/constraints.rs::Display for UnsatisfiedConstraintError", "src/params/constraints.rs::Display for And", "src/params/constraints.rs::Constraint::check", "src/params/mod.rs::params!", "src/probability.rs::InvalidSimplexError", "src/lib.rs::Convolution::convolve_many"]}
{"id": "C152", "title": "In double arithmetic a reported variance is a number at least 0", "statement": "For every distribution built from finite double parameters, every variance the crate returns in double arithmetic is at least 0 and not NaN (it may be +infinity on overflow), so its square root, the standard deviation, is a number too.", "quantifier": "all finite double parameters accepted by the constructors and all u64 counts, with the platform's exp and powi abstract", "why_tests_cant": "the claim ranges over all pairs and triples of doubles, including subnormal parameters and parameters whose intermediate products overflow or cancel", "anchors": ["src/univariate/uniform.rs: variance", "src/univariate/beta.rs: variance", "src/univariate/triangular.rs: variance", "src/univariate/lognormal.rs: variance", "src/univariate/gpd.rs: variance", "src/univariate/beta_binomial.rs: variance", "src/univariate/f_dist.rs: variance", "src/statistics.rs: UvMoments::variance, standard_deviation", "src/univariate/uniform.rs::Uniform<f64>::new", "src/univariate/uniform.rs::Uniform<f64>::variance", "src/univariate/exponential.rs::Exponential::new", "src/univariate/exponential.rs::Exponential::variance", "src/univariate/logistic.rs::Logistic::new", "src/univariate/logistic.rs::Logistic::variance", "src/univariate/gumbel.rs::Gumbel::new", "src/univariate/gumbel.rs::Gumbel::variance", "src/univariate/arcsine.rs::Arcsine::new", "src/univariate/arcsine.rs::Arcsine::variance", "src/univariate/cosine.rs::Cosine::new", "src/univariate/cosine.rs::Cosine::variance", "src/univariate/laplace.rs::Laplace::new", "src/univariate/laplace.rs::Laplace::variance", "src/univariate/rayleigh.rs::Rayleigh::new", "src/univariate/rayleigh.rs::Rayleigh::variance", "src/normal/univariate.rs::UvNormal::new", "src/normal/univariate.rs::UvNormal::variance", "src/univariate/gamma.rs::Gamma::new", "src/univariate/gamma.rs::Gamma::variance", "src/univariate/inverse_normal.rs::InvNormal::new", "src/univariate/inverse_normal.rs::InvNormal::variance", "src/univariate/pareto.rs::Pareto::new", "src/univariate/pareto.rs::Pareto::variance", "src/univariate/inverse_gamma.rs::InvGamma::new", "src/univariate/inverse_gamma.rs::InvGamma::variance", "src/univariate/beta_prime.rs::BetaPrime::new", "src/univariate/beta_prime.rs::BetaPrime::variance", "src/univariate/student_t.rs::StudentT::new", "src/univariate/student_t.rs::StudentT::variance", "src/univariate/erlang.rs::Erlang::new", "src/univariate/erlang.rs::Erlang::variance", "src/univariate/chi_sq.rs::ChiSq::new", "src/univariate/chi_sq.rs::ChiSq::variance", "src/univariate/f_dist.rs::FDist::new", "src/univariate/f_dist.rs::FDist::variance", "src/univariate/uniform.rs::Uniform<i64>::new", "src/univariate/uniform.rs::Uniform<i64>::variance", "src/univariate/bernoulli.rs::Bernoulli::new", "src/univariate/bernoulli.rs::Bernoulli::variance"]}
{"id": "C153", "title": "In double arithmetic a reported mean is a number within the range of the distribution", "statement": "For every distribution built from finite double parameters, the mean the crate returns in double arithmetic is a number (not NaN) that lies between the ends of the distribution's support, also when intermediate sums or quotients round, underflow or overflow.", "quantifier": "all finite double parameters accepted by the constructors and all u64 counts", "why_tests_cant": "rounding can push a computed mean outside the support for rare bit patterns only (see the Pareto witness); no finite set of tests excludes that", "anchors": ["src/univariate/uniform.rs: mean, median", "src/univariate/arcsine.rs: mean", "src/univariate/beta.rs: mean", "src/univariate/beta_binomial.rs: mean", "src/univariate/binomial.rs: mean", "src/univariate/pareto.rs: mean", "src/univariate/geometric.rs: mean", "src/univariate/f_dist.rs: mean", "src/univariate/gumbel.rs: mean", "src/univariate/uniform.rs::Uniform<f64>::new", "src/univariate/uniform.rs::Uniform<f64>::mean", "src/univariate/uniform.rs::Uniform<f64>::median", "src/univariate/arcsine.rs::Arcsine::new", "src/univariate/arcsine.rs::Arcsine::mean", "src/univariate/beta.rs::Beta::new", "src/univariate/beta.rs::Beta::mean", "src/univariate/bernoulli.rs::Bernoulli::new", "src/univariate/bernoulli.rs::Bernoulli::mean", "src/univariate/binomial.rs::Binomial::new", "src/univariate/binomial.rs::Binomial::mean", "src/univariate/beta_binomial.rs::BetaBinomial::new", "src/univariate/beta_binomial.rs::BetaBinomial::mean", "src/univariate/exponential.rs::Exponential::new", "src/univariate/exponential.rs::Exponential::mean", "src/univariate/gamma.rs::Gamma::new", "src/univariate/gamma.rs::Gamma::mean", "src/univariate/erlang.rs::Erlang::new", "src/univariate/erlang.rs::Erlang::mean", "src/univariate/rayleigh.rs::Rayleigh::new", "src/univariate/rayleigh.rs::Rayleigh::mean", "src/univariate/inverse_gamma.rs::InvGamma::new", "src/univariate/inverse_gamma.rs::InvGamma::mean", "src/univariate/beta_prime.rs::BetaPrime::new", "src/univariate/beta_prime.rs::BetaPrime::mean", "src/univariate/poisson.rs::Poisson::new", "src/univariate/poisson.rs::Poisson::mean", "src/univariate/f_dist.rs::FDist::new", "src/univariate/f_dist.rs::FDist::mean", "src/univariate/lognormal.rs::LogNormal::new", "src/univariate/lognormal.rs::LogNormal::mean", "src/univariate/gumbel.rs::Gumbel::new", "src/univariate/gumbel.rs::Gumbel::mean", "src/univariate/pareto.rs::Pareto::new", "src/univariate/pareto.rs::Pareto::mean", "src/univariate/geometric.rs::Geometric::new", "src/univariate/geometric.rs::Geometric::mean"]}
{"id": "C154", "title": "Every way of building a distribution and reading its parameters agrees, also for vectors and pairs", "statement": "For the multivariate normal and log-normal (general, diagonal, isotropic, homogeneous, standard), the paired and bivariate normals, Multinomial, Kumaraswamy, Weibull and Degenerate: whenever the checked constructor succeeds, the unchecked constructor, From<Params> and params describe the same distribution with exactly the arguments given. The normal's z, precision and width are (x - mu)/sd, 1/variance and 2/variance; a Bernoulli's log_pmf is the logarithm of its mass.", "quantifier": "all dimensions, all arguments, every scalar arithmetic", "why_tests_cant": "a swapped or dropped argument in one of some thirty constructors shows up only for arguments that tell the two apart, in every dimension", "anchors": ["src/normal/multivariate.rs", "src/normal/univariate.rs", "src/multivariate/lognormal.rs::LogNormal::new", "src/multivariate/lognormal.rs::LogNormal::new_unchecked", "src/multivariate/lognormal.rs::LogNormal::from", "src/multivariate/lognormal.rs::LogNormal::params", "src/multivariate/lognormal.rs::LogNormal::diagonal", "src/multivariate/lognormal.rs::LogNormal::diagonal_unchecked", "src/multivariate/lognormal.rs::LogNormal::isotropic", "src/multivariate/lognormal.rs::LogNormal::isotropic_unchecked", "src/multivariate/lognormal.rs::LogNormal::homogeneous", "src/multivariate/lognormal.rs::LogNormal::homogeneous_unchecked", "src/multivariate/lognormal.rs::LogNormal::standard", "src/multivariate/lognormal.rs::LogNormal::standard_unchecked", "src/normal/paired.rs::PairedNormal::new", "src/normal/paired.rs::PairedNormal::new_unchecked", "src/normal/paired.rs::PairedNormal::from", "src/normal/paired.rs::PairedNormal::params", "src/normal/paired.rs::PairedNormal::isotropic", "src/normal/paired.rs::PairedNormal::isotropic_unchecked", "src/normal/bivariate.rs::BvNormal::new", "src/normal/bivariate.rs::BvNormal::new_unchecked", "src/normal/bivariate.rs::BvNormal::from", "src/normal/bivariate.rs::BvNormal::params", "src/normal/bivariate.rs::BvNormal::independent", "src/normal/bivariate.rs::BvNormal::independent_unchecked", "src/normal/bivariate.rs::BvNormal::isotropic", "src/normal/bivariate.rs::BvNormal::isotropic_unchecked", "src/multivariate/multinomial.rs::Multinomial::new", "src/multivariate/multinomial.rs::Multinomial::new_unchecked", "src/multivariate/multinomial.rs::Multinomial::from", "src/multivariate/multinomial.rs::Multinomial::params", "src/univariate/kumaraswamy.rs::Kumaraswamy::params", "src/univariate/kumaraswamy.rs::Kumaraswamy::from", "src/univariate/weibull.rs::Weibull::params", "src/univariate/weibull.rs::Weibull::from", "src/univariate/degenerate.rs::Degenerate<f64>::params", "src/univariate/degenerate.rs::Degenerate<f64>::new", "src/univariate/degenerate.rs::Degenerate<f64>::from", "src/univariate/degenerate.rs::Degenerate<i64>::params", "src/univariate/degenerate.rs::Degenerate<i64>::new", "src/univariate/degenerate.rs::Degenerate<i64>::from"]}
{"id": "C155", "title": "In double arithmetic every sample is a point of the support", "statement": "For every distribution built from finite double parameters, whatever uniform draw in [0,1] (or [-1/2,1/2), or finite normal draw) the generator supplies, the value sample returns is a finite number in the support of the distribution, and it grows with the draw where sampling is by inversion.", "quantifier": "all finite accepted double parameters, every draw including the end points of its interval", "why_tests_cant": "the failing draws (an end point, or a draw that makes a subtraction cancel) have probability about 2^-53 each, so sampling tests never meet them", "anchors": ["src/univariate/kumaraswamy.rs::Kumaraswamy::from", "src/univariate/kumaraswamy.rs::Kumaraswamy::sample", "src/univariate/frechet.rs::Frechet::new", "src/univariate/laplace.rs::Laplace::new", "src/univariate/inverse_normal.rs::InvNormal::new", "src/normal/paired.rs::PairedNormal::new", "src/normal/bivariate.rs::BvNormal::new", "src/normal/paired.rs::PairedNormal::sample", "src/normal/bivariate.rs::BvNormal::sample"]}
{"id": "C156", "title": "Distribution functions built on special functions stay probabilities in double arithmetic", "statement": "In IEEE double arithmetic, and assuming of the external special functions only their ranges and monotonicity on doubles, the distribution functions of Beta, Gamma, Chi, chi-squared, inverse gamma, folded normal, Levy, beta prime and F return a probability (a number in [0, 1]) at every argument of their support for which no intermediate overflow occurs, and where they are built monotonically they never decrease. Where that fails is exhibited: beta prime's cdf decreases between two adjacent doubles, F hands NaN to the incomplete beta function when d1*x overflows, Gamma's cdf is zero or NaN everywhere once gamma of the shape overflows, and Levy(0, c).cdf(-0.0) is 2.", "quantifier": "every finite double parameter accepted by the constructor, every double argument of the support, every implementation of the special functions meeting the stated range and monotonicity assumptions", "why_tests_cant": "rounding, overflow and signed zeros at every double for every parameter and every implementation of the special functions", "anchors": ["src/univariate/beta.rs: cdf", "src/univariate/beta_prime.rs: cdf", "src/univariate/f_dist.rs: cdf", "src/univariate/gamma.rs: cdf", "src/univariate/inverse_gamma.rs: cdf", "src/univariate/chi.rs: cdf", "src/univariate/chi_sq.rs: cdf", "src/univariate/levy.rs: cdf", "src/univariate/folded_normal.rs: cdf", "src/univariate/beta.rs::Beta::new", "src/univariate/beta.rs::Beta::cdf", "src/univariate/beta_prime.rs::BetaPrime::new", "src/univariate/beta_prime.rs::BetaPrime::cdf", "src/univariate/f_dist.rs::FDist::new", "src/univariate/f_dist.rs::FDist::cdf", "src/univariate/gamma.rs::Gamma::new", "src/univariate/gamma.rs::Gamma::cdf", "src/univariate/inverse_gamma.rs::InvGamma::new", "src/univariate/inverse_gamma.rs::InvGamma::cdf", "src/univariate/chi_sq.rs::ChiSq::new", "src/univariate/chi_sq.rs::ChiSq::cdf", "src/univariate/chi.rs::Chi::new", "src/univariate/chi.rs::Chi::cdf", "src/univariate/levy.rs::Levy::new", "src/univariate/levy.rs::Levy::cdf", "src/univariate/folded_normal.rs::FoldedNormal::new", "src/univariate/folded_normal.rs::FoldedNormal::cdf"]}
{"id": "C157", "title": "Reported modes maximise the density in double arithmetic", "statement": "In double arithmetic, with range-respecting monotone elementary functions, the reported mode of a Normal, Exponential, Cauchy (scale at least 2^-1022), Pareto (away from overflow/underflow), Student-t, Cosine and Geometric distribution is a point whose computed density no other double (or integer below 2^31) exceeds. For Logistic (correctly rounded exp), Laplace, tiny-scale Cauchy and overflowing Pareto this is false.", "quantifier": "every accepted finite parameter and every double in the domain", "why_tests_cant": "Rounding could make a neighbour of the mode come out larger; whether it does can only be settled for all 2^64 doubles at once, and for logistic it really happens.", "anchors": ["src/univariate/cauchy.rs: pdf, modes", "src/univariate/exponential.rs: pdf, modes", "src/univariate/pareto.rs: pdf, modes", "src/univariate/student_t.rs: pdf, modes", "src/univariate/cosine.rs: pdf, modes", "src/univariate/geometric.rs: pmf, modes", "src/univariate/logistic.rs: pdf, modes", "src/normal/univariate.rs: pdf, modes", "src/normal/univariate.rs::UvNormal::new", "src/normal/univariate.rs::UvNormal::pdf", "src/normal/univariate.rs::UvNormal::modes", "src/univariate/exponential.rs::Exponential::new", "src/univariate/exponential.rs::Exponential::pdf", "src/univariate/exponential.rs::Exponential::modes", "src/univariate/cauchy.rs::Cauchy::new", "src/univariate/cauchy.rs::Cauchy::pdf", "src/univariate/cauchy.rs::Cauchy::modes", "src/univariate/pareto.rs::Pareto::new", "src/univariate/pareto.rs::Pareto::pdf", "src/univariate/pareto.rs::Pareto::modes", "src/univariate/student_t.rs::StudentT::new", "src/univariate/student_t.rs::StudentT::pdf", "src/univariate/student_t.rs::StudentT::modes", "src/univariate/cosine.rs::Cosine::new", "src/univariate/cosine.rs::Cosine::pdf", "src/univariate/cosine.rs::Cosine::modes", "src/univariate/geometric.rs::Geometric::new", "src/univariate/geometric.rs::Geometric::modes", "src/univariate/geometric.rs::Geometric::pmf", "src/univariate/logistic.rs::Logistic::new", "src/univariate/logistic.rs::Logistic::modes", "src/univariate/logistic.rs::Logistic::pdf", "src/univariate/laplace.rs::Laplace::new", "src/univariate/laplace.rs::Laplace::modes", "src/univariate/laplace.rs::Laplace::pdf"]}
{"id": "C158", "title": "Remaining accessors, conversions, standard distributions and display texts", "statement": "Erlang's mu is the reciprocal of the rate and its mean is k of it; a LogNormal made from a Normal is the one its constructors return, with that Normal's parameters, and its density is the Normal's at the logarithms; the diagonal of a LogNormal correlation is 1; standard and default two-dimensional normals have zero mean, unit variance and no correlation; the median of Beta is the stated function of the shapes and panics outside its four cases; Uniform, Arcsine, Triangular, LogNormal, FoldedNormal, Degenerate and bivariate normal print their name and the values computed from the arguments.", "quantifier": "all parameters, vectors of every length, every number formatter", "why_tests_cant": "a continuum of parameters, vectors of unbounded length and every formatter", "anchors": ["src/univariate/erlang.rs: mu", "src/univariate/beta.rs: median", "src/univariate/uniform.rs: Display", "src/univariate/arcsine.rs: Display", "src/univariate/triangular.rs: Display", "src/multivariate/lognormal.rs: From<Normal>, correlation", "src/normal/paired.rs: standard", "src/normal/bivariate.rs: standard", "src/univariate/erlang.rs::Erlang::new", "src/univariate/erlang.rs::Erlang::mu", "src/univariate/erlang.rs::Erlang::mean", "src/multivariate/lognormal.rs::LogNormal::new", "src/multivariate/lognormal.rs::LogNormal::diagonal", "src/multivariate/lognormal.rs::LogNormal::isotropic", "src/multivariate/lognormal.rs::LogNormal::params", "src/multivariate/lognormal.rs::LogNormal::support", "src/multivariate/lognormal.rs::LogNormal::pdf", "src/multivariate/lognormal.rs::LogNormal::correlation", "src/normal/paired.rs::PairedNormal::standard", "src/normal/bivariate.rs::BvNormal::standard", "src/normal/paired.rs::PairedNormal::default", "src/normal/bivariate.rs::BvNormal::default", "src/normal/paired.rs::PairedNormal::mean", "src/normal/paired.rs::PairedNormal::covariance", "src/normal/bivariate.rs::BvNormal::mean", "src/normal/bivariate.rs::BvNormal::covariance", "src/normal/bivariate.rs::BvNormal::correlation", "src/normal/paired.rs::PairedNormal::new", "src/normal/bivariate.rs::BvNormal::new", "src/univariate/beta.rs::Beta::new", "src/univariate/beta.rs::Beta::median", "src/univariate/poisson.rs::Poisson::new", "src/univariate/poisson.rs::Poisson::support", "src/univariate/uniform.rs::Uniform<f64>::new", "src/univariate/arcsine.rs::Arcsine::new", "src/univariate/triangular.rs::Triangular::new", "src/univariate/lognormal.rs::LogNormal::new", "src/univariate/lognormal.rs::LogNormal::variance", "src/univariate/folded_normal.rs::FoldedNormal::new", "src/univariate/folded_normal.rs::FoldedNormal::variance", "src/univariate/degenerate.rs::Degenerate<i64>::new", "src/univariate/degenerate.rs::Degenerate<f64>::new"]}
{"id": "C159", "title": "Densities are exactly symmetric in double arithmetic", "statement": "At two doubles the same distance from the location on its two sides, Normal, Cauchy and cosine (for an even cos) return the same double; so do Student's t and the folded normal at x and -x, Uniform, arcsine and the symmetric triangular at points whose real sum is that of the stored end points, and Beta(a,b) at x and Beta(b,a) at 1-x for a symmetric beta function. The logistic should too.", "quantifier": "all doubles (the infinities and both zeros included where the location is 0), all accepted parameters, every libm", "why_tests_cant": "rounding of every operation at every pair of reflected doubles", "anchors": ["src/univariate/cauchy.rs: pdf", "src/univariate/cosine.rs: pdf", "src/univariate/student_t.rs: pdf", "src/univariate/folded_normal.rs: pdf", "src/univariate/arcsine.rs: pdf", "src/univariate/triangular.rs: pdf", "src/univariate/beta.rs: pdf", "src/univariate/uniform.rs: pdf", "src/univariate/logistic.rs: pdf", "src/normal/univariate.rs: pdf", "src/normal/univariate.rs::UvNormal::new", "src/normal/univariate.rs::UvNormal::pdf", "src/univariate/cauchy.rs::Cauchy::new", "src/univariate/cauchy.rs::Cauchy::pdf", "src/univariate/cosine.rs::Cosine::new", "src/univariate/cosine.rs::Cosine::pdf", "src/univariate/student_t.rs::StudentT::new", "src/univariate/student_t.rs::StudentT::pdf", "src/univariate/folded_normal.rs::FoldedNormal::new", "src/univariate/folded_normal.rs::FoldedNormal::pdf", "src/univariate/uniform.rs::Uniform<f64>::new", "src/univariate/uniform.rs::Uniform<f64>::pdf", "src/univariate/arcsine.rs::Arcsine::new", "src/univariate/arcsine.rs::Arcsine::b", "src/univariate/arcsine.rs::Arcsine::pdf", "src/univariate/triangular.rs::Triangular::new", "src/univariate/triangular.rs::Triangular::c", "src/univariate/triangular.rs::Triangular::b", "src/univariate/triangular.rs::Triangular::pdf", "src/univariate/beta.rs::Beta::new", "src/univariate/beta.rs::Beta::pdf", "src/univariate/logistic.rs::Logistic::new", "src/univariate/logistic.rs::Logistic::pdf"]}
{"id": "C160", "title": "Convolution in double arithmetic: validity, commutativity, and when the order of many is irrelevant", "statement": "For any two constructed Normal, Cauchy or Poisson distributions with double parameters, convolve returns Ok, the result passes the constructor, and both orders give the same double for every parameter; Gamma returns Ok exactly when the two shapes are the same double and Gamma + Exponential exactly when the rates are, Binomial with a shared probability returns Ok unless the counts overflow, and the results pass the constructors. Convolving many Poissons with whole-number rates of total at most 2^53 is exact, so their order does not matter.", "quantifier": "all double parameters (infinities and NaN locations included), all lists of whole-number rates, all permutations", "why_tests_cant": "rounding of every pair of doubles; every list and every order", "anchors": ["src/normal/univariate.rs: convolve", "src/univariate/cauchy.rs: convolve", "src/univariate/poisson.rs: convolve", "src/univariate/gamma.rs: convolve", "src/univariate/binomial.rs: convolve", "src/univariate/bernoulli.rs: convolve", "src/lib.rs: convolve_many", "src/normal/univariate.rs::UvNormal::new", "src/normal/univariate.rs::UvNormal::convolve", "src/univariate/cauchy.rs::Cauchy::new", "src/univariate/cauchy.rs::Cauchy::convolve", "src/univariate/poisson.rs::Poisson::new", "src/univariate/poisson.rs::Poisson::convolve", "src/univariate/gamma.rs::Gamma::new", "src/univariate/gamma.rs::Gamma::convolve", "src/univariate/exponential.rs::Exponential::new", "src/univariate/poisson.rs::Poisson::new_unchecked", "src/univariate/poisson.rs::Poisson::mean", "src/normal/univariate.rs::UvNormal::mean", "src/univariate/binomial.rs::Binomial::new", "src/univariate/binomial.rs::Binomial::convolve", "src/univariate/bernoulli.rs::Bernoulli::new", "src/univariate/bernoulli.rs::Bernoulli::convolve"]}
{"id": "C161", "title": "Mixtures in doubles: distribution function, density and moments", "statement": "For a mixture accepted by Mixture::new over double-precision components: if the components' probabilities at x are valid, cdf(x) is a finite double between 0 and the double sum of the weights (0 where all components are 0, that sum where all are 1), never above 1 + 1e-5, a valid probability when the weights do not sum to more than 1, and never decreasing where the components' are not; a mixture of nonnegative finite densities is a nonnegative number; mean and variance are finite for components of moderate size, and the variance is never negative.", "quantifier": "every accepted weight vector (any length) and every component type, in doubles", "why_tests_cant": "rounding in sums of any length; the variance is a difference of two rounded sums and goes negative only for particular weights and means", "anchors": ["src/mixture.rs: cdf", "src/mixture.rs: pdf", "src/mixture.rs: mean", "src/mixture.rs: variance", "src/probability.rs: SimplexVector::new", "src/mixture.rs::Mixture::new", "src/mixture.rs::Mixture::cdf", "src/mixture.rs::Mixture::pdf", "src/mixture.rs::Mixture::mean", "src/mixture.rs::Mixture::variance"]}
{"id": "C162", "title": "Quantiles and medians in doubles", "statement": "In doubles, given a libm that keeps its ranges: the quantiles of Uniform, Normal (for a monotone inverse of the standard normal cdf) and Cauchy (for a tan that is monotone on the doubles within pi/2) are numbers for every probability and never decrease, and Uniform's stays between the bounds. The medians of Exponential, Gumbel, Rayleigh, Weibull, Kumaraswamy, Pareto, LogNormal and GPD are numbers on the support (from the location or zero upwards; at most 1 for Kumaraswamy). Exponential's quantiles are also at least zero, and GPD's median stays above the location for every shape.", "quantifier": "all double parameters accepted by the constructors, all probabilities, any libm that keeps its ranges", "why_tests_cant": "rounding, overflow and underflow at every extreme of the parameters; tests try a handful of round values", "anchors": ["src/univariate/uniform.rs: quantile", "src/normal/univariate.rs: quantile", "src/univariate/cauchy.rs: quantile", "src/univariate/exponential.rs: quantile, median", "src/univariate/gpd.rs: median", "src/univariate/uniform.rs::Uniform<f64>::new", "src/univariate/uniform.rs::Uniform<f64>::quantile", "src/normal/univariate.rs::UvNormal::new", "src/normal/univariate.rs::UvNormal::quantile", "src/univariate/cauchy.rs::Cauchy::new", "src/univariate/cauchy.rs::Cauchy::quantile", "src/univariate/exponential.rs::Exponential::new", "src/univariate/exponential.rs::Exponential::quantile", "src/univariate/exponential.rs::Exponential::median", "src/univariate/gumbel.rs::Gumbel::new", "src/univariate/gumbel.rs::Gumbel::median", "src/univariate/rayleigh.rs::Rayleigh::new", "src/univariate/rayleigh.rs::Rayleigh::median", "src/univariate/weibull.rs::Weibull::median", "src/univariate/weibull.rs::Weibull::from", "src/univariate/kumaraswamy.rs::Kumaraswamy::median", "src/univariate/kumaraswamy.rs::Kumaraswamy::from", "src/univariate/pareto.rs::Pareto::new", "src/univariate/pareto.rs::Pareto::median", "src/univariate/lognormal.rs::LogNormal::new", "src/univariate/lognormal.rs::LogNormal::median", "src/univariate/gpd.rs::GeneralisedPareto::new", "src/univariate/gpd.rs::GeneralisedPareto::median"]}
{"id": "C163", "title": "Computed moments are accurate to a few units in the last place", "statement": "For parameters between 2^-100 and 2^100 (counts up to 2^52), the double returned by mean, variance, skewness, kurtosis, precision or modes is finite and differs from the closed formula by at most k times 2^-52 relatively, with k the number of roundings (1 to 12): Uniform, Exponential, Logistic, Gumbel, Arcsine, Laplace, Rayleigh, Normal, Folded Normal, Poisson, Gamma, Beta, inverse Gamma, beta prime, Pareto, inverse Gaussian, Student t, Erlang, chi-squared, F, Binomial, Bernoulli, Geometric, Triangular and beta-binomial; so are the constants derived from pi.", "quantifier": "all double parameters between 2^-100 and 2^100, all counts up to 2^52", "why_tests_cant": "cancellation destroys accuracy only at special parameters; sampling parameters cannot bound the worst relative error", "anchors": ["src/univariate/gamma.rs: mean, variance, skewness, modes", "src/univariate/beta.rs: mean, variance", "src/univariate/pareto.rs: mean, variance", "src/univariate/f_dist.rs: mean, variance", "src/univariate/triangular.rs: variance", "src/univariate/beta_binomial.rs: mean, variance", "src/consts.rs: PI2, TWO_OVER_PI2", "src/univariate/uniform.rs::Uniform<f64>::new", "src/univariate/uniform.rs::Uniform<f64>::variance", "src/univariate/exponential.rs::Exponential::new", "src/univariate/exponential.rs::Exponential::mean", "src/univariate/exponential.rs::Exponential::variance", "src/univariate/logistic.rs::Logistic::new", "src/univariate/logistic.rs::Logistic::variance", "src/univariate/gumbel.rs::Gumbel::new", "src/univariate/gumbel.rs::Gumbel::variance", "src/univariate/arcsine.rs::Arcsine::new", "src/univariate/arcsine.rs::Arcsine::variance", "src/univariate/laplace.rs::Laplace::new", "src/univariate/laplace.rs::Laplace::variance", "src/univariate/rayleigh.rs::Rayleigh::new", "src/univariate/rayleigh.rs::Rayleigh::mean", "src/normal/univariate.rs::UvNormal::new", "src/normal/univariate.rs::UvNormal::precision", "src/univariate/folded_normal.rs::FoldedNormal::new", "src/univariate/folded_normal.rs::FoldedNormal::precision", "src/univariate/poisson.rs::Poisson::new", "src/univariate/poisson.rs::Poisson::kurtosis", "src/univariate/gamma.rs::Gamma::new", "src/univariate/gamma.rs::Gamma::mean", "src/univariate/gamma.rs::Gamma::variance", "src/univariate/gamma.rs::Gamma::skewness", "src/univariate/gamma.rs::Gamma::excess_kurtosis", "src/univariate/gamma.rs::Gamma::modes", "src/univariate/beta.rs::Beta::new", "src/univariate/beta.rs::Beta::mean", "src/univariate/beta.rs::Beta::variance", "src/univariate/inverse_gamma.rs::InvGamma::new", "src/univariate/inverse_gamma.rs::InvGamma::mean", "src/univariate/inverse_gamma.rs::InvGamma::variance", "src/univariate/inverse_gamma.rs::InvGamma::skewness", "src/univariate/inverse_gamma.rs::InvGamma::modes", "src/univariate/beta_prime.rs::BetaPrime::new", "src/univariate/beta_prime.rs::BetaPrime::mean", "src/univariate/beta_prime.rs::BetaPrime::variance", "src/univariate/pareto.rs::Pareto::new", "src/univariate/pareto.rs::Pareto::mean"]}
{"id": "C164", "title": "Computed densities agree with the formulas to a bounded number of units in the last place", "statement": "In double precision, with exp and powf accurate to one unit of 2^-52, the returned density of Uniform, Cauchy, Exponential, Logistic, Gumbel, Normal, FoldedNormal, Rayleigh, Pareto and Weibull, and the returned cdf of Exponential, Logistic and Gumbel, differ from the textbook formula at the same doubles by at most a stated number of units of 2^-52 relatively, wherever the exponents stay below 32.", "quantifier": "every accurate libm, every scale and shape between 2^-100 and 2^100, every argument whose distance from the location lies in that range and whose exponent is at most 32", "why_tests_cant": "a test compares a few arguments with a tolerance; the rounding error of a formula is a bound over all pairs of doubles", "anchors": ["src/normal/univariate.rs: pdf", "src/univariate/folded_normal.rs: pdf", "src/univariate/cauchy.rs: pdf", "src/univariate/exponential.rs: pdf, cdf", "src/univariate/logistic.rs: pdf, cdf", "src/univariate/gumbel.rs: pdf, cdf", "src/univariate/rayleigh.rs: pdf", "src/univariate/pareto.rs: pdf", "src/univariate/weibull.rs: pdf", "src/univariate/uniform.rs::Uniform<f64>::new", "src/univariate/uniform.rs::Uniform<f64>::pdf", "src/univariate/cauchy.rs::Cauchy::new", "src/univariate/cauchy.rs::Cauchy::pdf", "src/univariate/exponential.rs::Exponential::new", "src/univariate/exponential.rs::Exponential::pdf", "src/univariate/logistic.rs::Logistic::new", "src/univariate/logistic.rs::Logistic::pdf", "src/univariate/logistic.rs::Logistic::cdf", "src/univariate/gumbel.rs::Gumbel::new", "src/univariate/gumbel.rs::Gumbel::cdf", "src/univariate/gumbel.rs::Gumbel::pdf", "src/normal/univariate.rs::UvNormal::new", "src/normal/univariate.rs::UvNormal::pdf", "src/univariate/folded_normal.rs::FoldedNormal::new", "src/univariate/folded_normal.rs::FoldedNormal::pdf", "src/univariate/rayleigh.rs::Rayleigh::new", "src/univariate/rayleigh.rs::Rayleigh::pdf", "src/univariate/pareto.rs::Pareto::new", "src/univariate/pareto.rs::Pareto::pdf", "src/univariate/weibull.rs::Weibull::pdf", "src/univariate/weibull.rs::Weibull::from", "src/univariate/exponential.rs::Exponential::cdf"]}
{"id": "C165", "title": "Computed densities that need a gamma or beta function are accurate to a bounded number of units", "statement": "For f64, with an exp, a pow, a gamma and a beta function that are within one unit of 2^-52 of the true value, and for arguments of ordinary magnitude, the density computed by pdf is within 143 units of 2^-52 of the textbook formula for Gamma and InvGamma, 203 for Beta and BetaPrime, 79 for ChiSq, 143 for Chi, 207 for StudentT with a whole number of degrees of freedom, 337 for FDist, 276 for Levy, 523 for the inverse Gaussian, 264 for Frechet (and 195 for its cdf), relatively.", "quantifier": "all parameters and arguments between 2^-100 and 2^100 whose exponents (such as |(a-1) ln x|) are at most 32, all conforming libms and special-function libraries", "why_tests_cant": "A test compares with a reference at a few points to a tolerance chosen by trial; the bound here holds for every argument in the region and explains which operation loses how much.", "anchors": ["src/univariate/gamma.rs: pdf", "src/univariate/inverse_gamma.rs: pdf", "src/univariate/beta.rs: pdf", "src/univariate/beta_prime.rs: pdf", "src/univariate/chi_sq.rs: pdf", "src/univariate/chi.rs: pdf", "src/univariate/student_t.rs: pdf", "src/univariate/f_dist.rs: pdf", "src/univariate/levy.rs: pdf", "src/univariate/inverse_normal.rs: pdf", "src/univariate/frechet.rs: pdf, cdf", "src/univariate/gamma.rs::Gamma::new", "src/univariate/gamma.rs::Gamma::pdf", "src/univariate/inverse_gamma.rs::InvGamma::new", "src/univariate/inverse_gamma.rs::InvGamma::pdf", "src/univariate/beta.rs::Beta::new", "src/univariate/beta.rs::Beta::pdf", "src/univariate/beta_prime.rs::BetaPrime::new", "src/univariate/beta_prime.rs::BetaPrime::pdf", "src/univariate/chi_sq.rs::ChiSq::new", "src/univariate/chi_sq.rs::ChiSq::pdf", "src/univariate/chi.rs::Chi::new", "src/univariate/chi.rs::Chi::pdf", "src/univariate/student_t.rs::StudentT::new", "src/univariate/student_t.rs::StudentT::pdf", "src/univariate/f_dist.rs::FDist::new", "src/univariate/f_dist.rs::FDist::pdf", "src/univariate/levy.rs::Levy::new", "src/univariate/levy.rs::Levy::pdf", "src/univariate/inverse_normal.rs::InvNormal::new", "src/univariate/inverse_normal.rs::InvNormal::pdf", "src/univariate/frechet.rs::Frechet::new", "src/univariate/frechet.rs::Frechet::cdf", "src/univariate/frechet.rs::Frechet::pdf"]}
{"id": "C166", "title": "The numerical constants are what their names say, and Bernoulli's median at one half is the midpoint", "statement": "Every constant the moments use (multiples and powers of pi, and the rational constants such as 21/5 or 19/360) is, in exact arithmetic, the number its name says, and in doubles every rational one is the nearest double; Bernoulli(p).median is 1/2 when p is within 1e-7 of 1/2, 0 below and 1 above.", "quantifier": "all constants of the crate; all p", "why_tests_cant": "A comparison to a few digits accepts a constant wrong in the last digits, and at p = 1/2 every value in [0,1] is a median, so a property-based test of the median definition cannot tell which is returned.", "anchors": ["src/consts.rs: all constants", "src/univariate/bernoulli.rs: median", "src/univariate/bernoulli.rs::Bernoulli::new", "src/univariate/bernoulli.rs::Bernoulli::median"]}
{"id": "C167", "title": "Computed binomial and geometric probabilities are accurate to about three units per trial", "statement": "For f64, with a powi that loses at most one unit of 2^-52 per factor (repeated squaring does), Binomial(n,p).pmf(k) is within 3n+5 units of 2^-52 of n!/(k!(n-k)!) p^k (1-p)^(n-k), and Geometric(p).pmf(k) within 3k+2 units of p (1-p)^k, relatively.", "quantifier": "all n <= 256, k <= n whose binomial coefficient is computable, every finite p strictly between 0 and 1 (down to the smallest double) whose powers stay above 2^-400, every conforming powi", "why_tests_cant": "Reference values at a few (n,p,k) say nothing about the growth of the error with n, and the rounding of 1-p is amplified by the exponent.", "anchors": ["src/univariate/binomial.rs: pmf", "src/univariate/geometric.rs: pmf", "src/utils.rs: choose", "src/univariate/binomial.rs::Binomial::new", "src/univariate/binomial.rs::Binomial::pmf", "src/univariate/geometric.rs::Geometric::new", "src/univariate/geometric.rs::Geometric::pmf"]}
{"id": "C168", "title": "A mixture is as accurate as its components", "statement": "For f64 and a mixture of n components with positive weights: if at a point the density (distribution function, mean) each component computes is within k units of 2^-52 of a positive real r_i, the mixture's pdf (cdf, mean) is within 2k+2+n units of the weighted sum of the r_i, relatively.", "quantifier": "any component type, all n <= 256, k <= 300, weights above 2^-100, reference values between 2^-300 and 2^300", "why_tests_cant": "A test fixes the components; the claim ranges over every component type and any number of them.", "anchors": ["src/mixture.rs: pdf, cdf, mean", "src/mixture.rs::Mixture::new", "src/mixture.rs::Mixture::pdf", "src/mixture.rs::Mixture::cdf", "src/mixture.rs::Mixture::mean"]}
{"id": "C169", "title": "Maximum-likelihood fits in double arithmetic", "statement": "Poisson.fit_mle on counts whose total is at most 2^53 (and at least one) succeeds and its rate is the double nearest to the sample mean; it is independent of the order of the sample; an empty or all-zero sample is refused. Normal.fit_mle on positive data of moderate size gives a mean within length + 2 units of 2^-52 of the sample mean, refuses a sample that repeats one value, and does not depend on the order of the sample.", "quantifier": "every list of counts (Poisson), every list of at most 256 doubles between 2^-100 and 2^100 (mean), every repeated whole number and every permutation", "why_tests_cant": "A unit test fits one short sample of small numbers, where no addition rounds; whether the sum, the division and the positivity check agree for every sample, order and magnitude is a statement about all lists of doubles.", "anchors": ["src/univariate/poisson.rs: fit_mle", "src/normal/univariate.rs: fit_mle", "src/univariate/poisson.rs::Poisson::fit_mle", "src/univariate/poisson.rs::Poisson::new", "src/univariate/poisson.rs::Poisson::mean", "src/normal/univariate.rs::UvNormal::fit_mle", "src/normal/univariate.rs::UvNormal::mean", "src/normal/univariate.rs::UvNormal::variance"]}
{"id": "C170", "title": "Standardised values, derived parameters and scores in double arithmetic", "statement": "The standardised value z of Cauchy, Logistic, Gumbel and Cosine is within 2 units of 2^-52 (relative) of (x - mu) / s, that of Normal within 3 of (x - mu) / sqrt(variance), on either side of mu. Normal precision and width, FoldedNormal precision, Cauchy fwhm and Erlang mu are within 1 or 2 units of their formulas. Poisson.score returns, without overflow, a double within 2 units of n + sum / lambda, and Bernoulli.score is within n + 2 units of the sum of 1/p over successes and 1/(1-p) over failures.", "quantifier": "every double location and argument at distance between 2^-100 and 2^100, every scale between 2^-100 and 2^100, every sample of counts with total at most 2^53, every sample of at most 256 booleans", "why_tests_cant": "Rounding, cancellation in x - mu and the accumulation of error over a sample depend on all the digits of the inputs; a test compares a few decimals at a few points.", "anchors": ["src/normal/univariate.rs: z, precision, width", "src/univariate/cauchy.rs: z, fwhm", "src/univariate/logistic.rs: z", "src/univariate/gumbel.rs: z", "src/univariate/cosine.rs: z", "src/univariate/folded_normal.rs: precision", "src/univariate/erlang.rs: mu", "src/univariate/poisson.rs: score", "src/univariate/bernoulli.rs: score", "src/univariate/cauchy.rs::Cauchy::new", "src/univariate/cauchy.rs::Cauchy::z", "src/univariate/logistic.rs::Logistic::new", "src/univariate/logistic.rs::Logistic::z", "src/univariate/gumbel.rs::Gumbel::new", "src/univariate/gumbel.rs::Gumbel::z", "src/univariate/cosine.rs::Cosine::new", "src/univariate/cosine.rs::Cosine::z", "src/normal/univariate.rs::UvNormal::new", "src/normal/univariate.rs::UvNormal::z", "src/univariate/cauchy.rs::Cauchy::fwhm", "src/normal/univariate.rs::UvNormal::precision", "src/normal/univariate.rs::UvNormal::width", "src/univariate/folded_normal.rs::FoldedNormal::new", "src/univariate/folded_normal.rs::FoldedNormal::precision", "src/univariate/erlang.rs::Erlang::new", "src/univariate/erlang.rs::Erlang::mu", "src/univariate/poisson.rs::Poisson::new", "src/univariate/poisson.rs::Poisson::score", "src/univariate/bernoulli.rs::Bernoulli::new", "src/univariate/bernoulli.rs::Bernoulli::score"]}
{"id": "C171", "title": "Log-likelihood and entropy of a coin in double arithmetic", "statement": "In doubles Bernoulli.log_pmf and Bernoulli.log_likelihood are numbers at most 0 for every valid parameter and every sample, -infinity as soon as the sample contains an outcome of parameter 0, and never NaN; Bernoulli.shannon_entropy is a finite number between 0 and 74. The entropy of Geometric should likewise be a number for every valid parameter.", "quantifier": "every parameter accepted by the constructor, every outcome, every sample of any length, every logarithm that is at most 0 on [0,1], -infinity at 0 and at least -37 from 2^-53 on", "why_tests_cant": "0 * ln 0 is NaN in IEEE arithmetic and a test of a few parameters inside (0,1) never meets it; whether the guard catches every parameter for which it could happen is a statement about all doubles.", "anchors": ["src/univariate/bernoulli.rs: shannon_entropy, log_likelihood", "src/univariate/geometric.rs: shannon_entropy", "src/univariate/bernoulli.rs::Bernoulli::new", "src/univariate/bernoulli.rs::Bernoulli::log_likelihood", "src/univariate/bernoulli.rs::Bernoulli::shannon_entropy", "src/univariate/geometric.rs::Geometric::new", "src/univariate/geometric.rs::Geometric::shannon_entropy"]}
