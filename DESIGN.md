# Formal model of tspooner/rstat in Rocq (Coq 8.16.1)

## 1. Approach

The Rust source in `/repo/src` is transcribed once, function by function, into Gallina (`theories/Model/*.v`),
over an abstract record of scalar operations `Scalar F` (one field per primitive double operation the code
uses; no laws).  The same transcription is then given two meanings:

* **`f64`** (`Num/F64.v`): IEEE-754 binary64 with round-to-nearest-even, Flocq's `BinarySingleNaN.binary_float 53 1024`.
  Used where rounding, NaN, infinities or validation matter (C01–C10, C12, C27, C48, C53, C73).
  libm functions (`exp`, `ln`, `sin` …) are an arbitrary oracle record: f64 theorems hold for every libm.
* **`xreal`** (`Num/XReal.v`): `Fin r | PInf | NInf | NaN`: exact real arithmetic with the IEEE special values but
  no rounding (x/0 = ±inf, 0/0 = NaN, sqrt(-1) = NaN, ln 0 = -inf …).  Used for the mathematical coherence
  properties (cdf/pdf/quantile/moments).  Because 1/0 is *not* totalised to 0, a theorem `cdf d x = Fin …`
  also says that no division by zero, NaN or overflow-to-infinity happens in exact arithmetic.

Rust control flow: `res A = Ret a | Panic | Diverge` (panic, and unbounded recursion of the mutually-defaulted trait
methods), `result A E = Ok | Err`.  Machine integers are `Z` with explicit checked arithmetic (overflow = `Panic`, i.e. the
debug/`overflow-checks` semantics) and explicit casts (`as i32` wraps, float→int saturates).  `&mut R: Rng` is
a state `S` with oracle draws (`Rng S F`: a unit uniform, a standard normal, a normal, a gamma variate …), returned
explicitly.  Arrays `[T; N]` are lists.

Layout of `rocq/theories`:

| dir | contents |
|---|---|
| `Num/` | `Scalar` record and its two instances, with their characterising lemmas |
| `Model/` | the transcription; every definition cites file:lines; no proofs |
| `Spec/` | small independent specifications (distribution function, density, moments as improper integrals, simplex …) |
| `Proofs/` | lemmas |
| `Properties/` | the property theorems, `Print Assumptions`, non-vacuity `Example`s |

## 2. What counts as a proof here

A theorem has the form: for every argument on which the public constructor `new` succeeds, the public methods of
the value returned satisfy a predicate from `Spec/`.  For properties that are **false of the code** the positive
statement stays in `properties.jsonl`; the development proves `…_refuted` (where possible for *every* parameter, or
as an exact characterisation of when the code is right, otherwise a concrete witness) and `…_partial` for the part
that does hold; MANIFEST status is then `partial`.  `seeded/LOG.jsonl` records the deliberately broken programs the
theorems were tested on.

## 3. Trusted base

* Coq 8.16.1's kernel.  Flocq and Coquelicot are used as *proved* libraries; no plugin, no `vm_compute`-external tool.
* Axioms: only the standard library's.  `ASSUMPTIONS.md` lists what `Print Assumptions` reports for each theorem; the
  union is `ClassicalDedekindReals.sig_forall_dec`, `ClassicalDedekindReals.sig_not_dec` (the standard library's real
  numbers), `FunctionalExtensionality.functional_extensionality_dep`, and `Classical_Prop.classic` (through Coquelicot).
  No axiom, `Admitted`, functor or module type is added here.
* The transcription (`Model/*.v`) is faithful to `/repo/src`; it was made by reading, not by running.

### Modelled

| source | model |
|---|---|
| `probability.rs` | `Model/Probability.v` (Probability operators, SimplexVector, sample_index) |
| `params/constraints.rs`, `params/*.rs`, the `params!` macro | `Model/Constraints.v`, `Model/Params.v` |
| `lib.rs`, `statistics.rs`, `fitting.rs`, `distance.rs` trait defaults | `Model/Traits.v` |
| `utils.rs`, `consts.rs` | `Model/Utils.v`, `Model/LogFact.v`, `Model/Consts.v`, `Model/Serde.v` |
| `univariate/*.rs` (all 36 files) | `Model/Continuous.v`, `Continuous2.v`, `Continuous3.v`, `Discrete.v`, `Samplers.v` |
| `normal/*.rs` | `Model/Continuous2.v` (UvNormal), `Normal2.v`, `Linalg.v`, `MvNormal.v` |
| `multivariate/*.rs` | `Model/Multivariate.v` |
| `Display` of the distributions, constraints and errors | `Model/Display.v`, `Model/ErrorText.v` |
| `mixture.rs` | `Model/Mixture.v`, generic in the component type |

### Not modelled, and what stands in

* Special functions of the crate `special_fun` (`gamma`, `loggamma`, `digamma`, `beta`, `betainc`, `gammainc`, `erf`, `hyp2f1` …): an
  oracle record `Special F`.  Theorems that need them assume, explicitly in their statement, that the oracle returns
  the mathematical function (`Spec/GammaSpec.v` …); an instance satisfying the assumption is constructed in the
  `Example`s, so the hypotheses are not vacuous.
* libm over f64: an arbitrary oracle.  BLAS/LAPACK: the class `Lapack` specified by `Spec/LapackSpec.v` (`lapack_ok`), with a
  proved instance (`Proofs/LapackInst.v`).
* `rand`, `rand_distr`: the generator is an arbitrary state machine; laws of samples are stated as the image of the
  law of the draws.  The samplers delegated to rand_distr are an oracle class (`RandDistr`, `Model/Samplers.v`) specified by the textbook densities
  (`Spec/RandSpec.v`, `rand_distr_ok`), with a proved instance by inversion (`Proofs/RandProofs3.v`).
* `spaces`: supports are symbolic (`Space`), with their membership defined in `Spec/`.
* `serde`: serializers and sequence accesses are arbitrary state machines.
* the text of a double (`{}`, `{:?}`): an oracle `Fmt`, assumed injective and free of punctuation, with a proved instance.  Debug of the error structs, backtraces, `ndarray` feature code: not modelled.
* Rounding: most theorems about the continuous families (cdf, pdf, moments) are about exact real arithmetic with IEEE special
  values.  What is proved about the same functions in double arithmetic is C133, C135 (cdf, pdf), C149 (discrete), C73, C27, and
  C01-C10, C138 (probabilities); moments and entropies are not analysed in doubles.


## 4. Plan and outcome per property

| id | title | modelled | proof | outcome |
|---|---|---|---|---|
| C01 | Probability::new accepts exactly [0,1] | `probability.rs` operators on f64 | Flocq correctness theorems, monotonicity of rounding, induction over operation sequences | proved |
| C02 | Checked Probability arithmetic can never leave [0,1] | `probability.rs` operators on f64 | Flocq correctness theorems, monotonicity of rounding, induction over operation sequences | proved: Includes exact rounded values of the unchecked operations. |
| C03 | Complement laws of Probability | `probability.rs` operators on f64 | Flocq correctness theorems, monotonicity of rounding, induction over operation sequences | proved: The involution is stated for p >= 1/2 as in the property; the _refuted theorem shows why the restriction is needed. |
| C04 | Checked +, -, /, % on probabilities fail exactly when the rounded result leaves [0,1] | `probability.rs` operators on f64 | Flocq correctness theorems, monotonicity of rounding, induction over operation sequences | proved |
| C05 | SimplexVector::new decides simplex membership up to 1e-5 and changes nothing | `probability.rs` SimplexVector | list induction; f64 error analysis; measure of the set of uniform draws | proved |
| C06 | sample_index is always in bounds and is the inverse CDF of the weights | `probability.rs` SimplexVector | list induction; f64 error analysis; measure of the set of uniform draws | proved |
| C07 | sample_index never returns an index of weight zero | `probability.rs` SimplexVector | list induction; f64 error analysis; measure of the set of uniform draws | partial: False of the code: refuted with a witness; holds for weights with exact sum 1. |
| C08 | sample_index selects index i with probability p_i | `probability.rs` SimplexVector | list induction; f64 error analysis; measure of the set of uniform draws | proved |
| C09 | SimplexVector::sample returns a point of the simplex | `probability.rs` SimplexVector | list induction; f64 error analysis; measure of the set of uniform draws | partial: False of the code (a sampled entry can be negative): refuted; the sum is 1 and the remaining entries are positive. |
| C10 | SimplexVector::centre is the uniform point and is accepted by SimplexVector::new | `probability.rs` SimplexVector | list induction; f64 error analysis; measure of the set of uniform draws | proved |
| C11 | Constraint::check agrees with is_satisfied_by and never changes the value | `params/constraints.rs` | structural induction on constraint syntax | proved |
| C12 | Constraint combinators are boolean connectives and All is a universal quantifier | `params/constraints.rs` | structural induction on constraint syntax | proved |
| C13 | The Empty constraint recognises empty collections | `params/constraints.rs` | structural induction on constraint syntax | partial: Vec case proved; the array impl has the test negated, refuted for every array. |
| C14 | Concentrations::new / Dirichlet::new accept exactly non-empty vectors of positive concentrations | `params/*.rs`, `params!` | unfolding, list induction; refutation by witness | partial: Refuted for every vector (only the empty one is accepted, a consequence of C13); the partial theorem says exactly what happens. |
| C15 | Params::new validates every field, in declaration order, and changes nothing | `params/*.rs`, `params!` | unfolding, list induction; refutation by witness | proved |
| C16 | A parameter's constraints() list matches what its constructor enforces | `params/*.rs`, `params!` | unfolding, list induction; refutation by witness | partial: Proved for every parameter type except matrix covariances and the two todo!() lists, which are refuted. |
| C17 | A checked covariance matrix is symmetric positive semi-definite and every such matrix is accepted | `params/*.rs`, `params!` | unfolding, list induction; refutation by witness | partial: Refuted in both directions with witnesses; the partial theorem says exactly what is checked (no negative entry). |
| C18 | new, new_unchecked and From<Params> build the same distribution and params() returns what was given | constructors, `From`, `params` of every type | case analysis | proved |
| C19 | choose(n,k) is the binomial coefficient, exactly | `utils.rs` choose, factorial | induction with divisibility, checked u64 | proved |
| C20 | factorial(n) is n!, exactly, for n <= 20 and panics on overflow beyond | `utils.rs` choose, factorial | induction with divisibility, checked u64 | proved |
| C21 | log_factorial_stirling(n) approximates ln n! | `utils.rs` log_factorial_stirling and its 255-entry table | integer certificate for each table entry; Stirling remainder by monotone differences | partial: Error bounds for every n < 2^64-1 over exact reals (table entries checked with integer arithmetic in the kernel, Stirling remainder proved); refuted at n = 2^64-1 where n+1 overflows. |
| C22 | sample_n draws exactly n samples and is a prefix of sample_iter | trait defaults in `lib.rs`, `statistics.rs`, `fitting.rs`, `distance.rs` | induction on n / fuel / operands | proved |
| C23 | Default methods: ccdf, log_cdf, log_pdf, kurtosis/excess, quartiles, fences | trait defaults in `lib.rs`, `statistics.rs`, `fitting.rs`, `distance.rs` | induction on n / fuel / operands | proved |
| C24 | kurtosis() = excess_kurtosis() + 3 for every distribution | trait defaults in `lib.rs`, `statistics.rs`, `fitting.rs`, `distance.rs` | induction on n / fuel / operands | partial: False of Exponential (3 and 6), proved for every other type. |
| C25 | convolve_many is the left fold of convolve over all operands | trait defaults in `lib.rs`, `statistics.rs`, `fitting.rs`, `distance.rs` | induction on n / fuel / operands | proved |
| C26 | Uniform<f64>: cdf, pdf, quantile, median and moments are coherent | univariate continuous families over `xreal` | `is_derive`, limits, improper integrals from antiderivatives (Coquelicot) | proved |
| C27 | Uniform<f64>::cdf is a valid probability in double arithmetic | univariate continuous families over `xreal` | `is_derive`, limits, improper integrals from antiderivatives (Coquelicot) | partial: Proved, with monotonicity, for every width up to 2^1022; refuted above (a double cdf > 1). |
| C28 | Uniform<i64>: pmf, cdf, moments are coherent | univariate continuous families over `xreal` | `is_derive`, limits, improper integrals from antiderivatives (Coquelicot) | proved |
| C29 | Uniform<i64>::quantile returns a support point for every probability | univariate continuous families over `xreal` | `is_derive`, limits, improper integrals from antiderivatives (Coquelicot) | partial: Proved for p < 1; refuted at p = 1 for every parameter and as an inverse at p = 1/2. |
| C30 | Exponential: cdf, pdf, median, mode and moments are coherent | univariate continuous families over `xreal` | `is_derive`, limits, improper integrals from antiderivatives (Coquelicot) | proved |
| C31 | quantile inverts cdf (Uniform, Cauchy, Normal, Exponential) | univariate continuous families over `xreal` | `is_derive`, limits, improper integrals from antiderivatives (Coquelicot) | partial: Proved for Uniform, Cauchy (and Normal in C46); refuted for Exponential at every rate and every p. |
| C32 | Cauchy: cdf, pdf, quantile, median, mode are coherent | univariate continuous families over `xreal` | `is_derive`, limits, improper integrals from antiderivatives (Coquelicot) | proved |
| C33 | Logistic: cdf, pdf, median, mode, mean are coherent | univariate continuous families over `xreal` | `is_derive`, limits, improper integrals from antiderivatives (Coquelicot) | proved |
| C34 | Gumbel: cdf, pdf, median, mode are coherent | univariate continuous families over `xreal` | `is_derive`, limits, improper integrals from antiderivatives (Coquelicot) | proved |
| C35 | Frechet: cdf, pdf, median, mode are coherent; sample inverts the cdf | univariate continuous families over `xreal` | `is_derive`, limits, improper integrals from antiderivatives (Coquelicot) | partial: Everything proved for every shape except sampling, refuted for every shape (see also C127). |
| C36 | GeneralisedExtremeValue: cdf, pdf, median, mode are coherent | univariate continuous families over `xreal` | `is_derive`, limits, improper integrals from antiderivatives (Coquelicot) | partial: Proved for shape >= 1e-7; refuted for every smaller shape. |
| C37 | GeneralisedPareto: cdf, pdf, median, mean are coherent | univariate continuous families over `xreal` | `is_derive`, limits, improper integrals from antiderivatives (Coquelicot) | partial: Proved except the mean, which is refuted for every shape other than 1. |
| C38 | Kumaraswamy: cdf, pdf, median, mode, sampling are coherent | univariate continuous families over `xreal` | `is_derive`, limits, improper integrals from antiderivatives (Coquelicot) | proved |
| C39 | Pareto: cdf, pdf, median, mode, mean, variance are coherent | univariate continuous families over `xreal` | `is_derive`, limits, improper integrals from antiderivatives (Coquelicot) | proved |
| C40 | Weibull: cdf and pdf are coherent, median, mode | univariate continuous families over `xreal` | `is_derive`, limits, improper integrals from antiderivatives (Coquelicot) | partial: Proved except the mode, refuted for every k > 1. |
| C41 | Arcsine: cdf, pdf, median, mean, variance, modes are coherent | univariate continuous families over `xreal` | `is_derive`, limits, improper integrals from antiderivatives (Coquelicot) | proved |
| C42 | Cosine: cdf, pdf, median, mode are coherent | univariate continuous families over `xreal` | `is_derive`, limits, improper integrals from antiderivatives (Coquelicot) | partial: Proved for s = 2; refuted for every other scale. |
| C43 | Triangular: cdf, pdf, median, mode, mean, variance are coherent | univariate continuous families over `xreal` | `is_derive`, limits, improper integrals from antiderivatives (Coquelicot) | partial: Proved except the pdf within 1e-7 of the mode and the mean, which is exactly 3/2 of the true one. |
| C44 | Laplace: cdf is a distribution function with derivative pdf | univariate continuous families over `xreal` | `is_derive`, limits, improper integrals from antiderivatives (Coquelicot) | partial: cdf and pdf have each other's bodies: refuted for every parameter; everything holds with the two exchanged. |
| C45 | Rayleigh: cdf is a distribution function with derivative pdf | univariate continuous families over `xreal` | `is_derive`, limits, improper integrals from antiderivatives (Coquelicot) | partial: cdf ignores sigma: refuted for every sigma <> 1, proved for sigma = 1; pdf, median, mode, moments proved for every sigma. |
| C46 | Normal (univariate): cdf, pdf, quantile, median, mode, moments are coherent | univariate continuous families over `xreal` | `is_derive`, limits, improper integrals from antiderivatives (Coquelicot) | proved |
| C47 | LogNormal (univariate): pdf is the derivative of cdf and moments match | univariate continuous families over `xreal` | `is_derive`, limits, improper integrals from antiderivatives (Coquelicot) | partial: pdf lacks the Jacobian: refuted for every parameter; moments right exactly when Sigma = 1; the true values are proved. |
| C48 | Bernoulli: pmf, moments, median and entropy are coherent | discrete families and `Convolution` | finite sums and series; f64 for validity; algebra | proved |
| C49 | Binomial: pmf sums to one, mean and variance are the moment sums | discrete families and `Convolution` | finite sums and series; f64 for validity; algebra | proved |
| C50 | Binomial: modes() maximise the pmf and the support is 0..n | discrete families and `Convolution` | finite sums and series; f64 for validity; algebra | partial: False of the code: the support contains n+1 (pmf panics there) and floor(np) is a mode iff (n+1)p <= floor(np)+1, both proved. |
| C51 | Geometric: pmf, cdf, mean, variance, mode are coherent | discrete families and `Convolution` | finite sums and series; f64 for validity; algebra | proved |
| C52 | Geometric pmf/cdf are correct for every u64 argument | discrete families and `Convolution` | finite sums and series; f64 for validity; algebra | partial: False of the code for k >= 2^31: the i32 cast wraps and pmf can exceed 1, cdf(2^31-1) panics; proved for smaller k. |
| C53 | Categorical: pmf and modes are coherent | discrete families and `Convolution` | finite sums and series; f64 for validity; algebra | proved |
| C54 | Poisson: pmf, mode, mean, convolution are coherent | discrete families and `Convolution` | finite sums and series; f64 for validity; algebra | proved: Law, moments, mode and convolution relative to an exact log-factorial; pmf with the shipped log-factorial is within a factor exp(+-2e-10) of the law (C54_poisson_pmf). |
| C55 | Convolution of Bernoulli/Binomial is the distribution of the sum | discrete families and `Convolution` | finite sums and series; f64 for validity; algebra | proved |
| C56 | Convolution of Normal/Cauchy/ChiSq/Gamma/Exponential adds mean and variance whenever it returns Ok, and is Ok whenever the sum is in the family | discrete families and `Convolution` | finite sums and series; f64 for validity; algebra | partial: False of the code for Gamma (different shapes refused) and ChiSq (see _refuted); proved for Normal, Cauchy, Exponential. |
| C57 | Mixture cdf/pdf are weighted averages of the components | `mixture.rs`, generic in the component | list induction | partial: Proved for weights with exact sum 1; accepted weights may sum to more, then cdf exceeds 1 (refuted). |
| C58 | Mixture mean/variance obey the laws of total expectation and variance | `mixture.rs`, generic in the component | list induction | proved |
| C59 | Mixture construction: new fails exactly when the weights are not a simplex; support contains every component support; From<Params> is safe | `mixture.rs`, generic in the component | list induction | partial: new and support proved; From<Params> is unsafe unless exactly N component parameters are given (refuted), N = 0 panics. |
| C60 | Mixture::sample draws from component i with the i-th weight | `mixture.rs`, generic in the component | list induction | proved |
| C61 | PairedNormal is the product of two univariate normals | `normal/*.rs` | plane integrals, matrix identities by induction; LAPACK as an oracle with a specification | partial: Everything but the entropy, refuted for every parameter, with the true value proved. |
| C62 | BvNormal: covariance, correlation, z and pdf are coherent | `normal/*.rs` | plane integrals, matrix identities by induction; LAPACK as an oracle with a specification | partial: Everything but the entropy, refuted for every parameter, with the true value proved. |
| C63 | BvNormal::new rejects degenerate correlations | `normal/*.rs` | plane integrals, matrix identities by induction; LAPACK as an oracle with a specification | partial: Refuted: correlation +-1 is accepted; proved that pdf is finite everywhere exactly when |rho| < 1. |
| C64 | Gradient scaling multiplies every component | `normal/*.rs` | plane integrals, matrix identities by induction; LAPACK as an oracle with a specification | partial: Proved for every gradient type except the bivariate one, refuted for every gradient with a non-zero second variance component. |
| C65 | DiagonalNormal/IsotropicNormal: squared Mahalanobis distance is non-negative and is sum (x_i-mu_i)^2/sigma2_i | `normal/*.rs` | plane integrals, matrix identities by induction; LAPACK as an oracle with a specification | partial: False of the code in every dimension >= 1: squared distance is linear (C65_diagonal_refuted), samples have the squared covariance; moments, determinant, entropy proved. |
| C66 | MvNormal: Cholesky factor, determinant, precision and Mahalanobis distance are coherent | `normal/*.rs` | plane integrals, matrix identities by induction; LAPACK as an oracle with a specification | partial: BLAS/LAPACK routines are oracles specified by lapack_ok (instance proved). Moments, factors, samples proved; squared distance uses one triangle only and is wrong for every non-diagonal matrix (refuted); right for diagonal matrices. |
| C67 | MvMoments defaults: variance is the diagonal of covariance, correlation is cov/sqrt(var var) | `normal/*.rs` | plane integrals, matrix identities by induction; LAPACK as an oracle with a specification | partial: Default correlation is wrong unless all variances are 1 (refuted). |
| C68 | Dirichlet moments: mean on the simplex, covariance symmetric with zero row sums and diagonal = variance | `multivariate/*.rs` | list induction | partial: Everything except modes for alphas <= 1, sample and new is proved; those three are refuted. |
| C69 | Multinomial moments and pmf domain | `multivariate/*.rs` | list induction | partial: Moments and correlation proved; log_pmf panics exactly on the possible count vectors (refuted). |
| C70 | Multivariate LogNormal covariance is symmetric and matches variance() | `multivariate/*.rs` | list induction | partial: Diagonal case proved; upper triangle and variance proved in general; lower triangle refuted (not symmetric). |
| C71 | Log-likelihood is the sum of log-densities | `fitting.rs` and its impls | calculus and convexity, induction over the samples | partial: Bernoulli exact; Poisson within 2e-10 per sample (shipped log-factorial); Beta for samples in [1e-9, 1-1e-9], wrong closer to 0; Normal right only if 2 pi Sigma = 1, PairedNormal only for one sample or all samples at the mean, Gamma wrong for all parameters (refuted). |
| C72 | score is the gradient of the log-likelihood | `fitting.rs` and its impls | calculus and convexity, induction over the samples | partial: Proved: Normal and PairedNormal mean components, Gamma rate, Beta in [1e-9, 1-1e-9]. Refuted: Bernoulli right iff no false sample; Poisson right only on the empty sample; Normal Sigma component is the derivative in sqrt(Sigma); Gamma shape component right iff beta = 1. |
| C73 | fit_mle maximises the likelihood | `fitting.rs` and its impls | calculus and convexity, induction over the samples | proved: Exact arithmetic: the fitted parameter maximises the product likelihood over all parameters (Bernoulli, Poisson, Normal), error cases characterised; in doubles Bernoulli::fit_mle succeeds on every non-empty sample, with the correctly rounded quotient. |
| C74 | Mode of the Gamma-like families maximises the density | modes and cdf range of every family | per-family case analysis | proved |
| C75 | cdf returns a valid Probability for every real argument | modes and cdf range of every family | per-family case analysis | partial: False of ten types outside (Laplace: inside) the support; proved for nine. |
| C76 | Serde round trip of fixed-size arrays; deserialised probabilities are valid | `utils.rs` serde_arrays, derived serde of Probability | induction on N over arbitrary serializers and sequences | partial: Array (de)serialisation proved for every N and every serializer / sequence; a deserialised Probability is not validated (refuted). |
| C77 | Degenerate distribution: cdf is a unit step at k, samples are k | `degenerate.rs`; guards of moments | case analysis | proved |
| C78 | Undefined moments panic and defined ones return | `degenerate.rs`; guards of moments | case analysis | partial: False of the code (see _refuted); proved for the listed families. |
| C79 | Fisher information equals the variance of the score | `fisher_information` impls | improper integrals and series of the squared score | partial: Proved for Bernoulli, Binomial, Normal; Pareto returns minus the expected Hessian, which differs from the score covariance (refuted); Exponential and Poisson right only at lambda = 1, LogNormal only at Sigma = 1 (refuted). |
| C80 | Levy: cdf is a distribution function with derivative pdf and the mode maximises pdf | Levy, Bernoulli, Categorical | calculus, finite sums | partial: cdf lacks a square root: refuted for every parameter; pdf proved to be the density of the true distribution function; mode proved for mu = 0. |
| C81 | Bernoulli: cdf is the running sum of pmf and modes() are the maximisers of pmf | Levy, Bernoulli, Categorical | calculus, finite sums | partial: False of the code: cdf(false) = 0 instead of 1-p; for p > 1/2 the less likely outcome is returned as the mode. |
| C82 | Categorical: cdf is the running sum of pmf | Levy, Bernoulli, Categorical | calculus, finite sums | partial: False of the code: off by one, cdf(i) is the sum over 0..i exclusive. |
| C83 | Gamma: cdf/pdf coherent, moments and entropy are the integrals | gamma/beta families | Gamma and beta integrals built from scratch (`GammaFun`, `Mellin`, `Subst`), recurrences | proved: Relative to exact special functions (hypotheses on the oracle, an instance satisfying them is exhibited). |
| C84 | Gamma::sample draws from the Gamma(alpha, rate beta) law | gamma/beta families | Gamma and beta integrals built from scratch (`GammaFun`, `Mellin`, `Subst`), recurrences | partial: False of the code unless beta = 1: the rate is passed where the generator expects a scale; proved as an equivalence. |
| C85 | Beta: cdf/pdf coherent, mean, variance, skewness, entropy are the integrals | gamma/beta families | Gamma and beta integrals built from scratch (`GammaFun`, `Mellin`, `Subst`), recurrences | proved: Relative to exact special functions (hypotheses on the oracle, an instance satisfying them is exhibited). |
| C86 | Beta: excess kurtosis is the integral and median is a median | gamma/beta families | Gamma and beta integrals built from scratch (`GammaFun`, `Mellin`, `Subst`), recurrences | partial: False of the code: kurtosis wrong for every a = b; median wrong at Beta(3,2); median proved in the cases a = b and one shape 1. The median is refuted for all integers a, b >= 2 with a + b odd (C86_beta_median_all_odd_refuted). |
| C87 | InvGamma: pdf is a density, moments are returned iff they exist and are then the integrals, entropy | gamma/beta families | Gamma and beta integrals built from scratch (`GammaFun`, `Mellin`, `Subst`), recurrences | proved: Relative to exact special functions (hypotheses on the oracle, an instance satisfying them is exhibited). |
| C88 | InvGamma: cdf is the distribution function of pdf | gamma/beta families | Gamma and beta integrals built from scratch (`GammaFun`, `Mellin`, `Subst`), recurrences | partial: False of the code for every parameter: cdf returns the upper tail; 1 - cdf is proved to be the distribution function. |
| C89 | BetaPrime: cdf/pdf coherent; mean, variance, skewness are returned iff they exist | gamma/beta families | Gamma and beta integrals built from scratch (`GammaFun`, `Mellin`, `Subst`), recurrences | proved: Relative to exact special functions (hypotheses on the oracle, an instance satisfying them is exhibited). |
| C90 | BetaPrime: excess kurtosis and entropy are the integrals | gamma/beta families | Gamma and beta integrals built from scratch (`GammaFun`, `Mellin`, `Subst`), recurrences | partial: False of the code: kurtosis wrong for alpha >= 1, beta > 4, and returned where it does not exist; entropy strictly too small for all parameters. |
| C91 | Chi: cdf/pdf coherent, moments are the integrals | gamma/beta families | Gamma and beta integrals built from scratch (`GammaFun`, `Mellin`, `Subst`), recurrences | proved: Relative to exact special functions (hypotheses on the oracle, an instance satisfying them is exhibited). |
| C92 | Chi: entropy is the integral | gamma/beta families | Gamma and beta integrals built from scratch (`GammaFun`, `Mellin`, `Subst`), recurrences | partial: False of the code for k <= 2. |
| C93 | ChiSq: cdf/pdf coherent, moments and entropy are the integrals | gamma/beta families | Gamma and beta integrals built from scratch (`GammaFun`, `Mellin`, `Subst`), recurrences | proved: Relative to exact special functions (hypotheses on the oracle, an instance satisfying them is exhibited). |
| C94 | Chi and ChiSq agree on what the incomplete gamma function is | gamma/beta families | Gamma and beta integrals built from scratch (`GammaFun`, `Mellin`, `Subst`), recurrences | partial: False of the code: no function gammainc makes both right at k = 6. |
| C95 | FDist: cdf/pdf coherent; mean and variance are returned iff they exist | gamma/beta families | Gamma and beta integrals built from scratch (`GammaFun`, `Mellin`, `Subst`), recurrences | proved: Relative to exact special functions (hypotheses on the oracle, an instance satisfying them is exhibited). |
| C96 | FDist: skewness guard, excess kurtosis and entropy | gamma/beta families | Gamma and beta integrals built from scratch (`GammaFun`, `Mellin`, `Subst`), recurrences | partial: False of the code: skewness returned at d2 = 5 where it does not exist; kurtosis wrong for all d2 > 8; entropy wrong at (2,2). |
| C97 | Erlang: mean, variance, skewness, excess kurtosis and mode are those of the Erlang density | gamma/beta families | Gamma and beta integrals built from scratch (`GammaFun`, `Mellin`, `Subst`), recurrences | proved: Moments are those of the textbook density, which is not the pdf the code returns (C98). |
| C98 | Erlang: pdf integrates to one and cdf is its distribution function | gamma/beta families | Gamma and beta integrals built from scratch (`GammaFun`, `Mellin`, `Subst`), recurrences | partial: False of the code for k = 2 (every lambda); proved for k = 1. |
| C99 | StudentT: pdf is a symmetric density, moments are returned iff they exist, median and mode | gamma/beta families | Gamma and beta integrals built from scratch (`GammaFun`, `Mellin`, `Subst`), recurrences | proved: Relative to exact special functions (hypotheses on the oracle, an instance satisfying them is exhibited). |
| C100 | StudentT: cdf is the distribution function of pdf | gamma/beta families | Gamma and beta integrals built from scratch (`GammaFun`, `Mellin`, `Subst`), recurrences | partial: False of the code unless Gamma(nu/2) = 1 (proved as an equivalence): Gamma(nu/2) multiplies instead of dividing; proved for nu = 2, 4. |
| C101 | StudentT: the constructor accepts only degrees of freedom with a density; entropy is the integral | gamma/beta families | Gamma and beta integrals built from scratch (`GammaFun`, `Mellin`, `Subst`), recurrences | partial: False of the code: negative nu accepted (density NaN everywhere); entropy wrong at nu = 2. |
| C102 | InvNormal: pdf is a density; mean, variance, skewness and mode | InvNormal, FoldedNormal, Normal sampling | substitution, Gaussian integral | proved |
| C103 | InvNormal::sample is a correct transformation with multiple roots | InvNormal, FoldedNormal, Normal sampling | substitution, Gaussian integral | proved |
| C104 | InvNormal: cdf, kurtosis and entropy are those of pdf | InvNormal, FoldedNormal, Normal sampling | substitution, Gaussian integral | partial: False of the code for all parameters: cdf exceeds 1, excess kurtosis 16 mu/lambda instead of 15, entropy that of a normal. |
| C105 | FoldedNormal: cdf/pdf coherent, mean, variance, sampling | InvNormal, FoldedNormal, Normal sampling | substitution, Gaussian integral | proved: Relative to exact special functions (hypotheses on the oracle, an instance satisfying them is exhibited). |
| C106 | FoldedNormal: the mode maximises pdf | InvNormal, FoldedNormal, Normal sampling | substitution, Gaussian integral | partial: False of the code for mu >= sigma and mu < -sigma; proved for -sigma <= mu < sigma. |
| C107 | Normal::sample follows the distribution's own cdf | InvNormal, FoldedNormal, Normal sampling | substitution, Gaussian integral | proved |
| C108 | BetaBinomial: pmf is the beta mixture of binomials, mean and variance are its moments | `beta_binomial.rs` | finite sums against the beta integral; closed moments by recurrence | proved |
| C109 | BetaBinomial: skewness, kurtosis, support and cdf are those of the pmf | `beta_binomial.rs` | finite sums against the beta integral; closed moments by recurrence | partial: The code is wrong: skewness returns the third raw moment (proved, and refuted as a skewness for every n >= 1, a = b), support and cdf are refuted with witnesses. The returned kurtosis is right exactly when alpha(alpha+beta) = 1, for every n >= 1 (C109_kurtosis_all_refuted), with the true kurtosis of the law proved alongside; the partial theorem says what the returned skewness is. |
| C110 | Weibull: mean, variance, skewness, excess kurtosis and entropy are those of pdf | Weibull, Frechet, GEV moments | substitution to Gamma integrals; divergence by comparison | proved |
| C111 | Frechet: a moment is returned as a finite number exactly when it exists; entropy | Weibull, Frechet, GEV moments | substitution to Gamma integrals; divergence by comparison | proved |
| C112 | GEV: a moment is returned as a finite number exactly when it exists; entropy | Weibull, Frechet, GEV moments | substitution to Gamma integrals; divergence by comparison | partial: Proved for zeta >= 1e-7 (for smaller zeta C36 shows pdf and cdf disagree). |
| C113 | Gumbel: mean, variance, skewness, kurtosis and entropy are those of pdf | Gumbel, Logistic moments | zeta(2), zeta(3) and log-gamma derivatives built from scratch | proved |
| C114 | Logistic: variance, skewness and kurtosis are those of pdf | Gumbel, Logistic moments | zeta(2), zeta(3) and log-gamma derivatives built from scratch | proved |
| C115 | Binomial and Poisson: cdf is the running sum of pmf | Binomial, Poisson, Bernoulli, Geometric: cdf, kurtosis, median, entropy | series; refutation for all parameters | partial: Binomial proved for k < n; k = n asks the external function for I_q(0, n+1), outside its domain; k > n and Poisson refuted (panic). |
| C116 | Bernoulli, Binomial, Poisson: kurtosis() is the kurtosis, not the excess kurtosis | Binomial, Poisson, Bernoulli, Geometric: cdf, kurtosis, median, entropy | series; refutation for all parameters | partial: Refuted for every parameter (the methods return the excess kurtosis); the partial theorem proves that. |
| C117 | Geometric, Binomial, Poisson: median() is a median | Binomial, Poisson, Bernoulli, Geometric: cdf, kurtosis, median, entropy | series; refutation for all parameters | partial: Geometric characterised exactly. Binomial: the returned value is a median whenever n p is an integer, and within 1 of a median for all n and p. Poisson: a median for every rate in [n, n + 2/3], n >= 1, and within 1 of one for every rate >= 1. Refuted on ranges (Binomial at small n p, Poisson at rates <= 1/20 and just above ln 2). Missing: which of the two neighbours is exact in the remaining ranges. |
| C118 | Binomial, Poisson: shannon_entropy is the entropy of the pmf | Binomial, Poisson, Bernoulli, Geometric: cdf, kurtosis, median, entropy | series; refutation for all parameters | partial: Refuted (negative) for small variances; the partial theorem states the value computed. No claim about the size of the approximation error elsewhere. |
| C119 | Multivariate normal and log-normal: named constructors, log-normal sampling and density | `normal/multivariate.rs`, `multivariate/lognormal.rs` | linear algebra over lists | partial: Constructors and general-covariance sampling proved; diagonal/isotropic sampling proved with the scale the code uses; pdf lacks the Jacobian (refuted unless m = -a/2 in one dimension); cdf panics. |
| C120 | Kumaraswamy: mean, variance, skewness, kurtosis, entropy are the integrals of the density | Kumaraswamy, GeneralisedPareto moments | beta integrals; exact characterisation of the guards | partial: Mean, variance, skewness proved for all shapes; entropy proved for a = 1 or integer b and refuted for every other shape (harmonic number taken at floor b); excess_kurtosis always panics. |
| C121 | GeneralisedPareto: a moment is returned exactly when it exists | Kumaraswamy, GeneralisedPareto moments | beta integrals; exact characterisation of the guards | partial: GPD: below each threshold the moment exists and the method panics, above it the method returns although there is no such moment; right exactly at the thresholds. C121_gpd_formulas_partial: the formulas behind the guards are the moments where those exist, so the guards are the only defect. |
| C122 | Cauchy, Arcsine, Triangular, Rayleigh, Levy, LogNormal: shannon_entropy is the differential entropy | entropies and higher moments of the remaining families | push-forward of Gaussian/exponential integrals, uniqueness of integrals | partial: Proved for Cauchy, Rayleigh, Levy and for Arcsine of width 1; refuted for Arcsine of any other width, for Triangular at every parameter (too large by exactly 1/2), and for LogNormal (in bits, and takes the variance for the standard deviation). |
| C123 | Levy: mean and variance are reported infinite, skewness and kurtosis not returned, because none exists | entropies and higher moments of the remaining families | push-forward of Gaussian/exponential integrals, uniqueness of integrals | proved |
| C124 | Cosine, Rayleigh, LogNormal: skewness, kurtosis, variance, modes are those of the distribution | entropies and higher moments of the remaining families | push-forward of Gaussian/exponential integrals, uniqueness of integrals | partial: True values proved for all parameters; LogNormal right exactly at Sigma = 1; Cosine and Rayleigh kurtosis refuted for every parameter. |
| C125 | Continuous samplers that delegate to rand_distr draw from the distribution's own law | `sample` methods (`Model/Samplers.v`) | transfer of textbook densities to the code densities; inversion | partial: Proved for nine of the ten; refuted for LogNormal at every parameter (it passes mean() and standard_deviation() of the log-normal as mu and sigma of the underlying normal). |
| C126 | Discrete samplers draw each value with the probability given by pmf | `sample` methods (`Model/Samplers.v`) | transfer of textbook densities to the code densities; inversion | proved |
| C127 | Samplers that transform a uniform variate draw from the distribution's own law | `sample` methods (`Model/Samplers.v`) | transfer of textbook densities to the code densities; inversion | partial: Proved for Uniform, Kumaraswamy and Laplace; refuted for Frechet at every shape: the sample has the law of the reciprocal of a Frechet variate. |
| C128 | The density is positive throughout the reported support | `support` of every family | evaluation of the density formulas; oracles for gamma/beta | partial: Proved for 26 families at every parameter; refuted for GEV (shape >= 1e-7) and GeneralisedPareto (shape > 0), which report the whole line and return NaN / infinity at the true end point, and for the point mass. |
| C129 | The density is zero outside the reported support | `support` of every family | evaluation of the density formulas; oracles for gamma/beta | partial: Proved for the four families that test the argument (Triangular with both widths >= 1e-7); for sixteen others refuted at every parameter (wrong number or NaN). |
| C130 | An integer is in the reported support iff its mass is positive | `support` of every family | evaluation of the density formulas; oracles for gamma/beta | partial: Proved for Uniform<i64>, Bernoulli and Geometric with 0 < p < 1, Poisson; refuted for the point mass, p = 1, and (C50, C109) Binomial, BetaBinomial, Categorical. |
| C131 | Default and standard distributions are valid and are the textbook standard laws | named constructors and defaults of every family (`Model/Continuous*.v`, `Normal2.v`) | constructors computed for an arbitrary scalar type with 0 < 1 (so for doubles too); densities and symmetry computed on exact reals | proved |
| C132 | Named constructors build the distribution they name | named constructors and defaults of every family (`Model/Continuous*.v`, `Normal2.v`) | constructors computed for an arbitrary scalar type with 0 < 1 (so for doubles too); densities and symmetry computed on exact reals | proved |
| C133 | In double arithmetic every cdf value is a probability, and the cdf never decreases | cdf of the closed-form families in IEEE doubles | order-preservation of each rounded operation (`F64Order`), libm ranges as hypotheses met by correctly rounded functions (`LibmInst`) | partial: Proved for Exponential, Logistic, Gumbel, Frechet, Weibull, Rayleigh, Pareto, Kumaraswamy, GeneralisedPareto, GEV (zeta > 0, from the location on), Cauchy, Normal and LogNormal. Refuted for Triangular (the square overflows), for Arcsine at the upper end of its own support (partial theorem: where the computed x - a is at most w), for Laplace (value 2 at the location with scale 1/4) and for Exponential with the accepted infinite rate. Missing: gamma and beta families, whose cdf is an external function. |
| C134 | No panics: which calls on an accepted distribution come back | every panic site reachable from a public method | case analysis of the overflow checks, exact iff | partial: Refuted: quantile of every family using the default panics, some samplers/moments are unimplemented, and integer overflow panics exist. For each listed integer family the exact set of arguments that come back is proved. Missing: families whose methods are total functions in the model (nothing to prove there) and the multivariate types (C65-C70 state theirs). |
| C135 | In double arithmetic every pdf value is a number at least 0 | pdf of the closed-form families in IEEE doubles | non-negative-number calculus (`F64Pdf`); counterexamples by overflow facts met by correctly rounded functions | partial: Proved for Exponential, Normal, LogNormal, FoldedNormal, GeneralisedPareto, GEV (from the location on), Uniform (every double) and Laplace. Refuted with finite witnesses (NaN) for Cauchy (subnormal scale), Logistic (standard, x = -1024), Gumbel, Rayleigh, Weibull, Pareto, Frechet; the partial theorems say where it holds, for Weibull, Pareto and Frechet exactly when NaN is returned. Missing: gamma and beta families, whose densities call external functions. |
| C136 | Integer Uniform, Chi and ChiSq: median() is a median | `median` of integer Uniform, ChiSq, Chi | Counting the points below and above the returned half-integer; for ChiSq/Chi the cdf at k = 2 is elementary, so the returned value is compared with ln 4 | partial: Integer Uniform: proved for every constructible parameter. ChiSq and Chi: refuted for every even k (the Wilson-Hilferty value is rational, the median is not: exp of a non-zero rational is irrational); the partial theorem says the returned value is real and lies between k - 2/3 and k, the known bracket of the approximation. Missing: odd k. |
| C137 | Multivariate supports agree with the densities and the draws | `support`, `pdf`/`pmf`, `sample` of the multivariate types | Entry by entry; NaN propagation through the sums for points with a negative coordinate; explicit weights for Multinomial | partial: Proved for the three Normals and, except for the value at points off the support (NaN instead of 0), for the three LogNormals. Refuted for Dirichlet (density positive off the cube; draws not normalised may leave it) and Multinomial (a count above n is given positive mass); the partial theorem for Dirichlet covers positivity inside. |
| C138 | Order, product, sums, logarithms and powers of probabilities | operators, constants, sums, `ln`, `log2`, `powf`, `powi` of `Probability`; `Param for Probability` | Flocq specifications of the double operations and monotonicity of rounding; induction on the list for sums; exact reals for logarithms and powers | partial: Everything proved except associativity of the product, refuted in doubles with a witness (0.1, 0.1, 0.3). |
| C139 | The samplers of InvNormal and Categorical draw from the distribution they belong to | InvNormal::sample, Categorical::sample over an arbitrary generator | area under the normal density of the sections of the event {sample <= y}, by an explicit smooth inverse of the transformation; half-open intervals for the index | proved: Laws of the two samplers not delegated to rand_distr; independence of the two draws of InvNormal is expressed by iterated integration. |
| C140 | GEV with a vanishing shape parameter is the Gumbel law | gev.rs, gumbel.rs | both models evaluated in exact reals, equality of results | proved: Below the threshold the pdf and entropy branches of gev.rs differ from Gumbel unless the shape is exactly 0 (the pdf branch is refuted under its own property); hence the split into C140_small_shape and C140_zero_shape. |
| C141 | The Degenerate distributions | degenerate.rs | finite sums over integers; integral of a step function | partial: Degenerate<i64> proved coherent; kurtosis and quantile panic. Refuted: skewness is reported as 0 although undefined; the density of Degenerate<f64> integrates to 2e-7, not 1. |
| C142 | Distributions that coincide mathematically agree in the API | pairs of distribution modules | equality of the returned values in exact reals, with exact oracles | proved: Proved for the functions that are themselves correct; functions refuted elsewhere are compared only where both sides are meaningful. |
| C143 | Distributions defined as transformations of others have the transformed density | pairs of distribution modules | change-of-variables formula: density_of_image (strictly monotone differentiable map) | proved |
| C144 | Location and scale parameters act as shift and stretch | all location/scale families | equality of returned values in exact reals | proved: Excludes the densities of Cosine, Laplace and LogNormal and the cdfs of Levy, Rayleigh and Laplace, refuted under their own properties. |
| C145 | Symmetric families are symmetric about their centre | pdf and cdf of the symmetric families (univariate, paired and bivariate) | mirror-point algebra on the closed forms: phi even, Phi(-x)=1-Phi(x), atan/sin odd, asin complement | partial: False for Triangular::symmetric pdfs whose half-width is below the 1e-7 comparison tolerance around the mode (C145_triangular_refuted); proved for every other parameter. StudentT has no distribution-function half because its cdf is a special-function oracle. |
| C146 | Discrete families agree with their special cases and reflections, and the waiting-time families are memoryless | pmf, cdf, moments of the discrete families | binomial and Beta-function identities on the closed forms of C48-C55, C108 | proved: The Multinomial mass function is excluded: it panics on every outcome of the right total (C69). |
| C147 | Multivariate families agree with their one- and two-dimensional counterparts | pdf, moments and samplers of the normals, Dirichlet, MvLogNormal | Cholesky factor of a 1x1 / 2x2 matrix is unique; Beta-Gamma identity | partial: False for LogNormal: it squares the variance parameter again, so it agrees with the one-dimensional MvLogNormal exactly when the variance is 1 (C147_lognormal_refuted). Everything else in the statement is proved. |
| C148 | Order of the reported mode, median and mean | values reported by modes/median/mean over exact reals | closed forms compared with ln 2, pi and exponential bounds | proved: Proved for the listed families (Gumbel: mode and median only, the mean is Euler constant from an external function). |
| C149 | Discrete masses and distribution functions in doubles | UniformI, Geometric, Categorical over Flocq doubles | rounding lemmas; relative error of the reciprocal and ties-to-even for the bound 1 | partial: Uniform<i64> and Geometric proved; Categorical refuted: accepted weights may sum to more than 1, so cdf exceeds 1 (weights 1 and 2^-20); the partial theorem gives start, monotonicity and the distance to 1 at the end. |
| C150 | The printed form of a distribution determines it | the Display implementations, over an oracle for the text of a double | unique parsing: the text up to the first punctuation mark; list induction for arrays | partial: Proved in one theorem for 34 distribution types (C150_display, C150_arguments) and for Uniform<i64>, Dirichlet and isotropic multivariate LogNormal. Refuted in doubles where a rounded or derived quantity is printed: Uniform<f64>, Arcsine, Triangular, LogNormal, FoldedNormal, BvNormal; Degenerate<f64> and Degenerate<i64> print alike. Constraint and error messages are C151. |
| C151 | Error messages identify the failed constraint and value | the Display implementations of the constraint structs and of the errors | unique parsing by induction over constraint expressions and nested arrays; induction over the selected implementation | proved: Texts of doubles are an oracle (injective, no punctuation, never the text of an integer; instance proved). Escapes in the Debug text of a target are not modelled. |
| C152 | In double arithmetic a reported variance is a number at least 0 | the two-scalar model at f64: every variance function, with exact IEEE operations | interval-style lemmas over saturated doubles (numbers, signs, magnitude bounds 2^l..2^h); NaN and negative witnesses computed | partial: Proved for Uniform (both), Exponential, Logistic, Gumbel, Arcsine, Cosine, Laplace, Rayleigh, Normal, Gamma, InverseNormal, Pareto, InverseGamma, BetaPrime, StudentT, Erlang, ChiSquared, F, Bernoulli, Binomial, Geometric, Poisson, BetaBinomial. Refuted: Beta (NaN for shapes 2^600 or 2^-600; proved between 2^-250 and 2^250), Triangular (negative by cancellation), GPD (negative), LogNormal (0*inf = NaN; proved when neither exponential overflows). Missing: Frechet, GEV, Weibull, Kumaraswamy, Chi, FoldedNormal, whose variances are differences of gamma/erf oracle values. |
| C153 | In double arithmetic a reported mean is a number within the range of the distribution | the two-scalar model at f64: every mean computed by arithmetic | monotonicity of rounding on saturated doubles; witnesses computed | partial: Proved for Uniform, Beta, Bernoulli, Binomial, BetaBinomial, Exponential, Gamma, Erlang, Rayleigh, InverseGamma, BetaPrime, Poisson, F, LogNormal, Gumbel (for a finite negative digamma(1)). Refuted: Arcsine (a + b overflows; proved equivalent to a + b being finite), Pareto (one ulp below the minimum for shapes near 2^59; proved to be a number >= 0), Geometric at p = -0.0 (-infinity; proved for every other parameter). Missing: families whose mean is a location parameter (nothing is computed), integer Uniform, Triangular (its mean is wrong, C43), and means computed by gamma-function oracles. |
| C154 | Every way of building a distribution and reading its parameters agrees, also for vectors and pairs | constructors, From, params of the multivariate, paired and remaining types; UvNormal z, precision, width; Bernoulli.log_pmf | unfolding and inversion of the checks, at every scalar semantics | proved |
| C155 | In double arithmetic every sample is a point of the support | sample_of_draw functions of Kumaraswamy, Frechet, Laplace, InvNormal; paired and bivariate sample, in doubles | monotone rounding, ranges of the libm functions; kernel evaluation for the witnesses | partial: Proved: Kumaraswamy (in [0,1], monotone), Frechet (>= 0), Laplace (a number on the side of the location given by the sign of the draw; finite for draws inside (-1/2,1/2) and parameters up to 2^1000), paired and bivariate normals (numbers). Refuted: Frechet returns +infinity at draw 0 and Laplace -infinity at draw -1/2, for all parameters; InverseNormal returns -128 for mu = 1e9, lambda = 7, normal draw 3.75, uniform draw 1/2 (cancellation). Samplers delegated to rand_distr are external. |
| C156 | Distribution functions built on special functions stay probabilities in double arithmetic | cdf of the beta/gamma/erf families over binary64, the special functions being an oracle record constrained only by range and monotonicity on doubles | rounding is monotone (F64Order), the arguments handed over stay in the domain of the oracle; concrete doubles for the refuted parts | partial: The special functions are external: ranges and monotonicity on doubles are explicit hypotheses, met together by a concrete instance in C156_nonvacuous. Partial: the refuted cases (BetaPrime monotonicity, F and Gamma overflow, Levy at -0.0) are exhibited by theorems. |
| C157 | Reported modes maximise the density in double arithmetic | Continuous*.v, Discrete.v at f64 | monotonicity of each rounded operation via the saturated real value V; refutations by evaluation | partial: Proved for Normal, Exponential, Student-t, Cosine, Geometric; Cauchy and Pareto under explicit no-overflow conditions with refutations outside them; Logistic refuted for a correctly rounded exp (the density next to the location is one ulp larger); Laplace refuted (pdf returns the cdf). |
| C158 | Remaining accessors, conversions, standard distributions and display texts | Generic and exact semantics. | Unfolding, constructor inversion, the C67 and C70 results for the covariance; case analysis on the comparisons of Beta.median. | partial: The default correlation multiplies by the root of the variances instead of dividing (as C67): right only where every variance is 1, refuted otherwise. The constants stored in Beta::median for (3,2) and (2,3) are proved unreachable. |
| C159 | Densities are exactly symmetric in double arithmetic | Continuous*.v at f64 | Oddness of rounded subtraction, division and multiplication up to the sign of zero; doubles are equal when the saturated real value and the sign agree; commutativity of rounded + and *. | partial: Refuted: the logistic density (number at 2048, NaN at -2048), the arcsine density at the end point 0 (+infinity at +0.0, -infinity at -0.0), a symmetric triangular narrower than the hard-coded tolerance at its end points. The evenness of cos and the symmetry of the external beta function are explicit hypotheses. |
| C160 | Convolution in double arithmetic: validity, commutativity, and when the order of many is irrelevant | the convolve methods of Normal, Cauchy, Poisson, Gamma, Binomial, Bernoulli and convolve_many over the double instance | commutativity of the rounded sum; closure of the positive doubles; exactness of sums of whole numbers up to 2^53, induction over the list | partial: Refuted: Gamma convolutions of different rates depend on the order (the second rate is ignored), three Poissons with rates 1, 1 and 2^53 convolve to different rates in different orders, and finite Normals convolve to an infinite and then to a NaN location, with Ok. |
| C161 | Mixtures in doubles: distribution function, density and moments | doubles: mixture cdf, pdf, mean and variance as left-to-right double sums, for any component type | induction over the weights with rounding monotone; concrete computation for the refutations | partial: Refuted: with accepted weights 1 and 2^-20 the returned Probability is 1 + 2^-20; a weight of zero times an infinite component density is NaN; two identical components of variance 1 and mean 244675115, weights 3/8 and 5/8 (exact sum 1), have variance -8. Everything else in the property is proved. |
| C162 | Quantiles and medians in doubles | the same operations in doubles, libm through the range record of C133 plus what the medians need of ln 2 and powers of 2 | value of each operation as a saturated rounding, monotone in its input; instances: correctly rounded ln and tan (the double nearest pi/2 is below pi/2, by a Machin series) | partial: Proved in doubles, for every libm within the stated range assumptions: quantiles of Uniform, Normal and Cauchy (numbers, never decreasing), medians of eight families on their support. Refuted: Exponential (every quantile is at most zero, that of 0 is negative); GPD with a shape so small that 2^zeta rounds to 1 (the median is the location). |
| C163 | Computed moments are accurate to a few units in the last place | the double operations of each moment; exact formulas over the reals | relation acc n l h x r (x is r after at most n roundings, magnitude of r) closed under *, /, +, sqrt, and - on exact operands; pi between two rationals by Machin series | partial: Proved for 23 families and the pi constants (relative error at most k * 2^-52, k = number of roundings; one rounding for the mean of Uniform whatever cancels). Refuted for the variances of Triangular (computed negative) and beta-binomial (computed 0 for n = 1, alpha = 2^60, beta = 1): no correct digit at moderate parameters. |
| C164 | Computed densities agree with the formulas to a bounded number of units in the last place | double instance; a libm whose exp and powf are within one unit where the result is between e^-64 and e^64 (met by the correctly rounded instance) | relative-error algebra of C163 extended to signed values, exponentials (absolute error of the exponent times 2Bn) and powers | partial: Proved for ten densities and the cdfs of Logistic and Gumbel, with the number of units explicit (Uniform 1, Cauchy 10, Exponential 68, Pareto 72, Logistic 398 and 133, Gumbel 652 and 265, Normal 521, FoldedNormal 393, Rayleigh 262, Weibull 665). Refuted for the Exponential cdf, computed as 1 - exp(-lx): at rate 1 and x = 2^-60 no digit is right, whatever accurate exp is used. |
| C165 | Computed densities that need a gamma or beta function are accurate to a bounded number of units | Error analysis of pdf as computed in doubles, relative to the real formula, for the families that use gamma/beta/pow. | Composition of the rounding lemmas of Proofs/F64Acc.v and Proofs/ExpAcc.v; the oracle hypotheses are in Spec/AccuracySpec.v. | proved: Relative error bounds, proved for all arguments in the stated region, for any exp/pow/gamma/beta within one unit of 2^-52 (C165_accurate exhibits such functions). C165_nonvacuous gives members and arguments meeting every hypothesis. |
| C166 | The numerical constants are what their names say, and Bernoulli's median at one half is the midpoint | consts.rs in both semantics; Bernoulli median at one half. | Evaluation in the exact semantics; correct rounding of the quotient of two integers. | proved: Exact values in the real semantics, nearest doubles in the f64 semantics (the pi constants in doubles: C163_constants). Euler's number in doubles (PI_E, PI_E_2, unused by the crate) is only stated exactly. |
| C167 | Computed binomial and geometric probabilities are accurate to about three units per trial | Binomial and Geometric pmf in doubles; powi as an oracle with an error of one unit per factor, met by repeated squaring. | Relative error composition; induction on the binary exponent for repeated squaring. | proved: Proved with the exponent-dependent bound; C167_accurate proves that repeated squaring (what f64::powi compiles to) meets the assumption on powi. |
| C168 | A mixture is as accurate as its components | Mixture pdf, cdf and mean in doubles, for any component type. | Induction on the running sum; the rounding lemmas of Proofs/F64Acc.v. | proved: Generic in the component type. Composes with C164/C165, whose conclusions have the form of the hypothesis. |
| C169 | Maximum-likelihood fits in double arithmetic | Poisson and Normal fit_mle in the double semantics | exactness of integer sums up to 2^53 down to the bits (induction over the sample), one rounding for the quotient, and the running relative-error bound of C168 for the mean of positive data; refutations by kernel computation on explicit samples | partial: Refuted in two places, each with a partial next to it: [0.1; 0.1; 0.1] is fitted with a mean above every sample and a nonzero variance (refused exactly when the repeated value is a whole number and sums stay below 2^53), and above 2^53 the order of the sample changes both fits (for counts with total at most 2^53 it does not). |
| C170 | Standardised values, derived parameters and scores in double arithmetic | z, precision, width, fwhm, mu and score functions in doubles | signed relative-error algebra of C164 (one rounding for x - mu whatever its sign); running sums of positive terms by induction over the sample | proved: Accuracy of the values computed; that the two scores are not the derivatives of the log-likelihoods is C72. |
| C171 | Log-likelihood and entropy of a coin in double arithmetic | Bernoulli log_pmf, log_likelihood, shannon_entropy and Geometric shannon_entropy in doubles | induction over the sample with nonpositive saturated doubles; the guard bounds p and 1-p below by 2^-24, so both logarithms are finite; witness for Geometric computed by the kernel | partial: Proved for Bernoulli. Refuted for Geometric: at p = 1, which the constructor accepts, the entropy is NaN in doubles (0 * -infinity; the entropy of that law is 0), for every libm with log2 0 = -infinity; proved to be a number at least 0 for every p between 2^-53 and 1 - 2^-53. |
