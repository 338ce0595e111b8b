(** * The [Display] implementations of the distributions

    The text of a double ([{}] and [{:?}]) is an oracle, [Fmt]; integers are
    printed in decimal.  Width/precision flags of the formatter are not
    modelled: this is what [to_string()] returns. *)
From Coq Require Import DecimalString.
From Verif.Model Require Import Rust Constraints Probability Params Consts Continuous Continuous2 Continuous3 Discrete Normal2 Multivariate.
From Verif.Model Require MvNormal.
Open Scope rust_scope.

(** impl Display / Debug for f64 (core::fmt) *)
Class Fmt (F : Type) := { show : F -> string; debug : F -> string }.
(** impl Display for i64, u64, usize *)
Definition show_Z (z : Z) : string := NilZero.string_of_int (Z.to_int z).
(** the pieces of a [write!] *)
Fixpoint cat (l : list string) : string := match l with [] => EmptyString | s :: l => String.append s (cat l) end.
(** the inside of the Debug text of an array: elements separated by [", "] *)
Fixpoint commas (l : list string) : string :=
  match l with [] => EmptyString | [s] => s | s :: l => cat [s; ", "; commas l]%string end.
(** [{:?}] of an array *)
Definition debug_arr (l : list string) : string := cat ["["; commas l; "]"]%string.
(** probability.rs:314 derive(Debug) on the tuple struct *)
Definition debug_simplex {F} {FM : Fmt F} (l : list F) : string :=
  cat ["SimplexVector("; debug_arr (map debug l); ")"]%string.

Section M.
Context {F : Type} {SF : Scalar F} {FM : Fmt F}.
Local Open Scope string_scope.

(** probability.rs:154-156 *)
Definition Probability_fmt (p : Probability F) : string := show (unwrap p).
(** uniform.rs:60-64, 183-189 *)
Definition UniformF_fmt (d : UniformF.t F) : string := cat ["U("; show (UniformF.lb (UniformF.pr d)); ", "; show (UniformF.ub d); ")"].
(** uniform.rs:60-64, 301-307: the i64 addition may overflow *)
Definition UniformI_fmt (d : UniformI.t F) : res string :=
  let! u := UniformI.ub d in Ret (cat ["U{"; show_Z (UniformI.lb (UniformI.pr d)); ", "; show_Z u; "}"]).
(** degenerate.rs:166-170 at f64 and i64 *)
Definition DegenerateF_fmt (d : DegenerateF.t F) : string := cat ["δ(x - "; show (DegenerateF.k d); ")"].
Definition DegenerateI_fmt (d : DegenerateI.t) : string := cat ["δ(x - "; show_Z (DegenerateI.k d); ")"].
(** normal/univariate.rs:230-234 *)
Definition UvNormal_fmt (d : UvNormal.t F) : string := cat ["N("; show (UvNormal.mu (UvNormal.pr d)); ", "; show (UvNormal.variance d); ")"].
(** lognormal.rs:141-145 *)
Definition LogNormal_fmt (d : LogNormal.t F) : string := cat ["LogNormal("; show (LogNormal.mu d); ", "; show (LogNormal.variance d); ")"].
(** normal/paired.rs:186-190 *)
Definition PairedNormal_fmt (d : PairedNormal.t F) : string :=
  cat ["N("; debug_arr (map debug (arr2 (PairedNormal.mean d))); ", "; debug_arr (map (fun r => debug_arr (map debug r)) (PairedNormal.covariance d)); ")"].
(** normal/bivariate.rs:178-182 *)
Definition BvNormal_fmt (d : BvNormal.t F) : string :=
  cat ["N("; debug_arr (map debug (arr2 (BvNormal.mean d))); ", "; debug_arr (map (fun r => debug_arr (map debug r)) (BvNormal.covariance d)); ")"].
(** categorical.rs:106-108 *)
Definition Categorical_fmt (d : Categorical.t F) : string := cat ["Cat("; debug_simplex (Categorical.ps (Categorical.pr d)); ")"].
(** multivariate/multinomial.rs:166-170 *)
Definition Multinomial_fmt (d : Multinomial.t F) : string :=
  cat ["Mult("; show_Z (Multinomial.n (Multinomial.pr d)); "; "; debug_simplex (Multinomial.ps (Multinomial.pr d)); ")"].
(** multivariate/dirichlet.rs:137-139 *)
Definition Dirichlet_fmt (d : Dirichlet.t F) : string := cat ["Dir("; debug_arr (map debug (Dirichlet.alphas d)); ")"].
(** multivariate/lognormal.rs:165-173, at the only S with a Display: f64 *)
Definition MvLogNormal_fmt (d : MvLogNormal.t F F) : string :=
  let p := MvNormal.pr (MvLogNormal.nrm d) in
  cat ["LogNormal("; debug_arr (map debug (MvNormal.mu p)); ", "; show (MvNormal.Sigma p); ")"].
(** arcsine.rs:25-29, 116-122 *)
Definition Arcsine_fmt (d : Arcsine.t F) : string := cat ["Arcsine("; show (Arcsine.a (Arcsine.pr d)); ", "; show (Arcsine.b (Arcsine.pr d)); ")"].
(** bernoulli.rs:180-182 *)
Definition Bernoulli_fmt (d : Bernoulli.t F) : string := cat ["Ber("; show (unwrap (Bernoulli.p (Bernoulli.pr d))); ")"].
(** beta.rs:207-213 *)
Definition Beta_fmt (d : Beta.t F) : string := cat ["Beta("; show (Beta.alpha (Beta.pr d)); ", "; show (Beta.beta (Beta.pr d)); ")"].
(** beta_binomial.rs:135-141 *)
Definition BetaBinomial_fmt (d : BetaBinomial.t F) : string := cat ["BB("; show_Z (BetaBinomial.n (BetaBinomial.pr d)); ", "; show (BetaBinomial.alpha (BetaBinomial.pr d)); ", "; show (BetaBinomial.beta (BetaBinomial.pr d)); ")"].
(** beta_prime.rs:146-152 *)
Definition BetaPrime_fmt (d : BetaPrime.t F) : string := cat ["BetaPrime("; show (BetaPrime.alpha (BetaPrime.pr d)); ", "; show (BetaPrime.beta (BetaPrime.pr d)); ")"].
(** binomial.rs:32-36, 175-181 *)
Definition Binomial_fmt (d : Binomial.t F) : string := cat ["Bin("; show_Z (Binomial.n (Binomial.pr d)); ", "; show (unwrap (Binomial.p (Binomial.pr d))); ")"].
(** cauchy.rs:114-120 *)
Definition Cauchy_fmt (d : Cauchy.t F) : string := cat ["Cauchy("; show (Cauchy.x0 (Cauchy.pr d)); ", "; show (Cauchy.gamma (Cauchy.pr d)); ")"].
(** chi.rs:126-128 *)
Definition Chi_fmt (d : Chi.t) : string := cat ["Chi("; show_Z (Chi.k (Chi.pr d)); ")"].
(** chi_sq.rs:119-121 *)
Definition ChiSq_fmt (d : ChiSq.t) : string := cat ["ChiSq("; show_Z (ChiSq.k (ChiSq.pr d)); ")"].
(** cosine.rs:102-108 *)
Definition Cosine_fmt (d : Cosine.t F) : string := cat ["Cosine("; show (Cosine.mu (Cosine.pr d)); ", "; show (Cosine.s (Cosine.pr d)); ")"].
(** erlang.rs:100-106 *)
Definition Erlang_fmt (d : Erlang.t F) : string := cat ["Erlang("; show_Z (Erlang.k (Erlang.pr d)); ", "; show (Erlang.lambda (Erlang.pr d)); ")"].
(** exponential.rs:108-110 *)
Definition Exponential_fmt (d : Exponential.t F) : string := cat ["Exp("; show (Exponential.lambda (Exponential.pr d)); ")"].
(** f_dist.rs:170-174 *)
Definition FDist_fmt (d : FDist.t) : string := cat ["F("; show_Z (FDist.d1 (FDist.pr d)); ", "; show_Z (FDist.d2 (FDist.pr d)); ")"].
(** folded_normal.rs:137-141 *)
Definition FoldedNormal_fmt {SP : Special F} (d : FoldedNormal.t F) : string := cat ["FN("; show (FoldedNormal.mu (FoldedNormal.pr d)); ", "; show (FoldedNormal.variance d); ")"].
(** frechet.rs:161-165 *)
Definition Frechet_fmt (d : Frechet.t F) : string := cat ["Frechet("; show (Frechet.alpha (Frechet.pr d)); ")"].
(** gamma.rs:193-199 *)
Definition Gamma_fmt (d : Gamma.t F) : string := cat ["Gamma("; show (Gamma.alpha (Gamma.pr d)); ", "; show (Gamma.beta (Gamma.pr d)); ")"].
(** geometric.rs:106-110 *)
Definition Geometric_fmt (d : Geometric.t F) : string := cat ["Geometric("; show (unwrap (Geometric.p (Geometric.pr d))); ")"].
(** gev.rs:187-193 *)
Definition GEV_fmt (d : GEV.t F) : string := cat ["GEV("; show (GEV.mu (GEV.pr d)); ", "; show (GEV.sigma (GEV.pr d)); ", "; show (GEV.zeta (GEV.pr d)); ")"].
(** gpd.rs:131-137 *)
Definition GPD_fmt (d : GPD.t F) : string := cat ["GPD("; show (GPD.mu (GPD.pr d)); ", "; show (GPD.sigma (GPD.pr d)); ", "; show (GPD.zeta (GPD.pr d)); ")"].
(** gumbel.rs:123-129 *)
Definition Gumbel_fmt (d : Gumbel.t F) : string := cat ["Gumbel("; show (Gumbel.mu (Gumbel.pr d)); ", "; show (Gumbel.beta (Gumbel.pr d)); ")"].
(** inverse_gamma.rs:126-132 *)
Definition InvGamma_fmt (d : InvGamma.t F) : string := cat ["Inv-Gamma("; show (InvGamma.alpha (InvGamma.pr d)); ", "; show (InvGamma.beta (InvGamma.pr d)); ")"].
(** inverse_normal.rs:154-160 *)
Definition InvNormal_fmt (d : InvNormal.t F) : string := cat ["IG("; show (InvNormal.mu (InvNormal.pr d)); ", "; show (InvNormal.lambda (InvNormal.pr d)); ")"].
(** kumaraswamy.rs:125-131 *)
Definition Kumaraswamy_fmt (d : Kumaraswamy.t F) : string := cat ["Kumaraswamy("; show (Kumaraswamy.a (Kumaraswamy.pr d)); ", "; show (Kumaraswamy.b (Kumaraswamy.pr d)); ")"].
(** laplace.rs:105-111 *)
Definition Laplace_fmt (d : Laplace.t F) : string := cat ["Laplace("; show (Laplace.mu (Laplace.pr d)); ", "; show (Laplace.b (Laplace.pr d)); ")"].
(** levy.rs:111-117 *)
Definition Levy_fmt (d : Levy.t F) : string := cat ["Levy("; show (Levy.mu (Levy.pr d)); ", "; show (Levy.c (Levy.pr d)); ")"].
(** logistic.rs:96-102 *)
Definition Logistic_fmt (d : Logistic.t F) : string := cat ["Logistic("; show (Logistic.mu (Logistic.pr d)); ", "; show (Logistic.s (Logistic.pr d)); ")"].
(** pareto.rs:153-159 *)
Definition Pareto_fmt (d : Pareto.t F) : string := cat ["Pareto("; show (Pareto.x_m (Pareto.pr d)); ", "; show (Pareto.alpha (Pareto.pr d)); ")"].
(** poisson.rs:158-162 *)
Definition Poisson_fmt (d : Poisson.t F) : string := cat ["Poi("; show (Poisson.lambda (Poisson.pr d)); ")"].
(** rayleigh.rs:108-112 *)
Definition Rayleigh_fmt (d : Rayleigh.t F) : string := cat ["Rayleigh("; show (Rayleigh.sigma (Rayleigh.pr d)); ")"].
(** student_t.rs:143-147 *)
Definition StudentT_fmt (d : StudentT.t F) : string := cat ["StudentT("; show (StudentT.nu (StudentT.pr d)); ")"].
(** triangular.rs:40-44, 166-172 *)
Definition Triangular_fmt (d : Triangular.t F) : string := cat ["Triangular("; show (Triangular.a (Triangular.pr d)); ", "; show (Triangular.b (Triangular.pr d)); ", "; show (Triangular.c (Triangular.pr d)); ")"].
(** weibull.rs:174-180 *)
Definition Weibull_fmt (d : Weibull.t F) : string := cat ["Weibull("; show (Weibull.lambda (Weibull.pr d)); ", "; show (Weibull.k (Weibull.pr d)); ")"].
End M.
