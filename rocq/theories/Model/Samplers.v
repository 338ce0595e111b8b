(** * [sample] methods that delegate to a sampler of the [rand_distr] crate

    [rand_distr] is external.  [RandDistr] lists the samplers the crate uses,
    each a function of the constructor's arguments (in [rand_distr] 0.4's order)
    and the generator state; constructor and [.unwrap()] are one step, so an
    argument the constructor rejects is [Panic].  What those samplers should do
    is written in Spec/RandSpec.v; nothing is assumed here. *)
From Verif.Model Require Import Rust Constraints Probability Params Consts Continuous Continuous2 Continuous3 Discrete.
From Coq Require Import ZArith List.

Class RandDistr (S F : Type) := {
  rd_exp : F -> S -> res (F * S);                    (* Exp::new(lambda) *)
  rd_cauchy : F -> F -> S -> res (F * S);            (* Cauchy::new(median, scale) *)
  rd_pareto : F -> F -> S -> res (F * S);            (* Pareto::new(scale, shape) *)
  rd_weibull : F -> F -> S -> res (F * S);           (* Weibull::new(scale, shape) *)
  rd_triangular : F -> F -> F -> S -> res (F * S);   (* Triangular::new(min, max, mode) *)
  rd_log_normal : F -> F -> S -> res (F * S);        (* LogNormal::new(mu, sigma) *)
  rd_beta : F -> F -> S -> res (F * S);              (* Beta::new(alpha, beta) *)
  rd_chi_squared : F -> S -> res (F * S);            (* ChiSquared::new(k) *)
  rd_fisher_f : F -> F -> S -> res (F * S);          (* FisherF::new(m, n) *)
  rd_student_t : F -> S -> res (F * S);              (* StudentT::new(n) *)
  rd_binomial : Z -> F -> S -> res (Z * S);          (* Binomial::new(n, p) *)
  rd_poisson : F -> S -> res (F * S);                (* Poisson::<f64>::new(lambda): floats *)
  rd_geometric : F -> S -> res (Z * S);              (* Geometric::new(p): failures before the first success *)
  rd_uniform_i64 : Z -> Z -> S -> res (Z * S)        (* Uniform::new_inclusive(low, high) *)
}.

Section M.
Context {F : Type} {SF : Scalar F} {S : Type} {RD : RandDistr S F}.
(** exponential.rs:53-57 *)
Definition exponential_sample (d : Exponential.t F) (s : S) : res (F * S) := rd_exp (Exponential.lambda (Exponential.pr d)) s.
(** cauchy.rs:66-72 *)
Definition cauchy_sample (d : Cauchy.t F) (s : S) : res (F * S) := rd_cauchy (Cauchy.x0 (Cauchy.pr d)) (Cauchy.gamma (Cauchy.pr d)) s.
(** pareto.rs:52-60 *)
Definition pareto_sample (d : Pareto.t F) (s : S) : res (F * S) := rd_pareto (Pareto.x_m (Pareto.pr d)) (Pareto.alpha (Pareto.pr d)) s.
(** weibull.rs:57-63 *)
Definition weibull_sample (d : Weibull.t F) (s : S) : res (F * S) := rd_weibull (Weibull.lambda (Weibull.pr d)) (Weibull.k (Weibull.pr d)) s.
(** triangular.rs:80-86; [get_params!] gives (a, b, c) *)
Definition triangular_sample (d : Triangular.t F) (s : S) : res (F * S) :=
  rd_triangular (Triangular.a (Triangular.pr d)) (Triangular.b (Triangular.pr d)) (Triangular.c (Triangular.pr d)) s.
(** lognormal.rs:59-65 with the default [standard_deviation], statistics.rs:21 *)
Definition lognormal_sample (d : LogNormal.t F) (s : S) : res (F * S) :=
  rd_log_normal (LogNormal.mean d) (fsqrt (LogNormal.variance d)) s.
(** beta.rs:61-67 *)
Definition beta_sample (d : Beta.t F) (s : S) : res (F * S) := rd_beta (Beta.alpha (Beta.pr d)) (Beta.beta (Beta.pr d)) s.
(** chi_sq.rs:52-58; [get_k!] casts to f64 *)
Definition chi_sq_sample (d : ChiSq.t) (s : S) : res (F * S) := rd_chi_squared (ChiSq.kf d) s.
(** f_dist.rs:57-65 *)
Definition f_dist_sample (d : FDist.t) (s : S) : res (F * S) := rd_fisher_f (FDist.f1 d) (FDist.f2 d) s.
(** student_t.rs:56-62 *)
Definition student_t_sample (d : StudentT.t F) (s : S) : res (F * S) := rd_student_t (StudentT.nu (StudentT.pr d)) s.
(** binomial.rs:75-82; usize and u64 have the same range here, so the casts do nothing *)
Definition binomial_sample (d : Binomial.t F) (s : S) : res (Z * S) :=
  rd_binomial (Binomial.n (Binomial.pr d)) (unwrap (Binomial.p (Binomial.pr d))) s.
(** poisson.rs:55-61: [as u64] truncates and saturates *)
Definition poisson_sample (d : Poisson.t F) (s : S) : res (Z * S) :=
  let! xs := rd_poisson (Poisson.lambda (Poisson.pr d)) s in let (x, s) := xs in Ret (f_to_Z 0 U64_MAX x, s).
(** geometric.rs:53-59 *)
Definition geometric_sample (d : Geometric.t F) (s : S) : res (Z * S) := rd_geometric (unwrap (Geometric.p (Geometric.pr d))) s.
(** uniform.rs:244-250: the upper bound is a checked i64 addition *)
Definition uniform_i64_sample (d : UniformI.t F) (s : S) : res (Z * S) :=
  let! u := UniformI.ub d in rd_uniform_i64 (UniformI.lb (UniformI.pr d)) u s.
End M.
