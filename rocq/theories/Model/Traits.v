(** * Default methods of the traits in /repo/src/lib.rs, statistics.rs,
      fitting.rs, distance.rs *)
From Verif.Model Require Import Rust Constraints Probability Params.
Open Scope rust_scope.

(** ** Sampling: lib.rs:35-62, 157-166.
    A distribution's [sample] is a state transformer that may panic. *)
Section Sampling.
Context {S A : Type} (sample : S -> res (A * S)).
(** lib.rs:158-160: (0..n).map(|_| self.sample(rng)).collect() *)
Fixpoint sample_n (n : nat) (s : S) : res (list A * S) :=
  match n with
  | O => Ret ([], s)
  | Datatypes.S n =>
      let! (x, s) := sample s in
      let! (xs, s) := sample_n n s in Ret (x :: xs, s)
  end.
(** lib.rs:59: Sampler::next; the iterator's state is the generator it borrows *)
Definition sampler_next (s : S) : res (option A * S) :=
  let! (x, s) := sample s in Ret (Some x, s).
(** core::iter::Iterator::take(n).collect() on the Sampler: stops at [None] *)
Fixpoint sampler_take (n : nat) (s : S) : res (list A * S) :=
  match n with
  | O => Ret ([], s)
  | Datatypes.S n =>
      let! (o, s) := sampler_next s in
      match o with
      | None => Ret ([], s)
      | Some x => let! (xs, s) := sampler_take n s in Ret (x :: xs, s)
      end
  end.
End Sampling.

(** ** Mutually recursive defaults.  [oa], [ob] are the implementor's
    overrides of the two methods (None = default body); a call chain longer
    than [fuel] runs out (Diverge). *)
Section Mutual.
Context {X A B : Type} (oa : option (X -> res A)) (ob : option (X -> res B))
        (da : (X -> res B) -> X -> res A) (db : (X -> res A) -> X -> res B).
Fixpoint call_a (fuel : nat) (x : X) : res A :=
  match fuel with
  | O => Diverge
  | Datatypes.S fuel => match oa with Some f => f x | None => da (call_b fuel) x end
  end
with call_b (fuel : nat) (x : X) : res B :=
  match fuel with
  | O => Diverge
  | Datatypes.S fuel => match ob with Some f => f x | None => db (call_a fuel) x end
  end.
End Mutual.

Section Defaults.
Context {F : Type} {SF : Scalar F}.
Notation Prb := (Probability F).

(** lib.rs:132-134 / 144-147 (ln_variant! 64-71) *)
Definition d_cdf {X} (log_cdf : X -> res F) (x : X) : res Prb := rmap (fun l => Prob (fexp l)) (log_cdf x).
Definition d_log_cdf {X} (cdf : X -> res Prb) (x : X) : res F := rmap p_ln (cdf x).
(** lib.rs:142, 149-152 *)
Definition d_ccdf {X} (cdf : X -> res Prb) (x : X) : res Prb := rmap p_not (cdf x).
Definition d_log_ccdf {X} (ccdf : X -> res Prb) (x : X) : res F := rmap p_ln (ccdf x).
(** lib.rs:218-226 *)
Definition d_pmf {X} (log_pmf : X -> res F) (x : X) : res Prb := rmap (fun l => Prob (fexp l)) (log_pmf x).
Definition d_log_pmf {X} (pmf : X -> res Prb) (x : X) : res F := rmap p_ln (pmf x).
(** lib.rs:256-261 *)
Definition d_pdf {X} (log_pdf : X -> res F) (x : X) : res F := rmap fexp (log_pdf x).
Definition d_log_pdf {X} (pdf : X -> res F) (x : X) : res F := rmap fln (pdf x).
(** statistics.rs:14-21 *)
Definition d_variance (sd : unit -> res F) (u : unit) : res F := rmap (fun s => s * s) (sd u).
Definition d_sd (var : unit -> res F) (u : unit) : res F := rmap fsqrt (var u).
(** statistics.rs:27, 30 *)
Definition d_kurtosis (ek : unit -> res F) (u : unit) : res F := rmap (fun e => e + #3) (ek u).
Definition d_excess_kurtosis (k : unit -> res F) (u : unit) : res F := rmap (fun k => k - #3) (k u).
(** statistics.rs:83, 86 *)
Definition d_quantile (cq : Prb -> res F) (p : Prb) : res F := cq (p_not p).
Definition d_cquantile (q : Prb -> res F) (p : Prb) : res F := q (p_not p).
(** statistics.rs:89-115 *)
Definition lower_quartile (q : Prb -> res F) : res F := q (Prob (#1 / #4)).
Definition d_median (q : Prb -> res F) : res F := q p_half.
Definition upper_quartile (q : Prb -> res F) : res F := q (Prob (#3 / #4)).
Definition iqr (q : Prb -> res F) : res F :=
  let! u := upper_quartile q in let! l := lower_quartile q in Ret (u - l).
Definition lower_fence (q : Prb -> res F) : res F :=
  let! l := lower_quartile q in let! i := iqr q in Ret (l - (#3 / #2) * i).
Definition upper_fence (q : Prb -> res F) : res F :=
  let! u := upper_quartile q in let! i := iqr q in Ret (u + (#3 / #2) * i).
(** fitting.rs:17-24 *)
Definition d_likelihood {X} (ll : X -> res F) (x : X) : res F := rmap fexp (ll x).
Definition d_log_likelihood {X} (l : X -> res F) (x : X) : res F := rmap fln (l x).
(** distance.rs:11, 15 *)
Definition d_mahalanobis {X} (sq : X -> res F) (x : X) : res F := rmap fsqrt (sq x).
Definition d_mahalanobis_sq {X} (d : X -> res F) (x : X) : res F := rmap (fun d => fpowi d 2) (d x).

(** statistics.rs:43-52 and 62-73: arrays as lists, [nth] in range for N x N input *)
Definition mat_get (m : list (list F)) (i j : nat) : F := nth j (nth i m []) #0.
Definition d_mv_variance (n : nat) (cov : list (list F)) : list F := map (fun i => mat_get cov i i) (seq 0 n).
Definition d_correlation (n : nat) (cov : list (list F)) : list (list F) :=
  map (fun i => map (fun j => mat_get cov i j * fsqrt (mat_get cov i i * mat_get cov j j)) (seq 0 n)) (seq 0 n).

(** lib.rs:293-306.  [conv1 : Self -> D], [conv2 : Output -> D]; [pop] takes the
    last element, the rest is folded in order; an error short-circuits. *)
Definition convolve_many {A D O} (conv1 : A -> D -> result O (Error F)) (conv2 : O -> D -> result O (Error F))
    (self : A) (rvs : list D) : result O (Error F) :=
  let n := Z.of_nat (List.length rvs) in
  let? _ := map_err (fun e => EConstraint (with_target e "n")) (check (GreaterThan 1%Z) n) in
  match rev rvs with
  | [] => Err (EInsufficientSamples 0) (* unreachable: n > 1; [unwrap] of [None] *)
  | last :: r =>
      fold_left (fun acc rv => and_then acc (fun d => conv2 d rv)) (rev r) (conv1 self last)
  end.
End Defaults.

(** ** Which methods each impl provides (transcribed from the impl blocks; the
    strings name the type, the booleans say whether the method is overridden).
    UvMoments: (variance, standard_deviation, kurtosis, excess_kurtosis). *)
Definition uvmoments_impls : list (string * (bool * bool * bool * bool)) :=
  let v3 := (true, false, true, true) in let vk := (true, false, true, false) in let ve := (true, false, false, true) in
  [ ("Mixture", vk); ("UvNormal", v3); ("Arcsine", v3); ("Bernoulli", v3); ("Beta", ve); ("BetaBinomial", vk);
    ("BetaPrime", ve); ("Binomial", vk); ("Chi", ve); ("ChiSq", ve); ("Cosine", ve); ("Degenerate<f64>", v3);
    ("Degenerate<i64>", v3); ("Erlang", ve); ("Exponential", v3); ("FDist", ve); ("FoldedNormal", v3); ("Frechet", ve);
    ("Gamma", ve); ("Geometric", ve); ("GeneralisedExtremeValue", ve); ("GeneralisedPareto", ve); ("Gumbel", v3);
    ("InvGamma", ve); ("InvNormal", ve); ("Kumaraswamy", ve); ("Laplace", v3); ("Levy", vk); ("Logistic", v3);
    ("LogNormal", ve); ("Pareto", ve); ("Poisson", vk); ("Rayleigh", v3); ("StudentT", ve); ("Triangular", v3);
    ("Uniform<f64>", v3); ("Uniform<i64>", ve); ("Weibull", ve) ]%string.
(** Distribution: (cdf, log_cdf) *)
Definition distribution_impls : list (string * (bool * bool)) :=
  map (fun n => (n, if String.eqb n "Erlang" then (false, true) else (true, false)))
  [ "Mixture"; "Dirichlet"; "MvLogNormal"; "Multinomial"; "BvNormal"; "MvNormal"; "DiagonalNormal"; "IsotropicNormal";
    "PairedNormal"; "UvNormal"; "Arcsine"; "Bernoulli"; "Beta"; "BetaBinomial"; "BetaPrime"; "Binomial"; "Categorical";
    "Cauchy"; "Chi"; "ChiSq"; "Cosine"; "Degenerate<f64>"; "Degenerate<i64>"; "Erlang"; "Exponential"; "FDist";
    "FoldedNormal"; "Frechet"; "Gamma"; "Geometric"; "GeneralisedExtremeValue"; "GeneralisedPareto"; "Gumbel"; "InvGamma";
    "InvNormal"; "Kumaraswamy"; "Laplace"; "Levy"; "Logistic"; "LogNormal"; "Pareto"; "Poisson"; "Rayleigh"; "StudentT";
    "Triangular"; "Uniform<f64>"; "Uniform<i64>"; "Weibull" ]%string.
(** ContinuousDistribution: (pdf, log_pdf); DiscreteDistribution: (pmf, log_pmf) *)
Definition density_impls : list (string * (bool * bool)) :=
  map (fun n => (n, if (String.eqb n "Erlang" || String.eqb n "Poisson")%bool then (false, true)
                    else if (String.eqb n "Dirichlet" || String.eqb n "Multinomial")%bool then (true, true) else (true, false)))
  [ "Mixture"; "Dirichlet"; "MvLogNormal"; "Multinomial"; "BvNormal"; "MvNormal"; "DiagonalNormal"; "IsotropicNormal";
    "PairedNormal"; "UvNormal"; "Arcsine"; "Bernoulli"; "Beta"; "BetaBinomial"; "BetaPrime"; "Binomial"; "Categorical";
    "Cauchy"; "Chi"; "ChiSq"; "Cosine"; "Degenerate<f64>"; "Degenerate<i64>"; "Erlang"; "Exponential"; "FDist";
    "FoldedNormal"; "Frechet"; "Gamma"; "Geometric"; "GeneralisedExtremeValue"; "GeneralisedPareto"; "Gumbel"; "InvGamma";
    "InvNormal"; "Kumaraswamy"; "Laplace"; "Levy"; "Logistic"; "LogNormal"; "Pareto"; "Poisson"; "Rayleigh"; "StudentT";
    "Triangular"; "Uniform<f64>"; "Uniform<i64>"; "Weibull" ]%string.
(** Quantiles: quantile overridden, cquantile not, in all of these; Likelihood:
    log_likelihood overridden in all five impls; Mahalanobis: the squared
    distance in all three. *)
Definition quantiles_impls : list (string * (bool * bool)) :=
  map (fun n => (n, (true, false)))
  [ "UvNormal"; "Arcsine"; "Bernoulli"; "Beta"; "Binomial"; "Cauchy"; "Chi"; "ChiSq"; "Cosine"; "Degenerate<f64>";
    "Degenerate<i64>"; "Exponential"; "Frechet"; "Geometric"; "GeneralisedExtremeValue"; "GeneralisedPareto"; "Gumbel";
    "Kumaraswamy"; "Laplace"; "Levy"; "Logistic"; "LogNormal"; "Pareto"; "Poisson"; "Rayleigh"; "StudentT"; "Triangular";
    "Uniform<f64>"; "Uniform<i64>"; "Weibull" ]%string.
Definition likelihood_impls : list (string * (bool * bool)) :=
  map (fun n => (n, (false, true))) [ "PairedNormal"; "UvNormal"; "Bernoulli"; "Beta"; "Gamma"; "Poisson" ]%string.
Definition mahalanobis_impls : list (string * (bool * bool)) :=
  map (fun n => (n, (false, true))) [ "MvNormal"; "DiagonalNormal"; "IsotropicNormal" ]%string.
