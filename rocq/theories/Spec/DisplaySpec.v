(** * What a formatter of doubles is assumed to do, and the constructor calls whose result is printed *)
From Coq Require Import Ascii.
From Verif.Num Require Import Scalar F64.
From Verif.Model Require Import Rust Probability Continuous Continuous2 Continuous3 Discrete Normal2 Multivariate Display.
Import ListNotations.
Open Scope string_scope.

(** punctuation that the text of a number never contains *)
Definition punctuation : list ascii := [","; " "; ";"; "("; ")"; "["; "]"; "{"; "}"]%char.
Fixpoint chars (s : string) : list ascii := match s with EmptyString => [] | String c s => c :: chars s end.
Definition plain (s : string) : Prop := forall c, In c (chars s) -> ~ In c punctuation.
(** different doubles have different texts, free of punctuation *)
Definition fmt_ok (FM : Fmt f64) : Prop :=
  (forall x y : f64, show x = show y -> x = y) /\ (forall x y : f64, debug x = debug y -> x = y) /\
  (forall x : f64, plain (show x)) /\ (forall x : f64, plain (debug x) /\ debug x <> "").

(** A constructor call of one of the distributions *)
Inductive call : Type :=
| C_Bernoulli (x : f64)
| C_Beta (x : f64) (y : f64)
| C_BetaBinomial (x : Z) (y : f64) (z : f64)
| C_BetaPrime (x : f64) (y : f64)
| C_Binomial (x : Z) (y : Probability f64)
| C_Cauchy (x : f64) (y : f64)
| C_Chi (x : Z)
| C_ChiSq (x : Z)
| C_Cosine (x : f64) (y : f64)
| C_Erlang (x : Z) (y : f64)
| C_Exponential (x : f64)
| C_FDist (x : Z) (y : Z)
| C_Frechet (x : f64)
| C_Gamma (x : f64) (y : f64)
| C_Geometric (x : f64)
| C_GEV (x : f64) (y : f64) (z : f64)
| C_GPD (x : f64) (y : f64) (z : f64)
| C_Gumbel (x : f64) (y : f64)
| C_InvGamma (x : f64) (y : f64)
| C_InvNormal (x : f64) (y : f64)
| C_Kumaraswamy (x : f64) (y : f64)
| C_Laplace (x : f64) (y : f64)
| C_Levy (x : f64) (y : f64)
| C_Logistic (x : f64) (y : f64)
| C_Pareto (x : f64) (y : f64)
| C_Poisson (x : f64)
| C_Rayleigh (x : f64)
| C_StudentT (x : f64)
| C_Weibull (x : f64) (y : f64)
| C_DegenerateF (x : f64)
| C_UvNormal (x : f64) (y : f64)
| C_PairedNormal (x : f64 * f64) (y : f64 * f64)
| C_Categorical (x : list f64)
| C_Multinomial (x : Z) (y : list f64).
Definition text_of {A E} (fmt : A -> string) (r : result A E) : option string :=
  match r with Ok d => Some (fmt d) | Err _ => None end.
(** the text of the distribution the call returns, if it returns one *)
Definition printed (m : Libm) (FM : Fmt f64) (a : call) : option string :=
  match a with
  | C_Bernoulli x => text_of Bernoulli_fmt (Bernoulli.new (F := f64) x)
  | C_Beta x y => text_of Beta_fmt (Beta.new (F := f64) x y)
  | C_BetaBinomial x y z => text_of BetaBinomial_fmt (BetaBinomial.new (F := f64) x y z)
  | C_BetaPrime x y => text_of BetaPrime_fmt (BetaPrime.new (F := f64) x y)
  | C_Binomial x y => text_of Binomial_fmt (Binomial.new (F := f64) x y)
  | C_Cauchy x y => text_of Cauchy_fmt (Cauchy.new (F := f64) x y)
  | C_Chi x => text_of Chi_fmt (Chi.new (F := f64) x)
  | C_ChiSq x => text_of ChiSq_fmt (ChiSq.new (F := f64) x)
  | C_Cosine x y => text_of Cosine_fmt (Cosine.new (F := f64) x y)
  | C_Erlang x y => text_of Erlang_fmt (Erlang.new (F := f64) x y)
  | C_Exponential x => text_of Exponential_fmt (Exponential.new (F := f64) x)
  | C_FDist x y => text_of FDist_fmt (FDist.new (F := f64) x y)
  | C_Frechet x => text_of Frechet_fmt (Frechet.new (F := f64) x)
  | C_Gamma x y => text_of Gamma_fmt (Gamma.new (F := f64) x y)
  | C_Geometric x => text_of Geometric_fmt (Geometric.new (F := f64) x)
  | C_GEV x y z => text_of GEV_fmt (GEV.new (F := f64) x y z)
  | C_GPD x y z => text_of GPD_fmt (GPD.new (F := f64) x y z)
  | C_Gumbel x y => text_of Gumbel_fmt (Gumbel.new (F := f64) x y)
  | C_InvGamma x y => text_of InvGamma_fmt (InvGamma.new (F := f64) x y)
  | C_InvNormal x y => text_of InvNormal_fmt (InvNormal.new (F := f64) x y)
  | C_Kumaraswamy x y => text_of Kumaraswamy_fmt (map_ok Kumaraswamy.from (Kumaraswamy.p_new x y))
  | C_Laplace x y => text_of Laplace_fmt (Laplace.new (F := f64) x y)
  | C_Levy x y => text_of Levy_fmt (Levy.new (F := f64) x y)
  | C_Logistic x y => text_of Logistic_fmt (Logistic.new (F := f64) x y)
  | C_Pareto x y => text_of Pareto_fmt (Pareto.new (F := f64) x y)
  | C_Poisson x => text_of Poisson_fmt (Poisson.new (F := f64) x)
  | C_Rayleigh x => text_of Rayleigh_fmt (Rayleigh.new (F := f64) x)
  | C_StudentT x => text_of StudentT_fmt (StudentT.new (F := f64) x)
  | C_Weibull x y => text_of Weibull_fmt (map_ok Weibull.from (Weibull.p_new x y))
  | C_DegenerateF x => text_of DegenerateF_fmt (Ok (E := unit) (DegenerateF.new x))
  | C_UvNormal x y => text_of UvNormal_fmt (UvNormal.new (F := f64) x y)
  | C_PairedNormal x y => text_of PairedNormal_fmt (PairedNormal.new (F := f64) x y)
  | C_Categorical x => text_of Categorical_fmt (Categorical.new (F := f64) x)
  | C_Multinomial x y => text_of Multinomial_fmt (Multinomial.new (F := f64) x y)
  end.
