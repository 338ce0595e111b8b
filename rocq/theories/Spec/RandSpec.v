(** * Laws of samplers, and what the samplers of [rand_distr] should be

    [Pr E p] reads "over the generator states, the event [E] has probability
    [p]".  Nothing is assumed about it except that it depends only on which
    states are in the event. *)
From Coq Require Import Reals ZArith.
From Coquelicot Require Import Coquelicot.
From Verif.Num Require Import Scalar XReal.
From Verif.Model Require Import Rust Samplers.
From Verif.Spec Require Import DistSpec DiscreteSpec GammaSpec.
Open Scope R_scope.

Section Laws.
Context {S : Type} (Pr : (S -> Prop) -> R -> Prop).
Definition extensional : Prop := forall E E' p, (forall s, E s <-> E' s) -> Pr E p -> Pr E' p.
(** the call returns, and the value has [P] *)
Definition yields {A} (draw : S -> res (A * S)) (P : A -> Prop) (s : S) : Prop := exists a s', draw s = Ret (a, s') /\ P a.
Definition at_most (y : R) (v : xreal) : Prop := exists x, v = Fin x /\ x <= y.
(** the draw always returns a finite number, and is <= y with probability the
    mass the density has below y / the value of the distribution function at y *)
Definition law_density (lo hi : Rbar) (f : R -> R) (draw : S -> res (xreal * S)) : Prop :=
  (forall s, yields draw (fun v => exists x, v = Fin x) s) /\
  forall y p, inside lo hi y -> is_RInt_gen f (above lo) (at_point y) p -> Pr (yields draw (at_most y)) p.
Definition law_df (lo hi : Rbar) (cdf : xreal -> xreal) (draw : S -> res (xreal * S)) : Prop :=
  (forall s, yields draw (fun v => exists x, v = Fin x) s) /\
  forall y, inside lo hi y -> Pr (yields draw (at_most y)) (rf cdf y).
(** the draw is the natural number [k] with probability [law k] *)
Definition law_mass (law : nat -> R) (draw : S -> res (Z * S)) : Prop :=
  (forall s, yields draw (fun v => (0 <= v)%Z) s) /\
  forall k, Pr (yields draw (fun v => v = Z.of_nat k)) (law k).
(** a uniform variate on (a, b): each end interval holding the fraction [p] of
    it has probability [p].  The end points themselves are left out *)
Definition uniform_draw (a b : R) (draw : S -> xreal * S) : Prop :=
  (forall s, exists x, fst (draw s) = Fin x /\ a < x < b) /\
  forall p, 0 <= p <= 1 ->
    Pr (fun s => exists x, fst (draw s) = Fin x /\ x <= a + p * (b - a)) p /\
    Pr (fun s => exists x, fst (draw s) = Fin x /\ a + (1 - p) * (b - a) <= x) p.
(** an event has at most one probability *)
Definition functional : Prop := forall E p q, 0 <= p -> 0 <= q -> Pr E p -> Pr E q -> p = q.
End Laws.

(** textbook densities *)
Definition exp_density (l x : R) : R := l * exp (- l * x).
Definition cauchy_density (m g x : R) : R := / (PI * g * (1 + ((x - m) / g) ^ 2)).
Definition pareto_density (xm al x : R) : R := al * Rpower xm al / Rpower x (al + 1).
Definition weibull_density (l k x : R) : R := k / l * Rpower (x / l) (k - 1) * exp (- Rpower (x / l) k).
Definition triangular_density (a b c x : R) : R :=
  if Rle_dec x c then 2 * (x - a) / ((b - a) * (c - a)) else 2 * (b - x) / ((b - a) * (b - c)).
Definition log_normal_density (m s x : R) : R := / (x * s * sqrt (2 * PI)) * exp (- (ln x - m) ^ 2 / (2 * s ^ 2)).
(** with the normalising constants [B] = Beta(a, b), [G] = Gamma(k/2), ... as arguments *)
Definition beta_density (B a b x : R) : R := Rpower x (a - 1) * Rpower (1 - x) (b - 1) / B.
Definition chi_squared_density (G k x : R) : R := Rpower x (k / 2 - 1) * exp (- x / 2) / (Rpower 2 (k / 2) * G).
Definition fisher_density (B m n x : R) : R :=
  Rpower (m / n) (m / 2) * Rpower x (m / 2 - 1) * Rpower (1 + m / n * x) (- ((m + n) / 2)) / B.
Definition student_density (G1 G2 n x : R) : R := G1 / (sqrt (n * PI) * G2) * Rpower (1 + x ^ 2 / n) (- ((n + 1) / 2)).

(** every sampler draws from the law it is named after, for the arguments its
    documentation allows *)
Record rand_distr_ok {S : Type} (Pr : (S -> Prop) -> R -> Prop) (RD : RandDistr S xreal) : Prop := {
  ok_exp : forall l, 0 < l -> law_density Pr 0 p_infty (exp_density l) (rd_exp (Fin l));
  ok_cauchy : forall m g, 0 < g -> law_density Pr m_infty p_infty (cauchy_density m g) (rd_cauchy (Fin m) (Fin g));
  ok_pareto : forall xm al, 0 < xm -> 0 < al -> law_density Pr xm p_infty (pareto_density xm al) (rd_pareto (Fin xm) (Fin al));
  ok_weibull : forall l k, 0 < l -> 0 < k -> law_density Pr 0 p_infty (weibull_density l k) (rd_weibull (Fin l) (Fin k));
  ok_triangular : forall a b c, a < c < b -> law_density Pr a b (triangular_density a b c) (rd_triangular (Fin a) (Fin b) (Fin c));
  ok_log_normal : forall m s, 0 < s -> law_density Pr 0 p_infty (log_normal_density m s) (rd_log_normal (Fin m) (Fin s));
  ok_beta : forall a b B, 0 < a -> 0 < b -> is_Beta a b B -> law_density Pr 0 1 (beta_density B a b) (rd_beta (Fin a) (Fin b));
  ok_chi_squared : forall k G, 0 < k -> is_Gamma (k / 2) G -> law_density Pr 0 p_infty (chi_squared_density G k) (rd_chi_squared (Fin k));
  ok_fisher : forall m n B, 0 < m -> 0 < n -> is_Beta (m / 2) (n / 2) B -> law_density Pr 0 p_infty (fisher_density B m n) (rd_fisher_f (Fin m) (Fin n));
  ok_student : forall n G1 G2, 0 < n -> is_Gamma ((n + 1) / 2) G1 -> is_Gamma (n / 2) G2 ->
    law_density Pr m_infty p_infty (student_density G1 G2 n) (rd_student_t (Fin n));
  ok_binomial : forall (n : nat) p, 0 <= p <= 1 -> (Z.of_nat n < 2 ^ 64)%Z -> law_mass Pr (binomial_law n p) (rd_binomial (Z.of_nat n) (Fin p));
  (** returns the number as a float *)
  ok_poisson : forall l, 0 < l -> (forall s, yields (rd_poisson (Fin l)) (fun v => exists k, v = Fin (INR k)) s) /\
    forall k, Pr (yields (rd_poisson (Fin l)) (fun v => v = Fin (INR k))) (poisson_law l k);
  ok_geometric : forall p, 0 < p <= 1 -> law_mass Pr (geometric_law p) (rd_geometric (Fin p));
  ok_uniform_i64 : forall a b, (a <= b)%Z -> forall k, (a <= k <= b)%Z -> Pr (yields (rd_uniform_i64 a b) (fun v => v = k)) (/ IZR (b - a + 1))
}.
