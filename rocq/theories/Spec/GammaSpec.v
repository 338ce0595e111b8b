(** * Euler's integrals and what the external [special_fun] functions should be

    The crate calls [x.gamma()], [a.beta(b)], [x.betainc(a,b)], [a.gammainc(x)],
    [x.erf()] of the crate special_fun.  These are the mathematical functions
    they are named after, as improper integrals; the [_exact] predicates say
    that an implementation computes them without error. *)
From Coq Require Import Reals.
From Coquelicot Require Import Coquelicot.
From Verif.Num Require Import Scalar XReal.
Open Scope R_scope.

Definition gamma_h (a t : R) : R := Rpower t (a - 1) * exp (- t).
Definition beta_h (a b t : R) : R := Rpower t (a - 1) * Rpower (1 - t) (b - 1).

(** Gamma(a) = g, Beta(a,b) = v, and the lower incomplete integrals *)
Definition is_Gamma (a g : R) : Prop := is_RInt_gen (gamma_h a) (at_right 0) (Rbar_locally p_infty) g.
Definition is_Beta (a b v : R) : Prop := is_RInt_gen (beta_h a b) (at_right 0) (at_left 1) v.
Definition is_lower_gamma (a x v : R) : Prop := is_RInt_gen (gamma_h a) (at_right 0) (at_point x) v.
Definition is_lower_beta (a b x v : R) : Prop := is_RInt_gen (beta_h a b) (at_right 0) (at_point x) v.

Section Oracles.
Context (SP : Special xreal).
Definition gamma_exact : Prop := forall a, 0 < a -> exists g, sf_gamma (Fin a) = Fin g /\ is_Gamma a g.
Definition beta_exact : Prop := forall a b, 0 < a -> 0 < b -> exists v, sf_beta (Fin a) (Fin b) = Fin v /\ is_Beta a b v.
(** the regularised incomplete beta function I_x(a,b) *)
Definition betainc_exact : Prop := forall x a b, 0 < x < 1 -> 0 < a -> 0 < b ->
  exists v w, is_lower_beta a b x v /\ is_Beta a b w /\ sf_betainc (Fin x) (Fin a) (Fin b) = Fin (v / w).
(** two possible meanings of [a.gammainc(x)]: the lower incomplete gamma
    function, or the same divided by Gamma(a) *)
Definition gammainc_lower : Prop := forall a x, 0 < a -> 0 < x ->
  exists v, is_lower_gamma a x v /\ sf_gammainc (Fin a) (Fin x) = Fin v.
Definition gammainc_regularised : Prop := forall a x, 0 < a -> 0 < x ->
  exists v g, is_lower_gamma a x v /\ is_Gamma a g /\ sf_gammainc (Fin a) (Fin x) = Fin (v / g).
(** digamma is the derivative of the logarithm of Gamma *)
Definition digamma_exact : Prop := forall a, 0 < a -> exists G v,
  (forall p, 0 < p -> is_Gamma p (G p)) /\ is_derive (fun p => ln (G p)) a v /\ sf_digamma (Fin a) = Fin v.
Definition loggamma_exact : Prop := forall a, 0 < a -> exists v, sf_loggamma (Fin a) = Fin (ln v) /\ is_Gamma a v.
Definition logbeta_exact : Prop := forall a b, 0 < a -> 0 < b -> exists v, sf_logbeta (Fin a) (Fin b) = Fin (ln v) /\ is_Beta a b v.
Definition erf_exact : Prop := forall x,
  sf_erf (Fin x) = Fin (2 / sqrt PI * RInt (fun t => exp (- (t * t))) 0 x).
(** Gauss's hypergeometric function 2F1(a,b;c;z), by Euler's integral, where that converges *)
Definition hyp2f1_exact : Prop := forall a b c z, 0 < a < c -> z < 1 -> exists v w,
  is_RInt_gen (fun t => Rpower t (a - 1) * Rpower (1 - t) (c - a - 1) * Rpower (1 - z * t) (- b)) (at_right 0) (at_left 1) v /\
  is_Beta a (c - a) w /\ sf_hyp2f1 (Fin a) (Fin b) (Fin c) (Fin z) = Fin (v / w).
End Oracles.

(** [x] is the point below which the gamma law of that shape and scale has mass [u] *)
Definition is_gamma_quantile (shape scale u x : R) : Prop :=
  0 < x /\ exists v g, is_lower_gamma shape (x / scale) v /\ is_Gamma shape g /\ v = u * g.
(** the textbook Erlang density *)
Definition erlang_density (k : nat) (lambda x : R) : R :=
  lambda ^ k * x ^ (k - 1) * exp (- (lambda * x)) / INR (fact (k - 1)).
