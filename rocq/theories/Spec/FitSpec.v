(** * Likelihood, score, maximum likelihood and Fisher information *)
From Coq Require Import Reals List.
From Coquelicot Require Import Coquelicot.
From Verif.Spec Require Import DistSpec DiscreteSpec.
Import ListNotations.
Open Scope R_scope.

Section Sample.
Context {X : Type}.
(** sum and product of [f] over a sample *)
Fixpoint lsum (f : X -> R) (xs : list X) : R := match xs with [] => 0 | x :: xs => f x + lsum f xs end.
Fixpoint lprod (f : X -> R) (xs : list X) : R := match xs with [] => 1 | x :: xs => f x * lprod f xs end.
(** likelihood and log-likelihood of an independent sample under density/mass [p] *)
Definition lik (p : X -> R) (xs : list X) : R := lprod p xs.
Definition log_lik (p : X -> R) (xs : list X) : R := lsum (fun x => ln (p x)) xs.
(** the derivative at [t] of the log-likelihood along a one-parameter family *)
Definition is_score (p : R -> X -> R) (t : R) (xs : list X) (v : R) : Prop :=
  is_derive (fun t => log_lik (p t) xs) t v.
End Sample.

(** [v] is the (i,j) entry of the Fisher information: the expectation of the
    product of the scores s1, s2 of one observation, where [f1 t x] and
    [f2 t x] are the density at x as functions of the i-th and j-th parameter,
    whose current values are [t1] and [t2]; [p] is the current density *)
Definition is_information (lo hi : Rbar) (p : R -> R) (f1 : R -> R -> R) (t1 : R) (f2 : R -> R -> R) (t2 : R) (v : R) : Prop :=
  exists s1 s2, (forall x, inside lo hi x -> is_derive (fun t => ln (f1 t x)) t1 (s1 x)) /\
    (forall x, inside lo hi x -> is_derive (fun t => ln (f2 t x)) t2 (s2 x)) /\
    is_RInt_gen (fun x => s1 x * s2 x * p x) (above lo) (below hi) v.
(** the other textbook form: minus the expected second derivative *)
Definition is_information_hess (lo hi : Rbar) (p : R -> R) (s1 : R -> R -> R) (f1 : R -> R -> R) (t1 : R) (t2 : R) (v : R) : Prop :=
  exists h, (forall x, inside lo hi x -> is_derive (fun t => s1 t x) t2 (h x)) /\
    (forall x, inside lo hi x -> is_derive (fun t => ln (f1 t x)) t1 (s1 t2 x)) /\
    is_RInt_gen (fun x => - h x * p x) (above lo) (below hi) v.
(** for laws on the naturals, over the points of positive mass *)
Definition is_dinformation (law : R -> nat -> R) (t v : R) : Prop :=
  exists s, (forall k, 0 < law t k -> is_derive (fun t => ln (law t k)) t (s k)) /\
    law_expect (law t) (fun k => s k * s k) v.
