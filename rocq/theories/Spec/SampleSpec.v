(** * What the external samplers of [rand_distr] should be

    A generator whose state is one uniform variate: [x] is the number below
    which the law has mass [u]. *)
From Coq Require Import Reals.
From Coquelicot Require Import Coquelicot.
From Verif.Num Require Import Scalar XReal.
From Verif.Model Require Import Rust.
From Verif.Spec Require Import DistSpec.
Open Scope R_scope.

(** the normal density with mean [mu] and standard deviation [sd] *)
Definition normal_density (mu sd t : R) : R := / (sd * sqrt (2 * PI)) * exp (- (((t - mu) / sd) ^ 2) / 2).
Definition is_normal_quantile (mu sd u x : R) : Prop :=
  is_RInt_gen (normal_density mu sd) (Rbar_locally m_infty) (at_point x) u.
(** [draw_normal mu sd] draws from the normal law by inversion *)
Definition normal_sampler (RG : Rng xreal xreal) (mu sd : R) : Prop :=
  forall u, 0 < u < 1 -> exists x, fst (draw_normal (Fin mu) (Fin sd) (Fin u)) = Fin x /\ is_normal_quantile mu sd u x.

(** the variates giving a sample <= y form an interval of length cdf(y) *)
Definition samples_interval (lo hi : Rbar) (cdf sample : xreal -> xreal) : Prop :=
  (forall u, 0 < u < 1 -> exists x, sample (Fin u) = Fin x) /\
  forall y, inside lo hi y -> exists l, 0 <= l /\ l + rf cdf y <= 1 /\
    forall u, 0 < u < 1 -> (rf sample u <= y <-> l <= u <= l + rf cdf y).
