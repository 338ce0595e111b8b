(** * What an accurate libm promises: exp and pow within one unit of 2^-52, relatively, where the result is between e^-64 and e^64 *)
From Coq Require Import Reals.
From Flocq Require Import Core IEEE754.BinarySingleNaN.
From Verif.Num Require Import Scalar F64.
From Verif.Spec Require Import LibmSpec GammaSpec.
Open Scope R_scope.
Definition exp_accurate (m : Libm) : Prop := forall y : f64, finite64 y -> Rabs (B2R y) <= 64 ->
  finite64 (m_exp y) /\ Rabs (B2R (m_exp y) - exp (B2R y)) <= / 4503599627370496 * exp (B2R y).
Definition pow_accurate (m : Libm) : Prop := forall x y : f64, finite64 x -> finite64 y -> 0 < B2R x -> Rabs (B2R y * ln (B2R x)) <= 64 ->
  finite64 (m_powf x y) /\ Rabs (B2R (m_powf x y) - Rpower (B2R x) (B2R y)) <= / 4503599627370496 * Rpower (B2R x) (B2R y).
(** two doubles whose distance is between 2^-100 and 2^100 *)
Definition apart (x y : f64) : Prop := finite64 x /\ finite64 y /\ bpow radix2 (-100) <= Rabs (B2R x - B2R y) <= bpow radix2 100.
(** values between 2^-64 and 2^64 *)
Definition sizable (g : R) : Prop := bpow radix2 (-64) <= g <= bpow radix2 64.
(** the gamma and beta functions within one unit of 2^-52, relatively, where their value is sizable *)
Definition gamma_accurate (SP : Special f64) : Prop := forall (x : f64) (g : R), finite64 x -> 0 < B2R x -> is_Gamma (B2R x) g -> sizable g ->
  finite64 (sf_gamma x) /\ Rabs (B2R (sf_gamma x) - g) <= / 4503599627370496 * g.
Definition beta_accurate (SP : Special f64) : Prop := forall (x y : f64) (g : R), finite64 x -> finite64 y -> 0 < B2R x -> 0 < B2R y -> is_Beta (B2R x) (B2R y) g -> sizable g ->
  finite64 (sf_beta x y) /\ Rabs (B2R (sf_beta x y) - g) <= / 4503599627370496 * g.
