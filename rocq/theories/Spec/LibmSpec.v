(** * What is assumed of the platform's elementary functions (libm), in doubles.

    Comparisons are IEEE comparisons ([Bleb x y = true] is [x <= y], false when
    either is NaN, true on infinities as usual).  [libm_range] is the ranges of
    the functions, [libm_monotone] their monotonicity.  Both hold of correctly
    rounded functions ([Proofs/LibmInst.v] proves it). *)
From Coq Require Import Reals ZArith.
From Flocq Require Import Core IEEE754.BinarySingleNaN.
From Verif.Num Require Import F64.

Definition le64 (x y : f64) : Prop := Bleb x y = true.
Definition lt64 (x y : f64) : Prop := Bltb x y = true.
Definition zero64 : f64 := b64 0 0.
Definition one64 : f64 := b64 1 0.
(** pi/2, rounded to a double *)
Definition half_pi64 : f64 := b64 7074237752028440 (-52).
Definition number (x : f64) : Prop := is_nan x = false.

Record libm_range (m : Libm) : Prop := {
  exp_nonneg : forall x, number x -> le64 zero64 (m_exp x);
  exp_le_one : forall x, le64 x zero64 -> le64 (m_exp x) one64;
  pow_nonneg : forall x y, le64 zero64 x -> number y -> le64 zero64 (m_powf x y);
  pow_le_one : forall x y, le64 zero64 x -> le64 x one64 -> lt64 zero64 y -> le64 (m_powf x y) one64;
  pow_neg_le_one : forall x y, le64 one64 x -> lt64 y zero64 -> le64 (m_powf x y) one64;
  atan_range : forall x, number x -> le64 (Bopp half_pi64) (m_atan x) /\ le64 (m_atan x) half_pi64;
  asin_range : forall x, le64 zero64 x -> le64 x one64 -> le64 zero64 (m_asin x) /\ le64 (m_asin x) half_pi64
}.

Record libm_monotone (m : Libm) : Prop := {
  exp_mono : forall x y, le64 x y -> le64 (m_exp x) (m_exp y);
  pow_mono : forall x x' y, le64 zero64 x -> le64 x x' -> lt64 zero64 y -> le64 (m_powf x y) (m_powf x' y);
  pow_neg_anti : forall x x' y, le64 zero64 x -> le64 x x' -> lt64 y zero64 -> le64 (m_powf x' y) (m_powf x y);
  atan_mono : forall x y, le64 x y -> le64 (m_atan x) (m_atan y);
  asin_mono : forall x y, le64 zero64 x -> le64 x y -> le64 y one64 -> le64 (m_asin x) (m_asin y)
}.

(** a double-precision distribution function [F] on the set [dom] of doubles:
    every value is a probability / it never decreases *)
From Verif.Spec Require Import ProbSpec.
Definition valid_on (dom : f64 -> Prop) (F : f64 -> f64) : Prop := forall x, dom x -> valid_prob (F x).
Definition monotone_on (dom : f64 -> Prop) (F : f64 -> f64) : Prop := forall x y, dom x -> dom y -> le64 x y -> le64 (F x) (F y).
Definition finite64 (x : f64) : Prop := is_finite x = true.

(** overflow and underflow: exp beyond 1024 and -2048, powers of two to integer powers *)
Record libm_extreme (m : Libm) : Prop := {
  exp_over : forall x, le64 (b64 1024 0) x -> m_exp x = B754_infinity false;
  exp_under : forall x, le64 x (b64 (-2048) 0) -> m_exp x = B754_zero false;
  pow_over : forall i n : Z, (-1074 <= i <= 1023)%Z -> (Z.abs n <= 2 ^ 53)%Z -> (1024 <= i * n)%Z -> m_powf (b64 1 i) (b64 n 0) = B754_infinity false;
  pow_under : forall i n : Z, (-1074 <= i <= 1023)%Z -> (Z.abs n <= 2 ^ 53)%Z -> (i * n < -1075)%Z -> m_powf (b64 1 i) (b64 n 0) = B754_zero false
}.
(** a density: every value is a number (possibly +infinity), at least 0 *)
Definition density_on (dom : f64 -> Prop) (f : f64 -> f64) : Prop := forall x, dom x -> le64 zero64 (f x).
