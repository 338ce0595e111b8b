(** * Specification of probabilities and simplex vectors (independent of the model). *)
From Coq Require Import Reals List ZArith.
From Flocq Require Import Core IEEE754.BinarySingleNaN.
From Verif.Num Require Import F64.
Import ListNotations.
Open Scope R_scope.

(** A valid probability: a finite double whose real value lies in [0,1]. *)
Definition valid_prob (x : f64) : Prop := is_finite x = true /\ 0 <= B2R x <= 1.

(** IEEE round-to-nearest-even of a real number to binary64 precision
    (exponent unbounded above). *)
Definition RN (r : R) : R := round radix2 (FLT_exp (-1074) 53) ZnearestE r.

(** Left-to-right double sum of a list, starting from +0. *)
Definition dsum (l : list f64) : f64 := fold_left (Bplus mode_NE) l (B754_zero false).

(** Exact real sum. *)
Fixpoint rsum (l : list R) : R := match l with [] => 0 | x :: l => x + rsum l end.
