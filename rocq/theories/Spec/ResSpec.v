(** * Reading off the value of a method that may panic *)
From Verif.Num Require Import XReal.
From Verif.Model Require Import Rust.
(** the number a method returned; not-a-number if it panicked *)
Definition got (r : res xreal) : xreal := match r with Ret x => x | _ => NaN end.
From Verif.Model Require Import Probability.
(** the same for a method returning a Probability *)
Definition gotp (r : res (Probability xreal)) : xreal := match r with Ret p => unwrap p | _ => NaN end.
From Coq Require Import Reals.
From Verif.Spec Require Import DistSpec.
(** the method returns a number with [P] when there is one, and otherwise panics *)
Definition returned_iff_exists (r : res xreal) (P : R -> Prop) : Prop :=
  match r with Ret x => returns x P | _ => ~ exists v, P v end.
(** the method returns a number with [P] when there is one, and otherwise +infinity *)
Definition finite_iff_exists (x : xreal) (P : R -> Prop) : Prop :=
  returns x P \/ x = PInf /\ ~ exists v, P v.
