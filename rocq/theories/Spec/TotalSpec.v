(** * Whether a call comes back *)
From Coq Require Import ZArith.
From Verif.Model Require Import Rust.
Open Scope Z_scope.
(** the call returns a value *)
Definition comes_back {A} (r : res A) : Prop := exists v, r = Ret v.
(** the call panics *)
Definition panics {A} (r : res A) : Prop := r = Panic.
(** it comes back exactly when [P], and panics otherwise *)
Definition comes_back_iff {A} (r : res A) (P : Prop) : Prop := (P -> comes_back r) /\ (~ P -> panics r).
(** the machine integer types *)
Definition is_u64 (z : Z) : Prop := 0 <= z < 2 ^ 64.
Definition is_i64 (z : Z) : Prop := - 2 ^ 63 <= z < 2 ^ 63.
