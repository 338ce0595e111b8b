(** * /repo/src/probability.rs: the mixed operators, sums and the [Param] impls *)
From Verif.Model Require Import Rust Constraints Probability.
Open Scope rust_scope.

Section Model.
Context {F : Type} {SF : Scalar F}.
Notation Prb := (Probability F).
(** impl_op!, f64 op Probability: probability.rs:201-236, at the instances of 277-295 *)
Definition f_add_p (x : F) (p : Prb) : F := x + unwrap p.
Definition f_sub_p (x : F) (p : Prb) : F := x - unwrap p.
Definition f_div_p (x : F) (p : Prb) : F := x / unwrap p.
Definition f_rem_p (x : F) (p : Prb) : F := frem x (unwrap p).
(** impl_op!, Probability op f64: probability.rs:238-273 *)
Definition p_add_f (p : Prb) (x : F) : F := unwrap p + x.
Definition p_sub_f (p : Prb) (x : F) : F := unwrap p - x.
Definition p_div_f (p : Prb) (x : F) : F := unwrap p / x.
Definition p_rem_f (p : Prb) (x : F) : F := frem (unwrap p) x.
(** probability.rs:157-159 *)
Definition p_eq_f (p : Prb) (x : F) : bool := unwrap p =? x.
(** probability.rs:150-152 *)
Definition f_from_p (p : Prb) : F := unwrap p.
(** probability.rs:161-167 *)
Definition p_sum (ps : list Prb) : F := fsum (map unwrap ps).
(** probability.rs:129-134 (the constraints are in Params.v) *)
Definition p_value (p : Prb) : F := unwrap p.
Definition p_into_value (p : Prb) : F := unwrap p.
End Model.
