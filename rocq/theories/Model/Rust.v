(** * Rust control flow: panics, divergence, Result, checked integers, RNG. *)
From Coq Require Export ZArith List Bool String.
From Verif.Num Require Export Scalar.
Export ListNotations.

(** Outcome of evaluating an expression: a value, a panic (explicit [panic!],
    failed [unwrap], index out of bounds, arithmetic overflow with overflow
    checks on, [todo!]), or unbounded recursion (stack overflow). *)
Inductive res (A : Type) := Ret (a : A) | Panic | Diverge.
Arguments Ret {A} a. Arguments Panic {A}. Arguments Diverge {A}.

Definition rbind {A B} (m : res A) (f : A -> res B) : res B :=
  match m with Ret a => f a | Panic => Panic | Diverge => Diverge end.
Definition rmap {A B} (f : A -> B) (m : res A) : res B := rbind m (fun a => Ret (f a)).

(** core::result::Result *)
Inductive result (A E : Type) := Ok (a : A) | Err (e : E).
Arguments Ok {A E} a. Arguments Err {A E} e.

Definition and_then {A B E} (m : result A E) (f : A -> result B E) : result B E :=
  match m with Ok a => f a | Err e => Err e end.
Definition map_ok {A B E} (f : A -> B) (m : result A E) : result B E :=
  match m with Ok a => Ok (f a) | Err e => Err e end.
Definition map_err {A E E'} (f : E -> E') (m : result A E) : result A E' :=
  match m with Ok a => Ok a | Err e => Err (f e) end.
Definition or_else {A E E'} (m : result A E) (f : E -> result A E') : result A E' :=
  match m with Ok a => Ok a | Err e => f e end.
Definition is_ok {A E} (m : result A E) : bool := match m with Ok _ => true | Err _ => false end.
(** [.unwrap()] *)
Definition unwrap_ok {A E} (m : result A E) : res A := match m with Ok a => Ret a | Err _ => Panic end.

Declare Scope res_scope.
Delimit Scope res_scope with res.
Notation "'let!' x ':=' m 'in' k" := (rbind m (fun x => k))
  (at level 200, x pattern, m at level 100, k at level 200, right associativity).
Notation "'let?' x ':=' m 'in' k" := (and_then m (fun x => k))
  (at level 200, x pattern, m at level 100, k at level 200, right associativity).

(** Machine integers are [Z]; checked arithmetic panics on overflow (debug
    profile / overflow-checks = true). *)
Definition U64_MAX : Z := (2 ^ 64 - 1)%Z.
Definition I64_MIN : Z := (- 2 ^ 63)%Z.
Definition I64_MAX : Z := (2 ^ 63 - 1)%Z.
Definition USIZE_MAX : Z := U64_MAX.

Definition checked (lo hi z : Z) : res Z := if (Z.leb lo z && Z.leb z hi)%bool then Ret z else Panic.
Definition u64 (z : Z) : res Z := checked 0 U64_MAX z.
Definition i64 (z : Z) : res Z := checked I64_MIN I64_MAX z.

(** Wrapping casts [as i32], [as i64]. *)
Definition wrap_signed (bits z : Z) : Z :=
  let m := (z mod 2 ^ bits)%Z in if Z.ltb m (2 ^ (bits - 1)) then m else (m - 2 ^ bits)%Z.
Definition as_i32 (z : Z) : Z := wrap_signed 32 z.
Definition as_i64 (z : Z) : Z := wrap_signed 64 z.
Definition as_u64 (z : Z) : Z := (z mod 2 ^ 64)%Z.

(** Random number generators: an explicit state and the draws the crate makes
    itself; samplers of [rand_distr] are external and modelled by the same
    record (nothing is assumed about them). *)
Class Rng (S F : Type) := {
  gen_f64 : S -> F * S;                              (* rng.gen::<f64>() : [0,1) *)
  gen_bool : F -> S -> bool * S;                     (* rng.gen_bool(p) *)
  draw_uniform : F -> F -> S -> F * S;               (* rand_distr::Uniform::new(a, b) *)
  draw_uniform_inclusive : F -> F -> S -> F * S;     (* rand_distr::Uniform::new_inclusive(a, b) *)
  draw_normal : F -> F -> S -> F * S;                (* rand_distr::Normal::new(mu, sd) *)
  draw_std_normal : S -> F * S;                      (* rand_distr::StandardNormal *)
  draw_gamma : F -> F -> S -> F * S                  (* rand_distr::Gamma::new(shape, scale) *)
}.
