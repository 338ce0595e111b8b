(** * /repo/src/params/constraints.rs *)
From Verif.Model Require Import Rust.

(** [PartialOrd + Zero] (num::Zero) for the scalar types used by the crate. *)
Class POrd (T : Type) := {
  pltb : T -> T -> bool; pleb : T -> T -> bool; peqb : T -> T -> bool; pzero : T
}.
Global Instance POrd_Z : POrd Z := { pltb := Z.ltb; pleb := Z.leb; peqb := Z.eqb; pzero := 0%Z }.
Global Instance POrd_scalar {F} {SF : Scalar F} : POrd F :=
  { pltb := fltb; pleb := fleb; peqb := feqb; pzero := f_of_Z 0 }.

(** Constraints, indexed by the type of value they constrain.  A value of
    [Constraint T] stands for a Rust type [C] with its [impl Constraint<T> for C].
    [Vec<T>] and [[T; N]] are both lists here; where the two impls differ there
    is one constructor for each ([..V] for Vec, [..A] for arrays). *)
Inductive Constraint : Type -> Type :=
| AllS {T} (c : Constraint T) : Constraint T                   (* constraints.rs:164-189, f64 / i64 / usize *)
| AllV {T} (c : Constraint T) : Constraint (list T)            (* constraints.rs:191-209, Vec<T> *)
| AllA {T} (c : Constraint T) : Constraint (list T)            (* constraints.rs:211-229, [T; N] *)
| CNot {T} (c : Constraint T) : Constraint T                   (* constraints.rs:231-240 *)
| COr {T} (c1 c2 : Constraint T) : Constraint T                (* constraints.rs:242-265 *)
| CAnd {T} (c1 c2 : Constraint T) : Constraint T               (* constraints.rs:267-290 *)
| Equal {T} `{POrd T} (t : T) : Constraint T                   (* constraints.rs:292-301 *)
| LessThan {T} `{POrd T} (t : T) : Constraint T                (* constraints.rs:303-312 *)
| Negative {T} `{POrd T} : Constraint T                        (* constraints.rs:314-317 *)
| LessThanOrEqual {T} `{POrd T} (t : T) : Constraint T         (* constraints.rs:319-330 *)
| NonPositive {T} `{POrd T} : Constraint T                     (* constraints.rs:332-335 *)
| GreaterThan {T} `{POrd T} (t : T) : Constraint T             (* constraints.rs:337-346 *)
| Positive {T} `{POrd T} : Constraint T                        (* constraints.rs:348-351 *)
| GreaterThanOrEqual {T} `{POrd T} (t : T) : Constraint T      (* constraints.rs:353-364 *)
| Interval {T} `{POrd T} (lb ub : T) : Constraint T            (* constraints.rs:366-380 *)
| NonNegative {T} `{POrd T} : Constraint T                     (* constraints.rs:382-385 *)
| Natural {T} `{POrd T} : Constraint T                         (* constraints.rs:387-390 *)
| EmptyA {T} : Constraint (list T)                             (* constraints.rs:399-401, [T; N] *)
| EmptyV {T} : Constraint (list T)                             (* constraints.rs:403-405, Vec<T> *)
| Square {T} : Constraint (list (list T)).                     (* constraints.rs:414-416 *)

(** fn is_satisfied_by, all impls (line numbers as above). *)
Fixpoint is_satisfied_by {T} (c : Constraint T) {struct c} : T -> bool :=
  match c in Constraint T return T -> bool with
  | AllS c => fun v => is_satisfied_by c v                                   (* 170, 179, 188 *)
  | AllV c => fun v => forallb (fun x => is_satisfied_by c x) v              (* 206-208 *)
  | AllA c => fun v => forallb (fun x => is_satisfied_by c x) v              (* 226-228 *)
  | CNot c => fun v => negb (is_satisfied_by c v)                            (* 239 *)
  | COr c1 c2 => fun v => is_satisfied_by c1 v || is_satisfied_by c2 v       (* 262-264 *)
  | CAnd c1 c2 => fun v => is_satisfied_by c1 v && is_satisfied_by c2 v      (* 287-289 *)
  | Equal t => fun v => peqb v t                                             (* 300 *)
  | LessThan t => fun v => pltb v t                                          (* 311 *)
  | Negative => fun v => pltb v pzero                                        (* 317 *)
  | LessThanOrEqual t => fun v => pleb v t                                   (* 329 *)
  | NonPositive => fun v => pleb v pzero                                     (* 335 *)
  | GreaterThan t => fun v => pltb t v                                       (* 345 *)
  | Positive => fun v => pltb pzero v                                        (* 351 *)
  | GreaterThanOrEqual t => fun v => pleb t v                                (* 363 *)
  | Interval lb ub => fun v => pleb lb v && pleb v ub                        (* 379 *)
  | NonNegative => fun v => pleb pzero v                                     (* 385 *)
  | Natural => fun v => pltb pzero v                                         (* 390 *)
  | EmptyA => fun v => Nat.ltb 0 (List.length v)                             (* 400: [N > 0] *)
  | EmptyV => fun v => Nat.eqb (List.length v) 0                             (* 404 *)
  | Square => fun _ => true                                                  (* 415 *)
  end%bool.

(** constraints.rs:41-45 (target: see [with_target], 64-70) *)
Record UCE (T : Type) := mkUCE { uce_value : T; uce_target : option string; uce_constraint : Constraint T }.
Arguments mkUCE {T}. Arguments uce_value {T}. Arguments uce_target {T}. Arguments uce_constraint {T}.

(** constraints.rs:56-62 *)
Definition uce_new {T} (v : T) (c : Constraint T) : UCE T := mkUCE v None c.
(** constraints.rs:64-70 *)
Definition with_target {T} (e : UCE T) (t : string) : UCE T := mkUCE (uce_value e) (Some t) (uce_constraint e).

(** constraints.rs:113-123, the default [check] *)
Definition check_default {T} (c : Constraint T) (v : T) : result T (UCE T) :=
  if is_satisfied_by c v then Ok v else Err (uce_new v c).

(** the loop of constraints.rs:197-201 / 217-221: first violating element returns *)
Fixpoint all_loop {T} (sat : T -> bool) (l : list T) : bool :=
  match l with
  | [] => true
  | x :: l => if negb (sat x) then false else all_loop sat l
  end.

(** fn check: default, with the overrides of All (165-169, 174-178, 183-187,
    192-204, 212-224), Or (252-260) and And (277-285). *)
Fixpoint check {T} (c : Constraint T) {struct c} : T -> result T (UCE T) :=
  match c in Constraint T return T -> result T (UCE T) with
  | AllS c => fun v => check c v
  | AllV c => fun v => if all_loop (is_satisfied_by c) v then Ok v else Err (uce_new v (AllV c))
  | AllA c => fun v => if all_loop (is_satisfied_by c) v then Ok v else Err (uce_new v (AllA c))
  | COr c1 c2 => fun v => or_else (check c1 v) (fun uc => check c2 (uce_value uc))
  | CAnd c1 c2 => fun v => and_then (check c1 v) (fun v => check c2 v)
  | c => fun v => check_default c v
  end.
