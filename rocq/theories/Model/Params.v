(** * /repo/src/params/mod.rs, corr.rs, concentrations.rs and the covariance
      parameters of /repo/src/normal/mod.rs

    The parameter newtypes ([Loc(pub T)], [Scale(pub T)], ..., [Covariance(pub S)])
    are transparent here: a wrapped value is the value. *)
From Verif.Model Require Import Rust Constraints Probability.
Open Scope rust_scope.

(** [failure::Error]: any of the crate's error types, boxed.
    [InsufficientSamples] is fitting.rs:4-8. *)
Inductive Error (F : Type) : Type :=
| EProb (e : ProbError F)
| EConstraint (T : Type) (e : UCE T)
| EInsufficientSamples (n : Z).
Arguments EProb {F}. Arguments EConstraint {F} {T}. Arguments EInsufficientSamples {F}.

(** ** The [param!] types: params/mod.rs:189-199.  [new] is mod.rs:89-94
    (unconstrained) or 108-113; [T] is f64, i64 or usize, for which [All(c)] is
    the scalar instance of constraints.rs:164-189. *)
Definition loc_new {T} (v : T) : result T (UCE T) := Ok v.
Definition scale_new {T} `{POrd T} (v : T) : result T (UCE T) := check (AllS Positive) v.
Definition rate_new {T} `{POrd T} (v : T) : result T (UCE T) := check (AllS Positive) v.
Definition shape_new {T} `{POrd T} (v : T) : result T (UCE T) := check (AllS Positive) v.
Definition dof_new {T} `{POrd T} (v : T) : result T (UCE T) := check (AllS Positive) v.
Definition count_new {T} `{POrd T} (v : T) : result T (UCE T) := check (AllS NonNegative) v.
(** [constraints()]: mod.rs:43 and 56-58 *)
Definition loc_constraints {T} : list (Constraint T) := [].
Definition scale_constraints {T} `{POrd T} : list (Constraint T) := [AllS Positive].
Definition rate_constraints {T} `{POrd T} : list (Constraint T) := [AllS Positive].
Definition shape_constraints {T} `{POrd T} : list (Constraint T) := [AllS Positive].
Definition dof_constraints {T} `{POrd T} : list (Constraint T) := [AllS Positive].
Definition count_constraints {T} `{POrd T} : list (Constraint T) := [AllS NonNegative].

Section Scalars.
Context {F : Type} {SF : Scalar F}.

(** corr.rs:15-17, 27-32 *)
Definition corr_new (v : F) : result F (UCE F) := check (AllS (Interval (- #1) #1)) v.
Definition corr_constraints : list (Constraint F) := [AllS (Interval (- #1) #1)].

(** probability.rs:47-53 as a parameter; constraints: probability.rs:136-141 *)
Definition prob_constraints : list (Constraint F) := [Interval #0 #1].

(** concentrations.rs:21-29 (array version of All and Empty), 39-44 *)
Definition concentrations_new (v : list F) : result (list F) (UCE (list F)) :=
  and_then (check (AllA Positive) v) (fun v => check (CNot EmptyA) v).
Definition concentrations_constraints : list (Constraint (list F)) := [CNot EmptyA; AllA Positive].

(** normal/mod.rs:33-40, 50-55 *)
Definition matrix_new (S : list (list F)) : result (list (list F)) (Error F) :=
  map_err EConstraint (check (CAnd Square (AllA (AllA NonNegative))) S).
Definition matrix_constraints : list (Constraint (list (list F))) := [Square; AllA (AllA Positive)].
(** normal/mod.rs:71-75 (diagonal), 85-89; 141-145 (paired) *)
Definition diagonal_new (v : list F) : result (list F) (Error F) :=
  map_err EConstraint (check (AllA Positive) v).
Definition diagonal_constraints : list (Constraint (list F)) := [AllA Positive].
Definition paired_new (v : list F) : result (list F) (Error F) :=
  map_err EConstraint (check (AllA Positive) v).
(** normal/mod.rs:108-113; constraints() is todo!() (123) *)
Definition bivariate_new (s : list F) (rho : F) : result (list F * F) (Error F) :=
  let? s := map_err EConstraint (check (AllA Positive) s) in
  let? rho := map_err EConstraint (check (Interval (- #1) #1) rho) in Ok (s, rho).
Definition bivariate_constraints : res (list (Constraint (list F * F))) := Panic.
(** normal/mod.rs:159-161, 171 *)
Definition isotropic_new (v : F) : result F (UCE F) := check Positive v.
Definition isotropic_constraints : list (Constraint F) := [Positive].

(** ** The [params!] macro (mod.rs:122-160).  A field is one of the parameter
    types used in the crate's params! invocations, at its value type. *)
Inductive PType : Type -> Type :=
| PLoc : PType F
| PScale : PType F
| PRate : PType F
| PShape : PType F
| PShapeZ : PType Z          (* Shape<usize> (erlang.rs) *)
| PDOF : PType Z             (* DOF<usize> *)
| PCount : PType Z           (* Count<usize> *)
| PProb : PType F.           (* Probability<> *)

(** [$ty::new($id)?] for each field type *)
Definition field_new {T} (t : PType T) : T -> result T (Error F) :=
  match t in PType T return T -> result T (Error F) with
  | PLoc => fun v => map_err EConstraint (loc_new v)
  | PScale => fun v => map_err EConstraint (scale_new v)
  | PRate => fun v => map_err EConstraint (rate_new v)
  | PShape => fun v => map_err EConstraint (shape_new v)
  | PShapeZ => fun v => map_err EConstraint (shape_new v)
  | PDOF => fun v => map_err EConstraint (dof_new v)
  | PCount => fun v => map_err EConstraint (count_new v)
  | PProb => fun v => map_err EProb (map_ok unwrap (p_new v))
  end.

(** A params! invocation: the list of its fields, in order. *)
Inductive Schema : Type -> Type :=
| SNil : Schema unit
| SCons {T Ts} (t : PType T) (ts : Schema Ts) : Schema (T * Ts).

(** mod.rs:136-140: struct-literal fields are evaluated in the order written,
    [?] returns at the first error. *)
Fixpoint params_new {Ts} (s : Schema Ts) : Ts -> result Ts (Error F) :=
  match s in Schema Ts return Ts -> result Ts (Error F) with
  | SNil => fun _ => Ok tt
  | SCons t ts => fun v =>
      let? x := field_new t (fst v) in
      let? xs := params_new ts (snd v) in Ok (x, xs)
  end.
(** mod.rs:142-146 *)
Definition params_new_unchecked {Ts} (s : Schema Ts) (v : Ts) : Ts := v.

Definition s1 {A} (a : PType A) := SCons a SNil.
Definition s2 {A B} (a : PType A) (b : PType B) := SCons a (s1 b).
Definition s3 {A B C} (a : PType A) (b : PType B) (c : PType C) := SCons a (s2 b c).
End Scalars.
Arguments PType : clear implicits.
Arguments Schema : clear implicits.
(** probability.rs:444: SimplexVector's constraints() is todo!() *)
Definition simplex_constraints {F} : res (list (Constraint (list F))) := Panic.
