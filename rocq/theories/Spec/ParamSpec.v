(** * Specification vocabulary for parameters and constraints *)
From Coq Require Import ZArith List.
From Verif.Num Require Import Scalar.
From Verif.Model Require Import Rust Constraints Probability Params.
Import ListNotations.

Section Spec.
Context {F : Type} {SF : Scalar F}.

(** what each parameter type requires of its value *)
Definition field_ok {T} (t : PType F T) : T -> Prop :=
  match t in PType _ T return T -> Prop with
  | PLoc => fun _ => True
  | PScale | PRate | PShape => fun v => fltb (f_of_Z 0) v = true           (* 0 < v *)
  | PShapeZ | PDOF => fun v => (0 < v)%Z
  | PCount => fun v => (0 <= v)%Z
  | PProb => fun v => fleb (f_of_Z 0) v = true /\ fleb v (f_of_Z 1) = true (* 0 <= v <= 1 *)
  end.

(** an argument together with the field it is for *)
Record Arg := mkArg { arg_T : Type; arg_ty : PType F arg_T; arg_val : arg_T }.
Definition arg_ok (a : Arg) : Prop := field_ok (arg_ty a) (arg_val a).

(** the arguments of a params! constructor, in declaration order *)
Fixpoint args {Ts} (s : Schema F Ts) : Ts -> list Arg :=
  match s in Schema _ Ts return Ts -> list Arg with
  | SNil => fun _ => []
  | SCons t ts => fun v => mkArg _ t (fst v) :: args ts (snd v)
  end.

(** the error reports this argument *)
Definition reports (e : Error F) (a : Arg) : Prop :=
  match e with
  | EConstraint u => existT (fun T => T) _ (uce_value u) = existT _ (arg_T a) (arg_val a)
  | EProb (InvalidProbability p) => existT (fun T => T) F p = existT _ (arg_T a) (arg_val a)
  | _ => False
  end.

(** every constraint of a [constraints()] list holds of the value *)
Definition all_satisfied {T} (cs : list (Constraint T)) (v : T) : Prop :=
  forall c, In c cs -> is_satisfied_by c v = true.
Definition enforces {T E} (new : T -> result T E) (cs : list (Constraint T)) : Prop :=
  forall v, (is_ok (new v) = true <-> all_satisfied cs v) /\ (forall w, new v = Ok w -> w = v).
End Spec.
Arguments Arg : clear implicits. 
