(** * The text of constraints and errors

    In Rust the [Display] of a constraint belongs to the constraint struct, not
    to the [Constraint<T>] implementation, so the structs are modelled here
    without the type of the values they constrain; [impl] says which
    implementation (a value of the model's [Constraint T]) a struct selects.
    Values are printed with [{:?}]: doubles by the oracle [Fmt], integers in
    decimal, arrays and Vecs between brackets.  Escapes inside the Debug text
    of a target string and the pretty-printing flag are not modelled. *)
From Verif.Model Require Import Rust Constraints Probability Params Mixture Display.

(** the values that constraints are used with: f64, i64/usize, arrays and Vecs of these *)
Inductive Val (F : Type) : Type := VF (x : F) | VZ (z : Z) | VL (l : list (Val F)).
Arguments VF {F}. Arguments VZ {F}. Arguments VL {F}.

(** the structs of constraints.rs:157-416, in the order of the file *)
Inductive Struct (F : Type) : Type :=
| SAll (c : Struct F) | SNot (c : Struct F) | SOr (c1 c2 : Struct F) | SAnd (c1 c2 : Struct F)
| SEqual (v : Val F) | SLessThan (v : Val F) | SNegative | SLessThanOrEqual (v : Val F) | SNonPositive
| SGreaterThan (v : Val F) | SPositive | SGreaterThanOrEqual (v : Val F) | SInterval (lb ub : Val F)
| SNonNegative | SNatural | SEmpty | SSquare.
Arguments SAll {F}. Arguments SNot {F}. Arguments SOr {F}. Arguments SAnd {F}. Arguments SEqual {F}. Arguments SLessThan {F}. Arguments SNegative {F}.
Arguments SLessThanOrEqual {F}. Arguments SNonPositive {F}. Arguments SGreaterThan {F}. Arguments SPositive {F}. Arguments SGreaterThanOrEqual {F}.
Arguments SInterval {F}. Arguments SNonNegative {F}. Arguments SNatural {F}. Arguments SEmpty {F}. Arguments SSquare {F}.

Section M.
Context {F : Type} {FM : Fmt F}.
Local Open Scope string_scope.

(** [{:?}] (core::fmt) *)
Fixpoint debug_val (v : Val F) : string :=
  match v with VF x => debug x | VZ z => show_Z z | VL l => debug_arr (map debug_val l) end.

(** impl Display: constraints.rs:132-138 (stringify), 160-162, 234-236, 245-249, 270-274, 295-297, 306-308, 322-326, 340-342,
    356-360, 372-376, 395-397, 410-412 *)
Fixpoint struct_fmt (c : Struct F) : string :=
  match c with
  | SAll c => cat ["All("; struct_fmt c; ")"]
  | SNot c => cat ["Not("; struct_fmt c; ")"]
  | SOr c1 c2 => cat ["Or("; struct_fmt c1; " || "; struct_fmt c2; ")"]
  | SAnd c1 c2 => cat ["And("; struct_fmt c1; " || "; struct_fmt c2; ")"]
  | SEqual v => cat ["Equal("; debug_val v; ")"]
  | SLessThan v => cat ["LessThan("; debug_val v; ")"]
  | SNegative => "Negative"
  | SLessThanOrEqual v => cat ["LessThanOrEqual("; debug_val v; ")"]
  | SNonPositive => "NonPositive"
  | SGreaterThan v => cat ["GreaterThan("; debug_val v; ")"]
  | SPositive => "Positive"
  | SGreaterThanOrEqual v => cat ["GreaterThanOrEqual("; debug_val v; ")"]
  | SInterval lb ub => cat ["["; debug_val lb; ", "; debug_val ub; "]"]
  | SNonNegative => "NonNegative"
  | SNatural => "Natural"
  | SEmpty => "Empty"
  | SSquare => "Square"
  end.

(** constraints.rs:90-107 *)
Definition uce_fmt (constraint : Struct F) (target : option string) (value : Val F) : string :=
  match target with
  | Some t => cat ["Constraint "; struct_fmt constraint; " on "; """"; t; """"; " is unsatisfied for value "; debug_val value; "."]
  | None => cat ["Constraint "; struct_fmt constraint; " is unsatisfied for value "; debug_val value; "."]
  end.

(** a value of a Rust type seen as a [Val] *)
Inductive repr : forall {T}, T -> Val F -> Prop :=
| r_f (x : F) : repr x (VF x)
| r_z (z : Z) : repr z (VZ z)
| r_l {T} (l : list T) (vs : list (Val F)) : repr_list l vs -> repr l (VL vs)
with repr_list : forall {T}, list T -> list (Val F) -> Prop :=
| r_nil {T} : repr_list (@nil T) []
| r_cons {T} (x : T) (v : Val F) l vs : repr x v -> repr_list l vs -> repr_list (x :: l) (v :: vs).

(** the implementations selected by the structs: constraints.rs lines as in [Constraint] *)
Inductive impl : forall {T}, Struct F -> Constraint T -> Prop :=
| i_all_s {T} c (k : Constraint T) : impl c k -> impl (SAll c) (AllS k)
| i_all_v {T} c (k : Constraint T) : impl c k -> impl (SAll c) (AllV k)
| i_all_a {T} c (k : Constraint T) : impl c k -> impl (SAll c) (AllA k)
| i_not {T} c (k : Constraint T) : impl c k -> impl (SNot c) (CNot k)
| i_or {T} c1 c2 (k1 k2 : Constraint T) : impl c1 k1 -> impl c2 k2 -> impl (SOr c1 c2) (COr k1 k2)
| i_and {T} c1 c2 (k1 k2 : Constraint T) : impl c1 k1 -> impl c2 k2 -> impl (SAnd c1 c2) (CAnd k1 k2)
| i_eq {T} {P : POrd T} (t : T) v : repr t v -> impl (SEqual v) (Equal t)
| i_lt {T} {P : POrd T} (t : T) v : repr t v -> impl (SLessThan v) (LessThan t)
| i_neg {T} {P : POrd T} : impl SNegative (Negative (T := T))
| i_le {T} {P : POrd T} (t : T) v : repr t v -> impl (SLessThanOrEqual v) (LessThanOrEqual t)
| i_nonpos {T} {P : POrd T} : impl SNonPositive (NonPositive (T := T))
| i_gt {T} {P : POrd T} (t : T) v : repr t v -> impl (SGreaterThan v) (GreaterThan t)
| i_pos {T} {P : POrd T} : impl SPositive (Positive (T := T))
| i_ge {T} {P : POrd T} (t : T) v : repr t v -> impl (SGreaterThanOrEqual v) (GreaterThanOrEqual t)
| i_int {T} {P : POrd T} (lb ub : T) v w : repr lb v -> repr ub w -> impl (SInterval v w) (Interval lb ub)
| i_nonneg {T} {P : POrd T} : impl SNonNegative (NonNegative (T := T))
| i_nat {T} {P : POrd T} : impl SNatural (Natural (T := T))
| i_empty_a {T} : impl SEmpty (EmptyA (T := T))
| i_empty_v {T} : impl SEmpty (EmptyV (T := T))
| i_square {T} : impl SSquare (Square (T := T)).

(** the texts of an error: constraints.rs:90-107; probability.rs:15, 310; fitting.rs:6 *)
Inductive says : Error F -> string -> Prop :=
| s_constraint {T} (e : UCE T) c v : impl c (uce_constraint e) -> repr (uce_value e) v -> says (EConstraint e) (uce_fmt c (uce_target e) v)
| s_prob (x : F) : says (EProb (InvalidProbability x)) (cat ["Value "; show x; " doesn't lie in the range [0.0, 1.0]."])
| s_simplex (l : list F) : says (EProb (InvalidSimplex l)) (cat ["Probabilities "; debug_arr (map debug l); " do not sum to 1."])
| s_samples n : says (EInsufficientSamples n) (cat ["Insufficient data samples provided ("; show_Z n; ")."]).
End M.
