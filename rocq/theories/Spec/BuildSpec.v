(** * Constructors and parameters agree *)
From Verif.Model Require Import Rust.
(** [new]: the checked constructor applied to some arguments; [unchecked] the
    unchecked one on the same arguments, [p] the parameter record holding them.
    Whenever [new] succeeds the three ways of building agree and [params]
    returns the arguments. *)
Definition agree {T P E : Type} (new : result T E) (unchecked : T) (from : P -> T) (params : T -> P) (p : P) : Prop :=
  forall d, new = Ok d -> d = unchecked /\ params d = p /\ from (params d) = d.
