(** * What it means for a reported support to be right

    The sets denoted by the support values the crate returns, and what a user
    expects of the density there. *)
From Coq Require Import Reals ZArith.
From Verif.Num Require Import XReal.
From Verif.Model Require Import Consts.
Open Scope R_scope.

(** [x] is an interior point of the set of reals denoted by a support *)
Definition interior (s : Space xreal) (x : R) : Prop :=
  match s with
  | Reals => True
  | PositiveReals | NonNegativeReals => 0 < x
  | Closed (Fin a) (Fin b) => a < x < b
  | LeftClosed (Fin a) => a < x
  | _ => False
  end.
(** [x] is not even a limit of points of the support *)
Definition off (s : Space xreal) (x : R) : Prop :=
  match s with
  | Reals => False
  | PositiveReals | NonNegativeReals => x < 0
  | Closed (Fin a) (Fin b) => x < a \/ b < x
  | LeftClosed (Fin a) => x < a
  | _ => False
  end.
(** the density is a positive number at every interior point of the support *)
Definition positive_on (s : Space xreal) (pdf : xreal -> xreal) : Prop :=
  forall x, interior s x -> exists v, pdf (Fin x) = Fin v /\ 0 < v.
(** ... and zero at every point off it *)
Definition zero_off (s : Space xreal) (pdf : xreal -> xreal) : Prop :=
  forall x, off s x -> pdf (Fin x) = Fin 0.

(** the integers denoted by a support of a discrete distribution.  [Naturals] is
    given both readings (with and without 0) where it matters *)
Definition zmem (s : Space Z) (k : Z) : Prop :=
  match s with
  | Closed a b => (a <= k <= b)%Z
  | LeftClosed a => (a <= k)%Z
  | NonNegativeIntegers => (0 <= k)%Z
  | Integers => True
  | _ => False
  end.
