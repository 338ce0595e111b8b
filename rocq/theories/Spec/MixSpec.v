(** * Weighted sums of real numbers *)
From Coq Require Import Reals List.
Import ListNotations.
Open Scope R_scope.
(** sum of w_i * v_i *)
Fixpoint wsum (ws vs : list R) : R :=
  match ws, vs with w :: ws, v :: vs => w * v + wsum ws vs | _, _ => 0 end.
