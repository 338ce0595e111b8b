(** * Riemann's zeta function, and what an exact implementation of it returns *)
From Coq Require Import Reals.
From Coquelicot Require Import Coquelicot.
From Verif.Num Require Import Scalar XReal.
Open Scope R_scope.
(** zeta(s) = 1 + 2^-s + 3^-s + ... for s > 1 *)
Definition is_zeta (s v : R) : Prop := is_series (fun k => Rpower (INR k + 1) (- s)) v.
Definition zeta_exact (SP : Special xreal) : Prop := forall s, 1 < s -> exists v, sf_riemann_zeta (Fin s) = Fin v /\ is_zeta s v.
