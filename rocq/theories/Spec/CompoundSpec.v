(** * Laws obtained by averaging another law over a random parameter *)
From Coq Require Import Reals.
From Coquelicot Require Import Coquelicot.
From Verif.Spec Require Import UtilsSpec DiscreteSpec GammaSpec.
Open Scope R_scope.
(** beta-binomial: the success probability x of a binomial law is drawn from
    the density x^(a-1) (1-x)^(b-1) / B(a,b) *)
Definition is_beta_binomial (n : nat) (a b : R) (law : nat -> R) : Prop :=
  exists B, is_Beta a b B /\
    forall k, is_RInt_gen (fun x => binomial_law n x k * beta_h a b x) (at_right 0) (at_left 1) (law k * B).
