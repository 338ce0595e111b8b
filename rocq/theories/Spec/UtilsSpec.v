(** * Binomial coefficients by Pascal's triangle, factorial *)
From Coq Require Import ZArith.
Fixpoint binom (n k : nat) : Z :=
  match n, k with
  | _, O => 1
  | O, S _ => 0
  | S n, S k => binom n k + binom n (S k)
  end%Z.
Definition zfact (n : nat) : Z := Z.of_nat (Factorial.fact n).
