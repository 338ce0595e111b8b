(** * What the four BLAS/LAPACK routines compute, in exact arithmetic *)
From Coq Require Import Reals List Arith.
From Verif.Num Require Import XReal.
From Verif.Model Require Import Linalg.
From Verif.Spec Require Import MvSpec.
Open Scope R_scope.

(** the upper triangle, zero below *)
Definition triu (A : nat -> nat -> R) (i j : nat) : R := if Nat.ltb j i then 0 else A i j.
(** the symmetric matrix a routine reads from an upper triangle *)
Definition upper_sym (A : nat -> nat -> R) (i j : nat) : R := A (Nat.min i j) (Nat.max i j).
(** an n x n argument holding finite numbers *)
Definition holds (n : nat) (X : nat -> nat -> xreal) (A : nat -> nat -> R) : Prop :=
  forall i j, (i < n)%nat -> (j < n)%nat -> X i j = Fin (A i j).

Record lapack_ok (LA : Lapack xreal) : Prop := {
  (* a = U^T U with positive diagonal, for a positive definite input; the strict lower triangle is left alone *)
  potrf_ok : forall n X A, holds n X A -> spd n (upper_sym A) ->
    exists U, holds n (dpotrf_U n X) U /\ (forall i j, (j < i < n)%nat -> U i j = A i j) /\
      (forall i, (i < n)%nat -> 0 < U i i) /\ meq n (mmul n (transp (triu U)) (triu U)) (upper_sym A);
  (* inverse of an upper triangular matrix; the strict lower triangle is left alone *)
  trtri_ok : forall n X A, holds n X A -> (forall i, (i < n)%nat -> A i i <> 0) ->
    exists V, holds n (dtrtri_UN n X) V /\ (forall i j, (j < i < n)%nat -> V i j = A i j) /\
      meq n (mmul n (triu A) (triu V)) ident;
  (* c = a b^T *)
  gemm_ok : forall n X Y A B, holds n X A -> holds n Y B -> holds n (dgemm_NT n X Y) (mmul n A (transp B));
  (* x := a^T x, a upper triangular *)
  trmv_ok : forall n X x A v, holds n X A -> (forall i, (i < n)%nat -> x i = Fin (v i)) ->
    forall i, (i < n)%nat -> dtrmv_UTN n X x i = Fin (rsum n (fun k => triu A k i * v k))
}.
