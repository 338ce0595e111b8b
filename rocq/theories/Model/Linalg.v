(** * /repo/src/normal/linalg.rs, over an external BLAS/LAPACK

    [[f64; N]] is a list of length N, [[[f64; N]; N]] a list of N such rows. *)
From Verif.Model Require Import Rust Traits.
Open Scope rust_scope.

(** The four external routines, at the flag values the crate passes.  A Fortran
    matrix is a function of (row, column); what the routines leave in the cells
    they own is an oracle (nothing is assumed here). *)
Class Lapack (F : Type) := {
  dpotrf_U : nat -> (nat -> nat -> F) -> nat -> nat -> F;                         (* dpotrf('U', n, a, lda = n): [a] on exit *)
  dtrtri_UN : nat -> (nat -> nat -> F) -> nat -> nat -> F;                        (* dtrtri('U', 'N', n, a, lda = n): [a] on exit *)
  dgemm_NT : nat -> (nat -> nat -> F) -> (nat -> nat -> F) -> nat -> nat -> F;    (* dgemm('N', 'T', n, n, n, 1, a, b, 0, c): [c] on exit *)
  dtrmv_UTN : nat -> (nat -> nat -> F) -> (nat -> F) -> nat -> F                  (* dtrmv('U', 'T', 'N', n, a, x): [x] on exit *)
}.

Section M.
Context {F : Type} {SF : Scalar F} {LA : Lapack F}.

Definition vget (v : list F) (i : nat) : F := nth i v #0.
(** [[f(0), ..., f(n-1)]]: an array filled by a [for i in 0..N] loop that
    assigns each cell once, from values the loop does not change *)
Definition tab {A} (n : nat) (f : nat -> A) : list A := map f (seq 0 n).
Definition mtab {A} (n : nat) (f : nat -> nat -> A) : list (list A) := tab n (fun i => tab n (f i)).
(** [m[i][j] = v] *)
Fixpoint set_nth {A} (l : list A) (i : nat) (v : A) : list A :=
  match l, i with
  | [], _ => []
  | _ :: l, O => v :: l
  | x :: l, S i => x :: set_nth l i v
  end.
Definition mat_set (m : list (list F)) (i j : nat) (v : F) : list (list F) :=
  set_nth m i (set_nth (nth i m []) j v).

(** Passing a row-major array to a column-major routine: the cell (row, col)
    the routine sees is [m[col][row]], and back. *)
Definition fortran (m : list (list F)) (r c : nat) : F := mat_get m c r.
Definition of_fortran (n : nat) (A : nat -> nat -> F) : list (list F) := mtab n (fun i j => A j i).

(** linalg.rs:3-19 ([info] is not looked at) *)
Definition cholesky (mat : list (list F)) : list (list F) :=
  let n := List.length mat in
  let mat := of_fortran n (dpotrf_U n (fortran mat)) in
  mtab n (fun i j => if Nat.ltb i j then #0 else mat_get mat i j).
(** linalg.rs:21-34 *)
Definition inverse_lt (lt : list (list F)) : list (list F) :=
  let n := List.length lt in of_fortran n (dtrtri_UN n (fortran lt)).
(** linalg.rs:36-49 *)
Definition mm_square (mat : list (list F)) : list (list F) :=
  let n := List.length mat in of_fortran n (dgemm_NT n (fortran mat) (fortran mat)).
(** linalg.rs:51-61 *)
Definition mv_mult (mat : list (list F)) (v : list F) : list F :=
  let n := List.length mat in tab n (dtrmv_UTN n (fortran mat) (vget v)).
End M.
