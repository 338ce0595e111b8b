(** * /repo/src/utils.rs and the factorial table of /repo/src/consts.rs *)
From Verif.Model Require Import Rust.
Open Scope Z_scope.

(** (1..=n).product() with checked u64 multiplication: utils.rs:3.
    [n] as nat is the number of factors. *)
Fixpoint product_upto (n : nat) : res Z :=
  match n with
  | O => Ret 1
  | S m => let! acc := product_upto m in u64 (acc * Z.of_nat n)
  end.
Definition factorial_exact (n : Z) : res Z := product_upto (Z.to_nat n).

(** consts.rs:37-39 *)
Definition FACTORIALS_16 : list Z :=
  [1; 1; 2; 6; 24; 120; 720; 5040; 40320; 362880; 3628800; 39916800].

(** utils.rs:5-11 *)
Definition factorial (n : Z) : res Z :=
  if Z.ltb 11 n then factorial_exact n
  else match nth_error FACTORIALS_16 (Z.to_nat n) with Some v => Ret v | None => Panic end.

(** utils.rs:23-27: (0..k).fold(1, |acc, i| acc * (n - i) / (i + 1)), u64 checked.
    [choose_fold n i k acc] runs the remaining [k] iterations from index [i]. *)
Fixpoint choose_fold (n i : Z) (k : nat) (acc : Z) : res Z :=
  match k with
  | O => Ret acc
  | S k =>
      let! d := u64 (n - i) in
      let! m := u64 (acc * d) in
      let! i1 := u64 (i + 1) in
      choose_fold n (i + 1) k (m / i1)
  end.
Definition choose (n k : Z) : res Z :=
  let! nk := u64 (n - k) in
  let k := if Z.ltb nk k then nk else k in
  choose_fold n 0 (Z.to_nat k) 1.
