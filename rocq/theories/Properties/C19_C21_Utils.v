(** * Properties C19-C21: combinatorial helpers *)
From Coq Require Import ZArith Lia List.
From Verif.Model Require Import Rust Utils.
From Verif.Spec Require Import UtilsSpec.
From Verif.Proofs Require Import UtilsProofs.
Open Scope Z_scope.

(** C19.  [binom] is Pascal's triangle; it is n!/(k!(n-k)!). *)
Theorem C19_choose (n k : nat) : Z.of_nat n <= U64_MAX ->
  ((k <= n)%nat ->
     binom n k * (zfact k * zfact (n - k)) = zfact n /\
     (* no product of the loop exceeds u64: exact result *)
     ((forall j, (j < Nat.min k (n - k))%nat -> binom n j * (Z.of_nat n - Z.of_nat j) <= U64_MAX) ->
        choose (Z.of_nat n) (Z.of_nat k) = Ret (binom n k)) /\
     (* otherwise: overflow panic *)
     ((exists j, (j < Nat.min k (n - k))%nat /\ U64_MAX < binom n j * (Z.of_nat n - Z.of_nat j)) ->
        choose (Z.of_nat n) (Z.of_nat k) = Panic) /\
     ((n <= 62)%nat -> choose (Z.of_nat n) (Z.of_nat k) = Ret (binom n k))) /\
  ((n < k)%nat -> choose (Z.of_nat n) (Z.of_nat k) = Panic).
Proof.
  intros Hn. split; [intros H; split; [exact (binom_fact n k H)|split; [exact (choose_ok n k H Hn)|split]]|].
  - intros (j & H1 & H2). exact (choose_overflow n k j H Hn H1 H2).
  - intros H62. apply (choose_ok n k H Hn). intros j Hj. apply prod_fits; lia.
  - intros H. apply choose_k_gt_n; lia.
Qed.
Print Assumptions C19_choose.
(** 62 is the limit: C(63,31) fits in u64 but choose(63,31) overflows on the way. *)
Theorem C19_limit_63 : choose 63 31 = Panic /\ binom 63 31 = 916312070471295267 /\ 916312070471295267 <= U64_MAX.
Proof.
  split; [vm_compute; reflexivity|split; [|vm_compute; discriminate]].
  pose proof (rows_spec 63 0 63 (le_n _)) as H. apply (f_equal (fun l => List.nth 31 l 0)) in H.
  unfold row at 2 in H. rewrite (map_nth_seq (binom (0 + 63)) 31 (S (0 + 63))) in H by lia.
  transitivity (nth 31 (nth 63 (rows 63 (row 0)) nil) 0); [symmetry; exact H|]. vm_compute. reflexivity.
Qed.
Print Assumptions C19_limit_63.
Example C19_nonvacuous : choose 10 3 = Ret 120 /\ binom 10 3 = 120 /\ choose 3 4 = Panic.
Proof. repeat split. Qed.

(** C20. *)
Theorem C20_factorial (n : nat) :
  ((n <= 20)%nat -> factorial (Z.of_nat n) = Ret (zfact n) /\ factorial_exact (Z.of_nat n) = Ret (zfact n)) /\
  ((20 < n)%nat -> factorial (Z.of_nat n) = Panic /\ factorial_exact (Z.of_nat n) = Panic).
Proof.
  exact (conj (fun H => conj (proj1 (factorial_spec n) H) (proj1 (factorial_exact_spec n) H))
              (fun H => conj (proj2 (factorial_spec n) H) (proj2 (factorial_exact_spec n) H))).
Qed.
Print Assumptions C20_factorial.
