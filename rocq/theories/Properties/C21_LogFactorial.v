(** * Property C21: the log-factorial of utils.rs, and what follows for the
      Poisson pmf (C54) and the Erlang density (C98) as they are computed *)
From Coq Require Import Reals Lra Lia Psatz Arith ZArith List.
From Verif.Num Require Import Scalar XReal.
From Verif.Model Require Import Rust Constraints Probability Params LogFact Discrete Continuous3.
From Verif.Spec Require Import DistSpec DiscreteSpec GammaSpec ResSpec.
From Verif.Proofs Require Import ConstraintProofs NewInv XTac LogTable LogFactUse DiscProofs3 DiscProofs4.
Open Scope R_scope.

(** C21.  Up to 254 the error is that of the decimal table; beyond, Stirling's
    series overestimates by at most the first omitted term. *)
Theorem C21_log_factorial_partial (n : nat) : (Z.of_nat n < 2 ^ 64 - 1)%Z ->
  exists v, log_factorial_stirling (F := xreal) (Z.of_nat n) = Ret (Fin v) /\
    ((n <= 254)%nat -> Rabs (v - ln (INR (fact n))) <= 3 / 10 ^ 13) /\
    ((254 < n)%nat -> 0 <= v - ln (INR (fact n)) <= 1 / (360 * (INR n + 1) ^ 3)) /\
    Rabs (v - ln (INR (fact n))) <= 2 / 10 ^ 10.
Proof.
  intros Hn. destruct (lf_ok n Hn) as (v & E & B). destruct (lf_close n Hn) as (w & E' & C). exists v. split; [exact E|].
  assert (W : w = v) by congruence. rewrite W in C. destruct (Nat.ltb_spec n 255) as [L|L].
  - split; [intros _; exact B|]. split; [intros; lia|exact C].
  - split; [intros; lia|]. split; [intros _; exact B|exact C].
Qed.
Print Assumptions C21_log_factorial_partial.
(** the claim is for every u64: it fails at the largest, where n + 1 overflows *)
Theorem C21_max_refuted : log_factorial_stirling (F := xreal) (2 ^ 64 - 1) = Panic.
Proof. exact lf_max. Qed.
Print Assumptions C21_max_refuted.
Example C21_nonvacuous : (Z.of_nat 1000 < 2 ^ 64 - 1)%Z /\ (254 < 1000)%nat. Proof. split; lia. Qed.

(** C54 for the pmf with the approximate log-factorial *)
Theorem C54_poisson_pmf (l : R) (d : Poisson.t xreal) (k : nat) : Poisson.new (Fin l) = Ok d -> (Z.of_nat k < 2 ^ 64 - 1)%Z ->
  exists p, Poisson.pmf d (Z.of_nat k) = Ret (Prob (Fin p)) /\ Poisson.log_pmf d (Z.of_nat k) = Ret (Fin (ln p)) /\
    exp (- (2 / 10 ^ 10)) * poisson_law l k <= p <= exp (2 / 10 ^ 10) * poisson_law l k.
Proof.
  intros H Hk. apply poi_new_inv in H as [Hl ->]. destruct (poi_pmf_close l k Hl Hk) as (q & E & E' & B). exists (exp q). rewrite ln_exp. split; [exact E|]. split; [exact E'|].
  rewrite <- (exp_ln (poisson_law l k)) by now apply plaw_pos. now apply exp_close.
Qed.
Print Assumptions C54_poisson_pmf.
Example C54_pmf_nonvacuous : exists d, Poisson.new (Fin 3) = Ok d. Proof. eexists. unfold Poisson.new. ok_new. Qed.

(** C98: for no shape above 1 is the density right at any point *)
Theorem C98_erlang_pdf_refuted (k : nat) (l x : R) (d : Erlang.t xreal) : Erlang.new (Z.of_nat k) (Fin l) = Ok d ->
  (2 <= k)%nat -> (Z.of_nat k < 2 ^ 64)%Z -> 0 < x ->
  exists q, Erlang.pdf d (Fin x) = Ret (Fin q) /\ 2 * erlang_density k l x < q.
Proof.
  intros H Hk Hu Hx. unfold Erlang.new in H. inv_new H. change (Erlang.mk _) with (Erlang.new_unchecked (Z.of_nat k) (Fin l)). now apply er_pdf_big.
Qed.
Print Assumptions C98_erlang_pdf_refuted.
Example C98_pdf_nonvacuous : exists d, Erlang.new (Z.of_nat 5) (Fin 3) = Ok d. Proof. eexists. unfold Erlang.new. ok_new. Qed.
