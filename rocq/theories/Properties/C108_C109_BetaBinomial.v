(** * C108, C109: the beta-binomial distribution *)
From Coq Require Import Reals Lra Lia ZArith List.
From Coquelicot Require Import Coquelicot.
From Verif.Num Require Import XReal.
From Verif.Model Require Import Rust Constraints Probability Params Consts Discrete.
From Verif.Spec Require Import DistSpec UtilsSpec DiscreteSpec GammaSpec CompoundSpec ResSpec.
From Verif.Proofs Require Import XTac NewInv Oracle GammaFun DiscProofs4 BetaBinProofs.
Import ListNotations.
Open Scope R_scope.

(** C108 *)
Theorem C108_beta_binomial (SP : Special xreal) (n : nat) (a b : R) (d : BetaBinomial.t xreal) :
  beta_exact SP -> (Z.of_nat n <= 2 ^ 64 - 1)%Z -> BetaBinomial.new (Z.of_nat n) (Fin a) (Fin b) = Ok d ->
  0 < a /\ 0 < b /\ exists law, is_beta_binomial n a b law /\ is_law law /\ (forall k, (n < k)%nat -> law k = 0) /\
  (forall k, (k <= n)%nat -> choose_fits n k -> BetaBinomial.pmf d (Z.of_nat k) = Ret (Prob (Fin (law k)))) /\
  ((n <= 62)%nat -> forall k, (k <= n)%nat -> BetaBinomial.pmf d (Z.of_nat k) = Ret (Prob (Fin (law k)))) /\
  (forall k, ~ (k <= n)%nat \/ ~ choose_fits n k -> BetaBinomial.pmf d (Z.of_nat k) = Panic) /\
  returns (BetaBinomial.mean d) (fun m => law_mean law m /\ returns (BetaBinomial.variance d) (law_variance law m)).
Proof.
  intros Hs Hn H. unfold BetaBinomial.new in H. inv_new H. change (BetaBinomial.from _) with (BetaBinomial.new_unchecked (Z.of_nat n) (Fin a) (Fin b)).
  split; [auto|]. split; [auto|].
  exists (bblaw a b n). split; [now apply bb_spec|]. split; [now apply bb_is_law|].
  split. { intros k Hk. unfold bblaw. destruct (le_dec k n); [lia|auto]. }
  split. { intros k Hk Hf. now apply bb_pmf. }
  split. { intros H62 k Hk. apply bb_pmf; auto. now apply fits_62. }
  split. { intros k Hk. now apply bb_pmf_panic. }
  eexists. split; [now apply bb_mean_ok|]. split; [now apply bb_mean|]. eexists. split; [now apply bb_variance_ok|now apply bb_variance].
Qed.
Print Assumptions C108_beta_binomial.
Example C108_nonvacuous : beta_exact (exact false) /\ exists d, BetaBinomial.new (Z.of_nat 30) (Fin 2) (Fin (1 / 2)) = Ok d.
Proof. split; [apply ex_beta|]. eexists. unfold BetaBinomial.new. ok_new. Qed.

(** C109: [skewness] returns the third raw moment, which is positive, also where the law is symmetric *)
Theorem C109_skewness_is_third_moment_partial (n : nat) (a b : R) (d : BetaBinomial.t xreal) law :
  BetaBinomial.new (Z.of_nat n) (Fin a) (Fin b) = Ok d -> is_beta_binomial n a b law ->
  returns (BetaBinomial.skewness d) (fun s => law_expect law (fun k => INR k ^ 3) s).
Proof.
  intros H L. unfold BetaBinomial.new in H. inv_new H. change (BetaBinomial.from _) with (BetaBinomial.new_unchecked (Z.of_nat n) (Fin a) (Fin b)).
  eexists. split; [now apply bb_skewness_ok|]. eapply law_expect_law; [|now apply bb_m3]. intros k. apply (bb_unique n a b); auto. now apply bb_spec.
Qed.
Print Assumptions C109_skewness_is_third_moment_partial.
Theorem C109_skewness_refuted (n : nat) (a : R) (d : BetaBinomial.t xreal) law :
  (0 < n)%nat -> BetaBinomial.new (Z.of_nat n) (Fin a) (Fin a) = Ok d -> is_beta_binomial n a a law ->
  law_mean law (INR n / 2) /\ law_expect law (fun k => (INR k - INR n / 2) ^ 3) 0 /\
  returns (BetaBinomial.skewness d) (fun s => 0 < s /\ ~ law_skewness law s).
Proof.
  intros Hn H L. unfold BetaBinomial.new in H. inv_new H. change (BetaBinomial.from _) with (BetaBinomial.new_unchecked (Z.of_nat n) (Fin a) (Fin a)).
  assert (E : forall k, bblaw a a n k = law k) by (intros k; apply (bb_unique n a a); auto; now apply bb_spec).
  assert (M : INR n * (a / (a + a)) = INR n / 2) by (field; lra).
  split. { rewrite <- M. eapply law_expect_law; [exact E|now apply bb_mean]. }
  split. { rewrite <- M. eapply law_expect_law; [exact E|now apply bb_sym3]. }
  eexists. split; [now apply bb_skewness_ok|]. apply lt_0_INR in Hn as Hn'.
  match goal with |- 0 < ?s /\ _ => assert (P : 0 < s) end.
  { replace (a - a) with 0 by ring. rewrite Rmult_0_r, Rplus_0_r. pos. }
  split; [exact P|]. intros K. apply (bb_skew_bad n a _ ltac:(auto) Hn P). eapply law_skewness_law; [|exact K]. intros k. now rewrite E.
Qed.
Print Assumptions C109_skewness_refuted.
Theorem C109_kurtosis_refuted : exists d : BetaBinomial.t xreal, BetaBinomial.new 1 (Fin 1) (Fin 1) = Ok d /\
  returns (BetaBinomial.kurtosis d) (fun k => k = - (2 / 5) /\ forall law, is_law law -> ~ law_kurtosis law k).
Proof.
  exists (BetaBinomial.new_unchecked 1 (Fin 1) (Fin 1)). split. { unfold BetaBinomial.new. etransitivity; [ok_new2|reflexivity]. }
  eexists. split.
  { unfold BetaBinomial.kurtosis, BetaBinomial.new_unchecked, BetaBinomial.from; cbn [BetaBinomial.pr BetaBinomial.n BetaBinomial.alpha BetaBinomial.beta BetaBinomial.pi BetaBinomial.rho].
    xs. reflexivity. }
  split; [field|]. intros law Hl K. apply law_kurt_nonneg in K; [|auto]. revert K. apply Rlt_not_le.
  match goal with |- ?x < 0 => replace x with (- (2 / 5)) by field end. lra.
Qed.
Print Assumptions C109_kurtosis_refuted.
(** the support has one point too many ([pmf] panics there) and [cdf] is unimplemented below n *)
Theorem C109_support_cdf_refuted (SP : Special xreal) (n : nat) (a b : R) (d : BetaBinomial.t xreal) :
  (Z.of_nat n < 2 ^ 64 - 1)%Z -> BetaBinomial.new (Z.of_nat n) (Fin a) (Fin b) = Ok d ->
  BetaBinomial.support d = Ret (Closed 0%Z (Z.of_nat n + 1)%Z) /\ BetaBinomial.pmf d (Z.of_nat n + 1) = Panic /\
  (forall k, (k < Z.of_nat n)%Z -> BetaBinomial.cdf d k = Panic) /\
  (forall k, (Z.of_nat n <= k)%Z -> BetaBinomial.cdf d k = Ret (Prob (Fin 1))).
Proof.
  intros Hn H. unfold BetaBinomial.new in H. inv_new H. change (BetaBinomial.from _) with (BetaBinomial.new_unchecked (Z.of_nat n) (Fin a) (Fin b)).
  assert (E : (Z.of_nat n + 1)%Z = Z.of_nat (S n)) by lia.
  split. { unfold BetaBinomial.support. cbn [BetaBinomial.new_unchecked BetaBinomial.from BetaBinomial.pr BetaBinomial.n]. unfold usize. rewrite u64_ok; [reflexivity|unfold U64_MAX; lia]. }
  split. { rewrite E. apply bb_pmf_panic; [unfold U64_MAX; lia|]. left. lia. }
  split; intros k Hk; unfold BetaBinomial.cdf; cbn [BetaBinomial.new_unchecked BetaBinomial.from BetaBinomial.pr BetaBinomial.n]; destruct (Z.leb_spec (Z.of_nat n) k); try lia; reflexivity.
Qed.
Print Assumptions C109_support_cdf_refuted.
Example C109_nonvacuous : exists d, BetaBinomial.new (Z.of_nat 30) (Fin 2) (Fin 2) = Ok d /\ exists law, is_beta_binomial 30 2 2 law.
Proof. eexists. split; [unfold BetaBinomial.new; ok_new|]. exists (bblaw 2 2 30). apply bb_spec; lra. Qed.
