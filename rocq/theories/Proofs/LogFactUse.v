(** * Poisson and Erlang with the log-factorial of utils.rs *)
From Coq Require Import Reals Lra Lia Psatz Arith ZArith List Bool.
From Coquelicot Require Import Coquelicot.
From Verif.Num Require Import Scalar XReal.
From Verif.Model Require Import Rust Constraints Probability Params Traits LogFact Discrete Continuous3.
From Verif.Spec Require Import DistSpec DiscreteSpec GammaSpec ResSpec.
From Verif.Proofs Require Import ConstraintProofs NewInv Calc XTac Stirling LogTable ContProofs18 DiscProofs4.
Import ListNotations.
Open Scope R_scope.

Lemma lf_close (n : nat) : (Z.of_nat n < 2 ^ 64 - 1)%Z -> exists v, log_factorial_stirling (F := xreal) (Z.of_nat n) = Ret (Fin v) /\ Rabs (v - ln (INR (fact n))) <= 2 / 10 ^ 10.
Proof.
  intros Hn. destruct (lf_ok n Hn) as (v & E & B). exists v. split; [exact E|]. destruct (Nat.ltb_spec n 255) as [L|L].
  - eapply Rle_trans; [exact B|]. lra.
  - assert (K : 255 <= INR n) by (replace 255 with (INR 255) by (rewrite INR_IZR_INZ; reflexivity); now apply le_INR). rewrite Rabs_pos_eq by lra.
    eapply Rle_trans; [exact (proj2 B)|]. assert (P : 256 ^ 3 <= (INR n + 1) ^ 3) by (apply pow_incr; lra).
    apply Rle_trans with (1 / (360 * 256 ^ 3)); [|lra]. unfold Rdiv. apply Rmult_le_compat_l; [lra|]. apply Rinv_le_contravar; lra.
Qed.
Lemma lf_max : log_factorial_stirling (F := xreal) (2 ^ 64 - 1) = Panic.
Proof. reflexivity. Qed.
(** the multiplicative form *)
Lemma exp_close a b e : Rabs (a - b) <= e -> exp (- e) * exp b <= exp a <= exp e * exp b.
Proof. intros H. apply Rabs_def2' in H || (apply Rabs_le_between in H). rewrite <- !exp_plus. split; apply exp_le_mono; lra. Qed.

Lemma poi_pmf_close (l : R) (k : nat) : 0 < l -> (Z.of_nat k < 2 ^ 64 - 1)%Z ->
  exists q, Poisson.pmf (poi l) (Z.of_nat k) = Ret (Prob (Fin (exp q))) /\ Poisson.log_pmf (poi l) (Z.of_nat k) = Ret (Fin q) /\ Rabs (q - ln (poisson_law l k)) <= 2 / 10 ^ 10.
Proof.
  intros Hl Hk. destruct (lf_close k Hk) as (v & E & B). assert (Q := poi_log_pmf_with log_factorial_stirling l k v Hl E).
  exists (INR k * ln l - l - v). unfold Poisson.pmf, Poisson.pmf_with, Poisson.log_pmf. rewrite Q. cbn [rmap rbind]. xs. split; [reflexivity|]. split; [reflexivity|].
  rewrite ln_plaw by auto. replace (_ - _) with (- (v - ln (INR (fact k)))) by ring. now rewrite Rabs_Ropp.
Qed.

(** Erlang: the density is too large by a factor of e^(k-1) at least *)
Lemma er_pdf_big (k : nat) (l x : R) : (2 <= k)%nat -> (Z.of_nat k < 2 ^ 64)%Z -> 0 < l -> 0 < x ->
  exists q, Erlang.pdf (Erlang.new_unchecked (Z.of_nat k) (Fin l)) (Fin x) = Ret (Fin q) /\ 2 * erlang_density k l x < q.
Proof.
  intros Hk Hu Hl Hx. assert (EZ : (Z.of_nat k - 1)%Z = Z.of_nat (k - 1)) by lia. destruct (lf_close (k - 1) ltac:(lia)) as (v & E & B).
  unfold Erlang.pdf, Erlang.log_pdf; cbn [Erlang.new_unchecked Erlang.pr Erlang.k Erlang.lambda]. rewrite EZ. unfold u64, checked.
  replace (_ && _)%bool with true by (symmetry; apply andb_true_iff; split; apply Z.leb_le; unfold U64_MAX; lia). cbn [rbind]. rewrite E. cbn [rbind rmap]. xs. eexists. split; [reflexivity|].
  rewrite <- !INR_IZR_INZ. assert (F0 := INR_fact_lt_0 (k - 1)). assert (KI : 1 <= INR (k - 1)) by (apply (le_INR 1); lia).
  assert (ED : erlang_density k l x = exp (INR k * ln l + INR (k - 1) * ln x - l * x - ln (INR (fact (k - 1))))).
  { unfold erlang_density, Rdiv. unfold Rminus. rewrite !exp_plus, (exp_Ropp (ln (INR (fact (k - 1))))), (exp_ln (INR (fact (k - 1)))) by auto. f_equal. f_equal.
    - f_equal; rewrite <- Rpower_pow by auto; reflexivity. }
  rewrite ED. apply Rle_lt_trans with (exp (ln 2) * exp (INR k * ln l + INR (k - 1) * ln x - l * x - ln (INR (fact (k - 1))))); [rewrite exp_ln by lra; lra|].
  rewrite <- exp_plus. apply exp_increasing. assert (L := ln_le_sub1 x Hx). assert (INR (k - 1) <= INR (k - 1) * (x - ln x)) by nra.
  apply Rabs_le_between in B. assert (L2 : ln 2 < 9 / 10). { rewrite <- (ln_exp (9 / 10)). apply ln_increasing; [lra|]. assert (E2 := exp_ineq1 (9/20) ltac:(lra)). replace (9 / 10) with (9 / 20 + 9 / 20) by lra. rewrite exp_plus. nra. }
  lra.
Qed.
