(** * Properties C113, C114: moments and entropy of Gumbel; variance, skewness, kurtosis of Logistic *)
From Coq Require Import Reals Lra Lia Psatz List ZArith.
From Coquelicot Require Import Coquelicot.
From Verif.Num Require Import Scalar XReal.
From Verif.Model Require Import Rust Constraints Probability Params Consts Traits Continuous.
From Verif.Spec Require Import DistSpec GammaSpec ResSpec ZetaSpec.
From Verif.Proofs Require Import ConstraintProofs NewInv XTac Calc GammaFun Mellin Oracle ZetaOracle ContProofs28 ContProofs29.
Import ListNotations.
Open Scope R_scope.

(** C113 *)
Theorem C113_gumbel (SP : Special xreal) (m g : R) (d : Gumbel.t xreal) :
  digamma_exact SP -> zeta_exact SP -> Gumbel.new (Fin m) (Fin g) = Ok d ->
  returns (Gumbel.mean d) (fun mu => is_mean m_infty p_infty (Gumbel.pdf d) mu /\
    returns (Gumbel.variance d) (is_variance m_infty p_infty (Gumbel.pdf d) mu)) /\
  returns (Gumbel.skewness d) (is_skewness m_infty p_infty (Gumbel.pdf d)) /\
  returns (Gumbel.kurtosis d) (is_kurtosis m_infty p_infty (Gumbel.pdf d)) /\
  returns (Gumbel.excess_kurtosis d) (fun e => is_kurtosis m_infty p_infty (Gumbel.pdf d) (e + 3)) /\
  returns (Gumbel.shannon_entropy d) (is_entropy m_infty p_infty (Gumbel.pdf d)).
Proof.
  intros Hd Hz H. unfold Gumbel.new in H. inv_new H. change (Gumbel.mk _) with (Gumbel.new_unchecked (Fin m) (Fin g)).
  split; [eexists; split; [now apply gu_mean_val|split; [now apply gu_mean|eexists; split; [now apply gu_var_val|now apply gu_variance]]]|].
  split. { destruct (Hz 3 ltac:(lra)) as (z & E & Z). eexists; split; [now apply (gu_sk_val m g z)|now apply gu_skewness]. }
  split; [eexists; split; [apply gu_ku_val|now apply gu_kurtosis]|].
  split; [eexists; split; [apply gu_ek_val|]; replace (12 / 5 + 3) with (27 / 5) by field; now apply gu_kurtosis|].
  eexists; split; [now apply gu_ent_val|now apply gu_entropy].
Qed.
Print Assumptions C113_gumbel.
Example C113_nonvacuous : digamma_exact (exactz false) /\ zeta_exact (exactz false) /\ exists d, Gumbel.new (Fin 4) (Fin 3) = Ok d.
Proof. split; [apply exz_psi|]. split; [apply exz_zeta|]. eexists. unfold Gumbel.new. ok_new. Qed.

(** C114 *)
Theorem C114_logistic (m g : R) (d : Logistic.t xreal) :
  Logistic.new (Fin m) (Fin g) = Ok d ->
  returns (Logistic.mean d) (fun mu => returns (Logistic.variance d) (is_variance m_infty p_infty (Logistic.pdf d) mu)) /\
  returns (Logistic.skewness d) (is_skewness m_infty p_infty (Logistic.pdf d)) /\
  returns (Logistic.kurtosis d) (is_kurtosis m_infty p_infty (Logistic.pdf d)) /\
  returns (Logistic.excess_kurtosis d) (fun e => is_kurtosis m_infty p_infty (Logistic.pdf d) (e + 3)).
Proof.
  intros H. unfold Logistic.new in H. inv_new H. change (Logistic.mk _) with (Logistic.new_unchecked (Fin m) (Fin g)).
  split; [exists m; split; [reflexivity|eexists; split; [apply l_var_val|now apply l_variance]]|].
  split; [eexists; split; [apply l_sk_val|now apply l_skewness]|].
  split; [eexists; split; [apply l_ku_val|now apply l_kurtosis]|].
  eexists; split; [apply l_ek_val|]; replace (6 / 5 + 3) with (21 / 5) by field; now apply l_kurtosis.
Qed.
Print Assumptions C114_logistic.
Example C114_nonvacuous : exists d, Logistic.new (Fin 4) (Fin 3) = Ok d.
Proof. eexists. unfold Logistic.new. ok_new. Qed.
