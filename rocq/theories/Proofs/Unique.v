(** * Moments and entropies are unique *)
From Coq Require Import Reals Lra Lia Psatz List ZArith.
From Coquelicot Require Import Coquelicot.
From Verif.Num Require Import Scalar XReal.
From Verif.Spec Require Import DistSpec.
From Verif.Proofs Require Import XTac Calc Calc2 Improper.
Open Scope R_scope.
Section U.
Context (lo hi : Rbar) (pdf : xreal -> xreal).
Lemma expectation_unique g m m' : is_expectation lo hi pdf g m -> is_expectation lo hi pdf g m' -> m = m'.
Proof. intros A B. unfold is_expectation in A, B. eapply (gen_unique lo hi); eauto. Qed.
Lemma mean_unique m m' : is_mean lo hi pdf m -> is_mean lo hi pdf m' -> m = m'.
Proof. apply expectation_unique. Qed.
Lemma variance_unique m v m' v' : is_variance lo hi pdf m v -> is_variance lo hi pdf m' v' -> m = m' /\ v = v'.
Proof. intros [A B] [A' B']. assert (m = m') by (eapply mean_unique; eauto). subst m'. split; [auto|]. eapply expectation_unique; eauto. Qed.
Lemma skewness_unique k k' : is_skewness lo hi pdf k -> is_skewness lo hi pdf k' -> k = k'.
Proof.
  intros (m & v & V & P & E) (m' & v' & V' & P' & E'). destruct (variance_unique _ _ _ _ V V') as [<- <-].
  assert (A := expectation_unique _ _ _ E E'). assert (0 < sqrt v) by pos. apply Rmult_eq_reg_r in A; [auto|]. apply Rgt_not_eq, Rmult_lt_0_compat; auto.
Qed.
Lemma kurtosis_unique k k' : is_kurtosis lo hi pdf k -> is_kurtosis lo hi pdf k' -> k = k'.
Proof.
  intros (m & v & V & P & E) (m' & v' & V' & P' & E'). destruct (variance_unique _ _ _ _ V V') as [<- <-].
  assert (A := expectation_unique _ _ _ E E'). apply Rmult_eq_reg_r in A; [auto|]. apply Rgt_not_eq, Rmult_lt_0_compat; auto.
Qed.
Lemma entropy_unique h h' : is_entropy lo hi pdf h -> is_entropy lo hi pdf h' -> h = h'.
Proof. intros A B. unfold is_entropy in A, B. eapply (gen_unique lo hi); eauto. Qed.
End U.
