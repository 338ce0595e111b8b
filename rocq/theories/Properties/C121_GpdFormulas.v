(** * C121: the generalised Pareto moments — the formulas behind the inverted
    guards are the right ones, so the guards are the only defect *)
From Coq Require Import Reals Lra Lia List ZArith Bool.
From Coquelicot Require Import Coquelicot.
From Verif.Num Require Import Scalar XReal.
From Verif.Model Require Import Rust Constraints Probability Params Consts Traits Continuous.
From Verif.Spec Require Import DistSpec ResSpec.
From Verif.Proofs Require Import ConstraintProofs NewInv XTac Calc Calc2 ContProofs3 ContProofs31.
Import ListNotations.
Open Scope R_scope.

(** the textbook moments of the generalised Pareto law with location [m],
    scale [g] and shape [z] (valid for z < 1, 1/2, 1/3, 1/4 respectively) *)
Definition gpd_mean (m g z : R) := m + g / (1 - z).
Definition gpd_variance (g z : R) := g * g / ((1 - z) * (1 - z) * (1 - 2 * z)).
Definition gpd_skewness (z : R) := 2 * (1 + z) * sqrt (1 - 2 * z) / (1 - 3 * z).
Definition gpd_kurtosis (z : R) := 3 * (1 - 2 * z) * (2 * (z * z) + z + 3) / ((1 - 3 * z) * (1 - 4 * z)).
Theorem C121_gpd_formulas_partial (m g z : R) (d : GPD.t xreal) :
  GPD.new (Fin m) (Fin g) (Fin z) = Ok d ->
  (* they are the moments of the density wherever those exist *)
  (z < 1 -> is_mean m p_infty (GPD.pdf d) (gpd_mean m g z)) /\
  (z < 1 / 2 -> is_variance m p_infty (GPD.pdf d) (gpd_mean m g z) (gpd_variance g z)) /\
  (z < 1 / 3 -> is_skewness m p_infty (GPD.pdf d) (gpd_skewness z)) /\
  (z < 1 / 4 -> is_kurtosis m p_infty (GPD.pdf d) (gpd_kurtosis z)) /\
  (* and they are what the methods return, but only on the other side of the guard *)
  (z <= 1 <-> GPD.mean d = Panic) /\ (1 < z -> GPD.mean d = Ret (Fin (gpd_mean m g z))) /\
  (z <= 1 / 2 <-> GPD.variance d = Panic) /\ (1 / 2 < z -> z <> 1 -> GPD.variance d = Ret (Fin (gpd_variance g z))) /\
  (z <= 1 / 3 <-> GPD.skewness d = Panic) /\ (1 / 3 < z <= 1 / 2 -> GPD.skewness d = Ret (Fin (gpd_skewness z))) /\
  (z <= 1 / 3 <-> GPD.excess_kurtosis d = Panic) /\ (1 / 3 < z -> GPD.excess_kurtosis d = Ret (Fin (gpd_kurtosis z - 3))).
Proof.
  intros H. unfold GPD.new in H. inv_new H. change (GPD.mk _) with (GPD.new_unchecked (Fin m) (Fin g) (Fin z)).
  unfold gpd_mean, gpd_variance, gpd_skewness, gpd_kurtosis.
  split; [intros Hz; now apply gp_mean|].
  split. { intros Hz. replace (g * g / ((1 - z) * (1 - z) * (1 - 2 * z))) with (g * g / ((1 - z) * (1 - z)) / (1 - 2 * z)) by (field; lra). 
    assert (A := gp_variance m g z ltac:(auto) ltac:(auto) Hz). revert A. match goal with |- is_variance _ _ _ _ ?a -> is_variance _ _ _ _ ?b => replace a with b by (field; lra) end. auto. }
  split; [intros Hz; now apply gp_skewness|].
  split. { intros Hz. assert (A := gp_kurtosis m g z ltac:(auto) ltac:(auto) Hz). revert A. match goal with |- is_kurtosis _ _ _ ?a -> is_kurtosis _ _ _ ?b => replace a with b by (field; lra) end. auto. }
  unfold GPD.mean, GPD.variance, GPD.skewness, GPD.excess_kurtosis, ONE_THIRD; cbn [GPD.pr GPD.new_unchecked]; xs.
  repeat match goal with |- _ /\ _ => split | |- _ <-> _ => split | |- _ -> _ => intros ? end.
  all: xs.
  all: try (rewrite Rleb_true by lra; reflexivity).
  all: try (match goal with |- _ <= ?b => destruct (Rle_dec z b) as [L|L]; [exact L|exfalso; match goal with X : _ = Panic |- _ => revert X end; xs; rewrite Rleb_false by lra; discriminate] end).
  all: rewrite ?(Rleb_false z) by lra.
  - rewrite ?x_div by lra. reflexivity.
  - rewrite ?x_div by (try lra; try (apply Rmult_integral_contrapositive_currified; lra)). do 2 f_equal. field. lra.
  - try rewrite x_sqrt by lra. xs. do 2 f_equal.
  - rewrite ?x_div by lra. cbn. do 2 f_equal. field. lra.
Qed.
Print Assumptions C121_gpd_formulas_partial.
Example C121_formulas_nonvacuous : (exists d, GPD.new (Fin (-1)) (Fin 2) (Fin (1/8)) = Ok d) /\ exists d, GPD.new (Fin (-1)) (Fin 2) (Fin (2/5)) = Ok d.
Proof. split; eexists; unfold GPD.new; ok_new. Qed.
