(** * Property C148: the order of the reported mode, median and mean *)
From Coq Require Import Reals Lra Lia Psatz List ZArith.
From Coquelicot Require Import Coquelicot.
From Verif.Num Require Import XReal.
From Verif.Model Require Import Rust Constraints Probability Params Consts Traits Continuous Continuous2 Continuous3.
From Verif.Spec Require Import DistSpec.
From Verif.Proofs Require Import ConstraintProofs NewInv XTac Calc DiscProofs7 ContProofs5 ContProofs8 Subst.
From Verif.Properties Require Import C136_Medians.
Import ListNotations.
Open Scope R_scope.

(** the only reported mode, the median and the mean are real numbers with mode < median < mean *)
Definition right_ordered (modes : list xreal) (median mean : xreal) : Prop :=
  exists mo me mu, modes = [Fin mo] /\ median = Fin me /\ mean = Fin mu /\ mo < me < mu.
Definition left_ordered (modes : list xreal) (median mean : xreal) : Prop :=
  exists mo me mu, modes = [Fin mo] /\ median = Fin me /\ mean = Fin mu /\ mu < me < mo.

(** Beta, both shapes above one and at least 1e-7 apart: the reported median is strictly between mode and mean,
    and it leans the way the shapes say *)
Theorem C148_beta (a b : R) (d : Beta.t xreal) :
  1 < a -> 1 < b -> / 10000000 <= Rabs (a - b) -> Beta.new (Fin a) (Fin b) = Ok d ->
  exists m, Beta.median d = Ret m /\
    (a < b -> right_ordered (Beta.modes d) m (Beta.mean d)) /\ (b < a -> left_ordered (Beta.modes d) m (Beta.mean d)).
Proof.
  intros Ha Hb Hab H. unfold Beta.new in H. inv_new H. change (Beta.mk _) with (Beta.new_unchecked (Fin a) (Fin b)).
  exists (Fin ((a - 1 / 3) / (a + b - 2 / 3))).
  assert (MO : Beta.modes (Beta.new_unchecked (Fin a) (Fin b)) = [Fin ((a - 1) / (a + b - 2))]).
  { unfold Beta.modes. cbn [Beta.pr Beta.new_unchecked Beta.alpha Beta.beta]. xs. rewrite !Rltb_true by lra. cbn [andb]. reflexivity. }
  assert (ME : Beta.mean (Beta.new_unchecked (Fin a) (Fin b)) = Fin (a / (a + b))).
  { unfold Beta.mean. cbn [Beta.pr Beta.new_unchecked Beta.alpha Beta.beta]. assert (0 < b / a) by (apply Rdiv_lt_0_compat; lra). xs. f_equal. field. lra. }
  assert (L : forall p q r s : R, 0 < q -> 0 < s -> p * s < r * q -> p / q < r / s).
  { intros p q r s Hq Hs E. apply Rmult_lt_reg_r with (q * s); [nra|]. replace (p / q * (q * s)) with (p * s) by (field; lra). replace (r / s * (q * s)) with (r * q) by (field; lra). exact E. }
  split; [|rewrite MO, ME; split; intros C; eexists _, _, _; repeat (split; [reflexivity|]); split; apply L; nra].
  unfold Beta.median, ONE_THIRD, TWO_THIRDS. cbn [Beta.pr Beta.new_unchecked Beta.alpha Beta.beta]. xs.
  rewrite Rltb_false by lra. rewrite !Rltb_true by lra. cbn [andb]. reflexivity.
Qed.
Print Assumptions C148_beta.
Example C148_beta_ex : exists d, Beta.new (Fin 2) (Fin 5) = Ok d /\ 1 < 2 /\ 1 < 5 /\ / 10000000 <= Rabs (2 - 5).
Proof. eexists. split; [unfold Beta.new; ok_new|]. split; [lra|split; [lra|]]. rewrite Rabs_left by lra. lra. Qed.

Theorem C148_exponential (l : R) (d : Exponential.t xreal) :
  Exponential.new (Fin l) = Ok d ->
  right_ordered (Exponential.modes d) (Exponential.median d) (Exponential.mean d) /\
  exists me mu v, Exponential.median d = Fin me /\ Exponential.mean d = Fin mu /\ Exponential.variance d = Fin v /\ (mu - me) * (mu - me) <= v.
Proof.
  intros H. unfold Exponential.new in H. inv_new H. change (Exponential.mk _) with (Exponential.new_unchecked (Fin l)).
  assert (P := ln2_pos). assert (U := ln2_ub).
  assert (IL : 0 < 1 / l) by (apply Rdiv_lt_0_compat; lra).
  assert (E1 : Exponential.mean (Exponential.new_unchecked (Fin l)) = Fin (1 / l)).
  { unfold Exponential.mean, Exponential.lam. cbn [Exponential.pr Exponential.new_unchecked Exponential.lambda]. xs. reflexivity. }
  assert (E2 : Exponential.median (Exponential.new_unchecked (Fin l)) = Fin (1 / l * ln 2)).
  { unfold Exponential.median. rewrite E1. xs. reflexivity. }
  rewrite E1, E2. split.
  - eexists _, _, _. split; [unfold Exponential.modes; xs; reflexivity|]. repeat (split; [reflexivity|]). nra.
  - eexists _, _, _. repeat (split; [reflexivity|]). split.
    + unfold Exponential.variance, Exponential.lam. cbn [Exponential.pr Exponential.new_unchecked Exponential.lambda]. cbv zeta. xs. reflexivity.
    + replace (1 / l / l) with (1 / l * (1 / l)) by (field; lra). generalize dependent (1 / l). intros i Hi _ _. nra.
Qed.
Print Assumptions C148_exponential.
Example C148_exponential_ex : exists d, Exponential.new (Fin 2) = Ok d.
Proof. eexists. unfold Exponential.new. ok_new. Qed.

Lemma ln2_half : 1 / 2 < ln 2.
Proof.
  assert (A : 1 < ln 4). { rewrite <- (ln_exp 1) at 1. apply ln_increasing; [apply exp_pos|]. assert (B := exp_le_3). lra. }
  replace 4 with (2 * 2) in A by ring. rewrite ln_mult in A by lra. lra.
Qed.
Theorem C148_rayleigh (s : R) (d : Rayleigh.t xreal) :
  Rayleigh.new (Fin s) = Ok d -> right_ordered (Rayleigh.modes d) (Rayleigh.median d) (Rayleigh.mean d).
Proof.
  intros H. unfold Rayleigh.new in H. inv_new H. change (Rayleigh.mk _) with (Rayleigh.new_unchecked (Fin s)).
  assert (P := ln2_half). assert (U := ln2_ub). assert (P2 := PI2_3_2).
  exists s, (s * sqrt (2 * ln 2)), (s * sqrt (PI / 2)).
  split; [reflexivity|]. split; [unfold Rayleigh.median; cbn [Rayleigh.pr Rayleigh.new_unchecked Rayleigh.sigma]; assert (0 < 2 * ln 2) by lra; xs; reflexivity|].
  split; [unfold Rayleigh.mean, PI_OVER_2; cbn [Rayleigh.pr Rayleigh.new_unchecked Rayleigh.sigma]; assert (0 < PI / 2) by lra; xs; reflexivity|].
  split.
  - assert (1 < sqrt (2 * ln 2)) by (rewrite <- sqrt_1 at 1; apply sqrt_lt_1; lra). nra.
  - apply Rmult_lt_compat_l; [assumption|]. apply sqrt_lt_1; lra.
Qed.
Print Assumptions C148_rayleigh.
Example C148_rayleigh_ex : exists d, Rayleigh.new (Fin 2) = Ok d.
Proof. eexists. unfold Rayleigh.new. ok_new. Qed.

(** Gumbel: mode below median for every parameter (the mean needs Euler's constant, an oracle value) *)
Theorem C148_gumbel (m b : R) (d : Gumbel.t xreal) :
  Gumbel.new (Fin m) (Fin b) = Ok d -> exists me, Gumbel.modes d = [Fin m] /\ Gumbel.median d = Fin me /\ m < me < m + b.
Proof.
  intros H. unfold Gumbel.new in H. inv_new H. change (Gumbel.mk _) with (Gumbel.new_unchecked (Fin m) (Fin b)).
  assert (P := ln2_half). assert (U := ln2_ub).
  exists (m - b * ln (ln 2)). split; [reflexivity|]. split; [unfold Gumbel.median; cbn [Gumbel.pr Gumbel.new_unchecked Gumbel.mu Gumbel.beta]; xs; reflexivity|].
  assert (A : ln (ln 2) < 0) by (rewrite <- ln_1; apply ln_increasing; lra).
  assert (B : -1 < ln (ln 2)). { apply exp_lt_inv. rewrite exp_ln by lra. apply Rlt_trans with (1 / 2); [|lra]. replace (-1) with (-(1)) by ring. rewrite exp_Ropp. assert (E := exp_ineq1 1 ltac:(lra)). unfold Rdiv. rewrite Rmult_1_l. apply Rinv_lt_contravar; lra. }
  nra.
Qed.
Print Assumptions C148_gumbel.
Example C148_gumbel_ex : exists d, Gumbel.new (Fin (-3)) (Fin 2) = Ok d.
Proof. eexists. unfold Gumbel.new. ok_new. Qed.

(** Pareto with a mean (shape above one, positive minimum) *)
Theorem C148_pareto (xm a : R) (d : Pareto.t xreal) :
  0 < xm -> 1 < a -> Pareto.new (Fin xm) (Fin a) = Ok d -> right_ordered (Pareto.modes d) (Pareto.median d) (Pareto.mean d).
Proof.
  intros Hx Ha H. unfold Pareto.new in H. inv_new H. change (Pareto.mk _) with (Pareto.new_unchecked (Fin xm) (Fin a)).
  assert (P := ln2_half). assert (U := ln2_ub).
  exists xm, (xm * Rpower 2 (1 / a)), (a * xm / (a - 1)).
  split; [reflexivity|]. split; [unfold Pareto.median; cbn [Pareto.pr Pareto.new_unchecked]; xs; reflexivity|].
  split; [unfold Pareto.mean; cbn [Pareto.pr Pareto.new_unchecked]; xs; rewrite Rleb_false by lra; reflexivity|].
  assert (I : 0 < 1 / a) by (apply Rdiv_lt_0_compat; lra).
  assert (I1 : 1 / a < 1) by (apply Rmult_lt_reg_r with a; [lra|]; field_simplify; lra).
  assert (B : 1 < Rpower 2 (1 / a)). { unfold Rpower. apply Rle_lt_trans with (exp 0); [rewrite exp_0; lra|]. apply exp_increasing. apply Rmult_lt_0_compat; lra. }
  split; [nra|].
  replace (a * xm / (a - 1)) with (xm * (/ (1 - 1 / a))) by (field; lra). apply Rmult_lt_compat_l; [assumption|].
  unfold Rpower. rewrite <- (exp_ln (/ (1 - 1 / a))) by (apply Rinv_0_lt_compat; lra). apply exp_increasing. rewrite ln_Rinv by lra.
  assert (E := ln_le_sub1 (1 - 1 / a) ltac:(lra)). nra.
Qed.
Print Assumptions C148_pareto.
Example C148_pareto_ex : exists d, Pareto.new (Fin 1) (Fin 3) = Ok d.
Proof. eexists. unfold Pareto.new. ok_new. Qed.

(** chi squared: the reported mode max(k-2, 0), median and mean, for every k >= 1 *)
Theorem C148_chi_squared (SP : Special xreal) (k : Z) (d : ChiSq.t) :
  ChiSq.new (F := xreal) k = Ok d -> right_ordered (ChiSq.modes d) (ChiSq.median d) (ChiSq.mean d).
Proof.
  intros H. destruct (C136_chi_squared_partial SP k d H) as [(m & E & B1 & B2) _]. unfold ChiSq.new in H. inv_new H. change (ChiSq.mk _) with (ChiSq.new_unchecked k) in *.
  exists (IZR (Z.max k 2 - 2)), m, (IZR k). split; [reflexivity|]. split; [exact E|]. split; [reflexivity|]. split; [|exact B2].
  destruct (Z_lt_le_dec k 2) as [K|K].
  - rewrite Z.max_r by lia. assert (k = 1%Z) by lia. subst k. replace (2 - 2)%Z with 0%Z by lia. lra.
  - rewrite Z.max_l by lia. rewrite minus_IZR. lra.
Qed.
Print Assumptions C148_chi_squared.
Example C148_chi_squared_ex : exists d, ChiSq.new (F := xreal) 3 = Ok d.
Proof. eexists. unfold ChiSq.new. ok_new. Qed.
