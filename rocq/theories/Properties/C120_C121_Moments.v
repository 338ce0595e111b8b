(** * Properties C120-C121: moments and entropy of Kumaraswamy, moments of the generalised Pareto *)
From Coq Require Import Reals Lra Lia Psatz List ZArith.
From Coquelicot Require Import Coquelicot.
From Flocq Require Import Core.Raux.
From Verif.Num Require Import Scalar XReal.
From Verif.Model Require Import Rust Constraints Probability Params Consts Traits Continuous.
From Verif.Spec Require Import DistSpec GammaSpec ResSpec.
From Verif.Proofs Require Import ConstraintProofs NewInv XTac Calc Calc2 Improper GammaFun Subst Mellin Unique Oracle
  ContProofs11 ContProofs27 ContProofs28 ContProofs30 ContProofs31.
Import ListNotations.
Open Scope R_scope.

(** C120: every moment the type offers is the moment integral; the entropy is
    right when a = 1 or b is an integer (b below the u64 range, see the cast) *)
Theorem C120_kumaraswamy_partial (SP : Special xreal) (a b : R) (p : Kumaraswamy.Params xreal) :
  beta_exact SP -> Kumaraswamy.p_new (Fin a) (Fin b) = Ok p ->
  let d := Kumaraswamy.from p in
  returns (Kumaraswamy.mean d) (fun m => is_mean 0 1 (Kumaraswamy.pdf d) m /\
    returns (Kumaraswamy.variance d) (is_variance 0 1 (Kumaraswamy.pdf d) m)) /\
  returns (Kumaraswamy.skewness d) (is_skewness 0 1 (Kumaraswamy.pdf d)) /\
  (b < IZR (2 ^ 64) -> a = 1 \/ (exists n : nat, b = INR n) ->
    returns (Kumaraswamy.shannon_entropy d) (is_entropy 0 1 (Kumaraswamy.pdf d))).
Proof.
  intros Hg H. unfold Kumaraswamy.p_new in H. inv_new H. cbv zeta.
  split; [eexists; split; [now apply ku_mean_val|split; [now apply ku_mean|eexists; split; [now apply ku_var_val|now apply ku_variance]]]|].
  split; [eexists; split; [now apply ku_sk_val|now apply ku_skewness]|].
  intros Hb2 C. eexists; split; [now apply ku_ent_val|].
  assert (T := ku_entropy a b ltac:(auto) ltac:(auto)).
  replace ((1 - 1 / a) * (psi (1 + IZR (Zfloor b)) - psi 1)) with ((1 - 1 / a) * (psi (1 + b) - psi 1)); [exact T|].
  destruct C as [E | [n E]].
  - rewrite E. field.
  - f_equal. f_equal. f_equal. f_equal. rewrite E, INR_IZR_INZ, Zfloor_IZR. reflexivity.
Qed.
Print Assumptions C120_kumaraswamy_partial.
Example C120_nonvacuous : beta_exact (exact false) /\ exists p, Kumaraswamy.p_new (Fin (1/2)) (Fin (INR 3)) = Ok p.
Proof. split; [apply ex_beta|]. eexists. unfold Kumaraswamy.p_new. cbn [INR]. ok_new. Qed.
(** the kurtosis always panics, and the entropy is wrong for every other shape:
    the harmonic number of a fractional b is taken at floor(b) *)
Theorem C120_kumaraswamy_refuted (a b : R) (p : Kumaraswamy.Params xreal) :
  Kumaraswamy.p_new (Fin a) (Fin b) = Ok p ->
  let d := Kumaraswamy.from p in
  Kumaraswamy.excess_kurtosis d = Panic /\
  (b < IZR (2 ^ 64) -> a <> 1 -> ~ (exists n : nat, b = INR n) ->
    exists h w, is_entropy 0 1 (Kumaraswamy.pdf d) h /\ Kumaraswamy.shannon_entropy d = Fin w /\ w <> h).
Proof.
  intros H. unfold Kumaraswamy.p_new in H. inv_new H. cbv zeta. split; [reflexivity|]. intros Hb2 Ha1 Hn.
  exists ((1 - 1 / b) + (1 - 1 / a) * (psi (1 + b) - psi 1) - ln (a * b)). eexists.
  split; [now apply ku_entropy|]. split; [now apply ku_ent_val|].
  intros E. assert (FL := Zfloor_lb b).
  assert (F0 : (0 <= Zfloor b)%Z) by (apply Zfloor_lub; lra). apply IZR_le in F0.
  assert (E2 : (1 - 1 / a) * (psi (1 + IZR (Zfloor b)) - psi (1 + b)) = 0) by lra.
  apply Rmult_integral in E2 as [E2|E2].
  - apply Ha1. apply Rmult_eq_reg_l with (/ a); [|apply Rinv_neq_0_compat; lra]. rewrite Rinv_l by lra. lra.
  - assert (E3 : 1 + IZR (Zfloor b) = 1 + b) by (apply psi_inj; lra).
    apply Hn. exists (Z.to_nat (Zfloor b)). rewrite INR_IZR_INZ, Z2Nat.id; [lra|]. now apply le_IZR.
Qed.
Print Assumptions C120_kumaraswamy_refuted.
Example C120_refuted_nonvacuous : (exists p, Kumaraswamy.p_new (Fin 2) (Fin (1/2)) = Ok p) /\ 2 <> 1 /\ ~ (exists n : nat, 1 / 2 = INR n).
Proof.
  split; [eexists; unfold Kumaraswamy.p_new; ok_new|]. split; [lra|]. intros [n E].
  destruct n; cbn [INR] in E; [lra|]. rewrite <- S_INR in E || idtac. assert (A := pos_INR n). destruct n; cbn [INR] in *; lra.
Qed.

(** C121: below each threshold the moment exists and the method panics; above
    it the method returns although there is no such moment *)
Theorem C121_gpd_refuted (m g z : R) (d : GPD.t xreal) :
  GPD.new (Fin m) (Fin g) (Fin z) = Ok d ->
  (z < 1 -> (exists v, is_mean m p_infty (GPD.pdf d) v) /\ GPD.mean d = Panic) /\
  (1 < z -> (exists v, GPD.mean d = Ret (Fin v)) /\ ~ exists v, is_mean m p_infty (GPD.pdf d) v) /\
  (z < 1 / 2 -> (exists mu v, is_variance m p_infty (GPD.pdf d) mu v) /\ GPD.variance d = Panic) /\
  (1 / 2 < z -> (exists v, z <> 1 -> GPD.variance d = Ret (Fin v) /\ v < 0) /\ ~ exists mu v, is_variance m p_infty (GPD.pdf d) mu v) /\
  (z < 1 / 3 -> (exists v, is_skewness m p_infty (GPD.pdf d) v) /\ GPD.skewness d = Panic) /\
  (1 / 3 < z <= 1 / 2 -> (exists v, GPD.skewness d = Ret (Fin v)) /\ ~ exists v, is_skewness m p_infty (GPD.pdf d) v) /\
  (z < 1 / 4 -> (exists v, is_kurtosis m p_infty (GPD.pdf d) v) /\ GPD.excess_kurtosis d = Panic) /\
  (1 / 3 < z -> (exists v, GPD.excess_kurtosis d = Ret (Fin v)) /\ ~ exists v, is_kurtosis m p_infty (GPD.pdf d) v).
Proof.
  intros H. unfold GPD.new in H. inv_new H. change (GPD.mk _) with (GPD.new_unchecked (Fin m) (Fin g) (Fin z)).
  repeat match goal with |- _ /\ _ => split | |- _ -> _ => intros Hz end.
  all: try (eexists; first [now apply gp_mean | now apply gp_skewness | now apply gp_kurtosis | eexists; now apply gp_variance]).
  all: try (intros [v Hv]; revert Hv; first [apply gp_no_mean; auto; lra | apply gp_no_skewness; auto; lra | apply gp_no_kurtosis; auto; lra | intros [w Hw]; revert Hw; apply gp_no_variance; auto; lra]).
  all: unfold GPD.mean, GPD.variance, GPD.skewness, GPD.excess_kurtosis, ONE_THIRD; cbn [GPD.pr GPD.new_unchecked]; xs.
  all: try (rewrite Rleb_true by lra; reflexivity).
  all: rewrite ?(Rleb_false z) by lra.
  - eexists. reflexivity.
  - exists (g * g / ((1 - z) * (1 - z)) / (1 - 2 * z)). intros H1. assert (0 < (1 - z) * (1 - z)) by (assert (A := Rle_0_sqr (1 - z)); unfold Rsqr in A; destruct A as [A|A]; [auto|symmetry in A; apply Rmult_integral in A; lra]).
    split; [now rewrite !x_div by lra|].
    assert (0 < g * g / ((1 - z) * (1 - z)) / (2 * z - 1)) by (apply Rdiv_lt_0_compat; [apply Rdiv_lt_0_compat; [pos|auto]|lra]).
    replace (1 - 2 * z) with (- (2 * z - 1)) by ring. unfold Rdiv at 1. rewrite Rinv_opp. unfold Rdiv at 1 in H0. lra.
  - eexists. reflexivity.
  - eexists. first [reflexivity | now rewrite !x_div by lra].
Qed.
Print Assumptions C121_gpd_refuted.
Example C121_nonvacuous : exists d, GPD.new (Fin (-1)) (Fin 2) (Fin (1/8)) = Ok d.
Proof. eexists. unfold GPD.new. ok_new. Qed.
(** ... so the answer is the right one exactly at the threshold (and, for the
    kurtosis, between 1/4 and 1/3), where the method panics and no moment exists *)
Theorem C121_gpd_partial (m g z : R) (d : GPD.t xreal) :
  GPD.new (Fin m) (Fin g) (Fin z) = Ok d ->
  (z = 1 <-> returned_iff_exists (GPD.mean d) (is_mean m p_infty (GPD.pdf d))) /\
  (z = 1 / 2 <-> returned_iff_exists (GPD.variance d) (fun v => exists mu, is_variance m p_infty (GPD.pdf d) mu v)) /\
  (z = 1 / 3 <-> returned_iff_exists (GPD.skewness d) (is_skewness m p_infty (GPD.pdf d))) /\
  (1 / 4 <= z <= 1 / 3 <-> returned_iff_exists (GPD.excess_kurtosis d) (fun e => is_kurtosis m p_infty (GPD.pdf d) (e + 3))).
Proof.
  intros H. assert (R := C121_gpd_refuted m g z d H). destruct R as (R1 & R2 & R3 & R4 & R5 & R6 & R7 & R8).
  unfold GPD.new in H. inv_new H. change (GPD.mk _) with (GPD.new_unchecked (Fin m) (Fin g) (Fin z)) in *.
  split; [|split; [|split]].
  - split; [intros E|].
    + unfold GPD.mean. cbn [GPD.pr GPD.new_unchecked]. xs. rewrite Rleb_true by lra. intros [v Hv]. revert Hv. apply gp_no_mean; auto; lra.
    + intros E. destruct (Rtotal_order z 1) as [L|[L|L]]; auto; exfalso.
      * destruct (R1 L) as [A B]. rewrite B in E. now apply E.
      * destruct (R2 L) as [[v B] A]. rewrite B in E. destruct E as (w & _ & E). apply A. now exists w.
  - split; [intros E|].
    + unfold GPD.variance. cbn [GPD.pr GPD.new_unchecked]. xs. rewrite Rleb_true by lra. intros [v [mu Hv]]. revert Hv. apply gp_no_variance; auto; lra.
    + intros E. destruct (Rtotal_order z (1 / 2)) as [L|[L|L]]; auto; exfalso.
      * destruct (R3 L) as [(mu & v & A) B]. rewrite B in E. apply E. now exists v, mu.
      * assert (N := gp_no_variance m g z HP0 HP1). unfold returned_iff_exists in E. revert E. unfold GPD.variance. cbn [GPD.pr GPD.new_unchecked]. xs. rewrite Rleb_false by lra.
        intros (w & _ & mu & E). revert E. apply N. lra.
  - split; [intros E|].
    + unfold GPD.skewness, ONE_THIRD. cbn [GPD.pr GPD.new_unchecked]. xs. rewrite Rleb_true by lra. intros [v Hv]. revert Hv. apply gp_no_skewness; auto; lra.
    + intros E. destruct (Rtotal_order z (1 / 3)) as [L|[L|L]]; auto; exfalso.
      * destruct (R5 L) as [A B]. rewrite B in E. now apply E.
      * assert (N := gp_no_skewness m g z HP0 HP1). unfold returned_iff_exists in E. revert E. unfold GPD.skewness, ONE_THIRD. cbn [GPD.pr GPD.new_unchecked]. xs. rewrite Rleb_false by lra.
        intros (w & _ & E). revert E. apply N. lra.
  - split; [intros E|].
    + unfold GPD.excess_kurtosis, ONE_THIRD. cbn [GPD.pr GPD.new_unchecked]. xs. rewrite Rleb_true by lra. intros [v Hv]. revert Hv. apply gp_no_kurtosis; auto; lra.
    + intros E. destruct (Rlt_le_dec z (1 / 4)) as [L|L]; [|destruct (Rlt_le_dec (1 / 3) z) as [L'|L']; [|lra]]; exfalso.
      * destruct (R7 L) as [[v A] B]. rewrite B in E. apply E. exists (v - 3). now replace (v - 3 + 3) with v by ring.
      * destruct (R8 L') as [[v B] A]. rewrite B in E. destruct E as (w & _ & E). apply A. now exists (w + 3).
Qed.
Print Assumptions C121_gpd_partial.
