(** * Properties C48 and C53 in double arithmetic *)
From Coq Require Import Reals Lra Lia ZArith List Bool Sorted.
From Flocq Require Import Core IEEE754.BinarySingleNaN.
From Verif.Num Require Import Scalar F64.
From Verif.Model Require Import Rust Constraints Probability Params Discrete.
From Verif.Spec Require Import ProbSpec ParamSpec.
From Verif.Proofs Require Import ProbProofs SimplexProofs ConstraintProofs DiscProofs5.
Import ListNotations.
Open Scope R_scope.

(** C48: for every double [x] *)
Theorem C48_bernoulli_f64 (m : Libm) (x : f64) :
  (~ valid_prob x -> exists e, Bernoulli.new x = Err e) /\
  (valid_prob x -> exists d, Bernoulli.new x = Ok d /\
     Bernoulli.pmf d true = Prob x /\
     valid_prob (unwrap (Bernoulli.pmf d false)) /\ B2R (unwrap (Bernoulli.pmf d false)) = RN (1 - B2R x) /\
     p_add (Bernoulli.pmf d true) (Bernoulli.pmf d false) = Ok p_one /\
     valid_prob (unwrap (Bernoulli.cdf d true)) /\ valid_prob (unwrap (Bernoulli.cdf d false)) /\
     Bernoulli.mean d = x).
Proof.
  unfold Bernoulli.new. split.
  - intros N. cbn [params_new s1 field_new]. cbn. rewrite (p_new_err m x N). eexists. reflexivity.
  - intros V. eexists. split; [cbn; rewrite (p_new_ok m x V); reflexivity|].
    split; [reflexivity|]. split; [apply (not_val x V)|]. split; [apply (not_val x V)|].
    split; [apply (add_complement m x V)|].
    split; [split; [reflexivity|pose proof RV_b64_1 as R1; unfold RV in R1; change (unwrap (Bernoulli.cdf _ true)) with (b64 1 0); rewrite R1; lra]|]. split; [split; [reflexivity|cbn; lra]|reflexivity].
Qed.
Print Assumptions C48_bernoulli_f64.
Example C48_nonvacuous : valid_prob (b64 3 (-2)).
Proof.
  split; [vm_compute; reflexivity|]. destruct (b64_spec 3 (-2)) as [_ H]; [apply unit_small; cbn; lra|].
  unfold RV in H. rewrite H. apply rnd_unit. cbn; lra.
Qed.

(** C53: every array of doubles accepted by [new] *)
Theorem C53_categorical_f64 (m : Libm) (ws : list f64) (d : Categorical.t f64) :
  Categorical.new ws = Ok d ->
  (forall i w, nth_error ws i = Some w -> Categorical.pmf d (Z.of_nat i) = Ret (Prob w) /\ valid_prob w) /\
  (forall i, (length ws <= i)%nat -> Categorical.pmf d (Z.of_nat i) = Panic) /\
  exists ms, Categorical.modes d = Ret ms /\ StronglySorted lt ms /\ ms <> [] /\
    forall i, In i ms <-> exists w, nth_error ws i = Some w /\ forall w', In w' ws -> B2R w' <= B2R w.
Proof.
  intros H. unfold Categorical.new in H. destruct (simplex_new ws) as [qs|] eqn:E; [|discriminate]. cbn [map_err map_ok] in H. injection H as <-.
  pose proof (simplex_accepted_sum m ws qs E) as S.
  apply simplex_new_inv in E. destruct E as (-> & V & L). unfold Categorical.pmf, Categorical.n_categories.
  cbn [Categorical.pr Categorical.ps]. split; [|split].
  - intros i w Hi. assert (Hl : (i < length ws)%nat) by (apply nth_error_Some; congruence).
    replace (Z.leb _ _) with false by (symmetry; apply Z.leb_gt; lia). rewrite Nat2Z.id, Hi.
    split; [auto|]. rewrite Forall_forall in V. apply V. eapply nth_error_In; eauto.
  - intros i Hi. replace (Z.leb _ _) with true by (symmetry; apply Z.leb_le; lia). auto.
  - apply (cat_modes (fun x : f64 => is_finite x = true) B2R).
    + intros x y Hx Hy. now apply f64_lt.
    + intros x y Hx Hy. now apply f64_eq.
    + eapply Forall_impl; [|exact V]. intros a [Ha _]. exact Ha.
    + intros ->. change (dsum []) with (B754_zero false : f64) in L. pose proof RV_c1e5_bounds as B.
      assert (Q : bpow radix2 (-69) <= bpow radix2 (-1)) by (apply bpow_le; lia). change (bpow radix2 (-1)) with (/ 2) in Q.
      unfold RV in *. change (B2R (B754_zero false : f64)) with 0 in L. rewrite Rabs_left in L; lra.
Qed.
Print Assumptions C53_categorical_f64.
Example C53_nonvacuous (m : Libm) : exists d : Categorical.t f64, Categorical.new [b64 1 (-2); b64 1 (-1); b64 1 (-2)] = Ok d.
Proof.
  destruct (Categorical.new [b64 1 (-2); b64 1 (-1); b64 1 (-2)]) as [d|e] eqn:E; [eauto|].
  assert (H : is_ok (Categorical.new [b64 1 (-2); b64 1 (-1); b64 1 (-2)]) = false) by (rewrite E; reflexivity). revert H. vm_compute. discriminate.
Qed.

