(** * Properties C24 (kurtosis vs excess kurtosis) and C75 (cdf valid everywhere) *)
From Coq Require Import Reals Lra Lia List ZArith Bool.
From Coquelicot Require Import Coquelicot.
From Flocq Require Core.
From Verif.Num Require Import Scalar XReal.
From Verif.Model Require Import Rust Constraints Probability Params Consts Traits Continuous Continuous2 Continuous3 Discrete.
From Verif.Spec Require Import DistSpec ResSpec GammaSpec.
From Verif.Proofs Require Import ConstraintProofs NewInv XTac Calc Gauss Gauss2 Oracle ContProofs8 ContProofs9 ContProofs24 ContProofs25.
Import ListNotations.
Open Scope R_scope.

Lemma x_powf_negint (a : R) (z : Z) : a < 0 -> z <> 0%Z -> fpowf (Fin a) (Fin (IZR z)) = Fin (powerRZ a z).
Proof.
  intros Ha Hz. cbn [fpowf XScalar]. unfold xpowf.
  destruct (Req_EM_T (IZR z) 0) as [E|_]; [apply eq_IZR in E; contradiction|].
  destruct (Rlt_dec 0 a); [lra|]. destruct (Req_EM_T a 0); [lra|].
  rewrite Flocq.Core.Raux.Zfloor_IZR. destruct (Req_EM_T (IZR z) (IZR z)); [reflexivity|contradiction].
Qed.

(** C24. Both overridden: *)
Notation differ3 k e := (exists a b, k = Fin a /\ e = Fin b /\ a - b = 3).
Theorem C24_kurtosis_partial (u : UniformF.t xreal) (lg : Logistic.t xreal) (gu : Gumbel.t xreal) (ar : Arcsine.t xreal)
    (tr : Triangular.t xreal) (la : Laplace.t xreal) (ra : Rayleigh.t xreal) (no : UvNormal.t xreal) (p : R) (be : Bernoulli.t xreal) :
  Bernoulli.new (Fin p) = Ok be -> 0 < p < 1 ->
  differ3 (UniformF.kurtosis u) (UniformF.excess_kurtosis u) /\ differ3 (Logistic.kurtosis lg) (Logistic.excess_kurtosis lg) /\
  differ3 (Gumbel.kurtosis gu) (Gumbel.excess_kurtosis gu) /\ differ3 (Arcsine.kurtosis ar) (Arcsine.excess_kurtosis ar) /\
  differ3 (Triangular.kurtosis tr) (Triangular.excess_kurtosis tr) /\ differ3 (Laplace.kurtosis la) (Laplace.excess_kurtosis la) /\
  differ3 (Rayleigh.kurtosis ra) (Rayleigh.excess_kurtosis ra) /\ differ3 (UvNormal.kurtosis no) (UvNormal.excess_kurtosis no) /\
  differ3 (Bernoulli.kurtosis be) (Bernoulli.excess_kurtosis be) /\
  (* the types that override exactly one get the other from it *)
  (forall fuel e, call_a None (Some (fun _ => Ret (Fin e))) d_kurtosis d_excess_kurtosis (2 + fuel)%nat tt = Ret (Fin (e + 3))) /\
  (forall fuel k, call_b (Some (fun _ => Ret (Fin k))) None d_kurtosis d_excess_kurtosis (2 + fuel)%nat tt = Ret (Fin (k - 3))).
Proof.
  intros H Hp. unfold Bernoulli.new in H. inv_new H.
  assert (P := PI_RGT_0). assert (P4 := PI_4).
  repeat match goal with |- _ /\ _ => split end;
    try (eexists _, _; unfold UniformF.kurtosis, UniformF.excess_kurtosis, Logistic.kurtosis, Logistic.excess_kurtosis,
      Gumbel.kurtosis, Gumbel.excess_kurtosis, Arcsine.kurtosis, Arcsine.excess_kurtosis, Triangular.kurtosis, Triangular.excess_kurtosis,
      Laplace.kurtosis, Laplace.excess_kurtosis, UvNormal.kurtosis, UvNormal.excess_kurtosis, NINE_FIFTHS, SIX_FIFTHS, TWENTY_ONE_FIFTHS,
      TWENTY_SEVEN_FIFTHS, TWELVE_FIFTHS, THREE_HALVES, THREE_FIFTHS; xs; split; [reflexivity|]; split; [reflexivity|]; lra).
  - unfold Rayleigh.kurtosis, Rayleigh.excess_kurtosis, Rayleigh.KURTOSIS, Rayleigh.EXCESS_KURTOSIS, Rayleigh.FOUR_MINUS_PI_OVER_2, Rayleigh.FOUR_MINUS_PI, PI2.
    assert (P5 := PI_lt_4). eexists _, _. xs. split; [reflexivity|]. split; [reflexivity|]. lra.
  - unfold Bernoulli.kurtosis, Bernoulli.excess_kurtosis. cbn [Bernoulli.var]. xs. assert (0 < p * (1 - p)) by (apply Rmult_lt_0_compat; lra).
    eexists _, _. xs. split; [reflexivity|]. split; [reflexivity|]. lra.
  - intros fuel e. cbn [call_a call_b Nat.add]. unfold d_kurtosis. cbn [rmap rbind]. xs. reflexivity.
  - intros fuel e. cbn [call_a call_b Nat.add]. unfold d_excess_kurtosis. cbn [rmap rbind]. xs. reflexivity.
Qed.
Print Assumptions C24_kurtosis_partial.
(** Exponential: kurtosis 3, excess kurtosis 6 *)
Theorem C24_exponential_refuted (d : Exponential.t xreal) :
  Exponential.kurtosis d = Fin 3 /\ Exponential.excess_kurtosis d = Fin 6 /\ 3 - 6 <> 3.
Proof. unfold Exponential.kurtosis, Exponential.excess_kurtosis. xs. split; [reflexivity|]. split; [reflexivity|lra]. Qed.
Print Assumptions C24_exponential_refuted.
Example C24_nonvacuous : exists d, Bernoulli.new (Fin (1/4)) = Ok d.
Proof. eexists. unfold Bernoulli.new. ok_new. Qed.

(** C75. *)
Notation valid_at f x := (exists p, unwrap (f (Fin x)) = Fin p /\ 0 <= p <= 1).
Theorem C75_valid_everywhere_partial {SP : Special xreal} (a b c x : R) (un : UniformF.t xreal) (ca : Cauchy.t xreal) (lg : Logistic.t xreal) (gu : Gumbel.t xreal)
    (tr : Triangular.t xreal) (wp : Weibull.Params xreal) (ra : Rayleigh.t xreal) (no : UvNormal.t xreal) :
  (forall x, sf_norm (Fin x) = Fin (Phi x)) ->
  (UniformF.new (Fin a) (Fin b) = Ok un -> valid_at (UniformF.cdf un) x) /\
  (Cauchy.new (Fin a) (Fin b) = Ok ca -> valid_at (Cauchy.cdf ca) x) /\
  (Logistic.new (Fin a) (Fin b) = Ok lg -> valid_at (Logistic.cdf lg) x) /\
  (Gumbel.new (Fin a) (Fin b) = Ok gu -> valid_at (Gumbel.cdf gu) x) /\
  (Triangular.new (Fin a) (Fin b) (Fin c) = Ok tr -> valid_at (Triangular.cdf tr) x) /\
  (Weibull.p_new (Fin a) (Fin b) = Ok wp -> valid_at (Weibull.cdf (Weibull.from wp)) x) /\
  (Rayleigh.new (Fin a) = Ok ra -> valid_at (Rayleigh.cdf ra) x) /\
  (UvNormal.new (Fin a) (Fin b) = Ok no -> valid_at (UvNormal.cdf no) x) /\
  valid_at (DegenerateF.cdf (DegenerateF.new (Fin a))) x.
Proof.
  intros HN. assert (P := PI_RGT_0).
  repeat match goal with |- _ /\ _ => split end; try intros H.
  - apply uniform_new_inv in H as [Hb ->]. unfold UniformF.cdf, UniformF.ub. cbn [UniformF.pr UniformF.lb UniformF.width UniformF.prob UniformF.new_unchecked UniformF.from]. xs.
    destruct (Rltb_spec x a); [exists 0; split; [reflexivity|lra]|]. destruct (Rleb_spec (a + b) x); [exists 1; split; [reflexivity|lra]|].
    eexists. cbn [unwrap]. xs. split; [reflexivity|]. replace ((x - a) * (1 / b)) with ((x - a) / b) by (field; lra).
    split; [apply Rmult_le_pos; [lra|left; now apply Rinv_0_lt_compat]|]. apply (Rmult_le_reg_r b); [lra|]. unfold Rdiv. rewrite Rmult_assoc, Rinv_l by lra. lra.
  - unfold Cauchy.new in H. inv_new H. unfold Cauchy.cdf, Cauchy.z, ONE_OVER_PI. cbn [Cauchy.pr Cauchy.x0 Cauchy.gamma unwrap]. xs. eexists; split; [reflexivity|].
    destruct (atan_bound ((x - a) / b)). assert (0 < 1 / PI) by pos.
    assert (E : 1 / PI * (PI / 2) = 1 / 2) by (field; lra). assert (1 / PI * (- PI / 2) <= 1 / PI * atan ((x - a) / b) <= 1 / PI * (PI / 2)) by (split; apply Rmult_le_compat_l; lra).
    assert (E2 : 1 / PI * (- PI / 2) = - (1 / 2)) by (field; lra). lra.
  - unfold Logistic.new in H. inv_new H. unfold Logistic.cdf, Logistic.z. cbn [Logistic.pr Logistic.mu Logistic.s unwrap]. xs.
    assert (E := exp_pos (- ((x - a) / b))). xs. eexists; split; [reflexivity|]. split; [left; apply Rdiv_lt_0_compat; lra|]. apply Rlt_le. rewrite <- Rinv_1 at 3. unfold Rdiv. rewrite Rmult_1_l. apply Rinv_lt_contravar; lra.
  - unfold Gumbel.new in H. inv_new H. unfold Gumbel.cdf, Gumbel.z. cbn [Gumbel.pr Gumbel.mu Gumbel.beta unwrap]. xs. eexists; split; [reflexivity|].
    split; [left; apply exp_pos|]. apply exp_le1. assert (E := exp_pos (- ((x - a) / b))). lra.
  - unfold Triangular.new in H. inv_new H. unfold Triangular.cdf, Triangular.b, Triangular.c. cbn [Triangular.pr Triangular.a Triangular.a2c Triangular.c2b]. xs.
    destruct (Rleb_spec x a); [exists 0; split; [reflexivity|lra]|]. xs.
    destruct (Rleb_spec x (a + b)); [|destruct (Rleb_spec x (a + b + c)); [|exists 1; split; [reflexivity|lra]]]; cbn [unwrap]; xs; eexists; (split; [reflexivity|]).
    + replace ((x - a) * (x - a) / (a + b + c - a) / (a + b - a)) with (((x - a) / (b + c)) * ((x - a) / b)) by (field; lra).
      assert (0 <= (x - a) / (b + c) <= 1). { split; [apply Rmult_le_pos; [lra|left; apply Rinv_0_lt_compat; lra]|]. apply (Rmult_le_reg_r (b + c)); [lra|]. unfold Rdiv. rewrite Rmult_assoc, Rinv_l by lra. lra. }
      assert (0 <= (x - a) / b <= 1). { split; [apply Rmult_le_pos; [lra|left; apply Rinv_0_lt_compat; lra]|]. apply (Rmult_le_reg_r b); [lra|]. unfold Rdiv. rewrite Rmult_assoc, Rinv_l by lra. lra. }
      split; [now apply Rmult_le_pos|]. rewrite <- (Rmult_1_r 1). now apply Rmult_le_compat.
    + replace (1 - (a + b + c - x) * (a + b + c - x) / (a + b + c - a) / (a + b + c - (a + b))) with (1 - ((a + b + c - x) / (b + c)) * ((a + b + c - x) / c)) by (field; lra).
      assert (0 <= (a + b + c - x) / (b + c) <= 1). { split; [apply Rmult_le_pos; [lra|left; apply Rinv_0_lt_compat; lra]|]. apply (Rmult_le_reg_r (b + c)); [lra|]. unfold Rdiv. rewrite Rmult_assoc, Rinv_l by lra. lra. }
      assert (0 <= (a + b + c - x) / c <= 1). { split; [apply Rmult_le_pos; [lra|left; apply Rinv_0_lt_compat; lra]|]. apply (Rmult_le_reg_r c); [lra|]. unfold Rdiv. rewrite Rmult_assoc, Rinv_l by lra. lra. }
      assert (0 <= ((a + b + c - x) / (b + c)) * ((a + b + c - x) / c)) by (now apply Rmult_le_pos).
      assert (((a + b + c - x) / (b + c)) * ((a + b + c - x) / c) <= 1) by (rewrite <- (Rmult_1_r 1); now apply Rmult_le_compat). lra.
  - unfold Weibull.p_new in H. inv_new H. unfold Weibull.cdf, Weibull.from. cbn [Weibull.pr]. xs.
    destruct (Rleb_spec 0 x); [|exists 0; split; [reflexivity|lra]]. cbn [unwrap]. xs.
    destruct (Req_dec x 0) as [->|N].
    + replace (0 / a) with 0 by (field; lra). rewrite x_powf_0 by auto. xs. eexists; split; [reflexivity|]. rewrite Ropp_0, exp_0. lra.
    + assert (0 < x / a) by (apply Rdiv_lt_0_compat; lra). rewrite x_powf by auto. xs. eexists; split; [reflexivity|].
      assert (E := Rpower_pos (x / a) b). assert (E2 := exp_pos (- Rpower (x / a) b)). assert (exp (- Rpower (x / a) b) <= 1) by (apply exp_le1; lra). lra.
  - unfold Rayleigh.new in H. inv_new H. unfold Rayleigh.cdf. cbn [Rayleigh.pr Rayleigh.sigma unwrap]. xs. eexists; split; [reflexivity|].
    replace (- x * x / a * a / 2) with (- (x * x / 2)) by (field; lra). assert (0 <= x * x) by apply Rle_0_sqr.
    assert (E2 := exp_pos (- (x * x / 2))). assert (exp (- (x * x / 2)) <= 1) by (apply exp_le1; lra). lra.
  - apply uvn_new_inv in H as [HS ->]. unfold UvNormal.cdf. cbn [fisinf XScalar xisinf unwrap]. unfold UvNormal.z. cbn [UvNormal.pr UvNormal.mu UvNormal.Sigma UvNormal.new_unchecked].
    assert (0 < sqrt b) by (now apply sqrt_lt_R0). xs. rewrite HN. eexists; split; [reflexivity|]. apply Phi01.
  - unfold DegenerateF.cdf. cbn [DegenerateF.k DegenerateF.new]. xs. destruct (Rltb_spec x a); [exists 0|exists 1]; split; try reflexivity; lra.
Qed.
Print Assumptions C75_valid_everywhere_partial.

(** ... but several types do not treat arguments outside the support; for every
    parameter value the named argument gives something that is not a probability *)
Notation invalid_at f x := (unwrap (f (Fin x)) = NaN \/ exists p, unwrap (f (Fin x)) = Fin p /\ (p < 0 \/ 1 < p)).
Theorem C75_outside_support_refuted {SP : Special xreal} (a b c x : R) (ex : Exponential.t xreal) (pa : Pareto.t xreal) (gp : GPD.t xreal) (co : Cosine.t xreal)
    (ar : Arcsine.t xreal) (fr : Frechet.t xreal) (ge : GEV.t xreal) (ku : Kumaraswamy.Params xreal) (fn : FoldedNormal.t xreal) (la : Laplace.t xreal) :
  erf_exact SP ->
  (Exponential.new (Fin a) = Ok ex -> x < 0 -> invalid_at (Exponential.cdf ex) x) /\
  (Pareto.new (Fin a) (Fin b) = Ok pa -> 0 < x < a -> invalid_at (Pareto.cdf pa) x) /\
  (GPD.new (Fin a) (Fin b) (Fin c) = Ok gp -> 0 < c -> a - b / c < x < a -> invalid_at (GPD.cdf gp) x) /\
  (Cosine.new (Fin a) (Fin b) = Ok co -> invalid_at (Cosine.cdf co) (a + 2 * b)) /\
  (Arcsine.new (Fin a) (Fin b) = Ok ar -> x < a -> invalid_at (Arcsine.cdf ar) x) /\
  (Frechet.new (Fin 1) = Ok fr -> invalid_at (Frechet.cdf fr) (-1)) /\
  (GEV.new (Fin a) (Fin b) (Fin 1) = Ok ge -> invalid_at (GEV.cdf ge) (a - 2 * b)) /\
  (Kumaraswamy.p_new (Fin a) (Fin 1) = Ok ku -> 1 < x -> invalid_at (Kumaraswamy.cdf (Kumaraswamy.from ku)) x) /\
  (FoldedNormal.new (Fin a) (Fin b) = Ok fn -> x < 0 -> invalid_at (FoldedNormal.cdf fn) x) /\
  (* Laplace even inside the support *)
  (Laplace.new (Fin a) (Fin b) = Ok la -> b < 1 / 2 -> invalid_at (Laplace.cdf la) a).
Proof.
  intros He. assert (P := PI_RGT_0).
  repeat match goal with |- _ /\ _ => split end; intros H.
  - intros Hx. unfold Exponential.new in H. inv_new H. right. unfold Exponential.cdf, Exponential.lam. cbn [Exponential.pr Exponential.lambda unwrap]. xs. eexists; split; [reflexivity|]. left.
    assert (0 < - a * x) by (replace (- a * x) with (a * - x) by ring; apply Rmult_lt_0_compat; lra).
    assert (1 < exp (- a * x)) by (rewrite <- exp_0; apply exp_increasing; lra). lra.
  - intros Hx. unfold Pareto.new in H. inv_new H. right. unfold Pareto.cdf. cbn [Pareto.pr unwrap]. xs. assert (1 < a / x). { apply (Rmult_lt_reg_r x); [lra|]. unfold Rdiv. rewrite Rmult_assoc, Rinv_l by lra. lra. }
        try (rewrite x_powf by lra; xs). eexists; split; [reflexivity|]. left. assert (1 < Rpower (a / x) b) by (now apply Rpower_gt1). lra.
  - intros Hc Hx. unfold GPD.new in H. inv_new H. right. unfold GPD.cdf. cbn [GPD.pr unwrap]. xs.
    assert (E : 0 < 1 + c * ((x - a) / b) < 1).
    { assert (0 < (a - x) / b) by (apply Rdiv_lt_0_compat; lra). assert ((a - x) / b < / c).
      { apply (Rmult_lt_reg_r b); [lra|]. unfold Rdiv. rewrite Rmult_assoc, Rinv_l by lra. replace (/ c * b) with (b / c) by (field; lra). lra. }
      replace ((x - a) / b) with (- ((a - x) / b)) by (field; lra). assert (0 < c * ((a - x) / b)) by now apply Rmult_lt_0_compat.
      assert (c * ((a - x) / b) < 1). { replace 1 with (c * / c) by (field; lra). apply Rmult_lt_compat_l; lra. } lra. }
    try (rewrite x_powf by lra; xs). eexists; split; [reflexivity|]. left.
    assert (1 < Rpower (1 + c * ((x - a) / b)) (- (1) / c)).
    { replace (- (1) / c) with (- (1 / c)) by (field; lra). rewrite Rpower_inv_base by lra. apply Rinv_gt1. split; [apply Rpower_pos|]. apply Rpower_lt1; [lra|]. pos. }
    lra.
  - unfold Cosine.new in H. inv_new H. right. unfold Cosine.cdf, Cosine.z, ONE_OVER_PI. cbn [Cosine.pr Cosine.mu Cosine.s unwrap]. xs. eexists; split; [reflexivity|]. right.
    replace ((a + 2 * b - a) / b) with 2 by (field; lra). rewrite sin_2PI. lra.
  - intros Hx. unfold Arcsine.new in H. inv_new H. left. unfold Arcsine.cdf. cbn [Arcsine.pr Arcsine.a Arcsine.w unwrap]. xs.
    assert ((x - a) / b < 0). { apply (Rmult_lt_reg_r b); [lra|]. unfold Rdiv. rewrite Rmult_assoc, Rinv_l by lra. lra. }
    rewrite x_sqrt_neg by auto. unfold TWO_OVER_PI. xs. reflexivity.
  - unfold Frechet.new in H. inv_new H. right. unfold Frechet.cdf, Frechet.al. cbn [Frechet.pr Frechet.alpha unwrap]. xs.
    change (- (1)) with (IZR (-1)). rewrite x_powf_negint by (try lra; lia). xs. eexists; split; [reflexivity|]. right.
    replace (- powerRZ (-1) (-1)) with 1 by (unfold powerRZ; change (Pos.to_nat 1) with 1%nat; rewrite pow_1; field; lra). pose proof (exp_ineq1 1). lra.
  - unfold GEV.new in H. inv_new H. right. unfold GEV.cdf, GEV.t_func, GEV.TOL. cbn [GEV.pr unwrap]. xs. xb.
    replace ((a - 2 * b - a) / b) with (-2) by (field; lra). replace (1 + 1 * -2) with (-1) by lra. replace (- (1) / 1) with (IZR (-1)) by lra.
    rewrite x_powf_negint by (try lra; lia). xs. eexists; split; [reflexivity|]. right.
    replace (- powerRZ (-1) (-1)) with 1 by (unfold powerRZ; change (Pos.to_nat 1) with 1%nat; rewrite pow_1; field; lra). pose proof (exp_ineq1 1). lra.
  - intros Hx. unfold Kumaraswamy.p_new in H. inv_new H. right. unfold Kumaraswamy.cdf, Kumaraswamy.from. cbn [Kumaraswamy.pr unwrap]. xs. try (rewrite x_powf by lra; xs).
    assert (1 < Rpower x a) by (now apply Rpower_gt1). rewrite x_powf_negint by (try lra; lia). xs. eexists; split; [reflexivity|]. right. rewrite powerRZ_1. lra.
  - intros Hx. unfold FoldedNormal.new in H. inv_new H. right. unfold FoldedNormal.cdf. cbn [FoldedNormal.pr FoldedNormal.mu FoldedNormal.sigma unwrap].
    assert (S2 := sqrt2_pos). xs. rewrite !(erf_Phi (SP := SP) He). xs. eexists; split; [reflexivity|]. left.
    assert (A := Phi_sym ((x + a) / b)).
    assert (B : Phi ((x - a) / b) < Phi (- ((x + a) / b))).
    { apply Phi_mono. replace (- ((x + a) / b)) with ((- x - a) / b) by (field; lra). unfold Rdiv. apply Rmult_lt_compat_r; [now apply Rinv_0_lt_compat|lra]. }
    lra.
  - intros Hb. unfold Laplace.new in H. inv_new H. right. unfold Laplace.cdf. cbn [Laplace.pr Laplace.mu Laplace.b unwrap]. xs. eexists; split; [reflexivity|]. right.
    replace ((a - a)) with 0 by ring. rewrite Rabs_R0. replace (0 / b) with 0 by (field; lra). rewrite Rabs_R0, Ropp_0, exp_0.
    apply (Rmult_lt_reg_r b); [lra|]. unfold Rdiv. rewrite !Rmult_assoc, Rinv_l by lra. lra.
Qed.
Print Assumptions C75_outside_support_refuted.
Example C75_nonvacuous : erf_exact (exact false) /\ (exists d, Exponential.new (Fin 2) = Ok d) /\ (exists d, Cosine.new (Fin 0) (Fin 1) = Ok d) /\
  (exists d, GPD.new (Fin 0) (Fin 1) (Fin (1/2)) = Ok d) /\ (exists d, Triangular.new (Fin 0) (Fin 1) (Fin 2) = Ok d).
Proof.
  split; [apply ex_erf|].
  repeat match goal with |- _ /\ _ => split end; eexists; unfold Exponential.new, Cosine.new, GPD.new, Triangular.new; ok_new.
Qed.
