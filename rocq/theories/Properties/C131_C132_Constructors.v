(** * Properties C131-C132: defaults and named constructors *)
From Coq Require Import Reals Lra Lia Psatz List ZArith Bool.
From Coquelicot Require Import Coquelicot.
From Flocq Require Import IEEE754.BinarySingleNaN.
From Verif.Num Require Import Scalar XReal F64.
From Verif.Model Require Import Rust LogFact Constraints Probability Params Consts Traits Continuous Continuous2 Continuous3 Normal2.
From Verif.Spec Require Import ParamSpec DistSpec GammaSpec ResSpec MvSpec.
From Verif.Proofs Require Import ConstraintProofs NewInv XTac Calc Calc2 Improper Gauss Gauss2 GammaFun Mellin Oracle
  ContProofs1 ContProofs2 ContProofs3 ContProofs4 ContProofs5 ContProofs6 ContProofs9 ContProofs11 ContProofs13 ContProofs14 ContProofs15 ContProofs18 ContProofs24 ContProofs25 Normal2Proofs.
Import ListNotations.
Open Scope R_scope.

(** C131: [default] (and [standard]) is what [new] returns on the documented
    parameters, so it satisfies the constraints; in any arithmetic where 0 < 1,
    in particular in doubles and in exact reals *)
Theorem C131_defaults {F} {SF : Scalar F} (H01 : fltb (f_of_Z 0 : F) (f_of_Z 1) = true) :
  let zero := f_of_Z 0 : F in let one := f_of_Z 1 : F in
  Exponential.new one = Ok Exponential.default /\
  Cauchy.new zero one = Ok Cauchy.default /\
  Gumbel.new zero one = Ok Gumbel.default /\
  Frechet.new one = Ok Frechet.default /\
  (exists p, Kumaraswamy.p_new one one = Ok p /\ Kumaraswamy.from p = Kumaraswamy.default) /\
  Arcsine.new zero one = Ok Arcsine.default /\
  DegenerateF.new zero = DegenerateF.default /\ DegenerateI.new 0 = DegenerateI.default /\
  UvNormal.new zero one = Ok UvNormal.standard /\
  Beta.new one one = Ok Beta.default /\
  Gamma.new one one = Ok Gamma.default /\
  InvGamma.new one one = Ok InvGamma.default /\
  BetaPrime.new one one = Ok BetaPrime.default /\
  Erlang.new 1 one = Ok Erlang.default /\
  FoldedNormal.new zero one = Ok FoldedNormal.default /\
  PairedNormal.new (zero, zero) (one, one) = Ok PairedNormal.default.
Proof.
  intros zero one.
  assert (HC : check (AllA Positive) [one; one] = Ok [one; one]).
  { apply check_ok. cbn [is_satisfied_by forallb]. unfold pltb, POrd_scalar, pzero, one. rewrite H01. reflexivity. }
  repeat match goal with |- _ /\ _ => split end; try reflexivity;
    try (unfold Exponential.new, Cauchy.new, Gumbel.new, Frechet.new, Arcsine.new, Beta.new, Gamma.new, InvGamma.new, BetaPrime.new, FoldedNormal.new, Erlang.new;
      etransitivity; [apply map_params_ok; cbn [args s1 s2 s3 fst snd]; repeat (apply Forall_cons || apply Forall_nil); unfold arg_ok; cbn [arg_ty arg_val field_ok]; first [exact I | exact H01 | lia]|reflexivity]; fail).
  - eexists. split; [unfold Kumaraswamy.p_new; apply map_params_ok; cbn [args s1 s2 s3 fst snd]; repeat (apply Forall_cons || apply Forall_nil); unfold arg_ok; cbn [arg_ty arg_val field_ok]; exact H01|reflexivity].
  - unfold UvNormal.new, UvNormal.params_new, loc_new, isotropic_new. cbn [and_then map_ok map_err check]. unfold check_default. cbn [is_satisfied_by]. unfold pltb, POrd_scalar, pzero. unfold one. rewrite H01. reflexivity.
  - unfold PairedNormal.new, PairedNormal.params_paired, paired_new, loc_new, arr2. cbn [map_err and_then fst snd]. rewrite HC. reflexivity.
Qed.
Print Assumptions C131_defaults.
Example C131_nonvacuous : fltb (f_of_Z 0 : xreal) (f_of_Z 1) = true /\ forall m : Libm, fltb (f_of_Z 0 : f64) (f_of_Z 1) = true.
Proof. split; [rewrite !x_lit, x_ltb; apply Rltb_true; lra|]. intros m. vm_compute. reflexivity. Qed.
Theorem C131_defaults_uniform_bivariate {F} {SF : Scalar F} (H01 : fltb (f_of_Z 0 : F) (f_of_Z 1) = true)
    (H11 : fdiv (f_of_Z 1 : F) (f_of_Z 1) = f_of_Z 1) (Hm : fleb (fneg (f_of_Z 1 : F)) (f_of_Z 0) = true) (Hp : fleb (f_of_Z 0 : F) (f_of_Z 1) = true) :
  let zero := f_of_Z 0 : F in let one := f_of_Z 1 : F in
  UniformF.new zero one = Ok UniformF.default /\
  BvNormal.new (zero, zero) (one, one) zero = Ok BvNormal.default /\ BvNormal.default = BvNormal.standard.
Proof.
  intros zero one. split; [|split; [|reflexivity]].
  - unfold UniformF.new, UniformF.params_new, loc_new, scale_new. cbn [and_then map_ok check]. unfold check_default. cbn [is_satisfied_by]. unfold pltb, POrd_scalar, pzero, one. rewrite H01. cbn [and_then map_ok].
    unfold UniformF.from. cbn [UniformF.width]. rewrite H11. reflexivity.
  - unfold BvNormal.new, BvNormal.params_bivariate, bivariate_new, loc_new, arr2. cbn [map_err and_then fst snd].
    rewrite check_ok. 2:{ cbn [is_satisfied_by forallb]. unfold pltb, POrd_scalar, pzero, one. rewrite H01. reflexivity. }
    cbn [map_err and_then]. rewrite check_ok; [reflexivity|]. cbn [is_satisfied_by]. unfold pleb, POrd_scalar, one, zero. now rewrite Hm, Hp.
Qed.
Print Assumptions C131_defaults_uniform_bivariate.
Example C131_nonvacuous2 :
  (fdiv (f_of_Z 1 : xreal) (f_of_Z 1) = f_of_Z 1 /\ fleb (fneg (f_of_Z 1 : xreal)) (f_of_Z 0) = true /\ fleb (f_of_Z 0 : xreal) (f_of_Z 1) = true) /\
  forall m : Libm, fdiv (f_of_Z 1 : f64) (f_of_Z 1) = f_of_Z 1 /\ fleb (fneg (f_of_Z 1 : f64)) (f_of_Z 0) = true /\ fleb (f_of_Z 0 : f64) (f_of_Z 1) = true.
Proof.
  split.
  - xs. split; [f_equal; field|]. split; apply Rleb_true; lra.
  - intros m. split; [apply B2SF_inj; vm_compute; reflexivity|]. split; vm_compute; reflexivity.
Qed.

(** ... and on exact reals each default is the textbook standard law *)
Theorem C131_standard_laws (SP : Special xreal) (x : R) :
  gamma_exact SP -> beta_exact SP -> erf_exact SP -> (forall x, sf_norm (Fin x) = Fin (Phi x)) ->
  (0 < x < 1 -> unwrap (UniformF.cdf UniformF.default (Fin x)) = Fin x /\ unwrap (Kumaraswamy.cdf Kumaraswamy.default (Fin x)) = Fin x /\
     Beta.pdf Beta.default (Fin x) = Fin 1 /\ Arcsine.pdf Arcsine.default (Fin x) = Fin (/ (PI * sqrt (x * (1 - x))))) /\
  (0 < x -> Exponential.pdf Exponential.default (Fin x) = Fin (exp (- x)) /\ Gamma.pdf Gamma.default (Fin x) = Fin (exp (- x)) /\
     Erlang.pdf Erlang.default (Fin x) = Ret (Fin (exp (- x))) /\
     InvGamma.pdf InvGamma.default (Fin x) = Fin (exp (- / x) / (x * x)) /\ BetaPrime.pdf BetaPrime.default (Fin x) = Fin (/ ((1 + x) * (1 + x))) /\
     unwrap (Frechet.cdf Frechet.default (Fin x)) = Fin (exp (- / x)) /\ FoldedNormal.pdf FoldedNormal.default (Fin x) = Fin (2 * (exp (- (x * x) / 2) / sqrt (2 * PI)))) /\
  Cauchy.pdf Cauchy.default (Fin x) = Fin (/ (PI * (1 + x * x))) /\
  unwrap (Gumbel.cdf Gumbel.default (Fin x)) = Fin (exp (- exp (- x))) /\
  UvNormal.pdf UvNormal.standard (Fin x) = Fin (exp (- (x * x) / 2) / sqrt (2 * PI)) /\
  (UvNormal.mean UvNormal.standard = Fin 0 /\ UvNormal.variance UvNormal.standard = Fin 1).
Proof.
  intros Hg Hb He Hn. assert (PP := PI_RGT_0).
  assert (B1 : Bet 1 1 = 1).
  { apply (Beta_unique 1 1); [apply Bet_spec; lra|]. replace 1 with (1 * 1 / 1) at 3 by field. apply (is_Beta_Gamma 1 1); try lra.
    - rewrite <- Gam_1 at 2. apply Gam_spec; lra.
    - rewrite <- Gam_1 at 2. apply Gam_spec; lra.
    - replace 1 with (Gam (1 + 1)) at 3; [apply Gam_spec; lra|]. rewrite Gam_rec by lra. rewrite Gam_1. ring. }
  assert (R0 : forall y, Rpower y 0 = 1) by (intros y; unfold Rpower; rewrite Rmult_0_l; apply exp_0).
  repeat match goal with |- _ /\ _ => split end.
  - intros Hx. repeat match goal with |- _ /\ _ => split end.
    + unfold UniformF.cdf, UniformF.ub, UniformF.default. cbn [UniformF.pr UniformF.lb UniformF.width UniformF.prob]. xs. rewrite Rltb_false, Rleb_false by lra. cbn [unwrap]. xs. f_equal. ring.
    + unfold Kumaraswamy.cdf, Kumaraswamy.default. cbn [Kumaraswamy.pr unwrap]. xs. rewrite Rpower_1 by lra. xs. rewrite Rpower_1 by lra. f_equal. ring.
    + unfold Beta.pdf, Beta.default. cbn [Beta.pr Beta.alpha Beta.beta Beta.new_unchecked]. rewrite !x_lit. rewrite sfb by (auto; lra). xs. rewrite B1. xs. f_equal. replace (1 - 1) with 0 by ring. rewrite !R0. field.
    + unfold Arcsine.pdf, Arcsine.b, Arcsine.default, ONE_OVER_PI. cbn [Arcsine.pr Arcsine.a Arcsine.w Arcsine.new_unchecked].
      assert (0 < (x - 0) * (0 + 1 - x)) by (apply Rmult_lt_0_compat; lra). assert (0 < sqrt ((x - 0) * (0 + 1 - x))) by (now apply sqrt_lt_R0). xs. f_equal.
      replace ((x - 0) * (0 + 1 - x)) with (x * (1 - x)) in * by ring. field. lra.
  - intros Hx. repeat match goal with |- _ /\ _ => split end.
    + unfold Exponential.pdf, Exponential.lam, Exponential.default. cbn [Exponential.pr Exponential.lambda Exponential.new_unchecked]. xs. f_equal. replace (- (1) * x) with (- x) by ring. ring.
    + unfold Gamma.pdf, Gamma.default. cbn [Gamma.pr Gamma.alpha Gamma.beta Gamma.new_unchecked]. rewrite !x_lit. rewrite sfg by (auto; lra). rewrite Gam_1. xs. f_equal. replace (1 - 1) with 0 by ring. rewrite R0, Rpower_1 by lra. replace (- (1) * x) with (- x) by ring. field.
    + unfold Erlang.default. rewrite x_lit. rewrite er1_pdf by lra. do 2 f_equal. rewrite !Rmult_1_l. reflexivity.
    + unfold InvGamma.pdf, InvGamma.default. cbn [InvGamma.pr InvGamma.alpha InvGamma.beta InvGamma.new_unchecked]. rewrite !x_lit. rewrite sfg by (auto; lra). rewrite Gam_1. xs. f_equal. rewrite (Rpower_1 1) by lra.
      replace (- (1) - 1) with (-(2)) by ring. rewrite Rpower_Ropp. replace (Rpower x 2) with (x * x) by (replace 2 with (1 + 1) by ring; rewrite Rpower_plus, Rpower_1 by auto; ring). replace (- (1) / x) with (- / x) by (field; lra). field. lra.
    + unfold BetaPrime.pdf, BetaPrime.default. cbn [BetaPrime.pr BetaPrime.alpha BetaPrime.beta BetaPrime.new_unchecked]. rewrite !x_lit. rewrite sfb by (auto; lra). rewrite B1. xs. f_equal. replace (1 - 1) with 0 by ring. rewrite R0.
      replace (- (1) - 1) with (-(2)) by ring. rewrite Rpower_Ropp. replace (Rpower (1 + x) 2) with ((1 + x) * (1 + x)) by (replace 2 with (1 + 1) by ring; rewrite Rpower_plus, Rpower_1 by lra; ring). field. lra.
    + unfold Frechet.cdf, Frechet.al, Frechet.default. cbn [Frechet.pr Frechet.alpha Frechet.new_unchecked unwrap]. xs. rewrite Rpower_Ropp, Rpower_1 by lra. reflexivity.
    + unfold FoldedNormal.pdf, PI_2, FoldedNormal.default, FoldedNormal.standard. cbn [FoldedNormal.pr FoldedNormal.mu FoldedNormal.sigma FoldedNormal.new_unchecked].
      assert (0 < sqrt (PI * 2)) by (apply sqrt_lt_R0; lra). xs. f_equal. rewrite (Rmult_comm 2 PI).
      replace (- ((x + 0) / 1) * ((x + 0) / 1) / 2) with (- (x * x) / 2) by field. replace (- ((x - 0) / 1) * ((x - 0) / 1) / 2) with (- (x * x) / 2) by field. field. lra.
  - unfold Cauchy.default. rewrite !x_lit. rewrite c_pdf by lra. f_equal. assert (0 <= x * x) by apply Rle_0_sqr. replace ((x - 0) / 1) with x by field. field. lra.
  - unfold Gumbel.cdf, Gumbel.z, Gumbel.default. cbn [Gumbel.pr Gumbel.mu Gumbel.beta Gumbel.new_unchecked unwrap]. xs. replace ((x - 0) / 1) with x by field. reflexivity.
  - unfold UvNormal.pdf, UvNormal.z, UvNormal.standard, PI_2. cbn [UvNormal.pr UvNormal.mu UvNormal.Sigma UvNormal.new_unchecked]. assert (0 < sqrt (PI * 2)) by (apply sqrt_lt_R0; lra). xs. rewrite sqrt_1. xs. f_equal. rewrite (Rmult_comm 2 PI).
    replace (- ((x - 0) / 1) * ((x - 0) / 1) / 2) with (- (x * x) / 2) by field. field. lra.
  - unfold UvNormal.mean, UvNormal.standard. cbn [UvNormal.pr UvNormal.mu UvNormal.new_unchecked]. now xs.
  - unfold UvNormal.variance, UvNormal.standard. cbn [UvNormal.pr UvNormal.Sigma UvNormal.new_unchecked]. now xs.
Qed.
Print Assumptions C131_standard_laws.
Example C131_nonvacuous3 : gamma_exact (exact false) /\ beta_exact (exact false) /\ erf_exact (exact false) /\ forall x, sf_norm (Special := exact false) (Fin x) = Fin (Phi x).
Proof. split; [apply ex_gamma|]. split; [apply ex_beta|]. split; [apply ex_erf|reflexivity]. Qed.

(** C132: the named constructors.  [symmetric x y] succeeds exactly when x < y,
    and is then the triangular law on [x, y] peaked at the midpoint *)
Theorem C132_triangular_symmetric (x y : R) :
  ((exists d, Triangular.symmetric (Fin x) (Fin y) = Ok d) <-> x < y) /\
  (forall d : Triangular.t xreal, Triangular.symmetric (Fin x) (Fin y) = Ok d ->
     Triangular.support d = Closed (Fin x) (Fin y) /\
     Triangular.modes d = [Fin ((x + y) / 2)] /\ Triangular.median d = Fin ((x + y) / 2) /\
     Triangular.variance d = Fin ((y - x) * (y - x) / 24) /\ Triangular.skewness d = Fin 0 /\
     (forall t, x < t < y -> Triangular.pdf d (Fin (x + y - t)) = Triangular.pdf d (Fin t)) /\
     (forall t u v, unwrap (Triangular.cdf d (Fin (x + y - t))) = Fin u -> unwrap (Triangular.cdf d (Fin t)) = Fin v -> u + v = 1)).
Proof.
  unfold Triangular.symmetric, Triangular.new. xs.
  assert (NE : x < y -> exists d : Triangular.t xreal, map_ok (fun '(x, (y, (z, tt))) => Triangular.mk (Triangular.mkP x y z))
      (params_new (s3 PLoc PScale PScale) (Fin x, (Fin ((y - x) / 2), (Fin ((y - x) / 2), tt)))) = Ok d).
  { intros L. eexists. ok_new. }
  split; [split; [|exact NE]|].
  - intros [d H]. inv_new H. lra.
  - intros d H. inv_new H. assert (L : x < y) by lra. clear NE.
    set (p := (y - x) / 2) in *. assert (Ec : x + p = (x + y) / 2) by (unfold p; field). assert (Eb : x + p + p = y) by (unfold p; field).
    unfold Triangular.support, Triangular.modes, Triangular.median, Triangular.variance, Triangular.skewness, Triangular.pdf, Triangular.cdf, Triangular.b, Triangular.c, THREE_HALVES.
    cbn [Triangular.pr Triangular.a Triangular.a2c Triangular.c2b]. xs. rewrite Eb, Ec.
    assert (SQ : (y - x) * ((x + y) / 2 - x) / 2 = p * p) by (unfold p; field).
    assert (PP : 0 < p * p) by (now apply Rmult_lt_0_compat).
    split; [reflexivity|]. split; [reflexivity|]. split.
    { rewrite Rleb_true by lra. rewrite SQ. xs. f_equal. rewrite sqrt_square by lra. unfold p. field. }
    split. { xs. f_equal. field. }
    split.
    { assert (V : 0 < x * x + y * y + (x + y) / 2 * ((x + y) / 2) - (x * y + x * ((x + y) / 2) + y * ((x + y) / 2))).
      { replace (x * x + y * y + (x + y) / 2 * ((x + y) / 2) - (x * y + x * ((x + y) / 2) + y * ((x + y) / 2))) with (3 * (p * p)) by (unfold p; field). lra. }
      xs. set (W := x * x + y * y + (x + y) / 2 * ((x + y) / 2) - (x * y + x * ((x + y) / 2) + y * ((x + y) / 2))) in *.
      assert (0 < Rpower W (3 / 2)) by (unfold Rpower; apply exp_pos). xs. f_equal. replace (x + y - 2 * ((x + y) / 2)) with 0 by field. field. lra. }
    split.
    { intros t Ht. xs. rewrite (Rleb_false t x), (Rleb_false (x + y - t) x) by lra. replace (x + y - t - (x + y) / 2) with (- (t - (x + y) / 2)) by field. rewrite Rabs_Ropp.
      destruct (Rltb_spec (Rabs (t - (x + y) / 2)) (1 / 10000000)) as [N|N]; [reflexivity|].
      assert (t <> (x + y) / 2). { intros ->. replace ((x + y) / 2 - (x + y) / 2) with 0 in N by ring. rewrite Rabs_R0 in N. lra. }
      destruct (Rltb_spec t ((x + y) / 2)) as [A|A]; destruct (Rltb_spec (x + y - t) ((x + y) / 2)) as [B|B]; try lra.
      - rewrite Rleb_true by lra. xs. f_equal. field. lra.
      - rewrite Rleb_true by lra. xs. f_equal. field. lra. }
    intros t u v. xs.
    repeat match goal with |- context [Rleb ?a ?b] => destruct (Rleb_spec a b); try lra end; cbn [unwrap p_zero p_one]; xs; intros E1 E2; apply Fin_inj in E1; apply Fin_inj in E2; subst u v; try lra;
      try (field; lra);
      repeat match goal with
      | H : ?a <= ?b, H' : ?b <= ?a |- _ => assert (a = b) by lra; clear H H'
      end; try (replace t with x by lra; field; lra); try (replace t with y by lra; field; lra); try (replace t with ((x+y)/2) by lra; field; lra).
Qed.
Print Assumptions C132_triangular_symmetric.
Example C132_nonvacuous : exists d, Triangular.symmetric (Fin (-1)) (Fin 4) = Ok d.
Proof. apply C132_triangular_symmetric. lra. Qed.
(** [half_normal] takes an already validated [Scale]: it is [new 0 scale], the
    law of |X| for X ~ N(0, scale^2) *)
Theorem C132_half_normal (s : R) (sc : xreal) : scale_new (Fin s) = Ok sc ->
  FoldedNormal.new (Fin 0) (Fin s) = Ok (FoldedNormal.half_normal sc) /\
  (forall x, 0 < x -> FoldedNormal.pdf (FoldedNormal.half_normal sc) (Fin x) = Fin (2 * (exp (- (x * x) / (2 * (s * s))) / (s * sqrt (2 * PI))))) /\
  FoldedNormal.modes (FoldedNormal.half_normal sc) = [Fin 0].
Proof.
  intros H. unfold scale_new in H. cbn [check] in H. unfold check_default in H. cbn [is_satisfied_by] in H. unfold pltb, POrd_scalar, pzero in H. rewrite x_lit, x_ltb in H.
  destruct (Rltb_spec 0 s) as [L|L]; [|discriminate]. injection H as <-. assert (PP := PI_RGT_0). unfold FoldedNormal.half_normal. rewrite x_lit.
  split; [unfold FoldedNormal.new; etransitivity; [ok_new|reflexivity]|]. split.
  - intros x Hx. unfold FoldedNormal.pdf, PI_2. cbn [FoldedNormal.pr FoldedNormal.mu FoldedNormal.sigma FoldedNormal.new_unchecked].
    assert (0 < sqrt (PI * 2)) by (apply sqrt_lt_R0; lra). assert (0 < sqrt (PI * 2) * s) by (now apply Rmult_lt_0_compat). xs. f_equal. rewrite (Rmult_comm 2 PI).
    replace (- ((x + 0) / s) * ((x + 0) / s) / 2) with (- (x * x) / (2 * (s * s))) by (field; lra).
    replace (- ((x - 0) / s) * ((x - 0) / s) / 2) with (- (x * x) / (2 * (s * s))) by (field; lra). field. lra.
  - unfold FoldedNormal.modes. cbn [FoldedNormal.pr FoldedNormal.mu FoldedNormal.sigma FoldedNormal.new_unchecked]. xs. now rewrite Rltb_true.
Qed.
Print Assumptions C132_half_normal.
Example C132_nonvacuous2 : exists sc, scale_new (Fin 3) = Ok sc.
Proof. eexists. unfold scale_new. apply check_ok. cbn [is_satisfied_by]. unfold pltb, POrd_scalar, pzero. rewrite x_lit, x_ltb. apply Rltb_true. lra. Qed.

(** the two-dimensional normals: [isotropic m s] has both variances s and no
    correlation, [independent] is the bivariate law of the paired one; the
    unchecked variants build the same values, without the check *)
Theorem C132_normals2 (m0 m1 a b : R) :
  (forall d, PairedNormal.isotropic (Fin m0, Fin m1) (Fin a) = Ok d <-> 0 < a /\ d = PairedNormal.isotropic_unchecked (Fin m0, Fin m1) (Fin a)) /\
  (forall d, BvNormal.isotropic (Fin m0, Fin m1) (Fin a) = Ok d <-> 0 < a /\ d = BvNormal.isotropic_unchecked (Fin m0, Fin m1) (Fin a)) /\
  (forall d, BvNormal.independent (Fin m0, Fin m1) (Fin a, Fin b) = Ok d <-> (0 < a /\ 0 < b) /\ d = BvNormal.independent_unchecked (Fin m0, Fin m1) (Fin a, Fin b)) /\
  BvNormal.independent (Fin m0, Fin m1) (Fin a, Fin b) = BvNormal.new (Fin m0, Fin m1) (Fin a, Fin b) (Fin 0) /\
  (forall (d : BvNormal.t xreal) (e : PairedNormal.t xreal),
     BvNormal.independent (Fin m0, Fin m1) (Fin a, Fin b) = Ok d -> PairedNormal.new (Fin m0, Fin m1) (Fin a, Fin b) = Ok e ->
     (forall x y, BvNormal.pdf d (Fin x, Fin y) = PairedNormal.pdf e (Fin x, Fin y)) /\
     BvNormal.mean d = PairedNormal.mean e /\ BvNormal.variance d = PairedNormal.variance e /\
     BvNormal.covariance d = PairedNormal.covariance e /\ BvNormal.correlation d = PairedNormal.correlation e /\
     BvNormal.modes d = PairedNormal.modes e /\ BvNormal.support d = PairedNormal.support e /\
     (* and from one generator state they draw the same point *)
     (forall (G : Type) (RG : Rng G xreal) (g g1 g2 : G) (z1 z2 : R), draw_std_normal g = (Fin z1, g1) -> draw_std_normal g1 = (Fin z2, g2) ->
        BvNormal.sample d g = PairedNormal.sample e g)) /\
  (forall (d : BvNormal.t xreal) (e : PairedNormal.t xreal),
     BvNormal.isotropic (Fin m0, Fin m1) (Fin a) = Ok d -> PairedNormal.isotropic (Fin m0, Fin m1) (Fin a) = Ok e ->
     forall x y, BvNormal.pdf d (Fin x, Fin y) = PairedNormal.pdf e (Fin x, Fin y) /\
       BvNormal.pdf d (Fin x, Fin y) = Fin (exp (- ((x - m0) * (x - m0) + (y - m1) * (y - m1)) / (2 * a)) / (2 * PI * a))) /\
  (forall (d : BvNormal.t xreal) (e : PairedNormal.t xreal), BvNormal.from (BvNormal.params d) = d /\ PairedNormal.from (PairedNormal.params e) = e).
Proof.
  assert (HI : forall a b, BvNormal.independent (Fin m0, Fin m1) (Fin a, Fin b) = BvNormal.new (Fin m0, Fin m1) (Fin a, Fin b) (Fin 0)).
  { intros. unfold BvNormal.independent, BvNormal.new. now rewrite x_lit. }
  assert (HB : forall a b d, BvNormal.independent (Fin m0, Fin m1) (Fin a, Fin b) = Ok d <-> (0 < a /\ 0 < b) /\ d = BvNormal.independent_unchecked (Fin m0, Fin m1) (Fin a, Fin b)).
  { intros. rewrite HI, bv_new_iff. unfold BvNormal.independent_unchecked. rewrite x_lit. intuition (auto; lra). }
  assert (HE : forall a b (d : BvNormal.t xreal) (e : PairedNormal.t xreal), BvNormal.independent (Fin m0, Fin m1) (Fin a, Fin b) = Ok d -> PairedNormal.new (Fin m0, Fin m1) (Fin a, Fin b) = Ok e ->
     forall x y, BvNormal.pdf d (Fin x, Fin y) = PairedNormal.pdf e (Fin x, Fin y)).
  { intros a' b' d e H1 H2 x y. apply HB in H1 as [[Ha Hb] ->]. apply pn_new_iff in H2 as [_ ->]. unfold BvNormal.independent_unchecked. rewrite x_lit. symmetry. now apply pn_bv. }
  split. { intros d. unfold PairedNormal.isotropic. rewrite pn_new_iff. unfold PairedNormal.isotropic_unchecked. intuition. }
  split. { intros d. unfold BvNormal.isotropic. rewrite HB. unfold BvNormal.isotropic_unchecked. intuition. }
  split; [intros; apply HB|]. split; [apply HI|]. split; [|split].
  - intros d e H1 H2. split; [now apply (HE a b)|]. apply HB in H1 as [[Ha Hb] ->]. apply pn_new_iff in H2 as [_ ->].
    unfold BvNormal.independent_unchecked. rewrite x_lit. assert (0 < sqrt a) by now apply sqrt_lt_R0. assert (0 < sqrt b) by now apply sqrt_lt_R0.
    split; [reflexivity|]. split; [reflexivity|]. split.
    { unfold BvNormal.covariance, PairedNormal.covariance. cbn [BvNormal.pr BvNormal.new_unchecked PairedNormal.pr PairedNormal.new_unchecked PairedNormal.Sigma fst snd]. xs. now rewrite !Rmult_0_l. }
    split. { unfold BvNormal.correlation, PairedNormal.correlation. cbn [BvNormal.pr BvNormal.new_unchecked BvNormal.rho]. now rewrite !x_lit. }
    split; [reflexivity|]. split; [reflexivity|].
    intros G RG g g1 g2 z1 z2 E1 E2. unfold BvNormal.sample, PairedNormal.sample. rewrite E1, E2. cbn [BvNormal.pr BvNormal.new_unchecked PairedNormal.pr PairedNormal.new_unchecked fst snd]. xs.
    replace (1 - 0 * 0) with 1 by ring. rewrite sqrt_1. replace (z1 * 0 + z2 * 1) with z2 by ring. reflexivity.
  - intros d e H1 H2 x y. unfold BvNormal.isotropic in H1. unfold PairedNormal.isotropic in H2. rewrite (HE a a d e H1 H2). split; [reflexivity|].
    apply pn_new_iff in H2 as [[Ha _] ->]. assert (0 < sqrt a) by now apply sqrt_lt_R0. assert (PP := PI_RGT_0).
    unfold PairedNormal.pdf, PairedNormal.z, PI_2. cbn [PairedNormal.pr PairedNormal.new_unchecked PairedNormal.Sigma fst snd]. assert (0 < PI * 2 * sqrt a * sqrt a) by (apply Rmult_lt_0_compat; [apply Rmult_lt_0_compat; [lra|assumption]|assumption]).
    xs. f_equal. replace (2 * PI * a) with (PI * 2 * sqrt a * sqrt a) by (transitivity (PI * 2 * (sqrt a * sqrt a)); [ring|rewrite sqrt_sqrt by lra; ring]). f_equal. f_equal. field. lra.
  - intros [p] [q]. split; reflexivity.
Qed.
Print Assumptions C132_normals2.
Example C132_nonvacuous3 : (exists d, BvNormal.independent (Fin 1, Fin (-2)) (Fin 3, Fin (1/2)) = Ok d) /\ (exists d, BvNormal.isotropic (Fin 1, Fin (-2)) (Fin 3) = Ok d) /\ (exists e, PairedNormal.isotropic (Fin 1, Fin (-2)) (Fin 3) = Ok e).
Proof.
  destruct (C132_normals2 1 (-2) 3 (1/2)) as (A & B & C & _).
  split; [eexists; apply C; split; [lra|reflexivity]|]. split; eexists; [apply B|apply A]; (split; [lra|reflexivity]).
Qed.
