(** * Property C154: accessors and the remaining constructors say the same thing
    The multivariate and two-dimensional types (checked constructor, unchecked
    constructor, From<Params>, params), and the normal's [z], [precision] and
    [width]. *)
From Coq Require Import List ZArith Lia Bool Reals Lra.
From Verif.Num Require Import Scalar XReal.
From Verif.Model Require Import Rust Constraints Probability Params Consts Continuous Continuous2 Discrete Normal2 Traits Linalg Multivariate.
From Verif.Model Require MvNormal.
From Verif.Spec Require Import BuildSpec GammaSpec SampleSpec.
From Verif.Proofs Require Import ConstraintProofs NewInv XTac ContProofs9 ContProofs25 DiscProofs4 Normal2Proofs MvProofs3.
From Verif.Properties Require Import C119_Multivariate.
Import ListNotations.
Local Open Scope R_scope.

Ltac inv_agree :=
  let d := fresh "d" in let H := fresh "H" in intros d H; revert H;
  repeat match goal with
    | |- context [check ?c ?v] => let w := fresh "w" in let E := fresh "E" in
        destruct (check c v) as [w|] eqn:E; cbn [and_then map_ok map_err]; [|discriminate];
        apply check_ok_inv in E as [-> _]
    end;
  intros H; inversion H; subst; repeat split.

(** every multi-dimensional type, at every scalar semantics *)
Theorem C154_multivariate {F} {SF : Scalar F} {LA : Lapack F} (m s : list F) (Sg : list (list F)) (v w : F) (n : nat) :
  agree (MvNormal.new m Sg) (MvNormal.new_unchecked m Sg) MvNormal.from MvNormal.params (MvNormal.mkP m Sg) /\
  agree (MvNormal.diagonal m s) (MvNormal.diagonal_unchecked m s) MvNormal.diagonal_from MvNormal.params (MvNormal.mkP m s) /\
  agree (MvNormal.isotropic m v) (MvNormal.isotropic_unchecked m v) MvNormal.isotropic_from MvNormal.params (MvNormal.mkP m v) /\
  agree (MvNormal.homogeneous n w v) (MvNormal.homogeneous_unchecked n w v) MvNormal.isotropic_from MvNormal.params
        (MvNormal.mkP (repeat w n) v) /\
  agree (MvNormal.standard n) (MvNormal.standard_unchecked n) MvNormal.isotropic_from MvNormal.params
        (MvNormal.mkP (repeat (f_of_Z 0) n) (f_of_Z 1)) /\
  agree (MvLogNormal.new m Sg) (MvLogNormal.new_unchecked m Sg) MvLogNormal.from MvLogNormal.params (MvNormal.mkP m Sg) /\
  agree (MvLogNormal.diagonal m s) (MvLogNormal.diagonal_unchecked m s) MvLogNormal.diagonal_from MvLogNormal.params (MvNormal.mkP m s) /\
  agree (MvLogNormal.isotropic m v) (MvLogNormal.isotropic_unchecked m v) MvLogNormal.isotropic_from MvLogNormal.params (MvNormal.mkP m v) /\
  agree (MvLogNormal.homogeneous n w v) (MvLogNormal.homogeneous_unchecked n w v) MvLogNormal.isotropic_from MvLogNormal.params
        (MvNormal.mkP (repeat w n) v) /\
  agree (MvLogNormal.standard n) (MvLogNormal.standard_unchecked n) MvLogNormal.isotropic_from MvLogNormal.params
        (MvNormal.mkP (repeat (f_of_Z 0) n) (f_of_Z 1)).
Proof.
  unfold MvLogNormal.new, MvLogNormal.diagonal, MvLogNormal.isotropic, MvLogNormal.homogeneous, MvLogNormal.standard,
    MvNormal.new, MvNormal.diagonal, MvNormal.isotropic, MvNormal.homogeneous, MvNormal.standard, MvNormal.params_standard,
    MvNormal.params_homogeneous, MvNormal.params_multivariate, MvNormal.params_diagonal, MvNormal.params_isotropic,
    loc_new, matrix_new, diagonal_new, isotropic_new.
  cbn [and_then map_ok map_err].
  repeat match goal with |- _ /\ _ => split end; inv_agree.
Qed.
Print Assumptions C154_multivariate.

(** the pairs, and Multinomial; Kumaraswamy and Weibull, which are built from their parameters *)
Theorem C154_pairs {F} {SF : Scalar F} (m s : F * F) (x y : F) (k : Z) (ps : list F) :
  agree (PairedNormal.new m s) (PairedNormal.new_unchecked m s) PairedNormal.from PairedNormal.params (PairedNormal.mkP m s) /\
  agree (PairedNormal.isotropic m x) (PairedNormal.isotropic_unchecked m x) PairedNormal.from PairedNormal.params (PairedNormal.mkP m (x, x)) /\
  agree (BvNormal.new m s x) (BvNormal.new_unchecked m s x) BvNormal.from BvNormal.params (BvNormal.mkP m s x) /\
  agree (BvNormal.independent m s) (BvNormal.independent_unchecked m s) BvNormal.from BvNormal.params (BvNormal.mkP m s (f_of_Z 0)) /\
  agree (BvNormal.isotropic m x) (BvNormal.isotropic_unchecked m x) BvNormal.from BvNormal.params (BvNormal.mkP m (x, x) (f_of_Z 0)) /\
  agree (Multinomial.new k ps) (Multinomial.new_unchecked k ps) Multinomial.from Multinomial.params (Multinomial.mkP k ps) /\
  (forall p, Kumaraswamy.p_new x y = Ok p -> p = Kumaraswamy.mkP x y /\ Kumaraswamy.params (Kumaraswamy.from p) = p) /\
  (forall p, Weibull.p_new x y = Ok p -> p = Weibull.mkP x y /\ Weibull.params (Weibull.from p) = p).
Proof.
  split. { unfold PairedNormal.new, PairedNormal.params_paired, loc_new, paired_new. cbn [and_then map_ok map_err]. inv_agree. }
  split. { unfold PairedNormal.isotropic, PairedNormal.new, PairedNormal.params_paired, loc_new, paired_new. cbn [and_then map_ok map_err]. inv_agree. }
  split. { unfold BvNormal.new, BvNormal.params_bivariate, loc_new, bivariate_new. cbn [and_then map_ok map_err]. inv_agree. }
  split. { unfold BvNormal.independent, BvNormal.params_bivariate, loc_new, bivariate_new. cbn [and_then map_ok map_err]. inv_agree. }
  split. { unfold BvNormal.isotropic, BvNormal.independent, BvNormal.params_bivariate, loc_new, bivariate_new. cbn [and_then map_ok map_err]. inv_agree. }
  split.
  { intros d. unfold Multinomial.new, Multinomial.params_new, count_new, simplex_new, simplex_try_from.
    destruct (check _ k) as [w|] eqn:E; cbn [and_then map_ok map_err]; [|discriminate]. apply check_ok_inv in E as [-> _].
    destruct (simplex_loop _ ps); cbn [and_then map_err map_ok]; [|discriminate]. destruct (fltb _ _); cbn [and_then map_err map_ok]; [|discriminate].
    intros H; inversion H. repeat split. }
  split; intros p H; apply map_params_inv in H as [-> _]; split; reflexivity.
Qed.
Print Assumptions C154_pairs.

(** Degenerate: any point is accepted and is what [params] returns; the constants *)
Theorem C154_degenerate {F} {SF : Scalar F} (x : F) (k : Z) :
  DegenerateF.params (DegenerateF.new x) = x /\ DegenerateF.from (DegenerateF.params (DegenerateF.new x)) = DegenerateF.new x /\
  DegenerateI.params (DegenerateI.new k) = k /\ DegenerateI.from (DegenerateI.params (DegenerateI.new k)) = DegenerateI.new k /\
  DegenerateF.mean (DegenerateF.new x) = x /\ DegenerateF.median (DegenerateF.new x) = x /\ DegenerateF.modes (DegenerateF.new x) = [x] /\
  DegenerateF.variance (DegenerateF.new x) = f_of_Z 0 /\ DegenerateF.skewness (DegenerateF.new x) = f_of_Z 0.
Proof. repeat split. Qed.
Print Assumptions C154_degenerate.

(** the normal's accessors: [z] standardises, the precision is the reciprocal of
    the variance and the width twice that; the log of a Bernoulli mass *)
Theorem C154_normal (m s : R) (d : UvNormal.t xreal) : UvNormal.new (Fin m) (Fin s) = Ok d ->
  exists sd, 0 < sd /\ sd * sd = s /\
    (forall x, UvNormal.z d (Fin x) = Fin ((x - m) / sd)) /\
    UvNormal.precision d = Fin (1 / s) /\ UvNormal.width d = Fin (2 / s) /\
    (exists p, UvNormal.precision d = Fin p /\ p * s = 1) /\
    (exists w, UvNormal.width d = Fin w /\ w * s = 2) /\
    (forall x, UvNormal.pdf d (Fin x) = Fin (normal_density m sd x)).
Proof.
  intros H. apply uvn_new_inv in H as [HS ->]. exists (sqrt s). assert (P := sqrt_lt_R0 s HS). assert (Q := sqrt_sqrt s (Rlt_le _ _ HS)).
  unfold UvNormal.precision, UvNormal.width, UvNormal.z, UvNormal.new_unchecked. cbn [UvNormal.pr UvNormal.mu UvNormal.Sigma].
  split; [exact P|]. split; [exact Q|].
  assert (N1 : s <> 0) by lra. assert (N2 : sqrt s <> 0) by lra.
  split. { intros x. xs. reflexivity. }
  split. { xs. reflexivity. }
  split. { unfold UvNormal.precision. cbn [UvNormal.pr UvNormal.Sigma]. xs. f_equal. field. lra. }
  split. { exists (1 / s). split; [xs; reflexivity|field; lra]. }
  split. { exists (2 / s). split; [unfold UvNormal.precision; cbn [UvNormal.pr UvNormal.Sigma]; xs; f_equal; field; lra|field; lra]. }
  intros x. etransitivity; [exact (un_pdf m s HS x)|]. now rewrite (nd_phi m (sqrt s) P x).
Qed.
Print Assumptions C154_normal.
(** the logarithm of a Bernoulli mass, and Poisson's support is the counts *)
Theorem C154_bernoulli (p : R) (d : Bernoulli.t xreal) : 0 < p < 1 -> Bernoulli.new (Fin p) = Ok d ->
  Bernoulli.log_pmf d true = Fin (ln p) /\ Bernoulli.log_pmf d false = Fin (ln (1 - p)).
Proof.
  intros Hp H. apply ber_new_inv in H as [HP ->]. unfold Bernoulli.log_pmf, Bernoulli.pmf, p_ln, ber.
  assert (ln p = ln p /\ 0 < 1 - p) as [_ A] by (split; [reflexivity|lra]). split.
  - cbn -[fln]. now rewrite x_ln by lra.
  - unfold Bernoulli.new_unchecked, Bernoulli.from, Bernoulli.q, p_not. cbn -[fln fsub f_of_Z]. rewrite x_lit, x_sub. now rewrite x_ln by lra.
Qed.
Print Assumptions C154_bernoulli.
Example C154_nonvacuous :
  (exists d, UvNormal.new (Fin 1) (Fin 4) = Ok d) /\ (exists d, Bernoulli.new (Fin (1/4)) = Ok d) /\
  (exists d, PairedNormal.new (Fin 1, Fin (-2)) (Fin 3, Fin (1/2)) = Ok d) /\
  (exists d, MvLogNormal.isotropic [Fin 1; Fin 2] (Fin 3) = Ok d) /\ (exists d, MvLogNormal.standard (F := xreal) 3 = Ok d).
Proof.
  split. { eexists. apply uvn_new_ok. lra. }
  split. { eexists. apply ber_new_ok. lra. }
  split. { eexists. apply pn_new_iff. split; [lra|reflexivity]. }
  split. { eexists. unfold MvLogNormal.isotropic. rewrite (proj2 (mvi_new_iff [Fin 1; Fin 2] 3 (MvNormal.isotropic_unchecked [Fin 1; Fin 2] (Fin 3)))) by (split; [lra|reflexivity]). reflexivity. }
  destruct (C119_standard_nonvacuous) as [d E]. eexists. unfold MvLogNormal.standard. rewrite E. reflexivity.
Qed.
