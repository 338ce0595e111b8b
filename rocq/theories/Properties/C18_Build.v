(** * Property C18: new, new_unchecked, From<Params> and params agree
    For every scalar semantics (doubles and exact reals). *)
From Coq Require Import List ZArith Lia Bool.
From Coq Require Import Reals Lra.
From Verif.Num Require Import Scalar XReal.
From Verif.Model Require Import Rust Constraints Probability Params Consts Continuous Continuous2 Continuous3 Discrete.
From Verif.Spec Require Import BuildSpec.
From Verif.Proofs Require Import ConstraintProofs NewInv.
Import ListNotations.

Theorem C18_continuous {F} {SF : Scalar F} (x y z : F) :
  agree (Exponential.new x) (Exponential.new_unchecked x) Exponential.from Exponential.params (Exponential.mkP x) /\
  agree (Cauchy.new x y) (Cauchy.new_unchecked x y) Cauchy.from Cauchy.params (Cauchy.mkP x y) /\
  agree (Logistic.new x y) (Logistic.new_unchecked x y) Logistic.from Logistic.params (Logistic.mkP x y) /\
  agree (Gumbel.new x y) (Gumbel.new_unchecked x y) Gumbel.from Gumbel.params (Gumbel.mkP x y) /\
  agree (Frechet.new x) (Frechet.new_unchecked x) Frechet.from Frechet.params (Frechet.mkP x) /\
  agree (GEV.new x y z) (GEV.new_unchecked x y z) GEV.from GEV.params (GEV.mkP x y z) /\
  agree (GPD.new x y z) (GPD.new_unchecked x y z) GPD.from GPD.params (GPD.mkP x y z) /\
  agree (Pareto.new x y) (Pareto.new_unchecked x y) Pareto.from Pareto.params (Pareto.mkP x y) /\
  agree (Arcsine.new x y) (Arcsine.new_unchecked x y) Arcsine.from Arcsine.params (Arcsine.mkP x y) /\
  agree (Cosine.new x y) (Cosine.new_unchecked x y) Cosine.from Cosine.params (Cosine.mkP x y) /\
  agree (Triangular.new x y z) (Triangular.new_unchecked x y z) Triangular.from Triangular.params (Triangular.mkP x y z) /\
  agree (Laplace.new x y) (Laplace.new_unchecked x y) Laplace.from Laplace.params (Laplace.mkP x y) /\
  agree (Rayleigh.new x) (Rayleigh.new_unchecked x) Rayleigh.from Rayleigh.params (Rayleigh.mkP x) /\
  agree (Levy.new x y) (Levy.new_unchecked x y) Levy.from Levy.params (Levy.mkP x y) /\
  agree (UniformF.new x y) (UniformF.new_unchecked x y) UniformF.from UniformF.params (UniformF.mkP x y) /\
  agree (UvNormal.new x y) (UvNormal.new_unchecked x y) UvNormal.from UvNormal.params (UvNormal.mkP x y) /\
  agree (LogNormal.new x y) (LogNormal.new_unchecked x y) LogNormal.from LogNormal.params (UvNormal.mkP x y).
Proof.
  assert (HN : agree (UvNormal.new x y) (UvNormal.new_unchecked x y) UvNormal.from UvNormal.params (UvNormal.mkP x y)).
  { intros d H. revert H. unfold UvNormal.new, UvNormal.params_new, loc_new, isotropic_new. cbn [and_then map_ok map_err].
    destruct (check Positive y) as [w|] eqn:E2; cbn [and_then map_ok map_err]; [|discriminate]. intros H; inversion H; subst.
    apply check_ok_inv in E2 as [-> _]. repeat split. }
  repeat match goal with |- _ /\ _ => split end; try exact HN; intros d H;
    try (apply map_params_inv in H as [-> _]; repeat split; fail).
  - revert H. unfold UniformF.new, UniformF.params_new, loc_new, scale_new. cbn [and_then map_ok].
    destruct (check _ y) as [w|] eqn:E2; cbn [and_then map_ok]; [|discriminate]. intros H; inversion H; subst.
    apply check_ok_inv in E2 as [-> _]. repeat split.
  - revert H. unfold LogNormal.new. destruct (UvNormal.new x y) as [n|] eqn:E; cbn [map_ok]; [|discriminate]. intros H; inversion H; subst.
    destruct (HN n eq_refl) as (-> & _ & _). repeat split.
Qed.
Print Assumptions C18_continuous.
Theorem C18_special {F} {SF : Scalar F} (x y : F) (j k : Z) :
  agree (Beta.new x y) (Beta.new_unchecked x y) Beta.from Beta.params (Beta.mkP x y) /\
  agree (Gamma.new x y) (Gamma.new_unchecked x y) Gamma.from Gamma.params (Gamma.mkP x y) /\
  agree (InvGamma.new x y) (InvGamma.new_unchecked x y) InvGamma.from InvGamma.params (InvGamma.mkP x y) /\
  agree (BetaPrime.new x y) (BetaPrime.new_unchecked x y) BetaPrime.from BetaPrime.params (BetaPrime.mkP x y) /\
  agree (Chi.new (F := F) k) (Chi.new_unchecked k) Chi.from Chi.params (Chi.mkP k) /\
  agree (ChiSq.new (F := F) k) (ChiSq.new_unchecked k) ChiSq.from ChiSq.params (ChiSq.mkP k) /\
  agree (FDist.new (F := F) j k) (FDist.new_unchecked j k) FDist.from FDist.params (FDist.mkP j k) /\
  agree (StudentT.new x) (StudentT.new_unchecked x) StudentT.from StudentT.params (StudentT.mkP x) /\
  agree (InvNormal.new x y) (InvNormal.new_unchecked x y) InvNormal.from InvNormal.params (InvNormal.mkP x y) /\
  agree (Erlang.new k y) (Erlang.new_unchecked k y) Erlang.from Erlang.params (Erlang.mkP k y) /\
  agree (FoldedNormal.new x y) (FoldedNormal.new_unchecked x y) FoldedNormal.from FoldedNormal.params (FoldedNormal.mkP x y).
Proof.
  repeat match goal with |- _ /\ _ => split end; intros d H; apply map_params_inv in H as [-> _]; repeat split.
Qed.
Print Assumptions C18_special.
(** the types with cached fields; Uniform<i64> casts its u64 width, which is lossless when accepted *)
Theorem C18_discrete {F} {SF : Scalar F} {SP : Special F} (x y : F) (p : Probability F) (v : list F) (k : Z) :
  agree (Binomial.new k p) (Binomial.new_unchecked k p) Binomial.from Binomial.params (Binomial.mkP k p) /\
  agree (Bernoulli.new x) (Bernoulli.new_unchecked x) Bernoulli.from Bernoulli.params (Bernoulli.mkP (Prob x)) /\
  agree (BetaBinomial.new k x y) (BetaBinomial.new_unchecked k x y) BetaBinomial.from BetaBinomial.params (BetaBinomial.mkP k x y) /\
  agree (Geometric.new x) (Geometric.new_unchecked x) Geometric.from Geometric.params (Geometric.mkP (Prob x)) /\
  agree (Categorical.new v) (Categorical.new_unchecked v) Categorical.from Categorical.params (Categorical.mkP v) /\
  agree (Poisson.new x) (Poisson.new_unchecked x) Poisson.from Poisson.params (Poisson.mkP x) /\
  (forall (l w : Z) d, (0 <= w <= U64_MAX)%Z -> UniformI.new (F := F) l w = Ret (Ok d) ->
     UniformI.new_unchecked l w = Ret d /\ UniformI.params d = UniformI.mkP l w /\ UniformI.from (UniformI.params d) = Ret d).
Proof.
  repeat match goal with |- _ /\ _ => split end.
  1-4,6: intros d H; apply map_params_inv in H as [-> _]; try destruct p as [p]; repeat split.
  - intros d H. revert H. unfold Categorical.new, simplex_new, simplex_try_from.
    destruct (simplex_loop _ v); cbn [and_then map_err map_ok]; [|discriminate]. destruct (fltb _ _); cbn [map_err map_ok]; [|discriminate].
    intros H; inversion H. repeat split.
  - intros l w d Hw. unfold UniformI.new, UniformI.new_unchecked, UniformI.params_new, loc_new, scale_new. cbn [and_then].
    destruct (check _ (as_i64 w)) as [u|] eqn:E; cbn [and_then]; [|discriminate]. apply check_ok_inv in E as [-> E].
    cbn in E. assert (EW : as_i64 w = w).
    { revert E. unfold as_i64, wrap_signed, U64_MAX in *. rewrite (Z.mod_small w) by lia. change (64 - 1)%Z with 63%Z.
      destruct (Z.ltb_spec w (2 ^ 63)); auto. intros E. apply Z.ltb_lt in E. lia. }
    rewrite EW. unfold UniformI.from. cbn [UniformI.width]. destruct (i64 (w + 1)) as [n| |] eqn:EN; cbn [rbind]; try discriminate.
    intros H; inversion H; subst. cbn [UniformI.params UniformI.pr UniformI.width]. rewrite EN. repeat split.
Qed.
Print Assumptions C18_discrete.
(** the hypotheses are met: the constructors do succeed *)
Example C18_nonvacuous : (exists d, Triangular.new (Fin 0) (Fin 1) (Fin 2) = Ok d) /\ (exists d, Bernoulli.new (Fin (1/4)%R) = Ok d) /\
  (exists d, InvNormal.new (Fin 1) (Fin 2) = Ok d) /\ (exists d, UniformI.new (F := xreal) (-3) 7 = Ret (Ok d)).
Proof.
  split; [eexists; unfold Triangular.new; ok_new|]. split; [eexists; unfold Bernoulli.new; ok_new|].
  split; [eexists; unfold InvNormal.new; ok_new|]. eexists. reflexivity.
Qed.
