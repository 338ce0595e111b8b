(** * Properties C102-C107: inverse normal, folded normal, normal sampling *)
From Coq Require Import Reals Lra Lia Psatz List ZArith.
From Coquelicot Require Import Coquelicot.
From Verif.Num Require Import Scalar XReal.
From Verif.Model Require Import Rust Constraints Probability Params Consts Traits Continuous Continuous2 Continuous3.
From Verif.Spec Require Import DistSpec GammaSpec ResSpec SampleSpec.
From Verif.Proofs Require Import ConstraintProofs NewInv XTac Calc Calc2 Gauss Gauss2 Improper GammaFun Subst Mellin Unique Oracle
  ContProofs9 ContProofs14 ContProofs16 ContProofs22 ContProofs23 ContProofs24 ContProofs25.
Import ListNotations.
Open Scope R_scope.
Notation cdfx cdf d := (fun x => unwrap (cdf d x)).

(** C102 *)
Theorem C102_inverse_normal (m l : R) (d : InvNormal.t xreal) : InvNormal.new (Fin m) (Fin l) = Ok d ->
  0 < m /\ 0 < l /\ InvNormal.support d = PositiveReals /\
  (forall x, 0 < x -> exists v, InvNormal.pdf d (Fin x) = Fin v /\ 0 < v) /\
  is_RInt_gen (rf (InvNormal.pdf d)) (above 0) (below p_infty) 1 /\
  returns (InvNormal.mean d) (fun a => is_mean 0 p_infty (InvNormal.pdf d) a /\
    returns (InvNormal.variance d) (is_variance 0 p_infty (InvNormal.pdf d) a)) /\
  returns (InvNormal.skewness d) (is_skewness 0 p_infty (InvNormal.pdf d)) /\
  InvNormal.modes d <> [] /\ all_return (InvNormal.modes d) (is_mode 0 p_infty (InvNormal.pdf d)).
Proof.
  intros H. unfold InvNormal.new in H. inv_new H. change (InvNormal.mk _ _) with (InvNormal.new_unchecked (Fin m) (Fin l)).
  split; [auto|]. split; [auto|]. split; [reflexivity|]. split. { intros x Hx. exists (in_u m l x). split; [apply in_pdf; auto; now apply in0|now apply in_u_pos]. }
  split; [now apply in_total|]. assert (V := in_var m l HP HP0).
  split. { exists m. split; [reflexivity|]. split; [now apply in_mean|]. eexists. split; [|now apply in_variance]. unfold InvNormal.variance. cbn [InvNormal.pr InvNormal.mu InvNormal.lambda InvNormal.new_unchecked]. xs. reflexivity. }
  split. { eexists. split; [|now apply in_skewness]. assert (0 < m / l) by pos. unfold InvNormal.skewness. cbn [InvNormal.pr InvNormal.mu InvNormal.lambda InvNormal.new_unchecked]. xs. reflexivity. }
  destruct (in_modes m l HP HP0) as [E M]. rewrite E. split; [discriminate|]. intros x [<-|[]]. eexists; split; [reflexivity|exact M].
Qed.
Print Assumptions C102_inverse_normal.
Example C102_nonvacuous : exists d, InvNormal.new (Fin 2) (Fin 3) = Ok d. Proof. eexists. unfold InvNormal.new. ok_new. Qed.

(** C103: the two-draw sampler.  [nu] standard normal, [z] uniform on (0,1): the
    sample is one of the two roots of l(t-m)^2/(m^2 t) = nu^2, each with the
    probability that makes the change of variables give the density. *)
Theorem C103_inverse_normal_sample (m l : R) (d : InvNormal.t xreal) : InvNormal.new (Fin m) (Fin l) = Ok d ->
  let y t := l * ((t - m) * (t - m)) / (m * m * t) in
  (forall nu z, exists t, 0 < t /\ nu * nu = y t /\ InvNormal.sample_of_draws d (Fin nu) (Fin z) = Fin t) /\
  (forall t nu z, 0 < t -> t <> m -> nu * nu = y t ->
    (InvNormal.sample_of_draws d (Fin nu) (Fin z) = Fin t <-> (t < m /\ z < m / (m + t)) \/ (m < t /\ 1 - m / (m + t) <= z))) /\
  (forall t, 0 < t -> t <> m -> exists dy, is_derive y t dy /\ 0 < y t /\
    (* chi-squared(1) density of nu^2 at y(t), times |y'(t)|, times the probability of picking this root *)
    InvNormal.pdf d (Fin t) = Fin (exp (- (y t / 2)) / sqrt (2 * PI * y t) * Rabs dy * (m / (m + t)))).
Proof.
  intros H. unfold InvNormal.new in H. inv_new H. change (InvNormal.mk _ _) with (InvNormal.new_unchecked (Fin m) (Fin l)). intros y.
  split; [intros; now apply in_sample_ex|]. split; [intros; now apply in_sample|]. intros t Ht Hne. destruct (in_sample_density m l HP HP0 t Ht Hne) as (dy & D & P & E). exists dy. split; [exact D|]. split; [exact P|].
  rewrite E. assert (Q := PI_RGT_0). do 2 f_equal. f_equal. unfold phi. fold (y t). change (in_y m l t) with (y t) in *. rewrite sqrt_sqrt by lra. rewrite (sqrt_mult (2 * PI) (y t)) by lra. assert (0 < sqrt (y t)) by pos. assert (K := sqrt2PI_pos). field. lra.
Qed.
Print Assumptions C103_inverse_normal_sample.
Example C103_nonvacuous : exists d, InvNormal.new (Fin 2) (Fin 3) = Ok d. Proof. eexists. unfold InvNormal.new. ok_new. Qed.

(** C104: for no parameters is [cdf] a distribution function, the kurtosis right, or the entropy right *)
Theorem C104_inverse_normal_cdf_refuted (SP : Special xreal) (m l : R) (d : InvNormal.t xreal) :
  (forall x, sf_norm (Fin x) = Fin (Phi x)) -> InvNormal.new (Fin m) (Fin l) = Ok d ->
  ~ is_cdf 0 p_infty (cdfx InvNormal.cdf d).
Proof. intros Hn H. unfold InvNormal.new in H. inv_new H. change (InvNormal.mk _ _) with (InvNormal.new_unchecked (Fin m) (Fin l)). now apply in_not_cdf. Qed.
Print Assumptions C104_inverse_normal_cdf_refuted.
Theorem C104_inverse_normal_moments_refuted (m l : R) (d : InvNormal.t xreal) : InvNormal.new (Fin m) (Fin l) = Ok d ->
  (exists e, InvNormal.excess_kurtosis d = Fin e /\ ~ is_kurtosis 0 p_infty (InvNormal.pdf d) (3 + e)) /\
  (exists e, InvNormal.shannon_entropy d = Fin e /\ ~ is_entropy 0 p_infty (InvNormal.pdf d) e).
Proof.
  intros H. unfold InvNormal.new in H. inv_new H. change (InvNormal.mk _ _) with (InvNormal.new_unchecked (Fin m) (Fin l)). split; [|now apply in_entropy].
  exists (16 * m / l). split. { unfold InvNormal.excess_kurtosis. cbn [InvNormal.pr InvNormal.mu InvNormal.lambda InvNormal.new_unchecked]. xs. reflexivity. }
  intros K. assert (E := kurtosis_unique _ _ _ _ _ K (in_kurtosis m l HP HP0)). assert (0 < m / l) by pos. assert (16 * m / l = 16 * (m / l)) by (field; lra). assert (15 * m / l = 15 * (m / l)) by (field; lra). lra.
Qed.
Print Assumptions C104_inverse_normal_moments_refuted.
Example C104_nonvacuous : (forall x, sf_norm (Special := exact false) (Fin x) = Fin (Phi x)) /\ exists d, InvNormal.new (Fin 2) (Fin 3) = Ok d.
Proof. split; [reflexivity|]. eexists. unfold InvNormal.new. ok_new. Qed.

(** C105 *)
Theorem C105_folded_normal (SP : Special xreal) (m s : R) (d : FoldedNormal.t xreal) : erf_exact SP ->
  FoldedNormal.new (Fin m) (Fin s) = Ok d ->
  FoldedNormal.support d = NonNegativeReals /\
  coherent 0 p_infty (cdfx FoldedNormal.cdf d) (FoldedNormal.pdf d) /\
  returns (FoldedNormal.mean d) (fun a => is_mean 0 p_infty (FoldedNormal.pdf d) a /\
    returns (FoldedNormal.variance d) (is_variance 0 p_infty (FoldedNormal.pdf d) a)) /\
  (forall RG : Rng xreal xreal, normal_sampler RG m s ->
    samples_interval 0 p_infty (cdfx FoldedNormal.cdf d) (fun u => fst (FoldedNormal.sample d u))).
Proof.
  intros He H. unfold FoldedNormal.new in H. inv_new H. change (FoldedNormal.mk _) with (FoldedNormal.new_unchecked (Fin m) (Fin s)).
  split; [reflexivity|]. split; [now apply fn_coherent|]. split.
  - eexists. split; [now apply fn_mean_val|]. split; [now apply fn_is_mean|]. eexists. split; [now apply fn_var_val|now apply fn_is_variance].
  - intros RG HR. now apply fn_sample.
Qed.
Print Assumptions C105_folded_normal.
Example C105_nonvacuous : erf_exact (exact false) /\ normal_sampler inv_rng 1 2 /\ exists d, FoldedNormal.new (Fin 1) (Fin 2) = Ok d.
Proof. split; [apply ex_erf|]. split; [apply inv_rng_normal; lra|]. eexists. unfold FoldedNormal.new. ok_new. Qed.

(** C106: the mode is right exactly for -sigma <= mu < sigma *)
Theorem C106_folded_normal_modes_partial (m s : R) (d : FoldedNormal.t xreal) :
  FoldedNormal.new (Fin m) (Fin s) = Ok d -> - s <= m < s ->
  FoldedNormal.modes d = [Fin 0] /\ is_mode 0 p_infty (FoldedNormal.pdf d) 0.
Proof.
  intros H Hm. unfold FoldedNormal.new in H. inv_new H. change (FoldedNormal.mk _) with (FoldedNormal.new_unchecked (Fin m) (Fin s)). split.
  - unfold FoldedNormal.modes. cbn [FoldedNormal.pr FoldedNormal.mu FoldedNormal.sigma FoldedNormal.new_unchecked]. xs. destruct (Rltb_spec m s); [reflexivity|lra].
  - apply fn_mode0; auto. unfold Rabs. destruct (Rcase_abs m); lra.
Qed.
Print Assumptions C106_folded_normal_modes_partial.
Theorem C106_folded_normal_modes_refuted (m s : R) (d : FoldedNormal.t xreal) :
  FoldedNormal.new (Fin m) (Fin s) = Ok d -> m < - s \/ s <= m ->
  exists x, FoldedNormal.modes d = [Fin x] /\ ~ is_mode 0 p_infty (FoldedNormal.pdf d) x.
Proof.
  intros H Hm. unfold FoldedNormal.new in H. inv_new H. change (FoldedNormal.mk _) with (FoldedNormal.new_unchecked (Fin m) (Fin s)).
  unfold FoldedNormal.modes. cbn [FoldedNormal.pr FoldedNormal.mu FoldedNormal.sigma FoldedNormal.new_unchecked]. xs. destruct Hm as [Hm|Hm].
  - exists 0. split; [destruct (Rltb_spec m s); [reflexivity|lra]|]. apply fn_mode0_bad; auto. unfold Rabs. destruct (Rcase_abs m); lra.
  - exists m. split; [destruct (Rltb_spec m s); [lra|reflexivity]|]. apply fn_mode_mu; auto. lra.
Qed.
Print Assumptions C106_folded_normal_modes_refuted.
Example C106_nonvacuous : exists d d', FoldedNormal.new (Fin 1) (Fin 2) = Ok d /\ FoldedNormal.new (Fin 2) (Fin 1) = Ok d'.
Proof. eexists _, _. split; unfold FoldedNormal.new; ok_new. Qed.

(** C107 *)
Theorem C107_normal_sample (SP : Special xreal) (RG : Rng xreal xreal) (m v : R) (d : UvNormal.t xreal) :
  (forall x, sf_norm (Fin x) = Fin (Phi x)) -> UvNormal.new (Fin m) (Fin v) = Ok d -> normal_sampler RG m (sqrt v) ->
  samples_from m_infty p_infty (cdfx UvNormal.cdf d) (fun u => fst (UvNormal.sample d u)).
Proof. intros Hn H HR. apply uvn_new_inv in H as [Hv ->]. now apply un_sample. Qed.
Print Assumptions C107_normal_sample.
Example C107_nonvacuous : (forall x, sf_norm (Special := exact false) (Fin x) = Fin (Phi x)) /\ (exists d, UvNormal.new (Fin 1) (Fin 2) = Ok d) /\ normal_sampler inv_rng 1 (sqrt 2).
Proof. split; [reflexivity|]. split; [eexists; apply uvn_new_ok; lra|]. apply inv_rng_normal. apply sqrt_lt_R0. lra. Qed.
