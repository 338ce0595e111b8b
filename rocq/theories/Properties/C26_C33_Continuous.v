(** * Properties C26, C30-C33: Uniform<f64>, Exponential, Cauchy, Logistic

    All values are exact (extended reals, Num/XReal.v); the vocabulary
    ([coherent], [is_mean], [is_mode], ...) is Spec/DistSpec.v. *)
From Coq Require Import Reals Lra Lia Psatz List.
From Coquelicot Require Import Coquelicot.
From Verif.Num Require Import XReal.
From Verif.Model Require Import Rust Constraints Probability Params Consts Continuous.
From Verif.Spec Require Import DistSpec.
From Verif.Proofs Require Import ConstraintProofs NewInv XTac Calc ContProofs1 ContProofs2.
Open Scope R_scope.
Notation cdfx cdf d := (fun x => unwrap (cdf d x)).

(** C26: for every lower bound and every width accepted by Uniform::new *)
Theorem C26_uniform_f64 (a w : R) (d : UniformF.t xreal) :
  UniformF.new (Fin a) (Fin w) = Ok d ->
  0 < w /\
  UniformF.support d = Closed (Fin a) (Fin (a + w)) /\
  coherent a (a + w) (cdfx UniformF.cdf d) (UniformF.pdf d) /\
  (forall x, x < a -> unwrap (UniformF.cdf d (Fin x)) = Fin 0 /\ UniformF.pdf d (Fin x) = Fin 0) /\
  (forall x, a + w < x -> unwrap (UniformF.cdf d (Fin x)) = Fin 1 /\ UniformF.pdf d (Fin x) = Fin 0) /\
  inverts a (a + w) (cdfx UniformF.cdf d) (fun p => UniformF.quantile d (Prob p)) /\
  UniformF.quantile d (Prob (Fin 0)) = Fin a /\ UniformF.quantile d (Prob (Fin 1)) = Fin (a + w) /\
  returns (UniformF.median d) (is_median (cdfx UniformF.cdf d)) /\
  returns (UniformF.mean d) (fun m => returns (UniformF.variance d) (is_variance a (a + w) (UniformF.pdf d) m)) /\
  returns (UniformF.skewness d) (is_skewness a (a + w) (UniformF.pdf d)) /\
  returns (UniformF.kurtosis d) (is_kurtosis a (a + w) (UniformF.pdf d)) /\
  returns (UniformF.excess_kurtosis d) (fun k => is_kurtosis a (a + w) (UniformF.pdf d) (k + 3)) /\
  returns (UniformF.shannon_entropy d) (is_entropy a (a + w) (UniformF.pdf d)).
Proof.
  intros H. apply uniform_new_inv in H as [Hw ->].
  split; [auto|]. split; [reflexivity|]. split; [now apply u_coherent|].
  split; [intros x Hx; split; [now apply u_cdf_lo|apply u_pdf_out; auto]|].
  split; [intros x Hx; split; [apply u_cdf_hi; lra|apply u_pdf_out; auto]|].
  split; [now apply u_inverts|].
  split; [rewrite u_quantile; f_equal; ring|]. split; [rewrite u_quantile; f_equal; ring|].
  split; [exists (a + w / 2); split; [unfold UniformF.median; cbn [UniformF.pr UniformF.new_unchecked UniformF.from UniformF.lb UniformF.width]; now xs|now apply u_median]|].
  split; [exists (a + w / 2); split; [unfold UniformF.mean; cbn [UniformF.pr UniformF.new_unchecked UniformF.from UniformF.lb UniformF.width]; now xs|]|].
  { exists (w * w / 12); split; [unfold UniformF.variance; cbn [UniformF.pr UniformF.new_unchecked UniformF.from UniformF.lb UniformF.width]; now xs|now apply u_variance]. }
  split; [exists 0; split; [reflexivity|now apply u_skew]|].
  split; [exists (9 / 5); split; [unfold UniformF.kurtosis, NINE_FIFTHS; now xs|now apply u_kurt]|].
  split; [exists (- (6 / 5)); split; [unfold UniformF.excess_kurtosis, SIX_FIFTHS; now xs|]|].
  { replace (- (6 / 5) + 3) with (9 / 5) by lra. now apply u_kurt. }
  exists (ln w); split; [unfold UniformF.shannon_entropy; cbn [UniformF.pr UniformF.new_unchecked UniformF.from UniformF.lb UniformF.width]; now xs|now apply u_entropy].
Qed.
Print Assumptions C26_uniform_f64.
Example C26_nonvacuous : exists d, UniformF.new (Fin (-3)) (Fin 7) = Ok d.
Proof.
  eexists. apply uniform_new_ok. lra.
Qed.

(** C30 *)
Theorem C30_exponential (l : R) (d : Exponential.t xreal) :
  Exponential.new (Fin l) = Ok d ->
  0 < l /\
  coherent 0 p_infty (cdfx Exponential.cdf d) (Exponential.pdf d) /\
  returns (Exponential.median d) (is_median (cdfx Exponential.cdf d)) /\
  all_return (Exponential.modes d) (is_mode 0 p_infty (Exponential.pdf d)) /\ Exponential.modes d <> [] /\
  returns (Exponential.mean d) (fun m => returns (Exponential.variance d) (is_variance 0 p_infty (Exponential.pdf d) m)) /\
  returns (Exponential.skewness d) (is_skewness 0 p_infty (Exponential.pdf d)) /\
  returns (Exponential.excess_kurtosis d) (fun k => is_kurtosis 0 p_infty (Exponential.pdf d) (k + 3)) /\
  returns (Exponential.shannon_entropy d) (is_entropy 0 p_infty (Exponential.pdf d)) /\
  (* memoryless: P(X > s+t) = P(X > s) P(X > t) *)
  (forall s t, 0 <= s -> 0 <= t ->
    1 - rf (cdfx Exponential.cdf d) (s + t) = (1 - rf (cdfx Exponential.cdf d) s) * (1 - rf (cdfx Exponential.cdf d) t)).
Proof.
  intros H. unfold Exponential.new in H. inv_new H.
  change (Exponential.mk _) with (Exponential.new_unchecked (Fin l)).
  split; [auto|]. split; [now apply e_coherent|].
  split; [exists (ln 2 / l); split; [now apply e_median|now apply e_median_cdf]|].
  split; [intros x [<-|[]]; exists 0; split; [reflexivity|now apply e_mode]|]. split; [discriminate|].
  split; [exists (1 / l); split; [unfold Exponential.mean, Exponential.lam; cbn [Exponential.pr Exponential.new_unchecked Exponential.lambda]; now xs|]|].
  { exists (1 / l / l); split; [unfold Exponential.variance, Exponential.lam; cbn [Exponential.pr Exponential.new_unchecked Exponential.lambda]; now xs|now apply e_variance]. }
  split; [exists 2; split; [reflexivity|now apply e_skew]|].
  split; [exists 6; split; [reflexivity|replace (6 + 3) with 9 by lra; now apply e_kurt]|].
  split; [exists (1 - ln l); split; [unfold Exponential.shannon_entropy, Exponential.lam; cbn [Exponential.pr Exponential.new_unchecked Exponential.lambda]; now xs|now apply e_entropy]|].
  intros s t Hs Ht. apply e_memoryless; auto.
Qed.
Print Assumptions C30_exponential.
Example C30_nonvacuous : exists d, Exponential.new (Fin 2) = Ok d.
Proof. eexists. unfold Exponential.new. ok_new. Qed.

(** C31: quantile inverts cdf, for Uniform and Cauchy (Normal: see C44). *)
Theorem C31_quantile_inverts_partial :
  (forall a w d, UniformF.new (Fin a) (Fin w) = Ok d ->
     inverts a (a + w) (cdfx UniformF.cdf d) (fun p => UniformF.quantile d (Prob p))) /\
  (forall m g d, Cauchy.new (Fin m) (Fin g) = Ok d ->
     inverts m_infty p_infty (cdfx Cauchy.cdf d) (fun p => Cauchy.quantile d (Prob p))).
Proof.
  split.
  - intros a w d H. now apply C26_uniform_f64 in H.
  - intros m g d H. unfold Cauchy.new in H. inv_new H. change (Cauchy.mk _) with (Cauchy.new_unchecked (Fin m) (Fin g)). now apply c_inverts.
Qed.
Print Assumptions C31_quantile_inverts_partial.
(** ... and Exponential::quantile does not, for any rate and any probability:
    it returns a negative number. *)
Theorem C31_exponential_refuted (l p : R) (d : Exponential.t xreal) :
  Exponential.new (Fin l) = Ok d -> 0 < p < 1 ->
  exists x, Exponential.quantile d (Prob (Fin p)) = Fin x /\ x < 0 /\
    unwrap (Exponential.cdf d (Fin x)) <> Fin p.
Proof.
  intros H Hp. unfold Exponential.new in H. inv_new H.
  exists (- (1 - p) / l).
  assert (Hx : - (1 - p) / l < 0). { unfold Rdiv. assert (0 < / l) by pos. nra. }
  split; [|split; [exact Hx|]].
  - unfold Exponential.quantile, p_not, p_new_unchecked, Exponential.lam; cbn [unwrap Exponential.pr Exponential.lambda]. xs. cbn [unwrap]. xs. reflexivity.
  - intros E. assert (E2 := e_cdf l (- (1 - p) / l)). assert (E3 := eq_trans (eq_sym E2) E). apply Fin_inj in E3.
    assert (1 < exp (- (l * (- (1 - p) / l)))); [|lra].
    replace (- (l * (- (1 - p) / l))) with (1 - p) by (field; lra). generalize (exp_ineq1 (1 - p) ltac:(lra)). lra.
Qed.
Print Assumptions C31_exponential_refuted.

(** C32 *)
Theorem C32_cauchy (m g : R) (d : Cauchy.t xreal) :
  Cauchy.new (Fin m) (Fin g) = Ok d ->
  0 < g /\ Cauchy.support d = Reals /\
  coherent m_infty p_infty (cdfx Cauchy.cdf d) (Cauchy.pdf d) /\
  inverts m_infty p_infty (cdfx Cauchy.cdf d) (fun p => Cauchy.quantile d (Prob p)) /\
  (forall x, Cauchy.quantile d (Cauchy.cdf d (Fin x)) = Fin x) /\
  returns (Cauchy.median d) (is_median (cdfx Cauchy.cdf d)) /\
  all_return (Cauchy.modes d) (is_mode m_infty p_infty (Cauchy.pdf d)) /\ Cauchy.modes d <> [] /\
  (* the density is half its maximum at distance fwhm/2 on either side of the mode *)
  (exists h, Cauchy.fwhm d = Fin h /\ 0 < h /\
     rf (Cauchy.pdf d) (m - h / 2) = rf (Cauchy.pdf d) m / 2 /\ rf (Cauchy.pdf d) (m + h / 2) = rf (Cauchy.pdf d) m / 2).
Proof.
  intros H. unfold Cauchy.new in H. inv_new H. change (Cauchy.mk _) with (Cauchy.new_unchecked (Fin m) (Fin g)).
  split; [auto|]. split; [reflexivity|]. split; [now apply c_coherent|]. split; [now apply c_inverts|].
  split; [intros x; generalize (c_inverts' m g ltac:(auto) x); destruct (Cauchy.cdf _ _); auto|].
  split; [exists m; split; [reflexivity|now apply c_median]|].
  split; [intros x [<-|[]]; exists m; split; [reflexivity|now apply c_mode]|]. split; [discriminate|].
  destruct (c_fwhm m g ltac:(auto)) as [E [H1 H2]]. exists (2 * g). repeat split; auto; lra.
Qed.
Print Assumptions C32_cauchy.
Example C32_nonvacuous : exists d, Cauchy.new (Fin (-1)) (Fin (1/2)) = Ok d.
Proof. eexists. unfold Cauchy.new. ok_new. Qed.

(** C33 *)
Theorem C33_logistic (m g : R) (d : Logistic.t xreal) :
  Logistic.new (Fin m) (Fin g) = Ok d ->
  0 < g /\ Logistic.support d = Reals /\
  coherent m_infty p_infty (cdfx Logistic.cdf d) (Logistic.pdf d) /\
  (forall t, rf (cdfx Logistic.cdf d) (m + t) + rf (cdfx Logistic.cdf d) (m - t) = 1) /\
  returns (Logistic.median d) (is_median (cdfx Logistic.cdf d)) /\
  all_return (Logistic.modes d) (is_mode m_infty p_infty (Logistic.pdf d)) /\ Logistic.modes d <> [] /\
  returns (Logistic.mean d) (is_mean m_infty p_infty (Logistic.pdf d)) /\
  returns (Logistic.shannon_entropy d) (is_entropy m_infty p_infty (Logistic.pdf d)).
Proof.
  intros H. unfold Logistic.new in H. inv_new H. change (Logistic.mk _) with (Logistic.new_unchecked (Fin m) (Fin g)).
  split; [auto|]. split; [reflexivity|]. split; [now apply l_coherent|]. split; [intros; now apply l_symmetric|].
  split; [exists m; split; [reflexivity|now apply l_median]|].
  split; [intros x [<-|[]]; exists m; split; [reflexivity|now apply l_mode]|]. split; [discriminate|].
  split; [exists m; split; [reflexivity|now apply l_mean]|].
  exists (ln g + 2); split; [|now apply l_entropy].
  unfold Logistic.shannon_entropy; cbn [Logistic.pr Logistic.s Logistic.new_unchecked]. now xs.
Qed.
Print Assumptions C33_logistic.
Example C33_nonvacuous : exists d, Logistic.new (Fin 4) (Fin 3) = Ok d.
Proof. eexists. unfold Logistic.new. ok_new. Qed.
