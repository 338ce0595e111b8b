(** * Properties C110-C112: moments and entropies of Weibull, Frechet, GEV *)
From Coq Require Import Reals Lra Lia Psatz List ZArith.
From Coquelicot Require Import Coquelicot.
From Verif.Num Require Import Scalar XReal.
From Verif.Model Require Import Rust Constraints Probability Params Consts Traits Continuous.
From Verif.Spec Require Import DistSpec GammaSpec ResSpec.
From Verif.Proofs Require Import ConstraintProofs NewInv XTac Calc Calc2 Improper GammaFun Subst Mellin HeavyTail Unique Oracle
  ContProofs11 ContProofs27 ContProofs28.
Import ListNotations.
Open Scope R_scope.

(** C110 *)
Theorem C110_weibull (SP : Special xreal) (l k : R) (p : Weibull.Params xreal) :
  gamma_exact SP -> digamma_exact SP -> Weibull.p_new (Fin l) (Fin k) = Ok p ->
  let d := Weibull.from p in
  returns (Weibull.mean d) (fun m => is_mean 0 p_infty (Weibull.pdf d) m /\
    returns (Weibull.variance d) (is_variance 0 p_infty (Weibull.pdf d) m)) /\
  returns (Weibull.skewness d) (is_skewness 0 p_infty (Weibull.pdf d)) /\
  returns (Weibull.excess_kurtosis d) (fun e => is_kurtosis 0 p_infty (Weibull.pdf d) (e + 3)) /\
  returns (Weibull.shannon_entropy d) (is_entropy 0 p_infty (Weibull.pdf d)).
Proof.
  intros Hg Hd H. unfold Weibull.p_new in H. inv_new H. cbv zeta.
  split; [eexists; split; [now apply w_mean_val|split; [now apply w_mean|eexists; split; [now apply w_var_val|now apply w_variance]]]|].
  split; [eexists; split; [now apply w_sk_val|now apply w_skewness]|].
  split; [eexists; split; [now apply w_ek_val|now apply w_kurtosis]|].
  eexists; split; [now apply w_ent_val|now apply w_entropy].
Qed.
Print Assumptions C110_weibull.
Example C110_nonvacuous : gamma_exact (exact false) /\ digamma_exact (exact false) /\ exists p, Weibull.p_new (Fin 2) (Fin (1/3)) = Ok p.
Proof. split; [apply ex_gamma|]. split; [apply ex_psi|]. eexists. unfold Weibull.p_new. ok_new. Qed.

(** C111: a finite moment is returned exactly when it exists *)
Theorem C111_frechet (SP : Special xreal) (a : R) (d : Frechet.t xreal) :
  gamma_exact SP -> digamma_exact SP -> Frechet.new (Fin a) = Ok d ->
  finite_iff_exists (Frechet.mean d) (is_mean 0 p_infty (Frechet.pdf d)) /\
  finite_iff_exists (Frechet.variance d) (fun v => exists m, is_variance 0 p_infty (Frechet.pdf d) m v) /\
  finite_iff_exists (Frechet.skewness d) (is_skewness 0 p_infty (Frechet.pdf d)) /\
  finite_iff_exists (Frechet.excess_kurtosis d) (fun e => is_kurtosis 0 p_infty (Frechet.pdf d) (e + 3)) /\
  returns (Frechet.shannon_entropy d) (is_entropy 0 p_infty (Frechet.pdf d)).
Proof.
  intros Hg Hd H. unfold Frechet.new in H. inv_new H. change (Frechet.mk _) with (Frechet.new_unchecked (Fin a)).
  split; [|split; [|split; [|split]]].
  - destruct (Rlt_le_dec 1 a) as [L|L].
    + left. eexists; split; [now apply f_mean_val|now apply f_mean].
    + right. split; [now apply f_mean_inf|]. intros [v V]. revert V. now apply f_no_mean.
  - destruct (Rlt_le_dec 2 a) as [L|L].
    + left. eexists; split; [now apply f_var_val|eexists; now apply f_variance].
    + right. split; [now apply f_var_inf|]. intros [v [m V]]. revert V. now apply f_no_variance.
  - destruct (Rlt_le_dec 3 a) as [L|L].
    + left. eexists; split; [now apply f_sk_val|now apply f_skewness].
    + right. split; [now apply f_sk_inf|]. intros [v V]. revert V. now apply f_no_skewness.
  - destruct (Rlt_le_dec 4 a) as [L|L].
    + left. eexists; split; [now apply f_ek_val|now apply f_kurtosis].
    + right. split; [now apply f_ek_inf|]. intros [v V]. revert V. now apply f_no_kurtosis.
  - eexists; split; [now apply f_ent_val|now apply f_entropy].
Qed.
Print Assumptions C111_frechet.
Example C111_nonvacuous : gamma_exact (exact false) /\ digamma_exact (exact false) /\
  exists d, Frechet.new (Fin (5/2)) = Ok d /\ Frechet.skewness (SP := exact false) d = PInf /\ exists v, Frechet.variance (SP := exact false) d = Fin v.
Proof.
  split; [apply ex_gamma|]. split; [apply ex_psi|]. exists (Frechet.new_unchecked (Fin (5/2))). split; [unfold Frechet.new; etransitivity; [ok_new|reflexivity]|].
  split; [apply f_sk_inf; lra|]. eexists. apply f_var_val; [lra|apply ex_gamma|lra].
Qed.

(** C112: the moments of the GEV law of shape zeta >= 1e-7 (for smaller shapes C36 shows that the pdf and the cdf disagree) *)
Theorem C112_gev_partial (SP : Special xreal) (m g z : R) (d : GEV.t xreal) :
  gamma_exact SP -> digamma_exact SP -> GEV.new (Fin m) (Fin g) (Fin z) = Ok d -> / 10000000 <= z ->
  finite_iff_exists (GEV.mean d) (is_mean (m - g / z) p_infty (GEV.pdf d)) /\
  finite_iff_exists (GEV.variance d) (fun v => exists mu, is_variance (m - g / z) p_infty (GEV.pdf d) mu v) /\
  finite_iff_exists (GEV.skewness d) (is_skewness (m - g / z) p_infty (GEV.pdf d)) /\
  finite_iff_exists (GEV.excess_kurtosis d) (fun e => is_kurtosis (m - g / z) p_infty (GEV.pdf d) (e + 3)) /\
  returns (GEV.shannon_entropy d) (is_entropy (m - g / z) p_infty (GEV.pdf d)).
Proof.
  intros Hg Hd H Hz. unfold GEV.new in H. inv_new H. change (GEV.mk _) with (GEV.new_unchecked (Fin m) (Fin g) (Fin z)).
  split; [|split; [|split; [|split]]].
  - destruct (Rlt_le_dec z 1) as [L|L].
    + left. eexists; split; [now apply gev_mean_val|now apply gev_mean].
    + right. split; [now apply gev_mean_inf|]. intros [v V]. revert V. now apply gev_no_mean.
  - destruct (Rlt_le_dec z (1 / 2)) as [L|L].
    + left. eexists; split; [now apply gev_var_val|eexists; now apply gev_variance].
    + right. split; [now apply gev_var_inf|]. intros [v [mu V]]. revert V. now apply gev_no_variance.
  - destruct (Rlt_le_dec z (1 / 3)) as [L|L].
    + left. eexists; split; [now apply gev_sk_val|now apply gev_skewness].
    + right. split; [now apply gev_sk_inf|]. intros [v V]. revert V. now apply gev_no_skewness.
  - destruct (Rlt_le_dec z (1 / 4)) as [L|L].
    + left. eexists; split; [now apply gev_ek_val|now apply gev_kurtosis].
    + right. split; [now apply gev_ek_inf|]. intros [v V]. revert V. now apply gev_no_kurtosis.
  - eexists; split; [now apply gev_ent_val|now apply gev_entropy].
Qed.
Print Assumptions C112_gev_partial.
Example C112_nonvacuous : gamma_exact (exact false) /\ digamma_exact (exact false) /\
  exists d, GEV.new (Fin 1) (Fin 2) (Fin (2/5)) = Ok d /\ GEV.skewness (SP := exact false) d = PInf /\ exists v, GEV.variance (SP := exact false) d = Fin v.
Proof.
  split; [apply ex_gamma|]. split; [apply ex_psi|]. exists (GEV.new_unchecked (Fin 1) (Fin 2) (Fin (2/5))). split; [unfold GEV.new; etransitivity; [ok_new|reflexivity]|].
  split; [apply gev_sk_inf; lra|]. eexists. apply gev_var_val; first [apply ex_gamma | lra].
Qed.
