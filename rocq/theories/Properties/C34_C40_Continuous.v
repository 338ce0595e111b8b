(** * Properties C34-C40: Gumbel, Frechet, GEV, GPD, Kumaraswamy, Pareto, Weibull *)
From Coq Require Import Reals Lra Lia Psatz List.
From Coquelicot Require Import Coquelicot.
From Verif.Num Require Import XReal.
From Verif.Model Require Import Rust Constraints Probability Params Consts Continuous.
From Verif.Spec Require Import DistSpec.
From Verif.Proofs Require Import ConstraintProofs NewInv XTac Calc ContProofs2 ContProofs3 ContProofs4.
Open Scope R_scope.
Notation cdfx cdf d := (fun x => unwrap (cdf d x)).

(** C34 *)
Theorem C34_gumbel (m g : R) (d : Gumbel.t xreal) :
  Gumbel.new (Fin m) (Fin g) = Ok d ->
  0 < g /\ Gumbel.support d = Reals /\
  coherent m_infty p_infty (cdfx Gumbel.cdf d) (Gumbel.pdf d) /\
  returns (Gumbel.median d) (is_median (cdfx Gumbel.cdf d)) /\
  all_return (Gumbel.modes d) (is_mode m_infty p_infty (Gumbel.pdf d)) /\ Gumbel.modes d <> [].
Proof.
  intros H. unfold Gumbel.new in H. inv_new H. change (Gumbel.mk _) with (Gumbel.new_unchecked (Fin m) (Fin g)).
  split; [auto|]. split; [reflexivity|]. split; [now apply g_coherent|].
  split; [eexists; split; [now apply g_median|now apply g_median_cdf]|].
  split; [intros x [<-|[]]; exists m; split; [reflexivity|now apply g_mode]|discriminate].
Qed.
Print Assumptions C34_gumbel.
Example C34_nonvacuous : exists d, Gumbel.new (Fin 4) (Fin 3) = Ok d.
Proof. eexists. unfold Gumbel.new. ok_new. Qed.

(** C35 *)
Theorem C35_frechet_partial (a : R) (d : Frechet.t xreal) :
  Frechet.new (Fin a) = Ok d ->
  0 < a /\ Frechet.support d = PositiveReals /\
  coherent 0 p_infty (cdfx Frechet.cdf d) (Frechet.pdf d) /\
  returns (Frechet.median d) (is_median (cdfx Frechet.cdf d)) /\
  all_return (Frechet.modes d) (is_mode 0 p_infty (Frechet.pdf d)) /\ Frechet.modes d <> [].
Proof.
  intros H. unfold Frechet.new in H. inv_new H. change (Frechet.mk _) with (Frechet.new_unchecked (Fin a)).
  split; [auto|]. split; [reflexivity|]. split; [now apply f_coherent|].
  split; [eexists; split; [now apply f_median|now apply f_median_cdf]|].
  destruct (f_mode a ltac:(auto)) as [-> Hm]. split; [intros x [<-|[]]; eexists; split; [reflexivity|exact Hm]|discriminate].
Qed.
Print Assumptions C35_frechet_partial.
(** what is missing: sampling.  For every alpha the sampler does not have the
    distribution function [cdf] (the exponent's sign is wrong). *)
Theorem C35_sampling_refuted (a : R) (d : Frechet.t xreal) :
  Frechet.new (Fin a) = Ok d -> ~ samples_from 0 p_infty (cdfx Frechet.cdf d) (Frechet.sample_of_draw d).
Proof.
  intros H. unfold Frechet.new in H. inv_new H. change (Frechet.mk _) with (Frechet.new_unchecked (Fin a)). now apply f_sample_wrong.
Qed.
Print Assumptions C35_sampling_refuted.
Example C35_nonvacuous : exists d, Frechet.new (Fin 3) = Ok d.
Proof. eexists. unfold Frechet.new. ok_new. Qed.

(** C36: holds for zeta >= 1e-7 on the region 1 + zeta z > 0 ... *)
Theorem C36_gev_partial (m g z : R) (d : GEV.t xreal) :
  GEV.new (Fin m) (Fin g) (Fin z) = Ok d -> / 10000000 <= z ->
  0 < g /\
  coherent (m - g / z) p_infty (cdfx GEV.cdf d) (GEV.pdf d) /\
  returns (GEV.median d) (is_median (cdfx GEV.cdf d)) /\
  all_return (GEV.modes d) (is_mode (m - g / z) p_infty (GEV.pdf d)) /\ GEV.modes d <> [].
Proof.
  intros H Hz. unfold GEV.new in H. inv_new H. change (GEV.mk _) with (GEV.new_unchecked (Fin m) (Fin g) (Fin z)).
  split; [auto|]. split; [now apply gev_coherent|].
  split; [eexists; split; [now apply gev_median|now apply gev_median_cdf]|].
  destruct (gev_mode m g z ltac:(auto) Hz) as [-> Hm]. split; [intros x [<-|[]]; eexists; split; [reflexivity|exact Hm]|discriminate].
Qed.
Print Assumptions C36_gev_partial.
Example C36_nonvacuous : exists d, GEV.new (Fin 0) (Fin 1) (Fin 1) = Ok d.
Proof. eexists. unfold GEV.new. ok_new. Qed.
(** ... and fails for all smaller zeta (the pdf is not the derivative of the
    cdf), and below the region (the "probability" is e). *)
Theorem C36_gev_refuted :
  (forall m g z d, GEV.new (Fin m) (Fin g) (Fin z) = Ok d -> z < / 10000000 ->
     ~ is_derive (rf (cdfx GEV.cdf d)) (m - g) (rf (GEV.pdf d) (m - g))) /\
  (exists d, GEV.new (Fin 0) (Fin 1) (Fin 1) = Ok d /\ exists p, unwrap (GEV.cdf d (Fin (-2))) = Fin p /\ 1 < p).
Proof.
  split.
  - intros m g z d H Hz. unfold GEV.new in H. inv_new H. change (GEV.mk _) with (GEV.new_unchecked (Fin m) (Fin g) (Fin z)).
    apply gev_small; auto.
  - eexists. split; [unfold GEV.new; ok_new|]. change (GEV.mk _) with (GEV.new_unchecked (Fin 0) (Fin 1) (Fin 1)).
    exists (exp 1). rewrite gev_below. split; [reflexivity|]. generalize (exp_ineq1 1 ltac:(lra)); lra.
Qed.
Print Assumptions C36_gev_refuted.

(** C37 *)
Theorem C37_gpd_partial (m g z : R) (d : GPD.t xreal) :
  GPD.new (Fin m) (Fin g) (Fin z) = Ok d ->
  0 < g /\ 0 < z /\
  coherent m p_infty (cdfx GPD.cdf d) (GPD.pdf d) /\
  returns (GPD.median d) (is_median (cdfx GPD.cdf d)) /\
  returns (GPD.shannon_entropy d) (is_entropy m p_infty (GPD.pdf d)).
Proof.
  intros H. unfold GPD.new in H. inv_new H. change (GPD.mk _) with (GPD.new_unchecked (Fin m) (Fin g) (Fin z)).
  split; [auto|]. split; [auto|]. split; [now apply gpd_coherent|].
  split; [eexists; split; [now apply gpd_median|now apply gpd_median_cdf]|].
  destruct (gpd_entropy m g z ltac:(auto) ltac:(auto)) as [E Hm]. eexists; split; [exact E|exact Hm].
Qed.
Print Assumptions C37_gpd_partial.
Example C37_nonvacuous : exists d, GPD.new (Fin 2) (Fin 1) (Fin (1/2)) = Ok d.
Proof. eexists. unfold GPD.new. ok_new. Qed.
(** the mean: it exists for zeta < 1 and is mu + sigma/(1-zeta), but mean()
    panics on all of those; where it does return a value the value lies below
    the whole support. *)
Theorem C37_mean_refuted (m g z : R) (d : GPD.t xreal) :
  GPD.new (Fin m) (Fin g) (Fin z) = Ok d ->
  (z < 1 -> is_mean m p_infty (GPD.pdf d) (m + g / (1 - z)) /\ GPD.mean d = Panic) /\
  (1 < z -> exists v, GPD.mean d = Ret (Fin v) /\ v < m).
Proof.
  intros H. unfold GPD.new in H. inv_new H. change (GPD.mk _) with (GPD.new_unchecked (Fin m) (Fin g) (Fin z)).
  rewrite gpd_mean_code by auto. split; intros Hz.
  - split; [now apply gpd_true_mean|]. now rewrite Rleb_true by lra.
  - rewrite Rleb_false by lra. eexists; split; [reflexivity|].
    assert (0 < g / (z - 1)) by pos. replace (g / (1 - z)) with (- (g / (z - 1))) by (field; lra). lra.
Qed.
Print Assumptions C37_mean_refuted.

(** C38 *)
Theorem C38_kumaraswamy (a b : R) (p : Kumaraswamy.Params xreal) :
  Kumaraswamy.p_new (Fin a) (Fin b) = Ok p ->
  let d := Kumaraswamy.from p in
  0 < a /\ 0 < b /\ Kumaraswamy.support d = Closed (Fin 0) (Fin 1) /\
  coherent 0 1 (cdfx Kumaraswamy.cdf d) (Kumaraswamy.pdf d) /\
  returns (Kumaraswamy.median d) (is_median (cdfx Kumaraswamy.cdf d)) /\
  all_return (Kumaraswamy.modes d) (is_mode 0 1 (Kumaraswamy.pdf d)) /\
  (1 <= a -> 1 <= b -> a * b <> 1 -> Kumaraswamy.modes d <> []) /\
  samples_from 0 1 (cdfx Kumaraswamy.cdf d) (Kumaraswamy.sample_of_draw d).
Proof.
  intros H d. unfold Kumaraswamy.p_new in H. inv_new H. subst d.
  split; [auto|]. split; [auto|]. split; [reflexivity|]. split; [now apply k_coherent|].
  split; [destruct (k_median a b ltac:(auto) ltac:(auto)) as [E Hm]; eexists; split; [exact E|exact Hm]|].
  split; [intros x Hx; now apply k_modes_all|].
  split; [|now apply k_sample].
  intros H1 H2 H3 Hm.
  destruct (Req_dec a 1) as [Ea|Ea]; [|destruct (Req_dec b 1) as [Eb|Eb]].
  - destruct (k_mode_a1 a b ltac:(auto) ltac:(auto) Ea) as [E _]; [rewrite Ea in H3; lra|]. rewrite E in Hm; discriminate.
  - destruct (k_mode_b1 a b ltac:(auto) ltac:(auto) ltac:(lra) Eb) as [E _]. rewrite E in Hm; discriminate.
  - destruct (k_mode a b ltac:(auto) ltac:(auto) ltac:(lra) ltac:(lra)) as [E _]. rewrite E in Hm; discriminate.
Qed.
Print Assumptions C38_kumaraswamy.
Example C38_nonvacuous : exists p, Kumaraswamy.p_new (Fin 2) (Fin 3) = Ok p.
Proof. eexists. unfold Kumaraswamy.p_new. ok_new. Qed.

(** C39: Pareto::new does not force x_m > 0; the theorem assumes it. *)
Theorem C39_pareto (xm al : R) (d : Pareto.t xreal) :
  Pareto.new (Fin xm) (Fin al) = Ok d -> 0 < xm ->
  0 < al /\ Pareto.support d = LeftClosed (Fin xm) /\
  coherent xm p_infty (cdfx Pareto.cdf d) (Pareto.pdf d) /\
  (forall x, x < xm -> Pareto.pdf d (Fin x) = Fin 0) /\
  returns (Pareto.median d) (is_median (cdfx Pareto.cdf d)) /\
  all_return (Pareto.modes d) (is_mode xm p_infty (Pareto.pdf d)) /\ Pareto.modes d <> [] /\
  (1 < al -> returns (Pareto.mean d) (is_mean xm p_infty (Pareto.pdf d))) /\
  (al <= 1 -> Pareto.mean d = PInf) /\
  (2 < al -> returns (Pareto.mean d) (fun m => returns (Pareto.variance d) (is_variance xm p_infty (Pareto.pdf d) m))) /\
  (al <= 2 -> Pareto.variance d = PInf) /\
  (3 < al -> exists s, Pareto.skewness d = Ret (Fin s) /\ is_skewness xm p_infty (Pareto.pdf d) s) /\
  (4 < al -> exists k, Pareto.excess_kurtosis d = Ret (Fin k) /\ is_kurtosis xm p_infty (Pareto.pdf d) (k + 3)) /\
  returns (Pareto.shannon_entropy d) (is_entropy xm p_infty (Pareto.pdf d)).
Proof.
  intros H Hxm. unfold Pareto.new in H. inv_new H. change (Pareto.mk _) with (Pareto.new_unchecked (Fin xm) (Fin al)).
  rename HP0 into Ha.
  split; [auto|]. split; [reflexivity|]. split; [now apply p_coherent|].
  split; [intros x Hx; unfold Pareto.pdf; cbn [Pareto.pr Pareto.new_unchecked]; xs; rewrite Rltb_true by lra; reflexivity|].
  split; [destruct (p_median xm al Hxm Ha) as [E Hm]; eexists; split; [exact E|exact Hm]|].
  split; [destruct (p_mode xm al Hxm Ha) as [-> Hm]; intros x [<-|[]]; eexists; split; [reflexivity|exact Hm]|]. split; [discriminate|].
  split; [intros H1; destruct (p_mean xm al Hxm H1) as [E Hm]; eexists; split; [exact E|exact Hm]|].
  split; [intros H1; unfold Pareto.mean; cbn [Pareto.pr Pareto.new_unchecked]; xs; rewrite Rleb_true by lra; reflexivity|].
  split; [intros H1; destruct (p_mean xm al Hxm ltac:(lra)) as [E Hm]; eexists; split; [exact E|]; destruct (p_variance xm al Hxm Ha H1) as [E' Hm']; eexists; split; [exact E'|exact Hm']|].
  split; [intros H1; unfold Pareto.variance; cbn [Pareto.pr Pareto.new_unchecked]; xs; rewrite Rleb_true by lra; reflexivity|].
  split; [now apply p_skewness|]. split; [now apply p_kurtosis|].
  destruct (p_entropy xm al Hxm Ha) as [E Hm]; eexists; split; [exact E|exact Hm].
Qed.
Print Assumptions C39_pareto.
Example C39_nonvacuous : exists d, Pareto.new (Fin 2) (Fin 5) = Ok d.
Proof. eexists. unfold Pareto.new. ok_new. Qed.

(** C40 *)
Theorem C40_weibull_partial (l k : R) (p : Weibull.Params xreal) :
  Weibull.p_new (Fin l) (Fin k) = Ok p ->
  let d := Weibull.from p in
  0 < l /\ 0 < k /\
  coherent 0 p_infty (cdfx Weibull.cdf d) (Weibull.pdf d) /\
  (forall x, x < 0 -> unwrap (Weibull.cdf d (Fin x)) = Fin 0 /\ Weibull.pdf d (Fin x) = Fin 0) /\
  returns (Weibull.median d) (is_median (cdfx Weibull.cdf d)).
Proof.
  intros H d. unfold Weibull.p_new in H. inv_new H. subst d.
  split; [auto|]. split; [auto|]. split; [now apply w_coherent|]. split; [intros; now apply w_below|].
  destruct (w_median l k ltac:(auto) ltac:(auto)) as [E Hm]; eexists; split; [exact E|exact Hm].
Qed.
Print Assumptions C40_weibull_partial.
Example C40_nonvacuous : exists p, Weibull.p_new (Fin 2) (Fin 3) = Ok p.
Proof. eexists. unfold Weibull.p_new. ok_new. Qed.
(** the mode: for every k > 1 the returned mode is 0, where the density is 0,
    its minimum. *)
Theorem C40_mode_refuted (l k : R) (p : Weibull.Params xreal) :
  Weibull.p_new (Fin l) (Fin k) = Ok p -> 1 < k ->
  let d := Weibull.from p in
  Weibull.modes d = [Fin 0] /\ Weibull.pdf d (Fin 0) = Fin 0 /\
  (exists x y, 0 < x /\ Weibull.pdf d (Fin x) = Fin y /\ 0 < y).
Proof.
  intros H Hk d. unfold Weibull.p_new in H. inv_new H. subst d.
  split; [now apply w_modes|]. split.
  - unfold Weibull.pdf; cbn [Weibull.pr Weibull.from]. xs. rewrite Rleb_true by lra. xs.
    replace (0 / l) with 0 by (field; lra). rewrite x_powf_0, x_powf_0 by lra. xs. f_equal. ring.
  - exists l. eexists. split; [auto|]. split; [now apply w_pdf|]. pos.
Qed.
Print Assumptions C40_mode_refuted.
