(** * Properties C41-C47, C77, C80: Arcsine, Cosine, Triangular, Laplace,
      Rayleigh, Normal, LogNormal, Degenerate, Levy *)
From Coq Require Import Reals Lra Lia Psatz List ZArith.
From Coquelicot Require Import Coquelicot.
From Verif.Num Require Import XReal.
From Verif.Model Require Import Rust Constraints Probability Params Consts Continuous2.
From Verif.Spec Require Import DistSpec ResSpec.
From Verif.Proofs Require Import ConstraintProofs NewInv XTac Calc Gauss Gauss2
  ContProofs5 ContProofs6 ContProofs7 ContProofs8 ContProofs9 ContProofs10.
Import ListNotations.
Open Scope R_scope.
Notation cdfx cdf d := (fun x => unwrap (cdf d x)).

(** C41 *)
Theorem C41_arcsine (a w : R) (d : Arcsine.t xreal) :
  Arcsine.new (Fin a) (Fin w) = Ok d ->
  0 < w /\ Arcsine.support d = Closed (Fin a) (Fin (a + w)) /\
  coherent a (a + w) (cdfx Arcsine.cdf d) (Arcsine.pdf d) /\
  returns (Arcsine.median d) (is_median (cdfx Arcsine.cdf d)) /\
  returns (Arcsine.mean d) (fun m => is_mean a (a + w) (Arcsine.pdf d) m /\
    returns (Arcsine.variance d) (is_variance a (a + w) (Arcsine.pdf d) m)) /\
  returns (Arcsine.skewness d) (is_skewness a (a + w) (Arcsine.pdf d)) /\
  returns (Arcsine.kurtosis d) (is_kurtosis a (a + w) (Arcsine.pdf d)) /\
  Arcsine.modes d = [Fin a; Fin (a + w)] /\ Forall (fun m => Arcsine.pdf d m = PInf) (Arcsine.modes d).
Proof.
  intros H. unfold Arcsine.new in H. inv_new H. change (Arcsine.mk _) with (Arcsine.new_unchecked (Fin a) (Fin w)).
  assert (EM : Arcsine.mean (Arcsine.new_unchecked (Fin a) (Fin w)) = Fin (a + w / 2)).
  { unfold Arcsine.mean, Arcsine.b; cbn [Arcsine.pr Arcsine.a Arcsine.w Arcsine.new_unchecked]. xs. f_equal. field. }
  split; [auto|]. split; [reflexivity|]. split; [now apply as_coherent|].
  split; [exists (a + w / 2); split; [exact EM|now apply as_median]|].
  split; [exists (a + w / 2); split; [exact EM|]; split; [now apply as_mean|]; eexists; split; [|now apply as_variance];
          unfold Arcsine.variance; cbn [Arcsine.pr Arcsine.w Arcsine.new_unchecked]; cbv zeta; now xs|].
  split; [eexists; split; [reflexivity|now apply as_skewness]|].
  split; [eexists; split; [unfold Arcsine.kurtosis, THREE_HALVES; now xs|now apply as_kurtosis]|].
  split; [reflexivity|now apply as_modes].
Qed.
Print Assumptions C41_arcsine.
Example C41_nonvacuous : exists d, Arcsine.new (Fin 2) (Fin 3) = Ok d.
Proof. eexists. unfold Arcsine.new. ok_new. Qed.

(** C42: the cdf is right; the pdf is its derivative only up to the factor 2/s *)
Theorem C42_cosine_partial (m s : R) (d : Cosine.t xreal) :
  Cosine.new (Fin m) (Fin s) = Ok d ->
  0 < s /\ Cosine.support d = Closed (Fin (m - s)) (Fin (m + s)) /\
  coherent (m - s) (m + s) (cdfx Cosine.cdf d) (density_of (cdfx Cosine.cdf d)) /\
  (forall x, inside (m - s) (m + s) x -> density_of (cdfx Cosine.cdf d) (Fin x) = fmul (Fin (2 / s)) (Cosine.pdf d (Fin x))) /\
  returns (Cosine.median d) (is_median (cdfx Cosine.cdf d)) /\
  all_return (Cosine.modes d) (is_mode (m - s) (m + s) (Cosine.pdf d)) /\ Cosine.modes d <> [] /\
  returns (Cosine.mean d) (fun mu => is_mean (m - s) (m + s) (density_of (cdfx Cosine.cdf d)) mu /\
    returns (Cosine.variance d) (is_variance (m - s) (m + s) (density_of (cdfx Cosine.cdf d)) mu)) /\
  returns (Cosine.skewness d) (is_skewness (m - s) (m + s) (density_of (cdfx Cosine.cdf d))) /\
  (s = 2 -> coherent (m - s) (m + s) (cdfx Cosine.cdf d) (Cosine.pdf d)).
Proof.
  intros H. unfold Cosine.new in H. inv_new H. change (Cosine.mk _) with (Cosine.new_unchecked (Fin m) (Fin s)).
  assert (Hs := HP0). assert (P := PI_RGT_0).
  assert (DE : forall x, density_of (cdfx Cosine.cdf (Cosine.new_unchecked (Fin m) (Fin s))) (Fin x) = fmul (Fin (2 / s)) (Cosine.pdf (Cosine.new_unchecked (Fin m) (Fin s)) (Fin x))).
  { intros x. rewrite (co_pdf m s Hs). rewrite x_mul. unfold density_of. cbn [val]. f_equal. apply is_derive_unique.
    generalize (co_scaled m s Hs x). unfold rf at 2. rewrite (co_pdf m s Hs). cbn [val]. auto. }
  split; [auto|]. split; [reflexivity|]. split; [now apply co_coherent|]. split; [intros; apply DE|].
  split; [exists m; split; [reflexivity|now apply co_median]|].
  split; [intros x [<-|[]]; exists m; split; [reflexivity|now apply co_mode]|]. split; [discriminate|].
  split; [exists m; split; [reflexivity|]; split; [now apply co_mean|]; eexists; split; [|now apply co_variance];
    unfold Cosine.variance, ONE_THIRD, TWO_OVER_PI2, PI2; cbn [Cosine.pr Cosine.s Cosine.new_unchecked]; cbv zeta; now xs|].
  split; [eexists; split; [reflexivity|now apply co_skewness]|].
  intros E2. assert (EQ : forall x, rf (Cosine.pdf (Cosine.new_unchecked (Fin m) (Fin s))) x = rf (density_of (cdfx Cosine.cdf (Cosine.new_unchecked (Fin m) (Fin s)))) x).
  { intros x. unfold rf. rewrite DE, (co_pdf m s Hs). cbn. rewrite E2. field. }
  destruct (co_coherent m s Hs) as [C1 [V D T]]. split; [exact C1|]. split.
  - intros x Hx. destruct (V x Hx) as (v & Ev & Hv). exists v. split; [|auto]. specialize (EQ x). unfold rf in EQ. rewrite Ev in EQ. rewrite (co_pdf m s Hs) in *. cbn in EQ. now rewrite EQ.
  - intros x Hx. rewrite EQ. now apply D.
  - revert T. apply is_RInt_gen_ext. apply filter_forall. intros ab x _. symmetry. apply EQ.
Qed.
Print Assumptions C42_cosine_partial.
Example C42_nonvacuous : exists d, Cosine.new (Fin 1) (Fin 5) = Ok d.
Proof. eexists. unfold Cosine.new. ok_new. Qed.
Theorem C42_cosine_refuted (m s : R) (d : Cosine.t xreal) :
  Cosine.new (Fin m) (Fin s) = Ok d -> s <> 2 ->
  ~ is_pdf (m - s) (m + s) (cdfx Cosine.cdf d) (Cosine.pdf d).
Proof.
  intros H Hn. unfold Cosine.new in H. inv_new H. change (Cosine.mk _) with (Cosine.new_unchecked (Fin m) (Fin s)).
  assert (Hs := HP0). intros [_ D _]. assert (Im : inside (m - s) (m + s) m) by (split; cbn; lra).
  assert (D1 := is_derive_unique _ _ _ (D m Im)). assert (D2 := is_derive_unique _ _ _ (co_scaled m s Hs m)). rewrite D1 in D2.
  unfold rf in D2. rewrite (co_pdf m s Hs) in D2. cbn [val] in D2. replace ((m - m) / s * PI) with 0 in D2 by (field; lra). rewrite cos_0 in D2.
  assert (D3 : 2 / s = 1) by lra. apply Hn. apply Rmult_eq_reg_r with (/ s); [|apply Rinv_neq_0_compat; lra]. rewrite Rinv_r by lra. unfold Rdiv in D3. lra.
Qed.
Print Assumptions C42_cosine_refuted.

(** C43: everything but the mean, and but the pdf strictly within 1e-7 of the mode *)
Theorem C43_triangular_partial (a p q : R) (d : Triangular.t xreal) :
  Triangular.new (Fin a) (Fin p) (Fin q) = Ok d ->
  let b := a + p + q in let c := a + p in let F := cdfx Triangular.cdf d in
  0 < p /\ 0 < q /\ Triangular.support d = Closed (Fin a) (Fin b) /\
  coherent a b F (density_of F) /\
  (forall x, x <= a -> F (Fin x) = Fin 0) /\ (forall x, b <= x -> F (Fin x) = Fin 1) /\
  (forall x, inside a b x -> x = c \/ 1 / 10000000 <= Rabs (x - c) -> Triangular.pdf d (Fin x) = density_of F (Fin x)) /\
  returns (Triangular.median d) (is_median F) /\
  all_return (Triangular.modes d) (is_mode a b (Triangular.pdf d)) /\ Triangular.modes d <> [] /\
  returns (Triangular.variance d) (is_variance a b (density_of F) ((a + b + c) / 3)) /\
  returns (Triangular.skewness d) (is_skewness a b (density_of F)) /\
  returns (Triangular.kurtosis d) (is_kurtosis a b (density_of F)).
Proof.
  intros H b c F. unfold Triangular.new in H. inv_new H. subst F. change (Triangular.mk _) with (Triangular.new_unchecked (Fin a) (Fin p) (Fin q)).
  split; [auto|]. split; [auto|]. split; [reflexivity|]. split; [now apply tr_coherent|].
  split; [intros; now apply (tr_cdf_lo a p q)|]. split; [intros; now apply (tr_cdf_hi a p q)|].
  split; [intros x Hx Hc; rewrite (tr_density a p q) by auto; now apply tr_pdf|].
  split; [now apply tr_median|]. split; [intros x [<-|[]]; exists c; split; [reflexivity|now apply tr_mode]|]. split; [discriminate|].
  split; [now apply tr_variance|]. split; [now apply tr_skewness|now apply tr_kurtosis].
Qed.
Print Assumptions C43_triangular_partial.
Example C43_nonvacuous : exists d, Triangular.new (Fin 1) (Fin 2) (Fin 3) = Ok d.
Proof. eexists. unfold Triangular.new. ok_new. Qed.
(** the returned mean is 3/2 of the true one *)
Theorem C43_mean_refuted (a p q : R) (d : Triangular.t xreal) :
  Triangular.new (Fin a) (Fin p) (Fin q) = Ok d ->
  let F := cdfx Triangular.cdf d in
  exists m, Triangular.mean d = Fin (3 / 2 * m) /\ is_mean a (a + p + q) (density_of F) m /\ (0 <= a -> 3 / 2 * m <> m).
Proof.
  intros H F. unfold Triangular.new in H. inv_new H. subst F. change (Triangular.mk _) with (Triangular.new_unchecked (Fin a) (Fin p) (Fin q)).
  eexists. split; [|split; [now apply tr_mean|]].
  - unfold Triangular.mean, Triangular.b, Triangular.c; cbn [Triangular.pr Triangular.a Triangular.a2c Triangular.c2b Triangular.new_unchecked]. cbv zeta. xs. f_equal. field.
  - intros. lra.
Qed.
Print Assumptions C43_mean_refuted.

(** C44: the two methods have each other's bodies: [cdf] computes the density
    and [pdf] the distribution function *)
Theorem C44_laplace_refuted (m b : R) (d : Laplace.t xreal) :
  Laplace.new (Fin m) (Fin b) = Ok d -> ~ is_cdf m_infty p_infty (cdfx Laplace.cdf d).
Proof.
  intros H. unfold Laplace.new in H. inv_new H. change (Laplace.mk _) with (Laplace.new_unchecked (Fin m) (Fin b)). now apply la_not_cdf.
Qed.
Print Assumptions C44_laplace_refuted.
Theorem C44_laplace_partial (m b : R) (d : Laplace.t xreal) :
  Laplace.new (Fin m) (Fin b) = Ok d ->
  let dist := fun x => got (Laplace.pdf d x) in
  let dens := fun x => unwrap (Laplace.cdf d x) in
  0 < b /\ Laplace.support d = Reals /\
  (forall x, exists p, Laplace.pdf d (Fin x) = Ret p) /\
  coherent m_infty p_infty dist dens /\
  samples_from m_infty p_infty dist (fun u => Laplace.sample_of_draw d (fsub u (Fin (1 / 2)))) /\
  returns (Laplace.median d) (is_median dist) /\
  all_return (Laplace.modes d) (is_mode m_infty p_infty dens) /\ Laplace.modes d <> [] /\
  returns (Laplace.mean d) (fun mu => is_mean m_infty p_infty dens mu /\
    returns (Laplace.variance d) (is_variance m_infty p_infty dens mu)) /\
  returns (Laplace.skewness d) (is_skewness m_infty p_infty dens) /\
  returns (Laplace.kurtosis d) (is_kurtosis m_infty p_infty dens) /\
  returns (Laplace.shannon_entropy d) (is_entropy m_infty p_infty dens).
Proof.
  intros H dist dens. unfold Laplace.new in H. inv_new H. subst dist dens. change (Laplace.mk _) with (Laplace.new_unchecked (Fin m) (Fin b)).
  split; [auto|]. split; [reflexivity|]. split; [intros x; eexists; now apply la_pdf|]. split; [now apply la_coherent|].
  split; [now apply la_samples|]. split; [now apply la_median|]. split; [now apply la_modes|]. split; [discriminate|].
  split. { destruct (la_mean m b ltac:(auto)) as (r & E & Hr). exists r. split; [exact E|]. split; [exact Hr|]. injection E as <-. now apply la_variance. }
  split; [now apply la_skewness|]. split; [now apply la_kurtosis|now apply la_entropy].
Qed.
Print Assumptions C44_laplace_partial.
Example C44_nonvacuous : exists d, Laplace.new (Fin 1) (Fin 2) = Ok d.
Proof. eexists. unfold Laplace.new. ok_new. Qed.

(** C45: the cdf ignores sigma *)
Theorem C45_rayleigh_refuted (s : R) (d : Rayleigh.t xreal) :
  Rayleigh.new (Fin s) = Ok d -> s <> 1 ->
  ~ coherent 0 p_infty (cdfx Rayleigh.cdf d) (Rayleigh.pdf d) /\ ~ returns (Rayleigh.median d) (is_median (cdfx Rayleigh.cdf d)).
Proof.
  intros H Hn. unfold Rayleigh.new in H. inv_new H. change (Rayleigh.mk _) with (Rayleigh.new_unchecked (Fin s)). now apply ra_refuted.
Qed.
Print Assumptions C45_rayleigh_refuted.
Theorem C45_rayleigh_partial (s : R) (d : Rayleigh.t xreal) :
  Rayleigh.new (Fin s) = Ok d ->
  0 < s /\ Rayleigh.support d = PositiveReals /\
  is_cdf 0 p_infty (cdfx Rayleigh.cdf d) /\
  (s = 1 -> coherent 0 p_infty (cdfx Rayleigh.cdf d) (Rayleigh.pdf d)) /\
  (forall x, inside 0 p_infty x -> exists y, Rayleigh.pdf d (Fin x) = Fin y /\ 0 <= y) /\
  is_RInt_gen (rf (Rayleigh.pdf d)) (above 0) (below p_infty) 1 /\
  returns (Rayleigh.median d) (fun m => 0 < m /\ is_RInt (rf (Rayleigh.pdf d)) 0 m (1 / 2)) /\
  all_return (Rayleigh.modes d) (is_mode 0 p_infty (Rayleigh.pdf d)) /\ Rayleigh.modes d <> [] /\
  returns (Rayleigh.mean d) (fun mu => is_mean 0 p_infty (Rayleigh.pdf d) mu /\
    returns (Rayleigh.variance d) (is_variance 0 p_infty (Rayleigh.pdf d) mu)) /\
  returns (Rayleigh.skewness d) (is_skewness 0 p_infty (Rayleigh.pdf d)).
Proof.
  intros H. unfold Rayleigh.new in H. inv_new H. change (Rayleigh.mk _) with (Rayleigh.new_unchecked (Fin s)).
  split; [auto|]. split; [reflexivity|]. split; [now apply ra_is_cdf|]. split; [now apply ra_coherent_1|].
  split. { intros x [Hx _]. cbn in Hx. eexists. split; [now apply ra_pdf|]. unfold rg. pos. }
  split; [now apply ra_total|]. split; [now apply ra_half|]. split; [now apply ra_mode|]. split; [discriminate|].
  split; [|now apply ra_skewness].
  assert (P := PI_RGT_0). destruct (ra_mean s ltac:(auto)) as (r & E & Hr). exists r. split; [exact E|]. split; [exact Hr|].
  replace r with (s * sqrt (PI / 2)); [now apply ra_variance|].
  revert E. unfold Rayleigh.mean, PI_OVER_2; cbn [Rayleigh.pr Rayleigh.sigma Rayleigh.new_unchecked]. xs. intros E. now injection E.
Qed.
Print Assumptions C45_rayleigh_partial.
Example C45_nonvacuous : exists d, Rayleigh.new (Fin 2) = Ok d.
Proof. eexists. unfold Rayleigh.new. ok_new. Qed.

(** C46.  [Phi], the standard normal distribution function, is defined in
    Proofs/Gauss.v from the integral of exp(-t^2); that it is a distribution
    function is part of what is proved here. *)
Theorem C46_normal {SP : Special xreal} (m S : R) (d : UvNormal.t xreal) :
  (forall x, sf_norm (Fin x) = Fin (Phi x)) ->
  (forall p, 0 < p < 1 -> exists q, sf_norm_inv (Fin p) = Fin q /\ Phi q = p) ->
  UvNormal.new (Fin m) (Fin S) = Ok d ->
  0 < S /\ UvNormal.support d = Reals /\
  coherent m_infty p_infty (cdfx UvNormal.cdf d) (UvNormal.pdf d) /\
  unwrap (UvNormal.cdf d NInf) = Fin 0 /\ unwrap (UvNormal.cdf d PInf) = Fin 1 /\
  inverts m_infty p_infty (cdfx UvNormal.cdf d) (fun p => UvNormal.quantile d (Prob p)) /\
  returns (UvNormal.median d) (is_median (cdfx UvNormal.cdf d)) /\
  all_return (UvNormal.modes d) (is_mode m_infty p_infty (UvNormal.pdf d)) /\ UvNormal.modes d <> [] /\
  returns (UvNormal.mean d) (fun mu => is_mean m_infty p_infty (UvNormal.pdf d) mu /\
    returns (UvNormal.variance d) (is_variance m_infty p_infty (UvNormal.pdf d) mu)) /\
  returns (UvNormal.skewness d) (is_skewness m_infty p_infty (UvNormal.pdf d)) /\
  returns (UvNormal.shannon_entropy d) (is_entropy m_infty p_infty (UvNormal.pdf d)).
Proof.
  intros HN HI H. apply uvn_new_inv in H as [HS ->].
  split; [auto|]. split; [reflexivity|]. split; [now apply un_coherent|].
  split; [reflexivity|]. split; [reflexivity|]. split; [now apply un_inverts|]. split; [now apply un_median|].
  split; [now apply un_modes|]. split; [discriminate|].
  split. { destruct (un_mean m S HS) as (r & E & Hr). exists r. split; [exact E|]. split; [exact Hr|]. injection E as <-. now apply un_variance. }
  split; [now apply un_skewness|now apply un_entropy].
Qed.
Print Assumptions C46_normal.
Example C46_nonvacuous : exists (SP : Special xreal) d,
  (forall x, sf_norm (Fin x) = Fin (Phi x)) /\
  (forall p, 0 < p < 1 -> exists q, sf_norm_inv (Fin p) = Fin q /\ Phi q = p) /\
  UvNormal.new (Fin 1) (Fin 2) = Ok d.
Proof.
  exists {| sf_gamma := fun x => x; sf_loggamma := fun x => x; sf_beta := fun x _ => x; sf_logbeta := fun x _ => x; sf_betainc := fun x _ _ => x;
     sf_gammainc := fun x _ => x; sf_digamma := fun x => x; sf_erf := fun x => x; sf_erfc := fun x => x;
     sf_norm := fun x => Fin (Phi (val x)); sf_norm_inv := fun x => Fin (Phi_inv (val x)); sf_riemann_zeta := fun x => x; sf_hyp2f1 := fun x _ _ _ => x |}.
  eexists. split; [reflexivity|]. split; [intros p Hp; eexists; split; [reflexivity|now apply Phi_inv_spec]|]. apply uvn_new_ok. lra.
Qed.
(** the normalisation needs no oracle *)
Theorem C46_normal_pdf_total (m S : R) (d : UvNormal.t xreal) :
  UvNormal.new (Fin m) (Fin S) = Ok d ->
  is_RInt_gen (rf (UvNormal.pdf d)) (above m_infty) (below p_infty) 1.
Proof. intros H. apply uvn_new_inv in H as [HS ->]. now apply un_total. Qed.
Print Assumptions C46_normal_pdf_total.

(** C47: the pdf lacks the factor 1/x; the moment methods square a parameter
    that is already a variance, so they are right when it is 1 *)
Theorem C47_lognormal_refuted {SP : Special xreal} (m S : R) (d : LogNormal.t xreal) :
  (forall x, sf_norm (Fin x) = Fin (Phi x)) ->
  LogNormal.new (Fin m) (Fin S) = Ok d ->
  ~ is_pdf 0 p_infty (cdfx LogNormal.cdf d) (LogNormal.pdf d) /\
  (S <> 1 -> forall mu, LogNormal.mean d = Fin mu -> exists mu', is_mean 0 p_infty (density_of (cdfx LogNormal.cdf d)) mu' /\ mu' <> mu).
Proof.
  intros HN H. unfold LogNormal.new in H. destruct (UvNormal.new (Fin m) (Fin S)) as [u|] eqn:E; [|discriminate].
  apply uvn_new_inv in E as [HS ->]. injection H as <-. change (LogNormal.mk _) with (LogNormal.new_unchecked (Fin m) (Fin S)).
  split; [now apply ln_refuted|]. intros H1 mu Hm. exists (exp (m + S / 2)). split; [now apply ln_mean_true|].
  revert Hm. unfold LogNormal.mean, LogNormal.mu, LogNormal.sigma, LogNormal.new_unchecked; cbn [LogNormal.nrm UvNormal.pr UvNormal.mu UvNormal.Sigma UvNormal.new_unchecked]. xs.
  intros X; injection X as <-. intros X. apply exp_inv in X. apply H1. apply Rmult_eq_reg_r with S; lra.
Qed.
Print Assumptions C47_lognormal_refuted.
Theorem C47_lognormal_partial {SP : Special xreal} (m S : R) (d : LogNormal.t xreal) :
  (forall x, sf_norm (Fin x) = Fin (Phi x)) ->
  LogNormal.new (Fin m) (Fin S) = Ok d ->
  let F := cdfx LogNormal.cdf d in
  0 < S /\ LogNormal.support d = PositiveReals /\
  coherent 0 p_infty F (density_of F) /\
  (forall x, 0 < x -> LogNormal.pdf d (Fin x) = fmul (Fin x) (density_of F (Fin x))) /\
  returns (LogNormal.median d) (is_median F) /\
  is_mean 0 p_infty (density_of F) (exp (m + S / 2)) /\
  is_variance 0 p_infty (density_of F) (exp (m + S / 2)) ((exp S - 1) * exp (2 * m + S)) /\
  (S = 1 ->
    returns (LogNormal.mean d) (fun mu => is_mean 0 p_infty (density_of F) mu /\ returns (LogNormal.variance d) (is_variance 0 p_infty (density_of F) mu)) /\
    returns (LogNormal.skewness d) (is_skewness 0 p_infty (density_of F)) /\
    returns (LogNormal.excess_kurtosis d) (fun k => is_kurtosis 0 p_infty (density_of F) (k + 3)) /\
    all_return (LogNormal.modes d) (is_mode 0 p_infty (density_of F))).
Proof.
  intros HN H F. unfold LogNormal.new in H. destruct (UvNormal.new (Fin m) (Fin S)) as [u|] eqn:E; [|discriminate].
  apply uvn_new_inv in E as [HS ->]. injection H as <-. subst F. change (LogNormal.mk _) with (LogNormal.new_unchecked (Fin m) (Fin S)).
  split; [auto|]. split; [reflexivity|]. split; [now apply ln_coherent|].
  split. { intros x Hx. rewrite (ln_density m S HS HN) by (split; [exact Hx|exact I]). rewrite x_mul. now apply ln_pdf_factor. }
  split; [now apply ln_median|]. split; [now apply ln_mean_true|]. split; [now apply ln_variance_true|].
  intros H1. split.
  { destruct (ln_mean m S HS HN H1) as (r & E & Hr). exists r. split; [exact E|]. split; [exact Hr|].
    replace r with (exp (m + S / 2)); [now apply ln_variance|]. revert E.
    unfold LogNormal.mean, LogNormal.mu, LogNormal.sigma, LogNormal.new_unchecked; cbn [LogNormal.nrm UvNormal.pr UvNormal.mu UvNormal.Sigma UvNormal.new_unchecked]. xs.
    intros X; injection X as <-. f_equal. rewrite H1. field. }
  split; [now apply ln_skewness|]. split; [now apply ln_kurtosis|].
  intros x [<-|[]]. unfold LogNormal.mu, LogNormal.sigma, LogNormal.new_unchecked; cbn [LogNormal.nrm UvNormal.pr UvNormal.mu UvNormal.Sigma UvNormal.new_unchecked]. xs.
  eexists; split; [reflexivity|]. replace (m - S * S) with (m - S) by (rewrite H1; ring). now apply ln_mode_true.
Qed.
Print Assumptions C47_lognormal_partial.
Example C47_nonvacuous : exists (SP : Special xreal) d, (forall x, sf_norm (Fin x) = Fin (Phi x)) /\ LogNormal.new (Fin 1) (Fin 2) = Ok d.
Proof.
  destruct C46_nonvacuous as (SP & u & H1 & _ & H2). exists SP, (LogNormal.mk u). split; [auto|]. unfold LogNormal.new. now rewrite H2.
Qed.

(** C77 *)
Theorem C77_degenerate_f64 (k : R) :
  let d := DegenerateF.new (Fin k) in
  (forall x, x < k -> unwrap (DegenerateF.cdf d (Fin x)) = Fin 0) /\
  (forall x, k <= x -> unwrap (DegenerateF.cdf d (Fin x)) = Fin 1) /\
  (forall S (s : S), DegenerateF.sample d s = (Fin k, s)) /\
  DegenerateF.mean d = Fin k /\ DegenerateF.median d = Fin k /\ DegenerateF.modes d = [Fin k] /\
  DegenerateF.variance d = Fin 0 /\ DegenerateF.shannon_entropy d = Fin 0.
Proof.
  intros d. split; [|split]; [intros x Hx| intros x Hx|].
  - unfold DegenerateF.cdf; cbn [DegenerateF.k d DegenerateF.new]. xs. now rewrite Rltb_true.
  - unfold DegenerateF.cdf; cbn [DegenerateF.k d DegenerateF.new]. xs. now rewrite Rltb_false.
  - repeat split; reflexivity.
Qed.
Print Assumptions C77_degenerate_f64.
Theorem C77_degenerate_i64 (k : Z) :
  let d := DegenerateI.new k in
  (forall x, (x < k)%Z -> unwrap (DegenerateI.cdf (F := xreal) d x) = Fin 0) /\
  (forall x, (k <= x)%Z -> unwrap (DegenerateI.cdf (F := xreal) d x) = Fin 1) /\
  (forall x, unwrap (DegenerateI.pmf (F := xreal) d x) = if Z.eq_dec x k then Fin 1 else Fin 0) /\
  (forall S (s : S), DegenerateI.sample d s = (k, s)) /\
  DegenerateI.mean d = Fin (IZR k) /\ DegenerateI.median d = Fin (IZR k) /\ DegenerateI.modes d = [k] /\
  DegenerateI.variance d = Fin 0.
Proof.
  intros d. split; [|split; [|split]]; [intros x Hx|intros x Hx|intros x|].
  - unfold DegenerateI.cdf; cbn [DegenerateI.k d DegenerateI.new]. apply Z.ltb_lt in Hx. now rewrite Hx.
  - unfold DegenerateI.cdf; cbn [DegenerateI.k d DegenerateI.new]. apply Z.ltb_ge in Hx. now rewrite Hx.
  - unfold DegenerateI.pmf; cbn [DegenerateI.k d DegenerateI.new]. destruct (Z.eq_dec x k) as [->|n]; [now rewrite Z.eqb_refl|]. apply Z.eqb_neq in n. now rewrite n.
  - repeat split; reflexivity.
Qed.
Print Assumptions C77_degenerate_i64.

(** C80: Levy.  The pdf is the density of the Levy distribution function
    erfc(sqrt(c / 2(x - mu))); the cdf method lacks the square root. *)
Theorem C80_levy_refuted {SP : Special xreal} (m c : R) (d : Levy.t xreal) :
  (forall t, sf_erfc (Fin t) = Fin (erfc t)) ->
  Levy.new (Fin m) (Fin c) = Ok d -> ~ is_pdf m p_infty (cdfx Levy.cdf d) (Levy.pdf d).
Proof.
  intros HE H. unfold Levy.new in H. inv_new H. change (Levy.mk _) with (Levy.new_unchecked (Fin m) (Fin c)). now apply lv_refuted.
Qed.
Print Assumptions C80_levy_refuted.
Theorem C80_levy_partial (m c : R) (d : Levy.t xreal) :
  Levy.new (Fin m) (Fin c) = Ok d ->
  0 < c /\ Levy.support d = LeftClosed (Fin m) /\
  coherent m p_infty (fun x => Fin (erfc (sqrt (c / 2 / (val x - m))))) (Levy.pdf d) /\
  (m = 0 -> exists l, Levy.modes d = Ret l /\ l <> [] /\ all_return l (is_mode m p_infty (Levy.pdf d))).
Proof.
  intros H. unfold Levy.new in H. inv_new H. change (Levy.mk _) with (Levy.new_unchecked (Fin m) (Fin c)).
  split; [auto|]. split; [reflexivity|]. split; [now apply lv_coherent|now apply lv_mode].
Qed.
Print Assumptions C80_levy_partial.
Example C80_nonvacuous : exists (SP : Special xreal) d, (forall t, sf_erfc (Fin t) = Fin (erfc t)) /\ Levy.new (Fin 1) (Fin 2) = Ok d.
Proof.
  exists {| sf_gamma := fun x => x; sf_loggamma := fun x => x; sf_beta := fun x _ => x; sf_logbeta := fun x _ => x; sf_betainc := fun x _ _ => x;
     sf_gammainc := fun x _ => x; sf_digamma := fun x => x; sf_erf := fun x => x; sf_erfc := fun x => Fin (erfc (val x));
     sf_norm := fun x => x; sf_norm_inv := fun x => x; sf_riemann_zeta := fun x => x; sf_hyp2f1 := fun x _ _ _ => x |}.
  eexists. split; [reflexivity|]. unfold Levy.new. ok_new.
Qed.
