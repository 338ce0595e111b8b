(** * Properties C122-C124: entropies, the moments of Levy, higher moments *)
From Coq Require Import Reals Lra Lia Psatz List ZArith.
From Coquelicot Require Import Coquelicot.
From Verif.Num Require Import XReal.
From Verif.Model Require Import Rust Constraints Probability Params Consts Traits Continuous Continuous2 Continuous3.
From Verif.Spec Require Import DistSpec GammaSpec ResSpec.
From Verif.Proofs Require Import ConstraintProofs NewInv XTac Calc Calc2 Improper Gauss GammaFun Mellin Unique Oracle
  ContProofs1 ContProofs5 ContProofs6 ContProofs8 ContProofs9 ContProofs10 ContProofs11 ContProofs32 ContProofs33.
Import ListNotations.
Open Scope R_scope.
Notation cdfx cdf d := (fun x => unwrap (cdf d x)).

(** C122: the Cauchy, Rayleigh and Levy entropies are right; Arcsine's only when the width is 1 *)
Theorem C122_entropies_partial (SP : Special xreal) (m g s c a w : R) (ca : Cauchy.t xreal) (ra : Rayleigh.t xreal) (lv : Levy.t xreal) (ar : Arcsine.t xreal) :
  digamma_exact SP ->
  Cauchy.new (Fin m) (Fin g) = Ok ca -> Rayleigh.new (Fin s) = Ok ra -> Levy.new (Fin m) (Fin c) = Ok lv -> Arcsine.new (Fin a) (Fin w) = Ok ar ->
  returns (Cauchy.shannon_entropy ca) (is_entropy m_infty p_infty (Cauchy.pdf ca)) /\
  returns (Rayleigh.shannon_entropy ra) (is_entropy 0 p_infty (Rayleigh.pdf ra)) /\
  returns (Levy.shannon_entropy lv) (is_entropy m p_infty (Levy.pdf lv)) /\
  (w = 1 -> returns (Arcsine.shannon_entropy ar) (is_entropy a (a + w) (Arcsine.pdf ar))).
Proof.
  intros Hd H1 H2 H3 H4. unfold Cauchy.new in H1. inv_new H1. unfold Rayleigh.new in H2. inv_new H2. unfold Levy.new in H3. inv_new H3. unfold Arcsine.new in H4. inv_new H4.
  split; [eexists; split; [apply ca_ent_val; auto|apply ca_entropy; auto]|].
  split; [eexists; split; [apply ra_ent_val; auto|apply ra_entropy; auto]|].
  split; [eexists; split; [apply lv_ent_val; auto|apply lv_entropy; auto]|].
  intros E. eexists; split; [apply as_ent_val; auto|]. replace (PI / 4) with (PI / 4 * w) by (rewrite E; ring). apply as_entropy; auto.
Qed.
Print Assumptions C122_entropies_partial.
Example C122_nonvacuous : digamma_exact (exact false) /\ (exists d, Cauchy.new (Fin 1) (Fin 2) = Ok d) /\ (exists d, Rayleigh.new (Fin 2) = Ok d) /\
  (exists d, Levy.new (Fin 1) (Fin 3) = Ok d) /\ exists d, Arcsine.new (Fin 5) (Fin 1) = Ok d.
Proof.
  split; [apply ex_psi|]. split; [eexists; unfold Cauchy.new; ok_new|]. split; [eexists; unfold Rayleigh.new; ok_new|].
  split; [eexists; unfold Levy.new; ok_new|]. eexists; unfold Arcsine.new; ok_new.
Qed.

(** Arcsine's entropy forgets the width; Triangular's adds 1 instead of 1/2;
    LogNormal's is in bits and takes the variance for the standard deviation *)
Theorem C122_entropies_refuted (SP : Special xreal) (a w p q m S : R) (ar : Arcsine.t xreal) (tr : Triangular.t xreal) (lg : LogNormal.t xreal) :
  (forall x, sf_norm (Fin x) = Fin (Phi x)) ->
  Arcsine.new (Fin a) (Fin w) = Ok ar -> Triangular.new (Fin a) (Fin p) (Fin q) = Ok tr -> LogNormal.new (Fin m) (Fin S) = Ok lg ->
  (w <> 1 -> exists h h', Arcsine.shannon_entropy ar = Fin h /\ is_entropy a (a + w) (Arcsine.pdf ar) h' /\ h <> h') /\
  (exists h, Triangular.shannon_entropy tr = Fin h /\ is_entropy a (a + p + q) (density_of (cdfx Triangular.cdf tr)) (h - 1 / 2)) /\
  (exists h, is_entropy 0 p_infty (density_of (cdfx LogNormal.cdf lg)) h /\ LogNormal.shannon_entropy lg = Fin ((h + ln S / 2) / ln 2) /\
    (1 <= S -> 0 <= m -> (h + ln S / 2) / ln 2 <> h)).
Proof.
  intros Hn H1 H2 H3. unfold Arcsine.new in H1. inv_new H1. unfold Triangular.new in H2. inv_new H2.
  unfold LogNormal.new in H3. destruct (UvNormal.new (Fin m) (Fin S)) as [u|] eqn:E; [|discriminate]. apply uvn_new_inv in E as [HS ->]. injection H3 as <-.
  assert (PP := PI_RGT_0).
  split; [|split].
  - intros W. exists (ln (PI / 4)), (ln (PI / 4 * w)). split; [apply as_ent_val; auto|]. split; [apply as_entropy; auto|].
    intros E. apply ln_inv in E; [|lra|pos]. apply W. apply Rmult_eq_reg_l with (PI / 4); lra.
  - eexists. split; [apply tr_ent_val; auto|]. match goal with |- is_entropy _ _ _ ?e => replace e with (1 / 2 + ln ((p + q) / 2)) by lra end. apply tr_entropy; auto.
  - eexists. split; [apply ln_entropy_true; auto|]. split; [apply ln_ent_val; auto|].
    intros S1 M0 E. assert (L2 := ln_lt_2). assert (LS : 0 <= ln S) by (rewrite <- ln_1; destruct S1 as [S1|S1]; [left; apply ln_increasing; lra|rewrite S1; lra]).
    assert (LS2 : ln (sqrt S) = ln S / 2) by (apply ContProofs15.ln_sqrt'; auto).
    assert (LP : 0 < ln (2 * PI)) by (rewrite <- ln_1; apply ln_increasing; generalize PI2_1; lra).
    assert (L21 : ln 2 < 1) by (rewrite <- (ln_exp 1); apply ln_increasing; [lra|generalize (exp_ineq1 1); lra]).
    rewrite LS2 in E. set (h := m + 1 / 2 + (ln S / 2 + ln (2 * PI) / 2)) in *. assert (0 < h) by (unfold h; lra).
    assert (E2 : h + ln S / 2 = h * ln 2) by (rewrite <- E at 2; field; lra). nra.
Qed.
Print Assumptions C122_entropies_refuted.
Example C122_refuted_nonvacuous : exists (SP : Special xreal), (forall x, sf_norm (Fin x) = Fin (Phi x)) /\ (exists d, Arcsine.new (Fin 1) (Fin 3) = Ok d) /\
  (exists d, Triangular.new (Fin 1) (Fin 2) (Fin 3) = Ok d) /\ exists d, LogNormal.new (Fin 1) (Fin 2) = Ok d.
Proof.
  exists {| sf_gamma := fun x => x; sf_loggamma := fun x => x; sf_beta := fun x _ => x; sf_logbeta := fun x _ => x; sf_betainc := fun x _ _ => x;
     sf_gammainc := fun x _ => x; sf_digamma := fun x => x; sf_erf := fun x => x; sf_erfc := fun x => x;
     sf_norm := fun x => Fin (Phi (val x)); sf_norm_inv := fun x => x; sf_riemann_zeta := fun x => x; sf_hyp2f1 := fun x _ _ _ => x |}.
  split; [reflexivity|]. split; [eexists; unfold Arcsine.new; ok_new|]. split; [eexists; unfold Triangular.new; ok_new|].
  eexists. unfold LogNormal.new. rewrite uvn_new_ok by lra. reflexivity.
Qed.

(** C123: a Levy distribution has no mean, variance, skewness or kurtosis; the
    methods say so (infinity for the first two, panic for the others) *)
Theorem C123_levy_moments (m c : R) (d : Levy.t xreal) :
  Levy.new (Fin m) (Fin c) = Ok d ->
  finite_iff_exists (Levy.mean d) (is_mean m p_infty (Levy.pdf d)) /\
  (forall mu, finite_iff_exists (Levy.variance d) (is_variance m p_infty (Levy.pdf d) mu)) /\
  returned_iff_exists (Levy.skewness d) (is_skewness m p_infty (Levy.pdf d)) /\
  returned_iff_exists (Levy.kurtosis d) (is_kurtosis m p_infty (Levy.pdf d)) /\
  ~ (exists mu, is_mean m p_infty (Levy.pdf d) mu).
Proof.
  intros H. unfold Levy.new in H. inv_new H. change (Levy.mk _) with (Levy.new_unchecked (Fin m) (Fin c)).
  split; [right; split; [reflexivity|]; intros [v Hv]; revert Hv; apply lv_no_mean; auto|].
  split; [intros mu; right; split; [reflexivity|]; intros [v Hv]; revert Hv; apply lv_no_variance; auto|].
  split; [intros [v Hv]; revert Hv; apply lv_no_skewness; auto|].
  split; [intros [v Hv]; revert Hv; apply lv_no_kurtosis; auto|].
  intros [v Hv]; revert Hv; apply lv_no_mean; auto.
Qed.
Print Assumptions C123_levy_moments.
Example C123_nonvacuous : exists d, Levy.new (Fin 1) (Fin 3) = Ok d.
Proof. eexists; unfold Levy.new; ok_new. Qed.

(** C124: where each of these is right, and that it is wrong everywhere else *)
Theorem C124_higher_moments_partial (SP : Special xreal) (m s S : R) (ra : Rayleigh.t xreal) (lg : LogNormal.t xreal) :
  (forall x, sf_norm (Fin x) = Fin (Phi x)) ->
  Rayleigh.new (Fin s) = Ok ra -> LogNormal.new (Fin m) (Fin S) = Ok lg ->
  let f := density_of (cdfx LogNormal.cdf lg) in
  is_kurtosis 0 p_infty (Rayleigh.pdf ra) ((32 - 3 * (PI * PI)) / ((4 - PI) * (4 - PI))) /\
  is_skewness 0 p_infty f ((exp S + 2) * sqrt (exp S - 1)) /\
  is_kurtosis 0 p_infty f (exp (4 * S) + 2 * exp (3 * S) + 3 * exp (2 * S) - 6 + 3) /\
  is_mode 0 p_infty f (exp (m - S)) /\
  (S = 1 -> returns (LogNormal.skewness lg) (is_skewness 0 p_infty f) /\ returns (LogNormal.excess_kurtosis lg) (fun k => is_kurtosis 0 p_infty f (k + 3))).
Proof.
  intros Hn H2 H3. unfold Rayleigh.new in H2. inv_new H2.
  unfold LogNormal.new in H3. destruct (UvNormal.new (Fin m) (Fin S)) as [u|] eqn:E; [|discriminate]. apply uvn_new_inv in E as [HS ->]. injection H3 as <-.
  cbv zeta. split; [apply ra_kurtosis; auto|]. split; [apply ln_skewness_true; auto|]. split; [apply ln_kurtosis_true; auto|]. split; [apply ln_mode_true; auto|].
  intros E. split; eexists; (split; [first [apply ln_sk_val; auto | apply ln_ku_val; auto]|]); replace (S * S) with S by (rewrite E; ring); [now apply ln_skewness_true|now apply ln_kurtosis_true].
Qed.
Print Assumptions C124_higher_moments_partial.
Theorem C124_higher_moments_refuted (SP : Special xreal) (m s S : R) (co : Cosine.t xreal) (ra : Rayleigh.t xreal) (lg : LogNormal.t xreal) :
  (forall x, sf_norm (Fin x) = Fin (Phi x)) ->
  Cosine.new (Fin m) (Fin s) = Ok co -> Rayleigh.new (Fin s) = Ok ra -> LogNormal.new (Fin m) (Fin S) = Ok lg ->
  let f := density_of (cdfx LogNormal.cdf lg) in
  (exists k k', Cosine.excess_kurtosis co = Fin k /\ is_kurtosis (m - s) (m + s) (density_of (cdfx Cosine.cdf co)) k' /\ k + 3 <> k') /\
  (exists k k', Rayleigh.kurtosis ra = Fin k /\ is_kurtosis 0 p_infty (Rayleigh.pdf ra) k' /\ k <> k') /\
  (S <> 1 -> (exists v v', LogNormal.variance lg = Fin v /\ is_variance 0 p_infty f (exp (m + S / 2)) v' /\ v <> v') /\
    (exists k k', LogNormal.skewness lg = Fin k /\ is_skewness 0 p_infty f k' /\ k <> k') /\
    (exists k k', LogNormal.excess_kurtosis lg = Fin k /\ is_kurtosis 0 p_infty f k' /\ k + 3 <> k') /\
    ~ all_return (LogNormal.modes lg) (is_mode 0 p_infty f)).
Proof.
  intros Hn H1 H2 H3. unfold Cosine.new in H1. inv_new H1. unfold Rayleigh.new in H2. inv_new H2.
  unfold LogNormal.new in H3. destruct (UvNormal.new (Fin m) (Fin S)) as [u|] eqn:E; [|discriminate]. apply uvn_new_inv in E as [HS ->]. injection H3 as <-.
  assert (PP := PI_RGT_0). assert (P6 := PI2_gt6). cbv zeta.
  split; [|split].
  - eexists; eexists. split; [apply co_ku_val; auto|]. split; [apply co_kurtosis; auto|]. intros E.
    assert (X : 6 * (60 - PI ^ 4) = 6 * (90 - PI ^ 4)); [|lra]. apply Rmult_eq_reg_r with (/ (5 * (PI * PI - 6) ^ 2)); [unfold Rdiv in E; lra|].
    apply Rinv_neq_0_compat. assert (0 < (PI * PI - 6) ^ 2) by (apply pow_lt; lra). lra.
  - eexists; eexists. split; [apply ra_kurt_val; auto|]. split; [apply ra_kurtosis; auto|]. apply Rgt_not_eq, ra_kurt_wrong.
  - intros N. assert (Q : S * S <> S) by (intros X; apply N; apply Rmult_eq_reg_r with S; lra). assert (0 < S * S) by pos.
    split; [|split; [|split]].
    + eexists; eexists. split; [apply ln_var_val; auto|]. split; [apply ln_variance_true; auto|]. apply (inc_neq (fun p => (exp p - 1) * exp (2 * m + p))); auto. intros; now apply ln_var_lt.
    + eexists; eexists. split; [apply ln_sk_val; auto|]. split; [apply ln_skewness_true; auto|]. apply inc_neq; auto. apply ln_sk_lt.
    + eexists; eexists. split; [apply ln_ku_val; auto|]. split; [apply ln_kurtosis_true; auto|]. intros X. apply (inc_neq ln_ku (S * S) S); auto; [intros; now apply ln_ku_lt|lra].
    + intros A. unfold all_return in A. change (LogNormal.modes _) with (LogNormal.modes (LogNormal.new_unchecked (Fin m) (Fin S))) in A. rewrite (ln_modes_val m S) in A.
      destruct (A _ (or_introl eq_refl)) as (v & Ev & y & Ey & M). apply Fin_inj in Ev. subst v.
      destruct (M (exp (m - S))) as (y' & Ey' & L); [apply in0; apply exp_pos|].
      assert (D := ln_density m S HS Hn). change (LogNormal.mk _) with (LogNormal.new_unchecked (Fin m) (Fin S)) in *.
      rewrite D in Ey by (apply in0; apply exp_pos). rewrite D in Ey' by (apply in0; apply exp_pos).
      apply Fin_inj in Ey. apply Fin_inj in Ey'. assert (T := ln_mode_strict m S HS (S * S) Q). lra.
Qed.
Print Assumptions C124_higher_moments_refuted.
Example C124_nonvacuous : exists (SP : Special xreal), (forall x, sf_norm (Fin x) = Fin (Phi x)) /\ (exists d, Cosine.new (Fin 1) (Fin 3) = Ok d) /\
  (exists d, Rayleigh.new (Fin 3) = Ok d) /\ exists d, LogNormal.new (Fin 1) (Fin 2) = Ok d.
Proof.
  destruct C122_refuted_nonvacuous as (SP & A & _ & _ & B). exists SP. split; [exact A|]. split; [eexists; unfold Cosine.new; ok_new|]. split; [eexists; unfold Rayleigh.new; ok_new|exact B].
Qed.
