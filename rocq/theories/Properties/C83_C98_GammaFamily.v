(** * Properties C83-C98: Gamma, Beta, inverse Gamma, beta prime, Chi, chi
      squared, F and Erlang, relative to exact special functions *)
From Coq Require Import Reals Lra Lia Psatz List ZArith.
From Coquelicot Require Import Coquelicot.
From Verif.Num Require Import XReal.
From Verif.Model Require Import Rust Constraints Probability Params Consts Traits LogFact Continuous Continuous3.
From Verif.Spec Require Import DistSpec GammaSpec ResSpec.
From Verif.Proofs Require Import ConstraintProofs NewInv XTac Calc Calc2 Improper GammaFun Subst Mellin HeavyTail Unique Oracle
  ContProofs11 ContProofs12 ContProofs13 ContProofs14 ContProofs15 ContProofs16 ContProofs18 ContProofs19 DiscProofs4.
From Verif.Proofs Require Import ContProofs25.
Import ListNotations.
Open Scope R_scope.
Notation cdfx cdf d := (fun x => unwrap (cdf d x)).

(** C83: [Gam] etc. do not occur: the oracles are only assumed to be Euler's integrals *)
Theorem C83_gamma (SP : Special xreal) (a b : R) (d : Gamma.t xreal) :
  gamma_exact SP -> digamma_exact SP -> gammainc_lower SP ->
  Gamma.new (Fin a) (Fin b) = Ok d ->
  Gamma.support d = PositiveReals /\
  coherent 0 p_infty (cdfx Gamma.cdf d) (Gamma.pdf d) /\
  returns (Gamma.mean d) (fun m => is_mean 0 p_infty (Gamma.pdf d) m /\
    returns (Gamma.variance d) (is_variance 0 p_infty (Gamma.pdf d) m)) /\
  returns (Gamma.skewness d) (is_skewness 0 p_infty (Gamma.pdf d)) /\
  returns (Gamma.excess_kurtosis d) (fun e => is_kurtosis 0 p_infty (Gamma.pdf d) (3 + e)) /\
  returns (Gamma.shannon_entropy d) (is_entropy 0 p_infty (Gamma.pdf d)).
Proof.
  intros Hg Hd Hi H. unfold Gamma.new in H. inv_new H. change (Gamma.mk _) with (Gamma.new_unchecked (Fin a) (Fin b)).
  assert (HPD := ga_pdf Hg a b HP HP0). assert (0 < sqrt a) by pos.
  split; [reflexivity|]. split; [now apply ga_coherent|].
  split. { eexists; split; [unfold Gamma.mean; cbn [Gamma.pr Gamma.alpha Gamma.beta Gamma.new_unchecked]; xs; reflexivity|]. split; [apply (gam_mean a b); auto|].
    eexists; split; [|apply (gam_variance a b); auto]. unfold Gamma.variance; cbn [Gamma.pr Gamma.alpha Gamma.beta Gamma.new_unchecked]; xs. reflexivity. }
  split. { eexists; split; [unfold Gamma.skewness; cbn [Gamma.pr Gamma.alpha Gamma.beta Gamma.new_unchecked]; xs; reflexivity|]. apply (gam_skewness a b); auto. }
  split. { eexists; split; [unfold Gamma.excess_kurtosis; cbn [Gamma.pr Gamma.alpha Gamma.beta Gamma.new_unchecked]; xs; reflexivity|]. apply (gam_kurtosis a b); auto. }
  now apply ga_entropy.
Qed.
Print Assumptions C83_gamma.
Example C83_nonvacuous : gamma_exact (exact false) /\ digamma_exact (exact false) /\ gammainc_lower (exact false) /\ exists d, Gamma.new (Fin 2) (Fin 3) = Ok d.
Proof. split; [apply ex_gamma|]. split; [apply ex_psi|]. split; [apply ex_gil|]. eexists. unfold Gamma.new. ok_new. Qed.

(** C84: the generator is given the rate where a scale is expected *)
Theorem C84_gamma_sample_refuted (SP : Special xreal) (RG : Rng xreal xreal) (a b : R) (d : Gamma.t xreal) :
  gamma_exact SP -> gammainc_lower SP ->
  (forall u, 0 < u < 1 -> exists x, fst (draw_gamma (Fin a) (Fin b) (Fin u)) = Fin x /\ is_gamma_quantile a b u x) ->
  Gamma.new (Fin a) (Fin b) = Ok d ->
  (samples_from 0 p_infty (cdfx Gamma.cdf d) (fun u => fst (Gamma.sample d u)) <-> b = 1).
Proof.
  intros Hg Hi HR H. unfold Gamma.new in H. inv_new H. change (Gamma.mk _) with (Gamma.new_unchecked (Fin a) (Fin b)). split.
  - intros HS. destruct (Req_dec b 1) as [E|E]; [auto|]. exfalso. revert HS. now apply ga_sample_wrong.
  - intros E. now apply ga_sample_ok.
Qed.
Print Assumptions C84_gamma_sample_refuted.
Example C84_nonvacuous : gamma_exact (exact false) /\ gammainc_lower (exact false) /\ (exists d, Gamma.new (Fin 1) (Fin 3) = Ok d) /\
  (forall u, 0 < u < 1 -> exists x, fst (draw_gamma (Rng := inv_rng) (Fin 1) (Fin 3) (Fin u)) = Fin x /\ is_gamma_quantile 1 3 u x).
Proof. split; [apply ex_gamma|]. split; [apply ex_gil|]. split; [eexists; unfold Gamma.new; ok_new|]. intros u Hu. apply inv_rng_exp; lra. Qed.

(** C85 *)
Theorem C85_beta (SP : Special xreal) (a b : R) (d : Beta.t xreal) :
  beta_exact SP -> digamma_exact SP -> logbeta_exact SP -> betainc_exact SP ->
  Beta.new (Fin a) (Fin b) = Ok d ->
  Beta.support d = Closed (Fin 0) (Fin 1) /\
  coherent 0 1 (cdfx Beta.cdf d) (Beta.pdf d) /\
  returns (Beta.mean d) (fun m => is_mean 0 1 (Beta.pdf d) m /\
    returns (Beta.variance d) (is_variance 0 1 (Beta.pdf d) m)) /\
  returns (Beta.skewness d) (is_skewness 0 1 (Beta.pdf d)) /\
  returns (Beta.shannon_entropy d) (is_entropy 0 1 (Beta.pdf d)).
Proof.
  intros Hg Hd Hl Hi H. unfold Beta.new in H. inv_new H. change (Beta.mk _) with (Beta.new_unchecked (Fin a) (Fin b)).
  split; [reflexivity|]. split; [now apply be_coherent|].
  split. { eexists; split; [now apply be_mean_val|]. split; [now apply be_mean|]. eexists; split; [now apply be_var_val|now apply be_variance]. }
  split; [now apply be_skewness|now apply be_entropy].
Qed.
Print Assumptions C85_beta.
Example C85_nonvacuous : beta_exact (exact false) /\ digamma_exact (exact false) /\ logbeta_exact (exact false) /\ betainc_exact (exact false) /\
  exists d, Beta.new (Fin 2) (Fin (1 / 2)) = Ok d.
Proof. split; [apply ex_beta|]. split; [apply ex_psi|]. split; [apply ex_logbeta|]. split; [apply ex_betainc|]. eexists. unfold Beta.new. ok_new. Qed.

(** C86: excess kurtosis wrong whenever a = b; median right for a = b, and for
    one shape equal to 1, wrong at Beta(3,2) although a special case for it exists *)
Theorem C86_beta_kurtosis_refuted (SP : Special xreal) (a : R) (d : Beta.t xreal) :
  beta_exact SP -> Beta.new (Fin a) (Fin a) = Ok d ->
  exists e, Beta.excess_kurtosis d = Fin e /\ ~ is_kurtosis 0 1 (Beta.pdf d) (3 + e).
Proof.
  intros Hg H. unfold Beta.new in H. inv_new H. change (Beta.mk _) with (Beta.new_unchecked (Fin a) (Fin a)).
  eexists; split; [now apply be_ek_val|]. intros K. assert (K' := be_kurtosis Hg a a HP HP).
  assert (E := kurtosis_unique _ _ _ _ _ K K'). unfold be_ek in E.
  replace (6 * ((a - a) * (a - a) * (a + a + 1) - a * a * (a + a + 2)) / (a * a * (a + a + 2) * (a + a + 3))) with (- (6 * / (a + a + 3))) in E by (field; lra).
  assert (0 < / (a + a + 3)) by pos. nra.
Qed.
Print Assumptions C86_beta_kurtosis_refuted.
Theorem C86_beta_median_refuted (SP : Special xreal) : beta_exact SP -> betainc_exact SP ->
  exists d m, Beta.new (Fin 3) (Fin 2) = Ok d /\ Beta.median d = Ret (Fin m) /\ 0 < m < 1 /\ ~ is_median (cdfx Beta.cdf d) m.
Proof.
  intros Hg Hi. destruct (be_median_32 Hg Hi) as (m & E & Hm & N). exists (Beta.new_unchecked (Fin 3) (Fin 2)), m.
  split; [unfold Beta.new; etransitivity; [ok_new|reflexivity]|auto].
Qed.
Print Assumptions C86_beta_median_refuted.
Theorem C86_beta_median_partial (SP : Special xreal) (a b : R) (d : Beta.t xreal) :
  beta_exact SP -> betainc_exact SP -> Beta.new (Fin a) (Fin b) = Ok d ->
  a = b \/ (1 / 10000000 <= Rabs (a - b) /\ (a = 1 \/ b = 1)) ->
  exists m, Beta.median d = Ret m /\ returns m (is_median (cdfx Beta.cdf d)).
Proof.
  intros Hg Hi H. unfold Beta.new in H. inv_new H. change (Beta.mk _) with (Beta.new_unchecked (Fin a) (Fin b)). now apply be_median.
Qed.
Print Assumptions C86_beta_median_partial.

(** C87 *)
Theorem C87_inverse_gamma (SP : Special xreal) (a b : R) (d : InvGamma.t xreal) :
  gamma_exact SP -> digamma_exact SP ->
  InvGamma.new (Fin a) (Fin b) = Ok d ->
  InvGamma.support d = PositiveReals /\
  is_RInt_gen (rf (InvGamma.pdf d)) (at_right 0) (Rbar_locally p_infty) 1 /\
  (forall x, 0 < x -> exists v, InvGamma.pdf d (Fin x) = Fin v /\ 0 < v) /\
  returned_iff_exists (InvGamma.mean d) (is_mean 0 p_infty (InvGamma.pdf d)) /\
  returned_iff_exists (InvGamma.variance d) (fun v => exists m, is_variance 0 p_infty (InvGamma.pdf d) m v) /\
  returned_iff_exists (InvGamma.skewness d) (is_skewness 0 p_infty (InvGamma.pdf d)) /\
  returned_iff_exists (InvGamma.excess_kurtosis d) (fun e => is_kurtosis 0 p_infty (InvGamma.pdf d) (3 + e)) /\
  returns (InvGamma.shannon_entropy d) (is_entropy 0 p_infty (InvGamma.pdf d)).
Proof.
  intros Hg Hd H. unfold InvGamma.new in H. inv_new H. change (InvGamma.mk _) with (InvGamma.new_unchecked (Fin a) (Fin b)).
  split; [reflexivity|]. split; [now apply ig_total|].
  split. { intros x Hx. eexists; split; [now apply ig_pdf, in0|now apply ig_u_pos, in0]. }
  unfold returned_iff_exists. split. { generalize (ig_mean Hg a b HP HP0). destruct (InvGamma.mean _); [tauto| |]; intros L (m & M); revert M; now apply ig_no_mean. }
  split. { generalize (ig_variance Hg a b HP HP0). destruct (InvGamma.variance _); [intros [_ (v & E & V)]; exists v; split; eauto| |]; intros L (v & m & M); revert M; now apply ig_no_variance. }
  split. { generalize (ig_skewness Hg a b HP HP0). destruct (InvGamma.skewness _); [tauto| |]; intros L (m & M); revert M; now apply ig_no_skewness. }
  split. { generalize (ig_kurtosis Hg a b HP HP0). destruct (InvGamma.excess_kurtosis _); [tauto| |]; intros L (m & M); revert M; now apply ig_no_kurtosis. }
  now apply ig_entropy.
Qed.
Print Assumptions C87_inverse_gamma.
Example C87_nonvacuous : gamma_exact (exact false) /\ digamma_exact (exact false) /\ exists d m, InvGamma.new (Fin 5) (Fin 3) = Ok d /\ InvGamma.excess_kurtosis d = Ret m.
Proof.
  split; [apply ex_gamma|]. split; [apply ex_psi|]. eexists _, _. split; [unfold InvGamma.new; ok_new|]. unfold InvGamma.excess_kurtosis. cbn [InvGamma.pr InvGamma.alpha]. xs.
  destruct (Rleb_spec 5 4); [lra|reflexivity].
Qed.

(** C88: the method returns the upper tail *)
Theorem C88_inverse_gamma_cdf_refuted (SP : Special xreal) (a b : R) (d : InvGamma.t xreal) :
  gamma_exact SP -> gammainc_lower SP \/ gammainc_regularised SP -> InvGamma.new (Fin a) (Fin b) = Ok d ->
  ~ is_cdf 0 p_infty (cdfx InvGamma.cdf d).
Proof.
  intros Hg Hi H. unfold InvGamma.new in H. inv_new H. change (InvGamma.mk _) with (InvGamma.new_unchecked (Fin a) (Fin b)). now apply ig_not_cdf.
Qed.
Print Assumptions C88_inverse_gamma_cdf_refuted.
Theorem C88_inverse_gamma_cdf_partial (SP : Special xreal) (a b : R) (d : InvGamma.t xreal) :
  gamma_exact SP -> gammainc_lower SP -> InvGamma.new (Fin a) (Fin b) = Ok d ->
  coherent 0 p_infty (fun x => fsub (f_of_Z 1) (unwrap (InvGamma.cdf d x))) (InvGamma.pdf d).
Proof.
  intros Hg Hi H. unfold InvGamma.new in H. inv_new H. change (InvGamma.mk _) with (InvGamma.new_unchecked (Fin a) (Fin b)). now apply ig_coherent.
Qed.
Print Assumptions C88_inverse_gamma_cdf_partial.

(** C89 *)
Theorem C89_beta_prime (SP : Special xreal) (a b : R) (d : BetaPrime.t xreal) :
  beta_exact SP -> betainc_exact SP ->
  BetaPrime.new (Fin a) (Fin b) = Ok d ->
  BetaPrime.support d = PositiveReals /\
  coherent 0 p_infty (cdfx BetaPrime.cdf d) (BetaPrime.pdf d) /\
  returned_iff_exists (BetaPrime.mean d) (is_mean 0 p_infty (BetaPrime.pdf d)) /\
  returned_iff_exists (BetaPrime.variance d) (fun v => exists m, is_variance 0 p_infty (BetaPrime.pdf d) m v) /\
  returned_iff_exists (BetaPrime.skewness d) (is_skewness 0 p_infty (BetaPrime.pdf d)).
Proof.
  intros Hg Hi H. unfold BetaPrime.new in H. inv_new H. change (BetaPrime.mk _) with (BetaPrime.new_unchecked (Fin a) (Fin b)).
  assert (L1 : 0 < 1) by lra.
  split; [reflexivity|]. split; [now apply bp_coherent|].
  unfold returned_iff_exists. split. { generalize (bp_mean Hg a b HP HP0). destruct (BetaPrime.mean _); [tauto| |]; intros L (m & M); revert M; apply (od_no_mean 1 a b); auto; now apply bp_pdf. }
  split. { generalize (bp_variance Hg a b HP HP0). destruct (BetaPrime.variance _); [intros [_ (v & E & V)]; exists v; split; eauto| |]; intros L (v & m & M); revert M; apply (od_no_variance 1 a b); auto; now apply bp_pdf. }
  generalize (bp_skewness Hg a b HP HP0). destruct (BetaPrime.skewness _); [tauto| |]; intros L (m & M); revert M; apply (od_no_skewness 1 a b); auto; now apply bp_pdf.
Qed.
Print Assumptions C89_beta_prime.
Example C89_nonvacuous : beta_exact (exact false) /\ betainc_exact (exact false) /\ exists d, BetaPrime.new (Fin 2) (Fin 4) = Ok d.
Proof. split; [apply ex_beta|]. split; [apply ex_betainc|]. eexists. unfold BetaPrime.new. ok_new. Qed.

(** C90 *)
Theorem C90_beta_prime_kurtosis_refuted (SP : Special xreal) (a b : R) (d : BetaPrime.t xreal) :
  beta_exact SP -> BetaPrime.new (Fin a) (Fin b) = Ok d -> 1 <= a -> 4 < b ->
  exists e, BetaPrime.excess_kurtosis d = Fin e /\ ~ is_kurtosis 0 p_infty (BetaPrime.pdf d) (3 + e).
Proof.
  intros Hg H. unfold BetaPrime.new in H. inv_new H. change (BetaPrime.mk _) with (BetaPrime.new_unchecked (Fin a) (Fin b)). intros H1 H4.
  eexists; split; [now apply bp_ek_val|]. intros K. assert (K' := bp_kurtosis Hg a b HP HP0 H4). assert (E := kurtosis_unique _ _ _ _ _ K K'). unfold od_ek in E.
  assert (P : 0 < a * (a + (b - 1)) * (b - 3) * (b - 4)) by (repeat apply Rmult_lt_0_compat; lra).
  apply Rplus_eq_reg_l in E. replace (a + b - 1) with (a + (b - 1)) in E by ring. unfold Rdiv in E. apply Rmult_eq_reg_r in E; [|apply Rinv_neq_0_compat; lra].
  assert (0 < (b - 1) * (b - 1) * (b - 2)) by (repeat apply Rmult_lt_0_compat; lra).
  assert (0 <= (a - 1) * ((a + (b - 1)) * (5 * b - 11))). { apply Rmult_le_pos; [lra|]. apply Rmult_le_pos; lra. } nra.
Qed.
Print Assumptions C90_beta_prime_kurtosis_refuted.
(** and it is returned where the fourth moment does not exist *)
Theorem C90_beta_prime_kurtosis_unguarded_refuted (SP : Special xreal) (a b : R) (d : BetaPrime.t xreal) :
  beta_exact SP -> BetaPrime.new (Fin a) (Fin b) = Ok d -> b < 4 -> b <> 3 -> a + (b - 1) <> 0 ->
  (exists e, BetaPrime.excess_kurtosis d = Fin e) /\ ~ exists k, is_kurtosis 0 p_infty (BetaPrime.pdf d) k.
Proof.
  intros Hg H. unfold BetaPrime.new in H. inv_new H. change (BetaPrime.mk _) with (BetaPrime.new_unchecked (Fin a) (Fin b)). intros H4 H3 H1.
  split; [apply bp_ek_noguard; auto; lra|]. intros (k & K). revert K. apply (od_no_kurtosis 1 a b); auto; [lra|now apply bp_pdf|lra].
Qed.
Print Assumptions C90_beta_prime_kurtosis_unguarded_refuted.
Theorem C90_beta_prime_entropy_refuted (SP : Special xreal) (a b : R) (d : BetaPrime.t xreal) :
  beta_exact SP -> digamma_exact SP -> logbeta_exact SP -> BetaPrime.new (Fin a) (Fin b) = Ok d ->
  exists e h, BetaPrime.shannon_entropy d = Fin e /\ is_entropy 0 p_infty (BetaPrime.pdf d) h /\ e < h.
Proof.
  intros Hg Hd Hl H. unfold BetaPrime.new in H. inv_new H. change (BetaPrime.mk _) with (BetaPrime.new_unchecked (Fin a) (Fin b)).
  eexists _, _. split; [now apply bp_entropy_val|]. split; [now apply bp_entropy_true|]. assert (L := psi_lt b a HP0 HP). rewrite (Rplus_comm b a) in L. nra.
Qed.
Print Assumptions C90_beta_prime_entropy_refuted.

(** C91 *)
Theorem C91_chi (SP : Special xreal) (k : Z) (d : Chi.t) :
  gamma_exact SP -> gammainc_regularised SP -> Chi.new (F := xreal) k = Ok d ->
  Chi.support (F := xreal) d = PositiveReals /\
  coherent 0 p_infty (cdfx Chi.cdf d) (Chi.pdf d) /\
  returns (Chi.mean d) (fun m => is_mean 0 p_infty (Chi.pdf d) m /\
    returns (Chi.variance d) (is_variance 0 p_infty (Chi.pdf d) m)) /\
  returns (Chi.skewness d) (is_skewness 0 p_infty (Chi.pdf d)) /\
  returns (Chi.excess_kurtosis d) (fun e => is_kurtosis 0 p_infty (Chi.pdf d) (3 + e)).
Proof.
  intros Hg Hi H. unfold Chi.new in H. inv_new H. change (Chi.mk _) with (Chi.new_unchecked k).
  split; [reflexivity|]. split; [now apply ch_coherent|].
  split. { eexists; split; [now apply ch_mean_val|]. split; [now apply ch_mean|]. eexists; split; [now apply ch_var_val|now apply ch_variance]. }
  split; [eexists; split; [now apply ch_sk_val|now apply ch_skewness]|eexists; split; [now apply ch_ek_val|now apply ch_kurtosis]].
Qed.
Print Assumptions C91_chi.
Example C91_nonvacuous : gamma_exact (exact true) /\ gammainc_regularised (exact true) /\ exists d, Chi.new (F := xreal) 3 = Ok d.
Proof. split; [apply ex_gamma|]. split; [apply ex_gir|]. eexists. unfold Chi.new. ok_new. Qed.

(** C92 *)
Theorem C92_chi_entropy_refuted (SP : Special xreal) (k : Z) (d : Chi.t) :
  gamma_exact SP -> digamma_exact SP -> Chi.new (F := xreal) k = Ok d -> (k <= 2)%Z ->
  exists e, Chi.shannon_entropy d = Fin e /\ ~ is_entropy 0 p_infty (Chi.pdf d) e.
Proof.
  intros Hg Hd H. unfold Chi.new in H. inv_new H. change (Chi.mk _) with (Chi.new_unchecked k). intros Hk2.
  eexists; split; [now apply ch_entropy_val|]. intros K. assert (K' := ch_entropy Hg k HP). assert (E := entropy_unique _ _ _ _ _ K K'). unfold chi_ent in E.
  assert (L : ln 2 < 1) by (rewrite <- (ln_exp 1); apply ln_increasing; [lra|assert (G := exp_ineq1 1 ltac:(lra)); lra]).
  assert (k = 1%Z \/ k = 2%Z) as [->| ->] by lia; [|replace (2 / 2) with 1 in E by field; assert (G := psi_1_neg)]; lra.
Qed.
Print Assumptions C92_chi_entropy_refuted.
Example C92_nonvacuous : exists d, Chi.new (F := xreal) 2 = Ok d. Proof. eexists. unfold Chi.new. ok_new. Qed.

(** C93 *)
Theorem C93_chi_squared (SP : Special xreal) (k : Z) (d : ChiSq.t) :
  gamma_exact SP -> digamma_exact SP -> gammainc_lower SP -> ChiSq.new (F := xreal) k = Ok d ->
  ChiSq.support (F := xreal) d = PositiveReals /\
  coherent 0 p_infty (cdfx ChiSq.cdf d) (ChiSq.pdf d) /\
  returns (ChiSq.mean d) (fun m => is_mean 0 p_infty (ChiSq.pdf d) m /\
    ((2 * k <= U64_MAX)%Z -> exists v, ChiSq.variance d = Ret (Fin v) /\ is_variance 0 p_infty (ChiSq.pdf d) m v)) /\
  returns (ChiSq.skewness d) (is_skewness 0 p_infty (ChiSq.pdf d)) /\
  returns (ChiSq.excess_kurtosis d) (fun e => is_kurtosis 0 p_infty (ChiSq.pdf d) (3 + e)) /\
  returns (ChiSq.shannon_entropy d) (is_entropy 0 p_infty (ChiSq.pdf d)).
Proof.
  intros Hg Hd Hi H. unfold ChiSq.new in H. inv_new H. change (ChiSq.mk _) with (ChiSq.new_unchecked k).
  split; [reflexivity|]. split; [now apply cs_coherent|].
  split. { destruct (cs_mean Hg k HP) as (m & E & M). exists m; split; [auto|]. split; [auto|]. intros Hu. rewrite (cs_mean_val k) in E. apply Fin_inj in E. rewrite <- E. now apply cs_variance. }
  split; [now apply cs_skewness|]. split; [now apply cs_kurtosis|now apply cs_entropy].
Qed.
Print Assumptions C93_chi_squared.
Example C93_nonvacuous : gamma_exact (exact false) /\ digamma_exact (exact false) /\ gammainc_lower (exact false) /\ (2 * 7 <= U64_MAX)%Z /\ exists d, ChiSq.new (F := xreal) 7 = Ok d.
Proof. split; [apply ex_gamma|]. split; [apply ex_psi|]. split; [apply ex_gil|]. split; [unfold U64_MAX; lia|]. eexists. unfold ChiSq.new. ok_new. Qed.

(** C94: no function [gammainc] whatever makes Chi and ChiSquared right together *)
Theorem C94_chi_chisq_together_refuted (SP : Special xreal) : gamma_exact SP ->
  exists c q, Chi.new (F := xreal) 6 = Ok c /\ ChiSq.new (F := xreal) 6 = Ok q /\
  ~ (coherent 0 p_infty (cdfx Chi.cdf c) (Chi.pdf c) /\ coherent 0 p_infty (cdfx ChiSq.cdf q) (ChiSq.pdf q)).
Proof.
  intros Hg. exists (Chi.new_unchecked 6), (ChiSq.new_unchecked 6). split; [unfold Chi.new; etransitivity; [ok_new|reflexivity]|]. split; [unfold ChiSq.new; etransitivity; [ok_new|reflexivity]|].
  intros [A B]. exact (gammainc_clash SP Hg A B).
Qed.
Print Assumptions C94_chi_chisq_together_refuted.

(** C95 *)
Theorem C95_f_dist (SP : Special xreal) (n1 n2 : Z) (d : FDist.t) :
  beta_exact SP -> betainc_exact SP -> FDist.new (F := xreal) n1 n2 = Ok d ->
  FDist.support (F := xreal) d = PositiveReals /\
  coherent 0 p_infty (cdfx FDist.cdf d) (FDist.pdf d) /\
  returned_iff_exists (FDist.mean d) (is_mean 0 p_infty (FDist.pdf d)) /\
  returned_iff_exists (FDist.variance d) (fun v => exists m, is_variance 0 p_infty (FDist.pdf d) m v) /\
  ((6 < n2)%Z -> exists v, FDist.skewness d = Ret (Fin v) /\ is_skewness 0 p_infty (FDist.pdf d) v).
Proof.
  intros Hg Hi H. unfold FDist.new in H. inv_new H. change (FDist.mk _) with (FDist.new_unchecked n1 n2).
  assert (A1 := IZR_lt _ _ HP). assert (A2 := IZR_lt _ _ HP0). assert (PC : 0 < IZR n2 / IZR n1) by pos. assert (H1h : 0 < IZR n1 / 2) by lra. assert (H2h : 0 < IZR n2 / 2) by lra.
  split; [reflexivity|]. split; [now apply fd_coherent|].
  unfold returned_iff_exists. split.
  { generalize (fd_mean Hg n1 n2 HP HP0). destruct (FDist.mean _); [tauto| |]; intros L%IZR_le (m & M); revert M; apply (od_no_mean _ _ _ PC H1h H2h _ (fd_pdf Hg n1 n2 HP HP0)); lra. }
  split. { generalize (fd_variance Hg n1 n2 HP HP0). destruct (FDist.variance _); [intros [_ (v & E & V)]; exists v; split; eauto| |]; intros L%IZR_le (v & m & M); revert M; apply (od_no_variance _ _ _ PC H1h H2h _ (fd_pdf Hg n1 n2 HP HP0)); lra. }
  now apply fd_skewness.
Qed.
Print Assumptions C95_f_dist.
Example C95_nonvacuous : beta_exact (exact false) /\ betainc_exact (exact false) /\ exists d, FDist.new (F := xreal) 3 7 = Ok d.
Proof. split; [apply ex_beta|]. split; [apply ex_betainc|]. eexists. unfold FDist.new. ok_new. Qed.

(** C96 *)
Theorem C96_f_dist_skewness_refuted (SP : Special xreal) (n1 : Z) (d : FDist.t) :
  beta_exact SP -> FDist.new (F := xreal) n1 5 = Ok d ->
  (exists v, FDist.skewness d = Ret (Fin v)) /\ ~ exists v, is_skewness 0 p_infty (FDist.pdf d) v.
Proof.
  intros Hg H. unfold FDist.new in H. inv_new H. change (FDist.mk _) with (FDist.new_unchecked n1 5).
  assert (A1 := IZR_lt _ _ HP). assert (PC : 0 < IZR 5 / IZR n1) by pos. assert (H1h : 0 < IZR n1 / 2) by lra. assert (H2h : 0 < IZR 5 / 2) by lra. split.
  - destruct (fd_skewness_5 n1 5 HP HP0 eq_refl) as (v & E & _). eauto.
  - intros (v & K). revert K. apply (od_no_skewness _ _ _ PC H1h H2h _ (fd_pdf Hg n1 5 HP HP0)). lra.
Qed.
Print Assumptions C96_f_dist_skewness_refuted.
Theorem C96_f_dist_kurtosis_refuted (SP : Special xreal) (n1 n2 : Z) (d : FDist.t) :
  beta_exact SP -> FDist.new (F := xreal) n1 n2 = Ok d -> (8 < n2)%Z ->
  exists e, FDist.excess_kurtosis d = Ret (Fin e) /\ ~ is_kurtosis 0 p_infty (FDist.pdf d) (3 + e).
Proof.
  intros Hg H. unfold FDist.new in H. inv_new H. change (FDist.mk _) with (FDist.new_unchecked n1 n2). intros H8.
  destruct (fd_ek_val n1 n2 HP HP0 H8) as (e & E & L). exists e; split; [auto|]. intros K.
  assert (K' := fd_kurtosis Hg n1 n2 HP HP0 H8). assert (Q := kurtosis_unique _ _ _ _ _ K K'). lra.
Qed.
Print Assumptions C96_f_dist_kurtosis_refuted.
Theorem C96_f_dist_entropy_refuted (SP : Special xreal) :
  beta_exact SP -> gamma_exact SP -> digamma_exact SP ->
  exists d e, FDist.new (F := xreal) 2 2 = Ok d /\ FDist.shannon_entropy d = Fin e /\ ~ is_entropy 0 p_infty (FDist.pdf d) e.
Proof.
  intros Hg Hgm Hd. exists (FDist.new_unchecked 2 2). eexists. split; [unfold FDist.new; etransitivity; [ok_new|reflexivity]|]. assert (H2 : (0 < 2)%Z) by lia.
  split; [now apply fd_entropy_val|]. intros K. assert (K' := fd_entropy_true Hg 2 2 H2 H2). assert (E := entropy_unique _ _ _ _ _ K K'). unfold od_ent in E.
  replace (2 / 2) with 1 in E by field. replace ((2 + 2) / 2) with (1 + 1) in E by field. rewrite Gam_rec, Gam_1 in E by lra. rewrite !Rmult_1_r, !ln_1 in E.
  rewrite psi_rec in E by lra. assert (EB : Bet 1 1 = 1). { apply (Beta_unique 1 1); [apply Bet_spec; lra|]. assert (B := Beta_1 1 ltac:(lra)). rewrite Rinv_1 in B. exact B. }
  rewrite EB, ln_1, Rinv_1 in E. assert (G := psi_1_neg). lra.
Qed.
Print Assumptions C96_f_dist_entropy_refuted.

(** C97: moments and mode of the textbook Erlang density *)
Theorem C97_erlang_moments (k : nat) (l : R) (d : Erlang.t xreal) :
  Erlang.new (Z.of_nat k) (Fin l) = Ok d -> (Z.of_nat k <= U64_MAX)%Z ->
  let f := fun x => Fin (erlang_density k l (val x)) in
  Erlang.support d = PositiveReals /\
  returns (Erlang.mean d) (fun m => is_mean 0 p_infty f m /\ returns (Erlang.variance d) (is_variance 0 p_infty f m)) /\
  returns (Erlang.skewness d) (is_skewness 0 p_infty f) /\
  returns (Erlang.excess_kurtosis d) (fun e => is_kurtosis 0 p_infty f (3 + e)) /\
  exists m, Erlang.modes d = Ret [m] /\ returns m (is_mode 0 p_infty f).
Proof.
  intros H Hu f. unfold Erlang.new in H. inv_new H. change (Erlang.mk _) with (Erlang.new_unchecked (Z.of_nat k) (Fin l)).
  assert (Hk : (0 < k)%nat) by lia.
  split; [reflexivity|]. split. { destruct (er_mean k Hk l HP0) as (m & E & M). exists m. split; [auto|]. split; [auto|].
    destruct (er_variance k Hk l HP0) as (v & Ev & V). exists v. split; [auto|]. replace m with (INR k / l); [exact V|]. eapply mean_unique; [exact (proj1 V)|exact M]. }
  split; [now apply er_skewness|]. split; [now apply er_kurtosis|now apply er_modes].
Qed.
Print Assumptions C97_erlang_moments.
Example C97_nonvacuous : exists d, Erlang.new (Z.of_nat 3) (Fin 2) = Ok d. Proof. eexists. unfold Erlang.new. ok_new. Qed.

(** C98: pdf and cdf are those of the Erlang law only for k = 1 *)
Theorem C98_erlang_refuted (SP : Special xreal) (l : R) (d : Erlang.t xreal) :
  Erlang.new 2 (Fin l) = Ok d ->
  ~ is_RInt_gen (rf (fun x => got (Erlang.pdf d x))) (at_right 0) (Rbar_locally p_infty) 1 /\
  (gammainc_lower SP \/ gammainc_regularised SP -> ~ is_cdf 0 p_infty (fun x => gotp (Erlang.cdf d x))).
Proof.
  intros H. unfold Erlang.new in H. inv_new H. change (Erlang.mk _) with (Erlang.new_unchecked 2 (Fin l)). split; [now apply er2_total|intros Hi; now apply er2_cdf_wrong].
Qed.
Print Assumptions C98_erlang_refuted.
Theorem C98_erlang_partial (SP : Special xreal) (l : R) (d : Erlang.t xreal) :
  gammainc_lower SP \/ gammainc_regularised SP -> Erlang.new 1 (Fin l) = Ok d ->
  coherent 0 p_infty (fun x => gotp (Erlang.cdf d x)) (fun x => got (Erlang.pdf d x)).
Proof. intros Hi H. unfold Erlang.new in H. inv_new H. change (Erlang.mk _) with (Erlang.new_unchecked 1 (Fin l)). now apply er1_coherent. Qed.
Print Assumptions C98_erlang_partial.
Example C98_nonvacuous : exists d, Erlang.new 2 (Fin 3) = Ok d. Proof. eexists. unfold Erlang.new. ok_new. Qed.
