(** * Variance, skewness and kurtosis of Gumbel *)
From Coq Require Import Reals Lra Lia Psatz List ZArith.
From Coquelicot Require Import Coquelicot.
From Verif.Num Require Import Scalar XReal.
From Verif.Model Require Import Rust Constraints Probability Params Consts Continuous.
From Verif.Spec Require Import DistSpec GammaSpec ResSpec ZetaSpec.
From Verif.Proofs Require Import XTac Calc Calc2 Improper GammaFun Subst Mellin ExpPush Zeta LogGamma LogisticMoments ContProofs2 ContProofs11 ContProofs13 ContProofs28.
Import ListNotations.
Open Scope R_scope.

Lemma ei_lnj j : is_RInt_gen (fun t => ln t ^ j * exp (- t)) (above 0) (below p_infty) (Lam j 1).
Proof.
  assert (A := LG_spec j 1 Rlt_0_1). apply (gen_eq 0 p_infty _ _ (Lam j 1)) in A; [|unfold Lam; rewrite Gam_1; field]. revert A.
  apply (is_RInt_gen_inside 0 p_infty); [exact I|]. intros t Ht%in0f. unfold gamma_h. replace (1 - 1) with 0 by ring. rewrite Rpower_O by auto. ring.
Qed.
Lemma zeta_nat n v : is_zeta (INR n) v <-> is_series (fun k => / (INR k + 1) ^ n) v.
Proof.
  unfold is_zeta. assert (E : forall k, Rpower (INR k + 1) (- INR n) = / (INR k + 1) ^ n). { intros k. assert (0 < INR k + 1) by (generalize (pos_INR k); lra). rewrite Rpower_Ropp, Rpower_pow by auto. reflexivity. }
  split; apply is_series_ext; intros k; [|symmetry]; apply E.
Qed.
Lemma zeta3 v : is_zeta 3 v -> v = - k3 1 / 2.
Proof.
  intros H. replace 3 with (INR 3) in H by (cbn; lra). apply zeta_nat in H. apply is_series_unique in H. rewrite <- H. apply is_series_unique, k3_1.
Qed.
Section Gumbel.
Import Gumbel.
Context {SP : Special xreal} (m g : R) (Hg : 0 < g).
Notation d := (new_unchecked (Fin m) (Fin g)).
Notation T x := (exp (- ((x - m) / g))).
Lemma gu_ab n : is_expectation m_infty p_infty (pdf d) (fun x => ((x - m) / - g) ^ n) (Lam n 1).
Proof.
  eapply exp_in; [exact I| |apply (gu_push m g Hg (fun t => ln t ^ n)); [intros t Ht%in0f; now apply lnj_cont|apply ei_lnj]].
  intros x _. cbn beta. rewrite ln_exp. f_equal. field. lra.
Qed.
Let Hl0 : Lam 0 1 = 1. Proof. apply Lam_0; lra. Qed.
Notation V := (PI * PI * g * g / 6).
Lemma gu_variance : is_variance m_infty p_infty (pdf d) (m + g * - psi 1) V.
Proof.
  apply (variance_about m_infty p_infty _ m (- g) (fun n => Lam n 1)); try apply gu_ab; try exact Hl0; [lra| |].
  - unfold Lam. rewrite LG_1, Gam_1 by lra. field.
  - change (Lam 2 1 - Lam 1 1 ^ 2) with (k2 1). rewrite k2_1. field.
Qed.
Lemma gu_V : 0 < V. Proof. assert (P := PI_RGT_0). pos. Qed.
Lemma sqrt6 : sqrt 6 * sqrt 6 = 6. Proof. apply sqrt_sqrt. lra. Qed.
Lemma gu_sqV : sqrt V = PI * g / sqrt 6.
Proof.
  assert (P := PI_RGT_0). assert (Q := sqrt6). assert (S0 : 0 < sqrt 6) by (apply sqrt_lt_R0; lra).
  apply sqrt_lem_1; [left; apply gu_V|left; pos|]. set (s := sqrt 6) in *. replace (PI * g / s * (PI * g / s)) with (PI * PI * g * g / (s * s)) by (field; lra). now rewrite Q.
Qed.
Lemma gu_skewness z : is_zeta 3 z -> is_skewness m_infty p_infty (pdf d) (12 * sqrt 6 * z / (PI * PI * PI)).
Proof.
  intros ->%zeta3. assert (P := PI_RGT_0). assert (HV := gu_V). assert (Q := sqrt6). assert (S0 : 0 < sqrt 6) by (apply sqrt_lt_R0; lra).
  apply (skewness_about m_infty p_infty _ m (- g) (fun n => Lam n 1)) with (v := V); try apply gu_ab; try exact Hl0; [lra| |exact HV|].
  - change (Lam 2 1 - Lam 1 1 ^ 2) with (k2 1). rewrite k2_1. field.
  - rewrite gu_sqV. change (Lam 3 1 - 3 * Lam 1 1 * Lam 2 1 + 2 * Lam 1 1 ^ 3) with (k3 1). field. lra.
Qed.
Lemma gu_kurtosis : is_kurtosis m_infty p_infty (pdf d) (27 / 5).
Proof.
  assert (P := PI_RGT_0). assert (HV := gu_V).
  apply (kurtosis_about m_infty p_infty _ m (- g) (fun n => Lam n 1)) with (v := V); try apply gu_ab; try exact Hl0; [lra| |exact HV|].
  - change (Lam 2 1 - Lam 1 1 ^ 2) with (k2 1). rewrite k2_1. field.
  - assert (K := k4_1). assert (K2 := k2_1). unfold k4 in K. unfold k2 in K2.
    replace (Lam 4 1 - 4 * Lam 1 1 * Lam 3 1 + 6 * Lam 1 1 ^ 2 * Lam 2 1 - 3 * Lam 1 1 ^ 4)
      with ((Lam 4 1 - 4 * Lam 3 1 * Lam 1 1 - 3 * Lam 2 1 ^ 2 + 12 * Lam 2 1 * Lam 1 1 ^ 2 - 6 * Lam 1 1 ^ 4) + 3 * (Lam 2 1 - Lam 1 1 ^ 2) ^ 2) by ring.
    rewrite K, K2. field.
Qed.
Lemma gu_var_val : variance d = Fin V.
Proof. unfold variance, PI2. cbn [pr beta new_unchecked]. now xs. Qed.
Lemma gu_sk_val z : sf_riemann_zeta (Fin 3) = Fin z -> skewness d = Fin (12 * sqrt 6 * z / (PI * PI * PI)).
Proof. intros H. assert (P := PI_RGT_0). assert (0 < PI * PI * PI) by pos. unfold skewness, PI3. xs. rewrite H. now xs. Qed.
Lemma gu_ku_val : kurtosis d = Fin (27 / 5). Proof. unfold kurtosis, TWENTY_SEVEN_FIFTHS. now xs. Qed.
Lemma gu_ek_val : excess_kurtosis d = Fin (12 / 5). Proof. unfold excess_kurtosis, TWELVE_FIFTHS. now xs. Qed.
End Gumbel.

Section Logistic.
Import Logistic.
Context (m g : R) (Hg : 0 < g).
Notation d := (new_unchecked (Fin m) (Fin g)).
Notation Z x := ((x - m) / g).
Lemma lq_form z : exp (- z) / (1 + exp (- z)) / (1 + exp (- z)) = lq z.
Proof.
  unfold lq. assert (E := exp_pair z). assert (P := exp_pos (z / 2)). assert (Q := exp_pos (- (z / 2))).
  replace (exp (- z)) with (exp (- (z / 2)) * exp (- (z / 2))) by (rewrite <- exp_plus; f_equal; field).
  set (a := exp (z / 2)) in *. set (b := exp (- (z / 2))) in *. replace a with (/ b) by (apply Rmult_eq_reg_r with b; [rewrite E; field; lra|lra]).
  assert (0 < b * b) by pos. field. split; lra.
Qed.
Lemma l_pdf_q x : pdf d (Fin x) = Fin (/ g * lq (Z x)).
Proof. rewrite l_pdf by auto. f_equal. rewrite <- lq_form. assert (0 < exp (- Z x)) by pos. field. lra. Qed.
Lemma l_push phi v : (forall t, continuous phi t) -> is_RInt_gen (fun t => phi t * lq t) (above m_infty) (below p_infty) v ->
  is_expectation m_infty p_infty (pdf d) (fun x => phi (Z x)) v.
Proof.
  intros Hphi Hv. apply (push_up m_infty p_infty m_infty p_infty (pdf d) (fun x => Z x) (fun x => / g) (fun t => m + g * t) lq); auto; try exact I.
  - intros y _. split; [split; exact I|]. field. lra.
  - intros x _. split; [dder; try lra; field; lra|]. apply continuous_const.
  - intros t _. apply lq_cont.
  - intros x _. left. now apply Rinv_0_lt_compat.
  - intros x _. apply l_pdf_q.
Qed.
End Logistic.
Lemma lm00 : lm 0 0 = 1.
Proof.
  assert (A := pdf_total _ _ _ _ (proj2 (l_coherent 0 1 Rlt_0_1))).
  apply (gen_unique m_infty p_infty (fun x => x ^ 0 * lq x ^ 1)); [apply lm_int|]. revert A. apply (gen_ext m_infty p_infty).
  intros x. unfold rf. rewrite l_pdf_q by lra. cbn [val]. rewrite pow_O, pow_1. replace ((x - 0) / 1) with x by field. field.
Qed.
Section Logistic2.
Import Logistic.
Context (m g : R) (Hg : 0 < g).
Notation d := (new_unchecked (Fin m) (Fin g)).
Lemma l_ab n : is_expectation m_infty p_infty (pdf d) (fun x => ((x - m) / g) ^ n) (lm n 0).
Proof.
  apply (l_push m g Hg (fun t => t ^ n)); [intros; eapply ex_derive_cont; auto_derive; [exact I|reflexivity]|].
  generalize (lm_int n 0). apply (gen_ext m_infty p_infty). intros; now rewrite pow_1.
Qed.
Lemma lm20 : lm 2 0 = PI ^ 2 / 3. Proof. rewrite <- lr2_0. unfold lr. rewrite lm00. field. Qed.
Lemma lm40 : lm 4 0 = 7 * PI ^ 4 / 15. Proof. rewrite <- lr4_0. unfold lr. rewrite lm00. field. Qed.
Notation V := (g * g * (PI * PI) / 3).
Lemma l_V : 0 < V. Proof. assert (P := PI_RGT_0). pos. Qed.
Lemma l_variance : is_variance m_infty p_infty (pdf d) m V.
Proof.
  apply (variance_about m_infty p_infty _ m g (fun n => lm n 0)); try apply l_ab; try exact lm00; [lra| |].
  - rewrite (lm_odd 0). ring. - rewrite (lm_odd 0), lm20. field.
Qed.
Lemma l_skewness : is_skewness m_infty p_infty (pdf d) 0.
Proof.
  apply (skewness_about m_infty p_infty _ m g (fun n => lm n 0)) with (v := V); try apply l_ab; try exact lm00; [lra| |exact l_V|].
  - rewrite (lm_odd 0), lm20. field. - rewrite (lm_odd 0), (lm_odd 1). ring.
Qed.
Lemma l_kurtosis : is_kurtosis m_infty p_infty (pdf d) (21 / 5).
Proof.
  apply (kurtosis_about m_infty p_infty _ m g (fun n => lm n 0)) with (v := V); try apply l_ab; try exact lm00; [lra| |exact l_V|].
  - rewrite (lm_odd 0), lm20. field. - rewrite (lm_odd 0), (lm_odd 1), lm40. field.
Qed.
Lemma l_var_val : variance d = Fin V. Proof. unfold variance, PI2. cbn [pr s new_unchecked]. now xs. Qed.
Lemma l_sk_val : skewness d = Fin 0. Proof. unfold skewness. now xs. Qed.
Lemma l_ku_val : kurtosis d = Fin (21 / 5). Proof. unfold kurtosis, TWENTY_ONE_FIFTHS. now xs. Qed.
Lemma l_ek_val : excess_kurtosis d = Fin (6 / 5). Proof. unfold excess_kurtosis, SIX_FIFTHS. now xs. Qed.
End Logistic2.
