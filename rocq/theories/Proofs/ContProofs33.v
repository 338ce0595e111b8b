(** * Higher moments of Rayleigh, LogNormal and Cosine *)
From Coq Require Import Reals Lra Lia Psatz List ZArith.
From Coquelicot Require Import Coquelicot.
From Verif.Num Require Import XReal.
From Verif.Model Require Import Rust Constraints Probability Params Consts Continuous Continuous2 Continuous3.
From Verif.Spec Require Import DistSpec GammaSpec ResSpec.
From Verif.Proofs Require Import XTac Calc Calc2 Improper Gauss Gauss2 ContProofs1 ContProofs5 ContProofs8 ContProofs9.
Import ListNotations.
Open Scope R_scope.

Section Ra.
Import Rayleigh.
Context (s : R) (Hs : 0 < s).
Notation d := (new_unchecked (Fin s)).
Lemma ra_kurtosis : is_kurtosis 0 p_infty (pdf d) ((32 - 3 * (PI * PI)) / ((4 - PI) * (4 - PI))).
Proof.
  assert (P := PI_RGT_0). assert (P4 := PI_lt_4).
  set (v := (4 - PI) / 2 * (s * s)). assert (Hv : 0 < v) by (unfold v; pos).
  apply (kurtosis_about _ _ _ 0 s raM) with (v := v); try (apply ra_ab; auto; lia); try reflexivity; try lra; cbn [raM].
  - unfold v. replace ((sqrt (2 * PI) / 2) ^ 2) with (sqrt (2 * PI) / 2 * (sqrt (2 * PI) / 2)) by ring. rewrite M1_sq. field.
  - replace (8 - 4 * (sqrt (2 * PI) / 2) * (3 * sqrt (2 * PI) / 2) + 6 * (sqrt (2 * PI) / 2) ^ 2 * 2 - 3 * (sqrt (2 * PI) / 2) ^ 4)
      with (8 - 12 * (sqrt (2 * PI) / 2 * (sqrt (2 * PI) / 2)) + 12 * (sqrt (2 * PI) / 2 * (sqrt (2 * PI) / 2)) - 3 * (sqrt (2 * PI) / 2 * (sqrt (2 * PI) / 2)) * (sqrt (2 * PI) / 2 * (sqrt (2 * PI) / 2))) by field.
    rewrite M1_sq. unfold v. field. lra.
Qed.
Lemma ra_kurt_val : kurtosis d = Fin (3 / 2 * (PI * PI) - 6 * PI + 16 / ((4 - PI) / 2) / ((4 - PI) / 2) + 3).
Proof.
  assert (P := PI_RGT_0). assert (P4 := PI_lt_4). unfold kurtosis, KURTOSIS, EXCESS_KURTOSIS, FOUR_MINUS_PI_OVER_2, FOUR_MINUS_PI, PI2. now xs.
Qed.
Lemma ra_kurt_wrong : (32 - 3 * (PI * PI)) / ((4 - PI) * (4 - PI)) < 3 / 2 * (PI * PI) - 6 * PI + 16 / ((4 - PI) / 2) / ((4 - PI) / 2) + 3.
Proof.
  assert (P2 : 2 < PI) by (generalize PI2_1; lra). assert (P4 := PI_lt_4). apply Rminus_gt_0_lt.
  replace (3 / 2 * (PI * PI) - 6 * PI + 16 / ((4 - PI) / 2) / ((4 - PI) / 2) + 3 - (32 - 3 * (PI * PI)) / ((4 - PI) * (4 - PI)))
    with (((3 / 2 * (PI * PI) - 6 * PI + 3) * ((4 - PI) * (4 - PI)) + (32 + 3 * (PI * PI))) / ((4 - PI) * (4 - PI))) by (field; lra).
  apply Rdiv_lt_0_compat; [|nra]. assert (A : -3 <= 3 / 2 * (PI * PI) - 6 * PI + 3) by nra. assert (B : 0 <= (4 - PI) * (4 - PI) <= 4) by nra. nra.
Qed.
End Ra.

Section Ln.
Import LogNormal.
Context (m S : R) (HS : 0 < S).
Context {SP : Special xreal} (Hn : forall x, sf_norm (Fin x) = Fin (Phi x)).
Notation d := (new_unchecked (Fin m) (Fin S)).
Notation cd := (fun x => unwrap (cdf d x)).
Notation lo := (Finite 0). Notation hi := p_infty.
Definition ln_sk (q : R) : R := (exp q + 2) * sqrt (exp q - 1).
Definition ln_ku (q : R) : R := exp (4 * q) + 2 * exp (3 * q) + 3 * exp (2 * q) - 6.
Lemma ln_skewness_true : is_skewness lo hi (density_of cd) (ln_sk S).
Proof.
  assert (E1 : 1 < exp S) by (rewrite <- exp_0; apply exp_increasing; auto).
  apply (skewness_raw _ _ _ (lnM m S) (lnM0 m S)) with (v := (exp S - 1) * exp (2 * m + S)); try now apply ln_moment.
  - apply lnV.
  - apply Rmult_lt_0_compat; [lra|pos].
  - unfold ln_sk. set (e := exp S) in *. set (u := exp (m + S / 2)).
    assert (M1 : lnM m S 1 = u) by (unfold lnM, u; cbn; f_equal; field).
    assert (M2 : lnM m S 2 = u * u * e) by (unfold lnM, u, e; rewrite <- !exp_plus; cbn; f_equal; field).
    assert (M3 : lnM m S 3 = u * u * u * (e * e * e)) by (unfold lnM, u, e; rewrite <- !exp_plus; cbn; f_equal; field).
    replace (exp (2 * m + S)) with (u * u) by (unfold u; rewrite <- exp_plus; f_equal; field).
    rewrite sqrt_mult, sqrt_square by (try apply Rle_0_sqr; try (unfold u; pos); lra). rewrite M1, M2, M3.
    assert (SS : sqrt (e - 1) * sqrt (e - 1) = e - 1) by (apply sqrt_sqrt; lra).
    transitivity ((e + 2) * (sqrt (e - 1) * sqrt (e - 1)) * (e - 1) * (u * u * u)); [rewrite SS; ring|ring].
Qed.
Lemma ln_kurtosis_true : is_kurtosis lo hi (density_of cd) (ln_ku S + 3).
Proof.
  assert (E1 : 1 < exp S) by (rewrite <- exp_0; apply exp_increasing; auto).
  apply (kurtosis_raw _ _ _ (lnM m S) (lnM0 m S)) with (v := (exp S - 1) * exp (2 * m + S)); try now apply ln_moment.
  - apply lnV.
  - apply Rmult_lt_0_compat; [lra|pos].
  - unfold ln_ku. set (e := exp S) in *. set (u := exp (m + S / 2)).
    assert (M1 : lnM m S 1 = u) by (unfold lnM, u; cbn; f_equal; field).
    assert (M2 : lnM m S 2 = u * u * e) by (unfold lnM, u, e; rewrite <- !exp_plus; cbn; f_equal; field).
    assert (M3 : lnM m S 3 = u * u * u * (e * e * e)) by (unfold lnM, u, e; rewrite <- !exp_plus; cbn; f_equal; field).
    assert (M4 : lnM m S 4 = u * u * u * u * (e * e * e * e * e * e)) by (unfold lnM, u, e; rewrite <- !exp_plus; cbn; f_equal; field).
    replace (exp (2 * m + S)) with (u * u) by (unfold u; rewrite <- exp_plus; f_equal; field).
    replace (exp (4 * S)) with (e * e * e * e) by (unfold e; rewrite <- !exp_plus; f_equal; ring).
    replace (exp (3 * S)) with (e * e * e) by (unfold e; rewrite <- !exp_plus; f_equal; ring).
    replace (exp (2 * S)) with (e * e) by (unfold e; rewrite <- !exp_plus; f_equal; ring).
    rewrite M1, M2, M3, M4. ring.
Qed.
Lemma ln_var_val : variance d = Fin ((exp (S * S) - 1) * exp (2 * m + S * S)).
Proof. unfold variance, mu, sigma, new_unchecked; cbn [nrm UvNormal.pr UvNormal.mu UvNormal.Sigma UvNormal.new_unchecked]. cbv zeta. now xs. Qed.
Lemma ln_sk_val : skewness d = Fin (ln_sk (S * S)).
Proof.
  assert (0 < S * S) by pos. assert (E1 : 1 < exp (S * S)) by (rewrite <- exp_0; apply exp_increasing; auto).
  unfold skewness, mu, sigma, new_unchecked; cbn [nrm UvNormal.pr UvNormal.mu UvNormal.Sigma UvNormal.new_unchecked]. cbv zeta.
  now xs.
Qed.
Lemma ln_ku_val : excess_kurtosis d = Fin (ln_ku (S * S)).
Proof. unfold excess_kurtosis, mu, sigma, new_unchecked; cbn [nrm UvNormal.pr UvNormal.mu UvNormal.Sigma UvNormal.new_unchecked]. cbv zeta. now xs. Qed.
Lemma ln_modes_val : modes d = [Fin (exp (m - S * S))].
Proof. unfold modes, mu, sigma, new_unchecked; cbn [nrm UvNormal.pr UvNormal.mu UvNormal.Sigma UvNormal.new_unchecked]. now xs. Qed.
(** the mode is the only one *)
Lemma ln_mode_strict q : q <> S -> lng m S (exp (m - q)) < lng m S (exp (m - S)).
Proof.
  intros N. assert (H0 : 0 < sqrt S) by now apply sqrt_lt_R0. assert (P := sqrt2PI_pos).
  assert (K : forall t, lng m S (exp t) = exp (- ((t - m) * (t - m) / S / 2) - t) * / (sqrt (2 * PI) * sqrt S)).
  { intros t. unfold lng, phi. rewrite ln_exp. replace (- ((t - m) * (t - m) / S / 2) - t) with (- ((t - m) / sqrt S * ((t - m) / sqrt S) / 2) + - t).
    - rewrite exp_plus, (exp_Ropp t). assert (X := exp_pos t). field. repeat split; lra.
    - replace ((t - m) / sqrt S * ((t - m) / sqrt S)) with ((t - m) * (t - m) / (sqrt S * sqrt S)) by (field; lra). rewrite sqrt_sqrt by lra. field. lra. }
  rewrite !K. apply Rmult_lt_compat_r; [apply Rinv_0_lt_compat; pos|]. apply exp_increasing.
  assert (Q : 0 < (q - S) * (q - S) / S / 2) by (assert (q - S <> 0) by lra; assert (0 < (q - S) * (q - S)) by nra; apply Rdiv_lt_0_compat; [apply Rdiv_lt_0_compat|]; lra).
  replace (- ((m - S - m) * (m - S - m) / S / 2) - (m - S)) with (- ((m - q - m) * (m - q - m) / S / 2) - (m - q) + (q - S) * (q - S) / S / 2) by (field; lra). lra.
Qed.
End Ln.
Lemma ln_var_lt m p q : 0 < p -> p < q -> (exp p - 1) * exp (2 * m + p) < (exp q - 1) * exp (2 * m + q).
Proof.
  intros H0 H. assert (1 < exp p) by (rewrite <- exp_0; apply exp_increasing; auto). assert (exp p < exp q) by (apply exp_increasing; auto).
  apply Rmult_le_0_lt_compat; try lra; [left; apply exp_pos|apply exp_increasing; lra].
Qed.
Lemma ln_sk_lt p q : 0 < p -> p < q -> ln_sk p < ln_sk q.
Proof.
  intros H0 H. assert (1 < exp p) by (rewrite <- exp_0; apply exp_increasing; auto). assert (exp p < exp q) by (apply exp_increasing; auto).
  unfold ln_sk. apply Rmult_le_0_lt_compat; try lra; [apply sqrt_pos|apply sqrt_lt_1; lra].
Qed.
Lemma ln_ku_lt p q : p < q -> ln_ku p < ln_ku q.
Proof.
  intros H. unfold ln_ku. assert (exp (4 * p) < exp (4 * q)) by (apply exp_increasing; lra). assert (exp (3 * p) < exp (3 * q)) by (apply exp_increasing; lra).
  assert (exp (2 * p) < exp (2 * q)) by (apply exp_increasing; lra). lra.
Qed.
(** a strictly increasing function takes different values at different points *)
Lemma inc_neq (f : R -> R) p q : 0 < p -> 0 < q -> (forall a b, 0 < a -> a < b -> f a < f b) -> p <> q -> f p <> f q.
Proof. intros A B H N E. destruct (Rtotal_order p q) as [L|[L|L]]; [generalize (H p q A L)|auto|generalize (H q p B L)]; lra. Qed.

Section Co.
Import Cosine.
Context (m s : R) (Hs : 0 < s).
Notation d := (new_unchecked (Fin m) (Fin s)).
Lemma co_ku_val : excess_kurtosis d = Fin (6 * (60 - PI ^ 4) / (5 * (PI * PI - 6) ^ 2)).
Proof.
  assert (P := PI2_gt6). assert (PP := PI_RGT_0). unfold excess_kurtosis, PI4, PI2. cbv zeta. xs. f_equal. field. lra.
Qed.
End Co.
