(** * C109: the beta-binomial kurtosis, for all parameters *)
From Coq Require Import Reals Lra Lia ZArith List.
From Coquelicot Require Import Coquelicot.
From Verif.Num Require Import XReal.
From Verif.Model Require Import Rust Constraints Probability Params Consts Discrete.
From Verif.Spec Require Import DistSpec UtilsSpec DiscreteSpec GammaSpec CompoundSpec ResSpec.
From Verif.Proofs Require Import XTac NewInv Calc Calc2 Improper GammaFun Subst Mellin Oracle ContProofs11 ContProofs14 DiscProofs2 DiscProofs4 BetaBinProofs.
Import ListNotations.
Open Scope R_scope.

(** the kurtosis of the beta-binomial law *)
Definition bb_kurt (N a b : R) : R := let s := a + b in
  s * s * (1 + s) / (N * a * b * (s + 2) * (s + 3) * (s + N)) *
  (s * (s - 1 + 6 * N) + 3 * a * b * (N - 2) + 6 * N * N - 3 * a * b * N * (6 - N) / s - 18 * a * b * N * N / (s * s)).
Section BB.
Context (a b : R) (Ha : 0 < a) (Hb : 0 < b).
Notation I f v := (is_RInt_gen (fun x => f x * beta_h a b x) (above 0) (below 1) v).
Definition bbM4 : R := a * (a + 1) * (a + 2) * (a + 3) / ((a + b) * (a + b + 1) * (a + b + 2) * (a + b + 3)).
Lemma bb_mono4 : I (fun x => x ^ 4) (bbM4 * Bet a b).
Proof.
  apply (is_RInt_gen_inside 0 1 _ (beta_h (a + INR 4) b)); [exact lt01| |].
  - intros x Hx%in01f. unfold beta_h. rewrite <- Rpower_pow_mul by lra. ring.
  - eapply gen_eq. { apply B_in, Bet_spec; cbn [INR]; lra. }
    unfold bbM4. cbn [INR]. replace (a + (1 + 1 + 1 + 1)) with (a + 1 + 1 + 1 + 1) by ring. rewrite !Bet_rec by lra. field. repeat split; lra.
Qed.
Lemma bb_poly4 c0 c1 c2 c3 c4 : I (fun x => c0 + c1 * x + c2 * x ^ 2 + c3 * x ^ 3 + c4 * x ^ 4) ((c0 + c1 * bbM a b 1 + c2 * bbM a b 2 + c3 * bbM a b 3 + c4 * bbM4) * Bet a b).
Proof.
  apply gen_ext with (f := fun x => 1 * ((c0 + c1 * x + c2 * x ^ 2 + c3 * x ^ 3) * beta_h a b x) + c4 * (x ^ 4 * beta_h a b x)).
  { intros x. ring. }
  eapply gen_eq. { apply gen_lin; [apply bb_poly; assumption|apply bb_mono4]. } ring.
Qed.
Lemma bb_expect4 n (g : nat -> R) c0 c1 c2 c3 c4 : (forall x, BE x n g = c0 + c1 * x + c2 * x ^ 2 + c3 * x ^ 3 + c4 * x ^ 4) ->
  law_expect (bblaw a b n) g (c0 + c1 * bbM a b 1 + c2 * bbM a b 2 + c3 * bbM a b 3 + c4 * bbM4).
Proof.
  intros H. assert (G := Bet_pos a b Ha Hb).
  assert (E : sum_n (fun k => g k * bblaw a b n k) n = c0 + c1 * bbM a b 1 + c2 * bbM a b 2 + c3 * bbM a b 3 + c4 * bbM4).
  { apply (Rmult_eq_reg_r (Bet a b)); [|lra]. apply (gen_unique 0 1 (fun x => (c0 + c1 * x + c2 * x ^ 2 + c3 * x ^ 3 + c4 * x ^ 4) * beta_h a b x)); [|apply bb_poly4].
    eapply gen_ext; [|apply (bb_sum a b Ha Hb n n g)]. intros x. cbv beta. f_equal. rewrite <- H. reflexivity. }
  rewrite <- E. apply is_series_finite. intros k Hk. unfold bblaw. destruct (le_dec k n); [lia|]. 
  match goal with |- @eq _ ?u ?v => change (@eq R u v) end. ring.
Qed.
Lemma bb_m4 n : (0 < n)%nat -> law_expect (bblaw a b n) (fun k => (INR k - INR n * (a / (a + b))) ^ 4)
  (bb_kurt (INR n) a b * ((INR n * (a / (a + b)) * (1 - a / (a + b)) * (1 + (INR n - 1) * (1 / (a + b + 1)))) * (INR n * (a / (a + b)) * (1 - a / (a + b)) * (1 + (INR n - 1) * (1 / (a + b + 1)))))).
Proof.
  intros Hn. set (N := INR n). assert (PN : 0 < N) by (apply lt_0_INR; exact Hn). set (m := N * (a / (a + b))).
  eapply law_expect_eq.
  { apply (bb_expect4 n _ (m ^ 4) (N - 4 * N * m + 6 * N * m ^ 2 - 4 * N * m ^ 3)
      (-7 * N + 3 * N ^ 2 + 4 * N * (N + 3 * m) + 6 * N * (-2 * N * m - m ^ 2) + 6 * m ^ 2 * N ^ 2)
      (12 * N - 6 * N ^ 2 + 4 * N * (-3 * N - 2 * m) + 6 * N * (N ^ 2 + 2 * N * m) - 4 * m * N ^ 3)
      (-6 * N + 11 * N ^ 2 - 6 * N ^ 3 + N ^ 4)).
    intros x. rewrite BE_m4. fold N. ring. }
  unfold m, bbM, bbM4, bb_kurt. field. repeat split; lra.
Qed.
Lemma bb_kurtosis n : (0 < n)%nat -> law_kurtosis (bblaw a b n) (bb_kurt (INR n) a b).
Proof.
  intros Hn. assert (PN : 1 <= INR n) by (change 1 with (INR 1); apply le_INR; lia). eexists _, _. split; [now apply bb_variance|]. split; [|now apply bb_m4].
  assert (0 < a / (a + b)) by (apply Rdiv_lt_0_compat; lra). assert (0 < 1 - a / (a + b)) by (replace (1 - a / (a + b)) with (b / (a + b)) by (field; lra); apply Rdiv_lt_0_compat; lra).
  assert (0 <= (INR n - 1) * (1 / (a + b + 1))) by (apply Rmult_le_pos; [lra|left; apply Rdiv_lt_0_compat; lra]).
  apply Rmult_lt_0_compat; [apply Rmult_lt_0_compat; [apply Rmult_lt_0_compat; lra|lra]|lra].
Qed.
End BB.
Lemma law_kurt_unique law k k' : law_kurtosis law k -> law_kurtosis law k' -> k = k'.
Proof.
  intros (m & v & [M V] & P & K) (m' & v' & [M' V'] & P' & K'). assert (m = m') by (eapply law_unique; eassumption). subst m'.
  assert (v = v') by (eapply law_unique; eassumption). subst v'. assert (E := law_unique _ _ _ _ K K'). apply (Rmult_eq_reg_r (v * v)); [exact E|]. assert (0 < v * v) by (apply Rmult_lt_0_compat; assumption). lra.
Qed.
(** the value returned is the kurtosis exactly when alpha (alpha + beta) = 1:
    one factor alpha + beta of the formula is replaced by a division by alpha *)
Theorem C109_kurtosis_all_refuted (n : nat) (a b : R) (d : BetaBinomial.t xreal) law :
  (0 < n)%nat -> BetaBinomial.new (Z.of_nat n) (Fin a) (Fin b) = Ok d -> is_beta_binomial n a b law ->
  law_kurtosis law (bb_kurt (INR n) a b) /\
  returns (BetaBinomial.kurtosis d) (fun k => law_kurtosis law k <-> a * (a + b) = 1).
Proof.
  intros Hn H L. unfold BetaBinomial.new in H. inv_new H. change (BetaBinomial.from _) with (BetaBinomial.new_unchecked (Z.of_nat n) (Fin a) (Fin b)).
  assert (E : forall k, bblaw a b n k = law k) by (intros k; apply (bb_unique n a b); auto; now apply bb_spec).
  assert (KL : law_kurtosis law (bb_kurt (INR n) a b)).
  { destruct (bb_kurtosis a b ltac:(auto) ltac:(auto) n Hn) as (m & v & [M V] & P & K). exists m, v. split; [split; eapply law_expect_law; eassumption|]. split; [exact P|]. eapply law_expect_law; eassumption. }
  split; [exact KL|]. assert (PN : 1 <= INR n) by (change 1 with (INR 1); apply le_INR; lia).
  set (N := INR n) in *. set (f := a / (N * (a / (a + b)) * (a / (a + b)) * (1 / (a + b + 1)) * b * (a + b + 2) * (a + b + 3) * (a + b + N))).
  exists (bb_kurt N a b + f * (a + b - 1 + 6 * N) * (1 / a - (a + b))). split.
  - unfold BetaBinomial.kurtosis, BetaBinomial.new_unchecked, BetaBinomial.from; cbn [BetaBinomial.pr BetaBinomial.n BetaBinomial.alpha BetaBinomial.beta BetaBinomial.pi BetaBinomial.rho].
    rewrite !x_lit, <- INR_IZR_INZ. fold N. 
    assert (P1 : 0 < a / (a + b)) by (apply Rdiv_lt_0_compat; lra). assert (P2 : 0 < 1 / (a + b + 1)) by (apply Rdiv_lt_0_compat; lra).
    xs. f_equal. unfold f, bb_kurt. field. repeat split; lra.
  - assert (Pf : 0 < f) by (unfold f; assert (P1 : 0 < a / (a + b)) by (apply Rdiv_lt_0_compat; lra); assert (P2 : 0 < 1 / (a + b + 1)) by (apply Rdiv_lt_0_compat; lra); apply Rdiv_lt_0_compat; [auto|]; set (u := a / (a + b)) in *; set (w := 1 / (a + b + 1)) in *; clearbody u w; repeat apply Rmult_lt_0_compat; lra).
    split.
    + intros K. assert (U := law_kurt_unique _ _ _ K KL). assert (Z : f * (a + b - 1 + 6 * N) * (1 / a - (a + b)) = 0) by lra.
      apply Rmult_integral in Z as [Z|Z]; [assert (0 < f * (a + b - 1 + 6 * N)) by (apply Rmult_lt_0_compat; lra); lra|].
      replace (a * (a + b)) with (a * (a + b - 1 / a) + 1) by (field; lra). replace (a + b - 1 / a) with 0 by lra. ring.
    + intros Z. replace (1 / a - (a + b)) with 0; [rewrite Rmult_0_r, Rplus_0_r; exact KL|]. rewrite <- Z. field. lra.
Qed.
Print Assumptions C109_kurtosis_all_refuted.
Example C109_kurtosis_nonvacuous : (exists d law, BetaBinomial.new (Z.of_nat 5) (Fin 1) (Fin 3) = Ok d /\ is_beta_binomial 5 1 3 law /\ 1 * (1 + 3) <> 1) /\
  exists d law, BetaBinomial.new (Z.of_nat 5) (Fin (1 / 2)) (Fin (3 / 2)) = Ok d /\ is_beta_binomial 5 (1 / 2) (3 / 2) law /\ 1 / 2 * (1 / 2 + 3 / 2) = 1.
Proof.
  split; eexists _, _; (split; [unfold BetaBinomial.new; ok_new2|]); (split; [apply bb_spec; lra|lra]).
Qed.
