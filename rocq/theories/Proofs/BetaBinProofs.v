(** * Beta-binomial: a binomial law averaged over a beta-distributed success probability *)
From Coq Require Import Reals Lra Lia Psatz ZArith List.
From Coquelicot Require Import Coquelicot.
From Verif.Num Require Import XReal.
From Verif.Model Require Import Rust Constraints Probability Params Utils Consts Discrete.
From Verif.Spec Require Import DistSpec UtilsSpec DiscreteSpec GammaSpec CompoundSpec.
From Verif.Proofs Require Import UtilsProofs XTac Calc Improper GammaFun ContProofs11 DiscProofs2 DiscProofs4 NewInv.
Import ListNotations.
Open Scope R_scope.

Section BB.
Context (a b : R) (Ha : 0 < a) (Hb : 0 < b).
Definition bblaw (n k : nat) : R := if le_dec k n then IZR (binom n k) * Bet (INR k + a) (INR n - INR k + b) / Bet a b else 0.
Notation I f v := (is_RInt_gen (fun x => f x * beta_h a b x) (above 0) (below 1) v).

Lemma bb_h n k x : (k <= n)%nat -> 0 < x < 1 -> binomial_law n x k * beta_h a b x = IZR (binom n k) * beta_h (INR k + a) (INR n - INR k + b) x.
Proof.
  intros Hk Hx. unfold binomial_law, beta_h. rewrite <- minus_INR by auto.
  replace (INR k + a) with (a + INR k) by ring. replace (INR (n - k) + b) with (b + INR (n - k)) by ring.
  rewrite <- !Rpower_pow_mul by lra. ring.
Qed.
Lemma bb_int n k : I (fun x => binomial_law n x k) (bblaw n k * Bet a b).
Proof.
  assert (G := Bet_pos a b Ha Hb). unfold bblaw. destruct (le_dec k n) as [Hk|Hk].
  - assert (H1 := le_INR _ _ Hk). assert (H2 := pos_INR k).
    apply (is_RInt_gen_inside 0 1 _ (fun x => IZR (binom n k) * beta_h (INR k + a) (INR n - INR k + b) x)); [exact lt01| |].
    + intros x Hx%in01f. now apply bb_h.
    + eapply gen_eq. { apply gen_scal. apply B_in, Bet_spec; lra. } field. lra.
  - apply (is_RInt_gen_inside 0 1 _ (fun x => 0 * beta_h a b x)); [exact lt01| |].
    + intros x Hx. rewrite blaw_gt by lia. ring.
    + eapply gen_eq. { apply gen_scal. apply B_in, Bet_spec; lra. } ring.
Qed.
Lemma bb_nonneg n k : 0 <= bblaw n k.
Proof.
  unfold bblaw. destruct (le_dec k n) as [Hk|Hk]; [|lra]. assert (H1 := le_INR _ _ Hk). assert (H2 := pos_INR k).
  assert (0 < Bet (INR k + a) (INR n - INR k + b)) by (apply Bet_pos; lra). assert (G := Bet_pos a b Ha Hb).
  apply Rdiv_le_0_compat; [|auto]. apply Rmult_le_pos; [apply IZR_le, binom_nonneg|lra].
Qed.
Lemma bb_sum n m (g : nat -> R) : I (fun x => sum_n (fun k => g k * binomial_law n x k) m) (sum_n (fun k => g k * bblaw n k) m * Bet a b).
Proof.
  induction m as [|m IH].
  - rewrite sum_n_0. apply gen_ext with (f := fun x => g 0%nat * (binomial_law n x 0 * beta_h a b x)).
    { intros x. rewrite sum_n_0. rr. }
    eapply gen_eq; [apply gen_scal, bb_int|]. ring.
  - rewrite sum_n_S. apply gen_ext with (f := fun x => 1 * (sum_n (fun k => g k * binomial_law n x k) m * beta_h a b x) + g (S m) * (binomial_law n x (S m) * beta_h a b x)).
    { intros x. rewrite sum_n_S. rr. }
    eapply gen_eq; [apply gen_lin; [exact IH|apply bb_int]|]. ring.
Qed.
Definition bbM (i : nat) : R := match i with 0%nat => 1 | 1%nat => a / (a + b) | 2%nat => a * (a + 1) / ((a + b) * (a + b + 1))
  | _ => a * (a + 1) * (a + 2) / ((a + b) * (a + b + 1) * (a + b + 2)) end.
Lemma bb_mono i : (i <= 3)%nat -> I (fun x => x ^ i) (bbM i * Bet a b).
Proof.
  intros Hi. apply (is_RInt_gen_inside 0 1 _ (beta_h (a + INR i) b)); [exact lt01| |].
  - intros x Hx%in01f. unfold beta_h. rewrite <- Rpower_pow_mul by lra. ring.
  - assert (H := pos_INR i). eapply gen_eq. { apply B_in, Bet_spec; lra. }
    destruct i as [|[|[|[|i]]]]; [..|lia]; cbn [INR bbM].
    + rewrite Rplus_0_r. ring.
    + rewrite Bet_rec by auto. field. lra.
    + replace (a + (1 + 1)) with (a + 1 + 1) by ring. rewrite !Bet_rec by lra. field. repeat split; lra.
    + replace (a + (1 + 1 + 1)) with (a + 1 + 1 + 1) by ring. rewrite !Bet_rec by lra. field. repeat split; lra.
Qed.
Lemma bb_poly c0 c1 c2 c3 : I (fun x => c0 + c1 * x + c2 * x ^ 2 + c3 * x ^ 3) ((c0 + c1 * bbM 1 + c2 * bbM 2 + c3 * bbM 3) * Bet a b).
Proof.
  apply gen_ext with (f := fun x => 1 * (c0 * (x ^ 0 * beta_h a b x) + c1 * (x ^ 1 * beta_h a b x)) + 1 * (c2 * (x ^ 2 * beta_h a b x) + c3 * (x ^ 3 * beta_h a b x))).
  { intros x. ring. }
  eapply gen_eq. { apply gen_lin; apply gen_lin; apply bb_mono; lia. } unfold bbM at 1. ring.
Qed.
(** the law inherits the binomial moments, averaged over the success probability *)
Lemma bb_expect n (g : nat -> R) c0 c1 c2 c3 : (forall x, BE x n g = c0 + c1 * x + c2 * x ^ 2 + c3 * x ^ 3) ->
  law_expect (bblaw n) g (c0 + c1 * bbM 1 + c2 * bbM 2 + c3 * bbM 3).
Proof.
  intros H. assert (G := Bet_pos a b Ha Hb).
  assert (E : sum_n (fun k => g k * bblaw n k) n = c0 + c1 * bbM 1 + c2 * bbM 2 + c3 * bbM 3).
  { apply (Rmult_eq_reg_r (Bet a b)); [|lra]. apply (gen_unique 0 1 (fun x => (c0 + c1 * x + c2 * x ^ 2 + c3 * x ^ 3) * beta_h a b x)); [|apply bb_poly].
    eapply gen_ext; [|apply (bb_sum n n g)]. intros x. cbv beta. f_equal. rewrite <- H. reflexivity. }
  rewrite <- E. apply is_series_finite. intros k Hk. unfold bblaw. destruct (le_dec k n); [lia|]. rr.
Qed.
Lemma bb_total n : law_expect (bblaw n) (fun _ => 1) 1.
Proof. eapply law_expect_eq; [apply (bb_expect n _ 1 0 0 0)|ring]. intros x. rewrite BE_total. ring. Qed.
Lemma bb_is_law n : is_law (bblaw n).
Proof. split; [apply bb_nonneg|]. apply is_series_ext' with (2 := bb_total n). intros; rr. Qed.
Lemma bb_mean n : law_mean (bblaw n) (INR n * (a / (a + b))).
Proof.
  eapply law_expect_eq.
  { apply law_expect_ext with (f := fun k => INR k - 0); [intros; rr|]. apply (bb_expect n _ 0 (INR n) 0 0). intros x. rewrite BE_m1. ring. }
  unfold bbM. ring.
Qed.
Lemma bb_variance n : law_variance (bblaw n) (INR n * (a / (a + b)))
  (INR n * (a / (a + b)) * (1 - a / (a + b)) * (1 + (INR n - 1) * (1 / (a + b + 1)))).
Proof.
  split; [apply bb_mean|]. set (m := INR n * (a / (a + b))). eapply law_expect_eq.
  { apply law_expect_ext with (f := fun k => (INR k - m) ^ 2); [intros; rr|].
    apply (bb_expect n _ (m ^ 2) (INR n - 2 * INR n * m) (INR n * INR n - INR n) 0). intros x. rewrite BE_m2. ring. }
  unfold m, bbM. field. repeat split; lra.
Qed.
(** the third raw moment *)
Lemma bb_m3 n : law_expect (bblaw n) (fun k => INR k ^ 3)
  (a / (a + b) * (1 / (a + b + 1)) * INR n * (INR n * INR n * (a + 1) * (a + 1 + 1) + 3 * INR n * (a + 1) * b + b * (b - a)) / (a + 1 + 1 + b)).
Proof.
  eapply law_expect_eq.
  { apply law_expect_ext with (f := fun k => (INR k - 0) ^ 3); [intros; rr|].
    apply (bb_expect n _ 0 (INR n) (-3 * INR n + 3 * INR n ^ 2) (2 * INR n - 3 * INR n ^ 2 + INR n ^ 3)). intros x. rewrite BE_m3. ring. }
  unfold bbM. field. repeat split; lra.
Qed.

(** ** The methods *)
Context {SP : Special xreal} (Hs : beta_exact SP).
Notation bb n := (BetaBinomial.new_unchecked (Z.of_nat n) (Fin a) (Fin b)).
Ltac bbu := unfold BetaBinomial.new_unchecked, BetaBinomial.from; cbn [BetaBinomial.pr BetaBinomial.n BetaBinomial.alpha BetaBinomial.beta BetaBinomial.pi BetaBinomial.rho].
Lemma bb_pmf n k : (Z.of_nat n <= U64_MAX)%Z -> (k <= n)%nat -> choose_fits n k ->
  BetaBinomial.pmf (bb n) (Z.of_nat k) = Ret (Prob (Fin (bblaw n k))).
Proof.
  intros Hn Hk Hf. assert (G := Bet_pos a b Ha Hb). assert (H1 := le_INR _ _ Hk). assert (H2 := pos_INR k).
  unfold BetaBinomial.pmf, BetaBinomial.pmf_raw. bbu. rewrite (choose_ok n k Hk Hn Hf). cbn [rbind rmap]. rewrite !x_lit, !x_sub, !x_add. rewrite <- !INR_IZR_INZ. rewrite !sfb by first [exact Hs | lra]. xs.
  unfold bblaw. destruct (le_dec k n); [reflexivity|contradiction].
Qed.
Lemma bb_pmf_panic n k : (Z.of_nat n <= U64_MAX)%Z -> ~ (k <= n)%nat \/ ~ choose_fits n k -> BetaBinomial.pmf (bb n) (Z.of_nat k) = Panic.
Proof.
  intros Hn H. unfold BetaBinomial.pmf, BetaBinomial.pmf_raw. bbu.
  assert (E : choose (Z.of_nat n) (Z.of_nat k) = Panic); [|now rewrite E].
  destruct (le_dec k n) as [Hk|Hk]; [|apply choose_k_gt_n; lia]. destruct H as [H|H]; [contradiction|].
  destruct (Exists_dec (fun j => (U64_MAX < binom n j * (Z.of_nat n - Z.of_nat j))%Z) (seq 0 (Nat.min k (n - k)))) as [E|E].
  - intros j. apply Z_lt_dec.
  - apply Exists_exists in E. destruct E as (j & Hj & Hb'). apply in_seq in Hj. apply (choose_overflow n k j Hk Hn); [lia|auto].
  - exfalso. apply H. intros j Hj. apply Znot_gt_le. intros Gt. apply E. apply Exists_exists. exists j. split; [apply in_seq; lia|].
    unfold U64_MAX. lia.
Qed.
Lemma bb_mean_ok n : BetaBinomial.mean (bb n) = Fin (INR n * (a / (a + b))).
Proof. unfold BetaBinomial.mean. bbu. xs. now rewrite <- INR_IZR_INZ. Qed.
Lemma bb_variance_ok n : BetaBinomial.variance (bb n) = Fin (INR n * (a / (a + b)) * (1 - a / (a + b)) * (1 + (INR n - 1) * (1 / (a + b + 1)))).
Proof. unfold BetaBinomial.variance. bbu. xs. now rewrite <- INR_IZR_INZ. Qed.
Lemma bb_skewness_ok n : BetaBinomial.skewness (bb n) = Fin
  (a / (a + b) * (1 / (a + b + 1)) * INR n * (INR n * INR n * (a + 1) * (a + 1 + 1) + 3 * INR n * (a + 1) * b + b * (b - a)) / (a + 1 + 1 + b)).
Proof. unfold BetaBinomial.skewness. bbu. xs. now rewrite <- INR_IZR_INZ. Qed.
End BB.
Lemma bb_unique n a b l1 l2 : 0 < a -> 0 < b -> is_beta_binomial n a b l1 -> is_beta_binomial n a b l2 -> forall k, l1 k = l2 k.
Proof.
  intros Ha Hb (B & HB & H1) (B' & HB' & H2) k. assert (B = B') by (eapply Beta_unique; eauto). subst B'. assert (P := Beta_pos _ _ _ HB).
  apply (Rmult_eq_reg_r B); [|lra]. apply (gen_unique 0 1 _ _ _ (H1 k) (H2 k)).
Qed.
Lemma bb_spec n a b : 0 < a -> 0 < b -> is_beta_binomial n a b (bblaw a b n).
Proof. intros Ha Hb. exists (Bet a b). split; [now apply Bet_spec|]. intros k. now apply bb_int. Qed.
Lemma bb_sym3 n a : 0 < a -> law_expect (bblaw a a n) (fun k => (INR k - INR n * (a / (a + a))) ^ 3) 0.
Proof.
  intros Ha. set (m := INR n * (a / (a + a))). eapply law_expect_eq.
  { apply (bb_expect a a Ha Ha n _ (- m ^ 3) (INR n - 3 * INR n * m + 3 * INR n * m ^ 2)
      (-3 * INR n + 3 * INR n * m + 3 * INR n ^ 2 - 3 * INR n ^ 2 * m) (2 * INR n - 3 * INR n ^ 2 + INR n ^ 3)).
    intros x. rewrite BE_m3. ring. }
  unfold m, bbM. field. repeat split; lra.
Qed.
Lemma law_unique l g m m' : law_expect l g m -> law_expect l g m' -> m = m'.
Proof. intros H1 H2. apply is_series_unique in H1. apply is_series_unique in H2. congruence. Qed.
(** a symmetric law has no skewness, and the method never returns zero *)
Lemma bb_skew_bad n a sk : 0 < a -> (0 < n)%nat -> 0 < sk -> ~ law_skewness (bblaw a a n) sk.
Proof.
  intros Ha Hn Hsk (m & v & [Hm _] & Hv & H3). assert (E : m = INR n * (a / (a + a))). { eapply law_unique; [exact Hm|]. now apply bb_mean. }
  subst m. assert (Z0 := law_unique _ _ _ _ H3 (bb_sym3 n a Ha)). assert (0 < sqrt v) by pos. assert (0 < sk * (v * sqrt v)) by pos. lra.
Qed.
Lemma law_kurt_nonneg l k : is_law l -> law_kurtosis l k -> 0 <= k.
Proof.
  intros [Hl _] (m & v & _ & Hv & H). assert (0 <= k * (v * v)).
  { assert (P : forall i, 0 <= (fun k => (INR k - m) ^ 4 * l k) i). { intros i. cbv beta. apply Rmult_le_pos; [|apply Hl]. replace ((INR i - m) ^ 4) with (((INR i - m) ^ 2) ^ 2) by ring. apply pow2_ge_0. }
    apply (is_lim_seq_le (fun _ => 0) (sum_n (fun k => (INR k - m) ^ 4 * l k)) 0 (k * (v * v)));
      [intros i; apply sum_n_nonneg; exact P|apply is_lim_seq_const|exact H]. }
  assert (0 < v * v) by pos. apply Rnot_lt_le. intros Hk. assert (0 < (- k) * (v * v)) by pos. lra.
Qed.
