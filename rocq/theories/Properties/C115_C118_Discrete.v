(** * Properties C115-C118: cdf, kurtosis, median and entropy of the discrete
      univariate distributions *)
From Coq Require Import Reals Lra Lia Psatz List ZArith.
From Coquelicot Require Import Coquelicot.
From Flocq Require Import Core.Raux.
From Verif.Num Require Import XReal.
From Verif.Model Require Import Rust Constraints Probability Params Utils Consts LogFact Discrete.
From Verif.Spec Require Import ProbSpec UtilsSpec DiscreteSpec DistSpec ResSpec GammaSpec.
From Verif.Proofs Require Import UtilsProofs ConstraintProofs NewInv XTac Oracle DiscProofs2 DiscProofs3 DiscProofs4 DiscProofs6 DiscProofs7.
Import ListNotations.
Open Scope R_scope.

(** C115, with an exact regularised incomplete beta function.  What is missing:
    k = n, where the code asks the external function for I_q(0, n+1). *)
Theorem C115_binomial_cdf_partial {SP : Special xreal} (n : nat) (p : R) (d : Binomial.t xreal) (k : nat) :
  betainc_exact SP -> (Z.of_nat n <= 2 ^ 64 - 1)%Z -> Binomial.new (Z.of_nat n) (Prob (Fin p)) = Ok d -> 0 < p < 1 ->
  (k < n)%nat -> Binomial.cdf d (Z.of_nat k) = Ret (Prob (Fin (law_cdf (binomial_law n p) k))).
Proof. intros HS Hn H Hp Hk. apply bin_new_inv in H. destruct H as [_ ->]. now apply bin_cdf. Qed.
Print Assumptions C115_binomial_cdf_partial.
(** beyond n, where the cdf is 1, the subtraction n - k overflows; the Poisson cdf is never computed *)
Theorem C115_cdf_refuted {SP : Special xreal} (n : nat) (p l : R) (d : Binomial.t xreal) (d' : Poisson.t xreal) (k : nat) :
  Binomial.new (Z.of_nat n) (Prob (Fin p)) = Ok d -> Poisson.new (Fin l) = Ok d' ->
  ((n < k)%nat -> Binomial.cdf d (Z.of_nat k) = Panic /\ law_cdf (binomial_law n p) k = 1) /\
  Poisson.cdf d' (Z.of_nat k) = Panic.
Proof.
  intros H _. apply bin_new_inv in H. destruct H as [Hp ->]. split; [|reflexivity].
  intros Hk. split; [now apply bin_cdf_gt|]. unfold law_cdf. rewrite (sum_n_stable _ n) by (try lia; intros i; apply blaw_gt). apply blaw_sum.
Qed.
Print Assumptions C115_cdf_refuted.
Example C115_nonvacuous : exists (SP : Special xreal) d d', betainc_exact SP /\ Binomial.new (Z.of_nat 10) (Prob (Fin (1 / 3))) = Ok d /\ Poisson.new (Fin 2) = Ok d'.
Proof.
  exists (exact false). do 2 eexists. split; [apply ex_betainc|]. split; [apply bin_new_ok; lra|]. unfold Poisson.new. ok_new2.
Qed.

(** C116: [kurtosis] of these types is already the excess kurtosis, for every parameter *)
Theorem C116_kurtosis_refuted (n : nat) (p l : R) (b : Bernoulli.t xreal) (d : Binomial.t xreal) (q : Poisson.t xreal) :
  Bernoulli.new (Fin p) = Ok b -> Binomial.new (Z.of_nat n) (Prob (Fin p)) = Ok d -> Poisson.new (Fin l) = Ok q ->
  0 < p < 1 -> (0 < n)%nat ->
  returns (Bernoulli.kurtosis b) (fun k => ~ law_kurtosis (bernoulli_law p) k) /\
  returns (Binomial.kurtosis d) (fun k => ~ law_kurtosis (binomial_law n p) k) /\
  returns (Poisson.kurtosis q) (fun k => ~ law_kurtosis (poisson_law l) k).
Proof.
  intros H1 H2 H3 Hp Hn. apply ber_new_inv in H1. apply bin_new_inv in H2. apply poi_new_inv in H3. destruct H1 as [_ ->], H2 as [_ ->], H3 as [Hl ->].
  destruct (ber_kurtosis p Hp) as (E & _ & K).
  split; [eexists; split; [exact E|apply kurt_shift; replace (1 / (p * (1 - p)) - 6 + 3) with (1 / (p * (1 - p)) - 3) by lra; exact K]|].
  split; [eexists; split; [now apply bin_kurtosis|apply kurt_shift; now apply blaw_kurtosis]|].
  exists (1 / l). split; [unfold Poisson.kurtosis; cbn [poi Poisson.new_unchecked Poisson.pr Poisson.lambda]; xs; reflexivity|]. apply kurt_shift. now apply plaw_kurtosis.
Qed.
Print Assumptions C116_kurtosis_refuted.
(** the part that holds: the value is the excess kurtosis *)
Theorem C116_excess_partial (n : nat) (p l : R) (b : Bernoulli.t xreal) (d : Binomial.t xreal) (q : Poisson.t xreal) :
  Bernoulli.new (Fin p) = Ok b -> Binomial.new (Z.of_nat n) (Prob (Fin p)) = Ok d -> Poisson.new (Fin l) = Ok q ->
  0 < p < 1 -> (0 < n)%nat ->
  returns (Bernoulli.kurtosis b) (fun k => law_kurtosis (bernoulli_law p) (k + 3)) /\
  returns (Binomial.kurtosis d) (fun k => law_kurtosis (binomial_law n p) (k + 3)) /\
  returns (Poisson.kurtosis q) (fun k => law_kurtosis (poisson_law l) (k + 3)).
Proof.
  intros H1 H2 H3 Hp Hn. apply ber_new_inv in H1. apply bin_new_inv in H2. apply poi_new_inv in H3. destruct H1 as [_ ->], H2 as [_ ->], H3 as [Hl ->].
  destruct (ber_kurtosis p Hp) as (E & _ & K).
  split; [eexists; split; [exact E|replace (1 / (p * (1 - p)) - 6 + 3) with (1 / (p * (1 - p)) - 3) by lra; exact K]|].
  split; [eexists; split; [now apply bin_kurtosis|now apply blaw_kurtosis]|].
  exists (1 / l). split; [unfold Poisson.kurtosis; cbn [poi Poisson.new_unchecked Poisson.pr Poisson.lambda]; xs; reflexivity|]. now apply plaw_kurtosis.
Qed.
Print Assumptions C116_excess_partial.
Example C116_nonvacuous : exists b d q, Bernoulli.new (Fin (1 / 3)) = Ok b /\ Binomial.new (Z.of_nat 10) (Prob (Fin (1 / 3))) = Ok d /\ Poisson.new (Fin 2) = Ok q.
Proof. do 3 eexists. split; [apply ber_new_ok; lra|]. split; [apply bin_new_ok; lra|]. unfold Poisson.new. ok_new2. Qed.

(** C117: medians.  Geometric: exact characterisation, and its ceiling is right *)
Theorem C117_geometric_partial (p : R) (d : Geometric.t xreal) :
  Geometric.new (Fin p) = Ok d -> 0 < p < 1 ->
  returns (Geometric.median d) (fun m =>
    (law_median (geometric_law p) m <-> exists k : nat, (1 - p) ^ k = 1 / 2) /\
    (forall j : nat, m <= INR j < m + 1 -> law_median (geometric_law p) (INR j))).
Proof.
  intros H Hp. apply geo_new_inv in H. destruct H as [_ ->]. eexists. split; [now apply geo_median|]. split.
  - now apply gm_exact.
  - intros j Hj. apply gm_ceil; [auto|]. lra.
Qed.
Print Assumptions C117_geometric_partial.
(** a negative "median" whenever p > 1/2, although the law lives on 0, 1, 2, ... *)
Theorem C117_geometric_refuted (p : R) (d : Geometric.t xreal) :
  Geometric.new (Fin p) = Ok d -> 1 / 2 < p ->
  returns (Geometric.median d) (fun m => m < 0 /\ ~ law_median (geometric_law p) m).
Proof.
  intros H Hp. apply geo_new_inv in H. destruct H as [Hp' ->]. destruct (Req_dec p 1) as [->|N].
  - exists (-1). split; [apply geo_median_1|]. split; [lra|]. intros M. apply median_nonneg in M. lra.
  - eexists. split; [apply geo_median; lra|].
    assert (G : ln 2 / - ln (1 - p) - 1 < 0).
    { assert (L : ln (1 - p) < - ln 2) by (rewrite <- ln_Rinv by lra; apply ln_increasing; lra). assert (0 < ln 2) by (rewrite <- ln_1; apply ln_increasing; lra).
      assert (ln 2 / - ln (1 - p) < 1); [|lra]. apply Rmult_lt_reg_r with (- ln (1 - p)); [lra|]. unfold Rdiv. rewrite Rmult_assoc, Rinv_l by lra. lra. }
    split; [exact G|]. intros M. apply median_nonneg in M. lra.
Qed.
Print Assumptions C117_geometric_refuted.
(** Binomial: round(np) *)
Theorem C117_binomial_partial (n : nat) (p : R) (d : Binomial.t xreal) :
  Binomial.new (Z.of_nat n) (Prob (Fin p)) = Ok d -> p = 1 / 2 \/ n = 1%nat ->
  returns (Binomial.median d) (law_median (binomial_law n p)).
Proof.
  intros H Hc. apply bin_new_inv in H. destruct H as [Hp ->]. eexists. split; [now apply bin_median|].
  destruct Hc as [E|E]; subst; [apply bhalf_median|now apply b1_median].
Qed.
Print Assumptions C117_binomial_partial.
Theorem C117_binomial_refuted (p : R) (d : Binomial.t xreal) :
  Binomial.new (Z.of_nat 2) (Prob (Fin p)) = Ok d -> 1 / 4 <= p <= 29 / 100 ->
  returns (Binomial.median d) (fun m => ~ law_median (binomial_law 2 p) m).
Proof. intros H Hc. apply bin_new_inv in H. destruct H as [Hp ->]. eexists. split; [now apply bin_median|]. now apply b2_median_bad. Qed.
Print Assumptions C117_binomial_refuted.
(** Poisson *)
Theorem C117_poisson_partial (l : R) (d : Poisson.t xreal) :
  Poisson.new (Fin l) = Ok d -> 1 / 10 <= l <= ln 2 \/ 7 / 10 <= l <= 8 / 5 ->
  returns (Poisson.median d) (law_median (poisson_law l)).
Proof.
  intros H Hc. apply poi_new_inv in H. destruct H as [Hl ->]. eexists. split; [now apply poi_median|].
  destruct Hc as [Hc|Hc]; [destruct (poi_median_0 l Hc) as [E M]|destruct (poi_median_1 l Hc) as [E M]]; rewrite E; exact M.
Qed.
Print Assumptions C117_poisson_partial.
Theorem C117_poisson_refuted (l : R) (d : Poisson.t xreal) :
  Poisson.new (Fin l) = Ok d -> (l <= 5 / 100 \/ ln 2 < l <= 694 / 1000) ->
  returns (Poisson.median d) (fun m => ~ law_median (poisson_law l) m).
Proof.
  intros H Hc. apply poi_new_inv in H. destruct H as [Hl ->]. eexists. split; [now apply poi_median|]. destruct Hc as [Hc|Hc].
  - intros M. apply median_nonneg in M. assert (N := poi_median_neg l ltac:(lra)). apply IZR_lt in N. cbn in N. lra.
  - destruct (poi_median_bad l Hc) as [E M]. rewrite E. exact M.
Qed.
Print Assumptions C117_poisson_refuted.
Example C117_nonvacuous : exists g b q q', Geometric.new (Fin (3 / 4)) = Ok g /\ Binomial.new (Z.of_nat 2) (Prob (Fin (27 / 100))) = Ok b /\
  Poisson.new (Fin (1 / 20)) = Ok q /\ Poisson.new (Fin 1) = Ok q' /\ ln 2 < 694 / 1000.
Proof.
  do 4 eexists. split; [apply geo_new_ok; lra|]. split; [apply bin_new_ok; lra|]. unfold Poisson.new. split; [ok_new2|]. split; [ok_new2|apply ln2_ub].
Qed.

(** C118: for small variances the normal approximations used as entropies are
    negative, which no entropy is, in any base *)
Theorem C118_entropy_refuted (n : nat) (p l : R) (d : Binomial.t xreal) (q : Poisson.t xreal) :
  Binomial.new (Z.of_nat n) (Prob (Fin p)) = Ok d -> Poisson.new (Fin l) = Ok q ->
  (0 < p < 1 -> (0 < n)%nat -> p * (1 - p) * INR n < 1 / (2 * PI * exp 1) ->
     returns (Binomial.shannon_entropy d) (fun h => forall b, 1 < b -> ~ law_entropy b (binomial_law n p) h)) /\
  (l <= 1 / 10 -> returns (Poisson.shannon_entropy q) (fun h => forall b, 1 < b -> ~ law_entropy b (poisson_law l) h)).
Proof.
  intros H1 H2. apply bin_new_inv in H1. apply poi_new_inv in H2. destruct H1 as [Hp ->], H2 as [Hl ->]. split.
  - intros Hp' Hn Hv. eexists. split; [now apply bin_entropy|]. intros b Hb E. apply entropy_nonneg in E; [|auto|now apply blaw_is_law].
    assert (N := bin_entropy_neg n p Hp' Hn Hv). lra.
  - intros Hl'. destruct (poi_entropy_neg l ltac:(lra)) as (h & E & N). exists h. split; [exact E|]. intros b Hb Q. apply entropy_nonneg in Q; [lra|auto|now apply plaw_is_law].
Qed.
Print Assumptions C118_entropy_refuted.
(** what is computed: half the logarithm of 2 pi e var, in bits, and four terms of the asymptotic series, in nats *)
Theorem C118_entropy_partial (n : nat) (p l : R) (d : Binomial.t xreal) (q : Poisson.t xreal) :
  Binomial.new (Z.of_nat n) (Prob (Fin p)) = Ok d -> Poisson.new (Fin l) = Ok q -> 0 < p < 1 -> (0 < n)%nat ->
  (forall v, law_variance (binomial_law n p) (p * INR n) v ->
     Binomial.shannon_entropy d = Fin (/ 2 * (ln (2 * PI * exp 1 * v) / ln 2))) /\
  Poisson.shannon_entropy q = Fin (/ 2 * ln (2 * PI * exp 1 * l) - / (12 * l) - / (24 * l ^ 2) - 19 / (360 * l ^ 3)).
Proof.
  intros H1 H2 Hp' Hn. apply bin_new_inv in H1. apply poi_new_inv in H2. destruct H1 as [Hp ->], H2 as [Hl ->]. split.
  - intros v Hv. rewrite bin_entropy by auto. destruct Hv as [_ Hv], (blaw_variance p n) as [_ Hv'].
    rewrite (BetaBinProofs.law_unique _ _ _ _ Hv Hv'). f_equal. replace (2 * (PI * exp 1) * (p * (1 - p) * INR n)) with (2 * PI * exp 1 * (p * (1 - p) * INR n)) by ring.
    field. assert (0 < ln 2) by (rewrite <- ln_1; apply ln_increasing; lra). lra.
  - assert (0 < PI) by apply PI_RGT_0. assert (0 < exp 1) by apply exp_pos. assert (0 < PI * exp 1) by (apply Rmult_lt_0_compat; auto).
    assert (0 < PI * exp 1 * 2 * l) by (apply Rmult_lt_0_compat; lra).
    unfold Poisson.shannon_entropy, PI_E_2, PI_E, ONE_TWELTH, ONE_TWENTY_FOURTH, NINETEEN_OVER_360. cbn [poi Poisson.new_unchecked Poisson.pr Poisson.lambda]. cbv zeta.
    xs. f_equal. replace (PI * exp 1 * 2 * l) with (2 * PI * exp 1 * l) by ring. field. lra.
Qed.
Print Assumptions C118_entropy_partial.
Example C118_nonvacuous : exists d q, Binomial.new (Z.of_nat 3) (Prob (Fin (1 / 1000))) = Ok d /\ Poisson.new (Fin (1 / 20)) = Ok q /\
  1 / 1000 * (1 - 1 / 1000) * INR 3 < 1 / (2 * PI * exp 1).
Proof.
  do 2 eexists. split; [apply bin_new_ok; lra|]. unfold Poisson.new. split; [ok_new2|].
  assert (PI <= 4) by apply PI_4. assert (exp 1 <= 3) by apply exp_le_3. assert (0 < PI) by apply PI_RGT_0. assert (0 < exp 1) by apply exp_pos.
  assert (PI * exp 1 <= 4 * 3) by (apply Rmult_le_compat; lra). assert (0 < PI * exp 1) by (apply Rmult_lt_0_compat; lra).
  apply Rlt_le_trans with (1 / 24); [cbn; lra|]. unfold Rdiv. rewrite !Rmult_1_l. apply Rinv_le_contravar; lra.
Qed.
