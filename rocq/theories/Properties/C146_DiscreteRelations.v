(** * Property C146: discrete families that are special cases or reflections of one another agree; memorylessness *)
From Coq Require Import Reals Lra Lia Psatz List ZArith.
From Coquelicot Require Import Coquelicot.
From Verif.Num Require Import Scalar XReal.
From Verif.Model Require Import Rust Constraints Probability Params Consts Traits Utils Continuous Continuous2 Discrete Mixture Linalg Multivariate.
From Verif.Spec Require Import DistSpec GammaSpec ResSpec ProbSpec UtilsSpec DiscreteSpec.
From Verif.Proofs Require Import ConstraintProofs NewInv XTac Calc GammaFun Oracle UtilsProofs Stirling ContProofs1 ContProofs14 DiscProofs1 DiscProofs2 DiscProofs3 DiscProofs4 DiscProofs5 BetaBinProofs MultiProofs.
From Verif.Properties Require Import C136_Medians C142_Relations.
Import ListNotations.
Open Scope R_scope.

(** Binomial(1, p) is Bernoulli(p), and both are the Categorical on (1 - p, p) *)
Theorem C146_bernoulli (p : R) (be : Bernoulli.t xreal) (bi : Binomial.t xreal) (ca : Categorical.t xreal) :
  Bernoulli.new (Fin p) = Ok be -> Binomial.new 1 (Prob (Fin p)) = Ok bi -> Categorical.new [Fin (1 - p); Fin p] = Ok ca ->
  Binomial.pmf bi 1 = Ret (Bernoulli.pmf be true) /\ Binomial.pmf bi 0 = Ret (Bernoulli.pmf be false) /\
  Categorical.pmf ca 1 = Ret (Bernoulli.pmf be true) /\ Categorical.pmf ca 0 = Ret (Bernoulli.pmf be false) /\
  Binomial.mean bi = Bernoulli.mean be /\ Binomial.variance bi = Bernoulli.variance be /\
  (0 < p < 1 -> Binomial.skewness bi = Bernoulli.skewness be /\ Binomial.kurtosis bi = Bernoulli.kurtosis be).
Proof.
  intros H1 H2 H3. apply ber_new_inv in H1 as [Hp ->]. change 1%Z with (Z.of_nat 1) in H2. apply bin_new_inv in H2 as [_ ->].
  unfold Categorical.new in H3. change [Fin (1 - p); Fin p] with (map Fin [1 - p; p]) in H3. destruct (simplex_new (map Fin [1 - p; p])) eqn:E; [|discriminate]. cbn [map_err map_ok] in H3. injection H3 as <-. apply simplex_new_x in E as (-> & _).
  split; [|split; [|split; [|split; [|split; [|split]]]]].
  - refine (eq_trans (bin_pmf 1 p 1 ltac:(lia) ltac:(lia) (fits_62 1 1 ltac:(lia))) _). f_equal. apply prob_ext. rewrite ber_pmf. cbn [unwrap]. now rewrite ber_law_eq.
  - refine (eq_trans (bin_pmf 1 p 0 ltac:(lia) ltac:(lia) (fits_62 1 0 ltac:(lia))) _). f_equal. apply prob_ext. rewrite ber_pmf. cbn [unwrap]. now rewrite ber_law_eq.
  - unfold Categorical.pmf. cbn. reflexivity.
  - unfold Categorical.pmf. cbn. reflexivity.
  - rewrite bin_mean. unfold Bernoulli.mean. cbn. f_equal. ring.
  - rewrite bin_variance. unfold Bernoulli.variance. cbn. f_equal. ring.
  - intros Hp'. split.
    + rewrite bin_skewness by first [lra | lia]. rewrite (proj1 (ber_skewness p Hp')). f_equal. cbn [INR]. rewrite Rmult_1_r. f_equal. ring.
    + rewrite bin_kurtosis by first [lra | lia]. rewrite (proj1 (ber_kurtosis p Hp')). f_equal. cbn [INR]. field. lra.
Qed.
Print Assumptions C146_bernoulli.

Lemma fits_sym n k : (k <= n)%nat -> choose_fits n k -> choose_fits n (n - k).
Proof. intros H F j Hj. apply F. lia. Qed.

(** counting failures instead of successes: Binomial(n, p) at k is Binomial(n, 1 - p) at n - k *)
Theorem C146_binomial_reflection (n : nat) (p : R) (d d' : Binomial.t xreal) :
  Binomial.new (Z.of_nat n) (Prob (Fin p)) = Ok d -> Binomial.new (Z.of_nat n) (Prob (Fin (1 - p))) = Ok d' -> (Z.of_nat n < 2 ^ 31)%Z ->
  (forall k, (k <= n)%nat -> choose_fits n k -> Binomial.pmf d' (Z.of_nat (n - k)) = Binomial.pmf d (Z.of_nat k)) /\
  Binomial.variance d' = Binomial.variance d /\
  returns (Binomial.mean d) (fun m => Binomial.mean d' = Fin (INR n - m)) /\
  (0 < p < 1 -> (0 < n)%nat -> Binomial.kurtosis d' = Binomial.kurtosis d /\ returns (Binomial.skewness d) (fun g => Binomial.skewness d' = Fin (- g))).
Proof.
  intros H1 H2 Hn. apply bin_new_inv in H1 as [Hp ->]. apply bin_new_inv in H2 as [_ ->]. split; [|split; [|split]].
  - intros k Hk HF. rewrite !bin_pmf by first [lia | assumption | now apply fits_sym]. do 2 f_equal. f_equal. unfold binomial_law.
    rewrite binom_sym by lia. replace (n - (n - k))%nat with k by lia. replace (1 - (1 - p)) with p by ring. ring.
  - rewrite !bin_variance. f_equal. ring.
  - eexists. split; [apply bin_mean|]. rewrite bin_mean. f_equal. ring.
  - intros Hp' Hn'. rewrite !bin_kurtosis by first [lra | lia]. split; [f_equal; field; repeat split; first [lra | apply not_0_INR; lia]|].
    eexists. split; [apply bin_skewness; first [lra | lia]|]. rewrite bin_skewness by first [lra | lia]. f_equal. replace ((1 - p) * (1 - (1 - p))) with (p * (1 - p)) by ring.
    unfold Rdiv. ring.
Qed.
Print Assumptions C146_binomial_reflection.

(** BetaBinomial: reflection, the uniform case alpha = beta = 1 and the one-trial case *)
Theorem C146_beta_binomial (SP : Special xreal) (n : nat) (a b : R) (d d' u o : BetaBinomial.t xreal) (un : UniformI.t xreal) (be : Bernoulli.t xreal) :
  beta_exact SP -> (Z.of_nat n < 2 ^ 62)%Z -> BetaBinomial.new (Z.of_nat n) (Fin a) (Fin b) = Ok d -> BetaBinomial.new (Z.of_nat n) (Fin b) (Fin a) = Ok d' ->
  BetaBinomial.new (Z.of_nat n) (Fin 1) (Fin 1) = Ok u -> UniformI.new 0 (Z.of_nat n) = Ret (Ok un) ->
  BetaBinomial.new 1 (Fin a) (Fin b) = Ok o -> Bernoulli.new (Fin (a / (a + b))) = Ok be ->
  (forall k, (k <= n)%nat -> choose_fits n k ->
    BetaBinomial.pmf d' (Z.of_nat (n - k)) = BetaBinomial.pmf d (Z.of_nat k) /\
    BetaBinomial.pmf u (Z.of_nat k) = UniformI.pmf un (Z.of_nat k)) /\
  BetaBinomial.variance d' = BetaBinomial.variance d /\
  BetaBinomial.mean u = UniformI.mean un /\ UniformI.variance un = Ret (BetaBinomial.variance u) /\
  BetaBinomial.pmf o 1 = Ret (Bernoulli.pmf be true) /\ BetaBinomial.pmf o 0 = Ret (Bernoulli.pmf be false) /\
  BetaBinomial.mean o = Bernoulli.mean be /\ BetaBinomial.variance o = Bernoulli.variance be.
Proof.
  intros Hs Hn H1 H2 H3 H4 H5 H6. unfold BetaBinomial.new in *. inv_new H1. inv_new H2. inv_new H3. inv_new H5. apply ber_new_inv in H6 as [Hp ->].
  repeat match goal with |- context [BetaBinomial.from (BetaBinomial.mkP ?k ?x ?y)] => change (BetaBinomial.from (BetaBinomial.mkP k x y)) with (BetaBinomial.new_unchecked k x y) end.
  assert (Ha : 0 < a) by assumption. assert (Hb : 0 < b) by assumption.
  assert (HU : (Z.of_nat n <= U64_MAX)%Z) by (unfold U64_MAX; lia).
  destruct (ui_inv 0 (Z.of_nat n) un) as [[W1 W2] ->]; [unfold I64_MIN; lia | lia | unfold I64_MAX; lia | exact H4 |].
  assert (N0 := lt_INR 0 n ltac:(lia)). cbn [INR] in N0.
  split; [|split; [|split; [|split; [|split; [|split; [|split]]]]]].
  - intros k Hk HF. split.
    + rewrite (bb_pmf b a Hb Ha Hs) by first [lia | now apply fits_sym]. rewrite (bb_pmf a b Ha Hb Hs) by first [lia | assumption]. do 2 f_equal. f_equal. unfold bblaw. destruct (le_dec (n - k) n); [|lia]. destruct (le_dec k n); [|lia].
      rewrite binom_sym by lia. assert (K1 := pos_INR k). assert (K2 := pos_INR (n - k)). assert (K3 := minus_INR n k Hk). rewrite (Bet_sym (INR (n - k) + b)), (Bet_sym b a) by lra. rewrite K3. replace (INR n - (INR n - INR k) + a) with (INR k + a) by ring. reflexivity.
    + rewrite (bb_pmf 1 1 ltac:(lra) ltac:(lra) Hs) by first [lia | assumption]. rewrite ui_pmf by (unfold I64_MIN, I64_MAX in *; lia). do 2 f_equal. f_equal. unfold bblaw. destruct (le_dec k n); [|lia].
      assert (K1 := pos_INR k). assert (K2 := pos_INR (n - k)). assert (K3 := minus_INR n k Hk).
      assert (G := Beta_Gamma (INR k + 1) (INR (n - k) + 1) ltac:(lra) ltac:(lra)). rewrite <- K3. rewrite !Gam_fact in G. rewrite K3 in G at 2. replace (INR k + 1 + (INR n - INR k + 1)) with (INR (S n) + 1) in G by (rewrite S_INR; ring). rewrite Gam_fact in G.
      rewrite (Bet_1r 1) by lra. assert (B := binom_fact n k Hk). apply (f_equal IZR) in B. rewrite !mult_IZR in B. unfold zfact in B. rewrite <- !INR_IZR_INZ in B.
      assert (F0 := INR_fact_lt_0 n). assert (F1 : INR (fact (S n)) = (INR n + 1) * INR (fact n)) by (rewrite fact_simpl, mult_INR, S_INR; ring). rewrite F1 in G.
      rewrite plus_IZR, <- INR_IZR_INZ. set (X := Bet _ _) in *. apply Rmult_eq_reg_r with ((INR n + 1) * INR (fact n)); [|apply Rgt_not_eq, Rmult_lt_0_compat; lra].
      replace (IZR (binom n k) * X / / 1 * ((INR n + 1) * INR (fact n))) with (IZR (binom n k) * (X * ((INR n + 1) * INR (fact n)))) by field. rewrite G, B. field. lra.
  - rewrite (bb_variance_ok b a), (bb_variance_ok a b) by lra. f_equal. field. lra.
  - rewrite (bb_mean_ok 1 1) by lra. rewrite (proj1 (ui_mean 0 (Z.of_nat n) W1 ltac:(unfold I64_MIN; lia) ltac:(unfold I64_MAX in *; lia))). f_equal. rewrite <- INR_IZR_INZ. field.
  - rewrite (bb_variance_ok 1 1) by lra. destruct (ui_variance 0 (Z.of_nat n)) as [VE _]; try first [assumption | unfold I64_MIN, I64_MAX in *; lia]. rewrite VE. f_equal. unfold ui_var. rewrite plus_IZR, <- INR_IZR_INZ. f_equal. field.
  - refine (eq_trans (bb_pmf a b Ha Hb Hs 1 1 ltac:(unfold U64_MAX; lia) ltac:(lia) (fits_62 1 1 ltac:(lia))) _). f_equal. apply prob_ext. rewrite ber_pmf. cbn [Probability.unwrap bernoulli_law]. f_equal. unfold bblaw. destruct (le_dec 1 1); [|lia].
    assert (BP := Bet_pos a b Ha Hb). change (INR 1) with 1. replace (1 - 1 + b) with b by ring. rewrite (Rplus_comm 1 a), (Bet_rec a b Ha Hb). change (IZR (binom 1 1)) with 1. field. lra.
  - refine (eq_trans (bb_pmf a b Ha Hb Hs 1 0 ltac:(unfold U64_MAX; lia) ltac:(lia) (fits_62 1 0 ltac:(lia))) _). f_equal. apply prob_ext. rewrite ber_pmf. cbn [Probability.unwrap bernoulli_law]. f_equal. unfold bblaw. destruct (le_dec 0 1); [|lia].
    assert (BP := Bet_pos a b Ha Hb). change (INR 1) with 1. change (INR 0) with 0. replace (1 - 0 + b) with (b + 1) by ring. rewrite Rplus_0_l, (Bet_sym a (b + 1)), (Bet_rec b a Hb Ha), (Bet_sym b a) by lra. change (IZR (binom 1 0)) with 1. field. lra.
  - change 1%Z with (Z.of_nat 1). rewrite (bb_mean_ok a b) by lra. transitivity (Fin (a / (a + b))); [|reflexivity]. f_equal. cbn [INR]. field. lra.
  - change 1%Z with (Z.of_nat 1). rewrite (bb_variance_ok a b) by lra. transitivity (Fin (a / (a + b) * (1 - a / (a + b)))); [|reflexivity]. f_equal. cbn [INR]. field. lra.
Qed.
Print Assumptions C146_beta_binomial.

(** memorylessness: P(X >= j + k) = P(X >= j) P(X >= k), in terms of the distribution functions, and the conditional mass function *)
Theorem C146_memoryless (p l : R) (g : Geometric.t xreal) (e : Exponential.t xreal) :
  Geometric.new (Fin p) = Ok g -> Exponential.new (Fin l) = Ok e ->
  (forall j k : nat, (Z.of_nat (j + k + 1) < 2 ^ 31 - 1)%Z ->
    returns (gotp (Geometric.cdf g (Z.of_nat j))) (fun u => returns (gotp (Geometric.cdf g (Z.of_nat k))) (fun v =>
      gotp (Geometric.cdf g (Z.of_nat (j + k + 1))) = Fin (1 - (1 - u) * (1 - v)))) /\
    returns (gotp (Geometric.cdf g (Z.of_nat j))) (fun u => returns (Probability.unwrap (Geometric.pmf g (Z.of_nat k))) (fun v =>
      Probability.unwrap (Geometric.pmf g (Z.of_nat (j + k + 1))) = Fin ((1 - u) * v)))) /\
  (forall x y : R, 0 <= x -> 0 <= y ->
    returns (Probability.unwrap (Exponential.cdf e (Fin x))) (fun u => returns (Probability.unwrap (Exponential.cdf e (Fin y))) (fun v =>
      Probability.unwrap (Exponential.cdf e (Fin (x + y))) = Fin (1 - (1 - u) * (1 - v)))) /\
    returns (Probability.unwrap (Exponential.cdf e (Fin x))) (fun u => returns (Exponential.pdf e (Fin y)) (fun v =>
      Exponential.pdf e (Fin (x + y)) = Fin ((1 - u) * v)))).
Proof.
  intros H1 H2. apply geo_new_inv in H1 as [Hp ->]. unfold Exponential.new in H2. inv_new H2. change (Exponential.mk _) with (Exponential.new_unchecked (Fin l)). split.
  - intros j k Hjk. split.
    + eexists. split; [apply geo_cdf; lia|]. eexists. split; [apply geo_cdf; lia|]. rewrite geo_cdf by lia. f_equal. rewrite !glaw_cdf. replace (S (j + k + 1)) with (S j + S k)%nat by lia. rewrite pow_add. ring.
    + eexists. split; [apply geo_cdf; lia|]. eexists. split; [apply geo_pmf; lia|]. rewrite geo_pmf by lia. f_equal. rewrite !glaw_cdf. unfold geometric_law. replace (j + k + 1)%nat with (S j + k)%nat by lia. rewrite pow_add. ring.
  - intros x y Hx Hy. split.
    + eexists. split; [apply e_cdf|]. eexists. split; [apply e_cdf|]. rewrite e_cdf. f_equal. replace (- (l * (x + y))) with (- (l * x) + - (l * y)) by ring. rewrite exp_plus. ring.
    + eexists. split; [apply e_cdf|]. eexists. split; [apply e_pdf|]. rewrite e_pdf. f_equal. replace (- (l * (x + y))) with (- (l * x) + - (l * y)) by ring. rewrite exp_plus. ring.
Qed.
Print Assumptions C146_memoryless.

Lemma fin22 (a b c d a' b' c' d' : R) : a = a' -> b = b' -> c = c' -> d = d' -> [[Fin a; Fin b]; [Fin c; Fin d]] = [[Fin a'; Fin b']; [Fin c'; Fin d']].
Proof. intros. now subst. Qed.
(** the components of a two-category Multinomial have the moments of the Binomial counting them *)
Theorem C146_multinomial (n : nat) (p : R) (m : Multinomial.t xreal) (b : Binomial.t xreal) :
  Multinomial.new (Z.of_nat n) [Fin p; Fin (1 - p)] = Ok m -> Binomial.new (Z.of_nat n) (Prob (Fin p)) = Ok b ->
  nth_error (Multinomial.mean m) 0 = Some (Binomial.mean b) /\ nth_error (Multinomial.variance m) 0 = Some (Binomial.variance b) /\
  returns (Binomial.variance b) (fun v => Multinomial.covariance m = [[Fin v; Fin (- v)]; [Fin (- v); Fin v]]) /\
  (0 < p < 1 -> Multinomial.correlation m = [[Fin 1; Fin (-1)]; [Fin (-1); Fin 1]]).
Proof.
  intros H1 H2. apply bin_new_inv in H2 as [Hp ->]. change [Fin p; Fin (1 - p)] with (map Fin [p; 1 - p]) in H1. apply mn_new_inv in H1 as (_ & _ & ->). cbn [map].
  split; [|split; [|split]].
  - rewrite bin_mean. cbn. f_equal. xs. now rewrite <- INR_IZR_INZ.
  - rewrite bin_variance. cbn. f_equal. xs. now rewrite <- INR_IZR_INZ.
  - eexists. split; [apply bin_variance|]. unfold Multinomial.covariance. cbn. xs. rewrite <- !INR_IZR_INZ. apply fin22; ring.
  - intros Hp'. unfold Multinomial.correlation, Multinomial.n_categories. cbn [Multinomial.pr Multinomial.ps Multinomial.new_unchecked length]. unfold mtab, tab. cbn [seq map Nat.eqb]. unfold vget. cbn [nth map]. xs. replace (1 - (1 - p)) with p by ring.
    assert (0 < 1 - p) by lra. assert (0 < p) by lra. xs. replace (p * (1 - p) / (1 - p) / p) with 1 by (field; lra). replace ((1 - p) * p / p / (1 - p)) with 1 by (field; lra). rewrite sqrt_1. xs. apply fin22; ring.
Qed.
Print Assumptions C146_multinomial.

Example C146_nonvacuous : beta_exact (exact false) /\ (exists d, Bernoulli.new (Fin (2 / 5)) = Ok d) /\ (exists d, Binomial.new 1 (Prob (Fin (2 / 5))) = Ok d) /\ (exists d, Categorical.new [Fin (1 - 2 / 5); Fin (2 / 5)] = Ok d) /\
  (exists d, Binomial.new (Z.of_nat 7) (Prob (Fin (2 / 5))) = Ok d) /\ (exists d, Binomial.new (Z.of_nat 7) (Prob (Fin (1 - 2 / 5))) = Ok d) /\ choose_fits 7 3 /\
  (exists d, BetaBinomial.new (Z.of_nat 7) (Fin 2) (Fin 3) = Ok d) /\ (exists d, BetaBinomial.new (Z.of_nat 7) (Fin 3) (Fin 2) = Ok d) /\ (exists d, BetaBinomial.new (Z.of_nat 7) (Fin 1) (Fin 1) = Ok d) /\ (exists d, BetaBinomial.new 1 (Fin 2) (Fin 3) = Ok d) /\
  (exists d, UniformI.new 0 (Z.of_nat 7) = Ret (Ok d)) /\ (exists d, Bernoulli.new (Fin (2 / (2 + 3))) = Ok d) /\ (exists d, Geometric.new (Fin (1 / 3)) = Ok d) /\ (exists d, Exponential.new (Fin 2) = Ok d) /\
  (exists d, Multinomial.new (Z.of_nat 7) [Fin (2 / 5); Fin (1 - 2 / 5)] = Ok d).
Proof.
  split; [apply ex_beta|]. split; [eexists; apply ber_new_ok; lra|]. split; [eexists; apply (bin_new_ok 1); lra|].
  split. { unfold Categorical.new. change [Fin (1 - 2 / 5); Fin (2 / 5)] with (map Fin [1 - 2 / 5; 2 / 5]). rewrite MixtureProofs.x_simplex_ok; [eexists; reflexivity|]. split; [repeat constructor; lra|]. cbn [ProbSpec.rsum]. replace (_ - 1) with 0 by lra. rewrite Rabs_R0. lra. }
  split; [eexists; apply bin_new_ok; lra|]. split; [eexists; apply bin_new_ok; lra|]. split; [apply fits_62; lia|].
  do 4 (split; [eexists; unfold BetaBinomial.new; ok_new|]).
  split; [eexists; apply (ui_new 0 7); unfold I64_MIN, I64_MAX; lia|]. split; [eexists; apply ber_new_ok; lra|]. split; [eexists; apply geo_new_ok; lra|]. split; [eexists; unfold Exponential.new; ok_new|].
  eexists. apply (mn_new_ok (Z.of_nat 7) [2 / 5; 1 - 2 / 5]); [lia| |cbn; lra]. intros q [<-|[<-|[]]]; lra.
Qed.
