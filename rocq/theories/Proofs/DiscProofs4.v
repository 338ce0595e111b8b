(** * Bernoulli, Binomial, Geometric, Poisson: the methods compute their laws *)
From Coq Require Import Reals Lra Lia Psatz ZArith List.
From Coquelicot Require Import Coquelicot.
From Flocq Require Import Core.Raux.
From Verif.Num Require Import XReal.
From Verif.Model Require Import Rust Constraints Probability Params Utils Consts LogFact Discrete.
From Verif.Spec Require Import UtilsSpec DiscreteSpec ResSpec ParamSpec.
From Verif.Proofs Require Import UtilsProofs ConstraintProofs NewInv XTac DiscProofs1 DiscProofs2 DiscProofs3.
Import ListNotations.
Open Scope R_scope.

(** like [ok_new], computing the constructed value *)
Ltac ok_new2 := rewrite map_params_ok; [reflexivity|];
  cbn [args s1 s2 s3 fst snd];
  repeat (apply Forall_cons || apply Forall_nil); unfold arg_ok; cbn [arg_ty arg_val field_ok];
  try exact I; try (apply xpos_iff; lra); try (apply xprob_iff; cbn [unwrap]; lra); try lia.

Lemma as_i32_id z : (0 <= z < 2 ^ 31)%Z -> as_i32 z = z.
Proof.
  intros H. unfold as_i32, wrap_signed. change (2 ^ 32)%Z with 4294967296%Z in *. change (2 ^ (32 - 1))%Z with 2147483648%Z in *. change (2 ^ 31)%Z with 2147483648%Z in *.
  rewrite Z.mod_small by lia. destruct (Z.ltb_spec z 2147483648); lia.
Qed.
Lemma u64_ok z : (0 <= z <= U64_MAX)%Z -> u64 z = Ret z.
Proof. intros H. unfold u64. now rewrite checked_ok. Qed.
Lemma of_nat_31 n : (Z.of_nat n < 2 ^ 31)%Z -> (Z.of_nat n <= U64_MAX)%Z.
Proof. unfold U64_MAX. lia. Qed.

(** ** Binomial *)
Definition bin (n : nat) (p : R) : Binomial.t xreal := Binomial.new_unchecked (Z.of_nat n) (Prob (Fin p)).
Lemma bin_new_inv n p d : Binomial.new (Z.of_nat n) (Prob (Fin p)) = Ok d -> 0 <= p <= 1 /\ d = bin n p.
Proof. intros H. unfold Binomial.new in H. inv_new H. auto. Qed.
Lemma bin_new_ok n p : 0 <= p <= 1 -> Binomial.new (Z.of_nat n) (Prob (Fin p)) = Ok (bin n p).
Proof.
  intros H. unfold Binomial.new. ok_new2.
Qed.
Lemma bin_pmf n p k : (Z.of_nat n < 2 ^ 31)%Z -> (k <= n)%nat -> choose_fits n k ->
  Binomial.pmf (bin n p) (Z.of_nat k) = Ret (Prob (Fin (binomial_law n p k))).
Proof.
  intros Hn Hk Hf. unfold Binomial.pmf, bin, Binomial.new_unchecked; cbn [Binomial.pr Binomial.n Binomial.p Binomial.q].
  rewrite (choose_ok n k Hk (of_nat_31 n Hn) Hf). cbn [rbind]. unfold usize. rewrite u64_ok by (split; [lia|generalize (of_nat_31 n Hn); lia]). cbn [rbind].
  rewrite (as_i32_id (Z.of_nat k)) by lia. rewrite (as_i32_id (Z.of_nat n - Z.of_nat k)) by lia.
  rewrite <- Nat2Z.inj_sub by auto. unfold p_powi, p_not, p_new_unchecked; cbn [unwrap]. rewrite !x_lit, x_sub. rewrite !x_powi_nat. xs. reflexivity.
Qed.
Lemma bin_pmf_panic n p k : (Z.of_nat n <= U64_MAX)%Z -> ~ (k <= n)%nat \/ (exists j, (j < Nat.min k (n - k))%nat /\ (U64_MAX < binom n j * (Z.of_nat n - Z.of_nat j))%Z) ->
  Binomial.pmf (bin n p) (Z.of_nat k) = Panic.
Proof.
  intros Hn H. unfold Binomial.pmf, bin, Binomial.new_unchecked; cbn [Binomial.pr Binomial.n Binomial.p Binomial.q].
  assert (E : choose (Z.of_nat n) (Z.of_nat k) = Panic); [|now rewrite E].
  destruct (le_dec k n) as [Hk|Hk]; [|apply choose_k_gt_n; lia]. destruct H as [H|(j & H1 & H2)]; [contradiction|]. exact (choose_overflow n k j Hk Hn H1 H2).
Qed.
Lemma fits_62 n k : (n <= 62)%nat -> choose_fits n k.
Proof. intros H j Hj. apply prod_fits; lia. Qed.
Lemma bin_mean n p : Binomial.mean (bin n p) = Fin (p * INR n).
Proof. unfold Binomial.mean, bin; cbn [Binomial.new_unchecked Binomial.pr Binomial.n Binomial.p unwrap]. xs. now rewrite <- INR_IZR_INZ. Qed.
Lemma bin_variance n p : Binomial.variance (bin n p) = Fin (p * (1 - p) * INR n).
Proof. unfold Binomial.variance, bin; cbn [Binomial.new_unchecked Binomial.pr Binomial.n Binomial.p Binomial.q unwrap p_not p_new_unchecked]. xs. now rewrite <- INR_IZR_INZ. Qed.
Lemma bin_skewness n p : 0 < p < 1 -> (0 < n)%nat -> Binomial.skewness (bin n p) = Fin ((1 - p * 2) / sqrt (p * (1 - p) * INR n)).
Proof.
  intros Hp Hn. apply lt_0_INR in Hn. unfold Binomial.skewness. rewrite bin_variance. unfold bin, p_mul_f; cbn [Binomial.new_unchecked Binomial.pr Binomial.p unwrap].
  assert (0 < p * (1 - p) * INR n) by pos. rewrite x_sqrt by lra. assert (0 < sqrt (p * (1 - p) * INR n)) by pos. xs. reflexivity.
Qed.
Lemma bin_kurtosis n p : 0 < p < 1 -> (0 < n)%nat -> Binomial.kurtosis (bin n p) = Fin ((1 - 6 * p * (1 - p)) / (INR n * p * (1 - p))).
Proof.
  intros Hp Hn. apply lt_0_INR in Hn. unfold Binomial.kurtosis, bin; cbn [Binomial.new_unchecked Binomial.pr Binomial.n Binomial.p Binomial.q unwrap p_not p_new_unchecked].
  cbv zeta. rewrite !x_lit. rewrite <- INR_IZR_INZ. assert (0 < INR n * p * (1 - p)) by pos. xs. reflexivity.
Qed.
Lemma bin_modes n p : 0 <= p <= 1 -> (Z.of_nat n <= U64_MAX)%Z -> Binomial.modes (bin n p) = [Zfloor (p * INR n)] /\ (0 <= Zfloor (p * INR n) <= Z.of_nat n)%Z.
Proof.
  intros Hp Hn. assert (B : (0 <= Zfloor (p * INR n) <= Z.of_nat n)%Z).
  { assert (0 <= INR n) by apply pos_INR. split.
    - apply Zfloor_lub. cbn. nra.
    - rewrite <- (Zfloor_IZR (Z.of_nat n)). apply Zfloor_le. rewrite <- INR_IZR_INZ. nra. }
  split; [|exact B]. unfold Binomial.modes, bin, p_mul_f; cbn [Binomial.new_unchecked Binomial.pr Binomial.n Binomial.p unwrap].
  xs. rewrite <- INR_IZR_INZ. rewrite x_to. rewrite Ztrunc_IZR. unfold clampZ, USIZE_MAX. f_equal. lia.
Qed.

(** ** Bernoulli *)
Definition ber (p : R) : Bernoulli.t xreal := Bernoulli.new_unchecked (Fin p).
Lemma ber_new_inv p d : Bernoulli.new (Fin p) = Ok d -> 0 <= p <= 1 /\ d = ber p.
Proof. intros H. unfold Bernoulli.new in H. inv_new H. auto. Qed.
Lemma ber_new_ok p : 0 <= p <= 1 -> Bernoulli.new (Fin p) = Ok (ber p).
Proof.
  intros H. unfold Bernoulli.new. ok_new2.
Qed.
Lemma ber_pmf p b : unwrap (Bernoulli.pmf (ber p) b) = Fin (bernoulli_law p (if b then 1 else 0)).
Proof. destruct b; reflexivity. Qed.
Lemma ber_law_eq p : forall k, binomial_law 1 p k = bernoulli_law p k.
Proof. intros; symmetry; apply bernoulli_law_1. Qed.
Lemma law_expect_law l l' g m : (forall k, l k = l' k) -> law_expect l g m -> law_expect l' g m.
Proof. intros H. apply is_series_ext'. intros; now rewrite H. Qed.
Lemma is_law_law l l' : (forall k, l k = l' k) -> is_law l -> is_law l'.
Proof. intros H [A B]. split; [intros; rewrite <- H; apply A|now apply is_series_ext' with l]. Qed.
Lemma law_variance_law l l' m v : (forall k, l k = l' k) -> law_variance l m v -> law_variance l' m v.
Proof. intros H [A B]. split; now apply law_expect_law with l. Qed.
Lemma law_skewness_law l l' v : (forall k, l k = l' k) -> law_skewness l v -> law_skewness l' v.
Proof. intros H (m & w & A & B & C). exists m, w. split; [now apply law_variance_law with l|]. split; [auto|now apply law_expect_law with l]. Qed.
Lemma law_kurtosis_law l l' v : (forall k, l k = l' k) -> law_kurtosis l v -> law_kurtosis l' v.
Proof. intros H (m & w & A & B & C). exists m, w. split; [now apply law_variance_law with l|]. split; [auto|now apply law_expect_law with l]. Qed.
Lemma ber_is_law p : 0 <= p <= 1 -> is_law (bernoulli_law p).
Proof. intros H. apply is_law_law with (1 := ber_law_eq p). now apply blaw_is_law. Qed.
Lemma ber_variance p : law_variance (bernoulli_law p) p (p * (1 - p)).
Proof.
  apply law_variance_law with (1 := ber_law_eq p). replace p with (p * INR 1) at 2 by (cbn; ring). replace (p * (1 - p)) with (p * (1 - p) * INR 1) by (cbn; ring). apply blaw_variance.
Qed.
Lemma ber_skewness p : 0 < p < 1 -> Bernoulli.skewness (ber p) = Fin ((1 - 2 * p) / sqrt (p * (1 - p))) /\ law_skewness (bernoulli_law p) ((1 - 2 * p) / sqrt (p * (1 - p))).
Proof.
  intros H. split.
  - unfold Bernoulli.skewness, ber; cbn [Bernoulli.new_unchecked Bernoulli.from Bernoulli.pr Bernoulli.p Bernoulli.var unwrap].
    assert (0 < p * (1 - p)) by pos. assert (0 < sqrt (p * (1 - p))) by pos. xs. reflexivity.
  - apply law_skewness_law with (1 := ber_law_eq p). replace ((1 - 2 * p) / sqrt (p * (1 - p))) with ((1 - p * 2) / sqrt (p * (1 - p) * INR 1)).
    + apply blaw_skewness; [auto|lia].
    + cbn [INR]. rewrite Rmult_1_r. f_equal. ring.
Qed.
Lemma ber_kurtosis p : 0 < p < 1 -> Bernoulli.kurtosis (ber p) = Fin (1 / (p * (1 - p)) - 6) /\ Bernoulli.excess_kurtosis (ber p) = Fin (1 / (p * (1 - p)) - 9) /\
  law_kurtosis (bernoulli_law p) (1 / (p * (1 - p)) - 3).
Proof.
  intros H. assert (0 < p * (1 - p)) by pos. split; [|split].
  - unfold Bernoulli.kurtosis, ber; cbn [Bernoulli.new_unchecked Bernoulli.from Bernoulli.pr Bernoulli.p Bernoulli.var unwrap]. xs. reflexivity.
  - unfold Bernoulli.excess_kurtosis, ber; cbn [Bernoulli.new_unchecked Bernoulli.from Bernoulli.pr Bernoulli.p Bernoulli.var unwrap]. xs. reflexivity.
  - apply law_kurtosis_law with (1 := ber_law_eq p). replace (1 / (p * (1 - p)) - 3) with ((1 - 6 * p * (1 - p)) / (INR 1 * p * (1 - p)) + 3).
    + apply blaw_kurtosis; [auto|lia].
    + cbn [INR]. field. lra.
Qed.
Lemma ber_expect p g : law_expect (bernoulli_law p) g ((1 - p) * g 0%nat + p * g 1%nat).
Proof.
  apply law_expect_law with (1 := ber_law_eq p). eapply law_expect_eq; [apply blaw_series|]. rewrite BE_S, !BE_0. reflexivity.
Qed.
Lemma ber_entropy p : 1 / 10000000 <= p <= 1 - 1 / 10000000 ->
  exists h, Bernoulli.shannon_entropy (ber p) = Fin h /\ law_entropy (exp 1) (bernoulli_law p) h.
Proof.
  intros H. exists (- (1 - p) * ln (1 - p) - p * ln p). split.
  - unfold Bernoulli.shannon_entropy, ber; cbn [Bernoulli.new_unchecked Bernoulli.from Bernoulli.pr Bernoulli.p Bernoulli.q Bernoulli.var unwrap p_not p_new_unchecked]. cbv zeta.
    xs. rewrite (Rabs_pos_eq (1 - p)) by lra. rewrite (Rabs_left1 (1 - p - 1)) by lra. xb. reflexivity.
  - unfold law_entropy. rewrite ln_exp. set (f := fun k : nat => - (bernoulli_law p k * (ln (bernoulli_law p k) / 1))).
    replace (- (1 - p) * ln (1 - p) - p * ln p) with (sum_n f 1).
    + apply is_series_finite. intros k Hk. unfold f. destruct k as [|[|k]]; [lia|lia|]. cbn [bernoulli_law]. lra.
    + rewrite sum_n_S, sum_n_0. unfold f. cbn [bernoulli_law]. match goal with |- @eq _ ?a ?b => change (@eq R a b) end. field.
Qed.
Lemma ber_median p : 0 <= p <= 1 -> p = 1 / 2 \/ 1 / 10000000 <= Rabs (p - 1 / 2) ->
  exists m, Bernoulli.median (ber p) = Fin m /\ law_median (bernoulli_law p) m.
Proof.
  intros Hp Hc. unfold Bernoulli.median, ber; cbn [Bernoulli.new_unchecked Bernoulli.from Bernoulli.pr Bernoulli.p unwrap]. cbv zeta. xs.
  assert (Hf : forall m a b, (1 - p) * (if Rle_dec 0 m then 1 else 0) + p * (if Rle_dec 1 m then 1 else 0) = a -> 1 / 2 <= a ->
     (1 - p) * (if Rle_dec m 0 then 1 else 0) + p * (if Rle_dec m 1 then 1 else 0) = b -> 1 / 2 <= b -> law_median (bernoulli_law p) m).
  { intros m a b Ha Ha' Hb Hb'. exists a, b. split; [rewrite <- Ha; exact (ber_expect p (fun k => if Rle_dec (INR k) m then 1 else 0))|]. split; [auto|].
    split; [rewrite <- Hb; exact (ber_expect p (fun k => if Rle_dec m (INR k) then 1 else 0))|auto]. }
  destruct Hc as [->|Hc].
  - rewrite Rminus_eq_0, Rabs_R0. xb. eexists; split; [reflexivity|]. eapply Hf; [reflexivity| |reflexivity|];
    repeat (match goal with |- context [Rle_dec ?a ?b] => destruct (Rle_dec a b) end); lra.
  - rewrite Rltb_false by lra. destruct (Rltb_spec p (1 / 2)).
    + eexists; split; [reflexivity|]. eapply Hf; [reflexivity| |reflexivity|];
      repeat (match goal with |- context [Rle_dec ?a ?b] => destruct (Rle_dec a b) end); lra.
    + eexists; split; [reflexivity|]. eapply Hf; [reflexivity| |reflexivity|];
      repeat (match goal with |- context [Rle_dec ?a ?b] => destruct (Rle_dec a b) end); lra.
Qed.
Lemma ber_modes p : Bernoulli.modes (ber p) = Ret (if Req_EM_T p (1 / 2) then [false; true] else [false]).
Proof.
  unfold Bernoulli.modes, ber; cbn [Bernoulli.new_unchecked Bernoulli.from Bernoulli.pr Bernoulli.p Bernoulli.q unwrap p_not p_new_unchecked]. cbv zeta. xs.
  destruct (Rltb_spec p (1 - p)); destruct (Req_EM_T p (1 / 2)); try lra; [reflexivity| |].
  - xb. reflexivity.
  - rewrite Reqb_false by lra. rewrite Rltb_true by lra. reflexivity.
Qed.

(** ** Geometric *)
Definition geo (p : R) : Geometric.t xreal := Geometric.new_unchecked (Fin p).
Lemma geo_new_inv p d : Geometric.new (Fin p) = Ok d -> 0 <= p <= 1 /\ d = geo p.
Proof. intros H. unfold Geometric.new in H. inv_new H. auto. Qed.
Lemma geo_new_ok p : 0 <= p <= 1 -> Geometric.new (Fin p) = Ok (geo p).
Proof.
  intros H. unfold Geometric.new. ok_new2.
Qed.
Lemma geo_pmf p k : (Z.of_nat k < 2 ^ 31)%Z -> unwrap (Geometric.pmf (geo p) (Z.of_nat k)) = Fin (geometric_law p k).
Proof.
  intros H. unfold Geometric.pmf, geo, p_mul_f, p_powi; cbn [Geometric.new_unchecked Geometric.from Geometric.pr Geometric.p Geometric.q unwrap p_not p_new_unchecked].
  rewrite as_i32_id by lia. rewrite x_lit, x_sub. rewrite x_powi_nat. reflexivity.
Qed.
Lemma geo_cdf p k : (Z.of_nat k < 2 ^ 31 - 1)%Z -> gotp (Geometric.cdf (geo p) (Z.of_nat k)) = Fin (law_cdf (geometric_law p) k).
Proof.
  intros H. rewrite glaw_cdf. unfold Geometric.cdf, geo, p_powi; cbn [Geometric.new_unchecked Geometric.from Geometric.pr Geometric.p Geometric.q unwrap p_not p_new_unchecked].
  rewrite as_i32_id by lia. rewrite checked_ok by lia. cbn [rbind gotp unwrap]. replace (Z.of_nat k + 1)%Z with (Z.of_nat (S k)) by lia.
  rewrite x_lit, x_sub. rewrite x_powi_nat. reflexivity.
Qed.
Lemma geo_moments p : 0 < p <= 1 -> Geometric.mean (geo p) = Fin ((1 - p) / p) /\ Geometric.variance (geo p) = Fin ((1 - p) / p / p) /\
  (p < 1 -> Geometric.skewness (geo p) = Fin ((2 - p) / sqrt (1 - p)) /\ Geometric.excess_kurtosis (geo p) = Fin (6 + 1 / ((1 - p) / p / p)) /\
            Geometric.shannon_entropy (geo p) = Fin ((- (1 - p) * (ln (1 - p) / ln 2) - p * (ln p / ln 2)) / p)).
Proof.
  intros H. unfold Geometric.excess_kurtosis, Geometric.mean, Geometric.variance, Geometric.skewness, Geometric.shannon_entropy, geo;
  cbn [Geometric.new_unchecked Geometric.from Geometric.pr Geometric.p Geometric.q unwrap p_not p_new_unchecked]. cbv zeta. xs.
  split; [reflexivity|]. split; [reflexivity|]. intros H1. assert (0 < 1 - p) by lra. assert (0 < sqrt (1 - p)) by pos. assert (0 < (1 - p) / p / p) by pos. xs. auto.
Qed.

(** ** Poisson *)
Definition poi (l : R) : Poisson.t xreal := Poisson.new_unchecked (Fin l).
Lemma poi_new_inv l d : Poisson.new (Fin l) = Ok d -> 0 < l /\ d = poi l.
Proof. intros H. unfold Poisson.new in H. inv_new H. auto. Qed.
Lemma ln_plaw l k : 0 < l -> ln (poisson_law l k) = INR k * ln l - l - ln (INR (fact k)).
Proof.
  intros H. unfold poisson_law. assert (F := fact_pos k). assert (0 < l ^ k) by now apply pow_lt.
  unfold Rdiv. rewrite !ln_mult, ln_exp, ln_Rinv, ln_pow by (auto; pos). ring.
Qed.
Lemma poi_log_pmf_with lf l k f : 0 < l -> lf (Z.of_nat k) = Ret (Fin f) -> Poisson.log_pmf_with lf (poi l) (Z.of_nat k) = Ret (Fin (INR k * ln l - l - f)).
Proof.
  intros H E. unfold Poisson.log_pmf_with, poi; cbn [Poisson.new_unchecked Poisson.pr Poisson.lambda]. cbv zeta. rewrite E. cbn [rbind]. xs. now rewrite <- INR_IZR_INZ.
Qed.
Lemma poi_pmf_with lf l k : 0 < l -> lf (Z.of_nat k) = Ret (Fin (ln (INR (fact k)))) -> Poisson.pmf_with lf (poi l) (Z.of_nat k) = Ret (Prob (Fin (poisson_law l k))).
Proof.
  intros H E. unfold Poisson.pmf_with. rewrite (poi_log_pmf_with lf l k _ H E). cbn [rmap rbind]. xs.
  rewrite <- ln_plaw by auto. rewrite exp_ln by now apply plaw_pos. reflexivity.
Qed.
Lemma poi_modes l : 0 < l -> l <= IZR U64_MAX -> exists m : nat, Poisson.modes (poi l) = [Z.of_nat m] /\ law_mode (poisson_law l) m.
Proof.
  intros H Hm. exists (Z.to_nat (Zfloor l)). assert (B : (0 <= Zfloor l)%Z) by (apply Zfloor_lub; cbn; lra).
  assert (B2 : (Zfloor l <= U64_MAX)%Z). { rewrite <- (Zfloor_IZR U64_MAX). now apply Zfloor_le. }
  rewrite Z2Nat.id by auto. split.
  - unfold Poisson.modes, poi; cbn [Poisson.new_unchecked Poisson.pr Poisson.lambda]. xs. rewrite x_to, Ztrunc_IZR. unfold clampZ. f_equal. lia.
  - apply plaw_mode; [auto|]. rewrite INR_IZR_INZ, Z2Nat.id by auto. split; [apply Zfloor_lb|apply Rlt_le, Zfloor_ub].
Qed.
