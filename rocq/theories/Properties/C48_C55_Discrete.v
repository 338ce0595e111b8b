(** * Properties C48-C55, C81, C82: discrete univariate distributions *)
From Coq Require Import Reals Lra Lia Psatz List ZArith Sorted.
From Coquelicot Require Import Coquelicot.
From Flocq Require Import Core.Raux.
From Verif.Num Require Import XReal.
From Verif.Model Require Import Rust Constraints Probability Params Utils Consts LogFact Discrete.
From Verif.Spec Require Import ProbSpec UtilsSpec DiscreteSpec DistSpec ResSpec.
From Verif.Proofs Require Import UtilsProofs ConstraintProofs NewInv XTac DiscProofs2 DiscProofs3 DiscProofs4 DiscProofs5.
Import ListNotations.
Open Scope R_scope.

(** the values 0/1 of a Bernoulli variable *)
Notation bit b := (if b : bool then 1%nat else 0%nat).

(** C48 *)
Theorem C48_bernoulli (p : R) (d : Bernoulli.t xreal) :
  Bernoulli.new (Fin p) = Ok d ->
  0 <= p <= 1 /\ is_law (bernoulli_law p) /\
  (forall b, Bernoulli.pmf d b = Prob (Fin (bernoulli_law p (bit b)))) /\
  returns (Bernoulli.mean d) (fun m => law_mean (bernoulli_law p) m /\
    returns (Bernoulli.variance d) (law_variance (bernoulli_law p) m)) /\
  (0 < p < 1 -> returns (Bernoulli.skewness d) (law_skewness (bernoulli_law p))) /\
  (p = 1 / 2 \/ 1 / 10000000 <= Rabs (p - 1 / 2) -> returns (Bernoulli.median d) (law_median (bernoulli_law p))) /\
  (1 / 10000000 <= p <= 1 - 1 / 10000000 -> returns (Bernoulli.shannon_entropy d) (law_entropy (exp 1) (bernoulli_law p))).
Proof.
  intros H. apply ber_new_inv in H. destruct H as [Hp ->].
  split; [auto|]. split; [now apply ber_is_law|].
  split; [intros b; generalize (ber_pmf p b); destruct (Bernoulli.pmf (ber p) b); cbn; intros E; now rewrite E|].
  split. { exists p. split; [reflexivity|]. split; [apply (proj1 (ber_variance p))|].
    exists (p * (1 - p)). split; [reflexivity|apply ber_variance]. }
  split. { intros Hp'. destruct (ber_skewness p Hp'). eexists; eauto. }
  split. { intros Hm. apply ber_median; auto. }
  intros He. apply ber_entropy; auto.
Qed.
Print Assumptions C48_bernoulli.
Example C48_nonvacuous : exists d, Bernoulli.new (Fin (1 / 4)) = Ok d.
Proof. eexists. apply ber_new_ok. lra. Qed.

(** C81: the cdf is right only at [true]; the modes only for p <= 1/2 *)
Theorem C81_bernoulli_partial (p : R) (d : Bernoulli.t xreal) :
  Bernoulli.new (Fin p) = Ok d ->
  unwrap (Bernoulli.cdf d true) = Fin (law_cdf (bernoulli_law p) 1) /\
  (p <= 1 / 2 -> exists ms, Bernoulli.modes d = Ret ms /\ forall b, In b ms <-> forall c, bernoulli_law p (bit c) <= bernoulli_law p (bit b)).
Proof.
  intros H. apply ber_new_inv in H. destruct H as [Hp ->]. split.
  - unfold law_cdf. change (unwrap (Bernoulli.cdf (ber p) true)) with (f_of_Z 1 : xreal). rewrite x_lit. f_equal.
    rewrite sum_n_S, sum_n_0. cbn. lra.
  - intros Hm. eexists. split; [apply ber_modes|]. intros b.
    destruct (Req_EM_T p (1 / 2)) as [->|N].
    + split; [intros _ [|]; destruct b; cbn; lra|intros _; destruct b; cbn; auto].
    + split; [intros [<-|[]] [|]; cbn; lra|]. destruct b; [|cbn; auto]. intros Hc. specialize (Hc false). cbn in Hc. lra.
Qed.
Print Assumptions C81_bernoulli_partial.
Theorem C81_cdf_refuted (p : R) (d : Bernoulli.t xreal) :
  Bernoulli.new (Fin p) = Ok d -> p < 1 -> unwrap (Bernoulli.cdf d false) <> Fin (law_cdf (bernoulli_law p) 0).
Proof.
  intros H Hp. apply ber_new_inv in H. destruct H as [Hp' ->]. unfold law_cdf. rewrite sum_n_0. change (unwrap (Bernoulli.cdf (ber p) false)) with (f_of_Z 0 : xreal). rewrite x_lit.
  cbn. intros E. injection E. lra.
Qed.
Print Assumptions C81_cdf_refuted.
(** for every p > 1/2 the returned mode is the less likely outcome *)
Theorem C81_modes_refuted (p : R) (d : Bernoulli.t xreal) :
  Bernoulli.new (Fin p) = Ok d -> 1 / 2 < p -> Bernoulli.modes d = Ret [false] /\ bernoulli_law p (bit false) < bernoulli_law p (bit true).
Proof.
  intros H Hp. apply ber_new_inv in H. destruct H as [Hp' ->]. rewrite ber_modes. destruct (Req_EM_T _ _); [lra|]. split; [auto|cbn; lra].
Qed.
Print Assumptions C81_modes_refuted.
Example C81_nonvacuous : exists d, Bernoulli.new (Fin (3 / 4)) = Ok d.
Proof. eexists. apply ber_new_ok. lra. Qed.

(** C49 *)
Theorem C49_binomial (n : nat) (p : R) (d : Binomial.t xreal) :
  (Z.of_nat n < 2 ^ 31)%Z -> Binomial.new (Z.of_nat n) (Prob (Fin p)) = Ok d ->
  0 <= p <= 1 /\ is_law (binomial_law n p) /\ (forall k, (n < k)%nat -> binomial_law n p k = 0) /\
  (forall k, (k <= n)%nat -> choose_fits n k -> Binomial.pmf d (Z.of_nat k) = Ret (Prob (Fin (binomial_law n p k)))) /\
  ((n <= 62)%nat -> forall k, (k <= n)%nat -> Binomial.pmf d (Z.of_nat k) = Ret (Prob (Fin (binomial_law n p k)))) /\
  (forall k, ~ (k <= n)%nat \/ ~ choose_fits n k -> Binomial.pmf d (Z.of_nat k) = Panic) /\
  returns (Binomial.mean d) (fun m => law_mean (binomial_law n p) m /\
    returns (Binomial.variance d) (law_variance (binomial_law n p) m)) /\
  (0 < p < 1 -> (0 < n)%nat -> returns (Binomial.skewness d) (law_skewness (binomial_law n p))).
Proof.
  intros Hn H. apply bin_new_inv in H. destruct H as [Hp ->].
  split; [auto|]. split; [now apply blaw_is_law|]. split; [intros k; apply blaw_gt|].
  split; [intros k; now apply bin_pmf|].
  split; [intros H62 k Hk; apply bin_pmf; auto; now apply fits_62|].
  split. { intros k Hk. apply bin_pmf_panic; [now apply of_nat_31|]. destruct Hk as [Hk|Hk]; [auto|]. right.
    unfold choose_fits in Hk.
    destruct (List.Exists_dec (fun j => (U64_MAX < binom n j * (Z.of_nat n - Z.of_nat j))%Z) (seq 0 (Nat.min k (n - k)))) as [E|E].
    - intros j. apply Z_lt_dec.
    - apply Exists_exists in E. destruct E as (j & Hj & Hb). apply in_seq in Hj. exists j. split; [lia|auto].
    - exfalso. apply Hk. intros j Hj. apply Znot_gt_le. intros G. apply E. apply Exists_exists. exists j. split; [apply in_seq; lia|].
      unfold U64_MAX. lia. }
  split. { eexists. split; [apply bin_mean|]. split; [apply blaw_mean|]. eexists. split; [apply bin_variance|apply blaw_variance]. }
  intros Hp' Hn'. eexists. split; [now apply bin_skewness|now apply blaw_skewness].
Qed.
Print Assumptions C49_binomial.
Example C49_nonvacuous : (Z.of_nat 30 < 2 ^ 31)%Z /\ exists d, Binomial.new (Z.of_nat 30) (Prob (Fin (1 / 3))) = Ok d.
Proof. split; [reflexivity|]. eexists. apply bin_new_ok. lra. Qed.

(** C50: [modes] returns floor(np), a mode exactly when (n+1)p <= floor(np)+1 *)
Theorem C50_binomial_modes_partial (n : nat) (p : R) (d : Binomial.t xreal) :
  (Z.of_nat n <= 2 ^ 64 - 1)%Z -> Binomial.new (Z.of_nat n) (Prob (Fin p)) = Ok d ->
  exists m : nat, Binomial.modes d = [Z.of_nat m] /\ (m <= n)%nat /\
    (law_mode (binomial_law n p) m <-> (INR n + 1) * p <= INR m + 1).
Proof.
  intros Hn H. apply bin_new_inv in H. destruct H as [Hp ->]. destruct (bin_modes n p Hp Hn) as [E B].
  exists (Z.to_nat (Zfloor (p * INR n))). rewrite Z2Nat.id by lia. split; [auto|]. split; [lia|].
  assert (I : INR (Z.to_nat (Zfloor (p * INR n))) = IZR (Zfloor (p * INR n))) by (rewrite INR_IZR_INZ, Z2Nat.id; [auto|lia]).
  assert (L := Zfloor_lb (p * INR n)). split.
  - intros M. apply Rnot_lt_le. intros G. revert M. apply blaw_not_mode; [auto|lia|]. rewrite I in *. lra.
  - intros G. apply blaw_mode; [auto|lia|]. rewrite I in *. assert (U := Zfloor_lb (p * INR n)). lra.
Qed.
Print Assumptions C50_binomial_modes_partial.
Theorem C50_binomial_modes_refuted : exists (d : Binomial.t xreal) (m : nat),
  Binomial.new 2 (Prob (Fin (9 / 10))) = Ok d /\ Binomial.modes d = [Z.of_nat m] /\ ~ law_mode (binomial_law 2 (9 / 10)) m.
Proof.
  exists (bin 2 (9 / 10)), 1%nat. split; [apply (bin_new_ok 2); lra|].
  destruct (bin_modes 2 (9 / 10)) as [E _]; [lra|cbn; lia|]. rewrite E.
  split. { f_equal. apply Zfloor_imp. cbn. lra. }
  apply blaw_not_mode; [lra|lia|]. cbn. lra.
Qed.
Print Assumptions C50_binomial_modes_refuted.
(** [support] contains n+1, where [pmf] panics *)
Theorem C50_support_refuted (n : nat) (p : R) (d : Binomial.t xreal) :
  (Z.of_nat n < 2 ^ 64 - 1)%Z -> Binomial.new (Z.of_nat n) (Prob (Fin p)) = Ok d ->
  Binomial.support d = Ret (Closed 0%Z (Z.of_nat n + 1)%Z) /\ Binomial.pmf d (Z.of_nat n + 1) = Panic /\ binomial_law n p (n + 1) = 0.
Proof.
  intros Hn H. apply bin_new_inv in H. destruct H as [Hp ->]. split; [|split].
  - unfold Binomial.support, bin, Binomial.new_unchecked, usize. cbn [Binomial.pr Binomial.n]. rewrite u64_ok; [reflexivity|unfold U64_MAX; lia].
  - replace (Z.of_nat n + 1)%Z with (Z.of_nat (n + 1)) by lia. apply bin_pmf_panic; [unfold U64_MAX; lia|left; lia].
  - apply blaw_gt. lia.
Qed.
Print Assumptions C50_support_refuted.
Theorem C50_categorical_support_refuted (ws : list R) (d : Categorical.t xreal) :
  Categorical.new (map Fin ws) = Ok d ->
  let n := Z.of_nat (length ws) in
  Categorical.support d = Closed 0%Z (n + 1)%Z /\ Categorical.pmf d n = Panic /\ Categorical.pmf d (n + 1) = Panic.
Proof.
  intros H. unfold Categorical.new in H. destruct (simplex_new (map Fin ws)) as [qs|] eqn:E; [|discriminate]. cbn [map_err map_ok] in H. injection H as <-.
  apply simplex_new_x in E. destruct E as [-> _]. unfold Categorical.support, Categorical.pmf, Categorical.n_categories.
  cbn [Categorical.pr Categorical.ps]. rewrite map_length. split; [auto|].
  split; match goal with |- context [Z.leb ?a ?b] => replace (Z.leb a b) with true by (symmetry; apply Z.leb_le; lia) end; auto.
Qed.
Print Assumptions C50_categorical_support_refuted.
Example C50_nonvacuous : exists d, Binomial.new (Z.of_nat 7) (Prob (Fin (1 / 2))) = Ok d.
Proof. eexists. apply bin_new_ok. lra. Qed.

(** C51 *)
Theorem C51_geometric (p : R) (d : Geometric.t xreal) :
  Geometric.new (Fin p) = Ok d -> 0 < p ->
  is_law (geometric_law p) /\
  (forall k, (Z.of_nat k < 2 ^ 31)%Z -> Geometric.pmf d (Z.of_nat k) = Prob (Fin (geometric_law p k))) /\
  (forall k, (Z.of_nat k < 2 ^ 31 - 1)%Z -> Geometric.cdf d (Z.of_nat k) = Ret (Prob (Fin (law_cdf (geometric_law p) k)))) /\
  is_lim_seq (law_cdf (geometric_law p)) 1 /\
  (exists m : nat, Geometric.modes d = [Z.of_nat m] /\ law_mode (geometric_law p) m) /\
  returns (Geometric.mean d) (fun m => law_mean (geometric_law p) m /\
    returns (Geometric.variance d) (law_variance (geometric_law p) m)) /\
  (p < 1 -> returns (Geometric.skewness d) (law_skewness (geometric_law p)) /\
            returns (Geometric.excess_kurtosis d) (fun k => law_kurtosis (geometric_law p) (k + 3)) /\
            returns (Geometric.shannon_entropy d) (law_entropy 2 (geometric_law p))).
Proof.
  intros H H0. apply geo_new_inv in H. destruct H as [Hp ->].
  destruct (geo_moments p) as (M & V & S); [lra|].
  split; [apply glaw_is_law; lra|].
  split. { intros k Hk. generalize (geo_pmf p k Hk). destruct (Geometric.pmf _ _). cbn. intros E. now rewrite E. }
  split. { intros k Hk. generalize (geo_cdf p k Hk). destruct (Geometric.cdf _ _) as [[x]| |]; cbn; try discriminate; intros E; now rewrite E. }
  split. { apply (glaw_is_law p). lra. }
  split. { exists 0%nat. split; [reflexivity|apply glaw_mode; lra]. }
  split. { eexists. split; [exact M|]. split; [apply glaw_mean; lra|]. eexists. split; [exact V|apply glaw_variance; lra]. }
  intros Hp'. destruct (S Hp') as (S1 & S2 & S3). split; [|split]; eexists; (split; [eassumption|]).
  - apply glaw_skewness; lra.
  - apply glaw_kurtosis; lra.
  - apply glaw_entropy; lra.
Qed.
Print Assumptions C51_geometric.
Example C51_nonvacuous : exists d, Geometric.new (Fin (1 / 3)) = Ok d.
Proof. eexists. apply geo_new_ok. lra. Qed.

(** C52: for 2^31 <= k < 2^32 the cast to i32 gives the negative exponent k - 2^32 *)
Theorem C52_geometric_refuted (p : R) (d : Geometric.t xreal) (k : Z) :
  Geometric.new (Fin p) = Ok d -> 0 < p < 1 -> (2 ^ 31 <= k < 2 ^ 32)%Z ->
  Geometric.cdf d (2 ^ 31 - 1) = Panic /\
  returns (unwrap (Geometric.pmf d k)) (fun v => v = p / (1 - p) ^ (Z.to_nat (2 ^ 32 - k)) /\
     geometric_law p (Z.to_nat k) < p < v /\ (1 / 2 < p -> 1 < v)).
Proof.
  intros H H0 Hk. apply geo_new_inv in H. destruct H as [Hp ->].
  split; [reflexivity|].
  assert (E : unwrap (Geometric.pmf (geo p) k) = Fin (p / (1 - p) ^ Z.to_nat (2 ^ 32 - k))).
  { unfold Geometric.pmf, geo, Geometric.new_unchecked, Geometric.from, p_mul_f, p_powi, p_not, p_new_unchecked.
    cbn [Geometric.q Geometric.pr Geometric.p Probability.unwrap].
    replace (as_i32 k) with (- Z.of_nat (Z.to_nat (2 ^ 32 - k)))%Z.
    - rewrite x_lit, x_sub, x_powi_nz by lra. rewrite powerRZ_neg', <- pow_powerRZ, x_mul. reflexivity.
    - rewrite Z2Nat.id by lia. unfold as_i32, wrap_signed. change (2 ^ 32)%Z with 4294967296%Z in *. change (2 ^ (32 - 1))%Z with 2147483648%Z in *. change (2 ^ 31)%Z with 2147483648%Z in *.
      rewrite Z.mod_small by lia. destruct (Z.ltb_spec k 2147483648); lia. }
  assert (Q : 0 < 1 - p < 1) by lra.
  assert (P1 : forall j, (0 < j)%nat -> 0 < (1 - p) ^ j <= 1 - p).
  { intros j Hj. destruct j; [lia|]. assert (0 < (1 - p) ^ j) by (apply pow_lt; lra). assert ((1 - p) ^ j <= 1) by (eapply Rle_trans; [apply pow_incr with (y := 1); lra|rewrite pow1; lra]).
    change ((1 - p) ^ S j) with ((1 - p) * (1 - p) ^ j). split; [apply Rmult_lt_0_compat; lra|].
    assert ((1 - p) * (1 - p) ^ j <= (1 - p) * 1) by (apply Rmult_le_compat_l; lra). lra. }
  assert (K1 := P1 (Z.to_nat k) ltac:(lia)). assert (K2 := P1 (Z.to_nat (2 ^ 32 - k)) ltac:(lia)).
  eexists. split; [exact E|]. split; [auto|]. unfold geometric_law.
  revert K1 K2. generalize (Z.to_nat k) (Z.to_nat (2 ^ 32 - k)). intros i j K1 K2.
  assert (V : p / (1 - p) ^ j * (1 - p) ^ j = p) by (field; lra).
  set (v := p / (1 - p) ^ j) in *. assert (0 < v) by (apply Rdiv_lt_0_compat; lra).
  split; [split; nra|]. intros. nra.
Qed.
Print Assumptions C52_geometric_refuted.
Example C52_nonvacuous : exists d, Geometric.new (Fin (3 / 4)) = Ok d.
Proof. eexists. apply geo_new_ok. lra. Qed.
(** the part that holds (also in C51): pmf for k < 2^31, cdf for k < 2^31-1 *)
Theorem C52_geometric_partial (p : R) (d : Geometric.t xreal) (k : nat) :
  Geometric.new (Fin p) = Ok d ->
  ((Z.of_nat k < 2 ^ 31)%Z -> Geometric.pmf d (Z.of_nat k) = Prob (Fin (p * (1 - p) ^ k))) /\
  ((Z.of_nat k < 2 ^ 31 - 1)%Z -> Geometric.cdf d (Z.of_nat k) = Ret (Prob (Fin (1 - (1 - p) ^ (k + 1))))).
Proof.
  intros H. apply geo_new_inv in H. destruct H as [Hp ->]. split; intros Hk.
  - generalize (geo_pmf p k Hk). destruct (Geometric.pmf _ _). cbn. intros E. now rewrite E.
  - generalize (geo_cdf p k Hk). rewrite Nat.add_1_r. destruct (Req_EM_T p 0) as [->|N].
    + replace (law_cdf (geometric_law 0) k) with (1 - (1 - 0) ^ S k).
      * destruct (Geometric.cdf _ _) as [[x]| |]; cbn [gotp]; try discriminate; intros E; cbn in E; now rewrite E.
      * unfold law_cdf, geometric_law. transitivity (0 : R); [rewrite Rminus_0_r, pow1; ring|].
        symmetry. etransitivity; [|apply (sum_n_zero k)]. apply sum_n_ext. intros i. apply Rmult_0_l.
    + rewrite glaw_cdf by lra. destruct (Geometric.cdf _ _) as [[x]| |]; cbn; try discriminate; intros E; now rewrite E.
Qed.
Print Assumptions C52_geometric_partial.

(** C53: the model of pmf and modes on exact reals *)
Theorem C53_categorical (ws : list R) (d : Categorical.t xreal) :
  Categorical.new (map Fin ws) = Ok d ->
  (forall i w, nth_error ws i = Some w -> Categorical.pmf d (Z.of_nat i) = Ret (Prob (Fin w)) /\ 0 <= w <= 1) /\
  (forall i, (length ws <= i)%nat -> Categorical.pmf d (Z.of_nat i) = Panic) /\
  Rabs (rsum ws - 1) < 1 / 100000 /\
  exists ms, Categorical.modes d = Ret ms /\ StronglySorted lt ms /\ ms <> [] /\
    forall i, In i ms <-> exists w, nth_error ws i = Some w /\ forall w', In w' ws -> w' <= w.
Proof.
  intros H. unfold Categorical.new in H. destruct (simplex_new (map Fin ws)) as [qs|] eqn:E; [|discriminate]. cbn [map_err map_ok] in H. injection H as <-.
  apply simplex_new_x in E. destruct E as (-> & Hw & Hs & Hne). unfold Categorical.pmf, Categorical.n_categories.
  cbn [Categorical.pr Categorical.ps]. rewrite map_length. split; [|split; [|split; [auto|]]].
  - intros i w Hi. assert (L : (i < length ws)%nat) by (apply nth_error_Some; congruence).
    replace (Z.leb _ _) with false by (symmetry; apply Z.leb_gt; lia). rewrite Nat2Z.id, nth_error_map, Hi. cbn.
    split; [auto|]. rewrite Forall_forall in Hw. apply Hw. eapply nth_error_In; eauto.
  - intros i Hi. replace (Z.leb _ _) with true by (symmetry; apply Z.leb_le; lia). auto.
  - destruct (cat_modes is_fin val fin_lt fin_eq (map Fin ws)) as (ms & M1 & M2 & M3 & M4).
    + apply Forall_forall. intros x Hx. apply in_map_iff in Hx. destruct Hx as (r & <- & _). exact I.
    + destruct ws; [congruence|discriminate].
    + exists ms. split; [exact M1|]. split; [auto|]. split; [auto|]. intros i. rewrite M4. split.
      * intros (x & Hx & Hm). rewrite nth_error_map in Hx. destruct (nth_error ws i) as [w|] eqn:N; [|discriminate]. injection Hx as <-.
        exists w. split; [auto|]. intros w' Hw'. apply (Hm (Fin w')). now apply in_map.
      * intros (w & Hi & Hm). exists (Fin w). split; [rewrite nth_error_map, Hi; auto|]. intros y Hy. apply in_map_iff in Hy. destruct Hy as (r & <- & Hr). cbn. auto.
Qed.
Print Assumptions C53_categorical.
Example C53_nonvacuous : exists d, Categorical.new (map Fin [1 / 2; 1 / 4; 1 / 4]) = Ok d.
Proof.
  eexists. unfold Categorical.new, simplex_new, simplex_try_from.
  assert (P : forall r, 0 <= r <= 1 -> p_new (Fin r) = Ok (Prob (Fin r))).
  { intros r Hr. unfold p_new. rewrite !x_lit, !x_leb. now rewrite !Rleb_true by lra. }
  cbn [map simplex_loop]. rewrite !P by lra. cbn [and_then Probability.unwrap].
  rewrite !x_lit. rewrite !x_add. rewrite x_div by lra. rewrite x_sub, x_abs, x_ltb.
  rewrite Rltb_true; [reflexivity|]. replace (0 + 1 / 2 + 1 / 4 + 1 / 4 - 1) with 0 by lra. rewrite Rabs_R0. lra.
Qed.

(** C82: [cdf i] leaves out the mass of i itself *)
Theorem C82_categorical_cdf_partial (ws : list R) (d : Categorical.t xreal) (i : nat) :
  Categorical.new (map Fin ws) = Ok d ->
  unwrap (Categorical.cdf d (Z.of_nat i)) = Fin (rsum (firstn i ws)).
Proof.
  intros H. unfold Categorical.new in H. destruct (simplex_new (map Fin ws)) as [qs|] eqn:E; [|discriminate]. cbn [map_err map_ok] in H. injection H as <-.
  apply simplex_new_x in E. destruct E as (-> & Hw & Hs & Hne). unfold Categorical.cdf. cbn [Categorical.pr Categorical.ps Probability.unwrap].
  rewrite Nat2Z.id, firstn_map. generalize (firstn i ws). intros l. unfold fsum. rewrite x_lit.
  assert (G : forall l z, fold_left fadd (map Fin l) (Fin z) = Fin (z + rsum l)).
  { clear. induction l as [|a l IH]; intros z; cbn [map fold_left rsum]; [f_equal; lra|]. rewrite x_add, IH. f_equal. lra. }
  rewrite G. f_equal. lra.
Qed.
Print Assumptions C82_categorical_cdf_partial.
Theorem C82_categorical_cdf_refuted (ws : list R) (d : Categorical.t xreal) (i : nat) (w : R) :
  Categorical.new (map Fin ws) = Ok d -> nth_error ws i = Some w -> 0 < w ->
  unwrap (Categorical.cdf d (Z.of_nat i)) <> Fin (rsum (firstn (S i) ws)).
Proof.
  intros H Hi Hw. rewrite (C82_categorical_cdf_partial _ _ _ H). intros E. apply Fin_inj in E.
  assert (G : forall (l : list R) i, nth_error l i = Some w -> rsum (firstn (S i) l) = rsum (firstn i l) + w).
  { clear. induction l as [|a l IH]; intros [|i] Hi; try discriminate; cbn [nth_error] in Hi.
    - injection Hi as ->. cbn. lra.
    - change (firstn (S (S i)) (a :: l)) with (a :: firstn (S i) l). change (firstn (S i) (a :: l)) with (a :: firstn i l). cbn [rsum]. rewrite IH by auto. lra. }
  rewrite (G ws i Hi) in E. lra.
Qed.
Print Assumptions C82_categorical_cdf_refuted.

(** C54, for an exact log-factorial [lf] in place of the approximation of C21 *)
Theorem C54_poisson (lf : Z -> res xreal) (l : R) (d : Poisson.t xreal) :
  (forall k : nat, lf (Z.of_nat k) = Ret (Fin (ln (INR (fact k))))) ->
  Poisson.new (Fin l) = Ok d ->
  0 < l /\ is_law (poisson_law l) /\
  (forall k, Poisson.log_pmf_with lf d (Z.of_nat k) = Ret (Fin (ln (poisson_law l k)))) /\
  (forall k, Poisson.pmf_with lf d (Z.of_nat k) = Ret (Prob (Fin (poisson_law l k)))) /\
  returns (Poisson.mean d) (fun m => law_mean (poisson_law l) m /\
    returns (Poisson.variance d) (law_variance (poisson_law l) m)) /\
  returns (Poisson.skewness d) (law_skewness (poisson_law l)) /\
  (l <= IZR (2 ^ 64 - 1) -> exists m : nat, Poisson.modes d = [Z.of_nat m] /\ law_mode (poisson_law l) m) /\
  (forall l' d', Poisson.new (Fin l') = Ok d' -> exists s, Poisson.convolve d d' = Ok s /\
     forall k, Poisson.pmf_with lf s (Z.of_nat k) = Ret (Prob (Fin (law_conv (poisson_law l) (poisson_law l') k)))).
Proof.
  intros Hlf H. apply poi_new_inv in H. destruct H as [Hl ->].
  split; [auto|]. split; [now apply plaw_is_law|].
  split. { intros k. rewrite (poi_log_pmf_with lf l k _ Hl (Hlf k)). now rewrite ln_plaw. }
  split. { intros k. now apply poi_pmf_with. }
  split. { exists l. split; [reflexivity|]. split; [now apply plaw_mean|]. exists l. split; [reflexivity|now apply plaw_variance]. }
  split. { exists (/ sqrt l). split; [|now apply plaw_skewness]. unfold Poisson.skewness, Consts.ONE_HALF. cbn [poi Poisson.new_unchecked Poisson.pr Poisson.lambda].
    rewrite !x_lit, x_div, x_neg by lra. rewrite x_powf by auto. f_equal.
    rewrite Rpower_Ropp. f_equal. rewrite <- Rpower_sqrt by auto. f_equal. lra. }
  split. { intros Hu. apply poi_modes; auto. }
  intros l' d' H'. apply poi_new_inv in H'. destruct H' as [Hl' ->]. exists (poi (l + l')). split; [reflexivity|].
  intros k. rewrite plaw_conv. apply poi_pmf_with; [lra|auto].
Qed.
Print Assumptions C54_poisson.
Example C54_nonvacuous : exists (lf : Z -> res xreal) d, (forall k : nat, lf (Z.of_nat k) = Ret (Fin (ln (INR (fact k))))) /\ Poisson.new (Fin (5 / 2)) = Ok d.
Proof.
  exists (fun k => Ret (Fin (ln (INR (fact (Z.to_nat k)))))). eexists. split; [intros k; now rewrite Nat2Z.id|].
  unfold Poisson.new. ok_new2.
Qed.

(** C55 *)
Theorem C55_bernoulli_bernoulli (p p' : R) (d d' : Bernoulli.t xreal) :
  Bernoulli.new (Fin p) = Ok d -> Bernoulli.new (Fin p') = Ok d' ->
  (p <> p' -> exists e, Bernoulli.convolve d d' = Err e) /\
  (p = p' -> exists s, Bernoulli.convolve d d' = Ok s /\
     forall k, (k <= 2)%nat -> Binomial.pmf s (Z.of_nat k) = Ret (Prob (Fin (law_conv (bernoulli_law p) (bernoulli_law p') k)))).
Proof.
  intros H H'. apply ber_new_inv in H, H'. destruct H as [Hp ->], H' as [Hp' ->].
  unfold Bernoulli.convolve. cbn [ber Bernoulli.new_unchecked Bernoulli.from Bernoulli.pr Bernoulli.p]. rewrite assert_eq_prob_x.
  destruct (Req_EM_T p p') as [<-|N]; (split; [intros N'|intros E']); try congruence.
  - exists (bin 2 p). split; [reflexivity|]. intros k Hk.
    rewrite bin_pmf; [|reflexivity|auto|apply fits_62; lia]. do 3 f_equal.
    change (binomial_law 2 p k) with (binomial_law (1 + 1) p k). rewrite <- blaw_conv. unfold law_conv. apply sum_n_ext. intros i.
    now rewrite !ber_law_eq.
  - eexists. reflexivity.
Qed.
Print Assumptions C55_bernoulli_bernoulli.
Theorem C55_binomial_bernoulli (n : nat) (p p' : R) (d : Binomial.t xreal) (d' : Bernoulli.t xreal) :
  (Z.of_nat n < 2 ^ 31 - 1)%Z ->
  Binomial.new (Z.of_nat n) (Prob (Fin p)) = Ok d -> Bernoulli.new (Fin p') = Ok d' ->
  (p <> p' -> exists e, Bernoulli.binomial_convolve d d' = Ret (Err e)) /\
  (p = p' -> exists s, Bernoulli.binomial_convolve d d' = Ret (Ok s) /\
     forall k, (k <= n + 1)%nat -> choose_fits (n + 1) k ->
       Binomial.pmf s (Z.of_nat k) = Ret (Prob (Fin (law_conv (binomial_law n p) (bernoulli_law p') k)))).
Proof.
  intros Hn H H'. apply bin_new_inv in H. apply ber_new_inv in H'. destruct H as [Hp ->], H' as [Hp' ->].
  unfold Bernoulli.binomial_convolve. cbn [ber Bernoulli.new_unchecked Bernoulli.from Bernoulli.pr Bernoulli.p bin Binomial.new_unchecked Binomial.pr Binomial.p Binomial.n].
  unfold usize. rewrite u64_ok by (unfold U64_MAX; lia). cbn [rbind]. rewrite assert_eq_prob_x.
  replace (Z.of_nat n + 1)%Z with (Z.of_nat (n + 1)) by lia.
  destruct (Req_EM_T p p') as [<-|N]; (split; [intros N'|intros E']); try congruence.
  - exists (bin (n + 1) p). split; [cbn [and_then]; now rewrite bin_new_ok|]. intros k Hk Hf.
    rewrite bin_pmf; [|lia|auto|auto]. do 3 f_equal.
    rewrite <- blaw_conv. unfold law_conv. apply sum_n_ext. intros i. now rewrite !ber_law_eq.
  - eexists. reflexivity.
Qed.
Print Assumptions C55_binomial_bernoulli.
Theorem C55_binomial_binomial (n m : nat) (p p' : R) (d d' : Binomial.t xreal) :
  (Z.of_nat n + Z.of_nat m < 2 ^ 31)%Z ->
  Binomial.new (Z.of_nat n) (Prob (Fin p)) = Ok d -> Binomial.new (Z.of_nat m) (Prob (Fin p')) = Ok d' ->
  (p <> p' -> exists e, Binomial.convolve d d' = Ret (Err e)) /\
  (p = p' -> exists s, Binomial.convolve d d' = Ret (Ok s) /\
     forall k, (k <= n + m)%nat -> choose_fits (n + m) k ->
       Binomial.pmf s (Z.of_nat k) = Ret (Prob (Fin (law_conv (binomial_law n p) (binomial_law m p') k)))).
Proof.
  intros Hn H H'. apply bin_new_inv in H. apply bin_new_inv in H'. destruct H as [Hp ->], H' as [Hp' ->].
  unfold Binomial.convolve. cbn [bin Binomial.new_unchecked Binomial.pr Binomial.p Binomial.n].
  unfold usize. rewrite u64_ok by (unfold U64_MAX; lia). cbn [rbind]. rewrite assert_eq_prob_x.
  replace (Z.of_nat n + Z.of_nat m)%Z with (Z.of_nat (n + m)) by lia.
  destruct (Req_EM_T p p') as [<-|N]; (split; [intros N'|intros E']); try congruence.
  - exists (bin (n + m) p). split; [now rewrite bin_new_ok|]. intros k Hk Hf.
    rewrite bin_pmf; [|lia|auto|auto]. do 3 f_equal. now rewrite <- blaw_conv.
  - eexists. reflexivity.
Qed.
Print Assumptions C55_binomial_binomial.
Example C55_nonvacuous : exists d d', Binomial.new (Z.of_nat 4) (Prob (Fin (1 / 3))) = Ok d /\ Binomial.new (Z.of_nat 9) (Prob (Fin (1 / 3))) = Ok d' /\ choose_fits (4 + 9) 6.
Proof. do 2 eexists. split; [apply bin_new_ok; lra|]. split; [apply bin_new_ok; lra|apply fits_62; lia]. Qed.
