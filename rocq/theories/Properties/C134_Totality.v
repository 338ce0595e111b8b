(** * Property C134: which calls panic *)
From Coq Require Import ZArith Lia List Bool.
From Verif.Num Require Import Scalar.
From Verif.Model Require Import Rust Constraints Probability Params Traits Utils LogFact Continuous Continuous2 Continuous3 Discrete MvNormal Multivariate Normal2 Mixture.
From Verif.Spec Require Import UtilsSpec ParamSpec TotalSpec.
From Verif.Proofs Require Import UtilsProofs ConstraintProofs NewInv.
Import ListNotations.
Open Scope Z_scope.

(** a quantile function that is not implemented makes every derived statistic panic *)
Definition no_quantiles {F} {SF : Scalar F} (q : Probability F -> res F) : Prop :=
  (forall p, panics (q p)) /\ (forall p, panics (d_cquantile q p)) /\ panics (lower_quartile q) /\ panics (upper_quartile q) /\ panics (iqr q) /\ panics (lower_fence q) /\ panics (upper_fence q).
Lemma no_q {F} {SF : Scalar F} (q : Probability F -> res F) : (forall p, q p = Panic) -> no_quantiles q.
Proof.
  intros H. unfold no_quantiles, panics, d_cquantile, lower_fence, upper_fence, iqr, lower_quartile, upper_quartile. rewrite !H. cbn [rbind].
  repeat split; intros; apply H.
Qed.
Theorem C134_quantile_refuted (F : Type) (SF : Scalar F) :
  (forall d : Logistic.t F, no_quantiles (Logistic.quantile d)) /\ (forall d : Gumbel.t F, no_quantiles (Gumbel.quantile d)) /\
  (forall d : Frechet.t F, no_quantiles (Frechet.quantile d)) /\ (forall d : GEV.t F, no_quantiles (GEV.quantile d)) /\
  (forall d : GPD.t F, no_quantiles (GPD.quantile d)) /\ (forall d : Kumaraswamy.t F, no_quantiles (Kumaraswamy.quantile d)) /\
  (forall d : Pareto.t F, no_quantiles (Pareto.quantile d)) /\ (forall d : Weibull.t F, no_quantiles (Weibull.quantile d)) /\
  (forall d : Arcsine.t F, no_quantiles (Arcsine.quantile d)) /\ (forall d : Cosine.t F, no_quantiles (Cosine.quantile d)) /\
  (forall d : Triangular.t F, no_quantiles (Triangular.quantile d)) /\ (forall d : Laplace.t F, no_quantiles (Laplace.quantile d)) /\
  (forall d : Rayleigh.t F, no_quantiles (Rayleigh.quantile d)) /\ (forall d : Levy.t F, no_quantiles (Levy.quantile d) /\ panics (Levy.median d)) /\
  (forall d : LogNormal.t F, no_quantiles (LogNormal.quantile d)) /\ (forall d : Beta.t F, no_quantiles (Beta.quantile d)) /\
  (forall d : ChiSq.t, no_quantiles (F := F) (ChiSq.quantile d)) /\ (forall d : Chi.t, no_quantiles (F := F) (Chi.quantile d)) /\ (forall d : StudentT.t F, no_quantiles (StudentT.quantile d)) /\
  (forall d : Binomial.t F, no_quantiles (Binomial.quantile d)) /\ (forall d : Bernoulli.t F, no_quantiles (Bernoulli.quantile d)) /\
  (forall d : Geometric.t F, no_quantiles (Geometric.quantile d)) /\ (forall d : Poisson.t F, no_quantiles (Poisson.quantile d)).
Proof. repeat match goal with |- _ /\ _ => split end; intros; try split; try (apply no_q; reflexivity); reflexivity. Qed.
Print Assumptions C134_quantile_refuted.
(** sampling, distribution functions and moments that are not implemented *)
Theorem C134_unimplemented_refuted (F : Type) (SF : Scalar F) (S : Type) (s : S) :
  (forall d : Arcsine.t F, panics (Arcsine.sample d s)) /\ (forall d : Cosine.t F, panics (Cosine.sample d s)) /\ (forall d : Rayleigh.t F, panics (Rayleigh.sample d s)) /\
  (forall d : Levy.t F, panics (Levy.sample d s) /\ panics (Levy.skewness d) /\ panics (Levy.kurtosis d)) /\
  (forall d : InvGamma.t F, panics (InvGamma.sample d s)) /\ (forall d : BetaPrime.t F, panics (BetaPrime.sample d s)) /\
  (forall d : Chi.t, panics (Chi.sample (F := F) d s)) /\ (forall d : Erlang.t F, panics (Erlang.sample d s)) /\ (forall d : BetaBinomial.t F, panics (BetaBinomial.sample d s)) /\
  (forall d : FoldedNormal.t F, panics (FoldedNormal.skewness d) /\ panics (FoldedNormal.kurtosis d) /\ panics (FoldedNormal.excess_kurtosis d)) /\
  (forall d : Kumaraswamy.t F, panics (Kumaraswamy.excess_kurtosis d)) /\
  (forall (d : Poisson.t F) k, panics (Poisson.cdf d k)) /\
  (forall (d : Dirichlet.t F) x, panics (Dirichlet.cdf d x)) /\ (forall (d : Multinomial.t F) x, panics (Multinomial.cdf d x) /\ panics (Multinomial.sample d s)) /\
  (forall (d : PairedNormal.t F) x, panics (PairedNormal.cdf d x)) /\ (forall (d : BvNormal.t F) x, panics (BvNormal.cdf d x)).
Proof. repeat match goal with |- _ /\ _ => split end; intros; repeat split; reflexivity. Qed.
Print Assumptions C134_unimplemented_refuted.

(** ** Integer overflow *)
Lemma cb_checked lo hi z : comes_back_iff (checked lo hi z) (lo <= z <= hi).
Proof.
  unfold comes_back_iff, comes_back, panics, checked. destruct (Z.leb_spec lo z); destruct (Z.leb_spec z hi); cbn [andb]; split; intros; try reflexivity; try lia; eauto.
Qed.
Lemma cb_iff {A} (r : res A) (P Q : Prop) : comes_back_iff r P -> (P <-> Q) -> comes_back_iff r Q.
Proof. unfold comes_back_iff. intros [H1 H2] E. split; intros; [apply H1|apply H2]; tauto. Qed.
Lemma cb_bind {A B} (m : res A) (f : A -> res B) (P : Prop) : comes_back_iff m P -> (forall a, m = Ret a -> comes_back (f a)) -> comes_back_iff (rbind m f) P.
Proof. intros [H1 H2] H. split; intros HP; [destruct (H1 HP) as [v E]; rewrite E; cbn [rbind]; now apply H|]. unfold panics. rewrite (H2 HP). reflexivity. Qed.
Lemma cb_ret {A} (a : A) : comes_back (Ret a). Proof. now exists a. Qed.
Lemma cb_true {A} (r : res A) (P : Prop) : P -> comes_back_iff r P -> comes_back r. Proof. intros H [H1 _]. auto. Qed.
Lemma ck lo hi z : lo <= z <= hi -> checked lo hi z = Ret z.
Proof. intros. unfold checked. destruct (Z.leb_spec lo z); destruct (Z.leb_spec z hi); try lia; reflexivity. Qed.
Lemma ck_panic lo hi z : ~ (lo <= z <= hi) -> checked lo hi z = Panic.
Proof. intros. unfold checked. destruct (Z.leb_spec lo z); destruct (Z.leb_spec z hi); try lia; reflexivity. Qed.
Lemma as_i64_small w : is_u64 w -> as_i64 w = if Z.ltb w (2 ^ 63) then w else w - 2 ^ 64.
Proof. unfold is_u64, as_i64, wrap_signed. intros H. rewrite Z.mod_small by lia. reflexivity. Qed.

(** UniformI: [new] panics on one width; the support, cdf and pmf exist when lb + width fits *)
Theorem C134_uniform_int (F : Type) (SF : Scalar F) (l w : Z) : is_i64 l -> is_u64 w ->
  comes_back_iff (UniformI.new (F := F) l w) (w <> 2 ^ 63 - 1) /\
  forall d : UniformI.t F, UniformI.new l w = Ret (Ok d) ->
    comes_back_iff (UniformI.support d) (l + w < 2 ^ 63) /\ (forall k, is_i64 k -> comes_back_iff (UniformI.cdf d k) (l + w < 2 ^ 63)) /\
    (forall k, comes_back_iff (UniformI.pmf d k) (l + w < 2 ^ 63)) /\
    comes_back (UniformI.span d) /\ comes_back (UniformI.variance d) /\ comes_back (UniformI.excess_kurtosis d) /\ comes_back (UniformI.shannon_entropy d) /\ forall p, comes_back (UniformI.quantile d p).
Proof.
  intros Hl Hw. assert (EQ := as_i64_small w Hw). unfold is_i64, is_u64 in *.
  assert (N : exists e, UniformI.params_new l (as_i64 w) = if Z.ltb 0 (as_i64 w) then Ok (UniformI.mkP l (as_i64 w)) else Err e).
  { unfold UniformI.params_new, loc_new, scale_new. cbn [and_then]. assert (A := check_spec (AllS Positive) (as_i64 w)). cbn [is_satisfied_by] in A. change (pltb pzero (as_i64 w)) with (Z.ltb 0 (as_i64 w)) in A.
    destruct (Z.ltb 0 (as_i64 w)); [|destruct A as (c & A & _)]; rewrite A; cbn [and_then]; [exists (uce_new (as_i64 w) Positive)|eexists]; reflexivity. }
  destruct N as [e N].
  split.
  - unfold UniformI.new. rewrite N. destruct (Z.ltb_spec w (2 ^ 63)); destruct (Z.ltb_spec 0 (as_i64 w)); try lia.
    + unfold UniformI.from. cbn [UniformI.width]. apply cb_bind; [|intros; apply cb_ret]. apply cb_bind; [|intros; apply cb_ret]. eapply cb_iff; [apply cb_checked|]. unfold I64_MIN, I64_MAX. lia.
    + split; [intros; eexists; reflexivity|lia].
    + split; [intros; eexists; reflexivity|lia].
  - intros d. unfold UniformI.new. rewrite N. destruct (Z.ltb_spec w (2 ^ 63)); destruct (Z.ltb_spec 0 (as_i64 w)); try lia; try discriminate.
    unfold UniformI.from. cbn [UniformI.width]. unfold i64. destruct (checked I64_MIN I64_MAX (as_i64 w + 1)) eqn:C; cbn [rbind]; try discriminate. intros E. injection E as <-.
    rewrite EQ in *. assert (w <> 2 ^ 63 - 1). { intros ->. rewrite ck_panic in C by (unfold I64_MIN, I64_MAX; lia). discriminate. }
    assert (SP : UniformI.span (UniformI.mk (UniformI.mkP l w) (f_of_Z 1 / f_of_Z a)%rs : UniformI.t F) = Ret (as_u64 (w + 1))). { unfold UniformI.span. cbn [UniformI.pr UniformI.width]. unfold i64. rewrite ck by (unfold I64_MIN, I64_MAX; lia). reflexivity. }
    assert (U : comes_back_iff (UniformI.ub (UniformI.mk (UniformI.mkP l w) (f_of_Z 1 / f_of_Z a)%rs : UniformI.t F)) (l + w < 2 ^ 63)). { unfold UniformI.ub. cbn [UniformI.pr UniformI.width UniformI.lb]. eapply cb_iff; [apply cb_checked|]. unfold I64_MIN, I64_MAX. lia. }
    assert (UV : forall u, UniformI.ub (UniformI.mk (UniformI.mkP l w) (f_of_Z 1 / f_of_Z a)%rs : UniformI.t F) = Ret u -> u = l + w). { unfold UniformI.ub. cbn [UniformI.pr UniformI.width UniformI.lb]. unfold i64, checked. intros u. destruct (_ && _)%bool; [|discriminate]. intros X; now injection X. }
    split; [|split; [|split; [|split; [|split; [|split; [|split]]]]]].
    + apply cb_bind; [exact U|]. intros; apply cb_ret.
    + intros k Hk. apply cb_bind; [exact U|]. intros u Eu. assert (L : l + w < 2 ^ 63). { destruct (Z_lt_dec (l + w) (2 ^ 63)) as [X|X]; [exact X|]. apply U in X. unfold panics in X. congruence. } apply UV in Eu. subst u.
      cbn [UniformI.pr UniformI.lb]. destruct (Z.ltb_spec k l); [apply cb_ret|]. destruct (Z.leb_spec (l + w) k); [apply cb_ret|]. unfold i64. rewrite !ck by (unfold I64_MIN, I64_MAX; lia). cbn [rbind]. rewrite ck by (unfold I64_MIN, I64_MAX; lia). apply cb_ret.
    + intros k. apply cb_bind; [exact U|]. intros u Eu. destruct (_ || _)%bool; apply cb_ret.
    + eexists; exact SP.
    + unfold UniformI.variance. rewrite SP. apply cb_ret.
    + unfold UniformI.excess_kurtosis. rewrite SP. apply cb_ret.
    + unfold UniformI.shannon_entropy. cbn [UniformI.pr UniformI.width]. unfold i64. rewrite C. apply cb_ret.
    + intros p. unfold UniformI.quantile. rewrite SP. apply cb_ret.
Qed.
Print Assumptions C134_uniform_int.
Example C134_uniform_int_nonvacuous (F : Type) (SF : Scalar F) : (exists d : UniformI.t F, UniformI.new (-5) 10 = Ret (Ok d)) /\ (exists d : UniformI.t F, UniformI.new (2 ^ 63 - 1) 1 = Ret (Ok d) /\ panics (UniformI.support d)) /\ panics (UniformI.new (F := F) 0 (2 ^ 63 - 1)).
Proof. split; [eexists; reflexivity|]. split; [eexists; split; reflexivity|reflexivity]. Qed.

(** Geometric: [k as i32 + 1] *)
Theorem C134_geometric (F : Type) (SF : Scalar F) (d : Geometric.t F) (k : Z) : is_u64 k -> comes_back_iff (Geometric.cdf d k) (k mod 2 ^ 32 <> 2 ^ 31 - 1).
Proof.
  intros Hk. unfold Geometric.cdf. apply cb_bind; [|intros; apply cb_ret]. eapply cb_iff; [apply cb_checked|]. unfold as_i32, wrap_signed. change (32 - 1) with 31.
  assert (B := Z.mod_pos_bound k (2 ^ 32) ltac:(lia)). destruct (Z.ltb_spec (k mod 2 ^ 32) (2 ^ 31)); lia.
Qed.
Print Assumptions C134_geometric.

(** ChiSq: the variance is an integer product *)
Theorem C134_chi_sq (F : Type) (SF : Scalar F) (k : Z) (d : ChiSq.t) : is_u64 k -> ChiSq.new (F := F) k = Ok d ->
  comes_back_iff (ChiSq.variance (F := F) d) (k < 2 ^ 63) /\ forall k2 e, is_u64 k2 -> ChiSq.new (F := F) k2 = Ok e -> comes_back_iff (ChiSq.convolve (F := F) d e) (k <> k2 \/ k + k2 < 2 ^ 64).
Proof.
  assert (V : forall k (d : ChiSq.t), is_u64 k -> ChiSq.new (F := F) k = Ok d -> ChiSq.k (ChiSq.pr d) = k).
  { clear. intros k d _ H. unfold ChiSq.new in H. inv_new H. reflexivity. }
  intros Hk H. assert (E := V k d Hk H). split.
  - unfold ChiSq.variance. rewrite E. apply cb_bind; [|intros; apply cb_ret]. eapply cb_iff; [apply cb_checked|]. unfold U64_MAX, is_u64 in *. lia.
  - intros k2 e Hk2 H2. assert (E2 := V k2 e Hk2 H2). unfold ChiSq.convolve. rewrite E, E2. cbn [check]. unfold check_default. cbn [is_satisfied_by]. change (peqb k k2) with (Z.eqb k k2). unfold is_u64 in *.
    destruct (Z.eqb_spec k k2) as [X|X]; [|split; [intros; apply cb_ret|tauto]].
    apply cb_bind; [|intros; apply cb_ret]. eapply cb_iff; [apply cb_checked|]. unfold U64_MAX. lia.
Qed.
Print Assumptions C134_chi_sq.

(** log-factorials: one argument overflows *)
Lemma cb_lf {F} {SF : Scalar F} (k : Z) : is_u64 k -> comes_back_iff (log_factorial_stirling (F := F) k) (k < 2 ^ 64 - 1).
Proof.
  unfold is_u64. intros Hk. unfold log_factorial_stirling. destruct (Z.ltb_spec 254 k).
  - apply cb_bind; [|intros; apply cb_ret]. eapply cb_iff; [apply cb_checked|]. unfold U64_MAX. lia.
  - assert (L : (Z.to_nat k < List.length LOG_FACTORIALS_255)%nat). { replace (List.length LOG_FACTORIALS_255) with 255%nat by reflexivity. lia. }
    apply nth_error_Some in L. destruct (nth_error LOG_FACTORIALS_255 (Z.to_nat k)); [|congruence]. split; [intros; apply cb_ret|lia].
Qed.
Theorem C134_poisson (F : Type) (SF : Scalar F) (d : Poisson.t F) (k : Z) (ks : list Z) : is_u64 k -> Forall is_u64 ks ->
  comes_back_iff (Poisson.pmf d k) (k < 2 ^ 64 - 1) /\ comes_back_iff (Poisson.log_pmf d k) (k < 2 ^ 64 - 1) /\
  comes_back_iff (Poisson.log_likelihood d ks) (Forall (fun k => k < 2 ^ 64 - 1) ks) /\
  comes_back_iff (Poisson.score d ks) (fold_right Z.add 0 ks < 2 ^ 64).
Proof.
  intros Hk Hks. assert (A : comes_back_iff (Poisson.log_pmf d k) (k < 2 ^ 64 - 1)).
  { unfold Poisson.log_pmf, Poisson.log_pmf_with. apply cb_bind; [now apply cb_lf|intros; apply cb_ret]. }
  split; [|split; [exact A|split]].
  - unfold Poisson.pmf, Poisson.pmf_with, rmap. apply cb_bind; [exact A|intros; apply cb_ret].
  - unfold Poisson.log_likelihood, Poisson.log_likelihood_with. apply cb_bind; [|intros; apply cb_ret]. clear Hk A.
    induction Hks as [|x l Hx Hl IH]; cbn [Poisson.rmap_list].
    + split; [intros; apply cb_ret|]. intros H. exfalso. apply H. constructor.
    + destruct (cb_lf (F := F) x Hx) as [L1 L2]. destruct (Z_lt_dec x (2 ^ 64 - 1)) as [X|X].
      * destruct (L1 X) as [v E]. rewrite E. cbn [rbind]. apply cb_bind; [|intros; apply cb_ret]. eapply cb_iff; [exact IH|]. split; intros H; [constructor; auto|now inversion H].
      * unfold panics in L2. rewrite (L2 X). cbn [rbind]. split; [intros H; inversion H; contradiction|reflexivity].
  - unfold Poisson.score. apply cb_bind; [|intros; apply cb_ret]. clear Hk A.
    assert (G : forall acc, 0 <= acc < 2 ^ 64 -> comes_back_iff (Poisson.sum_u64 acc ks) (acc + fold_right Z.add 0 ks < 2 ^ 64)).
    { induction Hks as [|x l Hx Hl IH]; intros acc Ha; cbn [Poisson.sum_u64 fold_right].
      - split; [intros; apply cb_ret|lia].
      - unfold is_u64 in *. assert (NN : 0 <= fold_right Z.add 0 l). { clear - Hl. induction Hl; cbn [fold_right]; lia. }
        unfold u64. destruct (Z_lt_dec (acc + x) (2 ^ 64)) as [X|X].
        + rewrite ck by (unfold U64_MAX; lia). cbn [rbind]. eapply cb_iff; [apply IH; lia|]. lia.
        + rewrite ck_panic by (unfold U64_MAX; lia). cbn [rbind]. split; [lia|reflexivity]. }
    eapply cb_iff; [apply (G 0); lia|]. lia.
Qed.
Print Assumptions C134_poisson.
Theorem C134_erlang (F : Type) (SF : Scalar F) (SP : Special F) (k : Z) (l : F) (d : Erlang.t F) : is_u64 k -> Erlang.new k l = Ok d -> forall x,
  comes_back (Erlang.log_pdf d x) /\ comes_back (Erlang.pdf d x) /\ comes_back (Erlang.modes d) /\
  comes_back_iff (Erlang.log_cdf d x) (k < 2 ^ 64 - 1) /\ comes_back_iff (Erlang.cdf d x) (k < 2 ^ 64 - 1).
Proof.
  intros Hk H x. unfold Erlang.new in H. inv_new H. unfold is_u64 in Hk.
  assert (A : comes_back (Erlang.log_pdf (Erlang.mk (Erlang.mkP k l)) x)).
  { unfold Erlang.log_pdf. cbn [Erlang.pr Erlang.k Erlang.lambda]. unfold u64. rewrite ck by (unfold U64_MAX; lia). cbn [rbind].
    destruct (cb_lf (F := F) (k - 1)) as [L _]; [unfold is_u64; lia|]. destruct L as [v E]; [lia|]. rewrite E. apply cb_ret. }
  assert (B : comes_back_iff (Erlang.log_cdf (Erlang.mk (Erlang.mkP k l)) x) (k < 2 ^ 64 - 1)).
  { unfold Erlang.log_cdf. cbn [Erlang.pr Erlang.k Erlang.lambda]. apply cb_bind; [now apply cb_lf|intros; apply cb_ret]. }
  split; [exact A|]. split; [unfold Erlang.pdf, rmap; destruct A as [v ->]; apply cb_ret|]. split; [|split; [exact B|]].
  - unfold Erlang.modes. cbn [Erlang.pr Erlang.k Erlang.lambda]. unfold u64. rewrite ck by (unfold U64_MAX; lia). apply cb_ret.
  - unfold Erlang.cdf, d_cdf, rmap. apply cb_bind; [exact B|intros; apply cb_ret].
Qed.
Print Assumptions C134_erlang.

(** Binomial, BetaBinomial: exactly which products of the loop computing C(n, k) must fit *)
Definition choose_fits (n k : Z) : Prop := k <= n /\ forall j : nat, Z.of_nat j < Z.min k (n - k) -> binom (Z.to_nat n) j * (n - Z.of_nat j) < 2 ^ 64.
Lemma cb_choose (n k : Z) : is_u64 n -> is_u64 k -> comes_back_iff (choose n k) (choose_fits n k).
Proof.
  unfold is_u64, choose_fits. intros Hn Hk. rewrite <- (Z2Nat.id n), <- (Z2Nat.id k) by lia. set (a := Z.to_nat n) in *. set (b := Z.to_nat k) in *. rewrite Nat2Z.id.
  assert (HA : Z.of_nat a <= U64_MAX) by (unfold U64_MAX; lia).
  destruct (le_lt_dec b a) as [L|L].
  2: { rewrite choose_k_gt_n by lia. split; [lia|reflexivity]. }
  assert (D : (forall j, (j < Nat.min b (a - b))%nat -> binom a j * (Z.of_nat a - Z.of_nat j) <= U64_MAX) \/ exists j, (j < Nat.min b (a - b))%nat /\ U64_MAX < binom a j * (Z.of_nat a - Z.of_nat j)).
  { induction (Nat.min b (a - b)) as [|m IH]; [left; lia|]. destruct IH as [IH|(j & J1 & J2)]; [|right; exists j; split; [lia|exact J2]].
    destruct (Z_le_dec (binom a m * (Z.of_nat a - Z.of_nat m)) U64_MAX) as [X|X]; [left|right; exists m; split; [lia|lia]]. intros j Hj. destruct (Nat.eq_dec j m) as [->|]; [exact X|apply IH; lia]. }
  destruct D as [D|(j & J1 & J2)].
  - split; [intros _; rewrite (choose_ok a b L HA D); apply cb_ret|]. intros H. exfalso. apply H. split; [lia|]. intros j Hj. specialize (D j ltac:(lia)). unfold U64_MAX in D. lia.
  - split; [|intros _; exact (choose_overflow a b j L HA J1 J2)]. intros [_ H]. specialize (H j ltac:(lia)). unfold U64_MAX in J2. lia.
Qed.
Theorem C134_binomial (F : Type) (SF : Scalar F) (SP : Special F) (n : Z) (p : Probability F) (d : Binomial.t F) : is_u64 n -> Binomial.new n p = Ok d ->
  comes_back_iff (Binomial.support d) (n < 2 ^ 64 - 1) /\
  (forall k, is_u64 k -> comes_back_iff (Binomial.cdf d k) (k <= n /\ k < 2 ^ 64 - 1)) /\
  (forall k, is_u64 k -> comes_back_iff (Binomial.pmf d k) (choose_fits n k)).
Proof.
  intros Hn H. unfold Binomial.new in H. inv_new H. unfold is_u64 in *. split; [|split].
  - unfold Binomial.support. cbn [Binomial.pr Binomial.n]. apply cb_bind; [|intros; apply cb_ret]. eapply cb_iff; [apply cb_checked|]. unfold USIZE_MAX, U64_MAX. lia.
  - intros k Hk. unfold Binomial.cdf. cbn [Binomial.pr Binomial.n]. unfold usize. unfold u64. destruct (Z_le_dec k n) as [L|L].
    + rewrite (ck _ _ (n - k)) by (unfold USIZE_MAX, U64_MAX; lia). cbn [rbind]. apply cb_bind; [|intros; apply cb_ret]. eapply cb_iff; [apply cb_checked|]. unfold USIZE_MAX, U64_MAX. lia.
    + rewrite (ck_panic _ _ (n - k)) by (unfold USIZE_MAX, U64_MAX; lia). cbn [rbind]. split; [lia|reflexivity].
  - intros k Hk. unfold Binomial.pmf. cbn [Binomial.pr Binomial.n]. apply cb_bind; [now apply cb_choose|]. intros c E. unfold usize, u64.
    assert (k <= n). { destruct (Z_le_dec k n); [assumption|]. exfalso. destruct (cb_choose n k Hn Hk) as [_ X]. unfold panics in X. rewrite X in E; [discriminate|]. unfold choose_fits. lia. }
    rewrite ck by (unfold USIZE_MAX, U64_MAX; lia). apply cb_ret.
Qed.
Print Assumptions C134_binomial.
Theorem C134_beta_binomial (F : Type) (SF : Scalar F) (SP : Special F) (n : Z) (a b : F) (d : BetaBinomial.t F) : is_u64 n -> BetaBinomial.new n a b = Ok d ->
  comes_back_iff (BetaBinomial.support d) (n < 2 ^ 64 - 1) /\
  (forall k, is_u64 k -> comes_back_iff (BetaBinomial.cdf d k) (n <= k)) /\
  (forall k, is_u64 k -> comes_back_iff (BetaBinomial.pmf d k) (choose_fits n k)).
Proof.
  intros Hn H. unfold BetaBinomial.new in H. inv_new H. unfold is_u64 in *. split; [|split].
  - unfold BetaBinomial.support. cbn [BetaBinomial.from BetaBinomial.pr BetaBinomial.n]. apply cb_bind; [|intros; apply cb_ret]. eapply cb_iff; [apply cb_checked|]. unfold USIZE_MAX, U64_MAX. lia.
  - intros k Hk. unfold BetaBinomial.cdf. cbn [BetaBinomial.from BetaBinomial.pr BetaBinomial.n]. destruct (Z.leb_spec n k); split; intros; try lia; [apply cb_ret|reflexivity].
  - intros k Hk. unfold BetaBinomial.pmf, BetaBinomial.pmf_raw, rmap. cbn [BetaBinomial.from BetaBinomial.pr BetaBinomial.n]. apply cb_bind; [|intros; apply cb_ret]. apply cb_bind; [now apply cb_choose|intros; apply cb_ret].
Qed.
Print Assumptions C134_beta_binomial.
(** up to n = 62 every k of the support fits; n = 63 does not *)
Theorem C134_choose_fits_62 (n k : Z) : 0 <= k <= n -> n <= 62 -> choose_fits n k.
Proof.
  intros H Hn. split; [lia|]. intros j Hj. assert (P := prod_fits (Z.to_nat n) j). rewrite Z2Nat.id in P by lia. unfold U64_MAX in P. assert (K : binom (Z.to_nat n) j * (n - Z.of_nat j) <= 2 ^ 64 - 1) by (apply P; lia). lia.
Qed.
Print Assumptions C134_choose_fits_62.
(** the largest degrees of freedom, shapes and sample values are accepted, and do panic *)
From Coq Require Import Reals Lra.
From Verif.Num Require Import XReal.
From Verif.Proofs Require Import XTac.
Example C134_nonvacuous : (exists d, ChiSq.new (F := xreal) (2 ^ 63) = Ok d /\ panics (ChiSq.variance (F := xreal) d)) /\
  (exists d : Erlang.t xreal, Erlang.new (2 ^ 64 - 1) (Fin 2) = Ok d) /\ (exists d : Erlang.t xreal, Erlang.new 3 (Fin 2) = Ok d) /\
  (exists d : BetaBinomial.t xreal, BetaBinomial.new 63 (Fin 2) (Fin 1) = Ok d) /\ panics (choose 63 31) /\
  (exists d : Binomial.t xreal, Binomial.new 63 (Prob (Fin (1 / 2))) = Ok d).
Proof.
  repeat match goal with |- _ /\ _ => split end.
  - exists (ChiSq.new_unchecked (2 ^ 63)). split; [|reflexivity]. unfold ChiSq.new. etransitivity; [apply map_params_ok; cbn [args s1 s2 s3 fst snd]; repeat (apply Forall_cons || apply Forall_nil); unfold arg_ok; cbn [arg_ty arg_val field_ok]; lia|reflexivity].
  - eexists. unfold Erlang.new. ok_new.
  - eexists. unfold Erlang.new. ok_new.
  - eexists. unfold BetaBinomial.new. ok_new.
  - reflexivity.
  - eexists. unfold Binomial.new. ok_new.
Qed.
