(** * Properties C125-C127: [sample] draws from the distribution it belongs to

    [Pr] is any assignment of probabilities to events on generator states;
    [rand_distr_ok Pr RD] says that the samplers of the [rand_distr] crate draw
    from the laws they are named after (Spec/RandSpec.v). *)
From Coq Require Import Reals Lra Lia Psatz List ZArith.
From Coquelicot Require Import Coquelicot.
From Flocq Require Import Core.Raux.
From Verif.Num Require Import Scalar XReal.
From Verif.Model Require Import Rust Constraints Probability Params Consts Continuous Continuous2 Continuous3 Discrete Samplers.
From Verif.Spec Require Import DistSpec DiscreteSpec GammaSpec ResSpec RandSpec.
From Verif.Properties Require C48_C55_Discrete C27_C29_Uniform.
From Verif.Proofs Require Import ConstraintProofs NewInv XTac Calc Calc2 Improper Gauss GammaFun Oracle ContProofs1 ContProofs3 ContProofs4 ContProofs6 ContProofs7 ContProofs9 ContProofs11
  ContProofs12 ContProofs14 ContProofs15 ContProofs20 ContProofs25 Gauss2 DiscProofs1 DiscProofs4 FitProofs3 RandProofs RandProofs2 RandProofs3 RandProofs4.
Import ListNotations.
Open Scope R_scope.
Notation cdfx cdf d := (fun x => unwrap (cdf d x)).

(** ** C125: continuous samplers delegated to rand_distr *)
Theorem C125_exponential {S : Type} (Pr : (S -> Prop) -> R -> Prop) (RD : RandDistr S xreal) (l : R) (d : Exponential.t xreal) :
  rand_distr_ok Pr RD -> Exponential.new (Fin l) = Ok d -> law_df Pr 0 p_infty (cdfx Exponential.cdf d) (exponential_sample d).
Proof.
  intros OK H. unfold Exponential.new in H. inv_new H. change (Exponential.mk _) with (Exponential.new_unchecked (Fin l)).
  apply (law_transfer Pr 0 p_infty _ _ (exp_density l) _ I (e_coherent l HP)); [intros; apply te_eq|intros; apply te_cont|]. now apply (ok_exp Pr RD OK).
Qed.
Print Assumptions C125_exponential.
Theorem C125_cauchy {S : Type} (Pr : (S -> Prop) -> R -> Prop) (RD : RandDistr S xreal) (m g : R) (d : Cauchy.t xreal) :
  rand_distr_ok Pr RD -> Cauchy.new (Fin m) (Fin g) = Ok d -> law_df Pr m_infty p_infty (cdfx Cauchy.cdf d) (cauchy_sample d).
Proof.
  intros OK H. unfold Cauchy.new in H. inv_new H. change (Cauchy.mk _) with (Cauchy.new_unchecked (Fin m) (Fin g)).
  apply (law_transfer Pr m_infty p_infty _ _ (cauchy_density m g) _ I (c_coherent m g ltac:(auto))); [intros; now apply tc_eq|intros; now apply tc_cont|]. now apply (ok_cauchy Pr RD OK).
Qed.
Print Assumptions C125_cauchy.
Theorem C125_pareto {S : Type} (Pr : (S -> Prop) -> R -> Prop) (RD : RandDistr S xreal) (xm al : R) (d : Pareto.t xreal) :
  rand_distr_ok Pr RD -> Pareto.new (Fin xm) (Fin al) = Ok d -> 0 < xm -> law_df Pr xm p_infty (cdfx Pareto.cdf d) (pareto_sample d).
Proof.
  intros OK H Hx. unfold Pareto.new in H. inv_new H. change (Pareto.mk _) with (Pareto.new_unchecked (Fin xm) (Fin al)).
  apply (law_transfer Pr xm p_infty _ _ (pareto_density xm al) _ I (p_coherent xm al Hx ltac:(auto))); [intros; now apply tp_eq|intros; now apply tp_cont|]. now apply (ok_pareto Pr RD OK).
Qed.
Print Assumptions C125_pareto.
Theorem C125_weibull {S : Type} (Pr : (S -> Prop) -> R -> Prop) (RD : RandDistr S xreal) (l k : R) (p : Weibull.Params xreal) :
  rand_distr_ok Pr RD -> Weibull.p_new (Fin l) (Fin k) = Ok p -> let d := Weibull.from p in law_df Pr 0 p_infty (cdfx Weibull.cdf d) (weibull_sample d).
Proof.
  intros OK H. unfold Weibull.p_new in H. inv_new H. cbv zeta.
  apply (law_transfer Pr 0 p_infty _ _ (weibull_density l k) _ I (w_coherent l k ltac:(auto) ltac:(auto))); [intros; now apply tw_eq|intros; now apply tw_cont|]. now apply (ok_weibull Pr RD OK).
Qed.
Print Assumptions C125_weibull.
Theorem C125_triangular {S : Type} (Pr : (S -> Prop) -> R -> Prop) (RD : RandDistr S xreal) (a p q : R) (d : Triangular.t xreal) :
  rand_distr_ok Pr RD -> Triangular.new (Fin a) (Fin p) (Fin q) = Ok d -> law_df Pr a (a + p + q) (cdfx Triangular.cdf d) (triangular_sample d).
Proof.
  intros OK H. unfold Triangular.new in H. inv_new H. change (Triangular.mk _) with (Triangular.new_unchecked (Fin a) (Fin p) (Fin q)).
  apply (law_transfer Pr a (a + p + q) _ _ (triangular_density a (a + p + q) (a + p)) _ ltac:(cbn; lra) (tr_coherent a p q ltac:(auto) ltac:(auto))); [intros; now apply tt_eq|intros; now apply tt_cont|].
  apply (ok_triangular Pr RD OK). lra.
Qed.
Print Assumptions C125_triangular.
Theorem C125_beta {S : Type} (Pr : (S -> Prop) -> R -> Prop) (RD : RandDistr S xreal) (SP : Special xreal) (a b : R) (d : Beta.t xreal) :
  rand_distr_ok Pr RD -> beta_exact SP -> betainc_exact SP -> Beta.new (Fin a) (Fin b) = Ok d -> law_df Pr 0 1 (cdfx Beta.cdf d) (beta_sample d).
Proof.
  intros OK Hg Hi H. unfold Beta.new in H. inv_new H. change (Beta.mk _) with (Beta.new_unchecked (Fin a) (Fin b)).
  apply (law_transfer Pr 0 1 _ _ (beta_density (Bet a b) a b) _ lt01 (be_coherent Hg a b ltac:(auto) ltac:(auto) Hi)); [intros; now apply tb_eq|intros; now apply tb_cont|].
  apply (ok_beta Pr RD OK); auto. now apply Bet_spec.
Qed.
Print Assumptions C125_beta.
Theorem C125_chi_squared {S : Type} (Pr : (S -> Prop) -> R -> Prop) (RD : RandDistr S xreal) (SP : Special xreal) (k : Z) (d : ChiSq.t) :
  rand_distr_ok Pr RD -> gamma_exact SP -> gammainc_lower SP -> ChiSq.new (F := xreal) k = Ok d -> law_df Pr 0 p_infty (cdfx ChiSq.cdf d) (chi_sq_sample d).
Proof.
  intros OK Hg Hi H. unfold ChiSq.new in H. inv_new H. change (ChiSq.mk _) with (ChiSq.new_unchecked k). assert (Hk : 0 < IZR k) by now apply IZR_lt.
  apply (law_transfer Pr 0 p_infty _ (ChiSq.pdf (ChiSq.new_unchecked k)) (chi_squared_density (Gam (IZR k / 2)) (IZR k)) _ I (cs_coherent Hg k ltac:(auto) Hi)).
  - intros x Hx. unfold rf. rewrite cs_pdf by auto. cbn [val]. apply tx_ga; [auto|now apply in0f].
  - intros. now apply tx_cont.
  - apply (ok_chi_squared Pr RD OK); [auto|apply Gam_spec; lra].
Qed.
Print Assumptions C125_chi_squared.
Theorem C125_f_dist {S : Type} (Pr : (S -> Prop) -> R -> Prop) (RD : RandDistr S xreal) (SP : Special xreal) (d1 d2 : Z) (d : FDist.t) :
  rand_distr_ok Pr RD -> beta_exact SP -> betainc_exact SP -> FDist.new (F := xreal) d1 d2 = Ok d -> law_df Pr 0 p_infty (cdfx FDist.cdf d) (f_dist_sample d).
Proof.
  intros OK Hg Hi H. unfold FDist.new in H. inv_new H. change (FDist.mk _) with (FDist.new_unchecked d1 d2).
  assert (H1 : 0 < IZR d1) by now apply IZR_lt. assert (H2 : 0 < IZR d2) by now apply IZR_lt.
  apply (law_transfer Pr 0 p_infty _ (FDist.pdf (FDist.new_unchecked d1 d2)) (fisher_density (Bet (IZR d1 / 2) (IZR d2 / 2)) (IZR d1) (IZR d2)) _ I (fd_coherent Hg d1 d2 ltac:(auto) ltac:(auto) Hi)).
  - intros x Hx. unfold rf. rewrite fd_pdf by auto. cbn [val]. apply tf_od; [auto|auto|now apply in0f].
  - intros. now apply tf_cont.
  - apply (ok_fisher Pr RD OK); auto. apply Bet_spec; lra.
Qed.
Print Assumptions C125_f_dist.
(** its [cdf] is not the distribution function of its [pdf] (C100): the law is that of [pdf] *)
Theorem C125_student_t {S : Type} (Pr : (S -> Prop) -> R -> Prop) (RD : RandDistr S xreal) (SP : Special xreal) (n : R) (d : StudentT.t xreal) :
  rand_distr_ok Pr RD -> gamma_exact SP -> StudentT.new (Fin n) = Ok d -> 0 < n -> law_density Pr m_infty p_infty (rf (StudentT.pdf d)) (student_t_sample d).
Proof.
  intros OK Hg H Hn. unfold StudentT.new in H. inv_new H. change (StudentT.mk _) with (StudentT.new_unchecked (Fin n)).
  destruct (ok_student Pr RD OK n _ _ Hn (Gam_spec ((n + 1) / 2) ltac:(lra)) (Gam_spec (n / 2) ltac:(lra))) as [A B]. split; [exact A|].
  intros y p Hy I1. apply B; [exact Hy|]. revert I1. apply is_RInt_gen_ext. apply filter_forall. intros ab x _. now apply ts_eq.
Qed.
Print Assumptions C125_student_t.
(** the log-normal sampler is given mean and deviation of the log-normal itself
    as parameters of the underlying normal: wrong for every parameter *)
Theorem C125_lognormal_refuted {S : Type} (Pr : (S -> Prop) -> R -> Prop) (RD : RandDistr S xreal) (SP : Special xreal) (m V : R) (d : LogNormal.t xreal) :
  rand_distr_ok Pr RD -> functional Pr -> (forall x, sf_norm (Fin x) = Fin (Phi x)) -> LogNormal.new (Fin m) (Fin V) = Ok d ->
  ~ law_df Pr 0 p_infty (cdfx LogNormal.cdf d) (lognormal_sample d).
Proof.
  intros OK HF HN H [_ L]. unfold LogNormal.new in H. destruct (UvNormal.new (Fin m) (Fin V)) eqn:E; [|discriminate]. apply uvn_new_inv in E as [HV ->]. injection H as <-.
  set (m' := exp (m + V * V / 2)). set (V' := (exp (V * V) - 1) * exp (2 * m + V * V)).
  assert (VV : 0 < V * V) by pos. assert (HV' : 0 < V').
  { unfold V'. apply Rmult_lt_0_compat; [|apply exp_pos]. assert (G := exp_ineq1 (V * V) ltac:(lra)). lra. }
  assert (ES : forall s, lognormal_sample (LogNormal.mk (UvNormal.new_unchecked (Fin m) (Fin V))) s = rd_log_normal (Fin m') (Fin (sqrt V')) s).
  { intros s. unfold lognormal_sample, LogNormal.mean, LogNormal.variance, LogNormal.mu, LogNormal.sigma. cbn [LogNormal.nrm UvNormal.pr UvNormal.mu UvNormal.Sigma UvNormal.new_unchecked]. cbv zeta.
    xs. fold m' V'. now rewrite x_sqrt by lra. }
  assert (T : law_df Pr 0 p_infty (cdfx LogNormal.cdf (LogNormal.new_unchecked (Fin m') (Fin V'))) (rd_log_normal (Fin m') (Fin (sqrt V')))).
  { apply (law_transfer Pr 0 p_infty _ _ (log_normal_density m' (sqrt V')) _ I (ln_coherent m' V' HV' HN)); [intros; now apply tl_eq|intros; now apply tl_cont|].
    apply (ok_log_normal Pr RD OK). now apply sqrt_lt_R0. }
  assert (Y : 0 < exp m) by apply exp_pos. assert (Iy : inside 0 p_infty (exp m)) by (split; cbn; auto).
  specialize (L (exp m) Iy). destruct T as [_ T]. specialize (T (exp m) Iy).
  unfold rf in L, T. change (LogNormal.mk _) with (LogNormal.new_unchecked (Fin m) (Fin V)) in L. rewrite (ln_cdf m V HV HN) in L by auto. rewrite (ln_cdf m' V' HV' HN) in T by auto. cbn [val] in L, T. rewrite ln_exp in L, T.
  assert (EV : yields (lognormal_sample (LogNormal.new_unchecked (Fin m) (Fin V))) (at_most (exp m)) = yields (rd_log_normal (Fin m') (Fin (sqrt V'))) (at_most (exp m))).
  { change (LogNormal.new_unchecked (Fin m) (Fin V)) with (LogNormal.mk (UvNormal.new_unchecked (Fin m) (Fin V))). unfold yields. apply FunctionalExtensionality.functional_extensionality. intros s. now rewrite ES. }
  rewrite EV in L. clear EV ES.
  assert (B1 := Phi01 ((m - m) / sqrt V)). assert (B2 := Phi01 ((m - m') / sqrt V')).
  assert (P1 : 0 <= Phi ((m - m) / sqrt V)) by lra. assert (P2 : 0 <= Phi ((m - m') / sqrt V')) by lra. assert (Q := HF _ _ _ P1 P2 L T).
  assert (S1 : 0 < sqrt V') by now apply sqrt_lt_R0.
  assert (Lm : m < m') by (unfold m'; assert (G := exp_ineq1_le (m + V * V / 2)); lra).
  assert (M := Phi_mono ((m - m') / sqrt V') ((m - m) / sqrt V)). replace ((m - m) / sqrt V) with 0 in * by (unfold Rdiv; ring).
  assert (N : (m - m') / sqrt V' < 0) by (apply Rlt_div_l; lra). specialize (M N). lra.
Qed.
Print Assumptions C125_lognormal_refuted.

#[local] Existing Instance inv_rd.
#[local] Existing Instance inv_rng.
(** the samplers that invert the distribution functions satisfy the hypothesis *)
Example C125_nonvacuous : rand_distr_ok Pr0 inv_rd /\ functional Pr0 /\ extensional Pr0 /\
  (exists d, Exponential.new (Fin 2) = Ok d) /\ (exists d, Pareto.new (Fin 1) (Fin 3) = Ok d) /\ (exists d, Triangular.new (Fin 0) (Fin 1) (Fin 2) = Ok d) /\
  (exists d, StudentT.new (Fin 3) = Ok d) /\ (exists d, LogNormal.new (Fin 0) (Fin 1) = Ok d) /\ (exists d, FDist.new (F := xreal) 2 3 = Ok d).
Proof.
  split; [exact inv_rd_ok|]. split; [exact Pr0_functional|]. split; [exact Pr0_ext|].
  split; [eexists; unfold Exponential.new; ok_new|]. split; [eexists; unfold Pareto.new; ok_new|]. split; [eexists; unfold Triangular.new; ok_new|].
  split; [eexists; unfold StudentT.new; ok_new|]. split; [eexists; unfold LogNormal.new; rewrite uvn_new_ok by lra; reflexivity|]. eexists. reflexivity.
Qed.

(** ** C126: discrete samplers *)
Theorem C126_binomial {S : Type} (Pr : (S -> Prop) -> R -> Prop) (RD : RandDistr S xreal) (n : nat) (p : R) (d : Binomial.t xreal) :
  rand_distr_ok Pr RD -> (Z.of_nat n < 2 ^ 31)%Z -> Binomial.new (Z.of_nat n) (Prob (Fin p)) = Ok d ->
  law_mass Pr (binomial_law n p) (binomial_sample d) /\
  forall k q, Binomial.pmf d (Z.of_nat k) = Ret (Prob (Fin q)) -> Pr (yields (binomial_sample d) (fun v => v = Z.of_nat k)) q.
Proof.
  intros OK Hn H. destruct (C48_C55_Discrete.C49_binomial n p d Hn H) as (Hp & _ & _ & P1 & _ & P2 & _). apply bin_new_inv in H as [_ ->].
  assert (L : law_mass Pr (binomial_law n p) (binomial_sample (bin n p))). { apply (ok_binomial Pr RD OK); [auto|lia]. }
  split; [exact L|]. intros k q E.
  assert (D : (k <= n)%nat /\ choose_fits n k). { split; apply Classical_Prop.NNPP; intros N; rewrite P2 in E by auto; discriminate. }
  rewrite P1 in E by apply D. injection E as <-. apply (proj2 L).
Qed.
Print Assumptions C126_binomial.
Theorem C126_geometric {S : Type} (Pr : (S -> Prop) -> R -> Prop) (RD : RandDistr S xreal) (p : R) (d : Geometric.t xreal) :
  rand_distr_ok Pr RD -> Geometric.new (Fin p) = Ok d -> 0 < p ->
  law_mass Pr (geometric_law p) (geometric_sample d) /\
  forall k q, (Z.of_nat k < 2 ^ 31)%Z -> Geometric.pmf d (Z.of_nat k) = Prob (Fin q) -> Pr (yields (geometric_sample d) (fun v => v = Z.of_nat k)) q.
Proof.
  intros OK H Hp. destruct (C48_C55_Discrete.C51_geometric p d H Hp) as (_ & P1 & _). apply geo_new_inv in H as [Hp1 ->].
  assert (L : law_mass Pr (geometric_law p) (geometric_sample (geo p))). { apply (ok_geometric Pr RD OK). lra. }
  split; [exact L|]. intros k q Hk E. rewrite P1 in E by auto. injection E as <-. apply (proj2 L).
Qed.
Print Assumptions C126_geometric.
(** the cast to u64 keeps every value below 2^64 - 1 *)
Theorem C126_poisson {S : Type} (Pr : (S -> Prop) -> R -> Prop) (RD : RandDistr S xreal) (lf : Z -> res xreal) (l : R) (d : Poisson.t xreal) :
  extensional Pr -> rand_distr_ok Pr RD -> (forall k : nat, lf (Z.of_nat k) = Ret (Fin (ln (INR (fact k))))) -> Poisson.new (Fin l) = Ok d ->
  (forall s, yields (poisson_sample d) (fun v => (0 <= v)%Z) s) /\
  forall k q, (Z.of_nat k < 2 ^ 64 - 1)%Z -> Poisson.pmf_with lf d (Z.of_nat k) = Ret (Prob (Fin q)) ->
    q = poisson_law l k /\ Pr (yields (poisson_sample d) (fun v => v = Z.of_nat k)) q.
Proof.
  intros HE OK Hlf H. destruct (C48_C55_Discrete.C54_poisson lf l d Hlf H) as (Hl & _ & _ & P1 & _). apply poi_new_inv in H as [_ ->].
  destruct (ok_poisson Pr RD OK l Hl) as [A B].
  assert (CL : forall j : nat, f_to_Z 0 U64_MAX (Fin (INR j)) = Z.min U64_MAX (Z.of_nat j)).
  { intros j. rewrite x_to, INR_IZR_INZ, Ztrunc_IZR. unfold clampZ, U64_MAX. lia. }
  split.
  - intros s. destruct (A s) as (v & s' & E & j & ->). unfold yields, poisson_sample. cbn [poi Poisson.new_unchecked Poisson.pr Poisson.lambda]. rewrite E. cbn [rbind].
    eexists _, _. split; [reflexivity|]. rewrite CL. unfold U64_MAX. lia.
  - intros k q Hk E. rewrite P1 in E. injection E as <-. split; [reflexivity|].
    apply (HE (yields (rd_poisson (Fin l)) (fun v => v = Fin (INR k)))); [|apply B]. intros s. destruct (A s) as (v & s' & E & j & ->).
    unfold yields, poisson_sample. cbn [poi Poisson.new_unchecked Poisson.pr Poisson.lambda]. rewrite E. cbn [rbind]. split.
    + intros (a & t & E1 & E2). injection E1 as <- _. apply Fin_inj in E2. apply INR_eq in E2. subst j. eexists _, _. split; [reflexivity|]. rewrite CL. unfold U64_MAX. lia.
    + intros (a & t & E1 & E2). injection E1 as <- _. change (f_to_Z 0 U64_MAX (Fin (INR j)) = Z.of_nat k) in E2. rewrite CL in E2. eexists _, _. split; [reflexivity|]. do 2 f_equal. unfold U64_MAX in E2. lia.
Qed.
Print Assumptions C126_poisson.
Theorem C126_uniform_i64 {S : Type} (Pr : (S -> Prop) -> R -> Prop) (RD : RandDistr S xreal) (l w k : Z) (q : R) (d : UniformI.t xreal) :
  rand_distr_ok Pr RD -> (I64_MIN <= l)%Z -> (0 < w < I64_MAX)%Z -> (l + w <= I64_MAX)%Z -> UniformI.new l w = Ret (Ok d) ->
  (l <= k <= l + w)%Z -> UniformI.pmf d k = Ret (Prob (Fin q)) -> Pr (yields (uniform_i64_sample d) (fun v => v = k)) q.
Proof.
  intros OK Hl [Hw1 Hw2] Hu H Hk E. rewrite ui_new in H by auto. injection H as <-. rewrite ui_pmf in E by auto. injection E as <-.
  unfold uniform_i64_sample. rewrite ui_ub by auto. cbn [rbind]. change (UniformI.lb (UniformI.pr (ui_d l w))) with l.
  replace (1 / IZR (w + 1)) with (/ IZR (l + w - l + 1)). 2:{ replace (l + w - l + 1)%Z with (w + 1)%Z by lia. unfold Rdiv. ring. }
  apply (ok_uniform_i64 Pr RD OK); lia.
Qed.
Print Assumptions C126_uniform_i64.
Theorem C126_bernoulli {S : Type} (Pr : (S -> Prop) -> R -> Prop) (RG : Rng S xreal) (p : R) (d : Bernoulli.t xreal) (b : bool) :
  (forall p, 0 <= p <= 1 -> Pr (fun s => fst (gen_bool (Fin p) s) = true) p /\ Pr (fun s => fst (gen_bool (Fin p) s) = false) (1 - p)) ->
  Bernoulli.new (Fin p) = Ok d ->
  returns (unwrap (Bernoulli.pmf d b)) (fun q => Pr (fun s => fst (Bernoulli.sample d s) = b) q).
Proof.
  intros OK H. apply ber_new_inv in H as [Hp ->]. destruct (OK p Hp) as [A B]. destruct b.
  - eexists. split; [reflexivity|]. exact A.
  - eexists. split; [|exact B]. unfold Bernoulli.pmf, ber, Bernoulli.new_unchecked, Bernoulli.from, p_not, p_new_unchecked. cbn [Bernoulli.q Bernoulli.p Bernoulli.pr Probability.unwrap]. now xs.
Qed.
Print Assumptions C126_bernoulli.
Example C126_nonvacuous : rand_distr_ok Pr0 inv_rd /\ (exists d, Binomial.new (Z.of_nat 5) (Prob (Fin (1 / 3))) = Ok d) /\ (exists d, Geometric.new (Fin (1 / 3)) = Ok d) /\
  (exists d, UniformI.new (F := xreal) (-2) 5 = Ret (Ok d)) /\
  (forall p, 0 <= p <= 1 -> Pr0 (fun s => fst (gen_bool (Fin p) s) = true) p /\ Pr0 (fun s => fst (gen_bool (Fin p) s) = false) (1 - p)).
Proof.
  split; [exact inv_rd_ok|]. split; [eexists; apply bin_new_ok; lra|]. split; [eexists; apply geo_new_ok; lra|].
  split; [eexists; apply ui_new; unfold I64_MIN, I64_MAX; lia|].
  intros p Hp. cbn [gen_bool inv_rng fst val]. split.
  - apply (Pr0_intro _ _ 0); [lra|lra|]. intros u Hu. rewrite u01_id by auto. destruct (Rle_dec u p); split; intros; try lra; try reflexivity; discriminate.
  - apply (Pr0_intro _ _ p); [lra|lra|]. intros u Hu. rewrite u01_id by auto. destruct (Rle_dec u p); split; intros; try lra; try reflexivity; discriminate.
Qed.

(** ** C127: samplers that transform a uniform variate *)
Theorem C127_uniform {S : Type} (Pr : (S -> Prop) -> R -> Prop) (RG : Rng S xreal) (a w : R) (d : UniformF.t xreal) :
  extensional Pr -> (forall a b, a < b -> uniform_draw Pr a b (draw_uniform_inclusive (Fin a) (Fin b))) ->
  UniformF.new (Fin a) (Fin w) = Ok d ->
  law_df Pr a (a + w) (cdfx UniformF.cdf d) (retd (UniformF.sample d)).
Proof.
  intros HE OK H. apply uniform_new_inv in H as [Hw ->].
  assert (Cd : forall y, inside a (a + w) y -> rf (cdfx UniformF.cdf (UniformF.new_unchecked (Fin a) (Fin w))) y = (y - a) / w).
  { intros y [A B]; cbn in A, B. unfold rf, UniformF.cdf, UniformF.ub, UniformF.new_unchecked, UniformF.from. cbn [UniformF.pr UniformF.lb UniformF.width UniformF.prob]. xs. rewrite Rltb_false by lra. rewrite Rleb_false by lra. cbn [unwrap]. xs. cbn [val]. field. lra. }
  assert (L := from_uniform Pr a (a + w) (cdfx UniformF.cdf (UniformF.new_unchecked (Fin a) (Fin w))) (fun u => u) (draw_uniform_inclusive (Fin a) (Fin (a + w))) a (a + w)).
  assert (K : retd (UniformF.sample (UniformF.new_unchecked (Fin a) (Fin w))) = retd (fun s => let (u, s) := draw_uniform_inclusive (Fin a) (Fin (a + w)) s in (u, s))).
  { apply FunctionalExtensionality.functional_extensionality. intros s. unfold retd, UniformF.sample, UniformF.ub, UniformF.new_unchecked, UniformF.from. cbn [UniformF.pr UniformF.lb UniformF.width]. rewrite x_add. now destruct (draw_uniform_inclusive _ _ s). }
  rewrite K. apply L; auto; try lra; [apply OK; lra| | |].
  - intros y Hy. rewrite Cd by auto. destruct Hy as [A B]; cbn in A, B. split; [apply Rdiv_le_0_compat; lra|apply Rle_div_l; lra].
  - intros u Hu. eauto.
  - intros y Hy. left. intros u Hu. rewrite Cd by auto. unfold rf at 1. cbn [val]. replace (a + w - a) with w by ring. split; intros G; [apply Rle_div_r; lra|apply Rle_div_r in G; lra].
Qed.
Print Assumptions C127_uniform.
Theorem C127_kumaraswamy {S : Type} (Pr : (S -> Prop) -> R -> Prop) (RG : Rng S xreal) (a b : R) (p : Kumaraswamy.Params xreal) :
  extensional Pr -> uniform_draw Pr 0 1 (draw_uniform_inclusive (Fin 0) (Fin 1)) ->
  Kumaraswamy.p_new (Fin a) (Fin b) = Ok p ->
  let d := Kumaraswamy.from p in law_df Pr 0 1 (cdfx Kumaraswamy.cdf d) (retd (Kumaraswamy.sample d)).
Proof.
  intros HE OK H. unfold Kumaraswamy.p_new in H. inv_new H. cbv zeta. unfold Kumaraswamy.sample, UniformF.sample, UniformF.default, UniformF.ub. cbn [UniformF.pr UniformF.lb UniformF.width]. rewrite !x_lit, x_add, Rplus_0_l.
  apply (from_uniform01 Pr 0 1 _ _ (Kumaraswamy.sample_of_draw (Kumaraswamy.from (Kumaraswamy.mkP (Fin a) (Fin b)))) (draw_uniform_inclusive (Fin 0) (Fin 1)) HE OK (k_coherent a b ltac:(auto) ltac:(auto))). now apply k_sample.
Qed.
Print Assumptions C127_kumaraswamy.
(** [Laplace::pdf] is the distribution function (C44), and the sample follows it *)
Theorem C127_laplace {S : Type} (Pr : (S -> Prop) -> R -> Prop) (RG : Rng S xreal) (m b : R) (d : Laplace.t xreal) :
  extensional Pr -> uniform_draw Pr (- (1 / 2)) (1 / 2) (draw_uniform (Fin (- (1 / 2))) (Fin (1 / 2))) ->
  Laplace.new (Fin m) (Fin b) = Ok d ->
  law_df Pr m_infty p_infty (fun x => got (Laplace.pdf d x)) (retd (Laplace.sample d)).
Proof.
  intros HE OK H. unfold Laplace.new in H. inv_new H. change (Laplace.mk _) with (Laplace.new_unchecked (Fin m) (Fin b)).
  unfold Laplace.sample. rewrite !x_lit, x_div, x_neg by lra.
  destruct (la_samples m b ltac:(auto)) as [V K]. destruct (la_coherent m b ltac:(auto)) as [[CV _ _ _] _].
  assert (EU : forall u, fsub (Fin u) (Fin (1 / 2)) = Fin (- (1 / 2) + u * (1 / 2 - - (1 / 2)))) by (intros u; rewrite x_sub; f_equal; lra).
  apply (from_uniform Pr m_infty p_infty _ (Laplace.sample_of_draw (Laplace.new_unchecked (Fin m) (Fin b))) _ (- (1 / 2)) (1 / 2)); auto; try lra.
  - intros y Hy. destruct (CV y Hy) as (p & E & B). unfold rf. rewrite E. exact B.
  - intros u Hu. destruct (V u Hu) as [x E]. exists x. rewrite <- EU. exact E.
  - intros y Hy. destruct (K y Hy) as [A|A]; [left|right]; intros u Hu; specialize (A u Hu); unfold rf at 1 in A; rewrite EU in A; exact A.
Qed.
Print Assumptions C127_laplace.
(** Frechet: the sample is the reciprocal of a Frechet variate, for every shape *)
Theorem C127_frechet_refuted {S : Type} (Pr : (S -> Prop) -> R -> Prop) (RG : Rng S xreal) (a : R) (d : Frechet.t xreal) :
  functional Pr -> extensional Pr -> uniform_draw Pr 0 1 (draw_uniform_inclusive (Fin 0) (Fin 1)) ->
  Frechet.new (Fin a) = Ok d ->
  law_df Pr 0 p_infty (fun x => fsub (Fin 1) (unwrap (Frechet.cdf d (fdiv (Fin 1) x)))) (retd (Frechet.sample d)) /\
  ~ law_df Pr 0 p_infty (cdfx Frechet.cdf d) (retd (Frechet.sample d)).
Proof.
  intros HF HE OK H. unfold Frechet.new in H. inv_new H. change (Frechet.mk _) with (Frechet.new_unchecked (Fin a)).
  set (G := fun x => fsub (Fin 1) (unwrap (Frechet.cdf (Frechet.new_unchecked (Fin a)) (fdiv (Fin 1) x)))).
  assert (EG : forall y, 0 < y -> rf G y = 1 - exp (- Rpower y a)).
  { intros y Hy. unfold rf, G. rewrite x_div by lra. assert (0 < 1 / y) by pos. rewrite f_cdf by auto. rewrite x_sub. cbn [val]. do 3 f_equal.
    unfold Rdiv. rewrite Rmult_1_l, Rpower_Ropp. unfold Rpower. rewrite ln_Rinv, <- exp_Ropp by auto. f_equal. ring. }
  assert (L : law_df Pr 0 p_infty G (retd (Frechet.sample (Frechet.new_unchecked (Fin a))))).
  { unfold Frechet.sample, UniformF.sample, UniformF.default, UniformF.ub. cbn [UniformF.pr UniformF.lb UniformF.width]. rewrite !x_lit, x_add, Rplus_0_l.
    assert (ES : forall u, 0 < u < 1 -> Frechet.sample_of_draw (Frechet.new_unchecked (Fin a)) (Fin (0 + u * (1 - 0))) = Fin (Rpower (- ln u) (1 / a)) /\ 0 < - ln u).
    { intros u Hu. replace (0 + u * (1 - 0)) with u by ring. assert (P : 0 < - ln u) by (assert (Q := ln_lt0 u Hu); lra). split; [|auto].
      unfold Frechet.sample_of_draw, Frechet.al. cbn [Frechet.pr Frechet.alpha Frechet.new_unchecked]. xs. reflexivity. }
    apply (from_uniform Pr 0 p_infty G (Frechet.sample_of_draw (Frechet.new_unchecked (Fin a))) (draw_uniform_inclusive (Fin 0) (Fin 1)) 0 1); auto; try lra.
    - intros y Hy%in0f. rewrite EG by auto. assert (P := exp_pos (- Rpower y a)). assert (Q : 0 < Rpower y a) by pos. assert (M := exp_increasing (- Rpower y a) 0 ltac:(lra)). rewrite exp_0 in M. lra.
    - intros u Hu. destruct (ES u Hu) as [E _]. rewrite E. eauto.
    - intros y Hy%in0f. right. intros u Hu. destruct (ES u Hu) as [E P]. unfold rf at 1. rewrite E, EG by auto. cbn [val]. replace (1 - (1 - exp (- Rpower y a))) with (exp (- Rpower y a)) by ring.
      assert (EL : - ln u = Rpower (Rpower (- ln u) (1 / a)) a). { rewrite Rpower_mult. replace (1 / a * a) with 1 by (field; lra). now rewrite Rpower_1. }
      assert (PZ : 0 < Rpower (- ln u) (1 / a)) by pos. split; intros Q.
      + assert (R1 : - ln u <= Rpower y a). { rewrite EL. apply Rle_Rpower_l; lra. }
        apply Rle_trans with (exp (ln u)); [|rewrite exp_ln; lra]. apply exp_le_mono. lra.
      + apply Rnot_lt_le. intros N. assert (R1 : Rpower y a < - ln u). { rewrite EL. apply Rlt_Rpower_l; lra. }
        assert (R2 := exp_increasing (ln u) (- Rpower y a) ltac:(lra)). rewrite exp_ln in R2; lra. }
  split; [exact L|]. intros [_ L']. destruct L as [_ L]. assert (I1 : inside 0 p_infty 1) by (apply in0; lra). specialize (L 1 I1). specialize (L' 1 I1). cbv beta in L'. rewrite EG in L by lra.
  unfold rf in L'. rewrite f_cdf in L' by lra. cbn [val] in L'.
  assert (E1 : forall b, Rpower 1 b = 1) by (intros b; unfold Rpower; rewrite ln_1, Rmult_0_r; apply exp_0). rewrite !E1 in L, L'.
  assert (P := exp_pos (- (1))). assert (M := exp_increasing (- (1)) 0 ltac:(lra)). rewrite exp_0 in M.
  assert (P1 : 0 <= 1 - exp (- (1))) by lra. assert (P2 : 0 <= exp (- (1))) by lra. assert (Q := HF _ _ _ P1 P2 L L').
  assert (X : exp 1 = 2). { rewrite exp_Ropp in Q. assert (0 < exp 1) by apply exp_pos. assert (H2 : / exp 1 = 1 / 2) by lra. replace (exp 1) with (/ / exp 1) by (apply Rinv_inv). rewrite H2. lra. }
  assert (Y := exp_ineq1 1 ltac:(lra)). lra.
Qed.
Print Assumptions C127_frechet_refuted.
Example C127_nonvacuous : extensional Pr0 /\ (forall a b, a < b -> uniform_draw Pr0 a b (draw_uniform_inclusive (Fin a) (Fin b))) /\
  (forall a b, a < b -> uniform_draw Pr0 a b (draw_uniform (Fin a) (Fin b))) /\ (exists d, UniformF.new (Fin 1) (Fin 2) = Ok d) /\ (exists d, Laplace.new (Fin 1) (Fin 2) = Ok d).
Proof.
  split; [exact Pr0_ext|]. split; [exact aff_uniform|]. split; [exact aff_uniform|]. split; [eexists; apply uniform_new_ok; lra|]. eexists. unfold Laplace.new. ok_new.
Qed.
