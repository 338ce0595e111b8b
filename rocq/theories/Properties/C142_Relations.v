(** * Properties C142, C143: families that are special cases or transforms of one another agree *)
From Coq Require Import Reals Lra Lia Psatz List ZArith.
From Coquelicot Require Import Coquelicot.
From Verif.Num Require Import Scalar XReal.
From Verif.Model Require Import Rust Constraints Probability Params Consts Traits Continuous Continuous2 Continuous3.
From Verif.Spec Require Import DistSpec GammaSpec ResSpec.
From Verif.Proofs Require Import ConstraintProofs NewInv XTac Calc Calc2 Gauss Gauss2 Improper GammaFun Mellin Subst Oracle
  ContProofs1 ContProofs2 ContProofs3 ContProofs4 ContProofs5 ContProofs8 ContProofs9 ContProofs10 ContProofs11 ContProofs12 ContProofs13 ContProofs14 ContProofs15 ContProofs18 ContProofs20 ContProofs24 ContProofs32 DiscProofs4.
Import ListNotations.
Open Scope R_scope.

(** ** C142: special cases *)
Lemma prob_ext (p q : Probability xreal) : unwrap p = unwrap q -> p = q.
Proof. destruct p, q. cbn. now intros ->. Qed.

(** Exponential(l) = Gamma(1, l) = Weibull(1/l, 1) = Erlang(1, l) *)
Theorem C142_exponential (SP : Special xreal) (l : R) (e : Exponential.t xreal) (g : Gamma.t xreal) (w : Weibull.Params xreal) :
  gamma_exact SP -> Exponential.new (Fin l) = Ok e -> Gamma.new (Fin 1) (Fin l) = Ok g -> Weibull.p_new (Fin (/ l)) (Fin 1) = Ok w ->
  (forall x, 0 < x -> Gamma.pdf g (Fin x) = Exponential.pdf e (Fin x) /\
    Weibull.pdf (Weibull.from w) (Fin x) = Exponential.pdf e (Fin x) /\ Weibull.cdf (Weibull.from w) (Fin x) = Exponential.cdf e (Fin x)) /\
  Gamma.mean g = Exponential.mean e /\ Weibull.mean (Weibull.from w) = Exponential.mean e /\ Gamma.variance g = Exponential.variance e /\ Weibull.median (Weibull.from w) = Exponential.median e /\
  Gamma.skewness g = Exponential.skewness e /\ Gamma.excess_kurtosis g = Exponential.excess_kurtosis e.
Proof.
  intros Hg H1 H2 H3. unfold Exponential.new in H1. unfold Gamma.new in H2. unfold Weibull.p_new in H3. inv_new H1. inv_new H2. inv_new H3.
  change (Exponential.mk _) with (Exponential.new_unchecked (Fin l)). change (Gamma.mk _) with (Gamma.new_unchecked (Fin 1) (Fin l)).
  assert (L : 0 < l) by lra. assert (E0 : forall x, x / / l = l * x) by (intros; field; lra). split.
  { intros x Hx. assert (X : 0 < l * x) by pos. split; [|split].
    - rewrite (ga_pdf Hg 1 l) by first [lra | now apply in0]. rewrite e_pdf. f_equal. unfold ga_u. rewrite Gam_1, Rpower_1 by lra. replace (1 - 1) with 0 by ring. rewrite Rpower_O by lra. field.
    - rewrite w_pdf by first [lra | apply Rinv_0_lt_compat; lra]. rewrite e_pdf. f_equal. rewrite !E0. replace (1 - 1) with 0 by ring. rewrite Rpower_O, Rpower_1 by auto. field; lra.
    - apply prob_ext.
      rewrite w_cdf by first [lra | apply Rinv_0_lt_compat; lra]. rewrite e_cdf. rewrite !E0. now rewrite Rpower_1 by auto. }
  assert (IL : 0 < / l) by (apply Rinv_0_lt_compat; lra).
  split; [|split; [|split; [|split; [|split]]]].
  - unfold Gamma.mean, Exponential.mean, Exponential.lam. cbn. reflexivity.
  - unfold Weibull.mean, Weibull.gamma_i. cbn [Weibull.from Weibull.pr Weibull.k Weibull.lambda]. unfold Exponential.mean, Exponential.lam. cbn [Exponential.new_unchecked Exponential.pr Exponential.lambda]. xs. rewrite sfg by first [exact Hg | lra]. xs. f_equal.
    replace (1 + 1 / 1) with (1 + 1) by field. rewrite (Gam_rec 1) by lra. rewrite Gam_1. field. lra.
  - reflexivity.
  - unfold Weibull.median, Exponential.median, Exponential.mean, Exponential.lam. cbn [Weibull.from Weibull.pr Exponential.new_unchecked Exponential.pr Exponential.lambda]. assert (P := ln2_pos). xs. f_equal. replace (1 / 1) with 1 by field. rewrite Rpower_1 by auto. field. lra.
  - unfold Gamma.skewness, Exponential.skewness. cbn [Gamma.new_unchecked Gamma.pr Gamma.alpha]. assert (0 <= 1) by lra. xs. rewrite sqrt_1. xs. f_equal. field.
  - unfold Gamma.excess_kurtosis, Exponential.excess_kurtosis. cbn [Gamma.new_unchecked Gamma.pr Gamma.alpha]. xs. f_equal. field.
Qed.
Print Assumptions C142_exponential.

(** ChiSq(k) = Gamma(k/2, 1/2) *)
Theorem C142_chi_squared (SP : Special xreal) (k : Z) (c : ChiSq.t) (g : Gamma.t xreal) :
  gamma_exact SP -> ChiSq.new (F := xreal) k = Ok c -> Gamma.new (Fin (IZR k / 2)) (Fin (1 / 2)) = Ok g ->
  (forall x, 0 < x -> ChiSq.pdf c (Fin x) = Gamma.pdf g (Fin x)) /\ (forall x : R, ChiSq.cdf c (Fin x) = Gamma.cdf g (Fin x)) /\
  ChiSq.mean c = Gamma.mean g /\ ChiSq.skewness c = Gamma.skewness g /\ ChiSq.excess_kurtosis c = Gamma.excess_kurtosis g /\
  ((2 * k <= U64_MAX)%Z -> ChiSq.variance c = Ret (Gamma.variance g)).
Proof.
  intros Hg H1 H2. unfold ChiSq.new in H1. unfold Gamma.new in H2. inv_new H1. inv_new H2. change (ChiSq.mk _) with (ChiSq.new_unchecked k). change (Gamma.mk _) with (Gamma.new_unchecked (Fin (IZR k / 2)) (Fin (1 / 2))).
  assert (K : 0 < IZR k) by lra. split; [|split; [|split; [|split; [|split]]]].
  - intros x Hx. rewrite (cs_pdf Hg k ltac:(lia)) by now apply in0. rewrite (ga_pdf Hg) by first [lra | now apply in0]. f_equal. f_equal. field.
  - intros x. unfold ChiSq.cdf, Gamma.cdf, ChiSq.kf. cbn [ChiSq.new_unchecked ChiSq.pr ChiSq.k Gamma.new_unchecked Gamma.pr Gamma.alpha Gamma.beta]. xs. replace (1 / 2 * x) with (x / 2) by field. reflexivity.
  - unfold ChiSq.mean, Gamma.mean, ChiSq.kf. cbn [ChiSq.new_unchecked ChiSq.pr ChiSq.k Gamma.new_unchecked Gamma.pr Gamma.alpha Gamma.beta]. xs. f_equal. field.
  - unfold ChiSq.skewness, Gamma.skewness, ChiSq.kf. cbn [ChiSq.new_unchecked ChiSq.pr ChiSq.k Gamma.new_unchecked Gamma.pr Gamma.alpha Gamma.beta]. assert (0 < 8 / IZR k) by pos. assert (0 < IZR k / 2) by lra. assert (0 < sqrt (IZR k / 2)) by pos. xs. f_equal.
    assert (Q1 := sqrt_sqrt (IZR k / 2) ltac:(lra)). replace (8 / IZR k) with ((2 / sqrt (IZR k / 2)) * (2 / sqrt (IZR k / 2))); [apply sqrt_square; pos|]. set (s := sqrt (IZR k / 2)) in *. replace (IZR k) with (2 * (s * s)) by lra. field. lra.
  - unfold ChiSq.excess_kurtosis, Gamma.excess_kurtosis, ChiSq.kf. cbn [ChiSq.new_unchecked ChiSq.pr ChiSq.k Gamma.new_unchecked Gamma.pr Gamma.alpha Gamma.beta]. xs. f_equal. field. lra.
  - intros L. unfold ChiSq.variance, Gamma.variance. cbn [ChiSq.new_unchecked ChiSq.pr ChiSq.k Gamma.new_unchecked Gamma.pr Gamma.alpha Gamma.beta]. rewrite u64_ok by lia. cbn [rbind]. xs. do 2 f_equal. rewrite mult_IZR. field.
Qed.
Print Assumptions C142_chi_squared.

Lemma pw2 y : 0 < y -> Rpower y 2 = y * y.
Proof. intros H. replace 2 with (1 + 1) by ring. now rewrite Rpower_plus, Rpower_1 by auto. Qed.
(** Rayleigh(s) = Weibull(s sqrt 2, 2), as densities and in mean, median and variance *)
Theorem C142_rayleigh (SP : Special xreal) (s : R) (r : Rayleigh.t xreal) (w : Weibull.Params xreal) :
  Rayleigh.new (Fin s) = Ok r -> Weibull.p_new (Fin (s * sqrt 2)) (Fin 2) = Ok w ->
  (forall x, 0 < x -> Rayleigh.pdf r (Fin x) = Weibull.pdf (Weibull.from w) (Fin x)) /\ Rayleigh.median r = Weibull.median (Weibull.from w) /\ (gamma_exact SP -> Rayleigh.mean r = Weibull.mean (Weibull.from w)).
Proof.
  intros H1 H2. unfold Rayleigh.new in H1. unfold Weibull.p_new in H2. inv_new H1. inv_new H2. change (Rayleigh.mk _) with (Rayleigh.new_unchecked (Fin s)).
  assert (Q := sqrt_sqrt 2 ltac:(lra)). assert (Q0 : 0 < sqrt 2) by (apply sqrt_lt_R0; lra). set (q := sqrt 2) in *. split; [|split].
  - intros x Hx. rewrite ra_pdf by auto. rewrite w_pdf by first [assumption | lra]. f_equal. assert (X : 0 < x / (s * q)) by pos. replace (2 - 1) with 1 by ring. rewrite Rpower_1 by auto.
    rewrite (pw2 _ X). replace (x / (s * q) * (x / (s * q))) with (x * x / (s * s) / 2). 2:{ transitivity (x * x / (s * s * (q * q))); [rewrite Q|]; field; lra. }
    unfold rg. replace (2 / (s * q) * (x / (s * q))) with (x / (s * s)). 2:{ transitivity (2 * x / (s * s * (q * q))); [rewrite Q|]; field; lra. } f_equal. f_equal. field. lra.
  - unfold Rayleigh.median, Weibull.median. cbn [Rayleigh.new_unchecked Rayleigh.pr Rayleigh.sigma Weibull.from Weibull.pr]. assert (P := ln2_pos). assert (0 < 2 * ln 2) by lra. xs. f_equal. rewrite sqrt_mult by lra. replace (1 / 2) with (/ 2) by field. rewrite Rpower_sqrt by auto. fold q. ring.
  - intros Hg. unfold Rayleigh.mean, Weibull.mean, Weibull.gamma_i, PI_OVER_2. cbn [Rayleigh.new_unchecked Rayleigh.pr Rayleigh.sigma Weibull.from Weibull.pr Weibull.lambda Weibull.k]. assert (P := PI_RGT_0). assert (0 < PI / 2) by lra. xs. rewrite sfg by first [exact Hg | lra]. xs. f_equal.
    replace (1 + 1 / 2) with (1 / 2 + 1) by field. rewrite Gam_rec, Gam_half by lra. rewrite Rmult_assoc. f_equal. replace (PI / 2) with ((q * (1 / 2 * sqrt PI)) * (q * (1 / 2 * sqrt PI))); [apply sqrt_square; apply Rmult_le_pos; [lra|]; generalize (sqrt_pos PI); lra|].
    transitivity ((q * q) * (sqrt PI * sqrt PI) / 4); [field|]. rewrite Q, sqrt_sqrt by lra. field.
Qed.
Print Assumptions C142_rayleigh.

(** Arcsine(0, 1) = Beta(1/2, 1/2); Uniform(0, 1) = Beta(1, 1); Kumaraswamy(a, 1) = Beta(a, 1), Kumaraswamy(1, b) = Beta(1, b) *)
Lemma Bet_1r a : 0 < a -> Bet a 1 = / a.
Proof.
  intros Ha. assert (E := Beta_Gamma a 1 Ha ltac:(lra)). rewrite (Gam_rec a), Gam_1 in E by lra. assert (G := Gam_pos a Ha). apply (Rmult_eq_reg_r (a * Gam a)); [rewrite E; field; lra|]. apply Rgt_not_eq, Rmult_lt_0_compat; lra.
Qed.
Theorem C142_unit_interval (SP : Special xreal) (a b : R) (ar : Arcsine.t xreal) (un : UniformF.t xreal) (k1 k2 : Kumaraswamy.Params xreal) (bh b11 ba1 b1b : Beta.t xreal) :
  beta_exact SP -> Arcsine.new (Fin 0) (Fin 1) = Ok ar -> Beta.new (Fin (1 / 2)) (Fin (1 / 2)) = Ok bh ->
  UniformF.new (Fin 0) (Fin 1) = Ok un -> Beta.new (Fin 1) (Fin 1) = Ok b11 ->
  Kumaraswamy.p_new (Fin a) (Fin 1) = Ok k1 -> Beta.new (Fin a) (Fin 1) = Ok ba1 ->
  Kumaraswamy.p_new (Fin 1) (Fin b) = Ok k2 -> Beta.new (Fin 1) (Fin b) = Ok b1b ->
  forall x, 0 < x < 1 -> Arcsine.pdf ar (Fin x) = Beta.pdf bh (Fin x) /\ UniformF.pdf un (Fin x) = Beta.pdf b11 (Fin x) /\
    Kumaraswamy.pdf (Kumaraswamy.from k1) (Fin x) = Beta.pdf ba1 (Fin x) /\ Kumaraswamy.pdf (Kumaraswamy.from k2) (Fin x) = Beta.pdf b1b (Fin x).
Proof.
  intros Hb H1 H2 H3 H4 H5 H6 H7 H8 x Hx. unfold Arcsine.new in H1. unfold Beta.new in *. unfold Kumaraswamy.p_new in *. apply uniform_new_inv in H3 as [_ ->].
  inv_new H1. inv_new H2. inv_new H4. inv_new H5. inv_new H6. inv_new H7. inv_new H8.
  change (Arcsine.mk _) with (Arcsine.new_unchecked (Fin 0) (Fin 1)). repeat match goal with |- context [Beta.mk (Beta.mkP ?a ?b)] => change (Beta.mk (Beta.mkP a b)) with (Beta.new_unchecked a b) end.
  assert (IX : inside 0 1 x) by (now apply in01). rewrite !(be_pdf Hb) by first [exact IX | lra]. unfold be_u, beta_h. split; [|split; [|split]].
  - rewrite as_pdf by first [lra | split; cbn; lra]. f_equal. rewrite Bet_half_half. replace (1 / 2 - 1) with (- / 2) by field. rewrite !Rpower_Ropp, !Rpower_sqrt by lra. assert (P := PI_RGT_0). assert (0 < sqrt x) by (apply sqrt_lt_R0; lra). assert (0 < sqrt (1 - x)) by (apply sqrt_lt_R0; lra).
    replace ((x - 0) * (0 + 1 - x)) with (x * (1 - x)) by ring. rewrite sqrt_mult by lra. field. repeat split; lra.
  - rewrite u_pdf by lra. f_equal. rewrite Bet_1r by lra. replace (1 - 1) with 0 by ring. rewrite !Rpower_O by lra. field.
  - rewrite k_pdf by lra. f_equal. rewrite Bet_1r by lra. replace (1 - 1) with 0 by ring. assert (A : 0 < 1 - Rpower x a) by (generalize (k_pow a ltac:(lra) x Hx); lra). rewrite !Rpower_O by lra. field. lra.
  - rewrite k_pdf by lra. f_equal. rewrite Bet_sym, Bet_1r by lra. rewrite (Rpower_1 x) by lra. replace (1 - 1) with 0 by ring. rewrite !Rpower_O by lra. field. lra.
Qed.
Print Assumptions C142_unit_interval.

(** Pareto(xm, a) = GPD(xm, xm/a, 1/a); Frechet(a) = GEV(1, 1/a, 1/a) *)
Theorem C142_extremes (xm a : R) (p : Pareto.t xreal) (g : GPD.t xreal) (f : Frechet.t xreal) (e : GEV.t xreal) :
  0 < xm -> Pareto.new (Fin xm) (Fin a) = Ok p -> GPD.new (Fin xm) (Fin (xm / a)) (Fin (1 / a)) = Ok g ->
  Frechet.new (Fin a) = Ok f -> GEV.new (Fin 1) (Fin (1 / a)) (Fin (1 / a)) = Ok e ->
  (forall x, xm <= x -> Pareto.pdf p (Fin x) = GPD.pdf g (Fin x) /\ Pareto.cdf p (Fin x) = GPD.cdf g (Fin x)) /\
  Pareto.median p = GPD.median g /\
  (/ 10000000 <= 1 / a -> (forall x, 0 < x -> Frechet.pdf f (Fin x) = GEV.pdf e (Fin x) /\ Frechet.cdf f (Fin x) = GEV.cdf e (Fin x)) /\ Frechet.median f = GEV.median e).
Proof.
  intros Hx H1 H2 H3 H4. unfold Pareto.new in H1. unfold GPD.new in H2. unfold Frechet.new in H3. unfold GEV.new in H4. inv_new H1. inv_new H2. inv_new H3. inv_new H4.
  assert (Ha : 0 < a) by assumption. assert (Hi : 0 < 1 / a) by assumption. assert (Hs : 0 < xm / a) by assumption.
  change (Pareto.mk _) with (Pareto.new_unchecked (Fin xm) (Fin a)). change (GPD.mk _) with (GPD.new_unchecked (Fin xm) (Fin (xm / a)) (Fin (1 / a))).
  change (Frechet.mk _) with (Frechet.new_unchecked (Fin a)). change (GEV.mk _) with (GEV.new_unchecked (Fin 1) (Fin (1 / a)) (Fin (1 / a))).
  split; [|split].
  - intros x Hxx. assert (W : 1 + 1 / a * ((x - xm) / (xm / a)) = x / xm) by (field; lra). assert (W0 : 0 < x / xm) by (apply Rdiv_lt_0_compat; lra).
    assert (E : - 1 / (1 / a) = - a) by (field; lra). split.
    + rewrite p_pdf by lra. rewrite gpd_pdf by (rewrite ?W; lra). f_equal. rewrite W, E. rewrite Rpower_div_base by lra.
      replace (Rpower xm (- a - 1)) with (/ (Rpower xm a * xm)). 2:{ replace (- a - 1) with (- (a + 1)) by ring. rewrite Rpower_Ropp, Rpower_plus, Rpower_1 by lra. reflexivity. }
      assert (0 < Rpower xm a) by apply exp_pos. field. lra.
    + apply prob_ext. rewrite p_cdf by lra. rewrite gpd_cdf by (rewrite ?W; lra). f_equal. rewrite W, E. rewrite Rpower_div_base by lra. rewrite (Rpower_Ropp xm). assert (0 < Rpower xm a) by apply exp_pos. field. lra.
  - unfold Pareto.median, GPD.median. cbn [Pareto.new_unchecked Pareto.pr GPD.new_unchecked GPD.pr]. xs. f_equal. field. lra.
  - intros HT. split.
    + intros x Hxx. assert (W : 1 + 1 / a * ((x - 1) / (1 / a)) = x) by (field; lra). assert (E : - 1 / (1 / a) = - a) by (field; lra). split.
      * rewrite f_pdf by lra. rewrite gev_pdf by (rewrite ?W; lra). f_equal. rewrite W, E. rewrite Rpower_mult. replace (- a * (1 / a + 1)) with (- 1 - a) by (field; lra). field. lra.
      * apply prob_ext. rewrite f_cdf by lra. rewrite gev_cdf by (rewrite ?W; lra). now rewrite W, E.
    + assert (P := ln2_pos). unfold Frechet.median, GEV.median, Frechet.al, GEV.TOL. cbn [Frechet.new_unchecked Frechet.pr Frechet.alpha GEV.new_unchecked GEV.pr]. xs. rewrite Rltb_false by (rewrite Rabs_right; lra). xs. assert (0 < Rpower (ln 2) (1 / a)) by apply exp_pos. xs. f_equal. rewrite Rpower_Ropp. field. split; lra.
Qed.
Print Assumptions C142_extremes.

(** Levy(0, c) = InvGamma(1/2, c/2); Cauchy(0, 1) = StudentT(1) *)
Theorem C142_heavy_tails (SP : Special xreal) (c : R) (l : Levy.t xreal) (i : InvGamma.t xreal) (ca : Cauchy.t xreal) (t : StudentT.t xreal) :
  gamma_exact SP -> beta_exact SP -> Levy.new (Fin 0) (Fin c) = Ok l -> InvGamma.new (Fin (1 / 2)) (Fin (c / 2)) = Ok i ->
  Cauchy.new (Fin 0) (Fin 1) = Ok ca -> StudentT.new (Fin 1) = Ok t ->
  (forall x, 0 < x -> Levy.pdf l (Fin x) = InvGamma.pdf i (Fin x)) /\ (forall x : R, Cauchy.pdf ca (Fin x) = StudentT.pdf t (Fin x)).
Proof.
  intros Hg Hb H1 H2 H3 H4. unfold Levy.new in H1. unfold InvGamma.new in H2. unfold Cauchy.new in H3. unfold StudentT.new in H4. inv_new H1. inv_new H2. inv_new H3. inv_new H4.
  change (Levy.mk _) with (Levy.new_unchecked (Fin 0) (Fin c)). change (InvGamma.mk _) with (InvGamma.new_unchecked (Fin (1 / 2)) (Fin (c / 2))).
  change (Cauchy.mk _) with (Cauchy.new_unchecked (Fin 0) (Fin 1)). change (StudentT.mk _) with (StudentT.new_unchecked (Fin 1)). assert (P := PI_RGT_0). split.
  - intros x Hx. rewrite lv_pdf by first [lra | split; cbn; auto]. rewrite (ig_pdf Hg) by first [lra | now apply in0]. f_equal. unfold lvg, ig_u. rewrite Gam_half. rewrite Rminus_0_r.
    replace (- (1 / 2) - 1) with (- (3 / 2)) by field. rewrite (Rpower_Ropp x (3 / 2)). replace (1 / 2) with (/ 2) by field. rewrite Rpower_sqrt by lra.
    assert (Q : sqrt (c / 2 / PI) = sqrt (c / 2) / sqrt PI) by (apply sqrt_div; lra).
    rewrite Q. replace (- (c / 2) / x) with (- (c / 2 / x)) by (field; lra). assert (0 < Rpower x (3 / 2)) by apply exp_pos. assert (0 < sqrt PI) by (apply sqrt_lt_R0; lra). field. lra.
  - intros x. rewrite c_pdf by lra. rewrite st_pdf by first [exact Hg | exact Hb | lra]. f_equal. unfold st_u. replace ((1 + 1) / 2) with 1 by field. rewrite Bet_half_half, Rpower_1_base, Rpower_Ropp. assert (0 <= x * x) by apply Rle_0_sqr. rewrite Rpower_1 by lra. rewrite !Rminus_0_r. field. lra.
Qed.
Print Assumptions C142_heavy_tails.

Example C142_nonvacuous : gamma_exact (exact false) /\ beta_exact (exact false) /\ (exists d, Exponential.new (Fin 3) = Ok d) /\ (exists d, Gamma.new (Fin 1) (Fin 3) = Ok d) /\ (exists d, Weibull.p_new (Fin (/ 3)) (Fin 1) = Ok d) /\
  (exists d, ChiSq.new (F := xreal) 5 = Ok d) /\ (exists d, Gamma.new (Fin (5 / 2)) (Fin (1 / 2)) = Ok d) /\ (exists d, Rayleigh.new (Fin 2) = Ok d) /\
  (exists d, Arcsine.new (Fin 0) (Fin 1) = Ok d) /\ (exists d, Beta.new (Fin (1 / 2)) (Fin (1 / 2)) = Ok d) /\ (exists d, Kumaraswamy.p_new (Fin 1) (Fin 3) = Ok d) /\
  (exists d, Pareto.new (Fin 2) (Fin 3) = Ok d) /\ (exists d, GPD.new (Fin 2) (Fin (2 / 3)) (Fin (1 / 3)) = Ok d) /\ (exists d, Frechet.new (Fin 3) = Ok d) /\ (exists d, GEV.new (Fin 1) (Fin (1 / 3)) (Fin (1 / 3)) = Ok d) /\
  (exists d, Levy.new (Fin 0) (Fin 5) = Ok d) /\ (exists d, InvGamma.new (Fin (1 / 2)) (Fin (5 / 2)) = Ok d) /\ (exists d, Cauchy.new (Fin 0) (Fin 1) = Ok d) /\ exists d, StudentT.new (Fin 1) = Ok d.
Proof.
  split; [apply ex_gamma|]. split; [apply ex_beta|].
  repeat (split; [eexists; unfold Exponential.new, Gamma.new, Weibull.p_new, ChiSq.new, Rayleigh.new, Arcsine.new, Beta.new, Kumaraswamy.p_new, Pareto.new, GPD.new, Frechet.new, GEV.new, Levy.new, InvGamma.new, Cauchy.new; ok_new|]).
  eexists; unfold StudentT.new; ok_new.
Qed.
