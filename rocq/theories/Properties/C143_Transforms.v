(** * Property C143: distributions of transformed variables *)
From Coq Require Import Reals Lra Lia Psatz List ZArith.
From Coquelicot Require Import Coquelicot.
From Verif.Num Require Import Scalar XReal.
From Verif.Model Require Import Rust Constraints Probability Params Consts Traits Continuous Continuous2 Continuous3.
From Verif.Spec Require Import DistSpec GammaSpec ResSpec.
From Verif.Proofs Require Import ConstraintProofs NewInv XTac Calc Calc2 Gauss Gauss2 Improper GammaFun Mellin Subst Oracle
  ContProofs1 ContProofs2 ContProofs3 ContProofs4 ContProofs5 ContProofs8 ContProofs9 ContProofs10 ContProofs11 ContProofs12 ContProofs13 ContProofs14 ContProofs15 ContProofs18 ContProofs20 ContProofs24 ContProofs32.
From Verif.Properties Require Import C142_Relations.
Import ListNotations.
Open Scope R_scope.

(** the change of variables formula: where [X = psi Y] with [psi] one-to-one, the density of Y is |psi'| times that of X at psi *)
Definition density_of_image (P : R -> Prop) (psi : R -> R) (fX fY : xreal -> xreal) : Prop :=
  forall y, P y -> exists j, is_derive psi y j /\ returns (fX (Fin (psi y))) (fun f => fY (Fin y) = Fin (f * Rabs j)).
Definition positive (y : R) : Prop := 0 < y.
Definition unit (y : R) : Prop := 0 < y < 1.
Definition everywhere (y : R) : Prop := True.

Lemma image_intro (P : R -> Prop) psi fX fY : (forall y, P y -> exists j v, is_derive psi y j /\ fX (Fin (psi y)) = Fin v /\ fY (Fin y) = Fin (v * Rabs j)) -> density_of_image P psi fX fY.
Proof. intros H y Hy. destruct (H y Hy) as (j & v & A & B & C). exists j. split; [exact A|]. exists v. now split. Qed.
Lemma d_inv y : 0 < y -> is_derive (fun y => / y) y (- / (y * y)).
Proof. intros H. auto_derive; [lra|]. field. lra. Qed.
Lemma abs_inv y : 0 < y -> Rabs (- / (y * y)) = / (y * y).
Proof. intros H. rewrite Rabs_Ropp, Rabs_right; [reflexivity|]. apply Rle_ge, Rlt_le, Rinv_0_lt_compat. nra. Qed.
Lemma pw_inv y c : 0 < y -> Rpower (/ y) c = Rpower y (- c).
Proof. intros H. unfold Rpower. rewrite ln_Rinv by auto. f_equal. ring. Qed.

(** 1 / Gamma(a, b) is InvGamma(a, b); a scaled Gamma is a Gamma *)
Theorem C143_gamma (SP : Special xreal) (a b : R) (g g1 : Gamma.t xreal) (i : InvGamma.t xreal) :
  gamma_exact SP -> Gamma.new (Fin a) (Fin b) = Ok g -> Gamma.new (Fin a) (Fin 1) = Ok g1 -> InvGamma.new (Fin a) (Fin b) = Ok i ->
  density_of_image positive (fun y => / y) (Gamma.pdf g) (InvGamma.pdf i) /\ density_of_image positive (fun y => b * y) (Gamma.pdf g1) (Gamma.pdf g).
Proof.
  intros Hg H1 H2 H3. unfold Gamma.new in *. unfold InvGamma.new in H3. inv_new H1. inv_new H2. inv_new H3.
  change (Gamma.mk (Gamma.mkP (Fin a) (Fin b))) with (Gamma.new_unchecked (Fin a) (Fin b)). change (Gamma.mk (Gamma.mkP (Fin a) (Fin 1))) with (Gamma.new_unchecked (Fin a) (Fin 1)). change (InvGamma.mk _) with (InvGamma.new_unchecked (Fin a) (Fin b)).
  assert (Ha : 0 < a) by assumption. assert (Hb : 0 < b) by assumption. assert (G := Gam_pos a Ha). split; apply image_intro; intros y Hy; unfold positive in Hy.
  - exists (- / (y * y)), (ga_u a b (/ y)). split; [now apply d_inv|]. split; [apply (ga_pdf Hg); auto; apply in0, Rinv_0_lt_compat, Hy|]. rewrite (ig_pdf Hg) by first [assumption | now apply in0]. f_equal. rewrite abs_inv by auto. unfold ig_u, ga_u.
    rewrite pw_inv by auto. replace (- a - 1) with (- (a - 1) + - (1 + 1)) by ring. rewrite Rpower_plus, (Rpower_Ropp y (1 + 1)), (Rpower_plus 1 1), Rpower_1 by auto. unfold Rdiv. ring.
  - exists b, (ga_u a 1 (b * y)). split; [auto_derive; auto; ring|]. split; [apply (ga_pdf Hg); first [assumption | lra | apply in0; now apply Rmult_lt_0_compat]|]. rewrite (ga_pdf Hg) by first [assumption | now apply in0]. f_equal. rewrite Rabs_right by lra. unfold ga_u.
    rewrite Rpower_1_base, <- (Rpower_mult_distr b y) by auto. replace (Rpower b a) with (Rpower b (a - 1) * b). 2:{ replace a with ((a - 1) + 1) at 2 by ring. rewrite Rpower_plus, Rpower_1 by auto. reflexivity. } replace (1 * (b * y)) with (b * y) by ring. field. lra.
Qed.
Print Assumptions C143_gamma.

(** odds of a Beta(a, b) variable are BetaPrime(a, b); reflecting Beta swaps its parameters *)
Theorem C143_beta (SP : Special xreal) (a b : R) (be be' : Beta.t xreal) (bp : BetaPrime.t xreal) :
  beta_exact SP -> Beta.new (Fin a) (Fin b) = Ok be -> Beta.new (Fin b) (Fin a) = Ok be' -> BetaPrime.new (Fin a) (Fin b) = Ok bp ->
  density_of_image positive (fun y => y / (1 + y)) (Beta.pdf be) (BetaPrime.pdf bp) /\ density_of_image unit (fun y => 1 - y) (Beta.pdf be) (Beta.pdf be').
Proof.
  intros Hg H1 H2 H3. unfold Beta.new in *. unfold BetaPrime.new in H3. inv_new H1. inv_new H2. inv_new H3.
  change (Beta.mk (Beta.mkP (Fin a) (Fin b))) with (Beta.new_unchecked (Fin a) (Fin b)). change (Beta.mk (Beta.mkP (Fin b) (Fin a))) with (Beta.new_unchecked (Fin b) (Fin a)). change (BetaPrime.mk _) with (BetaPrime.new_unchecked (Fin a) (Fin b)).
  assert (Ha : 0 < a) by assumption. assert (Hb : 0 < b) by assumption. assert (G := Bet_pos a b Ha Hb). split; apply image_intro; intros y Hy; unfold positive, unit in Hy.
  - exists (/ ((1 + y) * (1 + y))), (be_u a b (y / (1 + y))). split; [auto_derive; [lra|field; lra]|].
    assert (Q : 0 < y / (1 + y)) by (apply Rdiv_lt_0_compat; lra). assert (E : 1 - y / (1 + y) = 1 / (1 + y)) by (field; lra). assert (Q1 : 0 < 1 / (1 + y)) by (apply Rdiv_lt_0_compat; lra).
    split; [apply (be_pdf Hg); auto; apply in01; lra|]. rewrite (bp_pdf Hg) by first [assumption | now apply in0]. f_equal.
    rewrite bp_u by auto. unfold be_u, beta_h. rewrite E. rewrite (Rpower_div_base y), (Rpower_div_base 1), Rpower_1_base by lra. rewrite Rabs_right by (apply Rle_ge, Rlt_le, Rinv_0_lt_compat; nra).
    replace (- a - b) with (- ((a - 1) + (b - 1) + (1 + 1))) by ring. rewrite Rpower_Ropp, !(Rpower_plus), Rpower_1 by lra. assert (0 < Rpower (1 + y) (a - 1)) by apply exp_pos. assert (0 < Rpower (1 + y) (b - 1)) by apply exp_pos. field. repeat split; lra.
  - exists (- (1)), (be_u a b (1 - y)). split; [auto_derive; auto; ring|]. split; [apply (be_pdf Hg); auto; apply in01; lra|]. rewrite (be_pdf Hg) by first [assumption | apply in01; lra]. f_equal.
    rewrite Rabs_Ropp, Rabs_R1. unfold be_u, beta_h. rewrite (Bet_sym b a) by auto. replace (1 - (1 - y)) with y by ring. ring.
Qed.
Print Assumptions C143_beta.

(** F(d1, d2): d2/d1 times the odds BetaPrime(d1/2, d2/2); its reciprocal is F(d2, d1) *)
Theorem C143_f (SP : Special xreal) (n1 n2 : Z) (f f' : FDist.t) (bp : BetaPrime.t xreal) :
  beta_exact SP -> FDist.new (F := xreal) n1 n2 = Ok f -> FDist.new (F := xreal) n2 n1 = Ok f' -> BetaPrime.new (Fin (IZR n1 / 2)) (Fin (IZR n2 / 2)) = Ok bp ->
  density_of_image positive (fun y => IZR n1 / IZR n2 * y) (BetaPrime.pdf bp) (FDist.pdf f) /\ density_of_image positive (fun y => / y) (FDist.pdf f) (FDist.pdf f').
Proof.
  intros Hg H1 H2 H3. unfold FDist.new in *. unfold BetaPrime.new in H3. inv_new H1. inv_new H2. inv_new H3.
  change (FDist.mk (FDist.mkP n1 n2)) with (FDist.new_unchecked n1 n2). change (FDist.mk (FDist.mkP n2 n1)) with (FDist.new_unchecked n2 n1). change (BetaPrime.mk _) with (BetaPrime.new_unchecked (Fin (IZR n1 / 2)) (Fin (IZR n2 / 2))).
  assert (Z1 : (0 < n1)%Z) by lia. assert (Z2 : (0 < n2)%Z) by lia. assert (A : 0 < IZR n1) by (now apply IZR_lt). assert (B : 0 < IZR n2) by (now apply IZR_lt). set (p := IZR n1) in *. set (q := IZR n2) in *.
  assert (G := Bet_pos (p / 2) (q / 2) ltac:(lra) ltac:(lra)). split; apply image_intro; intros y Hy; unfold positive in Hy.
  - assert (PQ : 0 < p / q) by (apply Rdiv_lt_0_compat; lra). assert (QP : 0 < q / p) by (apply Rdiv_lt_0_compat; lra). exists (p / q), (od_u 1 (p / 2) (q / 2) (p / q * y)). split; [auto_derive; auto; ring|]. split; [apply (bp_pdf Hg); try lra; apply in0; now apply Rmult_lt_0_compat|].
    rewrite (fd_pdf Hg) by first [assumption | now apply in0]. f_equal. rewrite Rabs_right by lra. fold p q. unfold od_u. rewrite Rpower_1_base.
    replace (1 + p / q * y) with (p / q * (q / p + y)) by (field; lra). rewrite <- (Rpower_mult_distr (p / q) y), <- (Rpower_mult_distr (p / q) (q / p + y)) by lra.
    replace (q / p) with (/ (p / q)) at 1 by (field; lra). rewrite pw_inv by auto. replace (- (q / 2)) with ((p / 2 - 1) + (- (p / 2) - q / 2) + 1) by field. rewrite !Rpower_plus, (Rpower_1 (p / q)) by auto. field. lra.
  - assert (PQ : 0 < p / q) by (apply Rdiv_lt_0_compat; lra). assert (QP : 0 < q / p) by (apply Rdiv_lt_0_compat; lra). assert (IY : 0 < / y) by (apply Rinv_0_lt_compat; lra).
    exists (- / (y * y)), (od_u (q / p) (p / 2) (q / 2) (/ y)). split; [now apply d_inv|]. split; [apply (fd_pdf Hg); auto; now apply in0|]. rewrite (fd_pdf Hg) by first [assumption | now apply in0]. f_equal. rewrite abs_inv by auto. fold p q. unfold od_u.
    rewrite (Bet_sym (q / 2)) by lra. replace (q / p + / y) with ((q / p) * ((p / q + y) * / y)) by (field; lra). assert (0 < p / q + y) by lra. rewrite <- (Rpower_mult_distr (q / p)), <- (Rpower_mult_distr (p / q + y)) by first [assumption | now apply Rmult_lt_0_compat].
    rewrite !(pw_inv y) by auto. replace (q / p) with (/ (p / q)) by (field; lra). rewrite !(pw_inv (p / q)) by auto.
    replace (- (p / 2) - q / 2) with (- (q / 2) - p / 2) by ring. set (E := Rpower (p / q + y) (- (q / 2) - p / 2)).
    replace (Rpower (p / q) (p / 2)) with (Rpower (p / q) (- (q / 2)) * Rpower (p / q) (- (- (q / 2) - p / 2))) by (rewrite <- Rpower_plus; f_equal; ring).
    replace (Rpower y (q / 2 - 1)) with (Rpower y (- (p / 2 - 1)) * Rpower y (- (- (q / 2) - p / 2)) * / (y * y)); [unfold Rdiv; ring|].
    replace (/ (y * y)) with (Rpower y (- (1 + 1))) by (rewrite Rpower_Ropp, Rpower_plus, Rpower_1 by auto; reflexivity). rewrite <- !Rpower_plus. f_equal. field.
Qed.
Print Assumptions C143_f.

(** the square root of a chi-squared variable is Chi *)
Theorem C143_chi (SP : Special xreal) (k : Z) (c : Chi.t) (s : ChiSq.t) :
  gamma_exact SP -> Chi.new (F := xreal) k = Ok c -> ChiSq.new (F := xreal) k = Ok s -> density_of_image positive (fun y => y * y) (ChiSq.pdf s) (Chi.pdf c).
Proof.
  intros Hg H1 H2. unfold Chi.new in H1. unfold ChiSq.new in H2. inv_new H1. inv_new H2. change (Chi.mk _) with (Chi.new_unchecked k). change (ChiSq.mk _) with (ChiSq.new_unchecked k).
  assert (K : (0 < k)%Z) by lia. assert (K' : 0 < IZR k) by (now apply IZR_lt). apply image_intro. intros y Hy. unfold positive in Hy.
  exists (2 * y), (ga_u (IZR k / 2) (/ 2) (y * y)). split; [auto_derive; auto; ring|]. split; [apply (cs_pdf Hg k K); apply in0; nra|]. rewrite (ch_pdf Hg k K) by now apply in0. f_equal. rewrite Rabs_right by lra.
  unfold chi_u, chi_c, ga_u. assert (G := Gam_pos (IZR k / 2) ltac:(lra)). rewrite pw_inv by lra. rewrite <- Rpower_mult_distr by auto. replace (/ 2 * (y * y)) with (y * y / 2) by field.
  replace (IZR k - 1) with ((IZR k / 2 - 1) + (IZR k / 2 - 1) + 1) by field. rewrite !(Rpower_plus _ _ y), Rpower_1 by auto.
  rewrite (Rpower_Ropp 2). replace (Rpower 2 (IZR k / 2)) with (Rpower 2 (IZR k / 2 - 1) * 2). 2:{ replace (IZR k / 2) with ((IZR k / 2 - 1) + 1) at 2 by ring. rewrite Rpower_plus, Rpower_1 by lra. reflexivity. }
  assert (0 < Rpower 2 (IZR k / 2 - 1)) by apply exp_pos. field. lra.
Qed.
Print Assumptions C143_chi.

(** From an Exponential(1) variable E: (E)^(1/k) l is Weibull(l, k), m - g ln E is Gumbel(m, g), xm e^(E/a) is Pareto(xm, a); 1 / Weibull(1, a) is Frechet(a) *)
Theorem C143_exponential (m g l k xm a : R) (e1 ea : Exponential.t xreal) (gu : Gumbel.t xreal) (w w1 : Weibull.Params xreal) (p : Pareto.t xreal) (f : Frechet.t xreal) :
  Exponential.new (Fin 1) = Ok e1 -> Exponential.new (Fin a) = Ok ea -> Gumbel.new (Fin m) (Fin g) = Ok gu -> Weibull.p_new (Fin l) (Fin k) = Ok w -> 0 < xm -> Pareto.new (Fin xm) (Fin a) = Ok p ->
  Weibull.p_new (Fin 1) (Fin a) = Ok w1 -> Frechet.new (Fin a) = Ok f ->
  density_of_image positive (fun y => Rpower (y / l) k) (Exponential.pdf e1) (Weibull.pdf (Weibull.from w)) /\
  density_of_image everywhere (fun y => exp (- ((y - m) / g))) (Exponential.pdf e1) (Gumbel.pdf gu) /\
  density_of_image (fun y => xm < y) (fun y => ln (y / xm)) (Exponential.pdf ea) (Pareto.pdf p) /\
  density_of_image positive (fun y => / y) (Weibull.pdf (Weibull.from w1)) (Frechet.pdf f) /\
  (forall y, xm < y -> Pareto.cdf p (Fin y) = Exponential.cdf ea (Fin (ln (y / xm)))) /\
  (forall y, 0 < y -> Weibull.cdf (Weibull.from w) (Fin y) = Exponential.cdf e1 (Fin (Rpower (y / l) k))).
Proof.
  intros H1 H2 H3 H4 Hx H5 H6 H7. unfold Exponential.new in *. unfold Gumbel.new in H3. unfold Weibull.p_new in *. unfold Pareto.new in H5. unfold Frechet.new in H7.
  inv_new H1. inv_new H2. inv_new H3. inv_new H4. inv_new H5. inv_new H6. inv_new H7.
  change (Exponential.mk (Exponential.mkP (Fin 1))) with (Exponential.new_unchecked (Fin 1)). change (Exponential.mk (Exponential.mkP (Fin a))) with (Exponential.new_unchecked (Fin a)).
  change (Gumbel.mk _) with (Gumbel.new_unchecked (Fin m) (Fin g)). change (Pareto.mk _) with (Pareto.new_unchecked (Fin xm) (Fin a)). change (Frechet.mk _) with (Frechet.new_unchecked (Fin a)).
  assert (Hg : 0 < g) by assumption. assert (Hl : 0 < l) by assumption. assert (Hk : 0 < k) by assumption. assert (Ha : 0 < a) by assumption.
  split; [|split; [|split; [|split; [|split]]]]; [apply image_intro; intros y Hy; unfold positive in Hy..| |].
  - assert (Y : 0 < y / l) by (apply Rdiv_lt_0_compat; lra). assert (J : 0 < k / l * Rpower (y / l) (k - 1)) by (apply Rmult_lt_0_compat; [apply Rdiv_lt_0_compat; lra|apply exp_pos]).
    exists (k / l * Rpower (y / l) (k - 1)), (1 * exp (- (1 * Rpower (y / l) k))). split.
    { assert (D1 : is_derive (fun y => y / l) y (/ l)) by (auto_derive; auto; field; lra). assert (D2 : is_derive (fun t => Rpower t k) (y / l) (k * Rpower (y / l) (k - 1))) by (now apply is_derive_Rpower_l).
      assert (D := is_derive_comp (fun t => Rpower t k) (fun y => y / l) y _ _ D2 D1). revert D. apply is_derive_ext_eq. unfold scal; cbn; unfold mult; cbn. field. lra. }
    split; [apply e_pdf; lra|]. rewrite w_pdf by auto. f_equal. rewrite Rabs_right by lra. replace (- (1 * Rpower (y / l) k)) with (- Rpower (y / l) k) by ring. ring.
  - clear Hy. exists (- (/ g * exp (- ((y - m) / g)))), (1 * exp (- (1 * exp (- ((y - m) / g))))). split; [auto_derive; [auto|]; unfold Rdiv, Rminus; ring|]. split; [apply e_pdf; lra|]. rewrite g_pdf by auto. f_equal.
    assert (0 < exp (- ((y - m) / g))) by apply exp_pos. assert (0 < / g) by (apply Rinv_0_lt_compat; lra). rewrite Rabs_Ropp, Rabs_right by nra. unfold Rminus at 1. rewrite exp_plus. replace (- (1 * exp (- ((y - m) / g)))) with (- exp (- ((y - m) / g))) by ring. unfold Rdiv. ring.
  - assert (Y : 0 < y / xm) by (apply Rdiv_lt_0_compat; lra). exists (/ y), (a * exp (- (a * ln (y / xm)))). split; [auto_derive; [exact Y|field; lra]|]. split; [apply e_pdf; lra|]. rewrite p_pdf by lra. f_equal.
    rewrite Rabs_right by (apply Rle_ge, Rlt_le, Rinv_0_lt_compat; lra). replace (exp (- (a * ln (y / xm)))) with (Rpower (y / xm) (- a)) by (unfold Rpower; f_equal; ring). rewrite Rpower_div_base by lra.
    rewrite (Rpower_Ropp xm). replace (- a - 1) with (- a + - (1)) by ring. rewrite Rpower_plus, (Rpower_Ropp y 1), Rpower_1 by lra. assert (0 < Rpower xm a) by apply exp_pos. field. lra.
  - assert (IY : 0 < / y) by (apply Rinv_0_lt_compat; lra). exists (- / (y * y)), (a / 1 * Rpower (/ y / 1) (a - 1) * exp (- Rpower (/ y / 1) a)). split; [now apply d_inv|]. split; [apply w_pdf; lra|]. rewrite f_pdf by lra. f_equal. rewrite abs_inv by auto.
    replace (/ y / 1) with (/ y) by (field; lra). rewrite !pw_inv by auto. replace (- 1 - a) with (- (a - 1) + - (1 + 1)) by ring. rewrite (Rpower_plus (- (a - 1))), (Rpower_Ropp y (1 + 1)), (Rpower_plus 1 1), Rpower_1 by auto. field. lra.
  - intros y Hy. assert (Y : 0 < y / xm) by (apply Rdiv_lt_0_compat; lra). apply prob_ext. rewrite p_cdf by lra. rewrite e_cdf. f_equal. f_equal. f_equal.
    replace (exp (- (a * ln (y / xm)))) with (Rpower (y / xm) (- a)) by (unfold Rpower; f_equal; ring). rewrite Rpower_div_base by lra. rewrite (Rpower_Ropp xm). assert (0 < Rpower xm a) by apply exp_pos. field. lra.
  - intros y Hy. apply prob_ext. rewrite w_cdf by auto. rewrite e_cdf. now rewrite Rmult_1_l.
Qed.
Print Assumptions C143_exponential.

(** |N(m, s^2)| is FoldedNormal(m, s): the density at y > 0 is the sum of the two preimages, the distribution function the mass between them.
    exp(N(m, v)) has LogNormal's distribution function *)
Theorem C143_normal (SP : Special xreal) (m s : R) (n : UvNormal.t xreal) (fo : FoldedNormal.t xreal) (lo : LogNormal.t xreal) :
  erf_exact SP -> (forall x, sf_norm (Fin x) = Fin (Phi x)) ->
  UvNormal.new (Fin m) (Fin (s * s)) = Ok n -> FoldedNormal.new (Fin m) (Fin s) = Ok fo -> LogNormal.new (Fin m) (Fin (s * s)) = Ok lo ->
  (forall y : R, returns (UvNormal.pdf n (Fin y)) (fun u => returns (UvNormal.pdf n (Fin (- y))) (fun v => FoldedNormal.pdf fo (Fin y) = Fin (u + v)))) /\
  (forall y : R, returns (unwrap (UvNormal.cdf n (Fin y))) (fun u => returns (unwrap (UvNormal.cdf n (Fin (- y)))) (fun v => unwrap (FoldedNormal.cdf fo (Fin y)) = Fin (u - v)))) /\
  (forall y : R, 0 < y -> LogNormal.cdf lo (Fin y) = UvNormal.cdf n (Fin (ln y))) /\
  UvNormal.precision n = FoldedNormal.precision fo /\ returns (UvNormal.precision n) (fun p => returns (UvNormal.variance n) (fun v => p * v = 1 /\ UvNormal.width n = Fin (2 / v))).
Proof.
  intros He Hn H1 H2 H3. apply uvn_new_inv in H1 as [HS ->]. unfold FoldedNormal.new in H2. inv_new H2. change (FoldedNormal.mk _) with (FoldedNormal.new_unchecked (Fin m) (Fin s)).
  unfold LogNormal.new in H3. destruct (UvNormal.new _ _) eqn:E in H3; [|discriminate]. apply uvn_new_inv in E as [_ ->]. injection H3 as <-. change (LogNormal.mk _) with (LogNormal.new_unchecked (Fin m) (Fin (s * s))).
  assert (Hs : 0 < s) by assumption. assert (Q : sqrt (s * s) = s) by (apply sqrt_square; lra).
  split; [|split; [|split; [|split]]].
  - intros y. eexists; split; [now apply un_pdf|]. eexists; split; [now apply un_pdf|]. rewrite fn_pdf by auto. f_equal. unfold fn_u, zp, zm. rewrite Q. replace ((- y - m) / s) with (- ((y - - m) / s)) by (field; lra). rewrite phi_even. field. lra.
  - intros y. eexists; split; [now apply (un_cdf m (s * s) HS Hn)|]. eexists; split; [now apply (un_cdf m (s * s) HS Hn)|]. rewrite (fn_cdf m s Hs He). f_equal. unfold fG0, zp, zm. rewrite Q. replace ((- y - m) / s) with (- ((y - - m) / s)) by (field; lra). rewrite Phi_sym. ring.
  - intros y Hy. apply prob_ext. rewrite (ln_cdf m (s * s) HS Hn) by auto. now rewrite (un_cdf m (s * s) HS Hn).
  - unfold UvNormal.precision, FoldedNormal.precision. cbn [UvNormal.new_unchecked UvNormal.pr UvNormal.Sigma FoldedNormal.new_unchecked FoldedNormal.pr FoldedNormal.sigma]. cbv zeta. xs. f_equal. field. lra.
  - exists (1 / (s * s)). split; [unfold UvNormal.precision; cbn [UvNormal.new_unchecked UvNormal.pr UvNormal.Sigma]; now xs|]. exists (s * s). split; [reflexivity|]. split; [field; lra|]. unfold UvNormal.width, UvNormal.precision; cbn [UvNormal.new_unchecked UvNormal.pr UvNormal.Sigma]. xs. f_equal. field. lra.
Qed.
Print Assumptions C143_normal.

(** the square of a StudentT(n) variable is F(1, n) *)
Theorem C143_student (SP : Special xreal) (n : Z) (t : StudentT.t xreal) (f : FDist.t) :
  gamma_exact SP -> beta_exact SP -> StudentT.new (Fin (IZR n)) = Ok t -> FDist.new (F := xreal) 1 n = Ok f ->
  forall y, 0 < y -> returns (StudentT.pdf t (Fin (sqrt y))) (fun u => returns (StudentT.pdf t (Fin (- sqrt y))) (fun v => FDist.pdf f (Fin y) = Fin ((u + v) / (2 * sqrt y)))).
Proof.
  intros Hg Hb H1 H2 y Hy. unfold StudentT.new in H1. unfold FDist.new in H2. inv_new H1. inv_new H2. change (StudentT.mk _) with (StudentT.new_unchecked (Fin (IZR n))). change (FDist.mk _) with (FDist.new_unchecked 1 n).
  assert (N : (0 < n)%Z) by lia. assert (N' : 0 < IZR n) by (now apply IZR_lt). eexists; split; [now apply (st_pdf Hg)|]. eexists; split; [now apply (st_pdf Hg)|]. rewrite (fd_pdf Hb) by first [lia | now apply in0]. f_equal.
  assert (Q := sqrt_sqrt y ltac:(lra)). assert (Q0 : 0 < sqrt y) by (now apply sqrt_lt_R0). unfold st_u, od_u. replace (- sqrt y * - sqrt y) with (sqrt y * sqrt y) by ring. rewrite Q.
  assert (G := Bet_pos (1 / 2) (IZR n / 2) ltac:(lra) ltac:(lra)). replace (IZR n / 1) with (IZR n) by field. replace (- (1 / 2) - IZR n / 2) with (- ((IZR n + 1) / 2)) by field.
  replace (1 / 2 - 1) with (- / 2) by field. rewrite (Rpower_Ropp y), Rpower_sqrt by auto. field. lra.
Qed.
Print Assumptions C143_student.

Example C143_nonvacuous : gamma_exact (exact false) /\ beta_exact (exact false) /\ erf_exact (exact false) /\ (exists d, Gamma.new (Fin 2) (Fin 3) = Ok d) /\ (exists d, InvGamma.new (Fin 2) (Fin 3) = Ok d) /\
  (exists d, Beta.new (Fin 2) (Fin 3) = Ok d) /\ (exists d, BetaPrime.new (Fin 2) (Fin 3) = Ok d) /\ (exists d, FDist.new (F := xreal) 3 5 = Ok d) /\ (exists d, Chi.new (F := xreal) 3 = Ok d) /\ (exists d, ChiSq.new (F := xreal) 3 = Ok d) /\
  (exists d, Exponential.new (Fin 1) = Ok d) /\ (exists d, Gumbel.new (Fin 1) (Fin 2) = Ok d) /\ (exists d, Weibull.p_new (Fin 2) (Fin 3) = Ok d) /\ (exists d, Pareto.new (Fin 2) (Fin 3) = Ok d) /\ (exists d, Frechet.new (Fin 3) = Ok d) /\
  (exists d, FoldedNormal.new (Fin 1) (Fin 2) = Ok d) /\ (exists d, StudentT.new (Fin 4) = Ok d) /\ exists d, UvNormal.new (Fin 1) (Fin (2 * 2)) = Ok d /\ LogNormal.new (Fin 1) (Fin (2 * 2)) = Ok (LogNormal.mk d).
Proof.
  split; [apply ex_gamma|]. split; [apply ex_beta|]. split; [apply ex_erf|].
  repeat (split; [eexists; unfold Exponential.new, Gamma.new, Weibull.p_new, ChiSq.new, Chi.new, FDist.new, Beta.new, BetaPrime.new, Pareto.new, Frechet.new, InvGamma.new, Gumbel.new, FoldedNormal.new, StudentT.new; ok_new|]).
  exists (UvNormal.new_unchecked (Fin 1) (Fin (2 * 2))). assert (E : UvNormal.new (Fin 1) (Fin (2 * 2)) = Ok (UvNormal.new_unchecked (Fin 1) (Fin (2 * 2)))) by (apply uvn_new_ok; lra). split; [exact E|]. unfold LogNormal.new. now rewrite E.
Qed.
