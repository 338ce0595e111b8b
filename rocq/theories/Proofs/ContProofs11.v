(** * Gamma, Chi-squared, Chi, inverse Gamma, Erlang *)
From Coq Require Import Reals Lra Lia Psatz List ZArith.
From Coquelicot Require Import Coquelicot.
From Verif.Num Require Import XReal.
From Verif.Model Require Import Rust Constraints Probability Params Consts Continuous3.
From Verif.Spec Require Import DistSpec GammaSpec ResSpec.
From Verif.Proofs Require Import XTac Calc Calc2 Improper GammaFun Subst Mellin.
Import ListNotations.
Open Scope R_scope.

Section Oracles.
Context {SP : Special xreal}.
Lemma sfg a : gamma_exact SP -> 0 < a -> sf_gamma (Fin a) = Fin (Gam a).
Proof. intros Hg Ha. destruct (Hg a Ha) as (g & -> & H). f_equal. apply (Gamma_unique a); auto. now apply Gam_spec. Qed.
Lemma sfb a b : beta_exact SP -> 0 < a -> 0 < b -> sf_beta (Fin a) (Fin b) = Fin (Bet a b).
Proof. intros Hg Ha Hb. destruct (Hg a b Ha Hb) as (g & -> & H). f_equal. apply (Beta_unique a b); auto. now apply Bet_spec. Qed.
Lemma sfbi x a b : betainc_exact SP -> 0 < x < 1 -> 0 < a -> 0 < b -> exists v, is_lower_beta a b x v /\ sf_betainc (Fin x) (Fin a) (Fin b) = Fin (v / Bet a b).
Proof. intros Hg Hx Ha Hb. destruct (Hg x a b Hx Ha Hb) as (v & w & H1 & H2 & ->). exists v. split; [auto|]. do 2 f_equal. apply (Beta_unique a b); auto. now apply Bet_spec. Qed.
Lemma sfgl a x : gammainc_lower SP -> 0 < a -> 0 < x -> exists v, is_lower_gamma a x v /\ sf_gammainc (Fin a) (Fin x) = Fin v.
Proof. intros Hg. apply Hg. Qed.
Lemma sfgr a x : gammainc_regularised SP -> 0 < a -> 0 < x -> exists v, is_lower_gamma a x v /\ sf_gammainc (Fin a) (Fin x) = Fin (v / Gam a).
Proof. intros Hg Ha Hx. destruct (Hg a x Ha Hx) as (v & w & H1 & H2 & ->). exists v. split; [auto|]. do 2 f_equal. apply (Gamma_unique a); auto. now apply Gam_spec. Qed.
Lemma sfpsi a : digamma_exact SP -> 0 < a -> sf_digamma (Fin a) = Fin (psi a).
Proof.
  intros Hg Ha. destruct (Hg a Ha) as (G & v & HG & D & ->). f_equal. symmetry. apply is_derive_unique.
  revert D. apply is_derive_ext_loc. exists (mkposreal a Ha). intros y Hy. unfold ball in Hy; cbn in Hy; unfold AbsRing_ball, abs, minus, plus, opp in Hy; cbn in Hy. apply Rabs_def2 in Hy.
  f_equal. apply (Gamma_unique y); [apply HG; lra|apply Gam_spec; lra].
Qed.
Lemma sflb a b : logbeta_exact SP -> 0 < a -> 0 < b -> sf_logbeta (Fin a) (Fin b) = Fin (ln (Bet a b)).
Proof. intros Hg Ha Hb. destruct (Hg a b Ha Hb) as (g & -> & H). do 2 f_equal. apply (Beta_unique a b); auto. now apply Bet_spec. Qed.
End Oracles.

(** moments of the gamma density with shape a and rate b *)
Definition gaM (a b : R) (n : nat) : R :=
  match n with 0%nat => 1 | 1%nat => a / b | 2%nat => a * (a + 1) / b ^ 2 | 3%nat => a * (a + 1) * (a + 2) / b ^ 3
  | _ => a * (a + 1) * (a + 2) * (a + 3) / b ^ 4 end.
Definition ga_u (a b x : R) : R := Rpower b a / Gam a * (Rpower x (a - 1) * exp (- (b * x))).
Lemma ga_u_cont a b x : inside 0 p_infty x -> continuous (ga_u a b) x.
Proof. intros H%in0f. unfold ga_u. eapply ex_derive_cont. dder; auto; reflexivity. Qed.
Lemma ga_u_pos a b x : 0 < a -> inside 0 p_infty x -> 0 < ga_u a b x.
Proof. intros Ha H%in0f. unfold ga_u. assert (G := Gam_pos a Ha). pos. Qed.
Lemma Rpower_pow_mul x a n : 0 < x -> x ^ n * Rpower x (a - 1) = Rpower x (a + INR n - 1).
Proof. intros H. rewrite <- Rpower_pow, <- Rpower_plus by auto. f_equal. ring. Qed.
Lemma ga_raw a b pdf n : 0 < a -> 0 < b -> (forall x, inside 0 p_infty x -> pdf (Fin x) = Fin (ga_u a b x)) -> (n <= 4)%nat ->
  is_expectation 0 p_infty pdf (fun x => x ^ n) (gaM a b n).
Proof.
  intros Ha Hb Hp Hn. assert (G := Gam_pos a Ha).
  assert (Hn0 := pos_INR n).
  apply (raw_intro 0 p_infty pdf (ga_u a b) (fun x => Rpower x (a + INR n - 1) * exp (- (b * x))) (Rpower b a / Gam a) (Gam (a + INR n) / Rpower b (a + INR n))).
  - exact I. - exact Hp. - apply gam_rate; lra.
  - intros x Hx%in0f. unfold ga_u. rewrite <- Rpower_pow_mul by auto. ring.
  - rewrite Rpower_plus, Rpower_pow by auto.
    assert (0 < Rpower b a) by pos.
    destruct n as [|[|[|[|[|n]]]]]; [..|lia]; cbn [INR gaM pow].
    + rewrite Rplus_0_r. field. split; lra.
    + rewrite Gam_rec by auto. field. repeat split; lra.
    + replace (a + (1 + 1)) with (a + 1 + 1) by ring. rewrite !Gam_rec by lra. field. repeat split; lra.
    + replace (a + (1 + 1 + 1)) with (a + 1 + 1 + 1) by ring. rewrite !Gam_rec by lra. field. repeat split; lra.
    + replace (a + (1 + 1 + 1 + 1)) with (a + 1 + 1 + 1 + 1) by ring. rewrite !Gam_rec by lra. field. repeat split; lra.
Qed.
(** the maximum, for shape >= 1 *)
Lemma gam_mode a b : 0 < a -> 0 < b -> 1 <= a -> forall x, 0 < x -> Rpower x (a - 1) * exp (- (b * x)) <=
   (if Req_EM_T a 1 then 1 else Rpower ((a - 1) / b) (a - 1) * exp (- (b * ((a - 1) / b)))).
Proof.
  intros Ha Hb H x Hx. destruct (Req_EM_T a 1) as [->|N].
  - replace (1 - 1) with 0 by ring. rewrite Rpower_O by auto. rewrite Rmult_1_l. apply exp_le1. assert (0 < b * x) by pos. lra.
  - assert (0 < a - 1) by lra. assert (G := gamma_max (a - 1) (b * x) H0 ltac:(pos)).
    replace (b * ((a - 1) / b)) with (a - 1) by (field; lra).
    rewrite <- Rpower_mult_distr in G by auto. rewrite Rpower_div_base by auto.
    apply Rmult_le_reg_l with (Rpower b (a - 1)); [pos|]. eapply Rle_trans; [|eapply Rle_trans; [exact G|]]; [lra|]. right. field. pos.
Qed.
Section GaMoments.
Context (a b : R) (Ha : 0 < a) (Hb : 0 < b) (pdf : xreal -> xreal) (Hp : forall x, inside 0 p_infty x -> pdf (Fin x) = Fin (ga_u a b x)).
Ltac raws := try (apply (ga_raw a b); auto; lia); try reflexivity.
Lemma gam_mean : is_mean 0 p_infty pdf (a / b).
Proof. apply (mean_raw _ _ _ (gaM a b)); raws. Qed.
Lemma gam_variance : is_variance 0 p_infty pdf (a / b) (a / b / b).
Proof. apply (variance_raw _ _ _ (gaM a b)); raws. cbn. field. lra. Qed.
Lemma gam_var_pos : 0 < a / b / b. Proof. pos. Qed.
Lemma gam_sqrt_var : sqrt (a / b / b) = sqrt a / b.
Proof. replace (a / b / b) with (a / (b * b)) by (field; lra). rewrite sqrt_div_alt by pos. rewrite sqrt_square by lra. reflexivity. Qed.
Lemma gam_skewness : is_skewness 0 p_infty pdf (2 / sqrt a).
Proof.
  apply (skewness_raw _ _ _ (gaM a b)) with (v := a / b / b); raws; [cbn; field; lra|apply gam_var_pos|].
  rewrite gam_sqrt_var. assert (0 < sqrt a) by pos. cbn. field. lra.
Qed.
Lemma gam_kurtosis : is_kurtosis 0 p_infty pdf (3 + 6 / a).
Proof.
  apply (kurtosis_raw _ _ _ (gaM a b)) with (v := a / b / b); raws; [cbn; field; lra|apply gam_var_pos|].
  cbn. field. lra.
Qed.
Lemma gam_total : is_RInt_gen (ga_u a b) (above 0) (below p_infty) 1.
Proof.
  assert (A := ga_raw a b pdf 0 Ha Hb Hp ltac:(lia)). unfold is_expectation in A. cbn [gaM] in A. revert A.
  apply (is_RInt_gen_inside 0 p_infty); [exact I|]. intros x Hx. unfold rf. rewrite Hp by auto. cbn. ring.
Qed.
Lemma gam_low y v : 0 < y -> is_lower_gamma a (b * y) v -> is_RInt_gen (ga_u a b) (above 0) (at_point y) (v / Gam a).
Proof.
  intros Hy H. assert (G := Gam_pos a Ha). assert (A := low_scal 0 y _ (Rpower b a / Gam a) _ (gam_rate_low a b y v Hb Hy H)).
  eapply low_eq; [exact A|]. field. split; pos.
Qed.
Lemma gam_coherent cdf : (forall x, 0 < x -> exists v, is_lower_gamma a (b * x) v /\ cdf (Fin x) = Fin (v / Gam a)) -> coherent 0 p_infty cdf pdf.
Proof.
  intros Hc. apply (coherent_of_integral 0 p_infty cdf pdf (ga_u a b) (fun x => val (cdf (Fin x)))).
  - exact I. - apply ga_u_cont. - intros x Hx. left. now apply ga_u_pos. - exact gam_total. - exact Hp.
  - intros x Hx%in0f. destruct (Hc x Hx) as (v & Hv & E). rewrite E. cbn [val]. split; [reflexivity|]. now apply gam_low.
Qed.
Lemma gam_ln : is_RInt_gen (fun x => ln x * ga_u a b x) (above 0) (below p_infty) (psi a - ln b).
Proof.
  assert (G := Gam_pos a Ha).
  assert (A : is_RInt_gen (fun x => b * (ln (b * x) * gamma_h a (b * x))) (above 0) (below p_infty) (psi a * Gam a)).
  { apply (subst_up 0 p_infty 0 p_infty (fun t => ln t * gamma_h a t) (fun x => b * x) (fun _ => b)); [exact I|now apply Gam_ln_int|now apply scale_above|now apply scale_below|].
    intros x Hx%in0f. split; [dder; ring|]. split; [apply continuous_const|].
    assert (0 < b * x) by pos. apply (continuous_mult (K := R_AbsRing) ln (gamma_h a)); [eapply ex_derive_cont; now apply is_derive_ln|apply gh_cont, in0; pos]. }
  assert (B := gen_lin 0 p_infty _ _ (/ Gam a) (- ln b) _ _ A gam_total).
  apply (gen_eq 0 p_infty _ _ (psi a - ln b)) in B; [|field; lra]. revert B.
  apply (is_RInt_gen_inside 0 p_infty); [exact I|]. intros x Hx%in0f. unfold ga_u, gamma_h.
  rewrite <- Rpower_mult_distr, ln_mult, (Rpower_minus1 b) by auto. field. split; pos.
Qed.
Lemma gam_entropy : is_entropy 0 p_infty pdf (a - ln b + ln (Gam a) + (1 - a) * psi a).
Proof.
  assert (G := Gam_pos a Ha). unfold is_entropy.
  assert (M1 : is_RInt_gen (fun x => x * ga_u a b x) (above 0) (below p_infty) (a / b)).
  { assert (A := gam_mean). unfold is_mean, is_expectation in A. revert A. apply (is_RInt_gen_inside 0 p_infty); [exact I|]. intros x Hx. unfold rf. rewrite Hp by auto. reflexivity. }
  assert (A := gen_lin 0 p_infty _ _ (1 - a) 1 _ _ gam_ln (gen_lin 0 p_infty _ _ b (ln (Gam a) - a * ln b) _ _ M1 gam_total)).
  apply (gen_eq 0 p_infty _ _ (a - ln b + ln (Gam a) + (1 - a) * psi a)) in A; [|field; lra]. revert A.
  apply (is_RInt_gen_inside 0 p_infty); [exact I|]. intros x Hx. unfold rf. rewrite Hp by auto. cbn [val].
  apply in0f in Hx.
  assert (EL : ln (ga_u a b x) = a * ln b - ln (Gam a) + ((a - 1) * ln x - b * x)).
  { unfold ga_u, Rdiv. rewrite !ln_mult, ln_Rinv, !ln_Rpower, ln_exp by pos. ring. }
  rewrite EL. ring.
Qed.
End GaMoments.

(** ** Gamma *)
Section Gamma.
Import Gamma.
Context {SP : Special xreal} (Hg : gamma_exact SP).
Context (a b : R) (Ha : 0 < a) (Hb : 0 < b).
Notation d := (new_unchecked (Fin a) (Fin b)).
Notation cd := (fun x => unwrap (cdf d x)).
Lemma ga_pdf x : inside 0 p_infty x -> pdf d (Fin x) = Fin (ga_u a b x).
Proof.
  intros Hx%in0f. assert (G := Gam_pos a Ha). unfold pdf. cbn [pr alpha beta new_unchecked]. rewrite sfg by auto. xs. f_equal. unfold ga_u.
  replace (- b * x) with (- (b * x)) by ring. field. lra.
Qed.
Lemma ga_cdf x : 0 < x -> gammainc_lower SP -> exists v, is_lower_gamma a (b * x) v /\ cd (Fin x) = Fin (v / Gam a).
Proof.
  intros Hx Hi. assert (G := Gam_pos a Ha). unfold cdf. cbn [pr alpha beta new_unchecked unwrap]. xs. rewrite sfg by auto.
  destruct (sfgl a (b * x) Hi Ha ltac:(pos)) as (v & Hv & ->). exists v. split; [auto|]. now xs.
Qed.
Lemma ga_cdf_reg x : 0 < x -> gammainc_regularised SP -> exists v, is_lower_gamma a (b * x) v /\ cd (Fin x) = Fin (v / Gam a / Gam a).
Proof.
  intros Hx Hi. assert (G := Gam_pos a Ha). unfold cdf. cbn [pr alpha beta new_unchecked unwrap]. xs. rewrite sfg by auto.
  destruct (sfgr a (b * x) Hi Ha ltac:(pos)) as (v & Hv & ->). exists v. split; [auto|]. now xs.
Qed.
Lemma ga_coherent : gammainc_lower SP -> coherent 0 p_infty cd (pdf d).
Proof. intros Hi. apply (gam_coherent a b Ha Hb); [exact ga_pdf|]. intros x Hx. now apply ga_cdf. Qed.
End Gamma.
