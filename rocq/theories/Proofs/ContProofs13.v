(** * Chi, inverse Gamma *)
From Coq Require Import Reals Lra Lia Psatz List ZArith.
From Coquelicot Require Import Coquelicot.
From Verif.Num Require Import XReal.
From Verif.Model Require Import Rust Constraints Probability Params Consts Continuous3.
From Verif.Spec Require Import DistSpec GammaSpec ResSpec.
From Verif.Proofs Require Import XTac Calc Calc2 Improper GammaFun Subst Mellin ContProofs11 ContProofs12.
Import ListNotations.
Open Scope R_scope.

Lemma ln_div' x y : 0 < x -> 0 < y -> ln (x / y) = ln x - ln y.
Proof. intros. unfold Rdiv. rewrite ln_mult, ln_Rinv by pos. ring. Qed.
(** a variance is positive *)
Lemma variance_pos lo hi pdf (u : R -> R) m v : Rbar_lt lo hi ->
  (forall x, inside lo hi x -> continuous u x) -> (forall x, inside lo hi x -> 0 < u x) ->
  (forall x, inside lo hi x -> pdf (Fin x) = Fin (u x)) -> is_variance lo hi pdf m v -> 0 < v.
Proof.
  intros Hlt Hc Hp Hpdf [_ Hv].
  assert (I : is_RInt_gen (fun x => (x - m) * (x - m) * u x) (above lo) (below hi) v).
  { unfold is_expectation in Hv. revert Hv. apply (is_RInt_gen_inside lo hi); [exact Hlt|]. intros x Hx. unfold rf. now rewrite Hpdf. }
  destruct (ex_inside lo hi Hlt) as [c0 Ic0].
  destruct (locally_inside lo hi c0 Ic0) as [eps He]. assert (HE := cond_pos eps).
  assert (In : forall x, c0 <= x < c0 + eps -> inside lo hi x).
  { intros x Hx. apply He. unfold ball; cbn; unfold AbsRing_ball, abs, minus, plus, opp; cbn. rewrite Rabs_pos_eq; lra. }
  (* an interval avoiding m *)
  assert (exists c e, c0 <= c < e /\ e < c0 + eps /\ forall x, c < x < e -> x <> m) as (c & e & Hce & He2 & Hm).
  { destruct (Rle_dec m c0) as [l|l].
    - exists c0, (c0 + eps / 2). repeat split; try lra. intros; lra.
    - destruct (Rle_dec (c0 + eps / 2) m).
      + exists c0, (c0 + eps / 2). repeat split; try lra. intros; lra.
      + exists (c0 + eps / 2), (c0 + eps / 2 + eps / 4). repeat split; try lra. intros; lra. }
  apply (imp_pos_on lo hi (fun x => (x - m) * (x - m) * u x) v c e); auto; try (apply In; lra).
  - intros x Hx. apply (continuous_mult (K := R_AbsRing) (fun x => (x - m) * (x - m)) u); [|auto].
    eapply ex_derive_cont. dder. reflexivity.
  - intros x Hx. apply Rmult_le_pos; [apply Rle_0_sqr|left; auto].
  - lra.
  - intros x Hx. assert (x - m <> 0) by (generalize (Hm x Hx); lra). apply Rmult_lt_0_compat; [now apply Rsqr_pos_lt in H|apply Hp, In; lra].
Qed.

Section Chi.
Import Chi.
Context {SP : Special xreal} (Hg : gamma_exact SP).
Context (k : Z) (Hk : (0 < k)%Z).
Notation d := (new_unchecked k).
Notation cd := (fun x => unwrap (cdf d x)).
Notation K := (IZR k).
Definition chi_c : R := / (Rpower 2 (K / 2 - 1) * Gam (K / 2)).
Definition chi_u (x : R) : R := chi_c * (Rpower x (K - 1) * exp (- (x * x / 2))).
Definition chi_mu : R := sqrt 2 * Gam ((K + 1) / 2) / Gam (K / 2).
Lemma ch_K : 0 < K. Proof. now apply IZR_lt. Qed.
Lemma ch_G : 0 < Gam (K / 2). Proof. apply Gam_pos. generalize ch_K; lra. Qed.
Lemma ch_G1 : 0 < Gam ((K + 1) / 2). Proof. apply Gam_pos. generalize ch_K; lra. Qed.
Lemma ch_c : 0 < chi_c. Proof. assert (G := ch_G). unfold chi_c. pos. Qed.
Lemma ch_pdf x : inside 0 p_infty x -> pdf d (Fin x) = Fin (chi_u x).
Proof.
  intros Hx%in0f. assert (H := ch_K). assert (G := ch_G). unfold pdf, kf; cbn [pr Chi.k new_unchecked]. xs. rewrite sfg by (auto; lra). xs. f_equal.
  unfold chi_u, chi_c. replace (- x * x / 2) with (- (x * x / 2)) by field. field. split; pos.
Qed.
Lemma ch_u_cont x : inside 0 p_infty x -> continuous chi_u x.
Proof. intros Hx%in0f. unfold chi_u. eapply ex_derive_cont. dder; auto; try lra; reflexivity. Qed.
Lemma ch_u_pos x : inside 0 p_infty x -> 0 < chi_u x.
Proof. intros Hx%in0f. assert (C := ch_c). unfold chi_u. pos. Qed.
Definition chM (n : nat) : R := match n with 0%nat => 1 | 1%nat => chi_mu | 2%nat => K | 3%nat => (K + 1) * chi_mu | _ => K * (K + 2) end.
Lemma ch_raw n : (n <= 4)%nat -> is_expectation 0 p_infty (pdf d) (fun x => x ^ n) (chM n).
Proof.
  intros Hn. assert (H := ch_K). assert (G := ch_G). assert (G1 := ch_G1). assert (Hn0 := pos_INR n).
  apply (raw_intro 0 p_infty (pdf d) chi_u (fun x => Rpower x (K + INR n - 1) * exp (- (x * x / 2))) chi_c (Rpower 2 ((K + INR n) / 2 - 1) * Gam ((K + INR n) / 2))).
  - exact I. - exact ch_pdf. - apply gam_sq; lra.
  - intros x Hx%in0f. unfold chi_u. rewrite <- Rpower_pow_mul by auto. ring.
  - unfold chi_c. assert (P : 0 < Rpower 2 (K / 2 - 1)) by pos.
    assert (ES : Rpower 2 (/ 2) = sqrt 2) by (apply Rpower_sqrt; lra).
    replace ((K + INR n) / 2 - 1) with ((K / 2 - 1) + / 2 * INR n) by (field; lra). rewrite Rpower_plus, <- Rpower_mult, ES, Rpower_pow by pos.
    assert (S2 : sqrt 2 * sqrt 2 = 2) by (apply sqrt_sqrt; lra).
    destruct n as [|[|[|[|[|n]]]]]; [..|lia]; cbn [INR chM pow].
    + rewrite Rplus_0_r. field. split; lra.
    + unfold chi_mu. field. split; lra.
    + replace ((K + (1 + 1)) / 2) with (K / 2 + 1) by field. rewrite Gam_rec by lra. rewrite Rmult_1_r, S2. field. split; lra.
    + replace ((K + (1 + 1 + 1)) / 2) with ((K + 1) / 2 + 1) by field. rewrite Gam_rec by lra. rewrite Rmult_1_r, S2. unfold chi_mu. field. split; lra.
    + replace ((K + (1 + 1 + 1 + 1)) / 2) with (K / 2 + 1 + 1) by field. rewrite !Gam_rec by lra. rewrite Rmult_1_r, S2. replace (sqrt 2 * (sqrt 2 * 2)) with 4 by (rewrite <- Rmult_assoc, S2; ring). field. split; lra.
Qed.
Ltac raws := try (apply ch_raw; lia); try reflexivity.
Notation V := (K - chi_mu * chi_mu).
Lemma ch_mean : is_mean 0 p_infty (pdf d) chi_mu.
Proof. apply (mean_raw _ _ _ chM); raws. Qed.
Lemma ch_variance : is_variance 0 p_infty (pdf d) chi_mu V.
Proof. apply (variance_raw _ _ _ chM); raws. cbn. ring. Qed.
Lemma ch_var_pos : 0 < V.
Proof. apply (variance_pos 0 p_infty (pdf d) chi_u chi_mu); [exact I|exact ch_u_cont|exact ch_u_pos|exact ch_pdf|exact ch_variance]. Qed.
Lemma ch_mean_val : mean d = Fin chi_mu.
Proof.
  assert (H := ch_K). assert (G := ch_G). unfold mean, kf; cbn [pr Chi.k new_unchecked]. xs. rewrite !sfg by (auto; lra). now xs.
Qed.
Lemma ch_var_val : variance d = Fin V.
Proof. unfold variance. rewrite ch_mean_val. unfold kf; cbn [pr Chi.k new_unchecked]. now xs. Qed.
Notation SK := (chi_mu / (V * sqrt V) * (1 - 2 * V)).
Lemma pow32 v : 0 < v -> Rpower v (3 / 2) = v * sqrt v.
Proof. intros H. replace (3 / 2) with (1 + / 2) by field. rewrite Rpower_plus, Rpower_1, Rpower_sqrt by auto. reflexivity. Qed.
Lemma ch_sk_val : skewness d = Fin SK.
Proof.
  assert (HV := ch_var_pos). assert (0 < sqrt V) by pos. unfold skewness, THREE_HALVES. rewrite ch_mean_val, ch_var_val. cbv zeta. xs. rewrite pow32 by auto. reflexivity.
Qed.
Lemma ch_skewness : is_skewness 0 p_infty (pdf d) SK.
Proof.
  assert (HV := ch_var_pos). assert (HS : 0 < sqrt V) by pos. apply (skewness_raw _ _ _ chM) with (v := V); raws; [cbn; ring|auto|].
  cbn. field. split; lra.
Qed.
Notation EK := (2 / V * (1 - chi_mu * sqrt V * SK - V)).
Lemma ch_ek_val : excess_kurtosis d = Fin EK.
Proof.
  assert (HV := ch_var_pos). assert (0 < sqrt V) by pos. unfold excess_kurtosis. rewrite ch_mean_val, ch_var_val, ch_sk_val. cbv zeta. now xs.
Qed.
Lemma ch_kurtosis : is_kurtosis 0 p_infty (pdf d) (3 + EK).
Proof.
  assert (HV := ch_var_pos). assert (HS : 0 < sqrt V) by pos. apply (kurtosis_raw _ _ _ chM) with (v := V); raws; [cbn; ring|auto|].
  cbn. field. split; lra.
Qed.
Lemma ch_total : is_RInt_gen chi_u (above 0) (below p_infty) 1.
Proof.
  assert (A := ch_raw 0 ltac:(lia)). unfold is_expectation in A. cbn [chM] in A. revert A.
  apply (is_RInt_gen_inside 0 p_infty); [exact I|]. intros x Hx. unfold rf. rewrite ch_pdf by auto. cbn. ring.
Qed.
Lemma ch_low y v : 0 < y -> is_lower_gamma (K / 2) (y * y / 2) v -> is_RInt_gen chi_u (above 0) (at_point y) (v / Gam (K / 2)).
Proof.
  intros Hy H. assert (G := ch_G). assert (A := low_scal 0 y _ chi_c _ (gam_sq_low K y v Hy H)). eapply low_eq; [exact A|]. unfold chi_c. field. split; pos.
Qed.
Lemma ch_coherent : gammainc_regularised SP -> coherent 0 p_infty cd (pdf d).
Proof.
  intros Hi. assert (H := ch_K). apply (coherent_of_integral 0 p_infty cd (pdf d) chi_u (fun x => val (cd (Fin x)))).
  - exact I. - exact ch_u_cont. - intros x Hx. left. now apply ch_u_pos. - exact ch_total. - exact ch_pdf.
  - intros x Hx%in0f. unfold cdf, kf; cbn [pr Chi.k new_unchecked unwrap]. xs.
    destruct (sfgr (K / 2) (x * x / 2) Hi ltac:(lra) ltac:(pos)) as (v & Hv & ->). split; [reflexivity|]. now apply ch_low.
Qed.
Lemma ch_modes : modes d <> [] /\ all_return (modes d) (is_mode 0 p_infty (pdf d)).
Proof.
  assert (H := ch_K). assert (G := ch_G). assert (C := ch_c). unfold modes; cbn [pr Chi.k new_unchecked]. destruct (Z.leb_spec 1 k) as [H1|H1]; [|lia]. split; [discriminate|].
  assert (H1' : 1 <= K) by now apply IZR_le.
  intros y [<-|[]]. rewrite x_lit, minus_IZR. xs. eexists; split; [reflexivity|].
  destruct (Req_EM_T K 1) as [E|N].
  - rewrite E. replace (1 - 1) with 0 by ring. rewrite sqrt_0. exists chi_c. split.
    + unfold pdf, kf; cbn [pr Chi.k new_unchecked]. xs. rewrite sfg by (auto; lra). rewrite E at 1. replace (1 - 1) with 0 by ring. rewrite x_powf_0_0. xs. f_equal.
      replace (- 0 * 0 / 2) with 0 by field. rewrite exp_0. unfold chi_c. field. split; pos.
    + intros x Hx. eexists; split; [now apply ch_pdf|]. apply in0f in Hx. unfold chi_u. rewrite E. replace (1 - 1) with 0 by ring. rewrite Rpower_O by auto.
      assert (exp (- (x * x / 2)) <= 1) by (apply exp_le1; assert (0 < x * x) by pos; lra). rewrite <- (Rmult_1_r chi_c) at 2. apply Rmult_le_compat_l; lra.
  - set (m := sqrt (K - 1)). assert (Hm : 0 < m) by (unfold m; apply sqrt_lt_R0; lra). assert (Em : m * m = K - 1) by (apply sqrt_sqrt; lra).
    exists (chi_u m). split; [apply ch_pdf; now apply in0|]. intros x Hx. eexists; split; [now apply ch_pdf|]. apply in0f in Hx. unfold chi_u. apply Rmult_le_compat_l; [lra|].
    set (c := (K - 1) / 2). assert (Hc : 0 < c) by (unfold c; lra).
    assert (GM := gamma_max c (x * x / 2) Hc ltac:(pos)).
    assert (EE : forall t, 0 < t -> Rpower t (K - 1) = Rpower 2 c * Rpower (t * t / 2) c).
    { intros t Ht. rewrite Rpower_mult_distr by pos. replace (2 * (t * t / 2)) with (t * t) by field. rewrite <- Rpower_mult_distr, <- Rpower_plus by auto. f_equal. unfold c. field. }
    rewrite (EE x Hx), (EE m Hm), Em. fold c. rewrite !Rmult_assoc. apply Rmult_le_compat_l; [pos|exact GM].
Qed.
Lemma ch_ln : is_RInt_gen (fun x => ln x * chi_u x) (above 0) (below p_infty) ((psi (K / 2) + ln 2) / 2).
Proof.
  assert (H := ch_K). assert (G := ch_G). assert (Ha : 0 < K / 2) by lra.
  assert (A : is_RInt_gen (fun x => x * (ln (x * x / 2) * gamma_h (K / 2) (x * x / 2))) (above 0) (below p_infty) (psi (K / 2) * Gam (K / 2))).
  { apply (subst_up 0 p_infty 0 p_infty (fun t => ln t * gamma_h (K / 2) t) (fun x => x * x / 2) (fun x => x)); [exact I|now apply Gam_ln_int|exact sq_above|exact sq_below|].
    intros x Hx%in0f. assert (0 < x * x / 2) by pos. split; [dder; try lra; field|]. split; [apply continuous_id|].
    apply (continuous_mult (K := R_AbsRing) ln (gamma_h (K / 2))); [eapply ex_derive_cont; now apply is_derive_ln|now apply gh_cont, in0]. }
  assert (B := gen_lin 0 p_infty _ _ (/ (2 * Gam (K / 2))) (ln 2 / 2) _ _ A ch_total).
  apply (gen_eq 0 p_infty _ _ ((psi (K / 2) + ln 2) / 2)) in B; [|field; lra]. revert B.
  apply (is_RInt_gen_inside 0 p_infty); [exact I|]. intros x Hx%in0f. unfold chi_u, chi_c, gamma_h.
  replace (Rpower (x * x / 2) (K / 2 - 1)) with (Rpower x (K - 1) / x / Rpower 2 (K / 2 - 1)).
  2:{ rewrite Rpower_div_base, <- Rpower_mult_distr, <- Rpower_plus by pos. f_equal. rewrite <- Rpower_minus1 by auto. f_equal; field. }
  rewrite ln_div', ln_mult by pos. field. repeat split; pos.
Qed.
Definition chi_ent : R := ln (Gam (K / 2)) + (K - ln 2 - (K - 1) * psi (K / 2)) / 2.
Lemma ch_entropy : is_entropy 0 p_infty (pdf d) chi_ent.
Proof.
  assert (H := ch_K). assert (G := ch_G). assert (C := ch_c). unfold is_entropy.
  assert (M2 : is_RInt_gen (fun x => x ^ 2 * chi_u x) (above 0) (below p_infty) K).
  { assert (A := ch_raw 2 ltac:(lia)). unfold is_expectation in A. revert A. apply (is_RInt_gen_inside 0 p_infty); [exact I|]. intros x Hx. unfold rf. now rewrite ch_pdf. }
  assert (A := gen_lin 0 p_infty _ _ (1 - K) 1 _ _ ch_ln (gen_lin 0 p_infty _ _ (/ 2) (- ln chi_c) _ _ M2 ch_total)).
  assert (EC : ln chi_c = - ((K / 2 - 1) * ln 2 + ln (Gam (K / 2)))).
  { unfold chi_c. rewrite ln_Rinv, ln_mult, ln_Rpower by pos. ring. }
  apply (gen_eq 0 p_infty _ _ chi_ent) in A; [|unfold chi_ent; rewrite EC; field]. revert A.
  apply (is_RInt_gen_inside 0 p_infty); [exact I|]. intros x Hx. unfold rf. rewrite ch_pdf by auto. cbn [val].
  apply in0f in Hx.
  assert (EL : ln (chi_u x) = ln chi_c + ((K - 1) * ln x - x ^ 2 / 2)).
  { unfold chi_u. rewrite !ln_mult, ln_Rpower, ln_exp by pos. cbn [pow]; field. }
  rewrite EL. match goal with |- @eq _ ?a ?b => change (@eq R a b) end. field.
Qed.
Lemma ch_entropy_val : digamma_exact SP -> shannon_entropy d = Fin (ln (Gam (K / 2)) + (K - ln 2 - (K - 1) * psi (K / 2))).
Proof.
  intros Hd. assert (H := ch_K). assert (G := ch_G). unfold shannon_entropy, kf; cbn [pr Chi.k new_unchecked]. xs. rewrite sfg, sfpsi by (auto; lra). now xs.
Qed.
End Chi.

(** ** inverse Gamma *)
Section InvGamma.
Import InvGamma.
Context {SP : Special xreal} (Hg : gamma_exact SP).
Context (a b : R) (Ha : 0 < a) (Hb : 0 < b).
Notation d := (new_unchecked (Fin a) (Fin b)).
Notation cd := (fun x => unwrap (cdf d x)).
Definition ig_u (x : R) : R := Rpower b a / Gam a * (Rpower x (- a - 1) * exp (- (b / x))).
Lemma ig_pdf x : inside 0 p_infty x -> pdf d (Fin x) = Fin (ig_u x).
Proof.
  intros Hx%in0f. assert (G := Gam_pos a Ha). unfold pdf. cbn [pr alpha beta new_unchecked]. rewrite sfg by auto. xs. f_equal. unfold ig_u.
  replace (- b / x) with (- (b / x)) by (field; lra). field. lra.
Qed.
Lemma ig_u_cont x : inside 0 p_infty x -> continuous ig_u x.
Proof. intros H%in0f. unfold ig_u. eapply ex_derive_cont. dder; try lra; reflexivity. Qed.
Lemma ig_u_pos x : inside 0 p_infty x -> 0 < ig_u x.
Proof. intros H%in0f. assert (G := Gam_pos a Ha). unfold ig_u. pos. Qed.
Definition igM (n : nat) : R := match n with 0%nat => 1 | 1%nat => b / (a - 1) | 2%nat => b ^ 2 / ((a - 1) * (a - 2))
  | 3%nat => b ^ 3 / ((a - 1) * (a - 2) * (a - 3)) | _ => b ^ 4 / ((a - 1) * (a - 2) * (a - 3) * (a - 4)) end.
Lemma Gam_down c : 1 < c -> Gam c = (c - 1) * Gam (c - 1).
Proof. intros H. rewrite <- Gam_rec by lra. f_equal; ring. Qed.
Lemma ig_raw n : (n <= 4)%nat -> INR n < a -> is_expectation 0 p_infty (pdf d) (fun x => x ^ n) (igM n).
Proof.
  intros Hn Hna. assert (G := Gam_pos a Ha). assert (Hn0 := pos_INR n).
  apply (raw_intro 0 p_infty (pdf d) ig_u (fun x => Rpower x (- (a - INR n) - 1) * exp (- (b / x))) (Rpower b a / Gam a) (Gam (a - INR n) / Rpower b (a - INR n))).
  - exact I. - exact ig_pdf. - apply gam_inv; lra.
  - intros x Hx%in0f. unfold ig_u. replace (Rpower x (- (a - INR n) - 1)) with (x ^ n * Rpower x (- a - 1)). 2:{ rewrite <- Rpower_pow, <- Rpower_plus by auto. f_equal; ring. } ring.
  - replace (a - INR n) with (a + - INR n) at 2 by ring. rewrite Rpower_plus, Rpower_Ropp, Rpower_pow by auto.
    assert (P : 0 < Rpower b a) by pos.
    destruct n as [|[|[|[|[|n]]]]]; [..|lia]; cbn [INR igM pow] in *.
    + rewrite Rminus_0_r. field. split; lra.
    + assert (G1 := Gam_pos (a - 1) ltac:(lra)). rewrite (Gam_down a) by lra. field. repeat split; lra.
    + assert (G1 := Gam_pos (a - 2) ltac:(lra)). rewrite (Gam_down a), (Gam_down (a - 1)) by lra. replace (a - 1 - 1) with (a - 2) by ring. replace (a - (1 + 1)) with (a - 2) by ring. field. repeat split; lra.
    + assert (G1 := Gam_pos (a - 3) ltac:(lra)). rewrite (Gam_down a), (Gam_down (a - 1)), (Gam_down (a - 1 - 1)) by lra. replace (a - 1 - 1 - 1) with (a - 3) by ring. replace (a - 1 - 1) with (a - 2) by ring. replace (a - (1 + 1 + 1)) with (a - 3) by ring. field. repeat split; lra.
    + assert (G1 := Gam_pos (a - 4) ltac:(lra)). rewrite (Gam_down a), (Gam_down (a - 1)), (Gam_down (a - 1 - 1)), (Gam_down (a - 1 - 1 - 1)) by lra. replace (a - 1 - 1 - 1 - 1) with (a - 4) by ring. replace (a - 1 - 1 - 1) with (a - 3) by ring. replace (a - 1 - 1) with (a - 2) by ring. replace (a - (1 + 1 + 1 + 1)) with (a - 4) by ring. field. repeat split; lra.
Qed.
Ltac raws := try (apply ig_raw; [lia|cbn [INR]; lra]); try reflexivity.
Lemma ig_mean : match mean d with Ret m => 1 < a /\ returns m (is_mean 0 p_infty (pdf d)) | _ => a <= 1 end.
Proof.
  unfold mean; cbn [pr alpha beta new_unchecked]. xs. destruct (Rleb_spec a 1) as [H|H]; [auto|]. split; [auto|].
  xs. eexists; split; [reflexivity|]. apply (mean_raw _ _ _ igM); raws.
Qed.
Notation V := (b * b / (a - 1) / (a - 1) / (a - 2)).
Lemma ig_V : 2 < a -> V = igM 2 - igM 1 ^ 2. Proof. intros. cbn. field. lra. Qed.
Lemma ig_Vpos : 2 < a -> 0 < V. Proof. intros. pos. Qed.
Lemma ig_variance : match variance d with Ret v => 2 < a /\ returns v (is_variance 0 p_infty (pdf d) (b / (a - 1))) | _ => a <= 2 end.
Proof.
  unfold variance; cbn [pr alpha beta new_unchecked]. xs. destruct (Rleb_spec a 2) as [H|H]; [auto|]. split; [auto|].
  xs. eexists; split; [reflexivity|]. apply (variance_raw _ _ _ igM); raws. now apply ig_V.
Qed.
Lemma ig_skewness : match skewness d with Ret v => 3 < a /\ returns v (is_skewness 0 p_infty (pdf d)) | _ => a <= 3 end.
Proof.
  unfold skewness; cbn [pr alpha beta new_unchecked]. xs. destruct (Rleb_spec a 3) as [H|H]; [auto|]. split; [auto|].
  xs. eexists; split; [reflexivity|]. apply (skewness_raw _ _ _ igM) with (v := V); raws; [apply ig_V; lra|apply ig_Vpos; lra|].
  assert (ES : sqrt V = b / ((a - 1) * sqrt (a - 2))).
  { replace V with (Rsqr b / (Rsqr (a - 1) * (a - 2))) by (unfold Rsqr; field; lra). assert (0 < (a - 1) * (a - 1)) by pos. unfold Rsqr. rewrite sqrt_div_alt by pos. rewrite (sqrt_square b) by lra. rewrite sqrt_mult, sqrt_square by lra. reflexivity. }
  rewrite ES. assert (P : 0 < sqrt (a - 2)) by pos. cbn. field. lra.
Qed.
Lemma ig_kurtosis : match excess_kurtosis d with Ret v => 4 < a /\ returns v (fun e => is_kurtosis 0 p_infty (pdf d) (3 + e)) | _ => a <= 4 end.
Proof.
  unfold excess_kurtosis; cbn [pr alpha beta new_unchecked]. xs. destruct (Rleb_spec a 4) as [H|H]; [auto|]. split; [auto|].
  xs. eexists; split; [reflexivity|]. apply (kurtosis_raw _ _ _ igM) with (v := V); raws; [apply ig_V; lra|apply ig_Vpos; lra|].
  cbn. field. lra.
Qed.
Lemma ig_total : is_RInt_gen (rf (pdf d)) (above 0) (below p_infty) 1.
Proof.
  assert (A := ig_raw 0 ltac:(lia) ltac:(cbn; lra)). unfold is_expectation in A. cbn [igM] in A. revert A. apply (gen_ext 0 p_infty). intros; cbn; ring.
Qed.
Lemma ig_modes : modes d <> [] /\ all_return (modes d) (is_mode 0 p_infty (pdf d)).
Proof.
  assert (G := Gam_pos a Ha). split; [discriminate|]. intros y [<-|[]]. cbn [pr alpha beta new_unchecked]. xs. eexists; split; [reflexivity|].
  set (m := b / (a + 1)). assert (Hm : 0 < m) by (unfold m; pos). eexists; split; [apply ig_pdf; now apply in0|].
  intros x Hx. eexists; split; [now apply ig_pdf|]. apply in0f in Hx. unfold ig_u. apply Rmult_le_compat_l; [pos|].
  assert (M := gamma_max (a + 1) (b / x) ltac:(lra) ltac:(pos)).
  assert (EE : forall t, 0 < t -> Rpower t (- a - 1) = Rpower b (- (a + 1)) * Rpower (b / t) (a + 1)).
  { intros t Ht. rewrite Rpower_div_base, Rpower_Ropp by auto. replace (- a - 1) with (- (a + 1)) by ring. rewrite Rpower_Ropp. field. split; pos. }
  rewrite (EE x Hx), (EE m Hm). replace (b / m) with (a + 1) by (unfold m; field; lra). rewrite !Rmult_assoc. apply Rmult_le_compat_l; [pos|exact M].
Qed.
(** the true distribution function is 1 minus the regularised lower gamma function *)
Lemma ig_cdf_lower x : 0 < x -> gammainc_lower SP -> exists v, is_lower_gamma a (b / x) v /\ cd (Fin x) = Fin (v / Gam a).
Proof.
  intros Hx Hi. assert (G := Gam_pos a Ha). unfold cdf. cbn [pr alpha beta new_unchecked unwrap]. xs. rewrite sfg by auto.
  destruct (sfgl a (b / x) Hi Ha ltac:(pos)) as (v & Hv & ->). exists v. split; [auto|]. now xs.
Qed.
Lemma ig_cdf_reg x : 0 < x -> gammainc_regularised SP -> exists v, is_lower_gamma a (b / x) v /\ cd (Fin x) = Fin (v / Gam a / Gam a).
Proof.
  intros Hx Hi. assert (G := Gam_pos a Ha). unfold cdf. cbn [pr alpha beta new_unchecked unwrap]. xs. rewrite sfg by auto.
  destruct (sfgr a (b / x) Hi Ha ltac:(pos)) as (v & Hv & ->). exists v. split; [auto|]. now xs.
Qed.
Lemma ig_coherent : gammainc_lower SP -> coherent 0 p_infty (fun x => fsub (f_of_Z 1) (cd x)) (pdf d).
Proof.
  intros Hi. assert (G := Gam_pos a Ha).
  set (P := fun y => val (sf_gammainc (Fin a) (Fin y)) / Gam a).
  assert (HP : forall y, 0 < y -> is_RInt_gen (ga_u a 1) (above 0) (at_point y) (P y)).
  { intros y Hy. destruct (sfgl a y Hi Ha Hy) as (v & Hv & E). unfold P. rewrite E. cbn [val]. apply gam_low; auto; try lra. now rewrite Rmult_1_l. }
  destruct (coherent_of_integral 0 p_infty (fun x => Fin (P (val x))) (fun x => Fin (ga_u a 1 (val x))) (ga_u a 1) P) as [[C1 C2 C3 C4] [D1 D2 D3]]; auto.
  { exact I. } { apply ga_u_cont. } { intros x Hx. left. now apply ga_u_pos. }
  { apply (gam_total a 1 Ha) with (pdf := fun x => Fin (ga_u a 1 (val x))); auto; lra. }
  { intros x Hx%in0f. split; [reflexivity|]. now apply HP. }
  apply (coherent_intro 0 p_infty _ _ (fun x => 1 - P (b / x)) ig_u).
  - exact I.
  - intros x Hx%in0f. destruct (ig_cdf_lower x Hx Hi) as (v & Hv & E). cbv beta in E. cbv beta. rewrite E. xs. f_equal. f_equal.
    apply (lower_unique 0 (ga_u a 1) (b / x)); [discriminate| |apply HP; pos].
    apply gam_low; auto; try lra; [pos|now rewrite Rmult_1_l].
  - exact ig_pdf.
  - intros x Hx%in0f. assert (Hbx : 0 < b / x) by pos. assert (D := D2 (b / x) ltac:(now apply in0)).
    assert (DD : is_derive P (b / x) (ga_u a 1 (b / x))) by exact D.
    eapply is_derive_eq; [apply dR_minus; [apply dR_c|apply (is_derive_comp P (fun t => b / t) x (ga_u a 1 (b / x)) (- b / (x * x))); [exact DD|dder; try lra; field; lra]]|].
    unfold ga_u, ig_u, scal; cbn; unfold mult; cbn. rewrite Rmult_1_l. rewrite Rpower_0_base. rewrite Rpower_div_base by auto. rewrite !Rpower_minus1, Rpower_Ropp by auto. field. repeat split; pos.
  - exact ig_u_cont. - intros x Hx. left. now apply ig_u_pos.
  - eapply fl_eq; [apply fl_minus; [apply fl_const|apply (filterlim_comp _ _ _ (fun x => b / x) P (above 0) (below p_infty) (locally 1)); [now apply inv_above|exact C4]]|ring].
  - eapply fl_eq; [apply fl_minus; [apply fl_const|apply (filterlim_comp _ _ _ (fun x => b / x) P (below p_infty) (above 0) (locally 0)); [now apply inv_below|exact C3]]|ring].
Qed.
Lemma ig_not_cdf : gammainc_lower SP \/ gammainc_regularised SP -> ~ is_cdf 0 p_infty cd.
Proof.
  intros Hi [_ M _ _]. assert (G := Gam_pos a Ha).
  assert (I1 : inside 0 p_infty b) by now apply in0. assert (I2 : inside 0 p_infty (2 * b)) by (apply in0; lra).
  specialize (M b (2 * b) I1 I2 ltac:(lra)). unfold rf in M.
  assert (L : forall v w, is_lower_gamma a (b / b) v -> is_lower_gamma a (b / (2 * b)) w -> w < v).
  { intros v w Hv Hw. apply (lower_mono 0 p_infty (gamma_h a) (b / (2 * b)) (b / b)); [apply gh_cont|apply gh_pos|now apply LG_in|now apply LG_in|apply in0; pos|apply in0; pos|].
    replace (b / (2 * b)) with (1 / 2) by (field; lra). replace (b / b) with 1 by (field; lra). lra. }
  destruct Hi as [Hi|Hi].
  - destruct (ig_cdf_lower b Hb Hi) as (v & Hv & E1). destruct (ig_cdf_lower (2 * b) ltac:(lra) Hi) as (w & Hw & E2). cbv beta in *. rewrite E1, E2 in M. cbn [val] in M.
    specialize (L v w Hv Hw). apply (Rmult_le_compat_r (Gam a)) in M; [|lra]. replace (v / Gam a * Gam a) with v in M by (field; lra). replace (w / Gam a * Gam a) with w in M by (field; lra). lra.
  - destruct (ig_cdf_reg b Hb Hi) as (v & Hv & E1). destruct (ig_cdf_reg (2 * b) ltac:(lra) Hi) as (w & Hw & E2). cbv beta in *. rewrite E1, E2 in M. cbn [val] in M.
    specialize (L v w Hv Hw). apply (Rmult_le_compat_r (Gam a * Gam a)) in M; [|pos]. replace (v / Gam a / Gam a * (Gam a * Gam a)) with v in M by (field; lra). replace (w / Gam a / Gam a * (Gam a * Gam a)) with w in M by (field; lra). lra.
Qed.
Lemma ig_ln : is_RInt_gen (fun x => ln x * ig_u x) (above 0) (below p_infty) (ln b - psi a).
Proof.
  assert (G := Gam_pos a Ha).
  assert (A : is_RInt_gen (fun x => - (- b / (x * x)) * (ln (b / x) * gamma_h a (b / x))) (above 0) (below p_infty) (psi a * Gam a)).
  { apply (subst_down 0 p_infty 0 p_infty (fun t => ln t * gamma_h a t) (fun x => b / x) (fun x => - b / (x * x))); [exact I|now apply Gam_ln_int|now apply inv_above|now apply inv_below|].
    intros x Hx%in0f. assert (0 < b / x) by pos. split; [dder; try lra; field; lra|]. split; [eapply ex_derive_cont; dder; [apply Rgt_not_eq; apply Rlt_gt; pos|reflexivity]|].
    apply (continuous_mult (K := R_AbsRing) ln (gamma_h a)); [eapply ex_derive_cont; now apply is_derive_ln|now apply gh_cont, in0]. }
  assert (T : is_RInt_gen ig_u (above 0) (below p_infty) 1).
  { assert (A1 := ig_total). revert A1. apply (is_RInt_gen_inside 0 p_infty); [exact I|]. intros x Hx. unfold rf. now rewrite ig_pdf. }
  assert (B := gen_lin 0 p_infty _ _ (- / Gam a) (ln b) _ _ A T).
  apply (gen_eq 0 p_infty _ _ (ln b - psi a)) in B; [|field; lra]. revert B.
  apply (is_RInt_gen_inside 0 p_infty); [exact I|]. intros x Hx%in0f. unfold ig_u, gamma_h.
  rewrite Rpower_div_base by auto. rewrite !Rpower_minus1, Rpower_Ropp by auto. rewrite ln_div' by pos. field. repeat split; pos.
Qed.
Lemma ig_entropy : digamma_exact SP -> returns (shannon_entropy d) (is_entropy 0 p_infty (pdf d)).
Proof.
  intros Hd. assert (G := Gam_pos a Ha). eexists; split.
  { unfold shannon_entropy; cbn [pr alpha beta new_unchecked]. rewrite sfg, sfpsi by auto. xs. reflexivity. }
  unfold is_entropy.
  assert (M1 : is_RInt_gen (fun x => / x * ig_u x) (above 0) (below p_infty) (a / b)).
  { assert (A := gen_scal 0 p_infty _ (Rpower b a / Gam a) _ (gam_inv (a + 1) b ltac:(lra) Hb)).
    apply (gen_eq 0 p_infty _ _ (a / b)) in A. 2:{ rewrite Gam_rec, Rpower_plus1 by auto. field. repeat split; pos. }
    revert A. apply (is_RInt_gen_inside 0 p_infty); [exact I|]. intros x Hx%in0f. unfold ig_u. replace (- (a + 1) - 1) with (- a - 1 + - (1)) by ring. rewrite (Rpower_plus (- a - 1)), Rpower_Ropp, Rpower_1 by auto. ring. }
  assert (T : is_RInt_gen ig_u (above 0) (below p_infty) 1).
  { assert (A1 := ig_total). revert A1. apply (is_RInt_gen_inside 0 p_infty); [exact I|]. intros x Hx. unfold rf. now rewrite ig_pdf. }
  assert (A := gen_lin 0 p_infty _ _ (1 + a) 1 _ _ ig_ln (gen_lin 0 p_infty _ _ b (ln (Gam a) - a * ln b) _ _ M1 T)).
  apply (gen_eq 0 p_infty _ _ (a + ln (b * Gam a) - (1 + a) * psi a)) in A; [|rewrite ln_mult by auto; field; lra]. revert A.
  apply (is_RInt_gen_inside 0 p_infty); [exact I|]. intros x Hx. unfold rf. rewrite ig_pdf by auto. cbn [val]. apply in0f in Hx.
  assert (EL : ln (ig_u x) = a * ln b - ln (Gam a) + ((- a - 1) * ln x - b / x)).
  { unfold ig_u, Rdiv at 1. rewrite !ln_mult, ln_Rinv, !ln_Rpower, ln_exp by pos. ring. }
  rewrite EL. match goal with |- @eq _ ?a ?b => change (@eq R a b) end. field. lra.
Qed.
End InvGamma.
