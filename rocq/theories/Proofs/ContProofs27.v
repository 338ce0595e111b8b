(** * Moments and entropy of Weibull, Frechet, GEV, Gumbel: powers and logarithms of an exponential variable *)
From Coq Require Import Reals Lra Lia Psatz List ZArith.
From Coquelicot Require Import Coquelicot.
From Verif.Num Require Import XReal.
From Verif.Model Require Import Rust Constraints Probability Params Consts Continuous.
From Verif.Spec Require Import DistSpec GammaSpec ResSpec.
From Verif.Proofs Require Import XTac Calc Calc2 Improper GammaFun Subst Mellin HeavyTail ExpPush ContProofs2 ContProofs3 ContProofs4 ContProofs11 ContProofs13.
Import ListNotations.
Open Scope R_scope.

(** moments of T^h, T standard exponential *)
Definition epM (h : R) (n : nat) : R := Gam (1 + INR n * h).
Lemma epM_0 h : epM h 0 = 1. Proof. unfold epM. cbn [INR]. rewrite Rmult_0_l, Rplus_0_r. apply Gam_1. Qed.
Lemma cR_pow h t : 0 < t -> continuous (fun t => Rpower t h) t.
Proof. intros H. eapply ex_derive_cont. dder; auto; reflexivity. Qed.
Lemma pow_pow t h n : Rpower t h ^ n = Rpower t (INR n * h).
Proof. rewrite <- Rpower_pow by pos. rewrite Rpower_mult. f_equal. ring. Qed.

Section Weibull.
Import Weibull.
Context {SP : Special xreal} (l k : R) (Hl : 0 < l) (Hk : 0 < k).
Notation d := (from (mkP (Fin l) (Fin k))).
Notation T x := (Rpower (x / l) k).
Notation u x := (k / l * Rpower (x / l) (k - 1) * exp (- T x)).
Lemma w_u_cont x : inside 0 p_infty x -> continuous (fun x => u x) x.
Proof. intros Hx%in0f. assert (0 < x / l) by pos. eapply ex_derive_cont. dder; try lra; auto; reflexivity. Qed.
Lemma w_u_pos x : inside 0 p_infty x -> 0 < u x. Proof. intros Hx%in0f. assert (0 < x / l) by pos. pos. Qed.
Lemma w_push phi v : (forall t, inside 0 p_infty t -> continuous phi t) -> is_RInt_gen (fun t => phi t * exp (- t)) (above 0) (below p_infty) v ->
  is_expectation 0 p_infty (pdf d) (fun x => phi (T x)) v.
Proof.
  intros Hphi Hv. apply (push_up 0 p_infty 0 p_infty (pdf d) (fun x => T x) (fun x => k / l * Rpower (x / l) (k - 1)) (fun t => l * Rpower t (1 / k)) (fun t => exp (- t))); auto; try exact I.
  - intros x Hx%in0f. apply in0. pos.
  - intros y Hy%in0f. split; [apply in0; pos|]. replace (l * Rpower y (1 / k) / l) with (Rpower y (1 / k)) by (field; lra). now rewrite Rpower_self_inv by lra.
  - intros x Hx%in0f. assert (0 < x / l) by pos. split; [dder; try lra; auto; field; lra|]. eapply ex_derive_cont. dder; try lra; auto; reflexivity.
  - intros t _. apply ei_cont.
  - intros x Hx%in0f. assert (0 < x / l) by pos. left. pos.
  - intros x Hx%in0f. now apply w_pdf.
Qed.
Lemma w_ab n : is_expectation 0 p_infty (pdf d) (fun x => ((x - 0) / l) ^ n) (epM (1 / k) n).
Proof.
  assert (0 <= INR n * (1 / k)) by (apply Rmult_le_pos; [apply pos_INR|left; pos]).
  eapply exp_in; [exact I| |apply (w_push (fun t => Rpower t (INR n * (1 / k)))); [intros t Ht%in0f; now apply cR_pow|apply ei_pow; lra]].
  intros x Hx%in0f. cbn beta. assert (0 < x / l) by pos. rewrite Rpower_mult, Rminus_0_r, <- Rpower_pow by auto. f_equal. field. lra.
Qed.
Ltac wab := first [apply w_ab | apply epM_0].
Notation G n := (epM (1 / k) n).
Notation V := (l * l * (G 2%nat - G 1%nat * G 1%nat)).
Lemma w_mean : is_mean 0 p_infty (pdf d) (l * G 1%nat).
Proof. apply (mean_about 0 p_infty _ 0 l (epM (1 / k))); try wab; lra. Qed.
Lemma w_variance : is_variance 0 p_infty (pdf d) (l * G 1%nat) V.
Proof. apply (variance_about 0 p_infty _ 0 l (epM (1 / k))); try wab; [lra|ring|ring]. Qed.
Lemma w_V : 0 < V.
Proof. apply (variance_pos 0 p_infty (pdf d) (fun x => u x) (l * G 1%nat)); [exact I|exact w_u_cont|exact w_u_pos|intros x Hx%in0f; now apply w_pdf|exact w_variance]. Qed.
Notation SK := ((G 3%nat * l * l * l - 3 * (l * G 1%nat) * V - l * G 1%nat * (l * G 1%nat) * (l * G 1%nat)) / (V * sqrt V)).
Lemma w_skewness : is_skewness 0 p_infty (pdf d) SK.
Proof.
  assert (HV := w_V). assert (HS : 0 < sqrt V) by (apply sqrt_lt_R0; exact HV).
  apply (skewness_about 0 p_infty _ 0 l (epM (1 / k)) ltac:(lra)) with (v := V); try wab; [ring|auto|].
  set (s := sqrt V) in *. clearbody s. set (W := V) in *. assert (EW : W = V) by reflexivity. clearbody W. 
  transitivity ((G 3%nat * l * l * l - 3 * (l * G 1%nat) * W - l * G 1%nat * (l * G 1%nat) * (l * G 1%nat))); [rewrite EW; ring|field; split; lra].
Qed.
Notation KU := ((12 * (G 1%nat * G 1%nat) * G 2%nat - 6 * (G 1%nat * G 1%nat) * (G 1%nat * G 1%nat) - 3 * G 2%nat * G 2%nat - 4 * G 1%nat * G 3%nat + G 4%nat)
   / ((G 2%nat - G 1%nat * G 1%nat) * (G 2%nat - G 1%nat * G 1%nat))).
Lemma w_D : 0 < G 2%nat - G 1%nat * G 1%nat.
Proof. assert (HV := w_V). assert (0 < l * l) by pos. apply Rmult_lt_reg_l with (l * l); lra. Qed.
Lemma w_kurtosis : is_kurtosis 0 p_infty (pdf d) (KU + 3).
Proof.
  assert (HV := w_V). assert (HD := w_D).
  apply (kurtosis_about 0 p_infty _ 0 l (epM (1 / k)) ltac:(lra)) with (v := V); try wab; [ring|auto|]. field. lra.
Qed.
Lemma w_entropy : is_entropy 0 p_infty (pdf d) (- psi 1 * (1 - 1 / k) + ln (l / k) + 1).
Proof.
  apply (entropy_exp _ _ _ (fun x => u x)); [exact I|intros x Hx%in0f; now apply w_pdf|].
  assert (A : is_expectation 0 p_infty (pdf d) (fun x => (1 / k - 1) * ln (T x) + (ln (l / k) * 1 + T x)) ((1 / k - 1) * psi 1 + (ln (l / k) * 1 + 1))).
  { apply exp_plus_; [apply exp_scal|apply exp_plus_; [apply exp_scal|]].
    - apply (w_push ln); [intros t Ht%in0f; now apply (ln_cont p_infty), in0|apply ei_ln].
    - apply (w_push (fun _ => 1)); [intros; apply continuous_const|apply ei_1].
    - apply (w_push (fun t => t)); [intros; apply continuous_id|apply ei_t]. }
  eapply exp_eq; [|]. eapply exp_in; [exact I| |exact A].
  - intros x Hx%in0f. cbn beta. assert (0 < x / l) by pos. rewrite ln_mult, ln_mult, ln_exp by pos. rewrite !ln_Rpower.
    replace (l / k) with (/ (k / l)) by (field; lra). rewrite ln_Rinv by pos. field. lra.
  - ring.
Qed.
Context (Hg : gamma_exact SP).
Lemma w_gamma_i n : gamma_i d (Fin (INR n)) = Fin (G n).
Proof.
  unfold gamma_i; cbn [pr from Weibull.k]. xs. rewrite sfg; [|auto|].
  - unfold epM. do 2 f_equal. f_equal. unfold Rdiv. ring.
  - assert (0 <= INR n / k) by (apply Rmult_le_pos; [apply pos_INR|left; pos]). lra.
Qed.
Lemma w_g1 : gamma_i d (f_of_Z 1) = Fin (G 1%nat). Proof. rewrite <- w_gamma_i. try reflexivity; f_equal; rewrite x_lit; apply f_equal; cbn; lra. Qed.
Lemma w_g2 : gamma_i d (f_of_Z 2) = Fin (G 2%nat). Proof. rewrite <- w_gamma_i. try reflexivity; f_equal; rewrite x_lit; apply f_equal; cbn; lra. Qed.
Lemma w_g3 : gamma_i d (f_of_Z 3) = Fin (G 3%nat). Proof. rewrite <- w_gamma_i. try reflexivity; f_equal; rewrite x_lit; apply f_equal; cbn; lra. Qed.
Lemma w_g4 : gamma_i d (f_of_Z 4) = Fin (G 4%nat). Proof. rewrite <- w_gamma_i. try reflexivity; f_equal; rewrite x_lit; apply f_equal; cbn; lra. Qed.
Lemma w_mean_val : mean d = Fin (l * G 1%nat).
Proof. unfold mean. rewrite w_g1. cbn [pr from lambda]. now xs. Qed.
Lemma w_var_val : variance d = Fin V.
Proof. unfold variance. rewrite w_g1, w_g2. cbn [pr from lambda]. now xs. Qed.
Lemma w_sk_val : skewness d = Fin SK.
Proof.
  assert (HV := w_V). assert (HS : 0 < sqrt V) by (apply sqrt_lt_R0; exact HV). unfold skewness. rewrite w_mean_val, w_var_val, w_g3. cbn [pr from lambda]. unfold THREE_HALVES. xs.
  rewrite pow32 by auto. reflexivity.
Qed.
Lemma w_ek_val : excess_kurtosis d = Fin KU.
Proof. assert (HD := w_D). unfold excess_kurtosis. rewrite w_g1, w_g2, w_g3, w_g4. now xs. Qed.
Lemma w_ent_val : digamma_exact SP -> shannon_entropy d = Fin (- psi 1 * (1 - 1 / k) + ln (l / k) + 1).
Proof. intros Hs. unfold shannon_entropy. cbn [pr from]. xs. rewrite sfpsi by (auto; lra). now xs. Qed.
End Weibull.

Section Frechet.
Import Frechet.
Context {SP : Special xreal} (a : R) (Ha : 0 < a).
Notation d := (new_unchecked (Fin a)).
Notation T x := (Rpower x (- a)).
Notation u x := (a * Rpower x (- 1 - a) * exp (- T x)).
Lemma f_u_cont x : inside 0 p_infty x -> continuous (fun x => u x) x.
Proof. intros Hx%in0f. eapply ex_derive_cont. dder; try lra; auto; reflexivity. Qed.
Lemma f_u_pos x : inside 0 p_infty x -> 0 < u x. Proof. intros Hx%in0f. pos. Qed.
Lemma f_pdf' x : inside 0 p_infty x -> pdf d (Fin x) = Fin (u x). Proof. intros Hx%in0f. now apply f_pdf. Qed.
Lemma f_push phi v : (forall t, inside 0 p_infty t -> continuous phi t) -> is_RInt_gen (fun t => phi t * exp (- t)) (above 0) (below p_infty) v ->
  is_expectation 0 p_infty (pdf d) (fun x => phi (T x)) v.
Proof.
  intros Hphi Hv. apply (push_down 0 p_infty 0 p_infty (pdf d) (fun x => T x) (fun x => - a * Rpower x (- a - 1)) (fun t => Rpower t (1 / - a)) (fun t => exp (- t))); auto; try exact I.
  - intros x Hx%in0f. apply in0. pos.
  - intros y Hy%in0f. split; [apply in0; pos|]. now rewrite Rpower_self_inv by lra.
  - intros x Hx%in0f. split; [dder; try lra; auto; field; lra|]. eapply ex_derive_cont. dder; try lra; auto; reflexivity.
  - intros t _. apply ei_cont.
  - intros x Hx%in0f. assert (0 < a * Rpower x (- a - 1)) by pos. lra.
  - intros x Hx%in0f. rewrite f_pdf by auto. f_equal. replace (-1 - a) with (- a - 1) by ring. ring.
Qed.
Notation h := (- (1 / a)).
Notation G n := (epM h n).
Lemma f_h n : INR n < a -> - (1) < INR n * h.
Proof. intros H. assert (INR n * (1 / a) < 1); [|lra]. apply Rmult_lt_reg_r with a; [auto|]. replace (INR n * (1 / a) * a) with (INR n) by (field; lra). lra. Qed.
Lemma f_ab n : INR n < a -> is_expectation 0 p_infty (pdf d) (fun x => ((x - 0) / 1) ^ n) (G n).
Proof.
  intros Hn. eapply exp_in; [exact I| |apply (f_push (fun t => Rpower t (INR n * h))); [intros t Ht%in0f; now apply cR_pow|now apply ei_pow, f_h]].
  intros x Hx%in0f. cbn beta. rewrite Rpower_mult, Rminus_0_r. replace (x / 1) with x by field. rewrite <- Rpower_pow by auto. f_equal. field. lra.
Qed.
Ltac fab := lazymatch goal with |- is_expectation _ _ _ _ _ => apply f_ab; cbn [INR]; lra | |- epM _ 0%nat = _ => apply epM_0 | |- _ => idtac end.
Notation V := (G 2%nat - G 1%nat * G 1%nat).
Lemma f_mean : 1 < a -> is_mean 0 p_infty (pdf d) (G 1%nat).
Proof. intros H. apply (mean_about 0 p_infty _ 0 1 (epM h)); try fab; lra. Qed.
Lemma f_variance : 2 < a -> is_variance 0 p_infty (pdf d) (G 1%nat) V.
Proof. intros H. apply (variance_about 0 p_infty _ 0 1 (epM h)); try fab; [lra|ring|ring]. Qed.
Lemma f_V : 2 < a -> 0 < V.
Proof. intros H. apply (variance_pos 0 p_infty (pdf d) (fun x => u x) (G 1%nat)); [exact I|exact f_u_cont|exact f_u_pos|exact f_pdf'|now apply f_variance]. Qed.
Notation SK := ((G 3%nat - 3 * G 2%nat * G 1%nat + 2 * G 1%nat * G 1%nat * G 1%nat) / sqrt (V * V * V)).
Lemma sqrt_cube v : 0 < v -> sqrt (v * v * v) = v * sqrt v.
Proof. intros H. rewrite sqrt_mult by (try (left; pos); lra). rewrite sqrt_square by lra. reflexivity. Qed.
Lemma f_skewness : 3 < a -> is_skewness 0 p_infty (pdf d) SK.
Proof.
  intros H. assert (HV := f_V ltac:(lra)). assert (HS : 0 < sqrt V) by (apply sqrt_lt_R0; exact HV). rewrite sqrt_cube by auto.
  apply (skewness_about 0 p_infty _ 0 1 (epM h) ltac:(lra)) with (v := V); try fab; [ring|auto|]. field. split; lra.
Qed.
Notation KU := ((G 4%nat - 4 * G 3%nat * G 1%nat + 3 * G 2%nat * G 2%nat) / (V * V) - 6).
Lemma f_kurtosis : 4 < a -> is_kurtosis 0 p_infty (pdf d) (KU + 3).
Proof.
  intros H. assert (HV := f_V ltac:(lra)). apply (kurtosis_about 0 p_infty _ 0 1 (epM h) ltac:(lra)) with (v := V); try fab; [ring|auto|]. field. lra.
Qed.
Lemma f_entropy : is_entropy 0 p_infty (pdf d) (1 + - psi 1 / a + - psi 1 + ln (1 / a)).
Proof.
  apply (entropy_exp _ _ _ (fun x => u x)); [exact I|exact f_pdf'|].
  assert (A : is_expectation 0 p_infty (pdf d) (fun x => - (1 / a + 1) * ln (T x) + (- ln a * 1 + T x)) (- (1 / a + 1) * psi 1 + (- ln a * 1 + 1))).
  { apply exp_plus_; [apply exp_scal|apply exp_plus_; [apply exp_scal|]].
    - apply (f_push ln); [intros t Ht%in0f; now apply (ln_cont p_infty), in0|apply ei_ln].
    - apply (f_push (fun _ => 1)); [intros; apply continuous_const|apply ei_1].
    - apply (f_push (fun t => t)); [intros; apply continuous_id|apply ei_t]. }
  eapply exp_eq; [eapply exp_in; [exact I| |exact A]|].
  - intros x Hx%in0f. cbn beta. rewrite ln_mult, ln_mult, ln_exp by pos. rewrite !ln_Rpower. field. lra.
  - unfold Rdiv. rewrite Rmult_1_l, ln_Rinv by auto. ring.
Qed.
(** a power tail of exponent a *)
Lemma f_tail x : 1 <= x -> a * exp (- (1)) * Rpower x (- a - 1) <= u x.
Proof.
  intros Hx. assert (T x <= 1). { apply Rle_trans with (Rpower x 0); [apply Rle_Rpower; lra|rewrite Rpower_O by lra; lra]. }
  replace (-1 - a) with (- a - 1) by ring. assert (exp (- (1)) <= exp (- T x)) by (apply exp_le_mono; lra). assert (0 < a * Rpower x (- a - 1)) by pos. nra.
Qed.
Lemma f_no n m v : a <= INR n -> ~ is_expectation 0 p_infty (pdf d) (fun x => (x - m) ^ n) v.
Proof. apply (no_central (fun x => u x) (pdf d) 1 (a * exp (- (1))) a f_pdf' f_u_cont); [lra|pos|intros; now apply f_tail]. Qed.
Lemma f_no_mean m : a <= 1 -> ~ is_mean 0 p_infty (pdf d) m.
Proof. apply (no_mean (fun x => u x) (pdf d) 1 (a * exp (- (1))) a f_pdf' f_u_cont); [lra|pos|intros; now apply f_tail]. Qed.
Lemma f_no_variance m v : a <= 2 -> ~ is_variance 0 p_infty (pdf d) m v.
Proof. apply (no_variance (fun x => u x) (pdf d) 1 (a * exp (- (1))) a f_pdf' f_u_cont); [lra|pos|intros; now apply f_tail]. Qed.
Lemma f_no_skewness s : a <= 3 -> ~ is_skewness 0 p_infty (pdf d) s.
Proof. apply (no_skewness (fun x => u x) (pdf d) 1 (a * exp (- (1))) a f_pdf' f_u_cont); [lra|pos|intros; now apply f_tail]. Qed.
Lemma f_no_kurtosis s : a <= 4 -> ~ is_kurtosis 0 p_infty (pdf d) s.
Proof. apply (no_kurtosis (fun x => u x) (pdf d) 1 (a * exp (- (1))) a f_pdf' f_u_cont); [lra|pos|intros; now apply f_tail]. Qed.
Context (Hg : gamma_exact SP).
Lemma f_gam n : INR n < a -> sf_gamma (Fin (1 - INR n / a)) = Fin (G n).
Proof. intros H. assert (B := f_h n H). rewrite sfg; [|auto|unfold Rdiv in *; lra]. unfold epM. do 2 f_equal. unfold Rdiv. ring. Qed.
Lemma f_g1 : 1 < a -> sf_gamma (Fin (1 - 1 / a)) = Fin (G 1%nat). Proof. intros. rewrite <- f_gam by (cbn [INR]; lra). now cbn [INR]. Qed.
Lemma f_g2 : 2 < a -> sf_gamma (Fin (1 - 2 / a)) = Fin (G 2%nat). Proof. intros. rewrite <- f_gam by (cbn [INR]; lra). reflexivity. Qed.
Lemma f_g3 : 3 < a -> sf_gamma (Fin (1 - 3 / a)) = Fin (G 3%nat). Proof. intros. rewrite <- f_gam by (cbn [INR]; lra). do 4 f_equal. cbn [INR]; lra. Qed.
Lemma f_g4 : 4 < a -> sf_gamma (Fin (1 - 4 / a)) = Fin (G 4%nat). Proof. intros. rewrite <- f_gam by (cbn [INR]; lra). do 4 f_equal. cbn [INR]; lra. Qed.
Ltac ff := unfold al; cbn [pr alpha new_unchecked]; xs; first [rewrite Rleb_false by lra | rewrite Rleb_true by lra]; cbv zeta iota.
Lemma f_mean_val : 1 < a -> mean d = Fin (G 1%nat).
Proof. intros H. unfold mean. ff. xs. now apply f_g1. Qed.
Lemma f_var_val : 2 < a -> variance d = Fin V.
Proof. intros H. unfold variance. ff. xs. rewrite f_g1, f_g2 by lra. now xs. Qed.
Lemma f_sk_val : 3 < a -> skewness d = Fin SK.
Proof. intros H. assert (HV := f_V ltac:(lra)). assert (0 < V * V * V) by pos. unfold skewness. ff. xs. rewrite f_g1, f_g2, f_g3 by lra. now xs. Qed.
Lemma f_ek_val : 4 < a -> excess_kurtosis d = Fin KU.
Proof. intros H. assert (HV := f_V ltac:(lra)). unfold excess_kurtosis. ff. xs. rewrite f_g1, f_g2, f_g3, f_g4 by lra. now xs. Qed.
Lemma f_mean_inf : a <= 1 -> mean d = PInf. Proof. intros H. unfold mean. ff. reflexivity. Qed.
Lemma f_var_inf : a <= 2 -> variance d = PInf. Proof. intros H. unfold variance. ff. reflexivity. Qed.
Lemma f_sk_inf : a <= 3 -> skewness d = PInf. Proof. intros H. unfold skewness. ff. reflexivity. Qed.
Lemma f_ek_inf : a <= 4 -> excess_kurtosis d = PInf. Proof. intros H. unfold excess_kurtosis. ff. reflexivity. Qed.
Lemma f_ent_val : digamma_exact SP -> shannon_entropy d = Fin (1 + - psi 1 / a + - psi 1 + ln (1 / a)).
Proof. intros Hs. unfold shannon_entropy, al. cbn [pr alpha new_unchecked]. xs. rewrite sfpsi by (auto; lra). now xs. Qed.
End Frechet.
