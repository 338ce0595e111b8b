(** * Entropies of Cauchy, Arcsine, Triangular, Rayleigh, LogNormal, Levy; moments of Levy and Cauchy *)
From Coq Require Import Reals Lra Lia Psatz List ZArith.
From Coquelicot Require Import Coquelicot.
From Verif.Num Require Import XReal.
From Verif.Model Require Import Rust Constraints Probability Params Consts Continuous Continuous2 Continuous3.
From Verif.Spec Require Import DistSpec GammaSpec ResSpec.
From Verif.Proofs Require Import XTac Calc Calc2 Improper GammaFun Subst Mellin Gauss Gauss2 HeavyTail ExpPush Oracle PsiHalf
  ContProofs1 ContProofs5 ContProofs6 ContProofs8 ContProofs9 ContProofs10 ContProofs11 ContProofs13 ContProofs15 ContProofs20 ContProofs21 ContProofs28.
Import ListNotations.
Open Scope R_scope.

Lemma ln_cont_pos t : 0 < t -> continuous ln t.
Proof. intros. eapply ex_derive_cont. apply is_derive_ln. auto. Qed.
Lemma Bet_half_half : Bet (1 / 2) (1 / 2) = PI.
Proof.
  assert (B := Beta_Gamma (1 / 2) (1 / 2) ltac:(lra) ltac:(lra)). replace (1 / 2 + 1 / 2) with 1 in B by field. rewrite Gam_1, Gam_half in B.
  assert (P := PI_RGT_0). rewrite sqrt_sqrt in B by lra. lra.
Qed.

(** ** Cauchy: Student's t with one degree of freedom, shifted and scaled *)
Section CauchyEnt.
Import Cauchy.
Context (m g : R) (Hg : 0 < g).
Notation d := (new_unchecked (Fin m) (Fin g)).
Lemma st1 x : st_u 1 x = 1 / PI / (1 + x * x).
Proof.
  assert (0 <= x * x) by apply Rle_0_sqr. assert (P := PI_RGT_0). unfold st_u. rewrite Bet_half_half. replace (- ((1 + 1) / 2)) with (- (1)) by field. rewrite Rpower_Ropp, Rpower_1 by lra.
  replace (Rpower 1 (1 / 2)) with 1 by (unfold Rpower; now rewrite ln_1, Rmult_0_r, exp_0). field. lra.
Qed.
Lemma ca_entropy : is_entropy m_infty p_infty (pdf d) (ln (4 * PI * g)).
Proof.
  assert (P := PI_RGT_0). assert (h1 : 0 < 1) by lra.
  assert (GE : gamma_exact (exact false)) by apply ex_gamma.
  assert (E := st_entropy_true (SP := exact false) GE 1 h1). unfold is_entropy in E.
  assert (E' : is_RInt_gen (fun t => - ln (1 / PI / (1 + t * t)) * (1 / PI / (1 + t * t))) (above m_infty) (below p_infty) (2 * ln 2 + ln PI)).
  { refine (gen_ext m_infty p_infty _ _ _ _ (gen_eq m_infty p_infty _ _ _ E _)).
    - intros x. unfold rf. rewrite st_pdf by auto. cbn [val]. rewrite st1. ring.
    - unfold st_ent. rewrite Bet_half_half, psi_half, sqrt_1. replace ((1 + 1) / 2) with 1 by field. replace (1 * PI) with PI by ring. ring. }
  assert (A : is_expectation m_infty p_infty (pdf d) (fun x => - ln (1 / PI / (1 + (x - m) / g * ((x - m) / g)))) (2 * ln 2 + ln PI)).
  { apply (push_up m_infty p_infty m_infty p_infty (pdf d) (fun x => (x - m) / g) (fun _ => / g) (fun t => m + g * t) (fun t => 1 / PI / (1 + t * t)) I I) with (phi := fun t => - ln (1 / PI / (1 + t * t))).
    - intros; split; exact I.
    - intros y _. split; [split; exact I|]. field. lra.
    - intros x _. split; [apply aff_derive; auto|apply continuous_const].
    - intros t _. assert (0 <= t * t) by apply Rle_0_sqr. eapply ex_derive_cont. auto_derive; [lra|reflexivity].
    - intros x _. left. pos.
    - intros x _. rewrite c_pdf by auto. f_equal. assert (0 <= (x - m) / g * ((x - m) / g)) by apply Rle_0_sqr. field. assert (0 <= (x - m) * (x - m)) by apply Rle_0_sqr. assert (0 < g * g) by pos. repeat split; lra.
    - intros t _. assert (0 <= t * t) by apply Rle_0_sqr. assert (0 < 1 / PI / (1 + t * t)) by pos. eapply ex_derive_cont. auto_derive; [repeat split; lra|reflexivity].
    - exact E'. }
  assert (T : is_expectation m_infty p_infty (pdf d) (fun _ => 1) 1).
  { destruct (c_coherent m g Hg) as [_ [_ _ T]]. unfold is_expectation. revert T. apply (gen_ext m_infty p_infty). intros x. ring. }
  apply (entropy_exp _ _ _ (fun x => 1 / PI / g / (1 + (x - m) / g * ((x - m) / g)))); [exact I|intros; now apply c_pdf|].
  eapply exp_eq; [eapply exp_in; [exact I| |apply exp_plus_; [exact A|apply (exp_scal _ _ _ (ln g)); exact T]]|].
  - intros x _. cbv beta. assert (0 <= (x - m) / g * ((x - m) / g)) by apply Rle_0_sqr. set (q := 1 + (x - m) / g * ((x - m) / g)) in *. assert (0 < q) by (unfold q; lra).
    unfold Rdiv. rewrite !ln_mult, !ln_Rinv by pos. ring.
  - rewrite (ln_mult (4 * PI)), ln_mult by pos. replace 4 with (2 * 2) by ring. rewrite ln_mult by lra. ring.
Qed.
Lemma ca_ent_val : shannon_entropy d = Fin (ln (4 * PI * g)).
Proof. unfold shannon_entropy. cbn [pr gamma new_unchecked]. assert (P := PI_RGT_0). now xs. Qed.
End CauchyEnt.

(** ** Arcsine: the Beta(1/2, 1/2) law, shifted and scaled *)
Section ArcsineEnt.
Import Arcsine.
Context (a0 w0 : R) (Hw : 0 < w0).
Notation d := (new_unchecked (Fin a0) (Fin w0)).
Notation lo := (Finite a0). Notation hi := (Finite (a0 + w0)).
Notation U x := ((x - a0) / w0).
Notation h := (fun t => / PI * beta_h (1 / 2) (1 / 2) t).
Lemma as_h x : inside lo hi x -> pdf d (Fin x) = Fin (/ w0 * h (U x)).
Proof.
  intros H. rewrite (as_pdf a0 w0) by auto. assert (HU := as_U a0 w0 Hw x H). apply as_in in H. assert (P := PI_RGT_0). f_equal. unfold beta_h.
  replace (1 / 2 - 1) with (- / 2) by field. rewrite !Rpower_Ropp, !Rpower_sqrt by lra.
  replace ((x - a0) * (a0 + w0 - x)) with ((w0 * w0) * (U x * (1 - U x))) by (field; lra).
  rewrite sqrt_mult, sqrt_square, sqrt_mult by (try pos; left; pos). assert (0 < sqrt (U x)) by (apply sqrt_lt_R0; lra). assert (0 < sqrt (1 - U x)) by (apply sqrt_lt_R0; lra). field. repeat split; lra.
Qed.
Lemma as_push phi v : (forall t, inside 0 1 t -> continuous phi t) -> is_RInt_gen (fun t => phi t * beta_h (1 / 2) (1 / 2) t) (above 0) (below 1) (v * PI) ->
  is_expectation lo hi (pdf d) (fun x => phi (U x)) v.
Proof.
  intros Hphi Hv. assert (P := PI_RGT_0).
  apply (push_up lo hi 0 1 (pdf d) (fun x => U x) (fun _ => / w0) (fun t => a0 + w0 * t) h); auto.
  - cbn; lra. - cbn; lra.
  - intros x Hx. apply in01. now apply as_U.
  - intros y Hy%in01f. split; [split; cbn; nra|]. field. lra.
  - intros x _. split; [apply aff_derive; auto|apply continuous_const].
  - intros t Ht. apply (continuous_mult (K := R_AbsRing) (fun _ => / PI) (beta_h (1 / 2) (1 / 2))); [apply continuous_const|now apply bh_cont].
  - intros x _. left. pos.
  - intros x Hx. now apply as_h.
  - refine (gen_ext 0 1 _ _ _ _ (gen_eq 0 1 _ _ _ (gen_scal 0 1 _ (/ PI) _ Hv) _)); [intros t; ring|field; lra].
Qed.
Lemma as_entropy : is_entropy lo hi (pdf d) (ln (PI / 4 * w0)).
Proof.
  assert (P := PI_RGT_0). assert (h2 : 0 < 1 / 2) by lra.
  assert (A0 := B_in _ _ _ (Bet_spec (1 / 2) (1 / 2) h2 h2)). assert (A1 := Bet_ln_int (1 / 2) (1 / 2) h2 h2). assert (A2 := Bet_ln1_int (1 / 2) (1 / 2) h2 h2).
  rewrite Bet_half_half in A0, A1, A2. replace (1 / 2 + 1 / 2) with 1 in A1, A2 by field. rewrite psi_half in A1, A2.
  assert (A : is_expectation lo hi (pdf d) (fun x => 1 / 2 * ln (U x) + (1 / 2 * ln (1 - U x) + ln (PI * w0) * 1)) (1 / 2 * (- 2 * ln 2) + (1 / 2 * (- 2 * ln 2) + ln (PI * w0) * 1))).
  { apply exp_plus_; [apply exp_scal|apply exp_plus_; [apply exp_scal|apply exp_scal]].
    - apply (as_push ln); [intros t Ht%in01f; apply ln_cont_pos; lra|]. refine (gen_eq 0 1 _ _ _ A1 _). ring.
    - apply (as_push (fun t => ln (1 - t))); [intros t Ht%in01f; eapply ex_derive_cont; dder; [lra|reflexivity]|]. refine (gen_eq 0 1 _ _ _ A2 _). ring.
    - apply (as_push (fun _ => 1)); [intros; apply continuous_const|]. refine (gen_ext 0 1 _ _ _ _ (gen_eq 0 1 _ _ _ A0 _)); [intros; ring|ring]. }
  apply (entropy_exp _ _ _ (fun x => / w0 * h (U x))); [cbn; lra|intros; now apply as_h|].
  eapply exp_eq; [eapply exp_in; [cbn; lra| |exact A]|].
  - intros x Hx. assert (HU := as_U a0 w0 Hw x Hx). cbv beta. unfold beta_h. assert (0 < 1 - U x) by lra. assert (0 < U x) by lra.
    rewrite (ln_mult (/ w0)), (ln_mult (/ PI)), ln_mult, !ln_Rinv, !ln_Rpower, (ln_mult PI) by pos. field.
  - unfold Rdiv. rewrite !ln_mult, ln_Rinv by pos. replace 4 with (2 * 2) by ring. rewrite ln_mult by lra. field.
Qed.
Lemma as_ent_val : shannon_entropy d = Fin (ln (PI / 4)).
Proof. assert (P := PI_RGT_0). unfold shannon_entropy, PI_OVER_4. now xs. Qed.
End ArcsineEnt.

(** ** Rayleigh: x^2 / (2 s^2) is exponential *)
Section RayleighEnt.
Import Rayleigh.
Context (s : R) (Hs : 0 < s).
Notation d := (new_unchecked (Fin s)).
Notation T x := (x * x / (s * s) / 2).
Lemma ra_u x : pdf d (Fin x) = Fin (x / (s * s) * exp (- T x)).
Proof. assert (0 < s * s) by pos. unfold pdf; cbn [pr sigma new_unchecked]. cbv zeta. xs. f_equal. f_equal. f_equal. field. lra. Qed.
Lemma ra_push phi v : (forall t, inside 0 p_infty t -> continuous phi t) -> is_RInt_gen (fun t => phi t * exp (- t)) (above 0) (below p_infty) v ->
  is_expectation 0 p_infty (pdf d) (fun x => phi (T x)) v.
Proof.
  intros Hphi Hv. assert (0 < s * s) by pos.
  apply (push_up 0 p_infty 0 p_infty (pdf d) (fun x => T x) (fun x => x / (s * s)) (fun t => s * sqrt (2 * t)) (fun t => exp (- t)) I I); auto.
  - intros x Hx%in0f. apply in0. pos.
  - intros y Hy%in0f. assert (0 < sqrt (2 * y)) by (apply sqrt_lt_R0; lra). split; [apply in0; pos|]. replace (s * sqrt (2 * y) * (s * sqrt (2 * y))) with (s * s * (sqrt (2 * y) * sqrt (2 * y))) by ring. rewrite sqrt_sqrt by lra. field. lra.
  - intros x _. split; [dder; try lra; field; lra|eapply ex_derive_cont; auto_derive; [lra|reflexivity]].
  - intros t _. apply ei_cont.
  - intros x Hx%in0f. left. pos.
  - intros x _. apply ra_u.
Qed.
Lemma ra_entropy : is_entropy 0 p_infty (pdf d) (1 + ln (s / sqrt 2) + - psi 1 / 2).
Proof.
  assert (0 < s * s) by pos. assert (0 < sqrt 2) by pos.
  apply (entropy_exp _ _ _ (fun x => x / (s * s) * exp (- T x))); [exact I|intros; apply ra_u|].
  assert (A : is_expectation 0 p_infty (pdf d) (fun x => - (1 / 2) * ln (T x) + (1 * T x + (ln s - ln 2 / 2) * 1)) (- (1 / 2) * psi 1 + (1 * 1 + (ln s - ln 2 / 2) * 1))).
  { apply exp_plus_; [apply exp_scal|apply exp_plus_; [apply exp_scal|apply exp_scal]].
    - apply (ra_push ln); [intros t Ht%in0f; now apply ln_cont_pos|apply ei_ln].
    - apply (ra_push (fun t => t)); [intros; apply continuous_id|apply ei_t].
    - apply (ra_push (fun _ => 1)); [intros; apply continuous_const|apply ei_1]. }
  eapply exp_eq; [eapply exp_in; [exact I| |exact A]|].
  - intros x Hx%in0f. cbv beta. assert (0 < T x) by pos. rewrite ln_mult, ln_exp by pos. unfold Rdiv. rewrite !ln_mult, !ln_Rinv, ln_mult by pos. field. lra.
  - unfold Rdiv. rewrite (ln_mult s), ln_Rinv, ln_sqrt' by pos. field.
Qed.
Lemma ra_ent_val {SP : Special xreal} : digamma_exact SP -> shannon_entropy d = Fin (1 + ln (s / sqrt 2) + - psi 1 / 2).
Proof. intros Hd. assert (0 < sqrt 2) by pos. unfold shannon_entropy. cbn [pr sigma new_unchecked]. xs. rewrite sfpsi by (auto; lra). now xs. Qed.
End RayleighEnt.

(** ** Levy: c / 2(x - m) has the Gamma(1/2) law *)
Section LevyEnt.
Import Levy.
Context (m c0 : R) (Hc : 0 < c0).
Notation d := (new_unchecked (Fin m) (Fin c0)).
Notation T x := (c0 / 2 / (x - m)).
Notation h := (fun t => / sqrt PI * gamma_h (1 / 2) t).
Lemma lv_h x : inside m p_infty x -> pdf d (Fin x) = Fin (- (- (c0 / 2) / ((x - m) * (x - m))) * h (T x)).
Proof.
  intros H. rewrite (lv_pdf m c0 Hc) by auto. apply lv_in in H. assert (P := PI_RGT_0). assert (0 < sqrt PI) by pos. f_equal. unfold lvg, gamma_h.
  replace (- (c0 / 2) / (x - m)) with (- T x) by (field; lra). rewrite (Rpower_32 (x - m)) by auto. replace (1 / 2 - 1) with (- / 2) by field. rewrite Rpower_Ropp, Rpower_sqrt by pos.
  rewrite sqrt_div_alt by auto. rewrite (sqrt_div_alt (c0 / 2)) by auto. assert (HS : 0 < sqrt (c0 / 2)) by pos. assert (HY : 0 < sqrt (x - m)) by (apply sqrt_lt_R0; lra).
  assert (E1 := sqrt_sqrt (c0 / 2) ltac:(lra)). assert (E2 := sqrt_sqrt (x - m) ltac:(lra)).
  set (p := sqrt (c0 / 2)) in *. set (q := sqrt (x - m)) in *. assert (E3 : c0 / 2 = p * p) by lra. assert (E4 : x - m = q * q) by lra.
  generalize (exp (- (c0 / 2 / (x - m)))). intros e. rewrite E3, E4. field. repeat split; lra.
Qed.
Lemma lv_push phi v : (forall t, inside 0 p_infty t -> continuous phi t) -> is_RInt_gen (fun t => phi t * gamma_h (1 / 2) t) (above 0) (below p_infty) (v * sqrt PI) ->
  is_expectation m p_infty (pdf d) (fun x => phi (T x)) v.
Proof.
  intros Hphi Hv. assert (P := PI_RGT_0). assert (0 < sqrt PI) by pos.
  apply (push_down m p_infty 0 p_infty (pdf d) (fun x => T x) (fun x => - (c0 / 2) / ((x - m) * (x - m))) (fun t => m + c0 / 2 / t) h I I); auto.
  - intros x Hx%lv_in. apply in0. pos.
  - intros y Hy%in0f. assert (0 < c0 / 2 / y) by pos. split; [split; [cbn; lra|exact I]|]. field. lra.
  - intros x Hx%lv_in. assert (0 < (x - m) * (x - m)) by pos. split; [dder; try lra; field; lra|eapply ex_derive_cont; auto_derive; [lra|reflexivity]].
  - intros t Ht. apply (continuous_mult (K := R_AbsRing) (fun _ => / sqrt PI) (gamma_h (1 / 2))); [apply continuous_const|now apply gh_cont].
  - intros x Hx%lv_in. assert (0 < c0 / 2 / ((x - m) * (x - m))) by pos. unfold Rdiv in *. lra.
  - intros x Hx. now apply lv_h.
  - refine (gen_ext 0 p_infty _ _ _ _ (gen_eq 0 p_infty _ _ _ (gen_scal 0 p_infty _ (/ sqrt PI) _ Hv) _)); [intros t; ring|field; lra].
Qed.
Lemma lv_entropy : is_entropy m p_infty (pdf d) ((1 + 3 * - psi 1 + ln (16 * PI * c0 * c0)) / 2).
Proof.
  assert (P := PI_RGT_0). assert (HP : 0 < sqrt PI) by pos. assert (h2 : 0 < 1 / 2) by lra.
  assert (A0 := G_in _ _ (Gam_spec (1 / 2) h2)). assert (A1 := Gam_ln_int (1 / 2) h2). assert (A2 := G_in _ _ (Gam_spec (1 / 2 + 1) ltac:(lra))).
  rewrite Gam_rec in A2 by lra. rewrite Gam_half in A0, A1, A2. rewrite psi_half in A1.
  assert (A : is_expectation m p_infty (pdf d) (fun x => - (3 / 2) * ln (T x) + (1 * T x + (ln (c0 / 2) + ln PI / 2) * 1)) (- (3 / 2) * (psi 1 - 2 * ln 2) + (1 * (1 / 2) + (ln (c0 / 2) + ln PI / 2) * 1))).
  { apply exp_plus_; [apply exp_scal|apply exp_plus_; [apply exp_scal|apply exp_scal]].
    - apply (lv_push ln); [intros t Ht%in0f; now apply ln_cont_pos|exact A1].
    - apply (lv_push (fun t => t)); [intros; apply continuous_id|]. revert A2. apply (is_RInt_gen_inside 0 p_infty); [exact I|]. intros t Ht%in0f. unfold gamma_h. replace (1 / 2 + 1 - 1) with (1 / 2 - 1 + 1) by ring. rewrite Rpower_plus, Rpower_1 by auto. ring.
    - apply (lv_push (fun _ => 1)); [intros; apply continuous_const|]. refine (gen_ext 0 p_infty _ _ _ _ (gen_eq 0 p_infty _ _ _ A0 _)); [intros; ring|ring]. }
  apply (entropy_exp _ _ _ (fun x => - (- (c0 / 2) / ((x - m) * (x - m))) * h (T x))); [exact I|intros; now apply lv_h|].
  eapply exp_eq; [eapply exp_in; [exact I| |exact A]|].
  - intros x Hx%lv_in. cbv beta. assert (0 < T x) by pos. assert (0 < (x - m) * (x - m)) by pos. unfold gamma_h.
    replace (- (- (c0 / 2) / ((x - m) * (x - m)))) with (T x * T x / (c0 / 2)) by (field; lra).
    rewrite (ln_mult (T x * T x / (c0 / 2))), (ln_mult (/ sqrt PI)), (ln_mult (Rpower _ _)), ln_exp, ln_Rpower, ln_Rinv, ln_sqrt', ln_div', (ln_mult (T x)) by pos. field. lra.
  - unfold Rdiv. rewrite !ln_mult, ln_Rinv by pos. replace 16 with (2 * 2 * 2 * 2) by ring. rewrite !ln_mult by lra. field.
Qed.
Lemma lv_ent_val {SP : Special xreal} : digamma_exact SP -> shannon_entropy d = Fin ((1 + 3 * - psi 1 + ln (16 * PI * c0 * c0)) / 2).
Proof. intros Hd. assert (P := PI_RGT_0); assert (0 < 16 * PI * c0 * c0) by pos. unfold shannon_entropy, PI_16. cbn [pr c new_unchecked]. xs. rewrite sfpsi by (auto; lra). xs. do 4 f_equal. ring. Qed.
Notation X0 := (1 + Rabs m).
Notation C := (sqrt (c0 / 2 / PI) * exp (- (c0 / 2)) / Rpower 2 (3 / 2)).
Lemma lv_cont x : inside m p_infty x -> continuous (lvg m c0) x.
Proof. intros Hx%lv_in. unfold lvg. eapply ex_derive_cont. assert (0 < Rpower (x - m) (3 / 2)) by pos. dder; try lra; reflexivity. Qed.
Lemma lv_tail x : X0 <= x -> C * Rpower x (- (1 / 2) - 1) <= lvg m c0 x.
Proof.
  intros Hx. assert (P := PI_RGT_0). assert (B := Rle_abs m). assert (B' := Rle_abs (- m)). rewrite Rabs_Ropp in B'. assert (B0 := Rabs_pos m). assert (0 < x - m) by lra. assert (0 < x) by lra.
  assert (E1 : exp (- (c0 / 2)) <= exp (- (c0 / 2) / (x - m))).
  { apply exp_le_mono. unfold Rdiv at 2. assert (/ (x - m) <= 1) by (rewrite <- Rinv_1; apply Rinv_le_contravar; lra). nra. }
  assert (E2 : Rpower (x - m) (3 / 2) <= Rpower 2 (3 / 2) * Rpower x (3 / 2)) by (rewrite Rpower_mult_distr by lra; apply Rpower_le_mono; lra).
  replace (- (1 / 2) - 1) with (- (3 / 2)) by field. rewrite Rpower_Ropp. unfold lvg.
  assert (0 < Rpower (x - m) (3 / 2)) by pos. assert (0 < sqrt (c0 / 2 / PI)) by pos.
  replace (C * / Rpower x (3 / 2)) with (sqrt (c0 / 2 / PI) * exp (- (c0 / 2)) / (Rpower 2 (3 / 2) * Rpower x (3 / 2))) by (assert (0 < Rpower 2 (3 / 2)) by pos; assert (0 < Rpower x (3 / 2)) by pos; field; split; lra).
  apply Rmult_le_compat; [left; pos|left; pos| |now apply Rinv_le_contravar]. apply Rmult_le_compat_l; [lra|auto].
Qed.
Let HX : m < X0. Proof. assert (B := Rle_abs m). lra. Qed.
Let HX' : 0 < X0. Proof. assert (B := Rabs_pos m). lra. Qed.
Let HC : 0 < C. Proof. assert (P := PI_RGT_0). assert (0 < sqrt (c0 / 2 / PI)) by pos. pos. Qed.
Lemma lv_no_mean v : ~ is_mean m p_infty (pdf d) v.
Proof. apply (lo_no_mean m (lvg m c0) (pdf d) X0 _ (1 / 2) (lv_pdf m c0 Hc) lv_cont HX HX' HC lv_tail). lra. Qed.
Lemma lv_no_variance v w : ~ is_variance m p_infty (pdf d) v w.
Proof. apply (lo_no_variance m (lvg m c0) (pdf d) X0 _ (1 / 2) (lv_pdf m c0 Hc) lv_cont HX HX' HC lv_tail). lra. Qed.
Lemma lv_no_skewness v : ~ is_skewness m p_infty (pdf d) v.
Proof. apply (lo_no_skewness m (lvg m c0) (pdf d) X0 _ (1 / 2) (lv_pdf m c0 Hc) lv_cont HX HX' HC lv_tail). lra. Qed.
Lemma lv_no_kurtosis v : ~ is_kurtosis m p_infty (pdf d) v.
Proof. apply (lo_no_kurtosis m (lvg m c0) (pdf d) X0 _ (1 / 2) (lv_pdf m c0 Hc) lv_cont HX HX' HC lv_tail). lra. Qed.
End LevyEnt.

(** ** Triangular *)
Section TriEnt.
Import Triangular.
Context (a0 p0 q0 : R) (Hp : 0 < p0) (Hq : 0 < q0).
Notation d := (new_unchecked (Fin a0) (Fin p0) (Fin q0)).
Notation c0 := (a0 + p0). Notation b0 := (a0 + p0 + q0).
Notation lo := (Finite a0). Notation hi := (Finite b0).
Notation g1 := (fun x => 2 * (x - a0) / (b0 - a0) / (c0 - a0)).
Notation g2 := (fun x => 2 * (b0 - x) / (b0 - a0) / (b0 - c0)).
Notation cd := (fun x => unwrap (cdf d x)).
Notation w := (p0 + q0).
(** antiderivatives of - f ln f for f linear *)
Notation A1 := (fun x => (w * p0 / 2) * (g1 x * (g1 x / 4) - (g1 x * ln (g1 x)) * (g1 x / 2))).
Notation A2 := (fun x => - (w * q0 / 2) * (g2 x * (g2 x / 4) - (g2 x * ln (g2 x)) * (g2 x / 2))).
Notation K := (A1 c0 - A2 c0).
Lemma te_g1 x : a0 < x -> 0 < g1 x.
Proof. intros. replace (b0 - a0) with w by ring. replace (c0 - a0) with p0 by ring. assert (0 < x - a0) by lra. pos. Qed.
Lemma te_g2 x : x < b0 -> 0 < g2 x.
Proof. intros. replace (b0 - a0) with w by ring. replace (b0 - c0) with q0 by ring. assert (0 < b0 - x) by lra. pos. Qed.
Lemma te_A1 x : a0 < x -> is_derive A1 x (- (g1 x * ln (g1 x))).
Proof.
  intros Hx. assert (H := te_g1 x Hx). cbv beta in *. auto_derive; [repeat split; auto|]. unfold Rdiv, Rminus in *. 
  match goal with |- context [ln ?e] => set (L := ln e) end. field. lra.
Qed.
Lemma te_A2 x : x < b0 -> is_derive (fun x => A2 x + K) x (- (g2 x * ln (g2 x))).
Proof.
  intros Hx. eapply is_derive_eq; [apply dR_plus; [|apply dR_c]|apply Rplus_0_r]. assert (H := te_g2 x Hx). cbv beta in *. auto_derive; [repeat split; auto|].
  unfold Rdiv, Rminus in *. match goal with |- context [ln ?e] => set (L := ln e) end. field. lra.
Qed.
Lemma te_u x : a0 < x < b0 -> 0 < glue c0 g1 g2 x.
Proof. intros H. unfold glue. destruct (Rle_dec x c0); [apply te_g1|apply te_g2]; lra. Qed.
Lemma tr_entropy : is_entropy lo hi (density_of cd) (1 / 2 + ln (w / 2)).
Proof.
  apply (entropy_intro _ _ _ (glue c0 g1 g2) (glue c0 A1 (fun x => A2 x + K)) 0 K).
  - cbn; lra.
  - intros; now apply tr_density.
  - intros x Hx; apply tr_in in Hx. apply glue_derive; [cbv beta; ring|intros H|intros H].
    + rewrite glue_l by auto. apply te_A1. lra.
    + rewrite glue_r' by (auto; apply tr_g_eq; auto). apply te_A2. lra.
  - intros x Hx; apply tr_in in Hx. apply (continuous_opp (V := R_NormedModule) (fun x => glue c0 g1 g2 x * ln (glue c0 g1 g2 x))).
    apply (continuous_mult (K := R_AbsRing) (glue c0 g1 g2) (fun x => ln (glue c0 g1 g2 x))); [now apply tr_cont|].
    apply (continuous_comp (glue c0 g1 g2) ln); [now apply tr_cont|]. apply ln_cont_pos. now apply te_u.
  - apply (filterlim_ext_loc A1).
    { generalize (above_lt lo hi c0 ltac:(split; cbn; lra)). apply filter_imp. intros x [_ Hx]. symmetry. exact (glue_l c0 A1 (fun x => A2 x + K) x Hx). }
    assert (L0 : filterlim g1 (above lo) (locally 0)) by (apply lim_above_cont; [cont_auto; lra|field; lra]).
    assert (L1 : filterlim (fun x => g1 x * ln (g1 x)) (above lo) (locally 0)).
    { apply lim_xlnx; [apply _| |exact L0]. generalize (above_lt lo hi c0 ltac:(split; cbn; lra)). apply filter_imp. intros x [Hx _]. apply tr_in in Hx. apply te_g1. lra. }
    eapply fl_eq; [apply fl_mult; [apply fl_const|apply fl_minus; apply fl_mult; [exact L0|apply fl_mult; [exact L0|apply fl_const]|exact L1|apply fl_mult; [exact L0|apply fl_const]]]|ring].
  - apply (filterlim_ext_loc (fun x => A2 x + K)).
    { generalize (below_gt lo hi c0 ltac:(split; cbn; lra)). apply filter_imp. intros x [_ Hx]. symmetry. apply (glue_r' c0 A1 (fun x => A2 x + K) x); [cbv beta; ring|auto]. }
    assert (L0 : filterlim g2 (below hi) (locally 0)) by (apply lim_below_cont; [cont_auto; lra|field; lra]).
    assert (L1 : filterlim (fun x => g2 x * ln (g2 x)) (below hi) (locally 0)).
    { apply lim_xlnx; [apply _| |exact L0]. generalize (below_gt lo hi c0 ltac:(split; cbn; lra)). apply filter_imp. intros x [Hx _]. apply tr_in in Hx. apply te_g2. lra. }
    eapply fl_eq; [apply fl_plus; [apply fl_mult; [apply fl_const|apply fl_minus; apply fl_mult; [exact L0|apply fl_mult; [exact L0|apply fl_const]|exact L1|apply fl_mult; [exact L0|apply fl_const]]]|apply fl_const]|ring].
  - cbv beta. replace (2 * (c0 - a0) / (b0 - a0) / (c0 - a0)) with (2 / w) by (field; lra). replace (2 * (b0 - c0) / (b0 - a0) / (b0 - c0)) with (2 / w) by (field; lra).
    assert (0 < w) by lra. rewrite !ln_div' by lra. field. lra.
Qed.
Lemma tr_ent_val : shannon_entropy d = Fin (1 + ln (w / 2)).
Proof.
  unfold shannon_entropy, b, c. cbn [pr a a2c c2b new_unchecked]. xs. replace (b0 - a0) with w by ring. assert (0 < w / 2) by pos. now xs.
Qed.
End TriEnt.

(** ** LogNormal *)
Section LogNormalEnt.
Import LogNormal.
Context (m S : R) (HS : 0 < S).
Context {SP : Special xreal} (Hn : forall x, sf_norm (Fin x) = Fin (Phi x)).
Notation d := (new_unchecked (Fin m) (Fin S)).
Notation s := (sqrt S).
Notation cd := (fun x => unwrap (cdf d x)).
Notation zz x := ((ln x - m) / s).
Notation L := (ln s + ln (2 * PI) / 2).
Notation H := (m + 1 / 2 + L).
Lemma lne_ln x : 0 < x -> ln (lng m S x) = - (L + m + s * zz x + zz x * zz x / 2).
Proof.
  intros Hx. assert (P := PI_RGT_0). assert (H0 : 0 < s) by now apply sqrt_lt_R0. assert (Q := sqrt2PI_pos). unfold lng.
  replace (phi (zz x)) with (exp (- (zz x * zz x / 2)) / sqrt (2 * PI)) by (rewrite <- phi_exp; field; lra).
  assert (0 < 2 * PI) by pos. rewrite ln_div', ln_div', ln_exp, ln_mult, ln_sqrt' by (try assumption; pos). field. lra.
Qed.
Lemma ln_entropy_true : is_entropy 0 p_infty (density_of cd) H.
Proof.
  assert (H0 : 0 < s) by now apply sqrt_lt_R0.
  apply (entropy_intro 0 p_infty (density_of cd) (lng m S) (fun x => H * Phi (zz x) + peval [- s; - (1 / 2)] (zz x) * phi (zz x)) 0 H).
  - exact I. - intros; now apply ln_density.
  - intros x Hx%in0f. rewrite lne_ln by auto. 
    assert (D : is_derive (fun t => H * Phi t + peval [- s; - (1 / 2)] t * phi t) (zz x) (phi (zz x) * (L + m + s * zz x + zz x * zz x / 2))).
    { eapply is_derive_eq; [apply dR_plus; [apply dR_mult; [apply dR_c|apply Phi_derive]|apply (dR_mult (peval [- s; - (1 / 2)]) phi); [|apply phi_derive]]|].
      - cbn. instantiate (1 := - (1 / 2)). auto_derive; [auto|ring].
      - cbn [peval]. field. lra. }
    eapply is_derive_eq; [exact (lnz_comp m S HS _ x _ Hx D)|]. unfold lng. field. lra.
  - intros x Hx%in0f. apply (continuous_opp (V := R_NormedModule) (fun x => lng m S x * ln (lng m S x))).
    assert (HC := lng_cont m S HS x Hx). apply (continuous_mult (K := R_AbsRing) (lng m S) (fun x => ln (lng m S x))); [auto|].
    apply (continuous_comp (lng m S) ln); [auto|]. apply ln_cont_pos. unfold lng. assert (A := phi_pos (zz x)). pos.
  - eapply fl_eq; [apply fl_plus; [apply fl_mult; [apply fl_const|apply (lnz_lim_lo m S HS Phi), Phi_lim_m]|apply (lnz_lim_lo m S HS (fun t => peval [- s; - (1 / 2)] t * phi t)), poly_phi_m]|ring].
  - eapply fl_eq; [apply fl_plus; [apply fl_mult; [apply fl_const|apply (lnz_lim_hi m S HS Phi), Phi_lim_p]|apply (lnz_lim_hi m S HS (fun t => peval [- s; - (1 / 2)] t * phi t)), poly_phi_p]|ring].
  - ring.
Qed.
Lemma ln_ent_val : shannon_entropy d = Fin ((H + ln S / 2) / ln 2).
Proof.
  assert (P := PI_RGT_0). assert (Q := sqrt2PI_pos). assert (H0 : 0 < s) by now apply sqrt_lt_R0. assert (0 < S * exp (m + 1 / 2) * sqrt (2 * PI)) by pos.
  unfold shannon_entropy, mu, sigma, new_unchecked, PI_2; cbn [nrm UvNormal.pr UvNormal.mu UvNormal.Sigma UvNormal.new_unchecked]. xs.
  f_equal. f_equal. rewrite (ln_mult (S * exp (m + 1 / 2))), (ln_mult S), ln_exp, !ln_sqrt' by (try assumption; pos). rewrite (Rmult_comm PI 2). field.
Qed.
End LogNormalEnt.
