(** * The folded normal *)
From Coq Require Import Reals Lra Lia Psatz List ZArith.
From Coquelicot Require Import Coquelicot.
From Verif.Num Require Import Scalar XReal.
From Verif.Model Require Import Rust Constraints Probability Params Consts Continuous2 Continuous3.
From Verif.Spec Require Import DistSpec GammaSpec ResSpec.
From Verif.Proofs Require Import XTac Calc Calc2 Gauss Gauss2 Improper GammaFun Subst Mellin Unique ContProofs8 ContProofs13 ContProofs14 ContProofs16.
Import ListNotations.
Open Scope R_scope.

(** ** inequalities for cosh *)
Lemma mono0 (f f' : R -> R) (x : R) : (forall t, is_derive f t (f' t)) -> (forall t, 0 <= t -> 0 <= f' t) -> 0 <= x -> f 0 <= f x.
Proof.
  intros Hd Hp Hx. destruct (MVT_gen f 0 x f') as (c & Hc & E); [intros; apply Hd| |].
  - intros t _. apply continuity_pt_filterlim. apply (ex_derive_continuous (V:=R_NormedModule) f t). exists (f' t). apply Hd.
  - rewrite Rmin_left, Rmax_right in Hc by lra. assert (0 <= f' c) by (apply Hp; lra). assert (0 <= f' c * (x - 0)) by (apply Rmult_le_pos; lra). lra.
Qed.
Lemma exp_pair t : 2 <= exp t + exp (- t).
Proof. assert (E : exp t * exp (- t) = 1) by (rewrite <- exp_plus; replace (t + - t) with 0 by ring; apply exp_0). assert (P := exp_pos t). assert (Q := exp_pos (- t)). set (a := exp t) in *. set (b := exp (- t)) in *. apply Rnot_lt_le. intros Hl. assert (G := Rle_0_sqr (a - b)). unfold Rsqr in G. assert (0 < (2 - (a + b)) * (2 + (a + b))) by (apply Rmult_lt_0_compat; lra). nra. Qed.
Lemma sinh_ge t : 0 <= t -> 2 * t <= exp t - exp (- t).
Proof.
  intros Ht. assert (A := mono0 (fun t => exp t - exp (- t) - 2 * t) (fun t => exp t + exp (- t) - 2) t). cbv beta in A. rewrite Ropp_0, exp_0 in A.
  specialize (A ltac:(intros y; auto_derive; [exact I|ring]) ltac:(intros y _; assert (G := exp_pair y); lra) Ht). lra.
Qed.
Lemma cosh_ge t : 0 <= t -> 2 + t * t <= exp t + exp (- t).
Proof.
  intros Ht. assert (A := mono0 (fun t => exp t + exp (- t) - t * t) (fun t => exp t - exp (- t) - 2 * t) t). cbv beta in A. rewrite Ropp_0, exp_0 in A.
  specialize (A ltac:(intros y; auto_derive; [exact I|ring]) ltac:(intros y Hy; assert (G := sinh_ge y Hy); lra) Ht). lra.
Qed.
Lemma tanh_le t : 0 <= t -> exp t - exp (- t) <= t * (exp t + exp (- t)).
Proof.
  intros Ht. assert (A := mono0 (fun t => t * (exp t + exp (- t)) - (exp t - exp (- t))) (fun t => t * (exp t - exp (- t))) t). cbv beta in A. rewrite Ropp_0, exp_0 in A.
  specialize (A ltac:(intros y; auto_derive; [exact I|ring]) ltac:(intros y Hy; assert (G := sinh_ge y Hy); apply Rmult_le_pos; lra) Ht). lra.
Qed.
Lemma cosh_le t : 0 <= t -> exp t + exp (- t) <= 2 * exp (t * t / 2).
Proof.
  intros Ht. assert (A := mono0 (fun t => t * t / 2 - ln (exp t + exp (- t))) (fun t => t - (exp t - exp (- t)) / (exp t + exp (- t))) t). cbv beta in A. rewrite Ropp_0, exp_0 in A.
  specialize (A ltac:(intros y; assert (G := exp_pair y); auto_derive; [lra|field; lra])).
  specialize (A ltac:(intros y Hy; assert (G := exp_pair y); assert (T := tanh_le y Hy); assert ((exp y - exp (- y)) / (exp y + exp (- y)) <= y); [|lra]; apply (Rmult_le_reg_r (exp y + exp (- y))); [lra|]; unfold Rdiv; rewrite Rmult_assoc, Rinv_l by lra; lra) Ht).
  assert (G := exp_pair t). rewrite <- (exp_ln (exp t + exp (- t))) by lra. replace (2 * exp (t * t / 2)) with (exp (ln 2 + t * t / 2)) by (rewrite exp_plus, exp_ln by lra; ring). apply exp_le_mono. replace (1 + 1) with 2 in A by ring. lra.
Qed.
Lemma cosh_even t : exp t + exp (- t) = exp (Rabs t) + exp (- Rabs t).
Proof. unfold Rabs. destruct (Rcase_abs t); [rewrite Ropp_involutive; ring|reflexivity]. Qed.

Section Folded.
Import FoldedNormal.
Context (m s : R) (Hs : 0 < s).
Notation d := (new_unchecked (Fin m) (Fin s)).
Notation cd := (fun x => unwrap (cdf d x)).
Definition zp (x : R) : R := (x - - m) / s.
Definition zm (x : R) : R := (x - m) / s.
Definition fn_u (x : R) : R := (phi (zp x) + phi (zm x)) / s.
Lemma fn_pdf x : pdf d (Fin x) = Fin (fn_u x).
Proof.
  assert (P := PI_RGT_0). assert (Q := sqrt2PI_pos). assert (0 < sqrt (PI * 2)) by (rewrite Rmult_comm; auto). assert (0 < sqrt (PI * 2) * s) by pos. unfold pdf, PI_2. cbn [pr mu sigma new_unchecked]. xs. f_equal. unfold fn_u, phi, zp, zm. replace (x - - m) with (x + m) by ring.
  replace (- ((x + m) / s) * ((x + m) / s) / 2) with (- ((x + m) / s * ((x + m) / s) / 2)) by (field; lra). replace (- ((x - m) / s) * ((x - m) / s) / 2) with (- ((x - m) / s * ((x - m) / s) / 2)) by (field; lra).
  rewrite (Rmult_comm PI 2). field. split; lra.
Qed.
Lemma fn_pos x : 0 < fn_u x.
Proof. unfold fn_u. assert (A := phi_pos (zp x)). assert (B := phi_pos (zm x)). pos. Qed.
Lemma dzp (f : R -> R) x l : is_derive f (zp x) l -> is_derive (fun x => f (zp x)) x (l / s). Proof. apply (aff_comp (- m) s Hs). Qed.
Lemma dzm (f : R -> R) x l : is_derive f (zm x) l -> is_derive (fun x => f (zm x)) x (l / s). Proof. apply (aff_comp m s Hs). Qed.
Lemma fn_u_d x : is_derive fn_u x ((- zp x * phi (zp x) / s + - zm x * phi (zm x) / s) / s).
Proof.
  assert (D := dR_div (fun x => phi (zp x) + phi (zm x)) (fun _ => s) x _ _ ltac:(lra) (dR_plus _ _ _ _ _ (dzp phi x _ (phi_derive _)) (dzm phi x _ (phi_derive _))) (dR_c s x)).
  revert D. apply is_derive_ext_eq. field. lra.
Qed.
Lemma fn_cont x : continuous fn_u x. Proof. eapply ex_derive_cont. apply fn_u_d. Qed.
(** antiderivatives of u, x u, x^2 u *)
Definition fG0 (x : R) : R := Phi (zp x) + Phi (zm x) - 1.
Definition fG1 (x : R) : R := m * (Phi (zm x) - Phi (zp x)) - s * (phi (zm x) + phi (zp x)).
Definition fG2 (x : R) : R := (m * m + s * s) * (Phi (zp x) + Phi (zm x)) - s * ((x + m) * phi (zm x) + (x - m) * phi (zp x)).
Lemma fG0_d x : is_derive fG0 x (fn_u x).
Proof.
  assert (D := dR_minus _ _ _ _ _ (dR_plus _ _ _ _ _ (dzp Phi x _ (Phi_derive _)) (dzm Phi x _ (Phi_derive _))) (dR_c 1 x)). revert D. apply is_derive_ext_eq. unfold fn_u. field. lra.
Qed.
Lemma fG1_d x : is_derive fG1 x (x * fn_u x).
Proof.
  assert (D := dR_minus _ _ _ _ _ (dR_mult (fun _ => m) _ _ _ _ (dR_c m x) (dR_minus _ _ _ _ _ (dzm Phi x _ (Phi_derive _)) (dzp Phi x _ (Phi_derive _))))
    (dR_mult (fun _ => s) _ _ _ _ (dR_c s x) (dR_plus _ _ _ _ _ (dzm phi x _ (phi_derive _)) (dzp phi x _ (phi_derive _))))).
  revert D. apply is_derive_ext_eq. unfold fn_u. set (a := phi (zm x)). set (b := phi (zp x)). unfold zm, zp. field. lra.
Qed.
Lemma fG2_d x : is_derive fG2 x (x ^ 2 * fn_u x).
Proof.
  assert (D := dR_minus _ _ _ _ _ (dR_mult (fun _ => m * m + s * s) _ _ _ _ (dR_c _ x) (dR_plus _ _ _ _ _ (dzp Phi x _ (Phi_derive _)) (dzm Phi x _ (Phi_derive _))))
    (dR_mult (fun _ => s) _ _ _ _ (dR_c s x) (dR_plus _ _ _ _ _ (dR_mult _ _ _ _ _ (dR_plus _ _ _ _ _ (dR_id x) (dR_c m x)) (dzm phi x _ (phi_derive _))) (dR_mult _ _ _ _ _ (dR_minus _ _ _ _ _ (dR_id x) (dR_c m x)) (dzp phi x _ (phi_derive _)))))).
  revert D. apply is_derive_ext_eq. unfold fn_u. set (a := phi (zm x)). set (b := phi (zp x)). unfold zm, zp. field. lra.
Qed.
Lemma zm_0 : zm 0 = - (m / s). Proof. unfold zm. field. lra. Qed.
Lemma zp_0 : zp 0 = m / s. Proof. unfold zp. field. lra. Qed.
Lemma limPp : filterlim (fun x => Phi (zp x)) (below p_infty) (locally 1). Proof. apply (aff_p (- m) s Hs), Phi_lim_p. Qed.
Lemma limPm : filterlim (fun x => Phi (zm x)) (below p_infty) (locally 1). Proof. apply (aff_p m s Hs), Phi_lim_p. Qed.
Lemma limq c (l : list R) : filterlim (fun x => peval l ((x - c) / s) * phi ((x - c) / s)) (below p_infty) (locally 0).
Proof. apply (aff_p c s Hs (fun t => peval l t * phi t)). apply poly_phi_p. Qed.
Lemma limp c : filterlim (fun x => phi ((x - c) / s)) (below p_infty) (locally 0).
Proof. eapply fl_ext; [|apply (limq c [1])]. intros x. cbn. ring. Qed.
Lemma fn_total : is_RInt_gen (rf (pdf d)) (above 0) (below p_infty) 1.
Proof.
  apply (gen_ext 0 p_infty fn_u); [intros x; unfold rf; now rewrite fn_pdf|]. eapply (gen_eq 0 p_infty); [|instantiate (1 := (1 + 1 - 1) - fG0 0); unfold fG0; rewrite zm_0, zp_0, Phi_sym; ring].
  apply (is_RInt_gen_antiderivative 0 p_infty fG0); [exact I|intros; apply fG0_d|intros; apply fn_cont|apply above_cont; eexists; apply fG0_d|].
  apply fl_minus; [apply fl_plus; [apply limPp|apply limPm]|apply fl_const].
Qed.
Definition fn_mean : R := m * (2 * Phi (m / s) - 1) + 2 * s * phi (m / s).
Lemma fn_is_mean : is_mean 0 p_infty (pdf d) fn_mean.
Proof.
  unfold is_mean, is_expectation. apply (gen_ext 0 p_infty (fun x => x * fn_u x)); [intros x; unfold rf; now rewrite fn_pdf|].
  eapply (gen_eq 0 p_infty); [|instantiate (1 := (m * (1 - 1) - s * (0 + 0)) - fG1 0); unfold fG1, fn_mean; rewrite zm_0, zp_0, Phi_sym, phi_even; ring].
  apply (is_RInt_gen_antiderivative 0 p_infty fG1); [exact I|intros; apply fG1_d| |apply above_cont; eexists; apply fG1_d|].
  - intros x _. apply (continuous_mult (K := R_AbsRing) (fun x => x) fn_u); [apply continuous_id|apply fn_cont].
  - apply fl_minus; [apply fl_mult; [apply fl_const|apply fl_minus; [apply limPm|apply limPp]]|apply fl_mult; [apply fl_const|apply fl_plus; [apply (limp m)|apply (limp (- m))]]].
Qed.
Lemma fn_raw2 : is_expectation 0 p_infty (pdf d) (fun x => x ^ 2) (m * m + s * s).
Proof.
  unfold is_expectation. apply (gen_ext 0 p_infty (fun x => x ^ 2 * fn_u x)); [intros x; unfold rf; now rewrite fn_pdf|].
  eapply (gen_eq 0 p_infty); [|instantiate (1 := ((m * m + s * s) * (1 + 1) - s * (0 + 0)) - fG2 0); unfold fG2; rewrite zm_0, zp_0, Phi_sym, phi_even; ring].
  apply (is_RInt_gen_antiderivative 0 p_infty fG2); [exact I|intros; apply fG2_d| |apply above_cont; eexists; apply fG2_d|].
  - intros x _. apply (continuous_mult (K := R_AbsRing) (fun x => x ^ 2) fn_u); [eapply ex_derive_cont; auto_derive; [exact I|reflexivity]|apply fn_cont].
  - apply fl_minus; [apply fl_mult; [apply fl_const|apply fl_plus; [apply limPp|apply limPm]]|apply fl_mult; [apply fl_const|apply fl_plus]].
    + eapply fl_ext; [|apply (limq m [2 * m; s])]. intros x. unfold zm. cbn. field. lra.
    + eapply fl_ext; [|apply (limq (- m) [- (2 * m); s])]. intros x. unfold zp. cbn. field. lra.
Qed.
Lemma fn_is_variance : is_variance 0 p_infty (pdf d) fn_mean (m * m + s * s - fn_mean * fn_mean).
Proof.
  apply (variance_raw _ _ _ (fun k => match k with 0%nat => 1 | 1%nat => fn_mean | _ => m * m + s * s end)); [reflexivity| | | |cbn; ring].
  - assert (T := fn_total). revert T. apply (gen_ext 0 p_infty). intros x. cbn; ring.
  - assert (T := fn_is_mean). revert T. apply (gen_ext 0 p_infty). intros x. cbn; ring.
  - exact fn_raw2.
Qed.
(** ** modes *)
Lemma fn_shape x : fn_u x = phi (m / s) / s * exp (- (x * x / (2 * (s * s)))) * (exp (m * x / (s * s)) + exp (- (m * x / (s * s)))).
Proof.
  assert (Q := sqrt2PI_pos). unfold fn_u, phi, zp, zm.
  replace (- ((x - - m) / s * ((x - - m) / s) / 2)) with (- (m / s * (m / s) / 2) + (- (x * x / (2 * (s * s))) + - (m * x / (s * s)))) by (field; lra).
  replace (- ((x - m) / s * ((x - m) / s) / 2)) with (- (m / s * (m / s) / 2) + (- (x * x / (2 * (s * s))) + m * x / (s * s))) by (field; lra).
  rewrite !exp_plus. field. split; lra.
Qed.
Lemma fn_mode0 : Rabs m <= s -> is_mode 0 p_infty (pdf d) 0.
Proof.
  intros Ha. eexists; split; [apply fn_pdf|]. intros x Hx%in0f. eexists; split; [apply fn_pdf|]. rewrite !fn_shape. assert (P := phi_pos (m / s)). assert (0 < s * s) by pos.
  replace (- (0 * 0 / (2 * (s * s)))) with 0 by (field; lra). replace (m * 0 / (s * s)) with 0 by (field; lra). rewrite Ropp_0, exp_0, Rmult_1_r.
  rewrite Rmult_assoc. apply Rmult_le_compat_l; [left; pos|]. rewrite cosh_even. set (t := Rabs (m * x / (s * s))).
  assert (C := cosh_le t (Rabs_pos _)). assert (E := exp_pos (- (x * x / (2 * (s * s))))). eapply Rle_trans; [apply Rmult_le_compat_l; [left; exact E|exact C]|].
  replace (exp (- (x * x / (2 * (s * s)))) * (2 * exp (t * t / 2))) with (2 * exp (- (x * x / (2 * (s * s))) + t * t / 2)) by (rewrite exp_plus; ring).
  assert (exp (- (x * x / (2 * (s * s))) + t * t / 2) <= 1); [|lra]. rewrite <- exp_0. apply exp_le_mono.
  assert (TT : t * t = m * m * (x * x) / (s * s * (s * s))). { unfold t. rewrite <- Rabs_mult. rewrite Rabs_pos_eq by apply Rle_0_sqr. field. lra. } rewrite TT.
  assert (M2 : m * m <= s * s). { rewrite <- (Rabs_pos_eq (m * m)) by apply Rle_0_sqr. rewrite Rabs_mult. assert (G := Rabs_pos m). nra. }
  replace (- (x * x / (2 * (s * s))) + m * m * (x * x) / (s * s * (s * s)) / 2) with (x * x / (2 * (s * s)) * ((m * m - s * s) / (s * s))) by (field; lra).
  assert (0 <= x * x / (2 * (s * s))) by (left; pos). assert ((m * m - s * s) / (s * s) <= 0). { apply (Rmult_le_reg_r (s * s)); [auto|]. unfold Rdiv. rewrite Rmult_assoc, Rinv_l by lra. lra. } nra.
Qed.
Lemma fn_mode0_bad : s < Rabs m -> ~ is_mode 0 p_infty (pdf d) 0.
Proof.
  intros Ha (fm & E0 & H). rewrite fn_pdf in E0. apply Fin_inj in E0. subst fm. assert (0 < s * s) by pos. assert (PM : 0 < Rabs m) by lra.
  set (a := m * m / (s * s)). assert (M2 : s * s < m * m). { rewrite <- (Rabs_pos_eq (m * m)) by apply Rle_0_sqr. rewrite Rabs_mult. nra. }
  assert (A1 : 1 < a). { unfold a. apply (Rmult_lt_reg_r (s * s)); [auto|]. unfold Rdiv. rewrite Rmult_assoc, Rinv_l by lra. lra. }
  (* take x with x^2/(2 s^2) = (a-1)/(2a) *)
  set (B := (a - 1) / (2 * a)). assert (HB : 0 < B) by (unfold B; apply Rdiv_lt_0_compat; lra). set (x := sqrt (2 * (s * s) * B)). assert (Q2 : 0 < 2 * (s * s) * B) by pos. assert (Hx : 0 < x) by (apply sqrt_lt_R0; auto). assert (Exx : x * x = 2 * (s * s) * B) by (apply sqrt_sqrt; lra).
  destruct (H x ltac:(now apply in0)) as (fx & Ex & Le). rewrite fn_pdf in Ex. apply Fin_inj in Ex. subst fx. rewrite !fn_shape in Le. assert (P := phi_pos (m / s)).
  replace (- (0 * 0 / (2 * (s * s)))) with 0 in Le by (field; lra). replace (m * 0 / (s * s)) with 0 in Le by (field; lra). rewrite Ropp_0, exp_0, Rmult_1_r, Rmult_assoc in Le. apply Rmult_le_reg_l in Le; [|pos].
  rewrite cosh_even in Le. set (t := Rabs (m * x / (s * s))) in Le. assert (C := cosh_ge t (Rabs_pos _)).
  assert (TT : t * t = 2 * a * B). { unfold t. rewrite <- Rabs_mult. rewrite Rabs_pos_eq by apply Rle_0_sqr. replace (m * x / (s * s) * (m * x / (s * s))) with (m * m * (x * x) / (s * s * (s * s))) by (field; lra). rewrite Exx. unfold a. field. lra. }
  replace (x * x / (2 * (s * s))) with B in Le by (rewrite Exx; field; lra). assert (XB := exp_ineq1_le (- B)).
  assert (B1 : B < 1 / 2). { unfold B. apply (Rmult_lt_reg_r (2 * a)); [lra|]. unfold Rdiv. rewrite Rmult_assoc, Rinv_l by lra. lra. }
  assert (K : (1 - B) * (2 + 2 * a * B) <= 1 + 1). { eapply Rle_trans; [|exact Le]. apply Rmult_le_compat; [lra| | |]; [|lra|lra]. assert (0 <= 2 * a * B) by (left; assert (0 < a) by lra; pos). lra. }
  assert (aB : a * B = (a - 1) / 2) by (unfold B; field; lra). assert ((1 - B) * (2 + (a - 1)) <= 2) by (rewrite Rmult_assoc, aB in K; lra).
  assert (a * (1 - B) = a - (a - 1) / 2) by (rewrite <- aB; ring). nra.
Qed.
Lemma fn_mode_mu : 0 < m -> ~ is_mode 0 p_infty (pdf d) m.
Proof.
  intros Hmp (fm & E0 & H). rewrite fn_pdf in E0. apply Fin_inj in E0. subst fm.
  assert (D := fn_u_d m). replace (zm m) with 0 in D by (unfold zm; field; lra). assert (P := phi_pos (zp m)). assert (Zp : 0 < zp m) by (unfold zp; replace (m - - m) with (2 * m) by ring; pos).
  assert (D0 := is_derive_unique _ _ _ D). assert (DM : Derive fn_u m = 0).
  { assert (pr : derivable_pt fn_u m). { apply ex_derive_Reals_0. eexists; exact D. } rewrite <- (Derive_Reals fn_u m pr). apply (deriv_maximum fn_u 0 (2 * m) m pr); [lra|lra|]. intros x H1 H2. destruct (H x ltac:(apply in0; lra)) as (fx & Ex & Le). rewrite fn_pdf in Ex. apply Fin_inj in Ex. lra. }
  rewrite DM in D0. assert (0 < zp m * phi (zp m) / s / s) by (repeat apply Rdiv_lt_0_compat; auto; pos). 
  replace ((- zp m * phi (zp m) / s + - 0 * phi 0 / s) / s) with (- (zp m * phi (zp m) / s / s)) in D0 by (field; lra). lra.
Qed.
(** ** relative to the error function *)
Section Erf.
Context {SP : Special xreal} (He : erf_exact SP).
Lemma erf_Phi z : sf_erf (Fin (z / sqrt 2)) = Fin (2 * Phi z - 1).
Proof.
  rewrite He. f_equal. unfold Phi. replace (RInt (fun t => exp (- (t * t))) 0 (z / sqrt 2)) with (GI (z / sqrt 2)) by reflexivity. assert (P := sqrtPI_pos). generalize (GI (z / sqrt 2)). intros g. change (@eq R (2 / sqrt PI * g) (2 * (1 / 2 + g / sqrt PI) - 1)). field. lra.
Qed.
Lemma fn_cdf x : cd (Fin x) = Fin (fG0 x).
Proof.
  assert (S2 := sqrt2_pos). unfold cdf. cbn [pr mu sigma new_unchecked unwrap]. xs. rewrite !erf_Phi. xs. f_equal. unfold fG0, zp, zm. replace (x - - m) with (x + m) by ring. field.
Qed.
Lemma fn_coherent : coherent 0 p_infty cd (pdf d).
Proof.
  apply (coherent_intro 0 p_infty _ (pdf d) fG0 fn_u); [exact I|intros; apply fn_cdf|intros; apply fn_pdf|intros; apply fG0_d|intros; apply fn_cont|intros; left; apply fn_pos| |].
  - eapply fl_eq; [apply above_cont; eexists; apply fG0_d|]. unfold fG0. rewrite zm_0, zp_0, Phi_sym. ring.
  - eapply fl_eq; [apply fl_minus; [apply fl_plus; [apply limPp|apply limPm]|apply fl_const]|ring].
Qed.
Lemma fn_mean_val : mean d = Fin fn_mean.
Proof.
  assert (S2 := sqrt2_pos). assert (P := PI_RGT_0). assert (SP0 := sqrtPI_pos). assert (0 < 2 / PI) by pos. unfold mean, TWO_OVER_PI. cbn [pr mu sigma new_unchecked]. xs. rewrite erf_Phi. xs. f_equal. unfold fn_mean, phi. rewrite sqrt_2PI.
  rewrite sqrt_div by lra. replace (- (m / s / sqrt 2) * (m / s / sqrt 2)) with (- (m / s * (m / s) / 2)).
  2:{ replace (- (m / s / sqrt 2) * (m / s / sqrt 2)) with (- (m / s * (m / s) / (sqrt 2 * sqrt 2))) by (field; lra). rewrite sqrt2_sq. reflexivity. }
  replace (sqrt 2 / sqrt PI) with (2 / (sqrt 2 * sqrt PI)); [field; split; lra|]. rewrite <- sqrt2_sq at 1. field. split; lra.
Qed.
Lemma fn_var_val : variance d = Fin (m * m + s * s - fn_mean * fn_mean).
Proof. unfold variance. rewrite fn_mean_val. cbn [pr mu sigma new_unchecked]. xs. reflexivity. Qed.
End Erf.
End Folded.
