(** * Uniform, Exponential, Cauchy, Logistic, Gumbel *)
From Coq Require Import Reals Lra Lia Psatz.
From Coquelicot Require Import Coquelicot.
From Verif.Num Require Import XReal.
From Verif.Model Require Import Rust Constraints Probability Params Consts Continuous.
From Verif.Spec Require Import DistSpec.
From Verif.Proofs Require Import XTac Calc.
Open Scope R_scope.

Section UniformF.
Import UniformF.
Context (a w : R) (Hw : 0 < w).
Notation d := (new_unchecked (Fin a) (Fin w)).
Lemma u_prob : prob d = Fin (1 / w). Proof. cbn -[fdiv]. now xs. Qed.
Lemma u_cdf x : a <= x < a + w -> unwrap (cdf d (Fin x)) = Fin ((x - a) / w).
Proof. intros H. unfold cdf, ub; cbn -[fdiv fadd fmul fsub fltb fleb prob]. rewrite ?u_prob. xs. xb. cbn. f_equal; field; lra. Qed.
Lemma u_cdf_lo x : x < a -> unwrap (cdf d (Fin x)) = Fin 0.
Proof. intros H. unfold cdf, ub; cbn -[fdiv fadd fmul fsub fltb fleb prob]. xs. xb. reflexivity. Qed.
Lemma u_cdf_hi x : a + w <= x -> unwrap (cdf d (Fin x)) = Fin 1.
Proof. intros H. unfold cdf, ub; cbn -[fdiv fadd fmul fsub fltb fleb prob]. xs. xb. reflexivity. Qed.
Lemma u_pdf x : a <= x <= a + w -> pdf d (Fin x) = Fin (1 / w).
Proof. intros H. unfold pdf, ub; cbn -[fdiv fadd fmul fsub fltb fleb prob]. rewrite ?u_prob. xs. xb. reflexivity. Qed.
Lemma u_pdf_out x : x < a \/ a + w < x -> pdf d (Fin x) = Fin 0.
Proof. intros [H|H]; unfold pdf, ub; cbn -[fdiv fadd fmul fsub fltb fleb prob orb]; xs; xb; reflexivity. Qed.

Lemma u_coherent : coherent a (a + w) (fun x => unwrap (cdf d x)) (pdf d).
Proof.
  apply (coherent_inverse _ _ _ _ (fun x => (x - a) / w) (fun _ => 1 / w) (fun p => a + p * w)).
  - cbn; lra.
  - intros x [H1 H2]; cbn in *. apply u_cdf; lra.
  - intros x [H1 H2]; cbn in *. apply u_pdf; lra.
  - intros x _. auto_derive; [auto|field; lra].
  - intros x _. apply continuous_const.
  - intros x _. pos.
  - intros x [H1 H2]; cbn in *. split; [pos|]. apply Rmult_le_reg_r with w; [lra|]. field_simplify; lra.
  - intros p Hp. split; [split; cbn; nra|field; lra].
Qed.

Ltac ends := match goal with
  | |- filterlim _ (above _) _ => apply lim_above_cont; [cont_auto; auto|reflexivity]
  | |- filterlim _ (below _) _ => apply lim_below_cont; [cont_auto; auto|reflexivity]
  end.
Ltac u_exp H := eapply (expectation_intro _ _ _ _ (fun _ => 1 / w) H);
  [cbn; lra | intros x [H1 H2]; cbn in *; apply u_pdf; lra
  | intros x _; auto_derive; [auto|field; lra] | intros x _; cont_auto; auto | ends | ends | field; lra].
Lemma u_mean : is_mean a (a + w) (pdf d) (a + w / 2).
Proof. unfold is_mean. u_exp (fun x : R => x * x / 2 / w). Qed.
Lemma u_variance : is_variance a (a + w) (pdf d) (a + w / 2) (w * w / 12).
Proof. split; [exact u_mean|]. u_exp (fun x : R => (x - (a + w / 2)) ^ 3 / 3 / w). Qed.
Lemma u_skew : is_skewness a (a + w) (pdf d) 0.
Proof.
  exists (a + w / 2), (w * w / 12). split; [exact u_variance|]. split; [pos|].
  replace (0 * _) with 0 by ring. u_exp (fun x : R => (x - (a + w / 2)) ^ 4 / 4 / w).
Qed.
Lemma u_kurt : is_kurtosis a (a + w) (pdf d) (9 / 5).
Proof.
  exists (a + w / 2), (w * w / 12). split; [exact u_variance|]. split; [pos|].
  u_exp (fun x : R => (x - (a + w / 2)) ^ 5 / 5 / w).
Qed.
Lemma u_entropy : is_entropy a (a + w) (pdf d) (ln w).
Proof.
  eapply (entropy_intro _ _ _ (fun _ => 1 / w) (fun x => x * (ln w / w))).
  - cbn; lra.
  - intros x [H1 H2]; cbn in *; apply u_pdf; lra.
  - intros x _. replace (ln (1 / w)) with (- ln w) by (unfold Rdiv; rewrite Rmult_1_l, ln_Rinv; auto).
    auto_derive; [auto|field; lra].
  - intros x _; apply continuous_const.
  - ends.
  - ends.
  - field; lra.
Qed.
Lemma u_quantile p : quantile d (Prob (Fin p)) = Fin (a + p * w).
Proof. reflexivity. Qed.
Lemma u_inverts : inverts a (a + w) (fun x => unwrap (cdf d x)) (fun p => quantile d (Prob p)).
Proof.
  intros p Hp. exists (a + p * w). split; [apply u_quantile|]. split; [split; cbn; nra|].
  rewrite u_cdf by nra. f_equal; field; lra.
Qed.
Lemma u_median : unwrap (cdf d (Fin (a + w / 2))) = Fin (1 / 2).
Proof. rewrite u_cdf by lra. f_equal; field; lra. Qed.
End UniformF.

Section Exponential.
Import Exponential.
Context (l : R) (Hl : 0 < l).
Notation d := (new_unchecked (Fin l)).
Lemma e_cdf x : unwrap (cdf d (Fin x)) = Fin (1 - exp (- (l * x))).
Proof. unfold cdf, lam; cbn [unwrap pr lambda new_unchecked]. xs. do 3 f_equal; ring. Qed.
Lemma e_pdf x : pdf d (Fin x) = Fin (l * exp (- (l * x))).
Proof. unfold pdf, lam; cbn [unwrap pr lambda new_unchecked]. xs. do 3 f_equal; ring. Qed.
Lemma e_coherent : coherent 0 p_infty (fun x => unwrap (cdf d x)) (pdf d).
Proof.
  apply (coherent_inverse _ _ _ _ (fun x => 1 - exp (- (l * x))) (fun x => l * exp (- (l * x))) (fun p => - ln (1 - p) / l)).
  - exact I.
  - intros; apply e_cdf.
  - intros; apply e_pdf.
  - intros x _. auto_derive; [auto|ring].
  - intros x _. cont_auto; auto.
  - intros x _. pos.
  - intros x [H _]; cbn in H. assert (exp (- (l * x)) < 1) by (apply exp_lt1; nra).
    assert (0 < exp (- (l * x))) by pos. lra.
  - intros p Hp. assert (ln (1 - p) < 0) by (apply ln_neg; lra). split.
    + split; cbn; [|auto]. pos.
    + replace (- (l * (- ln (1 - p) / l))) with (ln (1 - p)) by (field; lra). rewrite exp_ln; lra.
Qed.
Ltac e_exp H L := eapply (expectation_intro _ _ _ _ (fun x => l * exp (- (l * x))) H _ 0);
  [exact I | intros; apply e_pdf | intros x _; auto_derive; [auto|field; lra] | intros x _; cont_auto; auto
  | apply lim_above_cont; [cont_auto; auto|reflexivity]
  | apply lim_pinf, (lim_poly_exp _ L l Hl); intros x; cbn; field; lra
  | rewrite ?Rmult_0_r, ?Ropp_0, ?exp_0; field; lra].
Lemma e_mean : is_mean 0 p_infty (pdf d) (1 / l).
Proof. unfold is_mean. e_exp (fun x : R => - ((x + 1 / l) * exp (- (l * x)))) (- (1/l) :: -1 :: nil)%list. Qed.
Lemma e_variance : is_variance 0 p_infty (pdf d) (1 / l) (1 / l / l).
Proof. split; [exact e_mean|]. e_exp (fun x : R => - ((x * x + 1 / l / l) * exp (- (l * x)))) (- (1/l/l) :: 0 :: -1 :: nil)%list. Qed.
Lemma e_skew : is_skewness 0 p_infty (pdf d) 2.
Proof.
  exists (1 / l), (1 / l / l). split; [exact e_variance|]. split; [pos|].
  assert (S : sqrt (1 / l / l) = 1 / l). { replace (1 / l / l) with (1 / l * (1 / l)) by (field; lra). apply sqrt_square. pos. }
  rewrite S.
  e_exp (fun x : R => - ((x * x * x + 3 * x / l / l + 2 / l / l / l) * exp (- (l * x)))) (- (2/l/l/l) :: - (3/l/l) :: 0 :: -1 :: nil)%list.
Qed.
Lemma e_kurt : is_kurtosis 0 p_infty (pdf d) 9.
Proof.
  exists (1 / l), (1 / l / l). split; [exact e_variance|]. split; [pos|].
  e_exp (fun x : R => - ((x * x * x * x + 6 * x * x / l / l + 8 * x / l / l / l + 9 / l / l / l / l) * exp (- (l * x)))) (- (9/l/l/l/l) :: - (8/l/l/l) :: - (6/l/l) :: 0 :: -1 :: nil)%list.
Qed.
Lemma e_entropy : is_entropy 0 p_infty (pdf d) (1 - ln l).
Proof.
  eapply (entropy_intro _ _ _ (fun x => l * exp (- (l * x))) (fun x => (ln l - l * x - 1) * exp (- (l * x))) _ 0).
  - exact I. - intros; apply e_pdf.
  - intros x _. rewrite ln_mult, ln_exp by pos. auto_derive; [auto|ring].
  - intros x _. apply continuous_ext with (fun x => - (l * exp (- (l * x)) * (ln l + - (l * x)))).
    { intros y. rewrite ln_mult, ln_exp by pos. reflexivity. } cont_auto; auto.
  - apply lim_above_cont; [cont_auto; auto|reflexivity].
  - apply lim_pinf, (lim_poly_exp _ (cons (ln l - 1) (cons (-l) nil)) l Hl); intros x; cbn; ring.
  - rewrite ?Rmult_0_r, ?Ropp_0, ?exp_0. ring.
Qed.
Lemma e_median : median d = Fin (ln 2 / l).
Proof. unfold median, mean, lam; cbn [pr lambda new_unchecked]. xs. f_equal; field; lra. Qed.
Lemma e_median_cdf : unwrap (cdf d (Fin (ln 2 / l))) = Fin (1 / 2).
Proof. rewrite e_cdf. f_equal. replace (- (l * (ln 2 / l))) with (- ln 2) by (field; lra). rewrite ln_inv_half; lra. Qed.
Lemma e_mode : is_mode 0 p_infty (pdf d) 0.
Proof.
  exists (l * 1). split. { rewrite e_pdf. f_equal. rewrite Rmult_0_r, Ropp_0, exp_0. reflexivity. }
  intros x [Hx _]; cbn in Hx. eexists; split; [apply e_pdf|].
  apply Rmult_le_compat_l; [lra|]. apply exp_le1. nra.
Qed.
Lemma e_memoryless s t : 0 <= s -> 0 <= t ->
  (1 - rf (fun x => unwrap (cdf d x)) (s + t)) = (1 - rf (fun x => unwrap (cdf d x)) s) * (1 - rf (fun x => unwrap (cdf d x)) t).
Proof.
  intros. unfold rf. rewrite !e_cdf; cbn. replace (- (l * (s + t))) with (- (l * s) + - (l * t)) by ring. rewrite exp_plus. ring.
Qed.
End Exponential.

Section Cauchy.
Import Cauchy.
Context (m g : R) (Hg : 0 < g).
Notation d := (new_unchecked (Fin m) (Fin g)).
Lemma c_cdf x : unwrap (cdf d (Fin x)) = Fin (1 / PI * atan ((x - m) / g) + 1 / 2).
Proof. unfold cdf, z, ONE_OVER_PI; cbn [unwrap pr x0 gamma new_unchecked]. now xs. Qed.
Lemma c_pdf x : pdf d (Fin x) = Fin (1 / PI / g / (1 + (x - m) / g * ((x - m) / g))).
Proof. unfold pdf, z; cbn [unwrap pr x0 gamma new_unchecked]. now xs. Qed.
Lemma c_pdf_alt x : 1 / PI / g / (1 + (x - m) / g * ((x - m) / g)) = g / PI / (g * g + (x - m) * (x - m)).
Proof.
  assert (0 < PI) by pos. assert (0 <= (x - m) * (x - m)) by pos.
  field. repeat split; nra.
Qed.
Lemma tan_range p : 0 < p < 1 -> - PI / 2 < PI * (p - 1 / 2) < PI / 2.
Proof. intros. assert (0 < PI) by pos. split; nra. Qed.
Lemma c_quantile p : 0 < p < 1 -> quantile d (Prob (Fin p)) = Fin (m + g * tan (PI * (p - 1 / 2))).
Proof.
  intros Hp. unfold quantile; cbn [unwrap pr x0 gamma new_unchecked]. xs. rewrite x_tan. now xs.
  apply Rgt_not_eq, Rlt_gt. apply cos_gt_0; generalize (tan_range p Hp); lra.
Qed.
Lemma c_coherent : coherent m_infty p_infty (fun x => unwrap (cdf d x)) (pdf d).
Proof.
  assert (HPI : 0 < PI) by pos.
  apply (coherent_inverse _ _ _ _ (fun x => 1 / PI * atan ((x - m) / g) + 1 / 2)
    (fun x => 1 / PI / g / (1 + (x - m) / g * ((x - m) / g))) (fun p => m + g * tan (PI * (p - 1 / 2)))).
  - exact I.
  - intros; apply c_cdf.
  - intros; apply c_pdf.
  - intros x _. assert (0 <= (x - m) / g * ((x - m) / g)) by pos. auto_derive; [auto|]. unfold Rsqr in *. field.
    assert (0 <= (x - m) * (x - m)) by pos. repeat split; try lra; nra.
  - intros x _. assert (0 <= (x - m) / g * ((x - m) / g)) by pos. cont_auto. unfold Rdiv, Rminus in *. lra.
  - intros x _. assert (0 <= (x - m) / g * ((x - m) / g)) by pos. pos.
  - intros x _. generalize (atan_bound ((x - m) / g)). intros [B1 B2].
    assert (- (1 / 2) <= 1 / PI * atan ((x - m) / g) <= 1 / 2); [|lra].
    split.
    + apply Rmult_le_reg_l with PI; [lra|]. field_simplify; lra.
    + apply Rmult_le_reg_l with PI; [lra|]. field_simplify; lra.
  - intros p Hp. split; [split; cbn; auto|].
    replace ((m + g * tan (PI * (p - 1 / 2)) - m) / g) with (tan (PI * (p - 1/2))) by (field; lra).
    rewrite atan_tan by (generalize (tan_range p Hp); lra). field. lra.
Qed.
Lemma c_inverts : inverts m_infty p_infty (fun x => unwrap (cdf d x)) (fun p => quantile d (Prob p)).
Proof.
  intros p Hp. eexists. split; [now apply c_quantile|]. split; [split; cbn; auto|].
  rewrite c_cdf. f_equal. replace ((m + g * tan (PI * (p - 1 / 2)) - m) / g) with (tan (PI * (p - 1/2))) by (field; lra).
  rewrite atan_tan by (generalize (tan_range p Hp); lra). field. apply PI_neq0.
Qed.
(** the other side: quantile (cdf x) = x *)
Lemma c_inverts' x : quantile d (Prob (unwrap (cdf d (Fin x)))) = Fin x.
Proof.
  assert (HPI : 0 < PI) by pos.
  generalize (atan_bound ((x - m) / g)). intros [B1 B2].
  rewrite c_cdf. rewrite c_quantile.
  - f_equal. replace (PI * (1 / PI * atan ((x - m) / g) + 1 / 2 - 1 / 2)) with (atan ((x - m) / g)) by (field; lra).
    rewrite tan_atan. field. lra.
  - assert (- (1 / 2) < 1 / PI * atan ((x - m) / g) < 1 / 2); [|lra]. split.
    + apply Rmult_lt_reg_l with PI; [lra|]. field_simplify; lra.
    + apply Rmult_lt_reg_l with PI; [lra|]. field_simplify; lra.
Qed.
Lemma c_median : unwrap (cdf d (Fin m)) = Fin (1 / 2).
Proof. rewrite c_cdf. f_equal. replace ((m - m) / g) with 0 by (field; lra). rewrite atan_0. ring. Qed.
Lemma c_mode : is_mode m_infty p_infty (pdf d) m.
Proof.
  assert (HPI : 0 < PI) by pos.
  eexists; split; [apply c_pdf|]. intros x _. eexists; split; [apply c_pdf|].
  replace ((m - m) / g) with 0 by (field; lra). assert (0 <= (x - m) / g * ((x - m) / g)) by pos.
  assert (0 < 1 / PI / g) by pos.
  apply Rmult_le_compat_l; [lra|]. apply Rinv_le_contravar; lra.
Qed.
Lemma c_fwhm : fwhm d = Fin (2 * g) /\
  rf (pdf d) (m - 2 * g / 2) = rf (pdf d) m / 2 /\ rf (pdf d) (m + 2 * g / 2) = rf (pdf d) m / 2.
Proof.
  assert (HPI : 0 < PI) by pos.
  split; [unfold fwhm; cbn [pr gamma new_unchecked]; now xs|].
  unfold rf. rewrite !c_pdf; cbn.
  replace ((m - 2 * g / 2 - m) / g) with (-1) by (field; lra).
  replace ((m + 2 * g / 2 - m) / g) with 1 by (field; lra).
  replace ((m - m) / g) with 0 by (field; lra). split; field; lra.
Qed.
End Cauchy.
