(** * Logistic, Gumbel *)
From Coq Require Import Reals Lra Lia Psatz.
From Coquelicot Require Import Coquelicot.
From Verif.Num Require Import XReal.
From Verif.Model Require Import Rust Constraints Probability Params Consts Continuous.
From Verif.Spec Require Import DistSpec.
From Verif.Proofs Require Import XTac Calc.
Open Scope R_scope.

Section Logistic.
Import Logistic.
Context (m g : R) (Hg : 0 < g).
Notation d := (new_unchecked (Fin m) (Fin g)).
Notation Z x := ((x - m) / g).
Lemma l_cdf x : unwrap (cdf d (Fin x)) = Fin (1 / (1 + exp (- Z x))).
Proof. unfold cdf, z; cbn [unwrap pr mu s new_unchecked]. now xs. Qed.
Lemma l_pdf x : pdf d (Fin x) = Fin (exp (- Z x) / g / (1 + exp (- Z x)) / (1 + exp (- Z x))).
Proof. unfold pdf, z; cbn [unwrap pr mu s new_unchecked]. now xs. Qed.
Lemma l_derive x : is_derive (fun x => 1 / (1 + exp (- Z x))) x (exp (- Z x) / g / (1 + exp (- Z x)) / (1 + exp (- Z x))).
Proof.
  assert (0 < exp (- Z x)) by pos. auto_derive; unfold Rdiv, Rminus in *; [lra|field; lra].
Qed.
Lemma l_cont x : continuous (fun x => exp (- Z x) / g / (1 + exp (- Z x)) / (1 + exp (- Z x))) x.
Proof. assert (0 < exp (- Z x)) by pos. cont_auto; unfold Rdiv, Rminus in *; lra. Qed.
Lemma l_coherent : coherent m_infty p_infty (fun x => unwrap (cdf d x)) (pdf d).
Proof.
  apply (coherent_inverse _ _ _ _ (fun x => 1 / (1 + exp (- Z x)))
    (fun x => exp (- Z x) / g / (1 + exp (- Z x)) / (1 + exp (- Z x))) (fun p => m + g * ln (p / (1 - p)))).
  - exact I.
  - intros; apply l_cdf. - intros; apply l_pdf. - intros; apply l_derive. - intros; apply l_cont.
  - intros; pos.
  - intros x _. assert (0 < exp (- Z x)) by pos. split; [pos|].
    apply Rmult_le_reg_r with (1 + exp (- Z x)); [lra|]. field_simplify; lra.
  - intros p Hp. split; [split; cbn; auto|].
    replace (- ((m + g * ln (p / (1 - p)) - m) / g)) with (- ln (p / (1 - p))) by (field; lra).
    rewrite exp_Ropp, exp_ln by (apply Rdiv_lt_0_compat; lra). field; lra.
Qed.
Lemma l_median : unwrap (cdf d (Fin m)) = Fin (1 / 2).
Proof. rewrite l_cdf. f_equal. replace (Z m) with 0 by (field; lra). rewrite Ropp_0, exp_0. field. Qed.
Lemma l_symmetric t : rf (fun x => unwrap (cdf d x)) (m + t) + rf (fun x => unwrap (cdf d x)) (m - t) = 1.
Proof.
  unfold rf. rewrite !l_cdf; cbn. replace (Z (m + t)) with (t / g) by (field; lra).
  replace (- Z (m - t)) with (t / g) by (field; lra). rewrite exp_Ropp. assert (0 < exp (t / g)) by pos. field. lra.
Qed.
Lemma l_mode : is_mode m_infty p_infty (pdf d) m.
Proof.
  eexists; split; [apply l_pdf|]. intros x _. eexists; split; [apply l_pdf|].
  replace (Z m) with 0 by (field; lra). rewrite Ropp_0, exp_0.
  assert (He : 0 < exp (- Z x)) by pos. set (e := exp (- Z x)) in *.
  replace (e / g / (1 + e) / (1 + e)) with (1 / g * (e / ((1 + e) * (1 + e)))) by (field; lra).
  replace (1 / g / (1 + 1) / (1 + 1)) with (1 / g * (1 / 4)) by (field; lra).
  apply Rmult_le_compat_l; [pos|].
  apply Rmult_le_reg_r with ((1 + e) * (1 + e)); [pos|].
  replace (e / ((1 + e) * (1 + e)) * ((1 + e) * (1 + e))) with e by (field; lra). assert (0 <= (1 - e) * (1 - e)) by apply Rle_0_sqr. lra.
Qed.

Lemma l_E_m : filterlim (fun x => exp (Z x)) (above m_infty) (locally 0).
Proof. apply (fl_inf exp (fun x => Z x) m_infty 0 is_lim_exp_m I). apply affine_m; auto. Qed.
Lemma l_zE_m : filterlim (fun x => Z x * exp (Z x)) (above m_infty) (locally 0).
Proof. apply (fl_inf (fun y => y * exp y) (fun x => Z x) m_infty 0 is_lim_mul_exp_m I). apply affine_m; auto. Qed.
Lemma l_opp_p : filterlim (fun x => - Z x) (below p_infty) (Rbar_locally m_infty).
Proof. eapply filterlim_comp; [apply affine_p, Hg|apply opp_p]. Qed.
Lemma l_e_p : filterlim (fun x => exp (- Z x)) (below p_infty) (locally 0).
Proof. apply (fl_inf exp (fun x => - Z x) m_infty 0 is_lim_exp_m I l_opp_p). Qed.
Lemma l_ze_p : filterlim (fun x => - Z x * exp (- Z x)) (below p_infty) (locally 0).
Proof. apply (fl_inf (fun y => y * exp y) (fun x => - Z x) m_infty 0 is_lim_mul_exp_m I l_opp_p). Qed.

Lemma l_mean : is_mean m_infty p_infty (pdf d) m.
Proof.
  eapply (expectation_intro _ _ _ _ (fun x => exp (- Z x) / g / (1 + exp (- Z x)) / (1 + exp (- Z x)))
    (fun x => x / (1 + exp (- Z x)) - g * ln (1 + exp (Z x))) 0 m).
  - exact I. - intros; apply l_pdf.
  - intros x _. assert (0 < exp (- Z x)) by pos. assert (0 < exp (Z x)) by pos.
    auto_derive; [unfold Rdiv, Rminus in *; split; lra|].
    replace (exp ((x + - m) * / g)) with (/ exp (- ((x + - m) * / g))). 2:{ rewrite exp_Ropp, Rinv_inv. reflexivity. }
    unfold Rdiv, Rminus in *. field. lra.
  - intros x _. assert (0 < exp (- Z x)) by pos. cont_auto; unfold Rdiv, Rminus in *; lra.
  - apply fl_ext with (fun x => m * exp (Z x) / (1 + exp (Z x)) + g * (Z x * exp (Z x)) / (1 + exp (Z x)) - g * ln (1 + exp (Z x))).
    { intros x. rewrite exp_Ropp. assert (0 < exp (Z x)) by pos. set (E := exp (Z x)) in *. field. lra. }
    eapply fl_eq.
    + generalize l_E_m l_zE_m; intros. flim; lra.
    + rewrite Rplus_0_r, ln_1. field.
  - apply fl_ext with (fun x => m / (1 + exp (- Z x)) + g * (- Z x * exp (- Z x)) / (1 + exp (- Z x)) - g * ln (1 + exp (- Z x))).
    { intros x. assert (E : exp (Z x) = / exp (- Z x)) by (rewrite exp_Ropp, Rinv_inv; reflexivity). rewrite E.
      assert (0 < exp (- Z x)) by pos. set (e := exp (- Z x)) in *.
      assert (EZ : ln e = - Z x) by (unfold e; now rewrite ln_exp).
      replace (1 + / e) with (/ e * (1 + e)) by (field; lra). rewrite ln_mult, ln_Rinv, EZ by (pos || lra). field. lra. }
    eapply fl_eq.
    + generalize l_e_p l_ze_p; intros. flim; lra.
    + rewrite Rplus_0_r, ln_1. field.
  - ring.
Qed.

(** the cdf value u and its complement *)
Lemma l_u x : exp (- Z x) / g / (1 + exp (- Z x)) / (1 + exp (- Z x)) = 1 / (1 + exp (- Z x)) * (1 - 1 / (1 + exp (- Z x))) / g.
Proof. assert (0 < exp (- Z x)) by pos. field; lra. Qed.
Lemma l_u01 x : 0 < 1 / (1 + exp (- Z x)) < 1.
Proof.
  assert (0 < exp (- Z x)) by pos. split; [pos|]. apply Rmult_lt_reg_r with (1 + exp (- Z x)); [lra|]. field_simplify; lra.
Qed.
Lemma l_entropy : is_entropy m_infty p_infty (pdf d) (ln g + 2).
Proof.
  set (u := fun x => 1 / (1 + exp (- Z x))).
  assert (Hu01 : forall x, 0 < u x < 1) by apply l_u01.
  assert (Hud : forall x, is_derive u x (u x * (1 - u x) / g)).
  { intros x. unfold u at 2 3. rewrite <- l_u. apply l_derive. }
  assert (Hucm : filterlim u (above m_infty) (locally 0)).
  { apply fl_ext with (fun x => exp (Z x) / (1 + exp (Z x))).
    { intros x; unfold u. rewrite exp_Ropp. assert (0 < exp (Z x)) by pos. field. lra. }
    eapply fl_eq; [generalize l_E_m; intros; flim; lra|]. field. }
  assert (Hucp : filterlim u (below p_infty) (locally 1)).
  { unfold u. eapply fl_eq; [generalize l_e_p; intros; flim; lra|]. field. }
  eapply (entropy_intro _ _ _ (fun x => u x * (1 - u x) / g)
    (fun x => u x * ln g - u x * ln (u x) + (1 - u x) * ln (1 - u x) + 2 * u x) 0 (ln g + 2)).
  - exact I. - intros x _. rewrite l_pdf, l_u. reflexivity.
  - intros x _. specialize (Hu01 x).
    assert (HG : is_derive (fun v => v * ln g - v * ln v + (1 - v) * ln (1 - v) + 2 * v) (u x) (ln g - ln (u x) - ln (1 - u x))).
    { auto_derive; [lra|]. unfold Rminus. field. lra. }
    generalize (is_derive_comp (fun v => v * ln g - v * ln v + (1 - v) * ln (1 - v) + 2 * v) u x _ _ HG (Hud x)).
    intros HD. replace (- _) with (scal (u x * (1 - u x) / g) (ln g - ln (u x) - ln (1 - u x))); [exact HD|].
    unfold scal; cbn; unfold mult; cbn.
    assert (HL : ln (u x * (1 - u x) / g) = ln (u x) + ln (1 - u x) - ln g).
    { unfold Rdiv. rewrite ln_mult, ln_mult, ln_Rinv by (first [lra|pos|apply Rmult_lt_0_compat; lra]). ring. }
    rewrite HL. ring.
  - intros x _. specialize (Hu01 x).
    apply (continuous_comp u (fun v => - (v * (1 - v) / g * ln (v * (1 - v) / g)))).
    + eapply ex_derive_cont, Hud.
    + cont_auto. apply Rdiv_lt_0_compat; [apply Rmult_lt_0_compat; lra|lra].
  - assert (H1 : filterlim (fun x => u x * ln (u x)) (above m_infty) (locally 0)).
    { apply lim_xlnx; [apply _| |exact Hucm]. exists 0; intros; apply Hu01. }
    eapply fl_eq; [flim; lra|]. replace (1 - 0) with 1 by ring; rewrite ln_1. ring.
  - assert (H1 : filterlim (fun x => (1 - u x) * ln (1 - u x)) (below p_infty) (locally 0)).
    { apply lim_xlnx; [apply _| |]. exists 0; intros x _; specialize (Hu01 x); lra.
      eapply fl_eq; [flim|ring]. }
    eapply fl_eq; [flim; lra|]. rewrite ln_1. ring.
  - ring.
Qed.
End Logistic.

Section Gumbel.
Import Gumbel.
Context (m g : R) (Hg : 0 < g).
Notation d := (new_unchecked (Fin m) (Fin g)).
Notation Z x := ((x - m) / g).
Lemma g_cdf x : unwrap (cdf d (Fin x)) = Fin (exp (- exp (- Z x))).
Proof. unfold cdf, z; cbn [unwrap pr mu beta new_unchecked]. now xs. Qed.
Lemma g_pdf x : pdf d (Fin x) = Fin (exp (- Z x - exp (- Z x)) / g).
Proof. unfold pdf, z; cbn [unwrap pr mu beta new_unchecked]. now xs. Qed.
Lemma ln_lt0 p : 0 < p < 1 -> 0 < - ln p.
Proof. intros. generalize (ln_neg p H). lra. Qed.
Lemma g_coherent : coherent m_infty p_infty (fun x => unwrap (cdf d x)) (pdf d).
Proof.
  apply (coherent_inverse _ _ _ _ (fun x => exp (- exp (- Z x)))
    (fun x => exp (- Z x - exp (- Z x)) / g) (fun p => m - g * ln (- ln p))).
  - exact I. - intros; apply g_cdf. - intros; apply g_pdf.
  - intros x _. auto_derive; [auto|]. unfold Rminus. rewrite exp_plus. unfold Rdiv, Rminus. ring.
  - intros x _. cont_auto; auto.
  - intros x _. pos.
  - intros x _. split; [pos|]. apply exp_le1. assert (0 < exp (- Z x)) by pos. lra.
  - intros p Hp. generalize (ln_lt0 p Hp); intros Hl. split; [split; cbn; auto|].
    replace (- ((m - g * ln (- ln p) - m) / g)) with (ln (- ln p)) by (field; lra).
    rewrite exp_ln by auto. rewrite Ropp_involutive, exp_ln; lra.
Qed.
Lemma g_median : median d = Fin (m - g * ln (ln 2)).
Proof. unfold median; cbn [unwrap pr mu beta new_unchecked]. assert (0 < ln 2) by apply ln2_pos. now xs. Qed.
Lemma g_median_cdf : unwrap (cdf d (Fin (m - g * ln (ln 2)))) = Fin (1 / 2).
Proof.
  rewrite g_cdf. f_equal. replace (- Z (m - g * ln (ln 2))) with (ln (ln 2)) by (field; lra).
  rewrite exp_ln by apply ln2_pos. apply ln_inv_half.
Qed.
Lemma g_mode : is_mode m_infty p_infty (pdf d) m.
Proof.
  eexists; split; [apply g_pdf|]. intros x _. eexists; split; [apply g_pdf|].
  replace (Z m) with 0 by (field; lra).
  apply Rmult_le_compat_r; [left; pos|].
  assert (H : - Z x - exp (- Z x) <= - 0 - exp (- 0)).
  { rewrite Ropp_0, exp_0. generalize (exp_ineq1_le (- Z x)). lra. }
  destruct H as [H|H]; [left; now apply exp_increasing|rewrite H; lra].
Qed.
End Gumbel.
