(** * Sums of independent variables: Normal, Cauchy, Gamma, chi squared *)
From Coq Require Import Reals Lra Lia Psatz List ZArith.
From Coquelicot Require Import Coquelicot.
From Verif.Num Require Import XReal.
From Verif.Model Require Import Rust Constraints Probability Params Consts Traits Continuous Continuous2 Continuous3.
From Verif.Spec Require Import DistSpec GammaSpec ResSpec.
From Verif.Proofs Require Import XTac Calc Calc2 Gauss Gauss2 Improper GammaFun Subst Mellin ContProofs1 ContProofs9 ContProofs11 ContProofs12 ContProofs13.
Import ListNotations.
Open Scope R_scope.

Section NormalSum.
Import UvNormal.
Context (m1 S1 m2 S2 : R) (H1 : 0 < S1) (H2 : 0 < S2).
Lemma normal_form m S x : 0 < S -> phi ((x - m) / sqrt S) / sqrt S = exp (- ((x - m) * (x - m) / (2 * S))) / sqrt (2 * PI * S).
Proof.
  intros H. assert (P := sqrt_lt_R0 S H). assert (P2 := sqrt2PI_pos). assert (0 < PI) by pos. unfold phi. rewrite (sqrt_mult (2 * PI) S) by pos.
  replace ((x - m) / sqrt S * ((x - m) / sqrt S) / 2) with ((x - m) * (x - m) / (2 * S)). { field. lra. }
  rewrite <- (sqrt_sqrt S) at 1 by lra. field. lra.
Qed.
Lemma un_sum : is_sum_density (pdf (new_unchecked (Fin m1) (Fin S1))) (pdf (new_unchecked (Fin m2) (Fin S2))) (pdf (new_unchecked (Fin (m1 + m2)) (Fin (S1 + S2)))).
Proof.
  intros z. assert (HS : 0 < S1 + S2) by lra. assert (HPI : 0 < PI) by pos.
  set (w := S1 * S2 / (S1 + S2)). set (c := (m1 * S2 + (z - m2) * S1) / (S1 + S2)). assert (Hw : 0 < w) by (unfold w; pos).
  assert (T := un_total c w Hw). unfold rf at 3. rewrite un_pdf by auto. cbn [val].
  apply (gen_scal m_infty p_infty _ (phi ((z - (m1 + m2)) / sqrt (S1 + S2)) / sqrt (S1 + S2))) in T.
  rewrite Rmult_1_r in T. revert T. apply (gen_ext m_infty p_infty). intros t. unfold rf. rewrite !un_pdf by auto. cbn [val].
  rewrite !normal_form by auto.
  assert (E : exp (- ((z - (m1 + m2)) * (z - (m1 + m2)) / (2 * (S1 + S2)))) * exp (- ((t - c) * (t - c) / (2 * w))) =
    exp (- ((t - m1) * (t - m1) / (2 * S1))) * exp (- ((z - t - m2) * (z - t - m2) / (2 * S2)))).
  { rewrite <- !exp_plus. f_equal. unfold c, w. field. lra. }
  assert (Es : sqrt (2 * PI * (S1 + S2)) * sqrt (2 * PI * w) = sqrt (2 * PI * S1) * sqrt (2 * PI * S2)).
  { rewrite <- !sqrt_mult by pos. f_equal. unfold w. field. lra. }
  assert (Q : forall u, 0 < u -> 0 < sqrt (2 * PI * u)) by (intros; pos). assert (Q1 := Q _ H1). assert (Q2 := Q _ H2). assert (Q3 := Q _ HS). assert (Q4 := Q _ Hw).
  match goal with |- ?a / ?b * (?c / ?d) = ?e / ?f * (?g / ?h) => replace (a / b * (c / d)) with (a * c / (b * d)) by (field; lra); replace (e / f * (g / h)) with (e * g / (f * h)) by (field; lra) end.
  rewrite E, Es. reflexivity.
Qed.
End NormalSum.

Section CauchySum.
Lemma ssq s p : 0 < p -> 0 < s * s + p * p.
Proof. intros H. assert (0 <= s * s) by apply Rle_0_sqr. assert (0 < p * p) by pos. lra. Qed.
Lemma sq_ne s : s <> 0 -> 0 < s * s.
Proof. apply Rsqr_pos_lt. Qed.
Lemma inv_p : filterlim Rinv (Rbar_locally p_infty) (locally 0).
Proof. apply (is_lim_inv (fun x => x) p_infty p_infty (is_lim_id p_infty)). discriminate. Qed.
Lemma inv_m : filterlim Rinv (Rbar_locally m_infty) (locally 0).
Proof. apply (is_lim_inv (fun x => x) m_infty m_infty (is_lim_id m_infty)). discriminate. Qed.
(** ln((s^2+p^2)/((s-w)^2+q^2)) tends to 0 *)
Lemma ln_ratio_lim (F : (R -> Prop) -> Prop) {FF : Filter F} (p q w : R) : 0 < p -> 0 < q -> F (fun s => s <> 0) -> filterlim Rinv F (locally 0) ->
  filterlim (fun s => ln (s * s + p * p) - ln ((s - w) * (s - w) + q * q)) F (locally 0).
Proof.
  intros Hp Hq H0 Hi.
  assert (L : filterlim (fun s => ln (1 + p * p * / s * / s) - ln ((1 - w * / s) * (1 - w * / s) + q * q * / s * / s)) F (locally (ln 1 - ln 1))).
  { apply fl_minus; (apply (fl_ln _ 1); [|lra]).
    - eapply fl_eq; [apply fl_plus; [apply fl_const|apply fl_mult; [apply fl_mult; [apply fl_const|exact Hi]|exact Hi]]|ring].
    - eapply fl_eq; [apply fl_plus; [apply fl_mult; (apply fl_minus; [apply fl_const|apply fl_mult; [apply fl_const|exact Hi]])|apply fl_mult; [apply fl_mult; [apply fl_const|exact Hi]|exact Hi]]|ring]. }
  apply (fl_eq _ _ 0) in L; [|ring]. eapply filterlim_ext_loc; [|exact L]. eapply filter_imp; [|exact H0]. intros s Hs. cbv beta.
  assert (A := ssq s p Hp). assert (B := ssq (s - w) q Hq). assert (C := sq_ne s Hs).
  replace (1 + p * p * / s * / s) with ((s * s + p * p) / (s * s)) by (field; lra).
  replace ((1 - w * / s) * (1 - w * / s) + q * q * / s * / s) with (((s - w) * (s - w) + q * q) / (s * s)) by (field; lra).
  rewrite !ln_div' by lra. ring.
Qed.
Lemma rat_lim (F : (R -> Prop) -> Prop) {FF : Filter F} (p : R) : 0 < p -> F (fun s => s <> 0) -> filterlim Rinv F (locally 0) ->
  filterlim (fun s => s / (s * s + p * p)) F (locally 0).
Proof.
  intros Hp H0 Hi. assert (L : filterlim (fun s => / s / (1 + p * p * / s * / s)) F (locally 0)).
  { eapply fl_eq; [apply fl_div; [exact Hi|apply fl_plus; [apply fl_const|apply fl_mult; [apply fl_mult; [apply fl_const|exact Hi]|exact Hi]]|]|field]; lra. }
  eapply filterlim_ext_loc; [|exact L]. eapply filter_imp; [|exact H0]. intros s Hs. cbv beta. assert (A := ssq s p Hp). assert (C := sq_ne s Hs). field. repeat split; lra.
Qed.
Lemma ne0_p : Rbar_locally p_infty (fun s => s <> 0). Proof. exists 0. intros; lra. Qed.
Lemma ne0_m : Rbar_locally m_infty (fun s => s <> 0). Proof. exists 0. intros; lra. Qed.
Import Cauchy.
Context (m1 p m2 q : R) (Hp : 0 < p) (Hq : 0 < q).
Lemma atan_lims m g : 0 < g -> filterlim (fun x => atan ((x - m) / g)) (above m_infty) (locally (- (PI / 2))) /\ filterlim (fun x => atan ((x - m) / g)) (below p_infty) (locally (PI / 2)).
Proof.
  intros Hg. destruct (proj1 (c_coherent m g Hg)) as [_ _ L U]. assert (HPI : 0 < PI) by pos.
  set (cd := rf (fun x : xreal => unwrap (cdf (new_unchecked (Fin m) (Fin g)) x))) in *.
  assert (E : forall x, atan ((x - m) / g) = PI * (cd x - 1 / 2)) by (intros x; unfold cd, rf; rewrite c_cdf by auto; cbn [val]; field; lra).
  split; (eapply fl_ext; [exact E|]); (eapply fl_eq; [apply fl_mult; [apply fl_const|apply fl_minus; [eassumption|apply fl_const]]|field]).
Qed.
Lemma shift_p c : filterlim (fun x => x - c) (Rbar_locally p_infty) (Rbar_locally p_infty).
Proof. intros P [M HM]. exists (M + c). intros x Hx. apply HM. lra. Qed.
Lemma shift_m c : filterlim (fun x => x - c) (Rbar_locally m_infty) (Rbar_locally m_infty).
Proof. intros P [M HM]. exists (M + c). intros x Hx. apply HM. lra. Qed.
Lemma c_sum : is_sum_density (pdf (new_unchecked (Fin m1) (Fin p))) (pdf (new_unchecked (Fin m2) (Fin q))) (pdf (new_unchecked (Fin (m1 + m2)) (Fin (p + q)))).
Proof.
  intros z. assert (HPI : 0 < PI) by pos. assert (Hpq : 0 < p + q) by lra. set (w := z - m1 - m2).
  unfold rf at 3. rewrite c_pdf, c_pdf_alt by auto. cbn [val].
  assert (P1 : forall s, 0 < s * s + p * p) by (intros; now apply ssq). assert (P2 : forall s, 0 < s * s + q * q) by (intros; now apply ssq).
  cut (is_RInt_gen (fun t => p * q / (PI * PI) * (/ ((t - m1) * (t - m1) + p * p) * / ((t - m1 - w) * (t - m1 - w) + q * q))) (above m_infty) (below p_infty)
    ((p + q) / PI / ((p + q) * (p + q) + (z - (m1 + m2)) * (z - (m1 + m2))))).
  { apply (gen_ext m_infty p_infty). intros t. unfold rf. rewrite !c_pdf, !c_pdf_alt by auto. cbn [val].
    replace (z - t - m2) with (- (t - m1 - w)) by (unfold w; ring). assert (A1 := P1 (t - m1)). assert (A2 := P2 (t - m1 - w)). field. repeat split; try lra.
    all: rewrite ?Rplus_comm; nra. }
  replace ((z - (m1 + m2)) * (z - (m1 + m2))) with (w * w) by (unfold w; ring).
  assert (DD : forall (r c t : R), 0 < r -> is_derive (fun t => atan ((t - c) / r)) t (r / ((t - c) * (t - c) + r * r))).
  { intros r c t Hr. assert (A := ssq (t - c) r Hr). auto_derive; [lra|]. field. unfold Rminus in *. split; lra. }
  assert (CC : forall t, continuous (fun t => p * q / (PI * PI) * (/ ((t - m1) * (t - m1) + p * p) * / ((t - m1 - w) * (t - m1 - w) + q * q))) t).
  { intros t. assert (A1 := P1 (t - m1)). assert (A2 := P2 (t - m1 - w)). apply (ex_derive_continuous (V := R_NormedModule)). auto_derive. repeat split; auto; unfold Rminus in *; lra. }
  destruct (atan_lims m1 p Hp) as [Lm1 Lp1]. destruct (atan_lims (m1 + w) q Hq) as [Lm2 Lp2].
  destruct (Req_dec ((w * w + (p + q) * (p + q)) * (w * w + (p - q) * (p - q))) 0) as [D0|D0].
  - assert (W0 : w * w + (p - q) * (p - q) = 0). { apply Rmult_integral in D0. destruct D0; [|auto]. assert (A := ssq w (p + q) Hpq). lra. }
    assert (H : w = 0). { apply Rsqr_0_uniq. unfold Rsqr. assert (0 <= w * w) by apply Rle_0_sqr. assert (0 <= (p - q) * (p - q)) by apply Rle_0_sqr. lra. }
    assert (H0 : q = p). { apply Rminus_diag_uniq_sym, Rsqr_0_uniq. unfold Rsqr. assert (0 <= w * w) by apply Rle_0_sqr. assert (0 <= (p - q) * (p - q)) by apply Rle_0_sqr. lra. }
    assert (I : is_RInt_gen (fun t => p * q / (PI * PI) * (/ ((t - m1) * (t - m1) + p * p) * / ((t - m1 - w) * (t - m1 - w) + q * q))) (above m_infty) (below p_infty)
      (/ (2 * p * PI * PI) * (PI / 2) - / (2 * p * PI * PI) * - (PI / 2))).
    { apply (is_RInt_gen_antiderivative m_infty p_infty (fun t => p * p / (PI * PI) * ((t - m1) / ((t - m1) * (t - m1) + p * p) / (2 * p * p)) + / (2 * p * PI * PI) * atan ((t - m1) / p))); [exact I| |intros; apply CC| |].
      - intros t _. assert (A1 := P1 (t - m1)).
        eapply is_derive_eq; [apply dR_plus; [|apply dR_mult; [apply dR_c|now apply DD]]|].
        + auto_derive; [|reflexivity]. unfold Rminus in *; repeat split; auto; lra.
        + rewrite H, H0. rewrite Rminus_0_r. match goal with |- @eq _ ?a ?b => change (@eq R a b) end. field. repeat split; try lra; unfold Rminus in *; nra.
      - eapply fl_eq; [apply fl_plus; [apply fl_mult; [apply fl_const|apply fl_div; [|apply fl_const|nra]]|apply fl_mult; [apply fl_const|exact Lm1]]|].
        + apply (filterlim_comp _ _ _ (fun t => t - m1) (fun s => s / (s * s + p * p)) _ _ _ (shift_m m1)). apply (rat_lim _ p); [auto|exact ne0_m|exact inv_m].
        + field. lra.
      - eapply fl_eq; [apply fl_plus; [apply fl_mult; [apply fl_const|apply fl_div; [|apply fl_const|nra]]|apply fl_mult; [apply fl_const|exact Lp1]]|].
        + apply (filterlim_comp _ _ _ (fun t => t - m1) (fun s => s / (s * s + p * p)) _ _ _ (shift_p m1)). apply (rat_lim _ p); [auto|exact ne0_p|exact inv_p].
        + field. lra. }
    eapply gen_eq; [exact I|]. rewrite H, H0. field. lra.
  - set (D := (w * w + (p + q) * (p + q)) * (w * w + (p - q) * (p - q))) in *. set (K := p * q / (PI * PI)).
    set (B := (w * w + q * q - p * p) / D / p). set (E := (w * w + p * p - q * q) / D / q).
    assert (I : is_RInt_gen (fun t => K * (/ ((t - m1) * (t - m1) + p * p) * / ((t - m1 - w) * (t - m1 - w) + q * q))) (above m_infty) (below p_infty)
      (K * (w / D * 0 + B * (PI / 2) + E * (PI / 2)) - K * (w / D * 0 + B * - (PI / 2) + E * - (PI / 2)))).
    { apply (is_RInt_gen_antiderivative m_infty p_infty (fun t => K * (w / D * (ln ((t - m1) * (t - m1) + p * p) - ln ((t - m1 - w) * (t - m1 - w) + q * q)) + B * atan ((t - m1) / p) + E * atan ((t - (m1 + w)) / q)))); [exact I| |intros; apply CC| |].
      - intros t _. assert (A1 := P1 (t - m1)). assert (A2 := P2 (t - m1 - w)).
        eapply is_derive_eq.
        + apply dR_mult; [apply dR_c|]. apply dR_plus; [apply dR_plus|].
          * apply dR_mult; [apply dR_c|]. apply (is_derive_ext_eq _ _ (2 * (t - m1) / ((t - m1) * (t - m1) + p * p) - 2 * (t - m1 - w) / ((t - m1 - w) * (t - m1 - w) + q * q))); [reflexivity|].
            auto_derive; [unfold Rminus in *; lra|]. field. unfold Rminus in *; split; lra.
          * apply dR_mult; [apply dR_c|now apply DD].
          * apply dR_mult; [apply dR_c|now apply DD].
        + replace (t - (m1 + w)) with (t - m1 - w) by ring. set (s := t - m1) in *. match goal with |- @eq _ ?a ?b => change (@eq R a b) end.
          assert (Key : 2 * w * s * ((s - w) * (s - w) + q * q) - 2 * w * (s - w) * (s * s + p * p) + (w * w + q * q - p * p) * ((s - w) * (s - w) + q * q) + (w * w + p * p - q * q) * (s * s + p * p) = D) by (unfold D; ring).
          set (P := s * s + p * p) in *. set (Q := (s - w) * (s - w) + q * q) in *.
          transitivity (K * ((2 * w * s * Q - 2 * w * (s - w) * P + (w * w + q * q - p * p) * Q + (w * w + p * p - q * q) * P) / (D * P * Q))).
          { unfold B, E. field. repeat split; lra. }
          rewrite Key. field. repeat split; lra.
      - apply fl_mult; [apply fl_const|]. apply fl_plus; [apply fl_plus|]; (apply fl_mult; [apply fl_const|]); [|exact Lm1|exact Lm2].
        apply (filterlim_comp _ _ _ (fun t => t - m1) (fun s => ln (s * s + p * p) - ln ((s - w) * (s - w) + q * q)) _ _ _ (shift_m m1)). exact (ln_ratio_lim _ p q w Hp Hq ne0_m inv_m).
      - apply fl_mult; [apply fl_const|]. apply fl_plus; [apply fl_plus|]; (apply fl_mult; [apply fl_const|]); [|exact Lp1|exact Lp2].
        apply (filterlim_comp _ _ _ (fun t => t - m1) (fun s => ln (s * s + p * p) - ln ((s - w) * (s - w) + q * q)) _ _ _ (shift_p m1)). exact (ln_ratio_lim _ p q w Hp Hq ne0_p inv_p). }
    eapply gen_eq; [exact I|]. unfold K, B, E.
    assert (DP := ssq w (p + q) Hpq). assert (DQ : w * w + (p - q) * (p - q) <> 0) by (intros EE; apply D0; unfold D; rewrite EE; ring).
    unfold D. field. repeat split; try lra; try (rewrite Rplus_comm; lra).
Qed.
End CauchySum.
