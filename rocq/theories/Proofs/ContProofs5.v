(** * Arcsine, Cosine *)
From Coq Require Import Reals Lra Lia Psatz.
From Coquelicot Require Import Coquelicot.
From Verif.Num Require Import XReal.
From Verif.Model Require Import Rust Constraints Probability Params Consts Continuous2.
From Verif.Spec Require Import DistSpec.
From Verif.Proofs Require Import XTac Calc.
Open Scope R_scope.

Lemma is_derive_asin x : -1 < x < 1 -> is_derive asin x (/ sqrt (1 - x * x)).
Proof.
  intros H. apply is_derive_Reals. generalize (derive_pt_asin x H). intros E.
  assert (D := derive_pt_eq_1 asin x (1 / sqrt (1 - x²)) (derivable_pt_asin x H) E).
  unfold Rdiv, Rsqr in D. now rewrite Rmult_1_l in D.
Qed.
Lemma dR_sqrt (f : R -> R) (x a : R) : 0 < f x -> is_derive f x a -> is_derive (fun t => sqrt (f t)) x (a / (2 * sqrt (f x))).
Proof. intros. now apply is_derive_sqrt. Qed.
Lemma continuous_sqrt_all x : continuous sqrt x.
Proof. apply continuous_sqrt. Qed.

Section Arcsine.
Import Arcsine.
Context (a0 w0 : R) (Hw : 0 < w0).
Notation d := (new_unchecked (Fin a0) (Fin w0)).
Notation lo := (Finite a0). Notation hi := (Finite (a0 + w0)).
Notation U x := ((x - a0) / w0).
Notation q x := ((x - a0) * (a0 + w0 - x)).
Notation G := (fun x => 2 / PI * asin (sqrt (U x))).
Notation g := (fun x => 1 / PI / sqrt (q x)).
Lemma as_in x : inside lo hi x -> a0 < x < a0 + w0.
Proof. intros [H1 H2]; cbn in *; lra. Qed.
Lemma as_U x : inside lo hi x -> 0 < U x < 1.
Proof. intros H; apply as_in in H. split; [pos|]. apply Rmult_lt_reg_r with w0; [auto|]. unfold Rdiv; rewrite Rmult_assoc, Rinv_l; lra. Qed.
Lemma as_sqU x : inside lo hi x -> 0 < sqrt (U x) < 1.
Proof. intros H; apply as_U in H. split; [apply sqrt_lt_R0; lra|]. apply Rlt_le_trans with (sqrt 1); [apply sqrt_lt_1; lra|rewrite sqrt_1; lra]. Qed.
Lemma as_q x : inside lo hi x -> 0 < q x.
Proof. intros H; apply as_in in H. apply Rmult_lt_0_compat; lra. Qed.
Lemma as_sq x : inside lo hi x -> 0 < sqrt (q x).
Proof. intros H. apply sqrt_lt_R0. now apply as_q. Qed.
Lemma as_cdf x : inside lo hi x -> unwrap (cdf d (Fin x)) = Fin (G x).
Proof.
  intros H. assert (HU := as_U x H). assert (HS := as_sqU x H). unfold cdf, TWO_OVER_PI; cbn [unwrap pr a w new_unchecked]. xs.
  rewrite x_asin by lra. xs. reflexivity.
Qed.
Lemma as_pdf x : inside lo hi x -> pdf d (Fin x) = Fin (g x).
Proof.
  intros H. assert (HU := as_q x H). assert (HS := as_sq x H). unfold pdf, b, ONE_OVER_PI; cbn [unwrap pr a w new_unchecked]. xs. reflexivity.
Qed.
Lemma as_derive x : inside lo hi x -> is_derive G x (g x).
Proof.
  intros H. assert (HU := as_U x H). assert (HS := as_sqU x H). assert (HQ := as_sq x H).
  assert (D : is_derive (fun x => asin (sqrt (U x))) x ((/ w0) / (2 * sqrt (U x)) * (/ sqrt (1 - sqrt (U x) * sqrt (U x))))).
  { generalize (is_derive_comp asin (fun x => sqrt (U x)) x (/ sqrt (1 - sqrt (U x) * sqrt (U x))) ((/ w0) / (2 * sqrt (U x)))). intros HH. apply HH.
    - apply is_derive_asin. lra.
    - apply (dR_sqrt (fun x => U x)); [lra|]. auto_derive; [lra|]. ring. }
  eapply is_derive_eq; [apply dR_mult; [apply dR_c|exact D]|].
  assert (E : sqrt (q x) = w0 * (sqrt (U x) * sqrt (1 - sqrt (U x) * sqrt (U x)))).
  { rewrite sqrt_sqrt by lra. rewrite <- sqrt_mult by lra. transitivity (sqrt (w0 * w0) * sqrt (U x * (1 - U x))); [|rewrite sqrt_square by lra; reflexivity].
    rewrite <- sqrt_mult; [f_equal; field; lra|nra|nra]. }
  rewrite E. rewrite sqrt_sqrt by lra.
  assert (0 < sqrt (1 - U x)) by (apply sqrt_lt_R0; lra). generalize PI_RGT_0; intros. field. repeat split; lra.
Qed.
Lemma as_cont x : inside lo hi x -> continuous g x.
Proof. intros H. assert (HU := as_q x H). assert (HS := as_sq x H). generalize PI_RGT_0; intros. cont_auto. unfold Rminus in *; repeat split; auto; lra. Qed.
Lemma as_coherent : coherent lo hi (fun x => unwrap (cdf d x)) (pdf d).
Proof.
  generalize PI_RGT_0; intros HPI.
  apply (coherent_inverse _ _ _ _ G g (fun p => a0 + w0 * (sin (PI / 2 * p) * sin (PI / 2 * p)))).
  - cbn; lra.
  - intros; now apply as_cdf. - intros; now apply as_pdf. - intros; now apply as_derive. - intros; now apply as_cont.
  - intros x H. assert (HS := as_sq x H). cbv beta. apply Rdiv_le_0_compat; [pos|auto].
  - intros x H. assert (HS := as_sqU x H). generalize (asin_bound (sqrt (U x))); intros.
    assert (0 <= asin (sqrt (U x))). { rewrite <- asin_0. destruct (Rle_or_lt (asin 0) (asin (sqrt (U x)))); [auto|].
      exfalso. assert (sin (asin (sqrt (U x))) < sin (asin 0)). { apply sin_increasing_1; try (rewrite asin_0 in *; lra). }
      rewrite !sin_asin in H2 by lra. lra. }
    split; [apply Rmult_le_pos; [pos|lra]|].
    apply Rmult_le_reg_r with (PI / 2); [lra|]. replace (2 / PI * asin (sqrt (U x)) * (PI / 2)) with (asin (sqrt (U x))) by (field; lra). lra.
  - intros p Hp. assert (Hs : 0 < PI / 2 * p < PI / 2) by (split; [apply Rmult_lt_0_compat; lra|rewrite <- (Rmult_1_r (PI / 2)) at 2; apply Rmult_lt_compat_l; lra]).
    assert (S0 : 0 < sin (PI / 2 * p)) by (apply sin_gt_0; lra).
    assert (S1 : sin (PI / 2 * p) < 1). { rewrite <- sin_PI2. apply sin_increasing_1; lra. }
    set (sp := sin (PI / 2 * p)) in *.
    assert (0 < sp * sp < 1) by (split; nra). assert (0 < w0 * (sp * sp)) by (apply Rmult_lt_0_compat; lra).
    assert (w0 * (sp * sp) < w0) by (rewrite <- (Rmult_1_r w0) at 2; apply Rmult_lt_compat_l; lra).
    split; [split; cbn; lra|]. cbv beta.
    replace ((a0 + w0 * (sp * sp) - a0) / w0) with (sp * sp) by (field; lra). rewrite sqrt_square by lra.
    unfold sp. rewrite asin_sin by lra. field; lra.
Qed.
Lemma as_lim_lo : filterlim G (above lo) (locally 0).
Proof.
  eapply filterlim_ext_above with (hi := hi); [cbn; lra| |apply (cdf_lower _ _ _ (proj1 as_coherent))].
  intros x Hx. unfold rf. now rewrite as_cdf.
Qed.
Lemma as_lim_hi : filterlim G (below hi) (locally 1).
Proof.
  eapply filterlim_ext_below with (lo := lo); [cbn; lra| |apply (cdf_upper _ _ _ (proj1 as_coherent))].
  intros x Hx. unfold rf. now rewrite as_cdf.
Qed.
Notation mm := (a0 + w0 / 2).
(** central moments: an antiderivative P(y) sqrt q + c G for y = x - m *)
Lemma as_moment (n : nat) (P : R -> R) (dP : R -> R) c :
  (forall y, is_derive P y (dP y)) ->
  (forall y, (dP y * (w0 * w0 / 4 - y * y) - P y * y) * PI + c = y ^ n) ->
  is_expectation lo hi (pdf d) (fun x => (x - mm) ^ n) c.
Proof.
  intros HP HE. generalize PI_RGT_0; intros HPI.
  apply (expectation_intro _ _ _ (fun x => (x - mm) ^ n) g (fun x => P (x - mm) * sqrt (q x) + c * (G x)) 0 c).
  - cbn; lra. - intros; now apply as_pdf.
  - intros x H. assert (HU := as_q x H). assert (HS := as_sq x H).
    assert (D1 : is_derive (fun x => P (x - mm)) x (dP (x - mm))).
    { generalize (is_derive_comp P (fun x => x - mm) x _ 1 (HP (x - mm))). intros HH. eapply is_derive_eq; [apply HH; auto_derive; auto; ring|].
      unfold scal; cbn; unfold mult; cbn; ring. }
    assert (D2 : is_derive (fun x => sqrt (q x)) x (- (x - mm) / sqrt (q x))).
    { eapply is_derive_eq; [apply (dR_sqrt (fun x => q x) x (a0 + w0 - x - (x - a0))); [lra|auto_derive; auto; ring]|]. field. lra. }
    eapply is_derive_eq. { apply dR_plus; [apply dR_mult; [exact D1|exact D2]|]. apply dR_mult; [apply dR_c|apply as_derive, H]. }
    cbv beta. rewrite <- HE.
    assert (EQ : sqrt (q x) * sqrt (q x) = w0 * w0 / 4 - (x - mm) * (x - mm)) by (rewrite sqrt_sqrt by lra; field).
    rewrite <- EQ. field. lra.
  - intros x H. apply (continuous_mult (K := R_AbsRing) (fun x => (x - mm) ^ n) g); [|now apply as_cont].
    apply (ex_derive_continuous (fun x => (x - mm) ^ n)). auto_derive. auto.
  - eapply fl_eq. { apply fl_plus; [apply fl_mult|apply fl_mult; [apply fl_const|apply as_lim_lo]].
      - apply lim_above_cont; [|reflexivity]. apply (continuous_comp (fun x => x - mm) P); [cont_auto; auto|]. eapply ex_derive_cont, HP.
      - apply lim_above_cont; [|reflexivity]. apply (continuous_comp (fun x => q x) sqrt); [cont_auto; auto|apply continuous_sqrt]. }
    replace (q a0) with 0 by ring. rewrite sqrt_0. ring.
  - eapply fl_eq. { apply fl_plus; [apply fl_mult|apply fl_mult; [apply fl_const|apply as_lim_hi]].
      - apply lim_below_cont; [|reflexivity]. apply (continuous_comp (fun x => x - mm) P); [cont_auto; auto|]. eapply ex_derive_cont, HP.
      - apply lim_below_cont; [|reflexivity]. apply (continuous_comp (fun x => q x) sqrt); [cont_auto; auto|apply continuous_sqrt]. }
    replace (q (a0 + w0)) with 0 by ring. rewrite sqrt_0. ring.
  - ring.
Qed.
Lemma as_m0 : is_expectation lo hi (pdf d) (fun x => (x - mm) ^ 0) 1.
Proof. apply (as_moment 0 (fun _ => 0) (fun _ => 0)); [intros; apply dR_c|intros; cbn; ring]. Qed.
Lemma as_m1 : is_expectation lo hi (pdf d) (fun x => (x - mm) ^ 1) 0.
Proof.
  generalize PI_RGT_0; intros HPI.
  apply (as_moment 1 (fun _ => - 1 / PI) (fun _ => 0)); [intros; apply dR_c|intros; field; lra].
Qed.
Lemma as_m2 : is_expectation lo hi (pdf d) (fun x => (x - mm) ^ 2) (w0 * w0 / 8).
Proof.
  generalize PI_RGT_0; intros HPI.
  apply (as_moment 2 (fun y => - y / (2 * PI)) (fun _ => - 1 / (2 * PI))); [intros; auto_derive; [lra|field; lra]|intros; field; lra].
Qed.
Lemma as_m3 : is_expectation lo hi (pdf d) (fun x => (x - mm) ^ 3) 0.
Proof.
  generalize PI_RGT_0; intros HPI.
  apply (as_moment 3 (fun y => - (y ^ 2 + w0 * w0 / 2) / (3 * PI)) (fun y => - 2 * y / (3 * PI))); [intros; auto_derive; [lra|field; lra]|intros; field; lra].
Qed.
Lemma as_m4 : is_expectation lo hi (pdf d) (fun x => (x - mm) ^ 4) (3 * (w0 * w0 / 4) ^ 2 / 8).
Proof.
  generalize PI_RGT_0; intros HPI.
  apply (as_moment 4 (fun y => - (y ^ 3 / 4 + 3 * w0 * w0 / 32 * y) / PI) (fun y => - (3 * y ^ 2 / 4 + 3 * w0 * w0 / 32) / PI)); [intros; auto_derive; [lra|field; lra]|intros; field; lra].
Qed.
Lemma as_mean : is_mean lo hi (pdf d) mm.
Proof.
  unfold is_mean. eapply exp_eq; [eapply exp_ext; [|apply (exp_plus_ _ _ _ _ _ _ _ as_m1 (exp_scal _ _ _ mm _ _ as_m0))]|ring]. intros; cbn; ring.
Qed.
Lemma as_variance : is_variance lo hi (pdf d) mm (w0 * w0 / 8).
Proof. split; [apply as_mean|]. eapply exp_ext; [|apply as_m2]. intros; cbn; ring. Qed.
Lemma as_skewness : is_skewness lo hi (pdf d) 0.
Proof.
  exists mm, (w0 * w0 / 8). split; [apply as_variance|]. split; [nra|]. eapply exp_eq; [apply as_m3|ring].
Qed.
Lemma as_kurtosis : is_kurtosis lo hi (pdf d) (3 / 2).
Proof.
  exists mm, (w0 * w0 / 8). split; [apply as_variance|]. split; [nra|]. eapply exp_eq; [apply as_m4|field].
Qed.
Lemma as_median : is_median (fun x => unwrap (cdf d x)) mm.
Proof.
  unfold is_median. generalize PI_RGT_0; intros. rewrite as_cdf by (split; cbn; lra). f_equal.
  replace (U mm) with (1 / 2) by (field; lra). rewrite <- (sqrt_inv 2) || idtac.
  replace (sqrt (1 / 2)) with (/ sqrt 2).
  - rewrite asin_inv_sqrt2. field. lra.
  - unfold Rdiv. rewrite Rmult_1_l. now rewrite sqrt_inv.
Qed.
(** the density is infinite at both returned modes *)
Lemma as_modes : List.Forall (fun m => pdf d m = PInf) (modes d).
Proof.
  assert (HH : forall y, y = 0 -> fdiv ONE_OVER_PI (fsqrt (Fin y)) = PInf).
  { intros y ->. rewrite x_sqrt by lra. rewrite sqrt_0. unfold ONE_OVER_PI. rewrite x_lit, x_pi, x_div by apply PI_neq0.
    cbn. destruct (Req_EM_T 0 0); [|lra]. generalize PI_RGT_0; intros. assert (0 < 1 / PI) by pos.
    destruct (Req_EM_T (1 / PI) 0); [lra|]. unfold sinf. destruct (Rlt_dec 0 (1 / PI)); [reflexivity|lra]. }
  unfold modes, pdf, b; cbn [pr a w new_unchecked]. rewrite x_add.
  repeat constructor; rewrite !x_sub, x_mul; apply HH; ring.
Qed.
End Arcsine.

Lemma density_val cdf (lo hi : Rbar) (G g : R -> R) :
  (forall x, inside lo hi x -> cdf (Fin x) = Fin (G x)) -> (forall x, inside lo hi x -> is_derive G x (g x)) ->
  forall x, inside lo hi x -> density_of cdf (Fin x) = Fin (g x).
Proof.
  intros HG Hg x Hx. unfold density_of. f_equal. apply is_derive_unique.
  apply is_derive_ext_loc with G; [|now apply Hg].
  generalize (locally_inside lo hi x Hx). apply filter_imp. intros y Hy. unfold rf. now rewrite HG.
Qed.

Section Cosine.
Import Cosine.
Context (m s0 : R) (Hs : 0 < s0).
Notation d := (new_unchecked (Fin m) (Fin s0)).
Notation lo := (Finite (m - s0)). Notation hi := (Finite (m + s0)).
Notation Z x := ((x - m) / s0).
Notation G := (fun x => 1 / 2 * (1 + Z x + 1 / PI * sin (Z x * PI))).
Notation g := (fun x => (1 + cos (Z x * PI)) / (2 * s0)).
Notation cd := (fun x => unwrap (cdf d x)).
Lemma co_in x : inside lo hi x -> m - s0 < x < m + s0.
Proof. intros [H1 H2]; cbn in *; lra. Qed.
Lemma co_cdf x : unwrap (cdf d (Fin x)) = Fin (G x).
Proof. generalize PI_RGT_0; intros. unfold cdf, z, ONE_OVER_PI; cbn [unwrap pr mu s new_unchecked]. now xs. Qed.
Lemma co_pdf x : pdf d (Fin x) = Fin (1 / 2 * ((cos (Z x * PI) + 1) / 2)).
Proof. unfold pdf, hvc, z; cbn [pr mu s new_unchecked]. now xs. Qed.
Lemma co_derive x : is_derive G x (g x).
Proof.
  generalize PI_RGT_0; intros. auto_derive; [lra|]. unfold Rdiv, Rminus. field. lra.
Qed.
Lemma co_cont x : continuous g x.
Proof. cont_auto. lra. Qed.
Lemma co_density x : density_of cd (Fin x) = Fin (g x).
Proof. apply (density_val cd m_infty p_infty G g); [intros; apply co_cdf|intros; apply co_derive|split; exact I]. Qed.
Lemma co_coherent : coherent lo hi cd (density_of cd).
Proof.
  generalize PI_RGT_0; intros. apply (coherent_intro _ _ _ _ G g).
  - cbn; lra. - intros; apply co_cdf. - intros; apply co_density. - intros; apply co_derive. - intros; apply co_cont.
  - intros x _. generalize (COS_bound (Z x * PI)); intros. apply Rdiv_le_0_compat; lra.
  - apply lim_above_cont; [eapply ex_derive_cont, co_derive|].
    replace ((m - s0 - m) / s0) with (- (1)) by (field; lra). replace (- (1) * PI) with (- PI) by ring. rewrite sin_neg, sin_PI. field; lra.
  - apply lim_below_cont; [eapply ex_derive_cont, co_derive|].
    replace ((m + s0 - m) / s0) with 1 by (field; lra). rewrite Rmult_1_l, sin_PI. field; lra.
Qed.
Lemma co_scaled x : is_derive (rf cd) x (2 / s0 * rf (pdf d) x).
Proof.
  eapply is_derive_eq; [apply is_derive_ext with G; [intros; unfold rf; now rewrite co_cdf|apply co_derive]|].
  unfold rf; rewrite co_pdf; cbn. field. lra.
Qed.
Lemma co_median : is_median cd m.
Proof. unfold is_median. rewrite co_cdf. f_equal. replace (Z m) with 0 by (field; lra). rewrite Rmult_0_l, sin_0. generalize PI_RGT_0; intros; field; lra. Qed.
Lemma co_mode : is_mode lo hi (pdf d) m.
Proof.
  eexists; split; [apply co_pdf|]. intros x _. eexists; split; [apply co_pdf|].
  replace (Z m) with 0 by (field; lra). rewrite Rmult_0_l, cos_0. generalize (COS_bound (Z x * PI)); lra.
Qed.
(** central moments under the true density *)
Lemma co_moment (n : nat) (H : R -> R) c :
  (forall x, is_derive H x ((x - m) ^ n * g x)) -> c = H (m + s0) - H (m - s0) ->
  is_expectation lo hi (density_of cd) (fun x => (x - m) ^ n) c.
Proof.
  intros HD E. apply (expectation_intro _ _ _ (fun x => (x - m) ^ n) g H (H (m - s0)) (H (m + s0))).
  - cbn; lra. - intros; apply co_density. - intros; apply HD.
  - intros x _. apply (continuous_mult (K := R_AbsRing) (fun x => (x - m) ^ n) g); [|apply co_cont]. apply (ex_derive_continuous (fun x => (x - m) ^ n)). auto_derive. auto.
  - apply lim_above_cont; [eapply ex_derive_cont, HD|reflexivity].
  - apply lim_below_cont; [eapply ex_derive_cont, HD|reflexivity].
  - exact E.
Qed.
Ltac co_end := replace (m + s0 - m) with s0 by ring; replace (m - s0 - m) with (- s0) by ring;
  replace (s0 / s0) with 1 by (field; lra); replace (- s0 / s0) with (- (1)) by (field; lra);
  rewrite ?Rmult_1_l; replace (- (1) * PI) with (- PI) by ring; rewrite ?sin_neg, ?cos_neg, ?sin_PI, ?cos_PI; field; lra.
Notation S x := (sin (Z x * PI)). Notation C x := (cos (Z x * PI)). Notation k := (PI / s0).
Lemma co_m0 : is_expectation lo hi (density_of cd) (fun x => (x - m) ^ 0) 1.
Proof.
  generalize PI_RGT_0; intros.
  apply (co_moment 0 G); [intros x; eapply is_derive_eq; [apply co_derive|cbn; ring]|]. co_end.
Qed.
Lemma co_m1 : is_expectation lo hi (density_of cd) (fun x => (x - m) ^ 1) 0.
Proof.
  generalize PI_RGT_0; intros.
  apply (co_moment 1 (fun x => ((x - m) ^ 2 / 2 + (x - m) * S x / k + C x / k ^ 2) / (2 * s0))).
  - intros x. auto_derive; [lra|]. unfold Rdiv, Rminus. field. lra.
  - co_end.
Qed.
Lemma co_m2 : is_expectation lo hi (density_of cd) (fun x => (x - m) ^ 2) (s0 * s0 * (1 / 3 - 2 / (PI * PI))).
Proof.
  generalize PI_RGT_0; intros.
  apply (co_moment 2 (fun x => ((x - m) ^ 3 / 3 + (x - m) ^ 2 * S x / k + 2 * (x - m) * C x / k ^ 2 - 2 * S x / k ^ 3) / (2 * s0))).
  - intros x. auto_derive; [lra|]. unfold Rdiv, Rminus. field. lra.
  - co_end.
Qed.
Lemma co_m3 : is_expectation lo hi (density_of cd) (fun x => (x - m) ^ 3) 0.
Proof.
  generalize PI_RGT_0; intros.
  apply (co_moment 3 (fun x => ((x - m) ^ 4 / 4 + (x - m) ^ 3 * S x / k + 3 * (x - m) ^ 2 * C x / k ^ 2 - 6 * (x - m) * S x / k ^ 3 - 6 * C x / k ^ 4) / (2 * s0))).
  - intros x. auto_derive; [lra|]. unfold Rdiv, Rminus. field. lra.
  - co_end.
Qed.
Lemma co_m4 : is_expectation lo hi (density_of cd) (fun x => (x - m) ^ 4) (s0 ^ 4 * (1 / 5 - 4 / PI ^ 2 + 24 / PI ^ 4)).
Proof.
  generalize PI_RGT_0; intros.
  apply (co_moment 4 (fun x => ((x - m) ^ 5 / 5 + (x - m) ^ 4 * S x / k + 4 * (x - m) ^ 3 * C x / k ^ 2 - 12 * (x - m) ^ 2 * S x / k ^ 3
     - 24 * (x - m) * C x / k ^ 4 + 24 * S x / k ^ 5) / (2 * s0))).
  - intros x. auto_derive; [lra|]. unfold Rdiv, Rminus. field. lra.
  - co_end.
Qed.
Lemma co_mean : is_mean lo hi (density_of cd) m.
Proof.
  unfold is_mean. eapply exp_eq; [eapply exp_ext; [|apply (exp_plus_ _ _ _ _ _ _ _ co_m1 (exp_scal _ _ _ m _ _ co_m0))]|ring]. intros; cbn; ring.
Qed.
Lemma co_variance : is_variance lo hi (density_of cd) m (s0 * s0 * (1 / 3 - 2 / (PI * PI))).
Proof. split; [apply co_mean|]. eapply exp_ext; [|apply co_m2]. intros; cbn; ring. Qed.
Lemma PI2_gt6 : 6 < PI * PI.
Proof. generalize PI_ineq || idtac. assert (3 < PI) by (generalize PI2_3_2; lra). nra. Qed.
Lemma co_var_pos : 0 < s0 * s0 * (1 / 3 - 2 / (PI * PI)).
Proof.
  generalize PI2_gt6 PI_RGT_0; intros. apply Rmult_lt_0_compat; [nra|].
  apply Rmult_lt_reg_r with (3 * (PI * PI)); [lra|]. replace ((1 / 3 - 2 / (PI * PI)) * (3 * (PI * PI))) with (PI * PI - 6) by (field; lra). lra.
Qed.
Lemma co_skewness : is_skewness lo hi (density_of cd) 0.
Proof. exists m, (s0 * s0 * (1 / 3 - 2 / (PI * PI))). split; [apply co_variance|]. split; [apply co_var_pos|]. eapply exp_eq; [apply co_m3|ring]. Qed.
Lemma co_kurtosis : is_kurtosis lo hi (density_of cd) (3 + 6 * (90 - PI ^ 4) / (5 * (PI * PI - 6) ^ 2)).
Proof.
  exists m, (s0 * s0 * (1 / 3 - 2 / (PI * PI))). split; [apply co_variance|]. split; [apply co_var_pos|]. eapply exp_eq; [apply co_m4|].
  generalize PI2_gt6 PI_RGT_0; intros. field. split; lra.
Qed.
End Cosine.
