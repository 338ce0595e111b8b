(** * The univariate Normal and LogNormal *)
From Coq Require Import Reals Lra Lia Psatz List.
From Coquelicot Require Import Coquelicot.
From Verif.Num Require Import XReal.
From Verif.Model Require Import Rust Constraints Probability Params Consts Continuous2.
From Verif.Spec Require Import DistSpec.
From Verif.Proofs Require Import Gauss Gauss2 Calc2 XTac Calc ContProofs8 NewInv.
Import ListNotations.
Open Scope R_scope.

Lemma uvn_new_inv m S d : UvNormal.new (Fin m) (Fin S) = Ok d -> 0 < S /\ d = UvNormal.new_unchecked (Fin m) (Fin S).
Proof.
  unfold UvNormal.new, UvNormal.params_new, loc_new, isotropic_new. cbn [and_then map_ok map_err check].
  unfold check_default; cbn [is_satisfied_by]. unfold pltb, POrd_scalar, pzero.
  destruct (fltb (f_of_Z 0) (Fin S)) eqn:E; cbn [and_then map_ok map_err]; [|discriminate]. apply xpos_iff in E. intros H; injection H as <-. auto.
Qed.
Lemma uvn_new_ok m S : 0 < S -> UvNormal.new (Fin m) (Fin S) = Ok (UvNormal.new_unchecked (Fin m) (Fin S)).
Proof.
  intros H. unfold UvNormal.new, UvNormal.params_new, loc_new, isotropic_new. cbn [and_then map_ok map_err check].
  unfold check_default; cbn [is_satisfied_by]. unfold pltb, POrd_scalar, pzero.
  apply xpos_iff in H. rewrite H. reflexivity.
Qed.

Section Normal.
Import UvNormal.
Context (m S : R) (HS : 0 < S).
Notation d := (new_unchecked (Fin m) (Fin S)).
Notation lo := m_infty. Notation hi := p_infty.
Notation s := (sqrt S).
Lemma Hs : 0 < s. Proof. now apply sqrt_lt_R0. Qed.
Notation zz x := ((x - m) / s).
Lemma un_z x : z d (Fin x) = Fin (zz x).
Proof. assert (H := Hs). unfold z; cbn [pr mu Sigma new_unchecked]. now xs. Qed.
Lemma un_pdf x : pdf d (Fin x) = Fin (phi (zz x) / s).
Proof.
  assert (H := Hs). assert (P := sqrt2PI_pos). assert (P' := PI_RGT_0). unfold pdf, PI_2. cbv zeta. rewrite un_z. cbn [pr mu Sigma new_unchecked]. xs.
  f_equal. unfold phi. rewrite (Rmult_comm PI 2). replace (- zz x * zz x / 2) with (- (zz x * zz x / 2)) by (field; lra). field. split; lra.
Qed.
Definition unM (n : nat) : R := match n with 0%nat => 1 | 1%nat => 0 | 2%nat => 1 | 3%nat => 0 | _ => 3 end.
Lemma un_ab n : (n <= 4)%nat -> is_expectation lo hi (pdf d) (fun x => (zz x) ^ n) (unM n).
Proof.
  intros H. assert (H0 := Hs).
  assert (A : forall l K, unM n = K -> (forall t, is_derive (fun t => peval l t * phi t + K * Phi t) t (t ^ n * phi t)) ->
    is_expectation lo hi (pdf d) (fun x => (zz x) ^ n) (unM n)).
  { intros l K -> D.
    apply (expectation_intro _ _ _ _ (fun x => phi (zz x) / s) (fun x => peval l (zz x) * phi (zz x) + K * Phi (zz x)) 0 K).
    - exact I. - intros; apply un_pdf.
    - intros x _. generalize (aff_comp m s H0 _ x _ (D _)). apply is_derive_ext_eq. unfold Rdiv. ring.
    - intros x _. apply (aff_cont m s H0 (fun t => t ^ n * (phi t / s)) x). eapply ex_derive_cont. apply (dR_mult (fun t => t ^ n) (fun t => phi t / s)).
      + auto_derive; [auto|reflexivity]. + apply dR_div; [lra|apply phi_derive|apply dR_c].
    - eapply fl_eq; [apply fl_plus; [apply (aff_m m s H0 (fun t => peval l t * phi t)), poly_phi_m|apply fl_mult; [apply fl_const|apply (aff_m m s H0), Phi_lim_m]]|ring].
    - eapply fl_eq; [apply fl_plus; [apply (aff_p m s H0 (fun t => peval l t * phi t)), poly_phi_p|apply fl_mult; [apply fl_const|apply (aff_p m s H0), Phi_lim_p]]|ring].
    - ring. }
  assert (D : forall l K (p' : R -> R) t, is_derive (peval l) t (p' t) -> is_derive (fun t => peval l t * phi t + K * Phi t) t (p' t * phi t + peval l t * (- t * phi t) + (0 * Phi t + K * phi t))).
  { intros l K p' t Hl. apply dR_plus; [apply dR_mult; [exact Hl|apply phi_derive]|apply dR_mult; [apply dR_c|apply Phi_derive]]. }
  do 5 (destruct n as [|n]; [
    first [ solve [apply (A [] 1); [reflexivity|]; intros t; eapply is_derive_eq; [apply (D _ _ (fun _ => 0)); cbn; auto_derive; auto; ring|cbn; ring]]
          | solve [apply (A [-1] 0); [reflexivity|]; intros t; eapply is_derive_eq; [apply (D _ _ (fun _ => 0)); cbn; auto_derive; auto; ring|cbn; ring]]
          | solve [apply (A [0; -1] 1); [reflexivity|]; intros t; eapply is_derive_eq; [apply (D _ _ (fun _ => -1)); cbn; auto_derive; auto; ring|cbn; ring]]
          | solve [apply (A [-2; 0; -1] 0); [reflexivity|]; intros t; eapply is_derive_eq; [apply (D _ _ (fun t => -2 * t)); cbn; auto_derive; auto; ring|cbn; ring]]
          | solve [apply (A [0; -3; 0; -1] 3); [reflexivity|]; intros t; eapply is_derive_eq; [apply (D _ _ (fun t => -3 - 3 * t * t)); cbn; auto_derive; auto; ring|cbn; ring]] ]|]).
  lia.
Qed.
Ltac unab := try (apply un_ab; lia); try reflexivity; try (assert (HH := Hs); lra).
Lemma s_sq : s * s = S. Proof. apply sqrt_sqrt; lra. Qed.
Lemma un_mean : returns (mean d) (is_mean lo hi (pdf d)).
Proof. eexists; split; [reflexivity|]. apply (mean_about _ _ _ m s unM); unab. cbn; ring. Qed.
Lemma un_variance : returns (variance d) (is_variance lo hi (pdf d) m).
Proof.
  eexists; split; [reflexivity|]. apply (variance_about _ _ _ m s unM); unab; cbn; [ring|]. rewrite <- s_sq at 1. ring.
Qed.
Lemma un_skewness : returns (skewness d) (is_skewness lo hi (pdf d)).
Proof.
  eexists; split; [reflexivity|]. apply (skewness_about _ _ _ m s unM) with (v := S); unab; [cbn; rewrite <- s_sq at 1; ring|cbn; ring].
Qed.
Lemma un_kurtosis_true : is_kurtosis lo hi (pdf d) 3.
Proof.
  apply (kurtosis_about _ _ _ m s unM) with (v := S); unab; [cbn; rewrite <- s_sq at 1; ring|cbn; rewrite <- s_sq at 5 6; ring].
Qed.
Lemma un_total : is_RInt_gen (rf (pdf d)) (above lo) (below hi) 1.
Proof. apply (about_total _ _ _ m s unM); unab. Qed.
Lemma un_modes : all_return (modes d) (is_mode lo hi (pdf d)).
Proof.
  assert (H := Hs). intros x [<-|[]]. eexists; split; [reflexivity|]. eexists; split; [apply un_pdf|]. intros x _. eexists; split; [apply un_pdf|].
  rewrite z_c by auto. unfold Rdiv. apply Rmult_le_compat_r; [pos|]. unfold phi, Rdiv. apply Rmult_le_compat_r; [apply Rlt_le, Rinv_0_lt_compat, sqrt2PI_pos|].
  apply exp_le_mono. fold (Rdiv (x - m) s). assert (0 <= zz x * zz x) by apply Rle_0_sqr. lra.
Qed.
Lemma un_entropy : returns (shannon_entropy d) (is_entropy lo hi (pdf d)).
Proof.
  assert (H := Hs). assert (P := PI_RGT_0). assert (P2 := sqrt2PI_pos). unfold shannon_entropy, PI_E_2, PI_E; cbn [pr Sigma new_unchecked]. xs.
  eexists; split; [reflexivity|]. unfold is_entropy. set (L := ln (sqrt (2 * PI) * s)).
  assert (EL : ln (2 * PI * exp 1 * S) / 2 = 1 / 2 + L).
  { unfold L. rewrite <- sqrt_mult by lra.
    assert (EX : ln (sqrt (2 * PI * S)) + ln (sqrt (2 * PI * S)) = ln (2 * PI * S)).
    { rewrite <- ln_mult by (apply sqrt_lt_R0; pos). rewrite sqrt_sqrt by pos. reflexivity. }
    replace (2 * PI * exp 1 * S) with (2 * PI * S * exp 1) by ring. rewrite ln_mult, ln_exp by pos. lra. }
  replace (PI * exp 1 * 2 * S) with (2 * PI * exp 1 * S) by ring. rewrite EL.
  assert (A : is_expectation lo hi (pdf d) (fun x => / 2 * zz x ^ 2 + L * zz x ^ 0) (/ 2 * unM 2 + L * unM 0)).
  { apply exp_plus_; apply exp_scal; apply un_ab; lia. }
  unfold is_expectation in A. replace (/ 2 * unM 2 + L * unM 0) with (1 / 2 + L) in A by (cbn; lra). revert A.
  apply is_RInt_gen_ext. apply filter_forall. intros ab x _. unfold rf. rewrite un_pdf. cbn [val].
  assert (EP : ln (phi (zz x) / s) = - (zz x * zz x / 2) - L).
  { unfold phi, L. replace (exp (- (zz x * zz x / 2)) / sqrt (2 * PI) / s) with (exp (- (zz x * zz x / 2)) * / (sqrt (2 * PI) * s)) by (field; split; lra).
    rewrite ln_mult, ln_exp, ln_Rinv by pos. ring. }
  rewrite EP. match goal with |- @eq _ ?a ?b => change (@eq R a b) end. cbn. field. lra.
Qed.
Section Oracle.
Context {SP : Special xreal}.
Context (Hn : forall x, sf_norm (Fin x) = Fin (Phi x)).
Notation cd := (fun x => unwrap (cdf d x)).
Lemma un_cdf x : cd (Fin x) = Fin (Phi (zz x)).
Proof. unfold cdf. cbn [fisinf XScalar xisinf unwrap]. now rewrite un_z, Hn. Qed.
Lemma un_coherent : coherent lo hi cd (pdf d).
Proof.
  assert (H := Hs). apply (coherent_intro _ _ _ _ (fun x => Phi (zz x)) (fun x => phi (zz x) / s)).
  - exact I. - intros; apply un_cdf. - intros; apply un_pdf.
  - intros x _. apply (aff_comp m s H), Phi_derive.
  - intros x _. apply (aff_cont m s H (fun t => phi t / s)). eapply ex_derive_cont. apply dR_div; [lra|apply phi_derive|apply dR_c].
  - intros x _. assert (A := phi_pos (zz x)). pos.
  - apply (aff_m m s H), Phi_lim_m. - apply (aff_p m s H), Phi_lim_p.
Qed.
Lemma un_median : returns (median d) (is_median cd).
Proof. eexists; split; [reflexivity|]. unfold is_median. rewrite un_cdf, z_c by apply Hs. now rewrite Phi_0. Qed.
Lemma un_inverts : (forall p, 0 < p < 1 -> exists q, sf_norm_inv (Fin p) = Fin q /\ Phi q = p) -> inverts lo hi cd (fun p => quantile d (Prob p)).
Proof.
  assert (H := Hs). intros HI p Hp. destruct (HI p Hp) as (q & Eq & Pq). exists (m + s * q). split; [|split].
  - unfold quantile; cbn [pr mu Sigma new_unchecked unwrap]. rewrite Eq. now xs.
  - split; exact I.
  - rewrite un_cdf. f_equal. rewrite <- Pq. f_equal. field; lra.
Qed.
End Oracle.
End Normal.

Section LogNormal.
Import LogNormal.
Context (m S : R) (HS : 0 < S).
Context {SP : Special xreal} (Hn : forall x, sf_norm (Fin x) = Fin (Phi x)).
Notation d := (new_unchecked (Fin m) (Fin S)).
Notation lo := (Finite 0). Notation hi := p_infty.
Notation s := (sqrt S).
Notation cd := (fun x => unwrap (cdf d x)).
Notation zz x := ((ln x - m) / s).
Lemma ln_in x : inside lo hi x -> 0 < x. Proof. intros [H _]; exact H. Qed.
Lemma ln_cdf x : 0 < x -> cd (Fin x) = Fin (Phi (zz x)).
Proof. intros H. unfold cdf, new_unchecked; cbn [nrm]. rewrite x_ln by auto. apply (un_cdf m S HS Hn). Qed.
Lemma ln_pdf x : 0 < x -> pdf d (Fin x) = Fin (phi (zz x) / s).
Proof. intros H. unfold pdf, new_unchecked; cbn [nrm]. rewrite x_ln by auto. apply (un_pdf m S HS). Qed.
Lemma lnz_comp (f : R -> R) x l : 0 < x -> is_derive f (zz x) l -> is_derive (fun x => f (zz x)) x (l / (s * x)).
Proof.
  intros Hx H. assert (H0 := Hs S HS).
  assert (Dz : is_derive (fun x => zz x) x (/ (s * x))) by (dder; try lra; field; lra).
  generalize (is_derive_comp f (fun x => zz x) x _ _ H Dz). apply is_derive_ext_eq.
  change (scal (/ (s * x)) l) with (/ (s * x) * l). match goal with |- @eq _ ?a ?b => change (@eq R a b) end. unfold Rdiv. ring.
Qed.
Lemma ln_lim0 : filterlim ln (at_right 0) (Rbar_locally m_infty).
Proof. apply is_lim_ln_0. Qed.
Lemma lnz_lim_lo (f : R -> R) l : filterlim f (Rbar_locally m_infty) (locally l) -> filterlim (fun x => f (zz x)) (above lo) (locally l).
Proof.
  intros H. apply (filterlim_comp _ _ _ ln (fun y => f ((y - m) / s)) _ (Rbar_locally m_infty)); [apply ln_lim0|apply (aff_m m s (Hs S HS)), H].
Qed.
Lemma lnz_lim_hi (f : R -> R) l : filterlim f (Rbar_locally p_infty) (locally l) -> filterlim (fun x => f (zz x)) (below hi) (locally l).
Proof.
  intros H. apply (filterlim_comp _ _ _ ln (fun y => f ((y - m) / s)) _ (Rbar_locally p_infty)); [apply is_lim_ln_p|apply (aff_p m s (Hs S HS)), H].
Qed.
Definition lng (x : R) : R := phi (zz x) / (s * x).
Lemma ln_density x : inside lo hi x -> density_of cd (Fin x) = Fin (lng x).
Proof.
  intros H; apply ln_in in H. unfold density_of. cbn [val]. f_equal. apply is_derive_unique.
  apply (is_derive_ext_loc (fun x => Phi (zz x))); [|apply lnz_comp; [auto|apply Phi_derive]].
  generalize (locally_inside lo hi x (conj H I)). apply filter_imp. intros y Hy; apply ln_in in Hy. unfold rf. now rewrite ln_cdf.
Qed.
Lemma lng_cont x : 0 < x -> continuous lng x.
Proof.
  intros H. assert (H0 := Hs S HS). unfold lng.
  eapply ex_derive_cont. apply (dR_div (fun x => phi (zz x)) (fun x => s * x)); [nra|apply lnz_comp; [auto|apply phi_derive]|].
  apply (dR_mult (fun _ => s) (fun x => x)); [apply dR_c|apply dR_id].
Qed.
Lemma ln_coherent : coherent lo hi cd (density_of cd).
Proof.
  assert (H0 := Hs S HS). apply (coherent_intro _ _ _ _ (fun x => Phi (zz x)) lng).
  - exact I. - intros x H; apply ln_cdf, (ln_in x H). - apply ln_density.
  - intros x H; apply ln_in in H. apply lnz_comp; [auto|apply Phi_derive].
  - intros x H; apply lng_cont, (ln_in x H).
  - intros x H; apply ln_in in H. assert (A := phi_pos (zz x)). unfold lng. pos.
  - apply (lnz_lim_lo Phi), Phi_lim_m. - apply (lnz_lim_hi Phi), Phi_lim_p.
Qed.
(** the density method lacks the Jacobian factor 1/x *)
Lemma ln_pdf_factor x : 0 < x -> pdf d (Fin x) = Fin (x * lng x).
Proof. intros H. assert (H0 := Hs S HS). rewrite ln_pdf by auto. f_equal. unfold lng. field. split; lra. Qed.
Lemma ln_refuted : ~ is_pdf lo hi cd (pdf d).
Proof.
  intros [_ H _]. assert (I2 : inside lo hi 2) by (split; cbn; [lra|exact I]). specialize (H 2 I2). assert (A := ln_density 2 I2).
  unfold density_of in A; cbn [val] in A. apply Fin_inj in A. apply is_derive_unique in H. rewrite A in H. unfold rf in H. rewrite ln_pdf_factor in H by lra. cbn [val] in H.
  assert (0 < lng 2) by (unfold lng; assert (H0 := Hs S HS); assert (B := phi_pos (zz 2)); pos). lra.
Qed.
Lemma ln_median : returns (median d) (is_median cd).
Proof.
  assert (H0 := Hs S HS). unfold median, mu, new_unchecked; cbn [nrm UvNormal.pr UvNormal.mu UvNormal.new_unchecked]. xs. eexists; split; [reflexivity|].
  unfold is_median. rewrite ln_cdf, ln_exp by pos. rewrite z_c by auto. now rewrite Phi_0.
Qed.
(** E X^k = exp(k m + k^2 S / 2) *)
Lemma ln_moment k : is_expectation lo hi (density_of cd) (fun x => x ^ k) (exp (INR k * m + INR k * INR k * S / 2)).
Proof.
  assert (H0 := Hs S HS). set (r := INR k). set (E := exp (r * m + r * r * S / 2)).
  apply (expectation_intro _ _ _ _ lng (fun x => E * Phi (zz x - r * s)) 0 E).
  - exact I. - apply ln_density.
  - intros x H; apply ln_in in H.
    assert (D : forall t, is_derive (fun t => E * Phi (t - r * s)) t (E * phi (t - r * s))).
    { intros t. eapply is_derive_eq; [apply (dR_mult (fun _ => E) (fun t => Phi (t - r * s))); [apply dR_c|]|].
      - assert (D1 : is_derive (fun t => t - r * s) t 1) by (dder; lra).
        apply (is_derive_comp Phi (fun t => t - r * s) t _ _ (Phi_derive _) D1).
      - change (scal 1 (phi (t - r * s))) with (1 * phi (t - r * s)). ring. }
    generalize (lnz_comp _ x _ H (D _)). apply is_derive_ext_eq. match goal with |- @eq _ ?a ?b => change (@eq R a b) end.
    unfold lng. assert (EX : E * phi (zz x - r * s) = x ^ k * phi (zz x)); [|rewrite EX; unfold Rdiv; ring].
    rewrite <- (Rpower_pow k x) by auto. fold r. unfold Rpower, phi, E, Rdiv. rewrite <- Rmult_assoc, <- Rmult_assoc. f_equal. rewrite <- !exp_plus. f_equal.
    assert (EL : ln x = m + s * zz x) by (field; lra). rewrite EL at 2. rewrite <- (s_sq S HS) at 1. unfold Rdiv. field. lra.
  - intros x H; apply ln_in in H. apply (continuous_mult (K := R_AbsRing) (fun x => x ^ k) lng); [|now apply lng_cont]. cont_auto. auto.
  - eapply fl_eq; [apply fl_mult; [apply fl_const|apply (lnz_lim_lo (fun t => Phi (t - r * s)))]|].
    + apply (filterlim_comp _ _ _ (fun t => t - r * s) Phi _ (Rbar_locally m_infty)); [|apply Phi_lim_m].
      eapply filterlim_ext; [|apply (affine_m (r * s) 1 Rlt_0_1)]. intros; cbv beta; field.
    + ring.
  - eapply fl_eq; [apply fl_mult; [apply fl_const|apply (lnz_lim_hi (fun t => Phi (t - r * s)))]|].
    + apply (filterlim_comp _ _ _ (fun t => t - r * s) Phi _ (Rbar_locally p_infty)); [|apply Phi_lim_p].
      eapply filterlim_ext; [|apply (affine_p (r * s) 1 Rlt_0_1)]. intros; cbv beta; field.
    + ring.
  - ring.
Qed.
Definition lnM (k : nat) : R := exp (INR k * m + INR k * INR k * S / 2).
Lemma lnM0 : lnM 0 = 1. Proof. unfold lnM. cbn. replace (0 * m + 0 * 0 * S / 2) with 0 by field. apply exp_0. Qed.
Lemma lnV : (exp S - 1) * exp (2 * m + S) = lnM 2 - lnM 1 ^ 2.
Proof.
  set (e := exp S). set (u := exp (m + S / 2)).
  assert (M1 : lnM 1 = u) by (unfold lnM, u; cbn; f_equal; field).
  assert (M2 : lnM 2 = u * u * e) by (unfold lnM, u, e; rewrite <- !exp_plus; cbn; f_equal; field).
  replace (exp (2 * m + S)) with (u * u) by (unfold u; rewrite <- exp_plus; f_equal; field).
  rewrite M1, M2. ring.
Qed.
Lemma ln_mean_true : is_mean lo hi (density_of cd) (exp (m + S / 2)).
Proof.
  replace (exp (m + S / 2)) with (lnM 1) by (unfold lnM; cbn; f_equal; field). apply mean_raw. apply ln_moment.
Qed.
Lemma ln_variance_true : is_variance lo hi (density_of cd) (exp (m + S / 2)) ((exp S - 1) * exp (2 * m + S)).
Proof.
  replace (exp (m + S / 2)) with (lnM 1) by (unfold lnM; cbn; f_equal; field).
  apply variance_raw; try apply lnM0; try apply ln_moment. apply lnV.
Qed.
Section Unit.
Context (H1 : S = 1).
Lemma ln_mean : returns (mean d) (is_mean lo hi (density_of cd)).
Proof.
  unfold mean, mu, sigma, new_unchecked; cbn [nrm UvNormal.pr UvNormal.mu UvNormal.Sigma UvNormal.new_unchecked]. xs. eexists; split; [reflexivity|].
  replace (m + S * S / 2) with (m + S / 2) by (rewrite H1; field). apply ln_mean_true.
Qed.
Lemma ln_variance : returns (variance d) (is_variance lo hi (density_of cd) (exp (m + S / 2))).
Proof.
  unfold variance, mu, sigma, new_unchecked; cbn [nrm UvNormal.pr UvNormal.mu UvNormal.Sigma UvNormal.new_unchecked]. cbv zeta. xs. eexists; split; [reflexivity|].
  replace (S * S) with S by (rewrite H1; field). apply ln_variance_true.
Qed.
Lemma ln_skewness : returns (skewness d) (is_skewness lo hi (density_of cd)).
Proof.
  assert (E1 : 1 < exp S) by (rewrite <- exp_0; apply exp_increasing; auto).
  unfold skewness, mu, sigma, new_unchecked; cbn [nrm UvNormal.pr UvNormal.mu UvNormal.Sigma UvNormal.new_unchecked]. cbv zeta.
  xs. replace (S * S) with S by (rewrite H1; field). rewrite x_sqrt by lra. xs. eexists; split; [reflexivity|].
  apply (skewness_raw _ _ _ lnM lnM0) with (v := (exp S - 1) * exp (2 * m + S)); try apply ln_moment.
  - apply lnV.
  - apply Rmult_lt_0_compat; [lra|pos].
  - set (e := exp S) in *. set (u := exp (m + S / 2)).
    assert (M1 : lnM 1 = u) by (unfold lnM, u; cbn; f_equal; field).
    assert (M2 : lnM 2 = u * u * e) by (unfold lnM, u, e; rewrite <- !exp_plus; cbn; f_equal; field).
    assert (M3 : lnM 3 = u * u * u * (e * e * e)) by (unfold lnM, u, e; rewrite <- !exp_plus; cbn; f_equal; field).
    replace (exp (2 * m + S)) with (u * u) by (unfold u; rewrite <- exp_plus; f_equal; field).
    rewrite sqrt_mult, sqrt_square by (try apply Rle_0_sqr; try (unfold u; pos); lra). rewrite M1, M2, M3.
    assert (SS : sqrt (e - 1) * sqrt (e - 1) = e - 1) by (apply sqrt_sqrt; lra).
    transitivity ((e + 2) * (sqrt (e - 1) * sqrt (e - 1)) * (e - 1) * (u * u * u)); [rewrite SS; ring|ring].
Qed.
Lemma ln_kurtosis : returns (excess_kurtosis d) (fun k => is_kurtosis lo hi (density_of cd) (k + 3)).
Proof.
  assert (E1 : 1 < exp S) by (rewrite <- exp_0; apply exp_increasing; auto).
  unfold excess_kurtosis, mu, sigma, new_unchecked; cbn [nrm UvNormal.pr UvNormal.mu UvNormal.Sigma UvNormal.new_unchecked]. cbv zeta.
  xs. replace (S * S) with S by (rewrite H1; field). eexists; split; [reflexivity|].
  apply (kurtosis_raw _ _ _ lnM lnM0) with (v := (exp S - 1) * exp (2 * m + S)); try apply ln_moment.
  - apply lnV.
  - apply Rmult_lt_0_compat; [lra|pos].
  - set (e := exp S) in *. set (u := exp (m + S / 2)).
    assert (M1 : lnM 1 = u) by (unfold lnM, u; cbn; f_equal; field).
    assert (M2 : lnM 2 = u * u * e) by (unfold lnM, u, e; rewrite <- !exp_plus; cbn; f_equal; field).
    assert (M3 : lnM 3 = u * u * u * (e * e * e)) by (unfold lnM, u, e; rewrite <- !exp_plus; cbn; f_equal; field).
    assert (M4 : lnM 4 = u * u * u * u * (e * e * e * e * e * e)) by (unfold lnM, u, e; rewrite <- !exp_plus; cbn; f_equal; field).
    replace (exp (2 * m + S)) with (u * u) by (unfold u; rewrite <- exp_plus; f_equal; field).
    replace (exp (4 * S)) with (e * e * e * e) by (unfold e; rewrite <- !exp_plus; f_equal; ring).
    replace (exp (3 * S)) with (e * e * e) by (unfold e; rewrite <- !exp_plus; f_equal; ring).
    replace (exp (2 * S)) with (e * e) by (unfold e; rewrite <- !exp_plus; f_equal; ring).
    rewrite M1, M2, M3, M4. ring.
Qed.
End Unit.
(** the true mode is exp (m - S) *)
Lemma ln_mode_true : is_mode lo hi (density_of cd) (exp (m - S)).
Proof.
  assert (H0 := Hs S HS). eexists; split; [apply ln_density; split; [apply exp_pos|exact I]|]. intros x H. eexists; split; [now apply ln_density|].
  apply ln_in in H. unfold lng, phi. rewrite ln_exp. set (y := ln x). assert (Ex : x = exp y) by (unfold y; now rewrite exp_ln). rewrite Ex.
  assert (P := sqrt2PI_pos).
  assert (K : forall t, exp (- ((t - m) / s * ((t - m) / s) / 2)) / sqrt (2 * PI) / (s * exp t) = exp (- ((t - m) * (t - m) / S / 2) - t) * / (sqrt (2 * PI) * s)).
  { intros t. replace (- ((t - m) * (t - m) / S / 2) - t) with (- ((t - m) / s * ((t - m) / s) / 2) + - t).
    - rewrite exp_plus, (exp_Ropp t). field. repeat split; try lra. assert (X := exp_pos t). lra.
    - replace ((t - m) / s * ((t - m) / s)) with ((t - m) * (t - m) / (s * s)) by (field; lra). rewrite (s_sq S HS). field. lra. }
  rewrite !K. apply Rmult_le_compat_r; [pos|]. apply exp_le_mono.
  replace ((m - S - m) * (m - S - m) / S / 2) with (S / 2) by (field; lra).
  assert (Q : 0 <= (y - m + S) * (y - m + S) / S / 2) by (apply Rdiv_le_0_compat; [apply Rdiv_le_0_compat; [apply Rle_0_sqr|auto]|lra]).
  replace ((y - m + S) * (y - m + S) / S / 2) with ((y - m) * (y - m) / S / 2 + (y - m) + S / 2) in Q by (field; lra). lra.
Qed.
End LogNormal.
