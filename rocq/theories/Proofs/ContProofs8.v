(** * Rayleigh and the univariate Normal *)
From Coq Require Import Reals Lra Lia Psatz List.
From Coquelicot Require Import Coquelicot.
From Verif.Num Require Import XReal.
From Verif.Model Require Import Rust Constraints Probability Params Consts Continuous2.
From Verif.Spec Require Import DistSpec.
From Verif.Proofs Require Import Gauss Gauss2 Calc2 XTac Calc.
Import ListNotations.
Open Scope R_scope.

(** integrals of w((x - c)/s) phi((x - c)/s) / s from antiderivatives P phi + K Phi *)
Section Affine.
Context (c s : R) (Hs : 0 < s).
Notation z x := ((x - c) / s).
Lemma aff_derive x : is_derive (fun x => z x) x (/ s).
Proof. dder; try lra; field; lra. Qed.
Lemma aff_comp (f : R -> R) x l : is_derive f (z x) l -> is_derive (fun x => f (z x)) x (l / s).
Proof.
  intros H. generalize (is_derive_comp f (fun x => z x) x _ _ H (aff_derive x)). apply is_derive_ext_eq.
  change (scal (/ s) l) with (/ s * l). match goal with |- @eq _ ?a ?b => change (@eq R a b) end. field; lra.
Qed.
Lemma aff_cont (f : R -> R) x : continuous f (z x) -> continuous (fun x => f (z x)) x.
Proof. intros H. apply (continuous_comp (fun x => z x) f); [eapply ex_derive_cont, aff_derive|exact H]. Qed.
Lemma aff_p (f : R -> R) l : filterlim f (Rbar_locally p_infty) (locally l) -> filterlim (fun x => f (z x)) (Rbar_locally p_infty) (locally l).
Proof. apply (filterlim_comp _ _ _ (fun x => z x) f). now apply affine_p. Qed.
Lemma aff_m (f : R -> R) l : filterlim f (Rbar_locally m_infty) (locally l) -> filterlim (fun x => f (z x)) (Rbar_locally m_infty) (locally l).
Proof. apply (filterlim_comp _ _ _ (fun x => z x) f). now apply affine_m. Qed.
Lemma z_c : z c = 0. Proof. unfold Rminus; rewrite Rplus_opp_r. field. lra. Qed.
End Affine.

Lemma peval_cont l x : continuous (peval l) x.
Proof.
  induction l; cbn; [apply continuous_const|].
  apply (continuous_plus (V := R_NormedModule) (fun _ => a) (fun x => x * peval l x)); [apply continuous_const|].
  apply (continuous_mult (K := R_AbsRing) (fun x => x) (peval l)); [apply continuous_id|exact IHl].
Qed.

Section Rayleigh.
Import Rayleigh.
Context (s : R) (Hs : 0 < s).
Notation d := (new_unchecked (Fin s)).
Notation lo := (Finite 0). Notation hi := p_infty.
Notation cd := (fun x => unwrap (cdf d x)).
Notation z x := ((x - 0) / s).
Lemma ra_in x : inside lo hi x -> 0 < x. Proof. intros [H _]; exact H. Qed.
Definition rg (x : R) : R := x / (s * s) * exp (- x * x / (s * s) / 2).
Lemma ra_cdf x : cd (Fin x) = Fin (1 - exp (- (x * x / 2))).
Proof.
  unfold cdf; cbn [pr sigma new_unchecked unwrap]. cbv zeta. xs. do 4 f_equal. field. lra.
Qed.
Lemma ra_pdf x : pdf d (Fin x) = Fin (rg x).
Proof. unfold pdf; cbn [pr sigma new_unchecked]. cbv zeta. now xs. Qed.
Lemma rg_phi x : rg x = sqrt (2 * PI) * (z x * phi (z x)) / s.
Proof.
  replace (sqrt (2 * PI) * (z x * phi (z x))) with (z x * (sqrt (2 * PI) * phi (z x))) by ring. rewrite phi_exp.
  unfold rg. replace (- (z x * z x / 2)) with (- x * x / (s * s) / 2) by (field; lra). field. lra.
Qed.
Lemma ra_is_cdf : is_cdf lo hi cd.
Proof.
  apply (coherent_intro lo hi cd (density_of cd) (fun x => 1 - exp (- (x * x / 2))) (fun x => x * exp (- (x * x / 2)))).
  - exact I.
  - intros; apply ra_cdf.
  - intros x _. unfold density_of. cbn [val]. f_equal. rewrite (Derive_ext _ (fun x => 1 - exp (- (x * x / 2)))); [|intros; unfold rf; now rewrite ra_cdf].
    apply is_derive_unique. dder; try lra; field.
  - intros x _. dder; try lra; field.
  - intros x _. cont_auto; auto.
  - intros x H; apply ra_in in H. pos.
  - apply lim_above_cont; [cont_auto; auto|]. replace (- (0 * 0 / 2)) with 0 by field. rewrite exp_0. ring.
  - eapply fl_eq; [apply fl_minus; [apply fl_const|]|].
    + apply filterlim_ext with (fun x => peval [sqrt (2 * PI)] x * phi x); [|apply poly_phi_p]. intros x. cbn. rewrite <- phi_exp. ring.
    + ring.
Qed.
Definition raM (n : nat) : R :=
  match n with 0%nat => 1 | 1%nat => sqrt (2 * PI) / 2 | 2%nat => 2 | 3%nat => 3 * sqrt (2 * PI) / 2 | _ => 8 end.
Lemma ra_ab n : (n <= 4)%nat -> is_expectation lo hi (pdf d) (fun x => (z x) ^ n) (raM n).
Proof.
  intros H. assert (P := sqrt2PI_pos).
  assert (A : forall l K, raM n = sqrt (2 * PI) * (K - (peval l 0 * phi 0 + K / 2)) ->
    (forall t, is_derive (fun t => peval l t * phi t + K * Phi t) t (t ^ n * (t * phi t))) ->
    is_expectation lo hi (pdf d) (fun x => (z x) ^ n) (raM n)).
  { intros l K E D.
    apply (expectation_intro _ _ _ _ rg (fun x => sqrt (2 * PI) * (peval l (z x) * phi (z x) + K * Phi (z x))) (sqrt (2 * PI) * (peval l 0 * phi 0 + K * (1 / 2))) (sqrt (2 * PI) * K)).
    - exact I. - intros; apply ra_pdf.
    - intros x _. rewrite rg_phi. generalize (dR_mult (fun _ => sqrt (2 * PI)) _ x _ _ (dR_c _ x) (aff_comp 0 s Hs _ x _ (D _))).
      apply is_derive_ext_eq. unfold Rdiv. ring.
    - intros x _. unfold rg. cont_auto. repeat split; auto; apply Rgt_not_eq; nra.
    - apply lim_above_cont; [|rewrite z_c by auto; now rewrite Phi_0].
      apply (aff_cont 0 s Hs (fun t => sqrt (2 * PI) * (peval l t * phi t + K * Phi t)) 0).
      eapply ex_derive_cont. apply (dR_mult (fun _ => sqrt (2 * PI)) _ _ _ _ (dR_c _ _) (D _)).
    - eapply fl_eq; [apply fl_mult; [apply fl_const|apply fl_plus; [apply (aff_p 0 s Hs (fun t => peval l t * phi t)), poly_phi_p|apply fl_mult; [apply fl_const|apply (aff_p 0 s Hs), Phi_lim_p]]]|ring].
    - rewrite E. field. }
  assert (P0 : sqrt (2 * PI) * phi 0 = 1) by (rewrite phi_exp; replace (- (0 * 0 / 2)) with 0 by field; apply exp_0).
  assert (D : forall l K (p' : R -> R) t, is_derive (peval l) t (p' t) -> is_derive (fun t => peval l t * phi t + K * Phi t) t (p' t * phi t + peval l t * (- t * phi t) + (0 * Phi t + K * phi t))).
  { intros l K p' t Hl. apply dR_plus; [apply dR_mult; [exact Hl|apply phi_derive]|apply dR_mult; [apply dR_c|apply Phi_derive]]. }
  do 5 (destruct n as [|n]; [
    first [ solve [apply (A [-1] 0); [cbn; transitivity (sqrt (2 * PI) * phi 0); [lra|field]|]; intros t;
                   eapply is_derive_eq; [apply (D _ _ (fun _ => 0)); cbn; auto_derive; auto; ring|cbn; ring]]
          | solve [apply (A [0; -1] 1); [cbn; field|]; intros t;
                   eapply is_derive_eq; [apply (D _ _ (fun _ => -1)); cbn; auto_derive; auto; ring|cbn; ring]]
          | solve [apply (A [-2; 0; -1] 0); [cbn; transitivity (2 * (sqrt (2 * PI) * phi 0)); [rewrite P0; lra|field]|]; intros t;
                   eapply is_derive_eq; [apply (D _ _ (fun t => -2 * t)); cbn; auto_derive; auto; ring|cbn; ring]]
          | solve [apply (A [0; -3; 0; -1] 3); [cbn; field|]; intros t;
                   eapply is_derive_eq; [apply (D _ _ (fun t => -3 - 3 * t * t)); cbn; auto_derive; auto; ring|cbn; ring]]
          | solve [apply (A [-8; 0; -4; 0; -1] 0); [cbn; transitivity (8 * (sqrt (2 * PI) * phi 0)); [rewrite P0; lra|field]|]; intros t;
                   eapply is_derive_eq; [apply (D _ _ (fun t => -8 * t - 4 * t * t * t)); cbn; auto_derive; auto; ring|cbn; ring]] ]|]).
  lia.
Qed.
Ltac raab := try (apply ra_ab; lia); try reflexivity; try lra.
Lemma ra_total : is_RInt_gen (rf (pdf d)) (above lo) (below hi) 1.
Proof. apply (about_total _ _ _ 0 s raM); raab. Qed.
Lemma M1_eq : sqrt (2 * PI) / 2 = sqrt (PI / 2).
Proof.
  assert (P := PI_RGT_0). rewrite sqrt_mult, sqrt_div_alt by lra. assert (S2 := sqrt2_sq). assert (S0 := sqrt2_pos).
  apply Rmult_eq_reg_r with (2 * sqrt 2); [|lra]. field_simplify; try lra. rewrite <- Rsqr_pow2. unfold Rsqr. rewrite S2. ring.
Qed.
Lemma M1_sq : (sqrt (2 * PI) / 2) * (sqrt (2 * PI) / 2) = PI / 2.
Proof. rewrite M1_eq. apply sqrt_sqrt. assert (P := PI_RGT_0). lra. Qed.
Lemma ra_mean : returns (mean d) (is_mean lo hi (pdf d)).
Proof.
  assert (P := PI_RGT_0). unfold mean, PI_OVER_2; cbn [pr sigma new_unchecked]. xs. eexists; split; [reflexivity|].
  apply (mean_about _ _ _ 0 s raM); raab. rewrite <- M1_eq. cbn [raM]. ring.
Qed.
Lemma ra_variance : returns (variance d) (is_variance lo hi (pdf d) (s * sqrt (PI / 2))).
Proof.
  assert (P := PI_RGT_0). unfold variance, FOUR_MINUS_PI_OVER_2, FOUR_MINUS_PI; cbn [pr sigma new_unchecked]. xs. eexists; split; [reflexivity|].
  apply (variance_about _ _ _ 0 s raM); raab; cbn [raM]; [rewrite <- M1_eq; ring|].
  replace ((sqrt (2 * PI) / 2) ^ 2) with (sqrt (2 * PI) / 2 * (sqrt (2 * PI) / 2)) by ring. rewrite M1_sq. field.
Qed.
Lemma PI_lt_4 : PI < 4. Proof. assert (H := PI_4). assert (H2 := Rtrigo1.PI_4). destruct (PI_ineq 1) as [_ H3]. unfold tg_alt, PI_tg in H3. cbn in H3. lra. Qed.
Lemma ra_skewness : returns (skewness d) (is_skewness lo hi (pdf d)).
Proof.
  assert (P := PI_RGT_0). assert (P4 := PI_lt_4). unfold skewness, TWO_PI_MINUS_3, FOUR_MINUS_PI, THREE_HALVES. xs. eexists; split; [reflexivity|].
  set (v := (4 - PI) / 2 * (s * s)). assert (Hv : 0 < v) by (unfold v; pos).
  apply (skewness_about _ _ _ 0 s raM) with (v := v); raab; cbn [raM].
  - unfold v. replace ((sqrt (2 * PI) / 2) ^ 2) with (sqrt (2 * PI) / 2 * (sqrt (2 * PI) / 2)) by ring. rewrite M1_sq. field.
  - assert (SP : Rpower (4 - PI) (3 / 2) = (4 - PI) * sqrt (4 - PI)).
    { replace (3 / 2) with (1 + / 2) by lra. rewrite Rpower_plus, Rpower_1, Rpower_sqrt by lra. reflexivity. }
    assert (Sv : sqrt v = sqrt (4 - PI) / sqrt 2 * s).
    { unfold v. rewrite sqrt_mult, sqrt_square, sqrt_div_alt by (try apply Rle_0_sqr; try (apply Rdiv_le_0_compat); lra). reflexivity. }
    rewrite SP, Sv. unfold v. assert (W : 0 < sqrt (4 - PI)) by (apply sqrt_lt_R0; lra). assert (S0 := sqrt2_pos).
    transitivity (s ^ 3 * (sqrt (2 * PI) / 2) * (PI - 3)).
    { replace (2 * (sqrt (2 * PI) / 2) ^ 3) with (2 * (sqrt (2 * PI) / 2 * (sqrt (2 * PI) / 2)) * (sqrt (2 * PI) / 2)) by ring. rewrite M1_sq. field. }
    rewrite M1_eq, sqrt_div_alt by lra. field. repeat split; lra.
Qed.
Lemma ra_mode : all_return (modes d) (is_mode lo hi (pdf d)).
Proof.
  intros x [<-|[]]. eexists; split; [reflexivity|]. eexists; split; [apply ra_pdf|]. intros x Hx; apply ra_in in Hx. eexists; split; [apply ra_pdf|].
  unfold rg. set (t := x / s). assert (Ht : 0 < t) by (unfold t; pos).
  replace (x / (s * s)) with (t / s) by (unfold t; field; lra). replace (- x * x / (s * s) / 2) with (- (t * t / 2)) by (unfold t; field; lra).
  replace (s / (s * s)) with (1 / s) by (field; lra). replace (- s * s / (s * s) / 2) with (- (1 / 2)) by (field; lra).
  assert (t * exp (- (t * t / 2)) <= exp (- (1 / 2))).
  { rewrite <- (exp_ln t) at 1 by auto. rewrite <- exp_plus. apply exp_le_mono. assert (L := ln_le_sub1 (t * t) ltac:(pos)). rewrite ln_mult in L by auto. lra. }
  unfold Rdiv. rewrite (Rmult_assoc t), (Rmult_comm (/ s)), <- Rmult_assoc, Rmult_1_l, (Rmult_comm (/ s)). apply Rmult_le_compat_r; [pos|]. exact H.
Qed.
(** half the mass of the density lies below the median *)
Lemma ra_half : returns (median d) (fun m => 0 < m /\ is_RInt (rf (pdf d)) 0 m (1 / 2)).
Proof.
  assert (L := ln2_pos). unfold median; cbn [pr sigma new_unchecked]. xs. set (m := s * sqrt (2 * ln 2)). exists m. split; [reflexivity|].
  assert (Hm : 0 < m) by (unfold m; apply Rmult_lt_0_compat; [auto|apply sqrt_lt_R0; lra]). split; [auto|].
  set (G := fun x => - exp (- (z x * z x / 2))).
  replace (1 / 2) with (minus (G m) (G 0)).
  - apply (is_RInt_derive G (rf (pdf d))).
    + intros x _. unfold rf. rewrite ra_pdf. cbn [val]. unfold rg, G. dder; try lra; try (field; lra).
      replace (- x * x / (s * s) / 2) with (- ((x - 0) / s * ((x - 0) / s) / 2)) by (field; lra). field. lra.
    + intros x _. apply continuous_ext with rg; [intros; unfold rf; now rewrite ra_pdf|]. unfold rg. cont_auto. repeat split; try pos. 
  - unfold G, minus, plus, opp; cbn. rewrite (z_c 0 s Hs). unfold m.
    replace ((s * sqrt (2 * ln 2) - 0) / s * ((s * sqrt (2 * ln 2) - 0) / s)) with (sqrt (2 * ln 2) * sqrt (2 * ln 2)) by (field; lra).
    rewrite sqrt_sqrt by lra. replace (- (2 * ln 2 / 2)) with (- ln 2) by field. rewrite ln_inv_half. replace (- (0 * 0 / 2)) with 0 by field. rewrite exp_0. lra.
Qed.
Lemma ra_coherent_1 : s = 1 -> coherent lo hi cd (pdf d).
Proof.
  intros E. split; [apply ra_is_cdf|]. split.
  - intros x Hx. exists (rg x). split; [apply ra_pdf|]. apply ra_in in Hx. unfold rg. pos.
  - intros x Hx. unfold rf at 2. rewrite ra_pdf. cbn [val]. apply is_derive_ext with (fun x => 1 - exp (- (x * x / 2))); [intros; unfold rf; now rewrite ra_cdf|].
    unfold rg. rewrite E. dder; try lra. replace (- x * x / (1 * 1) / 2) with (- (x * x / 2)) by field. field.
  - apply ra_total.
Qed.
Lemma ra_refuted : s <> 1 -> ~ coherent lo hi cd (pdf d) /\ ~ returns (median d) (is_median cd).
Proof.
  intros E. split.
  - intros [_ [_ H _]].
    assert (HD : forall x, 0 < x -> x * exp (- (x * x / 2)) = rg x).
    { intros x Hx. specialize (H x (conj Hx I)). unfold rf at 2 in H. rewrite ra_pdf in H. cbn [val] in H.
      apply is_derive_unique in H. rewrite <- H. symmetry. rewrite (Derive_ext _ (fun x => 1 - exp (- (x * x / 2)))); [|intros; unfold rf; now rewrite ra_cdf].
      apply is_derive_unique. dder; try lra; field. }
    (* compare at x = s t with t chosen so that both exponentials are known: use two points *)
    assert (K : forall x, 0 < x -> - (x * x / 2) = - (x * x / 2) / (s * s) - 2 * ln s).
    { intros x Hx. apply exp_inv. specialize (HD x Hx). unfold rg in HD.
      replace (- x * x / (s * s) / 2) with (- (x * x / 2) / (s * s)) in HD by (field; lra).
      apply Rmult_eq_reg_l with x; [|lra]. rewrite HD. unfold Rminus. rewrite exp_plus.
      replace (- (2 * ln s)) with (- (ln s + ln s)) by ring. rewrite exp_Ropp, exp_plus, !exp_ln by auto. field. lra. }
    assert (K1 := K 1 Rlt_0_1). assert (K2 := K 2 ltac:(lra)).
    assert (Z : 1 - / (s * s) = 0) by (unfold Rdiv in *; lra).
    assert (s * s = 1). { apply Rmult_eq_reg_r with (/ (s * s)); [|apply Rinv_neq_0_compat; nra]. rewrite Rinv_r by nra. lra. }
    apply E. nra.
  - intros [r [Hr Hm]]. unfold median in Hr; cbn [pr sigma new_unchecked] in Hr. assert (L := ln2_pos). revert Hr. xs. intros Hr. injection Hr as <-.
    unfold is_median in Hm. rewrite ra_cdf in Hm. apply Fin_inj in Hm.
    assert (X : exp (- (s * sqrt (2 * ln 2) * (s * sqrt (2 * ln 2)) / 2)) = exp (- ln 2)) by (rewrite ln_inv_half; lra).
    apply exp_inv in X. replace (s * sqrt (2 * ln 2) * (s * sqrt (2 * ln 2))) with (s * s * (sqrt (2 * ln 2) * sqrt (2 * ln 2))) in X by ring. rewrite sqrt_sqrt in X by lra.
    apply E. assert (s * s = 1) by nra. nra.
Qed.
End Rayleigh.
