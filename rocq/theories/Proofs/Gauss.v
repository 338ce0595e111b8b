(** * The Gaussian integral *)
From Coq Require Import Reals Lra Lia Psatz.
From Coquelicot Require Import Coquelicot.
From Verif.Proofs Require Import XTac.
Open Scope R_scope.

Definition ge (t : R) : R := exp (- (t * t)).
Definition GI (x : R) : R := RInt ge 0 x.
Definition jf (x t : R) : R := exp (- (x * x * (1 + t * t))) / (1 + t * t).
Definition GJ (x : R) : R := RInt (jf x) 0 1.

Lemma ge_cont t : continuous ge t.
Proof. unfold ge. apply (ex_derive_continuous (fun t => exp (- (t * t)))). auto_derive. exact I. Qed.
Lemma ge_int a b : ex_RInt ge a b.
Proof. apply (ex_RInt_continuous (V := R_CompleteNormedModule)). intros; apply ge_cont. Qed.
Lemma GI_derive x : is_derive GI x (ge x).
Proof.
  unfold GI. apply is_derive_RInt with 0.
  - apply filter_forall. intros b. apply (RInt_correct (V := R_CompleteNormedModule)), ge_int.
  - apply ge_cont.
Qed.
Lemma one_sq t : 0 < 1 + t * t.
Proof. assert (0 <= t * t) by apply Rle_0_sqr. lra. Qed.
Lemma jf_cont x t : continuous (jf x) t.
Proof. unfold jf. apply (ex_derive_continuous (fun t => exp (- (x * x * (1 + t * t))) / (1 + t * t))). auto_derive. generalize (one_sq t); lra. Qed.
Lemma jf_int x a b : ex_RInt (jf x) a b.
Proof. apply (ex_RInt_continuous (V := R_CompleteNormedModule)). intros; apply jf_cont. Qed.
Lemma jf_der x t : is_derive (fun u => jf u t) x (- 2 * x * exp (- (x * x * (1 + t * t)))).
Proof. unfold jf. generalize (one_sq t); intros. auto_derive; [lra|]. field. lra. Qed.

Lemma cont2_jd x t : continuity_2d_pt (fun u v => Derive (fun z => jf z v) u) x t.
Proof.
  apply continuity_2d_pt_ext with (fun u v => (- 2 * u) * exp (- (u * u * (1 + v * v)))).
  { intros u v. symmetry. apply is_derive_unique, jf_der. }
  apply continuity_2d_pt_mult.
  - apply continuity_2d_pt_mult; [apply continuity_2d_pt_const|apply continuity_2d_pt_id1].
  - apply (continuity_1d_2d_pt_comp exp (fun u v => - (u * u * (1 + v * v)))).
    + apply derivable_continuous_pt, derivable_pt_exp.
    + apply continuity_2d_pt_opp, continuity_2d_pt_mult.
      * apply continuity_2d_pt_mult; apply continuity_2d_pt_id1.
      * apply continuity_2d_pt_plus; [apply continuity_2d_pt_const|apply continuity_2d_pt_mult; apply continuity_2d_pt_id2].
Qed.
Lemma GJ_derive x : is_derive GJ x (- 2 * ge x * GI x).
Proof.
  unfold GJ. eapply is_derive_eq.
  - apply (is_derive_RInt_param jf 0 1 x).
    + apply filter_forall. intros y t _. eexists. apply jf_der.
    + intros t _. apply cont2_jd.
    + apply filter_forall. intros y. apply jf_int.
  - rewrite (RInt_ext _ (fun t => - 2 * ge x * (x * ge (x * t + 0)))).
    2:{ intros t _. transitivity (- 2 * x * exp (- (x * x * (1 + t * t)))). { apply is_derive_unique, jf_der. }
        match goal with |- @eq _ ?a ?b => change (@eq R a b) end. unfold ge. replace (- (x * x * (1 + t * t))) with (- (x * x) + - ((x * t + 0) * (x * t + 0))) by ring. rewrite exp_plus. ring. }
    etransitivity. { apply (RInt_scal (V := R_CompleteNormedModule) (fun t => x * ge (x * t + 0)) 0 1 (- 2 * ge x)).
      apply (ex_RInt_continuous (V := R_CompleteNormedModule)). intros t _.
      apply (ex_derive_continuous (fun t => x * exp (- ((x * t + 0) * (x * t + 0))))). auto_derive. exact I. }
    change scal with Rmult. f_equal. unfold GI.
    etransitivity. { apply (RInt_comp_lin ge x 0 0 1). apply ge_int. }
    f_equal; ring.
Qed.
Lemma gauss_const x : GI x * GI x + GJ x = PI / 4.
Proof.
  assert (H : forall y, is_derive (fun y => GI y * GI y + GJ y) y 0).
  { intros y. eapply is_derive_eq.
    - apply dR_plus; [apply dR_mult; apply GI_derive|apply GJ_derive].
    - ring. }
  assert (E0 : GI 0 * GI 0 + GJ 0 = PI / 4).
  { unfold GI, GJ. rewrite RInt_point. rewrite (RInt_ext _ (fun t => / (1 + t ^ 2))).
    - change zero with 0. rewrite Rmult_0_l, Rplus_0_l. rewrite <- atan_1. transitivity (minus (atan 1) (atan 0)); [|rewrite atan_0; unfold minus, plus, opp; cbn; ring].
      apply is_RInt_unique. apply (is_RInt_derive atan (fun t => / (1 + t ^ 2)) 0 1).
      + intros t _. eapply is_derive_eq; [apply is_derive_atan|]. unfold Rsqr. f_equal; ring.
      + intros t _. apply (ex_derive_continuous (fun t => / (1 + t ^ 2))). auto_derive. generalize (one_sq t); intros. cbn. lra.
    - intros t _. unfold jf. replace (- (0 * 0 * (1 + t * t))) with 0 by ring. rewrite exp_0. cbn. unfold Rdiv. rewrite Rmult_1_r, Rmult_1_l. reflexivity. }
  rewrite <- E0.
  destruct (MVT_gen (fun y => GI y * GI y + GJ y) 0 x (fun _ => 0)) as [c [_ Hc]].
  - intros y _. apply H.
  - intros y _. apply derivable_continuous_pt. exists 0. apply is_derive_Reals, H.
  - lra.
Qed.
Lemma GJ_bounds x : 0 <= GJ x <= exp (- (x * x)).
Proof.
  unfold GJ. split.
  - apply RInt_ge_0; [lra|apply jf_int|]. intros t _. unfold jf. generalize (one_sq t); intros. pos.
  - rewrite <- (Rmult_1_l (exp (- (x * x)))). rewrite <- (Rminus_0_r 1) at 2. change ((1 - 0) * exp (- (x * x))) with (scal (1 - 0) (exp (- (x * x)))).
    rewrite <- (RInt_const (V := R_CompleteNormedModule)). apply RInt_le; [lra|apply jf_int|apply ex_RInt_const|].
    intros t _. unfold jf. assert (0 <= t * t) by apply Rle_0_sqr.
    apply Rmult_le_reg_r with (1 + t * t); [lra|]. unfold Rdiv. rewrite Rmult_assoc, Rinv_l, Rmult_1_r by lra.
    apply Rle_trans with (exp (- (x * x))).
    + apply exp_le_mono. assert (0 <= x * x) by apply Rle_0_sqr. nra.
    + rewrite <- (Rmult_1_r (exp (- (x * x)))) at 1. apply Rmult_le_compat_l; [pos|lra].
Qed.
Lemma GI_pos x : 0 <= x -> 0 <= GI x.
Proof. intros H. unfold GI. apply RInt_ge_0; [auto|apply ge_int|]. intros; unfold ge; pos. Qed.
Lemma GI_odd x : GI (- x) = - GI x.
Proof.
  unfold GI. generalize (RInt_comp_lin ge (-1) 0 0 x). replace (-1 * 0 + 0) with 0 by ring. replace (-1 * x + 0) with (- x) by ring.
  intros H. rewrite <- H by apply ge_int. rewrite (RInt_ext _ (fun t => opp (ge t))).
  - apply (RInt_opp (V := R_CompleteNormedModule) ge 0 x), ge_int.
  - intros t _. unfold ge. replace ((-1 * t + 0) * (-1 * t + 0)) with (t * t) by ring. unfold scal, opp; cbn. unfold mult; cbn. ring.
Qed.
Lemma GI_val x : 0 <= x -> GI x = sqrt (PI / 4 - GJ x).
Proof. intros H. rewrite <- (gauss_const x). replace (_ - _) with (GI x * GI x) by ring. rewrite sqrt_square; auto using GI_pos. Qed.
Lemma lim_sq : filterlim (fun x => - (x * x)) (Rbar_locally p_infty) (Rbar_locally m_infty).
Proof.
  intros P [M HM]. exists (Rmax 1 (- M)). intros x Hx. apply HM.
  assert (1 < x) by (eapply Rle_lt_trans; [apply Rmax_l|exact Hx]). assert (- M < x) by (eapply Rle_lt_trans; [apply Rmax_r|exact Hx]). nra.
Qed.
Lemma GI_lim_p : is_lim GI p_infty (sqrt PI / 2).
Proof.
  assert (EJ : filterlim GJ (Rbar_locally p_infty) (locally 0)).
  { apply filterlim_locally. intros eps.
    assert (L : filterlim (fun x => exp (- (x * x))) (Rbar_locally p_infty) (locally 0)).
    { eapply filterlim_comp; [apply lim_sq|exact is_lim_exp_m]. }
    rewrite filterlim_locally in L. generalize (L eps). apply filter_imp. intros x Hx.
    change (Rabs (exp (- (x * x)) - 0) < eps) in Hx. change (Rabs (GJ x - 0) < eps).
    generalize (GJ_bounds x) (exp_pos (- (x * x))); intros. rewrite Rminus_0_r in *. rewrite Rabs_pos_eq in Hx by lra. rewrite Rabs_pos_eq by lra. lra. }
  assert (Hs : sqrt PI / 2 = sqrt (PI / 4 - 0)).
  { rewrite Rminus_0_r. replace (PI / 4) with ((sqrt PI / 2) * (sqrt PI / 2)).
    - rewrite sqrt_square; [reflexivity|]. pos.
    - replace (sqrt PI / 2 * (sqrt PI / 2)) with (sqrt PI * sqrt PI / 4) by field. rewrite sqrt_sqrt; [reflexivity|left; apply PI_RGT_0]. }
  rewrite Hs. change (filterlim GI (Rbar_locally p_infty) (locally (sqrt (PI / 4 - 0)))).
  apply filterlim_ext_loc with (fun x => sqrt (PI / 4 - GJ x)).
  { exists 0. intros x Hx. symmetry. apply GI_val. lra. }
  apply (filterlim_comp _ _ _ GJ (fun y => sqrt (PI / 4 - y)) _ _ _ EJ). apply (ex_derive_continuous (fun y => sqrt (PI / 4 - y))). auto_derive. generalize PI_RGT_0; lra.
Qed.
Lemma GI_lim_m : is_lim GI m_infty (- (sqrt PI / 2)).
Proof.
  change (filterlim GI (Rbar_locally m_infty) (locally (- (sqrt PI / 2)))).
  apply filterlim_ext with (fun x => - GI (- x)). { intros x. rewrite GI_odd. ring. }
  eapply filterlim_comp; [|apply (filterlim_opp (sqrt PI / 2))].
  eapply filterlim_comp; [|exact GI_lim_p]. intros P [M HM]. exists (- M). intros x Hx. apply HM. lra.
Qed.

(** ** standard normal density and distribution function *)
Definition phi (x : R) : R := exp (- (x * x / 2)) / sqrt (2 * PI).
Definition Phi (x : R) : R := 1 / 2 + GI (x / sqrt 2) / sqrt PI.
Lemma sqrt2_pos : 0 < sqrt 2. Proof. apply sqrt_lt_R0; lra. Qed.
Lemma sqrtPI_pos : 0 < sqrt PI. Proof. apply sqrt_lt_R0, PI_RGT_0. Qed.
Lemma sqrt2_sq : sqrt 2 * sqrt 2 = 2. Proof. apply sqrt_sqrt; lra. Qed.
Lemma sqrt_2PI : sqrt (2 * PI) = sqrt 2 * sqrt PI.
Proof. apply sqrt_mult; [lra|left; apply PI_RGT_0]. Qed.
Lemma Phi_derive x : is_derive Phi x (phi x).
Proof.
  generalize sqrt2_pos sqrtPI_pos; intros. unfold Phi.
  assert (D : is_derive (fun x => GI (x / sqrt 2)) x (/ sqrt 2 * ge (x / sqrt 2))).
  { generalize (is_derive_comp GI (fun x => x / sqrt 2) x _ (/ sqrt 2) (GI_derive (x / sqrt 2))). intros HH. apply HH. auto_derive; [auto|]. ring. }
  eapply is_derive_eq. { apply dR_plus; [apply dR_c|]. apply dR_div; [lra|exact D|apply dR_c]. }
  unfold phi, ge. rewrite sqrt_2PI. replace (x / sqrt 2 * (x / sqrt 2)) with (x * x / 2).
  - field. lra.
  - replace (x / sqrt 2 * (x / sqrt 2)) with (x * x / (sqrt 2 * sqrt 2)) by (field; lra). now rewrite sqrt2_sq.
Qed.
Lemma phi_pos x : 0 < phi x.
Proof. unfold phi. rewrite sqrt_2PI. generalize sqrt2_pos sqrtPI_pos; intros. pos. Qed.
Lemma phi_cont x : continuous phi x.
Proof. unfold phi. apply (ex_derive_continuous (fun x => exp (- (x * x / 2)) / sqrt (2 * PI))). auto_derive. exact I. Qed.
Lemma lin_p c : 0 < c -> filterlim (fun x => x / c) (Rbar_locally p_infty) (Rbar_locally p_infty).
Proof. intros H P [M HM]. exists (M * c). intros x Hx. apply HM. apply Rmult_lt_reg_r with c; [auto|]. unfold Rdiv. rewrite Rmult_assoc, Rinv_l; lra. Qed.
Lemma lin_m c : 0 < c -> filterlim (fun x => x / c) (Rbar_locally m_infty) (Rbar_locally m_infty).
Proof. intros H P [M HM]. exists (M * c). intros x Hx. apply HM. apply Rmult_lt_reg_r with c; [auto|]. unfold Rdiv. rewrite Rmult_assoc, Rinv_l; lra. Qed.
Lemma Phi_lim_p : filterlim Phi (Rbar_locally p_infty) (locally 1).
Proof.
  replace 1 with (1 / 2 + sqrt PI / 2 / sqrt PI) by (field; generalize sqrtPI_pos; lra).
  apply (filterlim_comp _ _ _ (fun x => GI (x / sqrt 2)) (fun y => 1 / 2 + y / sqrt PI) _ (locally (sqrt PI / 2))).
  - eapply filterlim_comp; [apply lin_p, sqrt2_pos|exact GI_lim_p].
  - apply (ex_derive_continuous (fun y => 1 / 2 + y / sqrt PI)). auto_derive. generalize sqrtPI_pos; lra.
Qed.
Lemma Phi_lim_m : filterlim Phi (Rbar_locally m_infty) (locally 0).
Proof.
  replace 0 with (1 / 2 + - (sqrt PI / 2) / sqrt PI) by (field; generalize sqrtPI_pos; lra).
  apply (filterlim_comp _ _ _ (fun x => GI (x / sqrt 2)) (fun y => 1 / 2 + y / sqrt PI) _ (locally (- (sqrt PI / 2)))).
  - eapply filterlim_comp; [apply lin_m, sqrt2_pos|exact GI_lim_m].
  - apply (ex_derive_continuous (fun y => 1 / 2 + y / sqrt PI)). auto_derive. generalize sqrtPI_pos; lra.
Qed.
Lemma GI_0 : GI 0 = 0.
Proof. unfold GI. now rewrite RInt_point. Qed.
Lemma Phi_0 : Phi 0 = 1 / 2.
Proof. unfold Phi. replace (0 / sqrt 2) with 0 by (field; generalize sqrt2_pos; lra). rewrite GI_0. field. generalize sqrtPI_pos; lra. Qed.
Lemma Phi_sym x : Phi (- x) = 1 - Phi x.
Proof. unfold Phi. replace (- x / sqrt 2) with (- (x / sqrt 2)) by (field; generalize sqrt2_pos; lra). rewrite GI_odd. field. generalize sqrtPI_pos; lra. Qed.
