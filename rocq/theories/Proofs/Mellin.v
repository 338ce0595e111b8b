(** * Differentiating t^(a-1) under the integral; digamma *)
From Coq Require Import Reals Lra Lia Psatz.
From Coquelicot Require Import Coquelicot.
From Verif.Num Require Import XReal.
From Verif.Spec Require Import DistSpec GammaSpec.
From Verif.Proofs Require Import XTac Calc Improper GammaFun Subst.
Open Scope R_scope.

Lemma gen_dominated lo hi (f g : R -> R) (lg : R) : Rbar_lt lo hi ->
  (forall x, inside lo hi x -> continuous f x) -> (forall x, inside lo hi x -> continuous g x) ->
  (forall x, inside lo hi x -> 0 <= f x <= g x) ->
  is_RInt_gen g (above lo) (below hi) lg -> exists lf, is_RInt_gen f (above lo) (below hi) lf.
Proof.
  intros Hlt Cf Cg Hle Ig. destruct (ex_inside lo hi Hlt) as [c Hi].
  destruct (imp_limits lo hi f Hlt Cf (fun x Hx => proj1 (Hle x Hx)) c (lg + 1) Hi) as [la [lb [_ [_ H]]]].
  - intros x y Hx Hy Hxy. apply Rle_trans with (RInt g x y).
    + apply RInt_le; [auto|now apply (imp_int lo hi)|now apply (imp_int lo hi)|].
      intros z Hz. apply Hle. apply (inside_between lo hi x y); auto; lra.
    + apply (imp_bounded lo hi g); auto. intros z Hz. destruct (Hle z Hz); lra.
  - eexists; exact H.
Qed.

Lemma exp_taylor2 y : 0 <= exp y - 1 - y <= y * y * exp (Rabs y).
Proof.
  split; [generalize (exp_ineq1_le y); lra|]. destruct (Rle_dec 0 y) as [H|H].
  - rewrite Rabs_pos_eq by auto. assert (A := exp_ineq1_le (- y)). assert (E := exp_pos y).
    assert (B : exp y * exp (- y) = 1) by (rewrite <- exp_plus; replace (y + - y) with 0 by ring; apply exp_0).
    assert (C : exp y - 1 <= y * exp y). { assert (exp y * (1 + - y) <= exp y * exp (- y)) by (apply Rmult_le_compat_l; lra). lra. }
    assert (y * (exp y - 1) <= y * (y * exp y)) by (apply Rmult_le_compat_l; lra). lra.
  - rewrite Rabs_left by lra. set (z := - y) in *. assert (Hz : 0 < z) by (unfold z; lra). replace y with (- z) by (unfold z; ring).
    assert (A := exp_ineq1_le z). rewrite exp_Ropp.
    assert (B : / exp z <= / (1 + z)) by (apply Rinv_le_contravar; lra).
    assert (C : / (1 + z) <= 1 - z + z * z).
    { apply Rmult_le_reg_l with (1 + z); [lra|]. rewrite Rinv_r by lra. assert (0 < z * z * z) by pos. lra. }
    assert (z * z * 1 <= z * z * exp z). { apply Rmult_le_compat_l; [pos|]. lra. } lra.
Qed.
Lemma exp_abs_le y : exp (Rabs y) <= exp y + exp (- y).
Proof. assert (A := exp_pos y). assert (B := exp_pos (- y)). destruct (Rle_dec 0 y); [rewrite Rabs_pos_eq by auto|rewrite Rabs_left by lra]; lra. Qed.
Lemma sq_le_exp s : 0 <= s -> s * s <= 4 * exp s.
Proof.
  intros H. assert (A := exp_ineq1_le (s / 2)). assert (E : exp s = exp (s / 2) * exp (s / 2)) by (rewrite <- exp_plus; f_equal; field).
  rewrite E. assert ((1 + s / 2) * (1 + s / 2) <= exp (s / 2) * exp (s / 2)) by (apply Rmult_le_compat; lra). nra.
Qed.
Lemma ln_bound e t : 0 < e -> 0 < t -> Rabs (ln t) <= (Rpower t e + Rpower t (- e)) / e.
Proof.
  intros He Ht. unfold Rpower. apply Rmult_le_reg_l with e; [auto|]. replace (e * ((exp (e * ln t) + exp (- e * ln t)) / e)) with (exp (e * ln t) + exp (- (e * ln t))) by (replace (- e * ln t) with (- (e * ln t)) by ring; field; lra).
  eapply Rle_trans; [|apply exp_abs_le]. rewrite Rabs_mult, (Rabs_pos_eq e) by lra. generalize (exp_ineq1_le (e * Rabs (ln t))). lra.
Qed.
Lemma pow_taylor a h t : 0 < a -> Rabs h <= a / 4 -> 0 < t ->
  0 <= Rpower t h - 1 - h * ln t <= h * h * (64 / (a * a)) * (Rpower t (a / 2) + Rpower t (- (a / 2))).
Proof.
  intros Ha Hh Ht. unfold Rpower. destruct (exp_taylor2 (h * ln t)) as [T1 T2]. split; [exact T1|]. eapply Rle_trans; [exact T2|].
  set (s := Rabs (ln t)). assert (Hs : 0 <= s) by apply Rabs_pos.
  assert (E1 : ln t * ln t = s * s). { unfold s. rewrite <- Rabs_mult, Rabs_pos_eq; [reflexivity|apply Rle_0_sqr]. }
  assert (E2 : exp (Rabs (h * ln t)) <= exp (a / 4 * s)). { apply exp_le_mono. rewrite Rabs_mult. apply Rmult_le_compat_r; auto. }
  assert (E3 : s * s <= 64 / (a * a) * exp (a / 4 * s)).
  { assert (Q := sq_le_exp (a / 4 * s) ltac:(pos)). apply Rmult_le_reg_l with (a * a / 16); [pos|].
    replace (a * a / 16 * (s * s)) with (a / 4 * s * (a / 4 * s)) by field. replace (a * a / 16 * (64 / (a * a) * exp (a / 4 * s))) with (4 * exp (a / 4 * s)) by (field; lra). exact Q. }
  assert (E4 : exp (a / 4 * s) * exp (a / 4 * s) = exp (a / 2 * s)) by (rewrite <- exp_plus; f_equal; field).
  assert (E5 : exp (a / 2 * s) <= exp (a / 2 * ln t) + exp (- (a / 2) * ln t)).
  { replace (- (a / 2) * ln t) with (- (a / 2 * ln t)) by ring. eapply Rle_trans; [|apply exp_abs_le]. right. f_equal. rewrite Rabs_mult, (Rabs_pos_eq (a / 2)) by lra. reflexivity. }
  assert (P1 := exp_pos (a / 4 * s)). assert (P2 : 0 <= h * h) by apply Rle_0_sqr. assert (P3 : 0 < 64 / (a * a)) by pos.
  replace (h * ln t * (h * ln t)) with (h * h * (ln t * ln t)) by ring. rewrite E1.
  apply Rle_trans with (h * h * (64 / (a * a) * exp (a / 4 * s)) * exp (a / 4 * s)).
  - apply Rmult_le_compat; [apply Rmult_le_pos; [auto|apply Rle_0_sqr]|pos|apply Rmult_le_compat_l; auto|exact E2].
  - replace (h * h * (64 / (a * a) * exp (a / 4 * s)) * exp (a / 4 * s)) with (h * h * (64 / (a * a)) * (exp (a / 4 * s) * exp (a / 4 * s))) by ring.
    rewrite E4. apply Rmult_le_compat_l; [apply Rmult_le_pos; lra|exact E5].
Qed.

Section Mellin.
Context (hi : Rbar) (Hlt : Rbar_lt 0 hi) (w : R -> R)
  (Cw : forall x, inside 0 hi x -> continuous w x) (Pw : forall x, inside 0 hi x -> 0 <= w x)
  (J : R -> R) (HJ : forall p, 0 < p -> is_RInt_gen (fun t => Rpower t (p - 1) * w t) (above 0) (below hi) (J p)).
Notation k p := (fun t => Rpower t (p - 1) * w t).
Lemma ins_pos x : inside 0 hi x -> 0 < x. Proof. intros [H _]. exact H. Qed.
Lemma mel_cont p x : inside 0 hi x -> continuous (k p) x.
Proof.
  intros Hx. apply (continuous_mult (K := R_AbsRing) (fun t => Rpower t (p - 1)) w); [|auto].
  apply ins_pos in Hx. eapply ex_derive_cont. dder; [auto|reflexivity].
Qed.
Lemma ln_cont x : inside 0 hi x -> continuous ln x.
Proof. intros Hx%ins_pos. eapply ex_derive_cont. now apply is_derive_ln. Qed.
Lemma mellin_ln a : 0 < a -> exists v : R, is_RInt_gen (fun t => ln t * (Rpower t (a - 1) * w t)) (above 0) (below hi) v.
Proof.
  intros Ha. set (e := a / 2). assert (He : 0 < e) by (unfold e; lra).
  assert (S := gen_lin 0 hi _ _ (/ e) (/ e) _ _ (HJ (a + e) ltac:(lra)) (HJ (a - e) ltac:(unfold e; lra))).
  set (g := fun t => / e * (Rpower t (a + e - 1) * w t) + / e * (Rpower t (a - e - 1) * w t)) in S.
  assert (Cg : forall x, inside 0 hi x -> continuous g x).
  { intros x Hx. unfold g. apply (continuous_plus (V := R_NormedModule) (fun t => / e * (Rpower t (a + e - 1) * w t))).
    - apply (continuous_scal_r (V := R_NormedModule) (/ e) (k (a + e))). now apply mel_cont.
    - apply (continuous_scal_r (V := R_NormedModule) (/ e) (k (a - e))). now apply mel_cont. }
  assert (Eg : forall t, 0 < t -> g t = (Rpower t e + Rpower t (- e)) / e * (Rpower t (a - 1) * w t)).
  { intros t Ht. unfold g. replace (a + e - 1) with (e + (a - 1)) by ring. replace (a - e - 1) with (- e + (a - 1)) by ring. rewrite !Rpower_plus. field. lra. }
  set (L := fun t => ln t * (Rpower t (a - 1) * w t)).
  assert (CL : forall x, inside 0 hi x -> continuous L x).
  { intros x Hx. apply (continuous_mult (K := R_AbsRing) ln (k a)); [now apply ln_cont|now apply mel_cont]. }
  assert (BL : forall x, inside 0 hi x -> - g x <= L x <= g x).
  { intros x Hx. assert (Hx' := ins_pos x Hx). rewrite (Eg x Hx'). unfold L. assert (B := ln_bound e x He Hx').
    assert (N : 0 <= Rpower x (a - 1) * w x) by (apply Rmult_le_pos; [pos|auto]).
    assert (- ((Rpower x e + Rpower x (- e)) / e) <= ln x <= (Rpower x e + Rpower x (- e)) / e) by now apply Rabs_le_between.
    split; [rewrite <- Ropp_mult_distr_l_reverse|]; apply Rmult_le_compat_r; lra. }
  destruct (gen_dominated 0 hi (fun t => g t - L t) (fun t => 2 * g t + 0 * g t) (2 * (/ e * J (a + e) + / e * J (a - e)) + 0 * (/ e * J (a + e) + / e * J (a - e))) Hlt) as [lf Hf].
  - intros x Hx. apply (continuous_minus (V := R_NormedModule) g L); auto.
  - intros x Hx. apply (continuous_plus (V := R_NormedModule) (fun t => 2 * g t) (fun t => 0 * g t)).
    + apply (continuous_scal_r (V := R_NormedModule) 2 g). auto. + apply (continuous_scal_r (V := R_NormedModule) 0 g). auto.
  - intros x Hx. generalize (BL x Hx). lra.
  - exact (gen_lin 0 hi g g 2 0 _ _ S S).
  - eexists. assert (A := gen_lin 0 hi _ _ 1 (-1) _ _ S Hf). revert A. apply (gen_ext 0 hi). intros x. fold (L x). ring.
Qed.
Lemma mellin_derive a v : 0 < a -> is_RInt_gen (fun t => ln t * (Rpower t (a - 1) * w t)) (above 0) (below hi) v -> is_derive J a v.
Proof.
  intros Ha Hv. set (C := 64 / (a * a)). set (K := C * (J (a + a / 2) + J (a - a / 2))).
  assert (HC : 0 < C) by (unfold C; pos).
  assert (B : forall h, Rabs h <= a / 4 -> 0 <= J (a + h) - J a - h * v <= h * h * K).
  { intros h Hh. assert (Hh' := proj1 (Rabs_le_between _ _) Hh).
    set (g := fun t => h * h * C * (Rpower t (a + a / 2 - 1) * w t) + h * h * C * (Rpower t (a - a / 2 - 1) * w t)).
    assert (Ig := gen_lin 0 hi _ _ (h * h * C) (h * h * C) _ _ (HJ (a + a / 2) ltac:(lra)) (HJ (a - a / 2) ltac:(lra))). fold g in Ig.
    assert (I1 := gen_lin 0 hi _ _ 1 (-1) _ _ (HJ (a + h) ltac:(lra)) (HJ a Ha)).
    assert (I2 := gen_lin 0 hi _ _ 1 (- h) _ _ I1 Hv). cbv beta in I2.
    set (f := fun t => 1 * (1 * (Rpower t (a + h - 1) * w t) + -1 * (Rpower t (a - 1) * w t)) + - h * (ln t * (Rpower t (a - 1) * w t))) in I2.
    assert (Cg : forall x, inside 0 hi x -> continuous g x).
    { intros x Hx. unfold g. apply (continuous_plus (V := R_NormedModule) (fun t => h * h * C * (Rpower t (a + a / 2 - 1) * w t))).
      - apply (continuous_scal_r (V := R_NormedModule) (h * h * C) (k (a + a / 2))). now apply mel_cont.
      - apply (continuous_scal_r (V := R_NormedModule) (h * h * C) (k (a - a / 2))). now apply mel_cont. }
    assert (Cf : forall x, inside 0 hi x -> continuous f x).
    { intros x Hx. unfold f. apply (continuous_plus (V := R_NormedModule) (fun t => 1 * (1 * (Rpower t (a + h - 1) * w t) + -1 * (Rpower t (a - 1) * w t))) (fun t => - h * (ln t * (Rpower t (a - 1) * w t)))).
      - apply (continuous_scal_r (V := R_NormedModule) 1 (fun t => 1 * (Rpower t (a + h - 1) * w t) + -1 * (Rpower t (a - 1) * w t))).
        apply (continuous_plus (V := R_NormedModule) (fun t => 1 * (Rpower t (a + h - 1) * w t)) (fun t => -1 * (Rpower t (a - 1) * w t))).
        + apply (continuous_scal_r (V := R_NormedModule) 1 (k (a + h))). now apply mel_cont.
        + apply (continuous_scal_r (V := R_NormedModule) (-1) (k a)). now apply mel_cont.
      - apply (continuous_scal_r (V := R_NormedModule) (- h) (fun t => ln t * (Rpower t (a - 1) * w t))).
        apply (continuous_mult (K := R_AbsRing) ln (k a)); [now apply ln_cont|now apply mel_cont]. }
    assert (Ef : forall t, 0 < t -> f t = (Rpower t h - 1 - h * ln t) * (Rpower t (a - 1) * w t)).
    { intros t Ht. unfold f. replace (a + h - 1) with (h + (a - 1)) by ring. rewrite Rpower_plus. ring. }
    assert (Eg : forall t, 0 < t -> g t = h * h * C * (Rpower t (a / 2) + Rpower t (- (a / 2))) * (Rpower t (a - 1) * w t)).
    { intros t Ht. unfold g. replace (a + a / 2 - 1) with (a / 2 + (a - 1)) by ring. replace (a - a / 2 - 1) with (- (a / 2) + (a - 1)) by ring. rewrite !Rpower_plus. ring. }
    assert (T : forall x, inside 0 hi x -> 0 <= f x <= g x).
    { intros x Hx. assert (Hx' := ins_pos x Hx). rewrite (Ef x Hx'), (Eg x Hx'). destruct (pow_taylor a h x Ha Hh Hx') as [T1 T2].
      assert (N : 0 <= Rpower x (a - 1) * w x) by (apply Rmult_le_pos; [pos|auto]).
      split; [now apply Rmult_le_pos|]. apply Rmult_le_compat_r; auto. }
    split.
    - assert (0 <= 1 * (1 * J (a + h) + -1 * J a) + - h * v); [|lra].
      apply (gen_le 0 hi (fun t => 0 * f t) f); auto.
      + intros x Hx. apply (continuous_scal_r (V := R_NormedModule) 0 f). auto.
      + intros x Hx. generalize (T x Hx). lra.
      + eapply gen_eq; [apply gen_scal, I2|ring].
    - assert (1 * (1 * J (a + h) + -1 * J a) + - h * v <= h * h * C * J (a + a / 2) + h * h * C * J (a - a / 2)); [|unfold K; lra].
      apply (gen_le 0 hi f g); auto. intros x Hx. apply T; auto. }
  assert (HK : 0 <= K). { generalize (B (a / 4)). intros Q. destruct (Q ltac:(rewrite Rabs_pos_eq; lra)) as [Q1 Q2]. assert (0 < a / 4 * (a / 4)) by pos.
    apply Rmult_le_reg_l with (a / 4 * (a / 4)); [auto|]. lra. }
  apply is_derive_Reals. intros eps Heps.
  set (dl := Rmin (a / 4) (eps / (K + 1))). assert (Hdl : 0 < dl) by (apply Rmin_glb_lt; pos).
  exists (mkposreal _ Hdl). intros h Hh0 Hh. cbn in Hh.
  assert (Rabs h <= a / 4) by (left; eapply Rlt_le_trans; [exact Hh|apply Rmin_l]).
  assert (L2 : Rabs h < eps / (K + 1)) by (eapply Rlt_le_trans; [exact Hh|apply Rmin_r]).
  destruct (B h H) as [B1 B2].
  replace ((J (a + h) - J a) / h - v) with ((J (a + h) - J a - h * v) / h) by (field; auto).
  unfold Rdiv. rewrite Rabs_mult, Rabs_pos_eq, Rabs_inv by auto.
  assert (P : 0 < Rabs h) by now apply Rabs_pos_lt.
  apply Rle_lt_trans with (Rabs h * K).
  - apply Rmult_le_reg_r with (Rabs h); [auto|]. rewrite Rmult_assoc, Rinv_l by lra. rewrite Rmult_1_r. eapply Rle_trans; [exact B2|].
    right. replace (h * h) with (Rabs h * Rabs h). 2:{ rewrite <- Rabs_mult. apply Rabs_pos_eq, Rle_0_sqr. } ring.
  - apply Rle_lt_trans with (Rabs h * (K + 1)); [apply Rmult_le_compat_l; lra|].
    apply Rmult_lt_reg_r with (/ (K + 1)); [pos|]. rewrite Rmult_assoc, Rinv_r by lra. rewrite Rmult_1_r. exact L2.
Qed.
End Mellin.

(** ** the logarithmic derivative of Gamma *)
Lemma Gam_ln a : 0 < a -> exists v : R, is_RInt_gen (fun t => ln t * gamma_h a t) (above 0) (below p_infty) v /\ is_derive Gam a v.
Proof.
  intros Ha.
  assert (HJ : forall p, 0 < p -> is_RInt_gen (fun t => Rpower t (p - 1) * exp (- t)) (above 0) (below p_infty) (Gam p)).
  { intros p Hp. exact (G_in _ _ (Gam_spec p Hp)). }
  destruct (mellin_ln p_infty I (fun t => exp (- t))) with (J := Gam) (a := a) as [v Hv]; auto.
  - intros x Hx. eapply ex_derive_cont. dder; reflexivity.
  - intros; pos.
  - exists v. split; [exact Hv|]. apply (mellin_derive p_infty I (fun t => exp (- t))); auto.
    + intros x Hx. eapply ex_derive_cont. dder; reflexivity. + intros; pos.
Qed.
Lemma Bet_ln a b : 0 < a -> 0 < b -> exists v : R, is_RInt_gen (fun t => ln t * beta_h a b t) (above 0) (below 1) v /\ is_derive (fun a => Bet a b) a v.
Proof.
  intros Ha Hb.
  assert (HJ : forall p, 0 < p -> is_RInt_gen (fun t => Rpower t (p - 1) * Rpower (1 - t) (b - 1)) (above 0) (below 1) (Bet p b)).
  { intros p Hp. exact (B_in _ _ _ (Bet_spec p b Hp Hb)). }
  assert (Cw : forall x, inside 0 1 x -> continuous (fun t => Rpower (1 - t) (b - 1)) x).
  { intros x Hx%in01f. eapply ex_derive_cont. dder; try lra. reflexivity. }
  destruct (mellin_ln 1 lt01 (fun t => Rpower (1 - t) (b - 1))) with (J := fun a => Bet a b) (a := a) as [v Hv]; auto.
  - intros; pos.
  - exists v. split; [exact Hv|]. apply (mellin_derive 1 lt01 (fun t => Rpower (1 - t) (b - 1))); auto. intros; pos.
Qed.
Definition psi (a : R) : R := Derive (fun p => ln (Gam p)) a.
Lemma psi_derive a : 0 < a -> is_derive (fun p => ln (Gam p)) a (psi a).
Proof.
  intros Ha. apply Derive_correct. destruct (Gam_ln a Ha) as (v & _ & D). exists (v * / Gam a). apply dR_ln; [now apply Gam_pos|exact D].
Qed.
Lemma Gam_ln_int a : 0 < a -> is_RInt_gen (fun t => ln t * gamma_h a t) (above 0) (below p_infty) (psi a * Gam a).
Proof.
  intros Ha. destruct (Gam_ln a Ha) as (v & Hv & D). assert (G := Gam_pos a Ha).
  replace (psi a * Gam a) with v; [exact Hv|].
  assert (P : psi a = v * / Gam a) by exact (is_derive_unique _ _ _ (dR_ln Gam a v G D)). rewrite P. change (@eq R v (v * / Gam a * Gam a)). field. lra.
Qed.
Lemma Bet_ln_int a b : 0 < a -> 0 < b -> is_RInt_gen (fun t => ln t * beta_h a b t) (above 0) (below 1) ((psi a - psi (a + b)) * Bet a b).
Proof.
  intros Ha Hb. destruct (Bet_ln a b Ha Hb) as (v & Hv & D). assert (G := Bet_pos a b Ha Hb).
  replace ((psi a - psi (a + b)) * Bet a b) with v; [exact Hv|].
  assert (D1 : is_derive (fun p => ln (Bet p b)) a (v * / Bet a b)) by (apply (dR_ln (fun p => Bet p b)); auto).
  assert (D2 : is_derive (fun p => ln (Gam p) + ln (Gam b) - ln (Gam (p + b))) a (psi a + 0 - 1 * psi (a + b))).
  { apply dR_minus; [apply dR_plus; [now apply psi_derive|apply dR_c]|].
    apply (is_derive_comp (fun q => ln (Gam q)) (fun p => p + b) a (psi (a + b)) 1); [apply psi_derive; lra|].
    eapply is_derive_eq; [apply dR_plus; [apply dR_id|apply dR_c]|ring]. }
  assert (D3 : is_derive (fun p => ln (Bet p b)) a (psi a + 0 - 1 * psi (a + b))).
  { eapply is_derive_ext_loc; [|exact D2]. exists (mkposreal a Ha). intros y Hy. unfold ball in Hy; cbn in Hy; unfold AbsRing_ball, abs, minus, plus, opp in Hy; cbn in Hy. apply Rabs_def2 in Hy.
    assert (Hy0 : 0 < y) by lra. assert (G1 := Gam_pos y Hy0). assert (G2 := Gam_pos b Hb). assert (G3 := Gam_pos (y + b) ltac:(lra)). assert (G4 := Bet_pos y b Hy0 Hb).
    assert (E := f_equal ln (Beta_Gamma y b Hy0 Hb)). rewrite !ln_mult in E by auto. lra. }
  assert (E : psi a + 0 - 1 * psi (a + b) = v * / Bet a b).
  { etransitivity; [symmetry; exact (is_derive_unique _ _ _ D3)|exact (is_derive_unique _ _ _ D1)]. }
  replace (psi a - psi (a + b)) with (psi a + 0 - 1 * psi (a + b)) by ring. rewrite E. change (@eq R v (v * / Bet a b * Bet a b)). field. lra.
Qed.
Lemma Bet_ln1_int a b : 0 < a -> 0 < b -> is_RInt_gen (fun t => ln (1 - t) * beta_h a b t) (above 0) (below 1) ((psi b - psi (a + b)) * Bet a b).
Proof.
  intros Ha Hb. assert (A := Bet_ln_int b a Hb Ha). rewrite (Rplus_comm b a), (Bet_sym b a) in A by auto.
  assert (B := subst_down 0 1 0 1 (fun t => ln t * beta_h b a t) (fun t => 1 - t) (fun _ => -1) _ lt01 A one_minus_right one_minus_left).
  assert (B' : is_RInt_gen (fun x => - -1 * (ln (1 - x) * beta_h b a (1 - x))) (above 0) (below 1) ((psi b - psi (a + b)) * Bet a b)).
  { apply B. intros x Hx%in01f. split; [dder; ring|]. split; [apply continuous_const|].
    apply (continuous_mult (K := R_AbsRing) ln (beta_h b a)); [eapply ex_derive_cont; apply is_derive_ln; lra|apply bh_cont, in01; lra]. }
  revert B'. apply (is_RInt_gen_inside 0 1); [exact lt01|]. intros x Hx%in01f. unfold beta_h. replace (1 - (1 - x)) with x by ring. ring.
Qed.
