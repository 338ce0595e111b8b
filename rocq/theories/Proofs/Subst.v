(** * Integrals reduced to Gamma and Beta by change of variables *)
From Coq Require Import Reals Lra Lia Psatz.
From Coquelicot Require Import Coquelicot.
From Verif.Num Require Import XReal.
From Verif.Spec Require Import DistSpec GammaSpec.
From Verif.Proofs Require Import XTac Calc Improper GammaFun.
Open Scope R_scope.

(** ** from an integral to moments and coherence *)
Lemma raw_intro lo hi pdf (u h : R -> R) (c l M : R) n : Rbar_lt lo hi ->
  (forall x, inside lo hi x -> pdf (Fin x) = Fin (u x)) ->
  is_RInt_gen h (above lo) (below hi) l ->
  (forall x, inside lo hi x -> x ^ n * u x = c * h x) -> c * l = M ->
  is_expectation lo hi pdf (fun x => x ^ n) M.
Proof.
  intros Hlt Hp Hl He E. unfold is_expectation.
  assert (A := gen_eq lo hi _ _ _ (gen_scal lo hi _ c _ Hl) E). revert A. apply (is_RInt_gen_inside lo hi); [exact Hlt|].
  intros x Hx. unfold rf. rewrite Hp by auto. cbn [val]. now apply He.
Qed.
Lemma low_eq lo y (f : R -> R) (a b : R) : is_RInt_gen f (above lo) (at_point y) a -> a = b -> is_RInt_gen f (above lo) (at_point y) b.
Proof. now intros H <-. Qed.
Lemma LG_in a y v : is_lower_gamma a y v -> is_RInt_gen (gamma_h a) (above 0) (at_point y) v. Proof. exact (fun H => H). Qed.
Lemma LB_in a b y v : is_lower_beta a b y v -> is_RInt_gen (beta_h a b) (above 0) (at_point y) v. Proof. exact (fun H => H). Qed.
Lemma LG_out a y v : is_RInt_gen (gamma_h a) (above 0) (at_point y) v -> is_lower_gamma a y v. Proof. exact (fun H => H). Qed.
Lemma LB_out a b y v : is_RInt_gen (beta_h a b) (above 0) (at_point y) v -> is_lower_beta a b y v. Proof. exact (fun H => H). Qed.

(** a change of variables f mapping (lo,hi) increasingly to (lo',hi') *)
Lemma subst_up lo hi lo' hi' (h f df : R -> R) l : Rbar_lt lo hi ->
  is_RInt_gen h (above lo') (below hi') l ->
  filterlim f (above lo) (above lo') -> filterlim f (below hi) (below hi') ->
  (forall x, inside lo hi x -> is_derive f x (df x) /\ continuous df x /\ continuous h (f x)) ->
  is_RInt_gen (fun x => df x * h (f x)) (above lo) (below hi) l.
Proof. intros Hlt Hl F1 F2 D. apply (subst_gen (above lo) (below hi) (above lo') (below hi') h f df l); auto. now apply prod_inside. Qed.
Lemma subst_low lo hi lo' (h f df : R -> R) y l : inside lo hi y ->
  is_RInt_gen h (above lo') (at_point (f y)) l ->
  filterlim f (above lo) (above lo') ->
  (forall x, inside lo hi x -> is_derive f x (df x) /\ continuous df x /\ continuous h (f x)) ->
  is_RInt_gen (fun x => df x * h (f x)) (above lo) (at_point y) l.
Proof.
  intros Hy Hl F1 D. apply (subst_gen (above lo) (at_point y) (above lo') (at_point (f y)) h f df l); auto.
  - apply lim_point. - now apply (prod_point lo hi).
Qed.
(** ... decreasingly *)
Lemma subst_down lo hi lo' hi' (h f df : R -> R) l : Rbar_lt lo hi ->
  is_RInt_gen h (above lo') (below hi') l ->
  filterlim f (above lo) (below hi') -> filterlim f (below hi) (above lo') ->
  (forall x, inside lo hi x -> is_derive f x (df x) /\ continuous df x /\ continuous h (f x)) ->
  is_RInt_gen (fun x => - df x * h (f x)) (above lo) (below hi) l.
Proof.
  intros Hlt Hl F1 F2 D.
  assert (A := is_RInt_gen_swap _ _ Hl). change (is_RInt_gen h (below hi') (above lo') (- l)) in A.
  assert (B : is_RInt_gen (fun x => df x * h (f x)) (above lo) (below hi) (- l)).
  { apply (subst_gen (above lo) (below hi) (below hi') (above lo') h f df (- l)); auto. now apply prod_inside. }
  apply (gen_scal lo hi _ (-1)) in B. apply (gen_eq lo hi _ _ l) in B; [|ring].
  revert B. apply (gen_ext lo hi). intros; ring.
Qed.

(** ** limits of the maps *)
Lemma scale_above b : 0 < b -> filterlim (fun x => b * x) (above 0) (above 0).
Proof.
  intros Hb P [eps He]. assert (0 < eps / b) by (generalize (cond_pos eps); intros; pos). exists (mkposreal _ H). intros y Hy Hlt. apply He; [|apply Rmult_lt_0_compat; lra].
  unfold ball in *; cbn in *; unfold AbsRing_ball, abs, minus, plus, opp in *; cbn in *. rewrite Ropp_0, Rplus_0_r in *.
  rewrite Rabs_mult, (Rabs_pos_eq b) by lra. apply Rmult_lt_reg_r with (/ b); [pos|]. replace (b * Rabs y * / b) with (Rabs y) by (field; lra). exact Hy.
Qed.
Lemma scale_below b : 0 < b -> filterlim (fun x => b * x) (below p_infty) (below p_infty).
Proof.
  intros Hb P [M HM]. exists (M / b). intros x Hx. apply HM. apply Rmult_lt_reg_r with (/ b); [pos|]. replace (b * x * / b) with x by (field; lra). exact Hx.
Qed.
Lemma inv_above b : 0 < b -> filterlim (fun x => b / x) (above 0) (below p_infty).
Proof.
  intros Hb P [M HM]. set (M' := Rmax M 1). assert (1 <= M') by apply Rmax_r. assert (M <= M') by apply Rmax_l.
  assert (0 < b / M') by pos. exists (mkposreal _ H1). intros y Hy Hlt. apply HM.
  unfold ball in *; cbn in *; unfold AbsRing_ball, abs, minus, plus, opp in *; cbn in *. rewrite Ropp_0, Rplus_0_r, Rabs_pos_eq in Hy by lra.
  apply Rle_lt_trans with M'; [auto|]. apply Rmult_lt_reg_r with (y / M'); [pos|]. replace (M' * (y / M')) with y by (field; lra). replace (b / y * (y / M')) with (b / M') by (field; lra). auto.
Qed.
Lemma inv_below b : 0 < b -> filterlim (fun x => b / x) (below p_infty) (above 0).
Proof.
  intros Hb P [eps He]. assert (HE := cond_pos eps). exists (b / eps). intros y Hy. assert (0 < b / eps) by pos. apply He; [|assert (0 < b / y) by pos; auto].
  unfold ball in *; cbn in *; unfold AbsRing_ball, abs, minus, plus, opp in *; cbn in *. rewrite Ropp_0, Rplus_0_r. assert (0 < b / y) by pos. rewrite Rabs_pos_eq by lra.
  apply Rmult_lt_reg_r with (y / eps); [pos|]. replace (b / y * (y / eps)) with (b / eps) by (field; lra). replace (eps * (y / eps)) with y by (field; lra). auto.
Qed.
Lemma sq_above : filterlim (fun x => x * x / 2) (above 0) (above 0).
Proof.
  intros P [eps He]. assert (HE := cond_pos eps). assert (0 < Rmin 1 eps) by (apply Rmin_glb_lt; lra). exists (mkposreal _ H). intros y Hy Hlt.
  assert (0 < y * y) by now apply Rmult_lt_0_compat. apply He; [|lra].
  unfold ball in *; cbn in *; unfold AbsRing_ball, abs, minus, plus, opp in *; cbn in *. rewrite Ropp_0, Rplus_0_r in *. rewrite Rabs_pos_eq in * by lra.
  assert (y < 1 /\ y < eps). { split; eapply Rlt_le_trans; try exact Hy; [apply Rmin_l|apply Rmin_r]. }
  assert (y * y < 1 * eps) by (apply Rmult_le_0_lt_compat; lra). lra.
Qed.
Lemma sq_below : filterlim (fun x => x * x / 2) (below p_infty) (below p_infty).
Proof.
  intros P [M HM]. exists (Rmax 2 M). intros x Hx. apply HM. assert (2 <= Rmax 2 M) by apply Rmax_l. assert (M <= Rmax 2 M) by apply Rmax_r.
  assert (2 * x < x * x) by (apply Rmult_lt_compat_r; lra). lra.
Qed.
Lemma odds_above c : 0 < c -> filterlim (fun x => x / (c + x)) (above 0) (above 0).
Proof.
  intros Hc P [eps He]. assert (HE := cond_pos eps). assert (0 < eps * c) by pos. exists (mkposreal _ H). intros y Hy Hlt. assert (0 < y / (c + y)) by pos. apply He; [|auto].
  unfold ball in *; cbn in *; unfold AbsRing_ball, abs, minus, plus, opp in *; cbn in *. rewrite Ropp_0, Rplus_0_r in *. rewrite Rabs_pos_eq in * by lra.
  apply Rmult_lt_reg_r with (c + y); [lra|]. replace (y / (c + y) * (c + y)) with y by (field; lra). assert (0 < eps * y) by pos. lra.
Qed.
Lemma odds_below c : 0 < c -> filterlim (fun x => x / (c + x)) (below p_infty) (below 1).
Proof.
  intros Hc P [eps He]. assert (HE := cond_pos eps). exists (c / eps). intros y Hy. assert (0 < c / eps) by pos. assert (E : y / (c + y) + - (1) = - (c / (c + y))) by (field; lra).
  assert (0 < c / (c + y)) by pos.
  apply He; [|lra].
  unfold ball in *; cbn in *; unfold AbsRing_ball, abs, minus, plus, opp in *; cbn in *. rewrite E, Rabs_Ropp, Rabs_pos_eq by lra.
  apply Rmult_lt_reg_r with ((c + y) / eps); [pos|]. replace (c / (c + y) * ((c + y) / eps)) with (c / eps) by (field; lra). replace (eps * ((c + y) / eps)) with (c + y) by (field; lra). lra.
Qed.

(** ** the integrals *)
Lemma Rpower_div_base x y c : 0 < x -> 0 < y -> Rpower (x / y) c = Rpower x c / Rpower y c.
Proof. intros Hx Hy. unfold Rdiv, Rpower. rewrite ln_mult, ln_Rinv by pos. rewrite <- exp_Ropp, <- exp_plus. f_equal; ring. Qed.
(** x^(p-1) e^(-bx) *)
Lemma gam_rate p b : 0 < p -> 0 < b -> is_RInt_gen (fun x => Rpower x (p - 1) * exp (- (b * x))) (above 0) (below p_infty) (Gam p / Rpower b p).
Proof.
  intros Hp Hb.
  assert (A : is_RInt_gen (fun x => b * gamma_h p (b * x)) (above 0) (below p_infty) (Gam p)).
  { apply (subst_up 0 p_infty 0 p_infty (gamma_h p) (fun x => b * x) (fun _ => b)); [exact I|apply G_in, Gam_spec; auto|now apply scale_above|now apply scale_below|].
    intros x Hx%in0f. split; [dder; ring|]. split; [apply continuous_const|apply gh_cont, in0; pos]. }
  apply (gen_scal 0 p_infty _ (/ Rpower b p)) in A. apply (gen_eq 0 p_infty _ _ (Gam p / Rpower b p)) in A; [|unfold Rdiv; ring].
  revert A. apply (is_RInt_gen_inside 0 p_infty); [exact I|]. intros x Hx%in0f. unfold gamma_h.
  rewrite <- Rpower_mult_distr by auto. rewrite (Rpower_minus1 b) by auto. field. split; pos.
Qed.
Lemma gam_rate_low p b y v : 0 < b -> 0 < y -> is_lower_gamma p (b * y) v ->
  is_RInt_gen (fun x => Rpower x (p - 1) * exp (- (b * x))) (above 0) (at_point y) (v / Rpower b p).
Proof.
  intros Hb Hy H.
  assert (A : is_RInt_gen (fun x => b * gamma_h p (b * x)) (above 0) (at_point y) v).
  { apply (subst_low 0 p_infty 0 (gamma_h p) (fun x => b * x) (fun _ => b)); [now apply in0|now apply LG_in|now apply scale_above|].
    intros x Hx%in0f. split; [dder; ring|]. split; [apply continuous_const|apply gh_cont, in0; pos]. }
  apply (low_scal 0 y _ (/ Rpower b p)) in A. apply (low_eq 0 _ _ _ (v / Rpower b p)) in A; [|unfold Rdiv; ring].
  revert A. apply (low_inside 0 p_infty); [now apply in0|]. intros x Hx%in0f. unfold gamma_h.
  rewrite <- Rpower_mult_distr by auto. rewrite (Rpower_minus1 b) by auto. field. split; pos.
Qed.
(** x^(-p-1) e^(-b/x) *)
Lemma gam_inv p b : 0 < p -> 0 < b -> is_RInt_gen (fun x => Rpower x (- p - 1) * exp (- (b / x))) (above 0) (below p_infty) (Gam p / Rpower b p).
Proof.
  intros Hp Hb.
  assert (A : is_RInt_gen (fun x => - (- b / (x * x)) * gamma_h p (b / x)) (above 0) (below p_infty) (Gam p)).
  { apply (subst_down 0 p_infty 0 p_infty (gamma_h p) (fun x => b / x) (fun x => - b / (x * x))); [exact I|apply G_in, Gam_spec; auto|now apply inv_above|now apply inv_below|].
    intros x Hx%in0f. split; [dder; try lra; field; lra|]. split; [eapply ex_derive_cont; dder; [apply Rgt_not_eq; apply Rlt_gt; pos|reflexivity]|apply gh_cont, in0; pos]. }
  apply (gen_scal 0 p_infty _ (/ Rpower b p)) in A. apply (gen_eq 0 p_infty _ _ (Gam p / Rpower b p)) in A; [|unfold Rdiv; ring].
  revert A. apply (is_RInt_gen_inside 0 p_infty); [exact I|]. intros x Hx%in0f. unfold gamma_h.
  rewrite Rpower_div_base by auto. rewrite !Rpower_minus1 by pos. rewrite Rpower_Ropp.
  field. repeat split; pos.
Qed.
(** x^(p-1) e^(-x^2/2) *)
Lemma gam_sq p : 0 < p -> is_RInt_gen (fun x => Rpower x (p - 1) * exp (- (x * x / 2))) (above 0) (below p_infty) (Rpower 2 (p / 2 - 1) * Gam (p / 2)).
Proof.
  intros Hp.
  assert (A : is_RInt_gen (fun x => x * gamma_h (p / 2) (x * x / 2)) (above 0) (below p_infty) (Gam (p / 2))).
  { apply (subst_up 0 p_infty 0 p_infty (gamma_h (p / 2)) (fun x => x * x / 2) (fun x => x)); [exact I|apply G_in, Gam_spec; lra|exact sq_above|exact sq_below|].
    intros x Hx%in0f. split; [dder; try lra; field|]. split; [apply continuous_id|apply gh_cont, in0; pos]. }
  apply (gen_scal 0 p_infty _ (Rpower 2 (p / 2 - 1))) in A.
  revert A. apply (is_RInt_gen_inside 0 p_infty); [exact I|]. intros x Hx%in0f. unfold gamma_h.
  replace (x * x / 2) with (/ 2 * (x * x)) at 2 by field. rewrite <- Rpower_mult_distr, <- Rpower_mult_distr by pos.
  replace (Rpower (/ 2) (p / 2 - 1)) with (/ Rpower 2 (p / 2 - 1)). 2:{ unfold Rpower. rewrite ln_Rinv, <- exp_Ropp by lra. f_equal; ring. }
  replace (Rpower x (p - 1)) with (x * (Rpower x (p / 2 - 1) * Rpower x (p / 2 - 1))).
  2:{ rewrite <- Rpower_plus. rewrite Rmult_comm, <- Rpower_plus1 by auto. f_equal; field. }
  field. pos.
Qed.
Lemma gam_sq_low p y v : 0 < y -> is_lower_gamma (p / 2) (y * y / 2) v ->
  is_RInt_gen (fun x => Rpower x (p - 1) * exp (- (x * x / 2))) (above 0) (at_point y) (Rpower 2 (p / 2 - 1) * v).
Proof.
  intros Hy H.
  assert (A : is_RInt_gen (fun x => x * gamma_h (p / 2) (x * x / 2)) (above 0) (at_point y) v).
  { apply (subst_low 0 p_infty 0 (gamma_h (p / 2)) (fun x => x * x / 2) (fun x => x)); [now apply in0|now apply LG_in|exact sq_above|].
    intros x Hx%in0f. split; [dder; try lra; field|]. split; [apply continuous_id|apply gh_cont, in0; pos]. }
  apply (low_scal 0 y _ (Rpower 2 (p / 2 - 1))) in A.
  revert A. apply (low_inside 0 p_infty); [now apply in0|]. intros x Hx%in0f. unfold gamma_h.
  replace (x * x / 2) with (/ 2 * (x * x)) at 2 by field. rewrite <- Rpower_mult_distr, <- Rpower_mult_distr by pos.
  replace (Rpower (/ 2) (p / 2 - 1)) with (/ Rpower 2 (p / 2 - 1)). 2:{ unfold Rpower. rewrite ln_Rinv, <- exp_Ropp by lra. f_equal; ring. }
  replace (Rpower x (p - 1)) with (x * (Rpower x (p / 2 - 1) * Rpower x (p / 2 - 1))).
  2:{ rewrite <- Rpower_plus. rewrite Rmult_comm, <- Rpower_plus1 by auto. f_equal; field. }
  field. pos.
Qed.
(** x^(p-1) (c+x)^(-p-q) *)
Lemma odds_d c x : 0 < c -> 0 < x -> is_derive (fun x => x / (c + x)) x (c / ((c + x) * (c + x))).
Proof. intros Hc Hx. dder; try lra; field; lra. Qed.
Lemma odds_body c p q x : 0 < c -> 0 < x ->
  Rpower x (p - 1) * Rpower (c + x) (- p - q) = Rpower c (- q) * (c / ((c + x) * (c + x)) * beta_h p q (x / (c + x))).
Proof.
  intros Hc Hx. unfold beta_h. replace (1 - x / (c + x)) with (c / (c + x)) by (field; lra).
  rewrite !Rpower_div_base by lra. rewrite !Rpower_minus1 by lra. replace (- p - q) with (- p + - q) by ring. rewrite Rpower_plus, !Rpower_Ropp.
  field. repeat split; pos.
Qed.
Lemma bet_odds c p q : 0 < c -> 0 < p -> 0 < q -> is_RInt_gen (fun x => Rpower x (p - 1) * Rpower (c + x) (- p - q)) (above 0) (below p_infty) (Rpower c (- q) * Bet p q).
Proof.
  intros Hc Hp Hq.
  assert (A : is_RInt_gen (fun x => c / ((c + x) * (c + x)) * beta_h p q (x / (c + x))) (above 0) (below p_infty) (Bet p q)).
  { apply (subst_up 0 p_infty 0 1 (beta_h p q) (fun x => x / (c + x)) (fun x => c / ((c + x) * (c + x)))); [exact I|apply B_in, Bet_spec; auto|now apply odds_above|now apply odds_below|].
    intros x Hx%in0f. assert (0 < (c + x) * (c + x)) by pos. split; [now apply odds_d|]. split; [eapply ex_derive_cont; dder; try lra; reflexivity|apply bh_cont, in01].
    assert (1 - x / (c + x) = c / (c + x)) by (field; lra). assert (0 < c / (c + x)) by pos. split; [pos|lra]. }
  apply (gen_scal 0 p_infty _ (Rpower c (- q))) in A.
  revert A. apply (is_RInt_gen_inside 0 p_infty); [exact I|]. intros x Hx%in0f. now apply odds_body.
Qed.
Lemma bet_odds_low c p q y v : 0 < c -> 0 < y -> is_lower_beta p q (y / (c + y)) v ->
  is_RInt_gen (fun x => Rpower x (p - 1) * Rpower (c + x) (- p - q)) (above 0) (at_point y) (Rpower c (- q) * v).
Proof.
  intros Hc Hy H.
  assert (A : is_RInt_gen (fun x => c / ((c + x) * (c + x)) * beta_h p q (x / (c + x))) (above 0) (at_point y) v).
  { apply (subst_low 0 p_infty 0 (beta_h p q) (fun x => x / (c + x)) (fun x => c / ((c + x) * (c + x)))); [now apply in0|now apply LB_in|now apply odds_above|].
    intros x Hx%in0f. assert (0 < (c + x) * (c + x)) by pos. split; [now apply odds_d|]. split; [eapply ex_derive_cont; dder; try lra; reflexivity|apply bh_cont, in01].
    assert (1 - x / (c + x) = c / (c + x)) by (field; lra). assert (0 < c / (c + x)) by pos. split; [pos|lra]. }
  apply (low_scal 0 y _ (Rpower c (- q))) in A.
  revert A. apply (low_inside 0 p_infty); [now apply in0|]. intros x Hx%in0f. now apply odds_body.
Qed.
