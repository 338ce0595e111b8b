(** * Levy *)
From Coq Require Import Reals Lra Lia Psatz List.
From Coquelicot Require Import Coquelicot.
From Verif.Num Require Import XReal.
From Verif.Model Require Import Rust Constraints Probability Params Consts Continuous2.
From Verif.Spec Require Import DistSpec.
From Verif.Proofs Require Import Gauss Gauss2 Calc2 XTac Calc ContProofs5 ContProofs8.
Import ListNotations.
Open Scope R_scope.

(** complementary error function *)
Definition erfc (t : R) : R := 2 * (1 - Phi (sqrt 2 * t)).
Section Levy.
Import Levy.
Context (m c0 : R) (Hc : 0 < c0).
Notation d := (new_unchecked (Fin m) (Fin c0)).
Notation lo := (Finite m). Notation hi := p_infty.
(** the Levy distribution function *)
Definition levyG (x : R) : R := erfc (sqrt (c0 / 2 / (x - m))).
Lemma lv_in x : inside lo hi x -> 0 < x - m. Proof. intros [H _]; cbn in H; lra. Qed.
Definition lvg (x : R) : R := sqrt (c0 / 2 / PI) * exp (- (c0 / 2) / (x - m)) / Rpower (x - m) (3 / 2).
Lemma lv_pdf x : inside lo hi x -> pdf d (Fin x) = Fin (lvg x).
Proof. intros H; apply lv_in in H. assert (P := PI_RGT_0). unfold pdf, THREE_HALVES; cbn [pr mu c new_unchecked]. cbv zeta. now xs. Qed.
Lemma Rpower_32 y : 0 < y -> Rpower y (3 / 2) = y * sqrt y.
Proof. intros H. replace (3 / 2) with (1 + / 2) by lra. now rewrite Rpower_plus, Rpower_1, Rpower_sqrt by auto. Qed.
Lemma lv_derive x : 0 < x - m -> is_derive levyG x (lvg x).
Proof.
  intros H. assert (P := PI_RGT_0). assert (S2 := sqrt2_pos). assert (SP := sqrtPI_pos).
  assert (D1 : is_derive (fun x => sqrt 2 * sqrt (c0 / 2 / (x - m))) x (sqrt 2 * (- (c0 / 2) / (x - m) ^ 2 / (2 * sqrt (c0 / 2 / (x - m)))))).
  { assert (H1 : 0 < c0 / 2 / (x - m)) by pos. auto_derive; [repeat split; auto; lra|].
    unfold Rminus, Rdiv in *. field. repeat split; try lra. apply Rgt_not_eq, sqrt_lt_R0. exact H1. }
  assert (D2 := is_derive_comp Phi _ x _ _ (Phi_derive _) D1).
  assert (D3 := dR_mult (fun _ => 2) _ x _ _ (dR_c 2 x) (dR_minus (fun _ => 1) _ x _ _ (dR_c 1 x) D2)).
  unfold levyG, erfc. revert D3. apply is_derive_ext_eq.
  set (a := sqrt 2 * (- (c0 / 2) / (x - m) ^ 2 / (2 * sqrt (c0 / 2 / (x - m))))).
  change (scal a (phi (sqrt 2 * sqrt (c0 / 2 / (x - m))))) with (a * phi (sqrt 2 * sqrt (c0 / 2 / (x - m)))). match goal with |- @eq _ ?a ?b => change (@eq R a b) end.
  unfold phi, lvg, a. rewrite Rpower_32 by auto. set (y := x - m) in *.
  replace (sqrt 2 * sqrt (c0 / 2 / y) * (sqrt 2 * sqrt (c0 / 2 / y))) with ((sqrt 2 * sqrt 2) * (sqrt (c0 / 2 / y) * sqrt (c0 / 2 / y))) by ring.
  rewrite sqrt2_sq, sqrt_sqrt by pos. replace (- (2 * (c0 / 2 / y) / 2)) with (- (c0 / 2) / y) by (field; lra).
  rewrite sqrt_2PI. rewrite (sqrt_div_alt (c0 / 2) y), (sqrt_div_alt (c0 / 2) PI) by auto.
  assert (A : 0 < sqrt (c0 / 2)) by (apply sqrt_lt_R0; lra). assert (B : 0 < sqrt y) by (now apply sqrt_lt_R0).
  assert (AA : sqrt (c0 / 2) * sqrt (c0 / 2) = c0 / 2) by (apply sqrt_sqrt; lra). assert (BB : sqrt y * sqrt y = y) by (apply sqrt_sqrt; lra).
  set (E := exp (- (c0 / 2) / y)). clearbody E. set (al := sqrt (c0 / 2)) in *. set (be := sqrt y) in *. clearbody al be. rewrite <- AA.
  clearbody y. subst y. field. repeat split; lra.
Qed.
Lemma lv_coherent : coherent lo hi (fun x => Fin (levyG (val x))) (pdf d).
Proof.
  assert (P := PI_RGT_0). apply (coherent_intro _ _ _ _ levyG lvg).
  - exact I. - reflexivity. - apply lv_pdf.
  - intros x H; apply lv_derive, (lv_in x H).
  - intros x H; apply lv_in in H. unfold lvg. eapply ex_derive_cont. dder; try lra; try reflexivity. apply Rgt_not_eq, exp_pos.
  - intros x H; apply lv_in in H. unfold lvg. apply Rdiv_le_0_compat; [|pos]. apply Rmult_le_pos; [apply sqrt_pos|pos].
  - unfold levyG, erfc. eapply fl_eq; [apply fl_mult; [apply fl_const|apply fl_minus; [apply fl_const|]]|].
    + apply (filterlim_comp _ _ _ (fun x => sqrt 2 * sqrt (c0 / 2 / (x - m))) Phi _ (Rbar_locally p_infty)); [|apply Phi_lim_p].
      intros Q [M HM]. set (M' := Rabs M + 1). assert (0 < M') by (unfold M'; assert (A := Rabs_pos M); lra). assert (M < M') by (unfold M'; assert (A := Rle_abs M); lra).
      assert (De : 0 < c0 / (M' * M')) by pos. exists (mkposreal _ De). intros x Hx Hm. apply HM. apply Rlt_trans with M'; [auto|].
      unfold ball in Hx; cbn in Hx; unfold AbsRing_ball, abs, minus, plus, opp in Hx; cbn in Hx. apply Rabs_def2 in Hx.
      assert (Y : 0 < x - m) by lra.
      rewrite <- sqrt_mult by (try lra; apply Rlt_le; pos). rewrite <- (sqrt_square M') by lra. apply sqrt_lt_1; [nra|apply Rlt_le; pos|].
      replace (2 * (c0 / 2 / (x - m))) with (c0 / (x - m)) by (field; lra).
      apply Rmult_lt_reg_r with (x - m); [auto|]. replace (c0 / (x - m) * (x - m)) with c0 by (field; lra).
      apply Rlt_le_trans with (M' * M' * (c0 / (M' * M'))); [apply Rmult_lt_compat_l; nra|]. right. field. lra.
    + ring.
  - unfold levyG, erfc. eapply fl_eq; [apply fl_mult; [apply fl_const|apply fl_minus; [apply fl_const|]]|].
    + apply (fl_cont Phi) with (a := 0); [apply (ex_derive_continuous Phi); eexists; apply Phi_derive|].
      eapply fl_eq; [apply fl_mult; [apply fl_const|apply (fl_cont sqrt) with (a := 0); [apply continuous_sqrt|]]|rewrite sqrt_0; ring].
      apply filterlim_ext with (fun x => c0 / 2 * / ((x - m) / 1)); [intros x; unfold Rdiv; now rewrite Rinv_1, (Rmult_1_r (x - m))|].
      eapply fl_eq; [apply fl_mult; [apply fl_const|]|].
      * apply (filterlim_comp _ _ _ (fun x => (x - m) / 1) Rinv _ (Rbar_locally p_infty)); [apply affine_p; lra|].
        apply (is_lim_inv (fun x => x) p_infty p_infty); [apply is_lim_id|discriminate].
      * ring.
    + rewrite Phi_0. field.
Qed.
Lemma lv_cdf {SP : Special xreal} (He : forall t, sf_erfc (Fin t) = Fin (erfc t)) x : inside lo hi x -> unwrap (cdf d (Fin x)) = Fin (erfc (c0 / 2 / (x - m))).
Proof. intros H; apply lv_in in H. unfold cdf; cbn [pr mu c new_unchecked unwrap]. xs. apply He. Qed.
(** the code's cdf has twice the right slope at mu + c/2 *)
Lemma lv_refuted {SP : Special xreal} (He : forall t, sf_erfc (Fin t) = Fin (erfc t)) : ~ is_pdf lo hi (fun x => unwrap (cdf d x)) (pdf d).
Proof.
  intros [_ H _]. set (x := m + c0 / 2). assert (Ix : inside lo hi x) by (unfold x; split; cbn; [lra|exact I]).
  specialize (H x Ix). unfold rf at 2 in H. rewrite lv_pdf in H by auto. cbn [val] in H.
  assert (P := PI_RGT_0). assert (S2 := sqrt2_pos). assert (SP' := sqrtPI_pos). assert (Hx := lv_in x Ix).
  assert (D1 : is_derive (fun x => sqrt 2 * (c0 / 2 / (x - m))) x (sqrt 2 * (- (c0 / 2) / (x - m) ^ 2))) by (dder; try lra; field; lra).
  assert (D2 := is_derive_comp Phi _ x _ _ (Phi_derive _) D1).
  assert (D3 := dR_mult (fun _ => 2) _ x _ _ (dR_c 2 x) (dR_minus (fun _ => 1) _ x _ _ (dR_c 1 x) D2)).
  assert (D4 : is_derive (rf (fun x => unwrap (cdf d x))) x (0 * (1 - Phi (sqrt 2 * (c0 / 2 / (x - m)))) + 2 * (0 - scal (sqrt 2 * (- (c0 / 2) / (x - m) ^ 2)) (phi (sqrt 2 * (c0 / 2 / (x - m))))))).
  { apply (is_derive_ext_loc (fun x => 2 * (1 - Phi (sqrt 2 * (c0 / 2 / (x - m)))))); [|exact D3].
    generalize (locally_inside lo hi x Ix). apply filter_imp. intros y Hy. unfold rf. rewrite lv_cdf by auto. reflexivity. }
  apply is_derive_unique in H. apply is_derive_unique in D4. rewrite H in D4.
  set (a := sqrt 2 * (- (c0 / 2) / (x - m) ^ 2)) in *.
  change (scal a (phi (sqrt 2 * (c0 / 2 / (x - m))))) with (a * phi (sqrt 2 * (c0 / 2 / (x - m)))) in D4. unfold a in D4.
  unfold lvg in D4. rewrite Rpower_32 in D4 by auto. replace (x - m) with (c0 / 2) in D4 by (unfold x; ring).
  replace (c0 / 2 / (c0 / 2)) with 1 in D4 by (field; lra). unfold phi in D4. rewrite Rmult_1_r, sqrt2_sq in D4.
  replace (- (2 / 2)) with (-1) in D4 by field. replace (- (c0 / 2) / (c0 / 2)) with (-1) in D4 by (field; lra).
  rewrite sqrt_2PI, sqrt_div_alt in D4 by auto.
  assert (A : 0 < sqrt (c0 / 2)) by (apply sqrt_lt_R0; lra). assert (E := exp_pos (-1)).
  match type of D4 with @eq _ ?l ?r => assert (L : l = 2 * exp (-1) / (c0 * sqrt PI)) by (match goal with |- @eq _ ?a ?b => change (@eq R a b) end; field; repeat split; lra);
    assert (R0 : r = 4 * exp (-1) / (c0 * sqrt PI)) by (match goal with |- @eq _ ?a ?b => change (@eq R a b) end; field; repeat split; lra) end.
  rewrite L, R0 in D4. assert (U : 0 < exp (-1) / (c0 * sqrt PI)) by pos. unfold Rdiv in *. lra.
Qed.
Lemma lv_mode : m = 0 -> exists l, modes d = Ret l /\ l <> [] /\ all_return l (is_mode lo hi (pdf d)).
Proof.
  intros E. assert (P := PI_RGT_0). unfold modes; cbn [pr mu c new_unchecked]. assert (Em : fabs (Fin m) = Fin 0) by (rewrite x_abs; f_equal; rewrite E; apply Rabs_R0). rewrite Em. clear Em. xs. rewrite Rltb_true by lra.
  eexists; split; [reflexivity|]. split; [discriminate|]. intros x [<-|[]]. xs. eexists; split; [reflexivity|].
  assert (I3 : inside lo hi (c0 / 3)) by (split; cbn; [lra|exact I]).
  eexists; split; [now apply lv_pdf|]. intros x Hx. eexists; split; [now apply lv_pdf|]. apply lv_in in Hx. apply lv_in in I3.
  unfold lvg. rewrite E in *. rewrite !Rminus_0_r in *. clear I3.
  assert (Q : forall A B C, A * B / C = A * (B * / C)) by (intros; unfold Rdiv; ring). rewrite !Q. apply Rmult_le_compat_l; [apply sqrt_pos|].
  assert (K : forall y, 0 < y -> exp (- (c0 / 2) / y) * / Rpower y (3 / 2) = / Rpower (c0 / 2) (3 / 2) * (Rpower (c0 / 2 / y) (3 / 2) * exp (- (c0 / 2 / y)))).
  { intros y Hy. replace (c0 / 2 / y) with (c0 / 2 * / y) by reflexivity.
    rewrite <- Rpower_mult_distr by (try lra; now apply Rinv_0_lt_compat). replace (- (c0 / 2) / y) with (- (c0 / 2 * / y)) by (field; lra).
    replace (Rpower (/ y) (3 / 2)) with (/ Rpower y (3 / 2)); [field; split; apply Rgt_not_eq, exp_pos|].
    unfold Rpower. rewrite ln_Rinv by auto. rewrite <- exp_Ropp. f_equal. ring. }
  rewrite !K by lra. apply Rmult_le_compat_l; [apply Rlt_le, Rinv_0_lt_compat, exp_pos|].
  replace (c0 / 2 / (c0 / 3)) with (3 / 2) by (field; lra). apply gamma_max; [lra|pos].
Qed.
End Levy.
