(** * Frechet, GEV, GPD, Kumaraswamy, Pareto, Weibull *)
From Coq Require Import Reals Lra Lia Psatz.
From Flocq Require Core.Raux.
From Coquelicot Require Import Coquelicot.
From Verif.Num Require Import XReal.
From Verif.Model Require Import Rust Constraints Probability Params Consts Continuous.
From Verif.Spec Require Import DistSpec.
From Verif.Proofs Require Import XTac Calc.
Open Scope R_scope.

Lemma ln_lt0 p : 0 < p < 1 -> 0 < - ln p.
Proof. intros. generalize (ln_neg p H). lra. Qed.

Section Frechet.
Import Frechet.
Context (a : R) (Ha : 0 < a).
Notation d := (new_unchecked (Fin a)).
Lemma f_cdf x : 0 < x -> unwrap (cdf d (Fin x)) = Fin (exp (- Rpower x (- a))).
Proof. intros. unfold cdf, al; cbn [unwrap pr alpha new_unchecked]. now xs. Qed.
Lemma f_pdf x : 0 < x -> pdf d (Fin x) = Fin (a * Rpower x (- 1 - a) * exp (- Rpower x (- a))).
Proof. intros. unfold pdf. rewrite f_cdf by auto. unfold al; cbn [unwrap pr alpha new_unchecked]. now xs. Qed.
Lemma f_coherent : coherent 0 p_infty (fun x => unwrap (cdf d x)) (pdf d).
Proof.
  apply (coherent_inverse _ _ _ _ (fun x => exp (- Rpower x (- a))) (fun x => a * Rpower x (- 1 - a) * exp (- Rpower x (- a)))
    (fun p => Rpower (- ln p) (- (1 / a)))).
  - exact I. - intros x [H _]; now apply f_cdf. - intros x [H _]; now apply f_pdf.
  - intros x [Hx _]; cbn in Hx.
    dder; [auto|]. replace (- 1 - a) with (- a - 1) by ring. ring.
  - intros x [Hx _]; cbn in Hx. unfold Rpower. cont_auto; auto.
  - intros x _. pos.
  - intros x _. split; [pos|]. apply exp_le1. assert (0 < Rpower x (- a)) by pos. lra.
  - intros p Hp. generalize (ln_lt0 p Hp); intros. split; [split; cbn; [pos|auto]|].
    rewrite Rpower_mult. replace (- (1 / a) * - a) with 1 by (field; lra). rewrite Rpower_1, Ropp_involutive, exp_ln; lra.
Qed.
Lemma f_median : median d = Fin (Rpower (ln 2) (- (1 / a))).
Proof.
  unfold median, al; cbn [unwrap pr alpha new_unchecked]. assert (0 < ln 2) by apply ln2_pos. xs.
  rewrite Rpower_Ropp. f_equal. field. apply Rgt_not_eq, Rpower_pos.
Qed.
Lemma f_median_cdf : unwrap (cdf d (Fin (Rpower (ln 2) (- (1 / a))))) = Fin (1 / 2).
Proof.
  rewrite f_cdf by pos. rewrite Rpower_mult. replace (- (1 / a) * - a) with 1 by (field; lra).
  rewrite Rpower_1 by apply ln2_pos. now rewrite ln_inv_half.
Qed.
Lemma f_mode : modes d = [Fin (Rpower (a / (1 + a)) (1 / a))] /\ is_mode 0 p_infty (pdf d) (Rpower (a / (1 + a)) (1 / a)).
Proof.
  split. { unfold modes, al; cbn [unwrap pr alpha new_unchecked]. now xs. }
  assert (E : forall x, 0 < x -> a * Rpower x (-1 - a) * exp (- Rpower x (- a))
     = a * (Rpower (Rpower x (- a)) ((1 + a) / a) * exp (- Rpower x (- a)))).
  { intros x Hx. rewrite Rpower_mult. replace (- a * ((1 + a) / a)) with (-1 - a) by (field; lra). ring. }
  eexists. split; [apply f_pdf; pos|]. intros x [Hx _]; cbn in Hx. eexists; split; [now apply f_pdf|].
  rewrite !E by (auto; pos). apply Rmult_le_compat_l; [lra|].
  rewrite (Rpower_mult (a / (1 + a))). replace (1 / a * - a) with (- (1)) by (field; lra).
  rewrite (Rpower_Ropp _ 1), Rpower_1 by pos. replace (/ (a / (1 + a))) with ((1 + a) / a) by (field; lra).
  apply gamma_max; pos.
Qed.
Lemma f_sample_wrong : ~ samples_from 0 p_infty (fun x => unwrap (cdf d x)) (sample_of_draw d).
Proof.
  intros [_ H]. assert (H1 : inside 0 p_infty 1) by (split; cbn; auto; lra). specialize (H 1 H1).
  assert (Hl : - ln (1 / 2) = ln 2) by (unfold Rdiv; rewrite Rmult_1_l, ln_Rinv; lra).
  assert (E : rf (sample_of_draw d) (1 / 2) = Rpower (ln 2) (1 / a)).
  { unfold rf, sample_of_draw, al; cbn [pr alpha new_unchecked]. xs. rewrite Hl. assert (0 < ln 2) by apply ln2_pos. xs. reflexivity. }
  assert (C : rf (fun x => unwrap (cdf d x)) 1 = exp (- (1))).
  { unfold rf. rewrite f_cdf by lra. now rewrite Rpower_0_base. }
  assert (Hs : rf (sample_of_draw d) (1 / 2) <= 1).
  { rewrite E. apply Rpower_le1; [|left; pos]. split; [apply ln2_pos|left; apply ln2_lt1]. }
  assert (He : exp (- (1)) < 1 / 2).
  { rewrite exp_Ropp. assert (2 < exp 1) by (generalize (exp_ineq1 1 ltac:(lra)); lra).
    apply Rmult_lt_reg_r with (exp 1); [lra|]. rewrite Rinv_l; lra. }
  rewrite C in H. destruct H as [H|H]; destruct (H (1 / 2) ltac:(lra)) as [H2 _]; specialize (H2 Hs); lra.
Qed.
End Frechet.

Section GEV.
Import GEV.
Context (m g z : R) (Hg : 0 < g) (Hz : / 10000000 <= z).
Notation d := (new_unchecked (Fin m) (Fin g) (Fin z)).
Notation W x := (1 + z * ((x - m) / g)).
Notation T x := (Rpower (W x) (- 1 / z)).
Let Hz0 : 0 < z. Proof. lra. Qed.
Lemma gev_W x : inside (m - g / z) p_infty x -> 0 < W x.
Proof.
  intros [H _]; cbn in H. assert (0 < x - (m - g / z)) by lra.
  replace (W x) with (z / g * (x - (m - g / z))) by (field; lra). pos.
Qed.
Lemma gev_t x : 0 < W x -> t_func d (Fin x) = Fin (T x).
Proof.
  intros H. unfold t_func, TOL; cbn [pr new_unchecked]. xs. rewrite Rltb_false by lra. now xs.
Qed.
Lemma gev_cdf x : 0 < W x -> unwrap (cdf d (Fin x)) = Fin (exp (- T x)).
Proof. intros. unfold cdf; cbn [unwrap]. rewrite gev_t by auto. now xs. Qed.
Lemma gev_pdf x : 0 < W x -> pdf d (Fin x) = Fin (Rpower (T x) (z + 1) * exp (- T x) / g).
Proof. intros. unfold pdf; rewrite gev_t by auto. cbn [pr zeta sigma new_unchecked]. now xs. Qed.
Definition gev_Q t := m + g * (Rpower t (- z) - 1) / z.
Lemma gev_Q_W t : W (gev_Q t) = Rpower t (- z).
Proof. unfold gev_Q. field. lra. Qed.
Lemma gev_Q_T t : 0 < t -> T (gev_Q t) = t.
Proof. intros. rewrite gev_Q_W, Rpower_mult. replace (- z * (- 1 / z)) with 1 by (field; lra). now rewrite Rpower_1. Qed.
Lemma gev_Q_in t : 0 < t -> inside (m - g / z) p_infty (gev_Q t).
Proof.
  intros. split; cbn; [|auto]. unfold gev_Q. assert (0 < Rpower t (- z)) by pos.
  assert (0 < g / z * Rpower t (-z)) by pos. replace (g * (Rpower t (-z) - 1) / z) with (g / z * Rpower t (-z) - g / z) by (field; lra). lra.
Qed.
Lemma gev_derive x : 0 < W x -> is_derive (fun x => exp (- T x)) x (Rpower (T x) (z + 1) * exp (- T x) / g).
Proof.
  intros HW. dder; [exact HW|lra|]. rewrite Rpower_mult.
  replace (- 1 / z * (z + 1)) with (- 1 / z - 1) by (field; lra). field. lra.
Qed.
Lemma gev_coherent : coherent (m - g / z) p_infty (fun x => unwrap (cdf d x)) (pdf d).
Proof.
  apply (coherent_inverse _ _ _ _ (fun x => exp (- T x)) (fun x => Rpower (T x) (z + 1) * exp (- T x) / g)
    (fun p => gev_Q (- ln p))).
  - exact I. - intros x H; now apply gev_cdf, gev_W. - intros x H; now apply gev_pdf, gev_W.
  - intros x H; now apply gev_derive, gev_W.
  - intros x H. apply gev_W in H. unfold Rpower. cont_auto. unfold Rdiv, Rminus in H. auto using exp_pos.
  - intros x _. pos.
  - intros x _. split; [pos|]. apply exp_le1. assert (0 < T x) by pos. lra.
  - intros p Hp. generalize (ln_lt0 p Hp); intros. split; [now apply gev_Q_in|].
    rewrite gev_Q_T by auto. rewrite Ropp_involutive, exp_ln; lra.
Qed.
Lemma gev_median : median d = Fin (gev_Q (ln 2)).
Proof.
  unfold median, TOL; cbn [pr new_unchecked]. assert (0 < ln 2) by apply ln2_pos. xs.
  rewrite Rabs_pos_eq by lra. rewrite Rltb_false by lra. reflexivity.
Qed.
Lemma gev_median_cdf : unwrap (cdf d (Fin (gev_Q (ln 2)))) = Fin (1 / 2).
Proof.
  assert (0 < ln 2) by apply ln2_pos. rewrite gev_cdf by (apply gev_W, gev_Q_in; auto).
  rewrite gev_Q_T by auto. now rewrite ln_inv_half.
Qed.
Lemma gev_mode : modes d = [Fin (gev_Q (1 + z))] /\ is_mode (m - g / z) p_infty (pdf d) (gev_Q (1 + z)).
Proof.
  split. { unfold modes, TOL; cbn [pr new_unchecked]. xs. rewrite Rabs_pos_eq by lra. rewrite Rltb_false by lra. reflexivity. }
  eexists. split; [apply gev_pdf, gev_W, gev_Q_in; lra|]. intros x Hx. eexists; split; [now apply gev_pdf, gev_W|].
  rewrite gev_Q_T by lra. apply Rmult_le_compat_r; [left; pos|]. replace (1 + z) with (z + 1) by ring.
  apply gamma_max; [lra|pos].
Qed.
End GEV.

(** GEV: where it goes wrong *)
Lemma x_powf_neg1 a : a < 0 -> fpowf (Fin a) (Fin (- (1) / 1)) = Fin (/ a).
Proof.
  intros H. replace (- (1) / 1) with (-1) by lra. cbn. destruct (Req_EM_T (-1) 0); [lra|]. destruct (Rlt_dec 0 a); [lra|].
  destruct (Req_EM_T a 0); [lra|].
  assert (E : Raux.Zfloor (-1) = (-1)%Z) by exact (Raux.Zfloor_IZR (-1)).
  rewrite E. destruct (Req_EM_T (-1) (-1)); [|congruence]. cbn [powerRZ Pos.to_nat Pos.iter_op pow]. f_equal. change (Pos.to_nat 1) with 1%nat. now rewrite pow_1.
Qed.
Lemma gev_below : GEV.cdf (GEV.new_unchecked (Fin 0) (Fin 1) (Fin 1)) (Fin (-2)) = Prob (Fin (exp 1)).
Proof.
  unfold GEV.cdf, GEV.t_func, GEV.TOL; cbn [GEV.pr GEV.new_unchecked]. xs. rewrite Rltb_false by lra. xs.
  rewrite x_powf_neg1 by lra. xs. do 3 f_equal. field.
Qed.
Lemma gev_small m g z : 0 < g -> 0 < z < / 10000000 ->
  ~ is_derive (rf (fun x => unwrap (GEV.cdf (GEV.new_unchecked (Fin m) (Fin g) (Fin z)) x))) (m - g)
      (rf (GEV.pdf (GEV.new_unchecked (Fin m) (Fin g) (Fin z))) (m - g)).
Proof.
  intros Hg Hz H.
  assert (Ht : forall x, GEV.t_func (GEV.new_unchecked (Fin m) (Fin g) (Fin z)) (Fin x) = Fin (exp (- ((x - m) / g)))).
  { intros x. unfold GEV.t_func, GEV.TOL; cbn [GEV.pr GEV.new_unchecked]. xs. rewrite Rltb_true by lra. now xs. }
  assert (Hp : rf (GEV.pdf (GEV.new_unchecked (Fin m) (Fin g) (Fin z))) (m - g) = exp (z + 1) * exp (- exp 1) / g).
  { unfold rf, GEV.pdf. rewrite Ht. cbn [GEV.pr GEV.new_unchecked GEV.zeta GEV.sigma]. xs. cbn [val].
    replace (- ((m - g - m) / g)) with 1 by (field; lra). unfold Rpower. now rewrite ln_exp, Rmult_1_r. }
  rewrite Hp in H.
  assert (H2 : is_derive (fun x => exp (- exp (- ((x - m) / g)))) (m - g) (exp (z + 1) * exp (- exp 1) / g)).
  { eapply is_derive_ext; [|exact H]. intros x. unfold rf, GEV.cdf; cbn [unwrap]. rewrite Ht. now xs. }
  assert (H3 : is_derive (fun x => exp (- exp (- ((x - m) / g)))) (m - g) (exp 1 * exp (- exp 1) / g)).
  { dder; [lra|]. replace (- ((m - g - m) / g)) with 1 by (field; lra). field. lra. }
  assert (E := is_derive_unique _ _ _ H2). rewrite (is_derive_unique _ _ _ H3) in E.
  assert (exp 1 < exp (z + 1)) by (apply exp_increasing; lra). assert (0 < exp (- exp 1)) by pos.
  assert (exp 1 * exp (- exp 1) / g < exp (z + 1) * exp (- exp 1) / g); [|lra].
  unfold Rdiv. apply Rmult_lt_compat_r; [pos|]. apply Rmult_lt_compat_r; lra.
Qed.

Section GPD.
Import GPD.
Context (m g z : R) (Hg : 0 < g) (Hz : 0 < z).
Notation d := (new_unchecked (Fin m) (Fin g) (Fin z)).
Notation W x := (1 + z * ((x - m) / g)).
Notation SV x := (Rpower (W x) (- 1 / z)).
Lemma gpd_W x : m <= x -> 1 <= W x.
Proof. intros H. assert (0 <= (x - m) / g) by pos. nra. Qed.
Lemma gpd_cdf x : 0 < W x -> unwrap (cdf d (Fin x)) = Fin (1 - SV x).
Proof. intros. unfold cdf; cbn [unwrap pr new_unchecked]. now xs. Qed.
Lemma gpd_pdf x : 0 < W x -> pdf d (Fin x) = Fin (Rpower (W x) (- 1 / z - 1) / g).
Proof. intros. unfold pdf; cbn [unwrap pr new_unchecked]. now xs. Qed.
Lemma gpd_derive x : 0 < W x -> is_derive (fun x => SV x) x (- (Rpower (W x) (- 1 / z - 1) / g)).
Proof.
  intros HW. dder; [exact HW|lra|]. field. lra.
Qed.
Lemma gpd_coherent : coherent m p_infty (fun x => unwrap (cdf d x)) (pdf d).
Proof.
  apply (coherent_inverse _ _ _ _ (fun x => 1 - SV x) (fun x => Rpower (W x) (- 1 / z - 1) / g)
    (fun p => m + g * (Rpower (1 - p) (- z) - 1) / z)).
  - exact I.
  - intros x [H _]; cbn in H. apply gpd_cdf. generalize (gpd_W x ltac:(lra)); lra.
  - intros x [H _]; cbn in H. apply gpd_pdf. generalize (gpd_W x ltac:(lra)); lra.
  - intros x [H _]; cbn in H. assert (0 < W x) by (generalize (gpd_W x ltac:(lra)); lra).
    eapply is_derive_eq; [apply dR_minus; [apply dR_c|now apply gpd_derive]|]. ring.
  - intros x [H _]; cbn in H. assert (0 < W x) by (generalize (gpd_W x ltac:(lra)); lra).
    unfold Rpower. cont_auto. unfold Rdiv, Rminus in *. auto.
  - intros x _. pos.
  - intros x [H _]; cbn in H. assert (1 <= W x) by (generalize (gpd_W x ltac:(lra)); lra).
    assert (0 < SV x) by pos. assert (SV x <= 1); [|lra].
    replace (- 1 / z) with (- (1 / z)) by (field; lra). rewrite Rpower_Ropp.
    apply Rinv_le1, Rpower_ge1; [lra|left; pos].
  - intros p Hp. assert (1 < Rpower (1 - p) (- z)).
    { rewrite Rpower_Ropp. apply Rinv_gt1. split; [pos|]. apply Rpower_lt1; lra. }
    split.
    + split; cbn; [|auto]. assert (0 < g * (Rpower (1 - p) (- z) - 1) / z); [|lra]. apply Rdiv_lt_0_compat; [|lra]. apply Rmult_lt_0_compat; lra.
    + replace (W (m + g * (Rpower (1 - p) (- z) - 1) / z)) with (Rpower (1 - p) (- z)) by (field; lra).
      rewrite Rpower_mult. replace (- z * (- 1 / z)) with 1 by (field; lra). rewrite Rpower_1; lra.
Qed.
Lemma gpd_median : median d = Fin (m + g * (Rpower 2 z - 1) / z).
Proof. unfold median; cbn [pr new_unchecked]. now xs. Qed.
Lemma gpd_median_cdf : unwrap (cdf d (Fin (m + g * (Rpower 2 z - 1) / z))) = Fin (1 / 2).
Proof.
  assert (E : W (m + g * (Rpower 2 z - 1) / z) = Rpower 2 z) by (field; lra).
  rewrite gpd_cdf by (rewrite E; pos). rewrite E, Rpower_mult. replace (z * (- 1 / z)) with (- (1)) by (field; lra).
  rewrite Rpower_Ropp, Rpower_1 by lra. f_equal; lra.
Qed.
Lemma gpd_entropy : shannon_entropy d = Fin (ln g + z + 1) /\ is_entropy m p_infty (pdf d) (ln g + z + 1).
Proof.
  split. { unfold shannon_entropy; cbn [pr sigma zeta new_unchecked]. now xs. }
  assert (HW : forall x, inside m p_infty x -> 0 < W x) by (intros x [H _]; cbn in H; generalize (gpd_W x ltac:(lra)); lra).
  assert (HL : forall x, inside m p_infty x -> ln (Rpower (W x) (- 1 / z - 1) / g) = (- 1 / z - 1) * ln (W x) - ln g).
  { intros x Hx. unfold Rdiv at 1. rewrite ln_mult, ln_Rpower, ln_Rinv by pos. ring. }
  eapply (entropy_intro _ _ _ (fun x => Rpower (W x) (- 1 / z - 1) / g)
    (fun x => - (SV x * (ln g + (1 / z + 1) * (ln (W x) + z)))) (- (ln g + z + 1)) 0).
  - exact I. - intros x H; now apply gpd_pdf, HW.
  - intros x Hx. rewrite (HL x Hx). specialize (HW x Hx).
    eapply is_derive_eq; [apply dR_opp, dR_mult; [apply gpd_derive; auto|repeat dstep; auto; lra]|].
    cbv beta. rewrite Rpower_minus1 by auto. field. repeat split; try lra. destruct Hx as [Hx _]; cbn in Hx. assert (0 < z * (x - m)) by pos. lra.
  - intros x Hx. specialize (HW x Hx). unfold Rpower. cont_auto. unfold Rdiv, Rminus in *. repeat split; auto. apply Rmult_lt_0_compat; [apply exp_pos|now apply Rinv_0_lt_compat].
  - apply lim_above_cont.
    + assert (0 < W m) by (replace (W m) with 1 by (field; lra); lra). unfold Rpower. cont_auto. unfold Rdiv, Rminus in *. auto.
    + replace (W m) with 1 by (field; lra). rewrite Rpower_0_base, ln_1. field. lra.
  - assert (HS : filterlim (fun x => SV x) (below p_infty) (locally 0)).
    { destruct gpd_coherent as [[_ _ _ H] _].
      apply (filterlim_ext_below m p_infty _ (fun x => 1 - rf (fun x => unwrap (cdf d x)) x) 0 I).
      - intros x Hx. unfold rf. rewrite gpd_cdf by auto. cbn. ring.
      - eapply fl_eq; [flim|ring]. }
    assert (HX : filterlim (fun x => SV x * ln (SV x)) (below p_infty) (locally 0)).
    { apply lim_xlnx; [apply _| |exact HS]. exists m. intros; pos. }
    apply fl_ext with (fun x => - (SV x * (ln g + (1 + z)) - (1 / z + 1) * z * (SV x * ln (SV x)))).
    { intros x. rewrite ln_Rpower. field. lra. }
    eapply fl_eq; [flim|ring].
  - ring.
Qed.
Lemma gpd_W_inf : filterlim (fun x => W x) (below p_infty) (Rbar_locally p_infty).
Proof.
  intros P [M HM]. exists (m + g * (M - 1) / z). intros x Hx. apply HM.
  assert (0 < z / g * (x - (m + g * (M - 1) / z))) by pos.
  replace (z / g * (x - (m + g * (M - 1) / z))) with (W x - M) in H by (field; lra). lra.
Qed.
Lemma gpd_true_mean : z < 1 -> is_mean m p_infty (pdf d) (m + g / (1 - z)).
Proof.
  intros H1. assert (HW : forall x, inside m p_infty x -> 0 < W x) by (intros x [H _]; cbn in H; generalize (gpd_W x ltac:(lra)); lra).
  unfold is_mean.
  eapply (expectation_intro _ _ _ _ (fun x => Rpower (W x) (- 1 / z - 1) / g)
    (fun x => - ((m - g / z) * SV x + (g / z + g / (1 - z)) * Rpower (W x) (- (1 / z - 1)))) (- (m + g / (1 - z))) 0).
  - exact I. - intros x H; now apply gpd_pdf, HW.
  - intros x Hx. specialize (HW x Hx). dder; [auto|lra|auto|lra|].
    replace (- (1 / z - 1) - 1) with (- 1 / z) by (field; lra). rewrite Rpower_minus1 by auto. field. repeat split; try lra.
    destruct Hx as [Hx _]; cbn in Hx. assert (0 < z * (x - m)) by pos. lra.
  - intros x Hx. specialize (HW x Hx). unfold Rpower. cont_auto. unfold Rdiv, Rminus in *. auto.
  - apply lim_above_cont.
    + assert (0 < W m) by (replace (W m) with 1 by (field; lra); lra). unfold Rpower. cont_auto. unfold Rdiv, Rminus in *. auto.
    + replace (W m) with 1 by (field; lra). rewrite !Rpower_0_base. field. lra.
  - assert (L1 : filterlim (fun x => SV x) (below p_infty) (locally 0)).
    { eapply (fl_inf (fun y => Rpower y (- 1 / z)) _ p_infty); [|exact I|exact gpd_W_inf].
      replace (- 1 / z) with (- (1 / z)) by (field; lra). apply lim_Rpower_neg. pos. }
    assert (L2 : filterlim (fun x => Rpower (W x) (- (1 / z - 1))) (below p_infty) (locally 0)).
    { eapply (fl_inf (fun y => Rpower y (- (1 / z - 1))) _ p_infty); [|exact I|exact gpd_W_inf].
      apply lim_Rpower_neg. replace (1 / z - 1) with ((1 - z) / z) by (field; lra). pos. }
    eapply fl_eq; [flim|ring].
  - ring.
Qed.
Lemma gpd_mean_code : mean d = if Rleb z 1 then Panic else Ret (Fin (m + g / (1 - z))).
Proof.
  unfold mean; cbn [pr new_unchecked]. xs. unfold Rleb; destruct Rle_dec; [reflexivity|]. now xs.
Qed.
End GPD.
