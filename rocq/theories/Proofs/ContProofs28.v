(** * Moments and entropy of GEV and Gumbel *)
From Coq Require Import Reals Lra Lia Psatz List ZArith.
From Coquelicot Require Import Coquelicot.
From Verif.Num Require Import XReal.
From Verif.Model Require Import Rust Constraints Probability Params Consts Continuous.
From Verif.Spec Require Import DistSpec GammaSpec ResSpec.
From Verif.Proofs Require Import XTac Calc Calc2 Improper GammaFun Subst Mellin HeavyTail ExpPush ContProofs2 ContProofs3 ContProofs4 ContProofs11 ContProofs13 ContProofs27.
Import ListNotations.
Open Scope R_scope.

Section NoMomentsLo.
Context (lo : R) (u : R -> R) (pdf : xreal -> xreal) (X0 C q : R).
Context (Hp : forall x, inside lo p_infty x -> pdf (Fin x) = Fin (u x)).
Context (Hc : forall x, inside lo p_infty x -> continuous u x) (HI : lo < X0) (HX : 0 < X0) (HC : 0 < C).
Context (Hu : forall x, X0 <= x -> C * Rpower x (- q - 1) <= u x).
Lemma lo_no_central n m l : q <= INR n -> ~ is_expectation lo p_infty pdf (fun x => (x - m) ^ n) l.
Proof.
  intros Hq H. apply (heavy_tail_lo lo u X0 C q m l n ltac:(split; [exact HI|exact I]) Hc HX HC Hu Hq). revert H. unfold is_expectation.
  apply (is_RInt_gen_inside lo p_infty); [exact I|]. intros x Hx. unfold rf. now rewrite Hp.
Qed.
Lemma lo_no_mean m : q <= 1 -> ~ is_mean lo p_infty pdf m.
Proof.
  intros Hq H. apply (lo_no_central 1 0 m Hq). revert H. unfold is_mean, is_expectation.
  apply (is_RInt_gen_inside lo p_infty); [exact I|]. intros x Hx. cbn [pow]. ring.
Qed.
Lemma lo_no_variance m v : q <= 2 -> ~ is_variance lo p_infty pdf m v.
Proof.
  intros Hq [_ H]. apply (lo_no_central 2 m v ltac:(cbn; lra)). revert H. unfold is_expectation.
  apply (is_RInt_gen_inside lo p_infty); [exact I|]. intros x Hx. cbn [pow]. ring.
Qed.
Lemma lo_no_skewness k : q <= 3 -> ~ is_skewness lo p_infty pdf k.
Proof. intros Hq (m & v & _ & _ & H). now apply (lo_no_central 3 m _ ltac:(cbn; lra)) in H. Qed.
Lemma lo_no_kurtosis k : q <= 4 -> ~ is_kurtosis lo p_infty pdf k.
Proof. intros Hq (m & v & _ & _ & H). now apply (lo_no_central 4 m _ ltac:(cbn; lra)) in H. Qed.
End NoMomentsLo.

Section GEV.
Import GEV.
Context {SP : Special xreal} (m g z : R) (Hg : 0 < g) (Hz : / 10000000 <= z).
Notation d := (new_unchecked (Fin m) (Fin g) (Fin z)).
Notation W x := (1 + z * ((x - m) / g)).
Notation T x := (Rpower (W x) (- 1 / z)).
Notation u x := (Rpower (T x) (z + 1) * exp (- T x) / g).
Notation lo := (m - g / z).
Let Hz0 : 0 < z. Proof. lra. Qed.
Lemma gev_pdf' x : inside lo p_infty x -> pdf d (Fin x) = Fin (u x). Proof. intros Hx. now apply gev_pdf, (gev_W m g z). Qed.
Lemma gev_u_cont x : inside lo p_infty x -> continuous (fun x => u x) x.
Proof. intros Hx. apply gev_W in Hx; auto. assert (0 < T x) by pos. eapply ex_derive_cont. dder; try lra; auto; reflexivity. Qed.
Lemma gev_u_pos x : inside lo p_infty x -> 0 < u x. Proof. intros Hx. pos. Qed.
Lemma gev_uW x : 0 < W x -> u x = Rpower (W x) (- 1 / z - 1) / g * exp (- T x).
Proof. intros H. rewrite Rpower_mult. replace (- 1 / z * (z + 1)) with (- 1 / z - 1) by (field; lra). field. lra. Qed.
Lemma gev_push phi v : (forall t, inside 0 p_infty t -> continuous phi t) -> is_RInt_gen (fun t => phi t * exp (- t)) (above 0) (below p_infty) v ->
  is_expectation lo p_infty (pdf d) (fun x => phi (T x)) v.
Proof.
  intros Hphi Hv. apply (push_down lo p_infty 0 p_infty (pdf d) (fun x => T x) (fun x => - (Rpower (W x) (- 1 / z - 1) / g)) (gev_Q m g z) (fun t => exp (- t))); auto; try exact I.
  - intros x Hx. apply in0. pos.
  - intros y Hy%in0f. split; [now apply gev_Q_in|]. now apply gev_Q_T.
  - intros x Hx. apply gev_W in Hx; auto. split; [dder; try lra; auto; field; lra|]. eapply ex_derive_cont. dder; try lra; auto; reflexivity.
  - intros t _. apply ei_cont.
  - intros x Hx. assert (0 < Rpower (W x) (- 1 / z - 1) / g) by pos. lra.
  - intros x Hx. rewrite gev_pdf' by auto. f_equal. rewrite gev_uW by (apply gev_W; auto). ring.
Qed.
Notation h := (- z).
Notation G n := (epM h n).
Lemma gev_ab n : INR n * z < 1 -> is_expectation lo p_infty (pdf d) (fun x => ((x - lo) / (g / z)) ^ n) (G n).
Proof.
  intros Hn. eapply exp_in; [exact I| |apply (gev_push (fun t => Rpower t (INR n * h))); [intros t Ht%in0f; now apply cR_pow|apply ei_pow; lra]].
  intros x Hx. apply gev_W in Hx; auto. cbn beta. rewrite Rpower_mult. replace ((x - lo) / (g / z)) with (W x) by (field; lra).
  rewrite <- Rpower_pow by auto. f_equal. field. lra.
Qed.
Ltac gab := lazymatch goal with |- is_expectation _ _ _ _ _ => apply gev_ab; cbn [INR]; lra | |- epM _ 0%nat = _ => apply epM_0 | |- g / z <> 0 => apply Rgt_not_eq, Rlt_gt; pos | |- _ => idtac end.
Notation MU := (m + g * (G 1%nat - 1) / z).
Notation D := (G 2%nat - G 1%nat * G 1%nat).
Notation V := (g * g * D / z / z).
Lemma gev_mean : z < 1 -> is_mean lo p_infty (pdf d) MU.
Proof. intros H. apply (mean_about lo p_infty _ lo (g / z) (epM h)); gab. field. lra. Qed.
Lemma gev_variance : z < 1 / 2 -> is_variance lo p_infty (pdf d) MU V.
Proof. intros H. apply (variance_about lo p_infty _ lo (g / z) (epM h)); gab; field; lra. Qed.
Lemma gev_V : z < 1 / 2 -> 0 < V.
Proof. intros H. apply (variance_pos lo p_infty (pdf d) (fun x => u x) MU); [exact I|exact gev_u_cont|exact gev_u_pos|exact gev_pdf'|now apply gev_variance]. Qed.
Lemma gev_D : z < 1 / 2 -> 0 < D.
Proof. intros H. assert (HV := gev_V H). assert (0 < g * g / z / z) by pos. apply Rmult_lt_reg_l with (g * g / z / z); [auto|]. rewrite Rmult_0_r. replace (g * g / z / z * D) with V by (field; lra). auto. Qed.
Lemma gev_sqV : z < 1 / 2 -> sqrt V = g / z * sqrt D.
Proof.
  intros H. assert (HD := gev_D H). replace V with ((g / z) * (g / z) * D) by (field; lra). rewrite sqrt_mult by (try pos; left; pos). rewrite sqrt_square by (left; pos). reflexivity.
Qed.
Notation SK := (1 * (G 3%nat - 3 * G 2%nat * G 1%nat + 2 * G 1%nat ^ 3) / (D * sqrt D)).
Lemma gev_skewness : z < 1 / 3 -> is_skewness lo p_infty (pdf d) SK.
Proof.
  intros H. assert (HV := gev_V ltac:(lra)). assert (HD := gev_D ltac:(lra)). assert (HS : 0 < sqrt D) by (apply sqrt_lt_R0; exact HD).
  apply (skewness_about lo p_infty _ lo (g / z) (epM h) ltac:(apply Rgt_not_eq, Rlt_gt; pos)) with (v := V); gab; [field; lra|auto|].
  rewrite gev_sqV by lra. field. repeat split; lra.
Qed.
Notation KU := ((G 4%nat - 4 * G 3%nat * G 1%nat - 3 * G 2%nat * G 2%nat + 12 * G 2%nat * G 1%nat * G 1%nat - 6 * G 1%nat ^ 4) / D ^ 2).
Lemma gev_kurtosis : z < 1 / 4 -> is_kurtosis lo p_infty (pdf d) (KU + 3).
Proof.
  intros H. assert (HV := gev_V ltac:(lra)). assert (HD := gev_D ltac:(lra)).
  apply (kurtosis_about lo p_infty _ lo (g / z) (epM h) ltac:(apply Rgt_not_eq, Rlt_gt; pos)) with (v := V); gab; [field; lra|auto|]. field. lra.
Qed.
Lemma gev_entropy : is_entropy lo p_infty (pdf d) (ln g + - psi 1 * z + - psi 1 + 1).
Proof.
  apply (entropy_exp _ _ _ (fun x => u x)); [exact I|exact gev_pdf'|].
  assert (A : is_expectation lo p_infty (pdf d) (fun x => - (z + 1) * ln (T x) + (ln g * 1 + T x)) (- (z + 1) * psi 1 + (ln g * 1 + 1))).
  { apply exp_plus_; [apply exp_scal|apply exp_plus_; [apply exp_scal|]].
    - apply (gev_push ln); [intros t Ht%in0f; now apply (ln_cont p_infty), in0|apply ei_ln].
    - apply (gev_push (fun _ => 1)); [intros; apply continuous_const|apply ei_1].
    - apply (gev_push (fun t => t)); [intros; apply continuous_id|apply ei_t]. }
  eapply exp_eq; [eapply exp_in; [exact I| |exact A]|].
  - intros x Hx. cbn beta. unfold Rdiv at 1. rewrite ln_mult, ln_mult, ln_exp, ln_Rinv by pos. rewrite (ln_Rpower (T x)). ring.
  - ring.
Qed.
(** a power tail of exponent 1/z *)
Notation X0 := (1 + Rabs m).
Notation K := (1 + 2 * z / g).
Lemma gev_tail x : X0 <= x -> Rpower K (- 1 / z - 1) / g * exp (- (1)) * Rpower x (- (1 / z) - 1) <= u x.
Proof.
  intros Hx. assert (B := Rle_abs m). assert (B' := Rle_abs (- m)). rewrite Rabs_Ropp in B'. assert (B0 := Rabs_pos m).
  assert (HW1 : 1 <= W x). { assert (0 <= z * ((x - m) / g)) by (apply Rmult_le_pos; [lra|apply Rdiv_le_0_compat; lra]). lra. }
  assert (HW2 : W x <= K * x).
  { assert (z * ((x - m) / g) <= 2 * z / g * x).
    { replace (z * ((x - m) / g)) with (z / g * (x - m)) by (field; lra). replace (2 * z / g * x) with (z / g * (2 * x)) by (field; lra). apply Rmult_le_compat_l; [left; pos|lra]. }
    lra. }
  assert (Hx0 : 0 < x) by lra. assert (HK : 0 < K) by pos.
  rewrite gev_uW by lra. replace (- (1 / z) - 1) with (- 1 / z - 1) by (field; lra).
  assert (E : Rpower K (- 1 / z - 1) * Rpower x (- 1 / z - 1) <= Rpower (W x) (- 1 / z - 1)).
  { rewrite Rpower_mult_distr by auto. replace (- 1 / z - 1) with (- (1 / z + 1)) by (field; lra). rewrite !Rpower_Ropp. apply Rinv_le_contravar; [pos|].
    apply Rpower_le_mono; [lra|auto|]. left. assert (0 < 1 / z) by pos. lra. }
  assert (T x <= 1). { replace (- 1 / z) with (- (1 / z)) by (field; lra). rewrite Rpower_Ropp. apply Rinv_le1, Rpower_ge1; [auto|left; pos]. }
  assert (exp (- (1)) <= exp (- T x)) by (apply exp_le_mono; lra).
  replace (Rpower K (- 1 / z - 1) / g * exp (- (1)) * Rpower x (- 1 / z - 1)) with (Rpower K (- 1 / z - 1) * Rpower x (- 1 / z - 1) / g * exp (- (1))) by (field; lra).
  apply Rmult_le_compat; auto; [left; pos|left; pos|]. apply Rmult_le_compat_r; [left; pos|auto].
Qed.
Let HX : lo < X0. Proof. assert (0 < g / z) by pos. assert (B := Rle_abs m). lra. Qed.
Let HX' : 0 < X0. Proof. assert (B := Rabs_pos m). lra. Qed.
Let HC : 0 < Rpower K (- 1 / z - 1) / g * exp (- (1)). Proof. pos. Qed.
Lemma inv_le (n : nat) : (0 < n)%nat -> 1 <= z * INR n -> 1 / z <= INR n.
Proof. intros Hn H. apply Rmult_le_reg_l with z; [auto|]. replace (z * (1 / z)) with 1 by (field; lra). auto. Qed.
Lemma gev_no_mean v : 1 <= z -> ~ is_mean lo p_infty (pdf d) v.
Proof. intros H. apply (lo_no_mean lo (fun x => u x) (pdf d) X0 _ (1 / z) gev_pdf' gev_u_cont HX HX' HC gev_tail). apply (inv_le 1); [lia|cbn; lra]. Qed.
Lemma gev_no_variance v w : 1 / 2 <= z -> ~ is_variance lo p_infty (pdf d) v w.
Proof. intros H. apply (lo_no_variance lo (fun x => u x) (pdf d) X0 _ (1 / z) gev_pdf' gev_u_cont HX HX' HC gev_tail). replace 2 with (INR 2) by (cbn; lra). apply (inv_le 2); [lia|cbn; lra]. Qed.
Lemma gev_no_skewness v : 1 / 3 <= z -> ~ is_skewness lo p_infty (pdf d) v.
Proof. intros H. apply (lo_no_skewness lo (fun x => u x) (pdf d) X0 _ (1 / z) gev_pdf' gev_u_cont HX HX' HC gev_tail). replace 3 with (INR 3) by (cbn; lra). apply (inv_le 3); [lia|cbn; lra]. Qed.
Lemma gev_no_kurtosis v : 1 / 4 <= z -> ~ is_kurtosis lo p_infty (pdf d) v.
Proof. intros H. apply (lo_no_kurtosis lo (fun x => u x) (pdf d) X0 _ (1 / z) gev_pdf' gev_u_cont HX HX' HC gev_tail). replace 4 with (INR 4) by (cbn; lra). apply (inv_le 4); [lia|cbn; lra]. Qed.
Context (Hs : gamma_exact SP).
Lemma gev_g n : INR n * z < 1 -> g_func d (Fin (INR n)) = Fin (G n).
Proof. intros H. unfold g_func. cbn [pr zeta new_unchecked]. xs. rewrite sfg; [|auto|lra]. unfold epM. do 2 f_equal. ring. Qed.
Lemma gev_g1 : z < 1 -> g_func d (f_of_Z 1) = Fin (G 1%nat). Proof. intros. rewrite <- gev_g by (cbn [INR]; lra). rewrite x_lit. try reflexivity; f_equal; apply f_equal; cbn [INR]; lra. Qed.
Lemma gev_g2 : z < 1 / 2 -> g_func d (f_of_Z 2) = Fin (G 2%nat). Proof. intros. rewrite <- gev_g by (cbn [INR]; lra). rewrite x_lit. try reflexivity; f_equal; apply f_equal; cbn [INR]; lra. Qed.
Lemma gev_g3 : z < 1 / 3 -> g_func d (f_of_Z 3) = Fin (G 3%nat). Proof. intros. rewrite <- gev_g by (cbn [INR]; lra). rewrite x_lit. try reflexivity; f_equal; apply f_equal; cbn [INR]; lra. Qed.
Lemma gev_g4 : z < 1 / 4 -> g_func d (f_of_Z 4) = Fin (G 4%nat). Proof. intros. rewrite <- gev_g by (cbn [INR]; lra). rewrite x_lit. try reflexivity; f_equal; apply f_equal; cbn [INR]; lra. Qed.
Ltac gg H := unfold TOL, ONE_THIRD; cbn [pr new_unchecked]; xs; first [rewrite (Rleb_false _ z) by lra | rewrite (Rleb_true _ z) by lra; reflexivity];
  rewrite (Rabs_pos_eq z) by lra; rewrite (Rltb_false z) by lra; cbv zeta iota.
Lemma gev_mean_val : z < 1 -> mean d = Fin MU.
Proof. intros H. unfold mean. gg H. rewrite <- (x_lit 1), gev_g1 by auto. now xs. Qed.
Lemma gev_var_val : z < 1 / 2 -> variance d = Fin V.
Proof. intros H. unfold variance. gg H. rewrite <- (x_lit 1), <- (x_lit 2), gev_g1, gev_g2 by lra. now xs. Qed.
Lemma gev_mean_inf : 1 <= z -> mean d = PInf. Proof. intros H. unfold mean. gg H. Qed.
Lemma gev_var_inf : 1 / 2 <= z -> variance d = PInf. Proof. intros H. unfold variance. gg H. Qed.
Lemma gev_sk_inf : 1 / 3 <= z -> skewness d = PInf. Proof. intros H. unfold skewness. gg H. Qed.
Lemma gev_ek_inf : 1 / 4 <= z -> excess_kurtosis d = PInf. Proof. intros H. unfold excess_kurtosis. gg H. Qed.
Lemma gev_ent_val : digamma_exact SP -> shannon_entropy d = Fin (ln g + - psi 1 * z + - psi 1 + 1).
Proof. intros Hd. unfold shannon_entropy. cbn [pr sigma zeta new_unchecked]. xs. rewrite sfpsi by (auto; lra). now xs. Qed.
Lemma sgn_pos x : 0 < x -> fsignum (Fin x) = Fin 1.
Proof. intros H. cbn. destruct (Rle_dec 0 x); [reflexivity|lra]. Qed.
Lemma powi3 x : fpowi (Fin x) 3 = Fin (x ^ 3). Proof. change 3%Z with (Z.of_nat 3). apply x_powi_nat. Qed.
Lemma powi4 x : fpowi (Fin x) 4 = Fin (x ^ 4). Proof. change 4%Z with (Z.of_nat 4). apply x_powi_nat. Qed.
Lemma gev_sk_val : z < 1 / 3 -> skewness d = Fin SK.
Proof.
  intros H. unfold skewness. gg H. rewrite <- (x_lit 1), <- (x_lit 2), <- (x_lit 3), gev_g1, gev_g2, gev_g3 by lra.
  assert (HD := gev_D ltac:(lra)). assert (HS : 0 < sqrt D) by (apply sqrt_lt_R0; exact HD).
  rewrite sgn_pos by auto. rewrite powi3. xs. rewrite pow32 by auto. reflexivity.
Qed.
Lemma gev_ek_val : z < 1 / 4 -> excess_kurtosis d = Fin KU.
Proof.
  intros H. unfold excess_kurtosis. gg H. rewrite <- (x_lit 1), <- (x_lit 2), <- (x_lit 3), <- (x_lit 4), gev_g1, gev_g2, gev_g3, gev_g4 by lra.
  assert (HD := gev_D ltac:(lra)). rewrite powi4. xs. f_equal. field. lra.
Qed.
End GEV.

Section Gumbel.
Import Gumbel.
Context {SP : Special xreal} (m g : R) (Hg : 0 < g).
Notation d := (new_unchecked (Fin m) (Fin g)).
Notation Z x := ((x - m) / g).
Notation T x := (exp (- Z x)).
Notation u x := (exp (- Z x - T x) / g).
Lemma inR x : inside m_infty p_infty x. Proof. split; exact I. Qed.
Lemma gu_push phi v : (forall t, inside 0 p_infty t -> continuous phi t) -> is_RInt_gen (fun t => phi t * exp (- t)) (above 0) (below p_infty) v ->
  is_expectation m_infty p_infty (pdf d) (fun x => phi (T x)) v.
Proof.
  intros Hphi Hv. apply (push_down m_infty p_infty 0 p_infty (pdf d) (fun x => T x) (fun x => - (T x / g)) (fun t => m - g * ln t) (fun t => exp (- t))); auto; try exact I.
  - intros x _. apply in0. pos.
  - intros y Hy%in0f. split; [apply inR|]. replace (- ((m - g * ln y - m) / g)) with (ln y) by (field; lra). now apply exp_ln.
  - intros x _. split; [dder; try lra; field; lra|]. eapply ex_derive_cont. dder; try lra; reflexivity.
  - intros t _. apply ei_cont.
  - intros x _. assert (0 < T x / g) by pos. lra.
  - intros x _. rewrite g_pdf by auto. f_equal. unfold Rminus at 1. rewrite exp_plus. field. lra.
Qed.
Lemma gu_mean : is_mean m_infty p_infty (pdf d) (m + g * - psi 1).
Proof.
  unfold is_mean.
  assert (A : is_expectation m_infty p_infty (pdf d) (fun x => m * 1 + - g * ln (T x)) (m * 1 + - g * psi 1)).
  { apply exp_plus_; apply exp_scal.
    - apply (gu_push (fun _ => 1)); [intros; apply continuous_const|apply ei_1].
    - apply (gu_push ln); [intros t Ht%in0f; now apply (ln_cont p_infty), in0|apply ei_ln]. }
  eapply exp_eq; [eapply exp_ext; [|exact A]|ring]. intros x. cbn beta. rewrite ln_exp. field. lra.
Qed.
Lemma gu_entropy : is_entropy m_infty p_infty (pdf d) (ln g + - psi 1 + 1).
Proof.
  apply (entropy_exp _ _ _ (fun x => u x)); [exact I|intros; now apply g_pdf|].
  assert (A : is_expectation m_infty p_infty (pdf d) (fun x => - (1) * ln (T x) + (ln g * 1 + T x)) (- (1) * psi 1 + (ln g * 1 + 1))).
  { apply exp_plus_; [apply exp_scal|apply exp_plus_; [apply exp_scal|]].
    - apply (gu_push ln); [intros t Ht%in0f; now apply (ln_cont p_infty), in0|apply ei_ln].
    - apply (gu_push (fun _ => 1)); [intros; apply continuous_const|apply ei_1].
    - apply (gu_push (fun t => t)); [intros; apply continuous_id|apply ei_t]. }
  eapply exp_eq; [eapply exp_ext; [|exact A]|ring].
  intros x. cbn beta. unfold Rdiv at 1. rewrite ln_mult, !ln_exp, ln_Rinv by pos. ring.
Qed.
Lemma gu_mean_val : digamma_exact SP -> mean d = Fin (m + g * - psi 1).
Proof. intros Hd. unfold mean. cbn [pr mu beta new_unchecked]. xs. rewrite sfpsi by (auto; lra). now xs. Qed.
Lemma gu_ent_val : digamma_exact SP -> shannon_entropy d = Fin (ln g + - psi 1 + 1).
Proof. intros Hd. unfold shannon_entropy. cbn [pr mu beta new_unchecked]. xs. rewrite sfpsi by (auto; lra). now xs. Qed.
End Gumbel.
