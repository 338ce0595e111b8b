(** * Kumaraswamy, Pareto, Weibull *)
From Coq Require Import Reals Lra Lia Psatz.
From Coquelicot Require Import Coquelicot.
From Verif.Num Require Import XReal.
From Verif.Model Require Import Rust Constraints Probability Params Consts Continuous.
From Verif.Spec Require Import DistSpec.
From Verif.Proofs Require Import XTac Calc ContProofs3.
Open Scope R_scope.

Section Kumaraswamy.
Import Kumaraswamy.
Context (a b : R) (Ha : 0 < a) (Hb : 0 < b).
Notation d := (from (mkP (Fin a) (Fin b))).
Notation G x := (1 - Rpower (1 - Rpower x a) b).
Notation D x := (a * b * Rpower x (a - 1) * Rpower (1 - Rpower x a) (b - 1)).
Notation Q p := (Rpower (1 - Rpower (1 - p) (1 / b)) (1 / a)).
Lemma k_pow x : 0 < x < 1 -> 0 < Rpower x a < 1.
Proof. intros. split; [pos|]. now apply Rpower_lt1. Qed.
Lemma k_cdf x : 0 < x < 1 -> unwrap (cdf d (Fin x)) = Fin (G x).
Proof. intros H. generalize (k_pow x H); intros. unfold cdf; cbn [unwrap pr from]. now xs. Qed.
Lemma k_pdf x : 0 < x < 1 -> pdf d (Fin x) = Fin (D x).
Proof. intros H. generalize (k_pow x H); intros. unfold pdf; cbn [unwrap pr from]. now xs. Qed.
Lemma k_Q p : 0 < p < 1 -> 0 < Q p < 1.
Proof.
  intros Hp. assert (0 < Rpower (1 - p) (1 / b) < 1). { split; [pos|]. apply Rpower_lt1; [lra|pos]. }
  split; [pos|]. apply Rpower_lt1; [lra|pos].
Qed.
Lemma k_QG p : 0 < p < 1 -> G (Q p) = p.
Proof.
  intros Hp. assert (0 < Rpower (1 - p) (1 / b) < 1). { split; [pos|]. apply Rpower_lt1; [lra|pos]. }
  rewrite Rpower_self_inv by lra. replace (1 - (1 - Rpower (1 - p) (1 / b))) with (Rpower (1 - p) (1 / b)) by ring.
  rewrite Rpower_self_inv by lra. ring.
Qed.
Lemma k_coherent : coherent 0 1 (fun x => unwrap (cdf d x)) (pdf d).
Proof.
  apply (coherent_inverse _ _ _ _ (fun x => G x) (fun x => D x) (fun p => Q p)).
  - cbn; lra. - intros x H; now apply k_cdf. - intros x H; now apply k_pdf.
  - intros x H. generalize (k_pow x H); intros. cbn in H. dder; [lra| |]. apply H. ring.
  - intros x H. generalize (k_pow x H); intros Hp. cbn in H. unfold Rpower in *. cont_auto. repeat split; try apply H.
    unfold Rminus in *. lra.
  - intros x H. pos.
  - intros x H. generalize (k_pow x H); intros.
    assert (0 < Rpower (1 - Rpower x a) b) by pos. assert (Rpower (1 - Rpower x a) b <= 1); [|lra]. apply Rpower_le1; lra.
  - intros p Hp. split; [now apply k_Q|now apply k_QG].
Qed.
Lemma k_median : median d = Fin (Rpower (1 - Rpower 2 (- 1 / b)) (1 / a)) /\
  unwrap (cdf d (Fin (Rpower (1 - Rpower 2 (- 1 / b)) (1 / a)))) = Fin (1 / 2).
Proof.
  assert (E : Rpower 2 (- 1 / b) = Rpower (1 - 1 / 2) (1 / b)).
  { replace (1 - 1 / 2) with (/ 2) by lra. unfold Rpower. rewrite ln_Rinv by lra. f_equal. field. lra. }
  assert (H : 0 < Rpower (1 - 1 / 2) (1 / b) < 1). { split; [pos|]. apply Rpower_lt1; [lra|pos]. }
  split.
  - unfold median; cbn [pr from]. xs. replace (- (1) / b) with (- 1 / b) by (field; lra). rewrite E. xs. reflexivity.
  - rewrite E. rewrite k_cdf by (apply k_Q; lra). rewrite k_QG by lra. reflexivity.
Qed.
Lemma k_sample : samples_from 0 1 (fun x => unwrap (cdf d x)) (sample_of_draw d).
Proof.
  assert (E : forall u, 0 < u < 1 -> sample_of_draw d (Fin u) = Fin (Q u)).
  { intros u Hu. unfold sample_of_draw; cbn [pr from]. 
    assert (0 < Rpower (1 - u) (1 / b) < 1). { split; [pos|]. apply Rpower_lt1; [lra|pos]. }
    now xs. }
  split; [intros u Hu; eexists; now apply E|].
  intros y Hy; cbn in Hy. left. intros u Hu. unfold rf. rewrite (E u Hu), k_cdf by auto. cbn [val].
  destruct k_coherent as [[_ Hm _ _] _].
  assert (Hstrict : forall x z, 0 < x < 1 -> 0 < z < 1 -> x < z -> G x < G z).
  { intros x z Hx Hz Hlt. assert (Rpower x a < Rpower z a). { unfold Rpower. apply exp_increasing, Rmult_lt_compat_l; [auto|]. apply ln_increasing; lra. }
    generalize (k_pow x Hx) (k_pow z Hz); intros.
    assert (Rpower (1 - Rpower z a) b < Rpower (1 - Rpower x a) b); [|lra].
    unfold Rpower at 1 3. apply exp_increasing, Rmult_lt_compat_l; [auto|]. apply ln_increasing; lra. }
  generalize (k_Q u Hu) (k_QG u Hu); intros HQ HG. split; intros H.
  - rewrite <- HG. destruct (Req_dec (Q u) y) as [<-|]; [lra|]. left. apply Hstrict; auto. lra.
  - apply Rnot_lt_le; intros Hlt. apply Hstrict in Hlt; auto. rewrite HG in Hlt. lra.
Qed.
(** the interior mode *)
Lemma k_mode : 1 < a -> 1 < b -> modes d = [Fin (Rpower ((a - 1) / (a * b - 1)) (1 / a))] /\
  is_mode 0 1 (pdf d) (Rpower ((a - 1) / (a * b - 1)) (1 / a)).
Proof.
  intros H1 H2. assert (Hab : 1 < a * b) by nra.
  set (y0 := (a - 1) / (a * b - 1)).
  assert (Hy0 : 0 < y0 < 1).
  { unfold y0. split; [pos|]. apply Rmult_lt_reg_r with (a * b - 1); [lra|]. replace ((a - 1) / (a * b - 1) * (a * b - 1)) with (a - 1) by (field; lra). nra. }
  split. { unfold modes; cbn [pr from]. xs. rewrite (Rltb_true 1 a), (Rleb_true 1 b) by lra. cbn [andb orb]. xs. unfold y0 in Hy0. xs. reflexivity. }
  assert (HX : 0 < Rpower y0 (1 / a) < 1). { split; [pos|]. apply Rpower_lt1; [auto|pos]. }
  eexists. split; [now apply k_pdf|]. intros x Hx; cbn in Hx. eexists; split; [now apply k_pdf|].
  assert (L : forall x, 0 < x < 1 -> D x = a * b * exp ((a - 1) / a * ln (Rpower x a) + (b - 1) * ln (1 - Rpower x a))).
  { intros t Ht. rewrite exp_plus. rewrite ln_Rpower. unfold Rpower at 1 2. replace ((a - 1) / a * (a * ln t)) with ((a - 1) * ln t) by (field; lra). ring. }
  rewrite !L by auto. apply Rmult_le_compat_l; [left; pos|]. apply exp_le_mono.
  rewrite Rpower_self_inv by lra. apply beta_max_ln; auto; [now apply k_pow|pos|lra|].
  unfold y0. field. lra.
Qed.
Lemma k_mode_b1 : 1 < a -> b = 1 -> modes d = [Fin 1] /\ is_mode 0 1 (pdf d) 1.
Proof.
  intros H1 E. split.
  - unfold modes; cbn [pr from]. rewrite E. xs. rewrite (Rltb_true 1 a), (Rleb_true 1 1) by lra. cbn [andb orb].
    try rewrite x_div by lra. replace ((a - 1) / (a * 1 - 1)) with 1 by (field; lra). try xs. now rewrite Rpower_0_base.
  - exists a. split.
    + unfold pdf; cbn [pr from]. rewrite E. xs. rewrite !Rpower_0_base. replace (1 - 1) with 0 by ring. rewrite x_powf_0_0. xs. f_equal; ring.
    + intros x Hx. assert (Hx' : 0 < x < 1) by exact Hx. eexists. split; [now apply k_pdf|]. generalize (k_pow x Hx); intros Hp. rewrite E. replace (1 - 1) with 0 by ring. rewrite Rpower_O by lra.
      assert (Rpower x (a - 1) <= 1) by (apply Rpower_le1; lra). nra.
Qed.
Lemma k_mode_a1 : a = 1 -> 1 < b -> modes d = [Fin 0] /\ is_mode 0 1 (pdf d) 0.
Proof.
  intros E H1. split.
  - unfold modes; cbn [pr from]. rewrite E. xs. rewrite (Rltb_false 1 1), (Rleb_true 1 1), (Rltb_true 1 b) by lra. cbn [andb orb].
    try rewrite x_div by lra. replace ((1 - 1) / (1 * b - 1)) with 0 by (field; lra). rewrite x_powf_0 by lra. reflexivity.
  - exists b. split.
    + unfold pdf; cbn [pr from]. rewrite E. xs. replace (1 - 1) with 0 by ring. rewrite x_powf_0_0, x_powf_0 by lra. xs. replace (1 - 0) with 1 by ring. rewrite Rpower_0_base. f_equal; ring.
    + intros x Hx. assert (Hx' : 0 < x < 1) by exact Hx. eexists. split; [now apply k_pdf|]. rewrite E. replace (1 - 1) with 0 by ring. rewrite Rpower_O, Rpower_1 by lra.
      assert (Rpower (1 - x) (b - 1) <= 1) by (apply Rpower_le1; lra). assert (0 < Rpower (1 - x) (b - 1)) by pos. nra.
Qed.
Lemma k_modes_all : forall m, In m (modes d) -> exists r, m = Fin r /\ is_mode 0 1 (pdf d) r.
Proof.
  destruct (Rtotal_order a 1) as [H|[H|H]], (Rtotal_order b 1) as [H'|[H'|H']].
  1-5,7: intros m Hm; exfalso; revert Hm; unfold modes; cbn [pr from]; xs; unfold Rltb, Rleb;
    repeat destruct Rlt_dec; repeat destruct Rle_dec; try lra; cbn; auto.
  - destruct (k_mode_a1 H H') as [-> Hm]. intros m [<-|[]]. eauto.
  - destruct (k_mode_b1 H H') as [-> Hm]. intros m [<-|[]]. eauto.
  - destruct (k_mode H H') as [-> Hm]. intros m [<-|[]]. eauto.
Qed.
End Kumaraswamy.

Section Pareto.
Import Pareto.
Context (xm al : R) (Hx : 0 < xm) (Ha : 0 < al).
Notation d := (new_unchecked (Fin xm) (Fin al)).
Notation C := (Rpower xm al).
Notation S x := (C * Rpower x (- al)).
Notation D x := (al * C * Rpower x (- al - 1)).
Lemma p_cdf x : 0 < x -> unwrap (cdf d (Fin x)) = Fin (1 - S x).
Proof.
  intros H. unfold cdf; cbn [unwrap pr new_unchecked]. xs. do 2 f_equal. unfold Rpower, Rdiv.
  rewrite ln_mult, ln_Rinv, <- exp_plus by pos. f_equal. ring.
Qed.
Lemma p_pdf x : xm <= x -> pdf d (Fin x) = Fin (D x).
Proof.
  intros H. unfold pdf; cbn [unwrap pr new_unchecked]. xs. xb. xs.
  unfold Rdiv. rewrite <- Rpower_Ropp. do 2 f_equal. f_equal. ring.
Qed.
Lemma p_derive x : 0 < x -> is_derive (fun x => 1 - S x) x (D x).
Proof. intros. dder; [auto|]. ring. Qed.
Lemma p_coherent : coherent xm p_infty (fun x => unwrap (cdf d x)) (pdf d).
Proof.
  apply (coherent_inverse _ _ _ _ (fun x => 1 - S x) (fun x => D x) (fun p => xm * Rpower (1 - p) (- (1 / al)))).
  - exact I. - intros x [H _]; cbn in H. apply p_cdf; lra. - intros x [H _]; cbn in H. apply p_pdf; lra.
  - intros x [H _]; cbn in H. apply p_derive; lra.
  - intros x [H _]; cbn in H. unfold Rpower. cont_auto. lra.
  - intros x _. pos.
  - intros x [H _]; cbn in H. assert (0 < S x) by pos. assert (S x <= 1); [|lra].
    rewrite Rpower_Ropp. apply Rmult_le_reg_r with (Rpower x al); [pos|].
    rewrite Rmult_assoc, Rinv_l, Rmult_1_l, Rmult_1_r by (apply Rgt_not_eq, Rpower_pos). apply Rpower_le_mono; lra.
  - intros p Hp. assert (1 < Rpower (1 - p) (- (1 / al))).
    { rewrite Rpower_Ropp. apply Rinv_gt1. split; [pos|]. apply Rpower_lt1; [lra|pos]. }
    split; [split; cbn; [nra|auto]|].
    rewrite <- Rpower_mult_distr, Rpower_mult by pos. replace (- (1 / al) * - al) with 1 by (field; lra).
    rewrite Rpower_1 by lra. rewrite (Rpower_Ropp xm). field. apply Rgt_not_eq, Rpower_pos.
Qed.
Lemma p_median : median d = Fin (xm * Rpower 2 (1 / al)) /\ unwrap (cdf d (Fin (xm * Rpower 2 (1 / al)))) = Fin (1 / 2).
Proof.
  split. { unfold median; cbn [pr new_unchecked]. now xs. }
  rewrite p_cdf by pos. rewrite <- Rpower_mult_distr, Rpower_mult by pos. replace (1 / al * - al) with (- (1)) by (field; lra).
  rewrite (Rpower_Ropp _ 1), Rpower_1 by lra. rewrite (Rpower_Ropp xm). f_equal. field. apply Rgt_not_eq, Rpower_pos.
Qed.
Lemma p_mode : modes d = [Fin xm] /\ is_mode xm p_infty (pdf d) xm.
Proof.
  split; [reflexivity|]. eexists; split; [apply p_pdf; lra|]. intros x [H _]; cbn in H. eexists; split; [apply p_pdf; lra|].
  apply Rmult_le_compat_l; [left; pos|]. replace (- al - 1) with (- (al + 1)) by ring. rewrite !Rpower_Ropp.
  apply Rinv_le_contravar; [pos|]. apply Rpower_le_mono; lra.
Qed.
Definition p_raw (n : nat) := al * xm ^ n / (al - INR n).
Lemma p_moment n : INR n < al -> is_expectation xm p_infty (pdf d) (fun x => x ^ n) (p_raw n).
Proof.
  intros Hn.
  assert (HP : forall x c, 0 < x -> x ^ n * Rpower x c = Rpower x (INR n + c)).
  { intros x c H. rewrite <- Rpower_pow by auto. now rewrite Rpower_plus. }
  eapply (expectation_intro _ _ _ _ (fun x => D x) (fun x => al * C * (Rpower x (- (al - INR n)) / (INR n - al))) _ 0).
  - exact I. - intros x [H _]; cbn in H. apply p_pdf; lra.
  - intros x [H _]; cbn in H. dder; [lra|lra|].
    replace (x ^ n * D x) with (al * C * (x ^ n * Rpower x (- al - 1))) by ring. rewrite HP by lra.
    replace (INR n + (- al - 1)) with (- (al - INR n) - 1) by ring. field. lra.
  - intros x [H _]; cbn in H. unfold Rpower. cont_auto. lra.
  - apply lim_above_cont; [|reflexivity]. unfold Rpower. cont_auto. lra.
  - generalize (lim_Rpower_neg (al - INR n) ltac:(lra)); intros L. apply lim_pinf in L. eapply fl_eq; [flim|field]; lra.
  - unfold p_raw. replace (Rpower xm (- (al - INR n))) with (xm ^ n * / C).
    + field. repeat split; try lra; apply Rgt_not_eq, Rpower_pos.
    + rewrite <- Rpower_Ropp, HP by auto. f_equal. ring.
Qed.
Lemma p_raw0 : p_raw 0 = 1.
Proof. unfold p_raw; cbn. field. lra. Qed.
Lemma p_mean : 1 < al -> mean d = Fin (p_raw 1) /\ is_mean xm p_infty (pdf d) (p_raw 1).
Proof.
  intros H. split. { unfold mean; cbn [pr new_unchecked]. xs. xb. xs. unfold p_raw; cbn. f_equal. f_equal; ring. }
  apply (mean_raw _ _ _ p_raw). apply p_moment. cbn; lra.
Qed.
Definition p_var := xm * xm * al / (al - 1) / (al - 1) / (al - 2).
Lemma p_var_raw : 2 < al -> p_var = p_raw 2 - p_raw 1 ^ 2.
Proof. intros. unfold p_var, p_raw; cbn. field. lra. Qed.
Lemma p_variance : 2 < al -> variance d = Fin p_var /\ is_variance xm p_infty (pdf d) (p_raw 1) p_var.
Proof.
  intros H. split. { unfold variance; cbn [pr new_unchecked]. xs. xb. xs. reflexivity. }
  apply (variance_raw _ _ _ p_raw p_raw0); [| | |now apply p_var_raw]; apply p_moment; cbn; lra.
Qed.
Lemma p_skewness : 3 < al -> exists s, skewness d = Ret (Fin s) /\ is_skewness xm p_infty (pdf d) s.
Proof.
  intros H. assert (0 < p_var) by (unfold p_var; pos).
  exists (2 * (1 + al) / (al - 3) * sqrt ((al - 2) / al)). split.
  { unfold skewness; cbn [pr new_unchecked]. xs. xb. xs. reflexivity. }
  apply (skewness_raw _ _ _ p_raw p_raw0 p_var); [| | | |apply p_var_raw; lra|auto|]; try (apply p_moment; cbn; lra).
  assert (E : sqrt ((al - 2) / al) * sqrt p_var = xm / (al - 1)).
  { rewrite <- sqrt_mult by pos. replace ((al - 2) / al * p_var) with ((xm / (al - 1)) ^ 2) by (unfold p_var; field; lra).
    apply sqrt_pow2. pos. }
  transitivity (2 * (1 + al) / (al - 3) * p_var * (sqrt ((al - 2) / al) * sqrt p_var)); [|ring]. rewrite E.
  unfold p_var, p_raw; cbn. field. lra.
Qed.
Lemma p_kurtosis : 4 < al -> exists k, excess_kurtosis d = Ret (Fin k) /\ is_kurtosis xm p_infty (pdf d) (k + 3).
Proof.
  intros H. assert (0 < p_var) by (unfold p_var; pos).
  exists (6 * (al * al * al + al * al - 6 * al - 2) / al / (al - 3) / (al - 4)). split.
  { unfold excess_kurtosis; cbn [pr new_unchecked]. xs. xb. xs. reflexivity. }
  apply (kurtosis_raw _ _ _ p_raw p_raw0 p_var); [| | | | |apply p_var_raw; lra|auto|]; try (apply p_moment; cbn; lra).
  unfold p_var, p_raw; cbn. field. lra.
Qed.
Lemma p_entropy : shannon_entropy d = Fin (ln (xm / al * exp (1 + 1 / al))) /\ is_entropy xm p_infty (pdf d) (ln (xm / al * exp (1 + 1 / al))).
Proof.
  split. { unfold shannon_entropy; cbn [pr new_unchecked]. now xs. }
  assert (E : ln (xm / al * exp (1 + 1 / al)) = ln xm - ln al + 1 + 1 / al).
  { unfold Rdiv at 1. rewrite !ln_mult, ln_exp, ln_Rinv by pos. ring. }
  assert (HC : C <> 0) by (apply Rgt_not_eq, Rpower_pos).
  assert (HL : forall x, 0 < x -> ln (D x) = ln al + al * ln xm - (al + 1) * ln x).
  { intros x H. rewrite !ln_mult, !ln_Rpower by pos. ring. }
  assert (HS : forall x, 0 < x -> D x * x = al * S x).
  { intros x H. rewrite Rpower_minus1 by auto. field. lra. }
  eapply (entropy_intro _ _ _ (fun x => D x) (fun x => - (S x * (- ln al - al * ln xm + (al + 1) * (ln x + 1 / al)))) _ 0).
  - exact I. - intros x [H _]; cbn in H. apply p_pdf; lra.
  - intros x [H _]; cbn in H. rewrite HL by lra. dder; [lra|lra|]. rewrite Rpower_minus1 by lra. field. lra.
  - intros x [H _]; cbn in H. unfold Rpower. cont_auto. repeat split; try lra. pos.
  - apply lim_above_cont; [|reflexivity]. unfold Rpower. cont_auto. lra.
  - generalize (lim_Rpower_neg al Ha) (lim_ln_Rpower_neg al Ha); intros L1 L2. apply lim_pinf in L1, L2.
    apply fl_ext with (fun x => - (C * (- ln al - al * ln xm + (al + 1) * (1 / al)) * Rpower x (- al) + C * (al + 1) * (ln x * Rpower x (- al)))).
    { intros x. ring. }
    eapply fl_eq; [flim|ring].
  - rewrite E. rewrite Rpower_Ropp. field. lra.
Qed.
End Pareto.

Section Weibull.
Import Weibull.
Context (l k : R) (Hl : 0 < l) (Hk : 0 < k).
Notation d := (from (mkP (Fin l) (Fin k))).
Notation G x := (1 - exp (- Rpower (x / l) k)).
Notation D x := (k / l * Rpower (x / l) (k - 1) * exp (- Rpower (x / l) k)).
Lemma w_cdf x : 0 < x -> unwrap (cdf d (Fin x)) = Fin (G x).
Proof. intros H. unfold cdf; cbn [unwrap pr from]. xs. xb. cbn [unwrap]. now xs. Qed.
Lemma w_pdf x : 0 < x -> pdf d (Fin x) = Fin (D x).
Proof. intros H. unfold pdf; cbn [unwrap pr from]. xs. xb. now xs. Qed.
Lemma w_coherent : coherent 0 p_infty (fun x => unwrap (cdf d x)) (pdf d).
Proof.
  apply (coherent_inverse _ _ _ _ (fun x => G x) (fun x => D x) (fun p => l * Rpower (- ln (1 - p)) (1 / k))).
  - exact I. - intros x [H _]; now apply w_cdf. - intros x [H _]; now apply w_pdf.
  - intros x [H _]; cbn in H. assert (0 < x / l) by pos. dder; [auto|lra|]. field. lra.
  - intros x [H _]; cbn in H. assert (0 < x / l) by pos. unfold Rpower, Rdiv in *. cont_auto. auto.
  - intros x _. pos.
  - intros x _. assert (0 < Rpower (x / l) k) by pos. assert (0 < exp (- Rpower (x / l) k)) by pos.
    assert (exp (- Rpower (x / l) k) <= 1) by (apply exp_le1; lra). lra.
  - intros p Hp. generalize (ln_lt0 (1 - p) ltac:(lra)); intros. split; [split; cbn; [pos|auto]|].
    replace (l * Rpower (- ln (1 - p)) (1 / k) / l) with (Rpower (- ln (1 - p)) (1 / k)) by (field; lra).
    rewrite Rpower_self_inv by lra. rewrite Ropp_involutive, exp_ln; lra.
Qed.
Lemma w_below x : x < 0 -> unwrap (cdf d (Fin x)) = Fin 0 /\ pdf d (Fin x) = Fin 0.
Proof. intros H. unfold cdf, pdf. xs. rewrite Rleb_false by lra. split; [cbn [unwrap p_zero]|]; now xs. Qed.
Lemma w_median : median d = Fin (l * Rpower (ln 2) (1 / k)) /\ unwrap (cdf d (Fin (l * Rpower (ln 2) (1 / k)))) = Fin (1 / 2).
Proof.
  assert (0 < ln 2) by apply ln2_pos. split. { unfold median; cbn [pr from]. now xs. }
  rewrite w_cdf by pos. replace (l * Rpower (ln 2) (1 / k) / l) with (Rpower (ln 2) (1 / k)) by (field; lra).
  rewrite Rpower_self_inv, ln_inv_half by lra. f_equal; lra.
Qed.
Lemma w_modes : modes d = [Fin 0].
Proof. unfold modes; cbn [pr from]. xs. rewrite Rltb_true by lra. now xs. Qed.
End Weibull.
