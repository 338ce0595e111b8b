(** * Generalised Pareto: moments *)
From Coq Require Import Reals Lra Lia Psatz List ZArith.
From Coquelicot Require Import Coquelicot.
From Verif.Num Require Import XReal.
From Verif.Model Require Import Rust Constraints Probability Params Consts Continuous.
From Verif.Spec Require Import DistSpec ResSpec.
From Verif.Proofs Require Import XTac Calc Calc2 Improper HeavyTail ContProofs2 ContProofs3 ContProofs13 ContProofs27 ContProofs28.
Import ListNotations.
Open Scope R_scope.

Section GPD.
Import GPD.
Context (m g z : R) (Hg : 0 < g) (Hz : 0 < z).
Notation d := (new_unchecked (Fin m) (Fin g) (Fin z)).
Notation W x := (1 + z * ((x - m) / g)).
Notation u x := (Rpower (W x) (- 1 / z - 1) / g).
Lemma gp_W x : inside m p_infty x -> 1 < W x.
Proof. intros [H _]; cbn in H. assert (0 < z * ((x - m) / g)); [|lra]. assert (0 < x - m) by lra. pos. Qed.
Lemma gp_pdf x : inside m p_infty x -> pdf d (Fin x) = Fin (u x).
Proof. intros H. apply gp_W in H. apply gpd_pdf; auto. lra. Qed.
Lemma gp_u_cont x : inside m p_infty x -> continuous (fun x => u x) x.
Proof. intros H. apply gp_W in H. eapply ex_derive_cont. dder; try lra; reflexivity. Qed.
Lemma gp_u_pos x : inside m p_infty x -> 0 < u x. Proof. intros H. pos. Qed.
Definition gpM (n : nat) : R := / (1 - INR n * z).
Lemma gpM_0 : gpM 0 = 1. Proof. unfold gpM. cbn. field. Qed.
Lemma gp_ab n : INR n * z < 1 -> is_expectation m p_infty (pdf d) (fun x => ((x - (m - g / z)) / (g / z)) ^ n) (gpM n).
Proof.
  intros Hn.
  assert (EW : forall x, (x - (m - g / z)) / (g / z) = W x) by (intros; field; lra).
  eapply (expectation_intro _ _ _ _ (fun x => u x) (fun x => - (/ (1 - INR n * z)) * Rpower (W x) (INR n - 1 / z)) (- gpM n) 0).
  - exact I. - exact gp_pdf.
  - intros x Hx. assert (HW := gp_W x Hx). rewrite EW, <- Rpower_pow by lra. dder; try lra.
    replace (INR n - 1 / z - 1) with (INR n + (- 1 / z - 1)) by (field; lra). rewrite Rpower_plus. field. lra.
  - intros x Hx. assert (HW := gp_W x Hx). apply (continuous_mult (K := R_AbsRing) (fun x => ((x - (m - g / z)) / (g / z)) ^ n) (fun x => u x)); [|now apply gp_u_cont].
    eapply ex_derive_cont. auto_derive; [lra|reflexivity].
  - apply lim_above_cont.
    + assert (W m = 1) by (field; lra). eapply ex_derive_cont. dder; try lra; reflexivity.
    + replace (W m) with 1 by (field; lra). rewrite Rpower_0_base. unfold gpM. ring.
  - assert (L : filterlim (fun x => Rpower (W x) (- (1 / z - INR n))) (below p_infty) (locally 0)).
    { eapply (fl_inf (fun y => Rpower y (- (1 / z - INR n))) _ p_infty); [|exact I|apply gpd_W_inf; auto].
      apply lim_Rpower_neg. replace (1 / z - INR n) with ((1 - INR n * z) / z) by (field; lra). apply Rdiv_lt_0_compat; lra. }
    eapply fl_eq; [eapply fl_ext; [|apply fl_mult; [apply fl_const|exact L]]|ring]. intros x. cbv beta. f_equal. f_equal. ring.
  - ring.
Qed.
Ltac gab := lazymatch goal with |- is_expectation _ _ _ _ _ => apply gp_ab; cbn [INR]; lra | |- gpM 0%nat = _ => apply gpM_0 | |- _ => idtac end.
Notation V := (g * g / ((1 - z) * (1 - z)) / (1 - 2 * z)).
Lemma gp_mean : z < 1 -> is_mean m p_infty (pdf d) (m + g / (1 - z)).
Proof. intros H. assert (0 < g / z) by pos. apply (mean_about m p_infty _ (m - g / z) (g / z) gpM); try gab; [lra|]. unfold gpM; cbn [INR]. field. lra. Qed.
Lemma gp_variance : z < 1 / 2 -> is_variance m p_infty (pdf d) (m + g / (1 - z)) V.
Proof. intros H. assert (0 < g / z) by pos. apply (variance_about m p_infty _ (m - g / z) (g / z) gpM); try gab; [lra| |]; unfold gpM; cbn [INR]; field; lra. Qed.
Lemma gp_V : z < 1 / 2 -> 0 < V.
Proof. intros H. assert (0 < 1 - z) by lra. assert (0 < 1 - 2 * z) by lra. pos. Qed.
Notation SK := (2 * (1 + z) * sqrt (1 - 2 * z) / (1 - 3 * z)).
Lemma gp_sqrtV : z < 1 / 2 -> sqrt V = g / (1 - z) / sqrt (1 - 2 * z).
Proof.
  intros H. assert (0 < 1 - z) by lra. assert (0 < 1 - 2 * z) by lra. replace (g * g / ((1 - z) * (1 - z))) with ((g / (1 - z)) * (g / (1 - z))) by (field; lra).
  rewrite sqrt_div_alt by auto. rewrite sqrt_square by (left; pos). reflexivity.
Qed.
Lemma gp_skewness : z < 1 / 3 -> is_skewness m p_infty (pdf d) SK.
Proof.
  intros H. assert (HV := gp_V ltac:(lra)). assert (0 < g / z) by pos. assert (Q := sqrt_lt_R0 (1 - 2 * z) ltac:(lra)). assert (E := sqrt_sqrt (1 - 2 * z) ltac:(lra)).
  apply (skewness_about m p_infty _ (m - g / z) (g / z) gpM ltac:(lra)) with (v := V); try gab; auto; try lra.
  - unfold gpM; cbn [INR]. field. lra.
  - rewrite gp_sqrtV by lra. set (s := sqrt (1 - 2 * z)) in *. unfold gpM; cbn [INR].
    replace (2 * (1 + z) * s / (1 - 3 * z) * (V * (g / (1 - z) / s))) with (2 * (1 + z) / (1 - 3 * z) * (V * (g / (1 - z)))) by (field; repeat split; lra).
    field. repeat split; lra.
Qed.
Notation KU := (3 * (1 - 2 * z) * (2 * (z * z) + z + 3) / ((1 - 3 * z) * (1 - 4 * z))).
Lemma gp_kurtosis : z < 1 / 4 -> is_kurtosis m p_infty (pdf d) KU.
Proof.
  intros H. assert (HV := gp_V ltac:(lra)). assert (0 < g / z) by pos.
  apply (kurtosis_about m p_infty _ (m - g / z) (g / z) gpM ltac:(lra)) with (v := V); try gab; auto; try lra; unfold gpM; cbn [INR]; field; repeat split; lra.
Qed.
(** a power tail of exponent 1/z *)
Notation X0 := (1 + Rabs m).
Notation K := (1 + 2 * z / g).
Lemma gp_tail x : X0 <= x -> Rpower K (- 1 / z - 1) / g * Rpower x (- (1 / z) - 1) <= u x.
Proof.
  intros Hx. assert (B := Rle_abs m). assert (B' := Rle_abs (- m)). rewrite Rabs_Ropp in B'. assert (B0 := Rabs_pos m).
  assert (HW1 : 1 <= W x). { assert (0 <= z * ((x - m) / g)) by (apply Rmult_le_pos; [lra|apply Rdiv_le_0_compat; lra]). lra. }
  assert (HW2 : W x <= K * x).
  { assert (z * ((x - m) / g) <= 2 * z / g * x).
    { replace (z * ((x - m) / g)) with (z / g * (x - m)) by (field; lra). replace (2 * z / g * x) with (z / g * (2 * x)) by (field; lra). apply Rmult_le_compat_l; [left; pos|lra]. }
    lra. }
  assert (Hx0 : 0 < x) by lra. assert (HK : 0 < K) by pos.
  replace (- (1 / z) - 1) with (- 1 / z - 1) by (field; lra).
  assert (E : Rpower K (- 1 / z - 1) * Rpower x (- 1 / z - 1) <= Rpower (W x) (- 1 / z - 1)).
  { rewrite Rpower_mult_distr by auto. replace (- 1 / z - 1) with (- (1 / z + 1)) by (field; lra). rewrite !Rpower_Ropp. apply Rinv_le_contravar; [pos|].
    apply Rpower_le_mono; [lra|auto|]. left. assert (0 < 1 / z) by pos. lra. }
  replace (Rpower K (- 1 / z - 1) / g * Rpower x (- 1 / z - 1)) with (Rpower K (- 1 / z - 1) * Rpower x (- 1 / z - 1) / g) by (field; lra).
  apply Rmult_le_compat_r; [left; pos|auto].
Qed.
Let HX : m < X0. Proof. assert (B := Rle_abs m). lra. Qed.
Let HX' : 0 < X0. Proof. assert (B := Rabs_pos m). lra. Qed.
Let HC : 0 < Rpower K (- 1 / z - 1) / g. Proof. pos. Qed.
Let il (n : nat) : (0 < n)%nat -> 1 <= z * INR n -> 1 / z <= INR n.
Proof. intros Hn H. apply Rmult_le_reg_l with z; [auto|]. replace (z * (1 / z)) with 1 by (field; lra). auto. Qed.
Lemma gp_no_mean v : 1 <= z -> ~ is_mean m p_infty (pdf d) v.
Proof. intros H. apply (lo_no_mean m (fun x => u x) (pdf d) X0 _ (1 / z) gp_pdf gp_u_cont HX HX' HC gp_tail). apply (il 1); [lia|cbn; lra]. Qed.
Lemma gp_no_variance v w : 1 / 2 <= z -> ~ is_variance m p_infty (pdf d) v w.
Proof. intros H. apply (lo_no_variance m (fun x => u x) (pdf d) X0 _ (1 / z) gp_pdf gp_u_cont HX HX' HC gp_tail). replace 2 with (INR 2) by (cbn; lra). apply (il 2); [lia|cbn; lra]. Qed.
Lemma gp_no_skewness v : 1 / 3 <= z -> ~ is_skewness m p_infty (pdf d) v.
Proof. intros H. apply (lo_no_skewness m (fun x => u x) (pdf d) X0 _ (1 / z) gp_pdf gp_u_cont HX HX' HC gp_tail). replace 3 with (INR 3) by (cbn; lra). apply (il 3); [lia|cbn; lra]. Qed.
Lemma gp_no_kurtosis v : 1 / 4 <= z -> ~ is_kurtosis m p_infty (pdf d) v.
Proof. intros H. apply (lo_no_kurtosis m (fun x => u x) (pdf d) X0 _ (1 / z) gp_pdf gp_u_cont HX HX' HC gp_tail). replace 4 with (INR 4) by (cbn; lra). apply (il 4); [lia|cbn; lra]. Qed.
End GPD.
