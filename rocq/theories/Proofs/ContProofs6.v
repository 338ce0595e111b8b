(** * Triangular, Laplace *)
From Coq Require Import Reals Lra Lia Psatz.
From Coquelicot Require Import Coquelicot.
From Verif.Num Require Import XReal.
From Verif.Model Require Import Rust Constraints Probability Params Consts Continuous2.
From Verif.Spec Require Import DistSpec.
From Verif.Proofs Require Import Gauss Calc2 XTac Calc ContProofs5.
Open Scope R_scope.

(** gluing two functions at c *)
Definition glue (c : R) (f1 f2 : R -> R) (x : R) : R := if Rle_dec x c then f1 x else f2 x.
Lemma glue_l c f1 f2 x : x <= c -> glue c f1 f2 x = f1 x.
Proof. unfold glue; destruct (Rle_dec x c); [auto|contradiction]. Qed.
Lemma glue_r c f1 f2 x : c < x -> glue c f1 f2 x = f2 x.
Proof. unfold glue; destruct (Rle_dec x c); [lra|auto]. Qed.
Lemma glue_r' c (f1 f2 : R -> R) x : f1 c = f2 c -> c <= x -> glue c f1 f2 x = f2 x.
Proof. intros E H. unfold glue; destruct (Rle_dec x c); [|auto]. replace x with c by lra. auto. Qed.
Lemma locally_lt (a x : R) : x < a -> locally x (fun y => y < a).
Proof. intros H. exists (mkposreal (a - x) ltac:(lra)). intros y Hy. change (Rabs (y - x) < a - x) in Hy. apply Rabs_def2 in Hy. lra. Qed.
Lemma locally_gt (a x : R) : a < x -> locally x (fun y => a < y).
Proof. intros H. exists (mkposreal (x - a) ltac:(lra)). intros y Hy. change (Rabs (y - x) < x - a) in Hy. apply Rabs_def2 in Hy. lra. Qed.
Lemma glue_derive c (f1 f2 : R -> R) x l : f1 c = f2 c ->
  (x <= c -> is_derive f1 x l) -> (c <= x -> is_derive f2 x l) -> is_derive (glue c f1 f2) x l.
Proof.
  intros E H1 H2. destruct (Rtotal_order x c) as [H|[->|H]].
  - apply is_derive_ext_loc with f1; [|apply H1; lra]. generalize (locally_lt c x H). apply filter_imp. intros y Hy. rewrite glue_l; [auto|lra].
  - specialize (H1 ltac:(lra)). specialize (H2 ltac:(lra)). apply is_derive_Reals. apply is_derive_Reals in H1. apply is_derive_Reals in H2.
    intros eps Heps. destruct (H1 eps Heps) as [d1 D1], (H2 eps Heps) as [d2 D2].
    assert (Hm : 0 < Rmin d1 d2) by (apply Rmin_pos; apply cond_pos). exists (mkposreal _ Hm). cbn. intros h Hh Hlt.
    assert (Rabs h < d1) by (eapply Rlt_le_trans; [exact Hlt|apply Rmin_l]). assert (Rabs h < d2) by (eapply Rlt_le_trans; [exact Hlt|apply Rmin_r]).
    rewrite (glue_l c f1 f2 c) by lra. destruct (Rle_or_lt h 0).
    + rewrite glue_l by lra. now apply D1.
    + rewrite glue_r by lra. rewrite E. now apply D2.
  - apply is_derive_ext_loc with f2; [|apply H2; lra]. generalize (locally_gt c x H). apply filter_imp. intros y Hy. rewrite glue_r; [auto|lra].
Qed.
Lemma glue_cont c (f1 f2 : R -> R) x : f1 c = f2 c ->
  (x <= c -> continuous f1 x) -> (c <= x -> continuous f2 x) -> continuous (glue c f1 f2) x.
Proof.
  intros E H1 H2. destruct (Rtotal_order x c) as [H|[->|H]].
  - apply continuous_ext_loc with f1; [|apply H1; lra]. generalize (locally_lt c x H). apply filter_imp. intros y Hy. rewrite glue_l; [auto|lra].
  - specialize (H1 ltac:(lra)). specialize (H2 ltac:(lra)). unfold continuous in *. rewrite (glue_l c f1 f2 c) by lra.
    rewrite <- E in H2. apply filterlim_locally. intros eps. rewrite filterlim_locally in H1, H2.
    generalize (filter_and _ _ (H1 eps) (H2 eps)). apply filter_imp. intros y [A B]. unfold glue. destruct (Rle_dec y c); auto.
  - apply continuous_ext_loc with f2; [|apply H2; lra]. generalize (locally_gt c x H). apply filter_imp. intros y Hy. rewrite glue_r; [auto|lra].
Qed.

Section Triangular.
Import Triangular.
Context (a0 p0 q0 : R) (Hp : 0 < p0) (Hq : 0 < q0).
Notation d := (new_unchecked (Fin a0) (Fin p0) (Fin q0)).
Notation c0 := (a0 + p0). Notation b0 := (a0 + p0 + q0).
Notation lo := (Finite a0). Notation hi := (Finite b0).
Notation G1 := (fun x => (x - a0) * (x - a0) / (b0 - a0) / (c0 - a0)).
Notation G2 := (fun x => 1 - (b0 - x) * (b0 - x) / (b0 - a0) / (b0 - c0)).
Notation g1 := (fun x => 2 * (x - a0) / (b0 - a0) / (c0 - a0)).
Notation g2 := (fun x => 2 * (b0 - x) / (b0 - a0) / (b0 - c0)).
Notation cd := (fun x => unwrap (cdf d x)).
Lemma tr_in x : inside lo hi x -> a0 < x < b0.
Proof. intros [H1 H2]; cbn in *; lra. Qed.
Lemma tr_cdf x : inside lo hi x -> cd (Fin x) = Fin (glue c0 G1 G2 x).
Proof.
  intros H; apply tr_in in H. unfold cdf, b, c; cbn [pr a a2c c2b new_unchecked]. cbv zeta. xs.
  rewrite (Rleb_false x a0) by lra. unfold glue. destruct (Rle_dec x c0).
  - rewrite Rleb_true by auto. cbn [unwrap]. reflexivity.
  - rewrite Rleb_false by lra. rewrite Rleb_true by lra. cbn [unwrap]. reflexivity.
Qed.
Lemma tr_cdf_lo x : x <= a0 -> cd (Fin x) = Fin 0.
Proof. intros H. unfold cdf; cbn [pr a a2c c2b new_unchecked]. cbv zeta. rewrite x_leb, Rleb_true by auto. reflexivity. Qed.
Lemma tr_cdf_hi x : b0 <= x -> cd (Fin x) = Fin 1.
Proof.
  intros H. unfold cdf, b, c; cbn [pr a a2c c2b new_unchecked]. cbv zeta. xs.
  rewrite (Rleb_false x a0) by lra. rewrite (Rleb_false x c0) by lra. destruct (Rleb_spec x b0); cbn [unwrap]; [|reflexivity].
  f_equal. replace x with b0 by lra. field. lra.
Qed.
Lemma tr_G_eq : G1 c0 = G2 c0.
Proof. cbv beta. field. lra. Qed.
Lemma tr_g_eq : g1 c0 = g2 c0.
Proof. cbv beta. field. lra. Qed.
Lemma tr_derive x : is_derive (glue c0 G1 G2) x (glue c0 g1 g2 x).
Proof.
  apply glue_derive; [apply tr_G_eq| |]; intros H.
  - rewrite glue_l by auto. auto_derive; [lra|field; lra].
  - rewrite glue_r' by (auto using tr_g_eq). auto_derive; [lra|field; lra].
Qed.
Lemma tr_cont x : continuous (glue c0 g1 g2) x.
Proof. apply glue_cont; [apply tr_g_eq| |]; intros H; cont_auto; lra. Qed.
Lemma tr_density x : inside lo hi x -> density_of cd (Fin x) = Fin (glue c0 g1 g2 x).
Proof. apply (density_val cd lo hi (glue c0 G1 G2)); [apply tr_cdf|intros; apply tr_derive]. Qed.
Lemma tr_coherent : coherent lo hi cd (density_of cd).
Proof.
  apply (coherent_intro _ _ _ _ (glue c0 G1 G2) (glue c0 g1 g2)).
  - cbn; lra. - apply tr_cdf. - apply tr_density. - intros; apply tr_derive. - intros; apply tr_cont.
  - intros x H; apply tr_in in H. unfold glue. destruct (Rle_dec x c0); pos.
  - apply lim_above_cont; [eapply ex_derive_cont, tr_derive|]. rewrite glue_l by lra. field; lra.
  - apply lim_below_cont; [eapply ex_derive_cont, tr_derive|]. rewrite glue_r by lra. field; lra.
Qed.
Notation eps := (1 / 10000000).
(** the density method: right at c, right at distance >= 1e-7 from c *)
Lemma tr_pdf x : inside lo hi x -> x = c0 \/ eps <= Rabs (x - c0) -> pdf d (Fin x) = Fin (glue c0 g1 g2 x).
Proof.
  intros H Hc; apply tr_in in H. unfold pdf, b, c; cbn [pr a a2c c2b new_unchecked]. cbv zeta. xs.
  rewrite (Rleb_false x a0) by lra. destruct Hc as [->|Hc].
  - rewrite Rltb_true by (unfold Rminus; rewrite Rplus_opp_r, Rabs_R0; lra). f_equal. rewrite glue_l by lra. field; lra.
  - rewrite Rltb_false by auto. unfold glue. destruct (Rle_dec x c0).
    + rewrite Rltb_true; [reflexivity|]. destruct r; [auto|]. subst. rewrite Rminus_diag_eq, Rabs_R0 in Hc by auto. lra.
    + rewrite Rltb_false by lra. rewrite Rleb_true by lra. reflexivity.
Qed.
Lemma tr_pdf_near x : inside lo hi x -> Rabs (x - c0) < eps -> pdf d (Fin x) = Fin (2 / (b0 - a0)).
Proof.
  intros H Hc; apply tr_in in H. unfold pdf, b, c; cbn [pr a a2c c2b new_unchecked]. cbv zeta. xs.
  rewrite (Rleb_false x a0) by lra. now rewrite Rltb_true.
Qed.
Lemma tr_pdf_out x : x <= a0 \/ b0 < x -> eps <= q0 -> pdf d (Fin x) = Fin 0.
Proof.
  intros H He. unfold pdf, b, c; cbn [pr a a2c c2b new_unchecked]. cbv zeta. xs. destruct H.
  - now rewrite (Rleb_true x a0) by lra.
  - rewrite (Rleb_false x a0) by lra. rewrite Rltb_false by (rewrite Rabs_pos_eq; lra).
    rewrite Rltb_false by lra. now rewrite Rleb_false by lra.
Qed.
Lemma tr_g_le x : a0 < x < b0 -> 0 <= glue c0 g1 g2 x <= 2 / (b0 - a0).
Proof.
  intros H. unfold glue. destruct (Rle_dec x c0).
  - split; [pos|]. apply Rmult_le_reg_r with ((b0 - a0) * (c0 - a0)); [pos|]. field_simplify; lra.
  - split; [pos|]. apply Rmult_le_reg_r with ((b0 - a0) * (b0 - c0)); [pos|]. field_simplify; lra.
Qed.
Lemma tr_mode : is_mode lo hi (pdf d) c0.
Proof.
  exists (2 / (b0 - a0)). split; [apply tr_pdf_near; [split; cbn; lra|unfold Rminus; rewrite Rplus_opp_r, Rabs_R0; lra]|].
  intros x Hx. destruct (Rlt_or_le (Rabs (x - c0)) eps).
  - eexists; split; [now apply tr_pdf_near|lra].
  - eexists; split; [apply tr_pdf; auto|]. apply tr_in in Hx. apply tr_g_le; lra.
Qed.
Lemma tr_median : returns (median d) (is_median cd).
Proof.
  unfold median, b, c; cbn [pr a a2c c2b new_unchecked]. cbv zeta. xs.
  destruct (Rleb_spec ((a0 + b0) / 2) c0) as [H|H].
  - assert (S0 : 0 < sqrt ((b0 - a0) * (c0 - a0) / 2)) by (apply sqrt_lt_R0; pos).
    assert (SS : sqrt ((b0 - a0) * (c0 - a0) / 2) * sqrt ((b0 - a0) * (c0 - a0) / 2) = (b0 - a0) * (c0 - a0) / 2) by (apply sqrt_sqrt; pos).
    xs. set (r := sqrt ((b0 - a0) * (c0 - a0) / 2)) in *.
    assert (r <= p0). { apply Rnot_lt_le; intros Hl. assert (p0 * p0 < r * r) by (apply Rmult_le_0_lt_compat; lra). rewrite SS in H0. nra. }
    exists (a0 + r). split; [reflexivity|]. unfold is_median. rewrite tr_cdf by (split; cbn; lra). f_equal. rewrite glue_l by lra.
    replace (a0 + r - a0) with r by ring. rewrite SS. field. lra.
  - assert (S0 : 0 < sqrt ((b0 - a0) * (b0 - c0) / 2)) by (apply sqrt_lt_R0; pos).
    assert (SS : sqrt ((b0 - a0) * (b0 - c0) / 2) * sqrt ((b0 - a0) * (b0 - c0) / 2) = (b0 - a0) * (b0 - c0) / 2) by (apply sqrt_sqrt; pos).
    xs. set (r := sqrt ((b0 - a0) * (b0 - c0) / 2)) in *.
    assert (r < q0). { apply Rnot_le_lt; intros Hl. assert (q0 * q0 <= r * r) by (apply Rmult_le_compat; lra). rewrite SS in H0. nra. }
    exists (b0 - r). split; [reflexivity|]. unfold is_median. rewrite tr_cdf by (split; cbn; lra). f_equal. rewrite glue_r by lra.
    replace (b0 - (b0 - r)) with r by ring. rewrite SS. field. lra.
Qed.
(** raw moments about c *)
Lemma tr_moment (n : nat) (H1 H2 : R -> R) m :
  H1 c0 = H2 c0 -> (forall x, is_derive H1 x ((x - c0) ^ n * g1 x)) -> (forall x, is_derive H2 x ((x - c0) ^ n * g2 x)) ->
  m = H2 b0 - H1 a0 -> is_expectation lo hi (density_of cd) (fun x => (x - c0) ^ n) m.
Proof.
  intros HE D1 D2 E.
  assert (D : forall x, is_derive (glue c0 H1 H2) x ((x - c0) ^ n * glue c0 g1 g2 x)).
  { intros x. apply glue_derive; [exact HE| |]; intros H.
    - rewrite glue_l by auto. apply D1. - rewrite glue_r' by auto using tr_g_eq. apply D2. }
  apply (expectation_intro _ _ _ (fun x => (x - c0) ^ n) (glue c0 g1 g2) (glue c0 H1 H2) (H1 a0) (H2 b0)).
  - cbn; lra. - apply tr_density. - intros; apply D.
  - intros x _. apply (continuous_mult (K := R_AbsRing) (fun x => (x - c0) ^ n) (glue c0 g1 g2)); [|apply tr_cont]. apply (ex_derive_continuous (fun x => (x - c0) ^ n)). auto_derive. auto.
  - apply lim_above_cont; [eapply ex_derive_cont, D|]. rewrite glue_l by lra. reflexivity.
  - apply lim_below_cont; [eapply ex_derive_cont, D|]. rewrite glue_r by lra. reflexivity.
  - exact E.
Qed.
(** with y = x - c: g1 = 2 (y + p) / ((p+q) p), g2 = 2 (q - y) / ((p+q) q) *)
Notation W := (p0 + q0).
Lemma tr_m0 : is_expectation lo hi (density_of cd) (fun x => (x - c0) ^ 0) 1.
Proof.
  apply (tr_moment 0 (fun x => ((x - c0) ^ 2 + 2 * p0 * (x - c0)) / (W * p0)) (fun x => (2 * q0 * (x - c0) - (x - c0) ^ 2) / (W * q0))).
  - field; lra. - intros x; auto_derive; [auto|]. unfold Rdiv, Rminus. field. repeat split; lra. - intros x; auto_derive; [auto|]. unfold Rdiv, Rminus. field. repeat split; lra.
  - field. repeat split; lra.
Qed.
Lemma tr_m1 : is_expectation lo hi (density_of cd) (fun x => (x - c0) ^ 1) ((q0 - p0) / 3).
Proof.
  apply (tr_moment 1 (fun x => (2 / 3 * (x - c0) ^ 3 + p0 * (x - c0) ^ 2) / (W * p0)) (fun x => (q0 * (x - c0) ^ 2 - 2 / 3 * (x - c0) ^ 3) / (W * q0))).
  - field; lra. - intros x; auto_derive; [auto|]. unfold Rdiv, Rminus. field. repeat split; lra. - intros x; auto_derive; [auto|]. unfold Rdiv, Rminus. field. repeat split; lra.
  - field. repeat split; lra.
Qed.
Lemma tr_m2 : is_expectation lo hi (density_of cd) (fun x => (x - c0) ^ 2) ((q0 * q0 + p0 * p0 - p0 * q0) / 6).
Proof.
  apply (tr_moment 2 (fun x => (1 / 2 * (x - c0) ^ 4 + 2 / 3 * p0 * (x - c0) ^ 3) / (W * p0)) (fun x => (2 / 3 * q0 * (x - c0) ^ 3 - 1 / 2 * (x - c0) ^ 4) / (W * q0))).
  - field; lra. - intros x; auto_derive; [auto|]. unfold Rdiv, Rminus. field. repeat split; lra. - intros x; auto_derive; [auto|]. unfold Rdiv, Rminus. field. repeat split; lra.
  - field. repeat split; lra.
Qed.
Lemma tr_m3 : is_expectation lo hi (density_of cd) (fun x => (x - c0) ^ 3) ((q0 - p0) * (q0 * q0 + p0 * p0) / 10).
Proof.
  apply (tr_moment 3 (fun x => (2 / 5 * (x - c0) ^ 5 + 1 / 2 * p0 * (x - c0) ^ 4) / (W * p0)) (fun x => (1 / 2 * q0 * (x - c0) ^ 4 - 2 / 5 * (x - c0) ^ 5) / (W * q0))).
  - field; lra. - intros x; auto_derive; [auto|]. unfold Rdiv, Rminus. field. repeat split; lra. - intros x; auto_derive; [auto|]. unfold Rdiv, Rminus. field. repeat split; lra.
  - field. repeat split; lra.
Qed.
Lemma tr_m4 : is_expectation lo hi (density_of cd) (fun x => (x - c0) ^ 4) ((q0 ^ 5 + p0 ^ 5) / (15 * W)).
Proof.
  apply (tr_moment 4 (fun x => (1 / 3 * (x - c0) ^ 6 + 2 / 5 * p0 * (x - c0) ^ 5) / (W * p0)) (fun x => (2 / 5 * q0 * (x - c0) ^ 5 - 1 / 3 * (x - c0) ^ 6) / (W * q0))).
  - field; lra. - intros x; auto_derive; [auto|]. unfold Rdiv, Rminus. field. repeat split; lra. - intros x; auto_derive; [auto|]. unfold Rdiv, Rminus. field. repeat split; lra.
  - field. repeat split; lra.
Qed.
Definition trM (n : nat) : R :=
  match n with
  | 0%nat => 1 | 1%nat => (q0 - p0) / 3 | 2%nat => (q0 * q0 + p0 * p0 - p0 * q0) / 6
  | 3%nat => (q0 - p0) * (q0 * q0 + p0 * p0) / 10 | _ => (q0 ^ 5 + p0 ^ 5) / (15 * W)
  end.
Lemma tr_ab n : (n <= 4)%nat -> is_expectation lo hi (density_of cd) (fun x => ((x - c0) / 1) ^ n) (trM n).
Proof.
  intros H. apply exp_ext with (h := fun x => (x - c0) ^ n); [intros; now rewrite Rdiv_1|].
  do 5 (destruct n as [|n]; [first [apply tr_m0 | apply tr_m1 | apply tr_m2 | apply tr_m3 | apply tr_m4]|]). lia.
Qed.
Ltac trab := try (apply tr_ab; lia); try reflexivity; try lra.
Lemma tr_mean : is_mean lo hi (density_of cd) ((a0 + b0 + c0) / 3).
Proof. apply (mean_about _ _ _ c0 1 trM); trab. cbn. field. Qed.
Lemma tr_variance : returns (variance d) (is_variance lo hi (density_of cd) ((a0 + b0 + c0) / 3)).
Proof.
  unfold variance, b, c; cbn [pr a a2c c2b new_unchecked]. cbv zeta. xs. eexists; split; [reflexivity|].
  apply (variance_about _ _ _ c0 1 trM); trab; cbn; field.
Qed.
Lemma trV : 0 < (p0 * p0 + q0 * q0 + p0 * q0) / 18. Proof. pos. Qed.
Lemma tr_skewness : returns (skewness d) (is_skewness lo hi (density_of cd)).
Proof.
  unfold skewness, b, c, THREE_HALVES; cbn [pr a a2c c2b new_unchecked]. cbv zeta.
  assert (S0 : 0 < a0 * a0 + b0 * b0 + c0 * c0 - (a0 * b0 + a0 * c0 + b0 * c0)) by nra.
  xs. eexists; split; [reflexivity|].
  set (V := a0 * a0 + b0 * b0 + c0 * c0 - (a0 * b0 + a0 * c0 + b0 * c0)) in *.
  assert (VE : V = p0 * p0 + q0 * q0 + p0 * q0) by (unfold V; ring).
  assert (SP : Rpower V (3 / 2) = V * sqrt V).
  { replace (3 / 2) with (1 + / 2) by lra. rewrite Rpower_plus, Rpower_1, Rpower_sqrt by auto. ring. }
  assert (Sv : 0 < sqrt V) by now apply sqrt_lt_R0.
  assert (S18 : sqrt (V / 18) = sqrt V / (3 * sqrt 2)).
  { replace (V / 18) with (V / (3 * 3 * 2)) by field. rewrite sqrt_div_alt by lra. rewrite sqrt_mult by lra. rewrite sqrt_square by lra. reflexivity. }
  assert (S2 := Gauss.sqrt2_pos). assert (S22 := Gauss.sqrt2_sq).
  apply (skewness_about _ _ _ c0 1 trM) with (v := V / 18); trab; [cbn; rewrite VE; field|].
  rewrite S18, SP. set (r := sqrt 2) in *. cbn [trM]. clearbody V. clear S0 S18 SP. set (w := sqrt V) in *. clearbody w.
  assert (VE' : V <> 0) by nra.
  transitivity (1 * ((q0 - p0) * (2 * q0 * q0 + 2 * p0 * p0 + 5 * p0 * q0) / 270)); [cbn; field|].
  transitivity ((r * r) * (a0 + b0 - 2 * c0) * (2 * a0 - b0 - c0) * (a0 - 2 * b0 + c0) / (5 * 18 * 3 * (r * r))).
  { rewrite S22. field. }
  field. repeat split; lra.
Qed.
Lemma tr_kurtosis : returns (kurtosis d) (is_kurtosis lo hi (density_of cd)).
Proof.
  unfold kurtosis, TWELVE_FIFTHS. xs. eexists; split; [reflexivity|].
  apply (kurtosis_about _ _ _ c0 1 trM) with (v := (p0 * p0 + q0 * q0 + p0 * q0) / 18); trab; [cbn; field|apply trV|].
  cbn [trM]. field. lra.
Qed.
End Triangular.
