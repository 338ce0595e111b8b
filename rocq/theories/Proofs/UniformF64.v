(** * Uniform<f64>::cdf in double arithmetic *)
From Coq Require Import Reals Lra Lia ZArith Psatz.
From Flocq Require Import Core IEEE754.BinarySingleNaN.
From Flocq Require Import Relative.
From Verif.Num Require Import Scalar F64.
From Verif.Model Require Import Rust Constraints Probability Params Consts Continuous.
From Verif.Spec Require Import ProbSpec.
Open Scope R_scope.

Lemma rnd_tie : rnd (1 + bpow radix2 (-53)) = 1.
Proof.
  assert (E : 1 + bpow radix2 (-53) = IZR (2 ^ 53 + 1) * bpow radix2 (-53)).
  { rewrite plus_IZR. change (IZR (2 ^ 53)) with (bpow radix2 53). rewrite Rmult_plus_distr_r, <- bpow_plus. change (bpow radix2 (53 + -53)) with 1. ring. }
  rewrite E. destruct (b64_spec (2 ^ 53 + 1) (-53)) as [_ H].
  - rewrite <- E. apply rnd_small. assert (0 < bpow radix2 (-53)) by apply bpow_gt_0.
    assert (bpow radix2 (-53) <= bpow radix2 0) by (apply bpow_le; lia). change (bpow radix2 0) with 1 in *.
    apply small_le. rewrite Rabs_pos_eq; lra.
  - rewrite <- H. replace (b64 (2 ^ 53 + 1) (-53)) with (b64 1 0); [apply RV_b64_1|].
    apply B2SF_inj. vm_compute. reflexivity.
Qed.

Lemma rnd_rel r : bpow radix2 (-1022) <= Rabs r -> Rabs (rnd r - r) <= bpow radix2 (-53) * Rabs r.
Proof.
  intros H. generalize (relative_error_N_FLT radix2 (-1074) 53 ltac:(lia) (fun x => negb (Z.even x)) r H).
  replace (/ 2 * bpow radix2 (- (53) + 1)) with (bpow radix2 (-53)); [auto|].
  change (/ 2) with (bpow radix2 (-1)). rewrite <- bpow_plus. reflexivity.
Qed.

Section U.
Context (m : Libm) (lb w : f64) (Hlb : fin lb) (Hw : fin w) (Hw0 : 0 < RV w) (Hw1 : RV w <= bpow radix2 1022)
  (Hub : fin (Bplus mode_NE lb w)) (Hpr : fin (Bdiv mode_NE (b64 1 0) w)).
Notation ub := (Bplus mode_NE lb w).
Notation pr := (Bdiv mode_NE (b64 1 0) w).
Notation d := (UniformF.new_unchecked (F := f64) lb w).

Lemma ub_val : RV ub = rnd (RV lb + RV w).
Proof.
  pose proof (Bplus_correct 53 1024 _ _ mode_NE lb w Hlb Hw) as H. cbn [round_mode] in H.
  destruct (Rlt_bool _ _) eqn:E; [apply H|]. destruct H as [H _]. exfalso. unfold fin in Hub.
  rewrite <- is_finite_SF_B2SF in Hub. rewrite H in Hub. discriminate.
Qed.
Lemma pr_val : RV pr = rnd (1 / RV w).
Proof.
  pose proof (Bdiv_correct 53 1024 _ _ mode_NE (b64 1 0) w ltac:(unfold RV in *; lra)) as H. cbn [round_mode] in H.
  rewrite <- RV_b64_1. destruct (Rlt_bool _ _) eqn:E; [apply H|]. exfalso. unfold fin in Hpr.
  rewrite <- is_finite_SF_B2SF in Hpr. rewrite H in Hpr. discriminate.
Qed.
Lemma pr_bounds : 0 <= RV pr /\ RV w * RV pr <= 1 + bpow radix2 (-53).
Proof.
  rewrite pr_val. assert (0 < 1 / RV w) by (apply Rdiv_lt_0_compat; lra). split.
  - rewrite <- rnd_0. apply rnd_le. lra.
  - assert (Hn : bpow radix2 (-1022) <= Rabs (1 / RV w)).
    { rewrite Rabs_pos_eq by lra. apply Rmult_le_reg_r with (RV w); [auto|].
      replace (1 / RV w * RV w) with 1 by (field; lra). apply Rle_trans with (bpow radix2 (-1022) * bpow radix2 1022).
      - apply Rmult_le_compat_l; [apply bpow_ge_0|auto].
      - rewrite <- bpow_plus. cbn. lra. }
    apply rnd_rel in Hn. rewrite (Rabs_pos_eq (1 / RV w)) in Hn by lra. apply Rabs_le_inv in Hn.
    assert (RV w * rnd (1 / RV w) <= RV w * (1 / RV w + bpow radix2 (-53) * (1 / RV w))).
    { apply Rmult_le_compat_l; lra. }
    replace (RV w * (1 / RV w + bpow radix2 (-53) * (1 / RV w))) with (1 + bpow radix2 (-53)) in H0 by (field; lra). lra.
Qed.
(** between the bounds: the value computed *)
Lemma mid_val x : fin x -> RV lb <= RV x -> RV x < RV ub ->
  fin (Bmult mode_NE (Bminus mode_NE x lb) pr) /\
  RV (Bmult mode_NE (Bminus mode_NE x lb) pr) = rnd (rnd (RV x - RV lb) * RV pr) /\
  0 <= rnd (rnd (RV x - RV lb) * RV pr) <= 1.
Proof.
  intros Hx H1 H2.
  assert (Hle : RV x <= RV lb + RV w).
  { apply Rnot_lt_le; intros Hlt. assert (RV ub <= RV x); [|lra]. rewrite ub_val, <- (rnd_RV x). apply rnd_le. lra. }
  assert (R1 : 0 <= rnd (RV x - RV lb) <= RV w).
  { split; [rewrite <- rnd_0; apply rnd_le; lra|]. apply rnd_le_fmt; [apply fmt_RV|lra]. }
  assert (HwM : RV w < bpow radix2 1024) by (apply Rle_lt_trans with (1 := Hw1); apply bpow_lt; lia).
  destruct (sub_spec x lb Hx Hlb) as [F1 E1]; [rewrite Rabs_pos_eq; lra|].
  destruct pr_bounds as [P0 P1].
  assert (R2 : 0 <= rnd (rnd (RV x - RV lb) * RV pr) <= 1).
  { split; [rewrite <- rnd_0; apply rnd_le; apply Rmult_le_pos; lra|].
    rewrite <- rnd_tie. apply rnd_le. apply Rle_trans with (2 := P1). apply Rmult_le_compat_r; lra. }
  destruct (mul_spec (Bminus mode_NE x lb) pr F1 Hpr) as [F2 E2].
  { rewrite E1, Rabs_pos_eq by lra. generalize bpow64_big; lra. }
  rewrite E1 in E2. auto.
Qed.
Lemma cdf_shape x : UniformF.cdf d x = if Bltb x lb then p_zero else if Bleb ub x then p_one else Prob (Bmult mode_NE (Bminus mode_NE x lb) pr).
Proof. reflexivity. Qed.
Lemma nan_cases (x : f64) : is_nan x = false -> fin x \/ x = B754_infinity true \/ x = B754_infinity false.
Proof. destruct x as [| [] | |]; intros; try discriminate; auto; left; reflexivity. Qed.
(** the three regimes *)
Lemma cdf_cases x : is_nan x = false ->
  (Bltb x lb = true /\ unwrap (UniformF.cdf d x) = b64 0 0) \/
  (Bltb x lb = false /\ Bleb ub x = true /\ unwrap (UniformF.cdf d x) = b64 1 0) \/
  (fin x /\ RV lb <= RV x /\ RV x < RV ub /\ Bltb x lb = false /\ Bleb ub x = false /\
   fin (unwrap (UniformF.cdf d x)) /\ RV (unwrap (UniformF.cdf d x)) = rnd (rnd (RV x - RV lb) * RV pr) /\
   0 <= RV (unwrap (UniformF.cdf d x)) <= 1).
Proof.
  intros Hn. rewrite cdf_shape. destruct (Bltb x lb) eqn:E1; [left; auto|right].
  destruct (Bleb ub x) eqn:E2; [left; auto|right].
  destruct (nan_cases x Hn) as [Hx|[->| ->]].
  - assert (H1 : RV lb <= RV x). { apply Rnot_lt_le; intros H. apply (ltb_spec x lb Hx Hlb) in H. congruence. }
    assert (H2 : RV x < RV ub). { apply Rnot_le_lt; intros H. apply (leb_spec ub x Hub Hx) in H. congruence. }
    destruct (mid_val x Hx H1 H2) as [F [E B]]. cbn [unwrap]. rewrite E. auto 10.
  - exfalso. destruct lb; try discriminate; unfold fin in Hlb; discriminate.
  - exfalso. destruct ub; try discriminate; unfold fin in Hub; discriminate.
Qed.
Lemma cdf_valid64 x : is_nan x = false -> valid_prob (unwrap (UniformF.cdf d x)).
Proof.
  intros Hn. destruct (cdf_cases x Hn) as [[_ ->]|[[_ [_ ->]]|[_ [_ [_ [_ [_ [F [E B]]]]]]]]].
  - split; [apply fin_b64_0|]. fold (RV (b64 0 0)). rewrite RV_b64_0. lra.
  - split; [apply fin_b64_1|]. fold (RV (b64 1 0)). rewrite RV_b64_1. lra.
  - split; [exact F|exact B].
Qed.
Lemma ltb_leb_trans (x y z : f64) : Bleb x y = true -> Bltb y z = true -> Bltb x z = true.
Proof.
  intros H1 H2. destruct x as [|[]| |], y as [|[]| |], z as [|[]| |]; try discriminate; try reflexivity.
  all: apply leb_spec in H1; [|reflexivity..]; apply ltb_spec in H2; [|reflexivity..]; apply ltb_spec; [reflexivity..|]; lra.
Qed.
Lemma leb_leb_trans (x y z : f64) : Bleb x y = true -> Bleb y z = true -> Bleb x z = true.
Proof.
  intros H1 H2. destruct x as [|[]| |], y as [|[]| |], z as [|[]| |]; try discriminate; try reflexivity.
  all: apply leb_spec in H1; [|reflexivity..]; apply leb_spec in H2; [|reflexivity..]; apply leb_spec; [reflexivity..|]; lra.
Qed.
Lemma cdf_mono64 x y : is_nan x = false -> is_nan y = false -> Bleb x y = true ->
  Bleb (unwrap (UniformF.cdf d x)) (unwrap (UniformF.cdf d y)) = true.
Proof.
  intros Hx Hy Hxy.
  assert (Vy := cdf_valid64 y Hy). assert (Vx := cdf_valid64 x Hx).
  destruct (cdf_cases x Hx) as [[Cx ->]|[[_ [Cx Ex]]|[Fx [Lx [Ux [_ [_ [F [E B]]]]]]]]].
  - apply (proj2 (leb_spec _ _ fin_b64_0 (proj1 Vy))). rewrite RV_b64_0. apply Vy.
  - rewrite Ex. replace (unwrap (UniformF.cdf d y)) with (b64 1 0); [apply (proj2 (leb_spec _ _ fin_b64_1 fin_b64_1)); lra|].
    rewrite cdf_shape. assert (H := leb_leb_trans _ _ _ Cx Hxy). rewrite H.
    destruct (Bltb y lb) eqn:Ey; [|reflexivity]. exfalso.
    assert (Hc := ltb_leb_trans _ _ _ Hxy Ey). 
    assert (Hc2 := ltb_leb_trans _ _ _ Cx Hc). apply (proj1 (ltb_spec _ _ Hub Hlb)) in Hc2. rewrite ub_val in Hc2.
    assert (RV lb <= rnd (RV lb + RV w)); [|lra]. rewrite <- (rnd_RV lb) at 1. apply rnd_le. lra.
  - destruct (cdf_cases y Hy) as [[Cy Ey]|[[_ [_ Ey]]|[Fy [Ly [Uy [_ [_ [F' [E' B']]]]]]]]].
    + exfalso. assert (Hc := ltb_leb_trans _ _ _ Hxy Cy). apply (proj1 (ltb_spec _ _ Fx Hlb)) in Hc. lra.
    + rewrite Ey. apply (proj2 (leb_spec _ _ F fin_b64_1)). rewrite RV_b64_1. apply B.
    + apply (proj2 (leb_spec _ _ F F')). rewrite E, E'. apply rnd_le. apply Rmult_le_compat_r; [apply pr_bounds|].
      apply rnd_le. apply (proj1 (leb_spec _ _ Fx Fy)) in Hxy. lra.
Qed.
End U.
