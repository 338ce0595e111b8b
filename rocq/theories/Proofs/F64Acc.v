(** * Relative accuracy of double arithmetic on positive values: [acc n l h x r] says that x is r after at most n roundings, 2^l <= r <= 2^h *)
From Coq Require Import Reals Lra Lia Psatz List ZArith Bool Machin.
From Flocq Require Import Core Relative IEEE754.BinarySingleNaN.
From Verif.Num Require Import Scalar F64.
From Verif.Spec Require Import LibmSpec.
From Verif.Proofs Require Import ProbProofs F64Order F64Cdf F64Pdf PiBound.
Open Scope R_scope.

Definition u53 : R := / 9007199254740992.
Definition acc (n : nat) (l h : Z) (x : f64) (r : R) : Prop :=
  fin x /\ bpow radix2 l <= r <= bpow radix2 h /\ (1 - u53) ^ n * r <= RV x /\ (1 - u53) ^ n * RV x <= r.

Lemma pow_pos n : 0 < (1 - u53) ^ n. Proof. apply pow_lt. unfold u53. lra. Qed.
Lemma pow_one n : (1 - u53) ^ n <= 1. Proof. apply Rle_trans with (1 ^ n); [apply pow_incr; unfold u53; lra|rewrite pow1; lra]. Qed.
Lemma pow_bernoulli n : 1 - INR n * u53 <= (1 - u53) ^ n.
Proof.
  assert (U : 0 < u53 < 1) by (unfold u53; lra). induction n as [|n IH]; [cbn [pow]; change (INR 0) with 0; lra|]. rewrite S_INR. cbn [pow].
  assert (N := pos_INR n). apply Rle_trans with ((1 - u53) * (1 - INR n * u53)); [assert (0 <= INR n * (u53 * u53)) by (apply Rmult_le_pos; [exact N|apply Rmult_le_pos; lra]); replace ((1 - u53) * (1 - INR n * u53)) with (1 - (INR n + 1) * u53 + INR n * (u53 * u53)) by ring; lra|]. apply Rmult_le_compat_l; lra.
Qed.
Lemma pow_half n : (n <= 1000)%nat -> / 2 <= (1 - u53) ^ n.
Proof. intros H. apply Rle_trans with (2 := pow_bernoulli n). assert (INR n <= 1000) by (rewrite INR_IZR_INZ; apply IZR_le; lia). unfold u53. lra. Qed.
Lemma acc_pos n l h x r : acc n l h x r -> 0 < r /\ 0 < RV x.
Proof. intros (F & [L _] & A & _). assert (P := bpow_gt_0 radix2 l). assert (Q := pow_pos n). split; [lra|]. assert (0 < (1 - u53) ^ n * r) by (apply Rmult_lt_0_compat; lra). lra. Qed.

(** one rounding *)
Lemma rnd_acc t : bpow radix2 (-1022) <= t -> (1 - u53) * t <= rnd t /\ (1 - u53) * rnd t <= t.
Proof.
  intros L. assert (P := bpow_gt_0 radix2 (-1022)). assert (E : Rabs (rnd t - t) <= / 2 * bpow radix2 (- (53) + 1) * Rabs t).
  { apply (relative_error_N_FLT radix2 (-1074) 53 ltac:(lia) (fun x => negb (Z.even x)) t). rewrite Rabs_pos_eq by lra. exact L. }
  rewrite (Rabs_pos_eq t) in E by lra. change (bpow radix2 (- (53) + 1)) with (/ 4503599627370496) in E. apply Rabs_le_inv in E. unfold u53. split; lra.
Qed.
Lemma acc_of n m l h z t r : num z -> V z = sat t -> bpow radix2 l <= r <= bpow radix2 h -> (1 - u53) ^ n * r <= t -> (1 - u53) ^ n * t <= r ->
  (n <= 900)%nat -> m = S n -> (-1000 <= l)%Z -> (h <= 1000)%Z -> acc m l h z r.
Proof.
  intros N E B A1 A2 Hn -> L H. assert (Ph := pow_half n ltac:(lia)). assert (P := bpow_gt_0 radix2 l). assert (Q := M64_pos).
  assert (T1 : bpow radix2 (-1022) <= t). { apply Rle_trans with (/ 2 * r); [|nra]. apply Rle_trans with (/ 2 * bpow radix2 (-1000)); [|assert (X := bpow_le radix2 _ _ L); lra]. change (/ 2) with (bpow radix2 (-1)). rewrite <- bpow_plus. apply bpow_le. lia. }
  assert (P2 := bpow_gt_0 radix2 (-1022)).
  assert (T2 : t <= bpow radix2 1001). { apply Rle_trans with (2 * r); [nra|]. apply Rle_trans with (2 * bpow radix2 1000); [assert (X := bpow_le radix2 _ _ H); lra|]. change 2 with (bpow radix2 1) at 1. rewrite <- bpow_plus. apply bpow_le. lia. }
  destruct (rnd_acc t T1) as [R1 R2].
  assert (M : bpow radix2 1001 < M64) by (change M64 with (bpow radix2 1024); apply bpow_lt; lia).
  assert (R0 : 0 <= rnd t) by (apply rnd_pos_of; lra). assert (R3 : rnd t <= bpow radix2 1001) by (apply rnd_le_fmt; [apply fmt_bpow; lia|exact T2]).
  unfold sat in E. rewrite clamp_id in E by lra. assert (F : fin z) by (apply V_fin_iff; [exact N|rewrite E; lra]). rewrite V_fin in E by exact F.
  split; [exact F|]. split; [exact B|]. rewrite E. cbn [pow]. assert (U : 0 < 1 - u53 < 1) by (unfold u53; lra). assert (Pn := pow_pos n). split.
  - apply Rle_trans with (2 := R1). rewrite Rmult_assoc. apply Rmult_le_compat_l; [lra|exact A1].
  - replace ((1 - u53) * (1 - u53) ^ n * rnd t) with ((1 - u53) ^ n * ((1 - u53) * rnd t)) by ring. apply Rle_trans with (2 := A2). apply Rmult_le_compat_l; lra.
Qed.

Lemma acc_mult n m k l h l' h' x y r s : acc n l h x r -> acc m l' h' y s -> k = S (n + m) -> (k <= 900)%nat -> (-1000 <= l + l')%Z -> (h + h' <= 1000)%Z ->
  acc k (l + l') (h + h') (Bmult mode_NE x y) (r * s).
Proof.
  intros A B -> K L H. assert (PA := acc_pos _ _ _ _ _ A). assert (PB := acc_pos _ _ _ _ _ B). destruct A as (Fx & Bx & A1 & A2). destruct B as (Fy & By & B1 & B2).
  destruct (V_mult x y Fx Fy) as [N E]. assert (P := bpow_gt_0 radix2 l). assert (P' := bpow_gt_0 radix2 l'). assert (Q := pow_pos n). assert (Q' := pow_pos m).
  apply (acc_of (n + m) _ (l + l') (h + h') _ (RV x * RV y) (r * s) N E); auto; try lia; rewrite ?bpow_plus, ?pow_add.
  - split; apply Rmult_le_compat; lra.
  - replace ((1 - u53) ^ n * (1 - u53) ^ m * (r * s)) with ((1 - u53) ^ n * r * ((1 - u53) ^ m * s)) by ring. apply Rmult_le_compat; auto; apply Rlt_le, Rmult_lt_0_compat; lra.
  - replace ((1 - u53) ^ n * (1 - u53) ^ m * (RV x * RV y)) with ((1 - u53) ^ n * RV x * ((1 - u53) ^ m * RV y)) by ring. apply Rmult_le_compat; auto; apply Rlt_le, Rmult_lt_0_compat; lra.
Qed.
Lemma inv_le a b c : 0 < c -> 0 < a -> 0 < b -> c * a <= b -> c * / b <= / a.
Proof. intros C A B H. apply Rmult_le_reg_r with (a * b); [now apply Rmult_lt_0_compat|]. replace (c * / b * (a * b)) with (c * a) by (field; lra). replace (/ a * (a * b)) with b by (field; lra). exact H. Qed.
Lemma acc_div n m k l h l' h' x y r s : acc n l h x r -> acc m l' h' y s -> k = S (n + m) -> (k <= 900)%nat -> (-1000 <= l - h')%Z -> (h - l' <= 1000)%Z ->
  acc k (l - h') (h - l') (Bdiv mode_NE x y) (r / s).
Proof.
  intros A B -> K L H. assert (PA := acc_pos _ _ _ _ _ A). assert (PB := acc_pos _ _ _ _ _ B). destruct A as (Fx & Bx & A1 & A2). destruct B as (Fy & By & B1 & B2).
  destruct (V_div x y Fx Fy ltac:(lra)) as [N E]. assert (P := bpow_gt_0 radix2 l). assert (P' := bpow_gt_0 radix2 l'). assert (Q := pow_pos n). assert (Q' := pow_pos m).
  assert (I1 := inv_le _ _ _ Q' (proj1 PB) (proj2 PB) B1). assert (I2 := inv_le _ _ _ Q' (proj2 PB) (proj1 PB) B2). assert (J := Rinv_0_lt_compat _ (proj1 PB)). assert (J' := Rinv_0_lt_compat _ (proj2 PB)).
  unfold Zminus in *. apply (acc_of (n + m) _ (l + - h') (h + - l') _ (RV x / RV y) (r / s) N E); auto; try lia; rewrite ?bpow_plus, ?pow_add; unfold Rdiv.
  - rewrite !bpow_opp. split; apply Rmult_le_compat; try lra; try (apply Rlt_le, Rinv_0_lt_compat, bpow_gt_0); apply Rinv_le; lra.
  - replace ((1 - u53) ^ n * (1 - u53) ^ m * (r * / s)) with ((1 - u53) ^ n * r * ((1 - u53) ^ m * / s)) by ring. apply Rmult_le_compat; auto; apply Rlt_le, Rmult_lt_0_compat; lra.
  - replace ((1 - u53) ^ n * (1 - u53) ^ m * (RV x * / RV y)) with ((1 - u53) ^ n * RV x * ((1 - u53) ^ m * / RV y)) by ring. apply Rmult_le_compat; auto; apply Rlt_le, Rmult_lt_0_compat; lra.
Qed.
Lemma pow_max n m : (1 - u53) ^ Nat.max n m <= (1 - u53) ^ n.
Proof.
  replace (Nat.max n m) with (n + (Nat.max n m - n))%nat by lia. rewrite pow_add. rewrite <- (Rmult_1_r ((1 - u53) ^ n)) at 2. apply Rmult_le_compat_l; [apply Rlt_le, pow_pos|apply pow_one].
Qed.
Lemma acc_plus n m k l h l' h' x y r s : acc n l h x r -> acc m l' h' y s -> k = S (Nat.max n m) -> (k <= 900)%nat -> (-1000 <= Z.min l l')%Z -> (Z.max h h' + 1 <= 1000)%Z ->
  acc k (Z.min l l') (Z.max h h' + 1) (Bplus mode_NE x y) (r + s).
Proof.
  intros A B -> K L H. assert (PA := acc_pos _ _ _ _ _ A). assert (PB := acc_pos _ _ _ _ _ B). destruct A as (Fx & Bx & A1 & A2). destruct B as (Fy & By & B1 & B2).
  destruct (V_plus x y Fx Fy) as [N E]. assert (P := bpow_gt_0 radix2 l). assert (P' := bpow_gt_0 radix2 l'). assert (Q := pow_max n m). assert (Q' := pow_max m n). rewrite Nat.max_comm in Q'.
  assert (W := pow_pos (Nat.max n m)). apply (acc_of (Nat.max n m) _ _ _ _ (RV x + RV y) (r + s) N E); auto; try lia.
  - assert (X1 := bpow_le radix2 _ _ (Z.le_min_l l l')). assert (X2 := bpow_le radix2 _ _ (Z.le_max_l h h')). assert (X3 := bpow_le radix2 _ _ (Z.le_max_r h h')). rewrite bpow_plus. change (bpow radix2 1) with 2. lra.
  - assert ((1 - u53) ^ Nat.max n m * r <= (1 - u53) ^ n * r) by (apply Rmult_le_compat_r; lra). assert ((1 - u53) ^ Nat.max n m * s <= (1 - u53) ^ m * s) by (apply Rmult_le_compat_r; lra). lra.
  - assert ((1 - u53) ^ Nat.max n m * RV x <= (1 - u53) ^ n * RV x) by (apply Rmult_le_compat_r; lra). assert ((1 - u53) ^ Nat.max n m * RV y <= (1 - u53) ^ m * RV y) by (apply Rmult_le_compat_r; lra). lra.
Qed.
Lemma acc_weak n l h l' h' x r : acc n l h x r -> (l' <= l)%Z -> (h <= h')%Z -> acc n l' h' x r.
Proof. intros (F & B & C & D) L H. split; [exact F|]. split; [|auto]. assert (X := bpow_le radix2 _ _ L). assert (Y := bpow_le radix2 _ _ H). lra. Qed.
Lemma acc_sqrt n k l h x r : acc n l h x r -> k = S n -> (k <= 900)%nat -> (-1000 <= l)%Z -> (h <= 1000)%Z -> acc k (Z.min l 0) (Z.max h 0) (Bsqrt mode_NE x) (sqrt r).
Proof.
  intros A -> K L H. assert (PA := acc_pos _ _ _ _ _ A). destruct A as (Fx & Bx & A1 & A2). destruct (sqrt_pos64 x Fx (proj2 PA)) as [FS _].
  assert (E : RV (Bsqrt mode_NE x) = rnd (sqrt (RV x))). { unfold RV. rewrite (proj1 (Bsqrt_correct 53 1024 _ _ mode_NE x)). reflexivity. }
  assert (Q := pow_pos n). assert (Q1 := pow_one n). assert (S1 : 0 < sqrt r) by (apply sqrt_lt_R0; lra). assert (S2 : 0 < sqrt (RV x)) by (apply sqrt_lt_R0; lra).
  assert (SC : (1 - u53) ^ n <= sqrt ((1 - u53) ^ n)). { set (c := (1 - u53) ^ n) in *. rewrite <- (sqrt_sqrt c) at 1 by lra. assert (0 < sqrt c) by (apply sqrt_lt_R0; lra). assert (sqrt c <= 1) by (rewrite <- sqrt_1; apply sqrt_le_1; lra). nra. }
  assert (B1 : (1 - u53) ^ n * sqrt r <= sqrt (RV x)). { apply Rle_trans with (sqrt ((1 - u53) ^ n) * sqrt r); [apply Rmult_le_compat_r; lra|]. rewrite <- sqrt_mult by lra. apply sqrt_le_1; [apply Rmult_le_pos; lra|lra|exact A1]. }
  assert (B2 : (1 - u53) ^ n * sqrt (RV x) <= sqrt r). { apply Rle_trans with (sqrt ((1 - u53) ^ n) * sqrt (RV x)); [apply Rmult_le_compat_r; lra|]. rewrite <- sqrt_mult by lra. apply sqrt_le_1; [apply Rmult_le_pos; lra|lra|exact A2]. }
  assert (BB : bpow radix2 (Z.min l 0) <= sqrt r <= bpow radix2 (Z.max h 0)).
  { split.
    - assert (X := bpow_le radix2 _ _ (Z.le_min_l l 0)). assert (Y := bpow_le radix2 _ _ (Z.le_min_r l 0)). change (bpow radix2 0) with 1 in Y. assert (Z := bpow_gt_0 radix2 (Z.min l 0)). set (w := bpow radix2 (Z.min l 0)) in *.
      destruct (Rle_lt_dec w (sqrt r)) as [G|G]; [exact G|]. assert (T := sqrt_sqrt r ltac:(lra)). nra.
    - assert (X := bpow_le radix2 _ _ (Z.le_max_l h 0)). assert (Y := bpow_le radix2 _ _ (Z.le_max_r h 0)). change (bpow radix2 0) with 1 in Y. set (w := bpow radix2 (Z.max h 0)) in *.
      destruct (Rle_lt_dec (sqrt r) w) as [G|G]; [exact G|]. assert (T := sqrt_sqrt r ltac:(lra)). nra. }
  split; [exact FS|]. split; [exact BB|]. rewrite E. destruct (rnd_acc (sqrt (RV x))) as [R1 R2].
  { apply Rle_trans with ((1 - u53) ^ n * sqrt r); [|exact B1]. apply Rle_trans with (/ 2 * bpow radix2 (Z.min l 0)); [|assert (H2 := pow_half n ltac:(lia)); assert (Z := bpow_gt_0 radix2 (Z.min l 0)); apply Rmult_le_compat; lra].
    change (/ 2) with (bpow radix2 (-1)). rewrite <- bpow_plus. apply bpow_le. lia. }
  cbn [pow]. assert (U : 0 < 1 - u53 < 1) by (unfold u53; lra). split.
  - apply Rle_trans with (2 := R1). rewrite Rmult_assoc. apply Rmult_le_compat_l; lra.
  - replace ((1 - u53) * (1 - u53) ^ n * rnd (sqrt (RV x))) with ((1 - u53) ^ n * ((1 - u53) * rnd (sqrt (RV x)))) by ring. apply Rle_trans with (2 := B2). apply Rmult_le_compat_l; lra.
Qed.
Lemma acc_exact x l h : fin x -> bpow radix2 l <= RV x <= bpow radix2 h -> acc 0 l h x (RV x).
Proof. intros F B. split; [exact F|]. split; [exact B|]. cbn [pow]. lra. Qed.
Lemma acc_int z h : (1 <= z <= 2 ^ 53)%Z -> IZR z <= bpow radix2 h -> acc 0 0 h (b64 z 0) (IZR z).
Proof. intros H B. destruct (b64_z z ltac:(lia)) as [F E]. split; [exact F|]. cbn [pow bpow]. rewrite E. assert (1 <= IZR z) by (apply IZR_le; lia). lra. Qed.
(** the difference of two exact values *)
Lemma acc_minus x y l h : fin x -> fin y -> bpow radix2 l <= RV x - RV y <= bpow radix2 h -> (-1000 <= l)%Z -> (h <= 1000)%Z -> acc 1 l h (Bminus mode_NE x y) (RV x - RV y).
Proof.
  intros Fx Fy B L H. destruct (V_minus x y Fx Fy) as [N E]. apply (acc_of 0 1 l h _ (RV x - RV y) _ N E); auto; try lia; cbn [pow]; lra.
Qed.
(** doubles from 1 on are multiples of 2^-52 *)
Lemma above_int x z : fin x -> (1 <= z)%Z -> IZR z < RV x -> bpow radix2 (-52) <= RV x - IZR z.
Proof.
  intros F Hz L. assert (G : fmt64 (RV x)) by apply fmt_RV. unfold generic_format, F2R in G. cbn [Fnum Fexp] in G. set (m := Ztrunc _) in G. set (e := cexp radix2 (SpecFloat.fexp 53 1024) (RV x)) in *.
  assert (Z1 : 1 <= IZR z) by (apply IZR_le; lia).
  assert (E : (-52 <= e)%Z). { unfold e, cexp, SpecFloat.fexp. assert (M : (1 <= mag radix2 (RV x))%Z) by (apply mag_ge_bpow; cbn [bpow Z.sub]; rewrite Rabs_pos_eq by lra; change (bpow radix2 (1 - 1)) with 1; lra). unfold SpecFloat.emin. lia. }
  assert (EX : exists k, RV x = IZR k * bpow radix2 (-52)). { exists (m * 2 ^ (e + 52))%Z. rewrite G, mult_IZR, (IZR_Zpower radix2) by lia. rewrite Rmult_assoc, <- bpow_plus. f_equal. f_equal. lia. }
  destruct EX as (k & EX). assert (EZ : IZR z = IZR (z * 2 ^ 52) * bpow radix2 (-52)). { rewrite mult_IZR. change (IZR (2 ^ 52)) with (bpow radix2 52). rewrite Rmult_assoc, <- bpow_plus. change (bpow radix2 (52 + -52)) with 1. ring. }
  assert (P := bpow_gt_0 radix2 (-52)). rewrite EX, EZ in L. rewrite EX, EZ. assert (K : (z * 2 ^ 52 < k)%Z) by (apply lt_IZR; apply Rmult_lt_reg_r with (1 := P); exact L).
  assert (K1 : IZR (z * 2 ^ 52) + 1 <= IZR k) by (rewrite <- plus_IZR; apply IZR_le; lia). rewrite <- Rmult_minus_distr_r. rewrite <- (Rmult_1_l (bpow radix2 (-52))) at 1. apply Rmult_le_compat_r; lra.
Qed.

(** in units of the last place *)
Lemma acc_within n l h x r : acc n l h x r -> (n <= 1000)%nat -> fin x /\ Rabs (RV x - r) <= INR n * / 4503599627370496 * Rabs r.
Proof.
  intros A Hn. assert (P := acc_pos _ _ _ _ _ A). destruct A as (F & _ & A1 & A2). split; [exact F|]. assert (B := pow_bernoulli n). assert (H := pow_half n Hn). assert (Q := pow_one n). set (c := (1 - u53) ^ n) in *.
  assert (N := pos_INR n). rewrite (Rabs_pos_eq r) by lra. set (v := INR n * u53) in *. replace (INR n * / 4503599627370496 * r) with (2 * v * r) by (unfold v, u53; field). assert (V0 : 0 <= v) by (unfold v, u53; lra).
  apply Rabs_le. split.
  - assert ((1 - v) * r <= c * r) by (apply Rmult_le_compat_r; lra). assert (0 <= v * r) by (apply Rmult_le_pos; lra). lra.
  - assert (RV x * (1 - c) <= 2 * v * r); [|nra]. apply Rle_trans with (RV x * v); [apply Rmult_le_compat_l; lra|].
    assert (RV x <= 2 * r) by nra. replace (2 * v * r) with (2 * r * v) by ring. now apply Rmult_le_compat_r.
Qed.
Lemma pi_ub : PI / 2 < 14148475504056881 / 9007199254740992.
Proof.
  destruct (PI_2_3_7_ineq 9) as [_ L]. cbn [Nat.mul Nat.add] in L.
  assert (E : forall n : nat, tg_alt PI_2_3_7_tg n = (-1) ^ n * (2 * (/ 3) ^ (2 * n + 1) * / INR (2 * n + 1) + (/ 7) ^ (2 * n + 1) * / INR (2 * n + 1))).
  { intros n. unfold tg_alt, PI_2_3_7_tg, Ratan_seq. unfold Rdiv. ring. }
  assert (E2 : PI / 4 <= sum_f_R0 (fun n : nat => (-1) ^ n * (2 * (/ 3) ^ (2 * n + 1) * / INR (2 * n + 1) + (/ 7) ^ (2 * n + 1) * / INR (2 * n + 1))) 18).
  { eapply Rle_trans; [exact L|]. right. apply sum_eq. intros i _. apply E. }
  clear L E. rename E2 into L. cbn [sum_f_R0] in L. cbn [Nat.mul Nat.add] in L. rewrite !INR_IZR_INZ in L. cbn [Z.of_nat Pos.of_succ_nat Pos.succ] in L. rewrite !pow_inv in L.
  rewrite !pow_IZR in L.
  repeat match type of L with context [IZR (?a ^ ?b)] => let v := eval vm_compute in (a ^ b)%Z in change (IZR (a ^ b)) with (IZR v) in L end.
  lra.
Qed.
