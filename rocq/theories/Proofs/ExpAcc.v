(** * Relative accuracy through exponentials and powers, for a libm whose exp and pow are accurate, and through signed values *)
From Coq Require Import Reals Lra Lia Psatz List ZArith Bool.
From Flocq Require Import Core Relative IEEE754.BinarySingleNaN.
From Verif.Num Require Import Scalar F64.
From Verif.Spec Require Import LibmSpec AccuracySpec.
From Verif.Proofs Require Import ProbProofs F64Order F64Cdf F64Pdf F64Acc.
Open Scope R_scope.

Lemma acc_V n l h x y r : num x -> V x = V y -> acc n l h y r -> acc n l h x r.
Proof.
  intros N E (F & A). assert (Fx : fin x) by (apply V_fin_iff; [exact N|rewrite E; apply V_fin_iff; [now apply fin_num|exact F]]). split; [exact Fx|]. rewrite !V_fin in E by assumption. rewrite E. exact A.
Qed.
Lemma sat_neg t : sat (- t) = - sat t.
Proof.
  unfold sat. rewrite rnd_opp. assert (Q := M64_pos). unfold clamp, Rmax, Rmin. repeat destruct (Rle_dec _ _); lra.
Qed.
Lemma neg_mult n l h x y r : fin x -> fin y -> acc n l h (Bmult mode_NE x y) r -> acc n l h (Bopp (Bmult mode_NE (Bopp x) y)) r.
Proof.
  intros Fx Fy. destruct (V_mult x y Fx Fy) as [_ E]. destruct (V_mult (Bopp x) y (fin_opp _ Fx) Fy) as [N' E']. apply acc_V; [now apply num_opp|]. rewrite V_opp, E, E', RV_opp, <- sat_neg. f_equal. ring.
Qed.
Lemma neg_div n l h x y r : fin x -> fin y -> RV y <> 0 -> acc n l h (Bdiv mode_NE (Bopp x) y) r -> acc n l h (Bopp (Bdiv mode_NE x y)) r.
Proof.
  intros Fx Fy Z. destruct (V_div x y Fx Fy Z) as [N E]. destruct (V_div (Bopp x) y (fin_opp _ Fx) Fy Z) as [N' E']. apply acc_V; [now apply num_opp|]. rewrite V_opp, E, E', RV_opp, <- sat_neg. f_equal. field. exact Z.
Qed.
Lemma acc_opp2 n l h x r : acc n l h x r -> acc n l h (Bopp (Bopp x)) r.
Proof. intros A. destruct A as (F & A). apply (acc_V _ _ _ _ x); [apply num_opp, num_opp, fin_num, F| rewrite !V_opp; ring|split; [exact F|exact A]]. Qed.

(** signed: x is r up to n roundings *)
Definition sac (n : nat) (l h : Z) (x : f64) (r : R) : Prop := acc n l h x r \/ acc n l h (Bopp x) (- r).
Lemma sac_fin n l h x r : sac n l h x r -> fin x.
Proof. intros [(F & _)|(F & _)]; [exact F|]. apply fin_opp in F. now rewrite Bopp_involutive in F. Qed.
Lemma sac_div n m k l h l' h' x y r s : sac n l h x r -> acc m l' h' y s -> k = S (n + m) -> (k <= 900)%nat -> (-1000 <= l - h')%Z -> (h - l' <= 1000)%Z ->
  sac k (l - h') (h - l') (Bdiv mode_NE x y) (r / s).
Proof.
  intros A B K L1 L2 L3. assert (F := sac_fin _ _ _ _ _ A). assert (PB := acc_pos _ _ _ _ _ B). destruct A as [A|A]; [left|right].
  - eapply acc_div; eassumption.
  - replace (- (r / s)) with (- r / s) by (field; lra). apply neg_div; [exact F|apply B|lra|]. eapply acc_div; eassumption.
Qed.
Lemma sac_sq n k l h x r : sac n l h x r -> k = S (n + n) -> (k <= 900)%nat -> (-1000 <= l + l)%Z -> (h + h <= 1000)%Z ->
  acc k (l + l) (h + h) (Bmult mode_NE x x) (r * r) /\ acc k (l + l) (h + h) (Bopp (Bmult mode_NE (Bopp x) x)) (r * r).
Proof.
  intros A K L1 L2 L3. assert (F := sac_fin _ _ _ _ _ A). assert (G : acc k (l + l) (h + h) (Bmult mode_NE x x) (r * r)); [|split; [exact G|now apply neg_mult]].
  destruct A as [A|A]; [eapply acc_mult; eassumption|]. replace (r * r) with (- r * - r) by ring.
  assert (B : acc k (l + l) (h + h) (Bmult mode_NE (Bopp x) (Bopp x)) (- r * - r)) by (eapply acc_mult; eassumption).
  destruct (V_mult x x F F) as [N E]. destruct (V_mult (Bopp x) (Bopp x) (fin_opp _ F) (fin_opp _ F)) as [N' E']. apply (acc_V _ _ _ _ _ _ N) in B; [exact B|]. rewrite E, E', RV_opp. f_equal. ring.
Qed.
Lemma sac_minus x y : fin x -> fin y -> bpow radix2 (-100) <= Rabs (RV x - RV y) <= bpow radix2 100 -> sac 1 (-100) 100 (Bminus mode_NE x y) (RV x - RV y).
Proof.
  intros Fx Fy B. destruct (V_minus x y Fx Fy) as [N E]. unfold Rabs in B. destruct (Rcase_abs _) as [L|L]; [right|left; apply acc_minus; auto; lia].
  apply (acc_of 0 1 (-100) 100 _ (- (RV x - RV y)) _); auto; try lia; [now apply num_opp|now rewrite V_opp, E, <- sat_neg|cbn [pow]; lra|cbn [pow]; lra].
Qed.

(** ** exp *)
Lemma exp_S x : 1 + x <= exp x.
Proof. destruct (Req_dec x 0) as [->|H]; [rewrite exp_0; lra|]. apply Rlt_le, exp_ineq1, H. Qed.
Lemma exp_nat n x : exp (INR n * x) = exp x ^ n.
Proof. induction n as [|n IH]; [cbn [pow]; change (INR 0) with 0; rewrite Rmult_0_l; apply exp_0|]. rewrite S_INR. cbn [pow]. rewrite <- IH, <- exp_plus. f_equal. ring. Qed.
Lemma exp_u n : (1 - u53) ^ n <= exp (- (INR n * u53)).
Proof. replace (- (INR n * u53)) with (INR n * - u53) by ring. rewrite exp_nat. apply pow_incr. split; [unfold u53; lra|]. assert (X := exp_S (- u53)). lra. Qed.
Lemma exp_near a b N : Rabs (a - b) <= INR N * u53 -> (1 - u53) ^ N * exp b <= exp a.
Proof.
  intros H. apply Rabs_le_inv in H. apply Rle_trans with (exp (- (INR N * u53)) * exp b); [apply Rmult_le_compat_r; [apply Rlt_le, exp_pos|apply exp_u]|]. rewrite <- exp_plus. destruct (Rle_lt_or_eq_dec (- (INR N * u53) + b) a ltac:(lra)) as [L|L]; [apply Rlt_le, exp_increasing, L|rewrite L; lra].
Qed.
Lemma exp_32 x : x <= 32 -> exp x <= bpow radix2 64.
Proof.
  intros H. apply Rle_trans with (exp (INR 32 * 1)); [|rewrite exp_nat; change (bpow radix2 64) with (IZR (4 ^ Z.of_nat 32)); rewrite <- pow_IZR; apply pow_incr; split; [apply Rlt_le, exp_pos|assert (E := exp_le_3); lra]].
  rewrite INR_IZR_INZ. change (Z.of_nat 32) with 32%Z. rewrite Rmult_1_r. destruct (Rle_lt_or_eq_dec x 32 H) as [L|L]; [apply Rlt_le, exp_increasing, L|rewrite L; lra].
Qed.
Lemma exp_m32 x : -32 <= x -> bpow radix2 (-64) <= exp x.
Proof. intros H. replace x with (- - x) by ring. rewrite (exp_Ropp (- x)). change (-64)%Z with (- (64))%Z. rewrite bpow_opp. apply Rinv_le; [apply exp_pos|]. apply exp_32. lra. Qed.
Lemma acc_dist n l h x r B : acc n l h x r -> (n <= 900)%nat -> r <= INR B -> Rabs (RV x - r) <= INR (2 * B * n) * u53 /\ RV x <= 2 * r.
Proof.
  intros A Hn HB. assert (P := acc_pos _ _ _ _ _ A). destruct A as (_ & _ & A1 & A2). assert (W := pow_bernoulli n). assert (H := pow_half n ltac:(lia)). assert (Q := pow_one n). set (c := (1 - u53) ^ n) in *.
  rewrite !mult_INR. change (INR 2) with 2. assert (N := pos_INR n). assert (U : 0 < u53) by (unfold u53; lra). set (v := INR n * u53) in *. assert (V0 : 0 <= v) by (unfold v; nra).
  assert (T : RV x <= 2 * r) by nra. split; [|exact T]. replace (2 * INR B * INR n * u53) with (2 * (INR B * v)) by (unfold v; ring). assert (Y1 : r * v <= INR B * v) by (apply Rmult_le_compat_r; lra). assert (Y2 : RV x * v <= 2 * (INR B * v)) by (assert (RV x * v <= 2 * r * v) by (apply Rmult_le_compat_r; lra); lra).
  assert (Y0 : 0 <= r * v) by (apply Rmult_le_pos; lra). apply Rabs_le. split; [|]; [assert ((1 - v) * r <= c * r) by (apply Rmult_le_compat_r; lra); lra|]. assert (RV x * (1 - v) <= RV x * c) by (apply Rmult_le_compat_l; lra). lra.
Qed.
Lemma exp_core (m : Libm) N w t : exp_accurate m -> fin w -> Rabs (RV w) <= 64 -> Rabs t <= 32 -> Rabs (RV w - t) <= INR N * u53 -> acc (N + 3) (-64) 64 (m_exp w) (exp t).
Proof.
  intros HE F B T D. destruct (HE w F B) as [Fe Ee]. change (B2R w) with (RV w) in Ee. change (B2R (m_exp w)) with (RV (m_exp w)) in Ee. apply Rabs_le_inv in Ee. apply Rabs_le_inv in T.
  assert (D' : Rabs (t - RV w) <= INR N * u53) by (now rewrite Rabs_minus_sym). apply exp_near in D. apply exp_near in D'. set (e := exp (RV w)) in *. assert (Pe : 0 < e) by apply exp_pos. assert (Pt := exp_pos t). assert (PN := pow_pos N). assert (QN := pow_one N).
  assert (G1 := exp_32 t ltac:(lra)). assert (G2 := exp_m32 t ltac:(lra)). split; [exact Fe|]. split; [lra|].
  assert (U : 0 < u53 < / 1000) by (unfold u53; lra). change (/ 4503599627370496) with (/ 4503599627370496) in Ee. replace (/ 4503599627370496) with (2 * u53) in Ee by (unfold u53; field).
  assert (C1 : (1 - u53) ^ 3 <= 1 - 2 * u53) by (cbn [pow]; nra). assert (C2 : (1 - u53) ^ 3 * (1 + 2 * u53) <= 1) by (cbn [pow]; nra). assert (C0 := pow_pos 3). rewrite pow_add. set (c3 := (1 - u53) ^ 3) in *. set (cN := (1 - u53) ^ N) in *. split.
  - apply Rle_trans with (c3 * e); [|nra]. replace (cN * c3 * exp t) with (c3 * (cN * exp t)) by ring. apply Rmult_le_compat_l; lra.
  - apply Rle_trans with (cN * e); [|exact D']. rewrite Rmult_assoc. apply Rmult_le_compat_l; [lra|]. apply Rle_trans with (c3 * ((1 + 2 * u53) * e)); [apply Rmult_le_compat_l; lra|]. rewrite <- Rmult_assoc. rewrite <- (Rmult_1_l e) at 2. apply Rmult_le_compat_r; lra.
Qed.
Lemma acc_exp (m : Libm) B n k l h w r : exp_accurate m -> acc n l h w r -> (n <= 900)%nat -> (B <= 32)%nat -> r <= INR B -> k = (2 * B * n + 3)%nat -> acc k (-64) 64 (m_exp w) (exp r).
Proof.
  intros HE A Hn HB Hr ->. destruct (acc_dist _ _ _ _ _ B A Hn Hr) as [D T]. assert (P := acc_pos _ _ _ _ _ A). assert (L : INR B <= 32) by (rewrite INR_IZR_INZ; apply IZR_le; lia).
  apply (exp_core m (2 * B * n)); auto; [apply A|rewrite Rabs_pos_eq; lra|rewrite Rabs_pos_eq; lra].
Qed.
Lemma acc_exp_neg (m : Libm) B n k l h w r : exp_accurate m -> acc n l h (Bopp w) r -> (n <= 900)%nat -> (B <= 32)%nat -> r <= INR B -> k = (2 * B * n + 3)%nat -> acc k (-64) 64 (m_exp w) (exp (- r)).
Proof.
  intros HE A Hn HB Hr ->. destruct (acc_dist _ _ _ _ _ B A Hn Hr) as [D T]. assert (P := acc_pos _ _ _ _ _ A). assert (L : INR B <= 32) by (rewrite INR_IZR_INZ; apply IZR_le; lia).
  rewrite RV_opp in *. apply (exp_core m (2 * B * n)); auto; [destruct A as (F & _); apply fin_opp in F; now rewrite Bopp_involutive in F|rewrite Rabs_left; lra|rewrite Rabs_left; lra|].
  replace (RV w - - r) with (- (- RV w - r)) by ring. now rewrite Rabs_Ropp.
Qed.
Lemma sac_exp (m : Libm) B n k l h w r : exp_accurate m -> sac n l h w r -> (n <= 900)%nat -> (B <= 32)%nat -> Rabs r <= INR B -> k = (2 * B * n + 3)%nat -> acc k (-64) 64 (m_exp (Bopp w)) (exp (- r)).
Proof.
  intros HE A Hn HB Hr K. apply Rabs_le_inv in Hr. destruct A as [A|A].
  - eapply acc_exp_neg; [exact HE|apply acc_opp2; exact A|exact Hn|exact HB|lra|exact K].
  - eapply acc_exp; [exact HE|exact A|exact Hn|exact HB|lra|exact K].
Qed.

(** ** pow, at a base within n roundings and an exponent within p *)
Lemma pow_core (m : Libm) N x y t : pow_accurate m -> fin x -> fin y -> 0 < RV x -> Rabs (RV y * ln (RV x)) <= 64 -> Rabs t <= 32 -> Rabs (RV y * ln (RV x) - t) <= INR N * u53 -> acc (N + 3) (-64) 64 (m_powf x y) (exp t).
Proof.
  intros HE F Fy Px B T D. destruct (HE x y F Fy Px B) as [Fe Ee]. change (B2R x) with (RV x) in Ee. change (B2R y) with (RV y) in Ee. change (B2R (m_powf x y)) with (RV (m_powf x y)) in Ee. unfold Rpower in Ee. set (w := RV y * ln (RV x)) in *. apply Rabs_le_inv in Ee. apply Rabs_le_inv in T.
  assert (D' : Rabs (t - w) <= INR N * u53) by (now rewrite Rabs_minus_sym). apply exp_near in D. apply exp_near in D'. set (e := exp w) in *. assert (Pe : 0 < e) by apply exp_pos. assert (Pt := exp_pos t). assert (PN := pow_pos N). assert (QN := pow_one N).
  assert (G1 := exp_32 t ltac:(lra)). assert (G2 := exp_m32 t ltac:(lra)). split; [exact Fe|]. split; [lra|].
  assert (U : 0 < u53 < / 1000) by (unfold u53; lra). replace (/ 4503599627370496) with (2 * u53) in Ee by (unfold u53; field).
  assert (C1 : (1 - u53) ^ 3 <= 1 - 2 * u53) by (cbn [pow]; nra). assert (C2 : (1 - u53) ^ 3 * (1 + 2 * u53) <= 1) by (cbn [pow]; nra). assert (C0 := pow_pos 3). rewrite pow_add. set (c3 := (1 - u53) ^ 3) in *. set (cN := (1 - u53) ^ N) in *. split.
  - apply Rle_trans with (c3 * e); [|nra]. replace (cN * c3 * exp t) with (c3 * (cN * exp t)) by ring. apply Rmult_le_compat_l; lra.
  - apply Rle_trans with (cN * e); [|exact D']. rewrite Rmult_assoc. apply Rmult_le_compat_l; [lra|]. apply Rle_trans with (c3 * ((1 + 2 * u53) * e)); [apply Rmult_le_compat_l; lra|]. rewrite <- Rmult_assoc. rewrite <- (Rmult_1_l e) at 2. apply Rmult_le_compat_r; lra.
Qed.
Lemma ln_u n : - ln ((1 - u53) ^ n) <= INR n * (2 * u53).
Proof.
  rewrite ln_pow by (unfold u53; lra). assert (U : 0 < u53 < / 1000) by (unfold u53; lra). assert (N := pos_INR n). replace (- (INR n * ln (1 - u53))) with (INR n * - ln (1 - u53)) by ring. apply Rmult_le_compat_l; [exact N|].
  assert (H : exp (- (2 * u53)) <= 1 - u53). { rewrite exp_Ropp. assert (E := exp_S (2 * u53)). assert (1 <= (1 - u53) * (1 + 2 * u53)) by nra. apply Rmult_le_reg_l with (exp (2 * u53)); [apply exp_pos|]. rewrite Rinv_r by (apply Rgt_not_eq, exp_pos). nra. }
  destruct (Rle_lt_or_eq_dec _ _ H) as [L|L]; [apply ln_increasing in L; [|apply exp_pos]|apply (f_equal ln) in L]; rewrite ln_exp in L; lra.
Qed.
Lemma ln_near n l h x r : acc n l h x r -> Rabs (ln (RV x) - ln r) <= INR n * (2 * u53).
Proof.
  intros A. assert (P := acc_pos _ _ _ _ _ A). destruct A as (_ & _ & A1 & A2). assert (C := pow_pos n). assert (L := ln_u n). set (c := (1 - u53) ^ n) in *.
  assert (M : forall a b, 0 < a -> 0 < b -> c * a <= b -> ln a + ln c <= ln b).
  { intros a b Pa Pb H. rewrite <- ln_mult by assumption. rewrite Rmult_comm. destruct (Rle_lt_or_eq_dec _ _ H) as [X|X]; [apply Rlt_le, ln_increasing; [now apply Rmult_lt_0_compat|exact X]|rewrite X; lra]. }
  assert (M1 := M _ _ (proj1 P) (proj2 P) A1). assert (M2 := M _ _ (proj2 P) (proj1 P) A2). apply Rabs_le. lra.
Qed.
Lemma acc_pow (m : Libm) S B n p k l h l' h' x y r s : pow_accurate m -> acc n l h x r -> acc p l' h' y s -> s <= INR S -> Rabs (s * ln r) <= INR B -> (B <= 32)%nat -> (p <= 900)%nat -> (4 * n * S + 2 * p * B + 3 <= 900)%nat -> k = (4 * n * S + 2 * p * B + 3)%nat ->
  acc k (-64) 64 (m_powf x y) (Rpower r s).
Proof.
  intros HP A A' HS HB LB Lp LN ->. assert (D := ln_near _ _ _ _ _ A). assert (P := acc_pos _ _ _ _ _ A). assert (P' := acc_pos _ _ _ _ _ A'). unfold Rpower.
  assert (Q := A'). destruct Q as (Fy & _ & A1 & A2). assert (W := pow_bernoulli p). assert (H := pow_half p ltac:(lia)). assert (Q1 := pow_one p). set (c := (1 - u53) ^ p) in *.
  assert (N := pos_INR n). assert (N' := pos_INR p). assert (U : 0 < u53 < / 1000000) by (unfold u53; lra). assert (NS := pos_INR S). assert (NB := pos_INR B).
  assert (T : RV y <= 2 * s) by nra. assert (V0 : 0 <= INR p * u53) by (apply Rmult_le_pos; lra).
  assert (Dy : Rabs (RV y - s) <= 2 * (INR p * u53) * s).
  { apply Rabs_le. split; [assert ((1 - INR p * u53) * s <= c * s) by (apply Rmult_le_compat_r; lra); nra|]. assert (RV y * (1 - INR p * u53) <= RV y * c) by (apply Rmult_le_compat_l; lra). assert (RV y * (INR p * u53) <= 2 * s * (INR p * u53)) by (apply Rmult_le_compat_r; lra). lra. }
  assert (E : Rabs (RV y * ln (RV x) - s * ln r) <= INR (4 * n * S + 2 * p * B) * u53).
  { replace (RV y * ln (RV x) - s * ln r) with (RV y * (ln (RV x) - ln r) + (RV y - s) * ln r) by ring. apply Rle_trans with (1 := Rabs_triang _ _). rewrite !Rabs_mult, (Rabs_pos_eq (RV y)) by lra.
    rewrite plus_INR, !mult_INR. change (INR 4) with (1 + 1 + 1 + 1). change (INR 2) with (1 + 1). rewrite Rmult_plus_distr_r. apply Rplus_le_compat.
    - apply Rle_trans with (2 * INR S * (INR n * (2 * u53))); [|lra]. apply Rmult_le_compat; [lra|apply Rabs_pos|lra|exact D].
    - apply Rle_trans with (2 * (INR p * u53) * s * Rabs (ln r)); [apply Rmult_le_compat_r; [apply Rabs_pos|exact Dy]|]. rewrite Rabs_mult, (Rabs_pos_eq s) in HB by lra. replace (2 * (INR p * u53) * s * Rabs (ln r)) with (2 * (INR p * u53) * (s * Rabs (ln r))) by ring. apply Rle_trans with (2 * (INR p * u53) * INR B); [apply Rmult_le_compat_l; lra|lra]. }
  assert (L : INR B <= 32) by (rewrite INR_IZR_INZ; apply IZR_le; lia). assert (LK : INR (4 * n * S + 2 * p * B) <= 900) by (rewrite INR_IZR_INZ; apply IZR_le; lia).
  apply pow_core; auto; [apply A|apply P| |lra].
  replace (RV y * ln (RV x)) with (s * ln r + (RV y * ln (RV x) - s * ln r)) by ring. apply Rle_trans with (1 := Rabs_triang _ _). nra.
Qed.
(** signed exponents *)
Lemma sac_opp n l h x r : sac n l h x r -> sac n l h (Bopp x) (- r).
Proof. intros [A|A]; [right; rewrite Ropp_involutive; now apply acc_opp2|now left]. Qed.
Lemma sac_mult n m k l h l' h' x y r s : sac n l h x r -> sac m l' h' y s -> k = S (n + m) -> (k <= 900)%nat -> (-1000 <= l + l')%Z -> (h + h' <= 1000)%Z -> sac k (l + l') (h + h') (Bmult mode_NE x y) (r * s).
Proof.
  intros A B K L1 L2 L3. assert (Fx := sac_fin _ _ _ _ _ A). assert (Fy := sac_fin _ _ _ _ _ B). destruct (V_mult x y Fx Fy) as [N E].
  destruct A as [A|A]; destruct B as [B|B]; [left|right|right|left].
  - eapply acc_mult; eassumption.
  - assert (C : acc k (l + l') (h + h') (Bmult mode_NE x (Bopp y)) (r * - s)) by (eapply acc_mult; eassumption). replace (- (r * s)) with (r * - s) by ring. destruct (V_mult x (Bopp y) Fx (fin_opp _ Fy)) as [_ E']. revert C. apply acc_V; [now apply num_opp|]. rewrite V_opp, E, E', RV_opp, <- sat_neg. f_equal. ring.
  - assert (C : acc k (l + l') (h + h') (Bmult mode_NE (Bopp x) y) (- r * s)) by (eapply acc_mult; eassumption). replace (- (r * s)) with (- r * s) by ring. destruct (V_mult (Bopp x) y (fin_opp _ Fx) Fy) as [_ E']. revert C. apply acc_V; [now apply num_opp|]. rewrite V_opp, E, E', RV_opp, <- sat_neg. f_equal. ring.
  - assert (C : acc k (l + l') (h + h') (Bmult mode_NE (Bopp x) (Bopp y)) (- r * - s)) by (eapply acc_mult; eassumption). replace (r * s) with (- r * - s) by ring. destruct (V_mult (Bopp x) (Bopp y) (fin_opp _ Fx) (fin_opp _ Fy)) as [_ E']. revert C. apply acc_V; [exact N|]. rewrite E, E', !RV_opp. f_equal. ring.
Qed.
(** the difference of an opposite and a positive value *)
Lemma opp_minus n l h x y r : fin x -> fin y -> acc n l h (Bplus mode_NE x y) r -> acc n l h (Bopp (Bminus mode_NE (Bopp x) y)) r.
Proof.
  intros Fx Fy. destruct (V_plus x y Fx Fy) as [_ E]. destruct (V_minus (Bopp x) y (fin_opp _ Fx) Fy) as [N' E']. apply acc_V; [now apply num_opp|]. rewrite V_opp, E, E', RV_opp, <- sat_neg. f_equal. ring.
Qed.
Lemma sac_dist p l h y s : sac p l h y s -> (p <= 900)%nat -> fin y /\ 0 < Rabs s /\ Rabs (RV y) <= 2 * Rabs s /\ Rabs (RV y - s) <= 2 * (INR p * u53) * Rabs s.
Proof.
  assert (G : forall y s, acc p l h y s -> (p <= 900)%nat -> 0 < s /\ 0 < RV y /\ RV y <= 2 * s /\ Rabs (RV y - s) <= 2 * (INR p * u53) * s).
  { intros y0 s0 A Hp. assert (P := acc_pos _ _ _ _ _ A). destruct A as (_ & _ & A1 & A2). assert (W := pow_bernoulli p). assert (H := pow_half p ltac:(lia)). assert (Q1 := pow_one p). set (c := (1 - u53) ^ p) in *. assert (N := pos_INR p). assert (U : 0 < u53) by (unfold u53; lra).
    assert (V0 : 0 <= INR p * u53) by (apply Rmult_le_pos; lra). assert (T : RV y0 <= 2 * s0) by nra. split; [apply P|]. split; [apply P|]. split; [exact T|]. apply Rabs_le. split; [assert ((1 - INR p * u53) * s0 <= c * s0) by (apply Rmult_le_compat_r; lra); nra|].
    assert (RV y0 * (1 - INR p * u53) <= RV y0 * c) by (apply Rmult_le_compat_l; lra). assert (RV y0 * (INR p * u53) <= 2 * s0 * (INR p * u53)) by (apply Rmult_le_compat_r; lra). lra. }
  intros A Hp. split; [exact (sac_fin _ _ _ _ _ A)|]. destruct A as [A|A]; destruct (G _ _ A Hp) as (P1 & P2 & P3 & P4).
  - rewrite !Rabs_pos_eq by lra. rewrite <- (Rabs_pos_eq s) in P4 at 2 by lra. rewrite (Rabs_pos_eq s) in P4 by lra. auto.
  - rewrite RV_opp in *. rewrite (Rabs_left s), (Rabs_left (RV y)) by lra. split; [lra|]. split; [lra|]. replace (RV y - s) with (- (- RV y - - s)) by ring. now rewrite Rabs_Ropp.
Qed.
Lemma sac_pow (m : Libm) S B n p k l h l' h' x y r s : pow_accurate m -> acc n l h x r -> sac p l' h' y s -> Rabs s <= INR S -> Rabs (s * ln r) <= INR B -> (B <= 32)%nat -> (p <= 900)%nat -> (4 * n * S + 2 * p * B + 3 <= 900)%nat -> k = (4 * n * S + 2 * p * B + 3)%nat ->
  acc k (-64) 64 (m_powf x y) (Rpower r s).
Proof.
  intros HP A A' HS HB LB Lp LN ->. assert (D := ln_near _ _ _ _ _ A). assert (P := acc_pos _ _ _ _ _ A). destruct (sac_dist _ _ _ _ _ A' Lp) as (Fy & Ps & T & Dy). unfold Rpower.
  assert (N := pos_INR n). assert (N' := pos_INR p). assert (U : 0 < u53 < / 1000000) by (unfold u53; lra). assert (NS := pos_INR S). assert (NB := pos_INR B). assert (V0 : 0 <= INR p * u53) by (apply Rmult_le_pos; lra).
  assert (E : Rabs (RV y * ln (RV x) - s * ln r) <= INR (4 * n * S + 2 * p * B) * u53).
  { replace (RV y * ln (RV x) - s * ln r) with (RV y * (ln (RV x) - ln r) + (RV y - s) * ln r) by ring. apply Rle_trans with (1 := Rabs_triang _ _). rewrite !Rabs_mult.
    rewrite plus_INR, !mult_INR. change (INR 4) with (1 + 1 + 1 + 1). change (INR 2) with (1 + 1). rewrite Rmult_plus_distr_r. apply Rplus_le_compat.
    - apply Rle_trans with (2 * INR S * (INR n * (2 * u53))); [|lra]. apply Rmult_le_compat; [apply Rabs_pos|apply Rabs_pos|lra|exact D].
    - apply Rle_trans with (2 * (INR p * u53) * Rabs s * Rabs (ln r)); [apply Rmult_le_compat_r; [apply Rabs_pos|exact Dy]|]. rewrite Rabs_mult in HB. replace (2 * (INR p * u53) * Rabs s * Rabs (ln r)) with (2 * (INR p * u53) * (Rabs s * Rabs (ln r))) by ring. apply Rle_trans with (2 * (INR p * u53) * INR B); [apply Rmult_le_compat_l; lra|lra]. }
  assert (L : INR B <= 32) by (rewrite INR_IZR_INZ; apply IZR_le; lia). assert (LK : INR (4 * n * S + 2 * p * B) <= 900) by (rewrite INR_IZR_INZ; apply IZR_le; lia).
  apply pow_core; auto; [apply A|apply P| |lra].
  replace (RV y * ln (RV x)) with (s * ln r + (RV y * ln (RV x) - s * ln r)) by ring. apply Rle_trans with (1 := Rabs_triang _ _). nra.
Qed.
(** one unit of 2^-52 *)
Lemma unit_acc x g : fin x -> bpow radix2 (-64) <= g <= bpow radix2 64 -> Rabs (RV x - g) <= / 4503599627370496 * g -> acc 3 (-64) 64 x g.
Proof.
  intros F B D. split; [exact F|]. split; [exact B|]. assert (P := bpow_gt_0 radix2 (-64)). apply Rabs_le_inv in D. assert (U : 0 < u53 < / 1000) by (unfold u53; lra). replace (/ 4503599627370496) with (2 * u53) in D by (unfold u53; field).
  assert (C1 : (1 - u53) ^ 3 <= 1 - 2 * u53) by (cbn [pow]; nra). assert (C2 : (1 - u53) ^ 3 * (1 + 2 * u53) <= 1) by (cbn [pow]; nra). assert (C0 := pow_pos 3). set (c3 := (1 - u53) ^ 3) in *. split; [nra|].
  apply Rle_trans with (c3 * ((1 + 2 * u53) * g)); [apply Rmult_le_compat_l; lra|]. rewrite <- Rmult_assoc. rewrite <- (Rmult_1_l g) at 2. apply Rmult_le_compat_r; lra.
Qed.
