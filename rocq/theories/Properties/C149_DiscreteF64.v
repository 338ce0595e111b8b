(** * Property C149: masses and distribution functions of the discrete families in double arithmetic *)
From Coq Require Import Reals Lra Lia Psatz List ZArith Bool.
From Flocq Require Import Core Relative IEEE754.BinarySingleNaN.
From Verif.Num Require Import Scalar F64.
From Verif.Model Require Import Rust Constraints Probability Params Consts Continuous Discrete.
From Verif.Spec Require Import ParamSpec ProbSpec LibmSpec.
From Verif.Proofs Require Import ConstraintProofs NewInv F64Order LibmInst F64Cdf F64Pdf ProbProofs SimplexProofs DiscProofs1 DiscProofs4.
From Verif.Properties Require Import C133_F64Cdf C135_F64Pdf.
Import ListNotations.
Open Scope R_scope.

Lemma rnd_tie : rnd (1 + bpow radix2 (-53)) = 1.
Proof.
  destruct (b64_spec 9007199254740993 (-53)) as [_ E].
  - apply rnd_small, small_le. change (bpow radix2 (-53)) with (/ 9007199254740992). rewrite Rabs_pos_eq; lra.
  - assert (X : b64 9007199254740993 (-53) = b64 1 0) by (apply B2SF_inj; vm_compute; reflexivity). rewrite X, RV_b64_1 in E. refine (eq_trans _ (eq_sym E)). f_equal. change (bpow radix2 (-53)) with (/ 9007199254740992). lra.
Qed.
Lemma rnd_le1_tie x : x <= 1 + bpow radix2 (-53) -> rnd x <= 1.
Proof. intros H. rewrite <- rnd_tie. now apply rnd_le. Qed.
Lemma recip_le (N : R) : 1 <= N -> N <= bpow radix2 64 -> 0 < rnd (1 / N) <= 1 /\ N * rnd (1 / N) <= 1 + bpow radix2 (-53).
Proof.
  intros H1 H2. assert (I : 0 < 1 / N) by (apply Rdiv_lt_0_compat; lra).
  assert (B : bpow radix2 (-64) <= 1 / N).
  { replace (-64)%Z with (- (64))%Z by reflexivity. rewrite bpow_opp. unfold Rdiv. rewrite Rmult_1_l. apply Rinv_le_contravar; lra. }
  assert (U : 1 / N <= 1). { apply Rmult_le_reg_r with N; [lra|]. replace (1 / N * N) with 1 by (field; lra). lra. }
  split; [split|].
  - apply Rlt_le_trans with (bpow radix2 (-64)); [apply bpow_gt_0|]. apply rnd_ge; [apply fmt_bpow; lia|exact B].
  - apply rnd_le_fmt; [apply fmt_1|exact U].
  - destruct (relative_error_N_FLT_ex radix2 (-1074) 53 ltac:(reflexivity) (fun z => negb (Z.even z)) (1 / N)) as (eps & E & Q).
    + rewrite Rabs_pos_eq by lra. apply Rle_trans with (bpow radix2 (-64)); [apply bpow_le; lia|exact B].
    + change (round radix2 (FLT_exp (-1074) 53) (Znearest (fun z => negb (Z.even z))) (1 / N)) with (rnd (1 / N)) in Q. rewrite Q.
      replace (N * (1 / N * (1 + eps))) with (1 + eps) by (field; lra). apply Rplus_le_compat_l. apply Rle_trans with (Rabs eps); [apply Rle_abs|].
      apply Rle_trans with (1 := E). replace (/ 2) with (bpow radix2 (-1)) by reflexivity. rewrite <- bpow_plus. apply Rle_refl.
Qed.
(** integers up to 2^63 as doubles *)
Lemma b64_big z : (0 <= z <= 2 ^ 63)%Z -> fin (b64 z 0) /\ RV (b64 z 0) = rnd (IZR z) /\ 0 <= rnd (IZR z) <= bpow radix2 64.
Proof.
  intros H. assert (B : 0 <= IZR z <= bpow radix2 64).
  { split; [apply IZR_le; lia|]. change (bpow radix2 64) with (IZR (2 ^ 64)). apply IZR_le. lia. }
  destruct (b64_spec z 0) as [F E].
  - cbn [bpow]. rewrite Rmult_1_r. apply rnd_small. rewrite Rabs_pos_eq by lra. apply Rle_trans with (bpow radix2 64); [lra|apply bpow_le; lia].
  - cbn [bpow] in E. rewrite Rmult_1_r in E. split; [exact F|]. split; [exact E|]. split; [apply rnd_ge; [apply fmt_0|lra]|apply rnd_le_fmt; [apply fmt_bpow; lia|lra]].
Qed.

Lemma i64_in z : (-9223372036854775808 <= z <= 9223372036854775807)%Z -> i64 z = Ret z.
Proof. intros H. unfold i64, checked, I64_MIN, I64_MAX. change (- 2 ^ 63)%Z with (-9223372036854775808)%Z. change (2 ^ 63 - 1)%Z with 9223372036854775807%Z. destruct (Z.leb_spec (-9223372036854775808) z); [|lia]. destruct (Z.leb_spec z 9223372036854775807); [|lia]. reflexivity. Qed.
(** Uniform<i64>: every constructible parameter (the upper end within i64) and every integer argument *)
Theorem C149_uniform_i64 (m : Libm) (l w : Z) (d : UniformI.t f64) :
  (I64_MIN <= l)%Z -> (0 < w < I64_MAX)%Z -> (l + w <= I64_MAX)%Z -> UniformI.new l w = Ret (Ok d) ->
  (forall k, exists p, UniformI.pmf d k = Ret p /\ valid_prob (Probability.unwrap p)) /\
  (forall k, (I64_MIN <= k <= I64_MAX)%Z -> exists p, UniformI.cdf d k = Ret p /\ valid_prob (Probability.unwrap p)) /\
  (forall k k' p p', (I64_MIN <= k)%Z -> (k <= k')%Z -> (k' <= I64_MAX)%Z -> UniformI.cdf d k = Ret p -> UniformI.cdf d k' = Ret p' -> le64 (Probability.unwrap p) (Probability.unwrap p')) /\
  UniformI.cdf d (l + w) = Ret (Prob one64).
Proof.
  intros Hl Hw Hu H.
  assert (I1 : I64_MAX = (2 ^ 63 - 1)%Z) by reflexivity. assert (I2 : I64_MIN = (- 2 ^ 63)%Z) by reflexivity. rewrite I1, I2 in *. clear I1 I2.
  change (2 ^ 63)%Z with 9223372036854775808%Z in *.
  assert (Hd : d = UniformI.mk (UniformI.mkP l w) (Bdiv mode_NE (b64 1 0) (b64 (w + 1) 0))).
  { revert H. unfold UniformI.new, UniformI.params_new, loc_new, scale_new. cbn [and_then map_ok check]. unfold check_default; cbn [is_satisfied_by]. cbn [pltb POrd_Z pzero].
    rewrite as_i64_id by (unfold I64_MIN, I64_MAX; lia). destruct (Z.ltb_spec 0 w); [|lia]. cbn [and_then]. unfold UniformI.from; cbn [UniformI.width]. rewrite i64_in by lia. cbn [rbind]. intros K. injection K as K. symmetry. exact K. }
  subst d. clear H. set (pb := Bdiv mode_NE (b64 1 0) (b64 (w + 1) 0)).
  destruct (b64_big (w + 1) ltac:(change (2 ^ 63)%Z with 9223372036854775808%Z; lia)) as (FN & EN & BN).
  assert (N1 : 1 <= rnd (IZR (w + 1))). { apply rnd_ge; [apply fmt_1|]. apply IZR_le. lia. }
  destruct (recip_le _ N1 (proj2 BN)) as [[P0 P1] P2].
  destruct (div_spec (b64 1 0) (b64 (w + 1) 0) fin_b64_1 ltac:(rewrite EN; lra)) as [FP EP].
  { rewrite EN, RV_b64_1. apply Rle_lt_trans with 1; [rewrite Rabs_pos_eq; lra|]. assert (Q := bpow64_big). lra. }
  rewrite RV_b64_1, EN in EP. fold pb in FP, EP.
  set (D := UniformI.mk (UniformI.mkP l w) pb).
  assert (UB : UniformI.ub (F := f64) D = Ret (l + w)%Z).
  { unfold UniformI.ub. cbn [D UniformI.pr UniformI.lb UniformI.width]. apply i64_in. lia. }
  assert (V0 : valid_prob zero64) by (apply V_valid; [apply num_zero|rewrite V_zero; lra]).
  assert (V1 : valid_prob one64) by (apply V_valid; [apply num_one|rewrite V_one; lra]).
  assert (VP : valid_prob pb). { split; [exact FP|]. change (B2R pb) with (RV pb). rewrite EP. lra. }
  set (c := fun k => Bmult mode_NE (b64 (k - l + 1) 0) pb).
  assert (C : forall k, (l <= k)%Z -> (k < l + w)%Z -> fin (c k) /\ RV (c k) = rnd (rnd (IZR (k - l + 1)) * rnd (1 / rnd (IZR (w + 1)))) /\ 0 <= RV (c k) <= 1).
  { intros k K1 K2. destruct (b64_big (k - l + 1) ltac:(change (2 ^ 63)%Z with 9223372036854775808%Z; lia)) as (FA & EA & BA).
    assert (LE : rnd (IZR (k - l + 1)) <= rnd (IZR (w + 1))) by (apply rnd_le, IZR_le; lia).
    assert (MB : 0 <= rnd (IZR (k - l + 1)) * rnd (1 / rnd (IZR (w + 1))) <= 1 + bpow radix2 (-53)).
    { split; [apply Rmult_le_pos; lra|]. apply Rle_trans with (2 := P2). apply Rmult_le_compat_r; lra. }
    assert (RB : 0 <= rnd (rnd (IZR (k - l + 1)) * rnd (1 / rnd (IZR (w + 1)))) <= 1) by (split; [apply rnd_ge; [apply fmt_0|lra]|apply rnd_le1_tie; lra]).
    destruct (mul_spec (b64 (k - l + 1) 0) pb FA FP) as [FM EM].
    { rewrite EA, EP. apply Rle_lt_trans with 1; [rewrite Rabs_pos_eq; lra|]. assert (Q := bpow64_big). lra. }
    rewrite EA, EP in EM. split; [exact FM|]. split; [exact EM|]. unfold c. rewrite EM. exact RB. }
  assert (CV : forall k, (-9223372036854775808 <= k <= 9223372036854775807)%Z ->
    UniformI.cdf (F := f64) D k = Ret (Prob (if Z.ltb k l then zero64 else if Z.leb (l + w) k then one64 else c k))).
  { intros k Hk. unfold UniformI.cdf. rewrite UB. cbn [rbind D UniformI.pr UniformI.lb UniformI.width UniformI.prob]. destruct (Z.ltb_spec k l); [reflexivity|]. destruct (Z.leb_spec (l + w) k); [reflexivity|].
    rewrite i64_in by lia. cbn [rbind]. rewrite i64_in by lia. reflexivity. }
  split; [|split; [|split]].
  - intros k. unfold UniformI.pmf. rewrite UB. cbn [rbind]. destruct (_ || _)%bool; eexists; (split; [reflexivity|]); [exact V0|exact VP].
  - intros k Hk. eexists. split; [apply CV; lia|]. cbn [Probability.unwrap]. destruct (Z.ltb_spec k l); [exact V0|]. destruct (Z.leb_spec (l + w) k); [exact V1|].
    destruct (C k ltac:(lia) ltac:(lia)) as (F & _ & B). split; [exact F|exact B].
  - intros k k' p p' Hk Hkk Hk' E E'. rewrite CV in E, E' by lia. injection E as <-. injection E' as <-. cbn [Probability.unwrap].
    destruct (Z.ltb_spec k l); destruct (Z.ltb_spec k' l); try lia.
    + vm_compute; reflexivity.
    + destruct (Z.leb_spec (l + w) k'); [vm_compute; reflexivity|]. destruct (C k' ltac:(lia) ltac:(lia)) as (F & _ & B). apply le_V2; [apply num_zero|now apply fin_num|]. rewrite V_zero, V_fin by exact F. lra.
    + destruct (Z.leb_spec (l + w) k); destruct (Z.leb_spec (l + w) k'); try lia; [vm_compute; reflexivity| |].
      * destruct (C k ltac:(lia) ltac:(lia)) as (F & _ & B). apply le_V2; [now apply fin_num|apply num_one|]. rewrite V_one, V_fin by exact F. lra.
      * destruct (C k ltac:(lia) ltac:(lia)) as (F & E & _). destruct (C k' ltac:(lia) ltac:(lia)) as (F' & E' & _). apply le_V2; [now apply fin_num|now apply fin_num|]. rewrite !V_fin by assumption. rewrite E, E'.
        apply rnd_le. apply Rmult_le_compat_r; [lra|]. apply rnd_le, IZR_le. lia.
  - rewrite CV by lia. destruct (Z.ltb_spec (l + w) l); [lia|]. destruct (Z.leb_spec (l + w) (l + w)); [reflexivity|lia].
Qed.
Print Assumptions C149_uniform_i64.
Example C149_uniform_ex (m : Libm) : exists d, UniformI.new (F := f64) (-3) 9 = Ret (Ok d) /\ (I64_MIN <= -3)%Z /\ (0 < 9 < I64_MAX)%Z /\ (-3 + 9 <= I64_MAX)%Z.
Proof. eexists. split; [reflexivity|]. unfold I64_MIN, I64_MAX. lia. Qed.

(** what is assumed of [powi] on [0,1] *)
Definition powi_unit (m : Libm) : Prop := forall x n, valid_prob x -> (0 <= n)%Z -> valid_prob (m_powi x n).
Definition powi_anti (m : Libm) : Prop := forall x a b, valid_prob x -> (0 <= a <= b)%Z -> le64 (m_powi x b) (m_powi x a).
Lemma cr_powi_V x n : V (@m_powi cr_libm x n) = sat (powerRZ (RV x) n). Proof. apply r2f_V. Qed.
Lemma pow_unit x n : 0 <= x <= 1 -> 0 <= x ^ n <= 1.
Proof. intros H. split; [apply pow_le; lra|]. induction n as [|n IH]; cbn [pow]; [lra|]. assert (0 <= x ^ n) by (apply pow_le; lra). nra. Qed.
Lemma pow_antit x a b : 0 <= x <= 1 -> (a <= b)%nat -> x ^ b <= x ^ a.
Proof. intros H L. induction L as [|b L IH]; [apply Rle_refl|]. cbn [pow]. assert (B := pow_unit x b H). nra. Qed.
Lemma powerRZ_nat x n : (0 <= n)%Z -> powerRZ x n = x ^ Z.to_nat n.
Proof. intros H. rewrite pow_powerRZ, Z2Nat.id by lia. reflexivity. Qed.
Example C149_powi_instance : powi_unit cr_libm /\ powi_anti cr_libm.
Proof.
  split.
  - intros x n [F B] Hn. apply V_valid; [apply r2f_num|]. rewrite cr_powi_V. rewrite powerRZ_nat by lia. assert (P := pow_unit _ (Z.to_nat n) B). split; [apply sat_pos|apply sat_le1]; apply P.
  - intros x a b [F B] H. apply le_V2; try apply r2f_num. rewrite !cr_powi_V. apply sat_mono. rewrite !powerRZ_nat by lia. apply pow_antit; [exact B|lia].
Qed.

(** Geometric: for every accepted p and every k below 2^31 (2^31 - 1 for the cdf) *)
Theorem C149_geometric (m : Libm) (x : f64) (d : Geometric.t f64) : powi_unit m -> powi_anti m -> Geometric.new x = Ok d ->
  (forall k, (0 <= k < 2 ^ 31)%Z -> valid_prob (Probability.unwrap (Geometric.pmf d k)) /\ le64 (Probability.unwrap (Geometric.pmf d k)) x) /\
  (forall j k, (0 <= j <= k)%Z -> (k < 2 ^ 31)%Z -> le64 (Probability.unwrap (Geometric.pmf d k)) (Probability.unwrap (Geometric.pmf d j))) /\
  (forall k, (0 <= k < 2 ^ 31 - 1)%Z -> exists p, Geometric.cdf d k = Ret p /\ valid_prob (Probability.unwrap p)) /\
  (forall j k p q, (0 <= j <= k)%Z -> (k < 2 ^ 31 - 1)%Z -> Geometric.cdf d j = Ret p -> Geometric.cdf d k = Ret q -> le64 (Probability.unwrap p) (Probability.unwrap q)).
Proof.
  intros HU HA H.
  assert (Hd : valid_prob x /\ d = Geometric.from (Geometric.mkP (Prob x))).
  { revert H. unfold Geometric.new. intros H. inv_new H. split; [|reflexivity]. apply (p_test m x). destruct HP as [A B]. rewrite A, B. reflexivity. }
  destruct Hd as [VX ->]. clear H. destruct (not_val x VX) as [VQ _]. set (q := Bminus mode_NE (b64 1 0) x). change (valid_prob q) in VQ.
  assert (M : forall y, valid_prob y -> valid_prob (Bmult mode_NE x y) /\ B2R (Bmult mode_NE x y) = rnd (B2R x * B2R y)) by (intros y Hy; destruct (mul_val x y VX Hy) as [A B]; split; [exact A|exact B]).
  assert (PM : forall k, (0 <= k < 2 ^ 31)%Z -> Probability.unwrap (Geometric.pmf (Geometric.from (Geometric.mkP (Prob x))) k) = Bmult mode_NE x (m_powi q k)).
  { intros k Hk. unfold Geometric.pmf. cbn [Probability.unwrap Geometric.from Geometric.pr Geometric.p Geometric.q]. rewrite as_i32_id by lia. reflexivity. }
  assert (PC : forall k, (0 <= k < 2 ^ 31 - 1)%Z -> Geometric.cdf (Geometric.from (Geometric.mkP (Prob x))) k = Ret (Prob (Bminus mode_NE (b64 1 0) (m_powi q (k + 1))))).
  { intros k Hk. unfold Geometric.cdf. rewrite as_i32_id by lia. unfold checked. destruct (Z.leb_spec (- 2 ^ 31) (k + 1)); [|lia]. destruct (Z.leb_spec (k + 1) (2 ^ 31 - 1)); [|lia]. reflexivity. }
  assert (E : forall k, (0 <= k)%Z -> num (m_powi q k) /\ 0 <= V (m_powi q k) <= 1).
  { intros k Hk. assert (A := HU q k VQ Hk). assert (N : num (m_powi q k)) by (apply fin_num; apply A). split; [exact N|]. now apply V_valid. }
  split; [|split; [|split]].
  - intros k Hk. rewrite PM by lia. assert (A := HU q k VQ ltac:(lia)). destruct (M _ A) as [VM EM]. split; [exact VM|].
    apply le_V2; [apply fin_num; apply VM|apply fin_num; apply VX|]. rewrite !V_fin by (first [apply VM|apply VX]). unfold RV. rewrite EM.
    apply rnd_le_fmt; [apply (fmt_RV x)|]. destruct A as [_ A]. destruct VX as [_ B]. nra.
  - intros j k Hj Hk. rewrite !PM by lia. assert (A := HU q j VQ ltac:(lia)). assert (A' := HU q k VQ ltac:(lia)). destruct (M _ A) as [VM EM]. destruct (M _ A') as [VM' EM'].
    apply le_V2; [apply fin_num; apply VM'|apply fin_num; apply VM|]. rewrite !V_fin by (first [apply VM|apply VM']). unfold RV. rewrite EM, EM'. apply rnd_le. apply Rmult_le_compat_l; [apply VX|].
    assert (L := le_V1 _ _ (HA q j k VQ Hj)). rewrite !V_fin in L by (first [apply A|apply A']). exact L.
  - intros k Hk. eexists. split; [apply PC; lia|]. cbn [Probability.unwrap]. destruct (E (k + 1)%Z ltac:(lia)) as [N B]. destruct (one_minus _ N B) as [N1 B1]. now apply V_valid.
  - intros j k p r Hj Hk E1 E2. rewrite PC in E1, E2 by lia. injection E1 as <-. injection E2 as <-. cbn [Probability.unwrap].
    destruct (E (j + 1)%Z ltac:(lia)) as [N B]. destruct (E (k + 1)%Z ltac:(lia)) as [N' B']. apply le_V2; [apply (one_minus _ N B)|apply (one_minus _ N' B')|].
    apply one_minus_anti; auto. apply le_V1, HA; [exact VQ|lia].
Qed.
Print Assumptions C149_geometric.
Example C149_geometric_ex (m : Libm) : exists d, Geometric.new (b64 1 (-2)) = Ok d.
Proof.
  destruct (Geometric.new (b64 1 (-2))) as [d|e] eqn:E; [eauto|].
  assert (H : is_ok (Geometric.new (b64 1 (-2))) = false) by (rewrite E; reflexivity). revert H. vm_compute. discriminate.
Qed.

(** Categorical: the distribution function starts at 0, never decreases, ends within 1e-5 (the double) of 1 ... *)
Lemma fold_grow l : forall z, Forall valid_prob l -> nnv z -> nnv (fold_left (Bplus mode_NE) l z) /\ V z <= V (fold_left (Bplus mode_NE) l z).
Proof.
  induction l as [|x l IH]; intros z H Hz; cbn [fold_left]; [split; [exact Hz|lra]|]. inversion H as [|? ? Vx Vl]; subst.
  assert (Nx : nnv x). { split; [apply fin_num; apply Vx|]. rewrite V_fin by apply Vx. apply Vx. }
  assert (G : nnv (Bplus mode_NE z x)) by now apply plus_nn.
  assert (L : V z <= V (Bplus mode_NE z x)).
  { destruct (nnv_cases z Hz) as [[Fz Pz]|Ez].
    - destruct (V_plus z x Fz (proj1 Vx)) as [_ ->]. rewrite V_fin by exact Fz. assert (FB := fin_lt z Fz). rewrite <- (sat_fmt (RV z)) at 1; [|apply fmt_RV|lra]. apply sat_mono. assert (0 <= RV x) by apply Vx. lra.
    - subst z. destruct Vx as [Fx _]. destruct x; try discriminate; apply Rle_refl. }
  destruct (IH _ Vl G) as [A B]. split; [exact A|lra].
Qed.
Theorem C149_categorical_partial (m : Libm) (ws : list f64) (d : Categorical.t f64) : Categorical.new ws = Ok d ->
  Categorical.cdf d 0 = Prob (B754_zero false) /\
  (forall i j, (0 <= i <= j)%Z -> le64 (Probability.unwrap (Categorical.cdf d i)) (Probability.unwrap (Categorical.cdf d j))) /\
  (forall j, (Z.of_nat (length ws) <= j)%Z -> Rabs (B2R (Probability.unwrap (Categorical.cdf d j)) - 1) < 1 / 100000 + bpow radix2 (-69)).
Proof.
  intros H. unfold Categorical.new in H. destruct (simplex_new ws) as [qs|] eqn:E; [|discriminate]. cbn [map_err map_ok] in H. injection H as <-.
  apply simplex_new_inv in E. destruct E as (-> & VW & L). unfold Categorical.cdf. cbn [Categorical.pr Categorical.ps Probability.unwrap]. unfold fsum.
  change (f_of_Z 0 : f64) with (b64 0 0). rewrite !b64_00.
  assert (Z0 : nnv (B754_zero false)) by (split; [reflexivity|cbn [V B2R]; lra]).
  split; [reflexivity|split].
  - intros i j Hij. change (@fadd f64 (F64Scalar m)) with (Bplus mode_NE : f64 -> f64 -> f64).
    assert (FA : forall n, Forall valid_prob (firstn n ws)). { intros n. rewrite <- (firstn_skipn n ws) in VW. now apply Forall_app in VW. }
    replace (firstn (Z.to_nat j) ws) with (firstn (Z.to_nat i) ws ++ skipn (Z.to_nat i) (firstn (Z.to_nat j) ws)).
    2: { rewrite <- (firstn_skipn (Z.to_nat i) (firstn (Z.to_nat j) ws)) at 2. f_equal. rewrite firstn_firstn. f_equal. lia. }
    rewrite fold_left_app. destruct (fold_grow (firstn (Z.to_nat i) ws) _ (FA _) Z0) as [A _].
    assert (FS : Forall valid_prob (skipn (Z.to_nat i) (firstn (Z.to_nat j) ws))). { assert (K := FA (Z.to_nat j)). rewrite <- (firstn_skipn (Z.to_nat i)) in K. now apply Forall_app in K. }
    destruct (fold_grow _ _ FS A) as [B C]. apply le_V2; [apply A|apply B|exact C].
  - intros j Hj. rewrite firstn_all2 by lia. change (@fadd f64 (F64Scalar m)) with (Bplus mode_NE : f64 -> f64 -> f64). change (fold_left (Bplus mode_NE) ws (B754_zero false)) with (dsum ws).
    assert (K := RV_c1e5_bounds). unfold RV in *. lra.
Qed.
Print Assumptions C149_categorical_partial.
(** ... but can exceed 1 *)
Theorem C149_categorical_refuted (m : Libm) : exists (ws : list f64) (d : Categorical.t f64), Categorical.new ws = Ok d /\ ~ valid_prob (Probability.unwrap (Categorical.cdf d 2)).
Proof.
  exists [b64 1 0; b64 1 (-20)]. destruct (Categorical.new [b64 1 0; b64 1 (-20)]) as [d|e] eqn:E.
  - exists d. split; [reflexivity|]. unfold Categorical.new in E. destruct (simplex_new _) as [qs|] eqn:E1; [|discriminate]. cbn [map_err map_ok] in E. injection E as <-. apply simplex_new_inv in E1. destruct E1 as (-> & _ & _).
    intros [_ [_ K]]. assert (X : lt64 one64 (Probability.unwrap (Categorical.cdf (Categorical.mk (Categorical.mkP [b64 1 0; b64 1 (-20)])) 2))) by (vm_compute; reflexivity).
    apply lt_V1 in X. rewrite V_one in X. rewrite V_fin in X by (vm_compute; reflexivity). unfold RV in X. lra.
  - exfalso. assert (H : is_ok (Categorical.new [b64 1 0; b64 1 (-20)]) = false) by (rewrite E; reflexivity). revert H. vm_compute. discriminate.
Qed.
Print Assumptions C149_categorical_refuted.
