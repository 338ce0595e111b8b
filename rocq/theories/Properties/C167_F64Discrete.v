(** * C167: how far computed binomial and geometric probabilities are from the formulas *)
From Coq Require Import Reals Lra Lia Psatz List ZArith Bool.
From Flocq Require Import Core IEEE754.BinarySingleNaN.
From Verif.Num Require Import Scalar F64.
From Verif.Model Require Import Rust Constraints Probability Params Utils Discrete.
From Verif.Spec Require Import ParamSpec ProbSpec UtilsSpec DiscreteSpec LibmSpec.
From Verif.Proofs Require Import ConstraintProofs NewInv ProbProofs UtilsProofs DiscProofs4 F64Order LibmInst F64Cdf F64Pdf F64Acc.
From Verif.Properties Require Import C133_F64Cdf C135_F64Pdf C149_DiscreteF64 C152_F64Variance C163_F64Accuracy.
Import ListNotations.
Open Scope R_scope.

(** the integer power of a number in (0, 1] loses at most one unit of 2^-52 per factor, where the power is not too small: repeated squaring does this (see the example at the end) *)
Definition powi_accurate (m : Libm) : Prop := forall (x : f64) (n : nat), finite64 x -> 0 < B2R x <= 1 -> (n <= 256)%nat -> bpow radix2 (-900) <= B2R x ^ n ->
  finite64 (m_powi x (Z.of_nat n)) /\ Rabs (B2R (m_powi x (Z.of_nat n)) - B2R x ^ n) <= INR n * / 4503599627370496 * B2R x ^ n.

Lemma units_acc n l h x g : (n <= 300)%nat -> fin x -> bpow radix2 l <= g <= bpow radix2 h -> Rabs (RV x - g) <= INR n * / 4503599627370496 * g -> acc (2 * n + 1) l h x g.
Proof.
  intros Hn F B D. split; [exact F|]. split; [exact B|]. assert (P := bpow_gt_0 radix2 l). assert (N := pos_INR n). assert (N3 : INR n <= 300) by (replace 300 with (INR 300) by (rewrite INR_IZR_INZ; reflexivity); now apply le_INR).
  set (v := INR n * / 4503599627370496) in *. assert (V0 : 0 <= v <= / 1000000) by (unfold v; split; lra). apply Rabs_le_inv in D.
  assert (C : (1 - u53) ^ (2 * n + 1) * (1 + v) <= 1 /\ (1 - u53) ^ (2 * n + 1) <= 1 - v).
  { assert (U : 0 < u53 < / 1000) by (unfold u53; lra). destruct n as [|n]; [unfold v; cbn [pow Nat.mul Nat.add]; change (INR 0) with 0; split; lra|].
    assert (A : forall k : nat, (1 - u53) ^ k * (1 + INR k * u53) <= 1).
    { induction k as [|k IH]; [cbn [pow]; change (INR 0) with 0; lra|]. rewrite S_INR. cbn [pow]. assert (Q := pow_pos k). assert (K := pos_INR k). set (c := (1 - u53) ^ k) in *. set (i := INR k) in *.
      assert (0 <= c * (u53 * u53) * (i + 1)) by (repeat apply Rmult_le_pos; lra). replace ((1 - u53) * c * (1 + (i + 1) * u53)) with (c * (1 + i * u53) - c * (u53 * u53) * (i + 1)) by ring. lra. }
    assert (A' := A (2 * S n + 1)%nat). assert (Q := pow_pos (2 * S n + 1)). set (c := (1 - u53) ^ (2 * S n + 1)) in *.
    assert (E : INR (2 * S n + 1) * u53 = v + u53) by (unfold v; rewrite plus_INR, mult_INR; change (INR 2) with 2; change (INR 1) with 1; unfold u53; field). rewrite E in A'.
    assert (A1 : c * (1 + v) <= 1) by nra. split; [exact A1|].
    assert (W : v * v <= u53 / 2). { unfold v, u53. set (j := INR (S n)) in *. assert (j * j <= 90000) by nra. replace (j * / 4503599627370496 * (j * / 4503599627370496)) with (j * j * (/ 4503599627370496 * / 4503599627370496)) by ring. assert (0 < / 4503599627370496 * / 4503599627370496 < / 100000000000000000000000) by (split; lra). nra. }
    apply Rmult_le_reg_r with (1 + (v + u53)); [lra|]. apply Rle_trans with (1 := A'). nra. }
  destruct C as [C1 C2]. assert (Q := pow_pos (2 * n + 1)). set (c := (1 - u53) ^ (2 * n + 1)) in *. split; [nra|]. apply Rle_trans with (c * ((1 + v) * g)); [apply Rmult_le_compat_l; lra|]. rewrite <- Rmult_assoc. rewrite <- (Rmult_1_l g) at 2. apply Rmult_le_compat_r; lra.
Qed.
(** exchange the reference value *)
Lemma acc_trans n m k l h x r s : acc n l h x r -> (1 - u53) ^ m * s <= r -> (1 - u53) ^ m * r <= s -> bpow radix2 l <= s <= bpow radix2 h -> k = (n + m)%nat -> acc k l h x s.
Proof.
  intros A B1 B2 B ->. assert (PA := acc_pos _ _ _ _ _ A). destruct A as (F & _ & A1 & A2). assert (Q := pow_pos n). assert (Q' := pow_pos m). split; [exact F|]. split; [exact B|]. rewrite pow_add. split.
  - apply Rle_trans with (2 := A1). rewrite Rmult_assoc. apply Rmult_le_compat_l; lra.
  - apply Rle_trans with (2 := B2). replace ((1 - u53) ^ n * (1 - u53) ^ m * RV x) with ((1 - u53) ^ m * ((1 - u53) ^ n * RV x)) by ring. apply Rmult_le_compat_l; lra.
Qed.
Lemma pow_unit_le t n : 0 < t <= 1 -> 0 < t ^ n <= 1.
Proof. intros H. split; [apply pow_lt; lra|]. apply Rle_trans with (1 ^ n); [apply pow_incr; lra|rewrite pow1; lra]. Qed.
Lemma powi_acc (m : Libm) i l x t n : powi_accurate m -> acc i l 0 x t -> (i <= 1)%nat -> RV x <= 1 -> (n <= 256)%nat -> bpow radix2 (-400) <= t ^ n -> acc (i * n + (2 * n + 1)) (-400) 0 (m_powi x (Z.of_nat n)) (t ^ n).
Proof.
  intros HP A Hi X1 Hn B. assert (PA := acc_pos _ _ _ _ _ A). assert (T1 : t <= 1) by (destruct A as (_ & [_ U] & _); exact U). destruct A as (F & _ & A1 & A2).
  assert (E1 : (1 - u53) ^ (i * n) * t ^ n <= RV x ^ n) by (rewrite pow_mult, <- Rpow_mult_distr; apply pow_incr; split; [apply Rmult_le_pos; [apply Rlt_le, pow_pos|lra]|exact A1]).
  assert (E2 : (1 - u53) ^ (i * n) * RV x ^ n <= t ^ n) by (rewrite pow_mult, <- Rpow_mult_distr; apply pow_incr; split; [apply Rmult_le_pos; [apply Rlt_le, pow_pos|lra]|exact A2]).
  assert (H2 : / 2 <= (1 - u53) ^ (i * n)) by (apply pow_half; nia). assert (P := bpow_gt_0 radix2 (-400)). assert (L : bpow radix2 (-401) <= RV x ^ n).
  { apply Rle_trans with (2 := E1). change (-401)%Z with (-1 + -400)%Z. rewrite bpow_plus. change (bpow radix2 (-1)) with (/ 2). apply Rmult_le_compat; lra. }
  assert (XB := pow_unit_le (RV x) n ltac:(lra)). destruct (HP x n F ltac:(change (B2R x) with (RV x); lra) Hn) as [Fw D]; [change (B2R x) with (RV x); apply Rle_trans with (2 := L); apply bpow_le; lia|]. change (B2R (m_powi x (Z.of_nat n))) with (RV (m_powi x (Z.of_nat n))) in D. change (B2R x) with (RV x) in D.
  assert (U := units_acc n (-401) 0 _ _ ltac:(lia) Fw (conj L (proj2 XB)) D). assert (TB := pow_unit_le t n ltac:(lra)).
  assert (W : acc (2 * n + 1 + i * n) (-401) 0 (m_powi x (Z.of_nat n)) (t ^ n)). { apply (acc_trans _ (i * n) _ _ _ _ _ _ U); auto. split; [apply Rle_trans with (2 := B); apply bpow_le; lia|exact (proj2 TB)]. }
  destruct W as (W1 & W2 & W3). replace (i * n + (2 * n + 1))%nat with (2 * n + 1 + i * n)%nat by lia. split; [exact W1|]. split; [split; [exact B|exact (proj2 TB)]|exact W3].
Qed.
Lemma prob_acc p : fin p -> 0 < RV p < 1 -> acc 0 (-1074) 0 p (RV p).
Proof.
  intros F B. apply acc_exact; [exact F|]. split; [|change (bpow radix2 0) with 1; lra]. destruct (Rle_lt_dec (bpow radix2 (-1074)) (RV p)) as [L|L]; [exact L|]. exfalso. assert (G := fmt_RV p). 
  assert (X := generic_format_ge_bpow radix2 (SpecFloat.fexp 53 1024) (-1074)). assert (V' : forall e, (-1074 <= SpecFloat.fexp 53 1024 e)%Z) by (intros e; unfold SpecFloat.fexp; unfold SpecFloat.emin; lia). specialize (X V' (RV p) (proj1 B) G). lra.
Qed.
Lemma not_le1 p : fin p -> 0 < RV p < 1 -> RV (Bminus mode_NE (b64 1 0) p) <= 1.
Proof.
  intros F B. destruct (V_minus (b64 1 0) p fin_b64_1 F) as [N V1]. assert (A := not_one p F B). rewrite V_fin in V1 by apply A. rewrite V1, RV_b64_1. unfold sat. assert (M := M64_pos). assert (1 < M64) by (change M64 with (bpow radix2 1024); change 1 with (bpow radix2 0); apply bpow_lt; lia).
  assert (rnd (1 - RV p) <= 1) by (apply rnd_le_fmt; [exact fmt_1|lra]). assert (0 <= rnd (1 - RV p)) by (apply rnd_pos_of; lra). rewrite clamp_id; lra.
Qed.
Lemma binom_le_pow n : forall k, (binom n k <= 2 ^ Z.of_nat n)%Z.
Proof.
  induction n as [|n IH]; intros k; [destruct k; cbn; lia|]. rewrite Nat2Z.inj_succ, Z.pow_succ_r by lia. destruct k as [|k]; [cbn [binom]; assert (0 < 2 ^ Z.of_nat n)%Z by (apply Z.pow_pos_nonneg; lia); lia|]. cbn [binom]. specialize (IH k) as I1. specialize (IH (S k)) as I2. lia.
Qed.
Lemma binom_acc n k : (k <= n)%nat -> (n <= 256)%nat -> acc 1 0 256 (b64 (binom n k) 0) (IZR (binom n k)).
Proof.
  intros Hk Hn. assert (B1 := binom_pos n k Hk). assert (B2 := binom_le_pow n k). assert (B3 : (2 ^ Z.of_nat n <= 2 ^ 256)%Z) by (apply Z.pow_le_mono_r; lia).
  assert (L : 1 <= IZR (binom n k)) by (apply IZR_le; exact B1). assert (U : IZR (binom n k) <= bpow radix2 256) by (change (bpow radix2 256) with (IZR (2 ^ 256)); apply IZR_le; lia). set (z := IZR (binom n k)) in *.
  assert (RB : rnd z <= bpow radix2 256) by (apply rnd_le_fmt; [apply fmt_bpow; lia|exact U]). assert (R0 : 0 <= rnd z) by (apply rnd_pos_of; lra). assert (M : bpow radix2 256 < bpow radix2 1024) by (apply bpow_lt; lia).
  destruct (b64_spec (binom n k) 0) as [F V1]; [change (bpow radix2 0) with 1; rewrite Rmult_1_r; fold z; rewrite Rabs_pos_eq; lra|]. change (bpow radix2 0) with 1 in V1. rewrite Rmult_1_r in V1. fold z in V1.
  destruct (rnd_acc z) as [A1 A2]; [apply Rle_trans with (2 := L); change 1 with (bpow radix2 0); apply bpow_le; lia|]. split; [exact F|]. split; [change (bpow radix2 0) with 1; lra|]. rewrite V1. cbn [pow]. rewrite Rmult_1_r. split; assumption.
Qed.

Theorem C167_binomial (m : Libm) (n k : nat) (p : f64) : powi_accurate m -> (k <= n <= 256)%nat -> choose_fits n k -> finite64 p -> 0 < B2R p < 1 -> bpow radix2 (-400) <= B2R p ^ k -> bpow radix2 (-400) <= (1 - B2R p) ^ (n - k) ->
  forall d, Binomial.new (Z.of_nat n) (Prob p) = Ok d -> exists w, Binomial.pmf d (Z.of_nat k) = Ret (Prob w) /\ within (3 * n + 5) w (binomial_law n (B2R p) k).
Proof.
  intros HP [Hk Hn] HC F B L1 L2 d H. change (B2R p) with (RV p) in *. unfold Binomial.new in H. inv_new H. unfold Binomial.pmf. cbn [Binomial.pr Binomial.n Binomial.p Binomial.q].
  rewrite (choose_ok n k Hk ltac:(unfold U64_MAX; lia) HC). cbn [rbind]. unfold usize. rewrite u64_ok by (unfold U64_MAX; lia). cbn [rbind]. rewrite (as_i32_id (Z.of_nat k)) by lia. rewrite (as_i32_id (Z.of_nat n - Z.of_nat k)) by lia. rewrite <- Nat2Z.inj_sub by exact Hk.
  eexists. split; [reflexivity|]. unfold binomial_law.
  assert (A1 := powi_acc m 0 _ p (RV p) k HP (prob_acc p F B) ltac:(lia) ltac:(lra) ltac:(lia) L1). assert (A2 := powi_acc m 1 _ _ (1 - RV p) (n - k) HP (not_one p F B) ltac:(lia) (not_le1 p F B) ltac:(lia) L2). assert (A3 := binom_acc n k Hk Hn).
  change (within (3 * n + 5) (Bmult mode_NE (b64 (binom n k) 0) (Bmult mode_NE (m_powi p (Z.of_nat k)) (m_powi (Bminus mode_NE (b64 1 0) p) (Z.of_nat (n - k))))) (IZR (binom n k) * (RV p ^ k * (1 - RV p) ^ (n - k)))).
  set (u := m_powi p _) in *. set (w := m_powi (Bminus _ _ _) _) in *. set (c := b64 (binom n k) 0) in *. eapply wi; [eapply acc_mult; [exact A3|eapply acc_mult; [exact A1|exact A2|reflexivity|lia|lia|lia]|reflexivity|lia|lia|lia]|reflexivity|lia|lia].
Qed.
Print Assumptions C167_binomial.

Theorem C167_geometric (m : Libm) (k : nat) (p : f64) : powi_accurate m -> (k <= 256)%nat -> finite64 p -> bpow radix2 (-400) <= B2R p < 1 -> bpow radix2 (-400) <= (1 - B2R p) ^ k ->
  forall d, Geometric.new p = Ok d -> within (3 * k + 2) (unwrap (Geometric.pmf d (Z.of_nat k))) (geometric_law (B2R p) k).
Proof.
  intros HP Hk F B L d H. change (B2R p) with (RV p) in *. assert (B0 := bpow_gt_0 radix2 (-400)). unfold Geometric.new in H. inv_new H. unfold Geometric.pmf. cbn [Geometric.from Geometric.pr Geometric.p Geometric.q unwrap]. rewrite as_i32_id by lia. unfold geometric_law.
  assert (A0 : acc 0 (-400) 0 p (RV p)) by (apply acc_exact; [exact F|change (bpow radix2 0) with 1; lra]). assert (A2 := powi_acc m 1 _ _ (1 - RV p) k HP (not_one p F ltac:(lra)) ltac:(lia) (not_le1 p F ltac:(lra)) ltac:(lia) L).
  change (within (3 * k + 2) (Bmult mode_NE p (m_powi (Bminus mode_NE (b64 1 0) p) (Z.of_nat k))) (RV p * (1 - RV p) ^ k)).
  set (w := m_powi (Bminus _ _ _) _) in *. eapply wi; [eapply acc_mult; [exact A0|exact A2|reflexivity|lia|lia|lia]|reflexivity|lia|lia].
Qed.
Print Assumptions C167_geometric.

(** ** The power by repeated squaring (compiler-rt's __powidf2, which [f64::powi] calls) meets the assumption *)
Fixpoint squaring (r a : f64) (p : positive) : f64 := match p with xH => Bmult mode_NE r a | xO p => squaring r (Bmult mode_NE a a) p | xI p => squaring (Bmult mode_NE r a) (Bmult mode_NE a a) p end.
Definition rt_libm : Libm := {|
  m_exp := @m_exp cr_libm; m_ln := @m_ln cr_libm; m_log2 := @m_log2 cr_libm; m_sin := @m_sin cr_libm; m_cos := @m_cos cr_libm; m_tan := @m_tan cr_libm; m_asin := @m_asin cr_libm; m_atan := @m_atan cr_libm; m_powf := @m_powf cr_libm;
  m_powi x n := match n with Z0 => one64 | Zpos p => squaring one64 x p | Zneg p => Bdiv mode_NE one64 (squaring one64 x p) end |}.
Definition near (n : nat) (x : f64) (r : R) : Prop := fin x /\ (1 - u53) ^ n * r <= RV x /\ (1 - u53) ^ n * RV x <= r.
Lemma near_mult n m x y r s : near n x r -> near m y s -> 0 < r -> 0 < s -> bpow radix2 (-900) <= r * s <= 1 -> (n + m <= 900)%nat -> near (S (n + m)) (Bmult mode_NE x y) (r * s).
Proof.
  intros (Fx & A1 & A2) (Fy & B1 & B2) Pr Ps B H. destruct (V_mult x y Fx Fy) as [N E]. assert (Q := pow_pos n). assert (Q' := pow_pos m).
  assert (X0 : 0 <= RV x) by (apply Rle_trans with (2 := A1); apply Rmult_le_pos; lra). assert (Y0 : 0 <= RV y) by (apply Rle_trans with (2 := B1); apply Rmult_le_pos; lra).
  assert (W : acc (S (n + m)) (-900) 0 (Bmult mode_NE x y) (r * s)).
  { apply (acc_of (n + m) _ (-900) 0 _ (RV x * RV y) (r * s) N E); auto; try lia; rewrite ?pow_add.
    - replace ((1 - u53) ^ n * (1 - u53) ^ m * (r * s)) with ((1 - u53) ^ n * r * ((1 - u53) ^ m * s)) by ring. apply Rmult_le_compat; auto; apply Rlt_le, Rmult_lt_0_compat; lra.
    - replace ((1 - u53) ^ n * (1 - u53) ^ m * (RV x * RV y)) with ((1 - u53) ^ n * RV x * ((1 - u53) ^ m * RV y)) by ring. apply Rmult_le_compat; auto; apply Rmult_le_pos; lra. }
  destruct W as (W1 & _ & W2). split; assumption.
Qed.
Lemma squaring_near p : forall i j r a R0 A, near i r R0 -> near j a A -> 0 < R0 <= 1 -> 0 < A <= 1 -> bpow radix2 (-900) <= R0 * A ^ Pos.to_nat p -> (i + (j + 1) * Pos.to_nat p <= 900)%nat -> near (i + (j + 1) * Pos.to_nat p) (squaring r a p) (R0 * A ^ Pos.to_nat p).
Proof.
  induction p as [p IH|p IH|]; intros i j r a R0 A HR HA BR BA L K; cbn [squaring].
  - assert (T := Pos2Nat.is_pos p). rewrite Pos2Nat.inj_xI in *. assert (E : R0 * A ^ S (2 * Pos.to_nat p) = R0 * A * (A * A) ^ Pos.to_nat p) by (cbn [pow]; rewrite pow_mult; replace (A ^ 2) with (A * A) by ring; ring). rewrite E in *.
    assert (BAA : 0 < A * A <= 1) by nra. assert (BRA : 0 < R0 * A <= 1) by nra. assert (PU := pow_unit_le (A * A) (Pos.to_nat p) BAA).
    assert (PU1 : (A * A) ^ Pos.to_nat p <= A * A). { destruct (Pos.to_nat p) as [|q]; [lia|]. cbn [pow]. assert (Q := pow_unit_le (A * A) q BAA). nra. }
    replace (i + (j + 1) * S (2 * Pos.to_nat p))%nat with (S (i + j) + (S (j + j) + 1) * Pos.to_nat p)%nat by lia. apply IH; auto; [| |lia].
    + apply near_mult; auto; try lra; [|lia]. split; [|lra]. apply Rle_trans with (1 := L). nra.
    + apply near_mult; auto; try lra; [|nia]. split; [|lra]. apply Rle_trans with (1 := L). apply Rle_trans with (1 * (A * A)); [apply Rmult_le_compat; lra|lra].
  - assert (T := Pos2Nat.is_pos p). rewrite Pos2Nat.inj_xO in *. assert (E : R0 * A ^ (2 * Pos.to_nat p) = R0 * (A * A) ^ Pos.to_nat p) by (rewrite pow_mult; replace (A ^ 2) with (A * A) by ring; ring). rewrite E in *.
    assert (BAA : 0 < A * A <= 1) by nra. assert (PU := pow_unit_le (A * A) (Pos.to_nat p) BAA).
    assert (PU1 : (A * A) ^ Pos.to_nat p <= A * A). { destruct (Pos.to_nat p) as [|q]; [lia|]. cbn [pow]. assert (Q := pow_unit_le (A * A) q BAA). nra. }
    replace (i + (j + 1) * (2 * Pos.to_nat p))%nat with (i + (S (j + j) + 1) * Pos.to_nat p)%nat by lia. apply IH; auto; [|lia].
    apply near_mult; auto; try lra; [|nia]. split; [|lra]. apply Rle_trans with (1 := L). apply Rle_trans with (1 * (A * A)); [apply Rmult_le_compat; lra|lra].
  - change (Pos.to_nat 1) with 1%nat in *. rewrite pow_1 in *. replace (i + (j + 1) * 1)%nat with (S (i + j)) by lia. apply near_mult; auto; try lra; [|lia]. split; [exact L|nra].
Qed.
Example C167_accurate : powi_accurate rt_libm.
Proof.
  intros x n F B Hn L. change (B2R x) with (RV x) in *. assert (O : fin one64 /\ RV one64 = 1) by exact (conj fin_b64_1 RV_b64_1). destruct n as [|n].
  - cbn [Z.of_nat m_powi rt_libm pow]. change (INR 0) with 0. destruct O as [O1 O2]. split; [exact O1|]. change (B2R one64) with (RV one64). rewrite O2, Rminus_diag_eq, Rabs_R0 by reflexivity. lra.
  - change (Z.of_nat (S n)) with (Zpos (Pos.of_succ_nat n)). cbn [m_powi rt_libm]. set (p := Pos.of_succ_nat n) in *. assert (Ep : S n = Pos.to_nat p) by (unfold p; now rewrite SuccNat2Pos.id_succ). rewrite Ep in *.
    assert (N0 : near 0 one64 1) by (destruct O as [O1 O2]; split; [exact O1|cbn [pow]; lra]). assert (N1 : near 0 x (RV x)) by (split; [exact F|cbn [pow]; lra]).
    assert (W := squaring_near p 0 0 one64 x 1 (RV x) N0 N1 ltac:(lra) B ltac:(rewrite Rmult_1_l; exact L) ltac:(lia)). replace (0 + (0 + 1) * Pos.to_nat p)%nat with (Pos.to_nat p) in W by lia. rewrite Rmult_1_l in W. destruct W as (W1 & W2).
    assert (PU := pow_unit_le (RV x) (Pos.to_nat p) B). assert (A : acc (Pos.to_nat p) (-900) 0 (squaring one64 x p) (RV x ^ Pos.to_nat p)) by (split; [exact W1|split; [split; [exact L|exact (proj2 PU)]|exact W2]]).
    destruct (acc_within _ _ _ _ _ A ltac:(lia)) as [_ D]. split; [exact W1|]. rewrite (Rabs_pos_eq (RV x ^ Pos.to_nat p)) in D by lra. exact D.
Qed.
Example C167_nonvacuous (m : Libm) : let p := b64 1 (-2) in finite64 p /\ B2R p = / 4 /\ choose_fits 60 7 /\ bpow radix2 (-400) <= (/ 4) ^ 7 /\ bpow radix2 (-400) <= (1 - / 4) ^ 53 /\
  (exists d, Binomial.new (Z.of_nat 60) (Prob p) = Ok d) /\ (exists d, Geometric.new p = Ok d).
Proof.
  intros p. destruct (b64_pow2 (-2) ltac:(lia)) as [F V1]. split; [exact F|]. split; [exact V1|]. split; [apply fits_62; lia|].
  assert (Z1 : bpow radix2 (-400) <= (/ 4) ^ 60). { replace (/ 4) with (bpow radix2 (-2)) by reflexivity. assert (E : forall n, bpow radix2 (-2) ^ n = bpow radix2 (-2 * Z.of_nat n)) by (induction n as [|n IH]; [reflexivity|cbn [pow]; rewrite IH, <- bpow_plus; f_equal; lia]). rewrite E. apply bpow_le. lia. }
  assert (Z2 : forall t n, (n <= 60)%nat -> / 4 <= t <= 1 -> bpow radix2 (-400) <= t ^ n).
  { intros t n Hn Ht. apply Rle_trans with (1 := Z1). apply Rle_trans with ((/ 4) ^ n); [|apply pow_incr; lra]. replace 60%nat with (n + (60 - n))%nat by lia. rewrite pow_add. assert (Q := pow_unit_le (/ 4) n ltac:(lra)). assert (Q' := pow_unit_le (/ 4) (60 - n) ltac:(lra)). nra. }
  split; [apply Z2; [lia|lra]|]. split; [apply Z2; [lia|lra]|]. assert (HV : valid_prob p) by (split; [exact F|change (B2R p) with (RV (b64 1 (-2))); rewrite V1; change (bpow radix2 (-2)) with (/ 4); lra]). apply (p_test m), andb_true_iff in HV.
  split; [exists (Binomial.new_unchecked (Z.of_nat 60) (Prob p))|exists (Geometric.new_unchecked p)]; (etransitivity; [apply map_params_ok; cbn [args s1 s2 s3 fst snd]; repeat (apply Forall_cons || apply Forall_nil); unfold arg_ok; cbn [arg_ty arg_val field_ok unwrap]; first [exact I|exact HV|lia]|reflexivity]).
Qed.
