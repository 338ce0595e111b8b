(** * C163: how far computed moments are from the formulas: a few units in the last place *)
From Coq Require Import Reals Lra Lia Psatz List ZArith Bool.
From Flocq Require Import Core Relative Plus_error Mult_error IEEE754.BinarySingleNaN.
From Verif.Num Require Import Scalar F64.
From Verif.Model Require Import Rust Constraints Probability Params Consts Continuous Continuous2 Continuous3 Discrete.
From Verif.Spec Require Import ParamSpec ProbSpec LibmSpec.
From Verif.Proofs Require Import ConstraintProofs NewInv ProbProofs F64Order LibmInst F64Cdf F64Pdf PiBound F64Acc.
From Verif.Properties Require Import C133_F64Cdf C135_F64Pdf C152_F64Variance.
Import ListNotations.
Open Scope R_scope.

(** x is a finite double at most k times 2^-52, relatively, from the real r *)
Definition within (k : nat) (x : f64) (r : R) : Prop := finite64 x /\ Rabs (B2R x - r) <= INR k * / 4503599627370496 * Rabs r.
(** doubles between 2^-100 and 2^100 *)
Definition moderate (x : f64) : Prop := le64 (b64 1 (-100)) x /\ le64 x (b64 1 100).

Lemma wi n N l h x r r' : acc n l h x r -> r = r' -> (n <= N)%nat -> (N <= 1000)%nat -> within N x r'.
Proof.
  intros A <- L M. destruct (acc_within _ _ _ _ _ A ltac:(lia)) as [F B]. split; [exact F|]. apply Rle_trans with (1 := B). apply Rmult_le_compat_r; [apply Rabs_pos|]. apply Rmult_le_compat_r; [lra|]. now apply le_INR.
Qed.
Lemma mod_acc x : moderate x -> acc 0 (-100) 100 x (RV x).
Proof.
  intros [L U]. destruct (b64_pow2 (-100) ltac:(lia)) as [F1 V1]. destruct (b64_pow2 100 ltac:(lia)) as [F2 V2]. destruct (le_num _ _ L) as [_ N]. apply le_V1 in L. apply le_V1 in U. rewrite (V_fin (b64 1 (-100))), V1 in L by exact F1. rewrite (V_fin (b64 1 100)), V2 in U by exact F2.
  assert (P := bpow_gt_0 radix2 (-100)). assert (Q : bpow radix2 100 < M64) by (change M64 with (bpow radix2 1024); apply bpow_lt; lia). assert (M := M64_pos). assert (F : fin x) by (apply V_fin_iff; [exact N|lra]). rewrite V_fin in L, U by exact F. apply acc_exact; [exact F|split; assumption].
Qed.
Lemma mod_fin x : moderate x -> fin x. Proof. intros H. apply mod_acc in H. apply H. Qed.
Lemma mod_le x : moderate x -> RV x <= bpow radix2 100. Proof. intros H. apply mod_acc in H. apply H. Qed.
Lemma count_acc k : (1 <= k <= 2 ^ 53)%Z -> acc 0 0 53 (b64 k 0) (IZR k).
Proof. intros H. apply acc_int; [exact H|]. change (bpow radix2 53) with (IZR (2 ^ 53)). apply IZR_le. lia. Qed.
Lemma minus_int x k h : fin x -> (1 <= k <= 2 ^ 53)%Z -> IZR k < RV x -> RV x <= bpow radix2 h -> (h <= 1000)%Z -> acc 1 (-52) h (Bminus mode_NE x (b64 k 0)) (RV x - IZR k).
Proof.
  intros F K L U H. destruct (b64_z k ltac:(lia)) as [Fk Vk]. assert (A := above_int x k F ltac:(lia) L). assert (1 <= IZR k) by (apply IZR_le; lia). rewrite <- Vk. apply acc_minus; try lia; auto. rewrite Vk. lra.
Qed.
Lemma mod_minus x k : moderate x -> (1 <= k <= 2 ^ 53)%Z -> IZR k < RV x -> acc 1 (-52) 100 (Bminus mode_NE x (b64 k 0)) (RV x - IZR k).
Proof. intros M K L. apply minus_int; auto; [now apply mod_fin|now apply mod_le|lia]. Qed.
Lemma count_minus j k : (1 <= j <= 2 ^ 53)%Z -> (1 <= k < j)%Z -> acc 1 (-52) 53 (Bminus mode_NE (b64 j 0) (b64 k 0)) (IZR j - IZR k).
Proof.
  intros J K. destruct (b64_z j ltac:(lia)) as [Fj Vj]. rewrite <- Vj. apply minus_int; try lia; [exact Fj|rewrite Vj; apply IZR_lt; lia|]. rewrite Vj. change (bpow radix2 53) with (IZR (2 ^ 53)). apply IZR_le. lia.
Qed.
Lemma not_one p : fin p -> 0 < RV p < 1 -> acc 1 (-53) 0 (Bminus mode_NE (b64 1 0) p) (1 - RV p).
Proof.
  intros F B. rewrite <- RV_b64_1. apply acc_minus; try lia; [exact fin_b64_1|exact F|]. rewrite RV_b64_1. change (bpow radix2 0) with 1. split; [|lra].
  assert (X := pred_ge_gt radix2 (SpecFloat.fexp 53 1024) (RV p) 1 (fmt_RV p) fmt_1 ltac:(lra)). change 1 with (bpow radix2 0) in X at 1. rewrite pred_bpow in X. change (SpecFloat.fexp 53 1024 0) with (-53)%Z in X. change (bpow radix2 0) with 1 in X. lra.
Qed.
Lemma gt_lit' (a : f64) (k : Z) : moderate a -> (0 <= k <= 2 ^ 53)%Z -> Bleb a (b64 k 0) = false -> IZR k < RV a.
Proof. intros M K. apply gt_lit; [exact K|now apply mod_fin]. Qed.
Lemma gt_no (a : f64) (k : Z) : moderate a -> (0 <= k <= 2 ^ 53)%Z -> IZR k < RV a -> Bleb a (b64 k 0) = false.
Proof.
  intros M K L. destruct (b64_z k ltac:(lia)) as [Fk Vk]. assert (F := mod_fin _ M). destruct (Bleb a (b64 k 0)) eqn:E; [|reflexivity]. exfalso. apply (le_V1 a (b64 k 0)) in E. rewrite !V_fin in E by assumption. lra.
Qed.
Ltac ac := lazymatch goal with
  | |- acc _ _ _ (Bmult mode_NE _ _) _ => eapply acc_mult; [ac|ac|reflexivity|lia|lia|lia]
  | |- acc _ _ _ (Bdiv mode_NE _ _) _ => eapply acc_div; [ac|ac|reflexivity|lia|lia|lia]
  | |- acc _ _ _ (Bplus mode_NE _ _) _ => eapply acc_plus; [ac|ac|reflexivity|lia|lia|lia]
  | |- acc _ _ _ (Bsqrt mode_NE _) _ => eapply acc_sqrt; [ac|reflexivity|lia|lia|lia]
  | |- acc _ _ _ (b64 _ 0) _ => first [eassumption | apply (acc_int _ 10); [lia|cbn; lra]]
  | |- _ => eassumption
  end.
Ltac wi := eapply wi; [ac|first [reflexivity | solve [field; repeat split; first [lra | apply Rgt_not_eq, sqrt_lt_R0; lra]] | (field; repeat split; try lra)]|lia|lia].

(** pi in doubles *)
Lemma pi_acc : acc 1 1 2 (b64 7074237752028440 (-51)) PI.
Proof.
  assert (FF : fmt64 (IZR 7074237752028440 * bpow radix2 (-51))) by (apply fmt_scaled; lia). destruct (b64_spec 7074237752028440 (-51)) as [A B].
  - apply rnd_small, small_le. change (bpow radix2 (-51)) with (/ 2251799813685248). rewrite Rabs_pos_eq; lra.
  - rewrite rnd_fmt in B by exact FF. change (bpow radix2 (-51)) with (/ 2251799813685248) in B. assert (L := pi_lb). assert (U := pi_ub). split; [exact A|]. fold (RV (b64 7074237752028440 (-51))) in B. rewrite B. change (bpow radix2 1) with 2. change (bpow radix2 2) with 4. cbn [pow]. unfold u53. split; [split; lra|split; lra].
Qed.
Lemma pi2_acc (m : Libm) : acc 3 2 4 (PI2 : f64) (PI * PI).
Proof. change (acc 3 2 4 (Bmult mode_NE (b64 7074237752028440 (-51)) (b64 7074237752028440 (-51))) (PI * PI)). assert (P := pi_acc). set (x := b64 7074237752028440 (-51)) in *. apply (acc_mult 1 1 3 1 2 1 2 x x PI PI P P); lia. Qed.

Theorem C163_constants (m : Libm) : within 1 (fpi : f64) PI /\ within 3 (PI2 : f64) (PI ^ 2) /\ within 5 (PI3 : f64) (PI ^ 3) /\ within 7 (PI4 : f64) (PI ^ 4) /\ within 9 (PI5 : f64) (PI ^ 5) /\
  within 2 (PI_2 : f64) (2 * PI) /\ within 2 (PI_16 : f64) (16 * PI) /\ within 2 (PI_OVER_2 : f64) (PI / 2) /\ within 2 (PI_OVER_4 : f64) (PI / 4) /\ within 4 (PI2_OVER_6 : f64) (PI ^ 2 / 6) /\
  within 2 (ONE_OVER_PI : f64) (/ PI) /\ within 2 (TWO_OVER_PI : f64) (2 / PI) /\ within 4 (TWO_OVER_PI2 : f64) (2 / PI ^ 2).
Proof.
  assert (P := pi_acc). assert (Z := acc_pos _ _ _ _ _ P). assert (P2 := pi2_acc m). unfold PI3, PI4, PI5, PI_2, PI_16, PI_OVER_2, PI_OVER_4, PI2_OVER_6, ONE_OVER_PI, TWO_OVER_PI, TWO_OVER_PI2.
  set (y := PI2 : f64) in *. change (fpi : f64) with (b64 7074237752028440 (-51)). set (x := b64 7074237752028440 (-51)) in *.
  repeat match goal with |- _ /\ _ => split end.
  - wi.
  - eapply wi; [exact P2|ring|lia|lia].
  - change (within 5 (Bmult mode_NE (Bmult mode_NE x x) x) (PI ^ 3)). eapply wi; [ac|ring|lia|lia].
  - change (within 7 (Bmult mode_NE (Bmult mode_NE (Bmult mode_NE x x) x) x) (PI ^ 4)). eapply wi; [ac|ring|lia|lia].
  - change (within 9 (Bmult mode_NE (Bmult mode_NE (Bmult mode_NE (Bmult mode_NE x x) x) x) x) (PI ^ 5)). eapply wi; [ac|ring|lia|lia].
  - change (within 2 (Bmult mode_NE x (b64 2 0)) (2 * PI)). eapply wi; [ac|ring|lia|lia].
  - change (within 2 (Bmult mode_NE x (b64 16 0)) (16 * PI)). eapply wi; [ac|ring|lia|lia].
  - change (within 2 (Bdiv mode_NE x (b64 2 0)) (PI / 2)). wi.
  - change (within 2 (Bdiv mode_NE x (b64 4 0)) (PI / 4)). wi.
  - change (within 4 (Bdiv mode_NE y (b64 6 0)) (PI ^ 2 / 6)). wi.
  - change (within 2 (Bdiv mode_NE (b64 1 0) x) (/ PI)). wi.
  - change (within 2 (Bdiv mode_NE (b64 2 0) x) (2 / PI)). wi.
  - change (within 4 (Bdiv mode_NE (b64 2 0) y) (2 / PI ^ 2)). wi.
Qed.
Print Assumptions C163_constants.

Ltac acs a := let A := fresh "A" in let Z := fresh "Z" in match goal with H : moderate a |- _ => assert (A := mod_acc a H); assert (Z := acc_pos _ _ _ _ _ A); change (B2R a) with (RV a) in * end.

Theorem C163_scale (m : Libm) (mu s : f64) : moderate s ->
  (forall d, UniformF.new mu s = Ok d -> within 2 (UniformF.variance d) (B2R s ^ 2 / 12)) /\
  (forall d, Exponential.new s = Ok d -> within 1 (Exponential.mean d) (/ B2R s) /\ within 2 (Exponential.variance d) (/ B2R s ^ 2)) /\
  (forall d, Logistic.new mu s = Ok d -> within 6 (Logistic.variance d) (B2R s ^ 2 * PI ^ 2 / 3)) /\
  (forall d, Gumbel.new mu s = Ok d -> within 6 (Gumbel.variance d) (B2R s ^ 2 * PI ^ 2 / 6)) /\
  (forall d, Arcsine.new mu s = Ok d -> within 2 (Arcsine.variance d) (B2R s ^ 2 / 8)) /\
  (forall d, Laplace.new mu s = Ok d -> within 2 (Laplace.variance d) (2 * B2R s ^ 2)) /\
  (forall d, Rayleigh.new s = Ok d -> within 4 (Rayleigh.mean d) (B2R s * sqrt (PI / 2))) /\
  (forall d, UvNormal.new mu s = Ok d -> within 1 (UvNormal.precision d) (/ B2R s)) /\
  (forall d, FoldedNormal.new mu s = Ok d -> within 2 (FoldedNormal.precision d) (/ B2R s ^ 2)) /\
  (forall d, Poisson.new s = Ok d -> within 1 (Poisson.kurtosis d) (/ B2R s)).
Proof.
  intros M. acs s. assert (P := pi_acc). assert (ZP := acc_pos _ _ _ _ _ P). assert (P2 := pi2_acc m).
  split; [|split; [|split; [|split; [|split; [|split; [|split; [|split; [|split]]]]]]]].
  - intros d H. unfold UniformF.new, UniformF.params_new, loc_new, scale_new in H. destruct (check (AllS Positive) s) eqn:E; [|discriminate H]. apply check_ok_inv in E as [-> E]. injection H as <-.
    change (within 2 (Bdiv mode_NE (Bmult mode_NE s s) (b64 12 0)) (RV s ^ 2 / 12)). wi.
  - intros d H. unfold Exponential.new in H. inv64 H. split; [change (within 1 (Bdiv mode_NE (b64 1 0) s) (/ RV s))|change (within 2 (Bdiv mode_NE (Bdiv mode_NE (b64 1 0) s) s) (/ RV s ^ 2))]; wi.
  - intros d H. unfold Logistic.new in H. inv64 H. change (within 6 (Bdiv mode_NE (Bmult mode_NE (Bmult mode_NE s s) PI2) (b64 3 0)) (RV s ^ 2 * PI ^ 2 / 3)). set (c := PI2 : f64) in *. wi.
  - intros d H. unfold Gumbel.new in H. inv64 H. change (within 6 (Bdiv mode_NE (Bmult mode_NE (Bmult mode_NE PI2 s) s) (b64 6 0)) (RV s ^ 2 * PI ^ 2 / 6)). set (c := PI2 : f64) in *. wi.
  - intros d H. unfold Arcsine.new in H. inv64 H. change (within 2 (Bdiv mode_NE (Bmult mode_NE s s) (b64 8 0)) (RV s ^ 2 / 8)). wi.
  - intros d H. unfold Laplace.new in H. inv64 H. change (within 2 (Bmult mode_NE (Bmult mode_NE (b64 2 0) s) s) (2 * RV s ^ 2)). wi.
  - intros d H. unfold Rayleigh.new in H. inv64 H. change (within 4 (Bmult mode_NE s (Bsqrt mode_NE (Bdiv mode_NE (b64 7074237752028440 (-51)) (b64 2 0)))) (RV s * sqrt (PI / 2))). set (c := b64 7074237752028440 (-51)) in *. wi.
  - intros d H. apply (normal_inv m) in H as [-> _]. change (within 1 (Bdiv mode_NE (b64 1 0) s) (/ RV s)). wi.
  - intros d H. unfold FoldedNormal.new in H. inv64 H. change (within 2 (Bdiv mode_NE (Bdiv mode_NE (b64 1 0) s) s) (/ RV s ^ 2)). wi.
  - intros d H. unfold Poisson.new in H. inv64 H. change (within 1 (Bdiv mode_NE (b64 1 0) s) (/ RV s)). wi.
Qed.
Print Assumptions C163_scale.

Theorem C163_shapes (m : Libm) (a b : f64) : moderate a -> moderate b ->
  (forall d, Gamma.new a b = Ok d -> within 1 (Gamma.mean d) (B2R a / B2R b) /\ within 2 (Gamma.variance d) (B2R a / B2R b ^ 2) /\ within 2 (Gamma.skewness d) (2 / sqrt (B2R a)) /\ within 1 (Gamma.excess_kurtosis d) (6 / B2R a) /\
    (1 < B2R a -> exists x, Gamma.modes d = Ret [x] /\ within 2 x ((B2R a - 1) / B2R b))) /\
  (forall d, Beta.new a b = Ok d -> within 3 (Beta.mean d) (B2R a / (B2R a + B2R b)) /\ within 8 (Beta.variance d) (B2R a * B2R b / ((B2R a + B2R b) ^ 2 * (B2R a + B2R b + 1)))) /\
  (forall d, InvGamma.new a b = Ok d ->
    (1 < B2R a -> exists x, InvGamma.mean d = Ret x /\ within 2 x (B2R b / (B2R a - 1))) /\ (2 < B2R a -> exists x, InvGamma.variance d = Ret x /\ within 7 x (B2R b ^ 2 / ((B2R a - 1) ^ 2 * (B2R a - 2)))) /\
    (3 < B2R a -> exists x, InvGamma.skewness d = Ret x /\ within 5 x (4 * sqrt (B2R a - 2) / (B2R a - 3))) /\ exists x, InvGamma.modes d = [x] /\ within 2 x (B2R b / (B2R a + 1))) /\
  (forall d, BetaPrime.new a b = Ok d ->
    (1 < B2R b -> exists x, BetaPrime.mean d = Ret x /\ within 2 x (B2R a / (B2R b - 1))) /\ (2 < B2R b -> exists x, BetaPrime.variance d = Ret x /\ within 9 x (B2R a * (B2R a + B2R b - 1) / ((B2R b - 2) * (B2R b - 1) ^ 2)))) /\
  (forall d, Pareto.new a b = Ok d -> (1 < B2R b -> within 3 (Pareto.mean d) (B2R b * B2R a / (B2R b - 1))) /\ (2 < B2R b -> within 8 (Pareto.variance d) (B2R a ^ 2 * B2R b / ((B2R b - 1) ^ 2 * (B2R b - 2))))) /\
  (forall d, InvNormal.new a b = Ok d -> within 3 (InvNormal.variance d) (B2R a ^ 3 / B2R b) /\ within 3 (InvNormal.skewness d) (3 * sqrt (B2R a / B2R b))) /\
  (forall d, StudentT.new a = Ok d -> (2 < B2R a -> exists x, StudentT.variance d = Ret x /\ within 2 x (B2R a / (B2R a - 2))) /\ (4 < B2R a -> exists x, StudentT.excess_kurtosis d = Ret x /\ within 2 x (6 / (B2R a - 4)))).
Proof.
  intros Ma Mb. acs a. acs b.
  split; [|split; [|split; [|split; [|split; [|split]]]]].
  - intros d H. unfold Gamma.new in H. inv64 H. repeat match goal with |- _ /\ _ => split end.
    + change (within 1 (Bdiv mode_NE a b) (RV a / RV b)). wi.
    + change (within 2 (Bdiv mode_NE (Bdiv mode_NE a b) b) (RV a / RV b ^ 2)). wi.
    + change (within 2 (Bdiv mode_NE (b64 2 0) (Bsqrt mode_NE a)) (2 / sqrt (RV a))). wi.
    + change (within 1 (Bdiv mode_NE (b64 6 0) a) (6 / RV a)). wi.
    + intros L. assert (A1 := mod_minus a 1 Ma ltac:(lia) L). exists (Bdiv mode_NE (Bminus mode_NE a (b64 1 0)) b). split.
      * unfold Gamma.modes. cbn [Gamma.pr Gamma.alpha Gamma.beta Gamma.new_unchecked]. change (fltb a (f_of_Z 1)) with (Bltb a (b64 1 0)). destruct (Bltb a (b64 1 0)) eqn:E; [|reflexivity]. exfalso. apply (lt_V1 a (b64 1 0)) in E. rewrite !V_fin, RV_b64_1 in E by (first [exact fin_b64_1|now apply mod_fin]). lra.
      * set (p := Bminus mode_NE a (b64 1 0)) in *. wi.
  - intros d H. unfold Beta.new in H. inv64 H. split.
    + change (within 3 (Bdiv mode_NE (b64 1 0) (Bplus mode_NE (b64 1 0) (Bdiv mode_NE b a))) (RV a / (RV a + RV b))). wi.
    + change (within 8 (Bdiv mode_NE (Bmult mode_NE a b) (Bmult mode_NE (Bmult mode_NE (Bplus mode_NE a b) (Bplus mode_NE a b)) (Bplus mode_NE (Bplus mode_NE a b) (b64 1 0)))) (RV a * RV b / ((RV a + RV b) ^ 2 * (RV a + RV b + 1)))). wi.
  - intros d H. unfold InvGamma.new in H. inv64 H. repeat match goal with |- _ /\ _ => split end.
    + intros L. assert (A1 := mod_minus a 1 Ma ltac:(lia) L). exists (Bdiv mode_NE b (Bminus mode_NE a (b64 1 0))). split; [|set (p := Bminus mode_NE a (b64 1 0)) in *; wi].
      unfold InvGamma.mean. cbn [InvGamma.pr InvGamma.alpha InvGamma.beta]. change (fleb a (f_of_Z 1)) with (Bleb a (b64 1 0)). now rewrite gt_no by (auto; lia).
    + intros L. assert (A1 := mod_minus a 1 Ma ltac:(lia) ltac:(lra)). assert (A2 := mod_minus a 2 Ma ltac:(lia) L). eexists. split; [unfold InvGamma.variance; cbn [InvGamma.pr InvGamma.alpha InvGamma.beta]; change (fleb a (f_of_Z 2)) with (Bleb a (b64 2 0)); rewrite gt_no by (auto; lia); reflexivity|].
      change (within 7 (Bdiv mode_NE (Bdiv mode_NE (Bdiv mode_NE (Bmult mode_NE b b) (Bminus mode_NE a (b64 1 0))) (Bminus mode_NE a (b64 1 0))) (Bminus mode_NE a (b64 2 0))) (RV b ^ 2 / ((RV a - 1) ^ 2 * (RV a - 2)))).
      set (p := Bminus mode_NE a (b64 1 0)) in *. set (q := Bminus mode_NE a (b64 2 0)) in *. wi.
    + intros L. assert (A1 := mod_minus a 2 Ma ltac:(lia) ltac:(lra)). assert (A2 := mod_minus a 3 Ma ltac:(lia) L). eexists. split; [unfold InvGamma.skewness; cbn [InvGamma.pr InvGamma.alpha InvGamma.beta]; change (fleb a (f_of_Z 3)) with (Bleb a (b64 3 0)); rewrite gt_no by (auto; lia); reflexivity|].
      change (within 5 (Bdiv mode_NE (Bmult mode_NE (b64 4 0) (Bsqrt mode_NE (Bminus mode_NE a (b64 2 0)))) (Bminus mode_NE a (b64 3 0))) (4 * sqrt (RV a - 2) / (RV a - 3))).
      set (p := Bminus mode_NE a (b64 2 0)) in *. set (q := Bminus mode_NE a (b64 3 0)) in *. wi.
    + eexists. split; [reflexivity|]. change (within 2 (Bdiv mode_NE b (Bplus mode_NE a (b64 1 0))) (RV b / (RV a + 1))). wi.
  - intros d H. unfold BetaPrime.new in H. inv64 H. split.
    + intros L. assert (A1 := mod_minus b 1 Mb ltac:(lia) L). exists (Bdiv mode_NE a (Bminus mode_NE b (b64 1 0))). split; [|set (p := Bminus mode_NE b (b64 1 0)) in *; wi].
      unfold BetaPrime.mean. cbn [BetaPrime.pr BetaPrime.alpha BetaPrime.beta]. change (fleb b (f_of_Z 1)) with (Bleb b (b64 1 0)). now rewrite gt_no by (auto; lia).
    + intros L. assert (A1 := mod_minus b 1 Mb ltac:(lia) ltac:(lra)). assert (A2 := mod_minus b 2 Mb ltac:(lia) L). eexists. split; [unfold BetaPrime.variance; cbn [BetaPrime.pr BetaPrime.alpha BetaPrime.beta]; change (fleb b (f_of_Z 2)) with (Bleb b (b64 2 0)); rewrite gt_no by (auto; lia); reflexivity|].
      change (within 9 (Bdiv mode_NE (Bdiv mode_NE (Bdiv mode_NE (Bmult mode_NE a (Bplus mode_NE a (Bminus mode_NE b (b64 1 0)))) (Bminus mode_NE b (b64 2 0))) (Bminus mode_NE b (b64 1 0))) (Bminus mode_NE b (b64 1 0))) (RV a * (RV a + RV b - 1) / ((RV b - 2) * (RV b - 1) ^ 2))).
      set (p := Bminus mode_NE b (b64 1 0)) in *. set (q := Bminus mode_NE b (b64 2 0)) in *. wi.
  - intros d H. unfold Pareto.new in H. inv64 H. split.
    + intros L. assert (A1 := mod_minus b 1 Mb ltac:(lia) L). unfold Pareto.mean. cbn [Pareto.pr]. change (fleb b (f_of_Z 1)) with (Bleb b (b64 1 0)). rewrite gt_no by (auto; lia).
      change (within 3 (Bdiv mode_NE (Bmult mode_NE b a) (Bminus mode_NE b (b64 1 0))) (RV b * RV a / (RV b - 1))). set (p := Bminus mode_NE b (b64 1 0)) in *. wi.
    + intros L. assert (A1 := mod_minus b 1 Mb ltac:(lia) ltac:(lra)). assert (A2 := mod_minus b 2 Mb ltac:(lia) L). unfold Pareto.variance. cbn [Pareto.pr]. change (fleb b (f_of_Z 2)) with (Bleb b (b64 2 0)). rewrite gt_no by (auto; lia).
      change (within 8 (Bdiv mode_NE (Bdiv mode_NE (Bdiv mode_NE (Bmult mode_NE (Bmult mode_NE a a) b) (Bminus mode_NE b (b64 1 0))) (Bminus mode_NE b (b64 1 0))) (Bminus mode_NE b (b64 2 0))) (RV a ^ 2 * RV b / ((RV b - 1) ^ 2 * (RV b - 2)))).
      set (p := Bminus mode_NE b (b64 1 0)) in *. set (q := Bminus mode_NE b (b64 2 0)) in *. wi.
  - intros d H. unfold InvNormal.new in H. inv64 H. split.
    + change (within 3 (Bdiv mode_NE (Bmult mode_NE (Bmult mode_NE a a) a) b) (RV a ^ 3 / RV b)). wi.
    + change (within 3 (Bmult mode_NE (b64 3 0) (Bsqrt mode_NE (Bdiv mode_NE a b))) (3 * sqrt (RV a / RV b))). wi.
  - intros d H. unfold StudentT.new in H. inv64 H. split.
    + intros L. assert (A2 := mod_minus a 2 Ma ltac:(lia) L). eexists. split; [unfold StudentT.variance; cbn [StudentT.pr StudentT.nu]; change (fleb a (f_of_Z 2)) with (Bleb a (b64 2 0)); change (fleb a (f_of_Z 1)) with (Bleb a (b64 1 0)); rewrite !gt_no by (auto; try lia; lra); reflexivity|].
      change (within 2 (Bdiv mode_NE a (Bminus mode_NE a (b64 2 0))) (RV a / (RV a - 2))). set (p := Bminus mode_NE a (b64 2 0)) in *. wi.
    + intros L. assert (A2 := mod_minus a 4 Ma ltac:(lia) L). eexists. split; [unfold StudentT.excess_kurtosis; cbn [StudentT.pr StudentT.nu]; change (fleb a (f_of_Z 2)) with (Bleb a (b64 2 0)); change (fleb a (f_of_Z 4)) with (Bleb a (b64 4 0)); rewrite !gt_no by (auto; try lia; lra); reflexivity|].
      change (within 2 (Bdiv mode_NE (b64 6 0) (Bminus mode_NE a (b64 4 0))) (6 / (RV a - 4))). set (p := Bminus mode_NE a (b64 4 0)) in *. wi.
Qed.
Print Assumptions C163_shapes.

Theorem C163_counts (m : Libm) (j k : Z) (l : f64) : (1 <= j <= 2 ^ 52)%Z -> (1 <= k <= 2 ^ 52)%Z -> moderate l ->
  (forall d, Erlang.new k l = Ok d -> within 1 (Erlang.mean d) (IZR k / B2R l) /\ within 2 (Erlang.variance d) (IZR k / B2R l ^ 2) /\ within 2 (Erlang.skewness d) (2 / sqrt (IZR k)) /\ within 1 (Erlang.excess_kurtosis d) (6 / IZR k)) /\
  (forall d, ChiSq.new (F := f64) k = Ok d -> within 0 (ChiSq.mean d) (IZR k) /\ (exists x : f64, ChiSq.variance d = Ret x /\ within 0 x (2 * IZR k)) /\ within 2 (ChiSq.skewness d) (sqrt (8 / IZR k)) /\ within 1 (ChiSq.excess_kurtosis d) (12 / IZR k)) /\
  (forall d, FDist.new (F := f64) j k = Ok d ->
    ((2 < k)%Z -> exists x : f64, FDist.mean d = Ret x /\ within 2 x (IZR k / (IZR k - 2))) /\
    ((4 < k)%Z -> exists x : f64, FDist.variance d = Ret x /\ within 12 x (2 * IZR k ^ 2 * (IZR j + IZR k - 2) / (IZR j * (IZR k - 2) ^ 2 * (IZR k - 4))))) /\
  (forall d b, moderate b -> BetaBinomial.new k l b = Ok d -> within 3 (BetaBinomial.mean d) (IZR k * B2R l / (B2R l + B2R b))) /\
  (B2R l < 1 ->
    (forall d, Binomial.new k (Prob l) = Ok d -> within 1 (Binomial.mean d) (IZR k * B2R l) /\ within 3 (Binomial.variance d) (IZR k * B2R l * (1 - B2R l))) /\
    (forall d, Bernoulli.new l = Ok d -> within 2 (Bernoulli.variance d) (B2R l * (1 - B2R l))) /\
    (forall d, Geometric.new l = Ok d -> within 2 (Geometric.mean d) ((1 - B2R l) / B2R l) /\ within 3 (Geometric.variance d) ((1 - B2R l) / B2R l ^ 2))).
Proof.
  intros J K M. acs l. assert (AJ := count_acc j ltac:(lia)). assert (AK := count_acc k ltac:(lia)). assert (ZJ := acc_pos _ _ _ _ _ AJ). assert (ZK := acc_pos _ _ _ _ _ AK).
  split; [|split; [|split; [|split]]].
  - intros d H. unfold Erlang.new in H. inv64 H. set (x := b64 k 0) in *. repeat match goal with |- _ /\ _ => split end.
    + change (within 1 (Bdiv mode_NE x l) (IZR k / RV l)). wi.
    + change (within 2 (Bdiv mode_NE (Bdiv mode_NE x l) l) (IZR k / RV l ^ 2)). wi.
    + change (within 2 (Bdiv mode_NE (b64 2 0) (Bsqrt mode_NE x)) (2 / sqrt (IZR k))). wi.
    + change (within 1 (Bdiv mode_NE (b64 6 0) x) (6 / IZR k)). wi.
  - intros d H. unfold ChiSq.new in H. inv_new H. repeat match goal with |- _ /\ _ => split end.
    + change (within 0 (b64 k 0) (IZR k)). wi.
    + exists (b64 (2 * k) 0). split.
      * unfold ChiSq.variance. cbn [ChiSq.pr ChiSq.k]. unfold u64, checked, U64_MAX. replace (Z.leb 0 (2 * k) && Z.leb (2 * k) (2 ^ 64 - 1))%bool with true; [reflexivity|]. symmetry. apply andb_true_intro. split; apply Z.leb_le; lia.
      * assert (A2 := count_acc (2 * k) ltac:(lia)). eapply wi; [exact A2|rewrite mult_IZR; reflexivity|lia|lia].
    + change (within 2 (Bsqrt mode_NE (Bdiv mode_NE (b64 8 0) (b64 k 0))) (sqrt (8 / IZR k))). set (x := b64 k 0) in *. wi.
    + change (within 1 (Bdiv mode_NE (b64 12 0) (b64 k 0)) (12 / IZR k)). set (x := b64 k 0) in *. wi.
  - intros d H. unfold FDist.new in H. inv_new H. split.
    + intros L. exists (Bdiv mode_NE (b64 k 0) (Bminus mode_NE (b64 k 0) (b64 2 0))). split.
      * unfold FDist.mean. cbn [FDist.pr FDist.d2]. destruct (Z.leb_spec k 2); [lia|reflexivity].
      * assert (A2 := count_minus k 2 ltac:(lia) ltac:(lia)). assert (Z2 := acc_pos _ _ _ _ _ A2). set (x := b64 k 0) in *. set (p := Bminus mode_NE x (b64 2 0)) in *. wi.
    + intros L. assert (A2 := count_minus k 2 ltac:(lia) ltac:(lia)). assert (Z2 := acc_pos _ _ _ _ _ A2). assert (A4 := count_minus k 4 ltac:(lia) ltac:(lia)). assert (Z4 := acc_pos _ _ _ _ _ A4). eexists. split.
      * unfold FDist.variance. cbn [FDist.pr FDist.d2]. destruct (Z.leb_spec k 4); [lia|reflexivity].
      * set (x := b64 j 0) in *. set (y := b64 k 0) in *. set (p := Bminus mode_NE y (b64 2 0)) in *. set (q := Bminus mode_NE y (b64 4 0)) in *.
        change (within 12 (Bdiv mode_NE (Bdiv mode_NE (Bdiv mode_NE (Bdiv mode_NE (Bmult mode_NE (Bmult mode_NE (Bmult mode_NE (b64 2 0) y) y) (Bplus mode_NE x p)) x) p) p) q) (2 * IZR k ^ 2 * (IZR j + IZR k - 2) / (IZR j * (IZR k - 2) ^ 2 * (IZR k - 4)))). wi.
  - intros d b Mb H. acs b. unfold BetaBinomial.new in H. inv64 H. change (within 3 (Bmult mode_NE (b64 k 0) (Bdiv mode_NE l (Bplus mode_NE l b))) (IZR k * RV l / (RV l + RV b))). set (x := b64 k 0) in *. wi.
  - intros L. assert (AQ := not_one l (mod_fin l M) ltac:(lra)). set (q := Bminus mode_NE (b64 1 0) l) in *. split; [|split]; intros d H.
    + unfold Binomial.new in H. inv_new H. split; [change (within 1 (Bmult mode_NE l (b64 k 0)) (IZR k * RV l))|change (within 3 (Bmult mode_NE (Bmult mode_NE l q) (b64 k 0)) (IZR k * RV l * (1 - RV l)))]; set (x := b64 k 0) in *; wi.
    + unfold Bernoulli.new in H. inv_new H. change (within 2 (Bmult mode_NE l q) (RV l * (1 - RV l))). wi.
    + unfold Geometric.new in H. inv_new H. split; [change (within 2 (Bdiv mode_NE q l) ((1 - RV l) / RV l))|change (within 3 (Bdiv mode_NE (Bdiv mode_NE q l) l) ((1 - RV l) / RV l ^ 2))]; wi.
Qed.
Print Assumptions C163_counts.

(** Uniform's mean and median: half the width is exact, so one rounding, whatever cancels *)
Theorem C163_uniform_mean (m : Libm) (l w : f64) (d : UniformF.t f64) : finite64 l -> le64 (Babs l) (b64 1 100) -> moderate w -> UniformF.new l w = Ok d ->
  within 1 (UniformF.mean d) (B2R l + B2R w / 2).
Proof.
  intros Fl Bl M H. acs w. destruct A as (Fw & Bw & _). unfold UniformF.new, UniformF.params_new, loc_new, scale_new in H. destruct (check (AllS Positive) w) eqn:E; [|discriminate H]. apply check_ok_inv in E as [-> E]. injection H as <-.
  destruct (b64_z 2 ltac:(lia)) as [F2 V2]. destruct (V_div w (b64 2 0) Fw F2 ltac:(lra)) as [N1 E1]. rewrite V2 in E1. assert (Q := M64_pos).
  change (within 1 (Bplus mode_NE l (Bdiv mode_NE w (b64 2 0))) (RV l + RV w / 2)).
  assert (G : fmt64 (RV w / 2)).
  { assert (X := mult_bpow_exact_FLT radix2 (-1074) 53 (RV w) (-1) (fmt_RV w)). change (RV w / 2) with (RV w * bpow radix2 (-1)). apply X. cbn [Z.opp]. assert (-99 <= mag radix2 (RV w))%Z; [|lia]. apply mag_ge_bpow. rewrite Rabs_pos_eq by lra. exact (proj1 Bw). }
  assert (B1 : bpow radix2 100 < M64) by (change M64 with (bpow radix2 1024); apply bpow_lt; lia). unfold sat in E1. rewrite rnd_fmt, clamp_id in E1 by (try exact G; lra).
  set (h := Bdiv mode_NE w (b64 2 0)) in *. assert (Fh : fin h) by (apply V_fin_iff; [exact N1|rewrite E1; lra]). rewrite V_fin in E1 by exact Fh. destruct (V_plus l h Fl Fh) as [N2 E2].
  assert (BL : Rabs (RV l) <= bpow radix2 100). { destruct (b64_pow2 100 ltac:(lia)) as [F9 V9]. apply le_V1 in Bl. rewrite (V_fin (b64 1 100)), V9 in Bl by exact F9. rewrite V_fin in Bl by (destruct l; try discriminate Fl; reflexivity). unfold RV in *. now rewrite B2R_Babs in Bl. }
  assert (T : Rabs (RV l + RV h) <= bpow radix2 101). { apply Rle_trans with (1 := Rabs_triang _ _). rewrite (Rabs_pos_eq (RV h)) by lra. rewrite E1. change 101%Z with (1 + 100)%Z. rewrite bpow_plus. change (bpow radix2 1) with 2. lra. }
  assert (B2 : bpow radix2 101 < M64) by (change M64 with (bpow radix2 1024); apply bpow_lt; lia). apply Rabs_le_inv in T.
  assert (R1 : - bpow radix2 101 <= rnd (RV l + RV h) <= bpow radix2 101) by (split; [apply rnd_ge; [apply generic_format_opp, fmt_bpow; lia|lra]|apply rnd_le_fmt; [apply fmt_bpow; lia|lra]]).
  unfold sat in E2. rewrite clamp_id in E2 by lra. set (s := Bplus mode_NE l h) in *. assert (F : fin s) by (apply V_fin_iff; [exact N2|rewrite E2; lra]). rewrite V_fin in E2 by exact F. split; [exact F|]. fold (RV s). rewrite E2, <- E1.
  destruct (FLT_plus_error_N_ex radix2 (-1074) 53 (fun x => negb (BinInt.Z.even x)) (RV l) (RV h) (fmt_RV l) (fmt_RV h)) as (eps & Be & Ee).
  change (rnd (RV l + RV h) = (RV l + RV h) * (1 + eps)) in Ee. rewrite Ee. replace ((RV l + RV h) * (1 + eps) - (RV l + RV h)) with (eps * (RV l + RV h)) by ring. rewrite Rabs_mult. apply Rmult_le_compat_r; [apply Rabs_pos|].
  apply Rle_trans with (1 := Be). unfold u_ro. change (bpow radix2 (- (53) + 1)) with (/ 4503599627370496). change (INR 1) with 1. apply Rle_trans with (/ 2 * / 4503599627370496 / 1); [|lra]. apply Rmult_le_compat_l; [lra|]. apply Rinv_le; lra.
Qed.
Print Assumptions C163_uniform_mean.

(** Refuted for two families, at moderate parameters: the computed variance has no correct digit *)
Theorem C163_triangular_refuted (m : Libm) : exists d, Triangular.new (b64 195155286 0) (b64 2 0) (b64 1 0) = Ok d /\
  forall k : nat, INR k < 4503599627370496 -> ~ within k (Triangular.variance d) ((2 ^ 2 + 2 * 1 + 1 ^ 2) / 18).
Proof.
  destruct (C152_triangular_refuted m) as (d & H & L & _). exists d. split; [exact H|]. intros k Hk [F B]. apply lt_V1 in L. rewrite V_zero, V_fin in L by exact F. fold (RV (Triangular.variance d)) in B. set (x := RV _) in *.
  rewrite (Rabs_pos_eq (_ / 18)) in B by lra. apply Rabs_le_inv in B. assert (N := pos_INR k). assert (INR k * / 4503599627370496 < 1) by lra. nra.
Qed.
Print Assumptions C163_triangular_refuted.
Theorem C163_beta_binomial_refuted (m : Libm) : let a := b64 1 60 in moderate a /\ moderate one64 /\ exists d, BetaBinomial.new 1 a one64 = Ok d /\
  forall k : nat, INR k < 4503599627370496 -> ~ within k (BetaBinomial.variance d) (B2R a * 1 * (B2R a + 1 + 1) / ((B2R a + 1) ^ 2 * (B2R a + 1 + 1))).
Proof.
  intros a. split; [split; vm_compute; reflexivity|]. split; [split; vm_compute; reflexivity|]. exists (BetaBinomial.new_unchecked 1 a one64).
  assert (PA : fltb (f_of_Z 0 : f64) a = true) by (vm_compute; reflexivity). assert (PB : fltb (f_of_Z 0 : f64) one64 = true) by (vm_compute; reflexivity). split.
  - etransitivity; [apply map_params_ok; cbn [args s1 s2 s3 fst snd]; repeat (apply Forall_cons || apply Forall_nil); unfold arg_ok; cbn [arg_ty arg_val field_ok]; first [exact I|exact PA|exact PB|reflexivity|lia]|reflexivity].
  - assert (E : BetaBinomial.variance (BetaBinomial.new_unchecked 1 a one64) = zero64) by (apply B2SF_inj; vm_compute; reflexivity). rewrite E. intros k Hk [_ B]. change (B2R zero64) with 0 in B.
    destruct (b64_pow2 60 ltac:(lia)) as [_ VA]. fold a in VA. assert (P := bpow_gt_0 radix2 60). rewrite <- VA in P. change (B2R a) with (RV a) in B. set (x := RV a) in *.
    set (r := x * 1 * (x + 1 + 1) / ((x + 1) ^ 2 * (x + 1 + 1))) in *. assert (R0 : 0 < r) by (unfold r; apply Rdiv_lt_0_compat; [|apply Rmult_lt_0_compat; [apply pow_lt|]]; nra).
    rewrite (Rabs_pos_eq r) in B by lra. apply Rabs_le_inv in B. assert (N := pos_INR k). assert (INR k * / 4503599627370496 < 1) by lra. nra.
Qed.
Print Assumptions C163_beta_binomial_refuted.
Example C163_nonvacuous (m : Libm) : let s := b64 5 (-2) in let p := b64 1 (-2) in moderate s /\ moderate p /\ (exists d, Gamma.new s s = Ok d) /\ (exists d, Beta.new s s = Ok d) /\ (exists d, FDist.new (F := f64) 3 9 = Ok d) /\
  (exists d, Binomial.new 5 (Prob p) = Ok d) /\ (exists d, UniformF.new (b64 (-3) (-1)) s = Ok d) /\ le64 (Babs (b64 (-3) (-1))) (b64 1 100).
Proof.
  intros s p. destruct (C152_nonvacuous m) as (_ & _ & _ & _ & _ & _ & _ & G & _ & _ & _ & _ & _ & _ & _ & _ & B & _ & _ & FD & _ & _). destruct (C152_nonvacuous_p m) as (_ & _ & BN).
  split; [split; vm_compute; reflexivity|]. split; [split; vm_compute; reflexivity|]. split; [exact G|]. split; [exact B|]. split; [exact FD|]. split; [exact BN|]. split; [|vm_compute; reflexivity].
  assert (PS : fltb (f_of_Z 0 : f64) s = true) by (vm_compute; reflexivity). exists (UniformF.new_unchecked (b64 (-3) (-1)) s).
  unfold UniformF.new, UniformF.params_new, loc_new, scale_new. cbn [and_then map_ok map_err check]. unfold check_default. cbn [is_satisfied_by]. unfold pltb, POrd_scalar, pzero. rewrite PS. reflexivity.
Qed.
