(** * C165: how far computed densities that use the gamma and beta functions are from the formulas *)
From Coq Require Import Reals Lra Lia Psatz List ZArith Bool.
From Flocq Require Import Core Relative Plus_error Mult_error IEEE754.BinarySingleNaN.
From Verif.Num Require Import Scalar F64.
From Verif.Model Require Import Rust Constraints Probability Params Consts Continuous Continuous2 Continuous3 Discrete.
From Verif.Spec Require Import ParamSpec ProbSpec LibmSpec GammaSpec AccuracySpec.
From Verif.Proofs Require Import ConstraintProofs NewInv ProbProofs DiscProofs7 F64Order LibmInst F64Cdf F64Pdf PiBound F64Acc ExpAcc.
From Verif.Properties Require Import C133_F64Cdf C135_F64Pdf C152_F64Variance C163_F64Accuracy C164_F64Densities.
Import ListNotations.
Open Scope R_scope.

Lemma acc_more n n' l h x r : acc n l h x r -> (n <= n')%nat -> acc n' l h x r.
Proof.
  intros A L. assert (P := acc_pos _ _ _ _ _ A). destruct A as (F & B & A1 & A2). split; [exact F|]. split; [exact B|]. assert (Q := pow_max n n'). rewrite Nat.max_r in Q by exact L. assert (P' := pow_pos n'). split.
  - apply Rle_trans with (2 := A1). apply Rmult_le_compat_r; lra.
  - apply Rle_trans with (2 := A2). apply Rmult_le_compat_r; lra.
Qed.
Lemma nat_above r : exists N, r <= INR N.
Proof.
  destruct (archimed r) as [H _]. exists (Z.to_nat (up r)). rewrite INR_IZR_INZ. destruct (Z_le_gt_dec 0 (up r)) as [L|L]; [rewrite Z2Nat.id by exact L; lra|]. apply Rle_trans with 0; [|apply IZR_le; lia]. assert (IZR (up r) <= 0) by (apply IZR_le; lia). lra.
Qed.
Lemma le_32 r : r <= 32 -> r <= INR 32. Proof. intros H. rewrite INR_IZR_INZ. exact H. Qed.
(** powers with exponent a - 1, whatever a *)
Lemma minus_one_sac a : moderate a -> RV a <> 1 -> sac 1 (-53) 100 (Bminus mode_NE a (b64 1 0)) (RV a - 1).
Proof.
  intros M N. assert (A := mod_acc a M). assert (P := acc_pos _ _ _ _ _ A). destruct (Rtotal_order (RV a) 1) as [L|[L|L]]; [right|contradiction|left; apply (acc_weak _ (-52) 100); [apply mod_minus; auto; lia|lia|lia]].
  assert (Q := not_one a (proj1 A) ltac:(lra)). apply (acc_weak _ _ _ (-53) 100) in Q; [|lia|lia]. replace (- (RV a - 1)) with (1 - RV a) by ring.
  destruct (V_minus (b64 1 0) a fin_b64_1 (proj1 A)) as [_ E]. destruct (V_minus a (b64 1 0) (proj1 A) fin_b64_1) as [N' E']. revert Q. apply acc_V; [now apply num_opp|]. rewrite V_opp, E, E', <- sat_neg. f_equal. ring.
Qed.
Lemma pow_minus_one (m : Libm) S n k l h x r a : pow_accurate m -> acc n l h x r -> moderate a -> Rabs (RV a - 1) <= INR S -> Rabs ((RV a - 1) * ln r) <= 32 -> (4 * n * S + 67 <= 900)%nat -> k = (4 * n * S + 67)%nat ->
  acc k (-64) 64 (m_powf x (Bminus mode_NE a (b64 1 0))) (Rpower r (RV a - 1)).
Proof.
  intros HP A M HS HB L ->. destruct (Req_dec (RV a) 1) as [E|E].
  - assert (F := mod_fin _ M). destruct (V_minus a (b64 1 0) F fin_b64_1) as [N V1]. rewrite E, RV_b64_1, Rminus_diag_eq in V1 by reflexivity. unfold sat, rnd in V1. rewrite round_0 in V1 by typeclasses eauto. assert (Q := M64_pos). rewrite clamp_id in V1 by lra.
    set (y := Bminus mode_NE a (b64 1 0)) in *. assert (Fy : fin y) by (apply V_fin_iff; [exact N|rewrite V1; lra]). rewrite V_fin in V1 by exact Fy. rewrite E, Rminus_diag_eq by reflexivity. unfold Rpower.
    apply acc_more with (0 + 3)%nat; [|lia]. apply pow_core; auto; [apply A|now apply acc_pos in A|rewrite V1, Rmult_0_l, Rabs_R0; lra|rewrite Rmult_0_l, Rabs_R0; lra|rewrite V1, !Rmult_0_l, Rminus_diag_eq, Rabs_R0 by reflexivity; change (INR 0) with 0; lra].
  - apply (sac_pow m S 32 n 1 _ _ _ _ _ _ _ _ _ HP A (minus_one_sac a M E) HS (le_32 _ HB)); lia.
Qed.
(** a power of an exact value with an exact exponent *)
Lemma pow_exact (m : Libm) l h l' h' x r y s : pow_accurate m -> acc 0 l h x r -> sac 0 l' h' y s -> Rabs (s * ln r) <= 32 -> acc 3 (-64) 64 (m_powf x y) (Rpower r s).
Proof. intros HP A A' HB. destruct (nat_above (Rabs s)) as [N HN]. apply (sac_pow m N 32 0 0 _ _ _ _ _ _ _ _ _ HP A A' HN (le_32 _ HB)); lia. Qed.
Lemma gamma_acc SP x g : gamma_accurate SP -> fin x -> 0 < RV x -> is_Gamma (RV x) g -> sizable g -> acc 3 (-64) 64 (sf_gamma x) g.
Proof. intros HG F P I Z. destruct (HG x g F P I Z) as [A B]. now apply unit_acc. Qed.
Lemma beta_acc SP x y g : beta_accurate SP -> fin x -> fin y -> 0 < RV x -> 0 < RV y -> is_Beta (RV x) (RV y) g -> sizable g -> acc 3 (-64) 64 (sf_beta x y) g.
Proof. intros HG F F' P P' I Z. destruct (HG x y g F F' P P' I Z) as [A B]. now apply unit_acc. Qed.
Lemma nex_acc (m : Libm) n k l h w r : exp_accurate m -> acc n l h (Bopp w) r -> (n <= 12)%nat -> r <= 32 -> k = (64 * n + 3)%nat -> acc k (-64) 64 (m_exp w) (exp (- r)).
Proof. intros HE A Hn Hr ->. apply (acc_exp_neg m 32 n (64 * n + 3) _ _ _ _ HE A); [lia|lia|now apply le_32|lia]. Qed.
Ltac md a := let A := fresh "A" in let Z := fresh "P" in match goal with H : moderate a |- _ => assert (A := mod_acc a H); assert (Z := acc_pos _ _ _ _ _ A); change (B2R a) with (RV a) in * end.

Theorem C165_gamma (m : Libm) (SP : Special f64) (a b x : f64) (g : R) : exp_accurate m -> pow_accurate m -> gamma_accurate SP -> moderate a -> moderate b -> moderate x -> is_Gamma (B2R a) g -> sizable g ->
  (Rabs (B2R a * ln (B2R b)) <= 32 -> Rabs ((B2R a - 1) * ln (B2R x)) <= 32 -> B2R b * B2R x <= 32 -> forall d, Gamma.new a b = Ok d ->
    within 143 (Gamma.pdf d x) (Rpower (B2R b) (B2R a) * Rpower (B2R x) (B2R a - 1) * exp (- (B2R b * B2R x)) / g)) /\
  (Rabs (B2R a * ln (B2R b)) <= 32 -> Rabs ((B2R a + 1) * ln (B2R x)) <= 32 -> B2R b / B2R x <= 32 -> forall d, InvGamma.new a b = Ok d ->
    within 143 (InvGamma.pdf d x) (Rpower (B2R b) (B2R a) * Rpower (B2R x) (- (B2R a + 1)) * exp (- (B2R b / B2R x)) / g)).
Proof.
  intros HE HP HG Ma Mb Mx I G. md a. md b. md x. rename A into Aa, A0 into Ab, A1 into Ax. assert (AG := gamma_acc SP a g HG (proj1 Aa) ltac:(lra) I G). split; intros L1 L2 L3 d H.
  - unfold Gamma.new in H. inv64 H. destruct (nat_above (Rabs (RV a - 1))) as [N HN].
    assert (P1' := pow_exact m _ _ _ _ _ _ _ _ HP Ab (or_introl Aa) L1). assert (P2' := pow_minus_one m N 0 67 _ _ _ _ a HP Ax Ma HN L2 ltac:(lia) ltac:(lia)).
    assert (AM : acc 1 (-200) 200 (Bopp (Bmult mode_NE (Bopp b) x)) (RV b * RV x)) by (apply neg_mult; [now apply mod_fin|now apply mod_fin|]; apply (acc_mult 0 0 1 (-100) 100 (-100) 100); auto; lia).
    assert (AE := nex_acc m 1 67 _ _ _ _ HE AM ltac:(lia) L3 eq_refl).
    change (within 143 (Bdiv mode_NE (Bmult mode_NE (Bmult mode_NE (m_powf b a) (m_powf x (Bminus mode_NE a (b64 1 0)))) (m_exp (Bmult mode_NE (Bopp b) x))) (sf_gamma a)) (Rpower (RV b) (RV a) * Rpower (RV x) (RV a - 1) * exp (- (RV b * RV x)) / g)).
    set (u := m_powf b a) in *. set (v := m_powf x _) in *. set (e := m_exp _) in *. set (gg := sf_gamma a) in *. wi.
  - unfold InvGamma.new in H. inv64 H. destruct (nat_above (Rabs (- (RV a + 1)))) as [N HN].
    assert (P1' := pow_exact m _ _ _ _ _ _ _ _ HP Ab (or_introl Aa) L1).
    assert (A1 : acc 1 (-100) 101 (Bopp (Bminus mode_NE (Bopp a) (b64 1 0))) (RV a + 1)) by (apply opp_minus; [exact (proj1 Aa)|exact fin_b64_1|]; apply (acc_plus 0 0 1 (-100) 100 0 10); auto; try lia; apply (acc_int 1 10); [lia|cbn; lra]).
    assert (S1 : sac 1 (-100) 101 (Bminus mode_NE (Bopp a) (b64 1 0)) (- (RV a + 1))) by (right; rewrite Ropp_involutive; exact A1).
    assert (P2' := sac_pow m N 32 0 1 67 _ _ _ _ _ _ _ _ HP Ax S1 HN ltac:(apply le_32; rewrite <- Ropp_mult_distr_l, Rabs_Ropp; exact L2) ltac:(lia) ltac:(lia) ltac:(lia) ltac:(lia)).
    assert (AM : acc 1 (-200) 200 (Bopp (Bdiv mode_NE (Bopp b) x)) (RV b / RV x)) by (apply (acc_neg_div 0 0 1 (-100) 100 (-100) 100); try lia; [now apply acc_opp2|exact Ax]).
    assert (AE := nex_acc m 1 67 _ _ _ _ HE AM ltac:(lia) L3 eq_refl).
    change (within 143 (Bdiv mode_NE (Bmult mode_NE (Bmult mode_NE (m_powf b a) (m_powf x (Bminus mode_NE (Bopp a) (b64 1 0)))) (m_exp (Bdiv mode_NE (Bopp b) x))) (sf_gamma a)) (Rpower (RV b) (RV a) * Rpower (RV x) (- (RV a + 1)) * exp (- (RV b / RV x)) / g)).
    set (u := m_powf b a) in *. set (v := m_powf x _) in *. set (e := m_exp _) in *. set (gg := sf_gamma a) in *. wi.
Qed.
Print Assumptions C165_gamma.

Theorem C165_beta (m : Libm) (SP : Special f64) (a b x : f64) (g : R) : pow_accurate m -> beta_accurate SP -> moderate a -> moderate b -> moderate x -> is_Beta (B2R a) (B2R b) g -> sizable g ->
  (B2R x < 1 -> B2R b <= 16 -> Rabs ((B2R a - 1) * ln (B2R x)) <= 32 -> Rabs ((B2R b - 1) * ln (1 - B2R x)) <= 32 -> forall d, Beta.new a b = Ok d ->
    within 203 (Beta.pdf d x) (Rpower (B2R x) (B2R a - 1) * Rpower (1 - B2R x) (B2R b - 1) / g)) /\
  (B2R a + B2R b <= 16 -> Rabs ((B2R a - 1) * ln (B2R x)) <= 32 -> Rabs ((B2R a + B2R b) * ln (1 + B2R x)) <= 32 -> forall d, BetaPrime.new a b = Ok d ->
    within 203 (BetaPrime.pdf d x) (Rpower (B2R x) (B2R a - 1) * Rpower (1 + B2R x) (- (B2R a + B2R b)) / g)).
Proof.
  intros HP HG Ma Mb Mx I G. md a. md b. md x. rename A into Aa, A0 into Ab, A1 into Ax. assert (AG := beta_acc SP a b g HG (proj1 Aa) (proj1 Ab) ltac:(lra) ltac:(lra) I G). destruct (nat_above (Rabs (RV a - 1))) as [N HN]. split.
  - intros Lx Lb L1 L2 d H. unfold Beta.new in H. inv64 H. assert (P1' := pow_minus_one m N 0 67 _ _ _ _ a HP Ax Ma HN L1 ltac:(lia) ltac:(lia)).
    assert (Q := not_one x (proj1 Ax) ltac:(lra)). set (q := Bminus mode_NE (b64 1 0) x) in *.
    assert (P2' := pow_minus_one m 16 1 131 _ _ _ _ b HP Q Mb ltac:(rewrite INR_IZR_INZ; change (IZR (Z.of_nat 16)) with 16; apply Rabs_le; lra) L2 ltac:(lia) ltac:(lia)).
    change (within 203 (Bdiv mode_NE (Bmult mode_NE (m_powf x (Bminus mode_NE a (b64 1 0))) (m_powf q (Bminus mode_NE b (b64 1 0)))) (sf_beta a b)) (Rpower (RV x) (RV a - 1) * Rpower (1 - RV x) (RV b - 1) / g)).
    set (u := m_powf x _) in *. set (v := m_powf q _) in *. set (gg := sf_beta a b) in *. wi.
  - intros Lab L1 L2 d H. unfold BetaPrime.new in H. inv64 H. assert (P1' := pow_minus_one m N 0 67 _ _ _ _ a HP Ax Ma HN L1 ltac:(lia) ltac:(lia)).
    assert (Q : acc 1 (-100) 101 (Bplus mode_NE (b64 1 0) x) (1 + RV x)) by (apply (acc_plus 0 0 1 0 10 (-100) 100); auto; try lia; apply (acc_int 1 10); [lia|cbn; lra]). set (q := Bplus mode_NE (b64 1 0) x) in *.
    assert (A1 : acc 1 (-100) 101 (Bopp (Bminus mode_NE (Bopp a) b)) (RV a + RV b)) by (apply opp_minus; [exact (proj1 Aa)|exact (proj1 Ab)|]; apply (acc_plus 0 0 1 (-100) 100 (-100) 100); auto; lia).
    assert (S1 : sac 1 (-100) 101 (Bminus mode_NE (Bopp a) b) (- (RV a + RV b))) by (right; rewrite Ropp_involutive; exact A1).
    assert (P2' := sac_pow m 16 32 1 1 131 _ _ _ _ _ _ _ _ HP Q S1 ltac:(rewrite INR_IZR_INZ; change (IZR (Z.of_nat 16)) with 16; apply Rabs_le; lra) ltac:(apply le_32; rewrite <- Ropp_mult_distr_l, Rabs_Ropp; exact L2) ltac:(lia) ltac:(lia) ltac:(lia) ltac:(lia)).
    change (within 203 (Bdiv mode_NE (Bmult mode_NE (m_powf x (Bminus mode_NE a (b64 1 0))) (m_powf q (Bminus mode_NE (Bopp a) b))) (sf_beta a b)) (Rpower (RV x) (RV a - 1) * Rpower (1 + RV x) (- (RV a + RV b)) / g)).
    set (u := m_powf x _) in *. set (v := m_powf q _) in *. set (gg := sf_beta a b) in *. wi.
Qed.
Print Assumptions C165_beta.

(** ** Integer degrees of freedom: halves are exact *)
Lemma exact_of z t : num z -> V z = sat t -> fmt64 t -> Rabs t <= bpow radix2 60 -> fin z /\ RV z = t.
Proof.
  intros N E G B. assert (Q : bpow radix2 60 < M64) by (change M64 with (bpow radix2 1024); apply bpow_lt; lia). apply Rabs_le_inv in B. unfold sat in E. rewrite rnd_fmt, clamp_id in E by (try exact G; lra).
  assert (F : fin z) by (apply V_fin_iff; [exact N|rewrite E; lra]). rewrite V_fin in E by exact F. auto.
Qed.
Lemma half_fmt z : (Z.abs z <= 2 ^ 50)%Z -> fmt64 (IZR z / 2) /\ Rabs (IZR z / 2) <= bpow radix2 60.
Proof.
  intros H. split; [change (IZR z / 2) with (IZR z * bpow radix2 (-1)); apply fmt_scaled; lia|]. unfold Rdiv. rewrite Rabs_mult, <- abs_IZR, (Rabs_pos_eq (/ 2)) by lra. apply IZR_le in H. change (bpow radix2 60) with 1152921504606846976. change (IZR (2 ^ 50)) with 1125899906842624 in H. assert (0 <= IZR (Z.abs z)) by (apply IZR_le; lia). lra.
Qed.
Lemma half_int k : (1 <= k <= 2 ^ 50)%Z -> fin (Bdiv mode_NE (b64 k 0) (b64 2 0)) /\ RV (Bdiv mode_NE (b64 k 0) (b64 2 0)) = IZR k / 2.
Proof.
  intros H. destruct (b64_z k ltac:(lia)) as [Fk Vk]. destruct (b64_z 2 ltac:(lia)) as [F2 V2]. destruct (V_div (b64 k 0) (b64 2 0) Fk F2 ltac:(lra)) as [N E]. rewrite Vk, V2 in E. destruct (half_fmt k ltac:(lia)). now apply exact_of.
Qed.
Lemma minus_1_half y z : fin y -> RV y = IZR z / 2 -> (0 <= z <= 2 ^ 49)%Z -> fin (Bminus mode_NE y (b64 1 0)) /\ RV (Bminus mode_NE y (b64 1 0)) = IZR z / 2 - 1.
Proof.
  intros F E H. destruct (V_minus y (b64 1 0) F fin_b64_1) as [N V1]. rewrite E, RV_b64_1 in V1. replace (IZR z / 2 - 1) with (IZR (z - 2) / 2) in * by (rewrite minus_IZR; field). destruct (half_fmt (z - 2) ltac:(lia)). now apply exact_of.
Qed.
Lemma pow_ex (m : Libm) l h x r y s : pow_accurate m -> acc 0 l h x r -> fin y -> RV y = s -> Rabs (s * ln r) <= 32 -> acc 3 (-64) 64 (m_powf x y) (Rpower r s).
Proof.
  intros HP A F E HB. assert (P := acc_pos _ _ _ _ _ A). destruct A as (Fx & B & A1 & A2). cbn [pow] in A1, A2. assert (X : RV x = r) by lra. unfold Rpower. apply (pow_core m 0); auto; [lra|rewrite E, X; lra|]. rewrite E, X, Rminus_diag_eq, Rabs_R0 by reflexivity. change (INR 0) with 0. lra.
Qed.
Lemma two_acc : acc 0 0 10 (b64 2 0) 2. Proof. apply (acc_int 2 10); [lia|cbn; lra]. Qed.
Lemma one_acc : acc 0 0 10 (b64 1 0) 1. Proof. apply (acc_int 1 10); [lia|cbn; lra]. Qed.

Theorem C165_chi (m : Libm) (SP : Special f64) (k : Z) (x : f64) (g : R) : exp_accurate m -> pow_accurate m -> gamma_accurate SP -> (1 <= k <= 90)%Z -> moderate x -> is_Gamma (IZR k / 2) g -> sizable g ->
  (Rabs ((IZR k / 2 - 1) * ln (B2R x)) <= 32 -> B2R x / 2 <= 32 -> forall d, ChiSq.new (F := f64) k = Ok d ->
    within 79 (ChiSq.pdf d x) (Rpower (B2R x) (IZR k / 2 - 1) * exp (- (B2R x / 2)) / (Rpower 2 (IZR k / 2) * g))) /\
  (Rabs ((IZR k - 1) * ln (B2R x)) <= 32 -> B2R x <= 8 -> forall d, Chi.new (F := f64) k = Ok d ->
    within 143 (Chi.pdf d x) (Rpower (B2R x) (IZR k - 1) * exp (- (B2R x ^ 2 / 2)) / (Rpower 2 (IZR k / 2 - 1) * g))).
Proof.
  intros HE HP HG K Mx I G. md x. rename A into Ax. destruct (half_int k ltac:(lia)) as [Fh Vh]. destruct (minus_1_half _ k Fh Vh ltac:(lia)) as [Fm Vm]. destruct (b64_z k ltac:(lia)) as [Fk Vk].
  assert (K1 : 1 <= IZR k <= 90) by (split; apply IZR_le; lia). assert (AG := gamma_acc SP (Bdiv mode_NE (b64 k 0) (b64 2 0)) g HG Fh ltac:(lra) ltac:(rewrite Vh; exact I) G).
  assert (L2 : 0 < ln 2 < 7 / 10) by (split; [rewrite <- ln_1; apply ln_increasing; lra|assert (U := DiscProofs7.ln2_ub); lra]). 
  assert (T2 := two_acc). split; intros L1 LX d H.
  - unfold ChiSq.new in H. inv_new H. assert (P1' := pow_ex m _ _ _ _ _ _ HP Ax Fm Vm L1). assert (P2' := pow_ex m _ _ _ _ _ _ HP T2 Fh Vh ltac:(rewrite Rabs_pos_eq; nra)).
    assert (AM : acc 1 (-110) 100 (Bopp (Bdiv mode_NE (Bopp x) (b64 2 0))) (RV x / 2)) by (apply (acc_neg_div 0 0 1 (-100) 100 0 10); try lia; [now apply acc_opp2|exact T2]).
    assert (AE := nex_acc m 1 67 _ _ _ _ HE AM ltac:(lia) LX eq_refl).
    change (within 79 (Bdiv mode_NE (Bmult mode_NE (m_powf x (Bminus mode_NE (Bdiv mode_NE (b64 k 0) (b64 2 0)) (b64 1 0))) (m_exp (Bdiv mode_NE (Bopp x) (b64 2 0)))) (Bmult mode_NE (m_powf (b64 2 0) (Bdiv mode_NE (b64 k 0) (b64 2 0))) (sf_gamma (Bdiv mode_NE (b64 k 0) (b64 2 0)))))
      (Rpower (RV x) (IZR k / 2 - 1) * exp (- (RV x / 2)) / (Rpower 2 (IZR k / 2) * g))).
    set (h := Bdiv mode_NE (b64 k 0) (b64 2 0)) in *. set (u := m_powf x _) in *. set (v := m_powf _ h) in *. set (e := m_exp _) in *. set (gg := sf_gamma h) in *. wi.
  - unfold Chi.new in H. inv_new H.
    assert (Fk1 : fin (Bminus mode_NE (b64 k 0) (b64 1 0)) /\ RV (Bminus mode_NE (b64 k 0) (b64 1 0)) = IZR k - 1). { destruct (minus_1_half (b64 k 0) (2 * k) Fk ltac:(rewrite Vk, mult_IZR; field) ltac:(lia)) as [Q1 Q2]. split; [exact Q1|]. rewrite Q2, mult_IZR. field. } destruct Fk1 as [Fk1 Vk1].
    assert (P1' := pow_ex m _ _ _ _ _ _ HP Ax Fk1 Vk1 L1). assert (P2' := pow_ex m _ _ _ _ _ _ HP T2 Fm Vm ltac:(apply Rabs_le; nra)).
    destruct (sac_sq 0 1 _ _ _ _ (or_introl Ax) eq_refl ltac:(lia) ltac:(lia) ltac:(lia)) as [_ Q].
    assert (AM : acc 2 (-210) 200 (Bopp (Bdiv mode_NE (Bmult mode_NE (Bopp x) x) (b64 2 0))) (RV x * RV x / 2)) by (apply (acc_neg_div 1 0 2 (-200) 200 0 10); try lia; [exact Q|exact T2]).
    assert (AE := nex_acc m 2 131 _ _ _ _ HE AM ltac:(lia) ltac:(nra) eq_refl). replace (RV x ^ 2 / 2) with (RV x * RV x / 2) by field.
    change (within 143 (Bdiv mode_NE (Bmult mode_NE (m_powf x (Bminus mode_NE (b64 k 0) (b64 1 0))) (m_exp (Bdiv mode_NE (Bmult mode_NE (Bopp x) x) (b64 2 0)))) (Bmult mode_NE (m_powf (b64 2 0) (Bminus mode_NE (Bdiv mode_NE (b64 k 0) (b64 2 0)) (b64 1 0))) (sf_gamma (Bdiv mode_NE (b64 k 0) (b64 2 0)))))
      (Rpower (RV x) (IZR k - 1) * exp (- (RV x * RV x / 2)) / (Rpower 2 (IZR k / 2 - 1) * g))).
    set (h := Bdiv mode_NE (b64 k 0) (b64 2 0)) in *. set (u := m_powf x _) in *. set (v := m_powf (b64 2 0) _) in *. set (e := m_exp _) in *. set (gg := sf_gamma h) in *. wi.
Qed.
Print Assumptions C165_chi.

Lemma apart_zero x : apart x zero64 -> sac 0 (-100) 100 x (RV x).
Proof.
  intros (F & _ & B). change (B2R zero64) with 0 in B. rewrite Rminus_0_r in B. change (B2R x) with (RV x) in B. unfold Rabs in B. destruct (Rcase_abs (RV x)); [right; rewrite <- RV_opp; apply acc_exact; [now apply fin_opp|rewrite RV_opp; exact B]|left; apply acc_exact; [exact F|exact B]].
Qed.
Theorem C165_student_t (m : Libm) (SP : Special f64) (n : Z) (x : f64) (g g' : R) : pow_accurate m -> gamma_accurate SP -> (1 <= n <= 31)%Z -> apart x zero64 -> is_Gamma ((IZR n + 1) / 2) g -> sizable g -> is_Gamma (IZR n / 2) g' -> sizable g' ->
  Rabs ((IZR n + 1) / 2 * ln (1 + B2R x ^ 2 / IZR n)) <= 32 -> forall d, StudentT.new (b64 n 0) = Ok d ->
  within 207 (StudentT.pdf d x) (g / (sqrt (IZR n * PI) * g') * Rpower (1 + B2R x ^ 2 / IZR n) (- ((IZR n + 1) / 2))).
Proof.
  intros HP HG K X I G I' G' L d H. change (B2R x) with (RV x) in *. apply apart_zero in X. destruct (half_int n ltac:(lia)) as [Fh Vh]. destruct (half_int (n + 1) ltac:(lia)) as [Fh1 Vh1]. rewrite plus_IZR in Vh1. destruct (b64_z n ltac:(lia)) as [Fn Vn].
  assert (K1 : 1 <= IZR n <= 31) by (split; apply IZR_le; lia). unfold StudentT.new in H. inv64 H.
  assert (EN : Bplus mode_NE (b64 n 0) (b64 1 0) = b64 (n + 1) 0). { destruct (V_plus (b64 n 0) (b64 1 0) Fn fin_b64_1) as [N V1]. rewrite Vn, RV_b64_1, <- plus_IZR in V1. destruct (half_fmt (2 * (n + 1)) ltac:(lia)) as [Q1 Q2]. replace (IZR (2 * (n + 1)) / 2) with (IZR (n + 1)) in * by (rewrite mult_IZR; field). destruct (exact_of _ _ N V1 Q1 Q2) as [F V2]. destruct (b64_z (n + 1) ltac:(lia)) as [F' V']. assert (0 < IZR (n + 1)) by (apply IZR_lt; lia). apply B2R_inj; [| |unfold RV in *; congruence].
    - destruct (Bplus mode_NE (b64 n 0) (b64 1 0)); try discriminate F; [exfalso; change (RV (B754_zero s)) with 0 in V2; lra|reflexivity].
    - destruct (b64 (n + 1) 0); try discriminate F'; [exfalso; change (RV (B754_zero s)) with 0 in V'; lra|reflexivity]. }
  assert (AG := gamma_acc SP _ g HG Fh1 ltac:(lra) ltac:(rewrite Vh1; exact I) G). assert (AG' := gamma_acc SP _ g' HG Fh ltac:(lra) ltac:(rewrite Vh; exact I') G').
  destruct (sac_sq 0 1 _ _ _ _ X eq_refl ltac:(lia) ltac:(lia) ltac:(lia)) as [Q _]. assert (AN : acc 0 0 53 (b64 n 0) (IZR n)) by (apply count_acc; lia). assert (O := one_acc). assert (AP := pi_acc). assert (ZP := acc_pos _ _ _ _ _ AP).
  assert (AB : acc 3 (-253) 201 (Bplus mode_NE (b64 1 0) (Bdiv mode_NE (Bmult mode_NE x x) (b64 n 0))) (1 + RV x * RV x / IZR n)) by (apply (acc_plus 0 2 3 0 10 (-253) 200); [exact O|apply (acc_div 1 0 2 (-200) 200 0 53); auto; lia|lia|lia|lia|lia]).
  replace (RV x ^ 2 / IZR n) with (RV x * RV x / IZR n) in * by (field; lra).
  assert (SE : sac 0 0 100 (Bopp (Bdiv mode_NE (b64 (n + 1) 0) (b64 2 0))) (- ((IZR n + 1) / 2))) by (right; rewrite Ropp_involutive; apply acc_opp2; rewrite <- Vh1; apply acc_exact; [exact Fh1|]; rewrite Vh1; change (bpow radix2 0) with 1; split; [lra|apply Rle_trans with (bpow radix2 4); [change (bpow radix2 4) with 16; lra|apply bpow_le; lia]]).
  assert (P1' := sac_pow m 16 32 3 0 195 _ _ _ _ _ _ _ _ HP AB SE ltac:(rewrite Rabs_Ropp, INR_IZR_INZ; change (IZR (Z.of_nat 16)) with 16; rewrite Rabs_pos_eq; lra) ltac:(apply le_32; rewrite <- Ropp_mult_distr_l, Rabs_Ropp; exact L) ltac:(lia) ltac:(lia) ltac:(lia) ltac:(lia)).
  change (within 207 (Bmult mode_NE (Bdiv mode_NE (Bdiv mode_NE (sf_gamma (Bdiv mode_NE (Bplus mode_NE (b64 n 0) (b64 1 0)) (b64 2 0))) (Bsqrt mode_NE (Bmult mode_NE (b64 n 0) (b64 7074237752028440 (-51))))) (sf_gamma (Bdiv mode_NE (b64 n 0) (b64 2 0))))
    (m_powf (Bplus mode_NE (b64 1 0) (Bdiv mode_NE (Bmult mode_NE x x) (b64 n 0))) (Bopp (Bdiv mode_NE (Bplus mode_NE (b64 n 0) (b64 1 0)) (b64 2 0))))) (g / (sqrt (IZR n * PI) * g') * Rpower (1 + RV x * RV x / IZR n) (- ((IZR n + 1) / 2)))).
  rewrite EN. set (c := b64 7074237752028440 (-51)) in *. set (w := m_powf _ _) in *. set (g1 := sf_gamma (Bdiv mode_NE (b64 (n + 1) 0) (b64 2 0))) in *. set (g2 := sf_gamma (Bdiv mode_NE (b64 n 0) (b64 2 0))) in *. set (y := b64 n 0) in *.
  assert (S0 : 0 < sqrt (IZR n * PI)) by (apply sqrt_lt_R0, Rmult_lt_0_compat; lra). assert (G0 := acc_pos _ _ _ _ _ AG'). replace (g / (sqrt (IZR n * PI) * g')) with (g / sqrt (IZR n * PI) / g') by (field; lra). eapply wi; [ac|reflexivity|lia|lia].
Qed.
Print Assumptions C165_student_t.

Theorem C165_f_dist (m : Libm) (SP : Special f64) (j k : Z) (x : f64) (g : R) : pow_accurate m -> beta_accurate SP -> (1 <= j <= 16)%Z -> (1 <= k <= 16)%Z -> moderate x -> is_Beta (IZR j / 2) (IZR k / 2) g -> sizable g ->
  Rabs (IZR j * ln (IZR j * B2R x)) <= 32 -> Rabs (IZR k * ln (IZR k)) <= 32 -> Rabs ((IZR j + IZR k) * ln (IZR j * B2R x + IZR k)) <= 32 -> forall d, FDist.new (F := f64) j k = Ok d ->
  within 337 (FDist.pdf d x) (sqrt (Rpower (IZR j * B2R x) (IZR j) * Rpower (IZR k) (IZR k) / Rpower (IZR j * B2R x + IZR k) (IZR j + IZR k)) / (B2R x * g)).
Proof.
  intros HP HB J K Mx I G L1 L2 L3 d H. md x. rename A into Ax. destruct (half_int j ltac:(lia)) as [Fj Vj]. destruct (half_int k ltac:(lia)) as [Fk Vk].
  assert (J1 : 1 <= IZR j <= 16) by (split; apply IZR_le; lia). assert (K1 : 1 <= IZR k <= 16) by (split; apply IZR_le; lia).
  assert (AG := beta_acc SP _ _ g HB Fj Fk ltac:(lra) ltac:(lra) ltac:(rewrite Vj, Vk; exact I) G). assert (AJ := count_acc j ltac:(lia)). assert (AK := count_acc k ltac:(lia)). unfold FDist.new in H. inv_new H.
  assert (AX : acc 1 (-100) 153 (Bmult mode_NE (b64 j 0) x) (IZR j * RV x)) by (apply (acc_mult 0 0 1 0 53 (-100) 100); auto; lia).
  assert (AS : acc 2 (-100) 154 (Bplus mode_NE (Bmult mode_NE (b64 j 0) x) (b64 k 0)) (IZR j * RV x + IZR k)) by (apply (acc_plus 1 0 2 (-100) 153 0 53); auto; lia).
  assert (AE : acc 1 0 54 (Bplus mode_NE (b64 j 0) (b64 k 0)) (IZR j + IZR k)) by (apply (acc_plus 0 0 1 0 53 0 53); auto; lia).
  assert (EE : fin (Bplus mode_NE (b64 j 0) (b64 k 0)) /\ RV (Bplus mode_NE (b64 j 0) (b64 k 0)) = IZR j + IZR k). { destruct (b64_z j ltac:(lia)) as [F1 V1]. destruct (b64_z k ltac:(lia)) as [F2 V2]. destruct (V_plus _ _ F1 F2) as [N E]. rewrite V1, V2 in E. destruct (half_fmt (2 * (j + k)) ltac:(lia)) as [Q1 Q2]. replace (IZR (2 * (j + k)) / 2) with (IZR j + IZR k) in * by (rewrite mult_IZR, plus_IZR; field). now apply exact_of. }
  assert (AE0 : acc 0 0 54 (Bplus mode_NE (b64 j 0) (b64 k 0)) (IZR j + IZR k)) by (rewrite <- (proj2 EE); apply acc_exact; [apply EE|rewrite (proj2 EE); apply AE]).
  assert (N16 : INR 16 = 16) by (rewrite INR_IZR_INZ; reflexivity). assert (N32 : INR 32 = 32) by (rewrite INR_IZR_INZ; reflexivity).
  assert (P1' := sac_pow m 16 32 1 0 67 _ _ _ _ _ _ _ _ HP AX (or_introl AJ) ltac:(rewrite N16, Rabs_pos_eq; lra) (le_32 _ L1) ltac:(lia) ltac:(lia) ltac:(lia) ltac:(lia)).
  assert (P2' := pow_exact m _ _ _ _ _ _ _ _ HP AK (or_introl AK) L2).
  assert (P3' := sac_pow m 32 32 2 0 259 _ _ _ _ _ _ _ _ HP AS (or_introl AE0) ltac:(rewrite N32, Rabs_pos_eq; lra) (le_32 _ L3) ltac:(lia) ltac:(lia) ltac:(lia) ltac:(lia)).
  change (within 337 (Bdiv mode_NE (Bsqrt mode_NE (Bdiv mode_NE (Bmult mode_NE (m_powf (Bmult mode_NE (b64 j 0) x) (b64 j 0)) (m_powf (b64 k 0) (b64 k 0))) (m_powf (Bplus mode_NE (Bmult mode_NE (b64 j 0) x) (b64 k 0)) (Bplus mode_NE (b64 j 0) (b64 k 0)))))
    (Bmult mode_NE x (sf_beta (Bdiv mode_NE (b64 j 0) (b64 2 0)) (Bdiv mode_NE (b64 k 0) (b64 2 0))))) (sqrt (Rpower (IZR j * RV x) (IZR j) * Rpower (IZR k) (IZR k) / Rpower (IZR j * RV x + IZR k) (IZR j + IZR k)) / (RV x * g))).
  set (gg := sf_beta _ _) in *. set (u := m_powf (Bmult mode_NE (b64 j 0) x) _) in *. set (v := m_powf (b64 k 0) _) in *. set (w := m_powf _ _) in *. wi.
Qed.
Print Assumptions C165_f_dist.

Lemma three_halves (m : Libm) : acc 1 (-10) 10 (THREE_HALVES : f64) (3 / 2).
Proof. change (acc 1 (-10) 10 (Bdiv mode_NE (b64 3 0) (b64 2 0)) (3 / 2)). apply (acc_div 0 0 1 0 10 0 10); auto; try lia; [apply (acc_int 3 10); [lia|cbn; lra]|apply two_acc]. Qed.
Theorem C165_levy (m : Libm) (mu c x : f64) : exp_accurate m -> pow_accurate m -> moderate c -> apart x mu -> B2R mu < B2R x ->
  B2R c / (2 * (B2R x - B2R mu)) <= 32 -> Rabs (3 / 2 * ln (B2R x - B2R mu)) <= 32 -> forall d, Levy.new mu c = Ok d ->
  within 276 (Levy.pdf d x) (sqrt (B2R c / (2 * PI)) * exp (- (B2R c / (2 * (B2R x - B2R mu)))) / Rpower (B2R x - B2R mu) (3 / 2)).
Proof.
  intros HE HP M (Fx & Fm & B) L L1 L2 d H. change (B2R x) with (RV x) in *. change (B2R mu) with (RV mu) in *. md c. rename A into Ac. unfold Levy.new in H. inv64 H. rewrite Rabs_pos_eq in B by lra. assert (T2 := two_acc). assert (AP := pi_acc). assert (ZP := acc_pos _ _ _ _ _ AP). assert (T3 := three_halves m).
  assert (AD : acc 1 (-100) 100 (Bminus mode_NE x mu) (RV x - RV mu)) by (apply acc_minus; auto; lia). assert (ZD := acc_pos _ _ _ _ _ AD).
  assert (AH : acc 1 (-110) 100 (Bdiv mode_NE c (b64 2 0)) (RV c / 2)) by (apply (acc_div 0 0 1 (-100) 100 0 10); auto; lia).
  assert (AM : acc 3 (-210) 200 (Bopp (Bdiv mode_NE (Bopp (Bdiv mode_NE c (b64 2 0))) (Bminus mode_NE x mu))) (RV c / 2 / (RV x - RV mu))) by (apply (acc_neg_div 1 1 3 (-110) 100 (-100) 100); try lia; [now apply acc_opp2|exact AD]).
  replace (RV c / (2 * (RV x - RV mu))) with (RV c / 2 / (RV x - RV mu)) in * by (field; lra). assert (AE := nex_acc m 3 195 _ _ _ _ HE AM ltac:(lia) L1 eq_refl).
  assert (P1' := sac_pow m 2 32 1 1 75 _ _ _ _ _ _ _ _ HP AD (or_introl T3) ltac:(rewrite Rabs_pos_eq; cbn; lra) (le_32 _ L2) ltac:(lia) ltac:(lia) ltac:(lia) ltac:(lia)).
  change (within 276 (Bdiv mode_NE (Bmult mode_NE (Bsqrt mode_NE (Bdiv mode_NE (Bdiv mode_NE c (b64 2 0)) (b64 7074237752028440 (-51)))) (m_exp (Bdiv mode_NE (Bopp (Bdiv mode_NE c (b64 2 0))) (Bminus mode_NE x mu)))) (m_powf (Bminus mode_NE x mu) THREE_HALVES))
    (sqrt (RV c / (2 * PI)) * exp (- (RV c / 2 / (RV x - RV mu))) / Rpower (RV x - RV mu) (3 / 2))).
  set (q := b64 7074237752028440 (-51)) in *. set (e := m_exp _) in *. set (w := m_powf _ _) in *. replace (RV c / (2 * PI)) with (RV c / 2 / PI) by (field; lra). wi.
Qed.
Print Assumptions C165_levy.

Theorem C165_inverse_gaussian (m : Libm) (mu la x : f64) : exp_accurate m -> moderate mu -> moderate la -> moderate x -> apart x mu -> B2R la * (B2R x - B2R mu) ^ 2 / (2 * B2R mu ^ 2 * B2R x) <= 32 -> forall d, InvNormal.new mu la = Ok d ->
  within 523 (InvNormal.pdf d x) (sqrt (B2R la / (2 * PI * B2R x ^ 3)) * exp (- (B2R la * (B2R x - B2R mu) ^ 2 / (2 * B2R mu ^ 2 * B2R x)))).
Proof.
  intros HE Mm Ml Mx (Fx & Fm & B) L d H. md mu. md la. md x. rename A into Am, A0 into Al, A1 into Ax. unfold InvNormal.new in H. inv64 H. sm x mu. assert (T2 := two_acc). assert (AP := pi2x_acc m). assert (ZP := acc_pos _ _ _ _ _ AP).
  set (dd := Bminus mode_NE x mu) in *. assert (S0 := sac_opp _ _ _ _ _ (or_introl Al : sac 0 (-100) 100 la (RV la))). assert (S1 := sac_mult _ _ 2 _ _ _ _ _ _ _ _ S0 H eq_refl ltac:(lia) ltac:(lia) ltac:(lia)). assert (S2 := sac_mult _ _ 4 _ _ _ _ _ _ _ _ S1 H eq_refl ltac:(lia) ltac:(lia) ltac:(lia)).
  set (p := Bmult mode_NE (Bmult mode_NE (Bopp la) dd) dd) in *. assert (D0 : RV x - RV mu <> 0). { intros E. rewrite E, Rabs_R0 in B. assert (PB := bpow_gt_0 radix2 (-100)). lra. } assert (DD : 0 < (RV x - RV mu) * (RV x - RV mu)) by (now apply Rsqr_pos_lt).
  assert (A4 : acc 4 (-100 + -100 + -100) (100 + 100 + 100) (Bopp p) (RV la * (RV x - RV mu) * (RV x - RV mu))). { destruct S2 as [S2|S2]; [apply acc_pos in S2; exfalso; assert (0 < RV la * ((RV x - RV mu) * (RV x - RV mu))) by (apply Rmult_lt_0_compat; lra); nra|]. replace (RV la * (RV x - RV mu) * (RV x - RV mu)) with (- (- RV la * (RV x - RV mu) * (RV x - RV mu))) by ring. exact S2. }
  assert (A5 := acc_neg_div _ _ 5 _ _ _ _ _ _ _ _ A4 T2 eq_refl ltac:(lia) ltac:(lia) ltac:(lia)). assert (A6 := acc_neg_div _ _ 6 _ _ _ _ _ _ _ _ A5 Am eq_refl ltac:(lia) ltac:(lia) ltac:(lia)). assert (A7 := acc_neg_div _ _ 7 _ _ _ _ _ _ _ _ A6 Am eq_refl ltac:(lia) ltac:(lia) ltac:(lia)). assert (A8 := acc_neg_div _ _ 8 _ _ _ _ _ _ _ _ A7 Ax eq_refl ltac:(lia) ltac:(lia) ltac:(lia)).
  replace (RV la * (RV x - RV mu) ^ 2 / (2 * RV mu ^ 2 * RV x)) with (RV la * (RV x - RV mu) * (RV x - RV mu) / 2 / RV mu / RV mu / RV x) in * by (field; lra).
  assert (AE := nex_acc m 8 515 _ _ _ _ HE A8 ltac:(lia) L eq_refl). set (c := PI_2 : f64) in *.
  change (within 523 (Bmult mode_NE (Bsqrt mode_NE (Bdiv mode_NE (Bdiv mode_NE (Bdiv mode_NE (Bdiv mode_NE la c) x) x) x)) (m_exp (Bdiv mode_NE (Bdiv mode_NE (Bdiv mode_NE (Bdiv mode_NE p (b64 2 0)) mu) mu) x))) (sqrt (RV la / (2 * PI * RV x ^ 3)) * exp (- (RV la * (RV x - RV mu) * (RV x - RV mu) / 2 / RV mu / RV mu / RV x)))).
  set (e := m_exp _) in *. replace (RV la / (2 * PI * RV x ^ 3)) with (RV la / (2 * PI) / RV x / RV x / RV x) by (field; lra). wi.
Qed.
Print Assumptions C165_inverse_gaussian.

Theorem C165_frechet (m : Libm) (al x : f64) (d : Frechet.t f64) : exp_accurate m -> pow_accurate m -> moderate al -> moderate x -> Rabs ((B2R al + 1) * ln (B2R x)) <= 32 -> Rpower (B2R x) (- B2R al) <= 32 -> Frechet.new al = Ok d ->
  within 195 (unwrap (Frechet.cdf d x)) (exp (- Rpower (B2R x) (- B2R al))) /\ within 264 (Frechet.pdf d x) (B2R al * Rpower (B2R x) (- (1 + B2R al)) * exp (- Rpower (B2R x) (- B2R al))).
Proof.
  intros HE HP Ma Mx L1 L2 H. md al. md x. rename A into Aa, A0 into Ax. unfold Frechet.new in H. inv64 H.
  assert (LL : Rabs (- RV al * ln (RV x)) <= 32). { apply Rle_trans with (2 := L1). rewrite !Rabs_mult. apply Rmult_le_compat_r; [apply Rabs_pos|]. rewrite Rabs_Ropp, !Rabs_pos_eq; lra. }
  assert (P1' := pow_exact m _ _ _ _ _ _ _ _ HP Ax (sac_opp _ _ _ _ _ (or_introl Aa : sac 0 (-100) 100 al (RV al))) LL). assert (AE := nex_acc m 3 195 _ _ _ _ HE (acc_opp2 _ _ _ _ _ P1') ltac:(lia) L2 eq_refl).
  split.
  - change (within 195 (m_exp (Bopp (m_powf x (Bopp al)))) (exp (- Rpower (RV x) (- RV al)))). set (e := m_exp _) in *. wi.
  - assert (A1 : acc 1 (-100) 101 (Bopp (Bminus mode_NE (Bopp (b64 1 0)) al)) (1 + RV al)) by (apply opp_minus; [exact fin_b64_1|exact (proj1 Aa)|]; apply (acc_plus 0 0 1 0 10 (-100) 100); auto; try lia; exact one_acc).
    destruct (nat_above (Rabs (- (1 + RV al)))) as [N HN].
    assert (P2' := sac_pow m N 32 0 1 67 _ _ _ _ _ _ _ (- (1 + RV al)) HP Ax ltac:(right; rewrite Ropp_involutive; exact A1) HN ltac:(apply le_32; rewrite <- Ropp_mult_distr_l, Rabs_Ropp, Rplus_comm; exact L1) ltac:(lia) ltac:(lia) ltac:(lia) ltac:(lia)).
    change (within 264 (Bmult mode_NE (Bmult mode_NE al (m_powf x (Bminus mode_NE (Bopp (b64 1 0)) al))) (m_exp (Bopp (m_powf x (Bopp al))))) (RV al * Rpower (RV x) (- (1 + RV al)) * exp (- Rpower (RV x) (- RV al)))).
    set (e := m_exp _) in *. set (w := m_powf x (Bminus mode_NE _ al)) in *. wi.
Qed.
Print Assumptions C165_frechet.

(** ** Correctly rounded special functions are accurate *)
From Verif.Proofs Require Import GammaFun ContProofs18 ContProofs20.
Lemma r2f_near t : bpow radix2 (-128) <= t <= bpow radix2 128 -> fin (r2f t) /\ Rabs (RV (r2f t) - t) <= / 4503599627370496 * t.
Proof.
  intros [L2 U2]. assert (T : bpow radix2 (-1022) <= t) by (apply Rle_trans with (2 := L2); apply bpow_le; lia). destruct (rnd_acc t T) as [R1 R2]. destruct (r2f_V t) as [N V1].
  assert (Q := M64_pos). assert (B : bpow radix2 128 < M64) by (change M64 with (bpow radix2 1024); apply bpow_lt; lia). assert (P3 := bpow_gt_0 radix2 (-128)).
  assert (R0 : 0 <= rnd t) by (apply rnd_pos_of; lra). assert (R3 : rnd t <= bpow radix2 128) by (apply rnd_le_fmt; [apply fmt_bpow; lia|exact U2]). unfold sat in V1. rewrite clamp_id in V1 by lra.
  assert (F : fin (r2f t)) by (apply V_fin_iff; [exact N|rewrite V1; lra]). split; [exact F|]. rewrite V_fin in V1 by exact F. rewrite V1. assert (UU : 0 < u53 < / 1000) by (unfold u53; lra). replace (/ 4503599627370496) with (2 * u53) by (unfold u53; field). apply Rabs_le. nra.
Qed.
Definition sp_rounded : Special f64 := {|
  sf_gamma x := r2f (Gam (B2R x)); sf_loggamma x := x; sf_beta x y := r2f (Bet (B2R x) (B2R y)); sf_logbeta x _ := x; sf_betainc x _ _ := x; sf_gammainc _ y := y; sf_digamma x := x;
  sf_erf x := x; sf_erfc x := x; sf_norm x := x; sf_norm_inv x := x; sf_riemann_zeta x := x; sf_hyp2f1 x _ _ _ := x |}.
Example C165_accurate : gamma_accurate sp_rounded /\ beta_accurate sp_rounded.
Proof.
  assert (SZ : forall g, sizable g -> bpow radix2 (-128) <= g <= bpow radix2 128).
  { intros g [L U]. split; [apply Rle_trans with (2 := L)|apply Rle_trans with (1 := U)]; apply bpow_le; lia. }
  split.
  - intros x g F P I Z. cbn [sf_gamma sp_rounded]. rewrite (Gamma_unique _ _ _ I (Gam_spec _ P)) in *. apply r2f_near. now apply SZ.
  - intros x y g F F' P P' I Z. cbn [sf_beta sp_rounded]. rewrite (Beta_unique _ _ _ _ I (Bet_spec _ _ P P')) in *. apply r2f_near. now apply SZ.
Qed.
Example C165_nonvacuous (m : Libm) : let a := b64 2 0 in let s := b64 5 (-2) in let x := b64 7 (-1) in let h := b64 1 (-2) in let mu := b64 1 0 in
  moderate a /\ moderate s /\ moderate x /\ moderate h /\ moderate mu /\ apart x mu /\ apart h zero64 /\ is_Gamma (B2R a) 1 /\ sizable 1 /\ is_Beta (B2R mu) (B2R a) (/ 2) /\ sizable (/ 2) /\ B2R a <= 16 /\ B2R h < 1 /\ B2R mu < B2R x /\
  Rabs (B2R a * ln (B2R s)) <= 32 /\ Rabs ((B2R a - 1) * ln (B2R x)) <= 32 /\ Rabs ((B2R a + 1) * ln (B2R x)) <= 32 /\ B2R s * B2R x <= 32 /\ B2R s / B2R x <= 32 /\
  Rabs ((B2R mu - 1) * ln (B2R h)) <= 32 /\ Rabs ((B2R a - 1) * ln (1 - B2R h)) <= 32 /\ Rabs ((B2R mu + B2R a) * ln (1 + B2R x)) <= 32 /\
  is_Gamma (IZR 2 / 2) 1 /\ is_Gamma (IZR 4 / 2) 1 /\ is_Beta (IZR 2 / 2) (IZR 4 / 2) (/ 2) /\ Rabs (IZR 2 * ln (IZR 2 * B2R x)) <= 32 /\ Rabs (IZR 4 * ln (IZR 4)) <= 32 /\ Rabs ((IZR 2 + IZR 4) * ln (IZR 2 * B2R x + IZR 4)) <= 32 /\
  B2R s / (2 * (B2R x - B2R mu)) <= 32 /\ Rabs (3 / 2 * ln (B2R x - B2R mu)) <= 32 /\ B2R s * (B2R x - B2R mu) ^ 2 / (2 * B2R mu ^ 2 * B2R x) <= 32 /\ Rabs ((B2R s + 1) * ln (B2R x)) <= 32 /\ Rpower (B2R x) (- B2R s) <= 32 /\
  is_Gamma ((IZR 1 + 1) / 2) 1 /\ is_Gamma (IZR 1 / 2) (sqrt PI) /\ sizable (sqrt PI) /\ Rabs ((IZR 1 + 1) / 2 * ln (1 + B2R h ^ 2 / IZR 1)) <= 32 /\
  (exists d, Gamma.new a s = Ok d) /\ (exists d, InvGamma.new a s = Ok d) /\ (exists d, Beta.new mu a = Ok d) /\ (exists d, BetaPrime.new mu a = Ok d) /\ (exists d, ChiSq.new (F := f64) 4 = Ok d) /\ (exists d, Chi.new (F := f64) 4 = Ok d) /\
  (exists d, StudentT.new (b64 1 0) = Ok d) /\ (exists d, FDist.new (F := f64) 2 4 = Ok d) /\ (exists d, Levy.new mu s = Ok d) /\ (exists d, InvNormal.new mu s = Ok d) /\ (exists d, Frechet.new s = Ok d).
Proof.
  intros a s x h mu.
  assert (LV : forall z e : Z, (Z.abs z <= 10)%Z -> (-10 <= e <= 10)%Z -> B2R (b64 z e) = IZR z * bpow radix2 e).
  { intros z e Hz He. assert (FF : fmt64 (IZR z * bpow radix2 e)) by (apply fmt_scaled; lia). destruct (b64_spec z e) as [_ W].
    - apply rnd_small, small_le. rewrite Rabs_mult, <- abs_IZR. rewrite (Rabs_pos_eq (bpow radix2 e)) by apply bpow_ge_0. assert (IZR (Z.abs z) <= bpow radix2 4) by (change (bpow radix2 4) with (IZR 16); apply IZR_le; lia).
      apply Rle_trans with (bpow radix2 4 * bpow radix2 e); [apply Rmult_le_compat_r; [apply bpow_ge_0|assumption]|]. rewrite <- bpow_plus. apply Rle_trans with (bpow radix2 14); [apply bpow_le; lia|change (bpow radix2 14) with 16384; lra].
    - rewrite rnd_fmt in W by exact FF. exact W. }
  assert (Va : B2R a = 2) by (unfold a; rewrite LV by lia; change (bpow radix2 0) with 1; lra).
  assert (Vs : B2R s = 5 / 4) by (unfold s; rewrite LV by lia; change (bpow radix2 (-2)) with (/ 4); lra).
  assert (Vx : B2R x = 7 / 2) by (unfold x; rewrite LV by lia; change (bpow radix2 (-1)) with (/ 2); lra).
  assert (Vh : B2R h = 1 / 4) by (unfold h; rewrite LV by lia; change (bpow radix2 (-2)) with (/ 4); lra).
  assert (Vm : B2R mu = 1) by (change (B2R mu) with (RV (b64 1 0)); exact RV_b64_1).
  assert (PW : forall e, (e <= -2)%Z -> bpow radix2 e <= / 4) by (intros e He; change (/ 4) with (bpow radix2 (-2)); apply bpow_le; lia). assert (PW' : forall e, (2 <= e)%Z -> 4 <= bpow radix2 e) by (intros e He; change 4 with (bpow radix2 2); apply bpow_le; lia).
  assert (P0 := PW (-100)%Z ltac:(lia)). assert (P1 := PW' 100%Z ltac:(lia)). assert (P2 := PW (-64)%Z ltac:(lia)). assert (P3 := PW' 64%Z ltac:(lia)).
  assert (LN : forall t, 1 / 16 <= t <= 16 -> Rabs (ln t) <= 4).
  { assert (E4 : 16 < exp 4) by (replace (exp 4) with (exp 1 * exp 1 * (exp 1 * exp 1)) by (rewrite <- !exp_plus; f_equal; lra); assert (E := exp_ineq1 1 ltac:(lra)); assert (4 < exp 1 * exp 1) by nra; nra).
    intros t Ht. apply Rabs_le. split.
    - apply Rle_trans with (ln (/ exp 4)); [rewrite ln_Rinv, ln_exp by apply exp_pos; lra|]. assert (/ exp 4 < / 16) by (apply Rinv_lt_contravar; [nra|exact E4]). apply Rlt_le, ln_increasing; [apply Rinv_0_lt_compat, exp_pos|lra].
    - apply Rle_trans with (ln (exp 4)); [apply Rlt_le, ln_increasing; lra|rewrite ln_exp; lra]. }
  assert (LC : forall c t, 0 <= c <= 6 -> 1 / 16 <= t <= 16 -> Rabs (c * ln t) <= 32) by (intros c t Hc Ht; specialize (LN t Ht); rewrite Rabs_mult, (Rabs_pos_eq c) by lra; assert (Z := Rabs_pos (ln t)); nra).
  assert (G2 : is_Gamma 2 1) by exact Gamma_2. assert (G1 : is_Gamma 1 1) by (assert (G := Gam_spec 1 ltac:(lra)); now rewrite Gam_1 in G).
  assert (B12 : is_Beta 1 2 (/ 2)) by (apply Beta_1; lra).
  assert (RP : Rpower (7 / 2) (- (5 / 4)) <= 32). { rewrite Rpower_Ropp. assert (1 <= Rpower (7 / 2) (5 / 4)) by (rewrite <- (Rpower_O (7 / 2)) by lra; apply Rle_Rpower; lra). apply Rle_trans with 1; [rewrite <- Rinv_1; apply Rinv_le_contravar; lra|lra]. }
  replace (IZR 2 / 2) with 1 by lra. replace (IZR 4 / 2) with 2 by lra.
  assert (PS : fltb (f_of_Z 0 : f64) s = true) by (vm_compute; reflexivity). assert (PM : fltb (f_of_Z 0 : f64) mu = true) by (vm_compute; reflexivity). assert (PA : fltb (f_of_Z 0 : f64) a = true) by (vm_compute; reflexivity).
  assert (MO : moderate a /\ moderate s /\ moderate x /\ moderate h /\ moderate mu) by (repeat split; vm_compute; reflexivity). destruct MO as (M1 & M2 & M3 & M4 & M5).
  split; [exact M1|]. split; [exact M2|]. split; [exact M3|]. split; [exact M4|]. split; [exact M5|].
  split; [split; [vm_compute; reflexivity|split; [vm_compute; reflexivity|rewrite Vx, Vm, Rabs_pos_eq; lra]]|].
  split; [split; [vm_compute; reflexivity|split; [vm_compute; reflexivity|rewrite Vh; change (B2R zero64) with 0; rewrite Rabs_pos_eq; lra]]|].
  rewrite Va, Vs, Vx, Vh, Vm. split; [exact G2|]. split; [split; lra|]. split; [exact B12|]. split; [split; lra|]. split; [lra|]. split; [lra|]. split; [lra|].
  split; [apply LC; lra|]. split; [apply LC; lra|]. split; [apply LC; lra|]. split; [lra|]. split; [lra|]. split; [apply LC; lra|]. split; [apply LC; lra|]. split; [apply LC; lra|].
  split; [exact G1|]. split; [exact G2|]. split; [exact B12|]. split; [apply LC; lra|]. split; [apply LC; lra|]. split; [apply LC; lra|]. split; [lra|]. split; [apply LC; lra|]. split; [lra|]. split; [apply LC; lra|]. split; [exact RP|].
  split; [replace ((IZR 1 + 1) / 2) with 1 by lra; exact G1|]. split; [assert (G := Gam_spec (1 / 2) ltac:(lra)); now rewrite Gam_half in G|].
  split; [assert (HP := PI_RGT_0); assert (HP4 := PI_4); assert (E1 : sqrt 1 <= sqrt PI) by (apply sqrt_le_1; [lra|lra|generalize PI2_1; lra]); assert (E2 : sqrt PI <= sqrt (2 * 2)) by (apply sqrt_le_1; lra); rewrite sqrt_1 in E1; rewrite sqrt_square in E2 by lra; split; lra|].
  split; [apply LC; lra|].
  Local Ltac mem H1 H2 H3 := etransitivity; [apply map_params_ok; cbn [args s1 s2 s3 fst snd]; repeat (apply Forall_cons || apply Forall_nil); unfold arg_ok; cbn [arg_ty arg_val field_ok]; first [exact I|exact H1|exact H2|exact H3|lia]|reflexivity].
  split; [exists (Gamma.new_unchecked a s); mem PS PM PA|]. split; [exists (InvGamma.new_unchecked a s); mem PS PM PA|]. split; [exists (Beta.new_unchecked mu a); mem PS PM PA|]. split; [exists (BetaPrime.new_unchecked mu a); mem PS PM PA|].
  split; [exists (ChiSq.new_unchecked 4); mem PS PM PA|]. split; [exists (Chi.new_unchecked 4); mem PS PM PA|]. split; [exists (StudentT.new_unchecked mu); mem PS PM PA|]. split; [exists (FDist.new_unchecked 2 4); mem PS PM PA|].
  split; [exists (Levy.new_unchecked mu s); mem PS PM PA|]. split; [exists (InvNormal.new_unchecked mu s); mem PS PM PA|]. exists (Frechet.new_unchecked s); mem PS PM PA.
Qed.
