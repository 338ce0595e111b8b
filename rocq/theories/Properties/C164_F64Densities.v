(** * C164: how far computed densities and distribution functions are from the formulas, for a libm with an accurate exp and pow *)
From Coq Require Import Reals Lra Lia Psatz List ZArith Bool.
From Flocq Require Import Core Relative Plus_error Mult_error IEEE754.BinarySingleNaN.
From Verif.Num Require Import Scalar F64.
From Verif.Model Require Import Rust Constraints Probability Params Consts Continuous Continuous2 Continuous3 Discrete.
From Verif.Spec Require Import ParamSpec ProbSpec LibmSpec AccuracySpec.
From Verif.Proofs Require Import ConstraintProofs NewInv ProbProofs F64Order LibmInst F64Cdf F64Pdf PiBound F64Acc ExpAcc.
From Verif.Properties Require Import C133_F64Cdf C135_F64Pdf C152_F64Variance C163_F64Accuracy.
Import ListNotations.
Open Scope R_scope.

Ltac sm x y := assert (sac 1 (-100) 100 (Bminus mode_NE x y) (RV x - RV y)) by (apply sac_minus; assumption).

(** ** Rational densities *)
Theorem C164_rational (m : Libm) (mu s x : f64) : moderate s ->
  (forall d, UniformF.new mu s = Ok d -> (Bltb x mu || Bltb (Bplus mode_NE mu s) x)%bool = false -> within 1 (UniformF.pdf d x) (/ B2R s)) /\
  (forall d, Cauchy.new mu s = Ok d -> apart x mu -> within 10 (Cauchy.pdf d x) (/ (PI * B2R s * (1 + ((B2R x - B2R mu) / B2R s) ^ 2)))).
Proof.
  intros M. acs s. split.
  - intros d H L. unfold UniformF.new, UniformF.params_new, loc_new, scale_new in H. destruct (check (AllS Positive) s) eqn:E; [|discriminate H]. apply check_ok_inv in E as [-> E]. injection H as <-.
    unfold UniformF.pdf. change (fltb x (UniformF.lb _)) with (Bltb x mu). change (x >? UniformF.ub _)%rs with (Bltb (Bplus mode_NE mu s) x). rewrite L. change (within 1 (Bdiv mode_NE (b64 1 0) s) (/ RV s)). wi.
  - intros d H (Fx & Fm & B). change (B2R x) with (RV x) in *. change (B2R mu) with (RV mu) in *. unfold Cauchy.new in H. inv64 H. assert (P := pi_acc). assert (ZP := acc_pos _ _ _ _ _ P). sm x mu.
    change (within 10 (Bdiv mode_NE (Bdiv mode_NE (Bdiv mode_NE (b64 1 0) (b64 7074237752028440 (-51))) s) (Bplus mode_NE (b64 1 0) (Bmult mode_NE (Bdiv mode_NE (Bminus mode_NE x mu) s) (Bdiv mode_NE (Bminus mode_NE x mu) s)))) (/ (PI * RV s * (1 + ((RV x - RV mu) / RV s) ^ 2)))).
    set (c := b64 7074237752028440 (-51)) in *. set (y := Bminus mode_NE x mu) in *. assert (Sz : sac 2 (-200) 200 (Bdiv mode_NE y s) ((RV x - RV mu) / RV s)) by (eapply (sac_div 1 0 2 (-100) 100 (-100) 100); try eassumption; lia).
    set (z := Bdiv mode_NE y s) in *. destruct (sac_sq _ 5 _ _ _ _ Sz eq_refl ltac:(lia) ltac:(lia) ltac:(lia)) as [Sq _]. set (q := Bmult mode_NE z z) in *. set (t := (RV x - RV mu) / RV s) in *. assert (0 <= t * t) by apply Rle_0_sqr. wi.
Qed.
Print Assumptions C164_rational.

(** ** Exponential-type densities, up to exp (-32) *)
Theorem C164_exponential (m : Libm) (l x : f64) (d : Exponential.t f64) : exp_accurate m -> moderate l -> moderate x -> B2R l * B2R x <= 32 -> Exponential.new l = Ok d ->
  within 68 (Exponential.pdf d x) (B2R l * exp (- (B2R l * B2R x))).
Proof.
  intros HE Ml Mx B H. acs l. acs x. unfold Exponential.new in H. inv64 H.
  assert (AM : acc 1 (-200) 200 (Bopp (Bmult mode_NE (Bopp l) x)) (RV l * RV x)) by (apply neg_mult; [now apply mod_fin|now apply mod_fin|]; apply (acc_mult 0 0 1 (-100) 100 (-100) 100); auto; lia).
  assert (AE := acc_exp_neg m 32 _ 67 _ _ _ _ HE AM ltac:(lia) ltac:(lia) ltac:(rewrite INR_IZR_INZ; exact B) eq_refl).
  change (within 68 (Bmult mode_NE l (m_exp (Bmult mode_NE (Bopp l) x))) (RV l * exp (- (RV l * RV x)))). set (e := m_exp _) in *. eapply wi; [eapply acc_mult; [exact A|exact AE|reflexivity|lia|lia|lia]|reflexivity|lia|lia].
Qed.
Print Assumptions C164_exponential.

Theorem C164_location (m : Libm) (mu s x : f64) : exp_accurate m -> moderate s -> apart x mu -> let z := (B2R x - B2R mu) / B2R s in
  (Rabs z <= 32 -> forall d, Logistic.new mu s = Ok d ->
    within 398 (Logistic.pdf d x) (exp (- z) / (B2R s * (1 + exp (- z)) ^ 2)) /\ within 133 (unwrap (Logistic.cdf d x)) (/ (1 + exp (- z)))) /\
  (0 <= z <= 32 -> forall d, Gumbel.new mu s = Ok d -> within 265 (unwrap (Gumbel.cdf d x)) (exp (- exp (- z)))) /\
  (0 <= z <= 8 -> forall d, Gumbel.new mu s = Ok d -> within 652 (Gumbel.pdf d x) (exp (- (z + exp (- z))) / B2R s)).
Proof.
  intros HE M (Fx & Fm & B) z. change (B2R x) with (RV x) in *. change (B2R mu) with (RV mu) in *. acs s. sm x mu. rename H into S0. change (B2R s) with (RV s) in z.
  assert (Sz : sac 2 (-200) 200 (Bdiv mode_NE (Bminus mode_NE x mu) s) z) by (eapply (sac_div 1 0 2 (-100) 100 (-100) 100); try eassumption; lia). assert (PE := exp_pos (- z)).
  split; [|split]; intros L d H; [unfold Logistic.new in H|unfold Gumbel.new in H|unfold Gumbel.new in H]; inv64 H.
  - assert (AE := sac_exp m 32 _ 131 _ _ _ _ HE Sz ltac:(lia) ltac:(lia) ltac:(rewrite INR_IZR_INZ; exact L) eq_refl). set (e := m_exp (Bopp (Bdiv mode_NE (Bminus mode_NE x mu) s))) in *.
    split.
    + change (within 398 (Bdiv mode_NE (Bdiv mode_NE (Bdiv mode_NE e s) (Bplus mode_NE (b64 1 0) e)) (Bplus mode_NE (b64 1 0) e)) (exp (- z) / (RV s * (1 + exp (- z)) ^ 2))). wi.
    + change (within 133 (Bdiv mode_NE (b64 1 0) (Bplus mode_NE (b64 1 0) e)) (/ (1 + exp (- z)))). wi.
  - assert (AE := sac_exp m 32 _ 131 _ _ _ _ HE Sz ltac:(lia) ltac:(lia) ltac:(rewrite INR_IZR_INZ, Rabs_pos_eq by lra; exact (proj2 L)) eq_refl). set (e := m_exp (Bopp (Bdiv mode_NE (Bminus mode_NE x mu) s))) in *.
    assert (E1 : exp (- z) <= 1) by (rewrite <- exp_0; destruct (Req_dec z 0) as [->|]; [rewrite Ropp_0; lra|apply Rlt_le, exp_increasing; lra]).
    assert (AF := acc_exp_neg m 1 _ 265 _ _ (Bopp e) _ HE (acc_opp2 _ _ _ _ _ AE) ltac:(lia) ltac:(lia) E1 eq_refl). change (within 265 (m_exp (Bopp e)) (exp (- exp (- z)))). set (f := m_exp (Bopp e)) in *. wi.
  - assert (AE := sac_exp m 8 _ 35 _ _ _ _ HE Sz ltac:(lia) ltac:(lia) ltac:(rewrite INR_IZR_INZ, Rabs_pos_eq by lra; exact (proj2 L)) eq_refl). 
    change (within 652 (Bdiv mode_NE (m_exp (Bminus mode_NE (Bopp (Bdiv mode_NE (Bminus mode_NE x mu) s)) (m_exp (Bopp (Bdiv mode_NE (Bminus mode_NE x mu) s))))) s) (exp (- (z + exp (- z))) / RV s)).
    set (w := Bdiv mode_NE (Bminus mode_NE x mu) s) in *. set (e := m_exp (Bopp w)) in *.
    assert (E1 : exp (- z) <= 1) by (rewrite <- exp_0; destruct (Req_dec z 0) as [->|]; [rewrite Ropp_0; lra|apply Rlt_le, exp_increasing; lra]).
    assert (AW : acc 2 (-200) 200 w z) by (destruct Sz as [Sz|Sz]; [exact Sz|apply acc_pos in Sz; lra]).
    assert (AS : acc 36 (-200) 201 (Bopp (Bminus mode_NE (Bopp w) e)) (z + exp (- z))).
    { assert (Q : acc 36 (-200) 201 (Bplus mode_NE w e) (z + exp (- z))) by (apply (acc_plus 2 35 36 (-200) 200 (-64) 64); auto; lia). assert (Fw := proj1 AW). assert (Fe := proj1 AE). revert Q.
      destruct (V_plus w e Fw Fe) as [_ E]. destruct (V_minus (Bopp w) e (fin_opp _ Fw) Fe) as [N' E']. apply acc_V; [now apply num_opp|]. rewrite V_opp, E, E', RV_opp, <- sat_neg. f_equal. ring. }
    assert (AF := acc_exp_neg m 9 _ 651 _ _ _ _ HE AS ltac:(lia) ltac:(lia) ltac:(rewrite INR_IZR_INZ; change (IZR (Z.of_nat 9)) with 9; lra) eq_refl). set (f := m_exp (Bminus mode_NE (Bopp w) e)) in *. eapply wi; [eapply acc_div; [exact AF|exact A|reflexivity|lia|lia|lia]|reflexivity|lia|lia].
Qed.
Print Assumptions C164_location.

(** ** Gaussian-type densities, up to eight standard deviations *)
Lemma pi2x_acc (m : Libm) : acc 2 1 12 (PI_2 : f64) (2 * PI).
Proof.
  assert (P := pi_acc). change (acc 2 1 12 (Bmult mode_NE (b64 7074237752028440 (-51)) (b64 2 0)) (2 * PI)). set (c := b64 7074237752028440 (-51)) in *. rewrite Rmult_comm. apply (acc_mult 1 0 2 1 2 0 10); auto; try lia. apply (acc_int 2 10); [lia|cbn; lra].
Qed.
Lemma acc_neg_div n m k l h l' h' w y r s : acc n l h (Bopp w) r -> acc m l' h' y s -> k = S (n + m) -> (k <= 900)%nat -> (-1000 <= l - h')%Z -> (h - l' <= 1000)%Z -> acc k (l - h') (h - l') (Bopp (Bdiv mode_NE w y)) (r / s).
Proof.
  intros A B K L1 L2 L3. assert (PB := acc_pos _ _ _ _ _ B). assert (F := proj1 A). apply fin_opp in F. rewrite Bopp_involutive in F. apply neg_div; [exact F|apply B|lra|]. eapply acc_div; eassumption.
Qed.
Lemma half_sq n k l h z r : sac n l h z r -> k = (n + n + 2)%nat -> (k <= 900)%nat -> (-900 <= l + l)%Z -> (h + h <= 900)%Z -> acc k (l + l - 10) (h + h) (Bopp (Bdiv mode_NE (Bmult mode_NE (Bopp z) z) (b64 2 0))) (r * r / 2).
Proof.
  intros A K L1 L2 L3. destruct (sac_sq _ (n + n + 1) _ _ _ _ A ltac:(lia) ltac:(lia) ltac:(lia) ltac:(lia)) as [_ Q].
  apply (acc_weak _ (l + l - 10) (h + h - 0)); [|lia|lia]. apply (acc_neg_div (n + n + 1) 0 k (l + l) (h + h) 0 10); auto; try lia. apply (acc_int 2 10); [lia|cbn; lra].
Qed.
Lemma sq_16 z : Rabs z <= 8 -> z * z / 2 <= INR 32.
Proof. intros H. rewrite INR_IZR_INZ. change (IZR (Z.of_nat 32)) with 32. apply Rabs_le_inv in H. nra. Qed.

Theorem C164_normal (m : Libm) (mu v x : f64) (d : UvNormal.t f64) : exp_accurate m -> moderate v -> apart x mu -> Rabs ((B2R x - B2R mu) / sqrt (B2R v)) <= 8 -> UvNormal.new mu v = Ok d ->
  within 521 (UvNormal.pdf d x) (exp (- ((B2R x - B2R mu) ^ 2 / (2 * B2R v))) / sqrt (2 * PI * B2R v)).
Proof.
  intros HE M (Fx & Fm & B) L H. change (B2R x) with (RV x) in *. change (B2R mu) with (RV mu) in *. acs v. change (B2R v) with (RV v) in L. sm x mu. apply (normal_inv m) in H as [-> _].
  assert (AS : acc 1 (-100) 100 (Bsqrt mode_NE v) (sqrt (RV v))) by (apply (acc_sqrt 0 1 (-100) 100); auto; lia). assert (ZS := acc_pos _ _ _ _ _ AS). assert (AP := pi2x_acc m).
  assert (Sz : sac 3 (-200) 200 (Bdiv mode_NE (Bminus mode_NE x mu) (Bsqrt mode_NE v)) ((RV x - RV mu) / sqrt (RV v))) by (eapply (sac_div 1 1 3 (-100) 100 (-100) 100); try eassumption; lia).
  change (within 521 (Bdiv mode_NE (m_exp (Bdiv mode_NE (Bmult mode_NE (Bopp (Bdiv mode_NE (Bminus mode_NE x mu) (Bsqrt mode_NE v))) (Bdiv mode_NE (Bminus mode_NE x mu) (Bsqrt mode_NE v))) (b64 2 0))) (Bmult mode_NE (Bsqrt mode_NE PI_2) (Bsqrt mode_NE v)))
    (exp (- ((RV x - RV mu) ^ 2 / (2 * RV v))) / sqrt (2 * PI * RV v))).
  set (z := Bdiv mode_NE (Bminus mode_NE x mu) (Bsqrt mode_NE v)) in *. set (s := Bsqrt mode_NE v) in *. set (c := PI_2 : f64) in *. set (t := (RV x - RV mu) / sqrt (RV v)) in *.
  assert (AE := acc_exp_neg m 32 _ 515 _ _ _ _ HE (half_sq 3 8 _ _ _ _ Sz eq_refl ltac:(lia) ltac:(lia) ltac:(lia)) ltac:(lia) ltac:(lia) (sq_16 _ L) eq_refl). set (e := m_exp _) in *.
  replace (exp (- ((RV x - RV mu) ^ 2 / (2 * RV v))) / sqrt (2 * PI * RV v)) with (exp (- (t * t / 2)) / (sqrt (2 * PI) * sqrt (RV v))); [eapply wi; [ac|reflexivity|lia|lia]|].
  assert (PP := acc_pos _ _ _ _ _ AP). rewrite <- sqrt_mult by lra. f_equal. f_equal. f_equal. unfold t. assert (Q : sqrt (RV v) * sqrt (RV v) = RV v) by (apply sqrt_sqrt; lra). rewrite <- Q at 3. field. lra.
Qed.
Print Assumptions C164_normal.

Theorem C164_folded_normal (m : Libm) (mu s x : f64) (d : FoldedNormal.t f64) : exp_accurate m -> moderate s -> moderate mu -> moderate x -> apart x mu -> (B2R x + B2R mu) / B2R s <= 8 -> FoldedNormal.new mu s = Ok d ->
  within 393 (FoldedNormal.pdf d x) ((exp (- ((B2R x - B2R mu) / B2R s) ^ 2 / 2) + exp (- ((B2R x + B2R mu) / B2R s) ^ 2 / 2)) / (sqrt (2 * PI) * B2R s)).
Proof.
  intros HE M Mm Mx (Fx & Fm & B) L H. change (B2R x) with (RV x) in *. change (B2R mu) with (RV mu) in *. sm x mu. rename H0 into SD.
  assert (A := mod_acc s M). assert (S0 := acc_pos _ _ _ _ _ A). assert (Am := mod_acc mu Mm). assert (M0 := acc_pos _ _ _ _ _ Am). assert (Ax := mod_acc x Mx). assert (X0 := acc_pos _ _ _ _ _ Ax). change (B2R s) with (RV s) in *.
  assert (AP := pi2x_acc m). assert (PP := acc_pos _ _ _ _ _ AP). unfold FoldedNormal.new in H. inv64 H.
  assert (AU : acc 1 (-100) 101 (Bplus mode_NE x mu) (RV x + RV mu)) by (apply (acc_plus 0 0 1 (-100) 100 (-100) 100); auto; lia).
  assert (Sz : sac 2 (-200) 200 (Bdiv mode_NE (Bminus mode_NE x mu) s) ((RV x - RV mu) / RV s)) by (eapply (sac_div 1 0 2 (-100) 100 (-100) 100); try eassumption; lia).
  assert (Sw : sac 2 (-200) 201 (Bdiv mode_NE (Bplus mode_NE x mu) s) ((RV x + RV mu) / RV s)) by (left; apply (acc_div 1 0 2 (-100) 101 (-100) 100); auto; lia).
  change (within 393 (Bplus mode_NE
     (Bdiv mode_NE (m_exp (Bdiv mode_NE (Bmult mode_NE (Bopp (Bdiv mode_NE (Bplus mode_NE x mu) s)) (Bdiv mode_NE (Bplus mode_NE x mu) s)) (b64 2 0))) (Bmult mode_NE (Bsqrt mode_NE PI_2) s))
     (Bdiv mode_NE (m_exp (Bdiv mode_NE (Bmult mode_NE (Bopp (Bdiv mode_NE (Bminus mode_NE x mu) s)) (Bdiv mode_NE (Bminus mode_NE x mu) s)) (b64 2 0))) (Bmult mode_NE (Bsqrt mode_NE PI_2) s)))
    ((exp (- ((RV x - RV mu) / RV s) ^ 2 / 2) + exp (- ((RV x + RV mu) / RV s) ^ 2 / 2)) / (sqrt (2 * PI) * RV s))).
  set (z := Bdiv mode_NE (Bminus mode_NE x mu) s) in *. set (w := Bdiv mode_NE (Bplus mode_NE x mu) s) in *. set (c := PI_2 : f64) in *. set (tz := (RV x - RV mu) / RV s) in *. set (tw := (RV x + RV mu) / RV s) in *.
  assert (W0 : 0 <= tw) by (apply Rlt_le, Rdiv_lt_0_compat; lra). assert (I0 := Rinv_0_lt_compat _ (proj1 S0)).
  assert (Z0 : Rabs tz <= 8). { apply Rle_trans with (2 := L). apply Rabs_le. unfold tz, tw, Rdiv. split; [|apply Rmult_le_compat_r; lra]. rewrite <- Ropp_mult_distr_l_reverse. apply Rmult_le_compat_r; lra. }
  assert (Z1 : Rabs tw <= 8) by (rewrite Rabs_pos_eq; lra).
  assert (AE := acc_exp_neg m 32 _ 387 _ _ _ _ HE (half_sq 2 6 _ _ _ _ Sz eq_refl ltac:(lia) ltac:(lia) ltac:(lia)) ltac:(lia) ltac:(lia) (sq_16 _ Z0) eq_refl).
  assert (AF := acc_exp_neg m 32 _ 387 _ _ _ _ HE (half_sq 2 6 _ _ _ _ Sw eq_refl ltac:(lia) ltac:(lia) ltac:(lia)) ltac:(lia) ltac:(lia) (sq_16 _ Z1) eq_refl).
  set (e := m_exp (Bdiv mode_NE (Bmult mode_NE (Bopp z) z) (b64 2 0))) in *. set (f := m_exp (Bdiv mode_NE (Bmult mode_NE (Bopp w) w) (b64 2 0))) in *.
  replace ((exp (- tz ^ 2 / 2) + exp (- tw ^ 2 / 2)) / (sqrt (2 * PI) * RV s)) with (exp (- (tw * tw / 2)) / (sqrt (2 * PI) * RV s) + exp (- (tz * tz / 2)) / (sqrt (2 * PI) * RV s)); [eapply wi; [ac|reflexivity|lia|lia]|].
  replace (- tw ^ 2 / 2) with (- (tw * tw / 2)) by field. replace (- tz ^ 2 / 2) with (- (tz * tz / 2)) by field. assert (0 < sqrt (2 * PI)) by (apply sqrt_lt_R0; lra). field. lra.
Qed.
Print Assumptions C164_folded_normal.

Theorem C164_rayleigh (m : Libm) (s x : f64) (d : Rayleigh.t f64) : exp_accurate m -> moderate s -> moderate x -> B2R x / B2R s <= 8 -> Rayleigh.new s = Ok d ->
  within 262 (Rayleigh.pdf d x) (B2R x / B2R s ^ 2 * exp (- (B2R x ^ 2 / (2 * B2R s ^ 2)))).
Proof.
  intros HE M Mx L H. acs s. assert (Ax := mod_acc x Mx). assert (X0 := acc_pos _ _ _ _ _ Ax). change (B2R x) with (RV x) in *. rename Z into S0. unfold Rayleigh.new in H. inv64 H.
  change (within 262 (Bmult mode_NE (Bdiv mode_NE x (Bmult mode_NE s s)) (m_exp (Bdiv mode_NE (Bdiv mode_NE (Bmult mode_NE (Bopp x) x) (Bmult mode_NE s s)) (b64 2 0)))) (RV x / RV s ^ 2 * exp (- (RV x ^ 2 / (2 * RV s ^ 2))))).
  destruct (sac_sq 0 1 _ _ _ _ (or_introl Ax) eq_refl ltac:(lia) ltac:(lia) ltac:(lia)) as [_ Q].
  assert (Q2 : acc 1 (-200) 200 (Bmult mode_NE s s) (RV s * RV s)) by (apply (acc_mult 0 0 1 (-100) 100 (-100) 100); auto; lia). set (s2 := Bmult mode_NE s s) in *.
  assert (Q3 := acc_neg_div _ _ 3 _ _ _ _ _ _ _ _ Q Q2 eq_refl ltac:(lia) ltac:(lia) ltac:(lia)).
  assert (Q4 := acc_neg_div _ _ 4 _ _ _ _ _ _ _ _ Q3 (acc_int 2 10 ltac:(lia) ltac:(cbn; lra)) eq_refl ltac:(lia) ltac:(lia) ltac:(lia)).
  assert (E : RV x * RV x / (RV s * RV s) / 2 = (RV x / RV s) * (RV x / RV s) / 2) by (field; lra).
  assert (LB : RV x * RV x / (RV s * RV s) / 2 <= INR 32) by (rewrite E; apply sq_16; rewrite Rabs_pos_eq; [exact L|apply Rlt_le, Rdiv_lt_0_compat; lra]).
  assert (AE := acc_exp_neg m 32 _ 259 _ _ _ _ HE Q4 ltac:(lia) ltac:(lia) LB eq_refl). set (e := m_exp _) in *.
  replace (RV x ^ 2 / (2 * RV s ^ 2)) with (RV x * RV x / (RV s * RV s) / 2) by (field; lra). replace (RV s ^ 2) with (RV s * RV s) by ring. eapply wi; [ac|reflexivity|lia|lia].
Qed.
Print Assumptions C164_rayleigh.

(** ** Power-law densities *)
Theorem C164_pareto (m : Libm) (xm al x : f64) (d : Pareto.t f64) : pow_accurate m -> moderate xm -> moderate al -> moderate x -> B2R xm <= B2R x ->
  Rabs (B2R al * ln (B2R xm)) <= 32 -> Rabs ((B2R al + 1) * ln (B2R x)) <= 32 -> Pareto.new xm al = Ok d ->
  within 72 (Pareto.pdf d x) (B2R al * Rpower (B2R xm) (B2R al) / Rpower (B2R x) (B2R al + 1)).
Proof.
  intros HP Mxm Mal Mx L L1 L2 H. assert (A := mod_acc xm Mxm). assert (Aa := mod_acc al Mal). assert (Ax := mod_acc x Mx). assert (Z1 := acc_pos _ _ _ _ _ A). assert (Z2 := acc_pos _ _ _ _ _ Aa). assert (Z3 := acc_pos _ _ _ _ _ Ax).
  change (B2R xm) with (RV xm) in *. change (B2R al) with (RV al) in *. change (B2R x) with (RV x) in *. unfold Pareto.new in H. inv64 H. unfold Pareto.pdf. cbn [Pareto.pr]. change (fltb x xm) with (Bltb x xm).
  destruct (Bltb x xm) eqn:E; [exfalso; apply lt_V1 in E; rewrite !V_fin in E by (now apply mod_fin); lra|].
  change (within 72 (Bdiv mode_NE (Bmult mode_NE al (m_powf xm al)) (m_powf x (Bplus mode_NE al (b64 1 0)))) (RV al * Rpower (RV xm) (RV al) / Rpower (RV x) (RV al + 1))).
  assert (AP : acc 1 (-100) 101 (Bplus mode_NE al (b64 1 0)) (RV al + 1)) by (apply (acc_plus 0 0 1 (-100) 100 0 10); auto; try lia; apply (acc_int 1 10); [lia|cbn; lra]). set (q := Bplus mode_NE al (b64 1 0)) in *.
  destruct (archimed (RV al + 1)) as [HN _]. assert (HN2 : RV al + 1 < INR (Z.to_nat (up (RV al + 1)))). { rewrite INR_IZR_INZ, Z2Nat.id; [lra|]. apply le_IZR. lra. } set (N := Z.to_nat (up (RV al + 1))) in *.
  assert (P1 := acc_pow m N 32 0 0 3 _ _ _ _ _ _ _ _ HP A Aa ltac:(lra) ltac:(rewrite INR_IZR_INZ; exact L1) ltac:(lia) ltac:(lia) ltac:(lia) ltac:(lia)).
  assert (P2 := acc_pow m N 32 0 1 67 _ _ _ _ _ _ _ _ HP Ax AP ltac:(lra) ltac:(rewrite INR_IZR_INZ; exact L2) ltac:(lia) ltac:(lia) ltac:(lia) ltac:(lia)).
  set (u := m_powf xm al) in *. set (w := m_powf x q) in *. eapply wi; [ac|reflexivity|lia|lia].
Qed.
Print Assumptions C164_pareto.

Theorem C164_weibull (m : Libm) (la k x : f64) p : exp_accurate m -> pow_accurate m -> moderate la -> moderate k -> moderate x -> 1 < B2R k <= 8 ->
  Rabs (B2R k * ln (B2R x / B2R la)) <= 32 -> Rpower (B2R x / B2R la) (B2R k) <= 8 -> Weibull.p_new la k = Ok p ->
  within 665 (Weibull.pdf (Weibull.from p) x) (B2R k / B2R la * Rpower (B2R x / B2R la) (B2R k - 1) * exp (- Rpower (B2R x / B2R la) (B2R k))).
Proof.
  intros HE HP Ml Mk Mx LK L1 L2 H. assert (A := mod_acc la Ml). assert (Ak := mod_acc k Mk). assert (Ax := mod_acc x Mx). assert (Z1 := acc_pos _ _ _ _ _ A). assert (Z2 := acc_pos _ _ _ _ _ Ak). assert (Z3 := acc_pos _ _ _ _ _ Ax).
  change (B2R la) with (RV la) in *. change (B2R k) with (RV k) in *. change (B2R x) with (RV x) in *. unfold Weibull.p_new in H. apply map_params_inv in H as [-> _].
  unfold Weibull.pdf. change (x >=? f_of_Z 0)%rs with (Bleb (b64 0 0) x). assert (E : Bleb (b64 0 0) x = true). { destruct (b64_z 0 ltac:(lia)) as [F0 V0]. apply (le_V2 (b64 0 0) x); [now apply fin_num|apply fin_num; now apply mod_fin|]. rewrite !V_fin by (first [exact F0|now apply mod_fin]). rewrite V0. lra. }
  rewrite E. change (within 665 (Bmult mode_NE (Bmult mode_NE (Bdiv mode_NE k la) (m_powf (Bdiv mode_NE x la) (Bminus mode_NE k (b64 1 0)))) (m_exp (Bopp (m_powf (Bdiv mode_NE x la) k)))) (RV k / RV la * Rpower (RV x / RV la) (RV k - 1) * exp (- Rpower (RV x / RV la) (RV k)))).
  assert (AQ : acc 1 (-200) 200 (Bdiv mode_NE x la) (RV x / RV la)) by (apply (acc_div 0 0 1 (-100) 100 (-100) 100); auto; lia). set (q := Bdiv mode_NE x la) in *.
  assert (AM := mod_minus k 1 Mk ltac:(lia) (proj1 LK)). set (k1 := Bminus mode_NE k (b64 1 0)) in *.
  assert (K8 : RV k <= INR 8) by (rewrite INR_IZR_INZ; exact (proj2 LK)). assert (B1 : Rabs (RV k * ln (RV x / RV la)) <= INR 32) by (rewrite INR_IZR_INZ; exact L1).
  assert (B2 : Rabs ((RV k - 1) * ln (RV x / RV la)) <= INR 32). { apply Rle_trans with (2 := B1). rewrite !Rabs_mult. apply Rmult_le_compat_r; [apply Rabs_pos|]. rewrite !Rabs_pos_eq; lra. }
  assert (P1 := acc_pow m 8 32 1 1 99 _ _ _ _ _ _ _ _ HP AQ AM ltac:(lra) B2 ltac:(lia) ltac:(lia) ltac:(lia) ltac:(lia)).
  assert (P2 := acc_pow m 8 32 1 0 35 _ _ _ _ _ _ _ _ HP AQ Ak K8 B1 ltac:(lia) ltac:(lia) ltac:(lia) ltac:(lia)).
  assert (AE := acc_exp_neg m 8 _ 563 _ _ _ _ HE (acc_opp2 _ _ _ _ _ P2) ltac:(lia) ltac:(lia) ltac:(rewrite INR_IZR_INZ; exact L2) eq_refl).
  set (u := m_powf q k1) in *. set (e := m_exp _) in *. eapply wi; [eapply acc_mult; [eapply acc_mult; [eapply acc_div; [exact Ak|exact A|reflexivity|lia|lia|lia]|exact P1|reflexivity|lia|lia|lia]|exact AE|reflexivity|lia|lia|lia]|reflexivity|lia|lia].
Qed.
Print Assumptions C164_weibull.

(** ** Refuted for the distribution functions of the form 1 - exp (-y): with an accurate exp and rate 1, no digit of the value at 2^-60 is right *)
Theorem C164_exponential_cdf_refuted (m : Libm) : exp_accurate m -> let x := b64 1 (-60) in moderate one64 /\ moderate x /\ exists d, Exponential.new one64 = Ok d /\
  forall k : nat, INR k * 2 <= 4503599627370496 -> ~ within k (unwrap (Exponential.cdf d x)) (1 - exp (- (1 * B2R x))).
Proof.
  intros HE x. split; [split; vm_compute; reflexivity|]. split; [split; vm_compute; reflexivity|]. exists (Exponential.new_unchecked one64).
  assert (P1 : fltb (f_of_Z 0 : f64) one64 = true) by (vm_compute; reflexivity). split.
  - etransitivity; [apply map_params_ok; cbn [args s1 s2 s3 fst snd]; repeat (apply Forall_cons || apply Forall_nil); unfold arg_ok; cbn [arg_ty arg_val field_ok]; first [exact I|exact P1|lia]|reflexivity].
  - intros k Hk [Fw Bw]. destruct (b64_pow2 (-60) ltac:(lia)) as [Fx Vx]. fold x in Fx, Vx.
    assert (EA : Bmult mode_NE (Bopp one64) x = Bopp x) by (apply B2SF_inj; vm_compute; reflexivity).
    change (unwrap (Exponential.cdf (Exponential.new_unchecked one64) x)) with (Bminus mode_NE (b64 1 0) (m_exp (Bmult mode_NE (Bopp one64) x))) in *. rewrite EA in *.
    change (bpow radix2 (-60)) with (/ 1152921504606846976) in Vx. change (B2R x) with (RV x) in *. rewrite Vx in *. rewrite Rmult_1_l in Bw.
    destruct (HE (Bopp x) (fin_opp _ Fx)) as [Fe Ee]; change (B2R (Bopp x)) with (RV (Bopp x)) in *; rewrite RV_opp, Vx in *; [rewrite Rabs_left; lra|]. change (B2R (m_exp (Bopp x))) with (RV (m_exp (Bopp x))) in *. set (e := m_exp (Bopp x)) in *.
    set (E := exp (- / 1152921504606846976)) in *. assert (E1 : E < 1) by (unfold E; rewrite <- exp_0; apply exp_increasing; lra). assert (E2 : 1 - / 1152921504606846976 <= E) by (unfold E; assert (T := exp_S (- / 1152921504606846976)); lra).
    rewrite (Rabs_pos_eq (1 - E)) in Bw by lra. apply Rabs_le_inv in Ee.
    destruct (V_minus (b64 1 0) e fin_b64_1 Fe) as [N V1]. rewrite V_fin in V1 by exact Fw. set (c := Bminus mode_NE (b64 1 0) e) in *. change (B2R c) with (RV c) in Bw. rewrite RV_b64_1 in V1.
    assert (Q := M64_pos). assert (SM : forall t, Rabs t <= 1 -> sat t = rnd t).
    { intros t Ht. apply Rabs_le_inv in Ht. unfold sat. apply clamp_id. assert (B1 : 1 < M64) by (change M64 with (bpow radix2 1024); change 1 with (bpow radix2 0); apply bpow_lt; lia).
      assert (rnd t <= 1) by (apply rnd_le_fmt; [exact fmt_1|lra]). assert (-1 <= rnd t) by (apply rnd_ge; [apply (generic_format_opp radix2), fmt_1|lra]). lra. }
    rewrite SM in V1 by (apply Rabs_le; lra).
    assert (Bw' : Rabs (RV c - (1 - E)) <= / 2 * (1 - E)). { apply Rle_trans with (1 := Bw). apply Rmult_le_compat_r; lra. } apply Rabs_le_inv in Bw'.
    destruct (Rtotal_order (RV e) 1) as [T|[T|T]].
    + assert (X := pred_ge_gt radix2 (SpecFloat.fexp 53 1024) (RV e) 1 (fmt_RV e) fmt_1 T). change 1 with (bpow radix2 0) in X at 1. rewrite pred_bpow in X. change (SpecFloat.fexp 53 1024 0) with (-53)%Z in X. change (bpow radix2 0) with 1 in X. change (bpow radix2 (-53)) with (/ 9007199254740992) in X.
      assert (/ 9007199254740992 <= rnd (1 - RV e)) by (apply rnd_ge; [change (/ 9007199254740992) with (bpow radix2 (-53)); apply fmt_bpow; lia|lra]). lra.
    + rewrite T, Rminus_diag_eq in V1 by reflexivity. unfold rnd in V1. rewrite round_0 in V1 by typeclasses eauto. lra.
    + assert (rnd (1 - RV e) <= 0) by (apply rnd_le_fmt; [apply generic_format_0|lra]). lra.
Qed.
Print Assumptions C164_exponential_cdf_refuted.

(** ** A correctly rounded libm is accurate *)
Lemma r2f_exp w : Rabs w <= 64 -> fin (r2f (exp w)) /\ Rabs (RV (r2f (exp w)) - exp w) <= / 4503599627370496 * exp w.
Proof.
  intros H. apply Rabs_le_inv in H. assert (E := exp_plus (w / 2) (w / 2)). replace (w / 2 + w / 2) with w in E by field. assert (U := exp_32 (w / 2) ltac:(lra)). assert (L := exp_m32 (w / 2) ltac:(lra)).
  assert (P1 := bpow_gt_0 radix2 64). assert (P2 := bpow_gt_0 radix2 (-64)). assert (U2 : exp w <= bpow radix2 128) by (rewrite E; change 128%Z with (64 + 64)%Z; rewrite bpow_plus; apply Rmult_le_compat; lra).
  assert (L2 : bpow radix2 (-128) <= exp w) by (rewrite E; change (-128)%Z with (-64 + -64)%Z; rewrite bpow_plus; apply Rmult_le_compat; lra). set (t := exp w) in *.
  assert (T : bpow radix2 (-1022) <= t) by (apply Rle_trans with (2 := L2); apply bpow_le; lia). destruct (rnd_acc t T) as [R1 R2]. destruct (r2f_V t) as [N V1].
  assert (Q := M64_pos). assert (B : bpow radix2 128 < M64) by (change M64 with (bpow radix2 1024); apply bpow_lt; lia). assert (P3 := bpow_gt_0 radix2 (-128)).
  assert (R0 : 0 <= rnd t) by (apply rnd_pos_of; lra). assert (R3 : rnd t <= bpow radix2 128) by (apply rnd_le_fmt; [apply fmt_bpow; lia|exact U2]). unfold sat in V1. rewrite clamp_id in V1 by lra.
  assert (F : fin (r2f t)) by (apply V_fin_iff; [exact N|rewrite V1; lra]). split; [exact F|]. rewrite V_fin in V1 by exact F. rewrite V1. assert (UU : 0 < u53 < / 1000) by (unfold u53; lra). replace (/ 4503599627370496) with (2 * u53) by (unfold u53; field). apply Rabs_le. nra.
Qed.
Example C164_accurate : exp_accurate cr_libm /\ pow_accurate cr_libm.
Proof.
  split.
  - intros y F B. cbn [m_exp cr_libm]. assert (E : cr_exp y = r2f (exp (RV y))) by (destruct y; try discriminate F; reflexivity). rewrite E. apply r2f_exp. exact B.
  - intros x y Fx Fy Px B. cbn [m_powf cr_libm]. destruct x as [sx|sx| |sx mx ex Hx]; try discriminate Fx; [change (0 < 0) in Px; lra|]. destruct y as [sy|sy| |sy my ey Hy]; try discriminate Fy.
    + change (cr_pow (B754_finite sx mx ex Hx) (B754_zero sy)) with (b64 1 0). split; [exact fin_b64_1|]. change (B2R (b64 1 0)) with (RV (b64 1 0)). rewrite RV_b64_1. change (B2R (B754_zero sy)) with 0. unfold Rpower. rewrite Rmult_0_l, exp_0, Rminus_diag_eq, Rabs_R0 by reflexivity. lra.
    + unfold Rpower. exact (r2f_exp _ B).
Qed.
Example C164_nonvacuous (m : Libm) : let s := b64 5 (-2) in let x := b64 7 (-1) in let mu := b64 1 0 in moderate s /\ moderate x /\ moderate mu /\ apart x mu /\ B2R s * B2R x <= 32 /\ 0 <= (B2R x - B2R mu) / B2R s <= 8 /\ B2R mu <= B2R x /\
  Rabs (B2R s * ln (B2R mu)) <= 32 /\ Rabs ((B2R s + 1) * ln (B2R x)) <= 32 /\ 1 < B2R s <= 8 /\ Rabs (B2R s * ln (B2R x / B2R mu)) <= 32 /\ Rpower (B2R x / B2R mu) (B2R s) <= 8 /\
  (exists d, Exponential.new s = Ok d) /\ (exists d, Logistic.new mu s = Ok d) /\ (exists d, Pareto.new mu s = Ok d) /\ (exists p, Weibull.p_new mu s = Ok p).
Proof.
  intros s x mu. 
  assert (LV : forall z e : Z, (Z.abs z <= 10)%Z -> (-10 <= e <= 10)%Z -> B2R (b64 z e) = IZR z * bpow radix2 e).
  { intros z e Hz He. assert (FF : fmt64 (IZR z * bpow radix2 e)) by (apply fmt_scaled; lia). destruct (b64_spec z e) as [_ W].
    - apply rnd_small, small_le. rewrite Rabs_mult, <- abs_IZR. rewrite (Rabs_pos_eq (bpow radix2 e)) by apply bpow_ge_0. assert (IZR (Z.abs z) <= bpow radix2 4) by (change (bpow radix2 4) with (IZR 16); apply IZR_le; lia).
      apply Rle_trans with (bpow radix2 4 * bpow radix2 e); [apply Rmult_le_compat_r; [apply bpow_ge_0|assumption]|]. rewrite <- bpow_plus. apply Rle_trans with (bpow radix2 14); [apply bpow_le; lia|change (bpow radix2 14) with 16384; lra].
    - rewrite rnd_fmt in W by exact FF. exact W. }
  assert (Vs : B2R s = 5 / 4) by (unfold s; rewrite LV by lia; change (bpow radix2 (-2)) with (/ 4); lra).
  assert (Vx : B2R x = 7 / 2) by (unfold x; rewrite LV by lia; change (bpow radix2 (-1)) with (/ 2); lra).
  assert (Vm : B2R mu = 1) by (change (B2R mu) with (RV (b64 1 0)); exact RV_b64_1).
  assert (P0 : bpow radix2 (-100) <= 1) by (change 1 with (bpow radix2 0); apply bpow_le; lia). assert (P1 : 4 <= bpow radix2 100) by (change 4 with (bpow radix2 2); apply bpow_le; lia).
  assert (L4 : 0 <= ln (7 / 2) <= 2). { split; [rewrite <- ln_1; apply Rlt_le, ln_increasing; lra|]. apply Rle_trans with (ln (exp 2)); [|rewrite ln_exp; lra]. apply Rlt_le, ln_increasing; [lra|]. replace (exp 2) with (exp 1 * exp 1) by (rewrite <- exp_plus; f_equal; lra). assert (E := exp_ineq1 1 ltac:(lra)). apply Rlt_le_trans with (2 * 2); [lra|apply Rmult_le_compat; lra]. }
  assert (R8 : Rpower (7 / 2 / 1) (5 / 4) <= 8).
  { replace (7 / 2 / 1) with (7 / 2) by field. assert (PP : 0 < Rpower (7 / 2) (5 / 4)) by apply exp_pos. destruct (Rle_lt_dec (Rpower (7 / 2) (5 / 4)) 8) as [G|G]; [exact G|]. exfalso.
    assert (E : Rpower (7 / 2) (5 / 4) ^ 4 = (7 / 2) ^ 5). { rewrite <- Rpower_pow by exact PP. rewrite Rpower_mult. rewrite <- Rpower_pow by lra. f_equal. rewrite !INR_IZR_INZ. change (Z.of_nat 4) with 4%Z. change (Z.of_nat 5) with 5%Z. lra. }
    assert (H : 8 ^ 4 < Rpower (7 / 2) (5 / 4) ^ 4) by (set (w := Rpower (7 / 2) (5 / 4)) in *; cbn [pow]; assert (64 < w * w) by nra; nra). rewrite E in H. lra. }
  rewrite Vs, Vx, Vm. assert (PS : fltb (f_of_Z 0 : f64) s = true) by (vm_compute; reflexivity). assert (PM : fltb (f_of_Z 0 : f64) mu = true) by (vm_compute; reflexivity).
  split; [split; vm_compute; reflexivity|]. split; [split; vm_compute; reflexivity|]. split; [split; vm_compute; reflexivity|]. split; [split; [vm_compute; reflexivity|split; [vm_compute; reflexivity|rewrite Vx, Vm, Rabs_pos_eq; lra]]|].
  split; [lra|]. split; [lra|]. split; [lra|]. split; [rewrite ln_1, Rmult_0_r, Rabs_R0; lra|]. split; [rewrite Rabs_pos_eq; nra|]. split; [lra|]. split; [replace (7 / 2 / 1) with (7 / 2) by field; rewrite Rabs_pos_eq; nra|]. split; [exact R8|].
  split; [|split; [|split]].
  - exists (Exponential.new_unchecked s). etransitivity; [apply map_params_ok; cbn [args s1 s2 s3 fst snd]; repeat (apply Forall_cons || apply Forall_nil); unfold arg_ok; cbn [arg_ty arg_val field_ok]; first [exact I|exact PS|exact PM]|reflexivity].
  - exists (Logistic.new_unchecked mu s). etransitivity; [apply map_params_ok; cbn [args s1 s2 s3 fst snd]; repeat (apply Forall_cons || apply Forall_nil); unfold arg_ok; cbn [arg_ty arg_val field_ok]; first [exact I|exact PS|exact PM]|reflexivity].
  - exists (Pareto.new_unchecked mu s). etransitivity; [apply map_params_ok; cbn [args s1 s2 s3 fst snd]; repeat (apply Forall_cons || apply Forall_nil); unfold arg_ok; cbn [arg_ty arg_val field_ok]; first [exact I|exact PS|exact PM]|reflexivity].
  - eexists. unfold Weibull.p_new. apply map_params_ok; cbn [args s1 s2 s3 fst snd]; repeat (apply Forall_cons || apply Forall_nil); unfold arg_ok; cbn [arg_ty arg_val field_ok]; first [exact I|exact PS|exact PM].
Qed.
