(** * Medians and entropies of the discrete laws *)
From Coq Require Import Reals Lra Lia Psatz List ZArith.
From Coquelicot Require Import Coquelicot.
From Flocq Require Import Core.Raux.
From Verif.Num Require Import XReal.
From Verif.Model Require Import Rust Constraints Probability Params Utils Consts LogFact Discrete.
From Verif.Spec Require Import ProbSpec UtilsSpec DiscreteSpec DistSpec ResSpec GammaSpec.
From Verif.Proofs Require Import UtilsProofs ConstraintProofs NewInv XTac Calc GammaFun ContProofs11 BetaBinProofs DiscProofs2 DiscProofs3 DiscProofs4.
Import ListNotations.
Open Scope R_scope.

(** ** general laws *)
Definition lmass (law : nat -> R) (j : nat) : R := match j with O => 0 | S i => sum_n law i end.
Lemma lmass_S law j : lmass law (S j) = lmass law j + law j.
Proof. destruct j; unfold lmass; [rewrite sum_n_0; lra|apply sum_n_S]. Qed.
Lemma low_mass law x m : INR m <= x < INR m + 1 -> law_expect law (fun k => if Rle_dec (INR k) x then 1 else 0) (law_cdf law m).
Proof.
  intros H. unfold law_expect, law_cdf.
  replace (sum_n law m) with (sum_n (fun k => (if Rle_dec (INR k) x then 1 else 0) * law k) m).
  - apply is_series_finite. intros k Hk. destruct (Rle_dec (INR k) x) as [G|]; [|rr].
    assert (INR (S m) <= INR k) by (apply le_INR; lia). rewrite S_INR in *. lra.
  - apply sum_n_ext'. intros i Hi. destruct (Rle_dec (INR i) x) as [G|G]; [rr|]. exfalso. apply G. assert (INR i <= INR m) by (apply le_INR; lia). lra.
Qed.
Lemma high_mass law x j : is_law law -> INR j - 1 < x <= INR j -> law_expect law (fun k => if Rle_dec x (INR k) then 1 else 0) (1 - lmass law j).
Proof.
  intros [_ T] H. unfold law_expect.
  assert (A : is_series (fun k => if lt_dec k j then law k else 0) (lmass law j)).
  { destruct j.
    - apply (is_series_ext' (fun _ => 0)); [intros k; destruct (lt_dec k 0); [lia|auto]|].
      assert (Z := is_series_finite (fun _ => 0) 0 ltac:(auto)). rewrite sum_n_0 in Z. exact Z.
    - unfold lmass. replace (sum_n law j) with (sum_n (fun k => if lt_dec k (S j) then law k else 0) j).
      + apply is_series_finite. intros k Hk. destruct (lt_dec k (S j)); [lia|auto].
      + apply sum_n_ext'. intros i Hi. destruct (lt_dec i (S j)); [auto|lia]. }
  assert (L := is_series_lin _ _ 1 (-1) _ _ T A). replace (1 - lmass law j) with (1 * 1 + -1 * lmass law j) by lra.
  eapply is_series_ext'; [|exact L]. intros k. cbv beta. destruct (lt_dec k j) as [G|G]; destruct (Rle_dec x (INR k)) as [Q|Q]; try rr; exfalso.
  - assert (INR (S k) <= INR j) by (apply le_INR; lia). rewrite S_INR in *. lra.
  - apply Q. assert (INR j <= INR k) by (apply le_INR; lia). lra.
Qed.
(** an exact test for a median *)
Lemma median_iff law x m j : is_law law -> INR m <= x < INR m + 1 -> INR j - 1 < x <= INR j ->
  (law_median law x <-> 1 / 2 <= law_cdf law m /\ lmass law j <= 1 / 2).
Proof.
  intros HL Hm Hj. assert (A := low_mass law x m Hm). assert (B := high_mass law x j HL Hj). split.
  - intros (a & b & Ha & La & Hb & Lb). rewrite (law_unique _ _ _ _ Ha A) in La. rewrite (law_unique _ _ _ _ Hb B) in Lb. lra.
  - intros [H1 H2]. exists (law_cdf law m), (1 - lmass law j). repeat (split; [first [assumption|lra]|]). lra.
Qed.
Lemma median_at law m : is_law law -> (law_median law (INR m) <-> 1 / 2 <= law_cdf law m /\ lmass law m <= 1 / 2).
Proof. intros HL. apply median_iff; [auto|lra|lra]. Qed.
Lemma median_nonneg law x : law_median law x -> 0 <= x.
Proof.
  intros (a & b & Ha & La & _). apply Rnot_lt_le. intros Hx.
  assert (Z : law_expect law (fun k => if Rle_dec (INR k) x then 1 else 0) 0).
  { unfold law_expect. apply (is_series_ext' (fun _ => 0)).
    - intros k. destruct (Rle_dec (INR k) x); [generalize (pos_INR k); lra|rr].
    - assert (Z := is_series_finite (fun _ => 0) 0 ltac:(auto)). rewrite sum_n_0 in Z. exact Z. }
  rewrite (law_unique _ _ _ _ Ha Z) in La. lra.
Qed.
Lemma law_partial_le law n : is_law law -> sum_n law n <= 1.
Proof.
  intros [P T]. apply (is_lim_seq_incr_compare (sum_n law)).
  - exact T.
  - intros k. rewrite sum_n_S. generalize (P (S k)). lra.
Qed.
Lemma law_le_1 law k : is_law law -> law k <= 1.
Proof.
  intros L. assert (H := law_partial_le law k L). destruct L as [P T].
  destruct k; [rewrite sum_n_0 in H; lra|]. rewrite sum_n_S in H. assert (0 <= sum_n law k) by (apply sum_n_nonneg; auto). lra.
Qed.
Lemma entropy_nonneg law b h : 1 < b -> is_law law -> law_entropy b law h -> 0 <= h.
Proof.
  intros Hb L H. assert (Hl : 0 < ln b) by (rewrite <- ln_1; apply ln_increasing; lra).
  set (f := fun k => - (law k * (ln (law k) / ln b))).
  assert (P : forall i, 0 <= f i).
  { intros i. unfold f. assert (U := law_le_1 law i L). destruct L as [P _]. specialize (P i).
    destruct (Req_dec (law i) 0) as [->|N]; [lra|]. assert (ln (law i) <= 0).
    { rewrite <- ln_1. destruct (Req_dec (law i) 1) as [->|]; [lra|]. left. apply ln_increasing; lra. }
    replace (- (law i * (ln (law i) / ln b))) with (law i * (- ln (law i) * / ln b)) by (field; lra).
    apply Rmult_le_pos; [auto|]. apply Rmult_le_pos; [lra|]. left. now apply Rinv_0_lt_compat. }
  apply (is_lim_seq_le (fun _ => 0) (sum_n f) 0 h); [intros n; now apply sum_n_nonneg|apply is_lim_seq_const|exact H].
Qed.
Lemma kurt_shift law k : law_kurtosis law (k + 3) -> ~ law_kurtosis law k.
Proof.
  intros (m & v & [M V] & Hv & E) (m' & v' & [M' V'] & _ & E').
  assert (m' = m) by (eapply law_unique; eauto). subst m'. assert (v' = v) by (eapply law_unique; eauto). subst v'.
  assert (Q := law_unique _ _ _ _ E E'). assert (0 < v * v) by (apply Rmult_lt_0_compat; auto). lra.
Qed.

(** ** Binomial *)
Lemma bin_median n p : 0 <= p -> Binomial.median (bin n p) = Fin (IZR (Zfloor (p * INR n + / 2))).
Proof.
  intros Hp. unfold Binomial.median. rewrite bin_mean. change (fround (Fin (p * INR n))) with (xround (Fin (p * INR n))). unfold xround.
  destruct (Rle_dec 0 (p * INR n)) as [|N]; [reflexivity|]. exfalso. apply N. apply Rmult_le_pos; [auto|apply pos_INR].
Qed.
Lemma bhalf_sym n k : (k <= n)%nat -> binomial_law n (1 / 2) k = binomial_law n (1 / 2) (n - k).
Proof.
  intros H. unfold binomial_law. rewrite binom_sym by auto. replace (n - (n - k))%nat with k by lia. replace (1 - 1 / 2) with (1 / 2) by lra. f_equal. apply Rmult_comm.
Qed.
Lemma blaw_sum n p : sum_n (binomial_law n p) n = 1.
Proof.
  assert (H := BE_total p n). unfold BE in H. rewrite <- H. apply sum_n_ext'. intros; rr.
Qed.
Lemma bhalf_refl n : forall m, (m < n)%nat -> sum_n (binomial_law n (1 / 2)) m + sum_n (binomial_law n (1 / 2)) (n - m - 1) = 1.
Proof.
  induction m as [|m IH]; intros H.
  - rewrite sum_n_0, bhalf_sym, Nat.sub_0_r by lia. destruct n; [lia|]. replace (S n - 1)%nat with n by lia. assert (T := blaw_sum (S n) (1 / 2)). rewrite sum_n_S in T. lra.
  - assert (I := IH ltac:(lia)). replace (n - m - 1)%nat with (S (n - S m - 1)) in I by lia. rewrite sum_n_S in I.
    rewrite (sum_n_S _ m). rewrite (bhalf_sym n (S m)) by lia. replace (n - S m)%nat with (S (n - S m - 1)) at 1 by lia. lra.
Qed.
Lemma sum_mono law (P : forall k, 0 <= law k) a b : (a <= b)%nat -> sum_n law a <= sum_n law b.
Proof. induction 1 as [|b H IH]; [lra|]. rewrite sum_n_S. generalize (P (S b)). lra. Qed.
Lemma bhalf_median n : law_median (binomial_law n (1 / 2)) (IZR (Zfloor (1 / 2 * INR n + / 2))).
Proof.
  assert (L := blaw_is_law (1 / 2) n ltac:(lra)). assert (P := law_nonneg _ L).
  destruct (Nat.Even_or_Odd n) as [[j ->]|[j ->]].
  - replace (IZR (Zfloor (1 / 2 * INR (2 * j) + / 2))) with (INR j).
    2:{ rewrite INR_IZR_INZ. f_equal. symmetry. apply Zfloor_imp. rewrite mult_INR, plus_IZR, <- INR_IZR_INZ. cbn [INR]. lra. }
    apply median_at; [auto|]. unfold law_cdf. destruct j.
    + cbn [Nat.mul] in *. rewrite sum_n_0. unfold lmass, binomial_law. cbn. lra.
    + assert (R := bhalf_refl (2 * S j) (S j) ltac:(lia)). replace (2 * S j - S j - 1)%nat with j in R by lia.
      assert (M := sum_mono _ P j (S j) ltac:(lia)). unfold lmass. lra.
  - replace (IZR (Zfloor (1 / 2 * INR (2 * j + 1) + / 2))) with (INR (S j)).
    2:{ rewrite INR_IZR_INZ. f_equal. symmetry. apply Zfloor_imp. rewrite plus_INR, mult_INR, plus_IZR, <- !INR_IZR_INZ, S_INR. cbn [INR]. lra. }
    apply median_at; [auto|]. unfold law_cdf, lmass. assert (R := bhalf_refl (2 * j + 1) j ltac:(lia)). replace (2 * j + 1 - j - 1)%nat with j in R by lia.
    assert (M := sum_mono _ P j (S j) ltac:(lia)). lra.
Qed.
Lemma b1_median p : 0 <= p <= 1 -> law_median (binomial_law 1 p) (IZR (Zfloor (p * INR 1 + / 2))).
Proof.
  intros Hp. assert (L := blaw_is_law p 1 Hp). cbn [INR]. destruct (Rlt_dec p (1 / 2)).
  - replace (Zfloor _) with 0%Z by (symmetry; apply Zfloor_imp; cbn; lra). apply (median_at _ 0%nat); [auto|].
    unfold law_cdf, lmass. rewrite sum_n_0, blaw_0. cbn. lra.
  - replace (Zfloor _) with 1%Z by (symmetry; apply Zfloor_imp; cbn; lra). apply (median_at _ 1%nat); [auto|].
    unfold law_cdf, lmass. rewrite blaw_sum, sum_n_0, blaw_0. cbn. lra.
Qed.
Lemma b2_median_bad p : 1 / 4 <= p <= 29 / 100 -> ~ law_median (binomial_law 2 p) (IZR (Zfloor (p * INR 2 + / 2))).
Proof.
  intros Hp. assert (L := blaw_is_law p 2 ltac:(lra)).
  replace (Zfloor _) with 1%Z by (symmetry; apply Zfloor_imp; cbn; lra). intros H. apply (median_at _ 1%nat L) in H.
  unfold lmass in H. rewrite sum_n_0, blaw_0 in H. cbn [pow] in H. nra.
Qed.
Lemma bin_entropy n p : 0 < p < 1 -> (0 < n)%nat -> Binomial.shannon_entropy (bin n p) = Fin (ln (2 * (PI * exp 1) * (p * (1 - p) * INR n)) / ln 2 / 2).
Proof.
  intros Hp Hn. unfold Binomial.shannon_entropy, PI_E. rewrite bin_variance. xs.
  assert (0 < p * (1 - p) * INR n) by (apply Rmult_lt_0_compat; [nra|now apply lt_0_INR]). assert (0 < PI) by apply PI_RGT_0. assert (0 < exp 1) by apply exp_pos.
  assert (0 < PI * exp 1) by (apply Rmult_lt_0_compat; auto). rewrite x_log2 by (apply Rmult_lt_0_compat; lra). xs. reflexivity.
Qed.
Lemma bin_entropy_neg n p : 0 < p < 1 -> (0 < n)%nat -> p * (1 - p) * INR n < 1 / (2 * PI * exp 1) -> ln (2 * (PI * exp 1) * (p * (1 - p) * INR n)) / ln 2 / 2 < 0.
Proof.
  intros Hp Hn H. assert (V : 0 < p * (1 - p) * INR n) by (apply Rmult_lt_0_compat; [nra|now apply lt_0_INR]).
  assert (0 < PI) by apply PI_RGT_0. assert (0 < exp 1) by apply exp_pos. assert (0 < PI * exp 1) by (apply Rmult_lt_0_compat; auto).
  assert (A : 2 * (PI * exp 1) * (p * (1 - p) * INR n) < 1).
  { apply Rmult_lt_reg_r with (1 / (2 * PI * exp 1)). - apply Rdiv_lt_0_compat; lra. - eapply Rle_lt_trans; [|rewrite Rmult_1_l; exact H]. right. field. lra. }
  assert (0 < 2 * (PI * exp 1) * (p * (1 - p) * INR n)) by (apply Rmult_lt_0_compat; lra).
  assert (ln (2 * (PI * exp 1) * (p * (1 - p) * INR n)) < 0) by (rewrite <- ln_1; apply ln_increasing; lra).
  assert (0 < ln 2) by (rewrite <- ln_1; apply ln_increasing; lra).
  set (y := ln (2 * _ * _)) in *. unfold Rdiv. assert (0 < / ln 2) by now apply Rinv_0_lt_compat. assert (y * / ln 2 < 0) by nra. lra.
Qed.

(** ** Geometric *)
Lemma geo_median p : 0 < p < 1 -> Geometric.median (geo p) = Fin (ln 2 / - ln (1 - p) - 1).
Proof.
  intros Hp. unfold Geometric.median, geo, Geometric.new_unchecked, Geometric.from, p_log2, p_not, p_new_unchecked. cbn [Geometric.q Geometric.p Probability.unwrap].
  assert (0 < ln 2) by (rewrite <- ln_1; apply ln_increasing; lra). assert (ln (1 - p) < 0) by (rewrite <- ln_1; apply ln_increasing; lra).
  assert (ln (1 - p) / ln 2 <> 0). { unfold Rdiv. apply Rmult_integral_contrapositive_currified; [lra|]. apply Rinv_neq_0_compat. lra. }
  xs. f_equal. field. lra.
Qed.
Lemma geo_median_1 : Geometric.median (geo 1) = Fin (-1).
Proof.
  unfold Geometric.median, geo, Geometric.new_unchecked, Geometric.from, p_log2, p_not, p_new_unchecked. cbn [Geometric.q Geometric.p Probability.unwrap].
  xs. replace (1 - 1) with 0 by lra. change (flog2 (Fin 0)) with (xlog2 (Fin 0)). unfold xlog2. destruct (Rlt_dec 0 0); [lra|]. destruct (Req_EM_T 0 0); [|lra].
  change (fdiv ?a NInf) with (xdiv a NInf). cbn [xdiv]. xs. f_equal. lra.
Qed.
Section Geo.
Context (p : R) (Hp : 0 < p < 1).
Let q := 1 - p.
Let t := ln 2 / - ln q.
Lemma gm_lnq : ln q < 0. Proof. unfold q. rewrite <- ln_1. apply ln_increasing; lra. Qed.
Lemma gm_pow n : q ^ n = exp (INR n * ln q).
Proof. rewrite <- Rpower_pow by (unfold q; lra). reflexivity. Qed.
Lemma gm_half : exp (t * ln q) = / 2.
Proof. assert (L := gm_lnq). replace (t * ln q) with (- ln 2) by (unfold t; field; lra). rewrite exp_Ropp, exp_ln by lra. reflexivity. Qed.
Lemma gm_le n : q ^ n <= 1 / 2 <-> t <= INR n.
Proof.
  rewrite gm_pow. assert (H := gm_half). assert (L := gm_lnq). split; intros G.
  - apply Rnot_lt_le. intros C. assert (exp (t * ln q) < exp (INR n * ln q)) by (apply exp_increasing; nra). lra.
  - assert (INR n * ln q <= t * ln q) by nra. apply exp_le_mono in H0. lra.
Qed.
Lemma gm_ge n : 1 / 2 <= q ^ n <-> INR n <= t.
Proof.
  rewrite gm_pow. assert (H := gm_half). assert (L := gm_lnq). split; intros G.
  - apply Rnot_lt_le. intros C. assert (exp (INR n * ln q) < exp (t * ln q)) by (apply exp_increasing; nra). lra.
  - assert (t * ln q <= INR n * ln q) by nra. apply exp_le_mono in H0. lra.
Qed.
Lemma gm_lmass j : lmass (geometric_law p) j = 1 - q ^ j.
Proof. destruct j; [cbn; lra|apply glaw_cdf]. Qed.
(** the smallest natural number not below the returned value is a median *)
Lemma gm_ceil m : t - 1 <= INR m < t -> law_median (geometric_law p) (INR m).
Proof.
  intros H. apply median_at; [apply glaw_is_law; lra|]. rewrite glaw_cdf, gm_lmass by lra. fold q.
  assert (A := proj2 (gm_le (S m))). assert (B := proj2 (gm_ge m)). rewrite S_INR in A. specialize (A ltac:(lra)). specialize (B ltac:(lra)). lra.
Qed.
Lemma gm_exact : law_median (geometric_law p) (t - 1) <-> exists k : nat, q ^ k = 1 / 2.
Proof.
  assert (L := glaw_is_law p ltac:(lra)). split.
  - intros M. assert (N := median_nonneg _ _ M). set (z := Zfloor (t - 1)).
    assert (A := Zfloor_lb (t - 1)). assert (B := Zfloor_ub (t - 1)). fold z in A, B.
    assert (Hz : (0 <= z)%Z) by (apply Zfloor_lub; cbn; lra).
    exists (S (Z.to_nat z)). assert (I : INR (Z.to_nat z) = IZR z) by (rewrite INR_IZR_INZ, Z2Nat.id; auto).
    destruct M as (a & b & Ha & La & _). assert (Lo := low_mass (geometric_law p) (t - 1) (Z.to_nat z) ltac:(rewrite I; lra)).
    rewrite (law_unique _ _ _ _ Ha Lo), glaw_cdf in La by lra. fold q in La.
    assert (G := proj2 (gm_ge (S (Z.to_nat z)))). rewrite S_INR, I in G. specialize (G ltac:(lra)). lra.
  - intros [k Hk]. assert (A := proj1 (gm_le k) ltac:(lra)). assert (B := proj1 (gm_ge k) ltac:(lra)).
    assert (E : t = INR k) by lra. destruct k; [cbn in Hk; lra|].
    replace (t - 1) with (INR k) by (rewrite E, S_INR; lra). apply gm_ceil. rewrite E, S_INR. lra.
Qed.
End Geo.

(** ** Poisson *)
Lemma poi_median l : 0 < l -> Poisson.median (poi l) = Fin (IZR (Zfloor (l + 1 / 3 - 2 / 100 / l))).
Proof.
  intros Hl. unfold Poisson.median, ONE_THIRD. cbn [poi Poisson.new_unchecked Poisson.pr Poisson.lambda]. cbv zeta. xs. reflexivity.
Qed.
Lemma plaw_0 l : poisson_law l 0 = exp (- l). Proof. unfold poisson_law. cbn [pow fact INR]. field. Qed.
Lemma plaw_1 l : poisson_law l 1 = l * exp (- l). Proof. unfold poisson_law. simpl. lra. Qed.
Lemma ln2_exp l : l <= ln 2 -> 1 / 2 <= exp (- l).
Proof. intros H. replace (1 / 2) with (exp (- ln 2)) by (rewrite exp_Ropp, exp_ln by lra; lra). apply exp_le_mono. lra. Qed.
Lemma ln2_exp' l : ln 2 < l -> exp (- l) < 1 / 2.
Proof. intros H. replace (1 / 2) with (exp (- ln 2)) by (rewrite exp_Ropp, exp_ln by lra; lra). apply exp_increasing. lra. Qed.
Lemma exp_taylor4 x : 0 <= x -> 1 + x + x ^ 2 / 2 + x ^ 3 / 6 + x ^ 4 / 24 <= exp x.
Proof.
  intros Hx. pose (a := fun k => x ^ k * / INR (fact k)).
  assert (T : is_series a (exp x)). { eapply is_series_ext'; [|exact (is_exp_Reals x)]. intros k. unfold a. change (scal ?u ?v) with (u * v). now rewrite pow_n_pow. }
  assert (P : forall k, 0 <= a k).
  { intros k. unfold a. apply Rmult_le_pos; [now apply pow_le|]. left. apply Rinv_0_lt_compat, INR_fact_lt_0. }
  assert (C := is_lim_seq_incr_compare (sum_n a) (exp x) T ltac:(intros k; rewrite sum_n_S; generalize (P (S k)); lra) 4%nat).
  refine (Rle_trans _ _ _ _ C). right. rewrite !sum_n_S, sum_n_0. unfold a. simpl. field.
Qed.
Lemma ln2_ub : ln 2 < 694 / 1000.
Proof. apply exp_lt_inv. rewrite exp_ln by lra. assert (T := exp_taylor4 (694 / 1000) ltac:(lra)). lra. Qed.
Lemma exp_85 : 1 / 2 <= (1 + 8 / 5) * exp (- (8 / 5)).
Proof.
  assert (A : 19 / 20 <= exp (- (1 / 20))) by (assert (X := exp_ineq1_le (- (1 / 20))); lra).
  assert (S2 : forall a x y, 0 <= a -> a <= exp x -> y = 2 * x -> a * a <= exp y).
  { intros a x y Ha H ->. replace (2 * x) with (x + x) by lra. rewrite exp_plus. apply Rmult_le_compat; auto. }
  assert (B := fun P Q => S2 _ _ (- (1 / 10)) P A Q). specialize (B ltac:(lra) ltac:(lra)). assert (B' : 9025 / 10000 <= exp (- (1 / 10))) by lra.
  assert (C := fun P Q => S2 _ _ (- (1 / 5)) P B' Q). specialize (C ltac:(lra) ltac:(lra)). assert (C' : 8145 / 10000 <= exp (- (1 / 5))) by lra.
  assert (D := fun P Q => S2 _ _ (- (2 / 5)) P C' Q). specialize (D ltac:(lra) ltac:(lra)). assert (D' : 6634 / 10000 <= exp (- (2 / 5))) by lra.
  assert (G := fun P Q => S2 _ _ (- (4 / 5)) P D' Q). specialize (G ltac:(lra) ltac:(lra)). assert (G' : 44 / 100 <= exp (- (4 / 5))) by lra.
  assert (J := fun P Q => S2 _ _ (- (8 / 5)) P G' Q). specialize (J ltac:(lra) ltac:(lra)). lra.
Qed.
Lemma poi_median_0 l : 1 / 10 <= l <= ln 2 -> Zfloor (l + 1 / 3 - 2 / 100 / l) = 0%Z /\ law_median (poisson_law l) 0.
Proof.
  intros H. assert (B := ln2_ub). assert (Hl : 0 < l) by lra.
  assert (I1 : / l <= 10) by (replace 10 with (/ (1 / 10)) by field; apply Rinv_le_contravar; lra).
  assert (I2 : 2 / 100 / l = 2 / 100 * / l) by reflexivity.
  assert (I3 : / (694 / 1000) <= / l) by (apply Rinv_le_contravar; lra). replace (/ (694 / 1000)) with (1000 / 694) in I3 by field.
  split; [apply Zfloor_imp; cbn; rewrite I2; lra|].
  apply (median_at _ 0%nat); [now apply plaw_is_law|]. unfold law_cdf, lmass. rewrite sum_n_0, plaw_0. split; [now apply ln2_exp|lra].
Qed.
Lemma poi_median_1 l : 7 / 10 <= l <= 8 / 5 -> Zfloor (l + 1 / 3 - 2 / 100 / l) = 1%Z /\ law_median (poisson_law l) 1.
Proof.
  intros H. assert (B := ln2_ub). assert (Hl : 0 < l) by lra.
  assert (I1 : / l <= 10 / 7) by (replace (10 / 7) with (/ (7 / 10)) by field; apply Rinv_le_contravar; lra).
  assert (I2 : 2 / 100 / l = 2 / 100 * / l) by reflexivity.
  assert (I3 : 0 < / l) by (apply Rinv_0_lt_compat; lra).
  split; [apply Zfloor_imp; cbn; rewrite I2; lra|].
  apply (median_at _ 1%nat); [now apply plaw_is_law|]. unfold law_cdf, lmass. rewrite sum_n_S, sum_n_0, plaw_0, plaw_1. split.
  - assert (E := exp_85). replace (- l) with (- (8 / 5) + (8 / 5 - l)) by lra. rewrite exp_plus.
    assert (F := exp_ineq1_le (8 / 5 - l)). assert (P : 0 < exp (- (8 / 5))) by apply exp_pos.
    assert (Q : 1 + 8 / 5 <= (1 + l) * exp (8 / 5 - l)) by nra. set (u := exp (- (8 / 5))) in *. set (w := exp (8 / 5 - l)) in *.
    assert (u * (1 + 8 / 5) <= u * ((1 + l) * w)) by (apply Rmult_le_compat_l; lra). lra.
  - left. apply ln2_exp'. lra.
Qed.
Lemma poi_median_neg l : 0 < l <= 5 / 100 -> (Zfloor (l + 1 / 3 - 2 / 100 / l) < 0)%Z.
Proof.
  intros H. apply lt_IZR. eapply Rle_lt_trans; [apply Zfloor_lb|]. assert (20 <= / l) by (replace 20 with (/ (5 / 100)) by field; apply Rinv_le_contravar; lra).
  replace (2 / 100 / l) with (2 / 100 * / l) by reflexivity. cbn. lra.
Qed.
Lemma poi_median_bad l : ln 2 < l <= 694 / 1000 -> Zfloor (l + 1 / 3 - 2 / 100 / l) = 0%Z /\ ~ law_median (poisson_law l) 0.
Proof.
  intros H. assert (0 < ln 2) by (rewrite <- ln_1; apply ln_increasing; lra). assert (Hl : 0 < l) by lra.
  assert (1 / 2 < ln 2). { apply exp_lt_inv. rewrite exp_ln by lra. replace (1 / 2) with (1 / 4 + 1 / 4) by lra. rewrite exp_plus.
    assert (X := exp_ineq1_le (- (1 / 4))). assert (Y : exp (- (1 / 4)) * exp (1 / 4) = 1) by (rewrite <- exp_plus; replace (- (1 / 4) + 1 / 4) with 0 by lra; apply exp_0).
    assert (0 < exp (1 / 4)) by apply exp_pos. assert (exp (1 / 4) <= 4 / 3) by nra. nra. }
  assert (I1 : / l <= 2) by (replace 2 with (/ (1 / 2)) by field; apply Rinv_le_contravar; lra).
  assert (I3 : / (694 / 1000) <= / l) by (apply Rinv_le_contravar; lra). replace (/ (694 / 1000)) with (1000 / 694) in I3 by field.
  assert (I2 : 2 / 100 / l = 2 / 100 * / l) by reflexivity.
  split; [apply Zfloor_imp; cbn; rewrite I2; lra|].
  intros M. apply (median_at _ 0%nat) in M; [|now apply plaw_is_law]. unfold law_cdf in M. rewrite sum_n_0, plaw_0 in M. generalize (ln2_exp' l ltac:(lra)). lra.
Qed.
Lemma poi_entropy_neg l : 0 < l <= 1 / 10 -> exists h, Poisson.shannon_entropy (poi l) = Fin h /\ h < 0.
Proof.
  intros H. assert (0 < PI) by apply PI_RGT_0. assert (0 < exp 1) by apply exp_pos. assert (0 < PI * exp 1) by (apply Rmult_lt_0_compat; auto).
  assert (0 < PI * exp 1 * 2 * l) by (apply Rmult_lt_0_compat; lra).
  unfold Poisson.shannon_entropy, PI_E_2, PI_E, ONE_TWELTH, ONE_TWENTY_FOURTH, NINETEEN_OVER_360. cbn [poi Poisson.new_unchecked Poisson.pr Poisson.lambda]. cbv zeta.
  xs. eexists. split; [reflexivity|].
  assert (PI <= 4) by (apply PI_4). assert (exp 1 <= 3) by apply exp_le_3.
  assert (PI * exp 1 <= 4 * 3) by (apply Rmult_le_compat; lra).
  assert (L := ln_le_sub1 (PI * exp 1 * 2 * l) ltac:(lra)). assert (I1 : 10 <= / l) by (replace 10 with (/ (1 / 10)) by field; apply Rinv_le_contravar; lra).
  assert (PI * exp 1 * 2 * l <= 12 * 2 * l) by (apply Rmult_le_compat_r; lra).
  set (i := / l) in *. unfold Rdiv. fold i. assert (0 <= i * i) by nra. assert (0 <= i * i * i) by nra. lra.
Qed.
