(** * The geometric and Poisson laws *)
From Coq Require Import Reals Lra Lia Psatz ZArith List.
From Coquelicot Require Import Coquelicot.
From Verif.Num Require Import XReal.
From Verif.Spec Require Import UtilsSpec DiscreteSpec.
From Verif.Proofs Require Import UtilsProofs XTac DiscProofs1 DiscProofs2.
Open Scope R_scope.

(** polynomials times q^k vanish *)
Lemma kq_bounded s k : 0 < s < 1 -> INR k * s ^ k <= s / (1 - s).
Proof.
  intros Hs. assert (H : 1 + INR k * (/ s - 1) <= (/ s) ^ k).
  { assert (0 < / s - 1). { assert (1 < / s) by (apply Rinv_gt1; lra). lra. }
    replace (/ s) with (1 + (/ s - 1)) at 2 by ring. apply poly. auto. }
  rewrite pow_inv in H by lra. assert (P : 0 < s ^ k) by (apply pow_lt; lra).
  apply Rmult_le_compat_r with (r := s ^ k) in H; [|lra]. rewrite Rinv_l in H by lra.
  assert (0 < 1 - s) by lra. assert (E : INR k * (/ s - 1) * s ^ k = INR k * s ^ k * ((1 - s) / s)) by (field; lra).
  assert (INR k * s ^ k * ((1 - s) / s) <= 1) by nra.
  apply Rmult_le_reg_r with ((1 - s) / s); [pos|]. replace (s / (1 - s) * ((1 - s) / s)) with 1 by (field; lra). auto.
Qed.
Lemma kj_q_lim q j : 0 <= q < 1 -> is_lim_seq (fun k => INR k ^ j * q ^ k) 0.
Proof.
  intros Hq. destruct (Req_dec q 0) as [->|Hq0].
  - apply is_lim_seq_ext_loc with (u := fun _ => 0); [|apply is_lim_seq_const]. exists 1%nat. intros k Hk. rewrite pow_ne_zero by lia. ring.
  - set (s := Rpower q (/ INR (S j))).
    assert (Hj : 0 < INR (S j)) by (apply lt_0_INR; lia).
    assert (Hs : 0 < s < 1). { split; [apply Rpower_pos|]. apply Rpower_lt1; [lra|pos]. }
    assert (E : q = s ^ (S j)). { rewrite <- Rpower_pow by lra. unfold s. rewrite Rpower_mult, Rinv_l, Rpower_1 by lra. auto. }
    apply is_lim_seq_le_le with (u := fun _ => 0) (w := fun k => (s / (1 - s)) ^ j * s ^ k).
    + intros k. split.
      * apply Rmult_le_pos; apply pow_le; [apply pos_INR|lra].
      * rewrite E. rewrite <- pow_mult. replace (S j * k)%nat with (k * j + k)%nat by lia. rewrite pow_add, pow_mult, <- Rmult_assoc, <- Rpow_mult_distr.
        apply Rmult_le_compat_r; [apply pow_le; lra|]. apply pow_incr. split; [apply Rmult_le_pos; [apply pos_INR|apply pow_le; lra]|]. now apply kq_bounded.
    + apply is_lim_seq_const.
    + replace (Finite 0) with (Rbar_mult ((s / (1 - s)) ^ j) 0) by (cbn; f_equal; ring). apply is_lim_seq_scal_l. apply is_lim_seq_geom. rewrite Rabs_pos_eq; lra.
Qed.

Section Geom.
Context (p : R) (Hp : 0 < p <= 1).
Notation q := (1 - p).
Notation law := (geometric_law p).
Notation r := (q / p).
Lemma glaw_nonneg k : 0 <= law k.
Proof. unfold geometric_law. apply Rmult_le_pos; [lra|apply pow_le; lra]. Qed.
(** a polynomial of degree <= 4 times q^k tends to 0 *)
Lemma gpoly_lim a0 a1 a2 a3 a4 :
  is_lim_seq (fun k => (a0 + a1 * INR k + a2 * INR k ^ 2 + a3 * INR k ^ 3 + a4 * INR k ^ 4) * q ^ k) 0.
Proof.
  assert (Hq : 0 <= q < 1) by lra.
  assert (L := kj_q_lim q 0 Hq). assert (L1 := kj_q_lim q 1 Hq). assert (L2 := kj_q_lim q 2 Hq). assert (L3 := kj_q_lim q 3 Hq). assert (L4 := kj_q_lim q 4 Hq).
  assert (S : forall a j, is_lim_seq (fun k => INR k ^ j * q ^ k) 0 -> is_lim_seq (fun k => a * (INR k ^ j * q ^ k)) 0).
  { intros a j H. replace (Finite 0) with (Rbar_mult a 0) by (cbn; f_equal; ring). now apply is_lim_seq_scal_l. }
  assert (P : forall u v, is_lim_seq u 0 -> is_lim_seq v 0 -> is_lim_seq (fun k => u k + v k) 0).
  { intros u v Hu Hv. replace 0 with (0 + 0) by ring. now apply is_lim_seq_plus'. }
  generalize (P _ _ (P _ _ (P _ _ (P _ _ (S a0 _ L) (S a1 _ L1)) (S a2 _ L2)) (S a3 _ L3)) (S a4 _ L4)).
  apply is_lim_seq_ext. intros k. cbn [pow]. ring.
Qed.
Lemma gtel g a0 a1 a2 a3 a4 :
  let Q := fun x => a0 + a1 * x + a2 * x ^ 2 + a3 * x ^ 3 + a4 * x ^ 4 in
  (forall k, Q (INR k) - q * Q (INR k + 1) = p * g k) -> law_expect law g (Q 0).
Proof.
  intros Q H. unfold law_expect.
  generalize (is_series_telescope (fun k => Q (INR k) * q ^ k) (gpoly_lim a0 a1 a2 a3 a4)).
  replace (Q (INR 0) * q ^ 0) with (Q 0) by (cbn; ring). apply is_series_ext'.
  intros k. unfold geometric_law. rewrite S_INR. cbn [pow].
  transitivity ((Q (INR k) - q * Q (INR k + 1)) * q ^ k); [ring|]. rewrite H. ring.
Qed.
Lemma glaw_total : law_expect law (fun _ => 1) 1.
Proof.
  generalize (gtel (fun _ => 1) 1 0 0 0 0). cbv zeta. intros H. eapply law_expect_eq; [apply H|]; intros; ring.
Qed.
Lemma glaw_is_law : is_law law.
Proof. split; [apply glaw_nonneg|]. apply is_series_ext' with (2 := glaw_total). intros; ring. Qed.
Lemma glaw_m1 c : law_expect law (fun k => INR k - c) (r - c).
Proof.
  generalize (gtel (fun k => INR k - c) (r - c) 1 0 0 0). cbv zeta. intros H. eapply law_expect_eq; [apply H|]; intros; field; lra.
Qed.
(** expansion of (x-c)^j + ... in powers of x *)
Lemma glaw_m2 c : law_expect law (fun k => (INR k - c) ^ 2) (r + 2 * r ^ 2 - 2 * c * r + c ^ 2).
Proof.
  generalize (gtel (fun k => (INR k - c) ^ 2) (r + 2 * r ^ 2 - 2 * c * r + c ^ 2) (2 * r - 2 * c) 1 0 0). cbv zeta.
  intros H. eapply law_expect_eq; [apply H|]; intros; field; lra.
Qed.
Lemma glaw_m3 c : law_expect law (fun k => (INR k - c) ^ 3) (r + 6 * r ^ 2 + 6 * r ^ 3 - 3 * c * (r + 2 * r ^ 2) + 3 * c ^ 2 * r - c ^ 3).
Proof.
  generalize (gtel (fun k => (INR k - c) ^ 3) (r + 6 * r ^ 2 + 6 * r ^ 3 - 3 * c * (r + 2 * r ^ 2) + 3 * c ^ 2 * r - c ^ 3)
    (3 * (r + 2 * r ^ 2) - 6 * c * r + 3 * c ^ 2) (3 * r - 3 * c) 1 0). cbv zeta.
  intros H. eapply law_expect_eq; [apply H|]; intros; field; lra.
Qed.
Lemma glaw_m4 c : law_expect law (fun k => (INR k - c) ^ 4)
  (r + 14 * r ^ 2 + 36 * r ^ 3 + 24 * r ^ 4 - 4 * c * (r + 6 * r ^ 2 + 6 * r ^ 3) + 6 * c ^ 2 * (r + 2 * r ^ 2) - 4 * c ^ 3 * r + c ^ 4).
Proof.
  generalize (gtel (fun k => (INR k - c) ^ 4)
    (r + 14 * r ^ 2 + 36 * r ^ 3 + 24 * r ^ 4 - 4 * c * (r + 6 * r ^ 2 + 6 * r ^ 3) + 6 * c ^ 2 * (r + 2 * r ^ 2) - 4 * c ^ 3 * r + c ^ 4)
    (4 * (r + 6 * r ^ 2 + 6 * r ^ 3) - 12 * c * (r + 2 * r ^ 2) + 12 * c ^ 2 * r - 4 * c ^ 3)
    (6 * (r + 2 * r ^ 2) - 12 * c * r + 6 * c ^ 2) (4 * r - 4 * c) 1). cbv zeta.
  intros H. eapply law_expect_eq; [apply H|]; intros; field; lra.
Qed.
Lemma glaw_mean : law_mean law r.
Proof. eapply law_expect_eq; [apply law_expect_ext with (2 := glaw_m1 0); intros; ring|ring]. Qed.
Lemma glaw_variance : law_variance law r (q / p / p).
Proof.
  split; [apply glaw_mean|]. eapply law_expect_eq; [apply law_expect_ext with (2 := glaw_m2 r); intros; ring|]. field; lra.
Qed.
Lemma glaw_skewness : p < 1 -> law_skewness law ((2 - p) / sqrt q).
Proof.
  intros H1. exists r, (q / p / p). split; [apply glaw_variance|]. assert (0 < q) by lra. split; [pos|].
  eapply law_expect_eq; [apply glaw_m3|].
  replace (q / p / p) with (q / (p ^ 2)) by (field; lra). rewrite (sqrt_div q (p ^ 2)) by (try apply pow_lt; lra). rewrite sqrt_pow2 by lra.
  assert (0 < sqrt q) by pos. field. lra.
Qed.
Lemma glaw_kurtosis : p < 1 -> law_kurtosis law (6 + 1 / (q / p / p) + 3).
Proof.
  intros H1. exists r, (q / p / p). split; [apply glaw_variance|]. assert (0 < q) by lra. split; [pos|].
  eapply law_expect_eq; [apply glaw_m4|]. field. lra.
Qed.
Lemma glaw_mode : law_mode law 0.
Proof.
  intros k. unfold geometric_law. apply Rmult_le_compat_l; [lra|]. rewrite pow_O. apply Rle_trans with (1 ^ k); [apply pow_incr; lra|rewrite pow1; lra].
Qed.
Lemma glaw_cdf k : law_cdf law k = 1 - q ^ (S k).
Proof.
  unfold law_cdf, geometric_law. induction k as [|k IH]; [rewrite sum_n_0; cbn; rr|]. rewrite sum_n_S, IH. cbn [pow]. rr.
Qed.
Lemma glaw_entropy b : p < 1 -> 1 < b -> law_entropy b law ((- q * (ln q / ln b) - p * (ln p / ln b)) / p).
Proof.
  intros H1 Hb. assert (0 < ln b) by now apply ln_pos. assert (0 < q) by lra.
  unfold law_entropy. generalize (is_series_lin _ _ (- (ln p / ln b)) (- (ln q / ln b)) _ _ glaw_total glaw_mean).
  replace (- (ln p / ln b) * 1 + - (ln q / ln b) * r) with ((- q * (ln q / ln b) - p * (ln p / ln b)) / p) by (field; lra).
  apply is_series_ext'. intros k. unfold geometric_law. rewrite ln_mult, ln_pow by (try apply pow_lt; lra). field. lra.
Qed.
End Geom.

Section Pois.
Context (l : R) (Hl : 0 < l).
Notation law := (poisson_law l).
Lemma fact_pos k : 0 < INR (fact k). Proof. apply INR_fact_lt_0. Qed.
Lemma plaw_pos k : 0 < law k.
Proof. unfold poisson_law. assert (0 < l ^ k) by now apply pow_lt. assert (F := fact_pos k). pos. Qed.
Lemma plaw_S k : INR (S k) * law (S k) = l * law k.
Proof.
  unfold poisson_law. rewrite fact_simpl, mult_INR. assert (F := fact_pos k). assert (0 < INR (S k)) by (apply lt_0_INR; lia). cbn [pow]. field. lra.
Qed.
Lemma plaw_total : law_expect law (fun _ => 1) 1.
Proof.
  unfold law_expect. generalize (is_exp_Reals l). unfold is_pseries. intros H.
  assert (H2 : is_series (fun k => exp (- l) * (l ^ k * / INR (fact k))) (exp (- l) * exp l)).
  { apply (is_series_scal_l (K := R_AbsRing) (exp (- l)) (fun k => l ^ k * / INR (fact k)) (exp l)).
    apply is_series_ext' with (2 := H). intros k. rewrite pow_n_pow. reflexivity. }
  replace (exp (- l) * exp l) with 1 in H2 by (rewrite <- exp_plus; replace (- l + l) with 0 by ring; now rewrite exp_0).
  apply is_series_ext' with (2 := H2). intros k. unfold poisson_law. field. generalize (fact_pos k); lra.
Qed.
Lemma plaw_is_law : is_law law.
Proof. split; [intros; left; apply plaw_pos|]. apply is_series_ext' with (2 := plaw_total). intros; ring. Qed.
(** E[k g(k)] = l E[g(k+1)] *)
Lemma plaw_shift g m : law_expect law (fun k => g (S k)) m -> law_expect law (fun k => INR k * g k) (l * m).
Proof.
  intros H. unfold law_expect in *. apply is_series_decr_1. 
  apply is_series_ext' with (a := fun k => l * (g (S k) * law k)).
  - intros k. transitivity (g (S k) * (INR (S k) * law (S k))); [rewrite plaw_S; ring|]. ring.
  - match goal with |- is_series _ ?v => replace v with (l * m) by (change (l * m = l * m + - (0 * g 0%nat * law 0%nat)); ring) end.
    apply (is_series_scal_l (K := R_AbsRing) l _ _ H).
Qed.
Lemma plaw_step g m1 m2 c : law_expect law (fun k => g (INR k + 1)) m1 -> law_expect law (fun k => g (INR k)) m2 ->
  law_expect law (fun k => (INR k - c) * g (INR k)) (l * m1 - c * m2).
Proof.
  intros H1 H2.
  assert (A := plaw_shift (fun k => g (INR k)) m1). cbv beta in A. specialize (A ltac:(apply law_expect_ext with (2 := H1); intros; now rewrite S_INR)).
  generalize (is_series_lin _ _ 1 (- c) _ _ A H2). intros B.
  eapply law_expect_eq; [apply is_series_ext' with (2 := B)|]; intros; cbv beta; ring.
Qed.
Lemma plaw_m1 c : law_expect law (fun k => INR k - c) (l - c).
Proof.
  generalize (plaw_step (fun _ => 1) 1 1 c plaw_total plaw_total). intros H.
  eapply law_expect_eq; [apply law_expect_ext with (2 := H)|]; intros; ring.
Qed.
Lemma plaw_m2 c : law_expect law (fun k => (INR k - c) ^ 2) (l + (l - c) ^ 2).
Proof.
  generalize (plaw_step (fun x => x - c) (l - (c - 1)) (l - c) c). intros H.
  eapply law_expect_eq; [apply law_expect_ext with (2 := H ltac:(apply law_expect_ext with (2 := plaw_m1 (c - 1)); intros; ring) ltac:(apply plaw_m1))|]; intros; ring.
Qed.
Lemma plaw_m3 c : law_expect law (fun k => (INR k - c) ^ 3) (l + 3 * l * (l - c) + (l - c) ^ 3).
Proof.
  generalize (plaw_step (fun x => (x - c) ^ 2) (l + (l - (c - 1)) ^ 2) (l + (l - c) ^ 2) c). intros H.
  eapply law_expect_eq; [apply law_expect_ext with (2 := H ltac:(apply law_expect_ext with (2 := plaw_m2 (c - 1)); intros; ring) ltac:(apply plaw_m2))|]; intros; ring.
Qed.
Lemma plaw_m4 c : law_expect law (fun k => (INR k - c) ^ 4) (l + 3 * l ^ 2 + 4 * l * (l - c) + 6 * l * (l - c) ^ 2 + (l - c) ^ 4).
Proof.
  generalize (plaw_step (fun x => (x - c) ^ 3) (l + 3 * l * (l - (c - 1)) + (l - (c - 1)) ^ 3) (l + 3 * l * (l - c) + (l - c) ^ 3) c). intros H.
  eapply law_expect_eq; [apply law_expect_ext with (2 := H ltac:(apply law_expect_ext with (2 := plaw_m3 (c - 1)); intros; ring) ltac:(apply plaw_m3))|]; intros; ring.
Qed.
Lemma plaw_mean : law_mean law l.
Proof. eapply law_expect_eq; [apply law_expect_ext with (2 := plaw_m1 0); intros; ring|ring]. Qed.
Lemma plaw_variance : law_variance law l l.
Proof. split; [apply plaw_mean|]. eapply law_expect_eq; [apply law_expect_ext with (2 := plaw_m2 l); intros; ring|ring]. Qed.
Lemma plaw_skewness : law_skewness law (/ sqrt l).
Proof.
  exists l, l. split; [apply plaw_variance|]. split; [auto|]. eapply law_expect_eq; [apply plaw_m3|].
  assert (0 < sqrt l) by pos. field. lra.
Qed.
Lemma plaw_kurtosis : law_kurtosis law (1 / l + 3).
Proof.
  exists l, l. split; [apply plaw_variance|]. split; [auto|]. eapply law_expect_eq; [apply plaw_m4|]. field. lra.
Qed.
Lemma plaw_mode m : INR m <= l <= INR m + 1 -> law_mode law m.
Proof.
  intros H. apply unimodal_mode; intros k Hk; assert (P := plaw_pos k); assert (P' := plaw_pos (S k)); assert (E := plaw_S k); assert (K : 0 < INR (S k)) by (apply lt_0_INR; lia).
  - assert (INR (S k) <= INR m) by (apply le_INR; lia). apply Rmult_le_reg_l with (INR (S k)); [auto|]. rewrite E. apply Rmult_le_compat_r; lra.
  - assert (INR m <= INR k) by (apply le_INR; lia). rewrite S_INR in *. apply Rmult_le_reg_l with (INR k + 1); [auto|]. rewrite E. apply Rmult_le_compat_r; lra.
Qed.
End Pois.
Lemma plaw_conv l m k : law_conv (poisson_law l) (poisson_law m) k = poisson_law (l + m) k.
Proof.
  unfold law_conv, poisson_law. rewrite binomial, sum_n_Reals.
  unfold Rdiv at 3. rewrite Rmult_assoc, (Rmult_comm (sum_f_R0 _ _)), scal_sum. apply sum_eq. intros i Hi. unfold Binomial.C.
  replace (- (l + m)) with (- l + - m) by ring. rewrite exp_plus. assert (A := fact_pos k). assert (B := fact_pos i). assert (C := fact_pos (k - i)). field. lra.
Qed.
