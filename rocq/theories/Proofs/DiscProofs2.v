(** * Finite and infinite sums; the binomial law *)
From Coq Require Import Reals Lra Lia Psatz ZArith List.
From Coquelicot Require Import Coquelicot.
From Verif.Num Require Import XReal.
From Verif.Spec Require Import UtilsSpec DiscreteSpec.
From Verif.Proofs Require Import UtilsProofs XTac DiscProofs1.
Open Scope R_scope.
Ltac rr := match goal with |- @eq _ ?a ?b => change (@eq R a b) end; ring.

Lemma sum_n_S (a : nat -> R) n : sum_n a (S n) = sum_n a n + a (S n).
Proof. rewrite sum_Sn. reflexivity. Qed.
Lemma sum_n_0 (a : nat -> R) : sum_n a 0 = a 0%nat.
Proof. apply sum_O. Qed.
Lemma sum_n_shift (a : nat -> R) n : sum_n a (S n) = a 0%nat + sum_n (fun i => a (S i)) n.
Proof. induction n as [|n IH]; [rewrite sum_n_S, !sum_n_0; rr|]. rewrite sum_n_S, IH, sum_n_S. rr. Qed.
Lemma sum_n_ext' (a b : nat -> R) n : (forall i, (i <= n)%nat -> a i = b i) -> sum_n a n = sum_n b n.
Proof. intros H. apply sum_n_ext_loc. exact H. Qed.
Lemma sum_n_lin (a b : nat -> R) x y n : sum_n (fun i => x * a i + y * b i) n = x * sum_n a n + y * sum_n b n.
Proof. induction n as [|n IH]; [rewrite !sum_n_0; rr|]. rewrite !sum_n_S, IH. rr. Qed.
Lemma sum_n_scal (a : nat -> R) x n : sum_n (fun i => x * a i) n = x * sum_n a n.
Proof. induction n as [|n IH]; [rewrite !sum_n_0; rr|]. rewrite !sum_n_S, IH. rr. Qed.
Lemma sum_n_zero n : @sum_n R_AbelianGroup (fun _ => 0) n = 0.
Proof. induction n as [|n IH]; [now rewrite sum_n_0|]. rewrite sum_n_S, IH. rr. Qed.
Lemma sum_n_nonneg (a : nat -> R) n : (forall i, 0 <= a i) -> 0 <= sum_n a n.
Proof. intros H; induction n as [|n IH]; [rewrite sum_n_0; auto|]. rewrite sum_n_S. specialize (H (S n)). lra. Qed.
Lemma zsum_sum_n (f : Z -> R) n : zsum f 0 (S n) = sum_n (fun i => f (Z.of_nat i)) n.
Proof.
  induction n as [|n IH]; [rewrite sum_n_0; cbn; rr|]. rewrite zsum_last, IH, sum_n_S. do 2 f_equal.
Qed.
Lemma sum_n_stable (f : nat -> R) k b : (k <= b)%nat -> (forall i, (k < i)%nat -> f i = 0) -> sum_n f b = sum_n f k.
Proof. intros H H0. induction H as [|b H IH]; [reflexivity|]. rewrite sum_n_S, IH, H0 by lia. rr. Qed.
(** a sequence vanishing above n sums to its n-th partial sum *)
Lemma is_series_finite (a : nat -> R) n : (forall k, (n < k)%nat -> a k = 0) -> is_series a (sum_n a n).
Proof.
  intros H. unfold is_series. apply filterlim_ext_loc with (f := fun _ => sum_n a n).
  - exists n. intros m Hm. induction Hm as [|m Hm IH]; [reflexivity|]. transitivity (sum_n a m); [exact IH|]. symmetry. etransitivity; [apply sum_n_S|]. rewrite H by lia. rr.
  - apply filterlim_const.
Qed.
(** telescoping series *)
Lemma is_series_telescope (u : nat -> R) : is_lim_seq u 0 -> is_series (fun k => u k - u (S k)) (u 0%nat).
Proof.
  intros H. unfold is_series. apply filterlim_ext with (f := fun n => u 0%nat - u (S n)).
  - intros n. symmetry. induction n as [|n IH]; [etransitivity; [apply sum_n_0|rr]|]. etransitivity; [apply sum_n_S|]. etransitivity; [apply (f_equal (fun z => z + _)); exact IH|]. rr.
  - assert (L : is_lim_seq (fun n => u (S n)) 0) by now apply (is_lim_seq_incr_1 u).
    generalize (is_lim_seq_minus' (fun _ => u 0%nat) (fun n => u (S n)) (u 0%nat) 0 (is_lim_seq_const _) L).
    replace (u 0%nat - 0) with (u 0%nat) by ring. exact (fun h => h).
Qed.
Lemma is_series_lin (a b : nat -> R) x y la lb : is_series a la -> is_series b lb -> is_series (fun k => x * a k + y * b k) (x * la + y * lb).
Proof.
  intros Ha Hb. apply (is_series_plus (K := R_AbsRing) (V := R_NormedModule) (fun k => x * a k) (fun k => y * b k)).
  - apply (is_series_scal_l (K := R_AbsRing) x a la Ha).
  - apply (is_series_scal_l (K := R_AbsRing) y b lb Hb).
Qed.
Lemma is_series_ext' (a b : nat -> R) l : (forall k, a k = b k) -> is_series a l -> is_series b l.
Proof. intros; now apply is_series_ext with a. Qed.

(** ** The binomial law *)
Section Binom.
Context (p : R).
Notation law n := (binomial_law n p).
Lemma blaw_gt n k : (n < k)%nat -> law n k = 0.
Proof. intros H. unfold binomial_law. rewrite binom_gt by auto. rr. Qed.
Lemma blaw_0 n : law n 0 = (1 - p) ^ n.
Proof. unfold binomial_law. rewrite binom_0, Nat.sub_0_r. cbn. rr. Qed.
Lemma blaw_S n k : law (S n) (S k) = (1 - p) * law n (S k) + p * law n k.
Proof.
  unfold binomial_law. cbn [binom]. rewrite plus_IZR.
  destruct (le_lt_dec (S k) n) as [H|H].
  - replace (n - k)%nat with (S (n - S k)) by lia. replace (S n - S k)%nat with (S (n - S k)) by lia. cbn [pow]. rr.
  - rewrite (binom_gt n (S k)) by lia. replace (S n - S k)%nat with (n - k)%nat by lia. cbn [pow]. rr.
Qed.
Lemma blaw_nonneg n k : 0 <= p <= 1 -> 0 <= law n k.
Proof.
  intros H. unfold binomial_law. apply Rmult_le_pos; [apply IZR_le, binom_nonneg|]. apply Rmult_le_pos; apply pow_le; lra.
Qed.
(** expectation under the law *)
Definition BE (n : nat) (g : nat -> R) : R := sum_n (fun k => g k * law n k) n.
Lemma BE_S n g : BE (S n) g = (1 - p) * BE n g + p * BE n (fun k => g (S k)).
Proof.
  unfold BE. rewrite sum_n_shift. rewrite (sum_n_ext' _ (fun i => (1 - p) * (g (S i) * law n (S i)) + p * (g (S i) * law n i))).
  2:{ intros i _. rewrite blaw_S. rr. }
  rewrite sum_n_lin. rewrite blaw_0. cbn [pow].
  assert (H : sum_n (fun i => g (S i) * law n (S i)) n + g 0%nat * (1 - p) ^ n = sum_n (fun k => g k * law n k) n).
  { generalize (sum_n_shift (fun k => g k * law n k) n). rewrite sum_n_S, (blaw_gt n (S n)) by lia. rewrite blaw_0. lra. }
  rewrite <- H. rr.
Qed.
Lemma BE_ext n f g : (forall k, f k = g k) -> BE n f = BE n g.
Proof. intros H. apply sum_n_ext'. intros. now rewrite H. Qed.
Lemma BE_0 g : BE 0 g = g 0%nat.
Proof. unfold BE. rewrite sum_n_0, blaw_0. cbn. rr. Qed.
Lemma BE_total n : BE n (fun _ => 1) = 1.
Proof. induction n as [|n IH]; [apply BE_0|]. rewrite BE_S, IH. rr. Qed.
Notation q := (1 - p).
Lemma BE_m1 n : forall c, BE n (fun k => INR k - c) = INR n * p - c.
Proof.
  induction n as [|n IH]; intros c; [rewrite BE_0; cbn; rr|]. rewrite BE_S, IH.
  rewrite (BE_ext n (fun k => INR (S k) - c) (fun k => INR k - (c - 1))) by (intros; rewrite S_INR; rr). rewrite IH, S_INR. rr.
Qed.
Lemma BE_m2 n : forall c, BE n (fun k => (INR k - c) ^ 2) = INR n * p * q + (INR n * p - c) ^ 2.
Proof.
  induction n as [|n IH]; intros c; [rewrite BE_0; cbn; rr|]. rewrite BE_S, IH.
  rewrite (BE_ext n (fun k => (INR (S k) - c) ^ 2) (fun k => (INR k - (c - 1)) ^ 2)) by (intros; rewrite S_INR; rr). rewrite IH, S_INR. rr.
Qed.
Lemma BE_m3 n : forall c, BE n (fun k => (INR k - c) ^ 3) =
  INR n * p * q * (1 - 2 * p) + 3 * (INR n * p * q) * (INR n * p - c) + (INR n * p - c) ^ 3.
Proof.
  induction n as [|n IH]; intros c; [rewrite BE_0; cbn; rr|]. rewrite BE_S, IH.
  rewrite (BE_ext n (fun k => (INR (S k) - c) ^ 3) (fun k => (INR k - (c - 1)) ^ 3)) by (intros; rewrite S_INR; rr). rewrite IH, S_INR. rr.
Qed.
Lemma BE_m4 n : forall c, BE n (fun k => (INR k - c) ^ 4) =
  INR n * p * q * (1 - 6 * p * q) + 3 * (INR n * p * q) ^ 2 + 4 * (INR n * p * q * (1 - 2 * p)) * (INR n * p - c)
  + 6 * (INR n * p * q) * (INR n * p - c) ^ 2 + (INR n * p - c) ^ 4.
Proof.
  induction n as [|n IH]; intros c; [rewrite BE_0; cbn; rr|]. rewrite BE_S, IH.
  rewrite (BE_ext n (fun k => (INR (S k) - c) ^ 4) (fun k => (INR k - (c - 1)) ^ 4)) by (intros; rewrite S_INR; rr). rewrite IH, S_INR. rr.
Qed.
Lemma blaw_series n g : law_expect (law n) g (BE n g).
Proof. apply is_series_finite. intros k Hk. rewrite blaw_gt by auto. rr. Qed.
Lemma blaw_is_law n : 0 <= p <= 1 -> is_law (law n).
Proof.
  intros H. split; [intros; now apply blaw_nonneg|]. rewrite <- (BE_total n).
  apply is_series_ext' with (2 := blaw_series n (fun _ => 1)). intros; rr.
Qed.
Lemma law_expect_eq l g m m' : law_expect l g m -> m = m' -> law_expect l g m'.
Proof. now intros H <-. Qed.
Lemma law_expect_ext l f g m : (forall k, f k = g k) -> law_expect l f m -> law_expect l g m.
Proof. intros H. apply is_series_ext'. intros; now rewrite H. Qed.
Lemma blaw_mean n : law_mean (law n) (p * INR n).
Proof.
  eapply law_expect_eq. { apply law_expect_ext with (2 := blaw_series n (fun k => INR k - 0)). intros; rr. }
  rewrite BE_m1. rr.
Qed.
Lemma blaw_variance n : law_variance (law n) (p * INR n) (p * q * INR n).
Proof.
  split; [apply blaw_mean|]. eapply law_expect_eq. { apply law_expect_ext with (2 := blaw_series n (fun k => (INR k - p * INR n) ^ 2)). intros; rr. }
  rewrite BE_m2. rr.
Qed.
Lemma blaw_skewness n : 0 < p < 1 -> (0 < n)%nat -> law_skewness (law n) ((1 - p * 2) / sqrt (p * q * INR n)).
Proof.
  intros Hp Hn. assert (Hn' : 0 < INR n) by now apply lt_0_INR. assert (V : 0 < p * q * INR n) by pos.
  exists (p * INR n), (p * q * INR n). split; [apply blaw_variance|]. split; [exact V|].
  eapply law_expect_eq; [apply blaw_series|]. rewrite BE_m3.
  replace ((1 - p * 2) / sqrt (p * q * INR n) * (p * q * INR n * sqrt (p * q * INR n))) with ((1 - p * 2) * (p * q * INR n)).
  - rr.
  - field. apply Rgt_not_eq. now apply sqrt_lt_R0.
Qed.
Lemma blaw_kurtosis n : 0 < p < 1 -> (0 < n)%nat -> law_kurtosis (law n) ((1 - 6 * p * q) / (INR n * p * q) + 3).
Proof.
  intros Hp Hn. assert (Hn' : 0 < INR n) by now apply lt_0_INR. assert (V : 0 < p * q * INR n) by pos.
  exists (p * INR n), (p * q * INR n). split; [apply blaw_variance|]. split; [exact V|].
  eapply law_expect_eq; [apply blaw_series|]. rewrite BE_m4. field. repeat split; lra.
Qed.
(** Vandermonde: the sum of independent binomials *)
Lemma blaw_conv n : forall m k, law_conv (law n) (law m) k = law (n + m) k.
Proof.
  assert (E : forall n m k, law_conv (law n) (law m) k = BE n (fun i => if le_dec i k then law m (k - i)%nat else 0)).
  { intros a m k. unfold law_conv, BE. destruct (le_lt_dec k a) as [H|H].
    - transitivity (sum_n (fun i => (if le_dec i k then law m (k - i)%nat else 0) * law a i) k).
      + apply sum_n_ext'. intros i Hi. destruct (le_dec i k); [rr|lia].
      + symmetry. apply sum_n_stable; [auto|]. intros i Hi. destruct (le_dec i k); [lia|rr].
    - transitivity (sum_n (fun i => (if le_dec i k then law m (k - i)%nat else 0) * law a i) k).
      + apply sum_n_ext'. intros i Hi. destruct (le_dec i k); [rr|lia].
      + apply sum_n_stable; [lia|]. intros i Hi. rewrite (blaw_gt a i) by lia. rr. }
  induction n as [|n IH]; intros m k; rewrite E.
  - rewrite BE_0. destruct (le_dec 0 k); [|lia]. now rewrite Nat.sub_0_r.
  - rewrite BE_S. rewrite <- E, IH. destruct k as [|k].
    + cbn [Nat.add]. rewrite !blaw_0. cbn [pow]. replace (BE n _) with 0; [rr|]. symmetry. unfold BE.
      etransitivity; [|apply (sum_n_zero n)]. apply sum_n_ext'. intros i _. destruct (le_dec (S i) 0); [lia|cbv beta; rr].
    + cbn [Nat.add]. rewrite blaw_S. rewrite <- (IH m k), E. do 2 f_equal. apply BE_ext. intros i.
      destruct (le_dec (S i) (S k)), (le_dec i k); try lia; [|reflexivity]. f_equal.
Qed.
Lemma bernoulli_law_1 k : bernoulli_law p k = law 1 k.
Proof.
  destruct k as [|[|k]]; [rewrite blaw_0; cbn; rr| |rewrite blaw_gt by lia; reflexivity].
  unfold binomial_law, bernoulli_law. cbn. rr.
Qed.
(** successive terms: (k+1) q P(k+1) = (n-k) p P(k) *)
Lemma blaw_ratio n k : (k < n)%nat -> INR (S k) * q * law n (S k) = (INR n - INR k) * p * law n k.
Proof.
  intros H. unfold binomial_law. assert (B := binom_step n k H). apply (f_equal IZR) in B. rewrite !mult_IZR, minus_IZR, plus_IZR, <- !INR_IZR_INZ in B.
  rewrite S_INR. replace (n - k)%nat with (S (n - S k)) by lia. cbn [pow].
  transitivity (IZR (binom n (S k)) * (INR k + 1) * (p * p ^ k * (q * q ^ (n - S k)))); [rr|]. rewrite <- B. rr.
Qed.
Lemma pow_gt0 x k : 0 < x -> 0 < x ^ k. Proof. apply pow_lt. Qed.
Lemma blaw_pos n k : 0 < p < 1 -> (k <= n)%nat -> 0 < law n k.
Proof.
  intros H Hk. unfold binomial_law. apply Rmult_lt_0_compat; [apply (IZR_lt 0); generalize (binom_pos n k Hk); lia|].
  apply Rmult_lt_0_compat; apply pow_lt; lra.
Qed.
Lemma blaw_up n k : 0 < p < 1 -> (k < n)%nat -> INR (S k) <= (INR n + 1) * p -> law n k <= law n (S k).
Proof.
  intros Hp Hk H. assert (R := blaw_ratio n k Hk). assert (A := blaw_pos n k Hp ltac:(lia)). assert (B := blaw_pos n (S k) Hp Hk).
  assert (C : INR (S k) * q <= (INR n - INR k) * p) by (rewrite S_INR in *; lra).
  assert (D : 0 < INR (S k) * q) by (apply Rmult_lt_0_compat; [apply lt_0_INR; lia|lra]).
  apply Rmult_le_reg_l with (INR (S k) * q); [exact D|]. rewrite R. apply Rmult_le_compat_r; lra.
Qed.
Lemma blaw_down n k : 0 < p < 1 -> (k < n)%nat -> (INR n + 1) * p <= INR (S k) -> law n (S k) <= law n k.
Proof.
  intros Hp Hk H. assert (R := blaw_ratio n k Hk). assert (A := blaw_pos n k Hp ltac:(lia)). assert (B := blaw_pos n (S k) Hp Hk).
  assert (C : (INR n - INR k) * p <= INR (S k) * q) by (rewrite S_INR in *; lra).
  assert (D : 0 < INR (S k) * q) by (apply Rmult_lt_0_compat; [apply lt_0_INR; lia|lra]).
  apply Rmult_le_reg_l with (INR (S k) * q); [exact D|]. rewrite R. apply Rmult_le_compat_r; lra.
Qed.
Lemma blaw_strict n k : 0 < p < 1 -> (k < n)%nat -> INR (S k) < (INR n + 1) * p -> law n k < law n (S k).
Proof.
  intros Hp Hk H. assert (R := blaw_ratio n k Hk). assert (A := blaw_pos n k Hp ltac:(lia)). assert (B := blaw_pos n (S k) Hp Hk).
  assert (C : INR (S k) * q < (INR n - INR k) * p) by (rewrite S_INR in *; lra).
  assert (D : 0 < INR (S k) * q) by (apply Rmult_lt_0_compat; [apply lt_0_INR; lia|lra]).
  apply Rmult_lt_reg_l with (INR (S k) * q); [exact D|]. rewrite R. apply Rmult_lt_compat_r; lra.
Qed.
(** a law that increases up to m and decreases from m has its mode at m *)
Lemma unimodal_mode (l : nat -> R) m : (forall k, (k < m)%nat -> l k <= l (S k)) -> (forall k, (m <= k)%nat -> l (S k) <= l k) -> law_mode l m.
Proof.
  intros U D k. destruct (le_lt_dec k m) as [H|H].
  - assert (A : forall j i, (i <= j <= m)%nat -> l i <= l j).
    { induction j as [|j IH]; intros i Hi; [replace i with 0%nat by lia; lra|]. destruct (Nat.eq_dec i (S j)) as [->|]; [lra|].
      apply Rle_trans with (l j); [apply IH; lia|apply U; lia]. }
    apply A; lia.
  - assert (A : forall j, l (m + j)%nat <= l m).
    { induction j as [|j IH]; [rewrite Nat.add_0_r; lra|]. rewrite Nat.add_succ_r. apply Rle_trans with (l (m + j)%nat); [apply D; lia|exact IH]. }
    replace k with (m + (k - m))%nat by lia. apply A.
Qed.
(** m is a most likely value iff m <= (n+1) p <= m + 1 *)
Lemma blaw_mode n m : 0 <= p <= 1 -> (m <= n)%nat -> INR m <= (INR n + 1) * p <= INR m + 1 -> law_mode (law n) m.
Proof.
  intros Hp Hm H. assert (Hn := pos_INR n). assert (Hmn := le_INR m n Hm).
  destruct (Req_dec p 0) as [E|E0].
  - assert (m = 0)%nat. { apply INR_eq. rewrite E, Rmult_0_r in H. generalize (pos_INR m). cbn. lra. } subst m.
    intros k. destruct k as [|k]; [lra|]. assert (Z : law n (S k) = 0) by (unfold binomial_law; rewrite E, pow_ne_zero by lia; rr). rewrite Z. now apply blaw_nonneg.
  - destruct (Req_dec p 1) as [E|E1].
    + assert (m = n)%nat. { apply INR_eq. rewrite E, Rmult_1_r in H. lra. } subst m.
      intros k. destruct (Nat.eq_dec k n) as [->|Hk]; [lra|]. destruct (le_lt_dec k n) as [Hk'|Hk']; [|rewrite blaw_gt by auto; now apply blaw_nonneg].
      assert (Z : law n k = 0) by (unfold binomial_law; rewrite E, Rminus_eq_0, (pow_ne_zero (n - k)) by lia; rr). rewrite Z. now apply blaw_nonneg.
    + assert (Hp' : 0 < p < 1) by lra. apply unimodal_mode; intros k Hk.
      * apply blaw_up; [auto|lia|]. assert (INR (S k) <= INR m) by (apply le_INR; lia). lra.
      * destruct (le_lt_dec n k) as [H2|H2]; [rewrite (blaw_gt n (S k)) by lia; now apply blaw_nonneg|].
        apply blaw_down; auto. rewrite S_INR. apply le_INR in Hk. lra.
Qed.
Lemma blaw_not_mode n m : 0 <= p <= 1 -> (m <= n)%nat -> INR m + 1 < (INR n + 1) * p -> ~ law_mode (law n) m.
Proof.
  intros Hp Hm H M. assert (Hmn := le_INR m n Hm). assert (p <> 0) by (intros ->; generalize (pos_INR m); lra).
  destruct (Nat.eq_dec m n) as [->|Hne]. { assert (0 <= INR n) by apply pos_INR. nra. }
  destruct (Req_dec p 1) as [E|E1].
  - specialize (M n). unfold binomial_law in M. rewrite Nat.sub_diag, binom_diag, E in M. replace (1 - 1) with 0 in M by ring.
    rewrite pow1, (pow_ne_zero (n - m)) in M by lia. cbn in M. lra.
  - assert (A := blaw_strict n m ltac:(lra) ltac:(lia)). rewrite S_INR in A. specialize (A ltac:(lra)). specialize (M (S m)). lra.
Qed.
End Binom.
