(** * The binomial cdf as a regularised incomplete beta function; kurtoses,
      medians and entropies of the discrete laws *)
From Coq Require Import Reals Lra Lia Psatz List ZArith.
From Coquelicot Require Import Coquelicot.
From Flocq Require Import Core.Raux.
From Verif.Num Require Import XReal.
From Verif.Model Require Import Rust Constraints Probability Params Utils Consts LogFact Discrete.
From Verif.Spec Require Import ProbSpec UtilsSpec DiscreteSpec DistSpec ResSpec GammaSpec.
From Verif.Proofs Require Import UtilsProofs ConstraintProofs NewInv XTac Calc Improper GammaFun ContProofs11 DiscProofs2 DiscProofs3 DiscProofs4.
Import ListNotations.
Open Scope R_scope.

Lemma low_antider lo hi (H h : R -> R) la x :
  Rbar_lt lo hi ->
  (forall x, inside lo hi x -> is_derive H x (h x)) ->
  (forall x, inside lo hi x -> continuous h x) ->
  filterlim H (above lo) (locally la) -> inside lo hi x ->
  is_RInt_gen h (above lo) (at_point x) (H x - la).
Proof.
  intros Hlt Hd Hc Hla Hx.
  assert (lo <> p_infty) by (intros ->; destruct hi; cbn in *; contradiction).
  intros P HP.
  assert (L : filterlim (fun a => H x - H a) (above lo) (locally (H x - la))) by (apply fl_minus; [apply fl_const|auto]).
  exists (fun a => inside lo hi a /\ P (H x - H a)) (eq x).
  - apply filter_and; [now apply above_inside|]. now apply L.
  - reflexivity.
  - intros a y [Ia Pa] <-. exists (H x - H a). split; [|auto]. cbn [fst snd]. apply (is_RInt_derive H h).
    + intros z Hz. apply Hd. revert Hz. unfold Rmin, Rmax. destruct (Rle_dec a x); intros.
      * now apply (inside_between lo hi a x). * now apply (inside_between lo hi x a).
    + intros z Hz. apply Hc. revert Hz. unfold Rmin, Rmax. destruct (Rle_dec a x); intros.
      * now apply (inside_between lo hi a x). * now apply (inside_between lo hi x a).
Qed.

(** ** sum_{j<=k} C(n,j) (1-q)^j q^(n-j), as a function of q *)
Definition bcq (n k : nat) (q : R) : R := law_cdf (binomial_law n (1 - q)) k.
Definition bdq (n k : nat) (q : R) : R := INR (n - k) * IZR (binom n k) * (q ^ (n - k - 1) * (1 - q) ^ k).
Lemma binom_absorb n k : (k < n)%nat -> INR (S k) * IZR (binom n (S k)) = INR (n - k) * IZR (binom n k).
Proof.
  intros H. assert (B := binom_step n k H). apply (f_equal IZR) in B. rewrite !mult_IZR, minus_IZR, plus_IZR, <- !INR_IZR_INZ in B.
  rewrite S_INR, minus_INR by lia. lra.
Qed.
Lemma bterm_derive n k q : (k < n)%nat ->
  is_derive (fun q => binomial_law n (1 - q) k) q
    (IZR (binom n k) * (INR (n - k) * q ^ (n - k - 1) * (1 - q) ^ k - INR k * (1 - q) ^ (k - 1) * q ^ (n - k))).
Proof.
  intros H. unfold binomial_law.
  assert (D1 : is_derive (fun q => (1 - q) ^ k) q (- (INR k * (1 - q) ^ (k - 1)))).
  { auto_derive; [auto|]. replace (pred k) with (k - 1)%nat by lia. unfold Rminus. rr. }
  assert (D2 : is_derive (fun q => (1 - (1 - q)) ^ (n - k)) q (INR (n - k) * q ^ (n - k - 1))).
  { auto_derive; [auto|]. replace (pred (n - k)) with (n - k - 1)%nat by lia. replace (1 + - (1 + - q)) with q by lra. rr. }
  assert (D := dR_mult _ _ _ _ _ D1 D2). assert (D' := dR_mult _ _ _ _ _ (dR_c (IZR (binom n k)) q) D).
  eapply is_derive_eq; [exact D'|]. cbv beta. replace (1 - (1 - q)) with q by lra. rr.
Qed.
Lemma bcq_derive n q : forall k, (k < n)%nat -> is_derive (bcq n k) q (bdq n k q).
Proof.
  induction k as [|k IH]; intros H.
  - unfold bcq, law_cdf. apply (is_derive_ext (fun t => binomial_law n (1 - t) 0%nat)); [intros t; symmetry; apply (sum_n_0 (binomial_law n (1 - t)))|].
    eapply is_derive_eq; [apply (bterm_derive n 0 q H)|]. unfold bdq. cbn [INR]. rewrite Nat.sub_0_r. rr.
  - unfold bcq, law_cdf. apply (is_derive_ext (fun t => sum_n (binomial_law n (1 - t)) k + binomial_law n (1 - t) (S k))); [intros t; symmetry; apply (sum_n_S (binomial_law n (1 - t)))|].
    assert (D := bterm_derive n (S k) q H).
    assert (E := is_derive_plus (fun q => sum_n (binomial_law n (1 - q)) k) (fun q => binomial_law n (1 - q) (S k)) q _ _ (IH ltac:(lia)) D).
    eapply is_derive_eq; [exact E|]. unfold bdq. assert (A := binom_absorb n k ltac:(lia)).
    replace (S k - 1)%nat with k by lia. replace (n - k - 1)%nat with (n - S k)%nat by lia.
    change (plus ?a ?b) with (a + b). rewrite <- A. rr.
Qed.
Lemma bcq_0 n k : (k < n)%nat -> bcq n k 0 = 0.
Proof.
  intros H. unfold bcq, law_cdf. transitivity (@sum_n R_AbelianGroup (fun _ => 0) k); [|apply sum_n_zero]. apply sum_n_ext'. intros i Hi. unfold binomial_law.
  replace (1 - (1 - 0)) with 0 by lra. rewrite pow_i by lia. rr.
Qed.
Lemma bcq_1 n k : bcq n k 1 = 1.
Proof.
  unfold bcq, law_cdf. induction k as [|k IH].
  - rewrite sum_n_0. unfold binomial_law. rewrite binom_0. replace (1 - (1 - 1)) with 1 by lra. rewrite pow1. cbn [pow]. rr.
  - rewrite sum_n_S, IH. unfold binomial_law. replace (1 - 1) with 0 by lra. rewrite (pow_i (S k)) by lia. rr.
Qed.
Lemma bdq_beta n k q : (k < n)%nat -> 0 < q < 1 -> beta_h (INR (n - k)) (INR (k + 1)) q = / (INR (n - k) * IZR (binom n k)) * bdq n k q.
Proof.
  intros H Hq. unfold beta_h, bdq.
  replace (INR (n - k) - 1) with (INR (n - k - 1)) by (rewrite (minus_INR (n - k) 1) by lia; cbn [INR]; rr).
  replace (INR (k + 1) - 1) with (INR k) by (rewrite plus_INR; cbn [INR]; rr).
  rewrite !Rpower_pow by lra.
  assert (0 < INR (n - k)) by (apply lt_0_INR; lia). assert (0 < IZR (binom n k)) by (apply (IZR_lt 0); generalize (binom_pos n k ltac:(lia)); lia).
  field. split; lra.
Qed.
Lemma bin_const_pos n k : (k < n)%nat -> 0 < INR (n - k) * IZR (binom n k).
Proof. intros H. apply Rmult_lt_0_compat; [apply lt_0_INR; lia|apply (IZR_lt 0); generalize (binom_pos n k ltac:(lia)); lia]. Qed.
Definition bH n k q := / (INR (n - k) * IZR (binom n k)) * bcq n k q.
Lemma bH_derive n k q : (k < n)%nat -> 0 < q < 1 -> is_derive (bH n k) q (beta_h (INR (n - k)) (INR (k + 1)) q).
Proof.
  intros H Hq. rewrite bdq_beta by auto. unfold bH. apply is_derive_scal. now apply bcq_derive.
Qed.
Lemma bcq_cont n k q : (k < n)%nat -> continuous (bcq n k) q.
Proof. intros H. eapply ex_derive_cont. now apply bcq_derive. Qed.
Lemma bH_cont n k q : (k < n)%nat -> continuous (bH n k) q.
Proof. intros H. apply (continuous_scal_r (V := R_NormedModule)). now apply bcq_cont. Qed.
Lemma beta_h_cont (a b x : R) : 0 < x < 1 -> continuous (beta_h a b) x.
Proof. intros H. eapply ex_derive_cont. unfold beta_h, Rpower. auto_derive; [lra|reflexivity]. Qed.
Lemma bin_lower n k q : (k < n)%nat -> 0 < q < 1 -> is_lower_beta (INR (n - k)) (INR (k + 1)) q (bH n k q).
Proof.
  intros H Hq. replace (bH n k q) with (bH n k q - 0) by lra.
  apply (low_antider 0 1 (bH n k)).
  - cbn. lra.
  - intros x Hx. apply bH_derive; [auto|]. destruct Hx as [A B]; cbn in A, B; lra.
  - intros x Hx. apply beta_h_cont. destruct Hx as [A B]; cbn in A, B; lra.
  - apply (lim_above_cont 0); [now apply bH_cont|]. unfold bH. rewrite bcq_0 by auto. lra.
  - split; cbn; lra.
Qed.
Lemma bin_Beta n k : (k < n)%nat -> is_Beta (INR (n - k)) (INR (k + 1)) (/ (INR (n - k) * IZR (binom n k))).
Proof.
  intros H. replace (/ (INR (n - k) * IZR (binom n k))) with (bH n k 1 - bH n k 0).
  - apply B_out, (is_RInt_gen_antiderivative 0 1 (bH n k)).
    + cbn. lra.
    + intros x Hx. apply bH_derive; [auto|]. destruct Hx as [A B]; cbn in A, B; lra.
    + intros x Hx. apply beta_h_cont. destruct Hx as [A B]; cbn in A, B; lra.
    + apply (lim_above_cont 0); [now apply bH_cont|reflexivity].
    + apply (lim_below_cont 1); [now apply bH_cont|reflexivity].
  - unfold bH. rewrite bcq_0, bcq_1 by auto. rr.
Qed.
Lemma lower_beta_unique a b x v w : is_lower_beta a b x v -> is_lower_beta a b x w -> v = w.
Proof. intros A B. apply (lower_unique 0 (beta_h a b) x); [discriminate|exact A|exact B]. Qed.

Lemma bin_cdf {SP : Special xreal} n p k : betainc_exact SP -> 0 < p < 1 -> (k < n)%nat -> (Z.of_nat n <= U64_MAX)%Z ->
  Binomial.cdf (bin n p) (Z.of_nat k) = Ret (Prob (Fin (law_cdf (binomial_law n p) k))).
Proof.
  intros HS Hp Hk Hn. unfold Binomial.cdf, bin, Binomial.new_unchecked, usize. cbn [Binomial.pr Binomial.n Binomial.q].
  rewrite u64_ok by lia. rewrite u64_ok by lia. cbn [rbind]. unfold p_not, p_new_unchecked. cbn [Probability.unwrap]. rewrite !x_lit, x_sub.
  replace (Z.of_nat n - Z.of_nat k)%Z with (Z.of_nat (n - k)) by lia. replace (Z.of_nat k + 1)%Z with (Z.of_nat (k + 1)) by lia.
  rewrite <- !INR_IZR_INZ.
  assert (0 < INR (n - k)) by (apply lt_0_INR; lia). assert (0 < INR (k + 1)) by (apply lt_0_INR; lia).
  destruct (HS (1 - p) (INR (n - k)) (INR (k + 1))) as (v & w & A & B & E); [lra|auto|auto|].
  rewrite E. do 3 f_equal. rewrite (lower_beta_unique _ _ _ _ _ A (bin_lower n k (1 - p) Hk ltac:(lra))).
  rewrite (Beta_unique _ _ _ _ B (bin_Beta n k Hk)). unfold bH, bcq. replace (1 - (1 - p)) with p by lra.
  assert (C := bin_const_pos n k Hk). revert C. generalize (INR (n - k) * IZR (binom n k)). intros c Hc. field. lra.
Qed.
Lemma bin_cdf_gt {SP : Special xreal} n p k : (n < k)%nat -> Binomial.cdf (bin n p) (Z.of_nat k) = Panic.
Proof.
  intros Hk. unfold Binomial.cdf, bin, Binomial.new_unchecked, usize, u64, checked. cbn [Binomial.pr Binomial.n].
  destruct (Z.leb_spec 0 (Z.of_nat n - Z.of_nat k)); [lia|]. reflexivity.
Qed.
