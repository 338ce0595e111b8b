(** * Medians of the Poisson and binomial laws: reflection arguments *)
From Coq Require Import Reals Lra Lia Psatz List ZArith.
From Coquelicot Require Import Coquelicot.
From Flocq Require Import Core.Raux.
From Verif.Num Require Import XReal.
From Verif.Model Require Import Rust Constraints Probability Params Utils Consts LogFact Discrete.
From Verif.Spec Require Import ProbSpec UtilsSpec DiscreteSpec DistSpec.
From Verif.Proofs Require Import UtilsProofs XTac DiscProofs2 DiscProofs3 DiscProofs4 DiscProofs7.
Open Scope R_scope.

Lemma dec_of (f f' : R -> R) (a b : R) : a <= b -> (forall c, a <= c <= b -> is_derive f c (f' c)) -> (forall c, a < c < b -> f' c <= 0) -> f b <= f a.
Proof.
  intros L D N. destruct L as [L|<-]; [|lra]. destruct (MVT_cor2 f f' a b L) as (c & E & Hc); [intros c Hc; apply is_derive_Reals; now apply D|].
  assert (K := N c Hc). assert (f' c * (b - a) <= 0); [|lra]. assert (0 <= - f' c * (b - a)) by (apply Rmult_le_pos; lra). lra.
Qed.
Lemma inc_of (f f' : R -> R) (a b : R) : a <= b -> (forall c, a <= c <= b -> is_derive f c (f' c)) -> (forall c, a < c < b -> 0 <= f' c) -> f a <= f b.
Proof.
  intros L D N. destruct L as [L|<-]; [|lra]. destruct (MVT_cor2 f f' a b L) as (c & E & Hc); [intros c Hc; apply is_derive_Reals; now apply D|].
  assert (K := N c Hc). assert (0 <= f' c * (b - a)) by (apply Rmult_le_pos; lra). lra.
Qed.

(** ** Poisson *)
Definition PG (n : nat) (l : R) : R := sum_n (poisson_law l) n.
Lemma fact_pos' n : 0 < INR (fact n). Proof. apply INR_fact_lt_0. Qed.
Lemma PG_derive n (l : R) : is_derive (PG n) l (- poisson_law l n).
Proof.
  induction n as [|n IH].
  - apply (is_derive_ext (fun l => exp (- l))); [intros t; unfold PG; rewrite sum_n_0; unfold poisson_law; simpl; lra|].
    auto_derive; [trivial|]. unfold poisson_law. simpl. lra.
  - apply (is_derive_ext (fun t => PG n t + t ^ S n * exp (- t) / INR (fact (S n)))); [intros t; unfold PG; rewrite sum_n_S; reflexivity|].
    assert (D : is_derive (fun t => t ^ S n * exp (- t) / INR (fact (S n))) l (poisson_law l n - poisson_law l (S n))).
    { auto_derive; [trivial|]. unfold poisson_law. rewrite fact_simpl, mult_INR. assert (F := fact_pos' n). assert (N : 0 < INR (S n)) by (apply lt_0_INR; lia). change (pred (S n)) with n. rewrite <- ?tech_pow_Rmult. replace (INR (fact n + n * fact n)) with (INR (S n) * INR (fact n)) by (rewrite plus_INR, mult_INR, S_INR; ring). change (match n with 0%nat => 1 | S _ => INR n + 1 end) with (INR (S n)). generalize dependent (INR (S n)). generalize dependent (INR (fact n)). generalize (l ^ n) (exp (- l)). intros X Y Z HZ W HW. match goal with |- @eq _ ?a ?b => change (@eq R a b) end. field. lra. }
    assert (E := is_derive_plus _ _ _ _ _ IH D). revert E. change (plus ?a ?b) with (a + b). intros E.
    replace (- poisson_law l (S n)) with (- poisson_law l n + (poisson_law l n - poisson_law l (S n))) by ring. exact E.
Qed.
Lemma pl_nonneg l n : 0 <= l -> 0 <= poisson_law l n.
Proof. intros H. unfold poisson_law. apply Rmult_le_pos; [apply Rmult_le_pos; [now apply pow_le|left; apply exp_pos]|left; apply Rinv_0_lt_compat, fact_pos']. Qed.
Lemma PG_nonneg n l : 0 <= l -> 0 <= PG n l.
Proof. intros H. unfold PG. induction n as [|n IH]; [rewrite sum_n_0; now apply pl_nonneg|]. rewrite sum_n_S. assert (K := pl_nonneg l (S n) H). lra. Qed.
Lemma PG_dec n a b : 0 <= a -> a <= b -> PG n b <= PG n a.
Proof. intros H L. apply (dec_of (PG n) (fun l => - poisson_law l n)); [exact L|intros; apply PG_derive|]. intros c Hc. assert (K := pl_nonneg c n ltac:(lra)). lra. Qed.
Lemma PG_0 n : PG n 0 = 1.
Proof.
  unfold PG. induction n as [|n IH]; [rewrite sum_n_0|rewrite sum_n_S, IH]; unfold poisson_law; rewrite Ropp_0, exp_0; simpl; [field|]. unfold Rdiv. rewrite !Rmult_0_l. ring.
Qed.
Lemma pl_step l n : poisson_law l (S n) = poisson_law l n * l / INR (S n).
Proof. unfold poisson_law. rewrite fact_simpl, mult_INR. assert (F := fact_pos' n). assert (N : 0 < INR (S n)) by (apply lt_0_INR; lia). simpl pow. field. lra. Qed.
Lemma pl_bound l n : 0 < l -> poisson_law l n <= INR (S n) / l.
Proof.
  intros H. assert (K := law_le_1 _ (S n) (plaw_is_law l H)). rewrite pl_step in K. assert (N : 0 < INR (S n)) by (apply lt_0_INR; lia).
  apply Rmult_le_reg_r with (l / INR (S n)); [now apply Rdiv_lt_0_compat|]. replace (INR (S n) / l * (l / INR (S n))) with 1 by (field; lra). unfold Rdiv in *. lra.
Qed.
Lemma PG_bound n : exists C, 0 < C /\ forall l, 0 < l -> PG n l <= C / l.
Proof.
  induction n as [|n [C [PC H]]].
  - exists 1. split; [lra|]. intros l Hl. unfold PG. rewrite sum_n_0. assert (K := pl_bound l 0 Hl). simpl in K. exact K.
  - exists (C + INR (S (S n))). assert (N : 0 < INR (S (S n))) by (apply lt_0_INR; lia). split; [lra|]. intros l Hl. unfold PG. rewrite sum_n_S. assert (A := H l Hl). assert (B := pl_bound l (S n) Hl). unfold PG in A. unfold Rdiv in *. rewrite Rmult_plus_distr_r. lra.
Qed.

(** the median of n+1 waiting times is at least n + 2/3: reflect the cube roots *)
Lemma refl_cube (y s : R) (n : nat) : y ^ 3 = INR n + 2 / 3 -> 0 < y -> 0 <= s < y -> (3 * INR n + 2) * ln (y - s) - (y - s) ^ 3 <= (3 * INR n + 2) * ln (y + s) - (y + s) ^ 3.
Proof.
  intros E Py Hs. set (N := 3 * INR n + 2) in *. assert (EN : N = 3 * y ^ 3) by (unfold N; rewrite E; lra). clearbody N.
  set (hh := (fun s => N * (ln (y + s) - ln (y - s)) - ((y + s) ^ 3 - (y - s) ^ 3)) : R -> R). assert (K : hh 0 <= hh s).
  { apply (inc_of hh (fun s => 6 * s ^ 4 / ((y + s) * (y - s)))); [lra| |].
    - intros c Hc. unfold hh. auto_derive; [repeat split; lra|]. rewrite EN. field. lra.
    - intros c Hc. apply Rmult_le_pos; [assert (0 <= c ^ 4) by (apply pow_le; lra); lra|]. left. apply Rinv_0_lt_compat, Rmult_lt_0_compat; lra. }
  unfold hh in K. rewrite Rplus_0_r, Rminus_0_r in K. replace (N * (ln y - ln y) - (y ^ 3 - y ^ 3)) with 0 in K by ring. lra.
Qed.
Lemma pl_cube (t : R) (n : nat) : 0 < t -> poisson_law (t ^ 3) n * (3 * t ^ 2) = 3 / INR (fact n) * exp ((3 * INR n + 2) * ln t - t ^ 3).
Proof.
  intros Ht. unfold poisson_law. assert (F := fact_pos' n). assert (P : exp ((3 * INR n + 2) * ln t - t ^ 3) = (t ^ 3) ^ n * t ^ 2 * exp (- t ^ 3)).
  { unfold Rminus. rewrite exp_plus. f_equal. rewrite <- pow_mult, <- pow_add. rewrite <- Rpower_pow by exact Ht. unfold Rpower. f_equal. rewrite plus_INR, mult_INR. simpl. ring. }
  rewrite P. field. lra.
Qed.
Lemma PG_low n l : 0 <= l -> l <= INR n + 2 / 3 -> 1 / 2 <= PG n l.
Proof.
  intros H0 H. assert (Pn := pos_INR n). set (y := Rpower (INR n + 2 / 3) (/ 3)). assert (Py : 0 < y) by apply exp_pos.
  assert (E : y ^ 3 = INR n + 2 / 3). { rewrite <- Rpower_pow by exact Py. unfold y. rewrite Rpower_mult. replace (/ 3 * INR 3) with 1 by (simpl; lra). apply Rpower_1. lra. }
  clearbody y. apply Rle_trans with (PG n (INR n + 2 / 3)); [|now apply PG_dec]. rewrite <- E.
  set (hh := (fun s => PG n ((y + s) ^ 3) + PG n ((y - s) ^ 3)) : R -> R). assert (K : hh y <= hh 0).
  { apply (dec_of hh (fun s => - poisson_law ((y + s) ^ 3) n * (3 * (y + s) ^ 2) + poisson_law ((y - s) ^ 3) n * (3 * (y - s) ^ 2))); [lra| |].
    - intros c Hc. assert (A : is_derive (fun s => PG n ((y + s) ^ 3)) c (3 * (y + c) ^ 2 * - poisson_law ((y + c) ^ 3) n)). { apply (is_derive_comp (PG n) (fun s => (y + s) ^ 3)); [apply PG_derive|]. auto_derive; [trivial|ring]. }
      assert (B : is_derive (fun s => PG n ((y - s) ^ 3)) c (- (3 * (y - c) ^ 2) * - poisson_law ((y - c) ^ 3) n)). { apply (is_derive_comp (PG n) (fun s => (y - s) ^ 3)); [apply PG_derive|]. auto_derive; [trivial|ring]. }
      assert (D := is_derive_plus _ _ _ _ _ A B). revert D. change (plus ?a ?b) with (a + b). intros D. eapply is_derive_eq; [exact D|]. ring.
    - intros c Hc. assert (Q := refl_cube y c n E Py ltac:(lra)). assert (A := pl_cube (y + c) n ltac:(lra)). assert (B := pl_cube (y - c) n ltac:(lra)). rewrite B. rewrite <- Ropp_mult_distr_l. rewrite A.
      assert (F : 0 < 3 / INR (fact n)) by (apply Rdiv_lt_0_compat; [lra|apply fact_pos']). assert (X := exp_le_mono _ _ Q). assert (Y := Rmult_le_compat_l _ _ _ (Rlt_le _ _ F) X). lra. }
  unfold hh in K. rewrite Rplus_0_r, Rminus_0_r in K. replace ((y - y) ^ 3) with 0 in K by ring. rewrite PG_0 in K. assert (Z := PG_nonneg n ((y + y) ^ 3) ltac:(apply pow_le; lra)). lra.
Qed.

(** the median of n waiting times is at most n: reflect the logarithms *)
Lemma refl_log (s : R) : 0 <= s -> 2 * s <= exp s - exp (- s).
Proof.
  intros H. set (hh := (fun s => exp s - exp (- s) - 2 * s) : R -> R). assert (K : hh 0 <= hh s).
  { apply (inc_of hh (fun s => exp s + exp (- s) - 2)); [exact H| |].
    - intros c _. unfold hh. auto_derive; [trivial|ring].
    - intros c _. assert (A := exp_ineq1_le c). assert (B := exp_ineq1_le (- c)). lra. }
  unfold hh in K. rewrite Ropp_0 in K. lra.
Qed.
Lemma pl_log (l s : R) (m : nat) : 0 < l -> poisson_law (l * exp s) m * (l * exp s) = l ^ S m / INR (fact m) * exp (INR (S m) * s - l * exp s).
Proof.
  intros Hl. unfold poisson_law. assert (F := fact_pos' m). assert (P : exp (INR (S m) * s - l * exp s) = exp s ^ S m * exp (- (l * exp s))).
  { unfold Rminus. rewrite exp_plus. f_equal. rewrite <- Rpower_pow by apply exp_pos. unfold Rpower. rewrite ln_exp. reflexivity. }
  rewrite P. rewrite Rpow_mult_distr. simpl pow. field. lra.
Qed.
Lemma PG_high m l : INR (S m) <= l -> PG m l <= 1 / 2.
Proof.
  intros H. set (a := INR (S m)) in *. assert (Pa : 0 < a) by (apply lt_0_INR; lia). apply Rle_trans with (PG m a); [apply PG_dec; lra|].
  assert (K : forall s, 0 <= s -> PG m a + PG m a <= PG m (a * exp s) + 1).
  { intros s Hs. set (hh := (fun s => PG m (a * exp s) + PG m (a * exp (- s))) : R -> R). assert (K : hh 0 <= hh s).
    { apply (inc_of hh (fun s => - (poisson_law (a * exp s) m * (a * exp s)) + poisson_law (a * exp (- s)) m * (a * exp (- s)))); [exact Hs| |].
      - intros c Hc. assert (A : is_derive (fun s => PG m (a * exp s)) c (a * exp c * - poisson_law (a * exp c) m)). { apply (is_derive_comp (PG m) (fun s => a * exp s)); [apply PG_derive|]. auto_derive; [trivial|ring]. }
        assert (B : is_derive (fun s => PG m (a * exp (- s))) c (- (a * exp (- c)) * - poisson_law (a * exp (- c)) m)). { apply (is_derive_comp (PG m) (fun s => a * exp (- s))); [apply PG_derive|]. auto_derive; [trivial|ring]. }
        assert (D := is_derive_plus _ _ _ _ _ A B). revert D. change (plus ?a ?b) with (a + b). intros D. eapply is_derive_eq; [exact D|]. ring.
      - intros c Hc. rewrite !pl_log by exact Pa. assert (Q := refl_log c ltac:(lra)). assert (F : 0 < a ^ S m / INR (fact m)) by (apply Rdiv_lt_0_compat; [now apply pow_lt|apply fact_pos']). fold a.
        assert (Z : a * c - a * exp c <= a * - c - a * exp (- c)) by nra. assert (X := exp_le_mono _ _ Z). assert (Y := Rmult_le_compat_l _ _ _ (Rlt_le _ _ F) X). lra. }
    unfold hh in K. rewrite Ropp_0, exp_0, Rmult_1_r in K. assert (U : PG m (a * exp (- s)) <= 1). { rewrite <- (PG_0 m). apply PG_dec; [lra|]. apply Rmult_le_pos; [lra|left; apply exp_pos]. } lra. }
  apply Rnot_lt_le. intros N. destruct (PG_bound m) as (C & PC & HC). set (dl := 2 * PG m a - 1). assert (Pd : 0 < dl) by (unfold dl; lra). set (s := 2 * C / (dl * a)).
  assert (Pda : 0 < dl * a) by (now apply Rmult_lt_0_compat). assert (Ps : 0 < s) by (apply Rdiv_lt_0_compat; lra). assert (A := K s ltac:(lra)). assert (Pe := exp_pos s). assert (B := HC (a * exp s) ltac:(apply Rmult_lt_0_compat; lra)). assert (I := exp_ineq1_le s).
  assert (D : C / (a * exp s) <= dl / 2).
  { apply Rmult_le_reg_r with (a * exp s); [now apply Rmult_lt_0_compat|]. replace (C / (a * exp s) * (a * exp s)) with C by (field; lra). replace (dl / 2 * (a * exp s)) with (dl * a / 2 * exp s) by field.
    apply Rle_trans with (dl * a / 2 * s); [unfold s; right; field; lra|]. apply Rmult_le_compat_l; lra. }
  unfold dl in D. unfold dl in Pd. lra.
Qed.
(** n is a median from n to n + 2/3; in general n or n + 1 *)
Lemma poisson_median_main (n : nat) (l : R) : 0 < l -> INR n <= l <= INR n + 2 / 3 -> law_median (poisson_law l) (INR n).
Proof.
  intros Hl H. apply median_at; [now apply plaw_is_law|]. split; [apply PG_low; lra|]. destruct n as [|m]; [unfold lmass; lra|]. apply (PG_high m). lra.
Qed.
Lemma poisson_median_near (n : nat) (l : R) : 0 < l -> INR n <= l <= INR n + 1 -> law_median (poisson_law l) (INR n) \/ law_median (poisson_law l) (INR (S n)).
Proof.
  intros Hl H. assert (L := plaw_is_law l Hl). destruct (Rle_dec (1 / 2) (PG n l)) as [Y|N].
  - left. apply median_at; [exact L|]. split; [exact Y|]. destruct n as [|m]; [unfold lmass; lra|]. apply (PG_high m). lra.
  - right. apply median_at; [exact L|]. split; [apply PG_low; rewrite ?S_INR; lra|]. unfold lmass. change (PG n l <= 1 / 2). lra.
Qed.

(** ** binomial *)
Definition BG (n k : nat) (p : R) : R := sum_n (binomial_law n p) k.
Definition bder (n k : nat) (p : R) : R := (INR n - INR k) * IZR (binom n k) * (p ^ k * (1 - p) ^ (n - k - 1)).
Lemma pow_derive (k : nat) (x : R) : is_derive (fun t : R => t ^ k) x (INR k * x ^ pred k).
Proof. auto_derive; [trivial|]. ring. Qed.
Lemma qpow_derive (k : nat) (x : R) : is_derive (fun t : R => (1 - t) ^ k) x (- INR k * (1 - x) ^ pred k).
Proof. auto_derive; [trivial|]. unfold Rminus. ring. Qed.
Lemma binom_stepR n k : (k < n)%nat -> IZR (binom n (S k)) * INR (S k) = IZR (binom n k) * (INR n - INR k).
Proof. intros H. assert (B := binom_step n k H). rewrite S_INR, !INR_IZR_INZ, <- minus_IZR, <- plus_IZR, <- !mult_IZR. f_equal. lia. Qed.
Lemma BG_derive n k (p : R) : (k < n)%nat -> is_derive (BG n k) p (- bder n k p).
Proof.
  induction k as [|k IH]; intros H.
  - apply (is_derive_ext (fun t => (1 - t) ^ n)); [intros t; unfold BG; rewrite sum_n_0, blaw_0; reflexivity|]. eapply is_derive_eq; [apply qpow_derive|].
    unfold bder. rewrite binom_0. replace (n - 0 - 1)%nat with (pred n) by lia. simpl. ring.
  - apply (is_derive_ext (fun t => BG n k t + IZR (binom n (S k)) * (t ^ S k * (1 - t) ^ (n - S k)))); [intros t; unfold BG; rewrite sum_n_S; reflexivity|].
    assert (D : is_derive (fun t : R => t ^ S k * (1 - t) ^ (n - S k)) p (INR (S k) * p ^ k * (1 - p) ^ (n - S k) + p ^ S k * (- INR (n - S k) * (1 - p) ^ pred (n - S k)))).
    { exact (dR_mult _ _ _ _ _ (pow_derive (S k) p) (qpow_derive (n - S k) p)). }
    assert (D2 : is_derive (fun t : R => IZR (binom n (S k)) * (t ^ S k * (1 - t) ^ (n - S k))) p (IZR (binom n (S k)) * (INR (S k) * p ^ k * (1 - p) ^ (n - S k) + p ^ S k * (- INR (n - S k) * (1 - p) ^ pred (n - S k))))) by (exact (is_derive_scal _ _ _ _ D)).
    assert (E := is_derive_plus _ _ _ _ _ (IH ltac:(lia)) D2). eapply is_derive_eq; [exact E|]. change (plus ?a ?b) with (a + b). unfold bder. replace (n - S k - 1)%nat with (pred (n - S k)) by lia. replace (n - k - 1)%nat with (n - S k)%nat by lia.
    rewrite (minus_INR n (S k)) by lia. assert (B := binom_stepR n k ltac:(lia)). set (c1 := IZR (binom n (S k))) in *. set (c0 := IZR (binom n k)) in *.
    transitivity (- ((INR n - INR k) * c0 * (p ^ k * (1 - p) ^ (n - S k))) + (c1 * INR (S k)) * (p ^ k * (1 - p) ^ (n - S k)) - (INR n - INR (S k)) * c1 * (p ^ S k * (1 - p) ^ pred (n - S k))); [ring|]. rewrite B. ring.
Qed.
Lemma bder_nonneg n k p : (k < n)%nat -> 0 <= p <= 1 -> 0 <= bder n k p.
Proof.
  intros H Hp. unfold bder. apply Rmult_le_pos; [apply Rmult_le_pos; [assert (INR k <= INR n) by (apply le_INR; lia); lra|apply IZR_le, binom_nonneg]|]. apply Rmult_le_pos; apply pow_le; lra.
Qed.
Lemma BG_nonneg n k p : 0 <= p <= 1 -> 0 <= BG n k p.
Proof. intros H. unfold BG. induction k as [|k IH]; [rewrite sum_n_0; now apply blaw_nonneg|]. rewrite sum_n_S. assert (K := blaw_nonneg p n (S k) H). lra. Qed.
Lemma BG_dec n k a b : (k < n)%nat -> 0 <= a -> a <= b -> b <= 1 -> BG n k b <= BG n k a.
Proof. intros H A L B. apply (dec_of (BG n k) (fun p => - bder n k p)); [exact L|intros; now apply BG_derive|]. intros c Hc. assert (K := bder_nonneg n k c H ltac:(lra)). lra. Qed.
Lemma BG_0 n k : BG n k 0 = 1.
Proof.
  unfold BG. induction k as [|k IH]; [rewrite sum_n_0, blaw_0, Rminus_0_r; apply pow1|]. rewrite sum_n_S, IH. unfold binomial_law. simpl pow. rewrite !Rmult_0_l, Rmult_0_r. ring.
Qed.
Lemma BG_full n p : BG n n p = 1.
Proof. apply blaw_sum. Qed.

Lemma refl_beta (n k : nat) (q s : R) : INR k = INR n * (1 - q) -> (k <= n)%nat -> 0 < q < 1 -> 0 <= s -> q * exp s < 1 ->
  INR k * ln (1 - q * exp s) + INR (n - k) * s <= INR k * ln (1 - q * exp (- s)) - INR (n - k) * s.
Proof.
  intros EK LK Hq Hs HL. rewrite minus_INR by exact LK. assert (EN : INR n - INR k = INR n * q) by lra. rewrite EN, EK. assert (PN := pos_INR n).
  assert (W : forall c, 0 <= c <= s -> 0 < 1 - q * exp c /\ 0 < 1 - q * exp (- c)).
  { intros c Hc. assert (exp c <= exp s) by (apply exp_le_mono; lra). assert (exp (- c) <= exp 0) by (apply exp_le_mono; lra). rewrite exp_0 in *. split; nra. }
  set (hh := (fun s => (1 - q) * (ln (1 - q * exp (- s)) - ln (1 - q * exp s)) - 2 * q * s) : R -> R).
  assert (K : hh 0 <= hh s).
  { apply (inc_of hh (fun c => (1 - q) * (q * exp (- c) / (1 - q * exp (- c)) + q * exp c / (1 - q * exp c)) - 2 * q)); [exact Hs| |].
    - intros c Hc. destruct (W c Hc). unfold hh. auto_derive; [repeat split; lra|]. field. lra.
    - intros c Hc. destruct (W c ltac:(lra)) as [W1 W2]. assert (AB : exp c * exp (- c) = 1) by (rewrite <- exp_plus, Rplus_opp_r; apply exp_0).
      assert (T : 2 <= exp c + exp (- c)) by (assert (A := exp_ineq1_le c); assert (B := exp_ineq1_le (- c)); lra).
      set (a := exp c) in *. set (b := exp (- c)) in *. assert (PP : 0 < (1 - q * b) * (1 - q * a)) by (now apply Rmult_lt_0_compat).
      replace ((1 - q) * (q * b / (1 - q * b) + q * a / (1 - q * a)) - 2 * q) with (q * ((1 - q) * (a + b - 2 * q * (a * b)) - 2 * (1 - q * (a + b) + q * q * (a * b))) / ((1 - q * b) * (1 - q * a))) by (field; lra).
      rewrite AB. apply Rmult_le_pos; [|left; now apply Rinv_0_lt_compat]. apply Rmult_le_pos; [lra|]. replace ((1 - q) * (a + b - 2 * q * 1) - 2 * (1 - q * (a + b) + q * q * 1)) with ((a + b - 2) * (1 + q)) by ring. apply Rmult_le_pos; lra. }
  unfold hh in K. rewrite Ropp_0, exp_0, Rmult_1_r in K. assert (K2 := Rmult_le_compat_l _ _ _ PN K).
  lra.
Qed.
Lemma bder_refl (n k : nat) (q s : R) : (k < n)%nat -> 0 < q -> q * exp s < 1 ->
  bder n k (1 - q * exp s) * (q * exp s) = (INR n - INR k) * IZR (binom n k) * q ^ (n - k) * exp (INR k * ln (1 - q * exp s) + INR (n - k) * s).
Proof.
  intros H Hq L. unfold bder. replace (1 - (1 - q * exp s)) with (q * exp s) by ring.
  assert (P : exp (INR k * ln (1 - q * exp s) + INR (n - k) * s) = (1 - q * exp s) ^ k * exp s ^ (n - k)).
  { rewrite exp_plus. rewrite <- (Rpower_pow k) by lra. rewrite <- (Rpower_pow (n - k)) by apply exp_pos. unfold Rpower. now rewrite ln_exp. }
  rewrite P. destruct (n - k)%nat as [|j] eqn:E; [lia|]. replace (S j - 1)%nat with j by lia. rewrite (Rpow_mult_distr q (exp s) j). simpl pow. ring.
Qed.
Lemma BG_low_in (n k : nat) : (0 < k < n)%nat -> 1 / 2 <= BG n k (INR k / INR n).
Proof.
  intros H. assert (Pn : 0 < INR n) by (apply lt_0_INR; lia). assert (Pk : 0 < INR k) by (apply lt_0_INR; lia). assert (Lkn : INR k < INR n) by (apply lt_INR; lia).
  set (q := 1 - INR k / INR n). assert (E : INR k = INR n * (1 - q)) by (unfold q; field; lra). replace (INR k / INR n) with (1 - q) by (unfold q; ring).
  assert (Hq : 0 < q < 1). { assert (A : INR n * q = INR n - INR k) by lra. split; [apply Rmult_lt_reg_l with (INR n); lra|apply Rmult_lt_reg_l with (INR n); lra]. }
  clearbody q. set (y := - ln q). assert (Py : 0 < y) by (unfold y; assert (ln q < 0) by (rewrite <- ln_1; apply ln_increasing; lra); lra). assert (Ey : q * exp y = 1) by (unfold y; rewrite exp_Ropp, exp_ln by lra; field; lra).
  assert (X : forall c, 0 <= c -> c <= y -> q * exp c <= 1). { intros c A B. rewrite <- Ey. apply Rmult_le_compat_l; [lra|]. now apply exp_le_mono. }
  set (hh := (fun s => BG n k (1 - q * exp (- s)) + BG n k (1 - q * exp s)) : R -> R).
  assert (K : hh y <= hh 0).
  { apply (dec_of hh (fun s => - (bder n k (1 - q * exp (- s)) * (q * exp (- s))) + bder n k (1 - q * exp s) * (q * exp s))); [lra| |].
    - intros c Hc. assert (A : is_derive (fun s => BG n k (1 - q * exp (- s))) c (q * exp (- c) * - bder n k (1 - q * exp (- c)))). { apply (is_derive_comp (BG n k) (fun s => 1 - q * exp (- s))); [apply BG_derive; lia|]. auto_derive; [trivial|ring]. }
      assert (B : is_derive (fun s => BG n k (1 - q * exp s)) c (- (q * exp c) * - bder n k (1 - q * exp c))). { apply (is_derive_comp (BG n k) (fun s => 1 - q * exp s)); [apply BG_derive; lia|]. auto_derive; [trivial|ring]. }
      assert (D := is_derive_plus _ _ _ _ _ A B). eapply is_derive_eq; [exact D|]. change (plus ?a ?b) with (a + b). ring.
    - intros c Hc. assert (SL : q * exp c < 1) by (rewrite <- Ey; apply Rmult_lt_compat_l; [lra|apply exp_increasing; lra]). assert (SL' : q * exp (- c) < 1). { apply Rle_lt_trans with (q * exp c); [|exact SL]. apply Rmult_le_compat_l; [lra|apply exp_le_mono; lra]. }
      rewrite !bder_refl by (first [lia|lra]). assert (Q := refl_beta n k q c E ltac:(lia) Hq ltac:(lra) SL). assert (Q' : INR k * ln (1 - q * exp c) + INR (n - k) * c <= INR k * ln (1 - q * exp (- c)) + INR (n - k) * - c) by lra.
      assert (Z := exp_le_mono _ _ Q'). assert (C0 : 0 <= (INR n - INR k) * IZR (binom n k) * q ^ (n - k)). { apply Rmult_le_pos; [apply Rmult_le_pos; [lra|apply IZR_le, binom_nonneg]|apply pow_le; lra]. }
      assert (Y := Rmult_le_compat_l _ _ _ C0 Z). lra. }
  unfold hh in K. rewrite Ropp_0, exp_0, Rmult_1_r in K. rewrite Ey in K. replace (1 - 1) with 0 in K by ring. rewrite BG_0 in K.
  assert (Z : 0 <= BG n k (1 - q * exp (- y))). { apply BG_nonneg. assert (exp (- y) <= exp 0) by (apply exp_le_mono; lra). rewrite exp_0 in *. assert (0 < exp (- y)) by apply exp_pos. split; nra. } lra.
Qed.
Lemma BG_low (n k : nat) : (0 < n)%nat -> (k <= n)%nat -> 1 / 2 <= BG n k (INR k / INR n).
Proof.
  intros Hn H. destruct (Nat.eq_dec k 0) as [E|E]; [subst; simpl INR; unfold Rdiv; rewrite Rmult_0_l, BG_0; lra|]. destruct (Nat.eq_dec k n) as [E2|E2]; [subst; rewrite BG_full; lra|]. apply BG_low_in. lia.
Qed.
Lemma blaw_swap n p k : (k <= n)%nat -> binomial_law n (1 - p) (n - k) = binomial_law n p k.
Proof. intros H. unfold binomial_law. rewrite binom_sym by exact H. replace (n - (n - k))%nat with k by lia. replace (1 - (1 - p)) with p by ring. ring. Qed.
Lemma swap_mass n p k : (k <= n)%nat -> lmass (binomial_law n p) k + BG n (n - k) (1 - p) = 1.
Proof.
  induction k as [|k IH]; intros H; [unfold lmass; rewrite Nat.sub_0_r, BG_full; ring|]. rewrite lmass_S. assert (I := IH ltac:(lia)). replace (n - k)%nat with (S (n - S k)) in I by lia. unfold BG in *. rewrite sum_n_S in I.
  replace (S (n - S k)) with (n - k)%nat in I by lia. rewrite blaw_swap in I by lia. lra.
Qed.
Lemma BG_high (n k : nat) : (0 < n)%nat -> (k <= n)%nat -> lmass (binomial_law n (INR k / INR n)) k <= 1 / 2.
Proof.
  intros Hn H. assert (Pn : 0 < INR n) by (apply lt_0_INR; lia). assert (S := swap_mass n (INR k / INR n) k H). assert (L := BG_low n (n - k) Hn ltac:(lia)). rewrite minus_INR in L by exact H.
  replace ((INR n - INR k) / INR n) with (1 - INR k / INR n) in L by (field; lra). lra.
Qed.
Lemma lmass_dec n k p : (0 < n)%nat -> (k <= n)%nat -> INR k / INR n <= p <= 1 -> lmass (binomial_law n p) k <= 1 / 2.
Proof.
  intros Hn H Hp. assert (Pn : 0 < INR n) by (apply lt_0_INR; lia). assert (A := BG_high n k Hn H). destruct k as [|j]; [unfold lmass; lra|]. unfold lmass in *. apply Rle_trans with (2 := A). apply (BG_dec n j); try lia; try lra. apply Rmult_le_pos; [apply pos_INR|left; now apply Rinv_0_lt_compat].
Qed.
Lemma BG_ge n k p : (0 < n)%nat -> (k <= n)%nat -> 0 <= p <= INR k / INR n -> 1 / 2 <= BG n k p.
Proof.
  intros Hn H Hp. assert (Pn : 0 < INR n) by (apply lt_0_INR; lia). destruct (Nat.eq_dec k n) as [E|E]; [subst; rewrite BG_full; lra|]. apply Rle_trans with (1 := BG_low n k Hn H). apply BG_dec; try lia; try lra.
  apply Rmult_le_reg_r with (INR n); [exact Pn|]. unfold Rdiv. rewrite Rmult_assoc, Rinv_l by lra. assert (INR k <= INR n) by (apply le_INR; lia). lra.
Qed.
Lemma binomial_median_int (n k : nat) (p : R) : 0 <= p <= 1 -> p * INR n = INR k -> law_median (binomial_law n p) (INR k).
Proof.
  intros Hp E. destruct (Nat.eq_dec n 0) as [E0|E0].
  - subst n. simpl INR in E. rewrite Rmult_0_r in E. assert (k = 0%nat) by (apply INR_eq; simpl; lra). subst k. apply median_at; [now apply blaw_is_law|]. split; [|unfold lmass; lra]. change (1 / 2 <= BG 0 0 p). rewrite BG_full. lra.
  - assert (Pn : 0 < INR n) by (apply lt_0_INR; lia). assert (Ep : p = INR k / INR n) by (rewrite <- E; field; lra). assert (Lk : (k <= n)%nat) by (apply INR_le; rewrite <- E; nra).
    apply median_at; [now apply blaw_is_law|]. split; [change (1 / 2 <= BG n k p); apply BG_ge; [lia|exact Lk|lra]|apply lmass_dec; [lia|exact Lk|lra]].
Qed.
Lemma binomial_median_near (n k : nat) (p : R) : 0 <= p <= 1 -> (k < n)%nat -> INR k <= p * INR n <= INR k + 1 -> law_median (binomial_law n p) (INR k) \/ law_median (binomial_law n p) (INR (S k)).
Proof.
  intros Hp Lk H. assert (Pn : 0 < INR n) by (apply lt_0_INR; lia). assert (L := blaw_is_law p n Hp).
  assert (A : INR k / INR n <= p) by (apply Rmult_le_reg_r with (INR n); [exact Pn|]; unfold Rdiv; rewrite Rmult_assoc, Rinv_l by lra; lra).
  assert (B : p <= INR (S k) / INR n) by (apply Rmult_le_reg_r with (INR n); [exact Pn|]; unfold Rdiv; rewrite Rmult_assoc, Rinv_l by lra; rewrite S_INR; lra).
  destruct (Rle_dec (1 / 2) (BG n k p)) as [Y|N].
  - left. apply median_at; [exact L|]. split; [exact Y|]. apply lmass_dec; [lia|lia|lra].
  - right. apply median_at; [exact L|]. split; [change (1 / 2 <= BG n (S k) p); apply BG_ge; [lia|lia|lra]|]. unfold lmass. change (BG n k p <= 1 / 2). lra.
Qed.
