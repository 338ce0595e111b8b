(** * exp r is irrational for every rational r <> 0 (used to show that closed
    rational expressions are not medians) *)
From Coq Require Import Reals Lra Lia Psatz Arith ZArith.
From Coquelicot Require Import Coquelicot.
Open Scope R_scope.

Definition rational (r : R) : Prop := exists p q : Z, (0 < q)%Z /\ r = IZR p / IZR q.
Lemma rat_Z z : rational (IZR z). Proof. exists z, 1%Z. split; [lia|]. field. Qed.
Lemma rat_plus a b : rational a -> rational b -> rational (a + b).
Proof.
  intros (p & q & Hq & ->) (p' & q' & Hq' & ->). exists (p * q' + p' * q)%Z, (q * q')%Z. split; [nia|]. apply IZR_lt in Hq, Hq'. rewrite plus_IZR, !mult_IZR. field. lra.
Qed.
Lemma rat_mult a b : rational a -> rational b -> rational (a * b).
Proof.
  intros (p & q & Hq & ->) (p' & q' & Hq' & ->). exists (p * p')%Z, (q * q')%Z. split; [nia|]. apply IZR_lt in Hq, Hq'. rewrite !mult_IZR. field. lra.
Qed.
Lemma rat_inv a : rational a -> rational (/ a).
Proof.
  intros (p & q & Hq & ->). assert (Q := IZR_lt _ _ Hq). destruct (Z.lt_trichotomy p 0) as [L|[->|L]].
  - exists (- q)%Z, (- p)%Z. split; [lia|]. apply IZR_lt in L. rewrite !opp_IZR. field. lra.
  - exists 0%Z, 1%Z. split; [lia|]. unfold Rdiv. rewrite Rmult_0_l, Rinv_0. ring.
  - exists q, p. split; [lia|]. apply IZR_lt in L. field. lra.
Qed.
Lemma rat_div a b : rational a -> rational b -> rational (a / b).
Proof. intros A B. unfold Rdiv. apply rat_mult; [exact A|now apply rat_inv]. Qed.
Lemma rat_opp a : rational a -> rational (- a).
Proof. intros A. replace (- a) with (IZR (-1) * a) by ring. apply rat_mult; [apply rat_Z|exact A]. Qed.
Lemma rat_minus a b : rational a -> rational b -> rational (a - b).
Proof. intros A B. unfold Rminus. apply rat_plus; [exact A|now apply rat_opp]. Qed.
Lemma rat_pow a n : rational a -> rational (a ^ n).
Proof. intros A. induction n; [exact (rat_Z 1)|]. cbn [pow]. now apply rat_mult. Qed.
Lemma rat_INR n : rational (INR n). Proof. rewrite INR_IZR_INZ. apply rat_Z. Qed.
Lemma rat_sum f n : (forall j, rational (f j)) -> rational (sum_n f n).
Proof.
  intros H. induction n as [|n IH]; [rewrite sum_O; apply H|]. rewrite sum_Sn. change (plus ?a ?b) with (a + b). now apply rat_plus.
Qed.

Section H.
Context (h : R) (Hh : 0 < h).
Definition g (n : nat) (x : R) : R := (x * (1 - x)) ^ n / INR (fact n).
Definition Jn (n : nat) : R := RInt (fun x => g n x * exp (h * x)) 0 1.
Lemma g_cont n x : continuous (fun x => g n x * exp (h * x)) x.
Proof. apply (ex_derive_continuous (fun x => g n x * exp (h * x))). unfold g. auto_derive. exact I. Qed.
Lemma Jn_ex n : is_RInt (fun x => g n x * exp (h * x)) 0 1 (Jn n).
Proof. apply (RInt_correct (V := R_CompleteNormedModule)). apply (ex_RInt_continuous (V := R_CompleteNormedModule)). intros x _. apply g_cont. Qed.
Lemma g_derive n x : is_derive (g (S n)) x (g n x * (1 - 2 * x)).
Proof.
  unfold g. assert (F := INR_fact_neq_0 n). rewrite fact_simpl, mult_INR. assert (K := not_0_INR (S n) ltac:(lia)).
  apply (is_derive_ext (fun x => / (INR (S n) * INR (fact n)) * (x * (1 - x)) ^ S n)); [intros t; change (@eq R (/ (INR (S n) * INR (fact n)) * (t * (1 - t)) ^ S n) ((t * (1 - t)) ^ S n / (INR (S n) * INR (fact n)))); unfold Rdiv; ring|].
  replace ((x * (1 - x)) ^ n / INR (fact n) * (1 - 2 * x)) with (/ (INR (S n) * INR (fact n)) * (INR (S n) * (1 - 2 * x) * (x * (1 - x)) ^ n)) by (field; split; assumption).
  apply (is_derive_scal (fun x => (x * (1 - x)) ^ S n)). 
  apply (is_derive_pow (fun x => x * (1 - x)) (S n) x (1 - 2 * x)). auto_derive; [exact I|ring].
Qed.
Lemma g_rec n x : g n x * (x * (1 - x)) = INR (S n) * g (S n) x.
Proof. unfold g. rewrite fact_simpl, mult_INR. assert (F := INR_fact_neq_0 n). assert (K := not_0_INR (S n) ltac:(lia)). cbn [pow]. field. split; assumption. Qed.
Lemma g_0 n : g (S n) 0 = 0. Proof. unfold g. rewrite Rmult_0_l, pow_i by lia. unfold Rdiv; ring. Qed.
Lemma g_1 n : g (S n) 1 = 0. Proof. unfold g. replace (1 * (1 - 1)) with 0 by ring. rewrite pow_i by lia. unfold Rdiv; ring. Qed.
Lemma In_rec n : h * h * Jn (S (S n)) = Jn n - (4 * INR n + 6) * Jn (S n).
Proof.
  set (P := fun x => (h * g (S (S n)) x - g (S n) x * (1 - 2 * x)) * exp (h * x)).
  assert (D : forall x, is_derive P x (h * h * (g (S (S n)) x * exp (h * x)) - g n x * exp (h * x) + (4 * INR n + 6) * (g (S n) x * exp (h * x)))).
  { intros x. assert (D1 := g_derive (S n) x). assert (D2 := g_derive n x).
    assert (DE : is_derive (fun x => exp (h * x)) x (h * exp (h * x))) by (auto_derive; [exact I|ring]).
    assert (DA := is_derive_minus _ _ _ _ _ (is_derive_scal _ x h _ D1) (is_derive_mult (g (S n)) (fun x => 1 - 2 * x) x _ (-2) D2 ltac:(auto_derive; [exact I|ring]) Rmult_comm)).
    assert (DP := is_derive_mult _ _ x _ _ DA DE Rmult_comm). unfold P. revert DP. 
    match goal with |- is_derive ?a ?b ?c -> is_derive ?a' ?b ?c' => intros DP; replace c' with c; [exact DP|] end.
    change (@eq R) with (@eq R). unfold plus, minus, opp, mult, scal, plus. cbn. unfold mult. cbn.
    assert (R := g_rec n x). rewrite S_INR in R. 
    replace (g n x) with (g n x) by ring. set (e := exp (h * x)) in *. set (u := g n x) in *. set (v := g (S n) x) in *. set (w := g (S (S n)) x) in *.
    replace (4 * INR n + 6) with (4 * (INR n + 1) + 2) by ring. replace ((4 * (INR n + 1) + 2) * (v * e)) with (4 * ((INR n + 1) * v) * e + 2 * v * e) by ring. rewrite <- R. ring. }
  assert (A : is_RInt (fun x => h * h * (g (S (S n)) x * exp (h * x)) - g n x * exp (h * x) + (4 * INR n + 6) * (g (S n) x * exp (h * x))) 0 1 (P 1 - P 0)).
  { apply (is_RInt_derive (V := R_CompleteNormedModule) P); [intros x _; apply D|]. intros x _.
    apply (ex_derive_continuous (fun x => h * h * (g (S (S n)) x * exp (h * x)) - g n x * exp (h * x) + (4 * INR n + 6) * (g (S n) x * exp (h * x)))). unfold g. auto_derive. exact I. }
  assert (Z : P 1 - P 0 = 0) by (unfold P; rewrite !g_0, !g_1; ring). rewrite Z in A.
  assert (B := is_RInt_plus (V := R_NormedModule) _ _ _ _ _ _ (is_RInt_minus (V := R_NormedModule) _ _ _ _ _ _ (is_RInt_scal (V := R_NormedModule) _ _ _ (h * h) _ (Jn_ex (S (S n)))) (Jn_ex n)) (is_RInt_scal (V := R_NormedModule) _ _ _ (4 * INR n + 6) _ (Jn_ex (S n)))).
  assert (U : h * h * Jn (S (S n)) - Jn n + (4 * INR n + 6) * Jn (S n) = 0).
  { assert (B' : is_RInt (fun x => h * h * (g (S (S n)) x * exp (h * x)) - g n x * exp (h * x) + (4 * INR n + 6) * (g (S n) x * exp (h * x))) 0 1 (h * h * Jn (S (S n)) - Jn n + (4 * INR n + 6) * Jn (S n))) by exact B.
    apply (is_RInt_unique (V := R_CompleteNormedModule)) in A. apply (is_RInt_unique (V := R_CompleteNormedModule)) in B'. rewrite <- A. symmetry. exact B'. }
  lra.
Qed.

Lemma In_0 : h * Jn 0 = exp h - 1.
Proof.
  assert (A : is_RInt (fun x => g 0 x * exp (h * x)) 0 1 (exp (h * 1) / h - exp (h * 0) / h)).
  { apply (is_RInt_derive (V := R_CompleteNormedModule) (fun x => exp (h * x) / h)).
    - intros x _. unfold g. cbn [pow fact INR]. auto_derive; [exact I|]. field. lra.
    - intros x _. apply g_cont. }
  apply (is_RInt_unique (V := R_CompleteNormedModule)) in A. unfold Jn. rewrite A, Rmult_1_r, Rmult_0_r, exp_0. field. lra.
Qed.
Lemma In_1 : h * h * h * Jn 1 = exp h * (h - 2) + h + 2.
Proof.
  set (P := fun x => exp (h * x) * (h * h * (x * (1 - x)) - h * (1 - 2 * x) - 2) / (h * h * h)).
  assert (A : is_RInt (fun x => g 1 x * exp (h * x)) 0 1 (P 1 - P 0)).
  { apply (is_RInt_derive (V := R_CompleteNormedModule) P).
    - intros x _. unfold P, g. cbn [pow fact INR Nat.mul Nat.add]. auto_derive; [exact I|]. field. lra.
    - intros x _. apply g_cont. }
  apply (is_RInt_unique (V := R_CompleteNormedModule)) in A. unfold Jn. rewrite A. unfold P. rewrite Rmult_1_r, Rmult_0_r, exp_0. field. lra.
Qed.
Lemma In_pos n : 0 < Jn n.
Proof.
  apply RInt_gt_0; [lra| |].
  - intros x Hx. unfold g. apply Rmult_lt_0_compat; [|apply exp_pos]. apply Rdiv_lt_0_compat; [|apply INR_fact_lt_0]. apply pow_lt. nra.
  - intros x _. apply g_cont.
Qed.
Lemma In_le n : Jn n <= exp h / INR (fact n).
Proof.
  replace (exp h / INR (fact n)) with (RInt (fun _ => exp h / INR (fact n)) 0 1) by (rewrite RInt_const; change (@eq R) with (@eq R); unfold scal; cbn; unfold mult; cbn; ring).
  apply RInt_le; [lra|eexists; apply Jn_ex|apply (ex_RInt_const (V := R_NormedModule))|].
  intros x Hx. unfold g. unfold Rdiv. rewrite Rmult_assoc, (Rmult_comm (/ _)), <- Rmult_assoc. apply Rmult_le_compat_r; [left; apply Rinv_0_lt_compat, INR_fact_lt_0|].
  assert (X0 : 0 <= x * (1 - x)) by (apply Rmult_le_pos; lra). assert (X1 : x * (1 - x) <= 1) by (assert (0 <= (1 - x) * (1 - x)) by apply Rle_0_sqr; assert (0 <= x * x) by apply Rle_0_sqr; lra).
  rewrite <- (Rmult_1_l (exp h)). apply Rmult_le_compat; [apply pow_le; exact X0|left; apply exp_pos| |].
  - refine (Rle_trans _ (1 ^ n) _ _ (Req_le _ _ (pow1 n))). apply pow_incr. split; [exact X0|exact X1].
  - destruct (Req_dec x 1) as [->|N]; [rewrite Rmult_1_r; lra|]. left. apply exp_increasing. rewrite <- (Rmult_1_r h) at 2. apply Rmult_lt_compat_l; lra.
Qed.
End H.

Theorem exp_nat_irr (k : nat) : (0 < k)%nat -> ~ rational (exp (INR k)).
Proof.
  intros Hk (p & q & Hq & E). set (h := INR k) in *. assert (Hh : 1 <= h) by (unfold h; change 1 with (INR 1); apply le_INR; lia). assert (H0 : 0 < h) by lra.
  set (J := fun n : nat => h ^ (2 * n + 1) * Jn h n).
  assert (JR : forall n, J (S (S n)) = h * h * J n - (4 * INR n + 6) * J (S n)).
  { intros n. unfold J. assert (RC := In_rec h n). replace (2 * S (S n) + 1)%nat with (2 * n + 1 + 2 + 2)%nat by lia. replace (2 * S n + 1)%nat with (2 * n + 1 + 2)%nat by lia.
    rewrite !pow_add. replace (h ^ (2 * n) * h ^ 1 * h ^ 2 * h ^ 2 * Jn h (S (S n))) with (h ^ (2 * n) * h ^ 1 * h ^ 2 * (h * h * Jn h (S (S n)))) by ring. rewrite RC. ring. }
  assert (JI : forall n, (exists a b : Z, J n = IZR a * exp h + IZR b) /\ exists a b : Z, J (S n) = IZR a * exp h + IZR b).
  { induction n as [|n [(a & b & IH) (a' & b' & IH')]].
    - split.
      + exists 1%Z, (-1)%Z. unfold J. cbn [Nat.mul Nat.add pow]. rewrite Rmult_1_r, In_0 by lra. ring.
      + exists (Z.of_nat k - 2)%Z, (Z.of_nat k + 2)%Z. unfold J. cbn [Nat.mul Nat.add pow]. rewrite minus_IZR, plus_IZR, <- INR_IZR_INZ. fold h. replace (h * (h * (h * 1)) * Jn h 1) with (h * h * h * Jn h 1) by ring. rewrite In_1 by lra. ring.
    - split; [now exists a', b'|]. exists (Z.of_nat k * Z.of_nat k * a - (4 * Z.of_nat n + 6) * a')%Z, (Z.of_nat k * Z.of_nat k * b - (4 * Z.of_nat n + 6) * b')%Z.
      rewrite JR, IH, IH'. rewrite !minus_IZR, !mult_IZR, plus_IZR, mult_IZR, <- !INR_IZR_INZ. fold h. ring. }
  assert (JP : forall n, 1 <= IZR q * J n).
  { intros n. destruct (JI n) as [(a & b & IH) _]. assert (Q := IZR_lt _ _ Hq). assert (P : 0 < IZR q * J n) by (apply Rmult_lt_0_compat; [lra|]; unfold J; apply Rmult_lt_0_compat; [apply pow_lt; lra|apply In_pos; lra]).
    assert (X : IZR q * J n = IZR (a * p + b * q)). { rewrite IH, E, plus_IZR, !mult_IZR. field. lra. }
    rewrite X in *. apply lt_IZR in P. apply IZR_le. lia. }
  assert (Q := IZR_lt _ _ Hq). assert (CV := cv_speed_pow_fact (h * h)).
  set (C := IZR q * h * exp h). assert (PC : 0 < C) by (unfold C; apply Rmult_lt_0_compat; [apply Rmult_lt_0_compat; lra|apply exp_pos]).
  destruct (CV (/ C) ltac:(apply Rlt_gt, Rinv_0_lt_compat, PC)) as [N HN]. specialize (HN N (le_n N)). unfold R_dist in HN. rewrite Rminus_0_r in HN.
  assert (HN2 : (h * h) ^ N / INR (fact N) < / C) by (eapply Rle_lt_trans; [apply Rle_abs|exact HN]).
  specialize (JP N). assert (L := In_le h H0 N). assert (U : IZR q * J N <= C * ((h * h) ^ N / INR (fact N))).
  { unfold J, C. rewrite pow_add, pow_1, pow_mult. replace (h ^ 2) with (h * h) by ring.
    replace (IZR q * h * exp h * ((h * h) ^ N / INR (fact N))) with (IZR q * ((h * h) ^ N * h * (exp h / INR (fact N)))) by (unfold Rdiv; ring).
    apply Rmult_le_compat_l; [lra|]. apply Rmult_le_compat_l; [|exact L]. apply Rmult_le_pos; [apply pow_le; nra|lra]. }
  assert (C * ((h * h) ^ N / INR (fact N)) < C * / C) by (apply Rmult_lt_compat_l; assumption). rewrite Rinv_r in H by lra. lra.
Qed.
Lemma exp_pow r n : exp r ^ n = exp (INR n * r).
Proof. induction n as [|n IH]; [cbn [pow INR]; rewrite Rmult_0_l, exp_0; reflexivity|]. rewrite S_INR. cbn [pow]. rewrite IH, <- exp_plus. f_equal. ring. Qed.
Theorem exp_irrational (r : R) : rational r -> r <> 0 -> ~ rational (exp r).
Proof.
  assert (K : forall r, rational r -> 0 < r -> ~ rational (exp r)).
  { intros x (p & q & Hq & ->) Hp HE. assert (Q := IZR_lt _ _ Hq).
    assert (Pp : (0 < p)%Z). { apply lt_IZR. apply (Rmult_lt_reg_r (/ IZR q)); [now apply Rinv_0_lt_compat|]. rewrite Rmult_0_l. exact Hp. }
    apply (exp_nat_irr (Z.to_nat p)); [lia|]. replace (exp (INR (Z.to_nat p))) with (exp (IZR p / IZR q) ^ Z.to_nat q); [now apply rat_pow|].
    rewrite exp_pow. f_equal. rewrite !INR_IZR_INZ, !Z2Nat.id by lia. field. lra. }
  intros Hr N HE. destruct (Rtotal_order r 0) as [L|[L|L]]; [|contradiction|exact (K r Hr L HE)].
  apply (K (- r)); [now apply rat_opp|lra|]. rewrite exp_Ropp. now apply rat_inv.
Qed.
