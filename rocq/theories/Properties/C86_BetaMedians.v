(** * C86: the Beta median formula is wrong for all integer parameters a, b >= 2 with a + b odd *)
From Coq Require Import Reals Lra Lia Psatz Arith List ZArith.
From Coquelicot Require Import Coquelicot.
From Verif.Num Require Import Scalar XReal.
From Verif.Model Require Import Rust Constraints Probability Params Consts Traits Continuous3.
From Verif.Spec Require Import UtilsSpec DistSpec GammaSpec ResSpec DiscreteSpec.
From Verif.Proofs Require Import ConstraintProofs UtilsProofs NewInv XTac Calc Calc2 Improper GammaFun Subst Mellin HeavyTail Unique Oracle
  ContProofs11 ContProofs12 ContProofs13 ContProofs14 ContProofs16 DiscProofs1 DiscProofs2 DiscProofs6 Stirling DiscMedians.
From Verif.Properties Require C136_Medians C136_ChiMedians.
Import ListNotations.
Open Scope R_scope.

(** the binomial partial sum at a fraction u / w, scaled by w^n, is an integer *)
Lemma BG_integer n k (u w : Z) : IZR w <> 0 -> (k <= n)%nat -> exists s : Z, BG n k (IZR u / IZR w) * IZR w ^ n = IZR s.
Proof.
  intros Hw Hk.
  assert (T : forall j, (j <= n)%nat -> binomial_law n (IZR u / IZR w) j * IZR w ^ n = IZR (binom n j * (u ^ Z.of_nat j * (w - u) ^ Z.of_nat (n - j)))).
  { intros j Hj. rewrite !mult_IZR, <- !pow_IZR, minus_IZR. unfold binomial_law. replace n with (j + (n - j))%nat at 3 by lia. rewrite pow_add.
    replace (1 - IZR u / IZR w) with ((IZR w - IZR u) / IZR w) by (field; exact Hw). unfold Rdiv. rewrite !Rpow_mult_distr, !pow_inv.
    assert (A := pow_nonzero (IZR w) j Hw). assert (B := pow_nonzero (IZR w) (n - j) Hw).
    set (x := IZR w ^ j) in *. set (y := IZR w ^ (n - j)) in *. field. split; assumption. }
  induction k as [|k IH].
  - eexists. unfold BG. rewrite sum_n_0. apply T. lia.
  - destruct (IH ltac:(lia)) as [s Hs]. eexists. unfold BG in *. rewrite sum_n_S, Rmult_plus_distr_r, Hs, T by lia. now rewrite <- plus_IZR.
Qed.
Lemma BG_not_half n k (u w : Z) : (0 < n)%nat -> (k <= n)%nat -> Z.odd w = true -> BG n k (IZR u / IZR w) <> 1 / 2.
Proof.
  intros Hn Hk Ho E. assert (Hw : IZR w <> 0). { intros Z. apply eq_IZR in Z. subst w. discriminate. }
  destruct (BG_integer n k u w Hw Hk) as [s Hs]. rewrite E, pow_IZR in Hs.
  assert (Q : (w ^ Z.of_nat n = 2 * s)%Z). { apply eq_IZR. rewrite mult_IZR, <- Hs. field. }
  assert (O : Z.odd (w ^ Z.of_nat n) = true). { rewrite Z.odd_pow by lia. exact Ho. }
  rewrite Q, Z.odd_mul in O. discriminate O.
Qed.
(** the beta density with integer parameters is the derivative of a binomial tail *)
Lemma beta_int_density (p q : nat) x : 0 < x < 1 -> be_u (INR p + 1) (INR q + 1) x = bder (p + q + 1) p x.
Proof.
  intros Hx. unfold be_u, beta_h, bder. replace (INR p + 1 - 1) with (INR p) by ring. replace (INR q + 1 - 1) with (INR q) by ring. rewrite !Rpower_pow by lra.
  replace (p + q + 1 - p - 1)%nat with q by lia.
  assert (Pp := pos_INR p). assert (Pq := pos_INR q).
  assert (B := Beta_Gamma (INR p + 1) (INR q + 1) ltac:(lra) ltac:(lra)). rewrite !Gam_fact in B.
  replace (INR p + 1 + (INR q + 1)) with (INR (p + q + 1) + 1) in B by (rewrite !plus_INR; cbn [INR]; ring). rewrite Gam_fact in B.
  assert (C := binom_fact (p + q + 1) p ltac:(lia)). replace (p + q + 1 - p)%nat with (S q) in C by lia.
  assert (zf : forall k, zfact k = Z.of_nat (fact k)).
  { reflexivity. }
  rewrite !zf in C. apply (f_equal IZR) in C. rewrite !mult_IZR, <- !INR_IZR_INZ in C. rewrite fact_simpl, mult_INR, S_INR in C.
  replace (INR (p + q + 1) - INR p) with (INR q + 1) by (rewrite !plus_INR; cbn [INR]; ring).
  assert (F1 := INR_fact_lt_0 p). assert (F2 := INR_fact_lt_0 q). assert (F3 := INR_fact_lt_0 (p + q + 1)).
  assert (PB := Bet_pos (INR p + 1) (INR q + 1) ltac:(lra) ltac:(lra)).
  set (b := Bet _ _) in *. set (c := IZR (binom _ _)) in *. set (f1 := INR (fact p)) in *. set (f2 := INR (fact q)) in *. set (f3 := INR (fact (p + q + 1))) in *.
  assert (E : / b = (INR q + 1) * c).
  { apply (Rmult_eq_reg_l b); [|lra]. rewrite Rinv_r by lra. apply (Rmult_eq_reg_l f3); [|lra]. rewrite Rmult_1_r. transitivity (b * f3 * ((INR q + 1) * c)); [|ring]. rewrite B. rewrite <- C. ring. }
  rewrite E. ring.
Qed.

(** C86: for integers a, b >= 2 of different parity the value returned is rational with an odd
    denominator, and no cdf of this density is one half there *)
Theorem C86_beta_median_all_odd_refuted (SP : Special xreal) (a b : Z) (d : Beta.t xreal) : beta_exact SP ->
  (2 <= a)%Z -> (2 <= b)%Z -> Z.odd (a + b) = true ->
  Beta.new (Fin (IZR a)) (Fin (IZR b)) = Ok d ->
  exists m, Beta.median d = Ret (Fin m) /\ 0 < m < 1 /\
    forall cdf, coherent 0 1 cdf (Beta.pdf d) -> ~ is_median cdf m.
Proof.
  intros Hg Ha Hb Ho H. unfold Beta.new in H. inv_new H. change (Beta.mk _) with (Beta.new_unchecked (Fin (IZR a)) (Fin (IZR b))).
  assert (Ra : 2 <= IZR a) by (apply IZR_le; lia). assert (Rb : 2 <= IZR b) by (apply IZR_le; lia).
  exists (IZR (3 * a - 1) / IZR (3 * (a + b) - 2)).
  assert (Ne : a <> b). { intros ->. replace (b + b)%Z with (2 * b)%Z in Ho by lia. rewrite Z.odd_mul in Ho. discriminate. }
  assert (Far : 1 <= Rabs (IZR a - IZR b)). { rewrite <- minus_IZR, <- abs_IZR. apply IZR_le. lia. }
  assert (Mid : 0 < IZR (3 * a - 1) / IZR (3 * (a + b) - 2) < 1).
  { split; [apply Rdiv_lt_0_compat; apply IZR_lt; lia|]. apply (Rmult_lt_reg_r (IZR (3 * (a + b) - 2))); [apply IZR_lt; lia|]. unfold Rdiv. rewrite Rmult_assoc, Rinv_l, Rmult_1_r, Rmult_1_l by (apply not_0_IZR; lia). apply IZR_lt. lia. }
  split; [|split; [exact Mid|]].
  - unfold Beta.median; cbn [Beta.pr Beta.alpha Beta.beta Beta.new_unchecked]. xs. rewrite Rltb_false by lra. rewrite !Rltb_true by lra. cbn [andb]. unfold ONE_THIRD, TWO_THIRDS. xs.
    f_equal. f_equal. rewrite !minus_IZR, !mult_IZR, plus_IZR. field. lra.
  - intros cdf Hc Hm. set (p := Z.to_nat (a - 1)). set (q := Z.to_nat (b - 1)).
    assert (Ea : IZR a = INR p + 1). { unfold p. rewrite INR_IZR_INZ, Z2Nat.id by lia. rewrite minus_IZR. ring. }
    assert (Eb : IZR b = INR q + 1). { unfold q. rewrite INR_IZR_INZ, Z2Nat.id by lia. rewrite minus_IZR. ring. }
    apply (BG_not_half (p + q + 1) p (3 * a - 1) (3 * (a + b) - 2)); [lia|lia| |].
    { rewrite Z.odd_sub, !Z.odd_mul, Ho. reflexivity. }
    assert (E := cdf_is 0 1 cdf _ (fun x => 1 - BG (p + q + 1) p x) Hc).
    assert (E2 : cdf (Fin (IZR (3 * a - 1) / IZR (3 * (a + b) - 2))) = Fin (1 - BG (p + q + 1) p (IZR (3 * a - 1) / IZR (3 * (a + b) - 2)))).
    { apply E.
      - intros x Hx. unfold rf. rewrite (be_pdf Hg (IZR a) (IZR b) ltac:(lra) ltac:(lra) x Hx). cbn [val]. apply in01f in Hx. rewrite Ea, Eb, beta_int_density by exact Hx.
        eapply is_derive_eq; [exact (C136_ChiMedians.one_minus_derive _ _ _ (BG_derive (p + q + 1) p x ltac:(lia)))|]. change (@eq R) with (@eq R). ring.
      - apply (C136_Medians.lim0 (fun x => 1 - BG (p + q + 1) p x)).
        + apply (ex_derive_continuous (V := R_NormedModule)). eexists. apply C136_ChiMedians.one_minus_derive. apply BG_derive. lia.
        + rewrite BG_0. ring.
      - apply in01. exact Mid. }
    rewrite Hm in E2. apply Fin_inj in E2. lra.
Qed.
Print Assumptions C86_beta_median_all_odd_refuted.
Example C86_median_nonvacuous : exists d, Beta.new (F := xreal) (Fin (IZR 7)) (Fin (IZR 12)) = Ok d.
Proof. eexists. unfold Beta.new. ok_new. Qed.
