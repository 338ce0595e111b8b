(** * C136: the Chi and chi-squared medians are wrong for every even number of
    degrees of freedom (the values returned are rational; the medians are not) *)
From Coq Require Import Reals Lra Lia Psatz Arith List ZArith.
From Coquelicot Require Import Coquelicot.
From Verif.Num Require Import Scalar XReal.
From Verif.Model Require Import Rust Constraints Probability Params Consts Traits Continuous Continuous3.
From Verif.Spec Require Import DistSpec GammaSpec ResSpec DiscreteSpec.
From Verif.Proofs Require Import ConstraintProofs NewInv XTac Calc Calc2 Improper GammaFun Subst Mellin HeavyTail Unique Oracle
  ContProofs11 ContProofs12 ContProofs13 ContProofs16 ContProofs28 Stirling DiscMedians ExpIrr.
From Verif.Properties Require C136_Medians.
Import ListNotations.
Open Scope R_scope.

(** a Poisson partial sum with a rational rate is never one half: exp would be rational *)
Lemma PG_rational n q : rational q -> 0 < q -> PG n q <> 1 / 2.
Proof.
  intros Hq P E. apply (exp_irrational q Hq ltac:(lra)).
  assert (U : exists s, rational s /\ PG n q = s * exp (- q)).
  { clear E. unfold PG. induction n as [|n (s & Hs & IH)].
    - exists 1. split; [exact (rat_Z 1)|]. rewrite sum_O. unfold poisson_law. cbn [pow fact INR]. field.
    - exists (s + q ^ S n / INR (fact (S n))). split; [apply rat_plus; [exact Hs|apply rat_div; [now apply rat_pow|apply rat_INR]]|].
      rewrite sum_Sn, IH. change (plus ?a ?b) with (a + b). unfold poisson_law. unfold Rdiv. ring. }
  destruct U as (s & Hs & U). rewrite U in E. replace (exp q) with (2 * s); [apply rat_mult; [exact (rat_Z 2)|exact Hs]|].
  rewrite exp_Ropp in E. assert (X := exp_pos q). apply (f_equal (fun t => t * exp q)) in E. rewrite Rmult_assoc, Rinv_l in E by lra. lra.
Qed.
Lemma even_half n : IZR (2 * Z.of_nat (S n)) / 2 = INR n + 1.
Proof. rewrite mult_IZR, <- INR_IZR_INZ, S_INR. field. Qed.
Lemma PG_half_derive n x : is_derive (fun x => PG n (x / 2)) x (/ 2 * - poisson_law (x / 2) n).
Proof. apply (is_derive_comp (PG n) (fun x => x / 2)); [apply PG_derive|]. auto_derive; [exact I|]. field. Qed.
Lemma PG_sq_derive n x : is_derive (fun x => PG n (x * x / 2)) x (x * - poisson_law (x * x / 2) n).
Proof. apply (is_derive_comp (PG n) (fun x => x * x / 2)); [apply PG_derive|]. auto_derive; [exact I|]. field. Qed.
Lemma one_minus_derive (f : R -> R) x l : is_derive f x l -> is_derive (fun x => 1 - f x) x (- l).
Proof.
  intros D. assert (D2 := is_derive_minus (fun _ => 1) f x _ _ (is_derive_const (V := R_NormedModule) 1 x) D).
  replace (- l) with (minus zero l); [exact D2|]. unfold minus, zero, opp, plus. cbn. ring.
Qed.
Lemma PG_at0 n : continuous (fun x => 1 - PG n (x / 2)) 0 /\ continuous (fun x => 1 - PG n (x * x / 2)) 0.
Proof.
  split; apply (ex_derive_continuous (V := R_NormedModule)); eexists; apply one_minus_derive; [apply PG_half_derive|apply PG_sq_derive].
Qed.
Theorem C136_chi_squared_all_even_refuted (SP : Special xreal) (n : nat) (d : ChiSq.t) : gamma_exact SP ->
  ChiSq.new (F := xreal) (2 * Z.of_nat (S n)) = Ok d ->
  returns (ChiSq.median d) (fun m => forall cdf, coherent 0 p_infty cdf (ChiSq.pdf d) -> ~ is_median cdf m).
Proof.
  intros Hg H. unfold ChiSq.new in H. inv_new H. change (ChiSq.mk _) with (ChiSq.new_unchecked (2 * Z.of_nat (S n))). set (k := (2 * Z.of_nat (S n))%Z) in *.
  assert (K : 2 <= IZR k) by (apply IZR_le; lia). exists (IZR k * (1 - 2 / 9 / IZR k) ^ 3).
  split; [unfold ChiSq.median, ChiSq.kf; cbn [ChiSq.pr ChiSq.k ChiSq.new_unchecked]; xs; rewrite powi3; xs; reflexivity|].
  set (m := IZR k * (1 - 2 / 9 / IZR k) ^ 3). assert (B := C136_Medians.wh_bounds (IZR k) ltac:(lra)). fold m in B.
  assert (Q : rational (m / 2)).
  { apply rat_div; [|exact (rat_Z 2)]. unfold m. apply rat_mult; [apply rat_Z|]. apply rat_pow. apply rat_minus; [exact (rat_Z 1)|]. apply rat_div; [apply rat_div; [exact (rat_Z 2)|exact (rat_Z 9)]|apply rat_Z]. }
  intros cdf Hc Hm. apply (PG_rational n (m / 2) Q ltac:(lra)).
  assert (E : cdf (Fin m) = Fin (1 - PG n (m / 2))).
  { apply (cdf_is 0 p_infty cdf (ChiSq.pdf (ChiSq.new_unchecked k)) (fun x => 1 - PG n (x / 2)) Hc).
    - intros x Hx. unfold rf. rewrite (cs_pdf Hg k ltac:(lia) x Hx). cbn [val]. apply in0f in Hx. unfold ga_u, k. rewrite even_half, Gam_fact. replace (INR n + 1 - 1) with (INR n) by ring. rewrite Rpower_pow by lra.
      replace (INR n + 1) with (INR (S n)) by apply S_INR. rewrite Rpower_pow by lra.
      eapply is_derive_eq; [exact (one_minus_derive _ _ _ (PG_half_derive n x))|]. change (@eq R) with (@eq R). unfold poisson_law. unfold Rdiv. rewrite Rpow_mult_distr. replace (x * / 2) with (/ 2 * x) by ring. cbn [pow]. ring.
    - apply (C136_Medians.lim0 (fun x => 1 - PG n (x / 2)) (proj1 (PG_at0 n))). replace (0 / 2) with 0 by field. rewrite PG_0. ring.
    - apply in0. lra. }
  rewrite Hm in E. apply Fin_inj in E. lra.
Qed.
Print Assumptions C136_chi_squared_all_even_refuted.
Theorem C136_chi_all_even_refuted (SP : Special xreal) (n : nat) (d : Chi.t) : gamma_exact SP ->
  Chi.new (F := xreal) (2 * Z.of_nat (S n)) = Ok d ->
  returns (Chi.median d) (fun m => forall cdf, coherent 0 p_infty cdf (Chi.pdf d) -> ~ is_median cdf m).
Proof.
  intros Hg H. unfold Chi.new in H. inv_new H. change (Chi.mk _) with (Chi.new_unchecked (2 * Z.of_nat (S n))). set (k := (2 * Z.of_nat (S n))%Z) in *.
  assert (K : 2 <= IZR k) by (apply IZR_le; lia). assert (B := C136_Medians.wh_bounds (IZR k) ltac:(lra)). set (q := IZR k * (1 - 2 / 9 / IZR k) ^ 3) in *. exists (sqrt q).
  assert (P0 : 0 <= q) by lra.
  split; [unfold Chi.median, Chi.kf; cbn [Chi.pr Chi.k Chi.new_unchecked]; xs; rewrite powi3; xs; reflexivity|].
  assert (Q : rational (q / 2)).
  { apply rat_div; [|exact (rat_Z 2)]. unfold q. apply rat_mult; [apply rat_Z|]. apply rat_pow. apply rat_minus; [exact (rat_Z 1)|]. apply rat_div; [apply rat_div; [exact (rat_Z 2)|exact (rat_Z 9)]|apply rat_Z]. }
  set (m := sqrt q). assert (Pm : 0 < m) by (apply sqrt_lt_R0; lra).
  intros cdf Hc Hm. apply (PG_rational n (q / 2) Q ltac:(lra)).
  assert (E : cdf (Fin m) = Fin (1 - PG n (m * m / 2))).
  { apply (cdf_is 0 p_infty cdf (Chi.pdf (Chi.new_unchecked k)) (fun x => 1 - PG n (x * x / 2)) Hc).
    - intros x Hx. unfold rf. rewrite (ch_pdf Hg k ltac:(lia) x Hx). cbn [val]. apply in0f in Hx. unfold chi_u, chi_c. replace (IZR k / 2) with (INR n + 1) by (unfold k; now rewrite even_half). rewrite Gam_fact. replace (INR n + 1 - 1) with (INR n) by ring. rewrite Rpower_pow by lra.
      replace (IZR k - 1) with (INR (2 * n + 1)) by (unfold k; rewrite mult_IZR, <- INR_IZR_INZ, S_INR, plus_INR, mult_INR; cbn [INR]; ring). rewrite Rpower_pow by lra.
      eapply is_derive_eq; [exact (one_minus_derive _ _ _ (PG_sq_derive n x))|]. change (@eq R) with (@eq R). unfold poisson_law. rewrite pow_add, pow_1, pow_mult. replace (x ^ 2) with (x * x) by ring.
      assert (T : 2 ^ n <> 0) by (apply pow_nonzero; lra). assert (F := INR_fact_neq_0 n). assert (W : (x * x / 2) ^ n = (x * x) ^ n / 2 ^ n) by (unfold Rdiv; now rewrite Rpow_mult_distr, pow_inv). rewrite W.
      set (e := exp _). set (X := (x * x) ^ n). field. split; assumption.
    - apply (C136_Medians.lim0 (fun x => 1 - PG n (x * x / 2)) (proj2 (PG_at0 n))). replace (0 * 0 / 2) with 0 by field. rewrite PG_0. ring.
    - apply in0. lra. }
  rewrite Hm in E. apply Fin_inj in E. unfold m in E. rewrite sqrt_sqrt in E by exact P0. lra.
Qed.
Print Assumptions C136_chi_all_even_refuted.
Example C136_all_even_nonvacuous : gamma_exact (exact false) /\ (exists d, ChiSq.new (F := xreal) (2 * Z.of_nat 3) = Ok d) /\ exists d, Chi.new (F := xreal) (2 * Z.of_nat 3) = Ok d.
Proof. split; [apply ex_gamma|]. split; eexists; [unfold ChiSq.new|unfold Chi.new]; ok_new. Qed.
