(** * Moments of the standard logistic law, through the densities proportional to q^n *)
From Coq Require Import Reals Lra Lia Psatz.
From Coquelicot Require Import Coquelicot.
From Verif.Num Require Import XReal.
From Verif.Spec Require Import DistSpec.
From Verif.Proofs Require Import ContProofs1 XTac Calc Improper GammaFun Subst Mellin Zeta LogGamma.
Open Scope R_scope.

Notation ch x := (exp (x / 2) + exp (- (x / 2))).
Notation sh x := (exp (x / 2) - exp (- (x / 2))).
Definition lq (x : R) : R := / ((exp (x / 2) + exp (- (x / 2))) * (exp (x / 2) + exp (- (x / 2)))).
Definition lt (x : R) : R := (exp (x / 2) - exp (- (x / 2))) / (exp (x / 2) + exp (- (x / 2))).
Lemma ch_pos x : 0 < ch x. Proof. pos. Qed.
Lemma exp_pair x : exp (x / 2) * exp (- (x / 2)) = 1.
Proof. rewrite <- exp_plus. replace (x / 2 + - (x / 2)) with 0 by ring. apply exp_0. Qed.
Lemma lq_pos x : 0 < lq x. Proof. unfold lq. assert (P := ch_pos x). apply Rinv_0_lt_compat. pos. Qed.
Lemma lt_sq x : lt x * lt x = 1 - 4 * lq x.
Proof.
  unfold lt, lq. assert (E := exp_pair x). assert (P := exp_pos (x / 2)). assert (Q := exp_pos (- (x / 2))). set (a := exp (x / 2)) in *. set (b := exp (- (x / 2))) in *.
  replace 4 with (4 * (a * b)) by (rewrite E; ring). field. lra.
Qed.
Lemma lq_le1 x : lq x <= 1.
Proof. assert (H := lt_sq x). assert (0 <= lt x * lt x) by (apply Rle_0_sqr). lra. Qed.
Lemma lt_abs x : Rabs (lt x) <= 1.
Proof. assert (H := lt_sq x). assert (Q := lq_pos x). apply Rabs_le_between. nra. Qed.
Lemma lq_d x : is_derive lq x (- (lt x * lq x)).
Proof. assert (P := ch_pos x). unfold lq, lt. auto_derive; [unfold Rdiv in *; nra|]. unfold Rdiv in *. field. lra. Qed.
Lemma lt_d x : is_derive lt x (2 * lq x).
Proof.
  assert (P := ch_pos x). assert (E := exp_pair x). unfold lq, lt. auto_derive; [unfold Rdiv in *; lra|]. unfold Rdiv in *. set (a := exp (x * / 2)) in *. set (b := exp (- (x * / 2))) in *.
  transitivity (2 * (a * b) * / ((a + b) * (a + b))); [field; lra|rewrite E; ring].
Qed.
Lemma lqn_d k x : is_derive (fun x => lq x ^ S k) x (- (INR k + 1) * (lt x * lq x ^ S k)).
Proof.
  assert (D := Derive.is_derive_pow lq (S k) x _ (lq_d x)). cbn [pred] in D. rewrite S_INR in D. eapply is_derive_eq; [exact D|]. rewrite <- tech_pow_Rmult. ring.
Qed.
Lemma lq_cont x : continuous lq x. Proof. eapply ex_derive_cont, lq_d. Qed.
Lemma lqn_cont k x : continuous (fun x => lq x ^ S k) x. Proof. eapply ex_derive_cont, lqn_d. Qed.
Lemma lqn_le k x : 0 < lq x ^ S k <= lq x.
Proof.
  assert (P := lq_pos x). assert (Q := lq_le1 x). split; [now apply pow_lt|]. rewrite <- tech_pow_Rmult. assert (lq x ^ k <= 1) by (rewrite <- (pow1 k); apply pow_incr; lra). nra.
Qed.
Lemma lq_exp x : lq x <= exp (- Rabs x).
Proof.
  unfold lq. assert (E := exp_pair x). assert (P := exp_pos (x / 2)). assert (Q := exp_pos (- (x / 2))).
  rewrite (exp_Ropp (Rabs x)). apply Rinv_le_contravar; [pos|].
  assert (exp (Rabs x) <= exp x + exp (- x)) by apply exp_abs_le.
  replace (exp x) with (exp (x / 2) * exp (x / 2)) in H by (rewrite <- exp_plus; f_equal; field). replace (exp (- x)) with (exp (- (x / 2)) * exp (- (x / 2))) in H by (rewrite <- exp_plus; f_equal; field). nra.
Qed.
Lemma xq_bound j x : Rabs (x ^ j) * lq x <= (INR j + 1) ^ j.
Proof.
  assert (A := pow_le_exp (Rabs x) j (Rabs_pos x)). assert (B := lq_exp x). rewrite RPow_abs in A. assert (P := exp_pos (Rabs x)). rewrite exp_Ropp in B.
  apply Rle_trans with (Rabs (x ^ j) * / exp (Rabs x)); [apply Rmult_le_compat_l; [apply Rabs_pos|auto]|].
  apply Rmult_le_reg_r with (exp (Rabs x)); [auto|]. rewrite Rmult_assoc, Rinv_l by lra. lra.
Qed.
Definition CJ (j : nat) : R := (INR j + 1) ^ j + (INR (S (S j)) + 1) ^ (S (S j)).
Lemma xq_cauchy j x : Rabs (x ^ j) * lq x <= CJ j * / (1 + x ^ 2).
Proof.
  assert (A := xq_bound j x). assert (B := xq_bound (S (S j)) x). assert (H : 0 <= x ^ 2) by apply pow2_ge_0.
  apply Rmult_le_reg_r with (1 + x ^ 2); [lra|]. rewrite (Rmult_assoc (CJ j)), Rinv_l by lra. unfold CJ.
  replace (Rabs (x ^ S (S j))) with (Rabs (x ^ j) * x ^ 2) in B. { lra. }
  rewrite <- (Rabs_pos_eq (x ^ 2)), <- Rabs_mult by auto. f_equal. cbn [pow]. ring.
Qed.
Lemma cauchy_int : is_RInt_gen (fun x => / (1 + x ^ 2)) (above m_infty) (below p_infty) PI.
Proof.
  assert (P := PI_RGT_0). assert (A := pdf_total _ _ _ _ (proj2 (c_coherent 0 1 Rlt_0_1))).
  assert (B := gen_scal m_infty p_infty _ PI _ A). eapply (gen_eq m_infty p_infty); [|apply Rmult_1_r]. revert B. apply (gen_ext m_infty p_infty).
  intros x. unfold rf. rewrite c_pdf by lra. cbn [val]. assert (0 <= x ^ 2) by apply pow2_ge_0. field. cbn [pow] in *. lra.
Qed.
Lemma xqn_abs j k x : Rabs (x ^ j * lq x ^ S k) <= CJ j * / (1 + x ^ 2).
Proof.
  destruct (lqn_le k x) as [P Q]. eapply Rle_trans; [|apply (xq_cauchy j)]. rewrite Rabs_mult, (Rabs_pos_eq (lq x ^ S k)) by lra. apply Rmult_le_compat_l; [apply Rabs_pos|auto].
Qed.
Lemma xqn_cont j k x : continuous (fun x => x ^ j * lq x ^ S k) x.
Proof. apply (continuous_mult (K := R_AbsRing) (fun x => x ^ j) (fun x => lq x ^ S k)); [eapply ex_derive_cont; auto_derive; [exact I|reflexivity]|apply lqn_cont]. Qed.
Lemma lm_ex j k : exists v, is_RInt_gen (fun x => x ^ j * lq x ^ S k) (above m_infty) (below p_infty) v.
Proof.
  refine (gen_dom_abs m_infty p_infty _ _ _ I _ _ _ (gen_scal m_infty p_infty _ (CJ j) _ cauchy_int)).
  - intros; apply xqn_cont.
  - intros x _. assert (0 <= x ^ 2) by apply pow2_ge_0. eapply ex_derive_cont. auto_derive; [cbn [pow] in *; lra|reflexivity].
  - intros; apply xqn_abs.
Qed.
Definition lm (j k : nat) : R := RInt_gen (fun x => x ^ j * lq x ^ S k) (above m_infty) (below p_infty).
Lemma lm_int j k : is_RInt_gen (fun x => x ^ j * lq x ^ S k) (above m_infty) (below p_infty) (lm j k).
Proof.
  destruct (lm_ex j k) as [v V]. unfold lm. rewrite (is_RInt_gen_unique (V := R_CompleteNormedModule) (Fa := above m_infty) (Fb := below p_infty) _ _ V). exact V.
Qed.
Lemma inv_sq_lim (b : Rbar) : b = p_infty \/ b = m_infty -> is_lim (fun x => / (1 + x ^ 2)) b 0.
Proof.
  intros Hb. assert (L : is_lim (fun x => 1 + x ^ 2) b p_infty).
  { assert (S : is_lim (fun x => x ^ 2) b p_infty).
    { apply is_lim_ext with (fun x => x * x); [intros; ring|]. replace p_infty with (Rbar_mult b b) by (destruct Hb; subst; cbn; destruct (Rle_dec 0 0); reflexivity).
      apply is_lim_mult; [apply is_lim_id|apply is_lim_id|destruct Hb; subst; exact I]. }
    eapply is_lim_plus; [apply is_lim_const|exact S|reflexivity]. }
  replace (Finite 0) with (Rbar_inv p_infty) by reflexivity. apply is_lim_inv; [exact L|discriminate].
Qed.
Lemma xqn_lim j k : filterlim (fun x => x ^ j * lq x ^ S k) (above m_infty) (locally 0) /\ filterlim (fun x => x ^ j * lq x ^ S k) (below p_infty) (locally 0).
Proof.
  split; (eapply fl_squeeze; [intros x; apply xqn_abs|]; eapply fl_eq; [apply fl_mult; [apply fl_const|]|apply Rmult_0_r]).
  - apply lim_minf, inv_sq_lim. auto. - apply lim_pinf, inv_sq_lim. auto.
Qed.
Lemma txqn_lim j k : filterlim (fun x => lt x * (x ^ j * lq x ^ S k)) (above m_infty) (locally 0) /\ filterlim (fun x => lt x * (x ^ j * lq x ^ S k)) (below p_infty) (locally 0).
Proof.
  assert (B : forall x, Rabs (lt x * (x ^ j * lq x ^ S k)) <= CJ j * / (1 + x ^ 2)).
  { intros x. rewrite Rabs_mult. assert (A := xqn_abs j k x). assert (T := lt_abs x). assert (P := Rabs_pos (x ^ j * lq x ^ S k)). assert (Q := Rabs_pos (lt x)). nra. }
  split; (eapply fl_squeeze; [intros x; apply B|]; eapply fl_eq; [apply fl_mult; [apply fl_const|]|apply Rmult_0_r]).
  - apply lim_minf, inv_sq_lim. auto. - apply lim_pinf, inv_sq_lim. auto.
Qed.
(** two integrations by parts *)
Lemma lm_rec_gen (c1 c2 : R) (j j1 j2 k : nat) :
  (forall x, is_derive (fun x => x ^ j) x (c1 * x ^ j1)) -> (forall x, is_derive (fun x => c1 * x ^ j1) x (c2 * x ^ j2)) ->
  (INR k + 1) ^ 2 * lm j k - 2 * (INR k + 1) * (2 * INR k + 3) * lm j (S k) = c2 * lm j2 k.
Proof.
  intros D1 D2. set (N := INR k + 1).
  assert (A : is_RInt_gen (fun x => N ^ 2 * (x ^ j * lq x ^ S k) - 2 * N * (2 * INR k + 3) * (x ^ j * lq x ^ S (S k)) - c2 * (x ^ j2 * lq x ^ S k)) (above m_infty) (below p_infty) (0 - 0)).
  { apply (is_RInt_gen_antiderivative m_infty p_infty (fun x => - N * (lt x * (x ^ j * lq x ^ S k)) - c1 * (x ^ j1 * lq x ^ S k))).
    - exact I.
    - intros x _. assert (DQ := lqn_d k x). assert (DT := lt_d x). assert (T2 := lt_sq x).
      assert (D := dR_minus _ _ _ _ _ (dR_mult _ _ _ _ _ (dR_c (- N) x) (dR_mult _ _ _ _ _ DT (dR_mult _ _ _ _ _ (D1 x) DQ))) (dR_mult _ _ _ _ _ (D2 x) DQ)).
      cbn beta in D. match type of D with is_derive ?f _ ?v => apply (is_derive_ext f (fun x => - N * (lt x * (x ^ j * lq x ^ S k)) - c1 * (x ^ j1 * lq x ^ S k))) in D; [|intros; rr]; eapply is_derive_eq; [exact D|] end.
      fold N. rewrite <- (tech_pow_Rmult (lq x) (S k)). set (Q := lq x ^ S k). set (X := x ^ j). set (Y := x ^ j1). set (t := lt x) in *. set (q := lq x) in *.
      replace (- N * (2 * q * (X * Q) + t * (c1 * Y * Q + X * (- N * (t * Q))))) with (- N * (2 * q * (X * Q) + t * c1 * Y * Q - N * X * (t * t) * Q)) by ring. rewrite T2. unfold N. ring.
    - intros x _. assert (C := fun j k => xqn_cont j k x).
      apply (continuous_minus (V := R_NormedModule) (fun x => N ^ 2 * (x ^ j * lq x ^ S k) - 2 * N * (2 * INR k + 3) * (x ^ j * lq x ^ S (S k))) (fun x => c2 * (x ^ j2 * lq x ^ S k)));
      [apply (continuous_minus (V := R_NormedModule) (fun x => N ^ 2 * (x ^ j * lq x ^ S k)) (fun x => 2 * N * (2 * INR k + 3) * (x ^ j * lq x ^ S (S k))))|].
      + apply (continuous_scal_r (V := R_NormedModule) (N ^ 2) (fun x => x ^ j * lq x ^ S k)). apply C.
      + apply (continuous_scal_r (V := R_NormedModule) (2 * N * (2 * INR k + 3)) (fun x => x ^ j * lq x ^ S (S k))). apply C.
      + apply (continuous_scal_r (V := R_NormedModule) c2 (fun x => x ^ j2 * lq x ^ S k)). apply C.
    - eapply fl_eq; [apply fl_minus; apply fl_mult; [apply fl_const|apply txqn_lim|apply fl_const|apply xqn_lim]|ring].
    - eapply fl_eq; [apply fl_minus; apply fl_mult; [apply fl_const|apply txqn_lim|apply fl_const|apply xqn_lim]|ring]. }
  assert (B := gen_lin m_infty p_infty _ _ 1 (- c2) _ _ (gen_lin m_infty p_infty _ _ (N ^ 2) (- (2 * N * (2 * INR k + 3))) _ _ (lm_int j k) (lm_int j (S k))) (lm_int j2 k)).
  assert (E : 0 - 0 = 1 * (N ^ 2 * lm j k + - (2 * N * (2 * INR k + 3)) * lm j (S k)) + - c2 * lm j2 k); [|lra].
  eapply (gen_unique m_infty p_infty); [exact A|]. revert B. apply (gen_ext m_infty p_infty). intros; ring.
Qed.
Lemma lm_rec0 k : (INR k + 1) * lm 0 k = 2 * (2 * INR k + 3) * lm 0 (S k).
Proof.
  assert (R := lm_rec_gen 0 0 0 0 0 k). assert (N := pos_INR k).
  assert (E : (INR k + 1) ^ 2 * lm 0 k - 2 * (INR k + 1) * (2 * INR k + 3) * lm 0 (S k) = 0 * lm 0 k) by (apply R; intros; auto_derive; [exact I|ring|exact I|ring]).
  apply Rmult_eq_reg_l with (INR k + 1); [|lra]. nra.
Qed.
Lemma lm_rec2 k : (INR k + 1) ^ 2 * lm 2 k - 2 * (INR k + 1) * (2 * INR k + 3) * lm 2 (S k) = 2 * lm 0 k.
Proof. apply (lm_rec_gen 2 2 2 1 0); intros; auto_derive; [exact I|cbn; ring|exact I|cbn; ring]. Qed.
Lemma lm_rec4 k : (INR k + 1) ^ 2 * lm 4 k - 2 * (INR k + 1) * (2 * INR k + 3) * lm 4 (S k) = 12 * lm 2 k.
Proof. apply (lm_rec_gen 4 12 4 3 2); intros; auto_derive; [exact I|cbn; ring|exact I|cbn; ring]. Qed.
Lemma lm0_pos k : 0 < lm 0 k.
Proof.
  apply (imp_total_pos m_infty p_infty (fun x => x ^ 0 * lq x ^ S k) I); [intros; apply xqn_cont| |apply lm_int|];
  intros x _; rewrite pow_O, Rmult_1_l; [left|]; apply lqn_le.
Qed.
Lemma x2_bound x : x ^ 2 * lq x <= 4 * (1 - 4 * lq x).
Proof.
  rewrite <- lt_sq. unfold lt, lq. assert (C := ch_pos x). assert (E := exp_pair x).
  assert (B : x ^ 2 <= 4 * (sh x * sh x)).
  { assert (K : forall y, 0 <= y -> y <= exp y - exp (- y)).
    { intros y Hy. assert (A := exp_ineq1_le y). rewrite exp_Ropp. assert (/ exp y <= / (1 + y)) by (apply Rinv_le_contravar; lra).
      assert (/ (1 + y) <= 1). { rewrite <- Rinv_1 at 2. apply Rinv_le_contravar; lra. } lra. }
    destruct (Rle_dec 0 x) as [H|H].
    - assert (A := K (x / 2) ltac:(lra)). nra.
    - assert (A := K (- (x / 2)) ltac:(lra)). rewrite Ropp_involutive in A. nra. }
  set (c := ch x) in *. set (t := sh x) in *. apply Rmult_le_reg_r with (c * c); [pos|].
  replace (x ^ 2 * / (c * c) * (c * c)) with (x ^ 2) by (field; lra). replace (4 * (t / c * (t / c)) * (c * c)) with (4 * (t * t)) by (field; lra). exact B.
Qed.
Notation gl := (gen_lin m_infty p_infty).
Lemma lm2_bound k : 0 <= lm 2 (S k) <= 4 * (lm 0 k - 4 * lm 0 (S k)).
Proof.
  split.
  - assert (Z := gen_scal m_infty p_infty _ 0 _ (lm_int 0 0)). rewrite Rmult_0_l in Z. refine (gen_le m_infty p_infty _ _ _ _ I _ _ _ Z (lm_int 2 (S k))).
    + intros. apply (continuous_scal_r (V := R_NormedModule) 0 (fun x => x ^ 0 * lq x ^ 1)). apply xqn_cont. + intros; apply xqn_cont.
    + intros x _. rewrite Rmult_0_l. apply Rmult_le_pos; [apply pow2_ge_0|left; apply lqn_le].
  - assert (B := gl _ _ 4 (-16) _ _ (lm_int 0 k) (lm_int 0 (S k))). replace (4 * (lm 0 k - 4 * lm 0 (S k))) with (4 * lm 0 k + -16 * lm 0 (S k)) by ring.
    refine (gen_le m_infty p_infty _ _ _ _ I _ _ _ (lm_int 2 (S k)) B).
    + intros; apply xqn_cont.
    + intros x _. apply (continuous_plus (V := R_NormedModule) (fun x => 4 * (x ^ 0 * lq x ^ S k)) (fun x => -16 * (x ^ 0 * lq x ^ S (S k))));
      [apply (continuous_scal_r (V := R_NormedModule) 4 (fun x => x ^ 0 * lq x ^ S k))|apply (continuous_scal_r (V := R_NormedModule) (-16) (fun x => x ^ 0 * lq x ^ S (S k)))]; apply xqn_cont.
    + intros x _. rewrite pow_O. rewrite <- (tech_pow_Rmult (lq x) (S k)). assert (P := proj1 (lqn_le k x)). assert (K := x2_bound x). set (Q := lq x ^ S k) in *. nra.
Qed.
Lemma lm4_bound k : 0 <= lm 4 (S (S k)) <= 16 * (lm 0 k - 4 * lm 0 (S k)).
Proof.
  split.
  - assert (Z := gen_scal m_infty p_infty _ 0 _ (lm_int 0 0)). rewrite Rmult_0_l in Z. refine (gen_le m_infty p_infty _ _ _ _ I _ _ _ Z (lm_int 4 (S (S k)))).
    + intros. apply (continuous_scal_r (V := R_NormedModule) 0 (fun x => x ^ 0 * lq x ^ 1)). apply xqn_cont. + intros; apply xqn_cont.
    + intros x _. rewrite Rmult_0_l. apply Rmult_le_pos; [replace (x ^ 4) with ((x ^ 2) ^ 2) by ring; apply pow2_ge_0|left; apply lqn_le].
  - assert (B := gl _ _ 16 (-64) _ _ (lm_int 0 k) (lm_int 0 (S k))). replace (16 * (lm 0 k - 4 * lm 0 (S k))) with (16 * lm 0 k + -64 * lm 0 (S k)) by ring.
    refine (gen_le m_infty p_infty _ _ _ _ I _ _ _ (lm_int 4 (S (S k))) B).
    + intros; apply xqn_cont.
    + intros x _. apply (continuous_plus (V := R_NormedModule) (fun x => 16 * (x ^ 0 * lq x ^ S k)) (fun x => -64 * (x ^ 0 * lq x ^ S (S k))));
      [apply (continuous_scal_r (V := R_NormedModule) 16 (fun x => x ^ 0 * lq x ^ S k))|apply (continuous_scal_r (V := R_NormedModule) (-64) (fun x => x ^ 0 * lq x ^ S (S k)))]; apply xqn_cont.
    + intros x _. rewrite pow_O. rewrite <- (tech_pow_Rmult (lq x) (S (S k))), <- (tech_pow_Rmult (lq x) (S k)). assert (P := proj1 (lqn_le k x)). assert (K := x2_bound x). assert (K0 : 0 <= x ^ 2 * lq x) by (apply Rmult_le_pos; [apply pow2_ge_0|left; apply lq_pos]).
      assert (K1 := lq_pos x). set (Q := lq x ^ S k) in *. assert (S2 : (x ^ 2 * lq x) * (x ^ 2 * lq x) <= 4 * (1 - 4 * lq x) * 4) by (apply Rmult_le_compat; lra).
      replace (x ^ 4 * (lq x * (lq x * Q))) with ((x ^ 2 * lq x) * (x ^ 2 * lq x) * Q) by ring. replace (16 * (1 * Q) + -64 * (1 * (lq x * Q))) with (4 * (1 - 4 * lq x) * 4 * Q) by ring. apply Rmult_le_compat_r; lra.
Qed.
Definition lr (j k : nat) : R := lm j k / lm 0 k.
Lemma lr_rec2 k : lr 2 k - lr 2 (S k) = 2 / (INR k + 1) ^ 2.
Proof.
  assert (P := lm0_pos k). assert (P' := lm0_pos (S k)). assert (N := pos_INR k). assert (R0 := lm_rec0 k). assert (R2 := lm_rec2 k). unfold lr.
  assert (E : lm 0 k = 2 * (2 * INR k + 3) * lm 0 (S k) / (INR k + 1)) by (rewrite <- R0; field; lra).
  assert (E2 : lm 2 k = (2 * lm 0 k + 2 * (INR k + 1) * (2 * INR k + 3) * lm 2 (S k)) / (INR k + 1) ^ 2) by (rewrite <- R2; field; lra).
  rewrite E2, E. field. lra.
Qed.
Lemma lr_rec4 k : lr 4 k - lr 4 (S k) = 12 * lr 2 k / (INR k + 1) ^ 2.
Proof.
  assert (P := lm0_pos k). assert (P' := lm0_pos (S k)). assert (N := pos_INR k). assert (R0 := lm_rec0 k). assert (R2 := lm_rec4 k). unfold lr.
  assert (E : lm 0 k = 2 * (2 * INR k + 3) * lm 0 (S k) / (INR k + 1)) by (rewrite <- R0; field; lra).
  assert (E2 : lm 4 k = (12 * lm 2 k + 2 * (INR k + 1) * (2 * INR k + 3) * lm 4 (S k)) / (INR k + 1) ^ 2) by (rewrite <- R2; field; lra).
  rewrite E2, E. field. lra.
Qed.
Lemma lr2_bound k : 0 <= lr 2 (S k) <= 8 / (INR k + 1).
Proof.
  assert (P := lm0_pos k). assert (P' := lm0_pos (S k)). assert (N := pos_INR k). assert (R0 := lm_rec0 k). destruct (lm2_bound k) as [A B]. unfold lr. split; [apply Rdiv_le_0_compat; lra|].
  assert (E : lm 0 k = 2 * (2 * INR k + 3) * lm 0 (S k) / (INR k + 1)) by (rewrite <- R0; field; lra).
  apply Rmult_le_reg_r with (lm 0 (S k)); [auto|]. replace (lm 2 (S k) / lm 0 (S k) * lm 0 (S k)) with (lm 2 (S k)) by (field; lra). eapply Rle_trans; [exact B|]. rewrite E. right. field. lra.
Qed.
Lemma lr4_bound k : 0 <= lr 4 (S (S k)) <= 192 / (INR k + 1).
Proof.
  assert (P := lm0_pos k). assert (P' := lm0_pos (S k)). assert (P2 := lm0_pos (S (S k))). assert (N := pos_INR k). assert (R0 := lm_rec0 k). assert (R1 := lm_rec0 (S k)). rewrite S_INR in R1. destruct (lm4_bound k) as [A B]. unfold lr. split; [apply Rdiv_le_0_compat; lra|].
  assert (E : lm 0 k = 2 * (2 * INR k + 3) * lm 0 (S k) / (INR k + 1)) by (rewrite <- R0; field; lra).
  assert (E1 : lm 0 (S k) = 2 * (2 * INR k + 5) * lm 0 (S (S k)) / (INR k + 2)).
  { replace (2 * (2 * INR k + 5)) with (2 * (2 * (INR k + 1) + 3)) by ring. rewrite <- R1. field; lra. }
  apply Rmult_le_reg_r with (lm 0 (S (S k))); [auto|]. replace (lm 4 (S (S k)) / lm 0 (S (S k)) * lm 0 (S (S k))) with (lm 4 (S (S k))) by (field; lra). eapply Rle_trans; [exact B|].
  replace (16 * (lm 0 k - 4 * lm 0 (S k))) with (32 / (INR k + 1) * lm 0 (S k)) by (rewrite E; field; lra). rewrite E1.
  assert (K : 2 * (2 * INR k + 5) / (INR k + 2) <= 6). { apply Rmult_le_reg_r with (INR k + 2); [lra|]. replace (2 * (2 * INR k + 5) / (INR k + 2) * (INR k + 2)) with (2 * (2 * INR k + 5)) by (field; lra). lra. }
  replace (32 / (INR k + 1) * (2 * (2 * INR k + 5) * lm 0 (S (S k)) / (INR k + 2))) with (2 * (2 * INR k + 5) / (INR k + 2) * (32 / (INR k + 1) * lm 0 (S (S k)))) by (field; lra).
  replace (192 / (INR k + 1) * lm 0 (S (S k))) with (6 * (32 / (INR k + 1) * lm 0 (S (S k)))) by (field; lra). apply Rmult_le_compat_r; [|auto]. apply Rmult_le_pos; [apply Rdiv_le_0_compat; lra|lra].
Qed.
Lemma lim_lr2 : is_lim_seq (fun k => lr 2 (S k)) 0. Proof. apply (lim_sandwich _ 8), lr2_bound. Qed.
Lemma lim_lr4 : is_lim_seq (fun k => lr 4 (S k)) 0. Proof. apply (is_lim_seq_incr_1 (fun k => lr 4 (S k))). apply (lim_sandwich _ 192), lr4_bound. Qed.
Lemma lr2_zs n : lr 2 0 - lr 2 (S n) = 2 * zs 2 n.
Proof.
  induction n as [|n IH].
  - rewrite lr_rec2. unfold zs. rewrite sum_O. cbn [INR]. field.
  - rewrite zs_S. assert (R := lr_rec2 (S n)). assert (N := pos_INR (S n)). unfold Rdiv in R. lra.
Qed.
Lemma lr4_zs n : lr 4 0 - lr 4 (S n) = 12 * (lr 2 0 * zs 2 n - zs 2 n ^ 2 + zs 4 n).
Proof.
  induction n as [|n IH].
  - rewrite lr_rec4. unfold zs. rewrite !sum_O. cbn [INR]. field.
  - rewrite !zs_S. assert (R := lr_rec4 (S n)). assert (N := pos_INR (S n)). assert (Z := lr2_zs n).
    replace (lr 4 0 - lr 4 (S (S n))) with (lr 4 0 - lr 4 (S n) + (lr 4 (S n) - lr 4 (S (S n)))) by ring. rewrite R, IH.
    assert (E : lr 2 (S n) = lr 2 0 - 2 * zs 2 n) by lra. rewrite E. field. lra.
Qed.
Theorem lr2_0 : lr 2 0 = PI ^ 2 / 3.
Proof.
  assert (Z : is_lim_seq (zs 2) (PI ^ 2 / 6)) by exact zeta2.
  assert (A := is_lim_seq_scal_l _ 2 _ Z). assert (L : is_lim_seq (fun n => 2 * zs 2 n) (lr 2 0 - 0)). { eapply is_lim_seq_ext; [intros; apply lr2_zs|]. apply is_lim_seq_minus'; [apply is_lim_seq_const|apply lim_lr2]. }
  apply is_lim_seq_unique in A, L. rewrite L in A. cbn in A. injection A. lra.
Qed.
Theorem lr4_0 : lr 4 0 = 7 * PI ^ 4 / 15.
Proof.
  assert (Z : is_lim_seq (zs 2) (PI ^ 2 / 6)) by exact zeta2. assert (Z4 : is_lim_seq (zs 4) (PI ^ 4 / 90)) by exact zeta4.
  assert (A : is_lim_seq (fun n => 12 * (lr 2 0 * zs 2 n - zs 2 n ^ 2 + zs 4 n)) (12 * (lr 2 0 * (PI ^ 2 / 6) - (PI ^ 2 / 6) * (PI ^ 2 / 6) + PI ^ 4 / 90))).
  { apply (is_lim_seq_scal_l _ 12 (Finite (lr 2 0 * (PI ^ 2 / 6) - (PI ^ 2 / 6) * (PI ^ 2 / 6) + PI ^ 4 / 90))). apply is_lim_seq_plus'; [apply is_lim_seq_minus'|exact Z4].
    - apply (is_lim_seq_scal_l _ (lr 2 0) (Finite (PI ^ 2 / 6))). exact Z.
    - eapply is_lim_seq_ext; [intros n; instantiate (1 := fun n => zs 2 n * zs 2 n); cbn; ring|]. now apply is_lim_seq_mult'. }
  assert (L : is_lim_seq (fun n => 12 * (lr 2 0 * zs 2 n - zs 2 n ^ 2 + zs 4 n)) (lr 4 0 - 0)). { eapply is_lim_seq_ext; [intros; apply lr4_zs|]. apply is_lim_seq_minus'; [apply is_lim_seq_const|apply lim_lr4]. }
  apply is_lim_seq_unique in A, L. rewrite L in A. injection A. rewrite lr2_0. lra.
Qed.
(** odd moments *)
Lemma lq_even x : lq (- x) = lq x.
Proof. unfold lq. replace (- x / 2) with (- (x / 2)) by field. rewrite Ropp_involutive. f_equal. ring. Qed.
Lemma neg_inf : filterlim (fun x => - x) (above m_infty) (below p_infty) /\ filterlim (fun x => - x) (below p_infty) (above m_infty).
Proof. split; [apply (filterlim_Rbar_opp m_infty)|apply (filterlim_Rbar_opp p_infty)]. Qed.
Lemma lm_odd j k : lm (S (2 * j)) k = 0.
Proof.
  assert (A := lm_int (S (2 * j)) k). destruct neg_inf as [L1 L2].
  assert (B := subst_down m_infty p_infty m_infty p_infty _ (fun x => - x) (fun _ => -1) _ I A L1 L2).
  assert (C : is_RInt_gen (fun x => - -1 * ((- x) ^ S (2 * j) * lq (- x) ^ S k)) (above m_infty) (below p_infty) (lm (S (2 * j)) k)).
  { apply B. intros x _. split; [auto_derive; [exact I|ring]|]. split; [apply continuous_const|apply xqn_cont]. }
  assert (E := gl _ _ 1 1 _ _ A C).
  assert (Z := gen_scal m_infty p_infty _ 0 _ A).
  assert (F : 1 * lm (S (2 * j)) k + 1 * lm (S (2 * j)) k = 0 * lm (S (2 * j)) k); [|lra].
  eapply (gen_unique m_infty p_infty); [exact E|]. revert Z. apply (gen_ext m_infty p_infty). intros x. rewrite lq_even.
  replace ((- x) ^ S (2 * j)) with (- x ^ S (2 * j)). { ring. }
  rewrite <- !tech_pow_Rmult, !pow_mult. replace ((- x) ^ 2) with (x ^ 2) by ring. ring.
Qed.
