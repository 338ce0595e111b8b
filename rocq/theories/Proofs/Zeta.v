(** * The sums of 1/n^2 and 1/n^4, by integrals of x^p cos^(2m) over (0, pi/2) *)
From Coq Require Import Reals Lra Lia Psatz.
From Coquelicot Require Import Coquelicot.
From Verif.Proofs Require Import XTac Calc.
Open Scope R_scope.

Ltac rr := match goal with |- @eq _ ?a ?b => change (@eq R a b) end; ring.
Notation H2 := (PI / 2).
Definition ci (p m : nat) : R := RInt (fun x => x ^ p * cos x ^ (2 * m)) 0 H2.
Lemma ci_cont p m x : continuous (fun x => x ^ p * cos x ^ (2 * m)) x.
Proof. eapply ex_derive_cont. auto_derive; [exact I|reflexivity]. Qed.
Lemma ci_int p m : is_RInt (fun x => x ^ p * cos x ^ (2 * m)) 0 H2 (ci p m).
Proof. apply (RInt_correct (V := R_CompleteNormedModule)), (ex_RInt_continuous (V := R_CompleteNormedModule)). intros; apply ci_cont. Qed.
Lemma RInt_prim (F G : R -> R) a b v : (forall x, is_derive F x (G x)) -> (forall x, continuous G x) -> F b - F a = v -> is_RInt G a b v.
Proof. intros D C <-. apply (is_RInt_derive (V := R_CompleteNormedModule)); auto. Qed.
Lemma ci_rec_gen (f f1 f2 : R -> R) (m : nat) (A B C : R) :
  (forall x, is_derive f x (f1 x)) -> (forall x, is_derive f1 x (f2 x)) -> (forall x, continuous f2 x) -> f1 0 = 0 ->
  is_RInt (fun x => f x * cos x ^ (2 * m)) 0 H2 A -> is_RInt (fun x => f x * cos x ^ (2 * S m)) 0 H2 B -> is_RInt (fun x => f2 x * cos x ^ (2 * S m)) 0 H2 C ->
  2 * (INR m + 1) * (2 * INR m + 1) * A - 4 * (INR m + 1) ^ 2 * B = C.
Proof.
  intros D1 D2 Cf F0 IA IB IC. set (n := INR m).
  assert (E1 : forall x, cos x ^ (2 * S m) = cos x ^ (2 * m) * (cos x * cos x)) by (intros; replace (2 * S m)%nat with (2 * m + 2)%nat by lia; rewrite pow_add; ring).
  assert (E2 : forall x, cos x ^ (2 * m + 1) = cos x ^ (2 * m) * cos x) by (intros; rewrite pow_add; ring).
  assert (DB : forall x, is_derive (fun x => - f x * (2 * n + 2) * cos x ^ (2 * m + 1) * sin x - f1 x * cos x ^ (2 * S m)) x
     (2 * (n + 1) * (2 * n + 1) * (f x * cos x ^ (2 * m)) - 4 * (n + 1) ^ 2 * (f x * cos x ^ (2 * S m)) - f2 x * cos x ^ (2 * S m))).
  { intros x. 
    assert (P1 : is_derive (fun x => cos x ^ (2 * m + 1)) x ((2 * n + 1) * - sin x * cos x ^ (2 * m))).
    { auto_derive; [exact I|]. replace (Init.Nat.pred (m + (m + 0) + 1)) with (2 * m)%nat by lia. rewrite !plus_INR. cbn [INR]. fold n. ring. }
    assert (P2 : is_derive (fun x => cos x ^ (2 * S m)) x ((2 * n + 2) * - sin x * cos x ^ (2 * m + 1))).
    { assert (K := Derive.is_derive_pow cos (2 * S m) x (- sin x) ltac:(auto_derive; [exact I|ring])).
      replace (Nat.pred (2 * S m)) with (2 * m + 1)%nat in K by lia. eapply is_derive_eq; [exact K|]. rewrite mult_INR, (S_INR m). cbn [INR]. fold n. ring. }
    assert (P3 : is_derive sin x (cos x)) by (auto_derive; [exact I|ring]).
    eapply is_derive_eq.
    - apply dR_minus; [apply dR_mult; [apply dR_mult; [apply dR_mult; [apply dR_opp, D1|apply dR_c]|exact P1]|exact P3]|apply dR_mult; [apply D2|exact P2]].
    - cbv beta. rewrite !E1, E2. assert (S2 : sin x * sin x = 1 - cos x * cos x) by (assert (T := sin2_cos2 x); unfold Rsqr in T; lra).
      set (c := cos x) in *. set (s := sin x) in *. set (q := c ^ (2 * m)).
      replace ((((- f1 x * (2 * n + 2) + - f x * 0) * (q * c) + - f x * (2 * n + 2) * ((2 * n + 1) * - s * q)) * s + - f x * (2 * n + 2) * (q * c) * c - (f2 x * (q * (c * c)) + f1 x * ((2 * n + 2) * - s * (q * c)))))
        with (f x * (2 * n + 2) * (2 * n + 1) * q * (s * s) - f x * (2 * n + 2) * q * c * c - f2 x * (q * (c * c))) by ring.
      rewrite S2. ring. }
  assert (K : is_RInt (fun x => 2 * (n + 1) * (2 * n + 1) * (f x * cos x ^ (2 * m)) - 4 * (n + 1) ^ 2 * (f x * cos x ^ (2 * S m)) - f2 x * cos x ^ (2 * S m)) 0 H2 0).
  { apply (RInt_prim (fun x => - f x * (2 * n + 2) * cos x ^ (2 * m + 1) * sin x - f1 x * cos x ^ (2 * S m))).
    - apply DB.
    - intros x. assert (Cf1 : continuous f x) by (eapply ex_derive_cont; apply D1).
      apply (continuous_minus (V := R_NormedModule) (fun x => 2 * (n + 1) * (2 * n + 1) * (f x * cos x ^ (2 * m)) - 4 * (n + 1) ^ 2 * (f x * cos x ^ (2 * S m)))).
      + apply (continuous_minus (V := R_NormedModule) (fun x => 2 * (n + 1) * (2 * n + 1) * (f x * cos x ^ (2 * m)))).
        * apply (continuous_mult (K := R_AbsRing) (fun _ => 2 * (n + 1) * (2 * n + 1))); [apply continuous_const|]. apply (continuous_mult (K := R_AbsRing) f); [auto|]. eapply ex_derive_cont. auto_derive; [exact I|reflexivity].
        * apply (continuous_mult (K := R_AbsRing) (fun _ => 4 * (n + 1) ^ 2)); [apply continuous_const|]. apply (continuous_mult (K := R_AbsRing) f); [auto|]. eapply ex_derive_cont. auto_derive; [exact I|reflexivity].
      + apply (continuous_mult (K := R_AbsRing) f2); [auto|]. eapply ex_derive_cont. auto_derive; [exact I|reflexivity].
    - rewrite cos_PI2, sin_0, F0, !pow_i by lia. ring. }
  assert (L : is_RInt (fun x => 2 * (n + 1) * (2 * n + 1) * (f x * cos x ^ (2 * m)) - 4 * (n + 1) ^ 2 * (f x * cos x ^ (2 * S m)) - f2 x * cos x ^ (2 * S m)) 0 H2
    (2 * (n + 1) * (2 * n + 1) * A - 4 * (n + 1) ^ 2 * B - C)).
  { apply (is_RInt_minus (V := R_NormedModule) (fun x => 2 * (n + 1) * (2 * n + 1) * (f x * cos x ^ (2 * m)) - 4 * (n + 1) ^ 2 * (f x * cos x ^ (2 * S m)))); [|auto].
    apply (is_RInt_minus (V := R_NormedModule) (fun x => 2 * (n + 1) * (2 * n + 1) * (f x * cos x ^ (2 * m)))); apply (is_RInt_scal (V := R_NormedModule)); auto. }
  assert (U := is_RInt_unique (V := R_CompleteNormedModule) _ _ _ _ K). rewrite (is_RInt_unique (V := R_CompleteNormedModule) _ _ _ _ L) in U. lra.
Qed.
Lemma ci_rec0 m : 2 * (INR m + 1) * (2 * INR m + 1) * ci 0 m = 4 * (INR m + 1) ^ 2 * ci 0 (S m).
Proof.
  assert (A : 2 * (INR m + 1) * (2 * INR m + 1) * ci 0 m - 4 * (INR m + 1) ^ 2 * ci 0 (S m) = 0); [|lra].
  apply (ci_rec_gen (fun x => x ^ 0) (fun _ => 0) (fun _ => 0)); [| | | |exact (ci_int 0 m)|exact (ci_int 0 (S m))|].
  - intros. auto_derive; [exact I|ring]. - intros. apply dR_c. - intros; apply continuous_const. - reflexivity.
  - assert (K := is_RInt_scal (V := R_NormedModule) _ _ _ 0 _ (ci_int 0 (S m))). change (scal 0 (ci 0 (S m))) with (0 * ci 0 (S m)) in K. rewrite Rmult_0_l in K.
    revert K. apply is_RInt_ext. intros x _. change (scal 0 (x ^ 0 * cos x ^ (2 * S m))) with (0 * (x ^ 0 * cos x ^ (2 * S m))). rr.
Qed.
Lemma ci_rec2 m : 2 * (INR m + 1) * (2 * INR m + 1) * ci 2 m - 4 * (INR m + 1) ^ 2 * ci 2 (S m) = 2 * ci 0 (S m).
Proof.
  apply (ci_rec_gen (fun x => x ^ 2) (fun x => 2 * x) (fun _ => 2)); [| | | |exact (ci_int 2 m)|exact (ci_int 2 (S m))|].
  - intros. auto_derive; [exact I|ring]. - intros. auto_derive; [exact I|ring]. - intros; apply continuous_const. - ring.
  - assert (K := is_RInt_scal (V := R_NormedModule) _ _ _ 2 _ (ci_int 0 (S m))).
    revert K. apply is_RInt_ext. intros x _. change (scal 2 (x ^ 0 * cos x ^ (2 * S m))) with (2 * (x ^ 0 * cos x ^ (2 * S m))). rr.
Qed.
Lemma ci_rec4 m : 2 * (INR m + 1) * (2 * INR m + 1) * ci 4 m - 4 * (INR m + 1) ^ 2 * ci 4 (S m) = 12 * ci 2 (S m).
Proof.
  apply (ci_rec_gen (fun x => x ^ 4) (fun x => 4 * x ^ 3) (fun x => 12 * x ^ 2)); [| | | |exact (ci_int 4 m)|exact (ci_int 4 (S m))|].
  - intros. auto_derive; [exact I|ring]. - intros. auto_derive; [exact I|ring]. - intros. eapply ex_derive_cont. auto_derive; [exact I|reflexivity]. - ring.
  - assert (K := is_RInt_scal (V := R_NormedModule) _ _ _ 12 _ (ci_int 2 (S m))).
    revert K. apply is_RInt_ext. intros x _. change (scal 12 (x ^ 2 * cos x ^ (2 * S m))) with (12 * (x ^ 2 * cos x ^ (2 * S m))). rr.
Qed.
Lemma ci_p0 p : ci p 0 = H2 ^ (S p) / INR (S p).
Proof.
  unfold ci. apply (is_RInt_unique (V := R_CompleteNormedModule)).
  assert (HN : INR (S p) <> 0) by (apply not_0_INR; lia).
  apply (RInt_prim (fun x => x ^ S p / INR (S p))).
  - intros x. assert (K := Derive.is_derive_pow (fun x => x) (S p) x 1 ltac:(apply dR_id)). eapply is_derive_eq; [apply dR_div; [exact HN|exact K|apply dR_c]|].
    change (2 * 0)%nat with 0%nat. rewrite pow_O. cbn [Nat.pred]. generalize dependent (INR (S p)). intros N HN K. match goal with |- @eq _ ?a ?b => change (@eq R a b) end. field. exact HN.
  - intros x. apply ci_cont.
  - rewrite (pow_i (S p)) by lia. unfold Rdiv. ring.
Qed.
Lemma ci0_pos m : 0 < ci 0 m.
Proof.
  induction m as [|m IH].
  - rewrite ci_p0. assert (P := PI_RGT_0). cbn. lra.
  - assert (R := ci_rec0 m). assert (P := pos_INR m). assert (0 < 2 * (INR m + 1) * (2 * INR m + 1) * ci 0 m) by pos. assert (0 < 4 * (INR m + 1) ^ 2) by nra. rewrite R in *. apply Rmult_lt_reg_l with (4 * (INR m + 1) ^ 2); [auto|]. lra.
Qed.
Definition cr (p m : nat) : R := ci p m / ci 0 m.
Lemma cr_rec2 m : cr 2 m - cr 2 (S m) = / (2 * (INR m + 1) ^ 2).
Proof.
  assert (R0 := ci_rec0 m). assert (R2 := ci_rec2 m). assert (P := ci0_pos m). assert (P' := ci0_pos (S m)). assert (N := pos_INR m). unfold cr.
  assert (E : ci 0 (S m) = (2 * INR m + 1) * ci 0 m / (2 * (INR m + 1))).
  { apply Rmult_eq_reg_l with (4 * (INR m + 1) ^ 2); [|nra]. rewrite <- R0. field. lra. }
  assert (E2 : ci 2 (S m) = (2 * (INR m + 1) * (2 * INR m + 1) * ci 2 m - 2 * ci 0 (S m)) / (4 * (INR m + 1) ^ 2)) by (rewrite <- R2; field; lra).
  rewrite E2, E. field. repeat split; lra.
Qed.
Lemma cr_rec4 m : cr 4 m - cr 4 (S m) = 3 * cr 2 (S m) / (INR m + 1) ^ 2.
Proof.
  assert (R0 := ci_rec0 m). assert (R2 := ci_rec4 m). assert (P := ci0_pos m). assert (P' := ci0_pos (S m)). assert (N := pos_INR m). unfold cr.
  assert (E : ci 0 (S m) = (2 * INR m + 1) * ci 0 m / (2 * (INR m + 1))).
  { apply Rmult_eq_reg_l with (4 * (INR m + 1) ^ 2); [|nra]. rewrite <- R0. field. lra. }
  assert (E2 : ci 4 (S m) = (2 * (INR m + 1) * (2 * INR m + 1) * ci 4 m - 12 * ci 2 (S m)) / (4 * (INR m + 1) ^ 2)) by (rewrite <- R2; field; lra).
  rewrite E2, E. field. repeat split; lra.
Qed.
(** the remainders vanish *)
Lemma sin_third x : 0 <= x <= H2 -> x <= 3 * sin x.
Proof.
  intros Hx. assert (P := PI_4). destruct (pre_sin_bound x 0 ltac:(lra) ltac:(lra)) as [L _].
  unfold sin_approx, sin_term in L. cbn in L. assert (x * x <= 4) by nra.
  assert (x - x * (x * x) / 6 <= sin x) by (eapply Rle_trans; [|exact L]; right; field). nra.
Qed.
Lemma ci2_bound m : 0 <= ci 2 m <= 9 * (ci 0 m - ci 0 (S m)).
Proof.
  assert (P := PI_RGT_0). split.
  - apply (RInt_ge_0 _ 0 H2); [lra|eexists; apply ci_int|]. intros x _. apply Rmult_le_pos; [apply pow2_ge_0|]. rewrite pow_mult. apply pow_le, pow2_ge_0.
  - assert (K : is_RInt (fun x => 9 * (x ^ 0 * cos x ^ (2 * m) - x ^ 0 * cos x ^ (2 * S m))) 0 H2 (9 * (ci 0 m - ci 0 (S m)))).
    { apply (is_RInt_scal (V := R_NormedModule)), (is_RInt_minus (V := R_NormedModule)); apply ci_int. }
    apply (is_RInt_le _ _ 0 H2 _ _ ltac:(lra) (ci_int 2 m) K). intros x Hx.
    replace (2 * S m)%nat with (2 * m + 2)%nat by lia. rewrite pow_add. assert (S2 : sin x * sin x = 1 - cos x * cos x) by (assert (T := sin2_cos2 x); unfold Rsqr in T; lra).
    assert (Q : 0 <= cos x ^ (2 * m)) by (rewrite pow_mult; apply pow_le, pow2_ge_0).
    assert (B := sin_third x ltac:(lra)). replace (9 * (x ^ 0 * cos x ^ (2 * m) - x ^ 0 * (cos x ^ (2 * m) * cos x ^ 2))) with (9 * (1 - cos x * cos x) * cos x ^ (2 * m)) by ring.
    rewrite <- S2. apply Rmult_le_compat_r; [auto|]. nra.
Qed.
Lemma ci4_bound m : 0 <= ci 4 m <= 4 * ci 2 m.
Proof.
  assert (P := PI_RGT_0). assert (P4 := PI_4). assert (QQ : forall x, 0 <= x ^ 2 * cos x ^ (2 * m)) by (intros; apply Rmult_le_pos; [apply pow2_ge_0|]; rewrite pow_mult; apply pow_le, pow2_ge_0).
  split.
  - apply (RInt_ge_0 _ 0 H2); [lra|eexists; apply ci_int|]. intros x _. replace (x ^ 4 * cos x ^ (2 * m)) with (x ^ 2 * (x ^ 2 * cos x ^ (2 * m))) by ring. apply Rmult_le_pos; [apply pow2_ge_0|auto].
  - assert (K : is_RInt (fun x => 4 * (x ^ 2 * cos x ^ (2 * m))) 0 H2 (4 * ci 2 m)) by (apply (is_RInt_scal (V := R_NormedModule)), ci_int).
    apply (is_RInt_le _ _ 0 H2 _ _ ltac:(lra) (ci_int 4 m) K). intros x Hx.
    replace (x ^ 4 * cos x ^ (2 * m)) with (x ^ 2 * (x ^ 2 * cos x ^ (2 * m))) by ring. apply Rmult_le_compat_r; [auto|]. nra.
Qed.
Lemma cr2_bound m : 0 <= cr 2 m <= 5 / (INR m + 1).
Proof.
  destruct (ci2_bound m) as [A B]. assert (P := ci0_pos m). assert (R := ci_rec0 m). assert (N := pos_INR m). unfold cr. split; [now apply Rdiv_le_0_compat|].
  assert (E : ci 0 (S m) = (2 * INR m + 1) * ci 0 m / (2 * (INR m + 1))).
  { apply Rmult_eq_reg_l with (4 * (INR m + 1) ^ 2); [|nra]. rewrite <- R. field. lra. }
  rewrite E in B. replace (9 * (ci 0 m - (2 * INR m + 1) * ci 0 m / (2 * (INR m + 1)))) with (9 / 2 / (INR m + 1) * ci 0 m) in B by (field; lra).
  apply Rmult_le_reg_r with (ci 0 m); [auto|]. unfold Rdiv at 1. rewrite Rmult_assoc, Rinv_l, Rmult_1_r by lra. eapply Rle_trans; [exact B|]. apply Rmult_le_compat_r; [lra|].
  assert (0 < / (INR m + 1)) by pos. unfold Rdiv. nra.
Qed.
Lemma cr4_bound m : 0 <= cr 4 m <= 20 / (INR m + 1).
Proof.
  destruct (ci4_bound m) as [A B]. destruct (cr2_bound m) as [_ C]. assert (P := ci0_pos m). unfold cr in *. split; [now apply Rdiv_le_0_compat|].
  apply Rle_trans with (4 * (ci 2 m / ci 0 m)); [|lra]. replace (4 * (ci 2 m / ci 0 m)) with (4 * ci 2 m / ci 0 m) by (field; lra). apply Rmult_le_compat_r; [left; pos|auto].
Qed.
Lemma lim_harm (c : R) : is_lim_seq (fun n => c / (INR n + 1)) 0.
Proof.
  assert (B : is_lim_seq (fun n => INR n + 1) p_infty).
  { apply (is_lim_seq_ext (fun n => INR (S n))); [intros; apply S_INR|]. apply (is_lim_seq_incr_1 INR p_infty), is_lim_seq_INR. }
  apply is_lim_seq_inv in B; [|discriminate]. cbn in B. apply (is_lim_seq_scal_l _ c) in B. cbn in B. rewrite Rmult_0_r in B. exact B.
Qed.
Lemma lim_sandwich (f : nat -> R) (c : R) : (forall m, 0 <= f m <= c / (INR m + 1)) -> is_lim_seq f 0.
Proof. intros H. apply (is_lim_seq_le_le (fun _ => 0) f (fun m => c / (INR m + 1))); [auto|apply is_lim_seq_const|apply lim_harm]. Qed.
Lemma lim_cr2 : is_lim_seq (cr 2) 0. Proof. apply (lim_sandwich _ 5), cr2_bound. Qed.
Lemma lim_cr4 : is_lim_seq (cr 4) 0. Proof. apply (lim_sandwich _ 20), cr4_bound. Qed.

(** partial sums of 1/(k+1)^p *)
Definition zs (p n : nat) : R := sum_n (fun k => / (INR k + 1) ^ p) n.
Lemma zs_S p n : zs p (S n) = zs p n + / (INR (S n) + 1) ^ p.
Proof. unfold zs. rewrite sum_Sn. reflexivity. Qed.
Lemma zs2_cr n : zs 2 n = 2 * (cr 2 0 - cr 2 (S n)).
Proof.
  induction n as [|n IH].
  - rewrite cr_rec2. unfold zs. rewrite sum_O. cbn [INR]. field.
  - rewrite zs_S, IH. assert (R := cr_rec2 (S n)). assert (N := pos_INR (S n)).
    replace (cr 2 0 - cr 2 (S (S n))) with (cr 2 0 - cr 2 (S n) + (cr 2 (S n) - cr 2 (S (S n)))) by ring. rewrite R. field. lra.
Qed.
Lemma cr20 : cr 2 0 = PI ^ 2 / 12.
Proof. assert (P := PI_RGT_0). unfold cr. rewrite !ci_p0. cbn [INR]. field. lra. Qed.
Lemma cr40 : cr 4 0 = PI ^ 4 / 80.
Proof. assert (P := PI_RGT_0). unfold cr. rewrite !ci_p0. cbn [INR]. field. lra. Qed.
Theorem zeta2 : is_series (fun k => / (INR k + 1) ^ 2) (PI ^ 2 / 6).
Proof.
  unfold is_series. change (is_lim_seq (zs 2) (PI ^ 2 / 6)). eapply is_lim_seq_ext; [intros n; symmetry; apply zs2_cr|].
  replace (PI ^ 2 / 6) with (2 * (cr 2 0 - 0)) by (rewrite cr20; field).
  apply (is_lim_seq_scal_l _ 2 (Finite (cr 2 0 - 0))). apply is_lim_seq_minus'; [apply is_lim_seq_const|]. apply (is_lim_seq_incr_1 (cr 2)), lim_cr2.
Qed.
Lemma zs4_cr n : zs 4 n = 4 * cr 2 0 * zs 2 n - zs 2 n ^ 2 - 4 / 3 * (cr 4 0 - cr 4 (S n)).
Proof.
  induction n as [|n IH].
  - rewrite cr_rec4. assert (R := cr_rec2 0). unfold zs. rewrite !sum_O. cbn [INR] in *. replace (cr 2 0) with (cr 2 1 + / (2 * (0 + 1) ^ 2)) by lra. field.
  - rewrite !zs_S, IH. assert (R := cr_rec4 (S n)). assert (N := pos_INR (S n)).
    replace (cr 4 0 - cr 4 (S (S n))) with (cr 4 0 - cr 4 (S n) + (cr 4 (S n) - cr 4 (S (S n)))) by ring. rewrite R.
    assert (Z := zs2_cr (S n)). rewrite zs_S in Z. assert (E : cr 2 (S (S n)) = cr 2 0 - (zs 2 n + / (INR (S n) + 1) ^ 2) / 2) by lra. rewrite E. field. lra.
Qed.
Theorem zeta4 : is_series (fun k => / (INR k + 1) ^ 4) (PI ^ 4 / 90).
Proof.
  unfold is_series. change (is_lim_seq (zs 4) (PI ^ 4 / 90)). eapply is_lim_seq_ext; [intros n; symmetry; apply zs4_cr|].
  assert (Z : is_lim_seq (zs 2) (PI ^ 2 / 6)) by exact zeta2.
  replace (PI ^ 4 / 90) with (4 * cr 2 0 * (PI ^ 2 / 6) - (PI ^ 2 / 6) * (PI ^ 2 / 6) - 4 / 3 * (cr 4 0 - 0)) by (rewrite cr20, cr40; field).
  apply is_lim_seq_minus'; [apply is_lim_seq_minus'|].
  - apply (is_lim_seq_scal_l _ (4 * cr 2 0) (Finite (PI ^ 2 / 6))). exact Z.
  - eapply is_lim_seq_ext; [intros n; instantiate (1 := fun n => zs 2 n * zs 2 n); cbn; ring|]. now apply is_lim_seq_mult'.
  - apply (is_lim_seq_scal_l _ (4 / 3) (Finite (cr 4 0 - 0))). apply is_lim_seq_minus'; [apply is_lim_seq_const|]. apply (is_lim_seq_incr_1 (cr 4)), lim_cr4.
Qed.
