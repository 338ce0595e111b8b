(** * Moments of the logarithm of a gamma variable *)
From Coq Require Import Reals Lra Lia Psatz.
From Coquelicot Require Import Coquelicot.
From Verif.Num Require Import XReal.
From Verif.Spec Require Import DistSpec GammaSpec.
From Verif.Proofs Require Import XTac Calc Improper GammaFun Subst Mellin Zeta.
Open Scope R_scope.

Lemma gen_dom_abs lo hi (f g : R -> R) (lg : R) : Rbar_lt lo hi ->
  (forall x, inside lo hi x -> continuous f x) -> (forall x, inside lo hi x -> continuous g x) ->
  (forall x, inside lo hi x -> Rabs (f x) <= g x) ->
  is_RInt_gen g (above lo) (below hi) lg -> exists lf, is_RInt_gen f (above lo) (below hi) lf.
Proof.
  intros Hlt Cf Cg Hle Ig.
  destruct (gen_dominated lo hi (fun t => g t - f t) (fun t => 2 * g t) (2 * lg) Hlt) as [lf Hf].
  - intros x Hx. apply (continuous_minus (V := R_NormedModule) g f); auto.
  - intros x Hx. apply (continuous_scal_r (V := R_NormedModule) 2 g). auto.
  - intros x Hx. assert (B := proj1 (Rabs_le_between _ _) (Hle x Hx)). lra.
  - now apply gen_scal.
  - exists (1 * lg + -1 * lf). assert (A := gen_lin lo hi _ _ 1 (-1) _ _ Ig Hf). revert A. apply (gen_ext lo hi). intros x. ring.
Qed.
Lemma pow_le_exp s j : 0 <= s -> s ^ j <= (INR j + 1) ^ j * exp s.
Proof.
  intros Hs. assert (N := pos_INR j). assert (A := exp_ineq1_le (s / (INR j + 1))).
  assert (Q : 0 <= s / (INR j + 1)) by (apply Rdiv_le_0_compat; lra).
  apply Rle_trans with ((INR j + 1) ^ j * exp (s / (INR j + 1)) ^ j).
  - rewrite <- Rpow_mult_distr. apply pow_incr. split; [auto|]. apply Rle_trans with ((INR j + 1) * (s / (INR j + 1))); [right; field; lra|]. apply Rmult_le_compat_l; lra.
  - apply Rmult_le_compat_l; [apply pow_le; lra|]. rewrite <- Rpower_pow by pos. unfold Rpower. rewrite ln_exp. apply exp_le_mono.
    apply Rmult_le_reg_r with (INR j + 1); [lra|]. replace (INR j * (s / (INR j + 1)) * (INR j + 1)) with (INR j * s) by (field; lra). nra.
Qed.
Lemma lnj_bound e t j : 0 < e -> 0 < t -> Rabs (ln t ^ j) <= ((INR j + 1) / e) ^ j * (Rpower t e + Rpower t (- e)).
Proof.
  intros He Ht. rewrite <- RPow_abs. assert (B := pow_le_exp (e * Rabs (ln t)) j ltac:(apply Rmult_le_pos; [lra|apply Rabs_pos])).
  rewrite Rpow_mult_distr in B. assert (P : 0 < e ^ j) by now apply pow_lt. unfold Rdiv. rewrite Rpow_mult_distr, pow_inv.
  apply Rmult_le_reg_l with (e ^ j); [auto|]. replace (e ^ j * ((INR j + 1) ^ j * / e ^ j * (Rpower t e + Rpower t (- e)))) with ((INR j + 1) ^ j * (Rpower t e + Rpower t (- e))) by (field; lra).
  eapply Rle_trans; [exact B|]. apply Rmult_le_compat_l; [apply pow_le; generalize (pos_INR j); lra|].
  unfold Rpower. replace (- e * ln t) with (- (e * ln t)) by ring. rewrite <- (Rabs_pos_eq e) at 1 by lra. rewrite <- Rabs_mult. apply exp_abs_le.
Qed.
Lemma lnj_cont j x : 0 < x -> continuous (fun t => ln t ^ j) x.
Proof. intros H. eapply ex_derive_cont. auto_derive; [auto|reflexivity]. Qed.
Lemma lg_cont j a x : inside 0 p_infty x -> continuous (fun t => ln t ^ j * gamma_h a t) x.
Proof. intros Hx. apply (continuous_mult (K := R_AbsRing) (fun t => ln t ^ j) (gamma_h a)); [now apply lnj_cont, in0f|now apply gh_cont]. Qed.
Lemma lg_ex j a : 0 < a -> exists v, is_RInt_gen (fun t => ln t ^ j * gamma_h a t) (above 0) (below p_infty) v.
Proof.
  intros Ha. set (C := ((INR j + 1) / (a / 2)) ^ j).
  assert (A := gen_lin 0 p_infty _ _ C C _ _ (G_in _ _ (Gam_spec (a + a / 2) ltac:(lra))) (G_in _ _ (Gam_spec (a - a / 2) ltac:(lra)))).
  refine (gen_dom_abs 0 p_infty _ _ _ I _ _ _ A).
  - intros; now apply lg_cont.
  - intros x Hx. apply (continuous_plus (V := R_NormedModule) (fun t => C * gamma_h (a + a / 2) t) (fun t => C * gamma_h (a - a / 2) t));
      apply (continuous_scal_r (V := R_NormedModule) C); now apply gh_cont.
  - intros x Hx. assert (P := gh_pos a x Hx). apply in0f in Hx. rewrite Rabs_mult, (Rabs_pos_eq (gamma_h a x)) by lra.
    apply Rle_trans with (C * (Rpower x (a / 2) + Rpower x (- (a / 2))) * gamma_h a x); [apply Rmult_le_compat_r; [lra|apply lnj_bound; lra]|].
    right. unfold gamma_h. replace (a + a / 2 - 1) with (a / 2 + (a - 1)) by ring. replace (a - a / 2 - 1) with (- (a / 2) + (a - 1)) by ring. rewrite !Rpower_plus. ring.
Qed.
Definition LG (j : nat) (a : R) : R := RInt_gen (fun t => ln t ^ j * gamma_h a t) (above 0) (below p_infty).
Lemma LG_spec j a : 0 < a -> is_RInt_gen (fun t => ln t ^ j * gamma_h a t) (above 0) (below p_infty) (LG j a).
Proof.
  intros Ha. destruct (lg_ex j a Ha) as [v V]. unfold LG. rewrite (is_RInt_gen_unique (V := R_CompleteNormedModule) (Fa := above 0) (Fb := below p_infty) _ _ V). exact V.
Qed.
Lemma LG_0 a : 0 < a -> LG 0 a = Gam a.
Proof.
  intros Ha. apply (gen_unique 0 p_infty (gamma_h a)); [|now apply G_in, Gam_spec]. generalize (LG_spec 0 a Ha). apply (gen_ext 0 p_infty). intros; cbn; ring.
Qed.
Lemma LG_1 a : 0 < a -> LG 1 a = psi a * Gam a.
Proof.
  intros Ha. apply (gen_unique 0 p_infty (fun t => ln t * gamma_h a t)); [|now apply Gam_ln_int]. generalize (LG_spec 1 a Ha). apply (gen_ext 0 p_infty). intros; cbn; ring.
Qed.
(** integration by parts *)
Lemma lg_lim0 j a : 0 < a -> filterlim (fun t => ln t ^ j * (Rpower t a * exp (- t))) (above 0) (locally 0).
Proof.
  intros Ha. set (C := ((INR j + 1) / (a / 2)) ^ j).
  apply (fl_squeeze_loc _ (fun t => C * ((Rpower t (a + a / 2) + Rpower t (a - a / 2)) * exp (- t)))).
  - exists (mkposreal 1 Rlt_0_1). intros x _ Hx. rewrite Rabs_mult, (Rabs_pos_eq (Rpower x a * exp (- x))) by (left; pos).
    apply Rle_trans with (C * (Rpower x (a / 2) + Rpower x (- (a / 2))) * (Rpower x a * exp (- x))); [apply Rmult_le_compat_r; [left; pos|apply lnj_bound; lra]|].
    right. replace (a + a / 2) with (a / 2 + a) by ring. replace (a - a / 2) with (- (a / 2) + a) by ring. rewrite !Rpower_plus. ring.
  - eapply fl_eq; [apply fl_mult; [apply filterlim_const|apply fl_mult; [apply fl_plus; apply pow_right0; lra|apply (lim_above_cont 0); [|reflexivity]; cont_auto; exact I]]|]. ring.
Qed.
Lemma lg_liminf j a : 0 < a -> filterlim (fun t => ln t ^ j * (Rpower t a * exp (- t))) (below p_infty) (locally 0).
Proof.
  intros Ha. set (C := ((INR j + 1) / (a / 2)) ^ j).
  apply (fl_squeeze_loc _ (fun t => C * (Rpower t (a + a / 2) * exp (- t) + Rpower t (a - a / 2) * exp (- t)))).
  - exists 0. intros x Hx. rewrite Rabs_mult, (Rabs_pos_eq (Rpower x a * exp (- x))) by (left; pos).
    apply Rle_trans with (C * (Rpower x (a / 2) + Rpower x (- (a / 2))) * (Rpower x a * exp (- x))); [apply Rmult_le_compat_r; [left; pos|apply lnj_bound; lra]|].
    right. replace (a + a / 2) with (a / 2 + a) by ring. replace (a - a / 2) with (- (a / 2) + a) by ring. rewrite !Rpower_plus. ring.
  - eapply fl_eq; [apply fl_mult; [apply filterlim_const|apply fl_plus; apply pow_exp_inf]|]. ring.
Qed.
Lemma LG_rec j a : 0 < a -> LG (S j) (a + 1) = a * LG (S j) a + (INR j + 1) * LG j a.
Proof.
  intros Ha.
  assert (A : is_RInt_gen (fun t => ln t ^ S j * gamma_h (a + 1) t - (a * (ln t ^ S j * gamma_h a t) + (INR j + 1) * (ln t ^ j * gamma_h a t))) (above 0) (below p_infty) (0 - 0)).
  { apply (is_RInt_gen_antiderivative 0 p_infty (fun t => - (ln t ^ S j * (Rpower t a * exp (- t))))).
    - exact I.
    - intros x H%in0f. assert (P : Rpower x a = Rpower x (a - 1) * x) by (rewrite <- Rpower_plus1 by auto; f_equal; ring).
      assert (D1 : is_derive (fun t => ln t ^ S j) x ((INR j + 1) * (ln x ^ j / x))). { auto_derive; [auto|]. rewrite ?S_INR. destruct j; cbn [INR]; field; lra. }
      assert (D2 : is_derive (fun t => Rpower t a * exp (- t)) x (a * gamma_h a x - gamma_h (a + 1) x)). { unfold gamma_h. dder; auto. replace (a + 1 - 1) with a by ring. ring. }
      assert (D := dR_opp _ _ _ (dR_mult _ _ _ _ _ D1 D2)). cbn beta in D. eapply is_derive_eq; [exact D|].
      unfold gamma_h. replace (a + 1 - 1) with a by ring. rewrite P, <- tech_pow_Rmult. field. lra.
    - intros x Hx. apply (continuous_minus (V := R_NormedModule) (fun t => ln t ^ S j * gamma_h (a + 1) t)); [now apply lg_cont|].
      apply (continuous_plus (V := R_NormedModule) (fun t => a * (ln t ^ S j * gamma_h a t)));
      apply (continuous_scal_r (V := R_NormedModule) _ (fun t => ln t ^ _ * gamma_h a t)); now apply lg_cont.
    - eapply fl_eq; [apply fl_opp, lg_lim0; auto|ring].
    - eapply fl_eq; [apply fl_opp, lg_liminf; auto|ring]. }
  assert (B := gen_lin 0 p_infty _ _ a (INR j + 1) _ _ (LG_spec (S j) a Ha) (LG_spec j a Ha)).
  assert (K := gen_lin 0 p_infty _ _ 1 1 _ _ A B).
  apply (gen_unique 0 p_infty (fun t => ln t ^ S j * gamma_h (a + 1) t)); [apply LG_spec; lra|].
  apply (gen_eq 0 p_infty _ _ (a * LG (S j) a + (INR j + 1) * LG j a)) in K; [|ring]. revert K. apply (gen_ext 0 p_infty). intros; ring.
Qed.
(** normalised moments and cumulants *)
Definition Lam (j : nat) (a : R) : R := LG j a / Gam a.
Lemma Lam_0 a : 0 < a -> Lam 0 a = 1. Proof. intros H. unfold Lam. rewrite LG_0 by auto. field. generalize (Gam_pos a H). lra. Qed.
Lemma Lam_rec j a : 0 < a -> Lam (S j) (a + 1) = Lam (S j) a + (INR j + 1) / a * Lam j a.
Proof. intros H. unfold Lam. rewrite LG_rec, Gam_rec by auto. field. generalize (Gam_pos a H). lra. Qed.
Definition k2 a := Lam 2 a - Lam 1 a ^ 2.
Definition k3 a := Lam 3 a - 3 * Lam 1 a * Lam 2 a + 2 * Lam 1 a ^ 3.
Definition k4 a := Lam 4 a - 4 * Lam 3 a * Lam 1 a - 3 * Lam 2 a ^ 2 + 12 * Lam 2 a * Lam 1 a ^ 2 - 6 * Lam 1 a ^ 4.
Ltac lrec := rewrite ?(Lam_rec 3), ?(Lam_rec 2), ?(Lam_rec 1), ?(Lam_rec 0), ?Lam_0 by auto; cbn [INR]; field; lra.
Lemma k2_rec a : 0 < a -> k2 (a + 1) = k2 a - / a ^ 2. Proof. intros H. unfold k2. lrec. Qed.
Lemma k3_rec a : 0 < a -> k3 (a + 1) = k3 a + 2 / a ^ 3. Proof. intros H. unfold k3. lrec. Qed.
Lemma k4_rec a : 0 < a -> k4 (a + 1) = k4 a - 6 / a ^ 4. Proof. intros H. unfold k4. lrec. Qed.

(** the cumulants vanish at infinity: moments of ln (T/a) *)
Definition N1 a := Lam 1 a - ln a.
Definition N2 a := Lam 2 a - 2 * ln a * Lam 1 a + ln a ^ 2.
Definition N3 a := Lam 3 a - 3 * ln a * Lam 2 a + 3 * ln a ^ 2 * Lam 1 a - ln a ^ 3.
Definition N4 a := Lam 4 a - 4 * ln a * Lam 3 a + 6 * ln a ^ 2 * Lam 2 a - 4 * ln a ^ 3 * Lam 1 a + ln a ^ 4.
Lemma k2_N a : k2 a = N2 a - N1 a * N1 a. Proof. unfold k2, N2, N1. ring. Qed.
Lemma k3_N a : k3 a = N3 a - 3 * (N1 a * N2 a) + 2 * (N1 a * (N1 a * N1 a)). Proof. unfold k3, N3, N2, N1. ring. Qed.
Lemma k4_N a : k4 a = N4 a - 4 * (N3 a * N1 a) - 3 * (N2 a * N2 a) + 12 * (N2 a * (N1 a * N1 a)) - 6 * ((N1 a * N1 a) * (N1 a * N1 a)).
Proof. unfold k4, N4, N3, N2, N1. ring. Qed.
Lemma lg_poly a c0 c1 c2 c3 c4 : 0 < a ->
  is_RInt_gen (fun t => (c0 + c1 * ln t + c2 * ln t ^ 2 + c3 * ln t ^ 3 + c4 * ln t ^ 4) * gamma_h a t) (above 0) (below p_infty)
    ((c0 + c1 * Lam 1 a + c2 * Lam 2 a + c3 * Lam 3 a + c4 * Lam 4 a) * Gam a).
Proof.
  intros Ha. assert (P := Gam_pos a Ha). assert (L := fun j => LG_spec j a Ha).
  assert (A := gen_lin 0 p_infty _ _ 1 1 _ _ (gen_lin 0 p_infty _ _ 1 1 _ _ (gen_lin 0 p_infty _ _ c0 c1 _ _ (L 0%nat) (L 1%nat)) (gen_lin 0 p_infty _ _ c2 c3 _ _ (L 2%nat) (L 3%nat))) (gen_scal 0 p_infty _ c4 _ (L 4%nat))).
  apply (gen_eq 0 p_infty _ _ ((c0 + c1 * Lam 1 a + c2 * Lam 2 a + c3 * Lam 3 a + c4 * Lam 4 a) * Gam a)) in A.
  - revert A. apply (gen_ext 0 p_infty). intros; ring.
  - rewrite LG_0 by auto. unfold Lam. field. lra.
Qed.
Lemma N1_int a : 0 < a -> is_RInt_gen (fun t => (ln t - ln a) * gamma_h a t) (above 0) (below p_infty) (N1 a * Gam a).
Proof. intros H. eapply (gen_eq 0 p_infty); [generalize (lg_poly a (- ln a) 1 0 0 0 H); apply (gen_ext 0 p_infty); intros; ring|unfold N1; ring]. Qed.
Lemma N2_int a : 0 < a -> is_RInt_gen (fun t => (ln t - ln a) ^ 2 * gamma_h a t) (above 0) (below p_infty) (N2 a * Gam a).
Proof. intros H. eapply (gen_eq 0 p_infty); [generalize (lg_poly a (ln a ^ 2) (- 2 * ln a) 1 0 0 H); apply (gen_ext 0 p_infty); intros; ring|unfold N2; ring]. Qed.
Lemma N3_int a : 0 < a -> is_RInt_gen (fun t => (ln t - ln a) ^ 3 * gamma_h a t) (above 0) (below p_infty) (N3 a * Gam a).
Proof. intros H. eapply (gen_eq 0 p_infty); [generalize (lg_poly a (- ln a ^ 3) (3 * ln a ^ 2) (- 3 * ln a) 1 0 H); apply (gen_ext 0 p_infty); intros; ring|unfold N3; ring]. Qed.
Lemma N4_int a : 0 < a -> is_RInt_gen (fun t => (ln t - ln a) ^ 4 * gamma_h a t) (above 0) (below p_infty) (N4 a * Gam a).
Proof. intros H. eapply (gen_eq 0 p_infty); [generalize (lg_poly a (ln a ^ 4) (- 4 * ln a ^ 3) (6 * ln a ^ 2) (- 4 * ln a) 1 H); apply (gen_ext 0 p_infty); intros; ring|unfold N4; ring]. Qed.

Lemma ln_sides x : 0 < x -> ln x <= x - 1 /\ 1 - / x <= ln x.
Proof.
  intros H. split; [now apply ln_le_sub1|]. assert (A := ln_le_sub1 (/ x) ltac:(now apply Rinv_0_lt_compat)). rewrite ln_Rinv in A by auto. lra.
Qed.
Lemma sq_between l p q : q <= l <= p -> l ^ 2 <= p ^ 2 + q ^ 2.
Proof. intros H. assert (0 <= p ^ 2) by apply pow2_ge_0. assert (0 <= q ^ 2) by apply pow2_ge_0. destruct (Rle_dec 0 l); [assert (l ^ 2 <= p ^ 2) by (apply pow_incr; lra); lra|]. assert ((- l) ^ 2 <= (- q) ^ 2) by (apply pow_incr; lra). lra. Qed.
Lemma four_between l p q : q <= l <= p -> l ^ 4 <= p ^ 4 + q ^ 4.
Proof.
  intros H. assert (S := sq_between l p q H). replace (l ^ 4) with ((l ^ 2) ^ 2) by ring. replace (p ^ 4) with ((p ^ 2) ^ 2) by ring. replace (q ^ 4) with ((q ^ 2) ^ 2) by ring.
  assert (l ^ 2 <= p ^ 2 \/ l ^ 2 <= q ^ 2) by (destruct (Rle_dec 0 l); [left; apply pow_incr; lra|right; assert ((- l) ^ 2 <= (- q) ^ 2) by (apply pow_incr; lra); lra]). assert (0 <= p ^ 2) by apply pow2_ge_0. assert (0 <= q ^ 2) by apply pow2_ge_0. assert (0 <= l ^ 2) by apply pow2_ge_0. nra.
Qed.
(** polynomial moments of the gamma law of shape b *)
Lemma mom_n b n : 0 < b -> is_RInt_gen (fun t => t ^ n * gamma_h b t) (above 0) (below p_infty) (Gam (b + INR n)).
Proof.
  intros Hb. assert (A := G_in _ _ (Gam_spec (b + INR n) ltac:(generalize (pos_INR n); lra))). revert A. apply (is_RInt_gen_inside 0 p_infty); [exact I|].
  intros t Ht%in0f. unfold gamma_h. replace (b + INR n - 1) with (INR n + (b - 1)) by ring. rewrite Rpower_plus, Rpower_pow by auto. ring.
Qed.
Lemma mom_poly b c0 c1 c2 c3 c4 c5 c6 c7 c8 : 0 < b ->
  is_RInt_gen (fun t => (c0 + c1 * t + c2 * t ^ 2 + c3 * t ^ 3 + c4 * t ^ 4 + c5 * t ^ 5 + c6 * t ^ 6 + c7 * t ^ 7 + c8 * t ^ 8) * gamma_h b t) (above 0) (below p_infty)
   ((c0 + c1 * b + c2 * (b * (b+1)) + c3 * (b * (b+1) * (b+2)) + c4 * (b * (b+1) * (b+2) * (b+3)) + c5 * (b * (b+1) * (b+2) * (b+3) * (b+4))
     + c6 * (b * (b+1) * (b+2) * (b+3) * (b+4) * (b+5)) + c7 * (b * (b+1) * (b+2) * (b+3) * (b+4) * (b+5) * (b+6)) + c8 * (b * (b+1) * (b+2) * (b+3) * (b+4) * (b+5) * (b+6) * (b+7))) * Gam b).
Proof.
  intros Hb. assert (M := fun n => mom_n b n Hb).
  assert (A := gen_lin 0 p_infty _ _ 1 1 _ _ (gen_lin 0 p_infty _ _ 1 1 _ _ (gen_lin 0 p_infty _ _ c0 c1 _ _ (M 0%nat) (M 1%nat)) (gen_lin 0 p_infty _ _ c2 c3 _ _ (M 2%nat) (M 3%nat)))
     (gen_lin 0 p_infty _ _ 1 1 _ _ (gen_lin 0 p_infty _ _ c4 c5 _ _ (M 4%nat) (M 5%nat)) (gen_lin 0 p_infty _ _ 1 c8 _ _ (gen_lin 0 p_infty _ _ c6 c7 _ _ (M 6%nat) (M 7%nat)) (M 8%nat)))).
  assert (G : forall n, Gam (b + INR (S n)) = (b + INR n) * Gam (b + INR n)).
  { intros n. rewrite S_INR. replace (b + (INR n + 1)) with (b + INR n + 1) by ring. apply Gam_rec. generalize (pos_INR n); lra. }
  rewrite !G in A. cbn [INR] in A. replace (b + 0) with b in A by ring.
  refine (gen_ext 0 p_infty _ _ _ _ (gen_eq 0 p_infty _ _ _ A _)); [intros; ring|ring].
Qed.
Lemma Gam_4 b : 0 < b -> Gam (b + 4) = b * (b + 1) * (b + 2) * (b + 3) * Gam b.
Proof.
  intros H. replace (b + 4) with (b + 1 + 1 + 1 + 1) by ring. rewrite !Gam_rec by lra. ring.
Qed.
Lemma gh_4 b t : 0 < t -> gamma_h (b + 4) t = t ^ 4 * gamma_h b t.
Proof. intros H. replace (b + 4) with (b + 1 + 1 + 1 + 1) by ring. rewrite !gh_succ by auto. ring. Qed.
Section Bounds.
Context (b : R) (Hb : 1 <= b).
Notation a := (b + 4).
Let Ha : 0 < a. Proof. lra. Qed.
Let Q := b * (b + 1) * (b + 2) * (b + 3).
Let HQ : 0 < Q. Proof. unfold Q. pos. Qed.
Lemma ln_ta t : 0 < t -> 1 - a / t <= ln t - ln a <= t / a - 1.
Proof.
  intros Ht. assert (P : 0 < t / a) by pos. destruct (ln_sides (t / a) P) as [U L]. rewrite ln_div in U, L by lra. split; [|exact U].
  replace (a / t) with (/ (t / a)) by (field; lra). exact L.
Qed.
(** comparing with a polynomial moment *)
Lemma cmp (f g : R -> R) (v w : R) : is_RInt_gen (fun t => f t * gamma_h a t) (above 0) (below p_infty) (v * Gam a) ->
  (forall t, 0 < t -> continuous f t) -> (forall t, 0 < t -> continuous g t) -> (forall t, 0 < t -> f t * t ^ 4 <= g t) ->
  is_RInt_gen (fun t => g t * gamma_h b t) (above 0) (below p_infty) (w * Gam b) -> v <= w / Q.
Proof.
  intros A Cf Cg H B. assert (P : 0 < Gam b) by (apply Gam_pos; lra). rewrite Gam_4 in A by lra. fold Q in A.
  assert (L : v * (Q * Gam b) <= w * Gam b).
  { refine (gen_le 0 p_infty _ _ _ _ I _ _ _ A B).
    - intros x Hx. apply (continuous_mult (K := R_AbsRing) f (gamma_h a)); [now apply Cf, in0f|now apply gh_cont].
    - intros x Hx. apply (continuous_mult (K := R_AbsRing) g (gamma_h b)); [now apply Cg, in0f|now apply gh_cont].
    - intros x Hx. assert (K := gh_pos b x Hx). apply in0f in Hx. rewrite gh_4 by auto. rewrite <- Rmult_assoc. apply Rmult_le_compat_r; [lra|auto]. }
  apply Rmult_le_reg_r with Q; [auto|]. replace (w / Q * Q) with w by (field; lra). apply Rmult_le_reg_r with (Gam b); [auto|]. lra.
Qed.
Ltac cpoly := intros; eapply ex_derive_cont; auto_derive; [repeat split; lra|reflexivity].
Lemma N1_up : N1 a <= 0.
Proof.
  eapply Rle_trans; [apply (cmp (fun t => ln t - ln a) (fun t => t ^ 5 / a - t ^ 4) (N1 a) ((b * (b+1) * (b+2) * (b+3) * (b+4)) / a - b * (b+1) * (b+2) * (b+3)))|].
  - now apply N1_int.
  - cpoly. - cpoly.
  - intros t Ht. destruct (ln_ta t Ht) as [_ U]. replace (t ^ 5 / a - t ^ 4) with ((t / a - 1) * t ^ 4) by (field; lra). apply Rmult_le_compat_r; [apply pow_le; lra|auto].
  - eapply (gen_eq 0 p_infty); [generalize (mom_poly b 0 0 0 0 (-1) (/ a) 0 0 0 ltac:(lra)); apply (gen_ext 0 p_infty); intros; field; lra|field; lra].
  - right. unfold Q. field. lra.
Qed.
Lemma N1_lo : - / b <= N1 a.
Proof.
  assert (U : - N1 a <= (a * (b * (b+1) * (b+2)) - b * (b+1) * (b+2) * (b+3)) / Q).
  { apply (cmp (fun t => - (ln t - ln a)) (fun t => a * t ^ 3 - t ^ 4)).
    - eapply (gen_eq 0 p_infty); [generalize (gen_scal 0 p_infty _ (-1) _ (N1_int a Ha)); apply (gen_ext 0 p_infty); intros; ring|ring].
    - cpoly. - cpoly.
    - intros t Ht. destruct (ln_ta t Ht) as [U _]. replace (a * t ^ 3 - t ^ 4) with ((a / t - 1) * t ^ 4) by (field; lra). apply Rmult_le_compat_r; [apply pow_le; lra|lra].
    - eapply (gen_eq 0 p_infty); [generalize (mom_poly b 0 0 0 a (-1) 0 0 0 0 ltac:(lra)); apply (gen_ext 0 p_infty); intros; ring|ring]. }
  replace ((a * (b * (b+1) * (b+2)) - b * (b+1) * (b+2) * (b+3)) / Q) with (/ (b + 3)) in U by (unfold Q; field; lra).
  assert (/ (b + 3) <= / b) by (apply Rinv_le_contravar; lra). lra.
Qed.
Lemma N2_up : N2 a <= 4 / b.
Proof.
  eapply Rle_trans; [apply (cmp (fun t => (ln t - ln a) ^ 2) (fun t => (t / a - 1) ^ 2 * t ^ 4 + (t - a) ^ 2 * t ^ 2) (N2 a)
     (Q * ((b+5) / (b + 4) - 1) + (Q - 2 * a * (b * (b+1) * (b+2)) + a ^ 2 * (b * (b+1)))))|].
  - now apply N2_int.
  - cpoly. - cpoly.
  - intros t Ht. assert (B := sq_between _ _ _ (ln_ta t Ht)). apply (Rmult_le_compat_r (t ^ 4)) in B; [|apply pow_le; lra]. eapply Rle_trans; [exact B|]. right. field. lra.
  - eapply (gen_eq 0 p_infty); [generalize (mom_poly b 0 0 (a ^ 2) (- 2 * a) (1 + 1) (- 2 / a) (/ a ^ 2) 0 0 ltac:(lra)); apply (gen_ext 0 p_infty); intros; field; lra|unfold Q; field; lra].
  - apply Rmult_le_reg_r with (Q * (b + 4)); [pos|]. replace ((Q * ((b + 5) / (b + 4) - 1) + (Q - 2 * a * (b * (b + 1) * (b + 2)) + a ^ 2 * (b * (b + 1)))) / Q * (Q * (b + 4))) with (Q + (b + 4) * (Q - 2 * a * (b * (b + 1) * (b + 2)) + a ^ 2 * (b * (b + 1)))) by (field; lra).
    replace (4 / b * (Q * (b + 4))) with (4 * ((b + 1) * (b + 2) * (b + 3)) * (b + 4)) by (unfold Q; field; lra). unfold Q.
    replace (b * (b + 1) * (b + 2) * (b + 3) - 2 * a * (b * (b + 1) * (b + 2)) + a ^ 2 * (b * (b + 1))) with (b * (b + 1) * (b + 6)) by ring.
    assert (0 <= (b + 1) * (4 * ((b + 2) * (b + 3)) * (b + 4) - b * (b + 2) * (b + 3) - (b + 4) * b * (b + 6))); [|lra].
    apply Rmult_le_pos; [lra|]. nra.
Qed.
Lemma N4_up : N4 a <= 52 / b.
Proof.
  eapply Rle_trans; [apply (cmp (fun t => (ln t - ln a) ^ 4) (fun t => (t / a - 1) ^ 4 * t ^ 4 + (t - a) ^ 4) (N4 a) (Q * ((3 * b + 18) / a ^ 3) + (3 * b ^ 2 + 70 * b + 256)))|].
  - now apply N4_int.
  - cpoly. - cpoly.
  - intros t Ht. assert (B := four_between _ _ _ (ln_ta t Ht)). apply (Rmult_le_compat_r (t ^ 4)) in B; [|apply pow_le; lra]. eapply Rle_trans; [exact B|]. right. field. lra.
  - eapply (gen_eq 0 p_infty); [generalize (mom_poly b (a ^ 4) (- 4 * a ^ 3) (6 * a ^ 2) (- 4 * a) (1 + 1) (- 4 / a) (6 / a ^ 2) (- 4 / a ^ 3) (/ a ^ 4) ltac:(lra)); apply (gen_ext 0 p_infty); intros; field; lra|unfold Q; field; lra].
  - replace ((Q * ((3 * b + 18) / a ^ 3) + (3 * b ^ 2 + 70 * b + 256)) / Q) with ((3 * b + 18) / a ^ 3 + (3 * b ^ 2 + 70 * b + 256) / Q) by (field; lra).
    replace (52 / b) with (9 / b + 43 / b) by (field; lra). apply Rplus_le_compat.
    + apply Rmult_le_reg_r with (b * a ^ 3); [apply Rmult_lt_0_compat; [lra|apply pow_lt; lra]|]. replace ((3 * b + 18) / a ^ 3 * (b * a ^ 3)) with ((3 * b + 18) * b) by (field; lra). replace (9 / b * (b * a ^ 3)) with (9 * a ^ 3) by (field; lra). nra.
    + apply Rmult_le_reg_r with Q; [auto|]. replace ((3 * b ^ 2 + 70 * b + 256) / Q * Q) with (3 * b ^ 2 + 70 * b + 256) by (field; lra).
      replace (43 / b * Q) with (43 * ((b + 1) * (b + 2) * (b + 3))) by (unfold Q; field; lra). nra.
Qed.
Lemma N2_nn : 0 <= N2 a.
Proof.
  assert (P : 0 < Gam a) by (apply Gam_pos; lra). apply Rmult_le_reg_r with (Gam a); [auto|]. rewrite Rmult_0_l.
  assert (Z := gen_scal 0 p_infty _ 0 _ (G_in _ _ (Gam_spec a Ha))). rewrite Rmult_0_l in Z. refine (gen_le 0 p_infty _ _ _ _ I _ _ _ Z (N2_int a Ha)).
  - intros. apply (continuous_scal_r (V := R_NormedModule) 0). now apply gh_cont.
  - intros x Hx. apply (continuous_mult (K := R_AbsRing) (fun t => (ln t - ln a) ^ 2) (gamma_h a)); [|now apply gh_cont]. apply in0f in Hx. cpoly.
  - intros x Hx. rewrite Rmult_0_l. apply Rmult_le_pos; [apply pow2_ge_0|left; now apply gh_pos].
Qed.
Lemma N4_nn : 0 <= N4 a.
Proof.
  assert (P : 0 < Gam a) by (apply Gam_pos; lra). apply Rmult_le_reg_r with (Gam a); [auto|]. rewrite Rmult_0_l.
  assert (Z := gen_scal 0 p_infty _ 0 _ (G_in _ _ (Gam_spec a Ha))). rewrite Rmult_0_l in Z. refine (gen_le 0 p_infty _ _ _ _ I _ _ _ Z (N4_int a Ha)).
  - intros. apply (continuous_scal_r (V := R_NormedModule) 0). now apply gh_cont.
  - intros x Hx. apply (continuous_mult (K := R_AbsRing) (fun t => (ln t - ln a) ^ 4) (gamma_h a)); [|now apply gh_cont]. apply in0f in Hx. cpoly.
  - intros x Hx. rewrite Rmult_0_l. apply Rmult_le_pos; [|left; now apply gh_pos]. replace ((ln x - ln a) ^ 4) with (((ln x - ln a) ^ 2) ^ 2) by ring. apply pow2_ge_0.
Qed.
Lemma N3_bd (e : R) : e = 1 \/ e = -1 -> e * N3 a <= (N2 a + N4 a) / 2.
Proof.
  intros He. assert (P : 0 < Gam a) by (apply Gam_pos; lra). apply Rmult_le_reg_r with (Gam a); [auto|].
  assert (A := gen_scal 0 p_infty _ e _ (N3_int a Ha)). assert (B := gen_lin 0 p_infty _ _ (/ 2) (/ 2) _ _ (N2_int a Ha) (N4_int a Ha)).
  replace (e * N3 a * Gam a) with (e * (N3 a * Gam a)) by ring. replace ((N2 a + N4 a) / 2 * Gam a) with (/ 2 * (N2 a * Gam a) + / 2 * (N4 a * Gam a)) by field.
  refine (gen_le 0 p_infty _ _ _ _ I _ _ _ A B).
  - intros x Hx. apply (continuous_scal_r (V := R_NormedModule) e (fun t => (ln t - ln a) ^ 3 * gamma_h a t)).
    apply (continuous_mult (K := R_AbsRing) (fun t => (ln t - ln a) ^ 3) (gamma_h a)); [|now apply gh_cont]. apply in0f in Hx. cpoly.
  - intros x Hx. apply (continuous_plus (V := R_NormedModule) (fun t => / 2 * ((ln t - ln a) ^ 2 * gamma_h a t)) (fun t => / 2 * ((ln t - ln a) ^ 4 * gamma_h a t)));
     [apply (continuous_scal_r (V := R_NormedModule) (/ 2) (fun t => (ln t - ln a) ^ 2 * gamma_h a t))|apply (continuous_scal_r (V := R_NormedModule) (/ 2) (fun t => (ln t - ln a) ^ 4 * gamma_h a t))].
    + apply (continuous_mult (K := R_AbsRing) (fun t => (ln t - ln a) ^ 2) (gamma_h a)); [|now apply gh_cont]. apply in0f in Hx. cpoly.
    + apply (continuous_mult (K := R_AbsRing) (fun t => (ln t - ln a) ^ 4) (gamma_h a)); [|now apply gh_cont]. apply in0f in Hx. cpoly.
  - intros x Hx. assert (K := gh_pos a x Hx). set (l := ln x - ln a).
    replace (e * (l ^ 3 * gamma_h a x)) with (e * l ^ 3 * gamma_h a x) by ring. replace (/ 2 * (l ^ 2 * gamma_h a x) + / 2 * (l ^ 4 * gamma_h a x)) with ((l ^ 2 + l ^ 4) / 2 * gamma_h a x) by field.
    apply Rmult_le_compat_r; [lra|]. assert (0 <= (l - e * l ^ 2) ^ 2) by apply pow2_ge_0. assert (e * e = 1) by (destruct He; subst; ring). replace ((l - e * l ^ 2) ^ 2) with (l ^ 2 - 2 * (e * l ^ 3) + (e * e) * l ^ 4) in H by ring. rewrite H0 in H. lra.
Qed.
End Bounds.
Lemma seq5 n : 1 <= INR n + 1. Proof. generalize (pos_INR n). lra. Qed.
Lemma lim_abs (f : nat -> R) (c : R) : (forall n, Rabs (f n) <= c / (INR n + 1)) -> is_lim_seq f 0.
Proof.
  intros H. apply (is_lim_seq_le_le (fun n => (- c) / (INR n + 1)) f (fun n => c / (INR n + 1))); [|apply lim_harm|apply lim_harm].
  intros n. assert (B := proj1 (Rabs_le_between _ _) (H n)). unfold Rdiv in *. lra.
Qed.
Lemma N1_lim : is_lim_seq (fun n => N1 (INR n + 1 + 4)) 0.
Proof. apply (lim_abs _ 1). intros n. assert (A := N1_up _ (seq5 n)). assert (B := N1_lo _ (seq5 n)). assert (0 < / (INR n + 1)) by (apply Rinv_0_lt_compat; generalize (seq5 n); lra). apply Rabs_le_between. lra. Qed.
Lemma N2_lim : is_lim_seq (fun n => N2 (INR n + 1 + 4)) 0.
Proof. apply (lim_abs _ 4). intros n. assert (A := N2_up _ (seq5 n)). assert (B := N2_nn _ (seq5 n)). rewrite Rabs_pos_eq; auto. Qed.
Lemma N4_lim : is_lim_seq (fun n => N4 (INR n + 1 + 4)) 0.
Proof. apply (lim_abs _ 52). intros n. assert (A := N4_up _ (seq5 n)). assert (B := N4_nn _ (seq5 n)). rewrite Rabs_pos_eq; auto. Qed.
Lemma N3_lim : is_lim_seq (fun n => N3 (INR n + 1 + 4)) 0.
Proof.
  apply (lim_abs _ 28). intros n. assert (A := N2_up _ (seq5 n)). assert (B := N4_up _ (seq5 n)). assert (C := N3_bd _ (seq5 n) 1 ltac:(auto)). assert (D := N3_bd _ (seq5 n) (-1) ltac:(auto)).
  apply Rabs_le_between. unfold Rdiv in *. lra.
Qed.
Lemma lim0_mult (f g : nat -> R) : is_lim_seq f 0 -> is_lim_seq g 0 -> is_lim_seq (fun n => f n * g n) 0.
Proof. intros A B. replace 0 with (0 * 0) by ring. now apply is_lim_seq_mult'. Qed.
Lemma lim0_scal (f : nat -> R) c : is_lim_seq f 0 -> is_lim_seq (fun n => c * f n) 0.
Proof. intros A. replace 0 with (c * 0) by ring. apply (is_lim_seq_scal_l f c (Finite 0)). exact A. Qed.
Lemma lim0_plus (f g : nat -> R) : is_lim_seq f 0 -> is_lim_seq g 0 -> is_lim_seq (fun n => f n + g n) 0.
Proof. intros A B. replace 0 with (0 + 0) by ring. now apply is_lim_seq_plus'. Qed.
Lemma lim0_minus (f g : nat -> R) : is_lim_seq f 0 -> is_lim_seq g 0 -> is_lim_seq (fun n => f n - g n) 0.
Proof. intros A B. replace 0 with (0 - 0) by ring. now apply is_lim_seq_minus'. Qed.
Ltac lim0 := repeat first [exact N1_lim | exact N2_lim | exact N3_lim | exact N4_lim
  | lazymatch goal with |- is_lim_seq (fun n => _ - _) _ => apply lim0_minus | |- is_lim_seq (fun n => N1 _ * _) _ => apply lim0_mult | |- is_lim_seq (fun n => N2 _ * _) _ => apply lim0_mult
     | |- is_lim_seq (fun n => N3 _ * _) _ => apply lim0_mult | |- is_lim_seq (fun n => (_ * _) * _) _ => apply lim0_mult | |- is_lim_seq (fun n => _ * _) _ => apply lim0_scal | |- is_lim_seq (fun n => _ + _) _ => apply lim0_plus end].
Lemma k2_lim : is_lim_seq (fun n => k2 (INR n + 1 + 4)) 0.
Proof. eapply is_lim_seq_ext; [intros; symmetry; apply k2_N|]. lim0. Qed.
Lemma k3_lim : is_lim_seq (fun n => k3 (INR n + 1 + 4)) 0.
Proof. eapply is_lim_seq_ext; [intros; symmetry; apply k3_N|]. lim0. Qed.
Lemma k4_lim : is_lim_seq (fun n => k4 (INR n + 1 + 4)) 0.
Proof. eapply is_lim_seq_ext; [intros; symmetry; apply k4_N|]. lim0. Qed.
Lemma shift5 (f : R -> R) : is_lim_seq (fun n => f (INR n + 1 + 4)) 0 -> is_lim_seq (fun n => f (INR (S n) + 1)) 0.
Proof.
  intros H. apply (is_lim_seq_incr_n _ 3). eapply is_lim_seq_ext; [|exact H]. intros n. cbn beta. f_equal. rewrite S_INR, plus_INR. cbn [INR]. ring.
Qed.
Lemma k2_zs n : zs 2 n = k2 1 - k2 (INR (S n) + 1).
Proof.
  induction n as [|n IH].
  - unfold zs. rewrite sum_O. cbn [INR]. replace (1 + 1) with (1 + 1) by ring. rewrite k2_rec by lra. replace (0 + 1) with 1 by ring. ring.
  - rewrite zs_S, IH. rewrite (S_INR (S n)). rewrite (k2_rec (INR (S n) + 1)) by (generalize (pos_INR (S n)); lra). ring.
Qed.
Lemma k3_zs n : zs 3 n = (k3 (INR (S n) + 1) - k3 1) / 2.
Proof.
  induction n as [|n IH].
  - unfold zs. rewrite sum_O. cbn [INR]. rewrite k3_rec by lra. replace (0 + 1) with 1 by ring. field.
  - rewrite zs_S, IH. rewrite (S_INR (S n)). assert (0 < INR (S n) + 1) by (generalize (pos_INR (S n)); lra). rewrite (k3_rec (INR (S n) + 1)) by auto. field. lra.
Qed.
Lemma k4_zs n : zs 4 n = (k4 1 - k4 (INR (S n) + 1)) / 6.
Proof.
  induction n as [|n IH].
  - unfold zs. rewrite sum_O. cbn [INR]. rewrite k4_rec by lra. replace (0 + 1) with 1 by ring. field.
  - rewrite zs_S, IH. rewrite (S_INR (S n)). assert (0 < INR (S n) + 1) by (generalize (pos_INR (S n)); lra). rewrite (k4_rec (INR (S n) + 1)) by auto. field. lra.
Qed.
Theorem k2_1 : k2 1 = PI ^ 2 / 6.
Proof.
  assert (Z : is_lim_seq (zs 2) (PI ^ 2 / 6)) by exact zeta2.
  assert (L : is_lim_seq (zs 2) (k2 1 - 0)). { eapply is_lim_seq_ext; [intros; symmetry; apply k2_zs|]. apply is_lim_seq_minus'; [apply is_lim_seq_const|apply shift5, k2_lim]. }
  apply is_lim_seq_unique in Z, L. rewrite L in Z. injection Z. lra.
Qed.
Theorem k4_1 : k4 1 = 6 * (PI ^ 4 / 90).
Proof.
  assert (Z : is_lim_seq (zs 4) (PI ^ 4 / 90)) by exact zeta4.
  assert (L : is_lim_seq (zs 4) (/ 6 * (k4 1 - 0))).
  { eapply is_lim_seq_ext; [intros; symmetry; etransitivity; [apply k4_zs|unfold Rdiv; apply Rmult_comm]|]. apply (is_lim_seq_scal_l _ (/ 6) (Finite (k4 1 - 0))). apply is_lim_seq_minus'; [apply is_lim_seq_const|apply shift5, k4_lim]. }
  apply is_lim_seq_unique in Z, L. rewrite L in Z. injection Z. lra.
Qed.
Theorem k3_1 : is_series (fun k => / (INR k + 1) ^ 3) (- k3 1 / 2).
Proof.
  unfold is_series. change (is_lim_seq (zs 3) (- k3 1 / 2)). replace (- k3 1 / 2) with (/ 2 * (0 - k3 1)) by field.
  eapply is_lim_seq_ext; [intros; symmetry; etransitivity; [apply k3_zs|unfold Rdiv; apply Rmult_comm]|]. apply (is_lim_seq_scal_l _ (/ 2) (Finite (0 - k3 1))). apply is_lim_seq_minus'; [apply shift5, k3_lim|apply is_lim_seq_const].
Qed.
