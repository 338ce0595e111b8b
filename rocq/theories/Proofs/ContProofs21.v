(** * Student t: the distribution function, median and entropy *)
From Coq Require Import Reals Lra Lia Psatz List ZArith.
From Coquelicot Require Import Coquelicot.
From Verif.Num Require Import XReal.
From Verif.Model Require Import Rust Constraints Probability Params Consts Continuous3.
From Verif.Spec Require Import DistSpec GammaSpec ResSpec.
From Verif.Proofs Require Import XTac Calc Calc2 Gauss Gauss2 Improper GammaFun Subst Mellin HeavyTail Unique ContProofs11 ContProofs12 ContProofs13 ContProofs14 ContProofs15 ContProofs16 ContProofs20.
Import ListNotations.
Open Scope R_scope.

Section StudentT.
Import StudentT.
Context {SP : Special xreal} (Hg : gamma_exact SP).
Context (n : R) (Hn : 0 < n).
Notation d := (new_unchecked (Fin n)).
Notation cd := (fun x => unwrap (cdf d x)).
Notation b := ((n + 1) / 2).
Notation B := (Bet (1 / 2) (n / 2)).
Definition st_k (x : R) : R := Rpower (1 + x * x / n) (- b).
Lemma st_1x x : 0 < 1 + x * x / n.
Proof. assert (P := st_x n Hn x). replace (1 + x * x / n) with ((n + x * x) / n) by (field; lra). pos. Qed.
Lemma st_k_cont x : continuous st_k x.
Proof. assert (P := st_1x x). unfold st_k. eapply ex_derive_cont. dder; try lra; reflexivity. Qed.
Definition st_H (x : R) : R := RInt st_k 0 x.
Lemma st_H_derive x : is_derive st_H x (st_k x). Proof. apply (F0_derive st_k st_k_cont). Qed.
Lemma st_H_0 : st_H 0 = 0. Proof. apply (F0_0 st_k). Qed.
Notation K := (Gam b / sqrt (n * PI) / Gam (n / 2)).
Lemma st_u_k x : st_u n x = K * st_k x.
Proof. unfold st_k. rewrite st_pow, <- Rmult_assoc, st_norm by auto. reflexivity. Qed.
(** the mass of (0, x) *)
Lemma st_H_u x : RInt (st_u n) 0 x = K * st_H x.
Proof.
  unfold st_H. assert (E := RInt_scal (V := R_CompleteNormedModule) st_k 0 x K (F0_int st_k st_k_cont 0 x)).
  change (scal K (RInt st_k 0 x)) with (K * RInt st_k 0 x) in E. rewrite <- E.
  apply RInt_ext. intros y _. apply st_u_k.
Qed.
(** the hypergeometric function of the code is that mass *)
Lemma st_hyp x : x <> 0 -> is_RInt_gen (fun t => Rpower t (1 / 2 - 1) * Rpower (1 - t) (3 / 2 - 1 / 2 - 1) * Rpower (1 - - x * x / n * t) (- b)) (above 0) (below 1) (2 / x * st_H x).
Proof.
  intros Hx. assert (HC : forall t, 0 < t < 1 -> 0 < 1 - - x * x / n * t).
  { intros t Ht. assert (0 <= x * x / n * t); [|replace (- x * x / n * t) with (- (x * x / n * t)) by (field; lra); lra]. apply Rmult_le_pos; [|lra]. apply Rmult_le_pos; [apply Rle_0_sqr|left; pos]. }
  replace (2 / x * st_H x) with (2 / x * st_H (x * sqrt 1) - 2 / x * st_H (x * sqrt 0)).
  2:{ rewrite sqrt_1, sqrt_0, Rmult_0_r, st_H_0, Rmult_1_r. ring. }
  assert (CH : forall y, continuous st_H y) by (intros y; eapply ex_derive_cont; apply st_H_derive).
  assert (CT : forall t, continuous (fun t => 2 / x * st_H (x * sqrt t)) t).
  { intros t. apply (continuous_mult (K := R_AbsRing) (fun _ => 2 / x) (fun t => st_H (x * sqrt t))); [apply continuous_const|].
    apply (continuous_comp (fun t => x * sqrt t) st_H); [|apply CH]. apply (continuous_mult (K := R_AbsRing) (fun _ => x) sqrt); [apply continuous_const|apply continuous_sqrt]. }
  apply (is_RInt_gen_antiderivative 0 1 (fun t => 2 / x * st_H (x * sqrt t))); [exact lt01| | | |].
  - intros t Ht%in01f. assert (S := sqrt_lt_R0 t ltac:(lra)).
    assert (D1 : is_derive (fun t => x * sqrt t) t (x * / (2 * sqrt t))). { auto_derive; [lra|field; lra]. }
    assert (D2 := is_derive_comp (K := R_AbsRing) (V := R_NormedModule) st_H (fun t => x * sqrt t) t _ _ (st_H_derive (x * sqrt t)) D1).
    assert (D3 := dR_mult (fun _ => 2 / x) (fun t => st_H (x * sqrt t)) t _ _ (dR_c (2 / x) t) D2). revert D3. apply is_derive_ext_eq.
    change (scal (x * / (2 * sqrt t)) (st_k (x * sqrt t))) with (x * / (2 * sqrt t) * st_k (x * sqrt t)).
    replace (3 / 2 - 1 / 2 - 1) with 0 by field. rewrite Rpower_O by lra. replace (1 / 2 - 1) with (- / 2) by field. rewrite Rpower_Ropp, Rpower_sqrt by lra.
    unfold st_k. replace (x * sqrt t * (x * sqrt t)) with (x * x * t) by (rewrite <- (sqrt_sqrt t) at 1 by lra; ring).
    replace (1 - - x * x / n * t) with (1 + x * x * t / n) by (field; lra). field. split; lra.
  - intros t Ht%in01f. specialize (HC t Ht). eapply ex_derive_cont. dder; try lra. reflexivity.
  - apply lim_above_cont; [apply CT|reflexivity].
  - apply lim_below_cont; [apply CT|reflexivity].
Qed.
Lemma Bet_half_1 : is_Beta (1 / 2) (3 / 2 - 1 / 2) 2.
Proof.
  apply B_out. eapply (gen_eq 0 1); [|instantiate (1 := 2 * sqrt 1 - 2 * sqrt 0); rewrite sqrt_1, sqrt_0; ring].
  assert (CT : forall t, continuous (fun t => 2 * sqrt t) t) by (intros t; apply (continuous_mult (K := R_AbsRing) (fun _ => 2) sqrt); [apply continuous_const|apply continuous_sqrt]).
  apply (is_RInt_gen_antiderivative 0 1 (fun t => 2 * sqrt t)); [exact lt01| | | |].
  - intros t Ht%in01f. assert (S := sqrt_lt_R0 t ltac:(lra)). unfold beta_h. replace (3 / 2 - 1 / 2 - 1) with 0 by field. rewrite Rpower_O by lra. replace (1 / 2 - 1) with (- / 2) by field. rewrite Rpower_Ropp, Rpower_sqrt by lra.
    auto_derive; [lra|field; lra].
  - intros t Ht. now apply bh_cont.
  - apply lim_above_cont; [apply CT|reflexivity].
  - apply lim_below_cont; [apply CT|reflexivity].
Qed.
Lemma st_cdf x : hyp2f1_exact SP -> cdf d (Fin x) = Prob (Fin (1 / 2 + Gam (n / 2) * Gam (n / 2) * RInt (st_u n) 0 x)).
Proof.
  intros Hh. assert (G1 := Gam_pos b ltac:(lra)). assert (G2 := Gam_pos (n / 2) ltac:(lra)). assert (0 < n * PI) by pos. assert (0 < sqrt (n * PI)) by pos.
  assert (Hz : - x * x / n < 1). { assert (0 <= x * x / n) by (apply Rmult_le_pos; [apply Rle_0_sqr|left; pos]). replace (- x * x / n) with (- (x * x / n)) by (field; lra). lra. }
  destruct (Hh (1 / 2) b (3 / 2) (- x * x / n) ltac:(lra) Hz) as (v & w & V & W & E).
  unfold cdf. cbn [pr nu new_unchecked]. xs. rewrite E. rewrite !sfg by (auto; lra). xs. do 2 f_equal. rewrite st_H_u.
  assert (Ew : w = 2) by (apply (Beta_unique (1 / 2) (3 / 2 - 1 / 2)); [exact W|exact Bet_half_1]). subst w.
  destruct (Req_dec x 0) as [->|Hx]; [rewrite st_H_0; field; repeat split; lra|].
  assert (Ev : v = 2 / x * st_H x) by (apply (gen_unique 0 1 _ _ _ V (st_hyp x Hx))). subst v. field. repeat split; lra.
Qed.
Lemma st_half_mass : filterlim (fun x => RInt (st_u n) 0 x) (below p_infty) (locally (1 / 2)) /\ filterlim (fun x => RInt (st_u n) 0 x) (above m_infty) (locally (- (1 / 2))).
Proof.
  destruct (st_half_any n Hn 0 ltac:(cbn; lra)) as [l L].
  assert (L' : is_RInt_gen (st_u n) (above 0) (below p_infty) l) by (revert L; apply (gen_ext 0 p_infty); intros x; cbn; ring).
  assert (P : forall x, 0 < x -> 0 <= st_u n x) by (intros x _; left; now apply st_u_pos).
  assert (Ev : forall x, st_u n (- x) = 1 * st_u n x) by (intros x; rewrite st_u_even; ring).
  assert (W := whole (st_u n) 1 l (st_u_cont n Hn) P Ev L'). assert (T := st_total Hg n Hn).
  assert (T' : is_RInt_gen (st_u n) (above m_infty) (below p_infty) 1). { revert T. apply (gen_ext m_infty p_infty). intros x. unfold rf. now rewrite st_pdf. }
  assert (E := gen_unique m_infty p_infty _ _ _ W T'). assert (l = 1 / 2) by lra. subst l. split.
  - exact (F0_p (st_u n) (1 / 2) (st_u_cont n Hn) P L').
  - eapply fl_eq; [exact (F0_m (st_u n) 1 (1 / 2) (st_u_cont n Hn) P Ev L')|lra].
Qed.
Lemma st_median : hyp2f1_exact SP -> is_median cd 0.
Proof. intros Hh. unfold is_median. rewrite st_cdf by auto. cbn [unwrap]. rewrite RInt_point. f_equal. change (zero : R) with 0. ring. Qed.
Lemma st_cdf_lims : hyp2f1_exact SP -> filterlim (rf cd) (below p_infty) (locally (1 / 2 + Gam (n / 2) * Gam (n / 2) / 2)) /\
  filterlim (rf cd) (above m_infty) (locally (1 / 2 - Gam (n / 2) * Gam (n / 2) / 2)).
Proof.
  intros Hh. destruct st_half_mass as [A1 A2].
  split; (eapply fl_ext; [intros x; unfold rf; rewrite st_cdf by auto; reflexivity|]); (eapply fl_eq; [apply fl_plus; [apply fl_const|apply fl_mult; [apply fl_const|eassumption]]|field]).
Qed.
Lemma st_coherent : hyp2f1_exact SP -> Gam (n / 2) = 1 -> coherent m_infty p_infty cd (pdf d).
Proof.
  intros Hh E1. destruct (st_cdf_lims Hh) as [A1 A2]. rewrite E1 in A1, A2.
  apply (coherent_intro m_infty p_infty cd (pdf d) (fun x => 1 / 2 + RInt (st_u n) 0 x) (st_u n)).
  - exact I.
  - intros x _. rewrite st_cdf by auto. cbn [unwrap]. rewrite E1. f_equal. ring.
  - intros x _. now apply st_pdf.
  - intros x _. eapply is_derive_eq; [apply dR_plus; [apply dR_c|apply (F0_derive (st_u n) (st_u_cont n Hn))]|ring].
  - intros x _. now apply st_u_cont.
  - intros x _. left. now apply st_u_pos.
  - destruct st_half_mass as [_ M]. eapply fl_eq; [apply fl_plus; [apply fl_const|exact M]|field].
  - destruct st_half_mass as [M _]. eapply fl_eq; [apply fl_plus; [apply fl_const|exact M]|field].
Qed.
Lemma st_not_cdf : hyp2f1_exact SP -> Gam (n / 2) <> 1 -> ~ is_cdf m_infty p_infty cd.
Proof.
  intros Hh E1 H. destruct (st_cdf_lims Hh) as [A1 _]. assert (A := cdf_upper _ _ _ H).
  assert (U := filterlim_locally_unique (F := below p_infty) _ _ _ A1 A). assert (G := Gam_pos (n / 2) ltac:(lra)). apply E1. 
  assert (Gam (n / 2) * Gam (n / 2) = 1) by (revert U; match goal with |- @eq _ ?x ?y -> _ => change (@eq R x y -> Gam (n / 2) * Gam (n / 2) = 1) end; lra). nra.
Qed.
(** the true entropy *)
Definition st_ent : R := b * (psi b - psi (n / 2)) + ln (sqrt n * B).
Lemma st_entropy_true : is_entropy m_infty p_infty (pdf d) st_ent.
Proof.
  assert (GB := st_B n Hn). assert (0 < sqrt n) by pos.
  destruct (od_ln n (1 / 2) (n / 2) Hn ltac:(lra) ltac:(lra)) as [_ A]. replace (1 / 2 + n / 2) with b in A by field.
  assert (T := od_total n (1 / 2) (n / 2) Hn ltac:(lra) ltac:(lra)).
  (* ln((n+y)/n) >= 0 *)
  assert (A' := gen_lin 0 p_infty _ _ 1 (- ln n) _ _ A T).
  assert (A2 : is_RInt_gen (fun y => (ln (n + y) - ln n) * od_u n (1 / 2) (n / 2) y) (above 0) (below p_infty) (psi b - psi (n / 2))).
  { eapply (gen_eq 0 p_infty); [|instantiate (1 := 1 * (ln n + psi b - psi (n / 2)) + - ln n * 1); ring]. revert A'. apply (gen_ext 0 p_infty). intros x. ring. }
  apply (st_half n Hn (fun y => ln (n + y) - ln n)) in A2.
  2:{ intros y Hy%in0f. eapply ex_derive_cont. dder; try lra. reflexivity. }
  assert (W := whole (fun x => (ln (n + x * x) - ln n) * st_u n x) 1 ((psi b - psi (n / 2)) / 2)).
  specialize (W ltac:(intros x; assert (P := st_x n Hn x); apply (continuous_mult (K := R_AbsRing) (fun x => ln (n + x * x) - ln n) (st_u n)); [eapply ex_derive_cont; dder; try lra; reflexivity|now apply st_u_cont])).
  specialize (W ltac:(intros x Hx; assert (U := st_u_pos n Hn x); apply Rmult_le_pos; [|lra]; assert (ln n <= ln (n + x * x)); [|lra]; apply ln_le; [lra|]; assert (0 < x * x) by pos; lra)).
  specialize (W ltac:(intros x; cbv beta; rewrite st_u_even; replace (- x * - x) with (x * x) by ring; ring)).
  specialize (W A2). assert (T2 := st_total Hg n Hn).
  assert (Z := gen_lin m_infty p_infty _ _ b (ln (sqrt n * B)) _ _ W T2). unfold is_entropy. eapply (gen_eq m_infty p_infty); [|instantiate (1 := b * ((psi b - psi (n / 2)) / 2 + 1 * ((psi b - psi (n / 2)) / 2)) + ln (sqrt n * B) * 1); unfold st_ent; field].
  revert Z. apply (gen_ext m_infty p_infty). intros x. unfold rf. rewrite st_pdf by auto. cbn [val]. assert (P := st_x n Hn x).
  assert (EL : ln (st_u n x) = b * ln n - ln (sqrt n * B) - b * ln (n + x * x)).
  { unfold st_u, Rdiv at 1. rewrite !ln_mult, ln_Rinv, !ln_Rpower, ln_sqrt' by pos. field. }
  rewrite EL. ring.
Qed.
Lemma st_entropy_val : beta_exact SP -> shannon_entropy d = Fin (b * (Gam b - Gam (n / 2)) + sqrt n * B).
Proof.
  intros Hb. unfold shannon_entropy. cbn [pr nu new_unchecked]. xs. rewrite !sfg by (auto; lra). rewrite sfb by (auto; lra). xs. f_equal. rewrite (Bet_sym (n / 2) (1 / 2)) by lra. reflexivity.
Qed.
End StudentT.
(** an auxiliary identity *)
Lemma exp_pow_nat x (k : nat) : exp (INR k * x) = exp x ^ k.
Proof. induction k as [|k IH]; [cbn; now rewrite Rmult_0_l, exp_0|]. rewrite S_INR, Rmult_plus_distr_r, exp_plus, IH, Rmult_1_l. cbn. ring. Qed.

