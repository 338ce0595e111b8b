(** * Kumaraswamy: moments and entropy *)
From Coq Require Import Reals Lra Lia Psatz List ZArith.
From Coquelicot Require Import Coquelicot.
From Flocq Require Import Core.Raux.
From Verif.Num Require Import XReal.
From Verif.Model Require Import Rust Constraints Probability Params Consts Continuous.
From Verif.Spec Require Import DistSpec GammaSpec ResSpec.
From Verif.Proofs Require Import XTac Calc Calc2 Improper GammaFun Subst Mellin HeavyTail ExpPush Unique ContProofs2 ContProofs3 ContProofs4 ContProofs11 ContProofs13 ContProofs14 ContProofs27 ContProofs28.
Import ListNotations.
Open Scope R_scope.

Section Kumaraswamy.
Import Kumaraswamy.
Context {SP : Special xreal} (a b : R) (Ha : 0 < a) (Hb : 0 < b).
Notation d := (from (mkP (Fin a) (Fin b))).
Notation T x := (Rpower x a).
Notation u x := (a * b * Rpower x (a - 1) * Rpower (1 - T x) (b - 1)).
Notation h t := (b * Rpower (1 - t) (b - 1)).
Lemma ku_u_cont x : inside 0 1 x -> continuous (fun x => u x) x.
Proof. intros Hx. assert (K := k_pow a Ha x Hx). apply in01f in Hx. eapply ex_derive_cont. dder; try lra; auto; reflexivity. Qed.
Lemma ku_u_pos x : inside 0 1 x -> 0 < u x. Proof. intros Hx. assert (K := k_pow a Ha x Hx). apply in01f in Hx. assert (0 < 1 - T x) by lra. pos. Qed.
Lemma ku_push phi v : (forall t, inside 0 1 t -> continuous phi t) -> is_RInt_gen (fun t => phi t * h t) (above 0) (below 1) v ->
  is_expectation 0 1 (pdf d) (fun x => phi (T x)) v.
Proof.
  intros Hphi Hv. apply (push_up 0 1 0 1 (pdf d) (fun x => T x) (fun x => a * Rpower x (a - 1)) (fun t => Rpower t (1 / a)) (fun t => h t)); auto; try (cbn; lra).
  - intros x Hx. apply in01. now apply k_pow.
  - intros y Hy%in01f. split; [apply in01; split; [pos|apply Rpower_lt1; [lra|pos]]|]. now rewrite Rpower_self_inv by lra.
  - intros x Hx%in01f. assert (0 < x) by lra. split; [dder; try lra; auto; field; lra|]. eapply ex_derive_cont. dder; try lra; auto; reflexivity.
  - intros t Ht%in01f. eapply ex_derive_cont. dder; try lra; reflexivity.
  - intros x Hx%in01f. assert (0 < x) by lra. left. pos.
  - intros x Hx. rewrite k_pdf by auto. f_equal. ring.
Qed.
Notation M n := (b * Bet (1 + INR n / a) b).
Lemma ku_n n : 0 <= INR n / a. Proof. apply Rmult_le_pos; [apply pos_INR|left; pos]. Qed.
Lemma ku_moment n : is_expectation 0 1 (pdf d) (fun x => x ^ n) (M n).
Proof.
  assert (G := ku_n n).
  eapply exp_in; [cbn; lra| |apply (ku_push (fun t => Rpower t (INR n / a)))].
  - intros x Hx%in01f. cbn beta. rewrite Rpower_mult, <- Rpower_pow by lra. f_equal. field. lra.
  - intros t Ht%in01f. apply cR_pow. lra.
  - assert (A := gen_scal 0 1 _ b _ (B_in _ _ _ (Bet_spec (1 + INR n / a) b ltac:(lra) Hb))). revert A. apply (gen_ext 0 1). intros t. unfold beta_h. replace (1 + INR n / a - 1) with (INR n / a) by ring. ring.
Qed.
Lemma ku_M0 : M 0%nat = 1.
Proof.
  replace (1 + INR 0 / a) with 1 by (cbn; field; lra). assert (E := Beta_Gamma 1 b Rlt_0_1 Hb). assert (P := Gam_pos b Hb).
  rewrite Gam_1, (Rplus_comm 1 b), Gam_rec in E by auto. apply Rmult_eq_reg_r with (Gam b); lra.
Qed.
Ltac wab := first [apply ku_moment | apply ku_M0].
Notation V := (M 2%nat - M 1%nat * M 1%nat).
Lemma ku_mean : is_mean 0 1 (pdf d) (M 1%nat). Proof. apply (mean_raw 0 1 _ (fun n => M n)). wab. Qed.
Lemma ku_variance : is_variance 0 1 (pdf d) (M 1%nat) V. Proof. apply (variance_raw 0 1 _ (fun n => M n)); try wab. ring. Qed.
Lemma ku_V : 0 < V.
Proof. apply (variance_pos 0 1 (pdf d) (fun x => u x) (M 1%nat)); [cbn; lra|exact ku_u_cont|exact ku_u_pos|intros x Hx; now apply k_pdf|exact ku_variance]. Qed.
Notation SK := ((M 3%nat - 3 * M 1%nat * V - M 1%nat ^ 3) / (V * sqrt V)).
Lemma ku_skewness : is_skewness 0 1 (pdf d) SK.
Proof.
  assert (HV := ku_V). assert (HS : 0 < sqrt V) by (apply sqrt_lt_R0; exact HV).
  apply (skewness_raw 0 1 _ (fun n => M n) ku_M0 V); try wab; [ring|auto|].
  set (s := sqrt V) in *. clearbody s. set (W := V) in *. assert (EW : W = V) by reflexivity. clearbody W.
  transitivity (M 3%nat - 3 * M 1%nat * W - M 1%nat ^ 3); [rewrite EW; ring|field; split; lra].
Qed.
Notation HB := (psi (1 + b) - psi 1).
Lemma ku_entropy : is_entropy 0 1 (pdf d) ((1 - 1 / b) + (1 - 1 / a) * HB - ln (a * b)).
Proof.
  assert (G0 := ku_M0). replace (1 + INR 0 / a) with 1 in G0 by (cbn; field; lra).
  assert (P2 : psi b - psi (1 + b) = - / b) by (rewrite (Rplus_comm 1 b), psi_rec by auto; ring).
  assert (B1 : forall t, beta_h 1 b t = Rpower (1 - t) (b - 1)) by (intros t; unfold beta_h, Rpower at 1; replace (1 - 1) with 0 by ring; rewrite Rmult_0_l, exp_0; ring).
  apply (entropy_exp _ _ _ (fun x => u x)); [cbn; lra|intros x Hx; now apply k_pdf|].
  assert (A : is_expectation 0 1 (pdf d) (fun x => (1 / a - 1) * ln (T x) + ((1 - b) * ln (1 - T x) + - ln (a * b) * 1)) ((1 / a - 1) * (psi 1 - psi (1 + b)) + ((1 - b) * (psi b - psi (1 + b)) + - ln (a * b) * 1))).
  { apply exp_plus_; [apply exp_scal|apply exp_plus_; [apply exp_scal|apply exp_scal]].
    - apply (ku_push ln); [intros t Ht%in01f; eapply ex_derive_cont; apply is_derive_ln; lra|].
      refine (gen_ext 0 1 _ _ _ _ (gen_eq 0 1 _ _ _ (gen_scal 0 1 _ b _ (Bet_ln_int 1 b Rlt_0_1 Hb)) _)); [intros t; rewrite B1; ring|].
      transitivity ((psi 1 - psi (1 + b)) * (b * Bet 1 b)); [ring|rewrite G0; ring].
    - apply (ku_push (fun t => ln (1 - t))); [intros t Ht%in01f; eapply ex_derive_cont; dder; [lra|reflexivity]|].
      refine (gen_ext 0 1 _ _ _ _ (gen_eq 0 1 _ _ _ (gen_scal 0 1 _ b _ (Bet_ln1_int 1 b Rlt_0_1 Hb)) _)); [intros t; rewrite B1; ring|].
      transitivity ((psi b - psi (1 + b)) * (b * Bet 1 b)); [ring|rewrite G0; ring].
    - apply (ku_push (fun _ => 1)); [intros; apply continuous_const|].
      refine (gen_ext 0 1 _ _ _ _ (gen_eq 0 1 _ _ _ (gen_scal 0 1 _ b _ (B_in _ _ _ (Bet_spec 1 b Rlt_0_1 Hb))) _)); [intros t; rewrite B1; ring|exact G0]. }
  eapply exp_eq; [|]. eapply exp_in; [cbn; lra| |exact A].
  - intros x Hx. assert (K := k_pow a Ha x Hx). apply in01f in Hx. cbn beta. assert (0 < 1 - T x) by lra. rewrite (ln_mult (a * b * Rpower x (a - 1))), (ln_mult (a * b)), !ln_Rpower by pos. field. lra.
  - rewrite P2. field. lra.
Qed.
Context (Hg : beta_exact SP).
Lemma ku_mo n : moment_n d (Z.of_nat n) = Fin (M n).
Proof.
  assert (G := ku_n n). unfold moment_n; cbn [pr from]. rewrite (x_lit (Z.of_nat n)), <- INR_IZR_INZ. xs. rewrite sfb by first [exact Hg | lra]. now xs.
Qed.
Lemma ku_mean_val : mean d = Fin (M 1%nat). Proof. exact (ku_mo 1). Qed.
Lemma ku_var_val : variance d = Fin V.
Proof. unfold variance. change 1%Z with (Z.of_nat 1). change 2%Z with (Z.of_nat 2). rewrite !ku_mo. now xs. Qed.
Lemma ku_sk_val : skewness d = Fin SK.
Proof.
  assert (HV := ku_V). assert (HS : 0 < sqrt V) by (apply sqrt_lt_R0; exact HV).
  unfold skewness. rewrite ku_mean_val, ku_var_val. change (moment_n d 3) with (moment_n d (Z.of_nat 3)). rewrite ku_mo. xs. rewrite pow32 by auto. assert (0 < V * sqrt V) by (apply Rmult_lt_0_compat; auto). rewrite powi3. now xs.
Qed.
End Kumaraswamy.
(** harmonic numbers *)
Lemma harm_val n : Kumaraswamy.harmonic_n n = Fin (psi (1 + INR n) - psi 1).
Proof.
  unfold Kumaraswamy.harmonic_n, fsum. rewrite x_lit. induction n as [|n IH].
  - cbn. f_equal. rewrite Rplus_0_r. ring.
  - rewrite seq_S, map_app, fold_left_app, IH. cbn [map fold_left]. rewrite !x_lit, <- !INR_IZR_INZ. assert (G := pos_INR n).
    replace (INR (1 + n)) with (INR n + 1) by (rewrite plus_INR; cbn; ring). xs. f_equal. rewrite S_INR. replace (1 + (INR n + 1)) with (1 + INR n + 1) by ring. rewrite (psi_rec (1 + INR n)) by lra. field. lra.
Qed.
Lemma psi_inj x y : 0 < x -> 0 < y -> psi x = psi y -> x = y.
Proof.
  intros Hx Hy E. destruct (Rtotal_order x y) as [L|[L|L]]; [|auto|]; exfalso.
  - assert (K := psi_lt x (y - x) Hx ltac:(lra)). replace (x + (y - x)) with y in K by ring. lra.
  - assert (K := psi_lt y (x - y) Hy ltac:(lra)). replace (y + (x - y)) with x in K by ring. lra.
Qed.
Section KuEntropy.
Import Kumaraswamy.
Context (a b : R) (Ha : 0 < a) (Hb : 0 < b) (Hb2 : b < IZR (2 ^ 64)).
Lemma ku_ent_val : shannon_entropy (from (mkP (Fin a) (Fin b))) = Fin ((1 - 1 / b) + (1 - 1 / a) * (psi (1 + IZR (Zfloor b)) - psi 1) - ln (a * b)).
Proof.
  unfold shannon_entropy. cbn [pr from]. rewrite x_floor, x_to, Ztrunc_IZR.
  assert (F0 : (0 <= Zfloor b)%Z) by (apply Zfloor_lub; cbn; lra).
  assert (F1 : (Zfloor b < 2 ^ 64)%Z) by (apply lt_IZR; eapply Rle_lt_trans; [apply Zfloor_lb|exact Hb2]).
  replace (clampZ 0 USIZE_MAX (Zfloor b)) with (Zfloor b) by (unfold clampZ, USIZE_MAX, U64_MAX; lia).
  rewrite harm_val, INR_IZR_INZ, Z2Nat.id by auto. xs. reflexivity.
Qed.
End KuEntropy.

