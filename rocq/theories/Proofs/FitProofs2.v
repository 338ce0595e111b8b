(** * Log-likelihood and score of Gamma and Beta *)
From Coq Require Import Reals Lra Lia Psatz Arith ZArith List Bool.
From Coquelicot Require Import Coquelicot.
From Verif.Num Require Import Scalar XReal.
From Verif.Model Require Import Rust Constraints Probability Params Consts Continuous3.
From Verif.Spec Require Import DistSpec GammaSpec FitSpec.
From Verif.Proofs Require Import XTac Calc Calc2 Improper GammaFun Subst Mellin ContProofs11 ContProofs12 ContProofs13 ContProofs14 FitProofs1.
Import ListNotations.
Open Scope R_scope.
Notation J := (1 / 1000000000).

(** ** Gamma *)
Section Gamma.
Context {SP : Special xreal} (Hg : gamma_exact SP).
Notation gpdf a b := (rf (Gamma.pdf (Gamma.new_unchecked (Fin a) (Fin b)))).
Lemma ga_ln_pdf a b x : 0 < a -> 0 < b -> 0 < x -> ln (gpdf a b x) = a * ln b - ln (Gam a) + ((a - 1) * ln x - b * x).
Proof.
  intros Ha Hb Hx. unfold rf. rewrite (ga_pdf Hg a b Ha Hb) by now apply in0. cbn [val]. assert (G := Gam_pos a Ha). unfold ga_u, Rdiv. rewrite !ln_mult, ln_Rinv, !ln_Rpower, ln_exp by pos. ring.
Qed.
Lemma ga_ll a b xs : 0 < a -> 0 < b -> (forall x, In x xs -> 0 < x) -> Gamma.log_likelihood (Gamma.new_unchecked (Fin a) (Fin b)) (map Fin xs)
  = Fin (lsum (fun x => (a - 1) * ln (x + J) - b * (1 - x)) xs - INR (length xs) * (a * Rmax (1 / b) J + ln (Gam a))).
Proof.
  intros Ha Hb Hx. assert (G := Gam_pos a Ha). unfold Gamma.log_likelihood, Gamma.JITTER. cbn [Gamma.pr Gamma.new_unchecked Gamma.alpha Gamma.beta]. cbv zeta. rewrite map_map.
  rewrite (fsum_fin_map _ (fun x => (a - 1) * ln (x + J) - b * (1 - x))).
  - rewrite (sfg a Hg Ha). xs. now rewrite map_length, <- INR_IZR_INZ.
  - intros x Hi. specialize (Hx x Hi). xs. reflexivity.
Qed.
Lemma ga_ll_wrong a b : 0 < a -> 0 < b -> exists x0, 0 < x0 /\ forall x, x0 <= x ->
  log_lik (gpdf a b) [x] < lsum (fun x => (a - 1) * ln (x + J) - b * (1 - x)) [x] - INR (length [x]) * (a * Rmax (1 / b) J + ln (Gam a)).
Proof.
  intros Ha Hb. set (M := Rmax (1 / b) J). set (K := Rabs (a - 1) + a * M + Rabs (a * ln b) + b).
  assert (HM : 0 < M) by (apply Rlt_le_trans with (1 / b); [pos|apply Rmax_l]).
  assert (HK : 0 < K). { unfold K. assert (0 <= Rabs (a - 1)) by apply Rabs_pos. assert (0 <= Rabs (a * ln b)) by apply Rabs_pos. assert (0 < a * M) by pos. lra. }
  exists (1 + K / b). assert (0 < K / b) by pos. split; [lra|]. intros x Hx. assert (0 < x) by lra.
  unfold log_lik. cbn [lsum length]. rewrite ga_ln_pdf by auto. change (INR 1) with 1.
  assert (L1 : 0 <= ln (x + J) - ln x <= 1).
  { split; [assert (Q := ln_le x (x + J) ltac:(lra) ltac:(lra)); lra|]. assert (E : ln (x + J) - ln x = ln (1 + J / x)). { rewrite <- ln_div' by lra. f_equal. field. lra. }
    rewrite E. assert (Q := ln_le_sub1 (1 + J / x)). assert (0 < J / x) by pos. specialize (Q ltac:(lra)). assert (J / x <= 1). { apply (Rmult_le_reg_r x); [lra|]. replace (J / x * x) with J by (field; lra). lra. } lra. }
  assert (L2 : - Rabs (a - 1) <= (a - 1) * (ln (x + J) - ln x)). { assert (B := Rle_abs (- (a - 1))). rewrite Rabs_Ropp in B. assert (0 <= Rabs (a - 1)) by apply Rabs_pos. nra. }
  assert (L3 := Rle_abs (a * ln b)). assert (L4 : b + K <= b * x). { replace (b + K) with (b * (1 + K / b)) by (field; lra). apply Rmult_le_compat_l; lra. }
  unfold K in *. fold M. lra.
Qed.
Lemma ga_score_fold b xs : 0 < b -> (forall x, In x xs -> 0 < x) -> forall u v,
  fold_left (fun '(acc0, acc1) x => (acc0 + fln (fmax (x / Fin b) (Fin J)), acc1 - x)%rs) (map Fin xs) (Fin u, Fin v)
  = (Fin (u + lsum (fun x => ln (Rmax (x / b) J)) xs), Fin (v - lsum (fun x => x) xs)).
Proof.
  intros Hb. induction xs as [|x xs IH]; intros Hx u v; cbn [map fold_left lsum]; [rewrite Rplus_0_r, Rminus_0_r; reflexivity|].
  assert (0 < Rmax (x / b) J) by (apply Rlt_le_trans with J; [lra|apply Rmax_r]). xs. rewrite IH by (intros; apply Hx; now right). f_equal; f_equal; ring.
Qed.
Lemma ga_score a b xs : digamma_exact SP -> 0 < a -> 0 < b -> (forall x, In x xs -> 0 < x) -> Gamma.score (Gamma.new_unchecked (Fin a) (Fin b)) (map Fin xs)
  = Gamma.mkG (Fin (lsum (fun x => ln (Rmax (x / b) J)) xs - INR (length xs) * psi a)) (Fin (INR (length xs) * a / b - lsum (fun x => x) xs)).
Proof.
  intros Hd Ha Hb Hx. unfold Gamma.score, Gamma.JITTER. cbn [Gamma.pr Gamma.new_unchecked Gamma.alpha Gamma.beta]. cbv zeta. rewrite (sfpsi a Hd Ha). rewrite !x_lit, x_div by lra. rewrite ga_score_fold by auto.
  xs. rewrite map_length, <- INR_IZR_INZ. f_equal; f_equal; ring.
Qed.
Lemma ga_score_alpha a b xs : 0 < a -> 0 < b -> (forall x, In x xs -> 0 < x) -> is_score (fun t => gpdf t b) a xs (lsum ln xs + INR (length xs) * (ln b - psi a)).
Proof.
  intros Ha Hb Hx. replace (lsum ln xs + INR (length xs) * (ln b - psi a)) with (lsum (fun x => ln x + (ln b - psi a)) xs) by (rewrite (lsum_plus ln (fun _ => _)), lsum_const; reflexivity).
  apply score_intro. intros x Hi. specialize (Hx x Hi). apply (is_derive_ext_loc (fun t => t * ln b - ln (Gam t) + ((t - 1) * ln x - b * x))).
  - generalize (near_pos a Ha). apply filter_imp. intros t Ht. symmetry. now apply ga_ln_pdf.
  - assert (P := psi_derive a Ha). eapply is_derive_ext_eq; [|apply (is_derive_plus (fun t => t * ln b - ln (Gam t)) (fun t => (t - 1) * ln x - b * x) a (ln b - psi a) (ln x))].
    + unfold plus; cbn. ring.
    + apply (is_derive_minus (fun t => t * ln b) (fun t => ln (Gam t)) a (ln b) (psi a)); [auto_derive; [auto|ring]|exact P].
    + auto_derive; [auto|ring].
Qed.
Lemma ga_score_beta a b xs : 0 < a -> 0 < b -> (forall x, In x xs -> 0 < x) -> is_score (fun t => gpdf a t) b xs (INR (length xs) * a / b - lsum (fun x => x) xs).
Proof.
  intros Ha Hb Hx. replace (INR (length xs) * a / b - lsum (fun x => x) xs) with (lsum (fun x => a / b - x) xs) by (rewrite (lsum_minus (fun _ => _) (fun x => x)), lsum_const; field; lra).
  apply score_intro. intros x Hi. specialize (Hx x Hi). apply (is_derive_ext_loc (fun t => a * ln t - ln (Gam a) + ((a - 1) * ln x - t * x))).
  - generalize (near_pos b Hb). apply filter_imp. intros t Ht. symmetry. now apply ga_ln_pdf.
  - auto_derive; [lra|field; lra].
Qed.
End Gamma.

(** ** Beta *)
Section Beta.
Context {SP : Special xreal} (Hg : beta_exact SP) (Hl : logbeta_exact SP) (Hd : digamma_exact SP).
Notation bpdf a b := (rf (Beta.pdf (Beta.new_unchecked (Fin a) (Fin b)))).
Lemma be_ln_pdf a b x : 0 < a -> 0 < b -> 0 < x < 1 -> ln (bpdf a b x) = (a - 1) * ln x + (b - 1) * ln (1 - x) - ln (Bet a b).
Proof.
  intros Ha Hb Hx. unfold rf. rewrite (be_pdf Hg a b Ha Hb) by now apply in01. cbn [val]. assert (G := Bet_pos a b Ha Hb). unfold be_u, beta_h.
  rewrite !ln_mult, ln_Rinv, !ln_Rpower by pos. ring.
Qed.
Lemma be_ll a b xs : 0 < a -> 0 < b -> Beta.log_likelihood (Beta.new_unchecked (Fin a) (Fin b)) (map Fin xs)
  = Fin (lsum (fun x => (a - 1) * ln (Rmax x J) + (b - 1) * ln (Rmax (1 - x) J)) xs - INR (length xs) * ln (Bet a b)).
Proof.
  intros Ha Hb. unfold Beta.log_likelihood, Beta.JITTER. cbn [Beta.pr Beta.new_unchecked Beta.alpha Beta.beta]. cbv zeta. rewrite map_map.
  rewrite (fsum_fin_map _ (fun x => (a - 1) * ln (Rmax x J) + (b - 1) * ln (Rmax (1 - x) J))).
  - rewrite (sflb a b Hl Ha Hb). xs. now rewrite map_length, <- INR_IZR_INZ.
  - intros x Hi. assert (0 < Rmax x J) by (apply Rlt_le_trans with J; [lra|apply Rmax_r]). assert (0 < Rmax (1 - x) J) by (apply Rlt_le_trans with J; [lra|apply Rmax_r]). xs. reflexivity.
Qed.
Lemma be_log_lik a b xs : 0 < a -> 0 < b -> (forall x, In x xs -> 0 < x < 1) -> log_lik (bpdf a b) xs = lsum (fun x => (a - 1) * ln x + (b - 1) * ln (1 - x)) xs - INR (length xs) * ln (Bet a b).
Proof.
  intros Ha Hb Hx. unfold log_lik. rewrite <- lsum_const, <- lsum_minus. apply lsum_ext. intros; now apply be_ln_pdf, Hx.
Qed.
Lemma be_score_fold u0 v0 w xs : forall u v,
  fold_left (fun '(acc0, acc1) x => (acc0 + fln (fmax x (Fin J)) - Fin u0 + Fin (w), acc1 + fln (fmax (f_of_Z 1 - x) (Fin J)) - Fin v0 + Fin (w))%rs) (map Fin xs) (Fin u, Fin v)
  = (Fin (u + lsum (fun x => ln (Rmax x J) - u0 + w) xs), Fin (v + lsum (fun x => ln (Rmax (1 - x) J) - v0 + w) xs)).
Proof.
  induction xs as [|x xs IH]; intros u v; cbn [map fold_left lsum]; [rewrite !Rplus_0_r; reflexivity|].
  assert (0 < Rmax x J) by (apply Rlt_le_trans with J; [lra|apply Rmax_r]). assert (0 < Rmax (1 - x) J) by (apply Rlt_le_trans with J; [lra|apply Rmax_r]).
  xs. rewrite IH. f_equal; f_equal; ring.
Qed.
Lemma be_score a b xs : 0 < a -> 0 < b -> Beta.score (Beta.new_unchecked (Fin a) (Fin b)) (map Fin xs)
  = Beta.mkG (Fin (lsum (fun x => ln (Rmax x J) - psi a + psi (a + b)) xs)) (Fin (lsum (fun x => ln (Rmax (1 - x) J) - psi b + psi (a + b)) xs)).
Proof.
  intros Ha Hb. unfold Beta.score, Beta.JITTER. cbn [Beta.pr Beta.new_unchecked Beta.alpha Beta.beta]. cbv zeta. rewrite x_add, (sfpsi a Hd Ha), (sfpsi b Hd Hb), (sfpsi (a + b) Hd) by lra.
  rewrite (x_lit 0). replace (f_of_Z 1 / f_of_Z 1000000000)%rs with (Fin J : xreal) by (rewrite !x_lit, x_div by lra; reflexivity). rewrite be_score_fold, !Rplus_0_l. reflexivity.
Qed.
Lemma ln_Bet a b : 0 < a -> 0 < b -> ln (Bet a b) = ln (Gam a) + ln (Gam b) - ln (Gam (a + b)).
Proof.
  intros Ha Hb. assert (G1 := Gam_pos a Ha). assert (G2 := Gam_pos b Hb). assert (G3 := Gam_pos (a + b) ltac:(lra)).
  replace (Bet a b) with (Gam a * Gam b / Gam (a + b)) by (rewrite <- Beta_Gamma by auto; field; lra). rewrite ln_div', ln_mult by pos. ring.
Qed.
Lemma ln_Bet_derive a b : 0 < a -> 0 < b -> is_derive (fun t => ln (Bet t b)) a (psi a - psi (a + b)) /\ is_derive (fun t => ln (Bet a t)) b (psi b - psi (a + b)).
Proof.
  intros Ha Hb. assert (D1 := psi_derive a Ha). assert (D2 := psi_derive b Hb). assert (D3 := psi_derive (a + b) ltac:(lra)).
  assert (C : forall c v, is_derive (fun t => ln (Gam t)) (c + v) (psi (c + v)) -> is_derive (fun t => ln (Gam (t + v))) c (psi (c + v))).
  { intros c v Dv. eapply is_derive_ext_eq; [|apply (is_derive_comp (fun t => ln (Gam t)) (fun t => t + v) c _ 1 Dv ltac:(auto_derive; [auto|ring]))]. unfold scal; cbn; unfold mult; cbn. ring. }
  split.
  - apply (is_derive_ext_loc (fun t => ln (Gam t) + ln (Gam b) - ln (Gam (t + b)))).
    + generalize (near_pos a Ha). apply filter_imp. intros t Ht. symmetry. now apply ln_Bet.
    + apply (is_derive_minus (fun t => ln (Gam t) + ln (Gam b)) (fun t => ln (Gam (t + b))) a (psi a) (psi (a + b))); [|now apply C].
      eapply is_derive_ext_eq; [|apply (is_derive_plus (fun t => ln (Gam t)) (fun _ => ln (Gam b)) a (psi a) 0 D1)]; [unfold plus; cbn; ring|]. auto_derive; auto.
  - apply (is_derive_ext_loc (fun t => ln (Gam a) + ln (Gam t) - ln (Gam (t + a)))).
    + generalize (near_pos b Hb). apply filter_imp. intros t Ht. symmetry. rewrite (Rplus_comm t a). now apply ln_Bet.
    + rewrite (Rplus_comm a b) in *. apply (is_derive_minus (fun t => ln (Gam a) + ln (Gam t)) (fun t => ln (Gam (t + a))) b (psi b) (psi (b + a))); [|now apply C].
      eapply is_derive_ext_eq; [|apply (is_derive_plus (fun _ => ln (Gam a)) (fun t => ln (Gam t)) b 0 (psi b))]; [unfold plus; cbn; ring|auto_derive; auto|exact D2].
Qed.
Lemma be_score_true a b xs : 0 < a -> 0 < b -> (forall x, In x xs -> 0 < x < 1) ->
  is_score (fun t => bpdf t b) a xs (lsum (fun x => ln x - psi a + psi (a + b)) xs) /\ is_score (fun t => bpdf a t) b xs (lsum (fun x => ln (1 - x) - psi b + psi (a + b)) xs).
Proof.
  intros Ha Hb Hx. destruct (ln_Bet_derive a b Ha Hb) as [D1 D2]. split; apply score_intro; intros x Hi; specialize (Hx x Hi).
  - apply (is_derive_ext_loc (fun t => (t - 1) * ln x + (b - 1) * ln (1 - x) - ln (Bet t b))).
    + generalize (near_pos a Ha). apply filter_imp. intros t Ht. symmetry. now apply be_ln_pdf.
    + eapply is_derive_ext_eq; [|apply (is_derive_minus (fun t => (t - 1) * ln x + (b - 1) * ln (1 - x)) (fun t => ln (Bet t b)) a (ln x) _ ltac:(auto_derive; [auto|ring]) D1)]. unfold minus, plus, opp; cbn. ring.
  - apply (is_derive_ext_loc (fun t => (a - 1) * ln x + (t - 1) * ln (1 - x) - ln (Bet a t))).
    + generalize (near_pos b Hb). apply filter_imp. intros t Ht. symmetry. now apply be_ln_pdf.
    + eapply is_derive_ext_eq; [|apply (is_derive_minus (fun t => (a - 1) * ln x + (t - 1) * ln (1 - x)) (fun t => ln (Bet a t)) b (ln (1 - x)) _ ltac:(auto_derive; [auto|ring]) D2)]. unfold minus, plus, opp; cbn. ring.
Qed.
End Beta.
