(** * An exact zeta function exists *)
From Coq Require Import Reals Lra Lia Psatz.
From Coquelicot Require Import Coquelicot.
From Verif.Num Require Import Scalar XReal.
From Verif.Spec Require Import DistSpec GammaSpec ZetaSpec.
From Verif.Proofs Require Import XTac Calc Improper GammaFun Subst Mellin Oracle LogGamma.
Open Scope R_scope.

Lemma zeta_step s x : 1 < s -> 0 < x -> Rpower (x + 1) (- s) <= (Rpower x (- (s - 1)) - Rpower (x + 1) (- (s - 1))) / (s - 1).
Proof.
  intros Hs Hx. assert (H1 : 0 < x + 1) by lra. set (p := s - 1) in *. assert (Hp : 0 < p) by (unfold p; lra).
  assert (L : / (x + 1) <= ln (x + 1) - ln x).
  { assert (P : 0 < (x + 1) / x) by pos. destruct (ln_sides ((x + 1) / x) P) as [_ B]. rewrite ln_div in B by lra. eapply Rle_trans; [|exact B]. right. field. lra. }
  assert (E : Rpower x (- p) = Rpower (x + 1) (- p) * exp (p * (ln (x + 1) - ln x))). { unfold Rpower. rewrite <- exp_plus. f_equal. ring. }
  assert (F : Rpower (x + 1) (- s) = Rpower (x + 1) (- p) * / (x + 1)). { replace (- s) with (- p + - (1)) by (unfold p; ring). rewrite Rpower_plus, (Rpower_Ropp _ 1), Rpower_1 by auto. reflexivity. }
  rewrite E, F. assert (A := exp_ineq1_le (p * (ln (x + 1) - ln x))). assert (Q : 0 < Rpower (x + 1) (- p)) by pos.
  apply Rmult_le_reg_r with p; [auto|]. set (D := ln (x + 1) - ln x) in *.
  replace ((Rpower (x + 1) (- p) * exp (p * D) - Rpower (x + 1) (- p)) / p * p) with (Rpower (x + 1) (- p) * (exp (p * D) - 1)) by (field; lra).
  rewrite Rmult_assoc. apply Rmult_le_compat_l; [lra|]. assert (p * / (x + 1) <= p * D) by (apply Rmult_le_compat_l; lra). lra.
Qed.
Lemma zeta_ex s : 1 < s -> ex_series (fun k => Rpower (INR k + 1) (- s)).
Proof.
  intros Hs. set (f := fun k => Rpower (INR k + 1) (- s)).
  assert (P : forall k, 0 < f k) by (intros; unfold f; pos).
  assert (B : forall n, sum_n f n <= 1 + (1 - Rpower (INR n + 1) (- (s - 1))) / (s - 1)).
  { induction n as [|n IH].
    - rewrite sum_O. unfold f. cbn [INR]. replace (0 + 1) with 1 by ring. unfold Rpower. rewrite ln_1, !Rmult_0_r, exp_0. right. field. lra.
    - rewrite sum_Sn. change (plus ?a ?b) with (a + b). assert (Z := zeta_step s (INR n + 1) Hs ltac:(generalize (pos_INR n); lra)). unfold f at 2. rewrite S_INR. unfold Rdiv in *. lra. }
  assert (L : ex_finite_lim_seq (sum_n f)).
  { apply ex_finite_lim_seq_incr with (1 + 1 / (s - 1)).
    - intros n. rewrite sum_Sn. change (plus ?a ?b) with (a + b). generalize (P (S n)). lra.
    - intros n. eapply Rle_trans; [apply B|]. apply Rplus_le_compat_l. apply Rmult_le_compat_r; [left; apply Rinv_0_lt_compat; lra|]. assert (0 < Rpower (INR n + 1) (- (s - 1))) by pos. lra. }
  destruct L as [l L]. exists l. exact L.
Qed.
(** the instance of Oracle.v with zeta *)
Definition exactz (r : bool) : Special xreal := {|
  sf_gamma := @sf_gamma _ (exact r); sf_loggamma := @sf_loggamma _ (exact r); sf_beta := @sf_beta _ (exact r); sf_logbeta := @sf_logbeta _ (exact r);
  sf_betainc := @sf_betainc _ (exact r); sf_gammainc := @sf_gammainc _ (exact r); sf_digamma := @sf_digamma _ (exact r); sf_erf := @sf_erf _ (exact r);
  sf_erfc := @sf_erfc _ (exact r); sf_norm := @sf_norm _ (exact r); sf_norm_inv := @sf_norm_inv _ (exact r);
  sf_riemann_zeta := fun x => Fin (Series (fun k => Rpower (INR k + 1) (- val x)));
  sf_hyp2f1 := @sf_hyp2f1 _ (exact r) |}.
Lemma exz_zeta r : zeta_exact (exactz r).
Proof. intros s Hs. eexists; split; [reflexivity|]. cbn [val]. apply Series_correct. now apply zeta_ex. Qed.
Lemma exz_gamma r : gamma_exact (exactz r). Proof. exact (ex_gamma r). Qed.
Lemma exz_psi r : digamma_exact (exactz r). Proof. exact (ex_psi r). Qed.
