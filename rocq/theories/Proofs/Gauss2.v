(** * Polynomial times Gaussian; inverse of Phi *)
From Coq Require Import Reals Lra Lia Psatz List.
From Coquelicot Require Import Coquelicot.
From Verif.Num Require Import XReal.
From Verif.Spec Require Import DistSpec.
From Verif.Proofs Require Import XTac Calc Gauss.
Import ListNotations.
Open Scope R_scope.

Lemma gauss_le (x : R) : exp (- (x * x / 2)) <= exp (1 / 2) * exp (- x).
Proof. rewrite <- exp_plus. apply exp_le_mono. assert (0 <= (x - 1) * (x - 1)) by apply Rle_0_sqr. lra. Qed.
Lemma phi_even x : phi (- x) = phi x.
Proof. unfold phi. do 3 f_equal. field. Qed.
Lemma sqrt2PI_pos : 0 < sqrt (2 * PI).
Proof. apply sqrt_lt_R0. assert (P := PI_RGT_0). lra. Qed.
Lemma phi_exp x : sqrt (2 * PI) * phi x = exp (- (x * x / 2)).
Proof. unfold phi. assert (P := sqrt2PI_pos). field. lra. Qed.
Lemma poly_phi_p l : filterlim (fun x => peval l x * phi x) (Rbar_locally p_infty) (locally 0).
Proof.
  assert (P := sqrt2PI_pos). set (C := exp (1 / 2) / sqrt (2 * PI)).
  apply (fl_squeeze _ (fun x => C * Rabs (peval l x * exp (- (1 * x))))).
  - intros x. rewrite !Rabs_mult, (Rabs_pos_eq (phi x)) by (apply Rlt_le, phi_pos). rewrite (Rabs_pos_eq (exp _)) by pos.
    replace (C * (Rabs (peval l x) * exp (- (1 * x)))) with (Rabs (peval l x) * (C * exp (- (1 * x)))) by ring.
    apply Rmult_le_compat_l; [pos|]. replace (1 * x) with x by ring.
    replace (C * exp (- x)) with (exp (1 / 2) * exp (- x) * / sqrt (2 * PI)) by (unfold C, Rdiv; ring).
    apply Rmult_le_compat_r; [apply Rlt_le, Rinv_0_lt_compat; lra|apply gauss_le].
  - eapply fl_eq; [apply fl_mult; [apply fl_const|apply (fl_cont Rabs); [apply continuous_Rabs|apply (lim_peval_exp l 1 Rlt_0_1)]]|].
    rewrite Rabs_R0. ring.
Qed.
Fixpoint palt (l : list R) : list R := match l with nil => nil | a :: l => a :: map Ropp (palt l) end.
Lemma peval_opp l x : peval (map Ropp l) x = - peval l x.
Proof. induction l; cbn; [ring|rewrite IHl; ring]. Qed.
Lemma palt_spec l x : peval (palt l) x = peval l (- x).
Proof. induction l; cbn; [ring|]. rewrite peval_opp, IHl. ring. Qed.
Lemma poly_phi_m l : filterlim (fun x => peval l x * phi x) (Rbar_locally m_infty) (locally 0).
Proof.
  apply filterlim_ext with (fun x => peval (palt l) (- x) * phi (- x)).
  { intros x. now rewrite palt_spec, Ropp_involutive, phi_even. }
  apply (filterlim_comp _ _ _ Ropp (fun y => peval (palt l) y * phi y) _ (Rbar_locally p_infty)); [apply opp_m|apply poly_phi_p].
Qed.
Lemma phi_derive x : is_derive phi x (- x * phi x).
Proof.
  assert (P := sqrt2PI_pos). unfold phi. dder; try lra; field; lra.
Qed.

(** Phi is a bijection onto (0,1) *)
Lemma Phi_mono x y : x < y -> Phi x < Phi y.
Proof.
  intros H. apply (incr_function Phi m_infty p_infty phi); cbn; auto.
  - intros; apply Phi_derive. - intros; apply phi_pos.
Qed.
Lemma Phi_surj p : 0 < p < 1 -> exists q, Phi q = p.
Proof.
  intros Hp.
  assert (exists a, Phi a < p) as [a Ha].
  { destruct (proj1 (filterlim_locally Phi 0) Phi_lim_m (mkposreal p ltac:(lra))) as [M HM]. exists (M - 1). specialize (HM (M - 1) ltac:(lra)).
    unfold ball in HM; cbn in HM; unfold AbsRing_ball, abs, minus, plus, opp in HM; cbn in HM. apply Rabs_def2 in HM. lra. }
  assert (exists b, p < Phi b) as [b Hb].
  { destruct (proj1 (filterlim_locally Phi 1) Phi_lim_p (mkposreal (1 - p) ltac:(lra))) as [M HM]. exists (M + 1). specialize (HM (M + 1) ltac:(lra)).
    unfold ball in HM; cbn in HM; unfold AbsRing_ball, abs, minus, plus, opp in HM; cbn in HM. apply Rabs_def2 in HM. lra. }
  assert (a < b). { apply Rnot_le_lt; intros H. destruct H as [H| ->]; [|lra]. apply Phi_mono in H. lra. }
  destruct (IVT_gen Phi a b p) as [q [Hq Eq]].
  - intros x. apply continuity_pt_filterlim. apply (ex_derive_continuous Phi). eexists; apply Phi_derive.
  - rewrite Rmin_left, Rmax_right by lra. lra.
  - now exists q.
Qed.
Definition Phi_inv (p : R) : R := real (Glb_Rbar (fun q => p <= Phi q)).
Lemma Phi_inv_spec p : 0 < p < 1 -> Phi (Phi_inv p) = p.
Proof.
  intros H. destruct (Phi_surj p H) as [q Hq]. unfold Phi_inv.
  rewrite (is_glb_Rbar_unique _ (Finite q)); [exact Hq|]. split.
  - intros x Hx. cbn. apply Rnot_lt_le; intros Hl. apply Phi_mono in Hl. lra.
  - intros b Hb. apply Hb. lra.
Qed.
