(** * The oracle hypotheses are satisfiable: exact special functions exist, and
      the two readings of [gammainc] are incompatible *)
From Coq Require Import Reals Lra Lia Psatz List ZArith.
From Coquelicot Require Import Coquelicot.
From Verif.Num Require Import Scalar XReal.
From Verif.Spec Require Import DistSpec GammaSpec.
From Verif.Proofs Require Import XTac Calc Calc2 Gauss Gauss2 Improper GammaFun Subst Mellin ContProofs11.
Open Scope R_scope.

Definition lowG (a x : R) : R := RInt_gen (gamma_h a) (above 0) (at_point x).
Definition lowB (a b x : R) : R := RInt_gen (beta_h a b) (above 0) (at_point x).
Lemma lowG_spec a x : 0 < a -> 0 < x -> is_lower_gamma a x (lowG a x).
Proof.
  intros Ha Hx. destruct (Gamma_ex a Ha) as [g Hgm].
  destruct (imp_split 0 p_infty (gamma_h a) I (gh_cont a) (gh_nn a) g x (G_in _ _ Hgm) ltac:(now apply in0)) as [la [lb [A [B E]]]].
  assert (L := imp_lower 0 p_infty (gamma_h a) I (gh_cont a) (gh_nn a) x la x ltac:(now apply in0) ltac:(now apply in0) A).
  unfold lowG. rewrite (is_RInt_gen_unique (V := R_CompleteNormedModule) (Fa := above 0) (Fb := at_point x) _ _ L). exact L.
Qed.
Lemma lowB_spec a b x : 0 < a -> 0 < b -> 0 < x < 1 -> is_lower_beta a b x (lowB a b x).
Proof.
  intros Ha Hb Hx. destruct (Beta_ex a b Ha Hb) as [g Hgm].
  assert (Hn : forall t, inside 0 1 t -> 0 <= beta_h a b t) by (intros t Ht; left; now apply bh_pos).
  destruct (imp_split 0 1 (beta_h a b) Rlt_0_1 (bh_cont a b) Hn g x (B_in _ _ _ Hgm) ltac:(now apply in01)) as [la [lb [A [B E]]]].
  assert (L := imp_lower 0 1 (beta_h a b) Rlt_0_1 (bh_cont a b) Hn x la x ltac:(now apply in01) ltac:(now apply in01) A).
  unfold lowB. rewrite (is_RInt_gen_unique (V := R_CompleteNormedModule) (Fa := above 0) (Fb := at_point x) _ _ L). exact L.
Qed.
Definition exact (reg : bool) : Special xreal := {|
  sf_gamma := fun a => Fin (Gam (val a));
  sf_loggamma := fun a => Fin (ln (Gam (val a)));
  sf_beta := fun a b => Fin (Bet (val a) (val b));
  sf_logbeta := fun a b => Fin (ln (Bet (val a) (val b)));
  sf_betainc := fun x a b => Fin (lowB (val a) (val b) (val x) / Bet (val a) (val b));
  sf_gammainc := fun a x => Fin (if reg then lowG (val a) (val x) / Gam (val a) else lowG (val a) (val x));
  sf_digamma := fun a => Fin (psi (val a));
  sf_erf := fun x => Fin (2 / sqrt PI * RInt (fun t => exp (- (t * t))) 0 (val x));
  sf_erfc := fun x => Fin (2 * (1 - Phi (sqrt 2 * val x)));
  sf_norm := fun x => Fin (Phi (val x));
  sf_norm_inv := fun x => Fin (Phi_inv (val x));
  sf_riemann_zeta := fun x => Fin 0;
  sf_hyp2f1 := fun a b c z => Fin (RInt_gen (fun t => Rpower t (val a - 1) * Rpower (1 - t) (val c - val a - 1) * Rpower (1 - val z * t) (- val b)) (above 0) (below 1) / Bet (val a) (val c - val a)) |}.
Lemma ex_gamma r : gamma_exact (exact r). Proof. intros a Ha. eexists; split; [reflexivity|]. now apply Gam_spec. Qed.
Lemma ex_beta r : beta_exact (exact r). Proof. intros a b Ha Hb. eexists; split; [reflexivity|]. now apply Bet_spec. Qed.
Lemma ex_logbeta r : logbeta_exact (exact r). Proof. intros a b Ha Hb. eexists; split; [reflexivity|]. now apply Bet_spec. Qed.
Lemma ex_betainc r : betainc_exact (exact r). Proof. intros x a b Hx Ha Hb. exists (lowB a b x), (Bet a b). split; [now apply lowB_spec|]. split; [now apply Bet_spec|reflexivity]. Qed.
Lemma ex_gil : gammainc_lower (exact false). Proof. intros a x Ha Hx. exists (lowG a x). split; [now apply lowG_spec|reflexivity]. Qed.
Lemma ex_gir : gammainc_regularised (exact true). Proof. intros a x Ha Hx. exists (lowG a x), (Gam a). split; [now apply lowG_spec|]. split; [now apply Gam_spec|reflexivity]. Qed.
Lemma ex_psi r : digamma_exact (exact r). Proof. intros a Ha. exists Gam, (psi a). split; [intros; now apply Gam_spec|]. split; [now apply psi_derive|reflexivity]. Qed.
Lemma ex_erf r : erf_exact (exact r). Proof. intros x. reflexivity. Qed.
Lemma hyp_ex a b c z : 0 < a < c -> z < 1 -> exists v,
  is_RInt_gen (fun t => Rpower t (a - 1) * Rpower (1 - t) (c - a - 1) * Rpower (1 - z * t) (- b)) (above 0) (below 1) v.
Proof.
  intros Hac Hz. set (m := Rmin 1 (1 - z)). set (M := Rmax 1 (1 - z)).
  assert (Hm : 0 < m) by (unfold m, Rmin; destruct (Rle_dec _ _); lra). assert (HM : 0 < M) by (unfold M, Rmax; destruct (Rle_dec _ _); lra).
  assert (Hmid : forall t, 0 < t < 1 -> m <= 1 - z * t <= M).
  { intros t Ht. unfold m, M, Rmin, Rmax. destruct (Rle_dec 1 (1 - z)); split; nra. }
  set (K := Rpower m (- b) + Rpower M (- b)).
  assert (HK : forall t, 0 < t < 1 -> 0 <= Rpower (1 - z * t) (- b) <= K).
  { intros t Ht. destruct (Hmid t Ht) as [H1 H2]. split; [left; pos|]. unfold K. assert (0 < Rpower m (- b)) by pos. assert (0 < Rpower M (- b)) by pos.
    destruct (Rle_dec 0 b) as [Hb|Hb].
    - assert (Rpower (1 - z * t) (- b) <= Rpower m (- b)); [|lra]. rewrite !Rpower_Ropp. apply Rinv_le_contravar; [pos|]. apply Rle_Rpower_l; lra.
    - assert (Rpower (1 - z * t) (- b) <= Rpower M (- b)); [|lra]. apply Rle_Rpower_l; lra. }
  destruct (Beta_ex a (c - a) ltac:(lra) ltac:(lra)) as [g Hg].
  apply (gen_dominated 0 1 _ (fun t => K * beta_h a (c - a) t) (K * g) lt01).
  - intros t Ht%in01f. destruct (Hmid t Ht). eapply ex_derive_cont. dder; try lra. reflexivity.
  - intros t Ht. apply (continuous_mult (K := R_AbsRing) (fun _ => K) (beta_h a (c - a))); [apply continuous_const|now apply bh_cont].
  - intros t Ht. assert (B := bh_pos a (c - a) t Ht). apply in01f in Ht. destruct (HK t Ht). unfold beta_h in *. split; [apply Rmult_le_pos; lra|]. rewrite (Rmult_comm K). apply Rmult_le_compat_l; lra.
  - apply (gen_scal 0 1 _ K). exact (B_in _ _ _ Hg).
Qed.
Lemma ex_hyp r : hyp2f1_exact (exact r).
Proof.
  intros a b c z Hac Hz. destruct (hyp_ex a b c z Hac Hz) as [v V]. exists v, (Bet a (c - a)). split; [exact V|]. split; [apply Bet_spec; lra|].
  cbn [sf_hyp2f1 exact val]. rewrite (is_RInt_gen_unique (V := R_CompleteNormedModule) (Fa := above 0) (Fb := below 1) _ _ V). reflexivity.
Qed.
