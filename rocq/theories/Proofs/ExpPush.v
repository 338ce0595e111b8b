(** * Densities that are images of the standard exponential law under a monotone map *)
From Coq Require Import Reals Lra Lia Psatz.
From Coquelicot Require Import Coquelicot.
From Verif.Num Require Import XReal.
From Verif.Spec Require Import DistSpec GammaSpec.
From Verif.Proofs Require Import XTac Calc Improper GammaFun Subst Mellin.
Open Scope R_scope.

Lemma above_wit lo hi (P : R -> Prop) : Rbar_lt lo hi -> above lo P -> exists y0, inside lo hi y0 /\ forall y, inside lo hi y -> y <= y0 -> P y.
Proof.
  intros Hlt HP. assert (NP : lo <> p_infty) by (intros ->; destruct hi; cbn in *; contradiction).
  destruct lo as [a| |]; [|congruence|].
  - destruct HP as [eps He]. destruct (ex_inside a hi Hlt) as [c [C1 C2]]. cbn in C1.
    exists (Rmin c (a + eps / 2)). assert (G := cond_pos eps). split.
    + split; [cbn; unfold Rmin; destruct (Rle_dec c (a + eps / 2)); lra|]. eapply Rbar_le_lt_trans; [|exact C2]. cbn. apply Rmin_l.
    + intros y [I1 _] Hy. cbn in I1. apply He; [|auto]. assert (y <= a + eps / 2) by (eapply Rle_trans; [exact Hy|apply Rmin_r]).
      unfold ball; cbn; unfold AbsRing_ball, abs, minus, plus, opp; cbn. rewrite Rabs_pos_eq; lra.
  - destruct HP as [M HM]. destruct (ex_inside m_infty hi Hlt) as [c [C1 C2]].
    exists (Rmin c (M - 1)). split.
    + split; [exact I|]. eapply Rbar_le_lt_trans; [|exact C2]. cbn. apply Rmin_l.
    + intros y _ Hy. apply HM. assert (y <= M - 1) by (eapply Rle_trans; [exact Hy|apply Rmin_r]). lra.
Qed.
Lemma below_wit lo hi (P : R -> Prop) : Rbar_lt lo hi -> below hi P -> exists y0, inside lo hi y0 /\ forall y, inside lo hi y -> y0 <= y -> P y.
Proof.
  intros Hlt HP. assert (NP : hi <> m_infty) by (intros ->; destruct lo; cbn in *; contradiction).
  destruct hi as [b| |]; [| |congruence].
  - destruct HP as [eps He]. destruct (ex_inside lo b Hlt) as [c [C1 C2]]. cbn in C2.
    exists (Rmax c (b - eps / 2)). assert (G := cond_pos eps). split.
    + split; [|cbn; unfold Rmax; destruct (Rle_dec c (b - eps / 2)); lra]. eapply Rbar_lt_le_trans; [exact C1|]. cbn. apply Rmax_l.
    + intros y [_ I2] Hy. cbn in I2. apply He; [|auto]. assert (b - eps / 2 <= y) by (eapply Rle_trans; [apply Rmax_r|exact Hy]).
      unfold ball; cbn; unfold AbsRing_ball, abs, minus, plus, opp; cbn. rewrite Rabs_left; lra.
  - destruct HP as [M HM]. destruct (ex_inside lo p_infty Hlt) as [c [C1 C2]].
    exists (Rmax c (M + 1)). split.
    + split; [|exact I]. eapply Rbar_lt_le_trans; [exact C1|]. cbn. apply Rmax_l.
    + intros y _ Hy. apply HM. assert (M + 1 <= y) by (eapply Rle_trans; [apply Rmax_r|exact Hy]). lra.
Qed.
Section Onto.
Context (lo hi lo' hi' : Rbar) (f Q : R -> R) (H1 : Rbar_lt lo hi) (H2 : Rbar_lt lo' hi').
Context (Hf : forall x, inside lo hi x -> inside lo' hi' (f x)) (HQ : forall y, inside lo' hi' y -> inside lo hi (Q y) /\ f (Q y) = y).
Lemma onto_up : (forall x y, inside lo hi x -> inside lo hi y -> x <= y -> f x <= f y) ->
  filterlim f (above lo) (above lo') /\ filterlim f (below hi) (below hi').
Proof.
  intros M. split; intros P HP.
  - destruct (above_wit lo' hi' P H2 HP) as [y0 [I0 K]]. destruct (HQ y0 I0) as [IQ E].
    generalize (above_lt lo hi (Q y0) IQ). unfold filtermap. apply filter_imp. intros x [Ix Lx]. apply K; [now apply Hf|]. rewrite <- E. now apply M.
  - destruct (below_wit lo' hi' P H2 HP) as [y0 [I0 K]]. destruct (HQ y0 I0) as [IQ E].
    generalize (below_gt lo hi (Q y0) IQ). unfold filtermap. apply filter_imp. intros x [Ix Lx]. apply K; [now apply Hf|]. rewrite <- E. now apply M.
Qed.
Lemma onto_down : (forall x y, inside lo hi x -> inside lo hi y -> x <= y -> f y <= f x) ->
  filterlim f (above lo) (below hi') /\ filterlim f (below hi) (above lo').
Proof.
  intros M. split; intros P HP.
  - destruct (below_wit lo' hi' P H2 HP) as [y0 [I0 K]]. destruct (HQ y0 I0) as [IQ E].
    generalize (above_lt lo hi (Q y0) IQ). unfold filtermap. apply filter_imp. intros x [Ix Lx]. apply K; [now apply Hf|]. rewrite <- E. now apply M.
  - destruct (above_wit lo' hi' P H2 HP) as [y0 [I0 K]]. destruct (HQ y0 I0) as [IQ E].
    generalize (below_gt lo hi (Q y0) IQ). unfold filtermap. apply filter_imp. intros x [Ix Lx]. apply K; [now apply Hf|]. rewrite <- E. now apply M.
Qed.
End Onto.

(** the density u with u = |T'| h(T), T monotone from (lo,hi) onto (lo',hi'): expectations of functions of T *)
Section Push.
Context (lo hi lo' hi' : Rbar) (pdf : xreal -> xreal) (T dT Q h : R -> R) (H1 : Rbar_lt lo hi) (H2 : Rbar_lt lo' hi').
Context (HT : forall x, inside lo hi x -> inside lo' hi' (T x)) (HQ : forall y, inside lo' hi' y -> inside lo hi (Q y) /\ T (Q y) = y).
Context (HD : forall x, inside lo hi x -> is_derive T x (dT x) /\ continuous dT x).
Context (Hh : forall t, inside lo' hi' t -> continuous h t).
Lemma push_up phi l : (forall x, inside lo hi x -> 0 <= dT x) ->
  (forall x, inside lo hi x -> pdf (Fin x) = Fin (dT x * h (T x))) ->
  (forall t, inside lo' hi' t -> continuous phi t) ->
  is_RInt_gen (fun t => phi t * h t) (above lo') (below hi') l ->
  is_expectation lo hi pdf (fun x => phi (T x)) l.
Proof.
  intros HP Hp Hphi Hl.
  assert (M : forall x y, inside lo hi x -> inside lo hi y -> x <= y -> T x <= T y) by (apply (mono_inside lo hi T dT); [intros; now apply HD|auto]).
  destruct (onto_up lo hi lo' hi' T Q H2 HT HQ M) as [F1 F2].
  assert (A : is_RInt_gen (fun x => dT x * (phi (T x) * h (T x))) (above lo) (below hi) l).
  { apply (subst_up lo hi lo' hi' (fun t => phi t * h t) T dT); auto. intros x Hx. destruct (HD x Hx) as [D1 D2]. split; [auto|]. split; [auto|].
    apply (continuous_mult (K := R_AbsRing) phi h); [apply Hphi|apply Hh]; auto. }
  unfold is_expectation. revert A. apply (is_RInt_gen_inside lo hi); [auto|]. intros x Hx. unfold rf. rewrite Hp by auto. cbn [val]. ring.
Qed.
Lemma push_down phi l : (forall x, inside lo hi x -> dT x <= 0) ->
  (forall x, inside lo hi x -> pdf (Fin x) = Fin (- dT x * h (T x))) ->
  (forall t, inside lo' hi' t -> continuous phi t) ->
  is_RInt_gen (fun t => phi t * h t) (above lo') (below hi') l ->
  is_expectation lo hi pdf (fun x => phi (T x)) l.
Proof.
  intros HP Hp Hphi Hl.
  assert (M : forall x y, inside lo hi x -> inside lo hi y -> x <= y -> T y <= T x).
  { intros x y Hx Hy Hxy. enough (- T x <= - T y) by lra. apply (mono_inside lo hi (fun x => - T x) (fun x => - dT x)); auto.
    - intros t Ht. destruct (HD t Ht) as [D1 _]. now apply dR_opp. - intros t Ht. generalize (HP t Ht). lra. }
  destruct (onto_down lo hi lo' hi' T Q H2 HT HQ M) as [F1 F2].
  assert (A : is_RInt_gen (fun x => - dT x * (phi (T x) * h (T x))) (above lo) (below hi) l).
  { apply (subst_down lo hi lo' hi' (fun t => phi t * h t) T dT); auto. intros x Hx. destruct (HD x Hx) as [D1 D2]. split; [auto|]. split; [auto|].
    apply (continuous_mult (K := R_AbsRing) phi h); [apply Hphi|apply Hh]; auto. }
  unfold is_expectation. revert A. apply (is_RInt_gen_inside lo hi); [auto|]. intros x Hx. unfold rf. rewrite Hp by auto. cbn [val]. ring.
Qed.
End Push.

(** exponential integrals *)
Lemma ei_cont t : continuous (fun t => exp (- t)) t.
Proof. eapply ex_derive_cont. dder; reflexivity. Qed.
Lemma ei_pow h : - (1) < h -> is_RInt_gen (fun t => Rpower t h * exp (- t)) (above 0) (below p_infty) (Gam (1 + h)).
Proof.
  intros H. assert (A := G_in _ _ (Gam_spec (1 + h) ltac:(lra))). revert A. apply (gen_ext 0 p_infty). intros t. unfold gamma_h. now replace (1 + h - 1) with h by ring.
Qed.
Lemma ei_ln : is_RInt_gen (fun t => ln t * exp (- t)) (above 0) (below p_infty) (psi 1).
Proof.
  assert (A := Gam_ln_int 1 ltac:(lra)). apply (gen_eq 0 p_infty _ _ (psi 1)) in A; [|rewrite Gam_1; ring]. revert A.
  apply (is_RInt_gen_inside 0 p_infty); [exact I|]. intros t Ht%in0f. unfold gamma_h. replace (1 - 1) with 0 by ring. rewrite Rpower_O by auto. ring.
Qed.
Lemma ei_1 : is_RInt_gen (fun t => 1 * exp (- t)) (above 0) (below p_infty) 1.
Proof.
  assert (A := ei_pow 0 ltac:(lra)). apply (gen_eq 0 p_infty _ _ 1) in A; [|rewrite Rplus_0_r; apply Gam_1]. revert A.
  apply (is_RInt_gen_inside 0 p_infty); [exact I|]. intros t Ht%in0f. rewrite Rpower_O by auto. ring.
Qed.
Lemma ei_t : is_RInt_gen (fun t => t * exp (- t)) (above 0) (below p_infty) 1.
Proof.
  assert (A := ei_pow 1 ltac:(lra)). apply (gen_eq 0 p_infty _ _ 1) in A; [|replace (1 + 1) with (1 + 1) by ring; rewrite Gam_rec by lra; rewrite Gam_1; ring]. revert A.
  apply (is_RInt_gen_inside 0 p_infty); [exact I|]. intros t Ht%in0f. rewrite Rpower_1 by auto. ring.
Qed.
(** expectations with equal integrands on the support *)
Lemma exp_in lo hi pdf (f g : R -> R) l : Rbar_lt lo hi -> (forall x, inside lo hi x -> f x = g x) -> is_expectation lo hi pdf g l -> is_expectation lo hi pdf f l.
Proof. intros Hlt E. unfold is_expectation. apply (is_RInt_gen_inside lo hi); [auto|]. intros x Hx. now rewrite E. Qed.
(** entropy from the expectation of -ln of the density *)
Lemma entropy_exp lo hi pdf (u : R -> R) l : Rbar_lt lo hi -> (forall x, inside lo hi x -> pdf (Fin x) = Fin (u x)) ->
  is_expectation lo hi pdf (fun x => - ln (u x)) l -> is_entropy lo hi pdf l.
Proof.
  intros Hlt Hp. unfold is_entropy, is_expectation. apply (is_RInt_gen_inside lo hi); [auto|]. intros x Hx. unfold rf. rewrite Hp by auto. cbn [val]. ring.
Qed.
