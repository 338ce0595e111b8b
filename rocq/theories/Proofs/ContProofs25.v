(** * Sampling from the normal and the folded normal by inversion *)
From Coq Require Import Reals Lra Lia Psatz List ZArith.
From Coquelicot Require Import Coquelicot.
From Verif.Num Require Import Scalar XReal.
From Verif.Model Require Import Rust Constraints Probability Params Consts Continuous2 Continuous3.
From Verif.Spec Require Import DistSpec GammaSpec ResSpec SampleSpec.
From Verif.Proofs Require Import XTac Calc Calc2 Gauss Gauss2 Improper GammaFun Subst Mellin Unique Oracle ContProofs8 ContProofs9 ContProofs13 ContProofs14 ContProofs16 ContProofs18 ContProofs24.
Import ListNotations.
Open Scope R_scope.

Lemma lower_anti lo (H h : R -> R) (x la : R) : lo <> p_infty -> (forall y, is_derive H y (h y)) -> (forall y, continuous h y) ->
  filterlim H (above lo) (locally la) -> is_RInt_gen h (above lo) (at_point x) (H x - la).
Proof.
  intros Hlo Hd Hc L. apply is_RInt_gen_ext with (f := Derive H).
  - apply filter_forall. intros ab y _. apply is_derive_unique, Hd.
  - apply (is_RInt_gen_Derive (Fa := above lo) (Fb := at_point x) H la (H x)).
    + apply filter_forall. intros ab y _. eexists; apply Hd.
    + apply filter_forall. intros ab y _. eapply continuous_ext; [intros z; symmetry; apply is_derive_unique, Hd|apply Hc].
    + exact L.
    + intros P HP. unfold filtermap, at_point. now apply locally_singleton.
Qed.

Section N.
Context (m s : R) (Hs : 0 < s).
Lemma nd_phi t : normal_density m s t = phi ((t - m) / s) / s.
Proof. assert (Q := sqrt2PI_pos). unfold normal_density, phi. replace (- ((t - m) / s) ^ 2 / 2) with (- ((t - m) / s * ((t - m) / s) / 2)) by (field; lra). field. lra. Qed.
Lemma nd_cont t : continuous (normal_density m s) t.
Proof.
  assert (Q := sqrt2PI_pos). eapply ex_derive_cont. unfold normal_density. auto_derive; [lra|reflexivity].
Qed.
Lemma nq_Phi u x : is_normal_quantile m s u x <-> Phi ((x - m) / s) = u.
Proof.
  assert (A : is_RInt_gen (normal_density m s) (Rbar_locally m_infty) (at_point x) (Phi ((x - m) / s) - 0)).
  { apply (lower_anti m_infty (fun x => Phi ((x - m) / s)) (normal_density m s)); [discriminate| |apply nd_cont|].
    - intros y. assert (D := aff_comp m s Hs Phi y _ (Phi_derive _)). revert D. apply is_derive_ext_eq. now rewrite nd_phi.
    - apply (aff_m m s Hs), Phi_lim_m. }
  rewrite Rminus_0_r in A. split.
  - intros B. apply (lower_unique m_infty (normal_density m s) x); [discriminate|exact A|exact B].
  - intros <-. exact A.
Qed.
Lemma aff_mono x y : x <= y <-> (x - m) / s <= (y - m) / s.
Proof. split; intros H. { unfold Rdiv. apply Rmult_le_compat_r; [left; pos|lra]. } { assert (K : 0 < / s) by pos. apply (Rmult_le_reg_r (/ s) (x - m) (y - m) K) in H. lra. } Qed.
Lemma Phi_le_iff x y : Phi x <= Phi y <-> x <= y.
Proof. split; intros H. { apply Rnot_lt_le; intros L. apply Phi_mono in L. lra. } { destruct H as [H| ->]; [left; now apply Phi_mono|lra]. } Qed.
End N.

Section Fold.
Import FoldedNormal.
Context (m s : R) (Hs : 0 < s) {SP : Special xreal} (He : erf_exact SP) {RG : Rng xreal xreal} (HR : normal_sampler RG m s).
Notation d := (new_unchecked (Fin m) (Fin s)).
Notation cd := (fun x => unwrap (cdf d x)).
Lemma Phi01 x : 0 <= Phi x <= 1.
Proof.
  assert (A := Phi_sym x). split.
  - apply Rnot_lt_le. intros H. destruct (proj1 (filterlim_locally Phi 0) Phi_lim_m (mkposreal (- Phi x) ltac:(lra))) as [M HM]. assert (K := HM (Rmin M x - 1)). assert (Rmin M x <= M) by apply Rmin_l. assert (Rmin M x <= x) by apply Rmin_r. specialize (K ltac:(lra)).
    change (Rabs (Phi (Rmin M x - 1) - 0) < - Phi x) in K. assert (P := Phi_mono (Rmin M x - 1) x ltac:(lra)). apply Rabs_def2 in K. lra.
  - apply Rnot_lt_le. intros H. destruct (proj1 (filterlim_locally Phi 1) Phi_lim_p (mkposreal (Phi x - 1) ltac:(lra))) as [M HM]. assert (K := HM (Rmax M x + 1)). assert (M <= Rmax M x) by apply Rmax_l. assert (x <= Rmax M x) by apply Rmax_r. specialize (K ltac:(lra)).
    change (Rabs (Phi (Rmax M x + 1) - 1) < Phi x - 1) in K. assert (P := Phi_mono x (Rmax M x + 1) ltac:(lra)). apply Rabs_def2 in K. lra.
Qed.
Lemma fn_sample : samples_interval 0 p_infty cd (fun u => fst (sample d u)).
Proof.
  assert (K : forall u, 0 < u < 1 -> exists x, fst (sample d (Fin u)) = Fin (Rabs x) /\ Phi ((x - m) / s) = u).
  { intros u Hu. destruct (HR u Hu) as (x & E & Q). exists x. apply nq_Phi in Q; [|auto]. split; [|auto]. unfold sample. cbn [pr mu sigma new_unchecked]. destruct (draw_normal (Fin m) (Fin s) (Fin u)) as [y s'] eqn:Ey. cbn [fst] in *. subst y. reflexivity. }
  split. { intros u Hu. destruct (K u Hu) as (x & E & _). eauto. }
  intros y Hy%in0f. exists (Phi ((- y - m) / s)). assert (Ec : rf cd y = Phi ((y - m) / s) - Phi ((- y - m) / s)).
  { unfold rf. rewrite (fn_cdf m s Hs He). cbn [val]. unfold fG0, zp, zm. replace ((- y - m) / s) with (- ((y - - m) / s)) by (field; lra). rewrite Phi_sym. ring. }
  rewrite Ec. split; [apply Phi01|]. split; [assert (A := Phi01 ((y - m) / s)); lra|].
  intros u Hu. destruct (K u Hu) as (x & E & <-). unfold rf. rewrite E. cbn [val]. replace (Phi ((- y - m) / s) + (Phi ((y - m) / s) - Phi ((- y - m) / s))) with (Phi ((y - m) / s)) by ring.
  rewrite !Phi_le_iff, <- !(aff_mono m s Hs). unfold Rabs. destruct (Rcase_abs x); lra.
Qed.
End Fold.
Section Norm.
Import UvNormal.
Context (m v : R) (Hv : 0 < v) {SP : Special xreal} (Hn : forall x, sf_norm (Fin x) = Fin (Phi x)) {RG : Rng xreal xreal} (HR : normal_sampler RG m (sqrt v)).
Notation d := (new_unchecked (Fin m) (Fin v)).
Notation cd := (fun x => unwrap (cdf d x)).
Lemma un_sample : samples_from m_infty p_infty cd (fun u => fst (sample d u)).
Proof.
  assert (S : 0 < sqrt v) by pos.
  assert (K : forall u, 0 < u < 1 -> exists x, fst (sample d (Fin u)) = Fin x /\ Phi ((x - m) / sqrt v) = u).
  { intros u Hu. destruct (HR u Hu) as (x & E & Q). exists x. apply nq_Phi in Q; [|auto]. split; [|auto]. unfold sample. cbn [pr mu Sigma new_unchecked]. xs. exact E. }
  split. { intros u Hu. destruct (K u Hu) as (x & E & _). eauto. }
  intros y _. left. intros u Hu. destruct (K u Hu) as (x & E & <-). unfold rf at 1. rewrite E. cbn [val].
  assert (Ec : rf cd y = Phi ((y - m) / sqrt v)).
  { unfold rf, cdf, z. cbn [pr mu Sigma new_unchecked unwrap]. cbn [fisinf XScalar xisinf]. xs. cbn [fisinf XScalar xisinf]. rewrite Hn. reflexivity. }
  rewrite Ec, Phi_le_iff, <- (aff_mono m (sqrt v) S). reflexivity.
Qed.
End Norm.
(** a sampler by inversion exists *)
Definition inv_rng : Rng xreal xreal := {|
  gen_f64 s := (s, s); gen_bool p s := (fltb s p, s); draw_uniform _ _ s := (s, s); draw_uniform_inclusive _ _ s := (s, s);
  draw_normal mu sd s := (Fin (val mu + val sd * Phi_inv (val s)), s); draw_std_normal s := (Fin (Phi_inv (val s)), s);
  draw_gamma _ b s := (Fin (- val b * ln (1 - val s)), s) |}.
Lemma inv_rng_normal m s : 0 < s -> normal_sampler inv_rng m s.
Proof.
  intros Hs u Hu. eexists; split; [reflexivity|]. apply nq_Phi; [auto|]. cbn [val]. replace ((m + s * Phi_inv u - m) / s) with (Phi_inv u) by (field; lra). now apply Phi_inv_spec.
Qed.
Lemma inv_rng_exp b u : 0 < b -> 0 < u < 1 -> exists x, fst (draw_gamma (Rng := inv_rng) (Fin 1) (Fin b) (Fin u)) = Fin x /\ is_gamma_quantile 1 b u x.
Proof.
  intros Hb Hu. eexists; split; [reflexivity|]. cbn [val]. assert (L : ln (1 - u) < 0) by (rewrite <- ln_1; apply ln_increasing; lra).
  split; [nra|]. exists (1 - exp (- (- ln (1 - u)))), 1. split.
  - replace (- b * ln (1 - u) / b) with (- ln (1 - u)) by (field; lra). apply low_exp. lra.
  - assert (G := Gam_spec 1 ltac:(lra)). rewrite Gam_1 in G. split; [exact G|]. rewrite Ropp_involutive, exp_ln by lra. ring.
Qed.
