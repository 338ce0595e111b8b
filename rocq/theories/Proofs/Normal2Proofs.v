(** * Two-dimensional normals *)
From Coq Require Import Reals Lra Lia Psatz List ZArith FunctionalExtensionality.
From Coquelicot Require Import Coquelicot.
From Verif.Num Require Import Scalar XReal.
From Verif.Model Require Import Rust Constraints Probability Params Consts Continuous2 Normal2.
From Verif.Spec Require Import DistSpec SampleSpec MvSpec.
From Verif.Proofs Require Import ConstraintProofs NewInv XTac Calc Calc2 Gauss Gauss2 Improper ContProofs8 ContProofs9 ContProofs25.
Import ListNotations.
Open Scope R_scope.

Lemma line_ext (f g : R -> R) v : (forall x, f x = g x) -> line_int f v -> line_int g v.
Proof. intros E H. replace g with f; [exact H|]. now apply functional_extensionality. Qed.
Lemma plane_ext (f g : R -> R -> R) v w : (forall x y, f x y = g x y) -> v = w -> plane_int f v -> plane_int g w.
Proof. intros E <- H. replace g with f; [exact H|]. apply functional_extensionality; intros x. now apply functional_extensionality. Qed.
Lemma line_scal (f : R -> R) c v : line_int f v -> line_int (fun x => c * f x) (c * v).
Proof. intros H. apply (is_RInt_gen_scal (V := R_NormedModule) f c v). exact H. Qed.
Lemma line_plus (f g : R -> R) v w : line_int f v -> line_int g w -> line_int (fun x => f x + g x) (v + w).
Proof. intros H1 H2. apply (is_RInt_gen_plus (V := R_NormedModule) f g v w); assumption. Qed.

Section Line.
Context (m s : R) (Hs : 0 < s).
Notation zz x := ((x - m) / s).
Lemma nd_mom n : (n <= 4)%nat -> line_int (fun x => zz x ^ n * normal_density m s x) (unM n).
Proof.
  intros Hn. assert (HS : 0 < s * s) by now apply Rmult_lt_0_compat.
  assert (E : sqrt (s * s) = s) by (apply sqrt_square; lra).
  generalize (un_ab m (s * s) HS n Hn). unfold is_expectation, above, below. apply line_ext. intros x. unfold rf. rewrite un_pdf, E by auto. cbn [val]. rewrite nd_phi by auto. reflexivity.
Qed.
(** quadratic polynomials of the standardised variable *)
Lemma nd_quad (a b c : R) : line_int (fun x => (a + b * zz x + c * (zz x * zz x)) * normal_density m s x) (a + c).
Proof.
  assert (H0 := nd_mom 0 ltac:(lia)). assert (H1 := nd_mom 1 ltac:(lia)). assert (H2 := nd_mom 2 ltac:(lia)). cbn [unM] in *.
  assert (H := line_plus _ _ _ _ (line_scal _ a _ H0) (line_plus _ _ _ _ (line_scal _ b _ H1) (line_scal _ c _ H2))).
  replace (a + c) with (a * 1 + (b * 0 + c * 1)) by ring. revert H. apply line_ext. intros x. ring.
Qed.
End Line.

(** quadratic polynomials of a standardised pair with a linear regression of the second on the first *)
Lemma plane_quad (m0 s0 : R) (m1 : R -> R) (s1 A B C D E G : R) : 0 < s0 -> 0 < s1 ->
  plane_int (fun x y => (A + B * ((x - m0) / s0) + C * ((y - m1 x) / s1) + D * ((x - m0) / s0 * ((x - m0) / s0))
     + E * ((x - m0) / s0) * ((y - m1 x) / s1) + G * ((y - m1 x) / s1 * ((y - m1 x) / s1)))
     * (normal_density m0 s0 x * normal_density (m1 x) s1 y)) (A + D + G).
Proof.
  intros H0 H1. exists (fun x => (A + G + B * ((x - m0) / s0) + D * ((x - m0) / s0 * ((x - m0) / s0))) * normal_density m0 s0 x). split.
  - intros x. set (u := (x - m0) / s0).
    assert (H := line_scal _ (normal_density m0 s0 x) _ (nd_quad (m1 x) s1 H1 (A + B * u + D * (u * u)) (C + E * u) G)).
    replace ((A + G + B * u + D * (u * u)) * normal_density m0 s0 x) with (normal_density m0 s0 x * (A + B * u + D * (u * u) + G)) by ring.
    revert H. apply line_ext. intros y. ring.
  - replace (A + D + G) with (A + G + D) by ring. apply nd_quad; auto.
Qed.

(** ** BvNormal *)
Lemma arr2_pos a b : check (AllA Positive) [Fin a; Fin b] = Ok [Fin a; Fin b] <-> 0 < a /\ 0 < b.
Proof.
  cbn [check all_loop is_satisfied_by pltb pzero POrd_scalar]. rewrite !x_lit, !x_ltb.
  destruct (Rltb_spec 0 a), (Rltb_spec 0 b); cbn; split; intros HH; try lra; try discriminate; auto.
Qed.
Lemma arr2_cases a b : check (AllA Positive) [Fin a; Fin b] = Ok [Fin a; Fin b] \/ exists e, check (AllA Positive) [Fin a; Fin b] = Err e.
Proof. cbn [check]. destruct (all_loop _ _); eauto. Qed.
Lemma bv_new_iff m0 m1 a b r d : BvNormal.new (Fin m0, Fin m1) (Fin a, Fin b) (Fin r) = Ok d <->
  (0 < a /\ 0 < b /\ -1 <= r <= 1) /\ d = BvNormal.new_unchecked (Fin m0, Fin m1) (Fin a, Fin b) (Fin r).
Proof.
  unfold BvNormal.new, BvNormal.params_bivariate, bivariate_new, loc_new, arr2. cbn [map_err and_then fst snd].
  destruct (arr2_cases a b) as [E|[e E]]; rewrite E; cbn [map_err and_then map_ok].
  2:{ split; [discriminate|]. intros [(H1 & H2 & _) _]. assert (E' := proj2 (arr2_pos a b) (conj H1 H2)). congruence. }
  apply arr2_pos in E. cbn [check]. unfold check_default. cbn [is_satisfied_by pleb POrd_scalar]. rewrite !x_lit, x_neg, !x_leb.
  destruct (Rleb_spec (-(1)) r), (Rleb_spec r 1); cbn [andb map_err and_then map_ok].
  1: split; [intros HH; injection HH as <-; split; [lra|reflexivity]|intros [_ ->]; reflexivity].
  all: split; [discriminate|intros [HH _]; exfalso; lra].
Qed.

Section Bv.
Context (m0 m1 a b r : R) (Ha : 0 < a) (Hb : 0 < b) (Hr : -1 < r < 1).
Notation d := (BvNormal.new_unchecked (Fin m0, Fin m1) (Fin a, Fin b) (Fin r)).
Notation q := (sqrt (1 - r * r)).
Notation sa := (sqrt a). Notation sb := (sqrt b).
Definition bv_reg (x : R) : R := m1 + r * sb / sa * (x - m0).
Notation u x := ((x - m0) / sa). Notation w x y := ((y - bv_reg x) / (sb * q)).
Lemma bv_q : 0 < 1 - r * r. Proof. nra. Qed.
Lemma bv_qp : 0 < q. Proof. apply sqrt_lt_R0, bv_q. Qed.
Lemma bv_sa : 0 < sa. Proof. now apply sqrt_lt_R0. Qed.
Lemma bv_sb : 0 < sb. Proof. now apply sqrt_lt_R0. Qed.
Lemma bv_qq : q * q = 1 - r * r. Proof. apply sqrt_sqrt. generalize bv_q; lra. Qed.
Lemma bv_saa : sa * sa = a. Proof. apply sqrt_sqrt; lra. Qed.
Lemma bv_sbb : sb * sb = b. Proof. apply sqrt_sqrt; lra. Qed.
Lemma bv_z x y : BvNormal.z d (Fin x, Fin y) = Fin (u x * u x + w x y * w x y).
Proof.
  assert (K1 := bv_q). assert (K2 := bv_qp). assert (K3 := bv_sa). assert (K4 := bv_sb).
  unfold BvNormal.z. cbn [BvNormal.pr BvNormal.new_unchecked fst snd]. xs.
  f_equal. unfold bv_reg. set (X := x - m0).
  replace (y - (m1 + r * sb / sa * X)) with ((y - m1) - r * sb / sa * X) by ring. set (Y := y - m1).
  transitivity ((X / sa * (X / sa)) + (Y / sb - r * (X / sa)) * (Y / sb - r * (X / sa)) / (q * q)).
  - rewrite bv_qq. rewrite <- bv_saa at 1. rewrite <- bv_sbb at 2. field. lra.
  - field. lra.
Qed.
Definition bv_f (x y : R) : R := normal_density m0 sa x * normal_density (bv_reg x) (sb * q) y.
Lemma bv_f_pos x y : 0 < bv_f x y.
Proof. assert (K1 := bv_q). assert (K2 := bv_qp). assert (K3 := bv_sa). assert (K4 := bv_sb). assert (K := sqrt2PI_pos). unfold bv_f, normal_density. pos. Qed.
Lemma sq2pi : sqrt (2 * PI) * sqrt (2 * PI) = PI * 2. Proof. rewrite sqrt_sqrt; [ring|]. assert (H := PI_RGT_0). lra. Qed.
Lemma bv_f_val x y : bv_f x y = exp (- (u x * u x + w x y * w x y) / 2) / (PI * 2 * sa * sb * q).
Proof.
  assert (K2 := bv_qp). assert (K3 := bv_sa). assert (K4 := bv_sb). assert (K := sqrt2PI_pos). assert (P := PI_RGT_0).
  unfold bv_f, normal_density. rewrite <- sq2pi.
  replace (- (u x * u x + w x y * w x y) / 2) with (- (u x) ^ 2 / 2 + - (w x y) ^ 2 / 2) by (cbn [pow]; field; lra). rewrite exp_plus. field. lra.
Qed.
Lemma bv_pdf x y : BvNormal.pdf d (Fin x, Fin y) = Fin (bv_f x y).
Proof.
  assert (K1 := bv_q). assert (K2 := bv_qp). assert (K3 := bv_sa). assert (K4 := bv_sb). assert (P := PI_RGT_0).
  unfold BvNormal.pdf. rewrite bv_z. unfold PI_2. cbn [BvNormal.pr BvNormal.new_unchecked fst snd]. xs. f_equal. rewrite bv_f_val. reflexivity.
Qed.
Lemma bv_rf x y : rf2 (BvNormal.pdf d) x y = bv_f x y. Proof. unfold rf2. now rewrite bv_pdf. Qed.
(** expectation of a quadratic in (u, w) *)
Lemma bv_exp (g : R -> R -> R) (A B C D E G v : R) :
  (forall x y, g x y = A + B * u x + C * w x y + D * (u x * u x) + E * u x * w x y + G * (w x y * w x y)) -> v = A + D + G ->
  is_expectation2 (BvNormal.pdf d) g v.
Proof.
  intros Hg ->. assert (K1 := bv_q). assert (K2 := bv_qp). assert (K4 := bv_sb). assert (K3 := bv_sa).
  generalize (plane_quad m0 sa bv_reg (sb * q) A B C D E G K3 ltac:(pos)). apply plane_ext; [|reflexivity].
  intros x y. rewrite bv_rf, Hg. reflexivity.
Qed.
Ltac bv0 := assert (K1 := bv_q); assert (K2 := bv_qp); assert (K3 := bv_sa); assert (K4 := bv_sb); assert (K5 := bv_qq); assert (K6 := bv_saa); assert (K7 := bv_sbb).
Lemma bv_is_pdf : is_pdf2 (BvNormal.pdf d).
Proof.
  split. { intros x y. exists (bv_f x y). split; [apply bv_pdf|apply bv_f_pos]. }
  apply (bv_exp _ 1 0 0 0 0 0); [intros; ring|ring].
Qed.
Lemma bv_is_mean : is_mean2 (BvNormal.pdf d) (m0, m1).
Proof.
  bv0. split; cbn [fst snd].
  - apply (bv_exp _ m0 sa 0 0 0 0); [intros; field; lra|ring].
  - apply (bv_exp _ m1 (r * sb) (sb * q) 0 0 0); [intros; unfold bv_reg; field; lra|ring].
Qed.
Lemma bv_is_cov : is_covariance2 (BvNormal.pdf d) (m0, m1) a (r * (sa * sb)) (r * (sa * sb)) b.
Proof.
  bv0. split; [apply bv_is_mean|]. cbn [fst snd]. repeat split.
  - apply (bv_exp _ 0 0 0 (sa * sa) 0 0); [intros; field; lra|lra].
  - apply (bv_exp _ 0 0 0 (r * (sa * sb)) (sa * sb * q) 0); [intros; unfold bv_reg; field; lra|ring].
  - apply (bv_exp _ 0 0 0 (r * (sa * sb)) (sa * sb * q) 0); [intros; unfold bv_reg; field; lra|ring].
  - apply (bv_exp _ 0 0 0 (r * r * (sb * sb)) (2 * r * (sb * sb) * q) (sb * sb * (q * q))); [intros; unfold bv_reg; field; lra|]. rewrite K5, K7. ring.
Qed.
Lemma bv_ln x y : ln (bv_f x y) = - (u x * u x + w x y * w x y) / 2 - ln (PI * 2 * sa * sb * q).
Proof.
  bv0. assert (P := PI_RGT_0). rewrite bv_f_val.
  assert (K : 0 < PI * 2 * sa * sb * q) by pos. revert K. generalize (PI * 2 * sa * sb * q). intros N K.
  unfold Rdiv at 1. rewrite ln_mult, ln_exp, ln_Rinv; [ring|auto|apply exp_pos|now apply Rinv_0_lt_compat].
Qed.
Lemma bv_ln_norm : ln (PI * 2 * sa * sb * q) = ln (2 * PI) + ln (a * b * (1 - r * r)) / 2.
Proof.
  bv0. assert (P := PI_RGT_0). replace (PI * 2 * sa * sb * q) with (2 * PI * sqrt (a * b * (1 - r * r))).
  2:{ rewrite (sqrt_mult (a * b)), (sqrt_mult a b) by (try apply Rmult_le_pos; lra). ring. }
  assert (0 < a * b * (1 - r * r)) by (repeat apply Rmult_lt_0_compat; lra).
  rewrite ln_mult; [|lra|now apply sqrt_lt_R0]. f_equal. rewrite <- (sqrt_sqrt (a * b * (1 - r * r))) at 2 by lra. rewrite ln_mult by now apply sqrt_lt_R0. lra.
Qed.
Lemma bv_is_entropy : is_entropy2 (BvNormal.pdf d) (1 + ln (2 * PI) + ln (a * b * (1 - r * r)) / 2).
Proof.
  unfold is_entropy2. set (c := ln (PI * 2 * sa * sb * q)). replace (1 + ln (2 * PI) + ln (a * b * (1 - r * r)) / 2) with (c + / 2 + / 2) by (unfold c; rewrite bv_ln_norm; field).
  assert (H := bv_exp (fun x y => c + 0 * u x + 0 * w x y + / 2 * (u x * u x) + 0 * u x * w x y + / 2 * (w x y * w x y)) c 0 0 (/ 2) 0 (/ 2) _ ltac:(reflexivity) eq_refl).
  revert H. unfold is_expectation2. apply plane_ext; [|reflexivity]. intros x y. rewrite bv_rf, bv_ln. fold c. field.
  generalize bv_qp bv_sa bv_sb. intros. repeat split; lra.
Qed.
Lemma bv_mode : is_mode2 (BvNormal.pdf d) (Fin m0, Fin m1).
Proof.
  bv0. exists (bv_f m0 m1). split; [apply bv_pdf|]. intros x y. exists (bv_f x y). split; [apply bv_pdf|].
  rewrite !bv_f_val. assert (P := PI_RGT_0). apply Rmult_le_compat_r; [left; pos|]. apply exp_le_mono.
  assert (E1 : u m0 = 0) by (field; lra). assert (E2 : w m0 m1 = 0) by (unfold bv_reg; field; lra). rewrite E1, E2.
  assert (0 <= u x * u x) by apply Rle_0_sqr. assert (0 <= w x y * w x y) by apply Rle_0_sqr. lra.
Qed.
End Bv.

(** methods agreeing on finite points *)
Lemma rf2_ext p p' : (forall x y, p (Fin x, Fin y) = p' (Fin x, Fin y)) -> rf2 p = rf2 p'.
Proof. intros H. apply functional_extensionality; intros x; apply functional_extensionality; intros y. unfold rf2. now rewrite H. Qed.
Lemma line_unique f v w : line_int f v -> line_int f w -> v = w.
Proof. intros H1 H2. apply (gen_unique m_infty p_infty f v w); [exact H1|exact H2]. Qed.
Lemma plane_unique f v w : plane_int f v -> plane_int f w -> v = w.
Proof.
  intros (g & G1 & G2) (h & H1 & H2). assert (E : g = h) by (apply functional_extensionality; intros x; eapply line_unique; eauto). subst h.
  eapply line_unique; eauto.
Qed.

(** ** PairedNormal *)
Lemma pn_new_iff m0 m1 a b d : PairedNormal.new (Fin m0, Fin m1) (Fin a, Fin b) = Ok d <->
  (0 < a /\ 0 < b) /\ d = PairedNormal.new_unchecked (Fin m0, Fin m1) (Fin a, Fin b).
Proof.
  unfold PairedNormal.new, PairedNormal.params_paired, paired_new, loc_new, arr2. cbn [map_err and_then fst snd].
  destruct (arr2_cases a b) as [E|[e E]]; rewrite E; cbn [map_err and_then map_ok].
  - apply arr2_pos in E. split; [intros HH; injection HH as <-; auto|intros [_ ->]; reflexivity].
  - split; [discriminate|]. intros [H1 _]. apply arr2_pos in H1. congruence.
Qed.
Section Pn.
Context (m0 m1 a b : R) (Ha : 0 < a) (Hb : 0 < b).
Notation d := (PairedNormal.new_unchecked (Fin m0, Fin m1) (Fin a, Fin b)).
Notation d' := (BvNormal.new_unchecked (Fin m0, Fin m1) (Fin a, Fin b) (Fin 0)).
Lemma pn_pdf x y : PairedNormal.pdf d (Fin x, Fin y) = Fin (normal_density m0 (sqrt a) x * normal_density m1 (sqrt b) y).
Proof.
  assert (K3 := sqrt_lt_R0 a Ha). assert (K4 := sqrt_lt_R0 b Hb). assert (P := PI_RGT_0). assert (K := sqrt2PI_pos).
  unfold PairedNormal.pdf, PairedNormal.z, PI_2. cbn [PairedNormal.pr PairedNormal.Sigma PairedNormal.new_unchecked fst snd]. xs. f_equal.
  unfold normal_density. rewrite <- sq2pi.
  replace (- ((x - m0) * (x - m0) / a + (y - m1) * (y - m1) / b) / 2) with (- ((x - m0) / sqrt a) ^ 2 / 2 + - ((y - m1) / sqrt b) ^ 2 / 2).
  - rewrite exp_plus. field. lra.
  - rewrite <- (sqrt_sqrt a) at 2 by lra. rewrite <- (sqrt_sqrt b) at 2 by lra. cbn [pow]. field. lra.
Qed.
Lemma pn_bv x y : PairedNormal.pdf d (Fin x, Fin y) = BvNormal.pdf d' (Fin x, Fin y).
Proof.
  rewrite pn_pdf, bv_pdf by lra. f_equal. unfold bv_f, bv_reg.
  replace (1 - 0 * 0) with 1 by ring. rewrite sqrt_1, Rmult_1_r. replace (m1 + 0 * sqrt b / sqrt a * (x - m0)) with m1; [reflexivity|].
  assert (K3 := sqrt_lt_R0 a Ha). field. lra.
Qed.
Lemma pn_rf : rf2 (PairedNormal.pdf d) = rf2 (BvNormal.pdf d'). Proof. apply rf2_ext, pn_bv. Qed.
Lemma pn_is_pdf : is_pdf2 (PairedNormal.pdf d).
Proof.
  destruct (bv_is_pdf m0 m1 a b 0 Ha Hb ltac:(lra)) as [H1 H2]. split; [intros x y; rewrite pn_bv; apply H1|]. unfold is_expectation2 in *. now rewrite pn_rf.
Qed.
Lemma pn_is_cov : is_covariance2 (PairedNormal.pdf d) (m0, m1) a 0 0 b.
Proof.
  generalize (bv_is_cov m0 m1 a b 0 Ha Hb ltac:(lra)). rewrite Rmult_0_l. unfold is_covariance2, is_mean2, is_expectation2. now rewrite pn_rf.
Qed.
Lemma pn_is_entropy : is_entropy2 (PairedNormal.pdf d) (1 + ln (2 * PI) + ln (a * b) / 2).
Proof.
  generalize (bv_is_entropy m0 m1 a b 0 Ha Hb ltac:(lra)). replace (a * b * (1 - 0 * 0)) with (a * b) by ring. unfold is_entropy2. now rewrite pn_rf.
Qed.
Lemma pn_mode : is_mode2 (PairedNormal.pdf d) (Fin m0, Fin m1).
Proof.
  destruct (bv_mode m0 m1 a b 0 Ha Hb ltac:(lra)) as (v & E & M). exists v. split; [now rewrite pn_bv|]. intros x y. rewrite pn_bv. apply M.
Qed.
Lemma pn_entropy : PairedNormal.shannon_entropy d = Fin (1 + ln (2 * PI) + a * b / 2).
Proof.
  assert (P := PI_RGT_0). unfold PairedNormal.shannon_entropy, PI_2, ONE_HALF. cbn [PairedNormal.pr PairedNormal.Sigma PairedNormal.new_unchecked fst snd]. xs. f_equal. rewrite (Rmult_comm PI 2). field.
Qed.
Lemma pn_entropy_wrong e : PairedNormal.shannon_entropy d = Fin e -> ~ is_entropy2 (PairedNormal.pdf d) e.
Proof.
  rewrite pn_entropy. intros E. apply Fin_inj in E. subst e. intros H. assert (U := plane_unique _ _ _ H pn_is_entropy).
  assert (0 < a * b) by pos. assert (L := ln_le_sub1 (a * b) ltac:(auto)). lra.
Qed.
End Pn.
Section BvEnt.
Context (m0 m1 a b r : R) (Ha : 0 < a) (Hb : 0 < b).
Notation d := (BvNormal.new_unchecked (Fin m0, Fin m1) (Fin a, Fin b) (Fin r)).
Lemma bv_entropy : BvNormal.shannon_entropy d = Fin (1 + ln (2 * PI) + a * b * (1 - r) / 2).
Proof.
  assert (P := PI_RGT_0). unfold BvNormal.shannon_entropy, PI_2, ONE_HALF. cbn [BvNormal.pr BvNormal.new_unchecked fst snd]. xs. f_equal. rewrite (Rmult_comm PI 2). field.
Qed.
Lemma bv_entropy_wrong e : -1 < r < 1 -> BvNormal.shannon_entropy d = Fin e -> ~ is_entropy2 (BvNormal.pdf d) e.
Proof.
  intros Hr. rewrite bv_entropy. intros E. apply Fin_inj in E. subst e. intros H. assert (U := plane_unique _ _ _ H (bv_is_entropy m0 m1 a b r Ha Hb Hr)).
  set (u := a * b * (1 - r)) in *. assert (0 < u) by (unfold u; pos).
  replace (a * b * (1 - r * r)) with (u * (1 + r)) in U by (unfold u; ring). rewrite (ln_mult u (1 + r)) in U by lra.
  assert (L := ln_le_sub1 u ltac:(auto)). assert (L2 : ln (1 + r) < ln 2) by (apply ln_increasing; lra). generalize ln2_lt1. lra.
Qed.
Lemma bv_degenerate x y : r = 1 \/ r = -1 -> BvNormal.pdf d (Fin x, Fin y) = NaN.
Proof.
  intros Hr. assert (K3 := sqrt_lt_R0 a Ha). assert (K4 := sqrt_lt_R0 b Hb). assert (P := PI_RGT_0).
  unfold BvNormal.pdf, BvNormal.z, PI_2. cbn [BvNormal.pr BvNormal.new_unchecked fst snd]. xs.
  assert (E : 1 - r * r = 0) by (destruct Hr; subst; ring). rewrite E. rewrite (x_sqrt 0) by lra. xs. rewrite sqrt_0, Rmult_0_r.
  set (qt := (x - m0) * (x - m0) / a - 2 * r * (x - m0) * (y - m1) / sqrt a / sqrt b + (y - m1) * (y - m1) / b).
  assert (Q : 0 <= qt).
  { replace qt with (((x - m0) / sqrt a - r * ((y - m1) / sqrt b)) * ((x - m0) / sqrt a - r * ((y - m1) / sqrt b))); [apply Rle_0_sqr|].
    unfold qt. assert (Xa : forall X, X * X / a = X / sqrt a * (X / sqrt a)) by (intros X; rewrite <- (sqrt_sqrt a) at 1 by lra; field; lra).
    assert (Xb : forall X, X * X / b = X / sqrt b * (X / sqrt b)) by (intros X; rewrite <- (sqrt_sqrt b) at 1 by lra; field; lra).
    rewrite Xa, Xb. assert (E' : r * r = 1) by lra.
    transitivity ((x - m0) / sqrt a * ((x - m0) / sqrt a) - 2 * r * ((x - m0) / sqrt a) * ((y - m1) / sqrt b) + (r * r) * ((y - m1) / sqrt b * ((y - m1) / sqrt b))); [ring|]. rewrite E'. field. lra. }
  clearbody qt. cbn [fdiv fneg fexp XScalar f_of_Z].
  cbn [xdiv]. destruct (Req_EM_T 0 0) as [_|N]; [|lra]. destruct (Req_EM_T qt 0) as [->|N].
  - reflexivity.
  - unfold sinf. destruct (Rlt_dec 0 qt); [|lra]. cbn. destruct (Rle_dec 0 2); [|lra]. cbn. repeat destruct (Req_EM_T _ _); try reflexivity; lra.
Qed.
End BvEnt.
