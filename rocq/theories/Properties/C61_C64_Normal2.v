(** * Properties C61-C64: the two-dimensional normals, gradient scaling *)
From Coq Require Import Reals Lra Lia Psatz List ZArith.
From Coquelicot Require Import Coquelicot.
From Verif.Num Require Import Scalar XReal.
From Verif.Model Require Import Rust Constraints Probability Params Consts Continuous2 Normal2.
From Verif.Model Require MvNormal.
From Verif.Spec Require Import DistSpec SampleSpec MvSpec.
From Verif.Proofs Require Import ConstraintProofs NewInv XTac Gauss Gauss2 ContProofs9 ContProofs25 Normal2Proofs.
Import ListNotations.
Open Scope R_scope.

(** C61: everything but the entropy *)
Theorem C61_paired_partial (m0 m1 a b : R) (d : PairedNormal.t xreal) :
  PairedNormal.new (Fin m0, Fin m1) (Fin a, Fin b) = Ok d ->
  (0 < a /\ 0 < b) /\
  (forall x y, PairedNormal.pdf d (Fin x, Fin y) = Fin (normal_density m0 (sqrt a) x * normal_density m1 (sqrt b) y)) /\
  (forall d0 d1 x y, UvNormal.new (Fin m0) (Fin a) = Ok d0 -> UvNormal.new (Fin m1) (Fin b) = Ok d1 ->
     PairedNormal.pdf d (Fin x, Fin y) = fmul (UvNormal.pdf d0 (Fin x)) (UvNormal.pdf d1 (Fin y))) /\
  is_pdf2 (PairedNormal.pdf d) /\
  (PairedNormal.mean d = (Fin m0, Fin m1) /\ PairedNormal.variance d = (Fin a, Fin b) /\
   PairedNormal.covariance d = [[Fin a; Fin 0]; [Fin 0; Fin b]] /\ PairedNormal.correlation d = [[Fin 1; Fin 0]; [Fin 0; Fin 1]] /\
   is_covariance2 (PairedNormal.pdf d) (m0, m1) a 0 0 b) /\
  (PairedNormal.modes d = [(Fin m0, Fin m1)] /\ is_mode2 (PairedNormal.pdf d) (Fin m0, Fin m1)) /\
  (forall (G : Type) (RG : Rng G xreal) (g g1 g2 : G) (z1 z2 : R),
     draw_std_normal g = (Fin z1, g1) -> draw_std_normal g1 = (Fin z2, g2) ->
     PairedNormal.sample d g = ((Fin (m0 + sqrt a * z1), Fin (m1 + sqrt b * z2)), g2)).
Proof.
  intros H. apply pn_new_iff in H as [[Ha Hb] ->]. split; [auto|]. split; [intros; now apply pn_pdf|]. split.
  { intros d0 d1 x y H0 H1. apply uvn_new_inv in H0 as [_ ->]. apply uvn_new_inv in H1 as [_ ->]. rewrite pn_pdf, !un_pdf by auto. xs.
    rewrite !nd_phi by now apply sqrt_lt_R0. reflexivity. }
  split; [now apply pn_is_pdf|]. split. { split; [reflexivity|]. split; [reflexivity|]. split; [reflexivity|]. split; [reflexivity|now apply pn_is_cov]. }
  split; [split; [reflexivity|now apply pn_mode]|].
  intros G RG g g1 g2 z1 z2 E1 E2. unfold PairedNormal.sample. rewrite E1, E2. cbn [PairedNormal.pr PairedNormal.new_unchecked fst snd]. xs. reflexivity.
Qed.
Print Assumptions C61_paired_partial.
Example C61_nonvacuous : exists d, PairedNormal.new (Fin 1, Fin (-2)) (Fin 3, Fin (1/2)) = Ok d.
Proof. eexists. apply pn_new_iff. split; [lra|reflexivity]. Qed.
(** the true entropy is 1 + ln 2 pi + ln(s0 s1)/2; the returned number is never that *)
Theorem C61_entropy_refuted (m0 m1 a b : R) (d : PairedNormal.t xreal) :
  PairedNormal.new (Fin m0, Fin m1) (Fin a, Fin b) = Ok d ->
  is_entropy2 (PairedNormal.pdf d) (1 + ln (2 * PI) + ln (a * b) / 2) /\
  exists e, PairedNormal.shannon_entropy d = Fin e /\ ~ is_entropy2 (PairedNormal.pdf d) e.
Proof.
  intros H. apply pn_new_iff in H as [[Ha Hb] ->]. split; [now apply pn_is_entropy|]. eexists. split; [now apply pn_entropy|]. apply pn_entropy_wrong; auto. now apply pn_entropy.
Qed.
Print Assumptions C61_entropy_refuted.

(** C62: [a], [b] the variances, [c] the covariance *)
Theorem C62_bivariate_partial (m0 m1 a b r : R) (d : BvNormal.t xreal) : -1 < r < 1 ->
  BvNormal.new (Fin m0, Fin m1) (Fin a, Fin b) (Fin r) = Ok d ->
  exists c, let D := a * b - c * c in
  BvNormal.covariance d = [[Fin a; Fin c]; [Fin c; Fin b]] /\
  is_pdf2 (BvNormal.pdf d) /\ is_covariance2 (BvNormal.pdf d) (m0, m1) a c c b /\
  (BvNormal.mean d = (Fin m0, Fin m1) /\ BvNormal.variance d = (Fin a, Fin b) /\
   BvNormal.correlation d = [[Fin 1; Fin (c / (sqrt a * sqrt b))]; [Fin (c / (sqrt a * sqrt b)); Fin 1]]) /\
  (0 < a /\ 0 < b /\ D = a * b * (1 - r * r) /\ 0 < D) /\
  (* z is the quadratic form of the inverse [[b -c][-c a]] / D of the covariance *)
  (forall x y, let X := x - m0 in let Y := y - m1 in
     BvNormal.z d (Fin x, Fin y) = Fin ((b * X * X - 2 * c * X * Y + a * Y * Y) / D) /\
     BvNormal.pdf d (Fin x, Fin y) = Fin (exp (- ((b * X * X - 2 * c * X * Y + a * Y * Y) / D) / 2) / (2 * PI * sqrt D))) /\
  (BvNormal.modes d = [(Fin m0, Fin m1)] /\ is_mode2 (BvNormal.pdf d) (Fin m0, Fin m1)) /\
  (r = 0 -> forall d', PairedNormal.new (Fin m0, Fin m1) (Fin a, Fin b) = Ok d' ->
     forall x y, BvNormal.pdf d (Fin x, Fin y) = PairedNormal.pdf d' (Fin x, Fin y)) /\
  (* the sample is an affine image of two standard normals, of that mean and covariance *)
  (exists l11 l21 l22, l11 * l11 = a /\ l21 * l11 = c /\ l21 * l21 + l22 * l22 = b /\
   forall (G : Type) (RG : Rng G xreal) (g g1 g2 : G) (z1 z2 : R),
     draw_std_normal g = (Fin z1, g1) -> draw_std_normal g1 = (Fin z2, g2) ->
     BvNormal.sample d g = ((Fin (m0 + l11 * z1), Fin (m1 + (l21 * z1 + l22 * z2))), g2)).
Proof.
  intros Hr H. apply bv_new_iff in H as [(Ha & Hb & _) ->].
  assert (K1 := bv_q r Hr). assert (K2 := bv_qp r Hr). assert (K3 := bv_sa a Ha). assert (K4 := bv_sb b Hb).
  assert (K5 := bv_qq r Hr). assert (K6 := bv_saa a Ha). assert (K7 := bv_sbb b Hb). assert (P := PI_RGT_0).
  exists (r * (sqrt a * sqrt b)). cbv zeta. set (c := r * (sqrt a * sqrt b)).
  assert (ED : a * b - c * c = a * b * (1 - r * r)).
  { unfold c. replace (r * (sqrt a * sqrt b) * (r * (sqrt a * sqrt b))) with (r * r * (sqrt a * sqrt a) * (sqrt b * sqrt b)) by ring. rewrite K6, K7. ring. }
  assert (PD : 0 < a * b * (1 - r * r)) by pos.
  assert (EC : c / (sqrt a * sqrt b) = r) by (unfold c; field; lra).
  assert (EZ : forall x y, (x - m0) / sqrt a * ((x - m0) / sqrt a) + (y - bv_reg m0 m1 a b r x) / (sqrt b * sqrt (1 - r * r)) * ((y - bv_reg m0 m1 a b r x) / (sqrt b * sqrt (1 - r * r))) =
     (b * (x - m0) * (x - m0) - 2 * c * (x - m0) * (y - m1) + a * (y - m1) * (y - m1)) / (a * b - c * c)).
  { intros x y. rewrite ED. unfold bv_reg, c. set (X := x - m0).
    replace (y - (m1 + r * sqrt b / sqrt a * X)) with ((y - m1) - r * sqrt b / sqrt a * X) by ring. set (Y := y - m1).
    transitivity ((X / sqrt a * (X / sqrt a)) + (Y / sqrt b - r * (X / sqrt a)) * (Y / sqrt b - r * (X / sqrt a)) / (sqrt (1 - r * r) * sqrt (1 - r * r))); [field; lra|].
    rewrite K5. revert K3 K4 K6 K7. generalize (sqrt a) (sqrt b). intros sa sb K3 K4 K6 K7. rewrite <- K6, <- K7. field. lra. }
  split. { unfold BvNormal.covariance. cbn [BvNormal.pr BvNormal.new_unchecked fst snd]. xs. reflexivity. }
  split; [now apply bv_is_pdf|]. split; [now apply bv_is_cov|]. split. { rewrite EC. unfold BvNormal.correlation. cbn [BvNormal.pr BvNormal.rho BvNormal.new_unchecked]. rewrite x_lit. repeat split; reflexivity. }
  split. { rewrite ED. auto. }
  split. { intros x y. rewrite bv_z, bv_pdf, bv_f_val, EZ by auto. split; [reflexivity|]. do 2 f_equal. rewrite ED.
    rewrite (sqrt_mult (a * b)), (sqrt_mult a b) by (try apply Rmult_le_pos; lra). ring. }
  split; [split; [reflexivity|now apply bv_mode]|]. split. { intros -> d' H x y. apply pn_new_iff in H as [_ ->]. symmetry. now apply pn_bv. }
  exists (sqrt a), (r * sqrt b), (sqrt b * sqrt (1 - r * r)). split; [auto|]. split; [unfold c; ring|]. split.
  { replace (r * sqrt b * (r * sqrt b) + sqrt b * sqrt (1 - r * r) * (sqrt b * sqrt (1 - r * r))) with (sqrt b * sqrt b * (r * r + sqrt (1 - r * r) * sqrt (1 - r * r))) by ring. rewrite K5, K7. ring. }
  intros G RG g g1 g2 z1 z2 E1 E2. unfold BvNormal.sample. rewrite E1, E2. cbn [BvNormal.pr BvNormal.new_unchecked fst snd]. xs. do 3 f_equal. ring.
Qed.
Print Assumptions C62_bivariate_partial.
Example C62_nonvacuous : exists d, BvNormal.new (Fin 1, Fin (-2)) (Fin 3, Fin (1/2)) (Fin (-1/3)) = Ok d.
Proof. eexists. apply bv_new_iff. split; [lra|reflexivity]. Qed.
(** the returned entropy is wrong for all parameters *)
Theorem C62_entropy_refuted (m0 m1 a b r : R) (d : BvNormal.t xreal) : -1 < r < 1 ->
  BvNormal.new (Fin m0, Fin m1) (Fin a, Fin b) (Fin r) = Ok d ->
  is_entropy2 (BvNormal.pdf d) (1 + ln (2 * PI) + ln (a * b * (1 - r * r)) / 2) /\
  exists e, BvNormal.shannon_entropy d = Fin e /\ ~ is_entropy2 (BvNormal.pdf d) e.
Proof.
  intros Hr H. apply bv_new_iff in H as [(Ha & Hb & _) ->]. split; [now apply bv_is_entropy|]. eexists. split; [now apply bv_entropy|]. apply bv_entropy_wrong; auto. now apply bv_entropy.
Qed.
Print Assumptions C62_entropy_refuted.

(** C63 *)
Theorem C63_degenerate_refuted (m0 m1 a b r : R) : 0 < a -> 0 < b -> r = 1 \/ r = -1 ->
  exists d, BvNormal.new (Fin m0, Fin m1) (Fin a, Fin b) (Fin r) = Ok d /\
    forall x y, BvNormal.pdf d (Fin x, Fin y) = NaN.
Proof.
  intros Ha Hb Hr. eexists. split; [apply bv_new_iff; split; [|reflexivity]; destruct Hr; subst; lra|]. intros. now apply bv_degenerate.
Qed.
Print Assumptions C63_degenerate_refuted.
(** an accepted parameter set has a finite pdf exactly when |rho| < 1 *)
Theorem C63_accepted_partial (m0 m1 a b r : R) (d : BvNormal.t xreal) :
  BvNormal.new (Fin m0, Fin m1) (Fin a, Fin b) (Fin r) = Ok d ->
  0 < a /\ 0 < b /\ -1 <= r <= 1 /\
  ((forall x y, exists v, BvNormal.pdf d (Fin x, Fin y) = Fin v) <-> -1 < r < 1).
Proof.
  intros H. apply bv_new_iff in H as [(Ha & Hb & Hr) ->]. repeat (split; [tauto|]). split.
  - intros K. destruct (K 0 0) as [v E]. destruct (Req_dec r 1); [rewrite bv_degenerate in E by auto; discriminate|].
    destruct (Req_dec r (-1)); [rewrite bv_degenerate in E by auto; discriminate|]. lra.
  - intros K x y. eexists. now apply bv_pdf.
Qed.
Print Assumptions C63_accepted_partial.
Example C63_nonvacuous : exists d, BvNormal.new (Fin 1, Fin (-2)) (Fin 3, Fin (1/2)) (Fin 1) = Ok d.
Proof. eexists. apply bv_new_iff. split; [lra|reflexivity]. Qed.

(** C64: all gradient types but the bivariate one *)
Theorem C64_grad_mul_partial :
  (forall a b c, UvNormal.grad_mul (UvNormal.mkG (Fin a) (Fin b)) (Fin c) = UvNormal.mkG (Fin (a * c)) (Fin (b * c))) /\
  (forall (u : list R) (s : list (list R)) c, MvNormal.grad_mul (MvNormal.mkG (map Fin u) (map (map Fin) s)) (Fin c) =
     MvNormal.mkG (map (fun x => Fin (x * c)) u) (map (map (fun x => Fin (x * c))) s)) /\
  (forall (u s : list R) c, MvNormal.diagonal_grad_mul (MvNormal.mkG (map Fin u) (map Fin s)) (Fin c) =
     MvNormal.mkG (map (fun x => Fin (x * c)) u) (map (fun x => Fin (x * c)) s)) /\
  (forall (u : list R) s c, MvNormal.isotropic_grad_mul (MvNormal.mkG (map Fin u) (Fin s)) (Fin c) =
     MvNormal.mkG (map (fun x => Fin (x * c)) u) (Fin (s * c))) /\
  (forall a b c d e f, exists d', BvNormal.grad_mul (BvNormal.mkG (Fin a, Fin b) (Fin c, Fin d) (Fin e)) (Fin f) =
     BvNormal.mkG (Fin (a * f), Fin (b * f)) (Fin (c * f), Fin d') (Fin (e * f))).
Proof.
  repeat split; intros.
  - unfold MvNormal.grad_mul. cbn [MvNormal.g_mu MvNormal.g_Sigma]. rewrite !map_map. f_equal. apply map_ext. intros l. rewrite map_map. reflexivity.
  - unfold MvNormal.diagonal_grad_mul. cbn [MvNormal.g_mu MvNormal.g_Sigma]. rewrite !map_map. reflexivity.
  - unfold MvNormal.isotropic_grad_mul. cbn [MvNormal.g_mu MvNormal.g_Sigma]. rewrite !map_map. reflexivity.
  - eexists. reflexivity.
Qed.
Print Assumptions C64_grad_mul_partial.
Theorem C64_bivariate_refuted (a b c d e f : R) : d <> 0 -> f <> 1 ->
  BvNormal.grad_mul (BvNormal.mkG (Fin a, Fin b) (Fin c, Fin d) (Fin e)) (Fin f) <>
  BvNormal.mkG (Fin (a * f), Fin (b * f)) (Fin (c * f), Fin (d * f)) (Fin (e * f)).
Proof. intros Hd Hf H. cbn in H. injection H as E. apply Hf. apply Rmult_eq_reg_l with d; auto. rewrite Rmult_1_r. now rewrite <- E. Qed.
Print Assumptions C64_bivariate_refuted.
