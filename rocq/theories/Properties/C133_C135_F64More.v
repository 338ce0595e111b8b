(** * Properties C133 and C135, further families: LogNormal and Laplace cdf, Weibull, Pareto and Frechet pdf in doubles *)
From Coq Require Import Reals Lra Lia Psatz List ZArith Bool.
From Flocq Require Import Core IEEE754.BinarySingleNaN.
From Verif.Num Require Import Scalar F64.
From Verif.Model Require Import Rust Constraints Probability Params Consts Continuous Continuous2.
From Verif.Spec Require Import ParamSpec ProbSpec LibmSpec.
From Verif.Proofs Require Import ConstraintProofs NewInv F64Order LibmInst F64Cdf F64Pdf.
From Verif.Properties Require Import C133_F64Cdf C135_F64Pdf.
Import ListNotations.
Open Scope R_scope.
Notation cdf64 cdf d := (fun x : f64 => Probability.unwrap (cdf d x)).

(** LogNormal, x >= 0 (ln 0 = -infinity allowed) *)
Theorem C133_lognormal (m : Libm) (SP : Special f64) (mu v : f64) (d : LogNormal.t f64) :
  (forall z, number z -> le64 zero64 (sf_norm z) /\ le64 (sf_norm z) one64) ->
  (forall x, le64 zero64 x -> number (m_ln x)) ->
  LogNormal.new mu v = Ok d -> finite64 mu -> finite64 v ->
  valid_on (le64 zero64) (cdf64 LogNormal.cdf d) /\
  ((forall z z', le64 z z' -> le64 (sf_norm z) (sf_norm z')) ->
   (forall x y, le64 zero64 x -> le64 x y -> le64 (m_ln x) (m_ln y)) -> monotone_on (le64 zero64) (cdf64 LogNormal.cdf d)).
Proof.
  intros HN HL H Fm Fv. unfold LogNormal.new in H. destruct (UvNormal.new mu v) as [e|e] eqn:E; [|discriminate]. injection H as <-.
  destruct (C133_normal m SP mu v e HN E Fm Fv) as [A B]. split.
  - intros x Hx. exact (A (m_ln x) (HL x Hx)).
  - intros HM HLM x y Hx Hy L. exact (B HM (m_ln x) (m_ln y) (HL x Hx) (HL y Hy) (HLM x y Hx L)).
Qed.
Print Assumptions C133_lognormal.
(** a correctly rounded logarithm meets the two assumptions *)
Definition cr_ln (x : f64) : f64 := match x with B754_zero _ => B754_infinity true | B754_infinity false => B754_infinity false | B754_finite false _ _ _ => r2f (ln (RV x)) | _ => B754_nan end.
Definition ln_libm : Libm := {|
  m_exp := cr_exp; m_ln := cr_ln; m_log2 x := r2f (ln (RV x) / ln 2);
  m_sin x := r2f (sin (RV x)); m_cos x := r2f (cos (RV x)); m_tan x := r2f (tan (RV x));
  m_asin := cr_asin; m_atan := cr_atan; m_powf := cr_pow; m_powi x n := r2f (powerRZ (RV x) n) |}.
Lemma cr_ln_ok x : le64 zero64 x -> num (cr_ln x).
Proof.
  intros H. destruct (le0_dom x H) as [N P]. assert (Q := M64_pos).
  destruct x as [s|s| |s mm ee hh]; [reflexivity|destruct s; [cbn [V] in P; lra|reflexivity]|discriminate|].
  destruct s; [|apply r2f_num]. exfalso. rewrite V_fin in P by reflexivity. unfold RV in P. cbn [B2R] in P. assert (A := F2R_lt_0 radix2 (Float radix2 (cond_Zopp true (Zpos mm)) ee) ltac:(cbn; lia)). lra.
Qed.
Lemma pos_RV mm ee hh : 0 < RV (B754_finite false mm ee hh).
Proof. unfold RV. cbn [B2R]. apply F2R_gt_0. cbn. lia. Qed.
Lemma cr_ln_mono x y : le64 zero64 x -> le64 x y -> le64 (cr_ln x) (cr_ln y).
Proof.
  intros H L. assert (Hy : le64 zero64 y). { destruct (le0_dom x H) as [N P]. destruct (le_num _ _ L) as [_ Ny]. apply le_V2; [apply num_zero|exact Ny|]. apply le_V1 in L. rewrite V_zero. lra. }
  assert (Nx := cr_ln_ok x H). assert (Ny := cr_ln_ok y Hy). apply le_V2; auto. apply le_V1 in L. assert (Q := M64_pos).
  assert (B : forall z, - M64 <= V z <= M64) by (intros; apply V_bounds).
  destruct x as [s|s| |s mm ee hh].
  - cbn [cr_ln]. change (V (B754_infinity true)) with (- M64). apply B.
  - destruct s; [discriminate|]. destruct y as [t|t| |t m2 e2 h2].
    + exfalso. cbn [V B2R] in L. lra.
    + destruct t; [discriminate|]. apply Rle_refl.
    + discriminate.
    + exfalso. rewrite (V_fin (B754_finite t m2 e2 h2)) in L by reflexivity. assert (C := fin_lt (B754_finite t m2 e2 h2) eq_refl). cbn [V] in L. lra.
  - discriminate.
  - destruct s; [discriminate|]. assert (Px := pos_RV mm ee hh). destruct y as [t|t| |t m2 e2 h2].
    + exfalso. rewrite (V_fin (B754_finite false mm ee hh)) in L by reflexivity. cbn [V B2R] in L. lra.
    + destruct t; [discriminate|]. cbn [cr_ln]. change (V (B754_infinity false)) with M64. apply B.
    + discriminate.
    + destruct t; [discriminate|]. cbn [cr_ln]. rewrite !(V_fin (B754_finite false _ _ _)) in L by reflexivity.
      destruct (r2f_V (ln (RV (B754_finite false mm ee hh)))) as [_ ->]. destruct (r2f_V (ln (RV (B754_finite false m2 e2 h2)))) as [_ ->]. apply sat_mono.
      destruct L as [L|L]; [left; apply ln_increasing; auto|right; now rewrite L].
Qed.
Example C133_lognormal_nonvacuous : let m := ln_libm in let SP := sp_norm (fun x => sigm (@m_exp cr_libm (Bopp x))) in
  (forall z, number z -> le64 zero64 (@sf_norm f64 SP z) /\ le64 (@sf_norm f64 SP z) one64) /\ (forall x, le64 zero64 x -> number (@m_ln m x)) /\
  (forall x y, le64 x y -> le64 (@sf_norm f64 SP x) (@sf_norm f64 SP y)) /\ (forall x y, le64 zero64 x -> le64 x y -> le64 (@m_ln m x) (@m_ln m y)) /\
  exists d, @LogNormal.new f64 (F64Scalar m) (b64 (-3) (-1)) (b64 5 (-2)) = Ok d.
Proof.
  destruct C133_normal_nonvacuous as (A & B & _). split; [exact A|]. split; [exact cr_ln_ok|]. split; [exact B|]. split; [exact cr_ln_mono|].
  eexists. unfold LogNormal.new, UvNormal.new, UvNormal.params_new, loc_new, isotropic_new. cbn [and_then map_ok map_err check]. unfold check_default. cbn [is_satisfied_by]. unfold pltb, POrd_scalar, pzero.
  replace (fltb (f_of_Z 0) (b64 5 (-2)) : bool) with true by (vm_compute; reflexivity). cbn [and_then map_ok map_err]. reflexivity.
Qed.

(** Laplace: its cdf (the body of a density) exceeds 1 at the location, already for the scale 1/4 *)
Theorem C133_laplace_refuted (m : Libm) : m_exp (Bopp zero64) = one64 -> exists (b : f64) (d : Laplace.t f64), Laplace.new zero64 b = Ok d /\ finite64 b /\
  Probability.unwrap (Laplace.cdf d zero64) = b64 2 0 /\ ~ valid_prob (Probability.unwrap (Laplace.cdf d zero64)).
Proof.
  intros HE. exists (b64 1 (-2)), (Laplace.new_unchecked zero64 (b64 1 (-2))).
  assert (E : Probability.unwrap (Laplace.cdf (Laplace.new_unchecked zero64 (b64 1 (-2))) zero64) = b64 2 0).
  { change (Bdiv mode_NE (Bdiv mode_NE (m_exp (Bopp (Babs (Bdiv mode_NE (Babs (Bminus mode_NE zero64 zero64)) (b64 1 (-2)))))) (b64 2 0)) (b64 1 (-2)) = b64 2 0).
    assert (Z : Babs (Bdiv mode_NE (Babs (Bminus mode_NE zero64 zero64)) (b64 1 (-2))) = zero64) by (apply B2SF_inj; vm_compute; reflexivity).
    rewrite Z, HE. apply B2SF_inj. vm_compute. reflexivity. }
  split; [|split; [vm_compute; reflexivity|split; [exact E|]]].
  - assert (PS : fltb (f_of_Z 0 : f64) (b64 1 (-2)) = true) by (vm_compute; reflexivity). unfold Laplace.new.
    etransitivity; [apply map_params_ok; cbn [args s1 s2 s3 fst snd]; repeat (apply Forall_cons || apply Forall_nil); unfold arg_ok; cbn [arg_ty arg_val field_ok]; first [exact I|exact PS]|reflexivity].
  - rewrite E. intros K. apply V_valid in K; [|reflexivity]. rewrite V_fin in K by (vm_compute; reflexivity). destruct (b64_int 2 ltac:(lia)) as [_ R2]. rewrite R2 in K. lra.
Qed.
Print Assumptions C133_laplace_refuted.

(** ** products and quotients of non-negative doubles: NaN exactly for 0 * inf, 0 / 0 and inf / inf *)
Definition inf64 : f64 := B754_infinity false.
(** equal to zero (of either sign) *)
Definition is0 (x : f64) : Prop := le64 x zero64 /\ le64 zero64 x.
Lemma is0_V x : is0 x -> num x /\ V x = 0.
Proof. intros [A B]. destruct (le0_dom x B) as [N P]. apply le_V1 in A. rewrite V_zero in A. split; [exact N|lra]. Qed.
Lemma nn_pos_or x : nnv x -> is0 x \/ 0 < V x.
Proof. intros [N P]. destruct P as [P|P]; [now right|left]. split; apply le_V2; auto; try apply num_zero; rewrite V_zero; lra. Qed.
Lemma is0_shape x : is0 x -> exists s, x = B754_zero s.
Proof.
  intros H. destruct (is0_V x H) as [N E]. assert (Q := M64_pos). destruct x as [s|s| |s mm ee hh]; [now exists s|exfalso; destruct s; cbn [V] in E; lra|discriminate|exfalso].
  cbn [V B2R] in E. destruct s; [assert (A := F2R_lt_0 radix2 (Float radix2 (cond_Zopp true (Zpos mm)) ee) ltac:(cbn; lia))|assert (A := F2R_gt_0 radix2 (Float radix2 (cond_Zopp false (Zpos mm)) ee) ltac:(cbn; lia))]; lra.
Qed.
Lemma nn_or_inf x : nnv x -> fin x \/ x = inf64.
Proof. intros H. destruct (nnv_cases x H) as [[F _]|E]; auto. Qed.
Lemma not_nan_nn z : nnv z -> is_nan z = true -> False.
Proof. intros [N _] K. unfold num in N. congruence. Qed.
Lemma mult_nan x y : nnv x -> nnv y -> (is_nan (Bmult mode_NE x y) = true <-> (is0 x /\ y = inf64) \/ (x = inf64 /\ is0 y)) /\ (is_nan (Bmult mode_NE x y) = false -> nnv (Bmult mode_NE x y)).
Proof.
  intros Hx Hy.
  assert (D : ((is0 x /\ y = inf64) \/ (x = inf64 /\ is0 y)) \/ nnv (Bmult mode_NE x y)).
  { destruct (nn_or_inf x Hx) as [Fx|Ex]; destruct (nn_or_inf y Hy) as [Fy|Ey].
    - right. apply mult_nn; auto.
    - destruct (nn_pos_or x Hx) as [Zx|Px]; [left; left; auto|right]. apply mult_nn; auto.
    - destruct (nn_pos_or y Hy) as [Zy|Py]; [left; right; auto|right]. apply mult_nn; auto.
    - subst. right. exact nnv_inf. }
  split; [split|].
  - intros K. destruct D as [D|D]; [exact D|]. destruct (not_nan_nn _ D K).
  - intros [[Z ->]|[-> Z]]; destruct (is0_shape _ Z) as [s ->]; reflexivity.
  - intros K. destruct D as [[[Z ->]|[-> Z]]|D]; [| |exact D]; exfalso; destruct (is0_shape _ Z) as [s ->]; discriminate.
Qed.
Lemma div_nan x y : nnv x -> nnv y -> le64 zero64 y -> (is_nan (Bdiv mode_NE x y) = true <-> (is0 x /\ is0 y) \/ (x = inf64 /\ y = inf64)).
Proof.
  intros Hx Hy _. split.
  - intros K. destruct (nn_pos_or y Hy) as [Zy|Py].
    + destruct (nn_pos_or x Hx) as [Zx|Px]; [now left|]. exfalso. destruct (is0_shape _ Zy) as [s ->]. destruct (pos_not_zero x (proj1 Hx) Px) as [[Fx Qx]|Ex]; [destruct (pos_sign x Fx Qx) as (a & b & c & ->)|subst x]; discriminate.
    + destruct (nn_or_inf x Hx) as [Fx|Ex]; [exfalso; exact (not_nan_nn _ (div_nn x y Hx (proj1 Hy) Py (or_introl Fx)) K)|].
      destruct (nn_or_inf y Hy) as [Fy|Ey]; [exfalso; exact (not_nan_nn _ (div_nn x y Hx (proj1 Hy) Py (or_intror Fy)) K)|]. now right.
  - intros [[Zx Zy]|[-> ->]]; [|reflexivity]. destruct (is0_shape _ Zx) as [s ->]. destruct (is0_shape _ Zy) as [t ->]. reflexivity.
Qed.

(** Pareto, positive finite minimum, finite shape, from the minimum on: with n = a*xm^a and q = x^(a+1) as computed,
    the density is NaN exactly for 0/0 and inf/inf, and a number >= 0 when q > 0 otherwise *)
Theorem C135_pareto_partial (m : Libm) (xm a : f64) (d : Pareto.t f64) : libm_range m -> Pareto.new xm a = Ok d -> finite64 xm -> lt64 zero64 xm -> finite64 a ->
  forall x, le64 xm x -> let n := Bmult mode_NE a (m_powf xm a) in let q := m_powf x (Bplus mode_NE a one64) in
  (is_nan (Pareto.pdf d x) = true <-> (is0 n /\ is0 q) \/ (n = inf64 /\ q = inf64)) /\
  (is_nan (Pareto.pdf d x) = false -> lt64 zero64 q -> le64 zero64 (Pareto.pdf d x)).
Proof.
  intros HR H Fx Px Fa x Lx n q. unfold Pareto.new in H. inv64 H. assert (Pa := fin_pos a Fa HP0). assert (Pm := fin_pos xm Fx Px).
  assert (Dx : nnv x). { split; [now destruct (le_num _ _ Lx)|]. apply le_V1 in Lx. rewrite (V_fin xm) in Lx by auto. lra. }
  assert (E : Pareto.pdf (Pareto.mk (Pareto.mkP xm a)) x = Bdiv mode_NE n q).
  { unfold Pareto.pdf. cbn [Pareto.pr]. change (fltb x xm) with (Bltb x xm). destruct (Bltb x xm) eqn:B; [|reflexivity]. exfalso. apply lt_V1 in B. apply le_V1 in Lx. lra. }
  rewrite E. assert (Nn : nnv n). { unfold n. apply mult_nn; [now apply nn_fin|apply (pw_nn HR); [now apply nn_fin|now apply fin_num]|now left|]. right. rewrite V_fin; auto. }
  assert (Nq : nnv q). { unfold q. apply (pw_nn HR); [exact Dx|]. apply plus_c; [now apply fin_num|reflexivity]. }
  split; [apply div_nan; auto; now apply nnv_le|]. intros K Q. apply lt_V1 in Q. rewrite V_zero in Q. apply nnv_le. apply div_nn; [exact Nn|apply Nq|exact Q|].
  destruct (nn_or_inf n Nn) as [F|E1]; [now left|]. destruct (nn_or_inf q Nq) as [F|E2]; [now right|]. exfalso. rewrite E1, E2 in K. discriminate.
Qed.
Print Assumptions C135_pareto_partial.

(** Frechet, finite shape, x >= 0: NaN exactly when a*x^(-1-a) overflows where the cdf is 0, otherwise a number >= 0 *)
Theorem C135_frechet_partial (m : Libm) (a : f64) (d : Frechet.t f64) : libm_range m -> Frechet.new a = Ok d -> finite64 a ->
  forall x, le64 zero64 x -> let p := Bmult mode_NE a (m_powf x (Bminus mode_NE (Bopp one64) a)) in
  (is_nan (Frechet.pdf d x) = true <-> p = inf64 /\ is0 (Probability.unwrap (Frechet.cdf d x))) /\
  (is_nan (Frechet.pdf d x) = false -> le64 zero64 (Frechet.pdf d x)).
Proof.
  intros HR H Fa x Lx p. pose proof (proj1 (C133_frechet m a d HR H) x Lx) as VC. unfold Frechet.new in H. inv64 H. assert (Pa := fin_pos a Fa HP).
  assert (Dx := le_nnv x Lx). set (c := Probability.unwrap (Frechet.cdf (Frechet.mk (Frechet.mkP a)) x)) in *. change (valid_prob c) in VC.
  assert (E : Frechet.pdf (Frechet.mk (Frechet.mkP a)) x = Bmult mode_NE p c) by reflexivity. rewrite E.
  assert (Np : nnv p). { unfold p. apply mult_nn; [now apply nn_fin|apply (pw_nn HR); [exact Dx|]|now left|right; rewrite V_fin; auto]. apply minus_c; [reflexivity|exact Fa]. }
  assert (Fc : fin c) by apply VC. assert (Nc : nnv c). { split; [now apply fin_num|]. apply V_valid; [now apply fin_num|exact VC]. }
  destruct (mult_nan p c Np Nc) as [A B]. split; [|intros K; apply nnv_le; auto]. rewrite A. split.
  - intros [[_ X]|X]; [rewrite X in Fc; discriminate|exact X].
  - now right.
Qed.
Print Assumptions C135_frechet_partial.

(** Weibull, finite scale and shape with k/l neither 0 nor infinite in doubles, every x but NaN: NaN exactly when
    (k/l)(x/l)^(k-1) overflows where the exponential factor underflows to 0 *)
Theorem C135_weibull_partial (m : Libm) (l k : f64) (p : Weibull.Params f64) : libm_range m -> Weibull.p_new l k = Ok p -> finite64 l -> finite64 k ->
  finite64 (Bdiv mode_NE k l) -> lt64 zero64 (Bdiv mode_NE k l) ->
  forall x, number x -> let w := Bmult mode_NE (Bdiv mode_NE k l) (m_powf (Bdiv mode_NE x l) (Bminus mode_NE k one64)) in
  let e := m_exp (Bopp (m_powf (Bdiv mode_NE x l) k)) in
  (is_nan (Weibull.pdf (Weibull.from p) x) = true <-> le64 zero64 x /\ w = inf64 /\ is0 e) /\
  (is_nan (Weibull.pdf (Weibull.from p) x) = false -> le64 zero64 (Weibull.pdf (Weibull.from p) x)).
Proof.
  intros HR H Fl Fk Fr Pr x N w e. unfold Weibull.p_new in H. inv64 H. assert (Pl := fin_pos l Fl HP). assert (Pk := fin_pos k Fk HP0). assert (Q := fin_pos _ Fr Pr).
  destruct (Bleb zero64 x) eqn:B.
  - assert (E : Weibull.pdf (Weibull.from (Weibull.mkP l k)) x = Bmult mode_NE w e). { unfold Weibull.pdf. change (fleb (f_of_Z 0) x) with (Bleb zero64 x). rewrite B. reflexivity. }
    rewrite E. destruct (le0_dom x B) as [Nx Lx]. destruct (div_ge0 x l Fl Pl Nx Lx) as [A1 A2].
    assert (NW : nnv w). { unfold w. apply mult_nn; [now apply nn_fin|apply (pw_nn HR); [now split|]|now left|right; rewrite V_fin; auto]. apply minus_c; [now apply fin_num|reflexivity]. }
    assert (NP : nnv (m_powf (Bdiv mode_NE x l) k)) by (apply (pw_nn HR); [now split|now apply fin_num]).
    assert (NE : nnv e) by (apply (xp_nn HR), num_opp, NP).
    assert (LE : V e <= 1). { unfold e. apply (xp_le1 HR); [apply num_opp, NP|]. rewrite V_opp. destruct NP as [_ X]. lra. }
    assert (FE := le1_fin e NE LE). destruct (mult_nan w e NW NE) as [C D]. split; [|intros K; apply nnv_le; auto]. rewrite C. split.
    + intros [[_ X]|X]; [rewrite X in FE; discriminate|split; [exact B|exact X]].
    + intros [_ X]. now right.
  - assert (E : Weibull.pdf (Weibull.from (Weibull.mkP l k)) x = zero64). { unfold Weibull.pdf. change (fleb (f_of_Z 0) x) with (Bleb zero64 x). rewrite B. reflexivity. }
    rewrite E. split; [|intros _; vm_compute; reflexivity]. split; [discriminate|]. intros [X _]. unfold le64 in X. congruence.
Qed.
Print Assumptions C135_weibull_partial.
(** the hypotheses are met: Weibull(1, 3), Pareto(1, 3), Frechet(2) in doubles *)
Example C135_more_nonvacuous : let m := cr_libm in libm_range m /\
  (exists p, @Weibull.p_new f64 (F64Scalar m) one64 (b64 3 0) = Ok p) /\ finite64 (Bdiv mode_NE (b64 3 0) one64) /\ lt64 zero64 (Bdiv mode_NE (b64 3 0) one64) /\
  (exists d, @Pareto.new f64 (F64Scalar m) one64 (b64 3 0) = Ok d) /\ (exists d, @Frechet.new f64 (F64Scalar m) (b64 2 0) = Ok d).
Proof.
  intros m. assert (P1 : fltb (f_of_Z 0 : f64) one64 = true) by (vm_compute; reflexivity). assert (P3 : fltb (f_of_Z 0 : f64) (b64 3 0) = true) by (vm_compute; reflexivity). assert (P2 : fltb (f_of_Z 0 : f64) (b64 2 0) = true) by (vm_compute; reflexivity).
  split; [exact cr_range|]. split; [exists (Weibull.mkP one64 (b64 3 0)); unfold Weibull.p_new|split; [vm_compute; reflexivity|split; [vm_compute; reflexivity|split; [exists (Pareto.new_unchecked one64 (b64 3 0)); unfold Pareto.new|exists (Frechet.new_unchecked (b64 2 0)); unfold Frechet.new]]]].
  all: etransitivity; [apply map_params_ok; cbn [args s1 s2 s3 fst snd]; repeat (apply Forall_cons || apply Forall_nil); unfold arg_ok; cbn [arg_ty arg_val field_ok]; first [exact I|exact P1|exact P2|exact P3]|reflexivity].
Qed.
