(** * A libm satisfying [libm_range] and [libm_monotone]: correctly rounded
    functions (atan and asin also clamped to +- the double nearest to pi/2).
    Only used to show that the hypotheses can be met. *)
From Coq Require Import Reals Lra Lia ZArith Psatz Bool.
From Flocq Require Import Core IEEE754.BinarySingleNaN.
From Verif.Num Require Import Scalar F64.
From Verif.Spec Require Import ProbSpec LibmSpec.
From Verif.Proofs Require Import F64Order.
Open Scope R_scope.

(** the double nearest to a real *)
Definition r2f (r : R) : f64 :=
  if Rlt_dec (Rabs (rnd r)) (bpow radix2 1024)
  then b64 (Ztrunc (scaled_mantissa radix2 (SpecFloat.fexp 53 1024) (rnd r))) (cexp radix2 (SpecFloat.fexp 53 1024) (rnd r))
  else B754_infinity (if Rlt_dec r 0 then true else false).
Lemma r2f_V r : num (r2f r) /\ V (r2f r) = sat r.
Proof.
  unfold r2f. destruct (Rlt_dec (Rabs (rnd r)) (bpow radix2 1024)) as [L|L].
  - assert (G := fmt_rnd r). unfold generic_format in G.
    set (mz := Ztrunc _) in *. set (ez := cexp _ _ _) in *.
    assert (E : rnd (IZR mz * bpow radix2 ez) = rnd r). { change (IZR mz * bpow radix2 ez) with (F2R (Float radix2 mz ez)). rewrite <- G. apply rnd_fmt, fmt_rnd. }
    destruct (b64_spec mz ez) as [F W]; [rewrite E; exact L|]. split; [now apply fin_num|]. apply V_ok; auto. unfold RV in W. rewrite W. exact E.
  - split; [reflexivity|]. apply V_inf; [exact L|]. destruct (Rlt_dec r 0); lra.
Qed.
Lemma r2f_num r : num (r2f r). Proof. apply r2f_V. Qed.

Definition cr_exp (x : f64) : f64 := match x with B754_nan => B754_nan | B754_infinity true => B754_zero false | B754_infinity false => B754_infinity false | _ => r2f (exp (RV x)) end.
(** C99 pow on non-negative bases *)
Definition cr_pow (x y : f64) : f64 :=
  match x, y with
  | B754_nan, _ | _, B754_nan => B754_nan
  | _, B754_zero _ => b64 1 0
  | _, B754_infinity s => if Rlt_dec (V x) 1 then (if s then B754_infinity false else B754_zero false) else if Rlt_dec 1 (V x) then (if s then B754_zero false else B754_infinity false) else b64 1 0
  | B754_zero _, B754_finite s _ _ _ => if s then B754_infinity false else B754_zero false
  | B754_infinity _, B754_finite s _ _ _ => if s then B754_zero false else B754_infinity false
  | B754_finite _ _ _ _, B754_finite _ _ _ _ => r2f (Rpower (RV x) (RV y))
  end.
Definition HP : R := RV half_pi64.
Definition clamp_hp (r : R) : R := Rmax (- HP) (Rmin HP r).
Definition cr_atan (x : f64) : f64 := match x with B754_nan => B754_nan | B754_infinity s => if s then Bopp half_pi64 else half_pi64 | _ => r2f (clamp_hp (atan (RV x))) end.
Definition cr_asin (x : f64) : f64 := if Bltb one64 x then B754_nan else r2f (clamp_hp (asin (RV x))).
Lemma cr_asin_in x : le64 x one64 -> cr_asin x = r2f (clamp_hp (asin (RV x))).
Proof. intros H. unfold cr_asin. destruct (Bltb one64 x) eqn:E; [|reflexivity]. exfalso. apply lt_V1 in E. apply le_V1 in H. lra. Qed.
Definition cr_libm : Libm := {|
  m_exp := cr_exp; m_ln x := r2f (ln (RV x)); m_log2 x := r2f (ln (RV x) / ln 2);
  m_sin x := r2f (sin (RV x)); m_cos x := r2f (cos (RV x)); m_tan x := r2f (tan (RV x));
  m_asin := cr_asin; m_atan := cr_atan; m_powf := cr_pow; m_powi x n := r2f (powerRZ (RV x) n)
|}.

Lemma HP_val : fin half_pi64 /\ 0 < HP <= 2.
Proof.
  split; [vm_compute; reflexivity|]. unfold HP, half_pi64. 
  assert (E : IZR 7074237752028440 * bpow radix2 (-52) = 7074237752028440 / 4503599627370496) by (cbn [bpow]; unfold Rdiv; f_equal; f_equal; f_equal; reflexivity).
  destruct (b64_spec 7074237752028440 (-52)) as [F W].
  - rewrite E. apply rnd_small. apply small_le. rewrite Rabs_pos_eq; lra.
  - rewrite W, E. split; [|apply rnd_le_fmt; [apply (fmt_IZR 2); lia|lra]].
    apply Rlt_le_trans with 1; [lra|]. apply rnd_ge; [apply fmt_1|lra].
Qed.
Lemma HP_sat r : - HP <= r <= HP -> - HP <= sat r <= HP.
Proof.
  intros B. destruct HP_val as [F P]. assert (Q := M64_pos). assert (E1 : sat HP = HP) by (apply sat_fmt; [apply fmt_RV|lra]).
  assert (E2 : sat (- HP) = - HP) by (apply sat_fmt; [apply generic_format_opp, fmt_RV|lra]).
  split; [rewrite <- E2|rewrite <- E1]; apply sat_mono; lra.
Qed.
Lemma clamp_hp_mono a b : a <= b -> clamp_hp a <= clamp_hp b.
Proof. intros. unfold clamp_hp. now apply Rle_max_compat_l, Rle_min_compat_l. Qed.
Lemma clamp_hp_bounds a : - HP <= clamp_hp a <= HP.
Proof. destruct HP_val as [_ P]. unfold clamp_hp. split; [apply Rmax_l|]. apply Rmax_lub; [lra|apply Rmin_l]. Qed.

(** exp *)
Definition exp_V (x : f64) : R := match x with B754_infinity true => 0 | B754_infinity false => M64 | _ => sat (exp (RV x)) end.
Lemma cr_exp_V x : num x -> num (cr_exp x) /\ V (cr_exp x) = exp_V x.
Proof. intros N. destruct x as [|[|]| |]; try discriminate; cbn [cr_exp exp_V]; try apply r2f_V; (split; [reflexivity|cbn [V B2R]; reflexivity]). Qed.
Lemma exp_V_fin x : fin x -> exp_V x = sat (exp (RV x)). Proof. destruct x; try discriminate; reflexivity. Qed.
Lemma exp_V_bounds x : 0 <= exp_V x <= M64.
Proof.
  assert (P := M64_pos). assert (Q : forall r, 0 <= sat (exp r) <= M64) by (intros r; split; [apply sat_pos, Rlt_le, exp_pos|apply sat_bounds]).
  destruct x as [|[|]| |]; cbn [exp_V]; try apply Q; lra.
Qed.
Lemma exp_V_mono x y : num x -> num y -> V x <= V y -> exp_V x <= exp_V y.
Proof.
  intros Nx Ny L. assert (P := M64_pos). assert (Bx := exp_V_bounds x). assert (By := exp_V_bounds y).
  destruct (inf_cases x Nx) as [Fx|[Ex|Ex]]; destruct (inf_cases y Ny) as [Fy|[Ey|Ey]]; subst; cbn [V exp_V] in *; try lra.
  - rewrite !exp_V_fin by auto. rewrite !V_fin in L by auto. apply sat_mono. destruct L as [L|L]; [left; now apply exp_increasing|right; now rewrite L].
  - assert (B := fin_lt x Fx). rewrite V_fin in L by auto. lra.
  - assert (B := fin_lt y Fy). rewrite V_fin in L by auto. lra.
Qed.

(** pow on a non-negative base *)
Ltac rdec := repeat match goal with
  | |- context [Rlt_dec ?a ?b] => destruct (Rlt_dec a b)
  end.
Definition nn (x : f64) : Prop := num x /\ 0 <= V x.
Lemma RV_pos_finite m e H : 0 < RV (B754_finite false m e H : f64).
Proof. unfold RV. cbn [B2R]. apply F2R_gt_0. cbn. lia. Qed.
Lemma RV_neg_finite m e H : RV (B754_finite true m e H : f64) < 0.
Proof. unfold RV. cbn [B2R]. apply F2R_lt_0. cbn. lia. Qed.
(** value of pow for y > 0 / y < 0, in one formula per sign *)
Definition pw (x y : f64) : R := if Rlt_dec 0 (RV x) then sat (Rpower (RV x) (RV y)) else 0.
Lemma pow_pos_V x y : nn x -> fin y -> 0 < RV y -> num (cr_pow x y) /\
  V (cr_pow x y) = match x with B754_infinity _ => M64 | _ => pw x y end.
Proof.
  intros [N P] F Py. destruct (pos_sign y F Py) as (m & e & H & ->). assert (Q := M64_pos).
  destruct x as [s|[|]| |s m' e' H']; try discriminate; cbn [cr_pow].
  - split; [reflexivity|]. unfold pw. destruct (Rlt_dec 0 (RV (B754_zero s))) as [X|X]; [unfold RV in X; cbn in X; lra|reflexivity].
  - cbn [V] in P. lra.
  - split; reflexivity.
  - destruct (r2f_V (Rpower (RV (B754_finite s m' e' H')) (RV (B754_finite false m e H)))) as [A B]. split; [exact A|]. rewrite B. unfold pw.
    destruct s; [exfalso; assert (X := RV_neg_finite m' e' H'); change (0 <= RV (B754_finite true m' e' H')) in P; lra|].
    destruct (Rlt_dec 0 (RV (B754_finite false m' e' H'))) as [X|X]; [reflexivity|]. exfalso. apply X, RV_pos_finite.
Qed.
Lemma pow_neg_V x y : nn x -> fin y -> RV y < 0 -> num (cr_pow x y) /\
  V (cr_pow x y) = match x with B754_infinity _ => 0 | _ => if Rlt_dec 0 (RV x) then sat (Rpower (RV x) (RV y)) else M64 end.
Proof.
  intros [N P] F Py. destruct (neg_sign y F Py) as (m & e & H & ->). assert (Q := M64_pos).
  destruct x as [s|[|]| |s m' e' H']; try discriminate; cbn [cr_pow].
  - split; [reflexivity|]. destruct (Rlt_dec 0 (RV (B754_zero s))) as [X|X]; [unfold RV in X; cbn in X; lra|reflexivity].
  - cbn [V] in P. lra.
  - split; reflexivity.
  - destruct (r2f_V (Rpower (RV (B754_finite s m' e' H')) (RV (B754_finite true m e H)))) as [A B]. split; [exact A|]. rewrite B.
    destruct s; [exfalso; assert (X := RV_neg_finite m' e' H'); change (0 <= RV (B754_finite true m' e' H')) in P; lra|].
    destruct (Rlt_dec 0 (RV (B754_finite false m' e' H'))) as [X|X]; [reflexivity|]. exfalso. apply X, RV_pos_finite.
Qed.
Lemma pow_inf_V x s : nn x -> cr_pow x (B754_infinity s) =
  if Rlt_dec (V x) 1 then (if s then B754_infinity false else B754_zero false) else if Rlt_dec 1 (V x) then (if s then B754_zero false else B754_infinity false) else b64 1 0.
Proof. intros [N P]. destruct x; try discriminate; reflexivity. Qed.
Lemma pow_zero_V x s : num x -> cr_pow x (B754_zero s) = b64 1 0.
Proof. destruct x; try discriminate; reflexivity. Qed.
Lemma Rpow_mono a b y : 0 < a -> a <= b -> 0 < y -> Rpower a y <= Rpower b y.
Proof. intros. apply Rle_Rpower_l; lra. Qed.
Lemma Rpow_anti a b y : 0 < a -> a <= b -> y < 0 -> Rpower b y <= Rpower a y.
Proof.
  intros Ha L Hy. unfold Rpower. assert (ln a <= ln b) by (destruct L as [L|L]; [left; apply ln_increasing; auto|right; now rewrite L]).
  assert (y * ln b <= y * ln a) by nra. destruct H0 as [H0|H0]; [left; now apply exp_increasing|right; now rewrite H0].
Qed.
Lemma Rpow_1 y : Rpower 1 y = 1. Proof. unfold Rpower. rewrite ln_1, Rmult_0_r. apply exp_0. Qed.
Lemma Rpow_pos a y : 0 < Rpower a y. Proof. unfold Rpower. apply exp_pos. Qed.
Lemma V_b1 : V (b64 1 0) = 1. Proof. exact V_one. Qed.
Lemma nn_of x : le64 zero64 x -> nn x.
Proof. intros H. destruct (le_num _ _ H) as [_ N]. split; [exact N|]. apply le_V1 in H. rewrite V_zero in H. exact H. Qed.
Lemma y_cases (y : f64) : num y -> (exists s, y = B754_zero s) \/ (fin y /\ 0 < RV y) \/ (fin y /\ RV y < 0) \/ exists s, y = B754_infinity s.
Proof.
  intros N. destruct y as [s|s| |s m e H]; try discriminate; eauto.
  destruct s; [right; right; left|right; left]; (split; [reflexivity|]); [apply RV_neg_finite|apply RV_pos_finite].
Qed.
Lemma pw_val x y : nn x -> fin x -> pw x y = if Rlt_dec 0 (V x) then sat (Rpower (V x) (RV y)) else 0.
Proof. intros _ F. unfold pw. now rewrite V_fin by auto. Qed.

Lemma cr_pow_nonneg x y : le64 zero64 x -> number y -> num (cr_pow x y) /\ 0 <= V (cr_pow x y).
Proof.
  intros Hx Ny. apply nn_of in Hx. assert (Q := M64_pos). destruct (y_cases y Ny) as [[s ->]|[[F P]|[[F P]|[s ->]]]].
  - rewrite pow_zero_V by apply Hx. rewrite V_b1. split; [reflexivity|lra].
  - destruct (pow_pos_V x y Hx F P) as [A ->]. split; [exact A|].
    assert (0 <= pw x y) by (unfold pw; destruct (Rlt_dec 0 (RV x)); [apply sat_pos, Rlt_le, Rpow_pos|lra]). destruct x; lra.
  - destruct (pow_neg_V x y Hx F P) as [A ->]. split; [exact A|]. destruct x; try lra; match goal with |- 0 <= if ?a then _ else _ => destruct a end; try lra; apply sat_pos, Rlt_le, Rpow_pos.
  - rewrite pow_inf_V by auto. destruct (Rlt_dec (V x) 1); [|destruct (Rlt_dec 1 (V x))]; destruct s; (split; [reflexivity|]); try rewrite V_b1; cbn [V B2R]; lra.
Qed.
Lemma cr_pow_le_one x y : le64 zero64 x -> le64 x one64 -> lt64 zero64 y -> V (cr_pow x y) <= 1.
Proof.
  intros Hx H1 Hy. apply nn_of in Hx. assert (Q := M64_pos). destruct (lt_num _ _ Hy) as [_ Ny]. apply le_V1 in H1. apply lt_V1 in Hy. rewrite V_zero in Hy. rewrite V_one in H1.
  destruct (y_cases y Ny) as [[s ->]|[[F P]|[[F P]|[s ->]]]].
  - cbn in Hy. lra.
  - destruct (pow_pos_V x y Hx F P) as [A ->]. destruct Hx as [Nx Px]. assert (Fx : fin x) by (apply V_fin_iff; auto; lra).
    replace (match x with B754_infinity _ => M64 | _ => pw x y end) with (pw x y) by (destruct x; try discriminate; reflexivity).
    unfold pw. rewrite V_fin in H1 by auto. destruct (Rlt_dec 0 (RV x)); [|lra]. apply sat_le1. rewrite <- (Rpow_1 (RV y)). apply Rpow_mono; lra.
  - rewrite V_fin in Hy by auto. lra.
  - rewrite pow_inf_V by auto. destruct s; [cbn [V] in Hy; lra|]. destruct (Rlt_dec (V x) 1); [|destruct (Rlt_dec 1 (V x))]; try rewrite V_b1; cbn [V B2R]; lra.
Qed.
Lemma cr_pow_neg_le_one x y : le64 one64 x -> lt64 y zero64 -> num (cr_pow x y) /\ V (cr_pow x y) <= 1.
Proof.
  intros Hx Hy. assert (Q := M64_pos). destruct (le_num _ _ Hx) as [_ Nx]. apply le_V1 in Hx. rewrite V_one in Hx. assert (NX : nn x) by (split; [auto|lra]).
  destruct (lt_num _ _ Hy) as [Ny _]. apply lt_V1 in Hy. rewrite V_zero in Hy.
  destruct (y_cases y Ny) as [[s ->]|[[F P]|[[F P]|[s ->]]]].
  - cbn in Hy. lra.
  - rewrite V_fin in Hy by auto. lra.
  - destruct (pow_neg_V x y NX F P) as [A ->]. split; [exact A|]. destruct (inf_cases x Nx) as [Fx|[Ex|Ex]]; subst; try (cbn [V] in *; lra).
    rewrite V_fin in Hx by auto. replace (match x with B754_infinity _ => 0 | _ => if Rlt_dec 0 (RV x) then sat (Rpower (RV x) (RV y)) else M64 end) with (if Rlt_dec 0 (RV x) then sat (Rpower (RV x) (RV y)) else M64) by (destruct x; try discriminate; reflexivity).
    destruct (Rlt_dec 0 (RV x)); [|lra]. apply sat_le1. rewrite <- (Rpow_1 (RV y)). apply Rpow_anti; lra.
  - rewrite pow_inf_V by auto. destruct s; [|cbn [V] in Hy; lra]. destruct (Rlt_dec (V x) 1); [lra|destruct (Rlt_dec 1 (V x))]; (split; [reflexivity|]); try rewrite V_b1; cbn [V B2R]; lra.
Qed.
Lemma cr_pow_mono x x' y : le64 zero64 x -> le64 x x' -> lt64 zero64 y -> V (cr_pow x y) <= V (cr_pow x' y).
Proof.
  intros Hx L Hy. apply nn_of in Hx. assert (Q := M64_pos). destruct (lt_num _ _ Hy) as [_ Ny]. destruct (le_num _ _ L) as [Nx Nx']. apply le_V1 in L. apply lt_V1 in Hy. rewrite V_zero in Hy.
  assert (Hx' : nn x') by (split; [auto|destruct Hx; lra]).
  destruct (y_cases y Ny) as [[s ->]|[[F P]|[[F P]|[s ->]]]].
  - cbn in Hy. lra.
  - assert (G : forall z, nn z -> V (cr_pow z y) = match z with B754_infinity _ => M64 | _ => pw z y end) by (intros z Hz; apply (pow_pos_V z y Hz F P)).
    rewrite !G by auto. destruct (inf_cases x Nx) as [Fx|[Ex|Ex]]; destruct (inf_cases x' Nx') as [Fx'|[Ex'|Ex']]; subst; try (destruct Hx, Hx'; cbn [V] in *; lra).
    + replace (match x with B754_infinity _ => M64 | _ => pw x y end) with (pw x y) by (destruct x; try discriminate; reflexivity).
      replace (match x' with B754_infinity _ => M64 | _ => pw x' y end) with (pw x' y) by (destruct x'; try discriminate; reflexivity).
      rewrite !V_fin in L by auto. unfold pw. destruct (Rlt_dec 0 (RV x)) as [A|A]; destruct (Rlt_dec 0 (RV x')) as [B|B]; try lra.
      * apply sat_mono, Rpow_mono; auto.
      * apply sat_pos, Rlt_le, Rpow_pos.
    + replace (match x with B754_infinity _ => M64 | _ => pw x y end) with (pw x y) by (destruct x; try discriminate; reflexivity). unfold pw. destruct (Rlt_dec 0 (RV x)); [apply sat_bounds|lra].
    + assert (B := fin_lt x' Fx'). rewrite (V_fin x') in L by auto. cbn [V] in L. lra.
  - rewrite V_fin in Hy by auto. lra.
  - rewrite !pow_inf_V by auto. destruct s; [cbn [V] in Hy; lra|]. destruct (Rlt_dec (V x) 1); destruct (Rlt_dec (V x') 1); try (destruct (Rlt_dec 1 (V x))); try (destruct (Rlt_dec 1 (V x'))); try rewrite V_b1; cbn [V B2R]; lra.
Qed.
Lemma cr_pow_anti x x' y : le64 zero64 x -> le64 x x' -> lt64 y zero64 -> num (cr_pow x y) /\ num (cr_pow x' y) /\ V (cr_pow x' y) <= V (cr_pow x y).
Proof.
  intros Hx L Hy. assert (Hx0 := Hx). apply nn_of in Hx. assert (Q := M64_pos). destruct (lt_num _ _ Hy) as [Ny _]. destruct (le_num _ _ L) as [Nx Nx']. apply le_V1 in L. apply lt_V1 in Hy. rewrite V_zero in Hy.
  assert (Hx' : nn x') by (split; [auto|destruct Hx; lra]).
  split; [now apply cr_pow_nonneg|]. split; [apply cr_pow_nonneg; auto; apply le_V2; [apply num_zero|auto|]; rewrite V_zero; apply Hx'|].
  destruct (y_cases y Ny) as [[s ->]|[[F P]|[[F P]|[s ->]]]].
  - cbn in Hy. lra.
  - rewrite V_fin in Hy by auto. lra.
  - set (g := fun z : f64 => if Rlt_dec 0 (RV z) then sat (Rpower (RV z) (RV y)) else M64).
    assert (G : forall z, nn z -> V (cr_pow z y) = match z with B754_infinity _ => 0 | _ => g z end) by (intros z Hz; apply (pow_neg_V z y Hz F P)).
    rewrite !G by auto. destruct (inf_cases x Nx) as [Fx|[Ex|Ex]]; destruct (inf_cases x' Nx') as [Fx'|[Ex'|Ex']]; subst; try (destruct Hx, Hx'; cbn [V] in *; lra).
    + replace (match x with B754_infinity _ => 0 | _ => g x end) with (g x) by (destruct x; try discriminate; reflexivity).
      replace (match x' with B754_infinity _ => 0 | _ => g x' end) with (g x') by (destruct x'; try discriminate; reflexivity).
      rewrite !V_fin in L by auto. unfold g. destruct (Rlt_dec 0 (RV x)) as [A|A]; destruct (Rlt_dec 0 (RV x')) as [B|B]; try lra.
      * apply sat_mono, Rpow_anti; auto.
      * apply sat_bounds.
    + replace (match x with B754_infinity _ => 0 | _ => g x end) with (g x) by (destruct x; try discriminate; reflexivity). unfold g. destruct (Rlt_dec 0 (RV x)); [apply sat_pos, Rlt_le, Rpow_pos|lra].
    + assert (B := fin_lt x' Fx'). rewrite (V_fin x') in L by auto. cbn [V] in L. lra.
  - rewrite !pow_inf_V by auto. destruct s; [|cbn [V] in Hy; lra]. destruct (Rlt_dec (V x) 1); destruct (Rlt_dec (V x') 1); try (destruct (Rlt_dec 1 (V x))); try (destruct (Rlt_dec 1 (V x'))); try rewrite V_b1; cbn [V B2R]; lra.
Qed.

(** atan, asin *)
Definition at_V (x : f64) : R := match x with B754_infinity true => - HP | B754_infinity false => HP | _ => sat (clamp_hp (atan (RV x))) end.
Lemma cr_atan_V x : num x -> num (cr_atan x) /\ V (cr_atan x) = at_V x.
Proof.
  intros N. destruct HP_val as [F _]. destruct x as [|[|]| |]; try discriminate; cbn [cr_atan at_V]; try apply r2f_V.
  - split; [now apply num_opp, fin_num|]. rewrite V_opp, V_fin by auto. reflexivity.
  - split; [now apply fin_num|]. rewrite V_fin by auto. reflexivity.
Qed.
Lemma at_V_fin x : fin x -> at_V x = sat (clamp_hp (atan (RV x))). Proof. destruct x; try discriminate; reflexivity. Qed.
Lemma at_V_bounds x : - HP <= at_V x <= HP.
Proof. destruct HP_val as [_ P]. assert (Q : forall r, - HP <= sat (clamp_hp r) <= HP) by (intros r; apply HP_sat, clamp_hp_bounds). destruct x as [|[|]| |]; cbn [at_V]; try apply Q; lra. Qed.
Lemma asin_mono_ a b : 0 <= a -> a <= b -> b <= 1 -> asin a <= asin b.
Proof.
  intros A L B. destruct (Rle_or_lt (asin a) (asin b)) as [H|H]; [exact H|]. exfalso.
  assert (X := asin_bound a). assert (Y := asin_bound b).
  assert (K : sin (asin b) < sin (asin a)) by (apply sin_increasing_1; lra). rewrite !sin_asin in K by lra. lra.
Qed.

Theorem cr_range : libm_range cr_libm.
Proof.
  assert (Q := M64_pos). destruct HP_val as [FH PH]. split; cbn [m_exp m_powf m_atan m_asin cr_libm].
  - intros x N. destruct (cr_exp_V x N) as [A B]. apply le_V2; [apply num_zero|now auto|]. rewrite V_zero, B. apply exp_V_bounds.
  - intros x H. destruct (le_num _ _ H) as [N _]. apply le_V1 in H. rewrite V_zero in H. destruct (cr_exp_V x N) as [A B]. apply le_V2; [now auto|apply num_one|]. rewrite V_one, B.
    destruct (inf_cases x N) as [F|[E|E]]; subst; cbn [V exp_V] in *; try lra. rewrite exp_V_fin by auto. rewrite V_fin in H by auto. apply sat_le1. rewrite <- exp_0. destruct H as [H|H]; [left; now apply exp_increasing|right; now rewrite H].
  - intros x y Hx Hy. destruct (cr_pow_nonneg x y Hx Hy). apply le_V2; [apply num_zero|now auto|]. now rewrite V_zero.
  - intros x y Hx H1 Hy. destruct (lt_num _ _ Hy) as [_ Ny]. destruct (cr_pow_nonneg x y Hx Ny) as [A _]. apply le_V2; [now auto|apply num_one|]. rewrite V_one. now apply cr_pow_le_one.
  - intros x y Hx Hy. destruct (cr_pow_neg_le_one x y Hx Hy). apply le_V2; [now auto|apply num_one|]. now rewrite V_one.
  - intros x N. destruct (cr_atan_V x N) as [A B]. assert (C := at_V_bounds x). split; apply le_V2; try reflexivity; try exact A; rewrite ?V_opp, (V_fin half_pi64) by auto; change (RV half_pi64) with HP; rewrite B; lra.
  - intros x H0 H1. rewrite (cr_asin_in x H1). destruct (le_num _ _ H0) as [_ N]. apply le_V1 in H0. apply le_V1 in H1. rewrite V_zero in H0. rewrite V_one in H1.
    assert (F : fin x) by (apply V_fin_iff; auto; lra). rewrite V_fin in H0, H1 by auto.
    destruct (r2f_V (clamp_hp (asin (RV x)))) as [A B]. split; apply le_V2; try reflexivity; try exact A.
    + rewrite V_zero, B. apply sat_pos. unfold clamp_hp. apply Rle_trans with (Rmin HP (asin (RV x))); [|apply Rmax_r]. apply Rmin_glb; [lra|]. rewrite <- asin_0. apply asin_mono_; lra.
    + rewrite (V_fin half_pi64) by auto. change (RV half_pi64) with HP. rewrite B. apply HP_sat, clamp_hp_bounds.
Qed.
Theorem cr_monotone : libm_monotone cr_libm.
Proof.
  assert (Q := M64_pos). split; cbn [m_exp m_powf m_atan m_asin cr_libm].
  - intros x y H. destruct (le_num _ _ H) as [Nx Ny]. apply le_V1 in H. destruct (cr_exp_V x Nx) as [A B]. destruct (cr_exp_V y Ny) as [A' B']. apply le_V2; auto. rewrite B, B'. now apply exp_V_mono.
  - intros x x' y H0 H Hy. destruct (lt_num _ _ Hy) as [_ Ny]. destruct (le_num _ _ H) as [Nx Nx'].
    assert (H0' : le64 zero64 x'). { apply le_V2; [apply num_zero|auto|]. apply le_V1 in H0. apply le_V1 in H. lra. }
    apply le_V2; [now apply cr_pow_nonneg|now apply cr_pow_nonneg|]. now apply cr_pow_mono.
  - intros x x' y H0 H Hy. destruct (cr_pow_anti x x' y H0 H Hy) as (A & B & C). now apply le_V2.
  - intros x y H. destruct (le_num _ _ H) as [Nx Ny]. apply le_V1 in H. destruct (cr_atan_V x Nx) as [A B]. destruct (cr_atan_V y Ny) as [A' B']. apply le_V2; auto. rewrite B, B'.
    assert (Bx := at_V_bounds x). assert (By := at_V_bounds y).
    destruct (inf_cases x Nx) as [Fx|[Ex|Ex]]; destruct (inf_cases y Ny) as [Fy|[Ey|Ey]]; subst; cbn [V at_V] in *; try lra.
    + rewrite !at_V_fin by auto. rewrite !V_fin in H by auto. apply sat_mono, clamp_hp_mono. destruct H as [H|H]; [left; now apply atan_increasing|right; now rewrite H].
    + assert (C := fin_lt x Fx). rewrite V_fin in H by auto. lra.
    + assert (C := fin_lt y Fy). rewrite V_fin in H by auto. lra.
  - intros x y H0 H H1. rewrite (cr_asin_in y H1), (cr_asin_in x ltac:(apply le_V2; [now destruct (le_num _ _ H)|apply num_one|apply le_V1 in H; apply le_V1 in H1; lra])). destruct (le_num _ _ H) as [Nx Ny]. apply le_V1 in H. apply le_V1 in H0. apply le_V1 in H1. rewrite V_zero in H0. rewrite V_one in H1.
    assert (Fx : fin x) by (apply V_fin_iff; auto; lra). assert (Fy : fin y) by (apply V_fin_iff; auto; lra). rewrite !V_fin in H, H0, H1 by auto.
    destruct (r2f_V (clamp_hp (asin (RV x)))) as [A B]. destruct (r2f_V (clamp_hp (asin (RV y)))) as [A' B']. apply le_V2; auto. rewrite B, B'. apply sat_mono, clamp_hp_mono, asin_mono_; auto. now rewrite (V_fin y) in H by auto.
Qed.
