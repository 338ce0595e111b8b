(** * IEEE-754 binary64 (Rust's f64), via Flocq.

    [f64] is Flocq's [binary_float 53 1024] (one NaN: payloads are not
    modelled).  +, -, *, /, sqrt, comparisons, floor, round, %, casts are the
    IEEE operations with round-to-nearest-even.  Transcendental functions and
    [powi]/[powf] are whatever the platform's libm provides: the record
    [Libm], over which every theorem about [f64] is universally quantified. *)
From Coq Require Import Reals Lra Lia ZArith Psatz.
From Flocq Require Import Core IEEE754.BinarySingleNaN.
From Verif.Num Require Import Scalar.
Open Scope R_scope.

Definition f64 := binary_float 53 1024.

Global Instance prec53 : Prec_gt_0 53 := eq_refl.
Global Instance emax1024 : Prec_lt_emax 53 1024 := eq_refl.

Class Libm := {
  m_exp : f64 -> f64; m_ln : f64 -> f64; m_log2 : f64 -> f64;
  m_sin : f64 -> f64; m_cos : f64 -> f64; m_tan : f64 -> f64;
  m_asin : f64 -> f64; m_atan : f64 -> f64;
  m_powf : f64 -> f64 -> f64; m_powi : f64 -> Z -> f64
}.

(** m * 2^e, correctly rounded *)
Definition b64 (m e : Z) : f64 := binary_normalize 53 1024 _ _ mode_NE m e false.

Definition f64_nan : f64 := B754_nan.
Definition f64_inf : f64 := B754_infinity false.
Definition f64_zero : f64 := B754_zero false.

(** C fmod: exact remainder with the sign of the dividend *)
Definition f64_rem (x y : f64) : f64 :=
  match x, y with
  | B754_nan, _ | _, B754_nan => B754_nan
  | B754_infinity _, _ => B754_nan
  | _, B754_zero _ => B754_nan
  | _, B754_infinity _ => x
  | B754_zero _, B754_finite _ _ _ _ => x
  | B754_finite sx mx ex _, B754_finite _ my ey _ =>
      let e := Z.min ex ey in
      let r := Z.rem (Zpos mx * 2 ^ (ex - e)) (Zpos my * 2 ^ (ey - e)) in
      binary_normalize 53 1024 _ _ mode_NE (if sx then - r else r)%Z e sx
  end.

Definition f64_signum (x : f64) : f64 :=
  match x with B754_nan => B754_nan | _ => b64 (if Bsign x then -1 else 1) 0 end.

Definition f64_max (x y : f64) : f64 :=
  if is_nan x then y else if is_nan y then x else if Bleb x y then y else x.

Definition f64_to_Z (lo hi : Z) (x : f64) : Z :=
  match x with
  | B754_nan => 0%Z
  | B754_infinity true => lo
  | B754_infinity false => hi
  | _ => Z.max lo (Z.min hi (Btrunc x))
  end.

Global Instance F64Scalar (m : Libm) : Scalar f64 := {|
  f_of_Z z := b64 z 0;
  fpi := b64 7074237752028440 (-51);
  fe := b64 6121026514868073 (-51);
  finf := f64_inf;
  fadd := Bplus mode_NE; fsub := Bminus mode_NE; fmul := Bmult mode_NE; fdiv := Bdiv mode_NE;
  frem := f64_rem;
  fneg := Bopp; fabs := Babs; fsqrt := Bsqrt mode_NE;
  ffloor := Bnearbyint mode_DN; fround := Bnearbyint mode_NA;
  fexp := m_exp; fln := m_ln; flog2 := m_log2;
  fsin := m_sin; fcos := m_cos; ftan := m_tan; fasin := m_asin; fatan := m_atan;
  fpowf := m_powf; fpowi := m_powi;
  fsignum := f64_signum; fmax := f64_max;
  fltb := Bltb; fleb := Bleb; feqb := Beqb;
  fisinf x := match x with B754_infinity _ => true | _ => false end;
  fsignneg := @Bsign 53 1024;
  f_to_Z := f64_to_Z
|}.

(** ** Characterising lemmas *)

Definition fin (x : f64) : Prop := is_finite x = true.
Definition RV (x : f64) : R := B2R x.
Notation fmt64 := (generic_format radix2 (SpecFloat.fexp 53 1024)).
Definition rnd (r : R) : R := round radix2 (SpecFloat.fexp 53 1024) ZnearestE r.

Global Instance fexp64_valid : Valid_exp (SpecFloat.fexp 53 1024) := fexp_correct 53 1024 _.
Global Instance fexp64_mono : Monotone_exp (SpecFloat.fexp 53 1024) := fexp_monotone 53 1024.

Lemma rnd_le a b : a <= b -> rnd a <= rnd b.
Proof. intros; unfold rnd; apply round_le; auto with typeclass_instances. Qed.

Lemma rnd_fmt a : fmt64 a -> rnd a = a.
Proof. intros; unfold rnd; apply round_generic; auto with typeclass_instances. Qed.

Lemma fmt_RV x : fmt64 (RV x).
Proof. apply generic_format_B2R. Qed.

Lemma rnd_RV x : rnd (RV x) = RV x.
Proof. apply rnd_fmt, fmt_RV. Qed.

Lemma fmt_rnd a : fmt64 (rnd a).
Proof. unfold rnd; apply generic_format_round; auto with typeclass_instances. Qed.

Lemma fmt_bpow e : (-1074 <= e)%Z -> fmt64 (bpow radix2 e).
Proof.
  intros. apply generic_format_bpow'; auto with typeclass_instances.
  unfold SpecFloat.fexp, SpecFloat.emin. lia.
Qed.

Lemma fmt_IZR z : (Z.abs z <= 2 ^ 53)%Z -> fmt64 (IZR z).
Proof.
  intros H.
  destruct (Z.eq_dec (Z.abs z) (2 ^ 53)) as [E|NE].
  - destruct (Zabs_spec z) as [[_ Hz]|[_ Hz]]; rewrite Hz in E.
    + subst z. change (IZR (2^53)) with (bpow radix2 53). apply fmt_bpow; lia.
    + replace z with (-(2^53))%Z by lia. rewrite opp_IZR.
      apply generic_format_opp. change (IZR (2^53)) with (bpow radix2 53). apply fmt_bpow; lia.
  - replace (IZR z) with (F2R (Float radix2 z 0)) by (unfold F2R; cbn; ring).
    apply generic_format_F2R. intros Hz. unfold cexp.
    assert (M: (mag radix2 (F2R (Float radix2 z 0)) <= 53)%Z).
    { apply mag_le_bpow. { apply F2R_neq_0; auto. }
      unfold F2R; cbn [Fnum Fexp]. rewrite Rmult_1_r, <- abs_IZR.
      change (bpow radix2 53) with (IZR (2^53)). apply IZR_lt. lia. }
    unfold SpecFloat.fexp, SpecFloat.emin; lia.
Qed.

Lemma fmt_0 : fmt64 0. Proof. apply generic_format_0. Qed.
Lemma fmt_1 : fmt64 1. Proof. apply (fmt_IZR 1); lia. Qed.
Lemma rnd_0 : rnd 0 = 0. Proof. apply rnd_fmt, fmt_0. Qed.
Lemma rnd_1 : rnd 1 = 1. Proof. apply rnd_fmt, fmt_1. Qed.

Lemma rnd_ge a x : fmt64 a -> a <= x -> a <= rnd x.
Proof. intros Ha H. rewrite <- (rnd_fmt a Ha). now apply rnd_le. Qed.
Lemma rnd_le_fmt a x : fmt64 a -> x <= a -> rnd x <= a.
Proof. intros Ha H. rewrite <- (rnd_fmt a Ha). now apply rnd_le. Qed.

Lemma rnd_opp x : rnd (- x) = - rnd x.
Proof.
  unfold rnd. rewrite <- (Ropp_involutive (round _ _ _ (- x))), <- round_NE_opp, Ropp_involutive. reflexivity.
Qed.

Lemma bpow64_big : 2 < bpow radix2 1024.
Proof. change 2 with (bpow radix2 1). apply bpow_lt. lia. Qed.

(** magnitude below 2^1023 cannot overflow *)
Lemma rnd_small r : Rabs r <= bpow radix2 1023 -> Rabs (rnd r) < bpow radix2 1024.
Proof.
  intros H. apply Rle_lt_trans with (bpow radix2 1023).
  - apply Rabs_le. apply Rabs_le_inv in H. split.
    + apply rnd_ge; [apply generic_format_opp, fmt_bpow; lia|lra].
    + apply rnd_le_fmt; [apply fmt_bpow; lia|lra].
  - apply bpow_lt; lia.
Qed.

Lemma bpow1023_ge n : (n <= 1023)%Z -> bpow radix2 n <= bpow radix2 1023.
Proof. intros; now apply bpow_le. Qed.

Lemma small_le r : Rabs r <= 1000000 -> Rabs r <= bpow radix2 1023.
Proof.
  intros. apply Rle_trans with (bpow radix2 20); [|apply bpow_le; lia].
  change (bpow radix2 20) with (IZR (2^20)). apply Rle_trans with 1000000; [lra|].
  apply (IZR_le 1000000). vm_compute; congruence.
Qed.

Lemma add_spec x y : fin x -> fin y -> Rabs (rnd (RV x + RV y)) < bpow radix2 1024 ->
  fin (Bplus mode_NE x y) /\ RV (Bplus mode_NE x y) = rnd (RV x + RV y).
Proof.
  intros Hx Hy Ho. pose proof (Bplus_correct 53 1024 _ _ mode_NE x y Hx Hy) as H.
  cbn [round_mode] in H. unfold rnd, RV in *.
  rewrite Rlt_bool_true in H by exact Ho. destruct H as (H1&H2&_). split; assumption.
Qed.

Lemma sub_spec x y : fin x -> fin y -> Rabs (rnd (RV x - RV y)) < bpow radix2 1024 ->
  fin (Bminus mode_NE x y) /\ RV (Bminus mode_NE x y) = rnd (RV x - RV y).
Proof.
  intros Hx Hy Ho. pose proof (Bminus_correct 53 1024 _ _ mode_NE x y Hx Hy) as H.
  cbn [round_mode] in H. unfold rnd, RV in *.
  rewrite Rlt_bool_true in H by exact Ho. destruct H as (H1&H2&_). split; assumption.
Qed.

Lemma mul_spec x y : fin x -> fin y -> Rabs (rnd (RV x * RV y)) < bpow radix2 1024 ->
  fin (Bmult mode_NE x y) /\ RV (Bmult mode_NE x y) = rnd (RV x * RV y).
Proof.
  intros Hx Hy Ho. pose proof (Bmult_correct 53 1024 _ _ mode_NE x y) as H.
  cbn [round_mode] in H. unfold rnd, RV, fin in *.
  rewrite Rlt_bool_true in H by exact Ho. destruct H as (H1&H2&_). rewrite Hx, Hy in H2. split; assumption.
Qed.

Lemma div_spec x y : fin x -> RV y <> 0 -> Rabs (rnd (RV x / RV y)) < bpow radix2 1024 ->
  fin (Bdiv mode_NE x y) /\ RV (Bdiv mode_NE x y) = rnd (RV x / RV y).
Proof.
  intros Hx Hy Ho. pose proof (Bdiv_correct 53 1024 _ _ mode_NE x y Hy) as H.
  cbn [round_mode] in H. unfold rnd, RV, fin in *.
  rewrite Rlt_bool_true in H by exact Ho. destruct H as (H1&H2&_). rewrite Hx in H2. split; assumption.
Qed.

Lemma b64_spec m e : Rabs (rnd (IZR m * bpow radix2 e)) < bpow radix2 1024 ->
  fin (b64 m e) /\ RV (b64 m e) = rnd (IZR m * bpow radix2 e).
Proof.
  intros Ho. pose proof (binary_normalize_correct 53 1024 _ _ mode_NE m e false) as H.
  cbv zeta in H. cbn [round_mode] in H. unfold F2R in H; cbn [Fnum Fexp] in H.
  unfold rnd, RV, fin, b64 in *.
  rewrite Rlt_bool_true in H by exact Ho. destruct H as (H1&H2&_). split; assumption.
Qed.

Lemma b64_int z : (Z.abs z <= 2 ^ 53)%Z -> fin (b64 z 0) /\ RV (b64 z 0) = IZR z.
Proof.
  intros H.
  assert (E: IZR z * bpow radix2 0 = IZR z) by (cbn; ring).
  destruct (b64_spec z 0) as [H1 H2].
  - rewrite E, rnd_fmt by now apply fmt_IZR. rewrite <- abs_IZR.
    apply Rle_lt_trans with (IZR (2^53)); [now apply IZR_le|].
    change (IZR (2^53)) with (bpow radix2 53). apply bpow_lt; lia.
  - split; [assumption|]. rewrite H2, E. apply rnd_fmt. now apply fmt_IZR.
Qed.

Lemma fin_b64_1 : fin (b64 1 0). Proof. apply b64_int; lia. Qed.
Lemma RV_b64_1 : RV (b64 1 0) = 1. Proof. apply b64_int; lia. Qed.
Lemma fin_b64_0 : fin (b64 0 0). Proof. apply b64_int; lia. Qed.
Lemma RV_b64_0 : RV (b64 0 0) = 0. Proof. apply b64_int; lia. Qed.

Lemma leb_fin x y : fin x -> fin y -> Bleb x y = Rle_bool (RV x) (RV y).
Proof. intros; now apply Bleb_correct. Qed.
Lemma ltb_fin x y : fin x -> fin y -> Bltb x y = Rlt_bool (RV x) (RV y).
Proof. intros; now apply Bltb_correct. Qed.

Lemma leb_spec x y : fin x -> fin y -> (Bleb x y = true <-> RV x <= RV y).
Proof. intros; rewrite leb_fin by assumption. destruct (Rle_bool_spec (RV x) (RV y)); split; auto; try lra; congruence. Qed.
Lemma ltb_spec x y : fin x -> fin y -> (Bltb x y = true <-> RV x < RV y).
Proof. intros; rewrite ltb_fin by assumption. destruct (Rlt_bool_spec (RV x) (RV y)); split; auto; try lra; congruence. Qed.

(** Rounding error near 1 *)
Lemma rnd_err_01 r : Rabs r <= 1 -> Rabs (rnd r - r) <= bpow radix2 (-54).
Proof.
  intros H.
  assert (L := error_le_half_ulp radix2 (SpecFloat.fexp 53 1024) (fun z => negb (Z.even z)) r).
  fold (rnd r) in L.
  destruct (Req_dec r 0) as [->|Hr].
  { rewrite rnd_0, Rminus_0_r, Rabs_R0. apply bpow_ge_0. }
  destruct (Rle_lt_or_eq_dec _ _ H) as [H'|H'].
  - apply Rle_trans with (1 := L).
    apply Rle_trans with (/ 2 * ulp radix2 (SpecFloat.fexp 53 1024) (bpow radix2 (-1))).
    + apply Rmult_le_compat_l; [lra|].
      rewrite ulp_bpow.
      rewrite ulp_neq_0 by assumption. apply bpow_le. unfold cexp.
      assert (mag radix2 r <= 0)%Z by (apply mag_le_bpow; [assumption|exact H']).
      unfold SpecFloat.fexp, SpecFloat.emin. lia.
    + rewrite ulp_bpow. replace (SpecFloat.fexp 53 1024 (-1 + 1)) with (-53)%Z by reflexivity.
      change (/2) with (bpow radix2 (-1)). rewrite <- bpow_plus. apply Rle_refl.
  - assert (F: fmt64 r).
    { destruct (Rcase_abs r) as [C|C]; [rewrite Rabs_left in H' by assumption|rewrite Rabs_right in H' by assumption].
      - replace r with (- (1)) by lra. apply generic_format_opp, fmt_1.
      - replace r with 1 by lra. apply fmt_1. }
    rewrite (rnd_fmt _ F). replace (r - r) with 0 by ring. rewrite Rabs_R0. apply bpow_ge_0.
Qed.
