(** * Doubles that are not NaN as real numbers: order and monotone operations.

    [V x] is the value of [x], infinities being sent to +-2^1024; the operations
    are then "round, then clamp", hence monotone. *)
From Coq Require Import Reals Lra Lia ZArith Psatz Bool.
From Flocq Require Import Core IEEE754.BinarySingleNaN.
From Verif.Num Require Import Scalar F64.
From Verif.Spec Require Import ProbSpec LibmSpec.
Open Scope R_scope.

Definition M64 : R := bpow radix2 1024.
Definition V (x : f64) : R := match x with B754_infinity s => if s then - M64 else M64 | _ => B2R x end.
Definition num (x : f64) : Prop := is_nan x = false.
Definition clamp (r : R) : R := Rmax (- M64) (Rmin M64 r).
Definition sat (r : R) : R := clamp (rnd r).

Lemma M64_pos : 2 < M64. Proof. exact bpow64_big. Qed.
Global Opaque M64.
Lemma fin_num x : fin x -> num x. Proof. destruct x; try discriminate; reflexivity. Qed.
Lemma V_fin x : fin x -> V x = RV x. Proof. destruct x; try discriminate; reflexivity. Qed.
Lemma fin_lt x : fin x -> - M64 < RV x < M64.
Proof. intros H. assert (A : Rabs (B2R x) < bpow radix2 1024) by apply abs_B2R_lt_emax. apply Rabs_lt_inv in A. Transparent M64. exact A. Qed.
Global Opaque M64.
Lemma V_bounds x : - M64 <= V x <= M64.
Proof. assert (P := M64_pos). destruct (is_finite x) eqn:F; [rewrite V_fin by auto; assert (B := fin_lt x F); lra|]. destruct x as [s|[|]| |s m e H]; try discriminate; cbn [V B2R]; lra. Qed.
Lemma V_fin_iff x : num x -> (fin x <-> - M64 < V x < M64).
Proof.
  intros N. split.
  - intros F. rewrite V_fin by auto. now apply fin_lt.
  - destruct x as [s|[|]| |s m e H]; try reflexivity; try discriminate; cbn [V]; lra.
Qed.
Lemma clamp_mono a b : a <= b -> clamp a <= clamp b.
Proof. intros H. unfold clamp. apply Rle_max_compat_l, Rle_min_compat_l. exact H. Qed.
Lemma clamp_id a : - M64 <= a <= M64 -> clamp a = a.
Proof. intros H. unfold clamp. rewrite Rmin_right by lra. apply Rmax_right. lra. Qed.
Lemma clamp_bounds a : - M64 <= clamp a <= M64.
Proof. assert (P := M64_pos). unfold clamp. split; [apply Rmax_l|]. apply Rmax_lub; [lra|apply Rmin_l]. Qed.
Lemma sat_mono a b : a <= b -> sat a <= sat b.
Proof. intros. unfold sat. now apply clamp_mono, rnd_le. Qed.
Lemma sat_fmt a : fmt64 a -> - M64 <= a <= M64 -> sat a = a.
Proof. intros H B. unfold sat. rewrite rnd_fmt by auto. now apply clamp_id. Qed.
Lemma sat_0 : sat 0 = 0. Proof. assert (P := M64_pos). apply sat_fmt; [apply fmt_0|lra]. Qed.
Lemma sat_1 : sat 1 = 1. Proof. assert (P := M64_pos). apply sat_fmt; [apply fmt_1|lra]. Qed.
Lemma sat_pos a : 0 <= a -> 0 <= sat a. Proof. intros H. rewrite <- sat_0. now apply sat_mono. Qed.
Lemma sat_neg a : a <= 0 -> sat a <= 0. Proof. intros H. rewrite <- sat_0. now apply sat_mono. Qed.
Lemma sat_le1 a : a <= 1 -> sat a <= 1. Proof. intros H. rewrite <- sat_1. now apply sat_mono. Qed.
Lemma sat_ge1 a : 1 <= a -> 1 <= sat a. Proof. intros H. rewrite <- sat_1. now apply sat_mono. Qed.
Lemma sat_bounds a : - M64 <= sat a <= M64. Proof. apply clamp_bounds. Qed.

(** comparisons *)
Lemma le_V x y : num x -> num y -> (le64 x y <-> V x <= V y).
Proof.
  intros Nx Ny. unfold le64. assert (P := M64_pos).
  destruct (is_finite x) eqn:Fx; destruct (is_finite y) eqn:Fy.
  - rewrite !V_fin by auto. now apply leb_spec.
  - rewrite (V_fin x) by auto. assert (B := fin_lt x Fx). destruct y as [|[|]| |]; try discriminate; cbn [V].
    + split; [|lra]. destruct x; try discriminate; cbn; destruct s; discriminate.
    + split; [lra|]. intros _. destruct x; try discriminate; try reflexivity; destruct s; reflexivity.
  - rewrite (V_fin y) by auto. assert (B := fin_lt y Fy). destruct x as [|[|]| |]; try discriminate; cbn [V].
    + split; [lra|]. intros _. destruct y; try discriminate; try reflexivity; destruct s; reflexivity.
    + split; [|lra]. destruct y; try discriminate; cbn; destruct s; discriminate.
  - destruct x as [|[|]| |]; destruct y as [|[|]| |]; try discriminate; cbn [V]; split; intros; try reflexivity; try lra; discriminate.
Qed.
Lemma le_num x y : le64 x y -> num x /\ num y.
Proof. unfold le64, num. destruct x as [| | |]; destruct y as [| | |]; try (split; reflexivity); try discriminate; try (destruct s; discriminate). Qed.
Lemma lt_num x y : lt64 x y -> num x /\ num y.
Proof. unfold lt64, num. destruct x as [| | |]; destruct y as [| | |]; try (split; reflexivity); try discriminate; try (destruct s; discriminate). Qed.
Lemma lt_V x y : num x -> num y -> (lt64 x y <-> V x < V y).
Proof.
  intros Nx Ny. unfold lt64. assert (P := M64_pos).
  destruct (is_finite x) eqn:Fx; destruct (is_finite y) eqn:Fy.
  - rewrite !V_fin by auto. now apply ltb_spec.
  - rewrite (V_fin x) by auto. assert (B := fin_lt x Fx). destruct y as [|[|]| |]; try discriminate; cbn [V].
    + split; [|lra]. destruct x; try discriminate; try (destruct s; discriminate).
    + split; [lra|]. intros _. destruct x; try discriminate; try reflexivity; destruct s; reflexivity.
  - rewrite (V_fin y) by auto. assert (B := fin_lt y Fy). destruct x as [|[|]| |]; try discriminate; cbn [V].
    + split; [lra|]. intros _. destruct y; try discriminate; try reflexivity; destruct s; reflexivity.
    + split; [|lra]. destruct y; try discriminate; try (destruct s; discriminate).
  - destruct x as [|[|]| |]; destruct y as [|[|]| |]; try discriminate; cbn [V]; split; intros; try reflexivity; try lra; discriminate.
Qed.

(** operations on finite doubles *)
Lemma overflow_inf (z : f64) (s : bool) : B2SF z = binary_overflow 53 1024 mode_NE s -> z = B754_infinity s.
Proof. intros H. apply B2SF_inj. rewrite H. reflexivity. Qed.
Lemma sign_true (x : f64) : Bsign x = true -> RV x <= 0.
Proof. unfold RV. destruct x; cbn [B2R Bsign]; intros; subst; try lra. apply F2R_le_0. cbn. lia. Qed.
Lemma sign_false (x : f64) : Bsign x = false -> 0 <= RV x.
Proof. unfold RV. destruct x; cbn [B2R Bsign]; intros; subst; try lra. apply F2R_ge_0. cbn. lia. Qed.
Lemma rnd_pos_of r : 0 <= r -> 0 <= rnd r. Proof. intros. rewrite <- rnd_0. now apply rnd_le. Qed.
Lemma rnd_neg_of r : r <= 0 -> rnd r <= 0. Proof. intros. rewrite <- rnd_0. now apply rnd_le. Qed.
Lemma V_inf (s : bool) (r : R) : ~ Rabs (rnd r) < bpow radix2 1024 -> (if s then r <= 0 else 0 <= r) -> V (B754_infinity s) = sat r.
Proof.
  intros H S. change (bpow radix2 1024) with M64 in H. assert (P := M64_pos). unfold sat, clamp. destruct s; cbn [V].
  - assert (N := rnd_neg_of r S). rewrite Rabs_left1 in H by auto. rewrite Rmin_right by lra. rewrite Rmax_left by lra. reflexivity.
  - assert (N := rnd_pos_of r S). rewrite Rabs_pos_eq in H by auto. rewrite Rmin_left by lra. rewrite Rmax_right by lra. reflexivity.
Qed.
Lemma V_ok (z : f64) (r : R) : Rabs (rnd r) < bpow radix2 1024 -> B2R z = rnd r -> is_finite z = true -> V z = sat r.
Proof.
  intros H E F. change (bpow radix2 1024) with M64 in H. apply Rabs_lt_inv in H. rewrite V_fin by auto. unfold RV, sat. rewrite E, clamp_id; [reflexivity|lra].
Qed.
Lemma V_plus x y : fin x -> fin y -> num (Bplus mode_NE x y) /\ V (Bplus mode_NE x y) = sat (RV x + RV y).
Proof.
  intros Fx Fy. assert (C := Bplus_correct 53 1024 _ _ mode_NE x y Fx Fy).
  change (round radix2 (SpecFloat.fexp 53 1024) (round_mode mode_NE) (B2R x + B2R y)) with (rnd (RV x + RV y)) in C.
  destruct (Rlt_bool_spec (Rabs (rnd (RV x + RV y))) (bpow radix2 1024)) as [L|L].
  - destruct C as (E & F & _). split; [now apply fin_num|now apply V_ok].
  - destruct C as (E & Sg). apply overflow_inf in E. rewrite E. split; [reflexivity|]. apply V_inf; [lra|].
    destruct (Bsign x) eqn:Sx; symmetry in Sg; [assert (A := sign_true _ Sx); assert (B := sign_true _ Sg)|assert (A := sign_false _ Sx); assert (B := sign_false _ Sg)]; lra.
Qed.
Lemma V_minus x y : fin x -> fin y -> num (Bminus mode_NE x y) /\ V (Bminus mode_NE x y) = sat (RV x - RV y).
Proof.
  intros Fx Fy. assert (C := Bminus_correct 53 1024 _ _ mode_NE x y Fx Fy).
  change (round radix2 (SpecFloat.fexp 53 1024) (round_mode mode_NE) (B2R x - B2R y)) with (rnd (RV x - RV y)) in C.
  destruct (Rlt_bool_spec (Rabs (rnd (RV x - RV y))) (bpow radix2 1024)) as [L|L].
  - destruct C as (E & F & _). split; [now apply fin_num|now apply V_ok].
  - destruct C as (E & Sg). apply overflow_inf in E. rewrite E. split; [reflexivity|]. apply V_inf; [lra|].
    destruct (Bsign x) eqn:Sx; destruct (Bsign y) eqn:Sy; try discriminate Sg; [assert (A := sign_true _ Sx); assert (B := sign_false _ Sy)|assert (A := sign_false _ Sx); assert (B := sign_true _ Sy)]; lra.
Qed.
Lemma xorb_sign (x y : f64) : if xorb (Bsign x) (Bsign y) then RV x * RV y <= 0 else 0 <= RV x * RV y.
Proof.
  destruct (Bsign x) eqn:Sx; destruct (Bsign y) eqn:Sy; cbn [xorb]; [assert (A := sign_true _ Sx); assert (B := sign_true _ Sy)|assert (A := sign_true _ Sx); assert (B := sign_false _ Sy)|assert (A := sign_false _ Sx); assert (B := sign_true _ Sy)|assert (A := sign_false _ Sx); assert (B := sign_false _ Sy)]; nra.
Qed.
Lemma V_mult x y : fin x -> fin y -> num (Bmult mode_NE x y) /\ V (Bmult mode_NE x y) = sat (RV x * RV y).
Proof.
  intros Fx Fy. assert (C := Bmult_correct 53 1024 _ _ mode_NE x y).
  change (round radix2 (SpecFloat.fexp 53 1024) (round_mode mode_NE) (B2R x * B2R y)) with (rnd (RV x * RV y)) in C.
  destruct (Rlt_bool_spec (Rabs (rnd (RV x * RV y))) (bpow radix2 1024)) as [L|L].
  - destruct C as (E & F & _). unfold fin in Fx, Fy. rewrite Fx, Fy in F. split; [now apply fin_num|now apply V_ok].
  - apply overflow_inf in C. rewrite C. split; [reflexivity|]. apply V_inf; [lra|apply xorb_sign].
Qed.
Lemma V_div x y : fin x -> fin y -> RV y <> 0 -> num (Bdiv mode_NE x y) /\ V (Bdiv mode_NE x y) = sat (RV x / RV y).
Proof.
  intros Fx Fy Ny. assert (C := Bdiv_correct 53 1024 _ _ mode_NE x y Ny).
  change (round radix2 (SpecFloat.fexp 53 1024) (round_mode mode_NE) (B2R x / B2R y)) with (rnd (RV x / RV y)) in C.
  destruct (Rlt_bool_spec (Rabs (rnd (RV x / RV y))) (bpow radix2 1024)) as [L|L].
  - destruct C as (E & F & _). unfold fin in Fx. rewrite Fx in F. split; [now apply fin_num|now apply V_ok].
  - apply overflow_inf in C. rewrite C. split; [reflexivity|]. apply V_inf; [lra|].
    assert (X := xorb_sign x y). assert (Q : RV x / RV y = RV x * RV y * (/ RV y * / RV y)) by (field; auto). assert (0 < / RV y * / RV y) by (apply Rsqr_pos_lt, Rinv_neq_0_compat; auto).
    rewrite Q. destruct (xorb (Bsign x) (Bsign y)); nra.
Qed.
Lemma V_opp x : V (Bopp x) = - V x.
Proof. destruct x as [s|[|]| |s m e H]; cbn [Bopp V negb]; try lra; try (cbn [B2R]; lra). rewrite <- B2R_Bopp. reflexivity. Qed.
Lemma num_opp x : num x -> num (Bopp x). Proof. destruct x; try discriminate; reflexivity. Qed.
Lemma fin_opp x : fin x -> fin (Bopp x). Proof. destruct x; try discriminate; reflexivity. Qed.
Lemma RV_opp x : RV (Bopp x) = - RV x. Proof. apply B2R_Bopp. Qed.

(** monotone operations with a finite constant *)
Definition lift (f : R -> R) (x : f64) : R := match x with B754_infinity true => - M64 | B754_infinity false => M64 | _ => sat (f (RV x)) end.
Definition liftn (f : R -> R) (x : f64) : R := match x with B754_infinity true => M64 | B754_infinity false => - M64 | _ => sat (f (RV x)) end.
Lemma lift_fin f x : fin x -> lift f x = sat (f (RV x)). Proof. destruct x; try discriminate; reflexivity. Qed.
Lemma liftn_fin f x : fin x -> liftn f x = sat (f (RV x)). Proof. destruct x; try discriminate; reflexivity. Qed.
Lemma lift_mono f x y : (forall a b, a <= b -> f a <= f b) -> num x -> num y -> V x <= V y -> lift f x <= lift f y.
Proof.
  intros MF Nx Ny L. assert (P := M64_pos).
  destruct (is_finite x) eqn:Fx; destruct (is_finite y) eqn:Fy.
  - rewrite !lift_fin by auto. rewrite !V_fin in L by auto. now apply sat_mono, MF.
  - rewrite (lift_fin f x) by auto. assert (B := sat_bounds (f (RV x))). assert (Q := fin_lt x Fx). rewrite (V_fin x) in L by auto.
    destruct y as [|[|]| |]; try discriminate; cbn [V lift] in *; lra.
  - rewrite (lift_fin f y) by auto. assert (B := sat_bounds (f (RV y))). assert (Q := fin_lt y Fy). rewrite (V_fin y) in L by auto.
    destruct x as [|[|]| |]; try discriminate; cbn [V lift] in *; lra.
  - destruct x as [|[|]| |]; destruct y as [|[|]| |]; try discriminate; cbn [V lift] in *; lra.
Qed.
Lemma liftn_anti f x y : (forall a b, a <= b -> f b <= f a) -> num x -> num y -> V x <= V y -> liftn f y <= liftn f x.
Proof.
  intros MF Nx Ny L. assert (P := M64_pos).
  destruct (is_finite x) eqn:Fx; destruct (is_finite y) eqn:Fy.
  - rewrite !liftn_fin by auto. rewrite !V_fin in L by auto. now apply sat_mono, MF.
  - rewrite (liftn_fin f x) by auto. assert (B := sat_bounds (f (RV x))). assert (Q := fin_lt x Fx). rewrite (V_fin x) in L by auto.
    destruct y as [|[|]| |]; try discriminate; cbn [V liftn] in *; lra.
  - rewrite (liftn_fin f y) by auto. assert (B := sat_bounds (f (RV y))). assert (Q := fin_lt y Fy). rewrite (V_fin y) in L by auto.
    destruct x as [|[|]| |]; try discriminate; cbn [V liftn] in *; lra.
  - destruct x as [|[|]| |]; destruct y as [|[|]| |]; try discriminate; cbn [V liftn] in *; lra.
Qed.
Lemma inf_cases (x : f64) : num x -> fin x \/ x = B754_infinity true \/ x = B754_infinity false.
Proof. destruct x as [|[|]| |]; try discriminate; auto; left; reflexivity. Qed.
Lemma plus_c x c : num x -> fin c -> num (Bplus mode_NE x c) /\ V (Bplus mode_NE x c) = lift (fun r => r + RV c) x.
Proof.
  intros N C. destruct (inf_cases x N) as [F|F]; [rewrite lift_fin by auto; now apply V_plus|].
  destruct c as [| | |]; try discriminate; destruct F; subst; split; reflexivity.
Qed.
Lemma c_plus x c : num x -> fin c -> num (Bplus mode_NE c x) /\ V (Bplus mode_NE c x) = lift (fun r => RV c + r) x.
Proof.
  intros N C. destruct (inf_cases x N) as [F|F]; [rewrite lift_fin by auto; now apply V_plus|].
  destruct c as [| | |]; try discriminate; destruct F; subst; split; reflexivity.
Qed.
Lemma minus_c x c : num x -> fin c -> num (Bminus mode_NE x c) /\ V (Bminus mode_NE x c) = lift (fun r => r - RV c) x.
Proof.
  intros N C. destruct (inf_cases x N) as [F|F]; [rewrite lift_fin by auto; now apply V_minus|].
  destruct c as [| | |]; try discriminate; destruct F; subst; split; reflexivity.
Qed.
Lemma c_minus x c : num x -> fin c -> num (Bminus mode_NE c x) /\ V (Bminus mode_NE c x) = liftn (fun r => RV c - r) x.
Proof.
  intros N C. destruct (inf_cases x N) as [F|F]; [rewrite liftn_fin by auto; now apply V_minus|].
  destruct c as [| | |]; try discriminate; destruct F; subst; split; reflexivity.
Qed.
Lemma pos_sign (c : f64) : fin c -> 0 < RV c -> exists m e H, c = B754_finite false m e H.
Proof.
  intros F P. destruct c as [| | |s m e H]; try discriminate; [unfold RV in P; cbn in P; lra|].
  destruct s; [|eauto]. exfalso. assert (X := sign_true (B754_finite true m e H) eq_refl). lra.
Qed.
Lemma neg_sign (c : f64) : fin c -> RV c < 0 -> exists m e H, c = B754_finite true m e H.
Proof.
  intros F P. destruct c as [| | |s m e H]; try discriminate; [unfold RV in P; cbn in P; lra|].
  destruct s; [eauto|]. exfalso. assert (X := sign_false (B754_finite false m e H) eq_refl). lra.
Qed.
Lemma mult_c x c : num x -> fin c -> 0 < RV c -> num (Bmult mode_NE x c) /\ V (Bmult mode_NE x c) = lift (fun r => r * RV c) x.
Proof.
  intros N C P. destruct (inf_cases x N) as [F|F]; [rewrite lift_fin by auto; now apply V_mult|].
  destruct (pos_sign c C P) as (m & e & H & ->); destruct F; subst; split; reflexivity.
Qed.
Lemma c_mult x c : num x -> fin c -> 0 < RV c -> num (Bmult mode_NE c x) /\ V (Bmult mode_NE c x) = lift (fun r => RV c * r) x.
Proof.
  intros N C P. destruct (inf_cases x N) as [F|F]; [rewrite lift_fin by auto; now apply V_mult|].
  destruct (pos_sign c C P) as (m & e & H & ->); destruct F; subst; split; reflexivity.
Qed.
Lemma cn_mult x c : num x -> fin c -> RV c < 0 -> num (Bmult mode_NE c x) /\ V (Bmult mode_NE c x) = liftn (fun r => RV c * r) x.
Proof.
  intros N C P. destruct (inf_cases x N) as [F|F]; [rewrite liftn_fin by auto; now apply V_mult|].
  destruct (neg_sign c C P) as (m & e & H & ->); destruct F; subst; split; reflexivity.
Qed.
Lemma div_c x c : num x -> fin c -> 0 < RV c -> num (Bdiv mode_NE x c) /\ V (Bdiv mode_NE x c) = lift (fun r => r / RV c) x.
Proof.
  intros N C P. destruct (inf_cases x N) as [F|F]; [rewrite lift_fin by auto; apply V_div; auto; lra|].
  destruct (pos_sign c C P) as (m & e & H & ->); destruct F; subst; split; reflexivity.
Qed.
(** a positive constant over a positive number (the quotient by infinity is 0) *)
Definition recip (c : R) (x : f64) : R := match x with B754_infinity _ => 0 | _ => sat (c / RV x) end.
Lemma c_div x c : num x -> fin c -> 0 < RV c -> 0 < V x -> num (Bdiv mode_NE c x) /\ V (Bdiv mode_NE c x) = recip (RV c) x.
Proof.
  intros N C P X. destruct (inf_cases x N) as [F|F].
  - rewrite V_fin in X by auto. replace (recip (RV c) x) with (sat (RV c / RV x)) by (destruct x; try discriminate; reflexivity). apply V_div; auto; lra.
  - destruct (pos_sign c C P) as (m & e & H & ->); destruct F; subst; split; reflexivity.
Qed.
Lemma recip_anti c x y : 0 < c -> num x -> num y -> 0 < V x -> V x <= V y -> recip c y <= recip c x.
Proof.
  intros C Nx Ny P L. assert (PM := M64_pos).
  assert (QQ : forall z, fin z -> recip c z = sat (c / RV z)) by (intros z F; destruct z; try discriminate; reflexivity).
  destruct (is_finite x) eqn:Fx; destruct (is_finite y) eqn:Fy.
  - rewrite !QQ by auto. rewrite !V_fin in * by auto. apply sat_mono. unfold Rdiv. apply Rmult_le_compat_l; [lra|]. apply Rinv_le_contravar; lra.
  - rewrite (QQ x) by auto. rewrite V_fin in P by auto. destruct y as [|[|]| |]; try discriminate; cbn [recip]; apply sat_pos; apply Rlt_le, Rdiv_lt_0_compat; auto.
  - assert (B := fin_lt y Fy). rewrite (V_fin y) in L by auto. destruct x as [|[|]| |]; try discriminate; cbn [V] in *; lra.
  - destruct x as [|[|]| |]; destruct y as [|[|]| |]; try discriminate; cbn [V recip] in *; lra.
Qed.
Lemma recip_bounds c x : 0 < c -> num x -> c <= V x -> 0 <= recip c x <= 1.
Proof.
  intros C N L. destruct (inf_cases x N) as [F|F].
  - replace (recip c x) with (sat (c / RV x)) by (destruct x; try discriminate; reflexivity). rewrite V_fin in L by auto. split; [apply sat_pos, Rlt_le, Rdiv_lt_0_compat; lra|].
    apply sat_le1. apply Rmult_le_reg_r with (RV x); [lra|]. unfold Rdiv. rewrite Rmult_assoc, Rinv_l by lra. lra.
  - destruct F; subst; cbn [recip]; lra.
Qed.

(** valid probabilities *)
Lemma V_valid x : num x -> (valid_prob x <-> 0 <= V x <= 1).
Proof.
  intros N. assert (P := M64_pos). split.
  - intros [F B]. rewrite V_fin by auto. exact B.
  - intros B. assert (F : fin x) by (apply V_fin_iff; auto; lra). rewrite V_fin in B by auto. split; assumption.
Qed.
Lemma V_one : V one64 = 1. Proof. unfold one64. rewrite V_fin by apply fin_b64_1. apply RV_b64_1. Qed.
Lemma V_zero : V zero64 = 0. Proof. unfold zero64. rewrite V_fin by apply fin_b64_0. apply RV_b64_0. Qed.
Lemma num_one : num one64. Proof. reflexivity. Qed.
Lemma num_zero : num zero64. Proof. reflexivity. Qed.
(** 1 - e is a probability if e is, and is antitone *)
Lemma one_minus e : num e -> 0 <= V e <= 1 -> num (Bminus mode_NE (b64 1 0) e) /\ 0 <= V (Bminus mode_NE (b64 1 0) e) <= 1.
Proof.
  intros N B. assert (P := M64_pos). destruct (c_minus e (b64 1 0) N fin_b64_1) as [N' E]. split; [exact N'|]. rewrite E.
  assert (F : fin e) by (apply V_fin_iff; auto; lra). rewrite liftn_fin by auto. rewrite V_fin in B by auto. rewrite RV_b64_1. split; [apply sat_pos; lra|apply sat_le1; lra].
Qed.
Lemma one_minus_anti e e' : num e -> num e' -> V e <= V e' -> V (Bminus mode_NE (b64 1 0) e') <= V (Bminus mode_NE (b64 1 0) e).
Proof.
  intros N N' L. destruct (c_minus e (b64 1 0) N fin_b64_1) as [_ ->]. destruct (c_minus e' (b64 1 0) N' fin_b64_1) as [_ ->]. apply liftn_anti; auto. intros; lra.
Qed.
Lemma le_V1 x y : le64 x y -> V x <= V y.
Proof. intros H. destruct (le_num _ _ H). now apply le_V. Qed.
Lemma le_V2 x y : num x -> num y -> V x <= V y -> le64 x y.
Proof. intros. now apply le_V. Qed.
Lemma lt_V1 x y : lt64 x y -> V x < V y.
Proof. intros H. destruct (lt_num _ _ H). now apply lt_V. Qed.
Lemma lt_V2 x y : num x -> num y -> V x < V y -> lt64 x y.
Proof. intros. now apply lt_V. Qed.
