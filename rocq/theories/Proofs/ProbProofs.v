(** Proofs about Probability in binary64. *)
From Coq Require Import Reals Lra Lia ZArith Psatz List Bool.
From Flocq Require Import Core IEEE754.BinarySingleNaN Sterbenz Plus_error.
From Verif.Num Require Import Scalar F64.
From Verif.Model Require Import Rust Probability.
From Verif.Spec Require Import ProbSpec.
Import ListNotations.
Open Scope R_scope.

Lemma RN_rnd r : RN r = rnd r. Proof. reflexivity. Qed.

Section P.
Context (m : Libm).

Lemma leb_inf s x : fin x -> Bleb (B754_infinity s) x = s.
Proof. intros; destruct x, s; try discriminate; reflexivity. Qed.
Lemma leb_inf' s x : fin x -> Bleb x (B754_infinity s) = negb s.
Proof. intros; destruct x as [| | |[] ? ? ?], s; try discriminate; reflexivity. Qed.
Lemma leb_nan x : Bleb (B754_nan : f64) x = false.
Proof. reflexivity. Qed.
Lemma leb_nan' x : Bleb x (B754_nan : f64) = false.
Proof. destruct x as [[]|[]| |[] ? ? ?]; reflexivity. Qed.

Lemma p_test (x : f64) :
  (fleb (f_of_Z 0) x && fleb x (f_of_Z 1))%bool = true <-> valid_prob x.
Proof.
  cbn [fleb f_of_Z F64Scalar]. unfold valid_prob.
  destruct (is_finite x) eqn:E.
  - rewrite andb_true_iff, (leb_spec _ _ fin_b64_0 E), (leb_spec _ _ E fin_b64_1), RV_b64_0, RV_b64_1.
    unfold RV. tauto.
  - split; [|intros [? _]; discriminate].
    intros H; apply andb_true_iff in H; destruct H as [H1 H2]. exfalso.
    destruct x as [s|s| |s mm e B]; try discriminate E.
    + rewrite leb_inf' in H1 by apply fin_b64_0. rewrite leb_inf in H2 by apply fin_b64_1. destruct s; discriminate.
    + rewrite leb_nan' in H1. discriminate.
Qed.

Lemma p_new_ok x : valid_prob x -> p_new x = Ok (Prob x).
Proof. intros H. unfold p_new. apply p_test in H. now rewrite H. Qed.
Lemma p_new_err x : ~ valid_prob x -> p_new x = Err (InvalidProbability x).
Proof.
  intros H. unfold p_new. destruct (_ && _)%bool eqn:E; [|reflexivity].
  exfalso; apply H, p_test, E.
Qed.
Lemma valid_dec x : valid_prob x \/ ~ valid_prob x.
Proof.
  destruct ((fleb (f_of_Z 0) x && fleb x (f_of_Z 1))%bool) eqn:E.
  - left; now apply p_test.
  - right; intros H; apply p_test in H; congruence.
Qed.
Lemma p_new_inv x p : p_new x = Ok p -> valid_prob x /\ p = Prob x.
Proof.
  intros H. destruct (valid_dec x) as [V|V].
  - rewrite p_new_ok in H by assumption. split; [assumption|congruence].
  - rewrite p_new_err in H by assumption. discriminate.
Qed.
Lemma p_is_valid_iff x : p_is_valid (Prob x) = true <-> valid_prob x.
Proof. unfold p_is_valid; cbn [unwrap]. rewrite andb_comm. apply p_test. Qed.

(** unit-interval results *)
Lemma unit_small r : 0 <= r <= 1 -> Rabs (rnd r) < bpow radix2 1024.
Proof.
  intros H. apply rnd_small, small_le. rewrite Rabs_right by lra. lra.
Qed.
Lemma rnd_unit r : 0 <= r <= 1 -> 0 <= rnd r <= 1.
Proof.
  intros H; split; [apply rnd_ge; [apply fmt_0|lra]|apply rnd_le_fmt; [apply fmt_1|lra]].
Qed.

Lemma mul_val p q : valid_prob p -> valid_prob q ->
  valid_prob (Bmult mode_NE p q) /\ B2R (Bmult mode_NE p q) = rnd (B2R p * B2R q).
Proof.
  intros [Fp Rp] [Fq Rq].
  assert (U: 0 <= B2R p * B2R q <= 1) by nra.
  destruct (mul_spec p q Fp Fq (unit_small _ U)) as [H1 H2].
  split; [split; [exact H1|]|exact H2].
  unfold RV in H2. rewrite H2. now apply rnd_unit.
Qed.

Lemma not_val p : valid_prob p ->
  valid_prob (Bminus mode_NE (b64 1 0) p) /\ B2R (Bminus mode_NE (b64 1 0) p) = rnd (1 - B2R p).
Proof.
  intros [Fp Rp].
  assert (U: 0 <= 1 - B2R p <= 1) by lra.
  pose proof (sub_spec (b64 1 0) p fin_b64_1 Fp) as S. rewrite RV_b64_1 in S.
  destruct (S (unit_small _ U)) as [H1 H2].
  split; [split; [exact H1|]|exact H2].
  unfold RV in H2. rewrite H2. now apply rnd_unit.
Qed.

Lemma half_valid : valid_prob (fdiv (f_of_Z 1) (f_of_Z 2)).
Proof.
  cbn [fdiv f_of_Z F64Scalar].
  assert (E: Bdiv mode_NE (b64 1 0) (b64 2 0) = b64 1 (-1)) by (apply B2SF_inj; vm_compute; reflexivity).
  rewrite E. destruct (b64_spec 1 (-1)) as [H1 H2].
  - apply unit_small. cbn; lra.
  - split; [exact H1|]. fold (RV (b64 1 (-1))). rewrite H2. apply rnd_unit. cbn; lra.
Qed.

Inductive Built : Probability f64 -> Prop :=
| B_zero : Built p_zero
| B_half : Built p_half
| B_one : Built p_one
| B_default : Built p_default
| B_new x p : p_new x = Ok p -> Built p
| B_try x p : p_try_from x = Ok p -> Built p
| B_not p : Built p -> Built (p_not p)
| B_mul p q : Built p -> Built q -> Built (p_mul p q)
| B_add p q r : Built p -> Built q -> p_add p q = Ok r -> Built r
| B_sub p q r : Built p -> Built q -> p_sub p q = Ok r -> Built r
| B_div p q r : Built p -> Built q -> p_div p q = Ok r -> Built r
| B_rem p q r : Built p -> Built q -> p_rem p q = Ok r -> Built r.

Lemma built_valid p : Built p -> valid_prob (unwrap p).
Proof.
  induction 1; try (match goal with H : _ = Ok _ |- _ => apply p_new_inv in H; destruct H as [? ->]; assumption end).
  - split; [apply fin_b64_0|]. change (0 <= RV (b64 0 0) <= 1). rewrite RV_b64_0. lra.
  - apply half_valid.
  - split; [apply fin_b64_1|]. change (0 <= RV (b64 1 0) <= 1). rewrite RV_b64_1. lra.
  - split; [apply fin_b64_0|]. change (0 <= RV (b64 0 0) <= 1). rewrite RV_b64_0. lra.
  - now apply not_val.
  - now apply mul_val.
Qed.

(** ** Complement laws *)
Lemma rnd_near_1 r : Rabs (r - 1) <= bpow radix2 (-54) -> rnd r = 1.
Proof.
  intros H. apply Rabs_le_inv in H.
  assert (L: rnd (1 - bpow radix2 (-54)) = 1).
  { replace (1 - bpow radix2 (-54)) with (IZR (2^54 - 1) * bpow radix2 (-54)).
    - assert (E: b64 (2^54-1) (-54) = b64 1 0) by (apply B2SF_inj; vm_compute; reflexivity).
      destruct (b64_spec (2^54-1) (-54)) as [_ H2].
      + apply unit_small. rewrite minus_IZR. change (IZR (2^54)) with (bpow radix2 54).
        rewrite Rmult_minus_distr_r, <- bpow_plus. cbn -[bpow]. change (bpow radix2 0) with 1.
        pose proof (bpow_gt_0 radix2 (-54)). assert (bpow radix2 (-54) <= bpow radix2 0) by (apply bpow_le; lia).
        change (bpow radix2 0) with 1 in *. lra.
      + rewrite E in H2. rewrite RV_b64_1 in H2. symmetry; exact H2.
    - rewrite minus_IZR. change (IZR (2^54)) with (bpow radix2 54).
      rewrite Rmult_minus_distr_r, <- bpow_plus. change (bpow radix2 (54 + -54)) with 1. ring. }
  assert (U: rnd (1 + bpow radix2 (-54)) = 1).
  { replace (1 + bpow radix2 (-54)) with (IZR (2^54 + 1) * bpow radix2 (-54)).
    - assert (E: b64 (2^54+1) (-54) = b64 1 0) by (apply B2SF_inj; vm_compute; reflexivity).
      destruct (b64_spec (2^54+1) (-54)) as [_ H2].
      + apply rnd_small, small_le. rewrite plus_IZR. change (IZR (2^54)) with (bpow radix2 54).
        rewrite Rmult_plus_distr_r, <- bpow_plus. change (bpow radix2 (54 + -54)) with 1.
        pose proof (bpow_gt_0 radix2 (-54)). assert (bpow radix2 (-54) <= bpow radix2 0) by (apply bpow_le; lia).
        change (bpow radix2 0) with 1 in *. rewrite Rabs_right; lra.
      + rewrite E in H2. rewrite RV_b64_1 in H2. symmetry; exact H2.
    - rewrite plus_IZR. change (IZR (2^54)) with (bpow radix2 54).
      rewrite Rmult_plus_distr_r, <- bpow_plus. change (bpow radix2 (54 + -54)) with 1. ring. }
  apply Rle_antisym.
  - rewrite <- U. apply rnd_le. lra.
  - rewrite <- L. apply rnd_le. lra.
Qed.

Lemma sign_of_pos (x : f64) : fin x -> 0 < B2R x -> Bsign x = false.
Proof.
  intros F P. destruct x as [s|s| |s mm e B]; cbn in *; try lra; try discriminate.
  destruct s; [|reflexivity]. exfalso.
  assert (F2R (Float radix2 (Z.neg mm) e) < 0) by (apply F2R_lt_0; reflexivity).
  cbn in *. lra.
Qed.

Lemma eq_of_value (x y : f64) : fin x -> fin y -> 0 < B2R x -> B2R x = B2R y -> x = y.
Proof.
  intros Fx Fy P E. apply B2R_Bsign_inj; auto.
  rewrite !sign_of_pos; auto. now rewrite <- E.
Qed.

Lemma add_complement p : valid_prob p -> p_add (Prob p) (p_not (Prob p)) = Ok p_one.
Proof.
  intros V. unfold p_add, p_not, p_new_unchecked; cbn [unwrap].
  cbn [fadd fsub f_of_Z F64Scalar].
  destruct (not_val p V) as [[Fn Rn] En]. set (n := Bminus mode_NE (b64 1 0) p) in *.
  destruct V as [Fp Rp].
  assert (A: Rabs (B2R p + B2R n - 1) <= bpow radix2 (-54)).
  { rewrite En. replace (B2R p + rnd (1 - B2R p) - 1) with (rnd (1 - B2R p) - (1 - B2R p)) by ring.
    apply rnd_err_01. apply Rabs_le; lra. }
  assert (R1: rnd (B2R p + B2R n) = 1) by (apply rnd_near_1; exact A).
  destruct (add_spec p n Fp Fn) as [H1 H2].
  { unfold RV. rewrite R1. rewrite Rabs_R1. pose proof bpow64_big; lra. }
  assert (E: Bplus mode_NE p n = b64 1 0).
  { apply eq_of_value; auto. apply fin_b64_1.
    - unfold RV in H2; rewrite H2, R1; lra.
    - unfold RV in H2; rewrite H2, R1. symmetry; apply RV_b64_1. }
  rewrite E. apply p_new_ok. split; [apply fin_b64_1|]. fold (RV (b64 1 0)). rewrite RV_b64_1; lra.
Qed.

Lemma not_antitone p q : valid_prob p -> valid_prob q -> B2R p <= B2R q ->
  B2R (unwrap (p_not (Prob q))) <= B2R (unwrap (p_not (Prob p))).
Proof.
  intros Vp Vq H. unfold p_not, p_new_unchecked. cbn [unwrap fsub f_of_Z F64Scalar]. destruct (not_val p Vp) as [_ ->]. destruct (not_val q Vq) as [_ ->].
  apply rnd_le. lra.
Qed.

Lemma not_involutive p : valid_prob p -> /2 <= B2R p -> p_not (p_not (Prob p)) = Prob p.
Proof.
  intros V H. unfold p_not, p_new_unchecked; cbn [unwrap]. f_equal.
  cbn [fsub f_of_Z F64Scalar].
  destruct (not_val p V) as [V' E]. pose proof (not_val _ V') as [V2 E2].
  destruct V as [Fp Rp].
  assert (G: fmt64 (1 - B2R p)).
  { replace (1 - B2R p) with (- (B2R p - 1)) by ring. apply generic_format_opp.
    apply sterbenz; auto with typeclass_instances. apply fmt_RV. apply fmt_1. lra. }
  rewrite (rnd_fmt _ G) in E. rewrite E in E2.
  replace (1 - (1 - B2R p)) with (B2R p) in E2 by ring.
  fold (RV p) in E2. rewrite rnd_RV in E2.
  apply eq_of_value; [apply V2|exact Fp| |exact E2]. rewrite E2. unfold RV. lra.
Qed.

(** ** Checked + - / % *)
Lemma overflow_not_valid (x : f64) : is_finite x = false -> ~ valid_prob x.
Proof. intros H [H' _]; congruence. Qed.

Lemma overflow_not_finite (x : f64) s : B2SF x = binary_overflow 53 1024 mode_NE s -> is_finite x = false.
Proof. intros H. destruct x; try discriminate; reflexivity. Qed.

Lemma p_add_spec p q : valid_prob p -> valid_prob q ->
  (rnd (B2R p + B2R q) <= 1 -> exists r, p_add (Prob p) (Prob q) = Ok r /\ B2R (unwrap r) = rnd (B2R p + B2R q)) /\
  (1 < rnd (B2R p + B2R q) -> exists e, p_add (Prob p) (Prob q) = Err e).
Proof.
  intros [Fp Rp] [Fq Rq].
  destruct (add_spec p q Fp Fq) as [H1 H2].
  { apply rnd_small, small_le. unfold RV. rewrite Rabs_right; lra. }
  unfold RV in *. split; intros H.
  - assert (V: valid_prob (Bplus mode_NE p q)).
    { split; [exact H1|]. rewrite H2. split; [|lra]. apply rnd_ge; [apply fmt_0|lra]. }
    eexists; split; [apply p_new_ok; exact V|exact H2].
  - eexists. apply p_new_err. intros [_ V]. cbn [unwrap fadd fsub fdiv F64Scalar] in V. rewrite H2 in V. lra.
Qed.

Lemma p_sub_spec p q : valid_prob p -> valid_prob q ->
  (B2R q <= B2R p -> exists r, p_sub (Prob p) (Prob q) = Ok r /\ B2R (unwrap r) = rnd (B2R p - B2R q)) /\
  (B2R p < B2R q -> exists e, p_sub (Prob p) (Prob q) = Err e).
Proof.
  intros [Fp Rp] [Fq Rq].
  destruct (sub_spec p q Fp Fq) as [H1 H2].
  { apply rnd_small, small_le. unfold RV. apply Rabs_le; lra. }
  unfold RV in *. split; intros H.
  - assert (V: valid_prob (Bminus mode_NE p q)).
    { split; [exact H1|]. rewrite H2. apply rnd_unit. lra. }
    eexists; split; [apply p_new_ok; exact V|exact H2].
  - eexists. apply p_new_err. intros [_ V]. cbn [unwrap fadd fsub fdiv F64Scalar] in V. rewrite H2 in V.
    assert (N: B2R p - B2R q <> 0) by lra.
    assert (rnd (B2R p - B2R q) <= 0) by (apply rnd_le_fmt; [apply fmt_0|lra]).
    assert (Z: rnd (B2R p - B2R q) = 0) by lra.
    (* subtraction of doubles never underflows to zero *)
    unfold rnd in Z.
    assert (NZ := round_plus_neq_0 radix2 (SpecFloat.fexp 53 1024) ZnearestE (B2R p) (- B2R q)).
    apply NZ; auto with typeclass_instances.
    + apply fmt_RV.
    + apply generic_format_opp, fmt_RV.
Qed.

Lemma Bdiv_zero_not_finite (x y : f64) : fin x -> fin y -> B2R y = 0 -> is_finite (Bdiv mode_NE x y) = false.
Proof.
  intros Fx Fy H. destruct y as [s|s| |s mm e B]; try discriminate.
  - destruct x as [t|t| |t mx ex Bx]; try discriminate; reflexivity.
  - exfalso. cbn in H. apply eq_0_F2R in H. destruct s; discriminate.
Qed.

Lemma p_div_spec p q : valid_prob p -> valid_prob q ->
  (B2R q <> 0 -> rnd (B2R p / B2R q) <= 1 ->
     exists r, p_div (Prob p) (Prob q) = Ok r /\ B2R (unwrap r) = rnd (B2R p / B2R q)) /\
  (B2R q <> 0 -> 1 < rnd (B2R p / B2R q) -> exists e, p_div (Prob p) (Prob q) = Err e) /\
  (B2R q = 0 -> exists e, p_div (Prob p) (Prob q) = Err e) /\
  (B2R q <> 0 -> B2R p <= B2R q -> exists r, p_div (Prob p) (Prob q) = Ok r).
Proof.
  intros [Fp Rp] [Fq Rq].
  assert (C1: B2R q <> 0 -> rnd (B2R p / B2R q) <= 1 ->
     exists r, p_div (Prob p) (Prob q) = Ok r /\ B2R (unwrap r) = rnd (B2R p / B2R q)).
  { intros Nz H.
    assert (G: 0 <= rnd (B2R p / B2R q)).
    { apply rnd_ge; [apply fmt_0|]. apply Rmult_le_pos; [lra|]. left; apply Rinv_0_lt_compat; lra. }
    destruct (div_spec p q Fp Nz) as [H1 H2].
    { unfold RV. rewrite Rabs_right by lra. pose proof bpow64_big; lra. }
    unfold RV in *.
    eexists; split; [apply p_new_ok; split; [exact H1|cbn [unwrap fdiv F64Scalar]; rewrite H2; lra]|exact H2]. }
  repeat split.
  - exact C1.
  - intros Nz H.
    destruct (Rlt_or_le (Rabs (rnd (B2R p / B2R q))) (bpow radix2 1024)) as [S|S].
    + destruct (div_spec p q Fp Nz S) as [H1 H2]. unfold RV in *.
      eexists. apply p_new_err. intros [_ V]. cbn [unwrap fadd fsub fdiv F64Scalar] in V. rewrite H2 in V. lra.
    + eexists. apply p_new_err. apply overflow_not_valid.
      pose proof (Bdiv_correct 53 1024 _ _ mode_NE p q Nz) as D.
      cbn [round_mode] in D. rewrite Rlt_bool_false in D by exact S.
      eapply overflow_not_finite; exact D.
  - intros Z. eexists. apply p_new_err. apply overflow_not_valid. now apply Bdiv_zero_not_finite.
  - intros Nz H. destruct C1 as (r & Hr & _); [exact Nz| |eexists; exact Hr].
    apply rnd_le_fmt; [apply fmt_1|].
    apply Rmult_le_reg_r with (B2R q); [lra|]. unfold Rdiv. rewrite Rmult_assoc, Rinv_l by assumption. lra.
Qed.

Lemma bounded_facts mx ex : SpecFloat.bounded 53 1024 mx ex = true ->
  (Zpos mx < 2 ^ 53)%Z /\ (-1074 <= ex)%Z.
Proof.
  intros B. apply andb_true_iff in B. destruct B as [B _].
  unfold SpecFloat.canonical_mantissa in B. apply Zeq_bool_eq in B.
  unfold SpecFloat.fexp, SpecFloat.emin in B.
  rewrite Digits.Zpos_digits2_pos in B.
  split; [|lia].
  pose proof (Digits.Zdigits_correct radix2 (Zpos mx)) as [_ D].
  rewrite Z.abs_eq in D by lia.
  eapply Z.lt_le_trans; [exact D|]. cbn [radix_val radix2]. apply Z.pow_le_mono_r; lia.
Qed.

Lemma fmt_scaled r e : (Z.abs r < 2 ^ 53)%Z -> (-1074 <= e)%Z -> fmt64 (IZR r * bpow radix2 e).
Proof.
  intros Hr He. apply (generic_format_FLT radix2 (-1074) 53). exists (Float radix2 r e); [reflexivity| |exact He].
  exact Hr.
Qed.

Lemma rem_exact p q : valid_prob p -> valid_prob q -> B2R q <> 0 ->
  valid_prob (f64_rem p q) /\ B2R (f64_rem p q) = B2R p - B2R q * IZR (Zfloor (B2R p / B2R q)).
Proof.
  intros Vp Vq Nz. destruct Vp as [Fp Rp]. destruct Vq as [Fq Rq].
  destruct q as [sq|sq| |sq mq eq Bq]; try discriminate; [cbn in Nz; lra|].
  assert (sq = false) as ->.
  { destruct sq; [|reflexivity]. exfalso. assert (F2R (Float radix2 (Z.neg mq) eq) < 0) by (apply F2R_lt_0; reflexivity).
    cbn in *; lra. }
  destruct p as [sp|sp| |sp mp ep Bp]; try discriminate.
  - split; [split; [reflexivity|cbn; lra]|].
    cbn -[Zfloor]. unfold Rdiv. rewrite Rmult_0_l, Zfloor_IZR. lra.
  - assert (sp = false) as ->.
    { destruct sp; [|reflexivity]. exfalso. assert (F2R (Float radix2 (Z.neg mp) ep) < 0) by (apply F2R_lt_0; reflexivity).
      cbn in *; lra. }
    cbn [f64_rem]. set (e := Z.min ep eq).
    set (a := (Zpos mp * 2 ^ (ep - e))%Z). set (b := (Zpos mq * 2 ^ (eq - e))%Z).
    destruct (bounded_facts _ _ Bp) as [Mp Ep]. destruct (bounded_facts _ _ Bq) as [Mq Eq].
    assert (Ha: (0 < a)%Z) by (unfold a; apply Z.mul_pos_pos; [lia|apply Z.pow_pos_nonneg; lia]).
    assert (Hb: (0 < b)%Z) by (unfold b; apply Z.mul_pos_pos; [lia|apply Z.pow_pos_nonneg; lia]).
    assert (Va: B2R (B754_finite false mp ep Bp : f64) = IZR a * bpow radix2 e).
    { cbn [B2R]. unfold F2R, a; cbn [Fnum Fexp cond_Zopp]. rewrite mult_IZR.
      change 2%Z with (radix_val radix2). rewrite IZR_Zpower by lia.
      rewrite Rmult_assoc, <- bpow_plus. do 2 f_equal. lia. }
    assert (Vb: B2R (B754_finite false mq eq Bq : f64) = IZR b * bpow radix2 e).
    { cbn [B2R]. unfold F2R, b; cbn [Fnum Fexp cond_Zopp]. rewrite mult_IZR.
      change 2%Z with (radix_val radix2). rewrite IZR_Zpower by lia.
      rewrite Rmult_assoc, <- bpow_plus. do 2 f_equal. lia. }
    pose proof (bpow_gt_0 radix2 e) as Pe.
    assert (IZR a > 0) by (apply Rlt_gt, (IZR_lt 0); lia). assert (IZR b > 0) by (apply Rlt_gt, (IZR_lt 0); lia).
    assert (Q: Zfloor (B2R (B754_finite false mp ep Bp : f64) / B2R (B754_finite false mq eq Bq : f64)) = (a / b)%Z).
    { rewrite Va, Vb. rewrite <- Zfloor_div by lia. f_equal. field. lra. }
    rewrite Z.rem_mod_nonneg by lia.
    pose proof (Z.mod_pos_bound a b Hb) as MB. pose proof (Z.mod_le a b) as ML.
    assert (S: fmt64 (IZR (a mod b) * bpow radix2 e)).
    { apply fmt_scaled; [|lia].
      destruct (Z.le_gt_cases ep eq).
      - assert (ee: e = ep) by lia. assert (a = Zpos mp) by (unfold a; rewrite ee, Z.sub_diag; lia). lia.
      - assert (ee: e = eq) by lia. assert (b = Zpos mq) by (unfold b; rewrite ee, Z.sub_diag; lia). lia. }
    assert (Val: IZR (a mod b) * bpow radix2 e
                 = IZR a * bpow radix2 e - IZR b * bpow radix2 e * IZR (a / b)).
    { rewrite Z.mod_eq by lia. rewrite minus_IZR, mult_IZR. ring. }
    assert (U: 0 <= IZR (a mod b) * bpow radix2 e <= 1).
    { split. { apply Rmult_le_pos; [apply (IZR_le 0); lia|lra]. }
      apply Rle_trans with (IZR a * bpow radix2 e); [|rewrite <- Va; lra].
      apply Rmult_le_compat_r; [lra|]. apply IZR_le, ML; lia. }
    destruct (b64_spec (a mod b) e (unit_small _ U)) as [H1 H2]. unfold RV in H2.
    rewrite (rnd_fmt _ S) in H2.
    rewrite Q. rewrite Va, Vb, <- Val.
    split; [split; [exact H1|]|exact H2].
    fold (b64 (a mod b) e). rewrite H2. exact U.
Qed.

Lemma p_rem_spec p q : valid_prob p -> valid_prob q ->
  (B2R q <> 0 -> exists r, p_rem (Prob p) (Prob q) = Ok r /\
      B2R (unwrap r) = B2R p - B2R q * IZR (Zfloor (B2R p / B2R q))) /\
  (B2R q = 0 -> exists e, p_rem (Prob p) (Prob q) = Err e).
Proof.
  intros Vp Vq. split; intros H.
  - destruct (rem_exact p q Vp Vq H) as [V E].
    eexists; split; [apply p_new_ok; exact V|exact E].
  - eexists. apply p_new_err. apply overflow_not_valid. cbn [unwrap frem F64Scalar].
    destruct Vp as [Fp _]. destruct Vq as [Fq _].
    destruct q as [s|s| |s mm e B]; try discriminate.
    + destruct p; try discriminate; reflexivity.
    + exfalso. cbn in H. apply eq_0_F2R in H. destruct s; discriminate.
Qed.

End P.
