(** * Property C73 in double arithmetic: Bernoulli::fit_mle never fails on a
      non-empty sample and is within rounding of the sample proportion *)
From Coq Require Import Reals Lra Lia ZArith List Bool.
From Flocq Require Import Core IEEE754.BinarySingleNaN.
From Verif.Num Require Import Scalar F64.
From Verif.Model Require Import Rust Constraints Probability Params Discrete.
From Verif.Spec Require Import ProbSpec ParamSpec.
From Verif.Proofs Require Import ProbProofs ConstraintProofs DiscProofs5.
Import ListNotations.
Open Scope R_scope.

(** how many of the samples are [true] *)
Definition successes (xs : list bool) : nat := count_occ bool_dec xs true.
Lemma count_true xs : forall a, fold_left (fun (acc : Z) (x : bool) => (acc + (if x then 1 else 0))%Z) xs a = (a + Z.of_nat (successes xs))%Z.
Proof.
  unfold successes. induction xs as [|[|] xs IH]; intros a; cbn [count_occ fold_left].
  - lia.
  - rewrite IH. destruct (bool_dec true true); [lia|congruence].
  - rewrite IH. destruct (bool_dec false true); [congruence|lia].
Qed.
Lemma successes_le xs : (successes xs <= length xs)%nat.
Proof. unfold successes. induction xs as [|b xs IH]; cbn [count_occ length]; [lia|]. destruct (bool_dec b true); lia. Qed.
Lemma small64 z : (0 <= z < 2 ^ 64)%Z -> fin (b64 z 0) /\ RV (b64 z 0) = rnd (IZR z).
Proof.
  intros H. assert (E : IZR z * bpow radix2 0 = IZR z) by (cbn; ring). rewrite <- E. apply b64_spec. rewrite E. apply rnd_small.
  rewrite Rabs_pos_eq by (apply IZR_le; lia). apply Rle_trans with (bpow radix2 64); [|apply bpow_le; lia]. apply Rlt_le. change (bpow radix2 64) with (IZR (2 ^ 64)). apply IZR_lt. lia.
Qed.

Lemma new_valid (m : Libm) (x : f64) : valid_prob x -> Bernoulli.new x = Ok (Bernoulli.new_unchecked x).
Proof. intros V. unfold Bernoulli.new. cbn. rewrite (p_new_ok m x V). reflexivity. Qed.
Lemma new_invalid (m : Libm) (x : f64) : ~ valid_prob x -> exists e, Bernoulli.new x = Err e.
Proof. intros V. unfold Bernoulli.new. cbn. rewrite (p_new_err m x V). eexists. reflexivity. Qed.

Theorem C73_bernoulli_f64 (m : Libm) (xs : list bool) : xs <> [] -> (Z.of_nat (length xs) < 2 ^ 64)%Z ->
  exists p d, Bernoulli.fit_mle (F := f64) xs = Ok d /\ d = Bernoulli.new_unchecked p /\ valid_prob p /\
    B2R p = RN (RN (INR (successes xs)) / RN (INR (length xs))) /\
    ((length xs <= 2 ^ 53)%nat -> B2R p = RN (INR (successes xs) / INR (length xs))).
Proof.
  intros Hx Hl. assert (Hn : (0 < length xs)%nat) by (destruct xs; [congruence|cbn; lia]). assert (Hk := successes_le xs).
  set (k := successes xs) in *. set (n := length xs) in *.
  destruct (small64 (Z.of_nat k) ltac:(lia)) as [Fk Vk]. destruct (small64 (Z.of_nat n) ltac:(lia)) as [Fn Vn].
  assert (N1 : 1 <= RV (b64 (Z.of_nat n) 0)) by (rewrite Vn; apply rnd_ge; [apply fmt_1|apply (IZR_le 1); lia]).
  assert (K0 : 0 <= RV (b64 (Z.of_nat k) 0)) by (rewrite Vk; apply rnd_ge; [apply fmt_0|apply (IZR_le 0); lia]).
  assert (KN : RV (b64 (Z.of_nat k) 0) <= RV (b64 (Z.of_nat n) 0)) by (rewrite Vk, Vn; apply rnd_le, IZR_le; lia).
  set (a := RV (b64 (Z.of_nat k) 0)) in *. set (b := RV (b64 (Z.of_nat n) 0)) in *.
  assert (Q : 0 <= a / b <= 1). { split; [apply Rmult_le_pos; [auto|left; apply Rinv_0_lt_compat; lra]|]. apply (Rmult_le_reg_r b); [lra|]. replace (a / b * b) with a by (field; lra). lra. }
  assert (RQ : 0 <= rnd (a / b) <= 1) by (split; [apply rnd_ge; [apply fmt_0|lra]|apply rnd_le_fmt; [apply fmt_1|lra]]).
  destruct (div_spec (b64 (Z.of_nat k) 0) (b64 (Z.of_nat n) 0) Fk) as [Fq Vq]. { fold b; lra. } { fold a b. rewrite Rabs_pos_eq by lra. eapply Rle_lt_trans; [apply RQ|]. pose proof bpow64_big. lra. }
  fold a b in Vq. set (q := Bdiv mode_NE (b64 (Z.of_nat k) 0) (b64 (Z.of_nat n) 0)) in *.
  assert (V : valid_prob q) by (split; [exact Fq|]; unfold RV in Vq; rewrite Vq; exact RQ).
  exists q. assert (E : Bernoulli.fit_mle (F := f64) xs = Bernoulli.new q).
  { unfold Bernoulli.fit_mle. cbv zeta. rewrite count_true. reflexivity. }
  rewrite E. clearbody q. eexists. split; [apply (new_valid m q V)|]. split; [reflexivity|]. split; [exact V|].
  assert (A : a = RN (INR k)) by (rewrite INR_IZR_INZ; exact Vk). assert (B : b = RN (INR n)) by (rewrite INR_IZR_INZ; exact Vn).
  unfold RV in Vq. split; [transitivity (rnd (a / b)); [exact Vq|rewrite A, B; reflexivity]|]. intros L. transitivity (rnd (a / b)); [exact Vq|]. unfold RN.
  assert (LL : (Z.of_nat n <= 2 ^ 53)%Z) by (change (2 ^ 53)%Z with (Z.of_nat 2 ^ Z.of_nat 53)%Z; rewrite <- Nat2Z.inj_pow; lia).
  rewrite !INR_IZR_INZ. rewrite Vk, Vn, (rnd_fmt (IZR (Z.of_nat k))), (rnd_fmt (IZR (Z.of_nat n))) by (apply fmt_IZR; lia). reflexivity.
Qed.
Print Assumptions C73_bernoulli_f64.
(** the empty sample is 0/0 = NaN, refused *)
Theorem C73_bernoulli_f64_empty (m : Libm) : exists e, Bernoulli.fit_mle (F := f64) [] = Err e.
Proof.
  unfold Bernoulli.fit_mle. cbv zeta. cbn [length fold_left].
  assert (E : (f_of_Z 0 / f_of_Z (Z.of_nat 0))%rs = (B754_nan : f64)) by reflexivity. rewrite E.
  assert (N : ~ valid_prob B754_nan) by (intros [F _]; discriminate). exact (new_invalid m _ N).
Qed.
Print Assumptions C73_bernoulli_f64_empty.
Example C73_f64_nonvacuous : [true; false; true] <> [] /\ (Z.of_nat (length [true; false; true]) < 2 ^ 64)%Z. Proof. split; [discriminate|cbn; lia]. Qed.
