(** * Property C138: order, product, sums, logarithms and powers of probabilities *)
From Coq Require Import Reals Lra Lia ZArith Psatz List Bool.
From Flocq Require Import Core IEEE754.BinarySingleNaN.
From Verif.Num Require Import Scalar F64 XReal.
From Verif.Model Require Import Rust Constraints Probability Params ProbOps.
From Verif.Spec Require Import ProbSpec.
From Verif.Proofs Require Import ProbProofs SimplexProofs XTac.
Import ListNotations.
Open Scope R_scope.

(** ** In double arithmetic *)
Local Lemma eqb_val (x y : f64) : fin x -> fin y -> (Beqb x y = true <-> B2R x = B2R y).
Proof.
  intros Hx Hy. split.
  - intros H. rewrite (Beqb_correct 53 1024 x y Hx Hy) in H. destruct (Req_bool_spec (B2R x) (B2R y)); [auto|discriminate].
  - intros H. rewrite (Beqb_correct 53 1024 x y Hx Hy). now apply Req_bool_true.
Qed.
(** the comparison operators order the valid probabilities by value *)
Theorem C138_order (m : Libm) (p q : f64) : valid_prob p -> valid_prob q ->
  (p_leb (Prob p) (Prob q) = true <-> B2R p <= B2R q) /\
  (p_eqb (Prob p) (Prob q) = true <-> B2R p = B2R q) /\
  (p_eq_f (Prob p) q = true <-> B2R p = B2R q) /\
  p_leb p_zero (Prob p) = true /\ p_leb (Prob p) p_one = true /\
  (forall x, p_eq_f (Prob p) x = true -> valid_prob x).
Proof.
  intros [Fp Rp] [Fq Rq]. unfold p_leb, p_eqb, p_eq_f, p_zero, p_one. cbn [unwrap fleb feqb f_of_Z F64Scalar].
  split; [now apply leb_spec|]. split; [now apply eqb_val|]. split; [now apply eqb_val|].
  split; [apply leb_spec; [apply fin_b64_0|exact Fp|rewrite RV_b64_0; apply Rp]|].
  split; [apply leb_spec; [exact Fp|apply fin_b64_1|rewrite RV_b64_1; apply Rp]|].
  intros x H. assert (Fx : is_finite x = true).
  { destruct x as [| | |]; auto; destruct p as [[]|[]| |[]]; cbn in Fp; try discriminate; cbn in H; try discriminate; destruct s; discriminate. }
  apply (eqb_val p x Fp Fx) in H. split; [exact Fx|]. rewrite <- H. exact Rp.
Qed.
Print Assumptions C138_order.
(** the unchecked product: commutative, one is neutral, zero absorbs, monotone,
    never above either factor *)
Theorem C138_product (m : Libm) (p q r : f64) : valid_prob p -> valid_prob q -> valid_prob r ->
  let v (x : Probability f64) := B2R (unwrap x) in
  v (p_mul (Prob p) (Prob q)) = v (p_mul (Prob q) (Prob p)) /\
  v (p_mul (Prob p) p_one) = B2R p /\ v (p_mul p_one (Prob p)) = B2R p /\ v (p_mul (Prob p) p_zero) = 0 /\
  v (p_mul (Prob p) (Prob q)) <= B2R p /\ v (p_mul (Prob p) (Prob q)) <= B2R q /\
  (B2R q <= B2R r -> v (p_mul (Prob p) (Prob q)) <= v (p_mul (Prob p) (Prob r))).
Proof.
  intros Vp Vq Vr v. unfold v. clear v.
  assert (V1 : valid_prob (b64 1 0)) by (split; [apply fin_b64_1|]; change (0 <= RV (b64 1 0) <= 1); rewrite RV_b64_1; lra).
  assert (V0 : valid_prob (b64 0 0)) by (split; [apply fin_b64_0|]; change (0 <= RV (b64 0 0) <= 1); rewrite RV_b64_0; lra).
  assert (E1 : B2R (b64 1 0) = 1) by exact RV_b64_1. assert (E0 : B2R (b64 0 0) = 0) by exact RV_b64_0.
  unfold p_mul, p_new_unchecked, p_one, p_zero. cbn [unwrap fmul f_of_Z F64Scalar].
  rewrite (proj2 (mul_val p q Vp Vq)), (proj2 (mul_val q p Vq Vp)), (proj2 (mul_val p _ Vp V1)), (proj2 (mul_val _ p V1 Vp)), (proj2 (mul_val p _ Vp V0)), (proj2 (mul_val p r Vp Vr)).
  rewrite E1, E0, Rmult_1_r, Rmult_1_l, Rmult_0_r, rnd_0. assert (KP : rnd (B2R p) = B2R p) by apply rnd_RV. rewrite KP.
  destruct Vp as [Fp Rp], Vq as [Fq Rq], Vr as [Fr Rr].
  split; [now rewrite Rmult_comm|]. do 3 (split; [reflexivity|]).
  split; [apply rnd_le_fmt; [apply fmt_RV|nra]|]. split; [apply rnd_le_fmt; [apply fmt_RV|nra]|]. intros H. apply rnd_le. nra.
Qed.
Print Assumptions C138_product.
(** ... but not associative: rounding intervenes *)
Theorem C138_product_assoc_refuted (m : Libm) : exists p q r : f64, valid_prob p /\ valid_prob q /\ valid_prob r /\
  p_eqb (p_mul (p_mul (Prob p) (Prob q)) (Prob r)) (p_mul (Prob p) (p_mul (Prob q) (Prob r))) = false.
Proof.
  exists (Bdiv mode_NE (b64 1 0) (b64 10 0)), (Bdiv mode_NE (b64 1 0) (b64 10 0)), (Bdiv mode_NE (b64 3 0) (b64 10 0)).
  assert (T : forall x : f64, (fleb (Scalar := F64Scalar m) (f_of_Z 0) x && fleb (Scalar := F64Scalar m) x (f_of_Z 1))%bool = true -> valid_prob x) by (intros x; apply (p_test m)).
  split; [apply T; vm_compute; reflexivity|]. split; [apply T; vm_compute; reflexivity|]. split; [apply T; vm_compute; reflexivity|]. vm_compute. reflexivity.
Qed.
Print Assumptions C138_product_assoc_refuted.
(** the named constants *)
Theorem C138_constants (m : Libm) :
  B2R (unwrap (p_zero : Probability f64)) = 0 /\ B2R (unwrap (p_half : Probability f64)) = 1 / 2 /\ B2R (unwrap (p_one : Probability f64)) = 1 /\
  (p_default : Probability f64) = p_zero /\
  p_not p_half = (p_half : Probability f64) /\ p_not p_zero = (p_one : Probability f64) /\ p_not p_one = (p_zero : Probability f64) /\
  p_add p_half p_half = Ok (p_one : Probability f64) /\ p_sub p_half p_half = Ok (p_zero : Probability f64) /\ p_div p_half p_one = Ok (p_half : Probability f64).
Proof.
  assert (E: Bdiv mode_NE (b64 1 0) (b64 2 0) = b64 1 (-1)) by (apply B2SF_inj; vm_compute; reflexivity).
  split; [exact RV_b64_0|]. split.
  { unfold p_half. cbn [unwrap fdiv f_of_Z F64Scalar]. rewrite E. destruct (b64_spec 1 (-1)) as [H1 H2]; [apply unit_small; cbn; lra|]. change (RV (b64 1 (-1)) = 1 / 2). rewrite H2.
    rewrite rnd_fmt; [cbn; lra|]. replace (1 * bpow radix2 (-1)) with (bpow radix2 (-1)) by ring. apply fmt_bpow. lia. }
  split; [exact RV_b64_1|]. split; [reflexivity|].
  assert (P : forall x y : f64, B2SF x = B2SF y -> Prob x = Prob y) by (intros; f_equal; now apply B2SF_inj).
  split; [apply P; vm_compute; reflexivity|]. split; [apply P; vm_compute; reflexivity|]. split; [apply P; vm_compute; reflexivity|].
  split; [|split].
  - unfold p_add. assert (X : fadd (Scalar := F64Scalar m) (unwrap (p_half : Probability f64)) (unwrap (p_half : Probability f64)) = b64 1 0) by (apply B2SF_inj; vm_compute; reflexivity).
    rewrite X. apply p_new_ok. split; [apply fin_b64_1|]. change (0 <= RV (b64 1 0) <= 1); rewrite RV_b64_1; lra.
  - unfold p_sub. assert (X : fsub (Scalar := F64Scalar m) (unwrap (p_half : Probability f64)) (unwrap (p_half : Probability f64)) = b64 0 0) by (apply B2SF_inj; vm_compute; reflexivity).
    rewrite X. apply p_new_ok. split; [apply fin_b64_0|]. change (0 <= RV (b64 0 0) <= 1); rewrite RV_b64_0; lra.
  - unfold p_div. assert (X : fdiv (Scalar := F64Scalar m) (unwrap (p_half : Probability f64)) (unwrap (p_one : Probability f64)) = unwrap (p_half : Probability f64)) by (apply B2SF_inj; vm_compute; reflexivity).
    rewrite X. apply p_new_ok, half_valid.
Qed.
Print Assumptions C138_constants.
(** a sum of probabilities is a non-negative double, at most their number; the
    mixed operators are those of f64 *)
Theorem C138_sum_mixed (m : Libm) (ps : list (Probability f64)) (p : Probability f64) (x : f64) :
  (Forall (fun p => valid_prob (unwrap p)) ps -> (Z.of_nat (length ps) <= 2 ^ 53)%Z ->
     is_finite (p_sum ps) = true /\ 0 <= B2R (p_sum ps) <= INR (length ps)) /\
  p_add_f p x = Bplus mode_NE (unwrap p) x /\ f_add_p x p = Bplus mode_NE x (unwrap p) /\
  p_sub_f p x = Bminus mode_NE (unwrap p) x /\ f_sub_p x p = Bminus mode_NE x (unwrap p) /\
  p_mul_f p x = Bmult mode_NE (unwrap p) x /\ f_mul_p x p = Bmult mode_NE x (unwrap p) /\
  p_div_f p x = Bdiv mode_NE (unwrap p) x /\ f_div_p x p = Bdiv mode_NE x (unwrap p) /\
  p_rem_f p x = f64_rem (unwrap p) x /\ f_rem_p x p = f64_rem x (unwrap p) /\
  f_from_p p = unwrap p /\ p_value p = unwrap p /\ p_into_value p = unwrap p.
Proof.
  split; [|repeat split]. unfold p_sum, fsum. cbn [f_of_Z F64Scalar].
  assert (G : forall (l : list (Probability f64)) (k : Z) (z : f64), Forall (fun p => valid_prob (unwrap p)) l -> (0 <= k)%Z -> (k + Z.of_nat (length l) <= 2 ^ 53)%Z ->
    fin z -> 0 <= RV z <= IZR k -> let s := fold_left (fadd (Scalar := F64Scalar m)) (map unwrap l) z in fin s /\ 0 <= RV s <= IZR (k + Z.of_nat (length l))).
  { induction l as [|a l IH]; intros k z HF Hk HL Fz Rz; cbn [map fold_left length].
    - rewrite Z.add_0_r. split; auto.
    - inversion_clear HF as [|? ? [Fa Ra] HF']. cbn [fadd F64Scalar]. fold (RV (unwrap a)) in Ra.
      assert (LB : (k + 1 <= 2 ^ 53)%Z) by (cbn [length] in HL; lia).
      assert (B : RV z + RV (unwrap a) <= IZR (k + 1)) by (rewrite plus_IZR; lra).
      assert (F1 : fmt64 (IZR (k + 1))) by (apply fmt_IZR; lia).
      assert (RB : 0 <= rnd (RV z + RV (unwrap a)) <= IZR (k + 1)) by (split; [apply rnd_ge; [apply fmt_0|lra]|now apply rnd_le_fmt]).
      assert (BB : IZR (k + 1) < bpow radix2 1024).
      { apply Rle_lt_trans with (IZR (2 ^ 53)); [now apply IZR_le|]. change (IZR (2 ^ 53)) with (bpow radix2 53). apply bpow_lt. lia. }
      destruct (add_spec z (unwrap a) Fz Fa) as [H1 H2]. { rewrite Rabs_right by lra. lra. }
      assert (K := IH (k + 1)%Z (Bplus mode_NE z (unwrap a)) HF' ltac:(lia) ltac:(cbn [length] in HL; lia) H1).
      rewrite H2 in K. specialize (K RB). cbv zeta in K. rewrite Nat2Z.inj_succ. replace (k + Z.succ (Z.of_nat (length l)))%Z with (k + 1 + Z.of_nat (length l))%Z by lia. exact K. }
  intros HF HL. rewrite INR_IZR_INZ. apply (G ps 0%Z (b64 0 0) HF); [lia|lia|apply fin_b64_0|rewrite RV_b64_0; lra].
Qed.
Print Assumptions C138_sum_mixed.
(** the declared constraints of the parameter type accept exactly the valid values *)
Theorem C138_constraint (m : Libm) (x : f64) : Forall (fun c => is_satisfied_by c x = true) (prob_constraints (F := f64)) <-> valid_prob x.
Proof.
  rewrite <- (p_test m x). unfold prob_constraints. split.
  - intros H. inversion_clear H as [|? ? H1 _]. exact H1.
  - intros H. constructor; [exact H|constructor].
Qed.
Print Assumptions C138_constraint.

(** ** In exact arithmetic: logarithms and powers *)
Theorem C138_logs_powers (p q : R) : 0 <= p <= 1 -> 0 <= q <= 1 ->
  (* logarithms are never positive, minus infinity at zero only, and additive *)
  (p = 0 -> p_ln (Prob (Fin p)) = NInf /\ p_log2 (Prob (Fin p)) = NInf) /\
  (0 < p -> p_ln (Prob (Fin p)) = Fin (ln p) /\ ln p <= 0 /\ p_log2 (Prob (Fin p)) = Fin (ln p / ln 2) /\ (p = 1/2 -> p_log2 (Prob (Fin p)) = Fin (-1))) /\
  (0 < p -> 0 < q -> exists a b, p_ln (Prob (Fin p)) = Fin a /\ p_ln (Prob (Fin q)) = Fin b /\ p_ln (p_mul (Prob (Fin p)) (Prob (Fin q))) = Fin (a + b)) /\
  (* powers with a non-negative exponent are probabilities; exponents add *)
  (forall e, 0 <= e -> exists v, p_powf (Prob (Fin p)) (Fin e) = Fin v /\ 0 <= v <= 1 /\ p_new (p_powf (Prob (Fin p)) (Fin e)) = Ok (Prob (Fin v))) /\
  (forall k : nat, p_powi (Prob (Fin p)) (Z.of_nat k) = Fin (p ^ k) /\ 0 <= p ^ k <= 1) /\
  (0 < p -> forall z, exists v, p_powi (Prob (Fin p)) (- z) = Fin v /\ p_powi (Prob (Fin p)) z = Fin (/ v)) /\
  (forall j k : nat, exists a b, p_powi (Prob (Fin p)) (Z.of_nat j) = Fin a /\ p_powi (Prob (Fin p)) (Z.of_nat k) = Fin b /\
     p_powi (Prob (Fin p)) (Z.of_nat (j + k)) = Fin (a * b)).
Proof.
  intros Hp Hq. unfold p_ln, p_log2, p_powf, p_powi, p_mul, p_new_unchecked. cbn [unwrap].
  assert (L2 : 0 < ln 2) by (rewrite <- ln_1; apply ln_increasing; lra).
  split; [intros ->; split; cbn; unfold xln, xlog2; destruct (Rlt_dec 0 0); try lra; destruct (Req_EM_T 0 0); congruence|].
  split.
  { intros P. xs. split; [reflexivity|]. split; [rewrite <- ln_1; destruct (Req_dec p 1) as [->|]; [lra|left; apply ln_increasing; lra]|].
    split; [reflexivity|]. intros ->. f_equal. unfold Rdiv at 2. rewrite Rmult_1_l, ln_Rinv by lra. field. lra. }
  split.
  { intros P Q. assert (0 < p * q) by nra. exists (ln p), (ln q). xs. split; [reflexivity|]. split; [reflexivity|]. now rewrite ln_mult. }
  split.
  { intros e He. assert (PN : forall v, 0 <= v <= 1 -> p_new (Fin v) = Ok (Prob (Fin v))).
    { intros v Hv. unfold p_new. rewrite !x_lit, !x_leb. unfold Rleb. destruct (Rle_dec 0 v), (Rle_dec v 1); try lra. reflexivity. }
    assert (K : exists v, fpowf (Fin p) (Fin e) = Fin v /\ 0 <= v <= 1).
    { destruct (Req_dec p 0) as [->|N].
      - destruct (Req_dec e 0) as [->|Ne].
        + exists 1. split; [apply x_powf_0_0|lra].
        + exists 0. split; [|lra]. apply x_powf_0. lra.
      - exists (Rpower p e). rewrite x_powf by lra. split; [reflexivity|]. split; [left; apply exp_pos|].
        unfold Rpower. rewrite <- exp_0. assert (ln p <= 0) by (rewrite <- ln_1; destruct (Req_dec p 1) as [->|]; [lra|left; apply ln_increasing; lra]).
        destruct (Req_dec (e * ln p) 0) as [->|]; [lra|]. left. apply exp_increasing. nra. }
    destruct K as (v & E & Hv). exists v. rewrite E. split; [reflexivity|]. split; [exact Hv|now apply PN]. }
  split.
  { intros k. split; [apply x_powi_nat|]. split; [apply pow_le; lra|]. rewrite <- (pow1 k). apply pow_incr. lra. }
  split.
  { intros P z. exists (powerRZ p (- z)). rewrite !x_powi_nz by lra. split; [reflexivity|]. f_equal. rewrite powerRZ_neg' . now rewrite Rinv_inv. }
  intros j k. exists (p ^ j), (p ^ k). rewrite !x_powi_nat. split; [reflexivity|]. split; [reflexivity|]. now rewrite pow_add.
Qed.
Print Assumptions C138_logs_powers.
Example C138_nonvacuous (m : Libm) : valid_prob (unwrap (p_half : Probability f64)) /\ valid_prob (unwrap (p_one : Probability f64)).
Proof. split; [apply half_valid|]. split; [apply fin_b64_1|]. change (0 <= RV (b64 1 0) <= 1); rewrite RV_b64_1; lra. Qed.
