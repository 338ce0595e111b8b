(** Proofs about SimplexVector. *)
From Coq Require Import Reals Lra Lia ZArith Psatz List Bool.
From Flocq Require Import Core IEEE754.BinarySingleNaN Sterbenz Relative.
From Verif.Num Require Import Scalar F64 XReal.
From Verif.Model Require Import Rust Probability.
From Verif.Spec Require Import ProbSpec.
From Verif.Proofs Require Import ProbProofs.
Import ListNotations.
Open Scope R_scope.

(** ** sample_index, for every scalar semantics *)
Section Index.
Context {F : Type} {SF : Scalar F}.

Definition prefix_sum (ps : list F) (i : nat) : F := fold_left fadd (firstn (S i) ps) (f_of_Z 0).

Lemma position_some rval : forall ps st j i,
  position_lt rval st j ps = Some i ->
  exists k, i = (j + k)%nat /\ (k < length ps)%nat /\
    fltb rval (fold_left fadd (firstn (S k) ps) st) = true /\
    (forall l, (l < k)%nat -> fltb rval (fold_left fadd (firstn (S l) ps) st) = false).
Proof.
  induction ps as [|p ps IH]; intros st j i H; cbn in H; [discriminate|].
  destruct (fltb rval (fadd st p)) eqn:E.
  - injection H as <-. exists 0%nat. cbn. repeat split; auto; try lia. 
  - apply IH in H. destruct H as (k & -> & Hk & H1 & H2). exists (S k). cbn [length].
    repeat split; try lia. { cbn; exact H1. }
    intros [|l] Hl; [cbn; exact E|]. change (fltb rval (fold_left fadd (firstn (S l) ps) (fadd st p)) = false).
    apply H2; lia.
Qed.

Lemma position_none rval : forall ps st j,
  position_lt rval st j ps = None ->
  forall l, (l < length ps)%nat -> fltb rval (fold_left fadd (firstn (S l) ps) st) = false.
Proof.
  induction ps as [|p ps IH]; intros st j H l Hl; cbn in H; [cbn in Hl; lia|].
  destruct (fltb rval (fadd st p)) eqn:E; [discriminate|].
  destruct l as [|l]; [cbn; exact E|].
  change (fltb rval (fold_left fadd (firstn (S l) ps) (fadd st p)) = false).
  apply (IH _ (S j) H). cbn in Hl; lia.
Qed.

Lemma index_of_draw_spec ps u : ps <> [] ->
  exists i, index_of_draw ps u = Ret i /\ (i < length ps)%nat /\
    (forall j, (j < i)%nat -> fltb u (prefix_sum ps j) = false) /\
    (fltb u (prefix_sum ps i) = true \/
     (i = length ps - 1)%nat /\ forall j, (j < length ps)%nat -> fltb u (prefix_sum ps j) = false).
Proof.
  intros Hne. unfold index_of_draw, prefix_sum. destruct ps as [|p ps]; [congruence|].
  set (l := p :: ps) in *. destruct (position_lt u (f_of_Z 0) 0 l) as [i|] eqn:E.
  - apply position_some in E. destruct E as (k & -> & Hk & H1 & H2). exists k. cbn [Nat.add].
    split; [reflexivity|]. split; [exact Hk|]. split; [exact H2|left; exact H1].
  - pose proof (position_none _ _ _ _ E) as N.
    assert (L: (0 < length l)%nat) by (cbn; lia).
    exists (Nat.pred (length l)). split; [reflexivity|]. split; [lia|].
    split; [intros; apply N; lia|]. right. split; [lia|exact N].
Qed.
End Index.

(** ** SimplexVector::new in binary64 *)
Section D.
Context (m : Libm).

Lemma b64_00 : b64 0 0 = B754_zero false.
Proof. apply B2SF_inj. vm_compute. reflexivity. Qed.

Lemma simplex_loop_ok : forall ps z, Forall valid_prob ps ->
  simplex_loop z ps = Ok (fold_left (Bplus mode_NE) ps z).
Proof.
  induction ps as [|p ps IH]; intros z H; [reflexivity|].
  inversion_clear H as [|? ? Hp Hps]. cbn [simplex_loop fold_left].
  rewrite (p_new_ok m p Hp). cbn [and_then unwrap]. apply IH, Hps.
Qed.

Lemma simplex_loop_err : forall pre x post z, Forall valid_prob pre -> ~ valid_prob x ->
  simplex_loop z (pre ++ x :: post) = Err (InvalidProbability x).
Proof.
  induction pre as [|p pre IH]; intros x post z H Hx; cbn [app simplex_loop].
  - rewrite (p_new_err m x Hx). reflexivity.
  - inversion_clear H as [|? ? Hp Hps]. rewrite (p_new_ok m p Hp). cbn [and_then]. now apply IH.
Qed.

(** the double 1e-5 *)
Definition c1e5 : f64 := Bdiv mode_NE (b64 1 0) (b64 100000 0).
Lemma c1e5_eq : c1e5 = b64 5902958103587057 (-69).
Proof. apply B2SF_inj. vm_compute. reflexivity. Qed.
Lemma RV_c1e5 : fin c1e5 /\ RV c1e5 = IZR 5902958103587057 * bpow radix2 (-69).
Proof.
  rewrite c1e5_eq.
  assert (Hf: fmt64 (IZR 5902958103587057 * bpow radix2 (-69))) by (apply fmt_scaled; lia).
  destruct (b64_spec 5902958103587057 (-69)) as [H1 H2].
  - rewrite rnd_fmt by exact Hf. rewrite Rabs_right.
    + apply Rle_lt_trans with (bpow radix2 53 * bpow radix2 (-69)).
      * apply Rmult_le_compat_r; [apply bpow_ge_0|]. change (bpow radix2 53) with (IZR (2^53)). apply IZR_le. lia.
      * rewrite <- bpow_plus. apply bpow_lt. lia.
    + apply Rle_ge, Rmult_le_pos; [apply IZR_le; lia|apply bpow_ge_0].
  - split; [exact H1|]. rewrite H2. now apply rnd_fmt.
Qed.
Lemma RV_c1e5_bounds : 1/100000 <= RV c1e5 <= 1/100000 + bpow radix2 (-69).
Proof.
  destruct RV_c1e5 as [_ ->]. change (bpow radix2 (-69)) with (/ IZR (2^69)).
  change (2^69)%Z with 590295810358705651712%Z. lra.
Qed.

(** sums of valid probabilities stay finite in [0, 2^53] *)
Lemma dsum_inv : forall ps z, Forall valid_prob ps -> fin z -> 0 <= RV z <= bpow radix2 53 ->
  fin (fold_left (Bplus mode_NE) ps z) /\ 0 <= RV (fold_left (Bplus mode_NE) ps z) <= bpow radix2 53
  /\ RV z <= RV (fold_left (Bplus mode_NE) ps z).
Proof.
  induction ps as [|p ps IH]; intros z H Fz Rz; cbn [fold_left]; [split; [exact Fz|lra]|].
  inversion_clear H as [|? ? [Fp Rp] Hps].
  assert (Up: rnd (bpow radix2 53 + 1) = bpow radix2 53).
  { assert (E: b64 (2^53+1) 0 = b64 (2^53) 0) by (apply B2SF_inj; vm_compute; reflexivity).
    destruct (b64_spec (2^53+1) 0) as [_ H2].
    - apply rnd_small. apply Rle_trans with (bpow radix2 54); [|apply bpow_le; lia].
      change (bpow radix2 0) with 1. rewrite Rmult_1_r, <- abs_IZR. change (bpow radix2 54) with (IZR (2^54)). apply IZR_le; lia.
    - rewrite E in H2. destruct (b64_int (2^53)) as [_ H3]; [lia|]. rewrite H3 in H2.
      change (bpow radix2 0) with 1 in H2. rewrite Rmult_1_r, plus_IZR in H2.
      change (IZR (2^53)) with (bpow radix2 53) in H2. symmetry; exact H2. }
  assert (Lo: RV z <= rnd (RV z + RV p)).
  { apply rnd_ge; [apply fmt_RV|]. unfold RV in *; lra. }
  assert (Hi: rnd (RV z + RV p) <= bpow radix2 53).
  { rewrite <- Up. apply rnd_le. unfold RV in *; lra. }
  destruct (add_spec z p Fz Fp) as [H1 H2].
  { rewrite Rabs_right by lra. apply Rle_lt_trans with (1 := Hi). apply bpow_lt; lia. }
  destruct (IH (Bplus mode_NE z p) Hps H1) as (A & B & C); [rewrite H2; lra|].
  split; [exact A|]. split; [exact B|]. rewrite H2 in C. lra.
Qed.

Lemma fin_zero : fin (B754_zero false). Proof. reflexivity. Qed.
Lemma dsum_fin ps : Forall valid_prob ps -> fin (dsum ps) /\ 0 <= RV (dsum ps) <= bpow radix2 53.
Proof.
  intros H. destruct (dsum_inv ps (B754_zero false) H fin_zero) as (A & B & _); [cbn; pose proof (bpow_ge_0 radix2 53); lra|].
  split; assumption.
Qed.

Lemma simplex_test ps : Forall valid_prob ps ->
  (fltb (fabs (fsub (dsum ps) (f_of_Z 1))) (fdiv (f_of_Z 1) (f_of_Z 100000)) = true
   <-> Rabs (RV (dsum ps) - 1) < RV c1e5).
Proof.
  intros H. destruct (dsum_fin ps H) as [Fz Rz].
  cbn [fltb fabs fsub fdiv f_of_Z F64Scalar]. fold c1e5.
  destruct RV_c1e5 as [Fc Vc]. destruct RV_c1e5_bounds as [Lc Uc].
  pose proof (sub_spec (dsum ps) (b64 1 0) Fz fin_b64_1) as S. rewrite RV_b64_1 in S.
  destruct S as [H1 H2].
  { apply rnd_small. apply Rabs_le. assert (bpow radix2 53 <= bpow radix2 1023) by (apply bpow_le; lia).
    assert (1 <= bpow radix2 1023) by (change 1 with (bpow radix2 0); apply bpow_le; lia). lra. }
  assert (Fabs: fin (Babs (Bminus mode_NE (dsum ps) (b64 1 0)))) by (unfold fin; rewrite is_finite_Babs; exact H1).
  rewrite (ltb_spec _ _ Fabs Fc). unfold RV at 1. rewrite B2R_Babs. fold (RV (Bminus mode_NE (dsum ps) (b64 1 0))).
  rewrite H2. pose proof (fmt_RV c1e5) as Fmt.
  split; intros L.
  - destruct (Rlt_or_le (Rabs (RV (dsum ps) - 1)) (RV c1e5)) as [A|A]; [exact A|exfalso].
    apply Rabs_def2 in L. revert A; unfold Rabs; destruct (Rcase_abs (RV (dsum ps) - 1)); intros A.
    + assert (rnd (RV (dsum ps) - 1) <= - RV c1e5) by (apply rnd_le_fmt; [now apply generic_format_opp|lra]). lra.
    + assert (RV c1e5 <= rnd (RV (dsum ps) - 1)) by (apply rnd_ge; [assumption|lra]). lra.
  - (* RV (dsum) - 1 is exact near 1: use Sterbenz *)
    apply Rabs_def2 in L.
    rewrite rnd_fmt; [apply Rabs_def1; lra|].
    apply Sterbenz.sterbenz; auto with typeclass_instances; [apply fmt_RV|apply fmt_1|].
    assert (RV c1e5 <= 1/2).
    { apply Rle_trans with (1 := Uc). change (bpow radix2 (-69)) with (/ IZR (2^69)).
      change (2^69)%Z with 590295810358705651712%Z. lra. }
    lra.
Qed.

Lemma simplex_new_valid ps : Forall valid_prob ps ->
  (Rabs (RV (dsum ps) - 1) < RV c1e5 -> simplex_new ps = Ok ps) /\
  (RV c1e5 <= Rabs (RV (dsum ps) - 1) -> simplex_new ps = Err (InvalidSimplex ps)).
Proof.
  intros H. unfold simplex_new, simplex_try_from. rewrite (simplex_loop_ok ps _ H). cbn [and_then].
  cbn [f_of_Z F64Scalar]. replace (fold_left (Bplus mode_NE) ps (b64 0 0)) with (dsum ps) by (unfold dsum; now rewrite b64_00).
  pose proof (simplex_test ps H) as T. cbn [f_of_Z F64Scalar] in T.
  split; intros C.
  - apply T in C. cbn [f_of_Z F64Scalar fltb fabs fsub fdiv] in *. now rewrite C.
  - destruct (fltb _ _) eqn:E in |- *; [|reflexivity]. apply T in E. lra.
Qed.

Lemma simplex_new_invalid pre x post : Forall valid_prob pre -> ~ valid_prob x ->
  simplex_new (pre ++ x :: post) = Err (InvalidProbability x).
Proof.
  intros H Hx. unfold simplex_new, simplex_try_from. now rewrite (simplex_loop_err pre x post _ H Hx).
Qed.

Lemma forall_valid_or ps : Forall valid_prob ps \/
  exists pre x post, ps = pre ++ x :: post /\ Forall valid_prob pre /\ ~ valid_prob x.
Proof.
  induction ps as [|p ps [IH|(pre&x&post&->&H1&H2)]].
  - left; constructor.
  - destruct (valid_dec m p) as [V|V]; [left; now constructor|].
    right; exists [], p, ps; repeat split; auto.
  - destruct (valid_dec m p) as [V|V].
    + right; exists (p::pre), x, post; repeat split; auto.
    + right; exists [], p, (pre ++ x :: post); repeat split; auto.
Qed.

Lemma simplex_new_inv ps qs : simplex_new ps = Ok qs ->
  qs = ps /\ Forall valid_prob ps /\ Rabs (RV (dsum ps) - 1) < RV c1e5.
Proof.
  intros H. destruct (forall_valid_or ps) as [V|(pre&x&post&->&V1&V2)].
  - destruct (simplex_new_valid ps V) as [A B].
    destruct (Rlt_or_le (Rabs (RV (dsum ps) - 1)) (RV c1e5)) as [L|L].
    + rewrite (A L) in H. split; [congruence|]. split; assumption.
    + rewrite (B L) in H. discriminate.
  - rewrite simplex_new_invalid in H by assumption. discriminate.
Qed.

(** half an ulp below 2 *)
Lemma rnd_err_2 r : 0 <= r -> rnd r < 2 -> Rabs (rnd r - r) <= bpow radix2 (-53).
Proof.
  intros H H2'.
  assert (H2: r < 2).
  { destruct (Rlt_or_le r 2) as [|C]; [assumption|exfalso].
    assert (2 <= rnd r) by (apply rnd_ge; [apply (fmt_IZR 2); lia|assumption]). lra. }
  destruct (Req_dec r 0) as [->|Nz].
  { rewrite rnd_0, Rminus_0_r, Rabs_R0. apply bpow_ge_0. }
  assert (L := error_le_half_ulp radix2 (SpecFloat.fexp 53 1024) (fun z => negb (Z.even z)) r).
  fold (rnd r) in L. apply Rle_trans with (1 := L).
  rewrite ulp_neq_0 by assumption. unfold cexp.
  assert (M: (mag radix2 r <= 1)%Z).
  { apply mag_le_bpow; [assumption|]. rewrite Rabs_right by lra. exact H2. }
  apply Rle_trans with (/2 * bpow radix2 (-52)).
  - apply Rmult_le_compat_l; [lra|]. apply bpow_le. unfold SpecFloat.fexp, SpecFloat.emin. lia.
  - change (/2) with (bpow radix2 (-1)). rewrite <- bpow_plus. apply Rle_refl.
Qed.

Lemma dsum_error : forall ps z, Forall valid_prob ps -> fin z -> 0 <= RV z <= bpow radix2 53 ->
  RV (fold_left (Bplus mode_NE) ps z) < 2 ->
  Rabs (RV (fold_left (Bplus mode_NE) ps z) - (RV z + rsum (map B2R ps))) <= INR (length ps) * bpow radix2 (-53).
Proof.
  induction ps as [|p ps IH]; intros z H Fz Rz L2; cbn [fold_left map rsum length].
  - replace (RV z - (RV z + 0)) with 0 by ring. rewrite Rabs_R0. cbn [INR]. lra.
  - pose proof H as Hall. inversion_clear H as [|? ? [Fp Rp] Hps].
    destruct (dsum_inv [p] z (Forall_cons _ (conj Fp Rp) (Forall_nil _)) Fz Rz) as (F1 & R1 & M1). cbn [fold_left] in *.
    destruct (dsum_inv ps _ Hps F1 R1) as (F2 & R2 & M2).
    specialize (IH (Bplus mode_NE z p) Hps F1 R1 L2).
    assert (E: RV (Bplus mode_NE z p) = rnd (RV z + RV p)).
    { apply add_spec; auto. apply rnd_small. unfold RV in *. rewrite Rabs_right by lra.
      apply Rle_trans with (bpow radix2 54); [|apply bpow_le; lia].
      change (bpow radix2 54) with (bpow radix2 (53+1)). rewrite bpow_plus. change (bpow radix2 1) with 2.
      assert (1 <= bpow radix2 53) by (change 1 with (bpow radix2 0); apply bpow_le; lia). lra. }
    assert (Er: Rabs (rnd (RV z + RV p) - (RV z + RV p)) <= bpow radix2 (-53)).
    { apply rnd_err_2; [unfold RV in *; lra|]. rewrite <- E. lra. }
    rewrite <- E in Er. rewrite S_INR. unfold RV in *.
    set (T := B2R (fold_left (Bplus mode_NE) ps (Bplus mode_NE z p))) in *.
    apply Rabs_le_inv in IH. apply Rabs_le_inv in Er. apply Rabs_le. lra.
Qed.

Lemma simplex_accepted_sum ps qs : simplex_new ps = Ok qs ->
  Rabs (rsum (map B2R ps) - 1) < 1/100000 + (INR (length ps) + 1) * bpow radix2 (-53).
Proof.
  intros H. apply simplex_new_inv in H. destruct H as (_ & V & L).
  destruct RV_c1e5_bounds as [_ Uc].
  pose proof (bpow_gt_0 radix2 (-53)). assert (bpow radix2 (-69) < bpow radix2 (-53)) by (apply bpow_lt; lia).
  assert (L2: RV (dsum ps) < 2).
  { apply Rabs_def2 in L. assert (bpow radix2 (-69) <= bpow radix2 (-1)) by (apply bpow_le; lia).
    change (bpow radix2 (-1)) with (/2) in *. lra. }
  pose proof (dsum_error ps (B754_zero false) V fin_zero) as E.
  assert (Z0: 0 <= RV (B754_zero false) <= bpow radix2 53) by (cbn; pose proof (bpow_ge_0 radix2 53); lra).
  specialize (E Z0 L2). change (RV (B754_zero false)) with 0 in E. fold (dsum ps) in E.
  apply Rabs_le_inv in E. apply Rabs_def2 in L. rewrite Rmult_plus_distr_r, Rmult_1_l.
  clear Z0 V L2. destruct E as [E1 E2], L as [L1 L3]. set (A := rsum _) in *. set (B := INR _ * _) in *. set (T := RV (dsum ps)) in *. set (c := RV c1e5) in *. set (b := bpow radix2 (-53)) in *. set (b9 := bpow radix2 (-69)) in *. clearbody A B T c b b9.
  apply Rabs_def1.
 lra. lra. 
Qed.

(** ** centre() passes the check *)
Lemma rsum_repeat x n : rsum (repeat x n) = INR n * x.
Proof. induction n as [|n IH]; [cbn; ring|]. cbn [repeat rsum]. rewrite IH, S_INR. ring. Qed.

Lemma map_repeat_ {A B} (f : A -> B) x n : map f (repeat x n) = repeat (f x) n.
Proof. induction n as [|n IH]; cbn; [reflexivity|now rewrite IH]. Qed.

Lemma centre_entry k : (1 <= k)%Z -> (k <= 2^36)%Z ->
  valid_prob (fdiv (f_of_Z 1) (f_of_Z k)) /\
  Rabs (RV (fdiv (f_of_Z 1) (f_of_Z k)) - / IZR k) <= / IZR k * bpow radix2 (-53).
Proof.
  intros H1 H2. cbn [fdiv f_of_Z F64Scalar].
  destruct (b64_int k) as [Fk Vk]; [lia|].
  assert (K1: 1 <= IZR k) by (apply IZR_le; lia).
  assert (KI: 0 < / IZR k <= 1).
  { split; [apply Rinv_0_lt_compat; lra|]. rewrite <- Rinv_1. apply Rinv_le_contravar; lra. }
  destruct (div_spec (b64 1 0) (b64 k 0) fin_b64_1) as [A B].
  - rewrite Vk; lra.
  - rewrite Vk, RV_b64_1. apply unit_small. unfold Rdiv; lra.
  - rewrite Vk, RV_b64_1 in B. unfold Rdiv in B. rewrite Rmult_1_l in B.
    split. { split; [exact A|]. fold (RV (Bdiv mode_NE (b64 1 0) (b64 k 0))). rewrite B. apply rnd_unit. lra. }
    rewrite B. unfold rnd.
    apply Rle_trans with (/2 * bpow radix2 (-53 + 1) * Rabs (/ IZR k)).
    + apply (relative_error_N_FLT radix2 (-1074) 53 eq_refl (fun z => negb (Z.even z))).
      rewrite Rabs_right by lra. apply Rle_trans with (/ IZR (2^36)).
      * change (/ IZR (2^36)) with (bpow radix2 (-36)). apply bpow_le; lia.
      * apply Rinv_le_contravar; [lra|]. apply IZR_le; lia.
    + rewrite Rabs_right by lra. rewrite bpow_plus. change (bpow radix2 1) with 2. lra.
Qed.

(** partial sums of the repeated entry *)
Lemma centre_partial p k n z : valid_prob p -> (1 <= k)%Z -> (k <= 2^36)%Z ->
  fin z -> 0 <= RV z <= bpow radix2 53 ->
  RV z + INR n * (RV p + bpow radix2 (-53)) <= 3/2 ->
  RV (fold_left (Bplus mode_NE) (repeat p n) z) <= RV z + INR n * (RV p + bpow radix2 (-53)).
Proof.
  intros Vp Hk1 Hk2. revert z. induction n as [|n IH]; intros z Fz Rz L; cbn [repeat fold_left].
  - cbn [INR]; lra.
  - rewrite S_INR in L |- *. destruct Vp as [Fp Rp].
    destruct (dsum_inv [p] z (Forall_cons _ (conj Fp Rp) (Forall_nil _)) Fz Rz) as (F1 & R1 & M1). cbn [fold_left] in *.
    pose proof (bpow_gt_0 radix2 (-53)) as Pb. pose proof (pos_INR n) as Pn.
    assert (Pm: 0 <= INR n * (RV p + bpow radix2 (-53))) by (apply Rmult_le_pos; [assumption|unfold RV; lra]).
    assert (E: RV (Bplus mode_NE z p) = rnd (RV z + RV p)).
    { apply add_spec; auto. apply rnd_small, small_le. unfold RV in *. rewrite Rabs_right by lra. lra. }
    assert (Er: Rabs (rnd (RV z + RV p) - (RV z + RV p)) <= bpow radix2 (-53)).
    { apply rnd_err_2; [unfold RV in *; lra|].
      apply Rle_lt_trans with (3/2); [|lra]. apply rnd_le_fmt.
      - replace (3/2) with (IZR 3 * bpow radix2 (-1)) by (cbn; lra). apply fmt_scaled; lia.
      - lra. }
    rewrite <- E in Er. apply Rabs_le_inv in Er.
    specialize (IH (Bplus mode_NE z p) F1 R1). 
    eapply Rle_trans; [apply IH; lra|]. lra.
Qed.

Lemma centre_accepted k : (1 <= k)%nat -> (Z.of_nat k <= 2^36)%Z ->
  simplex_new (F := f64) (simplex_centre k) = Ok (simplex_centre k).
Proof.
  intros H1 H2. unfold simplex_centre.
  destruct (centre_entry (Z.of_nat k)) as [V E]; [lia|exact H2|].
  set (p := fdiv (f_of_Z 1) (f_of_Z (Z.of_nat k))) in *.
  assert (Vall: Forall valid_prob (repeat p k)).
  { apply Forall_forall. intros x Hx. apply repeat_spec in Hx. now subst x. }
  change (simplex_new (repeat p k) = Ok (repeat p k)). apply (proj1 (simplex_new_valid _ Vall)).
  destruct RV_c1e5_bounds as [Lc _].
  rewrite <- INR_IZR_INZ in E.
  assert (K: 1 <= INR k) by (apply (le_INR 1); exact H1).
  assert (K36: INR k <= bpow radix2 36).
  { rewrite INR_IZR_INZ. change (bpow radix2 36) with (IZR (2^36)). now apply IZR_le. }
  assert (Ek: Rabs (INR k * RV p - 1) <= bpow radix2 (-53)).
  { replace (INR k * RV p - 1) with (INR k * (RV p - / INR k)) by (field; lra).
    rewrite Rabs_mult, (Rabs_right (INR k)) by lra.
    apply Rle_trans with (INR k * (/ INR k * bpow radix2 (-53))).
    - apply Rmult_le_compat_l; [lra|exact E].
    - rewrite <- Rmult_assoc, Rinv_r by lra. lra. }
  assert (Kb: INR k * bpow radix2 (-53) <= bpow radix2 (-17)).
  { replace (bpow radix2 (-17)) with (bpow radix2 36 * bpow radix2 (-53)) by (rewrite <- bpow_plus; reflexivity).
    apply Rmult_le_compat_r; [apply bpow_ge_0|exact K36]. }
  assert (B17: bpow radix2 (-17) = /131072) by reflexivity.
  assert (B53: bpow radix2 (-53) = /9007199254740992) by reflexivity.
  assert (Z0: 0 <= RV (B754_zero false) <= bpow radix2 53) by (cbn; pose proof (bpow_ge_0 radix2 53); lra).
  apply Rabs_le_inv in Ek.
  assert (L2: RV (dsum (repeat p k)) < 2).
  { pose proof (centre_partial p (Z.of_nat k) k (B754_zero false) V ltac:(lia) H2 fin_zero Z0) as CP.
    change (RV (B754_zero false)) with 0 in CP. unfold dsum.
    eapply Rle_lt_trans; [apply CP; lra|]. lra. }
  pose proof (dsum_error (repeat p k) (B754_zero false) Vall fin_zero Z0 L2) as DE.
  fold (dsum (repeat p k)) in DE. change (RV (B754_zero false)) with 0 in DE.
  rewrite repeat_length, map_repeat_, rsum_repeat in DE. fold (RV p) in DE.
  apply Rabs_le_inv in DE. eapply Rlt_le_trans; [|exact Lc].
  apply Rabs_def1; lra.
Qed.
End D.

(** ** Exact arithmetic *)
Section X.

Definition xs (l : list R) : list xreal := map Fin l.

Lemma fold_fadd_fin : forall l a, fold_left fadd (xs l) (Fin a) = Fin (a + rsum l).
Proof.
  induction l as [|x l IH]; intros a; cbn [xs map fold_left rsum]; [f_equal; ring|].
  rewrite x_add. unfold xs in IH. rewrite IH. f_equal; ring.
Qed.
Lemma firstn_xs n l : firstn n (xs l) = xs (firstn n l).
Proof. unfold xs. apply firstn_map. Qed.
Lemma prefix_sum_fin l i : prefix_sum (xs l) i = Fin (rsum (firstn (S i) l)).
Proof. unfold prefix_sum. rewrite firstn_xs, x_lit, fold_fadd_fin. f_equal; ring. Qed.

Lemma rsum_firstn_S l : forall i, Forall (fun p => 0 <= p) l -> rsum (firstn i l) <= rsum (firstn (S i) l).
Proof.
  induction l as [|x l IH]; intros i H; [rewrite !firstn_nil; lra|].
  inversion_clear H as [|? ? Hx Hl]. destruct i as [|i]; [cbn; lra|].
  change (x + rsum (firstn i l) <= x + rsum (firstn (S i) l)). specialize (IH i Hl). lra.
Qed.
Lemma rsum_firstn_mono l i j : Forall (fun p => 0 <= p) l -> (i <= j)%nat -> rsum (firstn i l) <= rsum (firstn j l).
Proof.
  intros H Hij. induction Hij as [|j Hij IH]; [lra|]. eapply Rle_trans; [exact IH|]. now apply rsum_firstn_S.
Qed.
Lemma rsum_firstn_nth l : forall i, (i < length l)%nat -> rsum (firstn (S i) l) = rsum (firstn i l) + nth i l 0.
Proof.
  induction l as [|x l IH]; intros i Hi; [cbn in Hi; lia|]. destruct i as [|i]; [cbn; ring|].
  cbn [length] in Hi. cbn [nth]. change (x + rsum (firstn (S i) l) = x + rsum (firstn i l) + nth i l 0).
  rewrite IH by lia. ring.
Qed.

Lemma index_interval l u i : Forall (fun p => 0 <= p) l -> rsum l = 1 -> 0 <= u < 1 -> (i < length l)%nat ->
  (index_of_draw (xs l) (Fin u) = Ret i <-> rsum (firstn i l) <= u < rsum (firstn (S i) l)).
Proof.
  intros Hp Hs Hu Hi.
  assert (Hne: xs l <> []) by (destruct l; [cbn in Hi; lia|discriminate]).
  destruct (index_of_draw_spec (xs l) (Fin u) Hne) as (k & Ek & Hk & Hlt & Hge).
  assert (Len: length (xs l) = length l) by apply map_length.
  rewrite Len in *.
  assert (Lk: rsum (firstn k l) <= u).
  { destruct k as [|k]; [cbn; lra|]. specialize (Hlt k ltac:(lia)). rewrite prefix_sum_fin, x_ltb in Hlt.
    destruct (Rltb_spec u (rsum (firstn (S k) l))); [discriminate|lra]. }
  assert (Uk: u < rsum (firstn (S k) l)).
  { destruct Hge as [Hge|[-> Hall]].
    - rewrite prefix_sum_fin, x_ltb in Hge. destruct (Rltb_spec u (rsum (firstn (S k) l))); [lra|discriminate].
    - rewrite firstn_all2 by lia. lra. }
  rewrite Ek. split.
  - intros H; injection H as <-. split; assumption.
  - intros [A B]. f_equal.
    destruct (Nat.lt_trichotomy k i) as [C|[C|C]]; [|exact C|]; exfalso.
    + pose proof (rsum_firstn_mono l (S k) i Hp C). lra.
    + pose proof (rsum_firstn_mono l (S i) k Hp C). lra.
Qed.

Lemma index_nonzero l u i : Forall (fun p => 0 <= p) l -> rsum l = 1 -> 0 <= u < 1 ->
  index_of_draw (xs l) (Fin u) = Ret i -> (i < length l)%nat /\ 0 < nth i l 0.
Proof.
  intros Hp Hs Hu H.
  assert (Hne: xs l <> []) by (destruct l; [cbn in Hs; lra|discriminate]).
  destruct (index_of_draw_spec (xs l) (Fin u) Hne) as (k & Ek & Hk & _).
  rewrite Ek in H; injection H as ->. unfold xs in Hk; rewrite map_length in Hk.
  split; [exact Hk|]. apply (index_interval l u i) in Ek; auto.
  rewrite rsum_firstn_nth in Ek by assumption. lra.
Qed.

(** SimplexVector::sample *)
Context {S : Type} {RG : Rng S xreal}.
Context (draw01 : forall s, exists d, fst (draw_uniform_inclusive (Fin 0) (Fin 1) s) = Fin d /\ 0 < d < 1).

Lemma draw01' s : exists d s', draw_uniform_inclusive (f_of_Z 0) (fadd (f_of_Z 0) (f_of_Z 1)) s = (Fin d, s') /\ 0 < d < 1.
Proof.
  replace (fadd (f_of_Z 0) (f_of_Z 1)) with (Fin 1) by (rewrite !x_lit, x_add; f_equal; ring).
  rewrite x_lit. destruct (draw01 s) as (d & E & H). destruct (draw_uniform_inclusive (Fin 0) (Fin 1) s) as [a s'].
  cbn in E; subst a. eauto.
Qed.

Lemma sx_draws_spec : forall n sum s, exists sum' ps s',
  sx_draws n (Fin sum) s = ((Fin sum', xs ps), s') /\ length ps = n /\ Forall (fun p => 0 < p) ps /\
  sum <= sum' /\ (n <> 0%nat -> sum < sum').
Proof.
  induction n as [|n IH]; intros sum s; cbn [sx_draws].
  - exists sum, [], s. repeat split; auto; lra || lia.
  - destruct (draw01' s) as (d & s' & -> & Hd).
    rewrite x_add. destruct (IH (sum + d) s') as (sum' & ps & s2 & -> & Hl & Hf & Hle & _).
    exists sum', (- ln d :: ps), s2. rewrite x_ln, x_neg by lra.
    split; [reflexivity|]. split; [cbn; lia|]. split.
    + constructor; [|exact Hf]. assert (ln d < ln 1) by (apply ln_increasing; lra). rewrite ln_1 in *; lra.
    + lra.
Qed.

Lemma fsum_fin l : fsum (xs l) = Fin (rsum l).
Proof. unfold fsum. rewrite x_lit, fold_fadd_fin. f_equal; ring. Qed.

Lemma simplex_sample_spec k s : (1 <= k)%nat ->
  exists ps s', simplex_sample k s = Ret (xs ps, s') /\ length ps = k /\ rsum ps = 1 /\ Forall (fun p => 0 < p) (tl ps).
Proof.
  intros Hk. unfold simplex_sample. rewrite x_lit.
  destruct (sx_draws_spec (k - 1) 0 s) as (sum & ps & s' & -> & Hl & Hf & Hle & Hlt).
  destruct k as [|k]; [lia|].
  assert (E: sx_tail (Fin sum) (xs ps) = xs (map (fun p => p / sum) ps)).
  { unfold sx_tail, xs. rewrite !map_map. destruct ps as [|p ps]; [reflexivity|].
    assert (0 < sum) by (apply Hlt; cbn in Hl; lia).
    apply map_ext. intros a. apply x_div. lra. }
  rewrite E, fsum_fin, x_lit, x_sub.
  exists ((1 - rsum (map (fun p => p / sum) ps)) :: map (fun p => p / sum) ps), s'.
  split; [reflexivity|]. split; [cbn; rewrite map_length; lia|]. split; [cbn; ring|].
  cbn [tl]. destruct ps as [|p ps]; [constructor|].
  assert (0 < sum) by (apply Hlt; cbn in Hl; lia).
  apply Forall_forall. intros x Hx. apply in_map_iff in Hx. destruct Hx as (y & <- & Hy).
  rewrite Forall_forall in Hf. apply Rdiv_lt_0_compat; auto.
Qed.
End X.

Lemma centre_exact k : (1 <= k)%nat ->
  simplex_centre k = xs (repeat (/ INR k) k) /\ rsum (repeat (/ INR k) k) = 1.
Proof.
  intros H. assert (1 <= INR k) by (apply (le_INR 1); exact H). split.
  - unfold simplex_centre, xs. rewrite map_repeat_. f_equal. rewrite !x_lit, x_div.
    + f_equal. rewrite <- INR_IZR_INZ. unfold Rdiv; ring.
    + rewrite <- INR_IZR_INZ; lra.
  - rewrite rsum_repeat. field. lra.
Qed.
