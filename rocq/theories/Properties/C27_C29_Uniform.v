(** * Properties C27 (Uniform<f64>::cdf in double arithmetic), C28, C29 (Uniform<i64>) *)
From Coq Require Import Reals Lra Lia Psatz ZArith List.
From Coquelicot Require Import Coquelicot.
From Flocq Require Import Core IEEE754.BinarySingleNaN.
From Verif.Num Require Import Scalar XReal F64.
From Verif.Model Require Import Rust Constraints Probability Params Consts Continuous.
From Verif.Spec Require Import ProbSpec DiscreteSpec.
From Verif.Proofs Require Import XTac UniformF64 DiscProofs1.
Open Scope R_scope.

(** C27: finite bounds, the upper bound and the reciprocal of the width are
    finite, and the width is at most 2^1022 (so that 1/width is a normal
    number): for every double x except NaN the cdf is a valid probability, and
    it is monotone. *)
Theorem C27_uniform_cdf_f64_partial (m : Libm) (lb w : f64) (d : UniformF.t f64) :
  UniformF.new lb w = Ok d ->
  is_finite lb = true -> is_finite w = true ->
  is_finite (Bplus mode_NE lb w) = true -> is_finite (Bdiv mode_NE (b64 1 0) w) = true ->
  B2R w <= bpow radix2 1022 ->
  forall x, is_nan x = false ->
    valid_prob (unwrap (UniformF.cdf d x)) /\
    forall y, is_nan y = false -> Bleb x y = true ->
      Bleb (unwrap (UniformF.cdf d x)) (unwrap (UniformF.cdf d y)) = true.
Proof.
  intros H H1 H2 H3 H4 H5 x Hx.
  assert (Hd : d = UniformF.new_unchecked lb w /\ 0 < RV w).
  { revert H. unfold UniformF.new, UniformF.params_new, loc_new, scale_new. cbn [and_then map_ok check].
    unfold check_default; cbn [is_satisfied_by]. unfold pltb, POrd_scalar, pzero.
    destruct (fltb (f_of_Z 0) w) eqn:E; cbn [and_then map_ok]; [|discriminate]. intros H; injection H as <-. split; [reflexivity|].
    apply (proj1 (ltb_spec _ _ fin_b64_0 H2)) in E. rewrite RV_b64_0 in E. exact E. }
  destruct Hd as [-> Hw]. split; [now apply cdf_valid64|]. intros y Hy Hxy. now apply cdf_mono64.
Qed.
Print Assumptions C27_uniform_cdf_f64_partial.
(** without the bound on the width: a "probability" above one *)
Theorem C27_wide_refuted (m : Libm) :
  exists (w x : f64) (d : UniformF.t f64),
    UniformF.new (b64 0 0) w = Ok d /\
    is_finite w = true /\ is_finite x = true /\ is_finite (Bplus mode_NE (b64 0 0) w) = true /\ is_finite (Bdiv mode_NE (b64 1 0) w) = true /\
    Bltb (b64 1 0) (unwrap (UniformF.cdf d x)) = true.
Proof.
  exists (b64 7193873855419776 971), (b64 7193873855419775 971), (UniformF.new_unchecked (b64 0 0) (b64 7193873855419776 971)).
  split; [|split; [vm_compute; reflexivity|split; [vm_compute; reflexivity|split; [vm_compute; reflexivity|split; [vm_compute; reflexivity|]]]]].
  - unfold UniformF.new, UniformF.params_new, loc_new, scale_new. cbn [and_then map_ok check].
    unfold check_default; cbn [is_satisfied_by]. unfold pltb, POrd_scalar, pzero.
    replace (fltb (f_of_Z 0) (b64 7193873855419776 971)) with true by (vm_compute; reflexivity). reflexivity.
  - rewrite cdf_shape.
    replace (Bltb (b64 7193873855419775 971) (b64 0 0)) with false by (vm_compute; reflexivity).
    replace (Bleb (Bplus mode_NE (b64 0 0) (b64 7193873855419776 971)) (b64 7193873855419775 971)) with false by (vm_compute; reflexivity).
    cbn [unwrap]. vm_compute. reflexivity.
Qed.
Print Assumptions C27_wide_refuted.
Example C27_nonvacuous (m : Libm) : exists d, UniformF.new (b64 (-3) 0) (b64 7 0) = Ok d /\
  is_finite (Bplus mode_NE (b64 (-3) 0) (b64 7 0)) = true /\ is_finite (Bdiv mode_NE (b64 1 0) (b64 7 0)) = true /\ B2R (b64 7 0) <= bpow radix2 1022.
Proof.
  eexists. split; [|split; [vm_compute; reflexivity|split; [vm_compute; reflexivity|]]].
  - unfold UniformF.new, UniformF.params_new, loc_new, scale_new. cbn [and_then map_ok check].
    unfold check_default; cbn [is_satisfied_by]. unfold pltb, POrd_scalar, pzero.
    replace (fltb (f_of_Z 0) (b64 7 0)) with true by (vm_compute; reflexivity). reflexivity.
  - destruct (b64_int 7 ltac:(lia)) as [_ E]. unfold RV in E. rewrite E. apply Rle_trans with (bpow radix2 3); [cbn; lra|apply bpow_le; lia].
Qed.

(** the values computed by a method that may panic (no value counts as NaN) *)
Definition got (r : res (Probability xreal)) : xreal := match r with Ret p => unwrap p | _ => NaN end.

(** C28: every i64 lower bound, every u64 width accepted, as long as the upper
    bound is an i64 *)
Theorem C28_uniform_i64 (l w : Z) (d : UniformI.t xreal) :
  (I64_MIN <= l)%Z -> (0 <= w < 2 ^ 64)%Z -> (l + w <= I64_MAX)%Z ->
  UniformI.new l w = Ret (Ok d) ->
  let u := (l + w)%Z in
  let pmf := fun k => got (UniformI.pmf d k) in
  let cdf := fun k => got (UniformI.cdf d k) in
  (0 < w)%Z /\
  UniformI.support d = Ret (Closed l u) /\
  UniformI.span d = Ret (Z.of_nat (npoints l u)) /\
  is_pmf l u pmf /\ (forall k, (k < l \/ u < k)%Z -> pmf k = Fin 0) /\
  is_dcdf l u pmf cdf /\ (forall k, (k < l)%Z -> cdf k = Fin 0) /\ (forall k, (u <= k)%Z -> cdf k = Fin 1) /\
  (exists m v, UniformI.mean d = Fin m /\ UniformI.variance d = Ret (Fin v) /\ is_dvariance l u pmf m v) /\
  (exists s, UniformI.skewness d = Fin s /\ is_dskewness l u pmf s) /\
  (exists k, UniformI.excess_kurtosis d = Ret (Fin k) /\ is_dkurtosis l u pmf (k + 3)) /\
  (exists h, UniformI.shannon_entropy d = Ret (Fin h) /\ is_dentropy l u pmf h).
Proof.
  intros Hl Hw Hu H u pmf cdf.
  assert (Hw' : (0 < w < I64_MAX)%Z /\ d = ui_d l w).
  { destruct (Z_lt_le_dec I64_MAX w) as [Hb|Hb]; [unfold I64_MIN, I64_MAX in *; exfalso; revert H|].
    - unfold UniformI.new, UniformI.params_new, loc_new, scale_new. cbn [and_then map_ok check].
      unfold check_default; cbn [is_satisfied_by]. cbn [pltb POrd_Z pzero].
      unfold as_i64, wrap_signed. change (2 ^ 64)%Z with 18446744073709551616%Z in *. change (2 ^ (64 - 1))%Z with 9223372036854775808%Z.
      rewrite Z.mod_small by lia. destruct (Z.ltb_spec w 9223372036854775808); [lia|].
      destruct (Z.ltb_spec 0 (w - 18446744073709551616)); [lia|]. cbn [and_then]. discriminate.
    - assert (0 < w < I64_MAX)%Z.
      { revert H. unfold UniformI.new, UniformI.params_new, loc_new, scale_new. cbn [and_then map_ok check].
        unfold check_default; cbn [is_satisfied_by]. cbn [pltb POrd_Z pzero]. rewrite as_i64_id by lia.
        destruct (Z.ltb_spec 0 w); cbn [and_then]; [|discriminate]. unfold UniformI.from; cbn [UniformI.width].
        destruct (Z.eq_dec w I64_MAX) as [Ew|]; [|lia]. unfold i64, checked. destruct (Z.leb_spec (w + 1) I64_MAX); [lia|]. rewrite Bool.andb_false_r. discriminate. }
      split; [auto|]. rewrite ui_new in H by lia. congruence. }
  destruct Hw' as [[Hw1 Hw2] ->].
  split; [auto|]. split; [now apply ui_support|]. split; [unfold u; rewrite ui_np by auto; now apply ui_span|].
  split; [now apply ui_is_pmf|]. split; [intros k Hk; unfold pmf; rewrite ui_pmf_out by auto; reflexivity|].
  split; [now apply ui_dcdf|].
  split; [intros k Hk; unfold cdf; rewrite (proj1 (ui_cdf_out l w Hw1 Hl Hu k)) by auto; reflexivity|].
  split; [intros k Hk; unfold cdf; rewrite (proj2 (ui_cdf_out l w Hw1 Hl Hu k)) by auto; reflexivity|].
  split; [do 2 eexists; split; [apply ui_mean; auto|apply ui_variance; auto]|].
  split; [exists 0; split; [reflexivity|now apply ui_skew]|].
  split; [eexists; apply ui_kurt; auto|]. eexists; apply ui_entropy; auto.
Qed.
Print Assumptions C28_uniform_i64.
Example C28_nonvacuous : exists d, UniformI.new (F := xreal) (-2) 5 = Ret (Ok d).
Proof. eexists. apply ui_new; unfold I64_MIN, I64_MAX; lia. Qed.

(** C29: for p < 1 the result is a support point and it is the least one whose
    cdf exceeds p (strictly) ... *)
Theorem C29_quantile_partial (l w : Z) (p : R) :
  (I64_MIN <= l)%Z -> (0 < w < I64_MAX)%Z -> (l + w <= I64_MAX)%Z -> 0 <= p < 1 ->
  exists d q, UniformI.new l w = Ret (Ok d) /\ UniformI.quantile d (Prob (Fin p)) = Ret (Fin (IZR q)) /\
    (l <= q <= l + w)%Z /\
    forall k, (l <= k <= l + w)%Z -> ((q <= k)%Z <-> p < zf (fun k => got (UniformI.cdf d k)) k).
Proof.
  intros Hl [Hw1 Hw2] Hu Hp. exists (ui_d l w). eexists. split; [apply ui_new; auto|].
  split; [apply ui_quantile; auto|]. split; [now apply ui_q_range|]. intros k Hk. now apply ui_q_least.
Qed.
Print Assumptions C29_quantile_partial.
(** ... but not the documented inverse: at p = 1 it is outside the support, and
    at p = 1/2 on {0, 1} it returns 1 although cdf(0) = 1/2. *)
Theorem C29_quantile_refuted :
  (forall l w, (I64_MIN <= l)%Z -> (0 < w < I64_MAX)%Z -> (l + w <= I64_MAX)%Z ->
     exists d, UniformI.new l w = Ret (Ok d) /\ UniformI.quantile d (Prob (Fin 1)) = Ret (Fin (IZR (l + w + 1)))) /\
  (exists d, UniformI.new 0 1 = Ret (Ok d) /\ UniformI.quantile d (Prob (Fin (1 / 2))) = Ret (Fin 1) /\
     UniformI.cdf d 0 = Ret (Prob (Fin (1 / 2)))).
Proof.
  split.
  - intros l w Hl [Hw1 Hw2] Hu. exists (ui_d l w). split; [apply ui_new; auto|].
    rewrite ui_quantile by auto. rewrite Rmult_1_l, Raux.Zfloor_IZR. do 3 f_equal. lia.
  - exists (ui_d 0 1). split; [apply ui_new; unfold I64_MIN, I64_MAX; lia|]. split.
    + rewrite ui_quantile by (unfold I64_MIN, I64_MAX; lia). replace (1 / 2 * IZR (1 + 1)) with (IZR 1) by (cbn; lra). now rewrite Raux.Zfloor_IZR.
    + rewrite ui_cdf by (unfold I64_MIN, I64_MAX; lia). reflexivity.
Qed.
Print Assumptions C29_quantile_refuted.
