(** * Uniform<i64> *)
From Coq Require Import Reals Lra Lia Psatz ZArith.
From Coquelicot Require Import Coquelicot.
From Flocq Require Import Core.Raux.
From Verif.Num Require Import XReal.
From Verif.Model Require Import Rust Constraints Probability Params Consts Continuous.
From Verif.Spec Require Import DiscreteSpec.
From Verif.Proofs Require Import XTac.
Open Scope R_scope.

Lemma zsum_ext f g lo n : (forall k, (lo <= k < lo + Z.of_nat n)%Z -> f k = g k) -> zsum f lo n = zsum g lo n.
Proof.
  revert lo; induction n as [|n IH]; intros lo H; cbn [zsum]; [reflexivity|].
  rewrite H by lia. rewrite IH; [reflexivity|]. intros k Hk. apply H. lia.
Qed.
Lemma zsum_last f lo n : zsum f lo (S n) = zsum f lo n + f (lo + Z.of_nat n)%Z.
Proof.
  revert lo; induction n as [|n IH]; intros lo.
  - cbn. rewrite Z.add_0_r. ring.
  - change (zsum f lo (S (S n))) with (f lo + zsum f (lo + 1) (S n)). rewrite IH. cbn [zsum].
    replace (lo + 1 + Z.of_nat n)%Z with (lo + Z.of_nat (S n))%Z by lia. ring.
Qed.
Lemma zsum_plus f g lo n : zsum (fun k => f k + g k) lo n = zsum f lo n + zsum g lo n.
Proof. revert lo; induction n as [|n IH]; intros lo; cbn [zsum]; [ring|]. rewrite IH. ring. Qed.
Lemma zsum_scal c f lo n : zsum (fun k => c * f k) lo n = c * zsum f lo n.
Proof. revert lo; induction n as [|n IH]; intros lo; cbn [zsum]; [ring|]. rewrite IH. ring. Qed.
Lemma zsum_const c lo n : zsum (fun _ => c) lo n = INR n * c.
Proof. revert lo; induction n as [|n IH]; intros lo; [cbn; ring|]. cbn [zsum]. rewrite IH, S_INR. ring. Qed.
(** closed forms by induction on the number of points *)
Lemma zsum_closed (f : Z -> R) (lo : Z) (P : R -> R) :
  P 0 = 0 -> (forall n : nat, P (INR n + 1) = P (INR n) + f (lo + Z.of_nat n)%Z) -> forall n, zsum f lo n = P (INR n).
Proof.
  intros H0 Hs n; induction n as [|n IH]; [cbn; now rewrite H0|]. rewrite zsum_last, IH, S_INR. symmetry. apply Hs.
Qed.

Section UI.
Import UniformI.
Context (l w : Z) (Hw : (0 < w)%Z) (Hw' : (w < I64_MAX)%Z) (Hl : (I64_MIN <= l)%Z) (Hu : (l + w <= I64_MAX)%Z).
Notation n := (IZR (w + 1)).
Definition ui_d : t xreal := mk (mkP l w) (Fin (1 / n)).
Notation d := ui_d.
Notation pmfx := (fun k => match pmf d k with Ret p => unwrap p | _ => NaN end).
Notation cdfx := (fun k => match cdf d k with Ret p => unwrap p | _ => NaN end).
Lemma ui_n : 2 <= n. Proof. apply (IZR_le 2). lia. Qed.
Lemma i64_ok z : (I64_MIN <= z <= I64_MAX)%Z -> i64 z = Ret z.
Proof. intros H. unfold i64, checked. destruct (Z.leb_spec I64_MIN z), (Z.leb_spec z I64_MAX); try lia. reflexivity. Qed.
Lemma as_i64_id z : (0 <= z <= I64_MAX)%Z -> as_i64 z = z.
Proof.
  intros H. unfold as_i64, wrap_signed. unfold I64_MAX in *. change (2 ^ 64)%Z with 18446744073709551616%Z. change (2 ^ (64 - 1))%Z with 9223372036854775808%Z.
  rewrite Z.mod_small by lia. destruct (Z.ltb_spec z 9223372036854775808); lia.
Qed.
Lemma ui_new : new l w = Ret (Ok d).
Proof.
  unfold new, params_new, loc_new, scale_new. cbn [and_then map_ok check].
  rewrite as_i64_id by lia.
  unfold check_default; cbn [is_satisfied_by]. cbn [pltb POrd_Z pzero]. replace (Z.ltb 0 w) with true by (symmetry; apply Z.ltb_lt; lia).
  cbn [and_then]. unfold from. cbn [width]. rewrite i64_ok by (unfold I64_MIN, I64_MAX in *; lia). cbn [rbind].
 xs. generalize ui_n; intros. xs. reflexivity.
Qed.
Lemma ui_ub : ub d = Ret (l + w)%Z.
Proof. unfold ub; cbn [pr lb width ui_d]. apply i64_ok. unfold I64_MIN, I64_MAX in *; lia. Qed.
Lemma ui_span : span d = Ret (w + 1)%Z.
Proof.
  unfold span; cbn [pr lb width ui_d]. rewrite i64_ok by (unfold I64_MIN, I64_MAX in *; lia). cbn [rbind].
  unfold as_u64. rewrite Z.mod_small; [reflexivity|]. unfold I64_MAX in *. change (2 ^ 64)%Z with 18446744073709551616%Z. lia.
Qed.
Lemma ui_support : support d = Ret (Closed l (l + w)%Z).
Proof. unfold support. rewrite ui_ub. reflexivity. Qed.
Lemma ui_pmf k : (l <= k <= l + w)%Z -> pmf d k = Ret (Prob (Fin (1 / n))).
Proof.
  intros H. unfold pmf. rewrite ui_ub. cbn [rbind pr lb ui_d prob].
  destruct (Z.ltb_spec k l), (Z.ltb_spec (l + w) k); try lia. reflexivity.
Qed.
Lemma ui_pmf_out k : (k < l \/ l + w < k)%Z -> pmf d k = Ret (Prob (Fin 0)).
Proof.
  intros H. unfold pmf. rewrite ui_ub. cbn [rbind pr lb ui_d prob].
  destruct (Z.ltb_spec k l), (Z.ltb_spec (l + w) k); try lia; reflexivity.
Qed.
Lemma ui_zf k : (l <= k <= l + w)%Z -> zf pmfx k = 1 / n.
Proof. intros H. unfold zf. rewrite ui_pmf by auto. reflexivity. Qed.
Lemma ui_np : Z.of_nat (npoints l (l + w)) = (w + 1)%Z.
Proof. unfold npoints. lia. Qed.
Lemma ui_npR : INR (npoints l (l + w)) = n.
Proof. rewrite INR_IZR_INZ, ui_np. reflexivity. Qed.
Lemma ui_expect g (P : R -> R) : P 0 = 0 -> (forall i : nat, P (INR i + 1) = P (INR i) + g (l + Z.of_nat i)%Z) ->
  is_expect l (l + w) pmfx g (P n / n).
Proof.
  intros H0 Hs. unfold is_expect.
  rewrite (zsum_ext _ (fun k => 1 / n * g k)).
  - rewrite zsum_scal, (zsum_closed g l P H0 Hs), ui_npR. generalize ui_n; intros. field. lra.
  - intros k Hk. rewrite ui_np in Hk. rewrite ui_zf by lia. ring.
Qed.
Lemma expect_eq lo hi p g a b : is_expect lo hi p g a -> a = b -> is_expect lo hi p g b.
Proof. now intros H <-. Qed.
Lemma ui_is_pmf : is_pmf l (l + w) pmfx.
Proof.
  generalize ui_n; intros Hn. split.
  - intros k Hk. rewrite ui_pmf by auto. cbn [unwrap]. eexists; split; [reflexivity|].
    assert (0 < 1 / n) by pos. split; [lra|]. apply Rmult_le_reg_r with n; [lra|]. replace (1 / n * n) with 1 by (field; lra). lra.
  - eapply expect_eq; [apply (ui_expect _ (fun x => x)); intros; ring|]. field. lra.
Qed.
Lemma ui_cdf k : (l <= k <= l + w)%Z -> cdf d k = Ret (Prob (Fin (IZR (k - l + 1) / n))).
Proof.
  intros H. unfold cdf. rewrite ui_ub. cbn [rbind pr lb ui_d prob]. generalize ui_n; intros Hn.
  destruct (Z.ltb_spec k l); [lia|]. destruct (Z.leb_spec (l + w) k).
  - replace (k - l + 1)%Z with (w + 1)%Z by lia. unfold p_one. rewrite x_lit. do 3 f_equal. field. lra.
  - rewrite i64_ok by (unfold I64_MIN, I64_MAX in *; lia). cbn [rbind]. rewrite i64_ok by (unfold I64_MIN, I64_MAX in *; lia). cbn [rbind].
    xs. do 3 f_equal. field. lra.
Qed.
Lemma ui_cdf_out k : ((k < l)%Z -> cdf d k = Ret (Prob (Fin 0))) /\ ((l + w <= k)%Z -> cdf d k = Ret (Prob (Fin 1))).
Proof.
  unfold cdf. rewrite ui_ub. cbn [rbind pr lb ui_d prob].
  split; intros H; destruct (Z.ltb_spec k l); try lia; [reflexivity|]. destruct (Z.leb_spec (l + w) k); [reflexivity|lia].
Qed.
Lemma ui_dcdf : is_dcdf l (l + w) pmfx cdfx.
Proof.
  intros k Hk. rewrite ui_cdf by auto. cbn [unwrap]. f_equal.
  rewrite (zsum_ext _ (fun _ => 1 / n)).
  - rewrite zsum_const. unfold npoints. rewrite INR_IZR_INZ, Z2Nat.id by lia. generalize ui_n; intros. field. lra.
  - intros j Hj. apply ui_zf. unfold npoints in Hj. lia.
Qed.
Lemma ui_zI i : IZR (l + Z.of_nat i) = IZR l + INR i.
Proof. rewrite plus_IZR, <- INR_IZR_INZ. reflexivity. Qed.
Lemma ui_wn : IZR w = n - 1. Proof. rewrite plus_IZR. lra. Qed.
Lemma ui_mean : mean d = Fin (IZR l + IZR w / 2) /\ is_dmean l (l + w) pmfx (IZR l + IZR w / 2).
Proof.
  generalize ui_n; intros Hn. split. { unfold mean; cbn [pr lb width ui_d]. now xs. }
  eapply expect_eq; [apply (ui_expect _ (fun x => x * IZR l + x * (x - 1) / 2))|].
  - field. - intros i. rewrite ui_zI. field. - rewrite ui_wn. field. lra.
Qed.
Definition ui_var := (n * n - 1) / 12.
Lemma ui_variance : variance d = Ret (Fin ui_var) /\ is_dvariance l (l + w) pmfx (IZR l + IZR w / 2) ui_var.
Proof.
  generalize ui_n; intros Hn. split. { unfold variance. rewrite ui_span. cbn [rbind]. now xs. }
  split; [apply ui_mean|].
  eapply expect_eq; [apply (ui_expect _ (fun x => let c := IZR w / 2 in x * c * c - c * x * (x - 1) + x * (x - 1) * (2 * x - 1) / 6))|].
  - cbv zeta. field. - intros i. rewrite ui_zI. cbv zeta. field. - cbv zeta. rewrite ui_wn. unfold ui_var. field. lra.
Qed.
Lemma ui_var_pos : 0 < ui_var.
Proof. generalize ui_n; intros Hn. unfold ui_var. apply Rdiv_lt_0_compat; [nra|lra]. Qed.
Lemma ui_skew : is_dskewness l (l + w) pmfx 0.
Proof.
  generalize ui_n; intros Hn. eexists _, _. split; [apply ui_variance|]. split; [apply ui_var_pos|].
  eapply expect_eq; [apply (ui_expect _ (fun x => let c := IZR w / 2 in x * (x - 1) / 2 * (x * (x - 1) / 2) - 3 * c * (x * (x - 1) * (2 * x - 1) / 6) + 3 * c * c * (x * (x - 1) / 2) - x * c * c * c))|].
  - cbv zeta. field. - intros i. rewrite ui_zI. cbv zeta. field. - cbv zeta. rewrite ui_wn. field. lra.
Qed.
Lemma ui_kurt : excess_kurtosis d = Ret (Fin (- (6 / 5) * (n * n + 1) / (n * n - 1))) /\
  is_dkurtosis l (l + w) pmfx (- (6 / 5) * (n * n + 1) / (n * n - 1) + 3).
Proof.
  generalize ui_n; intros Hn. assert (0 < n * n - 1) by nra.
  split. { unfold excess_kurtosis, SIX_FIFTHS. rewrite ui_span. cbn [rbind]. now xs. }
  eexists _, _. split; [apply ui_variance|]. split; [apply ui_var_pos|].
  eapply expect_eq; [apply (ui_expect _ (fun x => let c := IZR w / 2 in
     x * (x - 1) * (2 * x - 1) * (3 * (x - 1) * (x - 1) + 3 * (x - 1) - 1) / 30
     - 4 * c * (x * (x - 1) / 2 * (x * (x - 1) / 2)) + 6 * c * c * (x * (x - 1) * (2 * x - 1) / 6) - 4 * c * c * c * (x * (x - 1) / 2) + x * c * c * c * c))|].
  - cbv zeta. field. - intros i. rewrite ui_zI. cbv zeta. field. - cbv zeta. rewrite ui_wn. unfold ui_var. field. lra.
Qed.
Lemma ui_entropy : shannon_entropy d = Ret (Fin (ln n)) /\ is_dentropy l (l + w) pmfx (ln n).
Proof.
  generalize ui_n; intros Hn. split.
  { unfold shannon_entropy. cbn [pr width ui_d]. rewrite i64_ok by (unfold I64_MIN, I64_MAX in *; lia). cbn [rbind]. now xs. }
  unfold is_dentropy. rewrite (zsum_ext _ (fun _ => 1 / n * ln n)).
  - rewrite zsum_const, ui_npR. field. lra.
  - intros k Hk. rewrite ui_np in Hk. rewrite ui_zf by lia. unfold Rdiv. rewrite Rmult_1_l, ln_Rinv by lra. ring.
Qed.
(** quantile *)
Lemma ui_quantile p : quantile d (Prob (Fin p)) = Ret (Fin (IZR (l + Zfloor (p * n)))).
Proof. unfold quantile, p_mul_f. rewrite ui_span. cbn [rbind unwrap pr lb ui_d]. xs. now rewrite (plus_IZR l). Qed.
Lemma ui_q_range p : 0 <= p < 1 -> (l <= l + Zfloor (p * n) <= l + w)%Z.
Proof.
  intros Hp. generalize ui_n; intros Hn. assert (0 <= p * n) by pos. assert (p * n < n) by nra.
  assert (0 <= Zfloor (p * n))%Z by (apply Zfloor_lub; auto).
  assert (Zfloor (p * n) < w + 1)%Z by (apply lt_IZR; generalize (Zfloor_lb (p * n)); lra). lia.
Qed.
(** it is the least support point whose cdf exceeds p *)
Lemma ui_q_least p k : 0 <= p < 1 -> (l <= k <= l + w)%Z ->
  ((l + Zfloor (p * n) <= k)%Z <-> p < zf cdfx k).
Proof.
  intros Hp Hk. generalize ui_n; intros Hn. unfold zf. rewrite ui_cdf by auto. cbn [unwrap val].
  assert (E : p < IZR (k - l + 1) / n <-> p * n < IZR (k - l + 1)).
  { split; intros H.
    - apply Rmult_lt_compat_r with (r := n) in H; [|lra]. replace (IZR (k - l + 1) / n * n) with (IZR (k - l + 1)) in H by (field; lra). auto.
    - apply Rmult_lt_reg_r with n; [lra|]. replace (IZR (k - l + 1) / n * n) with (IZR (k - l + 1)) by (field; lra). auto. }
  rewrite E. split; intros H.
  - apply Rlt_le_trans with (1 := Zfloor_ub (p * n)). rewrite <- (plus_IZR _ 1). apply IZR_le. lia.
  - assert (Zfloor (p * n) < k - l + 1)%Z by (apply lt_IZR; generalize (Zfloor_lb (p * n)); lra). lia.
Qed.
End UI.
