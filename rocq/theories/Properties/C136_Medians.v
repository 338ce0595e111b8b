(** * Property C136: medians of the integer Uniform, Chi and chi squared *)
From Coq Require Import Reals Lra Lia Psatz List ZArith.
From Coquelicot Require Import Coquelicot.
From Verif.Num Require Import XReal.
From Verif.Model Require Import Rust Constraints Probability Params Consts Traits LogFact Continuous Continuous3.
From Verif.Spec Require Import DistSpec GammaSpec ResSpec DiscreteSpec.
From Verif.Proofs Require Import ConstraintProofs NewInv XTac Calc Calc2 Improper GammaFun Subst Mellin HeavyTail Unique Oracle
  ContProofs28 ContProofs11 ContProofs12 ContProofs13 ContProofs14 ContProofs16 DiscProofs1 DiscProofs2 DiscProofs7.
From Verif.Properties Require Import C27_C29_Uniform.
Import ListNotations.
Open Scope R_scope.

Lemma zsum_app f lo a b : zsum f lo (a + b) = zsum f lo a + zsum f (lo + Z.of_nat a) b.
Proof.
  revert lo. induction a as [|a IH]; intros lo; cbn [Nat.add zsum]; [rewrite Z.add_0_r; lra|]. rewrite IH. rewrite Nat2Z.inj_succ. replace (lo + 1 + Z.of_nat a)%Z with (lo + Z.succ (Z.of_nat a))%Z by lia. lra.
Qed.
Lemma zsum_nonneg f lo n : (forall k, (lo <= k < lo + Z.of_nat n)%Z -> 0 <= f k) -> 0 <= zsum f lo n.
Proof. revert lo. induction n as [|n IH]; intros lo H; cbn [zsum]; [lra|]. assert (A := H lo ltac:(lia)). assert (B := IH (lo + 1)%Z ltac:(intros; apply H; lia)). lra. Qed.
Lemma ui_inv l w d : (I64_MIN <= l)%Z -> (0 <= w < 2 ^ 64)%Z -> (l + w <= I64_MAX)%Z -> UniformI.new l w = Ret (Ok d) -> (0 < w < I64_MAX)%Z /\ d = ui_d l w.
Proof.
  intros Hl Hw Hu H. destruct (Z_lt_le_dec I64_MAX w) as [Hb|Hb]; [unfold I64_MIN, I64_MAX in *; exfalso; revert H|].
    - unfold UniformI.new, UniformI.params_new, loc_new, scale_new. cbn [and_then map_ok check].
      unfold check_default; cbn [is_satisfied_by]. cbn [pltb POrd_Z pzero].
      unfold as_i64, wrap_signed. change (2 ^ 64)%Z with 18446744073709551616%Z in *. change (2 ^ (64 - 1))%Z with 9223372036854775808%Z.
      rewrite Z.mod_small by lia. destruct (Z.ltb_spec w 9223372036854775808); [lia|].
      destruct (Z.ltb_spec 0 (w - 18446744073709551616)); [lia|]. cbn [and_then]. discriminate.
    - assert (0 < w < I64_MAX)%Z.
      { revert H. unfold UniformI.new, UniformI.params_new, loc_new, scale_new. cbn [and_then map_ok check].
        unfold check_default; cbn [is_satisfied_by]. cbn [pltb POrd_Z pzero]. rewrite as_i64_id by lia.
        destruct (Z.ltb_spec 0 w); cbn [and_then]; [|discriminate]. unfold UniformI.from; cbn [UniformI.width].
        destruct (Z.eq_dec w I64_MAX) as [Ew|]; [|lia]. unfold i64, checked. destruct (Z.leb_spec (w + 1) I64_MAX); [lia|]. rewrite Bool.andb_false_r. discriminate. }
      split; [auto|]. rewrite ui_new in H by lia. congruence.
Qed.
Theorem C136_uniform_i64 (l w : Z) (d : UniformI.t xreal) :
  (I64_MIN <= l)%Z -> (0 <= w < 2 ^ 64)%Z -> (l + w <= I64_MAX)%Z -> UniformI.new l w = Ret (Ok d) ->
  returns (UniformI.median d) (is_dmedian l (l + w) (fun k => got (UniformI.pmf d k))).
Proof.
  intros Hl Hw Hu H. destruct (ui_inv l w d Hl Hw Hu H) as [[Hw1 Hw2] ->]. exists (IZR l + IZR w / 2). split; [apply (ui_mean l w); auto|].
  assert (N2 := ui_n w Hw1). assert (NP : npoints l (l + w) = (Z.to_nat (w / 2 + 1) + Z.to_nat (w - w / 2))%nat).
  { unfold npoints. assert (0 <= w / 2)%Z by (apply Z.div_pos; lia). assert (w / 2 <= w)%Z by (apply Z.div_le_upper_bound; lia). lia. }
  assert (D0 : (0 <= w / 2)%Z) by (apply Z.div_pos; lia). assert (D1 := Z.div_mod w 2 ltac:(lia)). assert (D2 := Z.mod_pos_bound w 2 ltac:(lia)).
  assert (C : forall k, (l <= k <= l + w)%Z -> zf (fun k => got (UniformI.pmf (ui_d l w) k)) k = 1 / IZR (w + 1)).
  { intros k Hk. exact (ui_zf l w Hw1 Hl Hu k Hk). }
  assert (P : 0 < 1 / IZR (w + 1)) by (apply Rdiv_lt_0_compat; lra).
  assert (HALF : forall n : Z, (w + 1 <= 2 * n)%Z -> 1 / 2 <= IZR n * (1 / IZR (w + 1))).
  { intros n Hn. apply IZR_le in Hn. rewrite mult_IZR in Hn. apply Rmult_le_reg_r with (IZR (w + 1)); [lra|]. replace (IZR n * (1 / IZR (w + 1)) * IZR (w + 1)) with (IZR n) by (field; lra). lra. }
  split.
  - rewrite NP, zsum_app. rewrite (zsum_ext _ (fun _ => 1 / IZR (w + 1)) l (Z.to_nat (w / 2 + 1))).
    + rewrite zsum_const. assert (T : 0 <= zsum (fun k => if Rle_dec (IZR k) (IZR l + IZR w / 2) then zf (fun k => got (UniformI.pmf (ui_d l w) k)) k else 0) (l + Z.of_nat (Z.to_nat (w / 2 + 1))) (Z.to_nat (w - w / 2))).
      { apply zsum_nonneg. intros k Hk. destruct (Rle_dec _ _); [|apply Rle_refl]. rewrite C by lia. now left. }
      assert (G := HALF (w / 2 + 1)%Z ltac:(lia)). rewrite INR_IZR_INZ, Z2Nat.id by lia. apply Rle_trans with (1 / 2 + 0); [right; ring|]. apply Rplus_le_compat; [exact G|rewrite Z2Nat.id in T by lia; exact T].
    + intros k Hk. rewrite Z2Nat.id in Hk by lia. rewrite C by lia. destruct (Rle_dec _ _) as [_|B]; [reflexivity|]. exfalso. apply B.
      assert (K : (2 * k <= 2 * l + w)%Z) by lia. apply IZR_le in K. rewrite plus_IZR, !mult_IZR in K. lra.
  - assert (NP' : npoints l (l + w) = (Z.to_nat (w - w / 2) + Z.to_nat (w / 2 + 1))%nat) by (rewrite NP; lia).
    rewrite NP', zsum_app. rewrite (zsum_ext _ (fun _ => 1 / IZR (w + 1)) _ (Z.to_nat (w / 2 + 1))).
    + rewrite zsum_const. assert (T : 0 <= zsum (fun k => if Rle_dec (IZR l + IZR w / 2) (IZR k) then zf (fun k => got (UniformI.pmf (ui_d l w) k)) k else 0) l (Z.to_nat (w - w / 2))).
      { apply zsum_nonneg. intros k Hk. destruct (Rle_dec _ _); [|apply Rle_refl]. rewrite C by lia. now left. }
      assert (G := HALF (w / 2 + 1)%Z ltac:(lia)). rewrite INR_IZR_INZ, Z2Nat.id by lia. apply Rle_trans with (0 + 1 / 2); [right; ring|]. apply Rplus_le_compat; [exact T|exact G].
    + intros k Hk. rewrite !Z2Nat.id in Hk by lia. rewrite C by lia. destruct (Rle_dec _ _) as [_|B]; [reflexivity|]. exfalso. apply B.
      assert (K : (2 * l + w <= 2 * k)%Z) by lia. apply IZR_le in K. rewrite plus_IZR, !mult_IZR in K. lra.
Qed.
Print Assumptions C136_uniform_i64.
Example C136_uniform_nonvacuous : exists d, UniformI.new (F := xreal) (-2) 5 = Ret (Ok d). Proof. exact C28_nonvacuous. Qed.

(** Chi squared and Chi: the Wilson-Hilferty value, between k - 2/3 and k but not the median *)
Lemma wh_val k : 0 < k -> k * (1 - 2 / 9 / k) ^ 3 = k - 2 / 3 + 4 / 27 / k - 8 / 729 / (k * k).
Proof. intros H. field. lra. Qed.
Lemma wh_bounds k : 1 <= k -> k - 2 / 3 < k * (1 - 2 / 9 / k) ^ 3 < k.
Proof.
  intros H. rewrite wh_val by lra. assert (I : 0 < / k) by (apply Rinv_0_lt_compat; lra). assert (I1 : / k <= 1) by (apply Rle_trans with (/ 1); [apply Rinv_le_contravar; lra|rewrite Rinv_1; lra]).
  unfold Rdiv. rewrite Rinv_mult. set (t := / k) in *. nra.
Qed.
Theorem C136_chi_squared_partial (SP : Special xreal) (k : Z) (d : ChiSq.t) : ChiSq.new (F := xreal) k = Ok d ->
  returns (ChiSq.median d) (fun m => IZR k - 2 / 3 < m < IZR k) /\ returns (Chi.median (Chi.new_unchecked k)) (fun m => IZR k - 2 / 3 < m * m < IZR k /\ 0 < m).
Proof.
  intros H. unfold ChiSq.new in H. inv_new H. change (ChiSq.mk _) with (ChiSq.new_unchecked k). assert (K : 1 <= IZR k) by (apply IZR_le; lia). assert (B := wh_bounds _ K). split.
  - exists (IZR k * (1 - 2 / 9 / IZR k) ^ 3). split; [|exact B]. unfold ChiSq.median, ChiSq.kf. cbn [ChiSq.pr ChiSq.k ChiSq.new_unchecked]. xs. rewrite powi3. xs. reflexivity.
  - exists (sqrt (IZR k * (1 - 2 / 9 / IZR k) ^ 3)). split.
    + unfold Chi.median, Chi.kf. cbn [Chi.pr Chi.k Chi.new_unchecked]. xs. rewrite powi3. xs. reflexivity.
    + rewrite sqrt_sqrt by lra. split; [exact B|apply sqrt_lt_R0; lra].
Qed.
Print Assumptions C136_chi_squared_partial.
Lemma lim0 (G : R -> R) : continuous G 0 -> G 0 = 0 -> filterlim G (above 0) (locally 0).
Proof. intros C E. rewrite <- E at 2. eapply filterlim_filter_le_1; [|exact C]. apply filter_le_within. Qed.
Theorem C136_chi_squared_refuted (SP : Special xreal) : gamma_exact SP -> exists d : ChiSq.t, ChiSq.new (F := xreal) 2 = Ok d /\
  returns (ChiSq.median d) (fun m => forall cdf, coherent 0 p_infty cdf (ChiSq.pdf d) -> ~ is_median cdf m).
Proof.
  intros Hg. exists (ChiSq.new_unchecked 2). split; [unfold ChiSq.new; etransitivity; [ok_new|reflexivity]|].
  exists (2 * (1 - 2 / 9 / 2) ^ 3). split; [unfold ChiSq.median, ChiSq.kf; cbn [ChiSq.pr ChiSq.k ChiSq.new_unchecked]; xs; rewrite powi3; xs; reflexivity|]. set (m := 2 * (1 - 2 / 9 / 2) ^ 3).
  intros cdf Hc Hm. assert (E : cdf (Fin m) = Fin (1 - exp (- (m / 2)))).
  { apply (cdf_is 0 p_infty cdf (ChiSq.pdf (ChiSq.new_unchecked 2)) (fun x => 1 - exp (- (x / 2))) Hc).
    - intros x Hx. unfold rf. rewrite (cs_pdf Hg 2 ltac:(lia) x Hx). cbn [val]. apply in0f in Hx. unfold ga_u. replace (2 / 2) with 1 by field. rewrite Gam_1. replace (1 - 1) with 0 by ring. rewrite Rpower_O, Rpower_1 by lra.
      auto_derive; [exact I|]. rewrite (Rmult_comm (/ 2) x). field.
    - apply lim0; [|replace (- (0 / 2)) with 0 by field; rewrite exp_0; ring]. apply (ex_derive_continuous (fun x => 1 - exp (- (x / 2)))). auto_derive. exact I.
    - apply in0. unfold m. lra. }
  rewrite Hm in E. apply Fin_inj in E. assert (L := ln2_exp' (m / 2)). assert (ln 2 < m / 2) by (assert (U := ln2_ub); unfold m; lra). specialize (L H). lra.
Qed.
Print Assumptions C136_chi_squared_refuted.
Theorem C136_chi_refuted (SP : Special xreal) : gamma_exact SP -> exists d : Chi.t, Chi.new (F := xreal) 2 = Ok d /\
  returns (Chi.median d) (fun m => forall cdf, coherent 0 p_infty cdf (Chi.pdf d) -> ~ is_median cdf m).
Proof.
  intros Hg. exists (Chi.new_unchecked 2). split; [unfold Chi.new; etransitivity; [ok_new|reflexivity]|].
  exists (sqrt (2 * (1 - 2 / 9 / 2) ^ 3)). assert (P0 : 0 <= 2 * (1 - 2 / 9 / 2) ^ 3) by lra. split; [unfold Chi.median, Chi.kf; cbn [Chi.pr Chi.k Chi.new_unchecked]; xs; rewrite powi3; xs; reflexivity|]. set (q := 2 * (1 - 2 / 9 / 2) ^ 3) in *. set (m := sqrt q).
  assert (Pm : 0 < m) by (apply sqrt_lt_R0; unfold q; lra).
  intros cdf Hc Hm. assert (E : cdf (Fin m) = Fin (1 - exp (- (m * m / 2)))).
  { apply (cdf_is 0 p_infty cdf (Chi.pdf (Chi.new_unchecked 2)) (fun x => 1 - exp (- (x * x / 2))) Hc).
    - intros x Hx. unfold rf. rewrite (ch_pdf Hg 2 ltac:(lia) x Hx). cbn [val]. apply in0f in Hx. unfold chi_u, chi_c. replace (2 / 2) with 1 by field. rewrite Gam_1. replace (1 - 1) with 0 by ring. replace (2 - 1) with 1 by ring. rewrite Rpower_O, Rpower_1 by lra.
      auto_derive; [exact I|]. unfold Rdiv. set (e := exp (- (x * x * / 2))). field.
    - apply lim0; [|replace (- (0 * 0 / 2)) with 0 by field; rewrite exp_0; ring]. apply (ex_derive_continuous (fun x => 1 - exp (- (x * x / 2)))). auto_derive. exact I.
    - apply in0. exact Pm. }
  rewrite Hm in E. apply Fin_inj in E. unfold m in E. rewrite sqrt_sqrt in E by exact P0. assert (L := ln2_exp' (q / 2)). assert (ln 2 < q / 2) by (assert (U := ln2_ub); unfold q; lra). specialize (L H). lra.
Qed.
Print Assumptions C136_chi_refuted.
Example C136_nonvacuous : gamma_exact (exact false) /\ gammainc_lower (exact false) /\ (forall d, ChiSq.new (F := xreal) 2 = Ok d -> coherent 0 p_infty (fun x => unwrap (ChiSq.cdf (SP := exact false) d x)) (ChiSq.pdf (SP := exact false) d)).
Proof.
  split; [apply ex_gamma|]. split; [apply ex_gil|]. intros d H. unfold ChiSq.new in H. inv_new H. change (ChiSq.mk _) with (ChiSq.new_unchecked 2). apply cs_coherent; [apply ex_gamma|lia|apply ex_gil].
Qed.
