(** * C168: a mixture is as accurate as its components *)
From Coq Require Import Reals Lra Lia Psatz List ZArith Bool.
From Flocq Require Import Core IEEE754.BinarySingleNaN.
From Verif.Num Require Import Scalar F64.
From Verif.Model Require Import Rust Constraints Probability Params Consts Continuous2 Mixture.
From Verif.Spec Require Import ParamSpec ProbSpec LibmSpec AccuracySpec.
From Verif.Proofs Require Import ConstraintProofs NewInv ProbProofs SimplexProofs F64Order LibmInst F64Cdf F64Pdf F64Acc ExpAcc.
From Verif.Properties Require Import C135_F64Pdf C152_F64Variance C161_F64Mixture C163_F64Accuracy C164_F64Densities C167_F64Discrete.
Import ListNotations.
Open Scope R_scope.

(** the weighted sum of real numbers *)
Definition weighted (ws : list f64) (rs : list R) : R := fold_right Rplus 0 (map (fun '(w, r) => B2R w * r) (combine ws rs)).
(** reals between 2^-300 and 2^300 *)
Definition middling (r : R) : Prop := bpow radix2 (-300) <= r <= bpow radix2 300.

Lemma near_plus n m x y r s : near n x r -> near m y s -> 0 <= r -> 0 <= s -> bpow radix2 (-900) <= r + s <= bpow radix2 900 -> (Nat.max n m <= 900)%nat -> near (S (Nat.max n m)) (Bplus mode_NE x y) (r + s).
Proof.
  intros (Fx & A1 & A2) (Fy & B1 & B2) Pr Ps B H. destruct (V_plus x y Fx Fy) as [N E]. assert (Qn := pow_pos n). assert (Qm := pow_pos m).
  assert (X0 : 0 <= RV x) by (apply Rle_trans with (2 := A1); apply Rmult_le_pos; lra). assert (Y0 : 0 <= RV y) by (apply Rle_trans with (2 := B1); apply Rmult_le_pos; lra).
  assert (Q := pow_max n m). assert (Q' := pow_max m n). rewrite Nat.max_comm in Q'.
  assert (W : acc (S (Nat.max n m)) (-900) 900 (Bplus mode_NE x y) (r + s)).
  { apply (acc_of (Nat.max n m) _ (-900) 900 _ (RV x + RV y) (r + s) N E); auto; try lia.
    - assert ((1 - u53) ^ Nat.max n m * r <= (1 - u53) ^ n * r) by (apply Rmult_le_compat_r; lra). assert ((1 - u53) ^ Nat.max n m * s <= (1 - u53) ^ m * s) by (apply Rmult_le_compat_r; lra). lra.
    - assert ((1 - u53) ^ Nat.max n m * RV x <= (1 - u53) ^ n * RV x) by (apply Rmult_le_compat_r; lra). assert ((1 - u53) ^ Nat.max n m * RV y <= (1 - u53) ^ m * RV y) by (apply Rmult_le_compat_r; lra). lra. }
  destruct W as (W1 & _ & W2). split; assumption.
Qed.
Lemma near_more n n' x r : near n x r -> 0 <= r -> (n <= n')%nat -> near n' x r.
Proof.
  intros (F & A1 & A2) P L. assert (Qn := pow_pos n). assert (X0 : 0 <= RV x) by (apply Rle_trans with (2 := A1); apply Rmult_le_pos; lra). assert (Q := pow_max n n'). rewrite Nat.max_r in Q by exact L. split; [exact F|]. split.
  - apply Rle_trans with (2 := A1). apply Rmult_le_compat_r; lra.
  - apply Rle_trans with (2 := A2). apply Rmult_le_compat_r; lra.
Qed.
Lemma within_acc k v r : within k v r -> middling r -> (k <= 300)%nat -> acc (2 * k + 1) (-300) 300 v r.
Proof. intros [F D] B K. assert (P := bpow_gt_0 radix2 (-300)). assert (R0 : 0 < r) by (destruct B; lra). apply units_acc; auto. change (RV v) with (B2R v). rewrite (Rabs_pos_eq r) in D by lra. exact D. Qed.
(** the running sum *)
Lemma wfold_near N : forall ws vs rs a (j q : nat) s, Forall2 (fun v r => acc q (-300) 300 v r) vs rs -> Forall moderate ws -> near (S q + j) a s -> 0 <= s <= INR j * bpow radix2 410 -> length vs = length ws ->
  (j + length ws <= N)%nat -> (N <= 256)%nat -> (q <= 602)%nat -> near (S q + (j + length ws)) (wfold a ws vs) (s + weighted ws rs) /\ 0 <= weighted ws rs.
Proof.
  induction ws as [|w ws IH]; intros vs rs a j q s HV HW HA HS HL HN N256 Hq.
  - destruct vs; [|discriminate]. inversion HV; subst. cbn [wfold length weighted combine map fold_right]. unfold weighted. cbn [combine map fold_right]. rewrite Rplus_0_r, Nat.add_0_r. split; [exact HA|lra].
  - destruct vs as [|v vs]; [discriminate|]. inversion HV as [|? r ? rs0 Hv HV']; subst. inversion_clear HW as [|? ? Hw HW']. cbn [wfold]. assert (Aw := mod_acc w Hw). assert (Pw := acc_pos _ _ _ _ _ Aw). assert (Pv := acc_pos _ _ _ _ _ Hv).
    assert (AP := acc_mult 0 q (S q) _ _ _ _ _ _ _ _ Aw Hv eq_refl ltac:(lia) ltac:(lia) ltac:(lia)). set (p := Bmult mode_NE w v) in *. set (t := RV w * r) in *. assert (T0 : 0 < t) by (apply Rmult_lt_0_compat; lra).
    destruct AP as (P1 & [P2 P3] & P4). assert (NP : near (S q) p t) by (split; assumption). assert (B4 : t <= bpow radix2 410) by (apply Rle_trans with (1 := P3); apply bpow_le; lia). assert (B9 : bpow radix2 (-900) <= t) by (apply Rle_trans with (2 := P2); apply bpow_le; lia).
    assert (IJ := pos_INR j). assert (J8 : INR j <= bpow radix2 8) by (change (bpow radix2 8) with 256; replace 256 with (INR 256) by (rewrite INR_IZR_INZ; reflexivity); apply le_INR; cbn [length] in HN; lia). assert (B0 := bpow_gt_0 radix2 410).
    assert (U : s + t <= INR (S j) * bpow radix2 410) by (rewrite S_INR, Rmult_plus_distr_r; lra). assert (J9 : INR (S j) <= bpow radix2 9) by (rewrite S_INR; change (bpow radix2 9) with 512; change (bpow radix2 8) with 256 in J8; lra).
    assert (UU : INR (S j) * bpow radix2 410 <= bpow radix2 900) by (apply Rle_trans with (bpow radix2 9 * bpow radix2 410); [apply Rmult_le_compat_r; lra|rewrite <- bpow_plus; apply bpow_le; lia]).
    assert (NS := near_plus _ _ _ _ _ _ HA NP (proj1 HS) (Rlt_le _ _ T0) ltac:(lra) ltac:(cbn [length] in HN; lia)). replace (S (Nat.max (S q + j) (S q))) with (S q + S j)%nat in NS by lia.
    cbn [length] in *. assert (HL' : length vs = length ws) by congruence. destruct (IH vs rs0 _ (S j) q (s + t) HV' HW' NS ltac:(split; lra) HL' ltac:(lia) N256 Hq) as [G1 G2].
    assert (EW : weighted (w :: ws) (r :: rs0) = t + weighted ws rs0) by reflexivity. rewrite EW. split; [|lra]. replace (s + (t + weighted ws rs0)) with (s + t + weighted ws rs0) by ring. replace (j + S (length ws))%nat with (S j + length ws)%nat by lia. exact G1.
Qed.
Lemma weighted_bounds ws : forall rs, Forall moderate ws -> Forall middling rs -> length rs = length ws -> ws <> [] -> bpow radix2 (-400) <= weighted ws rs <= INR (length ws) * bpow radix2 400.
Proof.
  induction ws as [|w ws IH]; intros rs HW HR HL NE; [congruence|]. destruct rs as [|r rs]; [discriminate|]. inversion_clear HW as [|? ? Hw HW']. inversion_clear HR as [|? ? Hr HR']. assert (EW : weighted (w :: ws) (r :: rs) = RV w * r + weighted ws rs) by reflexivity. rewrite EW.
  assert (Aw := mod_acc w Hw). destruct Aw as (_ & [W1 W2] & _). destruct Hr as [R1 R2]. assert (P1 := bpow_gt_0 radix2 (-100)). assert (P2 := bpow_gt_0 radix2 (-300)). assert (P4 := bpow_gt_0 radix2 400).
  assert (T1 : bpow radix2 (-400) <= RV w * r) by (change (-400)%Z with (-100 + -300)%Z; rewrite bpow_plus; apply Rmult_le_compat; lra). assert (T2 : RV w * r <= bpow radix2 400) by (change 400%Z with (100 + 300)%Z; rewrite bpow_plus; apply Rmult_le_compat; lra).
  cbn [length] in *. rewrite S_INR. destruct ws as [|w' ws].
  - destruct rs; [|discriminate]. unfold weighted. cbn [combine map fold_right length]. change (INR 0) with 0. lra.
  - assert (G := IH rs HW' HR' ltac:(congruence) ltac:(congruence)). assert (P3 := bpow_gt_0 radix2 (-400)). lra.
Qed.
Lemma wfold_within k ws vs rs : (k <= 300)%nat -> (1 <= length ws <= 256)%nat -> length vs = length ws -> Forall moderate ws -> Forall2 (fun v r => within k v r /\ middling r) vs rs -> within (2 * k + 2 + length ws) (wfold zero64 ws vs) (weighted ws rs).
Proof.
  intros K [N1 N2] HL HW HV. assert (HA : Forall2 (fun v r => acc (2 * k + 1) (-300) 300 v r) vs rs) by (clear -HV K; induction HV as [|v r vs rs [A B] HV IH]; constructor; [now apply within_acc|exact IH]).
  assert (HM : Forall middling rs) by (clear -HV; induction HV as [|v r vs rs [A B] HV IH]; constructor; auto). assert (LR : length rs = length ws) by (rewrite <- HL; clear -HV; induction HV; cbn [length]; congruence).
  assert (N0 : near (S (2 * k + 1) + 0) zero64 0) by (split; [reflexivity|change (RV zero64) with 0; rewrite !Rmult_0_r; lra]).
  destruct (wfold_near 256 ws vs rs zero64 0 (2 * k + 1) 0 HA HW N0 ltac:(change (INR 0) with 0; lra) HL ltac:(lia) ltac:(lia) ltac:(lia)) as [G _]. rewrite Rplus_0_l in G. cbn [Nat.add] in G.
  assert (NEQ : ws <> []) by (intros ->; cbn [length] in N1; lia). assert (WB := weighted_bounds ws rs HW HM LR NEQ).
  assert (A : acc (S (2 * k + 1) + length ws) (-400) 500 (wfold zero64 ws vs) (weighted ws rs)).
  { destruct G as (G1 & G2). split; [exact G1|]. split; [|exact G2]. split; [apply WB|]. apply Rle_trans with (1 := proj2 WB). apply Rle_trans with (bpow radix2 8 * bpow radix2 400); [|rewrite <- bpow_plus; apply bpow_le; lia]. apply Rmult_le_compat_r; [apply bpow_ge_0|]. change (bpow radix2 8) with 256. replace 256 with (INR 256) by (rewrite INR_IZR_INZ; reflexivity). now apply le_INR. }
  eapply wi; [exact A|reflexivity|lia|lia].
Qed.

Section Mixtures.
Context (m : Libm) {S C CP Sp X : Type} {K : Component f64 S C CP Sp X}.
Variables (ws : list f64) (cs : list C).
(** densities, distribution functions and means: within 2k + 2 + n when each of the n components is within k *)
Theorem C168_pdf (x : X) (k : nat) (v : C -> f64) (r : C -> R) d : Mixture.new ws cs = Ret (Ok d) -> (k <= 300)%nat -> (1 <= length ws <= 256)%nat -> Forall moderate ws ->
  Forall (fun c => c_pdf c x = Ret (v c) /\ within k (v c) (r c) /\ middling (r c)) cs -> exists w, Mixture.pdf d x = Ret w /\ within (2 * k + 2 + length ws) w (weighted ws (map r cs)).
Proof.
  intros H K3 HL HM HF. destruct (mixture_new_inv m ws cs d H) as (L & _ & _ & E1 & E2). exists (wfold zero64 ws (map v cs)). split.
  - unfold Mixture.pdf. rewrite E1, E2. apply weighted_sum_val. eapply Forall_impl; [|exact HF]. intros c [A _]. exact A.
  - apply wfold_within; auto; [rewrite map_length; exact L|]. clear -HF. induction HF as [|c cs (_ & A & B) HF IH]; constructor; auto.
Qed.
Theorem C168_cdf (x : X) (k : nat) (v : C -> f64) (r : C -> R) d : Mixture.new ws cs = Ret (Ok d) -> (k <= 300)%nat -> (1 <= length ws <= 256)%nat -> Forall moderate ws ->
  Forall (fun c => c_cdf c x = Ret (Prob (v c)) /\ within k (v c) (r c) /\ middling (r c)) cs -> exists w, Mixture.cdf d x = Ret (Prob w) /\ within (2 * k + 2 + length ws) w (weighted ws (map r cs)).
Proof.
  intros H K3 HL HM HF. destruct (mixture_new_inv m ws cs d H) as (L & _ & _ & E1 & E2). exists (wfold zero64 ws (map v cs)). split.
  - unfold Mixture.cdf. rewrite E1, E2. erewrite weighted_sum_val; [reflexivity|]. eapply Forall_impl; [|exact HF]. intros c [A _]. cbv beta. rewrite A. reflexivity.
  - apply wfold_within; auto; [rewrite map_length; exact L|]. clear -HF. induction HF as [|c cs (_ & A & B) HF IH]; constructor; auto.
Qed.
Theorem C168_mean (k : nat) (v : C -> f64) (r : C -> R) d : Mixture.new ws cs = Ret (Ok d) -> (k <= 300)%nat -> (1 <= length ws <= 256)%nat -> Forall moderate ws ->
  Forall (fun c => c_mean c = Ret (v c) /\ within k (v c) (r c) /\ middling (r c)) cs -> exists w, Mixture.mean d = Ret w /\ within (2 * k + 2 + length ws) w (weighted ws (map r cs)).
Proof.
  intros H K3 HL HM HF. destruct (mixture_new_inv m ws cs d H) as (L & _ & _ & E1 & E2). exists (wfold zero64 ws (map v cs)). split.
  - unfold Mixture.mean. rewrite E1, E2. apply weighted_sum_val. eapply Forall_impl; [|exact HF]. intros c [A _]. exact A.
  - apply wfold_within; auto; [rewrite map_length; exact L|]. clear -HF. induction HF as [|c cs (_ & A & B) HF IH]; constructor; auto.
Qed.
End Mixtures.
Print Assumptions C168_pdf.
Print Assumptions C168_cdf.
Print Assumptions C168_mean.

(** ** Non-vacuity: two components, weights 1 and 2^-20 (accepted), exact components *)
Example C168_nonvacuous (m : Libm) {S : Type} : let K := step_component (S := S) m in let ws := [one64; b64 1 (-20)] in let cs := [zero64; one64] in
  (exists d, Mixture.new ws cs = Ret (Ok d)) /\ (1 <= length ws <= 256)%nat /\ Forall moderate ws /\
  Forall (fun c => c_pdf c one64 = Ret one64 /\ within 0 one64 1 /\ middling 1) cs /\ Forall (fun c => c_cdf c one64 = Ret (Prob one64) /\ within 0 one64 1 /\ middling 1) cs /\
  (exists d, Mixture.new ws [one64; one64] = Ret (Ok d)) /\ Forall (fun c => c_mean c = Ret one64 /\ within 0 one64 1 /\ middling 1) [one64; one64].
Proof.
  cbv zeta. assert (W : within 0 one64 1) by (split; [reflexivity|change (B2R one64) with (RV one64); rewrite RV_one, Rminus_diag_eq, Rabs_R0 by reflexivity; change (INR 0) with 0; lra]).
  assert (M : middling 1) by (split; change 1 with (bpow radix2 0); apply bpow_le; lia).
  assert (NW : forall c1 c2 : f64, exists d, Mixture.new (K := step_component (S := S) m) [one64; b64 1 (-20)] [c1; c2] = Ret (Ok d)).
  { intros c1 c2. destruct (C161_cdf_refuted m (K := step_component (S := S) m) zero64 zero64 zero64 eq_refl eq_refl) as (d & _ & H & _). unfold Mixture.new in *. cbn [length Nat.eqb Mixture.compute_support rbind] in *. destruct (simplex_new _) as [q|]; cbn [map_err and_then] in *; [|discriminate]. eexists. reflexivity. }
  split; [apply NW|]. split; [cbn [length]; lia|]. split; [repeat constructor; vm_compute; reflexivity|]. split; [repeat (constructor; [split; [reflexivity|split; [exact W|exact M]]|]); constructor|]. split; [repeat (constructor; [split; [reflexivity|split; [exact W|exact M]]|]); constructor|].
  split; [apply NW|]. repeat (constructor; [split; [reflexivity|split; [exact W|exact M]]|]); constructor.
Qed.
