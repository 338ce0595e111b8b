(** * C169: fitting by maximum likelihood in double arithmetic *)
From Coq Require Import Reals Lra Lia Psatz List ZArith Bool Permutation.
From Flocq Require Import Core IEEE754.BinarySingleNaN.
From Verif.Num Require Import Scalar F64.
From Verif.Model Require Import Rust Constraints Probability Params Consts Discrete Continuous2.
From Verif.Spec Require Import ParamSpec ProbSpec LibmSpec.
From Verif.Proofs Require Import ConstraintProofs NewInv F64Order F64Pdf F64Acc.
From Verif.Properties Require Import C135_F64Pdf C133_F64Cdf C160_F64Convolution C163_F64Accuracy C166_Constants C167_F64Discrete C168_F64MixtureAccuracy.
Import ListNotations.
Open Scope R_scope.

(** the sum of a list of whole numbers, and of the reals that doubles denote *)
Definition total (xs : list Z) : Z := fold_right Z.add 0%Z xs.
Definition rtotal (xs : list f64) : R := fold_right Rplus 0 (map B2R xs).

Lemma total_nonneg xs : Forall (fun x => (0 <= x)%Z) xs -> (0 <= total xs)%Z.
Proof. induction 1; cbn [total fold_right] in *; [lia|fold (total l) in *; lia]. Qed.
Lemma total_perm xs ys : Permutation xs ys -> total xs = total ys.
Proof. unfold total. induction 1; cbn [fold_right]; lia. Qed.
(** sums of whole numbers up to 2^53 are exact, down to the bits *)
Lemma plus_int a x : (0 <= a)%Z -> (0 <= x)%Z -> (a + x <= 2 ^ 53)%Z -> Bplus mode_NE (b64 a 0) (b64 x 0) = b64 (a + x) 0.
Proof.
  intros A X H. destruct (b64_z a ltac:(lia)) as [Fa Va]. destruct (b64_z x ltac:(lia)) as [Fx Vx]. destruct (b64_z (a + x) ltac:(lia)) as [Fs Vs].
  destruct (Z.eq_dec (a + x) 0) as [E|E]. { assert (a = 0 /\ x = 0)%Z as [-> ->] by lia. reflexivity. }
  destruct (V_plus _ _ Fa Fx) as [N E1]. rewrite Va, Vx, <- plus_IZR in E1. assert (B : 0 <= IZR (a + x) <= bpow radix2 53) by (change (bpow radix2 53) with (IZR (2 ^ 53)); split; apply IZR_le; lia).
  assert (M : bpow radix2 53 < M64) by (change M64 with (bpow radix2 1024); apply bpow_lt; lia). unfold sat in E1. rewrite rnd_fmt in E1 by (apply fmt_IZR; lia). rewrite clamp_id in E1 by lra.
  assert (F : fin (Bplus mode_NE (b64 a 0) (b64 x 0))) by (apply V_fin_iff; [exact N|rewrite E1; lra]). rewrite V_fin in E1 by exact F.
  assert (P : 0 < IZR (a + x)) by (apply IZR_lt; lia).
  assert (ST : forall z : f64, fin z -> 0 < RV z -> is_finite_strict z = true) by (intros z Fz Pz; destruct z; try discriminate; [cbn in Pz; lra|reflexivity]).
  apply B2R_inj; [apply ST; [exact F|rewrite E1; exact P]|apply ST; [exact Fs|rewrite Vs; exact P]|]. change (RV (Bplus mode_NE (b64 a 0) (b64 x 0)) = RV (b64 (a + x) 0)). congruence.
Qed.
Lemma fold_int xs : forall a, Forall (fun x => (0 <= x)%Z) xs -> (0 <= a)%Z -> (a + total xs <= 2 ^ 53)%Z -> fold_left (fun acc x => Bplus mode_NE acc (b64 x 0)) xs (b64 a 0) = b64 (a + total xs) 0.
Proof.
  induction xs as [|x xs IH]; intros a H A L; cbn [fold_left total fold_right] in *; [now rewrite Z.add_0_r|]. fold (total xs) in *. inversion_clear H as [|? ? Hx H']. assert (T := total_nonneg xs H').
  rewrite plus_int by lia. rewrite IH by (auto; lia). f_equal. lia.
Qed.
Lemma quot_big (n d : Z) : (0 <= n <= 2 ^ 53)%Z -> (1 <= d <= 2 ^ 53)%Z -> nearest_to (Bdiv mode_NE (b64 n 0) (b64 d 0)) (IZR n / IZR d) /\ ((0 < n)%Z -> 0 < B2R (Bdiv mode_NE (b64 n 0) (b64 d 0))).
Proof.
  intros Hn Hd. destruct (b64_z n ltac:(lia)) as [Fn Vn]. destruct (b64_z d ltac:(lia)) as [Fd Vd]. assert (BN : 0 <= IZR n <= bpow radix2 53) by (change (bpow radix2 53) with (IZR (2 ^ 53)); split; apply IZR_le; lia). assert (BD : 1 <= IZR d <= bpow radix2 53) by (change (bpow radix2 53) with (IZR (2 ^ 53)); split; apply IZR_le; lia).
  destruct (V_div (b64 n 0) (b64 d 0) Fn Fd ltac:(lra)) as [N V1]. rewrite Vn, Vd in V1. set (r := IZR n / IZR d) in *. assert (B : 0 <= r <= bpow radix2 53) by (unfold r; split; [apply Rmult_le_pos; [lra|left; apply Rinv_0_lt_compat; lra]|apply Rle_trans with (IZR n / 1); [apply Rmult_le_compat_l; [lra|apply Rinv_le_contravar; lra]|lra]]).
  assert (M : bpow radix2 53 < M64) by (change M64 with (bpow radix2 1024); apply bpow_lt; lia). assert (R1 : rnd r <= bpow radix2 53) by (apply rnd_le_fmt; [apply fmt_bpow; lia|lra]). assert (R0 : 0 <= rnd r) by (apply rnd_ge; [apply fmt_0|lra]).
  unfold sat in V1. rewrite clamp_id in V1 by lra. assert (F : fin (Bdiv mode_NE (b64 n 0) (b64 d 0))) by (apply V_fin_iff; [exact N|rewrite V1; lra]). rewrite V_fin in V1 by exact F. split.
  - split; [exact F|]. intros y Fy. change (B2R (Bdiv mode_NE (b64 n 0) (b64 d 0))) with (RV (Bdiv mode_NE (b64 n 0) (b64 d 0))). rewrite V1. destruct (round_N_pt radix2 (SpecFloat.fexp 53 1024) (fun x => negb (Z.even x)) r) as [_ W]. exact (W (B2R y) (fmt_RV y)).
  - intros P. change (0 < RV (Bdiv mode_NE (b64 n 0) (b64 d 0))). rewrite V1. apply Rlt_le_trans with (bpow radix2 (-53)); [apply bpow_gt_0|]. apply rnd_ge; [apply fmt_bpow; lia|]. unfold r. assert (1 <= IZR n) by (apply (IZR_le 1); lia). change (-53)%Z with (Z.opp 53). rewrite bpow_opp. apply Rle_trans with (1 * / IZR d); [rewrite Rmult_1_l; apply Rinv_le_contravar; lra|]. apply Rmult_le_compat_r; [left; apply Rinv_0_lt_compat; lra|lra].
Qed.
Lemma poisson_new_ok (m : Libm) (l : f64) : fltb (f_of_Z 0 : f64) l = true -> Poisson.new l = Ok (Poisson.new_unchecked l).
Proof.
  intros PS. unfold Poisson.new. etransitivity; [apply map_params_ok; cbn [args s1 s2 s3 fst snd]; repeat (apply Forall_cons || apply Forall_nil); unfold arg_ok; cbn [arg_ty arg_val field_ok]; first [exact I|exact PS]|reflexivity].
Qed.
Lemma pos_lt (m : Libm) (x : f64) : fin x -> 0 < RV x -> fltb (f_of_Z 0 : f64) x = true.
Proof. intros F P. apply f64_lt; [reflexivity|exact F|exact P]. Qed.
Lemma poisson_fit (m : Libm) xs : Forall (fun x => (0 <= x)%Z) xs -> (total xs <= 2 ^ 53)%Z -> Poisson.fit_mle (F := f64) xs = Poisson.new (Bdiv mode_NE (b64 (total xs) 0) (b64 (Z.of_nat (length xs)) 0)).
Proof. intros H L. unfold Poisson.fit_mle. cbv zeta. assert (E := fold_int xs 0 H ltac:(lia) ltac:(lia)). rewrite Z.add_0_l in E. rewrite <- E. reflexivity. Qed.

Section Poisson.
Context (m : Libm).
(** counts whose total is at most 2^53: the rate fitted is the double nearest to the sample mean *)
Theorem C169_poisson (xs : list Z) : Forall (fun x => (0 <= x)%Z) xs -> (1 <= total xs <= 2 ^ 53)%Z -> (Z.of_nat (length xs) <= 2 ^ 53)%Z ->
  exists l d, Poisson.fit_mle (F := f64) xs = Ok d /\ Poisson.new l = Ok d /\ Poisson.mean d = l /\ 0 < B2R l /\ nearest_to l (IZR (total xs) / INR (length xs)).
Proof.
  intros H T L. assert (LN : (1 <= Z.of_nat (length xs))%Z) by (destruct xs; cbn [length total fold_right] in *; lia).
  destruct (quot_big (total xs) (Z.of_nat (length xs)) ltac:(lia) ltac:(lia)) as [Q P]. specialize (P ltac:(lia)). rewrite poisson_fit by (auto; lia). set (l := Bdiv _ _ _) in *. clearbody l.
  assert (E := poisson_new_ok m l (pos_lt m l (proj1 Q) P)). exists l, (Poisson.new_unchecked l). split; [exact E|]. split; [exact E|]. split; [reflexivity|]. split; [exact P|]. rewrite INR_IZR_INZ. exact Q.
Qed.
(** no data, or nothing but zeros, is refused *)
Theorem C169_poisson_err (xs : list Z) : Forall (fun x => x = 0%Z) xs -> (Z.of_nat (length xs) <= 2 ^ 53)%Z -> exists e, Poisson.fit_mle (F := f64) xs = Err e.
Proof.
  intros H L. assert (T : total xs = 0%Z) by (clear L; unfold total; induction H; cbn [fold_right]; lia). assert (N : Forall (fun x => (0 <= x)%Z) xs) by (eapply Forall_impl; [|exact H]; intros; cbv beta in *; lia).
  rewrite poisson_fit by (auto; lia). rewrite T. set (l := Bdiv mode_NE (b64 0 0) (b64 (Z.of_nat (length xs)) 0)). destruct (Poisson.new l) as [d|e] eqn:E; [exfalso|eauto].
  assert (PS : fltb (f_of_Z 0 : f64) l = true) by (unfold Poisson.new in E; inv64 E; assumption). destruct xs as [|x xs].
  - vm_compute in PS. discriminate.
  - assert (LN : (1 <= Z.of_nat (length (x :: xs)))%Z) by (cbn [length]; lia). destruct (quot_big 0 (Z.of_nat (length (x :: xs))) ltac:(lia) ltac:(lia)) as [[F Q] _]. fold l in F, Q. specialize (Q zero64 eq_refl). apply f64_lt in PS; [|reflexivity|exact F]. change (B2R (f_of_Z 0 : f64)) with 0 in PS. change (B2R zero64) with 0 in Q. replace (0 / IZR (Z.of_nat (length (x :: xs)))) with 0 in Q by (field; apply not_0_IZR; lia). rewrite !Rminus_0_r, Rabs_R0 in Q. apply Rabs_le_inv in Q. lra.
Qed.
(** the order of such counts does not matter *)
Theorem C169_poisson_order_partial (xs ys : list Z) : Permutation xs ys -> Forall (fun x => (0 <= x)%Z) xs -> (total xs <= 2 ^ 53)%Z -> Poisson.fit_mle (F := f64) xs = Poisson.fit_mle ys.
Proof.
  intros P H T. assert (H' : Forall (fun x => (0 <= x)%Z) ys) by (rewrite Forall_forall in *; intros y Hy; apply H, (Permutation_in _ (Permutation_sym P) Hy)). assert (E := total_perm xs ys P). rewrite (poisson_fit m xs), (poisson_fit m ys) by (auto; lia). now rewrite E, (Permutation_length P).
Qed.
(** above 2^53 it does: the small counts are lost if they come after the large one *)
Theorem C169_poisson_order_refuted : let xs := [2 ^ 53; 1; 1]%Z in let ys := [1; 1; 2 ^ 53]%Z in Permutation xs ys /\
  exists d d', Poisson.fit_mle (F := f64) xs = Ok d /\ Poisson.fit_mle (F := f64) ys = Ok d' /\ lt64 (Poisson.mean d) (Poisson.mean d').
Proof.
  cbv zeta. split. { apply Permutation_sym. change [(2 ^ 53)%Z; 1%Z; 1%Z] with ([(2 ^ 53)%Z] ++ [1%Z; 1%Z]). change [1%Z; 1%Z; (2 ^ 53)%Z] with ([1%Z; 1%Z] ++ [(2 ^ 53)%Z]). apply Permutation_app_comm. }
  set (l := Bdiv mode_NE (b64 (2 ^ 53) 0) (b64 3 0) : f64). set (l' := Bdiv mode_NE (Bplus mode_NE (b64 2 0) (b64 (2 ^ 53) 0)) (b64 3 0) : f64).
  exists (Poisson.new_unchecked l), (Poisson.new_unchecked l').
  assert (E1 : Poisson.fit_mle (F := f64) [2 ^ 53; 1; 1]%Z = Poisson.new l) by (unfold Poisson.fit_mle; cbv zeta; f_equal; vm_compute; reflexivity).
  assert (E2 : Poisson.fit_mle (F := f64) [1; 1; 2 ^ 53]%Z = Poisson.new l') by (unfold Poisson.fit_mle; cbv zeta; f_equal; vm_compute; reflexivity).
  split; [rewrite E1; apply (poisson_new_ok m); vm_compute; reflexivity|]. split; [rewrite E2; apply (poisson_new_ok m); vm_compute; reflexivity|]. vm_compute. reflexivity.
Qed.
End Poisson.
Print Assumptions C169_poisson.
Print Assumptions C169_poisson_err.
Print Assumptions C169_poisson_order_partial.
Print Assumptions C169_poisson_order_refuted.

Section Normal.
Context (m : Libm).
(** positive data of moderate size: the fitted mean is within n + 2 units of the sample mean *)
Lemma fold_near N : forall xs a (j : nat) s, Forall moderate xs -> near j a s -> 0 <= s <= INR j * bpow radix2 100 -> (j + length xs <= N)%nat -> (N <= 256)%nat ->
  near (j + length xs) (fold_left (fun acc x : f64 => Bplus mode_NE acc x) xs a) (s + rtotal xs) /\ 0 <= rtotal xs.
Proof.
  induction xs as [|x xs IH]; intros a j s HM HA HS HL HN.
  - cbn [fold_left length rtotal map fold_right]. unfold rtotal. cbn [map fold_right]. rewrite Rplus_0_r, Nat.add_0_r. split; [exact HA|lra].
  - inversion_clear HM as [|? ? Hx HM']. cbn [fold_left length] in *. assert (Ax := mod_acc x Hx). assert (Px := acc_pos _ _ _ _ _ Ax). destruct Ax as (X1 & [X2 X3] & X4). assert (NX : near 0 x (RV x)) by (split; assumption).
    assert (J8 : INR j <= bpow radix2 8) by (change (bpow radix2 8) with 256; replace 256 with (INR 256) by (rewrite INR_IZR_INZ; reflexivity); apply le_INR; lia). assert (IJ := pos_INR j). assert (B0 := bpow_gt_0 radix2 100).
    assert (U : s + RV x <= INR (S j) * bpow radix2 100) by (rewrite S_INR; lra). assert (J9 : INR (S j) <= bpow radix2 9) by (rewrite S_INR; change (bpow radix2 9) with 512; change (bpow radix2 8) with 256 in J8; lra).
    assert (UU : INR (S j) * bpow radix2 100 <= bpow radix2 900) by (apply Rle_trans with (bpow radix2 9 * bpow radix2 100); [apply Rmult_le_compat_r; lra|rewrite <- bpow_plus; apply bpow_le; lia]).
    assert (LB : bpow radix2 (-900) <= RV x) by (apply Rle_trans with (2 := X2); apply bpow_le; lia).
    assert (NS := near_plus j 0 a x s (RV x) HA NX (proj1 HS) ltac:(lra) ltac:(lra) ltac:(lia)). rewrite Nat.max_0_r in NS.
    destruct (IH _ (S j) (s + RV x) HM' NS ltac:(lra) ltac:(lia) HN) as [G1 G2]. assert (E : rtotal (x :: xs) = RV x + rtotal xs) by reflexivity. rewrite E. split; [|lra].
    replace (s + (RV x + rtotal xs)) with (s + RV x + rtotal xs) by ring. replace (j + S (length xs))%nat with (S j + length xs)%nat by lia. exact G1.
Qed.
Lemma rtotal_bounds xs : Forall moderate xs -> xs <> [] -> bpow radix2 (-100) <= rtotal xs <= INR (length xs) * bpow radix2 100.
Proof.
  induction xs as [|x xs IH]; intros HM NE; [congruence|]. inversion_clear HM as [|? ? Hx HM']. assert (Ax := mod_acc x Hx). destruct Ax as (_ & [W1 W2] & _). assert (E : rtotal (x :: xs) = RV x + rtotal xs) by reflexivity. rewrite E. cbn [length]. rewrite S_INR. assert (P := bpow_gt_0 radix2 (-100)). destruct xs as [|y xs].
  - unfold rtotal. cbn [map fold_right length]. change (INR 0) with 0. lra.
  - specialize (IH HM' ltac:(congruence)). lra.
Qed.
Theorem C169_normal_mean (xs : list f64) (d : UvNormal.t f64) : Forall moderate xs -> (1 <= length xs <= 256)%nat -> UvNormal.fit_mle xs = Ok d -> within (length xs + 2) (UvNormal.mean d) (rtotal xs / INR (length xs)).
Proof.
  intros HM HL H. unfold UvNormal.fit_mle in H. cbv zeta in H. apply (normal_inv m) in H. destruct H as [-> _]. set (mn := fdiv _ _). change (UvNormal.mean (UvNormal.new_unchecked mn _)) with mn. 
  change mn with (Bdiv mode_NE (fold_left (fun acc x : f64 => Bplus mode_NE acc x) xs zero64) (b64 (Z.of_nat (length xs)) 0)).
  assert (N0 : near 0 zero64 0) by (split; [reflexivity|change (RV zero64) with 0; rewrite !Rmult_0_r; lra]).
  destruct (fold_near 256 xs zero64 0 0 HM N0 ltac:(change (INR 0) with 0; lra) ltac:(lia) ltac:(lia)) as [G _]. cbn [Nat.add] in G. rewrite Rplus_0_l in G. assert (NEQ : xs <> []) by (intros ->; cbn [length] in HL; lia). assert (WB := rtotal_bounds xs HM NEQ).
  assert (A : acc (length xs) (-100) 108 (fold_left (fun acc x : f64 => Bplus mode_NE acc x) xs zero64) (rtotal xs)).
  { destruct G as (G1 & G2). split; [exact G1|]. split; [|exact G2]. split; [apply WB|]. apply Rle_trans with (1 := proj2 WB). apply Rle_trans with (bpow radix2 8 * bpow radix2 100); [|rewrite <- bpow_plus; apply bpow_le; lia]. apply Rmult_le_compat_r; [apply bpow_ge_0|]. change (bpow radix2 8) with 256. replace 256 with (INR 256) by (rewrite INR_IZR_INZ; reflexivity). apply le_INR; lia. }
  assert (C := count_acc (Z.of_nat (length xs)) ltac:(lia)). rewrite INR_IZR_INZ. eapply wi; [eapply acc_div; [exact A|exact C|reflexivity|lia|lia|lia]|reflexivity|lia|lia].
Qed.
(** a sample that repeats one whole number has variance zero and is refused ... *)
Lemma rtot_rep z : forall n a, (0 <= z)%Z -> (0 <= a)%Z -> (a + z * Z.of_nat n <= 2 ^ 53)%Z -> fold_left (fadd (F := f64)) (repeat (b64 z 0) n) (b64 a 0) = b64 (a + z * Z.of_nat n) 0.
Proof.
  induction n as [|n IH]; intros a Hz Ha L; cbn [repeat fold_left]; [f_equal; lia|]. change (fadd (b64 a 0) (b64 z 0)) with (Bplus mode_NE (b64 a 0) (b64 z 0)). rewrite plus_int by nia. rewrite IH by nia. f_equal. lia.
Qed.
Lemma map_rep {A B} (f : A -> B) x n : map f (repeat x n) = repeat (f x) n.
Proof. induction n; cbn; congruence. Qed.
Theorem C169_normal_constant_partial (z : Z) (n : nat) : (0 <= z)%Z -> (z * Z.of_nat n <= 2 ^ 53)%Z -> (z <= 2 ^ 53)%Z -> (Z.of_nat n <= 2 ^ 53)%Z -> exists e, UvNormal.fit_mle (repeat (b64 z 0) n) = Err e.
Proof.
  intros Hz L Hz2 Hn. destruct (UvNormal.fit_mle (repeat (b64 z 0) n)) as [d|e] eqn:H; [exfalso|eauto]. unfold UvNormal.fit_mle in H. cbv zeta in H. rewrite repeat_length in H. 
  apply (normal_inv m) in H. destruct H as [_ P]. destruct n as [|n]; [vm_compute in P; discriminate|].
  assert (E := rtot_rep z (S n) 0 Hz ltac:(lia) ltac:(lia)). rewrite Z.add_0_l in E. change (f_of_Z 0 : f64) with (b64 0 0) in P. rewrite E in P.
  destruct (b64_z z ltac:(lia)) as [Fz Vz]. destruct (b64_z (z * Z.of_nat (S n)) ltac:(lia)) as [Ft Vt]. destruct (b64_z (Z.of_nat (S n)) ltac:(lia)) as [Fn Vn].
  assert (NZ : IZR (Z.of_nat (S n)) <> 0) by (apply not_0_IZR; lia). destruct (V_div _ _ Ft Fn ltac:(rewrite Vn; exact NZ)) as [N V1]. rewrite Vt, Vn, mult_IZR in V1. replace (IZR z * IZR (Z.of_nat (S n)) / IZR (Z.of_nat (S n))) with (IZR z) in V1 by (field; exact NZ).
  assert (B : 0 <= IZR z <= bpow radix2 53) by (change (bpow radix2 53) with (IZR (2 ^ 53)); split; apply IZR_le; lia). assert (M : bpow radix2 53 < M64) by (change M64 with (bpow radix2 1024); apply bpow_lt; lia).
  unfold sat in V1. rewrite rnd_fmt in V1 by (apply fmt_IZR; lia). rewrite clamp_id in V1 by lra. set (q := Bdiv mode_NE (b64 (z * Z.of_nat (S n)) 0) (b64 (Z.of_nat (S n)) 0)) in *.
  assert (F : fin q) by (apply V_fin_iff; [exact N|rewrite V1; lra]). rewrite V_fin in V1 by exact F.
  change (fdiv (b64 (z * Z.of_nat (S n)) 0) (f_of_Z (Z.of_nat (S n)))) with q in P. rewrite map_rep in P.
  assert (D : num (Bminus mode_NE (b64 z 0) q) /\ V (Bminus mode_NE (b64 z 0) q) = 0). { destruct (V_minus _ _ Fz F) as [D1 D2]. split; [exact D1|]. rewrite D2, Vz, V1, Rminus_diag_eq by reflexivity. unfold sat. rewrite rnd_fmt by apply fmt_0. apply clamp_id. assert (MP := M64_pos). lra. }
  change (fsub (b64 z 0) q) with (Bminus mode_NE (b64 z 0) q) in P. set (r := Bminus mode_NE (b64 z 0) q) in *.
  assert (SQ : Bmult mode_NE r r = zero64). { destruct D as [D1 D2]. assert (FR : fin r) by (apply V_fin_iff; [exact D1|rewrite D2; assert (MP := M64_pos); lra]). rewrite V_fin in D2 by exact FR. clearbody r. destruct r as [s| | |s mm ee HH]; try discriminate; [destruct s; reflexivity|]. exfalso. apply eq_0_F2R in D2. destruct s; discriminate. }
  set (f := fun acc r : f64 => fadd acc (fmul r r)) in P. assert (SQ2 : f zero64 r = zero64) by (change (Bplus mode_NE zero64 (Bmult mode_NE r r) = zero64); rewrite SQ; reflexivity).
  assert (FV : forall k, fold_left f (repeat r k) zero64 = zero64) by (clearbody f; induction k as [|k IH]; [reflexivity|cbn [repeat fold_left]; rewrite SQ2; exact IH]).
  change (b64 0 0) with zero64 in P. rewrite FV in P.
  assert (Z0 : fdiv zero64 (f_of_Z (Z.of_nat (S n)) : f64) = zero64). { change (f_of_Z (Z.of_nat (S n)) : f64) with (b64 (Z.of_nat (S n)) 0). assert (PN : 0 < RV (b64 (Z.of_nat (S n)) 0)) by (rewrite Vn; apply IZR_lt; lia). clear -Fn PN. destruct (b64 (Z.of_nat (S n)) 0) as [s| | |s mm ee HH]; try discriminate; [cbn in PN; lra|]. destruct s; [exfalso|reflexivity]. assert (RV (B754_finite true mm ee HH) < 0) by (apply F2R_lt_0; reflexivity). lra. }
  rewrite Z0 in P. vm_compute in P. discriminate.
Qed.
(** ... but three copies of 0.1 are fitted, with a mean larger than every sample and a variance that is not zero *)
Definition tenth : f64 := Bdiv mode_NE (b64 1 0) (b64 10 0).
Theorem C169_normal_constant_refuted : exists d, UvNormal.fit_mle [tenth; tenth; tenth] = Ok d /\ lt64 tenth (UvNormal.mean d) /\ lt64 zero64 (UvNormal.variance d).
Proof.
  unfold UvNormal.fit_mle. cbv zeta. set (v := fdiv (fold_left _ (map _ _) _) _). set (mu := fdiv (fold_left _ _ _) _).
  assert (PV : fltb (f_of_Z 0 : f64) v = true) by (vm_compute; reflexivity). exists (UvNormal.new_unchecked mu v). split; [exact (normal_new64 m mu v PV)|]. split; [vm_compute; reflexivity|exact PV].
Qed.
(** and the order of the data matters *)
Theorem C169_normal_order_refuted : let xs := [b64 1 53; one64; one64] in let ys := [one64; one64; b64 1 53] in Permutation xs ys /\
  exists d d', UvNormal.fit_mle xs = Ok d /\ UvNormal.fit_mle ys = Ok d' /\ lt64 (UvNormal.mean d) (UvNormal.mean d').
Proof.
  cbv zeta. split. { apply Permutation_sym. change [b64 1 53; one64; one64] with ([b64 1 53] ++ [one64; one64]). change [one64; one64; b64 1 53] with ([one64; one64] ++ [b64 1 53]). apply Permutation_app_comm. }
  unfold UvNormal.fit_mle. cbv zeta. set (v := fdiv (fold_left _ (map _ [b64 1 53; one64; one64]) _) _). set (mu := fdiv (fold_left _ [b64 1 53; one64; one64] _) _). set (v' := fdiv (fold_left _ (map _ [one64; one64; b64 1 53]) _) _). set (mu' := fdiv (fold_left _ [one64; one64; b64 1 53] _) _).
  assert (PV : fltb (f_of_Z 0 : f64) v = true) by (vm_compute; reflexivity). assert (PV' : fltb (f_of_Z 0 : f64) v' = true) by (vm_compute; reflexivity).
  exists (UvNormal.new_unchecked mu v), (UvNormal.new_unchecked mu' v'). split; [exact (normal_new64 m mu v PV)|]. split; [exact (normal_new64 m mu' v' PV')|]. vm_compute. reflexivity.
Qed.
End Normal.
Print Assumptions C169_normal_mean.
Print Assumptions C169_normal_constant_partial.
Print Assumptions C169_normal_constant_refuted.
Print Assumptions C169_normal_order_refuted.

(** ** Non-vacuity *)
Example C169_nonvacuous (m : Libm) : (Forall (fun x => (0 <= x)%Z) [3; 0; 5]%Z /\ (1 <= total [3; 0; 5] <= 2 ^ 53)%Z /\ Permutation [3; 0; 5]%Z [5; 3; 0]%Z) /\ Forall (fun x => x = 0%Z) [0; 0]%Z /\
  (Forall moderate [one64; b64 2 0] /\ exists d, UvNormal.fit_mle [one64; b64 2 0] = Ok d) /\ ((0 <= 7)%Z /\ (7 * Z.of_nat 4 <= 2 ^ 53)%Z).
Proof.
  split; [|split; [|split; [split|]]].
  - split; [repeat constructor; lia|]. split; [cbn; lia|]. change [3; 0; 5]%Z with ([3; 0] ++ [5])%Z. change [5; 3; 0]%Z with ([5] ++ [3; 0])%Z. apply Permutation_app_comm.
  - repeat constructor.
  - repeat constructor; vm_compute; reflexivity.
  - unfold UvNormal.fit_mle. cbv zeta. set (v := fdiv (fold_left _ (map _ _) _) _). set (mu := fdiv (fold_left _ _ _) _). assert (PV : fltb (f_of_Z 0 : f64) v = true) by (vm_compute; reflexivity). eexists. exact (normal_new64 m mu v PV).
  - cbn; lia.
Qed.
