(** * C161: mixtures in doubles *)
From Coq Require Import Reals Lra Lia Psatz List ZArith Bool.
From Flocq Require Import Core IEEE754.BinarySingleNaN.
From Verif.Num Require Import Scalar F64.
From Verif.Model Require Import Rust Constraints Probability Params Consts Continuous2 Mixture.
From Verif.Spec Require Import ParamSpec ProbSpec LibmSpec.
From Verif.Proofs Require Import ConstraintProofs NewInv ProbProofs SimplexProofs F64Order F64Cdf F64Pdf.
From Verif.Properties Require Import C135_F64Pdf C152_F64Variance.
Import ListNotations.
Open Scope R_scope.

(** the left-to-right double sum of products *)
Fixpoint wfold (acc : f64) (ws vs : list f64) : f64 :=
  match ws, vs with w :: ws, v :: vs => wfold (Bplus mode_NE acc (Bmult mode_NE w v)) ws vs | _, _ => acc end.
Lemma weighted_sum_val (m : Libm) {C : Type} (g : C -> res f64) (h : C -> f64) (cs : list C) : Forall (fun c => g c = Ret (h c)) cs ->
  forall ws acc, Mixture.weighted_sum acc g cs ws = Ret (wfold acc ws (map h cs)).
Proof.
  induction cs as [|c cs IH]; intros H ws acc; [now destruct ws|]. inversion_clear H as [|? ? Hc Hcs].
  destruct ws as [|w ws]; [reflexivity|]. cbn [Mixture.weighted_sum map wfold]. rewrite Hc. cbn [rbind]. now rewrite IH.
Qed.
(** one step for probabilities *)
Lemma unit_prod (w v : f64) : valid_prob w -> valid_prob v -> let p := Bmult mode_NE w v in fin p /\ RV p = rnd (RV w * RV v) /\ 0 <= RV p <= 1.
Proof.
  intros [Fw Bw] [Fv Bv] p. change (B2R w) with (RV w) in Bw. change (B2R v) with (RV v) in Bv.
  assert (B : 0 <= RV w * RV v <= 1) by (split; [apply Rmult_le_pos; lra|nra]).
  assert (L : 0 <= rnd (RV w * RV v)) by (apply rnd_ge; [apply fmt_0|lra]). assert (U : rnd (RV w * RV v) <= 1) by (apply rnd_le_fmt; [apply fmt_1|lra]).
  assert (M := M64_pos). Transparent M64. destruct (mul_spec w v Fw Fv) as [F E]. { rewrite Rabs_pos_eq by lra. unfold M64 in M. lra. } fold p in F, E. Opaque M64. rewrite E. auto.
Qed.
Lemma step_sum (z p : f64) : fin z -> 0 <= RV z <= bpow radix2 53 -> fin p -> 0 <= RV p <= 1 ->
  let s := Bplus mode_NE z p in fin s /\ RV s = rnd (RV z + RV p) /\ 0 <= RV s <= bpow radix2 53.
Proof.
  intros Fz Bz Fp Bp s. assert (V1 : Forall valid_prob [p]) by (constructor; [split; [exact Fp|exact Bp]|constructor]).
  destruct (dsum_inv [p] z V1 Fz Bz) as (A & B & C). cbn [fold_left] in A, B, C. fold s in A, B, C. split; [exact A|]. split; [|exact B].
  destruct (V_plus z p Fz Fp) as [N E]. fold s in N, E. rewrite V_fin in E by exact A. rewrite E. assert (G := fin_lt s A). unfold sat in *. rewrite E in G. unfold clamp, Rmax, Rmin in *.
  destruct (Rle_dec M64 (rnd (RV z + RV p))); destruct (Rle_dec (- M64) _); lra.
Qed.
(** pointwise larger probabilities: pointwise larger running sums *)
Lemma wfold_mono : forall ws vs vs' a a', Forall valid_prob ws -> Forall2 (fun v v' => valid_prob v /\ valid_prob v' /\ RV v <= RV v') vs vs' ->
  fin a -> fin a' -> 0 <= RV a -> RV a <= RV a' -> RV a' <= bpow radix2 53 ->
  fin (wfold a ws vs) /\ fin (wfold a' ws vs') /\ 0 <= RV (wfold a ws vs) /\ RV (wfold a ws vs) <= RV (wfold a' ws vs').
Proof.
  induction ws as [|w ws IH]; intros vs vs' a a' HW HV Fa Fa' Pa L B; [cbn [wfold]; destruct vs, vs'; cbn [wfold]; auto|].
  inversion HV as [|v v' vs0 vs0' Hv HV' E1 E2]; subst; cbn [wfold]; [auto|].
  inversion_clear HW as [|? ? Hw HW']. destruct Hv as (Vv & Vv' & Lv).
  destruct (unit_prod w v Hw Vv) as (Fp & Ep & Bp). destruct (unit_prod w v' Hw Vv') as (Fp' & Ep' & Bp').
  destruct (step_sum a _ Fa ltac:(lra) Fp Bp) as (Fs & Es & Bs). destruct (step_sum a' _ Fa' ltac:(lra) Fp' Bp') as (Fs' & Es' & Bs').
  apply IH; auto; try lra. rewrite Es, Es'. apply rnd_le. apply Rplus_le_compat; [exact L|]. rewrite Ep, Ep'. apply rnd_le. apply Rmult_le_compat_l; [apply Hw|exact Lv].
Qed.
Lemma RV_one : RV one64 = 1. Proof. exact (proj2 (b64_z 1 ltac:(lia))). Qed.
Lemma vp_one : valid_prob one64. Proof. split; [reflexivity|]. change (B2R one64) with (RV one64). rewrite RV_one. lra. Qed.
Lemma vp_zero : valid_prob zero64. Proof. split; [reflexivity|]. cbn. lra. Qed.
(** all ones: the sum of the weights; all zeros: zero *)
Lemma wfold_ones : forall ws vs a a', Forall valid_prob ws -> length vs = length ws -> Forall (fun v => valid_prob v /\ RV v = 1) vs -> fin a -> fin a' -> RV a = RV a' -> 0 <= RV a <= bpow radix2 53 ->
  RV (wfold a ws vs) = RV (fold_left (Bplus mode_NE) ws a').
Proof.
  induction ws as [|w ws IH]; intros [|v vs] a a' HW HL HV Fa Fa' E B; try discriminate; cbn [wfold fold_left]; [exact E|].
  inversion_clear HW as [|? ? Hw HW']. inversion_clear HV as [|? ? [Hv Ev] HV']. destruct (unit_prod w v Hw Hv) as (Fp & Ep & Bp).
  destruct (step_sum a _ Fa B Fp Bp) as (Fs & Es & Bs). destruct (step_sum a' w Fa' ltac:(lra) (proj1 Hw) (proj2 Hw)) as (Fs' & Es' & Bs').
  apply IH; auto. rewrite Es, Es', Ep, E, Ev, Rmult_1_r. f_equal. now rewrite rnd_RV.
Qed.
Lemma wfold_zeros : forall ws vs a, Forall valid_prob ws -> Forall (fun v => valid_prob v /\ RV v = 0) vs -> fin a -> RV a = 0 -> RV (wfold a ws vs) = 0.
Proof.
  induction ws as [|w ws IH]; intros [|v vs] a HW HV Fa E; cbn [wfold]; auto.
  inversion_clear HW as [|? ? Hw HW']. inversion_clear HV as [|? ? [Hv Ev] HV']. destruct (unit_prod w v Hw Hv) as (Fp & Ep & Bp). assert (P := bpow_ge_0 radix2 53).
  destruct (step_sum a _ Fa ltac:(lra) Fp Bp) as (Fs & Es & Bs). apply IH; auto. rewrite Es, Ep, E, Ev, Rmult_0_r, rnd_0, Rplus_0_l. apply rnd_0.
Qed.
(** nonnegative finite values: a nonnegative number *)
Lemma wfold_nn : forall ws vs a, Forall valid_prob ws -> Forall (fun v => finite64 v /\ le64 zero64 v) vs -> nnv a -> nnv (wfold a ws vs).
Proof.
  induction ws as [|w ws IH]; intros [|v vs] a HW HV Ha; cbn [wfold]; auto.
  inversion_clear HW as [|? ? Hw HW']. inversion_clear HV as [|? ? [Fv Pv] HV']. apply IH; auto. apply plus_nn; [exact Ha|].
  destruct (vp_nn w Hw) as [NW _]. apply mult_nn; [exact NW|now apply le_nnv|left; exact (proj1 Hw)|left; exact Fv].
Qed.
(** bounded values: a finite sum *)
Definition within (h : Z) (x : f64) : Prop := finite64 x /\ Rabs (B2R x) <= bpow radix2 h.
Lemma bnd_fin (z : f64) (r b : R) : num z -> V z = sat r -> fmt64 b -> 0 <= b < M64 -> Rabs r <= b -> fin z /\ Rabs (RV z) <= b.
Proof.
  intros N E Fb Bb H. apply Rabs_le_inv in H. assert (U : sat r <= b) by (rewrite <- (sat_fmt b Fb ltac:(lra)); apply sat_mono; lra).
  assert (Fo : fmt64 (- b)) by (apply generic_format_opp; exact Fb). assert (L : - b <= sat r) by (rewrite <- (sat_fmt (- b) Fo ltac:(lra)); apply sat_mono; lra).
  assert (F : fin z) by (apply V_fin_iff; [exact N|lra]). split; [exact F|]. rewrite V_fin in E by exact F. rewrite E. apply Rabs_le. lra.
Qed.
Lemma scaled_fmt (k : nat) (h : Z) : (Z.of_nat k < 2 ^ 53)%Z -> (0 <= h)%Z -> fmt64 (INR k * bpow radix2 h).
Proof. intros H1 H2. rewrite INR_IZR_INZ. apply fmt_scaled; lia. Qed.
Lemma scaled_lt (k : nat) (h : Z) : (Z.of_nat k <= 2 ^ 20)%Z -> (h <= 1002)%Z -> 0 <= INR k * bpow radix2 h < M64.
Proof.
  intros H1 H2. assert (P := bpow_gt_0 radix2 h). split; [apply Rmult_le_pos; [apply pos_INR|lra]|].
  apply Rle_lt_trans with (bpow radix2 20 * bpow radix2 h). { apply Rmult_le_compat_r; [lra|]. rewrite INR_IZR_INZ. change (bpow radix2 20) with (IZR (2 ^ 20)). apply IZR_le. lia. }
  rewrite <- bpow_plus. change M64 with (bpow radix2 1024). apply bpow_lt. lia.
Qed.
Lemma wfold_within h : (0 <= h <= 1002)%Z -> forall ws vs a k, Forall valid_prob ws -> Forall (within h) vs -> fin a -> Rabs (RV a) <= INR k * bpow radix2 h ->
  (Z.of_nat (k + length ws) <= 2 ^ 20)%Z -> fin (wfold a ws vs) /\ Rabs (RV (wfold a ws vs)) <= INR (k + length ws) * bpow radix2 h.
Proof.
  intros Hh. assert (Ph := bpow_gt_0 radix2 h).
  induction ws as [|w ws IH]; intros [|v vs] a k HW HV Fa Ba HL; cbn [wfold]; cbn [length] in *;
    try (split; [exact Fa|apply Rle_trans with (1 := Ba); apply Rmult_le_compat_r; [lra|apply le_INR; lia]]).
  inversion_clear HW as [|? ? [Fw Bw] HW']. inversion_clear HV as [|? ? [Fv Bv] HV']. change (B2R w) with (RV w) in Bw. change (B2R v) with (RV v) in Bv.
  destruct (V_mult w v Fw Fv) as [N E].
  assert (Fb : fmt64 (bpow radix2 h)) by (apply fmt_bpow; lia). assert (Mb : 0 <= bpow radix2 h < M64) by (split; [lra|change M64 with (bpow radix2 1024); apply bpow_lt; lia]).
  assert (Pb : Rabs (RV w * RV v) <= bpow radix2 h) by (rewrite Rabs_mult, (Rabs_pos_eq (RV w)) by lra; apply Rle_trans with (1 * bpow radix2 h); [apply Rmult_le_compat; [lra|apply Rabs_pos|lra|exact Bv]|lra]).
  destruct (bnd_fin _ _ _ N E Fb Mb Pb) as [Fp Bp]. destruct (V_plus a _ Fa Fp) as [N2 E2].
  replace (k + S (length ws))%nat with (S k + length ws)%nat in * by lia.
  destruct (bnd_fin _ _ (INR (S k) * bpow radix2 h) N2 E2) as [Fs Bs].
  - apply scaled_fmt; lia.
  - apply scaled_lt; lia.
  - rewrite S_INR. apply Rle_trans with (1 := Rabs_triang _ _). lra.
  - apply IH; auto.
Qed.

(** what construction guarantees *)
Lemma mixture_new_inv (m : Libm) {S C CP Sp X : Type} {K : Component f64 S C CP Sp X} ws cs d :
  Mixture.new ws cs = Ret (Ok d) -> length cs = length ws /\ Forall valid_prob ws /\ Rabs (B2R (dsum ws) - 1) < B2R c1e5 /\
    Mixture.weights d = ws /\ Mixture.components d = cs.
Proof.
  intros H. unfold Mixture.new in H. destruct (Nat.eqb_spec (length cs) (length ws)) as [L|]; [|discriminate].
  destruct (Mixture.compute_support cs) as [sp| |]; cbn [rbind] in H; try discriminate.
  destruct (simplex_new ws) as [q|] eqn:E; cbn [map_err and_then] in H; [|discriminate]. injection H as <-.
  destruct (simplex_new_inv m ws q E) as (-> & A & B). cbn. auto.
Qed.

Section Mix.
Context (m : Libm) {S C CP Sp X : Type} {K : Component f64 S C CP Sp X} (ws : list f64) (cs : list C).

(** Density and distribution function at one point.  If the components' probabilities are valid,
    the value is a finite number between 0 and the double sum of the weights; zero (that sum) if
    every component is at zero (one). *)
Theorem C161_cdf (x : X) (F : C -> f64) d : Mixture.new ws cs = Ret (Ok d) ->
  Forall (fun c => c_cdf c x = Ret (Prob (F c)) /\ valid_prob (F c)) cs ->
  exists q, Mixture.cdf d x = Ret (Prob q) /\ finite64 q /\ 0 <= B2R q <= B2R (dsum ws) /\ B2R q < 1 + 1 / 99999 /\
    (B2R (dsum ws) <= 1 -> valid_prob q) /\
    (Forall (fun c => B2R (F c) = 0) cs -> B2R q = 0) /\
    (Forall (fun c => B2R (F c) = 1) cs -> B2R q = B2R (dsum ws)).
Proof.
  intros H HF. destruct (mixture_new_inv m ws cs d H) as (L & HW & HS & E1 & E2). exists (wfold zero64 ws (map F cs)).
  assert (Z0 : fin zero64) by reflexivity. assert (ZV : RV zero64 = 0) by reflexivity. assert (P53 := bpow_ge_0 radix2 53).
  assert (HV : Forall (fun c => valid_prob (F c)) cs) by (eapply Forall_impl; [|exact HF]; intros c [_ A]; exact A).
  split. { unfold Mixture.cdf. rewrite E1, E2. erewrite weighted_sum_val with (h := F); [reflexivity|]. eapply Forall_impl; [|exact HF]. intros c [A _]. cbv beta. now rewrite A. }
  assert (MM : Forall2 (fun v v' => valid_prob v /\ valid_prob v' /\ RV v <= RV v') (map F cs) (map (fun _ => one64) cs)).
  { clear -HV. induction HV as [|c cs Hc _ IH]; cbn [map]; constructor; auto. split; [exact Hc|]. split; [apply vp_one|]. rewrite RV_one. apply Hc. }
  assert (ON : RV (wfold zero64 ws (map (fun _ => one64) cs)) = RV (dsum ws)).
  { unfold dsum. apply wfold_ones; auto; [now rewrite map_length|apply Forall_map, Forall_forall; intros ? _; split; [apply vp_one|apply RV_one]|rewrite ZV; lra]. }
  destruct (wfold_mono ws _ _ zero64 zero64 HW MM Z0 Z0 ltac:(rewrite ZV; lra) (Rle_refl _) ltac:(rewrite ZV; lra)) as (Fq & _ & Pq & Lq). rewrite ON in Lq.
  split; [exact Fq|]. split; [split; [exact Pq|exact Lq]|]. assert (B5 := proj2 RV_c1e5_bounds). assert (SM : bpow radix2 (-69) < / 100000000000).
  { change (bpow radix2 (-69)) with (/ IZR (2 ^ 69)). apply Rinv_lt_contravar; [apply Rmult_lt_0_compat; lra|]. apply IZR_lt. reflexivity. }
  change (B2R c1e5) with (RV c1e5) in HS. change (B2R (dsum ws)) with (RV (dsum ws)) in *. apply Rabs_def2 in HS.
  split; [change (B2R (wfold zero64 ws (map F cs))) with (RV (wfold zero64 ws (map F cs))); lra|].
  split; [intros LE; split; [exact Fq|]; change (B2R (wfold zero64 ws (map F cs))) with (RV (wfold zero64 ws (map F cs))); lra|].
  split; intros HC.
  - apply wfold_zeros; auto. apply Forall_map. apply Forall_forall. intros c Hc. rewrite Forall_forall in HC, HV. split; [now apply HV|now apply HC].
  - change (RV (wfold zero64 ws (map F cs)) = RV (dsum ws)). unfold dsum. apply wfold_ones; auto; [now rewrite map_length| |rewrite ZV; lra].
    apply Forall_map. apply Forall_forall. intros c Hc. rewrite Forall_forall in HC, HV. split; [now apply HV|now apply HC].
Qed.
(** never decreasing where the components are *)
Theorem C161_cdf_monotone (x y : X) (F G : C -> f64) d : Mixture.new ws cs = Ret (Ok d) ->
  Forall (fun c => c_cdf c x = Ret (Prob (F c)) /\ c_cdf c y = Ret (Prob (G c)) /\ valid_prob (F c) /\ valid_prob (G c) /\ le64 (F c) (G c)) cs ->
  exists p q, Mixture.cdf d x = Ret (Prob p) /\ Mixture.cdf d y = Ret (Prob q) /\ le64 p q.
Proof.
  intros H HF. destruct (mixture_new_inv m ws cs d H) as (L & HW & _ & E1 & E2). exists (wfold zero64 ws (map F cs)), (wfold zero64 ws (map G cs)).
  assert (P53 := bpow_ge_0 radix2 53).
  split; [|split].
  1,2: unfold Mixture.cdf; rewrite E1, E2; erewrite weighted_sum_val; [reflexivity|]; eapply Forall_impl; [|exact HF]; intros c (A & B & _); cbv beta; rewrite ?A, ?B; reflexivity.
  assert (MM : Forall2 (fun v v' => valid_prob v /\ valid_prob v' /\ RV v <= RV v') (map F cs) (map G cs)).
  { clear -HF. induction HF as [|c cs (_ & _ & A & B & D) _ IH]; cbn [map]; constructor; auto. split; [exact A|]. split; [exact B|]. apply le_V1 in D. rewrite !V_fin in D by (apply A || apply B). exact D. }
  destruct (wfold_mono ws _ _ zero64 zero64 HW MM eq_refl eq_refl (Rle_refl 0) (Rle_refl _) P53) as (F1 & F2 & _ & Q).
  apply le_V2; [now apply fin_num|now apply fin_num|]. now rewrite !V_fin.
Qed.
(** the density: nonnegative where the components' densities are nonnegative and finite *)
Theorem C161_pdf (x : X) (f : C -> f64) d : Mixture.new ws cs = Ret (Ok d) ->
  Forall (fun c => c_pdf c x = Ret (f c) /\ finite64 (f c) /\ le64 zero64 (f c)) cs ->
  exists v, Mixture.pdf d x = Ret v /\ le64 zero64 v.
Proof.
  intros H HF. destruct (mixture_new_inv m ws cs d H) as (L & HW & _ & E1 & E2). exists (wfold zero64 ws (map f cs)). split.
  - unfold Mixture.pdf. rewrite E1, E2. apply weighted_sum_val. eapply Forall_impl; [|exact HF]. intros c [A _]. exact A.
  - apply nnv_le, wfold_nn; auto; [|now apply le_nnv]. apply Forall_map. eapply Forall_impl; [|exact HF]. intros c [_ A]. exact A.
Qed.
(** mean and variance: finite for components of moderate size; a variance of zero-mean components is nonnegative *)
Theorem C161_moments (mu va : C -> f64) d : Mixture.new ws cs = Ret (Ok d) -> (Z.of_nat (length ws) <= 2 ^ 20)%Z ->
  Forall (fun c => c_mean c = Ret (mu c) /\ c_variance c = Ret (va c) /\ within 400 (mu c) /\ within 900 (va c)) cs ->
  exists M V, Mixture.mean d = Ret M /\ finite64 M /\ Mixture.variance d = Ret V /\ finite64 V /\
    (Forall (fun c => B2R (mu c) = 0 /\ 0 <= B2R (va c)) cs -> 0 <= B2R V).
Proof.
  intros H HL HF. destruct (mixture_new_inv m ws cs d H) as (L & HW & _ & E1 & E2).
  set (sq := fun c => Bplus mode_NE (Bmult mode_NE (mu c) (mu c)) (va c)).
  assert (VF : forall cs0 ws0 a b, Forall (fun c => c_mean c = Ret (mu c) /\ c_variance c = Ret (va c) /\ within 400 (mu c) /\ within 900 (va c)) cs0 ->
    Mixture.var_fold (a, b) cs0 ws0 = Ret (wfold a ws0 (map mu cs0), wfold b ws0 (map sq cs0))).
  { clear. induction cs0 as [|c cs0 IH]; intros ws0 a b HF; [now destruct ws0|]. destruct ws0 as [|w ws0]; [reflexivity|]. inversion_clear HF as [|? ? (A & B & _) HF'].
    cbn [Mixture.var_fold map wfold]. rewrite A, B. cbn [rbind fst snd]. rewrite IH by exact HF'. reflexivity. }
  assert (WM : Forall (within 400) (map mu cs)) by (apply Forall_map; eapply Forall_impl; [|exact HF]; intros c (_ & _ & A & _); exact A).
  assert (WS : Forall (within 901) (map sq cs)).
  { apply Forall_map; eapply Forall_impl; [|exact HF]. intros c (_ & _ & [A1 A2] & [B1 B2]). change (B2R (mu c)) with (RV (mu c)) in A2. change (B2R (va c)) with (RV (va c)) in B2.
    assert (Q : forall e, (0 <= e <= 1000)%Z -> fmt64 (bpow radix2 e) /\ 0 <= bpow radix2 e < M64).
    { intros e He. split; [apply fmt_bpow; lia|]. split; [apply bpow_ge_0|]. change M64 with (bpow radix2 1024). apply bpow_lt. lia. }
    destruct (V_mult _ _ A1 A1) as [N E]. assert (QQ : Rabs (RV (mu c) * RV (mu c)) <= bpow radix2 800).
    { rewrite Rabs_mult. change 800%Z with (400 + 400)%Z. rewrite bpow_plus. apply Rmult_le_compat; auto using Rabs_pos. }
    destruct (Q 800%Z ltac:(lia)) as [Q1 Q2]. destruct (bnd_fin _ _ _ N E Q1 Q2 QQ) as [FP BP]. destruct (V_plus _ _ FP B1) as [N2 E2'].
    destruct (Q 901%Z ltac:(lia)) as [Q3 Q4]. destruct (bnd_fin _ _ (bpow radix2 901) N2 E2' Q3 Q4) as [FS BS]; [|split; [exact FS|exact BS]].
    apply Rle_trans with (1 := Rabs_triang _ _). change 901%Z with (900 + 1)%Z. rewrite bpow_plus. change (bpow radix2 1) with 2. assert (bpow radix2 800 <= bpow radix2 900) by (apply bpow_le; lia). lra. }
  destruct (wfold_within 400 ltac:(lia) ws _ zero64 0 HW WM eq_refl ltac:(cbn; rewrite Rabs_R0; lra) ltac:(cbn [Nat.add]; lia)) as [FM BM].
  destruct (wfold_within 901 ltac:(lia) ws _ zero64 0 HW WS eq_refl ltac:(cbn; rewrite Rabs_R0; lra) ltac:(cbn [Nat.add]; lia)) as [FV BV].
  cbn [Nat.add] in BM, BV. set (M := wfold zero64 ws (map mu cs)) in *. set (W := wfold zero64 ws (map sq cs)) in *.
  assert (LN : INR (length ws) <= bpow radix2 20) by (rewrite INR_IZR_INZ; change (bpow radix2 20) with (IZR (2 ^ 20)); apply IZR_le; lia).
  assert (PN := pos_INR (length ws)). assert (P4 := bpow_gt_0 radix2 400). assert (P9 := bpow_gt_0 radix2 901).
  assert (BM' : Rabs (RV M) <= bpow radix2 420) by (change 420%Z with (20 + 400)%Z; rewrite bpow_plus; apply Rle_trans with (1 := BM); apply Rmult_le_compat_r; lra).
  assert (BV' : Rabs (RV W) <= bpow radix2 921) by (change 921%Z with (20 + 901)%Z; rewrite bpow_plus; apply Rle_trans with (1 := BV); apply Rmult_le_compat_r; lra).
  assert (Q : forall e, (0 <= e <= 1000)%Z -> fmt64 (bpow radix2 e) /\ 0 <= bpow radix2 e < M64).
  { intros e He. split; [apply fmt_bpow; lia|]. split; [apply bpow_ge_0|]. change M64 with (bpow radix2 1024). apply bpow_lt. lia. }
  destruct (V_mult M M FM FM) as [N E]. destruct (Q 840%Z ltac:(lia)) as [Q1 Q2]. destruct (bnd_fin _ _ _ N E Q1 Q2) as [FP BP].
  { rewrite Rabs_mult. change 840%Z with (420 + 420)%Z. rewrite bpow_plus. apply Rmult_le_compat; auto using Rabs_pos. }
  destruct (V_minus W _ FV FP) as [N2 E3]. destruct (Q 922%Z ltac:(lia)) as [Q3 Q4]. destruct (bnd_fin _ _ (bpow radix2 922) N2 E3 Q3 Q4) as [FD BD].
  { unfold Rminus. apply Rle_trans with (1 := Rabs_triang _ _). rewrite Rabs_Ropp. change 922%Z with (921 + 1)%Z. rewrite bpow_plus. change (bpow radix2 1) with 2. assert (bpow radix2 840 <= bpow radix2 921) by (apply bpow_le; lia). lra. }
  exists M, (Bminus mode_NE W (Bmult mode_NE M M)). split.
  { unfold Mixture.mean. rewrite E1, E2. apply weighted_sum_val. eapply Forall_impl; [|exact HF]. intros c [A _]. exact A. }
  split; [exact FM|]. split.
  { unfold Mixture.variance. rewrite E1, E2. change ((#0)%rs : f64) with zero64. rewrite VF by exact HF. reflexivity. }
  split; [exact FD|]. intros HZ.
  assert (M0 : RV M = 0).
  { assert (G : forall cs0 ws0 a, Forall valid_prob ws0 -> Forall (fun c => within 400 (mu c) /\ B2R (mu c) = 0) cs0 -> fin a -> RV a = 0 -> RV (wfold a ws0 (map mu cs0)) = 0).
    { clear. induction cs0 as [|c cs0 IH]; intros [|w ws0] a HW HF Fa Ea; cbn [map wfold]; auto. inversion_clear HF as [|? ? [[A1 A2] A3] HF']. inversion_clear HW as [|? ? [Hw1 Hw2] HW'].
      destruct (V_mult w _ Hw1 A1) as [N E]. change (B2R (mu c)) with (RV (mu c)) in A3. rewrite A3, Rmult_0_r, sat_0 in E. assert (F : fin (Bmult mode_NE w (mu c))) by (apply V_fin_iff; [exact N|]; rewrite E; assert (MP := M64_pos); lra).
      rewrite V_fin in E by exact F. destruct (V_plus a _ Fa F) as [N' E']. rewrite Ea, E, Rplus_0_r, sat_0 in E'. assert (F' : fin (Bplus mode_NE a (Bmult mode_NE w (mu c)))) by (apply V_fin_iff; [exact N'|]; rewrite E'; assert (MP := M64_pos); lra).
      rewrite V_fin in E' by exact F'. apply IH; auto. }
    apply G; [exact HW| |reflexivity|reflexivity]. apply Forall_forall. intros c Hc. rewrite Forall_forall in HF, HZ. destruct (HF c Hc) as (_ & _ & A1 & _), (HZ c Hc) as [A2 _]; split; [exact A1|exact A2]. }
  assert (W0 : 0 <= RV W).
  { assert (NW : nnv W). { apply wfold_nn; [exact HW| |now apply le_nnv]. apply Forall_map. apply Forall_forall. intros c Hc. rewrite Forall_forall in HF, HZ. destruct (HF c Hc) as (_ & _ & [A1 A2] & [B1 B2]). destruct (HZ c Hc) as [Z1 Z2].
      rewrite Forall_forall in WS. destruct (WS (sq c) (in_map sq cs c Hc)) as [SF _]. split; [exact SF|]. apply nnv_le. unfold sq. apply plus_nn.
      - destruct (V_mult _ _ A1 A1) as [NN EE]. split; [exact NN|]. rewrite EE. apply sat_pos. change (B2R (mu c)) with (RV (mu c)) in Z1. rewrite Z1. lra.
      - split; [now apply fin_num|]. rewrite V_fin by exact B1. exact Z2. }
    destruct NW as [_ NW]. rewrite V_fin in NW by exact FV. exact NW. }
  change (0 <= RV (Bminus mode_NE W (Bmult mode_NE M M))). rewrite V_fin in E3 by exact FD. rewrite E3. apply sat_pos. rewrite V_fin in E by exact FP. rewrite E, M0, Rmult_0_l, sat_0. lra.
Qed.
End Mix.
Print Assumptions C161_cdf.
Print Assumptions C161_cdf_monotone.
Print Assumptions C161_pdf.
Print Assumptions C161_moments.

(** Refuted.  Accepted weights 1 and 2^-20 sum to more than one: where both components are at one,
    the returned Probability is 1 + 2^-20, which Probability::new rejects. *)
Theorem C161_cdf_refuted (m : Libm) {S C CP Sp X : Type} {K : Component f64 S C CP Sp X} (c1 c2 : C) (x : X) :
  c_cdf c1 x = Ret (Prob one64) -> c_cdf c2 x = Ret (Prob one64) ->
  exists d q, Mixture.new [one64; b64 1 (-20)] [c1; c2] = Ret (Ok d) /\ Mixture.cdf d x = Ret (Prob q) /\ 1 < B2R q /\ p_new q = Err (InvalidProbability q).
Proof.
  intros H1 H2. set (q := b64 (2 ^ 20 + 1) (-20)).
  assert (SN : simplex_new [one64; b64 1 (-20)] = Ok [one64; b64 1 (-20)]).
  { unfold simplex_new, simplex_try_from. assert (P1 : p_new (one64 : f64) = Ok (Prob one64)) by (apply (p_new_ok m), vp_one).
    assert (P2 : p_new (b64 1 (-20)) = Ok (Prob (b64 1 (-20)))).
    { apply (p_new_ok m). destruct (b64_pow2 (-20) ltac:(lia)) as [F W]. split; [exact F|]. change (B2R (b64 1 (-20))) with (RV (b64 1 (-20))). rewrite W. split; [apply bpow_ge_0|]. change 1 with (bpow radix2 0). apply bpow_le. lia. }
    cbn [simplex_loop]. rewrite P1. cbn [and_then Probability.unwrap]. rewrite P2. cbn [and_then Probability.unwrap].
    match goal with |- (if ?b then _ else _) = _ => assert (E : b = true) by (vm_compute; reflexivity); rewrite E end. reflexivity. }
  eexists _, q. split; [unfold Mixture.new; cbn [length Nat.eqb Mixture.compute_support rbind]; rewrite SN; cbn [map_err and_then]; reflexivity|].
  assert (QV : RV q = 1 + bpow radix2 (-20)).
  { assert (FQ : fmt64 (IZR (2 ^ 20 + 1) * bpow radix2 (-20))) by (apply fmt_scaled; lia).
    destruct (b64_spec (2 ^ 20 + 1) (-20)) as [_ W].
    - rewrite rnd_fmt by exact FQ. rewrite Rabs_pos_eq by (apply Rmult_le_pos; [apply IZR_le; lia|apply bpow_ge_0]).
      apply Rle_lt_trans with (bpow radix2 21 * bpow radix2 (-20)); [apply Rmult_le_compat_r; [apply bpow_ge_0|]; change (bpow radix2 21) with (IZR (2 ^ 21)); apply IZR_le; lia|]. rewrite <- bpow_plus. apply bpow_lt. lia.
    - unfold q. rewrite W, rnd_fmt by exact FQ. rewrite plus_IZR. change (IZR (2 ^ 20)) with (bpow radix2 20). rewrite Rmult_plus_distr_r, <- bpow_plus. change (bpow radix2 (20 + -20)) with 1. ring. }
  assert (G : 1 < RV q) by (rewrite QV; assert (P := bpow_gt_0 radix2 (-20)); lra).
  split; [|split; [exact G|apply (p_new_err m); intros [_ B]; change (B2R q) with (RV q) in B; lra]].
  unfold Mixture.cdf. cbn [Mixture.components Mixture.weights Mixture.weighted_sum]. rewrite H1, H2. cbn [rbind rmap Probability.unwrap]. unfold p_new_unchecked.
  match goal with |- Ret (Prob ?a) = _ => assert (E : (a : f64) = q) by (apply B2SF_inj; vm_compute; reflexivity) end. now f_equal; f_equal.
Qed.
Print Assumptions C161_cdf_refuted.
(** A weight of zero does not silence a component: 0 * infinity makes the density NaN. *)
Theorem C161_pdf_refuted (m : Libm) {S C CP Sp X : Type} {K : Component f64 S C CP Sp X} (c1 c2 : C) (x : X) (v : f64) :
  c_pdf c1 x = Ret v -> number v -> c_pdf c2 x = Ret (B754_infinity false : f64) ->
  exists d v', Mixture.new [one64; zero64] [c1; c2] = Ret (Ok d) /\ Mixture.pdf d x = Ret v' /\ is_nan v' = true.
Proof.
  intros H1 N H2.
  assert (SN : simplex_new [one64; zero64] = Ok [one64; zero64]).
  { unfold simplex_new, simplex_try_from. assert (P1 : p_new (one64 : f64) = Ok (Prob one64)) by (apply (p_new_ok m), vp_one).
    assert (P2 : p_new (zero64 : f64) = Ok (Prob zero64)) by (apply (p_new_ok m), vp_zero).
    cbn [simplex_loop]. rewrite P1. cbn [and_then Probability.unwrap]. rewrite P2. cbn [and_then Probability.unwrap].
    match goal with |- (if ?b then _ else _) = _ => assert (E : b = true) by (vm_compute; reflexivity); rewrite E end. reflexivity. }
  eexists _, _. split; [unfold Mixture.new; cbn [length Nat.eqb Mixture.compute_support rbind]; rewrite SN; cbn [map_err and_then]; reflexivity|].
  split. { unfold Mixture.pdf. cbn [Mixture.components Mixture.weights Mixture.weighted_sum]. rewrite H1. cbn [rbind]. match type of H2 with ?l = _ => change l with (c_pdf (F := f64) c2 x) in H2 end. rewrite H2. reflexivity. }
  change (is_nan (Bplus mode_NE (Bplus mode_NE zero64 (Bmult mode_NE one64 v)) (Bmult mode_NE zero64 (B754_infinity false))) = true).
  replace (Bmult mode_NE zero64 (B754_infinity false)) with (B754_nan : f64) by reflexivity. now destruct (Bplus mode_NE zero64 (Bmult mode_NE one64 v)).
Qed.
Print Assumptions C161_pdf_refuted.
(** The variance is computed as the difference of the second moment and the squared mean: two
    identical components of variance 1 and mean 244675115, with weights 3/8 and 5/8 that sum
    to one exactly, have the variance -8. *)
Theorem C161_variance_refuted (m : Libm) {S C CP Sp X : Type} {K : Component f64 S C CP Sp X} (c : C) :
  c_mean c = Ret (b64 244675115 0) -> c_variance c = Ret one64 ->
  exists d, Mixture.new [b64 3 (-3); b64 5 (-3)] [c; c] = Ret (Ok d) /\ dsum [b64 3 (-3); b64 5 (-3)] = one64 /\
    Mixture.mean d = Ret (b64 244675115 0) /\ Mixture.variance d = Ret (b64 (-8) 0).
Proof.
  intros H1 H2.
  assert (VP : forall k, (1 <= k <= 7)%Z -> valid_prob (b64 k (-3))).
  { intros k Hk. assert (FQ : fmt64 (IZR k * bpow radix2 (-3))) by (apply fmt_scaled; lia). assert (B : 0 <= IZR k * bpow radix2 (-3) <= 1).
    { assert (1 <= IZR k <= 7) by (split; apply IZR_le; lia). change (bpow radix2 (-3)) with (/ 8). lra. }
    destruct (b64_spec k (-3)) as [F W]; [rewrite rnd_fmt by exact FQ; rewrite Rabs_pos_eq by lra; apply Rle_lt_trans with 1; [lra|]; change 1 with (bpow radix2 0); apply bpow_lt; lia|].
    split; [exact F|]. change (B2R (b64 k (-3))) with (RV (b64 k (-3))). rewrite W, rnd_fmt by exact FQ. exact B. }
  assert (SN : simplex_new [b64 3 (-3); b64 5 (-3)] = Ok [b64 3 (-3); b64 5 (-3)]).
  { unfold simplex_new, simplex_try_from. assert (P1 : p_new (b64 3 (-3)) = Ok (Prob (b64 3 (-3)))) by (apply (p_new_ok m), VP; lia).
    assert (P2 : p_new (b64 5 (-3)) = Ok (Prob (b64 5 (-3)))) by (apply (p_new_ok m), VP; lia).
    cbn [simplex_loop]. rewrite P1. cbn [and_then Probability.unwrap]. rewrite P2. cbn [and_then Probability.unwrap].
    match goal with |- (if ?b then _ else _) = _ => assert (E : b = true) by (vm_compute; reflexivity); rewrite E end. reflexivity. }
  eexists. split; [unfold Mixture.new; cbn [length Nat.eqb Mixture.compute_support rbind]; rewrite SN; cbn [map_err and_then]; reflexivity|].
  split; [apply B2SF_inj; vm_compute; reflexivity|]. split.
  - unfold Mixture.mean. cbn [Mixture.components Mixture.weights Mixture.weighted_sum]. rewrite H1. cbn [rbind].
    match goal with |- Ret ?a = Ret ?b => assert (E : (a : f64) = b) by (apply B2SF_inj; vm_compute; reflexivity) end. now f_equal.
  - unfold Mixture.variance. cbn [Mixture.components Mixture.weights Mixture.var_fold]. rewrite H1, H2. cbn [rbind fst snd].
    match goal with |- Ret ?a = Ret ?b => assert (E : (a : f64) = b) by (apply B2SF_inj; vm_compute; reflexivity) end. now f_equal.
Qed.
Print Assumptions C161_variance_refuted.

(** Non-vacuity: the component is a double read as a point of the line, with a step distribution function. *)
Definition step_component {S : Type} (m : Libm) : Component f64 S f64 f64 unit f64 := {|
  c_cdf d x := Ret (Prob (if Bleb d x then one64 else zero64)); c_pdf d x := Ret (if Bleb d x then one64 else zero64);
  c_mean d := Ret d; c_variance d := Ret one64; c_sample d s := Ret (d, s); c_support d := tt; c_params d := d; c_from d := d; c_union a _ := a |}.
Example C161_nonvacuous (m : Libm) {S : Type} : let K := step_component (S := S) m in
  (forall c x : f64, exists p : f64, c_cdf c x = Ret (Prob p) /\ valid_prob p) /\
  (forall c x : f64, exists p : f64, c_pdf c x = Ret p /\ finite64 p /\ le64 zero64 p) /\
  (c_cdf zero64 zero64 = Ret (Prob one64)) /\
  (exists d, Mixture.new [one64; b64 1 (-20)] [zero64; one64] = Ret (Ok d)) /\
  within 400 (b64 244675115 0) /\ within 900 one64.
Proof.
  cbv zeta. split; [|split; [|split; [|split; [|split]]]].
  - intros c x. eexists. split; [reflexivity|]. destruct (Bleb c x); [apply vp_one|apply vp_zero].
  - intros c x. eexists. split; [reflexivity|]. destruct (Bleb c x); split; reflexivity.
  - reflexivity.
  - destruct (C161_cdf_refuted m (K := step_component (S := S) m) zero64 zero64 zero64 eq_refl eq_refl) as (d & _ & H & _).
    unfold Mixture.new in *. cbn [length Nat.eqb Mixture.compute_support rbind] in *. destruct (simplex_new _) as [q|]; cbn [map_err and_then] in *; [|discriminate]. eexists. reflexivity.
  - split; [reflexivity|]. assert (E : RV (b64 244675115 0) = 244675115) by (apply b64_z; lia). change (B2R (b64 244675115 0)) with (RV (b64 244675115 0)). rewrite E, Rabs_pos_eq by lra.
    apply Rle_trans with (bpow radix2 30); [change (bpow radix2 30) with 1073741824; lra|apply bpow_le; lia].
  - split; [reflexivity|]. change (B2R one64) with (RV one64). rewrite RV_one, Rabs_R1. change 1 with (bpow radix2 0). apply bpow_le. lia.
Qed.
