(** * C170: standardised values, derived parameters and scores in double arithmetic *)
From Coq Require Import Reals Lra Lia Psatz List ZArith Bool.
From Flocq Require Import Core IEEE754.BinarySingleNaN.
From Verif.Num Require Import Scalar F64.
From Verif.Model Require Import Rust Constraints Probability Params Consts Discrete Continuous Continuous2 Continuous3.
From Verif.Spec Require Import ParamSpec ProbSpec LibmSpec AccuracySpec.
From Verif.Proofs Require Import ConstraintProofs NewInv ProbProofs F64Order F64Pdf F64Acc ExpAcc.
From Verif.Properties Require Import C133_F64Cdf C161_F64Mixture C135_F64Pdf C152_F64Variance C160_F64Convolution C73_F64 C163_F64Accuracy C164_F64Densities C167_F64Discrete C168_F64MixtureAccuracy C169_F64Fits.
Import ListNotations.
Open Scope R_scope.

Lemma swi n N l h x r r' : sac n l h x r -> r = r' -> (n <= N)%nat -> (N <= 1000)%nat -> within N x r'.
Proof.
  intros [A|A] <- L M; [exact (wi n N l h x r r A eq_refl L M)|]. destruct (wi n N l h _ _ _ A eq_refl L M) as [F D]. destruct A as (F' & _). split.
  - destruct x; try discriminate F'; reflexivity.
  - replace (B2R x - r) with (- (B2R (Bopp x) - - r)) by (change (B2R (Bopp x)) with (RV (Bopp x)); rewrite RV_opp; change (RV x) with (B2R x); ring). rewrite Rabs_Ropp. rewrite Rabs_Ropp in D. exact D.
Qed.

Lemma acc_more n n' l h x r : acc n l h x r -> (n <= n')%nat -> acc n' l h x r.
Proof. intros A L. assert (P := acc_pos _ _ _ _ _ A). destruct A as (F & B & A). destruct (near_more n n' x r (conj F A) ltac:(lra) L) as (_ & W). split; [exact F|]. split; [exact B|exact W]. Qed.

(** ** Standardised values: (x - mu) / s to two roundings, on either side of mu *)
Theorem C170_standardised (m : Libm) (mu s x : f64) : finite64 mu -> finite64 x -> moderate s -> bpow radix2 (-100) <= Rabs (B2R x - B2R mu) <= bpow radix2 100 ->
  (forall d, Cauchy.new mu s = Ok d -> within 2 (Cauchy.z d x) ((B2R x - B2R mu) / B2R s)) /\
  (forall d, Logistic.new mu s = Ok d -> within 2 (Logistic.z d x) ((B2R x - B2R mu) / B2R s)) /\
  (forall d, Gumbel.new mu s = Ok d -> within 2 (Gumbel.z d x) ((B2R x - B2R mu) / B2R s)) /\
  (forall d, Cosine.new mu s = Ok d -> within 2 (Cosine.z d x) ((B2R x - B2R mu) / B2R s)) /\
  (forall d, UvNormal.new mu s = Ok d -> within 3 (UvNormal.z d x) ((B2R x - B2R mu) / sqrt (B2R s))).
Proof.
  intros Fm Fx M B. acs s. sm x mu. set (y := Bminus mode_NE x mu) in *.
  assert (Z2 : sac 2 (-200) 200 (Bdiv mode_NE y s) ((RV x - RV mu) / RV s)) by (eapply (sac_div 1 0 2 (-100) 100 (-100) 100); try eassumption; lia).
  assert (W : within 2 (Bdiv mode_NE y s) ((RV x - RV mu) / RV s)) by (eapply swi; [exact Z2|reflexivity|lia|lia]).
  repeat match goal with |- _ /\ _ => split end; intros d HN.
  - unfold Cauchy.new in HN. inv64 HN. exact W.
  - unfold Logistic.new in HN. inv64 HN. exact W.
  - unfold Gumbel.new in HN. inv64 HN. exact W.
  - unfold Cosine.new in HN. inv64 HN. exact W.
  - apply (normal_inv m) in HN. destruct HN as [-> _]. change (within 3 (Bdiv mode_NE y (Bsqrt mode_NE s)) ((RV x - RV mu) / sqrt (RV s))).
    assert (AS : acc 1 (-100) 100 (Bsqrt mode_NE s) (sqrt (RV s))) by (eapply acc_weak; [ac|lia|lia]).
    assert (Z3 : sac 3 (-200) 200 (Bdiv mode_NE y (Bsqrt mode_NE s)) ((RV x - RV mu) / sqrt (RV s))) by (eapply (sac_div 1 1 3 (-100) 100 (-100) 100); try eassumption; lia). eapply swi; [exact Z3|reflexivity|lia|lia].
Qed.
Print Assumptions C170_standardised.

(** ** Derived parameters *)
Theorem C170_derived (m : Libm) (mu s : f64) : moderate s ->
  (forall d, Cauchy.new mu s = Ok d -> within 1 (Cauchy.fwhm d) (2 * B2R s)) /\
  (forall d, UvNormal.new mu s = Ok d -> within 1 (UvNormal.precision d) (/ B2R s) /\ within 2 (UvNormal.width d) (2 / B2R s)) /\
  (forall d, FoldedNormal.new mu s = Ok d -> within 2 (FoldedNormal.precision d) (/ B2R s ^ 2)) /\
  (forall d k, Erlang.new k s = Ok d -> within 1 (Erlang.mu d) (/ B2R s)).
Proof.
  intros M. acs s. repeat match goal with |- _ /\ _ => split end; intros d.
  - intros H. unfold Cauchy.new in H. inv64 H. change (within 1 (Bmult mode_NE (b64 2 0) s) (2 * RV s)). wi.
  - intros H. apply (normal_inv m) in H. destruct H as [-> _]. split.
    + change (within 1 (Bdiv mode_NE (b64 1 0) s) (/ RV s)). wi.
    + change (within 2 (Bmult mode_NE (b64 2 0) (Bdiv mode_NE (b64 1 0) s)) (2 / RV s)). wi.
  - intros H. unfold FoldedNormal.new in H. inv64 H. change (within 2 (Bdiv mode_NE (Bdiv mode_NE (b64 1 0) s) s) (/ RV s ^ 2)). wi.
  - intros k H. unfold Erlang.new in H. inv64 H. change (within 1 (Bdiv mode_NE (b64 1 0) s) (/ RV s)). wi.
Qed.
Print Assumptions C170_derived.

(** ** Scores *)
Lemma sum_ok xs : forall a, Forall (fun x => (0 <= x)%Z) xs -> (0 <= a)%Z -> (a + total xs <= 2 ^ 53)%Z -> Poisson.sum_u64 a xs = Ret (a + total xs)%Z.
Proof.
  induction xs as [|x xs IH]; intros a H A L; cbn [Poisson.sum_u64 total fold_right] in *; [now rewrite Z.add_0_r|]. fold (total xs) in *. inversion_clear H as [|? ? Hx H']. assert (T := total_nonneg xs H').
  unfold u64, checked, U64_MAX. replace (Z.leb 0 (a + x) && Z.leb (a + x) (2 ^ 64 - 1))%bool with true by (symmetry; apply andb_true_intro; split; apply Z.leb_le; lia). cbn [rbind]. rewrite IH by (auto; lia). f_equal. lia.
Qed.
(** the value Poisson.score computes, n + (sum of the sample) / lambda, to two roundings (C72 shows that this is not the derivative) *)
Theorem C170_poisson_score (m : Libm) (l : f64) (xs : list Z) (d : Poisson.t f64) : moderate l -> Poisson.new l = Ok d -> Forall (fun x => (0 <= x)%Z) xs -> (1 <= total xs <= 2 ^ 53)%Z -> (Z.of_nat (length xs) <= 2 ^ 53)%Z ->
  exists v, Poisson.score d xs = Ret v /\ within 2 v (INR (length xs) + IZR (total xs) / B2R l).
Proof.
  intros M H Hx T L. acs l. unfold Poisson.new in H. inv64 H. assert (LN : (1 <= Z.of_nat (length xs))%Z) by (destruct xs; cbn [length total fold_right] in *; lia).
  unfold Poisson.score. cbv zeta. rewrite (sum_ok xs 0) by (auto; lia). cbn [rbind]. rewrite Z.add_0_l. eexists. split; [reflexivity|]. rewrite INR_IZR_INZ.
  assert (AT := count_acc (total xs) ltac:(lia)). assert (AN := count_acc (Z.of_nat (length xs)) ltac:(lia)). assert (ZT := acc_pos _ _ _ _ _ AT). assert (ZN := acc_pos _ _ _ _ _ AN).
  change (within 2 (Bplus mode_NE (b64 (Z.of_nat (length xs)) 0) (Bdiv mode_NE (b64 (total xs) 0) l)) (IZR (Z.of_nat (length xs)) + IZR (total xs) / RV l)). set (a := b64 (Z.of_nat (length xs)) 0) in *. set (b := b64 (total xs) 0) in *. wi.
Qed.
Print Assumptions C170_poisson_score.

(** sums of positive terms, each already rounded q times *)
Definition rsum (rs : list R) : R := fold_right Rplus 0 rs.
Lemma fsum_near N q : forall vs rs a (j : nat) s, Forall2 (fun v r => acc q (-300) 300 v r) vs rs -> near (q + j) a s -> 0 <= s <= INR j * bpow radix2 300 -> (j + length vs <= N)%nat -> (N <= 256)%nat -> (q <= 100)%nat ->
  near (q + (j + length vs)) (fold_left (fun acc x : f64 => Bplus mode_NE acc x) vs a) (s + rsum rs) /\ 0 <= rsum rs <= INR (length vs) * bpow radix2 300.
Proof.
  induction vs as [|v vs IH]; intros rs a j s HV HA HS HL HN Hq.
  - inversion HV; subst. cbn [fold_left length rsum fold_right]. rewrite Rplus_0_r, Nat.add_0_r. split; [exact HA|change (INR 0) with 0; lra].
  - inversion HV as [|? r ? rs0 Hv HV']; subst. cbn [fold_left length] in *. assert (Px := acc_pos _ _ _ _ _ Hv). destruct Hv as (X1 & [X2 X3] & X4). assert (NX : near q v r) by (split; assumption).
    assert (J8 : INR j <= bpow radix2 8) by (change (bpow radix2 8) with 256; replace 256 with (INR 256) by (rewrite INR_IZR_INZ; reflexivity); apply le_INR; lia). assert (IJ := pos_INR j). assert (B0 := bpow_gt_0 radix2 300).
    assert (U : s + r <= INR (S j) * bpow radix2 300) by (rewrite S_INR; lra). assert (J9 : INR (S j) <= bpow radix2 9) by (rewrite S_INR; change (bpow radix2 9) with 512; change (bpow radix2 8) with 256 in J8; lra).
    assert (UU : INR (S j) * bpow radix2 300 <= bpow radix2 900) by (apply Rle_trans with (bpow radix2 9 * bpow radix2 300); [apply Rmult_le_compat_r; lra|rewrite <- bpow_plus; apply bpow_le; lia]).
    assert (LB : bpow radix2 (-900) <= r) by (apply Rle_trans with (2 := X2); apply bpow_le; lia).
    assert (NS := near_plus (q + j) q a v s r HA NX (proj1 HS) ltac:(lra) ltac:(lra) ltac:(lia)). replace (S (Nat.max (q + j) q)) with (q + S j)%nat in NS by lia.
    destruct (IH rs0 _ (S j) (s + r) HV' NS ltac:(lra) ltac:(lia) HN Hq) as [G1 G2]. change (rsum (r :: rs0)) with (r + rsum rs0). split; [|rewrite S_INR; lra].
    replace (s + (r + rsum rs0)) with (s + r + rsum rs0) by ring. replace (j + S (length vs))%nat with (S j + length vs)%nat by lia. exact G1.
Qed.
Lemma fsum_within q vs rs : Forall2 (fun v r => acc q (-300) 300 v r) vs rs -> (1 <= length vs <= 256)%nat -> (q <= 100)%nat -> within (q + length vs) (fold_left (fun acc x : f64 => Bplus mode_NE acc x) vs zero64) (rsum rs).
Proof.
  intros HV [N1 N2] Hq. assert (N0 : near (q + 0) zero64 0) by (split; [reflexivity|change (RV zero64) with 0; rewrite !Rmult_0_r; lra]).
  destruct (fsum_near 256 q vs rs zero64 0 0 HV N0 ltac:(change (INR 0) with 0; lra) ltac:(lia) ltac:(lia) Hq) as [G [_ U]]. cbn [Nat.add] in G. rewrite Rplus_0_l in G. destruct G as (G1 & G2).
  assert (LB : bpow radix2 (-300) <= rsum rs). { destruct HV as [|v r vs rs Hv HV]; [cbn [length] in N1; lia|]. destruct (fsum_near 256 q vs rs zero64 0 0 HV N0 ltac:(change (INR 0) with 0; lra) ltac:(cbn [length] in N2; lia) ltac:(lia) Hq) as [_ [P _]]. destruct Hv as (_ & [X2 _] & _). change (rsum (r :: rs)) with (r + rsum rs). lra. }
  assert (A : acc (q + length vs) (-300) 308 (fold_left (fun acc x : f64 => Bplus mode_NE acc x) vs zero64) (rsum rs)).
  { split; [exact G1|]. split; [|exact G2]. split; [exact LB|]. apply Rle_trans with (1 := U). apply Rle_trans with (bpow radix2 8 * bpow radix2 300); [|rewrite <- bpow_plus; apply bpow_le; lia]. apply Rmult_le_compat_r; [apply bpow_ge_0|]. change (bpow radix2 8) with 256. replace 256 with (INR 256) by (rewrite INR_IZR_INZ; reflexivity). apply le_INR; lia. }
  eapply wi; [exact A|reflexivity|lia|lia].
Qed.
(** the value Bernoulli.score computes: the sum of 1 / p over the successes and 1 / (1 - p) over the failures (C72 shows that this is not the derivative) *)
Theorem C170_bernoulli_score (m : Libm) (p : f64) (xs : list bool) (d : Bernoulli.t f64) : moderate p -> B2R p < 1 -> Bernoulli.new p = Ok d -> (1 <= length xs <= 256)%nat ->
  within (length xs + 2) (Bernoulli.score d xs) (rsum (map (fun x : bool => if x then / B2R p else / (1 - B2R p)) xs)).
Proof.
  intros M L H HL. acs p. assert (AQ := not_one p (mod_fin p M) ltac:(lra)). set (q := Bminus mode_NE (b64 1 0) p) in *. assert (V : valid_prob p) by (split; [exact (mod_fin p M)|change (B2R p) with (RV p); lra]). rewrite (C73_F64.new_valid m p V) in H. injection H as <-.
  set (g := fun x : bool => Bdiv mode_NE (b64 1 0) (if x then p else q)).
  assert (E : Bernoulli.score (Bernoulli.new_unchecked p) xs = fold_left (fun acc x : f64 => Bplus mode_NE acc x) (map g xs) zero64).
  { unfold Bernoulli.score, fsum. rewrite (map_ext _ g) by (intros [|]; reflexivity). reflexivity. }
  rewrite E. clear E.
  rewrite Nat.add_comm, <- (map_length g xs). apply fsum_within; [|rewrite map_length; exact HL|lia]. clear HL. induction xs as [|x xs IH]; cbn [map]; constructor; [|exact IH].
  assert (A1 : acc 0 0 0 (b64 1 0) 1) by (apply (acc_int 1 0); [lia|cbn; lra]). unfold g. destruct x.
  - assert (W : acc 1 (0 - 100) (0 - (-100)) (Bdiv mode_NE (b64 1 0) p) (1 / RV p)) by (eapply acc_div; [exact A1|exact A|reflexivity|lia|lia|lia]). replace (1 / RV p) with (/ RV p) in W by (unfold Rdiv; ring). apply (acc_more 1); [|lia]. eapply acc_weak; [exact W|lia|lia].
  - assert (W : acc 2 (0 - 0) (0 - (-53)) (Bdiv mode_NE (b64 1 0) q) (1 / (1 - RV p))) by (eapply acc_div; [exact A1|exact AQ|reflexivity|lia|lia|lia]). replace (1 / (1 - RV p)) with (/ (1 - RV p)) in W by (unfold Rdiv; ring). eapply acc_weak; [exact W|lia|lia].
Qed.
Print Assumptions C170_bernoulli_score.

(** ** Non-vacuity *)
Example C170_nonvacuous (m : Libm) : let s := b64 3 (-1) in let h := b64 1 (-1) in finite64 one64 /\ finite64 zero64 /\ moderate s /\ bpow radix2 (-100) <= Rabs (B2R zero64 - B2R one64) <= bpow radix2 100 /\
  (exists d, Cauchy.new one64 s = Ok d) /\ (exists d, Logistic.new one64 s = Ok d) /\ (exists d, Gumbel.new one64 s = Ok d) /\ (exists d, Cosine.new one64 s = Ok d) /\ (exists d, UvNormal.new one64 s = Ok d) /\ (exists d, FoldedNormal.new one64 s = Ok d) /\ (exists d, Erlang.new 3 s = Ok d) /\ (exists d, Poisson.new s = Ok d) /\
  Forall (fun x => (0 <= x)%Z) [2; 0; 1]%Z /\ (1 <= total [2; 0; 1] <= 2 ^ 53)%Z /\ moderate h /\ B2R h < 1 /\ (exists d, Bernoulli.new h = Ok d).
Proof.
  cbv zeta. assert (PS : fltb (f_of_Z 0 : f64) (b64 3 (-1)) = true) by (vm_compute; reflexivity).
  Ltac okk w PS := exists w; etransitivity; [apply map_params_ok; cbn [args s1 s2 s3 fst snd]; repeat (apply Forall_cons || apply Forall_nil); unfold arg_ok; cbn [arg_ty arg_val field_ok]; first [exact I|exact PS|lia]|reflexivity].
  split; [reflexivity|]. split; [reflexivity|]. split; [split; vm_compute; reflexivity|]. split. { change (B2R zero64) with 0. change (B2R one64) with (RV one64). rewrite RV_one. replace (0 - 1) with (Ropp 1) by ring. rewrite Rabs_Ropp, Rabs_R1. change 1 with (bpow radix2 0). split; apply bpow_le; lia. }
  split; [okk (Cauchy.new_unchecked one64 (b64 3 (-1))) PS|]. split; [okk (Logistic.new_unchecked one64 (b64 3 (-1))) PS|]. split; [okk (Gumbel.new_unchecked one64 (b64 3 (-1))) PS|]. split; [okk (Cosine.new_unchecked one64 (b64 3 (-1))) PS|].
  split; [eexists; exact (normal_new64 m one64 (b64 3 (-1)) PS)|]. split; [okk (FoldedNormal.new_unchecked one64 (b64 3 (-1))) PS|]. split; [okk (Erlang.new_unchecked 3 (b64 3 (-1))) PS|]. split; [eexists; exact (poisson_new_ok m _ PS)|].
  split; [repeat constructor; lia|]. split; [cbn; lia|]. split; [split; vm_compute; reflexivity|]. assert (H2 : RV (b64 1 (-1)) = bpow radix2 (-1)) by (apply b64_pow2; lia). change (B2R (b64 1 (-1))) with (RV (b64 1 (-1))). rewrite H2. split; [change (bpow radix2 (-1)) with (/ 2); lra|].
  eexists. apply (C73_F64.new_valid m). split; [apply b64_pow2; lia|]. change (B2R (b64 1 (-1))) with (RV (b64 1 (-1))). rewrite H2. change (bpow radix2 (-1)) with (/ 2). lra.
Qed.
