(** * C171: log-likelihood and entropy of a coin in double arithmetic *)
From Coq Require Import Reals Lra Lia Psatz List ZArith Bool.
From Flocq Require Import Core IEEE754.BinarySingleNaN.
From Verif.Num Require Import Scalar F64.
From Verif.Model Require Import Rust Constraints Probability Params Consts Discrete.
From Verif.Spec Require Import ParamSpec ProbSpec LibmSpec.
From Verif.Proofs Require Import ConstraintProofs NewInv ProbProofs F64Order LibmInst F64Cdf F64Pdf.
From Verif.Properties Require Import C73_F64 C133_F64Cdf C135_F64Pdf C133_C135_F64More C152_F64Variance C155_F64Samples C161_F64Mixture.
Import ListNotations.
Open Scope R_scope.

Definition npv (x : f64) : Prop := num x /\ V x <= 0.
Lemma npv_le x : npv x -> le64 x zero64. Proof. intros [N L]. apply le_V; [exact N|reflexivity|]. change (V zero64) with 0. exact L. Qed.
Lemma le_npv x : le64 x zero64 -> npv x. Proof. intros L. destruct (le_num _ _ L) as [N _]. apply le_V1 in L. split; [exact N|exact L]. Qed.
Lemma plus_np x y : npv x -> npv y -> npv (Bplus mode_NE x y).
Proof.
  intros [Nx Lx] [Ny Ly]. assert (Q := M64_pos). destruct (inf_cases x Nx) as [Fx|[->| ->]]; destruct (inf_cases y Ny) as [Fy|[->| ->]]; try (cbn [V] in Lx, Ly; exfalso; lra).
  - destruct (V_plus x y Fx Fy) as [N E]. split; [exact N|]. rewrite E. apply sat_neg. rewrite V_fin in Lx, Ly by assumption. lra.
  - destruct x; try discriminate Fx; split; try reflexivity; cbn; lra.
  - destruct y; try discriminate Fy; split; try reflexivity; cbn; lra.
  - split; [reflexivity|cbn; lra].
Qed.
Lemma coin_q (p : f64) : valid_prob p -> valid_prob (Bminus mode_NE (b64 1 0) p) /\ RV (Bminus mode_NE (b64 1 0) p) = rnd (1 - RV p).
Proof.
  intros [F B]. change (B2R p) with (RV p) in B. destruct (V_minus (b64 1 0) p fin_b64_1 F) as [N E]. rewrite RV_b64_1 in E. assert (Q := M64_pos). assert (R1 : 0 <= rnd (1 - RV p) <= 1) by (split; [apply rnd_ge; [apply fmt_0|lra]|apply rnd_le_fmt; [apply fmt_1|lra]]).
  unfold sat in E. rewrite clamp_id in E by lra. assert (FQ : fin (Bminus mode_NE (b64 1 0) p)) by (apply V_fin_iff; [exact N|rewrite E; lra]). rewrite V_fin in E by exact FQ. split; [split; [exact FQ|]|exact E]. change (0 <= RV (Bminus mode_NE (b64 1 0) p) <= 1). rewrite E. exact R1.
Qed.
Lemma vp_le (p : f64) : valid_prob p -> le64 zero64 p /\ le64 p one64.
Proof. intros [F B]. assert (N := fin_num p F). split; apply le_V; try (exact N || reflexivity); rewrite (V_fin p F); [change (V zero64) with 0; apply B|]. rewrite (V_fin one64) by reflexivity. rewrite RV_one. apply B. Qed.
Lemma ber_inv (m : Libm) (p : f64) (d : Bernoulli.t f64) : Bernoulli.new p = Ok d -> valid_prob p /\ d = Bernoulli.new_unchecked p.
Proof.
  intros H. assert (V : valid_prob p \/ ~ valid_prob p) by apply Classical_Prop.classic. destruct V as [V|V].
  - rewrite (C73_F64.new_valid m p V) in H. injection H as <-. split; auto.
  - destruct (C73_F64.new_invalid m p V) as [e E]. congruence.
Qed.

Section Coin.
Context (m : Libm) (HL : ln_unit m).
(** the log-mass of every outcome, and the log-likelihood of every sample, is a number at most zero (possibly -infinity) *)
Theorem C171_log_pmf (p : f64) (d : Bernoulli.t f64) (b : bool) : Bernoulli.new p = Ok d -> le64 (Bernoulli.log_pmf d b) zero64.
Proof.
  intros H. destruct (ber_inv m p d H) as [V ->]. destruct b.
  - change (le64 (m_ln p) zero64). destruct (vp_le p V). now apply (ln_le0 m HL).
  - change (le64 (m_ln (Bminus mode_NE (b64 1 0) p)) zero64). destruct (vp_le _ (proj1 (coin_q p V))). now apply (ln_le0 m HL).
Qed.
Theorem C171_log_likelihood (p : f64) (d : Bernoulli.t f64) (xs : list bool) : Bernoulli.new p = Ok d -> le64 (Bernoulli.log_likelihood d xs) zero64.
Proof.
  intros H. unfold Bernoulli.log_likelihood, fsum. apply npv_le. assert (Z : npv (f_of_Z 0 : f64)) by (split; [reflexivity|cbn; lra]). revert Z. generalize (f_of_Z 0 : f64). induction xs as [|x xs IH]; intros a A; cbn [map fold_left]; [exact A|].
  apply IH. apply plus_np; [exact A|]. apply le_npv. exact (C171_log_pmf p d x H).
Qed.
(** the mass of an outcome that cannot happen makes the whole log-likelihood -infinity *)
Theorem C171_impossible (d : Bernoulli.t f64) (xs : list bool) : Bernoulli.new zero64 = Ok d -> In true xs -> Bernoulli.log_likelihood d xs = B754_infinity true.
Proof.
  intros H. destruct (ber_inv m _ d H) as [V E]. unfold Bernoulli.log_likelihood, fsum. assert (Z : npv (f_of_Z 0 : f64)) by (split; [reflexivity|cbn; lra]). revert Z. generalize (f_of_Z 0 : f64).
  assert (LT : Bernoulli.log_pmf d true = B754_infinity true) by (rewrite E; exact (ln_zero m HL)).
  assert (PI : forall x : f64, npv x -> Bplus mode_NE x (B754_infinity true) = B754_infinity true). { intros x [N L]. assert (Q := M64_pos). destruct x as [s|s| |s mm ee HH]; try discriminate N; [destruct s; reflexivity| |reflexivity]. destruct s; [reflexivity|cbn [F64Order.V] in L; lra]. }
  assert (PJ : forall x : f64, npv x -> Bplus mode_NE (B754_infinity true) x = B754_infinity true). { intros x [N L]. assert (Q := M64_pos). destruct x as [s|s| |s mm ee HH]; try discriminate N; [destruct s; reflexivity| |reflexivity]. destruct s; [reflexivity|cbn [F64Order.V] in L; lra]. }
  assert (ST : forall ys, fold_left fadd (map (Bernoulli.log_pmf d) ys) (B754_infinity true : f64) = B754_infinity true).
  { induction ys as [|y ys IH]; cbn [map fold_left]; [reflexivity|]. etransitivity; [|exact IH]. f_equal. apply PJ. apply le_npv. exact (C171_log_pmf _ d y H). }
  induction xs as [|x xs IH]; intros a A [].
  - subst x. cbn [map fold_left]. rewrite LT. etransitivity; [|exact (ST xs)]. f_equal. now apply PI.
  - cbn [map fold_left]. apply IH; [|assumption]. apply plus_np; [exact A|]. apply le_npv. exact (C171_log_pmf _ d x H).
Qed.

(** the entropy is a number between 0 and 74 *)
Lemma ent_term (p : f64) : fin p -> bpow radix2 (-53) <= RV p <= 1 -> num (Bmult mode_NE p (m_ln p)) /\ -37 <= V (Bmult mode_NE p (m_ln p)) <= 0 /\
  num (Bmult mode_NE (Bopp p) (m_ln p)) /\ 0 <= V (Bmult mode_NE (Bopp p) (m_ln p)) <= 37.
Proof.
  intros F B. assert (P0 := bpow_gt_0 radix2 (-53)). destruct (b64_pow2 (-53) ltac:(lia)) as [F53 V53]. assert (N := fin_num p F).
  assert (L1 : le64 (b64 1 (-53)) p) by (apply le_V; [now apply fin_num|exact N|]; rewrite !V_fin, V53 by assumption; lra). assert (L2 : le64 p one64) by (apply le_V; [exact N|reflexivity|]; rewrite (V_fin p F), (V_fin one64), RV_one by reflexivity; lra).
  assert (L0 : le64 zero64 p) by (apply le_V; [reflexivity|exact N|]; rewrite (V_fin p F); change (V zero64) with 0; lra).
  assert (U := ln_le0 m HL p L0 L2). assert (W := ln_lower m HL p L1 L2). destruct (b64_z (-37) ltac:(lia)) as [F37 V37]. destruct (le_num _ _ U) as [Nl _]. apply le_V1 in U. apply le_V1 in W. rewrite (V_fin _ F37), V37 in W. change (V zero64) with 0 in U.
  assert (Q := M64_pos). assert (M : 64 < M64) by (change M64 with (bpow radix2 1024); change 64 with (bpow radix2 6); apply bpow_lt; lia). set (l := m_ln p) in *. clearbody l. assert (Fl : fin l) by (apply V_fin_iff; [exact Nl|lra]). rewrite V_fin in U, W by exact Fl.
  destruct (V_mult p l F Fl) as [NM E]. split; [exact NM|]. split.
  - rewrite E. split; [|apply sat_neg; nra]. rewrite <- (sat_fmt (-37)); [apply sat_mono; nra|change (-37) with (IZR (-37)); apply fmt_IZR; lia|lra].
  - destruct (V_mult (Bopp p) l (fin_opp p F) Fl) as [NO EO]. rewrite RV_opp in EO. split; [exact NO|]. rewrite EO. split; [apply sat_pos; nra|]. rewrite <- (sat_fmt 37); [apply sat_mono; nra|change 37 with (IZR 37); apply fmt_IZR; lia|lra].
Qed.
(** a double below 2^-24 from which the guard of shannon_entropy does not fire *)
Lemma guard_near (c : f64) : fin c -> Rabs (RV c) <= bpow radix2 (-24) -> fltb (fabs c) (fdiv (f_of_Z 1) (f_of_Z 10000000) : f64) = true.
Proof.
  intros F B. destruct (b64_pow2 (-24) ltac:(lia)) as [F24 V24]. set (t := fdiv (f_of_Z 1) (f_of_Z 10000000) : f64). assert (FT : fin t) by (vm_compute; reflexivity). assert (LT : fltb (b64 1 (-24)) t = true) by (vm_compute; reflexivity).
  apply f64_lt in LT; [|exact F24|exact FT]. change (B2R (b64 1 (-24))) with (RV (b64 1 (-24))) in LT. rewrite V24 in LT. apply f64_lt; [destruct c; try discriminate F; reflexivity|exact FT|]. assert (E : B2R (fabs c) = Rabs (RV c)) by apply B2R_Babs. rewrite E. lra.
Qed.
Theorem C171_entropy (p : f64) (d : Bernoulli.t f64) : Bernoulli.new p = Ok d -> le64 zero64 (Bernoulli.shannon_entropy d) /\ le64 (Bernoulli.shannon_entropy d) (b64 74 0).
Proof.
  intros H. destruct (ber_inv m p d H) as [V ->]. destruct (coin_q p V) as [VQ EQ]. set (q := Bminus mode_NE (b64 1 0) p) in *. destruct V as [F B]. destruct VQ as [FQ BQ]. change (B2R p) with (RV p) in B. change (B2R q) with (RV q) in BQ.
  unfold Bernoulli.shannon_entropy. change (unwrap (Bernoulli.q (Bernoulli.new_unchecked p))) with q. change (unwrap (Bernoulli.p (Bernoulli.pr (Bernoulli.new_unchecked p)))) with p. cbv zeta.
  assert (P24 : 0 < bpow radix2 (-24) < 1) by (split; [apply bpow_gt_0|change 1 with (bpow radix2 0); apply bpow_lt; lia]). assert (P53 : bpow radix2 (-53) <= bpow radix2 (-24)) by (apply bpow_le; lia).
  match goal with |- context[if (?a || ?b)%bool then _ else _] => destruct a eqn:G1; [split; reflexivity|destruct b eqn:G2; [split; reflexivity|]] end. cbn [orb].
  assert (LQ : bpow radix2 (-24) < RV q). { apply Rnot_le_lt. intros L. refine (eq_true_false_abs _ (guard_near q FQ _) G1). rewrite Rabs_pos_eq by lra. exact L. }
  assert (LP : bpow radix2 (-24) < RV p). { apply Rnot_le_lt. intros L.
    assert (FM : fmt64 (1 - bpow radix2 (-24))). { replace (1 - bpow radix2 (-24)) with (IZR (2 ^ 24 - 1) * bpow radix2 (-24)); [apply fmt_scaled; lia|]. rewrite minus_IZR. change (IZR (2 ^ 24)) with (bpow radix2 24). rewrite Rmult_minus_distr_r, <- bpow_plus. change (bpow radix2 (24 + -24)) with 1. ring. }
    assert (Q1 : 1 - bpow radix2 (-24) <= RV q) by (rewrite EQ; apply rnd_ge; [exact FM|lra]).
    destruct (V_minus q (b64 1 0) FQ fin_b64_1) as [N E]. rewrite RV_b64_1 in E. assert (M := M64_pos).
    assert (S1 : - bpow radix2 (-24) <= sat (RV q - 1) <= 0) by (split; [rewrite <- (sat_fmt (- bpow radix2 (-24))); [apply sat_mono; lra|apply generic_format_opp, fmt_bpow; lia|lra]|apply sat_neg; lra]).
    assert (FD : fin (Bminus mode_NE q (b64 1 0))) by (apply V_fin_iff; [exact N|rewrite E; lra]). rewrite V_fin in E by exact FD.
    refine (eq_true_false_abs _ (guard_near (Bminus mode_NE q (b64 1 0)) FD _) G2). rewrite E, Rabs_left1; lra. }
  destruct (ent_term q FQ ltac:(lra)) as (_ & _ & N1 & B1). destruct (ent_term p F ltac:(lra)) as (N2 & B2 & _).
  change (le64 zero64 (Bminus mode_NE (Bmult mode_NE (Bopp q) (m_ln q)) (Bmult mode_NE p (m_ln p))) /\ le64 (Bminus mode_NE (Bmult mode_NE (Bopp q) (m_ln q)) (Bmult mode_NE p (m_ln p))) (b64 74 0)).
  set (x := Bmult mode_NE (Bopp q) (m_ln q)) in *. set (y := Bmult mode_NE p (m_ln p)) in *. clearbody x y. assert (M := M64_pos). assert (M7 : 128 < M64) by (change M64 with (bpow radix2 1024); change 128 with (bpow radix2 7); apply bpow_lt; lia).
  assert (Fx : fin x) by (apply V_fin_iff; [exact N1|lra]). assert (Fy : fin y) by (apply V_fin_iff; [exact N2|lra]). rewrite V_fin in B1, B2 by assumption. destruct (V_minus x y Fx Fy) as [N E].
  destruct (b64_z 74 ltac:(lia)) as [F74 V74]. split; apply le_V; try exact N; try reflexivity; try (now apply fin_num).
  - rewrite E. change (F64Order.V zero64) with 0. apply sat_pos. lra.
  - rewrite E, (V_fin _ F74), V74. rewrite <- (sat_fmt 74); [apply sat_mono; lra|change 74 with (IZR 74); apply fmt_IZR; lia|lra].
Qed.
End Coin.
Print Assumptions C171_log_pmf.
Print Assumptions C171_log_likelihood.
Print Assumptions C171_impossible.
Print Assumptions C171_entropy.

Lemma geo_new (m : Libm) (x : f64) : valid_prob x -> Geometric.new x = Ok (Geometric.new_unchecked x).
Proof. intros V. unfold Geometric.new. cbn. rewrite (p_new_ok m x V). reflexivity. Qed.
(** Geometric has no such guard: for p = 1 (the law concentrated on 0 trials before the success, entropy 0) the entropy is NaN *)
Theorem C171_geometric_refuted (m : Libm) : m_log2 zero64 = B754_infinity true -> finite64 (m_log2 one64) -> exists d, Geometric.new one64 = Ok d /\ Geometric.shannon_entropy d = B754_nan.
Proof.
  intros L0 F1. assert (V : valid_prob one64) by (split; [reflexivity|change (B2R one64) with (RV one64); rewrite RV_one; lra]).
  exists (Geometric.new_unchecked one64). split; [exact (geo_new m one64 V)|].
  assert (Q0 : Bminus mode_NE (b64 1 0) one64 = zero64) by (vm_compute; reflexivity).
  change (Bdiv mode_NE (Bminus mode_NE (Bmult mode_NE (Bopp (Bminus mode_NE (b64 1 0) one64)) (m_log2 (Bminus mode_NE (b64 1 0) one64))) (Bmult mode_NE one64 (m_log2 one64))) one64 = B754_nan). rewrite Q0, L0. reflexivity.
Qed.
Print Assumptions C171_geometric_refuted.
(** for every p that is not too close to 0 or 1 it is a number at least 0 *)
Definition log2_unit (m : Libm) : Prop := forall x, le64 (b64 1 (-53)) x -> le64 x one64 -> le64 (b64 (-53) 0) (m_log2 x) /\ le64 (m_log2 x) zero64.
Lemma log2_term (m : Libm) (p : f64) : log2_unit m -> fin p -> bpow radix2 (-53) <= RV p <= 1 -> (fin (Bmult mode_NE p (m_log2 p)) /\ RV (Bmult mode_NE p (m_log2 p)) <= 0) /\ (fin (Bmult mode_NE (Bopp p) (m_log2 p)) /\ 0 <= RV (Bmult mode_NE (Bopp p) (m_log2 p))).
Proof.
  intros HL F B. assert (P0 := bpow_gt_0 radix2 (-53)). destruct (b64_pow2 (-53) ltac:(lia)) as [F53 V53]. assert (N := fin_num p F).
  assert (L1 : le64 (b64 1 (-53)) p) by (apply le_V; [now apply fin_num|exact N|]; rewrite !V_fin, V53 by assumption; lra). assert (L2 : le64 p one64) by (apply le_V; [exact N|reflexivity|]; rewrite (V_fin p F), (V_fin one64), RV_one by reflexivity; lra).
  destruct (HL p L1 L2) as [W U]. destruct (b64_z (-53) ltac:(lia)) as [F37 V37]. destruct (le_num _ _ U) as [Nl _]. apply le_V1 in U. apply le_V1 in W. rewrite (V_fin _ F37), V37 in W. change (V zero64) with 0 in U.
  assert (Q := M64_pos). assert (M : 64 < M64) by (change M64 with (bpow radix2 1024); change 64 with (bpow radix2 6); apply bpow_lt; lia). set (l := m_log2 p) in *. clearbody l. assert (Fl : fin l) by (apply V_fin_iff; [exact Nl|lra]). rewrite V_fin in U, W by exact Fl.
  destruct (V_mult p l F Fl) as [NM E]. destruct (V_mult (Bopp p) l (fin_opp p F) Fl) as [NO EO]. rewrite RV_opp in EO.
  assert (B1 : -53 <= sat (RV p * RV l) <= 0) by (split; [rewrite <- (sat_fmt (-53)); [apply sat_mono; nra|change (-53) with (IZR (-53)); apply fmt_IZR; lia|lra]|apply sat_neg; nra]).
  assert (B2 : 0 <= sat (- RV p * RV l) <= 53) by (split; [apply sat_pos; nra|rewrite <- (sat_fmt 53); [apply sat_mono; nra|change 53 with (IZR 53); apply fmt_IZR; lia|lra]]).
  split.
  - assert (FM : fin (Bmult mode_NE p l)) by (apply V_fin_iff; [exact NM|rewrite E; lra]). split; [exact FM|]. rewrite V_fin in E by exact FM. lra.
  - assert (FM : fin (Bmult mode_NE (Bopp p) l)) by (apply V_fin_iff; [exact NO|rewrite EO; lra]). split; [exact FM|]. rewrite V_fin in EO by exact FM. lra.
Qed.
Theorem C171_geometric_partial (m : Libm) (p : f64) (d : Geometric.t f64) : log2_unit m -> Geometric.new p = Ok d -> le64 (b64 1 (-53)) p -> le64 p (Bminus mode_NE one64 (b64 1 (-53))) -> le64 zero64 (Geometric.shannon_entropy d).
Proof.
  intros HL H L1 L2. unfold Geometric.new in H. inv_new H. destruct (b64_pow2 (-53) ltac:(lia)) as [F53 V53]. assert (M := M64_pos).
  assert (P0 := bpow_gt_0 radix2 (-53)). assert (P1 : bpow radix2 (-53) <= / 2) by (change (/ 2) with (bpow radix2 (-1)); apply bpow_le; lia).
  assert (U : fin (Bminus mode_NE one64 (b64 1 (-53))) /\ RV (Bminus mode_NE one64 (b64 1 (-53))) = 1 - bpow radix2 (-53)).
  { destruct (V_minus one64 (b64 1 (-53)) eq_refl F53) as [N E]. rewrite RV_one, V53 in E. assert (FM : fmt64 (1 - bpow radix2 (-53))). { replace (1 - bpow radix2 (-53)) with (IZR (2 ^ 53 - 1) * bpow radix2 (-53)); [apply fmt_scaled; lia|]. rewrite minus_IZR. change (IZR (2 ^ 53)) with (bpow radix2 53). rewrite Rmult_minus_distr_r, <- bpow_plus. change (bpow radix2 (53 + -53)) with 1. ring. }
    rewrite sat_fmt in E by (auto; lra). assert (F : fin (Bminus mode_NE one64 (b64 1 (-53)))) by (apply V_fin_iff; [exact N|rewrite E; lra]). rewrite V_fin in E by exact F. auto. }
  destruct U as [FU VU]. destruct (le_num _ _ L1) as [_ Np]. apply le_V1 in L1. apply le_V1 in L2. rewrite (V_fin _ F53), V53 in L1. rewrite (V_fin _ FU), VU in L2. assert (F : fin p) by (apply V_fin_iff; [exact Np|lra]). rewrite V_fin in L1, L2 by exact F.
  destruct (coin_q p ltac:(split; [exact F|change (B2R p) with (RV p); lra])) as [[FQ BQ] EQ]. change (B2R (Bminus mode_NE (b64 1 0) p)) with (RV (Bminus mode_NE (b64 1 0) p)) in BQ.
  change (le64 zero64 (Bdiv mode_NE (Bminus mode_NE (Bmult mode_NE (Bopp (Bminus mode_NE (b64 1 0) p)) (m_log2 (Bminus mode_NE (b64 1 0) p))) (Bmult mode_NE p (m_log2 p))) p)).
  set (q := Bminus mode_NE (b64 1 0) p) in *. assert (QL : bpow radix2 (-53) <= RV q) by (rewrite EQ; apply rnd_ge; [apply fmt_bpow; lia|lra]).
  destruct (log2_term m q HL FQ ltac:(lra)) as [_ [F1 X1]]. destruct (log2_term m p HL F ltac:(lra)) as [[F2 X2] _]. set (x := Bmult mode_NE (Bopp q) (m_log2 q)) in *. set (y := Bmult mode_NE p (m_log2 p)) in *. clearbody x y. destruct (V_minus x y F1 F2) as [N E].
  apply nnv_le. apply div_pf; [|split; [exact F|lra]]. split; [exact N|]. rewrite E. apply sat_pos. lra.
Qed.
Print Assumptions C171_geometric_partial.

(** a libm whose base-2 logarithm is the correctly rounded one, -infinity at 0 *)
Definition log2_libm : Libm := {|
  m_exp := cr_exp; m_ln := cr_ln; m_log2 x := match x with B754_zero _ => B754_infinity true | _ => r2f (ln (RV x) / ln 2) end;
  m_sin x := r2f (sin (RV x)); m_cos x := r2f (cos (RV x)); m_tan x := r2f (tan (RV x));
  m_asin := cr_asin; m_atan := cr_atan; m_powf := cr_pow; m_powi x n := r2f (powerRZ (RV x) n) |}.

(** ** Non-vacuity *)
Lemma log2_libm_unit : log2_unit log2_libm.
Proof.
  intros x L1 L2. destruct (b64_pow2 (-53) ltac:(lia)) as [F53 V53]. destruct (b64_z (-53) ltac:(lia)) as [FL VL]. assert (M := M64_pos). assert (P0 := bpow_gt_0 radix2 (-53)). assert (M64' : 64 < M64) by (change M64 with (bpow radix2 1024); change 64 with (bpow radix2 6); apply bpow_lt; lia).
  destruct (le_num _ _ L1) as [_ N]. apply le_V1 in L1. apply le_V1 in L2. rewrite (V_fin _ F53), V53 in L1. rewrite (V_fin one64), RV_one in L2 by reflexivity. assert (F : fin x) by (apply V_fin_iff; [exact N|lra]). rewrite V_fin in L1, L2 by exact F.
  assert (E : @m_log2 log2_libm x = r2f (ln (RV x) / ln 2)) by (destruct x; try discriminate F; [cbn in L1; lra|reflexivity]). rewrite E. set (r := ln (RV x) / ln 2).
  assert (LN2 : 0 < ln 2) by (rewrite <- ln_1; apply ln_increasing; lra). assert (U : ln (RV x) <= 0) by (rewrite <- ln_1; destruct (Rle_lt_or_eq_dec _ _ L2) as [L|L]; [left; apply ln_increasing; lra|rewrite L; lra]).
  assert (W : -53 * ln 2 <= ln (RV x)). { assert (EB : ln (bpow radix2 (-53)) = -53 * ln 2) by (rewrite bpow_exp, ln_exp; change (IZR (radix_val radix2)) with 2; ring). rewrite <- EB. destruct (Rle_lt_or_eq_dec _ _ L1) as [L|L]; [left; apply ln_increasing; lra|rewrite L; lra]. }
  assert (B : -53 <= r <= 0). { unfold r. split; apply (Rmult_le_reg_r (ln 2)); try exact LN2; unfold Rdiv; rewrite Rmult_assoc, Rinv_l, Rmult_1_r by lra; lra. }
  clearbody r. destruct (r2f_V r) as [NR VR]. split; apply le_V; try exact NR; try (now apply fin_num); rewrite VR; [rewrite (V_fin _ FL), VL; rewrite <- (sat_fmt (-53)); [apply sat_mono; lra|change (-53) with (IZR (-53)); apply fmt_IZR; lia|lra]|change (V zero64) with 0; apply sat_neg; lra].
Qed.
Example C171_nonvacuous : ln_unit ln_libm /\ (let m := ln_libm in exists d, Bernoulli.new zero64 = Ok d) /\ (let m := ln_libm in exists d, Bernoulli.new half64 = Ok d) /\ @m_log2 log2_libm zero64 = B754_infinity true /\ finite64 (@m_log2 log2_libm one64) /\
  log2_unit log2_libm /\ (let m := log2_libm in exists d, Geometric.new half64 = Ok d) /\ le64 (b64 1 (-53)) half64 /\ le64 half64 (Bminus mode_NE one64 (b64 1 (-53))).
Proof.
  assert (VH : valid_prob half64) by (destruct (b64_pow2 (-1) ltac:(lia)) as [F1 V1]; split; [exact F1|change (B2R half64) with (RV (b64 1 (-1))); rewrite V1; change (bpow radix2 (-1)) with (/ 2); lra]).
  split; [exact ln_libm_unit|]. split; [eexists; apply (C73_F64.new_valid ln_libm); split; [reflexivity|cbn; lra]|]. split; [eexists; exact (C73_F64.new_valid ln_libm half64 VH)|].
  split; [reflexivity|]. split. { change (finite64 (r2f (ln (RV one64) / ln 2))). rewrite RV_one, ln_1. unfold Rdiv. rewrite Rmult_0_l. rewrite r2f_tiny; [reflexivity|lra|apply bpow_gt_0]. }
  split; [exact log2_libm_unit|]. split; [eexists; exact (geo_new log2_libm half64 VH)|]. split; vm_compute; reflexivity.
Qed.
