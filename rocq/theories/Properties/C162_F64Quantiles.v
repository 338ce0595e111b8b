(** * C162: quantiles and medians in doubles *)
From Coq Require Import Reals Lra Lia Psatz List ZArith Bool.
From Flocq Require Import Core IEEE754.BinarySingleNaN.
From Verif.Num Require Import Scalar F64.
From Verif.Model Require Import Rust Constraints Probability Params Consts Continuous Continuous2.
From Verif.Spec Require Import ParamSpec ProbSpec LibmSpec GammaSpec.
From Verif.Proofs Require Import ConstraintProofs NewInv ProbProofs F64Order LibmInst F64Cdf F64Pdf PiBound UniformF64 DiscProofs7 XTac.
From Verif.Properties Require Import C133_F64Cdf C135_F64Pdf C133_C135_F64More C152_F64Variance C153_F64Mean C155_F64Samples.
Import ListNotations.
Open Scope R_scope.

(** a quantile function in doubles: a number for every probability, never decreasing *)
Definition quantile64 (q : Probability f64 -> f64) : Prop :=
  (forall p, valid_prob p -> number (q (Prob p))) /\
  (forall p p', valid_prob p -> valid_prob p' -> le64 p p' -> le64 (q (Prob p)) (q (Prob p'))).
(** what the medians need of libm: ln 2 and ln (ln 2), and powers of two *)
Record libm_two (m : Libm) : Prop := {
  ln_two : finite64 (m_ln (b64 2 0)) /\ lt64 zero64 (m_ln (b64 2 0)) /\ le64 (m_ln (b64 2 0)) one64;
  ln_ln_two : finite64 (m_ln (m_ln (b64 2 0))) /\ le64 (m_ln (m_ln (b64 2 0))) zero64;
  pow_two : forall y, lt64 zero64 y -> le64 one64 (m_powf (b64 2 0) y)
}.

Lemma vp_le p p' : valid_prob p -> valid_prob p' -> le64 p p' -> B2R p <= B2R p'.
Proof. intros [F _] [F' _] L. apply le_V1 in L. rewrite !V_fin in L by assumption. exact L. Qed.

(** Uniform: from the lower to the upper bound *)
Theorem C162_uniform (m : Libm) (l w : f64) (d : UniformF.t f64) : UniformF.new l w = Ok d -> finite64 l -> finite64 w ->
  quantile64 (UniformF.quantile d) /\ (forall p, valid_prob p -> between64 l (UniformF.quantile d (Prob p)) (UniformF.ub d)).
Proof.
  intros H Fl F. unfold UniformF.new, UniformF.params_new, loc_new, scale_new in H. destruct (check (AllS Positive) w) eqn:E; [|discriminate H]. apply check_ok_inv in E as [-> E]. injection H as <-.
  change (lt64 zero64 w) in E. assert (P : PF w) by pf. destruct P as [Fw Pw]. assert (BW := fin_lt w Fw). assert (BL := fin_lt l Fl).
  set (t := fun p : f64 => Bmult mode_NE p w). set (q := fun p : f64 => Bplus mode_NE l (t p)).
  assert (T : forall p, valid_prob p -> fin (t p) /\ RV (t p) = sat (RV p * RV w) /\ 0 <= RV (t p) <= RV w).
  { intros p [Fp Bp]. fold (RV p) in Bp. destruct (V_mult p w Fp Fw) as [N V0]. fold (t p) in N, V0.
    assert (G : 0 <= sat (RV p * RV w) <= RV w). { split; [apply sat_pos, Rmult_le_pos; lra|]. rewrite <- (sat_fmt (RV w) (fmt_RV w) ltac:(lra)) at 2. apply sat_mono. nra. }
    assert (FT : fin (t p)) by (apply V_fin_iff; [exact N|rewrite V0; lra]). rewrite V_fin in V0 by exact FT. rewrite V0. auto. }
  assert (Q : forall p, valid_prob p -> num (q p) /\ V (q p) = sat (RV l + RV (t p))) by (intros p Hp; destruct (T p Hp) as (FT & _ & _); now apply V_plus).
  assert (MT : forall p p', valid_prob p -> valid_prob p' -> le64 p p' -> RV (t p) <= RV (t p')).
  { intros p p' Hp Hp' L. destruct (T p Hp) as (_ & -> & _). destruct (T p' Hp') as (_ & -> & _). apply sat_mono, Rmult_le_compat_r; [lra|]. now apply vp_le. }
  split; [split|].
  - intros p Hp. exact (proj1 (Q p Hp)).
  - intros p p' Hp Hp' L. change (le64 (q p) (q p')). destruct (Q p Hp) as [N1 E1]. destruct (Q p' Hp') as [N2 E2]. apply le_V2; auto. rewrite E1, E2. apply sat_mono. assert (A := MT p p' Hp Hp' L). lra.
  - intros p Hp. change (between64 l (q p) (Bplus mode_NE l w)). destruct (Q p Hp) as [N1 E1]. destruct (T p Hp) as (_ & _ & B). destruct (V_plus l w Fl Fw) as [N2 E2]. split; apply le_V2; auto; [now apply fin_num| |].
    + rewrite E1, V_fin by exact Fl. rewrite <- (sat_fmt (RV l) (fmt_RV l) ltac:(lra)) at 1. apply sat_mono. lra.
    + rewrite E1, E2. apply sat_mono. lra.
Qed.
Print Assumptions C162_uniform.

(** mu + s * y for a number y: a number, never decreasing in y *)
Section Affine.
Context (mu s : f64) (Fm : fin mu) (Fs : fin s) (Ps : 0 < RV s).
Definition aff (y : f64) : f64 := Bplus mode_NE mu (Bmult mode_NE s y).
Lemma aff_num y : num y -> num (aff y).
Proof. intros N. destruct (c_mult y s N Fs Ps) as [A _]. now destruct (c_plus _ mu A Fm). Qed.
Lemma aff_mono y z : num y -> num z -> V y <= V z -> le64 (aff y) (aff z).
Proof.
  intros Ny Nz L. apply le_V2; [now apply aff_num|now apply aff_num|]. destruct (c_mult y s Ny Fs Ps) as [A Ea]. destruct (c_mult z s Nz Fs Ps) as [B Eb].
  unfold aff. destruct (c_plus _ mu A Fm) as [_ ->]. destruct (c_plus _ mu B Fm) as [_ ->]. apply lift_mono; auto; [intros; lra|]. rewrite Ea, Eb. apply lift_mono; auto. intros. apply Rmult_le_compat_l; lra.
Qed.
Lemma aff_ge y : num y -> 0 <= V y -> le64 mu (aff y).
Proof.
  intros N P. assert (E : aff zero64 = mu \/ V (aff zero64) = V mu).
  { right. unfold aff. destruct (c_mult zero64 s eq_refl Fs Ps) as [A Ea]. destruct (c_plus _ mu A Fm) as [_ ->].
    rewrite lift_fin in Ea by reflexivity. change (RV zero64) with 0 in Ea. rewrite Rmult_0_r, sat_0 in Ea. assert (M := M64_pos). assert (F : fin (Bmult mode_NE s zero64)) by (apply V_fin_iff; [exact A|rewrite Ea; lra]).
    rewrite lift_fin by exact F. rewrite V_fin in Ea by exact F. rewrite Ea, Rplus_0_r, V_fin by exact Fm. assert (B := fin_lt mu Fm). apply sat_fmt; [apply fmt_RV|lra]. }
  assert (MO : le64 (aff zero64) (aff y)) by (apply aff_mono; [reflexivity|exact N|rewrite V_zero; exact P]). apply le_V1 in MO. apply le_V2; [now apply fin_num|now apply aff_num|].
  destruct E as [E|E]; [rewrite E in MO; exact MO|rewrite <- E; exact MO].
Qed.
End Affine.

(** Normal, given that the inverse of the standard normal distribution function is a number and monotone *)
Theorem C162_normal (m : Libm) (SP : Special f64) (mu v : f64) (d : UvNormal.t f64) :
  (forall p, valid_prob p -> number (sf_norm_inv p)) -> (forall p p', valid_prob p -> valid_prob p' -> le64 p p' -> le64 (sf_norm_inv p) (sf_norm_inv p')) ->
  UvNormal.new mu v = Ok d -> finite64 mu -> finite64 v -> quantile64 (UvNormal.quantile d).
Proof.
  intros HN HM H Fm Fv. destruct (normal_inv m mu v d H) as [-> Hv]. assert (Pv := fin_pos v Fv Hv). destruct (sqrt_pos64 v Fv Pv) as [FS PS].
  split.
  - intros p Hp. exact (aff_num mu (Bsqrt mode_NE v) Fm FS PS (sf_norm_inv p) (HN p Hp)).
  - intros p p' Hp Hp' L. exact (aff_mono mu (Bsqrt mode_NE v) Fm FS PS _ _ (HN p Hp) (HN p' Hp') (le_V1 _ _ (HM p p' Hp Hp' L))).
Qed.
Print Assumptions C162_normal.

(** Cauchy, given that tan is a number and monotone on the doubles within pi/2 *)
Definition tan_ok (m : Libm) : Prop :=
  (forall y, le64 (Bopp half_pi64) y -> le64 y half_pi64 -> number (m_tan y)) /\
  (forall y z, le64 (Bopp half_pi64) y -> le64 y z -> le64 z half_pi64 -> le64 (m_tan y) (m_tan z)).
Theorem C162_cauchy (m : Libm) (x g : f64) (d : Cauchy.t f64) : tan_ok m ->
  Cauchy.new x g = Ok d -> finite64 x -> finite64 g -> quantile64 (Cauchy.quantile d).
Proof.
  intros [TN TM] H Fx Fg. unfold Cauchy.new in H. inv64 H. assert (Pg := fin_pos g Fg HP0).
  set (pi64 := b64 7074237752028440 (-51)). set (half := Bdiv mode_NE (b64 1 0) (b64 2 0)).
  assert (EH : half = b64 1 (-1)) by (apply B2SF_inj; vm_compute; reflexivity).
  assert (Fh : fin half /\ RV half = / 2). { rewrite EH. destruct (b64_pow2 (-1) ltac:(lia)) as [A B]. split; [exact A|rewrite B; reflexivity]. } destruct Fh as [Fh Vh].
  assert (Fpi : fin pi64) by (vm_compute; reflexivity). assert (HPF := proj1 HP_val). assert (PH := proj2 HP_val). clear HP HP0. set (HP := RV half_pi64) in *. change LibmInst.HP with HP in PH.
  set (a := fun p : f64 => Bmult mode_NE pi64 (Bminus mode_NE p half)).
  assert (EP : RV pi64 = 2 * HP).
  { assert (FQ : forall e, (-60 <= e <= 0)%Z -> fin (b64 7074237752028440 e) /\ RV (b64 7074237752028440 e) = IZR 7074237752028440 * bpow radix2 e).
    { intros e He. assert (FF : fmt64 (IZR 7074237752028440 * bpow radix2 e)) by (apply fmt_scaled; lia). destruct (b64_spec 7074237752028440 e) as [A B].
      - rewrite rnd_fmt by exact FF. rewrite Rabs_pos_eq by (apply Rmult_le_pos; [lra|apply bpow_ge_0]). apply Rle_lt_trans with (IZR 7074237752028440 * bpow radix2 0); [apply Rmult_le_compat_l; [lra|apply bpow_le; lia]|].
        change (bpow radix2 0) with 1. rewrite Rmult_1_r. apply Rlt_le_trans with (IZR (2 ^ 53)); [apply IZR_lt; reflexivity|]. change (IZR (2 ^ 53)) with (bpow radix2 53). apply bpow_le. lia.
      - split; [exact A|]. rewrite B. apply rnd_fmt, FF. }
    unfold pi64, HP, half_pi64. rewrite (proj2 (FQ (-51)%Z ltac:(lia))), (proj2 (FQ (-52)%Z ltac:(lia))). change (-51)%Z with (1 + -52)%Z. rewrite bpow_plus. change (bpow radix2 1) with 2. ring. }
  assert (A : forall p, valid_prob p -> exists r, fin r /\ r = Bminus mode_NE p half /\ RV r = rnd (RV p - / 2) /\ - / 2 <= RV r <= / 2).
  { intros p [Fp Bp]. fold (RV p) in Bp. eexists. split; [|split; [reflexivity|]]; destruct (V_minus p half Fp Fh) as [N E]; rewrite Vh in E.
    - apply V_fin_iff; [exact N|]. rewrite E. assert (M := M64_pos). split; [apply Rlt_le_trans with (-1); [lra|]|apply Rle_lt_trans with 1; [apply sat_le1; lra|lra]]. assert (S1 : sat (-1) = -1) by (apply sat_fmt; [apply (fmt_IZR (-1)); lia|lra]). rewrite <- S1. apply sat_mono. lra.
    - assert (L2 : rnd (/ 2) = / 2) by (rewrite <- Vh; apply rnd_RV). assert (U : rnd (RV p - / 2) <= / 2) by (rewrite <- L2 at 2; apply rnd_le; lra).
      assert (L : - / 2 <= rnd (RV p - / 2)). { rewrite <- L2 at 1. rewrite <- rnd_opp. apply rnd_le. lra. }
      assert (M := M64_pos). assert (F : fin (Bminus mode_NE p half)). { apply V_fin_iff; [exact N|]. rewrite E. unfold sat. rewrite clamp_id by lra. lra. }
      rewrite V_fin in E by exact F. unfold sat in E. rewrite clamp_id in E by lra. rewrite E. auto. }
  assert (B : forall p, valid_prob p -> num (a p) /\ V (a p) = sat (RV pi64 * RV (Bminus mode_NE p half)) /\ - HP <= V (a p) <= HP).
  { intros p Hp. destruct (A p Hp) as (r & Fr & -> & _ & Br). destruct (V_mult pi64 _ Fpi Fr) as [N E]. split; [exact N|]. split; [exact E|]. change (V (a p)) with (V (Bmult mode_NE pi64 (Bminus mode_NE p half))). rewrite E. assert (M := M64_pos).
    assert (FH : fmt64 HP) by apply fmt_RV. assert (S1 : sat HP = HP) by (apply sat_fmt; [exact FH|lra]). assert (S2 : sat (- HP) = - HP) by (apply sat_fmt; [apply generic_format_opp; exact FH|lra]).
    rewrite EP. split; [rewrite <- S2|rewrite <- S1 at 2]; apply sat_mono; nra. }
  assert (OP : V (Bopp half_pi64) = - HP) by (rewrite V_opp, (V_fin half_pi64) by exact HPF; reflexivity). assert (OQ : V half_pi64 = HP) by (rewrite (V_fin half_pi64) by exact HPF; reflexivity).
  assert (RA : forall p, valid_prob p -> le64 (Bopp half_pi64) (a p) /\ le64 (a p) half_pi64).
  { intros p Hp. destruct (B p Hp) as (N & _ & L & U). split; apply le_V2; auto; try (rewrite ?OP, ?OQ; lra); try (vm_compute; reflexivity). }
  split.
  - intros p Hp. destruct (RA p Hp). exact (aff_num x g Fx Fg Pg (m_tan (a p)) (TN _ H H0)).
  - intros p p' Hp Hp' L. destruct (RA p Hp) as [L1 U1]. destruct (RA p' Hp') as [L2 U2].
    apply (aff_mono x g Fx Fg Pg (m_tan (a p)) (m_tan (a p')) (TN _ L1 U1) (TN _ L2 U2)). apply le_V1, TM; auto.
    destruct (B p Hp) as (N & E & _). destruct (B p' Hp') as (N' & E' & _). apply le_V2; auto. rewrite E, E'. apply sat_mono, Rmult_le_compat_l; [rewrite EP; lra|].
    destruct (A p Hp) as (r & Fr & Er & Vr & _). destruct (A p' Hp') as (r' & Fr' & Er' & Vr' & _). rewrite <- Er, <- Er', Vr, Vr'. apply rnd_le. assert (X := vp_le p p' Hp Hp' L). fold (RV p) in X. fold (RV p') in X. lra.
Qed.
Print Assumptions C162_cauchy.

(** Exponential, refuted: every quantile is at most zero, and the quantile of 0 is not 0 *)
Theorem C162_exponential_refuted (m : Libm) (l : f64) (d : Exponential.t f64) : Exponential.new l = Ok d -> finite64 l ->
  (forall p, valid_prob p -> le64 (Exponential.quantile d (Prob p)) zero64) /\ lt64 (Exponential.quantile d (Prob zero64)) zero64.
Proof.
  intros H F. unfold Exponential.new in H. inv64 H. assert (P := fin_pos l F HP).
  assert (G : forall p, valid_prob p -> let q := Bminus mode_NE (b64 1 0) p in num (Bdiv mode_NE (Bopp q) l) /\ V (Bdiv mode_NE (Bopp q) l) = sat (- RV q / RV l) /\ 0 <= RV q).
  { intros p Hp q. destruct (not_val p Hp) as [[Fq Bq] _]. fold q in Fq, Bq. destruct (V_div (Bopp q) l (fin_opp _ Fq) F ltac:(lra)) as [N E]. rewrite RV_opp in E. split; [exact N|]. split; [exact E|]. apply Bq. }
  split.
  - intros p Hp. destruct (G p Hp) as (N & E & Q). change (le64 (Bdiv mode_NE (Bopp (Bminus mode_NE (b64 1 0) p)) l) zero64). apply le_V2; [exact N|reflexivity|]. rewrite E, V_zero. apply sat_neg. unfold Rdiv. assert (X := Rinv_0_lt_compat _ P). nra.
  - change (lt64 (Bdiv mode_NE (Bopp (Bminus mode_NE (b64 1 0) zero64)) l) zero64).
    replace (Bopp (Bminus mode_NE (b64 1 0) zero64)) with (Bopp (b64 1 0)) by (apply B2SF_inj; vm_compute; reflexivity).
    destruct (neg_recip l F P) as [N L]. apply lt_V2; [exact N|reflexivity|]. now rewrite V_zero.
Qed.
Print Assumptions C162_exponential_refuted.

(** ** Medians *)
Section Two.
Context (m : Libm) (HT : libm_two m).
Lemma ln2_PF : PF (m_ln (b64 2 0)).
Proof. destruct (ln_two m HT) as (F & P & _). now apply PF_pos. Qed.
Lemma med_exp (l : f64) (d : Exponential.t f64) : Exponential.new l = Ok d -> finite64 l -> between64 zero64 (Exponential.median d) inf64.
Proof.
  intros H F. unfold Exponential.new in H. inv64 H. assert (L2 := ln2_PF). change (between64 zero64 (Bmult mode_NE (Bdiv mode_NE (b64 1 0) l) (m_ln (b64 2 0))) inf64). set (c := m_ln (b64 2 0)) in *. apply nn_between. nn.
Qed.
Lemma med_gumbel (mu b : f64) (d : Gumbel.t f64) : Gumbel.new mu b = Ok d -> finite64 mu -> finite64 b -> between64 mu (Gumbel.median d) inf64.
Proof.
  intros H Fm F. unfold Gumbel.new in H. inv64 H. assert (P := fin_pos b F HP0). destruct (ln_ln_two m HT) as [FL L]. apply le_V1 in L. rewrite V_zero in L.
  change (between64 mu (Bminus mode_NE mu (Bmult mode_NE b (m_ln (m_ln (b64 2 0))))) inf64). set (c := m_ln (m_ln (b64 2 0))) in *. rewrite V_fin in L by exact FL.
  destruct (V_mult b c F FL) as [N E]. assert (NP : V (Bmult mode_NE b c) <= 0) by (rewrite E; apply sat_neg; nra). assert (Q := M64_pos). assert (BM := fin_lt mu Fm).
  destruct (c_minus _ mu N Fm) as [N2 E2]. assert (G : V mu <= V (Bminus mode_NE mu (Bmult mode_NE b c))).
  { rewrite E2. destruct (inf_cases _ N) as [F2|[E3|E3]].
    - rewrite liftn_fin by exact F2. rewrite V_fin in NP by exact F2. rewrite V_fin by exact Fm. rewrite <- (sat_fmt (RV mu) (fmt_RV mu) ltac:(lra)) at 1. apply sat_mono. lra.
    - rewrite E3. change (V mu <= M64). apply V_bounds.
    - rewrite E3 in NP. change (M64 <= 0) in NP. lra. }
  split; apply le_V2; [now apply fin_num|exact N2|exact G|exact N2|reflexivity|]. change (V inf64) with M64. apply V_bounds.
Qed.
Lemma med_rayleigh (s : f64) (d : Rayleigh.t f64) : Rayleigh.new s = Ok d -> finite64 s -> between64 zero64 (Rayleigh.median d) inf64.
Proof.
  intros H F. unfold Rayleigh.new in H. inv64 H. destruct (ln_two m HT) as (FL & PL & UL). assert (L2 := ln2_PF).
  change (between64 zero64 (Bmult mode_NE s (Bsqrt mode_NE (Bmult mode_NE (b64 2 0) (m_ln (b64 2 0))))) inf64). set (c := m_ln (b64 2 0)) in *. destruct L2 as [_ PC]. apply le_V1 in UL. rewrite V_one, V_fin in UL by exact FL.
  destruct (b64_z 2 ltac:(lia)) as [F2 V2]. destruct (V_mult (b64 2 0) c F2 FL) as [N E]. rewrite V2 in E. assert (Q := M64_pos).
  assert (B : RV c <= sat (2 * RV c) <= 2). { split; [rewrite <- (sat_fmt (RV c) (fmt_RV c) ltac:(lra)) at 1; apply sat_mono; lra|]. assert (S2 : sat 2 = 2) by (apply sat_fmt; [apply (fmt_IZR 2); lia|lra]). apply Rle_trans with (sat 2); [apply sat_mono; lra|lra]. }
  assert (FP : fin (Bmult mode_NE (b64 2 0) c)) by (apply V_fin_iff; [exact N|rewrite E; lra]). rewrite V_fin in E by exact FP.
  destruct (sqrt_pos64 _ FP ltac:(rewrite E; lra)) as [FS PS]. set (r := Bsqrt mode_NE _) in *. assert (PR : PF r) by (split; auto). apply nn_between. nn.
Qed.
End Two.
Theorem C162_medians (m : Libm) (a b mu : f64) : libm_range m -> libm_two m -> finite64 a -> finite64 b -> finite64 mu ->
  (forall d, Exponential.new a = Ok d -> between64 zero64 (Exponential.median d) inf64) /\
  (forall d, Gumbel.new mu b = Ok d -> between64 mu (Gumbel.median d) inf64) /\
  (forall d, Rayleigh.new b = Ok d -> between64 zero64 (Rayleigh.median d) inf64) /\
  (forall p, Weibull.p_new a b = Ok p -> between64 zero64 (Weibull.median (Weibull.from p)) inf64) /\
  (forall p, Kumaraswamy.p_new a b = Ok p -> between64 zero64 (Kumaraswamy.median (Kumaraswamy.from p)) one64) /\
  (forall d, Pareto.new a b = Ok d -> lt64 zero64 a -> between64 a (Pareto.median d) inf64) /\
  (forall d, LogNormal.new mu b = Ok d -> between64 zero64 (LogNormal.median d) inf64) /\
  (forall d, GPD.new mu a b = Ok d -> between64 mu (GPD.median d) inf64).
Proof.
  intros HR HT Fa Fb Fm. assert (L2 := ln2_PF m HT). assert (M := M64_pos). destruct (ln_two m HT) as (FL & PL & UL).
  split; [|split; [|split; [|split; [|split; [|split; [|split]]]]]].
  - intros d H. now apply (med_exp m HT a).
  - intros d H. now apply (med_gumbel m HT mu b).
  - intros d H. now apply (med_rayleigh m HT b).
  - intros p H. unfold Weibull.p_new in H. inv64 H. assert (Pa := fin_pos a Fa HP). assert (Pb := fin_pos b Fb HP0). destruct (pos_recip b Fb Pb) as [N1 P1].
    change (between64 zero64 (Bmult mode_NE a (m_powf (m_ln (b64 2 0)) (Bdiv mode_NE (b64 1 0) b))) inf64). apply nn_between. apply pf_mul; [now split|]. apply (pw_nn HR); [now apply PF_nn|exact N1].
  - intros p H. unfold Kumaraswamy.p_new in H. inv64 H. assert (Pa := fin_pos a Fa HP). assert (Pb := fin_pos b Fb HP0). destruct (pos_recip a Fa Pa) as [N1 P1]. destruct (neg_recip b Fb Pb) as [N2 P2].
    change (between64 zero64 (m_powf (Bminus mode_NE (b64 1 0) (m_powf (b64 2 0) (Bdiv mode_NE (Bopp (b64 1 0)) b))) (Bdiv mode_NE (b64 1 0) a)) one64).
    assert (T : num (b64 2 0) /\ V (b64 2 0) = 2). { destruct (b64_z 2 ltac:(lia)) as [A B]. split; [now apply fin_num|]. now rewrite V_fin. } destruct T as [T1 T2].
    assert (U := pw_neg_le1 HR (b64 2 0) _ T1 ltac:(lra) N2 P2). assert (L := pw_ge0 HR (b64 2 0) _ T1 ltac:(lra) N2). assert (N3 := pw_num HR (b64 2 0) _ T1 ltac:(lra) N2).
    destruct (one_minus _ N3 (conj L U)) as [N4 B4]. set (q := Bminus mode_NE _ _) in *.
    split; apply le_V2; try reflexivity; try (apply (pw_num HR); auto; lra).
    + rewrite V_zero. apply (pw_ge0 HR); auto; lra.
    + rewrite V_one. now apply (pw_le1 HR).
  - intros d H La. unfold Pareto.new in H. inv64 H. assert (Pb := fin_pos b Fb HP0). assert (Pa := fin_pos a Fa La). destruct (pos_recip b Fb Pb) as [N1 P1].
    assert (G := pow_two m HT (Bdiv mode_NE (b64 1 0) b) ltac:(apply lt_V2; [reflexivity|exact N1|rewrite V_zero; exact P1])). assert (N2 := proj2 (le_num _ _ G)). apply le_V1 in G. rewrite V_one in G.
    change (between64 a (Bmult mode_NE a (m_powf (b64 2 0) (Bdiv mode_NE (b64 1 0) b))) inf64). set (q := m_powf _ _) in *. destruct (c_mult q a N2 Fa Pa) as [N3 E3].
    split; apply le_V2; [now apply fin_num|exact N3| |exact N3|reflexivity|change (V inf64) with M64; apply V_bounds].
    rewrite E3. destruct (inf_cases q N2) as [F|[E|E]]; [rewrite lift_fin by exact F|rewrite E in G; change (1 <= - M64) in G; lra|rewrite E; change (V a <= M64); apply V_bounds].
    rewrite V_fin in G by exact F. rewrite V_fin by exact Fa. assert (BA := fin_lt a Fa). rewrite <- (sat_fmt (RV a) (fmt_RV a) ltac:(lra)) at 1. apply sat_mono. nra.
  - intros d H. unfold LogNormal.new in H. destruct (UvNormal.new mu b) as [u|] eqn:E; [|discriminate H]. injection H as <-. apply normal_inv in E as [-> P].
    change (between64 zero64 (m_exp mu) inf64). apply nn_between, (xp_nn HR). now apply fin_num.
  - intros d H. unfold GPD.new in H. inv64 H. assert (Pa := fin_pos a Fa HP0). assert (Pb := fin_pos b Fb HP1).
    change (between64 mu (Bplus mode_NE mu (Bdiv mode_NE (Bmult mode_NE a (Bminus mode_NE (m_powf (b64 2 0) b) (b64 1 0))) b)) inf64).
    assert (G := pow_two m HT b HP1). assert (N2 := proj2 (le_num _ _ G)). apply le_V1 in G. rewrite V_one in G. set (q := m_powf (b64 2 0) b) in *.
    assert (NQ : nnv (Bminus mode_NE q (b64 1 0))).
    { destruct (minus_c q (b64 1 0) N2 fin_b64_1) as [N3 E3]. split; [exact N3|]. rewrite E3. destruct (inf_cases q N2) as [F|[E|E]]; [rewrite lift_fin by exact F|rewrite E in G; change (1 <= - M64) in G; lra|rewrite E; change (0 <= M64); lra].
      rewrite V_fin in G by exact F. apply sat_pos. rewrite RV_b64_1. lra. }
    assert (NR : nnv (Bdiv mode_NE (Bmult mode_NE a (Bminus mode_NE q (b64 1 0))) b)).
    { destruct (pf_mul a _ (conj Fa Pa) NQ) as [N4 P4]. destruct (div_ge0 _ b Fb Pb N4 P4) as [N5 P5]. now split. }
    set (r := Bdiv mode_NE _ b) in *. destruct NR as [N5 P5]. destruct (c_plus r mu N5 Fm) as [N6 E6].
    split; apply le_V2; [now apply fin_num|exact N6| |exact N6|reflexivity|change (V inf64) with M64; apply V_bounds].
    rewrite E6. destruct (inf_cases r N5) as [F|[E|E]]; [rewrite lift_fin by exact F|rewrite E in P5; change (0 <= - M64) in P5; lra|rewrite E; change (V mu <= M64); apply V_bounds].
    rewrite V_fin in P5 by exact F. rewrite V_fin by exact Fm. assert (BA := fin_lt mu Fm). rewrite <- (sat_fmt (RV mu) (fmt_RV mu) ltac:(lra)) at 1. apply sat_mono. lra.
Qed.
Print Assumptions C162_medians.

(** GPD, refuted: for a shape so small that 2^zeta rounds to one, the median returned is the location
    (the medians tend to mu + sigma ln 2) *)
Theorem C162_gpd_refuted (m : Libm) (mu s z : f64) (d : GPD.t f64) : m_powf (b64 2 0) z = one64 ->
  GPD.new mu s z = Ok d -> finite64 mu -> finite64 s -> finite64 z -> B2R (GPD.median d) = B2R mu.
Proof.
  intros HP2 H Fm Fs Fz. unfold GPD.new in H. inv64 H. assert (Ps := fin_pos s Fs HP0). assert (Pz := fin_pos z Fz HP1).
  change (RV (Bplus mode_NE mu (Bdiv mode_NE (Bmult mode_NE s (Bminus mode_NE (m_powf (b64 2 0) z) (b64 1 0))) z)) = RV mu). rewrite HP2.
  assert (E0 : Bminus mode_NE one64 (b64 1 0) = zero64) by (apply B2SF_inj; vm_compute; reflexivity). rewrite E0. assert (Q := M64_pos).
  destruct (V_mult s zero64 Fs eq_refl) as [N1 E1]. change (RV zero64) with 0 in E1. rewrite Rmult_0_r, sat_0 in E1. assert (F1 : fin (Bmult mode_NE s zero64)) by (apply V_fin_iff; [exact N1|rewrite E1; lra]). rewrite V_fin in E1 by exact F1.
  destruct (V_div _ z F1 Fz ltac:(lra)) as [N2 E2]. rewrite E1 in E2. unfold Rdiv in E2. rewrite Rmult_0_l, sat_0 in E2. set (r := Bdiv mode_NE _ z) in *. assert (F2 : fin r) by (apply V_fin_iff; [exact N2|rewrite E2; lra]). rewrite V_fin in E2 by exact F2.
  destruct (V_plus mu r Fm F2) as [N3 E3]. rewrite E2, Rplus_0_r in E3. assert (BM := fin_lt mu Fm). rewrite (sat_fmt (RV mu) (fmt_RV mu) ltac:(lra)) in E3.
  assert (F3 : fin (Bplus mode_NE mu r)) by (apply V_fin_iff; [exact N3|rewrite E3; lra]). rewrite V_fin in E3 by exact F3. exact E3.
Qed.
Print Assumptions C162_gpd_refuted.

(** ** A correctly rounded libm meets the assumptions *)
Lemma ln2_bounds : / 2 < ln 2 < 694 / 1000.
Proof. split; [assert (H := ln_le_sub1 (/ 2) ltac:(lra)); rewrite ln_Rinv in H by lra; destruct (Rle_lt_dec (ln 2) (/ 2)) as [K|K]; [|exact K]|exact ln2_ub]. exfalso.
  assert (E : exp (ln 2) = 2) by (apply exp_ln; lra). assert (X := exp_le_3). assert (S : exp (ln 2) <= exp (/ 2)) by (destruct K as [K|K]; [left; now apply exp_increasing|right; now rewrite K]).
  assert (Q : exp (/ 2) * exp (/ 2) = exp 1) by (rewrite <- exp_plus; f_equal; lra). rewrite E in S. nra. Qed.
Example C162_libm_two : libm_range ln_libm /\ libm_two ln_libm.
Proof.
  split; [destruct cr_range; split; assumption|]. assert (L := ln2_bounds). assert (Q := M64_pos). destruct (b64_z 2 ltac:(lia)) as [F2 V2].
  destruct (cr_ln_val (b64 2 0) F2 ltac:(lra)) as [N E]. rewrite V2 in E.
  assert (SH : sat (/ 2) = / 2) by (apply sat_fmt; [assert (G := fmt_bpow (-1) ltac:(lia)); exact G|lra]).
  assert (B : / 2 <= sat (ln 2) <= 1) by (split; [rewrite <- SH; apply sat_mono; lra|apply sat_le1; lra]).
  assert (F : fin (cr_ln (b64 2 0))) by (apply V_fin_iff; [exact N|rewrite E; lra]). assert (E' := E). rewrite V_fin in E by exact F.
  destruct (cr_ln_val (cr_ln (b64 2 0)) F ltac:(lra)) as [N' E2].
  assert (LL : -1 <= ln (RV (cr_ln (b64 2 0))) <= 0).
  { rewrite E. split; [|rewrite <- ln_1; destruct (proj2 B) as [K|K]; [left; apply ln_increasing; lra|right; now rewrite K]].
    apply Rle_trans with (ln (/ 2)); [rewrite ln_Rinv by lra; lra|]. destruct (proj1 B) as [K|K]; [left; apply ln_increasing; lra|right; now rewrite K]. }
  assert (S1 : sat (-1) = -1) by (apply sat_fmt; [apply (fmt_IZR (-1)); lia|lra]).
  assert (B2 : -1 <= V (cr_ln (cr_ln (b64 2 0))) <= 0) by (rewrite E2; split; [rewrite <- S1; apply sat_mono; lra|apply sat_neg; lra]).
  split; cbn [m_ln m_powf ln_libm].
  - split; [exact F|]. split; [apply lt_V2; [reflexivity|exact N|rewrite V_zero, E'; lra]|apply le_V2; [exact N|apply num_one|rewrite V_one, E'; lra]].
  - split; [apply V_fin_iff; [exact N'|lra]|]. apply le_V2; [exact N'|reflexivity|rewrite V_zero; lra].
  - intros y Hy. destruct (lt_num _ _ Hy) as [_ Ny]. apply lt_V1 in Hy. rewrite V_zero in Hy. assert (NN : nn (b64 2 0)) by (split; [now apply fin_num|rewrite V_fin by exact F2; lra]).
    destruct (inf_cases y Ny) as [Fy|[Ey|Ey]].
    + rewrite V_fin in Hy by exact Fy. destruct (pow_pos_V (b64 2 0) y NN Fy Hy) as [N3 E3]. apply le_V2; [apply num_one|exact N3|]. rewrite V_one, E3.
      assert (G : 1 <= pw (b64 2 0) y). { unfold pw. destruct (Rlt_dec 0 (RV (b64 2 0))) as [X|X]; [|lra]. rewrite V2. rewrite <- sat_1. apply sat_mono. rewrite <- (Rpower_O 2) by lra. apply Rle_Rpower; lra. }
      destruct (b64 2 0) as [s|s| |s mm ee hh] eqn:E0; try exact G; discriminate F2.
    + rewrite Ey in Hy. cbn [V] in Hy. lra.
    + rewrite Ey, (pow_inf_V _ _ NN), V_fin, V2 by exact F2. destruct (Rlt_dec 2 1); [lra|]. destruct (Rlt_dec 1 2); [|lra]. reflexivity.
Qed.
Example C162_tan_ok : tan_ok cr_libm.
Proof.
  assert (Q := M64_pos). destruct HP_val as [FH PH]. assert (EH : HP = 7074237752028440 / 4503599627370496).
  { assert (FF : fmt64 (IZR 7074237752028440 * bpow radix2 (-52))) by (apply fmt_scaled; lia). destruct (b64_spec 7074237752028440 (-52)) as [A B].
    - apply rnd_small, small_le. change (bpow radix2 (-52)) with (/ 4503599627370496). rewrite Rabs_pos_eq; lra.
    - unfold HP, half_pi64. rewrite B, rnd_fmt by exact FF. change (bpow radix2 (-52)) with (/ 4503599627370496). lra. }
  assert (HB : HP < PI / 2) by (rewrite EH; exact pi_lb).
  split; cbn [m_tan cr_libm]; [intros; apply r2f_num|]. intros y z A L B. destruct (le_num _ _ L) as [Ny Nz]. apply le_V1 in A. apply le_V1 in L. apply le_V1 in B. rewrite V_opp in A. rewrite (V_fin half_pi64) in A, B by exact FH. change (RV half_pi64) with HP in A, B.
  assert (Fy : fin y) by (apply V_fin_iff; [exact Ny|lra]). assert (Fz : fin z) by (apply V_fin_iff; [exact Nz|lra]). rewrite (V_fin y) in A, L by exact Fy. rewrite (V_fin z) in L, B by exact Fz.
  destruct (r2f_V (tan (RV y))) as [N1 E1]. destruct (r2f_V (tan (RV z))) as [N2 E2]. apply le_V2; [exact N1|exact N2|]. rewrite E1, E2. apply sat_mono.
  destruct L as [L|L]; [left; apply tan_increasing; lra|right; now rewrite L].
Qed.
Example C162_gpd_ex : @m_powf cr_libm (b64 2 0) (b64 1 (-60)) = one64.
Proof.
  destruct (b64_z 2 ltac:(lia)) as [F2 V2]. destruct (b64_pow2 (-60) ltac:(lia)) as [FZ VZ]. assert (Q := M64_pos). assert (NN : nn (b64 2 0)) by (split; [now apply fin_num|rewrite V_fin by exact F2; lra]).
  assert (BZ : bpow radix2 (-60) = / 1152921504606846976) by reflexivity.
  destruct (pow_pos_V (b64 2 0) _ NN FZ ltac:(lra)) as [N E]. cbn [m_powf cr_libm]. apply one_of; [exact N|]. rewrite E.
  assert (G : pw (b64 2 0) (b64 1 (-60)) = 1).
  { unfold pw. rewrite V2, VZ. destruct (Rlt_dec 0 2) as [_|X]; [|lra]. set (r := Rpower 2 (bpow radix2 (-60))). assert (L := ln2_bounds).
    assert (B : 1 <= r <= 1 + bpow radix2 (-53)).
    { unfold r, Rpower. rewrite BZ. set (t := / 1152921504606846976 * ln 2). assert (T : 0 <= t <= / 1152921504606846976) by (unfold t; lra). split; [rewrite <- exp_0; destruct (proj1 T) as [K|K]; [left; now apply exp_increasing|right; now rewrite <- K]|].
      assert (U := exp_ineq1_le (- t)). assert (P := exp_pos t). assert (I : exp t * exp (- t) = 1) by (rewrite <- exp_plus, <- exp_0; f_equal; lra). change (bpow radix2 (-53)) with (/ 9007199254740992).
      assert (H : exp t * (1 - t) <= 1) by (rewrite <- I; apply Rmult_le_compat_l; lra). nra. }
    apply Rle_antisym; [|apply Rle_trans with (sat 1); [rewrite sat_1; lra|apply sat_mono; lra]].
    apply Rle_trans with (sat (1 + bpow radix2 (-53))); [apply sat_mono; lra|]. unfold sat. rewrite rnd_tie, clamp_id; lra. }
  destruct (b64 2 0) as [s|s| |s mm ee hh] eqn:E0; try exact G; discriminate F2.
Qed.
Example C162_nonvacuous (m : Libm) : let a := b64 (-3) (-1) in let s := b64 5 (-2) in let z := b64 1 (-60) in
  (exists d, Exponential.new s = Ok d) /\ (exists d, UvNormal.new a s = Ok d) /\ (exists d, Cauchy.new a s = Ok d) /\ (exists d, GPD.new a s s = Ok d) /\ (exists d, GPD.new a s z = Ok d) /\
  (exists p, Weibull.p_new s s = Ok p) /\ (exists p, Kumaraswamy.p_new s s = Ok p) /\ (exists d, UniformF.new a s = Ok d) /\ finite64 a /\ finite64 s /\ finite64 z /\ lt64 zero64 s.
Proof.
  intros a s z. assert (PS : fltb (f_of_Z 0 : f64) s = true) by (vm_compute; reflexivity). assert (PZ : fltb (f_of_Z 0 : f64) z = true) by (vm_compute; reflexivity).
  split; [|split; [|split; [|split; [|split; [|split; [|split; [|split; [|split; [|split; [|split]]]]]]]]]].
  - exists (Exponential.new_unchecked s). etransitivity; [apply map_params_ok; cbn [args s1 s2 s3 fst snd]; repeat (apply Forall_cons || apply Forall_nil); unfold arg_ok; cbn [arg_ty arg_val field_ok]; first [exact I|exact PS]|reflexivity].
  - exists (UvNormal.new_unchecked a s). unfold UvNormal.new, UvNormal.params_new, loc_new, isotropic_new. cbn [and_then map_ok map_err check]. unfold check_default. cbn [is_satisfied_by]. unfold pltb, POrd_scalar, pzero. rewrite PS. reflexivity.
  - exists (Cauchy.new_unchecked a s). etransitivity; [apply map_params_ok; cbn [args s1 s2 s3 fst snd]; repeat (apply Forall_cons || apply Forall_nil); unfold arg_ok; cbn [arg_ty arg_val field_ok]; first [exact I|exact PS]|reflexivity].
  - exists (GPD.new_unchecked a s s). etransitivity; [apply map_params_ok; cbn [args s1 s2 s3 fst snd]; repeat (apply Forall_cons || apply Forall_nil); unfold arg_ok; cbn [arg_ty arg_val field_ok]; first [exact I|exact PS]|reflexivity].
  - exists (GPD.new_unchecked a s z). etransitivity; [apply map_params_ok; cbn [args s1 s2 s3 fst snd]; repeat (apply Forall_cons || apply Forall_nil); unfold arg_ok; cbn [arg_ty arg_val field_ok]; first [exact I|exact PS|exact PZ]|reflexivity].
  - eexists. unfold Weibull.p_new. apply map_params_ok; cbn [args s1 s2 s3 fst snd]; repeat (apply Forall_cons || apply Forall_nil); unfold arg_ok; cbn [arg_ty arg_val field_ok]; exact PS.
  - eexists. unfold Kumaraswamy.p_new. apply map_params_ok; cbn [args s1 s2 s3 fst snd]; repeat (apply Forall_cons || apply Forall_nil); unfold arg_ok; cbn [arg_ty arg_val field_ok]; exact PS.
  - exact (C153_uniform_ex m).
  - vm_compute; reflexivity.
  - vm_compute; reflexivity.
  - vm_compute; reflexivity.
  - exact PS.
Qed.
