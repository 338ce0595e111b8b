(** * Property C135: densities in double arithmetic *)
From Coq Require Import Reals Lra Lia Psatz List ZArith Bool.
From Flocq Require Import Core IEEE754.BinarySingleNaN.
From Verif.Num Require Import Scalar F64.
From Verif.Model Require Import Rust Constraints Probability Params Consts Continuous Continuous2 Continuous3.
From Verif.Spec Require Import ParamSpec ProbSpec LibmSpec.
From Verif.Proofs Require Import ConstraintProofs NewInv F64Order LibmInst F64Cdf F64Pdf.
From Verif.Properties Require Import C133_F64Cdf.
Import ListNotations.
Open Scope R_scope.

Lemma xp_nn {m} (HR : libm_range m) x : num x -> nnv (m_exp x).
Proof. intros N. split; [now apply (xp_num HR)|now apply (xp_ge0 HR)]. Qed.
Lemma pw_nn {m} (HR : libm_range m) x y : nnv x -> num y -> nnv (m_powf x y).
Proof. intros [N P] M. split; [now apply (pw_num HR)|now apply (pw_ge0 HR)]. Qed.
Lemma fin_Vpos c : fin c -> 0 < RV c -> num c /\ 0 < V c.
Proof. intros F P. split; [now apply fin_num|now rewrite V_fin]. Qed.
Lemma nn_fin c : fin c -> 0 < RV c -> nnv c.
Proof. intros F P. destruct (fin_Vpos c F P). split; auto. lra. Qed.

(** Exponential *)
Theorem C135_exponential (m : Libm) (l : f64) (d : Exponential.t f64) : libm_range m -> Exponential.new l = Ok d -> finite64 l -> density_on (le64 zero64) (Exponential.pdf d).
Proof.
  intros HR H F. unfold Exponential.new in H. inv64 H. assert (P := fin_pos l F HP). intros x Hx. destruct (ex_e m l HR F P x Hx) as [N [B U]].
  change (le64 zero64 (Bmult mode_NE l (m_exp (Bmult mode_NE (Bopp l) x)))). apply nnv_le. apply mult_nn; [now apply nn_fin|now split|now left|]. left. apply le1_fin; [now split|exact U].
Qed.
Print Assumptions C135_exponential.

(** Cauchy, scale at least 2^-1022: every x but NaN *)
Theorem C135_cauchy_partial (m : Libm) (x0 g : f64) (d : Cauchy.t f64) : Cauchy.new x0 g = Ok d -> finite64 x0 -> finite64 g -> le64 (b64 1 (-1022)) g -> density_on number (Cauchy.pdf d).
Proof.
  intros H Fm Fs Hg. unfold Cauchy.new in H. inv64 H. assert (P := fin_pos g Fs HP0). intros x N. assert (Z := zz_num x0 g Fm Fs P x N).
  set (c := Bdiv mode_NE (b64 1 0) (b64 7074237752028440 (-51))).
  change (le64 zero64 (Bdiv mode_NE (Bdiv mode_NE c g) (Bplus mode_NE (b64 1 0) (Bmult mode_NE (zz x0 g x) (zz x0 g x))))).
  assert (Fc : fin c) by (vm_compute; reflexivity). assert (Pc : 0 < RV c). { apply fin_pos; [exact Fc|vm_compute; reflexivity]. }
  destruct (sq_nn _ Z) as [A B]. destruct (one_plus _ A B) as [C D]. apply nnv_le. apply div_nn; [|exact C|lra|left].
  - apply div_nn; [now apply nn_fin|now apply fin_num|rewrite V_fin by auto; lra|now left].
  - destruct (V_div c g Fc Fs ltac:(lra)) as [N1 E1]. apply V_fin_iff; [exact N1|]. rewrite E1. assert (Q := M64_pos).
    assert (G : RV c / RV g <= RV (b64 1 1022)).
    { destruct (b64_pow2 (-1022) ltac:(lia)) as [F2 V2]. destruct (b64_pow2 1022 ltac:(lia)) as [F3 V3]. rewrite V3. apply le_V1 in Hg. rewrite !V_fin in Hg by auto. rewrite V2 in Hg.
      assert (C1 : RV c <= 1). { rewrite <- RV_b64_1, <- !V_fin by (auto; apply fin_b64_1). apply le_V1. vm_compute. reflexivity. }
      apply Rmult_le_reg_r with (RV g); [exact P|]. unfold Rdiv. rewrite Rmult_assoc, Rinv_l by lra. rewrite Rmult_1_r.
      apply Rle_trans with (bpow radix2 1022 * bpow radix2 (-1022)); [rewrite <- bpow_plus; change (bpow radix2 (1022 + -1022)) with 1; exact C1|]. apply Rmult_le_compat_l; [apply bpow_ge_0|exact Hg]. }
    assert (0 <= sat (RV c / RV g)) by (apply sat_pos; left; now apply Rdiv_lt_0_compat). split; [lra|].
    apply Rle_lt_trans with (RV (b64 1 1022)); [|apply fin_lt; vm_compute; reflexivity]. rewrite <- (sat_fmt (RV (b64 1 1022))); [now apply sat_mono|apply fmt_RV|]. assert (K := fin_lt (b64 1 1022) ltac:(vm_compute; reflexivity)). lra.
Qed.
Print Assumptions C135_cauchy_partial.
(** ... but with a smaller scale, a quotient of two infinities: NaN *)
Theorem C135_cauchy_refuted (m : Libm) : exists (g x : f64) (d : Cauchy.t f64), Cauchy.new zero64 g = Ok d /\ finite64 g /\ finite64 x /\ is_nan (Cauchy.pdf d x) = true.
Proof.
  exists (b64 1 (-1074)), (b64 1 0), (Cauchy.new_unchecked zero64 (b64 1 (-1074))). split; [|split; [vm_compute; reflexivity|split; [vm_compute; reflexivity|vm_compute; reflexivity]]].
  assert (PS : fltb (f_of_Z 0 : f64) (b64 1 (-1074)) = true) by (vm_compute; reflexivity). unfold Cauchy.new.
  etransitivity; [apply map_params_ok; cbn [args s1 s2 s3 fst snd]; repeat (apply Forall_cons || apply Forall_nil); unfold arg_ok; cbn [arg_ty arg_val field_ok]; first [exact I|exact PS]|reflexivity].
Qed.
Print Assumptions C135_cauchy_refuted.

(** Normal: every x but NaN *)
Lemma normal_inv (m : Libm) (mu v : f64) (d : UvNormal.t f64) : UvNormal.new mu v = Ok d -> d = UvNormal.new_unchecked mu v /\ lt64 zero64 v.
Proof.
  unfold UvNormal.new, UvNormal.params_new, loc_new, isotropic_new. cbn [and_then map_ok map_err check]. unfold check_default. cbn [is_satisfied_by]. unfold pltb, POrd_scalar, pzero.
  destruct (fltb (f_of_Z 0) v) eqn:E; cbn [and_then map_ok map_err]; [|discriminate]. intros H; injection H as <-. split; [reflexivity|exact E].
Qed.
Definition rt2pi (m : Libm) : f64 := fsqrt PI_2.
Lemma rt2pi_ok (m : Libm) : fin (rt2pi m) /\ 1 <= RV (rt2pi m).
Proof.
  assert (F : fin (rt2pi m)) by (vm_compute; reflexivity). split; [exact F|]. rewrite <- RV_b64_1, <- !V_fin by (auto; apply fin_b64_1). apply le_V1. vm_compute. reflexivity.
Qed.
Lemma gauss_nn (m : Libm) (HR : libm_range m) (z n : f64) : num z -> num n -> 0 < V n -> nnv (Bdiv mode_NE (m_exp (Bdiv mode_NE (Bmult mode_NE (Bopp z) z) (b64 2 0))) n).
Proof.
  intros Nz Nn Pn. destruct (b64_int 2 ltac:(lia)) as [F2 R2]. destruct (nsq_val z Nz) as [A _]. assert (B := nsq_le0 z Nz). destruct (div_le0 _ (b64 2 0) F2 ltac:(rewrite R2; lra) A B) as [C D].
  apply div_nn; [now apply (xp_nn HR)|exact Nn|exact Pn|left]. apply le1_fin; [now apply (xp_nn HR)|now apply (xp_le1 HR)].
Qed.
Theorem C135_normal (m : Libm) (mu v : f64) (d : UvNormal.t f64) : libm_range m -> UvNormal.new mu v = Ok d -> finite64 mu -> finite64 v -> density_on number (UvNormal.pdf d).
Proof.
  intros HR H Fm Fv. destruct (normal_inv m mu v d H) as [-> Hv]. assert (Pv := fin_pos v Fv Hv). destruct (sqrt_pos64 v Fv Pv) as [FS PS]. intros x N.
  destruct (rt2pi_ok m) as [FP PP]. destruct (mult_pos _ _ FP PP FS PS) as [NN NP]. apply nnv_le. exact (gauss_nn m HR (zz mu (Bsqrt mode_NE v) x) _ (zz_num mu _ Fm FS PS x N) NN NP).
Qed.
Print Assumptions C135_normal.
Theorem C135_lognormal (m : Libm) (mu v : f64) (d : LogNormal.t f64) : libm_range m -> (forall x, le64 zero64 x -> number (m_ln x)) ->
  LogNormal.new mu v = Ok d -> finite64 mu -> finite64 v -> density_on (le64 zero64) (LogNormal.pdf d).
Proof.
  intros HR HL H Fm Fv x Hx. unfold LogNormal.new in H. destruct (UvNormal.new mu v) as [e|e] eqn:E; [|discriminate]. injection H as <-. exact (C135_normal m mu v e HR E Fm Fv (m_ln x) (HL x Hx)).
Qed.
Print Assumptions C135_lognormal.
Theorem C135_folded_normal (m : Libm) (mu s : f64) (d : FoldedNormal.t f64) : libm_range m -> FoldedNormal.new mu s = Ok d -> finite64 mu -> finite64 s -> density_on number (FoldedNormal.pdf d).
Proof.
  intros HR H Fm Fs. unfold FoldedNormal.new in H. inv64 H. assert (P := fin_pos s Fs HP0). intros x N. destruct (rt2pi_ok m) as [FP PP]. destruct (mult_pos _ _ FP PP Fs P) as [NN NP]. apply nnv_le.
  refine (plus_nn _ _ (gauss_nn m HR (Bdiv mode_NE (Bplus mode_NE x mu) s) _ _ NN NP) (gauss_nn m HR (zz mu s x) _ (zz_num mu s Fm Fs P x N) NN NP)).
  apply div_c; auto. now apply plus_c.
Qed.
Print Assumptions C135_folded_normal.

(** Logistic: from the location on *)
Theorem C135_logistic_partial (m : Libm) (mu s : f64) (d : Logistic.t f64) : libm_range m -> Logistic.new mu s = Ok d -> finite64 mu -> finite64 s -> density_on (le64 mu) (Logistic.pdf d).
Proof.
  intros HR H Fm Fs. unfold Logistic.new in H. inv64 H. assert (P := fin_pos s Fs HP0). intros x L. assert (N : num x) by (now destruct (le_num _ _ L)).
  assert (L' : RV mu <= V x) by (rewrite <- V_fin by auto; now apply le_V1). set (e := m_exp (Bopp (zz mu s x))).
  change (le64 zero64 (Bdiv mode_NE (Bdiv mode_NE (Bdiv mode_NE e s) (Bplus mode_NE (b64 1 0) e)) (Bplus mode_NE (b64 1 0) e))).
  assert (A := num_opp _ (zz_num mu s Fm Fs P x N)). assert (Z := zz_pos mu s Fm Fs P x N L').
  assert (E : nnv e) by (now apply (xp_nn HR)). assert (E1 : V e <= 1) by (apply (xp_le1 HR); [exact A|rewrite V_opp; lra]). assert (Fe := le1_fin e E E1).
  destruct E as [Ne Pe]. destruct (one_plus e Ne Pe) as [B C]. assert (FB : fin (Bplus mode_NE (b64 1 0) e)).
  { apply V_fin_iff; [exact B|]. assert (Q := M64_pos). split; [lra|]. destruct (V_plus (b64 1 0) e fin_b64_1 Fe) as [_ ->]. rewrite RV_b64_1. rewrite V_fin in E1 by auto.
    apply Rle_lt_trans with 2; [|exact Q]. destruct (b64_z 2 ltac:(lia)) as [F2 R2]. apply Rle_trans with (sat (RV (b64 2 0))); [apply sat_mono; rewrite R2; lra|]. right. rewrite sat_fmt; [rewrite R2; reflexivity|apply fmt_RV|rewrite R2; lra]. }
  apply nnv_le. apply div_nn; [|exact B|lra|now right]. apply div_nn; [|exact B|lra|now right]. apply div_nn; [now split|now apply fin_num|rewrite V_fin by auto; lra|now left].
Qed.
Print Assumptions C135_logistic_partial.
(** ... but the standard logistic density at -1024 is infinity / infinity *)
Theorem C135_logistic_refuted (m : Libm) : libm_extreme m -> exists (d : Logistic.t f64), Logistic.new zero64 one64 = Ok d /\ is_nan (Logistic.pdf d (b64 (-1024) 0)) = true.
Proof.
  intros HX. exists (Logistic.new_unchecked zero64 one64). split.
  - assert (PS : fltb (f_of_Z 0 : f64) one64 = true) by (vm_compute; reflexivity). unfold Logistic.new.
    etransitivity; [apply map_params_ok; cbn [args s1 s2 s3 fst snd]; repeat (apply Forall_cons || apply Forall_nil); unfold arg_ok; cbn [arg_ty arg_val field_ok]; first [exact I|exact PS]|reflexivity].
  - set (e := m_exp (Bopp (zz zero64 one64 (b64 (-1024) 0)))).
    change (is_nan (Bdiv mode_NE (Bdiv mode_NE (Bdiv mode_NE e one64) (Bplus mode_NE (b64 1 0) e)) (Bplus mode_NE (b64 1 0) e)) = true).
    assert (E : e = B754_infinity false) by (apply (exp_over _ HX); vm_compute; reflexivity). rewrite E. reflexivity.
Qed.
Print Assumptions C135_logistic_refuted.

(** Gumbel: wherever the standardised argument does not overflow to -infinity *)
Theorem C135_gumbel_partial (m : Libm) (mu b : f64) (d : Gumbel.t f64) : libm_range m -> Gumbel.new mu b = Ok d -> finite64 mu -> finite64 b ->
  density_on (fun x => number x /\ Bdiv mode_NE (Bminus mode_NE x mu) b <> B754_infinity true) (Gumbel.pdf d).
Proof.
  intros HR H Fm Fs. unfold Gumbel.new in H. inv64 H. assert (P := fin_pos b Fs HP0). intros x [N NI]. assert (Z := zz_num mu b Fm Fs P x N).
  change (le64 zero64 (Bdiv mode_NE (m_exp (Bminus mode_NE (Bopp (zz mu b x)) (m_exp (Bopp (zz mu b x))))) b)). change (Bdiv mode_NE (Bminus mode_NE x mu) b) with (zz mu b x) in NI.
  generalize dependent (zz mu b x). intros z NI Z. assert (E := xp_nn HR _ (num_opp _ Z)).
  assert (K : num (Bminus mode_NE (Bopp z) (m_exp (Bopp z)))).
  { destruct (inf_cases z Z) as [F|[E1|E1]]; [|now subst|].
    - destruct (nnv_cases _ E) as [[Fe _]|Ee]; [exact (proj1 (V_minus _ _ (fin_opp _ F) Fe))|]. rewrite Ee. destruct z; try discriminate; reflexivity.
    - subst z. assert (Fe := le1_fin _ E). assert (Q := M64_pos). assert (X : V (m_exp (Bopp (B754_infinity false : f64))) <= 1) by (apply (xp_le1 HR); [reflexivity|cbn [Bopp V negb]; lra]).
      specialize (Fe X). generalize dependent (m_exp (Bopp (B754_infinity false : f64))). intros e E Fe _. destruct e; try discriminate; reflexivity. }
  apply nnv_le. apply div_nn; [now apply (xp_nn HR)|now apply fin_num|rewrite V_fin by auto; lra|now right].
Qed.
Print Assumptions C135_gumbel_partial.
Theorem C135_gumbel_refuted (m : Libm) : libm_extreme m -> is_nan (m_exp B754_nan) = true -> exists (b x : f64) (d : Gumbel.t f64), Gumbel.new zero64 b = Ok d /\ finite64 b /\ finite64 x /\ is_nan (Gumbel.pdf d x) = true.
Proof.
  intros HX HN. exists (b64 1 (-100)), (b64 (-1) 1000), (Gumbel.new_unchecked zero64 (b64 1 (-100))). split; [|split; [vm_compute; reflexivity|split; [vm_compute; reflexivity|]]].
  - assert (PS : fltb (f_of_Z 0 : f64) (b64 1 (-100)) = true) by (vm_compute; reflexivity). unfold Gumbel.new.
    etransitivity; [apply map_params_ok; cbn [args s1 s2 s3 fst snd]; repeat (apply Forall_cons || apply Forall_nil); unfold arg_ok; cbn [arg_ty arg_val field_ok]; first [exact I|exact PS]|reflexivity].
  - set (z := zz zero64 (b64 1 (-100)) (b64 (-1) 1000)). change (is_nan (Bdiv mode_NE (m_exp (Bminus mode_NE (Bopp z) (m_exp (Bopp z)))) (b64 1 (-100))) = true).
    assert (E : z = B754_infinity true) by (apply B2SF_inj; vm_compute; reflexivity). rewrite E. clear z E. cbn [Bopp negb]. rewrite (exp_over _ HX (B754_infinity false)) by (vm_compute; reflexivity).
    change (Bminus mode_NE (B754_infinity false : f64) (B754_infinity false)) with (B754_nan : f64). destruct (m_exp B754_nan); try discriminate. reflexivity.
Qed.
Print Assumptions C135_gumbel_refuted.

(** Generalised Pareto and GEV: from the location on *)
Theorem C135_gpd (m : Libm) (mu s z : f64) (d : GPD.t f64) : libm_range m -> GPD.new mu s z = Ok d -> finite64 mu -> finite64 s -> finite64 z -> density_on (le64 mu) (GPD.pdf d).
Proof.
  intros HR H Fm Fs Fz. unfold GPD.new in H. inv64 H. assert (P := fin_pos s Fs HP0). assert (Pz := fin_pos z Fz HP1). destruct (neg_recip z Fz Pz) as [Nr Lr]. intros x L. assert (N : num x) by (now destruct (le_num _ _ L)).
  assert (L' : RV mu <= V x) by (rewrite <- V_fin by auto; now apply le_V1).
  destruct (one_zeta (zz mu s x) z Fz Pz (zz_num mu s Fm Fs P x N) (zz_pos mu s Fm Fs P x N L')) as [W1 W2].
  set (w := Bplus mode_NE (b64 1 0) (Bmult mode_NE z (zz mu s x))) in *. set (r := Bdiv mode_NE (Bopp (b64 1 0)) z) in *.
  change (le64 zero64 (Bdiv mode_NE (m_powf w (Bminus mode_NE r (b64 1 0))) s)).
  destruct (minus_c r (b64 1 0) Nr fin_b64_1) as [A _].
  assert (E : nnv (m_powf w (Bminus mode_NE r (b64 1 0)))) by (apply (pw_nn HR); [split; [exact W1|lra]|exact A]).
  apply nnv_le. apply div_nn; [exact E|now apply fin_num|rewrite V_fin by auto; lra|now right].
Qed.
Print Assumptions C135_gpd.
Theorem C135_gev (m : Libm) (mu s z : f64) (d : GEV.t f64) : libm_range m -> GEV.new mu s z = Ok d -> finite64 mu -> finite64 s -> finite64 z -> lt64 zero64 z -> density_on (le64 mu) (GEV.pdf d).
Proof.
  intros HR H Fm Fs Fz Hz. unfold GEV.new in H. inv64 H. assert (P := fin_pos s Fs HP0). assert (Pz := fin_pos z Fz Hz). destruct (neg_recip z Fz Pz) as [Nr Lr]. intros x L. assert (N : num x) by (now destruct (le_num _ _ L)).
  assert (L' : RV mu <= V x) by (rewrite <- V_fin by auto; now apply le_V1).
  assert (Zn := zz_num mu s Fm Fs P x N). assert (Zp := zz_pos mu s Fm Fs P x N L'). destruct (one_zeta (zz mu s x) z Fz Pz Zn Zp) as [W1 W2].
  set (w := Bplus mode_NE (b64 1 0) (Bmult mode_NE z (zz mu s x))) in *. set (r := Bdiv mode_NE (Bopp (b64 1 0)) z) in *.
  set (t := GEV.t_func (GEV.mk (GEV.mkP mu s z)) x).
  assert (T : exists c : bool, t = if c then m_exp (Bopp (zz mu s x)) else m_powf w r) by (exists (fltb (fsub z (f_of_Z 0)) (GEV.TOL)); reflexivity).
  change (le64 zero64 (Bdiv mode_NE (Bmult mode_NE (m_powf t (Bplus mode_NE z (b64 1 0))) (m_exp (Bopp t))) s)).
  assert (E : nnv t /\ V t <= 1).
  { destruct T as [[|] ->].
    - split; [now apply (xp_nn HR), num_opp|]. apply (xp_le1 HR); [now apply num_opp|rewrite V_opp; lra].
    - split; [apply (pw_nn HR); [split; [exact W1|lra]|exact Nr]|]. now apply (pw_neg_le1 HR). }
  clearbody t. clear T. destruct E as [[Nt Pt] Lt]. destruct (plus_c z (b64 1 0) (fin_num _ Fz) fin_b64_1) as [A B].
  assert (C : 0 < V (Bplus mode_NE z (b64 1 0))). { rewrite B, lift_fin by auto. rewrite RV_b64_1. apply Rlt_le_trans with 1; [lra|]. apply sat_ge1. lra. }
  assert (E1 : nnv (m_powf t (Bplus mode_NE z (b64 1 0)))) by (apply (pw_nn HR); [now split|exact A]).
  assert (E2 : V (m_powf t (Bplus mode_NE z (b64 1 0))) <= 1) by (apply (pw_le1 HR); auto).
  assert (E3 : nnv (m_exp (Bopp t))) by (now apply (xp_nn HR), num_opp). assert (E4 : V (m_exp (Bopp t)) <= 1) by (apply (xp_le1 HR); [now apply num_opp|rewrite V_opp; lra]).
  destruct (mult_le1 _ _ E1 E2 E3 E4) as [E5 E6]. apply nnv_le. apply div_nn; [exact E5|now apply fin_num|rewrite V_fin by auto; lra|now right].
Qed.
Print Assumptions C135_gev.

(** Rayleigh: finite arguments, when the computed square of the scale is finite and at least 1 *)
Theorem C135_rayleigh_partial (m : Libm) (s : f64) (d : Rayleigh.t f64) : libm_range m -> Rayleigh.new s = Ok d -> finite64 (Bmult mode_NE s s) -> le64 one64 (Bmult mode_NE s s) ->
  density_on (fun x => le64 zero64 x /\ finite64 x) (Rayleigh.pdf d).
Proof.
  intros HR H F2 G2. unfold Rayleigh.new in H. inv64 H. intros x [L Fx]. set (q := Bmult mode_NE s s) in *.
  change (le64 zero64 (Bmult mode_NE (Bdiv mode_NE x q) (m_exp (Bdiv mode_NE (Bdiv mode_NE (Bmult mode_NE (Bopp x) x) q) (b64 2 0))))).
  assert (Q1 : 1 <= RV q). { rewrite <- V_fin by auto. rewrite <- V_one. now apply le_V1. } assert (X := le_nnv x L). destruct (nsq_val x (proj1 X)) as [A _]. assert (B := nsq_le0 x (proj1 X)).
  destruct (div_le0 _ q F2 ltac:(lra) A B) as [C D]. destruct (b64_int 2 ltac:(lia)) as [FF2 R2]. destruct (div_le0 _ (b64 2 0) FF2 ltac:(rewrite R2; lra) C D) as [C' D'].
  assert (E : nnv (m_exp (Bdiv mode_NE (Bdiv mode_NE (nsq x) q) (b64 2 0)))) by (now apply (xp_nn HR)). assert (E1 := xp_le1 HR _ C' D').
  assert (Y : nnv (Bdiv mode_NE x q)) by (apply div_nn; [exact X|now apply fin_num|rewrite V_fin by auto; lra|now left]).
  apply nnv_le. apply mult_nn; [exact Y|exact E| |left; now apply le1_fin]. left.
  destruct (V_div x q Fx F2 ltac:(lra)) as [N1 E2]. apply V_fin_iff; [exact N1|]. rewrite E2. destruct Y as [_ Y]. rewrite E2 in Y. assert (Q := M64_pos). split; [lra|].
  assert (XL := fin_lt x Fx). apply Rle_lt_trans with (RV x); [|lra]. assert (S1 : sat (RV x) = RV x) by (apply sat_fmt; [apply fmt_RV|lra]). rewrite <- S1 at 2. apply sat_mono.
  destruct X as [_ X]. rewrite V_fin in X by auto. apply Rmult_le_reg_r with (RV q); [lra|]. unfold Rdiv. rewrite Rmult_assoc, Rinv_l by lra. rewrite Rmult_1_r. rewrite <- (Rmult_1_r (RV x)) at 1. apply Rmult_le_compat_l; lra.
Qed.
Print Assumptions C135_rayleigh_partial.
Theorem C135_rayleigh_refuted (m : Libm) : libm_extreme m -> exists (s : f64) (d : Rayleigh.t f64), Rayleigh.new s = Ok d /\ finite64 s /\ is_nan (Rayleigh.pdf d one64) = true.
Proof.
  intros HX. exists (b64 1 (-600)), (Rayleigh.new_unchecked (b64 1 (-600))). split; [|split; [vm_compute; reflexivity|]].
  - assert (PS : fltb (f_of_Z 0 : f64) (b64 1 (-600)) = true) by (vm_compute; reflexivity). unfold Rayleigh.new.
    etransitivity; [apply map_params_ok; cbn [args s1 s2 s3 fst snd]; repeat (apply Forall_cons || apply Forall_nil); unfold arg_ok; cbn [arg_ty arg_val field_ok]; first [exact I|exact PS]|reflexivity].
  - set (q := Bmult mode_NE (b64 1 (-600)) (b64 1 (-600)) : f64).
    change (is_nan (Bmult mode_NE (Bdiv mode_NE one64 q) (m_exp (Bdiv mode_NE (Bdiv mode_NE (Bmult mode_NE (Bopp one64) one64) q) (b64 2 0)))) = true).
    rewrite (exp_under _ HX) by (vm_compute; reflexivity). vm_compute. reflexivity.
Qed.
Print Assumptions C135_rayleigh_refuted.

(** Weibull, Pareto, Frechet: overflowing powers *)
Theorem C135_weibull_refuted (m : Libm) : libm_extreme m -> exists (k x : f64) (p : Weibull.Params f64), Weibull.p_new one64 k = Ok p /\ finite64 k /\ finite64 x /\ is_nan (Weibull.pdf (Weibull.from p) x) = true.
Proof.
  intros HX. exists (b64 3 0), (b64 1 600), (Weibull.mkP one64 (b64 3 0)). split; [|split; [vm_compute; reflexivity|split; [vm_compute; reflexivity|]]].
  - assert (PS : fltb (f_of_Z 0 : f64) (b64 3 0) = true) by (vm_compute; reflexivity). assert (PS' : fltb (f_of_Z 0 : f64) one64 = true) by (vm_compute; reflexivity). unfold Weibull.p_new.
    etransitivity; [apply map_params_ok; cbn [args s1 s2 s3 fst snd]; repeat (apply Forall_cons || apply Forall_nil); unfold arg_ok; cbn [arg_ty arg_val field_ok]; first [exact I|exact PS|exact PS']|reflexivity].
  - change (is_nan (Bmult mode_NE (Bmult mode_NE (Bdiv mode_NE (b64 3 0) one64) (m_powf (Bdiv mode_NE (b64 1 600) one64) (Bminus mode_NE (b64 3 0) (b64 1 0)))) (m_exp (Bopp (m_powf (Bdiv mode_NE (b64 1 600) one64) (b64 3 0))))) = true).
    assert (E : Bdiv mode_NE (b64 1 600) one64 = b64 1 600) by (apply B2SF_inj; vm_compute; reflexivity). assert (E2 : Bminus mode_NE (b64 3 0) (b64 1 0) = b64 2 0) by (apply B2SF_inj; vm_compute; reflexivity).
    rewrite E, E2, (pow_over _ HX 600 2), (pow_over _ HX 600 3) by lia. rewrite (exp_under _ HX) by (vm_compute; reflexivity). vm_compute. reflexivity.
Qed.
Print Assumptions C135_weibull_refuted.
Theorem C135_pareto_refuted (m : Libm) : libm_extreme m -> exists (xm a : f64) (d : Pareto.t f64), Pareto.new xm a = Ok d /\ finite64 a /\ finite64 xm /\ is_nan (Pareto.pdf d xm) = true.
Proof.
  intros HX. exists (b64 1 100), (b64 11 0), (Pareto.new_unchecked (b64 1 100) (b64 11 0)). split; [|split; [vm_compute; reflexivity|split; [vm_compute; reflexivity|]]].
  - assert (PS : fltb (f_of_Z 0 : f64) (b64 11 0) = true) by (vm_compute; reflexivity). assert (PS' : fltb (f_of_Z 0 : f64) (b64 1 100) = true) by (vm_compute; reflexivity). unfold Pareto.new.
    etransitivity; [apply map_params_ok; cbn [args s1 s2 s3 fst snd]; repeat (apply Forall_cons || apply Forall_nil); unfold arg_ok; cbn [arg_ty arg_val field_ok]; first [exact I|exact PS|exact PS']|reflexivity].
  - assert (E : Pareto.pdf (Pareto.new_unchecked (b64 1 100) (b64 11 0)) (b64 1 100) = Bdiv mode_NE (Bmult mode_NE (b64 11 0) (m_powf (b64 1 100) (b64 11 0))) (m_powf (b64 1 100) (Bplus mode_NE (b64 11 0) (b64 1 0)))).
    { unfold Pareto.pdf, Pareto.new_unchecked. cbn [Pareto.pr]. replace (fltb (b64 1 100 : f64) (b64 1 100)) with false by (vm_compute; reflexivity). reflexivity. }
    rewrite E. assert (E2 : Bplus mode_NE (b64 11 0) (b64 1 0) = b64 12 0) by (apply B2SF_inj; vm_compute; reflexivity).
    rewrite E2, (pow_over _ HX 100 11), (pow_over _ HX 100 12) by lia. vm_compute. reflexivity.
Qed.
Print Assumptions C135_pareto_refuted.
Theorem C135_frechet_refuted (m : Libm) : libm_extreme m -> exists (a x : f64) (d : Frechet.t f64), Frechet.new a = Ok d /\ finite64 a /\ finite64 x /\ lt64 zero64 x /\ is_nan (Frechet.pdf d x) = true.
Proof.
  intros HX. exists (b64 2 0), (b64 1 (-1000)), (Frechet.new_unchecked (b64 2 0)). split; [|split; [vm_compute; reflexivity|split; [vm_compute; reflexivity|split; [vm_compute; reflexivity|]]]].
  - assert (PS : fltb (f_of_Z 0 : f64) (b64 2 0) = true) by (vm_compute; reflexivity). unfold Frechet.new.
    etransitivity; [apply map_params_ok; cbn [args s1 s2 s3 fst snd]; repeat (apply Forall_cons || apply Forall_nil); unfold arg_ok; cbn [arg_ty arg_val field_ok]; first [exact I|exact PS|exact PS']|reflexivity].
  - change (is_nan (Bmult mode_NE (Bmult mode_NE (b64 2 0) (m_powf (b64 1 (-1000)) (Bminus mode_NE (Bopp (b64 1 0)) (b64 2 0)))) (m_exp (Bopp (m_powf (b64 1 (-1000)) (Bopp (b64 2 0)))))) = true).
    assert (E1 : Bminus mode_NE (Bopp (b64 1 0)) (b64 2 0) = b64 (-3) 0) by (apply B2SF_inj; vm_compute; reflexivity). assert (E2 : Bopp (b64 2 0) = b64 (-2) 0) by (apply B2SF_inj; vm_compute; reflexivity).
    rewrite E1, E2, (pow_over _ HX (-1000) (-3)), (pow_over _ HX (-1000) (-2)) by lia. rewrite (exp_under _ HX) by (vm_compute; reflexivity). vm_compute. reflexivity.
Qed.
Print Assumptions C135_frechet_refuted.

(** Uniform: every double, NaN included *)
Theorem C135_uniform (m : Libm) (l w : f64) (d : UniformF.t f64) : UniformF.new l w = Ok d -> density_on (fun _ => True) (UniformF.pdf d).
Proof.
  intros H x _. unfold UniformF.new, UniformF.params_new, loc_new, scale_new in H. cbn [and_then map_ok map_err check] in H. unfold check_default in H. cbn [is_satisfied_by] in H. unfold pltb, POrd_scalar, pzero in H.
  destruct (fltb (f_of_Z 0) w) eqn:E; cbn [and_then map_ok map_err] in H; [|discriminate]. injection H as <-. unfold UniformF.pdf. destruct (_ || _); [vm_compute; reflexivity|]. cbn [UniformF.prob UniformF.width].
  change (lt64 zero64 w) in E. destruct (lt_num _ _ E) as [_ N]. apply lt_V1 in E. rewrite V_zero in E. apply nnv_le. change (nnv (Bdiv mode_NE (b64 1 0) w)). apply div_nn; [split; [reflexivity|]|exact N|exact E|left; exact fin_b64_1].
  change (0 <= V one64). rewrite V_one. lra.
Qed.
Print Assumptions C135_uniform.
(** Laplace: every x but NaN *)
Theorem C135_laplace (m : Libm) (mu b : f64) (d : Laplace.t f64) : libm_range m -> Laplace.new mu b = Ok d -> finite64 mu -> finite64 b -> forall x, number x -> exists y, Laplace.pdf d x = Ret y /\ valid_prob y.
Proof.
  intros HR H Fm Fs. unfold Laplace.new in H. inv64 H. assert (P := fin_pos b Fs HP0). intros x N. unfold Laplace.pdf. cbn [Laplace.pr Laplace.mu Laplace.b].
  destruct (b64_int 2 ltac:(lia)) as [F2 R2].
  assert (HALF : forall e, nnv e -> V e <= 1 -> num (Bdiv mode_NE e (b64 2 0)) /\ 0 <= V (Bdiv mode_NE e (b64 2 0)) <= 1).
  { intros e E L. assert (Fe := le1_fin e E L). assert (D : nnv (Bdiv mode_NE e (b64 2 0))) by (apply div_nn; [exact E|now apply fin_num|rewrite V_fin, R2 by auto; lra|now left]). destruct D as [D1 D2]. split; [exact D1|]. split; [exact D2|].
    destruct (V_div e (b64 2 0) Fe F2 ltac:(lra)) as [_ ->]. apply sat_le1. rewrite R2. rewrite V_fin in L by auto. lra. }
  destruct (fltb x mu || feqb x mu)%bool eqn:C1.
  - eexists. split; [reflexivity|]. assert (LE : V x <= V mu).
    { apply orb_prop in C1 as [C1|C1]; [left; now apply lt_V1|]. apply le_V1. unfold le64, Bleb, SpecFloat.SFleb. unfold feqb in C1. cbn in C1. unfold Beqb, SpecFloat.SFeqb in C1. destruct (SpecFloat.SFcompare (B2SF x) (B2SF mu)) as [[]|]; auto; discriminate. }
    change (valid_prob (Bdiv mode_NE (m_exp (zz mu b x)) (b64 2 0))). assert (Z := zz_num mu b Fm Fs P x N).
    assert (ZZ : V (zz mu b x) <= 0).
    { unfold zz. destruct (minus_c x mu N Fm) as [A B]. apply div_le0; auto. rewrite B. destruct (inf_cases x N) as [F|[E1|E1]]; [|subst; cbn [lift]; assert (Q := M64_pos); lra|subst; cbn [V] in LE; rewrite V_fin in LE by auto; assert (K := fin_lt mu Fm); lra].
      rewrite lift_fin by auto. rewrite !V_fin in LE by auto. apply sat_neg. lra. }
    destruct (HALF _ (xp_nn HR _ Z) (xp_le1 HR _ Z ZZ)) as [A B]. now apply V_valid.
  - assert (GT : V mu < V x).
    { destruct (Rlt_dec (V mu) (V x)) as [G|G]; [exact G|]. exfalso. assert (LE : le64 x mu) by (apply le_V2; [exact N|now apply fin_num|lra]).
      apply orb_false_elim in C1 as [C1 C1']. cbn [fltb feqb F64Scalar] in C1, C1'. unfold Bltb, SpecFloat.SFltb in C1. unfold Beqb, SpecFloat.SFeqb in C1'. unfold le64, Bleb, SpecFloat.SFleb in LE.
      destruct (SpecFloat.SFcompare (B2SF x) (B2SF mu)) as [[]|]; discriminate. }
    assert (C2 : fltb mu x = true) by (apply (lt_V2 mu x); auto; now apply fin_num). rewrite C2. eexists. split; [reflexivity|].
    assert (W : num (Bdiv mode_NE (Bminus mode_NE mu x) b) /\ V (Bdiv mode_NE (Bminus mode_NE mu x) b) <= 0).
    { destruct (c_minus x mu N Fm) as [A B]. apply div_le0; auto. rewrite B. assert (Q := M64_pos). destruct (inf_cases x N) as [F|[E1|E1]]; [|subst; cbn [V] in GT; rewrite V_fin in GT by auto; assert (K := fin_lt mu Fm); lra|subst; cbn [liftn]; lra].
      rewrite liftn_fin by auto. rewrite !V_fin in GT by auto. apply sat_neg. lra. }
    destruct W as [W1 W2]. destruct (HALF _ (xp_nn HR _ W1) (xp_le1 HR _ W1 W2)) as [A B].
    change (valid_prob (Bminus mode_NE (b64 1 0) (Bdiv mode_NE (m_exp (Bdiv mode_NE (Bminus mode_NE mu x) b)) (b64 2 0)))). destruct (one_minus _ A B) as [C D]. now apply V_valid.
Qed.
Print Assumptions C135_laplace.
(** ... and at NaN it panics *)
Theorem C135_laplace_nan (m : Libm) (d : Laplace.t f64) : Laplace.pdf d B754_nan = Panic.
Proof. unfold Laplace.pdf. generalize (Laplace.mu (Laplace.pr d)). intros mu. destruct mu; reflexivity. Qed.
Print Assumptions C135_laplace_nan.

(** every hypothesis above can be met *)
Example C135_nonvacuous : libm_range cr_libm /\ libm_extreme cr_libm /\ (forall x, le64 zero64 x -> number (@m_ln cr_libm x)) /\
  let m := cr_libm in let a := b64 (-3) (-1) in let s := b64 5 (-2) in
  (exists d, Exponential.new s = Ok d) /\ (exists d, Logistic.new a s = Ok d) /\ (exists d, Gumbel.new a s = Ok d) /\ (exists d, Cauchy.new a s = Ok d) /\ (exists d, UvNormal.new a s = Ok d) /\ (exists d, LogNormal.new a s = Ok d) /\
  (exists d, FoldedNormal.new a s = Ok d) /\ (exists d, Rayleigh.new s = Ok d) /\ (exists d, GPD.new a s s = Ok d) /\ (exists d, GEV.new a s s = Ok d) /\ (exists d, UniformF.new a s = Ok d) /\ (exists d, Laplace.new a s = Ok d) /\
  finite64 a /\ finite64 s /\ lt64 zero64 s /\ le64 (b64 1 (-1022)) s /\ finite64 (Bmult mode_NE s s) /\ le64 one64 (Bmult mode_NE s s) /\ le64 a zero64.
Proof.
  split; [apply cr_range|]. split; [apply cr_extreme|]. split.
  { intros x H. apply le_nnv in H as [N P]. cbn [m_ln cr_libm]. apply r2f_num. }
  intros m. generalize m. clear m. intros m a s.
  assert (PS : fltb (f_of_Z 0 : f64) s = true) by (vm_compute; reflexivity).
  assert (UN : UvNormal.new a s = Ok (UvNormal.new_unchecked a s)).
  { unfold UvNormal.new, UvNormal.params_new, loc_new, isotropic_new. cbn [and_then map_ok map_err check]. unfold check_default. cbn [is_satisfied_by]. unfold pltb, POrd_scalar, pzero. rewrite PS. reflexivity. }
  assert (UF : UniformF.new a s = Ok (UniformF.new_unchecked a s)).
  { unfold UniformF.new, UniformF.params_new, loc_new, scale_new. cbn [and_then map_ok map_err check]. unfold check_default. cbn [is_satisfied_by]. unfold pltb, POrd_scalar, pzero. rewrite PS. reflexivity. }
  repeat match goal with |- _ /\ _ => split end; lazymatch goal with |- ex _ => idtac | _ => vm_compute; reflexivity end.
  5: { eexists. exact UN. } 5: { unfold LogNormal.new. rewrite UN. eexists. reflexivity. } 9: { eexists. exact UF. }
  all: eexists; unfold Exponential.new, Logistic.new, Gumbel.new, FoldedNormal.new, Rayleigh.new, GPD.new, GEV.new, Cauchy.new, Laplace.new;
  (apply map_params_ok; cbn [args s1 s2 s3 fst snd]; repeat (apply Forall_cons || apply Forall_nil); unfold arg_ok; cbn [arg_ty arg_val field_ok]; first [exact I|exact PS]).
Qed.
