(** * Property C153: means in double arithmetic *)
From Coq Require Import Reals Lra Lia Psatz List ZArith Bool.
From Flocq Require Import Core IEEE754.BinarySingleNaN.
From Verif.Num Require Import Scalar F64.
From Verif.Model Require Import Rust Constraints Probability Params Consts Continuous Continuous2 Continuous3 Discrete.
From Verif.Spec Require Import ParamSpec ProbSpec LibmSpec.
From Verif.Proofs Require Import ConstraintProofs NewInv ProbProofs F64Order LibmInst F64Cdf F64Pdf.
From Verif.Properties Require Import C133_F64Cdf C135_F64Pdf C152_F64Variance.
Import ListNotations.
Open Scope R_scope.

(** [x] is a number (never NaN) between the doubles [lo] and [hi] *)
Definition between64 (lo x hi : f64) : Prop := le64 lo x /\ le64 x hi.
Definition inf64 : f64 := B754_infinity false.

Lemma le_V x y : num x -> num y -> V x <= V y -> le64 x y. Proof. intros; now apply le_V2. Qed.
Lemma nn_between x : nnv x -> between64 zero64 x inf64.
Proof. intros N. split; [now apply nnv_le|]. apply le_V; [apply N|reflexivity|]. change (V inf64) with M64. apply V_bounds. Qed.

(** lb + w/2 lies between lb and lb + w, also when it overflows or w/2 underflows *)
Lemma mid64 (l w : f64) : fin l -> PF w -> between64 l (Bplus mode_NE l (Bdiv mode_NE w (b64 2 0))) (Bplus mode_NE l w).
Proof.
  intros Fl [Fw Pw]. destruct (b64_z 2 ltac:(lia)) as [F2 V2]. destruct (V_div w (b64 2 0) Fw F2 ltac:(lra)) as [Nh Eh]. rewrite V2 in Eh. assert (B := fin_lt w Fw). assert (M := M64_pos).
  assert (G : 0 <= sat (RV w / 2) <= RV w) by (split; [apply sat_pos; lra|rewrite <- (sat_fmt (RV w)) at 2; [apply sat_mono; lra|apply fmt_RV|lra]]).
  assert (Fh : fin (Bdiv mode_NE w (b64 2 0))) by (apply V_fin_iff; [exact Nh|rewrite Eh; lra]). rewrite V_fin in Eh by exact Fh. rewrite <- Eh in G. set (h := Bdiv mode_NE w (b64 2 0)) in *.
  destruct (V_plus l h Fl Fh) as [N1 E1]. destruct (V_plus l w Fl Fw) as [N2 E2]. assert (BL := fin_lt l Fl). split; apply le_V; auto; [now apply fin_num| |].
  - rewrite E1, V_fin by exact Fl. rewrite <- (sat_fmt (RV l)) at 1; [apply sat_mono; lra|apply fmt_RV|lra].
  - rewrite E1, E2. apply sat_mono; lra.
Qed.
Theorem C153_uniform (m : Libm) (l w : f64) (d : UniformF.t f64) : UniformF.new l w = Ok d -> finite64 l -> finite64 w -> between64 l (UniformF.mean d) (UniformF.ub d) /\ between64 l (UniformF.median d) (UniformF.ub d).
Proof.
  intros H Fl F. unfold UniformF.new, UniformF.params_new, loc_new, scale_new in H. destruct (check (AllS Positive) w) eqn:E; [|discriminate H]. apply check_ok_inv in E as [-> E]. injection H as <-.
  change (lt64 zero64 w) in E. assert (P : PF w) by pf. split; apply mid64; assumption.
Qed.
Print Assumptions C153_uniform.
(** Arcsine computes (a + b) / 2: right exactly when a + b does not overflow *)
Lemma avg64 (a b : f64) : fin a -> fin b -> RV a <= RV b -> (between64 a (Bdiv mode_NE (Bplus mode_NE a b) (b64 2 0)) b <-> fin (Bplus mode_NE a b)).
Proof.
  intros Fa Fb L. destruct (b64_z 2 ltac:(lia)) as [F2 V2]. destruct (V_plus a b Fa Fb) as [N E]. set (s := Bplus mode_NE a b) in *. assert (M := M64_pos). assert (BA := fin_lt a Fa). assert (BB := fin_lt b Fb). split.
  - intros [A B]. destruct (inf_cases s N) as [F|[K|K]]; [exact F| |]; rewrite K in A, B; exfalso.
    + replace (Bdiv mode_NE (B754_infinity true) (b64 2 0)) with (B754_infinity true : f64) in A by (apply B2SF_inj; vm_compute; reflexivity). apply le_V1 in A. cbn [V] in A. rewrite V_fin in A by exact Fa. lra.
    + replace (Bdiv mode_NE (B754_infinity false) (b64 2 0)) with (B754_infinity false : f64) in B by (apply B2SF_inj; vm_compute; reflexivity). apply le_V1 in B. cbn [V] in B. rewrite V_fin in B by exact Fb. lra.
  - intros F. rewrite V_fin in E by exact F. destruct (V_div s (b64 2 0) F F2 ltac:(lra)) as [ND ED]. rewrite V2 in ED. assert (BS := fin_lt s F).
    assert (R : RV s = rnd (RV a + RV b)). { unfold sat, clamp in E. revert E. unfold Rmax, Rmin. destruct (Rle_dec M64 (rnd (RV a + RV b))); [destruct (Rle_dec (- M64) M64)|destruct (Rle_dec (- M64) (rnd (RV a + RV b)))]; lra. }
    assert (D : forall x, RV x * 2 = rnd (RV x * 2)). { intros x. symmetry. apply rnd_fmt. assert (X := fmt_RV x). change 2 with (bpow radix2 1). apply (generic_format_FLT radix2 (-1074) 53). apply FLT_format_generic in X; [|reflexivity]. destruct X as [f Hx Hm He].
      exists (Float radix2 (Fnum f) (Fexp f + 1)); cbn [Fnum Fexp]; [rewrite Hx; unfold F2R; cbn [Fnum Fexp]; rewrite bpow_plus; ring|exact Hm|apply Z.le_trans with (Fexp f); [exact He|apply Z.le_succ_diag_r]]. }
    assert (L1 : RV a <= RV s / 2) by (assert (RV a * 2 <= RV s) by (rewrite D, R; apply rnd_le; lra); lra). assert (L2 : RV s / 2 <= RV b) by (assert (RV s <= RV b * 2) by (rewrite D, R; apply rnd_le; lra); lra).
    split; (apply le_V; [first [exact ND|now apply fin_num]|first [exact ND|now apply fin_num]|]); rewrite ED, V_fin by assumption.
    + rewrite <- (sat_fmt (RV a)) at 1; [apply sat_mono; lra|apply fmt_RV|lra].
    + rewrite <- (sat_fmt (RV b)); [apply sat_mono; lra|apply fmt_RV|lra].
Qed.
Theorem C153_arcsine_partial (m : Libm) (a w : f64) (d : Arcsine.t f64) : Arcsine.new a w = Ok d -> finite64 a -> finite64 w -> finite64 (Bplus mode_NE a w) ->
  (between64 a (Arcsine.mean d) (Bplus mode_NE a w) <-> finite64 (Bplus mode_NE a (Bplus mode_NE a w))).
Proof.
  intros H Fa F Fb. unfold Arcsine.new in H. inv64 H. assert (P : PF w) by pf. apply (avg64 a (Bplus mode_NE a w)); auto. destruct (V_plus a w Fa F) as [_ E]. rewrite V_fin in E by exact Fb. rewrite E. destruct P as [_ P].
  assert (BA := fin_lt a Fa). rewrite <- (sat_fmt (RV a)) at 1; [apply sat_mono; lra|apply fmt_RV|lra].
Qed.
Print Assumptions C153_arcsine_partial.
Theorem C153_arcsine_refuted (m : Libm) : exists d, Arcsine.new (b64 1 1023) (b64 1 1000) = Ok d /\ Arcsine.mean d = B754_infinity false /\ finite64 (Bplus mode_NE (b64 1 1023) (b64 1 1000)).
Proof.
  exists (Arcsine.new_unchecked (b64 1 1023) (b64 1 1000)). split; [|split; [apply B2SF_inj; vm_compute; reflexivity|vm_compute; reflexivity]].
  assert (PS : fltb (f_of_Z 0 : f64) (b64 1 1000) = true) by (vm_compute; reflexivity).
  unfold Arcsine.new. etransitivity; [apply map_params_ok; cbn [args s1 s2 s3 fst snd]; repeat (apply Forall_cons || apply Forall_nil); unfold arg_ok; cbn [arg_ty arg_val field_ok]; first [exact I|exact PS] | reflexivity].
Qed.
Print Assumptions C153_arcsine_refuted.
Theorem C153_beta (m : Libm) (a b : f64) (d : Beta.t f64) : Beta.new a b = Ok d -> finite64 a -> finite64 b -> between64 zero64 (Beta.mean d) one64.
Proof.
  intros H Fa Fb. unfold Beta.new in H. inv64 H. assert (Pa : PF a) by pf. assert (Pb : PF b) by pf.
  assert (N : nnv (Bdiv mode_NE b a)) by nn. destruct (plus_pos (b64 1 0) _ ltac:(lit) N) as [NS LS]. destruct (b64_z 1 ltac:(lia)) as [F1 V1]. rewrite V1 in LS.
  assert (VP := recip_vp _ NS LS). change (between64 zero64 (Bdiv mode_NE (b64 1 0) (Bplus mode_NE (b64 1 0) (Bdiv mode_NE b a))) one64).
  destruct (vp_nn _ VP) as [A B]. split; [now apply nnv_le|]. apply le_V; [apply A|apply fin_num; reflexivity|]. now rewrite V_one.
Qed.
Print Assumptions C153_beta.
Theorem C153_bernoulli (m : Libm) (x : f64) (d : Bernoulli.t f64) : Bernoulli.new x = Ok d -> between64 zero64 (Bernoulli.mean d) one64.
Proof.
  intros H. unfold Bernoulli.new in H. inv_new H. apply (vp_inv m) in HP. change (between64 zero64 x one64). destruct (vp_nn _ HP) as [A B]. split; [now apply nnv_le|]. apply le_V; [apply A|apply fin_num; reflexivity|]. now rewrite V_one.
Qed.
Print Assumptions C153_bernoulli.

(** a probability times a count lies between 0 and the count *)
Lemma scaled (x n : f64) : valid_prob x -> fin n -> 0 <= RV n -> between64 zero64 (Bmult mode_NE x n) n /\ between64 zero64 (Bmult mode_NE n x) n.
Proof.
  intros [Fx Bx] Fn Pn. fold (RV x) in Bx. assert (B := fin_lt n Fn). assert (M := M64_pos).
  assert (C : 0 <= RV x * RV n <= RV n) by (split; [now apply Rmult_le_pos|rewrite <- (Rmult_1_l (RV n)) at 2; apply Rmult_le_compat_r; lra]).
  assert (E : sat (RV x * RV n) <= RV n) by (rewrite <- (sat_fmt (RV n)) at 2; [apply sat_mono; lra|apply fmt_RV|lra]).
  destruct (V_mult x n Fx Fn) as [N1 E1]. destruct (V_mult n x Fn Fx) as [N2 E2]. rewrite (Rmult_comm (RV n)) in E2.
  split; (split; [apply nnv_le; split; [assumption|]; rewrite ?E1, ?E2; now apply sat_pos|]); (apply le_V; [assumption|now apply fin_num|]); rewrite ?E1, ?E2, (V_fin n) by exact Fn; exact E.
Qed.
Lemma count64 (n : Z) : (0 <= n < 2 ^ 64)%Z -> fin (b64 n 0) /\ 0 <= RV (b64 n 0).
Proof. intros H. assert (N := nb_u n H). assert (F := nb_fin (b64 n 0) 64 ltac:(lia) N). split; [exact F|]. rewrite <- V_fin by exact F. apply N. Qed.
Theorem C153_binomial (m : Libm) (n : Z) (p : Probability f64) (d : Binomial.t f64) : Binomial.new n p = Ok d -> (n < 2 ^ 64)%Z -> between64 zero64 (Binomial.mean d) (b64 n 0).
Proof.
  intros H K. destruct p as [x]. unfold Binomial.new in H. inv_new H. assert (VP := vp_inv m x HP0). destruct (count64 n ltac:(lia)) as [F P].
  change (between64 zero64 (Bmult mode_NE x (b64 n 0)) (b64 n 0)). now apply scaled.
Qed.
Print Assumptions C153_binomial.
Theorem C153_beta_binomial (m : Libm) (n : Z) (a b : f64) (d : BetaBinomial.t f64) : BetaBinomial.new n a b = Ok d -> (n < 2 ^ 64)%Z -> finite64 a -> finite64 b -> between64 zero64 (BetaBinomial.mean d) (b64 n 0).
Proof.
  intros H K Fa Fb. unfold BetaBinomial.new in H. inv64 H. assert (Pa : PF a) by pf. assert (Pb : PF b) by pf. assert (VP := ratio_nb a b Pa (PF_nn _ Pb)). destruct (count64 n ltac:(lia)) as [F P].
  change (between64 zero64 (Bmult mode_NE (b64 n 0) (Bdiv mode_NE a (Bplus mode_NE a b))) (b64 n 0)). now apply scaled.
Qed.
Print Assumptions C153_beta_binomial.

(** half-line families: a number, at least 0 *)
Theorem C153_exponential (m : Libm) (l : f64) (d : Exponential.t f64) : Exponential.new l = Ok d -> finite64 l -> between64 zero64 (Exponential.mean d) inf64.
Proof. intros H F. unfold Exponential.new in H. inv64 H. change (between64 zero64 (Bdiv mode_NE (b64 1 0) l) inf64). apply nn_between. nn. Qed.
Print Assumptions C153_exponential.
Theorem C153_gamma (m : Libm) (a b : f64) (d : Gamma.t f64) : Gamma.new a b = Ok d -> finite64 a -> finite64 b -> between64 zero64 (Gamma.mean d) inf64.
Proof. intros H Fa Fb. unfold Gamma.new in H. inv64 H. change (between64 zero64 (Bdiv mode_NE a b) inf64). apply nn_between. nn. Qed.
Print Assumptions C153_gamma.
Theorem C153_erlang (m : Libm) (k : Z) (l : f64) (d : Erlang.t f64) : Erlang.new k l = Ok d -> (k < 2 ^ 64)%Z -> finite64 l -> between64 zero64 (Erlang.mean d) inf64.
Proof.
  intros H K F. unfold Erlang.new in H. inv64 H. destruct (b64_u k ltac:(lia)) as [P _].
  change (between64 zero64 (Bdiv mode_NE (b64 k 0) l) inf64). set (x := b64 k 0) in *. apply nn_between. nn.
Qed.
Print Assumptions C153_erlang.
Theorem C153_rayleigh (m : Libm) (s : f64) (d : Rayleigh.t f64) : Rayleigh.new s = Ok d -> finite64 s -> between64 zero64 (Rayleigh.mean d) inf64.
Proof.
  intros H F. unfold Rayleigh.new in H. inv64 H. unfold Rayleigh.mean. cbn [Rayleigh.pr Rayleigh.sigma]. generalize (ltac:(lit) : PF (fsqrt (PI_OVER_2 : f64))). generalize (fsqrt (PI_OVER_2 : f64)). intros c C.
  change (between64 zero64 (Bmult mode_NE s c) inf64). apply nn_between. nn.
Qed.
Print Assumptions C153_rayleigh.
Theorem C153_inverse_gamma (m : Libm) (a b v : f64) (d : InvGamma.t f64) : InvGamma.new a b = Ok d -> finite64 a -> finite64 b -> InvGamma.mean d = Ret v -> between64 zero64 v inf64.
Proof.
  intros H Fa Fb W. unfold InvGamma.new in H. inv64 H. unfold InvGamma.mean in W. cbn [InvGamma.pr InvGamma.alpha InvGamma.beta] in W. change (fleb a (f_of_Z 1)) with (Bleb a (b64 1 0)) in W.
  destruct (Bleb a (b64 1 0)) eqn:E; [discriminate W|]. apply gt_lit in E; [|lia|exact Fa]. injection W as <-.
  assert (P1 := minus_lit a 1 ltac:(lia) Fa ltac:(lra)). set (p := Bminus mode_NE a (b64 1 0)) in *.
  change (between64 zero64 (Bdiv mode_NE b p) inf64). apply nn_between. nn.
Qed.
Print Assumptions C153_inverse_gamma.
Theorem C153_beta_prime (m : Libm) (a b v : f64) (d : BetaPrime.t f64) : BetaPrime.new a b = Ok d -> finite64 a -> finite64 b -> BetaPrime.mean d = Ret v -> between64 zero64 v inf64.
Proof.
  intros H Fa Fb W. unfold BetaPrime.new in H. inv64 H. unfold BetaPrime.mean in W. cbn [BetaPrime.pr BetaPrime.alpha BetaPrime.beta] in W. change (fleb b (f_of_Z 1)) with (Bleb b (b64 1 0)) in W.
  destruct (Bleb b (b64 1 0)) eqn:E; [discriminate W|]. apply gt_lit in E; [|lia|exact Fb]. injection W as <-.
  assert (P1 := minus_lit b 1 ltac:(lia) Fb ltac:(lra)). set (p := Bminus mode_NE b (b64 1 0)) in *.
  change (between64 zero64 (Bdiv mode_NE a p) inf64). apply nn_between. nn.
Qed.
Print Assumptions C153_beta_prime.
Theorem C153_poisson (m : Libm) (l : f64) (d : Poisson.t f64) : Poisson.new l = Ok d -> finite64 l -> between64 zero64 (Poisson.mean d) inf64.
Proof. intros H F. unfold Poisson.new in H. inv64 H. change (between64 zero64 l inf64). apply nn_between. nn. Qed.
Print Assumptions C153_poisson.
(** F: the mean is at least 1 *)
Theorem C153_f_dist (m : Libm) (j k : Z) (v : f64) (d : FDist.t) : FDist.new (F := f64) j k = Ok d -> (k < 2 ^ 64)%Z -> FDist.mean d = Ret v -> between64 one64 v inf64.
Proof.
  intros H K W. unfold FDist.new in H. inv_new H. unfold FDist.mean in W. cbn [FDist.pr FDist.d2] in W. destruct (Z.leb_spec k 2); [discriminate W|]. injection W as <-.
  assert (PK := bnd_u k ltac:(lia)). assert (G := b64_ge 3 k ltac:(lia) ltac:(lia)). assert (P2 := bnd_minus (b64 k 0) 2 64 ltac:(lia) PK ltac:(lia) ltac:(lra)).
  destruct (b64_z 2 ltac:(lia)) as [F2 V2]. destruct (V_minus (b64 k 0) (b64 2 0) (proj1 PK) F2) as [NM EM]. rewrite V2 in EM. destruct PK as [FK BK]. destruct P2 as [F3 B3]. rewrite V_fin in EM by exact F3.
  change (between64 one64 (Bdiv mode_NE (b64 k 0) (Bminus mode_NE (b64 k 0) (b64 2 0))) inf64). set (y := b64 k 0) in *. set (p := Bminus mode_NE y (b64 2 0)) in *.
  assert (PP : 0 < RV p) by (cbn [bpow] in B3; lra). assert (LE : RV p <= RV y). { assert (B := fin_lt y FK). assert (M := M64_pos). rewrite EM. rewrite <- (sat_fmt (RV y)) at 2; [apply sat_mono; lra|apply fmt_RV|lra]. }
  destruct (V_div y p FK F3 ltac:(lra)) as [ND ED]. split; (apply le_V; [first [exact ND|apply fin_num; reflexivity]|first [exact ND|reflexivity]|]).
  - rewrite V_one, ED. apply sat_ge1. apply Rmult_le_reg_r with (RV p); [exact PP|]. unfold Rdiv. rewrite Rmult_assoc, Rinv_l by lra. lra.
  - change (V inf64) with M64. apply V_bounds.
Qed.
Print Assumptions C153_f_dist.
Theorem C153_lognormal (m : Libm) (mu s : f64) (d : LogNormal.t f64) : libm_range m -> LogNormal.new mu s = Ok d -> finite64 mu -> finite64 s -> between64 zero64 (LogNormal.mean d) inf64.
Proof.
  intros HR H Fm Fs. unfold LogNormal.new in H. destruct (UvNormal.new mu s) as [u|] eqn:E; [|discriminate H]. injection H as <-. apply normal_inv in E as [-> P].
  change (between64 zero64 (m_exp (Bplus mode_NE mu (Bdiv mode_NE (Bmult mode_NE s s) (b64 2 0)))) inf64). apply nn_between, (xp_nn HR).
  assert (N : nnv (Bdiv mode_NE (Bmult mode_NE s s) (b64 2 0))) by nn. destruct (nnv_cases _ N) as [[F _]|E]; [now apply V_plus|rewrite E]. destruct mu; try discriminate; reflexivity.
Qed.
Print Assumptions C153_lognormal.
(** Gumbel: at or above the location *)
Theorem C153_gumbel (m : Libm) (SP : Special f64) (mu b : f64) (d : Gumbel.t f64) : finite64 (sf_digamma one64) -> lt64 (sf_digamma one64) zero64 ->
  Gumbel.new mu b = Ok d -> finite64 mu -> finite64 b -> between64 mu (Gumbel.mean d) inf64.
Proof.
  intros FD LD H Fm F. unfold Gumbel.new in H. inv64 H. change (between64 mu (Bplus mode_NE mu (Bmult mode_NE b (Bopp (sf_digamma one64)))) inf64). assert (Pb : PF b) by pf.
  assert (P : PF (Bopp (sf_digamma one64))). { apply lt_V1 in LD. rewrite V_zero, V_fin in LD by exact FD. split; [unfold fin; now rewrite is_finite_Bopp|]. unfold RV. rewrite B2R_Bopp. fold (RV (sf_digamma one64)). lra. }
  assert (N := pf_mul _ _ Pb (PF_nn _ P)). set (x := Bmult mode_NE b _) in *. clearbody x. assert (BM := fin_lt mu Fm). assert (M := M64_pos).
  assert (Q : num (Bplus mode_NE mu x) /\ RV mu <= V (Bplus mode_NE mu x)).
  { destruct (nnv_cases x N) as [[Fx Px]|E]; [destruct (V_plus mu x Fm Fx) as [A B]; split; [exact A|]; rewrite B; rewrite <- (sat_fmt (RV mu)) at 1; [apply sat_mono; lra|apply fmt_RV|lra]|].
    rewrite E. destruct mu; try discriminate; (split; [reflexivity|]); cbn [Bplus V]; lra. }
  destruct Q as [A B]. split; apply le_V; [now apply fin_num|exact A|rewrite (V_fin mu) by exact Fm; exact B|exact A|reflexivity|change (V inf64) with M64; apply V_bounds].
Qed.
Print Assumptions C153_gumbel.

(** Pareto: a number above 0, but not always at or above the minimum x_m *)
Theorem C153_pareto_partial (m : Libm) (xm a : f64) (d : Pareto.t f64) : Pareto.new xm a = Ok d -> finite64 xm -> lt64 zero64 xm -> finite64 a -> between64 zero64 (Pareto.mean d) inf64.
Proof.
  intros H Fx Px Fa. unfold Pareto.new in H. inv64 H. unfold Pareto.mean. cbn [Pareto.pr]. change (fleb a (f_of_Z 1)) with (Bleb a (b64 1 0)).
  destruct (Bleb a (b64 1 0)) eqn:E; [split; vm_compute; reflexivity|]. apply gt_lit in E; [|lia|exact Fa].
  assert (P1 := minus_lit a 1 ltac:(lia) Fa ltac:(lra)). set (p := Bminus mode_NE a (b64 1 0)) in *. assert (Pa : PF a) by pf.
  change (between64 zero64 (Bdiv mode_NE (Bmult mode_NE a xm) p) inf64). apply nn_between. nn.
Qed.
Print Assumptions C153_pareto_partial.
Lemma pareto_new_ok (m : Libm) (a b : f64) : fltb (f_of_Z 0 : f64) b = true -> Pareto.new a b = Ok (Pareto.new_unchecked a b).
Proof.
  intros PB. unfold Pareto.new. etransitivity; [apply map_params_ok; cbn [args s1 s2 s3 fst snd]; repeat (apply Forall_cons || apply Forall_nil); unfold arg_ok; cbn [arg_ty arg_val field_ok]; first [exact I|exact PB] | reflexivity].
Qed.
Theorem C153_pareto_refuted (m : Libm) : exists (xm a : f64) (d : Pareto.t f64), Pareto.new xm a = Ok d /\ lt64 zero64 xm /\ lt64 (Pareto.mean d) xm.
Proof.
  exists (b64 6527927419259424 (-52)), (b64 6854148943096235 7), (Pareto.new_unchecked (b64 6527927419259424 (-52)) (b64 6854148943096235 7)). split; [apply pareto_new_ok; vm_compute; reflexivity|split; vm_compute; reflexivity].
Qed.
Print Assumptions C153_pareto_refuted.

(** Geometric: a number, at least 0, for every accepted parameter except -0.0, where it is -infinity *)
Theorem C153_geometric_partial (m : Libm) (x : f64) (d : Geometric.t f64) : Geometric.new x = Ok d -> x <> B754_zero true -> between64 zero64 (Geometric.mean d) inf64.
Proof.
  intros H NZ. unfold Geometric.new in H. inv_new H. apply (vp_inv m) in HP. destruct (not_val x HP) as [VQ _]. change (valid_prob (Bminus mode_NE (b64 1 0) x)) in VQ.
  change (between64 zero64 (Bdiv mode_NE (Bminus mode_NE (b64 1 0) x) x) inf64). apply nn_between. destruct HP as [F B]. destruct (Rle_lt_or_eq_dec 0 (RV x) (proj1 B)) as [L|L].
  - apply vp_nn in VQ as [VQ _]. apply div_pf; [exact VQ|now split].
  - destruct x as [[|]| | |sg mm ee hh]; try discriminate; [now elim NZ|apply nnv_inf|]. exfalso. symmetry in L. unfold RV in L. apply eq_0_F2R in L. destruct sg; discriminate L.
Qed.
Print Assumptions C153_geometric_partial.
Theorem C153_geometric_refuted (m : Libm) : exists d, Geometric.new (B754_zero true : f64) = Ok d /\ Geometric.mean d = B754_infinity true.
Proof.
  assert (PS : fleb (f_of_Z 0 : f64) (B754_zero true) = true /\ fleb (B754_zero true) (f_of_Z 1 : f64) = true) by (split; vm_compute; reflexivity).
  assert (N : Geometric.new (B754_zero true : f64) = Ok (Geometric.new_unchecked (B754_zero true : f64))).
  { unfold Geometric.new. etransitivity; [apply map_params_ok; cbn [args s1 s2 s3 fst snd]; repeat (apply Forall_cons || apply Forall_nil); unfold arg_ok; cbn [arg_ty arg_val field_ok]; exact PS | reflexivity]. }
  exists (Geometric.new_unchecked (B754_zero true : f64)). split; [exact N|]. now apply (C152_geometric_negative_zero m).
Qed.
Print Assumptions C153_geometric_refuted.

(** the hypotheses are met: constructors in [C152_nonvacuous], [C152_nonvacuous_p]; libm in [C152_libm]; a digamma with the right sign at 1 *)
Example C153_digamma (m : Libm) : let x := b64 (-5199121) (-23) in finite64 x /\ lt64 x zero64. Proof. split; vm_compute; reflexivity. Qed.
Example C153_uniform_ex (m : Libm) : exists d, UniformF.new (b64 (-3) (-1)) (b64 5 (-2)) = Ok d.
Proof.
  assert (PS : fltb (f_of_Z 0 : f64) (b64 5 (-2)) = true) by (vm_compute; reflexivity). exists (UniformF.new_unchecked (b64 (-3) (-1)) (b64 5 (-2))).
  unfold UniformF.new, UniformF.params_new, loc_new, scale_new. cbn [and_then map_ok map_err check]. unfold check_default. cbn [is_satisfied_by]. unfold pltb, POrd_scalar, pzero. rewrite PS. reflexivity.
Qed.
