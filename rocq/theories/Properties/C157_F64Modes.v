(** * Property C157: in double arithmetic, no double has a greater density than the reported mode *)
From Coq Require Import Reals Lra Lia Psatz List ZArith Bool.
From Flocq Require Import Core IEEE754.BinarySingleNaN.
From Verif.Num Require Import Scalar F64.
From Verif.Model Require Import Rust Constraints Probability Params Consts Continuous Continuous2 Continuous3 Discrete.
From Verif.Spec Require Import ParamSpec ProbSpec LibmSpec.
From Verif.Proofs Require Import ConstraintProofs NewInv F64Order LibmInst F64Cdf F64Pdf.
From Verif.Properties Require Import C133_F64Cdf C135_F64Pdf C133_C135_F64More C149_DiscreteF64 C152_F64Variance C156_F64Special.
Import ListNotations.
Open Scope R_scope.

(** [m] is in the domain and no point of the domain has a greater value *)
Definition top_on (dom : f64 -> Prop) (f : f64 -> f64) (m : f64) : Prop := dom m /\ forall x, dom x -> le64 (f x) (f m).
(** a list of modes, not empty, each of which is a top *)
Definition modes_on (dom : f64 -> Prop) (f : f64 -> f64) (l : list f64) : Prop := l <> [] /\ Forall (top_on dom f) l.
Lemma modes_1 dom f m : top_on dom f m -> modes_on dom f [m].
Proof. intros H. split; [discriminate|]. now constructor. Qed.

Lemma zz_self mu s : fin mu -> fin s -> 0 < RV s -> fin (zz mu s mu) /\ RV (zz mu s mu) = 0.
Proof.
  intros Fm Fs Ps. assert (Q := M64_pos). unfold zz. destruct (V_minus mu mu Fm Fm) as [N E]. rewrite Rminus_diag_eq, sat_0 in E by reflexivity.
  assert (F : fin (Bminus mode_NE mu mu)) by (apply V_fin_iff; [exact N|rewrite E; lra]). rewrite V_fin in E by exact F.
  destruct (V_div _ s F Fs ltac:(lra)) as [N2 E2]. rewrite E in E2. unfold Rdiv in E2. rewrite Rmult_0_l, sat_0 in E2.
  assert (F2 : fin (Bdiv mode_NE (Bminus mode_NE mu mu) s)) by (apply V_fin_iff; [exact N2|rewrite E2; lra]). split; [exact F2|]. now rewrite V_fin in E2 by exact F2.
Qed.
Lemma nsq_zero z : fin z -> RV z = 0 -> V (nsq z) = 0.
Proof. intros F E. unfold nsq. destruct (V_mult (Bopp z) z (fin_opp _ F) F) as [_ ->]. rewrite E, Rmult_0_r. apply sat_0. Qed.
Lemma div_zero x c : fin c -> 0 < RV c -> num x -> V x = 0 -> V (Bdiv mode_NE x c) = 0.
Proof.
  intros Fc P N E. assert (Q := M64_pos). assert (F : fin x) by (apply V_fin_iff; [exact N|lra]). destruct (V_div x c F Fc ltac:(lra)) as [_ ->]. rewrite V_fin in E by exact F. rewrite E. unfold Rdiv. rewrite Rmult_0_l. apply sat_0.
Qed.
(** dividing by the same positive double, infinity included *)
Lemma div_mono' x y n : nnv x -> nnv y -> fin x -> fin y -> V x <= V y -> num n -> 0 < V n -> V (Bdiv mode_NE x n) <= V (Bdiv mode_NE y n).
Proof.
  intros Hx Hy Fx Fy L N P. destruct (pos_not_zero n N P) as [[F Q]|E]; [apply div_mono; auto; now apply fin_num|]. subst n.
  destruct x; try discriminate; destruct y; try discriminate; cbn; lra.
Qed.

(** the exponent -(z z)/2 of the Gaussian *)
Definition gexp (z : f64) : f64 := Bdiv mode_NE (nsq z) (b64 2 0).
Lemma gexp_num z : num z -> num (gexp z) /\ V (gexp z) <= 0.
Proof. intros N. destruct (b64_int 2 ltac:(lia)) as [F2 R2]. destruct (nsq_val z N) as [A _]. apply div_le0; auto; [rewrite R2; lra|now apply nsq_le0]. Qed.
Lemma gexp_zero z : fin z -> RV z = 0 -> V (gexp z) = 0.
Proof. intros F E. destruct (b64_int 2 ltac:(lia)) as [F2 R2]. destruct (nsq_val z (fin_num _ F)) as [A _]. apply div_zero; auto; [rewrite R2; lra|]. now apply nsq_zero. Qed.

Theorem C157_normal (m : Libm) (mu v : f64) (d : UvNormal.t f64) : libm_range m -> libm_monotone m -> UvNormal.new mu v = Ok d -> finite64 mu -> finite64 v ->
  modes_on number (UvNormal.pdf d) (UvNormal.modes d).
Proof.
  intros HR HM H Fm Fv. destruct (normal_inv m mu v d H) as [-> Hv]. assert (Pv := fin_pos v Fv Hv). destruct (sqrt_pos64 v Fv Pv) as [FS PS].
  apply modes_1. cbn [UvNormal.pr UvNormal.mu UvNormal.new_unchecked]. split; [exact (fin_num mu Fm)|]. intros x N.
  destruct (rt2pi_ok m) as [FP PP]. destruct (mult_pos _ _ FP PP FS PS) as [NN NP]. set (sd := Bsqrt mode_NE v) in *. set (n := Bmult mode_NE (rt2pi m) sd) in *.
  change (le64 (Bdiv mode_NE (m_exp (gexp (zz mu sd x))) n) (Bdiv mode_NE (m_exp (gexp (zz mu sd mu))) n)).
  assert (Nz := zz_num mu sd Fm FS PS x N). destruct (zz_self mu sd Fm FS PS) as [F0 Z0]. destruct (gexp_num _ Nz) as [A B]. destruct (gexp_num _ (fin_num _ F0)) as [A0 B0].
  assert (G0 := gexp_zero _ F0 Z0). assert (E := xp_nn HR _ A). assert (E0 := xp_nn HR _ A0).
  assert (F : fin (m_exp (gexp (zz mu sd x)))) by (apply le1_fin; [exact E|now apply (xp_le1 HR)]). assert (F' : fin (m_exp (gexp (zz mu sd mu)))) by (apply le1_fin; [exact E0|now apply (xp_le1 HR)]).
  apply le_V2; [apply (div_nn _ n E NN NP); now left|apply (div_nn _ n E0 NN NP); now left|]. apply div_mono'; auto. apply (xp_mono HM); auto. lra.
Qed.
Print Assumptions C157_normal.

(** Exponential, x >= 0 *)
Theorem C157_exponential (m : Libm) (l : f64) (d : Exponential.t f64) : libm_range m -> libm_monotone m -> Exponential.new l = Ok d -> finite64 l ->
  modes_on (le64 zero64) (Exponential.pdf d) (Exponential.modes d).
Proof.
  intros HR HM H F. unfold Exponential.new in H. inv64 H. assert (P := fin_pos l F HP). apply modes_1. assert (Z : le64 zero64 (f_of_Z 0)) by (vm_compute; reflexivity). split; [exact Z|].
  intros x Hx. destruct (ex_e m l HR F P x Hx) as [N [B U]]. destruct (ex_e m l HR F P _ Z) as [N0 [B0 U0]]. change (f_of_Z 0) with zero64 in *.
  change (le64 (Bmult mode_NE l (m_exp (Bmult mode_NE (Bopp l) x))) (Bmult mode_NE l (m_exp (Bmult mode_NE (Bopp l) zero64)))).
  assert (Fo := fin_opp l F). assert (NL : RV (Bopp l) < 0) by (rewrite RV_opp; lra). destruct (le0_dom x Hx) as [Nx Lx].
  destruct (cn_mult x (Bopp l) Nx Fo NL) as [M1 M2]. destruct (cn_mult zero64 (Bopp l) num_zero Fo NL) as [M3 M4].
  apply le_V2; [apply c_mult; auto|apply c_mult; auto|]. apply cmult_mono; auto. apply (xp_mono HM); auto. rewrite M2, M4. apply (liftn_anti _ zero64 x); [intros a b Hab; apply Rmult_le_compat_neg_l; lra|apply num_zero|exact Nx|assert (VZ := V_zero); lra].
Qed.
Print Assumptions C157_exponential.

(** a / y with y >= 1 is at most a / 1 *)
Lemma div_le_one a y y0 : nnv a -> fin a -> num y -> 1 <= V y -> fin y0 -> RV y0 = 1 -> V (Bdiv mode_NE a y) <= V (Bdiv mode_NE a y0).
Proof.
  intros [Na Pa] Fa Ny Ly F0 E0. rewrite V_fin in Pa by auto. destruct (V_div a y0 Fa F0 ltac:(lra)) as [_ ->]. rewrite E0.
  destruct (inf_cases y Ny) as [F|[E|E]].
  - rewrite V_fin in Ly by auto. destruct (V_div a y Fa F ltac:(lra)) as [_ ->]. apply sat_mono. unfold Rdiv. apply Rmult_le_compat_l; [exact Pa|]. apply Rinv_le_contravar; lra.
  - subst y. assert (Q := M64_pos). cbn [V] in Ly. lra.
  - subst y. assert (0 <= sat (RV a / 1)) by (apply sat_pos; lra). destruct a; try discriminate; cbn [Bdiv V RV B2R]; exact H.
Qed.
(** Cauchy with a scale of at least 2^-1022 *)
Theorem C157_cauchy_partial (m : Libm) (x0 g : f64) (d : Cauchy.t f64) : Cauchy.new x0 g = Ok d -> finite64 x0 -> finite64 g -> le64 (b64 1 (-1022)) g ->
  modes_on number (Cauchy.pdf d) (Cauchy.modes d).
Proof.
  intros H Fm Fs Hg. unfold Cauchy.new in H. inv64 H. assert (P := fin_pos g Fs HP0). apply modes_1. cbn [Cauchy.pr Cauchy.x0]. split; [exact (fin_num _ Fm)|]. intros x N. assert (Z := zz_num x0 g Fm Fs P x N).
  set (c := Bdiv mode_NE (b64 1 0) (b64 7074237752028440 (-51))).
  change (le64 (Bdiv mode_NE (Bdiv mode_NE c g) (Bplus mode_NE (b64 1 0) (Bmult mode_NE (zz x0 g x) (zz x0 g x)))) (Bdiv mode_NE (Bdiv mode_NE c g) (Bplus mode_NE (b64 1 0) (Bmult mode_NE (zz x0 g x0) (zz x0 g x0))))).
  assert (Fc : fin c) by (vm_compute; reflexivity). assert (Pc : 0 < RV c). { apply fin_pos; [exact Fc|vm_compute; reflexivity]. }
  assert (NC : nnv (Bdiv mode_NE c g)) by (apply div_nn; [now apply nn_fin|now apply fin_num|rewrite V_fin by auto; lra|now left]).
  assert (FC : fin (Bdiv mode_NE c g)).
  { destruct (V_div c g Fc Fs ltac:(lra)) as [N1 E1]. apply V_fin_iff; [exact N1|]. rewrite E1. assert (Q := M64_pos).
    assert (G : RV c / RV g <= RV (b64 1 1022)).
    { destruct (b64_pow2 (-1022) ltac:(lia)) as [F2 V2]. destruct (b64_pow2 1022 ltac:(lia)) as [F3 V3]. rewrite V3. apply le_V1 in Hg. rewrite !V_fin in Hg by auto. rewrite V2 in Hg.
      assert (C1 : RV c <= 1). { rewrite <- RV_b64_1, <- !V_fin by (auto; apply fin_b64_1). apply le_V1. vm_compute. reflexivity. }
      apply Rmult_le_reg_r with (RV g); [exact P|]. unfold Rdiv. rewrite Rmult_assoc, Rinv_l by lra. rewrite Rmult_1_r.
      apply Rle_trans with (bpow radix2 1022 * bpow radix2 (-1022)); [rewrite <- bpow_plus; change (bpow radix2 (1022 + -1022)) with 1; exact C1|]. apply Rmult_le_compat_l; [apply bpow_ge_0|exact Hg]. }
    assert (0 <= sat (RV c / RV g)) by (apply sat_pos; left; now apply Rdiv_lt_0_compat). split; [lra|].
    apply Rle_lt_trans with (RV (b64 1 1022)); [|apply fin_lt; vm_compute; reflexivity]. rewrite <- (sat_fmt (RV (b64 1 1022))); [now apply sat_mono|apply fmt_RV|]. assert (K := fin_lt (b64 1 1022) ltac:(vm_compute; reflexivity)). lra. }
  destruct (zz_self x0 g Fm Fs P) as [F0 Z0].
  assert (K : fin (Bplus mode_NE (b64 1 0) (Bmult mode_NE (zz x0 g x0) (zz x0 g x0))) /\ RV (Bplus mode_NE (b64 1 0) (Bmult mode_NE (zz x0 g x0) (zz x0 g x0))) = 1).
  { assert (Q := M64_pos). destruct (V_mult _ _ F0 F0) as [A B]. rewrite Z0, Rmult_0_l, sat_0 in B. assert (F1 : fin (Bmult mode_NE (zz x0 g x0) (zz x0 g x0))) by (apply V_fin_iff; [exact A|rewrite B; lra]). rewrite V_fin in B by exact F1.
    destruct (V_plus (b64 1 0) _ fin_b64_1 F1) as [C D]. rewrite RV_b64_1, B, Rplus_0_r, sat_1 in D. assert (F2 : fin (Bplus mode_NE (b64 1 0) (Bmult mode_NE (zz x0 g x0) (zz x0 g x0)))) by (apply V_fin_iff; [exact C|rewrite D; lra]).
    split; [exact F2|]. now rewrite V_fin in D by exact F2. }
  destruct K as [K1 K2]. destruct (sq_nn _ Z) as [A B]. destruct (one_plus _ A B) as [C D].
  apply le_V2; [apply (div_nn _ _ NC C); [lra|now left]|apply (div_nn _ _ NC (fin_num _ K1)); [rewrite V_fin by auto; lra|now left]|]. now apply div_le_one.
Qed.
Print Assumptions C157_cauchy_partial.
(** ... with a smaller scale the density at the mode may be infinity, and elsewhere not a number *)
Theorem C157_cauchy_refuted (m : Libm) : exists (g : f64) (d : Cauchy.t f64), Cauchy.new zero64 g = Ok d /\ finite64 g /\ ~ modes_on finite64 (Cauchy.pdf d) (Cauchy.modes d).
Proof.
  destruct (C135_cauchy_refuted m) as (g & x & d & H & Fg & Fx & N). exists g, d. split; [exact H|]. split; [exact Fg|]. intros [_ K]. unfold Cauchy.new in H. inv64 H. cbn [Cauchy.modes Cauchy.pr Cauchy.x0] in K.
  apply Forall_inv in K. destruct K as [_ K]. specialize (K x Fx). destruct (le_num _ _ K) as [A _]. unfold num in A. exact (eq_true_false_abs _ N A).
Qed.
Print Assumptions C157_cauchy_refuted.

(** n / y never grows with y > 0, infinity included *)
Lemma div_anti n y y0 : nnv n -> fin n -> num y -> num y0 -> 0 < V y0 -> V y0 <= V y -> V (Bdiv mode_NE n y) <= V (Bdiv mode_NE n y0).
Proof.
  intros Nn Fn Ny N0 P L. destruct (div_nn n y0 Nn N0 P (or_introl Fn)) as [_ GE]. destruct Nn as [Nn Pn]. rewrite V_fin in Pn by auto.
  destruct (pos_not_zero y Ny ltac:(lra)) as [[F Q]|E].
  - destruct (pos_not_zero y0 N0 P) as [[F0 Q0]|E0].
    + destruct (V_div n y Fn F ltac:(lra)) as [_ ->]. destruct (V_div n y0 Fn F0 ltac:(lra)) as [_ ->]. rewrite !V_fin in L by auto. apply sat_mono. unfold Rdiv. apply Rmult_le_compat_l; [exact Pn|]. now apply Rinv_le_contravar.
    + exfalso. subst y0. rewrite (V_fin y) in L by auto. assert (K := fin_lt y F). cbn [V] in L. lra.
  - subst y. apply Rle_trans with 0; [|exact GE]. destruct n; try discriminate; cbn [Bdiv V B2R]; lra.
Qed.
(** Pareto: when a xm^a does not overflow and xm^(a+1) does not underflow to zero, over all doubles but NaN *)
Theorem C157_pareto_partial (m : Libm) (xm a : f64) (d : Pareto.t f64) : libm_range m -> libm_monotone m -> Pareto.new xm a = Ok d -> finite64 xm -> lt64 zero64 xm -> finite64 a ->
  finite64 (Bmult mode_NE a (m_powf xm a)) -> lt64 zero64 (m_powf xm (Bplus mode_NE a one64)) ->
  modes_on number (Pareto.pdf d) (Pareto.modes d).
Proof.
  intros HR HM H Fx Px Fa Fn Pq. unfold Pareto.new in H. inv64 H. assert (Pa := fin_pos a Fa HP0). assert (Pm := fin_pos xm Fx Px). apply modes_1. cbn [Pareto.pr Pareto.x_m]. split; [exact (fin_num _ Fx)|].
  set (n := Bmult mode_NE a (m_powf xm a)) in *. set (b := Bplus mode_NE a one64) in *.
  assert (S : forall x, num x -> (V x < V xm /\ Pareto.pdf (Pareto.mk (Pareto.mkP xm a)) x = zero64) \/ (V xm <= V x /\ Pareto.pdf (Pareto.mk (Pareto.mkP xm a)) x = Bdiv mode_NE n (m_powf x b))).
  { intros x Nx. unfold Pareto.pdf. cbn [Pareto.pr]. change (fltb x xm) with (Bltb x xm). destruct (Bltb_dec x xm Nx (fin_num _ Fx)) as [[E L]|[E L]]; rewrite E; [left|right]; (split; [exact L|reflexivity]). }
  assert (Nb : num b /\ 0 < V b). { unfold b. destruct (V_plus a one64 Fa fin_b64_1) as [A B]. split; [exact A|]. rewrite B. change (RV one64) with (RV (b64 1 0)). rewrite RV_b64_1. apply Rlt_le_trans with 1; [lra|]. apply sat_ge1. lra. }
  destruct Nb as [Nb Pb]. assert (Nn : nnv n). { unfold n. apply mult_nn; [now apply nn_fin|apply (pw_nn HR); [now apply nn_fin|now apply fin_num]|now left|]. right. rewrite V_fin; auto. }
  assert (Nq : nnv (m_powf xm b)) by (apply (pw_nn HR); [now apply nn_fin|exact Nb]). apply lt_V1 in Pq. rewrite V_zero in Pq.
  intros x Nx. destruct (S xm (fin_num _ Fx)) as [[L _]|[_ E0]]; [lra|]. rewrite E0. destruct (div_nn n _ Nn (proj1 Nq) Pq (or_introl Fn)) as [N1 P1].
  destruct (S x Nx) as [[L E]|[L E]]; rewrite E.
  - apply le_V2; [apply num_zero|exact N1|]. rewrite V_zero. exact P1.
  - rewrite V_fin in L by auto. assert (Nx' : nnv x) by (split; [exact Nx|lra]). assert (LE : V (m_powf xm b) <= V (m_powf x b)). { apply (pw_mono HM); auto; [now apply fin_num|rewrite V_fin by auto; lra|rewrite V_fin by auto; exact L]. }
    assert (Nqx : nnv (m_powf x b)) by (now apply (pw_nn HR)). apply le_V2; [apply (div_nn n _ Nn (proj1 Nqx)); [lra|now left]|exact N1|]. apply div_anti; auto; [apply Nqx|apply Nq].
Qed.
Print Assumptions C157_pareto_partial.
(** ... otherwise the density at the reported mode may not be a number *)
Theorem C157_pareto_refuted (m : Libm) : libm_extreme m -> exists (xm a : f64) (d : Pareto.t f64), Pareto.new xm a = Ok d /\ finite64 xm /\ finite64 a /\ ~ modes_on number (Pareto.pdf d) (Pareto.modes d).
Proof.
  intros HX. destruct (C135_pareto_refuted m HX) as (xm & a & d & H & Fa & Fx & N). exists xm, a, d. split; [exact H|]. split; [exact Fx|]. split; [exact Fa|]. intros [_ K]. unfold Pareto.new in H. inv64 H. cbn [Pareto.modes Pareto.pr Pareto.x_m] in K.
  apply Forall_inv in K. destruct K as [D K]. specialize (K xm D). destruct (le_num _ _ K) as [A _]. unfold num in A. exact (eq_true_false_abs _ N A).
Qed.
Print Assumptions C157_pareto_refuted.

Lemma val_one x : fin x -> RV x = 1 -> x = one64.
Proof.
  intros F E. apply B2R_inj; [|reflexivity|].
  - destruct x as [s|s| |s mm ee hh]; try discriminate; [|reflexivity]. exfalso. cbn in E. lra.
  - change (RV x = RV (b64 1 0)). now rewrite RV_b64_1.
Qed.
(** Student's t, wherever the density at 0 is finite and not negative; C99 fixes pow(1, y) = 1 *)
Theorem C157_students_t (m : Libm) (SP : Special f64) (n : f64) (d : StudentT.t f64) : libm_range m -> libm_monotone m -> (forall y, number y -> m_powf one64 y = one64) ->
  StudentT.new n = Ok d -> finite64 n -> lt64 zero64 n ->
  finite64 (StudentT.pdf d zero64) -> le64 zero64 (StudentT.pdf d zero64) ->
  modes_on number (StudentT.pdf d) (StudentT.modes d).
Proof.
  intros HR HM H1 H Fn Pn. unfold StudentT.new in H. inv_new H. clear HP. apply (fin_pos _ Fn) in Pn.
  set (e := Bopp (Bdiv mode_NE (Bplus mode_NE n (b64 1 0)) (b64 2 0))).
  set (k := Bdiv mode_NE (Bdiv mode_NE (sf_gamma (Bdiv mode_NE (Bplus mode_NE n (b64 1 0)) (b64 2 0))) (Bsqrt mode_NE (Bmult mode_NE n (b64 7074237752028440 (-51))))) (sf_gamma (Bdiv mode_NE n (b64 2 0)))).
  set (w := (fun x : f64 => Bplus mode_NE (b64 1 0) (Bdiv mode_NE (Bmult mode_NE x x) n)) : f64 -> f64).
  assert (E : forall x, StudentT.pdf (StudentT.mk (StudentT.mkP n)) x = Bmult mode_NE k (m_powf (w x) e)) by reflexivity.
  intros F0 P0. rewrite E in F0, P0. apply modes_1. split; [reflexivity|]. intros x Nx. rewrite !E. change (f_of_Z 0) with zero64.
  destruct (b64_int 2 ltac:(lia)) as [F2 R2].
  assert (Ne : num e /\ V e < 0).
  { unfold e. destruct (V_plus n (b64 1 0) Fn fin_b64_1) as [A B]. rewrite RV_b64_1 in B. assert (L1 : 1 <= V (Bplus mode_NE n (b64 1 0))) by (rewrite B; apply sat_ge1; lra).
    destruct (div_c _ (b64 2 0) A F2 ltac:(rewrite R2; lra)) as [C D]. split; [now apply num_opp|]. rewrite V_opp. apply Ropp_lt_gt_0_contravar. rewrite D. 
    destruct (pos_not_zero _ A ltac:(lra)) as [[F Q]|E1]; [|rewrite E1; cbn [lift]; assert (Q := M64_pos); lra]. rewrite lift_fin by exact F. rewrite R2. rewrite V_fin in L1 by exact F.
    apply Rlt_le_trans with (sat (RV (b64 1 (-1)))); [|apply sat_mono; rewrite (proj2 (b64_pow2 (-1) ltac:(lia))); change (bpow radix2 (-1)) with (/ 2); lra]. rewrite sat_fmt; [|apply fmt_RV|assert (K := fin_lt (b64 1 (-1)) ltac:(vm_compute; reflexivity)); lra]. apply fin_pos; vm_compute; reflexivity. }
  destruct Ne as [Ne Pe].
  assert (W : forall y, num y -> num (w y) /\ 1 <= V (w y)). { intros y Ny. destruct (sq_nn y Ny) as [A B]. destruct (div_ge0 _ n Fn Pn A B) as [C D]. now apply one_plus. }
  assert (W0 : fin (w zero64) /\ RV (w zero64) = 1).
  { assert (Q := M64_pos). destruct (sq_nn zero64 num_zero) as [A B]. assert (Z : V (Bmult mode_NE zero64 zero64) = 0) by (destruct (V_mult zero64 zero64 eq_refl eq_refl) as [_ ->]; unfold zero64; rewrite RV_b64_0, Rmult_0_l; apply sat_0).
    assert (D := div_zero _ n Fn Pn A Z). destruct (div_ge0 _ n Fn Pn A B) as [C _]. assert (FD : fin (Bdiv mode_NE (Bmult mode_NE zero64 zero64) n)) by (apply V_fin_iff; [exact C|lra]). rewrite V_fin in D by exact FD.
    destruct (V_plus (b64 1 0) _ fin_b64_1 FD) as [G I]. rewrite RV_b64_1, D, Rplus_0_r, sat_1 in I. assert (FW : fin (w zero64)) by (apply V_fin_iff; [exact G|fold (w zero64) in I; rewrite I; lra]). split; [exact FW|]. fold (w zero64) in I. now rewrite V_fin in I by exact FW. }
  destruct W0 as [W0 W1]. rewrite (val_one _ W0 W1), (H1 e Ne) in *.
  assert (Kk : nnv k /\ fin k /\ V (Bmult mode_NE k one64) = V k).
  { assert (Q := M64_pos). assert (Nk : num k). { destruct (le_num _ _ P0) as [_ A]. destruct k; try reflexivity. discriminate A. }
    assert (M1 := mult_c k one64 Nk fin_b64_1 ltac:(change (RV one64) with (RV (b64 1 0)); rewrite RV_b64_1; lra)). destruct M1 as [M1 M2]. assert (Fk : fin k). { destruct (inf_cases k Nk) as [A|[A|A]]; [exact A| |]; rewrite A in F0; discriminate F0. }
    rewrite lift_fin in M2 by exact Fk. change (RV one64) with (RV (b64 1 0)) in M2. rewrite RV_b64_1, Rmult_1_r in M2. assert (B := fin_lt k Fk). rewrite sat_fmt in M2; [|apply fmt_RV|lra].
    apply le_V1 in P0. rewrite V_zero, M2 in P0. split; [split; [exact Nk|rewrite V_fin by exact Fk; exact P0]|]. split; [exact Fk|]. rewrite M2. now rewrite V_fin. }
  destruct Kk as (NK & FK & VK). destruct (W x Nx) as [A B]. assert (Q := M64_pos). assert (Pw : nnv (m_powf (w x) e)) by (apply (pw_nn HR); [split; [exact A|lra]|exact Ne]). assert (P1 := pw_neg_le1 HR _ e A B Ne Pe). assert (FP := le1_fin _ Pw P1).
  apply le_V2; [apply (mult_nn _ _ NK Pw); now left|exact (proj2 (le_num _ _ P0))|]. rewrite VK. destruct (V_mult k _ FK FP) as [_ ->]. rewrite V_fin in P1 by exact FP. destruct NK as [_ NK]. rewrite V_fin in * by auto.
  apply Rle_trans with (sat (RV k)); [apply sat_mono; nra|]. assert (B' := fin_lt k FK). rewrite sat_fmt; [lra|apply fmt_RV|lra].
Qed.
Print Assumptions C157_students_t.

(** Cosine, wherever the density is a number: cosines lie in [-1, 1] and cos(0) = 1 *)
Theorem C157_cosine (m : Libm) (mu s : f64) (d : Cosine.t f64) : (forall x, number (m_cos x) -> le64 (Bopp one64) (m_cos x) /\ le64 (m_cos x) one64) -> (forall x, finite64 x -> RV x = 0 -> m_cos x = one64) ->
  Cosine.new mu s = Ok d -> finite64 mu -> finite64 s ->
  modes_on (fun x => number x /\ number (Cosine.pdf d x)) (Cosine.pdf d) (Cosine.modes d).
Proof.
  intros HC H0 H Fm Fs. unfold Cosine.new in H. inv64 H. assert (P := fin_pos s Fs HP0). assert (Q := M64_pos).
  set (p := b64 7074237752028440 (-51)). set (h := Bdiv mode_NE (b64 1 0) (b64 2 0)).
  assert (E : forall x, Cosine.pdf (Cosine.mk (Cosine.mkP mu s)) x = Bmult mode_NE h (Bdiv mode_NE (Bplus mode_NE (m_cos (Bmult mode_NE (zz mu s x) p)) (b64 1 0)) (b64 2 0))) by reflexivity.
  assert (Fp : fin p) by (vm_compute; reflexivity). assert (Pp : 0 < RV p) by (apply fin_pos; [exact Fp|vm_compute; reflexivity]). assert (Fh : fin h) by (vm_compute; reflexivity). assert (Ph : 0 < RV h) by (apply fin_pos; [exact Fh|vm_compute; reflexivity]).
  destruct (b64_int 2 ltac:(lia)) as [F2 R2]. assert (P2 : 0 < RV (b64 2 0)) by (rewrite R2; lra). destruct (zz_self mu s Fm Fs P) as [FZ Z0].
  assert (M : m_cos (Bmult mode_NE (zz mu s mu) p) = one64).
  { destruct (V_mult _ p FZ Fp) as [A B]. rewrite Z0, Rmult_0_l, sat_0 in B. assert (F1 : fin (Bmult mode_NE (zz mu s mu) p)) by (apply V_fin_iff; [exact A|rewrite B; lra]). rewrite V_fin in B by exact F1. now apply H0. }
  assert (E0 : Cosine.pdf (Cosine.mk (Cosine.mkP mu s)) mu = h). { rewrite E, M. apply B2SF_inj. vm_compute. reflexivity. }
  apply modes_1. cbn [Cosine.pr Cosine.mu]. split; [split; [exact (fin_num _ Fm)|rewrite E0; reflexivity]|]. intros x [Nx Nd]. rewrite E0. rewrite E in Nd |- *. set (c := m_cos (Bmult mode_NE (zz mu s x) p)) in *.
  assert (Nc : number c) by (clearbody c; destruct c; first [reflexivity|discriminate Nd]). destruct (HC _ Nc) as [_ U]. apply le_V1 in U. change (num c) in Nc.
  destruct (plus_c c (b64 1 0) Nc fin_b64_1) as [A _]. destruct (div_c _ (b64 2 0) A F2 P2) as [B _]. destruct (c_mult _ h B Fh Ph) as [C _].
  assert (H1 : V h = V (Bmult mode_NE h (Bdiv mode_NE (Bplus mode_NE one64 (b64 1 0)) (b64 2 0)))) by (f_equal; apply B2SF_inj; vm_compute; reflexivity).
  apply le_V2; [exact C|reflexivity|]. rewrite H1. assert (NT : num (Bplus mode_NE one64 (b64 1 0)) /\ num (Bdiv mode_NE (Bplus mode_NE one64 (b64 1 0)) (b64 2 0))) by (split; vm_compute; reflexivity). destruct NT as [NT NT']. apply cmult_mono; auto. apply div_mono; auto. apply plus_mono; auto; apply fin_b64_1.
Qed.
Print Assumptions C157_cosine.

(** Geometric: every reported mode is a non-negative integer no less probable than any other below 2^31 *)
Theorem C157_geometric (m : Libm) (x : f64) (d : Geometric.t f64) : powi_unit m -> powi_anti m -> Geometric.new x = Ok d ->
  Geometric.modes d <> [] /\ forall j, In j (Geometric.modes d) -> (0 <= j)%Z /\ forall k, (0 <= k < 2 ^ 31)%Z -> le64 (Probability.unwrap (Geometric.pmf d k)) (Probability.unwrap (Geometric.pmf d j)).
Proof.
  intros HU HA H. destruct (C149_geometric m x d HU HA H) as (_ & K & _). split; [discriminate|]. intros j [<-|[]]. split; [lia|]. intros k Hk. apply K; lia.
Qed.
Print Assumptions C157_geometric.

(** Logistic: the reported mode is the location, but with a correctly rounded exponential a neighbouring double has a greater density *)
Theorem C157_logistic_refuted (m : Libm) : m_exp (Bopp zero64) = one64 -> m_exp (Bopp (b64 3 (-53))) = b64 9007199254740989 (-53) ->
  exists d : Logistic.t f64, Logistic.new zero64 one64 = Ok d /\ Logistic.modes d = [zero64] /\ lt64 (Logistic.pdf d zero64) (Logistic.pdf d (b64 3 (-53))).
Proof.
  intros E0 E1. exists (Logistic.new_unchecked zero64 one64). split; [|split; [reflexivity|]].
  - assert (PS : fltb (f_of_Z 0 : f64) one64 = true) by (vm_compute; reflexivity). unfold Logistic.new.
    etransitivity; [apply map_params_ok; cbn [args s1 s2 s3 fst snd]; repeat (apply Forall_cons || apply Forall_nil); unfold arg_ok; cbn [arg_ty arg_val field_ok]; first [exact I|exact PS]|reflexivity].
  - change (lt64 (Bdiv mode_NE (Bdiv mode_NE (Bdiv mode_NE (m_exp (Bopp (zz zero64 one64 zero64))) one64) (Bplus mode_NE (b64 1 0) (m_exp (Bopp (zz zero64 one64 zero64))))) (Bplus mode_NE (b64 1 0) (m_exp (Bopp (zz zero64 one64 zero64)))))
      (Bdiv mode_NE (Bdiv mode_NE (Bdiv mode_NE (m_exp (Bopp (zz zero64 one64 (b64 3 (-53))))) one64) (Bplus mode_NE (b64 1 0) (m_exp (Bopp (zz zero64 one64 (b64 3 (-53))))))) (Bplus mode_NE (b64 1 0) (m_exp (Bopp (zz zero64 one64 (b64 3 (-53)))))))).
    assert (Z0 : zz zero64 one64 zero64 = zero64) by (apply B2SF_inj; vm_compute; reflexivity). assert (Z1 : zz zero64 one64 (b64 3 (-53)) = b64 3 (-53)) by (apply B2SF_inj; vm_compute; reflexivity).
    rewrite Z0, Z1, E0, E1. vm_compute. reflexivity.
Qed.
Print Assumptions C157_logistic_refuted.
(** Laplace: what [pdf] computes has no top at the location *)
Theorem C157_laplace_refuted (m : Libm) : m_exp zero64 = one64 -> libm_extreme m ->
  exists d : Laplace.t f64, Laplace.new zero64 one64 = Ok d /\ Laplace.modes d = [zero64] /\
  exists p q, Laplace.pdf d zero64 = Ret p /\ Laplace.pdf d (b64 2048 0) = Ret q /\ lt64 p q.
Proof.
  intros E0 HX. exists (Laplace.new_unchecked zero64 one64). split; [|split; [reflexivity|]].
  - assert (PS : fltb (f_of_Z 0 : f64) one64 = true) by (vm_compute; reflexivity). unfold Laplace.new.
    etransitivity; [apply map_params_ok; cbn [args s1 s2 s3 fst snd]; repeat (apply Forall_cons || apply Forall_nil); unfold arg_ok; cbn [arg_ty arg_val field_ok]; first [exact I|exact PS]|reflexivity].
  - exists (Bdiv mode_NE one64 (b64 2 0)), (Bminus mode_NE (b64 1 0) (Bdiv mode_NE (B754_zero false) (b64 2 0))). split; [|split].
    + transitivity (Ret (Bdiv mode_NE (m_exp (zz zero64 one64 zero64)) (b64 2 0))); [reflexivity|]. assert (Z0 : zz zero64 one64 zero64 = zero64) by (apply B2SF_inj; vm_compute; reflexivity). rewrite Z0, E0. reflexivity.
    + transitivity (Ret (Bminus mode_NE (b64 1 0) (Bdiv mode_NE (m_exp (Bdiv mode_NE (Bminus mode_NE zero64 (b64 2048 0)) one64)) (b64 2 0)))); [reflexivity|]. rewrite (exp_under _ HX) by (vm_compute; reflexivity). reflexivity.
    + vm_compute. reflexivity.
Qed.
Print Assumptions C157_laplace_refuted.

(** the assumptions on the elementary functions hold of correctly rounded ones *)
Lemma val_V x : num x -> V x = 1 -> x = one64.
Proof. intros N E. assert (Q := M64_pos). assert (F : fin x) by (apply V_fin_iff; [exact N|lra]). apply val_one; [exact F|]. now rewrite V_fin in E by exact F. Qed.
Lemma fmt_dyadic (k e : Z) : k <> 0%Z -> (SpecFloat.fexp 53 1024 (Zdigits radix2 k + e) <= e)%Z -> fmt64 (IZR k * bpow radix2 e).
Proof.
  intros K H. change (fmt64 (F2R (Float radix2 k e))). apply generic_format_F2R. intros _. unfold cexp. rewrite mag_F2R_Zdigits by exact K. exact H.
Qed.
Lemma near_one r : IZR 9007199254740989 / 9007199254740992 <= r -> r <= IZR 36028797018963957 / 36028797018963968 -> r2f r = b64 9007199254740989 (-53).
Proof.
  intros L U. destruct (r2f_V r) as [N E].
  assert (A : V (b64 9007199254740989 (-53)) = IZR 9007199254740989 / 9007199254740992 /\ fmt64 (IZR 9007199254740989 / 9007199254740992)).
  { destruct (b64_spec 9007199254740989 (-53)) as [F E1]; [apply rnd_small, small_le; change (bpow radix2 (-53)) with (/ 9007199254740992); rewrite Rabs_pos_eq; lra|].
    assert (G : fmt64 (IZR 9007199254740989 * bpow radix2 (-53))) by (apply fmt_dyadic; [discriminate|vm_compute; discriminate]).
    rewrite rnd_fmt in E1 by exact G. change (bpow radix2 (-53)) with (/ 9007199254740992) in E1, G. rewrite V_fin by exact F. split; [exact E1|exact G]. }
  destruct A as [A G].
  assert (B : V (b64 36028797018963957 (-55)) = sat (IZR 36028797018963957 / 36028797018963968)).
  { destruct (b64_spec 36028797018963957 (-55)) as [F E1]; [apply rnd_small, small_le; change (bpow radix2 (-55)) with (/ 36028797018963968); rewrite Rabs_pos_eq; lra|]. rewrite V_fin by exact F. rewrite E1. change (bpow radix2 (-55)) with (/ 36028797018963968).
    unfold sat. rewrite clamp_id; [reflexivity|]. assert (Q := M64_pos). assert (K := fin_lt _ F). fold rnd in E1. rewrite E1 in K. change (bpow radix2 (-55)) with (/ 36028797018963968) in K. lra. }
  assert (X : b64 36028797018963957 (-55) = b64 9007199254740989 (-53)) by (apply B2SF_inj; vm_compute; reflexivity). rewrite X, A in B.
  assert (L' := sat_mono _ _ L). assert (U' := sat_mono _ _ U). rewrite <- B in U'. assert (Q := M64_pos). rewrite (sat_fmt _ G) in L' by lra. rewrite <- E in L', U'. rewrite <- A in L', U'.
  assert (EV : V (r2f r) = V (b64 9007199254740989 (-53))) by lra. assert (FF : fin (r2f r)). { apply V_fin_iff; [exact N|]. rewrite EV, A. lra. } rewrite !V_fin in EV by first [exact FF|reflexivity].
  apply B2R_inj; [|reflexivity|exact EV]. destruct (r2f r) as [s|s| |s mm ee hh]; try discriminate; [|reflexivity]. exfalso. rewrite V_fin in A by reflexivity. rewrite A in EV. cbn in EV. lra.
Qed.
Example C157_libm : (forall x, number (@m_cos cr_libm x) -> le64 (Bopp one64) (@m_cos cr_libm x) /\ le64 (@m_cos cr_libm x) one64) /\ (forall x, finite64 x -> RV x = 0 -> @m_cos cr_libm x = one64) /\
  (forall y, number y -> @m_powf cr_libm one64 y = one64) /\ @m_exp cr_libm zero64 = one64 /\ @m_exp cr_libm (Bopp zero64) = one64 /\ @m_exp cr_libm (Bopp (b64 3 (-53))) = b64 9007199254740989 (-53).
Proof.
  assert (EX : forall x, fin x -> RV x = 0 -> cr_exp x = one64). { intros x F E. assert (K : cr_exp x = r2f (exp (RV x))) by (destruct x; try discriminate; reflexivity). rewrite K, E, exp_0. apply val_V; [apply r2f_num|]. destruct (r2f_V 1) as [_ ->]. apply sat_1. }
  split; [|split; [|split; [|split; [|split]]]].
  - intros x _. destruct (r2f_V (cos (RV x))) as [N E]. destruct (COS_bound (RV x)) as [L U]. split; (apply le_V2; [first [exact N|reflexivity]|first [exact N|reflexivity]|]); change (@m_cos cr_libm x) with (r2f (cos (RV x))); rewrite E, ?V_opp, V_one; [|now apply sat_le1].
    assert (K : sat (- (1)) = - (1)) by (rewrite sat_opp, sat_1; reflexivity). rewrite <- K. apply sat_mono. lra.
  - intros x F E. apply val_V; [apply r2f_num|]. destruct (r2f_V (cos (RV x))) as [_ E1]. refine (eq_trans E1 _). rewrite E, cos_0. apply sat_1.
  - intros y N. change (cr_pow one64 y = one64). assert (K : RV one64 = 1) by (apply RV_b64_1). assert (Q : V one64 = 1) by apply V_one. destruct y as [s|s| |s mm ee hh]; [reflexivity| |discriminate N|].
    + unfold cr_pow. change one64 with (b64 1 0) in *. assert (S1 : exists mm ee hh, b64 1 0 = B754_finite false mm ee hh) by (apply pos_sign; [apply fin_b64_1|rewrite RV_b64_1; lra]). destruct S1 as (m1 & e1 & h1 & S1). rewrite S1 in *. destruct (Rlt_dec (V (B754_finite false m1 e1 h1)) 1); [lra|]. destruct (Rlt_dec 1 (V (B754_finite false m1 e1 h1))); [lra|]. reflexivity.
    + assert (S1 : exists mm ee hh, one64 = B754_finite false mm ee hh) by (apply pos_sign; [apply fin_b64_1|rewrite K; lra]). destruct S1 as (m1 & e1 & h1 & S1).
      assert (G : cr_pow one64 (B754_finite s mm ee hh) = r2f (Rpower (RV one64) (RV (B754_finite s mm ee hh)))) by (rewrite S1; reflexivity). rewrite G, K. unfold Rpower. rewrite ln_1, Rmult_0_r, exp_0. apply val_V; [apply r2f_num|]. destruct (r2f_V 1) as [_ ->]. apply sat_1.
  - apply EX; [reflexivity|apply RV_b64_0].
  - apply EX; [reflexivity|rewrite RV_opp; unfold zero64; rewrite RV_b64_0; lra].
  - set (x := Bopp (b64 3 (-53))). assert (K : @m_exp cr_libm x = r2f (exp (RV x))) by reflexivity. rewrite K.
    assert (RX : RV x = - (3 / 9007199254740992)). { unfold x. rewrite RV_opp. f_equal. destruct (b64_spec 3 (-53)) as [_ E]; [apply rnd_small, small_le; change (bpow radix2 (-53)) with (/ 9007199254740992); rewrite Rabs_pos_eq; lra|]. rewrite E. rewrite rnd_fmt; [reflexivity|].
      apply fmt_dyadic; [discriminate|vm_compute; discriminate]. }
    rewrite RX. apply near_one.
    + apply Rle_trans with (1 + - (3 / 9007199254740992)); [lra|]. apply exp_ineq1_le.
    + assert (I := exp_ineq1_le (3 / 9007199254740992)). rewrite exp_Ropp. apply Rle_trans with (/ (1 + 3 / 9007199254740992)); [apply Rinv_le_contravar; lra|]. apply Rmult_le_reg_r with (1 + 3 / 9007199254740992); [lra|]. rewrite Rinv_l by lra. lra.
Qed.
Example C157_nonvacuous (m : Libm) : let a := b64 (-3) (-1) in let s := b64 5 (-2) in
  (exists d, UvNormal.new a s = Ok d) /\ (exists d, Exponential.new s = Ok d) /\ (exists d, Cauchy.new a s = Ok d) /\ (exists d, Pareto.new s s = Ok d) /\ (exists d, StudentT.new s = Ok d) /\ (exists d, Cosine.new a s = Ok d) /\ (exists d, Geometric.new (b64 1 (-2)) = Ok d) /\
  le64 (b64 1 (-1022)) s /\ lt64 zero64 s.
Proof.
  intros a s. assert (PS : fltb (f_of_Z 0 : f64) s = true) by (vm_compute; reflexivity).
  split; [exists (UvNormal.new_unchecked a s); unfold UvNormal.new, UvNormal.params_new, loc_new, isotropic_new; cbn [and_then map_ok map_err check]; unfold check_default; cbn [is_satisfied_by]; unfold pltb, POrd_scalar, pzero; rewrite PS; reflexivity|].
  do 5 (split; [eexists; match goal with |- ?t = _ => let f := head t in unfold f end; apply map_params_ok; cbn [args s1 s2 s3 fst snd]; repeat (apply Forall_cons || apply Forall_nil); unfold arg_ok; cbn [arg_ty arg_val field_ok]; first [exact I|exact PS]|]).
  split; [exact (proj1 (C152_nonvacuous_p m))|]. split; vm_compute; reflexivity.
Qed.
