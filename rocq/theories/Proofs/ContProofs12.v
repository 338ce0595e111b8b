(** * Gamma (modes, sampling), Chi-squared, Chi, inverse Gamma *)
From Coq Require Import Reals Lra Lia Psatz List ZArith.
From Coquelicot Require Import Coquelicot.
From Verif.Num Require Import XReal.
From Verif.Model Require Import Rust Constraints Probability Params Consts Continuous3.
From Verif.Spec Require Import DistSpec GammaSpec ResSpec.
From Verif.Proofs Require Import XTac Calc Calc2 Improper GammaFun Subst Mellin ContProofs11 DiscProofs4.
Import ListNotations.
Open Scope R_scope.

(** a continuous non-negative integrand, positive on some interval, has a positive integral *)
Lemma imp_pos_on lo hi (h : R -> R) (l c e : R) : Rbar_lt lo hi ->
  (forall x, inside lo hi x -> continuous h x) -> (forall x, inside lo hi x -> 0 <= h x) ->
  is_RInt_gen h (above lo) (below hi) l -> inside lo hi c -> inside lo hi e -> c < e -> (forall x, c < x < e -> 0 < h x) -> 0 < l.
Proof.
  intros Hlt Hc Hp Hl Ic Ie Hce Hpos.
  destruct (imp_split lo hi h Hlt Hc Hp l c Hl Ic) as [la [lb [A [B ->]]]].
  assert (M : forall x y, inside lo hi x -> inside lo hi y -> x <= y -> iF h c x <= iF h c y) by (intros; now apply (iF_mono lo hi)).
  assert (L1 := ge_lim_above lo hi (iF h c) la M A c Ic). assert (L2 := le_lim_below lo hi (iF h c) lb M B e Ie).
  assert (D := iF_diff lo hi h Hc c c e Ic Ic Ie).
  assert (0 < RInt h c e); [|lra].
  apply RInt_gt_0; auto. intros x Hx. apply Hc. apply (inside_between lo hi c e); auto.
Qed.
Lemma lower_mono lo hi (h : R -> R) (x y v w : R) : (forall x, inside lo hi x -> continuous h x) -> (forall x, inside lo hi x -> 0 < h x) ->
  is_RInt_gen h (above lo) (at_point x) v -> is_RInt_gen h (above lo) (at_point y) w -> inside lo hi x -> inside lo hi y -> x < y -> v < w.
Proof.
  intros Hc Hp Hv Hw Ix Iy Hxy.
  assert (lo <> p_infty) by (intros ->; destruct Ix; cbn in *; contradiction).
  assert (I1 : is_RInt h x y (RInt h x y)) by (apply (RInt_correct (V := R_CompleteNormedModule)), (imp_int lo hi); auto).
  assert (I2 : is_RInt_gen h (at_point x) (at_point y) (RInt h x y)) by now apply is_RInt_gen_at_point.
  assert (W := is_RInt_gen_Chasles _ _ _ _ Hv I2).
  assert (E : w = v + RInt h x y) by exact (lower_unique lo h y _ _ H Hw W).
  assert (0 < RInt h x y); [|lra].
  apply RInt_gt_0; auto.
  - intros z Hz. apply Hp. apply (inside_between lo hi x y); auto; lra.
  - intros z Hz. apply Hc. apply (inside_between lo hi x y); auto.
Qed.
Lemma lower_pos lo hi (h : R -> R) (x v : R) : (forall x, inside lo hi x -> continuous h x) -> (forall x, inside lo hi x -> 0 < h x) ->
  is_RInt_gen h (above lo) (at_point x) v -> inside lo hi x -> 0 < v.
Proof.
  intros Hc Hp Hv Ix. assert (Hlt := inside_Rbar_lt _ _ _ Ix).
  assert (Hn : lo <> p_infty) by (intros ->; destruct Ix; cbn in *; contradiction).
  destruct (filter_ex _ (above_lt lo hi x Ix)) as [y0 [Iy0 Ly0]].
  (* some y < x inside *)
  assert (exists y, inside lo hi y /\ y < x) as [y [Iy Ly]].
  { destruct (locally_inside lo hi x Ix) as [eps He]. exists (x - eps / 2). generalize (cond_pos eps); intros. split; [|lra]. apply He.
    unfold ball; cbn; unfold AbsRing_ball, abs, minus, plus, opp; cbn. rewrite Rabs_left; lra. }
  assert (I1 : is_RInt h y x (RInt h y x)) by (apply (RInt_correct (V := R_CompleteNormedModule)), (imp_int lo hi); auto).
  assert (P : 0 < RInt h y x).
  { apply RInt_gt_0; auto.
    - intros z Hz. apply Hp. apply (inside_between lo hi y x); auto; lra.
    - intros z Hz. apply Hc. apply (inside_between lo hi y x); auto. }
  remember (RInt h y x) as r eqn:Er.
  apply Rnot_le_lt. intros Hle.
  (* near the end point the inner integrals exceed RInt y x *)
  destruct (Hv (fun u => u < r)) as [Q1 Q2 H1 H2 HQ].
  { exists (mkposreal _ P). intros u Hu. unfold ball in Hu; cbn in Hu; unfold AbsRing_ball, abs, minus, plus, opp in Hu; cbn in Hu. apply Rabs_def2 in Hu. lra. }
  destruct (filter_ex _ (filter_and _ _ H1 (above_lt lo hi y Iy))) as [a [Qa [Ia La]]].
  destruct (HQ a x Qa H2) as [u [Hu1 Hu2]]. cbn [fst snd] in Hu1. apply (is_RInt_unique (V := R_CompleteNormedModule)) in Hu1. rewrite <- Hu1 in Hu2.
  assert (D := iF_diff lo hi h Hc a y x Ia Iy Ix).
  assert (M : iF h a a <= iF h a y) by (apply (iF_mono lo hi); auto; intros; left; auto).
  assert (Z : iF h a a = 0) by (unfold iF; apply (RInt_point (V := R_CompleteNormedModule))). fold (iF h a x) in Hu2. rewrite <- Er in D. lra.
Qed.

Lemma xp_mul c : 0 < c -> fmul PInf (Fin c) = PInf.
Proof. intros H. cbn [fmul XScalar xmul]. destruct (Req_EM_T c 0); [lra|]. unfold sinf. destruct (Rlt_dec 0 c); [reflexivity|contradiction]. Qed.
Lemma xp_mul_r c : 0 < c -> fmul (Fin c) PInf = PInf.
Proof. intros H. cbn [fmul XScalar xmul]. destruct (Req_EM_T c 0); [lra|]. unfold sinf. destruct (Rlt_dec 0 c); [reflexivity|contradiction]. Qed.
Lemma xp_div c : 0 < c -> fdiv PInf (Fin c) = PInf.
Proof. intros H. cbn [fdiv XScalar xdiv]. destruct (Rle_dec 0 c); [reflexivity|lra]. Qed.

Section Gamma2.
Import Gamma.
Context {SP : Special xreal} (Hg : gamma_exact SP).
Context (a b : R) (Ha : 0 < a) (Hb : 0 < b).
Notation d := (new_unchecked (Fin a) (Fin b)).
Lemma ga_modes : match modes d with Ret l => 1 <= a /\ l <> [] /\ all_return l (is_mode 0 p_infty (pdf d)) | _ => a < 1 end.
Proof.
  unfold modes; cbn [pr alpha beta new_unchecked]. xs. destruct (Rltb_spec a 1) as [H|H]; [auto|].
  split; [lra|]. split; [discriminate|]. intros y [<-|[]]. eexists; split; [reflexivity|].
  assert (G := Gam_pos a Ha). set (m := (a - 1) / b).
  exists (Rpower b a / Gam a * (if Req_EM_T a 1 then 1 else Rpower m (a - 1) * exp (- (b * m)))). split.
  - unfold pdf; cbn [pr alpha beta new_unchecked]. rewrite sfg by auto. xs. destruct (Req_EM_T a 1) as [E|N].
    + assert (G1 : 0 < Gam 1) by (rewrite Gam_1; lra). unfold m. rewrite E. replace (1 - 1) with 0 by ring. replace (0 / b) with 0 by (field; lra). rewrite x_powf_0_0. xs. f_equal. rewrite Rmult_0_r, exp_0. field. lra.
    + assert (0 < m) by (unfold m; pos). xs. f_equal. replace (- b * m) with (- (b * m)) by ring. field. lra.
  - intros x Hx. eexists. split; [now apply ga_pdf|]. unfold ga_u. apply Rmult_le_compat_l; [pos|]. apply (gam_mode a b Ha Hb); [lra|]. now apply in0f.
Qed.
Lemma ga_entropy : digamma_exact SP -> returns (shannon_entropy d) (is_entropy 0 p_infty (pdf d)).
Proof.
  intros Hd. assert (G := Gam_pos a Ha). eexists; split; [|apply (gam_entropy a b Ha Hb); exact (ga_pdf Hg a b Ha Hb)].
  unfold shannon_entropy; cbn [pr alpha beta new_unchecked]. rewrite sfg, sfpsi by auto. xs. f_equal.
Qed.
End Gamma2.

(** ** Chi-squared *)
Section ChiSq.
Import ChiSq.
Context {SP : Special xreal} (Hg : gamma_exact SP).
Context (k : Z) (Hk : (0 < k)%Z).
Notation d := (new_unchecked k).
Notation cd := (fun x => unwrap (cdf d x)).
Notation a := (IZR k / 2).
Lemma cs_a : 0 < a. Proof. apply IZR_lt in Hk. lra. Qed.
Lemma cs_pdf x : inside 0 p_infty x -> pdf d (Fin x) = Fin (ga_u a (/ 2) x).
Proof.
  intros Hx%in0f. assert (Ha := cs_a). assert (G := Gam_pos a Ha). unfold pdf, kf. cbn [pr ChiSq.k new_unchecked]. xs. rewrite sfg by auto. xs. f_equal. unfold ga_u.
  replace (Rpower (/ 2) a) with (/ Rpower 2 a). 2:{ unfold Rpower. rewrite ln_Rinv, <- exp_Ropp by lra. f_equal; ring. }
  replace (- x / 2) with (- (/ 2 * x)) by field. field. split; pos.
Qed.
Lemma cs_coherent : gammainc_lower SP -> coherent 0 p_infty cd (pdf d).
Proof.
  intros Hi. assert (Ha := cs_a). apply (gam_coherent a (/ 2) Ha); [lra|exact cs_pdf|]. intros x Hx.
  assert (G := Gam_pos a Ha). unfold cdf, kf. cbn [pr ChiSq.k new_unchecked unwrap]. xs. rewrite sfg by auto.
  destruct (sfgl a (x / 2) Hi Ha ltac:(pos)) as (v & Hv & ->). exists v. split; [now replace (/ 2 * x) with (x / 2) by field|]. now xs.
Qed.
Lemma cs_mean : returns (mean d) (is_mean 0 p_infty (pdf d)).
Proof.
  assert (Ha := cs_a). exists (a / / 2). split; [|apply gam_mean; auto; [lra|exact cs_pdf]]. unfold mean, kf; cbn [pr ChiSq.k new_unchecked]. xs. f_equal. field.
Qed.
Lemma cs_mean_val : mean d = Fin (a / / 2).
Proof. unfold mean, kf; cbn [pr ChiSq.k new_unchecked]. xs. f_equal. field. Qed.
Lemma cs_variance : (2 * k <= U64_MAX)%Z -> exists v, variance d = Ret (Fin v) /\ is_variance 0 p_infty (pdf d) (a / / 2) v.
Proof.
  intros Hu. assert (Ha := cs_a). unfold variance; cbn [pr ChiSq.k new_unchecked]. rewrite u64_ok by lia. cbn [rbind]. xs. eexists; split; [reflexivity|].
  rewrite mult_IZR. replace (2 * IZR k) with (a / / 2 / / 2) by field. apply gam_variance; auto; [lra|exact cs_pdf].
Qed.
Lemma cs_variance_overflow : (U64_MAX < 2 * k)%Z -> variance d = Panic.
Proof. intros H. unfold variance; cbn [pr ChiSq.k new_unchecked]. unfold u64, checked. destruct (Z.leb_spec 0 (2 * k)), (Z.leb_spec (2 * k) U64_MAX); try lia; reflexivity. Qed.
Lemma cs_skewness : returns (skewness d) (is_skewness 0 p_infty (pdf d)).
Proof.
  assert (Ha := cs_a). assert (Hk' := IZR_lt _ _ Hk). exists (2 / sqrt a). split; [|apply (gam_skewness a (/ 2)); auto; [lra|exact cs_pdf]].
  unfold skewness, kf; cbn [pr ChiSq.k new_unchecked]. xs. f_equal.
  assert (P : 0 < sqrt a) by pos. apply Rmult_eq_reg_r with (sqrt a); [|lra]. rewrite <- sqrt_mult by pos. replace (8 / IZR k * a) with (2 * 2) by (field; lra). rewrite sqrt_square by lra. field. lra.
Qed.
Lemma cs_kurtosis : returns (excess_kurtosis d) (fun e => is_kurtosis 0 p_infty (pdf d) (3 + e)).
Proof.
  assert (Ha := cs_a). assert (Hk' := IZR_lt _ _ Hk). exists (6 / a). split; [|apply (gam_kurtosis a (/ 2)); auto; [lra|exact cs_pdf]].
  unfold excess_kurtosis, kf; cbn [pr ChiSq.k new_unchecked]. xs. f_equal. field. lra.
Qed.
Lemma cs_entropy : digamma_exact SP -> returns (shannon_entropy d) (is_entropy 0 p_infty (pdf d)).
Proof.
  intros Hd. assert (Ha := cs_a). assert (G := Gam_pos a Ha). eexists; split; [|apply (gam_entropy a (/ 2)); auto; [lra|exact cs_pdf]].
  unfold shannon_entropy, kf; cbn [pr ChiSq.k new_unchecked]. xs. rewrite sfg, sfpsi by auto. xs. f_equal.
  rewrite ln_mult, ln_Rinv by lra. ring.
Qed.
(** for k = 1 the density is unbounded at the returned point 0 *)
Lemma cs_modes : exists m, modes d = [m] /\ (if (k =? 1)%Z then pdf d m = PInf else returns m (is_mode 0 p_infty (pdf d))).
Proof.
  assert (Ha := cs_a). assert (G := Gam_pos a Ha). assert (Hk' := IZR_lt _ _ Hk). unfold modes; cbn [pr ChiSq.k new_unchecked]. eexists; split; [reflexivity|].
  destruct (Z.eqb_spec k 1) as [->|N].
  - change (f_of_Z (Z.max 1 2 - 2)) with (Fin 0). unfold pdf, kf; cbn [pr ChiSq.k new_unchecked]. xs. rewrite sfg by (first [assumption|lra]). rewrite x_powf_0_neg by lra.
    assert (0 < Rpower 2 (1 / 2) * Gam (1 / 2)) by pos. assert (0 < exp (- 0 / 2)) by pos. xs.
    rewrite xp_mul, xp_div by auto. reflexivity.
  - rewrite Z.max_l by lia. xs. eexists; split; [reflexivity|]. rewrite minus_IZR. assert (2 <= IZR k) by (apply IZR_le; lia).
    set (m := IZR k - 2). assert (Em : m = (a - 1) / / 2) by (unfold m; field).
    exists (Rpower (/ 2) a / Gam a * (if Req_EM_T a 1 then 1 else Rpower m (a - 1) * exp (- (/ 2 * m)))). split.
    + destruct (Req_EM_T a 1) as [E|E].
      * assert (G1 : 0 < Gam 1) by (rewrite Gam_1; lra). assert (E0 : m = 0) by (rewrite Em, E; field). rewrite E0. unfold pdf, kf; cbn [pr ChiSq.k new_unchecked]. xs. rewrite sfg by auto. rewrite E. replace (1 - 1) with 0 by ring. rewrite x_powf_0_0. xs. f_equal.
        replace (- 0 / 2) with 0 by field. rewrite exp_0, !Rpower_1 by lra. rewrite Gam_1. field.
      * assert (0 < m) by (rewrite Em; assert (0 < a - 1) by (unfold m in *; lra); pos). rewrite cs_pdf by now apply in0. reflexivity.
    + intros x Hx. eexists. split; [now apply cs_pdf|]. unfold ga_u. apply Rmult_le_compat_l; [pos|]. rewrite Em. apply (gam_mode a (/ 2)); try lra. now apply in0f.
Qed.
End ChiSq.
