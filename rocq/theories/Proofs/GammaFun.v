(** * Euler's gamma and beta functions: existence, recurrences, B(a,b) = Gamma(a)Gamma(b)/Gamma(a+b) *)
From Coq Require Import Reals Lra Lia Psatz.
From Coquelicot Require Import Coquelicot.
From Verif.Num Require Import XReal.
From Verif.Spec Require Import DistSpec GammaSpec.
From Verif.Proofs Require Import XTac Calc Improper.
Open Scope R_scope.

Lemma in0 x : inside 0 p_infty x <-> 0 < x.
Proof. unfold inside; cbn; tauto. Qed.
Lemma in01 x : inside 0 1 x <-> 0 < x < 1.
Proof. unfold inside; cbn; tauto. Qed.
Lemma in0f x : inside 0 p_infty x -> 0 < x. Proof. apply in0. Qed.
Lemma in01f x : inside 0 1 x -> 0 < x < 1. Proof. apply in01. Qed.
Lemma lt0i : Rbar_lt 0 p_infty. Proof. exact I. Qed.
Lemma lt01 : Rbar_lt 0 1. Proof. cbn; lra. Qed.
Lemma gh_cont a x : inside 0 p_infty x -> continuous (gamma_h a) x.
Proof. intros H%in0f. unfold gamma_h. eapply ex_derive_cont. dder; auto; reflexivity. Qed.
Lemma gh_pos a x : inside 0 p_infty x -> 0 < gamma_h a x.
Proof. intros H%in0f. unfold gamma_h. pos. Qed.
Lemma bh_cont a b x : inside 0 1 x -> continuous (beta_h a b) x.
Proof. intros H%in01f. unfold beta_h. eapply ex_derive_cont. dder; try lra; reflexivity. Qed.
Lemma bh_pos a b x : inside 0 1 x -> 0 < beta_h a b x.
Proof. intros H%in01f. unfold beta_h. pos. Qed.
#[global] Hint Resolve lt0i lt01 gh_cont bh_cont : imp.
Lemma gh_nn a x : inside 0 p_infty x -> 0 <= gamma_h a x. Proof. intros. left. now apply gh_pos. Qed.
Lemma bh_nn a b x : inside 0 1 x -> 0 <= beta_h a b x. Proof. intros. left. now apply bh_pos. Qed.

Lemma fl_squeeze_loc {T} {F : (T -> Prop) -> Prop} {FF : Filter F} (f g : T -> R) :
  F (fun x => Rabs (f x) <= g x) -> filterlim g F (locally 0) -> filterlim f F (locally 0).
Proof.
  intros H Hg. apply filterlim_locally. intros eps. rewrite filterlim_locally in Hg. generalize (filter_and _ _ H (Hg eps)). apply filter_imp.
  intros x. unfold ball; cbn; unfold AbsRing_ball, abs, minus, plus, opp; cbn. intros [H1 Hx].
  apply Rabs_def2 in Hx. rewrite Ropp_0, Rplus_0_r in *. lra.
Qed.

(** limits at the ends *)
Lemma pow_right0 c : 0 < c -> filterlim (fun t => Rpower t c) (above 0) (locally 0).
Proof.
  intros Hc. unfold Rpower. apply (filterlim_comp _ _ _ (fun t => c * ln t) exp _ (Rbar_locally m_infty)); [|exact is_lim_exp_m].
  intros P [M HM]. exists (mkposreal (exp (M / c)) (exp_pos _)). intros x Hx Hx0. apply HM.
  unfold ball in Hx; cbn in Hx; unfold AbsRing_ball, abs, minus, plus, opp in Hx; cbn in Hx. apply Rabs_def2 in Hx.
  assert (ln x < M / c). { rewrite <- (ln_exp (M / c)). apply ln_increasing; lra. }
  apply Rmult_lt_reg_r with (/ c); [pos|]. replace (c * ln x * / c) with (ln x) by (field; lra). auto.
Qed.
Lemma pow_exp_inf c : filterlim (fun t => Rpower t c * exp (- t)) (below p_infty) (locally 0).
Proof.
  set (c' := Rabs c + 1). assert (Hc' : 0 < c') by (unfold c'; generalize (Rabs_pos c); lra).
  set (C := Rpower 2 c' * (Rpower c' c' * exp (- c'))).
  apply (fl_squeeze_loc _ (fun t => C * exp (- (1 / 2 * t)))).
  - exists 1. intros t Ht. rewrite Rabs_pos_eq by pos.
    assert (G := gamma_max c' (t / 2) Hc' ltac:(pos)).
    assert (E : Rpower t c <= Rpower 2 c' * Rpower (t / 2) c').
    { rewrite Rpower_mult_distr by pos. replace (2 * (t / 2)) with t by field. apply Rle_Rpower; [lra|]. unfold c'. generalize (RRle_abs c). lra. }
    replace (- t) with (- (t / 2) + - (1 / 2 * t)) by field. rewrite exp_plus.
    rewrite <- Rmult_assoc. apply Rmult_le_compat_r; [pos|].
    eapply Rle_trans; [apply Rmult_le_compat_r; [pos|exact E]|]. rewrite Rmult_assoc.
    apply Rmult_le_compat_l; [pos|exact G].
  - eapply fl_eq; [apply fl_mult; [apply fl_const|apply (lim_exp_neg (1 / 2)); lra]|ring].
Qed.
Lemma one_minus_left : filterlim (fun t => 1 - t) (below 1) (above 0).
Proof.
  intros P [eps He]. exists eps. intros y Hy Hlt. apply He; [|lra].
  unfold ball in *; cbn in *; unfold AbsRing_ball, abs, minus, plus, opp in *; cbn in *. rewrite <- Rabs_Ropp. replace (- (1 - y + - 0)) with (y + - (1)) by ring. exact Hy.
Qed.
Lemma one_minus_right : filterlim (fun t => 1 - t) (above 0) (below 1).
Proof.
  intros P [eps He]. exists eps. intros y Hy Hlt. apply He; [|lra].
  unfold ball in *; cbn in *; unfold AbsRing_ball, abs, minus, plus, opp in *; cbn in *. rewrite <- Rabs_Ropp. replace (- (1 - y + - (1))) with (y + - 0) by ring. exact Hy.
Qed.

(** domination *)
Lemma dominated lo hi (h K k : R -> R) M :
  (forall x, inside lo hi x -> continuous h x) -> (forall x, inside lo hi x -> h x <= k x) ->
  (forall x, inside lo hi x -> is_derive K x (k x)) -> (forall x, inside lo hi x -> continuous k x) ->
  (forall x, inside lo hi x -> 0 <= K x <= M) ->
  forall x y, inside lo hi x -> inside lo hi y -> x <= y -> RInt h x y <= M.
Proof.
  intros Hc Hk HK Hkc HM x y Hx Hy Hxy.
  assert (I1 : is_RInt k x y (K y - K x)).
  { apply (is_RInt_derive K k); intros z Hz; [apply HK|apply Hkc]; now apply (inside_mid lo hi x y). }
  apply Rle_trans with (RInt k x y).
  - apply RInt_le; [auto|now apply (imp_int lo hi)|eexists; exact I1|].
    intros z Hz. apply Hk. apply (inside_between lo hi x y); auto; lra.
  - rewrite (is_RInt_unique (V := R_CompleteNormedModule) _ _ _ _ I1). generalize (HM x Hx) (HM y Hy). lra.
Qed.
Lemma gen_le lo hi (f g : R -> R) (lf lg : R) : Rbar_lt lo hi ->
  (forall x, inside lo hi x -> continuous f x) -> (forall x, inside lo hi x -> continuous g x) ->
  (forall x, inside lo hi x -> f x <= g x) ->
  is_RInt_gen f (above lo) (below hi) lf -> is_RInt_gen g (above lo) (below hi) lg -> lf <= lg.
Proof.
  intros Hlt Cf Cg Hle If Ig.
  assert (D : is_RInt_gen (fun x => g x - f x) (above lo) (below hi) (lg - lf)).
  { generalize (is_RInt_gen_minus _ _ _ _ Ig If). auto. }
  assert (Cd : forall x, inside lo hi x -> continuous (fun x => g x - f x) x).
  { intros x Hx. apply (continuous_minus (V := R_NormedModule) g f); auto. }
  assert (Nd : forall x, inside lo hi x -> 0 <= g x - f x) by (intros x Hx; generalize (Hle x Hx); lra).
  destruct (ex_inside lo hi Hlt) as [c Hi].
  destruct (imp_split lo hi _ Hlt Cd Nd _ c D Hi) as [la [lb [A [B E]]]].
  set (F := iF (fun x => g x - f x) c) in *.
  assert (M : forall x y, inside lo hi x -> inside lo hi y -> x <= y -> F x <= F y) by (intros; now apply (iF_mono lo hi)).
  assert (la <= F c) by (apply (ge_lim_above lo hi F la M A); auto).
  assert (F c <= lb) by (apply (le_lim_below lo hi F lb M B); auto). lra.
Qed.
(** linear combinations *)
Lemma gen_lin lo hi (f g : R -> R) (a b lf lg : R) :
  is_RInt_gen f (above lo) (below hi) lf -> is_RInt_gen g (above lo) (below hi) lg ->
  is_RInt_gen (fun x => a * f x + b * g x) (above lo) (below hi) (a * lf + b * lg).
Proof.
  intros H1 H2. exact (is_RInt_gen_plus _ _ _ _ (is_RInt_gen_scal _ a _ H1) (is_RInt_gen_scal _ b _ H2)).
Qed.
Lemma gen_scal lo hi (f : R -> R) (a lf : R) :
  is_RInt_gen f (above lo) (below hi) lf -> is_RInt_gen (fun x => a * f x) (above lo) (below hi) (a * lf).
Proof. intros H1. exact (is_RInt_gen_scal _ a _ H1). Qed.
Lemma gen_eq lo hi (f : R -> R) (a b : R) : is_RInt_gen f (above lo) (below hi) a -> a = b -> is_RInt_gen f (above lo) (below hi) b.
Proof. now intros H <-. Qed.
Lemma gen_ext lo hi (f g : R -> R) (a : R) : (forall x, f x = g x) -> is_RInt_gen f (above lo) (below hi) a -> is_RInt_gen g (above lo) (below hi) a.
Proof. intros H. apply is_RInt_gen_ext. apply filter_forall. intros ab x _. apply H. Qed.
Lemma low_scal lo x (f : R -> R) (a lf : R) :
  is_RInt_gen f (above lo) (at_point x) lf -> is_RInt_gen (fun x => a * f x) (above lo) (at_point x) (a * lf).
Proof. intros H1. exact (is_RInt_gen_scal _ a _ H1). Qed.
Lemma low_inside lo hi (f g : R -> R) y l : inside lo hi y ->
  (forall x, inside lo hi x -> f x = g x) -> is_RInt_gen g (above lo) (at_point y) l -> is_RInt_gen f (above lo) (at_point y) l.
Proof.
  intros Hy Hfg. apply is_RInt_gen_ext. assert (H := inside_Rbar_lt _ _ _ Hy).
  assert (lo <> p_infty) by (intros ->; destruct hi; cbn in *; contradiction).
  exists (inside lo hi) (eq y); [now apply above_inside|reflexivity|].
  cbn [fst snd]. intros a b Ha <- x Hx. symmetry. apply Hfg. apply (inside_mid lo hi a y); auto. lra.
Qed.

Lemma G_out a g : is_RInt_gen (gamma_h a) (above 0) (below p_infty) g -> is_Gamma a g. Proof. exact (fun H => H). Qed.
Lemma G_in a g : is_Gamma a g -> is_RInt_gen (gamma_h a) (above 0) (below p_infty) g. Proof. exact (fun H => H). Qed.
Lemma B_out a b g : is_RInt_gen (beta_h a b) (above 0) (below 1) g -> is_Beta a b g. Proof. exact (fun H => H). Qed.
Lemma B_in a b g : is_Beta a b g -> is_RInt_gen (beta_h a b) (above 0) (below 1) g. Proof. exact (fun H => H). Qed.

(** ** Gamma *)
Lemma Gamma_ex a : 0 < a -> exists g, is_Gamma a g.
Proof.
  intros Ha.
  set (C := exp 1 * (Rpower (a + 1) (a + 1) * exp (- (a + 1)))).
  assert (HC : 0 < C) by (unfold C; pos).
  destruct (imp_limits 0 p_infty (gamma_h a) lt0i (gh_cont a) (gh_nn a) 1 (C / a)) as [la [lb [_ [_ H]]]].
  - apply in0; lra.
  - apply (dominated 0 p_infty _ (fun t => C / a * Rpower (t / (1 + t)) a) (fun t => C * (Rpower t (a - 1) * Rpower (1 + t) (- (a + 1))))).
    + apply gh_cont.
    + intros x H%in0f. unfold gamma_h. rewrite <- Rmult_assoc, (Rmult_comm C), Rmult_assoc. apply Rmult_le_compat_l; [pos|].
      rewrite Rpower_Ropp. apply Rmult_le_reg_r with (Rpower (1 + x) (a + 1)); [pos|]. rewrite Rmult_assoc, Rinv_l by pos.
      rewrite Rmult_1_r. generalize (gamma_max (a + 1) (1 + x) ltac:(lra) ltac:(lra)). unfold C.
      replace (- x) with (1 + - (1 + x)) by ring. rewrite exp_plus. intros G.
      replace (exp 1 * exp (- (1 + x)) * Rpower (1 + x) (a + 1)) with (exp 1 * (Rpower (1 + x) (a + 1) * exp (- (1 + x)))) by ring.
      apply Rmult_le_compat_l; [pos|exact G].
    + intros x H%in0f. assert (P1 : 0 < x / (1 + x)) by pos. dder; try lra.
      assert (E : Rpower (x / (1 + x)) (a - 1) = Rpower x (a - 1) * (Rpower (1 + x) (- (a + 1)) * ((1 + x) * (1 + x)))).
      { unfold Rpower, Rdiv. rewrite ln_mult, ln_Rinv by pos.
        replace ((a - 1) * (ln x + - ln (1 + x))) with ((a - 1) * ln x + (- (a + 1) * ln (1 + x) + (ln (1 + x) + ln (1 + x)))) by ring.
        rewrite !exp_plus, exp_ln by lra. reflexivity. }
      rewrite E. field. lra.
    + intros x H%in0f. eapply ex_derive_cont. dder; try lra; reflexivity.
    + intros x H%in0f. split; [pos|]. rewrite <- (Rmult_1_r (C / a)) at 2. apply Rmult_le_compat_l; [pos|].
      apply Rpower_le1; [|lra]. split; [pos|]. apply Rmult_le_reg_r with (1 + x); [lra|]. unfold Rdiv. rewrite Rmult_assoc, Rinv_l by lra. lra.
  - eexists. exact H.
Qed.
Definition Gam (a : R) : R := RInt_gen (gamma_h a) (above 0) (below p_infty).
Lemma Gam_spec a : 0 < a -> is_Gamma a (Gam a).
Proof. intros H. destruct (Gamma_ex a H) as [g Hg]. unfold Gam. change (is_RInt_gen (gamma_h a) (above 0) (below p_infty) g) in Hg.
  rewrite (is_RInt_gen_unique (V := R_CompleteNormedModule) (Fa := above 0) (Fb := below p_infty) _ _ Hg). exact Hg. Qed.
Lemma Gamma_unique a g g' : is_Gamma a g -> is_Gamma a g' -> g = g'.
Proof. intros H H0. exact (gen_unique 0 p_infty (gamma_h a) g g' (G_in _ _ H) (G_in _ _ H0)). Qed.
Lemma Gamma_pos a g : is_Gamma a g -> 0 < g.
Proof. intros H. apply (imp_total_pos 0 p_infty (gamma_h a) lt0i (gh_cont a) (gh_nn a) g (G_in _ _ H)). intros; now apply gh_pos. Qed.
Lemma gh_succ a t : 0 < t -> gamma_h (a + 1) t = t * gamma_h a t.
Proof. intros H. unfold gamma_h. replace (a + 1 - 1) with (a - 1 + 1) by ring. rewrite Rpower_plus1 by auto. ring. Qed.
Lemma Gamma_rec a g : 0 < a -> is_Gamma a g -> is_Gamma (a + 1) (a * g).
Proof.
  intros Ha Hg.
  assert (A : is_RInt_gen (fun t => gamma_h (a + 1) t - a * gamma_h a t) (above 0) (below p_infty) (0 - 0)).
  { apply (is_RInt_gen_antiderivative 0 p_infty (fun t => - (Rpower t a * exp (- t)))).
    - exact I.
    - intros x H%in0f. unfold gamma_h. dder; auto. replace (a + 1 - 1) with a by ring. ring.
    - intros x Hx. apply (continuous_minus (V := R_NormedModule) (gamma_h (a + 1)) (fun t => a * gamma_h a t)); [now apply gh_cont|].
      apply (continuous_scal_r (V := R_NormedModule) a (gamma_h a)). now apply gh_cont.
    - eapply fl_eq; [apply fl_opp, fl_mult; [now apply pow_right0|apply (lim_above_cont 0); [|reflexivity]; cont_auto; exact I]|].
      ring.
    - eapply fl_eq; [apply fl_opp, pow_exp_inf|ring]. }
  assert (B := gen_lin 0 p_infty _ _ 1 a _ _ A (G_in _ _ Hg)).
  apply (gen_eq 0 p_infty _ _ (a * g)) in B; [|ring].
  apply G_out. revert B. apply (gen_ext 0 p_infty). intros x. unfold gamma_h. ring.
Qed.
Lemma Gam_rec a : 0 < a -> Gam (a + 1) = a * Gam a.
Proof. intros H. apply (Gamma_unique (a + 1)); [apply Gam_spec; lra|apply Gamma_rec; auto; now apply Gam_spec]. Qed.
Lemma Gam_pos a : 0 < a -> 0 < Gam a.
Proof. intros H. apply (Gamma_pos a). now apply Gam_spec. Qed.
Lemma Gamma_1 : is_Gamma 1 1.
Proof.
  assert (A : is_RInt_gen (gamma_h 1) (above 0) (below p_infty) (0 - (- 1))).
  { apply (is_RInt_gen_antiderivative 0 p_infty (fun t => - exp (- t))).
    - exact I.
    - intros x H%in0f. unfold gamma_h. replace (1 - 1) with 0 by ring. rewrite Rpower_O by auto. dder; ring.
    - apply gh_cont.
    - apply (lim_above_cont 0); [cont_auto; exact I|]. rewrite Ropp_0, exp_0. reflexivity.
    - eapply fl_eq; [apply fl_opp, (fl_ext _ (fun t => exp (- (1 * t))))|]; [intros; now rewrite Rmult_1_l|apply (lim_exp_neg 1); lra|ring]. }
  apply G_out. eapply gen_eq; [exact A|ring].
Qed.
Lemma Gam_1 : Gam 1 = 1.
Proof. apply (Gamma_unique 1); [apply Gam_spec; lra|exact Gamma_1]. Qed.
Lemma Gamma_fact n : is_Gamma (INR n + 1) (INR (fact n)).
Proof.
  induction n as [|n IH]; [cbn; replace (0 + 1) with 1 by ring; exact Gamma_1|].
  rewrite S_INR. replace (INR (fact (S n))) with ((INR n + 1) * INR (fact n)).
  - apply Gamma_rec; [generalize (pos_INR n); lra|exact IH].
  - rewrite fact_simpl, mult_INR, S_INR. reflexivity.
Qed.

(** ** Beta *)
Lemma pow_dom c t : / 2 <= t <= 1 -> Rpower t c <= Rpower 2 (Rabs c).
Proof.
  intros H. unfold Rpower. apply exp_le_mono.
  assert (- ln 2 <= ln t). { rewrite <- ln_Rinv by lra. destruct (Req_dec (/ 2) t) as [->|]; [lra|]. left; apply ln_increasing; lra. }
  assert (ln t <= 0). { rewrite <- ln_1. destruct (Req_dec t 1) as [->|]; [lra|]. left; apply ln_increasing; lra. }
  assert (0 <= Rabs c) by apply Rabs_pos. assert (- c <= Rabs c) by (rewrite <- Rabs_Ropp; apply RRle_abs).
  assert (L := ln2_pos). nra.
Qed.
Lemma Beta_ex a b : 0 < a -> 0 < b -> exists v, is_Beta a b v.
Proof.
  intros Ha Hb.
  set (C1 := Rpower 2 (Rabs (b - 1))). set (C2 := Rpower 2 (Rabs (a - 1))).
  assert (0 < C1) by (unfold C1; pos). assert (0 < C2) by (unfold C2; pos).
  destruct (imp_limits 0 1 (beta_h a b) lt01 (bh_cont a b) (bh_nn a b) (1 / 2) (C1 / a + C2 / b)) as [la [lb [_ [_ HH]]]].
  - apply in01; lra.
  - apply (dominated 0 1 _ (fun t => C1 / a * Rpower t a + C2 / b * (1 - Rpower (1 - t) b)) (fun t => C1 * Rpower t (a - 1) + C2 * Rpower (1 - t) (b - 1))).
    + apply bh_cont.
    + intros x Hx%in01f. unfold beta_h. destruct (Rle_dec x (1 / 2)).
      * assert (Rpower (1 - x) (b - 1) <= C1) by (apply pow_dom; lra).
        assert (0 < C2 * Rpower (1 - x) (b - 1)) by pos. rewrite (Rmult_comm C1).
        assert (Rpower x (a - 1) * Rpower (1 - x) (b - 1) <= Rpower x (a - 1) * C1) by (apply Rmult_le_compat_l; [pos|auto]). lra.
      * assert (Rpower x (a - 1) <= C2) by (apply pow_dom; lra).
        assert (0 < C1 * Rpower x (a - 1)) by pos.
        assert (Rpower x (a - 1) * Rpower (1 - x) (b - 1) <= C2 * Rpower (1 - x) (b - 1)) by (apply Rmult_le_compat_r; [pos|auto]). lra.
    + intros x Hx%in01f. dder; try lra. field. lra.
    + intros x Hx%in01f. eapply ex_derive_cont. dder; try lra; reflexivity.
    + intros x Hx%in01f.
      assert (Rpower x a <= 1) by (apply Rpower_le1; lra). assert (Rpower (1 - x) b <= 1) by (apply Rpower_le1; lra).
      assert (0 < Rpower x a) by pos. assert (0 < Rpower (1 - x) b) by pos.
      assert (0 < C1 / a) by pos. assert (0 < C2 / b) by pos. split; nra.
  - eexists. exact HH.
Qed.
Definition Bet (a b : R) : R := RInt_gen (beta_h a b) (above 0) (below 1).
Lemma Bet_spec a b : 0 < a -> 0 < b -> is_Beta a b (Bet a b).
Proof. intros H H'. destruct (Beta_ex a b H H') as [g Hg]. unfold Bet. change (is_RInt_gen (beta_h a b) (above 0) (below 1) g) in Hg.
  rewrite (is_RInt_gen_unique (V := R_CompleteNormedModule) (Fa := above 0) (Fb := below 1) _ _ Hg). exact Hg. Qed.
Lemma Beta_unique a b g g' : is_Beta a b g -> is_Beta a b g' -> g = g'.
Proof. intros H H0. exact (gen_unique 0 1 (beta_h a b) g g' (B_in _ _ _ H) (B_in _ _ _ H0)). Qed.
Lemma Beta_pos a b g : is_Beta a b g -> 0 < g.
Proof. intros H. apply (imp_total_pos 0 1 (beta_h a b) lt01 (bh_cont a b) (bh_nn a b) g (B_in _ _ _ H)). intros; now apply bh_pos. Qed.
Lemma bh_succ a b t : 0 < t -> beta_h (a + 1) b t = t * beta_h a b t.
Proof. intros H. unfold beta_h. replace (a + 1 - 1) with (a - 1 + 1) by ring. rewrite Rpower_plus1 by auto. ring. Qed.
Lemma pow_left1 c : 0 < c -> filterlim (fun t => Rpower (1 - t) c) (below 1) (locally 0).
Proof. intros H. apply (filterlim_comp _ _ _ (fun t => 1 - t) (fun u => Rpower u c) _ (above 0)); [apply one_minus_left|now apply pow_right0]. Qed.
Lemma Beta_rec a b v : 0 < a -> 0 < b -> is_Beta a b v -> is_Beta (a + 1) b (a / (a + b) * v).
Proof.
  intros Ha Hb Hv.
  assert (A : is_RInt_gen (fun t => a * beta_h a b t - (a + b) * beta_h (a + 1) b t) (above 0) (below 1) (0 - 0)).
  { apply (is_RInt_gen_antiderivative 0 1 (fun t => Rpower t a * Rpower (1 - t) b)).
    - exact lt01.
    - intros x H%in01f. unfold beta_h. dder; try lra.
      replace (a + 1 - 1) with (a - 1 + 1) by ring. rewrite Rpower_plus1 by lra.
      replace (Rpower (1 - x) b) with (Rpower (1 - x) (b - 1) * (1 - x)). 2:{ rewrite <- Rpower_plus1 by lra. f_equal; ring. }
      replace (Rpower x a) with (Rpower x (a - 1) * x). 2:{ rewrite <- Rpower_plus1 by lra. f_equal; ring. }
      ring.
    - intros x Hx. apply (continuous_minus (V := R_NormedModule) (fun t => a * beta_h a b t) (fun t => (a + b) * beta_h (a + 1) b t)).
      + apply (continuous_scal_r (V := R_NormedModule) a (beta_h a b)). now apply bh_cont.
      + apply (continuous_scal_r (V := R_NormedModule) (a + b) (beta_h (a + 1) b)). now apply bh_cont.
    - eapply fl_eq; [apply fl_mult; [now apply pow_right0|apply (lim_above_cont 0); [|reflexivity]; eapply ex_derive_cont; dder; try lra; reflexivity]|ring].
    - eapply fl_eq; [apply fl_mult; [apply (lim_below_cont 1); [|reflexivity]; eapply ex_derive_cont; dder; try lra; reflexivity|now apply pow_left1]|ring]. }
  assert (B := gen_lin 0 1 _ _ (- / (a + b)) (a / (a + b)) _ _ A (B_in _ _ _ Hv)).
  apply (gen_eq 0 1 _ _ (a / (a + b) * v)) in B; [|ring].
  apply B_out. revert B. apply (gen_ext 0 1). intros x. unfold beta_h. field. lra.
Qed.
Lemma Bet_rec a b : 0 < a -> 0 < b -> Bet (a + 1) b = a / (a + b) * Bet a b.
Proof. intros H H'. apply (Beta_unique (a + 1) b); [apply Bet_spec; lra|apply Beta_rec; auto; now apply Bet_spec]. Qed.
Lemma Bet_pos a b : 0 < a -> 0 < b -> 0 < Bet a b.
Proof. intros H H'. apply (Beta_pos a b). now apply Bet_spec. Qed.
Lemma Beta_sym a b v : is_Beta a b v -> is_Beta b a v.
Proof.
  intros H.
  assert (A := is_RInt_gen_swap _ _ (B_in _ _ _ H)). change (is_RInt_gen (beta_h a b) (below 1) (above 0) (- v)) in A.
  assert (S' : is_RInt_gen (fun x => (-1) * beta_h a b (1 - x)) (above 0) (below 1) (- v)).
  { apply (subst_gen (above 0) (below 1) (below 1) (above 0) (beta_h a b) (fun t => 1 - t) (fun _ => -1)); [exact A|exact one_minus_right|exact one_minus_left|].
    apply (prod_inside 0 1); [exact lt01|]. intros x Hx%in01f. split; [dder; ring|]. split; [apply continuous_const|apply bh_cont, in01; lra]. }
  apply (gen_scal 0 1 _ (-1)) in S'. apply (gen_eq 0 1 _ _ v) in S'; [|ring].
  apply B_out. revert S'. apply (is_RInt_gen_inside 0 1); [exact lt01|]. intros x Hx%in01f. unfold beta_h. replace (1 - (1 - x)) with x by ring. ring.
Qed.
Lemma Bet_sym a b : 0 < a -> 0 < b -> Bet a b = Bet b a.
Proof. intros H H'. apply (Beta_unique a b); [now apply Bet_spec|apply Beta_sym; now apply Bet_spec]. Qed.
Lemma Beta_1 b : 0 < b -> is_Beta 1 b (/ b).
Proof.
  intros Hb.
  assert (A : is_RInt_gen (beta_h 1 b) (above 0) (below 1) (0 - (- / b))).
  { apply (is_RInt_gen_antiderivative 0 1 (fun t => - (Rpower (1 - t) b / b))).
    - exact lt01.
    - intros x H%in01f. unfold beta_h. replace (1 - 1) with 0 by ring. rewrite Rpower_O by lra. dder; try lra. field. lra.
    - apply bh_cont.
    - apply (lim_above_cont 0); [eapply ex_derive_cont; dder; try lra; reflexivity|]. rewrite Rminus_0_r, Rpower_0_base. field. lra.
    - eapply fl_eq; [apply fl_opp, fl_div; [now apply pow_left1|apply fl_const|lra]|field; lra]. }
  apply B_out. eapply gen_eq; [exact A|ring].
Qed.

(** ** B(a,b) Gamma(a+b) = Gamma(a) Gamma(b) *)
Lemma amgm u x : 0 < u -> 0 <= x <= 1 -> Rpower u x <= x * u + (1 - x).
Proof.
  intros Hu Hx. assert (Hw : 0 < Rpower u x) by pos. set (w := Rpower u x) in *.
  assert (E1 : u / w = exp ((1 - x) * ln u)).
  { unfold w, Rpower. rewrite <- (exp_ln u) at 1 by auto. unfold Rdiv. rewrite <- exp_Ropp, <- exp_plus. f_equal; ring. }
  assert (E2 : / w = exp (- (x * ln u))) by (unfold w, Rpower; now rewrite exp_Ropp).
  assert (I1 := exp_ineq1_le ((1 - x) * ln u)). rewrite <- E1 in I1.
  assert (I2 := exp_ineq1_le (- (x * ln u))). rewrite <- E2 in I2.
  apply Rmult_le_reg_r with (/ w); [pos|]. rewrite Rinv_r by lra.
  replace ((x * u + (1 - x)) * / w) with (x * (u / w) + (1 - x) * / w) by (unfold Rdiv; ring).
  assert (x * (1 + (1 - x) * ln u) <= x * (u / w)) by (apply Rmult_le_compat_l; lra).
  assert ((1 - x) * (1 + - (x * ln u)) <= (1 - x) * / w) by (apply Rmult_le_compat_l; lra). lra.
Qed.
Lemma amgm_at m u x : 0 < m -> 0 < u -> 0 <= x <= 1 -> Rpower u x <= Rpower m x * (x / m * u + (1 - x)).
Proof.
  intros Hm Hu Hx. assert (A := amgm (u / m) x ltac:(pos) Hx).
  replace (Rpower u x) with (Rpower m x * Rpower (u / m) x). 2:{ rewrite Rpower_mult_distr by pos. f_equal. field. lra. }
  apply Rmult_le_compat_l; [pos|]. replace (x / m * u) with (x * (u / m)) by (field; lra). exact A.
Qed.
Lemma Gam_le a x : 0 < a -> 0 <= x <= 1 -> Gam (a + x) <= Rpower a x * Gam a.
Proof.
  intros Ha Hx.
  replace (Rpower a x * Gam a) with (Rpower a x * (x / a) * Gam (a + 1) + Rpower a x * (1 - x) * Gam a) by (rewrite Gam_rec by auto; field; lra).
  apply (gen_le 0 p_infty (gamma_h (a + x)) (fun t => Rpower a x * (x / a) * gamma_h (a + 1) t + Rpower a x * (1 - x) * gamma_h a t)).
  - exact I. - apply gh_cont.
  - intros t Ht. apply (continuous_plus (V := R_NormedModule) (fun t => Rpower a x * (x / a) * gamma_h (a + 1) t)).
    + apply (continuous_scal_r (V := R_NormedModule) (Rpower a x * (x / a)) (gamma_h (a + 1))). now apply gh_cont.
    + apply (continuous_scal_r (V := R_NormedModule) (Rpower a x * (1 - x)) (gamma_h a)). now apply gh_cont.
  - intros t Ht%in0f. rewrite gh_succ by auto.
    replace (gamma_h (a + x) t) with (Rpower t x * gamma_h a t). 2:{ unfold gamma_h. rewrite <- Rmult_assoc, <- Rpower_plus. do 2 f_equal. ring. }
    assert (A := amgm_at a t x Ha Ht Hx).
    apply Rle_trans with ((Rpower a x * (x / a * t + (1 - x))) * gamma_h a t); [apply Rmult_le_compat_r; [apply gh_nn; now apply in0|exact A]|]. lra.
  - apply G_in, Gam_spec. lra.
  - apply gen_lin; apply G_in, Gam_spec; lra.
Qed.
Lemma Bet_le a b x : 0 < a -> 0 < b -> 0 <= x <= 1 -> Bet (a + x) b <= Rpower (a / (a + b)) x * Bet a b.
Proof.
  intros Ha Hb Hx. set (m := a / (a + b)). assert (Hm : 0 < m) by (unfold m; pos).
  replace (Rpower m x * Bet a b) with (Rpower m x * (x / m) * Bet (a + 1) b + Rpower m x * (1 - x) * Bet a b).
  2:{ rewrite Bet_rec by auto. fold m. field. lra. }
  apply (gen_le 0 1 (beta_h (a + x) b) (fun t => Rpower m x * (x / m) * beta_h (a + 1) b t + Rpower m x * (1 - x) * beta_h a b t)).
  - exact lt01. - apply bh_cont.
  - intros t Ht. apply (continuous_plus (V := R_NormedModule) (fun t => Rpower m x * (x / m) * beta_h (a + 1) b t)).
    + apply (continuous_scal_r (V := R_NormedModule) (Rpower m x * (x / m)) (beta_h (a + 1) b)). now apply bh_cont.
    + apply (continuous_scal_r (V := R_NormedModule) (Rpower m x * (1 - x)) (beta_h a b)). now apply bh_cont.
  - intros t Ht. assert (Ht' := Ht). apply in01f in Ht'. rewrite bh_succ by lra.
    replace (beta_h (a + x) b t) with (Rpower t x * beta_h a b t). 2:{ unfold beta_h. rewrite <- Rmult_assoc, <- Rpower_plus. do 2 f_equal. ring. }
    assert (A := amgm_at m t x Hm ltac:(lra) Hx).
    apply Rle_trans with ((Rpower m x * (x / m * t + (1 - x))) * beta_h a b t); [apply Rmult_le_compat_r; [now apply bh_nn|exact A]|]. lra.
  - apply B_in, Bet_spec; lra.
  - apply gen_lin; apply B_in, Bet_spec; lra.
Qed.
Section Unique.
Context (f g : R -> R)
  (Pf : forall a, 0 < a -> 0 < f a) (Pg : forall a, 0 < a -> 0 < g a)
  (Rf : forall a, 0 < a -> f (a + 1) = a * f a) (Rg : forall a, 0 < a -> g (a + 1) = a * g a)
  (Lf : forall a x, 0 < a -> 0 <= x <= 1 -> f (a + x) <= Rpower a x * f a)
  (Lg : forall a x, 0 < a -> 0 <= x <= 1 -> g (a + x) <= Rpower a x * g a)
  (E1 : f 1 = g 1).
Lemma ratio_step a : 0 < a -> f (a + 1) / g (a + 1) = f a / g a.
Proof. intros H. rewrite Rf, Rg by auto. generalize (Pg a H). intros. field. lra. Qed.
Lemma ratio_shift a n : 0 < a -> f (a + INR n) / g (a + INR n) = f a / g a.
Proof.
  intros H. induction n as [|n IH]; [cbn; now rewrite Rplus_0_r|].
  rewrite S_INR, <- Rplus_assoc, ratio_step by (generalize (pos_INR n); lra). exact IH.
Qed.
Lemma ratio_le1 x : 0 < x <= 1 -> f x <= g x.
Proof.
  intros Hx. apply Rnot_lt_le. intros Hlt. assert (Gx := Pg x ltac:(lra)).
  set (r := f x / g x). assert (Hr : 1 < r). { unfold r. apply Rmult_lt_reg_r with (g x); [auto|]. replace (f x / g x * g x) with (f x) by (field; lra). lra. }
  (* r <= ((n+x)/n)^(1-x) <= 1 + 1/n *)
  assert (B : forall n, (0 < n)%nat -> r <= 1 + / INR n).
  { intros n Hn. assert (Hn' : 0 < INR n) by now apply lt_0_INR.
    unfold r. rewrite <- (ratio_shift x n) by lra.
    assert (U := Lf (INR n) x Hn' ltac:(lra)).
    assert (V := Lg (INR n + x) (1 - x) ltac:(lra) ltac:(lra)).
    replace (INR n + x + (1 - x)) with (INR n + 1) in V by ring. rewrite Rg in V by auto.
    assert (N1 : f (INR n) / g (INR n) = 1).
    { destruct n; [lia|]. rewrite S_INR, Rplus_comm, ratio_shift by lra. rewrite E1. generalize (Pg 1 ltac:(lra)); intros. field. lra. }
    assert (Gn := Pg (INR n) Hn'). assert (Fn : f (INR n) = g (INR n)). { replace (f (INR n)) with (f (INR n) / g (INR n) * g (INR n)) by (field; lra). rewrite N1. ring. }
    rewrite Fn in U. rewrite (Rplus_comm x).
    assert (Gnx := Pg (INR n + x) ltac:(lra)).
    apply Rmult_le_reg_r with (g (INR n + x)); [auto|]. replace (f (INR n + x) / g (INR n + x) * g (INR n + x)) with (f (INR n + x)) by (field; lra).
    eapply Rle_trans; [exact U|].
    (* n^x g(n) <= (1 + 1/n) g(n+x), from n g(n) <= (n+x)^(1-x) g(n+x) *)
    assert (W : Rpower (INR n) x * Rpower (INR n + x) (1 - x) <= INR n + 1).
    { apply Rle_trans with (Rpower (INR n + x) x * Rpower (INR n + x) (1 - x)).
      - apply Rmult_le_compat_r; [pos|]. apply Rpower_le_mono; lra.
      - rewrite <- Rpower_plus. replace (x + (1 - x)) with 1 by ring. rewrite Rpower_1 by lra. lra. }
    assert (Pn : 0 < Rpower (INR n) x) by pos.
    apply Rmult_le_reg_l with (INR n); [auto|].
    apply Rle_trans with (Rpower (INR n) x * (Rpower (INR n + x) (1 - x) * g (INR n + x))).
    - replace (INR n * (Rpower (INR n) x * g (INR n))) with (Rpower (INR n) x * (INR n * g (INR n))) by ring. apply Rmult_le_compat_l; lra.
    - replace (INR n * ((1 + / INR n) * g (INR n + x))) with ((INR n + 1) * g (INR n + x)) by (field; lra).
      rewrite <- Rmult_assoc. apply Rmult_le_compat_r; lra. }
  destruct (archimed_cor1 (r - 1) ltac:(lra)) as [n [Hn1 Hn2]]. specialize (B n Hn2). lra.
Qed.
End Unique.
Lemma unique_gamma (f g : R -> R)
  (Pf : forall a, 0 < a -> 0 < f a) (Pg : forall a, 0 < a -> 0 < g a)
  (Rf : forall a, 0 < a -> f (a + 1) = a * f a) (Rg : forall a, 0 < a -> g (a + 1) = a * g a)
  (Lf : forall a x, 0 < a -> 0 <= x <= 1 -> f (a + x) <= Rpower a x * f a)
  (Lg : forall a x, 0 < a -> 0 <= x <= 1 -> g (a + x) <= Rpower a x * g a)
  (E1 : f 1 = g 1) : forall a, 0 < a -> f a = g a.
Proof.
  assert (B : forall x, 0 < x <= 1 -> f x = g x).
  { intros x Hx. apply Rle_antisym; [apply ratio_le1; auto|apply (ratio_le1 g f); auto]. }
  assert (C : forall n a, 0 < a <= INR n + 1 -> f a = g a).
  { induction n as [|n IH]; intros a Ha; [cbn in Ha; apply B; lra|].
    destruct (Rle_dec a 1); [apply B; lra|]. rewrite S_INR in Ha.
    replace a with (a - 1 + 1) by ring. rewrite Rf, Rg by lra. rewrite IH; [reflexivity|lra]. }
  intros a Ha. destruct (archimed a) as [H _]. apply (C (Z.to_nat (up a))). split; [auto|].
  assert (0 < up a)%Z by (apply lt_IZR; lra). rewrite INR_IZR_INZ, Z2Nat.id by lia. lra.
Qed.
Theorem Beta_Gamma a b : 0 < a -> 0 < b -> Bet a b * Gam (a + b) = Gam a * Gam b.
Proof.
  intros Ha Hb. assert (Gb := Gam_pos b Hb).
  assert (H : forall a, 0 < a -> (fun a => Bet a b * Gam (a + b) / Gam b) a = Gam a).
  { apply unique_gamma.
    - intros x Hx. generalize (Bet_pos x b Hx Hb) (Gam_pos (x + b) ltac:(lra)). intros. pos.
    - apply Gam_pos.
    - intros x Hx. rewrite Bet_rec by auto. replace (x + 1 + b) with (x + b + 1) by ring. rewrite Gam_rec by lra. field. lra.
    - apply Gam_rec.
    - intros x y Hx Hy. assert (0 < Bet x b) by now apply Bet_pos. assert (0 < Gam (x + b)) by (apply Gam_pos; lra).
      assert (U := Bet_le x b y Hx Hb Hy). assert (V := Gam_le (x + b) y ltac:(lra) Hy).
      replace (x + y + b) with (x + b + y) by ring.
      replace (Rpower x y * (Bet x b * Gam (x + b) / Gam b)) with ((Rpower (x / (x + b)) y * Bet x b) * (Rpower (x + b) y * Gam (x + b)) / Gam b).
      + unfold Rdiv. apply Rmult_le_compat_r; [left; pos|]. apply Rmult_le_compat; auto.
        * left. apply Bet_pos; lra. * left. apply Gam_pos; lra.
      + replace (Rpower x y) with (Rpower (x / (x + b)) y * Rpower (x + b) y). { field. lra. }
        rewrite Rpower_mult_distr by pos. f_equal. field. lra.
    - apply Gam_le.
    - rewrite Gam_1. replace (Bet 1 b) with (/ b) by (symmetry; apply (Beta_unique 1 b); [apply Bet_spec; lra|now apply Beta_1]).
      rewrite (Rplus_comm 1 b), Gam_rec by auto. field. lra. }
  specialize (H a Ha). cbn beta in H. rewrite <- H. field. lra.
Qed.
Lemma is_Beta_Gamma a b ga gb gab : 0 < a -> 0 < b -> is_Gamma a ga -> is_Gamma b gb -> is_Gamma (a + b) gab -> is_Beta a b (ga * gb / gab).
Proof.
  intros Ha Hb A B C. assert (P := Gamma_pos _ _ C). assert (E := Beta_Gamma a b Ha Hb).
  rewrite (Gamma_unique _ _ _ (Gam_spec a Ha) A), (Gamma_unique _ _ _ (Gam_spec b Hb) B), (Gamma_unique _ _ _ (Gam_spec (a + b) ltac:(lra)) C) in E.
  rewrite <- E. replace (Bet a b * gab / gab) with (Bet a b) by (field; lra). now apply Bet_spec.
Qed.
