(** * Fisher information *)
From Coq Require Import Reals Lra Lia Psatz Arith ZArith List Bool.
From Coquelicot Require Import Coquelicot.
From Verif.Num Require Import Scalar XReal.
From Verif.Model Require Import Rust Constraints Probability Params Consts Traits Discrete Continuous Continuous2.
From Verif.Spec Require Import DistSpec DiscreteSpec UtilsSpec FitSpec.
From Verif.Proofs Require Import ConstraintProofs NewInv XTac Calc Calc2 Improper Subst Gauss Gauss2 ContProofs1 ContProofs4 ContProofs8 ContProofs9 DiscProofs1 DiscProofs2 DiscProofs3 DiscProofs4 GammaFun UtilsProofs FitProofs1.
Import ListNotations.
Open Scope R_scope.

Lemma info_intro lo hi pdf f1 t1 f2 t2 (s1 s2 : R -> R) v :
  (forall x, inside lo hi x -> is_derive (fun t => ln (f1 t x)) t1 (s1 x)) ->
  (forall x, inside lo hi x -> is_derive (fun t => ln (f2 t x)) t2 (s2 x)) ->
  is_expectation lo hi pdf (fun x => s1 x * s2 x) v -> is_information lo hi (rf pdf) f1 t1 f2 t2 v.
Proof. intros H1 H2 H. exists s1, s2. split; [auto|]. split; [auto|]. exact H. Qed.
Lemma info_unique lo hi p f1 t1 f2 t2 v w : Rbar_lt lo hi -> is_information lo hi p f1 t1 f2 t2 v -> is_information lo hi p f1 t1 f2 t2 w -> v = w.
Proof.
  intros Hlt (s1 & s2 & A1 & A2 & A) (r1 & r2 & B1 & B2 & B). apply (gen_unique lo hi (fun x => s1 x * s2 x * p x)); [exact A|].
  revert B. apply (is_RInt_gen_inside lo hi); [exact Hlt|]. intros x Hx. f_equal. f_equal.
  - rewrite <- (is_derive_unique _ _ _ (A1 x Hx)). apply is_derive_unique. now apply B1.
  - rewrite <- (is_derive_unique _ _ _ (A2 x Hx)). apply is_derive_unique. now apply B2.
Qed.
Lemma dinfo_unique law t v w : (forall k, 0 <= law t k) -> is_dinformation law t v -> is_dinformation law t w -> v = w.
Proof.
  intros Hp (s & A & E) (r & B & G). unfold law_expect in *. apply is_series_unique in E, G. rewrite <- E, <- G. apply Series_ext. intros k.
  destruct (Rle_lt_or_eq_dec _ _ (Hp k)) as [P|P]; [|rewrite <- P; ring]. rewrite <- (is_derive_unique _ _ _ (A k P)), <- (is_derive_unique _ _ _ (B k P)). reflexivity.
Qed.

(** ** Bernoulli, Binomial, Poisson *)
Lemma ber_info p : 0 < p < 1 -> is_dinformation bernoulli_law p (1 / (p * (1 - p))).
Proof.
  intros Hp. exists (fun k => match k with O => - / (1 - p) | _ => / p end). split.
  - intros [|[|k]]; cbn [bernoulli_law]; intros H; [auto_derive; [lra|field; lra]|auto_derive; [lra|field; lra]|lra].
  - generalize (ber_expect p (fun k => match k with O => - / (1 - p) | _ => / p end * match k with O => - / (1 - p) | _ => / p end)). unfold law_expect.
    intros K. replace (1 / (p * (1 - p))) with ((1 - p) * (- / (1 - p) * - / (1 - p)) + p * (/ p * / p)) by (field; lra). exact K.
Qed.
Lemma bin_info n p : 0 < p < 1 -> is_dinformation (binomial_law n) p (INR n / p / (1 - p)).
Proof.
  intros Hp. exists (fun k => (INR k - INR n * p) / (p * (1 - p))). split.
  - intros k H. assert (Hk : (k <= n)%nat). { destruct (le_lt_dec k n) as [L|L]; [exact L|]. exfalso. unfold binomial_law in H. rewrite binom_gt in H by exact L. rewrite Rmult_0_l in H. lra. }
    assert (HB : 0 < IZR (binom n k)). { unfold binomial_law in H. assert (0 < p ^ k * (1 - p) ^ (n - k)) by (apply Rmult_lt_0_compat; apply pow_lt; lra). destruct (Rle_or_lt (IZR (binom n k)) 0); [nra|auto]. }
    apply (is_derive_ext_loc (fun t => ln (IZR (binom n k)) + (INR k * ln t + (INR n - INR k) * ln (1 - t)))).
    + assert (L : locally p (fun t => 0 < t < 1)).
      { exists (mkposreal (Rmin p (1 - p)) ltac:(apply Rmin_glb_lt; lra)). intros y Hy. unfold ball in Hy; cbn in Hy; unfold AbsRing_ball, abs, minus, plus, opp in Hy; cbn in Hy. apply Rabs_def2 in Hy.
        assert (A := Rmin_l p (1 - p)). assert (B := Rmin_r p (1 - p)). lra. }
      revert L. apply filter_imp. intros t Ht. unfold binomial_law. rewrite ln_mult, ln_mult, !ln_pow by (auto; try apply Rmult_lt_0_compat; try apply pow_lt; lra). now rewrite minus_INR.
    + auto_derive; [lra|]. field. lra.
  - destruct (blaw_variance p n) as [_ V]. assert (E := is_series_scal_l (K := R_AbsRing) (/ (p * (1 - p) * (p * (1 - p)))) _ _ V). unfold law_expect.
    replace (INR n / p / (1 - p)) with (/ (p * (1 - p) * (p * (1 - p))) * (p * (1 - p) * INR n)) by (field; lra).
    apply is_series_ext' with (2 := E). intros k. cbv beta. match goal with |- @eq _ ?a ?b => change (@eq R a b) end. change (scal ?a ?b) with (a * b); change (mult ?a ?b) with (a * b). unfold binomial_law.  field. lra.
Qed.
Lemma poi_info l : 0 < l -> is_dinformation poisson_law l (1 / l).
Proof.
  intros Hl. exists (fun k => (INR k - l) / l). split.
  - intros k _. apply (is_derive_ext_loc (fun t => INR k * ln t - t - ln (INR (fact k)))).
    + generalize (near_pos l Hl). apply filter_imp. intros t Ht. symmetry. now apply ln_plaw.
    + auto_derive; [lra|field; lra].
  - destruct (plaw_variance l) as [_ V]. assert (E := is_series_scal_l (K := R_AbsRing) (/ (l * l)) _ _ V). unfold law_expect.
    replace (1 / l) with (/ (l * l) * l) by (field; lra).
    apply is_series_ext' with (2 := E). intros k. cbv beta. match goal with |- @eq _ ?a ?b => change (@eq R a b) end. change (scal ?a ?b) with (a * b); change (mult ?a ?b) with (a * b).  field. lra.
Qed.

(** ** Exponential *)
Notation epdf l := (rf (Exponential.pdf (Exponential.new_unchecked (Fin l)))).
Lemma exp_info l : 0 < l -> is_information 0 p_infty (epdf l) (fun t => epdf t) l (fun t => epdf t) l (1 / l / l).
Proof.
  intros Hl. apply info_intro with (fun x => / l - x) (fun x => / l - x).
  3: { destruct (e_variance l Hl) as [_ V]. revert V. apply exp_ext. intros x. field. lra. }
  all: intros x _; apply (is_derive_ext_loc (fun t => ln t - t * x)); [|auto_derive; [lra|field; lra]];
    generalize (near_pos l Hl); apply filter_imp; intros t Ht; unfold rf; rewrite e_pdf by exact Ht; cbn [val]; rewrite ln_mult, ln_exp by (try apply exp_pos; auto); match goal with |- @eq _ ?a ?b => change (@eq R a b) end; ring.
Qed.

(** ** Normal *)
Lemma un_dmu m S x : 0 < S -> is_derive (fun t => ln (npdf t S x)) m ((x - m) / S).
Proof. intros HS. eapply is_derive_ext; [intros t; symmetry; apply (un_ln_pdf t S HS x)|]. auto_derive; [lra|field; lra]. Qed.
Lemma un_dS m S x : 0 < S -> is_derive (fun t => ln (npdf m t x)) S ((((x - m) * (x - m)) / S - 1) / (2 * S)).
Proof.
  intros HS. apply (is_derive_ext_loc (fun t => - (ln (2 * PI) + ln t) / 2 - (x - m) * (x - m) / (2 * t))).
  + generalize (near_pos S HS). apply filter_imp. intros t Ht. symmetry. now apply (un_ln_pdf m t Ht x).
  + auto_derive; [lra|field; lra].
Qed.
Lemma exp_eq lo hi pdf g v w : is_expectation lo hi pdf g v -> v = w -> is_expectation lo hi pdf g w.
Proof. now intros H <-. Qed.
Lemma un_info m S : 0 < S -> let p := npdf m S in let fm := fun t => npdf t S in let fS := fun t => npdf m t in
  is_information m_infty p_infty p fm m fm m (1 / S) /\ is_information m_infty p_infty p fm m fS S 0 /\
  is_information m_infty p_infty p fS S fm m 0 /\ is_information m_infty p_infty p fS S fS S (1 / S * (1 / S) / 2).
Proof.
  intros HS p fm fS. assert (Hs := sqrt_lt_R0 S HS). assert (Q := sqrt_sqrt S ltac:(lra)).
  assert (A := un_ab m S HS). set (s := sqrt S) in *.
  assert (A1 := A 1%nat ltac:(lia)). assert (A2 := A 2%nat ltac:(lia)). assert (A3 := A 3%nat ltac:(lia)). assert (A4 := A 4%nat ltac:(lia)). assert (A0 := A 0%nat ltac:(lia)). clear A. cbn [unM] in *.
  assert (Hne : S <> 0) by lra. assert (Hse : s <> 0) by lra.
  split; [|split; [|split]].
  - apply info_intro with (fun x => (x - m) / S) (fun x => (x - m) / S); [intros; now apply un_dmu|intros; now apply un_dmu|].
    apply exp_eq with (/ S * 1); [|field; lra]. eapply exp_ext; [|apply exp_scal, A2]. intros x. rewrite <- Q. cbn [pow]. field. auto.
  - apply info_intro with (fun x => (x - m) / S) (fun x => (((x - m) * (x - m)) / S - 1) / (2 * S)); [intros; now apply un_dmu|intros; now apply un_dS|].
    apply exp_eq with (/ (2 * s * s * s) * 0 + - / (2 * s * s * s) * 0); [|ring]. eapply exp_ext; [|apply exp_plus_; apply exp_scal; [apply A3|apply A1]]. intros x. rewrite <- Q. cbn [pow]. field. auto.
  - apply info_intro with (fun x => (((x - m) * (x - m)) / S - 1) / (2 * S)) (fun x => (x - m) / S); [intros; now apply un_dS|intros; now apply un_dmu|].
    apply exp_eq with (/ (2 * s * s * s) * 0 + - / (2 * s * s * s) * 0); [|ring]. eapply exp_ext; [|apply exp_plus_; apply exp_scal; [apply A3|apply A1]]. intros x. rewrite <- Q. cbn [pow]. field. auto.
  - apply info_intro with (fun x => (((x - m) * (x - m)) / S - 1) / (2 * S)) (fun x => (((x - m) * (x - m)) / S - 1) / (2 * S)); [intros; now apply un_dS|intros; now apply un_dS|].
    apply exp_eq with (/ (4 * S * S) * 3 + (- / (2 * S * S) * 1 + / (4 * S * S) * 1)); [|field; lra]. eapply exp_ext; [|apply exp_plus_; [apply exp_scal, A4|apply exp_plus_; apply exp_scal; [apply A2|apply A0]]]. intros x. rewrite <- Q. cbn [pow]. field. auto.
Qed.

(** ** LogNormal, relative to the density belonging to its distribution function *)
Lemma cR_mult (f g : R -> R) x : continuous f x -> continuous g x -> continuous (fun y => f y * g y) x.
Proof. intros A B. exact (continuous_mult f g x A B). Qed.
Section LN.
Context {SP : Special xreal} (Hn : forall x, sf_norm (Fin x) = Fin (Phi x)).
Notation lpdf m S := (rf (density_of (fun x => unwrap (LogNormal.cdf (LogNormal.new_unchecked (Fin m) (Fin S)) x)))).
Lemma lpdf_val m S x : 0 < S -> 0 < x -> lpdf m S x = lng m S x.
Proof. intros HS Hx. unfold rf. rewrite (ln_density m S HS Hn x) by (split; [exact Hx|exact I]). reflexivity. Qed.
Lemma lng_npdf m S x : 0 < S -> 0 < x -> lng m S x = / x * npdf m S (ln x).
Proof. intros HS Hx. unfold lng, rf. rewrite un_pdf by auto. cbn [val]. assert (Hs := sqrt_lt_R0 S HS). field. lra. Qed.
Lemma npdf_pos m S x : 0 < S -> 0 < npdf m S x.
Proof. intros HS. unfold rf. rewrite un_pdf by auto. cbn [val]. assert (Hs := sqrt_lt_R0 S HS). apply Rdiv_lt_0_compat; [apply phi_pos|auto]. Qed.
Lemma npdf_cont m S x : 0 < S -> continuous (npdf m S) x.
Proof.
  intros HS. assert (Hs := sqrt_lt_R0 S HS). apply (continuous_ext (fun x => phi ((x - m) / sqrt S) / sqrt S)). { intros y. unfold rf. now rewrite un_pdf. }
  apply (aff_cont m (sqrt S) Hs (fun t => phi t / sqrt S) x). eapply ex_derive_cont. apply dR_div; [lra|apply phi_derive|apply dR_c].
Qed.
Lemma ln_transfer m S (g : R -> R) v : 0 < S -> (forall x, continuous g x) ->
  is_RInt_gen (fun y => g y * npdf m S y) (Rbar_locally m_infty) (Rbar_locally p_infty) v ->
  is_RInt_gen (fun x => g (ln x) * lpdf m S x) (above 0) (below p_infty) v.
Proof.
  intros HS Hg H.
  assert (K := subst_up (Finite 0) p_infty m_infty p_infty (fun y => g y * npdf m S y) ln Rinv v I H).
  specialize (K ltac:(apply ln_lim0) ltac:(apply is_lim_ln_p)).
  eapply (is_RInt_gen_inside 0 p_infty); [exact I| |apply K].
  - intros x [Hx _]; cbn in Hx. rewrite lpdf_val, lng_npdf by auto. match goal with |- @eq _ ?a ?b => change (@eq R a b) end. ring.
  - intros x [Hx _]; cbn in Hx. split; [|split].
    + auto_derive; [auto|ring]. + apply ex_derive_cont with (- / (x * x)). auto_derive; [lra|field; lra].
    + apply cR_mult; [apply Hg|now apply npdf_cont].
Qed.
Lemma ln_dmu m S x : 0 < S -> 0 < x -> is_derive (fun t => ln (lpdf t S x)) m ((ln x - m) / S).
Proof.
  intros HS Hx. apply (is_derive_ext (fun t => - ln x + ln (npdf t S (ln x)))).
  - intros t. rewrite lpdf_val, lng_npdf by auto. rewrite ln_mult, ln_Rinv; auto; [now apply Rinv_0_lt_compat|now apply npdf_pos].
  - apply (is_derive_ext_eq _ _ (0 + (ln x - m) / S)); [|apply dR_plus; [apply dR_c|now apply un_dmu]]. ring.
Qed.
Lemma ln_dS m S x : 0 < S -> 0 < x -> is_derive (fun t => ln (lpdf m t x)) S (((ln x - m) * (ln x - m) / S - 1) / (2 * S)).
Proof.
  intros HS Hx. apply (is_derive_ext_loc (fun t => - ln x + ln (npdf m t (ln x)))).
  - generalize (near_pos S HS). apply filter_imp. intros t Ht. rewrite lpdf_val, lng_npdf by auto. rewrite ln_mult, ln_Rinv; auto; [now apply Rinv_0_lt_compat|now apply npdf_pos].
  - apply (is_derive_ext_eq _ _ (0 + ((ln x - m) * (ln x - m) / S - 1) / (2 * S))); [|apply dR_plus; [apply dR_c|now apply un_dS]]. ring.
Qed.
Lemma lgn_info m S : 0 < S -> let p := lpdf m S in let fm := fun t => lpdf t S in let fS := fun t => lpdf m t in
  is_information 0 p_infty p fm m fm m (1 / S) /\ is_information 0 p_infty p fm m fS S 0 /\
  is_information 0 p_infty p fS S fm m 0 /\ is_information 0 p_infty p fS S fS S (1 / S * (1 / S) / 2).
Proof.
  intros HS p fm fS. destruct (un_info m S HS) as (I1 & I2 & I3 & I4).
  set (a := fun y => (y - m) / S). set (b := fun y => ((y - m) * (y - m) / S - 1) / (2 * S)).
  assert (Ca : forall x, continuous a x). { intros x. apply ex_derive_cont with (/ S). unfold a. auto_derive; [lra|field; lra]. }
  assert (Cb : forall x, continuous b x). { intros x. apply ex_derive_cont with ((x - m) / (S * S)). unfold b. auto_derive; [lra|field; lra]. }
  assert (T : forall f1 t1 f2 t2 c1 c2 v, is_information m_infty p_infty (npdf m S) f1 t1 f2 t2 v ->
     (forall x, is_derive (fun t => ln (f1 t x)) t1 (c1 x)) -> (forall x, is_derive (fun t => ln (f2 t x)) t2 (c2 x)) ->
     (forall x, continuous c1 x) -> (forall x, continuous c2 x) ->
     is_RInt_gen (fun x => c1 (ln x) * c2 (ln x) * p x) (above 0) (below p_infty) v).
  { intros f1 t1 f2 t2 c1 c2 v (s1 & s2 & A1 & A2 & A) D1 D2 C1 C2.
    apply (ln_transfer m S (fun y => c1 y * c2 y)); [auto|intros; now apply cR_mult|].
    change (Rbar_locally m_infty) with (above m_infty). change (Rbar_locally p_infty) with (below p_infty).
    revert A. apply (is_RInt_gen_inside m_infty p_infty); [exact I|]. intros x Hx.
    rewrite <- (is_derive_unique _ _ _ (A1 x Hx)), <- (is_derive_unique _ _ _ (A2 x Hx)), (is_derive_unique _ _ _ (D1 x)), (is_derive_unique _ _ _ (D2 x)). reflexivity. }
  assert (Dm : forall x, is_derive (fun t => ln (npdf t S x)) m (a x)) by (intros; now apply un_dmu).
  assert (DS : forall x, is_derive (fun t => ln (npdf m t x)) S (b x)) by (intros; now apply un_dS).
  assert (Lm : forall x, inside 0 p_infty x -> is_derive (fun t => ln (fm t x)) m (a (ln x))) by (intros x [Hx _]; now apply ln_dmu).
  assert (LS : forall x, inside 0 p_infty x -> is_derive (fun t => ln (fS t x)) S (b (ln x))) by (intros x [Hx _]; now apply ln_dS).
  split; [|split; [|split]].
  - exists (fun x => a (ln x)), (fun x => a (ln x)). split; [auto|]. split; [auto|]. exact (T _ _ _ _ a a _ I1 Dm Dm Ca Ca).
  - exists (fun x => a (ln x)), (fun x => b (ln x)). split; [auto|]. split; [auto|]. exact (T _ _ _ _ a b _ I2 Dm DS Ca Cb).
  - exists (fun x => b (ln x)), (fun x => a (ln x)). split; [auto|]. split; [auto|]. exact (T _ _ _ _ b a _ I3 DS Dm Cb Ca).
  - exists (fun x => b (ln x)), (fun x => b (ln x)). split; [auto|]. split; [auto|]. exact (T _ _ _ _ b b _ I4 DS DS Cb Cb).
Qed.
End LN.

(** ** Pareto *)
Section Par.
Context (xm al : R) (Hx : 0 < xm) (Ha : 0 < al).
Notation papdf xm al := (rf (Pareto.pdf (Pareto.new_unchecked (Fin xm) (Fin al)))).
Notation C := (Rpower xm al).
Notation S x := (C * Rpower x (- al)).
Lemma pa_log_moment a0 a1 a2 :
  is_expectation xm p_infty (Pareto.pdf (Pareto.new_unchecked (Fin xm) (Fin al))) (fun x => a0 + a1 * (ln x - ln xm) + a2 * ((ln x - ln xm) * (ln x - ln xm))) (a0 + a1 / al + 2 * a2 / (al * al)).
Proof.
  assert (HC : C <> 0) by (apply Rgt_not_eq, Rpower_pos).
  eapply (expectation_intro _ _ _ _ (fun x => al * C * Rpower x (- al - 1))
    (fun x => - (S x * (a0 + a1 * (ln x - ln xm + 1 / al) + a2 * ((ln x - ln xm) * (ln x - ln xm) + 2 / al * (ln x - ln xm) + 2 / (al * al))))) _ 0).
  - exact I. - intros x [H _]; cbn in H. apply p_pdf; lra.
  - intros x [H _]; cbn in H. dder; try lra. rewrite Rpower_minus1 by lra. field. lra.
  - intros x [H _]; cbn in H. unfold Rpower. cont_auto. repeat split; try lra.
  - apply lim_above_cont; [|reflexivity]. unfold Rpower. cont_auto. repeat split; try lra; try (apply Rmult_integral_contrapositive_currified; lra).
  - generalize (lim_Rpower_neg al Ha) (lim_ln_Rpower_neg al Ha) (lim_ln_Rpower_neg (al / 2) ltac:(lra)); intros L1 L2 L3. apply lim_pinf in L1, L2, L3.
    assert (L4 := fl_mult _ _ _ _ L3 L3). cbv beta in L4.
    apply fl_ext with (fun x => - (C * (a0 + a1 * (- ln xm + 1 / al) + a2 * (ln xm * ln xm - 2 / al * ln xm + 2 / (al * al))) * Rpower x (- al)
      + C * (a1 + a2 * (2 / al - 2 * ln xm)) * (ln x * Rpower x (- al))
      + C * a2 * (ln x * Rpower x (- (al / 2)) * (ln x * Rpower x (- (al / 2)))))).
    { intros x. replace (Rpower x (- al)) with (Rpower x (- (al / 2)) * Rpower x (- (al / 2))) by (rewrite <- Rpower_plus; f_equal; field). field. lra. }
    eapply fl_eq; [flim|ring].
  - rewrite Rpower_Ropp. field. lra.
Qed.
Lemma ln_papdf t b x : 0 < t -> 0 < b -> t <= x -> ln (papdf t b x) = ln b + b * ln t - (b + 1) * ln x.
Proof. intros Ht Hb H. unfold rf. rewrite p_pdf by auto. cbn [val]. rewrite !ln_mult, !ln_Rpower by (repeat apply Rmult_lt_0_compat; try apply Rpower_pos; lra). ring. Qed.
Lemma near_between x : xm < x -> locally xm (fun t => 0 < t < x).
Proof.
  intros H. exists (mkposreal (Rmin xm (x - xm)) ltac:(apply Rmin_glb_lt; lra)). intros y Hy. unfold ball in Hy; cbn in Hy; unfold AbsRing_ball, abs, minus, plus, opp in Hy; cbn in Hy. apply Rabs_def2 in Hy.
  assert (A := Rmin_l xm (x - xm)). assert (B := Rmin_r xm (x - xm)). lra.
Qed.
Lemma pa_dxm x : xm < x -> is_derive (fun t => ln (papdf t al x)) xm (al / xm).
Proof.
  intros H. apply (is_derive_ext_loc (fun t => ln al + al * ln t - (al + 1) * ln x)).
  - generalize (near_between x H). apply filter_imp. intros t Ht. symmetry. apply ln_papdf; lra.
  - auto_derive; [lra|field; lra].
Qed.
Lemma pa_dal b x : 0 < b -> xm < x -> is_derive (fun t => ln (papdf xm t x)) b (1 / b - (ln x - ln xm)).
Proof.
  intros Hb H. apply (is_derive_ext_loc (fun t => ln t + t * ln xm - (t + 1) * ln x)).
  - generalize (near_pos b Hb). apply filter_imp. intros t Ht. symmetry. apply ln_papdf; lra.
  - auto_derive; [lra|field; lra].
Qed.
Notation p := (papdf xm al). Notation fx := (fun t => papdf t al). Notation fa := (fun t => papdf xm t).
(** the variance of the score *)
Lemma pa_info :
  is_information xm p_infty p fx xm fx xm (al / xm * (al / xm)) /\ is_information xm p_infty p fx xm fa al 0 /\
  is_information xm p_infty p fa al fx xm 0 /\ is_information xm p_infty p fa al fa al (1 / al / al).
Proof.
  assert (Hi : forall x, inside xm p_infty x -> xm < x) by (intros x [H _]; exact H).
  split; [|split; [|split]].
  - apply info_intro with (fun x => al / xm) (fun x => al / xm); [intros; apply pa_dxm; auto|intros; apply pa_dxm; auto|].
    eapply exp_eq; [eapply exp_ext; [|apply (pa_log_moment (al / xm * (al / xm)) 0 0)]|]; [intros; cbv beta; ring|field; lra].
  - apply info_intro with (fun x => al / xm) (fun x => 1 / al - (ln x - ln xm)); [intros; apply pa_dxm; auto|intros; apply pa_dal; auto|].
    eapply exp_eq; [eapply exp_ext; [|apply (pa_log_moment (/ xm) (- (al / xm)) 0)]|]; [intros; cbv beta; field; lra|field; lra].
  - apply info_intro with (fun x => 1 / al - (ln x - ln xm)) (fun x => al / xm); [intros; apply pa_dal; auto|intros; apply pa_dxm; auto|].
    eapply exp_eq; [eapply exp_ext; [|apply (pa_log_moment (/ xm) (- (al / xm)) 0)]|]; [intros; cbv beta; field; lra|field; lra].
  - apply info_intro with (fun x => 1 / al - (ln x - ln xm)) (fun x => 1 / al - (ln x - ln xm)); [intros; apply pa_dal; auto|intros; apply pa_dal; auto|].
    eapply exp_eq; [eapply exp_ext; [|apply (pa_log_moment (1 / al * (1 / al)) (- 2 / al) 1)]|]; [intros; cbv beta; field; lra|field; lra].
Qed.
(** minus the expected Hessian of the log-density *)
Lemma pa_hess :
  is_information_hess xm p_infty p (fun t _ => al / t) fx xm xm (al / xm / xm) /\
  is_information_hess xm p_infty p (fun t _ => t / xm) fx xm al (- 1 / xm) /\
  is_information_hess xm p_infty p (fun t x => 1 / al - (ln x - ln t)) fa al xm (- 1 / xm) /\
  is_information_hess xm p_infty p (fun t x => 1 / t - (ln x - ln xm)) fa al al (1 / al / al).
Proof.
  assert (Hi : forall x, inside xm p_infty x -> xm < x) by (intros x [H _]; exact H).
  assert (E : forall c, is_RInt_gen (fun x => - (- c) * p x) (above xm) (below p_infty) c).
  { intros c. generalize (pa_log_moment c 0 0). unfold is_expectation. intros K. replace (c + 0 / al + 2 * 0 / (al * al)) with c in K by (field; lra).
    revert K. apply (is_RInt_gen_inside xm p_infty); [exact I|]. intros x _. match goal with |- @eq _ ?a ?b => change (@eq R a b) end. ring. }
  split; [|split; [|split]].
  - exists (fun _ => - (al / xm / xm)). split; [|split; [|apply E]]; intros x Hx'; [auto_derive; [lra|field; lra]|apply pa_dxm; auto].
  - exists (fun _ => - (- 1 / xm)). split; [|split; [|apply E]]; intros x Hx'; [auto_derive; [lra|field; lra]|apply pa_dxm; auto].
  - exists (fun _ => - (- 1 / xm)). split; [|split; [|apply E]]; intros x Hx'; [auto_derive; [lra|field; lra]|apply pa_dal; auto].
  - exists (fun _ => - (1 / al / al)). split; [|split; [|apply E]]; intros x Hx'; [auto_derive; [lra|field; lra]|apply pa_dal; auto].
Qed.
End Par.
