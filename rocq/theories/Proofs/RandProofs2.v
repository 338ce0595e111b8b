(** * The densities of the delegated samplers, and the law of the samples *)
From Coq Require Import Reals Lra Lia Psatz List ZArith.
From Coquelicot Require Import Coquelicot.
From Verif.Num Require Import Scalar XReal.
From Verif.Model Require Import Rust Constraints Probability Params Consts Continuous Continuous2 Continuous3 Discrete Samplers.
From Verif.Spec Require Import DistSpec DiscreteSpec GammaSpec RandSpec.
From Verif.Proofs Require Import XTac Calc Calc2 Improper Gauss GammaFun Subst ContProofs1 ContProofs4 ContProofs6 ContProofs9 ContProofs11 ContProofs12 ContProofs13 ContProofs14 ContProofs15 ContProofs20 Oracle RandProofs.
Open Scope R_scope.

Record density_ok (lo hi : Rbar) (f : R -> R) : Prop := {
  dk_lt : Rbar_lt lo hi;
  dk_cont : forall x, inside lo hi x -> continuous f x;
  dk_pos : forall x, inside lo hi x -> 0 <= f x;
  dk_tot : is_RInt_gen f (above lo) (below hi) 1 }.
Lemma dk_law lo hi f : density_ok lo hi f -> law_density Pr0 lo hi f (inv_draw lo hi f).
Proof. intros [A B C D]. now apply inv_law. Qed.
Lemma dk_coherent lo hi cd pd f : Rbar_lt lo hi -> coherent lo hi cd pd -> (forall x, inside lo hi x -> rf pd x = f x) ->
  (forall x, inside lo hi x -> continuous f x) -> density_ok lo hi f.
Proof.
  intros LH [_ [V _ T]] E C. split; auto.
  - intros x Hx. rewrite <- E by auto. destruct (V x Hx) as (q & Hq & P). unfold rf. now rewrite Hq.
  - revert T. apply (is_RInt_gen_inside lo hi); auto. intros x Hx. symmetry. now apply E.
Qed.
Lemma law_transfer {S} (Pr : (S -> Prop) -> R -> Prop) lo hi cd pd f draw : Rbar_lt lo hi -> coherent lo hi cd pd ->
  (forall x, inside lo hi x -> rf pd x = f x) -> (forall x, inside lo hi x -> continuous f x) ->
  law_density Pr lo hi f draw -> law_df Pr lo hi cd draw.
Proof.
  intros LH C E Cf [L1 L2]. assert (K := dk_coherent lo hi cd pd f LH C E Cf). destruct C as [[_ _ CL _] [_ D _]]. split; [exact L1|].
  intros y Hy. apply L2; [exact Hy|].
  assert (EF : forall x, inside lo hi x -> iF f y x = rf cd x - rf cd y).
  { intros x Hx. unfold iF. apply is_RInt_unique. apply (is_RInt_derive (V := R_CompleteNormedModule) (rf cd) f).
    - intros t Ht. assert (It := inside_mid lo hi y x t Hy Hx Ht). rewrite <- E by auto. now apply D.
    - intros t Ht. apply Cf. now apply (inside_mid lo hi y x). }
  assert (N1 : lo <> p_infty) by (intros ->; destruct hi; cbn in *; contradiction).
  assert (LA : filterlim (iF f y) (above lo) (locally (- rf cd y))).
  { apply (filterlim_ext_loc (fun x => rf cd x - rf cd y)).
    - generalize (above_inside lo hi LH N1). apply filter_imp. intros x Hx. symmetry. now apply EF.
    - eapply fl_eq; [apply fl_minus; [exact CL|apply fl_const]|ring]. }
  assert (A := imp_lower lo hi f LH Cf (dk_pos _ _ _ K) y (- rf cd y) y Hy Hy LA). rewrite (EF y Hy) in A.
  replace (rf cd y - rf cd y - - rf cd y) with (rf cd y) in A by ring. exact A.
Qed.

(** ** textbook densities are the densities of the code *)
Section Exp.
Context (l : R) (Hl : 0 < l).
Lemma te_eq x : rf (Exponential.pdf (Exponential.new_unchecked (Fin l))) x = exp_density l x.
Proof. unfold rf. rewrite e_pdf. cbn [val]. unfold exp_density. do 2 f_equal. ring. Qed.
Lemma te_cont x : continuous (exp_density l) x.
Proof. unfold exp_density. eapply ex_derive_cont. dder; reflexivity. Qed.
Lemma te_ok : density_ok 0 p_infty (exp_density l).
Proof. eapply dk_coherent; [exact I|apply (e_coherent l Hl)|intros; apply te_eq|intros; apply te_cont]. Qed.
End Exp.
Section Cau.
Context (m g : R) (Hg : 0 < g).
Lemma tc_eq x : rf (Cauchy.pdf (Cauchy.new_unchecked (Fin m) (Fin g))) x = cauchy_density m g x.
Proof.
  unfold rf. rewrite c_pdf by auto. cbn [val]. unfold cauchy_density. assert (0 < PI) by pos. assert (0 <= ((x - m) / g) * ((x - m) / g)) by apply Rle_0_sqr.
  set (z := (x - m) / g) in *. field. repeat split; try lra; nra.
Qed.
Lemma tc_cont x : continuous (cauchy_density m g) x.
Proof.
  unfold cauchy_density. assert (0 < PI) by pos. assert (0 <= ((x - m) / g) * ((x - m) / g)) by apply Rle_0_sqr. eapply ex_derive_cont. auto_derive; [|reflexivity].
  assert (0 < PI * g * (1 + (x - m) / g * ((x - m) / g))) by (apply Rmult_lt_0_compat; [pos|lra]). unfold Rdiv in *. cbn [pow]. intros E. rewrite Rmult_1_r in E. unfold Rminus in *. lra.
Qed.
Lemma tc_ok : density_ok m_infty p_infty (cauchy_density m g).
Proof. eapply dk_coherent; [exact I|apply (c_coherent m g Hg)|intros; apply tc_eq|intros; apply tc_cont]. Qed.
End Cau.
Section Par.
Context (xm al : R) (Hx : 0 < xm) (Ha : 0 < al).
Lemma tp_eq x : inside xm p_infty x -> rf (Pareto.pdf (Pareto.new_unchecked (Fin xm) (Fin al))) x = pareto_density xm al x.
Proof.
  intros [A _]; cbn in A. unfold rf. rewrite p_pdf by (auto; lra). cbn [val]. unfold pareto_density. unfold Rdiv. rewrite <- Rpower_Ropp. do 2 f_equal. ring.
Qed.
Lemma tp_cont x : inside xm p_infty x -> continuous (pareto_density xm al) x.
Proof.
  intros [A _]; cbn in A. unfold pareto_density, Rdiv. eapply ex_derive_cont. apply (is_derive_ext (fun t => al * Rpower xm al * Rpower t (- (al + 1)))); [intros t; now rewrite Rpower_Ropp|].
  dder; [lra|reflexivity].
Qed.
Lemma tp_ok : density_ok xm p_infty (pareto_density xm al).
Proof. eapply dk_coherent; [exact I|apply (p_coherent xm al Hx Ha)|apply tp_eq|apply tp_cont]. Qed.
End Par.
Section Wei.
Context (l k : R) (Hl : 0 < l) (Hk : 0 < k).
Lemma tw_eq x : inside 0 p_infty x -> rf (Weibull.pdf (Weibull.from (Weibull.mkP (Fin l) (Fin k)))) x = weibull_density l k x.
Proof. intros H%in0f. unfold rf. rewrite w_pdf by auto. reflexivity. Qed.
Lemma tw_cont x : inside 0 p_infty x -> continuous (weibull_density l k) x.
Proof. intros H%in0f. assert (0 < x / l) by pos. unfold weibull_density. eapply ex_derive_cont. dder; try lra; reflexivity. Qed.
Lemma tw_ok : density_ok 0 p_infty (weibull_density l k).
Proof. eapply dk_coherent; [exact I|apply (w_coherent l k Hl Hk)|apply tw_eq|apply tw_cont]. Qed.
End Wei.

Section Tri.
Context (a p q : R) (Hp : 0 < p) (Hq : 0 < q).
Notation d := (Triangular.new_unchecked (Fin a) (Fin p) (Fin q)).
Notation cd := (fun x => unwrap (Triangular.cdf d x)).
Lemma tt_glue x : glue (a + p) (fun x => 2 * (x - a) / (a + p + q - a) / (a + p - a)) (fun x => 2 * (a + p + q - x) / (a + p + q - a) / (a + p + q - (a + p))) x
  = triangular_density a (a + p + q) (a + p) x.
Proof. unfold glue, triangular_density. destruct (Rle_dec x (a + p)); field; lra. Qed.
Lemma tt_eq x : inside a (a + p + q) x -> rf (density_of cd) x = triangular_density a (a + p + q) (a + p) x.
Proof. intros H. unfold rf. rewrite tr_density by auto. cbn [val]. apply tt_glue. Qed.
Lemma tt_cont x : continuous (triangular_density a (a + p + q) (a + p)) x.
Proof. eapply continuous_ext; [intros t; apply tt_glue|]. now apply tr_cont. Qed.
Lemma tt_ok : density_ok a (a + p + q) (triangular_density a (a + p + q) (a + p)).
Proof. eapply dk_coherent; [cbn; lra|apply (tr_coherent a p q Hp Hq)|apply tt_eq|intros; apply tt_cont]. Qed.
End Tri.
Section LogN.
Context {SP : Special xreal} (HN : forall x, sf_norm (Fin x) = Fin (Phi x)).
Context (m V : R) (HV : 0 < V).
Notation d := (LogNormal.new_unchecked (Fin m) (Fin V)).
Notation cd := (fun x => unwrap (LogNormal.cdf d x)).
Lemma tl_lng x : 0 < x -> lng m V x = log_normal_density m (sqrt V) x.
Proof.
  intros H. assert (0 < sqrt V) by pos. assert (0 < PI) by pos. assert (0 < sqrt (2 * PI)) by pos. unfold lng, phi, log_normal_density.
  replace (- (((ln x - m) / sqrt V) * ((ln x - m) / sqrt V) / 2)) with (- (ln x - m) ^ 2 / (2 * sqrt V ^ 2)) by (field; lra). field. repeat split; lra.
Qed.
Lemma tl_eq x : inside 0 p_infty x -> rf (density_of cd) x = log_normal_density m (sqrt V) x.
Proof. intros H. unfold rf. rewrite (ln_density m V HV HN x H). cbn [val]. apply tl_lng. now apply in0f in H. Qed.
Lemma tl_cont x : inside 0 p_infty x -> continuous (log_normal_density m (sqrt V)) x.
Proof.
  intros H%in0f. apply continuous_ext_loc with (lng m V); [|now apply lng_cont].
  generalize (locally_inside 0 p_infty x (conj H I)). apply filter_imp. intros y Hy%in0f. now apply tl_lng.
Qed.
Lemma tl_ok : density_ok 0 p_infty (log_normal_density m (sqrt V)).
Proof. eapply dk_coherent; [exact I|apply (ln_coherent m V HV HN)|apply tl_eq|apply tl_cont]. Qed.
End LogN.
Section Bta.
Context (a b : R) (Ha : 0 < a) (Hb : 0 < b).
Lemma tb_be x : be_u a b x = beta_density (Bet a b) a b x.
Proof. assert (G := Bet_pos a b Ha Hb). unfold be_u, beta_h, beta_density. field. lra. Qed.
Lemma tb_cont x : inside 0 1 x -> continuous (beta_density (Bet a b) a b) x.
Proof. intros H. eapply continuous_ext; [intros t; apply tb_be|]. now apply be_u_cont. Qed.
Lemma tb_eq {SP : Special xreal} (Hg : beta_exact SP) x : inside 0 1 x -> rf (Beta.pdf (Beta.new_unchecked (Fin a) (Fin b))) x = beta_density (Bet a b) a b x.
Proof. intros H. unfold rf. rewrite be_pdf by auto. cbn [val]. apply tb_be. Qed.
Lemma tb_ok : density_ok 0 1 (beta_density (Bet a b) a b).
Proof.
  split; [exact lt01|apply tb_cont|intros x Hx; rewrite <- tb_be; left; now apply be_u_pos|].
  assert (T := be_total a b Ha Hb). revert T. apply (is_RInt_gen_inside 0 1); [exact lt01|]. intros x Hx. symmetry. apply tb_be.
Qed.
End Bta.
Section Chi2.
Context (k : R) (Hk : 0 < k).
Notation a := (k / 2).
Lemma tx_ga x : 0 < x -> ga_u a (/ 2) x = chi_squared_density (Gam a) k x.
Proof.
  intros Hx. assert (Ha : 0 < a) by lra. assert (G := Gam_pos a Ha). unfold ga_u, chi_squared_density.
  replace (Rpower (/ 2) a) with (/ Rpower 2 a). 2:{ unfold Rpower. rewrite ln_Rinv, <- exp_Ropp by lra. f_equal; ring. }
  replace (- x / 2) with (- (/ 2 * x)) by field. field. split; pos.
Qed.
Lemma tx_cont x : inside 0 p_infty x -> continuous (chi_squared_density (Gam a) k) x.
Proof.
  intros H. apply continuous_ext_loc with (ga_u a (/ 2)); [|now apply ga_u_cont].
  generalize (locally_inside 0 p_infty x H). apply filter_imp. intros y Hy%in0f. now apply tx_ga.
Qed.
Lemma tx_ok : density_ok 0 p_infty (chi_squared_density (Gam a) k).
Proof.
  split; [exact I|apply tx_cont|intros x Hx; rewrite <- tx_ga by (now apply in0f); left; apply ga_u_pos; [lra|auto]|].
  assert (T := gam_total a (/ 2) ltac:(lra) ltac:(lra) (fun x => Fin (ga_u a (/ 2) (val x))) (fun x _ => eq_refl)). revert T. apply (is_RInt_gen_inside 0 p_infty); [exact I|]. intros x Hx. symmetry. apply tx_ga. now apply in0f.
Qed.
End Chi2.
Section Fis.
Context (m n : R) (Hm : 0 < m) (Hn : 0 < n).
Lemma tf_od x : 0 < x -> od_u (n / m) (m / 2) (n / 2) x = fisher_density (Bet (m / 2) (n / 2)) m n x.
Proof.
  intros Hx. assert (G := Bet_pos (m / 2) (n / 2) ltac:(lra) ltac:(lra)). unfold od_u, fisher_density.
  assert (0 < n / m) by pos. assert (0 < m / n) by pos. assert (0 < m / n * x) by pos.
  replace (n / m + x) with (n / m * (1 + m / n * x)) by (field; lra). rewrite <- Rpower_mult_distr by lra.
  replace (- (m / 2) - n / 2) with (- ((m + n) / 2)) by field.
  replace (Rpower (m / n) (m / 2)) with (Rpower (n / m) (n / 2) * Rpower (n / m) (- ((m + n) / 2))).
  - field. lra.
  - rewrite <- Rpower_plus. replace (n / 2 + - ((m + n) / 2)) with (- (m / 2)) by field. replace (m / n) with (/ (n / m)) by (field; lra).
    unfold Rpower. rewrite ln_Rinv by auto. f_equal. ring.
Qed.
Lemma tf_cont x : inside 0 p_infty x -> continuous (fisher_density (Bet (m / 2) (n / 2)) m n) x.
Proof.
  intros H. assert (0 < n / m) by pos. apply continuous_ext_loc with (od_u (n / m) (m / 2) (n / 2)); [|now apply od_u_cont].
  generalize (locally_inside 0 p_infty x H). apply filter_imp. intros y Hy%in0f. now apply tf_od.
Qed.
Lemma tf_ok : density_ok 0 p_infty (fisher_density (Bet (m / 2) (n / 2)) m n).
Proof.
  assert (0 < n / m) by pos.
  split; [exact I|apply tf_cont|intros x Hx; rewrite <- tf_od by (now apply in0f); left; apply od_u_pos; auto; lra|].
  assert (T := od_total (n / m) (m / 2) (n / 2) ltac:(auto) ltac:(lra) ltac:(lra)). revert T. apply (is_RInt_gen_inside 0 p_infty); [exact I|]. intros x Hx. symmetry. apply tf_od. now apply in0f.
Qed.
End Fis.
Section Stu.
Context (n : R) (Hn : 0 < n).
Notation f := (student_density (Gam ((n + 1) / 2)) (Gam (n / 2)) n).
Lemma ts_st x : st_u n x = f x.
Proof.
  assert (G1 := Gam_pos ((n + 1) / 2) ltac:(lra)). assert (G2 := Gam_pos (n / 2) ltac:(lra)). assert (0 < n * PI) by pos. assert (0 < sqrt (n * PI)) by pos.
  unfold st_u, student_density. rewrite <- st_norm by auto. replace (x ^ 2) with (x * x) by ring. rewrite st_pow by auto. field. split; lra.
Qed.
Lemma ts_cont x : continuous f x.
Proof. eapply continuous_ext; [intros t; apply ts_st|]. now apply st_u_cont. Qed.
Lemma ts_eq {SP : Special xreal} (Hg : gamma_exact SP) x : rf (StudentT.pdf (StudentT.new_unchecked (Fin n))) x = f x.
Proof. unfold rf. rewrite st_pdf by auto. cbn [val]. apply ts_st. Qed.
Lemma ts_ok : density_ok m_infty p_infty f.
Proof.
  split; [exact I|intros; apply ts_cont|intros x Hx; rewrite <- ts_st; left; now apply st_u_pos|].
  assert (T := st_total (SP := exact false) (ex_gamma false) n Hn). revert T. apply (is_RInt_gen_inside m_infty p_infty); [exact I|]. intros x Hx. symmetry. apply (ts_eq (ex_gamma false)).
Qed.
End Stu.
