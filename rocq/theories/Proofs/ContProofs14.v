(** * Beta, beta prime, F *)
From Coq Require Import Reals Lra Lia Psatz List ZArith.
From Coquelicot Require Import Coquelicot.
From Verif.Num Require Import XReal.
From Verif.Model Require Import Rust Constraints Probability Params Consts Continuous3.
From Verif.Spec Require Import DistSpec GammaSpec ResSpec.
From Verif.Proofs Require Import XTac Calc Calc2 Improper GammaFun Subst Mellin ContProofs11 ContProofs12 ContProofs13.
Import ListNotations.
Open Scope R_scope.

(** ** Beta *)
Section Beta.
Import Beta.
Context {SP : Special xreal} (Hg : beta_exact SP).
Context (a b : R) (Ha : 0 < a) (Hb : 0 < b).
Notation d := (new_unchecked (Fin a) (Fin b)).
Notation cd := (fun x => unwrap (cdf d x)).
Definition be_u (x : R) : R := / Bet a b * beta_h a b x.
Lemma be_G : 0 < Bet a b. Proof. now apply Bet_pos. Qed.
Lemma be_pdf x : inside 0 1 x -> pdf d (Fin x) = Fin (be_u x).
Proof.
  intros Hx%in01f. assert (G := be_G). unfold pdf. cbn [pr alpha beta new_unchecked]. rewrite sfb by auto. xs. f_equal. unfold be_u, beta_h. field. lra.
Qed.
Lemma be_u_cont x : inside 0 1 x -> continuous be_u x.
Proof. intros H. unfold be_u. apply (continuous_scal_r (V := R_NormedModule) (/ Bet a b) (beta_h a b)). now apply bh_cont. Qed.
Lemma be_u_pos x : inside 0 1 x -> 0 < be_u x.
Proof. intros H. assert (G := be_G). assert (P := bh_pos a b x H). unfold be_u. pos. Qed.
Definition beM (n : nat) : R := match n with 0%nat => 1 | 1%nat => a / (a + b) | 2%nat => a * (a + 1) / ((a + b) * (a + b + 1))
  | 3%nat => a * (a + 1) * (a + 2) / ((a + b) * (a + b + 1) * (a + b + 2))
  | _ => a * (a + 1) * (a + 2) * (a + 3) / ((a + b) * (a + b + 1) * (a + b + 2) * (a + b + 3)) end.
Lemma be_raw n : (n <= 4)%nat -> is_expectation 0 1 (pdf d) (fun x => x ^ n) (beM n).
Proof.
  intros Hn. assert (G := be_G). assert (Hn0 := pos_INR n).
  apply (raw_intro 0 1 (pdf d) be_u (beta_h (a + INR n) b) (/ Bet a b) (Bet (a + INR n) b)).
  - exact lt01. - exact be_pdf. - apply B_in, Bet_spec; lra.
  - intros x Hx%in01f. unfold be_u, beta_h. rewrite <- Rpower_pow_mul by lra. ring.
  - destruct n as [|[|[|[|[|n]]]]]; [..|lia]; cbn [INR beM].
    + rewrite Rplus_0_r. field. lra.
    + rewrite Bet_rec by auto. field. repeat split; lra.
    + replace (a + (1 + 1)) with (a + 1 + 1) by ring. rewrite !Bet_rec by lra. field. repeat split; lra.
    + replace (a + (1 + 1 + 1)) with (a + 1 + 1 + 1) by ring. rewrite !Bet_rec by lra. field. repeat split; lra.
    + replace (a + (1 + 1 + 1 + 1)) with (a + 1 + 1 + 1 + 1) by ring. rewrite !Bet_rec by lra. field. repeat split; lra.
Qed.
Ltac raws := try (apply be_raw; lia); try reflexivity.
Lemma be_mean_val : mean d = Fin (a / (a + b)).
Proof. unfold mean; cbn [pr alpha beta new_unchecked]. assert (0 < 1 + b / a) by pos. xs. f_equal. field. lra. Qed.
Lemma be_mean : is_mean 0 1 (pdf d) (a / (a + b)).
Proof. apply (mean_raw _ _ _ beM); raws. Qed.
Notation V := (a * b / ((a + b) * (a + b) * (a + b + 1))).
Lemma be_var_val : variance d = Fin V.
Proof. unfold variance; cbn [pr alpha beta new_unchecked]. xs. reflexivity. Qed.
Lemma be_variance : is_variance 0 1 (pdf d) (a / (a + b)) V.
Proof. apply (variance_raw _ _ _ beM); raws. cbn. field. lra. Qed.
Lemma be_Vpos : 0 < V. Proof. pos. Qed.
Lemma be_skewness : returns (skewness d) (is_skewness 0 1 (pdf d)).
Proof.
  assert (P1 : 0 < sqrt (a * b)) by pos. assert (P2 : 0 < sqrt (a + b + 1)) by pos.
  unfold skewness; cbn [pr alpha beta new_unchecked]. xs. eexists; split; [reflexivity|].
  apply (skewness_raw _ _ _ beM) with (v := V); raws; [cbn; field; lra|apply be_Vpos|].
  assert (ES : sqrt V = sqrt (a * b) / ((a + b) * sqrt (a + b + 1))).
  { rewrite sqrt_div_alt by pos. rewrite (sqrt_mult ((a + b) * (a + b))) by pos. rewrite sqrt_square by lra. reflexivity. }
  rewrite ES.
  assert (EQ : 2 * (b - a) * sqrt (a + b + 1) / (a + b + 2) / sqrt (a * b) * (V * (sqrt (a * b) / ((a + b) * sqrt (a + b + 1)))) = 2 * (b - a) / (a + b + 2) * V / (a + b)) by (field; repeat split; lra).
  rewrite EQ. cbn. field. lra.
Qed.
Definition be_ek : R := 6 * ((a - b) * (a - b) * (a + b + 1) - a * b * (a + b + 2)) / (a * b * (a + b + 2) * (a + b + 3)).
Lemma be_kurtosis : is_kurtosis 0 1 (pdf d) (3 + be_ek).
Proof. apply (kurtosis_raw _ _ _ beM) with (v := V); raws; [cbn; field; lra|apply be_Vpos|]. unfold be_ek. cbn. field. lra. Qed.
Lemma be_ek_val : excess_kurtosis d = Fin (3 * (a - b) * (a - b) * (a + b + 1) - / (a + b + 3)).
Proof. unfold excess_kurtosis; cbn [pr alpha beta new_unchecked]. assert (0 < a * b) by pos. xs. f_equal. field. lra. Qed.
Lemma be_total : is_RInt_gen be_u (above 0) (below 1) 1.
Proof.
  assert (G := be_G). assert (A := gen_scal 0 1 _ (/ Bet a b) _ (B_in _ _ _ (Bet_spec a b Ha Hb))). eapply gen_eq; [exact A|]. field. lra.
Qed.
Lemma be_cdf x : 0 < x < 1 -> betainc_exact SP -> exists v, is_lower_beta a b x v /\ cd (Fin x) = Fin (v / Bet a b).
Proof. intros Hx Hi. unfold cdf; cbn [pr alpha beta new_unchecked unwrap]. now apply sfbi. Qed.
Lemma be_coherent : betainc_exact SP -> coherent 0 1 cd (pdf d).
Proof.
  intros Hi. assert (G := be_G). apply (coherent_of_integral 0 1 cd (pdf d) be_u (fun x => val (cd (Fin x)))).
  - exact lt01. - exact be_u_cont. - intros x Hx. left. now apply be_u_pos. - exact be_total. - exact be_pdf.
  - intros x Hx%in01f. destruct (be_cdf x Hx Hi) as (v & Hv & E). rewrite E. cbn [val]. split; [reflexivity|].
    assert (A := low_scal 0 x _ (/ Bet a b) _ (LB_in _ _ _ _ Hv)). eapply low_eq; [exact A|]. field. lra.
Qed.
Lemma be_modes : 1 < a -> 1 < b -> modes d <> [] /\ all_return (modes d) (is_mode 0 1 (pdf d)).
Proof.
  intros H1 H2. assert (G := be_G). unfold modes; cbn [pr alpha beta new_unchecked]. xs. rewrite !Rltb_true by lra. cbn [andb]. split; [discriminate|].
  intros y [<-|[]]. xs. eexists; split; [reflexivity|]. set (m := (a - 1) / (a + b - 2)).
  assert (E : m = (a - 1) / (a + b - 2)) by reflexivity. assert (Hm0 : 0 < m) by (unfold m; pos).
  assert (E1 : 1 - m = (b - 1) / (a + b - 2)) by (unfold m; field; lra). assert (0 < 1 - m) by (rewrite E1; pos).
  exists (be_u m). split; [apply be_pdf, in01; lra|]. intros x Hx. eexists; split; [now apply be_pdf|]. apply in01f in Hx. unfold be_u, beta_h. apply Rmult_le_compat_l; [pos|].
  unfold Rpower. rewrite <- !exp_plus. apply exp_le_mono. apply beta_max_ln; try lra. rewrite E1, E. field. lra.
Qed.
Lemma be_modes_ends : a < 1 -> b < 1 -> modes d = [Fin 0; Fin 1] /\ Forall (fun m => pdf d m = PInf) (modes d).
Proof.
  intros H1 H2. assert (G := be_G). assert (E : modes d = [Fin 0; Fin 1]).
  { unfold modes; cbn [pr alpha beta new_unchecked]. xs. rewrite Rltb_false by lra. cbn [andb]. now rewrite !Rltb_true by lra. }
  split; [exact E|]. rewrite E. unfold pdf; cbn [pr alpha beta new_unchecked]. rewrite sfb by auto.
  repeat constructor; xs.
  - rewrite x_powf_0_neg by lra. replace (1 - 0) with 1 by ring. xs. rewrite Rpower_0_base. rewrite xp_mul, xp_div by lra. reflexivity.
  - replace (1 - 1) with 0 by ring. rewrite x_powf_0_neg by lra. rewrite Rpower_0_base. rewrite xp_mul_r, xp_div by lra. reflexivity.
Qed.
Lemma be_entropy : digamma_exact SP -> logbeta_exact SP -> returns (shannon_entropy d) (is_entropy 0 1 (pdf d)).
Proof.
  intros Hd Hl. assert (G := be_G). eexists; split.
  { unfold shannon_entropy; cbn [pr alpha beta new_unchecked]. rewrite sflb by auto. rewrite !sfpsi by auto. xs. rewrite sfpsi by (auto; lra). xs. reflexivity. }
  unfold is_entropy.
  assert (A := gen_lin 0 1 _ _ ((1 - a) / Bet a b) ((1 - b) / Bet a b) _ _ (Bet_ln_int a b Ha Hb) (Bet_ln1_int a b Ha Hb)).
  assert (B := gen_lin 0 1 _ _ 1 (ln (Bet a b)) _ _ A be_total). cbv beta in B.
  apply (gen_eq 0 1 _ _ (ln (Bet a b) - (a - 1) * psi a - (b - 1) * psi b + (a - 1 + (b - 1)) * psi (a + b))) in B; [|field; lra].
  revert B. apply (is_RInt_gen_inside 0 1); [exact lt01|]. intros x Hx. unfold rf. rewrite be_pdf by auto. cbn [val]. assert (Hx' := Hx). apply in01f in Hx'.
  assert (EL : ln (be_u x) = - ln (Bet a b) + ((a - 1) * ln x + (b - 1) * ln (1 - x))).
  { unfold be_u, beta_h. rewrite !ln_mult, ln_Rinv, !ln_Rpower by pos. reflexivity. }
  rewrite EL. unfold be_u. match goal with |- @eq _ ?a ?b => change (@eq R a b) end. field. lra.
Qed.
End Beta.

(** ** the density c^q x^(p-1) (c+x)^(-p-q) / B(p,q): beta prime (c = 1) and F (c = d2/d1) *)
Section Odds.
Context (c p q : R) (Hc : 0 < c) (Hp : 0 < p) (Hq : 0 < q).
Definition od_u (x : R) : R := Rpower c q / Bet p q * (Rpower x (p - 1) * Rpower (c + x) (- p - q)).
Lemma od_G : 0 < Bet p q. Proof. now apply Bet_pos. Qed.
Lemma od_u_cont x : inside 0 p_infty x -> continuous od_u x.
Proof. intros H%in0f. unfold od_u. eapply ex_derive_cont. dder; try lra; reflexivity. Qed.
Lemma od_u_pos x : inside 0 p_infty x -> 0 < od_u x.
Proof. intros H%in0f. assert (G := od_G). unfold od_u. pos. Qed.
Context (pdf : xreal -> xreal) (Hpdf : forall x, inside 0 p_infty x -> pdf (Fin x) = Fin (od_u x)).
Definition odM (n : nat) : R := match n with 0%nat => 1 | 1%nat => c * (p / (q - 1)) | 2%nat => c ^ 2 * (p * (p + 1) / ((q - 1) * (q - 2)))
  | 3%nat => c ^ 3 * (p * (p + 1) * (p + 2) / ((q - 1) * (q - 2) * (q - 3)))
  | _ => c ^ 4 * (p * (p + 1) * (p + 2) * (p + 3) / ((q - 1) * (q - 2) * (q - 3) * (q - 4))) end.
Lemma Bet_shift s t : 0 < s -> 1 < t -> Bet (s + 1) (t - 1) = s / (t - 1) * Bet s t.
Proof.
  intros Hs Ht. assert (E1 := Bet_rec s (t - 1) Hs ltac:(lra)).
  assert (E2 := Bet_rec (t - 1) s ltac:(lra) Hs). replace (t - 1 + 1) with t in E2 by ring.
  rewrite (Bet_sym t s), (Bet_sym (t - 1) s) in E2 by lra. rewrite E1, E2. field. lra.
Qed.
Lemma od_raw n : (n <= 4)%nat -> INR n < q -> is_expectation 0 p_infty pdf (fun x => x ^ n) (odM n).
Proof.
  intros Hn Hnq. assert (G := od_G). assert (Hn0 := pos_INR n).
  apply (raw_intro 0 p_infty pdf od_u (fun x => Rpower x (p + INR n - 1) * Rpower (c + x) (- (p + INR n) - (q - INR n))) (Rpower c q / Bet p q) (Rpower c (- (q - INR n)) * Bet (p + INR n) (q - INR n))).
  - exact I. - exact Hpdf. - apply bet_odds; lra.
  - intros x Hx%in0f. unfold od_u. rewrite <- Rpower_pow_mul by lra. replace (- (p + INR n) - (q - INR n)) with (- p - q) by ring. ring.
  - replace (- (q - INR n)) with (- q + INR n) by ring. rewrite Rpower_plus, Rpower_Ropp, Rpower_pow by auto.
    assert (P : 0 < Rpower c q) by pos.
    destruct n as [|[|[|[|[|n]]]]]; [..|lia]; cbn [INR odM pow] in *.
    + rewrite Rplus_0_r, Rminus_0_r. field. split; lra.
    + rewrite Bet_shift by lra. field. repeat split; lra.
    + replace (p + (1 + 1)) with (p + 1 + 1) by ring. replace (q - (1 + 1)) with (q - 1 - 1) by ring. rewrite !Bet_shift by lra. field. repeat split; lra.
    + replace (p + (1 + 1 + 1)) with (p + 1 + 1 + 1) by ring. replace (q - (1 + 1 + 1)) with (q - 1 - 1 - 1) by ring. rewrite !Bet_shift by lra. field. repeat split; lra.
    + replace (p + (1 + 1 + 1 + 1)) with (p + 1 + 1 + 1 + 1) by ring. replace (q - (1 + 1 + 1 + 1)) with (q - 1 - 1 - 1 - 1) by ring. rewrite !Bet_shift by lra. field. repeat split; lra.
Qed.
Ltac raws := try (apply od_raw; [lia|cbn [INR]; lra]); try reflexivity.
Lemma od_mean m : 1 < q -> m = c * (p / (q - 1)) -> is_mean 0 p_infty pdf m.
Proof. intros H ->. apply (mean_raw _ _ _ odM); raws. Qed.
Notation V := (c * c * (p * (p + q - 1) / ((q - 2) * (q - 1) * (q - 1)))).
Lemma od_Vpos : 2 < q -> 0 < V. Proof. intros. pos. Qed.
Lemma od_V : 2 < q -> V = odM 2 - odM 1 ^ 2. Proof. intros. cbn. field. lra. Qed.
Lemma od_variance m v : 2 < q -> m = c * (p / (q - 1)) -> v = V -> is_variance 0 p_infty pdf m v.
Proof. intros H -> ->. apply (variance_raw _ _ _ odM); raws. now apply od_V. Qed.
Lemma od_sqrtV : 2 < q -> sqrt V = c / (q - 1) * sqrt (p * (p + q - 1) / (q - 2)).
Proof.
  intros H. replace V with (c / (q - 1) * (c / (q - 1)) * (p * (p + q - 1) / (q - 2))) by (field; lra).
  rewrite sqrt_mult by pos. rewrite sqrt_square by pos. reflexivity.
Qed.
Lemma od_skewness sk : 3 < q -> sk * sqrt (p * (p + q - 1) / (q - 2)) = 2 * (2 * p + q - 1) / (q - 3) -> is_skewness 0 p_infty pdf sk.
Proof.
  intros H E. apply (skewness_raw _ _ _ odM) with (v := V); raws; [apply od_V; lra|apply od_Vpos; lra|].
  rewrite od_sqrtV by lra.
  replace (sk * (V * (c / (q - 1) * sqrt (p * (p + q - 1) / (q - 2))))) with (V * (c / (q - 1)) * (sk * sqrt (p * (p + q - 1) / (q - 2)))) by ring. rewrite E. cbn. field. lra.
Qed.
Definition od_ek : R := 6 * (p * (p + q - 1) * (5 * q - 11) + (q - 1) * (q - 1) * (q - 2)) / (p * (p + q - 1) * (q - 3) * (q - 4)).
Lemma od_kurtosis : 4 < q -> is_kurtosis 0 p_infty pdf (3 + od_ek).
Proof.
  intros H. apply (kurtosis_raw _ _ _ odM) with (v := V); raws; [apply od_V; lra|apply od_Vpos; lra|]. unfold od_ek. cbn. field. lra.
Qed.
Lemma od_total : is_RInt_gen od_u (above 0) (below p_infty) 1.
Proof.
  assert (G := od_G). assert (A := gen_scal 0 p_infty _ (Rpower c q / Bet p q) _ (bet_odds c p q Hc Hp Hq)). eapply gen_eq; [exact A|]. rewrite Rpower_Ropp. field. split; pos.
Qed.
Lemma od_low y v : 0 < y -> is_lower_beta p q (y / (c + y)) v -> is_RInt_gen od_u (above 0) (at_point y) (v / Bet p q).
Proof.
  intros Hy H. assert (G := od_G). assert (A := low_scal 0 y _ (Rpower c q / Bet p q) _ (bet_odds_low c p q y v Hc Hy H)). eapply low_eq; [exact A|]. rewrite Rpower_Ropp. field. split; pos.
Qed.
Lemma od_coherent cdf : (forall x, 0 < x -> exists v, is_lower_beta p q (x / (c + x)) v /\ cdf (Fin x) = Fin (v / Bet p q)) -> coherent 0 p_infty cdf pdf.
Proof.
  intros Hcd. apply (coherent_of_integral 0 p_infty cdf pdf od_u (fun x => val (cdf (Fin x)))).
  - exact I. - exact od_u_cont. - intros x Hx. left. now apply od_u_pos. - exact od_total. - exact Hpdf.
  - intros x Hx%in0f. destruct (Hcd x Hx) as (v & Hv & E). rewrite E. cbn [val]. split; [reflexivity|]. now apply od_low.
Qed.
Lemma od_max m x : 1 < p -> m = c * ((p - 1) / (q + 1)) -> 0 < x -> od_u x <= od_u m.
Proof.
  intros H -> Hx. assert (G := od_G). unfold od_u. apply Rmult_le_compat_l; [pos|]. set (m := c * ((p - 1) / (q + 1))). assert (Hm : 0 < m) by (unfold m; pos).
  unfold Rpower. rewrite <- !exp_plus. apply exp_le_mono.
  (* with y = x/(c+x): (p-1) ln y + (q+1) ln (1-y) + const *)
  assert (EE : forall t, 0 < t -> (p - 1) * ln t + (- p - q) * ln (c + t) = (p - 1) * ln (t / (c + t)) + (q + 1) * ln (1 - t / (c + t)) - (q + 1) * ln c).
  { intros t Ht. replace (1 - t / (c + t)) with (c / (c + t)) by (field; lra). rewrite !ln_div' by lra. ring. }
  rewrite (EE x Hx), (EE m Hm). apply Rplus_le_compat_r.
  assert (I1 : forall t, 0 < t -> 0 < t / (c + t) < 1). { intros t Ht. assert (1 - t / (c + t) = c / (c + t)) by (field; lra). assert (0 < c / (c + t)) by pos. split; [pos|lra]. }
  apply beta_max_ln; try (now apply I1); try lra.
  replace (1 - m / (c + m)) with (c / (c + m)) by (field; lra). unfold m. field. split; [lra|]. assert (0 < c * (q + 1) + c * (p - 1)) by pos. lra.
Qed.
Lemma od_ln : is_RInt_gen (fun x => ln x * od_u x) (above 0) (below p_infty) (ln c + psi p - psi q) /\
  is_RInt_gen (fun x => ln (c + x) * od_u x) (above 0) (below p_infty) (ln c + psi (p + q) - psi q).
Proof.
  assert (G := od_G).
  assert (S : forall (h : R -> R) l, (forall x, inside 0 1 x -> continuous h x) -> is_RInt_gen h (above 0) (below 1) l ->
    is_RInt_gen (fun x => c / ((c + x) * (c + x)) * h (x / (c + x))) (above 0) (below p_infty) l).
  { intros h l Ch Hl. apply (subst_up 0 p_infty 0 1 h (fun x => x / (c + x)) (fun x => c / ((c + x) * (c + x)))); [exact I|exact Hl|now apply odds_above|now apply odds_below|].
    intros x Hx%in0f. assert (0 < (c + x) * (c + x)) by pos. split; [now apply odds_d|]. split; [eapply ex_derive_cont; dder; try lra; reflexivity|apply Ch, in01].
    assert (1 - x / (c + x) = c / (c + x)) by (field; lra). assert (0 < c / (c + x)) by pos. split; [pos|lra]. }
  assert (C1 : forall x, inside 0 1 x -> continuous (fun t => ln t * beta_h p q t) x).
  { intros x Hx. apply (continuous_mult (K := R_AbsRing) ln (beta_h p q)); [apply in01f in Hx; eapply ex_derive_cont; apply is_derive_ln; lra|now apply bh_cont]. }
  assert (C2 : forall x, inside 0 1 x -> continuous (fun t => ln (1 - t) * beta_h p q t) x).
  { intros x Hx. apply (continuous_mult (K := R_AbsRing) (fun t => ln (1 - t)) (beta_h p q)); [apply in01f in Hx; eapply ex_derive_cont; dder; [lra|reflexivity]|now apply bh_cont]. }
  assert (A1 := S _ _ C1 (Bet_ln_int p q Hp Hq)). assert (A2 := S _ _ C2 (Bet_ln1_int p q Hp Hq)). cbv beta in A1, A2.
  assert (EB : forall x, 0 < x -> od_u x = / Bet p q * (c / ((c + x) * (c + x)) * beta_h p q (x / (c + x)))).
  { intros x Hx. unfold od_u. rewrite odds_body, Rpower_Ropp by auto. field. repeat split; pos. }
  assert (L1 : forall x, 0 < x -> ln (x / (c + x)) = ln x - ln (c + x)) by (intros; apply ln_div'; lra).
  assert (L2 : forall x, 0 < x -> ln (1 - x / (c + x)) = ln c - ln (c + x)).
  { intros x Hx. replace (1 - x / (c + x)) with (c / (c + x)) by (field; lra). apply ln_div'; lra. }
  split.
  - assert (B := gen_lin 0 p_infty _ _ (/ Bet p q) 1 _ _ A1 (gen_lin 0 p_infty _ _ (- / Bet p q) (ln c) _ _ A2 od_total)).
    apply (gen_eq 0 p_infty _ _ (ln c + psi p - psi q)) in B; [|field; lra]. revert B. apply (is_RInt_gen_inside 0 p_infty); [exact I|]. intros x Hx%in0f.
    rewrite (EB x Hx), L1, L2 by auto. ring.
  - assert (B := gen_lin 0 p_infty _ _ (- / Bet p q) (ln c) _ _ A2 od_total).
    apply (gen_eq 0 p_infty _ _ (ln c + psi (p + q) - psi q)) in B; [|field; lra]. revert B. apply (is_RInt_gen_inside 0 p_infty); [exact I|]. intros x Hx%in0f.
    rewrite (EB x Hx), L2 by auto. ring.
Qed.
Definition od_ent : R := ln (Bet p q) + ln c - (p - 1) * psi p - (q + 1) * psi q + (p + q) * psi (p + q).
Lemma od_entropy : is_entropy 0 p_infty pdf od_ent.
Proof.
  assert (G := od_G). destruct od_ln as [A1 A2]. unfold is_entropy.
  assert (A := gen_lin 0 p_infty _ _ (1 - p) 1 _ _ A1 (gen_lin 0 p_infty _ _ (p + q) (ln (Bet p q) - q * ln c) _ _ A2 od_total)).
  apply (gen_eq 0 p_infty _ _ od_ent) in A; [|unfold od_ent; ring]. revert A. apply (is_RInt_gen_inside 0 p_infty); [exact I|]. intros x Hx. unfold rf. rewrite Hpdf by auto. cbn [val].
  apply in0f in Hx. assert (EL : ln (od_u x) = q * ln c - ln (Bet p q) + ((p - 1) * ln x + (- p - q) * ln (c + x))).
  { unfold od_u, Rdiv. rewrite !ln_mult, ln_Rinv, !ln_Rpower by pos. ring. }
  rewrite EL. ring.
Qed.
End Odds.
(** digamma is increasing *)
Lemma psi_lt a b : 0 < a -> 0 < b -> psi a < psi (a + b).
Proof.
  intros Ha Hb. assert (G := Bet_pos a b Ha Hb). assert (A := Bet_ln_int a b Ha Hb).
  assert (B := gen_scal 0 1 _ (-1) _ A).
  assert (0 < -1 * ((psi a - psi (a + b)) * Bet a b)).
  { apply (imp_total_pos 0 1 (fun t => -1 * (ln t * beta_h a b t)) lt01).
    - intros x Hx. apply (continuous_scal_r (V := R_NormedModule) (-1) (fun t => ln t * beta_h a b t)).
      apply (continuous_mult (K := R_AbsRing) ln (beta_h a b)); [apply in01f in Hx; eapply ex_derive_cont; apply is_derive_ln; lra|now apply bh_cont].
    - intros x Hx. assert (P := bh_pos a b x Hx). apply in01f in Hx. assert (N := ln_neg x Hx). assert (0 < - ln x * beta_h a b x) by (apply Rmult_lt_0_compat; lra). lra.
    - exact B.
    - intros x Hx. assert (P := bh_pos a b x Hx). apply in01f in Hx. assert (N := ln_neg x Hx). assert (0 < - ln x * beta_h a b x) by (apply Rmult_lt_0_compat; lra). lra. }
  apply Rmult_lt_reg_r with (Bet a b); [auto|]. lra.
Qed.
Lemma psi_rec a : 0 < a -> psi (a + 1) = psi a + / a.
Proof.
  intros Ha. unfold psi. apply is_derive_unique.
  assert (D : is_derive (fun p => ln p + ln (Gam p)) (a) (/ a + psi a)).
  { apply dR_plus; [apply is_derive_ln; auto|now apply psi_derive]. }
  assert (D2 : is_derive (fun p => ln (Gam (p + 1))) a (/ a + psi a)).
  { eapply is_derive_ext_loc; [|exact D]. exists (mkposreal a Ha). intros y Hy. unfold ball in Hy; cbn in Hy; unfold AbsRing_ball, abs, minus, plus, opp in Hy; cbn in Hy. apply Rabs_def2 in Hy.
    assert (0 < y) by lra. rewrite Gam_rec, ln_mult by (auto using Gam_pos). reflexivity. }
  assert (D3 := is_derive_comp (fun p => ln (Gam (p + 1))) (fun p => p - 1) (a + 1) (/ a + psi a) 1).
  eapply is_derive_eq; [eapply is_derive_ext; [|apply D3]|].
  - intros t. cbv beta. do 2 f_equal. ring.
  - replace (a + 1 - 1) with a by ring. exact D2.
  - dder; ring.
  - change (1 * (/ a + psi a) = psi a + / a). ring.
Qed.
Lemma psi_1_neg : psi 1 < 0.
Proof.
  assert (A := Gam_ln_int 1 ltac:(lra)). rewrite Gam_1 in A.
  assert (B := gen_lin 0 p_infty _ _ 1 (-1) _ _ (gen_lin 0 p_infty _ _ 1 (-1) _ _ (G_in _ _ (Gam_spec 2 ltac:(lra))) (G_in _ _ (Gam_spec 1 ltac:(lra)))) A). cbv beta in B.
  assert (G2 : Gam 2 = 1) by (replace 2 with (1 + 1) by ring; rewrite Gam_rec, Gam_1 by lra; ring). rewrite G2, Gam_1 in B.
  assert (E : forall t, 0 < t -> 1 * (1 * gamma_h 2 t + -1 * gamma_h 1 t) + -1 * (ln t * gamma_h 1 t) = (t - 1 - ln t) * gamma_h 1 t).
  { intros t Ht. replace 2 with (1 + 1) by ring. rewrite gh_succ by auto. ring. }
  assert (0 < 1 * (1 * 1 + -1 * 1) + -1 * (psi 1 * 1)); [|lra].
  refine (imp_pos_on 0 p_infty (fun t => 1 * (1 * gamma_h 2 t + -1 * gamma_h 1 t) + -1 * (ln t * gamma_h 1 t)) _ 3 4 I _ _ B _ _ _ _).
  - intros x Hx. apply (continuous_plus (V := R_NormedModule) (fun t => 1 * (1 * gamma_h 2 t + -1 * gamma_h 1 t)) (fun t => -1 * (ln t * gamma_h 1 t))).
    + apply (continuous_scal_r (V := R_NormedModule) 1 (fun t => 1 * gamma_h 2 t + -1 * gamma_h 1 t)).
      apply (continuous_plus (V := R_NormedModule) (fun t => 1 * gamma_h 2 t) (fun t => -1 * gamma_h 1 t)).
      * apply (continuous_scal_r (V := R_NormedModule) 1 (gamma_h 2)). now apply gh_cont.
      * apply (continuous_scal_r (V := R_NormedModule) (-1) (gamma_h 1)). now apply gh_cont.
    + apply (continuous_scal_r (V := R_NormedModule) (-1) (fun t => ln t * gamma_h 1 t)).
      apply (continuous_mult (K := R_AbsRing) ln (gamma_h 1)); [apply in0f in Hx; eapply ex_derive_cont; now apply is_derive_ln|now apply gh_cont].
  - intros x Hx. assert (P := gh_pos 1 x Hx). apply in0f in Hx. rewrite E by auto. assert (L := ln_le_sub1 x Hx). apply Rmult_le_pos; lra.
  - apply in0; lra. - apply in0; lra. - lra.
  - intros x Hx. assert (P := gh_pos 1 x ltac:(apply in0; lra)). rewrite E by lra. apply Rmult_lt_0_compat; [|auto].
    assert (L := ln_le_sub1 (x / 2) ltac:(lra)). rewrite ln_div' in L by lra. assert (ln 2 < 1) by apply ln2_lt1. lra.
Qed.
