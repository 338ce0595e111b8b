(** * Student t *)
From Coq Require Import Reals Lra Lia Psatz List ZArith.
From Coquelicot Require Import Coquelicot.
From Verif.Num Require Import XReal.
From Verif.Model Require Import Rust Constraints Probability Params Consts Continuous3.
From Verif.Spec Require Import DistSpec GammaSpec ResSpec.
From Verif.Proofs Require Import XTac Calc Calc2 Gauss Gauss2 Improper GammaFun Subst Mellin HeavyTail Unique ContProofs11 ContProofs12 ContProofs13 ContProofs14 ContProofs15 ContProofs16.
Import ListNotations.
Open Scope R_scope.

(** ** Gamma(1/2) = sqrt pi *)
Lemma Gam_half : Gam (1 / 2) = sqrt PI.
Proof.
  assert (A := gam_sq 1 ltac:(lra)).
  assert (B : is_RInt_gen phi (above 0) (below p_infty) (1 - 1 / 2)).
  { apply (is_RInt_gen_antiderivative 0 p_infty Phi); [exact I| | | |].
    - intros x _. apply Phi_derive. - intros x _. apply phi_cont.
    - rewrite <- Phi_0. apply above_cont. eexists. apply Phi_derive.
    - exact Phi_lim_p. }
  apply (gen_scal 0 p_infty _ (sqrt (2 * PI))) in B.
  assert (C : is_RInt_gen (fun x => Rpower x (1 - 1) * exp (- (x * x / 2))) (above 0) (below p_infty) (sqrt (2 * PI) * (1 - 1 / 2))).
  { revert B. apply (is_RInt_gen_inside 0 p_infty); [exact I|]. intros x Hx%in0f. rewrite phi_exp. replace (1 - 1) with 0 by ring. rewrite Rpower_O by auto. ring. }
  assert (E := gen_unique 0 p_infty _ _ _ A C). rewrite Rpower_minus1 in E by lra. replace (Rpower 2 (1 / 2)) with (sqrt 2) in E by (rewrite <- Rpower_sqrt by lra; f_equal; field).
  rewrite sqrt_2PI in E. assert (S2 := sqrt2_pos). apply (Rmult_eq_reg_l (sqrt 2 / 2)); [|apply Rgt_not_eq; lra]. rewrite E. field.
Qed.

(** ** integrals over the line of even and odd functions *)
Section Whole.
Context (f : R -> R) (s l : R) (Hc : forall x, continuous f x) (Hp : forall x, 0 < x -> 0 <= f x) (Hs : forall x, f (- x) = s * f x).
Context (Hl : is_RInt_gen f (above 0) (below p_infty) l).
Definition F0 (x : R) : R := RInt f 0 x.
Lemma F0_int a b : ex_RInt f a b. Proof. apply (ex_RInt_continuous (V := R_CompleteNormedModule)). intros; apply Hc. Qed.
Lemma F0_derive x : is_derive F0 x (f x).
Proof. unfold F0. apply is_derive_RInt with 0; [|apply Hc]. apply filter_forall. intros y. apply (RInt_correct (V := R_CompleteNormedModule)), F0_int. Qed.
Lemma F0_0 : F0 0 = 0. Proof. unfold F0. rewrite RInt_point. reflexivity. Qed.
Lemma F0_p : filterlim F0 (below p_infty) (locally l).
Proof.
  assert (C1 : forall x, inside 0 p_infty x -> continuous f x) by (intros; apply Hc). assert (P1 : forall x, inside 0 p_infty x -> 0 <= f x) by (intros x Hx%in0f; now apply Hp).
  destruct (imp_split 0 p_infty f I C1 P1 l 1 Hl ltac:(apply in0; lra)) as (la & lb & A & B & E).
  assert (EF : forall y, F0 y = F0 1 + iF f 1 y).
  { intros y. unfold F0, iF. symmetry. apply (RInt_Chasles (V := R_CompleteNormedModule)); apply F0_int. }
  assert (LA : la = - F0 1).
  { assert (X : filterlim (fun x => F0 x - F0 1) (above 0) (locally (F0 0 - F0 1))) by (apply fl_minus; [apply above_cont; eexists; apply F0_derive|apply fl_const]).
    assert (Y : filterlim (fun x => F0 x - F0 1) (above 0) (locally la)). { eapply filterlim_ext; [|exact A]. intros x. cbv beta. rewrite (EF x). ring. }
    assert (U := filterlim_locally_unique (F := above 0) _ _ _ X Y). change (@eq R la (- F0 1)). rewrite <- U, F0_0. ring. }
  eapply fl_ext; [exact EF|]. eapply fl_eq; [apply fl_plus; [apply fl_const|exact B]|]. rewrite E, LA. ring.
Qed.
Lemma F0_sym x : F0 (- x) = - s * F0 x.
Proof.
  assert (C : forall x y, inside m_infty p_infty x -> inside m_infty p_infty y -> (fun x => F0 (- x) + s * F0 x) x = (fun x => F0 (- x) + s * F0 x) y).
  { apply (const_inside m_infty p_infty). intros y _. assert (D1 : is_derive (fun x => F0 (- x)) y (- 1 * f (- y))).
    { apply (is_derive_comp (K := R_AbsRing) (V := R_NormedModule) F0 Ropp y (f (- y)) (- 1)); [apply F0_derive|]. dder; lra. }
    assert (D2 := dR_plus _ _ _ _ _ D1 (dR_mult (fun _ => s) F0 y _ _ (dR_c s y) (F0_derive y))). revert D2. apply is_derive_ext_eq. rewrite Hs. ring. }
  specialize (C x 0 (conj I I) (conj I I)). cbv beta in C. rewrite Ropp_0, F0_0 in C. lra.
Qed.
Lemma F0_m : filterlim F0 (above m_infty) (locally (- s * l)).
Proof.
  eapply fl_ext; [intros x; rewrite <- (Ropp_involutive x) at 1; apply F0_sym|]. apply fl_mult; [apply fl_const|].
  apply (filterlim_comp _ _ _ Ropp F0 _ (Rbar_locally p_infty)); [apply opp_m|exact F0_p].
Qed.
Lemma whole : is_RInt_gen f (above m_infty) (below p_infty) (l + s * l).
Proof.
  replace (l + s * l) with (l - - s * l) by ring. apply (is_RInt_gen_antiderivative m_infty p_infty F0); [exact I|intros; apply F0_derive|intros; apply Hc|exact F0_m|exact F0_p].
Qed.
End Whole.

Lemma sqr_above : filterlim (fun x => x * x) (above 0) (above 0).
Proof.
  apply filterlim_ext with (fun x => 2 * (x * x / 2)); [intros; field|]. apply (filterlim_comp _ _ _ (fun x => x * x / 2) (fun y => 2 * y) _ (above 0)); [apply sq_above|apply scale_above; lra].
Qed.
Lemma sqr_below : filterlim (fun x => x * x) (below p_infty) (below p_infty).
Proof.
  apply filterlim_ext with (fun x => 2 * (x * x / 2)); [intros; field|]. apply (filterlim_comp _ _ _ (fun x => x * x / 2) (fun y => 2 * y) _ (below p_infty)); [apply sq_below|apply scale_below; lra].
Qed.
Lemma sqr_subst (h : R -> R) l : (forall y, inside 0 p_infty y -> continuous h y) -> is_RInt_gen h (above 0) (below p_infty) l ->
  is_RInt_gen (fun x => 2 * x * h (x * x)) (above 0) (below p_infty) l.
Proof.
  intros Hc Hl. apply (subst_up 0 p_infty 0 p_infty h (fun x => x * x) (fun x => 2 * x)); [exact I|exact Hl|exact sqr_above|exact sqr_below|].
  intros x Hx%in0f. split; [dder; ring|]. split; [eapply ex_derive_cont; dder; reflexivity|]. apply Hc, in0. pos.
Qed.

Section StudentT.
Import StudentT.
Context {SP : Special xreal} (Hg : gamma_exact SP).
Context (n : R) (Hn : 0 < n).
Notation d := (new_unchecked (Fin n)).
Notation cd := (fun x => unwrap (cdf d x)).
Notation b := ((n + 1) / 2).
Notation B := (Bet (1 / 2) (n / 2)).
Definition st_u (x : R) : R := Rpower n (n / 2) / B * Rpower (n + x * x) (- b).
Lemma st_B : 0 < B. Proof. apply Bet_pos; lra. Qed.
Lemma st_Bg : B = sqrt PI * Gam (n / 2) / Gam b.
Proof.
  rewrite <- Gam_half. apply (Beta_unique (1 / 2) (n / 2)); [apply Bet_spec; lra|]. apply (is_Beta_Gamma (1 / 2) (n / 2)); [lra|lra|apply Gam_spec; lra|apply Gam_spec; lra|].
  replace (1 / 2 + n / 2) with b by field. apply Gam_spec; lra.
Qed.
Lemma st_x x : 0 < n + x * x. Proof. assert (G := Rle_0_sqr x). unfold Rsqr in G. lra. Qed.
Lemma st_pow x : Rpower (1 + x * x / n) (- b) = Rpower n b * Rpower (n + x * x) (- b).
Proof.
  assert (P := st_x x). replace (1 + x * x / n) with ((n + x * x) / n) by (field; lra). rewrite Rpower_div_base by auto. rewrite (Rpower_Ropp n). field. pos.
Qed.
Lemma st_norm : Gam b / sqrt (n * PI) / Gam (n / 2) * Rpower n b = Rpower n (n / 2) / B.
Proof.
  assert (G1 := Gam_pos b ltac:(lra)). assert (G2 := Gam_pos (n / 2) ltac:(lra)). assert (PS := sqrtPI_pos). assert (0 < PI) by pos. rewrite st_Bg, sqrt_mult by lra.
  replace b with (n / 2 + / 2) at 2 by field. rewrite Rpower_plus, Rpower_sqrt by auto. assert (0 < sqrt n) by pos. field. repeat split; lra.
Qed.
Lemma st_pdf x : pdf d (Fin x) = Fin (st_u x).
Proof.
  assert (G1 := Gam_pos b ltac:(lra)). assert (G2 := Gam_pos (n / 2) ltac:(lra)). assert (0 < n * PI) by pos. assert (0 < sqrt (n * PI)) by pos.
  assert (P := st_x x). assert (0 < 1 + x * x / n) by (replace (1 + x * x / n) with ((n + x * x) / n) by (field; lra); pos).
  unfold pdf. cbn [pr nu new_unchecked]. xs. rewrite !sfg by (auto; lra). xs. f_equal. rewrite st_pow. unfold st_u. rewrite <- st_norm. ring.
Qed.
Lemma st_u_cont x : continuous st_u x.
Proof. assert (P := st_x x). unfold st_u. eapply ex_derive_cont. dder; try lra; reflexivity. Qed.
Lemma st_u_pos x : 0 < st_u x. Proof. assert (P := st_x x). assert (G := st_B). unfold st_u. pos. Qed.
Lemma st_u_even x : st_u (- x) = st_u x. Proof. unfold st_u. do 2 f_equal. ring. Qed.
Lemma st_od x : 0 < x -> 2 * x * od_u n (1 / 2) (n / 2) (x * x) = 2 * st_u x.
Proof.
  intros Hx. unfold od_u, st_u. rewrite <- Rpower_mult_distr by auto. rewrite <- Rpower_plus. replace (1 / 2 - 1 + (1 / 2 - 1)) with (- (1)) by field. rewrite Rpower_Ropp, Rpower_1 by auto.
  replace (- (1 / 2) - n / 2) with (- b) by field. field. split; [apply Rgt_not_eq, st_B|lra].
Qed.
Lemma st_half (g : R -> R) l : (forall y, inside 0 p_infty y -> continuous g y) ->
  is_RInt_gen (fun y => g y * od_u n (1 / 2) (n / 2) y) (above 0) (below p_infty) l -> is_RInt_gen (fun x => g (x * x) * st_u x) (above 0) (below p_infty) (l / 2).
Proof.
  intros Hc Hl. assert (A := sqr_subst (fun y => g y * od_u n (1 / 2) (n / 2) y) l ltac:(intros y Hy; apply (continuous_mult (K := R_AbsRing) g (od_u n (1 / 2) (n / 2))); [now apply Hc|now apply od_u_cont]) Hl).
  apply (gen_scal 0 p_infty _ (/ 2)) in A. apply (gen_eq 0 p_infty _ _ (l / 2)) in A; [|field]. revert A. apply (is_RInt_gen_inside 0 p_infty); [exact I|]. intros x Hx%in0f.
  assert (E := st_od x Hx). cbv beta. match goal with |- @eq _ ?a ?b => change (@eq R a b) end.
  apply (Rmult_eq_reg_l 2); [|lra]. replace (2 * (g (x * x) * st_u x)) with (g (x * x) * (2 * st_u x)) by ring. rewrite <- E. field.
Qed.
(** odd moments of the half line exist *)
Lemma st_half_any (k : nat) : INR k < n -> exists l, is_RInt_gen (fun x => x ^ k * st_u x) (above 0) (below p_infty) l.
Proof.
  intros Hk. assert (P0 := pos_INR k). set (p := (INR k + 1) / 2). set (q := (n - INR k) / 2).
  assert (A := bet_odds n p q Hn ltac:(unfold p; lra) ltac:(unfold q; lra)).
  apply sqr_subst in A. 2:{ intros y Hy%in0f. eapply ex_derive_cont. dder; try lra; reflexivity. }
  apply (gen_scal 0 p_infty _ (Rpower n (n / 2) / B / 2)) in A. match type of A with is_RInt_gen _ _ _ ?v => exists v end. revert A. apply (is_RInt_gen_inside 0 p_infty); [exact I|]. intros x Hx%in0f.
  unfold st_u. rewrite <- Rpower_mult_distr by auto. rewrite <- Rpower_plus. replace (- p - q) with (- b) by (unfold p, q; field).
  replace (p - 1 + (p - 1)) with (INR k + - (1)) by (unfold p; field). rewrite (Rpower_plus (INR k) (- (1)) x), (Rpower_Ropp x 1), Rpower_1, Rpower_pow by auto.
  assert (G := st_B). match goal with |- @eq _ ?a ?b => change (@eq R a b) end. field. lra.
Qed.
Definition stM (k : nat) : R := match k with 0%nat => 1 | 1%nat => 0 | 2%nat => n / (n - 2) | 3%nat => 0 | _ => 3 * (n * n) / ((n - 2) * (n - 4)) end.
Lemma st_od_raw k : (k <= 4)%nat -> INR k < n / 2 -> is_RInt_gen (fun y => y ^ k * od_u n (1 / 2) (n / 2) y) (above 0) (below p_infty) (odM n (1 / 2) (n / 2) k).
Proof.
  intros Hk Hl. assert (A := od_raw n (1 / 2) (n / 2) Hn ltac:(lra) ltac:(lra) (fun x => Fin (od_u n (1 / 2) (n / 2) (val x))) ltac:(reflexivity) k Hk Hl). exact A.
Qed.
Lemma st_raw k : (k <= 4)%nat -> INR k < n -> is_expectation m_infty p_infty (pdf d) (fun x => x ^ k) (stM k).
Proof.
  intros Hk Hl.
  assert (C : forall x, continuous (fun x => x ^ k * st_u x) x). { intros x. apply (continuous_mult (K := R_AbsRing) (fun x => x ^ k) st_u); [|apply st_u_cont]. eapply ex_derive_cont. auto_derive; [exact I|reflexivity]. }
  assert (P : forall x, 0 < x -> 0 <= x ^ k * st_u x). { intros x Hx. assert (U := st_u_pos x). assert (0 < x ^ k) by (apply pow_lt; auto). left. pos. }
  assert (E : forall v, is_RInt_gen (fun x => x ^ k * st_u x) (above m_infty) (below p_infty) v -> is_expectation m_infty p_infty (pdf d) (fun x => x ^ k) v).
  { intros v. unfold is_expectation. apply (gen_ext m_infty p_infty). intros x. unfold rf. now rewrite st_pdf. }
  apply E. clear E.
  assert (Odd : (exists j, k = 2 * j + 1)%nat -> stM k = 0 -> is_RInt_gen (fun x => x ^ k * st_u x) (above m_infty) (below p_infty) (stM k)).
  { intros [j Ej] ->. destruct (st_half_any k Hl) as [l L]. assert (W := whole (fun x => x ^ k * st_u x) (-1) l C P ltac:(intros x; cbv beta; rewrite st_u_even, Ej, !pow_add, !pow_mult; cbn [pow]; replace (- x * (- x * 1)) with (x * (x * 1)) by ring; ring) L).
    eapply (gen_eq m_infty p_infty); [exact W|ring]. }
  assert (Even : forall j, (k = 2 * j)%nat -> (j <= 4)%nat -> stM k = odM n (1 / 2) (n / 2) j -> is_RInt_gen (fun x => x ^ k * st_u x) (above m_infty) (below p_infty) (stM k)).
  { intros j Ej Hj ->. assert (INR j < n / 2). { rewrite Ej, mult_INR in Hl. cbn [INR] in Hl. lra. }
    assert (L := st_half (fun y => y ^ j) _ ltac:(intros y _; eapply ex_derive_cont; auto_derive; [exact I|reflexivity]) (st_od_raw j Hj H)).
    assert (L' : is_RInt_gen (fun x => x ^ k * st_u x) (above 0) (below p_infty) (odM n (1 / 2) (n / 2) j / 2)).
    { revert L. apply (gen_ext 0 p_infty). intros x. rewrite Ej, pow_mult. cbn [pow]. now rewrite Rmult_1_r. }
    assert (W := whole (fun x => x ^ k * st_u x) 1 _ C P ltac:(intros x; cbv beta; rewrite st_u_even, Ej, !pow_mult; cbn [pow]; replace (- x * (- x * 1)) with (x * (x * 1)) by ring; ring) L').
    eapply (gen_eq m_infty p_infty); [exact W|field]. }
  destruct k as [|[|[|[|[|k]]]]]; [..|lia].
  - apply (Even 0%nat); auto; lia. - apply Odd; [exists 0%nat; lia|reflexivity]. - apply (Even 1%nat); [lia|lia|]. cbn in *. field. lra.
  - apply Odd; [exists 1%nat; lia|reflexivity]. - apply (Even 2%nat); [lia|lia|]. cbn in *. field. lra.
Qed.
Ltac raws := try (apply st_raw; [lia|cbn; lra]); try reflexivity.
Lemma st_total : is_RInt_gen (rf (pdf d)) (above m_infty) (below p_infty) 1.
Proof. assert (A := st_raw 0 ltac:(lia) ltac:(cbn; lra)). unfold is_expectation in A. cbn [stM] in A. revert A. apply (gen_ext m_infty p_infty). intros x. cbn; ring. Qed.
Lemma st_tail x : 1 <= x -> Rpower n (n / 2) / B * Rpower (n + 1) (- b) * Rpower x (- n - 1) <= st_u x.
Proof.
  intros Hx. assert (G := st_B). unfold st_u. rewrite Rmult_assoc. apply Rmult_le_compat_l; [left; pos|].
  replace (- n - 1) with (- b + - b) by field. assert (XX : 0 < x * x) by (apply Rmult_lt_0_compat; lra). rewrite Rpower_plus, Rpower_mult_distr by lra. rewrite Rpower_mult_distr by lra.
  rewrite !Rpower_Ropp. assert (P := st_x x). apply Rinv_le_contravar; [pos|]. apply Rle_Rpower_l; [lra|]. split; [auto|].
  assert (1 <= x * x) by nra. nra.
Qed.
Lemma st_no_central k m l : n <= INR k -> ~ is_expectation m_infty p_infty (pdf d) (fun x => (x - m) ^ k) l.
Proof.
  intros Hk H. assert (G := st_B). apply (heavy_tail_lo m_infty st_u 1 (Rpower n (n / 2) / B * Rpower (n + 1) (- b)) n m l k (conj I I)); [intros; apply st_u_cont|lra|pos|exact st_tail|auto|].
  revert H. unfold is_expectation. apply (gen_ext m_infty p_infty). intros x. unfold rf. now rewrite st_pdf.
Qed.
Lemma st_no_mean m : n <= 1 -> ~ is_mean m_infty p_infty (pdf d) m.
Proof.
  intros Hk H. apply (st_no_central 1 0 m Hk). revert H. unfold is_mean, is_expectation. apply (gen_ext m_infty p_infty). intros x. cbn [pow]. ring.
Qed.
Lemma st_no_variance m v : n <= 2 -> ~ is_variance m_infty p_infty (pdf d) m v.
Proof.
  intros Hk [_ H]. apply (st_no_central 2 m v ltac:(cbn; lra)). revert H. unfold is_expectation. apply (gen_ext m_infty p_infty). intros x. cbn [pow]. ring.
Qed.
Lemma st_no_skewness k : n <= 3 -> ~ is_skewness m_infty p_infty (pdf d) k.
Proof. intros Hk (m & v & _ & _ & H). now apply (st_no_central 3 m _ ltac:(cbn; lra)) in H. Qed.
Lemma st_no_kurtosis k : n <= 4 -> ~ is_kurtosis m_infty p_infty (pdf d) k.
Proof. intros Hk (m & v & _ & _ & H). now apply (st_no_central 4 m _ ltac:(cbn; lra)) in H. Qed.
Lemma st_mean : returned_iff_exists (mean d) (is_mean m_infty p_infty (pdf d)).
Proof.
  unfold mean; cbn [pr nu new_unchecked]. xs. destruct (Rleb_spec n 1) as [H|H].
  - intros [m M]. revert M. now apply st_no_mean.
  - eexists; split; [reflexivity|]. apply (mean_raw _ _ _ stM). raws.
Qed.
Lemma st_variance : returned_iff_exists (variance d) (fun v => exists m, is_variance m_infty p_infty (pdf d) m v).
Proof.
  unfold variance; cbn [pr nu new_unchecked]. xs. destruct (Rleb_spec n 1) as [H|H]; [|destruct (Rleb_spec n 2) as [H'|H']].
  1,2: intros (v & m & M); revert M; apply st_no_variance; lra.
  cbn [returned_iff_exists]. xs. eexists; split; [reflexivity|]. exists 0. apply (variance_raw _ _ _ stM); raws. cbn. ring.
Qed.
Lemma st_var_pos : 2 < n -> 0 < n / (n - 2). Proof. intros. apply Rdiv_lt_0_compat; lra. Qed.
Lemma st_skewness : returned_iff_exists (skewness d) (is_skewness m_infty p_infty (pdf d)).
Proof.
  unfold skewness; cbn [pr nu new_unchecked]. xs. destruct (Rleb_spec n 3) as [H|H].
  - intros [m M]. revert M. now apply st_no_skewness.
  - eexists; split; [reflexivity|]. apply (skewness_raw _ _ _ stM) with (v := n / (n - 2)); raws; [cbn; ring|apply st_var_pos; lra|]. cbn. ring.
Qed.
Lemma st_kurtosis : returned_iff_exists (excess_kurtosis d) (fun e => is_kurtosis m_infty p_infty (pdf d) (3 + e)).
Proof.
  unfold excess_kurtosis; cbn [pr nu new_unchecked]. xs. destruct (Rleb_spec n 2) as [H|H]; [|destruct (Rleb_spec n 4) as [H'|H']].
  1,2: intros (m & M); revert M; apply st_no_kurtosis; lra.
  cbn [returned_iff_exists]. xs. eexists; split; [reflexivity|]. apply (kurtosis_raw _ _ _ stM) with (v := n / (n - 2)); raws; [cbn; ring|apply st_var_pos; lra|]. cbn. field. lra.
Qed.
Lemma st_mode : is_mode m_infty p_infty (pdf d) 0.
Proof.
  eexists; split; [apply st_pdf|]. intros x _. eexists; split; [apply st_pdf|]. assert (G := st_B). unfold st_u. apply Rmult_le_compat_l; [left; pos|].
  rewrite !Rpower_Ropp. assert (P := st_x x). assert (Q := st_x 0). apply Rinv_le_contravar; [pos|]. apply Rle_Rpower_l; [lra|]. assert (S := Rle_0_sqr x). unfold Rsqr in S. split; lra.
Qed.
End StudentT.
