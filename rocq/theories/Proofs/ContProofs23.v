(** * Maximum entropy of the normal; sampling the inverse normal; the folded normal *)
From Coq Require Import Reals Lra Lia Psatz List ZArith.
From Coquelicot Require Import Coquelicot.
From Verif.Num Require Import Scalar XReal.
From Verif.Model Require Import Rust Constraints Probability Params Consts Continuous2 Continuous3.
From Verif.Spec Require Import DistSpec GammaSpec ResSpec.
From Verif.Proofs Require Import XTac Calc Calc2 Gauss Gauss2 Improper GammaFun Subst Mellin Unique ContProofs8 ContProofs13 ContProofs14 ContProofs16 ContProofs20 ContProofs22.
Import ListNotations.
Open Scope R_scope.

(** a density on the half line never has the entropy of the normal with its variance *)
Lemma half_normal_mass (m s : R) : 0 < s -> exists q, q < 1 /\ is_RInt_gen (fun x => phi ((x - m) / s) / s) (above 0) (below p_infty) q.
Proof.
  intros Hs. exists (1 - Phi ((0 - m) / s)). split.
  - assert (P := Phi_mono ((0 - m) / s - 1) ((0 - m) / s) ltac:(lra)). assert (0 <= Phi ((0 - m) / s - 1)); [|lra].
    destruct (Rle_dec 0 (Phi ((0 - m) / s - 1))) as [H|H]; [auto|]. exfalso.
    assert (L := Phi_lim_m). set (c := Phi ((0 - m) / s - 1)) in *. assert (Hc : 0 < - c) by lra. specialize (L (fun y => Rabs (y - 0) < - c)).
    assert (LL : locally 0 (fun y => Rabs (y - 0) < - c)) by (exists (mkposreal _ Hc); intros y Hy; exact Hy). destruct (L LL) as [M HM].
    specialize (HM (Rmin M ((0 - m) / s - 1) - 1)). assert (Rmin M ((0 - m) / s - 1) <= M) by apply Rmin_l. assert (Rmin M ((0 - m) / s - 1) <= (0 - m) / s - 1) by apply Rmin_r.
    specialize (HM ltac:(lra)). assert (Q := Phi_mono (Rmin M ((0 - m) / s - 1) - 1) ((0 - m) / s - 1) ltac:(lra)). fold c in Q. cbv beta in HM.
    rewrite Rminus_0_r in HM. assert (G := Rle_abs (- Phi (Rmin M ((0 - m) / s - 1) - 1))). rewrite Rabs_Ropp in G. lra.
  - apply (is_RInt_gen_antiderivative 0 p_infty (fun x => Phi ((x - m) / s))); [exact I| | | |].
    + intros x _. apply (aff_comp m s Hs), Phi_derive.
    + intros x _. apply (aff_cont m s Hs (fun t => phi t / s)). eapply ex_derive_cont. apply dR_div; [lra|apply phi_derive|apply dR_c].
    + apply lim_above_cont; [|reflexivity]. eapply ex_derive_cont. apply (aff_comp m s Hs), Phi_derive.
    + apply (aff_p m s Hs), Phi_lim_p.
Qed.
Lemma max_entropy (pdf : xreal -> xreal) (f : R -> R) (m v : R) : (forall x, inside 0 p_infty x -> pdf (Fin x) = Fin (f x)) ->
  (forall x, inside 0 p_infty x -> 0 < f x) -> (forall x, inside 0 p_infty x -> continuous f x) -> (forall x, inside 0 p_infty x -> ex_derive f x) ->
  is_RInt_gen (rf pdf) (above 0) (below p_infty) 1 -> is_variance 0 p_infty pdf m v -> 0 < v ->
  ~ is_entropy 0 p_infty pdf (ln (2 * PI * exp 1 * v) / 2).
Proof.
  intros Hpdf Hp Hc Hd H1 [_ H2] Hv H. assert (P := PI_RGT_0). assert (Q := sqrt2PI_pos). set (s := sqrt v). assert (Hs : 0 < s) by (apply sqrt_lt_R0; auto). assert (Es : s * s = v) by (apply sqrt_sqrt; lra).
  destruct (half_normal_mass m s Hs) as (q & Hq & Hg). set (L := ln (sqrt (2 * PI) * s)).
  assert (EL : ln (2 * PI * exp 1 * v) / 2 = 1 / 2 + L).
  { unfold L. assert (EX : ln (sqrt (2 * PI) * s) + ln (sqrt (2 * PI) * s) = ln (2 * PI * v)).
    { rewrite <- ln_mult by pos. f_equal. replace (sqrt (2 * PI) * s * (sqrt (2 * PI) * s)) with (sqrt (2 * PI) * sqrt (2 * PI) * (s * s)) by ring. rewrite sqrt_sqrt, Es by lra. reflexivity. }
    replace (2 * PI * exp 1 * v) with (2 * PI * v * exp 1) by ring. rewrite ln_mult, ln_exp by pos. lra. }
  rewrite EL in H.
  assert (J := gen_lin 0 p_infty _ _ 1 1 _ _ H (gen_lin 0 p_infty _ _ (- (/ (2 * v))) (- L) _ _ H2 H1)). cbv beta in J.
  assert (G := gen_lin 0 p_infty _ _ 1 (-1) _ _ Hg H1). cbv beta in G.
  assert (Cr : forall x, inside 0 p_infty x -> continuous (rf pdf) x).
  { intros x Hx. apply (continuous_ext_loc _ f); [|now apply Hc]. assert (Hx0 := in0f x Hx). exists (mkposreal x Hx0). intros y Hy. change (Rabs (y - x) < x) in Hy. apply Rabs_def2 in Hy. unfold rf. rewrite Hpdf by (apply in0; lra). reflexivity. }
  assert (Clf : forall x, inside 0 p_infty x -> continuous (fun x => ln (rf pdf x)) x).
  { intros x Hx. apply (continuous_comp (rf pdf) ln); [now apply Cr|]. eapply ex_derive_cont. apply is_derive_ln. unfold rf. rewrite Hpdf by auto. now apply Hp. }
  assert (X : 1 * (1 / 2 + L) + 1 * (- / (2 * v) * v + - L * 1) <= 1 * q + -1 * 1).
  { refine (gen_le 0 p_infty _ _ _ _ (I : Rbar_lt 0 p_infty) _ _ _ J G).
    - intros x Hx. cbv beta.
      apply (continuous_plus (V := R_NormedModule) (fun x => 1 * - (rf pdf x * ln (rf pdf x))) (fun x => 1 * (- / (2 * v) * ((x - m) * (x - m) * rf pdf x) + - L * rf pdf x))).
      + apply (continuous_mult (K := R_AbsRing) (fun _ => 1) (fun x => - (rf pdf x * ln (rf pdf x)))); [apply continuous_const|].
        apply (continuous_opp (V := R_NormedModule) (fun x => rf pdf x * ln (rf pdf x))). apply (continuous_mult (K := R_AbsRing) (rf pdf) (fun x => ln (rf pdf x))); auto.
      + apply (continuous_mult (K := R_AbsRing) (fun _ => 1) (fun x => - / (2 * v) * ((x - m) * (x - m) * rf pdf x) + - L * rf pdf x)); [apply continuous_const|].
        apply (continuous_plus (V := R_NormedModule) (fun x => - / (2 * v) * ((x - m) * (x - m) * rf pdf x)) (fun x => - L * rf pdf x)).
        * apply (continuous_mult (K := R_AbsRing) (fun _ => - / (2 * v)) (fun x => (x - m) * (x - m) * rf pdf x)); [apply continuous_const|].
          apply (continuous_mult (K := R_AbsRing) (fun x => (x - m) * (x - m)) (rf pdf)); [eapply ex_derive_cont; auto_derive; [exact I|reflexivity]|auto].
        * apply (continuous_mult (K := R_AbsRing) (fun _ => - L) (rf pdf)); [apply continuous_const|auto].
    - intros x Hx. cbv beta. apply (continuous_plus (V := R_NormedModule) (fun x => 1 * (phi ((x - m) / s) / s)) (fun x => -1 * rf pdf x)).
      + apply (continuous_mult (K := R_AbsRing) (fun _ => 1) (fun x => phi ((x - m) / s) / s)); [apply continuous_const|]. apply (aff_cont m s Hs (fun t => phi t / s)). eapply ex_derive_cont. apply dR_div; [lra|apply phi_derive|apply dR_c].
      + apply (continuous_mult (K := R_AbsRing) (fun _ => -1) (rf pdf)); [apply continuous_const|auto].
    - intros x Hx. cbv beta. unfold rf. rewrite Hpdf by auto. cbn [val]. assert (F0 := Hp x Hx). set (g := phi ((x - m) / s) / s). assert (PG : 0 < g) by (unfold g; assert (PP := phi_pos ((x - m) / s)); pos).
      assert (EG : ln g = - ((x - m) * (x - m) / (2 * v)) - L).
      { unfold g, phi, L. replace (exp (- ((x - m) / s * ((x - m) / s) / 2)) / sqrt (2 * PI) / s) with (exp (- ((x - m) / s * ((x - m) / s) / 2)) * / (sqrt (2 * PI) * s)) by (field; split; lra).
        rewrite ln_mult, ln_exp, ln_Rinv by pos. rewrite <- Es. field. lra. }
      assert (LN : ln g - ln (f x) <= g / f x - 1). { rewrite <- ln_div' by auto. assert (0 < g / f x) by pos. assert (Z := exp_ineq1_le (ln (g / f x))). rewrite exp_ln in Z by auto. lra. }
      apply (Rmult_le_compat_l (f x)) in LN; [|lra]. replace (f x * (g / f x - 1)) with (g - f x) in LN by (field; lra). rewrite EG in LN.
      replace (1 * - (f x * ln (f x)) + 1 * (- / (2 * v) * ((x - m) * (x - m) * f x) + - L * f x)) with (f x * (- ((x - m) * (x - m) / (2 * v)) - L - ln (f x))) by (field; lra). lra. }
  replace (1 * (1 / 2 + L) + 1 * (- / (2 * v) * v + - L * 1)) with 0 in X by (field; lra). lra.
Qed.

Section InvNormal.
Import InvNormal.
Context (m l : R) (Hm : 0 < m) (Hl : 0 < l).
Notation d := (new_unchecked (Fin m) (Fin l)).
Lemma in_entropy : exists e, shannon_entropy d = Fin e /\ ~ is_entropy 0 p_infty (pdf d) e.
Proof.
  assert (P := PI_RGT_0). assert (V := in_var m l Hm Hl). assert (0 < exp 1) by apply exp_pos. assert (0 < PI * exp 1 * 2 * (m * m * m / l)) by pos.
  eexists; split. { unfold shannon_entropy, variance, PI_E_2, PI_E. cbn [pr mu lambda new_unchecked]. xs. reflexivity. }
  replace (PI * exp 1 * 2 * (m * m * m / l)) with (2 * PI * exp 1 * (m * m * m / l)) by ring.
  apply (max_entropy _ (in_u m l) m); auto.
  - intros. now apply in_pdf. - intros x Hx%in0f. now apply in_u_pos. - intros x Hx%in0f. now apply in_u_cont. - intros x Hx%in0f. eexists. now apply in_u_d.
  - now apply in_total. - now apply in_variance.
Qed.
(** ** sampling *)
Definition in_y (t : R) : R := l * ((t - m) * (t - m)) / (m * m * t).
Definition in_x (nu : R) : R := m + m * m * (nu * nu) / 2 / l - m / 2 / l * sqrt (4 * m * l * (nu * nu) + m * m * (nu * nu) * (nu * nu)).
(** the root of the quadratic computed by the code *)
Lemma in_root (t nu : R) : 0 < t -> nu * nu = in_y t -> in_x nu = Rmin t (m * m / t).
Proof.
  intros Ht E. unfold in_x. rewrite E.
  replace (4 * m * l * in_y t + m * m * in_y t * in_y t) with (Rsqr (l * (t * t - m * m) / (m * t))).
  2:{ unfold in_y, Rsqr. field. lra. }
  rewrite sqrt_Rsqr_abs. unfold in_y. assert (0 < m * t) by pos.
  assert (C : Rabs (l * (t * t - m * m) / (m * t)) = l * Rabs (t * t - m * m) / (m * t)). { unfold Rdiv. rewrite !Rabs_mult, Rabs_inv, (Rabs_pos_eq l), (Rabs_pos_eq (m * t)) by lra. reflexivity. } rewrite C.
  destruct (Rle_dec t m) as [H1|H1].
  - rewrite Rabs_left1 by nra. rewrite Rmin_left. + field. repeat split; lra. + apply (Rmult_le_reg_r t); [auto|]. replace (m * m / t * t) with (m * m) by (field; lra). nra.
  - rewrite Rabs_pos_eq by nra. rewrite Rmin_right. + field. repeat split; lra. + apply (Rmult_le_reg_r t); [auto|]. replace (m * m / t * t) with (m * m) by (field; lra). nra.
Qed.
Lemma in_sample (t nu z : R) : 0 < t -> t <> m -> nu * nu = in_y t ->
  (sample_of_draws d (Fin nu) (Fin z) = Fin t <-> (t < m /\ z < m / (m + t)) \/ (m < t /\ 1 - m / (m + t) <= z)).
Proof.
  intros Ht Hne E. assert (R0 := in_root t nu Ht E). assert (0 < m * m / t) by (assert (0 < m * m) by pos; pos).
  assert (P0 : 0 < in_x nu) by (rewrite R0; apply Rmin_pos; auto). assert (Y0 := Rle_0_sqr nu). unfold Rsqr in Y0.
  assert (0 <= 4 * m * l * (nu * nu) + m * m * (nu * nu) * (nu * nu)) by (generalize dependent (nu * nu); intros y; intros; apply Rplus_le_le_0_compat; repeat apply Rmult_le_pos; lra).
  assert (EV : sample_of_draws d (Fin nu) (Fin z) = if Rltb z (m / (m + in_x nu)) then Fin (in_x nu) else Fin (m * m / in_x nu)).
  { unfold sample_of_draws. cbn [pr mu lambda new_unchecked]. xs. fold (in_x nu). xs. destruct (Rltb z _); [reflexivity|]. xs. reflexivity. }
  rewrite EV, R0. destruct (Rlt_dec t m) as [H1|H1].
  - rewrite Rmin_left. 2:{ apply (Rmult_le_reg_r t); [auto|]. replace (m * m / t * t) with (m * m) by (field; lra). nra. }
    destruct (Rltb_spec z (m / (m + t))) as [C|C]; split; [intros _; left; auto|reflexivity| |].
    + intros Q. apply Fin_inj in Q. exfalso. apply (Rmult_eq_compat_r t) in Q. replace (m * m / t * t) with (m * m) in Q by (field; lra). nra.
    + intros [[_ Q]|[Q _]]; lra.
  - assert (H2 : m < t) by lra. rewrite Rmin_right. 2:{ apply (Rmult_le_reg_r t); [auto|]. replace (m * m / t * t) with (m * m) by (field; lra). nra. }
    replace (m / (m + m * m / t)) with (1 - m / (m + t)) by (field; repeat split; nra). replace (m * m / (m * m / t)) with t by (field; lra).
    destruct (Rltb_spec z (1 - m / (m + t))) as [C|C]; split; [| | |reflexivity].
    + intros Q. apply Fin_inj in Q. exfalso. apply (Rmult_eq_compat_r t) in Q. replace (m * m / t * t) with (m * m) in Q by (field; lra). nra.
    + intros [[Q _]|[_ Q]]; lra.
    + intros _. right. split; auto.
Qed.
Lemma in_sample_ex (nu z : R) : exists t, 0 < t /\ nu * nu = in_y t /\ sample_of_draws d (Fin nu) (Fin z) = Fin t.
Proof.
  assert (Y0 := Rle_0_sqr nu). unfold Rsqr in Y0. set (y := nu * nu) in *.
  set (D := 4 * m * l * y + m * m * y * y). assert (HD : 0 <= D) by (unfold D; clearbody y; apply Rplus_le_le_0_compat; repeat apply Rmult_le_pos; lra). assert (SD := sqrt_sqrt D HD). assert (S0 := sqrt_pos D).
  assert (Ex : in_x nu = m + m * m * y / 2 / l - m / 2 / l * sqrt D) by reflexivity.
  (* the product of the roots is m^2 *)
  set (x2 := m + m * m * y / 2 / l + m / 2 / l * sqrt D).
  assert (0 < m / 2 / l) by (repeat apply Rdiv_lt_0_compat; lra).
  assert (P2 : 0 < x2). { unfold x2. assert (0 <= m * m * y / 2 / l) by (replace (m * m * y / 2 / l) with (m / 2 / l * (m * y)) by (field; lra); apply Rmult_le_pos; [lra|apply Rmult_le_pos; lra]). assert (0 <= m / 2 / l * sqrt D) by (apply Rmult_le_pos; lra). lra. }
  assert (PR : in_x nu * x2 = m * m). { rewrite Ex. unfold x2. replace ((m + m * m * y / 2 / l - m / 2 / l * sqrt D) * (m + m * m * y / 2 / l + m / 2 / l * sqrt D)) with ((m + m * m * y / 2 / l) * (m + m * m * y / 2 / l) - m * m / (4 * l * l) * (sqrt D * sqrt D)) by (field; lra). rewrite SD. unfold D. field. lra. }
  assert (P1 : 0 < in_x nu). { assert (0 < m * m) by pos. destruct (Rle_dec (in_x nu) 0); [nra|lra]. }
  assert (SU : in_x nu + x2 = 2 * m + m * m * y / l) by (rewrite Ex; unfold x2; field; lra).
  assert (RT : forall t, 0 < t -> t * t - (in_x nu + x2) * t + in_x nu * x2 = 0 -> y = in_y t).
  { intros t Ht Q. rewrite SU, PR in Q. unfold in_y. apply (Rmult_eq_reg_r (m * m * t / l)). 2:{ apply Rgt_not_eq. assert (0 < m * m * t / l) by (assert (0 < m * m * t) by pos; pos). lra. }
    replace (l * ((t - m) * (t - m)) / (m * m * t) * (m * m * t / l)) with ((t - m) * (t - m)) by (field; repeat split; lra). replace (y * (m * m * t / l)) with (m * m * y / l * t) by (field; lra). lra. }
  assert (EV : sample_of_draws d (Fin nu) (Fin z) = if Rltb z (m / (m + in_x nu)) then Fin (in_x nu) else Fin (m * m / in_x nu)).
  { unfold sample_of_draws. cbn [pr mu lambda new_unchecked]. unfold D in HD. unfold y in HD. xs. fold (in_x nu). xs. destruct (Rltb z _); [reflexivity|]. xs. reflexivity. }
  rewrite EV. destruct (Rltb z _).
  - exists (in_x nu). split; [auto|]. split; [apply RT; auto; ring|reflexivity].
  - exists x2. split; [auto|]. split; [apply RT; auto; ring|]. f_equal. rewrite <- PR. field. lra.
Qed.
(** change of variables: density of nu^2 (chi squared, one degree), times the
    derivative, times the chance that this root is returned *)
Lemma in_sample_density (t : R) : 0 < t -> t <> m -> exists dy, is_derive in_y t dy /\ 0 < in_y t /\
  pdf d (Fin t) = Fin (phi (sqrt (in_y t)) / sqrt (in_y t) * Rabs dy * (m / (m + t))).
Proof.
  intros Ht Hne. assert (0 < m * m * t) by pos. assert (NZ : 0 < (t - m) * (t - m)) by nra.
  exists (l * (t - m) * (t + m) / (m * m * (t * t))). split. { unfold in_y. auto_derive; [lra|]. field. lra. }
  assert (Y : 0 < in_y t) by (unfold in_y; apply Rdiv_lt_0_compat; [apply Rmult_lt_0_compat|]; auto). split; [auto|]. rewrite in_pdf by (auto; now apply in0). f_equal.
  assert (S := sqrt_lt_R0 t Ht). assert (E := sqrt_sqrt t ltac:(lra)). assert (SL : 0 < sqrt l) by pos. assert (El := sqrt_sqrt l ltac:(lra)).
  assert (AY : in_A m l t * in_A m l t = in_y t) by (now apply in_AA). 
  assert (SY : sqrt (in_y t) = sqrt l * Rabs (t - m) / (m * sqrt t)).
  { apply sqrt_lem_1; [lra| |]. - assert (0 <= Rabs (t - m)) by apply Rabs_pos. assert (0 < m * sqrt t) by pos. apply Rmult_le_pos; [apply Rmult_le_pos; lra|left; pos].
    - replace (sqrt l * Rabs (t - m) / (m * sqrt t) * (sqrt l * Rabs (t - m) / (m * sqrt t))) with ((sqrt l * sqrt l) * (Rabs (t - m) * Rabs (t - m)) / (m * m * (sqrt t * sqrt t))) by (field; lra).
      rewrite El, E. rewrite <- Rabs_mult, Rabs_pos_eq by lra. reflexivity. }
  assert (PH : phi (in_A m l t) = phi (sqrt (in_y t))). { unfold phi. rewrite AY, sqrt_sqrt by lra. reflexivity. }
  unfold in_u. rewrite PH. set (ph := phi (sqrt (in_y t))). rewrite SY.
  assert (AB : Rabs (l * (t - m) * (t + m) / (m * m * (t * t))) = l * Rabs (t - m) * (t + m) / (m * m * (t * t))).
  { assert (0 < m * m * (t * t)) by pos. unfold Rdiv. rewrite !Rabs_mult, Rabs_inv, (Rabs_pos_eq l), (Rabs_pos_eq (t + m)), (Rabs_pos_eq (m * m * (t * t))) by lra. reflexivity. }
  rewrite AB. assert (0 < Rabs (t - m)) by (apply Rabs_pos_lt; lra). set (r := Rabs (t - m)) in *. set (s := sqrt t) in *. set (sl := sqrt l) in *. rewrite <- E. rewrite <- El. field. repeat split; try lra.
Qed.
End InvNormal.
