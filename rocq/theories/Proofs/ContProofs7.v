(** * Laplace *)
From Coq Require Import Reals Lra Lia Psatz List.
From Coquelicot Require Import Coquelicot.
From Verif.Num Require Import XReal.
From Verif.Model Require Import Rust Constraints Probability Params Consts Continuous2.
From Verif.Spec Require Import DistSpec ResSpec.
From Verif.Proofs Require Import Gauss Calc2 XTac Calc ContProofs5 ContProofs6.
Import ListNotations.
Open Scope R_scope.

Section Laplace.
Import Laplace.
Context (m b0 : R) (Hb : 0 < b0).
Notation d := (new_unchecked (Fin m) (Fin b0)).
Notation lo := m_infty. Notation hi := p_infty.
Notation z x := ((x - m) / b0).
(** the density (what the code calls [cdf]) and the distribution function (what it calls [pdf]) *)
Notation dens := (fun x => unwrap (cdf d x)).
Notation dist := (fun x => got (pdf d x)).
Definition lg (x : R) : R := glue m (fun x => exp (z x) / 2 / b0) (fun x => exp (- z x) / 2 / b0) x.
Definition lG (x : R) : R := glue m (fun x => exp (z x) / 2) (fun x => 1 - exp (- z x) / 2) x.
Lemma z_m : z m = 0. Proof. unfold Rminus; rewrite Rplus_opp_r. field. lra. Qed.
Lemma la_dens x : dens (Fin x) = Fin (lg x).
Proof.
  unfold cdf; cbn [pr mu b new_unchecked unwrap]. xs. f_equal.
  unfold lg, glue. destruct (Rle_dec x m) as [H|H].
  - rewrite (Rabs_left1 (x - m)) by lra. rewrite Rabs_pos_eq by (apply Rdiv_le_0_compat; lra). do 3 f_equal. field; lra.
  - rewrite (Rabs_pos_eq (x - m)) by lra. rewrite Rabs_pos_eq by (apply Rdiv_le_0_compat; lra). reflexivity.
Qed.
Lemma la_pdf x : pdf d (Fin x) = Ret (Fin (lG x)).
Proof.
  unfold pdf; cbn [pr mu b new_unchecked]. cbv zeta. xs. unfold lG, glue. destruct (Rle_dec x m) as [H|H].
  - destruct (Rltb_spec x m); [reflexivity|]. rewrite Reqb_true by lra. reflexivity.
  - rewrite Rltb_false, Reqb_false by lra. cbn [orb]. rewrite Rltb_true by lra. do 4 f_equal. f_equal. f_equal. field; lra.
Qed.
Lemma la_dist x : dist (Fin x) = Fin (lG x).
Proof. cbv beta. now rewrite la_pdf. Qed.
Lemma la_lim_p l : filterlim (fun x => peval l (z x) * exp (- z x)) (Rbar_locally p_infty) (locally 0).
Proof.
  generalize (lim_peval_exp l 1 Rlt_0_1). intros H.
  apply (filterlim_comp _ _ _ (fun x => z x) (fun y => peval l y * exp (- y)) _ (Rbar_locally p_infty)); [now apply affine_p|].
  eapply filterlim_ext; [|exact H]. intros; cbv beta. now rewrite Rmult_1_l.
Qed.
Lemma la_lim_m l : filterlim (fun x => peval l (- z x) * exp (z x)) (Rbar_locally m_infty) (locally 0).
Proof.
  generalize (lim_peval_exp l 1 Rlt_0_1). intros H.
  apply filterlim_ext with (fun x => peval l (- z x) * exp (- - z x)); [intros; now rewrite Ropp_involutive|].
  apply (filterlim_comp _ _ _ (fun x => - z x) (fun y => peval l y * exp (- y)) _ (Rbar_locally p_infty)).
  - apply (filterlim_comp _ _ _ (fun x => z x) Ropp _ (Rbar_locally m_infty)); [now apply affine_m|apply opp_m].
  - eapply filterlim_ext; [|exact H]. intros; cbv beta. now rewrite Rmult_1_l.
Qed.
Lemma z_derive x : is_derive (fun x => z x) x (/ b0).
Proof. dder; try lra; field; lra. Qed.
Lemma z_comp (f : R -> R) x l : is_derive f (z x) l -> is_derive (fun x => f (z x)) x (l / b0).
Proof. intros H. generalize (is_derive_comp f (fun x => z x) x _ _ H (z_derive x)). apply is_derive_ext_eq. change (scal (/ b0) l) with (/ b0 * l). match goal with |- @eq _ ?a ?b => change (@eq R a b) end. field; lra. Qed.
Lemma la_int (w1 w2 : R -> R) l1 l2 K :
  w1 0 = w2 0 -> peval l1 0 = K + peval l2 0 ->
  (forall t, ex_derive w1 t) -> (forall t, ex_derive w2 t) ->
  (forall t, is_derive (fun t => peval l1 (- t) * exp t) t (w1 t * (exp t / 2))) ->
  (forall t, is_derive (fun t => peval l2 t * exp (- t)) t (w2 t * (exp (- t) / 2))) ->
  is_RInt_gen (glue m (fun x => w1 (z x) * (exp (z x) / 2 / b0)) (fun x => w2 (z x) * (exp (- z x) / 2 / b0))) (above lo) (below hi) K.
Proof.
  intros E0 EK C1 C2 D1 D2.
  replace K with (K - 0) by ring.
  apply (is_RInt_gen_antiderivative lo hi (glue m (fun x => peval l1 (- z x) * exp (z x)) (fun x => K + peval l2 (z x) * exp (- z x)))).
  - exact I.
  - intros x _. apply glue_derive.
    + rewrite z_m, Ropp_0, exp_0, EK. ring.
    + intros H. rewrite glue_l by lra. generalize (z_comp (fun t => peval l1 (- t) * exp t) x _ (D1 _)). apply is_derive_ext_eq. field; lra.
    + intros H. rewrite glue_r'; [|now rewrite z_m, Ropp_0, E0|lra].
      generalize (z_comp (fun t => peval l2 t * exp (- t)) x _ (D2 _)). intros D.
      generalize (dR_plus (fun _ => K) _ x _ _ (dR_c K x) D). apply is_derive_ext_eq. field; lra.
  - intros x _. apply glue_cont.
    + now rewrite z_m, Ropp_0, E0.
    + intros _. apply (continuous_mult (K := R_AbsRing) (fun x => w1 (z x)) (fun x => exp (z x) / 2 / b0)).
      * destruct (C1 (z x)) as [l Hl]. eapply ex_derive_cont, z_comp, Hl.
      * cont_auto; auto; lra.
    + intros _. apply (continuous_mult (K := R_AbsRing) (fun x => w2 (z x)) (fun x => exp (- z x) / 2 / b0)).
      * destruct (C2 (z x)) as [l Hl]. eapply ex_derive_cont, z_comp, Hl.
      * cont_auto; auto; lra.
  - apply filterlim_ext_loc with (fun x => peval l1 (- z x) * exp (z x)); [|apply la_lim_m].
    exists m. intros x Hx. now rewrite glue_l by lra.
  - apply filterlim_ext_loc with (fun x => K + peval l2 (z x) * exp (- z x)).
    { exists m. intros x Hx. now rewrite glue_r by lra. }
    eapply fl_eq; [apply fl_plus; [apply fl_const|apply la_lim_p]|ring].
Qed.
Lemma la_coherent : coherent lo hi dist dens.
Proof.
  apply (coherent_intro _ _ _ _ lG lg); try (exact I).
  - intros; apply la_dist. - intros; apply la_dens.
  - intros x _. unfold lG, lg. apply glue_derive; [rewrite z_m, Ropp_0, exp_0; lra| |]; intros H.
    + rewrite glue_l by lra. dder; try lra; field; lra.
    + rewrite glue_r'; [|rewrite z_m, Ropp_0; lra|lra]. dder; try lra; field; lra.
  - intros x _. unfold lg. apply glue_cont; [rewrite z_m, Ropp_0; lra| |]; intros _; cont_auto; auto; lra.
  - intros x _. unfold lg, glue. destruct (Rle_dec x m); pos.
  - apply filterlim_ext_loc with (fun x => exp (z x) / 2).
    { exists m. intros x Hx. unfold lG. now rewrite glue_l by lra. }
    eapply filterlim_ext; [|apply (la_lim_m [1 / 2])]. intros; cbn. lra.
  - apply filterlim_ext_loc with (fun x => 1 - exp (- z x) / 2).
    { exists m. intros x Hx. unfold lG. now rewrite glue_r by lra. }
    eapply fl_eq; [apply fl_minus; [apply fl_const|]|].
    + eapply filterlim_ext; [|apply (la_lim_p [1 / 2])]. intros; cbn. lra.
    + ring.
Qed.
Definition laM (n : nat) : R := match n with 0%nat => 1 | 1%nat => 0 | 2%nat => 2 | 3%nat => 0 | _ => 24 end.
Lemma la_ab n : (n <= 4)%nat -> is_expectation lo hi dens (fun x => (z x) ^ n) (laM n).
Proof.
  intros H. unfold is_expectation.
  assert (A : forall l1 l2, peval l1 0 = laM n + peval l2 0 ->
    (forall t, is_derive (fun t => peval l1 (- t) * exp t) t (t ^ n * (exp t / 2))) ->
    (forall t, is_derive (fun t => peval l2 t * exp (- t)) t (t ^ n * (exp (- t) / 2))) ->
    is_RInt_gen (fun x => (z x) ^ n * rf dens x) (above lo) (below hi) (laM n)).
  { intros l1 l2 E D1 D2. generalize (la_int (fun t => t ^ n) (fun t => t ^ n) l1 l2 (laM n) eq_refl E (fun t => ltac:(auto_derive; auto)) (fun t => ltac:(auto_derive; auto)) D1 D2).
    apply is_RInt_gen_ext. apply filter_forall. intros ab x _. unfold rf. rewrite la_dens. cbn [val]. unfold lg, glue. destruct (Rle_dec x m); reflexivity. }
  do 5 (destruct n as [|n]; [
    first [ solve [apply (A [1/2] [-(1/2)]); [cbn; lra| |]; intros t; cbn; auto_derive; auto; field]
          | solve [apply (A [-(1/2);-(1/2)] [-(1/2);-(1/2)]); [cbn; lra| |]; intros t; cbn; auto_derive; auto; field]
          | solve [apply (A [1;1;1/2] [-(1);-(1);-(1/2)]); [cbn; lra| |]; intros t; cbn; auto_derive; auto; field]
          | solve [apply (A [-3;-3;-(3/2);-(1/2)] [-3;-3;-(3/2);-(1/2)]); [cbn; lra| |]; intros t; cbn; auto_derive; auto; field]
          | solve [apply (A [12;12;6;2;1/2] [-12;-12;-6;-2;-(1/2)]); [cbn; lra| |]; intros t; cbn; auto_derive; auto; field]]|]).
  lia.
Qed.
Ltac laab := try (apply la_ab; lia); try reflexivity; try lra.
Lemma la_mean : returns (mean d) (is_mean lo hi dens).
Proof. eexists; split; [reflexivity|]. apply (mean_about _ _ _ m b0 laM); laab. cbn; ring. Qed.
Lemma la_variance : returns (variance d) (is_variance lo hi dens m).
Proof.
  unfold variance; cbn [pr b new_unchecked]. xs. eexists; split; [reflexivity|].
  apply (variance_about _ _ _ m b0 laM); laab; cbn; ring.
Qed.
Lemma la_skewness : returns (skewness d) (is_skewness lo hi dens).
Proof.
  eexists; split; [reflexivity|]. apply (skewness_about _ _ _ m b0 laM) with (v := 2 * b0 * b0); laab; [cbn; ring|pos|cbn; ring].
Qed.
Lemma la_kurtosis : returns (kurtosis d) (is_kurtosis lo hi dens).
Proof.
  eexists; split; [reflexivity|]. apply (kurtosis_about _ _ _ m b0 laM) with (v := 2 * b0 * b0); laab; [cbn; ring|pos|cbn; ring].
Qed.
Lemma la_median : returns (median d) (is_median dist).
Proof. eexists; split; [reflexivity|]. unfold is_median. rewrite la_dist. f_equal. unfold lG. rewrite glue_l, z_m, exp_0 by lra. reflexivity. Qed.
Lemma la_modes : all_return (modes d) (is_mode lo hi dens).
Proof.
  intros x [<-|[]]. eexists; split; [reflexivity|]. eexists; split; [apply la_dens|]. intros x _. eexists; split; [apply la_dens|].
  unfold lg at 2. rewrite glue_l, z_m, exp_0 by lra. unfold lg, glue.
  destruct (Rle_dec x m); unfold Rdiv; do 2 (apply Rmult_le_compat_r; [pos|]).
  - apply exp_le1. assert (0 <= (m - x) * / b0) by pos. lra.
  - apply exp_le1. assert (0 <= (x - m) * / b0) by pos. lra.
Qed.
Lemma la_entropy : returns (shannon_entropy d) (is_entropy lo hi dens).
Proof.
  unfold shannon_entropy; cbn [pr b new_unchecked]. xs.
  eexists; split; [reflexivity|]. unfold is_entropy. set (L := ln (2 * b0)).
  assert (EL : ln (2 * b0 * exp 1) = 1 + L) by (rewrite ln_mult, ln_exp by pos; unfold L; ring). rewrite EL.
  generalize (la_int (fun t => L - t) (fun t => L + t) [(L + 1) / 2; 1 / 2] [- ((L + 1) / 2); - (1 / 2)] (1 + L)
    ltac:(lra) ltac:(cbn; lra) (fun t => ltac:(auto_derive; auto)) (fun t => ltac:(auto_derive; auto))
    (fun t => ltac:(cbn; auto_derive; auto; field)) (fun t => ltac:(cbn; auto_derive; auto; field))).
  apply is_RInt_gen_ext. apply filter_forall. intros ab x _. unfold rf. rewrite la_dens. cbn [val]. unfold lg, glue.
  assert (E2 : forall t, ln (exp t / 2 / b0) = t - L).
  { intros t. unfold L. replace (exp t / 2 / b0) with (exp t * / (2 * b0)) by (field; lra). rewrite ln_mult, ln_exp, ln_Rinv by pos. ring. }
  destruct (Rle_dec x m); rewrite E2; match goal with |- @eq _ ?a ?b => change (@eq R a b) end; ring.
Qed.
(** inverse-transform sampling from u - 1/2, u in (0,1) *)
Lemma la_samples : samples_from lo hi dist (fun u => sample_of_draw d (fsub u (Fin (1 / 2)))).
Proof.
  assert (SU : forall u, 0 < u < 1 -> sample_of_draw d (fsub (Fin u) (Fin (1 / 2))) =
    Fin (if Rlt_dec u (1 / 2) then m + b0 * ln (2 * u) else m - b0 * ln (2 - 2 * u))).
  { intros u Hu. unfold sample_of_draw; cbn [pr mu b new_unchecked]. rewrite x_sub. cbn [fsignum XScalar xsignum].
    destruct (Rlt_dec u (1 / 2)) as [H|H].
    - destruct (Rle_dec 0 (u - 1 / 2)); [lra|]. rewrite x_abs, Rabs_left by lra. xs. f_equal.
      replace (1 - 2 * - (u - 1 / 2)) with (2 * u) by field. ring.
    - destruct (Rle_dec 0 (u - 1 / 2)); [|lra]. rewrite x_abs, Rabs_pos_eq by lra. xs. f_equal.
      replace (1 - 2 * (u - 1 / 2)) with (2 - 2 * u) by field. ring. }
  split; [intros u Hu; eexists; now apply SU|].
  intros y _. left. intros u Hu. unfold rf. rewrite SU, la_dist by auto. cbn [val]. unfold lG, glue.
  set (e := z y). assert (Ey : y = m + b0 * e) by (unfold e; field; lra). clearbody e.
  assert (EM := exp_pos e). assert (EM' := exp_pos (- e)).
  assert (K : forall v, 0 < v -> (b0 * ln v <= b0 * e <-> v <= exp e)).
  { intros v Hv. split; intros HH.
    - apply Rmult_le_reg_l in HH; auto. rewrite <- (exp_ln v) by auto. now apply exp_le_mono.
    - apply Rmult_le_compat_l; [lra|]. rewrite <- (ln_exp e). apply ln_le; auto. }
  assert (K' : forall v, 0 < v -> (- (b0 * ln v) <= b0 * e <-> exp (- e) <= v)).
  { intros v Hv. split; intros HH.
    - rewrite <- (exp_ln v) by auto. apply exp_le_mono. apply Rmult_le_reg_l with b0; lra.
    - assert (- e <= ln v) by (rewrite <- (ln_exp (- e)); apply ln_le; auto). assert (b0 * - e <= b0 * ln v) by (apply Rmult_le_compat_l; lra). lra. }
  destruct (Rle_dec y m) as [Hy|Hy].
  - assert (e <= 0) by nra. assert (exp e <= 1) by (apply exp_le1; auto). assert (1 <= exp (- e)) by (apply exp_ge1; lra).
    destruct (Rlt_dec u (1 / 2)).
    + specialize (K (2 * u)). split; intros; [assert (2 * u <= exp e) by (apply K; lra); lra|assert (b0 * ln (2 * u) <= b0 * e) by (apply K; lra); lra].
    + split; intros; [|assert (u = 1 / 2) by lra; assert (exp e = 1) by lra].
      * assert (exp (- e) <= 2 - 2 * u) by (apply K'; lra). assert (exp (-e) = 1) by lra.
        assert (e = 0) by (assert (-e = 0) by (apply exp_inv; rewrite exp_0; lra); lra). subst e. rewrite exp_0. lra.
      * subst u. replace (2 - 2 * (1 / 2)) with 1 by field. rewrite ln_1.
        assert (e = 0) by (apply exp_inv; rewrite exp_0; lra). subst e. lra.
  - assert (0 < e) by nra. assert (exp (- e) < 1) by (apply exp_lt1; lra).
    destruct (Rlt_dec u (1 / 2)).
    + split; intros; [lra|]. assert (ln (2 * u) <= 0) by (rewrite <- ln_1; apply ln_le; lra). nra.
    + specialize (K' (2 - 2 * u)). split; intros; [assert (exp (- e) <= 2 - 2 * u) by (apply K'; lra); lra|].
      assert (- (b0 * ln (2 - 2 * u)) <= b0 * e) by (apply K'; lra). lra.
Qed.
(** the code's [cdf] vanishes at +infinity *)
Lemma la_not_cdf : ~ is_cdf lo hi dens.
Proof.
  intros [_ _ _ H]. assert (H0 : filterlim (rf dens) (below hi) (locally 0)).
  { apply filterlim_ext_loc with (fun x => peval [1 / 2 / b0] (z x) * exp (- z x)); [|apply la_lim_p].
    exists m. intros x Hx. unfold rf. rewrite la_dens. cbn [val]. unfold lg. rewrite glue_r by lra. cbn. field; lra. }
  assert (E := filterlim_locally_unique (F := below hi) _ _ _ H H0). lra.
Qed.
End Laplace.
