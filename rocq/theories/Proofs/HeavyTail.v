(** * Divergent moments: a density with tail exponent q has no n-th moment for n >= q *)
From Coq Require Import Reals Lra Lia Psatz List ZArith.
From Coquelicot Require Import Coquelicot.
From Verif.Num Require Import Scalar XReal.
From Verif.Spec Require Import DistSpec.
From Verif.Proofs Require Import XTac Calc Calc2 Improper GammaFun.
Open Scope R_scope.

Lemma div_tail lo (h : R -> R) (X0 C l : R) : Rbar_lt lo p_infty -> inside lo p_infty X0 ->
  (forall x, inside lo p_infty x -> continuous h x) -> 0 < X0 -> 0 < C -> (forall x, X0 <= x -> C / x <= h x) ->
  ~ is_RInt_gen h (above lo) (below p_infty) l.
Proof.
  intros Hlt IX Hc HX HC Hh Hl.
  specialize (Hl (fun v => l - 1 < v < l + 1)). destruct Hl as [Q1 Q2 H1 H2 HQ].
  { exists (mkposreal 1 ltac:(lra)). intros v Hv. unfold ball in Hv; cbn in Hv; unfold AbsRing_ball, abs, minus, plus, opp in Hv; cbn in Hv.
    apply Rabs_def2 in Hv. lra. }
  assert (PF : ProperFilter (above lo)). { destruct lo; [apply at_right_proper_filter|contradiction|apply Rbar_locally_filter]. }
  destruct (filter_ex (F := above lo) _ (filter_and _ _ H1 (above_inside lo p_infty Hlt ltac:(intros ->; contradiction)))) as [a [Qa Ia]].
  destruct H2 as [M HM].
  set (y1 := Rmax (M + 1) X0). set (y2 := y1 * exp (2 / C)).
  assert (G1 : M < y1) by (assert (G := Rmax_l (M + 1) X0); unfold y1; lra).
  assert (G2 : X0 <= y1) by apply Rmax_r.
  assert (PC : 0 < 2 / C) by pos.
  assert (E1 : 1 < exp (2 / C)) by (assert (G := exp_ineq1 (2 / C) ltac:(lra)); lra).
  assert (G3 : y1 < y2) by (unfold y2; nra).
  destruct (HQ a y1 Qa (HM _ G1)) as (I1 & J1 & K1). destruct (HQ a y2 Qa (HM y2 ltac:(lra))) as (I2 & J2 & K2). cbn [fst snd] in J1, J2.
  assert (Iy1 : inside lo p_infty y1) by (destruct IX as [IX _]; split; [eapply Rbar_lt_le_trans; [exact IX|exact G2]|exact I]).
  assert (Iy2 : inside lo p_infty y2) by (destruct IX as [IX _]; split; [eapply Rbar_lt_le_trans; [exact IX|cbn; lra]|exact I]).
  assert (A : is_RInt h y1 y2 (I2 - I1)).
  { assert (S := is_RInt_Chasles (V := R_NormedModule) h y1 a y2 _ _ (is_RInt_swap (V := R_NormedModule) _ _ _ _ J1) J2).
    unfold plus, opp in S; cbn in S. replace (- I1 + I2) with (I2 - I1) in S by ring. exact S. }
  assert (B : is_RInt (fun x => C / x) y1 y2 (C * ln y2 - C * ln y1)).
  { apply (is_RInt_derive (V := R_CompleteNormedModule) (fun x => C * ln x)).
    - intros x Hx. rewrite Rmin_left, Rmax_right in Hx by lra. dder; try lra; field; lra.
    - intros x Hx. rewrite Rmin_left, Rmax_right in Hx by lra. eapply ex_derive_cont. dder; try lra; reflexivity. }
  assert (L := is_RInt_le _ _ _ _ _ _ (Rlt_le _ _ G3) B A ltac:(intros x Hx; apply Hh; lra)).
  unfold y2 in L. rewrite ln_mult, ln_exp in L by pos. replace (C * (ln y1 + 2 / C) - C * ln y1) with 2 in L by (field; lra). lra.
Qed.

Lemma heavy_tail_lo lo (u : R -> R) (X0 C q m l : R) (n : nat) : inside lo p_infty X0 ->
  (forall x, inside lo p_infty x -> continuous u x) -> 0 < X0 -> 0 < C -> (forall x, X0 <= x -> C * Rpower x (- q - 1) <= u x) -> q <= INR n ->
  ~ is_RInt_gen (fun x => (x - m) ^ n * u x) (above lo) (below p_infty) l.
Proof.
  intros HI Hc HX HC Hu Hq.
  set (X1 := Rmax 1 (Rmax X0 (2 * m))).
  assert (A1 : 1 <= X1) by apply Rmax_l. assert (A2 : X0 <= X1) by (eapply Rle_trans; [apply Rmax_l|apply Rmax_r]).
  assert (A3 : 2 * m <= X1) by (eapply Rle_trans; [apply Rmax_r|apply Rmax_r]).
  apply (div_tail lo _ X1 (C * (/ 2) ^ n)); [now apply (inside_Rbar_lt _ _ X0)|destruct HI as [HI _]; split; [eapply Rbar_lt_le_trans; [exact HI|exact A2]|exact I]| |lra| |].
  - intros x Hx. apply (continuous_mult (K := R_AbsRing) (fun x => (x - m) ^ n) u); [|now apply Hc].
    eapply ex_derive_cont. auto_derive; [exact I|reflexivity].
  - assert (0 < (/ 2) ^ n) by (apply pow_lt; lra). pos.
  - intros x Hx. assert (P : 0 < x) by lra.
    assert (U : C * Rpower x (- q - 1) <= u x) by (apply Hu; lra).
    assert (B : (x / 2) ^ n <= (x - m) ^ n) by (apply pow_incr; lra).
    assert (PW : 0 < Rpower x (- q - 1)) by pos.
    apply Rle_trans with ((x / 2) ^ n * (C * Rpower x (- q - 1))).
    + replace (x / 2) with (/ 2 * x) by field. rewrite Rpow_mult_distr. assert (0 < (/ 2) ^ n) by (apply pow_lt; lra).
      replace (C * (/ 2) ^ n / x) with ((/ 2) ^ n * C * / x) by (unfold Rdiv; ring).
      replace ((/ 2) ^ n * x ^ n * (C * Rpower x (- q - 1))) with ((/ 2) ^ n * C * (x ^ n * Rpower x (- q - 1))) by ring.
      apply Rmult_le_compat_l; [left; pos|]. rewrite <- Rpower_pow by auto. rewrite <- Rpower_plus.
      replace (/ x) with (Rpower x (- (1))) by (rewrite Rpower_Ropp, Rpower_1 by auto; reflexivity).
      apply Rle_Rpower; lra.
    + apply Rmult_le_compat; auto; [apply pow_le; lra|]. left. pos.
Qed.
Lemma heavy_tail (u : R -> R) (X0 C q m l : R) (n : nat) :
  (forall x, inside 0 p_infty x -> continuous u x) -> 0 < X0 -> 0 < C -> (forall x, X0 <= x -> C * Rpower x (- q - 1) <= u x) -> q <= INR n ->
  ~ is_RInt_gen (fun x => (x - m) ^ n * u x) (above 0) (below p_infty) l.
Proof. intros Hc HX. apply heavy_tail_lo; auto. now apply in0. Qed.
Section NoMoments.
Context (u : R -> R) (pdf : xreal -> xreal) (X0 C q : R).
Context (Hp : forall x, inside 0 p_infty x -> pdf (Fin x) = Fin (u x)).
Context (Hc : forall x, inside 0 p_infty x -> continuous u x) (HX : 0 < X0) (HC : 0 < C).
Context (Hu : forall x, X0 <= x -> C * Rpower x (- q - 1) <= u x).
Lemma no_central n m l : q <= INR n -> ~ is_expectation 0 p_infty pdf (fun x => (x - m) ^ n) l.
Proof.
  intros Hq H. apply (heavy_tail u X0 C q m l n Hc HX HC Hu Hq). revert H. unfold is_expectation.
  apply (is_RInt_gen_inside 0 p_infty); [exact I|]. intros x Hx. unfold rf. now rewrite Hp.
Qed.
Lemma no_mean m : q <= 1 -> ~ is_mean 0 p_infty pdf m.
Proof.
  intros Hq H. apply (no_central 1 0 m Hq). revert H. unfold is_mean, is_expectation.
  apply (is_RInt_gen_inside 0 p_infty); [exact I|]. intros x Hx. cbn [pow]. ring.
Qed.
Lemma no_variance m v : q <= 2 -> ~ is_variance 0 p_infty pdf m v.
Proof.
  intros Hq [_ H]. apply (no_central 2 m v ltac:(cbn; lra)). revert H. unfold is_expectation.
  apply (is_RInt_gen_inside 0 p_infty); [exact I|]. intros x Hx. cbn [pow]. ring.
Qed.
Lemma no_skewness k : q <= 3 -> ~ is_skewness 0 p_infty pdf k.
Proof. intros Hq (m & v & _ & _ & H). now apply (no_central 3 m _ ltac:(cbn; lra)) in H. Qed.
Lemma no_kurtosis k : q <= 4 -> ~ is_kurtosis 0 p_infty pdf k.
Proof. intros Hq (m & v & _ & _ & H). now apply (no_central 4 m _ ltac:(cbn; lra)) in H. Qed.
End NoMoments.
