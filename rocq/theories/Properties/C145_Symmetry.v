(** * Property C145: the symmetric families are symmetric *)
From Coq Require Import Reals Lra Lia Psatz List ZArith.
From Coquelicot Require Import Coquelicot.
From Verif.Num Require Import Scalar XReal.
From Verif.Model Require Import Rust Constraints Probability Params Consts Traits Continuous Continuous2 Continuous3 Normal2.
From Verif.Spec Require Import DistSpec GammaSpec ResSpec SampleSpec.
From Verif.Proofs Require Import ConstraintProofs NewInv XTac Calc Calc2 Gauss Gauss2 Improper GammaFun Mellin Subst Oracle
  ContProofs1 ContProofs2 ContProofs3 ContProofs4 ContProofs5 ContProofs6 ContProofs8 ContProofs9 ContProofs14 ContProofs20 ContProofs25 Normal2Proofs.
Import ListNotations.
Open Scope R_scope.

(** a density that takes the same (finite) value at mirrored points *)
Definition even_about (P : R -> Prop) (m : R) (f : xreal -> xreal) : Prop :=
  forall t, P t -> returns (f (Fin (m + t))) (fun u => f (Fin (m - t)) = Fin u).
(** a distribution function with P(X <= m - t) + P(X <= m + t) = 1 *)
Definition balanced_about (P : R -> Prop) (m : R) (c : xreal -> Probability xreal) : Prop :=
  forall t, P t -> returns (unwrap (c (Fin (m + t)))) (fun u => unwrap (c (Fin (m - t))) = Fin (1 - u)).
Definition all (x : R) : Prop := True.

Theorem C145_real_line (SP : Special xreal) (m s n : R) (ca : Cauchy.t xreal) (lg : Logistic.t xreal) (no : UvNormal.t xreal) (co : Cosine.t xreal) (st : StudentT.t xreal) :
  (forall x, sf_norm (Fin x) = Fin (Phi x)) -> gamma_exact SP -> beta_exact SP -> 0 < s -> 0 < n -> Cauchy.new (Fin m) (Fin s) = Ok ca -> Logistic.new (Fin m) (Fin s) = Ok lg -> UvNormal.new (Fin m) (Fin (s * s)) = Ok no ->
  Cosine.new (Fin m) (Fin s) = Ok co -> StudentT.new (Fin n) = Ok st ->
  (even_about all m (Cauchy.pdf ca) /\ balanced_about all m (Cauchy.cdf ca)) /\
  (even_about all m (Logistic.pdf lg) /\ balanced_about all m (Logistic.cdf lg)) /\
  (even_about all m (UvNormal.pdf no) /\ balanced_about all m (UvNormal.cdf no)) /\
  (even_about all m (Cosine.pdf co) /\ balanced_about all m (Cosine.cdf co)) /\
  even_about all 0 (StudentT.pdf st).
Proof.
  intros Hn Hg Hb Hs Hn0 A1 B1 D1 C1 E1. unfold Cauchy.new in *. unfold Logistic.new in *. unfold Cosine.new in *. unfold StudentT.new in *. inv_new A1. inv_new B1. inv_new C1. inv_new E1. apply uvn_new_inv in D1 as [HS ->].
  change (Cauchy.mk _) with (Cauchy.new_unchecked (Fin m) (Fin s)). change (Logistic.mk _) with (Logistic.new_unchecked (Fin m) (Fin s)). change (Cosine.mk _) with (Cosine.new_unchecked (Fin m) (Fin s)). change (StudentT.mk _) with (StudentT.new_unchecked (Fin n)).
  assert (Q : sqrt (s * s) = s) by (apply sqrt_square; lra). assert (P := PI_RGT_0).
  assert (EP : forall t, (m + t - m) / s = t / s) by (intros; field; lra). assert (EM : forall t, (m - t - m) / s = - (t / s)) by (intros; field; lra).
  split; [|split; [|split; [|split]]]; [split; intros t _ | split; intros t _ | split; intros t _ | split; intros t _ | intros t _].
  - eexists; split; [apply c_pdf; lra|]. rewrite c_pdf by lra. f_equal. rewrite EP, EM. f_equal. ring.
  - eexists; split; [apply c_cdf; lra|]. rewrite c_cdf by lra. f_equal. rewrite EP, EM, atan_opp. field. lra.
  - eexists; split; [apply l_pdf; lra|]. rewrite l_pdf by lra. f_equal. rewrite EP, EM, Ropp_involutive. assert (0 < exp (t / s)) by apply exp_pos. rewrite exp_Ropp. field. lra.
  - eexists; split; [apply l_cdf; lra|]. rewrite l_cdf by lra. f_equal. rewrite EP, EM, Ropp_involutive. assert (0 < exp (t / s)) by apply exp_pos. rewrite exp_Ropp. field. lra.
  - eexists; split; [apply un_pdf; lra|]. rewrite un_pdf by lra. f_equal. rewrite Q, EP, EM, phi_even. reflexivity.
  - eexists; split; [apply (un_cdf m _ HS Hn)|]. rewrite (un_cdf m _ HS Hn). f_equal. rewrite Q, EP, EM. apply Phi_sym.
  - eexists; split; [apply co_pdf; lra|]. rewrite co_pdf by lra. f_equal. rewrite EP, EM. replace (- (t / s) * PI) with (- (t / s * PI)) by ring. rewrite cos_neg. reflexivity.
  - eexists; split; [apply co_cdf; lra|]. rewrite co_cdf by lra. f_equal. rewrite EP, EM. replace (- (t / s) * PI) with (- (t / s * PI)) by ring. rewrite sin_neg. field. lra.
  - eexists; split; [apply st_pdf; first [exact Hg | exact Hb | lra]|]. rewrite st_pdf by first [exact Hg | exact Hb | lra]. f_equal. unfold st_u. do 2 f_equal. ring.
Qed.
Print Assumptions C145_real_line.

Lemma asin_compl u : 0 < u < 1 -> asin (sqrt (1 - u)) = PI / 2 - asin (sqrt u).
Proof.
  intros H. assert (A : 0 < sqrt u) by (apply sqrt_lt_R0; lra). assert (B : sqrt u < 1) by (rewrite <- sqrt_1; apply sqrt_lt_1; lra). assert (BB := asin_bound (sqrt u)). assert (0 <= asin (sqrt u)) by (destruct (Rle_dec 0 (asin (sqrt u))) as [|N]; [assumption|]; assert (SS := sin_increasing_1 (asin (sqrt u)) 0 ltac:(lra) ltac:(lra) ltac:(lra) ltac:(lra) ltac:(lra)); rewrite sin_asin, sin_0 in SS; lra).
  rewrite <- (asin_sin (PI / 2 - asin (sqrt u))) by lra. f_equal. rewrite sin_shift. rewrite cos_asin by lra. f_equal. unfold Rsqr. rewrite sqrt_sqrt by lra. reflexivity.
Qed.

Theorem C145_intervals (SP : Special xreal) (m s a : R) (un : UniformF.t xreal) (ar : Arcsine.t xreal) (tr : Triangular.t xreal) (be : Beta.t xreal) :
  beta_exact SP -> UniformF.new (Fin m) (Fin s) = Ok un -> Arcsine.new (Fin m) (Fin s) = Ok ar -> Triangular.symmetric (Fin m) (Fin (m + s)) = Ok tr -> Beta.new (Fin a) (Fin a) = Ok be ->
  (even_about all (m + s / 2) (UniformF.pdf un) /\ balanced_about (fun t => - (s / 2) < t < s / 2) (m + s / 2) (UniformF.cdf un)) /\
  (even_about (fun t => - (s / 2) < t < s / 2) (m + s / 2) (Arcsine.pdf ar) /\ balanced_about (fun t => - (s / 2) < t < s / 2) (m + s / 2) (Arcsine.cdf ar)) /\
  ((/ 10000000 <= s / 2 -> even_about all (m + s / 2) (Triangular.pdf tr)) /\ balanced_about all (m + s / 2) (Triangular.cdf tr)) /\
  even_about (fun t => - (1 / 2) < t < 1 / 2) (1 / 2) (Beta.pdf be).
Proof.
  intros Hb A1 B1 C1 D1. apply uniform_new_inv in A1 as [Hs ->]. unfold Arcsine.new in *. unfold Triangular.symmetric, Triangular.new in C1. cbv zeta in C1. unfold Beta.new in D1.
  replace ((Fin (m + s) - Fin m) / f_of_Z 2)%rs with (Fin (s / 2)) in C1 by (xs; f_equal; field). inv_new B1. inv_new C1. inv_new D1. assert (Ha : 0 < a) by assumption.
  change (Arcsine.mk _) with (Arcsine.new_unchecked (Fin m) (Fin s)). change (Beta.mk _) with (Beta.new_unchecked (Fin a) (Fin a)). change (Triangular.mk _) with (Triangular.new_unchecked (Fin m) (Fin (s / 2)) (Fin (s / 2))).
  assert (P := PI_RGT_0).
  split; [|split; [|split]]; [split; intros t Ht | split; intros t Ht | split; [intros HT|]; intros t Ht | intros t Ht].
  - assert (E : forall y, UniformF.pdf (UniformF.new_unchecked (Fin m) (Fin s)) (Fin y) = Fin (if Rltb y m || Rltb (m + s) y then 0 else 1 / s)).
    { intros y. destruct (Rltb_spec y m), (Rltb_spec (m + s) y); cbn [orb]; [lra|apply u_pdf_out; lra|apply u_pdf_out; lra|apply u_pdf; lra]. }
    eexists; split; [apply E|]. rewrite E. f_equal. destruct (Rltb_spec (m + s / 2 - t) m), (Rltb_spec (m + s) (m + s / 2 - t)), (Rltb_spec (m + s / 2 + t) m), (Rltb_spec (m + s) (m + s / 2 + t)); cbn [orb]; lra.
  - eexists; split; [apply u_cdf; lra|]. rewrite u_cdf by lra. f_equal. field. lra.
  - eexists; split; [apply as_pdf; first [lra | split; cbn; lra]|]. rewrite as_pdf by first [lra | split; cbn; lra]. f_equal. f_equal. f_equal. field.
  - eexists; split; [apply as_cdf; first [lra | split; cbn; lra]|]. rewrite as_cdf by first [lra | split; cbn; lra]. f_equal. set (u := (m + s / 2 + t - m) / s). replace ((m + s / 2 - t - m) / s) with (1 - u) by (unfold u; field; lra).
    assert (0 < u < 1). { unfold u. split; [apply Rdiv_lt_0_compat; lra|]. apply Rmult_lt_reg_r with s; [lra|]. field_simplify; lra. } rewrite asin_compl by assumption. field. lra.
  - assert (SS : s <> 0) by lra. assert (E : forall y, Triangular.pdf (Triangular.new_unchecked (Fin m) (Fin (s / 2)) (Fin (s / 2))) (Fin y) = Fin (if Rleb y m then 0 else if Rltb (Rabs (y - (m + s / 2))) (1 / 10000000) then 2 / s else if Rltb y (m + s / 2) then 4 * (y - m) / s / s else if Rleb y (m + s) then 4 * (m + s - y) / s / s else 0)).
    { intros y. unfold Triangular.pdf, Triangular.b, Triangular.c. cbn [Triangular.pr Triangular.a Triangular.a2c Triangular.c2b Triangular.new_unchecked]. cbv zeta. xs. replace (m + s / 2 + s / 2) with (m + s) by field.
      destruct (Rleb y m); [reflexivity|]. destruct (Rltb (Rabs (y - (m + s / 2))) (1 / 10000000)); [xs; f_equal; field; lra|]. destruct (Rltb y (m + s / 2)); [xs; f_equal; field; lra|]. destruct (Rleb y (m + s)); [xs; f_equal; field; lra|reflexivity]. }
    eexists; split; [apply E|]. rewrite E. f_equal. replace (m + s / 2 - t - (m + s / 2)) with (- t) by ring. replace (m + s / 2 + t - (m + s / 2)) with t by ring. rewrite Rabs_Ropp.
    destruct (Rleb_spec (m + s / 2 - t) m), (Rleb_spec (m + s / 2 + t) m); try lra;
    (destruct (Rltb_spec (Rabs t) (1 / 10000000)) as [A|A]; [try reflexivity; exfalso; assert (t < / 10000000 /\ - t < / 10000000) by (split; unfold Rabs in A; destruct (Rcase_abs t); lra); try lra |]);
    destruct (Rltb_spec (m + s / 2 - t) (m + s / 2)), (Rltb_spec (m + s / 2 + t) (m + s / 2)), (Rleb_spec (m + s / 2 - t) (m + s)), (Rleb_spec (m + s / 2 + t) (m + s)); try reflexivity; try (exfalso; lra); try (unfold Rdiv; do 2 f_equal; lra);
    try (assert (Et : t = s / 2) by lra; rewrite Et; field; lra); try (assert (Et : t = - (s / 2)) by lra; rewrite Et; field; lra); try (assert (Et : t = 0) by lra; rewrite Et; field; lra).
  - assert (E : forall y, unwrap (Triangular.cdf (Triangular.new_unchecked (Fin m) (Fin (s / 2)) (Fin (s / 2))) (Fin y)) = Fin (if Rleb y m then 0 else if Rleb y (m + s / 2) then 2 * ((y - m) * (y - m)) / s / s else if Rleb y (m + s) then 1 - 2 * ((m + s - y) * (m + s - y)) / s / s else 1)).
    { intros y. unfold Triangular.cdf, Triangular.b, Triangular.c. cbn [Triangular.pr Triangular.a Triangular.a2c Triangular.c2b Triangular.new_unchecked]. cbv zeta. xs. replace (m + s / 2 + s / 2) with (m + s) by field.
      destruct (Rleb y m); [reflexivity|]. destruct (Rleb y (m + s / 2)); [cbn [unwrap]; xs; f_equal; field; lra|]. destruct (Rleb y (m + s)); [cbn [unwrap]; xs; f_equal; field; lra|reflexivity]. }
    eexists; split; [apply E|]. rewrite E. f_equal.
    destruct (Rleb_spec (m + s / 2 - t) m), (Rleb_spec (m + s / 2 + t) m); try lra;
    destruct (Rleb_spec (m + s / 2 - t) (m + s / 2)), (Rleb_spec (m + s / 2 + t) (m + s / 2)), (Rleb_spec (m + s / 2 - t) (m + s)), (Rleb_spec (m + s / 2 + t) (m + s)); try (exfalso; lra); try (field; lra); try lra;
    try (assert (Et : t = s / 2) by lra; rewrite Et; field; lra); try (assert (Et : t = - (s / 2)) by lra; rewrite Et; field; lra); try (assert (Et : t = 0) by lra; rewrite Et; field; lra).
  - eexists; split; [apply (be_pdf Hb); first [lra | split; cbn; lra]|]. rewrite (be_pdf Hb) by first [lra | split; cbn; lra]. f_equal. unfold be_u, beta_h. replace (1 - (1 / 2 - t)) with (1 / 2 + t) by field. replace (1 - (1 / 2 + t)) with (1 / 2 - t) by field. field. apply Rgt_not_eq. now apply Bet_pos.
Qed.
Print Assumptions C145_intervals.

Lemma nd_even m q t : 0 < q -> normal_density m q (m - t) = normal_density m q (m + t).
Proof. intros. unfold normal_density. do 2 f_equal. field. lra. Qed.
Theorem C145_plane (m0 m1 a b r : R) (pn : PairedNormal.t xreal) (bv : BvNormal.t xreal) :
  PairedNormal.new (Fin m0, Fin m1) (Fin a, Fin b) = Ok pn -> BvNormal.new (Fin m0, Fin m1) (Fin a, Fin b) (Fin r) = Ok bv -> -1 < r < 1 ->
  forall s t : R, returns (PairedNormal.pdf pn (Fin (m0 + s), Fin (m1 + t))) (fun u => PairedNormal.pdf pn (Fin (m0 - s), Fin (m1 - t)) = Fin u) /\
    returns (BvNormal.pdf bv (Fin (m0 + s), Fin (m1 + t))) (fun u => BvNormal.pdf bv (Fin (m0 - s), Fin (m1 - t)) = Fin u).
Proof.
  intros H1 H2 Hr s t. apply pn_new_iff in H1 as [[Ha Hb] ->]. apply bv_new_iff in H2 as [_ ->]. assert (K3 := sqrt_lt_R0 a Ha). assert (K4 := sqrt_lt_R0 b Hb). split.
  - eexists; split; [now apply pn_pdf|]. rewrite pn_pdf by auto. now rewrite !nd_even.
  - eexists; split; [now apply bv_pdf|]. rewrite bv_pdf by auto. f_equal. rewrite !bv_f_val by auto. do 3 f_equal. unfold bv_reg. assert (0 < sqrt (1 - r * r)) by (apply sqrt_lt_R0; nra). field. lra.
Qed.
Print Assumptions C145_plane.

(** a triangle narrower than the 1e-7 tolerance around its mode is not symmetric: the density is 0 at its left end but maximal at its right end *)
Theorem C145_triangular_refuted (m s : R) (tr : Triangular.t xreal) : s / 2 < / 10000000 -> Triangular.symmetric (Fin m) (Fin (m + s)) = Ok tr ->
  Triangular.pdf tr (Fin (m + s / 2 - s / 2)) = Fin 0 /\ Triangular.pdf tr (Fin (m + s / 2 + s / 2)) = Fin (2 / s).
Proof.
  intros HT C1. unfold Triangular.symmetric, Triangular.new in C1. cbv zeta in C1.
  replace ((Fin (m + s) - Fin m) / f_of_Z 2)%rs with (Fin (s / 2)) in C1 by (xs; f_equal; field). inv_new C1. assert (Hs : 0 < s) by lra.
  change (Triangular.mk _) with (Triangular.new_unchecked (Fin m) (Fin (s / 2)) (Fin (s / 2))).
  unfold Triangular.pdf, Triangular.b, Triangular.c. cbn [Triangular.pr Triangular.a Triangular.a2c Triangular.c2b Triangular.new_unchecked]. cbv zeta. xs. split.
  - now rewrite Rleb_true by lra.
  - rewrite Rleb_false by lra. rewrite Rltb_true; [xs; f_equal; field; lra|]. rewrite Rabs_right; lra.
Qed.
Print Assumptions C145_triangular_refuted.

Example C145_nonvacuous : (forall x, sf_norm (Special := exact false) (Fin x) = Fin (Phi x)) /\ gamma_exact (exact false) /\ beta_exact (exact false) /\ (exists d, Cauchy.new (Fin 1) (Fin 2) = Ok d) /\ (exists d, Logistic.new (Fin 1) (Fin 2) = Ok d) /\
  (exists d, Cosine.new (Fin 1) (Fin 2) = Ok d) /\ (exists d, StudentT.new (Fin 3) = Ok d) /\ (exists d, Arcsine.new (Fin 1) (Fin 2) = Ok d) /\ (exists d, Triangular.symmetric (Fin 1) (Fin (1 + 2)) = Ok d) /\ (exists d, Triangular.symmetric (Fin 1) (Fin (1 + / 100000000)) = Ok d) /\
  (exists d, Beta.new (Fin 3) (Fin 3) = Ok d) /\ (exists d, UniformF.new (Fin 1) (Fin 2) = Ok d) /\ (exists d, UvNormal.new (Fin 1) (Fin (2 * 2)) = Ok d) /\
  (exists d, PairedNormal.new (Fin 1, Fin 2) (Fin 3, Fin 4) = Ok d) /\ exists d, BvNormal.new (Fin 1, Fin 2) (Fin 3, Fin 4) (Fin (1 / 2)) = Ok d.
Proof.
  split; [intros; reflexivity|]. split; [apply ex_gamma|]. split; [apply ex_beta|].
  do 5 (split; [eexists; unfold Cauchy.new, Logistic.new, Cosine.new, StudentT.new, Arcsine.new; ok_new|]).
  split; [eexists; unfold Triangular.symmetric, Triangular.new; cbv zeta; xs; ok_new|]. split; [eexists; unfold Triangular.symmetric, Triangular.new; cbv zeta; xs; ok_new|].
  split; [eexists; unfold Beta.new; ok_new|]. split; [eexists; apply uniform_new_ok; lra|]. split; [eexists; apply uvn_new_ok; lra|].
  split; [eexists; apply pn_new_iff; split; [|reflexivity]; lra|]. eexists; apply bv_new_iff; split; [|reflexivity]; lra.
Qed.
