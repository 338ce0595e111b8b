(** * Property C56: convolution of continuous distributions *)
From Coq Require Import Reals Lra Lia Psatz List ZArith.
From Coquelicot Require Import Coquelicot.
From Verif.Num Require Import Scalar XReal.
From Verif.Model Require Import Rust Constraints Probability Params Consts Traits Continuous Continuous2 Continuous3.
From Verif.Spec Require Import DistSpec GammaSpec ResSpec.
From Verif.Proofs Require Import ConstraintProofs NewInv XTac Calc Calc2 Gauss Gauss2 Improper GammaFun Subst Mellin Unique Oracle
  ContProofs1 ContProofs9 ContProofs11 ContProofs12 ContProofs14 ContProofs16 ContProofs17 ContProofs18.
Import ListNotations.
Open Scope R_scope.

(** Normal and Cauchy: always Ok, and the result has the density of the sum of
    independent variables *)
Theorem C56_normal (m1 S1 m2 S2 : R) (d1 d2 : UvNormal.t xreal) :
  UvNormal.new (Fin m1) (Fin S1) = Ok d1 -> UvNormal.new (Fin m2) (Fin S2) = Ok d2 ->
  exists d, UvNormal.convolve d1 d2 = Ok d /\ UvNormal.new (Fin (m1 + m2)) (Fin (S1 + S2)) = Ok d /\
    is_sum_density (UvNormal.pdf d1) (UvNormal.pdf d2) (UvNormal.pdf d).
Proof.
  intros H1 H2. apply uvn_new_inv in H1 as [P1 ->], H2 as [P2 ->]. exists (UvNormal.new_unchecked (Fin (m1 + m2)) (Fin (S1 + S2))).
  split; [reflexivity|]. split; [apply uvn_new_ok; lra|]. now apply un_sum.
Qed.
Print Assumptions C56_normal.
Example C56_normal_nonvacuous : exists d1 d2, UvNormal.new (Fin 1) (Fin 2) = Ok d1 /\ UvNormal.new (Fin 3) (Fin 5) = Ok d2.
Proof. eexists _, _. split; apply uvn_new_ok; lra. Qed.

Theorem C56_cauchy (m1 g1 m2 g2 : R) (d1 d2 : Cauchy.t xreal) :
  Cauchy.new (Fin m1) (Fin g1) = Ok d1 -> Cauchy.new (Fin m2) (Fin g2) = Ok d2 ->
  exists d, Cauchy.convolve d1 d2 = Ok d /\ Cauchy.new (Fin (m1 + m2)) (Fin (g1 + g2)) = Ok d /\
    is_sum_density (Cauchy.pdf d1) (Cauchy.pdf d2) (Cauchy.pdf d).
Proof.
  intros H1 H2. unfold Cauchy.new in H1, H2. inv_new H1. inv_new H2.
  exists (Cauchy.new_unchecked (Fin (m1 + m2)) (Fin (g1 + g2))). split; [reflexivity|]. split; [unfold Cauchy.new; etransitivity; [ok_new|reflexivity]|].
  now apply c_sum.
Qed.
Print Assumptions C56_cauchy.
Example C56_cauchy_nonvacuous : exists d1 d2, Cauchy.new (Fin 1) (Fin 2) = Ok d1 /\ Cauchy.new (Fin 3) (Fin 5) = Ok d2.
Proof. eexists _, _. split; unfold Cauchy.new; ok_new. Qed.

(** Gamma plus an independent Exponential: Ok exactly when the rates agree, and then right *)
Theorem C56_gamma_exponential (SP : Special xreal) (a b l : R) (d : Gamma.t xreal) (e : Exponential.t xreal) : gamma_exact SP ->
  Gamma.new (Fin a) (Fin b) = Ok d -> Exponential.new (Fin l) = Ok e ->
  (l = b -> exists r, Gamma.convolve_exponential d e = Ok r /\ Gamma.new (Fin (a + 1)) (Fin b) = Ok r /\
     is_sum_density_pos (Gamma.pdf d) (Exponential.pdf e) (Gamma.pdf r)) /\
  (l <> b -> exists er, Gamma.convolve_exponential d e = Err er).
Proof.
  intros Hg H1 H2. unfold Gamma.new in H1. inv_new H1. unfold Exponential.new in H2. inv_new H2.
  change (Gamma.mk _) with (Gamma.new_unchecked (Fin a) (Fin b)). change (Exponential.mk _) with (Exponential.new_unchecked (Fin l)).
  unfold Gamma.convolve_exponential. cbn [Gamma.pr Gamma.alpha Gamma.beta Gamma.new_unchecked Exponential.pr Exponential.lambda Exponential.new_unchecked check check_default is_satisfied_by].
  unfold check_default. cbn [is_satisfied_by peqb POrd_scalar]. xs. unfold Reqb. split.
  - intros ->. destruct (Req_EM_T b b) as [_|N]; [|now elim N]. cbn [map_err]. xs. exists (Gamma.new_unchecked (Fin (a + 1)) (Fin b)). split; [reflexivity|].
    split; [unfold Gamma.new; etransitivity; [ok_new|reflexivity]|]. apply (gamma_sum a 1 b); auto; try lra.
    + intros; now apply ga_pdf. + intros; now apply exp_is_ga1. + intros; apply ga_pdf; auto; lra.
  - intros N. destruct (Req_EM_T l b) as [E|_]; [now elim N|]. cbn [map_err]. eexists; reflexivity.
Qed.
Print Assumptions C56_gamma_exponential.

(** Gamma plus Gamma: the code compares the shapes instead of the rates *)
Theorem C56_gamma_partial (SP : Special xreal) (a b : R) (d1 d2 : Gamma.t xreal) : gamma_exact SP ->
  Gamma.new (Fin a) (Fin b) = Ok d1 -> Gamma.new (Fin a) (Fin b) = Ok d2 ->
  exists r, Gamma.convolve d1 d2 = Ok r /\ is_sum_density_pos (Gamma.pdf d1) (Gamma.pdf d2) (Gamma.pdf r).
Proof.
  intros Hg H1 H2. unfold Gamma.new in H1, H2. inv_new H1. inv_new H2. change (Gamma.mk _) with (Gamma.new_unchecked (Fin a) (Fin b)).
  unfold Gamma.convolve. cbn [Gamma.pr Gamma.alpha Gamma.beta Gamma.new_unchecked check]. unfold check_default. cbn [is_satisfied_by peqb POrd_scalar]. xs. unfold Reqb.
  destruct (Req_EM_T a a) as [_|N]; [|now elim N]. cbn [map_err]. xs. eexists; split; [reflexivity|]. apply (gamma_sum a a b); auto; intros; apply ga_pdf; auto; lra.
Qed.
Print Assumptions C56_gamma_partial.
Theorem C56_gamma_refuted (a1 b1 a2 b2 : R) (d1 d2 : Gamma.t xreal) :
  Gamma.new (Fin a1) (Fin b1) = Ok d1 -> Gamma.new (Fin a2) (Fin b2) = Ok d2 ->
  (* with equal rates the sum is in the family, but an error is returned unless the shapes are equal too *)
  (a1 <> a2 -> exists e, Gamma.convolve d1 d2 = Err e) /\
  (* with equal shapes and different rates Ok is returned, with the wrong mean *)
  (a1 = a2 -> b1 <> b2 -> exists r m m1 m2, Gamma.convolve d1 d2 = Ok r /\
     Gamma.mean r = Fin m /\ Gamma.mean d1 = Fin m1 /\ Gamma.mean d2 = Fin m2 /\ m <> m1 + m2).
Proof.
  intros H1 H2. unfold Gamma.new in H1, H2. inv_new H1. inv_new H2.
  unfold Gamma.convolve, Gamma.mean. cbn [Gamma.pr Gamma.alpha Gamma.beta Gamma.new_unchecked check]. unfold check_default. cbn [is_satisfied_by peqb POrd_scalar]. xs. unfold Reqb. split.
  - intros N. destruct (Req_EM_T a1 a2) as [E|_]; [now elim N|]. cbn [map_err]. eexists; reflexivity.
  - intros -> N. destruct (Req_EM_T a2 a2) as [_|N2]; [|now elim N2]. cbn [map_err]. xs. eexists _, _, _, _. split; [reflexivity|]. cbn [Gamma.pr Gamma.alpha Gamma.beta Gamma.new_unchecked]. xs.
    split; [reflexivity|]. split; [reflexivity|]. split; [reflexivity|]. intros E. apply N.
    assert (E2 : a2 / b1 = a2 / b2) by (replace ((a2 + a2) / b1) with (a2 / b1 + a2 / b1) in E by (field; lra); lra).
    assert (E3 : a2 / b1 * (b1 * b2) = a2 / b2 * (b1 * b2)) by now rewrite E2. replace (a2 / b1 * (b1 * b2)) with (a2 * b2) in E3 by (field; lra). replace (a2 / b2 * (b1 * b2)) with (a2 * b1) in E3 by (field; lra). nra.
Qed.
Print Assumptions C56_gamma_refuted.
Example C56_gamma_nonvacuous : exists d1 d2 e, Gamma.new (Fin 2) (Fin 3) = Ok d1 /\ Gamma.new (Fin 2) (Fin 5) = Ok d2 /\ Exponential.new (Fin 3) = Ok e.
Proof. eexists _, _, _. split; [|split]; [unfold Gamma.new|unfold Gamma.new|unfold Exponential.new]; ok_new. Qed.

(** ChiSq: only equal degrees of freedom are accepted *)
Theorem C56_chi_squared_partial (SP : Special xreal) (k : Z) (d1 d2 : ChiSq.t) : gamma_exact SP ->
  ChiSq.new (F := xreal) k = Ok d1 -> ChiSq.new (F := xreal) k = Ok d2 -> (k + k <= U64_MAX)%Z ->
  exists r, ChiSq.convolve (F := xreal) d1 d2 = Ret (Ok r) /\ ChiSq.new (F := xreal) (k + k) = Ok r /\
    is_sum_density_pos (ChiSq.pdf d1) (ChiSq.pdf d2) (ChiSq.pdf r).
Proof.
  intros Hg H1 H2 Hk. unfold ChiSq.new in H1, H2. inv_new H1. inv_new H2. change (ChiSq.mk _) with (ChiSq.new_unchecked k).
  exists (ChiSq.new_unchecked (k + k)). split; [|split; [unfold ChiSq.new; etransitivity; [ok_new|reflexivity]|]].
  - unfold ChiSq.convolve. cbn [ChiSq.pr ChiSq.k ChiSq.new_unchecked check]. unfold check_default. cbn [is_satisfied_by peqb POrd_Z]. rewrite Z.eqb_refl. unfold u64, checked. replace ((0 <=? k + k)%Z && (k + k <=? U64_MAX)%Z)%bool with true; [reflexivity|].
    symmetry. apply andb_true_intro. split; apply Z.leb_le; lia.
  - assert (0 < IZR k / 2) by (assert (0 < IZR k) by (apply IZR_lt; lia); lra).
    apply (gamma_sum (IZR k / 2) (IZR k / 2) (/ 2)); try lra; try (intros; now apply cs_pdf).
    intros x Hx. rewrite (cs_pdf Hg (k + k) ltac:(lia)) by auto. rewrite plus_IZR. do 2 f_equal. field.
Qed.
Print Assumptions C56_chi_squared_partial.
Theorem C56_chi_squared_refuted (k1 k2 : Z) (d1 d2 : ChiSq.t) :
  ChiSq.new (F := xreal) k1 = Ok d1 -> ChiSq.new (F := xreal) k2 = Ok d2 ->
  (k1 <> k2 -> exists e, ChiSq.convolve (F := xreal) d1 d2 = Ret (Err e)) /\
  (k1 = k2 -> (U64_MAX < k1 + k2)%Z -> ChiSq.convolve (F := xreal) d1 d2 = Panic).
Proof.
  intros H1 H2. unfold ChiSq.new in H1, H2. inv_new H1. inv_new H2.
  unfold ChiSq.convolve. cbn [ChiSq.pr ChiSq.k ChiSq.new_unchecked check]. unfold check_default. cbn [is_satisfied_by peqb POrd_Z]. split.
  - intros N. destruct (Z.eqb_spec k1 k2); [contradiction|]. eexists; reflexivity.
  - intros -> Hk. rewrite Z.eqb_refl. unfold u64, checked. destruct (Z.leb_spec (k2 + k2) U64_MAX); [lia|]. rewrite Bool.andb_false_r. reflexivity.
Qed.
Print Assumptions C56_chi_squared_refuted.
Example C56_chi_squared_nonvacuous : exists d1 d2, ChiSq.new (F := xreal) 3 = Ok d1 /\ ChiSq.new (F := xreal) 4 = Ok d2.
Proof. eexists _, _. split; unfold ChiSq.new; ok_new. Qed.
