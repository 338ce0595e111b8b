(** * Property C158: the remaining accessors, conversions, default distributions and display texts *)
From Coq Require Import String List ZArith Lia Reals Lra.
From Verif.Num Require Import Scalar XReal.
From Verif.Model Require Import Rust Constraints Probability Params Consts Traits Linalg Continuous Continuous2 Continuous3 Discrete Normal2 Multivariate Display.
From Verif.Model Require MvNormal.
From Verif.Spec Require Import ProbSpec ParamSpec ResSpec GammaSpec MvSpec DistSpec.
From Verif.Proofs Require Import ContProofs1 ConstraintProofs NewInv XTac Matrix MvProofs MvProofs2 Normal2Proofs MvProofs3.
From Verif.Properties Require Import C65_C67_MvNormal C68_C70_Multivariate.
Import ListNotations.
Open Scope R_scope.

(** Erlang: [mu] is the reciprocal of the rate, and the mean is k of it *)
Theorem C158_erlang (k : Z) (l : R) (d : Erlang.t xreal) :
  Erlang.new k (Fin l) = Ok d ->
  0 < l /\ Erlang.mu d = Fin (/ l) /\ returns (Erlang.mean d) (fun x => x = IZR k * / l).
Proof.
  intros H. unfold Erlang.new in H. inv_new H. split; [assumption|].
  unfold Erlang.mu, Erlang.mean. cbn [Erlang.pr Erlang.k Erlang.lambda]. split; [xs; f_equal; field; lra|].
  eexists. xs. split; [reflexivity|]. field. lra.
Qed.
Print Assumptions C158_erlang.
Example C158_erlang_ex : exists d, Erlang.new 3 (Fin 2) = Ok d.
Proof. eexists. unfold Erlang.new. ok_new. Qed.

(** LogNormal from a Normal: the Normal's parameters, and what the constructors return; its density is
    the Normal's at the logarithms *)
Theorem C158_from_normal {F} {SF : Scalar F} {LA : Lapack F} (m s x : list F) (Sg : list (list F)) (v : F) :
  (forall e, MvNormal.new m Sg = Ok e -> MvLogNormal.new m Sg = Ok (MvLogNormal.from_normal e)) /\
  (forall e, MvNormal.diagonal m s = Ok e -> MvLogNormal.diagonal m s = Ok (MvLogNormal.from_normal e)) /\
  (forall e, MvNormal.isotropic m v = Ok e -> MvLogNormal.isotropic m v = Ok (MvLogNormal.from_normal e)) /\
  (forall S (e : MvNormal.MvN F S) (npdf : MvNormal.MvN F S -> list F -> F),
     MvLogNormal.params (MvLogNormal.from_normal e) = MvNormal.params e /\
     length (MvLogNormal.support (MvLogNormal.from_normal e)) = length (MvNormal.mean e) /\
     MvLogNormal.pdf npdf (MvLogNormal.from_normal e) x = npdf e (map fln x)).
Proof.
  split; [|split; [|split]].
  - intros e E. unfold MvLogNormal.new. rewrite E. reflexivity.
  - intros e E. unfold MvLogNormal.diagonal. rewrite E. reflexivity.
  - intros e E. unfold MvLogNormal.isotropic. rewrite E. reflexivity.
  - intros S e npdf. split; [reflexivity|]. split; [|reflexivity]. unfold MvLogNormal.support. apply repeat_length.
Qed.
Print Assumptions C158_from_normal.

(** the correlation of a multivariate LogNormal: right where every reported variance is 1 ... *)
Theorem C158_lognormal_correlation_partial (n : nat) (mu s : list xreal) (u v : nat -> R) (d : MvLogNormal.t xreal (list xreal)) :
  is_vec n mu u -> is_vec n s v -> MvLogNormal.diagonal mu s = Ok d ->
  (forall i, (i < n)%nat -> lognormal_cov u (diagonal_matrix v) i i = 1) ->
  is_mat n (MvLogNormal.correlation MvNormal.diagonal_covariance d) (fun i j => if Nat.eqb i j then 1 else 0).
Proof.
  intros Hm Hs H H1. destruct (C70_diagonal n mu s u v d Hm Hs H) as (Hv & _ & HC & _).
  assert (ED : MvNormal.dim (MvLogNormal.nrm d) = n).
  { unfold MvLogNormal.diagonal in H. destruct (MvNormal.diagonal mu s) as [e|] eqn:E; cbn [map_ok] in H; [|discriminate]. injection H as <-.
    apply (mvd_new_iff n mu s v Hs) in E as [_ ->]. exact (proj1 Hm). }
  unfold MvLogNormal.correlation. rewrite ED.
  assert (D : forall i, (i < n)%nat -> diagonal_matrix (fun i => lognormal_cov u (diagonal_matrix v) i i) i i = 1).
  { intros i Hi. cbv beta. rewrite Nat.eqb_refl. now apply H1. }
  destruct (C67_default_partial n _ _ HC ltac:(intros i Hi; eapply Rlt_le_trans; [apply Rlt_0_1|]; right; symmetry; exact (D i Hi))) as (_ & _ & G).
  apply (mat_ext n _ _ _ (G D)). intros i j Hi Hj. generalize (D i Hi) (D j Hj). cbv beta. intros D1 D2. rewrite D1, D2, Rmult_1_l, sqrt_1.
  destruct (Nat.eqb_spec i j) as [->|]; [rewrite H1 by exact Hj; field|field].
Qed.
Print Assumptions C158_lognormal_correlation_partial.
(** ... and with an entry other than 1 on its diagonal as soon as one variance is not 1 *)
Theorem C158_lognormal_correlation_refuted (n : nat) (mu s : list xreal) (u v : nat -> R) (d : MvLogNormal.t xreal (list xreal)) :
  is_vec n mu u -> is_vec n s v -> MvLogNormal.diagonal mu s = Ok d ->
  (exists i, (i < n)%nat /\ lognormal_cov u (diagonal_matrix v) i i <> 1) ->
  exists i, (i < n)%nat /\ mat_get (MvLogNormal.correlation MvNormal.diagonal_covariance d) i i <> Fin 1.
Proof.
  intros Hm Hs H (i & Hi & N). destruct (C70_diagonal n mu s u v d Hm Hs H) as (Hv & _ & HC & _).
  assert (ED : MvNormal.dim (MvLogNormal.nrm d) = n).
  { unfold MvLogNormal.diagonal in H. destruct (MvNormal.diagonal mu s) as [e|] eqn:E; cbn [map_ok] in H; [|discriminate]. injection H as <-.
    apply (mvd_new_iff n mu s v Hs) in E as [_ ->]. exact (proj1 Hm). }
  unfold MvLogNormal.correlation. rewrite ED.
  destruct (C67_correlation_refuted n _ _ HC) as [G _].
  - intros j Hj. cbv beta. rewrite Nat.eqb_refl. unfold lognormal_cov. cbv beta. rewrite ?Nat.eqb_refl. apply Rmult_lt_0_compat; [apply exp_pos|].
    assert (1 < exp (v j)); [|lra]. rewrite <- exp_0. apply exp_increasing. now apply Hv.
  - exists i. split; [exact Hi|]. cbv beta. rewrite Nat.eqb_refl. exact N.
  - exact G.
Qed.
Print Assumptions C158_lognormal_correlation_refuted.
Example C158_lognormal_ex : exists d, MvLogNormal.diagonal [Fin 1; Fin (-2)] [Fin 3; Fin (1/2)] = Ok d /\ is_vec 2 [Fin 1; Fin (-2)] (fun i => nth i [1; -2] 0) /\
  is_vec 2 [Fin 3; Fin (1/2)] (fun i => nth i [3; 1/2] 0) /\ lognormal_cov (fun i => nth i [1; -2] 0) (diagonal_matrix (fun i => nth i [3; 1/2] 0)) 0 0 <> 1.
Proof.
  destruct C70_diagonal_nonvacuous as [d E]. exists d. split; [exact E|]. split; [exact (vec_list [1; -2])|]. split; [exact (vec_list [3; 1/2])|].
  unfold lognormal_cov. cbn [Nat.eqb nth]. intros K. assert (A : 1 < exp (1 + 1 + (3 + 3) / 2)). { rewrite <- exp_0 at 1. apply exp_increasing. lra. }
  assert (B : 1 + 3 < exp 3) by (apply exp_ineq1; lra). nra.
Qed.

(** the standard normals: default and standard are the law with zero mean, unit variance and no correlation *)
Theorem C158_standard :
  let p := PairedNormal.standard (F := xreal) in let b := BvNormal.standard (F := xreal) in
  PairedNormal.default (F := xreal) = p /\ BvNormal.default (F := xreal) = b /\
  PairedNormal.mean p = (Fin 0, Fin 0) /\ PairedNormal.covariance p = [[Fin 1; Fin 0]; [Fin 0; Fin 1]] /\
  BvNormal.mean b = (Fin 0, Fin 0) /\ BvNormal.covariance b = [[Fin 1; Fin 0]; [Fin 0; Fin 1]] /\ BvNormal.correlation b = [[Fin 1; Fin 0]; [Fin 0; Fin 1]] /\
  PairedNormal.new (Fin 0, Fin 0) (Fin 1, Fin 1) = Ok p /\ BvNormal.new (Fin 0, Fin 0) (Fin 1, Fin 1) (Fin 0) = Ok b.
Proof.
  assert (Z0 : f_of_Z 0 = Fin 0) by apply x_lit. assert (Z1 : f_of_Z 1 = Fin 1) by apply x_lit.
  assert (EP : PairedNormal.standard = PairedNormal.new_unchecked (Fin 0, Fin 0) (Fin 1, Fin 1)).
  { unfold PairedNormal.standard, PairedNormal.isotropic_unchecked. now rewrite Z0, Z1. }
  assert (EB : BvNormal.standard = BvNormal.new_unchecked (Fin 0, Fin 0) (Fin 1, Fin 1) (Fin 0)).
  { unfold BvNormal.standard, BvNormal.isotropic_unchecked, BvNormal.independent_unchecked. now rewrite Z0, Z1. }
  cbv zeta. split; [reflexivity|]. split; [reflexivity|]. rewrite EP, EB. split; [reflexivity|].
  split; [unfold PairedNormal.covariance; rewrite !Z0; reflexivity|]. split; [reflexivity|].
  split. { unfold BvNormal.covariance. cbn [BvNormal.new_unchecked BvNormal.pr BvNormal.rho BvNormal.mu BvNormal.s2 fst snd]. xs. rewrite ?sqrt_1. repeat f_equal; ring. }
  split. { unfold BvNormal.correlation. cbn [BvNormal.new_unchecked BvNormal.pr BvNormal.rho]. now rewrite !Z1. }
  split; [apply pn_new_iff|apply bv_new_iff]; (split; [lra|reflexivity]).
Qed.
Print Assumptions C158_standard.

(** the median of Beta is exactly this function of the shapes, and a panic outside its four cases:
    the constants stored for (3, 2) and (2, 3) are never returned *)
Theorem C158_beta_median (a b : R) (d : Beta.t xreal) :
  Beta.new (Fin a) (Fin b) = Ok d ->
  let close x y := Rabs (x - y) < / 10000000 in
  (close a b -> Beta.median d = Ret (Fin (1 / 2))) /\
  (~ close a b -> 1 < a -> 1 < b -> Beta.median d = Ret (Fin ((a - 1 / 3) / (a + b - 2 / 3)))) /\
  (~ close a b -> ~ (1 < a /\ 1 < b) -> close a 1 -> Beta.median d = Ret (Fin (1 - Rpower 2 (- 1 / b)))) /\
  (~ close a b -> ~ (1 < a /\ 1 < b) -> ~ close a 1 -> close b 1 -> Beta.median d = Ret (Fin (Rpower 2 (- 1 / a)))) /\
  (~ close a b -> ~ (1 < a /\ 1 < b) -> ~ close a 1 -> ~ close b 1 -> Beta.median d = Panic).
Proof.
  intros H close. unfold Beta.new in H. inv_new H. unfold Beta.median, ONE_THIRD, TWO_THIRDS. cbn [Beta.pr Beta.alpha Beta.beta].
  assert (PT : 1 / 10000000 = / 10000000) by (unfold Rdiv; ring).
  assert (A1 : forall t, 0 < t -> (Fin (- (1)) / Fin t)%rs = Fin (- (1) / t)).
  { intros t Ht. xs. reflexivity. }
  assert (EA := A1 a ltac:(lra)). assert (EB := A1 b ltac:(lra)). clear A1.
  unfold close. xs. rewrite ?PT. change (-1) with (- (1)).
  rewrite EA, EB, !x_powf by lra.
  split; [|split; [|split; [|split]]].
  - intros C. rewrite (Rltb_true _ _ C). reflexivity.
  - intros C A B. rewrite (Rltb_false (Rabs (a - b))) by lra. rewrite (Rltb_true 1 a A), (Rltb_true 1 b B). cbn [andb]. xs. reflexivity.
  - intros C N A. rewrite (Rltb_false (Rabs (a - b))) by lra. rewrite (Rltb_true _ _ A).
    destruct (Rltb_spec 1 a), (Rltb_spec 1 b); cbn [andb]; xs; try reflexivity. exfalso. tauto.
  - intros C N A B. rewrite (Rltb_false (Rabs (a - b))) by lra. rewrite (Rltb_false (Rabs (a - 1))) by lra. rewrite (Rltb_true _ _ B).
    destruct (Rltb_spec 1 a), (Rltb_spec 1 b); cbn [andb]; xs; try reflexivity. exfalso. tauto.
  - intros C N A B. rewrite (Rltb_false (Rabs (a - b))) by lra. rewrite (Rltb_false (Rabs (a - 1))) by lra. rewrite (Rltb_false (Rabs (b - 1))) by lra.
    assert (K : forall u v, Rabs (a - u) < / 10000000 -> Rabs (b - v) < / 10000000 -> 2 <= u -> 2 <= v -> False).
    { intros u v U V U2 V2. apply Rabs_def2 in U, V. apply N; lra. }
    destruct (Rltb_spec 1 a), (Rltb_spec 1 b); cbn [andb]; try (exfalso; tauto).
    all: destruct (Rltb_spec (Rabs (a - 3)) (/ 10000000)), (Rltb_spec (Rabs (b - 2)) (/ 10000000)); cbn [andb]; try (exfalso; eapply K; [eassumption|eassumption|lra|lra]).
    all: destruct (Rltb_spec (Rabs (a - 2)) (/ 10000000)), (Rltb_spec (Rabs (b - 3)) (/ 10000000)); cbn [andb]; try (exfalso; eapply K; [eassumption|eassumption|lra|lra]).
    all: reflexivity.
Qed.
Print Assumptions C158_beta_median.
Example C158_beta_median_ex : (exists d, Beta.new (Fin 3) (Fin 2) = Ok d /\ Beta.median d = Ret (Fin (8 / 13))) /\
  (exists d, Beta.new (Fin (1 / 2)) (Fin 3) = Ok d /\ Beta.median d = Panic).
Proof.
  split.
  - assert (N : Beta.new (Fin 3) (Fin 2) = Ok (Beta.new_unchecked (Fin 3) (Fin 2))) by (unfold Beta.new; etransitivity; [ok_new|reflexivity]).
    eexists. split; [exact N|]. destruct (C158_beta_median 3 2 _ N) as (_ & H & _).
    rewrite H; [do 2 f_equal; field| |lra|lra]. intros K. apply Rabs_def2 in K. lra.
  - assert (N : Beta.new (Fin (1 / 2)) (Fin 3) = Ok (Beta.new_unchecked (Fin (1 / 2)) (Fin 3))) by (unfold Beta.new; etransitivity; [ok_new|reflexivity]).
    eexists. split; [exact N|]. apply (C158_beta_median (1 / 2) 3 _ N); try (intros K; apply Rabs_def2 in K); lra.
Qed.

(** Poisson: one support whatever the rate *)
Theorem C158_poisson_support (l l' : R) (d d' : Poisson.t xreal) :
  Poisson.new (Fin l) = Ok d -> Poisson.new (Fin l') = Ok d' -> Poisson.support d = Naturals /\ Poisson.support d' = Poisson.support d.
Proof. intros _ _. split; reflexivity. Qed.
Print Assumptions C158_poisson_support.

Open Scope string_scope.
Ltac inv_text :=
  repeat match goal with
    | |- context [check ?c ?v] => let w := fresh "w" in let E := fresh "E" in
        destruct (check c v) as [w|] eqn:E; cbn [and_then map_ok map_err]; [|discriminate];
        apply check_ok_inv in E as [-> _]
    end;
  let H := fresh "H" in intros H; inversion H; subst; reflexivity.
Definition text2 (name o x y c : string) : string := String.append name (String.append o (String.append x (String.append ", " (String.append y c)))).
(** the texts not covered by C150_arguments: those printing a value computed from the arguments *)
Theorem C158_texts {F} {SF : Scalar F} {FM : Fmt F} {SP : Special F} (x y z : F) :
  (forall d, UniformF.new x y = Ok d -> UniformF_fmt d = text2 "U" "(" (show x) (show (x + y)%rs) ")") /\
  (forall d, Arcsine.new x y = Ok d -> Arcsine_fmt d = text2 "Arcsine" "(" (show x) (show (x + y)%rs) ")") /\
  (forall d, Triangular.new x y z = Ok d -> Triangular_fmt d = text2 "Triangular" "(" (show x) (show (x + y + z)%rs) (", " ++ show (x + y)%rs ++ ")")) /\
  (forall d, LogNormal.new x y = Ok d -> LogNormal_fmt d = text2 "LogNormal" "(" (show x) (show (LogNormal.variance d)) ")") /\
  (forall d, FoldedNormal.new x y = Ok d -> FoldedNormal_fmt d = text2 "FN" "(" (show x) (show (FoldedNormal.variance d)) ")") /\
  (forall k, DegenerateI_fmt (DegenerateI.new k) = "δ(x - " ++ show_Z k ++ ")") /\
  DegenerateF_fmt (DegenerateF.new x) = "δ(x - " ++ show x ++ ")" /\
  (forall m s r d, BvNormal.new m s r = Ok d -> BvNormal_fmt d =
     text2 "N" "(" ("[" ++ debug (fst m) ++ ", " ++ debug (snd m) ++ "]") (debug_arr (map (fun r => debug_arr (map debug r)) (BvNormal.covariance d))) ")").
Proof.
  assert (AN : forall s, String.append s EmptyString = s) by (induction s; cbn; congruence).
  assert (AA : forall a b c, String.append (String.append a b) c = String.append a (String.append b c)) by (induction a; cbn; congruence).
  split. { intros d. unfold UniformF.new, UniformF.params_new, loc_new, scale_new. inv_text. }
  split. { intros d H. unfold Arcsine.new in H. apply map_params_inv in H as [-> _]. reflexivity. }
  split. { intros d H. unfold Triangular.new in H. apply map_params_inv in H as [-> _]. reflexivity. }
  split. { intros d. unfold LogNormal.new, UvNormal.new, UvNormal.params_new, loc_new, isotropic_new. inv_text. }
  split. { intros d H. unfold FoldedNormal.new in H. apply map_params_inv in H as [-> _]. reflexivity. }
  split; [reflexivity|]. split; [reflexivity|].
  intros m s r d H. assert (E : BvNormal.mu (BvNormal.pr d) = m).
  { revert H. unfold BvNormal.new, BvNormal.params_bivariate, loc_new. cbn [and_then map_ok map_err].
    destruct (bivariate_new (arr2 s) r) as [[w q]|]; cbn [and_then map_ok map_err]; [|discriminate]. intros H. injection H as <-. reflexivity. }
  unfold BvNormal_fmt, BvNormal.mean, text2. rewrite E. unfold debug_arr. cbn [arr2 map commas cat]. rewrite ?AN, ?AA. cbn [String.append]. rewrite ?AN, ?AA. reflexivity.
Qed.
Print Assumptions C158_texts.
Example C158_texts_ex : (exists d, UniformF.new (Fin 0) (Fin 1) = Ok d) /\ (exists d, Arcsine.new (Fin 0) (Fin 1) = Ok d) /\ (exists d, Triangular.new (Fin 0) (Fin 1) (Fin 1) = Ok d) /\
  (exists d, BvNormal.new (Fin 0, Fin 0) (Fin 1, Fin 1) (Fin 0) = Ok d).
Proof.
  split; [eexists; apply uniform_new_ok; lra|]. split; [eexists; unfold Arcsine.new; ok_new|]. split; [eexists; unfold Triangular.new; ok_new|].
  eexists. apply bv_new_iff. split; [lra|reflexivity].
Qed.
