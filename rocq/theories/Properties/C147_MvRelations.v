(** * Property C147: multivariate families agree with their lower-dimensional and independent special cases *)
From Coq Require Import Reals Lra Lia Psatz List ZArith.
From Coquelicot Require Import Coquelicot.
From Verif.Num Require Import Scalar XReal.
From Verif.Model Require Import Rust Constraints Probability Params Consts Traits Continuous Continuous2 Continuous3 Normal2 Linalg MvNormal Multivariate.
From Verif.Spec Require Import DistSpec GammaSpec ResSpec SampleSpec MvSpec LapackSpec.
From Verif.Proofs Require Import ConstraintProofs NewInv XTac Calc Gauss Gauss2 GammaFun Oracle ContProofs9 ContProofs14 Normal2Proofs Matrix MvProofs MvProofs2 MvProofs3 LapackInst DirichletProofs.
From Verif.Properties Require Import C142_Relations.
Import ListNotations.
Open Scope R_scope.

Lemma pow2_eq (x : R) : x ^ 2 = x * x. Proof. ring. Qed.
Lemma is_vec1 m : is_vec 1 [Fin m] (fun _ => m).
Proof. split; [reflexivity|]. intros [|i] Hi; [reflexivity|lia]. Qed.
Lemma is_mat1 v : is_mat 1 [[Fin v]] (fun _ _ => v).
Proof. split; [reflexivity|]. intros [|i] Hi; [apply is_vec1|lia]. Qed.
Lemma spd1 v : 0 < v -> spd 1 (fun _ _ => v).
Proof. intros Hv. split; [intros i j _ _; reflexivity|]. intros x (i & Hi & Hx). destruct i; [|lia]. unfold qform. cbn [rsum]. assert (0 < x 0%nat * x 0%nat) by (now apply Rsqr_pos_lt). nra. Qed.
Lemma mv_new {LA : Lapack xreal} mu Sg d : MvNormal.new mu Sg = Ok d -> d = MvNormal.new_unchecked mu Sg.
Proof.
  unfold MvNormal.new, MvNormal.params_multivariate, matrix_new, loc_new. cbn [map_err and_then]. destruct (check _ Sg) eqn:E; [|discriminate].
  apply check_ok_inv in E as [-> _]. cbn. intros H. now injection H as <-.
Qed.

(** a one-dimensional MvNormal is the univariate Normal *)
Theorem C147_one_dimension {LA : Lapack xreal} (m v : R) (d : MvNormal.MvN xreal (list (list xreal))) (u : UvNormal.t xreal) :
  lapack_ok LA -> MvNormal.new [Fin m] [[Fin v]] = Ok d -> UvNormal.new (Fin m) (Fin v) = Ok u ->
  (forall x : R, MvNormal.pdf d [Fin x] = UvNormal.pdf u (Fin x)) /\
  (forall x : R, returns (UvNormal.z u (Fin x)) (fun z => MvNormal.d_mahalanobis_squared d [Fin x] = Fin (z * z))) /\
  MvNormal.mean d = [UvNormal.mean u] /\ MvNormal.variance d = [UvNormal.variance u] /\ MvNormal.covariance d = [[UvNormal.variance u]] /\
  MvNormal.shannon_entropy d = UvNormal.shannon_entropy u.
Proof.
  intros HLA H1 H2. apply mv_new in H1. apply uvn_new_inv in H2 as [Hv ->]. subst d.
  destruct (mvn_factors HLA 1 _ _ _ _ (is_vec1 m) (is_mat1 v) (spd1 v Hv)) as (L & P & _ & _ & _ & _ & HP & SP & AP & _ & Hd & Hp).
  assert (D1 : det 1 (fun _ _ => v) = v) by (cbn [det rsum pow]; ring).
  assert (P0 : P 0%nat 0%nat = / v). { assert (E := AP 0%nat 0%nat ltac:(lia) ltac:(lia)). unfold mmul, ident in E. cbn [rsum Nat.eqb] in E. apply Rmult_eq_reg_l with v; [|lra]. rewrite Rinv_r by lra. lra. }
  assert (DI : forall x, MvNormal.d_mahalanobis_squared (MvNormal.new_unchecked [Fin m] [[Fin v]]) [Fin x] = Fin ((x - m) * (x - m) / v)).
  { intros x. rewrite (mvn_dist2 HLA 1 _ _ _ (is_vec1 m) P _ _ HP (is_vec1 x)). f_equal. cbn [rsum Nat.ltb Nat.leb]. rewrite P0. field. lra. }
  assert (SV := sqrt_lt_R0 v Hv). assert (SS := sqrt_sqrt v ltac:(lra)). assert (Q := PI_RGT_0). assert (K := sqrt2PI_pos).
  assert (ZZ : forall x, UvNormal.z (UvNormal.new_unchecked (Fin m) (Fin v)) (Fin x) = Fin ((x - m) / sqrt v)).
  { intros x. unfold UvNormal.z. cbn [UvNormal.pr UvNormal.mu UvNormal.Sigma UvNormal.new_unchecked]. xs. reflexivity. }
  assert (Z2 : forall x, (x - m) * (x - m) / v = (x - m) / sqrt v * ((x - m) / sqrt v)).
  { intros x. set (w := sqrt v) in *. rewrite <- SS. field. lra. }
  split; [|split; [|split; [|split; [|split]]]].
  - intros x. rewrite un_pdf by assumption. unfold MvNormal.pdf. rewrite (pdf_with_ok _ (MvNormal.new_unchecked [Fin m] [[Fin v]]) _ 1 _ _ eq_refl ltac:(lia) Hd Hp (DI x)). rewrite D1. f_equal.
    rewrite pow_1. rewrite sqrt_mult by lra. unfold phi. rewrite (Z2 x).
    replace (- ((x - m) / sqrt v * ((x - m) / sqrt v)) / 2) with (- ((x - m) / sqrt v * ((x - m) / sqrt v) / 2)) by (field; lra). field. lra.
  - intros x. eexists. split; [apply ZZ|]. rewrite DI. f_equal. apply Z2.
  - reflexivity.
  - reflexivity.
  - reflexivity.
  - rewrite (entropy_ok (MvNormal.new_unchecked [Fin m] [[Fin v]]) 1 (det 1 (fun _ _ => v)) eq_refl Hd Hp). rewrite D1.
    unfold UvNormal.shannon_entropy, PI_E_2, PI_E. cbn [UvNormal.pr UvNormal.Sigma UvNormal.new_unchecked]. assert (EP := exp_pos 1). xs. f_equal. cbn [INR].
    assert (EL : ln (2 * PI * (exp 1 * v)) = ln (2 * PI) + (1 + ln v)). { rewrite (ln_mult (2 * PI)) by (try lra; apply Rmult_lt_0_compat; lra). rewrite (ln_mult (exp 1) v), ln_exp by lra. reflexivity. }
    match goal with |- _ = ln ?t / 2 => replace t with (2 * PI * (exp 1 * v)) by ring end. rewrite EL. field.
Qed.
Print Assumptions C147_one_dimension.

(** the general MvNormal with independent coordinates, PairedNormal and BvNormal with rho = 0 have one density *)
Theorem C147_independent {LA : Lapack xreal} (m0 m1 a b : R) (d : MvNormal.MvN xreal (list (list xreal))) (pn : PairedNormal.t xreal) (bv : BvNormal.t xreal) (u0 u1 : UvNormal.t xreal) :
  lapack_ok LA -> MvNormal.new [Fin m0; Fin m1] [[Fin a; Fin 0]; [Fin 0; Fin b]] = Ok d ->
  PairedNormal.new (Fin m0, Fin m1) (Fin a, Fin b) = Ok pn -> BvNormal.new (Fin m0, Fin m1) (Fin a, Fin b) (Fin 0) = Ok bv ->
  UvNormal.new (Fin m0) (Fin a) = Ok u0 -> UvNormal.new (Fin m1) (Fin b) = Ok u1 ->
  (forall x y : R, MvNormal.pdf d [Fin x; Fin y] = PairedNormal.pdf pn (Fin x, Fin y) /\ BvNormal.pdf bv (Fin x, Fin y) = PairedNormal.pdf pn (Fin x, Fin y) /\
    PairedNormal.pdf pn (Fin x, Fin y) = fmul (UvNormal.pdf u0 (Fin x)) (UvNormal.pdf u1 (Fin y))) /\
  MvNormal.covariance d = PairedNormal.covariance pn /\ BvNormal.covariance bv = PairedNormal.covariance pn /\ BvNormal.correlation bv = PairedNormal.correlation pn /\
  MvNormal.mean d = [fst (PairedNormal.mean pn); snd (PairedNormal.mean pn)] /\ MvNormal.variance d = [fst (PairedNormal.variance pn); snd (PairedNormal.variance pn)] /\
  BvNormal.mean bv = PairedNormal.mean pn /\ BvNormal.variance bv = PairedNormal.variance pn.
Proof.
  intros HLA H1 H2 H3 H4 H5. apply mv_new in H1. subst d. apply pn_new_iff in H2 as [[Ha Hb] ->]. apply bv_new_iff in H3 as [_ ->]. apply uvn_new_inv in H4 as [_ ->]. apply uvn_new_inv in H5 as [_ ->].
  assert (SA := sqrt_lt_R0 a Ha). assert (SB := sqrt_lt_R0 b Hb). assert (QA := sqrt_sqrt a ltac:(lra)). assert (QB := sqrt_sqrt b ltac:(lra)). assert (Q := PI_RGT_0). assert (K := sqrt2PI_pos). assert (KK := sqrt_sqrt (2 * PI) ltac:(lra)).
  split; [|split; [|split; [|split; [|split; [|split; [|split]]]]]].
  - intros x y. assert (PU : PairedNormal.pdf (PairedNormal.new_unchecked (Fin m0, Fin m1) (Fin a, Fin b)) (Fin x, Fin y) = fmul (UvNormal.pdf (UvNormal.new_unchecked (Fin m0) (Fin a)) (Fin x)) (UvNormal.pdf (UvNormal.new_unchecked (Fin m1) (Fin b)) (Fin y))).
    { rewrite pn_pdf by assumption. rewrite !un_pdf by assumption. xs. f_equal. unfold normal_density, phi. rewrite !pow2_eq.
      replace (- ((x - m0) / sqrt a * ((x - m0) / sqrt a)) / 2) with (- ((x - m0) / sqrt a * ((x - m0) / sqrt a) / 2)) by (field; lra).
      replace (- ((y - m1) / sqrt b * ((y - m1) / sqrt b)) / 2) with (- ((y - m1) / sqrt b * ((y - m1) / sqrt b) / 2)) by (field; lra). field. lra. }
    split; [|split; [symmetry; now apply pn_bv|exact PU]].
    rewrite pn_pdf by assumption. assert (AB : 0 < a * b - 0 * 0) by (assert (0 < a * b) by (now apply Rmult_lt_0_compat); lra). rewrite (mvn2_pdf HLA m0 m1 a b 0 Ha AB x y). f_equal.
    unfold normal_density. replace (a * b - 0 * 0) with (a * b) by ring. rewrite sqrt_mult by lra.
    transitivity (exp (- ((x - m0) / sqrt a) ^ 2 / 2 + - ((y - m1) / sqrt b) ^ 2 / 2) / (2 * PI * (sqrt a * sqrt b))).
    + f_equal. f_equal. rewrite !pow2_eq. set (p := sqrt a) in *. set (q := sqrt b) in *. rewrite <- QA, <- QB. field. lra.
    + rewrite exp_plus. set (k := sqrt (2 * PI)) in *. rewrite <- KK. field. lra.
  - reflexivity.
  - unfold BvNormal.covariance, PairedNormal.covariance. cbn [BvNormal.pr BvNormal.new_unchecked PairedNormal.pr PairedNormal.new_unchecked PairedNormal.Sigma fst snd]. xs. rewrite ?Rmult_0_l. reflexivity.
  - reflexivity.
  - reflexivity.
  - reflexivity.
  - reflexivity.
  - reflexivity.
Qed.
Print Assumptions C147_independent.

(** the general MvNormal in the plane and BvNormal draw the same points from the same random source *)
Theorem C147_bivariate_samples {LA : Lapack xreal} (m0 m1 a b r : R) (d : MvNormal.MvN xreal (list (list xreal))) (bv : BvNormal.t xreal) :
  lapack_ok LA -> let c := r * (sqrt a * sqrt b) in MvNormal.new [Fin m0; Fin m1] [[Fin a; Fin c]; [Fin c; Fin b]] = Ok d ->
  BvNormal.new (Fin m0, Fin m1) (Fin a, Fin b) (Fin r) = Ok bv -> -1 < r < 1 ->
  MvNormal.covariance d = BvNormal.covariance bv /\
  forall G (RG : Rng G xreal) g z0 z1 g', normal_draws g [z0; z1] g' ->
    returns (fst (fst (BvNormal.sample bv g))) (fun x => returns (snd (fst (BvNormal.sample bv g))) (fun y => MvNormal.sample d g = ([Fin x; Fin y], g'))) /\ snd (BvNormal.sample bv g) = g'.
Proof.
  intros HLA c H1 H2 Hr. apply mv_new in H1. subst d. apply bv_new_iff in H2 as [(Ha & Hb & _) ->].
  assert (SA := sqrt_lt_R0 a Ha). assert (SB := sqrt_lt_R0 b Hb). assert (QA := sqrt_sqrt a ltac:(lra)). assert (QB := sqrt_sqrt b ltac:(lra)).
  assert (RR : 0 < 1 - r * r) by nra. assert (SR := sqrt_lt_R0 _ RR). assert (QR := sqrt_sqrt (1 - r * r) ltac:(lra)).
  assert (AB : 0 < a * b - c * c). { unfold c. replace (r * (sqrt a * sqrt b) * (r * (sqrt a * sqrt b))) with (r * r * ((sqrt a * sqrt a) * (sqrt b * sqrt b))) by ring. rewrite QA, QB. assert (0 < a * b) by (now apply Rmult_lt_0_compat). nra. }
  split.
  - unfold BvNormal.covariance, MvNormal.covariance. cbn [BvNormal.pr BvNormal.new_unchecked MvNormal.pr MvNormal.new_unchecked MvNormal.Sigma fst snd]. xs. reflexivity.
  - intros G RG g z0 z1 g' HG.
    destruct (mvn_factors HLA 2 _ _ _ _ (is_vec2 m0 m1) (is_mat2 a c c b) (spd2 a b c Ha AB)) as (L & P & HL & LU & LP & LL & _).
    destruct (mvn_sample HLA 2 _ _ _ (is_vec2 m0 m1) L HL LU G RG g [z0; z1] g' eq_refl HG) as [E1 E2].
    assert (L00 := LL 0%nat 0%nat ltac:(lia) ltac:(lia)). assert (L10 := LL 1%nat 0%nat ltac:(lia) ltac:(lia)). assert (L11 := LL 1%nat 1%nat ltac:(lia) ltac:(lia)). assert (L01 := LU 0%nat 1%nat ltac:(lia) ltac:(lia)). assert (P0 := LP 0%nat ltac:(lia)). assert (P1 := LP 1%nat ltac:(lia)).
    unfold mmul, transp in L00, L10, L11. cbn [rsum mat2] in L00, L10, L11. rewrite L01 in *.
    assert (K0 : L 0%nat 0%nat = sqrt a). { apply Rsqr_inj; [lra|lra|]. unfold Rsqr. lra. }
    assert (K1 : L 1%nat 0%nat = r * sqrt b). { rewrite K0 in L10. apply Rmult_eq_reg_r with (sqrt a); [|lra]. unfold c in L10. lra. }
    assert (K2 : L 1%nat 1%nat = sqrt b * sqrt (1 - r * r)). { apply Rsqr_inj; [lra|apply Rlt_le, Rmult_lt_0_compat; lra|]. unfold Rsqr. rewrite K1 in L11. replace (sqrt b * sqrt (1 - r * r) * (sqrt b * sqrt (1 - r * r))) with (sqrt b * sqrt b * (sqrt (1 - r * r) * sqrt (1 - r * r))) by ring. rewrite QR. nra. }
    assert (DD : exists ga, draw_std_normal g = (Fin z0, ga) /\ draw_std_normal ga = (Fin z1, g')). { clear - HG. inversion HG as [|? ? ga ? ? D0 HG1]; subst. inversion HG1 as [|? ? gb ? ? D1 HG2]; subst. inversion HG2; subst. eauto. } destruct DD as (ga & D0 & D1).
    assert (BS : BvNormal.sample (BvNormal.new_unchecked (Fin m0, Fin m1) (Fin a, Fin b) (Fin r)) g = ((Fin (m0 + sqrt a * z0), Fin (m1 + sqrt b * (z0 * r + z1 * sqrt (1 - r * r)))), g')).
    { unfold BvNormal.sample. rewrite D0, D1. cbn [BvNormal.pr BvNormal.new_unchecked fst snd]. xs. reflexivity. }
    rewrite BS. cbn [fst snd]. split; [|reflexivity]. eexists; split; [reflexivity|]. eexists; split; [reflexivity|].
    rewrite (surjective_pairing (MvNormal.sample _ g)). f_equal; [|exact E1].
    rewrite (vec_eq _ _ _ E2). unfold tab. cbn [seq map rsum nth vec2]. rewrite L01, K0, K1, K2. f_equal; [f_equal; ring|]. f_equal. f_equal. ring.
Qed.
Print Assumptions C147_bivariate_samples.

Lemma vec_nth_error n l v i : is_vec n l v -> (i < n)%nat -> nth_error l i = Some (Fin (v i)).
Proof. intros [E1 E2] Hi. rewrite (nth_error_nth' l NaN) by lia. now rewrite E2. Qed.
(** Dirichlet(a, b) is Beta(a, b) for its first coordinate *)
Theorem C147_dirichlet_beta (SP : Special xreal) (a b : R) (be : Beta.t xreal) :
  loggamma_exact SP -> beta_exact SP -> Beta.new (Fin a) (Fin b) = Ok be -> let d := Dirichlet.new_unchecked [Fin a; Fin b] in
  (forall x : R, 0 < x < 1 -> Dirichlet.pdf d [Fin x; Fin (1 - x)] = Beta.pdf be (Fin x)) /\
  nth_error (Dirichlet.mean d) 0 = Some (Beta.mean be) /\ nth_error (Dirichlet.variance d) 0 = Some (Beta.variance be).
Proof.
  intros Hl Hb H d. unfold Beta.new in H. inv_new H. assert (Ha : 0 < a) by assumption. assert (Hbb : 0 < b) by assumption. change (Beta.mk _) with (Beta.new_unchecked (Fin a) (Fin b)).
  assert (N : [a; b] <> []) by discriminate. assert (AP : allpos [a; b]) by (intros q [<-|[<-|[]]]; assumption).
  unfold d. change [Fin a; Fin b] with (map Fin [a; b]). split; [|split].
  - intros x Hx. change [Fin x; Fin (1 - x)] with (map Fin [x; 1 - x]). rewrite (proj2 (dir_pdf SP Hl [a; b] N AP [x; 1 - x] eq_refl ltac:(intros q [<-|[<-|[]]]; lra))).
    rewrite (be_pdf Hb) by first [lra | split; cbn; lra]. f_equal. unfold dir_f, be_u, beta_h, gprod. cbn [fold_right dens]. assert (G := Beta_Gamma a b Ha Hbb). assert (BP := Bet_pos a b Ha Hbb). assert (G1 := Gam_pos a Ha). assert (G2 := Gam_pos b Hbb). assert (G3 := Gam_pos (a + b) ltac:(lra)).
    replace (a + (b + 0)) with (a + b) by ring. assert (GG : Gam a * (Gam b * 1) = Bet a b * Gam (a + b)) by lra. rewrite GG. field. lra.
  - rewrite (vec_nth_error _ _ _ 0 (dir_mean_val SP [a; b] N AP)) by (cbn; lia). rewrite be_mean_val by assumption. do 2 f_equal. cbn [nth fold_right]. field. lra.
  - rewrite (vec_nth_error _ _ _ 0 (dir_var_val SP [a; b] N AP)) by (cbn; lia). rewrite be_var_val by assumption. do 2 f_equal. cbn [nth fold_right]. field. lra.
Qed.
Print Assumptions C147_dirichlet_beta.

(** a one-dimensional MvLogNormal does NOT have the moments of the univariate LogNormal with the same parameters: the
    latter squares the variance parameter, so their means agree exactly when the variance is one *)
Theorem C147_lognormal_refuted (m v : R) (d : MvLogNormal.t xreal xreal) (u : LogNormal.t xreal) :
  MvLogNormal.isotropic [Fin m] (Fin v) = Ok d -> LogNormal.new (Fin m) (Fin v) = Ok u ->
  (MvLogNormal.mean MvNormal.isotropic_variance d = [LogNormal.mean u] <-> v = 1) /\
  (v = 1 -> MvLogNormal.variance MvNormal.isotropic_variance d = [LogNormal.variance u] /\
    MvLogNormal.covariance MvNormal.isotropic_covariance d = [[LogNormal.variance u]]).
Proof.
  intros H1 H2. unfold MvLogNormal.isotropic in H1. destruct (MvNormal.isotropic [Fin m] (Fin v)) eqn:E1; [|discriminate]. cbn [map_ok] in H1. injection H1 as <-. apply (mvi_new_iff [Fin m] v) in E1 as [Hv ->].
  unfold LogNormal.new in H2. destruct (UvNormal.new (Fin m) (Fin v)) eqn:E; [|discriminate]. apply uvn_new_inv in E as [_ ->]. injection H2 as <-.
  assert (M1 : MvLogNormal.mean MvNormal.isotropic_variance (MvLogNormal.mk (MvNormal.isotropic_unchecked [Fin m] (Fin v))) = [Fin (exp (m + v / 2))]).
  { unfold MvLogNormal.mean, MvNormal.dim, tab. cbn [MvLogNormal.nrm MvNormal.pr MvNormal.mu MvNormal.isotropic_unchecked length seq map]. unfold MvNormal.isotropic_variance, MvNormal.dim. cbn [MvNormal.pr MvNormal.mu MvNormal.Sigma MvNormal.isotropic_unchecked length repeat]. unfold vget. cbn [nth]. xs. reflexivity. }
  assert (M2 : LogNormal.mean (LogNormal.mk (UvNormal.new_unchecked (Fin m) (Fin v))) = Fin (exp (m + v * v / 2))).
  { unfold LogNormal.mean, LogNormal.mu, LogNormal.sigma. cbn [LogNormal.nrm UvNormal.pr UvNormal.mu UvNormal.Sigma UvNormal.new_unchecked]. xs. reflexivity. }
  split.
  - rewrite M1, M2. split.
    + intros E. assert (E' : exp (m + v / 2) = exp (m + v * v / 2)) by congruence. apply exp_inv in E'. assert (EE : v * (v - 1) = 0) by lra. apply Rmult_integral in EE as [EE|EE]; lra.
    + intros ->. now rewrite Rmult_1_l.
  - intros ->. unfold MvLogNormal.variance, MvLogNormal.covariance, LogNormal.variance, LogNormal.mu, LogNormal.sigma. cbv zeta. split.
    + unfold MvNormal.dim, tab. cbn [MvLogNormal.nrm MvNormal.pr MvNormal.mu MvNormal.isotropic_unchecked length seq map]. unfold MvNormal.isotropic_variance, MvNormal.dim. cbn [MvNormal.pr MvNormal.mu MvNormal.Sigma MvNormal.isotropic_unchecked length repeat LogNormal.nrm UvNormal.pr UvNormal.mu UvNormal.Sigma UvNormal.new_unchecked]. unfold vget. cbn [nth]. xs. do 2 f_equal. rewrite !Rmult_1_l. ring.
    + unfold MvNormal.dim. cbn [MvLogNormal.nrm MvNormal.pr MvNormal.mu MvNormal.isotropic_unchecked length]. unfold MvNormal.isotropic_covariance, MvNormal.dim, mtab, tab. cbn [MvNormal.pr MvNormal.mu MvNormal.Sigma MvNormal.isotropic_unchecked length seq map Nat.eqb].
      unfold MvLogNormal.cov_loop. cbn [seq fold_left Nat.add Nat.sub]. unfold MvLogNormal.update_index, mat_set, mat_get, vget. cbn [nth set_nth LogNormal.nrm UvNormal.pr UvNormal.mu UvNormal.Sigma UvNormal.new_unchecked]. xs. do 3 f_equal. rewrite Rmult_1_l. replace (m + m + (1 + 1) / 2) with (2 * m + 1) by field. ring.
Qed.
Print Assumptions C147_lognormal_refuted.

Lemma mv_new_ok2 (mu : list xreal) (a b c d : R) : 0 <= a -> 0 <= b -> 0 <= c -> 0 <= d -> exists x, MvNormal.new (LA := xla) mu [[Fin a; Fin b]; [Fin c; Fin d]] = Ok x.
Proof.
  intros. unfold MvNormal.new, MvNormal.params_multivariate, matrix_new, loc_new. cbn [map_err and_then].
  rewrite check_ok; [eexists; reflexivity|]. cbn [is_satisfied_by forallb pleb pzero POrd_scalar andb]. rewrite !x_lit, !x_leb.
  unfold Rleb. repeat (destruct (Rle_dec _ _); [|lra]). reflexivity.
Qed.
Lemma mv_new_ok1 (mu : list xreal) (a : R) : 0 <= a -> exists x, MvNormal.new (LA := xla) mu [[Fin a]] = Ok x.
Proof.
  intros. unfold MvNormal.new, MvNormal.params_multivariate, matrix_new, loc_new. cbn [map_err and_then].
  rewrite check_ok; [eexists; reflexivity|]. cbn [is_satisfied_by forallb pleb pzero POrd_scalar andb]. rewrite !x_lit, !x_leb.
  unfold Rleb. repeat (destruct (Rle_dec _ _); [|lra]). reflexivity.
Qed.
Example C147_nonvacuous : lapack_ok xla /\ loggamma_exact (exact false) /\ beta_exact (exact false) /\
  (exists d, MvNormal.new (LA := xla) [Fin 1] [[Fin 4]] = Ok d) /\ (exists d, UvNormal.new (Fin 1) (Fin 4) = Ok d) /\
  (exists d, MvNormal.new (LA := xla) [Fin 1; Fin 2] [[Fin 4; Fin 0]; [Fin 0; Fin 9]] = Ok d) /\ (exists d, PairedNormal.new (Fin 1, Fin 2) (Fin 4, Fin 9) = Ok d) /\ (exists d, BvNormal.new (Fin 1, Fin 2) (Fin 4, Fin 9) (Fin 0) = Ok d) /\
  (exists d, UvNormal.new (Fin 2) (Fin 9) = Ok d) /\ (exists d, BvNormal.new (Fin 1, Fin 2) (Fin 4, Fin 9) (Fin (1 / 2)) = Ok d) /\
  (let c := 1 / 2 * (sqrt 4 * sqrt 9) in exists d, MvNormal.new (LA := xla) [Fin 1; Fin 2] [[Fin 4; Fin c]; [Fin c; Fin 9]] = Ok d) /\
  (normal_draws (RG := list_rng) [3; 5] [3; 5] nil) /\ (exists d, Beta.new (Fin 2) (Fin 3) = Ok d) /\
  (exists d, MvLogNormal.isotropic [Fin 1] (Fin 4) = Ok d) /\ (exists d, LogNormal.new (Fin 1) (Fin 4) = Ok d).
Proof.
  split; [apply xla_ok|]. split; [intros a Ha; eexists; split; [reflexivity|now apply Gam_spec]|]. split; [apply ex_beta|].
  split; [apply mv_new_ok1; lra|]. split; [eexists; apply uvn_new_ok; lra|]. split; [apply mv_new_ok2; lra|]. split; [eexists; apply pn_new_iff; split; [|reflexivity]; lra|].
  split; [eexists; apply bv_new_iff; split; [|reflexivity]; lra|]. split; [eexists; apply uvn_new_ok; lra|]. split; [eexists; apply bv_new_iff; split; [|reflexivity]; lra|].
  split; [cbv zeta; assert (0 <= 1 / 2 * (sqrt 4 * sqrt 9)) by (assert (0 <= sqrt 4 * sqrt 9) by (apply Rmult_le_pos; apply sqrt_pos); lra); apply mv_new_ok2; lra|]. split; [apply list_rng_draws|]. split; [eexists; unfold Beta.new; ok_new|].
  split; [unfold MvLogNormal.isotropic|unfold LogNormal.new].
  - assert (P4 : 0 < 4) by lra. rewrite (proj2 (mvi_new_iff [Fin 1] 4 _) (conj P4 eq_refl)). eexists; reflexivity.
  - rewrite uvn_new_ok by lra. eexists; reflexivity.
Qed.
