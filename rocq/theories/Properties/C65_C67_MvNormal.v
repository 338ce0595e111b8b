(** * Properties C65-C67: multivariate normals of any dimension *)
From Coq Require Import Reals Lra Lia Psatz List Arith ZArith.
From Coquelicot Require Import Coquelicot.
From Verif.Num Require Import Scalar XReal.
From Verif.Model Require Import Rust Constraints Probability Params Consts Traits Linalg.
From Verif.Model Require MvNormal Multivariate.
From Verif.Spec Require Import DistSpec SampleSpec MvSpec LapackSpec.
From Verif.Proofs Require Import ConstraintProofs XTac Matrix MvProofs MvProofs2 MvProofs3 LapackInst.
Import ListNotations.
Open Scope R_scope.
Notation diagonal_matrix v := (fun i j : nat => if Nat.eqb i j then v i else 0).

(** C65, what is right: parameters, moments, determinant, entropy formula; the
    squared distance and the sample only in the stated cases *)
Theorem C65_diagonal_partial (n : nat) (mu s : list xreal) (u v : nat -> R) (d : MvNormal.MvN xreal (list xreal)) :
  is_vec n mu u -> is_vec n s v -> MvNormal.diagonal mu s = Ok d ->
  (forall i, (i < n)%nat -> 0 < v i) /\
  (MvNormal.mean d = mu /\ MvNormal.diagonal_variance d = s /\ is_mat n (MvNormal.diagonal_covariance d) (diagonal_matrix v)) /\
  (MvNormal.Sigma_det d = Fin (det n (diagonal_matrix v)) /\
   MvNormal.shannon_entropy d = Fin (1 / 2 * (INR n * (1 + ln (2 * PI)) + ln (det n (diagonal_matrix v))))) /\
  (* the returned "squared distance" is linear *)
  (forall l x, is_vec n l x -> MvNormal.diagonal_mahalanobis_squared d l = Fin (rsum n (fun i => (x i - u i) / (v i * v i)))) /\
  (* right at the mean *)
  ((Z.of_nat n < 2 ^ 31)%Z -> MvNormal.diagonal_pdf d mu = Fin (rprod n (fun i => normal_density (u i) (sqrt (v i)) (u i)))) /\
  (* the sample has covariance diag(v)^2 *)
  samples_affine n (fun G RG g => MvNormal.diagonal_sample d g) u (diagonal_matrix v).
Proof.
  intros Hm Hs H. apply (mvd_new_iff n mu s v Hs) in H as [Hv ->]. assert (Ed := det_diagm n v). unfold diagm in Ed. rewrite Ed.
  assert (Hp : 0 < rprod n v) by now apply rprod_pos.
  split; [exact Hv|]. split; [split; [reflexivity|split; [reflexivity|exact (mvd_cov n mu s u v Hm Hs)]]|].
  split; [split; [exact (mvd_det n mu s v Hs)|apply entropy_ok; auto; [exact (proj1 Hm)|exact (mvd_det n mu s v Hs)]]|].
  split; [intros l x Hx; exact (mvd_dist2 n mu s u v Hm Hs Hv l x Hx)|].
  split; [|exact (mvd_sample n mu s u v Hm Hs)].
  intros Hb. unfold MvNormal.diagonal_pdf. rewrite (pdf_with_ok _ (MvNormal.diagonal_unchecked mu s) _ n _ (rprod n v) (proj1 Hm) Hb (mvd_det n mu s v Hs) Hp (mvd_dist2 n mu s u v Hm Hs Hv mu u Hm)).
  f_equal. rewrite prod_density by auto. f_equal. f_equal. f_equal. f_equal.
  rewrite !rsum_zero; [reflexivity| |]; intros i Hi; assert (K := Hv i Hi); field; lra.
Qed.
Print Assumptions C65_diagonal_partial.
Example C65_diagonal_nonvacuous : exists d, MvNormal.diagonal [Fin 1; Fin (-2); Fin 0] [Fin 3; Fin (1/2); Fin 1] = Ok d.
Proof.
  eexists. apply (mvd_new_iff 3 _ _ (fun i => nth i [3; 1/2; 1] 0)); [exact (vec_list [3; 1/2; 1])|]. split; [|reflexivity].
  intros [|[|[|i]]] Hi; cbn; [lra|lra|lra|lia].
Qed.
(** for all parameters in dimension >= 1 the squared distance takes negative
    values (its root is then no number), the mean is not a mode, and unless every
    variance is one the samples do not have the covariance of the distribution *)
Theorem C65_diagonal_refuted (n : nat) (mu s : list xreal) (u v : nat -> R) (d : MvNormal.MvN xreal (list xreal)) :
  (0 < n)%nat -> is_vec n mu u -> is_vec n s v -> MvNormal.diagonal mu s = Ok d ->
  (exists l x q, is_vec n l x /\ MvNormal.diagonal_mahalanobis_squared d l = Fin q /\ q < 0 /\
     0 < rsum n (fun i => (x i - u i) * (x i - u i) / v i) /\
     MvNormal.d_mahalanobis_of MvNormal.diagonal_mahalanobis_squared d l = NaN /\
     ((Z.of_nat n < 2 ^ 31)%Z -> exists p p0, MvNormal.diagonal_pdf d l = Fin p /\ MvNormal.diagonal_pdf d mu = Fin p0 /\ MvNormal.modes d = [mu] /\ p0 < p)) /\
  ((exists i, (i < n)%nat /\ v i <> 1) ->
   forall B C, samples_affine n (fun G RG g => MvNormal.diagonal_sample d g) u B -> is_mat n (MvNormal.diagonal_covariance d) C ->
     ~ meq n (mmul n B (transp B)) C).
Proof.
  intros Hn Hm Hs H. apply (mvd_new_iff n mu s v Hs) in H as [Hv ->]. assert (Hp : 0 < rprod n v) by now apply rprod_pos. split.
  - set (x := fun i => u i - v i * v i). set (l := tab n (fun i => Fin (x i))).
    assert (Hx : is_vec n l x) by (apply vec_tab; auto).
    assert (Q := mvd_dist2 n mu s u v Hm Hs Hv l x Hx). assert (Q0 := mvd_dist2 n mu s u v Hm Hs Hv mu u Hm).
    set (q := rsum n (fun i => (x i - u i) / (v i * v i))) in *. set (q0 := rsum n (fun i => (u i - u i) / (v i * v i))) in *.
    assert (Hq : q < 0).
    { assert (0 < rsum n (fun _ => 1)) by (apply rsum_pos; auto; intros; lra).
      assert (E : q = - rsum n (fun _ => 1)). { unfold q. rewrite <- rsum_opp. apply rsum_ext. intros i Hi. assert (K := Hv i Hi). unfold x. field. lra. } lra. }
    assert (Hq0 : q0 = 0) by (apply rsum_zero; intros i Hi; assert (K := Hv i Hi); field; lra).
    exists l, x, q. split; [exact Hx|]. split; [exact Q|]. split; [exact Hq|]. split; [|split].
    + apply rsum_pos; auto. intros i Hi. assert (K := Hv i Hi). unfold x.
      replace ((u i - v i * v i - u i) * (u i - v i * v i - u i) / v i) with (v i * v i * v i) by (field; lra). pos.
    + unfold MvNormal.d_mahalanobis_of. rewrite Q. cbn [fsqrt XScalar]. unfold xsqrt. destruct (Rle_dec 0 q); [lra|reflexivity].
    + intros Hb. unfold MvNormal.diagonal_pdf.
      exists (exp (- q / 2) / sqrt ((2 * PI) ^ n * rprod n v)), (exp (- q0 / 2) / sqrt ((2 * PI) ^ n * rprod n v)).
      split; [exact (pdf_with_ok _ (MvNormal.diagonal_unchecked mu s) _ n _ _ (proj1 Hm) Hb (mvd_det n mu s v Hs) Hp Q)|].
      split; [exact (pdf_with_ok _ (MvNormal.diagonal_unchecked mu s) _ n _ _ (proj1 Hm) Hb (mvd_det n mu s v Hs) Hp Q0)|]. split; [reflexivity|].
      apply Rmult_lt_compat_r; [|apply exp_increasing; lra]. apply Rinv_0_lt_compat, sqrt_lt_R0. assert (P := PI_RGT_0). apply Rmult_lt_0_compat; [apply pow_lt; lra|auto].
  - intros [i [Hi Ni]] B C HB HC E. assert (EB := affine_unique _ _ _ _ _ HB (mvd_sample n mu s u v Hm Hs)).
    assert (EC := mat_unique _ _ _ _ HC (mvd_cov n mu s u v Hm Hs)).
    assert (E' := E i i Hi Hi). rewrite EC in E' by auto.
    rewrite (mmul_ext n B (diagm v) (transp B) (transp (diagm v)) i i Hi Hi EB) in E' by (intros a b Ha Hb; unfold transp; now apply EB).
    rewrite diagm_sq, !diagm_ii in E' by auto. assert (K := Hv i Hi). apply Ni. apply (Rmult_eq_reg_l (v i)); lra.
Qed.
Print Assumptions C65_diagonal_refuted.

Theorem C65_isotropic_partial (n : nat) (mu : list xreal) (u : nat -> R) (v : R) (d : MvNormal.MvN xreal xreal) :
  is_vec n mu u -> (Z.of_nat n < 2 ^ 31)%Z -> MvNormal.isotropic mu (Fin v) = Ok d ->
  let V := diagonal_matrix (fun _ : nat => v) in
  0 < v /\
  (MvNormal.mean d = mu /\ is_vec n (MvNormal.isotropic_variance d) (fun _ => v) /\ is_mat n (MvNormal.isotropic_covariance d) V) /\
  (MvNormal.Sigma_det d = Fin (det n V) /\ MvNormal.shannon_entropy d = Fin (1 / 2 * (INR n * (1 + ln (2 * PI)) + ln (det n V)))) /\
  (forall l x, is_vec n l x -> MvNormal.isotropic_mahalanobis_squared d l = Fin (rsum n (fun i => (x i - u i) / (v * v)))) /\
  MvNormal.isotropic_pdf d mu = Fin (rprod n (fun i => normal_density (u i) (sqrt v) (u i))) /\
  samples_affine n (fun G RG g => MvNormal.isotropic_sample d g) u V.
Proof.
  intros Hm Hb H. apply (mvi_new_iff mu v) in H as [Hv ->]. assert (Ed := det_diagm n (fun _ => v)). unfold diagm in Ed. cbv zeta. rewrite Ed, rprod_const.
  assert (Hp : 0 < v ^ n) by now apply pow_lt. assert (D := mvi_det n mu u v Hm Hb).
  split; [exact Hv|]. split; [split; [reflexivity|split]|].
  { unfold MvNormal.isotropic_variance. rewrite (mvi_dim n mu u v Hm). apply vec_repeat. }
  { exact (mvi_cov n mu u v Hm). }
  split; [split; [exact D|apply entropy_ok; auto; exact (proj1 Hm)]|].
  split; [intros l x Hx; exact (mvi_dist2 n mu u v Hm Hv l x Hx)|].
  split; [|exact (mvi_sample n mu u v Hm)].
  unfold MvNormal.isotropic_pdf. rewrite (pdf_with_ok _ (MvNormal.isotropic_unchecked mu (Fin v)) _ n _ _ (proj1 Hm) Hb D Hp (mvi_dist2 n mu u v Hm Hv mu u Hm)).
  f_equal. rewrite (prod_density n u (fun _ => v) u) by auto. rewrite rprod_const. f_equal. f_equal. f_equal. f_equal.
  rewrite !rsum_zero; [reflexivity| |]; intros i Hi; field; lra.
Qed.
Print Assumptions C65_isotropic_partial.
Example C65_isotropic_nonvacuous : exists d, MvNormal.isotropic [Fin 1; Fin (-2)] (Fin 3) = Ok d.
Proof. eexists. apply mvi_new_iff. split; [lra|reflexivity]. Qed.
Theorem C65_isotropic_refuted (n : nat) (mu : list xreal) (u : nat -> R) (v : R) (d : MvNormal.MvN xreal xreal) :
  (0 < n)%nat -> is_vec n mu u -> MvNormal.isotropic mu (Fin v) = Ok d ->
  (exists l x q, is_vec n l x /\ MvNormal.isotropic_mahalanobis_squared d l = Fin q /\ q < 0 /\ 0 < rsum n (fun i => (x i - u i) * (x i - u i) / v)) /\
  (v <> 1 -> forall B C, samples_affine n (fun G RG g => MvNormal.isotropic_sample d g) u B -> is_mat n (MvNormal.isotropic_covariance d) C ->
     ~ meq n (mmul n B (transp B)) C).
Proof.
  intros Hn Hm H. apply (mvi_new_iff mu v) in H as [Hv ->]. split.
  - set (x := fun i => u i - v * v). set (l := tab n (fun i => Fin (x i))). assert (Hx : is_vec n l x) by (apply vec_tab; auto).
    exists l, x, (rsum n (fun i => (x i - u i) / (v * v))). split; [exact Hx|]. split; [exact (mvi_dist2 n mu u v Hm Hv l x Hx)|]. split.
    + assert (0 < rsum n (fun _ => 1)) by (apply rsum_pos; auto; intros; lra).
      assert (E : rsum n (fun i => (x i - u i) / (v * v)) = - rsum n (fun _ => 1)). { rewrite <- rsum_opp. apply rsum_ext. intros i Hi. unfold x. field. lra. } lra.
    + apply rsum_pos; auto. intros i Hi. unfold x. replace ((u i - v * v - u i) * (u i - v * v - u i) / v) with (v * v * v) by (field; lra). pos.
  - intros Nv B C HB HC E. assert (EB := affine_unique _ _ _ _ _ HB (mvi_sample n mu u v Hm)).
    assert (EC := mat_unique _ _ _ _ HC (mvi_cov n mu u v Hm)).
    assert (E' := E 0%nat 0%nat Hn Hn). rewrite EC in E' by auto.
    rewrite (mmul_ext n B _ (transp B) (transp (diagm (fun _ => v))) 0 0 Hn Hn EB) in E' by (intros a b Ha Hb; unfold transp; now apply EB).
    rewrite diagm_sq, !diagm_ii in E' by auto. apply Nv. apply (Rmult_eq_reg_l v); lra.
Qed.
Print Assumptions C65_isotropic_refuted.

(** C66, with exact BLAS/LAPACK: [P] is the inverse of the covariance [A], [L]
    its Cholesky factor *)
Theorem C66_general_partial {LA : Lapack xreal} (n : nat) (mu : list xreal) (u : nat -> R) (Sg : list (list xreal)) (A : nat -> nat -> R)
    (d : MvNormal.MvN xreal (list (list xreal))) :
  lapack_ok LA -> is_vec n mu u -> is_mat n Sg A -> spd n A -> MvNormal.new mu Sg = Ok d \/ d = MvNormal.new_unchecked mu Sg ->
  exists L P,
  (is_mat n (MvNormal.Sigma_lt d) L /\ (forall i j, (i < j < n)%nat -> L i j = 0) /\ (forall i, (i < n)%nat -> 0 < L i i) /\ meq n (mmul n L (transp L)) A) /\
  (is_mat n (MvNormal.precision d) P /\ meq n (mmul n A P) ident /\ meq n (mmul n P A) ident) /\
  (MvNormal.Sigma_det d = Fin (det n A) /\ MvNormal.shannon_entropy d = Fin (1 / 2 * (INR n * (1 + ln (2 * PI)) + ln (det n A)))) /\
  (MvNormal.mean d = mu /\ MvNormal.covariance d = Sg /\ is_vec n (MvNormal.variance d) (fun i => A i i) /\ MvNormal.modes d = [mu]) /\
  samples_affine n (fun G RG g => MvNormal.sample d g) u L /\
  (forall l x, is_vec n l x -> let z := fun i => x i - u i in
     exists q, MvNormal.d_mahalanobis_squared d l = Fin q /\
       (* only one triangle of P is read: the off-diagonal terms count once instead of twice *)
       2 * q = qform n P z + rsum n (fun i => P i i * (z i * z i)) /\
       ((Z.of_nat n < 2 ^ 31)%Z -> MvNormal.pdf d l = Fin (exp (- q / 2) / sqrt ((2 * PI) ^ n * det n A))) /\
       0 <= qform n P z <= 2 * q /\
       (* right for diagonal matrices *)
       ((forall i j, (i < n)%nat -> (j < n)%nat -> i <> j -> A i j = 0) ->
        q = qform n P z /\ ((Z.of_nat n < 2 ^ 31)%Z -> MvNormal.pdf d l = Fin (rprod n (fun i => normal_density (u i) (sqrt (A i i)) (x i)))))).
Proof.
  intros HLA Hm HSg HA Hd. assert (d = MvNormal.new_unchecked mu Sg) as ->.
  { destruct Hd as [Hd|Hd]; [|exact Hd]. unfold MvNormal.new, MvNormal.params_multivariate, matrix_new, loc_new in Hd. cbn [map_err and_then] in Hd.
    destruct (check _ Sg) eqn:E; [|discriminate]. apply check_ok_inv in E as [-> _]. cbn in Hd. now injection Hd as <-. }
  destruct (mvn_factors HLA n mu u Sg A Hm HSg HA) as (L & P & HL & LL & LD & LE & HP & SP & AP & PA & HD & Dp).
  assert (Ed : MvNormal.dim (MvNormal.new_unchecked mu Sg) = n) by exact (proj1 Hm).
  exists L, P. split. { split; [exact HL|]. split; [intros i j Hij; apply LL; lia|]. split; [exact LD|exact LE]. }
  split; [auto|]. split; [split; [exact HD|apply entropy_ok; auto]|]. split.
  { split; [reflexivity|]. split; [reflexivity|]. split; [|reflexivity]. unfold MvNormal.variance. rewrite Ed. apply vec_tab. intros i Hi. now apply (mat_get_ok n). }
  split; [now apply (mvn_sample HLA n mu u Sg Hm L)|]. intros l x Hx z.
  assert (Q := mvn_dist2 HLA n mu u Sg Hm P l x HP Hx). set (q := rsum n _) in Q.
  assert (E2 : 2 * q = qform n P z + rsum n (fun i => P i i * (z i * z i))) by (apply (lower_half n P z SP)).
  assert (SPP : spd n P) by (now apply (spd_inv n A)).
  assert (Hpdf : (Z.of_nat n < 2 ^ 31)%Z -> MvNormal.pdf (MvNormal.new_unchecked mu Sg) l = Fin (exp (- q / 2) / sqrt ((2 * PI) ^ n * det n A))).
  { intros Hb. exact (pdf_with_ok _ _ _ n _ _ Ed Hb HD Dp Q). }
  exists q. split; [exact Q|]. split; [exact E2|]. split; [exact Hpdf|]. split; [split; [now apply qform_nonneg|]|].
  { assert (0 <= rsum n (fun i => P i i * (z i * z i))).
    { apply rsum_nonneg. intros i Hi. assert (K := spd_diag n P i SPP Hi). assert (K2 := Rle_0_sqr (z i)). unfold Rsqr in K2. apply Rmult_le_pos; lra. } lra. }
  intros HDg. assert (K := diag_inv n A P HDg AP).
  assert (AD : forall i, (i < n)%nat -> 0 < A i i) by (intros i Hi; now apply (spd_diag n)).
  assert (P0 : forall i j, (i < n)%nat -> (j < n)%nat -> P i j = diagm (fun i => / A i i) i j).
  { intros i j Hi Hj. assert (E := K i j Hi Hj). assert (AD' := AD i Hi). unfold ident in E. unfold diagm. destruct (Nat.eqb i j).
    - apply (Rmult_eq_reg_l (A i i)); [|lra]. rewrite E. field. lra.
    - apply (Rmult_eq_reg_l (A i i)); [|lra]. rewrite E. ring. }
  assert (EQ : qform n P z = rsum n (fun i => / A i i * (z i * z i))).
  { rewrite <- qform_diagm. apply rsum_ext; intros i Hi. apply rsum_ext; intros j Hj. now rewrite P0. }
  assert (EQ2 : rsum n (fun i => P i i * (z i * z i)) = rsum n (fun i => / A i i * (z i * z i))).
  { apply rsum_ext; intros i Hi. rewrite P0, diagm_ii by auto. reflexivity. }
  assert (Eq : q = rsum n (fun i => / A i i * (z i * z i))) by lra.
  split; [lra|]. intros Hb. rewrite (Hpdf Hb). f_equal. rewrite prod_density by auto.
  assert (DD : det n A = rprod n (fun i => A i i)). { rewrite det_upper; [reflexivity|]. intros i j Hi Hj. apply HDg; lia. }
  rewrite DD, Eq. f_equal. f_equal. f_equal. f_equal. apply rsum_ext; intros i Hi. unfold z. field. generalize (AD i Hi). lra.
Qed.
Print Assumptions C66_general_partial.
Example C66_nonvacuous : lapack_ok xla /\ spd 2 (mat2 2 1 1 3) /\ (forall u0 u1, exists d, MvNormal.new (LA := xla) [Fin u0; Fin u1] [[Fin 2; Fin 1]; [Fin 1; Fin 3]] = Ok d).
Proof.
  split; [exact xla_ok|]. split; [apply spd2; lra|]. intros u0 u1. unfold MvNormal.new, MvNormal.params_multivariate, matrix_new, loc_new. cbn [map_err and_then].
  rewrite check_ok; [eexists; reflexivity|]. cbn [is_satisfied_by forallb pleb pzero POrd_scalar andb]. rewrite !x_lit, !x_leb.
  unfold Rleb. repeat (destruct (Rle_dec _ _); [|lra]). reflexivity.
Qed.
(** for every positive definite matrix that is not diagonal some point is given
    a wrong squared distance *)
Theorem C66_mahalanobis_refuted {LA : Lapack xreal} (n : nat) (mu : list xreal) (u : nat -> R) (Sg : list (list xreal)) (A P : nat -> nat -> R) :
  lapack_ok LA -> is_vec n mu u -> is_mat n Sg A -> spd n A -> meq n (mmul n A P) ident ->
  (exists i j, (i < n)%nat /\ (j < n)%nat /\ i <> j /\ A i j <> 0) ->
  exists l x, is_vec n l x /\ MvNormal.d_mahalanobis_squared (MvNormal.new_unchecked mu Sg) l <> Fin (qform n P (fun i => x i - u i)).
Proof.
  intros HLA Hm HSg HA HAP (i0 & j0 & Hi0 & Hj0 & N0 & NA).
  destruct (mvn_factors HLA n mu u Sg A Hm HSg HA) as (L & P' & _ & _ & _ & _ & HP & SP & AP & PA & _).
  assert (EP : meq n P P').
  { intros i j Hi Hj. rewrite <- (mmul_ident_l n (mmul n P' A) P i j Hi PA). rewrite mmul_assoc. now apply mmul_ident_r. }
  assert (ND : exists i k, (k < i < n)%nat /\ P' i k <> 0).
  { destruct (Classical_Prop.classic (exists i k, (k < i < n)%nat /\ P' i k <> 0)) as [K|K]; [exact K|exfalso].
    assert (Z : forall i j, (i < n)%nat -> (j < n)%nat -> i <> j -> P' i j = 0).
    { intros i j Hi Hj N. destruct (Req_dec (P' i j) 0) as [E|E]; [exact E|exfalso]. apply K. destruct (Nat.lt_ge_cases j i).
      - exists i, j. split; [lia|exact E]. - exists j, i. split; [lia|]. now rewrite (SP j i). }
    assert (E := diag_inv n P' A Z PA i0 j0 Hi0 Hj0). unfold ident in E. destruct (Nat.eqb_spec i0 j0); [congruence|].
    assert (E2 := diag_inv n P' A Z PA i0 i0 Hi0 Hi0). unfold ident in E2. rewrite Nat.eqb_refl in E2.
    apply Rmult_integral in E as [E|E]; [rewrite E in E2; lra|contradiction]. }
  destruct ND as (i & k & Hik & NP). destruct (lower_two n P' i k Hik) as [E1 E2].
  set (e := fun j => if (Nat.eqb j i || Nat.eqb j k)%bool then 1 else 0).
  change (rsum n (fun a => rsum n (fun b => if Nat.ltb a b then 0 else e a * P' a b * e b)) = P' i i + P' k k + P' i k) in E1. change (qform n P' e = P' i i + P' k k + P' i k + P' k i) in E2.
  set (x := fun j => u j + e j). set (l := tab n (fun j => Fin (x j))). assert (Hx : is_vec n l x) by (apply vec_tab; auto).
  exists l, x. split; [exact Hx|]. rewrite (mvn_dist2 HLA n mu u Sg Hm P' l x HP Hx). intros E. apply Fin_inj in E.
  assert (Z : forall j, x j - u j = e j) by (intros j; unfold x; ring).
  rewrite (rsum_ext n _ (fun a => rsum n (fun b => if Nat.ltb a b then 0 else e a * P' a b * e b))) in E by (intros a Ha; apply rsum_ext; intros b Hb; now rewrite !Z).
  assert (EQ : qform n P (fun i => x i - u i) = qform n P' e). { apply rsum_ext; intros a Ha. apply rsum_ext; intros b Hb. rewrite !Z. now rewrite EP. }
  rewrite EQ, E1, E2, (SP k i) in E by lia. apply NP. lra.
Qed.
Print Assumptions C66_mahalanobis_refuted.
(** in dimension two the total mass of the density, and that it is not one for
    any correlated pair *)
Theorem C66_density_refuted {LA : Lapack xreal} (m0 m1 a b c : R) (d : MvNormal.MvN xreal (list (list xreal))) :
  lapack_ok LA -> 0 < a -> c * c < a * b -> c <> 0 ->
  d = MvNormal.new_unchecked [Fin m0; Fin m1] [[Fin a; Fin c]; [Fin c; Fin b]] ->
  is_expectation2 (fun p => MvNormal.pdf d [fst p; snd p]) (fun _ _ => 1) (sqrt ((a * b - c * c) / (a * b - c * c / 4))) /\
  ~ is_pdf2 (fun p => MvNormal.pdf d [fst p; snd p]).
Proof.
  intros HLA Ha HD Hc ->. split; [apply (mvn2_mass HLA); lra|apply (mvn2_not_pdf HLA); auto; lra].
Qed.
Print Assumptions C66_density_refuted.

(** C67: the default [variance] and [correlation] *)
Theorem C67_default_partial (n : nat) (cov : list (list xreal)) (C : nat -> nat -> R) :
  is_mat n cov C -> (forall i, (i < n)%nat -> 0 < C i i) ->
  is_vec n (d_mv_variance n cov) (fun i => C i i) /\
  is_mat n (d_correlation n cov) (fun i j => C i j * sqrt (C i i * C j j)) /\
  ((forall i, (i < n)%nat -> C i i = 1) -> is_mat n (d_correlation n cov) (fun i j => C i j / sqrt (C i i * C j j))).
Proof.
  intros H HC.
  assert (G : is_mat n (d_correlation n cov) (fun i j => C i j * sqrt (C i i * C j j))).
  { unfold d_correlation. apply (mat_mtab n (fun i j => fmul (mat_get cov i j) (fsqrt (fmul (mat_get cov i i) (mat_get cov j j))))). intros i j Hi Hj.
    rewrite !(mat_get_ok n cov C) by auto. assert (K1 := HC i Hi). assert (K2 := HC j Hj). assert (0 < C i i * C j j) by pos. xs. reflexivity. }
  split; [|split; [exact G|]].
  - unfold d_mv_variance. apply (vec_tab n (fun i => mat_get cov i i)). intros i Hi. now apply (mat_get_ok n).
  - intros H1. apply (mat_ext n _ _ _ G). intros i j Hi Hj. rewrite !H1 by auto. rewrite Rmult_1_l, sqrt_1. field.
Qed.
Print Assumptions C67_default_partial.
Example C67_nonvacuous : is_mat 2 [[Fin 4; Fin 1]; [Fin 1; Fin 9]] (mat2 4 1 1 9) /\ (forall i, (i < 2)%nat -> 0 < mat2 4 1 1 9 i i).
Proof. split; [apply is_mat2|]. intros [|[|i]] Hi; cbn; [lra|lra|lia]. Qed.
(** the default correlation multiplies by the root instead of dividing: wrong
    whenever some variance is not one, already on the diagonal *)
Theorem C67_correlation_refuted (n : nat) (cov : list (list xreal)) (C : nat -> nat -> R) :
  is_mat n cov C -> (forall i, (i < n)%nat -> 0 < C i i) -> (exists i, (i < n)%nat /\ C i i <> 1) ->
  (exists i, (i < n)%nat /\ mat_get (d_correlation n cov) i i <> Fin 1) /\
  ~ is_mat n (d_correlation n cov) (fun i j => C i j / sqrt (C i i * C j j)).
Proof.
  intros H HC (i & Hi & N). destruct (C67_default_partial n cov C H HC) as (_ & G & _). assert (K := HC i Hi).
  assert (E : mat_get (d_correlation n cov) i i = Fin (C i i * C i i)). { rewrite (mat_get_ok n _ _ i i G Hi Hi). rewrite sqrt_square by lra. reflexivity. }
  assert (NE : C i i * C i i <> 1). { intros E1. apply N. assert (Z : (C i i - 1) * (C i i + 1) = 0) by lra. apply Rmult_integral in Z as [Z|Z]; lra. }
  split.
  - exists i. split; [exact Hi|]. rewrite E. intros E1. apply Fin_inj in E1. contradiction.
  - intros G'. assert (E' := mat_get_ok n _ _ i i G' Hi Hi). rewrite E in E'. apply Fin_inj in E'. rewrite sqrt_square in E' by lra. apply NE. rewrite E'. field. lra.
Qed.
Print Assumptions C67_correlation_refuted.
(** the methods using the default *)
Theorem C67_users {LA : Lapack xreal} :
  (forall d : MvNormal.MvN xreal (list (list xreal)), MvNormal.correlation d = d_correlation (length (MvNormal.mean d)) (MvNormal.covariance d)) /\
  (forall d : MvNormal.MvN xreal (list xreal), MvNormal.diagonal_correlation d = d_correlation (length (MvNormal.mean d)) (MvNormal.diagonal_covariance d)) /\
  (forall d : MvNormal.MvN xreal xreal, MvNormal.isotropic_correlation d = d_correlation (length (MvNormal.mean d)) (MvNormal.isotropic_covariance d)) /\
  (forall d : Multivariate.Dirichlet.t xreal, Multivariate.Dirichlet.correlation d = d_correlation (length (Multivariate.Dirichlet.params d)) (Multivariate.Dirichlet.covariance d)).
Proof. repeat split. Qed.
Print Assumptions C67_users.
