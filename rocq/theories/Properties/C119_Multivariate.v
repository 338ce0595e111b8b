(** * Property C119: named constructors, sampling and density of the
      multivariate distributions; more on C69 *)
From Coq Require Import Reals Lra Lia Psatz List Arith ZArith Bool.
From Coquelicot Require Import Coquelicot.
From Verif.Num Require Import Scalar XReal.
From Verif.Model Require Import Rust Constraints Probability Params Consts Traits Linalg Multivariate.
From Verif.Model Require MvNormal.
From Verif.Spec Require Import DistSpec SampleSpec MvSpec GammaSpec LapackSpec.
From Verif.Proofs Require Import ConstraintProofs XTac Calc Gauss Matrix MvProofs MvProofs2 MvProofs3 GammaFun Improper ContProofs9 ContProofs25 MultiProofs Oracle LapackInst.
Import ListNotations.
From Verif.Properties Require Import C65_C67_MvNormal.
Open Scope R_scope.

(** ** Named constructors: [homogeneous n m s] is the isotropic normal with all
    [n] means [m] and all variances [s]; [standard n] has means zero and
    variances one; they fail exactly for n = 0 or a variance that is not positive *)
Theorem C119_homogeneous (n : nat) (m s : R) (d : MvNormal.MvN xreal xreal) :
  (MvNormal.homogeneous n (Fin m) (Fin s) = Ok d <->
     (0 < n)%nat /\ 0 < s /\ MvNormal.isotropic (repeat (Fin m) n) (Fin s) = Ok d) /\
  ((exists d', MvNormal.homogeneous n (Fin m) (Fin s) = Ok d') <-> (0 < n)%nat /\ 0 < s) /\
  (MvNormal.homogeneous n (Fin m) (Fin s) = Ok d ->
     MvNormal.homogeneous_unchecked n (Fin m) (Fin s) = d /\
     is_vec n (MvNormal.mean d) (fun _ => m) /\ is_vec n (MvNormal.isotropic_variance d) (fun _ => s) /\
     is_mat n (MvNormal.isotropic_covariance d) (diagonal_matrix (fun _ : nat => s))).
Proof.
  assert (I1 : forall d, MvNormal.homogeneous n (Fin m) (Fin s) = Ok d <->
     (0 < n)%nat /\ 0 < s /\ d = MvNormal.isotropic_unchecked (repeat (Fin m) n) (Fin s)).
  { intros e. unfold MvNormal.homogeneous, MvNormal.params_homogeneous. destruct (Nat.ltb_spec 0 n) as [Hn|Hn].
    - rewrite check_ok by (cbn; apply Z.ltb_lt; lia). cbn [map_err and_then]. change (map_ok MvNormal.isotropic_from (MvNormal.params_isotropic (repeat (Fin m) n) (Fin s))) with (MvNormal.isotropic (repeat (Fin m) n) (Fin s)).
      assert (M := mvi_new_iff (repeat (Fin m) n) s e). tauto.
    - destruct (check_err (Natural : Constraint Z) (Z.of_nat n)) as (e0 & -> & _); [cbn; apply Z.ltb_ge; lia|]. cbn [map_err and_then map_ok]. split; [discriminate|]. lia. }
  split; [assert (M := mvi_new_iff (repeat (Fin m) n) s d); assert (M' := I1 d); tauto|]. split.
  - split; [intros [d' H]; apply I1 in H; tauto|]. intros [H1 H2]. eexists. apply I1. split; [exact H1|]. split; [exact H2|reflexivity].
  - intros H. apply I1 in H as (Hn & Hs & ->). split; [reflexivity|]. assert (V := vec_repeat n m).
    split; [exact V|]. split; [|exact (mvi_cov n _ _ s V)].
    unfold MvNormal.isotropic_variance. rewrite (mvi_dim n _ _ s V). apply vec_repeat.
Qed.
Print Assumptions C119_homogeneous.
Theorem C119_standard (n : nat) (d : MvNormal.MvN xreal xreal) :
  ((exists d', MvNormal.standard (F := xreal) n = Ok d') <-> (0 < n)%nat) /\
  (MvNormal.standard n = Ok d ->
     MvNormal.standard_unchecked n = d /\
     is_vec n (MvNormal.mean d) (fun _ => 0) /\ is_vec n (MvNormal.isotropic_variance d) (fun _ => 1) /\
     is_mat n (MvNormal.isotropic_covariance d) ident).
Proof.
  assert (E : MvNormal.standard (F := xreal) n = MvNormal.homogeneous n (Fin 0) (Fin 1)) by (unfold MvNormal.standard, MvNormal.params_standard; now rewrite !x_lit).
  rewrite E. destruct (C119_homogeneous n 0 1 d) as (_ & A & B). split; [rewrite A; split; [tauto|intros; split; [auto|lra]]|].
  intros H. specialize (B H). unfold MvNormal.standard_unchecked. rewrite !x_lit. exact B.
Qed.
Print Assumptions C119_standard.
Example C119_standard_nonvacuous : exists d, MvNormal.standard (F := xreal) 3 = Ok d.
Proof. apply C119_standard; [|lia]. exact (MvNormal.standard_unchecked 3). Qed.
(** the log-normal constructors accept exactly the same arguments, and wrap the normal with those parameters *)
Theorem C119_lognormal_ctors {LA : Lapack xreal} (n : nat) (mu s : list xreal) (Sg : list (list xreal)) (m v : xreal) :
  (forall d, MvLogNormal.new mu Sg = Ok d <-> exists e, MvNormal.new mu Sg = Ok e /\ d = MvLogNormal.mk e) /\
  (forall d, MvLogNormal.diagonal mu s = Ok d <-> exists e, MvNormal.diagonal mu s = Ok e /\ d = MvLogNormal.mk e) /\
  (forall d, MvLogNormal.isotropic mu v = Ok d <-> exists e, MvNormal.isotropic mu v = Ok e /\ d = MvLogNormal.mk e) /\
  (forall d, MvLogNormal.homogeneous n m v = Ok d <-> exists e, MvNormal.homogeneous n m v = Ok e /\ d = MvLogNormal.mk e) /\
  (forall d, MvLogNormal.standard (F := xreal) n = Ok d <-> exists e, MvNormal.standard n = Ok e /\ d = MvLogNormal.mk e).
Proof.
  assert (K : forall A B E (f : A -> B) (r : result A E) d, map_ok f r = Ok d <-> exists e, r = Ok e /\ d = f e).
  { intros A B E f [a|e] d; cbn; split; [intros X; injection X as <-; eauto|intros (e & X & ->); congruence|discriminate|intros (e' & X & _); discriminate]. }
  repeat split; apply K.
Qed.
Print Assumptions C119_lognormal_ctors.

(** ** Sampling: the components are exponentials of those of the inner normal *)
Definition samples_exp (n : nat) (sample : forall G (RG : Rng G xreal), G -> list xreal * G) (mu : nat -> R) (B : nat -> nat -> R) : Prop :=
  forall G (RG : Rng G xreal) g zs g', length zs = n -> normal_draws g zs g' ->
    snd (sample G RG g) = g' /\ is_vec n (fst (sample G RG g)) (fun i => exp (mu i + rsum n (fun k => B i k * nth k zs 0))).
Local Lemma exp_of_affine {T} n (f : forall G (RG : Rng G xreal), MvNormal.MvN xreal T -> G -> list xreal * G) d u B :
  samples_affine n (fun G RG => f G RG (MvLogNormal.nrm d)) u B -> samples_exp n (fun G RG => MvLogNormal.sample (f G RG) d) u B.
Proof.
  intros H G RG g zs g' HL HD. destruct (H G RG g zs g' HL HD) as [A V]. unfold MvLogNormal.sample. destruct (f G RG (MvLogNormal.nrm d) g) as [x g1]. cbn [fst snd] in *.
  split; [exact A|]. apply (vec_map n _ _ _ _ V). reflexivity.
Qed.
(** general covariance [A]: exp(mu + L z) with L the Cholesky factor of [A], so that L L^T = A *)
Theorem C119_lognormal_sample {LA : Lapack xreal} (n : nat) (mu : list xreal) (u : nat -> R) (Sg : list (list xreal)) (A : nat -> nat -> R) (d : MvLogNormal.t xreal (list (list xreal))) :
  lapack_ok LA -> is_vec n mu u -> is_mat n Sg A -> spd n A -> MvLogNormal.new mu Sg = Ok d ->
  exists L, meq n (mmul n L (transp L)) A /\ samples_exp n (fun G RG => MvLogNormal.sample MvNormal.sample d) u L.
Proof.
  intros HLA Hm HSg HA H. assert (d = MvLogNormal.mk (MvNormal.new_unchecked mu Sg)) as ->.
  { unfold MvLogNormal.new, MvNormal.new, MvNormal.params_multivariate, matrix_new, loc_new in H. cbn [map_err and_then] in H.
    destruct (check _ Sg) eqn:E; [|discriminate]. apply check_ok_inv in E as [-> _]. cbn in H. now injection H as <-. }
  destruct (mvn_factors HLA n mu u Sg A Hm HSg HA) as (L & P & HL & LL & LD & LE & _).
  exists L. split; [exact LE|]. apply (exp_of_affine n (fun G RG => MvNormal.sample)). now apply (mvn_sample HLA n mu u Sg Hm L).
Qed.
Print Assumptions C119_lognormal_sample.
(** diagonal and isotropic covariance: the draws are scaled by the variances
    instead of the standard deviations, as in C65 *)
Theorem C119_lognormal_sample_partial (n : nat) (mu s : list xreal) (u v : nat -> R) (w : R) (d : MvLogNormal.t xreal (list xreal)) (e : MvLogNormal.t xreal xreal) :
  is_vec n mu u -> is_vec n s v -> MvLogNormal.diagonal mu s = Ok d -> MvLogNormal.isotropic mu (Fin w) = Ok e ->
  samples_exp n (fun G RG => MvLogNormal.sample MvNormal.diagonal_sample d) u (diagonal_matrix v) /\
  samples_exp n (fun G RG => MvLogNormal.sample MvNormal.isotropic_sample e) u (diagonal_matrix (fun _ : nat => w)).
Proof.
  intros Hm Hs H1 H2. unfold MvLogNormal.diagonal in H1. unfold MvLogNormal.isotropic in H2.
  destruct (MvNormal.diagonal mu s) as [d'|] eqn:E1; cbn [map_ok] in H1; [|discriminate]. injection H1 as <-.
  destruct (MvNormal.isotropic mu (Fin w)) as [e'|] eqn:E2; cbn [map_ok] in H2; [|discriminate]. injection H2 as <-.
  apply (mvd_new_iff n mu s v Hs) in E1 as [Hv ->]. apply (mvi_new_iff mu w) in E2 as [Hw ->]. split.
  - apply (exp_of_affine n (fun G RG => MvNormal.diagonal_sample)). exact (mvd_sample n mu s u v Hm Hs).
  - apply (exp_of_affine n (fun G RG => MvNormal.isotropic_sample)). exact (mvi_sample n mu u w Hm).
Qed.
Print Assumptions C119_lognormal_sample_partial.
Example C119_lognormal_nonvacuous : exists d e, MvLogNormal.diagonal [Fin 1; Fin (-2)] [Fin 3; Fin (1/2)] = Ok d /\ MvLogNormal.isotropic [Fin 1; Fin (-2)] (Fin 2) = Ok e.
Proof.
  do 2 eexists. unfold MvLogNormal.diagonal, MvLogNormal.isotropic.
  rewrite (proj2 (mvd_new_iff 2 [Fin 1; Fin (-2)] [Fin 3; Fin (1/2)] (fun i => nth i [3; 1/2] 0) (vec_list [3; 1/2]) (MvNormal.diagonal_unchecked [Fin 1; Fin (-2)] [Fin 3; Fin (1/2)]))).
  2:{ split; [|reflexivity]. intros [|[|i]] Hi; cbn; [lra|lra|lia]. }
  rewrite (proj2 (mvi_new_iff [Fin 1; Fin (-2)] 2 (MvNormal.isotropic_unchecked [Fin 1; Fin (-2)] (Fin 2)))) by (split; [lra|reflexivity]). split; reflexivity.
Qed.
(** ** Density: the factor 1/(x_1 ... x_n) of the change of variables is missing.
    Already in dimension one the total mass is exp(m + a/2); cdf is not computed *)
Local Lemma mass1 (m a : R) : 0 < a -> is_RInt_gen (fun x => normal_density m (sqrt a) (ln x)) (at_right 0) (Rbar_locally p_infty) (exp (m + a / 2)).
Proof.
  intros Ha. assert (Hs : 0 < sqrt a) by now apply sqrt_lt_R0. set (s := sqrt a) in *. assert (Q : s * s = a) by (apply sqrt_sqrt; lra). set (E := exp (m + a / 2)).
  assert (D : forall t, is_derive (fun t => E * Phi (t - s)) t (E * phi (t - s))).
  { intros t. eapply is_derive_eq; [apply (dR_mult (fun _ => E) (fun t => Phi (t - s))); [apply dR_c|]|].
    - assert (D1 : is_derive (fun t => t - s) t 1) by (dder; lra). apply (is_derive_comp Phi (fun t => t - s) t _ _ (Phi_derive _) D1).
    - change (scal 1 (phi (t - s))) with (1 * phi (t - s)). ring. }
  refine (gen_eq 0 p_infty _ _ _ (is_RInt_gen_antiderivative 0 p_infty (fun x => E * Phi ((ln x - m) / s - s)) _ 0 E I _ _ _ _) _); [| | | |lra].
  - intros x [Hx _]. cbn in Hx. generalize (lnz_comp m a Ha (fun t => E * Phi (t - s)) x _ Hx (D _)). fold s. apply is_derive_ext_eq. match goal with |- @eq _ ?a ?b => change (@eq R a b) end.
    rewrite nd_phi by auto. assert (S2 : 0 < sqrt (2 * PI)) by (apply sqrt_lt_R0; generalize PI_RGT_0; lra). unfold phi.
    assert (EX : E * exp (- (((ln x - m) / s - s) * ((ln x - m) / s - s) / 2)) = x * exp (- ((ln x - m) / s * ((ln x - m) / s) / 2))).
    { unfold E. transitivity (exp (ln x) * exp (- ((ln x - m) / s * ((ln x - m) / s) / 2))); [|now rewrite exp_ln by auto]. rewrite <- !exp_plus. f_equal. rewrite <- Q. field. lra. }
    unfold Rdiv at 1 2. rewrite <- Rmult_assoc, EX. field. repeat split; lra.
  - intros x [Hx _]. cbn in Hx. apply (continuous_comp ln (normal_density m s)); [|now apply nd_cont].
    apply (ex_derive_continuous (K := R_AbsRing) (V := R_NormedModule)). eexists. apply is_derive_ln. exact Hx.
  - eapply fl_eq; [apply fl_mult; [apply fl_const|apply (lnz_lim_lo m a Ha (fun t => Phi (t - s)))]|].
    + 
    apply (filterlim_comp _ _ _ (fun t => t - s) Phi _ (Rbar_locally m_infty)); [|apply Phi_lim_m].
    eapply filterlim_ext; [|apply (affine_m s 1 Rlt_0_1)]. intros; cbv beta; field.
    + ring.
  - eapply fl_eq; [apply fl_mult; [apply fl_const|apply (lnz_lim_hi m a Ha (fun t => Phi (t - s)))]|].
    + 
    apply (filterlim_comp _ _ _ (fun t => t - s) Phi _ (Rbar_locally p_infty)); [|apply Phi_lim_p].
    eapply filterlim_ext; [|apply (affine_p s 1 Rlt_0_1)]. intros; cbv beta; field.
    + ring.
Qed.
Theorem C119_lognormal_pdf_refuted {LA : Lapack xreal} (m a : R) (d : MvLogNormal.t xreal (list (list xreal))) :
  lapack_ok LA -> MvLogNormal.new [Fin m] [[Fin a]] = Ok d -> 0 < a ->
  (forall x, 0 < x -> MvLogNormal.pdf MvNormal.pdf d [Fin x] = Fin (normal_density m (sqrt a) (ln x))) /\
  is_RInt_gen (fun x => val (MvLogNormal.pdf MvNormal.pdf d [Fin x])) (at_right 0) (Rbar_locally p_infty) (exp (m + a / 2)) /\
  (is_RInt_gen (fun x => val (MvLogNormal.pdf MvNormal.pdf d [Fin x])) (at_right 0) (Rbar_locally p_infty) 1 <-> m = - (a / 2)) /\
  forall l, MvLogNormal.cdf d l = Panic.
Proof.
  intros HLA H Ha. assert (d = MvLogNormal.mk (MvNormal.new_unchecked [Fin m] [[Fin a]])) as ->.
  { unfold MvLogNormal.new, MvNormal.new, MvNormal.params_multivariate, matrix_new, loc_new in H. cbn [map_err and_then] in H.
    destruct (check _ [[Fin a]]) eqn:E; [|discriminate]. apply check_ok_inv in E as [-> _]. cbn in H. now injection H as <-. }
  assert (P : forall x, 0 < x -> MvLogNormal.pdf MvNormal.pdf (MvLogNormal.mk (MvNormal.new_unchecked [Fin m] [[Fin a]])) [Fin x] = Fin (normal_density m (sqrt a) (ln x))).
  { intros x Hx. unfold MvLogNormal.pdf. cbn [MvLogNormal.nrm map]. rewrite x_ln by auto.
    destruct (C66_general_partial 1 [Fin m] (fun _ => m) [[Fin a]] (fun _ _ => a) (MvNormal.new_unchecked [Fin m] [[Fin a]])) as (L & Q & _ & _ & _ & _ & _ & K).
    - exact HLA.
    - exact (vec_repeat 1 m).
    - apply (mat_mtab 1 (fun _ _ => Fin a)). auto.
    - split; [intros i j _ _; reflexivity|]. intros y (i & Hi & Ny). unfold qform. cbn. assert (i = 0%nat) by lia. subst i. assert (0 < y 0%nat * y 0%nat) by nra. nra.
    - now right.
    - destruct (K [Fin (ln x)] (fun _ => ln x) (vec_repeat 1 (ln x))) as (q & _ & _ & _ & _ & KD).
      destruct (KD ltac:(intros; lia)) as [_ KE]. rewrite (KE ltac:(lia)). cbn [rprod]. f_equal. ring. }
  split; [exact P|].
  assert (M : is_RInt_gen (fun x => val (MvLogNormal.pdf MvNormal.pdf (MvLogNormal.mk (MvNormal.new_unchecked [Fin m] [[Fin a]])) [Fin x])) (at_right 0) (Rbar_locally p_infty) (exp (m + a / 2))).
  { apply (is_RInt_gen_inside 0 p_infty _ (fun x => normal_density m (sqrt a) (ln x))); [exact I| |exact (mass1 m a Ha)]. intros x [Hx _]. cbn in Hx. now rewrite P. }
  split; [exact M|]. split; [|reflexivity]. split.
  - intros M1. assert (E := gen_unique 0 p_infty _ _ _ M M1). rewrite <- exp_0 in E. apply exp_inv in E. lra.
  - intros E. revert M. rewrite E. replace (- (a / 2) + a / 2) with 0 by ring. now rewrite exp_0.
Qed.
Print Assumptions C119_lognormal_pdf_refuted.
Example C119_pdf_nonvacuous : lapack_ok xla /\ exists d, MvLogNormal.new (LA := xla) [Fin 0] [[Fin 2]] = Ok d.
Proof.
  split; [exact xla_ok|]. eexists. unfold MvLogNormal.new, MvNormal.new, MvNormal.params_multivariate, matrix_new, loc_new. cbn [map_err and_then].
  rewrite check_ok; [reflexivity|]. cbn [is_satisfied_by forallb pleb pzero POrd_scalar andb]. rewrite !x_lit, !x_leb.
  unfold Rleb. repeat (destruct (Rle_dec _ _); [|lra]). reflexivity.
Qed.

(** ** C69: the value of log_pmf.  [multinomial_weight] is the mass that the
    counts [ks] have when they add up to [n]; log_pmf returns its logarithm
    exactly when they do not. *)
Definition multinomial_weight (n : nat) (ps : list R) (ks : list nat) : R :=
  INR (fact n) * rprod (length ps) (fun i => nth i ps 0 ^ nth i ks 0%nat / INR (fact (nth i ks 0%nat))).
Local Lemma lg_fact {SP : Special xreal} (HS : loggamma_exact SP) (k : nat) : sf_loggamma (f_of_Z (Z.of_nat k) + f_of_Z 1)%rs = Fin (ln (INR (fact k))).
Proof.
  rewrite !x_lit, <- INR_IZR_INZ. cbn [fadd XScalar]. unfold xadd. destruct (HS (INR k + 1)) as (v & -> & G); [generalize (pos_INR k); lra|].
  f_equal. f_equal. eapply Gamma_unique; [exact G|apply Gamma_fact].
Qed.
Local Lemma weight_loop {SP : Special xreal} (HS : loggamma_exact SP) : forall (ps : list R) (ks : list nat) (acc : R), length ks = length ps ->
  (forall i, (i < length ps)%nat -> 0 <= nth i ps 0) -> (forall i, (i < length ps)%nat -> nth i ps 0 <> 0 \/ nth i ks 0%nat = 0%nat) ->
  let w := rprod (length ps) (fun i => nth i ps 0 ^ nth i ks 0%nat / INR (fact (nth i ks 0%nat))) in
  0 < w /\
  fold_left (fun acc '(x, p) => let x_f64 := f_of_Z x in let xlogy := if Z.eqb x 0 then f_of_Z 0 else (x_f64 * fln p)%rs in
      (acc + xlogy - sf_loggamma (x_f64 + f_of_Z 1))%rs) (combine (map Z.of_nat ks) (map Fin ps)) (Fin acc) = Fin (acc + ln w).
Proof.
  induction ps as [|p ps IH]; intros [|k ks] acc HL HP HK; try discriminate; cbv zeta.
  - cbn. rewrite ln_1. split; [lra|]. f_equal. lra.
  - cbn [length] in HL. injection HL as HL. cbn [map combine fold_left length]. rewrite rprod_shift. cbn [nth].
    assert (P0 := HP 0%nat ltac:(cbn; lia)). assert (K0 := HK 0%nat ltac:(cbn; lia)). cbn in P0, K0.
    assert (F : 0 < INR (fact k)) by (apply lt_0_INR, lt_O_fact).
    assert (W : 0 < p ^ k). { destruct K0 as [K0|K0]; [apply pow_lt; lra|rewrite K0; cbn; lra]. }
    assert (E1 : (Fin acc + (if Z.eqb (Z.of_nat k) 0 then f_of_Z 0 else f_of_Z (Z.of_nat k) * fln (Fin p)) - sf_loggamma (f_of_Z (Z.of_nat k) + f_of_Z 1))%rs = Fin (acc + ln (p ^ k / INR (fact k)))).
    { rewrite lg_fact by auto. rewrite ln_div by auto. destruct (Z.eqb_spec (Z.of_nat k) 0) as [E|E].
      - assert (k = 0%nat) by lia. subst k. rewrite x_lit. cbn. f_equal. rewrite ln_1. lra.
      - destruct K0 as [K0|K0]; [|lia]. rewrite x_ln, x_lit, <- INR_IZR_INZ by lra. cbn. f_equal. rewrite ln_pow by lra. lra. }
    destruct (IH ks (acc + ln (p ^ k / INR (fact k))) HL) as [IW IE].
    { intros i Hi. apply (HP (S i)). cbn; lia. }
    { intros i Hi. apply (HK (S i)). cbn; lia. }
    assert (W2 : 0 < p ^ k / INR (fact k)) by (apply Rdiv_lt_0_compat; auto).
    split; [now apply Rmult_lt_0_compat|].
    etransitivity; [|etransitivity; [exact IE|]].
    + f_equal. exact E1.
    + f_equal. rewrite ln_mult by auto. lra.
Qed.
Theorem C69_log_pmf_partial {SP : Special xreal} (n : nat) (ps : list R) (ks : list nat) (d : Multinomial.t xreal) :
  loggamma_exact SP -> Multinomial.new (Z.of_nat n) (map Fin ps) = Ok d -> length ks = length ps ->
  (forall i, (i < length ps)%nat -> nth i ps 0 <> 0 \/ nth i ks 0%nat = 0%nat) ->
  (Z.of_nat (list_sum ks) < 2 ^ 64)%Z -> list_sum ks <> n ->
  0 < multinomial_weight n ps ks /\
  Multinomial.log_pmf d (map Z.of_nat ks) = Ret (Fin (ln (multinomial_weight n ps ks))) /\
  ((0 < list_sum ks)%nat -> Multinomial.pmf d (map Z.of_nat ks) =
     if Rle_dec (multinomial_weight n ps ks) 1 then Ret (Prob (Fin (multinomial_weight n ps ks))) else Panic).
Proof.
  intros HS H HL HK Hb HN. apply mn_new_inv in H as (Hn & Hp & ->).
  assert (HP : forall i, (i < length ps)%nat -> 0 <= nth i ps 0) by (intros i Hi; apply Hp, nth_In, Hi).
  assert (SZ : fold_right Z.add 0%Z (map Z.of_nat ks) = Z.of_nat (list_sum ks)). { clear. induction ks as [|k ks IH]; [reflexivity|]. cbn [map fold_right list_sum]. rewrite IH. unfold list_sum; cbn [fold_right]. lia. }
  assert (ES : Multinomial.sum_usize 0 (map Z.of_nat ks) = Ret (Z.of_nat (list_sum ks))).
  { rewrite <- SZ. apply (sum_usize_ok (map Z.of_nat ks) 0); [lia| |lia]. intros x Hx. apply in_map_iff in Hx as (k & <- & _). lia. }
  destruct (weight_loop HS ps ks 0 HL HP HK) as [W EW]. fold (multinomial_weight n ps ks) in W.
  assert (F : 0 < INR (fact n)) by (apply lt_0_INR, lt_O_fact).
  assert (WP : 0 < multinomial_weight n ps ks) by (unfold multinomial_weight; now apply Rmult_lt_0_compat).
  assert (LW : Multinomial.log_pmf (Multinomial.new_unchecked (Z.of_nat n) (map Fin ps)) (map Z.of_nat ks) = Ret (Fin (ln (multinomial_weight n ps ks)))).
  { unfold Multinomial.log_pmf, Multinomial.n_categories. cbn [Multinomial.new_unchecked Multinomial.pr Multinomial.ps Multinomial.n].
    rewrite check_ok by (cbn; apply Z.eqb_eq; rewrite !map_length; lia). cbn [unwrap_ok rbind]. rewrite ES. cbn [rbind].
    rewrite (proj2 (Z.eqb_neq _ _)) by lia. f_equal. unfold Multinomial.log_weight. cbn [Multinomial.new_unchecked Multinomial.pr Multinomial.ps Multinomial.n].
    rewrite lg_fact by auto. cbv zeta in EW. replace (f_of_Z 0 : xreal) with (Fin 0) at 2 by now rewrite x_lit.
    etransitivity; [apply f_equal; exact EW|]. cbn. f_equal. unfold multinomial_weight. rewrite ln_mult by auto. lra. }
  split; [exact WP|]. split; [exact LW|]. intros Hk. unfold Multinomial.pmf. rewrite ES. cbn [rbind]. rewrite (proj2 (Z.eqb_neq _ _)) by lia.
  rewrite LW. cbn [rbind fexp XScalar]. rewrite x_exp, exp_ln by auto. unfold p_new. rewrite !x_lit, !x_leb. unfold Rleb. destruct (Rle_dec 0 _) as [L0|L0]; [|lra]. cbn [andb].
  destruct (Rle_dec _ 1) as [L1|L1]; reflexivity.
Qed.
Print Assumptions C69_log_pmf_partial.
Example C69_log_pmf_nonvacuous : exists (SP : Special xreal) d, loggamma_exact SP /\ Multinomial.new (Z.of_nat 3) (map Fin [1/2; 1/2]) = Ok d.
Proof.
  exists (exact false). eexists. split; [intros a Ha; eexists; split; [reflexivity|now apply Gam_spec]|]. apply mn_new_ok; [lia| |cbn; lra]. intros p H. cbn in H. destruct H as [<-|[<-|[]]]; lra.
Qed.
