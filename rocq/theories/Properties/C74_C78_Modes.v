(** * Properties C74 and C78: modes of the gamma-like families; guards of the moments *)
From Coq Require Import Reals Lra Lia Psatz List ZArith.
From Coquelicot Require Import Coquelicot.
From Verif.Num Require Import Scalar XReal.
From Verif.Model Require Import Rust Constraints Probability Params Consts Traits Continuous Continuous2 Continuous3.
From Verif.Spec Require Import DistSpec GammaSpec ResSpec.
From Verif.Proofs Require Import ConstraintProofs NewInv XTac Calc Calc2 Improper GammaFun Subst Mellin HeavyTail Unique Oracle
  ContProofs4 ContProofs11 ContProofs12 ContProofs13 ContProofs14 ContProofs15 ContProofs16 ContProofs20 ContProofs22 ContProofs26.
From Verif.Properties Require Import C34_C40_Continuous C83_C98_GammaFamily C99_C101_StudentT C102_C107_Normals.
Import ListNotations.
Open Scope R_scope.

(** every returned value maximises the density, and there is one *)
Theorem C74_beta (SP : Special xreal) (a b : R) (d : Beta.t xreal) : beta_exact SP -> Beta.new (Fin a) (Fin b) = Ok d -> 1 < a -> 1 < b ->
  Beta.modes d <> [] /\ all_return (Beta.modes d) (is_mode 0 1 (Beta.pdf d)).
Proof. intros Hg H H1 H2. unfold Beta.new in H. inv_new H. change (Beta.mk _) with (Beta.new_unchecked (Fin a) (Fin b)). now apply be_modes. Qed.
Print Assumptions C74_beta.
(** with both shapes below 1 the density is infinite exactly at the two returned end points *)
Theorem C74_beta_ends (SP : Special xreal) (a b : R) (d : Beta.t xreal) : beta_exact SP -> Beta.new (Fin a) (Fin b) = Ok d -> a < 1 -> b < 1 ->
  Beta.modes d = [Fin 0; Fin 1] /\ Beta.pdf d (Fin 0) = PInf /\ Beta.pdf d (Fin 1) = PInf /\
  forall x, 0 < x < 1 -> exists v, Beta.pdf d (Fin x) = Fin v.
Proof.
  intros Hg H H1 H2. unfold Beta.new in H. inv_new H. change (Beta.mk _) with (Beta.new_unchecked (Fin a) (Fin b)).
  destruct (be_modes_ends Hg a b HP HP0 H1 H2) as [E F]. rewrite E in F. inversion F as [|? ? F1 F2]. inversion F2 as [|? ? F3 _]. split; [exact E|]. split; [exact F1|]. split; [exact F3|]. intros t Ht. eexists. apply be_pdf; auto; now apply in01.
Qed.
Print Assumptions C74_beta_ends.
Theorem C74_gamma (SP : Special xreal) (a b : R) (d : Gamma.t xreal) : gamma_exact SP -> Gamma.new (Fin a) (Fin b) = Ok d ->
  match Gamma.modes d with Ret l => 1 <= a /\ l <> [] /\ all_return l (is_mode 0 p_infty (Gamma.pdf d)) | _ => a < 1 end.
Proof. intros Hg H. unfold Gamma.new in H. inv_new H. change (Gamma.mk _) with (Gamma.new_unchecked (Fin a) (Fin b)). now apply ga_modes. Qed.
Print Assumptions C74_gamma.
Theorem C74_inverse_gamma (SP : Special xreal) (a b : R) (d : InvGamma.t xreal) : gamma_exact SP -> InvGamma.new (Fin a) (Fin b) = Ok d ->
  InvGamma.modes d <> [] /\ all_return (InvGamma.modes d) (is_mode 0 p_infty (InvGamma.pdf d)).
Proof. intros Hg H. unfold InvGamma.new in H. inv_new H. change (InvGamma.mk _) with (InvGamma.new_unchecked (Fin a) (Fin b)). now apply ig_modes. Qed.
Print Assumptions C74_inverse_gamma.
Theorem C74_beta_prime (SP : Special xreal) (a b : R) (d : BetaPrime.t xreal) : beta_exact SP -> BetaPrime.new (Fin a) (Fin b) = Ok d -> 1 <= a ->
  BetaPrime.modes d <> [] /\ all_return (BetaPrime.modes d) (is_mode 0 p_infty (BetaPrime.pdf d)).
Proof.
  intros Hg H H1. unfold BetaPrime.new in H. inv_new H. change (BetaPrime.mk _) with (BetaPrime.new_unchecked (Fin a) (Fin b)).
  destruct H1 as [H1| <-]; [now apply bp_modes|now apply bp_modes_1].
Qed.
Print Assumptions C74_beta_prime.
Theorem C74_chi_squared (SP : Special xreal) (k : Z) (d : ChiSq.t) : gamma_exact SP -> ChiSq.new (F := xreal) k = Ok d ->
  exists m, ChiSq.modes d = [m] /\ (if (k =? 1)%Z then ChiSq.pdf d m = PInf else returns m (is_mode 0 p_infty (ChiSq.pdf d))).
Proof. intros Hg H. unfold ChiSq.new in H. inv_new H. change (ChiSq.mk _) with (ChiSq.new_unchecked k). now apply cs_modes. Qed.
Print Assumptions C74_chi_squared.
Theorem C74_chi (SP : Special xreal) (k : Z) (d : Chi.t) : gamma_exact SP -> Chi.new (F := xreal) k = Ok d ->
  Chi.modes d <> [] /\ all_return (Chi.modes d) (is_mode 0 p_infty (Chi.pdf d)).
Proof. intros Hg H. unfold Chi.new in H. inv_new H. change (Chi.mk _) with (Chi.new_unchecked k). now apply ch_modes. Qed.
Print Assumptions C74_chi.
Theorem C74_f_dist (SP : Special xreal) (n1 n2 : Z) (d : FDist.t) : beta_exact SP -> FDist.new (F := xreal) n1 n2 = Ok d ->
  match FDist.modes d with Ret l => (2 < n1)%Z /\ l <> [] /\ all_return l (is_mode 0 p_infty (FDist.pdf d)) | _ => (n1 <= 2)%Z end.
Proof. intros Hg H. unfold FDist.new in H. inv_new H. change (FDist.mk _) with (FDist.new_unchecked n1 n2). now apply fd_modes. Qed.
Print Assumptions C74_f_dist.
Theorem C74_student_t_inverse_normal (SP : Special xreal) (n m l : R) (d : StudentT.t xreal) (e : InvNormal.t xreal) : gamma_exact SP ->
  StudentT.new (Fin n) = Ok d -> 0 < n -> InvNormal.new (Fin m) (Fin l) = Ok e ->
  (StudentT.modes d = [Fin 0] /\ is_mode m_infty p_infty (StudentT.pdf d) 0) /\
  InvNormal.modes e <> [] /\ all_return (InvNormal.modes e) (is_mode 0 p_infty (InvNormal.pdf e)).
Proof.
  intros Hg H Hn H2. split; [|now apply (C102_inverse_normal m l)]. unfold StudentT.new in H. inv_new H. change (StudentT.mk _) with (StudentT.new_unchecked (Fin n)).
  split; [reflexivity|now apply st_mode].
Qed.
Print Assumptions C74_student_t_inverse_normal.
Example C74_nonvacuous : beta_exact (exact false) /\ gamma_exact (exact false) /\ (exists d, Beta.new (Fin 2) (Fin 3) = Ok d) /\ (exists d, Beta.new (Fin (1/2)) (Fin (1/3)) = Ok d) /\
  (exists d, Gamma.new (Fin 2) (Fin 3) = Ok d) /\ (exists d, InvGamma.new (Fin 2) (Fin 3) = Ok d) /\ (exists d, BetaPrime.new (Fin 2) (Fin 3) = Ok d) /\
  (exists d, ChiSq.new (F := xreal) 3 = Ok d) /\ (exists d, Chi.new (F := xreal) 3 = Ok d) /\ (exists d, FDist.new (F := xreal) 3 4 = Ok d) /\ (exists d, StudentT.new (Fin 3) = Ok d).
Proof.
  split; [apply ex_beta|]. split; [apply ex_gamma|].
  repeat match goal with |- _ /\ _ => split end; eexists; unfold Beta.new, Gamma.new, InvGamma.new, BetaPrime.new, ChiSq.new, Chi.new, FDist.new, StudentT.new; ok_new.
Qed.

(** C78: a moment is returned exactly when it exists (InvGamma, StudentT: all
    four; BetaPrime: three; FDist: two; Pareto: skewness and kurtosis, and the
    mean and variance are finite exactly when they exist) *)
Theorem C78_guards_partial (SP : Special xreal) (a b n : R) (n1 n2 : Z) (ig : InvGamma.t xreal) (bp : BetaPrime.t xreal) (fd : FDist.t) (st : StudentT.t xreal) :
  gamma_exact SP -> digamma_exact SP -> beta_exact SP -> betainc_exact SP -> hyp2f1_exact SP ->
  InvGamma.new (Fin a) (Fin b) = Ok ig -> BetaPrime.new (Fin a) (Fin b) = Ok bp -> FDist.new (F := xreal) n1 n2 = Ok fd -> StudentT.new (Fin n) = Ok st -> 0 < n ->
  (returned_iff_exists (InvGamma.mean ig) (is_mean 0 p_infty (InvGamma.pdf ig)) /\
   returned_iff_exists (InvGamma.variance ig) (fun v => exists m, is_variance 0 p_infty (InvGamma.pdf ig) m v) /\
   returned_iff_exists (InvGamma.skewness ig) (is_skewness 0 p_infty (InvGamma.pdf ig)) /\
   returned_iff_exists (InvGamma.excess_kurtosis ig) (fun e => is_kurtosis 0 p_infty (InvGamma.pdf ig) (3 + e))) /\
  (returned_iff_exists (BetaPrime.mean bp) (is_mean 0 p_infty (BetaPrime.pdf bp)) /\
   returned_iff_exists (BetaPrime.variance bp) (fun v => exists m, is_variance 0 p_infty (BetaPrime.pdf bp) m v) /\
   returned_iff_exists (BetaPrime.skewness bp) (is_skewness 0 p_infty (BetaPrime.pdf bp))) /\
  (returned_iff_exists (FDist.mean fd) (is_mean 0 p_infty (FDist.pdf fd)) /\
   returned_iff_exists (FDist.variance fd) (fun v => exists m, is_variance 0 p_infty (FDist.pdf fd) m v)) /\
  (returned_iff_exists (StudentT.mean st) (is_mean m_infty p_infty (StudentT.pdf st)) /\
   returned_iff_exists (StudentT.variance st) (fun v => exists m, is_variance m_infty p_infty (StudentT.pdf st) m v) /\
   returned_iff_exists (StudentT.skewness st) (is_skewness m_infty p_infty (StudentT.pdf st)) /\
   returned_iff_exists (StudentT.excess_kurtosis st) (fun e => is_kurtosis m_infty p_infty (StudentT.pdf st) (3 + e))).
Proof.
  intros Hg Hd Hb Hi Hh Eig Ebp Efd Est Hn.
  destruct (C87_inverse_gamma SP a b ig Hg Hd Eig) as (_ & _ & _ & A1 & A2 & A3 & A4 & _).
  destruct (C89_beta_prime SP a b bp Hb Hi Ebp) as (_ & _ & B1 & B2 & B3).
  destruct (C95_f_dist SP n1 n2 fd Hb Hi Efd) as (_ & _ & D1 & D2 & _).
  destruct (C99_student_t SP n st Hg Hh Est Hn) as (_ & _ & _ & S1 & S2 & S3 & S4 & _).
  tauto.
Qed.
Print Assumptions C78_guards_partial.
Theorem C78_pareto (xm al : R) (d : Pareto.t xreal) : Pareto.new (Fin xm) (Fin al) = Ok d -> 0 < xm ->
  ((exists r, Pareto.mean d = Fin r) <-> exists m, is_mean xm p_infty (Pareto.pdf d) m) /\
  ((exists r, Pareto.variance d = Fin r) <-> exists m v, is_variance xm p_infty (Pareto.pdf d) m v) /\
  (forall r, Pareto.mean d = Fin r -> is_mean xm p_infty (Pareto.pdf d) r) /\
  (forall r, Pareto.variance d = Fin r -> exists m, is_variance xm p_infty (Pareto.pdf d) m r) /\
  returned_iff_exists (Pareto.skewness d) (is_skewness xm p_infty (Pareto.pdf d)) /\
  returned_iff_exists (Pareto.excess_kurtosis d) (fun e => is_kurtosis xm p_infty (Pareto.pdf d) (e + 3)).
Proof.
  intros H Hxm. destruct (C39_pareto xm al d H Hxm) as (Ha & _ & _ & _ & _ & _ & _ & M1 & M2 & V1 & V2 & _). unfold Pareto.new in H. inv_new H. change (Pareto.mk _) with (Pareto.new_unchecked (Fin xm) (Fin al)) in *.
  assert (MX : forall r, Pareto.mean (Pareto.new_unchecked (Fin xm) (Fin al)) = Fin r -> is_mean xm p_infty (Pareto.pdf (Pareto.new_unchecked (Fin xm) (Fin al))) r).
  { intros r E. destruct (Rle_dec al 1) as [L|L]; [rewrite M2 in E by auto; discriminate|]. destruct (M1 ltac:(lra)) as (r' & E' & K). rewrite E in E'. apply Fin_inj in E'. now subst. }
  assert (VX : forall r, Pareto.variance (Pareto.new_unchecked (Fin xm) (Fin al)) = Fin r -> exists m, is_variance xm p_infty (Pareto.pdf (Pareto.new_unchecked (Fin xm) (Fin al))) m r).
  { intros r E. destruct (Rle_dec al 2) as [L|L]; [rewrite V2 in E by auto; discriminate|]. destruct (V1 ltac:(lra)) as (m & Em & v & Ev & K). rewrite E in Ev. apply Fin_inj in Ev. subst. eauto. }
  split. { split; [intros (r & E); exists r; auto|]. intros (m & K). destruct (Rle_dec al 1) as [L|L]; [exfalso; revert K; now apply p_no_mean|]. destruct (M1 ltac:(lra)) as (r' & E' & _). eauto. }
  split. { split; [intros (r & E); destruct (VX r E); eauto|]. intros (m & v & K). destruct (Rle_dec al 2) as [L|L]; [exfalso; revert K; now apply p_no_variance|]. destruct (V1 ltac:(lra)) as (r' & E' & r & E & _). eauto. }
  split; [auto|]. split; [auto|]. split; [now apply p_skewness_iff|now apply p_kurtosis_iff].
Qed.
Print Assumptions C78_pareto.
(** missing guards: BetaPrime's kurtosis and FDist's skewness are returned where they do not exist *)
Theorem C78_guards_refuted (SP : Special xreal) (a b : R) (n1 : Z) (bp : BetaPrime.t xreal) (fd : FDist.t) :
  beta_exact SP -> BetaPrime.new (Fin a) (Fin b) = Ok bp -> b < 4 -> b <> 3 -> a + (b - 1) <> 0 -> FDist.new (F := xreal) n1 5 = Ok fd ->
  ((exists e, BetaPrime.excess_kurtosis bp = Fin e) /\ ~ exists k, is_kurtosis 0 p_infty (BetaPrime.pdf bp) k) /\
  ((exists v, FDist.skewness fd = Ret (Fin v)) /\ ~ exists v, is_skewness 0 p_infty (FDist.pdf fd) v).
Proof. intros Hb Ebp B4 B3 AB Efd. split; [now apply (C90_beta_prime_kurtosis_unguarded_refuted SP a b)|now apply (C96_f_dist_skewness_refuted SP n1)]. Qed.
Print Assumptions C78_guards_refuted.
Example C78_nonvacuous : gamma_exact (exact false) /\ digamma_exact (exact false) /\ beta_exact (exact false) /\ betainc_exact (exact false) /\ hyp2f1_exact (exact false) /\
  (exists d, InvGamma.new (Fin 2) (Fin 3.5) = Ok d) /\ (exists d, BetaPrime.new (Fin 2) (Fin 3.5) = Ok d) /\ (exists d, FDist.new (F := xreal) 3 5 = Ok d) /\ (exists d, StudentT.new (Fin 3) = Ok d) /\ (exists d, Pareto.new (Fin 1) (Fin 3) = Ok d).
Proof.
  split; [apply ex_gamma|]. split; [apply ex_psi|]. split; [apply ex_beta|]. split; [apply ex_betainc|]. split; [apply ex_hyp|].
  repeat match goal with |- _ /\ _ => split end; eexists; unfold InvGamma.new, BetaPrime.new, FDist.new, StudentT.new, Pareto.new; ok_new.
Qed.
