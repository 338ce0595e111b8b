(** * Properties C99-C101: Student's t *)
From Coq Require Import Reals Lra Lia Psatz List ZArith.
From Coquelicot Require Import Coquelicot.
From Verif.Num Require Import Scalar XReal.
From Verif.Model Require Import Rust Constraints Probability Params Consts Traits Continuous Continuous3.
From Verif.Spec Require Import DistSpec GammaSpec ResSpec.
From Verif.Proofs Require Import ConstraintProofs NewInv XTac Calc Calc2 Improper GammaFun Subst Mellin HeavyTail Unique Oracle
  ContProofs11 ContProofs14 ContProofs16 ContProofs20 ContProofs21.
Import ListNotations.
Open Scope R_scope.
Notation cdfx cdf d := (fun x => unwrap (cdf d x)).

(** C99 *)
Theorem C99_student_t (SP : Special xreal) (n : R) (d : StudentT.t xreal) :
  gamma_exact SP -> hyp2f1_exact SP -> StudentT.new (Fin n) = Ok d -> 0 < n ->
  StudentT.support d = Reals /\
  is_RInt_gen (rf (StudentT.pdf d)) (Rbar_locally m_infty) (Rbar_locally p_infty) 1 /\
  (forall x, exists v, StudentT.pdf d (Fin x) = Fin v /\ 0 < v /\ StudentT.pdf d (Fin (- x)) = Fin v) /\
  returned_iff_exists (StudentT.mean d) (is_mean m_infty p_infty (StudentT.pdf d)) /\
  returned_iff_exists (StudentT.variance d) (fun v => exists m, is_variance m_infty p_infty (StudentT.pdf d) m v) /\
  returned_iff_exists (StudentT.skewness d) (is_skewness m_infty p_infty (StudentT.pdf d)) /\
  returned_iff_exists (StudentT.excess_kurtosis d) (fun e => is_kurtosis m_infty p_infty (StudentT.pdf d) (3 + e)) /\
  returns (StudentT.median d) (is_median (cdfx StudentT.cdf d)) /\
  StudentT.modes d <> [] /\ all_return (StudentT.modes d) (is_mode m_infty p_infty (StudentT.pdf d)).
Proof.
  intros Hg Hh H Hn. unfold StudentT.new in H. inv_new H. change (StudentT.mk _) with (StudentT.new_unchecked (Fin n)).
  split; [reflexivity|]. split; [now apply st_total|].
  split. { intros x. exists (st_u n x). split; [now apply st_pdf|]. split; [now apply st_u_pos|]. rewrite st_pdf by auto. now rewrite st_u_even. }
  split; [now apply st_mean|]. split; [now apply st_variance|]. split; [now apply st_skewness|]. split; [now apply st_kurtosis|].
  split; [eexists; split; [reflexivity|now apply st_median]|]. split; [discriminate|]. intros x [<-|[]]. eexists; split; [reflexivity|now apply st_mode].
Qed.
Print Assumptions C99_student_t.
Example C99_nonvacuous : gamma_exact (exact false) /\ hyp2f1_exact (exact false) /\ exists d v, StudentT.new (Fin 5) = Ok d /\ StudentT.excess_kurtosis d = Ret v.
Proof.
  split; [apply ex_gamma|]. split; [apply ex_hyp|]. eexists _, _. split; [unfold StudentT.new; ok_new|]. unfold StudentT.excess_kurtosis. cbn [StudentT.pr StudentT.nu]. xs.
  destruct (Rleb_spec 5 2); [lra|]. destruct (Rleb_spec 5 4); [lra|reflexivity].
Qed.

(** C100: the cdf is one exactly when Gamma(nu/2) = 1 (the code multiplies by it instead of dividing) *)
Theorem C100_student_t_cdf_refuted (SP : Special xreal) (n : R) (d : StudentT.t xreal) :
  gamma_exact SP -> hyp2f1_exact SP -> StudentT.new (Fin n) = Ok d -> 0 < n ->
  (is_cdf m_infty p_infty (cdfx StudentT.cdf d) <-> is_Gamma (n / 2) 1) /\
  (n = 1 \/ n = 3 \/ n = 6 -> ~ is_cdf m_infty p_infty (cdfx StudentT.cdf d)).
Proof.
  intros Hg Hh H Hn. unfold StudentT.new in H. inv_new H. change (StudentT.mk _) with (StudentT.new_unchecked (Fin n)). assert (GS := Gam_spec (n / 2) ltac:(lra)). split; [split|].
  - intros C. destruct (Req_dec (Gam (n / 2)) 1) as [E|E]; [now rewrite <- E|]. exfalso. revert C. now apply st_not_cdf.
  - intros G. assert (E : Gam (n / 2) = 1) by (apply (Gamma_unique (n / 2)); auto). apply (proj1 (st_coherent Hg n Hn Hh E)).
  - intros Hc. apply st_not_cdf; auto. assert (P := PI_RGT_0). assert (P3 := PI2_3_2). assert (P4 := PI_4). assert (S := sqrt_sqrt PI ltac:(lra)). assert (S0 := sqrt_pos PI).
    destruct Hc as [->|[->| ->]].
    + replace (1 / 2) with (1 / 2) by field. rewrite Gam_half. intros E. rewrite E in S. unfold PI2 in P3. lra.
    + replace (3 / 2) with (1 / 2 + 1) by field. rewrite Gam_rec, Gam_half by lra. intros E. assert (sqrt PI = 2) by lra. assert (PI = 4) by (rewrite <- S, H; ring). assert (Q := PI_ineq 2). unfold tg_alt, PI_tg, sum_f_R0 in Q. cbn in Q. lra.
    + replace (6 / 2) with (1 + 1 + 1) by field. rewrite !Gam_rec, Gam_1 by lra. lra.
Qed.
Print Assumptions C100_student_t_cdf_refuted.
Theorem C100_student_t_cdf_partial (SP : Special xreal) (n : R) (d : StudentT.t xreal) :
  gamma_exact SP -> hyp2f1_exact SP -> StudentT.new (Fin n) = Ok d -> n = 2 \/ n = 4 ->
  coherent m_infty p_infty (cdfx StudentT.cdf d) (StudentT.pdf d).
Proof.
  intros Hg Hh H Hn. unfold StudentT.new in H. inv_new H. change (StudentT.mk _) with (StudentT.new_unchecked (Fin n)). apply st_coherent; auto; [lra|].
  destruct Hn as [->| ->]; [replace (2 / 2) with 1 by field; exact Gam_1|replace (4 / 2) with (1 + 1) by field; rewrite Gam_rec, Gam_1 by lra; ring].
Qed.
Print Assumptions C100_student_t_cdf_partial.
Example C100_nonvacuous : exists d, StudentT.new (Fin 4) = Ok d. Proof. eexists. unfold StudentT.new. ok_new. Qed.

(** C101: the constructor accepts negative degrees of freedom, for which the
    density is NaN everywhere; the entropy uses Gamma for digamma and drops a logarithm *)
Theorem C101_student_t_new_refuted (SP : Special xreal) (n x : R) : n < 0 ->
  exists d, StudentT.new (Fin n) = Ok d /\ StudentT.pdf d (Fin x) = NaN.
Proof.
  intros Hn. exists (StudentT.new_unchecked (Fin n)). split; [unfold StudentT.new; etransitivity; [ok_new|reflexivity]|].
  unfold StudentT.pdf. cbn [StudentT.pr StudentT.nu StudentT.new_unchecked].
  assert (E : fsqrt (fmul (Fin n) fpi) = NaN). { xs. cbn. destruct (Rle_dec 0 (n * PI)) as [H|_]; [|reflexivity]. assert (P := PI_RGT_0). nra. }
  rewrite E. destruct (sf_gamma _); reflexivity.
Qed.
Print Assumptions C101_student_t_new_refuted.
Theorem C101_student_t_entropy_refuted (SP : Special xreal) : gamma_exact SP -> beta_exact SP ->
  exists d e, StudentT.new (Fin 2) = Ok d /\ StudentT.shannon_entropy d = Fin e /\ ~ is_entropy m_infty p_infty (StudentT.pdf d) e.
Proof.
  intros Hg Hb. assert (H2 : 0 < 2) by lra. exists (StudentT.new_unchecked (Fin 2)). eexists. split; [unfold StudentT.new; etransitivity; [ok_new|reflexivity]|].
  split; [now apply st_entropy_val|]. intros K. assert (E := entropy_unique _ _ _ _ _ K (st_entropy_true Hg 2 H2)). unfold st_ent in E.
  replace (2 / 2) with 1 in E by field. replace ((2 + 1) / 2) with (1 / 2 + 1) in E by field. rewrite Gam_rec, Gam_half, Gam_1 in E by lra.
  assert (EB : Bet (1 / 2) 1 = 2). { apply (Beta_unique (1 / 2) 1); [apply Bet_spec; lra|]. assert (B := Bet_half_1). replace (3 / 2 - 1 / 2) with 1 in B by field. exact B. }
  rewrite EB in E. assert (S2 : 1.41 < sqrt 2) by (apply Rsqr_incrst_0; [rewrite Rsqr_sqrt by lra; unfold Rsqr; lra|lra|apply sqrt_pos]).
  assert (S2' : sqrt 2 < 1.42) by (apply Rsqr_incrst_0; [rewrite Rsqr_sqrt by lra; unfold Rsqr; lra|apply sqrt_pos|lra]).
  assert (P3 := PI2_3_2). unfold PI2 in P3.
  assert (SP1 : 1.73 < sqrt PI) by (apply Rsqr_incrst_0; [rewrite Rsqr_sqrt by lra; unfold Rsqr; lra|lra|apply sqrt_pos]).
  assert (L1 : psi (1 / 2 + 1) < psi 1 + 1). { assert (A := psi_lt (1 / 2 + 1) (1 / 2) ltac:(lra) ltac:(lra)). replace (1 / 2 + 1 + 1 / 2) with (1 + 1) in A by field. rewrite (psi_rec 1), Rinv_1 in A by lra. exact A. }
  assert (L2 : ln (sqrt 2 * 2) < 1.1).
  { rewrite <- (ln_exp 1.1). apply ln_increasing; [lra|]. assert (X := exp_ineq1 0.06875 ltac:(lra)).
    assert (E16 : exp 1.1 = exp 0.06875 ^ 16) by (rewrite <- exp_pow_nat; f_equal; rewrite INR_IZR_INZ; change (Z.of_nat 16) with 16%Z; lra).
    rewrite E16. replace 16%nat with (2 * (2 * (2 * 2)))%nat by reflexivity. rewrite !pow_mult. set (e := exp 0.06875) in *.
    assert (A1 : 1.142 < e ^ 2) by (rewrite <- Rsqr_pow2; unfold Rsqr; nra). set (e2 := e ^ 2) in *. assert (A2 : 1.304 < e2 ^ 2) by (rewrite <- Rsqr_pow2; unfold Rsqr; nra). set (e4 := e2 ^ 2) in *.
    assert (A3 : 1.7 < e4 ^ 2) by (rewrite <- Rsqr_pow2; unfold Rsqr; nra). set (e8 := e4 ^ 2) in *. assert (A4 : 2.88 < e8 ^ 2) by (rewrite <- Rsqr_pow2; unfold Rsqr; nra). lra. }
  lra.
Qed.
Print Assumptions C101_student_t_entropy_refuted.
