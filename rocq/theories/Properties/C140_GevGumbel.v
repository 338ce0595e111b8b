(** * Property C140: the small-shape regime of the GEV distribution is the Gumbel distribution *)
From Coq Require Import Reals Lra Lia Psatz List ZArith FunctionalExtensionality.
From Coquelicot Require Import Coquelicot.
From Verif.Num Require Import Scalar XReal.
From Verif.Model Require Import Rust Constraints Probability Params Consts Traits Continuous.
From Verif.Spec Require Import DistSpec GammaSpec ResSpec ZetaSpec.
From Verif.Proofs Require Import ConstraintProofs NewInv XTac Calc Calc2 Improper GammaFun Oracle ZetaOracle ContProofs2 ContProofs3.
From Verif.Properties Require C113_C114_Logistic C34_C40_Continuous.
Import ListNotations.
Open Scope R_scope.
Notation cdfx cdf d := (fun x => unwrap (cdf d x)).

(** every statistic of the GEV law of a shape below 1e-7 in absolute value is Gumbel's *)
Lemma gev_small (SP : Special xreal) (m g z e : R) : sf_digamma (Fin 1) = Fin e -> 0 < g -> Rabs z < / 10000000 ->
  let d := GEV.new_unchecked (Fin m) (Fin g) (Fin z) in let u := Gumbel.new_unchecked (Fin m) (Fin g) in
  (forall x : xreal, GEV.cdf d x = Gumbel.cdf u x) /\ GEV.mean d = Gumbel.mean u /\ GEV.variance d = Gumbel.variance u /\
  GEV.skewness d = Gumbel.skewness u /\ GEV.excess_kurtosis d = Gumbel.excess_kurtosis u /\
  GEV.median d = Gumbel.median u /\ GEV.modes d = Gumbel.modes u.
Proof.
  intros He Hg Hz d u. apply Rabs_def2 in Hz.
  assert (T : fltb (fabs (Fin z : xreal)) GEV.TOL = true).
  { unfold GEV.TOL. xs. apply Rltb_true. apply Rabs_def1; lra. }
  assert (T0 : fltb (fsub (Fin z : xreal) (f_of_Z 0)) GEV.TOL = true).
  { unfold GEV.TOL. xs. apply Rltb_true. lra. }
  assert (L1 : fleb (f_of_Z 1 : xreal) (Fin z) = false). { xs. apply Rleb_false. lra. }
  assert (L2 : fleb (fdiv (f_of_Z 1) (f_of_Z 2) : xreal) (Fin z) = false). { xs. apply Rleb_false. lra. }
  assert (L3 : fleb (ONE_THIRD : xreal) (Fin z) = false). { unfold ONE_THIRD. xs. apply Rleb_false. lra. }
  assert (L4 : fleb (fdiv (f_of_Z 1) (f_of_Z 4) : xreal) (Fin z) = false). { xs. apply Rleb_false. lra. }
  subst d u. split.
  { intros x. unfold GEV.cdf, GEV.t_func, Gumbel.cdf, Gumbel.z. cbn [GEV.new_unchecked GEV.pr Gumbel.new_unchecked Gumbel.pr Gumbel.mu Gumbel.beta].
    rewrite T0. reflexivity. }
  unfold GEV.mean, GEV.variance, GEV.skewness, GEV.excess_kurtosis, GEV.median, GEV.modes,
    Gumbel.mean, Gumbel.variance, Gumbel.skewness, Gumbel.excess_kurtosis, Gumbel.median, Gumbel.modes.
  cbn [GEV.new_unchecked GEV.pr Gumbel.new_unchecked Gumbel.pr Gumbel.mu Gumbel.beta].
  rewrite ?L1, ?L2, ?L3, ?L4, ?T.
  split; [|split; [|split; [reflexivity|split; [reflexivity|split; reflexivity]]]].
  - xs. rewrite He. xs. f_equal. ring.
  - unfold PI2_OVER_6, PI2. xs. f_equal. unfold Rdiv. ring.
Qed.

(** A GEV distribution that [new] accepts with a shape below 1e-7 has the distribution function of Gumbel(mu, sigma), and its
    mean, variance, skewness, excess kurtosis, median and mode are those of that law *)
Theorem C140_small_shape (SP : Special xreal) (m g z : R) (d : GEV.t xreal) :
  digamma_exact SP -> zeta_exact SP -> GEV.new (Fin m) (Fin g) (Fin z) = Ok d -> z < / 10000000 ->
  exists f : xreal -> xreal,
    coherent m_infty p_infty (cdfx GEV.cdf d) f /\
    returns (GEV.mean d) (fun mu => is_mean m_infty p_infty f mu /\ returns (GEV.variance d) (is_variance m_infty p_infty f mu)) /\
    returns (GEV.skewness d) (is_skewness m_infty p_infty f) /\
    returns (GEV.excess_kurtosis d) (fun e => is_kurtosis m_infty p_infty f (e + 3)) /\
    returns (GEV.median d) (is_median (cdfx GEV.cdf d)) /\
    all_return (GEV.modes d) (is_mode m_infty p_infty f) /\ GEV.modes d <> [] /\
    forall u, Gumbel.new (Fin m) (Fin g) = Ok u ->
      f = Gumbel.pdf u /\ (forall x, GEV.cdf d x = Gumbel.cdf u x) /\ GEV.mean d = Gumbel.mean u /\ GEV.variance d = Gumbel.variance u /\
      GEV.skewness d = Gumbel.skewness u /\ GEV.excess_kurtosis d = Gumbel.excess_kurtosis u /\
      GEV.median d = Gumbel.median u /\ GEV.modes d = Gumbel.modes u.
Proof.
  intros Hd Hz H Lz. unfold GEV.new in H. inv_new H. change (GEV.mk _) with (GEV.new_unchecked (Fin m) (Fin g) (Fin z)).
  destruct (Hd 1 ltac:(lra)) as (G & e & _ & _ & He).
  assert (HG : Gumbel.new (Fin m) (Fin g) = Ok (Gumbel.new_unchecked (Fin m) (Fin g))) by (unfold Gumbel.new; etransitivity; [ok_new|reflexivity]).
  destruct (gev_small SP m g z e He) as (E1 & E2 & E3 & E4 & E5 & E6 & E7); [lra|apply Rabs_def1; lra|].
  exists (Gumbel.pdf (Gumbel.new_unchecked (Fin m) (Fin g))).
  destruct (C34_C40_Continuous.C34_gumbel _ _ _ HG) as (_ & _ & A1 & A2 & A3 & A4).
  destruct (C113_C114_Logistic.C113_gumbel SP _ _ _ Hd Hz HG) as (B1 & B2 & _ & B3 & _).
  rewrite E2, E3, E4, E5, E6, E7.
  assert (EC : (fun x => unwrap (GEV.cdf (GEV.new_unchecked (Fin m) (Fin g) (Fin z)) x)) = (fun x => unwrap (Gumbel.cdf (Gumbel.new_unchecked (Fin m) (Fin g)) x))).
  { apply functional_extensionality. intros x. now rewrite E1. }
  rewrite EC.
  split; [exact A1|].
  split; [exact B1|]. split; [exact B2|]. split; [exact B3|].
  split; [exact A2|]. split; [exact A3|]. split; [exact A4|].
  intros u Hu. rewrite Hu in HG. injection HG as ->. repeat (split; [first [reflexivity|assumption]|]). reflexivity.
Qed.
Print Assumptions C140_small_shape.

(** The GEV distribution of shape zero (which only [new_unchecked] and a deserialised parameter set can build) is Gumbel(mu, sigma) *)
Theorem C140_zero_shape (SP : Special xreal) (m g : R) (u : Gumbel.t xreal) :
  digamma_exact SP -> Gumbel.new (Fin m) (Fin g) = Ok u ->
  let d := GEV.new_unchecked (Fin m) (Fin g) (Fin 0) in
  (forall x : R, GEV.pdf d (Fin x) = Gumbel.pdf u (Fin x)) /\ (forall x, GEV.cdf d x = Gumbel.cdf u x) /\
  GEV.mean d = Gumbel.mean u /\ GEV.variance d = Gumbel.variance u /\ GEV.skewness d = Gumbel.skewness u /\
  GEV.excess_kurtosis d = Gumbel.excess_kurtosis u /\ GEV.median d = Gumbel.median u /\ GEV.modes d = Gumbel.modes u /\
  GEV.shannon_entropy d = Gumbel.shannon_entropy u.
Proof.
  intros Hd H d. unfold Gumbel.new in H. inv_new H. change (Gumbel.mk _) with (Gumbel.new_unchecked (Fin m) (Fin g)).
  destruct (Hd 1 ltac:(lra)) as (G & e & _ & _ & He).
  destruct (gev_small SP m g 0 e He) as (E1 & E2 & E3 & E4 & E5 & E6 & E7); [lra|rewrite Rabs_R0; lra|].
  split. { intros x. rewrite g_pdf. unfold d, GEV.pdf, GEV.t_func. cbn [GEV.new_unchecked GEV.pr GEV.zeta GEV.sigma GEV.mu]. unfold GEV.TOL. xs.
    rewrite Rltb_true by lra. xs. assert (0 < exp (- ((x - m) / g))) by apply exp_pos. xs. f_equal.
    rewrite Rplus_0_l, Rpower_1 by auto. replace (- ((x - m) / g) - exp (- ((x - m) / g))) with (- ((x - m) / g) + - exp (- ((x - m) / g))) by ring. rewrite exp_plus. reflexivity. auto. }
  repeat (split; [first [reflexivity|assumption]|]).
  unfold d, GEV.shannon_entropy, Gumbel.shannon_entropy. cbn [GEV.new_unchecked GEV.pr GEV.zeta GEV.sigma GEV.mu Gumbel.new_unchecked Gumbel.pr Gumbel.beta]. xs. rewrite He. xs. f_equal. ring.
Qed.
Print Assumptions C140_zero_shape.

Example C140_nonvacuous : digamma_exact (exactz false) /\ zeta_exact (exactz false) /\ (exists d, GEV.new (Fin 1) (Fin 2) (Fin (/ 100000000)) = Ok d) /\ exists u, Gumbel.new (Fin 1) (Fin 2) = Ok u.
Proof. split; [apply exz_psi|]. split; [apply exz_zeta|]. split; eexists; [unfold GEV.new|unfold Gumbel.new]; ok_new. Qed.
