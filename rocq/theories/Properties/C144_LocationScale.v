(** * Property C144: location and scale parameters move and stretch the distribution *)
From Coq Require Import Reals Lra Lia Psatz List ZArith.
From Coquelicot Require Import Coquelicot.
From Verif.Num Require Import Scalar XReal.
From Verif.Model Require Import Rust Constraints Probability Params Consts Traits Continuous Continuous2 Continuous3.
From Verif.Spec Require Import DistSpec GammaSpec ResSpec.
From Verif.Proofs Require Import ConstraintProofs NewInv XTac Calc Calc2 Gauss Gauss2 Improper GammaFun Mellin Subst Oracle
  ContProofs1 ContProofs2 ContProofs3 ContProofs4 ContProofs5 ContProofs8 ContProofs9 ContProofs10 ContProofs11 ContProofs12 ContProofs13 ContProofs14 ContProofs15 ContProofs18 ContProofs20 ContProofs24 ContProofs32.
From Verif.Properties Require Import C142_Relations.
Import ListNotations.
Open Scope R_scope.

(** [f] is the density of m + s X when [f0] is the density of X *)
Definition stretched (P : R -> Prop) (m s : R) (f0 f : xreal -> xreal) : Prop :=
  forall x, P x -> returns (f0 (Fin x)) (fun u => f (Fin (m + s * x)) = Fin (u / s)).
(** [c] is the distribution function of m + s X when [c0] is that of X *)
Definition moved (P : R -> Prop) (m s : R) (c0 c : xreal -> Probability xreal) : Prop :=
  forall x, P x -> c (Fin (m + s * x)) = c0 (Fin x).
Definition all (x : R) : Prop := True.

Theorem C144_real_line (SP : Special xreal) (m s : R) (ca ca0 : Cauchy.t xreal) (lg lg0 : Logistic.t xreal) (gu gu0 : Gumbel.t xreal) (no no0 : UvNormal.t xreal) :
  (forall x, sf_norm (Fin x) = Fin (Phi x)) ->
  Cauchy.new (Fin m) (Fin s) = Ok ca -> Cauchy.new (Fin 0) (Fin 1) = Ok ca0 -> Logistic.new (Fin m) (Fin s) = Ok lg -> Logistic.new (Fin 0) (Fin 1) = Ok lg0 ->
  Gumbel.new (Fin m) (Fin s) = Ok gu -> Gumbel.new (Fin 0) (Fin 1) = Ok gu0 -> UvNormal.new (Fin m) (Fin (s * s)) = Ok no -> UvNormal.new (Fin 0) (Fin 1) = Ok no0 ->
  (stretched all m s (Cauchy.pdf ca0) (Cauchy.pdf ca) /\ moved all m s (Cauchy.cdf ca0) (Cauchy.cdf ca)) /\
  (stretched all m s (Logistic.pdf lg0) (Logistic.pdf lg) /\ moved all m s (Logistic.cdf lg0) (Logistic.cdf lg)) /\
  (stretched all m s (Gumbel.pdf gu0) (Gumbel.pdf gu) /\ moved all m s (Gumbel.cdf gu0) (Gumbel.cdf gu)) /\
  (stretched all m s (UvNormal.pdf no0) (UvNormal.pdf no) /\ moved all m s (UvNormal.cdf no0) (UvNormal.cdf no)).
Proof.
  intros Hn A1 A2 B1 B2 C1 C2 D1 D2. unfold Cauchy.new in *. unfold Logistic.new in *. unfold Gumbel.new in *. inv_new A1. inv_new A2. inv_new B1. inv_new B2. inv_new C1. inv_new C2. apply uvn_new_inv in D1 as [HS ->]. apply uvn_new_inv in D2 as [HS1 ->].
  assert (Hs : 0 < s) by assumption. assert (E : forall x, (m + s * x - m) / s = x) by (intros; field; lra). assert (E0 : forall x, (x - 0) / 1 = x) by (intros; field).
  repeat match goal with |- context [Cauchy.mk (Cauchy.mkP ?a ?b)] => change (Cauchy.mk (Cauchy.mkP a b)) with (Cauchy.new_unchecked a b) end.
  repeat match goal with |- context [Logistic.mk (Logistic.mkP ?a ?b)] => change (Logistic.mk (Logistic.mkP a b)) with (Logistic.new_unchecked a b) end.
  repeat match goal with |- context [Gumbel.mk (Gumbel.mkP ?a ?b)] => change (Gumbel.mk (Gumbel.mkP a b)) with (Gumbel.new_unchecked a b) end.
  assert (Q : sqrt (s * s) = s) by (apply sqrt_square; lra).
  split; [|split; [|split]]; split; intros x _; try apply prob_ext.
  - eexists; split; [apply c_pdf; lra|]. rewrite c_pdf by lra. f_equal. rewrite E, E0. assert (P := PI_RGT_0). assert (0 < 1 + x * x) by (generalize (Rle_0_sqr x); unfold Rsqr; lra). field. lra.
  - rewrite !c_cdf by lra. now rewrite E, E0.
  - eexists; split; [apply l_pdf; lra|]. rewrite l_pdf by lra. f_equal. rewrite E, E0. assert (0 < exp (- x)) by apply exp_pos. field. lra.
  - rewrite !l_cdf by lra. now rewrite E, E0.
  - eexists; split; [apply g_pdf; lra|]. rewrite g_pdf by lra. f_equal. rewrite E, E0. field. lra.
  - rewrite !g_cdf by lra. now rewrite E, E0.
  - eexists; split; [apply un_pdf; lra|]. rewrite un_pdf by lra. f_equal. rewrite Q, sqrt_1, E, E0. field. lra.
  - rewrite (un_cdf m _ HS Hn), (un_cdf 0 1 ltac:(lra) Hn). now rewrite Q, sqrt_1, E, E0.
Qed.
Print Assumptions C144_real_line.

(** bounded supports: Uniform(m, s), Arcsine(m, s), Cosine(m, s) (distribution function; C42 shows that its density lacks the factor 1/s); half lines: GPD, GEV, Levy (density; C80 shows its
    distribution function wrong) *)
Theorem C144_intervals (m s z c : R) (un un0 : UniformF.t xreal) (ar ar0 : Arcsine.t xreal) (co co0 : Cosine.t xreal) (gp gp0 : GPD.t xreal) (ge ge0 : GEV.t xreal) (le le0 : Levy.t xreal) :
  UniformF.new (Fin m) (Fin s) = Ok un -> UniformF.new (Fin 0) (Fin 1) = Ok un0 -> Arcsine.new (Fin m) (Fin s) = Ok ar -> Arcsine.new (Fin 0) (Fin 1) = Ok ar0 ->
  Cosine.new (Fin m) (Fin s) = Ok co -> Cosine.new (Fin 0) (Fin 1) = Ok co0 ->
  GPD.new (Fin m) (Fin s) (Fin z) = Ok gp -> GPD.new (Fin 0) (Fin 1) (Fin z) = Ok gp0 -> GEV.new (Fin m) (Fin s) (Fin z) = Ok ge -> GEV.new (Fin 0) (Fin 1) (Fin z) = Ok ge0 ->
  Levy.new (Fin m) (Fin s) = Ok le -> Levy.new (Fin 0) (Fin 1) = Ok le0 ->
  (stretched (fun x => 0 < x < 1) m s (UniformF.pdf un0) (UniformF.pdf un) /\ moved (fun x => 0 <= x < 1) m s (UniformF.cdf un0) (UniformF.cdf un)) /\
  (stretched (fun x => 0 < x < 1) m s (Arcsine.pdf ar0) (Arcsine.pdf ar) /\ moved (fun x => 0 < x < 1) m s (Arcsine.cdf ar0) (Arcsine.cdf ar)) /\
  (moved all m s (Cosine.cdf co0) (Cosine.cdf co)) /\
  (stretched (fun x => 0 < x) m s (GPD.pdf gp0) (GPD.pdf gp) /\ moved (fun x => 0 < x) m s (GPD.cdf gp0) (GPD.cdf gp)) /\
  (/ 10000000 <= z -> stretched (fun x => - / z < x) m s (GEV.pdf ge0) (GEV.pdf ge) /\ moved (fun x => - / z < x) m s (GEV.cdf ge0) (GEV.cdf ge)) /\
  stretched (fun x => 0 < x) m s (Levy.pdf le0) (Levy.pdf le).
Proof.
  intros A1 A2 B1 B2 C1 C2 D1 D2 E1 E2 F1 F2. apply uniform_new_inv in A1 as [Hs ->]. apply uniform_new_inv in A2 as [_ ->]. unfold Arcsine.new in *. unfold Cosine.new in *. unfold GPD.new in *. unfold GEV.new in *. unfold Levy.new in *.
  inv_new B1. inv_new B2. inv_new C1. inv_new C2. inv_new D1. inv_new D2. inv_new E1. inv_new E2. inv_new F1. inv_new F2.
  assert (Hz : 0 < z) by assumption. assert (E : forall x, (m + s * x - m) / s = x) by (intros; field; lra). assert (E0 : forall x, (x - 0) / 1 = x) by (intros; field).
  repeat match goal with |- context [Arcsine.mk (Arcsine.mkP ?a ?b)] => change (Arcsine.mk (Arcsine.mkP a b)) with (Arcsine.new_unchecked a b) end.
  repeat match goal with |- context [Cosine.mk (Cosine.mkP ?a ?b)] => change (Cosine.mk (Cosine.mkP a b)) with (Cosine.new_unchecked a b) end.
  repeat match goal with |- context [GPD.mk (GPD.mkP ?a ?b ?c)] => change (GPD.mk (GPD.mkP a b c)) with (GPD.new_unchecked a b c) end.
  repeat match goal with |- context [GEV.mk (GEV.mkP ?a ?b ?c)] => change (GEV.mk (GEV.mkP a b c)) with (GEV.new_unchecked a b c) end.
  repeat match goal with |- context [Levy.mk (Levy.mkP ?a ?b)] => change (Levy.mk (Levy.mkP a b)) with (Levy.new_unchecked a b) end.
  split; [|split; [|split; [|split; [|split]]]]; [split; intros x Hx; try apply prob_ext | split; intros x Hx; try apply prob_ext | intros x Hx; apply prob_ext | split; intros x Hx; try apply prob_ext | intros Ht; split; intros x Hx; try apply prob_ext | intros x Hx].
  - assert (m <= m + s * x <= m + s) by nra. eexists; split; [apply u_pdf; lra|]. rewrite u_pdf by lra. f_equal. field. lra.
  - assert (m <= m + s * x < m + s) by nra. rewrite !u_cdf by lra. now rewrite E, E0.
  - assert (0 < s * x) by nra. assert (s * x < s) by nra. eexists; split; [apply as_pdf; first [lra | split; cbn; lra]|]. rewrite as_pdf by first [lra | split; cbn; lra]. f_equal. replace ((m + s * x - m) * (m + s - (m + s * x))) with (s * s * ((x - 0) * (0 + 1 - x))) by ring. assert (0 < x * (1 - x)) by nra.
    replace ((x - 0) * (0 + 1 - x)) with (x * (1 - x)) by ring. rewrite sqrt_mult, sqrt_square by nra. assert (0 < sqrt (x * (1 - x))) by (now apply sqrt_lt_R0). assert (P := PI_RGT_0). field. lra.
  - assert (0 < s * x) by nra. assert (s * x < s) by nra. rewrite !as_cdf by first [lra | split; cbn; lra]. now rewrite E, E0.
  - rewrite !co_cdf by lra. now rewrite E, E0.
  - assert (0 < z * x) by nra. eexists; split; [apply gpd_pdf; rewrite ?E0; lra|]. rewrite gpd_pdf by (rewrite ?E; lra). f_equal. rewrite E, E0. field. lra.
  - assert (0 < z * x) by nra. rewrite !gpd_cdf by (rewrite ?E, ?E0; lra). now rewrite E, E0.
  - assert (- 1 < z * x). { replace (- 1) with (z * - / z) by (field; lra). apply Rmult_lt_compat_l; lra. } eexists; split; [apply gev_pdf; rewrite ?E0; lra|]. rewrite gev_pdf by (rewrite ?E; lra). f_equal. rewrite E, E0. field. lra.
  - assert (- 1 < z * x). { replace (- 1) with (z * - / z) by (field; lra). apply Rmult_lt_compat_l; lra. } rewrite !gev_cdf by (rewrite ?E, ?E0; lra). now rewrite E, E0.
  - eexists; split; [apply lv_pdf; first [lra | split; cbn; auto]|]. rewrite lv_pdf by first [lra | split; cbn; nra]. f_equal. unfold lvg. assert (P := PI_RGT_0). replace (m + s * x - m) with (s * x) by ring. rewrite Rminus_0_r. rewrite <- (Rpower_mult_distr s x) by lra. rewrite (Rpower_32 s) by lra. replace (- (s / 2) / (s * x)) with (- (1 / 2) / x) by (field; lra).
    replace (s / 2 / PI) with (s * (1 / 2 / PI)) by (field; lra). assert (0 < 1 / 2 / PI) by (apply Rdiv_lt_0_compat; lra). rewrite sqrt_mult by lra. assert (0 < sqrt s) by (apply sqrt_lt_R0; lra). assert (0 < Rpower x (3 / 2)) by apply exp_pos. field. lra.
Qed.
Print Assumptions C144_intervals.


(** families with a scale (or rate) parameter only *)
Theorem C144_scale (SP : Special xreal) (s k : R) (ex ex0 : Exponential.t xreal) (ra ra0 : Rayleigh.t xreal) (we we0 : Weibull.Params xreal) (pa pa0 : Pareto.t xreal) (fo fo0 : FoldedNormal.t xreal) (ig ig0 : InvGamma.t xreal) (ga ga0 : Gamma.t xreal) :
  gamma_exact SP -> Exponential.new (Fin (/ s)) = Ok ex -> Exponential.new (Fin 1) = Ok ex0 -> Rayleigh.new (Fin s) = Ok ra -> Rayleigh.new (Fin 1) = Ok ra0 ->
  Weibull.p_new (Fin s) (Fin k) = Ok we -> Weibull.p_new (Fin 1) (Fin k) = Ok we0 -> 0 < s -> Pareto.new (Fin s) (Fin k) = Ok pa -> Pareto.new (Fin 1) (Fin k) = Ok pa0 ->
  FoldedNormal.new (Fin (s * k)) (Fin s) = Ok fo -> FoldedNormal.new (Fin k) (Fin 1) = Ok fo0 -> InvGamma.new (Fin k) (Fin s) = Ok ig -> InvGamma.new (Fin k) (Fin 1) = Ok ig0 ->
  Gamma.new (Fin k) (Fin (/ s)) = Ok ga -> Gamma.new (Fin k) (Fin 1) = Ok ga0 ->
  (stretched all 0 s (Exponential.pdf ex0) (Exponential.pdf ex) /\ moved all 0 s (Exponential.cdf ex0) (Exponential.cdf ex)) /\
  stretched all 0 s (Rayleigh.pdf ra0) (Rayleigh.pdf ra) /\
  (stretched (fun x => 0 < x) 0 s (Weibull.pdf (Weibull.from we0)) (Weibull.pdf (Weibull.from we)) /\ moved (fun x => 0 < x) 0 s (Weibull.cdf (Weibull.from we0)) (Weibull.cdf (Weibull.from we))) /\
  (stretched (fun x => 1 <= x) 0 s (Pareto.pdf pa0) (Pareto.pdf pa) /\ moved (fun x => 0 < x) 0 s (Pareto.cdf pa0) (Pareto.cdf pa)) /\
  stretched all 0 s (FoldedNormal.pdf fo0) (FoldedNormal.pdf fo) /\ stretched (fun x => 0 < x) 0 s (InvGamma.pdf ig0) (InvGamma.pdf ig) /\
  (stretched (fun x => 0 < x) 0 s (Gamma.pdf ga0) (Gamma.pdf ga) /\ moved (fun x => 0 < x) 0 s (Gamma.cdf ga0) (Gamma.cdf ga)).
Proof.
  intros Hg A1 A2 B1 B2 C1 C2 Hs D1 D2 E1 E2 F1 F2 G1 G2. unfold Exponential.new in *. unfold Rayleigh.new in *. unfold Weibull.p_new in *. unfold Pareto.new in *. unfold FoldedNormal.new in *. unfold InvGamma.new in *. unfold Gamma.new in *.
  inv_new A1. inv_new A2. inv_new B1. inv_new B2. inv_new C1. inv_new C2. inv_new D1. inv_new D2. inv_new E1. inv_new E2. inv_new F1. inv_new F2. inv_new G1. inv_new G2.
  assert (Hk : 0 < k) by assumption. assert (Hi : 0 < / s) by assumption. assert (E : forall x, (0 + s * x) / s = x) by (intros; field; lra). assert (E0 : forall x, x / 1 = x) by (intros; field).
  repeat match goal with |- context [Exponential.mk (Exponential.mkP ?a)] => change (Exponential.mk (Exponential.mkP a)) with (Exponential.new_unchecked a) end.
  repeat match goal with |- context [Rayleigh.mk (Rayleigh.mkP ?a)] => change (Rayleigh.mk (Rayleigh.mkP a)) with (Rayleigh.new_unchecked a) end.
  repeat match goal with |- context [Pareto.mk (Pareto.mkP ?a ?b)] => change (Pareto.mk (Pareto.mkP a b)) with (Pareto.new_unchecked a b) end.
  repeat match goal with |- context [FoldedNormal.mk (FoldedNormal.mkP ?a ?b)] => change (FoldedNormal.mk (FoldedNormal.mkP a b)) with (FoldedNormal.new_unchecked a b) end.
  repeat match goal with |- context [InvGamma.mk (InvGamma.mkP ?a ?b)] => change (InvGamma.mk (InvGamma.mkP a b)) with (InvGamma.new_unchecked a b) end.
  repeat match goal with |- context [Gamma.mk (Gamma.mkP ?a ?b)] => change (Gamma.mk (Gamma.mkP a b)) with (Gamma.new_unchecked a b) end.
  split; [|split; [|split; [|split; [|split; [|split]]]]].
  - split; intros x _; [|apply prob_ext].
    + eexists; split; [apply e_pdf; lra|]. rewrite e_pdf. f_equal. replace (/ s * (0 + s * x)) with (1 * x) by (field; lra). field. lra.
    + rewrite !e_cdf. replace (/ s * (0 + s * x)) with (1 * x) by (field; lra). reflexivity.
  - intros x _. eexists; split; [apply ra_pdf; lra|]. rewrite ra_pdf by lra. f_equal. unfold rg. replace (- (0 + s * x) * (0 + s * x) / (s * s) / 2) with (- x * x / (1 * 1) / 2) by (field; lra). field. lra.
  - split; intros x Hx; [|apply prob_ext]; assert (0 < s * x) by nra.
    + eexists; split; [apply w_pdf; lra|]. rewrite w_pdf by lra. f_equal. rewrite E, !(E0 x). field. lra.
    + rewrite !w_cdf by lra. now rewrite E, !(E0 x).
  - split; intros x Hx; [|apply prob_ext]; assert (0 < s * x) by nra; (assert (EP : forall c, Rpower (0 + s * x) c = Rpower s c * Rpower x c) by (intros c; rewrite Rplus_0_l, <- Rpower_mult_distr by lra; reflexivity)).
    + eexists; split; [apply p_pdf; lra|]. rewrite p_pdf by first [lra | nra]. f_equal. rewrite Rpower_1_base, EP. replace (- k - 1) with (- k + - (1)) by ring. rewrite !(Rpower_plus (- k)), !Rpower_Ropp, !Rpower_1 by lra. assert (0 < Rpower s k) by apply exp_pos. assert (0 < Rpower x k) by apply exp_pos. field. lra.
    + rewrite !p_cdf by lra. f_equal. rewrite Rpower_1_base, EP, (Rpower_Ropp s). assert (0 < Rpower s k) by apply exp_pos. field. lra.
  - intros x _. eexists; split; [apply fn_pdf; lra|]. rewrite fn_pdf by lra. f_equal. unfold fn_u, zp, zm. replace ((0 + s * x - - (s * k)) / s) with ((x - - k) / 1) by (field; lra). replace ((0 + s * x - s * k) / s) with ((x - k) / 1) by (field; lra). field. lra.
  - intros x Hx. assert (0 < s * x) by nra. eexists; split; [apply (ig_pdf Hg); first [lra | now apply in0]|]. rewrite (ig_pdf Hg) by first [lra | apply in0; lra]. f_equal. unfold ig_u. rewrite Rpower_1_base. rewrite Rplus_0_l, <- Rpower_mult_distr by lra. replace (s / (s * x)) with (1 / x) by (field; lra).
    replace (- k - 1) with (- k + - (1)) by ring. rewrite !(Rpower_plus (- k)), !Rpower_Ropp, !Rpower_1 by lra. assert (0 < Rpower s k) by apply exp_pos. assert (0 < Rpower x k) by apply exp_pos. assert (G := Gam_pos k Hk). field. lra.
  - split; intros x Hx; [|apply prob_ext]; assert (0 < s * x) by nra.
    + eexists; split; [apply (ga_pdf Hg); first [lra | now apply in0]|]. rewrite (ga_pdf Hg) by first [lra | apply in0; lra]. f_equal. unfold ga_u. rewrite Rpower_1_base. rewrite Rplus_0_l, <- Rpower_mult_distr by lra. replace (/ s * (s * x)) with (1 * x) by (field; lra).
      replace (Rpower (/ s) k) with (/ Rpower s k) by (unfold Rpower; rewrite ln_Rinv, <- exp_Ropp by lra; f_equal; ring). replace (Rpower s (k - 1)) with (Rpower s k / s) by (unfold Rminus; rewrite Rpower_plus, Rpower_Ropp, Rpower_1 by lra; reflexivity). assert (0 < Rpower s k) by apply exp_pos. assert (G := Gam_pos k Hk). field. lra.
    + unfold Gamma.cdf. cbn [Gamma.new_unchecked Gamma.pr Gamma.alpha Gamma.beta]. xs. replace (/ s * (0 + s * x)) with (1 * x) by (field; lra). reflexivity.
Qed.
Print Assumptions C144_scale.

Example C144_nonvacuous : gamma_exact (exact false) /\ (exists d, Cauchy.new (Fin 1) (Fin 2) = Ok d) /\ (exists d, Logistic.new (Fin 1) (Fin 2) = Ok d) /\ (exists d, Gumbel.new (Fin 1) (Fin 2) = Ok d) /\ (exists d, Arcsine.new (Fin 1) (Fin 2) = Ok d) /\
  (exists d, Cosine.new (Fin 1) (Fin 2) = Ok d) /\ (exists d, GPD.new (Fin 1) (Fin 2) (Fin 3) = Ok d) /\ (exists d, GEV.new (Fin 1) (Fin 2) (Fin 3) = Ok d) /\ (exists d, Levy.new (Fin 1) (Fin 2) = Ok d) /\ (exists d, Rayleigh.new (Fin 2) = Ok d) /\
  (exists d, Exponential.new (Fin (/ 2)) = Ok d) /\ (exists d, Weibull.p_new (Fin 2) (Fin 3) = Ok d) /\ (exists d, Pareto.new (Fin 2) (Fin 3) = Ok d) /\ (exists d, FoldedNormal.new (Fin (2 * 3)) (Fin 2) = Ok d) /\ (exists d, InvGamma.new (Fin 3) (Fin 2) = Ok d) /\
  (exists d, Gamma.new (Fin 3) (Fin (/ 2)) = Ok d) /\ (exists d, UniformF.new (Fin 1) (Fin 2) = Ok d) /\ exists d, UvNormal.new (Fin 1) (Fin (2 * 2)) = Ok d.
Proof.
  split; [apply ex_gamma|].
  repeat (split; [eexists; unfold Exponential.new, Gamma.new, Weibull.p_new, Cauchy.new, Logistic.new, Arcsine.new, Cosine.new, GPD.new, GEV.new, Levy.new, Rayleigh.new, Pareto.new, InvGamma.new, Gumbel.new, FoldedNormal.new; ok_new|]).
  split; [eexists; apply uniform_new_ok; lra|]. eexists. apply uvn_new_ok. lra.
Qed.
