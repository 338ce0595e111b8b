(** * Properties C128-C130: reported supports *)
From Coq Require Import Reals Lra Lia Psatz List ZArith Bool.
From Coquelicot Require Import Coquelicot.
From Verif.Num Require Import XReal.
From Verif.Model Require Import Rust LogFact Constraints Probability Params Consts Traits Continuous Continuous2 Continuous3 Discrete.
From Verif.Spec Require Import DistSpec GammaSpec ResSpec SupportSpec DiscreteSpec.
From Verif.Proofs Require Import ConstraintProofs NewInv XTac Calc Calc2 Improper Gauss Gauss2 GammaFun Mellin Oracle
  ContProofs1 ContProofs2 ContProofs3 ContProofs4 ContProofs5 ContProofs6 ContProofs7 ContProofs8 ContProofs9 ContProofs10 ContProofs11 ContProofs12 ContProofs13 ContProofs14 ContProofs15
  ContProofs20 ContProofs22 ContProofs24 ContProofs25 DiscProofs1 DiscProofs2 DiscProofs4 DiscProofs5.
Import ListNotations.
Open Scope R_scope.

(** C128: at every interior point of the reported support the density is a
    positive number *)
Theorem C128_elementary (a b c : R) (un : UniformF.t xreal) (ex : Exponential.t xreal) (ca : Cauchy.t xreal) (lg : Logistic.t xreal) (gu : Gumbel.t xreal)
    (fr : Frechet.t xreal) (ku : Kumaraswamy.Params xreal) (pa : Pareto.t xreal) (we : Weibull.Params xreal) (ar : Arcsine.t xreal) (co : Cosine.t xreal)
    (tr : Triangular.t xreal) (ra : Rayleigh.t xreal) (le : Levy.t xreal) (no : UvNormal.t xreal) (ln : LogNormal.t xreal) (ino : InvNormal.t xreal) (fn : FoldedNormal.t xreal) :
  (UniformF.new (Fin a) (Fin b) = Ok un -> positive_on (UniformF.support un) (UniformF.pdf un)) /\
  (Exponential.new (Fin a) = Ok ex -> positive_on (Exponential.support ex) (Exponential.pdf ex)) /\
  (Cauchy.new (Fin a) (Fin b) = Ok ca -> positive_on (Cauchy.support ca) (Cauchy.pdf ca)) /\
  (Logistic.new (Fin a) (Fin b) = Ok lg -> positive_on (Logistic.support lg) (Logistic.pdf lg)) /\
  (Gumbel.new (Fin a) (Fin b) = Ok gu -> positive_on (Gumbel.support gu) (Gumbel.pdf gu)) /\
  (Frechet.new (Fin a) = Ok fr -> positive_on (Frechet.support fr) (Frechet.pdf fr)) /\
  (Kumaraswamy.p_new (Fin a) (Fin b) = Ok ku -> let d := Kumaraswamy.from ku in positive_on (Kumaraswamy.support d) (Kumaraswamy.pdf d)) /\
  (Pareto.new (Fin a) (Fin b) = Ok pa -> 0 < a -> positive_on (Pareto.support pa) (Pareto.pdf pa)) /\
  (Weibull.p_new (Fin a) (Fin b) = Ok we -> let d := Weibull.from we in positive_on (Weibull.support d) (Weibull.pdf d)) /\
  (Arcsine.new (Fin a) (Fin b) = Ok ar -> positive_on (Arcsine.support ar) (Arcsine.pdf ar)) /\
  (Cosine.new (Fin a) (Fin b) = Ok co -> positive_on (Cosine.support co) (Cosine.pdf co)) /\
  (Triangular.new (Fin a) (Fin b) (Fin c) = Ok tr -> positive_on (Triangular.support tr) (Triangular.pdf tr)) /\
  (Rayleigh.new (Fin a) = Ok ra -> positive_on (Rayleigh.support ra) (Rayleigh.pdf ra)) /\
  (Levy.new (Fin a) (Fin b) = Ok le -> positive_on (Levy.support le) (Levy.pdf le)) /\
  (UvNormal.new (Fin a) (Fin b) = Ok no -> positive_on (UvNormal.support no) (UvNormal.pdf no)) /\
  (LogNormal.new (Fin a) (Fin b) = Ok ln -> positive_on (LogNormal.support ln) (LogNormal.pdf ln)) /\
  (InvNormal.new (Fin a) (Fin b) = Ok ino -> positive_on (InvNormal.support ino) (InvNormal.pdf ino)) /\
  (FoldedNormal.new (Fin a) (Fin b) = Ok fn -> positive_on (FoldedNormal.support fn) (FoldedNormal.pdf fn)).
Proof.
  assert (PP := PI_RGT_0).
  repeat match goal with |- _ /\ _ => split end; intros H.
  - apply uniform_new_inv in H as [Hb ->]. intros x Hx. unfold UniformF.support, UniformF.ub in Hx. cbn in Hx. eexists; split; [apply u_pdf; lra|]. pos.
  - unfold Exponential.new in H. inv_new H. intros x Hx. cbn in Hx. eexists; split; [apply e_pdf|]. pos.
  - unfold Cauchy.new in H. inv_new H. intros x Hx. eexists; split; [apply c_pdf; auto|]. assert (0 <= (x - a) / b * ((x - a) / b)) by apply Rle_0_sqr. pos.
  - unfold Logistic.new in H. inv_new H. intros x Hx. eexists; split; [apply l_pdf; auto|]. pos.
  - unfold Gumbel.new in H. inv_new H. intros x Hx. eexists; split; [apply g_pdf; auto|]. pos.
  - unfold Frechet.new in H. inv_new H. intros x Hx. cbn in Hx. eexists; split; [apply f_pdf; auto|]. pos.
  - unfold Kumaraswamy.p_new in H. inv_new H. intros d x Hx. unfold d, Kumaraswamy.support in Hx. cbn in Hx. unfold d, Kumaraswamy.pdf. cbn [Kumaraswamy.pr Kumaraswamy.from]. xs.
    assert (0 < 1 - Rpower x a) by (assert (Q := Rpower_lt1 x a Hx HP); lra). xs. eexists; split; [reflexivity|pos].
  - intros Ha. unfold Pareto.new in H. inv_new H. intros x Hx. cbn in Hx. unfold Pareto.pdf. cbn [Pareto.pr]. xs. xb. xs. eexists; split; [reflexivity|pos].
  - unfold Weibull.p_new in H. inv_new H. intros d x Hx. cbn in Hx. unfold d, Weibull.pdf. cbn [Weibull.pr Weibull.from]. xs. xb. xs. eexists; split; [reflexivity|pos].
  - unfold Arcsine.new in H. inv_new H. intros x Hx. unfold Arcsine.support, Arcsine.b in Hx. cbn in Hx. unfold Arcsine.pdf, Arcsine.b, ONE_OVER_PI. cbn [Arcsine.pr Arcsine.a Arcsine.w].
    assert (0 < (x - a) * (a + b - x)) by (apply Rmult_lt_0_compat; lra). assert (0 < sqrt ((x - a) * (a + b - x))) by (now apply sqrt_lt_R0). xs. eexists; split; [reflexivity|pos].
  - unfold Cosine.new in H. inv_new H. intros x Hx. unfold Cosine.support in Hx. cbn in Hx. eexists; split; [apply co_pdf; auto|].
    assert (-1 < (x - a) / b < 1). { split; apply (Rmult_lt_reg_r b); auto; unfold Rdiv; rewrite Rmult_assoc, Rinv_l; lra. }
    assert (-1 < cos ((x - a) / b * PI)); [|lra].
    set (z := (x - a) / b) in *. destruct (Rle_dec 0 z).
    + rewrite <- cos_PI. apply cos_decreasing_1; try nra.
    + rewrite <- cos_neg, <- cos_PI. replace (- (z * PI)) with (- z * PI) by ring. apply cos_decreasing_1; try nra.
  - unfold Triangular.new in H. inv_new H. intros x Hx. unfold Triangular.support, Triangular.b, Triangular.c in Hx. cbn in Hx.
    unfold Triangular.pdf, Triangular.b, Triangular.c. cbn [Triangular.pr Triangular.a Triangular.a2c Triangular.c2b]. xs. xb.
    destruct (Rltb_spec (Rabs (x - (a + b))) (1 / 10000000)); [eexists; split; [reflexivity|pos]|].
    destruct (Rltb_spec x (a + b)); xb; eexists; (split; [reflexivity|]).
    + assert (0 < x - a) by lra. assert (0 < a + b - a) by lra. assert (0 < a + b + c - a) by lra. pos.
    + assert (0 < a + b + c - x) by lra. assert (0 < a + b + c - (a + b)) by lra. assert (0 < a + b + c - a) by lra. pos.
  - unfold Rayleigh.new in H. inv_new H. intros x Hx. cbn in Hx. unfold Rayleigh.pdf. cbn [Rayleigh.pr Rayleigh.sigma]. xs. eexists; split; [reflexivity|pos].
  - unfold Levy.new in H. inv_new H. intros x Hx. unfold Levy.support in Hx. cbn in Hx. unfold Levy.pdf, THREE_HALVES. cbn [Levy.pr Levy.mu Levy.c]. assert (0 < x - a) by lra. xs. eexists; split; [reflexivity|pos].
  - apply uvn_new_inv in H as [HS ->]. intros x _. assert (0 < sqrt b) by now apply sqrt_lt_R0. eexists; split; [apply un_pdf; auto|]. unfold phi. pos.
  - unfold LogNormal.new in H. destruct (UvNormal.new (Fin a) (Fin b)) as [u|] eqn:E; [|discriminate]. apply uvn_new_inv in E as [HS ->]. injection H as <-.
    intros x Hx. cbn in Hx. assert (0 < sqrt b) by now apply sqrt_lt_R0. eexists; split; [apply ln_pdf; auto|]. unfold phi. pos.
  - unfold InvNormal.new in H. inv_new H. intros x Hx. cbn in Hx. unfold InvNormal.pdf, PI_2. cbn [InvNormal.pr InvNormal.mu InvNormal.lambda]. xs. eexists; split; [reflexivity|pos].
  - unfold FoldedNormal.new in H. inv_new H. intros x Hx. unfold FoldedNormal.pdf, PI_2. cbn [FoldedNormal.pr FoldedNormal.mu FoldedNormal.sigma]. xs. eexists; split; [reflexivity|pos].
Qed.
Print Assumptions C128_elementary.
Theorem C128_special (SP : Special xreal) (a b : R) (i j : Z) (ga : Gamma.t xreal) (be : Beta.t xreal) (ig : InvGamma.t xreal) (bp : BetaPrime.t xreal)
    (ch : Chi.t) (cs : ChiSq.t) (fd : FDist.t) (st : StudentT.t xreal) :
  gamma_exact SP -> beta_exact SP ->
  (Gamma.new (Fin a) (Fin b) = Ok ga -> positive_on (Gamma.support ga) (Gamma.pdf ga)) /\
  (Beta.new (Fin a) (Fin b) = Ok be -> positive_on (Beta.support be) (Beta.pdf be)) /\
  (InvGamma.new (Fin a) (Fin b) = Ok ig -> positive_on (InvGamma.support ig) (InvGamma.pdf ig)) /\
  (BetaPrime.new (Fin a) (Fin b) = Ok bp -> positive_on (BetaPrime.support bp) (BetaPrime.pdf bp)) /\
  (Chi.new (F := xreal) i = Ok ch -> positive_on (Chi.support ch) (Chi.pdf ch)) /\
  (ChiSq.new (F := xreal) i = Ok cs -> positive_on (ChiSq.support cs) (ChiSq.pdf cs)) /\
  (FDist.new (F := xreal) i j = Ok fd -> positive_on (FDist.support fd) (FDist.pdf fd)) /\
  (StudentT.new (Fin a) = Ok st -> 0 < a -> positive_on (StudentT.support st) (StudentT.pdf st)).
Proof.
  intros Hg Hb. repeat match goal with |- _ /\ _ => split end; intros H.
  - unfold Gamma.new in H. inv_new H. intros x Hx. cbn in Hx. eexists; split; [apply (ga_pdf Hg a b HP HP0), in0, Hx|]. apply ga_u_pos; first [assumption | now apply in0].
  - unfold Beta.new in H. inv_new H. intros x Hx. unfold Beta.support in Hx. cbn in Hx. eexists; split; [apply (be_pdf Hb a b HP HP0), in01; lra|]. apply be_u_pos; first [assumption | now apply in01].
  - unfold InvGamma.new in H. inv_new H. intros x Hx. cbn in Hx. eexists; split; [apply (ig_pdf Hg a b HP HP0), in0, Hx|]. unfold ig_u. assert (G := Gam_pos a HP). pos.
  - unfold BetaPrime.new in H. inv_new H. intros x Hx. cbn in Hx. eexists; split; [apply (bp_pdf Hb a b HP HP0), in0, Hx|]. rewrite bp_u by auto. assert (G := Bet_pos a b HP HP0). pos.
  - unfold Chi.new in H. inv_new H. intros x Hx. cbn in Hx. eexists; split; [apply (ch_pdf Hg i HP), in0, Hx|]. unfold chi_u. assert (G := ch_c i HP). pos.
  - unfold ChiSq.new in H. inv_new H. intros x Hx. cbn in Hx. eexists; split; [apply (cs_pdf Hg i HP), in0, Hx|]. apply ga_u_pos; first [now apply in0 | now apply cs_a | lra].
  - unfold FDist.new in H. inv_new H. intros x Hx. cbn in Hx. eexists; split; [apply (fd_pdf Hb i j HP HP0), in0, Hx|]. unfold od_u.
    assert (HA := IZR_lt _ _ HP). assert (HB := IZR_lt _ _ HP0). assert (G := Bet_pos (IZR i / 2) (IZR j / 2) ltac:(lra) ltac:(lra)). pos.
  - intros Ha. unfold StudentT.new in H. inv_new H. intros x Hx. eexists; split; [apply (st_pdf Hg a Ha)|]. unfold st_u. assert (G := st_B a Ha). pos.
Qed.
Print Assumptions C128_special.
Example C128_nonvacuous : gamma_exact (exact false) /\ beta_exact (exact false) /\
  (exists d, Kumaraswamy.p_new (Fin 2) (Fin 3) = Ok d) /\ (exists d, Triangular.new (Fin (-1)) (Fin 2) (Fin 1) = Ok d) /\ (exists d, Levy.new (Fin 1) (Fin 3) = Ok d) /\
  (exists d, FDist.new (F := xreal) 3 5 = Ok d) /\ exists d, Pareto.new (Fin 2) (Fin 3) = Ok d.
Proof.
  split; [apply ex_gamma|]. split; [apply ex_beta|]. split; [eexists; unfold Kumaraswamy.p_new; ok_new|]. split; [eexists; unfold Triangular.new; ok_new|].
  split; [eexists; unfold Levy.new; ok_new|]. split; [eexists; unfold FDist.new; ok_new|]. eexists; unfold Pareto.new; ok_new.
Qed.

(** GEV and GPD report the whole line although the density is undefined at the
    true end point (every location and scale, every shape above the tolerance;
    below it for GPD too); the point mass also reports the whole line *)
Theorem C128_refuted (SP : Special xreal) (m g z : R) (ge : GEV.t xreal) (gp : GPD.t xreal) (k : R) :
  GEV.new (Fin m) (Fin g) (Fin z) = Ok ge -> GPD.new (Fin m) (Fin g) (Fin z) = Ok gp ->
  (1 / 10000000 <= z -> GEV.support ge = Reals /\ GEV.pdf ge (Fin (m - g / z)) = NaN) /\
  (0 < z -> GPD.support gp = Reals /\ GPD.pdf gp (Fin (m - g / z)) = PInf) /\
  (let d := DegenerateF.new (Fin k) in DegenerateF.support d = Reals /\ forall x, 1 <= Rabs (x - k) -> DegenerateF.pdf d (Fin x) = Fin 0).
Proof.
  intros H1 H2. unfold GEV.new in H1. inv_new H1. unfold GPD.new in H2. inv_new H2. split; [|split].
  - intros Hz. split; [reflexivity|]. unfold GEV.pdf, GEV.t_func, GEV.TOL. cbn [GEV.pr GEV.zeta GEV.sigma]. xs. rewrite Rltb_false by lra.
    replace (1 + z * ((m - g / z - m) / g)) with 0 by (field; lra).
    assert (E : fpowf (Fin 0) (Fin (- (1) / z)) = PInf).
    { cbn [fpowf XScalar]. unfold xpowf. assert (- (1) / z < 0) by (replace (- (1) / z) with (- (1 / z)) by (field; lra); assert (0 < 1 / z) by pos; lra).
      destruct (Req_EM_T (- (1) / z) 0); [lra|]. destruct (Rlt_dec 0 0); [lra|]. destruct (Req_EM_T 0 0); [|lra]. destruct (Rlt_dec 0 (- (1) / z)); [lra|reflexivity]. }
    rewrite E. cbn [fpowf fneg fexp fmul fdiv XScalar xpowf xneg xexp]. destruct (Req_EM_T (z + 1) 0); [lra|]. destruct (Rlt_dec 0 (z + 1)); [|lra].
    cbn [xmul]. unfold xmul. destruct (Req_EM_T 0 0); [reflexivity|lra].
  - intros Hz. split; [reflexivity|]. unfold GPD.pdf. cbn [GPD.pr]. xs.
    replace (1 + z * ((m - g / z - m) / g)) with 0 by (field; lra).
    assert (E : fpowf (Fin 0) (Fin (- (1) / z - 1)) = PInf).
    { cbn [fpowf XScalar]. unfold xpowf. assert (- (1) / z < 0) by (replace (- (1) / z) with (- (1 / z)) by (field; lra); assert (0 < 1 / z) by pos; lra).
      destruct (Req_EM_T (- (1) / z - 1) 0); [lra|]. destruct (Rlt_dec 0 0); [lra|]. destruct (Req_EM_T 0 0); [|lra]. destruct (Rlt_dec 0 (- (1) / z - 1)); [lra|reflexivity]. }
    rewrite E. cbn [fdiv XScalar]. unfold xdiv. destruct (Rle_dec 0 g); try reflexivity; lra.
  - intros d. split; [reflexivity|]. intros x Hx. unfold d, DegenerateF.pdf. cbn [DegenerateF.k DegenerateF.new]. xs. rewrite Rltb_false by lra. reflexivity.
Qed.
Print Assumptions C128_refuted.

(** C129: off the reported support the density is zero.  True of the types whose
    [pdf] tests its argument (and of those supported on the whole line, vacuously) *)
Theorem C129_zero_off_partial (a b c : R) (un : UniformF.t xreal) (pa : Pareto.t xreal) (we : Weibull.Params xreal) (tr : Triangular.t xreal) :
  (UniformF.new (Fin a) (Fin b) = Ok un -> zero_off (UniformF.support un) (UniformF.pdf un)) /\
  (Pareto.new (Fin a) (Fin b) = Ok pa -> zero_off (Pareto.support pa) (Pareto.pdf pa)) /\
  (Weibull.p_new (Fin a) (Fin b) = Ok we -> let d := Weibull.from we in zero_off (Weibull.support d) (Weibull.pdf d)) /\
  (Triangular.new (Fin a) (Fin b) (Fin c) = Ok tr -> 1 / 10000000 <= b -> 1 / 10000000 <= c -> zero_off (Triangular.support tr) (Triangular.pdf tr)).
Proof.
  repeat match goal with |- _ /\ _ => split end; intros H.
  - apply uniform_new_inv in H as [Hb ->]. intros x Hx. unfold UniformF.support, UniformF.ub in Hx. cbn in Hx. now apply u_pdf_out.
  - unfold Pareto.new in H. inv_new H. intros x Hx. unfold Pareto.support in Hx. cbn in Hx. unfold Pareto.pdf. cbn [Pareto.pr]. xs. xb. reflexivity.
  - unfold Weibull.p_new in H. inv_new H. intros d x Hx. cbn in Hx. unfold d, Weibull.pdf. cbn [Weibull.pr Weibull.from]. xs. xb. reflexivity.
  - intros Hb Hc. unfold Triangular.new in H. inv_new H. intros x Hx. unfold Triangular.support, Triangular.b, Triangular.c in Hx. cbn in Hx.
    unfold Triangular.pdf, Triangular.b, Triangular.c. cbn [Triangular.pr Triangular.a Triangular.a2c Triangular.c2b]. xs.
    destruct Hx as [Hx|Hx]; xb; [reflexivity|]. rewrite Rltb_false; [|rewrite Rabs_right; lra]. xb. reflexivity.
Qed.
Print Assumptions C129_zero_off_partial.
Example C129_nonvacuous : (exists d, UniformF.new (Fin 1) (Fin 2) = Ok d) /\ (exists d, Pareto.new (Fin 2) (Fin 3) = Ok d) /\ (exists d, Weibull.p_new (Fin 2) (Fin 3) = Ok d) /\
  exists d, Triangular.new (Fin (-1)) (Fin 2) (Fin 1) = Ok d.
Proof.
  split; [eexists; apply uniform_new_ok; lra|]. split; [eexists; unfold Pareto.new; ok_new|]. split; [eexists; unfold Weibull.p_new; ok_new|]. eexists; unfold Triangular.new; ok_new.
Qed.

(** ... the others evaluate the formula anywhere: for every parameter value and
    every listed point off the support the result is not zero *)
Definition nonzero (v : xreal) : Prop := v = NaN \/ exists r, v = Fin r /\ r <> 0.
Lemma nz_fin r : r <> 0 -> nonzero (Fin r). Proof. right; eauto. Qed.
Lemma nz_mul u v : nonzero u -> nonzero v -> nonzero (fmul u v).
Proof. intros [->|(p & -> & P)] [->|(q & -> & Q)]; try (left; reflexivity). rewrite x_mul. apply nz_fin. now apply Rmult_integral_contrapositive_currified. Qed.
Lemma nz_div u r : nonzero u -> r <> 0 -> nonzero (fdiv u (Fin r)).
Proof. intros [->|(p & -> & P)] Q; [left; reflexivity|]. rewrite x_div by auto. apply nz_fin. unfold Rdiv. apply Rmult_integral_contrapositive_currified; auto. now apply Rinv_neq_0_compat. Qed.
Lemma nz_neg u : nonzero u -> nonzero (fneg u).
Proof. intros [->|(p & -> & P)]; [left; reflexivity|]. rewrite x_neg. apply nz_fin. lra. Qed.
Lemma nz_exp u : nonzero u -> nonzero (fexp u).
Proof. intros [->|(p & -> & P)]; [left; reflexivity|]. rewrite x_exp. apply nz_fin. apply Rgt_not_eq, exp_pos. Qed.
Lemma nz_pow a b : a <> 0 -> nonzero (fpowf (Fin a) (Fin b)).
Proof.
  intros Ha. cbn [fpowf XScalar]. unfold xpowf. destruct (Req_EM_T b 0); [apply nz_fin; lra|]. destruct (Rlt_dec 0 a); [apply nz_fin, Rgt_not_eq, exp_pos|].
  destruct (Req_EM_T a 0); [lra|]. destruct (Req_EM_T b _); [|left; reflexivity]. apply nz_fin. now apply powerRZ_NOR.
Qed.
Theorem C129_zero_off_refuted (SP : Special xreal) (a b x : R) (i : Z) (ex : Exponential.t xreal) (ra : Rayleigh.t xreal) (fn : FoldedNormal.t xreal) (co : Cosine.t xreal)
    (ar : Arcsine.t xreal) (le : Levy.t xreal) (ln : LogNormal.t xreal) (ino : InvNormal.t xreal) (fr : Frechet.t xreal) (ku : Kumaraswamy.Params xreal)
    (ga : Gamma.t xreal) (be : Beta.t xreal) (ig : InvGamma.t xreal) (bp : BetaPrime.t xreal) (ch : Chi.t) (cs : ChiSq.t) :
  gamma_exact SP -> beta_exact SP ->
  (* wrong numbers *)
  (Exponential.new (Fin a) = Ok ex -> x < 0 -> exists v, Exponential.pdf ex (Fin x) = Fin v /\ 0 < v) /\
  (Rayleigh.new (Fin a) = Ok ra -> x < 0 -> exists v, Rayleigh.pdf ra (Fin x) = Fin v /\ v < 0) /\
  (FoldedNormal.new (Fin a) (Fin b) = Ok fn -> x < 0 -> exists v, FoldedNormal.pdf fn (Fin x) = Fin v /\ 0 < v) /\
  (Cosine.new (Fin a) (Fin b) = Ok co -> off (Cosine.support co) (a + 2 * b) /\ exists v, Cosine.pdf co (Fin (a + 2 * b)) = Fin v /\ 0 < v) /\
  (* NaN *)
  (Arcsine.new (Fin a) (Fin b) = Ok ar -> off (Arcsine.support ar) x -> Arcsine.pdf ar (Fin x) = NaN) /\
  (Levy.new (Fin a) (Fin b) = Ok le -> off (Levy.support le) x -> Levy.pdf le (Fin x) = NaN) /\
  (LogNormal.new (Fin a) (Fin b) = Ok ln -> off (LogNormal.support ln) x -> LogNormal.pdf ln (Fin x) = NaN) /\
  (InvNormal.new (Fin a) (Fin b) = Ok ino -> off (InvNormal.support ino) x -> InvNormal.pdf ino (Fin x) = NaN) /\
  (* one or the other, depending on the parameters *)
  (Frechet.new (Fin a) = Ok fr -> off (Frechet.support fr) x -> nonzero (Frechet.pdf fr (Fin x))) /\
  (Kumaraswamy.p_new (Fin a) (Fin b) = Ok ku -> 1 < x -> nonzero (Kumaraswamy.pdf (Kumaraswamy.from ku) (Fin x))) /\
  (Gamma.new (Fin a) (Fin b) = Ok ga -> off (Gamma.support ga) x -> nonzero (Gamma.pdf ga (Fin x))) /\
  (Beta.new (Fin a) (Fin b) = Ok be -> off (Beta.support be) x -> nonzero (Beta.pdf be (Fin x))) /\
  (InvGamma.new (Fin a) (Fin b) = Ok ig -> off (InvGamma.support ig) x -> nonzero (InvGamma.pdf ig (Fin x))) /\
  (BetaPrime.new (Fin a) (Fin b) = Ok bp -> off (BetaPrime.support bp) x -> x <> -1 -> nonzero (BetaPrime.pdf bp (Fin x))) /\
  (Chi.new (F := xreal) i = Ok ch -> off (Chi.support ch) x -> nonzero (Chi.pdf ch (Fin x))) /\
  (ChiSq.new (F := xreal) i = Ok cs -> off (ChiSq.support cs) x -> nonzero (ChiSq.pdf cs (Fin x))).
Proof.
  intros Hg Hb. assert (PP := PI_RGT_0). repeat match goal with |- _ /\ _ => split end; intros H.
  - intros Hx. unfold Exponential.new in H. inv_new H. eexists; split; [apply e_pdf|pos].
  - intros Hx. unfold Rayleigh.new in H. inv_new H. unfold Rayleigh.pdf. cbn [Rayleigh.pr Rayleigh.sigma]. assert (0 < a * a) by pos. xs. eexists; split; [reflexivity|].
    assert (E := exp_pos (- x * x / (a * a) / 2)). assert (0 < - x / (a * a) * exp (- x * x / (a * a) / 2)) by pos. unfold Rdiv in *. lra.
  - intros Hx. unfold FoldedNormal.new in H. inv_new H. unfold FoldedNormal.pdf, PI_2. cbn [FoldedNormal.pr FoldedNormal.mu FoldedNormal.sigma]. xs. eexists; split; [reflexivity|pos].
  - unfold Cosine.new in H. inv_new H. split; [unfold Cosine.support; cbn; right; lra|]. eexists; split; [apply co_pdf; auto|]. replace ((a + 2 * b - a) / b * PI) with (2 * PI) by (field; lra). rewrite cos_2PI. lra.
  - intros Hx. unfold Arcsine.new in H. inv_new H. unfold Arcsine.support, Arcsine.b in Hx. cbn in Hx. unfold Arcsine.pdf, Arcsine.b, ONE_OVER_PI. cbn [Arcsine.pr Arcsine.a Arcsine.w]. xs.
    assert ((x - a) * (a + b - x) < 0). { destruct Hx; [assert (0 < (a - x) * (a + b - x)) by (apply Rmult_lt_0_compat; lra); lra|assert (0 < (x - a) * (x - (a + b))) by (apply Rmult_lt_0_compat; lra); lra]. }
    cbn [fsqrt XScalar]. unfold xsqrt. destruct (Rle_dec 0 ((x - a) * (a + b - x))); [lra|reflexivity].
  - intros Hx. unfold Levy.new in H. inv_new H. unfold Levy.support in Hx. cbn in Hx. unfold Levy.pdf, THREE_HALVES. cbn [Levy.pr Levy.mu Levy.c]. assert (x - a <> 0) by lra. xs.
    assert (E : fpowf (Fin (x - a)) (Fin (3 / 2)) = NaN).
    { cbn [fpowf XScalar]. unfold xpowf. destruct (Req_EM_T (3 / 2) 0); [lra|]. destruct (Rlt_dec 0 (x - a)); [lra|]. destruct (Req_EM_T (x - a) 0); [lra|].
      destruct (Req_EM_T (3 / 2) _) as [E|]; [|reflexivity]. exfalso. assert (E' : IZR 3 = IZR (2 * Flocq.Core.Raux.Zfloor (3 / 2))) by (rewrite mult_IZR; lra). apply eq_IZR in E'. lia. }
    rewrite E. reflexivity.
  - intros Hx. unfold LogNormal.new in H. destruct (UvNormal.new (Fin a) (Fin b)) as [u|] eqn:E; [|discriminate]. apply uvn_new_inv in E as [HS ->]. injection H as <-. cbn in Hx.
    unfold LogNormal.pdf, UvNormal.pdf, UvNormal.z. cbn [fln XScalar]. unfold xln. destruct (Rlt_dec 0 x); [lra|]. destruct (Req_EM_T x 0); [lra|]. reflexivity.
  - intros Hx. unfold InvNormal.new in H. inv_new H. cbn in Hx. unfold InvNormal.pdf, PI_2. cbn [InvNormal.pr InvNormal.mu InvNormal.lambda]. xs.
    assert (b / (PI * 2) / x / x / x < 0). { assert (0 < b / (PI * 2) / - x / - x / - x) by pos. replace (b / (PI * 2) / x / x / x) with (- (b / (PI * 2) / - x / - x / - x)) by (field; lra). lra. }
    cbn [fsqrt XScalar]. unfold xsqrt. destruct (Rle_dec 0 (b / (PI * 2) / x / x / x)); [lra|reflexivity].
  - intros Hx. unfold Frechet.new in H. inv_new H. cbn in Hx. unfold Frechet.pdf, Frechet.cdf, Frechet.al. cbn [Frechet.pr Frechet.alpha unwrap]. xs.
    apply nz_mul; [apply nz_mul; [apply nz_fin; lra|apply nz_pow; lra]|apply nz_exp, nz_neg, nz_pow; lra].
  - intros Hx. unfold Kumaraswamy.p_new in H. inv_new H. unfold Kumaraswamy.pdf. cbn [Kumaraswamy.pr Kumaraswamy.from]. xs.
    assert (Q : 1 < Rpower x a) by (apply Rpower_gt1; lra). apply nz_mul; [apply nz_fin, Rgt_not_eq, Rlt_gt; pos|apply nz_pow; lra].
  - intros Hx. unfold Gamma.new in H. inv_new H. cbn in Hx. unfold Gamma.pdf. cbn [Gamma.pr Gamma.alpha Gamma.beta]. rewrite sfg by auto. assert (G := Gam_pos a HP). xs.
    apply nz_div; [|lra]. apply nz_mul; [apply nz_mul; [apply nz_fin; pos|apply nz_pow; lra]|apply nz_fin, Rgt_not_eq, exp_pos].
  - intros Hx. unfold Beta.new in H. inv_new H. unfold Beta.support in Hx. cbn in Hx. unfold Beta.pdf. cbn [Beta.pr Beta.alpha Beta.beta]. rewrite sfb by auto. assert (G := Bet_pos a b HP HP0). xs.
    apply nz_div; [|lra]. apply nz_mul; apply nz_pow; lra.
  - intros Hx. unfold InvGamma.new in H. inv_new H. cbn in Hx. unfold InvGamma.pdf. cbn [InvGamma.pr InvGamma.alpha InvGamma.beta]. rewrite sfg by auto. assert (G := Gam_pos a HP). assert (x <> 0) by lra. xs.
    apply nz_div; [|lra]. apply nz_mul; [apply nz_mul; [apply nz_fin; pos|apply nz_pow; lra]|apply nz_fin, Rgt_not_eq, exp_pos].
  - intros Hx Hx1. unfold BetaPrime.new in H. inv_new H. cbn in Hx. unfold BetaPrime.pdf. cbn [BetaPrime.pr BetaPrime.alpha BetaPrime.beta]. rewrite sfb by auto. assert (G := Bet_pos a b HP HP0). xs.
    apply nz_div; [|lra]. apply nz_mul; apply nz_pow; lra.
  - intros Hx. unfold Chi.new in H. inv_new H. cbn in Hx. assert (HI := IZR_lt _ _ HP). unfold Chi.pdf, Chi.kf. cbn [Chi.pr Chi.k]. xs. rewrite sfg by (auto; lra). assert (G := Gam_pos (IZR i / 2) ltac:(lra)). rewrite (x_powf 2) by lra. xs.
    apply nz_div; [|pos]. apply nz_mul; [apply nz_pow; lra|apply nz_fin, Rgt_not_eq, exp_pos].
  - intros Hx. unfold ChiSq.new in H. inv_new H. cbn in Hx. assert (HI := IZR_lt _ _ HP). unfold ChiSq.pdf, ChiSq.kf. cbn [ChiSq.pr ChiSq.k]. xs. rewrite sfg by (auto; lra). assert (G := Gam_pos (IZR i / 2) ltac:(lra)). rewrite (x_powf 2) by lra. xs.
    apply nz_div; [|pos]. apply nz_mul; [apply nz_pow; lra|apply nz_fin, Rgt_not_eq, exp_pos].
Qed.
Print Assumptions C129_zero_off_refuted.

(** C130: an integer is in the reported support iff its mass is positive *)
Notation massive r := (exists v, r = Ret (Prob (Fin v)) /\ 0 < v).
Theorem C130_discrete_partial (l w : Z) (p lam : R) (un : UniformI.t xreal) (be : Bernoulli.t xreal) (ge : Geometric.t xreal) (po : Poisson.t xreal) (lf : Z -> res xreal) :
  (* Uniform<i64>: every i64 *)
  ((I64_MIN <= l)%Z -> (0 < w < I64_MAX)%Z -> (l + w <= I64_MAX)%Z -> UniformI.new l w = Ret (Ok un) ->
   exists s, UniformI.support un = Ret s /\ forall k, zmem s k <-> massive (UniformI.pmf un k)) /\
  (* Bernoulli, both outcomes possible *)
  (Bernoulli.new (Fin p) = Ok be -> 0 < p < 1 -> Bernoulli.support be = Binary /\ forall b, massive (Ret (Bernoulli.pmf be b))) /\
  (* Geometric: every k the method can represent *)
  (Geometric.new (Fin p) = Ok ge -> 0 < p < 1 -> forall k, (k < 2 ^ 31)%Z -> zmem (Geometric.support ge) k -> massive (Ret (Geometric.pmf ge k))) /\
  (* Poisson: every k >= 0 at which the log-factorial returns a number *)
  (Poisson.new (Fin lam) = Ok po -> forall k f, (0 <= k)%Z -> lf k = Ret (Fin f) -> massive (Poisson.pmf_with lf po k)).
Proof.
  repeat match goal with |- _ /\ _ => split end.
  - intros Hl Hw Hu H. rewrite ui_new in H by lia. injection H as <-. eexists. split; [apply ui_support; lia|]. intros k. cbn [zmem]. split.
    + intros Hk. exists (1 / (IZR (w + 1))). assert (0 < IZR (w + 1)) by (apply IZR_lt; lia). split; [|pos]. apply ui_pmf; lia || auto.
    + intros (v & E & Hv). destruct (Z_lt_le_dec k l); [rewrite ui_pmf_out in E by lia; injection E as <-; lra|]. destruct (Z_lt_le_dec (l + w) k); [rewrite ui_pmf_out in E by lia; injection E as <-; lra|]. lia.
  - intros H Hp. unfold Bernoulli.new in H. inv_new H. split; [reflexivity|]. intros [|]; unfold Bernoulli.pmf; cbn [Bernoulli.pr Bernoulli.p Bernoulli.q].
    + eexists; split; [reflexivity|lra].
    + unfold p_not, p_new_unchecked. cbn [unwrap]. xs. eexists; split; [reflexivity|lra].
  - intros H Hp k Hk Hz. cbn in Hz. apply geo_new_inv in H as [_ ->].
    assert (E := geo_pmf p (Z.to_nat k)). rewrite Z2Nat.id in E by auto. specialize (E Hk). destruct (Geometric.pmf _ k) as [v]. cbn [unwrap] in E. subst v.
    eexists; split; [reflexivity|]. unfold geometric_law. apply Rmult_lt_0_compat; [lra|apply pow_lt; lra].
  - intros H k f Hk E. unfold Poisson.new in H. inv_new H. unfold Poisson.pmf_with, Poisson.log_pmf_with. rewrite E. cbn [rbind rmap Poisson.pr Poisson.lambda]. xs. eexists; split; [reflexivity|pos].
Qed.
Print Assumptions C130_discrete_partial.
Example C130_nonvacuous : (exists d, UniformI.new (F := xreal) (-3) 7 = Ret (Ok d)) /\ (exists d, Bernoulli.new (Fin (1 / 3)) = Ok d) /\ (exists d, Geometric.new (Fin (1 / 3)) = Ok d) /\
  exists d, Poisson.new (Fin 2) = Ok d.
Proof.
  split; [eexists; apply ui_new; unfold I64_MIN, I64_MAX; lia|]. split; [eexists; unfold Bernoulli.new; ok_new|]. split; [eexists; unfold Geometric.new; ok_new|]. eexists; unfold Poisson.new; ok_new.
Qed.
(** the point mass reports every integer; Geometric(1) and the trivial Bernoulli
    report points without mass.  (Binomial, BetaBinomial, Categorical report one
    point too many: [C50_support_refuted], [C50_categorical_support_refuted],
    [C109_support_cdf_refuted].) *)
Theorem C130_discrete_refuted (i k : Z) (ge : Geometric.t xreal) (be : Bernoulli.t xreal) :
  (let d := DegenerateI.new i in k <> i -> zmem (DegenerateI.support d) k /\ DegenerateI.pmf (F := xreal) d k = Prob (Fin 0)) /\
  (Geometric.new (Fin 1) = Ok ge -> (0 < k < 2 ^ 31)%Z -> zmem (Geometric.support ge) k /\ Geometric.pmf ge k = Prob (Fin 0)) /\
  (Bernoulli.new (Fin 1) = Ok be -> Bernoulli.support be = Binary /\ Bernoulli.pmf be false = Prob (Fin 0)).
Proof.
  split; [|split].
  - intros d Hk. split; [exact I|]. unfold d, DegenerateI.pmf. cbn [DegenerateI.k DegenerateI.new]. destruct (Z.eqb_spec k i); [contradiction|]. unfold p_zero. now rewrite x_lit.
  - intros H Hk. apply geo_new_inv in H as [_ ->]. split; [cbn; lia|].
    assert (E := geo_pmf 1 (Z.to_nat k)). rewrite Z2Nat.id in E by lia. specialize (E ltac:(lia)). destruct (Geometric.pmf _ k) as [v]. cbn [unwrap] in E. subst v.
    f_equal. unfold geometric_law. replace (1 - 1) with 0 by ring. rewrite pow_ne_zero by lia. f_equal. ring.
  - intros H. unfold Bernoulli.new in H. inv_new H. split; [reflexivity|]. unfold Bernoulli.pmf, p_not, p_new_unchecked. cbn [Bernoulli.q Bernoulli.pr unwrap]. xs. do 2 f_equal. ring.
Qed.
Print Assumptions C130_discrete_refuted.
