(** * Property C133: distribution functions in double arithmetic *)
From Coq Require Import Reals Lra Lia Psatz List ZArith Bool.
From Flocq Require Import Core IEEE754.BinarySingleNaN.
From Verif.Num Require Import Scalar F64.
From Verif.Model Require Import Rust Constraints Probability Params Consts Continuous Continuous2.
From Verif.Spec Require Import ParamSpec ProbSpec LibmSpec.
From Verif.Proofs Require Import ConstraintProofs NewInv F64Order LibmInst F64Cdf.
Import ListNotations.
Open Scope R_scope.

Ltac inv64 H := inv_new H; repeat match goal with H1 : fltb (f_of_Z 0) ?a = true |- _ => change (lt64 zero64 a) in H1 end.
Notation cdf64 cdf d := (fun x : f64 => Probability.unwrap (cdf d x)).
(** both properties of 1 - e(x), e antitone with values in [0,1] *)
Lemma tail_valid (dom : f64 -> Prop) (e : f64 -> f64) : (forall x, dom x -> num (e x) /\ 0 <= V (e x) <= 1) -> valid_on dom (fun x => Bminus mode_NE (b64 1 0) (e x)).
Proof. intros H x Hx. destruct (H x Hx) as [N B]. destruct (one_minus (e x) N B) as [A C]. now apply V_valid. Qed.
Lemma tail_mono (dom : f64 -> Prop) (e : f64 -> f64) : (forall x, dom x -> num (e x) /\ 0 <= V (e x) <= 1) -> (forall x, dom x -> num x) ->
  (forall x y, dom x -> dom y -> V x <= V y -> V (e y) <= V (e x)) -> monotone_on dom (fun x => Bminus mode_NE (b64 1 0) (e x)).
Proof.
  intros H D M x y Hx Hy L. destruct (H x Hx) as [N B]. destruct (H y Hy) as [N' B']. apply le_V2; [apply (one_minus (e x) N B)|apply (one_minus (e y) N' B')|].
  apply one_minus_anti; auto. apply M; auto. now apply le_V1.
Qed.
Lemma le0_dom x : le64 zero64 x -> num x /\ 0 <= V x.
Proof. intros H. split; [now destruct (le_num _ _ H)|]. rewrite <- V_zero. now apply le_V1. Qed.

(** Exponential, x >= 0 *)
Lemma ex_e (m : Libm) (l : f64) : libm_range m -> fin l -> 0 < RV l -> forall x, le64 zero64 x -> num (m_exp (Bmult mode_NE (Bopp l) x)) /\ 0 <= V (m_exp (Bmult mode_NE (Bopp l) x)) <= 1.
Proof.
  intros HR F P x Hx. assert (Q := M64_pos). destruct (le0_dom x Hx) as [N L].
  destruct (cn_mult x (Bopp l) N (fin_opp l F) ltac:(rewrite RV_opp; lra)) as [A E].
  split; [now apply (xp_num HR)|]. split; [now apply (xp_ge0 HR)|]. apply (xp_le1 HR); [exact A|]. rewrite E, RV_opp.
  apply (liftn_le _ 0 0); auto; try lra. intros r Hr. apply sat_neg. nra.
Qed.
Theorem C133_exponential (m : Libm) (l : f64) (d : Exponential.t f64) : libm_range m -> Exponential.new l = Ok d -> finite64 l ->
  valid_on (le64 zero64) (cdf64 Exponential.cdf d) /\ (libm_monotone m -> monotone_on (le64 zero64) (cdf64 Exponential.cdf d)).
Proof.
  intros HR H F. unfold Exponential.new in H. inv64 H. assert (P := fin_pos l F HP). assert (E := ex_e m l HR F P).
  split; [exact (tail_valid _ _ E)|]. intros HM. apply (tail_mono _ (fun x => m_exp (Bmult mode_NE (Bopp l) x)) E); [intros; now apply le0_dom|].
  intros x y Hx Hy L. destruct (le0_dom x Hx) as [Nx _]. destruct (le0_dom y Hy) as [Ny _].
  destruct (cn_mult x (Bopp l) Nx (fin_opp l F) ltac:(rewrite RV_opp; lra)) as [A E1]. destruct (cn_mult y (Bopp l) Ny (fin_opp l F) ltac:(rewrite RV_opp; lra)) as [A' E2].
  apply (xp_mono HM); auto. rewrite E1, E2. apply liftn_anti; auto. rewrite RV_opp. intros; nra.
Qed.
Print Assumptions C133_exponential.

(** Logistic, Gumbel: every x but NaN *)
Theorem C133_logistic (m : Libm) (mu s : f64) (d : Logistic.t f64) : libm_range m -> Logistic.new mu s = Ok d -> finite64 mu -> finite64 s ->
  valid_on number (cdf64 Logistic.cdf d) /\ (libm_monotone m -> monotone_on number (cdf64 Logistic.cdf d)).
Proof.
  intros HR H Fm Fs. unfold Logistic.new in H. inv64 H. assert (P := fin_pos s Fs HP0).
  assert (G : forall x, number x -> num (m_exp (Bopp (zz mu s x))) /\ 0 <= V (m_exp (Bopp (zz mu s x)))).
  { intros x N. assert (A := num_opp _ (zz_num mu s Fm Fs P x N)). split; [now apply (xp_num HR)|now apply (xp_ge0 HR)]. }
  split.
  - intros x N. destruct (G x N) as [A B]. change (valid_prob (sigm (m_exp (Bopp (zz mu s x))))). destruct (sigm_ok _ A B) as [C D]. now apply V_valid.
  - intros HM x y Nx Ny L. destruct (G x Nx) as [A B]. destruct (G y Ny) as [A' B']. change (le64 (sigm (m_exp (Bopp (zz mu s x)))) (sigm (m_exp (Bopp (zz mu s y))))).
    apply le_V2; [now apply sigm_ok|now apply sigm_ok|]. apply sigm_anti; auto. apply (xp_mono HM); try (now apply num_opp, zz_num). rewrite !V_opp. apply Ropp_le_contravar, zz_mono; auto. now apply le_V1.
Qed.
Print Assumptions C133_logistic.
Theorem C133_gumbel (m : Libm) (mu b : f64) (d : Gumbel.t f64) : libm_range m -> Gumbel.new mu b = Ok d -> finite64 mu -> finite64 b ->
  valid_on number (cdf64 Gumbel.cdf d) /\ (libm_monotone m -> monotone_on number (cdf64 Gumbel.cdf d)).
Proof.
  intros HR H Fm Fs. unfold Gumbel.new in H. inv64 H. assert (P := fin_pos b Fs HP0).
  assert (G : forall x, number x -> num (Bopp (m_exp (Bopp (zz mu b x)))) /\ V (Bopp (m_exp (Bopp (zz mu b x)))) <= 0).
  { intros x N. assert (A := num_opp _ (zz_num mu b Fm Fs P x N)). split; [now apply num_opp, (xp_num HR)|]. rewrite V_opp. assert (B := xp_ge0 HR _ A). lra. }
  split.
  - intros x N. destruct (G x N) as [A B]. change (valid_prob (m_exp (Bopp (m_exp (Bopp (zz mu b x)))))). apply V_valid; [now apply (xp_num HR)|]. split; [now apply (xp_ge0 HR)|now apply (xp_le1 HR)].
  - intros HM x y Nx Ny L. destruct (G x Nx) as [A B]. destruct (G y Ny) as [A' B']. change (le64 (m_exp (Bopp (m_exp (Bopp (zz mu b x))))) (m_exp (Bopp (m_exp (Bopp (zz mu b y)))))).
    apply le_V2; [now apply (xp_num HR)|now apply (xp_num HR)|]. apply (xp_mono HM); auto. rewrite !V_opp. apply Ropp_le_contravar. apply (xp_mono HM); try (now apply num_opp, zz_num). rewrite !V_opp. apply Ropp_le_contravar, zz_mono; auto. now apply le_V1.
Qed.
Print Assumptions C133_gumbel.

(** Frechet, x >= 0 *)
Theorem C133_frechet (m : Libm) (a : f64) (d : Frechet.t f64) : libm_range m -> Frechet.new a = Ok d ->
  valid_on (le64 zero64) (cdf64 Frechet.cdf d) /\ (libm_monotone m -> monotone_on (le64 zero64) (cdf64 Frechet.cdf d)).
Proof.
  intros HR H. unfold Frechet.new in H. inv64 H. destruct (lt_num _ _ HP) as [_ Na]. assert (P := lt_V1 _ _ HP). rewrite V_zero in P.
  assert (G : forall x, le64 zero64 x -> num (Bopp (m_powf x (Bopp a))) /\ V (Bopp (m_powf x (Bopp a))) <= 0).
  { intros x Hx. destruct (le0_dom x Hx) as [N L]. split; [apply num_opp, (pw_num HR); auto; now apply num_opp|]. rewrite V_opp. assert (B := pw_ge0 HR x (Bopp a) N L (num_opp _ Na)). lra. }
  split.
  - intros x Hx. destruct (G x Hx) as [A B]. change (valid_prob (m_exp (Bopp (m_powf x (Bopp a))))). apply V_valid; [now apply (xp_num HR)|]. split; [now apply (xp_ge0 HR)|now apply (xp_le1 HR)].
  - intros HM x y Hx Hy L. destruct (G x Hx) as [A B]. destruct (G y Hy) as [A' B']. destruct (le0_dom x Hx) as [Nx Lx]. destruct (le0_dom y Hy) as [Ny Ly].
    change (le64 (m_exp (Bopp (m_powf x (Bopp a)))) (m_exp (Bopp (m_powf y (Bopp a))))). apply le_V2; [now apply (xp_num HR)|now apply (xp_num HR)|]. apply (xp_mono HM); auto. rewrite !V_opp. apply Ropp_le_contravar. apply (pw_anti HM); auto; [now apply le_V1|now apply num_opp|rewrite V_opp; lra].
Qed.
Print Assumptions C133_frechet.

(** Weibull: every x but NaN (0 below 0) *)
Theorem C133_weibull (m : Libm) (l k : f64) (p : Weibull.Params f64) : libm_range m -> Weibull.p_new l k = Ok p -> finite64 l ->
  let d := Weibull.from p in
  valid_on number (cdf64 Weibull.cdf d) /\ (libm_monotone m -> monotone_on number (cdf64 Weibull.cdf d)).
Proof.
  intros HR H F d. subst d. unfold Weibull.p_new in H. inv64 H. assert (P := fin_pos l F HP). destruct (lt_num _ _ HP0) as [_ Nk]. assert (Pk := lt_V1 _ _ HP0). rewrite V_zero in Pk.
  set (e := fun x => m_exp (Bopp (m_powf (Bdiv mode_NE x l) k))).
  assert (S : forall x, Probability.unwrap (Weibull.cdf (Weibull.from (Weibull.mkP l k)) x) = if Bleb zero64 x then Bminus mode_NE (b64 1 0) (e x) else zero64).
  { intros x. unfold Weibull.cdf. change (fleb (f_of_Z 0) x) with (Bleb zero64 x). destruct (Bleb zero64 x); reflexivity. }
  assert (E : forall x, le64 zero64 x -> num (Bopp (m_powf (Bdiv mode_NE x l) k)) /\ V (Bopp (m_powf (Bdiv mode_NE x l) k)) <= 0).
  { intros x Hx. destruct (le0_dom x Hx) as [N L]. destruct (div_ge0 x l F P N L) as [A B]. split; [now apply num_opp, (pw_num HR)|]. rewrite V_opp. assert (C := pw_ge0 HR _ k A B Nk). lra. }
  assert (E' : forall x, le64 zero64 x -> num (e x) /\ 0 <= V (e x) <= 1).
  { intros x Hx. destruct (E x Hx) as [A B]. unfold e. split; [now apply (xp_num HR)|]. split; [now apply (xp_ge0 HR)|now apply (xp_le1 HR)]. }
  split.
  - intros x N. rewrite S. destruct (Bleb zero64 x) eqn:B; [exact (tail_valid _ _ E' x B)|]. apply V_valid; [apply num_zero|]. rewrite V_zero. lra.
  - intros HM x y Nx Ny L. rewrite !S. destruct (Bleb zero64 x) eqn:B; destruct (Bleb zero64 y) eqn:B'.
    + apply (tail_mono _ e E'); auto; [intros; now apply le0_dom|]. intros u v Hu Hv Luv. destruct (le0_dom u Hu) as [Nu Lu]. destruct (le0_dom v Hv) as [Nv Lv]. unfold e.
      apply (xp_mono HM); try (now apply E). rewrite !V_opp. apply Ropp_le_contravar. apply (pw_mono HM); auto; try (now apply div_ge0). now apply div_mono.
    + exfalso. assert (X : le64 zero64 y). { apply le_V2; [apply num_zero|auto|]. apply le_V1 in B. apply le_V1 in L. lra. } unfold le64 in X. congruence.
    + destruct (E' y B') as [N1 B1]. apply le_V2; [apply num_zero|apply (one_minus _ N1 B1)|]. rewrite V_zero. apply (one_minus _ N1 B1).
    + apply le_V2; try apply num_zero. lra.
Qed.
Print Assumptions C133_weibull.

(** Rayleigh, x >= 0 *)
Theorem C133_rayleigh (m : Libm) (s : f64) (d : Rayleigh.t f64) : libm_range m -> Rayleigh.new s = Ok d -> finite64 s ->
  valid_on (le64 zero64) (cdf64 Rayleigh.cdf d) /\ (libm_monotone m -> monotone_on (le64 zero64) (cdf64 Rayleigh.cdf d)).
Proof.
  intros HR H F. unfold Rayleigh.new in H. inv64 H. assert (P := fin_pos s F HP).
  destruct (b64_int 2 ltac:(lia)) as [F2 R2].
  set (u := fun x => Bdiv mode_NE (Bmult mode_NE (Bdiv mode_NE (nsq x) s) s) (b64 2 0)).
  assert (G : forall x, num x -> num (u x) /\ V (u x) <= 0).
  { intros x N. unfold u. destruct (nsq_val x N) as [A _]. assert (B := nsq_le0 x N). destruct (div_le0 _ s F P A B) as [A1 B1]. destruct (mult_le0 _ s F P A1 B1) as [A2 B2]. apply div_le0; auto. rewrite R2. lra. }
  assert (E : forall x, le64 zero64 x -> num (m_exp (u x)) /\ 0 <= V (m_exp (u x)) <= 1).
  { intros x Hx. destruct (le0_dom x Hx) as [N _]. destruct (G x N) as [A B]. split; [now apply (xp_num HR)|]. split; [now apply (xp_ge0 HR)|now apply (xp_le1 HR)]. }
  split; [exact (tail_valid _ _ E)|]. intros HM. apply (tail_mono _ (fun x => m_exp (u x)) E); [intros; now apply le0_dom|].
  intros x y Hx Hy L. destruct (le0_dom x Hx) as [Nx Lx]. destruct (le0_dom y Hy) as [Ny Ly]. apply (xp_mono HM); try (now apply G). unfold u.
  destruct (nsq_val x Nx) as [A _]. destruct (nsq_val y Ny) as [A' _]. assert (B := nsq_le0 x Nx). assert (B' := nsq_le0 y Ny).
  destruct (div_le0 _ s F P A B) as [A1 B1]. destruct (mult_le0 _ s F P A1 B1) as [A2 B2]. destruct (div_le0 _ s F P A' B') as [A1' B1']. destruct (mult_le0 _ s F P A1' B1') as [A2' B2'].
  apply div_mono; auto; [rewrite R2; lra|]. apply mult_mono; auto. apply div_mono; auto. now apply nsq_anti.
Qed.
Print Assumptions C133_rayleigh.

(** Pareto with a positive minimum, from the minimum on *)
Theorem C133_pareto (m : Libm) (xm a : f64) (d : Pareto.t f64) : libm_range m -> Pareto.new xm a = Ok d -> finite64 xm -> lt64 zero64 xm ->
  valid_on (le64 xm) (cdf64 Pareto.cdf d) /\ (libm_monotone m -> monotone_on (le64 xm) (cdf64 Pareto.cdf d)).
Proof.
  intros HR H F Hx. unfold Pareto.new in H. inv64 H. assert (P := fin_pos xm F Hx). destruct (lt_num _ _ HP0) as [_ Na]. assert (Pa := lt_V1 _ _ HP0). rewrite V_zero in Pa.
  assert (D : forall x, le64 xm x -> num x /\ RV xm <= V x). { intros x L. split; [now destruct (le_num _ _ L)|]. rewrite <- V_fin by auto. now apply le_V1. }
  assert (G : forall x, le64 xm x -> num (Bdiv mode_NE xm x) /\ 0 <= V (Bdiv mode_NE xm x) <= 1).
  { intros x L. destruct (D x L) as [N B]. destruct (c_div x xm N F P ltac:(lra)) as [A E]. split; [exact A|]. rewrite E. now apply recip_bounds. }
  assert (E : forall x, le64 xm x -> num (m_powf (Bdiv mode_NE xm x) a) /\ 0 <= V (m_powf (Bdiv mode_NE xm x) a) <= 1).
  { intros x L. destruct (G x L) as [A B]. split; [apply (pw_num HR); auto; lra|]. split; [apply (pw_ge0 HR); auto; lra|now apply (pw_le1 HR)]. }
  split; [exact (tail_valid _ _ E)|]. intros HM. apply (tail_mono _ (fun x => m_powf (Bdiv mode_NE xm x) a) E); [intros; now apply D|].
  intros x y Lx Ly L. destruct (G x Lx) as [A B]. destruct (G y Ly) as [A' B']. destruct (D x Lx) as [N C]. destruct (D y Ly) as [N' C']. apply (pw_mono HM); auto; try lra.
  destruct (c_div x xm N F P ltac:(lra)) as [_ ->]. destruct (c_div y xm N' F P ltac:(lra)) as [_ ->]. apply recip_anti; auto; lra.
Qed.
Print Assumptions C133_pareto.

(** Kumaraswamy on [0, 1] *)
Theorem C133_kumaraswamy (m : Libm) (a b : f64) (p : Kumaraswamy.Params f64) : libm_range m -> Kumaraswamy.p_new a b = Ok p ->
  let d := Kumaraswamy.from p in let dom := fun x => le64 zero64 x /\ le64 x one64 in
  valid_on dom (cdf64 Kumaraswamy.cdf d) /\ (libm_monotone m -> monotone_on dom (cdf64 Kumaraswamy.cdf d)).
Proof.
  intros HR H d dom. subst d. unfold Kumaraswamy.p_new in H. inv64 H. destruct (lt_num _ _ HP) as [_ Na]. assert (Pa := lt_V1 _ _ HP). destruct (lt_num _ _ HP0) as [_ Nb]. assert (Pb := lt_V1 _ _ HP0). rewrite V_zero in Pa, Pb.
  assert (D : forall x, dom x -> num x /\ 0 <= V x <= 1). { intros x [L U]. destruct (le0_dom x L). split; auto. split; auto. rewrite <- V_one. now apply le_V1. }
  assert (G0 : forall x, dom x -> num (m_powf x a) /\ 0 <= V (m_powf x a) <= 1).
  { intros x Hx. destruct (D x Hx) as [N B]. split; [apply (pw_num HR); auto; lra|]. split; [apply (pw_ge0 HR); auto; lra|now apply (pw_le1 HR)]. }
  set (q := fun x => Bminus mode_NE (b64 1 0) (m_powf x a)).
  assert (G : forall x, dom x -> num (q x) /\ 0 <= V (q x) <= 1) by (intros x Hx; destruct (G0 x Hx); now apply one_minus).
  assert (E : forall x, dom x -> num (m_powf (q x) b) /\ 0 <= V (m_powf (q x) b) <= 1).
  { intros x Hx. destruct (G x Hx) as [N B]. split; [apply (pw_num HR); auto; lra|]. split; [apply (pw_ge0 HR); auto; lra|now apply (pw_le1 HR)]. }
  split; [exact (tail_valid _ _ E)|]. intros HM. apply (tail_mono _ (fun x => m_powf (q x) b) E); [intros; now apply D|].
  intros x y Hx Hy L. destruct (G x Hx). destruct (G y Hy). destruct (G0 x Hx). destruct (G0 y Hy). destruct (D x Hx). destruct (D y Hy).
  apply (pw_mono HM); auto; try lra. apply one_minus_anti; auto. apply (pw_mono HM); auto; lra.
Qed.
Print Assumptions C133_kumaraswamy.

(** Generalised Pareto and GEV from the location on *)
Theorem C133_gpd (m : Libm) (mu s z : f64) (d : GPD.t f64) : libm_range m -> GPD.new mu s z = Ok d -> finite64 mu -> finite64 s -> finite64 z ->
  valid_on (le64 mu) (cdf64 GPD.cdf d) /\ (libm_monotone m -> monotone_on (le64 mu) (cdf64 GPD.cdf d)).
Proof.
  intros HR H Fm Fs Fz. unfold GPD.new in H. inv64 H. assert (P := fin_pos s Fs HP0). assert (Pz := fin_pos z Fz HP1). destruct (neg_recip z Fz Pz) as [Nr Lr].
  assert (D : forall x, le64 mu x -> num x /\ RV mu <= V x). { intros x L. split; [now destruct (le_num _ _ L)|]. rewrite <- V_fin by auto. now apply le_V1. }
  set (w := fun x => Bplus mode_NE (b64 1 0) (Bmult mode_NE z (zz mu s x))).
  assert (G : forall x, le64 mu x -> num (w x) /\ 1 <= V (w x)). { intros x L. destruct (D x L). apply one_zeta; auto; [now apply zz_num|now apply zz_pos]. }
  assert (E : forall x, le64 mu x -> num (m_powf (w x) (Bdiv mode_NE (Bopp (b64 1 0)) z)) /\ 0 <= V (m_powf (w x) (Bdiv mode_NE (Bopp (b64 1 0)) z)) <= 1).
  { intros x L. destruct (G x L). split; [apply (pw_num HR); auto; lra|]. split; [apply (pw_ge0 HR); auto; lra|now apply (pw_neg_le1 HR)]. }
  split; [exact (tail_valid _ _ E)|]. intros HM. apply (tail_mono _ (fun x => m_powf (w x) (Bdiv mode_NE (Bopp (b64 1 0)) z)) E); [intros; now apply D|].
  intros x y Hx Hy L. destruct (G x Hx). destruct (G y Hy). destruct (D x Hx). destruct (D y Hy). apply (pw_anti HM); auto; try lra. unfold w. apply one_zeta_mono; auto; try (now apply zz_num). now apply zz_mono.
Qed.
Print Assumptions C133_gpd.
Theorem C133_gev (m : Libm) (mu s z : f64) (d : GEV.t f64) : libm_range m -> GEV.new mu s z = Ok d -> finite64 mu -> finite64 s -> finite64 z -> lt64 zero64 z ->
  valid_on (le64 mu) (cdf64 GEV.cdf d) /\ (libm_monotone m -> monotone_on (le64 mu) (cdf64 GEV.cdf d)).
Proof.
  intros HR H Fm Fs Fz Hz. unfold GEV.new in H. inv64 H. assert (P := fin_pos s Fs HP0). assert (Pz := fin_pos z Fz Hz). destruct (neg_recip z Fz Pz) as [Nr Lr].
  assert (D : forall x, le64 mu x -> num x /\ RV mu <= V x). { intros x L. split; [now destruct (le_num _ _ L)|]. rewrite <- V_fin by auto. now apply le_V1. }
  set (w := fun x => Bplus mode_NE (b64 1 0) (Bmult mode_NE z (zz mu s x))).
  assert (G : forall x, le64 mu x -> num (w x) /\ 1 <= V (w x)). { intros x L. destruct (D x L). apply one_zeta; auto; [now apply zz_num|now apply zz_pos]. }
  set (t := fun x => GEV.t_func (GEV.mk (GEV.mkP mu s z)) x).
  assert (T : exists c : bool, forall x, t x = if c then m_exp (Bopp (zz mu s x)) else m_powf (w x) (Bdiv mode_NE (Bopp (b64 1 0)) z)).
  { exists (fltb (fsub z (f_of_Z 0)) (GEV.TOL)). intros x. reflexivity. }
  destruct T as [c T].
  assert (E : forall x, le64 mu x -> num (t x) /\ 0 <= V (t x)).
  { intros x L. destruct (G x L). destruct (D x L). rewrite T. destruct c.
    - assert (A := num_opp _ (zz_num mu s Fm Fs P x H1)). split; [now apply (xp_num HR)|now apply (xp_ge0 HR)].
    - split; [apply (pw_num HR); auto; lra|apply (pw_ge0 HR); auto; lra]. }
  assert (E' : forall x, le64 mu x -> num (Bopp (t x)) /\ V (Bopp (t x)) <= 0) by (intros x L; destruct (E x L); split; [now apply num_opp|rewrite V_opp; lra]).
  split.
  - intros x L. change (valid_prob (m_exp (Bopp (t x)))). destruct (E' x L). apply V_valid; [now apply (xp_num HR)|]. split; [now apply (xp_ge0 HR)|now apply (xp_le1 HR)].
  - intros HM x y Lx Ly L. change (le64 (m_exp (Bopp (t x))) (m_exp (Bopp (t y)))). destruct (E' x Lx). destruct (E' y Ly). destruct (D x Lx). destruct (D y Ly). destruct (G x Lx). destruct (G y Ly). assert (LV := le_V1 _ _ L).
    apply le_V2; [now apply (xp_num HR)|now apply (xp_num HR)|]. apply (xp_mono HM); auto. rewrite !V_opp. apply Ropp_le_contravar. rewrite !T. destruct c.
    + apply (xp_mono HM); try (now apply num_opp, zz_num). rewrite !V_opp. apply Ropp_le_contravar. now apply zz_mono.
    + apply (pw_anti HM); auto; try lra. unfold w. apply one_zeta_mono; auto; try (now apply zz_num). now apply zz_mono.
Qed.
Print Assumptions C133_gev.

(** Cauchy: every x but NaN *)
Theorem C133_cauchy (m : Libm) (x0 g : f64) (d : Cauchy.t f64) : libm_range m -> Cauchy.new x0 g = Ok d -> finite64 x0 -> finite64 g ->
  valid_on number (cdf64 Cauchy.cdf d) /\ (libm_monotone m -> monotone_on number (cdf64 Cauchy.cdf d)).
Proof.
  intros HR H Fm Fs. unfold Cauchy.new in H. inv64 H. assert (P := fin_pos g Fs HP0).
  set (c := Bdiv mode_NE (b64 1 0) (b64 7074237752028440 (-51))). set (h := Bdiv mode_NE (b64 1 0) (b64 2 0)).
  assert (Fc : fin c) by (vm_compute; reflexivity). assert (Fh : fin h) by (vm_compute; reflexivity).
  assert (Pc : 0 < RV c). { apply fin_pos; [exact Fc|vm_compute; reflexivity]. }
  set (k := fun a => Bplus mode_NE (Bmult mode_NE c a) h).
  assert (K : forall a, num a -> num (k a)). { intros a N. unfold k. apply plus_c; auto. now apply c_mult. }
  assert (KM : forall a b, num a -> num b -> V a <= V b -> V (k a) <= V (k b)). { intros a b N N' L. unfold k. apply plus_mono; auto; try (now apply c_mult). now apply cmult_mono. }
  assert (A : forall x, number x -> num (m_atan (zz x0 g x)) /\ V (Bopp half_pi64) <= V (m_atan (zz x0 g x)) <= V half_pi64).
  { intros x N. destruct (atan_range m HR (zz x0 g x) (zz_num x0 g Fm Fs P x N)) as [L U]. split; [now destruct (le_num _ _ L)|]. split; now apply le_V1. }
  assert (K1 : V (k half_pi64) = 1). { replace (k half_pi64) with one64 by (apply B2SF_inj; vm_compute; reflexivity). apply V_one. }
  assert (K0 : V (k (Bopp half_pi64)) = 0). { replace (k (Bopp half_pi64)) with zero64 by (apply B2SF_inj; vm_compute; reflexivity). apply V_zero. }
  assert (NH : num half_pi64) by reflexivity. assert (NH' : num (Bopp half_pi64)) by reflexivity.
  split.
  - intros x N. change (valid_prob (k (m_atan (zz x0 g x)))). destruct (A x N) as [B [C D]]. apply V_valid; [now apply K|]. rewrite <- K0 at 1. rewrite <- K1. split; now apply KM.
  - intros HM x y Nx Ny L. change (le64 (k (m_atan (zz x0 g x))) (k (m_atan (zz x0 g y)))). destruct (A x Nx). destruct (A y Ny). apply le_V2; try (now apply K). apply KM; auto.
    apply (at_mono HM); try (now apply zz_num). apply zz_mono; auto. now apply le_V1.
Qed.
Print Assumptions C133_cauchy.

(** all hypotheses can be met: the parameters by ordinary numbers, the ones on libm by correctly rounded functions *)
Example C133_nonvacuous : libm_range cr_libm /\ libm_monotone cr_libm /\
  let m := cr_libm in let a := b64 (-3) (-1) in let s := b64 5 (-2) in
  (exists d, Exponential.new s = Ok d) /\ (exists d, Logistic.new a s = Ok d) /\ (exists d, Gumbel.new a s = Ok d) /\ (exists d, Frechet.new s = Ok d) /\
  (exists p, Weibull.p_new s s = Ok p) /\ (exists d, Rayleigh.new s = Ok d) /\ (exists d, Pareto.new s s = Ok d) /\ (exists p, Kumaraswamy.p_new s s = Ok p) /\
  (exists d, GPD.new a s s = Ok d) /\ (exists d, GEV.new a s s = Ok d) /\ (exists d, Cauchy.new a s = Ok d) /\ finite64 a /\ finite64 s /\ lt64 zero64 s.
Proof.
  split; [apply cr_range|]. split; [apply cr_monotone|]. intros m. generalize m. clear m. intros m a s.
  assert (PS : fltb (f_of_Z 0 : f64) s = true) by (vm_compute; reflexivity).
  repeat match goal with |- _ /\ _ => split end; lazymatch goal with |- ex _ => eexists | _ => vm_compute; reflexivity end;
  unfold Exponential.new, Logistic.new, Gumbel.new, Frechet.new, Weibull.p_new, Rayleigh.new, Pareto.new, Kumaraswamy.p_new, GPD.new, GEV.new, Cauchy.new;
  (apply map_params_ok; cbn [args s1 s2 s3 fst snd]; repeat (apply Forall_cons || apply Forall_nil); unfold arg_ok; cbn [arg_ty arg_val field_ok]; first [exact I|exact PS]).
Qed.

(** Arcsine: where the computed (x - a) / w is at most 1 *)
Lemma sqrt01 q : num q -> 0 <= V q <= 1 -> num (Bsqrt mode_NE q) /\ 0 <= V (Bsqrt mode_NE q) <= 1 /\ V (Bsqrt mode_NE q) = rnd (sqrt (RV q)).
Proof.
  intros N B. assert (Q := M64_pos). assert (F : fin q) by (apply V_fin_iff; auto; lra). rewrite V_fin in B by auto.
  destruct (Bsqrt_correct 53 1024 _ _ mode_NE q) as (E & G & _).
  assert (FS : fin (Bsqrt mode_NE q)). { unfold fin. rewrite G. destruct q as [| | |s mq eq Hq]; try discriminate; try reflexivity. destruct s; [|reflexivity]. exfalso. assert (X := RV_neg_finite mq eq Hq). lra. }
  split; [now apply fin_num|]. rewrite V_fin by auto. change (RV (Bsqrt mode_NE q)) with (B2R (Bsqrt mode_NE q)). rewrite E.
  change (round radix2 (SpecFloat.fexp 53 1024) (round_mode mode_NE) (sqrt (B2R q))) with (rnd (sqrt (RV q))). split; [|reflexivity].
  split; [apply rnd_pos_of, sqrt_pos|]. apply rnd_le_fmt; [apply fmt_1|]. rewrite <- sqrt_1 at 1. apply sqrt_le_1_alt. lra.
Qed.
Theorem C133_arcsine_partial (m : Libm) (a w : f64) (d : Arcsine.t f64) : libm_range m -> Arcsine.new a w = Ok d -> finite64 a -> finite64 w ->
  let dom := fun x => le64 a x /\ le64 (Bminus mode_NE x a) w in
  valid_on dom (cdf64 Arcsine.cdf d) /\ (libm_monotone m -> monotone_on dom (cdf64 Arcsine.cdf d)).
Proof.
  intros HR H Fm Fs dom. unfold Arcsine.new in H. inv64 H. assert (P := fin_pos w Fs HP0). assert (Q := M64_pos).
  assert (D : forall x, dom x -> num x /\ num (zz a w x) /\ 0 <= V (zz a w x) <= 1).
  { intros x [L U]. destruct (le_num _ _ L) as [_ N]. split; [exact N|]. split; [now apply zz_num|]. split; [apply zz_pos; auto; rewrite <- V_fin by auto; now apply le_V1|].
    apply le_V1 in U. destruct (minus_c x a N Fm) as [A _]. unfold zz. destruct (div_c _ w A Fs P) as [_ ->]. rewrite (V_fin w) in U by auto. assert (B := fin_lt w Fs).
    destruct (inf_cases _ A) as [FA|[FA|FA]]; [|rewrite FA; cbn [lift]; lra|rewrite FA in U; cbn [V] in U; lra].
    rewrite lift_fin by auto. rewrite V_fin in U by auto. apply sat_le1. apply Rmult_le_reg_r with (RV w); [lra|]. unfold Rdiv. rewrite Rmult_assoc, Rinv_l by lra. lra. }
  set (c := Bdiv mode_NE (b64 2 0) (b64 7074237752028440 (-51))).
  assert (Fc : fin c) by (vm_compute; reflexivity). assert (Pc : 0 < RV c). { apply fin_pos; [exact Fc|vm_compute; reflexivity]. }
  set (q := fun x => Bsqrt mode_NE (zz a w x)).
  assert (S : forall x, dom x -> num (q x) /\ 0 <= V (q x) <= 1 /\ V (q x) = rnd (sqrt (RV (zz a w x)))). { intros x Hx. destruct (D x Hx) as (_ & A & B). now apply sqrt01. }
  assert (A : forall x, dom x -> num (m_asin (q x)) /\ 0 <= V (m_asin (q x)) <= V half_pi64).
  { intros x Hx. destruct (S x Hx) as (N & B & _). destruct (asin_range m HR (q x)) as [L U]; [now apply nn_le|apply le_V2; [auto|apply num_one|rewrite V_one; lra]|].
    split; [now destruct (le_num _ _ L)|]. split; [rewrite <- V_zero; now apply le_V1|now apply le_V1]. }
  assert (K1 : V (Bmult mode_NE c half_pi64) = 1). { replace (Bmult mode_NE c half_pi64) with one64 by (apply B2SF_inj; vm_compute; reflexivity). apply V_one. }
  split.
  - intros x Hx. destruct (A x Hx) as (N & L & U). change (valid_prob (Bmult mode_NE c (m_asin (q x)))). destruct (c_mult _ c N Fc Pc) as [N' E]. apply V_valid; [exact N'|]. split.
    + rewrite E. apply (lift_ge _ 0 0); auto; try lra. intros r Hr. apply sat_pos, Rmult_le_pos; lra.
    + rewrite <- K1. apply cmult_mono; auto. reflexivity.
  - intros HM x y Hx Hy L. destruct (A x Hx) as [N _]. destruct (A y Hy) as [N' _]. destruct (S x Hx) as (Nq & Bq & Eq). destruct (S y Hy) as (Nq' & Bq' & Eq').
    change (le64 (Bmult mode_NE c (m_asin (q x))) (Bmult mode_NE c (m_asin (q y)))). apply le_V2; try (now apply c_mult). apply cmult_mono; auto. apply (as_mono HM); auto; try lra.
    rewrite Eq, Eq'. apply rnd_le, sqrt_le_1_alt. destruct (D x Hx) as (Nx & Nz & Bz). destruct (D y Hy) as (Ny & Nz' & Bz').
    rewrite <- !V_fin by (apply V_fin_iff; auto; lra). apply zz_mono; auto. now apply le_V1.
Qed.
Print Assumptions C133_arcsine_partial.
Example C133_arcsine_nonvacuous (m : Libm) : (exists d : Arcsine.t f64, Arcsine.new (b64 (-3) (-1)) (b64 5 (-2)) = Ok d) /\ le64 (b64 (-3) (-1)) (b64 (-1) 0) /\ le64 (Bminus mode_NE (b64 (-1) 0) (b64 (-3) (-1))) (b64 5 (-2)).
Proof.
  split; [|split; vm_compute; reflexivity]. assert (PS : fltb (f_of_Z 0 : f64) (b64 5 (-2)) = true) by (vm_compute; reflexivity). eexists. unfold Arcsine.new.
  apply map_params_ok; cbn [args s1 s2 s3 fst snd]; repeat (apply Forall_cons || apply Forall_nil); unfold arg_ok; cbn [arg_ty arg_val field_ok]; first [exact I|exact PS].
Qed.

(** Normal: every x but NaN, if the external [norm] has range [0,1] and is monotone *)
Theorem C133_normal (m : Libm) (SP : Special f64) (mu v : f64) (d : UvNormal.t f64) :
  (forall z, number z -> le64 zero64 (sf_norm z) /\ le64 (sf_norm z) one64) ->
  UvNormal.new mu v = Ok d -> finite64 mu -> finite64 v ->
  valid_on number (cdf64 UvNormal.cdf d) /\
  ((forall z z', le64 z z' -> le64 (sf_norm z) (sf_norm z')) -> monotone_on number (cdf64 UvNormal.cdf d)).
Proof.
  intros HN H Fm Fv. assert (Q := M64_pos).
  assert (Hd : d = UvNormal.new_unchecked mu v /\ lt64 zero64 v).
  { revert H. unfold UvNormal.new, UvNormal.params_new, loc_new, isotropic_new. cbn [and_then map_ok map_err check]. unfold check_default. cbn [is_satisfied_by]. unfold pltb, POrd_scalar, pzero.
    destruct (fltb (f_of_Z 0) v) eqn:E; cbn [and_then map_ok map_err]; [|discriminate]. intros H; injection H as <-. split; [reflexivity|exact E]. }
  destruct Hd as [-> Hv]. assert (Pv := fin_pos v Fv Hv).
  assert (SQ : fin (Bsqrt mode_NE v) /\ 0 < RV (Bsqrt mode_NE v)).
  { destruct (Bsqrt_correct 53 1024 _ _ mode_NE v) as (E & G & _). destruct (pos_sign v Fv Pv) as (mm & ee & hh & ->). split; [exact G|]. unfold RV. rewrite E.
    change (0 < rnd (sqrt (RV (B754_finite false mm ee hh)))). set (x := B754_finite false mm ee hh) in *.
    assert (X : bpow radix2 (-1074) <= RV x).
    { unfold x, RV. cbn [B2R]. assert (C := hh). unfold SpecFloat.bounded in C. apply andb_prop in C as [C _]. apply Zeq_bool_eq in C. unfold F2R. cbn [Fnum Fexp cond_Zopp].
      apply Rle_trans with (bpow radix2 ee); [apply bpow_le; unfold SpecFloat.fexp, SpecFloat.emin in C; lia|]. rewrite <- (Rmult_1_l (bpow radix2 ee)) at 1. apply Rmult_le_compat_r; [apply bpow_ge_0|]. apply IZR_le. lia. }
    apply Rlt_le_trans with (bpow radix2 (-537)); [apply bpow_gt_0|]. apply rnd_ge; [apply fmt_bpow; lia|].
    rewrite <- (sqrt_square (bpow radix2 (-537))) by apply bpow_ge_0. apply sqrt_le_1_alt. rewrite <- bpow_plus. exact X. }
  destruct SQ as [FS PS].
  set (G := fun x : f64 => Probability.unwrap (UvNormal.cdf (UvNormal.new_unchecked mu v) x)).
  assert (GF : forall x, fin x -> G x = sf_norm (zz mu (Bsqrt mode_NE v) x)) by (intros x Fx; destruct x; try discriminate; reflexivity).
  assert (G0 : G (B754_infinity true) = zero64) by reflexivity. assert (G1 : G (B754_infinity false) = one64) by reflexivity.
  assert (GB : forall x, number x -> num (G x) /\ 0 <= V (G x) <= 1).
  { intros x N. destruct (inf_cases x N) as [F|[F|F]]; [|subst; rewrite G0, V_zero; split; [reflexivity|lra]|subst; rewrite G1, V_one; split; [reflexivity|lra]].
    rewrite GF by auto. destruct (HN _ (zz_num mu _ Fm FS PS x N)) as [L U]. split; [now destruct (le_num _ _ L)|]. rewrite <- V_zero at 1. rewrite <- V_one. split; now apply le_V1. }
  split; [intros x N; apply V_valid; now apply GB|].
  intros HMn x y Nx Ny L. change (le64 (G x) (G y)). destruct (GB x Nx) as [A B]. destruct (GB y Ny) as [A' B']. apply le_V2; auto. apply le_V1 in L.
  destruct (inf_cases x Nx) as [Fx|[Fx|Fx]]; destruct (inf_cases y Ny) as [Fy|[Fy|Fy]]; subst; rewrite ?G0, ?G1, ?V_zero, ?V_one; try lra.
  - rewrite !GF by auto. apply le_V1, HMn. apply le_V2; try (now apply zz_num). now apply zz_mono.
  - exfalso. assert (C := fin_lt x Fx). rewrite (V_fin x) in L by auto. cbn [V] in L. lra.
  - exfalso. assert (C := fin_lt y Fy). rewrite (V_fin y) in L by auto. cbn [V] in L. lra.
  - exfalso. cbn [V] in L. lra.
Qed.
Print Assumptions C133_normal.

(** the hypotheses on the normal integral can be met *)
Definition sp_norm (f : f64 -> f64) : Special f64 := {|
  sf_gamma x := x; sf_loggamma x := x; sf_beta x _ := x; sf_logbeta x _ := x; sf_betainc x _ _ := x; sf_gammainc x _ := x; sf_digamma x := x;
  sf_erf x := x; sf_erfc x := x; sf_norm := f; sf_norm_inv x := x; sf_riemann_zeta x := x; sf_hyp2f1 x _ _ _ := x |}.
Example C133_normal_nonvacuous : let m := cr_libm in let SP := sp_norm (fun x => sigm (m_exp (Bopp x))) in
  (forall z, number z -> le64 zero64 (@sf_norm f64 SP z) /\ le64 (@sf_norm f64 SP z) one64) /\
  (forall x y, le64 x y -> le64 (@sf_norm f64 SP x) (@sf_norm f64 SP y)) /\
  exists d, @UvNormal.new f64 (F64Scalar m) (b64 (-3) (-1)) (b64 5 (-2)) = Ok d.
Proof.
  intros m SP. assert (HR := cr_range). assert (HM := cr_monotone). cbn [SP sp_norm sf_norm].
  assert (G : forall x, number x -> num (m_exp (Bopp x)) /\ 0 <= V (m_exp (Bopp x))).
  { intros x N. assert (A := num_opp _ N). split; [now apply (xp_num HR)|now apply (xp_ge0 HR)]. }
  split; [|split].
  - intros z N. destruct (G z N) as [A B]. destruct (sigm_ok _ A B) as [C D]. split; apply le_V2; try apply num_zero; try apply num_one; auto; rewrite ?V_zero, ?V_one; lra.
  - intros x y L. destruct (le_num _ _ L) as [Nx Ny]. destruct (G x Nx) as [A B]. destruct (G y Ny) as [A' B'].
    apply le_V2; [now apply sigm_ok|now apply sigm_ok|]. apply sigm_anti; auto. apply (xp_mono HM); try (now apply num_opp). rewrite !V_opp. apply Ropp_le_contravar. now apply le_V1.
  - eexists. unfold UvNormal.new, UvNormal.params_new, loc_new, isotropic_new. cbn [and_then map_ok map_err check]. unfold check_default. cbn [is_satisfied_by]. unfold pltb, POrd_scalar, pzero.
    replace (fltb (f_of_Z 0) (b64 5 (-2)) : bool) with true by (vm_compute; reflexivity). cbn [and_then map_ok map_err]. reflexivity.
Qed.

(** Not every accepted distribution stays within [0, 1] in doubles.
    Triangular: the square overflows for wide supports; the value at the mode is +infinity, whatever libm is. *)
Theorem C133_triangular_refuted (m : Libm) : exists (a l r x : f64) (d : Triangular.t f64), Triangular.new a l r = Ok d /\
  finite64 a /\ finite64 l /\ finite64 r /\ le64 a x /\ le64 x (Bplus mode_NE a l) /\ ~ valid_prob (Probability.unwrap (Triangular.cdf d x)).
Proof.
  exists (b64 0 0), (b64 1 700), (b64 1 700), (b64 1 700). exists (Triangular.new_unchecked (b64 0 0) (b64 1 700) (b64 1 700)).
  split; [|split; [vm_compute; reflexivity|split; [vm_compute; reflexivity|split; [vm_compute; reflexivity|split; [vm_compute; reflexivity|split; [vm_compute; reflexivity|]]]]]].
  - assert (PS : fltb (f_of_Z 0 : f64) (b64 1 700) = true) by (vm_compute; reflexivity). unfold Triangular.new.
    etransitivity; [ apply map_params_ok; cbn [args s1 s2 s3 fst snd]; repeat (apply Forall_cons || apply Forall_nil); unfold arg_ok; cbn [arg_ty arg_val field_ok]; first [exact I|exact PS] | reflexivity ].
  - match goal with |- ~ valid_prob ?a => assert (E : a = B754_infinity false) by (apply B2SF_inj; vm_compute; reflexivity); rewrite E end.
    unfold valid_prob. intros [A _]. discriminate.
Qed.
Print Assumptions C133_triangular_refuted.
(** Arcsine: at the upper end of its own support the ratio can round above 1, so asin is undefined (NaN by IEEE) *)
Theorem C133_arcsine_refuted (m : Libm) : (forall x, lt64 one64 x -> is_nan (m_asin x) = true) -> exists (a w : f64) (d : Arcsine.t f64), Arcsine.new a w = Ok d /\
  finite64 a /\ finite64 w /\ exists b, Arcsine.support d = Closed a b /\ ~ valid_prob (Probability.unwrap (Arcsine.cdf d b)).
Proof.
  intros HN. exists (b64 1 0), (b64 3 (-54)). exists (Arcsine.new_unchecked (b64 1 0) (b64 3 (-54))).
  split; [|split; [vm_compute; reflexivity|split; [vm_compute; reflexivity|]]].
  - assert (PS : fltb (f_of_Z 0 : f64) (b64 3 (-54)) = true) by (vm_compute; reflexivity). unfold Arcsine.new.
    etransitivity; [ apply map_params_ok; cbn [args s1 s2 s3 fst snd]; repeat (apply Forall_cons || apply Forall_nil); unfold arg_ok; cbn [arg_ty arg_val field_ok]; first [exact I|exact PS] | reflexivity ].
  - eexists. split; [reflexivity|]. cbv beta iota. unfold Arcsine.cdf. cbn [Probability.unwrap]. 
    match goal with |- context [fasin ?q] => assert (A : lt64 one64 q) by (vm_compute; reflexivity); set (q0 := q) in * end.
    assert (B := HN q0 A). change (fasin q0) with (m_asin q0). generalize dependent (m_asin q0). clear. intros a B. destruct a; try discriminate. intros [X _]. 
    match type of X with is_finite ?a = true => assert (E : a = B754_nan) by (change (fmul TWO_OVER_PI B754_nan) with (Bmult mode_NE TWO_OVER_PI B754_nan : f64); apply B2SF_inj; vm_compute; reflexivity) end. rewrite E in X. discriminate.
Qed.
Print Assumptions C133_arcsine_refuted.
Example C133_asin_nan : forall x, lt64 one64 x -> is_nan (@m_asin cr_libm x) = true.
Proof. intros x H. cbn [m_asin cr_libm]. unfold cr_asin. unfold lt64 in H. now rewrite H. Qed.
(** Exponential: an infinite rate is accepted, and cdf(0) is then NaN *)
Theorem C133_exponential_refuted (m : Libm) : is_nan (m_exp B754_nan) = true -> exists (l : f64) (d : Exponential.t f64), Exponential.new l = Ok d /\
  ~ valid_prob (Probability.unwrap (Exponential.cdf d zero64)).
Proof.
  intros HN. exists (B754_infinity false). eexists. split.
  - assert (PS : fltb (f_of_Z 0 : f64) (B754_infinity false) = true) by (vm_compute; reflexivity). unfold Exponential.new.
    etransitivity; [ apply map_params_ok; cbn [args s1 s2 s3 fst snd]; repeat (apply Forall_cons || apply Forall_nil); unfold arg_ok; cbn [arg_ty arg_val field_ok]; first [exact I|exact PS] | reflexivity ].
  - cbv beta iota. unfold Exponential.cdf. cbn [Probability.unwrap].
    match goal with |- context [fexp ?q] => assert (A : q = B754_nan) by (apply B2SF_inj; vm_compute; reflexivity); rewrite A end.
    change (fexp B754_nan) with (m_exp B754_nan). destruct (m_exp B754_nan); try discriminate. intros [X _].
    match type of X with is_finite ?a = true => assert (E : a = B754_nan) by reflexivity; rewrite E in X end. discriminate.
Qed.
Print Assumptions C133_exponential_refuted.
Example C133_exp_nan : is_nan (@m_exp cr_libm B754_nan) = true. Proof. reflexivity. Qed.
