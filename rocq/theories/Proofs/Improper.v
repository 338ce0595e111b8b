(** * Improper integrals of continuous non-negative functions *)
From Coq Require Import Reals Lra Lia Psatz.
From Coquelicot Require Import Coquelicot.
From Verif.Num Require Import XReal.
From Verif.Spec Require Import DistSpec.
From Verif.Proofs Require Import XTac Calc.
Open Scope R_scope.

Lemma inside_mid lo hi a b x : inside lo hi a -> inside lo hi b -> Rmin a b <= x <= Rmax a b -> inside lo hi x.
Proof.
  intros Ha Hb. unfold Rmin, Rmax. destruct (Rle_dec a b); intros.
  - now apply (inside_between lo hi a b). - now apply (inside_between lo hi b a).
Qed.

Section Pos.
Context (lo hi : Rbar) (h : R -> R) (Hlt : Rbar_lt lo hi)
  (Hc : forall x, inside lo hi x -> continuous h x) (Hp : forall x, inside lo hi x -> 0 <= h x).
Lemma imp_int a b : inside lo hi a -> inside lo hi b -> ex_RInt h a b.
Proof.
  intros Ha Hb. apply (ex_RInt_continuous (V := R_CompleteNormedModule)). intros z Hz. apply Hc. now apply (inside_mid lo hi a b).
Qed.
Definition iF (c x : R) : R := RInt h c x.
Lemma iF_derive c x : inside lo hi c -> inside lo hi x -> is_derive (iF c) x (h x).
Proof.
  intros Hi Hx. unfold iF. apply is_derive_RInt with c; [|now apply Hc].
  generalize (locally_inside lo hi x Hx). apply filter_imp. intros y Hy.
  apply (RInt_correct (V := R_CompleteNormedModule)), imp_int; auto.
Qed.
Lemma iF_mono c x y : inside lo hi c -> inside lo hi x -> inside lo hi y -> x <= y -> iF c x <= iF c y.
Proof. intros Hi Hx Hy Hxy. apply (mono_inside lo hi (iF c) h); auto. intros; now apply iF_derive. Qed.
Lemma iF_diff c x y : inside lo hi c -> inside lo hi x -> inside lo hi y -> iF c y - iF c x = RInt h x y.
Proof.
  intros Hi Hx Hy. unfold iF. rewrite <- (RInt_Chasles h c x y) by (apply imp_int; auto).
  unfold plus; cbn. ring.
Qed.
(** limits of the primitive, from a bound on all inner integrals *)
Lemma imp_limits c M : inside lo hi c ->
  (forall x y, inside lo hi x -> inside lo hi y -> x <= y -> RInt h x y <= M) ->
  exists la lb, filterlim (iF c) (above lo) (locally la) /\ filterlim (iF c) (below hi) (locally lb) /\
    is_RInt_gen h (above lo) (below hi) (lb - la).
Proof.
  intros Hi HM.
  assert (Hcc : iF c c = 0) by (unfold iF; apply (RInt_point (V := R_CompleteNormedModule))).
  assert (B : forall x, inside lo hi x -> - M <= iF c x <= M).
  { intros x Hx. assert (0 <= M). { generalize (HM c c Hi Hi ltac:(lra)). fold (iF c c). rewrite Hcc. auto. }
    destruct (Rle_dec c x) as [l|l].
    - split; [|now apply HM]. assert (iF c c <= iF c x) by now apply iF_mono. lra.
    - assert (iF c x <= iF c c) by (apply iF_mono; auto; lra). split; [|lra].
      assert (D := iF_diff c x c Hi Hx Hi). assert (RInt h x c <= M) by (apply HM; auto; lra). lra. }
  destruct (completeness (fun v => exists x, inside lo hi x /\ v = iF c x)) as [lb [U1 U2]].
  { exists M. intros v [x [Hx ->]]. now apply B. } { exists (iF c c), c. auto. }
  destruct (completeness (fun v => exists x, inside lo hi x /\ v = - iF c x)) as [la [L1 L2]].
  { exists M. intros v [x [Hx ->]]. generalize (B x Hx). lra. } { exists (- iF c c), c. auto. }
  assert (Lb : filterlim (iF c) (below hi) (locally lb)).
  { apply (lim_below_mono lo hi); [intros; now apply iF_mono|intros x Hx; apply U1; now exists x|].
    intros eps He. apply Classical_Pred_Type.not_all_not_ex. intros HN.
    assert (lb <= lb - eps); [|lra]. apply U2. intros v [x [Hx ->]]. apply Rnot_lt_le. intros Hl. apply (HN x). auto. }
  assert (La : filterlim (iF c) (above lo) (locally (- la))).
  { apply (lim_above_mono lo hi); [intros; now apply iF_mono|intros x Hx; generalize (L1 (- iF c x) ltac:(now exists x)); lra|].
    intros eps He. apply Classical_Pred_Type.not_all_not_ex. intros HN.
    assert (la <= la - eps); [|lra]. apply L2. intros v [x [Hx ->]]. apply Rnot_lt_le. intros Hl. apply (HN x). split; [auto|lra]. }
  exists (- la), lb. split; [auto|]. split; [auto|]. apply (is_RInt_gen_antiderivative lo hi (iF c)); auto. intros; now apply iF_derive.
Qed.
Lemma imp_bounded l : is_RInt_gen h (above lo) (below hi) l ->
  forall x y, inside lo hi x -> inside lo hi y -> x <= y -> RInt h x y <= l + 1.
Proof.
  intros Hl x y Hx Hy Hxy.
  specialize (Hl (fun v => v < l + 1)). destruct Hl as [Q1 Q2 H1 H2 HQ].
  { exists (mkposreal 1 ltac:(lra)). intros v Hv. unfold ball in Hv; cbn in Hv; unfold AbsRing_ball, abs, minus, plus, opp in Hv; cbn in Hv.
    apply Rabs_def2 in Hv. lra. }
  destruct (filter_ex _ (filter_and _ _ H1 (above_lt lo hi x Hx))) as [a [Qa [Ia La]]].
  destruct (filter_ex _ (filter_and _ _ H2 (below_gt lo hi y Hy))) as [b [Qb [Ib Lb]]].
  destruct (HQ a b Qa Qb) as [v [Hv1 Hv2]]. cbn [fst snd] in Hv1. apply (is_RInt_unique (V := R_CompleteNormedModule)) in Hv1. rewrite <- Hv1 in Hv2.
  assert (E1 := iF_diff a x y Ia Hx Hy).
  assert (iF a a <= iF a x) by (apply iF_mono; auto). assert (iF a y <= iF a b) by (apply iF_mono; auto).
  assert (iF a a = 0) by (unfold iF; apply (RInt_point (V := R_CompleteNormedModule))). fold (iF a b) in Hv2. lra.
Qed.
Lemma imp_split l c : is_RInt_gen h (above lo) (below hi) l -> inside lo hi c ->
  exists la lb, filterlim (iF c) (above lo) (locally la) /\ filterlim (iF c) (below hi) (locally lb) /\ l = lb - la.
Proof.
  intros Hl Hi. destruct (imp_limits c (l + 1) Hi (imp_bounded l Hl)) as [la [lb [A [B C]]]].
  exists la, lb. split; [auto|]. split; [auto|].
  assert (lo <> p_infty) by (intros ->; destruct hi; cbn in *; contradiction).
  assert (hi <> m_infty) by (intros ->; destruct lo; cbn in *; contradiction).
  rewrite <- (is_RInt_gen_unique (V := R_CompleteNormedModule) (Fa := above lo) (Fb := below hi) _ _ Hl). apply (is_RInt_gen_unique (V := R_CompleteNormedModule) (Fa := above lo) (Fb := below hi)) in C. now rewrite C.
Qed.
(** the distribution function of a density *)
Lemma imp_lower c la x : inside lo hi c -> inside lo hi x -> filterlim (iF c) (above lo) (locally la) ->
  is_RInt_gen h (above lo) (at_point x) (iF c x - la).
Proof.
  intros Hi Hx Hla.
  assert (lo <> p_infty) by (intros ->; destruct hi; cbn in *; contradiction).
  intros P HP.
  assert (L : filterlim (fun a => iF c x - iF c a) (above lo) (locally (iF c x - la))) by (apply fl_minus; [apply fl_const|auto]).
  exists (fun a => inside lo hi a /\ P (iF c x - iF c a)) (eq x).
  - apply filter_and; [now apply above_inside|]. now apply L.
  - reflexivity.
  - intros a y [Ia Pa] <-. exists (iF c x - iF c a). split; [|auto]. cbn [fst snd]. rewrite iF_diff by auto.
    apply (RInt_correct (V := R_CompleteNormedModule)), imp_int; auto.
Qed.
Lemma imp_total_pos l : is_RInt_gen h (above lo) (below hi) l -> (forall x, inside lo hi x -> 0 < h x) -> 0 < l.
Proof.
  intros Hl Hpos. destruct (ex_inside lo hi Hlt) as [c Hi]. destruct (imp_split l c Hl Hi) as [la [lb [A [B ->]]]].
  assert (M : forall x y, inside lo hi x -> inside lo hi y -> x <= y -> iF c x <= iF c y) by (intros; now apply iF_mono).
  destruct (filter_ex _ (below_gt lo hi c Hi)) as [d0 [Id Ld]].
  destruct (locally_inside lo hi c Hi) as [eps He]. set (d := c + eps / 2).
  assert (Hd : inside lo hi d). { apply He. unfold d. unfold ball; cbn; unfold AbsRing_ball, abs, minus, plus, opp; cbn.
    generalize (cond_pos eps); intros. rewrite Rabs_pos_eq; lra. }
  assert (c < d) by (unfold d; generalize (cond_pos eps); lra).
  assert (la <= iF c c) by (apply (ge_lim_above lo hi (iF c) la M A); auto).
  assert (iF c d <= lb) by (apply (le_lim_below lo hi (iF c) lb M B); auto).
  assert (iF c c < iF c d); [|lra].
  destruct (MVT_gen (iF c) c d h) as [z [Hz E]].
  - intros t Ht. apply iF_derive; auto. apply (inside_mid lo hi c d); auto. lra.
  - intros t Ht. apply continuity_pt_filterlim. apply (ex_derive_continuous (iF c) t). exists (h t). apply iF_derive; auto. now apply (inside_mid lo hi c d).
  - assert (0 < h z) by (apply Hpos, (inside_mid lo hi c d); auto). nra.
Qed.
End Pos.

(** uniqueness against a given lower integral *)
Lemma lower_unique lo (h : R -> R) (x v w : R) : lo <> p_infty ->
  is_RInt_gen h (above lo) (at_point x) v -> is_RInt_gen h (above lo) (at_point x) w -> v = w.
Proof.
  intros Hlo H1 H2. rewrite <- (is_RInt_gen_unique (V := R_CompleteNormedModule) (Fa := above lo) (Fb := at_point x) _ _ H1).
  now rewrite <- (is_RInt_gen_unique (V := R_CompleteNormedModule) (Fa := above lo) (Fb := at_point x) _ _ H2).
Qed.
Lemma gen_unique lo hi (h : R -> R) (v w : R) :
  is_RInt_gen h (above lo) (below hi) v -> is_RInt_gen h (above lo) (below hi) w -> v = w.
Proof.
  intros H1 H2. rewrite <- (is_RInt_gen_unique (V := R_CompleteNormedModule) (Fa := above lo) (Fb := below hi) _ _ H1).
  now rewrite <- (is_RInt_gen_unique (V := R_CompleteNormedModule) (Fa := above lo) (Fb := below hi) _ _ H2).
Qed.

(** a cdf that is the integral of the density is coherent with it *)
Lemma coherent_of_integral lo hi cdf pdf (u G : R -> R) :
  Rbar_lt lo hi ->
  (forall x, inside lo hi x -> continuous u x) -> (forall x, inside lo hi x -> 0 <= u x) ->
  is_RInt_gen u (above lo) (below hi) 1 ->
  (forall x, inside lo hi x -> pdf (Fin x) = Fin (u x)) ->
  (forall x, inside lo hi x -> cdf (Fin x) = Fin (G x) /\ is_RInt_gen u (above lo) (at_point x) (G x)) ->
  coherent lo hi cdf pdf.
Proof.
  intros Hlt Hc Hp H1 Hpdf Hcdf.
  destruct (ex_inside lo hi Hlt) as [c Hi]. destruct (imp_split lo hi u Hlt Hc Hp 1 c H1 Hi) as [la [lb [A [B E]]]].
  assert (lo <> p_infty) by (intros ->; destruct hi; cbn in *; contradiction).
  apply (coherent_intro lo hi cdf pdf (fun x => iF u c x - la) u); auto.
  - intros x Hx. destruct (Hcdf x Hx) as [-> HG]. f_equal. apply (lower_unique lo u x); auto. now apply (imp_lower lo hi).
  - intros x Hx. eapply is_derive_eq; [apply dR_minus; [now apply (iF_derive lo hi u)|apply dR_c]|ring].
  - eapply fl_eq; [apply fl_minus; [exact A|apply fl_const]|ring].
  - eapply fl_eq; [apply fl_minus; [exact B|apply fl_const]|lra].
Qed.

(** change of variables *)
Lemma subst_gen (Fa Fb Ga Gb : (R -> Prop) -> Prop) {FFa : Filter Fa} {FFb : Filter Fb}
  (h f df : R -> R) (l : R) :
  is_RInt_gen h Ga Gb l -> filterlim f Fa Ga -> filterlim f Fb Gb ->
  filter_prod Fa Fb (fun ab => forall x, Rmin (fst ab) (snd ab) <= x <= Rmax (fst ab) (snd ab) ->
     is_derive f x (df x) /\ continuous df x /\ continuous h (f x)) ->
  is_RInt_gen (fun x => df x * h (f x)) Fa Fb l.
Proof.
  intros Hl HA HB [D1 D2 HD1 HD2 HD] P HP. destruct (Hl P HP) as [Q1 Q2 H1 H2 HQ].
  exists (fun a => D1 a /\ Q1 (f a)) (fun b => D2 b /\ Q2 (f b)).
  - apply filter_and; [auto|]. now apply HA. - apply filter_and; [auto|]. now apply HB.
  - intros a b [Da Qa] [Db Qb]. destruct (HQ _ _ Qa Qb) as [v [Hv Pv]]. exists v. split; [|auto]. cbn [fst snd] in *.
    specialize (HD a b Da Db). cbn [fst snd] in HD.
    apply (is_RInt_unique (V := R_CompleteNormedModule)) in Hv. rewrite <- Hv.
    apply (is_RInt_comp (V := R_CompleteNormedModule) h f df a b); intros x Hx; destruct (HD x Hx) as [? [? ?]]; auto.
Qed.
Lemma prod_inside lo hi (P : R -> Prop) : Rbar_lt lo hi -> (forall x, inside lo hi x -> P x) ->
  filter_prod (above lo) (below hi) (fun ab => forall x, Rmin (fst ab) (snd ab) <= x <= Rmax (fst ab) (snd ab) -> P x).
Proof.
  intros H HP.
  assert (lo <> p_infty) by (intros ->; destruct hi; cbn in *; contradiction).
  assert (hi <> m_infty) by (intros ->; destruct lo; cbn in *; contradiction).
  exists (inside lo hi) (inside lo hi); [now apply above_inside|now apply below_inside|].
  cbn [fst snd]. intros a b Ha Hb x Hx. apply HP. now apply (inside_mid lo hi a b).
Qed.
Lemma prod_point lo hi y (P : R -> Prop) : inside lo hi y -> (forall x, inside lo hi x -> P x) ->
  filter_prod (above lo) (at_point y) (fun ab => forall x, Rmin (fst ab) (snd ab) <= x <= Rmax (fst ab) (snd ab) -> P x).
Proof.
  intros Hy HP. assert (H := inside_Rbar_lt _ _ _ Hy).
  assert (lo <> p_infty) by (intros ->; destruct hi; cbn in *; contradiction).
  exists (inside lo hi) (eq y); [now apply above_inside|reflexivity|].
  cbn [fst snd]. intros a b Ha <- x Hx. apply HP. now apply (inside_mid lo hi a y).
Qed.
Lemma lim_point (f : R -> R) x : filterlim f (at_point x) (at_point (f x)).
Proof. intros P HP. exact HP. Qed.
