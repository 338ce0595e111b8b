(** * Generic calculus for the distribution proofs *)
From Coq Require Import Reals Lra Lia Psatz.
From Coquelicot Require Import Coquelicot.
From Verif.Num Require Import XReal.
From Verif.Spec Require Import DistSpec.
Open Scope R_scope.

Global Instance above_proper lo : ProperFilter (above lo).
Proof. destruct lo; apply _. Qed.
Global Instance below_proper hi : ProperFilter (below hi).
Proof. destruct hi; apply _. Qed.

Lemma above_inside lo hi : Rbar_lt lo hi -> lo <> p_infty -> above lo (inside lo hi).
Proof.
  intros H Hn. destruct lo as [a| |]; [| congruence |].
  - destruct hi as [b| |]; cbn in *; try contradiction.
    + exists (mkposreal (b - a) ltac:(lra)). intros y Hy Hay. unfold ball in Hy; cbn in Hy.
      unfold AbsRing_ball, abs, minus, plus, opp in Hy; cbn in Hy. apply Rabs_def2 in Hy.
      split; cbn; lra.
    + exists (mkposreal 1 ltac:(lra)). intros y _ Hay. split; cbn; auto.
  - destruct hi as [b| |]; cbn in *; try contradiction.
    + exists b. intros y Hy; split; cbn; auto.
    + exists 0. intros y Hy; split; cbn; auto.
Qed.

Lemma below_inside lo hi : Rbar_lt lo hi -> hi <> m_infty -> below hi (inside lo hi).
Proof.
  intros H Hn. destruct hi as [b| |]; [| | congruence].
  - destruct lo as [a| |]; cbn in *; try contradiction.
    + exists (mkposreal (b - a) ltac:(lra)). intros y Hy Hay. unfold ball in Hy; cbn in Hy.
      unfold AbsRing_ball, abs, minus, plus, opp in Hy; cbn in Hy. apply Rabs_def2 in Hy.
      split; cbn; lra.
    + exists (mkposreal 1 ltac:(lra)). intros y _ Hay. split; cbn; auto.
  - destruct lo as [a| |]; cbn in *; try contradiction.
    + exists a. intros y Hy; split; cbn; auto.
    + exists 0. intros y Hy; split; cbn; auto.
Qed.

Lemma inside_between lo hi x y z : inside lo hi x -> inside lo hi y -> x <= z <= y -> inside lo hi z.
Proof.
  unfold inside. intros [H1 H2] [H3 H4] Hz.
  destruct lo, hi; cbn in *; try contradiction; split; auto; lra.
Qed.

Lemma inside_Rbar_lt lo hi x : inside lo hi x -> Rbar_lt lo hi.
Proof. intros [H1 H2]. destruct lo, hi; cbn in *; auto; try contradiction; lra. Qed.

(** eventually above [lo], everything is below a given inside point *)
Lemma above_lt lo hi x0 : inside lo hi x0 -> above lo (fun x => inside lo hi x /\ x <= x0).
Proof.
  intros Hi. assert (Hl := inside_Rbar_lt _ _ _ Hi).
  assert (lo <> p_infty) by (intros ->; destruct Hi as [H _]; destruct hi; cbn in *; contradiction).
  assert (Rbar_lt lo x0) by apply Hi.
  assert (Hf := above_inside lo x0 ltac:(assumption) ltac:(assumption)).
  revert Hf. apply filter_imp. intros y [Hy1 Hy2]; cbn in Hy2. split; [|lra].
  split; auto. destruct Hi as [_ Hi]. destruct hi; cbn in *; auto; lra.
Qed.
Lemma below_gt lo hi x0 : inside lo hi x0 -> below hi (fun x => inside lo hi x /\ x0 <= x).
Proof.
  intros Hi. assert (Hl := inside_Rbar_lt _ _ _ Hi).
  assert (hi <> m_infty) by (intros ->; destruct Hi as [_ H]; destruct lo; cbn in *; contradiction).
  assert (Rbar_lt x0 hi) by apply Hi.
  assert (Hf := below_inside x0 hi ltac:(assumption) ltac:(assumption)).
  revert Hf. apply filter_imp. intros y [Hy1 Hy2]; cbn in Hy1. split; [|lra].
  split; auto. destruct Hi as [Hi _]. destruct lo; cbn in *; auto; lra.
Qed.

Lemma ex_inside lo hi : Rbar_lt lo hi -> exists x, inside lo hi x.
Proof.
  intros H. assert (hi <> m_infty) by (intros ->; destruct lo; cbn in *; contradiction).
  destruct (filter_ex (F := below hi) _ (below_inside lo hi H ltac:(assumption))) as [x Hx]. now exists x.
Qed.

(** fundamental theorem on a possibly unbounded open interval *)
Lemma is_RInt_gen_antiderivative lo hi (H h : R -> R) la lb :
  Rbar_lt lo hi ->
  (forall x, inside lo hi x -> is_derive H x (h x)) ->
  (forall x, inside lo hi x -> continuous h x) ->
  filterlim H (above lo) (locally la) -> filterlim H (below hi) (locally lb) ->
  is_RInt_gen h (above lo) (below hi) (lb - la).
Proof.
  intros Hlt Hd Hc Hla Hlb.
  assert (hi <> m_infty) by (intros ->; destruct lo; cbn in *; contradiction).
  assert (lo <> p_infty) by (intros ->; destruct hi; cbn in *; contradiction).
  assert (Hlim : filterlim (fun ab : R * R => H (snd ab) - H (fst ab)) (filter_prod (above lo) (below hi)) (locally (lb - la))).
  { apply (filterlim_comp_2 (G := locally lb) (H := locally (- la)) (fun z => H (snd z)) (fun z => - H (fst z)) Rplus).
    - eapply filterlim_comp; [apply filterlim_snd|exact Hlb].
    - eapply filterlim_comp; [eapply filterlim_comp; [apply filterlim_fst|exact Hla]|]. apply (filterlim_opp la).
    - apply (filterlim_plus lb (- la)). }
  intros P HP. specialize (Hlim P HP). destruct Hlim as [Q1 Q2 HQ1 HQ2 HQ].
  exists (fun x => Q1 x /\ inside lo hi x) (fun x => Q2 x /\ inside lo hi x).
  - apply filter_and; [exact HQ1|now apply above_inside].
  - apply filter_and; [exact HQ2|now apply below_inside].
  - intros a b [Ha Hia] [Hb Hib]. exists (H b - H a). split; [|now apply HQ].
    cbn [fst snd]. apply (is_RInt_derive H h).
    + intros x Hx. apply Hd. revert Hx. unfold Rmin, Rmax. destruct (Rle_dec a b); intros.
      * now apply (inside_between lo hi a b). * now apply (inside_between lo hi b a).
    + intros x Hx. apply Hc. revert Hx. unfold Rmin, Rmax. destruct (Rle_dec a b); intros.
      * now apply (inside_between lo hi a b). * now apply (inside_between lo hi b a).
Qed.

(** monotone from non-negative derivative *)
Lemma mono_inside lo hi (G g : R -> R) :
  (forall x, inside lo hi x -> is_derive G x (g x)) ->
  (forall x, inside lo hi x -> 0 <= g x) ->
  forall x y, inside lo hi x -> inside lo hi y -> x <= y -> G x <= G y.
Proof.
  intros Hd Hg x y Hx Hy Hxy.
  destruct (Req_dec x y) as [->|Hne]; [lra|].
  destruct (MVT_gen G x y g) as [c [Hc Heq]].
  - intros t Ht. rewrite Rmin_left, Rmax_right in Ht by lra. apply Hd. apply (inside_between lo hi x y); auto; lra.
  - intros t Ht. rewrite Rmin_left, Rmax_right in Ht by lra. apply continuity_pt_filterlim.
    apply (ex_derive_continuous G t). exists (g t). apply Hd. apply (inside_between lo hi x y); auto; lra.
  - rewrite Rmin_left, Rmax_right in Hc by lra.
    assert (0 <= g c) by (apply Hg, (inside_between lo hi x y); auto; lra). nra.
Qed.

Section Limits.
Context (lo hi : Rbar) (G : R -> R) (l : R)
  (Hmono : forall x y, inside lo hi x -> inside lo hi y -> x <= y -> G x <= G y).
Lemma lim_above_mono :
  (forall x, inside lo hi x -> l <= G x) ->
  (forall eps, 0 < eps -> exists x, inside lo hi x /\ G x < l + eps) ->
  filterlim G (above lo) (locally l).
Proof.
  intros Hle Hex. apply filterlim_locally. intros eps.
  destruct (Hex eps (cond_pos eps)) as [x0 [Hi Hx0]].
  generalize (above_lt lo hi x0 Hi). apply filter_imp. intros y [Hy Hyx].
  assert (G y <= G x0) by auto. assert (l <= G y) by auto.
  unfold ball; cbn; unfold AbsRing_ball, abs, minus, plus, opp; cbn. apply Rabs_def1; lra.
Qed.
Lemma lim_below_mono :
  (forall x, inside lo hi x -> G x <= l) ->
  (forall eps, 0 < eps -> exists x, inside lo hi x /\ l - eps < G x) ->
  filterlim G (below hi) (locally l).
Proof.
  intros Hle Hex. apply filterlim_locally. intros eps.
  destruct (Hex eps (cond_pos eps)) as [x0 [Hi Hx0]].
  generalize (below_gt lo hi x0 Hi). apply filter_imp. intros y [Hy Hyx].
  assert (G x0 <= G y) by auto. assert (G y <= l) by auto.
  unfold ball; cbn; unfold AbsRing_ball, abs, minus, plus, opp; cbn. apply Rabs_def1; lra.
Qed.
(** conversely, a monotone function lies between its limits *)
Lemma ge_lim_above : filterlim G (above lo) (locally l) -> forall x, inside lo hi x -> l <= G x.
Proof.
  intros Hl x Hx. apply Rnot_lt_le; intros Hlt.
  rewrite filterlim_locally in Hl. specialize (Hl (mkposreal (l - G x) ltac:(lra))).
  assert (Hf := filter_and _ _ Hl (above_lt lo hi x Hx)).
  destruct (filter_ex _ Hf) as [y [Hb [Hy Hyx]]].
  unfold ball in Hb; cbn in Hb; unfold AbsRing_ball, abs, minus, plus, opp in Hb; cbn in Hb.
  apply Rabs_def2 in Hb. assert (G y <= G x) by auto. lra.
Qed.
Lemma le_lim_below : filterlim G (below hi) (locally l) -> forall x, inside lo hi x -> G x <= l.
Proof.
  intros Hl x Hx. apply Rnot_lt_le; intros Hlt.
  rewrite filterlim_locally in Hl. specialize (Hl (mkposreal (G x - l) ltac:(lra))).
  assert (Hf := filter_and _ _ Hl (below_gt lo hi x Hx)).
  destruct (filter_ex _ Hf) as [y [Hb [Hy Hyx]]].
  unfold ball in Hb; cbn in Hb; unfold AbsRing_ball, abs, minus, plus, opp in Hb; cbn in Hb.
  apply Rabs_def2 in Hb. assert (G x <= G y) by auto. lra.
Qed.
End Limits.

Lemma filterlim_ext_above lo hi (f g : R -> R) l : Rbar_lt lo hi ->
  (forall x, inside lo hi x -> f x = g x) -> filterlim g (above lo) (locally l) -> filterlim f (above lo) (locally l).
Proof.
  intros H Hfg. apply filterlim_ext_loc.
  assert (lo <> p_infty) by (intros ->; destruct hi; cbn in *; contradiction).
  generalize (above_inside lo hi H ltac:(assumption)). apply filter_imp. intros; symmetry; auto.
Qed.
Lemma filterlim_ext_below lo hi (f g : R -> R) l : Rbar_lt lo hi ->
  (forall x, inside lo hi x -> f x = g x) -> filterlim g (below hi) (locally l) -> filterlim f (below hi) (locally l).
Proof.
  intros H Hfg. apply filterlim_ext_loc.
  assert (hi <> m_infty) by (intros ->; destruct lo; cbn in *; contradiction).
  generalize (below_inside lo hi H ltac:(assumption)). apply filter_imp. intros; symmetry; auto.
Qed.

Lemma locally_inside lo hi x : inside lo hi x -> locally x (inside lo hi).
Proof.
  intros [H1 H2]. unfold inside.
  apply filter_and.
  - destruct lo as [a| |]; cbn in *; try contradiction.
    + exists (mkposreal (x - a) ltac:(lra)). intros y Hy. unfold ball in Hy; cbn in Hy; unfold AbsRing_ball, abs, minus, plus, opp in Hy; cbn in Hy. apply Rabs_def2 in Hy; lra.
    + exists (mkposreal 1 ltac:(lra)); auto.
  - destruct hi as [a| |]; cbn in *; try contradiction.
    + exists (mkposreal (a - x) ltac:(lra)). intros y Hy. unfold ball in Hy; cbn in Hy; unfold AbsRing_ball, abs, minus, plus, opp in Hy; cbn in Hy. apply Rabs_def2 in Hy; lra.
    + exists (mkposreal 1 ltac:(lra)); auto.
Qed.

Lemma is_RInt_gen_inside lo hi (f g : R -> R) l : Rbar_lt lo hi ->
  (forall x, inside lo hi x -> f x = g x) -> is_RInt_gen g (above lo) (below hi) l -> is_RInt_gen f (above lo) (below hi) l.
Proof.
  intros H Hfg. apply is_RInt_gen_ext.
  assert (lo <> p_infty) by (intros ->; destruct hi; cbn in *; contradiction).
  assert (hi <> m_infty) by (intros ->; destruct lo; cbn in *; contradiction).
  exists (inside lo hi) (inside lo hi); [now apply above_inside|now apply below_inside|].
  cbn [fst snd]. intros a b Ha Hb x Hx. symmetry. apply Hfg.
  revert Hx. unfold Rmin, Rmax. destruct (Rle_dec a b); intros.
  - apply (inside_between lo hi a b); auto; lra.
  - apply (inside_between lo hi b a); auto; lra.
Qed.

(** ** The main criterion *)
Lemma coherent_intro lo hi cdf pdf (G g : R -> R) :
  Rbar_lt lo hi ->
  (forall x, inside lo hi x -> cdf (Fin x) = Fin (G x)) ->
  (forall x, inside lo hi x -> pdf (Fin x) = Fin (g x)) ->
  (forall x, inside lo hi x -> is_derive G x (g x)) ->
  (forall x, inside lo hi x -> continuous g x) ->
  (forall x, inside lo hi x -> 0 <= g x) ->
  filterlim G (above lo) (locally 0) -> filterlim G (below hi) (locally 1) ->
  coherent lo hi cdf pdf.
Proof.
  intros Hlt Hcdf Hpdf Hd Hc Hg Hl0 Hl1.
  assert (Hm := mono_inside lo hi G g Hd Hg).
  assert (Hrc : forall x, inside lo hi x -> rf cdf x = G x) by (intros x Hx; unfold rf; now rewrite Hcdf).
  assert (Hrp : forall x, inside lo hi x -> rf pdf x = g x) by (intros x Hx; unfold rf; now rewrite Hpdf).
  split; split.
  - intros x Hx. exists (G x). split; [auto|]. split.
    + now apply (ge_lim_above lo hi G 0). + now apply (le_lim_below lo hi G 1).
  - intros x y Hx Hy Hxy. rewrite !Hrc by auto. auto.
  - now apply (filterlim_ext_above lo hi _ G).
  - now apply (filterlim_ext_below lo hi _ G).
  - intros x Hx. exists (g x); auto.
  - intros x Hx. rewrite (Hrp x Hx). apply (is_derive_ext_loc G); [|auto].
    generalize (locally_inside lo hi x Hx). apply filter_imp. intros; symmetry; auto.
  - apply (is_RInt_gen_inside lo hi _ g); auto.
    replace 1 with (1 - 0) by ring. now apply (is_RInt_gen_antiderivative lo hi G g).
Qed.

(** limits from an explicit inverse *)
Lemma coherent_inverse lo hi cdf pdf (G g Q : R -> R) :
  Rbar_lt lo hi ->
  (forall x, inside lo hi x -> cdf (Fin x) = Fin (G x)) ->
  (forall x, inside lo hi x -> pdf (Fin x) = Fin (g x)) ->
  (forall x, inside lo hi x -> is_derive G x (g x)) ->
  (forall x, inside lo hi x -> continuous g x) ->
  (forall x, inside lo hi x -> 0 <= g x) ->
  (forall x, inside lo hi x -> 0 <= G x <= 1) ->
  (forall p, 0 < p < 1 -> inside lo hi (Q p) /\ G (Q p) = p) ->
  coherent lo hi cdf pdf.
Proof.
  intros Hlt Hcdf Hpdf Hd Hc Hg H01 HQ.
  assert (Hm := mono_inside lo hi G g Hd Hg).
  apply (coherent_intro lo hi cdf pdf G g); auto.
  - apply (lim_above_mono lo hi G 0 Hm); [intros; apply H01; auto|].
    intros eps He. destruct (HQ (Rmin (eps/2) (1/2))) as [H1 H2].
    { unfold Rmin; destruct Rle_dec; lra. }
    exists (Q (Rmin (eps/2) (1/2))). split; [auto|]. rewrite H2. unfold Rmin; destruct Rle_dec; lra.
  - apply (lim_below_mono lo hi G 1 Hm); [intros; apply H01; auto|].
    intros eps He. destruct (HQ (1 - Rmin (eps/2) (1/2))) as [H1 H2].
    { unfold Rmin; destruct Rle_dec; lra. }
    exists (Q (1 - Rmin (eps/2) (1/2))). split; [auto|]. rewrite H2. unfold Rmin; destruct Rle_dec; lra.
Qed.

(** expectations from an antiderivative *)
Lemma expectation_intro lo hi pdf (g u H : R -> R) la lb m :
  Rbar_lt lo hi ->
  (forall x, inside lo hi x -> pdf (Fin x) = Fin (u x)) ->
  (forall x, inside lo hi x -> is_derive H x (g x * u x)) ->
  (forall x, inside lo hi x -> continuous (fun x => g x * u x) x) ->
  filterlim H (above lo) (locally la) -> filterlim H (below hi) (locally lb) -> m = lb - la ->
  is_expectation lo hi pdf g m.
Proof.
  intros Hlt Hp Hd Hc Ha Hb ->. unfold is_expectation.
  apply (is_RInt_gen_inside lo hi _ (fun x => g x * u x)); auto.
  - intros x Hx. unfold rf. now rewrite Hp.
  - now apply (is_RInt_gen_antiderivative lo hi H).
Qed.
Lemma entropy_intro lo hi pdf (u H : R -> R) la lb m :
  Rbar_lt lo hi ->
  (forall x, inside lo hi x -> pdf (Fin x) = Fin (u x)) ->
  (forall x, inside lo hi x -> is_derive H x (- (u x * ln (u x)))) ->
  (forall x, inside lo hi x -> continuous (fun x => - (u x * ln (u x))) x) ->
  filterlim H (above lo) (locally la) -> filterlim H (below hi) (locally lb) -> m = lb - la ->
  is_entropy lo hi pdf m.
Proof.
  intros Hlt Hp Hd Hc Ha Hb ->. unfold is_entropy.
  apply (is_RInt_gen_inside lo hi _ (fun x => - (u x * ln (u x)))); auto.
  - intros x Hx. unfold rf. now rewrite Hp.
  - now apply (is_RInt_gen_antiderivative lo hi H).
Qed.

(** one-sided limits of continuous functions *)
Lemma lim_above_cont a (f : R -> R) l : continuous f a -> f a = l -> filterlim f (above (Finite a)) (locally l).
Proof. intros H <-. cbn. apply filterlim_filter_le_1 with (2 := H). unfold at_right. apply filter_le_within. Qed.
Lemma lim_below_cont b (f : R -> R) l : continuous f b -> f b = l -> filterlim f (below (Finite b)) (locally l).
Proof. intros H <-. cbn. apply filterlim_filter_le_1 with (2 := H). unfold at_left. apply filter_le_within. Qed.

Lemma ex_derive_cont (f : R -> R) x l : is_derive f x l -> continuous f x.
Proof. intros H. apply (ex_derive_continuous f). now exists l. Qed.
Lemma lim_pinf (f : R -> R) (l : R) : is_lim f p_infty l -> filterlim f (below p_infty) (locally l).
Proof. auto. Qed.
Lemma lim_minf (f : R -> R) (l : R) : is_lim f m_infty l -> filterlim f (above m_infty) (locally l).
Proof. auto. Qed.

(** ** polynomial times decaying exponential *)
Fixpoint peval (l : list R) (x : R) : R := match l with nil => 0 | cons a l => a + x * peval l x end.

Lemma Rbar_mult_neg_pinf c : c < 0 -> Rbar_mult c p_infty = m_infty.
Proof.
  intros H. unfold Rbar_mult, Rbar_mult'. destruct (Rle_dec 0 c) as [h|]; [exfalso; lra|reflexivity].
Qed.
Lemma lim_x_exp_neg (c : R) : 0 < c -> is_lim (fun x => x * exp (- (c * x))) p_infty 0.
Proof.
  intros Hc.
  apply is_lim_ext with (fun x => - / c * ((- (c * x)) * exp (- (c * x)))).
  { intros x. field. lra. }
  replace (Finite 0) with (Rbar_mult (- / c) 0) by (cbn; f_equal; ring).
  apply is_lim_scal_l.
  apply (is_lim_comp (fun y => y * exp y) (fun x => - (c * x)) p_infty 0 m_infty).
  - apply is_lim_mul_exp_m.
  - apply is_lim_ext with (fun x => - c * x); [intros; ring|].
    rewrite <- (Rbar_mult_neg_pinf (- c)) by lra.
    apply is_lim_scal_l, is_lim_id.
  - exists 0. intros; discriminate.
Qed.
Lemma lim_exp_neg (c : R) : 0 < c -> is_lim (fun x => exp (- (c * x))) p_infty 0.
Proof.
  intros Hc.
  apply (is_lim_comp exp (fun x => - (c * x)) p_infty 0 m_infty).
  - apply is_lim_exp_m.
  - apply is_lim_ext with (fun x => - c * x); [intros; ring|].
    rewrite <- (Rbar_mult_neg_pinf (- c)) by lra.
    apply is_lim_scal_l, is_lim_id.
  - exists 0. intros; discriminate.
Qed.
Lemma lim_peval_exp l : forall c : R, 0 < c -> is_lim (fun x => peval l x * exp (- (c * x))) p_infty 0.
Proof.
  induction l as [|a l IH]; intros c Hc; cbn.
  - apply is_lim_ext with (fun _ => 0); [intros; ring|]. apply is_lim_const.
  - apply is_lim_ext with (fun x => a * exp (- (c * x)) + (x * exp (- (c/2 * x))) * (peval l x * exp (- (c/2 * x)))).
    { intros x. replace (- (c * x)) with (- (c/2*x) + - (c/2*x)) by field. rewrite exp_plus. ring. }
    replace (Finite 0) with (Finite (a * 0 + 0 * 0)) by (f_equal; ring).
    apply (is_lim_plus' (fun x => a * exp (- (c * x))) (fun x => (x * exp (- (c/2 * x))) * (peval l x * exp (- (c/2 * x)))) p_infty (a * 0) (0 * 0)).
    + apply (is_lim_scal_l (fun x => exp (- (c * x))) a p_infty 0). now apply lim_exp_neg.
    + apply (is_lim_mult (fun x => x * exp (- (c/2 * x))) (fun x => peval l x * exp (- (c/2 * x))) p_infty 0 0).
      * apply lim_x_exp_neg; lra. * apply IH; lra. * exact I.
Qed.
Lemma lim_poly_exp (f : R -> R) l c : 0 < c -> (forall x, f x = peval l x * exp (- (c * x))) -> is_lim f p_infty 0.
Proof. intros Hc H. apply is_lim_ext with (fun x => peval l x * exp (- (c * x))); [intros; now rewrite H|]. now apply lim_peval_exp. Qed.

Ltac cont_auto := eapply ex_derive_cont; auto_derive; [|reflexivity].

(** ** combinators for limits to a real number *)
Section FL.
Context {T : Type} {F : (T -> Prop) -> Prop} {FF : Filter F}.
Implicit Types f g : T -> R.
Lemma fl_const (c : R) : filterlim (fun _ : T => c) F (locally c).
Proof. apply filterlim_const. Qed.
Lemma fl_plus f g (a b : R) : filterlim f F (locally a) -> filterlim g F (locally b) ->
  filterlim (fun x => f x + g x) F (locally (a + b)).
Proof. intros H1 H2. eapply filterlim_comp_2; [exact H1|exact H2|apply (filterlim_plus a b)]. Qed.
Lemma fl_opp f (a : R) : filterlim f F (locally a) -> filterlim (fun x => - f x) F (locally (- a)).
Proof. intros H1. eapply filterlim_comp; [exact H1|apply (filterlim_opp a)]. Qed.
Lemma fl_minus f g (a b : R) : filterlim f F (locally a) -> filterlim g F (locally b) ->
  filterlim (fun x => f x - g x) F (locally (a - b)).
Proof. intros H1 H2. unfold Rminus. apply fl_plus; [exact H1|now apply fl_opp]. Qed.
Lemma fl_mult f g (a b : R) : filterlim f F (locally a) -> filterlim g F (locally b) ->
  filterlim (fun x => f x * g x) F (locally (a * b)).
Proof. intros H1 H2. eapply filterlim_comp_2; [exact H1|exact H2|apply (filterlim_mult (K := R_AbsRing) a b)]. Qed.
Lemma fl_cont (h : R -> R) f (a : R) : continuous h a -> filterlim f F (locally a) ->
  filterlim (fun x => h (f x)) F (locally (h a)).
Proof. intros H1 H2. eapply filterlim_comp; [exact H2|exact H1]. Qed.
Lemma fl_inv f (a : R) : filterlim f F (locally a) -> a <> 0 -> filterlim (fun x => / f x) F (locally (/ a)).
Proof. intros H1 H. revert H1. apply fl_cont. eapply ex_derive_cont. auto_derive; [exact H|reflexivity]. Qed.
Lemma fl_div f g (a b : R) : filterlim f F (locally a) -> filterlim g F (locally b) -> b <> 0 ->
  filterlim (fun x => f x / g x) F (locally (a / b)).
Proof. intros H1 H2 H. unfold Rdiv. apply fl_mult; [exact H1|now apply fl_inv]. Qed.
Lemma fl_ln f (a : R) : filterlim f F (locally a) -> 0 < a -> filterlim (fun x => ln (f x)) F (locally (ln a)).
Proof. intros H1 H. revert H1. apply fl_cont. eapply ex_derive_cont. auto_derive; [exact H|reflexivity]. Qed.
Lemma fl_exp f (a : R) : filterlim f F (locally a) -> filterlim (fun x => exp (f x)) F (locally (exp a)).
Proof. apply fl_cont. eapply ex_derive_cont. auto_derive; [exact I|reflexivity]. Qed.
Lemma fl_eq f (a b : R) : filterlim f F (locally a) -> a = b -> filterlim f F (locally b).
Proof. now intros H <-. Qed.
Lemma fl_ext f g (a : R) : (forall x, f x = g x) -> filterlim g F (locally a) -> filterlim f F (locally a).
Proof. intros H. apply filterlim_ext. intros; symmetry; auto. Qed.
(** composition with a function tending to an infinity *)
Lemma fl_inf (h : R -> R) f (b : Rbar) (l : R) : is_lim h b l -> match b with Finite _ => False | _ => True end ->
  filterlim f F (Rbar_locally b) -> filterlim (fun x => h (f x)) F (locally l).
Proof. intros H Hb Hf. destruct b as [r| |]; [contradiction| |]; (eapply filterlim_comp; [exact Hf|exact H]). Qed.
(** squeeze to zero *)
Lemma fl_squeeze f g : (forall x, Rabs (f x) <= g x) -> filterlim g F (locally 0) -> filterlim f F (locally 0).
Proof.
  intros H Hg. apply filterlim_locally. intros eps. rewrite filterlim_locally in Hg. generalize (Hg eps). apply filter_imp.
  intros x. unfold ball; cbn; unfold AbsRing_ball, abs, minus, plus, opp; cbn. intros Hx.
  specialize (H x). apply Rabs_def2 in Hx. rewrite Ropp_0, Rplus_0_r in *. lra.
Qed.
End FL.

(** solves [filterlim (expression) F (locally ?l)], atoms from the context *)
Ltac flim := repeat lazymatch goal with |- filterlim _ _ _ => first
  [ eassumption | apply fl_const | eapply fl_minus | eapply fl_plus | eapply fl_opp | eapply fl_div | eapply fl_mult | eapply fl_inv
  | eapply fl_ln | eapply fl_exp ] end.

(** affine maps at infinity *)
Lemma affine_p a b : 0 < b -> filterlim (fun x => (x - a) / b) (Rbar_locally p_infty) (Rbar_locally p_infty).
Proof.
  intros Hb P [M HM]. exists (a + b * M). intros x Hx. apply HM.
  apply Rmult_lt_reg_r with b; [lra|]. replace ((x - a) / b * b) with (x - a) by (field; lra). lra.
Qed.
Lemma affine_m a b : 0 < b -> filterlim (fun x => (x - a) / b) (Rbar_locally m_infty) (Rbar_locally m_infty).
Proof.
  intros Hb P [M HM]. exists (a + b * M). intros x Hx. apply HM.
  apply Rmult_lt_reg_r with b; [lra|]. replace ((x - a) / b * b) with (x - a) by (field; lra). lra.
Qed.
Lemma opp_p : filterlim Ropp (Rbar_locally p_infty) (Rbar_locally m_infty).
Proof. intros P [M HM]. exists (- M). intros x Hx. apply HM. lra. Qed.
Lemma opp_m : filterlim Ropp (Rbar_locally m_infty) (Rbar_locally p_infty).
Proof. intros P [M HM]. exists (- M). intros x Hx. apply HM. lra. Qed.
(** u ln u -> 0 *)
Lemma lim_xlnx {T} (F : (T -> Prop) -> Prop) {FF : Filter F} (u : T -> R) :
  F (fun x => 0 < u x) -> filterlim u F (locally 0) -> filterlim (fun x => u x * ln (u x)) F (locally 0).
Proof.
  intros Hp Hu.
  assert (Hl : filterlim (fun y => y * ln y) (at_right 0) (locally 0)).
  { assert (H : filterlim (fun y => y * exp y) (Rbar_locally m_infty) (locally 0)) by apply is_lim_mul_exp_m.
    apply filterlim_ext_loc with (fun y => ln y * exp (ln y)).
    { exists (mkposreal 1 Rlt_0_1). intros y _ Hy. rewrite exp_ln by auto. ring. }
    eapply (filterlim_comp _ _ _ ln (fun y => y * exp y)); [|exact H]. apply is_lim_ln_0. }
  eapply (filterlim_comp _ _ _ u (fun y => y * ln y)); [|exact Hl].
  intros P HP. unfold at_right, within in HP. apply Hu in HP. unfold filtermap in *.
  generalize (filter_and _ _ Hp HP). apply filter_imp. intros x [H1 H2]; auto.
Qed.

(** x^-c -> 0 and ln x * x^-c -> 0 at infinity *)
Lemma lim_Rpower_neg c : 0 < c -> is_lim (fun x => Rpower x (- c)) p_infty 0.
Proof.
  intros Hc. unfold Rpower.
  apply (is_lim_comp exp (fun x => - c * ln x) p_infty 0 m_infty).
  - apply is_lim_exp_m.
  - rewrite <- (Rbar_mult_neg_pinf (- c)) by lra. apply is_lim_scal_l, is_lim_ln_p.
  - exists 0. intros; discriminate.
Qed.
Lemma lim_ln_Rpower_neg c : 0 < c -> is_lim (fun x => ln x * Rpower x (- c)) p_infty 0.
Proof.
  intros Hc. unfold Rpower.
  apply is_lim_ext with (fun x => ln x * exp (- (c * ln x))). { intros; do 2 f_equal; ring. }
  apply (is_lim_comp (fun y => y * exp (- (c * y))) ln p_infty 0 p_infty).
  - now apply lim_x_exp_neg. - apply is_lim_ln_p. - exists 0; intros; discriminate.
Qed.
Lemma is_derive_ext_eq (f : R -> R) x (a b : R) : a = b -> is_derive f x a -> is_derive f x b.
Proof. now intros ->. Qed.

(** ** linearity; central moments from raw moments *)
Lemma exp_ext lo hi pdf (g h : R -> R) m : (forall x, g x = h x) -> is_expectation lo hi pdf h m -> is_expectation lo hi pdf g m.
Proof.
  intros E. unfold is_expectation. apply is_RInt_gen_ext. apply filter_forall. intros ab x _. now rewrite E.
Qed.
Lemma exp_plus_ lo hi pdf (g h : R -> R) m n : is_expectation lo hi pdf g m -> is_expectation lo hi pdf h n ->
  is_expectation lo hi pdf (fun x => g x + h x) (m + n).
Proof.
  unfold is_expectation. intros H1 H2. generalize (is_RInt_gen_plus _ _ _ _ H1 H2).
  apply is_RInt_gen_ext. apply filter_forall. intros ab x _. unfold plus; cbn. ring.
Qed.
Lemma exp_scal lo hi pdf c (g : R -> R) m : is_expectation lo hi pdf g m ->
  is_expectation lo hi pdf (fun x => c * g x) (c * m).
Proof.
  unfold is_expectation. intros H1. generalize (is_RInt_gen_scal _ c _ H1).
  apply is_RInt_gen_ext. apply filter_forall. intros ab x _. unfold scal; cbn. unfold mult; cbn. ring.
Qed.
Lemma exp_eq lo hi pdf (g : R -> R) m n : is_expectation lo hi pdf g m -> m = n -> is_expectation lo hi pdf g n.
Proof. now intros H <-. Qed.
Section Central.
Context (lo hi : Rbar) (pdf : xreal -> xreal) (M : nat -> R).
Notation raw n := (is_expectation lo hi pdf (fun x => x ^ n) (M n)).
Context (H0 : M 0%nat = 1).
Lemma central_poly c0 c1 c2 c3 c4 : raw 0%nat -> raw 1%nat -> raw 2%nat -> (c3 <> 0 -> raw 3%nat) -> (c4 <> 0 -> raw 4%nat) ->
  is_expectation lo hi pdf (fun x => c0 + c1 * x + c2 * x ^ 2 + c3 * x ^ 3 + c4 * x ^ 4)
     (c0 + c1 * M 1%nat + c2 * M 2%nat + c3 * M 3%nat + c4 * M 4%nat).
Proof.
  intros R0 R1 R2 R3 R4.
  assert (Z : is_expectation lo hi pdf (fun _ => 0) 0).
  { apply exp_eq with (0 * M 0%nat); [|ring]. eapply exp_ext; [|apply (exp_scal _ _ _ 0), R0]. intros; cbn; ring. }
  apply exp_plus_; [apply exp_plus_; [apply exp_plus_; [apply exp_plus_|]|]|].
  - apply exp_eq with (c0 * M 0%nat); [|rewrite H0; ring]. eapply exp_ext; [|apply exp_scal, R0]. intros; cbn; ring.
  - eapply exp_ext; [|apply exp_scal, R1]. intros; cbn; ring.
  - apply exp_scal, R2.
  - destruct (Req_dec c3 0) as [->|n]; [|now apply exp_scal, R3].
    apply exp_eq with 0; [|ring]. eapply exp_ext; [|exact Z]. intros; cbn; ring.
  - destruct (Req_dec c4 0) as [->|n]; [|now apply exp_scal, R4].
    apply exp_eq with 0; [|ring]. eapply exp_ext; [|exact Z]. intros; cbn; ring.
Qed.
Lemma mean_raw : raw 1%nat -> is_mean lo hi pdf (M 1%nat).
Proof. intros H. unfold is_mean. eapply exp_ext; [|exact H]. intros; cbn; ring. Qed.
Lemma variance_raw v : raw 0%nat -> raw 1%nat -> raw 2%nat -> v = M 2%nat - M 1%nat ^ 2 -> is_variance lo hi pdf (M 1%nat) v.
Proof.
  intros R0 R1 R2 ->. split; [now apply mean_raw|]. set (m := M 1%nat).
  eapply exp_eq; [eapply exp_ext; [|apply (central_poly (m ^ 2) (- 2 * m) 1 0 0); auto; lra]|fold m; ring].
  intros; cbn; ring.
Qed.
Lemma skewness_raw v sk : raw 0%nat -> raw 1%nat -> raw 2%nat -> raw 3%nat -> v = M 2%nat - M 1%nat ^ 2 -> 0 < v ->
  M 3%nat - 3 * M 1%nat * M 2%nat + 2 * M 1%nat ^ 3 = sk * (v * sqrt v) -> is_skewness lo hi pdf sk.
Proof.
  intros R0 R1 R2 R3 Ev Hv E. exists (M 1%nat), v. split; [now apply variance_raw|]. split; [auto|]. set (m := M 1%nat) in *.
  eapply exp_eq; [eapply exp_ext; [|apply (central_poly (- m ^ 3) (3 * m ^ 2) (- 3 * m) 1 0); auto; lra]|rewrite <- E; fold m; ring].
  intros; cbn; ring.
Qed.
Lemma kurtosis_raw v k : raw 0%nat -> raw 1%nat -> raw 2%nat -> raw 3%nat -> raw 4%nat -> v = M 2%nat - M 1%nat ^ 2 -> 0 < v ->
  M 4%nat - 4 * M 1%nat * M 3%nat + 6 * M 1%nat ^ 2 * M 2%nat - 3 * M 1%nat ^ 4 = k * (v * v) -> is_kurtosis lo hi pdf k.
Proof.
  intros R0 R1 R2 R3 R4 Ev Hv E. exists (M 1%nat), v. split; [now apply variance_raw|]. split; [auto|]. set (m := M 1%nat) in *.
  eapply exp_eq; [eapply exp_ext; [|apply (central_poly (m ^ 4) (- 4 * m ^ 3) (6 * m ^ 2) (- 4 * m) 1); auto; lra]|rewrite <- E; fold m; ring].
  intros; cbn; ring.
Qed.
End Central.
