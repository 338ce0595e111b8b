(** * Beta median, Gamma sampling and convolution, Erlang *)
From Coq Require Import Reals Lra Lia Psatz List ZArith.
From Coquelicot Require Import Coquelicot.
From Verif.Num Require Import XReal.
From Verif.Model Require Import Rust Constraints Probability Params Consts Traits LogFact Continuous Continuous3.
From Verif.Spec Require Import DistSpec GammaSpec ResSpec.
From Verif.Proofs Require Import XTac Calc Calc2 Improper GammaFun Subst Mellin ContProofs11 ContProofs12 ContProofs13 ContProofs14 ContProofs15.
Import ListNotations.
Open Scope R_scope.

Lemma const_inside lo hi (f : R -> R) : (forall x, inside lo hi x -> is_derive f x 0) -> forall x y, inside lo hi x -> inside lo hi y -> f x = f y.
Proof.
  intros H. assert (A : forall x y, inside lo hi x -> inside lo hi y -> x < y -> f x = f y).
  { intros x y Hx Hy L. apply (eq_is_derive f x y); [|auto]. intros t Ht. apply H. apply (inside_mid lo hi x y); auto. rewrite Rmin_left, Rmax_right by lra. lra. }
  intros x y Hx Hy. destruct (Rtotal_order x y) as [L|[->|L]]; [now apply A|reflexivity|symmetry; now apply A].
Qed.
Lemma same_derive lo hi (f g u : R -> R) (l : R) : (forall x, inside lo hi x -> is_derive f x (u x)) -> (forall x, inside lo hi x -> is_derive g x (u x)) ->
  filterlim f (above lo) (locally l) -> filterlim g (above lo) (locally l) -> forall x, inside lo hi x -> f x = g x.
Proof.
  intros Df Dg Lf Lg x Hx.
  assert (C : forall y, inside lo hi y -> f y - g y = f x - g x).
  { intros y Hy. apply (const_inside lo hi (fun t => f t - g t)); auto. intros t Ht. eapply is_derive_eq; [apply dR_minus; [now apply Df|now apply Dg]|ring]. }
  assert (L : filterlim (fun t => f t - g t) (above lo) (locally 0)) by (eapply fl_eq; [apply fl_minus; [exact Lf|exact Lg]|ring]).
  assert (L2 : filterlim (fun t => f t - g t) (above lo) (locally (f x - g x))).
  { eapply filterlim_ext_loc; [|apply filterlim_const]. eapply filter_imp; [|exact (above_lt lo hi x Hx)]. intros y [Hy _]. cbv beta. symmetry. now apply C. }
  assert (E : 0 = f x - g x) by exact (filterlim_locally_unique _ _ _ L L2). lra.
Qed.
(** a coherent cdf is the antiderivative of the density that vanishes at the lower end *)
Lemma cdf_is lo hi cdf pdf (H : R -> R) : coherent lo hi cdf pdf -> (forall x, inside lo hi x -> is_derive H x (rf pdf x)) ->
  filterlim H (above lo) (locally 0) -> forall x, inside lo hi x -> cdf (Fin x) = Fin (H x).
Proof.
  intros [C P] D L x Hx. assert (E : rf cdf x = H x).
  { apply (same_derive lo hi (rf cdf) H (rf pdf) 0); auto; [exact (pdf_derive _ _ _ _ P)|exact (cdf_lower _ _ _ C)]. }
  destruct (cdf_valid _ _ _ C x Hx) as [p [Ep _]]. unfold rf in E. rewrite Ep in E |- *. cbn in E. now rewrite E.
Qed.
Lemma coherent_strict lo hi cdf pdf : coherent lo hi cdf pdf -> (forall x, inside lo hi x -> 0 < rf pdf x) ->
  forall x y, inside lo hi x -> inside lo hi y -> x < y -> rf cdf x < rf cdf y.
Proof.
  intros [C P] Hp x y Hx Hy L.
  assert (I : forall t, x <= t <= y -> inside lo hi t) by (intros t Ht; apply (inside_mid lo hi x y); auto; rewrite Rmin_left, Rmax_right by lra; lra).
  destruct (MVT_gen (rf cdf) x y (rf pdf)) as [c [Hc E]].
  - intros t Ht. rewrite Rmin_left, Rmax_right in Ht by lra. apply (pdf_derive _ _ _ _ P), I. lra.
  - intros t Ht. rewrite Rmin_left, Rmax_right in Ht by lra. apply continuity_pt_filterlim. apply (ex_derive_continuous (rf cdf)). eexists. apply (pdf_derive _ _ _ _ P), I; lra.
  - rewrite Rmin_left, Rmax_right in Hc by lra. assert (0 < rf pdf c * (y - x)) by (apply Rmult_lt_0_compat; [apply Hp, I; lra|lra]). lra.
Qed.
Lemma coherent_inside01 lo hi cdf pdf : coherent lo hi cdf pdf -> (forall x, inside lo hi x -> 0 < rf pdf x) -> forall x, inside lo hi x -> 0 < rf cdf x < 1.
Proof.
  intros HC Hp x Hx. destruct (proj1 HC) as [V M L U].
  assert (Vx : forall y, inside lo hi y -> 0 <= rf cdf y <= 1) by (intros y Hy; destruct (V y Hy) as [p [E B]]; unfold rf; rewrite E; exact B).
  assert (exists y, inside lo hi y /\ y < x) as [y [Hy Ly]].
  { destruct lo as [l| |].
    - exists ((l + x) / 2). destruct Hx as [H1 H2]. cbn in H1. split; [split; [cbn; lra|]|lra]. destruct hi; cbn in *; auto; lra.
    - destruct Hx as [[] _].
    - exists (x - 1). destruct Hx as [_ H2]. split; [split; [exact I|]|lra]. destruct hi; cbn in *; auto; lra. }
  assert (exists z, inside lo hi z /\ x < z) as [z [Hz Lz]].
  { destruct hi as [l| |].
    - exists ((l + x) / 2). destruct Hx as [H1 H2]. cbn in H2. split; [split; [|cbn; lra]|lra]. destruct lo; cbn in *; auto; lra.
    - exists (x + 1). destruct Hx as [H1 _]. split; [split; [|exact I]|lra]. destruct lo; cbn in *; auto; lra.
    - destruct Hx as [_ []]. }
  assert (A := coherent_strict _ _ _ _ HC Hp y x Hy Hx Ly). assert (B := coherent_strict _ _ _ _ HC Hp x z Hx Hz Lz).
  assert (A' := Vx y Hy). assert (B' := Vx z Hz). lra.
Qed.

Lemma above_cont (f : R -> R) (a : R) : ex_derive f a -> filterlim f (above a) (locally (f a)).
Proof.
  intros H. apply (filterlim_filter_le_1 (F := locally a)).
  - intros P [e He]. exists e. intros y Hy _. now apply He.
  - now apply (ex_derive_continuous f).
Qed.
Section BetaMedian.
Import Beta.
Context {SP : Special xreal} (Hg : beta_exact SP) (Hi : betainc_exact SP).
Context (a b : R) (Ha : 0 < a) (Hb : 0 < b).
Notation d := (new_unchecked (Fin a) (Fin b)).
Notation cd := (fun x => unwrap (cdf d x)).
Lemma be_med_sym : a = b -> cd (Fin (1 / 2)) = Fin (1 / 2).
Proof.
  intros E. assert (HC := be_coherent Hg a b Ha Hb Hi). assert (HC' := HC). destruct HC' as [C P].
  assert (D : forall x, inside 0 1 x -> is_derive (fun t => 1 - rf cd (1 - t)) x (rf (pdf d) x)).
  { intros x Hx. assert (Hx1 : inside 0 1 (1 - x)) by (apply in01; apply in01f in Hx; lra).
    assert (Ds := pdf_derive _ _ _ _ P (1 - x) Hx1).
    assert (Dc : is_derive (fun t => rf cd (1 - t)) x (-1 * rf (pdf d) (1 - x))).
    { apply (is_derive_comp (rf cd) (fun t => 1 - t)); [exact Ds|]. dder; ring. }
    eapply is_derive_eq; [apply dR_minus; [apply dR_c|exact Dc]|].
    unfold rf. rewrite !be_pdf by auto. cbn [val]. unfold be_u, beta_h. rewrite E. replace (1 - (1 - x)) with x by ring.
    match goal with |- @eq _ ?a ?b => change (@eq R a b) end. ring. }
  assert (L : filterlim (fun t => 1 - rf cd (1 - t)) (above 0) (locally 0)).
  { eapply fl_eq; [apply fl_minus; [apply fl_const|]|]. eapply filterlim_comp; [exact one_minus_right|exact (cdf_upper _ _ _ C)]. ring. }
  assert (Hh : inside 0 1 (1 / 2)) by (apply in01; lra).
  assert (V := cdf_is 0 1 cd (pdf d) _ HC D L (1 / 2) Hh).
  assert (E2 : 1 - rf cd (1 - 1 / 2) = rf cd (1 / 2)) by (unfold rf at 2; rewrite V; reflexivity).
  assert (Eh : 1 - 1 / 2 = 1 / 2) by lra. rewrite V. f_equal. rewrite Eh in *. lra.
Qed.
Lemma be_cdf_a1 x : a = 1 -> 0 < x < 1 -> cd (Fin x) = Fin (1 - Rpower (1 - x) b).
Proof.
  intros E Hx. apply (cdf_is 0 1 cd (pdf d) (fun x => 1 - Rpower (1 - x) b) (be_coherent Hg a b Ha Hb Hi)); [| |now apply in01].
  - intros y Hy. unfold rf. rewrite be_pdf by auto. cbn [val]. apply in01f in Hy. unfold be_u, beta_h.
    assert (EB : Bet a b = / b). { rewrite E. eapply Beta_unique; [apply Bet_spec; lra|now apply Beta_1]. } rewrite EB, E. replace (1 - 1) with 0 by ring. rewrite Rpower_O by lra.
    assert (Rpower (1 - y) (b - 1) = Rpower (1 - y) b / (1 - y)). { unfold Rminus at 2. rewrite Rpower_plus, Rpower_Ropp, Rpower_1 by lra. reflexivity. }
    dder; try lra. rewrite H. field. lra.
  - eapply fl_eq; [apply (above_cont (fun x => 1 - Rpower (1 - x) b))|].
    + eexists. dder; [lra|reflexivity].
    + cbv beta. rewrite Rminus_0_r, Rpower_1_base. ring.
Qed.
Lemma be_cdf_b1 x : b = 1 -> 0 < x < 1 -> cd (Fin x) = Fin (Rpower x a).
Proof.
  intros E Hx. apply (cdf_is 0 1 cd (pdf d) (fun x => Rpower x a) (be_coherent Hg a b Ha Hb Hi)); [| |now apply in01].
  - intros y Hy. unfold rf. rewrite be_pdf by auto. cbn [val]. apply in01f in Hy. unfold be_u, beta_h.
    assert (EB : Bet a b = / a). { rewrite E, Bet_sym by lra. eapply Beta_unique; [apply Bet_spec; lra|now apply Beta_1]. } rewrite EB, E. replace (1 - 1) with 0 by ring. rewrite Rpower_O by lra.
    assert (Rpower y (a - 1) = Rpower y a / y). { unfold Rminus. rewrite Rpower_plus, Rpower_Ropp, Rpower_1 by lra. reflexivity. }
    dder; try lra. rewrite ?H. field. lra.
  - now apply pow_right0.
Qed.
Lemma be_median : a = b \/ (1 / 10000000 <= Rabs (a - b) /\ (a = 1 \/ b = 1)) -> exists m, median d = Ret m /\ returns m (is_median cd).
Proof.
  intros H. unfold median. cbn [pr alpha beta new_unchecked]. xs.
  destruct (Rltb_spec (Rabs (a - b)) (1 / 10000000)) as [L|L].
  { destruct H as [H|[H _]]; [|lra]. xs. eexists; split; [reflexivity|]. eexists; split; [reflexivity|]. now apply be_med_sym. }
  assert (H' : a = 1 \/ b = 1). { destruct H as [H|[_ H]]; [|auto]. rewrite H, Rminus_diag_eq, Rabs_R0 in L by auto. lra. }
  assert (L2 : 0 < Rpower 2 (- 1 / a) < 1 /\ 0 < Rpower 2 (- 1 / b) < 1).
  { assert (N : forall t, 0 < t -> 0 < Rpower 2 (- 1 / t) < 1); [|split; now apply N]. intros t Ht. split; [pos|]. rewrite <- (Rpower_O 2) by lra. apply Rpower_lt; [lra|].
    assert (0 < 1 / t) by pos. replace (- 1 / t) with (- (1 / t)) by (field; lra). lra. }
  assert (P2 : forall t, 0 < t -> Rpower (Rpower 2 (- 1 / t)) t = 1 / 2).
  { intros t Ht. rewrite Rpower_mult. replace (- 1 / t * t) with (- (1)) by (field; lra). rewrite Rpower_Ropp, Rpower_1 by lra. lra. }
  assert (Em : forall t : R, - (1) / t = - 1 / t) by (intros; f_equal; lra).
  xs. rewrite !Em.
  destruct (Rltb_spec 1 a) as [La|La]; destruct (Rltb_spec 1 b) as [Lb|Lb]; cbn [andb]; try (exfalso; lra).
  - destruct (Rltb_spec (Rabs (a - 1)) (1 / 10000000)) as [L1|L1]; [exfalso|].
    + destruct H' as [H'|H']; [lra|]. rewrite H' in L. lra.
    + destruct H' as [H'|H']; [lra|]. rewrite (Rminus_diag_eq b 1), Rabs_R0 by auto. destruct (Rltb_spec 0 (1 / 10000000)); [|lra]. eexists; split; [reflexivity|]. eexists; split; [reflexivity|].
      unfold is_median. rewrite be_cdf_b1 by (auto; apply L2). now rewrite P2.
  - destruct H' as [H'|H']; [|lra]. rewrite (Rminus_diag_eq a 1), Rabs_R0 by auto. destruct (Rltb_spec 0 (1 / 10000000)); [|lra]. eexists; split; [reflexivity|]. eexists; split; [reflexivity|].
    unfold is_median. rewrite be_cdf_a1 by (auto; lra). f_equal. replace (1 - (1 - Rpower 2 (- 1 / b))) with (Rpower 2 (- 1 / b)) by ring. rewrite P2 by auto. lra.
  - destruct H' as [H'|H'].
    + rewrite (Rminus_diag_eq a 1), Rabs_R0 by auto. destruct (Rltb_spec 0 (1 / 10000000)); [|lra]. eexists; split; [reflexivity|]. eexists; split; [reflexivity|].
      unfold is_median. rewrite be_cdf_a1 by (auto; lra). f_equal. replace (1 - (1 - Rpower 2 (- 1 / b))) with (Rpower 2 (- 1 / b)) by ring. rewrite P2 by auto. lra.
    + destruct (Rltb_spec (Rabs (a - 1)) (1 / 10000000)) as [L1|L1]; [exfalso; rewrite H' in L; lra|]. rewrite (Rminus_diag_eq b 1), Rabs_R0 by auto. destruct (Rltb_spec 0 (1 / 10000000)); [|lra].
      eexists; split; [reflexivity|]. eexists; split; [reflexivity|]. unfold is_median. rewrite be_cdf_b1 by (auto; apply L2). now rewrite P2.
Qed.
End BetaMedian.

(** the closed form used for a, b > 1 is only an approximation: Beta(3, 2) *)
Section BetaMedian32.
Import Beta.
Context {SP : Special xreal} (Hg : beta_exact SP) (Hi : betainc_exact SP).
Notation d := (new_unchecked (Fin 3) (Fin 2)).
Notation cd := (fun x => unwrap (cdf d x)).
Lemma be_cdf_32 x : 0 < x < 1 -> cd (Fin x) = Fin (4 * (x * x * x) - 3 * (x * x * x * x)).
Proof.
  intros Hx. apply (cdf_is 0 1 cd (pdf d) (fun x => 4 * (x * x * x) - 3 * (x * x * x * x)) (be_coherent Hg 3 2 ltac:(lra) ltac:(lra) Hi)); [| |now apply in01].
  - intros y Hy. unfold rf. rewrite (be_pdf Hg 3 2) by (auto; lra). cbn [val]. apply in01f in Hy. unfold be_u, beta_h.
    assert (EB : Bet 3 2 = / 12).
    { assert (B12 : Bet 1 2 = / 2) by (eapply Beta_unique; [apply Bet_spec; lra|apply Beta_1; lra]).
      replace 3 with (1 + 1 + 1) by ring. rewrite !Bet_rec, B12 by lra. field. }
    rewrite EB. replace (3 - 1) with (INR 2) by (cbn; ring). replace (2 - 1) with 1 by ring. rewrite Rpower_pow, Rpower_1 by lra. dder. cbn. field.
  - eapply fl_eq; [apply (above_cont (fun x => 4 * (x * x * x) - 3 * (x * x * x * x)))|cbn; ring].
    eexists. dder. reflexivity.
Qed.
Lemma be_median_32 : exists m, median d = Ret (Fin m) /\ 0 < m < 1 /\ cd (Fin m) <> Fin (1 / 2).
Proof.
  unfold median. cbn [pr alpha beta new_unchecked]. xs. unfold Rabs. destruct (Rcase_abs (3 - 2)) as [L|L]; [lra|].
  destruct (Rltb_spec (3 - 2) (1 / 10000000)); [lra|]. destruct (Rltb_spec 1 3); [|lra]. destruct (Rltb_spec 1 2); [|lra]. cbn [andb].
  unfold ONE_THIRD, TWO_THIRDS. xs. eexists; split; [reflexivity|]. split; [lra|]. rewrite be_cdf_32 by lra. intros E. apply Fin_inj in E. lra.
Qed.
End BetaMedian32.
