From Coq Require Import Reals List Lra Lia Bool.
From Coquelicot Require Import Coquelicot.
From Verif.Num Require Import Scalar XReal.
From Verif.Model Require Import Rust Constraints Probability Params Mixture.
From Verif.Spec Require Import DistSpec ResSpec MixSpec ProbSpec.
From Verif.Proofs Require Import XTac Calc SimplexProofs.
Import ListNotations.
Open Scope R_scope.

(** ** weighted sums *)
Lemma wsum_ext {A} (f g : A -> R) : forall cs ws, Forall (fun c => f c = g c) cs -> wsum ws (map f cs) = wsum ws (map g cs).
Proof. induction cs as [|c cs IH]; intros [|w ws] H; cbn [wsum map]; auto. inversion H; subst. rewrite (IH ws); congruence. Qed.
Lemma wsum_const {A} (a : R) : forall (cs : list A) ws, length cs = length ws -> wsum ws (map (fun _ => a) cs) = rsum ws * a.
Proof. induction cs as [|c cs IH]; intros [|w ws] H; cbn [wsum map rsum length] in *; try lia; [lra|]. rewrite IH by lia. lra. Qed.
Lemma wsum_plus {A} (f g : A -> R) : forall cs ws, wsum ws (map (fun c => f c + g c) cs) = wsum ws (map f cs) + wsum ws (map g cs).
Proof. induction cs as [|c cs IH]; intros [|w ws]; cbn [wsum map]; try lra. rewrite IH. lra. Qed.
Lemma wsum_scal {A} (f : A -> R) (a : R) : forall cs ws, wsum ws (map (fun c => a * f c) cs) = a * wsum ws (map f cs).
Proof. induction cs as [|c cs IH]; intros [|w ws]; cbn [wsum map]; try lra. rewrite IH. lra. Qed.
Lemma wsum_le {A} (f g : A -> R) : forall cs ws, Forall (fun w => 0 <= w) ws -> Forall (fun c => f c <= g c) cs ->
  wsum ws (map f cs) <= wsum ws (map g cs).
Proof.
  induction cs as [|c cs IH]; intros [|w ws] Hw H; cbn [wsum map]; try lra. inversion Hw; inversion H; subst.
  specialize (IH ws H3 H7). assert (w * f c <= w * g c) by (apply Rmult_le_compat_l; lra). lra.
Qed.
Lemma wsum_between {A} (f : A -> R) a b cs ws : length cs = length ws -> Forall (fun w => 0 <= w) ws -> rsum ws = 1 ->
  Forall (fun c => a <= f c <= b) cs -> a <= wsum ws (map f cs) <= b.
Proof.
  intros L W S1 H. split.
  - replace a with (wsum ws (map (fun _ => a) cs)) by (rewrite wsum_const by auto; rewrite S1; ring). apply wsum_le; auto.
    eapply Forall_impl; [|exact H]; intros c Hc; cbv beta in Hc; lra.
  - replace b with (wsum ws (map (fun _ => b) cs)) by (rewrite wsum_const by auto; rewrite S1; ring). apply wsum_le; auto.
    eapply Forall_impl; [|exact H]; intros c Hc; cbv beta in Hc; lra.
Qed.

Section Mix.
Context {S C CP Sp : Type} {K : Component xreal S C CP Sp xreal}.

Lemma weighted_sum_fin (g : C -> res xreal) (v : C -> R) : forall cs ws a, length cs = length ws ->
  Forall (fun c => g c = Ret (Fin (v c))) cs ->
  Mixture.weighted_sum (Fin a) g cs (map Fin ws) = Ret (Fin (a + wsum ws (map v cs))).
Proof.
  induction cs as [|c cs IH]; intros [|w ws] a L H; cbn [length] in L; try lia; cbn [Mixture.weighted_sum map wsum].
  - now rewrite Rplus_0_r.
  - inversion H; subst. rewrite H2. cbn [rbind]. xs. rewrite IH by (auto; lia). do 2 f_equal. lra.
Qed.

(** ** construction *)
Lemma x_loop : forall ws z r, simplex_loop (Fin z) (map Fin ws) = Ok r ->
  r = Fin (z + rsum ws) /\ Forall (fun w => 0 <= w <= 1) ws.
Proof.
  induction ws as [|w ws IH]; intros z r H; cbn [simplex_loop map rsum] in *.
  - inversion H. split; [now rewrite Rplus_0_r|constructor].
  - unfold p_new in H. rewrite !x_lit in H. rewrite !x_leb in H.
    destruct (Rleb_spec 0 w); cbn [andb and_then] in H; [|discriminate].
    destruct (Rleb_spec w 1); cbn [andb and_then unwrap] in H; [|discriminate].
    rewrite x_add in H. apply IH in H as [-> HF]. split; [f_equal; lra|]. constructor; auto.
Qed.
Lemma x_loop_ok : forall ws z, Forall (fun w => 0 <= w <= 1) ws -> simplex_loop (Fin z) (map Fin ws) = Ok (Fin (z + rsum ws)).
Proof.
  induction ws as [|w ws IH]; intros z H; cbn [simplex_loop map rsum].
  - now rewrite Rplus_0_r.
  - inversion H; subst. unfold p_new. xs. xb. cbn [and_then unwrap]. xs. rewrite IH by auto. do 2 f_equal. lra.
Qed.
Definition simplexR (ws : list R) : Prop := Forall (fun w => 0 <= w <= 1) ws /\ Rabs (rsum ws - 1) < 1 / 100000.
Lemma x_simplex_inv ws q : simplex_new (map Fin ws) = Ok q -> q = map Fin ws /\ simplexR ws.
Proof.
  unfold simplex_new, simplex_try_from. rewrite x_lit. destruct (simplex_loop (Fin 0) (map Fin ws)) as [z|] eqn:E; cbn [and_then]; [|discriminate].
  apply x_loop in E as [-> HF]. xs. destruct (Rltb_spec (Rabs (0 + rsum ws - 1)) (1 / 100000)); [|discriminate].
  intros HQ; inversion HQ. split; auto. split; auto. now rewrite Rplus_0_l in *.
Qed.
Lemma x_simplex_ok ws : simplexR ws -> simplex_new (map Fin ws) = Ok (map Fin ws).
Proof.
  intros [H1 H2]. unfold simplex_new, simplex_try_from. rewrite x_lit, x_loop_ok by auto. cbn [and_then]. xs.
  rewrite Rltb_true; auto. now rewrite Rplus_0_l.
Qed.
Lemma mix_new_inv (ws : list R) (cs : list C) d : Mixture.new (map Fin ws) cs = Ret (Ok d) ->
  length cs = length ws /\ simplexR ws /\ exists c cs', cs = c :: cs' /\
  d = Mixture.mk (map Fin ws) cs (fold_left (fun acc c => c_union acc (c_support c)) cs' (c_support c)).
Proof.
  unfold Mixture.new. rewrite map_length. destruct (Nat.eqb_spec (length cs) (length ws)); [|discriminate].
  destruct cs as [|c cs]; [discriminate|]. cbn [Mixture.compute_support rbind].
  destruct (simplex_new (map Fin ws)) eqn:E; cbn [map_err and_then]; [|discriminate].
  apply x_simplex_inv in E as [-> HS]. intros H; inversion H. repeat split; auto; try apply HS. eexists _, _. eauto.
Qed.

(** ** cdf, pdf *)
Definition ccdf_ (c : C) (x : xreal) := gotp (c_cdf c x).
Definition cpdf_ (c : C) (x : xreal) := got (c_pdf c x).
Lemma gotp_fin (r : res (Probability xreal)) p : gotp r = Fin p -> r = Ret (Prob (Fin p)).
Proof. destruct r as [[q]| |]; cbn; congruence. Qed.
Lemma got_fin (r : res xreal) p : got r = Fin p -> r = Ret (Fin p).
Proof. destruct r; cbn; congruence. Qed.

Lemma mix_cdf_eq ws cs s x : length cs = length ws -> Forall (fun c => exists p, ccdf_ c (Fin x) = Fin p) cs ->
  Mixture.cdf (Mixture.mk (map Fin ws) cs s) (Fin x) = Ret (Prob (Fin (wsum ws (map (fun c => rf (ccdf_ c) x) cs)))).
Proof.
  intros L H. unfold Mixture.cdf. cbn [Mixture.components Mixture.weights]. rewrite x_lit.
  rewrite (weighted_sum_fin _ (fun c => rf (ccdf_ c) x)); auto.
  - cbn [rbind]. now rewrite Rplus_0_l.
  - eapply Forall_impl; [|exact H]. intros c [p E]. cbv beta. unfold rf. rewrite E. cbn [val]. apply gotp_fin in E. now rewrite E.
Qed.
Lemma mix_pdf_eq ws cs s x : length cs = length ws -> Forall (fun c => exists p, cpdf_ c (Fin x) = Fin p) cs ->
  Mixture.pdf (Mixture.mk (map Fin ws) cs s) (Fin x) = Ret (Fin (wsum ws (map (fun c => rf (cpdf_ c) x) cs))).
Proof.
  intros L H. unfold Mixture.pdf. cbn [Mixture.components Mixture.weights]. rewrite x_lit.
  rewrite (weighted_sum_fin _ (fun c => rf (cpdf_ c) x)); auto.
  - now rewrite Rplus_0_l.
  - eapply Forall_impl; [|exact H]. intros c [p E]. cbv beta. unfold rf. rewrite E. cbn [val]. apply got_fin in E. now rewrite E.
Qed.

(** limits, derivatives and integrals of weighted sums *)
Lemma wsum_lim {T} (F : (T -> Prop) -> Prop) {FF : Filter F} (f : C -> T -> R) (l : R) : forall cs ws, length cs = length ws ->
  Forall (fun c => filterlim (f c) F (locally l)) cs ->
  filterlim (fun x => wsum ws (map (fun c => f c x) cs)) F (locally (rsum ws * l)).
Proof.
  induction cs as [|c cs IH]; intros [|w ws] L H; cbn [length] in L; try lia; cbn [map wsum rsum].
  - rewrite Rmult_0_l. apply fl_const.
  - inversion H; subst. eapply fl_eq; [eapply fl_plus; [apply fl_mult; [apply fl_const|exact H2]|apply IH; [lia|auto]]|ring].
Qed.
Lemma wsum_derive (f g : C -> R -> R) x : forall cs ws, length cs = length ws ->
  Forall (fun c => is_derive (f c) x (g c x)) cs ->
  is_derive (fun y => wsum ws (map (fun c => f c y) cs)) x (wsum ws (map (fun c => g c x) cs)).
Proof.
  induction cs as [|c cs IH]; intros [|w ws] L H; cbn [length] in L; try lia; cbn [map wsum].
  - apply dR_c.
  - inversion H; subst. apply dR_plus; [|apply IH; [lia|auto]].
    eapply is_derive_eq; [apply dR_mult; [apply dR_c|exact H2]|]. lra.
Qed.
Lemma wsum_int (f : C -> R -> R) (v : C -> R) (Fa Fb : (R -> Prop) -> Prop) {FFa : Filter Fa} {FFb : Filter Fb} : forall cs ws, length cs = length ws ->
  Forall (fun c => is_RInt_gen (f c) Fa Fb (v c)) cs ->
  is_RInt_gen (fun y => wsum ws (map (fun c => f c y) cs)) Fa Fb (wsum ws (map v cs)).
Proof.
  induction cs as [|c cs IH]; intros [|w ws] L H; cbn [length] in L; try lia; cbn [map wsum].
  - intros P HP. unfold filtermapi. apply filter_forall. intros [a b]. exists 0. split; [|now apply locally_singleton].
    cbn [fst snd]. pose proof (is_RInt_const (V := R_NormedModule) a b 0) as A. change (scal (b - a) 0) with ((b - a) * 0) in A. now rewrite Rmult_0_r in A.
  - inversion H; subst.
    apply (is_RInt_gen_plus (V := R_NormedModule) (fun y => w * f c y) (fun y => wsum ws (map (fun c => f c y) cs)) (w * v c) (wsum ws (map v cs))).
    + apply (is_RInt_gen_scal (V := R_NormedModule) (f c) w (v c)). exact H2.
    + apply IH; [lia|auto].
Qed.

Section Coh.
Context (lo hi : Rbar) (ws : list R) (cs : list C) (sup : Sp).
Context (L : length cs = length ws) (W : simplexR ws) (Hlt : Rbar_lt lo hi).
Context (HC : Forall (fun c => coherent lo hi (ccdf_ c) (cpdf_ c)) cs).
Let d := Mixture.mk (map Fin ws) cs sup.
Let cdf := fun x => gotp (Mixture.cdf d x).
Let pdf := fun x => got (Mixture.pdf d x).
Lemma W0 : Forall (fun w => 0 <= w) ws.
Proof. eapply Forall_impl; [|apply W]. cbv beta. intros; lra. Qed.
Lemma mcdf x : inside lo hi x -> cdf (Fin x) = Fin (wsum ws (map (fun c => rf (ccdf_ c) x) cs)).
Proof.
  intros Hx. unfold cdf, d. rewrite mix_cdf_eq; auto. eapply Forall_impl; [|exact HC]. intros c [[A _ _ _] _].
  destruct (A x Hx) as (p & E & _). eauto.
Qed.
Lemma mpdf x : inside lo hi x -> pdf (Fin x) = Fin (wsum ws (map (fun c => rf (cpdf_ c) x) cs)).
Proof.
  intros Hx. unfold pdf, d. rewrite mix_pdf_eq; auto. eapply Forall_impl; [|exact HC]. intros c [_ [A _ _]].
  destruct (A x Hx) as (p & E & _). eauto.
Qed.
Lemma rcdf x : inside lo hi x -> rf cdf x = wsum ws (map (fun c => rf (ccdf_ c) x) cs).
Proof. intros H. unfold rf at 1. now rewrite mcdf. Qed.
Lemma rpdf x : inside lo hi x -> rf pdf x = wsum ws (map (fun c => rf (cpdf_ c) x) cs).
Proof. intros H. unfold rf at 1. now rewrite mpdf. Qed.
Lemma mcdf_upper : filterlim (rf cdf) (below hi) (locally (rsum ws)).
Proof.
  apply (filterlim_ext_below lo hi _ (fun x => wsum ws (map (fun c => rf (ccdf_ c) x) cs))); auto; [intros; now apply rcdf|].
  replace (rsum ws) with (rsum ws * 1) by ring.
  apply (wsum_lim (below hi) (fun c => rf (ccdf_ c))); auto. eapply Forall_impl; [|exact HC]. intros c [[_ _ _ A] _]. exact A.
Qed.
Lemma mix_is_pdf : rsum ws = 1 -> coherent lo hi cdf pdf.
Proof.
  intros S1. split; split.
  - intros x Hx. eexists. split; [now apply mcdf|]. apply wsum_between; auto using W0.
    eapply Forall_impl; [|exact HC]. intros c [[A _ _ _] _]. destruct (A x Hx) as (p & E & Hp). unfold rf. now rewrite E.
  - intros x y Hx Hy Hxy. rewrite !rcdf by auto. apply wsum_le; auto using W0.
    eapply Forall_impl; [|exact HC]. intros c [[_ A _ _] _]. auto.
  - apply (filterlim_ext_above lo hi _ (fun x => wsum ws (map (fun c => rf (ccdf_ c) x) cs))); auto; [intros; now apply rcdf|].
    replace 0 with (rsum ws * 0) by ring. apply (wsum_lim (above lo) (fun c => rf (ccdf_ c))); auto.
    eapply Forall_impl; [|exact HC]. intros c [[_ _ A _] _]. exact A.
  - rewrite <- S1. apply mcdf_upper.
  - intros x Hx. eexists. split; [now apply mpdf|].
    replace 0 with (wsum ws (map (fun _ : C => 0) cs)) by (rewrite wsum_const by auto; ring). apply wsum_le; auto using W0.
    eapply Forall_impl; [|exact HC]. intros c [_ [A _ _]]. destruct (A x Hx) as (p & E & Hp). unfold rf. now rewrite E.
  - intros x Hx. rewrite rpdf by auto. eapply is_derive_ext_loc.
    + generalize (locally_inside lo hi x Hx). apply filter_imp. intros y Hy. symmetry. now apply rcdf.
    + apply (wsum_derive (fun c => rf (ccdf_ c)) (fun c => rf (cpdf_ c)) x); auto. eapply Forall_impl; [|exact HC]. intros c [_ [_ A _]]. auto.
  - apply (is_RInt_gen_inside lo hi _ (fun x => wsum ws (map (fun c => rf (cpdf_ c) x) cs))); auto; [intros; now apply rpdf|].
    replace 1 with (wsum ws (map (fun _ : C => 1) cs)) by (rewrite wsum_const by auto; rewrite S1; ring).
    apply (wsum_int (fun c => rf (cpdf_ c)) (fun _ => 1)); auto; try (destruct lo; typeclasses eauto); try (destruct hi; typeclasses eauto).
    eapply Forall_impl; [|exact HC]. intros c [_ [_ _ A]]. exact A.
Qed.
(** expectations *)
Lemma mix_expectation (g : R -> R) (v : C -> R) : Forall (fun c => is_expectation lo hi (cpdf_ c) g (v c)) cs ->
  is_expectation lo hi pdf g (wsum ws (map v cs)).
Proof.
  intros HE. unfold is_expectation.
  apply (is_RInt_gen_inside lo hi _ (fun x => wsum ws (map (fun c => g x * rf (cpdf_ c) x) cs))); auto.
  - intros x Hx. rewrite rpdf by auto. symmetry. apply (wsum_scal (fun c => rf (cpdf_ c) x) (g x)).
  - apply (wsum_int (fun c x => g x * rf (cpdf_ c) x) v); auto; try (destruct lo; typeclasses eauto); try (destruct hi; typeclasses eauto).
Qed.
End Coh.

(** ** moments *)
Lemma var_fold_fin (m v : C -> R) : forall cs ws a b, length cs = length ws ->
  Forall (fun c => c_mean c = Ret (Fin (m c)) /\ c_variance c = Ret (Fin (v c))) cs ->
  Mixture.var_fold (Fin a, Fin b) cs (map Fin ws) =
  Ret (Fin (a + wsum ws (map m cs)), Fin (b + wsum ws (map (fun c => m c * m c + v c) cs))).
Proof.
  induction cs as [|c cs IH]; intros [|w ws] a b L H; cbn [length] in L; try lia; cbn [Mixture.var_fold map wsum].
  - now rewrite !Rplus_0_r.
  - inversion H; subst. destruct H2 as [E1 E2]. rewrite E1, E2. cbn [rbind fst snd]. xs. rewrite IH by (auto; lia). f_equal. f_equal; f_equal; lra.
Qed.
Lemma mix_mean ws cs s (m : C -> R) : length cs = length ws -> Forall (fun c => c_mean c = Ret (Fin (m c))) cs ->
  Mixture.mean (Mixture.mk (map Fin ws) cs s) = Ret (Fin (wsum ws (map m cs))).
Proof. intros L H. unfold Mixture.mean. cbn [Mixture.components Mixture.weights]. rewrite x_lit, (weighted_sum_fin _ m) by auto. now rewrite Rplus_0_l. Qed.
Lemma mix_variance ws cs s (m v : C -> R) : length cs = length ws -> rsum ws = 1 ->
  Forall (fun c => c_mean c = Ret (Fin (m c)) /\ c_variance c = Ret (Fin (v c))) cs ->
  Mixture.variance (Mixture.mk (map Fin ws) cs s) =
  Ret (Fin (wsum ws (map (fun c => v c + (m c - wsum ws (map m cs)) ^ 2) cs))).
Proof.
  intros L S1 H. unfold Mixture.variance. cbn [Mixture.components Mixture.weights]. rewrite x_lit, (var_fold_fin m v) by auto.
  cbn [rbind]. xs. rewrite !Rplus_0_l. do 2 f_equal. set (M := wsum ws (map m cs)).
  rewrite (wsum_ext (fun c => v c + (m c - M) ^ 2) (fun c => (m c * m c + v c) + (- 2 * M * m c + M * M))) by (apply Forall_forall; intros; ring).
  rewrite (wsum_plus (fun c => m c * m c + v c)). rewrite (wsum_plus (fun c => -2 * M * m c)). rewrite (wsum_scal m), (wsum_const (M * M)) by auto. rewrite S1. fold M. ring.
Qed.

(** ** From<Params> *)
Lemma set_cell_app (c : C) : forall l l' o, Mixture.set_cell (length l) c (l ++ o :: l') = Some (l ++ Some c :: l').
Proof. induction l as [|a l IH]; intros l' o; cbn [length Mixture.set_cell app]; [reflexivity|]. now rewrite IH. Qed.
Lemma set_cell_end (c : C) : forall l, Mixture.set_cell (length l) c l = None.
Proof. induction l as [|a l IH]; cbn [length Mixture.set_cell]; [reflexivity|]. now rewrite IH. Qed.
Lemma write_all_le : forall (cs : list C) l k, (length cs <= k)%nat ->
  Mixture.write_all (length l) cs (l ++ repeat None k) = Ret (l ++ map Some cs ++ repeat None (k - length cs)).
Proof.
  induction cs as [|c cs IH]; intros l k H; cbn [Mixture.write_all length map app] in *.
  - now rewrite Nat.sub_0_r.
  - destruct k as [|k]; [lia|]. cbn [repeat]. rewrite set_cell_app.
    change (l ++ Some c :: repeat None k) with (l ++ [Some c] ++ repeat None k). rewrite app_assoc.
    replace (Datatypes.S (length l)) with (length (l ++ [Some c])) by (rewrite app_length; cbn; lia).
    rewrite IH by lia. cbn [Nat.sub]. now rewrite <- app_assoc.
Qed.
Lemma write_all_gt : forall (cs : list C) l k, (k < length cs)%nat -> Mixture.write_all (length l) cs (l ++ repeat None k) = Panic.
Proof.
  induction cs as [|c cs IH]; intros l k H; cbn [Mixture.write_all length] in *; [lia|].
  destruct k as [|k]; cbn [repeat].
  - rewrite app_nil_r. now rewrite set_cell_end.
  - rewrite set_cell_app. change (l ++ Some c :: repeat None k) with (l ++ [Some c] ++ repeat None k). rewrite app_assoc.
    replace (Datatypes.S (length l)) with (length (l ++ [Some c])) by (rewrite app_length; cbn; lia). apply IH. lia.
Qed.
Lemma read_all_some : forall (cs : list C), Mixture.read_all (map Some cs) = Some cs.
Proof. induction cs as [|c cs IH]; cbn [Mixture.read_all map]; [reflexivity|]. now rewrite IH. Qed.
Lemma read_all_none : forall (cs : list C) k, Mixture.read_all (map Some cs ++ repeat None (Datatypes.S k)) = None.
Proof. induction cs as [|c cs IH]; intros k; cbn [Mixture.read_all map app]; [reflexivity|]. now rewrite IH. Qed.
End Mix.
