(** * Properties C57-C60: Mixture, for any component type *)
From Coq Require Import Reals Lra Lia List ZArith.
From Coquelicot Require Import Coquelicot.
From Verif.Num Require Import Scalar XReal.
From Verif.Model Require Import Rust Constraints Probability Params Consts Continuous2 Mixture.
From Verif.Spec Require Import DistSpec ResSpec ProbSpec MixSpec.
From Verif.Proofs Require Import XTac Calc Gauss Gauss2 SimplexProofs ContProofs8 ContProofs9 ContProofs10 MixtureProofs.
From Verif.Properties Require Import C41_C47_Continuous.
Import ListNotations.
Open Scope R_scope.

(** the functions computed by a component / by the mixture; NaN if the method panics *)
Notation ccdf c := (fun x => gotp (c_cdf c x)).
Notation cpdf c := (fun x => got (c_pdf c x)).
Notation mcdf d := (fun x => gotp (Mixture.cdf d x)).
Notation mpdf d := (fun x => got (Mixture.pdf d x)).

(** C57. Weights summing to exactly 1. *)
Theorem C57_mixture_cdf_pdf_partial {S C CP Sp : Type} {K : Component xreal S C CP Sp xreal} (ws : list R) (cs : list C) d :
  Mixture.new (map Fin ws) cs = Ret (Ok d) -> rsum ws = 1 ->
  (* at any x: between the smallest and the largest component value *)
  (forall (x a b : R), Forall (fun c => exists p, c_cdf c (Fin x) = Ret (Prob (Fin p)) /\ a <= p <= b) cs ->
     exists p, Mixture.cdf d (Fin x) = Ret (Prob (Fin p)) /\ a <= p <= b) /\
  (* monotone where the components are *)
  (forall x y : R, Forall (fun c => exists p q, c_cdf c (Fin x) = Ret (Prob (Fin p)) /\ c_cdf c (Fin y) = Ret (Prob (Fin q)) /\ p <= q) cs ->
     exists p q, Mixture.cdf d (Fin x) = Ret (Prob (Fin p)) /\ Mixture.cdf d (Fin y) = Ret (Prob (Fin q)) /\ p <= q) /\
  (* a coherent distribution if every component is one on the same interval *)
  (forall lo hi, Rbar_lt lo hi -> Forall (fun c => coherent lo hi (ccdf c) (cpdf c)) cs -> coherent lo hi (mcdf d) (mpdf d)) /\
  (* cdf and pdf are the weighted averages *)
  (forall (x : R) (vs : list R), Forall2 (fun c v => c_cdf c (Fin x) = Ret (Prob (Fin v))) cs vs -> Mixture.cdf d (Fin x) = Ret (Prob (Fin (wsum ws vs)))) /\
  (forall (x : R) (vs : list R), Forall2 (fun c v => c_pdf c (Fin x) = Ret (Fin v)) cs vs -> Mixture.pdf d (Fin x) = Ret (Fin (wsum ws vs))).
Proof.
  intros H S1. apply mix_new_inv in H as (L & W & c0 & cs' & _ & ->).
  pose proof (W0 ws W) as WN.
  assert (FM : forall (P : C -> R -> Prop) (f : C -> R), (forall c v, P c v -> f c = v) -> forall l vs, Forall2 P l vs -> vs = map f l).
  { intros P f Hf l vs H2. induction H2; cbn [map]; [reflexivity|]. f_equal; auto. symmetry; auto. }
  split; [|split; [|split; [|split]]].
  - intros x a b H. rewrite mix_cdf_eq; auto.
    + eexists. split; [reflexivity|]. apply wsum_between; auto. eapply Forall_impl; [|exact H]. intros c (p & E & Hp). unfold rf, ccdf_. rewrite E. exact Hp.
    + eapply Forall_impl; [|exact H]. intros c (p & E & _). exists p. unfold ccdf_. now rewrite E.
  - intros x y H. rewrite !mix_cdf_eq; auto.
    + eexists _, _. split; [reflexivity|]. split; [reflexivity|]. apply wsum_le; auto. eapply Forall_impl; [|exact H].
      intros c (p & q & E & E2 & Hp). unfold rf, ccdf_. rewrite E, E2. exact Hp.
    + eapply Forall_impl; [|exact H]. intros c (p & q & E & E2 & _). exists q. unfold ccdf_. now rewrite E2.
    + eapply Forall_impl; [|exact H]. intros c (p & q & E & E2 & _). exists p. unfold ccdf_. now rewrite E.
  - intros lo hi Hlt HC. now apply mix_is_pdf.
  - intros x vs HV. rewrite mix_cdf_eq; auto.
    + assert (EV : vs = map (fun c => rf (ccdf_ c) x) cs); [|now rewrite EV]. eapply FM; [|exact HV]. intros c v E. cbv beta in E. unfold rf, ccdf_; rewrite E; reflexivity.
    + clear -HV. induction HV; constructor; auto. eexists. unfold ccdf_. rewrite H. reflexivity.
  - intros x vs HV. rewrite mix_pdf_eq; auto.
    + assert (EV : vs = map (fun c => rf (cpdf_ c) x) cs); [|now rewrite EV]. eapply FM; [|exact HV]. intros c v E. cbv beta in E. unfold rf, cpdf_; rewrite E; reflexivity.
    + clear -HV. induction HV; constructor; auto. eexists. unfold cpdf_. rewrite H. reflexivity.
Qed.
Print Assumptions C57_mixture_cdf_pdf_partial.

(** Accepted weights may sum to more than 1 (SimplexVector tolerates 1e-5); then
    cdf exceeds 1, whatever the components. *)
Theorem C57_cdf_exceeds_one_refuted {S C CP Sp : Type} {K : Component xreal S C CP Sp xreal} :
  (forall (lo hi : Rbar) (ws : list R) (cs : list C) d, Mixture.new (map Fin ws) cs = Ret (Ok d) ->
     1 < rsum ws -> Rbar_lt lo hi -> Forall (fun c => coherent lo hi (ccdf c) (cpdf c)) cs ->
     exists x p, inside lo hi x /\ Mixture.cdf d (Fin x) = Ret (Prob (Fin p)) /\ 1 < p) /\
  (forall c1 c2 : C, exists d, Mixture.new (map Fin [1; 1/200000]) [c1; c2] = Ret (Ok d) /\ 1 < rsum [1; 1/200000]).
Proof.
  split.
  - intros lo hi ws cs d H S1 Hlt HC. apply mix_new_inv in H as (L & W & c0 & cs' & _ & ->).
    assert (HN : hi <> m_infty) by (intros ->; destruct lo; cbn in *; contradiction).
    set (dd := Mixture.mk _ _ _).
    assert (FL : filterlim (rf (mcdf dd)) (below hi) (locally (rsum ws))) by (now apply (mcdf_upper lo hi ws cs)).
    assert (EV : below hi (fun x => 1 < rf (mcdf dd) x)).
    { apply (FL (fun y => 1 < y)). now apply (open_gt 1). }
    destruct (filter_ex (F := below hi) _ (filter_and _ _ EV (below_inside lo hi Hlt HN))) as (x & H1 & H2).
    exists x. eexists. split; [exact H2|].
    pose proof (MixtureProofs.mcdf lo hi ws cs (fold_left (fun acc c => c_union acc (c_support c)) cs' (c_support c0)) L HC x H2) as E.
    fold dd in E. cbv beta in E. unfold rf in H1. rewrite E in H1. cbn [val] in H1. apply gotp_fin in E. split; [exact E|exact H1].
  - intros c1 c2. eexists. unfold Mixture.new. cbn [length map Nat.eqb Mixture.compute_support rbind fold_left].
    change [Fin 1; Fin (1 / 200000)] with (map Fin [1; 1 / 200000]). rewrite x_simplex_ok.
    + cbn [map_err and_then]. split; [reflexivity|cbn; lra].
    + split; [repeat constructor; lra|]. cbn [rsum]. rewrite Rabs_right; lra.
Qed.
Print Assumptions C57_cdf_exceeds_one_refuted.

(** the weights summing to 1 exactly are accepted; mixtures of normal distributions are covered *)
Example C57_nonvacuous {S C CP Sp : Type} {K : Component xreal S C CP Sp xreal} (c1 c2 c3 : C) :
  exists d, Mixture.new (map Fin [1/5; 1/2; 3/10]) [c1; c2; c3] = Ret (Ok d) /\ rsum [1/5; 1/2; 3/10] = 1.
Proof.
  eexists. unfold Mixture.new. cbn [length map Nat.eqb Mixture.compute_support rbind fold_left].
  change [Fin (1/5); Fin (1 / 2); Fin (3/10)] with (map Fin [1/5; 1/2; 3/10]). rewrite x_simplex_ok.
  - cbn [map_err and_then]. split; [reflexivity|cbn; lra].
  - split; [repeat constructor; lra|]. cbn [rsum]. replace (1 / 5 + (1 / 2 + (3 / 10 + 0)) - 1) with 0 by lra. rewrite Rabs_R0. lra.
Qed.
Theorem C57_normal_mixture {S : Type} {RG : Rng S xreal} {SP : Special xreal} (ws : list R) (cs : list (UvNormal.t xreal)) d :
  (forall x, sf_norm (Fin x) = Fin (Phi x)) ->
  (forall p, 0 < p < 1 -> exists q, sf_norm_inv (Fin p) = Fin q /\ Phi q = p) ->
  Mixture.new (K := normal_component) (map Fin ws) cs = Ret (Ok d) -> rsum ws = 1 ->
  Forall (fun c => exists m s2, UvNormal.new (Fin m) (Fin s2) = Ok c) cs ->
  coherent m_infty p_infty (fun x => gotp (Mixture.cdf (K := normal_component) d x)) (fun x => got (Mixture.pdf (K := normal_component) d x)).
Proof.
  intros HN HI H S1 HC. apply (C57_mixture_cdf_pdf_partial (K := normal_component) ws cs d H S1); [exact I|].
  eapply Forall_impl; [|exact HC]. intros c (m & s2 & E). apply (C46_normal m s2 c HN HI E).
Qed.
Print Assumptions C57_normal_mixture.

(** C58. *)
Theorem C58_mixture_moments {S C CP Sp : Type} {K : Component xreal S C CP Sp xreal} (ws : list R) (cs : list C) (m v : C -> R) d :
  Mixture.new (map Fin ws) cs = Ret (Ok d) -> rsum ws = 1 ->
  Forall (fun c => c_mean c = Ret (Fin (m c)) /\ c_variance c = Ret (Fin (v c))) cs ->
  let M := wsum ws (map m cs) in let V := wsum ws (map (fun c => v c + (m c - M) ^ 2) cs) in
  Mixture.mean d = Ret (Fin M) /\ Mixture.variance d = Ret (Fin V) /\
  wsum ws (map v cs) <= V /\ (Forall (fun c => 0 <= v c) cs -> 0 <= V) /\
  (* these are the mean and variance of the mixture's own density *)
  (forall lo hi, Rbar_lt lo hi -> Forall (fun c => coherent lo hi (ccdf c) (cpdf c) /\ is_variance lo hi (cpdf c) (m c) (v c)) cs ->
     is_variance lo hi (mpdf d) M V).
Proof.
  intros H S1 HM M V. apply mix_new_inv in H as (L & W & c0 & cs' & _ & ->). pose proof (W0 ws W) as WN.
  split; [apply mix_mean; auto; eapply Forall_impl; [|exact HM]; intros c Hc; apply Hc|].
  split; [now apply mix_variance|].
  assert (LE : wsum ws (map v cs) <= V).
  { apply wsum_le; auto. apply Forall_forall. intros c _. pose proof (pow2_ge_0 (m c - M)). lra. }
  split; [exact LE|]. split.
  - intros HV. apply Rle_trans with (2 := LE). replace 0 with (wsum ws (map (fun _ : C => 0) cs)) by (rewrite wsum_const by auto; ring). now apply wsum_le.
  - intros lo hi Hlt HC.
    assert (HC1 : Forall (fun c => coherent lo hi (ccdf c) (cpdf c)) cs) by (eapply Forall_impl; [|exact HC]; intros c Hc; apply Hc).
    set (sup := fold_left _ _ _). split.
    + apply (mix_expectation lo hi ws cs sup L Hlt HC1 (fun x => x) m). eapply Forall_impl; [|exact HC]. intros c (_ & A & _). exact A.
    + apply (mix_expectation lo hi ws cs sup L Hlt HC1 (fun x => (x - M) * (x - M)) (fun c => v c + (m c - M) ^ 2)).
      eapply Forall_impl; [|exact HC]. intros c ([_ [_ _ T]] & A & B). cbv beta.
      change (is_expectation lo hi (cpdf c) (fun x => x) (m c)) in A.
      assert (T1 : is_expectation lo hi (cpdf c) (fun _ => 1) 1).
      { unfold is_expectation. apply (is_RInt_gen_inside lo hi _ (rf (cpdf c))); auto. intros; ring. }
      eapply exp_eq; [eapply (exp_ext lo hi (cpdf c) _ (fun x => ((x - m c) * (x - m c) + 2 * (m c - M) * x) + (M * M - m c * m c) * 1)); [intros; ring|]|].
      * apply exp_plus_; [apply exp_plus_; [exact B|apply exp_scal; exact A]|apply exp_scal; exact T1].
      * ring.
Qed.
Print Assumptions C58_mixture_moments.
(** the remaining moments are not implemented *)
Theorem C58_higher_moments_panic {F S C CP Sp X : Type} {SF : Scalar F} {K : Component F S C CP Sp X} (d : Mixture.t (F := F) (C := C) (Sp := Sp)) :
  Mixture.skewness d = Panic /\ Mixture.kurtosis d = Panic.
Proof. split; reflexivity. Qed.
Example C58_nonvacuous {S : Type} {RG : Rng S xreal} {SP : Special xreal} : exists d,
  Mixture.new (K := normal_component) (map Fin [1/5; 1/2; 3/10]) [UvNormal.new_unchecked (Fin (-2)) (Fin 1.44); UvNormal.new_unchecked (Fin 0) (Fin 1); UvNormal.new_unchecked (Fin 3) (Fin 6.25)] = Ret (Ok d) /\
  Mixture.mean (K := normal_component) d = Ret (Fin (1/2)) /\ Mixture.variance (K := normal_component) d = Ret (Fin 5.913).
Proof.
  destruct (C57_nonvacuous (K := normal_component) (UvNormal.new_unchecked (Fin (-2)) (Fin 1.44)) (UvNormal.new_unchecked (Fin 0) (Fin 1)) (UvNormal.new_unchecked (Fin 3) (Fin 6.25))) as (d & E & S1).
  exists d. split; [exact E|].
  destruct (C58_mixture_moments (K := normal_component) _ _ (fun c => val (UvNormal.mean c)) (fun c => val (UvNormal.variance c)) d E S1) as (A & B & _).
  - repeat constructor.
  - rewrite A, B. cbn [map wsum val UvNormal.mean UvNormal.variance UvNormal.pr UvNormal.mu UvNormal.Sigma UvNormal.new_unchecked]. split; do 2 f_equal; lra.
Qed.

(** C59. Construction. *)
Theorem C59_new {F S C CP Sp X : Type} {SF : Scalar F} {K : Component F S C CP Sp X} (n : nat) (ws : list F) (cs : list C) :
  length ws = n -> length cs = n -> (0 < n)%nat ->
  (forall q, simplex_new ws = Ok q -> exists d, Mixture.new ws cs = Ret (Ok d) /\ Mixture.weights d = q /\ Mixture.components d = cs /\
     Mixture.new_unchecked q cs = Ret d) /\
  (forall e, simplex_new ws = Err e -> Mixture.new ws cs = Ret (Err (Mixture.EWeights e))) /\
  (* the support contains every component's support, if union_closure contains its operands *)
  (forall (mem : X -> Sp -> Prop), (forall a b x, mem x a \/ mem x b -> mem x (c_union a b)) ->
     forall d, Mixture.new ws cs = Ret (Ok d) -> forall c x, In c cs -> mem x (c_support c) -> mem x (Mixture.support d)).
Proof.
  intros L1 L2 Hn. unfold Mixture.new, Mixture.new_unchecked. rewrite L1, L2, Nat.eqb_refl.
  destruct cs as [|c cs]; [cbn in L2; lia|]. cbn [Mixture.compute_support rbind]. split; [|split].
  - intros q E. rewrite E. cbn [map_err and_then]. eexists. split; [reflexivity|]. repeat split.
  - intros e E. now rewrite E.
  - intros mem HU d. destruct (simplex_new ws); cbn [map_err and_then]; [|discriminate]. intros E; inversion E; subst; clear E. cbn [Mixture.support].
    intros c' x Hin Hx.
    assert (G : forall l s, mem x s \/ (exists c, In c l /\ mem x (c_support c)) -> mem x (fold_left (fun acc c => c_union acc (c_support c)) l s)).
    { induction l as [|b l IH]; cbn [fold_left]; intros s [A|(c1 & B1 & B2)]; try (exact A); try contradiction.
      - apply IH. left. apply HU. auto.
      - apply IH. destruct B1 as [->|B1]; [left; apply HU; auto|right; eauto]. }
    apply G. destruct Hin as [->|Hin]; [auto|right; eauto].
Qed.
Print Assumptions C59_new.
(** ... and From<Params>: right for N params, not safe otherwise *)
Theorem C59_from_params_refuted {F S C CP Sp X : Type} {SF : Scalar F} {K : Component F S C CP Sp X} (n : nat) (p : Mixture.params) :
  (* fewer than N component parameters: an uninitialised component is read (undefined behaviour) *)
  ((length (Mixture.component_params p) < n)%nat -> Mixture.from_params (Sp := Sp) n p = None) /\
  (* more: panics *)
  ((n < length (Mixture.component_params p))%nat -> Mixture.from_params (Sp := Sp) n p = Some Panic) /\
  (* no component at all: every constructor panics *)
  (Mixture.new [] [] = Panic /\ Mixture.new_unchecked [] [] = Panic) /\
  (length (Mixture.component_params p) = 0%nat -> Mixture.from_params (Sp := Sp) 0 p = Some Panic).
Proof.
  unfold Mixture.from_params. set (l := map c_from (Mixture.component_params p)).
  assert (El : length l = length (Mixture.component_params p)) by (unfold l; apply map_length).
  split; [|split; [|split]].
  - intros H. pose proof (write_all_le l [] n ltac:(lia)) as E. cbn [app length] in E. rewrite E.
    replace (n - length l)%nat with (Datatypes.S (n - length l - 1)) by lia. now rewrite read_all_none.
  - intros H. pose proof (write_all_gt l [] n ltac:(lia)) as E. cbn [app length] in E. now rewrite E.
  - split; reflexivity.
  - intros H. rewrite H in El. destruct l; [reflexivity|discriminate].
Qed.
Print Assumptions C59_from_params_refuted.
Theorem C59_from_params_partial {F S C CP Sp X : Type} {SF : Scalar F} {K : Component F S C CP Sp X} (n : nat) (ws : list F) (cs : list C) d :
  length cs = n -> Mixture.new ws cs = Ret (Ok d) -> (forall c, In c cs -> c_from (c_params c) = c) ->
  Mixture.from_params n (Mixture.get_params d) = Some (Ret d).
Proof.
  intros L H HF. unfold Mixture.new in H. destruct (Nat.eqb (length cs) (length ws)); [|discriminate].
  destruct (Mixture.compute_support cs) as [s| |] eqn:ES; cbn [rbind] in H; try discriminate.
  destruct (simplex_new ws) as [q|]; cbn [map_err and_then] in H; [|discriminate]. inversion H; subst; clear H.
  unfold Mixture.from_params, Mixture.get_params. cbn [Mixture.components Mixture.weights Mixture.component_params Mixture.ps].
  assert (E : map c_from (map c_params cs) = cs).
  { rewrite map_map. rewrite <- (map_id cs) at 2. apply map_ext_in. exact HF. }
  rewrite E. pose proof (write_all_le cs [] (length cs) ltac:(lia)) as E2. cbn [app length] in E2. rewrite E2, Nat.sub_diag. cbn [repeat]. rewrite app_nil_r, read_all_some, ES. reflexivity.
Qed.
Print Assumptions C59_from_params_partial.
Example C59_nonvacuous {S : Type} {RG : Rng S xreal} {SP : Special xreal} : forall c, c_from (Component := normal_component (F := xreal) (S := S)) (c_params (Component := normal_component (F := xreal) (S := S)) c) = c.
Proof. intros [[m s]]. reflexivity. Qed.
(** intervals with their hull meet the hypothesis on [union_closure] *)
Example C59_hull_nonvacuous : forall (a b : R * R) x, let mem := fun (x : R) (s : R * R) => fst s <= x <= snd s in
  mem x a \/ mem x b -> mem x (Rmin (fst a) (fst b), Rmax (snd a) (snd b)).
Proof. intros [a1 a2] [b1 b2] x; cbn. unfold Rmin, Rmax. destruct (Rle_dec a1 b1), (Rle_dec a2 b2); lra. Qed.

(** C60. One uniform draw picks component i (C06: inverse cdf of the weights),
    which is then sampled with the rest of the generator. *)
Theorem C60_sample {F S C CP Sp X : Type} {SF : Scalar F} {K : Component F S C CP Sp X} {RG : Rng S F} (ws : list F) (cs : list C) d (s : S) :
  Mixture.new ws cs = Ret (Ok d) ->
  exists i c, (i < length cs)%nat /\ sample_index ws s = Ret (i, snd (gen_f64 s)) /\ nth_error cs i = Some c /\
    Mixture.sample d s = c_sample c (snd (gen_f64 s)).
Proof.
  intros H. unfold Mixture.new in H. destruct (Nat.eqb_spec (length cs) (length ws)) as [L|]; [|discriminate].
  destruct (Mixture.compute_support cs) as [sp| |] eqn:ES; cbn [rbind] in H; try discriminate.
  destruct (simplex_new ws) as [q|] eqn:EW; cbn [map_err and_then] in H; [|discriminate]. inversion H; subst; clear H.
  assert (q = ws) as ->.
  { clear -EW. unfold simplex_new, simplex_try_from in EW. destruct (simplex_loop (f_of_Z 0) ws); cbn [and_then] in EW; [|discriminate].
    destruct (fltb _ _); [now inversion EW|discriminate]. }
  assert (WN : ws <> []) by (intros ->; destruct cs; [discriminate|cbn in L; lia]).
  unfold Mixture.sample. cbn [Mixture.weights Mixture.components].
  destruct (index_of_draw_spec ws (fst (gen_f64 s)) WN) as (i & E & Hi & _).
  assert (EI : sample_index ws s = Ret (i, snd (gen_f64 s))) by (unfold sample_index; destruct (gen_f64 s); cbn [fst snd] in *; now rewrite E).
  destruct (nth_error cs i) as [c|] eqn:EN; [|apply nth_error_None in EN; lia].
  exists i, c. split; [lia|]. split; [exact EI|]. split; [exact EN|]. rewrite EI. cbn [rbind]. now rewrite EN.
Qed.
Print Assumptions C60_sample.
(** with exact weights: component i is chosen for a draw in an interval of length w_i *)
Theorem C60_component_probability {S C CP Sp : Type} {K : Component xreal S C CP Sp xreal} {RG : Rng S xreal}
    (ws : list R) (cs : list C) d (s : S) (u : R) (i : nat) c :
  Mixture.new (map Fin ws) cs = Ret (Ok d) -> rsum ws = 1 -> fst (gen_f64 s) = Fin u -> 0 <= u < 1 -> nth_error cs i = Some c ->
  rsum (firstn i ws) <= u < rsum (firstn i ws) + nth i ws 0 ->
  Mixture.sample d s = c_sample c (snd (gen_f64 s)).
Proof.
  intros H S1 Eu Hu EN Hi. pose proof H as H'. apply mix_new_inv in H' as (L & W & _).
  assert (Li : (i < length ws)%nat) by (rewrite <- L; apply nth_error_Some; congruence).
  destruct (C60_sample _ _ _ s H) as (j & c' & Lj & EI & EN' & ->).
  pose proof (proj2 (index_interval ws u i (W0 ws W) S1 Hu Li)) as II.
  rewrite (rsum_firstn_nth ws i Li) in II. specialize (II Hi).
  unfold sample_index in EI. destruct (gen_f64 s) as [u' s']. cbn [fst snd] in *. subst u'. replace (index_of_draw (map Fin ws) (Fin u)) with (Ret i) in EI by (symmetry; exact II). cbn [rbind] in EI. inversion EI; subst. congruence.
Qed.
Print Assumptions C60_component_probability.
Example C60_nonvacuous : rsum (firstn 1 [1/5; 1/2; 3/10]) <= 1/4 < rsum (firstn 1 [1/5; 1/2; 3/10]) + nth 1 [1/5; 1/2; 3/10] 0.
Proof. cbn. lra. Qed.
