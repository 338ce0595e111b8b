(** * Property C139: the laws of the samplers of InvNormal and Categorical *)
From Coq Require Import Reals Lra Lia Psatz List ZArith.
From Coquelicot Require Import Coquelicot.
From Verif.Num Require Import Scalar XReal.
From Verif.Model Require Import Rust Constraints Probability Params Consts Continuous Continuous2 Continuous3 Discrete.
From Verif.Spec Require Import DistSpec SampleSpec MvSpec RandSpec ProbSpec.
From Verif.Proofs Require Import ConstraintProofs NewInv XTac Calc Calc2 Improper Gauss GammaFun ContProofs22 ContProofs23 InvGaussLaw SimplexProofs DiscProofs5 RandProofs RandProofs4.
Import ListNotations.
Open Scope R_scope.

(** ** the inverse normal distribution *)
(** the probability of an event about an independent pair of a standard normal
    [n] and a uniform [u] on [0,1]: the length of each section, integrated
    against the normal density *)
Definition normal_uniform_prob (E : R -> R -> Prop) (p : R) : Prop := exists (chi : R -> R -> R) (h : R -> R),
  (forall n u, chi n u = 1 /\ E n u \/ chi n u = 0 /\ ~ E n u) /\
  (forall n, is_RInt (chi n) 0 1 (h n)) /\
  line_int (fun n => h n * normal_density 0 1 n) p.

(** one call makes one standard normal and one uniform draw; over those draws,
    the sample is <= y with the probability the density has below y *)
Theorem C139_inverse_normal (m l : R) (d : InvNormal.t xreal) : InvNormal.new (Fin m) (Fin l) = Ok d ->
  exists f : R -> R -> R, (forall n u, 0 < f n u) /\
    (forall (S : Type) (RG : Rng S xreal) (s s1 s2 : S) (n u : R),
      draw_normal (Fin 0) (Fin 1) s = (Fin n, s1) -> draw_uniform_inclusive (Fin 0) (Fin 1) s1 = (Fin u, s2) ->
      InvNormal.sample d s = (Fin (f n u), s2)) /\
    (forall y, 0 < y -> exists p, is_RInt_gen (rf (InvNormal.pdf d)) (above 0) (at_point y) p /\
      normal_uniform_prob (fun n u => f n u <= y) p).
Proof.
  intros H. unfold InvNormal.new in H. inv_new H. change (InvNormal.mk _ _) with (InvNormal.new_unchecked (Fin m) (Fin l)).
  exists (ig_f m l). split; [|split].
  - intros n u. unfold ig_f. rewrite x_other, in_x_abs by auto. destruct (Rltb _ _); now apply X_pos.
  - intros S RG s s1 s2 n u En Eu. unfold InvNormal.sample, UvNormal.sample, UniformF.sample, UniformF.ub, InvNormal.new_unchecked, UvNormal.standard, UvNormal.new_unchecked, UniformF.new_unchecked, UniformF.from.
    cbn [InvNormal.std_norm UvNormal.pr UvNormal.mu UvNormal.Sigma UniformF.pr UniformF.lb UniformF.width]. rewrite !x_lit, x_sqrt, sqrt_1, x_add, Rplus_0_l by lra. rewrite En, Eu. f_equal.
    change (InvNormal.mk _ _) with (InvNormal.new_unchecked (Fin m) (Fin l)). now apply ig_sample.
  - intros y Hy. exists (fst (in_Gs m l 0 y)). split.
    + assert (D : forall x, 0 < x -> is_derive (fun x => fst (in_Gs m l 0 x)) x (rf (InvNormal.pdf (InvNormal.new_unchecked (Fin m) (Fin l))) x)).
      { intros x Hx. destruct (in_Gs_d m l HP HP0 0 x Hx) as [D _]. revert D. apply is_derive_ext_eq. unfold rf. rewrite in_pdf by (auto; now apply in0). cbn [val]. rewrite pow_O. ring. }
      assert (C : forall x, 0 < x -> continuous (rf (InvNormal.pdf (InvNormal.new_unchecked (Fin m) (Fin l)))) x).
      { intros x Hx. apply (continuous_ext_loc _ (in_u m l)); [|now apply in_u_cont]. generalize (locally_inside 0 p_infty x (proj2 (in0 x) Hx)). apply filter_imp. intros t Ht. unfold rf. now rewrite in_pdf. }
      assert (L := proj1 (in_Gs_lim0 m l HP HP0 0)).
      intros P HPp. assert (V : filterlim (fun x => fst (in_Gs m l 0 y) - fst (in_Gs m l 0 x)) (above 0) (locally (fst (in_Gs m l 0 y)))) by (apply (fl_eq _ (fst (in_Gs m l 0 y) - 0)); [apply fl_minus; [apply fl_const|exact L]|ring]).
      specialize (V P HPp). exists (fun x => P (fst (in_Gs m l 0 y) - fst (in_Gs m l 0 x)) /\ 0 < x) (fun b => b = y); [|reflexivity|].
      * apply filter_and; [exact V|]. exists (mkposreal 1 Rlt_0_1). auto.
      * intros a b [Pa Ha] ->. cbn [fst snd]. eexists. split; [|exact Pa]. apply (is_RInt_derive (V := R_CompleteNormedModule) (fun x => fst (in_Gs m l 0 x))).
        -- intros x Hx. apply D. assert (0 < Rmin a y) by now apply Rmin_pos. lra.
        -- intros x Hx. apply C. assert (0 < Rmin a y) by now apply Rmin_pos. lra.
    + exists (ig_chi m l y), (ig_h m l y). split; [|split].
      * intros n u. unfold ig_chi. destruct (Rle_dec _ y); [left|right]; auto.
      * intros n. now apply ig_section.
      * now apply ig_h_int.
Qed.
Print Assumptions C139_inverse_normal.
Example C139_inverse_normal_nonvacuous : exists d, InvNormal.new (Fin 2) (Fin 3) = Ok d.
Proof. eexists. unfold InvNormal.new. ok_new. Qed.

(** ** the categorical distribution *)
(** a uniform variate in [0,1): each subinterval has its length as probability *)
Definition unit_draw {S : Type} (Pr : (S -> Prop) -> R -> Prop) (draw : S -> xreal * S) : Prop :=
  (forall s, exists x, fst (draw s) = Fin x /\ 0 <= x < 1) /\
  forall a b, 0 <= a <= b -> b <= 1 -> Pr (fun s => exists x, fst (draw s) = Fin x /\ a <= x < b) (b - a).

Lemma index_any (l : list R) (u : R) (i : nat) : Forall (fun p => 0 <= p) l -> 0 <= u -> (i < length l)%nat ->
  (index_of_draw (map Fin l) (Fin u) = Ret i <-> rsum (firstn i l) <= u /\ (u < rsum (firstn (S i) l) \/ i = (length l - 1)%nat)).
Proof.
  intros Hp Hu Hi. assert (Hne : map Fin l <> []) by (destruct l; [cbn in Hi; lia|discriminate]).
  destruct (index_of_draw_spec (map Fin l) (Fin u) Hne) as (k & Ek & Hk & Hlt & Hge). rewrite map_length in *.
  assert (Lk : rsum (firstn k l) <= u).
  { destruct k as [|k]; [cbn; lra|]. specialize (Hlt k ltac:(lia)). change (map Fin l) with (SimplexProofs.xs l) in Hlt. rewrite prefix_sum_fin, x_ltb in Hlt.
    destruct (Rltb_spec u (rsum (firstn (S k) l))); [discriminate|lra]. }
  assert (Uk : u < rsum (firstn (S k) l) \/ k = (length l - 1)%nat).
  { destruct Hge as [Hge|[-> Hall]]; [left|right; reflexivity]. change (map Fin l) with (SimplexProofs.xs l) in Hge. rewrite prefix_sum_fin, x_ltb in Hge. destruct (Rltb_spec u (rsum (firstn (S k) l))); [lra|discriminate]. }
  rewrite Ek. split.
  - intros E; injection E as <-. split; assumption.
  - intros [A B]. f_equal. destruct (Nat.lt_trichotomy k i) as [C|[C|C]]; [exfalso|exact C|exfalso].
    + pose proof (rsum_firstn_mono l (S k) i Hp C). destruct Uk; [lra|lia].
    + pose proof (rsum_firstn_mono l (S i) k Hp C). destruct B; [lra|lia].
Qed.

(** whatever vector [new] accepted, each index is drawn with its own weight up to
    1e-5; exactly its weight if the weights sum to one *)
Theorem C139_categorical {S : Type} (Pr : (S -> Prop) -> R -> Prop) (RG : Rng S xreal) (ws : list R) (d : Categorical.t xreal) :
  extensional Pr -> unit_draw Pr gen_f64 -> Categorical.new (map Fin ws) = Ok d ->
  (forall s, exists i s', Categorical.sample d s = Ret (i, s') /\ (i < length ws)%nat) /\
  forall i w, nth_error ws i = Some w ->
    Categorical.pmf d (Z.of_nat i) = Ret (Prob (Fin w)) /\
    exists q, Pr (yields (Categorical.sample d) (fun j => j = i)) q /\ Rabs (q - w) < 1 / 100000 /\ (rsum ws = 1 -> q = w).
Proof.
  intros HE [U1 U2] H. unfold Categorical.new in H. destruct (simplex_new (map Fin ws)) as [qs|] eqn:E; [|discriminate]. cbn [map_err map_ok] in H. injection H as <-.
  apply simplex_new_x in E. destruct E as (-> & Hw & Hs & Hne).
  assert (Hp : Forall (fun p => 0 <= p) ws) by (eapply Forall_impl; [|exact Hw]; intros a Ha; cbv beta in Ha; lra).
  assert (NE : map Fin ws <> []) by (destruct ws; [congruence|discriminate]).
  assert (SI : forall s, exists x i, fst (gen_f64 s) = Fin x /\ 0 <= x < 1 /\ index_of_draw (map Fin ws) (Fin x) = Ret i /\ (i < length ws)%nat /\ Categorical.sample (Categorical.mk (Categorical.mkP (map Fin ws))) s = Ret (i, snd (gen_f64 s))).
  { intros s. destruct (U1 s) as (x & Ex & Bx). destruct (index_of_draw_spec (map Fin ws) (Fin x) NE) as (i & Ei & Li & _). rewrite map_length in Li. exists x, i. repeat (split; [assumption|]).
    unfold Categorical.sample, sample_index. cbn [Categorical.pr Categorical.ps]. destruct (gen_f64 s) as [v s']. cbn [fst snd] in *. subst v. rewrite Ei. reflexivity. }
  split. { intros s. destruct (SI s) as (x & i & _ & _ & _ & Li & Es). exists i, (snd (gen_f64 s)). now split. }
  intros i w Hi. assert (L : (i < length ws)%nat) by (apply nth_error_Some; congruence).
  split. { unfold Categorical.pmf, Categorical.n_categories. cbn [Categorical.pr Categorical.ps]. rewrite map_length. replace (Z.leb _ _) with false by (symmetry; apply Z.leb_gt; lia). now rewrite Nat2Z.id, nth_error_map, Hi. }
  assert (NW : nth i ws 0 = w) by now apply nth_error_nth.
  set (A := rsum (firstn i ws)). set (B := rsum (firstn (Datatypes.S i) ws)). set (Z := rsum ws) in *.
  assert (EB : B = A + w) by (unfold A, B; rewrite <- NW; now apply rsum_firstn_nth).
  assert (BZ : B <= Z). { unfold B, Z. rewrite <- (firstn_all ws) at 2. apply rsum_firstn_mono; auto. }
  assert (A0 : 0 <= A). { unfold A. apply (rsum_firstn_mono ws 0 i Hp). lia. }
  assert (W0 : 0 <= w) by (rewrite Forall_forall in Hp; apply Hp; eapply nth_error_In; eauto).
  assert (LA : i = (length ws - 1)%nat -> B = Z) by (intros Q; unfold B, Z; rewrite firstn_all2 by lia; reflexivity).
  set (lo := Rmin A 1). set (hi := if Nat.eq_dec i (length ws - 1) then 1 else Rmin B 1).
  assert (LH : 0 <= lo <= hi /\ hi <= 1).
  { unfold lo, hi, Rmin. destruct (Nat.eq_dec _ _); destruct (Rle_dec A 1); destruct (Rle_dec B 1); lra. }
  exists (hi - lo). split; [|split].
  - assert (P := U2 lo hi (proj1 LH) (proj2 LH)). revert P. apply HE. intros s. destruct (SI s) as (x & k & Ex & Bx & Ek & Lk & Es).
    assert (IA := index_any ws x i Hp (proj1 Bx) L). fold A B in IA.
    assert (IV : lo <= x < hi <-> A <= x /\ (x < B \/ i = (length ws - 1)%nat)).
    { unfold lo, hi, Rmin. destruct (Nat.eq_dec i (length ws - 1)) as [Q|Q]; destruct (Rle_dec A 1); destruct (Rle_dec B 1);
        (split; [intros G; split; [lra|first [right; exact Q|left; lra]]|intros [G1 [G2|G2]]; first [lra|exfalso; exact (Q G2)|exfalso; lra]]). }
    unfold yields. split.
    + intros (x' & Ex' & Bx'). rewrite Ex in Ex'. apply Fin_inj in Ex'. subst x'. apply IV, IA in Bx'. rewrite Ek in Bx'. injection Bx' as ->. exists i, (snd (gen_f64 s)). now split.
    + intros (j & s' & Ej & ->). rewrite Es in Ej. injection Ej as -> _. exists x. split; [auto|]. apply IV, IA. exact Ek.
  - unfold lo, hi, Rmin. apply Rabs_def2 in Hs. apply Rabs_def1; destruct (Nat.eq_dec i (length ws - 1)) as [Q|Q]; try specialize (LA Q); destruct (Rle_dec A 1); destruct (Rle_dec B 1); lra.
  - intros HZ. unfold lo, hi, Rmin. destruct (Nat.eq_dec i (length ws - 1)) as [Q|Q]; try specialize (LA Q); destruct (Rle_dec A 1); destruct (Rle_dec B 1); lra.
Qed.
Print Assumptions C139_categorical.
Example C139_categorical_nonvacuous : extensional Pr0 /\ unit_draw Pr0 (gen_f64 (Rng := inv_rng)) /\
  exists d, Categorical.new (map Fin [1 / 2; 1 / 4; 1 / 4]) = Ok d.
Proof.
  split; [exact Pr0_ext|]. split.
  - split.
    + intros s. eexists. split; [reflexivity|]. cbn [val]. assert (H := u01_in s). lra.
    + intros a b Hab Hb. exists a. split; [lra|]. split; [lra|]. intros u Hu N1 N2. cbn [gen_f64 inv_rng fst aff_draw val]. rewrite u01_id by auto. split.
      * intros (x & E & Q). apply Fin_inj in E. lra.
      * intros Q. eexists. split; [reflexivity|]. lra.
  - eexists. unfold Categorical.new, simplex_new, simplex_try_from.
    assert (P : forall r, 0 <= r <= 1 -> p_new (Fin r) = Ok (Prob (Fin r))).
    { intros r Hr. unfold p_new. rewrite !x_lit, !x_leb. now rewrite !Rleb_true by lra. }
    cbn [map simplex_loop]. rewrite !P by lra. cbn [and_then Probability.unwrap].
    rewrite !x_lit. rewrite !x_add. rewrite x_div by lra. rewrite x_sub, x_abs, x_ltb.
    rewrite Rltb_true; [reflexivity|]. replace (0 + 1 / 2 + 1 / 4 + 1 / 4 - 1) with 0 by lra. rewrite Rabs_R0. lra.
Qed.
