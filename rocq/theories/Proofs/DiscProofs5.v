(** * Categorical: modes are exactly the maximisers *)
From Coq Require Import Reals Lra Lia Psatz ZArith List Sorted.
From Flocq Require Import Core.Raux.
From Verif.Num Require Import XReal.
From Verif.Model Require Import Rust Constraints Probability Params Discrete.
From Verif.Spec Require Import ProbSpec.
From Verif.Proofs Require Import XTac.
Import ListNotations.
Open Scope R_scope.

Section Modes.
Context {F : Type} {SF : Scalar F} (ok : F -> Prop) (v : F -> R).
Hypothesis Hlt : forall x y, ok x -> ok y -> fltb x y = true <-> v x < v y.
Hypothesis Heq : forall x y, ok x -> ok y -> feqb x y = true <-> v x = v y.

(** [ms] = the positions of the maximum of [l], in increasing order; [m] its value *)
Definition argmaxes (l : list F) (ms : list nat) (m : F) : Prop :=
  StronglySorted lt ms /\ ms <> [] /\ (forall x, In x l -> v x <= v m) /\ In m l /\
  (forall i, In i ms <-> exists x, nth_error l i = Some x /\ v x = v m).

Lemma sorted_snoc l (j : nat) : StronglySorted lt l -> (forall i, In i l -> (i < j)%nat) -> StronglySorted lt (l ++ [j]).
Proof.
  induction 1 as [|a l H IH Ha]; intros Hj; cbn; [constructor; constructor|].
  constructor; [apply IH; intros; apply Hj; now right|]. apply Forall_app. split; [auto|]. constructor; [apply Hj; now left|constructor].
Qed.
Lemma nth_error_snoc {A} (l : list A) (y x : A) i : nth_error (l ++ [y]) i = Some x <-> nth_error l i = Some x \/ (i = length l /\ y = x).
Proof.
  destruct (lt_dec i (length l)) as [H|H].
  - rewrite nth_error_app1 by auto. split; [now left|]. intros [E|[E _]]; [auto|lia].
  - rewrite nth_error_app2 by lia. destruct (Nat.eq_dec i (length l)) as [->|Hn].
    + rewrite Nat.sub_diag. cbn. split; [intros E; injection E as ->; now right|]. intros [E|[_ ->]]; [|auto].
      exfalso. assert (nth_error l (length l) = None) by (apply nth_error_None; lia). congruence.
    + split.
      * intros E. exfalso. assert (nth_error [y] (i - length l) = None) by (apply nth_error_None; cbn; lia). congruence.
      * intros [E|[E _]]; [|contradiction]. exfalso. assert (nth_error l i = None) by (apply nth_error_None; lia). congruence.
Qed.
Lemma step_argmaxes l ms m x : Forall ok l -> ok x -> argmaxes l ms m ->
  exists ms' m', Categorical.modes_step (ms, m) (length l, x) = Ret (ms', m') /\ argmaxes (l ++ [x]) ms' m'.
Proof.
  intros Hl Hx (S & NE & UB & Im & M). assert (Hm : ok m) by now apply (proj1 (Forall_forall ok l) Hl).
  assert (BD : forall i, In i ms -> (i < length l)%nat). { intros i Hi. apply M in Hi as (y & Hy & _). apply nth_error_Some. congruence. }
  unfold Categorical.modes_step. destruct (fltb x m) eqn:E1.
  { apply Hlt in E1; [|auto|auto]. exists ms, m. split; [reflexivity|]. split; [auto|]. split; [auto|]. split; [|split].
    - intros y Hy. apply in_app_or in Hy as [Hy|[<-|[]]]; [auto|lra].
    - apply in_or_app; now left.
    - intros i. rewrite M. split.
      + intros (y & Hy & Ey). exists y. split; [apply nth_error_snoc; now left|auto].
      + intros (y & Hy & Ey). apply nth_error_snoc in Hy as [Hy|[-> <-]]; [eauto|lra]. }
  destruct (feqb x m) eqn:E2.
  { apply Heq in E2; [|auto|auto]. exists (ms ++ [length l]), m. split; [reflexivity|]. split; [now apply sorted_snoc|]. split; [destruct ms; discriminate|]. split; [|split].
    - intros y Hy. apply in_app_or in Hy as [Hy|[<-|[]]]; [auto|lra].
    - apply in_or_app; now left.
    - intros i. rewrite in_app_iff, M. split.
      + intros [(y & Hy & Ey)|[<-|[]]]; [exists y; split; [apply nth_error_snoc; now left|auto]|]. exists x. split; [apply nth_error_snoc; now right|auto].
      + intros (y & Hy & Ey). apply nth_error_snoc in Hy as [Hy|[-> <-]]; [left; eauto|right; now left]. }
  assert (L : v m < v x).
  { destruct (Rtotal_order (v x) (v m)) as [H|[H|H]]; [apply Hlt in H; auto; congruence|apply Heq in H; auto; congruence|auto]. }
  destruct (fltb m x) eqn:E3; [|apply Hlt in L; auto; congruence].
  destruct ms as [|a ms]; [contradiction|]. exists [length l], x. split; [reflexivity|]. split; [constructor; constructor|]. split; [discriminate|]. split; [|split].
  - intros y Hy. apply in_app_or in Hy as [Hy|[<-|[]]]; [|lra]. specialize (UB y Hy). lra.
  - apply in_or_app; right; now left.
  - intros i. split.
    + intros [<-|[]]. exists x. split; [apply nth_error_snoc; now right|auto].
    + intros (y & Hy & Ey). apply nth_error_snoc in Hy as [Hy|[-> <-]]; [|now left]. exfalso. apply nth_error_In in Hy. specialize (UB y Hy). lra.
Qed.
Lemma fold_argmaxes rest : forall l ms m, Forall ok l -> Forall ok rest -> argmaxes l ms m ->
  exists ms' m', Categorical.rfold Categorical.modes_step (combine (seq (length l) (length rest)) rest) (ms, m) = Ret (ms', m') /\ argmaxes (l ++ rest) ms' m'.
Proof.
  induction rest as [|x rest IH]; intros l ms m Hl Hr HA.
  - exists ms, m. cbn. rewrite app_nil_r. auto.
  - apply Forall_cons_iff in Hr as [Hx Hr]. destruct (step_argmaxes l ms m x Hl Hx HA) as (ms1 & m1 & E1 & A1).
    destruct (IH (l ++ [x]) ms1 m1) as (ms2 & m2 & E2 & A2); [apply Forall_app; auto|auto|auto|].
    exists ms2, m2. split.
    + cbn [length seq combine Categorical.rfold]. rewrite E1. cbn [rbind]. rewrite app_length in E2. cbn [length] in E2. rewrite Nat.add_1_r in E2. exact E2.
    + rewrite <- app_assoc in A2. exact A2.
Qed.
Lemma cat_modes l : Forall ok l -> l <> [] ->
  exists ms, Categorical.modes (Categorical.new_unchecked l) = Ret ms /\ StronglySorted lt ms /\ ms <> [] /\
    forall i, In i ms <-> exists x, nth_error l i = Some x /\ forall y, In y l -> v y <= v x.
Proof.
  intros Hl Hn. destruct l as [|p0 rest]; [contradiction|]. apply Forall_cons_iff in Hl as [H0 Hr].
  destruct (fold_argmaxes rest [p0] [0%nat] p0) as (ms & m & E & S & NE & UB & Im & M).
  - constructor; auto.
  - auto.
  - split; [constructor; constructor|]. split; [discriminate|]. split; [intros x [<-|[]]; lra|]. split; [now left|]. intros i. split.
    + intros [<-|[]]. now exists p0.
    + intros (x & Hx & _). destruct i as [|i]; [now left|]. destruct i; discriminate.
  - exists ms. split.
    + unfold Categorical.modes, Categorical.new_unchecked, Categorical.from; cbn [Categorical.pr Categorical.ps]. cbn [length] in E. rewrite E. reflexivity.
    + split; [auto|]. split; [auto|]. intros i. rewrite M. change ([p0] ++ rest) with (p0 :: rest) in *. split.
      * intros (x & Hx & Ex). exists x. split; [auto|]. intros y Hy. rewrite Ex. auto.
      * intros (x & Hx & Ux). exists x. split; [auto|]. apply Rle_antisym; [apply UB; eapply nth_error_In; eauto|auto].
Qed.
End Modes.

(** exact reals *)
Lemma fin_lt x y : is_fin x -> is_fin y -> fltb x y = true <-> val x < val y.
Proof. destruct x, y; try contradiction. intros _ _. rewrite x_ltb. cbn [val]. destruct (Rltb_spec r r0); split; intros; auto; try discriminate; lra. Qed.
Lemma fin_eq x y : is_fin x -> is_fin y -> feqb x y = true <-> val x = val y.
Proof. destruct x, y; try contradiction. intros _ _. rewrite x_eqb. cbn [val]. destruct (Reqb_spec r r0); split; intros; auto; try discriminate; contradiction. Qed.
Lemma simplex_loop_x : forall ps z, Forall is_fin ps -> match simplex_loop (Fin z) ps with Ok s => Forall (fun x => 0 <= val x <= 1) ps /\ s = Fin (z + rsum (map val ps)) | Err _ => True end.
Proof.
  induction ps as [|p ps IH]; intros z Hp; cbn [simplex_loop map rsum]; [split; [constructor|f_equal; ring]|].
  apply Forall_cons_iff in Hp as [Hp Hps]. destruct p as [p| | |]; try contradiction. unfold p_new. rewrite !x_lit, !x_leb.
  destruct (Rleb_spec 0 p), (Rleb_spec p 1); cbn [andb and_then]; auto. cbn [unwrap]. rewrite x_add. specialize (IH (z + p) Hps).
  destruct (simplex_loop (Fin (z + p)) ps); [|auto]. destruct IH as [A ->]. split; [constructor; auto|]. f_equal. cbn [val]. ring.
Qed.
Lemma simplex_new_x l qs : simplex_new (map Fin l) = Ok qs -> qs = map Fin l /\ Forall (fun x => 0 <= x <= 1) l /\ Rabs (rsum l - 1) < 1 / 100000 /\ l <> [].
Proof.
  unfold simplex_new, simplex_try_from. rewrite x_lit. assert (HF : Forall is_fin (map Fin l)) by (apply Forall_forall; intros x Hx; apply in_map_iff in Hx as (y & <- & _); exact I).
  generalize (simplex_loop_x (map Fin l) 0 HF). destruct (simplex_loop (Fin 0) (map Fin l)) as [s|]; cbn [and_then]; [|discriminate]. intros [A ->].
  rewrite map_map in *. rewrite (map_ext _ (fun x => x)) in * by reflexivity. rewrite map_id in *. rewrite Rplus_0_l in *. xs.
  destruct (Rltb_spec (Rabs (rsum l - 1)) (1 / 100000)); [|discriminate]. intros E; injection E as <-. split; [auto|]. split; [|split; [auto|]].
  - rewrite Forall_map in A. exact A.
  - intros ->. cbn in *. rewrite Rabs_left in H; lra.
Qed.

(** ** the guard of the convolutions *)
Lemma assert_eq_prob_x p p' : assert_eq_prob (Prob (Fin p)) (Prob (Fin p')) =
  if Req_EM_T p p' then Ok (Prob (Fin p)) else Err (EConstraint (uce_new (Fin p) (Equal (Fin p')))).
Proof.
  unfold assert_eq_prob. cbn [unwrap check map_ok map_err]. unfold check_default. cbn [is_satisfied_by].
  change (peqb (Fin p) (Fin p')) with (Reqb p p').
  unfold Reqb. destruct (Req_EM_T p p'); reflexivity.
Qed.
