(** * Properties C11-C17: constraints and parameters *)
From Coq Require Import Reals Lra Lia ZArith List Bool.
From Flocq Require Import Core IEEE754.BinarySingleNaN.
From Verif.Num Require Import Scalar F64 XReal.
From Verif.Model Require Import Rust Constraints Probability Params.
From Verif.Spec Require Import ProbSpec ParamSpec.
From Verif.Proofs Require Import ConstraintProofs.
Import ListNotations.

(** C11: for every constraint, at any nesting depth and any value type. *)
Theorem C11_check_agrees_with_is_satisfied_by {T} (c : Constraint T) (v : T) :
  (is_satisfied_by c v = true -> check c v = Ok v) /\
  (is_satisfied_by c v = false -> exists e, check c v = Err e /\
     uce_value e = v /\ uce_target e = None /\ is_satisfied_by (uce_constraint e) v = false).
Proof. exact (conj (check_ok c v) (check_err c v)). Qed.
Print Assumptions C11_check_agrees_with_is_satisfied_by.
Example C11_nonvacuous : let c := COr (CNot (LessThan 3%Z)) (CAnd Positive (Equal 2%Z)) : Constraint Z in
  check c 2%Z = Ok 2%Z /\ is_ok (check c 1%Z) = false /\ check (AllV (AllA c)) [[2;5];[]]%Z = Ok [[2;5];[]]%Z.
Proof. repeat split. Qed.

(** C12: connectives and quantifier ... *)
Theorem C12_connectives {T} (c d : Constraint T) (v : T) (l : list T) :
  (is_satisfied_by (CNot c) v = true <-> ~ is_satisfied_by c v = true) /\
  (is_satisfied_by (CAnd c d) v = true <-> is_satisfied_by c v = true /\ is_satisfied_by d v = true) /\
  (is_satisfied_by (COr c d) v = true <-> is_satisfied_by c v = true \/ is_satisfied_by d v = true) /\
  (is_satisfied_by (AllV c) l = true <-> forall x, In x l -> is_satisfied_by c x = true) /\
  (is_satisfied_by (AllA c) l = true <-> forall x, In x l -> is_satisfied_by c x = true).
Proof.
  cbn [is_satisfied_by]. rewrite not_true_iff_false, negb_true_iff, andb_true_iff, orb_true_iff, !forallb_forall. tauto.
Qed.
Print Assumptions C12_connectives.
(** ... the order constraints on finite doubles ... *)
Theorem C12_order_f64 (m : Libm) (x t u : f64) :
  is_finite x = true -> is_finite t = true -> is_finite u = true ->
  (is_satisfied_by (Equal t) x = true <-> B2R x = B2R t)%R /\
  (is_satisfied_by (LessThan t) x = true <-> B2R x < B2R t)%R /\
  (is_satisfied_by (LessThanOrEqual t) x = true <-> B2R x <= B2R t)%R /\
  (is_satisfied_by (GreaterThan t) x = true <-> B2R x > B2R t)%R /\
  (is_satisfied_by (GreaterThanOrEqual t) x = true <-> B2R x >= B2R t)%R /\
  (is_satisfied_by (Interval t u) x = true <-> B2R t <= B2R x <= B2R u)%R /\
  (is_satisfied_by Positive x = true <-> B2R x > 0)%R /\
  (is_satisfied_by NonNegative x = true <-> B2R x >= 0)%R /\
  (is_satisfied_by Negative x = true <-> B2R x < 0)%R /\
  (is_satisfied_by NonPositive x = true <-> B2R x <= 0)%R.
Proof.
  intros Hx Ht Hu. cbn [is_satisfied_by pltb pleb peqb pzero POrd_scalar].
  destruct f64_zero as [Hz Ez]. rewrite andb_true_iff.
  rewrite !f64_eq, !f64_lt, !f64_le, Ez by assumption. unfold Rgt, Rge. repeat split; intros; try lra; tauto.
Qed.
Print Assumptions C12_order_f64.
(** ... and NaN (as value or as bound) satisfies none of them; on integers they are <, <=, =. *)
Theorem C12_nan_and_integers (m : Libm) :
  (forall t u : f64,
     (forall c, In c [Equal t; LessThan t; LessThanOrEqual t; GreaterThan t; GreaterThanOrEqual t; Interval t u;
                 Positive; NonNegative; Negative; NonPositive] -> is_satisfied_by c (B754_nan : f64) = false) /\
     (forall c, In c [Equal B754_nan; LessThan B754_nan; LessThanOrEqual B754_nan; GreaterThan B754_nan;
                 GreaterThanOrEqual B754_nan; Interval B754_nan u; Interval u B754_nan] -> is_satisfied_by c (t : f64) = false)) /\
  (forall v t u : Z,
     (is_satisfied_by (Equal t) v = true <-> v = t)%Z /\
     (is_satisfied_by (LessThan t) v = true <-> v < t)%Z /\ (is_satisfied_by (LessThanOrEqual t) v = true <-> v <= t)%Z /\
     (is_satisfied_by (GreaterThan t) v = true <-> v > t)%Z /\ (is_satisfied_by (GreaterThanOrEqual t) v = true <-> v >= t)%Z /\
     (is_satisfied_by (Interval t u) v = true <-> t <= v <= u)%Z /\
     (is_satisfied_by Natural v = true <-> v > 0)%Z /\ (is_satisfied_by Positive v = true <-> v > 0)%Z /\
     (is_satisfied_by NonNegative v = true <-> v >= 0)%Z).
Proof.
  split.
  - intros t u. split; intros c H; cbn [In] in H;
      repeat match type of H with _ \/ _ => destruct H as [<-|H] end; try contradiction;
      cbn [is_satisfied_by pltb pleb peqb pzero POrd_scalar];
      repeat match goal with |- context [fleb B754_nan ?y] => rewrite (proj1 (proj2 (f64_nan_l y)))
        | |- context [fleb ?y B754_nan] => rewrite (proj1 (proj2 (proj2 (proj2 (proj2 (f64_nan_l y))))))  end;
      rewrite ?andb_false_r; try reflexivity; try apply (f64_nan_l t); try apply (f64_nan_l (f_of_Z 0)).
  - intros v t u. cbn [is_satisfied_by pltb pleb peqb pzero POrd_Z].
    rewrite andb_true_iff, Z.eqb_eq, !Z.ltb_lt, !Z.leb_le. repeat split; intros; lia.
Qed.
Print Assumptions C12_nan_and_integers.

(** C13: right for Vec, inverted for arrays. *)
Theorem C13_empty_vec_partial {T} (v : list T) : is_satisfied_by (EmptyV (T:=T)) v = true <-> List.length v = 0%nat.
Proof. exact (Nat.eqb_eq _ _). Qed.
Print Assumptions C13_empty_vec_partial.
Theorem C13_empty_array_refuted {T} (v : list T) :
  is_satisfied_by (EmptyA (T:=T)) v = true <-> List.length v <> 0%nat.
Proof. cbn [is_satisfied_by]. rewrite Nat.ltb_lt. lia. Qed.
Print Assumptions C13_empty_array_refuted.

(** C14: because of C13, Concentrations::new accepts only the empty vector:
    no Dirichlet can be built with [new]. *)
Theorem C14_concentrations_refuted {F} {SF : Scalar F} (v : list F) :
  (v <> [] -> exists e, concentrations_new v = Err e /\ uce_value e = v) /\
  concentrations_new ([] : list F) = Ok [].
Proof.
  split; [|reflexivity].
  intros Hv. unfold concentrations_new. pose proof (check_spec (AllA Positive) v) as S.
  destruct (is_satisfied_by _ v).
  - rewrite S. cbn [and_then]. destruct (check_err (CNot EmptyA) v) as (e & E & H & _).
    + cbn [is_satisfied_by]. destruct v; [congruence|reflexivity].
    + eauto.
  - destruct S as (c' & -> & _). eexists; split; reflexivity.
Qed.
Print Assumptions C14_concentrations_refuted.
(** what is left: violations of positivity are always reported *)
Theorem C14_concentrations_partial (m : Libm) (v : list f64) :
  (exists x, In x v /\ fltb (f_of_Z 0) x = false) -> exists e, concentrations_new v = Err e /\ uce_value e = v.
Proof.
  intros (x & Hx & _). apply (proj1 (C14_concentrations_refuted v)). intros ->. destruct Hx.
Qed.
Print Assumptions C14_concentrations_partial.

(** C15: for every params! parameter set (any list of fields) and any arguments. *)
Theorem C15_params_new {F} {SF : Scalar F} {Ts} (s : Schema F Ts) (v : Ts) :
  (Forall arg_ok (args s v) -> params_new s v = Ok v) /\
  (forall pre a post, args s v = pre ++ a :: post -> Forall arg_ok pre -> ~ arg_ok a ->
     exists e, params_new s v = Err e /\ reports e a) /\
  (forall w, params_new s v = Ok w -> w = v /\ Forall arg_ok (args s v)).
Proof. exact (conj (params_new_ok s v) (conj (params_new_err s v) (params_new_ok_inv s v))). Qed.
Print Assumptions C15_params_new.
Example C15_nonvacuous (m : Libm) :
  Forall arg_ok (args (s3 (F:=f64) PCount PProb PScale) (0%Z, (b64 1 (-1), (b64 3 0, tt)))) /\
  ~ arg_ok (mkArg (F:=f64) f64 PScale (B754_zero true)) /\ ~ arg_ok (mkArg (F:=f64) f64 PScale B754_nan) /\
  arg_ok (mkArg (F:=f64) f64 PLoc B754_nan).
Proof.
  repeat split; try (repeat constructor; cbn; try lia; try (split; vm_compute; reflexivity); vm_compute; reflexivity).
Qed.

(** C16 holds for these parameter types ... *)
Theorem C16_constraints_match_partial {F} {SF : Scalar F} {T} {PO : POrd T} :
  enforces (loc_new (T:=T)) loc_constraints /\ enforces (scale_new (T:=T)) scale_constraints /\
  enforces (rate_new (T:=T)) rate_constraints /\ enforces (shape_new (T:=T)) shape_constraints /\
  enforces (dof_new (T:=T)) dof_constraints /\ enforces (count_new (T:=T)) count_constraints /\
  enforces (corr_new (F:=F)) corr_constraints /\ enforces (isotropic_new (F:=F)) isotropic_constraints /\
  enforces (diagonal_new (F:=F)) diagonal_constraints /\ enforces (paired_new (F:=F)) diagonal_constraints /\
  enforces (concentrations_new (F:=F)) concentrations_constraints /\
  enforces (fun v : F => map_ok unwrap (p_new v)) prob_constraints.
Proof.
  repeat match goal with |- _ /\ _ => split end; try apply enforces_single;
    try (apply (enforces_map_err EConstraint), enforces_single).
  - intros v. split; [|intros w H; now injection H].
    split; [intros _ c []|reflexivity].
  - exact concentrations_enforces.
  - intros v. unfold p_new. split.
    + destruct (fleb (f_of_Z 0) v) eqn:E1, (fleb v (f_of_Z 1)) eqn:E2; cbn; (split; [intros H|intros H; pose proof (H _ (or_introl eq_refl)) as H']);
        try discriminate; try reflexivity;
        try (intros c [<-|[]]; cbn; now rewrite E1, E2);
        cbn in H'; rewrite E1, E2 in H'; discriminate.
    + intros w H. destruct (_ && _)%bool; [now injection H|discriminate].
Qed.
Print Assumptions C16_constraints_match_partial.
(** ... and fails for matrix covariances (a zero entry is accepted though the
    list says Positive); two constraint lists are [todo!()]. *)
Theorem C16_constraints_match_refuted (m : Libm) :
  ~ enforces (matrix_new (F:=f64)) matrix_constraints /\
  bivariate_constraints (F:=f64) = Panic /\ simplex_constraints (F:=f64) = Panic.
Proof.
  repeat split. intros H. destruct (H [[B754_zero false]]) as [[H1 _] _].
  specialize (H1 eq_refl (AllA (AllA Positive)) (or_intror (or_introl eq_refl))). vm_compute in H1. discriminate.
Qed.
Print Assumptions C16_constraints_match_refuted.

(** C17: refuted in both directions. *)
(** what is checked: exactly that no entry is negative (or NaN) *)
Theorem C17_entrywise_partial {F} {SF : Scalar F} (S : list (list F)) :
  (is_ok (matrix_new S) = true <-> forall row x, In row S -> In x row -> fleb (f_of_Z 0) x = true) /\
  (forall S', matrix_new S = Ok S' -> S' = S).
Proof.
  split.
  - unfold matrix_new. transitivity (is_satisfied_by (CAnd Square (AllA (AllA NonNegative))) S = true).
    + rewrite <- check_is_ok. destruct (check _ S); cbn; tauto.
    + cbn [is_satisfied_by andb]. rewrite forallb_forall. split.
      * intros H row x H1 H2. specialize (H row H1). rewrite forallb_forall in H. exact (H x H2).
      * intros H row H1. apply forallb_forall. intros x Hx. exact (H row x H1 Hx).
  - intros S' H. unfold matrix_new in H. destruct (check _ S) eqn:E; [|discriminate].
    apply check_ok_inv in E. injection H as <-. tauto.
Qed.
Print Assumptions C17_entrywise_partial.
Definition quad (S : list (list R)) (z : list R) : R :=
  fold_right Rplus 0%R (map (fun p => fst p * fold_right Rplus 0%R (map (fun q => fst q * snd q)%R (combine (snd p) z)))%R (combine z S)).
Definition sym_psd (S : list (list R)) : Prop :=
  (forall i j, nth j (nth i S []) 0%R = nth i (nth j S []) 0%R) /\
  (forall z, List.length z = List.length S -> (0 <= quad S z)%R).
Theorem C17_psd_refuted :
  (exists S, is_ok (matrix_new (map (map Fin) S)) = true /\ ~ sym_psd S /\ List.length S = 2%nat) /\
  (exists S, is_ok (matrix_new (map (map Fin) S)) = false /\ sym_psd S).
Proof.
  split.
  - exists [[1; 2]; [2; 1]]%R. repeat split.
    + apply C17_entrywise_partial. intros row x H1 H2. cbn in H1.
      destruct H1 as [<-|[<-|[]]]; cbn in H2; destruct H2 as [<-|[<-|[]]]; rewrite x_lit, x_leb; apply Rleb_true; lra.
    + intros [_ H]. specialize (H [1; -1]%R eq_refl). cbn in H. lra.
  - exists [[1; -(1/2)]; [-(1/2); 1]]%R. repeat split.
    + apply not_true_iff_false. intros H. apply C17_entrywise_partial with (row := map Fin [1; -(1/2)]%R) (x := Fin (-(1/2))) in H;
        [|cbn; auto|cbn; auto]. rewrite x_lit, x_leb, Rleb_false in H by lra. discriminate.
    + intros [|[|i]] [|[|j]]; cbn; try reflexivity; try (destruct i; reflexivity); try (destruct j; reflexivity);
        try (destruct i; destruct j; reflexivity).
    + intros [|a [|b [|]]] H; try discriminate. cbn. nra.
Qed.
Print Assumptions C17_psd_refuted.
