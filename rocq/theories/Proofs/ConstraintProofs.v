From Coq Require Import Reals Lra Lia ZArith List Bool.
From Flocq Require Import Core IEEE754.BinarySingleNaN.
From Verif.Num Require Import Scalar F64 XReal.
From Verif.Model Require Import Rust Constraints Probability Params.
Import ListNotations.

Lemma all_loop_forallb {T} (f : T -> bool) l : all_loop f l = forallb f l.
Proof. induction l as [|x l IH]; cbn; [reflexivity|]. rewrite IH. now destruct (f x). Qed.

(** what [check] does, for every constraint *)
Lemma check_spec {T} (c : Constraint T) (v : T) :
  if is_satisfied_by c v then check c v = Ok v
  else exists c', check c v = Err (mkUCE v None c') /\ is_satisfied_by c' v = false.
Proof.
  induction c; cbn [check is_satisfied_by];
    try (unfold check_default; cbn [is_satisfied_by]; match goal with |- context[if ?b then _ else _] => destruct b eqn:E end;
      [reflexivity|eexists; split; [reflexivity|exact E]]).
  - apply IHc.
  - rewrite all_loop_forallb. destruct (forallb _ v) eqn:E; [reflexivity|].
    eexists; split; [reflexivity|]. exact E.
  - rewrite all_loop_forallb. destruct (forallb _ v) eqn:E; [reflexivity|].
    eexists; split; [reflexivity|]. exact E.
  - specialize (IHc1 v). specialize (IHc2 v). destruct (is_satisfied_by c1 v); cbn [orb].
    + rewrite IHc1. reflexivity.
    + destruct IHc1 as (c' & -> & _). cbn [or_else uce_value]. exact IHc2.
  - specialize (IHc1 v). specialize (IHc2 v). destruct (is_satisfied_by c1 v); cbn [andb].
    + rewrite IHc1. cbn [and_then]. exact IHc2.
    + destruct IHc1 as (c' & -> & E). cbn [and_then]. eauto.
  - reflexivity.
Qed.

Lemma check_ok {T} (c : Constraint T) v : is_satisfied_by c v = true -> check c v = Ok v.
Proof. intros H. pose proof (check_spec c v) as S. now rewrite H in S. Qed.
Lemma check_err {T} (c : Constraint T) v : is_satisfied_by c v = false ->
  exists e, check c v = Err e /\ uce_value e = v /\ uce_target e = None /\ is_satisfied_by (uce_constraint e) v = false.
Proof. intros H. pose proof (check_spec c v) as S. rewrite H in S. destruct S as (c' & E & H'). eexists; split; [exact E|auto]. Qed.
Lemma check_ok_inv {T} (c : Constraint T) v w : check c v = Ok w -> w = v /\ is_satisfied_by c v = true.
Proof.
  intros H. pose proof (check_spec c v) as S. destruct (is_satisfied_by c v).
  - rewrite S in H; injection H; auto.
  - destruct S as (c' & E & _). congruence.
Qed.

From Verif.Spec Require Import ParamSpec.

Lemma check_is_ok {T} (c : Constraint T) v : is_ok (check c v) = is_satisfied_by c v.
Proof.
  pose proof (check_spec c v) as S. destruct (is_satisfied_by c v); [now rewrite S|].
  destruct S as (c' & -> & _). reflexivity.
Qed.

Section Generic.
Context {F : Type} {SF : Scalar F}.

Lemma field_new_ok {T} (t : PType F T) v : field_ok t v -> field_new t v = Ok v.
Proof.
  destruct t; cbn [field_ok field_new]; intros H;
    try (unfold loc_new, scale_new, rate_new, shape_new, dof_new, count_new; rewrite ?check_ok; [reflexivity|];
         cbn [is_satisfied_by pltb pleb pzero POrd_scalar POrd_Z]; try exact H).
  - reflexivity.
  - now apply Z.ltb_lt.
  - now apply Z.ltb_lt.
  - now apply Z.leb_le.
  - unfold p_new. destruct H as [-> ->]. reflexivity.
Qed.

Lemma field_new_err {T} (t : PType F T) v : ~ field_ok t v ->
  exists e, field_new t v = Err e /\ reports e (mkArg T t v).
Proof.
  assert (G : forall T (c : Constraint T) (t : PType F T) v, is_satisfied_by c v = false ->
     exists e, map_err EConstraint (check c v) = Err e /\ reports e (mkArg T t v)).
  { intros T0 c t0 v0 H. destruct (check_err c v0 H) as (e & -> & Hv & _). eexists; split; [reflexivity|].
    cbn. rewrite Hv. reflexivity. }
  destruct t; cbn [field_ok field_new]; intros H;
    try (unfold scale_new, rate_new, shape_new, dof_new, count_new; apply G;
         cbn [is_satisfied_by pltb pleb pzero POrd_scalar POrd_Z]).
  - tauto.
  - now destruct (fltb _ v).
  - now destruct (fltb _ v).
  - now destruct (fltb _ v).
  - apply Z.ltb_ge. lia.
  - apply Z.ltb_ge. lia.
  - apply Z.leb_gt. lia.
  - unfold p_new. destruct (fleb (f_of_Z 0) v), (fleb v (f_of_Z 1)); cbn; try (now exfalso; apply H);
      eexists; split; reflexivity.
Qed.

Lemma params_new_ok {Ts} (s : Schema F Ts) v : Forall arg_ok (args s v) -> params_new s v = Ok v.
Proof.
  induction s as [|T Ts t ts IH]; cbn [args params_new]; intros H.
  - now destruct v.
  - inversion H; subst. unfold arg_ok in H2; cbn [arg_ty arg_val] in H2. rewrite (field_new_ok t _ H2). cbn [and_then].
    rewrite (IH _ H3). cbn. now destruct v.
Qed.
Lemma params_new_err {Ts} (s : Schema F Ts) v pre a post :
  args s v = pre ++ a :: post -> Forall arg_ok pre -> ~ arg_ok a ->
  exists e, params_new s v = Err e /\ reports e a.
Proof.
  revert pre. induction s as [|T Ts t ts IH]; cbn [args params_new]; intros pre E Hp Ha.
  - destruct pre; discriminate.
  - destruct pre as [|b pre]; cbn in E; injection E as E1 E2.
    + subst a. destruct (field_new_err t (fst v) Ha) as (e & -> & R). exists e. split; [reflexivity|exact R].
    + inversion Hp as [|? ? Hb Hp']; subst b.  unfold arg_ok in Hb; cbn [arg_ty arg_val] in Hb.
      rewrite (field_new_ok t _ Hb). cbn [and_then].
      destruct (IH _ _ E2 Hp' Ha) as (e & -> & R). exists e; split; [reflexivity|exact R].
Qed.
Lemma params_new_ok_inv {Ts} (s : Schema F Ts) v w : params_new s v = Ok w -> w = v /\ Forall arg_ok (args s v).
Proof.
  induction s as [|T Ts t ts IH]; cbn [args params_new]; intros H.
  - destruct w, v; auto.
  - destruct (field_new t (fst v)) eqn:E; [|discriminate]. cbn in H.
    destruct (params_new ts (snd v)) eqn:E2; [|discriminate]. cbn in H. injection H as <-.
    destruct (IH _ _ E2) as [-> HF].
    assert (Hok: field_ok t (fst v)).
    { destruct t; cbn [field_ok field_new] in *; try exact I;
       try (unfold scale_new, rate_new, shape_new, dof_new, count_new in E;
        destruct (check _ (fst v)) eqn:C; [|discriminate]; apply check_ok_inv in C; destruct C as [_ C];
        cbn [is_satisfied_by pltb pleb pzero POrd_scalar POrd_Z] in C;
        first [exact C|now apply Z.ltb_lt|now apply Z.leb_le]).
      unfold p_new in E. destruct (fleb (f_of_Z 0) (fst v)), (fleb (fst v) (f_of_Z 1)); try discriminate; auto. }
    rewrite (field_new_ok t _ Hok) in E. injection E as <-. split; [now destruct v|].
    constructor; [exact Hok|exact HF].
Qed.

Lemma enforces_single {T} (c : Constraint T) : enforces (check c) [c].
Proof.
  intros v. split.
  - rewrite check_is_ok. split.
    + intros H c' [<-|[]]. exact H.
    + intros H. apply H. now left.
  - intros w H. now apply check_ok_inv in H.
Qed.
Lemma enforces_map_err {T E E'} (f : E -> E') (n : T -> result T E) cs : enforces n cs ->
  enforces (fun v => map_err f (n v)) cs.
Proof.
  intros H v. destruct (H v) as [H1 H2]. destruct (n v); cbn in *; split; try tauto; try (intros; congruence).
  intros w E1; injection E1 as <-. auto.
Qed.
Lemma concentrations_enforces : enforces (concentrations_new (F:=F)) concentrations_constraints.
Proof.
  intros v. unfold concentrations_new. split.
  - pose proof (check_spec (AllA Positive) v) as S. destruct (is_satisfied_by (AllA Positive) v) eqn:E.
    + rewrite S. cbn [and_then]. rewrite check_is_ok. split.
      * intros H c [<-|[<-|[]]]; auto.
      * intros H. apply H. now left.
    + destruct S as (c' & -> & _). cbn. split; [discriminate|].
      intros H. rewrite (H (AllA Positive)) in E; [discriminate|]. right; now left.
  - intros w H. destruct (check (AllA Positive) v) eqn:E; [|discriminate]. cbn [and_then] in H.
    apply check_ok_inv in E. destruct E as [-> _]. now apply check_ok_inv in H.
Qed.
End Generic.

(** f64 order facts, with NaN *)
Section F64Order.
Context {m : Libm}.
Lemma f64_lt (x y : f64) : is_finite x = true -> is_finite y = true -> (fltb x y = true <-> (B2R x < B2R y)%R).
Proof. exact (ltb_spec x y). Qed.
Lemma f64_le (x y : f64) : is_finite x = true -> is_finite y = true -> (fleb x y = true <-> (B2R x <= B2R y)%R).
Proof. exact (leb_spec x y). Qed.
Lemma f64_eq (x y : f64) : is_finite x = true -> is_finite y = true -> (feqb x y = true <-> B2R x = B2R y).
Proof.
  intros Hx Hy. cbn [feqb F64Scalar]. rewrite Beqb_correct by assumption.
  destruct (Req_bool_spec (B2R x) (B2R y)); split; auto; congruence.
Qed.
Lemma f64_zero : is_finite (f_of_Z 0 : f64) = true /\ B2R (f_of_Z 0 : f64) = 0%R.
Proof. split; reflexivity. Qed.
Lemma f64_nan_l (y : f64) : fltb B754_nan y = false /\ fleb B754_nan y = false /\ feqb B754_nan y = false /\
   fltb y B754_nan = false /\ fleb y B754_nan = false /\ feqb y B754_nan = false.
Proof. destruct y; repeat split; reflexivity. Qed.
End F64Order.
