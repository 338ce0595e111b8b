(** * Inverting checked constructors *)
From Coq Require Import Reals Lra Lia List.
From Verif.Num Require Import XReal.
From Verif.Model Require Import Rust Constraints Probability Params.
From Verif.Spec Require Import ParamSpec.
From Verif.Proofs Require Import ConstraintProofs.
Open Scope R_scope.

Lemma map_params_inv {F} {SF : Scalar F} {Ts A} (f : Ts -> A) (s : Schema F Ts) v d :
  map_ok f (params_new s v) = Ok d -> d = f v /\ Forall arg_ok (args s v).
Proof.
  destruct (params_new s v) eqn:E; cbn; [|discriminate]. intros H; injection H as <-.
  apply params_new_ok_inv in E as [-> HF]. auto.
Qed.
Lemma map_params_ok {F} {SF : Scalar F} {Ts A} (f : Ts -> A) (s : Schema F Ts) v :
  Forall arg_ok (args s v) -> map_ok f (params_new s v) = Ok (f v).
Proof. intros H. now rewrite (params_new_ok _ _ H). Qed.

Lemma xpos_iff b : fltb (f_of_Z 0) (Fin b) = true <-> 0 < b.
Proof. rewrite x_lit, x_ltb. destruct (Rltb_spec 0 b); split; intros; auto; try discriminate; lra. Qed.
Lemma xprob_iff b : (fleb (f_of_Z 0) (Fin b) = true /\ fleb (Fin b) (f_of_Z 1) = true) <-> 0 <= b <= 1.
Proof.
  rewrite !x_lit, !x_leb. destruct (Rleb_spec 0 b), (Rleb_spec b 1); split; intros; try lra; try (split; auto; lra); destruct H1; discriminate.
Qed.

(** [H : new ... = Ok d]: learn [d] and the constraints *)
Ltac inv_new H :=
  let E := fresh in let HF := fresh "HF" in
  apply map_params_inv in H as [E HF]; cbn in E; subst;
  repeat match type of HF with Forall _ (_ :: _) => idtac | _ => progress cbn [args s1 s2 s3 fst snd] in HF end;
  repeat match goal with
  | H : Forall arg_ok (_ :: _) |- _ =>
      let H1 := fresh "HP" in apply Forall_cons_iff in H as [H1 H];
      cbn [arg_ok arg_ty arg_val field_ok] in H1; unfold arg_ok in H1; cbn [arg_ty arg_val field_ok] in H1;
      try apply xpos_iff in H1; try apply xprob_iff in H1
  | H : Forall arg_ok nil |- _ => clear H
  end.
(** conversely, constructors succeed on arguments within their constraints *)
Ltac ok_new :=
  apply map_params_ok; cbn [args s1 s2 s3 fst snd];
  repeat (apply Forall_cons || apply Forall_nil); unfold arg_ok; cbn [arg_ty arg_val field_ok];
  try exact I; try (apply xpos_iff; lra); try (apply xprob_iff; lra); try lia.

(** Uniform's own parameter type *)
From Verif.Model Require Import Continuous.
Lemma uniform_new_inv a w d : UniformF.new (Fin a) (Fin w) = Ok d -> 0 < w /\ d = UniformF.new_unchecked (Fin a) (Fin w).
Proof.
  unfold UniformF.new, UniformF.params_new, loc_new, scale_new. cbn [and_then map_ok check].
  unfold check_default; cbn [is_satisfied_by]. unfold pltb, POrd_scalar, pzero.
  destruct (fltb (f_of_Z 0) (Fin w)) eqn:E; cbn [and_then map_ok]; [|discriminate]. apply xpos_iff in E. intros H; injection H as <-. auto.
Qed.
Lemma uniform_new_ok a w : 0 < w -> UniformF.new (Fin a) (Fin w) = Ok (UniformF.new_unchecked (Fin a) (Fin w)).
Proof.
  intros H. unfold UniformF.new, UniformF.params_new, loc_new, scale_new. cbn [and_then map_ok check].
  unfold check_default; cbn [is_satisfied_by]. unfold pltb, POrd_scalar, pzero.
  apply xpos_iff in H. rewrite H. reflexivity.
Qed.
