From Coq Require Import ZArith Lia List Bool.
From Verif.Model Require Import Rust Constraints Probability Params Traits.
From Verif.Proofs Require Import ConstraintProofs.
Import ListNotations.

Section Sampling.
Context {S A : Type} (sample : S -> res (A * S)).
Lemma sample_n_take n : forall s, sample_n sample n s = sampler_take sample n s.
Proof.
  induction n as [|n IH]; intros s; cbn [sample_n sampler_take]; [reflexivity|].
  unfold sampler_next. destruct (sample s) as [[x t]| |]; cbn [rbind]; [|reflexivity|reflexivity]. now rewrite IH.
Qed.
Lemma sample_n_length n : forall s xs s', sample_n sample n s = Ret (xs, s') -> length xs = n.
Proof.
  induction n as [|n IH]; intros s xs s'; cbn [sample_n].
  - intros H; injection H as <- <-. reflexivity.
  - destruct (sample s) as [[x t]| |]; cbn [rbind]; try discriminate.
    destruct (sample_n sample n t) as [[ys t']| |] eqn:E; cbn [rbind]; try discriminate.
    intros H; injection H as <- <-. cbn. now rewrite (IH _ _ _ E).
Qed.
Lemma sample_n_add n m : forall s, sample_n sample (n + m) s =
  rbind (sample_n sample n s) (fun '(xs, s1) => rbind (sample_n sample m s1) (fun '(ys, s2) => Ret (xs ++ ys, s2))).
Proof.
  induction n as [|n IH]; intros s; cbn [sample_n Nat.add rbind].
  - destruct (sample_n sample m s) as [[ys t]| |]; reflexivity.
  - destruct (sample s) as [[x t]| |]; cbn [rbind]; try reflexivity. rewrite IH.
    destruct (sample_n sample n t) as [[ys t']| |]; cbn [rbind]; try reflexivity.
    destruct (sample_n sample m t') as [[zs t'']| |]; reflexivity.
Qed.
Lemma sample_n_total n : (forall s, exists x s', sample s = Ret (x, s')) -> forall s, exists xs s', sample_n sample n s = Ret (xs, s').
Proof.
  intros H. induction n as [|n IH]; intros s; cbn [sample_n]; [eauto|].
  destruct (H s) as (x & t & ->). cbn [rbind]. destruct (IH t) as (xs & t' & ->). cbn. eauto.
Qed.
Lemma sampler_next_some s o s' : sampler_next sample s = Ret (o, s') -> exists x, o = Some x /\ sample s = Ret (x, s').
Proof. unfold sampler_next. destruct (sample s) as [[x t]| |]; cbn; try discriminate. intros H; injection H as <- <-. eauto. Qed.
End Sampling.

Section Mutual.
Context {X A B : Type} (da : (X -> res B) -> X -> res A) (db : (X -> res A) -> X -> res B).
Context (da_div : forall x g, (forall y, g y = Diverge) -> da g x = Diverge) (db_div : forall x g, (forall y, g y = Diverge) -> db g x = Diverge).
Lemma call_none fuel : (forall x, call_a None None da db fuel x = Diverge) /\ (forall x, call_b None None da db fuel x = Diverge).
Proof. induction fuel as [|n [IHa IHb]]; cbn; [auto|]. split; intros x; [apply da_div|apply db_div]; auto. Qed.
End Mutual.

Lemma fold_err {D O E} (f : O -> D -> result O E) l e : fold_left (fun acc rv => and_then acc (fun d => f d rv)) l (Err e) = Err e.
Proof. induction l; cbn; auto. Qed.
