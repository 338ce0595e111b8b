(** * An exact BLAS/LAPACK: the hypotheses [lapack_ok] can be met *)
From Coq Require Import Reals Lra Lia List Arith.
From Verif.Num Require Import XReal.
From Verif.Model Require Import Linalg.
From Verif.Spec Require Import MvSpec LapackSpec.
From Verif.Proofs Require Import Matrix.
Open Scope R_scope.

Definition vm (X : nat -> nat -> xreal) (i j : nat) : R := val (X i j).
Definition xla : Lapack xreal := {|
  dpotrf_U n X i j := if Nat.leb i j then Fin (chol n (upper_sym (vm X)) j i) else X i j;
  dtrtri_UN n X i j := if Nat.leb i j then Fin (tinv n (triu (vm X)) i j) else X i j;
  dgemm_NT n X Y i j := Fin (mmul n (vm X) (transp (vm Y)) i j);
  dtrmv_UTN n X x i := Fin (rsum n (fun k => triu (vm X) k i * val (x k)))
|}.
Lemma holds_vm n X A : holds n X A -> meq n A (vm X).
Proof. intros H i j Hi Hj. unfold vm. now rewrite H. Qed.
Lemma triu_ext n A B : meq n A B -> meq n (triu A) (triu B).
Proof. intros H i j Hi Hj. unfold triu. destruct (Nat.ltb j i); [reflexivity|auto]. Qed.
Lemma upper_sym_ext n A B : meq n A B -> meq n (upper_sym A) (upper_sym B).
Proof. intros H i j Hi Hj. unfold upper_sym. apply H; lia. Qed.
Theorem xla_ok : lapack_ok xla.
Proof.
  constructor.
  - intros n X A HX HS. assert (E := holds_vm n X A HX).
    assert (HS' : spd n (upper_sym (vm X))) by (apply (spd_ext n (upper_sym A)); [now apply upper_sym_ext|auto]).
    exists (fun i j => if Nat.leb i j then chol n (upper_sym (vm X)) j i else A i j). split; [|split; [|split]].
    + intros i j Hi Hj. cbn [dpotrf_U xla]. destruct (Nat.leb i j); [reflexivity|auto].
    + intros i j Hij. destruct (Nat.leb_spec i j); [lia|reflexivity].
    + intros i Hi. rewrite Nat.leb_refl. now apply chol_diag.
    + intros i j Hi Hj. rewrite (upper_sym_ext n _ _ E i j Hi Hj), <- (chol_ok n _ HS' i j Hi Hj).
      apply rsum_ext; intros k Hk. unfold transp, triu.
      destruct (Nat.ltb_spec i k), (Nat.ltb_spec j k), (Nat.leb_spec k i), (Nat.leb_spec k j); try lia; try reflexivity;
        rewrite ?(chol_lower n _ i k), ?(chol_lower n _ j k) by auto; reflexivity.
  - intros n X A HX HD. assert (E := holds_vm n X A HX).
    exists (fun i j => if Nat.leb i j then tinv n (triu (vm X)) i j else A i j). split; [|split].
    + intros i j Hi Hj. cbn [dtrtri_UN xla]. destruct (Nat.leb i j); [reflexivity|auto].
    + intros i j Hij. destruct (Nat.leb_spec i j); [lia|reflexivity].
    + intros i j Hi Hj. rewrite <- (tinv_ok n (triu (vm X))); auto.
      * apply mmul_ext; auto; [now apply triu_ext|]. intros a b Ha Hb. unfold triu at 1. destruct (Nat.ltb_spec b a), (Nat.leb_spec a b); try lia; [|reflexivity].
        symmetry. now apply tinv_upper.
      * intros a b Ha Hb. unfold triu. destruct (Nat.ltb_spec b a); [reflexivity|lia].
      * intros a Ha. unfold triu. destruct (Nat.ltb_spec a a); [lia|]. rewrite <- E by auto. auto.
  - intros n X Y A B HX HY i j Hi Hj. cbn [dgemm_NT xla]. f_equal. apply mmul_ext; auto; [apply meq_sym; now apply holds_vm|].
    intros a b Ha Hb. unfold transp. symmetry. now apply (holds_vm n Y B HY).
  - intros n X x A v HX Hv i Hi. cbn [dtrmv_UTN xla]. f_equal. apply rsum_ext; intros k Hk. rewrite (Hv k Hk). cbn [val].
    f_equal. symmetry. apply (triu_ext n A (vm X)); auto. now apply holds_vm.
Qed.
