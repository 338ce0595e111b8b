(** * Moments about an arbitrary centre and scale *)
From Coq Require Import Reals Lra Lia Psatz.
From Coquelicot Require Import Coquelicot.
From Verif.Num Require Import XReal.
From Verif.Spec Require Import DistSpec.
From Verif.Proofs Require Import Calc.
Open Scope R_scope.

Section About.
Context (lo hi : Rbar) (pdf : xreal -> xreal) (c s : R) (M : nat -> R) (Hs : s <> 0).
Notation ab n := (is_expectation lo hi pdf (fun x => ((x - c) / s) ^ n) (M n)).
Context (H0 : M 0%nat = 1).
Lemma about_poly (g : R -> R) c0 c1 c2 c3 c4 m : ab 0%nat -> ab 1%nat -> ab 2%nat -> (c3 <> 0 -> ab 3%nat) -> (c4 <> 0 -> ab 4%nat) ->
  (forall x, g x = c0 + c1 * ((x - c) / s) + c2 * ((x - c) / s) ^ 2 + c3 * ((x - c) / s) ^ 3 + c4 * ((x - c) / s) ^ 4) ->
  m = c0 + c1 * M 1%nat + c2 * M 2%nat + c3 * M 3%nat + c4 * M 4%nat ->
  is_expectation lo hi pdf g m.
Proof.
  intros R0 R1 R2 R3 R4 Eg ->.
  assert (Z : is_expectation lo hi pdf (fun _ => 0) 0).
  { apply exp_eq with (0 * M 0%nat); [|ring]. eapply exp_ext; [|apply (exp_scal _ _ _ 0), R0]. intros; cbn; ring. }
  eapply exp_ext; [exact Eg|].
  apply exp_plus_; [apply exp_plus_; [apply exp_plus_; [apply exp_plus_|]|]|].
  - apply exp_eq with (c0 * M 0%nat); [|rewrite H0; ring]. eapply exp_ext; [|apply exp_scal, R0]. intros; cbn; ring.
  - eapply exp_ext; [|apply exp_scal, R1]. intros; cbn; ring.
  - apply exp_scal, R2.
  - destruct (Req_dec c3 0) as [->|n]; [|now apply exp_scal, R3].
    apply exp_eq with 0; [|ring]. eapply exp_ext; [|exact Z]. intros; cbn; ring.
  - destruct (Req_dec c4 0) as [->|n]; [|now apply exp_scal, R4].
    apply exp_eq with 0; [|ring]. eapply exp_ext; [|exact Z]. intros; cbn; ring.
Qed.
Lemma about_total : ab 0%nat -> is_RInt_gen (rf pdf) (above lo) (below hi) 1.
Proof.
  intros R0. unfold is_expectation in R0. rewrite H0 in R0. revert R0. apply is_RInt_gen_ext. apply filter_forall. intros ab x _. cbn. ring.
Qed.
Lemma mean_about m : ab 0%nat -> ab 1%nat -> m = c + s * M 1%nat -> is_mean lo hi pdf m.
Proof.
  intros R0 R1 ->. unfold is_mean.
  assert (A : is_expectation lo hi pdf (fun x => c * ((x - c) / s) ^ 0 + s * ((x - c) / s) ^ 1) (c * M 0%nat + s * M 1%nat)) by (apply exp_plus_; now apply exp_scal).
  eapply exp_eq; [eapply exp_ext; [|exact A]|rewrite H0; ring]. intros; cbn; field; auto.
Qed.
Lemma variance_about m v : ab 0%nat -> ab 1%nat -> ab 2%nat -> m = c + s * M 1%nat -> v = s ^ 2 * (M 2%nat - M 1%nat ^ 2) -> is_variance lo hi pdf m v.
Proof.
  intros R0 R1 R2 Em ->. split; [now apply mean_about|]. subst m. set (m := M 1%nat).
  apply (about_poly _ (s ^ 2 * m ^ 2) (- 2 * s ^ 2 * m) (s ^ 2) 0 0); auto; try lra; [intros; field; auto|fold m; ring].
Qed.
Lemma skewness_about v sk : ab 0%nat -> ab 1%nat -> ab 2%nat -> ab 3%nat -> v = s ^ 2 * (M 2%nat - M 1%nat ^ 2) -> 0 < v ->
  s ^ 3 * (M 3%nat - 3 * M 1%nat * M 2%nat + 2 * M 1%nat ^ 3) = sk * (v * sqrt v) -> is_skewness lo hi pdf sk.
Proof.
  intros R0 R1 R2 R3 Ev Hv E. exists (c + s * M 1%nat), v. split; [now apply variance_about|]. split; [auto|]. rewrite <- E. set (m := M 1%nat).
  apply (about_poly _ (- s ^ 3 * m ^ 3) (3 * s ^ 3 * m ^ 2) (- 3 * s ^ 3 * m) (s ^ 3) 0); auto; try lra; [intros; field; auto|fold m; ring].
Qed.
Lemma kurtosis_about v k : ab 0%nat -> ab 1%nat -> ab 2%nat -> ab 3%nat -> ab 4%nat -> v = s ^ 2 * (M 2%nat - M 1%nat ^ 2) -> 0 < v ->
  s ^ 4 * (M 4%nat - 4 * M 1%nat * M 3%nat + 6 * M 1%nat ^ 2 * M 2%nat - 3 * M 1%nat ^ 4) = k * (v * v) -> is_kurtosis lo hi pdf k.
Proof.
  intros R0 R1 R2 R3 R4 Ev Hv E. exists (c + s * M 1%nat), v. split; [now apply variance_about|]. split; [auto|]. rewrite <- E. set (m := M 1%nat).
  apply (about_poly _ (s ^ 4 * m ^ 4) (- 4 * s ^ 4 * m ^ 3) (6 * s ^ 4 * m ^ 2) (- 4 * s ^ 4 * m) (s ^ 4)); auto; try lra; [intros; field; auto|fold m; ring].
Qed.
End About.
