(** * Samples obtained by transforming a uniform variate *)
From Coq Require Import Reals Lra Lia Psatz List ZArith.
From Coquelicot Require Import Coquelicot.
From Verif.Num Require Import Scalar XReal.
From Verif.Model Require Import Rust Constraints Probability Params Consts Continuous Continuous2 Samplers.
From Verif.Spec Require Import DistSpec RandSpec.
From Verif.Proofs Require Import XTac Calc RandProofs.
Open Scope R_scope.

Definition retd {S A} (f : S -> A * S) (s : S) : res (A * S) := Ret (f s).
Lemma from_uniform {S} (Pr : (S -> Prop) -> R -> Prop) lo hi cdf (sd : xreal -> xreal) (draw : S -> xreal * S) a b :
  extensional Pr -> a < b -> uniform_draw Pr a b draw ->
  (forall y, inside lo hi y -> 0 <= rf cdf y <= 1) ->
  (forall u, 0 < u < 1 -> exists x, sd (Fin (a + u * (b - a))) = Fin x) ->
  (forall y, inside lo hi y ->
    (forall u, 0 < u < 1 -> (rf sd (a + u * (b - a)) <= y <-> u <= rf cdf y)) \/
    (forall u, 0 < u < 1 -> (rf sd (a + u * (b - a)) <= y <-> 1 - rf cdf y <= u))) ->
  law_df Pr lo hi cdf (retd (fun s => let (u, s) := draw s in (sd u, s))).
Proof.
  intros HE AB [U1 U2] B01 V SF.
  assert (UU : forall s, exists u, 0 < u < 1 /\ fst (draw s) = Fin (a + u * (b - a))).
  { intros s. destruct (U1 s) as (x & Ex & H1 & H2). exists ((x - a) / (b - a)). split; [|rewrite Ex; f_equal; field; lra].
    split; [apply Rdiv_lt_0_compat; lra|apply Rlt_div_l; lra]. }
  split.
  - intros s. destruct (UU s) as (u & Hu & E). unfold yields, retd. destruct (draw s) as [v s']. cbn [fst] in E. subst v. destruct (V u Hu) as [x Ex].
    eexists _, _. split; [reflexivity|]. eauto.
  - intros y Hy. specialize (B01 y Hy). destruct (U2 _ B01) as [P1 P2]. destruct (SF y Hy) as [K|K].
    + revert P1. apply HE. intros s. destruct (UU s) as (u & Hu & E). specialize (K u Hu). destruct (V u Hu) as [x Ex]. unfold rf in K at 1. rewrite Ex in K. cbn [val] in K.
      unfold yields, retd. destruct (draw s) as [v s']. cbn [fst] in E |- *. subst v. split.
      * intros (z & Ez & L). apply Fin_inj in Ez. subst z. eexists _, _. split; [reflexivity|]. exists x. split; [auto|]. apply K. apply Rplus_le_reg_l in L. apply Rmult_le_reg_r in L; [auto|lra].
      * intros (w & t & Ew & z & Ez & L). injection Ew as Ew _. subst w. rewrite Ex in Ez. apply Fin_inj in Ez. subst z. apply K in L. eexists. split; [reflexivity|]. apply Rplus_le_compat_l, Rmult_le_compat_r; lra.
    + revert P2. apply HE. intros s. destruct (UU s) as (u & Hu & E). specialize (K u Hu). destruct (V u Hu) as [x Ex]. unfold rf in K at 1. rewrite Ex in K. cbn [val] in K.
      unfold yields, retd. destruct (draw s) as [v s']. cbn [fst] in E |- *. subst v. split.
      * intros (z & Ez & L). apply Fin_inj in Ez. subst z. eexists _, _. split; [reflexivity|]. exists x. split; [auto|]. apply K. apply Rplus_le_reg_l in L. apply Rmult_le_reg_r in L; [auto|lra].
      * intros (w & t & Ew & z & Ez & L). injection Ew as Ew _. subst w. rewrite Ex in Ez. apply Fin_inj in Ez. subst z. apply K in L. eexists. split; [reflexivity|]. apply Rplus_le_compat_l, Rmult_le_compat_r; lra.
Qed.
Lemma from_uniform01 {S} (Pr : (S -> Prop) -> R -> Prop) lo hi cdf pdf (sd : xreal -> xreal) (draw : S -> xreal * S) :
  extensional Pr -> uniform_draw Pr 0 1 draw -> coherent lo hi cdf pdf -> samples_from lo hi cdf sd ->
  law_df Pr lo hi cdf (retd (fun s => let (u, s) := draw s in (sd u, s))).
Proof.
  intros HE U [[CV _ _ _] _] [V K]. apply (from_uniform Pr lo hi cdf sd draw 0 1); auto; try lra.
  - intros y Hy. destruct (CV y Hy) as (p & E & B). unfold rf. rewrite E. exact B.
  - intros u Hu. replace (0 + u * (1 - 0)) with u by ring. now apply V.
  - intros y Hy. destruct (K y Hy) as [A|A]; [left|right]; intros u Hu; replace (0 + u * (1 - 0)) with u by ring; now apply A.
Qed.

(** a generator whose state is one uniform variate *)
Definition u01 (s : xreal) : R := if Rlt_dec 0 (val s) then if Rlt_dec (val s) 1 then val s else 1 / 2 else 1 / 2.
Lemma u01_in s : 0 < u01 s < 1. Proof. unfold u01. destruct (Rlt_dec 0 (val s)); [destruct (Rlt_dec (val s) 1)|]; lra. Qed.
Lemma u01_id u : 0 < u < 1 -> u01 (Fin u) = u.
Proof. intros H. unfold u01. cbn [val]. destruct (Rlt_dec 0 u); [destruct (Rlt_dec u 1)|]; lra. Qed.
Definition aff_draw (a b : xreal) (s : xreal) : xreal * xreal := (Fin (val a + u01 s * (val b - val a)), s).
Lemma aff_uniform a b : a < b -> uniform_draw Pr0 a b (aff_draw (Fin a) (Fin b)).
Proof.
  intros AB. split.
  - intros s. eexists. split; [reflexivity|]. cbn [val]. assert (H := u01_in s). split; nra.
  - intros p Hp. unfold aff_draw. cbn [fst val]. split.
    + apply (Pr0_intro _ _ 0); [lra|lra|]. intros u Hu. rewrite u01_id by auto. split.
      * intros (x & E & L). apply Fin_inj in E. subst x. apply Rplus_le_reg_l in L. apply Rmult_le_reg_r in L; lra.
      * intros [_ L]. eexists. split; [reflexivity|]. apply Rplus_le_compat_l, Rmult_le_compat_r; lra.
    + apply (Pr0_intro' _ _ (1 - p)); [lra|lra|]. intros u Hu. rewrite u01_id by auto. split.
      * intros (x & E & L). apply Fin_inj in E. subst x. apply Rplus_le_reg_l in L. apply Rmult_le_reg_r in L; lra.
      * intros [L _]. eexists. split; [reflexivity|]. apply Rplus_le_compat_l, Rmult_le_compat_r; lra.
Qed.
#[local] Instance inv_rng : Rng xreal xreal := {
  gen_f64 := aff_draw (Fin 0) (Fin 1);
  gen_bool := fun p s => (if Rle_dec (u01 s) (val p) then true else false, s);
  draw_uniform := aff_draw;
  draw_uniform_inclusive := aff_draw;
  draw_normal := fun m s st => (m, st);
  draw_std_normal := fun st => (Fin 0, st);
  draw_gamma := fun a b st => (a, st) }.
Lemma Pr0_functional : functional Pr0.
Proof. intros E p q Hp Hq A B. now apply (Pr0_unique E). Qed.
