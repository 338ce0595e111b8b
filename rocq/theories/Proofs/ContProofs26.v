(** * Moments that do not exist (Pareto); the BetaPrime mode at alpha = 1 *)
From Coq Require Import Reals Lra Lia Psatz List ZArith.
From Coquelicot Require Import Coquelicot.
From Verif.Num Require Import Scalar XReal.
From Verif.Model Require Import Rust Constraints Probability Params Consts Continuous Continuous3.
From Verif.Spec Require Import DistSpec GammaSpec ResSpec.
From Verif.Proofs Require Import XTac Calc Calc2 Improper GammaFun Subst Mellin HeavyTail Unique ContProofs4 ContProofs11 ContProofs12 ContProofs13 ContProofs14 ContProofs15.
Import ListNotations.
Open Scope R_scope.
Section Pareto.
Import Pareto.
Context (xm al : R) (Hx : 0 < xm) (Ha : 0 < al).
Notation d := (new_unchecked (Fin xm) (Fin al)).
Lemma p_no_central n m l : al <= INR n -> ~ is_expectation xm p_infty (pdf d) (fun x => (x - m) ^ n) l.
Proof.
  intros Hn H. assert (P := Rpower_pos xm al).
  apply (heavy_tail_lo xm (fun x => al * Rpower xm al * Rpower x (- al - 1)) (xm + 1) (al * Rpower xm al) al m l n).
  - split; cbn; [lra|exact I].
  - intros x [H0 _]; cbn in H0. unfold Rpower. cont_auto. lra.
  - lra. - pos. - intros; lra. - exact Hn.
  - revert H. unfold is_expectation. apply (is_RInt_gen_inside xm p_infty); [exact I|]. intros x [H0 _]; cbn in H0. unfold rf. rewrite p_pdf by lra. reflexivity.
Qed.
Lemma p_no_mean m : al <= 1 -> ~ is_mean xm p_infty (pdf d) m.
Proof.
  intros Hq H. apply (p_no_central 1 0 m Hq). revert H. unfold is_mean, is_expectation. apply (is_RInt_gen_inside xm p_infty); [exact I|]. intros x _. cbn [pow]. ring.
Qed.
Lemma p_no_variance m v : al <= 2 -> ~ is_variance xm p_infty (pdf d) m v.
Proof.
  intros Hq [_ H]. apply (p_no_central 2 m v ltac:(cbn; lra)). revert H. unfold is_expectation. apply (is_RInt_gen_inside xm p_infty); [exact I|]. intros x _. cbn [pow]. ring.
Qed.
Lemma p_skewness_iff : returned_iff_exists (skewness d) (is_skewness xm p_infty (pdf d)).
Proof.
  destruct (Rle_dec al 3) as [H|H].
  - unfold skewness. cbn [pr new_unchecked]. xs. rewrite Rleb_true by lra. cbn [returned_iff_exists]. intros (v & m & w & _ & _ & E). revert E. apply p_no_central. cbn; lra.
  - destruct (p_skewness xm al Hx Ha ltac:(lra)) as (s & -> & E). exists s. auto.
Qed.
Lemma p_kurtosis_iff : returned_iff_exists (excess_kurtosis d) (fun e => is_kurtosis xm p_infty (pdf d) (e + 3)).
Proof.
  destruct (Rle_dec al 4) as [H|H].
  - unfold excess_kurtosis. cbn [pr new_unchecked]. xs. rewrite Rleb_true by lra. cbn [returned_iff_exists]. intros (v & m & w & _ & _ & E). revert E. apply p_no_central. cbn; lra.
  - destruct (p_kurtosis xm al Hx Ha ltac:(lra)) as (s & -> & E). exists s. auto.
Qed.
End Pareto.
Section BP.
Import BetaPrime.
Context {SP : Special xreal} (Hg : beta_exact SP) (b : R) (Hb : 0 < b).
Notation d := (new_unchecked (Fin 1) (Fin b)).
Lemma bp_modes_1 : modes d <> [] /\ all_return (modes d) (is_mode 0 p_infty (pdf d)).
Proof.
  assert (L1 : 0 < 1) by lra. assert (G := Bet_pos 1 b L1 Hb). unfold modes; cbn [pr alpha beta new_unchecked]. xs. rewrite (Rleb_true 1 1) by lra. split; [discriminate|]. intros y [<-|[]]. xs.
  eexists; split; [reflexivity|]. replace ((1 - 1) / (b + 1)) with 0 by (field; lra). exists (/ Bet 1 b). split.
  - unfold pdf. cbn [pr alpha beta new_unchecked]. rewrite sfb by (auto; lra). xs. replace (1 - 1) with 0 by ring. rewrite x_powf_0_0. xs. rewrite Rplus_0_r, Rpower_1_base. f_equal. field. lra.
  - intros x Hx. eexists; split; [apply (bp_pdf Hg); auto|]. apply in0f in Hx. rewrite bp_u by auto. replace (1 - 1) with 0 by ring. rewrite Rpower_O by auto.
    rewrite <- (Rmult_1_l (/ Bet 1 b)). unfold Rdiv. apply Rmult_le_compat_r; [left; pos|]. rewrite Rmult_1_l. apply Rle_trans with (Rpower (1 + x) 0); [|rewrite Rpower_O; lra]. apply Rle_Rpower; lra.
Qed.
End BP.
