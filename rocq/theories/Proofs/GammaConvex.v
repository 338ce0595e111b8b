(** * Strict convexity of ln Gamma, and what it says about the values 1 *)
From Coq Require Import Reals Lra Lia Psatz List ZArith.
From Coquelicot Require Import Coquelicot.
From Verif.Num Require Import XReal.
From Verif.Proofs Require Import XTac Calc Calc2 Improper GammaFun Subst Mellin ContProofs14 ContProofs20 PsiHalf.
Open Scope R_scope.

Lemma Gam_mvt p q : 0 < p -> p < q -> exists c, p < c < q /\ ln (Gam q) - ln (Gam p) = psi c * (q - p).
Proof.
  intros Hp L. destruct (MVT_cor2 (fun x => ln (Gam x)) psi p q L) as (c & E & Hc).
  - intros c Hc. apply is_derive_Reals. apply psi_derive. lra.
  - exists c. split; [exact Hc|]. exact E.
Qed.
Lemma psi_inc p q : 0 < p -> p < q -> psi p < psi q.
Proof. intros Hp L. replace q with (p + (q - p)) by ring. apply psi_lt; lra. Qed.
(** Gamma takes the value 1 at 1 and 2 only *)
Lemma Gam_2 : Gam 2 = 1.
Proof. replace 2 with (1 + 1) by ring. rewrite Gam_rec, Gam_1 by lra. ring. Qed.
Lemma psi_zero p q : 0 < p -> p < q -> Gam p = 1 -> Gam q = 1 -> exists c, p < c < q /\ psi c = 0.
Proof.
  intros Hp L E1 E2. destruct (Gam_mvt p q Hp L) as (c & Hc & E). exists c. split; [auto|]. rewrite E1, E2, ln_1 in E. nra.
Qed.
Lemma Gam_one a : 0 < a -> Gam a = 1 -> a = 1 \/ a = 2.
Proof.
  intros Ha E. destruct (Rtotal_order a 1) as [L|[L|L]]; [exfalso|auto|].
  - destruct (psi_zero a 1 Ha L E Gam_1) as (c & Hc & Z). destruct (psi_zero 1 2 ltac:(lra) ltac:(lra) Gam_1 Gam_2) as (d & Hd & Z').
    assert (I := psi_inc c d ltac:(lra) ltac:(lra)). lra.
  - destruct (Rtotal_order a 2) as [L2|[L2|L2]]; [exfalso|auto|exfalso].
    + destruct (psi_zero 1 a ltac:(lra) L Gam_1 E) as (c & Hc & Z). destruct (psi_zero a 2 ltac:(lra) L2 E Gam_2) as (d & Hd & Z').
      assert (I := psi_inc c d ltac:(lra) ltac:(lra)). lra.
    + destruct (psi_zero 1 2 ltac:(lra) ltac:(lra) Gam_1 Gam_2) as (c & Hc & Z). destruct (psi_zero 2 a ltac:(lra) L2 Gam_2 E) as (d & Hd & Z').
      assert (I := psi_inc c d ltac:(lra) ltac:(lra)). lra.
Qed.
(** half-step growth *)
Lemma Gam_half_step a : 0 < a -> ln (Gam (a + 1 / 2)) - ln (Gam a) < ln a / 2.
Proof.
  intros Ha. destruct (Gam_mvt a (a + 1 / 2) Ha ltac:(lra)) as (c & Hc & E). destruct (Gam_mvt (a + 1 / 2) (a + 1) ltac:(lra) ltac:(lra)) as (d & Hd & E').
  assert (I := psi_inc c d ltac:(lra) ltac:(lra)). assert (G := Gam_pos a Ha). rewrite (Gam_rec a), (ln_mult a) in E' by auto. lra.
Qed.
Lemma Gam_32_lt : Gam (3 / 2) < 1.
Proof.
  replace (3 / 2) with (1 / 2 + 1) by field. rewrite Gam_rec, Gam_half by lra. assert (P := PI_4). assert (P0 := PI_RGT_0).
  assert (S := sqrt_sqrt PI ltac:(lra)). assert (S0 := sqrt_pos PI).
  assert (PI < 4). { assert (Q := PI_ineq 2). unfold tg_alt, PI_tg, sum_f_R0 in Q. cbn in Q. lra. } nra.
Qed.
Lemma Gam_half_inc a : 3 / 2 <= a -> Gam a < Gam (a + 1 / 2).
Proof.
  intros Ha. assert (B : 0 < ln (Gam (3 / 2 + 1 / 2)) - ln (Gam (3 / 2))).
  { replace (3 / 2 + 1 / 2) with 2 by field. rewrite Gam_2, ln_1. assert (G := Gam_pos (3 / 2) ltac:(lra)). assert (L := ln_increasing _ _ G Gam_32_lt). rewrite ln_1 in L. lra. }
  assert (C : 0 < ln (Gam (a + 1 / 2)) - ln (Gam a)).
  { destruct (Req_dec a (3 / 2)) as [E|N]; [now rewrite E|].
    destruct (Gam_mvt (3 / 2) a ltac:(lra) ltac:(lra)) as (c & Hc & E). destruct (Gam_mvt (3 / 2 + 1 / 2) (a + 1 / 2) ltac:(lra) ltac:(lra)) as (d & Hd & E').
    destruct (Rlt_or_le c d) as [L|L].
    - assert (I := psi_inc c d ltac:(lra) L). assert (0 < (psi d - psi c) * (a - 3 / 2)) by (apply Rmult_lt_0_compat; lra). lra.
    - (* d <= c: the slope on [2, a + 1/2] is positive as psi d > psi of the base interval *)
      destruct (Gam_mvt (3 / 2) (3 / 2 + 1 / 2) ltac:(lra) ltac:(lra)) as (e & He & E3).
      assert (Pe : 0 < psi e) by lra.
      destruct (Rle_or_lt 2 a) as [L2|L2].
      + destruct (Gam_mvt a (a + 1 / 2) ltac:(lra) ltac:(lra)) as (f & Hf & Ef). assert (I := psi_inc e f ltac:(lra) ltac:(lra)). lra.
      + assert (psi d > 0) by (assert (I := psi_inc e d ltac:(lra) ltac:(lra)); lra).
        assert (HG : ln (Gam (a + 1 / 2)) > 0). { replace (3 / 2 + 1 / 2) with 2 in E' by field. rewrite Gam_2, ln_1 in E'. assert (0 < psi d * (a + 1 / 2 - 2)) by (apply Rmult_lt_0_compat; lra). lra. }
        assert (HA : ln (Gam a) < 0); [|lra].
        destruct (Rle_or_lt 0 (ln (Gam a))) as [L3|L3]; [exfalso|lra].
        destruct (Gam_mvt a 2 ltac:(lra) L2) as (g & Hg & Eg). rewrite Gam_2, ln_1 in Eg.
        assert (Lc : ln (Gam (3 / 2)) < 0). { assert (G := Gam_pos (3 / 2) ltac:(lra)). assert (L4 := ln_increasing _ _ G Gam_32_lt). rewrite ln_1 in L4. lra. }
        assert (0 < psi c) by nra. assert (I := psi_inc c g ltac:(lra) ltac:(lra)). assert (0 < psi g * (2 - a)) by (apply Rmult_lt_0_compat; lra). lra. }
  assert (Ga := Gam_pos a ltac:(lra)). assert (Gb := Gam_pos (a + 1 / 2) ltac:(lra)). apply ln_lt_inv; lra.
Qed.
