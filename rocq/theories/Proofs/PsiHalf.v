(** * The digamma function at 1/2: psi(1/2) = psi(1) - 2 ln 2 *)
From Coq Require Import Reals Lra Lia Psatz.
From Coquelicot Require Import Coquelicot.
From Verif.Proofs Require Import Calc GammaFun Mellin ContProofs14.
Open Scope R_scope.

Lemma psi_le a b : 0 < a -> a <= b -> psi a <= psi b.
Proof. intros Ha [H|H]; [|subst; lra]. left. replace b with (a + (b - a)) by ring. apply psi_lt; lra. Qed.
Lemma psi_ln x : 0 < x -> psi x <= ln x <= psi x + / x.
Proof.
  intros Hx. destruct (MVT_gen (fun p => ln (Gam p)) x (x + 1) psi) as (c & Hc & E).
  - intros y Hy. rewrite Rmin_left in Hy by lra. apply psi_derive. lra.
  - intros y Hy. rewrite Rmin_left in Hy by lra. apply continuity_pt_filterlim. apply (ex_derive_continuous (fun p => ln (Gam p))). exists (psi y). apply psi_derive. lra.
  - rewrite Rmin_left, Rmax_right in Hc by lra. assert (G := Gam_pos x Hx). rewrite Gam_rec, ln_mult in E by auto.
    assert (E2 : ln x = psi c) by lra. rewrite E2, <- psi_rec by auto. split; apply psi_le; lra.
Qed.
(** psi at n and n + 1/2, from the recurrence *)
Lemma psi_step n : psi (INR n + 1 / 2) + psi (INR n + 1) - 2 * psi (2 * INR n + 1) = psi (1 / 2) - psi 1.
Proof.
  induction n as [|n IH].
  - cbn [INR]. replace (0 + 1 / 2) with (1 / 2) by ring. replace (0 + 1) with 1 by ring. replace (2 * 0 + 1) with 1 by ring. ring.
  - rewrite <- IH, S_INR. assert (P := pos_INR n). set (x := INR n) in *.
    replace (x + 1 + 1 / 2) with ((x + 1 / 2) + 1) by ring. replace (2 * (x + 1) + 1) with (2 * x + 1 + 1 + 1) by ring.
    rewrite (psi_rec (x + 1)), (psi_rec (x + 1 / 2)), (psi_rec (2 * x + 1 + 1)), (psi_rec (2 * x + 1)) by lra. field. lra.
Qed.
Lemma psi_half : psi (1 / 2) = psi 1 - 2 * ln 2.
Proof.
  apply Rminus_diag_uniq.
  (* |psi(1/2) - psi 1 + 2 ln 2| <= 4 / n for every n >= 1 *)
  apply cond_eq. intros eps He. rewrite Rminus_0_r.
  destruct (nfloor_ex (4 / eps)) as [n [_ Hn]]; [left; apply Rdiv_lt_0_compat; lra|].
  set (x := INR n + 1) in *. assert (P := pos_INR n). assert (Hx : 0 < x) by (unfold x; lra).
  assert (B : 4 / x < eps).
  { apply Rmult_lt_reg_r with x; auto. replace (4 / x * x) with 4 by (field; lra). apply Rmult_lt_reg_r with (/ eps); [now apply Rinv_0_lt_compat|].
    replace (eps * x * / eps) with x by (field; lra). exact Hn. }
  assert (S := psi_step (n + 1)). rewrite plus_INR in S. cbn [INR] in S. fold x in S.
  assert (A1 := psi_ln x Hx). assert (A2 := psi_ln (2 * x) ltac:(lra)). assert (A3 := psi_le x (x + 1 / 2) Hx ltac:(lra)). assert (A4 := psi_le (x + 1 / 2) (x + 1) ltac:(lra) ltac:(lra)).
  rewrite (psi_rec x) in * by auto. rewrite (psi_rec (2 * x)) in S by lra. rewrite ln_mult in A2 by lra.
  assert (I2 : / (2 * x) = / x / 2) by (field; lra). rewrite I2 in *. assert (0 < / x) by now apply Rinv_0_lt_compat.
  assert (B' : 4 * / x < eps) by exact B. apply Rabs_def1; lra.
Qed.
