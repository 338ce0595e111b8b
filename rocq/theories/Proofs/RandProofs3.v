(** * Discrete samplers by inversion, and an instance of [rand_distr_ok] *)
From Coq Require Import Reals Lra Lia Psatz List ZArith.
From Coquelicot Require Import Coquelicot.
From Flocq Require Import Core.Raux.
From Verif.Num Require Import Scalar XReal.
From Verif.Model Require Import Rust Samplers.
From Verif.Spec Require Import DistSpec DiscreteSpec GammaSpec RandSpec.
From Verif.Proofs Require Import XTac Calc Calc2 Improper GammaFun DiscProofs2 DiscProofs3 DiscProofs7 Oracle RandProofs RandProofs2.
Open Scope R_scope.

Definition dinv (law : nat -> R) (u : R) : Z :=
  Z.abs (Zfloor (real (Lub_Rbar (fun x => x = 0 \/ exists k : nat, x = INR k + 1 /\ sum_n law k < u)))).
Definition dinv_draw (law : nat -> R) (s : xreal) : res (Z * xreal) := Ret (dinv law (val s), s).
Section Disc.
Context (law : nat -> R) (HL : is_law law).
Lemma sum_mono k j : (k <= j)%nat -> sum_n law k <= sum_n law j.
Proof. induction 1; [lra|]. rewrite sum_Sn. change (plus ?a ?b) with (a + b). generalize (law_nonneg law HL (S m)). lra. Qed.
Lemma dinv_first u : 0 < u < 1 -> exists n, u <= sum_n law n /\ (forall k, (k < n)%nat -> sum_n law k < u) /\ dinv law u = Z.of_nat n.
Proof.
  intros Hu.
  assert (X : exists n, u <= sum_n law n).
  { assert (T := law_total law HL). assert (V : locally 1 (fun v => u < v)) by (apply (open_gt u); lra).
    destruct (T _ V) as [N HN]. exists N. left. apply (HN N). lia. }
  assert (X' : exists n, u <= sum_n law n /\ forall k, (k < n)%nat -> sum_n law k < u).
  { destruct X as [N HN]. revert HN. induction N as [N IH] using lt_wf_ind. intros HN.
    destruct (Compare_dec.le_gt_dec N 0) as [L0|L0].
    - exists N. split; [auto|]. intros k Hk. lia.
    - destruct (Rle_dec u (sum_n law (N - 1))) as [L|L].
      + apply (IH (N - 1)%nat); [lia|auto].
      + exists N. split; [auto|]. intros k Hk. apply Rle_lt_trans with (sum_n law (N - 1)); [apply sum_mono; lia|lra]. }
  destruct X' as (n & H1 & H2). exists n. split; [auto|]. split; [auto|]. unfold dinv.
  replace (Lub_Rbar _) with (Finite (INR n)).
  - cbn [real]. rewrite INR_IZR_INZ, Zfloor_IZR. lia.
  - symmetry. apply is_lub_Rbar_unique. split.
    + intros x [E | (k & E & L)]; subst x; cbn; [apply pos_INR|]. rewrite <- S_INR. apply le_INR. apply Compare_dec.not_gt. intros G.
      assert (A := sum_mono n k ltac:(lia)). lra.
    + intros b Hb. destruct n as [|n].
      * apply Hb. now left.
      * rewrite S_INR. apply Hb. right. exists n. split; [reflexivity|]. apply H2. lia.
Qed.
Lemma dinv_iff u k : 0 < u < 1 -> (dinv law u = Z.of_nat k <-> sum_n law k - law k < u <= sum_n law k).
Proof.
  intros Hu. destruct (dinv_first u Hu) as (n & H1 & H2 & ->).
  assert (P : forall k, sum_n law k - law k = match k with O => 0 | S j => sum_n law j end).
  { intros [|j]; [rewrite sum_O; lra|]. rewrite sum_Sn. change (plus ?a ?b) with (a + b). lra. }
  rewrite P. split.
  - intros E. apply Nat2Z.inj in E. subst k. split; [|auto]. destruct n as [|n]; [lra|]. apply H2. lia.
  - intros [A B]. f_equal. destruct (Compare_dec.lt_eq_lt_dec n k) as [[L|L]|L]; [|auto|].
    + destruct k as [|k]; [lia|]. assert (C := sum_mono n k ltac:(lia)). lra.
    + specialize (H2 k L). lra.
Qed.
Lemma dinv_law : law_mass Pr0 law (dinv_draw law).
Proof.
  split; [intros s; eexists _, _; split; [reflexivity|unfold dinv; lia]|]. intros k.
  assert (A : sum_n law k <= 1) by now apply law_partial_le. assert (B : 0 <= sum_n law k - law k).
  { destruct k as [|k]; [rewrite sum_O; lra|]. rewrite sum_Sn. change (plus ?a ?b) with (a + b). assert (Q := sum_n_nonneg law k (law_nonneg law HL)). lra. }
  apply (Pr0_intro _ _ (sum_n law k - law k)); [exact B|lra|]. intros u Hu. unfold yields, dinv_draw. cbn [val].
  replace (sum_n law k - law k + law k) with (sum_n law k) by lra. rewrite <- dinv_iff by auto. split.
  - intros (a & s' & E & ->). now injection E as E _.
  - intros E. eexists _, _. split; [reflexivity|]. exact E.
Qed.
End Disc.

Definition uinv_draw (a b : Z) (s : xreal) : res (Z * xreal) := Ret ((a + Zceil (val s * IZR (b - a + 1)) - 1)%Z, s).
Lemma uinv_law a b k : (a <= b)%Z -> (a <= k <= b)%Z -> Pr0 (yields (uinv_draw a b) (fun v => v = k)) (/ IZR (b - a + 1)).
Proof.
  intros H Hk. set (n := IZR (b - a + 1)). assert (Hn : 0 < n) by (apply IZR_lt; lia).
  assert (K0 : 0 <= IZR (k - a)) by (apply IZR_le; lia). assert (K1 : IZR (k - a) + 1 <= n) by (unfold n; rewrite <- plus_IZR; apply IZR_le; lia).
  apply (Pr0_intro _ _ (IZR (k - a) / n)); [pos| |].
  { replace (IZR (k - a) / n + / n) with ((IZR (k - a) + 1) / n) by (field; lra). apply Rle_div_l; lra. }
  intros u Hu. replace (IZR (k - a) / n + / n) with ((IZR (k - a) + 1) / n) by (field; lra). unfold yields, uinv_draw. cbn [val]. fold n. split.
  - intros (v & s' & E & ->). injection E as E _. assert (EZ : Zceil (u * n) = (k - a + 1)%Z) by lia.
    assert (A := Zceil_ub (u * n)). assert (B := Zceil_lb (u * n)). rewrite EZ, plus_IZR in A, B.
    split; [apply Rlt_div_l; lra|apply Rle_div_r; lra].
  - intros [A B]. apply Rlt_div_l in A; [|lra]. apply Rle_div_r in B; [|lra]. eexists _, _. split; [reflexivity|]. cbv beta.
    rewrite (Zceil_imp (k - a + 1) (u * n)); [lia|]. rewrite plus_IZR. replace (k - a + 1 - 1)%Z with (k - a)%Z by lia. lra.
Qed.

#[local] Instance inv_rd : RandDistr xreal xreal := {
  rd_exp := fun l => inv_draw 0 p_infty (exp_density (val l));
  rd_cauchy := fun m g => inv_draw m_infty p_infty (cauchy_density (val m) (val g));
  rd_pareto := fun xm al => inv_draw (val xm) p_infty (pareto_density (val xm) (val al));
  rd_weibull := fun l k => inv_draw 0 p_infty (weibull_density (val l) (val k));
  rd_triangular := fun a b c => inv_draw (val a) (val b) (triangular_density (val a) (val b) (val c));
  rd_log_normal := fun m s => inv_draw 0 p_infty (log_normal_density (val m) (val s));
  rd_beta := fun a b => inv_draw 0 1 (beta_density (Bet (val a) (val b)) (val a) (val b));
  rd_chi_squared := fun k => inv_draw 0 p_infty (chi_squared_density (Gam (val k / 2)) (val k));
  rd_fisher_f := fun m n => inv_draw 0 p_infty (fisher_density (Bet (val m / 2) (val n / 2)) (val m) (val n));
  rd_student_t := fun n => inv_draw m_infty p_infty (student_density (Gam ((val n + 1) / 2)) (Gam (val n / 2)) (val n));
  rd_binomial := fun n p => dinv_draw (binomial_law (Z.to_nat n) (val p));
  rd_poisson := fun l s => Ret (Fin (IZR (dinv (poisson_law (val l)) (val s))), s);
  rd_geometric := fun p => dinv_draw (geometric_law (val p));
  rd_uniform_i64 := uinv_draw }.
Lemma inv_rd_ok : rand_distr_ok Pr0 inv_rd.
Proof.
  split; cbn [inv_rd rd_exp rd_cauchy rd_pareto rd_weibull rd_triangular rd_log_normal rd_beta rd_chi_squared rd_fisher_f rd_student_t rd_binomial rd_poisson rd_geometric rd_uniform_i64 val].
  - intros l Hl. apply dk_law. now apply te_ok.
  - intros m g Hg. apply dk_law. now apply tc_ok.
  - intros xm al Hx Ha. apply dk_law. now apply tp_ok.
  - intros l k Hl Hk. apply dk_law. now apply tw_ok.
  - intros a b c [H1 H2]. assert (K := tt_ok a (c - a) (b - c) ltac:(lra) ltac:(lra)). replace (a + (c - a)) with c in K by ring. replace (c + (b - c)) with b in K by ring. now apply dk_law.
  - intros m s Hs. assert (K := tl_ok (SP := exact false) (fun x => eq_refl) m (s * s) (Rmult_lt_0_compat _ _ Hs Hs)). rewrite sqrt_square in K by lra. now apply dk_law.
  - intros a b B Ha Hb HB. rewrite (Beta_unique a b B (Bet a b) HB (Bet_spec a b Ha Hb)). apply dk_law. now apply tb_ok.
  - intros k G Hk HG. rewrite (Gamma_unique (k / 2) G (Gam (k / 2)) HG (Gam_spec (k / 2) ltac:(lra))). apply dk_law. now apply tx_ok.
  - intros m n B Hm Hn HB. rewrite (Beta_unique _ _ B _ HB (Bet_spec (m / 2) (n / 2) ltac:(lra) ltac:(lra))). apply dk_law. now apply tf_ok.
  - intros n G1 G2 Hn HG1 HG2. rewrite (Gamma_unique _ G1 _ HG1 (Gam_spec ((n + 1) / 2) ltac:(lra))), (Gamma_unique _ G2 _ HG2 (Gam_spec (n / 2) ltac:(lra))). apply dk_law. now apply ts_ok.
  - intros n p Hp _. rewrite Nat2Z.id. apply dinv_law. now apply blaw_is_law.
  - intros l Hl. assert (L : is_law (poisson_law l)) by now apply plaw_is_law. destruct (dinv_law _ L) as [A B]. split.
    + intros s. eexists _, _. split; [reflexivity|]. exists (Z.to_nat (dinv (poisson_law l) (val s))). rewrite INR_IZR_INZ, Z2Nat.id; [reflexivity|unfold dinv; lia].
    + intros k. apply (Pr0_ext (yields (dinv_draw (poisson_law l)) (fun v => v = Z.of_nat k))); [|apply B]. intros s. unfold yields, dinv_draw. split.
      * intros (a & s' & E & ->). injection E as E _. eexists _, _. split; [reflexivity|]. rewrite E. now rewrite INR_IZR_INZ.
      * intros (a & s' & E & ->). injection E as E _. eexists _, _. split; [reflexivity|]. apply eq_IZR. now rewrite <- INR_IZR_INZ.
  - intros p Hp. apply dinv_law. now apply glaw_is_law.
  - intros a b H k Hk. now apply uinv_law.
Qed.
