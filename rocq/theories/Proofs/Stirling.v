(** * Stirling's formula with explicit error, and logarithms by the atanh series *)
From Coq Require Import Reals Lra Lia Psatz Arith ZArith List.
From Coquelicot Require Import Coquelicot.
From Verif.Spec Require Import DistSpec.
From Verif.Proofs Require Import Calc XTac GammaFun ContProofs20.
Open Scope R_scope.

Definition lath (t : R) : R := ln (1 + t) - ln (1 - t).
Lemma in11 t : inside (-1) 1 t <-> -1 < t < 1.
Proof. unfold inside; cbn. tauto. Qed.
Lemma lath_derive t : -1 < t < 1 -> is_derive lath t (2 / (1 - t * t)).
Proof. intros H. unfold lath. auto_derive; [lra|]. assert (1 - t * t <> 0) by nra. field. repeat split; nra. Qed.
Lemma lath_0 : lath 0 = 0. Proof. unfold lath. rewrite Rplus_0_r, Rminus_0_r. ring. Qed.
Lemma mono11 (G g : R -> R) t : (forall x, -1 < x < 1 -> is_derive G x (g x)) -> (forall x, -1 < x < 1 -> 0 <= g x) -> 0 <= t < 1 -> G 0 <= G t.
Proof. intros H K Ht. apply (mono_inside (-1) 1 G g); try (apply in11; lra); try lra; intros x Hx; apply in11 in Hx; auto. Qed.

(** ** the step of the Stirling error *)
Lemma lath_upper t : 0 <= t < 1 -> lath t <= 2 * t + 2 / 3 * (t * t * t) / (1 - t * t).
Proof.
  intros Ht. set (G := fun t => 2 * t + 2 / 3 * (t * t * t) / (1 - t * t) - lath t). assert (K : G 0 <= G t).
  { apply (mono11 G (fun t => 4 / 3 * (t * t * (t * t)) / ((1 - t * t) * (1 - t * t)))); auto.
    - intros x Hx. assert (0 < 1 - x * x) by nra. assert (L := lath_derive x Hx).
      eapply is_derive_ext_eq; [|apply (is_derive_minus (fun t => 2 * t + 2 / 3 * (t * t * t) / (1 - t * t)) lath x _ _ ltac:(auto_derive; [lra|reflexivity]) L)].
      unfold minus, plus, opp; cbn. field. lra.
    - intros x Hx. assert (0 < 1 - x * x) by nra. apply Rmult_le_pos; [|left; apply Rinv_0_lt_compat; nra]. apply Rmult_le_pos; [lra|]. assert (0 <= x * x) by nra. nra. }
  unfold G in K. rewrite lath_0 in K. replace (2 * 0 + 2 / 3 * (0 * 0 * 0) / (1 - 0 * 0) - 0) with 0 in K by field. lra.
Qed.
Lemma lath_lower t : 0 <= t < 1 ->
  2 * t + 2 / 3 * (t * t * t) / (1 - t * t) - 4 / 45 * (t * t * (t * t) * t * (3 + t * t)) / ((1 - t * t) * (1 - t * t) * (1 - t * t)) <= lath t.
Proof.
  intros Ht. set (G := fun t => lath t - (2 * t + 2 / 3 * (t * t * t) / (1 - t * t) - 4 / 45 * (t * t * (t * t) * t * (3 + t * t)) / ((1 - t * t) * (1 - t * t) * (1 - t * t)))).
  assert (K : G 0 <= G t).
  { apply (mono11 G (fun t => 4 / 45 * (t * t * (t * t)) * (40 * (t * t) - 16 * (t * t * (t * t))) / ((1 - t * t) * (1 - t * t) * ((1 - t * t) * (1 - t * t))))); auto.
    - intros x Hx. assert (0 < 1 - x * x) by nra. assert (L := lath_derive x Hx). unfold G.
      eapply is_derive_ext_eq; [|eapply (is_derive_minus lath (fun t => 2 * t + 2 / 3 * (t * t * t) / (1 - t * t) - 4 / 45 * (t * t * (t * t) * t * (3 + t * t)) / ((1 - t * t) * (1 - t * t) * (1 - t * t))) x); [exact L|auto_derive; [split; [lra|]; split; [repeat apply Rmult_integral_contrapositive_currified; lra|exact I]|reflexivity]]].
      unfold minus, plus, opp; cbn. field. lra.
    - intros x Hx. assert (0 < 1 - x * x) by nra. assert (0 <= x * x) by nra. apply Rmult_le_pos; [|left; apply Rinv_0_lt_compat; pos]. nra. }
  unfold G in K. rewrite lath_0 in K. match type of K with ?a <= _ => replace a with 0 in K by field end. lra.
Qed.

(** s(x) is Stirling's approximation of ln Gamma(x) *)
Definition stir (x : R) : R := (x - 1 / 2) * ln x - x + 1 / 2 * ln (2 * PI) + 1 / (12 * x).
Lemma stir_step x : 0 < x -> 0 <= stir x + ln x - stir (x + 1) <= 1 / (360 * (x * x * x)) - 1 / (360 * ((x + 1) * (x + 1) * (x + 1))).
Proof.
  intros Hx. set (t := / (2 * x + 1)). assert (Ht : 0 < t < 1). { unfold t. split; [pos|]. rewrite <- Rinv_1. apply Rinv_lt_contravar; lra. }
  assert (Ex : x = (1 - t) / (2 * t)). { unfold t. field. lra. }
  assert (El : lath t = ln (x + 1) - ln x).
  { unfold lath. replace (1 + t) with (2 * t * (x + 1)) by (rewrite Ex; field; lra). replace (1 - t) with (2 * t * x) by (rewrite Ex; field; lra).
    rewrite (ln_mult (2 * t) (x + 1)), (ln_mult (2 * t) x) by lra. ring. }
  assert (ES : stir x + ln x - stir (x + 1) = (2 * t + 2 / 3 * (t * t * t) / (1 - t * t) - lath t) / (2 * t)).
  { rewrite El. unfold stir. assert (0 < 1 - t * t) by nra. 
    replace ((2 * t + 2 / 3 * (t * t * t) / (1 - t * t) - (ln (x + 1) - ln x)) / (2 * t)) with (1 + 1 / (12 * x * (x + 1)) - (x + 1 / 2) * (ln (x + 1) - ln x)).
    - field. lra.
    - set (D := ln (x + 1) - ln x). assert (A1 : 1 / (12 * x * (x + 1)) = t * t / (3 * (1 - t * t))) by (replace (12 * x * (x + 1)) with (3 * (1 - t * t) / (t * t)) by (rewrite Ex; field; lra); field; lra).
      assert (A2 : x + 1 / 2 = / (2 * t)) by (rewrite Ex; field; lra). rewrite A1, A2. field. lra. }
  assert (EB : 1 / (360 * (x * x * x)) - 1 / (360 * ((x + 1) * (x + 1) * (x + 1))) = 4 / 45 * (t * t * (t * t) * t * (3 + t * t)) / ((1 - t * t) * (1 - t * t) * (1 - t * t)) / (2 * t)).
  { assert (0 < 1 - t * t) by nra. replace (x + 1) with ((1 + t) / (2 * t)) by (rewrite Ex; field; lra). rewrite Ex. field. repeat split; nra. }
  rewrite ES, EB. assert (U := lath_upper t ltac:(lra)). assert (L := lath_lower t ltac:(lra)). assert (0 < / (2 * t)) by pos. split.
  - apply Rmult_le_pos; lra.
  - apply Rmult_le_compat_r; lra.
Qed.

(** the error of the approximation at n *)
Definition serr (n : nat) : R := stir (INR n + 1) - ln (INR (fact n)).
Definition sb (n : nat) : R := 1 / (360 * ((INR n + 1) * (INR n + 1) * (INR n + 1))).
Lemma sb_pos n : 0 < sb n. Proof. unfold sb. assert (K := pos_INR n). assert (0 < INR n + 1) by lra. assert (0 < 360 * ((INR n + 1) * (INR n + 1) * (INR n + 1))) by pos. pos. Qed.
Lemma ln_fact_S n : ln (INR (fact (S n))) = ln (INR n + 1) + ln (INR (fact n)).
Proof. assert (K := pos_INR n). rewrite fact_simpl, mult_INR, S_INR, ln_mult; [reflexivity|lra|apply INR_fact_lt_0]. Qed.
Lemma serr_step n : 0 <= serr n - serr (S n) <= sb n - sb (S n).
Proof.
  assert (K := pos_INR n). unfold serr, sb. rewrite ln_fact_S, S_INR. assert (Q := stir_step (INR n + 1) ltac:(lra)). lra.
Qed.
Lemma serr_diff n k : 0 <= serr n - serr (n + k) <= sb n - sb (n + k).
Proof.
  induction k; [rewrite Nat.add_0_r; lra|]. rewrite Nat.add_succ_r. assert (Q := serr_step (n + k)). lra.
Qed.
(** Gamma(n + 1/2), from the duplication of factorials *)
Lemma Gam_fact n : Gam (INR n + 1) = INR (fact n).
Proof. apply (Gamma_unique (INR n + 1)); [apply Gam_spec; generalize (pos_INR n); lra|apply Gamma_fact]. Qed.
Lemma Gam_half_n n : Gam (INR n + 1 / 2) * (4 ^ n * INR (fact n)) = INR (fact (2 * n)) * sqrt PI.
Proof.
  induction n.
  - cbn [INR]. replace (0 + 1 / 2) with (1 / 2) by ring. rewrite Gam_half. cbn. ring.
  - rewrite S_INR. replace (INR n + 1 + 1 / 2) with (INR n + 1 / 2 + 1) by ring. assert (K := pos_INR n). rewrite Gam_rec by lra.
    replace (2 * S n)%nat with (S (S (2 * n))) by lia. rewrite !fact_simpl, !mult_INR, !S_INR, mult_INR. cbn [pow].
    replace (INR 2) with 2 by reflexivity.
    replace ((INR n + 1 / 2) * Gam (INR n + 1 / 2) * (4 * 4 ^ n * ((INR n + 1) * INR (fact n)))) with ((INR n + 1 / 2) * 4 * (INR n + 1) * (Gam (INR n + 1 / 2) * (4 ^ n * INR (fact n)))) by ring.
    rewrite IHn. field.
Qed.
Lemma ln_fact n : ln (INR (fact (S n))) = stir (INR n + 1) + ln (INR n + 1) - serr n.
Proof. unfold serr. rewrite ln_fact_S. ring. Qed.
(** twice the error at n, less that at 2n+1, tends to zero *)
Lemma wallis_err n : let x := INR n + 1 in - (1 / x) <= 2 * serr n - serr (S (2 * n)) <= 1 / x.
Proof.
  intros x. assert (K := pos_INR n). assert (Hx : 1 <= x) by (unfold x; lra).
  set (c := Gam (x + 1 / 2)). assert (Hc : 0 < c) by (apply Gam_pos; lra).
  assert (E := Gam_half_n (S n)). rewrite S_INR in E. fold x c in E.
  assert (EG : Gam x = INR (fact n)) by apply Gam_fact. assert (F0 := INR_fact_lt_0 n).
  assert (U : c <= sqrt x * INR (fact n)). { rewrite <- EG, <- Rpower_sqrt by lra. replace (/ 2) with (1 / 2) by lra. apply Gam_le; lra. }
  assert (Lw : x * INR (fact n) <= sqrt (x + 1 / 2) * c).
  { rewrite <- EG, <- Gam_rec by lra. unfold c. rewrite <- Rpower_sqrt by lra. replace (/ 2) with (1 / 2) by lra. replace (x + 1) with (x + 1 / 2 + 1 / 2) by lra. apply Gam_le; lra. }
  assert (S0 : 0 < sqrt x) by (apply sqrt_lt_R0; lra). assert (S1 : 0 < sqrt (x + 1 / 2)) by (apply sqrt_lt_R0; lra).
  assert (UL : ln c <= / 2 * ln x + ln (INR (fact n))).
  { replace (/ 2 * ln x) with (ln (sqrt x)) by (rewrite <- Rpower_sqrt by lra; apply ln_Rpower). rewrite <- ln_mult by auto. destruct U as [U| ->]; [left; now apply ln_increasing|lra]. }
  assert (LL : ln x + ln (INR (fact n)) <= / 2 * ln (x + 1 / 2) + ln c).
  { replace (/ 2 * ln (x + 1 / 2)) with (ln (sqrt (x + 1 / 2))) by (rewrite <- Rpower_sqrt by lra; apply ln_Rpower). rewrite <- !ln_mult by lra.
    destruct Lw as [Lw|Lw]; [left; apply ln_increasing; [pos|exact Lw]|rewrite Lw; lra]. }
  assert (EL : ln c = ln (INR (fact (S (S (2 * n))))) + / 2 * ln PI - (x * ln 4 + ln (INR (fact (S n))))).
  { apply (f_equal ln) in E. replace (2 * S n)%nat with (S (S (2 * n))) in E by lia.
    assert (P1 := INR_fact_lt_0 (S n)). assert (P2 := INR_fact_lt_0 (S (S (2 * n)))). assert (P4 : 0 < 4 ^ S n) by (apply pow_lt; lra).
    rewrite ln_mult in E by (auto; apply Rmult_lt_0_compat; auto). rewrite (ln_mult (4 ^ S n)) in E by auto. rewrite ln_mult in E by (auto; apply sqrt_lt_R0, PI_RGT_0).
    rewrite ln_pow, S_INR in E by lra. fold x in E. rewrite <- (Rpower_sqrt PI), ln_Rpower in E by apply PI_RGT_0. lra. }
  assert (E4 : ln 4 = 2 * ln 2). { replace 4 with (2 * 2) by lra. rewrite ln_mult by lra. ring. }
  assert (EP : ln (2 * PI) = ln 2 + ln PI) by (apply ln_mult; [lra|apply PI_RGT_0]).
  assert (Ef : ln (INR (fact n)) = stir x - serr n) by (unfold serr; fold x; ring).
  assert (E1 := ln_fact n). assert (E2 := ln_fact (S (2 * n))). rewrite S_INR, mult_INR in E2. replace (INR 2 * INR n + 1 + 1) with (2 * x) in E2 by (unfold x; cbn; ring).
  fold x in E1. assert (E2x : ln (2 * x) = ln 2 + ln x) by (apply ln_mult; lra).
  unfold stir in *. rewrite EL, E1, E2, Ef, E2x, E4, EP in *.
  assert (I1 : 1 / (12 * (2 * x)) = / x * / 24) by (field; lra). assert (I2 : 1 / (12 * x) = / x * / 12) by (field; lra). rewrite I1, I2 in *.
  assert (B : ln (x + 1 / 2) - ln x <= 1 / (2 * x)).
  { replace (ln (x + 1 / 2) - ln x) with (ln ((x + 1 / 2) / x)) by (unfold Rdiv at 1; rewrite ln_mult, ln_Rinv by (lra || (apply Rinv_0_lt_compat; lra)); ring).
    assert (Q := ln_le_sub1 ((x + 1 / 2) / x) ltac:(pos)). replace (1 / (2 * x)) with ((x + 1 / 2) / x - 1) by (field; lra). exact Q. }
  replace (1 / (2 * x)) with (/ x * / 2) in B by (field; lra). replace (1 / x) with (/ x) by (field; lra). assert (Ip : 0 < / x) by (apply Rinv_0_lt_compat; lra).
  split; lra.
Qed.
Lemma serr_small n : Rabs (serr n) <= 2 / (INR n + 1).
Proof.
  assert (W := wallis_err n). cbv zeta in W. assert (D := serr_diff n (S n)). replace (n + S n)%nat with (S (2 * n)) in D by lia.
  assert (P := sb_pos (S (2 * n))). assert (K := pos_INR n).
  assert (B : sb n <= 1 / (INR n + 1)).
  { unfold sb. apply Rmult_le_compat_l; [lra|]. apply Rinv_le_contravar; [lra|]. assert (1 <= INR n + 1) by lra. nra. }
  replace (2 / (INR n + 1)) with (1 / (INR n + 1) + 1 / (INR n + 1)) by (field; lra). apply Rabs_le. lra.
Qed.
Theorem serr_bound n : 0 <= serr n <= sb n.
Proof.
  assert (Lim : forall eps, 0 < eps -> exists m, Rabs (serr (n + m)) <= eps).
  { intros eps He. destruct (Rle_dec eps 0) as [?|_]; [lra|]. destruct (archimed_cor1 (eps / 2) ltac:(lra)) as (N & HN & N0). exists N. 
    eapply Rle_trans; [apply serr_small|]. rewrite plus_INR. assert (K := pos_INR n). assert (0 < INR N) by (now apply lt_0_INR).
    apply Rle_trans with (2 * / INR N); [|lra]. apply Rmult_le_compat_l; [lra|]. apply Rinv_le_contravar; lra. }
  split.
  - destruct (Rle_dec 0 (serr n)) as [H|H]; [exact H|exfalso]. destruct (Lim (- serr n / 2) ltac:(lra)) as [m Hm]. assert (D := serr_diff n m). apply Rabs_le_between in Hm. lra.
  - destruct (Rle_dec (serr n) (sb n)) as [H|H]; [exact H|exfalso]. destruct (Lim ((serr n - sb n) / 2) ltac:(lra)) as [m Hm]. assert (D := serr_diff n m). assert (P := sb_pos (n + m)). apply Rabs_le_between in Hm. lra.
Qed.
