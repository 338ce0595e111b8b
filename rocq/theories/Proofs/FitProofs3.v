(** * Maximum likelihood: Bernoulli, Poisson, Normal *)
From Coq Require Import Reals Lra Lia Psatz Arith ZArith List Bool.
From Coquelicot Require Import Coquelicot.
From Verif.Num Require Import Scalar XReal.
From Verif.Model Require Import Rust Constraints Probability Params Consts Traits Discrete Continuous2.
From Verif.Spec Require Import DistSpec DiscreteSpec FitSpec.
From Verif.Proofs Require Import ConstraintProofs NewInv XTac Calc Calc2 Gauss Gauss2 ContProofs9 DiscProofs3 DiscProofs4 FitProofs1.
Import ListNotations.
Open Scope R_scope.

(** ** Bernoulli *)
Definition ntrue (xs : list bool) : nat := length (filter (fun b => b) xs).
Lemma ntf xs : (ntrue xs + nfalse xs = length xs)%nat.
Proof. unfold ntrue, nfalse. induction xs as [|[|] xs IH]; cbn [filter negb length]; lia. Qed.
Lemma ber_count xs : forall a, fold_left (fun (acc : Z) (x : bool) => (acc + (if x then 1 else 0))%Z) xs a = (a + Z.of_nat (ntrue xs))%Z.
Proof. unfold ntrue. induction xs as [|[|] xs IH]; intros a; cbn [filter fold_left length]; [lia| |]; rewrite IH; lia. Qed.
Lemma ber_lik p xs : lik (bmass p) xs = p ^ ntrue xs * (1 - p) ^ nfalse xs.
Proof.
  unfold lik, ntrue, nfalse. induction xs as [|[|] xs IH]; cbn [lprod filter negb length pow]; [ring| |]; rewrite IH; cbn; ring.
Qed.
Lemma pow01 q n : 0 <= q <= 1 -> 0 <= q ^ n <= 1.
Proof. intros H. split; [apply pow_le; lra|]. rewrite <- (pow1 n). apply pow_incr. lra. Qed.
Lemma ber_max (k j : nat) q : (0 < k + j)%nat -> 0 <= q <= 1 ->
  let p := INR k / INR (k + j) in q ^ k * (1 - q) ^ j <= p ^ k * (1 - p) ^ j.
Proof.
  intros Hn Hq p. assert (Nn : 0 < INR (k + j)) by (apply lt_0_INR; lia). assert (NK := pos_INR k). assert (NJ := pos_INR j). rewrite plus_INR in Nn.
  assert (A := pow01 q k Hq). assert (B := pow01 (1 - q) j ltac:(lra)).
  destruct k as [|k']. { unfold p. cbn [INR]. unfold Rdiv. rewrite Rmult_0_l, Rminus_0_r, pow1. rewrite !pow_O. lra. }
  destruct j as [|j']. { unfold p. rewrite Nat.add_0_r. replace (INR (S k') / INR (S k')) with 1 by (field; apply not_0_INR; lia). rewrite pow1. rewrite !pow_O. lra. }
  set (k := S k') in *. set (j := S j') in *. assert (PK : 0 < INR k) by (apply lt_0_INR; lia). assert (PJ : 0 < INR j) by (apply lt_0_INR; lia).
  assert (Hp : 0 < p < 1). { unfold p. rewrite plus_INR. split; [pos|]. apply (Rmult_lt_reg_r (INR k + INR j)); [lra|]. replace (INR k / (INR k + INR j) * (INR k + INR j)) with (INR k) by (field; lra). lra. }
  assert (PP : 0 <= p ^ k * (1 - p) ^ j) by (apply Rmult_le_pos; apply pow_le; lra).
  destruct (Req_dec q 0) as [->|Q0]; [rewrite (pow_i k) by (unfold k; lia); lra|].
  destruct (Req_dec q 1) as [->|Q1]; [replace (1 - 1) with 0 by ring; rewrite (pow_i j) by (unfold j; lia); lra|].
  assert (Hq' : 0 < q < 1) by lra.
  apply Rle_trans with (exp (ln (q ^ k * (1 - q) ^ j))); [rewrite exp_ln; [lra|apply Rmult_lt_0_compat; apply pow_lt; lra]|].
  rewrite <- (exp_ln (p ^ k * (1 - p) ^ j)) by (apply Rmult_lt_0_compat; apply pow_lt; lra). apply exp_le_mono.
  rewrite !ln_mult, !ln_pow by (try apply pow_lt; lra).
  assert (L1 := ln_le_sub1 (q / p) ltac:(pos)). assert (L2 := ln_le_sub1 ((1 - q) / (1 - p)) ltac:(apply Rdiv_lt_0_compat; lra)).
  unfold Rdiv in L1, L2. rewrite ln_mult, ln_Rinv in L1 by (try apply Rinv_0_lt_compat; lra). rewrite ln_mult, ln_Rinv in L2 by (try apply Rinv_0_lt_compat; lra).
  assert (E : INR k * (q * / p - 1) + INR j * ((1 - q) * / (1 - p) - 1) = 0).
  { unfold p. rewrite plus_INR. field. split; lra. }
  apply (Rmult_le_compat_l (INR k)) in L1; [|lra]. apply (Rmult_le_compat_l (INR j)) in L2; [|lra]. lra.
Qed.
Lemma ber_fit xs : xs <> [] -> Bernoulli.fit_mle (F := xreal) xs = Ok (ber (INR (ntrue xs) / INR (length xs))) /\ 0 <= INR (ntrue xs) / INR (length xs) <= 1.
Proof.
  intros Hx. assert (Hn : (0 < length xs)%nat) by (destruct xs; [congruence|cbn; lia]). apply lt_0_INR in Hn. assert (N := pos_INR (ntrue xs)).
  assert (L : INR (ntrue xs) <= INR (length xs)) by (apply le_INR; assert (Q := ntf xs); lia).
  assert (B : 0 <= INR (ntrue xs) / INR (length xs) <= 1). { split; [pos|]. apply (Rmult_le_reg_r (INR (length xs))); [lra|]. replace (INR (ntrue xs) / INR (length xs) * INR (length xs)) with (INR (ntrue xs)) by (field; lra). lra. }
  split; [|exact B]. unfold Bernoulli.fit_mle. rewrite ber_count, Z.add_0_l, !x_lit, <- !INR_IZR_INZ, x_div by lra. now apply ber_new_ok.
Qed.
Lemma x_00 : (Fin 0 / Fin 0)%rs = NaN.
Proof. change (xdiv (Fin 0) (Fin 0) = NaN). unfold xdiv. destruct (Req_EM_T 0 0); [reflexivity|lra]. Qed.
Lemma ber_fit_nil : exists e, Bernoulli.fit_mle (F := xreal) [] = Err e.
Proof. unfold Bernoulli.fit_mle. cbn [length fold_left]. rewrite !x_lit. change (Z.of_nat 0) with 0%Z. rewrite x_00. eexists. unfold Bernoulli.new. reflexivity. Qed.

(** ** Poisson *)
Lemma nsum_fold xs : forall a, fold_left (fun acc x => (acc + f_of_Z x)%rs) (map Z.of_nat xs) (Fin a) = Fin (a + INR (nsum xs)).
Proof.
  induction xs as [|x xs IH]; intros a; cbn [map fold_left nsum fold_right]; [cbn [INR]; f_equal; ring|]. fold (nsum xs). xs. rewrite IH, plus_INR, <- INR_IZR_INZ. f_equal; ring.
Qed.
Lemma poi_new_ok l : 0 < l -> Poisson.new (Fin l) = Ok (poi l).
Proof. intros H. unfold Poisson.new. ok_new2. Qed.
Lemma poi_fit xs : (0 < nsum xs)%nat -> Poisson.fit_mle (F := xreal) (map Z.of_nat xs) = Ok (poi (INR (nsum xs) / INR (length xs))) /\ 0 < INR (nsum xs) / INR (length xs).
Proof.
  intros Hs. assert (Hn : (0 < length xs)%nat) by (destruct xs; [cbn in Hs; lia|cbn; lia]). apply lt_0_INR in Hn, Hs.
  assert (B : 0 < INR (nsum xs) / INR (length xs)) by pos. split; [|exact B]. unfold Poisson.fit_mle. rewrite !x_lit, nsum_fold, map_length, Rplus_0_l, <- INR_IZR_INZ, x_div by lra. now apply poi_new_ok.
Qed.
Lemma poi_fit_zero xs : nsum xs = 0%nat -> exists e, Poisson.fit_mle (F := xreal) (map Z.of_nat xs) = Err e.
Proof.
  intros Hs. unfold Poisson.fit_mle. rewrite !x_lit, nsum_fold, map_length, Hs, Rplus_0_l, <- INR_IZR_INZ. cbn [INR]. destruct xs as [|x xs].
  - cbn [length INR]. rewrite x_00. eexists. unfold Poisson.new. reflexivity.
  - assert (0 < INR (length (x :: xs))) by (apply lt_0_INR; cbn; lia). rewrite x_div by lra. replace (0 / INR (length (x :: xs))) with 0 by (field; lra).
    destruct (Poisson.new (Fin 0)) as [d|e] eqn:E; [|eauto]. apply poi_new_inv in E as [E _]. lra.
Qed.
Lemma poi_max xs l : (0 < nsum xs)%nat -> 0 < l -> let m := INR (nsum xs) / INR (length xs) in lik (poisson_law l) xs <= lik (poisson_law m) xs.
Proof.
  intros Hs Hl m. assert (Hn : (0 < length xs)%nat) by (destruct xs; [cbn in Hs; lia|cbn; lia]). apply lt_0_INR in Hn, Hs.
  assert (Hm : 0 < m) by (unfold m; pos).
  unfold lik. rewrite <- (exp_ln (lprod (poisson_law l) xs)), <- (exp_ln (lprod (poisson_law m) xs)) by (apply lprod_pos; intros; now apply plaw_pos).
  apply exp_le_mono. rewrite !ln_lprod by (intros; now apply plaw_pos). change (log_lik (poisson_law l) xs <= log_lik (poisson_law m) xs). rewrite !poi_log_lik by auto.
  assert (E : forall l, lsum (fun k => INR k * ln l - l - ln (INR (fact k))) xs = INR (nsum xs) * ln l - INR (length xs) * l - lsum (fun k => ln (INR (fact k))) xs).
  { intros t. rewrite <- lsum_INR, <- lsum_const, <- (Rmult_comm (ln t)), <- lsum_scal, <- lsum_minus, <- lsum_minus. apply lsum_ext. intros; ring. }
  rewrite !E. assert (L := ln_le_sub1 (l / m) ltac:(pos)). unfold Rdiv in L. rewrite ln_mult, ln_Rinv in L by pos. apply (Rmult_le_compat_l (INR (nsum xs))) in L; [|lra].
  assert (Q : INR (nsum xs) * (l * / m - 1) = INR (length xs) * l - INR (nsum xs)) by (unfold m; field; lra).
  assert (Q2 : INR (length xs) * m = INR (nsum xs)) by (unfold m; field; lra). lra.
Qed.

(** ** Normal *)
Notation npdf m S := (rf (UvNormal.pdf (UvNormal.new_unchecked (Fin m) (Fin S)))).
Definition smean (xs : list R) : R := lsum (fun x => x) xs / INR (length xs).
Definition svar (xs : list R) : R := ssq (smean xs) xs / INR (length xs).
Lemma fold_add xs : forall a, fold_left fadd (map Fin xs) (Fin a) = Fin (a + lsum (fun x => x) xs).
Proof. intros a. apply (fold_fin Fin (fun x => x) xs). auto. Qed.
Lemma fold_sq m xs : forall a, fold_left (fun acc r => (acc + r * r)%rs) (map (fun x => (x - Fin m)%rs) (map Fin xs)) (Fin a) = Fin (a + ssq m xs).
Proof. unfold ssq. induction xs as [|x xs IH]; intros a; cbn [map fold_left lsum]; [f_equal; ring|]. xs. rewrite IH. f_equal; ring. Qed.
Lemma un_fit_val xs : xs <> [] -> UvNormal.fit_mle (F := xreal) (map Fin xs) = UvNormal.new (Fin (smean xs)) (Fin (svar xs)).
Proof.
  intros Hx. assert (Hn : (0 < length xs)%nat) by (destruct xs; [congruence|cbn; lia]). apply lt_0_INR in Hn.
  unfold UvNormal.fit_mle. cbv zeta. rewrite map_length, !x_lit, fold_add, Rplus_0_l, <- INR_IZR_INZ, x_div by lra. fold (smean xs). rewrite fold_sq, Rplus_0_l, x_div by lra. reflexivity.
Qed.
Lemma un_fit_nil : exists e, UvNormal.fit_mle (F := xreal) [] = Err e.
Proof. unfold UvNormal.fit_mle. cbn [length fold_left map]. rewrite !x_lit. change (Z.of_nat 0) with 0%Z. rewrite x_00. eexists. reflexivity. Qed.
Lemma ssq_nonneg m xs : 0 <= ssq m xs. Proof. apply lsum_nonneg. intros. apply Rle_0_sqr. Qed.
Lemma svar_pos xs x y : In x xs -> In y xs -> x <> y -> 0 < svar xs.
Proof.
  intros Hx Hy N. assert (Hn : (0 < length xs)%nat) by (destruct xs; [contradiction|cbn; lia]). apply lt_0_INR in Hn. unfold svar. apply Rdiv_lt_0_compat; [|auto].
  destruct (Rle_lt_or_eq_dec _ _ (ssq_nonneg (smean xs) xs)) as [P|P]; [exact P|]. exfalso. apply N.
  assert (K := lsum_zero (fun x => (x - smean xs) * (x - smean xs)) xs ltac:(intros; apply Rle_0_sqr) (eq_sym P)). assert (K1 := K x Hx). assert (K2 := K y Hy). apply Rsqr_0_uniq in K1, K2. lra.
Qed.
Lemma svar_const c xs : xs <> [] -> (forall x, In x xs -> x = c) -> svar xs = 0.
Proof.
  intros Hx H. assert (Hn : (0 < length xs)%nat) by (destruct xs; [congruence|cbn; lia]). apply lt_0_INR in Hn.
  assert (E : smean xs = c). { unfold smean. rewrite (lsum_ext (fun x => x) (fun _ => c)) by auto. rewrite lsum_const. field. lra. }
  unfold svar, ssq. rewrite E, (lsum_ext _ (fun _ => 0)) by (intros x Hi; rewrite (H x Hi); ring). rewrite lsum_const. field. lra.
Qed.
Lemma ssq_shift m xs : xs <> [] -> ssq m xs = ssq (smean xs) xs + INR (length xs) * ((smean xs - m) * (smean xs - m)).
Proof.
  intros Hx. assert (Hn : (0 < length xs)%nat) by (destruct xs; [congruence|cbn; lia]). apply lt_0_INR in Hn.
  set (c := smean xs). assert (E : lsum (fun x => x - c) xs = 0). { rewrite (lsum_minus (fun x => x) (fun _ => c)), lsum_const. unfold c, smean. field. lra. }
  unfold ssq. rewrite (lsum_ext (fun x => (x - m) * (x - m)) (fun x => (x - c) * (x - c) + (2 * (c - m) * (x - c) + (c - m) * (c - m)))) by (intros; ring).
  rewrite lsum_plus, lsum_plus, lsum_scal, E, lsum_const. ring.
Qed.
Lemma un_max xs m S : xs <> [] -> 0 < svar xs -> 0 < S -> lik (npdf m S) xs <= lik (npdf (smean xs) (svar xs)) xs.
Proof.
  intros Hx Hv HS. assert (Hn : (0 < length xs)%nat) by (destruct xs; [congruence|cbn; lia]). apply lt_0_INR in Hn.
  assert (P : forall m S x, 0 < S -> 0 < npdf m S x). { intros m' S' x HS'. unfold rf. rewrite un_pdf by auto. cbn [val]. assert (0 < sqrt S') by pos. unfold Gauss.phi. assert (K := sqrt2PI_pos). pos. }
  unfold lik. rewrite <- (exp_ln (lprod (npdf m S) xs)), <- (exp_ln (lprod (npdf (smean xs) (svar xs)) xs)) by (apply lprod_pos; intros; now apply P).
  apply exp_le_mono. rewrite !ln_lprod by (intros; now apply P). change (log_lik (npdf m S) xs <= log_lik (npdf (smean xs) (svar xs)) xs). rewrite !un_log_lik by auto.
  rewrite (ssq_shift m xs Hx). set (n := INR (length xs)) in *. set (v := svar xs) in *. assert (Es : ssq (smean xs) xs = n * v) by (unfold v, svar; fold n; field; lra). rewrite Es.
  assert (L := ln_le_sub1 (v / S) ltac:(pos)). unfold Rdiv in L. rewrite ln_mult, ln_Rinv in L by pos. apply (Rmult_le_compat_l (n / 2)) in L; [|lra].
  assert (0 <= n * ((smean xs - m) * (smean xs - m)) / (2 * S)). { apply Rdiv_le_0_compat; [apply Rmult_le_pos; [lra|apply Rle_0_sqr]|lra]. }
  replace ((n * v + n * ((smean xs - m) * (smean xs - m))) / (2 * S)) with (n / 2 * (v * / S) + n * ((smean xs - m) * (smean xs - m)) / (2 * S)) by (field; lra).
  replace (n * v / (2 * v)) with (n / 2) by (field; lra). lra.
Qed.
