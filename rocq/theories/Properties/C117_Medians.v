(** * Property C117, continued: the medians of the binomial and Poisson distributions over all parameters *)
From Coq Require Import Reals Lra Lia Psatz List ZArith.
From Flocq Require Import Core.Raux.
From Verif.Num Require Import XReal.
From Verif.Model Require Import Rust Constraints Probability Params Discrete.
From Verif.Spec Require Import ProbSpec DiscreteSpec DistSpec ResSpec.
From Verif.Proofs Require Import UtilsProofs ConstraintProofs NewInv XTac Oracle DiscProofs2 DiscProofs4 DiscProofs7 DiscMedians.
Open Scope R_scope.

(** Binomial: whenever the mean n p is an integer the returned value is a median ... *)
Theorem C117_binomial_integer_mean (n k : nat) (p : R) (d : Binomial.t xreal) :
  Binomial.new (Z.of_nat n) (Prob (Fin p)) = Ok d -> p * INR n = INR k ->
  returns (Binomial.median d) (fun m => m = INR k /\ law_median (binomial_law n p) m).
Proof.
  intros H E. apply bin_new_inv in H. destruct H as [Hp ->]. eexists. split; [apply bin_median; lra|].
  assert (F : IZR (Zfloor (p * INR n + / 2)) = INR k). { rewrite (INR_IZR_INZ k). f_equal. apply Zfloor_imp. rewrite plus_IZR, <- INR_IZR_INZ, E. lra. }
  rewrite F. split; [reflexivity|]. now apply binomial_median_int.
Qed.
Print Assumptions C117_binomial_integer_mean.
(** ... and for every n and p it is a natural number within 1 of a median *)
Theorem C117_binomial_near (n : nat) (p : R) (d : Binomial.t xreal) :
  Binomial.new (Z.of_nat n) (Prob (Fin p)) = Ok d ->
  returns (Binomial.median d) (fun m => exists i j : nat, m = INR i /\ (i <= n)%nat /\ law_median (binomial_law n p) (INR j) /\ Rabs (m - INR j) <= 1).
Proof.
  intros H. apply bin_new_inv in H. destruct H as [Hp ->]. eexists. split; [apply bin_median; lra|]. assert (PN := pos_INR n). assert (PM : 0 <= p * INR n) by (apply Rmult_le_pos; lra).
  set (w := Zfloor (p * INR n + / 2)). assert (W := Zfloor_lb (p * INR n + / 2)). assert (W2 := Zfloor_ub (p * INR n + / 2)). fold w in W, W2.
  assert (W0 : (0 <= w)%Z) by (apply Zfloor_lub; lra). assert (Wn : (w <= Z.of_nat n)%Z). { apply Z.lt_succ_r. apply lt_IZR. rewrite succ_IZR, <- INR_IZR_INZ. assert (p * INR n <= INR n) by nra. lra. }
  assert (IW : IZR w = INR (Z.to_nat w)) by (rewrite INR_IZR_INZ, Z2Nat.id by lia; reflexivity). exists (Z.to_nat w).
  destruct (Req_dec p 1) as [E|N].
  - exists n. split; [exact IW|]. split; [lia|]. split; [apply binomial_median_int; [lra|rewrite E; ring]|]. subst p. assert (IZR w <= INR n) by (rewrite INR_IZR_INZ; now apply IZR_le). apply Rabs_le. lra.
  - destruct (Nat.eq_dec n 0) as [E|E0].
    { exists 0%nat. split; [exact IW|]. split; [lia|]. split; [apply binomial_median_int; [lra|subst; simpl; ring]|]. assert (w = 0%Z) by lia. rewrite H. simpl. rewrite Rminus_0_r, Rabs_R0. lra. }
    assert (Pn : 0 < INR n) by (apply lt_0_INR; lia). set (z := Zfloor (p * INR n)). assert (Z := Zfloor_lb (p * INR n)). assert (Z2 := Zfloor_ub (p * INR n)). fold z in Z, Z2.
    assert (Z0 : (0 <= z)%Z) by (apply Zfloor_lub; lra). assert (IZ : IZR z = INR (Z.to_nat z)) by (rewrite INR_IZR_INZ, Z2Nat.id by lia; reflexivity).
    assert (Lz : (Z.to_nat z < n)%nat). { apply INR_lt. rewrite <- IZ. apply Rle_lt_trans with (1 := Z). assert (0 < (1 - p) * INR n) by (apply Rmult_lt_0_compat; lra). lra. }
    rewrite IZ in Z, Z2. assert (C : w = z \/ w = (z + 1)%Z). { assert (z <= w)%Z by (apply Zfloor_le; lra). assert (w < z + 2)%Z; [|lia]. apply lt_IZR. rewrite plus_IZR, IZ. lra. }
    destruct (binomial_median_near n (Z.to_nat z) p Hp Lz ltac:(lra)) as [M|M].
    + exists (Z.to_nat z). split; [exact IW|]. split; [lia|]. split; [exact M|]. rewrite <- IZ. rewrite <- minus_IZR, <- abs_IZR. apply IZR_le. lia.
    + exists (S (Z.to_nat z)). split; [exact IW|]. split; [lia|]. split; [exact M|]. rewrite S_INR, <- IZ. change 1 with (IZR 1) at 1. rewrite <- plus_IZR, <- minus_IZR, <- abs_IZR. apply IZR_le. lia.
Qed.
Print Assumptions C117_binomial_near.

(** Poisson: for every n >= 1 and every rate from n to n + 2/3 the returned value is n, a median ... *)
Theorem C117_poisson_two_thirds (n : nat) (l : R) (d : Poisson.t xreal) :
  Poisson.new (Fin l) = Ok d -> (1 <= n)%nat -> INR n <= l <= INR n + 2 / 3 ->
  returns (Poisson.median d) (fun m => m = INR n /\ law_median (poisson_law l) m).
Proof.
  intros H Hn Hl. apply poi_new_inv in H. destruct H as [Pl ->]. eexists. split; [now apply poi_median|].
  assert (N1 : 1 <= INR n) by (apply (le_INR 1); lia). assert (I : 0 < / l <= 1). { split; [apply Rinv_0_lt_compat; lra|]. rewrite <- Rinv_1. apply Rinv_le_contravar; lra. }
  assert (F : IZR (Zfloor (l + 1 / 3 - 2 / 100 / l)) = INR n). { rewrite INR_IZR_INZ. f_equal. apply Zfloor_imp. rewrite plus_IZR, <- INR_IZR_INZ. replace (2 / 100 / l) with (2 / 100 * / l) by reflexivity. lra. }
  rewrite F. split; [reflexivity|]. now apply poisson_median_main.
Qed.
Print Assumptions C117_poisson_two_thirds.
(** ... and for every rate of at least 1 it is a natural number within 1 of a median *)
Theorem C117_poisson_near (l : R) (d : Poisson.t xreal) :
  Poisson.new (Fin l) = Ok d -> 1 <= l ->
  returns (Poisson.median d) (fun m => exists i j : nat, m = INR i /\ law_median (poisson_law l) (INR j) /\ Rabs (m - INR j) <= 1).
Proof.
  intros H Hl. apply poi_new_inv in H. destruct H as [Pl ->]. eexists. split; [now apply poi_median|].
  assert (I : 0 < / l <= 1). { split; [apply Rinv_0_lt_compat; lra|]. rewrite <- Rinv_1. apply Rinv_le_contravar; lra. }
  set (w := Zfloor (l + 1 / 3 - 2 / 100 / l)). assert (W := Zfloor_lb (l + 1 / 3 - 2 / 100 / l)). assert (W2 := Zfloor_ub (l + 1 / 3 - 2 / 100 / l)). fold w in W, W2. assert (EI : 2 / 100 / l = 2 / 100 * / l) by reflexivity. rewrite EI in W, W2.
  set (z := Zfloor l). assert (Z := Zfloor_lb l). assert (Z2 := Zfloor_ub l). fold z in Z, Z2. assert (Z0 : (0 <= z)%Z) by (apply Zfloor_lub; lra). assert (IZ : IZR z = INR (Z.to_nat z)) by (rewrite INR_IZR_INZ, Z2Nat.id by lia; reflexivity).
  assert (C : w = z \/ w = (z + 1)%Z). { assert (z <= w)%Z by (apply Zfloor_lub; rewrite EI; lra). assert (w < z + 2)%Z; [|lia]. apply lt_IZR. rewrite plus_IZR. lra. }
  assert (IW : IZR w = INR (Z.to_nat w)) by (rewrite INR_IZR_INZ, Z2Nat.id by lia; reflexivity). exists (Z.to_nat w).
  destruct (poisson_median_near (Z.to_nat z) l Pl ltac:(rewrite <- IZ; lra)) as [M|M].
  - exists (Z.to_nat z). split; [exact IW|]. split; [exact M|]. rewrite <- IZ. rewrite <- minus_IZR, <- abs_IZR. apply IZR_le. lia.
  - exists (S (Z.to_nat z)). split; [exact IW|]. split; [exact M|]. rewrite S_INR, <- IZ. change 1 with (IZR 1) at 1. rewrite <- plus_IZR, <- minus_IZR, <- abs_IZR. apply IZR_le. lia.
Qed.
Print Assumptions C117_poisson_near.
Example C117_medians_nonvacuous : exists b q, Binomial.new (Z.of_nat 10) (Prob (Fin (3 / 10))) = Ok b /\ 3 / 10 * INR 10 = INR 3 /\ Poisson.new (Fin (7 / 2)) = Ok q /\ (1 <= 3)%nat /\ INR 3 <= 7 / 2 <= INR 3 + 2 / 3.
Proof. eexists. eexists. split; [apply bin_new_ok; lra|]. split; [simpl; lra|]. split; [unfold Poisson.new; ok_new2|]. split; [lia|simpl; lra]. Qed.
