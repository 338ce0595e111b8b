From Coq Require Import ZArith Lia List Bool Factorial.
From Verif.Model Require Import Rust Utils.
From Verif.Spec Require Import UtilsSpec.
Import ListNotations.
Open Scope Z_scope.

Lemma binom_0 n : binom n 0 = 1. Proof. destruct n; reflexivity. Qed.
Lemma binom_gt n : forall k, (n < k)%nat -> binom n k = 0.
Proof. induction n as [|n IH]; intros [|k] H; cbn; try lia. rewrite !IH by lia. reflexivity. Qed.
Lemma binom_diag n : binom n n = 1.
Proof. induction n; cbn; [reflexivity|]. rewrite IHn, binom_gt by lia. lia. Qed.
Lemma binom_nonneg n : forall k, 0 <= binom n k.
Proof. induction n as [|n IH]; intros [|k]; cbn; try lia. pose proof (IH k); pose proof (IH (S k)); lia. Qed.
Lemma binom_pos n : forall k, (k <= n)%nat -> 1 <= binom n k.
Proof.
  induction n as [|n IH]; intros [|k] H; cbn; try lia. pose proof (IH k ltac:(lia)). pose proof (binom_nonneg n (S k)). lia.
Qed.
Lemma zfact_S n : zfact (S n) = Z.of_nat (S n) * zfact n.
Proof. unfold zfact. rewrite <- Nat2Z.inj_mul. f_equal. Qed.
Lemma zfact_pos n : 0 < zfact n.
Proof. unfold zfact. pose proof (lt_O_fact n). lia. Qed.

Lemma binom_fact : forall n k, (k <= n)%nat -> binom n k * (zfact k * zfact (n - k)) = zfact n.
Proof.
  induction n as [|n IH]; intros k H.
  - replace k with 0%nat by lia. reflexivity.
  - destruct k as [|k].
    + rewrite binom_0. cbn [Nat.sub]. unfold zfact at 1. cbn [fact]. lia.
    + cbn [binom Nat.sub]. destruct (Nat.eq_dec k n) as [->|Hk].
      * rewrite binom_diag, binom_gt by lia. rewrite Nat.sub_diag. unfold zfact at 2. cbn [fact]. lia.
      * pose proof (IH k ltac:(lia)) as A. pose proof (IH (S k) ltac:(lia)) as B.
        rewrite (zfact_S n). replace (n - k)%nat with (S (n - S k)) in * by lia.
        rewrite (zfact_S (n - S k)) in A |- *. rewrite (zfact_S k) in B |- *.
        replace (Z.of_nat (S (n - S k))) with (Z.of_nat n - Z.of_nat k) in * by lia.
        rewrite !Nat2Z.inj_succ in *. unfold Z.succ in *. nia.
Qed.

Lemma binom_step n i : (i < n)%nat -> binom n i * (Z.of_nat n - Z.of_nat i) = binom n (S i) * (Z.of_nat i + 1).
Proof.
  intros H. pose proof (binom_fact n i ltac:(lia)) as A. pose proof (binom_fact n (S i) ltac:(lia)) as B.
  replace (n - i)%nat with (S (n - S i)) in A by lia. rewrite zfact_S in A. rewrite (zfact_S i) in B.
  pose proof (zfact_pos i). pose proof (zfact_pos (n - S i)).
  replace (Z.of_nat (S (n - S i))) with (Z.of_nat n - Z.of_nat i) in A by lia.
  replace (Z.of_nat (S i)) with (Z.of_nat i + 1) in B by lia.
  apply Z.mul_reg_r with (zfact i * zfact (n - S i)); [nia|].
  transitivity (zfact n); [rewrite <- A|rewrite <- B]; ring.
Qed.
Lemma binom_sym n k : (k <= n)%nat -> binom n (n - k) = binom n k.
Proof.
  intros H. pose proof (binom_fact n k H) as A. pose proof (binom_fact n (n-k) ltac:(lia)) as B.
  replace (n - (n - k))%nat with k in B by lia.
  pose proof (zfact_pos k). pose proof (zfact_pos (n - k)).
  apply Z.mul_reg_r with (zfact k * zfact (n - k)); [nia|].
  transitivity (zfact n); [rewrite <- B|rewrite <- A]; ring.
Qed.

Lemma checked_ok lo hi z : lo <= z <= hi -> checked lo hi z = Ret z.
Proof. intros. unfold checked. destruct (Z.leb_spec lo z), (Z.leb_spec z hi); try lia; reflexivity. Qed.
Lemma checked_panic lo hi z : ~ (lo <= z <= hi) -> checked lo hi z = Panic.
Proof. intros. unfold checked. destruct (Z.leb_spec lo z), (Z.leb_spec z hi); try lia; reflexivity. Qed.

Lemma choose_fold_ok n : Z.of_nat n <= U64_MAX -> forall k i, (i + k <= n)%nat ->
  (forall j, (i <= j < i + k)%nat -> binom n j * (Z.of_nat n - Z.of_nat j) <= U64_MAX) ->
  choose_fold (Z.of_nat n) (Z.of_nat i) k (binom n i) = Ret (binom n (i + k)).
Proof.
  intros Hn. induction k as [|k IH]; intros i Hi Hb.
  - rewrite Nat.add_0_r. reflexivity.
  - cbn [choose_fold]. unfold u64. rewrite checked_ok by lia. cbn [rbind].
    pose proof (binom_nonneg n i). rewrite checked_ok by (specialize (Hb i); nia). cbn [rbind].
    rewrite checked_ok by lia. cbn [rbind]. rewrite binom_step by lia.
    rewrite Z.div_mul by lia. replace (Z.of_nat i + 1) with (Z.of_nat (S i)) by lia.
    rewrite IH by (try lia; intros; apply Hb; lia). do 2 f_equal. lia.
Qed.
Lemma choose_fold_panic n : Z.of_nat n <= U64_MAX -> forall k i j, (i + k <= n)%nat -> (i <= j < i + k)%nat ->
  U64_MAX < binom n j * (Z.of_nat n - Z.of_nat j) ->
  choose_fold (Z.of_nat n) (Z.of_nat i) k (binom n i) = Panic.
Proof.
  intros Hn. induction k as [|k IH]; intros i j Hi Hj Hb; [lia|].
  cbn [choose_fold]. unfold u64. rewrite checked_ok by lia. cbn [rbind].
  destruct (Z_le_gt_dec (binom n i * (Z.of_nat n - Z.of_nat i)) U64_MAX) as [L|G].
  - pose proof (binom_nonneg n i). rewrite checked_ok by nia. cbn [rbind].
    rewrite checked_ok by lia. cbn [rbind]. rewrite binom_step by lia.
    rewrite Z.div_mul by lia. replace (Z.of_nat i + 1) with (Z.of_nat (S i)) by lia.
    assert (i <> j) by (intros ->; lia). apply IH with j; lia.
  - rewrite checked_panic by lia. reflexivity.
Qed.


Lemma choose_ok n k : (k <= n)%nat -> Z.of_nat n <= U64_MAX ->
  (forall j, (j < Nat.min k (n - k))%nat -> binom n j * (Z.of_nat n - Z.of_nat j) <= U64_MAX) ->
  choose (Z.of_nat n) (Z.of_nat k) = Ret (binom n k).
Proof.
  intros H Hn Hb. unfold choose, u64. rewrite checked_ok by lia. cbn [rbind].
  rewrite <- Nat2Z.inj_sub by lia.
  pose proof (choose_fold_ok n Hn) as G.
  destruct (Z.ltb_spec (Z.of_nat (n - k)) (Z.of_nat k)) as [L|L]; rewrite Nat2Z.id.
  - specialize (G (n - k)%nat 0%nat). rewrite binom_0 in G. cbn [Nat.add Z.of_nat] in G. rewrite G; [now rewrite binom_sym|lia|].
    intros j Hj; apply Hb; lia.
  - specialize (G k 0%nat). rewrite binom_0 in G. cbn [Nat.add Z.of_nat] in G. apply G; [lia|].
    intros j Hj; apply Hb; lia.
Qed.
Lemma choose_overflow n k j : (k <= n)%nat -> Z.of_nat n <= U64_MAX -> (j < Nat.min k (n - k))%nat ->
  U64_MAX < binom n j * (Z.of_nat n - Z.of_nat j) -> choose (Z.of_nat n) (Z.of_nat k) = Panic.
Proof.
  intros H Hn Hj Hb. unfold choose, u64. rewrite checked_ok by lia. cbn [rbind].
  rewrite <- Nat2Z.inj_sub by lia.
  pose proof (choose_fold_panic n Hn) as G.
  destruct (Z.ltb_spec (Z.of_nat (n - k)) (Z.of_nat k)) as [L|L]; rewrite Nat2Z.id.
  - specialize (G (n - k)%nat 0%nat j). rewrite binom_0 in G. apply G; lia.
  - specialize (G k 0%nat j). rewrite binom_0 in G. apply G; lia.
Qed.
Lemma choose_k_gt_n n k : 0 <= n < k -> choose n k = Panic.
Proof. intros. unfold choose, u64. rewrite checked_panic by lia. reflexivity. Qed.

(** all products fit for n <= 62 *)
Definition row (n : nat) : list Z := map (binom n) (seq 0 (S n)).
Fixpoint next_row (prev : Z) (l : list Z) : list Z :=
  match l with [] => [prev] | x :: l => (prev + x) :: next_row x l end.
Fixpoint rows (m : nat) (r : list Z) : list (list Z) := match m with O => [r] | S m => r :: rows m (next_row 0 r) end.
Lemma next_row_binom n : forall len s, (s + len = S n)%nat ->
   next_row (if Nat.eqb s 0 then 0 else binom n (s - 1)) (map (binom n) (seq s len)) = map (binom (S n)) (seq s (S len)).
Proof.
  induction len as [|len IH]; intros s Hs; cbn [seq map next_row].
  - replace s with (S n) by lia. cbn [Nat.eqb]. rewrite binom_diag. f_equal. replace (S n - 1)%nat with n by lia. apply binom_diag.
  - f_equal.
    + destruct s as [|s]; cbn [Nat.eqb]. { rewrite !binom_0. reflexivity. }
      replace (S s - 1)%nat with s by lia. reflexivity.
    + specialize (IH (S s) ltac:(lia)). cbn [Nat.eqb] in IH. replace (S s - 1)%nat with s in IH by lia. exact IH.
Qed.
Lemma next_row_row n : next_row 0 (row n) = row (S n).
Proof. unfold row. exact (next_row_binom n (S n) 0 eq_refl). Qed.
Lemma rows_spec m : forall n i, (i <= m)%nat -> nth i (rows m (row n)) [] = row (n + i).
Proof.
  induction m as [|m IH]; intros n i H.
  - replace i with 0%nat by lia. rewrite Nat.add_0_r. reflexivity.
  - destruct i as [|i]; cbn [rows nth]; [f_equal; lia|].
    rewrite next_row_row, IH by lia. f_equal; lia.
Qed.
Lemma map_nth_seq (f : nat -> Z) i m : (i < m)%nat -> nth i (map f (seq 0 m)) 0 = f i.
Proof. intros H. rewrite nth_indep with (d' := f 0%nat) by (rewrite map_length, seq_length; lia).
  rewrite map_nth, seq_nth by lia. reflexivity. Qed.
Definition fits (n : nat) (r : list Z) : bool :=
  forallb (fun p => (2 * Z.of_nat (fst p) >=? Z.of_nat n) || (snd p * (Z.of_nat n - Z.of_nat (fst p)) <=? U64_MAX)) (combine (seq 0 (S n)) r).
Lemma fits_62 : forallb (fun n => fits n (nth n (rows 62 [1]) [])) (seq 0 63) = true.
Proof. vm_compute. reflexivity. Qed.
Lemma prod_fits n j : (n <= 62)%nat -> (2 * j < n)%nat -> binom n j * (Z.of_nat n - Z.of_nat j) <= U64_MAX.
Proof.
  intros Hn Hj. pose proof fits_62 as H. rewrite forallb_forall in H. specialize (H n).
  assert (In n (seq 0 63)) as I by (apply in_seq; lia). specialize (H I).
  change [1] with (row 0) in H. rewrite rows_spec in H by lia. cbn [Nat.add] in H.
  unfold fits in H. rewrite forallb_forall in H. specialize (H (j, binom n j)).
  assert (In (j, binom n j) (combine (seq 0 (S n)) (row n))) as J.
  { unfold row. assert (G: forall l, In j l -> In (j, binom n j) (combine l (map (binom n) l))).
    { induction l as [|a l IHl]; cbn; [tauto|]. intros [->|]; auto. }
    apply G, in_seq; lia. }
  specialize (H J). cbn [fst snd] in H. apply orb_true_iff in H. destruct H as [H|H].
  - apply Z.geb_le in H. lia.
  - now apply Z.leb_le in H.
Qed.

(** factorial *)
Lemma zfact_mono a b : (a <= b)%nat -> zfact a <= zfact b.
Proof. intros H. unfold zfact. pose proof (fact_le a b H). lia. Qed.
Lemma product_upto_ok n : zfact n <= U64_MAX -> product_upto n = Ret (zfact n).
Proof.
  induction n as [|n IH]; intros H; cbn [product_upto]; [reflexivity|].
  rewrite IH by (pose proof (zfact_mono n (S n) ltac:(lia)); lia). cbn [rbind]. unfold u64.
  rewrite zfact_S in H. pose proof (zfact_pos n). rewrite checked_ok by lia.
  rewrite zfact_S. f_equal. apply Z.mul_comm.
Qed.
Lemma product_upto_panic n : U64_MAX < zfact n -> product_upto n = Panic.
Proof.
  induction n as [|n IH]; intros H; [vm_compute in H; discriminate|]. cbn [product_upto].
  destruct (Z_le_gt_dec (zfact n) U64_MAX) as [L|G].
  - rewrite product_upto_ok by lia. cbn [rbind]. unfold u64. rewrite checked_panic; [reflexivity|].
    rewrite zfact_S in H. lia.
  - rewrite IH by lia. reflexivity.
Qed.
Definition facts (m : nat) : list Z := map zfact (seq 0 m).
Fixpoint zfact' (n : nat) : Z := match n with O => 1 | S m => Z.of_nat n * zfact' m end.
Lemma zfact'_eq n : zfact' n = zfact n.
Proof. induction n; [reflexivity|]. rewrite zfact_S, <- IHn. reflexivity. Qed.
Lemma zfact_20 : zfact 20 <= U64_MAX < zfact 21.
Proof. rewrite <- !zfact'_eq. vm_compute. split; [discriminate|reflexivity]. Qed.

Lemma factorial_exact_spec n : 
  ((n <= 20)%nat -> factorial_exact (Z.of_nat n) = Ret (zfact n)) /\ ((20 < n)%nat -> factorial_exact (Z.of_nat n) = Panic).
Proof.
  unfold factorial_exact. rewrite Nat2Z.id. pose proof zfact_20. split; intros H0.
  - apply product_upto_ok. pose proof (zfact_mono n 20 ltac:(lia)). lia.
  - apply product_upto_panic. pose proof (zfact_mono 21 n ltac:(lia)). lia.
Qed.
Lemma factorial_spec n : 
  ((n <= 20)%nat -> factorial (Z.of_nat n) = Ret (zfact n)) /\ ((20 < n)%nat -> factorial (Z.of_nat n) = Panic).
Proof.
  unfold factorial. destruct (Z.ltb_spec 11 (Z.of_nat n)) as [L|L].
  - apply factorial_exact_spec.
  - split; intros H; [|lia]. rewrite <- zfact'_eq.
    assert (n < 12)%nat as Hn by lia. clear L H. rewrite Nat2Z.id.
    do 12 (destruct n as [|n]; [vm_compute; reflexivity|]). lia.
Qed.
