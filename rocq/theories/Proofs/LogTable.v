(** * The table of log-factorials, checked with exact integer arithmetic *)
From Coq Require Import Reals Lra Lia Psatz Arith ZArith List Bool.
From Coquelicot Require Import Coquelicot.
From Verif.Num Require Import Scalar XReal.
From Verif.Model Require Import Rust LogFact.
From Verif.Spec Require Import DistSpec.
From Verif.Proofs Require Import Calc XTac Stirling.
Import ListNotations.
Open Scope R_scope.

(** ** the atanh series with remainder *)
Fixpoint lser (N : nat) (t : R) : R := match N with O => 0 | S N => lser N t + 2 * t ^ (2 * N + 1) / INR (2 * N + 1) end.
Fixpoint gser (N : nat) (t : R) : R := match N with O => 0 | S N => gser N t + 2 * t ^ (2 * N) end.
Lemma lser_derive N t : is_derive (lser N) t (gser N t).
Proof.
  induction N; [apply is_derive_Reals, derivable_pt_lim_const|]. cbn [lser gser].
  apply (is_derive_plus (lser N) (fun t => 2 * t ^ (2 * N + 1) / INR (2 * N + 1))); [exact IHN|].
  assert (K : INR (2 * N + 1) <> 0) by (apply not_0_INR; lia). auto_derive; [auto|]. replace (Init.Nat.pred (N + (N + 0) + 1)) with (2 * N)%nat by lia.
  replace (N + (N + 0) + 1)%nat with (2 * N + 1)%nat by lia. field. exact K.
Qed.
Lemma gser_val N t : t * t <> 1 -> gser N t = 2 * (1 - t ^ (2 * N)) / (1 - t * t).
Proof.
  intros H. induction N; [cbn; field; lra|]. cbn [gser]. rewrite IHN. replace (2 * S N)%nat with (2 * N + 2)%nat by lia. rewrite pow_add. cbn [pow]. field. lra.
Qed.
Lemma lser_0 N : lser N 0 = 0.
Proof. induction N; [reflexivity|]. cbn [lser]. rewrite IHN, pow_i by lia. unfold Rdiv. ring. Qed.
Lemma even_pow_nonneg x N : 0 <= x ^ (2 * N).
Proof. rewrite pow_mult. apply pow_le. cbn. nra. Qed.
Lemma lser_lower N t : 0 <= t < 1 -> lser N t <= lath t.
Proof.
  intros Ht. set (G := fun t => lath t - lser N t). assert (K : G 0 <= G t).
  { apply (mono11 G (fun t => 2 * t ^ (2 * N) / (1 - t * t))); auto.
    - intros x Hx. assert (0 < 1 - x * x) by nra. unfold G. eapply is_derive_ext_eq; [|apply (is_derive_minus lath (lser N) x _ _ (lath_derive x Hx) (lser_derive N x))].
      unfold minus, plus, opp; cbn -[pow Nat.mul]. rewrite gser_val by lra. field. lra.
    - intros x Hx. assert (0 < 1 - x * x) by nra. assert (P := even_pow_nonneg x N). apply Rmult_le_pos; [lra|]. left. now apply Rinv_0_lt_compat. }
  unfold G in K. rewrite lath_0, lser_0 in K. lra.
Qed.
Lemma lser_upper N t : 0 <= t < 1 / 2 -> lath t <= lser N t + 8 / 3 * t ^ (2 * N + 1) / INR (2 * N + 1).
Proof.
  intros Ht. set (G := fun t => lser N t + 8 / 3 * t ^ (2 * N + 1) / INR (2 * N + 1) - lath t).
  assert (K0 : INR (2 * N + 1) <> 0) by (apply not_0_INR; lia).
  assert (I2 : forall x, inside (-(1/2)) (1/2) x <-> -(1/2) < x < 1/2) by (intros; unfold inside; cbn; tauto).
  assert (K : G 0 <= G t).
  { apply (mono_inside (-(1/2)) (1/2) G (fun t => 2 * t ^ (2 * N) * (4 / 3 - / (1 - t * t)))); try (apply I2; lra); try lra.
    - intros x Hx. apply (proj1 (I2 x)) in Hx. assert (0 < 1 - x * x) by nra. unfold G.
      eapply is_derive_ext_eq; [|eapply (is_derive_minus (fun t => lser N t + 8 / 3 * t ^ (2 * N + 1) / INR (2 * N + 1)) lath x);
        [apply (is_derive_plus (lser N) (fun t => 8 / 3 * t ^ (2 * N + 1) / INR (2 * N + 1)) x (gser N x) (8 / 3 * x ^ (2 * N))); [apply lser_derive|]|apply lath_derive; lra]].
      + unfold minus, plus, opp; cbn -[pow Nat.mul]. rewrite gser_val by lra. field. lra.
      + auto_derive; [auto|]. replace (Init.Nat.pred (N + (N + 0) + 1)) with (2 * N)%nat by lia. replace (N + (N + 0) + 1)%nat with (2 * N + 1)%nat by lia. field. exact K0.
    - intros x Hx. apply (proj1 (I2 x)) in Hx. assert (3 / 4 <= 1 - x * x) by nra. assert (P := even_pow_nonneg x N). apply Rmult_le_pos; [lra|].
      assert (/ (1 - x * x) <= / (3 / 4)) by (apply Rinv_le_contravar; lra). lra. }
  unfold G in K. rewrite lath_0, lser_0, pow_i in K by lia. unfold Rdiv in *. lra.
Qed.

(** ** fixed point, 24 decimals *)
Definition SC : Z := (10 ^ 24)%Z.
Definition NT : nat := 27.
Definition term (m : Z) (i : nat) : Z := (2 * SC / (Z.of_nat (2 * i + 1) * m ^ Z.of_nat (2 * i + 1)))%Z.
Fixpoint zser (N : nat) (m : Z) : Z := match N with O => 0%Z | S N => (zser N m + term m N)%Z end.
Lemma div_bounds a b : (0 < b)%Z -> IZR a / IZR b - 1 <= IZR (a / b) <= IZR a / IZR b.
Proof.
  intros Hb. assert (0 < IZR b) by (now apply IZR_lt). assert (E := Z.div_mod a b ltac:(lia)). assert (M := Z.mod_pos_bound a b Hb).
  assert (ER : IZR a = IZR b * IZR (a / b) + IZR (a mod b)) by (rewrite <- mult_IZR, <- plus_IZR; now f_equal).
  assert (0 <= IZR (a mod b) < IZR b) by (split; [apply IZR_le|apply IZR_lt]; lia). rewrite ER.
  replace ((IZR b * IZR (a / b) + IZR (a mod b)) / IZR b) with (IZR (a / b) + IZR (a mod b) / IZR b) by (field; lra).
  assert (0 <= IZR (a mod b) / IZR b) by (apply Rmult_le_pos; [lra|left; now apply Rinv_0_lt_compat]).
  assert (IZR (a mod b) / IZR b <= 1) by (apply (Rmult_le_reg_r (IZR b)); [auto|]; replace (IZR (a mod b) / IZR b * IZR b) with (IZR (a mod b)) by (field; lra); lra). lra.
Qed.
Lemma zser_ok N m : (0 < m)%Z -> IZR SC * lser N (/ IZR m) - INR N <= IZR (zser N m) <= IZR SC * lser N (/ IZR m).
Proof.
  intros Hm. assert (0 < IZR m) by (now apply IZR_lt). induction N; [cbn [lser zser INR]; rewrite Rmult_0_r; change (IZR 0) with 0; lra|]. rewrite S_INR. cbn [lser zser]. rewrite plus_IZR.
  assert (B := div_bounds (2 * SC) (Z.of_nat (2 * N + 1) * m ^ Z.of_nat (2 * N + 1))%Z). fold (term m N) in B.
  assert (Hp : (0 < Z.of_nat (2 * N + 1) * m ^ Z.of_nat (2 * N + 1))%Z) by (apply Z.mul_pos_pos; [lia|apply Z.pow_pos_nonneg; lia]). specialize (B Hp).
  replace (IZR (2 * SC) / IZR (Z.of_nat (2 * N + 1) * m ^ Z.of_nat (2 * N + 1))) with (IZR SC * (2 * (/ IZR m) ^ (2 * N + 1) / INR (2 * N + 1))) in B; [generalize dependent (IZR SC); intros sc; intros; lra|].
  rewrite !mult_IZR, <- INR_IZR_INZ, <- pow_IZR, pow_inv by lra. field. split; [apply pow_nonzero; lra|apply not_0_INR; lia].
Qed.
Lemma tail_ok m : (3 <= m)%Z -> IZR SC * (8 / 3 * (/ IZR m) ^ (2 * NT + 1) / INR (2 * NT + 1)) <= 1.
Proof.
  intros Hm. assert (3 <= IZR m) by (now apply (IZR_le 3)).
  assert (P : (/ IZR m) ^ (2 * NT + 1) <= / IZR (3 ^ 55)).
  { replace (/ IZR (3 ^ 55)) with ((/ 3) ^ 55) by (rewrite pow_inv; f_equal; rewrite (pow_IZR 3 55); f_equal; reflexivity). change (2 * NT + 1)%nat with 55%nat. apply pow_incr. split; [left; apply Rinv_0_lt_compat; lra|apply Rinv_le_contravar; lra]. }
  replace (INR (2 * NT + 1)) with 55 by (rewrite INR_IZR_INZ; f_equal; reflexivity).
  apply Rle_trans with (IZR SC * (8 / 3 * / IZR (3 ^ 55) / 55)).
  - apply Rmult_le_compat_l; [unfold SC; apply IZR_le; lia|]. unfold Rdiv. apply Rmult_le_compat_r; [lra|]. apply Rmult_le_compat_l; [lra|exact P].
  - change (3 ^ 55)%Z with 174449211009120179071170507%Z. change SC with 1000000000000000000000000%Z. lra.
Qed.
(** 10^24 ln (k / (k-1)) *)
Definition zstep (k : Z) : Z := zser NT (2 * k - 1).
Lemma zstep_ok k : (2 <= k)%Z -> Rabs (IZR SC * (ln (IZR k) - ln (IZR (k - 1))) - IZR (zstep k)) <= 28.
Proof.
  intros Hk. set (m := (2 * k - 1)%Z). assert (Hm : (3 <= m)%Z) by (unfold m; lia). assert (HR : 3 <= IZR m) by (now apply (IZR_le 3)).
  set (t := / IZR m). assert (Ht : 0 <= t < 1 / 2). { split; [left; apply Rinv_0_lt_compat; lra|]. apply Rle_lt_trans with (/ 3); [apply Rinv_le_contravar; lra|lra]. }
  assert (Hk2 : 2 <= IZR k) by (now apply (IZR_le 2)). assert (Em : IZR m = 2 * IZR k - 1) by (unfold m; now rewrite minus_IZR, mult_IZR).
  assert (E : lath t = ln (IZR k) - ln (IZR (k - 1))).
  { unfold lath. rewrite minus_IZR. assert (0 < t) by (apply Rinv_0_lt_compat; lra).
    replace (1 + t) with (2 * t * IZR k) by (unfold t; rewrite Em; field; lra). replace (1 - t) with (2 * t * (IZR k - 1)) by (unfold t; rewrite Em; field; lra).
    rewrite (ln_mult (2 * t)), (ln_mult (2 * t) (IZR k - 1)) by lra. ring. }
  assert (Z0 := zser_ok NT m ltac:(lia)). fold t in Z0. assert (T := tail_ok m Hm). fold t in T.
  assert (L := lser_lower NT t ltac:(lra)). assert (U := lser_upper NT t Ht). rewrite E in L, U. unfold zstep. fold m.
  replace (INR NT) with 27 in Z0 by (rewrite INR_IZR_INZ; f_equal; reflexivity). assert (S0 : 0 < IZR SC) by (apply IZR_lt; reflexivity).
  apply (Rmult_le_compat_l (IZR SC)) in L; [|lra]. apply (Rmult_le_compat_l (IZR SC)) in U; [|lra]. rewrite Rmult_plus_distr_l in U. apply Rabs_le. split; lra.
Qed.
(** check the table from entry n on; l, f approximate 10^24 ln n and 10^24 ln n! *)
Definition BOUND : Z := (3 * 10 ^ 11 - 2 * 10 ^ 6)%Z.
Fixpoint chk (n l f : Z) (tab : list Z) {struct tab} : bool :=
  match tab with
  | [] => true
  | v :: tab => (Z.abs (v * 10 ^ 9 - f) <=? BOUND)%Z && (let l := (l + zstep (n + 1))%Z in chk (n + 1) l (f + l) tab)
  end.
Lemma chk_table : chk 1 0 0 (tl LOG_FACTORIALS_255) = true.
Proof. vm_compute. reflexivity. Qed.
Opaque zstep SC.
Lemma chk_ok : forall tab (n : nat) l f, (1 <= n)%nat ->
  Rabs (IZR SC * ln (INR n) - IZR l) <= 28 * INR n -> Rabs (IZR SC * ln (INR (fact n)) - IZR f) <= 28 * (INR n * INR n) ->
  chk (Z.of_nat n) l f tab = true ->
  forall i v, nth_error tab i = Some v -> Rabs (IZR (v * 10 ^ 9) - IZR SC * ln (INR (fact (n + i)))) <= IZR BOUND + 28 * (INR (n + i) * INR (n + i)).
Proof.
  assert (ZO := zstep_ok). set (sc := IZR SC) in *. clearbody sc.
  induction tab as [|w tab IH]; intros n l f Hn Hl Hf H i v Hi; [destruct i; discriminate|]. cbn [chk] in H. apply andb_true_iff in H as [H1 H2]. apply Z.leb_le in H1.
  assert (Hn1 : 1 <= INR n) by (now apply (le_INR 1)).
  destruct i as [|i]; cbn [nth_error] in Hi.
  - injection Hi as <-. rewrite Nat.add_0_r. apply IZR_le in H1. rewrite abs_IZR, minus_IZR in H1.
    replace (IZR (w * 10 ^ 9) - sc * ln (INR (fact n))) with (IZR (w * 10 ^ 9) - IZR f - (sc * ln (INR (fact n)) - IZR f)) by ring.
    eapply Rle_trans; [apply Rabs_triang|]. rewrite Rabs_Ropp. lra.
  - cbv zeta in H2. replace (Z.of_nat n + 1)%Z with (Z.of_nat (S n)) in H2 by lia. rewrite Nat.add_succ_r, <- Nat.add_succ_l.
    assert (Zs := ZO (Z.of_nat (S n)) ltac:(lia)). replace (Z.of_nat (S n) - 1)%Z with (Z.of_nat n) in Zs by lia. rewrite <- !INR_IZR_INZ in Zs.
    set (zs := zstep (Z.of_nat (S n))) in *. clearbody zs.
    assert (Hl' : Rabs (sc * ln (INR (S n)) - IZR (l + zs)) <= 28 * INR (S n)).
    { rewrite plus_IZR. replace (sc * ln (INR (S n)) - (IZR l + IZR (zs))) with ((sc * ln (INR n) - IZR l) + (sc * (ln (INR (S n)) - ln (INR n)) - IZR (zs))) by ring.
      eapply Rle_trans; [apply Rabs_triang|]. assert (SI := S_INR n); lra. }
    apply (IH (S n) (l + zs)%Z (f + (l + zs))%Z ltac:(lia) Hl'); [|exact H2|exact Hi].
    rewrite (plus_IZR f), ln_fact_S, <- S_INR. set (l' := (l + zs)%Z) in *. clearbody l'.
    replace (sc * (ln (INR (S n)) + ln (INR (fact n))) - (IZR f + IZR l')) with ((sc * ln (INR (fact n)) - IZR f) + (sc * ln (INR (S n)) - IZR l')) by ring.
    eapply Rle_trans; [apply Rabs_triang|]. rewrite S_INR in *. nra.
Qed.
Theorem table_ok n v : nth_error LOG_FACTORIALS_255 n = Some v -> Rabs (IZR v / 10 ^ 15 - ln (INR (fact n))) <= 3 / 10 ^ 13.
Proof.
  intros H. destruct n as [|n].
  - cbn in H. injection H as <-. cbn [fact INR]. rewrite ln_1. replace (0 / 10 ^ 15 - 0) with 0 by field. rewrite Rabs_R0. lra.
  - assert (Hn : (S n < 255)%nat). { replace 255%nat with (length LOG_FACTORIALS_255) by reflexivity. apply nth_error_Some. congruence. }
    change (nth_error LOG_FACTORIALS_255 (S n)) with (nth_error (tl LOG_FACTORIALS_255) n) in H.
    assert (K := chk_ok (tl LOG_FACTORIALS_255) 1 0 0 (le_n 1)). change (fact 1) with 1%nat in K. change (INR 1) with 1 in K. rewrite ln_1 in K.
    specialize (K ltac:(rewrite Rmult_0_r, Rminus_0_r, Rabs_R0; lra) ltac:(rewrite Rmult_0_r, Rminus_0_r, Rabs_R0; lra) chk_table n v H). change (1 + n)%nat with (S n) in K.
    assert (HI : 0 <= INR (S n) <= 255). { split; [apply pos_INR|]. replace 255 with (INR 255) by (cbn; lra). apply le_INR. lia. }
    assert (B : IZR BOUND + 28 * (INR (S n) * INR (S n)) <= 3 * 10 ^ 11). { change BOUND with 299998000000%Z. nra. }
    rewrite mult_IZR in K. change (IZR (10 ^ 9)) with 1000000000 in K. change (IZR SC) with 1000000000000000000000000 in K.
    replace (IZR v / 10 ^ 15 - ln (INR (fact (S n)))) with ((IZR v * 1000000000 - 1000000000000000000000000 * ln (INR (fact (S n)))) * / 10 ^ 24) by field.
    rewrite Rabs_mult, (Rabs_pos_eq (/ 10 ^ 24)) by (left; apply Rinv_0_lt_compat; apply pow_lt; lra).
    apply Rle_trans with (3 * 10 ^ 11 * / 10 ^ 24); [apply Rmult_le_compat_r; [left; apply Rinv_0_lt_compat; apply pow_lt; lra|lra]|]. right. field.
Qed.
(** ** the function of utils.rs *)
Theorem lf_ok (n : nat) : (Z.of_nat n < 2 ^ 64 - 1)%Z -> exists v, log_factorial_stirling (F := xreal) (Z.of_nat n) = Ret (Fin v) /\
  if Nat.ltb n 255 then Rabs (v - ln (INR (fact n))) <= 3 / 10 ^ 13
  else 0 <= v - ln (INR (fact n)) <= 1 / (360 * (INR n + 1) ^ 3).
Proof.
  intros Hn. unfold log_factorial_stirling. destruct (Z.ltb_spec 254 (Z.of_nat n)) as [H|H]; destruct (Nat.ltb_spec n 255) as [L|L]; try lia.
  - unfold u64, checked. replace (_ && _)%bool with true by (symmetry; apply andb_true_iff; split; apply Z.leb_le; unfold U64_MAX; lia). cbn [rbind].
    assert (K := pos_INR n). assert (0 < INR n + 1) by lra. xs. rewrite plus_IZR, <- INR_IZR_INZ. xs. eexists. split; [reflexivity|].
    assert (Q := serr_bound n). unfold serr, sb, stir in Q. replace ((INR n + 1) ^ 3) with ((INR n + 1) * (INR n + 1) * (INR n + 1)) by ring. lra.
  - rewrite Nat2Z.id. destruct (nth_error LOG_FACTORIALS_255 n) as [v|] eqn:E.
    + xs. eexists. split; [reflexivity|]. assert (T := table_ok n v E). replace (IZR v / 1000000000000000) with (IZR v / 10 ^ 15) by (f_equal; lra). exact T.
    + apply nth_error_None in E. change (length LOG_FACTORIALS_255) with 255%nat in E. lia.
Qed.
