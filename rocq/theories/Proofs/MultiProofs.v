(** * Multinomial, multivariate log-normal *)
From Coq Require Import Reals Lra Lia Psatz List Arith ZArith Bool.
From Coquelicot Require Import Coquelicot.
From Verif.Num Require Import Scalar XReal.
From Verif.Model Require Import Rust Constraints Probability Params Consts Traits Linalg Multivariate.
From Verif.Model Require MvNormal.
From Verif.Spec Require Import DistSpec SampleSpec MvSpec.
From Verif.Spec Require ProbSpec.
From Verif.Proofs Require Import ConstraintProofs XTac Matrix MvProofs.
From Verif.Proofs Require MixtureProofs SimplexProofs.
Import ListNotations.
Open Scope R_scope.

(** ** independent trials *)
Section Trials.
Context (N : nat) (p : nat -> R) (Hp : rsum N p = 1).
Notation E := (trials_exp N p).
Lemma te_ext n : forall f g, (forall l, f l = g l) -> E n f = E n g.
Proof. induction n; intros f g H; cbn [trials_exp]; [apply H|]. apply rsum_ext; intros k Hk. f_equal. apply IHn. intros; apply H. Qed.
Lemma te_lin n : forall f g (a b : R), E n (fun l => a * f l + b * g l) = a * E n f + b * E n g.
Proof.
  induction n; intros f g a b; cbn [trials_exp]; [reflexivity|]. rewrite <- !rsum_scal, <- rsum_plus. apply rsum_ext; intros k Hk.
  rewrite (IHn (fun l => f (k :: l)) (fun l => g (k :: l))). ring.
Qed.
Lemma te_const n (c : R) : E n (fun _ => c) = c.
Proof. induction n; cbn [trials_exp]; [reflexivity|]. rewrite (rsum_ext N _ (fun k => p k * c)) by (intros; now rewrite IHn). rewrite rsum_scal_r, Hp. ring. Qed.
Lemma occurs_cons i k l : occurs i (k :: l) = (if Nat.eqb k i then 1 else 0) + occurs i l.
Proof. unfold occurs. cbn [count_occ]. destruct (Nat.eq_dec k i), (Nat.eqb_spec k i); try congruence; [rewrite S_INR; ring|ring]. Qed.
Lemma occurs_nil i : occurs i [] = 0. Proof. reflexivity. Qed.
Lemma rsum_ind i (f : nat -> R) : (i < N)%nat -> rsum N (fun k => p k * ((if Nat.eqb k i then 1 else 0) * f k)) = p i * f i.
Proof.
  intros Hi. rewrite (rsum_single N i); auto; [rewrite Nat.eqb_refl; ring|]. intros k Hk Ne. destruct (Nat.eqb_spec k i); [congruence|ring].
Qed.
Lemma te_mean n i : (i < N)%nat -> E n (occurs i) = INR n * p i.
Proof.
  intros Hi. induction n; [cbn; ring|]. rewrite S_INR. cbn [trials_exp].
  rewrite (rsum_ext N _ (fun k => p k * ((if Nat.eqb k i then 1 else 0) * 1) + p k * (INR n * p i))).
  - rewrite rsum_plus, (rsum_ind i (fun _ => 1) Hi), rsum_scal_r, Hp. ring.
  - intros k Hk. rewrite (te_ext n _ (fun l => (if Nat.eqb k i then 1 else 0) * 1 + 1 * occurs i l)) by (intros; rewrite occurs_cons; ring).
    rewrite (te_lin n (fun _ => 1) (occurs i)), te_const, IHn. ring.
Qed.
Lemma te_second n i j : (i < N)%nat -> (j < N)%nat ->
  E n (fun l => occurs i l * occurs j l) = INR n * (INR n - 1) * (p i * p j) + (if Nat.eqb i j then INR n * p i else 0).
Proof.
  intros Hi Hj. induction n. { cbn [trials_exp INR]. rewrite !occurs_nil. destruct (Nat.eqb i j); ring. }
  rewrite S_INR. cbn [trials_exp].
  rewrite (rsum_ext N _ (fun k => (p k * ((if Nat.eqb k i then 1 else 0) * (if Nat.eqb k j then 1 else 0)) + p k * ((if Nat.eqb k i then 1 else 0) * (INR n * p j)))
     + (p k * ((if Nat.eqb k j then 1 else 0) * (INR n * p i)) + p k * E n (fun l => occurs i l * occurs j l)))).
  - rewrite !rsum_plus, rsum_scal_r, Hp. rewrite (rsum_ind i (fun k => if Nat.eqb k j then 1 else 0) Hi), (rsum_ind i (fun _ => INR n * p j) Hi), (rsum_ind j (fun _ => INR n * p i) Hj).
    rewrite IHn. destruct (Nat.eqb i j); ring.
  - intros k Hk. set (di := if Nat.eqb k i then 1 else 0). set (dj := if Nat.eqb k j then 1 else 0).
    rewrite (te_ext n _ (fun l => 1 * (di * dj * 1 + di * occurs j l) + 1 * (dj * occurs i l + 1 * (occurs i l * occurs j l)))) by (intros; rewrite !occurs_cons; fold di dj; ring).
    rewrite (te_lin n (fun l => di * dj * 1 + di * occurs j l)), (te_lin n (fun _ => 1)), (te_lin n (occurs i)), te_const, !te_mean by auto. ring.
Qed.
Lemma te_cov n i j : (i < N)%nat -> (j < N)%nat ->
  E n (fun l => (occurs i l - INR n * p i) * (occurs j l - INR n * p j)) = INR n * p i * ((if Nat.eqb i j then 1 else 0) - p j).
Proof.
  intros Hi Hj.
  rewrite (te_ext n _ (fun l => 1 * (1 * (occurs i l * occurs j l) + (- (INR n * p j)) * occurs i l) + 1 * ((- (INR n * p i)) * occurs j l + (INR n * p i * (INR n * p j)) * 1))) by (intros; ring).
  rewrite (te_lin n (fun l => 1 * (occurs i l * occurs j l) + (- (INR n * p j)) * occurs i l)), (te_lin n (fun l => occurs i l * occurs j l)), (te_lin n (occurs j)), te_const, !te_mean, te_second by auto.
  destruct (Nat.eqb i j); ring.
Qed.
End Trials.

(** ** Multinomial: construction and moments *)
Lemma mn_new_inv (n : Z) ps d : Multinomial.new n (map Fin ps) = Ok d ->
  (0 <= n)%Z /\ (forall p, In p ps -> 0 <= p <= 1) /\ d = Multinomial.new_unchecked n (map Fin ps).
Proof.
  unfold Multinomial.new, Multinomial.params_new, count_new. destruct (check (AllS NonNegative) n) as [m|] eqn:E; cbn [map_err and_then map_ok]; [|discriminate].
  apply check_ok_inv in E as [-> E]. cbn in E. apply Z.leb_le in E.
  destruct (simplex_new (map Fin ps)) as [q|] eqn:E2; cbn [map_err and_then map_ok]; [|discriminate]. apply MixtureProofs.x_simplex_inv in E2 as [-> [HF _]].
  intros H; injection H as <-. split; [exact E|]. split; [|reflexivity]. now apply Forall_forall.
Qed.
Lemma mn_new_ok (n : Z) ps : (0 <= n)%Z -> (forall p, In p ps -> 0 <= p <= 1) -> fold_right Rplus 0 ps = 1 -> Multinomial.new n (map Fin ps) = Ok (Multinomial.new_unchecked n (map Fin ps)).
Proof.
  intros Hn Hp Hs. unfold Multinomial.new, Multinomial.params_new, count_new.
  rewrite check_ok by (cbn; now apply Z.leb_le). cbn [map_err and_then map_ok].
  rewrite MixtureProofs.x_simplex_ok; [reflexivity|]. split; [now apply Forall_forall|].
  replace (ProbSpec.rsum ps) with (fold_right Rplus 0 ps) by (clear; induction ps; cbn; congruence). rewrite Hs, Rminus_eq_0, Rabs_R0. lra.
Qed.
Section MN.
Context (n : nat) (ps : list R).
Let d := Multinomial.new_unchecked (F := xreal) (Z.of_nat n) (map Fin ps).
Let N := length ps.
Let p := fun i => nth i ps 0.
Lemma mn_mean : is_vec N (Multinomial.mean d) (fun i => INR n * p i).
Proof. unfold Multinomial.mean, d. cbn [Multinomial.pr Multinomial.ps Multinomial.n Multinomial.new_unchecked]. apply (vec_map N _ _ p); [apply vec_list|]. intros i Hi. xs. rewrite <- INR_IZR_INZ. f_equal. ring. Qed.
Lemma mn_var : is_vec N (Multinomial.variance d) (fun i => INR n * p i * (1 - p i)).
Proof. unfold Multinomial.variance, d. cbn [Multinomial.pr Multinomial.ps Multinomial.n Multinomial.new_unchecked]. apply (vec_map N _ _ p); [apply vec_list|]. intros i Hi. xs. rewrite <- INR_IZR_INZ. f_equal. ring. Qed.
Lemma mn_cov : is_mat N (Multinomial.covariance d) (fun i j => INR n * p i * ((if Nat.eqb i j then 1 else 0) - p j)).
Proof.
  unfold Multinomial.covariance, Multinomial.n_categories, d. cbn [Multinomial.pr Multinomial.ps Multinomial.n Multinomial.new_unchecked]. rewrite map_length. apply mat_mtab. intros i j Hi Hj.
  rewrite !(vec_vget N _ _ _ (vec_list ps)) by auto. fold (p i). fold (p j). xs. rewrite <- INR_IZR_INZ. destruct (Nat.eqb_spec i j) as [->|Ne]; xs; f_equal; ring.
Qed.
Lemma mn_corr : (forall i, (i < N)%nat -> 0 < p i < 1) ->
  is_mat N (Multinomial.correlation d) (fun i j => if Nat.eqb i j then 1 else - sqrt (p i * p j / ((1 - p i) * (1 - p j)))).
Proof.
  intros H. unfold Multinomial.correlation, Multinomial.n_categories, d. cbn [Multinomial.pr Multinomial.ps Multinomial.n Multinomial.new_unchecked]. rewrite map_length. apply mat_mtab. intros i j Hi Hj.
  rewrite !(vec_vget N _ _ _ (vec_list ps)) by auto. fold (p i). fold (p j). assert (K1 := H i Hi). assert (K2 := H j Hj). destruct (Nat.eqb_spec i j) as [->|Ne]; [now xs|].
  assert (A1 : 0 < 1 - p i) by lra. assert (A2 : 0 < 1 - p j) by lra. assert (A3 : 0 < p i) by lra. assert (A4 : 0 < p j) by lra.
  assert (0 < p i * p j / (1 - p i) / (1 - p j)) by pos. xs. f_equal. f_equal. f_equal. field. lra.
Qed.
End MN.

(** ** the log-normal covariance loop *)
Lemma set_nth_len {A} (l : list A) : forall i v, length (set_nth l i v) = length l.
Proof. induction l; intros [|i] v; cbn; auto. Qed.
Lemma set_nth_nth {A} (l : list A) : forall i j v d, (i < length l)%nat -> nth j (set_nth l i v) d = if Nat.eqb j i then v else nth j l d.
Proof. induction l as [|a l IH]; intros i j v d Hi; [cbn in Hi; lia|]. destruct i, j; cbn in *; auto. apply IH. lia. Qed.
Definition upd (C : nat -> nat -> R) (i j : nat) (w : R) (a b : nat) : R := if (Nat.eqb a i && Nat.eqb b j)%bool then w else C a b.
Lemma mat_set_ok n m C i j w : is_mat n m C -> (i < n)%nat -> (j < n)%nat -> is_mat n (mat_set m i j (Fin w)) (upd C i j w).
Proof.
  intros [L H] Hi Hj. unfold mat_set. split; [now rewrite set_nth_len|]. intros a Ha. rewrite set_nth_nth by lia. unfold upd. destruct (Nat.eqb_spec a i) as [->|N].
  - destruct (H i Hi) as [Li Hv]. split; [now rewrite set_nth_len|]. intros b Hb. rewrite set_nth_nth by lia. cbn [andb]. destruct (Nat.eqb b j); auto.
  - cbn [andb]. now apply H.
Qed.
Section LN.
Context (n : nat) (m : list xreal) (u : nat -> R) (Hm : is_vec n m u).
Definition ln_entry (u : nat -> R) (C : nat -> nat -> R) (i j : nat) : R := exp (u i + u j + (C i i + C j j) / 2) * (exp (C i j) - 1).
Lemma update_ok M C i j : is_mat n M C -> (i < n)%nat -> (j < n)%nat -> is_mat n (MvLogNormal.update_index m M i j) (upd C i j (ln_entry u C i j)).
Proof.
  intros H Hi Hj. unfold MvLogNormal.update_index. rewrite !(vec_vget n m u) by auto. rewrite !(mat_get_ok n M C) by auto. cbv zeta. xs. now apply mat_set_ok.
Qed.
(** a loop over distinct columns of row i, other than the diagonal *)
Lemma row_loop i (Hi : (i < n)%nat) : forall js M C, is_mat n M C -> NoDup js -> (forall j, In j js -> (j < n)%nat /\ j <> i) ->
  is_mat n (fold_left (fun cov j => MvLogNormal.update_index m cov i j) js M)
    (fun a b => if (Nat.eqb a i && existsb (Nat.eqb b) js)%bool then ln_entry u C i b else C a b).
Proof.
  induction js as [|j js IH]; intros M C H ND Hj; cbn [fold_left existsb].
  - apply (mat_ext n _ _ _ H). intros a b _ _. now rewrite andb_false_r.
  - inversion ND as [|? ? NI ND']; subst. destruct (Hj j ltac:(now left)) as [Hjn Hji].
    assert (U := update_ok M C i j H Hi Hjn). specialize (IH _ _ U ND' ltac:(intros; apply Hj; now right)).
    apply (mat_ext n _ _ _ IH). intros a b Ha Hb. destruct (Nat.eqb_spec a i) as [->|N]; cbn [andb].
    + destruct (existsb (Nat.eqb b) js) eqn:EB.
      * rewrite orb_true_r. unfold ln_entry, upd. rewrite Nat.eqb_refl. cbn [andb].
        apply existsb_exists in EB as (b' & Hb' & E). apply Nat.eqb_eq in E. subst b'. destruct (Hj b ltac:(now right)) as [_ Hbi].
        repeat match goal with |- context [Nat.eqb ?x ?y] => destruct (Nat.eqb_spec x y); [try (exfalso; congruence); try (subst; contradiction)|cbn [andb]] end; reflexivity.
      * rewrite orb_false_r. unfold upd. rewrite Nat.eqb_refl. cbn [andb]. destruct (Nat.eqb_spec b j) as [->|Nb]; reflexivity.
    + unfold upd. destruct (Nat.eqb_spec a i); [congruence|]. reflexivity.
Qed.
Context (C : nat -> nat -> R).
Definition ln_var (j : nat) : R := ln_entry u C j j.
Definition ln_final (i j : nat) : R := if Nat.ltb j i then exp (u i + u j + (C i i + ln_var j) / 2) * (exp (C i j) - 1) else ln_entry u C i j.
Lemma existsb_seq b s k : existsb (Nat.eqb b) (seq s k) = (Nat.leb s b && Nat.ltb b (s + k))%bool.
Proof.
  destruct (existsb (Nat.eqb b) (seq s k)) eqn:E; symmetry.
  - apply existsb_exists in E as (x & Hx & E). apply Nat.eqb_eq in E. subst. apply in_seq in Hx. destruct (Nat.leb_spec s x), (Nat.ltb_spec x (s + k)); try lia; reflexivity.
  - apply not_true_iff_false. intros K. apply andb_true_iff in K as [K1 K2]. apply Nat.leb_le in K1. apply Nat.ltb_lt in K2.
    apply not_true_iff_false in E. apply E. apply existsb_exists. exists b. split; [apply in_seq; lia|apply Nat.eqb_refl].
Qed.
Lemma cov_loop_ok M : is_mat n M C -> is_mat n (MvLogNormal.cov_loop m n M) ln_final.
Proof.
  intros H. unfold MvLogNormal.cov_loop. set (body := fun cov i => _).
  assert (G : forall k, (k <= n)%nat -> is_mat n (fold_left body (seq 0 k) M) (fun a b => if Nat.ltb a k then ln_final a b else C a b)).
  { induction k; intros Hk; [exact H|]. rewrite seq_S, fold_left_app. cbn [fold_left Nat.add]. specialize (IHk ltac:(lia)). set (M' := fold_left body (seq 0 k) M) in *.
    unfold body. assert (Hkn : (k < n)%nat) by lia.
    assert (R1 := row_loop k Hkn (seq 0 k) M' _ IHk (seq_NoDup k 0) ltac:(intros j Hj; apply in_seq in Hj; lia)).
    assert (R2 := row_loop k Hkn (seq (k + 1) (n - (k + 1))) _ _ R1 (seq_NoDup _ _) ltac:(intros j Hj; apply in_seq in Hj; lia)).
    assert (R3 := update_ok _ _ k k R2 Hkn Hkn). apply (mat_ext n _ _ _ R3). clear R1 R2 R3. intros a b Ha Hb.
    unfold upd, ln_final, ln_var, ln_entry. cbv beta. rewrite !existsb_seq. rewrite ?Nat.add_0_l.
    repeat match goal with
    | |- context [Nat.eqb ?x ?x] => rewrite Nat.eqb_refl
    | |- context [Nat.ltb ?x ?x] => rewrite Nat.ltb_irrefl
    | |- context [Nat.leb ?x ?x] => rewrite Nat.leb_refl
    | |- context [Nat.eqb ?x ?y] => destruct (Nat.eqb_spec x y); [try subst; try lia|]
    | |- context [Nat.ltb ?x ?y] => destruct (Nat.ltb_spec x y); try lia
    | |- context [Nat.leb ?x ?y] => destruct (Nat.leb_spec x y); try lia
    end; cbn [andb]; try reflexivity; try lia. }
  assert (K := G n (le_n n)). apply (mat_ext n _ _ _ K). intros a b Ha Hb. destruct (Nat.ltb_spec a n); [reflexivity|lia].
Qed.
End LN.

Lemma simplex_new_id {F} {SF : Scalar F} (ps q : list F) : simplex_new ps = Ok q -> q = ps.
Proof. unfold simplex_new, simplex_try_from. destruct (simplex_loop _ ps) as [z|]; cbn [and_then]; [|discriminate]. destruct (fltb _ _); [|discriminate]. intros H; now injection H. Qed.
Lemma sum_usize_ok : forall xs acc, (0 <= acc)%Z -> (forall x, In x xs -> (0 <= x)%Z) -> (acc + fold_right Z.add 0 xs < 2 ^ 64)%Z ->
  Multinomial.sum_usize acc xs = Ret (acc + fold_right Z.add 0 xs)%Z.
Proof.
  induction xs as [|x xs IH]; intros acc Ha Hx Hb; cbn [Multinomial.sum_usize fold_right] in *; [now rewrite Z.add_0_r|].
  assert (0 <= x)%Z by (apply Hx; now left). assert (0 <= fold_right Z.add 0 xs)%Z.
  { assert (Hx' : forall y, In y xs -> (0 <= y)%Z) by (intros; apply Hx; now right). clear - Hx'. induction xs as [|y xs IH]; cbn; [lia|]. specialize (Hx' y ltac:(now left)) as Hy. specialize (IH ltac:(intros; apply Hx'; now right)). lia. }
  unfold u64, checked. match goal with |- context [if ?b then _ else _] => replace b with true by (symmetry; apply andb_true_iff; split; [apply Z.leb_le|apply Z.leb_le || apply Z.ltb_lt]; unfold U64_MAX in *; lia) end.
  cbn [rbind]. rewrite IH; [f_equal; lia|lia|intros; apply Hx; now right|lia].
Qed.
