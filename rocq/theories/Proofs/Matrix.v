(** * Small matrix library on functions nat -> nat -> R *)
From Coq Require Import Reals Lra Lia Arith List.
From Verif.Num Require Import XReal.
From Verif.Spec Require Import MvSpec LapackSpec.
Open Scope R_scope.

Lemma rsum_ext n f g : (forall i, (i < n)%nat -> f i = g i) -> rsum n f = rsum n g.
Proof. induction n; intros H; cbn; [auto|]. rewrite IHn by (intros; apply H; lia). now rewrite H by lia. Qed.
Lemma rsum_0 n : rsum n (fun _ => 0) = 0.
Proof. induction n; cbn; [auto|]. rewrite IHn. ring. Qed.
Lemma rsum_zero n f : (forall i, (i < n)%nat -> f i = 0) -> rsum n f = 0.
Proof. intros H. rewrite (rsum_ext n f (fun _ => 0)) by auto. apply rsum_0. Qed.
Lemma rsum_plus n f g : rsum n (fun i => f i + g i) = rsum n f + rsum n g.
Proof. induction n; cbn; [ring|]. rewrite IHn. ring. Qed.
Lemma rsum_scal n c f : rsum n (fun i => c * f i) = c * rsum n f.
Proof. induction n; cbn; [ring|]. rewrite IHn. ring. Qed.
Lemma rsum_scal_r n c f : rsum n (fun i => f i * c) = rsum n f * c.
Proof. induction n; cbn; [ring|]. rewrite IHn. ring. Qed.
Lemma rsum_opp n f : rsum n (fun i => - f i) = - rsum n f.
Proof. induction n; cbn; [ring|]. rewrite IHn. ring. Qed.
Lemma rsum_minus n f g : rsum n (fun i => f i - g i) = rsum n f - rsum n g.
Proof. induction n; cbn; [ring|]. rewrite IHn. ring. Qed.
Lemma rsum_swap n m f : rsum n (fun i => rsum m (fun j => f i j)) = rsum m (fun j => rsum n (fun i => f i j)).
Proof. induction n; cbn; [symmetry; apply rsum_0|]. rewrite IHn, <- rsum_plus. reflexivity. Qed.
Lemma rsum_shift n f : rsum (S n) f = f 0%nat + rsum n (fun i => f (S i)).
Proof. induction n; [cbn; ring|]. change (rsum (S (S n)) f) with (rsum (S n) f + f (S n)). rewrite IHn. cbn. ring. Qed.
Lemma rsum_single n i f : (i < n)%nat -> (forall k, (k < n)%nat -> k <> i -> f k = 0) -> rsum n f = f i.
Proof.
  induction n; intros Hi H; [lia|]. cbn. destruct (Nat.eq_dec i n) as [->|N].
  - rewrite rsum_zero; [ring|]. intros k Hk. apply H; lia.
  - rewrite IHn, (H n) by (try lia; intros; apply H; lia). ring.
Qed.
Lemma rsum_two n i j f : (i < j < n)%nat -> (forall k, (k < n)%nat -> k <> i -> k <> j -> f k = 0) -> rsum n f = f i + f j.
Proof.
  induction n; intros Hi H; [lia|]. cbn. destruct (Nat.eq_dec j n) as [->|N].
  - rewrite (rsum_single n i); [ring|lia|]. intros k Hk Hne. apply H; lia.
  - rewrite IHn, (H n) by (try lia; intros; apply H; lia). ring.
Qed.
Lemma rsum_nonneg n f : (forall i, (i < n)%nat -> 0 <= f i) -> 0 <= rsum n f.
Proof. induction n; intros H; cbn; [lra|]. generalize (IHn ltac:(intros; apply H; lia)) (H n ltac:(lia)). lra. Qed.
Lemma rsum_pos n f : (0 < n)%nat -> (forall i, (i < n)%nat -> 0 < f i) -> 0 < rsum n f.
Proof.
  intros Hn H. destruct n; [lia|]. cbn. assert (0 <= rsum n f) by (apply rsum_nonneg; intros; left; apply H; lia). generalize (H n ltac:(lia)). lra.
Qed.

(** ** products *)
Lemma mmul_assoc n A B C i j : mmul n (mmul n A B) C i j = mmul n A (mmul n B C) i j.
Proof.
  unfold mmul. transitivity (rsum n (fun k => rsum n (fun l => A i l * B l k * C k j))).
  - apply rsum_ext; intros k _. now rewrite rsum_scal_r.
  - rewrite rsum_swap. apply rsum_ext; intros l _. rewrite <- rsum_scal. apply rsum_ext; intros k _. ring.
Qed.
Lemma mmul_ident_l n A B i j : (i < n)%nat -> meq n A ident -> mmul n A B i j = B i j.
Proof.
  intros Hi H. unfold mmul. rewrite (rsum_single n i); [rewrite H by auto; unfold ident; rewrite Nat.eqb_refl; ring|auto|].
  intros k Hk N. rewrite H by auto. unfold ident. destruct (Nat.eqb_spec i k); [congruence|ring].
Qed.
Lemma mmul_ident_r n A B i j : (j < n)%nat -> meq n B ident -> mmul n A B i j = A i j.
Proof.
  intros Hi H. unfold mmul. rewrite (rsum_single n j); [rewrite H by auto; unfold ident; rewrite Nat.eqb_refl; ring|auto|].
  intros k Hk N. rewrite H by auto. unfold ident. destruct (Nat.eqb_spec k j); [congruence|ring].
Qed.
Lemma mmul_ext n A A' B B' i j : (i < n)%nat -> (j < n)%nat -> meq n A A' -> meq n B B' -> mmul n A B i j = mmul n A' B' i j.
Proof. intros Hi Hj H1 H2. apply rsum_ext; intros k Hk. now rewrite H1, H2. Qed.
Lemma mmul_transp n A B i j : mmul n (transp B) (transp A) i j = transp (mmul n A B) i j.
Proof. unfold mmul, transp. apply rsum_ext; intros; ring. Qed.
Lemma meq_sym n A B : meq n A B -> meq n B A. Proof. intros H i j Hi Hj. now rewrite H. Qed.
Lemma meq_trans n A B C : meq n A B -> meq n B C -> meq n A C. Proof. intros H K i j Hi Hj. rewrite H by auto. now apply K. Qed.
Lemma ident_sym i j : ident i j = ident j i. Proof. unfold ident. now rewrite Nat.eqb_sym. Qed.

(** ** determinants *)
Lemma det_ext n : forall A B, meq n A B -> det n A = det n B.
Proof.
  induction n; intros A B H; [reflexivity|]. cbn [det]. apply rsum_ext; intros i Hi. rewrite H by lia. f_equal. apply IHn. intros r c Hr Hc.
  apply H; [|lia]. unfold skip. destruct (Nat.ltb_spec r i); lia.
Qed.
Definition setrow (A : nat -> nat -> R) (i : nat) (r : nat -> R) (a b : nat) : R := if Nat.eqb a i then r b else A a b.
Lemma setrow_self A i a b : setrow A i (A i) a b = A a b.
Proof. unfold setrow. destruct (Nat.eqb_spec a i); subst; reflexivity. Qed.
Lemma minor_setrow_same n A i r : meq n (fun a b => setrow A i r (skip i a) (S b)) (fun a b => A (skip i a) (S b)).
Proof. intros a b Ha Hb. unfold setrow, skip. destruct (Nat.ltb_spec a i), (Nat.eqb_spec a i), (Nat.eqb_spec (S a) i); try lia; try reflexivity. Qed.
Definition unskip (a i : nat) : nat := if Nat.ltb i a then i else pred i.
Lemma minor_setrow n A i k r : k <> i -> meq n (fun a b => setrow A i r (skip k a) (S b)) (setrow (fun a b => A (skip k a) (S b)) (unskip k i) (fun b => r (S b))).
Proof.
  intros N a b Ha Hb. unfold setrow, skip, unskip.
  destruct (Nat.ltb_spec a k), (Nat.ltb_spec i k); repeat match goal with |- context [Nat.eqb ?x ?y] => destruct (Nat.eqb_spec x y) end; try lia; try reflexivity.
Qed.
Lemma unskip_lt n k i : (k < S n)%nat -> (i < S n)%nat -> k <> i -> (unskip k i < n)%nat.
Proof. unfold unskip. destruct (Nat.ltb_spec i k); lia. Qed.
Lemma det_linear n : forall A i (c : R) r r', (i < n)%nat ->
  det n (setrow A i (fun b => c * r b + r' b)) = c * det n (setrow A i r) + det n (setrow A i r').
Proof.
  induction n; intros A i c r r' Hi; [lia|]. cbn [det]. rewrite <- rsum_scal, <- rsum_plus. apply rsum_ext; intros k Hk.
  destruct (Nat.eq_dec k i) as [->|N].
  - rewrite !(det_ext n _ _ (minor_setrow_same n A i _)). unfold setrow. rewrite Nat.eqb_refl. ring.
  - rewrite !(det_ext n _ _ (minor_setrow n A i k _ N)).
    rewrite (IHn _ (unskip k i) c (fun b => r (S b)) (fun b => r' (S b))) by (now apply unskip_lt).
    assert (SR : forall s, setrow A i s k 0%nat = A k 0%nat) by (intros s; unfold setrow; destruct (Nat.eqb_spec k i); [congruence|reflexivity]).
    rewrite !SR. ring.
Qed.
Lemma det_adj n : forall A i, (S i < n)%nat -> (forall b, (b < n)%nat -> A i b = A (S i) b) -> det n A = 0.
Proof.
  induction n; intros A i Hi H; [lia|]. cbn [det]. rewrite (rsum_two (S n) i (S i)).
  - assert (E : det n (fun r c => A (skip i r) (S c)) = det n (fun r c => A (skip (S i) r) (S c))).
    { apply det_ext. intros r c Hr Hc. unfold skip. destruct (Nat.ltb_spec r i), (Nat.ltb_spec r (S i)); try lia; try reflexivity.
      assert (r = i) by lia. subst r. symmetry. apply H. lia. }
    rewrite E, (H 0%nat) by lia. cbn [pow]. ring.
  - lia.
  - intros k Hk N1 N2. rewrite (IHn _ (unskip k i)); [ring| |].
    + unfold unskip. destruct (Nat.ltb_spec i k); lia.
    + intros b Hb. assert (E1 : skip k (unskip k i) = i) by (unfold skip, unskip; destruct (Nat.ltb_spec i k); match goal with |- context [Nat.ltb ?x k] => destruct (Nat.ltb_spec x k) end; lia).
      assert (E2 : skip k (S (unskip k i)) = S i) by (unfold skip, unskip; destruct (Nat.ltb_spec i k); match goal with |- context [Nat.ltb ?x k] => destruct (Nat.ltb_spec x k) end; lia).
      rewrite E1, E2. apply H. lia.
Qed.
Lemma det_add n A i (r r' : nat -> R) : (i < n)%nat ->
  det n (setrow A i (fun b => r b + r' b)) = det n (setrow A i r) + det n (setrow A i r').
Proof.
  intros Hi. rewrite <- (Rmult_1_l (det n (setrow A i r))), <- det_linear by auto. apply det_ext. intros a b Ha Hb. unfold setrow.
  destruct (Nat.eqb a i); [ring|reflexivity].
Qed.
(** exchanging adjacent rows *)
Lemma det_swap n A i (r r' : nat -> R) : (S i < n)%nat ->
  det n (setrow (setrow A i r) (S i) r') = - det n (setrow (setrow A i r') (S i) r).
Proof.
  intros Hi. assert (S0 : forall s, det n (setrow (setrow A i s) (S i) s) = 0).
  { intros s. apply (det_adj n _ i Hi). intros b Hb. unfold setrow. rewrite !Nat.eqb_refl. destruct (Nat.eqb_spec i (S i)); [lia|reflexivity]. }
  assert (C : forall s t, det n (setrow (setrow A i s) (S i) t) = det n (setrow (setrow A (S i) t) i s)).
  { intros s t. apply det_ext. intros a b Ha Hb. unfold setrow. destruct (Nat.eqb_spec a (S i)), (Nat.eqb_spec a i); try lia; reflexivity. }
  assert (H := S0 (fun b => r b + r' b)). rewrite det_add in H by auto. rewrite !C in H. rewrite !det_add in H by lia. rewrite <- !C in H. rewrite !S0 in H. lra.
Qed.
Lemma det_equal n A : forall k i, (S (i + k) < n)%nat -> (forall b, (b < n)%nat -> A i b = A (S (i + k)) b) -> det n A = 0.
Proof.
  intros k. revert A. induction k; intros A i Hi H.
  - rewrite Nat.add_0_r in *. now apply (det_adj n A i).
  - set (j := (i + S k)%nat) in *.
    transitivity (det n (setrow (setrow A j (A j)) (S j) (A (S j)))).
    { apply det_ext. intros a b Ha Hb. unfold setrow. destruct (Nat.eqb_spec a (S j)), (Nat.eqb_spec a j); subst; try lia; reflexivity. }
    rewrite det_swap by auto. rewrite (IHk _ i); [ring|lia|].
    intros b Hb. unfold setrow. replace (S (i + k)) with j by (unfold j; lia).
    destruct (Nat.eqb_spec i (S j)), (Nat.eqb_spec i j), (Nat.eqb_spec j (S j)); try lia. rewrite Nat.eqb_refl. now apply H.
Qed.
Lemma det_equal' n A i j : (i < j < n)%nat -> (forall b, (b < n)%nat -> A i b = A j b) -> det n A = 0.
Proof. intros Hi H. apply (det_equal n A (j - i - 1) i); replace (S (i + (j - i - 1))) with j by lia; [lia|auto]. Qed.
(** row i replaced by a combination of rows k <= i *)
Lemma det_comb n A i (c : nat -> R) : (i < n)%nat -> forall m, (m <= i)%nat ->
  det n (setrow A i (fun b => rsum m (fun k => c k * A k b) + c i * A i b)) = c i * det n A.
Proof.
  intros Hi m. induction m; intros Hm.
  - transitivity (det n (setrow A i (fun b => c i * A i b + 0))).
    { apply det_ext. intros a b Ha Hb. unfold setrow. destruct (Nat.eqb a i); [cbn; ring|reflexivity]. }
    rewrite det_linear by auto. rewrite (det_ext n _ A) by (intros a b _ _; apply setrow_self).
    assert (Z := det_linear n A i 0 (A i) (fun _ => 0) Hi). rewrite Rmult_0_l, Rplus_0_l in Z.
    assert (Z2 := det_linear n A i (-1) (fun _ => 0) (fun _ => 0) Hi).
    assert (E : det n (setrow A i (fun b => -1 * 0 + 0)) = det n (setrow A i (fun _ => 0))) by (apply det_ext; intros a b _ _; unfold setrow; destruct (Nat.eqb a i); [ring|reflexivity]). lra.
  - transitivity (det n (setrow A i (fun b => c m * A m b + (rsum m (fun k => c k * A k b) + c i * A i b)))).
    { apply det_ext. intros a b Ha Hb. unfold setrow. destruct (Nat.eqb a i); [cbn; ring|reflexivity]. }
    rewrite det_linear, IHm by lia. rewrite (det_equal' n (setrow A i (A m)) m i); [ring|lia|].
    intros b Hb. unfold setrow. rewrite Nat.eqb_refl. destruct (Nat.eqb_spec m i); [lia|reflexivity].
Qed.
Lemma rprod_ext n f g : (forall i, (i < n)%nat -> f i = g i) -> rprod n f = rprod n g.
Proof. induction n; intros H; cbn; [auto|]. rewrite IHn by (intros; apply H; lia). now rewrite H by lia. Qed.
Lemma rprod_shift n f : rprod (S n) f = f 0%nat * rprod n (fun i => f (S i)).
Proof. induction n; [cbn; ring|]. change (rprod (S (S n)) f) with (rprod (S n) f * f (S n)). rewrite IHn. cbn. ring. Qed.
Lemma rprod_pos n f : (forall i, (i < n)%nat -> 0 < f i) -> 0 < rprod n f.
Proof. induction n; intros H; cbn; [lra|]. apply Rmult_lt_0_compat; [apply IHn; intros; apply H; lia|apply H; lia]. Qed.
Lemma rprod_mult n f g : rprod n (fun i => f i * g i) = rprod n f * rprod n g.
Proof. induction n; cbn; [ring|]. rewrite IHn. ring. Qed.
(** lower triangular times anything *)
Lemma det_lower_mul n L B : (forall i j, (i < n)%nat -> (i < j)%nat -> L i j = 0) -> det n (mmul n L B) = rprod n (fun i => L i i) * det n B.
Proof.
  intros HL.
  assert (K : forall m, (m <= n)%nat -> det n (mmul n L B) = rprod m (fun i => L i i) * det n (fun a b => if Nat.ltb a m then B a b else mmul n L B a b)).
  { induction m; intros Hm.
    - cbn. rewrite Rmult_1_l. reflexivity.
    - rewrite IHm by lia. cbn [rprod]. rewrite Rmult_assoc. f_equal.
      set (A := fun a b => if Nat.ltb a (S m) then B a b else mmul n L B a b).
      assert (C := det_comb n A m (fun k => L m k) ltac:(lia) m (le_n m)).
      transitivity (det n (setrow A m (fun b => rsum m (fun k => L m k * A k b) + L m m * A m b))); [|exact C].
      apply det_ext. intros a b Ha Hb. unfold setrow, A at 3. destruct (Nat.eqb_spec a m) as [->|N].
      + destruct (Nat.ltb_spec m m); [lia|]. unfold A. destruct (Nat.ltb_spec m (S m)); [|lia].
        unfold mmul. transitivity (rsum (S m) (fun k => L m k * B k b)).
        * assert (G : forall p, (S m <= p <= n)%nat -> rsum p (fun k => L m k * B k b) = rsum (S m) (fun k => L m k * B k b)).
          { induction p; intros Hp; [lia|]. destruct (Nat.eq_dec p m) as [->|]; [reflexivity|]. cbn [rsum]. rewrite IHp by lia. rewrite (HL m p) by lia. cbn [rsum]. ring. }
          apply G. lia.
        * cbn [rsum]. f_equal. apply rsum_ext. intros k Hk. destruct (Nat.ltb_spec k (S m)); [reflexivity|lia].
      + destruct (Nat.ltb_spec a m), (Nat.ltb_spec a (S m)); try lia; reflexivity. }
  rewrite (K n (le_n n)). f_equal. apply det_ext. intros a b Ha _. destruct (Nat.ltb_spec a n); [reflexivity|lia].
Qed.
Lemma det_upper n : forall U, (forall i j, (i < n)%nat -> (j < i)%nat -> U i j = 0) -> det n U = rprod n (fun i => U i i).
Proof.
  induction n; intros U H; [reflexivity|]. cbn [det]. rewrite (rsum_single (S n) 0%nat); [|lia|].
  - cbn [pow]. rewrite rprod_shift, (IHn (fun r c => U (skip 0 r) (S c))).
    + unfold skip. cbn [Nat.ltb Nat.leb]. ring.
    + intros i j Hi Hj. apply H; unfold skip; cbn [Nat.ltb Nat.leb]; lia.
  - intros k Hk N. rewrite H by lia. ring.
Qed.
Lemma det_LLt n L : (forall i j, (i < n)%nat -> (i < j)%nat -> L i j = 0) ->
  det n (mmul n L (transp L)) = rprod n (fun i => L i i) * rprod n (fun i => L i i).
Proof.
  intros H. rewrite det_lower_mul by auto. f_equal. rewrite det_upper; [reflexivity|]. intros i j Hi Hj. apply H; lia.
Qed.

(** ** triangular inverses *)
Fixpoint tinv (n : nat) (U : nat -> nat -> R) (i j : nat) : R :=
  match n with
  | O => 0
  | S n => match i, j with
           | O, O => / U 0%nat 0%nat
           | O, S j => - / U 0%nat 0%nat * rsum n (fun k => U 0%nat (S k) * tinv n (fun a b => U (S a) (S b)) k j)
           | S i, O => 0
           | S i, S j => tinv n (fun a b => U (S a) (S b)) i j
           end
  end.
Definition upper (n : nat) (U : nat -> nat -> R) : Prop := forall i j, (i < n)%nat -> (j < i)%nat -> U i j = 0.
Lemma tinv_upper n : forall U, upper n (tinv n U).
Proof. induction n; intros U i j Hi Hj; [lia|]. destruct i as [|i]; [lia|]. destruct j as [|j]; [reflexivity|]. apply IHn; lia. Qed.
Lemma tinv_ok n : forall U, upper n U -> (forall i, (i < n)%nat -> U i i <> 0) -> meq n (mmul n U (tinv n U)) ident.
Proof.
  induction n; intros U HU H0 i j Hi Hj; [lia|].
  assert (IH : meq n (mmul n (fun a b => U (S a) (S b)) (tinv n (fun a b => U (S a) (S b)))) ident).
  { apply IHn; [intros a b Ha Hb; apply HU; lia|intros a Ha; apply H0; lia]. }
  assert (H00 := H0 0%nat ltac:(lia)). unfold mmul. rewrite rsum_shift.
  destruct i as [|i], j as [|j]; cbn [tinv].
  - rewrite rsum_zero by (intros; ring). unfold ident. cbn. field. auto.
  - unfold ident. cbn [Nat.eqb]. rewrite <- Rmult_assoc. replace (U 0%nat 0%nat * - / U 0%nat 0%nat) with (-1) by (field; auto). ring.
  - rewrite (HU (S i) 0%nat) by lia. rewrite rsum_zero by (intros; ring). unfold ident. cbn. ring.
  - rewrite (HU (S i) 0%nat) by lia. rewrite Rmult_0_l, Rplus_0_l. change (mmul n (fun a b => U (S a) (S b)) (tinv n (fun a b => U (S a) (S b))) i j = ident (S i) (S j)).
    rewrite IH by lia. reflexivity.
Qed.
(** a right inverse of a triangular matrix by a triangular matrix is a left inverse *)
Lemma upper_diag n U V : upper n U -> upper n V -> forall i, (i < n)%nat -> mmul n U V i i = U i i * V i i.
Proof.
  intros HU HV i Hi. unfold mmul. apply (rsum_single n i (fun k => U i k * V k i)); auto. intros k Hk N. destruct (Nat.lt_ge_cases k i).
  - rewrite HU by auto. ring.
  - rewrite (HV k i) by lia. ring.
Qed.
Lemma tri_left_inv n U V : upper n U -> upper n V -> meq n (mmul n U V) ident -> meq n (mmul n V U) ident.
Proof.
  intros HU HV H.
  assert (ND : forall i, (i < n)%nat -> V i i <> 0).
  { intros i Hi E. assert (K := H i i Hi Hi). rewrite upper_diag in K by auto. unfold ident in K. rewrite Nat.eqb_refl, E in K. lra. }
  assert (W := tinv_ok n V HV ND). set (X := tinv n V) in *.
  assert (E : meq n U X).
  { intros i j Hi Hj. rewrite <- (mmul_ident_r n U (mmul n V X) i j Hj W). rewrite <- mmul_assoc.
    apply mmul_ident_l; auto. }
  intros i j Hi Hj. rewrite <- (W i j Hi Hj). apply mmul_ext; auto. intros a b _ _. reflexivity.
Qed.

(** ** Cholesky *)
Fixpoint chol (n : nat) (A : nat -> nat -> R) (i j : nat) : R :=
  match n with
  | O => 0
  | S n => match i, j with
           | O, O => sqrt (A 0%nat 0%nat)
           | O, S _ => 0
           | S i, O => A (S i) 0%nat / sqrt (A 0%nat 0%nat)
           | S i, S j => chol n (fun p q => A (S p) (S q) - A (S p) 0%nat * A (S q) 0%nat / A 0%nat 0%nat) i j
           end
  end.
Lemma chol_lower n : forall A i j, (i < n)%nat -> (i < j)%nat -> chol n A i j = 0.
Proof. induction n; intros A i j Hi Hj; [lia|]. destruct i as [|i], j as [|j]; try lia; cbn; [reflexivity|]. apply IHn; lia. Qed.
Lemma spd_ext n A B : meq n A B -> spd n A -> spd n B.
Proof.
  intros H [S P]. split. { intros i j Hi Hj. rewrite <- !H by auto. now apply S. }
  intros x Hx. assert (E : qform n A x = qform n B x) by (apply rsum_ext; intros i Hi; apply rsum_ext; intros j Hj; now rewrite H). rewrite <- E. now apply P.
Qed.
Lemma spd_00 n A : spd (S n) A -> 0 < A 0%nat 0%nat.
Proof.
  intros [_ P]. assert (H := P (fun i => if Nat.eqb i 0 then 1 else 0)). unfold qform in H.
  rewrite (rsum_single (S n) 0%nat), (rsum_single (S n) 0%nat) in H; try lia; try (intros; destruct k; [lia|cbn; ring]).
  - cbn [Nat.eqb] in H. rewrite Rmult_1_l, Rmult_1_r in H. apply H. exists 0%nat. split; [lia|cbn; lra].
  - intros k Hk N. apply rsum_zero. intros j Hj. destruct k; [lia|]. cbn. ring.
Qed.
Lemma spd_diag n A i : spd n A -> (i < n)%nat -> 0 < A i i.
Proof.
  intros [_ P] Hi. assert (H := P (fun k => if Nat.eqb k i then 1 else 0)). unfold qform in H.
  rewrite (rsum_single n i), (rsum_single n i) in H; auto.
  - rewrite Nat.eqb_refl, Rmult_1_l, Rmult_1_r in H. apply H. exists i. split; [auto|]. rewrite Nat.eqb_refl. lra.
  - intros k Hk N. destruct (Nat.eqb_spec k i); [congruence|]. ring.
  - intros k Hk N. apply rsum_zero. intros j Hj. destruct (Nat.eqb_spec k i); [congruence|]. ring.
Qed.
Lemma spd_schur n A : spd (S n) A -> spd n (fun p q => A (S p) (S q) - A (S p) 0%nat * A (S q) 0%nat / A 0%nat 0%nat).
Proof.
  intros H. assert (Ha := spd_00 n A H). destruct H as [S P]. split.
  { intros i j Hi Hj. rewrite (S (Datatypes.S i) (Datatypes.S j)) by lia. field. lra. }
  intros y [i0 [Hi0 Hy]]. set (a := A 0%nat 0%nat) in *.
  set (w := rsum n (fun j => A (Datatypes.S j) 0%nat * y j)).
  assert (K := P (fun i => match i with O => - w / a | Datatypes.S i => y i end)).
  assert (E : qform (Datatypes.S n) A (fun i => match i with O => - w / a | Datatypes.S i => y i end) =
    qform n (fun p q => A (Datatypes.S p) (Datatypes.S q) - A (Datatypes.S p) 0%nat * A (Datatypes.S q) 0%nat / a) y).
  { unfold qform. rewrite rsum_shift. rewrite rsum_shift.
    rewrite (rsum_ext n (fun i => rsum (Datatypes.S n) (fun j => y i * A (Datatypes.S i) j * match j with O => - w / a | Datatypes.S j => y j end)) (fun i => y i * A (Datatypes.S i) 0%nat * (- w / a) + rsum n (fun j => y i * A (Datatypes.S i) (Datatypes.S j) * y j))) by (intros i Hi; apply (rsum_shift n (fun j => y i * A (Datatypes.S i) j * match j with O => - w / a | Datatypes.S j => y j end))).
    rewrite rsum_plus.
    rewrite (rsum_ext n (fun i => - w / a * A 0%nat (Datatypes.S i) * y i) (fun j => - w / a * (A (Datatypes.S j) 0%nat * y j))).
    2:{ intros j Hj. rewrite (S 0%nat (Datatypes.S j)) by lia. ring. }
    rewrite rsum_scal. fold w. rewrite (rsum_ext n (fun i => y i * A (Datatypes.S i) 0%nat * (- w / a)) (fun i => - w / a * (A (Datatypes.S i) 0%nat * y i))) by (intros; ring).
    rewrite rsum_scal. fold w. fold a.
    rewrite (rsum_ext n (fun i => rsum n (fun j => y i * (A (Datatypes.S i) (Datatypes.S j) - A (Datatypes.S i) 0%nat * A (Datatypes.S j) 0%nat / a) * y j))
      (fun i => rsum n (fun j => y i * A (Datatypes.S i) (Datatypes.S j) * y j) - (w / a) * (A (Datatypes.S i) 0%nat * y i))).
    2:{ intros i Hi. unfold w, Rdiv. rewrite <- !rsum_scal_r, <- rsum_minus. apply rsum_ext; intros j Hj. field. lra. }
    rewrite rsum_minus, rsum_scal. fold w. field. lra. }
  rewrite <- E. apply K. exists (Datatypes.S i0). split; [lia|exact Hy].
Qed.
Lemma chol_diag n : forall A i, spd n A -> (i < n)%nat -> 0 < chol n A i i.
Proof.
  induction n; intros A i H Hi; [lia|]. destruct i; cbn [chol]; [apply sqrt_lt_R0; now apply (spd_00 n)|]. apply IHn; [now apply spd_schur|lia].
Qed.
Lemma chol_ok n : forall A, spd n A -> meq n (mmul n (chol n A) (transp (chol n A))) A.
Proof.
  induction n; intros A H i j Hi Hj; [lia|]. assert (Ha := spd_00 n A H). assert (Hs := sqrt_lt_R0 _ Ha). assert (E := sqrt_sqrt _ (Rlt_le _ _ Ha)).
  assert (IH := IHn _ (spd_schur n A H)). unfold mmul, transp. rewrite rsum_shift.
  destruct i as [|i], j as [|j]; cbn [chol].
  - rewrite rsum_zero by (intros; ring). lra.
  - rewrite rsum_zero by (intros; ring). rewrite (proj1 H 0%nat (S j)) by lia. field. lra.
  - rewrite rsum_zero by (intros; ring). field. lra.
  - change (rsum n _) with (mmul n (chol n (fun p q => A (S p) (S q) - A (S p) 0%nat * A (S q) 0%nat / A 0%nat 0%nat)) (transp (chol n (fun p q => A (S p) (S q) - A (S p) 0%nat * A (S q) 0%nat / A 0%nat 0%nat))) i j).
    rewrite IH by lia. revert Hs E. generalize (sqrt (A 0%nat 0%nat)). intros s Hs E. rewrite <- E. field. lra.
Qed.
