(** * Lists as vectors and matrices; the multivariate normals *)
From Coq Require Import Reals Lra Lia Psatz List Arith ZArith Bool.
From Coquelicot Require Import Coquelicot.
From Verif.Num Require Import Scalar XReal.
From Verif.Model Require Import Rust Constraints Probability Params Consts Traits Linalg.
From Verif.Model Require MvNormal.
From Verif.Spec Require Import DistSpec SampleSpec MvSpec LapackSpec.
From Verif.Proofs Require Import ConstraintProofs NewInv XTac Matrix.
Import ListNotations.
Open Scope R_scope.

(** ** vectors *)
Lemma tab_length {A} n (f : nat -> A) : length (tab n f) = n.
Proof. unfold tab. now rewrite map_length, seq_length. Qed.
Lemma tab_nth {A} n (f : nat -> A) i d : (i < n)%nat -> nth i (tab n f) d = f i.
Proof.
  intros H. unfold tab. rewrite (nth_indep _ d (f 0%nat)) by (now rewrite map_length, seq_length). rewrite map_nth, seq_nth by auto. reflexivity.
Qed.
Lemma vec_tab n (f : nat -> xreal) v : (forall i, (i < n)%nat -> f i = Fin (v i)) -> is_vec n (tab n f) v.
Proof. intros H. split; [apply tab_length|]. intros i Hi. rewrite tab_nth by auto. now apply H. Qed.
Lemma vec_eq n l v : is_vec n l v -> l = tab n (fun i => Fin (v i)).
Proof.
  intros [L H]. apply (nth_ext _ _ NaN NaN); [now rewrite tab_length|]. intros i Hi. rewrite tab_nth by lia. apply H. lia.
Qed.
Lemma vec_ext n l v w : is_vec n l v -> (forall i, (i < n)%nat -> v i = w i) -> is_vec n l w.
Proof. intros [L H] E. split; [auto|]. intros i Hi. rewrite <- E by auto. now apply H. Qed.
Lemma vec_vget n l v i : is_vec n l v -> (i < n)%nat -> vget l i = Fin (v i).
Proof. intros [L H] Hi. unfold vget. rewrite (nth_indep _ _ NaN) by lia. now apply H. Qed.
Lemma vec_list (l : list R) : is_vec (length l) (map Fin l) (fun i => nth i l 0).
Proof. split; [apply map_length|]. intros i Hi. rewrite (nth_indep _ NaN (Fin 0)) by (now rewrite map_length). now rewrite map_nth. Qed.
Lemma vec_fun (l : list xreal) n v w : is_vec n l v -> is_vec n l w -> forall i, (i < n)%nat -> v i = w i.
Proof. intros [_ H] [_ K] i Hi. apply Fin_inj. rewrite <- H, <- K; auto. Qed.
Lemma mat_ext n m A B : is_mat n m A -> meq n A B -> is_mat n m B.
Proof. intros [L H] E. split; [auto|]. intros i Hi. eapply vec_ext; [now apply H|]. intros j Hj. now apply E. Qed.
Lemma mat_mtab n (f : nat -> nat -> xreal) A : (forall i j, (i < n)%nat -> (j < n)%nat -> f i j = Fin (A i j)) -> is_mat n (mtab n f) A.
Proof. intros H. split; [apply tab_length|]. intros i Hi. unfold mtab. rewrite tab_nth by auto. apply vec_tab. auto. Qed.
Lemma mat_get_ok n m A i j : is_mat n m A -> (i < n)%nat -> (j < n)%nat -> mat_get m i j = Fin (A i j).
Proof. intros [L H] Hi Hj. unfold mat_get. destruct (H i Hi) as [L' H']. rewrite (nth_indep _ _ NaN) by lia. now apply H'. Qed.
Lemma mtab_get n (f : nat -> nat -> xreal) i j : (i < n)%nat -> (j < n)%nat -> mat_get (mtab n f) i j = f i j.
Proof. intros Hi Hj. unfold mat_get, mtab. rewrite tab_nth by auto. now rewrite tab_nth. Qed.
Lemma tab_S {A} n (f : nat -> A) : tab (S n) f = tab n f ++ [f n].
Proof. unfold tab. rewrite seq_S, map_app. reflexivity. Qed.
Lemma vec_fsum n l v : is_vec n l v -> fsum l = Fin (rsum n v).
Proof.
  intros H. rewrite (vec_eq n l v H). clear H. unfold fsum. induction n; [cbn [tab seq map fold_left rsum]; now xs|].
  rewrite tab_S, fold_left_app, IHn. cbn [fold_left rsum]. now xs.
Qed.
Lemma vec_fprod n l v : is_vec n l v -> MvNormal.fprod l = Fin (rprod n v).
Proof.
  intros H. rewrite (vec_eq n l v H). clear H. unfold MvNormal.fprod. induction n; [cbn [tab seq map fold_left rprod]; now xs|].
  rewrite tab_S, fold_left_app, IHn. cbn [fold_left rprod]. now xs.
Qed.
Lemma zip_tab {A B C} (f : A -> B -> C) n g h : MvNormal.zip_with f (tab n g) (tab n h) = tab n (fun i => f (g i) (h i)).
Proof.
  unfold MvNormal.zip_with, tab. generalize 0%nat. induction n; intros s; [reflexivity|]. cbn [seq map combine fst snd]. f_equal. apply IHn.
Qed.
Lemma vec_zip n (f : xreal -> xreal -> xreal) l l' u v w : is_vec n l u -> is_vec n l' v ->
  (forall i, (i < n)%nat -> f (Fin (u i)) (Fin (v i)) = Fin (w i)) -> is_vec n (MvNormal.zip_with f l l') w.
Proof. intros H K E. rewrite (vec_eq _ _ _ H), (vec_eq _ _ _ K), zip_tab. now apply vec_tab. Qed.
Lemma vec_map n (f : xreal -> xreal) l u w : is_vec n l u -> (forall i, (i < n)%nat -> f (Fin (u i)) = Fin (w i)) -> is_vec n (map f l) w.
Proof.
  intros H E. rewrite (vec_eq _ _ _ H). unfold tab. rewrite map_map. now apply vec_tab.
Qed.
Lemma vec_repeat n x : is_vec n (repeat (Fin x) n) (fun _ => x).
Proof. split; [apply repeat_length|]. intros i Hi. apply nth_repeat_lt || (rewrite nth_indep with (d' := Fin x) by (now rewrite repeat_length); apply nth_repeat). Qed.

(** ** the wrappers *)
Section Lap.
Context {LA : Lapack xreal} (HLA : lapack_ok LA).
Lemma fortran_holds n m A : is_mat n m A -> holds n (fortran m) (transp A).
Proof. intros H i j Hi Hj. unfold fortran. exact (mat_get_ok n m A j i H Hj Hi). Qed.
Lemma of_fortran_mat n X A : holds n X A -> is_mat n (of_fortran n X) (transp A).
Proof. intros H. apply mat_mtab. intros i j Hi Hj. now apply H. Qed.
Lemma cholesky_ok n m A : is_mat n m A -> spd n A ->
  exists L, is_mat n (cholesky m) L /\ (forall i j, (i < n)%nat -> (i < j)%nat -> L i j = 0) /\ (forall i, (i < n)%nat -> 0 < L i i) /\
    meq n (mmul n L (transp L)) A.
Proof.
  intros H HS. assert (E : meq n (upper_sym (transp A)) A).
  { intros i j Hi Hj. unfold upper_sym, transp. destruct (Nat.le_ge_cases i j).
    - rewrite Nat.max_r, Nat.min_l by auto. now apply HS.
    - rewrite Nat.max_l, Nat.min_r by auto. reflexivity. }
  destruct (potrf_ok LA HLA n (fortran m) (transp A)) as (U & HU & _ & HD & HP).
  { now apply fortran_holds. } { apply (spd_ext n A); [now apply meq_sym|auto]. }
  exists (transp (triu U)). split; [|split; [|split]].
  - unfold cholesky. destruct H as [-> H]. apply mat_mtab. intros i j Hi Hj. unfold transp, triu. destruct (Nat.ltb_spec i j); [now xs|].
    apply (mat_get_ok n _ (transp U)); auto. now apply of_fortran_mat.
  - intros i j Hi Hj. unfold transp, triu. destruct (Nat.ltb_spec i j); [reflexivity|lia].
  - intros i Hi. unfold transp, triu. destruct (Nat.ltb_spec i i); [lia|auto].
  - intros i j Hi Hj. rewrite <- (E i j Hi Hj). now apply HP.
Qed.
Lemma mat_unique n m A B : is_mat n m A -> is_mat n m B -> meq n A B.
Proof. intros H K i j Hi Hj. apply Fin_inj. now rewrite <- (mat_get_ok n m A), <- (mat_get_ok n m B). Qed.
(** the inverse of a lower triangular L, transposed: upper V with L^T V = I *)
Lemma inverse_lt_ok n m L : is_mat n m L -> (forall i j, (i < n)%nat -> (i < j)%nat -> L i j = 0) -> (forall i, (i < n)%nat -> L i i <> 0) ->
  exists V, is_mat n (inverse_lt m) (transp V) /\ upper n V /\ meq n (mmul n (transp L) V) ident /\ meq n (mmul n V (transp L)) ident.
Proof.
  intros H HL HD. destruct (trtri_ok LA HLA n (fortran m) (transp L)) as (V & HV & HLow & HI).
  { now apply fortran_holds. } { exact HD. }
  assert (U1 : upper n V). { intros i j Hi Hj. rewrite HLow by lia. unfold transp. apply HL; lia. }
  assert (U2 : upper n (transp L)). { intros i j Hi Hj. unfold transp. apply HL; lia. }
  assert (T : forall A, upper n A -> meq n (triu A) A).
  { intros A HA i j Hi Hj. unfold triu. destruct (Nat.ltb_spec j i); [now rewrite HA|reflexivity]. }
  assert (HI' : meq n (mmul n (transp L) V) ident).
  { intros i j Hi Hj. rewrite <- (HI i j Hi Hj). apply mmul_ext; auto; apply meq_sym; now apply T. }
  exists V. split; [|split; [exact U1|split; [exact HI'|now apply tri_left_inv]]].
  unfold inverse_lt. destruct H as [-> H]. now apply of_fortran_mat.
Qed.
Lemma mm_square_ok n m V : is_mat n m (transp V) -> is_mat n (mm_square m) (mmul n V (transp V)).
Proof.
  intros H. assert (F := fortran_holds n m _ H). unfold mm_square. rewrite (proj1 H).
  apply (mat_ext n _ (transp (mmul n V (transp V)))).
  - apply of_fortran_mat. apply (gemm_ok LA HLA n _ _ V V); exact F.
  - intros i j Hi Hj. unfold transp, mmul. apply rsum_ext; intros; ring.
Qed.
Lemma mv_mult_ok n m A l v : is_mat n m A -> is_vec n l v -> is_vec n (mv_mult m l) (fun i => rsum n (fun k => (if Nat.ltb i k then 0 else A i k) * v k)).
Proof.
  intros H K. unfold mv_mult. rewrite (proj1 H). apply vec_tab. intros i Hi.
  rewrite (trmv_ok LA HLA n _ (vget l) (transp A) v); auto; [now apply fortran_holds|]. intros j Hj. now apply vec_vget with (n := n).
Qed.

(** ** general covariance *)
Context (n : nat) (m : list xreal) (u : nat -> R) (Sg : list (list xreal)) (A : nat -> nat -> R).
Context (Hm : is_vec n m u) (HSg : is_mat n Sg A) (HA : spd n A).
Let d := MvNormal.new_unchecked m Sg.
Lemma mvn_factors : exists L P, is_mat n (MvNormal.Sigma_lt d) L /\ (forall i j, (i < n)%nat -> (i < j)%nat -> L i j = 0) /\ (forall i, (i < n)%nat -> 0 < L i i) /\
    meq n (mmul n L (transp L)) A /\
    is_mat n (MvNormal.precision d) P /\ symmetric n P /\ meq n (mmul n A P) ident /\ meq n (mmul n P A) ident /\ MvNormal.Sigma_det d = Fin (det n A) /\ 0 < det n A.
Proof.
  destruct (cholesky_ok n Sg A HSg HA) as (L & HL & LL & LD & LA').
  destruct (inverse_lt_ok n (cholesky Sg) L HL LL) as (V & HV & VU & V1 & V2). { intros i Hi. generalize (LD i Hi). lra. }
  exists L, (mmul n V (transp V)). split; [exact HL|]. split; [exact LL|]. split; [exact LD|]. split; [exact LA'|].
  split; [unfold d, MvNormal.new_unchecked; cbn [MvNormal.precision]; now apply mm_square_ok|]. split.
  { intros i j Hi Hj. unfold mmul, transp. apply rsum_ext; intros; ring. }
  assert (V1t : meq n (mmul n (transp V) L) ident).
  { intros i j Hi Hj. change L with (transp (transp L)). rewrite mmul_transp. unfold transp at 1. rewrite V1 by auto. apply ident_sym. }
  assert (V2t : meq n (mmul n L (transp V)) ident).
  { intros i j Hi Hj. change L with (transp (transp L)). rewrite mmul_transp. unfold transp at 1. rewrite V2 by auto. apply ident_sym. }
  split; [|split; [|]].
  - intros i j Hi Hj. rewrite (mmul_ext n A (mmul n L (transp L)) (mmul n V (transp V)) (mmul n V (transp V))) by (auto; try (now apply meq_sym); intros ? ? ? ?; reflexivity).
    rewrite mmul_assoc. rewrite (mmul_ext n L L _ (transp V)); auto; [intros ? ? ? ?; reflexivity|]. intros a b Ha Hb. rewrite <- mmul_assoc. now apply mmul_ident_l.
  - intros i j Hi Hj. rewrite (mmul_ext n (mmul n V (transp V)) (mmul n V (transp V)) A (mmul n L (transp L))) by (auto; try (now apply meq_sym); intros ? ? ? ?; reflexivity).
    rewrite mmul_assoc. rewrite (mmul_ext n V V _ (transp L)); auto; [intros ? ? ? ?; reflexivity|]. intros a b Ha Hb. rewrite <- mmul_assoc. now apply mmul_ident_l.
  - assert (E : det n A = rprod n (fun i => L i i) * rprod n (fun i => L i i)). { rewrite <- (det_ext n _ _ LA'). now apply det_LLt. }
    split.
    + unfold d, MvNormal.new_unchecked; cbn [MvNormal.Sigma_det]. rewrite (proj1 Hm).
      rewrite (vec_fprod n _ (fun i => L i i)) by (apply vec_tab; intros i Hi; now apply (mat_get_ok n)).
      rewrite E. change 2%Z with (Z.of_nat 2). rewrite x_powi_nat. f_equal. ring.
    + rewrite E. assert (0 < rprod n (fun i => L i i)) by now apply rprod_pos. now apply Rmult_lt_0_compat.
Qed.
Lemma mvn_dim : MvNormal.dim d = n.
Proof. unfold d, MvNormal.dim, MvNormal.new_unchecked. cbn [MvNormal.pr MvNormal.mu]. apply Hm. Qed.
Lemma mvn_dist2 P l x : is_mat n (MvNormal.precision d) P -> is_vec n l x ->
  MvNormal.d_mahalanobis_squared d l = Fin (rsum n (fun i => rsum n (fun k => if Nat.ltb i k then 0 else (x i - u i) * P i k * (x k - u k)))).
Proof.
  intros HP Hx. unfold MvNormal.d_mahalanobis_squared.
  change (MvNormal.mu (MvNormal.pr d)) with m.
  assert (Hz : is_vec n (MvNormal.zip_with fsub m l) (fun i => u i - x i)). { apply (vec_zip n fsub m l u x); auto; try (intros; now xs). }
  assert (Ha := mv_mult_ok n _ P _ _ HP Hz).
  rewrite (vec_fsum n _ (fun i => (u i - x i) * rsum n (fun k => (if Nat.ltb i k then 0 else P i k) * (u k - x k)))).
  - f_equal. apply rsum_ext; intros i Hi. rewrite <- rsum_scal. apply rsum_ext; intros k Hk. destruct (Nat.ltb i k); ring.
  - apply (vec_zip n fmul _ _ (fun i => u i - x i) (fun i => rsum n (fun k => (if Nat.ltb i k then 0 else P i k) * (u k - x k)))); auto; try (intros; now xs).
Qed.
End Lap.

(** half of a symmetric quadratic form *)
Lemma lower_half n P x : symmetric n P ->
  2 * rsum n (fun i => rsum n (fun k => if Nat.ltb i k then 0 else x i * P i k * x k)) = qform n P x + rsum n (fun i => P i i * (x i * x i)).
Proof.
  intros HS. set (T := rsum n (fun i => rsum n (fun k => if Nat.ltb i k then 0 else x i * P i k * x k))).
  assert (E : T = rsum n (fun i => rsum n (fun k => if Nat.ltb k i then 0 else x i * P i k * x k))).
  { unfold T. rewrite rsum_swap. apply rsum_ext; intros i Hi. apply rsum_ext; intros k Hk. destruct (Nat.ltb k i); [reflexivity|]. rewrite (HS k i) by auto. ring. }
  replace (2 * T) with (T + T) by ring. rewrite E at 2. unfold T, qform. rewrite <- !rsum_plus. apply rsum_ext; intros i Hi. rewrite <- rsum_plus.
  transitivity (rsum n (fun k => x i * P i k * x k) + rsum n (fun k => if Nat.eqb i k then x i * P i k * x k else 0)).
  - rewrite <- rsum_plus. apply rsum_ext; intros k Hk. destruct (Nat.ltb_spec i k), (Nat.ltb_spec k i), (Nat.eqb_spec i k); try lia; ring.
  - f_equal. rewrite (rsum_single n i); [rewrite Nat.eqb_refl; ring|auto|]. intros k Hk N. destruct (Nat.eqb_spec i k); [congruence|reflexivity].
Qed.
Lemma diag_inv n A P : (forall i j, (i < n)%nat -> (j < n)%nat -> i <> j -> A i j = 0) -> meq n (mmul n A P) ident ->
  forall i j, (i < n)%nat -> (j < n)%nat -> A i i * P i j = ident i j.
Proof.
  intros HD H i j Hi Hj. rewrite <- H by auto. unfold mmul. symmetry. apply (rsum_single n i (fun k => A i k * P k j)); auto.
  intros k Hk N. rewrite HD by auto. ring.
Qed.
(** quadratic form on a vector with two unit entries *)
Lemma lower_two n P i k : (k < i < n)%nat ->
  let x := fun j => if (Nat.eqb j i || Nat.eqb j k)%bool then 1 else 0 in
  rsum n (fun a => rsum n (fun b => if Nat.ltb a b then 0 else x a * P a b * x b)) = P i i + P k k + P i k /\ qform n P x = P i i + P k k + P i k + P k i.
Proof.
  intros Hik x. assert (Xi : x i = 1) by (unfold x; now rewrite Nat.eqb_refl).
  assert (Xk : x k = 1) by (unfold x; rewrite Nat.eqb_refl; now rewrite orb_true_r).
  assert (X0 : forall j, j <> k -> j <> i -> x j = 0). { intros j N1 N2. unfold x. destruct (Nat.eqb_spec j i), (Nat.eqb_spec j k); try congruence; reflexivity. }
  split.
  - rewrite (rsum_two n k i); [|lia|].
    + rewrite (rsum_two n k i (fun b => if Nat.ltb k b then _ else _)), (rsum_two n k i); try lia.
      * destruct (Nat.ltb_spec k k), (Nat.ltb_spec k i), (Nat.ltb_spec i k), (Nat.ltb_spec i i); try lia. rewrite Xi, Xk. ring.
      * intros j Hj N1 N2. rewrite (X0 j) by auto. destruct (Nat.ltb _ _); ring.
      * intros j Hj N1 N2. rewrite (X0 j) by auto. destruct (Nat.ltb _ _); ring.
    + intros a Ha N1 N2. apply rsum_zero. intros b Hb. rewrite (X0 a) by auto. destruct (Nat.ltb _ _); ring.
  - unfold qform. rewrite (rsum_two n k i); [|lia|].
    + rewrite !(rsum_two n k i); try lia.
      * rewrite Xi, Xk. ring.
      * intros j Hj N1 N2. rewrite (X0 j) by auto. ring.
      * intros j Hj N1 N2. rewrite (X0 j) by auto. ring.
    + intros a Ha N1 N2. apply rsum_zero. intros b Hb. rewrite (X0 a) by auto. ring.
Qed.
Lemma spd_inv n A P : spd n A -> symmetric n P -> meq n (mmul n A P) ident -> spd n P.
Proof.
  intros [SA PA] SP H. split; [auto|]. intros x [i [Hi Hx]].
  set (y := fun i => rsum n (fun k => P i k * x k)).
  assert (Ay : forall i, (i < n)%nat -> rsum n (fun k => A i k * y k) = x i).
  { intros a Ha. unfold y. transitivity (rsum n (fun b => mmul n A P a b * x b)).
    - transitivity (rsum n (fun k => rsum n (fun b => A a k * P k b * x b))).
      + apply rsum_ext; intros k Hk. rewrite <- rsum_scal. apply rsum_ext; intros; ring.
      + rewrite rsum_swap. apply rsum_ext; intros b Hb. unfold mmul. rewrite <- rsum_scal_r. reflexivity.
    - rewrite (rsum_single n a); auto. + rewrite H by auto. unfold ident. rewrite Nat.eqb_refl. ring.
      + intros k Hk N. rewrite H by auto. unfold ident. destruct (Nat.eqb_spec a k); [congruence|ring]. }
  assert (E : qform n P x = qform n A y).
  { unfold qform. transitivity (rsum n (fun a => x a * y a)).
    - apply rsum_ext; intros a Ha. unfold y. rewrite <- rsum_scal. apply rsum_ext; intros; ring.
    - apply rsum_ext; intros a Ha. rewrite <- (Ay a Ha) at 1. rewrite <- rsum_scal_r. rewrite (rsum_ext n (fun b => y a * A a b * y b) (fun b => A a b * y b * y a)) by (intros; ring). reflexivity. }
  rewrite E. apply PA. destruct (Classical_Prop.classic (exists j, (j < n)%nat /\ y j <> 0)) as [K|K]; [exact K|exfalso].
  apply Hx. rewrite <- (Ay i Hi). apply rsum_zero. intros k Hk. destruct (Req_dec (y k) 0) as [->|N]; [ring|]. exfalso. apply K. now exists k.
Qed.
Lemma qform_nonneg n P x : spd n P -> 0 <= qform n P x.
Proof.
  intros [_ H]. destruct (Classical_Prop.classic (exists j, (j < n)%nat /\ x j <> 0)) as [K|K]; [left; auto|].
  right. symmetry. apply rsum_zero. intros i Hi. apply rsum_zero. intros j Hj. destruct (Req_dec (x i) 0) as [->|N]; [ring|]. exfalso. apply K. now exists i.
Qed.
