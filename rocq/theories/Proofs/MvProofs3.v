(** * Diagonal and isotropic multivariate normals *)
From Coq Require Import Reals Lra Lia Psatz List Arith ZArith Bool.
From Coquelicot Require Import Coquelicot.
From Verif.Num Require Import Scalar XReal.
From Verif.Model Require Import Rust Constraints Probability Params Consts Traits Linalg.
From Verif.Model Require MvNormal.
From Verif.Spec Require Import DistSpec SampleSpec MvSpec LapackSpec.
From Verif.Proofs Require Import ConstraintProofs NewInv XTac Matrix MvProofs MvProofs2 DiscProofs4.
Import ListNotations.
Open Scope R_scope.

(** a generator replaying a list of normal variates *)
Definition list_rng : Rng (list R) xreal := {|
  gen_f64 s := (Fin 0, s); gen_bool _ s := (true, s); draw_uniform _ _ s := (Fin 0, s); draw_uniform_inclusive _ _ s := (Fin 0, s);
  draw_normal _ _ s := (Fin 0, s);
  draw_std_normal s := match s with nil => (Fin 0, nil) | z :: s => (Fin z, s) end;
  draw_gamma _ _ s := (Fin 0, s) |}.
Lemma list_rng_draws zs : normal_draws (RG := list_rng) zs zs nil.
Proof. induction zs as [|z zs IH]; [constructor|]. econstructor; [reflexivity|exact IH]. Qed.
Lemma affine_unique n f u B B' : samples_affine n f u B -> samples_affine n f u B' -> meq n B B'.
Proof.
  intros H H' i j Hi Hj. set (zs := map (fun k => if Nat.eqb k j then 1 else 0) (seq 0 n)).
  assert (L : length zs = n) by (unfold zs; now rewrite map_length, seq_length).
  assert (Z : forall k, (k < n)%nat -> nth k zs 0 = if Nat.eqb k j then 1 else 0).
  { intros k Hk. unfold zs. apply (tab_nth n (fun k => if Nat.eqb k j then 1 else 0) k 0 Hk). }
  destruct (H _ list_rng zs zs nil L (list_rng_draws zs)) as [_ V]. destruct (H' _ list_rng zs zs nil L (list_rng_draws zs)) as [_ V'].
  assert (E := vec_fun _ n _ _ V V' i Hi). cbv beta in E.
  rewrite (rsum_single n j), (rsum_single n j) in E; auto.
  - rewrite Z, Nat.eqb_refl in E by auto. lra.
  - intros k Hk N. rewrite Z by auto. destruct (Nat.eqb_spec k j); [congruence|ring].
  - intros k Hk N. rewrite Z by auto. destruct (Nat.eqb_spec k j); [congruence|ring].
Qed.
Definition diagm (v : nat -> R) (i j : nat) : R := if Nat.eqb i j then v i else 0.
Lemma diagm_off v i j : i <> j -> diagm v i j = 0.
Proof. intros H. unfold diagm. destruct (Nat.eqb_spec i j); [congruence|reflexivity]. Qed.
Lemma diagm_ii v i : diagm v i i = v i. Proof. unfold diagm. now rewrite Nat.eqb_refl. Qed.
Lemma det_diagm n v : det n (diagm v) = rprod n v.
Proof. rewrite det_upper; [apply rprod_ext; intros; apply diagm_ii|]. intros i j Hi Hj. apply diagm_off. lia. Qed.
Lemma diagm_sq n v i j : (i < n)%nat -> (j < n)%nat -> mmul n (diagm v) (transp (diagm v)) i j = diagm (fun i => v i * v i) i j.
Proof.
  intros Hi Hj. unfold mmul. rewrite (rsum_single n i); auto.
  - unfold transp. rewrite diagm_ii. unfold diagm. rewrite (Nat.eqb_sym j i). destruct (Nat.eqb_spec i j); [subst; ring|ring].
  - intros k Hk N. rewrite diagm_off by auto. ring.
Qed.
Lemma qform_diagm n v z : qform n (diagm v) z = rsum n (fun i => v i * (z i * z i)).
Proof.
  apply rsum_ext; intros i Hi. rewrite (rsum_single n i); auto; [rewrite diagm_ii; ring|]. intros k Hk N. rewrite diagm_off by auto. ring.
Qed.
Lemma affine_draws_ok {G} {RG : Rng G xreal} g zs g' : normal_draws g zs g' -> forall n u v s, length zs = n ->
  MvNormal.affine_draws (map (fun i => (Fin (u i), Fin (v i))) (seq s n)) g = (map (fun i => Fin (u i + v i * nth (i - s) zs 0)) (seq s n), g').
Proof.
  induction 1 as [|g z g1 zs g2 E H IH]; intros n u v s Hn; destruct n as [|n]; try discriminate; [reflexivity|]. injection Hn as Hn.
  cbn [seq map MvNormal.affine_draws]. rewrite E, (IH n u v (S s) Hn). rewrite Nat.sub_diag. cbn [nth]. xs. f_equal. f_equal.
  apply map_ext_in. intros i Hi. apply in_seq in Hi. replace (i - s)%nat with (S (i - S s)) by lia. reflexivity.
Qed.
Lemma combine_tab {A B} n (f : nat -> A) (g : nat -> B) : combine (tab n f) (tab n g) = map (fun i => (f i, g i)) (seq 0 n).
Proof. unfold tab. generalize 0%nat. induction n; intros s; [reflexivity|]. cbn [seq map combine]. f_equal. apply IHn. Qed.

Lemma all_positive n s v : is_vec n s v -> (is_satisfied_by (AllA Positive) s = true <-> forall i, (i < n)%nat -> 0 < v i).
Proof.
  intros H. rewrite (vec_eq n s v H). cbn [is_satisfied_by]. rewrite forallb_forall. cbn [pltb pzero POrd_scalar]. split.
  - intros K i Hi. assert (J := K (Fin (v i))). rewrite x_lit, x_ltb in J. destruct (Rltb_spec 0 (v i)); [auto|].
    discriminate J. apply in_map_iff. exists i. split; [reflexivity|]. apply in_seq. lia.
  - intros K x Hx. apply in_map_iff in Hx as (i & <- & Hi). apply in_seq in Hi. rewrite x_lit, x_ltb. destruct (Rltb_spec 0 (v i)); [auto|]. exfalso. generalize (K i ltac:(lia)). lra.
Qed.

Section Diag.
Context (n : nat) (m s : list xreal) (u v : nat -> R) (Hm : is_vec n m u) (Hs : is_vec n s v).
Lemma mvd_new_iff d : MvNormal.diagonal m s = Ok d <-> (forall i, (i < n)%nat -> 0 < v i) /\ d = MvNormal.diagonal_unchecked m s.
Proof.
  unfold MvNormal.diagonal, MvNormal.params_diagonal, diagonal_new, loc_new. cbn [map_err and_then].
  assert (S := check_spec (AllA Positive) s). assert (P := all_positive n s v Hs). destruct (is_satisfied_by (AllA Positive) s).
  - rewrite S. cbn [map_err and_then]. cbn [check]. unfold check_default. cbn [is_satisfied_by peqb POrd_Z]. rewrite Z.eqb_refl.
    cbn [map_err and_then map_ok]. split; [intros E; injection E as <-; split; [now apply P|reflexivity]|intros [_ ->]; reflexivity].
  - destruct S as (c & E & _). rewrite E. cbn [map_err and_then map_ok]. split; [discriminate|intros [K _]]. apply P in K. discriminate.
Qed.
Context (Hv : forall i, (i < n)%nat -> 0 < v i).
Let d := MvNormal.diagonal_unchecked m s.
Lemma mvd_dim : MvNormal.dim d = n. Proof. exact (proj1 Hm). Qed.
Lemma mvd_det : MvNormal.Sigma_det d = Fin (rprod n v).
Proof. unfold d, MvNormal.diagonal_unchecked. cbn [MvNormal.Sigma_det]. now apply vec_fprod. Qed.
Lemma mvd_prec : is_vec n (MvNormal.precision d) (fun i => / v i).
Proof.
  unfold d, MvNormal.diagonal_unchecked. cbn [MvNormal.precision]. apply (vec_map n _ s v); auto. intros i Hi. assert (K := Hv i Hi). xs. f_equal. field. lra.
Qed.
Lemma mvd_cov : is_mat n (MvNormal.diagonal_covariance d) (diagm v).
Proof.
  unfold MvNormal.diagonal_covariance. rewrite mvd_dim. apply mat_mtab. intros i j Hi Hj. unfold diagm. destruct (Nat.eqb i j); [|now xs].
  now apply (vec_vget n).
Qed.
Lemma mvd_dist2 l x : is_vec n l x -> MvNormal.diagonal_mahalanobis_squared d l = Fin (rsum n (fun i => (x i - u i) / (v i * v i))).
Proof.
  intros Hx. unfold MvNormal.diagonal_mahalanobis_squared. apply vec_fsum.
  eapply vec_zip; [eapply (vec_zip n fsub l _ x u (fun i => x i - u i)); [exact Hx|exact Hm|intros; now xs]|exact mvd_prec|].
  cbv beta. intros i Hi. assert (K := Hv i Hi). xs. f_equal. field. lra.
Qed.
Lemma mvd_sample : samples_affine n (fun G RG g => MvNormal.diagonal_sample d g) u (diagm v).
Proof.
  intros G RG g zs g' Hn HG. unfold MvNormal.diagonal_sample, d, MvNormal.diagonal_unchecked. cbn [MvNormal.pr MvNormal.mu MvNormal.Sigma_lt].
  rewrite (vec_eq n m u Hm), (vec_eq n s v Hs), combine_tab. rewrite (affine_draws_ok g zs g' HG n u v 0 Hn). cbn [fst snd]. split; [reflexivity|].
  apply vec_tab. intros i Hi. rewrite Nat.sub_0_r. f_equal. f_equal. symmetry. rewrite (diag_vec n (diagm v) (fun k => nth k zs 0) i); auto; [now rewrite diagm_ii|].
  intros a k Ha Hk N. now apply diagm_off.
Qed.
End Diag.

Section Iso.
Context (n : nat) (m : list xreal) (u : nat -> R) (v : R) (Hm : is_vec n m u).
Lemma mvi_new_iff d : MvNormal.isotropic m (Fin v) = Ok d <-> 0 < v /\ d = MvNormal.isotropic_unchecked m (Fin v).
Proof.
  unfold MvNormal.isotropic, MvNormal.params_isotropic, isotropic_new, loc_new. cbn [map_err and_then].
  cbn [check]. unfold check_default. cbn [is_satisfied_by pltb pzero POrd_scalar]. rewrite x_lit, x_ltb. destruct (Rltb_spec 0 v); cbn [map_err and_then map_ok].
  - split; [intros E; injection E as <-; split; [auto|reflexivity]|intros [_ ->]; reflexivity].
  - split; [discriminate|intros [K _]; lra].
Qed.
Context (Hv : 0 < v).
Let d := MvNormal.isotropic_unchecked m (Fin v).
Lemma mvi_dim : MvNormal.dim d = n. Proof. exact (proj1 Hm). Qed.
Lemma rprod_const k (c : R) : rprod k (fun _ => c) = c ^ k.
Proof. induction k; cbn; [reflexivity|]. rewrite IHk. ring. Qed.
Lemma mvi_det : (Z.of_nat n < 2 ^ 31)%Z -> MvNormal.Sigma_det d = Fin (v ^ n).
Proof.
  intros Hb. unfold d, MvNormal.isotropic_unchecked. cbn [MvNormal.Sigma_det]. rewrite (proj1 Hm), as_i32_id by lia. apply x_powi_nat.
Qed.
Lemma mvi_cov : is_mat n (MvNormal.isotropic_covariance d) (diagm (fun _ => v)).
Proof.
  unfold MvNormal.isotropic_covariance. rewrite mvi_dim. apply mat_mtab. intros i j Hi Hj. unfold diagm. destruct (Nat.eqb i j); [reflexivity|now xs].
Qed.
Lemma mvi_dist2 l x : is_vec n l x -> MvNormal.isotropic_mahalanobis_squared d l = Fin (rsum n (fun i => (x i - u i) / (v * v))).
Proof.
  intros Hx. unfold MvNormal.isotropic_mahalanobis_squared. apply vec_fsum. eapply (vec_zip n _ l _ x u); [exact Hx|exact Hm|].
  cbv beta. intros i Hi. unfold d, MvNormal.isotropic_unchecked. cbn [MvNormal.precision]. xs. f_equal. field. lra.
Qed.
Lemma mvi_sample : samples_affine n (fun G RG g => MvNormal.isotropic_sample d g) u (diagm (fun _ => v)).
Proof.
  intros G RG g zs g' Hn HG. unfold MvNormal.isotropic_sample, d, MvNormal.isotropic_unchecked. cbn [MvNormal.pr MvNormal.mu MvNormal.Sigma_lt].
  rewrite (vec_eq n m u Hm). unfold tab. rewrite map_map. rewrite (affine_draws_ok g zs g' HG n u (fun _ => v) 0 Hn). cbn [fst snd]. split; [reflexivity|].
  apply vec_tab. intros i Hi. rewrite Nat.sub_0_r. f_equal. f_equal. symmetry. rewrite (diag_vec n (diagm (fun _ => v)) (fun k => nth k zs 0) i); auto; [now rewrite diagm_ii|].
  intros a k Ha Hk N. now apply diagm_off.
Qed.
End Iso.
