(** * Property C137: supports of the multivariate distributions *)
From Coq Require Import Reals Lra Lia Psatz List Arith ZArith Bool.
From Coquelicot Require Import Coquelicot.
From Verif.Num Require Import Scalar XReal.
From Verif.Model Require Import Rust Constraints Probability Params Consts Traits Linalg Multivariate.
From Verif.Model Require MvNormal.
From Verif.Spec Require Import DistSpec SampleSpec MvSpec GammaSpec LapackSpec SupportSpec.
From Verif.Proofs Require Import ConstraintProofs XTac Calc Gauss Matrix MvProofs MvProofs2 MvProofs3 GammaFun DirichletProofs MultiProofs Oracle LapackInst.
Import ListNotations.
From Verif.Properties Require Import C65_C67_MvNormal C68_C70_Multivariate C119_Multivariate.
Open Scope R_scope.

(** ** Specification: a list of supports, one per coordinate *)
Definition in_all (n : nat) (ss : list (Space xreal)) (x : nat -> R) : Prop := forall i, (i < n)%nat -> interior (nth i ss Naturals) (x i).
Definition off_some (n : nat) (ss : list (Space xreal)) (x : nat -> R) : Prop := exists i, (i < n)%nat /\ off (nth i ss Naturals) (x i).
(** one entry per coordinate, and the density is a positive number at every interior point *)
Definition mv_positive (n : nat) (ss : list (Space xreal)) (pdf : list xreal -> xreal) : Prop :=
  length ss = n /\ forall l x, is_vec n l x -> in_all n ss x -> exists v, pdf l = Fin v /\ 0 < v.
(** no point with a coordinate off its support has positive density *)
Definition mv_covers (n : nat) (ss : list (Space xreal)) (pdf : list xreal -> xreal) : Prop :=
  forall l x, is_vec n l x -> off_some n ss x -> ~ exists v, pdf l = Fin v /\ 0 < v.
(** every point lies in the support *)
Definition mv_everything (n : nat) (ss : list (Space xreal)) : Prop := length ss = n /\ forall x, in_all n ss x.
(** every draw lies in the support *)
Definition mv_draws_in (n : nat) (ss : list (Space xreal)) (sample : forall G (RG : Rng G xreal), G -> list xreal * G) : Prop :=
  forall G (RG : Rng G xreal) g zs g', length zs = n -> normal_draws g zs g' ->
    exists x, is_vec n (fst (sample G RG g)) x /\ in_all n ss x.

Local Lemma nth_rep {A} n (a d : A) i : (i < n)%nat -> nth i (repeat a n) d = a.
Proof. intros. rewrite (nth_indep _ d a) by now rewrite repeat_length. apply nth_repeat. Qed.
Local Lemma reals_all n : mv_everything n (repeat Reals n).
Proof. split; [apply repeat_length|]. intros x i Hi. rewrite nth_rep by auto. exact I. Qed.
Local Lemma pdf_pos {S} (f : MvNormal.MvN xreal S -> list xreal -> xreal) d l n q D :
  MvNormal.dim d = n -> (Z.of_nat n < 2 ^ 31)%Z -> MvNormal.Sigma_det d = Fin D -> 0 < D -> f d l = Fin q ->
  exists v, MvNormal.pdf_with f d l = Fin v /\ 0 < v.
Proof.
  intros A B C E H. exists (exp (- q / 2) / sqrt ((2 * PI) ^ n * D)). split; [now apply pdf_with_ok|]. assert (P := PI_RGT_0).
  apply Rdiv_lt_0_compat; [apply exp_pos|]. apply sqrt_lt_R0, Rmult_lt_0_compat; [apply pow_lt; lra|auto].
Qed.
(** NaN in one coordinate makes the value NaN *)
Local Lemma fold_nan (l : list xreal) : fold_left fadd l NaN = NaN.
Proof. induction l as [|a l IH]; cbn; [reflexivity|]. exact IH. Qed.
Local Lemma fsum_nan (l : list xreal) : In NaN l -> fsum l = NaN.
Proof.
  unfold fsum. intros H. match goal with |- fold_left _ _ ?z = _ => generalize z end. induction l as [|a l IH]; intros z; [destruct H|].
  cbn [fold_left]. destruct H as [-> | H]; [|now apply IH]. replace (fadd z NaN) with NaN by (now destruct z). apply fold_nan.
Qed.
Local Lemma pdf_nan {S} (f : MvNormal.MvN xreal S -> list xreal -> xreal) d l : f d l = NaN -> MvNormal.pdf_with f d l = NaN.
Proof. intros H. unfold MvNormal.pdf_with. rewrite H. reflexivity. Qed.
Local Lemma in_tab {A} n (f : nat -> A) i : (i < n)%nat -> In (f i) (tab n f).
Proof. intros. unfold tab. apply in_map_iff. exists i. split; [auto|]. apply in_seq. lia. Qed.
Local Lemma tab_of {A} (d : A) (l : list A) : l = tab (length l) (fun i => nth i l d).
Proof. apply (nth_ext _ _ d d); [now rewrite tab_length|]. intros i Hi. now rewrite tab_nth. Qed.
Local Lemma ln_neg x : x < 0 -> fln (Fin x) = NaN.
Proof. intros. cbn. unfold xln. destruct (Rlt_dec 0 x); [lra|]. destruct (Req_EM_T x 0); [lra|reflexivity]. Qed.

(** ** Normal: the whole space *)
Theorem C137_normal {LA : Lapack xreal} (n : nat) (mu s : list xreal) (u v : nat -> R) (w : R) (Sg : list (list xreal)) (A : nat -> nat -> R)
    (d : MvNormal.MvN xreal (list xreal)) (e : MvNormal.MvN xreal xreal) (f : MvNormal.MvN xreal (list (list xreal))) :
  is_vec n mu u -> (Z.of_nat n < 2 ^ 31)%Z ->
  (is_vec n s v -> MvNormal.diagonal mu s = Ok d ->
     mv_everything n (MvNormal.support d) /\ mv_positive n (MvNormal.support d) (MvNormal.diagonal_pdf d) /\ mv_draws_in n (MvNormal.support d) (fun G RG => MvNormal.diagonal_sample d)) /\
  (MvNormal.isotropic mu (Fin w) = Ok e ->
     mv_everything n (MvNormal.support e) /\ mv_positive n (MvNormal.support e) (MvNormal.isotropic_pdf e) /\ mv_draws_in n (MvNormal.support e) (fun G RG => MvNormal.isotropic_sample e)) /\
  (lapack_ok LA -> is_mat n Sg A -> spd n A -> MvNormal.new mu Sg = Ok f ->
     mv_everything n (MvNormal.support f) /\ mv_positive n (MvNormal.support f) (MvNormal.pdf f) /\ mv_draws_in n (MvNormal.support f) (fun G RG => MvNormal.sample f)).
Proof.
  intros Hm Hb. assert (RA := reals_all n). split; [|split].
  - intros Hs H. apply (mvd_new_iff n mu s v Hs) in H as [Hv ->].
    assert (E : MvNormal.support (MvNormal.diagonal_unchecked mu s) = repeat Reals n) by (unfold MvNormal.support; now rewrite (mvd_dim n mu s u Hm)). rewrite E.
    split; [exact RA|]. split; [split; [apply RA|]|].
    + intros l x Hx _. eapply pdf_pos; [exact (mvd_dim n mu s u Hm)|exact Hb|exact (mvd_det n mu s v Hs)|now apply rprod_pos|exact (mvd_dist2 n mu s u v Hm Hs Hv l x Hx)].
    + intros G RG g zs g' HL HD. eexists. split; [exact (proj2 (mvd_sample n mu s u v Hm Hs G RG g zs g' HL HD))|apply RA].
  - intros H. apply (mvi_new_iff mu w) in H as [Hv ->].
    assert (E : MvNormal.support (MvNormal.isotropic_unchecked mu (Fin w)) = repeat Reals n) by (unfold MvNormal.support; now rewrite (mvi_dim n mu u w Hm)). rewrite E.
    split; [exact RA|]. split; [split; [apply RA|]|].
    + intros l x Hx _. eapply pdf_pos; [exact (mvi_dim n mu u w Hm)|exact Hb|exact (mvi_det n mu u w Hm Hb)|now apply pow_lt|exact (mvi_dist2 n mu u w Hm Hv l x Hx)].
    + intros G RG g zs g' HL HD. eexists. split; [exact (proj2 (mvi_sample n mu u w Hm G RG g zs g' HL HD))|apply RA].
  - intros HLA HSg HA H. assert (f = MvNormal.new_unchecked mu Sg) as ->.
    { unfold MvNormal.new, MvNormal.params_multivariate, matrix_new, loc_new in H. cbn [map_err and_then] in H.
      destruct (check _ Sg) eqn:E; [|discriminate]. apply check_ok_inv in E as [-> _]. cbn in H. now injection H as <-. }
    assert (ED : MvNormal.dim (MvNormal.new_unchecked mu Sg) = n) by exact (proj1 Hm).
    assert (E : MvNormal.support (MvNormal.new_unchecked mu Sg) = repeat Reals n) by (unfold MvNormal.support; now rewrite ED). rewrite E.
    destruct (mvn_factors HLA n mu u Sg A Hm HSg HA) as (L & P & HL & LL & LD & LE & HP & SP & AP & PA & DE & DP).
    split; [exact RA|]. split; [split; [apply RA|]|].
    + intros l x Hx _. eapply pdf_pos; [exact ED|exact Hb|exact DE|exact DP|exact (mvn_dist2 HLA n mu u Sg Hm P l x HP Hx)].
    + intros G RG g zs g' HLn HD. eexists. split; [exact (proj2 (mvn_sample HLA n mu u Sg Hm L HL LL G RG g zs g' HLn HD))|apply RA].
Qed.
Print Assumptions C137_normal.

(** ** LogNormal: the positive orthant *)
Local Lemma posr_nth n i (x : R) : (i < n)%nat -> (interior (nth i (repeat PositiveReals n) Naturals) x <-> 0 < x) /\ (off (nth i (repeat PositiveReals n) Naturals) x <-> x < 0).
Proof. intros. rewrite nth_rep by auto. split; reflexivity. Qed.
Local Lemma lnv n l x : is_vec n l x -> (forall i, (i < n)%nat -> 0 < x i) -> is_vec n (map fln l) (fun i => ln (x i)).
Proof. intros H P. apply (vec_map n _ _ _ _ H). intros i Hi. assert (K := P i Hi). now xs. Qed.
Local Lemma ln_core {S} n (f : MvNormal.MvN xreal S -> list xreal -> xreal) (d : MvLogNormal.t xreal S) :
  MvNormal.dim (MvLogNormal.nrm d) = n ->
  (forall l x, is_vec n l x -> exists v, f (MvLogNormal.nrm d) l = Fin v /\ 0 < v) ->
  (forall l x i, is_vec n l x -> (i < n)%nat -> x i < 0 -> f (MvLogNormal.nrm d) (map fln l) = NaN) ->
  mv_positive n (MvLogNormal.support d) (MvLogNormal.pdf f d) /\ mv_covers n (MvLogNormal.support d) (MvLogNormal.pdf f d).
Proof.
  intros Hd HP HN. unfold MvLogNormal.support. rewrite Hd. split; [split; [apply repeat_length|]|].
  - intros l x Hx Hi. unfold MvLogNormal.pdf. apply (HP _ (fun i => ln (x i))). apply lnv; [auto|]. intros i Hl. now apply (proj1 (posr_nth n i (x i) Hl)), Hi.
  - intros l x Hx (i & Hi & Ho) (v & E & _). apply (proj2 (posr_nth n i (x i) Hi)) in Ho. unfold MvLogNormal.pdf in E. rewrite (HN l x i Hx Hi Ho) in E. discriminate.
Qed.
Local Lemma in_zip {A B C} (f : A -> B -> C) (l : list A) (l' : list B) i a b : (i < length l)%nat -> (i < length l')%nat -> In (f (nth i l a) (nth i l' b)) (MvNormal.zip_with f l l').
Proof.
  revert l' i. induction l as [|y l IH]; intros l' i H H'; [cbn in H; lia|]. destruct l' as [|y' l']; [cbn in H'; lia|].
  destruct i as [|i]; [left; reflexivity|]. right. apply (IH l' i); cbn in *; lia.
Qed.
Local Lemma zip_len {A B C} (f : A -> B -> C) (l : list A) (l' : list B) n : length l = n -> length l' = n -> length (MvNormal.zip_with f l l') = n.
Proof. intros H H'. unfold MvNormal.zip_with. rewrite map_length, combine_length, H, H'. lia. Qed.
Local Lemma zip_nth {A B C} (f : A -> B -> C) (l : list A) (l' : list B) i a b c : (i < length l)%nat -> (i < length l')%nat -> nth i (MvNormal.zip_with f l l') c = f (nth i l a) (nth i l' b).
Proof.
  revert l' i. induction l as [|y l IH]; intros l' i H H'; [cbn in H; lia|]. destruct l' as [|y' l']; [cbn in H'; lia|].
  destruct i as [|i]; [reflexivity|]. apply (IH l' i); cbn in *; lia.
Qed.
Local Lemma map_ln_nan n l x i : is_vec n l x -> (i < n)%nat -> x i < 0 -> length (map fln l) = n /\ nth i (map fln l) NaN = NaN.
Proof. intros [HL H] Hi Hx. rewrite map_length. split; [auto|]. change (NaN) with (fln NaN) at 1. rewrite map_nth, H by auto. now apply ln_neg. Qed.
Local Lemma sub_nan_r (a : xreal) : fsub a NaN = NaN. Proof. now destruct a. Qed.
Local Lemma sub_nan_l (a : xreal) : fsub NaN a = NaN. Proof. now destruct a. Qed.
Local Lemma mul_nan_l (a : xreal) : fmul NaN a = NaN. Proof. now destruct a. Qed.
Local Lemma draws_exp n ss (f : forall G (RG : Rng G xreal), G -> list xreal * G) u B : ss = repeat PositiveReals n -> samples_exp n f u B -> mv_draws_in n ss f.
Proof.
  intros -> H G RG g zs g' HL HD. eexists. split; [exact (proj2 (H G RG g zs g' HL HD))|]. intros i Hi. apply (proj1 (posr_nth n i _ Hi)). apply exp_pos.
Qed.
Theorem C137_lognormal {LA : Lapack xreal} (n : nat) (mu s : list xreal) (u v : nat -> R) (w : R) (Sg : list (list xreal)) (A : nat -> nat -> R)
    (d : MvLogNormal.t xreal (list xreal)) (e : MvLogNormal.t xreal xreal) (f : MvLogNormal.t xreal (list (list xreal))) :
  is_vec n mu u -> (Z.of_nat n < 2 ^ 31)%Z -> is_vec n s v -> MvLogNormal.diagonal mu s = Ok d -> MvLogNormal.isotropic mu (Fin w) = Ok e ->
  (mv_positive n (MvLogNormal.support d) (MvLogNormal.pdf MvNormal.diagonal_pdf d) /\ mv_covers n (MvLogNormal.support d) (MvLogNormal.pdf MvNormal.diagonal_pdf d) /\
   mv_draws_in n (MvLogNormal.support d) (fun G RG => MvLogNormal.sample MvNormal.diagonal_sample d)) /\
  (mv_positive n (MvLogNormal.support e) (MvLogNormal.pdf MvNormal.isotropic_pdf e) /\ mv_covers n (MvLogNormal.support e) (MvLogNormal.pdf MvNormal.isotropic_pdf e) /\
   mv_draws_in n (MvLogNormal.support e) (fun G RG => MvLogNormal.sample MvNormal.isotropic_sample e)) /\
  (lapack_ok LA -> is_mat n Sg A -> spd n A -> MvLogNormal.new mu Sg = Ok f ->
   mv_positive n (MvLogNormal.support f) (MvLogNormal.pdf MvNormal.pdf f) /\ mv_covers n (MvLogNormal.support f) (MvLogNormal.pdf MvNormal.pdf f) /\
   mv_draws_in n (MvLogNormal.support f) (fun G RG => MvLogNormal.sample MvNormal.sample f)).
Proof.
  intros Hm Hb Hs Hd He. destruct (C119_lognormal_sample_partial n mu s u v w d e Hm Hs Hd He) as [SD SE].
  unfold MvLogNormal.diagonal in Hd. destruct (MvNormal.diagonal mu s) as [d0|] eqn:D0; [|discriminate]. cbn in Hd. injection Hd as <-.
  unfold MvLogNormal.isotropic in He. destruct (MvNormal.isotropic mu (Fin w)) as [e0|] eqn:E0; [|discriminate]. cbn in He. injection He as <-.
  split; [|split].
  - assert (K := D0). apply (mvd_new_iff n mu s v Hs) in K as [Hv ->]. rewrite <- and_assoc. split; [|apply (draws_exp n _ _ u (diagonal_matrix v)); [|exact SD]].
    + apply ln_core; cbn [MvLogNormal.nrm]; [exact (mvd_dim n mu s u Hm)| |].
      * intros l x Hx. eapply pdf_pos; [exact (mvd_dim n mu s u Hm)|exact Hb|exact (mvd_det n mu s v Hs)|now apply rprod_pos|exact (mvd_dist2 n mu s u v Hm Hs Hv l x Hx)].
      * intros l x i Hx Hi Hn. apply pdf_nan. unfold MvNormal.diagonal_mahalanobis_squared. apply fsum_nan. destruct (map_ln_nan n l x i Hx Hi Hn) as [L N].
        change (MvNormal.mu (MvNormal.pr (MvNormal.diagonal_unchecked mu s))) with mu. assert (PL := proj1 (mvd_prec n mu s v Hs Hv)). assert (ML := proj1 Hm).
        assert (ZL := zip_len fsub _ _ n L ML).
        assert (K := in_zip (fun d si => fmul (fmul d si) si) (MvNormal.zip_with fsub (map fln l) mu) (MvNormal.precision (MvNormal.diagonal_unchecked mu s)) i NaN NaN ltac:(lia) ltac:(lia)).
        rewrite (zip_nth fsub _ _ i NaN NaN) in K by lia. rewrite N, sub_nan_l, !mul_nan_l in K. exact K.
    + unfold MvLogNormal.support. cbn [MvLogNormal.nrm]. now rewrite (mvd_dim n mu s u Hm).
  - assert (K := E0). apply (mvi_new_iff mu w) in K as [Hv ->]. rewrite <- and_assoc. split; [|apply (draws_exp n _ _ u (diagonal_matrix (fun _ : nat => w))); [|exact SE]].
    + apply ln_core; cbn [MvLogNormal.nrm]; [exact (mvi_dim n mu u w Hm)| |].
      * intros l x Hx. eapply pdf_pos; [exact (mvi_dim n mu u w Hm)|exact Hb|exact (mvi_det n mu u w Hm Hb)|now apply pow_lt|exact (mvi_dist2 n mu u w Hm Hv l x Hx)].
      * intros l x i Hx Hi Hn. apply pdf_nan. unfold MvNormal.isotropic_mahalanobis_squared. apply fsum_nan. destruct (map_ln_nan n l x i Hx Hi Hn) as [L N].
        assert (ML := proj1 Hm).
        match goal with |- In _ (MvNormal.zip_with ?F _ _) => assert (K := in_zip F (map fln l) mu i NaN NaN ltac:(lia) ltac:(lia)) end.
        rewrite N in K. cbv beta in K. rewrite sub_nan_l, !mul_nan_l in K. exact K.
    + unfold MvLogNormal.support. cbn [MvLogNormal.nrm]. now rewrite (mvi_dim n mu u w Hm).
  - intros HLA HSg HA H. destruct (C119_lognormal_sample n mu u Sg A f HLA Hm HSg HA H) as (L0 & _ & SF).
    assert (f = MvLogNormal.mk (MvNormal.new_unchecked mu Sg)) as ->.
    { unfold MvLogNormal.new, MvNormal.new, MvNormal.params_multivariate, matrix_new, loc_new in H. cbn [map_err and_then] in H.
      destruct (check _ Sg) eqn:E; [|discriminate]. apply check_ok_inv in E as [-> _]. cbn in H. now injection H as <-. }
    assert (ED : MvNormal.dim (MvNormal.new_unchecked mu Sg) = n) by exact (proj1 Hm).
    destruct (mvn_factors HLA n mu u Sg A Hm HSg HA) as (L & P & HL & LL & LD & LE & HP & SP & AP & PA & DE & DP).
    rewrite <- and_assoc. split; [|apply (draws_exp n _ _ u L0); [|exact SF]].
    + apply ln_core; cbn [MvLogNormal.nrm]; [exact ED| |].
      * intros l x Hx. eapply pdf_pos; [exact ED|exact Hb|exact DE|exact DP|exact (mvn_dist2 HLA n mu u Sg Hm P l x HP Hx)].
      * intros l x i Hx Hi Hn. apply pdf_nan. unfold MvNormal.d_mahalanobis_squared. apply fsum_nan. destruct (map_ln_nan n l x i Hx Hi Hn) as [Ll N].
        change (MvNormal.mu (MvNormal.pr (MvNormal.new_unchecked mu Sg))) with mu. assert (ML := proj1 Hm).
        assert (ZL := zip_len fsub _ _ n ML Ll).
        match goal with |- In _ (MvNormal.zip_with ?F ?X ?Y) => assert (YL : length Y = n) end.
        { unfold mv_mult. rewrite tab_length. exact (proj1 HP). }
        match goal with |- In _ (MvNormal.zip_with ?F ?X ?Y) => assert (K := in_zip F X Y i NaN NaN ltac:(lia) ltac:(lia)) end.
        rewrite (zip_nth fsub mu _ i NaN NaN) in K by lia. rewrite N, sub_nan_r, mul_nan_l in K. exact K.
    + unfold MvLogNormal.support. cbn [MvLogNormal.nrm]. now rewrite ED.
Qed.
Print Assumptions C137_lognormal.
(** ... but a point with a negative coordinate is given NaN, never the density 0
    (the value at such a point is not the number zero) *)
Theorem C137_lognormal_refuted (n : nat) (mu s : list xreal) (u v : nat -> R) (d : MvLogNormal.t xreal (list xreal)) (l : list xreal) (x : nat -> R) :
  is_vec n mu u -> is_vec n s v -> MvLogNormal.diagonal mu s = Ok d -> is_vec n l x -> off_some n (MvLogNormal.support d) x ->
  MvLogNormal.pdf MvNormal.diagonal_pdf d l = NaN.
Proof.
  intros Hm Hs Hd Hx (i & Hi & Ho). unfold MvLogNormal.diagonal in Hd. destruct (MvNormal.diagonal mu s) as [d0|] eqn:D0; [|discriminate]. cbn in Hd. injection Hd as <-.
  apply (mvd_new_iff n mu s v Hs) in D0 as [Hv ->]. unfold MvLogNormal.support in Ho. cbn [MvLogNormal.nrm] in Ho. rewrite (mvd_dim n mu s u Hm) in Ho.
  apply (proj2 (posr_nth n i (x i) Hi)) in Ho. unfold MvLogNormal.pdf. cbn [MvLogNormal.nrm].
  apply pdf_nan. unfold MvNormal.diagonal_mahalanobis_squared. apply fsum_nan. destruct (map_ln_nan n l x i Hx Hi Ho) as [L N].
  change (MvNormal.mu (MvNormal.pr (MvNormal.diagonal_unchecked mu s))) with mu. assert (PL := proj1 (mvd_prec n mu s v Hs Hv)). assert (ML := proj1 Hm).
  assert (ZL := zip_len fsub _ _ n L ML).
  assert (K := in_zip (fun d si => fmul (fmul d si) si) (MvNormal.zip_with fsub (map fln l) mu) (MvNormal.precision (MvNormal.diagonal_unchecked mu s)) i NaN NaN ltac:(lia) ltac:(lia)).
  rewrite (zip_nth fsub _ _ i NaN NaN) in K by lia. rewrite N, sub_nan_l, !mul_nan_l in K. exact K.
Qed.
Print Assumptions C137_lognormal_refuted.
Example C137_nonvacuous : exists d e f, let mu := [Fin 1; Fin (-2)] in
  MvLogNormal.diagonal mu [Fin 3; Fin (1/2)] = Ok d /\ MvLogNormal.isotropic mu (Fin 3) = Ok e /\ MvLogNormal.new (LA := xla) mu [[Fin 2; Fin 1]; [Fin 1; Fin 3]] = Ok f /\
  lapack_ok xla /\ spd 2 (mat2 2 1 1 3) /\ is_mat 2 [[Fin 2; Fin 1]; [Fin 1; Fin 3]] (mat2 2 1 1 3) /\ in_all 2 (MvLogNormal.support d) (fun _ => 1) /\ off_some 2 (MvLogNormal.support d) (fun _ => -1).
Proof.
  assert (A : exists d, MvNormal.diagonal [Fin 1; Fin (-2)] [Fin 3; Fin (1/2)] = Ok d).
  { eexists. apply (mvd_new_iff 2 _ _ (fun i => nth i [3; 1/2] 0)); [exact (vec_list [3; 1/2])|]. split; [|reflexivity]. intros [|[|i]] Hi; cbn; [lra|lra|lia]. }
  destruct A as [d A]. destruct C65_isotropic_nonvacuous as [e B]. destruct C66_nonvacuous as (L & P & H). destruct (H 1 (-2)) as [f C].
  exists (MvLogNormal.mk d), (MvLogNormal.mk e), (MvLogNormal.mk f). cbv zeta. unfold MvLogNormal.diagonal, MvLogNormal.isotropic, MvLogNormal.new. rewrite A, B, C.
  assert (E : MvLogNormal.support (MvLogNormal.mk d) = repeat PositiveReals 2).
  { apply (mvd_new_iff 2 _ _ (fun i => nth i [3; 1/2] 0)) in A as [_ ->]; [reflexivity|exact (vec_list [3; 1/2])]. }
  rewrite E. do 5 (split; [first [reflexivity|assumption]|]). split; [apply is_mat2|]. split.
  - intros i Hi. apply (proj1 (posr_nth 2 i _ Hi)). lra.
  - exists 0%nat. split; [lia|]. cbn. lra.
Qed.

(** ** Dirichlet: the unit cube, though the density lives on the simplex *)
Theorem C137_dirichlet_partial {SP : Special xreal} (l : list R) (d : Dirichlet.t xreal) :
  loggamma_exact SP -> l <> [] -> (forall a, In a l -> 0 < a) -> d = Dirichlet.new_unchecked (map Fin l) ->
  mv_positive (length l) (Dirichlet.support d) (Dirichlet.pdf d) /\
  (* every point of the open simplex, when there are two or more coordinates, is an interior point *)
  ((2 <= length l)%nat -> forall xs, on_simplex (length l) xs -> in_all (length l) (Dirichlet.support d) (fun i => nth i xs 0)).
Proof.
  intros HS Hl Ha ->. set (n := length l).
  assert (E : Dirichlet.support (Dirichlet.new_unchecked (map Fin l)) = repeat (Closed (Fin 0) (Fin 1)) n).
  { unfold Dirichlet.support, Dirichlet.new_unchecked. cbn [Dirichlet.alphas]. rewrite map_length. now rewrite !x_lit. }
  rewrite E. split; [split; [apply repeat_length|]|].
  - intros k x Hx Hi. assert (EK : k = map Fin (tab n x)). { rewrite (vec_eq n k x Hx). unfold tab. now rewrite map_map. }
    assert (AP : allpos (tab n x)). { intros a K. unfold tab in K. apply in_map_iff in K as (i & <- & K). apply in_seq in K. assert (Q := Hi i ltac:(lia)). rewrite nth_rep in Q by lia. cbn in Q. lra. }
    rewrite EK. destruct (dir_pdf SP HS l Hl Ha (tab n x) (tab_length n x) AP) as [_ ->]. eexists. split; [reflexivity|]. apply dir_f_pos; auto.
  - intros H2 xs (HL & HP & HS1) i Hi. rewrite nth_rep by auto. cbn.
    assert (Q : forall i k, (i < length k)%nat -> (2 <= length k)%nat -> (forall a, In a k -> 0 < a) -> 0 < nth i k 0 < fold_right Rplus 0 k).
    { clear. intros i k. revert i. induction k as [|a k IH]; intros i Hi H2 HP; [cbn in Hi; lia|].
      assert (PK : forall a, In a k -> 0 < a) by (intros; apply HP; now right). assert (A0 := HP a (or_introl eq_refl)).
      assert (SP : k <> [] -> 0 < fold_right Rplus 0 k) by (intros; now apply lsum_pos).
      cbn [fold_right]. destruct i as [|i]; cbn [nth].
      - assert (0 < fold_right Rplus 0 k) by (apply SP; intros ->; cbn in H2; lia). lra.
      - cbn in Hi, H2. destruct k as [|b [|c k]]; [cbn in Hi; lia| |].
        + destruct i as [|i]; [|cbn in Hi; lia]. cbn. assert (0 < b) by (apply PK; now left). lra.
        + assert (G := IH i ltac:(lia) ltac:(cbn; lia) PK). lra. }
    fold n in HL. assert (G := Q i xs ltac:(lia) ltac:(lia) HP). lra.
Qed.
Print Assumptions C137_dirichlet_partial.
(** the density is positive off the reported support, and a draw may lie off it *)
Theorem C137_dirichlet_refuted {SP : Special xreal} (l : list R) (d : Dirichlet.t xreal) :
  loggamma_exact SP -> l <> [] -> (forall a, In a l -> 0 < a) -> d = Dirichlet.new_unchecked (map Fin l) ->
  ~ mv_covers (length l) (Dirichlet.support d) (Dirichlet.pdf d) /\
  forall G (RG : Rng G xreal) g gs g', gamma_draws g l gs g' ->
    exists ys, Dirichlet.sample d g = Ret (map Fin ys, g') /\ length ys = length l /\
      ((exists z, In z gs /\ fold_right Rplus 0 l < z) -> off_some (length l) (Dirichlet.support d) (fun i => nth i ys 0)).
Proof.
  intros HS Hl Ha ->. set (n := length l).
  assert (E : Dirichlet.support (Dirichlet.new_unchecked (map Fin l)) = repeat (Closed (Fin 0) (Fin 1)) n).
  { unfold Dirichlet.support, Dirichlet.new_unchecked. cbn [Dirichlet.alphas]. rewrite map_length. now rewrite !x_lit. }
  rewrite E. assert (n0 : (0 < n)%nat) by (unfold n; destruct l; [congruence|cbn; lia]). split.
  - intros C. set (x := fun _ : nat => 2).
    assert (AP : allpos (tab n x)). { intros a K. unfold tab in K. apply in_map_iff in K as (i & <- & K). unfold x. lra. }
    destruct (dir_pdf SP HS l Hl Ha (tab n x) (tab_length n x) AP) as [_ P].
    apply (C (map Fin (tab n x)) x).
    + unfold tab. rewrite map_map. apply (vec_tab n). reflexivity.
    + exists 0%nat. split; [auto|]. rewrite nth_rep by auto. cbn. unfold x. lra.
    + rewrite P. eexists. split; [reflexivity|]. apply dir_f_pos; auto.
  - intros G RG g gs g' D. assert (a0 := lsum_pos l Hl Ha). exists (map (fun z => z / fold_right Rplus 0 l) gs). split; [|split].
    + rewrite (dir_sample SP l Hl Ha g gs g' D). now rewrite map_map.
    + rewrite map_length. clear - D. induction D; cbn; congruence.
    + intros (z & Hz & Hlt). assert (LG : length gs = n). { unfold n. clear - D. induction D; cbn; congruence. }
      apply (In_nth _ _ 0) in Hz as (i & Hi & Ei). exists i. split; [lia|]. rewrite nth_rep by lia. cbn. right.
      rewrite (nth_indep _ 0 ((fun z => z / fold_right Rplus 0 l) 0)) by (rewrite map_length; lia). rewrite (map_nth (fun z => z / fold_right Rplus 0 l)), Ei.
      apply Rmult_lt_reg_r with (fold_right Rplus 0 l); [auto|]. rewrite Rmult_1_l. unfold Rdiv. rewrite Rmult_assoc, Rinv_l by lra. lra.
Qed.
Print Assumptions C137_dirichlet_refuted.

(** ** Multinomial: [0..n] in every coordinate; a count above n has positive mass *)
Theorem C137_multinomial_refuted {SP : Special xreal} (n k : nat) (p : R) (ps : list R) (d : Multinomial.t xreal) :
  loggamma_exact SP -> Multinomial.new (Z.of_nat n) (map Fin (p :: ps)) = Ok d -> 0 < p -> (n < k)%nat -> (Z.of_nat k < 2 ^ 64)%Z ->
  let xs := Z.of_nat k :: repeat 0%Z (length ps) in
  ~ zmem (nth 0 (Multinomial.support d) Naturals) (Z.of_nat k) /\
  exists v, Multinomial.pmf d xs = Ret (Prob (Fin v)) /\ 0 < v.
Proof.
  intros HS H Hp Hk Hb. cbv zeta. destruct (mn_new_inv _ _ _ H) as (N0 & PR & ED).
  set (ks := k :: repeat 0%nat (length ps)).
  assert (SK : list_sum ks = k). { unfold ks. cbn [list_sum fold_right]. replace (fold_right Nat.add 0%nat (repeat 0%nat (length ps))) with 0%nat; [lia|]. generalize (length ps). intros m; induction m; cbn; auto. }
  assert (LK : length ks = length (p :: ps)) by (unfold ks; cbn; now rewrite repeat_length).
  destruct (C69_log_pmf_partial n (p :: ps) ks d HS H LK) as (WP & _ & W).
  - intros [|i] Hi; cbn [nth]; [left; lra|]. right. unfold ks. cbn [nth]. apply nth_rep. cbn in Hi. lia.
  - rewrite SK. exact Hb.
  - rewrite SK. lia.
  - split.
    + rewrite ED. unfold Multinomial.support, Multinomial.n_categories. cbn. lia.
    + assert (EM : map Z.of_nat ks = Z.of_nat k :: repeat 0%Z (length ps)). { unfold ks. cbn [map]. f_equal. generalize (length ps). intros m; induction m as [|m IH]; cbn; [auto|]. now rewrite IH. }
      rewrite EM in W. rewrite SK in W. rewrite (W ltac:(lia)). exists (multinomial_weight n (p :: ps) ks). destruct (Rle_dec _ 1) as [|NL]; [split; [reflexivity|auto]|]. exfalso. apply NL.
      unfold multinomial_weight.
      assert (EP : rprod (length (p :: ps)) (fun i => nth i (p :: ps) 0 ^ nth i ks 0%nat / INR (fact (nth i ks 0%nat))) = p ^ k / INR (fact k)).
      { assert (G : forall m, (forall i, (i < m)%nat -> (i < length (p :: ps))%nat) -> rprod (S m) (fun i => nth i (p :: ps) 0 ^ nth i ks 0%nat / INR (fact (nth i ks 0%nat))) = p ^ k / INR (fact k) \/ (length ps < m)%nat).
        { induction m as [|m IH]; intros HM. - left. cbn [rprod nth ks]. lra.
          - destruct (Nat.lt_ge_cases (length ps) (S m)) as [Q|Q]; [right; exact Q|left]. destruct (IH ltac:(intros; apply HM; lia)) as [I1|I1]; [|cbn in *; lia].
            cbn [rprod] in I1 |- *. rewrite I1. unfold ks. cbn [nth]. rewrite nth_rep by lia. cbn [pow fact]. change (INR 1) with 1. field. apply INR_fact_neq_0. }
        cbn [length]. destruct (G (length ps)) as [G1|G1]; [cbn; lia|exact G1|lia]. }
      rewrite EP. assert (P1 : p <= 1) by (apply PR; now left). assert (0 < p ^ k) by now apply pow_lt.
      assert (PK : p ^ k <= 1). { rewrite <- (pow1 k). apply pow_incr. lra. }
      assert (FN : 0 < INR (fact k)) by (apply lt_0_INR, lt_O_fact). assert (FL : INR (fact n) <= INR (fact k)) by (apply le_INR, fact_le; lia).
      assert (0 < INR (fact n)) by (apply lt_0_INR, lt_O_fact).
      replace (INR (fact n) * (p ^ k / INR (fact k))) with (INR (fact n) * p ^ k / INR (fact k)) by (field; lra).
      apply Rmult_le_reg_r with (INR (fact k)); [auto|]. unfold Rdiv. rewrite Rmult_assoc, Rinv_l by lra. nra.
Qed.
Print Assumptions C137_multinomial_refuted.
Example C137_dirichlet_nonvacuous : loggamma_exact (exact false) /\ (forall a, In a [2; 3] -> 0 < a) /\ on_simplex 2 [1/4; 3/4].
Proof.
  split; [intros a Ha; eexists; split; [reflexivity|now apply Gam_spec]|]. split; [intros a [<-|[<-|[]]]; lra|].
  split; [reflexivity|]. split; [intros a [<-|[<-|[]]]; lra|cbn; lra].
Qed.
Example C137_multinomial_nonvacuous : exists (SP : Special xreal) d, loggamma_exact SP /\ Multinomial.new (Z.of_nat 3) (map Fin [1/2; 1/2]) = Ok d.
Proof. exact C69_log_pmf_nonvacuous. Qed.
