(** * Properties C68-C70: Dirichlet, Multinomial, multivariate LogNormal *)
From Coq Require Import Reals Lra Lia Psatz List Arith ZArith Bool.
From Coquelicot Require Import Coquelicot.
From Verif.Num Require Import Scalar XReal.
From Verif.Model Require Import Rust Constraints Probability Params Consts Traits Linalg Multivariate.
From Verif.Model Require MvNormal.
From Verif.Spec Require Import DistSpec SampleSpec MvSpec GammaSpec LapackSpec.
From Verif.Proofs Require Import ConstraintProofs XTac Matrix MvProofs MvProofs3 GammaFun DirichletProofs MultiProofs Oracle LapackInst.
Import ListNotations.
Open Scope R_scope.
Notation diagonal_matrix v := (fun i j : nat => if Nat.eqb i j then v i else 0).

(** C68: what is right, for a Dirichlet obtained from positive alphas by
    [new_unchecked] or [From] ([new] cannot be used, see the refutation) *)
Theorem C68_dirichlet_partial {SP : Special xreal} (l : list R) (d : Dirichlet.t xreal) :
  loggamma_exact SP -> l <> [] -> (forall a, In a l -> 0 < a) ->
  d = Dirichlet.new_unchecked (map Fin l) \/ d = Dirichlet.from (map Fin l) ->
  let n := length l in
  (* a density on the simplex *)
  (forall xs, on_simplex n xs -> exists v, 0 < v /\ Dirichlet.pdf d (map Fin xs) = Fin v /\ Dirichlet.log_pdf d (map Fin xs) = Fin (ln v)) /\
  is_simplex_exp n (Dirichlet.pdf d) (fun _ => 1) 1 /\
  (* the mean is a point of the simplex, and the covariance is the covariance *)
  (exists m C, is_vec n (Dirichlet.mean d) m /\ is_mat n (Dirichlet.covariance d) C /\
    is_vec n (Dirichlet.variance d) (fun i => C i i) /\
    (forall i, (i < n)%nat -> 0 < m i /\ is_simplex_exp n (Dirichlet.pdf d) (fun xs => nth i xs 0) (m i)) /\
    rsum n m = 1 /\
    (forall i j, (i < n)%nat -> (j < n)%nat ->
       is_simplex_exp n (Dirichlet.pdf d) (fun xs => (nth i xs 0 - m i) * (nth j xs 0 - m j)) (C i j)) /\
    symmetric n C /\ (forall i, (i < n)%nat -> rsum n (C i) = 0)) /\
  (* the mode, when every alpha exceeds one *)
  ((forall a, In a l -> 1 < a) -> exists w, Dirichlet.modes d = [map Fin w] /\ on_simplex n w /\
     forall xs, on_simplex n xs -> val (Dirichlet.pdf d (map Fin xs)) <= val (Dirichlet.pdf d (map Fin w))).
Proof.
  intros HG Hl Hp Hd n. assert (E : d = Dirichlet.new_unchecked (map Fin l)) by (destruct Hd; assumption). subst d. clear Hd.
  assert (K := lsum_pos l Hl Hp).
  split; [|split; [|split]].
  - intros xs (HL & Hx & Hs). exists (dir_f l xs). split; [now apply dir_f_pos|]. destruct (dir_pdf SP HG l Hl Hp xs HL Hx). now split.
  - now apply dir_E0.
  - exists (fun i => nth i l 0 / lsum l), (fun i j => nth i l 0 * ((if Nat.eqb i j then lsum l else 0) - nth j l 0) / (lsum l * lsum l * (lsum l + 1))).
    split; [now apply dir_mean_val|]. split; [now apply dir_cov_val|]. split; [|split; [|split; [|split; [|split]]]].
    + apply (vec_ext n _ _ _ (dir_var_val SP l Hl Hp)). intros i Hi. now rewrite Nat.eqb_refl.
    + intros i Hi. split; [|now apply dir_E1]. assert (0 < nth i l 0) by (apply Hp, nth_In, Hi). pos.
    + rewrite (rsum_ext n _ (fun i => nth i l 0 * / lsum l)) by reflexivity. rewrite rsum_scal_r. unfold n. rewrite <- lsum_rsum. field. lra.
    + intros i j Hi Hj. now apply dir_cov.
    + intros i j Hi Hj. destruct (Nat.eqb_spec i j) as [->|Ne]; [now rewrite Nat.eqb_refl|]. rewrite (proj2 (Nat.eqb_neq j i)) by congruence. field. lra.
    + intros i Hi. set (c := nth i l 0 / (lsum l * lsum l * (lsum l + 1))).
      rewrite (rsum_ext n _ (fun j => c * ((if Nat.eqb i j then lsum l else 0) - nth j l 0))) by (intros; unfold c; field; lra).
      rewrite rsum_scal, rsum_minus. rewrite (rsum_single n i) by (auto; intros k Hk Ne; rewrite (proj2 (Nat.eqb_neq i k)) by congruence; reflexivity).
      rewrite Nat.eqb_refl. unfold n. rewrite <- lsum_rsum. ring.
  - intros H1. destruct (dir_modes SP l Hl Hp H1) as (E & Hw & Hm). eexists. split; [exact E|]. split; [exact Hw|]. intros xs Hx.
    rewrite (dir_val SP HG l Hl Hp xs (proj1 Hx) (proj1 (proj2 Hx))). rewrite (dir_val SP HG l Hl Hp _ (proj1 Hw) (proj1 (proj2 Hw))). now apply Hm.
Qed.
Print Assumptions C68_dirichlet_partial.
Example C68_nonvacuous : loggamma_exact (exact false) /\ (forall a, In a [2; 3; 7/2] -> 1 < a) /\ on_simplex 3 [1/2; 1/4; 1/4].
Proof.
  split; [intros a Ha; exists (Gam a); split; [reflexivity|now apply Gam_spec]|]. split; [|split; [reflexivity|]].
  - intros a H. cbn in H. destruct H as [<-|[<-|[<-|[]]]]; lra.
  - split; [|cbn; lra]. intros a H. cbn in H. destruct H as [<-|[<-|[<-|[]]]]; lra.
Qed.
(** what is wrong: [new] rejects every non-empty vector; the sample is divided
    by the sum of the alphas, so it lies on the simplex only by chance; [modes]
    returns a minimum, or no numbers, when alphas are at most one *)
Theorem C68_dirichlet_refuted {SP : Special xreal} :
  (forall l : list xreal, l <> [] -> exists e, Dirichlet.new l = Err e) /\
  (forall l, l <> [] -> (forall a, In a l -> 0 < a) -> forall G (RG : Rng G xreal) g gs g', gamma_draws g l gs g' ->
     exists ys, Dirichlet.sample (Dirichlet.new_unchecked (map Fin l)) g = Ret (map Fin ys, g') /\
       (fold_right Rplus 0 ys = 1 <-> fold_right Rplus 0 gs = fold_right Rplus 0 l)) /\
  (loggamma_exact SP -> let d := Dirichlet.new_unchecked [Fin (1/2); Fin (1/2)] in
     Dirichlet.modes d = [[Fin (1/2); Fin (1/2)]] /\
     forall x, 0 < x < 1 -> x <> 1/2 -> val (Dirichlet.pdf d [Fin (1/2); Fin (1/2)]) < val (Dirichlet.pdf d [Fin x; Fin (1 - x)])) /\
  Dirichlet.modes (Dirichlet.new_unchecked [Fin 1; Fin 1]) = [[NaN; NaN]].
Proof.
  split; [|split; [|split]].
  - intros l Hl. unfold Dirichlet.new, concentrations_new. pose proof (check_spec (AllA Positive) l) as Q.
    destruct (is_satisfied_by (AllA Positive) l).
    + rewrite Q. cbn [and_then]. destruct (check_err (CNot EmptyA) l) as (e & E & _); [cbn [is_satisfied_by]; destruct l; [congruence|reflexivity]|]. rewrite E. cbn. eauto.
    + destruct Q as (c' & -> & _). cbn. eauto.
  - intros l Hl Hp G RG g gs g' H. exists (map (fun z => z / lsum l) gs). rewrite (dir_sample SP l Hl Hp g gs g' H), map_map. split; [reflexivity|].
    assert (K := lsum_pos l Hl Hp). assert (E : lsum (map (fun z => z / lsum l) gs) = lsum gs / lsum l).
    { generalize (lsum l), K. intros c Hc. clear - Hc. induction gs as [|z gs IH]; cbn [map fold_right]; [field; lra|]. rewrite IH. field. lra. }
    rewrite E. split; intros X; [|rewrite X; field; lra]. apply (Rmult_eq_reg_r (/ lsum l)); [|apply Rinv_neq_0_compat; lra]. unfold Rdiv in X. rewrite X. field. lra.
  - intros HG d. set (l := [1/2; 1/2]). assert (Hl : l <> []) by discriminate.
    assert (Hp : allpos l) by (intros a [<-|[<-|[]]]; lra). assert (Ed : d = Dirichlet.new_unchecked (map Fin l)) by reflexivity. split.
    + unfold Dirichlet.modes. rewrite Ed, (dir_alpha0 SP l). cbn [Dirichlet.alphas Dirichlet.new_unchecked map length l fold_right]. xs.
      replace (IZR (Z.of_nat 2)) with 2 by reflexivity. rewrite x_div by lra. replace ((1/2 - 1) / (1/2 + (1/2 + 0) - 2)) with (1/2) by field. reflexivity.
    + intros x Hx Ne. change [Fin (1/2); Fin (1/2)] with (map Fin [1/2; 1/2]). change [Fin x; Fin (1 - x)] with (map Fin [x; 1 - x]). rewrite Ed.
      rewrite !(dir_val SP HG l Hl Hp); [|reflexivity|intros y [<-|[<-|[]]]; lra|reflexivity|intros y [<-|[<-|[]]]; lra].
      unfold dir_f. apply Rmult_lt_compat_l; [assert (P1 := Gam_pos _ (lsum_pos l Hl Hp)); assert (P2 := gprod_pos l Hp); pos|].
      unfold l. cbn [dens]. rewrite !Rmult_1_r. replace (1/2 - 1) with (- / 2) by lra. rewrite !Rpower_Ropp.
      rewrite !Rpower_sqrt by lra. rewrite <- !Rinv_mult. rewrite <- !sqrt_mult by lra.
      assert (0 < x * (1 - x)) by (apply Rmult_lt_0_compat; lra).
      apply Rinv_lt_contravar; [apply Rmult_lt_0_compat; apply sqrt_lt_R0; lra|]. apply sqrt_lt_1; [lra|lra|].
      assert (0 < (x - 1/2) * (x - 1/2)) by (apply Rsqr_pos_lt; lra). nra.
  - unfold Dirichlet.modes. assert (E0 := dir_alpha0 SP [1; 1]). cbn [map] in E0. rewrite E0. cbn [Dirichlet.alphas Dirichlet.new_unchecked map length fold_right]. xs.
    replace (IZR (Z.of_nat 2)) with 2 by reflexivity. replace (1 - 1) with 0 by ring. replace (1 + (1 + 0) - 2) with 0 by ring.
    cbn. unfold xdiv. destruct (Req_EM_T 0 0); [|congruence]. reflexivity.
Qed.
Print Assumptions C68_dirichlet_refuted.

(** C69, moments: those of the counts of n independent trials *)
Theorem C69_multinomial_partial (n : Z) (ps : list R) (d : Multinomial.t xreal) :
  Multinomial.new n (map Fin ps) = Ok d -> fold_right Rplus 0 ps = 1 ->
  let N := length ps in let k := Z.to_nat n in let p := fun i => nth i ps 0 in
  (0 <= n)%Z /\ (forall i, (i < N)%nat -> 0 <= p i <= 1) /\ Multinomial.support d = repeat (Closed 0%Z n) N /\
  exists m C, is_vec N (Multinomial.mean d) m /\ is_mat N (Multinomial.covariance d) C /\ is_vec N (Multinomial.variance d) (fun i => C i i) /\
    (forall i, (i < N)%nat -> m i = trials_exp N p k (occurs i)) /\
    rsum N m = IZR n /\
    (forall i j, (i < N)%nat -> (j < N)%nat -> C i j = trials_exp N p k (fun l => (occurs i l - m i) * (occurs j l - m j))) /\
    symmetric N C /\ (forall i, (i < N)%nat -> rsum N (C i) = 0) /\
    ((0 < n)%Z -> (forall i, (i < N)%nat -> 0 < p i < 1) ->
       is_mat N (Multinomial.correlation d) (fun i j => C i j / sqrt (C i i * C j j))).
Proof.
  intros H Hs N k p. apply mn_new_inv in H as (Hn & Hp & ->). assert (En : n = Z.of_nat k) by (unfold k; lia).
  assert (Hpi : forall i, (i < N)%nat -> 0 <= p i <= 1) by (intros i Hi; apply Hp, nth_In, Hi).
  assert (HS : rsum N p = 1) by (rewrite <- Hs; symmetry; apply lsum_rsum).
  split; [exact Hn|]. split; [exact Hpi|]. split.
  { unfold Multinomial.support, Multinomial.n_categories, tab. cbn [Multinomial.pr Multinomial.ps Multinomial.n Multinomial.new_unchecked]. rewrite map_length. fold N.
    clear. generalize 0%nat as s. induction N as [|M IH]; intros s; cbn; [reflexivity|]. now rewrite IH. }
  rewrite En. assert (IE : IZR (Z.of_nat k) = INR k) by (now rewrite INR_IZR_INZ). rewrite IE.
  exists (fun i => INR k * p i), (fun i j => INR k * p i * ((if Nat.eqb i j then 1 else 0) - p j)).
  split; [apply mn_mean|]. split; [apply mn_cov|]. split; [|split; [|split; [|split; [|split; [|split]]]]].
  - apply (vec_ext N _ _ _ (mn_var k ps)). intros i Hi. now rewrite Nat.eqb_refl.
  - intros i Hi. symmetry. now apply te_mean.
  - rewrite rsum_scal, HS. ring.
  - intros i j Hi Hj. symmetry. now apply te_cov.
  - intros i j Hi Hj. destruct (Nat.eqb_spec i j) as [->|Ne]; [now rewrite Nat.eqb_refl|]. rewrite (proj2 (Nat.eqb_neq j i)) by congruence. ring.
  - intros i Hi. rewrite rsum_scal, rsum_minus, HS. rewrite (rsum_single N i) by (auto; intros q Hq Ne; rewrite (proj2 (Nat.eqb_neq i q)) by congruence; reflexivity).
    rewrite Nat.eqb_refl. ring.
  - intros Hk H1. assert (K : 0 < INR k) by (apply lt_0_INR; lia). apply (mat_ext N _ _ _ (mn_corr k ps H1)). intros i j Hi Hj. fold (p i) (p j).
    rewrite !Nat.eqb_refl. assert (A := H1 i Hi). assert (B := H1 j Hj).
    set (vi := INR k * p i * (1 - p i)). set (vj := INR k * p j * (1 - p j)).
    assert (Vi : 0 < vi) by (unfold vi; assert (0 < 1 - p i) by lra; assert (0 < p i) by lra; pos). assert (Vj : 0 < vj) by (unfold vj; assert (0 < 1 - p j) by lra; assert (0 < p j) by lra; pos).
    destruct (Nat.eqb_spec i j) as [->|Ne].
    + fold vj. replace vi with vj by reflexivity. rewrite sqrt_square by lra. field. lra.
    + assert (S0 : 0 < sqrt (vi * vj)) by (apply sqrt_lt_R0; pos).
      apply (Rmult_eq_reg_r (sqrt (vi * vj))); [|lra]. match goal with |- _ = ?a / ?b * ?b => replace (a / b * b) with a by (field; lra) end.
      rewrite Ropp_mult_distr_l_reverse, <- sqrt_mult_alt.
      * replace (p i * p j / ((1 - p i) * (1 - p j)) * (vi * vj)) with ((INR k * p i * p j) * (INR k * p i * p j)) by (unfold vi, vj; field; lra).
        rewrite sqrt_square; [ring|]. assert (0 < p i) by lra. assert (0 < p j) by lra. left. pos.
      * left. assert (0 < p i) by lra. assert (0 < p j) by lra. assert (0 < 1 - p i) by lra. assert (0 < 1 - p j) by lra. pos.
Qed.
Print Assumptions C69_multinomial_partial.
Example C69_nonvacuous : exists d, Multinomial.new 5 (map Fin [1/2; 1/3; 1/6]) = Ok d /\ fold_right Rplus 0 [1/2; 1/3; 1/6] = 1.
Proof.
  eexists. split; [apply mn_new_ok; [lia| |cbn; lra]|cbn; lra]. intros p H. cbn in H. destruct H as [<-|[<-|[<-|[]]]]; lra.
Qed.
(** C69, mass function: it is undefined exactly on the count vectors that can
    occur; for n = 0 it gives the only possible vector probability zero *)
Theorem C69_pmf_refuted {SP : Special xreal} (n : Z) (ps : list xreal) (d : Multinomial.t xreal) (xs : list Z) :
  Multinomial.new n ps = Ok d -> length xs = length ps -> (forall x, In x xs -> (0 <= x)%Z) -> (fold_right Z.add 0 xs < 2 ^ 64)%Z ->
  (Multinomial.log_pmf d xs = Panic <-> fold_right Z.add 0%Z xs = n) /\
  (fold_right Z.add 0%Z xs = n -> if Z.eqb n 0 then Multinomial.pmf d xs = Ret p_zero else Multinomial.pmf d xs = Panic).
Proof.
  intros H HL Hx Hb.
  assert (E : Multinomial.n (Multinomial.pr d) = n /\ Multinomial.ps (Multinomial.pr d) = ps).
  { revert H. unfold Multinomial.new, Multinomial.params_new, count_new. destruct (check (AllS NonNegative) n) as [m|] eqn:E; cbn [map_err and_then map_ok]; [|discriminate].
    apply check_ok_inv in E as [-> _]. destruct (simplex_new ps) as [q|] eqn:E2; cbn [map_err and_then map_ok]; [|discriminate].
    intros X; injection X as <-. cbn. split; [reflexivity|]. now apply simplex_new_id in E2. }
  destruct E as [En Ep].
  assert (ES : Multinomial.sum_usize 0 xs = Ret (fold_right Z.add 0 xs)%Z) by (apply (sum_usize_ok xs 0); auto; lia).
  assert (EL : Multinomial.log_pmf d xs = if Z.eqb (fold_right Z.add 0%Z xs) n then Panic else Ret (Multinomial.log_weight d xs)).
  { unfold Multinomial.log_pmf, Multinomial.n_categories. rewrite Ep, HL. rewrite check_ok by (cbn; apply Z.eqb_refl). cbn [unwrap_ok rbind]. rewrite ES. cbn [rbind]. now rewrite En. }
  split.
  - rewrite EL. destruct (Z.eqb_spec (fold_right Z.add 0%Z xs) n); split; intros; congruence.
  - intros EQ. unfold Multinomial.pmf. rewrite ES. cbn [rbind]. rewrite EQ, EL, EQ, Z.eqb_refl. destruct (Z.eqb_spec n 0); reflexivity.
Qed.
Print Assumptions C69_pmf_refuted.
Example C69_pmf_nonvacuous : exists d, Multinomial.new 3 (map Fin [1/2; 1/2]) = Ok d /\ fold_right Z.add 0%Z [1; 2]%Z = 3%Z.
Proof. eexists. split; [apply mn_new_ok; [lia| |cbn; lra]|reflexivity]. intros p H. cbn in H. destruct H as [<-|[<-|[]]]; lra. Qed.

(** C70: the covariance of the log-normal, for any representation [S] of the
    inner covariance.  [lognormal_cov] is the wanted entry. *)
Definition lognormal_cov (u : nat -> R) (A : nat -> nat -> R) (i j : nat) : R := exp (u i + u j + (A i i + A j j) / 2) * (exp (A i j) - 1).
Theorem C70_covariance_partial {S} (ncov : MvNormal.MvN xreal S -> list (list xreal)) (nvar : MvNormal.MvN xreal S -> list xreal)
    (d : MvLogNormal.t xreal S) (n : nat) (u : nat -> R) (A : nat -> nat -> R) :
  is_vec n (MvNormal.mean (MvLogNormal.nrm d)) u -> is_mat n (ncov (MvLogNormal.nrm d)) A -> is_vec n (nvar (MvLogNormal.nrm d)) (fun i => A i i) ->
  is_vec n (MvLogNormal.mean nvar d) (fun i => exp (u i + A i i / 2)) /\
  is_vec n (MvLogNormal.variance nvar d) (fun i => lognormal_cov u A i i) /\
  exists C, is_mat n (MvLogNormal.covariance ncov d) C /\
    (* the diagonal and the upper triangle are right, and so is every entry below which the inner covariance vanishes *)
    (forall i j, (i < n)%nat -> (j < n)%nat -> (i <= j)%nat \/ A i j = 0 -> C i j = lognormal_cov u A i j) /\
    (* below the diagonal the variance of the result is used in place of the inner variance *)
    (forall i j, (j < i < n)%nat -> C i j = exp (u i + u j + (A i i + lognormal_cov u A j j) / 2) * (exp (A i j) - 1)).
Proof.
  intros Hu HA Hv. assert (Hdim : MvNormal.dim (MvLogNormal.nrm d) = n) by exact (proj1 Hu).
  change (MvNormal.mean (MvLogNormal.nrm d)) with (MvNormal.mu (MvNormal.pr (MvLogNormal.nrm d))) in Hu.
  split; [|split].
  - unfold MvLogNormal.mean. rewrite Hdim. apply vec_tab. intros i Hi. rewrite (vec_vget n _ u i Hu Hi), (vec_vget n _ _ i Hv Hi). xs. reflexivity.
  - unfold MvLogNormal.variance. rewrite Hdim. apply vec_tab. intros i Hi. rewrite (vec_vget n _ u i Hu Hi), (vec_vget n _ _ i Hv Hi). xs. unfold lognormal_cov. do 3 f_equal. field.
  - exists (ln_final u A). split; [unfold MvLogNormal.covariance; rewrite Hdim; now apply cov_loop_ok|]. split.
    + intros i j Hi Hj HC. unfold ln_final, lognormal_cov. destruct (Nat.ltb_spec j i); [|reflexivity]. destruct HC as [HC|HC]; [lia|]. rewrite HC, exp_0. ring.
    + intros i j Hij. unfold ln_final. destruct (Nat.ltb_spec j i); [reflexivity|lia].
Qed.
Print Assumptions C70_covariance_partial.
(** with a diagonal or isotropic inner covariance everything is right *)
Theorem C70_diagonal (n : nat) (mu s : list xreal) (u v : nat -> R) (d : MvLogNormal.t xreal (list xreal)) :
  is_vec n mu u -> is_vec n s v -> MvLogNormal.diagonal mu s = Ok d ->
  (forall i, (i < n)%nat -> 0 < v i) /\
  is_vec n (MvLogNormal.mean MvNormal.diagonal_variance d) (fun i => exp (u i + v i / 2)) /\
  is_mat n (MvLogNormal.covariance MvNormal.diagonal_covariance d) (diagonal_matrix (fun i => lognormal_cov u (diagonal_matrix v) i i)) /\
  is_vec n (MvLogNormal.variance MvNormal.diagonal_variance d) (fun i => lognormal_cov u (diagonal_matrix v) i i).
Proof.
  intros Hm Hs H. unfold MvLogNormal.diagonal in H. destruct (MvNormal.diagonal mu s) as [d'|] eqn:E; cbn [map_ok] in H; [|discriminate]. injection H as <-.
  apply (mvd_new_iff n mu s v Hs) in E as [Hv ->]. split; [exact Hv|].
  destruct (C70_covariance_partial MvNormal.diagonal_covariance MvNormal.diagonal_variance (MvLogNormal.mk (MvNormal.diagonal_unchecked mu s)) n u (diagonal_matrix v)) as (M & V & C & HC & HC1 & HC2).
  - exact Hm.
  - exact (mvd_cov n mu s u v Hm Hs).
  - apply (vec_ext n _ v); [exact Hs|]. intros i Hi. now rewrite Nat.eqb_refl.
  - split; [apply (vec_ext n _ _ _ M); intros i Hi; now rewrite Nat.eqb_refl|]. split; [|exact V].
    apply (mat_ext n _ _ _ HC). intros i j Hi Hj. rewrite (HC1 i j Hi Hj ltac:(cbv beta; destruct (Nat.eqb_spec i j); [left; lia|now right])).
    destruct (Nat.eqb_spec i j) as [->|Ne]; [reflexivity|]. unfold lognormal_cov. rewrite (proj2 (Nat.eqb_neq i j)) by auto. rewrite exp_0. ring.
Qed.
Print Assumptions C70_diagonal.
Example C70_diagonal_nonvacuous : exists d, MvLogNormal.diagonal [Fin 1; Fin (-2)] [Fin 3; Fin (1/2)] = Ok d.
Proof.
  eexists. unfold MvLogNormal.diagonal. rewrite (proj2 (mvd_new_iff 2 [Fin 1; Fin (-2)] [Fin 3; Fin (1/2)] (fun i => nth i [3; 1/2] 0) (vec_list [3; 1/2]) (MvNormal.diagonal_unchecked [Fin 1; Fin (-2)] [Fin 3; Fin (1/2)]))); [reflexivity|].
  split; [|reflexivity]. intros [|[|i]] Hi; cbn; [lra|lra|lia].
Qed.
(** for a general covariance matrix the result is not symmetric: every pair of
    correlated components i > j goes wrong unless the log-normal variance of j
    happens to equal the normal one *)
Theorem C70_symmetry_refuted {LA : Lapack xreal} (n : nat) (mu : list xreal) (u : nat -> R) (Sg : list (list xreal)) (A : nat -> nat -> R) (d : MvLogNormal.t xreal (list (list xreal))) :
  is_vec n mu u -> is_mat n Sg A -> spd n A -> MvLogNormal.new mu Sg = Ok d ->
  exists C, is_mat n (MvLogNormal.covariance MvNormal.covariance d) C /\
    forall i j, (j < i < n)%nat -> A i j <> 0 -> lognormal_cov u A j j <> A j j -> C i j <> C j i.
Proof.
  intros Hm HSg [Hsym HA] H. assert (d = MvLogNormal.mk (MvNormal.new_unchecked mu Sg)) as ->.
  { unfold MvLogNormal.new, MvNormal.new, MvNormal.params_multivariate, matrix_new, loc_new in H. cbn [map_err and_then] in H.
    destruct (check _ Sg) eqn:E; [|discriminate]. apply check_ok_inv in E as [-> _]. cbn in H. now injection H as <-. }
  destruct (C70_covariance_partial MvNormal.covariance MvNormal.variance (MvLogNormal.mk (MvNormal.new_unchecked mu Sg)) n u A) as (_ & _ & C & HC & C1 & C2).
  - exact Hm.
  - exact HSg.
  - unfold MvNormal.variance. replace (MvNormal.dim _) with n by (symmetry; exact (proj1 Hm)). apply vec_tab. intros i Hi. now apply (mat_get_ok n).
  - exists C. split; [exact HC|]. intros i j Hij HN HV E. rewrite (C2 i j Hij), (C1 j i) in E by (lia || (left; lia)). unfold lognormal_cov at 2 in E. rewrite (Hsym j i) in E by lia.
    apply Rmult_eq_reg_r in E. 2:{ intros X. apply HN. apply exp_inv. rewrite exp_0. lra. }
    apply exp_inv in E. apply HV. lra.
Qed.
Print Assumptions C70_symmetry_refuted.
Example C70_refuted_nonvacuous : exists d, MvLogNormal.new (LA := xla) [Fin 0; Fin 1] [[Fin 2; Fin 1]; [Fin 1; Fin 3]] = Ok d /\
  forall (u : nat -> R) (A : nat -> nat -> R) j, 0 <= u j -> 0 < A j j -> lognormal_cov u A j j <> A j j.
Proof.
  eexists. split.
  - unfold MvLogNormal.new, MvNormal.new, MvNormal.params_multivariate, matrix_new, loc_new. cbn [map_err and_then].
    rewrite check_ok; [reflexivity|]. cbn [is_satisfied_by forallb pleb pzero POrd_scalar andb]. rewrite !x_lit, !x_leb.
    unfold Rleb. repeat (destruct (Rle_dec _ _); [|lra]). reflexivity.
  - intros u A j Hu HA. unfold lognormal_cov. apply Rgt_not_eq. assert (E1 := exp_ineq1 (A j j) ltac:(lra)).
    assert (E2 := exp_ineq1 (u j + u j + (A j j + A j j) / 2) ltac:(lra)). nra.
Qed.
