(** * Dirichlet *)
From Coq Require Import Reals Lra Lia Psatz List Arith ZArith Bool.
From Coquelicot Require Import Coquelicot.
From Verif.Num Require Import Scalar XReal.
From Verif.Model Require Import Rust Constraints Probability Params Consts Traits Linalg Multivariate.
From Verif.Spec Require Import DistSpec SampleSpec MvSpec GammaSpec.
From Verif.Proofs Require Import XTac Matrix MvProofs Calc Improper GammaFun Subst.
Import ListNotations.
Open Scope R_scope.

Notation lsum l := (fold_right Rplus 0 l).
Definition gprod (l : list R) : R := fold_right (fun a r => Gam a * r) 1 l.
Fixpoint dens (l xs : list R) : R := match l, xs with a :: l, x :: xs => Rpower x (a - 1) * dens l xs | _, _ => 1 end.
Definition allpos (l : list R) : Prop := forall x, In x l -> 0 < x.
Lemma allpos_cons a l : allpos (a :: l) <-> 0 < a /\ allpos l.
Proof. split; [intros H; split; [apply H; now left|intros x Hx; apply H; now right]|intros [H K] x [<-|Hx]; auto]. Qed.
Lemma lsum_pos l : l <> [] -> allpos l -> 0 < lsum l.
Proof.
  induction l as [|a l IH]; intros N H; [congruence|]. apply allpos_cons in H as [Ha Hl]. cbn. destruct l as [|b l]; [cbn; lra|].
  specialize (IH ltac:(discriminate) Hl). lra.
Qed.
Lemma lsum_rsum l : lsum l = rsum (length l) (fun i => nth i l 0).
Proof. induction l as [|a l IH]; [reflexivity|]. cbn [length fold_right]. rewrite rsum_shift. cbn [nth]. now rewrite IH. Qed.
Lemma gprod_pos l : allpos l -> 0 < gprod l.
Proof. induction l as [|a l IH]; intros H; cbn; [lra|]. apply allpos_cons in H as [Ha Hl]. apply Rmult_lt_0_compat; [now apply Gam_pos|auto]. Qed.

(** ** simplex integrals *)
Lemma sint_SS n f s v : simplex_int (S (S n)) f s v <-> exists g, (forall x, 0 < x < s -> simplex_int (S n) (fun l => f (x :: l)) (s - x) (g x)) /\ is_RInt_gen g (at_right 0) (at_left s) v.
Proof. reflexivity. Qed.
Lemma sint_ext n : forall f g s v, 0 < s -> (forall xs, length xs = n -> allpos xs -> lsum xs = s -> f xs = g xs) -> simplex_int n f s v -> simplex_int n g s v.
Proof.
  induction n as [|[|n] IH]; intros f g s v Hs H K; [exact K| |].
  - cbn in *. rewrite K. apply H; [reflexivity|intros x [<-|[]]; auto|cbn; ring].
  - destruct K as (h & K & KI). exists h. split; [|exact KI]. intros x Hx. apply (IH (fun l => f (x :: l)) _ (s - x)); [lra| |now apply K].
    intros xs Hl Hp Hsum. apply H; [cbn; lia|apply allpos_cons; split; [lra|auto]|cbn; lra].
Qed.
Lemma sint_lin n : forall f g s v w (c e : R), simplex_int n f s v -> simplex_int n g s w -> simplex_int n (fun xs => c * f xs + e * g xs) s (c * v + e * w).
Proof.
  induction n as [|[|n] IH]; intros f g s v w c e H K; [exact H| |].
  - cbn in *. now rewrite H, K.
  - destruct H as (h & H & HI). destruct K as (k & K & KI). exists (fun x => c * h x + e * k x). split.
    + intros x Hx. apply (IH (fun l => f (x :: l)) (fun l => g (x :: l))); auto.
    + apply (is_RInt_gen_plus (V := R_NormedModule) (fun x => c * h x) (fun x => e * k x)).
      * apply (is_RInt_gen_scal (V := R_NormedModule) h c). exact HI.
      * apply (is_RInt_gen_scal (V := R_NormedModule) k e). exact KI.
Qed.
Lemma sint_scal n f s v (c : R) : simplex_int n f s v -> simplex_int n (fun xs => c * f xs) s (c * v).
Proof.
  intros H. assert (K := sint_lin n f f s v v c 0 H H). replace (c * v + 0 * v) with (c * v) in K by ring. revert K.
  assert (E : forall n f g s v, (forall xs, f xs = g xs) -> simplex_int n f s v -> simplex_int n g s v).
  { clear. induction n as [|[|n] IH]; intros f g s v E H; [exact H|cbn in *; now rewrite <- E|]. destruct H as (h & H & HI). exists h. split; [|exact HI].
    intros x Hx. apply (IH (fun l => f (x :: l))); auto. }
  apply E. intros; ring.
Qed.
(** scaled beta integral *)
Lemma scale_left1 s : 0 < s -> filterlim (fun x => / s * x) (at_left s) (at_left 1).
Proof.
  intros Hs P [eps He]. assert (He' := cond_pos eps). assert (H0 : 0 < eps * s) by pos. exists (mkposreal _ H0). intros y Hy Hlt. apply He.
  - unfold ball in *; cbn in *; unfold AbsRing_ball, abs, minus, plus, opp in *; cbn in *.
    match goal with |- Rabs ?e < _ => replace e with (/ s * (y + - s)) by (field; lra) end. rewrite Rabs_mult, (Rabs_pos_eq (/ s)) by (left; pos).
    apply (Rmult_lt_reg_l s); [auto|]. replace (s * (/ s * Rabs (y + - s))) with (Rabs (y + - s)) by (field; lra). lra.
  - assert (K : forall t : R, t < s -> / s * t < 1). { intros t Ht. apply (Rmult_lt_reg_l s); [auto|]. replace (s * (/ s * t)) with t by (field; lra). lra. }
    apply K. exact Hlt.
Qed.
Lemma beta_scaled (a b s : R) : 0 < a -> 0 < b -> 0 < s ->
  is_RInt_gen (fun x => Rpower x (a - 1) * Rpower (s - x) (b - 1)) (at_right 0) (at_left s) (Rpower s (a + b - 1) * (Gam a * Gam b / Gam (a + b))).
Proof.
  intros Ha Hb Hs. assert (B := is_Beta_Gamma a b _ _ _ Ha Hb (Gam_spec a Ha) (Gam_spec b Hb) (Gam_spec (a + b) ltac:(lra))).
  assert (Hi : 0 < / s) by pos.
  assert (A : is_RInt_gen (fun x => / s * beta_h a b (/ s * x)) (above 0) (below s) (Gam a * Gam b / Gam (a + b))).
  { apply (subst_up 0 s 0 1 (beta_h a b) (fun x => / s * x) (fun _ => / s)); [exact Hs|exact B|now apply scale_above|now apply scale_left1|].
    intros x [Hx1 Hx2]. cbn in Hx1, Hx2. split; [dder; ring|]. split; [apply continuous_const|]. apply bh_cont. split; cbn; [pos|].
    apply (Rmult_lt_reg_l s); [auto|]. replace (s * (/ s * x)) with x by (field; lra). lra. }
  apply (gen_scal 0 s _ (Rpower s (a + b - 1))) in A. revert A. apply (is_RInt_gen_inside 0 s); [exact Hs|]. intros x [Hx1 Hx2]. cbn in Hx1, Hx2. unfold beta_h.
  replace (/ s * x) with (x / s) by (field; lra). replace (1 - x / s) with ((s - x) / s) by (field; lra).
  rewrite (Rpower_div_base x s), (Rpower_div_base (s - x) s) by lra.
  replace (Rpower s (a + b - 1)) with (s * (Rpower s (a - 1) * Rpower s (b - 1))).
  2:{ rewrite <- Rpower_plus. rewrite <- (Rpower_1 s) at 1 by auto. rewrite <- Rpower_plus. f_equal. ring. }
  assert (P1 := Rpower_pos s (a - 1)). assert (P2 := Rpower_pos s (b - 1)). field. lra.
Qed.
Lemma dens_pos l : forall xs, 0 < dens l xs.
Proof. induction l as [|a l IH]; intros [|x xs]; cbn; try lra. apply Rmult_lt_0_compat; [apply Rpower_pos|auto]. Qed.
Lemma dens_int l : l <> [] -> allpos l -> forall s, 0 < s -> simplex_int (length l) (dens l) s (Rpower s (lsum l - 1) * (gprod l / Gam (lsum l))).
Proof.
  induction l as [|a l IH]; intros N H s Hs; [congruence|]. apply allpos_cons in H as [Ha Hl]. destruct l as [|b l].
  - unfold gprod. cbn [length simplex_int dens fold_right]. rewrite Rplus_0_r, Rmult_1_r. assert (K := Gam_pos a Ha). field. lra.
  - set (r := b :: l) in *. assert (Hr := lsum_pos r ltac:(discriminate) Hl). specialize (IH ltac:(discriminate) Hl).
    cbn [length]. change (length r) with (S (length l)). apply sint_SS.
    exists (fun x => Rpower x (a - 1) * (Rpower (s - x) (lsum r - 1) * (gprod r / Gam (lsum r)))). split.
    + intros x Hx. apply (sint_scal (S (length l)) (dens r) (s - x) _ (Rpower x (a - 1))). apply IH. lra.
    + assert (B := beta_scaled a (lsum r) s Ha Hr Hs). apply (gen_scal 0 s _ (gprod r / Gam (lsum r))) in B.
      assert (G1 := Gam_pos _ Hr). assert (G2 := Gam_pos (a + lsum r) ltac:(lra)).
      cbn [fold_right gprod]. change (fold_right (fun a r => Gam a * r) 1 r) with (gprod r).
      replace (Rpower s (a + lsum r - 1) * (Gam a * gprod r / Gam (a + lsum r))) with (gprod r / Gam (lsum r) * (Rpower s (a + lsum r - 1) * (Gam a * Gam (lsum r) / Gam (a + lsum r)))) by (field; lra).
      revert B. apply (is_RInt_gen_inside 0 s); [exact Hs|]. intros x _. ring.
Qed.
(** ** raising one exponent *)
Fixpoint bump (i : nat) (l : list R) : list R := match l, i with [], _ => [] | a :: l, O => a + 1 :: l | a :: l, S i => a :: bump i l end.
Lemma bump_len l : forall i, length (bump i l) = length l.
Proof. induction l; intros [|i]; cbn; auto. Qed.
Lemma bump_pos l : forall i, allpos l -> allpos (bump i l).
Proof.
  induction l as [|a l IH]; intros i H; [destruct i; exact H|]. apply allpos_cons in H as [Ha Hl]. destruct i; cbn; apply allpos_cons; split; auto; lra.
Qed.
Lemma bump_sum l : forall i, (i < length l)%nat -> lsum (bump i l) = lsum l + 1.
Proof. induction l as [|a l IH]; intros i Hi; [cbn in Hi; lia|]. destruct i; cbn in *; [ring|]. rewrite IH by lia. ring. Qed.
Lemma bump_gprod l : forall i, (i < length l)%nat -> allpos l -> gprod (bump i l) = nth i l 0 * gprod l.
Proof.
  induction l as [|a l IH]; intros i Hi H; [cbn in Hi; lia|]. apply allpos_cons in H as [Ha Hl]. destruct i; cbn [length] in Hi.
  - unfold gprod. cbn [fold_right bump nth]. rewrite Gam_rec by auto. ring.
  - unfold gprod in *. cbn [fold_right bump nth]. rewrite IH by (auto; lia). ring.
Qed.
Lemma bump_dens l : forall i xs, (i < length l)%nat -> length xs = length l -> allpos xs -> dens (bump i l) xs = nth i xs 0 * dens l xs.
Proof.
  induction l as [|a l IH]; intros i [|x xs] Hi HL Hx; cbn in *; try lia. apply allpos_cons in Hx as [Hx Hxs]. destruct i.
  - cbn. replace (a + 1 - 1) with (a - 1 + 1) by ring. rewrite Rpower_plus1 by auto. ring.
  - cbn. rewrite IH by (auto; lia). ring.
Qed.
Lemma bump_nth l : forall i j, (i < length l)%nat -> nth j (bump i l) 0 = if Nat.eqb i j then nth j l 0 + 1 else nth j l 0.
Proof. induction l as [|a l IH]; intros i j Hi; [cbn in Hi; lia|]. destruct i, j; cbn in *; auto. apply IH. lia. Qed.

(** ** the code *)
Section Dir.
Context (SP : Special xreal) (HG : loggamma_exact SP) (l : list R) (Hl : l <> []) (Hp : allpos l).
Let d := Dirichlet.new_unchecked (map Fin l).
Let n := length l.
Let a0 := lsum l.
Lemma dir_a0 : 0 < a0. Proof. now apply lsum_pos. Qed.
Lemma lg_val a : 0 < a -> sf_loggamma (Fin a) = Fin (ln (Gam a)).
Proof. intros Ha. destruct (HG a Ha) as (v & E & Hv). rewrite E. now rewrite (Gamma_unique a v (Gam a) Hv (Gam_spec a Ha)). Qed.
Lemma dir_alpha0 : Dirichlet.alpha0 d = Fin a0.
Proof. unfold d, Dirichlet.new_unchecked. cbn [Dirichlet.alpha0]. rewrite (vec_fsum (length l) _ _ (vec_list l)). unfold a0. now rewrite lsum_rsum. Qed.
Lemma lg_fold : forall (k : list R) (z : R), allpos k -> fold_left (fun acc a => fadd acc (sf_loggamma a)) (map Fin k) (Fin z) = Fin (z + ln (gprod k)).
Proof.
  induction k as [|a k IH]; intros z Hk.
  - unfold gprod. cbn [map fold_left fold_right]. rewrite ln_1. f_equal. ring.
  - apply allpos_cons in Hk as [Ha Hk]. cbn [map fold_left]. rewrite lg_val by auto. rewrite x_add, IH by auto. unfold gprod. cbn [fold_right]. fold (gprod k).
    rewrite ln_mult by (auto using Gam_pos, gprod_pos). f_equal. ring.
Qed.
Lemma dir_lnb : Dirichlet.ln_beta_alphas d = Fin (ln (gprod l / Gam a0)).
Proof.
  assert (K := dir_a0). unfold d, Dirichlet.new_unchecked. cbn [Dirichlet.ln_beta_alphas]. rewrite (vec_fsum (length l) _ _ (vec_list l)), <- lsum_rsum. fold a0.
  rewrite lg_val by auto. xs. rewrite lg_fold by auto. f_equal. unfold Rdiv. rewrite ln_mult, ln_Rinv by (auto using Gam_pos, gprod_pos, Rinv_0_lt_compat). ring.
Qed.
Lemma dens_fold : forall k xs (z : R), length xs = length k -> allpos xs ->
  fold_left (fun acc '(x, a) => fadd acc (fmul (fsub a (f_of_Z 1)) (fln x))) (combine (map Fin xs) (map Fin k)) (Fin z) = Fin (z + ln (dens k xs)).
Proof.
  induction k as [|a k IH]; intros [|x xs] z HL Hx; try discriminate.
  - cbn [map combine fold_left dens]. rewrite ln_1. f_equal. ring.
  - injection HL as HL. apply allpos_cons in Hx as [Hx Hxs]. cbn [map combine fold_left dens]. xs. rewrite IH by auto.
    rewrite ln_mult by (auto using Rpower_pos, dens_pos). rewrite ln_Rpower. f_equal. ring.
Qed.
Definition dir_f (xs : list R) : R := Gam a0 / gprod l * dens l xs.
Lemma dir_f_pos xs : 0 < dir_f xs.
Proof. assert (K := dir_a0). assert (K1 := Gam_pos a0 K). assert (K2 := gprod_pos l Hp). assert (K3 := dens_pos l xs). unfold dir_f. pos. Qed.
Lemma dir_pdf xs : length xs = n -> allpos xs -> Dirichlet.log_pdf d (map Fin xs) = Fin (ln (dir_f xs)) /\ Dirichlet.pdf d (map Fin xs) = Fin (dir_f xs).
Proof.
  intros HL Hx. assert (K := dir_a0). assert (K1 := Gam_pos a0 K). assert (K2 := gprod_pos l Hp). assert (K3 := dens_pos l xs).
  assert (E : Dirichlet.log_pdf d (map Fin xs) = Fin (ln (dir_f xs))).
  { unfold Dirichlet.log_pdf. rewrite dir_lnb, x_neg. change (Dirichlet.alphas d) with (map Fin l). rewrite dens_fold by auto. f_equal.
    unfold dir_f. assert (0 < Gam a0 / gprod l) by pos. rewrite (ln_mult (Gam a0 / gprod l)) by auto. unfold Rdiv.
    rewrite !ln_mult, !ln_Rinv by (auto using Rinv_0_lt_compat). ring. }
  split; [exact E|]. unfold Dirichlet.pdf. rewrite E. xs. now rewrite exp_ln by apply dir_f_pos.
Qed.
Lemma dir_val xs : length xs = n -> allpos xs -> val (Dirichlet.pdf d (map Fin xs)) = dir_f xs.
Proof. intros H K. now rewrite (proj2 (dir_pdf xs H K)). Qed.
(** expectations of monomials *)
Lemma dir_E0 : is_simplex_exp n (Dirichlet.pdf d) (fun _ => 1) 1.
Proof.
  assert (K := dir_a0). assert (K1 := Gam_pos a0 K). assert (K2 := gprod_pos l Hp).
  assert (H := sint_scal n _ 1 _ (Gam a0 / gprod l) (dens_int l Hl Hp 1 Rlt_0_1)).
  replace (Gam a0 / gprod l * (Rpower 1 (lsum l - 1) * (gprod l / Gam (lsum l)))) with 1 in H by (rewrite Rpower_0_base; fold a0; field; lra).
  revert H. apply sint_ext; [lra|]. intros xs HL Hx _. rewrite dir_val by auto. unfold dir_f. ring.
Qed.
Lemma bump_nonnil i k : k <> [] -> bump i k <> []. Proof. destruct k, i; cbn; intros; congruence || discriminate. Qed.
Lemma dir_E1 i : (i < n)%nat -> is_simplex_exp n (Dirichlet.pdf d) (fun xs => nth i xs 0) (nth i l 0 / a0).
Proof.
  intros Hi. assert (K := dir_a0). assert (K1 := Gam_pos a0 K). assert (K2 := gprod_pos l Hp).
  assert (H := sint_scal _ _ 1 _ (Gam a0 / gprod l) (dens_int (bump i l) (bump_nonnil i l Hl) (bump_pos l i Hp) 1 Rlt_0_1)).
  rewrite bump_len, Rpower_0_base, bump_sum, bump_gprod in H by auto. fold a0 in H. rewrite Gam_rec in H by auto.
  replace (Gam a0 / gprod l * (1 * (nth i l 0 * gprod l / (a0 * Gam a0)))) with (nth i l 0 / a0) in H by (field; lra).
  revert H. apply sint_ext; [lra|]. intros xs HL Hx _. rewrite dir_val by auto. unfold dir_f. rewrite bump_dens by auto. ring.
Qed.
Lemma dir_E2 i j : (i < n)%nat -> (j < n)%nat ->
  is_simplex_exp n (Dirichlet.pdf d) (fun xs => nth i xs 0 * nth j xs 0) (nth i l 0 * (nth j l 0 + if Nat.eqb i j then 1 else 0) / (a0 * (a0 + 1))).
Proof.
  intros Hi Hj. assert (K := dir_a0). assert (K1 := Gam_pos a0 K). assert (K2 := gprod_pos l Hp).
  assert (Hj' : (j < length (bump i l))%nat) by now rewrite bump_len.
  assert (H := sint_scal _ _ 1 _ (Gam a0 / gprod l) (dens_int (bump j (bump i l)) (bump_nonnil j _ (bump_nonnil i l Hl)) (bump_pos _ j (bump_pos l i Hp)) 1 Rlt_0_1)).
  rewrite (bump_gprod (bump i l) j Hj' (bump_pos l i Hp)), (bump_sum (bump i l) j Hj'), !bump_len, Rpower_0_base, bump_sum, bump_gprod, bump_nth in H by auto. fold a0 in H.
  rewrite !Gam_rec in H by lra.
  match type of H with simplex_int _ _ _ ?v => replace v with (nth i l 0 * (nth j l 0 + if Nat.eqb i j then 1 else 0) / (a0 * (a0 + 1))) in H by (destruct (Nat.eqb i j); field; lra) end.
  revert H. apply sint_ext; [lra|]. intros xs HL Hx _. rewrite dir_val by auto. unfold dir_f.
  rewrite (bump_dens (bump i l)) by (rewrite ?bump_len; auto). rewrite bump_dens by auto. ring.
Qed.
Lemma sexp_lin3 f g h v w z (a b c : R) : is_simplex_exp n (Dirichlet.pdf d) f v -> is_simplex_exp n (Dirichlet.pdf d) g w -> is_simplex_exp n (Dirichlet.pdf d) h z ->
  is_simplex_exp n (Dirichlet.pdf d) (fun xs => a * f xs + (b * g xs + c * h xs)) (a * v + (b * w + c * z)).
Proof.
  intros H1 H2 H3. assert (H := sint_lin n _ _ 1 _ _ a 1 H1 (sint_lin n _ _ 1 _ _ b c H2 H3)). rewrite Rmult_1_l in H. revert H.
  apply sint_ext; [lra|]. intros xs _ _ _. ring.
Qed.
Lemma dir_cov i j : (i < n)%nat -> (j < n)%nat ->
  is_simplex_exp n (Dirichlet.pdf d) (fun xs => (nth i xs 0 - nth i l 0 / a0) * (nth j xs 0 - nth j l 0 / a0))
    (nth i l 0 * ((if Nat.eqb i j then a0 else 0) - nth j l 0) / (a0 * a0 * (a0 + 1))).
Proof.
  intros Hi Hj. assert (K := dir_a0). set (mi := nth i l 0 / a0). set (mj := nth j l 0 / a0).
  assert (H := sexp_lin3 _ _ _ _ _ _ 1 1 (mi * mj) (dir_E2 i j Hi Hj) (sexp_lin3 _ _ _ _ _ _ (- mi) (- mj) 0 (dir_E1 j Hj) (dir_E1 i Hi) dir_E0) dir_E0).
  match type of H with is_simplex_exp _ _ _ ?v => replace v with (nth i l 0 * ((if Nat.eqb i j then a0 else 0) - nth j l 0) / (a0 * a0 * (a0 + 1))) in H by (unfold mi, mj; destruct (Nat.eqb i j); field; lra) end.
  revert H. apply sint_ext; [lra|]. intros xs _ _ _. ring.
Qed.
(** returned moments *)
Lemma dir_mean_val : is_vec n (Dirichlet.mean d) (fun i => nth i l 0 / a0).
Proof.
  assert (K := dir_a0). unfold d, Dirichlet.mean, Dirichlet.new_unchecked. cbn [Dirichlet.alphas_normed]. rewrite (vec_fsum (length l) _ _ (vec_list l)), <- lsum_rsum. fold a0.
  apply (vec_map n _ _ (fun i => nth i l 0)); [apply vec_list|]. intros i Hi. xs. reflexivity.
Qed.
Lemma dir_norm_val : Dirichlet.norm d = Fin (a0 * a0 * (a0 + 1)).
Proof. unfold Dirichlet.norm. rewrite dir_alpha0. xs. reflexivity. Qed.
Lemma dir_var_val : is_vec n (Dirichlet.variance d) (fun i => nth i l 0 * (a0 - nth i l 0) / (a0 * a0 * (a0 + 1))).
Proof.
  assert (K := dir_a0). assert (0 < a0 * a0 * (a0 + 1)) by pos. unfold Dirichlet.variance. apply (vec_map n _ _ (fun i => nth i l 0)); [apply vec_list|]. intros i Hi.
  rewrite dir_norm_val, dir_alpha0. xs. f_equal. field. lra.
Qed.
Lemma dir_cov_val : is_mat n (Dirichlet.covariance d) (fun i j => nth i l 0 * ((if Nat.eqb i j then a0 else 0) - nth j l 0) / (a0 * a0 * (a0 + 1))).
Proof.
  assert (K := dir_a0). assert (0 < a0 * a0 * (a0 + 1)) by pos. unfold Dirichlet.covariance. change (Dirichlet.alphas d) with (map Fin l). rewrite map_length. fold n.
  apply mat_mtab. intros i j Hi Hj. rewrite dir_norm_val, dir_alpha0. rewrite !(vec_vget n _ _ _ (vec_list l)) by auto.
  destruct (Nat.eqb_spec i j) as [->|N]; xs; f_equal; field; lra.
Qed.
(** modes *)
Lemma lsum_map_sub k : lsum (map (fun a => a - 1) k) = lsum k - INR (length k).
Proof. induction k as [|a k IH]; cbn [map fold_right length]; [cbn; ring|]. rewrite S_INR, IH. ring. Qed.
Lemma gibbs : forall k xs c, 0 < c -> length xs = length k -> allpos xs -> (forall a, In a k -> 1 < a) ->
  ln (dens k xs) <= ln (dens k (map (fun a => (a - 1) / c) k)) + c * lsum xs - (lsum (map (fun a => a - 1) k)).
Proof.
  induction k as [|a k IH]; intros [|x xs] c Hc HL Hx Hk; try discriminate.
  - cbn. lra.
  - injection HL as HL. apply allpos_cons in Hx as [Hx Hxs]. assert (Ha := Hk a ltac:(now left)).
    specialize (IH xs c Hc HL Hxs ltac:(intros; apply Hk; now right)). cbn [dens map fold_right].
    rewrite !ln_mult by (auto using Rpower_pos, dens_pos). rewrite !ln_Rpower.
    set (y := (a - 1) / c). assert (Hy : 0 < y) by (unfold y; assert (0 < a - 1) by lra; pos).
    assert (L := ln_le_sub1 (x / y) ltac:(pos)). assert (E : ln (x / y) = ln x - ln y) by (unfold Rdiv; rewrite ln_mult, ln_Rinv by (auto; now apply Rinv_0_lt_compat); ring). rewrite E in L.
    assert (L2 : (a - 1) * (ln x - ln y) <= (a - 1) * (x / y - 1)) by (apply Rmult_le_compat_l; lra).
    replace ((a - 1) * (x / y - 1)) with (c * x - (a - 1)) in L2 by (unfold y; field; lra). lra.
Qed.
Lemma dir_modes : (forall a, In a l -> 1 < a) -> let w := map (fun a => (a - 1) / (a0 - INR n)) l in
  Dirichlet.modes d = [map Fin w] /\ on_simplex n w /\ forall xs, on_simplex n xs -> dir_f xs <= dir_f w.
Proof.
  intros H1 w. assert (Hs : lsum (map (fun a => a - 1) l) = a0 - INR n) by apply lsum_map_sub.
  assert (Hc : 0 < a0 - INR n). { rewrite <- Hs. apply lsum_pos; [destruct l; [congruence|discriminate]|]. intros x Hx. apply in_map_iff in Hx as (a & <- & Ha). generalize (H1 a Ha). lra. }
  assert (Hw : allpos w). { intros x Hx. apply in_map_iff in Hx as (a & <- & Ha). assert (0 < a - 1) by (generalize (H1 a Ha); lra). pos. }
  assert (Hws : lsum w = 1).
  { unfold w. assert (G : forall k c, c <> 0 -> lsum (map (fun a => (a - 1) / c) k) = lsum (map (fun a => a - 1) k) / c).
    { induction k as [|a k IH]; intros c Hc0; cbn [map fold_right]; [field; auto|]. rewrite IH by auto. field. auto. } rewrite G, Hs by lra. field. lra. }
  split; [|split].
  - unfold Dirichlet.modes. change (Dirichlet.alphas d) with (map Fin l). rewrite map_length, dir_alpha0. fold n. f_equal. unfold w. rewrite !map_map. apply map_ext_in. intros a Ha.
    xs. rewrite <- INR_IZR_INZ. rewrite x_div by lra. reflexivity.
  - split; [unfold w; apply map_length|]. split; [exact Hw|exact Hws].
  - intros xs (HL & Hx & Hxs). assert (K := dir_a0). assert (K1 := Gam_pos a0 K). assert (K2 := gprod_pos l Hp). unfold dir_f. apply Rmult_le_compat_l; [left; pos|].
    assert (G := gibbs l xs (a0 - INR n) Hc HL Hx H1). fold w in G. rewrite Hxs, Hs in G.
    rewrite <- (exp_ln (dens l xs)), <- (exp_ln (dens l w)) by apply dens_pos. apply exp_le_mono. lra.
Qed.
(** sampling *)
Lemma dir_gd {G} {RG : Rng G xreal} g k gs g' : gamma_draws g k gs g' -> allpos k -> forall z,
  Dirichlet.gamma_draws (Fin z) (map Fin k) g = Ret ((Fin (z + lsum k), map Fin gs), g').
Proof.
  induction 1 as [|g a al z1 g1 zs g2 E H IH]; intros Hk z.
  - cbn. do 3 f_equal. f_equal. ring.
  - apply allpos_cons in Hk as [Ha Hk]. cbn [map Dirichlet.gamma_draws]. rewrite x_lit, x_ltb. destruct (Rltb_spec 0 a); [|lra]. rewrite x_lit, E. rewrite x_add, IH by auto.
    cbn [rbind]. cbn [fold_right]. do 4 f_equal. ring.
Qed.
Lemma dir_sample {G} {RG : Rng G xreal} g gs g' : gamma_draws g l gs g' -> Dirichlet.sample d g = Ret (map (fun z => Fin (z / a0)) gs, g').
Proof.
  intros H. unfold Dirichlet.sample. change (Dirichlet.alphas d) with (map Fin l). rewrite x_lit. rewrite (dir_gd g l gs g' H Hp 0). cbn [rbind]. f_equal. f_equal.
  rewrite map_map. apply map_ext. intros z. assert (K := dir_a0). rewrite Rplus_0_l. fold a0. now rewrite x_div by lra.
Qed.
End Dir.
