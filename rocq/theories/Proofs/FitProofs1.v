(** * Log-likelihood and score: Bernoulli, Poisson, Normal, PairedNormal *)
From Coq Require Import Reals Lra Lia Psatz Arith ZArith List Bool.
From Coquelicot Require Import Coquelicot.
From Verif.Num Require Import Scalar XReal.
From Verif.Model Require Import Rust Constraints Probability Params Consts Traits LogFact Discrete Continuous2 Normal2.
From Verif.Spec Require Import DistSpec DiscreteSpec SampleSpec FitSpec.
From Verif.Proofs Require Import ConstraintProofs NewInv XTac Calc Calc2 Gauss Gauss2 ContProofs8 ContProofs9 ContProofs15 ContProofs25 Normal2Proofs Stirling LogTable LogFactUse DiscProofs3 DiscProofs4.
Import ListNotations.
Open Scope R_scope.

(** ** sums over samples *)
Section Sums.
Context {X : Type}.
Implicit Types (f g : X -> R) (l : list X).
Lemma lsum_ext f g l : (forall x, In x l -> f x = g x) -> lsum f l = lsum g l.
Proof. induction l as [|x l IH]; intros H; [reflexivity|]. cbn. rewrite H, IH; auto; [intros; apply H; now right|now left]. Qed.
Lemma lsum_plus f g l : lsum (fun x => f x + g x) l = lsum f l + lsum g l.
Proof. induction l as [|x l IH]; cbn; [ring|]. rewrite IH; ring. Qed.
Lemma lsum_minus f g l : lsum (fun x => f x - g x) l = lsum f l - lsum g l.
Proof. induction l as [|x l IH]; cbn; [ring|]. rewrite IH; ring. Qed.
Lemma lsum_scal c f l : lsum (fun x => c * f x) l = c * lsum f l.
Proof. induction l as [|x l IH]; cbn; [ring|]. rewrite IH; ring. Qed.
Lemma lsum_const c l : lsum (fun _ => c) l = INR (length l) * c.
Proof. induction l as [|x l IH]; [cbn; ring|]. cbn [lsum length]. rewrite IH, S_INR; ring. Qed.
Lemma lsum_nonneg f l : (forall x, In x l -> 0 <= f x) -> 0 <= lsum f l.
Proof. induction l as [|x l IH]; intros H; cbn; [lra|]. assert (0 <= f x) by (apply H; now left). assert (0 <= lsum f l) by (apply IH; intros; apply H; now right). lra. Qed.
Lemma lsum_zero f l : (forall x, In x l -> 0 <= f x) -> lsum f l = 0 -> forall x, In x l -> f x = 0.
Proof.
  induction l as [|y l IH]; intros H E x Hx; [contradiction|]. cbn in E. assert (0 <= f y) by (apply H; now left).
  assert (0 <= lsum f l) by (apply lsum_nonneg; intros; apply H; now right). destruct Hx as [<-|Hx]; [lra|]. apply IH; auto; [intros; apply H; now right|lra].
Qed.
Lemma lsum_le f g l : (forall x, In x l -> f x <= g x) -> lsum f l <= lsum g l.
Proof. intros H. assert (K : 0 <= lsum (fun x => g x - f x) l) by (apply lsum_nonneg; intros x Hx; specialize (H x Hx); lra). rewrite lsum_minus in K. lra. Qed.
Lemma lprod_pos f l : (forall x, In x l -> 0 < f x) -> 0 < lprod f l.
Proof. induction l as [|x l IH]; intros H; cbn; [lra|]. apply Rmult_lt_0_compat; [apply H; now left|apply IH; intros; apply H; now right]. Qed.
Lemma ln_lprod f l : (forall x, In x l -> 0 < f x) -> ln (lprod f l) = lsum (fun x => ln (f x)) l.
Proof. induction l as [|x l IH]; intros H; cbn; [apply ln_1|]. rewrite ln_mult, IH; auto; [intros; apply H; now right|apply H; now left|apply lprod_pos; intros; apply H; now right]. Qed.
Lemma fold_fin {Y} (h : Y -> xreal) (f : Y -> R) (l : list Y) : (forall x, In x l -> h x = Fin (f x)) -> forall a, fold_left fadd (map h l) (Fin a) = Fin (a + lsum f l).
Proof.
  induction l as [|x l IH]; intros H a; cbn [map fold_left lsum]; [f_equal; ring|].
  rewrite (H x) by now left. rewrite x_add, IH by (intros; apply H; now right). f_equal; ring.
Qed.
Lemma fsum_fin_map {Y} (h : Y -> xreal) (f : Y -> R) (l : list Y) : (forall x, In x l -> h x = Fin (f x)) -> fsum (map h l) = Fin (lsum f l).
Proof. intros H. unfold fsum. rewrite x_lit, (fold_fin h f l H). f_equal. ring. Qed.
Lemma lsum_derive (f : R -> X -> R) (g : X -> R) t l : (forall x, In x l -> is_derive (fun t => f t x) t (g x)) -> is_derive (fun t => lsum (f t) l) t (lsum g l).
Proof.
  induction l as [|x l IH]; intros H; cbn [lsum]; [apply is_derive_Reals, derivable_pt_lim_const|].
  apply (is_derive_plus (fun t => f t x) (fun t => lsum (f t) l)); [apply H; now left|apply IH; intros; apply H; now right].
Qed.
Lemma score_intro (p : R -> X -> R) (g : X -> R) t l : (forall x, In x l -> is_derive (fun t => ln (p t x)) t (g x)) -> is_score p t l (lsum g l).
Proof. intros H. unfold is_score, log_lik. apply (lsum_derive (fun t x => ln (p t x))). exact H. Qed.
Lemma score_unique (p : R -> X -> R) t l a b : is_score p t l a -> is_score p t l b -> a = b.
Proof. intros A B. apply is_derive_unique in A, B. congruence. Qed.
End Sums.
Lemma lsum_map {X Y} (h : Y -> X) (f : X -> R) l : lsum f (map h l) = lsum (fun y => f (h y)) l.
Proof. induction l as [|y l IH]; [reflexivity|]. cbn. now rewrite IH. Qed.

(** ** Bernoulli *)
Definition bmass (p : R) (b : bool) : R := bernoulli_law p (if b then 1 else 0).
Lemma ber_log_pmf p b : 0 < bmass p b -> Bernoulli.log_pmf (ber p) b = Fin (ln (bmass p b)).
Proof. intros H. unfold Bernoulli.log_pmf, p_ln. rewrite ber_pmf. fold (bmass p b). now rewrite x_ln. Qed.
Lemma ber_log_pmf_0 p b : bmass p b = 0 -> Bernoulli.log_pmf (ber p) b = NInf.
Proof. intros H. unfold Bernoulli.log_pmf, p_ln. rewrite ber_pmf. fold (bmass p b). rewrite H. apply x_ln_0. Qed.
Lemma bmass_nonneg p b : 0 <= p <= 1 -> 0 <= bmass p b. Proof. intros; destruct b; cbn; lra. Qed.
Lemma fold_ninf (h : bool -> xreal) l : (forall x, In x l -> h x = NInf \/ exists v, h x = Fin v) -> fold_left fadd (map h l) NInf = NInf.
Proof. induction l as [|x l IH]; intros H; [reflexivity|]. cbn [map fold_left]. destruct (H x) as [E|[v E]]; [now left| |]; rewrite E; apply IH; intros; apply H; now right. Qed.
Lemma ber_ll p xs : 0 <= p <= 1 -> Bernoulli.log_likelihood (ber p) xs = fln (Fin (lik (bmass p) xs)).
Proof.
  intros Hp. unfold Bernoulli.log_likelihood, fsum. rewrite x_lit.
  assert (K : forall l a, fold_left fadd (map (Bernoulli.log_pmf (ber p)) l) (Fin a) = fadd (Fin a) (fln (Fin (lprod (bmass p) l)))).
  { induction l as [|x l IH]; intros a.
    - cbn [map fold_left lprod]. rewrite x_ln, ln_1, x_add by lra. f_equal; ring.
    - cbn [map fold_left lprod]. assert (B := bmass_nonneg p x Hp). destruct (Rle_lt_or_eq_dec _ _ B) as [P|P].
      + rewrite ber_log_pmf, x_add by auto. rewrite IH. assert (PB : 0 <= lprod (bmass p) l). { clear IH. induction l as [|y l IH]; cbn; [lra|]. apply Rmult_le_pos; [now apply bmass_nonneg|auto]. }
        destruct (Rle_lt_or_eq_dec _ _ PB) as [Q|Q].
        * rewrite !x_ln, !x_add, ln_mult by (auto using Rmult_lt_0_compat). f_equal; ring.
        * rewrite <- Q, Rmult_0_r, x_ln_0. reflexivity.
      + rewrite ber_log_pmf_0 by auto. rewrite <- P, Rmult_0_l, x_ln_0. cbn [fadd XReal.xadd]. apply fold_ninf.
        intros y _. assert (By := bmass_nonneg p y Hp). destruct (Rle_lt_or_eq_dec _ _ By); [right; eexists; now apply ber_log_pmf|left; now apply ber_log_pmf_0]. }
  rewrite K. fold (lik (bmass p) xs). unfold fadd, fln. cbn -[ln lik]. unfold xln, xadd. destruct (Rlt_dec 0 (lik (bmass p) xs)); [f_equal; ring|]. destruct (Req_EM_T _ _); reflexivity.
Qed.
Definition nfalse (xs : list bool) : nat := length (filter negb xs).
Lemma nfalse_0 xs : nfalse xs = 0%nat <-> ~ In false xs.
Proof. unfold nfalse. induction xs as [|[|] xs IH]; cbn; [tauto| |]; [rewrite IH; intuition congruence|]. split; [lia|intros H; exfalso; auto]. Qed.
Lemma ber_score_val p xs : 0 < p < 1 -> Bernoulli.score (ber p) xs = Fin (lsum (fun b => / bmass p b) xs).
Proof.
  intros Hp. unfold Bernoulli.score. apply fsum_fin_map. intros b _. rewrite ber_pmf. fold (bmass p b). assert (0 < bmass p b) by (destruct b; cbn; lra). xs. f_equal. unfold Rdiv. ring.
Qed.
Lemma ber_score_true p xs : 0 < p < 1 -> is_score bmass p xs (lsum (fun b : bool => (if b then 1 else -1) / bmass p b) xs).
Proof. intros Hp. apply score_intro. intros [|] _; cbn; (auto_derive; [lra|field; lra]). Qed.
Lemma ber_score_diff p xs : 0 < p < 1 -> lsum (fun b => / bmass p b) xs - lsum (fun b : bool => (if b then 1 else -1) / bmass p b) xs = INR (nfalse xs) * (2 / (1 - p)).
Proof.
  intros Hp. unfold nfalse. induction xs as [|[|] xs IH]; [cbn; lra| |]; cbn [lsum filter negb length bmass bernoulli_law].
  - fold (bmass p) in *. unfold bmass, bernoulli_law in *. lra.
  - rewrite S_INR. unfold bmass, bernoulli_law in *. replace ((INR (length (filter negb xs)) + 1) * (2 / (1 - p))) with (INR (length (filter negb xs)) * (2 / (1 - p)) + 2 * / (1 - p)) by (field; lra). rewrite <- IH. unfold Rdiv. ring.
Qed.

(** ** Poisson *)
Lemma rmap_list_fin (h : Z -> res xreal) (f : nat -> R) (l : list nat) : (forall k, In k l -> h (Z.of_nat k) = Ret (Fin (f k))) ->
  Poisson.rmap_list h (map Z.of_nat l) = Ret (map (fun k => Fin (f k)) l).
Proof.
  induction l as [|k l IH]; intros H; [reflexivity|]. cbn [map Poisson.rmap_list]. rewrite (H k) by now left. cbn [rbind]. rewrite IH by (intros; apply H; now right). reflexivity.
Qed.
Lemma poi_ll_with lf (g : nat -> R) l xs : 0 < l -> (forall k, In k xs -> lf (Z.of_nat k) = Ret (Fin (g k))) ->
  Poisson.log_likelihood_with lf (poi l) (map Z.of_nat xs) = Ret (Fin (lsum (fun k => INR k * ln l - l - g k) xs)).
Proof.
  intros Hl H. unfold Poisson.log_likelihood_with, poi; cbn [Poisson.new_unchecked Poisson.pr Poisson.lambda]. cbv zeta.
  rewrite (rmap_list_fin _ (fun k => ln l * INR k - g k)).
  - cbn [rbind]. rewrite (fsum_fin_map _ (fun k => ln l * INR k - g k)) by auto. xs. do 2 f_equal. rewrite map_length, <- INR_IZR_INZ.
    rewrite (lsum_ext (fun k => INR k * ln l - l - g k) (fun k => (ln l * INR k - g k) - l)) by (intros; ring). rewrite (lsum_minus _ (fun _ => l)), lsum_const. ring.
  - intros k Hk. rewrite H by auto. cbn [rbind]. xs. now rewrite <- INR_IZR_INZ.
Qed.
Lemma poi_log_lik l xs : 0 < l -> log_lik (poisson_law l) xs = lsum (fun k => INR k * ln l - l - ln (INR (fact k))) xs.
Proof. intros Hl. apply lsum_ext. intros; now apply ln_plaw. Qed.
Lemma poi_ll_close l xs : 0 < l -> (forall k, In k xs -> (Z.of_nat k < 2 ^ 64 - 1)%Z) -> exists v, Poisson.log_likelihood (poi l) (map Z.of_nat xs) = Ret (Fin v) /\
  Rabs (v - log_lik (poisson_law l) xs) <= INR (length xs) * (2 / 10 ^ 10).
Proof.
  intros Hl H. rewrite poi_log_lik by auto.
  set (g := fun k => match log_factorial_stirling (F := xreal) (Z.of_nat k) with Ret (Fin v) => v | _ => 0 end).
  assert (G : forall k, In k xs -> log_factorial_stirling (F := xreal) (Z.of_nat k) = Ret (Fin (g k)) /\ Rabs (g k - ln (INR (fact k))) <= 2 / 10 ^ 10).
  { intros k Hk. destruct (lf_close k (H k Hk)) as (v & E & B). unfold g. rewrite E. auto. }
  exists (lsum (fun k => INR k * ln l - l - g k) xs). split; [apply poi_ll_with; auto; intros; now apply G|]. rewrite <- lsum_minus.
  clear H. clearbody g. induction xs as [|k xs IH]; [cbn; rewrite Rabs_R0; lra|]. cbn [lsum]. eapply Rle_trans; [apply Rabs_triang|]. cbn [length]. rewrite S_INR.
  assert (B : Rabs (INR k * ln l - l - g k - (INR k * ln l - l - ln (INR (fact k)))) <= 2 / 10 ^ 10).
  { replace (_ - _) with (- (g k - ln (INR (fact k)))) by ring. rewrite Rabs_Ropp. apply G. now left. }
  specialize (IH ltac:(intros; apply G; now right)). lra.
Qed.
Definition nsum (xs : list nat) : nat := fold_right Nat.add 0%nat xs.
Lemma sum_u64_ok xs : forall a, (0 <= a)%Z -> (a + Z.of_nat (nsum xs) <= U64_MAX)%Z -> Poisson.sum_u64 a (map Z.of_nat xs) = Ret (a + Z.of_nat (nsum xs))%Z.
Proof.
  induction xs as [|x xs IH]; intros a Ha H; cbn [map Poisson.sum_u64 nsum fold_right].
  - f_equal; cbn; lia.
  - cbn [nsum fold_right] in H. fold (nsum xs) in *. unfold u64, checked. replace (_ && _)%bool with true by (symmetry; apply andb_true_iff; split; apply Z.leb_le; lia). cbn [rbind]. rewrite IH by lia. f_equal. lia.
Qed.
Lemma sum_u64_over xs : forall a, (0 <= a)%Z -> (U64_MAX < a + Z.of_nat (nsum xs))%Z -> (a <= U64_MAX)%Z -> Poisson.sum_u64 a (map Z.of_nat xs) = Panic.
Proof.
  induction xs as [|x xs IH]; intros a Ha H Hu; cbn [map Poisson.sum_u64 nsum fold_right] in *; [lia|].
  fold (nsum xs) in *. unfold u64, checked. destruct (_ && _)%bool eqn:E; [|reflexivity]. apply andb_true_iff in E as [E1 E2]. apply Z.leb_le in E1, E2. cbn [rbind]. apply IH; lia.
Qed.
Lemma lsum_INR xs : lsum INR xs = INR (nsum xs).
Proof. induction xs as [|x xs IH]; [reflexivity|]. cbn [lsum nsum fold_right]. fold (nsum xs). now rewrite plus_INR, IH. Qed.
Lemma poi_score_val l xs : 0 < l -> (Z.of_nat (nsum xs) <= U64_MAX)%Z -> Poisson.score (poi l) (map Z.of_nat xs) = Ret (Fin (INR (length xs) + INR (nsum xs) / l)).
Proof.
  intros Hl H. unfold Poisson.score, poi; cbn [Poisson.new_unchecked Poisson.pr Poisson.lambda]. rewrite sum_u64_ok by lia. cbn [rbind]. rewrite Z.add_0_l. xs. now rewrite map_length, <- !INR_IZR_INZ.
Qed.
Lemma poi_score_true l xs : 0 < l -> is_score poisson_law l xs (INR (nsum xs) / l - INR (length xs)).
Proof.
  intros Hl. replace (INR (nsum xs) / l - INR (length xs)) with (lsum (fun k => / l * INR k - 1) xs).
  - apply score_intro. intros k _. apply (is_derive_ext_loc (fun l => INR k * ln l - l - ln (INR (fact k)))).
    + exists (mkposreal l Hl). intros y Hy. symmetry. apply ln_plaw. unfold ball in Hy; cbn in Hy; unfold AbsRing_ball, abs, minus, plus, opp in Hy; cbn in Hy; apply Rabs_def2 in Hy; lra.
    + auto_derive; [lra|]. field. lra.
  - rewrite (lsum_minus (fun k => / l * INR k) (fun _ => 1)), lsum_const, (lsum_scal (/ l) INR), lsum_INR. field. lra.
Qed.

(** ** univariate Normal *)
Section Normal.
Context (m S : R) (HS : 0 < S).
Notation d := (UvNormal.new_unchecked (Fin m) (Fin S)).
Lemma un_ln_pdf x : ln (rf (UvNormal.pdf d) x) = - (ln (2 * PI) + ln S) / 2 - (x - m) * (x - m) / (2 * S).
Proof.
  assert (P := PI_RGT_0). assert (Hs := sqrt_lt_R0 S HS). assert (Q := sqrt_sqrt S ltac:(lra)). unfold rf. rewrite un_pdf by auto. cbn [val]. unfold phi.
  assert (K := sqrt2PI_pos). unfold Rdiv at 1. rewrite ln_mult, ln_Rinv by (auto; unfold phi; pos). unfold Rdiv at 1. rewrite ln_mult, ln_exp, ln_Rinv by pos.
  rewrite (ln_sqrt' (2 * PI)), (ln_sqrt' S) by lra. replace ((x - m) / sqrt S * ((x - m) / sqrt S)) with ((x - m) * (x - m) / S); [field; lra|]. rewrite <- Q at 1. field. lra.
Qed.
Definition ssq (m : R) (xs : list R) : R := lsum (fun x => (x - m) * (x - m)) xs.
Lemma un_log_lik xs : log_lik (rf (UvNormal.pdf d)) xs = - INR (length xs) / 2 * (ln (2 * PI) + ln S) - ssq m xs / (2 * S).
Proof.
  unfold log_lik. rewrite (lsum_ext _ (fun x => - (ln (2 * PI) + ln S) / 2 - / (2 * S) * ((x - m) * (x - m)))).
  - rewrite (lsum_minus (fun _ => _)), lsum_const, lsum_scal. unfold ssq. field. lra.
  - intros x _. rewrite un_ln_pdf. field. lra.
Qed.
Lemma un_ll xs : UvNormal.log_likelihood d (map Fin xs) = Fin (- INR (length xs) / 4 * (ln (2 * PI) + ln S) - ssq m xs / (2 * S)).
Proof.
  assert (P := PI_RGT_0). unfold UvNormal.log_likelihood, PI_2; cbn [UvNormal.pr UvNormal.new_unchecked]. cbv zeta. rewrite map_map, (fsum_fin_map _ (fun x => (x - m) * (x - m) / 2 / S)).
  - xs. f_equal. rewrite map_length, <- INR_IZR_INZ, (Rmult_comm PI 2). unfold ssq. rewrite (lsum_ext _ (fun x => / (2 * S) * ((x - m) * (x - m)))) by (intros; field; lra). rewrite lsum_scal. field. lra.
  - intros x _. xs. reflexivity.
Qed.
Lemma score_fold xs : forall a b, fold_left (fun '(s, ss) x => let d := (x - Fin m)%rs in ((s + d)%rs, (ss + d * d)%rs)) (map Fin xs) (Fin a, Fin b)
  = (Fin (a + lsum (fun x => x - m) xs), Fin (b + ssq m xs)).
Proof.
  induction xs as [|x xs IH]; intros a b; cbn [map fold_left lsum ssq]; [unfold ssq; cbn; do 2 f_equal; ring|]. cbv zeta. xs. rewrite IH. unfold ssq; cbn [lsum]. do 2 f_equal; ring.
Qed.
Lemma un_score xs : UvNormal.score d (map Fin xs) = UvNormal.mkG (Fin (lsum (fun x => x - m) xs / S)) (Fin ((ssq m xs / S - INR (length xs)) / sqrt S)).
Proof.
  assert (Hs := sqrt_lt_R0 S HS). unfold UvNormal.score; cbn [UvNormal.pr UvNormal.new_unchecked]. cbv zeta. rewrite x_lit. rewrite score_fold. rewrite map_length, !Rplus_0_l. xs. now rewrite <- INR_IZR_INZ.
Qed.
End Normal.
Lemma near_pos (s : R) : 0 < s -> locally s (fun y => 0 < y).
Proof. intros Hs. exists (mkposreal s Hs). intros y Hy. unfold ball in Hy; cbn in Hy; unfold AbsRing_ball, abs, minus, plus, opp in Hy; cbn in Hy. apply Rabs_def2 in Hy. lra. Qed.
Notation npdf m S := (rf (UvNormal.pdf (UvNormal.new_unchecked (Fin m) (Fin S)))).
Lemma un_score_mu m S xs : 0 < S -> is_score (fun t => npdf t S) m xs (lsum (fun x => x - m) xs / S).
Proof.
  intros HS. replace (lsum (fun x => x - m) xs / S) with (lsum (fun x => / S * (x - m)) xs) by (rewrite lsum_scal; field; lra).
  apply score_intro. intros x _. eapply is_derive_ext; [intros t; symmetry; apply (un_ln_pdf t S HS x)|]. auto_derive; [lra|field; lra].
Qed.
Lemma un_score_S m S xs : 0 < S -> is_score (fun t => npdf m t) S xs ((ssq m xs / S - INR (length xs)) / (2 * S)).
Proof.
  intros HS. replace ((ssq m xs / S - INR (length xs)) / (2 * S)) with (lsum (fun x => / (2 * S * S) * ((x - m) * (x - m)) - / (2 * S)) xs).
  - apply score_intro. intros x _. apply (is_derive_ext_loc (fun t => - (ln (2 * PI) + ln t) / 2 - (x - m) * (x - m) / (2 * t))).
    + generalize (near_pos S HS). apply filter_imp. intros t Ht. symmetry. now apply (un_ln_pdf m t Ht x).
    + auto_derive; [lra|field; lra].
  - rewrite (lsum_minus (fun x => / (2 * S * S) * ((x - m) * (x - m))) (fun _ => / (2 * S))), lsum_scal, lsum_const. fold (ssq m xs). field. lra.
Qed.
Lemma un_score_sd m S xs : 0 < S -> is_score (fun t => npdf m (t * t)) (sqrt S) xs ((ssq m xs / S - INR (length xs)) / sqrt S).
Proof.
  intros HS. assert (Hs := sqrt_lt_R0 S HS). assert (Q := sqrt_sqrt S ltac:(lra)). set (s := sqrt S) in *. rewrite <- Q.
  replace ((ssq m xs / (s * s) - INR (length xs)) / s) with (lsum (fun x => / (s * s * s) * ((x - m) * (x - m)) - / s) xs).
  - apply score_intro. intros x _. apply (is_derive_ext_loc (fun t => - (ln (2 * PI) + ln (t * t)) / 2 - (x - m) * (x - m) / (2 * (t * t)))).
    + generalize (near_pos s Hs). apply filter_imp. intros t Ht. symmetry. apply (un_ln_pdf m (t * t) ltac:(nra) x).
    + assert (0 < s * s) by nra. auto_derive; [repeat split; nra|field; lra].
  - rewrite (lsum_minus (fun x => / (s * s * s) * ((x - m) * (x - m))) (fun _ => / s)), lsum_scal, lsum_const. fold (ssq m xs). field. lra.
Qed.

(** ** PairedNormal *)
Definition xpair (x : R * R) : xreal * xreal := (Fin (fst x), Fin (snd x)).
Section Paired.
Context (m0 m1 a b : R) (Ha : 0 < a) (Hb : 0 < b).
Notation d := (PairedNormal.new_unchecked (Fin m0, Fin m1) (Fin a, Fin b)).
Notation zp x := ((fst x - m0) * (fst x - m0) / a + (snd x - m1) * (snd x - m1) / b).
Lemma ln_nd (m s t : R) : 0 < s -> ln (normal_density m s t) = - ln (2 * PI) / 2 - ln s - (t - m) * (t - m) / (2 * (s * s)).
Proof.
  intros Hs. assert (P := PI_RGT_0). unfold normal_density. assert (0 < sqrt (2 * PI)) by pos. rewrite ln_mult, ln_exp, ln_Rinv, ln_mult, ln_sqrt' by pos. field. lra.
Qed.
Lemma pn_ln_pdf x : ln (val (PairedNormal.pdf d (xpair x))) = - (ln (a * b) + 2 * ln (2 * PI)) / 2 - zp x / 2.
Proof.
  assert (P := PI_RGT_0). assert (K1 := sqrt_lt_R0 a Ha). assert (K2 := sqrt_lt_R0 b Hb). unfold xpair. rewrite pn_pdf by auto. cbn [val].
  assert (N : forall m s t, 0 < s -> 0 < normal_density m s t) by (intros; unfold normal_density; pos).
  rewrite ln_mult, !ln_nd, !ln_sqrt', (ln_mult a b), !sqrt_sqrt by (auto; lra). field. lra.
Qed.
Lemma pn_log_lik xs : log_lik (fun x => val (PairedNormal.pdf d (xpair x))) xs = - INR (length xs) / 2 * (ln (a * b) + 2 * ln (2 * PI)) - lsum (fun x => zp x) xs / 2.
Proof.
  unfold log_lik. rewrite (lsum_ext _ (fun x => - (ln (a * b) + 2 * ln (2 * PI)) / 2 - / 2 * zp x)).
  - rewrite (lsum_minus (fun _ => _)), lsum_const, (lsum_scal (/ 2) (fun x => zp x)). field.
  - intros x _. rewrite pn_ln_pdf. field. lra.
Qed.
Lemma pn_ll xs : PairedNormal.log_likelihood d (map xpair xs) = Fin (- INR (length xs) / 2 * (ln (a * b) + 2 * ln (2 * PI) + lsum (fun x => zp x) xs)).
Proof.
  assert (P := PI_RGT_0). unfold PairedNormal.log_likelihood, PI_2; cbn [PairedNormal.pr PairedNormal.new_unchecked fst snd]. cbv zeta. rewrite map_map, (fsum_fin_map _ (fun x => zp x)).
  - xs. f_equal. rewrite map_length, <- INR_IZR_INZ, (Rmult_comm PI 2). field.
  - intros x _. cbn [xpair fst snd]. xs. reflexivity.
Qed.
Lemma zp_nonneg x : 0 <= zp x.
Proof. assert (0 < / a) by pos. assert (0 < / b) by pos. unfold Rdiv. assert (0 <= (fst x - m0) * (fst x - m0)) by apply Rle_0_sqr. assert (0 <= (snd x - m1) * (snd x - m1)) by apply Rle_0_sqr. apply Rplus_le_le_0_compat; apply Rmult_le_pos; lra. Qed.
Lemma zp_zero x : zp x = 0 -> x = (m0, m1).
Proof.
  intros H. assert (0 < / a) by pos. assert (0 < / b) by pos. unfold Rdiv in H. assert (0 <= (fst x - m0) * (fst x - m0)) by apply Rle_0_sqr. assert (0 <= (snd x - m1) * (snd x - m1)) by apply Rle_0_sqr.
  assert (E1 : (fst x - m0) * (fst x - m0) = 0) by nra. assert (E2 : (snd x - m1) * (snd x - m1) = 0) by nra.
  destruct x as [u v]; cbn [fst snd] in *. f_equal; nra.
Qed.
Lemma pn_ll_iff xs : - INR (length xs) / 2 * (ln (a * b) + 2 * ln (2 * PI) + lsum (fun x => zp x) xs) = - INR (length xs) / 2 * (ln (a * b) + 2 * ln (2 * PI)) - lsum (fun x => zp x) xs / 2
  <-> length xs = 1%nat \/ forall x, In x xs -> x = (m0, m1).
Proof.
  split.
  - intros H. destruct (Nat.eq_dec (length xs) 1) as [E|N]; [now left|right]. assert (E : (INR (length xs) - 1) * lsum (fun x => zp x) xs = 0) by lra.
    assert (INR (length xs) - 1 <> 0). { intros E'. apply N. apply INR_eq. cbn. lra. }
    apply Rmult_integral in E as [E|E]; [lra|]. intros x Hx. apply zp_zero. apply (lsum_zero (fun x => zp x) xs); auto. intros; apply zp_nonneg.
  - intros [E|E]; [rewrite E; cbn [INR]; lra|]. rewrite (lsum_ext (fun x => zp x) (fun _ => 0)); [rewrite lsum_const; lra|]. intros x Hx. rewrite (E x Hx). cbn [fst snd]. field. lra.
Qed.
Lemma pscore_fold xs : forall s t u v, fold_left (fun '(s, ss) x => let d := (fst x - Fin m0, snd x - Fin m1)%rs in
      ((fst s + fst d, snd s + snd d), (fst ss + fst d * fst d, snd ss + snd d * snd d))%rs) (map xpair xs) ((Fin s, Fin t), (Fin u, Fin v))
  = ((Fin (s + lsum (fun x => fst x - m0) xs), Fin (t + lsum (fun x => snd x - m1) xs)), (Fin (u + ssq m0 (map fst xs)), Fin (v + ssq m1 (map snd xs)))).
Proof.
  unfold ssq. induction xs as [|x xs IH]; intros s t u v; cbn [map fold_left lsum]; [rewrite !Rplus_0_r; reflexivity|]. cbv zeta. cbn [xpair fst snd]. xs. rewrite IH. do 2 f_equal; f_equal; ring.
Qed.
Lemma pn_score xs : PairedNormal.score d (map xpair xs) = PairedNormal.mkG
  (Fin (lsum (fun x => fst x - m0) xs / a), Fin (lsum (fun x => snd x - m1) xs / b))
  (Fin ((ssq m0 (map fst xs) / a - INR (length xs)) / sqrt a), Fin ((ssq m1 (map snd xs) / b - INR (length xs)) / sqrt b)).
Proof.
  assert (K1 := sqrt_lt_R0 a Ha). assert (K2 := sqrt_lt_R0 b Hb). unfold PairedNormal.score; cbn [PairedNormal.pr PairedNormal.new_unchecked fst snd]. cbv zeta. rewrite x_lit, pscore_fold.
  cbn [fst snd]. rewrite map_length, !Rplus_0_l. xs. now rewrite <- INR_IZR_INZ.
Qed.
End Paired.
Notation ppdf m0 m1 a b := (fun x => val (PairedNormal.pdf (PairedNormal.new_unchecked (Fin m0, Fin m1) (Fin a, Fin b)) (xpair x))).
Lemma ssq_map {X} (m : R) (h : X -> R) xs : ssq m (map h xs) = lsum (fun x => (h x - m) * (h x - m)) xs.
Proof. unfold ssq. apply lsum_map. Qed.
Lemma pn_score_mu m0 m1 a b xs : 0 < a -> 0 < b ->
  is_score (fun t => ppdf t m1 a b) m0 xs (lsum (fun x => fst x - m0) xs / a) /\ is_score (fun t => ppdf m0 t a b) m1 xs (lsum (fun x => snd x - m1) xs / b).
Proof.
  intros Ha Hb. split.
  - replace (lsum (fun x => fst x - m0) xs / a) with (lsum (fun x => / a * (fst x - m0)) xs) by (rewrite (lsum_scal (/ a) (fun x => fst x - m0)); field; lra).
    apply score_intro. intros x _. eapply is_derive_ext; [intros t; symmetry; apply (pn_ln_pdf t m1 a b Ha Hb x)|]. auto_derive; [lra|field; lra].
  - replace (lsum (fun x => snd x - m1) xs / b) with (lsum (fun x => / b * (snd x - m1)) xs) by (rewrite (lsum_scal (/ b) (fun x => snd x - m1)); field; lra).
    apply score_intro. intros x _. eapply is_derive_ext; [intros t; symmetry; apply (pn_ln_pdf m0 t a b Ha Hb x)|]. auto_derive; [lra|field; lra].
Qed.
Lemma pn_score_sd m0 m1 a b xs : 0 < a -> 0 < b ->
  is_score (fun t => ppdf m0 m1 (t * t) b) (sqrt a) xs ((ssq m0 (map fst xs) / a - INR (length xs)) / sqrt a) /\
  is_score (fun t => ppdf m0 m1 a (t * t)) (sqrt b) xs ((ssq m1 (map snd xs) / b - INR (length xs)) / sqrt b).
Proof.
  intros Ha Hb. rewrite !ssq_map. split.
  - assert (Hs := sqrt_lt_R0 a Ha). assert (Q := sqrt_sqrt a ltac:(lra)). set (s := sqrt a) in *. rewrite <- Q.
    replace ((lsum (fun x => (fst x - m0) * (fst x - m0)) xs / (s * s) - INR (length xs)) / s) with (lsum (fun x => / (s * s * s) * ((fst x - m0) * (fst x - m0)) - / s) xs).
    + apply score_intro. intros x _. apply (is_derive_ext_loc (fun t => - (ln (t * t * b) + 2 * ln (2 * PI)) / 2 - ((fst x - m0) * (fst x - m0) / (t * t) + (snd x - m1) * (snd x - m1) / b) / 2)).
      * generalize (near_pos s Hs). apply filter_imp. intros t Ht. symmetry. apply (pn_ln_pdf m0 m1 (t * t) b ltac:(nra) Hb x).
      * assert (0 < s * s) by nra. assert (0 < s * s * b) by pos. auto_derive; [repeat split; lra|field; lra].
    + rewrite (lsum_minus (fun x => / (s * s * s) * ((fst x - m0) * (fst x - m0))) (fun _ => / s)), (lsum_scal _ (fun x => (fst x - m0) * (fst x - m0))), lsum_const. field. lra.
  - assert (Hs := sqrt_lt_R0 b Hb). assert (Q := sqrt_sqrt b ltac:(lra)). set (s := sqrt b) in *. rewrite <- Q.
    replace ((lsum (fun x => (snd x - m1) * (snd x - m1)) xs / (s * s) - INR (length xs)) / s) with (lsum (fun x => / (s * s * s) * ((snd x - m1) * (snd x - m1)) - / s) xs).
    + apply score_intro. intros x _. apply (is_derive_ext_loc (fun t => - (ln (a * (t * t)) + 2 * ln (2 * PI)) / 2 - ((fst x - m0) * (fst x - m0) / a + (snd x - m1) * (snd x - m1) / (t * t)) / 2)).
      * generalize (near_pos s Hs). apply filter_imp. intros t Ht. symmetry. apply (pn_ln_pdf m0 m1 a (t * t) Ha ltac:(nra) x).
      * assert (0 < s * s) by nra. assert (0 < a * (s * s)) by pos. auto_derive; [repeat split; lra|field; lra].
    + rewrite (lsum_minus (fun x => / (s * s * s) * ((snd x - m1) * (snd x - m1))) (fun _ => / s)), (lsum_scal _ (fun x => (snd x - m1) * (snd x - m1))), lsum_const. field. lra.
Qed.
