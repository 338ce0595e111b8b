(** * Tactics: evaluate model expressions on finite exact reals *)
From Coq Require Import Reals Lra Lia Psatz.
From Coquelicot Require Import Coquelicot.
From Verif.Num Require Import XReal.
Open Scope R_scope.

Ltac pos :=
  lazymatch goal with
  | |- 0 < exp _ => apply exp_pos
  | |- 0 < Rpower _ _ => apply exp_pos
  | |- 0 < PI => apply PI_RGT_0
  | |- PI <> 0 => apply PI_neq0
  | |- 0 < ?a * ?b => apply Rmult_lt_0_compat; pos
  | |- 0 < ?a / ?b => apply Rdiv_lt_0_compat; pos
  | |- 0 < ?a + ?b => first [lra | apply Rplus_lt_0_compat; pos | apply Rplus_lt_le_0_compat; pos | apply Rplus_le_lt_0_compat; pos]
  | |- 0 < sqrt _ => apply sqrt_lt_R0; pos
  | |- 0 < / _ => apply Rinv_0_lt_compat; pos
  | |- 0 <= ?a * ?a => apply Rle_0_sqr
  | |- 0 <= ?a * ?b => first [apply Rmult_le_pos; pos]
  | |- 0 <= ?a / ?b => first [apply Rdiv_le_0_compat; pos]
  | |- 0 <= ?a + ?b => first [lra | apply Rplus_le_le_0_compat; pos]
  | |- 0 <= sqrt _ => apply sqrt_pos
  | |- 0 <= Rabs _ => apply Rabs_pos
  | |- 0 <= exp _ => apply Rlt_le, exp_pos
  | |- 0 <= Rpower _ _ => apply Rlt_le, exp_pos
  | |- ?a <> 0 => first [assumption | lra | apply Rgt_not_eq, Rlt_gt; pos]
  | |- 0 <= _ => first [assumption | lra | apply Rlt_le; pos]
  | |- _ => first [assumption | lra]
  end.

Ltac xside := first [assumption | lra | now pos].
Ltac xs1 := first
  [ rewrite x_lit | rewrite x_pi | rewrite x_e | rewrite x_add | rewrite x_sub | rewrite x_mul | rewrite x_neg | rewrite x_abs
  | rewrite x_exp | rewrite x_sin | rewrite x_cos | rewrite x_atan | rewrite x_floor
  | rewrite x_ltb | rewrite x_leb | rewrite x_eqb
  | rewrite x_powi_2 | rewrite x_max
  | rewrite x_div by xside | rewrite x_sqrt by xside | rewrite x_ln by xside
  | rewrite x_powf by xside | rewrite x_log2 by xside ].
Ltac xs := repeat xs1.
(** comparisons decided by the context *)
Ltac xb1 := first
  [ rewrite Rltb_true by xside | rewrite Rltb_false by xside
  | rewrite Rleb_true by xside | rewrite Rleb_false by xside
  | rewrite Reqb_true by xside | rewrite Reqb_false by xside ].
Ltac xb := repeat (xb1; cbn [andb orb negb]).

Lemma Rpower_pos a b : 0 < Rpower a b.
Proof. apply exp_pos. Qed.
Lemma Rpower_0_base b : Rpower 1 b = 1.
Proof. unfold Rpower. now rewrite ln_1, Rmult_0_r, exp_0. Qed.
Lemma ln2_pos : 0 < ln 2.
Proof. rewrite <- ln_1. apply ln_increasing; lra. Qed.
Lemma ln2_lt1 : ln 2 < 1.
Proof. rewrite <- (ln_exp 1) at 1. apply ln_increasing; [lra|]. generalize (exp_ineq1 1 ltac:(lra)); lra. Qed.
Lemma ln_neg x : 0 < x < 1 -> ln x < 0.
Proof. intros H. rewrite <- ln_1. apply ln_increasing; lra. Qed.
Lemma ln_pos x : 1 < x -> 0 < ln x.
Proof. intros H. rewrite <- ln_1. apply ln_increasing; lra. Qed.
Lemma exp_lt1 x : x < 0 -> exp x < 1.
Proof. intros H. rewrite <- exp_0. now apply exp_increasing. Qed.
Lemma exp_le1 x : x <= 0 -> exp x <= 1.
Proof. intros [H| ->]; [left; now apply exp_lt1|rewrite exp_0; lra]. Qed.
Lemma exp_ge1 x : 0 <= x -> 1 <= exp x.
Proof. intros [H| <-]; [rewrite <- exp_0; left; now apply exp_increasing|rewrite exp_0; lra]. Qed.
Lemma ln_inv_half : exp (- ln 2) = 1 / 2.
Proof. rewrite exp_Ropp, exp_ln by lra. lra. Qed.
Lemma Rpower_inv_base a b : 0 < a -> Rpower a (- b) = / Rpower a b.
Proof. intros; apply Rpower_Ropp. Qed.
Lemma Rpower_lt1 a b : 0 < a < 1 -> 0 < b -> Rpower a b < 1.
Proof. intros H Hb. unfold Rpower. apply exp_lt1. assert (ln a < 0) by now apply ln_neg. nra. Qed.
Lemma Rpower_le1 a b : 0 < a <= 1 -> 0 <= b -> Rpower a b <= 1.
Proof.
  intros H Hb. unfold Rpower. apply exp_le1.
  assert (ln a <= 0). { destruct (Req_dec a 1) as [->|]; [rewrite ln_1; lra|]. left; apply ln_neg; lra. } nra.
Qed.
Lemma Rpower_gt1 a b : 1 < a -> 0 < b -> 1 < Rpower a b.
Proof. intros H Hb. unfold Rpower. rewrite <- exp_0. apply exp_increasing. assert (0 < ln a) by now apply ln_pos. nra. Qed.
Lemma Rpower_inj_exp a b c : Rpower (Rpower a b) c = Rpower a (b * c).
Proof. apply Rpower_mult. Qed.
Lemma Rpower_self_inv a b : 0 < a -> b <> 0 -> Rpower (Rpower a (1 / b)) b = a.
Proof. intros. rewrite Rpower_mult. replace (1 / b * b) with 1 by (field; auto). now rewrite Rpower_1. Qed.
Lemma Rpower_self_inv' a b : 0 < a -> b <> 0 -> Rpower (Rpower a b) (1 / b) = a.
Proof. intros. rewrite Rpower_mult. replace (b * (1 / b)) with 1 by (field; auto). now rewrite Rpower_1. Qed.

Lemma is_derive_Rpower_l b x : 0 < x -> is_derive (fun t => Rpower t b) x (b * Rpower x (b - 1)).
Proof.
  intros Hx. unfold Rpower. auto_derive; [exact Hx|].
  replace ((b - 1) * ln x) with (b * ln x - ln x) by ring.
  unfold Rminus. rewrite exp_plus, exp_Ropp, exp_ln by auto. field. lra.
Qed.

Lemma is_derive_pow (u : R -> R) x du b : is_derive u x du -> 0 < u x ->
  is_derive (fun t => Rpower (u t) b) x (du * (b * Rpower (u x) (b - 1))).
Proof. intros H1 H2. generalize (is_derive_comp (fun y => Rpower y b) u x _ _ (is_derive_Rpower_l b (u x) H2) H1). exact (fun h => h). Qed.
Lemma ex_derive_pow (u : R -> R) x b : ex_derive u x -> 0 < u x -> ex_derive (fun t => Rpower (u t) b) x.
Proof. intros [du H1] H2. eexists. apply is_derive_pow; eassumption. Qed.

Lemma Rpower_minus1 a b : 0 < a -> Rpower a (b - 1) = Rpower a b / a.
Proof. intros H. unfold Rminus. rewrite Rpower_plus, Rpower_Ropp, Rpower_1 by auto. reflexivity. Qed.
Lemma Rpower_plus1 a b : 0 < a -> Rpower a (b + 1) = Rpower a b * a.
Proof. intros H. rewrite Rpower_plus, Rpower_1 by auto. reflexivity. Qed.
Lemma ln_Rpower a b : ln (Rpower a b) = b * ln a.
Proof. unfold Rpower. apply ln_exp. Qed.
Lemma Rpower_lt_inv a b c : 0 < a -> 0 < b -> 0 < c -> Rpower a c <= Rpower b c -> a <= b.
Proof.
  intros Ha Hb Hc H. apply Rnot_lt_le; intros Hlt. apply (Rle_not_lt _ _ H).
  unfold Rpower. apply exp_increasing. apply Rmult_lt_compat_l; [auto|]. now apply ln_increasing.
Qed.
Lemma Rpower_le_mono a b c : 0 < a -> a <= b -> 0 <= c -> Rpower a c <= Rpower b c.
Proof.
  intros Ha Hab Hc. apply Rle_Rpower_l; lra.
Qed.
Lemma exp_le_mono a b : a <= b -> exp a <= exp b.
Proof. intros [H| ->]; [left; now apply exp_increasing|lra]. Qed.
Lemma ln_le_sub1 x : 0 < x -> ln x <= x - 1.
Proof. intros H. generalize (exp_ineq1_le (ln x)). rewrite exp_ln by auto. lra. Qed.

(** t^c e^-t is maximal at t = c *)
Lemma gamma_max c t : 0 < c -> 0 < t -> Rpower t c * exp (- t) <= Rpower c c * exp (- c).
Proof.
  intros Hc Ht. unfold Rpower. rewrite <- !exp_plus. apply exp_le_mono.
  generalize (ln_le_sub1 (t / c) ltac:(pos)). unfold Rdiv at 1. rewrite ln_mult, ln_Rinv by pos. intros H.
  apply Rmult_le_compat_l with (r := c) in H; [|lra]. replace (c * (t / c - 1)) with (t - c) in H by (field; lra). lra.
Qed.
(** y^p (1-y)^q is maximal at y0 = p/(p+q); stated through logarithms of ratios *)
Lemma beta_max_ln p q y y0 : 0 < y < 1 -> 0 < y0 < 1 -> 0 <= p -> 0 <= q -> p * (1 - y0) = q * y0 ->
  p * ln y + q * ln (1 - y) <= p * ln y0 + q * ln (1 - y0).
Proof.
  intros Hy H0 Hp Hq E.
  generalize (ln_le_sub1 (y / y0) ltac:(pos)) (ln_le_sub1 ((1 - y) / (1 - y0)) ltac:(pos)).
  unfold Rdiv at 1 3. rewrite !ln_mult, !ln_Rinv by (try pos; lra). intros H1 H2.
  apply Rmult_le_compat_l with (r := p) in H1; [|lra]. apply Rmult_le_compat_l with (r := q) in H2; [|lra].
  assert (p * (y / y0 - 1) + q * ((1 - y) / (1 - y0) - 1) = 0).
  { replace (p * (y / y0 - 1) + q * ((1 - y) / (1 - y0) - 1)) with ((p * (1 - y0) - q * y0) * (y - y0) / (y0 * (1 - y0))) by (field; lra).
    rewrite E. field; lra. }
  lra.
Qed.

Lemma is_derive_eq (f : R -> R) (x a b : R) : is_derive f x a -> a = b -> is_derive f x b.
Proof. now intros H <-. Qed.
(** derivative combinators over R, and the structural tactic [dder] *)
Lemma dR_c c x : is_derive (fun _ : R => c) x 0.
Proof. apply (is_derive_const (K := R_AbsRing) (V := R_NormedModule)). Qed.
Lemma dR_id x : is_derive (fun t : R => t) x 1.
Proof. apply (is_derive_id (K := R_AbsRing)). Qed.
Lemma dR_opp (f : R -> R) (x a : R) : is_derive f x a -> is_derive (fun t => - f t) x (- a).
Proof. apply (is_derive_opp (K := R_AbsRing) (V := R_NormedModule)). Qed.
Lemma dR_plus (f g : R -> R) (x a b : R) : is_derive f x a -> is_derive g x b -> is_derive (fun t => f t + g t) x (a + b).
Proof. apply (is_derive_plus (K := R_AbsRing) (V := R_NormedModule)). Qed.
Lemma dR_minus (f g : R -> R) (x a b : R) : is_derive f x a -> is_derive g x b -> is_derive (fun t => f t - g t) x (a - b).
Proof. apply (is_derive_minus (K := R_AbsRing) (V := R_NormedModule)). Qed.
Lemma dR_mult (f g : R -> R) (x a b : R) : is_derive f x a -> is_derive g x b -> is_derive (fun t => f t * g t) x (a * g x + f x * b).
Proof. intros H1 H2. apply (is_derive_mult f g x a b H1 H2). intros; apply Rmult_comm. Qed.
Lemma dR_inv (f : R -> R) (x a : R) : f x <> 0 -> is_derive f x a -> is_derive (fun t => / f t) x (- a / (f x) ^ 2).
Proof. intros H0 H. now apply is_derive_inv. Qed.
Lemma dR_div (f g : R -> R) (x a b : R) : g x <> 0 -> is_derive f x a -> is_derive g x b ->
  is_derive (fun t => f t / g t) x (a * / g x + f x * (- b / (g x) ^ 2)).
Proof. intros H0 H1 H2. apply (dR_mult f (fun t => / g t) x a (- b / (g x) ^ 2)); auto. apply dR_inv; auto. Qed.
Lemma dR_exp (f : R -> R) (x a : R) : is_derive f x a -> is_derive (fun t => exp (f t)) x (a * exp (f x)).
Proof. intros H. generalize (is_derive_comp exp f x _ _ (is_derive_exp (f x)) H). exact (fun h => h). Qed.
Lemma dR_ln (f : R -> R) (x a : R) : 0 < f x -> is_derive f x a -> is_derive (fun t => ln (f t)) x (a * / f x).
Proof. intros H0 H. generalize (is_derive_comp ln f x _ _ (is_derive_ln (f x) H0) H). exact (fun h => h). Qed.
Lemma dR_pow (f : R -> R) (x a b : R) : 0 < f x -> is_derive f x a -> is_derive (fun t => Rpower (f t) b) x (a * (b * Rpower (f x) (b - 1))).
Proof. intros; now apply is_derive_pow. Qed.
Ltac dstep :=
  lazymatch goal with
  | |- is_derive ?f _ _ => lazymatch f with
  | ln => apply is_derive_ln
  | exp => apply is_derive_exp
  | Ropp => refine (dR_opp (fun t => t) _ _ _)
  | Rminus ?c => refine (dR_minus (fun _ => c) (fun t => t) _ _ _ _ _)
  | Rplus ?c => refine (dR_plus (fun _ => c) (fun t => t) _ _ _ _ _)
  | Rdiv ?c => refine (dR_div (fun _ => c) (fun t => t) _ _ _ _ _ _)
  | Rmult ?c => refine (dR_mult (fun _ => c) (fun t => t) _ _ _ _ _)
  | (fun _ => ?c) => apply dR_c
  | (fun t => t) => apply dR_id
  | (fun t => - _)  => apply dR_opp
  | (fun t => _ + _)  => apply dR_plus
  | (fun t => _ - _)  => apply dR_minus
  | (fun t => _ * _)  => apply dR_mult
  | (fun t => _ / _)  => apply dR_div
  | (fun t => / _)  => apply dR_inv
  | (fun t => exp _)  => apply dR_exp
  | (fun t => ln _)  => apply dR_ln
  | (fun t => Rpower _ _)  => apply dR_pow
  end end.
(** prove [is_derive f x v]: leaves the equation first, then side conditions *)
Ltac dder := eapply is_derive_eq; [repeat dstep | ]; cbv beta.
Lemma Rinv_le1 y : 1 <= y -> / y <= 1.
Proof. intros H. rewrite <- Rinv_1. apply Rinv_le_contravar; lra. Qed.
Lemma Rinv_gt1 y : 0 < y < 1 -> 1 < / y.
Proof. intros H. rewrite <- Rinv_1. apply Rinv_lt_contravar; lra. Qed.
Lemma Rpower_ge1 a b : 1 <= a -> 0 <= b -> 1 <= Rpower a b.
Proof. intros H Hb. rewrite <- (Rpower_0_base b). apply Rpower_le_mono; lra. Qed.
