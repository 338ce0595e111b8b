(** * Non-negative numbers in doubles; overflow of correctly rounded functions *)
From Coq Require Import Reals Lra Lia ZArith Psatz Bool.
From Flocq Require Import Core IEEE754.BinarySingleNaN.
From Verif.Num Require Import Scalar F64.
From Verif.Spec Require Import ProbSpec LibmSpec.
From Verif.Proofs Require Import F64Order LibmInst F64Cdf.
Open Scope R_scope.

Definition nnv (x : f64) : Prop := num x /\ 0 <= V x.
Lemma nnv_le x : nnv x -> le64 zero64 x. Proof. intros [N P]. now apply nn_le. Qed.
Lemma le_nnv x : le64 zero64 x -> nnv x.
Proof. intros H. split; [now destruct (le_num _ _ H)|]. rewrite <- V_zero. now apply le_V1. Qed.
Lemma nnv_cases x : nnv x -> fin x /\ 0 <= RV x \/ x = B754_infinity false.
Proof. intros [N P]. assert (Q := M64_pos). destruct (inf_cases x N) as [F|[E|E]]; subst; auto; [left; split; auto; rewrite V_fin in P by auto; lra|cbn [V] in P; lra]. Qed.
Lemma nnv_inf : nnv (B754_infinity false). Proof. assert (Q := M64_pos). split; [reflexivity|cbn [V]; lra]. Qed.
Lemma pos_not_zero x : num x -> 0 < V x -> fin x /\ 0 < RV x \/ x = B754_infinity false.
Proof. intros N P. destruct (nnv_cases x) as [[F Q]|E]; [split; auto; lra|left; split; auto; rewrite V_fin in P; auto|now right]. Qed.
Lemma mult_nn x y : nnv x -> nnv y -> (fin x \/ 0 < V y) -> (fin y \/ 0 < V x) -> nnv (Bmult mode_NE x y).
Proof.
  intros Hx Hy A B. destruct (nnv_cases x Hx) as [[Fx Px]|Ex]; destruct (nnv_cases y Hy) as [[Fy Py]|Ey].
  - destruct (V_mult x y Fx Fy) as [N E]. split; [exact N|]. rewrite E. apply sat_pos, Rmult_le_pos; auto.
  - subst y. destruct B as [B|B]; [discriminate|]. rewrite V_fin in B by auto. destruct (pos_sign x Fx B) as (mm & ee & hh & ->). exact nnv_inf.
  - subst x. destruct A as [A|A]; [discriminate|]. rewrite V_fin in A by auto. destruct (pos_sign y Fy A) as (mm & ee & hh & ->). exact nnv_inf.
  - subst. exact nnv_inf.
Qed.
Lemma div_nn x y : nnv x -> num y -> 0 < V y -> (fin x \/ fin y) -> nnv (Bdiv mode_NE x y).
Proof.
  intros Hx Ny Py A. destruct (nnv_cases x Hx) as [[Fx Px]|Ex]; destruct (pos_not_zero y Ny Py) as [[Fy Qy]|Ey].
  - destruct (V_div x y Fx Fy ltac:(lra)) as [N E]. split; [exact N|]. rewrite E. apply sat_pos. apply Rmult_le_pos; [auto|]. left. now apply Rinv_0_lt_compat.
  - subst y. split; [destruct x; try discriminate; reflexivity|]. destruct x; try discriminate; cbn; lra.
  - subst x. destruct (pos_sign y Fy Qy) as (mm & ee & hh & ->). exact nnv_inf.
  - subst. destruct A; discriminate.
Qed.
Lemma plus_nn x y : nnv x -> nnv y -> nnv (Bplus mode_NE x y).
Proof.
  intros Hx Hy. destruct (nnv_cases x Hx) as [[Fx Px]|Ex]; destruct (nnv_cases y Hy) as [[Fy Py]|Ey].
  - destruct (V_plus x y Fx Fy) as [N E]. split; [exact N|]. rewrite E. apply sat_pos. lra.
  - subst y. destruct x; try discriminate; exact nnv_inf.
  - subst x. destruct y; try discriminate; exact nnv_inf.
  - subst. exact nnv_inf.
Qed.
(** at most 1: finite *)
Lemma le1_fin x : nnv x -> V x <= 1 -> fin x.
Proof. intros [N P] L. assert (Q := M64_pos). apply V_fin_iff; auto. lra. Qed.
Lemma mult_le1 x y : nnv x -> V x <= 1 -> nnv y -> V y <= 1 -> nnv (Bmult mode_NE x y) /\ V (Bmult mode_NE x y) <= 1.
Proof.
  intros Hx Lx Hy Ly. assert (Fx := le1_fin x Hx Lx). assert (Fy := le1_fin y Hy Ly). split; [now apply mult_nn; auto|].
  destruct (V_mult x y Fx Fy) as [_ ->]. apply sat_le1. destruct Hx as [_ Px], Hy as [_ Py]. rewrite V_fin in * by auto. assert (H := Rmult_le_compat _ _ _ _ Px Py Lx Ly). lra.
Qed.
(** a square *)
Lemma sq_nn z : num z -> nnv (Bmult mode_NE z z).
Proof.
  intros N. destruct (inf_cases z N) as [F|[E|E]]; [|subst; exact nnv_inf|subst; exact nnv_inf].
  destruct (V_mult z z F F) as [A E]. split; [exact A|]. rewrite E. apply sat_pos. apply Rle_0_sqr.
Qed.

(** correctly rounded functions overflow and underflow *)
Lemma rnd_big r : bpow radix2 1024 <= r -> ~ Rabs (rnd r) < bpow radix2 1024.
Proof.
  intros H. assert (P := bpow_gt_0 radix2 1024). assert (K : bpow radix2 1024 <= rnd r) by (apply rnd_ge; [apply fmt_bpow; lia|exact H]).
  rewrite Rabs_pos_eq by lra. lra.
Qed.
Lemma r2f_big r : bpow radix2 1024 <= r -> r2f r = B754_infinity false.
Proof.
  intros H. unfold r2f. assert (P := bpow_gt_0 radix2 1024). destruct (Rlt_dec (Rabs (rnd r)) (bpow radix2 1024)) as [L|L]; [exfalso; exact (rnd_big r H L)|].
  destruct (Rlt_dec r 0); [lra|reflexivity].
Qed.
Lemma rnd_tiny r : 0 <= r -> r < bpow radix2 (-1075) -> rnd r = 0.
Proof.
  intros H0 H. destruct H0 as [H0|H0]; [|rewrite <- H0; apply rnd_0].
  assert (NZ : r <> 0) by lra. assert (ML : (mag radix2 r <= -1075)%Z) by (apply mag_le_bpow; [exact NZ|rewrite Rabs_pos_eq by lra; exact H]).
  destruct (mag radix2 r) as [ex Hex]. cbn [mag_val] in ML. specialize (Hex NZ). rewrite Rabs_pos_eq in Hex by lra.
  unfold rnd. apply round_N_small_pos with (ex := ex); [exact Hex|]. unfold SpecFloat.fexp, SpecFloat.emin. lia.
Qed.
Lemma r2f_tiny r : 0 <= r -> r < bpow radix2 (-1075) -> r2f r = B754_zero false.
Proof.
  intros H0 H. unfold r2f. rewrite (rnd_tiny r H0 H). rewrite Rabs_R0. destruct (Rlt_dec 0 (bpow radix2 1024)) as [L|L]; [|exfalso; apply L, bpow_gt_0].
  rewrite scaled_mantissa_0. replace (Ztrunc 0) with 0%Z by (symmetry; apply Ztrunc_IZR). reflexivity.
Qed.
Lemma exp_bpow (n : Z) r : (0 <= n)%Z -> IZR n <= r -> bpow radix2 n <= exp r.
Proof.
  intros Hn H. rewrite bpow_exp. assert (L2 : ln 2 <= 1). { rewrite <- (ln_exp 1). left. apply ln_increasing; [lra|]. assert (E := exp_ineq1 1 ltac:(lra)). lra. }
  assert (P := IZR_le 0 n Hn). change (radix_val radix2) with 2%Z. assert (K : IZR n * ln 2 <= r) by nra. destruct K as [K|K]; [left; now apply exp_increasing|right; now rewrite K].
Qed.
Lemma exp_tiny r : r <= -2048 -> 0 <= exp r /\ exp r < bpow radix2 (-1075).
Proof.
  intros H. split; [left; apply exp_pos|]. assert (K := exp_bpow 2048 (- r) ltac:(lia) ltac:(lra)). rewrite <- (Ropp_involutive r), exp_Ropp.
  apply Rle_lt_trans with (/ bpow radix2 2048); [apply Rinv_le_contravar; [apply bpow_gt_0|exact K]|]. rewrite <- bpow_opp. apply bpow_lt. lia.
Qed.
Lemma b64_pow2 i : (-1074 <= i <= 1023)%Z -> fin (b64 1 i) /\ RV (b64 1 i) = bpow radix2 i.
Proof.
  intros H. assert (E : rnd (IZR 1 * bpow radix2 i) = bpow radix2 i) by (rewrite Rmult_1_l; apply rnd_fmt, fmt_bpow; lia).
  destruct (b64_spec 1 i) as [F W]; [rewrite E, Rabs_pos_eq by apply bpow_ge_0; apply bpow_lt; lia|]. split; [exact F|]. rewrite W. exact E.
Qed.
Lemma b64_z n : (Z.abs n <= 2 ^ 53)%Z -> fin (b64 n 0) /\ RV (b64 n 0) = IZR n.
Proof. apply b64_int. Qed.
Lemma Rpower_bpow i n : Rpower (bpow radix2 i) (IZR n) = bpow radix2 (i * n).
Proof. unfold Rpower. rewrite !bpow_exp, ln_exp, mult_IZR. f_equal. ring. Qed.
Lemma pow_r2f i n : (-1074 <= i <= 1023)%Z -> (Z.abs n <= 2 ^ 53)%Z -> n <> 0%Z -> cr_pow (b64 1 i) (b64 n 0) = r2f (bpow radix2 (i * n)).
Proof.
  intros Hi Hn NZ. destruct (b64_pow2 i Hi) as [Fx Vx]. destruct (b64_z n Hn) as [Fy Vy]. rewrite <- Rpower_bpow, <- Vx, <- Vy.
  assert (Px : RV (b64 1 i) <> 0) by (rewrite Vx; apply Rgt_not_eq, bpow_gt_0). assert (Py : RV (b64 n 0) <> 0) by (rewrite Vy; now apply IZR_neq).
  destruct (b64 1 i); try discriminate; [exfalso; now apply Px|]. destruct (b64 n 0); try discriminate; [exfalso; now apply Py|]. reflexivity.
Qed.
Theorem cr_extreme : libm_extreme cr_libm.
Proof.
  destruct (b64_int 1024 ltac:(lia)) as [F1 V1]. destruct (b64_int (-2048) ltac:(lia)) as [F2 V2]. split; cbn [m_exp m_powf cr_libm].
  - intros x H. destruct (le_num _ _ H) as [_ N]. apply le_V1 in H. rewrite V_fin in H by auto. rewrite V1 in H. destruct x as [s|[|]| |s mm ee hh]; try discriminate; cbn [cr_exp V] in *; try reflexivity.
    + cbn [B2R] in H. lra.
    + assert (Q := M64_pos). lra.
    + apply r2f_big, (exp_bpow 1024); [lia|exact H].
  - intros x H. destruct (le_num _ _ H) as [N _]. apply le_V1 in H. rewrite (V_fin (b64 (-2048) 0)) in H by auto. rewrite V2 in H. destruct x as [s|[|]| |s mm ee hh]; try discriminate; cbn [cr_exp V] in *; try reflexivity.
    + cbn [B2R] in H. lra.
    + assert (Q := M64_pos). lra.
    + apply r2f_tiny; apply exp_tiny; exact H.
  - intros i n Hi Hn H. rewrite pow_r2f by (auto; nia). apply r2f_big. apply bpow_le. exact H.
  - intros i n Hi Hn H. rewrite pow_r2f by (auto; nia). apply r2f_tiny; [apply bpow_ge_0|]. apply bpow_lt. exact H.
Qed.
Lemma sqrt_pos64 (v : f64) : fin v -> 0 < RV v -> fin (Bsqrt mode_NE v) /\ 0 < RV (Bsqrt mode_NE v).
Proof.
  intros Fv Pv. destruct (Bsqrt_correct 53 1024 _ _ mode_NE v) as (E & G & _). destruct (pos_sign v Fv Pv) as (mm & ee & hh & ->). split; [exact G|]. unfold RV. rewrite E.
  change (0 < rnd (sqrt (RV (B754_finite false mm ee hh)))). set (x := B754_finite false mm ee hh) in *.
  assert (X : bpow radix2 (-1074) <= RV x).
  { unfold x, RV. cbn [B2R]. assert (C := hh). unfold SpecFloat.bounded in C. apply andb_prop in C as [C _]. apply Zeq_bool_eq in C. unfold F2R. cbn [Fnum Fexp cond_Zopp].
    apply Rle_trans with (bpow radix2 ee); [apply bpow_le; unfold SpecFloat.fexp, SpecFloat.emin in C; lia|]. rewrite <- (Rmult_1_l (bpow radix2 ee)) at 1. apply Rmult_le_compat_r; [apply bpow_ge_0|]. apply IZR_le. lia. }
  apply Rlt_le_trans with (bpow radix2 (-537)); [apply bpow_gt_0|]. apply rnd_ge; [apply fmt_bpow; lia|].
  rewrite <- (sqrt_square (bpow radix2 (-537))) by apply bpow_ge_0. apply sqrt_le_1_alt. rewrite <- bpow_plus. exact X.
Qed.
(** multiplying a positive number by a finite constant >= 1 keeps it positive *)
Lemma mult_pos c y : fin c -> 1 <= RV c -> fin y -> 0 < RV y -> num (Bmult mode_NE c y) /\ 0 < V (Bmult mode_NE c y).
Proof.
  intros Fc Pc Fy Py. destruct (V_mult c y Fc Fy) as [N E]. split; [exact N|]. rewrite E. apply Rlt_le_trans with (RV y); [exact Py|].
  assert (K := fin_lt y Fy). assert (S1 : sat (RV y) = RV y) by (apply sat_fmt; [apply fmt_RV|lra]).
  rewrite <- S1 at 1. apply sat_mono. rewrite <- (Rmult_1_l (RV y)) at 1. apply Rmult_le_compat_r; lra.
Qed.
