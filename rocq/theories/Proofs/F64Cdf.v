(** * Distribution functions in double arithmetic: range and monotonicity *)
From Coq Require Import Reals Lra Lia ZArith Psatz Bool.
From Flocq Require Import Core IEEE754.BinarySingleNaN.
From Verif.Num Require Import Scalar F64.
From Verif.Spec Require Import ProbSpec LibmSpec.
From Verif.Proofs Require Import F64Order.
Open Scope R_scope.

(** ** building blocks, on values *)
Lemma fin_pos c : fin c -> lt64 zero64 c -> 0 < RV c.
Proof. intros F H. apply lt_V1 in H. rewrite V_zero, V_fin in H by auto. exact H. Qed.
Lemma lift_ge (f : R -> R) (a b : R) x : num x -> a <= V x -> (forall r, a <= r -> b <= sat (f r)) -> - M64 < a -> b <= M64 -> b <= lift f x.
Proof.
  intros N L H A B. destruct (inf_cases x N) as [F|[E|E]]; subst; cbn [V lift] in *; try lra.
  rewrite lift_fin by auto. apply H. now rewrite V_fin in L by auto.
Qed.
Lemma liftn_le (f : R -> R) (a b : R) x : num x -> a <= V x -> (forall r, a <= r -> sat (f r) <= b) -> - M64 < a -> - M64 <= b -> liftn f x <= b.
Proof.
  intros N L H A B. destruct (inf_cases x N) as [F|[E|E]]; subst; cbn [V liftn] in *; try lra.
  rewrite liftn_fin by auto. apply H. now rewrite V_fin in L by auto.
Qed.
Section Lib.
Context {m : Libm} (HR : libm_range m).
Lemma xp_num x : num x -> num (m_exp x).
Proof. intros N. now destruct (le_num _ _ (exp_nonneg m HR x N)). Qed.
Lemma xp_ge0 x : num x -> 0 <= V (m_exp x).
Proof. intros N. rewrite <- V_zero. apply le_V1, (exp_nonneg m HR x N). Qed.
Lemma xp_le1 x : num x -> V x <= 0 -> V (m_exp x) <= 1.
Proof. intros N L. rewrite <- V_one. apply le_V1, (exp_le_one m HR). apply le_V2; [auto|apply num_zero|]. now rewrite V_zero. Qed.
Lemma nn_le x : num x -> 0 <= V x -> le64 zero64 x.
Proof. intros. apply le_V2; [apply num_zero|auto|]. now rewrite V_zero. Qed.
Lemma pw_num x y : num x -> 0 <= V x -> num y -> num (m_powf x y).
Proof. intros N L Ny. now destruct (le_num _ _ (pow_nonneg m HR x y (nn_le x N L) Ny)). Qed.
Lemma pw_ge0 x y : num x -> 0 <= V x -> num y -> 0 <= V (m_powf x y).
Proof. intros N L Ny. rewrite <- V_zero. apply le_V1, (pow_nonneg m HR x y); auto. now apply nn_le. Qed.
Lemma pw_le1 x y : num x -> 0 <= V x <= 1 -> num y -> 0 < V y -> V (m_powf x y) <= 1.
Proof. intros N L Ny P. rewrite <- V_one. apply le_V1, (pow_le_one m HR x y); [now apply nn_le|apply le_V2; [auto|apply num_one|now rewrite V_one]|apply lt_V2; [apply num_zero|auto|now rewrite V_zero]]. Qed.
Lemma pw_neg_le1 x y : num x -> 1 <= V x -> num y -> V y < 0 -> V (m_powf x y) <= 1.
Proof. intros N L Ny P. rewrite <- V_one. apply le_V1, (pow_neg_le_one m HR x y); [apply le_V2; [apply num_one|auto|now rewrite V_one]|apply lt_V2; [auto|apply num_zero|now rewrite V_zero]]. Qed.
End Lib.
Section Mon.
Context {m : Libm} (HM : libm_monotone m).
Lemma xp_mono x y : num x -> num y -> V x <= V y -> V (m_exp x) <= V (m_exp y).
Proof. intros Nx Ny L. apply le_V1, (exp_mono m HM). now apply le_V2. Qed.
Lemma pw_mono x x' y : num x -> num x' -> 0 <= V x -> V x <= V x' -> num y -> 0 < V y -> V (m_powf x y) <= V (m_powf x' y).
Proof. intros. apply le_V1, (pow_mono m HM); [now apply nn_le|now apply le_V2|apply lt_V2; [apply num_zero|auto|now rewrite V_zero]]. Qed.
Lemma pw_anti x x' y : num x -> num x' -> 0 <= V x -> V x <= V x' -> num y -> V y < 0 -> V (m_powf x' y) <= V (m_powf x y).
Proof. intros. apply le_V1, (pow_neg_anti m HM); [now apply nn_le|now apply le_V2|apply lt_V2; [auto|apply num_zero|now rewrite V_zero]]. Qed.
Lemma at_mono x y : num x -> num y -> V x <= V y -> V (m_atan x) <= V (m_atan y).
Proof. intros Nx Ny L. apply le_V1, (atan_mono m HM). now apply le_V2. Qed.
Lemma as_mono x y : num x -> num y -> 0 <= V x -> V x <= V y -> V y <= 1 -> V (m_asin x) <= V (m_asin y).
Proof. intros Nx Ny P L U. apply le_V1, (asin_mono m HM); [now apply nn_le|now apply le_V2|apply le_V2; [auto|apply num_one|now rewrite V_one]]. Qed.
End Mon.

(** ** (x - mu) / s *)
Section Z.
Context (mu s : f64) (Fm : fin mu) (Fs : fin s) (Ps : 0 < RV s).
Definition zz (x : f64) : f64 := Bdiv mode_NE (Bminus mode_NE x mu) s.
Lemma zz_num x : num x -> num (zz x).
Proof. intros N. destruct (minus_c x mu N Fm) as [A _]. now destruct (div_c _ s A Fs Ps). Qed.
Lemma zz_mono x y : num x -> num y -> V x <= V y -> V (zz x) <= V (zz y).
Proof.
  intros Nx Ny L. unfold zz. destruct (minus_c x mu Nx Fm) as [A E]. destruct (minus_c y mu Ny Fm) as [A' E'].
  destruct (div_c _ s A Fs Ps) as [_ ->]. destruct (div_c _ s A' Fs Ps) as [_ ->].
  apply lift_mono; auto. { intros a b H. unfold Rdiv. apply Rmult_le_compat_r; [left; now apply Rinv_0_lt_compat|auto]. }
  rewrite E, E'. apply lift_mono; auto. intros; lra.
Qed.
Lemma zz_pos x : num x -> RV mu <= V x -> 0 <= V (zz x).
Proof.
  intros N L. assert (Q := M64_pos). assert (B := fin_lt mu Fm). unfold zz. destruct (minus_c x mu N Fm) as [A E]. destruct (div_c _ s A Fs Ps) as [_ ->].
  apply (lift_ge _ 0 0); auto; try lra.
  - rewrite E. apply (lift_ge _ (RV mu) 0); auto; try lra. intros r Hr. apply sat_pos; lra.
  - intros r Hr. apply sat_pos. unfold Rdiv. apply Rmult_le_pos; [auto|left; now apply Rinv_0_lt_compat].
Qed.
End Z.

(** ** 1 / (1 + e) *)
Definition sigm (e : f64) : f64 := Bdiv mode_NE (b64 1 0) (Bplus mode_NE (b64 1 0) e).
Lemma one_plus e : num e -> 0 <= V e -> num (Bplus mode_NE (b64 1 0) e) /\ 1 <= V (Bplus mode_NE (b64 1 0) e).
Proof.
  intros N P. assert (Q := M64_pos). destruct (c_plus e (b64 1 0) N fin_b64_1) as [A E]. split; [exact A|]. rewrite E. apply (lift_ge _ 0 1); auto; try lra. intros r Hr. apply sat_ge1. rewrite RV_b64_1. lra.
Qed.
Lemma one_plus_mono e e' : num e -> num e' -> V e <= V e' -> V (Bplus mode_NE (b64 1 0) e) <= V (Bplus mode_NE (b64 1 0) e').
Proof. intros N N' L. destruct (c_plus e (b64 1 0) N fin_b64_1) as [_ ->]. destruct (c_plus e' (b64 1 0) N' fin_b64_1) as [_ ->]. apply lift_mono; auto. intros; lra. Qed.
Lemma sigm_ok e : num e -> 0 <= V e -> num (sigm e) /\ 0 <= V (sigm e) <= 1.
Proof.
  intros N P. destruct (one_plus e N P) as [A B]. unfold sigm. assert (R1 := RV_b64_1).
  destruct (c_div _ (b64 1 0) A fin_b64_1 ltac:(rewrite R1; lra) ltac:(lra)) as [C E]. split; [exact C|]. rewrite E. apply recip_bounds; rewrite ?R1; auto; lra.
Qed.
Lemma sigm_anti e e' : num e -> num e' -> 0 <= V e -> V e <= V e' -> V (sigm e') <= V (sigm e).
Proof.
  intros N N' P L. assert (R1 := RV_b64_1). destruct (one_plus e N P) as [A B]. destruct (one_plus e' N' ltac:(lra)) as [A' B']. unfold sigm.
  destruct (c_div _ (b64 1 0) A fin_b64_1 ltac:(rewrite R1; lra) ltac:(lra)) as [_ ->]. destruct (c_div _ (b64 1 0) A' fin_b64_1 ltac:(rewrite R1; lra) ltac:(lra)) as [_ ->].
  apply recip_anti; auto; rewrite ?R1; try lra. now apply one_plus_mono.
Qed.

(** ** - x * x *)
Definition nsq (x : f64) : f64 := Bmult mode_NE (Bopp x) x.
Definition nsq_V (x : f64) : R := match x with B754_infinity _ => - M64 | _ => sat (- (RV x * RV x)) end.
Lemma nsq_val x : num x -> num (nsq x) /\ V (nsq x) = nsq_V x.
Proof.
  intros N. unfold nsq. destruct (inf_cases x N) as [F|[E|E]]; subst; try (split; reflexivity).
  destruct (V_mult (Bopp x) x (fin_opp x F) F) as [A ->]. split; [exact A|]. rewrite RV_opp. replace (nsq_V x) with (sat (- (RV x * RV x))) by (destruct x; try discriminate; reflexivity). f_equal. ring.
Qed.
Lemma nsq_le0 x : num x -> V (nsq x) <= 0.
Proof.
  intros N. assert (Q := M64_pos). destruct (nsq_val x N) as [_ ->]. assert (X : forall r, sat (- (r * r)) <= 0) by (intros r; apply sat_neg; assert (0 <= r * r) by apply Rle_0_sqr; lra).
  destruct x; cbn [nsq_V]; try apply X; lra.
Qed.
Lemma nsq_anti x y : num x -> num y -> 0 <= V x -> V x <= V y -> V (nsq y) <= V (nsq x).
Proof.
  intros Nx Ny P L. assert (Q := M64_pos). destruct (nsq_val x Nx) as [_ ->]. destruct (nsq_val y Ny) as [_ ->].
  assert (G : forall z, fin z -> nsq_V z = sat (- (RV z * RV z))) by (intros z Fz; destruct z; try discriminate; reflexivity).
  destruct (inf_cases x Nx) as [Fx|[Ex|Ex]]; destruct (inf_cases y Ny) as [Fy|[Ey|Ey]]; subst; cbn [V nsq_V] in *; try lra.
  - rewrite !G by auto. rewrite !V_fin in * by auto. apply sat_mono. nra.
  - rewrite G by auto. apply sat_bounds.
  - assert (B := fin_lt y Fy). rewrite V_fin in L by auto. lra.
Qed.
(** dividing or multiplying by a positive constant keeps the sign and the order *)
Lemma div_le0 x c : fin c -> 0 < RV c -> num x -> V x <= 0 -> num (Bdiv mode_NE x c) /\ V (Bdiv mode_NE x c) <= 0.
Proof.
  intros F P N L. assert (Q := M64_pos). destruct (div_c x c N F P) as [A ->]. split; [exact A|]. destruct (inf_cases x N) as [Fx|[E|E]]; subst; cbn [V lift] in *; try lra.
  rewrite lift_fin by auto. rewrite V_fin in L by auto. apply sat_neg. unfold Rdiv. assert (0 < / RV c) by now apply Rinv_0_lt_compat. nra.
Qed.
Lemma mult_le0 x c : fin c -> 0 < RV c -> num x -> V x <= 0 -> num (Bmult mode_NE x c) /\ V (Bmult mode_NE x c) <= 0.
Proof.
  intros F P N L. assert (Q := M64_pos). destruct (mult_c x c N F P) as [A ->]. split; [exact A|]. destruct (inf_cases x N) as [Fx|[E|E]]; subst; cbn [V lift] in *; try lra.
  rewrite lift_fin by auto. rewrite V_fin in L by auto. apply sat_neg. nra.
Qed.
Lemma div_mono x y c : fin c -> 0 < RV c -> num x -> num y -> V x <= V y -> V (Bdiv mode_NE x c) <= V (Bdiv mode_NE y c).
Proof.
  intros F P Nx Ny L. destruct (div_c x c Nx F P) as [_ ->]. destruct (div_c y c Ny F P) as [_ ->]. apply lift_mono; auto. intros a b H. unfold Rdiv. apply Rmult_le_compat_r; [left; now apply Rinv_0_lt_compat|auto].
Qed.
Lemma mult_mono x y c : fin c -> 0 < RV c -> num x -> num y -> V x <= V y -> V (Bmult mode_NE x c) <= V (Bmult mode_NE y c).
Proof.
  intros F P Nx Ny L. destruct (mult_c x c Nx F P) as [_ ->]. destruct (mult_c y c Ny F P) as [_ ->]. apply lift_mono; auto. intros a b H. apply Rmult_le_compat_r; lra.
Qed.
Lemma cmult_mono x y c : fin c -> 0 < RV c -> num x -> num y -> V x <= V y -> V (Bmult mode_NE c x) <= V (Bmult mode_NE c y).
Proof.
  intros F P Nx Ny L. destruct (c_mult x c Nx F P) as [_ ->]. destruct (c_mult y c Ny F P) as [_ ->]. apply lift_mono; auto. intros a b H. apply Rmult_le_compat_l; lra.
Qed.
Lemma plus_mono x y c : fin c -> num x -> num y -> V x <= V y -> V (Bplus mode_NE x c) <= V (Bplus mode_NE y c).
Proof. intros F Nx Ny L. destruct (plus_c x c Nx F) as [_ ->]. destruct (plus_c y c Ny F) as [_ ->]. apply lift_mono; auto. intros; lra. Qed.
(** x / c for x >= 0 *)
Lemma div_ge0 x c : fin c -> 0 < RV c -> num x -> 0 <= V x -> num (Bdiv mode_NE x c) /\ 0 <= V (Bdiv mode_NE x c).
Proof.
  intros F P N L. assert (Q := M64_pos). destruct (div_c x c N F P) as [A ->]. split; [exact A|]. apply (lift_ge _ 0 0); auto; try lra. intros r Hr. apply sat_pos. unfold Rdiv. apply Rmult_le_pos; [auto|left; now apply Rinv_0_lt_compat].
Qed.
(** 1 + zeta * z for z >= 0 *)
Lemma one_zeta z c : fin c -> 0 < RV c -> num z -> 0 <= V z -> num (Bplus mode_NE (b64 1 0) (Bmult mode_NE c z)) /\ 1 <= V (Bplus mode_NE (b64 1 0) (Bmult mode_NE c z)).
Proof.
  intros F P N L. assert (Q := M64_pos). destruct (c_mult z c N F P) as [A E]. apply one_plus; auto. rewrite E. apply (lift_ge _ 0 0); auto; try lra. intros r Hr. apply sat_pos. apply Rmult_le_pos; lra.
Qed.
Lemma one_zeta_mono z z' c : fin c -> 0 < RV c -> num z -> num z' -> V z <= V z' ->
  V (Bplus mode_NE (b64 1 0) (Bmult mode_NE c z)) <= V (Bplus mode_NE (b64 1 0) (Bmult mode_NE c z')).
Proof.
  intros F P N N' L. destruct (c_mult z c N F P) as [A E]. destruct (c_mult z' c N' F P) as [A' E']. apply one_plus_mono; auto. now apply cmult_mono.
Qed.
(** -1 / zeta is a negative number *)
Lemma neg_recip c : fin c -> 0 < RV c -> num (Bdiv mode_NE (Bopp (b64 1 0)) c) /\ V (Bdiv mode_NE (Bopp (b64 1 0)) c) < 0.
Proof.
  intros F P. destruct (V_div (Bopp (b64 1 0)) c (fin_opp _ fin_b64_1) F ltac:(lra)) as [A ->]. split; [exact A|]. rewrite RV_opp, RV_b64_1.
  assert (B := fin_lt c F). apply Rle_lt_trans with (- bpow radix2 (-1024)); [|assert (X := bpow_gt_0 radix2 (-1024)); lra].
  assert (Q := M64_pos). assert (X : bpow radix2 (-1024) <= 1) by (change 1 with (bpow radix2 0); apply bpow_le; lia). assert (Y := bpow_gt_0 radix2 (-1024)).
  rewrite <- (sat_fmt (- bpow radix2 (-1024))); [|apply generic_format_opp, fmt_bpow; lia|lra].
  apply sat_mono. replace (-1024)%Z with (- (1024))%Z by lia. rewrite bpow_opp. change (bpow radix2 1024) with M64.
  replace (- (1) / RV c) with (- / RV c) by (field; lra). apply Ropp_le_contravar. left. apply Rinv_lt_contravar; [apply Rmult_lt_0_compat; lra|lra].
Qed.
