(** * Property C152: variances in double arithmetic *)
From Coq Require Import Reals Lra Lia Psatz List ZArith Bool.
From Flocq Require Import Core Plus_error IEEE754.BinarySingleNaN.
From Verif.Num Require Import Scalar F64.
From Verif.Model Require Import Rust Constraints Probability Params Consts Continuous Continuous2 Continuous3 Discrete.
From Verif.Spec Require Import ParamSpec ProbSpec LibmSpec.
From Verif.Proofs Require Import ConstraintProofs NewInv ProbProofs F64Order LibmInst F64Cdf F64Pdf.
From Verif.Properties Require Import C133_F64Cdf C135_F64Pdf.
Import ListNotations.
Open Scope R_scope.

(** a variance: a number (possibly +infinity after overflow), never NaN, never negative *)
Definition variance64 (v : f64) : Prop := le64 zero64 v.

Ltac head t := lazymatch t with ?f _ => head f | _ => t end.
Definition PF (x : f64) : Prop := fin x /\ 0 < RV x.
Lemma PF_nn x : PF x -> nnv x. Proof. intros [F P]. now apply nn_fin. Qed.
Lemma mul_pf x y : nnv x -> PF y -> nnv (Bmult mode_NE x y).
Proof. intros A [F P]. apply mult_nn; auto; [now apply nn_fin|right; now rewrite V_fin]. Qed.
Lemma pf_mul x y : PF x -> nnv y -> nnv (Bmult mode_NE x y).
Proof. intros [F P] A. apply mult_nn; auto; [now apply nn_fin|right; now rewrite V_fin]. Qed.
Lemma div_pf x y : nnv x -> PF y -> nnv (Bdiv mode_NE x y).
Proof. intros A [F P]. apply div_nn; auto; [now apply fin_num|now rewrite V_fin]. Qed.
Lemma PF_lit x : is_finite x && Bltb zero64 x = true -> PF x.
Proof. intros H. apply andb_prop in H as [F P]. split; [exact F|now apply fin_pos]. Qed.
Ltac lit := apply PF_lit; vm_compute; reflexivity.
Lemma PF_pos x : finite64 x -> lt64 zero64 x -> PF x. Proof. intros F P. split; [exact F|now apply fin_pos]. Qed.
(** a difference of finite doubles in the right order is positive: gradual underflow *)
Lemma minus_pf x y : fin x -> fin y -> 0 <= RV y -> RV y < RV x -> PF (Bminus mode_NE x y).
Proof.
  intros Fx Fy P L. destruct (V_minus x y Fx Fy) as [N E]. assert (B := fin_lt x Fx). assert (Q := M64_pos).
  assert (G : 0 <= sat (RV x - RV y) <= RV x).
  { split; [apply sat_pos; lra|]. rewrite <- (sat_fmt (RV x)) at 2; [apply sat_mono; lra|apply fmt_RV|lra]. }
  assert (F : fin (Bminus mode_NE x y)) by (apply V_fin_iff; [exact N|rewrite E; lra]). split; [exact F|]. rewrite V_fin in E by exact F. rewrite E in *.
  destruct (Rle_lt_or_eq_dec 0 (sat (RV x - RV y)) (proj1 G)) as [K|K]; [exact K|exfalso].
  assert (Z : rnd (RV x - RV y) = 0). { unfold sat in K. unfold clamp in K. assert (0 <= rnd (RV x - RV y)) by (apply rnd_pos_of; lra).
    revert K. unfold Rmax, Rmin. destruct (Rle_dec M64 (rnd (RV x - RV y))), (Rle_dec (- M64) _); lra. }
  revert Z. unfold Rminus. apply (round_plus_neq_0 radix2 (FLT_exp (-1074) 53) ZnearestE); [apply fmt_RV|apply generic_format_opp, fmt_RV|lra].
Qed.


Ltac pf := first [assumption | now apply PF_pos | lazymatch goal with |- PF (b64 _ _) => lit end].
Ltac nn := lazymatch goal with
  | |- nnv (Bdiv mode_NE ?x ?y) => apply div_pf; [nn|pf]
  | |- nnv (Bmult mode_NE ?x ?x) => apply sq_nn; first [apply fin_num; assumption | now apply PF_nn; pf | nn]
  | |- nnv (Bmult mode_NE ?x ?y) => first [apply mul_pf; [nn|pf] | apply pf_mul; [pf|nn]]
  | |- nnv (Bplus mode_NE ?x ?y) => apply plus_nn; nn
  | |- _ => apply PF_nn; pf
  end.

Theorem C152_uniform (m : Libm) (l w : f64) (d : UniformF.t f64) : UniformF.new l w = Ok d -> finite64 w -> variance64 (UniformF.variance d).
Proof.
  intros H F. unfold UniformF.new, UniformF.params_new, loc_new, scale_new in H. destruct (check (AllS Positive) w) eqn:E; [|discriminate H]. apply check_ok_inv in E as [-> E]. injection H as <-.
  change (lt64 zero64 w) in E. change (le64 zero64 (Bdiv mode_NE (Bmult mode_NE w w) (b64 12 0))). apply nnv_le. nn.
Qed.
Print Assumptions C152_uniform.

Theorem C152_exponential (m : Libm) (l : f64) (d : Exponential.t f64) : Exponential.new l = Ok d -> finite64 l -> variance64 (Exponential.variance d).
Proof. intros H F. unfold Exponential.new in H. inv64 H. change (le64 zero64 (Bdiv mode_NE (Bdiv mode_NE (b64 1 0) l) l)). apply nnv_le. nn. Qed.
Print Assumptions C152_exponential.
Theorem C152_logistic (m : Libm) (mu s : f64) (d : Logistic.t f64) : Logistic.new mu s = Ok d -> finite64 s -> variance64 (Logistic.variance d).
Proof.
  intros H F. unfold Logistic.new in H. inv64 H. unfold variance64, Logistic.variance. cbn [Logistic.pr Logistic.s]. generalize (ltac:(lit) : PF (PI2 : f64)). generalize (PI2 : f64). intros c C.
  change (le64 zero64 (Bdiv mode_NE (Bmult mode_NE (Bmult mode_NE s s) c) (b64 3 0))). apply nnv_le. nn.
Qed.
Print Assumptions C152_logistic.
Theorem C152_gumbel (m : Libm) (mu b : f64) (d : Gumbel.t f64) : Gumbel.new mu b = Ok d -> finite64 b -> variance64 (Gumbel.variance d).
Proof.
  intros H F. unfold Gumbel.new in H. inv64 H. unfold variance64, Gumbel.variance. cbn [Gumbel.pr Gumbel.beta]. generalize (ltac:(lit) : PF (PI2 : f64)). generalize (PI2 : f64). intros c C.
  change (le64 zero64 (Bdiv mode_NE (Bmult mode_NE (Bmult mode_NE c b) b) (b64 6 0))). apply nnv_le. nn.
Qed.
Print Assumptions C152_gumbel.
Theorem C152_arcsine (m : Libm) (a w : f64) (d : Arcsine.t f64) : Arcsine.new a w = Ok d -> finite64 w -> variance64 (Arcsine.variance d).
Proof. intros H F. unfold Arcsine.new in H. inv64 H. change (le64 zero64 (Bdiv mode_NE (Bmult mode_NE w w) (b64 8 0))). apply nnv_le. nn. Qed.
Print Assumptions C152_arcsine.
Theorem C152_cosine (m : Libm) (mu s : f64) (d : Cosine.t f64) : Cosine.new mu s = Ok d -> finite64 s -> variance64 (Cosine.variance d).
Proof.
  intros H F. unfold Cosine.new in H. inv64 H. unfold variance64, Cosine.variance. cbn [Cosine.pr Cosine.s]. generalize (ltac:(lit) : PF (fsub (ONE_THIRD : f64) TWO_OVER_PI2)). generalize (fsub (ONE_THIRD : f64) TWO_OVER_PI2). intros c C.
  change (le64 zero64 (Bmult mode_NE (Bmult mode_NE s s) c)). apply nnv_le. nn.
Qed.
Print Assumptions C152_cosine.
Theorem C152_laplace (m : Libm) (mu b : f64) (d : Laplace.t f64) : Laplace.new mu b = Ok d -> finite64 b -> variance64 (Laplace.variance d).
Proof. intros H F. unfold Laplace.new in H. inv64 H. change (le64 zero64 (Bmult mode_NE (Bmult mode_NE (b64 2 0) b) b)). apply nnv_le. nn. Qed.
Print Assumptions C152_laplace.
Theorem C152_rayleigh (m : Libm) (s : f64) (d : Rayleigh.t f64) : Rayleigh.new s = Ok d -> finite64 s -> variance64 (Rayleigh.variance d).
Proof.
  intros H F. unfold Rayleigh.new in H. inv64 H. unfold variance64, Rayleigh.variance. cbn [Rayleigh.pr Rayleigh.sigma]. generalize (ltac:(lit) : PF (Rayleigh.FOUR_MINUS_PI_OVER_2 : f64)). generalize (Rayleigh.FOUR_MINUS_PI_OVER_2 : f64). intros c C.
  change (le64 zero64 (Bmult mode_NE (Bmult mode_NE c s) s)). apply nnv_le. nn.
Qed.
Print Assumptions C152_rayleigh.
Theorem C152_normal (m : Libm) (mu v : f64) (d : UvNormal.t f64) : UvNormal.new mu v = Ok d -> finite64 v -> variance64 (UvNormal.variance d).
Proof. intros H F. apply normal_inv in H as [-> P]. change (le64 zero64 v). apply nnv_le. nn. Qed.
Print Assumptions C152_normal.
Theorem C152_gamma (m : Libm) (a b : f64) (d : Gamma.t f64) : Gamma.new a b = Ok d -> finite64 a -> finite64 b -> variance64 (Gamma.variance d).
Proof. intros H Fa Fb. unfold Gamma.new in H. inv64 H. change (le64 zero64 (Bdiv mode_NE (Bdiv mode_NE a b) b)). apply nnv_le. nn. Qed.
Print Assumptions C152_gamma.
Theorem C152_inverse_normal (m : Libm) (mu l : f64) (d : InvNormal.t f64) : InvNormal.new mu l = Ok d -> finite64 mu -> finite64 l -> variance64 (InvNormal.variance d).
Proof. intros H Fa Fb. unfold InvNormal.new in H. inv64 H. change (le64 zero64 (Bdiv mode_NE (Bmult mode_NE (Bmult mode_NE mu mu) mu) l)). apply nnv_le. nn. Qed.
Print Assumptions C152_inverse_normal.

Lemma gt_lit (a : f64) (k : Z) : (0 <= k <= 2 ^ 53)%Z -> fin a -> Bleb a (b64 k 0) = false -> IZR k < RV a.
Proof.
  intros K F H. destruct (b64_z k ltac:(lia)) as [Fk Vk]. destruct (Rlt_le_dec (IZR k) (RV a)) as [L|L]; [exact L|exfalso].
  assert (le64 a (b64 k 0)) by (apply le_V2; [now apply fin_num|now apply fin_num|rewrite !V_fin by auto; lra]). unfold le64 in *. congruence.
Qed.
Lemma minus_lit (a : f64) (k : Z) : (0 <= k <= 2 ^ 53)%Z -> fin a -> IZR k < RV a -> PF (Bminus mode_NE a (b64 k 0)).
Proof. intros K F H. destruct (b64_z k ltac:(lia)) as [Fk Vk]. apply minus_pf; auto; rewrite Vk; [apply IZR_le; lia|exact H]. Qed.

Theorem C152_pareto (m : Libm) (xm a : f64) (d : Pareto.t f64) : Pareto.new xm a = Ok d -> finite64 xm -> finite64 a -> variance64 (Pareto.variance d).
Proof.
  intros H Fx Fa. unfold Pareto.new in H. inv64 H. unfold variance64, Pareto.variance. cbn [Pareto.pr]. change (fleb a (f_of_Z 2)) with (Bleb a (b64 2 0)).
  destruct (Bleb a (b64 2 0)) eqn:E; [vm_compute; reflexivity|]. apply gt_lit in E; [|lia|exact Fa].
  assert (P1 := minus_lit a 1 ltac:(lia) Fa ltac:(lra)). assert (P2 := minus_lit a 2 ltac:(lia) Fa ltac:(lra)).
  set (p := Bminus mode_NE a (b64 1 0)) in *. set (q := Bminus mode_NE a (b64 2 0)) in *. assert (Pa : PF a) by pf.
  change (le64 zero64 (Bdiv mode_NE (Bdiv mode_NE (Bdiv mode_NE (Bmult mode_NE (Bmult mode_NE xm xm) a) p) p) q)). apply nnv_le. nn.
Qed.
Print Assumptions C152_pareto.
Theorem C152_inverse_gamma (m : Libm) (a b v : f64) (d : InvGamma.t f64) : InvGamma.new a b = Ok d -> finite64 a -> finite64 b -> InvGamma.variance d = Ret v -> variance64 v.
Proof.
  intros H Fa Fb W. unfold InvGamma.new in H. inv64 H. unfold InvGamma.variance in W. cbn [InvGamma.pr InvGamma.alpha InvGamma.beta] in W. change (fleb a (f_of_Z 2)) with (Bleb a (b64 2 0)) in W.
  destruct (Bleb a (b64 2 0)) eqn:E; [discriminate W|]. apply gt_lit in E; [|lia|exact Fa]. injection W as <-.
  assert (P1 := minus_lit a 1 ltac:(lia) Fa ltac:(lra)). assert (P2 := minus_lit a 2 ltac:(lia) Fa ltac:(lra)).
  set (p := Bminus mode_NE a (b64 1 0)) in *. set (q := Bminus mode_NE a (b64 2 0)) in *. assert (Pa : PF a) by pf.
  change (le64 zero64 (Bdiv mode_NE (Bdiv mode_NE (Bdiv mode_NE (Bmult mode_NE b b) p) p) q)). apply nnv_le. nn.
Qed.
Print Assumptions C152_inverse_gamma.
Theorem C152_beta_prime (m : Libm) (a b v : f64) (d : BetaPrime.t f64) : BetaPrime.new a b = Ok d -> finite64 a -> finite64 b -> BetaPrime.variance d = Ret v -> variance64 v.
Proof.
  intros H Fa Fb W. unfold BetaPrime.new in H. inv64 H. unfold BetaPrime.variance in W. cbn [BetaPrime.pr BetaPrime.alpha BetaPrime.beta] in W. change (fleb b (f_of_Z 2)) with (Bleb b (b64 2 0)) in W.
  destruct (Bleb b (b64 2 0)) eqn:E; [discriminate W|]. apply gt_lit in E; [|lia|exact Fb]. injection W as <-.
  assert (P1 := minus_lit b 1 ltac:(lia) Fb ltac:(lra)). assert (P2 := minus_lit b 2 ltac:(lia) Fb ltac:(lra)).
  set (p := Bminus mode_NE b (b64 1 0)) in *. set (q := Bminus mode_NE b (b64 2 0)) in *. assert (Pa : PF a) by pf.
  change (le64 zero64 (Bdiv mode_NE (Bdiv mode_NE (Bdiv mode_NE (Bmult mode_NE a (Bplus mode_NE a p)) q) p) p)). apply nnv_le. nn.
Qed.
Print Assumptions C152_beta_prime.
Theorem C152_student_t (m : Libm) (n v : f64) (d : StudentT.t f64) : StudentT.new n = Ok d -> finite64 n -> StudentT.variance d = Ret v -> variance64 v.
Proof.
  intros H Fa W. unfold StudentT.new in H. inv64 H. unfold StudentT.variance in W. cbn [StudentT.pr StudentT.nu] in W. change (fleb n (f_of_Z 2)) with (Bleb n (b64 2 0)) in W. change (fleb n (f_of_Z 1)) with (Bleb n (b64 1 0)) in W.
  destruct (Bleb n (b64 1 0)); [discriminate W|]. destruct (Bleb n (b64 2 0)) eqn:E; [discriminate W|]. apply gt_lit in E; [|lia|exact Fa]. injection W as <-.
  assert (P2 := minus_lit n 2 ltac:(lia) Fa ltac:(lra)). assert (Pa : PF n) by (split; [exact Fa|lra]).
  change (le64 zero64 (Bdiv mode_NE n (Bminus mode_NE n (b64 2 0)))). apply nnv_le. nn.
Qed.
Print Assumptions C152_student_t.

(** ** integer parameters: u64 values as doubles *)
Lemma b64_u (z : Z) : (1 <= z < 2 ^ 64)%Z -> PF (b64 z 0) /\ 1 <= RV (b64 z 0).
Proof.
  intros H. assert (B : 1 <= IZR z <= bpow radix2 64).
  { split; [apply (IZR_le 1); lia|]. change (bpow radix2 64) with (IZR (2 ^ 64)). apply IZR_le. lia. }
  destruct (b64_spec z 0) as [F E].
  - cbn [bpow]. rewrite Rmult_1_r. apply rnd_small. rewrite Rabs_pos_eq by lra. apply Rle_trans with (bpow radix2 64); [lra|apply bpow_le; lia].
  - cbn [bpow] in E. rewrite Rmult_1_r in E. assert (1 <= RV (b64 z 0)) by (rewrite E; apply rnd_ge; [apply fmt_1|lra]). split; [split; [exact F|lra]|assumption].
Qed.
Lemma b64_ge (k z : Z) : (1 <= k <= 2 ^ 53)%Z -> (k <= z < 2 ^ 64)%Z -> IZR k <= RV (b64 z 0).
Proof.
  intros K H. destruct (b64_u z ltac:(lia)) as [[F _] _]. assert (B : IZR k <= IZR z <= bpow radix2 64).
  { split; [apply IZR_le; lia|]. change (bpow radix2 64) with (IZR (2 ^ 64)). apply IZR_le. lia. }
  assert (1 <= IZR k) by (apply (IZR_le 1); lia).
  destruct (b64_spec z 0) as [_ E].
  - cbn [bpow]. rewrite Rmult_1_r. apply rnd_small. rewrite Rabs_pos_eq by lra. apply Rle_trans with (bpow radix2 64); [lra|apply bpow_le; lia].
  - cbn [bpow] in E. rewrite Rmult_1_r in E. rewrite E. apply rnd_ge; [|lra]. apply fmt_IZR. lia.
Qed.
Theorem C152_erlang (m : Libm) (k : Z) (l : f64) (d : Erlang.t f64) : Erlang.new k l = Ok d -> (k < 2 ^ 64)%Z -> finite64 l -> variance64 (Erlang.variance d).
Proof.
  intros H K F. unfold Erlang.new in H. inv64 H. destruct (b64_u k ltac:(lia)) as [P _].
  change (le64 zero64 (Bdiv mode_NE (Bdiv mode_NE (b64 k 0) l) l)). set (x := b64 k 0) in *. apply nnv_le. nn.
Qed.
Print Assumptions C152_erlang.
Theorem C152_chi_squared (m : Libm) (k : Z) (v : f64) (d : ChiSq.t) : ChiSq.new (F := f64) k = Ok d -> ChiSq.variance d = Ret v -> variance64 v.
Proof.
  intros H W. unfold ChiSq.new in H. inv_new H. unfold ChiSq.variance in W. cbn [ChiSq.pr ChiSq.k] in W. unfold u64, checked in W.
  destruct (_ && _)%bool eqn:B in W; [|discriminate W]. injection W as <-. apply andb_prop in B as [_ B]. apply Z.leb_le in B. unfold U64_MAX in B.
  change (le64 zero64 (b64 (2 * k) 0)). apply nnv_le, PF_nn, b64_u. lia.
Qed.
Print Assumptions C152_chi_squared.
(** a sum with a positive finite term stays positive *)
Lemma plus_pos x y : PF x -> nnv y -> nnv (Bplus mode_NE x y) /\ RV x <= V (Bplus mode_NE x y).
Proof.
  intros [F P] N. split; [apply plus_nn; [apply PF_nn; split; auto|exact N]|]. assert (B := fin_lt x F). assert (Q := M64_pos).
  destruct (nnv_cases y N) as [[Fy Py]|Ey].
  - destruct (V_plus x y F Fy) as [_ ->]. rewrite <- (sat_fmt (RV x)) at 1; [apply sat_mono; lra|apply fmt_RV|lra].
  - subst y. destruct x; try discriminate; cbn [Bplus V]; lra.
Qed.
Lemma mult_pos_r x y : PF x -> nnv y -> 0 < V y -> nnv (Bmult mode_NE x y).
Proof. intros [F P] N L. apply mult_nn; auto; [now apply nn_fin|right; now rewrite V_fin]. Qed.
(** magnitudes: [bnd x l h] says 2^l <= x <= 2^h *)
Definition bnd (x : f64) (l h : Z) : Prop := fin x /\ bpow radix2 l <= RV x <= bpow radix2 h.
Lemma bnd_PF x l h : bnd x l h -> PF x.
Proof. intros [F B]. split; [exact F|]. assert (P := bpow_gt_0 radix2 l). lra. Qed.
Lemma sat_bnd (r : R) (l h : Z) : (-1074 <= l)%Z -> (h <= 1023)%Z -> bpow radix2 l <= r <= bpow radix2 h -> bpow radix2 l <= sat r <= bpow radix2 h.
Proof.
  intros L H B. assert (P := bpow_gt_0 radix2 l). assert (Q : bpow radix2 h < M64) by (change M64 with (bpow radix2 1024); apply bpow_lt; lia). assert (Q2 : bpow radix2 l <= bpow radix2 h) by lra.
  assert (Q3 : bpow radix2 l < M64) by lra. assert (M := M64_pos). assert (LH : (l <= h)%Z) by (apply (le_bpow radix2); exact Q2).
  split; [rewrite <- (sat_fmt (bpow radix2 l))|rewrite <- (sat_fmt (bpow radix2 h))]; first [apply sat_mono; lra|apply fmt_bpow; lia|lra].
Qed.
Lemma bnd_of z r l h : num z -> V z = sat r -> (-1074 <= l)%Z -> (h <= 1023)%Z -> bpow radix2 l <= r <= bpow radix2 h -> bnd z l h.
Proof.
  intros N E L H B. assert (S1 := sat_bnd r l h L H B). assert (P := bpow_gt_0 radix2 l). assert (Q : bpow radix2 h < M64) by (change M64 with (bpow radix2 1024); apply bpow_lt; lia). assert (M := M64_pos).
  assert (F : fin z) by (apply V_fin_iff; [exact N|rewrite E; lra]). split; [exact F|]. rewrite <- V_fin by exact F. rewrite E. exact S1.
Qed.
Lemma bnd_mult x y l h l' h' : bnd x l h -> bnd y l' h' -> (-1074 <= l + l')%Z -> (h + h' <= 1023)%Z -> bnd (Bmult mode_NE x y) (l + l') (h + h').
Proof.
  intros [Fx Bx] [Fy By] L H. destruct (V_mult x y Fx Fy) as [N E]. apply (bnd_of _ _ _ _ N E); [lia|lia|]. rewrite !bpow_plus.
  assert (P := bpow_gt_0 radix2 l). assert (P' := bpow_gt_0 radix2 l'). split; apply Rmult_le_compat; lra.
Qed.
Lemma bnd_plus x y l h l' : bnd x l h -> bnd y l' h -> (-1074 <= l)%Z -> (h <= 1022)%Z -> bnd (Bplus mode_NE x y) l (h + 1).
Proof.
  intros [Fx Bx] [Fy By] L H. destruct (V_plus x y Fx Fy) as [N E]. apply (bnd_of _ _ _ _ N E); [lia|lia|]. rewrite bpow_plus. change (bpow radix2 1) with 2.
  assert (P' := bpow_gt_0 radix2 l'). lra.
Qed.
Lemma bnd_weak x l h l' h' : bnd x l h -> (l' <= l)%Z -> (h <= h')%Z -> bnd x l' h'.
Proof. intros [F B] L H. split; [exact F|]. assert (A := bpow_le radix2 _ _ L). assert (C := bpow_le radix2 _ _ H). lra. Qed.
Lemma bnd_u (z : Z) : (1 <= z < 2 ^ 64)%Z -> bnd (b64 z 0) 0 64.
Proof.
  intros H. assert (B : 1 <= IZR z <= bpow radix2 64).
  { split; [apply (IZR_le 1); lia|]. change (bpow radix2 64) with (IZR (2 ^ 64)). apply IZR_le. lia. }
  destruct (b64_u z H) as [[F _] G]. split; [exact F|split; [exact G|]].
  destruct (b64_spec z 0) as [_ E]; [cbn [bpow]; rewrite Rmult_1_r; apply rnd_small; rewrite Rabs_pos_eq by lra; apply Rle_trans with (bpow radix2 64); [lra|apply bpow_le; lia]|].
  cbn [bpow] in E. rewrite Rmult_1_r in E. unfold RV in *. rewrite E. apply rnd_le_fmt; [apply fmt_bpow; lia|lra].
Qed.
Lemma bnd_minus (a : f64) (k : Z) h : (0 <= k <= 2 ^ 53)%Z -> bnd a 0 h -> (0 <= h <= 1023)%Z -> IZR k + 1 <= RV a -> bnd (Bminus mode_NE a (b64 k 0)) 0 h.
Proof.
  intros K [F B] H G. destruct (b64_z k ltac:(lia)) as [Fk Vk]. destruct (V_minus a (b64 k 0) F Fk) as [N E]. apply (bnd_of _ _ _ _ N E); [lia|lia|]. rewrite Vk.
  assert (0 <= IZR k) by (apply (IZR_le 0); lia). cbn [bpow] in *. lra.
Qed.
Theorem C152_f_dist (m : Libm) (j k : Z) (v : f64) (d : FDist.t) : FDist.new (F := f64) j k = Ok d -> (j < 2 ^ 64)%Z -> (k < 2 ^ 64)%Z -> FDist.variance d = Ret v -> variance64 v.
Proof.
  intros H J K W. unfold FDist.new in H. inv_new H. unfold FDist.variance in W. cbn [FDist.pr FDist.d2] in W. destruct (Z.leb_spec k 4); [discriminate W|]. injection W as <-.
  assert (PJ := bnd_u j ltac:(lia)). assert (PK := bnd_u k ltac:(lia)). assert (G := b64_ge 5 k ltac:(lia) ltac:(lia)).
  assert (P2 := bnd_minus (b64 k 0) 2 64 ltac:(lia) PK ltac:(lia) ltac:(lra)). assert (P4 := bnd_minus (b64 k 0) 4 64 ltac:(lia) PK ltac:(lia) ltac:(lra)).
  set (x := b64 j 0) in *. set (y := b64 k 0) in *. set (p := Bminus mode_NE y (b64 2 0)) in *. set (q := Bminus mode_NE y (b64 4 0)) in *.
  change (le64 zero64 (Bdiv mode_NE (Bdiv mode_NE (Bdiv mode_NE (Bdiv mode_NE (Bmult mode_NE (Bmult mode_NE (Bmult mode_NE (b64 2 0) y) y) (Bplus mode_NE x p)) x) p) p) q)).
  assert (PP := bnd_plus _ _ _ _ _ PJ P2 ltac:(lia) ltac:(lia)). apply bnd_PF in PJ, PK, P2, P4, PP.
  apply nnv_le. nn.
Qed.
Print Assumptions C152_f_dist.

(** UniformI: the span is at least 2 *)
Theorem C152_uniform_i (m : Libm) (l w : Z) (v : f64) (d : UniformI.t f64) : UniformI.new l w = Ret (Ok d) -> UniformI.variance d = Ret v -> variance64 v.
Proof.
  intros H W. unfold UniformI.new, UniformI.params_new, loc_new, scale_new in H. cbn [and_then] in H. destruct (check (AllS Positive) (as_i64 w)) as [z|e] eqn:E; [|discriminate H].
  apply check_ok_inv in E as [-> E]. cbn in E. apply Z.ltb_lt in E. set (z := as_i64 w) in *. clearbody z. clear w. cbn [and_then] in H.
  unfold UniformI.from in H. cbn [UniformI.width] in H. unfold i64, checked in H. destruct (_ && _)%bool eqn:B in H; [|discriminate H]. apply andb_prop in B as [B1 B2]. apply Z.leb_le in B1, B2.
  assert (BZ : (z + 1 <= I64_MAX)%Z) by exact B2.
  unfold I64_MAX in BZ. unfold rbind in H. injection H as <-.
  unfold UniformI.variance, UniformI.span in W. cbn [UniformI.pr UniformI.width] in W. unfold i64, checked in W.
  replace (Z.leb I64_MIN (z + 1) && Z.leb (z + 1) I64_MAX)%bool with true in W by (symmetry; apply andb_true_intro; split; now apply Z.leb_le).
  unfold rbind in W. assert (EU : as_u64 (z + 1) = (z + 1)%Z) by (unfold as_u64; apply Z.mod_small; lia).
  rewrite EU in W. injection W as <-.
  assert (P := bnd_u (z + 1) ltac:(lia)). assert (G := b64_ge 2 (z + 1) ltac:(lia) ltac:(lia)). destruct P as [F [P1 P2]].
  assert (P : bnd (b64 (z + 1) 0) 1 64) by (split; [exact F|split; [exact G|exact P2]]). clear F P1 P2.
  set (n := b64 (z + 1) 0) in *. change (le64 zero64 (Bdiv mode_NE (Bminus mode_NE (Bmult mode_NE n n) (b64 1 0)) (b64 12 0))).
  assert (PP := bnd_mult _ _ _ _ _ _ P P ltac:(lia) ltac:(lia)). assert (PP' := bnd_weak _ _ _ 0 128 PP ltac:(lia) ltac:(lia)). assert (Q := bnd_minus _ 1 128 ltac:(lia) PP' ltac:(lia)).
  destruct PP as [_ [PP _]]. change (bpow radix2 (1 + 1)) with 4 in PP. specialize (Q ltac:(lra)). apply bnd_PF in Q. apply nnv_le. nn.
Qed.
Print Assumptions C152_uniform_i.

(** probabilities as parameters *)
Lemma vp_nn x : valid_prob x -> nnv x /\ V x <= 1.
Proof. intros [F B]. split; [split; [now apply fin_num|]|]; rewrite V_fin by exact F; apply B. Qed.
Lemma vp_inv (m : Libm) (x : f64) : (fleb (f_of_Z 0 : f64) x = true /\ fleb x (f_of_Z 1) = true) -> valid_prob x.
Proof. intros [A B]. apply (p_test m x). rewrite A, B. reflexivity. Qed.
(** upper magnitudes: [nb x h] says 0 <= x <= 2^h *)
Definition nb (x : f64) (h : Z) : Prop := nnv x /\ V x <= bpow radix2 h.
Lemma nb_fin x h : (h <= 1023)%Z -> nb x h -> fin x.
Proof. intros H [[N P] B]. apply V_fin_iff; [exact N|]. assert (bpow radix2 h < M64) by (change M64 with (bpow radix2 1024); apply bpow_lt; lia). assert (M := M64_pos). lra. Qed.
Lemma sat_up r h : (-1074 <= h <= 1023)%Z -> r <= bpow radix2 h -> sat r <= bpow radix2 h.
Proof.
  intros H B. assert (P := bpow_gt_0 radix2 h). assert (bpow radix2 h < M64) by (change M64 with (bpow radix2 1024); apply bpow_lt; lia).
  rewrite <- (sat_fmt (bpow radix2 h)); [apply sat_mono; lra|apply fmt_bpow; lia|lra].
Qed.
Lemma nb_mult x y h h' : (h <= 1023)%Z -> (h' <= 1023)%Z -> (-1074 <= h + h' <= 1023)%Z -> nb x h -> nb y h' -> nb (Bmult mode_NE x y) (h + h').
Proof.
  intros H1 H2 H Hx Hy. assert (Fx := nb_fin _ _ H1 Hx). assert (Fy := nb_fin _ _ H2 Hy). destruct Hx as [Nx Bx], Hy as [Ny By].
  split; [apply mult_nn; auto|]. destruct (V_mult x y Fx Fy) as [_ ->]. apply sat_up; [exact H|]. rewrite bpow_plus. rewrite V_fin in Bx, By by auto. destruct Nx as [_ Px], Ny as [_ Py]. rewrite V_fin in Px, Py by auto. now apply Rmult_le_compat.
Qed.
Lemma nb_plus x y h : (-1074 <= h <= 1022)%Z -> nb x h -> nb y h -> nb (Bplus mode_NE x y) (h + 1).
Proof.
  intros H Hx Hy. assert (Fx := nb_fin x h ltac:(lia) Hx). assert (Fy := nb_fin y h ltac:(lia) Hy). destruct Hx as [Nx Bx], Hy as [Ny By].
  split; [now apply plus_nn|]. destruct (V_plus x y Fx Fy) as [_ ->]. apply sat_up; [lia|]. rewrite bpow_plus. change (bpow radix2 1) with 2. rewrite V_fin in Bx, By by auto. lra.
Qed.
Lemma nb_weak x h h' : (h <= h')%Z -> nb x h -> nb x h'.
Proof. intros H [N B]. split; [exact N|]. assert (A := bpow_le radix2 _ _ H). lra. Qed.
Lemma nb_vp x : valid_prob x -> nb x 0. Proof. intros H. destruct (vp_nn x H) as [A B]. split; [exact A|exact B]. Qed.
Lemma nb_bnd x l h : bnd x l h -> nb x h.
Proof. intros B. split; [apply PF_nn; now apply (bnd_PF _ l h)|]. destruct B as [F B]. rewrite V_fin by exact F. apply B. Qed.

Lemma nb_u (z : Z) : (0 <= z < 2 ^ 64)%Z -> nb (b64 z 0) 64.
Proof.
  intros H. destruct (Z.eq_dec z 0) as [E|E]; [subst z|apply (nb_bnd _ 0), bnd_u; lia]. assert (E0 : V (b64 0 0) = 0) by exact V_zero. split; [split; [reflexivity|rewrite E0; lra]|]. rewrite E0. apply bpow_ge_0.
Qed.

Theorem C152_bernoulli (m : Libm) (x : f64) (d : Bernoulli.t f64) : Bernoulli.new x = Ok d -> variance64 (Bernoulli.variance d).
Proof.
  intros H. unfold Bernoulli.new in H. inv_new H. apply (vp_inv m) in HP. destruct (not_val x HP) as [VQ _].
  change (le64 zero64 (Bmult mode_NE x (Bminus mode_NE (b64 1 0) x))). change (valid_prob (Bminus mode_NE (b64 1 0) x)) in VQ.
  apply nnv_le. apply (nb_mult _ _ 0 0); try lia; now apply nb_vp.
Qed.
Print Assumptions C152_bernoulli.
Theorem C152_binomial (m : Libm) (n : Z) (p : Probability f64) (d : Binomial.t f64) : Binomial.new n p = Ok d -> (n < 2 ^ 64)%Z -> variance64 (Binomial.variance d).
Proof.
  intros H K. destruct p as [x]. unfold Binomial.new in H. inv_new H. assert (VP := vp_inv m x HP0). destruct (not_val x VP) as [VQ _]. change (valid_prob (Bminus mode_NE (b64 1 0) x)) in VQ.
  change (le64 zero64 (Bmult mode_NE (Bmult mode_NE x (Bminus mode_NE (b64 1 0) x)) (b64 n 0))).
  apply nnv_le. apply (nb_mult _ _ 0 64); try lia; [apply (nb_mult _ _ 0 0); try lia; now apply nb_vp|]. apply nb_u. lia.
Qed.
Print Assumptions C152_binomial.
(** Geometric: parameter 0 is accepted and gives +inf (1/0/0) *)
Theorem C152_geometric (m : Libm) (x : f64) (d : Geometric.t f64) : Geometric.new x = Ok d -> variance64 (Geometric.variance d).
Proof.
  intros H. unfold Geometric.new in H. inv_new H. apply (vp_inv m) in HP.
  destruct (not_val x HP) as [VQ _]. change (valid_prob (Bminus mode_NE (b64 1 0) x)) in VQ.
  change (le64 zero64 (Bdiv mode_NE (Bdiv mode_NE (Bminus mode_NE (b64 1 0) x) x) x)). destruct HP as [F B]. destruct (Rle_lt_or_eq_dec 0 (RV x) (proj1 B)) as [L|L].
  - apply vp_nn in VQ as [VQ _]. apply nnv_le. apply div_pf; [apply div_pf; [exact VQ|]|]; now split.
  - destruct x as [[|]| | |sg mm ee hh]; try discriminate; [vm_compute; reflexivity|vm_compute; reflexivity|]. exfalso. symmetry in L. unfold RV in L. apply eq_0_F2R in L. destruct sg; discriminate L.
Qed.
Print Assumptions C152_geometric.
(** -0.0 passes the check [0 <= p <= 1]; the variance is then (1 / -0) / -0 = +inf, and the mean is -inf *)
Theorem C152_geometric_negative_zero (m : Libm) (d : Geometric.t f64) : Geometric.new (B754_zero true : f64) = Ok d -> Geometric.mean d = B754_infinity true /\ Geometric.variance d = B754_infinity false.
Proof. intros H. unfold Geometric.new in H. inv_new H. split; apply B2SF_inj; vm_compute; reflexivity. Qed.
Print Assumptions C152_geometric_negative_zero.

Theorem C152_poisson (m : Libm) (l : f64) (d : Poisson.t f64) : Poisson.new l = Ok d -> finite64 l -> variance64 (Poisson.variance d).
Proof.
  intros H F. unfold Poisson.new in H. inv64 H. change (le64 zero64 l). apply nnv_le. nn.
Qed.
Print Assumptions C152_poisson.
Lemma ratio_nb a b : PF a -> nnv b -> valid_prob (Bdiv mode_NE a (Bplus mode_NE a b)).
Proof.
  intros P N. destruct (plus_pos a b P N) as [NS LS]. destruct P as [F P]. set (s := Bplus mode_NE a b) in *.
  assert (ND : nnv (Bdiv mode_NE a s)) by (apply div_nn; [now apply nn_fin|apply NS|lra|now left]). apply V_valid; [apply ND|]. split; [apply ND|].
  destruct (nnv_cases s NS) as [[Fs Ps]|Es].
  - rewrite V_fin in LS by exact Fs. destruct (V_div a s F Fs ltac:(lra)) as [_ ->]. apply sat_le1. apply Rmult_le_reg_r with (RV s); [lra|]. unfold Rdiv. rewrite Rmult_assoc, Rinv_l by lra. lra.
  - rewrite Es. destruct a; try discriminate; cbn; lra.
Qed.
Lemma plus_pos_r x y : nnv x -> PF y -> nnv (Bplus mode_NE x y) /\ RV y <= V (Bplus mode_NE x y).
Proof.
  intros N [F P]. split; [apply plus_nn; [exact N|apply PF_nn; split; auto]|]. assert (B := fin_lt y F). assert (Q := M64_pos).
  destruct (nnv_cases x N) as [[Fx Px]|Ex].
  - destruct (V_plus x y Fx F) as [_ ->]. rewrite <- (sat_fmt (RV y)) at 1; [apply sat_mono; lra|apply fmt_RV|lra].
  - subst x. destruct y; try discriminate; cbn [Bplus V]; lra.
Qed.
Lemma recip_vp y : nnv y -> 1 <= V y -> valid_prob (Bdiv mode_NE (b64 1 0) y).
Proof.
  intros N L. destruct (b64_z 1 ltac:(lia)) as [F1 V1]. assert (ND : nnv (Bdiv mode_NE (b64 1 0) y)) by (apply div_nn; [apply PF_nn; lit|apply N|lra|now left]).
  apply V_valid; [apply ND|]. split; [apply ND|]. destruct (nnv_cases y N) as [[Fy Py]|Ey].
  - rewrite V_fin in L by exact Fy. destruct (V_div (b64 1 0) y F1 Fy ltac:(lra)) as [_ ->]. apply sat_le1. rewrite V1. unfold Rdiv. rewrite Rmult_1_l, <- Rinv_1. apply Rinv_le_contravar; lra.
  - subst y. change (V (B754_zero false) <= 1). change (0 <= 1). lra.
Qed.
Theorem C152_beta_binomial (m : Libm) (n : Z) (a b : f64) (d : BetaBinomial.t f64) : BetaBinomial.new n a b = Ok d -> (n < 2 ^ 64)%Z -> finite64 a -> finite64 b -> variance64 (BetaBinomial.variance d).
Proof.
  intros H K Fa Fb. unfold BetaBinomial.new in H. inv64 H. assert (Pa : PF a) by pf. assert (Pb : PF b) by pf.
  assert (VP := ratio_nb a b Pa (PF_nn _ Pb)). destruct (plus_pos a b Pa (PF_nn _ Pb)) as [NS _].
  destruct (plus_pos_r (Bplus mode_NE a b) (b64 1 0) NS ltac:(lit)) as [NT LT]. destruct (b64_z 1 ltac:(lia)) as [F1 V1]. rewrite V1 in LT. assert (VR := recip_vp _ NT LT).
  change (le64 zero64 (Bmult mode_NE (Bmult mode_NE (Bmult mode_NE (b64 n 0) (Bdiv mode_NE a (Bplus mode_NE a b))) (Bminus mode_NE (b64 1 0) (Bdiv mode_NE a (Bplus mode_NE a b))))
    (Bplus mode_NE (b64 1 0) (Bmult mode_NE (Bminus mode_NE (b64 n 0) (b64 1 0)) (Bdiv mode_NE (b64 1 0) (Bplus mode_NE (Bplus mode_NE a b) (b64 1 0))))))).
  set (p := Bdiv mode_NE a (Bplus mode_NE a b)) in *. set (r := Bdiv mode_NE (b64 1 0) _) in *. clearbody p r. clear NS NT LT.
  destruct (not_val p VP) as [VQ _]. change (valid_prob (Bminus mode_NE (b64 1 0) p)) in VQ. apply nnv_le.
  apply (nb_mult _ _ 64 65); try lia.
  - apply (nb_mult _ _ 64 0); try lia; [|now apply nb_vp]. apply (nb_mult _ _ 64 0); try lia; [|now apply nb_vp]. apply nb_u; lia.
  - destruct (Z.eq_dec n 0) as [E|E].
    + subst n. assert (FR := proj1 VR). destruct VR as [_ BR]. fold (RV r) in BR. assert (E1 : Bminus mode_NE (b64 0 0) (b64 1 0) = Bopp (b64 1 0)) by (apply B2SF_inj; vm_compute; reflexivity). rewrite E1.
      assert (F1' : fin (Bopp (b64 1 0))) by reflexivity. assert (V1' : RV (Bopp (b64 1 0)) = -1) by (unfold RV; rewrite B2R_Bopp; fold (RV (b64 1 0)); rewrite V1; lra).
      destruct (V_mult (Bopp (b64 1 0)) r F1' FR) as [N2 E2]. rewrite V1' in E2. assert (M := M64_pos).
      rewrite sat_fmt in E2; [|replace (-1 * RV r) with (- RV r) by ring; apply generic_format_opp, fmt_RV|lra].
      assert (F2 : fin (Bmult mode_NE (Bopp (b64 1 0)) r)) by (apply V_fin_iff; [exact N2|rewrite E2; lra]). rewrite V_fin in E2 by exact F2.
      destruct (V_plus (b64 1 0) _ F1 F2) as [N3 E3]. rewrite V1, E2 in E3. split; [split; [exact N3|rewrite E3; apply sat_pos; lra]|]. rewrite E3. apply Rle_trans with 1; [apply sat_le1; lra|]. apply (bpow_le radix2 0 65). lia.
    + apply (nb_plus _ _ 64); [lia|apply nb_weak with 0%Z; [lia|]; apply nb_vp; split; [exact F1|fold (RV (b64 1 0)); rewrite V1; lra]|].
      apply (nb_mult _ _ 64 0); try lia; [|now apply nb_vp].
      assert (P := bnd_u n ltac:(lia)). destruct P as [FN [P1 P2]]. destruct (V_minus (b64 n 0) (b64 1 0) FN F1) as [N3 E3]. rewrite V1 in E3. cbn [bpow] in P1.
      split; [split; [exact N3|rewrite E3; apply sat_pos; lra]|]. rewrite E3. apply sat_up; [lia|]. change (bpow radix2 0) with 1 in P1. lra.
Qed.
Print Assumptions C152_beta_binomial.

(** Beta: the quotient a*b / ((a+b)^2 (a+b+1)) overflows or underflows on both sides for extreme shapes *)
Lemma beta_new_ok (m : Libm) (a b : f64) : fltb (f_of_Z 0 : f64) a = true -> fltb (f_of_Z 0 : f64) b = true -> Beta.new a b = Ok (Beta.new_unchecked a b).
Proof.
  intros PA PB. unfold Beta.new. etransitivity; [apply map_params_ok; cbn [args s1 s2 s3 fst snd]; repeat (apply Forall_cons || apply Forall_nil); unfold arg_ok; cbn [arg_ty arg_val field_ok]; first [exact I|exact PA|exact PB] | reflexivity].
Qed.
Lemma nan_of (x : f64) : B2SF x = SpecFloat.S754_nan -> x = B754_nan.
Proof. destruct x; cbn; try discriminate; reflexivity. Qed.
Theorem C152_beta_refuted (m : Libm) :
  (exists d, Beta.new (b64 1 600) (b64 1 600) = Ok d /\ Beta.variance d = B754_nan) /\ (exists d, Beta.new (b64 1 (-600)) (b64 1 (-600)) = Ok d /\ Beta.variance d = B754_nan).
Proof.
  split; [exists (Beta.new_unchecked (b64 1 600) (b64 1 600))|exists (Beta.new_unchecked (b64 1 (-600)) (b64 1 (-600)))]; (split; [apply beta_new_ok; vm_compute; reflexivity|]); apply nan_of; vm_compute; reflexivity.
Qed.
Print Assumptions C152_beta_refuted.
Theorem C152_beta_partial (m : Libm) (a b : f64) (d : Beta.t f64) : Beta.new a b = Ok d ->
  le64 (b64 1 (-250)) a -> le64 a (b64 1 250) -> le64 (b64 1 (-250)) b -> le64 b (b64 1 250) -> variance64 (Beta.variance d).
Proof.
  intros H A1 A2 B1 B2. unfold Beta.new in H. inv_new H.
  assert (R : forall e, (-1074 <= e <= 1000)%Z -> fin (b64 1 e) /\ RV (b64 1 e) = bpow radix2 e).
  { intros e He. destruct (b64_spec 1 e) as [F E]; rewrite Rmult_1_l in *; [|split; [exact F|unfold RV in *; rewrite E; apply rnd_fmt; apply fmt_bpow; lia]]. apply rnd_small. rewrite Rabs_pos_eq by apply bpow_ge_0. apply bpow_le. lia. }
  assert (X : forall x, le64 (b64 1 (-250)) x -> le64 x (b64 1 250) -> bnd x (-250) 250).
  { intros x L U. destruct (R (-250)%Z ltac:(lia)) as [F1 V1]. destruct (R 250%Z ltac:(lia)) as [F2 V2]. assert (NX : num x) by (destruct (le_num _ _ L); assumption).
    apply le_V1 in L, U. rewrite (V_fin (b64 1 (-250))), V1 in L by exact F1. rewrite (V_fin (b64 1 250)), V2 in U by exact F2.
    assert (P := bpow_gt_0 radix2 (-250)). assert (bpow radix2 250 < M64) by (change M64 with (bpow radix2 1024); apply bpow_lt; lia). assert (F : fin x) by (apply V_fin_iff; [exact NX|lra]). rewrite V_fin in L, U by exact F. now split. }
  assert (Ba := X a A1 A2). assert (Bb := X b B1 B2). clear - Ba Bb.
  assert (S1 := bnd_plus _ _ _ _ _ Ba Bb ltac:(lia) ltac:(lia)). assert (B1 : bnd (b64 1 0) (-250) (250 + 1)).
  { destruct (b64_z 1 ltac:(lia)) as [F1 V1]. split; [exact F1|]. rewrite V1. split; [apply (bpow_le radix2 (-250) 0)|apply (bpow_le radix2 0 251)]; lia. }
  assert (S2 := bnd_plus _ _ _ _ _ S1 B1 ltac:(lia) ltac:(lia)). assert (M1 := bnd_mult _ _ _ _ _ _ S1 S1 ltac:(lia) ltac:(lia)). assert (M2 := bnd_mult _ _ _ _ _ _ M1 S2 ltac:(lia) ltac:(lia)).
  change (le64 zero64 (Bdiv mode_NE (Bmult mode_NE a b) (Bmult mode_NE (Bmult mode_NE (Bplus mode_NE a b) (Bplus mode_NE a b)) (Bplus mode_NE (Bplus mode_NE a b) (b64 1 0))))).
  apply bnd_PF in M2, Ba, Bb. apply nnv_le. nn.
Qed.
Print Assumptions C152_beta_partial.
(** Triangular: the sum of squares minus the sum of cross products cancels far from the origin; the variance comes out negative
    (and the standard deviation NaN) *)
Lemma triangular_new_ok (m : Libm) (a b c : f64) : fltb (f_of_Z 0 : f64) b = true -> fltb (f_of_Z 0 : f64) c = true -> Triangular.new a b c = Ok (Triangular.new_unchecked a b c).
Proof.
  intros PA PB. unfold Triangular.new. etransitivity; [apply map_params_ok; cbn [args s1 s2 s3 fst snd]; repeat (apply Forall_cons || apply Forall_nil); unfold arg_ok; cbn [arg_ty arg_val field_ok]; first [exact I|exact PA|exact PB] | reflexivity].
Qed.
Theorem C152_triangular_refuted (m : Libm) : exists d, Triangular.new (b64 195155286 0) (b64 2 0) (b64 1 0) = Ok d /\ lt64 (Triangular.variance d) zero64 /\ fsqrt (Triangular.variance d) = (B754_nan : f64).
Proof.
  exists (Triangular.new_unchecked (b64 195155286 0) (b64 2 0) (b64 1 0)). split; [apply triangular_new_ok; vm_compute; reflexivity|]. split; [vm_compute; reflexivity|apply nan_of; vm_compute; reflexivity].
Qed.
Print Assumptions C152_triangular_refuted.

(** GPD: the variance is only returned for shapes above 1/2, where the formula is negative *)
Lemma gpd_new_ok (m : Libm) (a b c : f64) : fltb (f_of_Z 0 : f64) b = true -> fltb (f_of_Z 0 : f64) c = true -> GPD.new a b c = Ok (GPD.new_unchecked a b c).
Proof.
  intros PA PB. unfold GPD.new. etransitivity; [apply map_params_ok; cbn [args s1 s2 s3 fst snd]; repeat (apply Forall_cons || apply Forall_nil); unfold arg_ok; cbn [arg_ty arg_val field_ok]; first [exact I|exact PA|exact PB] | reflexivity].
Qed.
Theorem C152_gpd_refuted (m : Libm) : m_powi (Bopp one64) 2 = one64 ->
  exists d v, GPD.new zero64 one64 (b64 2 0) = Ok d /\ GPD.variance d = Ret v /\ lt64 v zero64.
Proof.
  intros HP. exists (GPD.new_unchecked zero64 one64 (b64 2 0)). eexists. split; [apply gpd_new_ok; vm_compute; reflexivity|]. split.
  - unfold GPD.variance. cbn [GPD.pr GPD.new_unchecked]. match goal with |- context [if ?c then _ else _] => replace c with false by (vm_compute; reflexivity) end.
    change (fpowi (fsub (f_of_Z 1) (b64 2 0)) 2) with (m_powi (Bminus mode_NE (b64 1 0) (b64 2 0)) 2).
    replace (Bminus mode_NE (b64 1 0) (b64 2 0)) with (Bopp one64) by (apply B2SF_inj; vm_compute; reflexivity). rewrite HP. reflexivity.
  - vm_compute. reflexivity.
Qed.
Print Assumptions C152_gpd_refuted.

(** LogNormal: (exp(s^2) - 1) * exp(2 mu + s^2) is 0 * inf for a small s and a large mu *)
Lemma lognormal_new_ok (m : Libm) (a b : f64) : fltb (f_of_Z 0 : f64) b = true -> LogNormal.new a b = Ok (LogNormal.new_unchecked a b).
Proof.
  intros PB. unfold LogNormal.new, UvNormal.new, UvNormal.params_new, loc_new, isotropic_new. cbn [and_then map_ok map_err check]. unfold check_default. cbn [is_satisfied_by]. unfold pltb, POrd_scalar, pzero.
  rewrite PB. reflexivity.
Qed.
Theorem C152_lognormal_refuted (m : Libm) : libm_extreme m -> m_exp zero64 = one64 ->
  exists d, LogNormal.new (b64 1000 0) (b64 1 (-600)) = Ok d /\ LogNormal.variance d = B754_nan.
Proof.
  intros HX H0. exists (LogNormal.new_unchecked (b64 1000 0) (b64 1 (-600))). split; [apply lognormal_new_ok; vm_compute; reflexivity|].
  change (Bmult mode_NE (Bminus mode_NE (m_exp (Bmult mode_NE (b64 1 (-600)) (b64 1 (-600)))) (b64 1 0)) (m_exp (Bplus mode_NE (Bmult mode_NE (b64 2 0) (b64 1000 0)) (Bmult mode_NE (b64 1 (-600)) (b64 1 (-600))))) = B754_nan).
  replace (Bmult mode_NE (b64 1 (-600)) (b64 1 (-600))) with zero64 by (apply B2SF_inj; vm_compute; reflexivity). rewrite H0. rewrite (exp_over m HX); [vm_compute; reflexivity|vm_compute; reflexivity].
Qed.
Print Assumptions C152_lognormal_refuted.
Theorem C152_lognormal_partial (m : Libm) (mu s : f64) (d : LogNormal.t f64) : libm_range m -> libm_monotone m -> m_exp zero64 = one64 ->
  LogNormal.new mu s = Ok d -> finite64 s -> finite64 (m_exp (Bmult mode_NE s s)) -> finite64 (m_exp (Bplus mode_NE (Bmult mode_NE (b64 2 0) mu) (Bmult mode_NE s s))) -> number (Bplus mode_NE (Bmult mode_NE (b64 2 0) mu) (Bmult mode_NE s s)) ->
  variance64 (LogNormal.variance d).
Proof.
  intros HR HM H0 H Fs F1 F2 NB. unfold LogNormal.new in H. destruct (UvNormal.new mu s) as [u|] eqn:E; [|discriminate H]. injection H as <-. apply normal_inv in E as [-> P].
  change (le64 zero64 (Bmult mode_NE (Bminus mode_NE (m_exp (Bmult mode_NE s s)) (b64 1 0)) (m_exp (Bplus mode_NE (Bmult mode_NE (b64 2 0) mu) (Bmult mode_NE s s))))).
  assert (NS : nnv (Bmult mode_NE s s)) by (apply sq_nn; now apply fin_num). set (q := Bmult mode_NE s s) in *. assert (N2 : nnv (m_exp (Bplus mode_NE (Bmult mode_NE (b64 2 0) mu) q))) by (apply (xp_nn HR); exact NB).
  set (e2 := m_exp (Bplus mode_NE (Bmult mode_NE (b64 2 0) mu) q)) in *.
  assert (L := exp_mono m HM zero64 q (nnv_le _ NS)). rewrite H0 in L. apply le_V1 in L. rewrite V_one in L. set (e1 := m_exp q) in *. rewrite V_fin in L by exact F1.
  destruct (b64_z 1 ltac:(lia)) as [FB VB]. destruct (V_minus e1 (b64 1 0) F1 FB) as [N E]. rewrite VB in E. assert (B := fin_lt e1 F1). assert (M := M64_pos).
  assert (G : 0 <= sat (RV e1 - 1) <= RV e1) by (split; [apply sat_pos; lra|rewrite <- (sat_fmt (RV e1)) at 2; [apply sat_mono; lra|apply fmt_RV|lra]]).
  assert (FM : fin (Bminus mode_NE e1 (b64 1 0))) by (apply V_fin_iff; [exact N|rewrite E; lra]).
  apply nnv_le, mult_nn; [split; [exact N|rewrite E; lra]|exact N2|now left|now left].
Qed.
Print Assumptions C152_lognormal_partial.

(** the hypotheses are met: the libm facts by the correctly rounded libm, the constructors by ordinary parameters *)
Lemma one_of (x : f64) : num x -> V x = 1 -> x = one64.
Proof.
  intros N E. assert (M := M64_pos). assert (F : fin x) by (apply V_fin_iff; [exact N|lra]). rewrite V_fin in E by exact F. destruct (b64_z 1 ltac:(lia)) as [F1 V1].
  apply B2R_inj; [destruct x; try discriminate; [cbn in E; lra|reflexivity]|vm_compute; reflexivity|]. transitivity 1; [exact E|symmetry; exact V1].
Qed.
Example C152_libm : @m_exp cr_libm zero64 = one64 /\ @m_powi cr_libm (Bopp one64) 2 = one64 /\ libm_extreme cr_libm /\ libm_range cr_libm /\ libm_monotone cr_libm.
Proof.
  split; [|split; [|split; [apply cr_extreme|split; [apply cr_range|apply cr_monotone]]]]; (apply one_of; [apply r2f_num|]); (etransitivity; [apply r2f_V|]).
  - replace (RV zero64) with 0 by (symmetry; exact RV_b64_0). rewrite exp_0. apply sat_1.
  - unfold RV. rewrite B2R_Bopp. replace (B2R one64) with 1 by (symmetry; exact RV_b64_1). replace (powerRZ (-(1)) 2) with 1 by (change (powerRZ (-(1)) 2) with ((-(1)) * ((-(1)) * 1)); lra). apply sat_1.
Qed.
Example C152_nonvacuous (m : Libm) : let a := b64 (-3) (-1) in let s := b64 5 (-2) in
  (exists d, Exponential.new s = Ok d) /\ (exists d, Logistic.new a s = Ok d) /\ (exists d, Gumbel.new a s = Ok d) /\ (exists d, Arcsine.new a s = Ok d) /\ (exists d, Cosine.new a s = Ok d) /\ (exists d, Laplace.new a s = Ok d) /\
  (exists d, Rayleigh.new s = Ok d) /\ (exists d, Gamma.new s s = Ok d) /\ (exists d, InvNormal.new s s = Ok d) /\ (exists d, Pareto.new s s = Ok d) /\ (exists d, InvGamma.new s s = Ok d) /\ (exists d, BetaPrime.new s s = Ok d) /\
  (exists d, StudentT.new s = Ok d) /\ (exists d, Erlang.new 3 s = Ok d) /\ (exists d, Poisson.new s = Ok d) /\ (exists d, BetaBinomial.new 7 s s = Ok d) /\ (exists d, Beta.new s s = Ok d) /\ (exists d, LogNormal.new a s = Ok d) /\
  (exists d, ChiSq.new (F := f64) 3 = Ok d) /\ (exists d, FDist.new (F := f64) 3 9 = Ok d) /\ le64 (b64 1 (-250)) s /\ le64 s (b64 1 250).
Proof.
  intros a s. assert (PS : fltb (f_of_Z 0 : f64) s = true) by (vm_compute; reflexivity).
  repeat match goal with |- (exists d, _) /\ _ => split end.
  all: try (match goal with |- exists d, LogNormal.new _ _ = _ => eexists; apply lognormal_new_ok; exact PS end).
  all: try (eexists; match goal with |- ?t = _ => let f := head t in unfold f end; apply map_params_ok; cbn [args s1 s2 s3 fst snd]; repeat (apply Forall_cons || apply Forall_nil); unfold arg_ok; cbn [arg_ty arg_val field_ok]; first [exact I|exact PS|lia]; fail).
  split; vm_compute; reflexivity.
Qed.
Example C152_nonvacuous_p (m : Libm) : (exists d, Geometric.new (b64 1 (-2)) = Ok d) /\ (exists d, Bernoulli.new (b64 1 (-2)) = Ok d) /\ (exists d, Binomial.new 5 (Prob (b64 1 (-2))) = Ok d).
Proof.
  split; [|split].
  - destruct (Geometric.new (b64 1 (-2))) as [d|e] eqn:E; [eauto|]. assert (H : is_ok (Geometric.new (b64 1 (-2))) = false) by (rewrite E; reflexivity). revert H. vm_compute. discriminate.
  - destruct (Bernoulli.new (b64 1 (-2))) as [d|e] eqn:E; [eauto|]. assert (H : is_ok (Bernoulli.new (b64 1 (-2))) = false) by (rewrite E; reflexivity). revert H. vm_compute. discriminate.
  - destruct (Binomial.new 5 (Prob (b64 1 (-2)))) as [d|e] eqn:E; [eauto|]. assert (H : is_ok (Binomial.new 5 (Prob (b64 1 (-2)))) = false) by (rewrite E; reflexivity). revert H. vm_compute. discriminate.
Qed.
Example C152_uniform_i_ex (m : Libm) : exists (d : UniformI.t f64) v, UniformI.new (-2) 5 = Ret (Ok d) /\ UniformI.variance d = Ret v.
Proof.
  exists (UniformI.mk (UniformI.mkP (-2) 5) (Bdiv mode_NE (b64 1 0) (b64 6 0))). eexists. split; reflexivity.
Qed.
