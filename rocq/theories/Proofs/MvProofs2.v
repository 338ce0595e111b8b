(** * Multivariate normals: density, sampling *)
From Coq Require Import Reals Lra Lia Psatz List Arith ZArith Bool.
From Coquelicot Require Import Coquelicot.
From Verif.Num Require Import Scalar XReal.
From Verif.Model Require Import Rust Constraints Probability Params Consts Traits Linalg Normal2.
From Verif.Model Require MvNormal.
From Verif.Spec Require Import DistSpec SampleSpec MvSpec LapackSpec.
From Verif.Proofs Require Import ConstraintProofs NewInv XTac Matrix MvProofs DiscProofs4 Gauss ContProofs9 ContProofs25 Normal2Proofs.
Import ListNotations.
Open Scope R_scope.

Lemma PI_2_val : (PI_2 : xreal) = Fin (2 * PI).
Proof. unfold PI_2. xs. f_equal. ring. Qed.
Lemma pdf_with_ok {S} (f : MvNormal.MvN xreal S -> list xreal -> xreal) d l n q D :
  MvNormal.dim d = n -> (Z.of_nat n < 2 ^ 31)%Z -> MvNormal.Sigma_det d = Fin D -> 0 < D -> f d l = Fin q ->
  MvNormal.pdf_with f d l = Fin (exp (- q / 2) / sqrt ((2 * PI) ^ n * D)).
Proof.
  intros Hn Hb HD Hp Hq. assert (P := PI_RGT_0). unfold MvNormal.pdf_with. rewrite Hq, HD, Hn, PI_2_val, as_i32_id by lia. rewrite x_powi_nat.
  assert (0 < (2 * PI) ^ n) by (apply pow_lt; lra). assert (0 < (2 * PI) ^ n * D) by now apply Rmult_lt_0_compat.
  cbv zeta. xs. reflexivity.
Qed.
Lemma entropy_ok {S} (d : MvNormal.MvN xreal S) n D : MvNormal.dim d = n -> MvNormal.Sigma_det d = Fin D -> 0 < D ->
  MvNormal.shannon_entropy d = Fin (1 / 2 * (INR n * (1 + ln (2 * PI)) + ln D)).
Proof.
  intros Hn HD Hp. assert (P := PI_RGT_0). unfold MvNormal.shannon_entropy, ONE_HALF. rewrite Hn, HD, PI_2_val. xs. rewrite <- INR_IZR_INZ. reflexivity.
Qed.
(** product of univariate densities *)
Lemma prod_density n u s x : (forall i, (i < n)%nat -> 0 < s i) ->
  rprod n (fun i => normal_density (u i) (sqrt (s i)) (x i)) =
  exp (- (rsum n (fun i => (x i - u i) * (x i - u i) / s i)) / 2) / sqrt ((2 * PI) ^ n * rprod n s).
Proof.
  assert (P := PI_RGT_0). induction n; intros H; cbn [rprod rsum pow].
  - rewrite Rmult_1_l, sqrt_1. replace (- 0 / 2) with 0 by field. rewrite exp_0. field.
  - assert (Hs := H n ltac:(lia)). assert (Hr : 0 < rprod n s) by (apply rprod_pos; intros; apply H; lia).
    rewrite IHn by (intros; apply H; lia). assert (0 < (2 * PI) ^ n) by (apply pow_lt; lra).
    assert (H1 : 0 < (2 * PI) ^ n * rprod n s) by pos.
    replace (2 * PI * (2 * PI) ^ n * (rprod n s * s n)) with ((2 * PI) ^ n * rprod n s * (2 * PI * s n)) by ring.
    rewrite (sqrt_mult ((2 * PI) ^ n * rprod n s) (2 * PI * s n)) by (try lra; left; pos). rewrite (sqrt_mult (2 * PI) (s n)) by lra.
    assert (Q1 := sqrt_lt_R0 _ H1). assert (Q2 := sqrt_lt_R0 _ Hs). assert (Q3 : 0 < sqrt (2 * PI)) by (apply sqrt_lt_R0; lra).
    unfold normal_density. set (r := rsum n (fun i => (x i - u i) * (x i - u i) / s i)).
    replace (- (r + (x n - u n) * (x n - u n) / s n) / 2) with (- r / 2 + - ((x n - u n) / sqrt (s n)) ^ 2 / 2).
    + rewrite exp_plus. field. split; [|split]; lra.
    + assert (E := sqrt_sqrt (s n) ltac:(lra)). rewrite <- E at 2. field. lra.
Qed.
(** sampling *)
Lemma draw_normals_ok {G} {RG : Rng G xreal} g zs g' : normal_draws g zs g' -> MvNormal.draw_normals (length zs) g = (map Fin zs, g').
Proof. induction 1 as [|g z g1 zs g2 E H IH]; [reflexivity|]. cbn [length MvNormal.draw_normals]. rewrite E, IH. reflexivity. Qed.

Lemma diag_vec n B v i : (forall i k, (i < n)%nat -> (k < n)%nat -> i <> k -> B i k = 0) -> (i < n)%nat -> rsum n (fun k => B i k * v k) = B i i * v i.
Proof. intros H Hi. apply (rsum_single n i (fun k => B i k * v k)); auto. intros k Hk N. rewrite H by auto. ring. Qed.

Section Gen.
Context {LA : Lapack xreal} (HLA : lapack_ok LA).
Context (n : nat) (m : list xreal) (u : nat -> R) (Sg : list (list xreal)) (A : nat -> nat -> R).
Context (Hm : is_vec n m u) (HSg : is_mat n Sg A) (HA : spd n A).
Let d := MvNormal.new_unchecked m Sg.
Lemma mvn_sample L : is_mat n (MvNormal.Sigma_lt d) L -> (forall i j, (i < n)%nat -> (i < j)%nat -> L i j = 0) ->
  samples_affine n (fun G RG g => MvNormal.sample d g) u L.
Proof.
  intros HL HU G RG g zs g' Hn HG. unfold MvNormal.sample. assert (Ed : MvNormal.dim d = n) by (apply (mvn_dim n m u Sg Hm)).
  rewrite Ed, <- Hn, (draw_normals_ok g zs g' HG). cbn [fst snd]. split; [reflexivity|]. rewrite Hn.
  assert (Hz := vec_list zs). rewrite Hn in Hz.
  eapply vec_zip; [apply (mv_mult_ok HLA n _ L _ _ HL Hz)|exact Hm|]. cbv beta. intros i Hi. xs. f_equal. rewrite Rplus_comm. f_equal.
  apply rsum_ext; intros k Hk. destruct (Nat.ltb_spec i k); [rewrite HU by auto; ring|reflexivity].
Qed.
End Gen.

(** ** two dimensions: the density does not integrate to one *)
Definition mat2 (a b c d : R) (i j : nat) : R := match i, j with O, O => a | O, _ => b | _, O => c | _, _ => d end.
Definition vec2 (a b : R) (i : nat) : R := match i with O => a | _ => b end.
Lemma is_vec2 a b : is_vec 2 [Fin a; Fin b] (vec2 a b).
Proof. split; [reflexivity|]. intros [|[|i]] Hi; [reflexivity|reflexivity|lia]. Qed.
Lemma is_mat2 a b c d : is_mat 2 [[Fin a; Fin b]; [Fin c; Fin d]] (mat2 a b c d).
Proof. split; [reflexivity|]. intros [|[|i]] Hi; [| |lia]; (split; [reflexivity|]; intros [|[|j]] Hj; [reflexivity|reflexivity|lia]). Qed.
Lemma spd2 a b c : 0 < a -> 0 < a * b - c * c -> spd 2 (mat2 a c c b).
Proof.
  intros Ha HD. split. { intros [|[|i]] [|[|j]] Hi Hj; try lia; reflexivity. }
  intros x [i [Hi Hx]]. unfold qform. cbn [rsum mat2].
  assert (E : a * (0 + (0 + x 0%nat * a * x 0%nat + x 0%nat * c * x 1%nat) + (0 + x 1%nat * c * x 0%nat + x 1%nat * b * x 1%nat))
    = (a * x 0%nat + c * x 1%nat) * (a * x 0%nat + c * x 1%nat) + (a * b - c * c) * (x 1%nat * x 1%nat)) by ring.
  assert (S1 := Rle_0_sqr (a * x 0%nat + c * x 1%nat)). unfold Rsqr in S1.
  assert (S2 := Rle_0_sqr (x 1%nat)). unfold Rsqr in S2.
  apply (Rmult_lt_reg_l a); [auto|]. rewrite Rmult_0_r, E.
  destruct (Req_dec (x 1%nat) 0) as [Z|Z].
  - rewrite Z in *. assert (x 0%nat <> 0). { intros Z0. destruct i as [|[|i]]; [auto|auto|lia]. }
    assert (0 < (a * x 0%nat) * (a * x 0%nat)) by (apply Rsqr_pos_lt; apply Rmult_integral_contrapositive_currified; lra). nra.
  - assert (0 < x 1%nat * x 1%nat) by (now apply Rsqr_pos_lt). assert (0 < (a * b - c * c) * (x 1%nat * x 1%nat)) by now apply Rmult_lt_0_compat. lra.
Qed.
Section Two.
Context {LA : Lapack xreal} (HLA : lapack_ok LA) (m0 m1 a b c : R) (Ha : 0 < a) (HD : 0 < a * b - c * c).
Let d := MvNormal.new_unchecked [Fin m0; Fin m1] [[Fin a; Fin c]; [Fin c; Fin b]].
Let D := a * b - c * c.
Lemma mvn2_det : det 2 (mat2 a c c b) = D.
Proof. unfold D. cbn [det rsum mat2 skip pow Nat.ltb Nat.leb]. ring. Qed.
Lemma mvn2_dist2 x y : MvNormal.d_mahalanobis_squared d [Fin x; Fin y] =
  Fin ((b * (x - m0) * (x - m0) - c * (x - m0) * (y - m1) + a * (y - m1) * (y - m1)) / D).
Proof.
  destruct (mvn_factors HLA 2 _ _ _ _ (is_vec2 m0 m1) (is_mat2 a c c b) (spd2 a b c Ha HD)) as (L & P & _ & _ & _ & _ & HP & SP & AP & _).
  unfold d. rewrite (mvn_dist2 HLA 2 _ _ _ (is_vec2 m0 m1) P _ _ HP (is_vec2 x y)).
  assert (E00 := AP 0%nat 0%nat ltac:(lia) ltac:(lia)). assert (E10 := AP 1%nat 0%nat ltac:(lia) ltac:(lia)).
  assert (E01 := AP 0%nat 1%nat ltac:(lia) ltac:(lia)). assert (E11 := AP 1%nat 1%nat ltac:(lia) ltac:(lia)).
  unfold mmul, ident in *. cbn [rsum mat2 Nat.eqb] in *.
  assert (P00 : P 0%nat 0%nat = b / D). { unfold D. transitivity ((b * (0 + a * P 0%nat 0%nat + c * P 1%nat 0%nat) - c * (0 + c * P 0%nat 0%nat + b * P 1%nat 0%nat)) / (a * b - c * c)); [field; lra|]. rewrite E00, E10. f_equal. ring. }
  assert (P10 : P 1%nat 0%nat = - c / D). { unfold D. transitivity ((a * (0 + c * P 0%nat 0%nat + b * P 1%nat 0%nat) - c * (0 + a * P 0%nat 0%nat + c * P 1%nat 0%nat)) / (a * b - c * c)); [field; lra|]. rewrite E00, E10. f_equal. ring. }
  assert (P11 : P 1%nat 1%nat = a / D). { unfold D. transitivity ((a * (0 + c * P 0%nat 1%nat + b * P 1%nat 1%nat) - c * (0 + a * P 0%nat 1%nat + c * P 1%nat 1%nat)) / (a * b - c * c)); [field; lra|]. rewrite E01, E11. f_equal. ring. }
  f_equal. cbn [rsum vec2 Nat.ltb Nat.leb]. rewrite P00, P10, P11. unfold D. field. lra.
Qed.
Lemma mvn2_pdf x y : MvNormal.pdf d [Fin x; Fin y] =
  Fin (exp (- ((b * (x - m0) * (x - m0) - c * (x - m0) * (y - m1) + a * (y - m1) * (y - m1)) / D) / 2) / (2 * PI * sqrt D)).
Proof.
  destruct (mvn_factors HLA 2 _ _ _ _ (is_vec2 m0 m1) (is_mat2 a c c b) (spd2 a b c Ha HD)) as (L & P & _ & _ & _ & _ & _ & _ & _ & _ & Hd & Hp).
  assert (Q := PI_RGT_0). unfold MvNormal.pdf. rewrite (pdf_with_ok _ d _ 2 _ (det 2 (mat2 a c c b)) eq_refl ltac:(lia) Hd Hp (mvn2_dist2 x y)).
  rewrite mvn2_det. f_equal. rewrite sqrt_mult by (try (left; apply pow_lt; lra); unfold D; lra). rewrite sqrt_pow2 by lra. reflexivity.
Qed.
Let K := a * b - c * c / 4.
Lemma mvn2_mass : plane_int (fun x y => 1 * rf2 (fun p => MvNormal.pdf d [fst p; snd p]) x y) (sqrt (D / K)).
Proof.
  assert (Hb : 0 < b) by nra. assert (HK : 0 < K) by (unfold K; nra). assert (HDp : 0 < D) by exact HD. assert (Q := PI_RGT_0).
  assert (S0 : 0 < sqrt (a * D / K)) by (apply sqrt_lt_R0; pos). assert (S1 : 0 < sqrt (D / a)) by (apply sqrt_lt_R0; pos).
  assert (E0 : sqrt (a * D / K) * sqrt (a * D / K) = a * D / K) by (apply sqrt_sqrt; left; pos).
  assert (E1 : sqrt (D / a) * sqrt (D / a) = D / a) by (apply sqrt_sqrt; left; pos).
  assert (EP : sqrt (a * D / K) * sqrt (D / a) = D / sqrt K).
  { rewrite <- sqrt_mult by (left; pos). replace (a * D / K * (D / a)) with (D * D / K) by (field; lra).
    rewrite sqrt_div by (try (left; pos); lra). rewrite sqrt_square by lra. reflexivity. }
  generalize (plane_quad m0 (sqrt (a * D / K)) (fun x => m1 + c / (2 * a) * (x - m0)) (sqrt (D / a)) (sqrt (D / K)) 0 0 0 0 0 S0 S1).
  apply plane_ext; [|ring]. intros x y. unfold rf2. cbn [fst snd]. rewrite mvn2_pdf. cbn [val].
  unfold normal_density. set (X := x - m0). replace (y - (m1 + c / (2 * a) * X)) with ((y - m1) - c / (2 * a) * X) by ring. set (Y := y - m1).
  replace ((X / sqrt (a * D / K)) ^ 2) with (X * X * K / (a * D)).
  2:{ replace ((X / sqrt (a * D / K)) ^ 2) with (X * X / (sqrt (a * D / K) * sqrt (a * D / K))) by (field; lra). rewrite E0. field. lra. }
  replace (((Y - c / (2 * a) * X) / sqrt (D / a)) ^ 2) with ((Y - c / (2 * a) * X) * (Y - c / (2 * a) * X) * a / D).
  2:{ replace (((Y - c / (2 * a) * X) / sqrt (D / a)) ^ 2) with ((Y - c / (2 * a) * X) * (Y - c / (2 * a) * X) / (sqrt (D / a) * sqrt (D / a))) by (field; lra). rewrite E1. field. lra. }
  set (e0 := - (X * X * K / (a * D)) / 2). set (e1 := - ((Y - c / (2 * a) * X) * (Y - c / (2 * a) * X) * a / D) / 2).
  replace (- ((b * X * X - c * X * Y + a * Y * Y) / D) / 2) with (e0 + e1) by (unfold e0, e1, K; field; unfold D in *; lra).
  rewrite exp_plus.
  assert (SK := sqrt_lt_R0 K HK). assert (SD := sqrt_lt_R0 D HDp). assert (S2 : 0 < sqrt (2 * PI)) by (apply sqrt_lt_R0; lra).
  assert (E2 : sqrt (2 * PI) * sqrt (2 * PI) = 2 * PI) by (apply sqrt_sqrt; lra). assert (E3 : sqrt D * sqrt D = D) by (apply sqrt_sqrt; lra).
  rewrite sqrt_div by lra.
  transitivity (sqrt D / sqrt K / (sqrt (a * D / K) * sqrt (D / a)) / (sqrt (2 * PI) * sqrt (2 * PI)) * (exp e0 * exp e1)).
  { field. lra. }
  rewrite EP, E2. rewrite <- E3 at 2. field. lra.
Qed.
Lemma mvn2_not_pdf : c <> 0 -> ~ is_pdf2 (fun p => MvNormal.pdf d [fst p; snd p]).
Proof.
  intros Hc [_ H]. assert (E := plane_unique _ _ _ H mvn2_mass). assert (HK : 0 < K) by (unfold K; nra).
  assert (Hcc : 0 < c * c) by now apply Rsqr_pos_lt.
  assert (L : sqrt (D / K) < 1). { replace 1 with (sqrt 1) by apply sqrt_1. apply sqrt_lt_1; [left; pos|lra|]. apply (Rmult_lt_reg_r K); [auto|]. unfold Rdiv. rewrite Rmult_assoc, Rinv_l by lra. unfold K, D. lra. }
  lra.
Qed.
End Two.
