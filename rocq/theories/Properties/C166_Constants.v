(** * C166: the numerical constants, and the median reported at one half *)
From Coq Require Import Reals Lra Lia Psatz List ZArith Bool.
From Flocq Require Import Core IEEE754.BinarySingleNaN.
From Verif.Num Require Import Scalar XReal F64.
From Verif.Model Require Import Rust Probability Consts Discrete.
From Verif.Spec Require Import LibmSpec.
From Verif.Proofs Require Import F64Order XTac F64Pdf DiscProofs4.
Import ListNotations.
Open Scope R_scope.

(** ** In exact arithmetic every constant is the number its name says *)
Theorem C166_constants_exact : (PI_E : xreal) = Fin (PI * exp 1) /\ (PI_2 : xreal) = Fin (2 * PI) /\ (PI_E_2 : xreal) = Fin (2 * PI * exp 1) /\ (PI_16 : xreal) = Fin (16 * PI) /\ (PI_OVER_2 : xreal) = Fin (PI / 2) /\ (PI_OVER_4 : xreal) = Fin (PI / 4) /\
  (PI2 : xreal) = Fin (PI ^ 2) /\ (PI3 : xreal) = Fin (PI ^ 3) /\ (PI4 : xreal) = Fin (PI ^ 4) /\ (PI5 : xreal) = Fin (PI ^ 5) /\ (PI2_OVER_6 : xreal) = Fin (PI ^ 2 / 6) /\
  (ONE_OVER_PI : xreal) = Fin (/ PI) /\ (TWO_OVER_PI : xreal) = Fin (2 / PI) /\ (TWO_OVER_PI2 : xreal) = Fin (2 / PI ^ 2) /\
  (ONE_HALF : xreal) = Fin (1 / 2) /\ (ONE_THIRD : xreal) = Fin (1 / 3) /\ (ONE_TWELTH : xreal) = Fin (1 / 12) /\ (ONE_TWENTY_FOURTH : xreal) = Fin (1 / 24) /\ (TWO_THIRDS : xreal) = Fin (2 / 3) /\ (THREE_HALVES : xreal) = Fin (3 / 2) /\
  (THREE_FIFTHS : xreal) = Fin (3 / 5) /\ (SIX_FIFTHS : xreal) = Fin (6 / 5) /\ (NINE_FIFTHS : xreal) = Fin (9 / 5) /\ (TWELVE_FIFTHS : xreal) = Fin (12 / 5) /\ (TWENTY_ONE_FIFTHS : xreal) = Fin (21 / 5) /\ (TWENTY_SEVEN_FIFTHS : xreal) = Fin (27 / 5) /\ (NINETEEN_OVER_360 : xreal) = Fin (19 / 360).
Proof.
  assert (P := PI_RGT_0). assert (Q : PI * PI <> 0) by nra.
  unfold PI_E, PI_2, PI_E_2, PI_16, PI_OVER_2, PI_OVER_4, PI2_OVER_6, ONE_OVER_PI, TWO_OVER_PI, TWO_OVER_PI2, PI3, PI4, PI5, PI_E, PI2, ONE_HALF, ONE_THIRD, ONE_TWELTH, ONE_TWENTY_FOURTH, TWO_THIRDS, THREE_HALVES, THREE_FIFTHS, SIX_FIFTHS, NINE_FIFTHS, TWELVE_FIFTHS, TWENTY_ONE_FIFTHS, TWENTY_SEVEN_FIFTHS, NINETEEN_OVER_360.
  rewrite ?x_lit, ?x_pi, ?x_e. repeat (rewrite ?x_mul, ?x_div by (first [lra|exact Q])).
  repeat split; f_equal; first [ring|field; first [lra|exact Q]].
Qed.
Print Assumptions C166_constants_exact.

(** ** In doubles every rational constant is the nearest double *)
Definition nearest_to (c : f64) (r : R) : Prop := finite64 c /\ forall y : f64, finite64 y -> Rabs (B2R c - r) <= Rabs (B2R y - r).
Lemma quot_nearest (n d : Z) : (0 < n < 1000)%Z -> (0 < d < 1000)%Z -> nearest_to (Bdiv mode_NE (b64 n 0) (b64 d 0)) (IZR n / IZR d).
Proof.
  intros Hn Hd. destruct (b64_z n ltac:(lia)) as [Fn Vn]. destruct (b64_z d ltac:(lia)) as [Fd Vd]. assert (P1 : 0 < IZR n < 1000) by (split; apply IZR_lt; lia). assert (P2 : 1 <= IZR d < 1000) by (split; [apply IZR_le|apply IZR_lt]; lia).
  destruct (V_div (b64 n 0) (b64 d 0) Fn Fd ltac:(lra)) as [N V1]. rewrite Vn, Vd in V1. set (r := IZR n / IZR d) in *. assert (B : 0 < r < 1000) by (unfold r; split; [apply Rdiv_lt_0_compat; lra|apply Rle_lt_trans with (IZR n / 1); [apply Rmult_le_compat_l; [lra|apply Rinv_le_contravar; lra]|lra]]).
  assert (Q := M64_pos). assert (M : 1024 < M64) by (change M64 with (bpow radix2 1024); change 1024 with (bpow radix2 10); apply bpow_lt; lia).
  assert (R1 : rnd r <= 1024) by (apply rnd_le_fmt; [change 1024 with (bpow radix2 10); apply fmt_bpow; lia|lra]). assert (R0 : 0 <= rnd r) by (apply rnd_pos_of; lra). unfold sat in V1. rewrite clamp_id in V1 by lra.
  assert (F : fin (Bdiv mode_NE (b64 n 0) (b64 d 0))) by (apply V_fin_iff; [exact N|rewrite V1; lra]). split; [exact F|]. rewrite V_fin in V1 by exact F. intros y Fy. change (B2R (Bdiv mode_NE (b64 n 0) (b64 d 0))) with (RV (Bdiv mode_NE (b64 n 0) (b64 d 0))). rewrite V1.
  destruct (round_N_pt radix2 (SpecFloat.fexp 53 1024) (fun x => negb (Z.even x)) r) as [_ W]. exact (W (B2R y) (fmt_RV y)).
Qed.
Theorem C166_constants_f64 (m : Libm) : nearest_to (ONE_HALF : f64) (1 / 2) /\ nearest_to (ONE_THIRD : f64) (1 / 3) /\ nearest_to (ONE_TWELTH : f64) (1 / 12) /\ nearest_to (ONE_TWENTY_FOURTH : f64) (1 / 24) /\ nearest_to (TWO_THIRDS : f64) (2 / 3) /\ nearest_to (THREE_HALVES : f64) (3 / 2) /\
  nearest_to (THREE_FIFTHS : f64) (3 / 5) /\ nearest_to (SIX_FIFTHS : f64) (6 / 5) /\ nearest_to (NINE_FIFTHS : f64) (9 / 5) /\ nearest_to (TWELVE_FIFTHS : f64) (12 / 5) /\ nearest_to (TWENTY_ONE_FIFTHS : f64) (21 / 5) /\ nearest_to (TWENTY_SEVEN_FIFTHS : f64) (27 / 5) /\ nearest_to (NINETEEN_OVER_360 : f64) (19 / 360).
Proof. repeat (split; [apply quot_nearest; lia|]). apply quot_nearest; lia. Qed.
Print Assumptions C166_constants_f64.

(** ** Bernoulli: where every number between 0 and 1 is a median, the midpoint is reported *)
Theorem C166_bernoulli_half (p : R) (d : Bernoulli.t xreal) : Bernoulli.new (Fin p) = Ok d ->
  (Rabs (p - 1 / 2) < 1 / 10000000 -> Bernoulli.median d = Fin (1 / 2)) /\ (p <= 1 / 2 - 1 / 10000000 -> Bernoulli.median d = Fin 0) /\ (1 / 2 + 1 / 10000000 <= p -> Bernoulli.median d = Fin 1).
Proof.
  intros H. apply ber_new_inv in H. destruct H as [Hp ->]. assert (E : Bernoulli.median (ber p) = if Rltb (Rabs (p - 1 / 2)) (1 / 10000000) then Fin (1 / 2) else if Rltb p (1 / 2) then Fin 0 else Fin 1).
  { unfold Bernoulli.median, ber; cbn [Bernoulli.new_unchecked Bernoulli.from Bernoulli.pr Bernoulli.p unwrap]. cbv zeta. xs. reflexivity. }
  rewrite E. split; [|split]; intros B.
  - now rewrite Rltb_true.
  - rewrite Rltb_false, Rltb_true; [reflexivity|lra|rewrite Rabs_left; lra].
  - rewrite Rltb_false, Rltb_false; [reflexivity|lra|rewrite Rabs_pos_eq; lra].
Qed.
Print Assumptions C166_bernoulli_half.
Example C166_nonvacuous : exists d, Bernoulli.new (Fin (1 / 2)) = Ok d.
Proof. eexists. apply ber_new_ok. lra. Qed.
