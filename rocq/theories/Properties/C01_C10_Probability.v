(** * Properties C01-C10: Probability and SimplexVector *)
From Coq Require Import Reals Lra Lia ZArith List Bool.
From Flocq Require Import Core IEEE754.BinarySingleNaN.
From Verif.Num Require Import Scalar F64 XReal.
From Verif.Model Require Import Rust Probability.
From Verif.Spec Require Import ProbSpec.
From Verif.Proofs Require Import ProbProofs SimplexProofs.
Import ListNotations.
Open Scope R_scope.

(** C01. [new] accepts exactly the finite doubles of [0,1], unchanged, and
    rejects everything else with an error carrying the argument. *)
Theorem C01_new_accepts_exactly_unit_interval (m : Libm) (x : f64) :
  (valid_prob x -> p_new x = Ok (Prob x)) /\
  (~ valid_prob x -> p_new x = Err (InvalidProbability x)) /\
  p_try_from x = p_new x /\
  (p_is_valid (Prob x) = true <-> valid_prob x) /\
  p_new (B754_nan : f64) = Err (InvalidProbability B754_nan) /\
  (forall s, p_new (B754_infinity s : f64) = Err (InvalidProbability (B754_infinity s))).
Proof.
  exact (conj (p_new_ok m x) (conj (p_new_err m x) (conj eq_refl (conj (p_is_valid_iff m x)
    (conj (p_new_err m B754_nan (overflow_not_valid (B754_nan : f64) eq_refl))
     (fun s => p_new_err m (B754_infinity s) (overflow_not_valid (B754_infinity s : f64) eq_refl))))))).
Qed.
Print Assumptions C01_new_accepts_exactly_unit_interval.
Example C01_nonvacuous : valid_prob (b64 3 (-2)) /\ ~ valid_prob (b64 3 0).
Proof.
  split.
  - split; [vm_compute; reflexivity|]. destruct (b64_spec 3 (-2)) as [_ H]; [apply unit_small; cbn; lra|].
    unfold RV in H. rewrite H. apply rnd_unit. cbn; lra.
  - intros [_ H]. destruct (b64_int 3) as [_ E]; [lia|]. unfold RV in E. rewrite E in H. lra.
Qed.

(** C02. Everything reachable through the safe API is valid. *)
Theorem C02_reachable_probabilities_valid (m : Libm) (p : Probability f64) :
  Built m p -> valid_prob (unwrap p).
Proof. exact (built_valid m p). Qed.
Print Assumptions C02_reachable_probabilities_valid.
Theorem C02_mul_not_unchecked_ok (m : Libm) (p q : f64) : valid_prob p -> valid_prob q ->
  valid_prob (unwrap (p_mul (Prob p) (Prob q))) /\
  B2R (unwrap (p_mul (Prob p) (Prob q))) = RN (B2R p * B2R q) /\
  valid_prob (unwrap (p_not (Prob p))) /\
  B2R (unwrap (p_not (Prob p))) = RN (1 - B2R p).
Proof.
  exact (fun Hp Hq => conj (proj1 (mul_val p q Hp Hq)) (conj (proj2 (mul_val p q Hp Hq)) (not_val p Hp))).
Qed.
Print Assumptions C02_mul_not_unchecked_ok.
Example C02_nonvacuous (m : Libm) : Built m (p_mul (p_not p_half) (p_not (p_mul p_half p_half))).
Proof. repeat constructor. Qed.

(** C03. *)
Theorem C03_complement_laws (m : Libm) (p q : f64) : valid_prob p -> valid_prob q ->
  p_add (Prob p) (p_not (Prob p)) = Ok p_one /\
  (B2R p <= B2R q -> B2R (unwrap (p_not (Prob q))) <= B2R (unwrap (p_not (Prob p)))) /\
  (/2 <= B2R p -> p_not (p_not (Prob p)) = Prob p).
Proof.
  exact (fun Hp Hq => conj (add_complement m p Hp) (conj (not_antitone m p q Hp Hq) (not_involutive m p Hp))).
Qed.
Print Assumptions C03_complement_laws.
(** without [1/2 <= p] the involution fails: p = 2^-60 *)
Theorem C03_involution_refuted_below_half (m : Libm) :
  exists p, valid_prob p /\ p_eqb (p_not (p_not (Prob p))) (Prob p) = false.
Proof.
  exists (b64 1 (-60)). split; [|vm_compute; reflexivity].
  split; [vm_compute; reflexivity|]. destruct (b64_spec 1 (-60)) as [_ H].
  - apply unit_small. cbn; lra.
  - unfold RV in H; rewrite H. apply rnd_unit. cbn; lra.
Qed.
Print Assumptions C03_involution_refuted_below_half.

(** C04. *)
Theorem C04_checked_ops (m : Libm) (p q : f64) : valid_prob p -> valid_prob q ->
  (* + *)
  ((RN (B2R p + B2R q) <= 1 ->
      exists r, p_add (Prob p) (Prob q) = Ok r /\ B2R (unwrap r) = RN (B2R p + B2R q)) /\
   (1 < RN (B2R p + B2R q) -> exists e, p_add (Prob p) (Prob q) = Err e)) /\
  (* - *)
  ((B2R q <= B2R p ->
      exists r, p_sub (Prob p) (Prob q) = Ok r /\ B2R (unwrap r) = RN (B2R p - B2R q)) /\
   (B2R p < B2R q -> exists e, p_sub (Prob p) (Prob q) = Err e)) /\
  (* / *)
  ((B2R q <> 0 -> RN (B2R p / B2R q) <= 1 ->
      exists r, p_div (Prob p) (Prob q) = Ok r /\ B2R (unwrap r) = RN (B2R p / B2R q)) /\
   (B2R q <> 0 -> 1 < RN (B2R p / B2R q) -> exists e, p_div (Prob p) (Prob q) = Err e) /\
   (B2R q = 0 -> exists e, p_div (Prob p) (Prob q) = Err e) /\
   (B2R q <> 0 -> B2R p <= B2R q -> exists r, p_div (Prob p) (Prob q) = Ok r)) /\
  (* % *)
  ((B2R q <> 0 -> exists r, p_rem (Prob p) (Prob q) = Ok r /\
      B2R (unwrap r) = B2R p - B2R q * IZR (Zfloor (B2R p / B2R q))) /\
   (B2R q = 0 -> exists e, p_rem (Prob p) (Prob q) = Err e)).
Proof.
  exact (fun Hp Hq => conj (p_add_spec m p q Hp Hq) (conj (p_sub_spec m p q Hp Hq)
    (conj (p_div_spec m p q Hp Hq) (p_rem_spec m p q Hp Hq)))).
Qed.
Print Assumptions C04_checked_ops.

(** C05. *)
Theorem C05_simplex_new (m : Libm) (ps : list f64) :
  (* all entries valid: accepted iff the double sum is within the double 1e-5 of 1 *)
  (Forall valid_prob ps ->
     (Rabs (B2R (dsum ps) - 1) < B2R c1e5 -> simplex_new ps = Ok ps) /\
     (B2R c1e5 <= Rabs (B2R (dsum ps) - 1) -> simplex_new ps = Err (InvalidSimplex ps))) /\
  (* some entry invalid: the first such entry is reported *)
  (forall pre x post, ps = pre ++ x :: post -> Forall valid_prob pre -> ~ valid_prob x ->
     simplex_new ps = Err (InvalidProbability x)) /\
  (* what acceptance says about the exact sum *)
  (forall qs, simplex_new ps = Ok qs -> qs = ps /\ Forall valid_prob ps /\
     Rabs (rsum (map B2R ps) - 1) < 1/100000 + (INR (length ps) + 1) * bpow radix2 (-53)).
Proof.
  exact (conj (simplex_new_valid m ps)
    (conj (fun pre x post E => eq_ind_r (fun ps => _ -> _ -> simplex_new ps = _) (simplex_new_invalid m pre x post) E)
     (fun qs H => conj (proj1 (simplex_new_inv m ps qs H)) (conj (proj1 (proj2 (simplex_new_inv m ps qs H)))
        (simplex_accepted_sum m ps qs H))))).
Qed.
Print Assumptions C05_simplex_new.
Example C05_c1e5_is_1e5 : 1/100000 <= B2R c1e5 <= 1/100000 + bpow radix2 (-69).
Proof. exact RV_c1e5_bounds. Qed.
Example C05_nonvacuous (m : Libm) : exists ps : list f64, length ps = 3%nat /\ is_ok (simplex_new ps) = true.
Proof. exists [b64 1 (-2); b64 1 (-1); b64 1 (-2)]. split; [reflexivity|vm_compute; reflexivity]. Qed.

(** C06. For any scalar semantics (in particular doubles and exact reals). *)
Theorem C06_sample_index {F S} {SF : Scalar F} {RG : Rng S F} (ps : list F) (s : S) :
  let u := fst (gen_f64 s) in let s' := snd (gen_f64 s) in
  (ps = [] -> sample_index ps s = Panic) /\
  (ps <> [] -> exists i, sample_index ps s = Ret (i, s') /\ (i < length ps)%nat /\
    (forall j, (j < i)%nat -> fltb u (fold_left fadd (firstn (j+1) ps) (f_of_Z 0)) = false) /\
    (fltb u (fold_left fadd (firstn (i+1) ps) (f_of_Z 0)) = true \/
     (i = length ps - 1)%nat /\
     forall j, (j < length ps)%nat -> fltb u (fold_left fadd (firstn (j+1) ps) (f_of_Z 0)) = false)).
Proof.
  intros u s'. unfold sample_index. unfold u, s'. destruct (gen_f64 s) as [v t]. cbn [fst snd].
  split; [intros ->; reflexivity|].
  intros H. destruct (index_of_draw_spec ps v H) as (i & E & R). exists i. rewrite E. cbn [rbind].
  split; [reflexivity|]. unfold prefix_sum in R.
  replace (i+1)%nat with (Datatypes.S i) by lia. destruct R as (R1 & R2 & R3).
  split; [exact R1|]. split.
  - intros j; replace (j+1)%nat with (Datatypes.S j) by lia. apply R2.
  - destruct R3 as [R3|[R3 R4]]; [left; exact R3|right; split; [exact R3|]].
    intros j; replace (j+1)%nat with (Datatypes.S j) by lia. apply R4.
Qed.
Print Assumptions C06_sample_index.

(** C07 is false of the code: weights [0.999995, 0] are accepted and the draw
    u = 0.999999 selects index 1, of weight zero. *)
Theorem C07_zero_weight_refuted (m : Libm) :
  exists (ps : list f64) (u : f64) (i : nat),
    is_ok (simplex_new ps) = true /\ is_finite u = true /\
    fleb (f_of_Z 0) u = true /\ fltb u (f_of_Z 1) = true /\
    index_of_draw ps u = Ret i /\ nth_error ps i = Some (B754_zero false).
Proof.
  exists [Bdiv mode_NE (b64 999995 0) (b64 1000000 0); B754_zero false],
         (Bdiv mode_NE (b64 999999 0) (b64 1000000 0)), 1%nat.
  repeat split; vm_compute; reflexivity.
Qed.
Print Assumptions C07_zero_weight_refuted.
(** It holds in exact arithmetic for weights summing to exactly 1. *)
Theorem C07_zero_weight_partial (l : list R) (u : R) (i : nat) :
  Forall (fun p => 0 <= p) l -> rsum l = 1 -> 0 <= u < 1 ->
  index_of_draw (map Fin l) (Fin u) = Ret i -> (i < length l)%nat /\ 0 < nth i l 0.
Proof. exact (index_nonzero l u i). Qed.
Print Assumptions C07_zero_weight_partial.

(** C08. *)
Theorem C08_index_interval (l : list R) (u : R) (i : nat) :
  Forall (fun p => 0 <= p) l -> rsum l = 1 -> 0 <= u < 1 -> (i < length l)%nat ->
  (index_of_draw (map Fin l) (Fin u) = Ret i <->
     rsum (firstn i l) <= u < rsum (firstn i l) + nth i l 0).
Proof.
  intros H1 H2 H3 H4. rewrite <- (rsum_firstn_nth l i H4). exact (index_interval l u i H1 H2 H3 H4).
Qed.
Print Assumptions C08_index_interval.
Example C08_nonvacuous : Forall (fun p => 0 <= p) [1/4; 0; 3/4] /\ rsum [1/4; 0; 3/4] = 1.
Proof. split; [repeat constructor; lra|cbn; lra]. Qed.

(** C09: the entries sum to 1 and all but the first are positive ... *)
Theorem C09_simplex_sample_partial {S} {RG : Rng S xreal} (k : nat) (s : S) :
  (forall s, exists d, fst (draw_uniform_inclusive (Fin 0) (Fin 1) s) = Fin d /\ 0 < d < 1) ->
  (1 <= k)%nat ->
  exists ps s', simplex_sample k s = Ret (map Fin ps, s') /\ length ps = k /\ rsum ps = 1 /\
    Forall (fun p => 0 < p) (tl ps).
Proof. exact (fun H => simplex_sample_spec H k s). Qed.
Print Assumptions C09_simplex_sample_partial.

(** ... but the first entry can be negative: K = 2, draw 1/10. *)
Definition const_rng (d : xreal) : Rng unit xreal := {|
  gen_f64 s := (d, s); gen_bool _ s := (true, s); draw_uniform _ _ s := (d, s);
  draw_uniform_inclusive _ _ s := (d, s); draw_normal _ _ s := (d, s);
  draw_std_normal s := (d, s); draw_gamma _ _ s := (d, s) |}.
Theorem C09_simplex_sample_refuted :
  exists (RG : Rng unit xreal) (p0 p1 : R),
    fst (@draw_uniform_inclusive _ _ RG (Fin 0) (Fin 1) tt) = Fin (1/10) /\
    @simplex_sample xreal _ unit RG 2 tt = Ret ([Fin p0; Fin p1], tt) /\ p0 < 0 /\ 1 < p1.
Proof.
  exists (const_rng (Fin (1/10))), (1 - (- ln (1/10) / (1/10))), (- ln (1/10) / (1/10)).
  assert (L: ln (1/10) < -1).
  { replace (-1) with (ln (exp (-1))) by apply ln_exp. apply ln_increasing; [lra|].
    change (-1) with (Ropp 1). rewrite exp_Ropp. pose proof exp_le_3. pose proof (exp_pos 1).
    apply Rlt_le_trans with (/3); [lra|]. apply Rinv_le_contravar; lra. }
  split; [reflexivity|]. split; [|lra].
  unfold simplex_sample. cbn [sx_draws Nat.sub draw_uniform_inclusive const_rng].
  rewrite !x_lit. rewrite x_ln by lra. rewrite x_neg, !x_add.
  unfold sx_tail, fsum; cbn [map fold_left]. rewrite x_div by lra. rewrite x_lit, x_add, x_sub.
  rewrite !Rplus_0_l. reflexivity.
Qed.
Print Assumptions C09_simplex_sample_refuted.

(** C10. *)
Theorem C10_centre (m : Libm) (k : nat) : (1 <= k)%nat ->
  simplex_centre k = map Fin (repeat (/ INR k) k) /\ rsum (repeat (/ INR k) k) = 1 /\
  ((Z.of_nat k <= 2 ^ 36)%Z ->
     simplex_new (F := f64) (simplex_centre k) = Ok (simplex_centre k)).
Proof.
  exact (fun H => conj (proj1 (centre_exact k H)) (conj (proj2 (centre_exact k H)) (centre_accepted m k H))).
Qed.
Print Assumptions C10_centre.
