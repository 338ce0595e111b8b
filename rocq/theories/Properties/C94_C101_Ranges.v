(** * C92-C101: the wrong values of Chi, FDist, Erlang and StudentT, over whole
    ranges of parameters rather than at one witness *)
From Coq Require Import Reals Lra Lia Psatz Arith List ZArith Bool.
From Coquelicot Require Import Coquelicot.
From Verif.Num Require Import Scalar XReal.
From Verif.Model Require Import Rust Constraints Probability Params Consts Traits LogFact Continuous Continuous3.
From Verif.Spec Require Import DistSpec GammaSpec ResSpec.
From Verif.Proofs Require Import ConstraintProofs NewInv XTac Calc Calc2 Improper GammaFun Subst Mellin HeavyTail Unique Oracle
  ContProofs11 ContProofs12 ContProofs13 ContProofs14 ContProofs15 ContProofs16 ContProofs18 ContProofs19 ContProofs20 ContProofs21 DiscProofs7 PsiHalf GammaConvex Stirling LogTable LogFactUse.
Import ListNotations.
Open Scope R_scope.
Notation cdfx cdf d := (fun x => unwrap (cdf d x)).

Lemma ln_lb t : 0 < t < 1 -> 2 * t + 2 / 3 * (t * t * t) <= ln ((1 + t) / (1 - t)).
Proof.
  intros Ht. rewrite ln_div' by lra.
  destruct (MVT_cor2 (fun x => ln (1 + x) - ln (1 - x) - 2 * x - 2 / 3 * (x * x * x)) (fun x => 2 * (x * x * x * x) * / ((1 + x) * (1 - x))) 0 t ltac:(lra)) as (c & E & Hc).
  { intros c Hc. apply is_derive_Reals. auto_derive; [repeat split; lra|field; lra]. }
  assert (0 <= 2 * (c * c * c * c) * / ((1 + c) * (1 - c)) * (t - 0)). { assert (0 < 2 * (c * c * c * c) * / ((1 + c) * (1 - c)) * (t - 0)); [|lra]. assert (0 < t - 0) by lra. assert (0 < 1 - c) by lra. assert (0 < c) by lra. pos. }
  rewrite Rplus_0_r, Rminus_0_r, ln_1 in E. lra.
Qed.

(** C92: the Chi entropy is wrong for every number of degrees of freedom *)
Theorem C92_chi_entropy_all_refuted (SP : Special xreal) (k : Z) (d : Chi.t) :
  gamma_exact SP -> digamma_exact SP -> Chi.new (F := xreal) k = Ok d ->
  exists e, Chi.shannon_entropy d = Fin e /\ ~ is_entropy 0 p_infty (Chi.pdf d) e.
Proof.
  intros Hg Hd H. unfold Chi.new in H. inv_new H. change (Chi.mk _) with (Chi.new_unchecked k).
  eexists; split; [now apply ch_entropy_val|]. intros X. assert (X' := ch_entropy Hg k HP). assert (E := entropy_unique _ _ _ _ _ X X'). unfold chi_ent in E. clear X X'.
  assert (Z : (IZR k - 1) * psi (IZR k / 2) = IZR k - ln 2) by lra. clear E.
  assert (L2 := ln2_ub). assert (L2' : 0.69299 < ln 2).
  { assert (A := ln_lb (1 / 7) ltac:(lra)). assert (B := ln_lb (1 / 5) ltac:(lra)). assert (EQ : ln 2 = ln ((1 + 1 / 7) / (1 - 1 / 7)) + ln ((1 + 1 / 5) / (1 - 1 / 5))) by (rewrite <- ln_mult by lra; f_equal; field). lra. }
  assert (C : k = 1%Z \/ k = 2%Z \/ k = 3%Z \/ k = 4%Z \/ k = 5%Z \/ k = 6%Z \/ k = 7%Z \/ k = 8%Z \/ (9 <= k)%Z) by lia.
  destruct C as [E|[E|[E|[E|[E|[E|[E|[E|E]]]]]]]]; try subst k.
  - lra.
  - replace (2 / 2) with 1 in Z by field. assert (N := psi_1_neg). lra.
  - assert (Q := psi_ln (3 / 2) ltac:(lra)). assert (T := ln_le_sub1 (3 / 2) ltac:(lra)). lra.
  - replace (4 / 2) with 2 in Z by field. assert (Q := psi_ln 2 ltac:(lra)). lra.
  - assert (Q := psi_ln (5 / 2) ltac:(lra)). assert (T := ln_le_sub1 (5 / 4) ltac:(lra)). assert (EQ : ln (5 / 2) = ln 2 + ln (5 / 4)) by (rewrite <- ln_mult by lra; f_equal; field). lra.
  - replace (6 / 2) with 3 in Z by field. assert (Q := psi_ln 4 ltac:(lra)). assert (R1 := psi_rec 3 ltac:(lra)). replace (3 + 1) with 4 in R1 by ring.
    assert (EQ : ln 4 = ln 2 + ln 2) by (rewrite <- ln_mult by lra; f_equal; ring). lra.
  - assert (Q := psi_ln (21 / 2) ltac:(lra)).
    assert (R1 := psi_rec (7 / 2) ltac:(lra)). assert (R2 := psi_rec (9 / 2) ltac:(lra)). assert (R3 := psi_rec (11 / 2) ltac:(lra)). assert (R4 := psi_rec (13 / 2) ltac:(lra)).
    assert (R5 := psi_rec (15 / 2) ltac:(lra)). assert (R6 := psi_rec (17 / 2) ltac:(lra)). assert (R7 := psi_rec (19 / 2) ltac:(lra)).
    replace (7 / 2 + 1) with (9 / 2) in R1 by field. replace (9 / 2 + 1) with (11 / 2) in R2 by field. replace (11 / 2 + 1) with (13 / 2) in R3 by field. replace (13 / 2 + 1) with (15 / 2) in R4 by field.
    replace (15 / 2 + 1) with (17 / 2) in R5 by field. replace (17 / 2 + 1) with (19 / 2) in R6 by field. replace (19 / 2 + 1) with (21 / 2) in R7 by field.
    assert (A := ln_lb (5 / 37) ltac:(lra)). replace ((1 + 5 / 37) / (1 - 5 / 37)) with (21 / 16) in A by field.
    assert (EQ : ln (21 / 2) = 3 * ln 2 + ln (21 / 16)). { replace (3 * ln 2) with (ln (2 * 2 * 2)) by (rewrite !ln_mult by lra; ring). rewrite <- ln_mult by lra. f_equal. field. }
    rewrite !Rinv_div in *. lra.
  - replace (8 / 2) with 4 in Z by field. assert (Q := psi_ln 4 ltac:(lra)). assert (EQ : ln 4 = ln 2 + ln 2) by (rewrite <- ln_mult by lra; f_equal; ring). lra.
  - assert (K : 9 <= IZR k) by (apply (IZR_le 9); lia). assert (Q := psi_ln (9 / 2) ltac:(lra)). assert (M := psi_le (9 / 2) (IZR k / 2) ltac:(lra) ltac:(lra)).
    assert (A := ln_lb (1 / 17) ltac:(lra)). replace ((1 + 1 / 17) / (1 - 1 / 17)) with (9 / 8) in A by field.
    assert (EQ : ln (9 / 2) = 2 * ln 2 + ln (9 / 8)). { replace (2 * ln 2) with (ln (2 * 2)) by (rewrite !ln_mult by lra; ring). rewrite <- ln_mult by lra. f_equal. field. }
    rewrite Rinv_div in Q. assert (P : 1.27 < psi (IZR k / 2)) by lra. assert ((IZR k - 1) * 1.27 < (IZR k - 1) * psi (IZR k / 2)) by (apply Rmult_lt_compat_l; lra). lra.
Qed.
Print Assumptions C92_chi_entropy_all_refuted.
Example C92_all_nonvacuous : gamma_exact (exact false) /\ digamma_exact (exact false) /\ exists d, Chi.new (F := xreal) 7 = Ok d.
Proof. split; [apply ex_gamma|]. split; [apply ex_psi|]. eexists. unfold Chi.new. ok_new. Qed.

(** C94: whatever [gammainc] is, Chi(k) and ChiSquared(k) cannot both be right,
    except at the two values of k where Gamma(k/2) = 1 *)
Theorem C94_chi_chisq_all_refuted (SP : Special xreal) (k : Z) (c : Chi.t) (q : ChiSq.t) : gamma_exact SP ->
  Chi.new (F := xreal) k = Ok c -> ChiSq.new (F := xreal) k = Ok q -> k <> 2%Z -> k <> 4%Z ->
  ~ (coherent 0 p_infty (cdfx Chi.cdf c) (Chi.pdf c) /\ coherent 0 p_infty (cdfx ChiSq.cdf q) (ChiSq.pdf q)).
Proof.
  intros Hg H H'. unfold Chi.new in H. inv_new H. unfold ChiSq.new in H'. inv_new H'.
  change (Chi.mk _) with (Chi.new_unchecked k). change (ChiSq.mk _) with (ChiSq.new_unchecked k). intros N2 N4 [[C1 _] [C2 _]].
  assert (K := IZR_lt _ _ HP). assert (G := Gam_pos (IZR k / 2) ltac:(lra)).
  assert (NG : Gam (IZR k / 2) <> 1).
  { intros E. destruct (Gam_one (IZR k / 2) ltac:(lra) E) as [E1|E1]; [apply N2|apply N4]; apply eq_IZR; lra. }
  set (g := Gam (IZR k / 2)) in *.
  assert (E : forall y, 0 < y -> rf (cdfx Chi.cdf (Chi.new_unchecked k)) (sqrt (2 * y)) = g * rf (cdfx ChiSq.cdf (ChiSq.new_unchecked k)) (2 * y)).
  { intros y Hy. destruct (cdf_valid _ _ _ C1 (sqrt (2 * y)) ltac:(apply in0; pos)) as (v & Ev & _).
    unfold rf. revert Ev. unfold Chi.cdf, ChiSq.cdf, Chi.kf, ChiSq.kf. cbn [unwrap Chi.pr Chi.k Chi.new_unchecked ChiSq.pr ChiSq.k ChiSq.new_unchecked]. xs.
    rewrite sqrt_sqrt by lra. replace (2 * y / 2) with y by field. rewrite sfg by (auto; lra). fold g. intros ->.
    rewrite x_div by lra. cbn [val]. field. lra. }
  set (e := Rabs (1 - g) / (2 * (1 + g))). assert (A0 : 0 < Rabs (1 - g)) by (apply Rabs_pos_lt; lra). assert (He : 0 < e) by (unfold e; pos).
  assert (near : forall f : R -> R, filterlim f (below p_infty) (locally 1) -> exists M, forall x, M < x -> Rabs (f x - 1) < e).
  { intros f L. destruct (L (fun p => Rabs (p - 1) < e)) as [M HM]; [|exists M; exact HM]. exists (mkposreal e He). intros p Hp. exact Hp. }
  destruct (near _ (cdf_upper _ _ _ C1)) as [M1 L1]. destruct (near _ (cdf_upper _ _ _ C2)) as [M2 L2].
  set (y := Rmax 1 (Rmax (M1 * M1 + 1) (M2 + 1))). assert (Y1 : 1 <= y) by apply Rmax_l.
  assert (Y2 : M1 * M1 + 1 <= y) by (eapply Rle_trans; [apply Rmax_l|apply Rmax_r]). assert (Y3 : M2 + 1 <= y) by (eapply Rle_trans; [apply Rmax_r|apply Rmax_r]).
  assert (S : M1 < sqrt (2 * y)). { destruct (Rle_or_lt M1 0) as [L|L]; [apply Rle_lt_trans with 0; [auto|pos]|]. rewrite <- (sqrt_square M1) by lra. apply sqrt_lt_1_alt. nra. }
  specialize (L1 _ S). specialize (L2 (2 * y) ltac:(lra)). rewrite (E y ltac:(lra)) in L1.
  set (w := rf (cdfx ChiSq.cdf (ChiSq.new_unchecked k)) (2 * y)) in *.
  assert (T : Rabs (1 - g) <= Rabs (g * w - 1) + g * Rabs (w - 1)).
  { replace (1 - g) with (- (g * w - 1) + g * (w - 1)) by ring. eapply Rle_trans; [apply Rabs_triang|]. rewrite Rabs_Ropp, Rabs_mult, (Rabs_pos_eq g) by lra. lra. }
  assert (g * Rabs (w - 1) < g * e) by (apply Rmult_lt_compat_l; auto). assert (EE : (1 + g) * e = Rabs (1 - g) / 2) by (unfold e; field; lra). lra.
Qed.
Print Assumptions C94_chi_chisq_all_refuted.
Example C94_all_nonvacuous : gamma_exact (exact true) /\ exists c q, Chi.new (F := xreal) 5 = Ok c /\ ChiSq.new (F := xreal) 5 = Ok q.
Proof. split; [apply ex_gamma|]. eexists _, _. split; [unfold Chi.new; ok_new|unfold ChiSq.new; ok_new]. Qed.

(** C95/C96: which of the moments are returned *)
Theorem C95_f_dist_guards (F : Type) (SF : Scalar F) (n1 n2 : Z) (d : FDist.t) : FDist.new (F := F) n1 n2 = Ok d ->
  (FDist.mean (F := F) d = Panic <-> (n2 <= 2)%Z) /\ (FDist.variance (F := F) d = Panic <-> (n2 <= 4)%Z) /\
  (FDist.skewness (F := F) d = Panic <-> (n2 <= 4)%Z) /\ (FDist.excess_kurtosis (F := F) d = Panic <-> (n2 <= 4)%Z) /\
  (FDist.modes (F := F) d = Panic <-> (n1 <= 2)%Z).
Proof.
  intros H. assert (E : d = FDist.new_unchecked n1 n2).
  { unfold FDist.new in H. apply map_params_inv in H as [-> _]. reflexivity. }
  subst d. unfold FDist.mean, FDist.variance, FDist.skewness, FDist.excess_kurtosis, FDist.modes. cbn [FDist.pr FDist.d1 FDist.d2 FDist.new_unchecked].
  destruct (Z.leb_spec n2 2), (Z.leb_spec n2 4), (Z.leb_spec n1 2); repeat match goal with |- _ /\ _ => split end; split; intros; (discriminate || lia || reflexivity).
Qed.
Print Assumptions C95_f_dist_guards.
(** the entropy: for each denominator at most one numerator makes it right, and
    from four denominator degrees of freedom on it is always too large *)
Definition f_entropy_gap (a b : R) : R := 2 * ln a + / a - (2 * ln b + / b) + 2 * b * psi b.
Lemma f_entropy (SP : Special xreal) (n1 n2 : Z) (d : FDist.t) : beta_exact SP -> gamma_exact SP -> digamma_exact SP ->
  FDist.new (F := xreal) n1 n2 = Ok d ->
  (0 < n1)%Z /\ (0 < n2)%Z /\ exists e h, FDist.shannon_entropy d = Fin e /\ is_entropy 0 p_infty (FDist.pdf d) h /\ e - h = f_entropy_gap (IZR n1 / 2) (IZR n2 / 2).
Proof.
  intros Hb Hg Hd H. unfold FDist.new in H. inv_new H. change (FDist.mk _) with (FDist.new_unchecked n1 n2). split; [auto|]. split; [auto|].
  eexists _, _. split; [now apply fd_entropy_val|]. split; [now apply fd_entropy_true|]. unfold od_ent, f_entropy_gap.
  assert (A := IZR_lt _ _ HP). assert (B := IZR_lt _ _ HP0). set (x := IZR n1) in *. set (y := IZR n2) in *. replace ((x + y) / 2) with (x / 2 + y / 2) by field.
  rewrite (Rplus_comm 1 (x / 2)), (Rplus_comm 1 (y / 2)), !psi_rec by lra.
  assert (BG := Beta_Gamma (x / 2) (y / 2) ltac:(lra) ltac:(lra)).
  assert (GX := Gam_pos (x / 2) ltac:(lra)). assert (GY := Gam_pos (y / 2) ltac:(lra)). assert (GS := Gam_pos (x / 2 + y / 2) ltac:(lra)). assert (GB := Bet_pos (x / 2) (y / 2) ltac:(lra) ltac:(lra)).
  assert (LB : ln (Bet (x / 2) (y / 2)) = ln (Gam (x / 2)) + ln (Gam (y / 2)) - ln (Gam (x / 2 + y / 2))).
  { assert (E := f_equal ln BG). rewrite !ln_mult in E by auto. lra. }
  rewrite LB. rewrite !ln_div' by lra. rewrite !Rinv_div. field. lra.
Qed.
Lemma gap_mono b a a' : / 2 <= a -> a < a' -> f_entropy_gap a b < f_entropy_gap a' b.
Proof.
  intros Ha L. unfold f_entropy_gap.
  destruct (MVT_cor2 (fun x => 2 * ln x + / x) (fun x => 2 * / x - / (x * x)) a a' L) as (c & E & Hc).
  { intros c Hc. apply is_derive_Reals. auto_derive; [lra|field; lra]. }
  assert (0 < 2 * / c - / (c * c)). { replace (2 * / c - / (c * c)) with ((2 * c - 1) * / (c * c)) by (field; lra). apply Rmult_lt_0_compat; [lra|pos]. }
  assert (0 < (2 * / c - / (c * c)) * (a' - a)) by (apply Rmult_lt_0_compat; lra). cbv beta in E. lra.
Qed.
Theorem C96_f_dist_entropy_one_refuted (SP : Special xreal) (n1 n1' n2 : Z) (d d' : FDist.t) :
  beta_exact SP -> gamma_exact SP -> digamma_exact SP -> FDist.new (F := xreal) n1 n2 = Ok d -> FDist.new (F := xreal) n1' n2 = Ok d' -> n1 <> n1' ->
  exists e e', FDist.shannon_entropy d = Fin e /\ FDist.shannon_entropy d' = Fin e' /\
  (is_entropy 0 p_infty (FDist.pdf d) e -> ~ is_entropy 0 p_infty (FDist.pdf d') e').
Proof.
  intros Hb Hg Hd H H' N. destruct (f_entropy SP n1 n2 d Hb Hg Hd H) as (P1 & P2 & e & h & E & K & D). destruct (f_entropy SP n1' n2 d' Hb Hg Hd H') as (P1' & _ & e' & h' & E' & K' & D').
  exists e, e'. split; [auto|]. split; [auto|]. intros X X'. assert (U := entropy_unique _ _ _ _ _ X K). assert (U' := entropy_unique _ _ _ _ _ X' K'). subst h h'.
  assert (B1 : 1 <= IZR n1) by (apply (IZR_le 1); lia). assert (B1' : 1 <= IZR n1') by (apply (IZR_le 1); lia).
  destruct (Z.lt_total n1 n1') as [L|[L|L]]; [|contradiction|]; apply IZR_lt in L.
  - assert (M := gap_mono (IZR n2 / 2) (IZR n1 / 2) (IZR n1' / 2) ltac:(lra) ltac:(lra)). lra.
  - assert (M := gap_mono (IZR n2 / 2) (IZR n1' / 2) (IZR n1 / 2) ltac:(lra) ltac:(lra)). lra.
Qed.
Print Assumptions C96_f_dist_entropy_one_refuted.

Theorem C96_f_dist_entropy_large_refuted (SP : Special xreal) (n1 n2 : Z) (d : FDist.t) :
  beta_exact SP -> gamma_exact SP -> digamma_exact SP -> FDist.new (F := xreal) n1 n2 = Ok d -> (4 <= n2)%Z ->
  exists e h, FDist.shannon_entropy d = Fin e /\ is_entropy 0 p_infty (FDist.pdf d) h /\ h < e.
Proof.
  intros Hb Hg Hd H N. destruct (f_entropy SP n1 n2 d Hb Hg Hd H) as (P1 & P2 & e & h & E & K & D). exists e, h. split; [auto|]. split; [auto|].
  assert (A : 1 <= IZR n1) by (apply (IZR_le 1); lia). assert (B : 4 <= IZR n2) by (apply (IZR_le 4); lia).
  assert (G0 : f_entropy_gap (/ 2) (IZR n2 / 2) <= f_entropy_gap (IZR n1 / 2) (IZR n2 / 2)).
  { destruct (Req_dec (/ 2) (IZR n1 / 2)) as [Q|Q]; [rewrite Q; lra|]. left. apply gap_mono; lra. }
  assert (G1 : 0 < f_entropy_gap (/ 2) (IZR n2 / 2)); [|lra]. unfold f_entropy_gap. rewrite Rinv_inv, ln_Rinv by lra.
  assert (L2 := ln2_ub). assert (L2p := ln2_pos).
  destruct (Z.eq_dec n2 4) as [->|N4].
  - replace (4 / 2) with 2 by field.
    (* psi 2 = psi 7 - 1/2 - 1/3 - 1/4 - 1/5 - 1/6 >= ln 6 ... *)
    assert (Q := psi_ln 6 ltac:(lra)). assert (R1 := psi_rec 5 ltac:(lra)). assert (R2 := psi_rec 4 ltac:(lra)). assert (R3 := psi_rec 3 ltac:(lra)). assert (R4 := psi_rec 2 ltac:(lra)).
    replace (5 + 1) with 6 in R1 by ring. replace (4 + 1) with 5 in R2 by ring. replace (3 + 1) with 4 in R3 by ring. replace (2 + 1) with 3 in R4 by ring.
    assert (L6 : ln 6 = ln 2 + ln 3) by (rewrite <- ln_mult by lra; f_equal; ring).
    assert (L3 := ln_lb (1 / 2) ltac:(lra)). replace ((1 + 1 / 2) / (1 - 1 / 2)) with 3 in L3 by field.
    lra.
  - assert (B5 : 5 <= IZR n2) by (apply (IZR_le 5); lia). set (b := IZR n2 / 2) in *. assert (Hb5 : 5 / 2 <= b) by (unfold b; lra).
    assert (Q := psi_ln b ltac:(lra)).
    assert (Lb : 0.9 < ln b).
    { assert (L := ln_lb (3 / 7) ltac:(lra)). replace ((1 + 3 / 7) / (1 - 3 / 7)) with (5 / 2) in L by field.
      apply Rlt_le_trans with (ln (5 / 2)); [lra|]. destruct (Req_dec (5 / 2) b) as [<-|Q2]; [lra|]. left. apply ln_increasing; lra. }
    assert (2 * b * psi b >= 2 * b * ln b - 2). { assert (T : 2 * b * / b = 2) by (field; lra). assert (0 <= 2 * b * (psi b + / b - ln b)) by (apply Rmult_le_pos; lra). lra. }
    assert (/ b <= 2 / 5). { replace (2 / 5) with (/ (5 / 2)) by field. apply Rinv_le_contravar; lra. }
    assert (0 <= (2 * b - 5) * ln b) by (apply Rmult_le_pos; lra). lra.
Qed.
Print Assumptions C96_f_dist_entropy_large_refuted.
Example C96_entropy_nonvacuous : beta_exact (exact false) /\ gamma_exact (exact false) /\ digamma_exact (exact false) /\ exists d, FDist.new (F := xreal) 3 9 = Ok d.
Proof. split; [apply ex_beta|]. split; [apply ex_gamma|]. split; [apply ex_psi|]. eexists. unfold FDist.new. ok_new. Qed.

(** the fourth moment is "returned" with five to eight degrees of freedom, where it does not exist *)
Theorem C96_f_dist_kurtosis_unguarded_refuted (SP : Special xreal) (n1 n2 : Z) (d : FDist.t) :
  beta_exact SP -> FDist.new (F := xreal) n1 n2 = Ok d -> (4 < n2 <= 8)%Z ->
  FDist.excess_kurtosis (F := xreal) d <> Panic /\ ~ exists k, is_kurtosis 0 p_infty (FDist.pdf d) k.
Proof.
  intros Hg H N. split. { intros E. apply (C95_f_dist_guards xreal _ n1 n2 d H) in E. lia. }
  unfold FDist.new in H. inv_new H. change (FDist.mk _) with (FDist.new_unchecked n1 n2).
  assert (A1 := IZR_lt _ _ HP). assert (A2 := IZR_lt _ _ HP0). assert (PC : 0 < IZR n2 / IZR n1) by pos. assert (H1h : 0 < IZR n1 / 2) by lra. assert (H2h : 0 < IZR n2 / 2) by lra.
  assert (B : IZR n2 <= 8) by (apply IZR_le; lia).
  intros (v & K). revert K. apply (od_no_kurtosis _ _ _ PC H1h H2h _ (fd_pdf Hg n1 n2 HP HP0)). lra.
Qed.
Print Assumptions C96_f_dist_kurtosis_unguarded_refuted.
Theorem C96_f_dist_skewness_unguarded_refuted (SP : Special xreal) (n1 n2 : Z) (d : FDist.t) :
  beta_exact SP -> FDist.new (F := xreal) n1 n2 = Ok d -> (4 < n2 <= 6)%Z ->
  FDist.skewness (F := xreal) d <> Panic /\ ~ exists k, is_skewness 0 p_infty (FDist.pdf d) k.
Proof.
  intros Hg H N. split. { intros E. apply (C95_f_dist_guards xreal _ n1 n2 d H) in E. lia. }
  unfold FDist.new in H. inv_new H. change (FDist.mk _) with (FDist.new_unchecked n1 n2).
  assert (A1 := IZR_lt _ _ HP). assert (A2 := IZR_lt _ _ HP0). assert (PC : 0 < IZR n2 / IZR n1) by pos. assert (H1h : 0 < IZR n1 / 2) by lra. assert (H2h : 0 < IZR n2 / 2) by lra.
  assert (B : IZR n2 <= 6) by (apply IZR_le; lia).
  intros (v & K). revert K. apply (od_no_skewness _ _ _ PC H1h H2h _ (fd_pdf Hg n1 n2 HP HP0)). lra.
Qed.
Print Assumptions C96_f_dist_skewness_unguarded_refuted.

(** C98: for every shape above one the Erlang density does not integrate to one, and the cdf is not one *)
Lemma lower_total (a y v : R) : 0 < a -> 0 < y -> is_lower_gamma a y v -> 0 < v <= Gam a.
Proof.
  intros Ha Hy Hv. split. { apply (lower_pos 0 p_infty (gamma_h a) y v); [apply gh_cont|apply gh_pos|now apply LG_in|now apply in0]. }
  destruct (imp_split 0 p_infty (gamma_h a) I (gh_cont a) (gh_nn a) (Gam a) y (G_in _ _ (Gam_spec a Ha)) ltac:(now apply in0)) as (la & lb & A & B & E).
  assert (L := imp_lower 0 p_infty (gamma_h a) I (gh_cont a) (gh_nn a) y la y ltac:(now apply in0) ltac:(now apply in0) A).
  assert (EV := lower_unique 0 (gamma_h a) y v _ ltac:(discriminate) (LG_in _ _ _ Hv) L).
  assert (Z : iF (gamma_h a) y y = 0) by (unfold iF; apply (RInt_point (V := R_CompleteNormedModule))).
  assert (M : iF (gamma_h a) y y <= lb).
  { apply (le_lim_below 0 p_infty (iF (gamma_h a) y) lb); [|exact B|now apply in0]. intros s t Hs Ht Hst. apply (iF_mono 0 p_infty (gamma_h a) (gh_cont a) (gh_nn a)); auto. now apply in0. }
  lra.
Qed.
Theorem C98_erlang_all_refuted (SP : Special xreal) (k : nat) (l : R) (d : Erlang.t xreal) :
  Erlang.new (Z.of_nat k) (Fin l) = Ok d -> (2 <= k)%nat -> (Z.of_nat k < 2 ^ 64 - 1)%Z ->
  ~ is_RInt_gen (rf (fun x => got (Erlang.pdf d x))) (at_right 0) (Rbar_locally p_infty) 1 /\
  (gammainc_lower SP \/ gammainc_regularised SP -> ~ is_cdf 0 p_infty (fun x => gotp (Erlang.cdf d x))).
Proof.
  intros H Hk Hu. unfold Erlang.new in H. inv_new H. change (Erlang.mk _) with (Erlang.new_unchecked (Z.of_nat k) (Fin l)).
  assert (KI : 2 <= INR k) by (apply (le_INR 2); lia).
  split.
  - intros T. destruct (lf_close (k - 1) ltac:(lia)) as (v & E & B).
    set (h := fun x => exp (INR k * ln l + INR (k - 1) * x - l * x - v)).
    assert (PE : forall x, rf (fun x => got (Erlang.pdf (Erlang.new_unchecked (Z.of_nat k) (Fin l)) x)) x = h x).
    { intros x. unfold rf, Erlang.pdf, Erlang.log_pdf; cbn [Erlang.new_unchecked Erlang.pr Erlang.k Erlang.lambda]. assert (EZ : (Z.of_nat k - 1)%Z = Z.of_nat (k - 1)) by lia. rewrite EZ.
      unfold u64, checked. replace (_ && _)%bool with true by (symmetry; apply andb_true_iff; split; apply Z.leb_le; unfold U64_MAX; lia). cbn [rbind]. rewrite E. cbn [rbind rmap]. xs. cbn [got val].
      rewrite <- !INR_IZR_INZ. reflexivity. }
    assert (T' : is_RInt_gen h (above 0) (below p_infty) 1) by (revert T; apply (gen_ext 0 p_infty); exact PE).
    assert (GA : is_RInt_gen (fun x => 2 * ga_u (INR k) l x) (above 0) (below p_infty) (2 * 1)).
    { apply (gen_scal 0 p_infty). apply (gam_total (INR k) l ltac:(lra) HP0 (fun x => Fin (ga_u (INR k) l (val x))) (fun x _ => eq_refl)). }
    assert (L : 2 * 1 <= 1); [|lra].
    apply (gen_le 0 p_infty (fun x => 2 * ga_u (INR k) l x) h); [exact I| | | |exact GA|exact T'].
    + intros x Hx. apply (continuous_scal_r (V := R_NormedModule) 2 (ga_u (INR k) l)). now apply ga_u_cont.
    + intros x _. eapply ex_derive_cont. unfold h. dder. reflexivity.
    + intros x Hx. assert (X := Hx). apply in0f in X. destruct (er_pdf_big k l x Hk ltac:(lia) HP0 X) as (q & Eq & Lq). assert (E2 := er_tb k ltac:(lia) l HP0 x Hx). cbn [val] in E2. apply Fin_inj in E2. rewrite <- E2.
      rewrite <- PE. unfold rf. rewrite Eq. cbn [got val]. lra.
  - intros Hi C. destruct (lf_close k ltac:(lia)) as (v & E & B). apply Rabs_le_between in B.
    assert (F0 := INR_fact_lt_0 (k - 1)). assert (FK := er_fact k ltac:(lia)). assert (G := Gam_pos (INR k) ltac:(lra)).
    assert (FS : INR (fact k) = INR k * INR (fact (k - 1))). { replace k with (S (k - 1)) at 1 by lia. rewrite fact_simpl, mult_INR. replace (S (k - 1)) with k by lia. reflexivity. }
    assert (EV : / exp v <= / (3 / 2 * INR (fact (k - 1)))).
    { apply Rinv_le_contravar; [pos|]. rewrite <- (exp_ln (3 / 2 * INR (fact (k - 1)))) by pos. apply exp_le_mono. rewrite FS, ln_mult in B by lra.
      rewrite ln_mult by lra. assert (ln 2 <= ln (INR k)) by (apply ln_le; lra). assert (L32 : ln (3 / 2) <= 1 / 2) by (assert (Z := ln_le_sub1 (3 / 2) ltac:(lra)); lra). assert (H12 := ln_lb (1 / 3) ltac:(lra)). replace ((1 + 1 / 3) / (1 - 1 / 3)) with 2 in H12 by field. lra. }
    assert (V : forall x, 0 < x -> rf (fun x => gotp (Erlang.cdf (Erlang.new_unchecked (Z.of_nat k) (Fin l)) x)) x <= 2 / 3).
    { intros x Hx. assert (P : 0 < l * x) by pos. unfold rf, Erlang.cdf, d_cdf, Erlang.log_cdf. cbn [Erlang.pr Erlang.k Erlang.lambda Erlang.new_unchecked]. rewrite E. cbn [rbind rmap]. xs.
      rewrite <- INR_IZR_INZ. assert (FB : 1 <= INR (fact (k - 1))) by (apply (le_INR 1); assert (Q := lt_O_fact (k - 1)); lia).
      assert (W : exists w, sf_gammainc (Fin (INR k)) (Fin (l * x)) = Fin w /\ 0 < w <= Gam (INR k)).
      { destruct Hi as [Hi|Hi].
        - destruct (Hi (INR k) (l * x) ltac:(lra) P) as (w & Hw & Ew). exists w. split; [auto|]. apply (lower_total (INR k) (l * x)); [lra|auto|auto].
        - destruct (Hi (INR k) (l * x) ltac:(lra) P) as (w & g & Hw & Hgm & Ew). assert (Eg := Gamma_unique _ _ _ Hgm (Gam_spec (INR k) ltac:(lra))). subst g.
          exists (w / Gam (INR k)). split; [auto|]. destruct (lower_total (INR k) (l * x) w ltac:(lra) P Hw) as [W1 W2]. split; [pos|]. apply Rle_trans with 1; [|lra].
          apply Rmult_le_reg_r with (Gam (INR k)); [auto|]. unfold Rdiv. rewrite Rmult_assoc, Rinv_l by lra. lra. }
      destruct W as (w & -> & W1 & W2). xs. cbn [gotp unwrap val]. replace (ln w - v) with (ln w + - v) by ring. rewrite exp_plus, exp_ln, exp_Ropp by auto.
      apply Rle_trans with (Gam (INR k) * / (3 / 2 * INR (fact (k - 1)))).
      { apply Rmult_le_compat; [lra|left; apply Rinv_0_lt_compat, exp_pos|auto|auto]. }
      rewrite <- FK. right. field. lra. }
    assert (L : 1 <= 2 / 3); [|lra].
    assert (LC := fl_const (F := below p_infty) (2 / 3)).
    eapply (filterlim_le (F := below p_infty) (rf (fun x => gotp (Erlang.cdf (Erlang.new_unchecked (Z.of_nat k) (Fin l)) x))) (fun _ => 2 / 3) (Finite 1) (Finite (2 / 3))); [|exact (cdf_upper _ _ _ C)|exact LC].
    exists 0. intros x Hx. now apply V.
Qed.
Print Assumptions C98_erlang_all_refuted.
Example C98_all_nonvacuous : gammainc_lower (exact false) /\ exists d, Erlang.new (Z.of_nat 4) (Fin 3) = Ok d. Proof. split; [apply ex_gil|]. eexists. unfold Erlang.new. ok_new. Qed.

(** C100: among all positive degrees of freedom, the Student-t cdf is one at 2 and at 4 only *)
Theorem C100_student_t_cdf_all_refuted (SP : Special xreal) (n : R) (d : StudentT.t xreal) :
  gamma_exact SP -> hyp2f1_exact SP -> StudentT.new (Fin n) = Ok d -> 0 < n ->
  (is_cdf m_infty p_infty (cdfx StudentT.cdf d) <-> n = 2 \/ n = 4).
Proof.
  intros Hg Hh H Hn. unfold StudentT.new in H. inv_new H. change (StudentT.mk _) with (StudentT.new_unchecked (Fin n)). split.
  - intros C. destruct (Req_dec (Gam (n / 2)) 1) as [E|E].
    + destruct (Gam_one (n / 2) ltac:(lra) E); [left|right]; lra.
    + exfalso. revert C. now apply st_not_cdf.
  - intros Hc. apply (proj1 (st_coherent Hg n Hn Hh ltac:(destruct Hc as [->| ->]; [replace (2 / 2) with 1 by field; exact Gam_1|replace (4 / 2) with 2 by field; exact Gam_2]))).
Qed.
Print Assumptions C100_student_t_cdf_all_refuted.

(** C101: from three degrees of freedom on, the entropy returned is too large *)
Theorem C101_student_t_entropy_large_refuted (SP : Special xreal) (n : R) (d : StudentT.t xreal) :
  gamma_exact SP -> beta_exact SP -> StudentT.new (Fin n) = Ok d -> 3 <= n ->
  exists e h, StudentT.shannon_entropy d = Fin e /\ is_entropy m_infty p_infty (StudentT.pdf d) h /\ h < e.
Proof.
  intros Hg Hb H Hn. unfold StudentT.new in H. inv_new H. change (StudentT.mk _) with (StudentT.new_unchecked (Fin n)).
  assert (Hn0 : 0 < n) by lra. eexists _, _. split; [now apply st_entropy_val|]. split; [now apply st_entropy_true|]. unfold st_ent.
  replace ((n + 1) / 2) with (n / 2 + 1 / 2) by field. set (a := n / 2). assert (Ha : 3 / 2 <= a) by (unfold a; lra).
  assert (G1 := Gam_half_inc a Ha).
  assert (P1 : psi (a + 1 / 2) - psi a < / a). { assert (Q := psi_inc (a + 1 / 2) (a + 1) ltac:(lra) ltac:(lra)). rewrite psi_rec in Q by lra. lra. }
  assert (P2 : (a + 1 / 2) * (psi (a + 1 / 2) - psi a) < 4 / 3).
  { apply Rlt_le_trans with ((a + 1 / 2) * / a); [apply Rmult_lt_compat_l; lra|]. replace ((a + 1 / 2) * / a) with (1 + / 2 * / a) by (field; lra).
    assert (/ a <= / (3 / 2)) by (apply Rinv_le_contravar; lra). lra. }
  assert (P3 : 0 < (a + 1 / 2) * (Gam (a + 1 / 2) - Gam a)) by (apply Rmult_lt_0_compat; lra).
  set (X := sqrt n * Bet (1 / 2) a). assert (GB := Bet_pos (1 / 2) a ltac:(lra) ltac:(lra)). assert (SN : 0 < sqrt n) by pos. assert (HX : 0 < X) by (unfold X; pos).
  (* X > sqrt (2 pi) > 12/5 *)
  assert (X1 : 12 / 5 < X).
  { assert (BG := Beta_Gamma (1 / 2) a ltac:(lra) ltac:(lra)). rewrite Gam_half in BG. rewrite (Rplus_comm (1 / 2) a) in BG.
    assert (HS := Gam_half_step a ltac:(lra)). assert (Ga := Gam_pos a ltac:(lra)). assert (Gb := Gam_pos (a + 1 / 2) ltac:(lra)). assert (PP := PI_RGT_0). assert (SPI : 0 < sqrt PI) by pos.
    apply ln_lt_inv; [lra|auto|]. unfold X. rewrite ln_mult, ln_sqrt' by lra. assert (E := f_equal ln BG). rewrite !ln_mult in E by auto. rewrite ln_sqrt' in E by auto.
    assert (En : ln n = ln 2 + ln a) by (rewrite <- ln_mult by lra; f_equal; unfold a; field).
    assert (L : 2 * ln (12 / 5) < ln 2 + ln PI).
    { rewrite <- ln_mult by lra. replace (2 * ln (12 / 5)) with (ln (12 / 5 * (12 / 5))) by (rewrite ln_mult by lra; ring). apply ln_increasing; [lra|]. assert (Q := PI2_3_2). unfold PI2 in Q. lra. }
    lra. }
  assert (X2 : 4 / 3 < X - ln X).
  { assert (T := ln_le_sub1 (X / (12 / 5)) ltac:(pos)). rewrite ln_div' in T by lra.
    assert (L : ln (12 / 5) < 1). { rewrite <- (ln_exp 1). apply ln_increasing; [lra|]. assert (E := exp_ineq1 (1 / 2) ltac:(lra)). assert (exp 1 = exp (1 / 4) * exp (1 / 4) * (exp (1 / 4) * exp (1 / 4))) by (rewrite <- !exp_plus; f_equal; field). assert (E4 := exp_ineq1 (1 / 4) ltac:(lra)). assert (25 / 16 < exp (1 / 4) * exp (1 / 4)) by nra. nra. }
    assert (X / (12 / 5) = 5 / 12 * X) by field. lra. }
  unfold a in *. lra.
Qed.
Print Assumptions C101_student_t_entropy_large_refuted.
Example C101_entropy_nonvacuous : gamma_exact (exact false) /\ beta_exact (exact false) /\ exists d, StudentT.new (Fin 5) = Ok d.
Proof. split; [apply ex_gamma|]. split; [apply ex_beta|]. eexists. unfold StudentT.new. ok_new. Qed.
