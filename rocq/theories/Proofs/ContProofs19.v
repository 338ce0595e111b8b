(** * Moments that do not exist: inverse gamma, beta prime, F; clash of the two
      readings of gammainc *)
From Coq Require Import Reals Lra Lia Psatz List ZArith.
From Coquelicot Require Import Coquelicot.
From Verif.Num Require Import XReal.
From Verif.Model Require Import Rust Constraints Probability Params Consts Continuous3.
From Verif.Spec Require Import DistSpec GammaSpec ResSpec.
From Verif.Proofs Require Import XTac Calc Calc2 Improper GammaFun Subst Mellin HeavyTail Unique ContProofs11 ContProofs12 ContProofs13 ContProofs14 ContProofs15 ContProofs16.
Open Scope R_scope.

Lemma ig_tail a b : 0 < a -> 0 < b -> forall x, 1 <= x -> Rpower b a / Gam a * exp (- b) * Rpower x (- a - 1) <= ig_u a b x.
Proof.
  intros Ha Hb x Hx. assert (G := Gam_pos a Ha). unfold ig_u. rewrite Rmult_assoc. apply Rmult_le_compat_l; [left; pos|].
  rewrite Rmult_comm. apply Rmult_le_compat_l; [left; pos|]. apply exp_le_mono. apply Ropp_le_contravar.
  apply Rmult_le_reg_r with x; [lra|]. replace (b / x * x) with b by (field; lra). nra.
Qed.
Lemma od_tail c p q : 0 < c -> 0 < p -> 0 < q -> forall x, c <= x ->
  Rpower c q / Bet p q * Rpower 2 (- p - q) * Rpower x (- q - 1) <= od_u c p q x.
Proof.
  intros Hc Hp Hq x Hx. assert (G := Bet_pos p q Hp Hq). unfold od_u. rewrite Rmult_assoc. apply Rmult_le_compat_l; [left; pos|].
  replace (- q - 1) with (p - 1 + (- p - q)) by ring. rewrite Rpower_plus.
  replace (Rpower 2 (- p - q) * (Rpower x (p - 1) * Rpower x (- p - q))) with (Rpower x (p - 1) * (Rpower 2 (- p - q) * Rpower x (- p - q))) by ring.
  apply Rmult_le_compat_l; [left; pos|]. rewrite Rpower_mult_distr by lra.
  replace (- p - q) with (- (p + q)) by ring. rewrite !Rpower_Ropp. apply Rinv_le_contravar; [pos|]. apply Rle_Rpower_l; lra.
Qed.
Section IG.
Context {SP : Special xreal} (Hg : gamma_exact SP) (a b : R) (Ha : 0 < a) (Hb : 0 < b).
Notation pdf := (InvGamma.pdf (InvGamma.new_unchecked (Fin a) (Fin b))).
Lemma ig_C : 0 < Rpower b a / Gam a * exp (- b). Proof. assert (G := Gam_pos a Ha). pos. Qed.
Lemma ig_no_mean m : a <= 1 -> ~ is_mean 0 p_infty pdf m.
Proof. apply (no_mean _ _ 1 _ a (ig_pdf Hg a b Ha Hb) (ig_u_cont a b) Rlt_0_1 ig_C (ig_tail a b Ha Hb)). Qed.
Lemma ig_no_variance m v : a <= 2 -> ~ is_variance 0 p_infty pdf m v.
Proof. apply (no_variance _ _ 1 _ a (ig_pdf Hg a b Ha Hb) (ig_u_cont a b) Rlt_0_1 ig_C (ig_tail a b Ha Hb)). Qed.
Lemma ig_no_skewness k : a <= 3 -> ~ is_skewness 0 p_infty pdf k.
Proof. apply (no_skewness _ _ 1 _ a (ig_pdf Hg a b Ha Hb) (ig_u_cont a b) Rlt_0_1 ig_C (ig_tail a b Ha Hb)). Qed.
Lemma ig_no_kurtosis k : a <= 4 -> ~ is_kurtosis 0 p_infty pdf k.
Proof. apply (no_kurtosis _ _ 1 _ a (ig_pdf Hg a b Ha Hb) (ig_u_cont a b) Rlt_0_1 ig_C (ig_tail a b Ha Hb)). Qed.
End IG.
Section OD.
Context (c p q : R) (Hc : 0 < c) (Hp : 0 < p) (Hq : 0 < q) (pdf : xreal -> xreal) (Hpdf : forall x, inside 0 p_infty x -> pdf (Fin x) = Fin (od_u c p q x)).
Lemma od_C : 0 < Rpower c q / Bet p q * Rpower 2 (- p - q). Proof. assert (G := Bet_pos p q Hp Hq). pos. Qed.
Lemma od_no_mean m : q <= 1 -> ~ is_mean 0 p_infty pdf m.
Proof. apply (no_mean _ _ c _ q Hpdf (od_u_cont c p q Hc) Hc od_C (od_tail c p q Hc Hp Hq)). Qed.
Lemma od_no_variance m v : q <= 2 -> ~ is_variance 0 p_infty pdf m v.
Proof. apply (no_variance _ _ c _ q Hpdf (od_u_cont c p q Hc) Hc od_C (od_tail c p q Hc Hp Hq)). Qed.
Lemma od_no_skewness k : q <= 3 -> ~ is_skewness 0 p_infty pdf k.
Proof. apply (no_skewness _ _ c _ q Hpdf (od_u_cont c p q Hc) Hc od_C (od_tail c p q Hc Hp Hq)). Qed.
Lemma od_no_kurtosis k : q <= 4 -> ~ is_kurtosis 0 p_infty pdf k.
Proof. apply (no_kurtosis _ _ c _ q Hpdf (od_u_cont c p q Hc) Hc od_C (od_tail c p q Hc Hp Hq)). Qed.
End OD.

(** whatever [gammainc] computes, Chi(6) and ChiSq(6) cannot both have a cdf
    coherent with their pdf: the first needs gamma(3,y)/2, the second gamma(3,y) *)
Lemma gammainc_clash (SP : Special xreal) : gamma_exact SP ->
  coherent 0 p_infty (fun x => unwrap (Chi.cdf (Chi.new_unchecked 6) x)) (Chi.pdf (Chi.new_unchecked 6)) ->
  coherent 0 p_infty (fun x => unwrap (ChiSq.cdf (ChiSq.new_unchecked 6) x)) (ChiSq.pdf (ChiSq.new_unchecked 6)) -> False.
Proof.
  intros Hg H1 H2.
  assert (G3 : Gam 3 = 2). { replace 3 with (1 + 1 + 1) by ring. rewrite !Gam_rec by lra. rewrite Gam_1. ring. }
  destruct H1 as [C1 _], H2 as [C2 _].
  (* both are the same oracle value, up to the factor 2 *)
  assert (E : forall y, 0 < y -> rf (fun x => unwrap (Chi.cdf (Chi.new_unchecked 6) x)) (sqrt (2 * y)) = 2 * rf (fun x => unwrap (ChiSq.cdf (ChiSq.new_unchecked 6) x)) (2 * y)).
  { intros y Hy. assert (Q1 := cdf_valid _ _ _ C1 (sqrt (2 * y)) ltac:(apply in0; pos)). destruct Q1 as (v & Ev & _).
    unfold rf. revert Ev. unfold Chi.cdf, ChiSq.cdf, Chi.kf, ChiSq.kf. cbn [unwrap Chi.pr Chi.k Chi.new_unchecked ChiSq.pr ChiSq.k ChiSq.new_unchecked]. xs.
    rewrite sqrt_sqrt by lra. replace (2 * y / 2) with y by field. replace (6 / 2) with 3 by field. rewrite sfg by (auto; lra). rewrite G3. intros ->.
    rewrite x_div by lra. cbn [val]. field. }
  assert (L2 := cdf_upper _ _ _ C2).
  destruct (L2 (fun p => 3 / 4 < p)) as [M HM]. { exists (mkposreal (/ 4) ltac:(lra)). intros p Hp. unfold ball in Hp; cbn in Hp; unfold AbsRing_ball, abs, minus, plus, opp in Hp; cbn in Hp. apply Rabs_def2 in Hp. lra. }
  set (y := Rmax 1 (M + 1)). assert (1 <= y) by apply Rmax_l. assert (M + 1 <= y) by apply Rmax_r.
  assert (B := HM (2 * y) ltac:(lra)). specialize (E y ltac:(lra)).
  destruct (cdf_valid _ _ _ C1 (sqrt (2 * y)) ltac:(apply in0; pos)) as (v & Ev & Hv). unfold rf in E at 1. rewrite Ev in E. cbn [val] in E. lra.
Qed.
