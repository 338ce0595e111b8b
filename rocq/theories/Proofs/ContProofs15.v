(** * BetaPrime, F *)
From Coq Require Import Reals Lra Lia Psatz List ZArith.
From Coquelicot Require Import Coquelicot.
From Verif.Num Require Import XReal.
From Verif.Model Require Import Rust Constraints Probability Params Consts Continuous3.
From Verif.Spec Require Import DistSpec GammaSpec ResSpec.
From Verif.Proofs Require Import XTac Calc Calc2 Improper GammaFun Subst Mellin ContProofs11 ContProofs12 ContProofs13 ContProofs14.
Import ListNotations.
Open Scope R_scope.

Lemma Rpower_1_base c : Rpower 1 c = 1.
Proof. unfold Rpower. rewrite ln_1, Rmult_0_r. apply exp_0. Qed.

Lemma odds_01 c x : 0 < c -> 0 < x -> 0 < x / (c + x) < 1.
Proof. intros. assert (1 - x / (c + x) = c / (c + x)) by (field; lra). assert (0 < c / (c + x)) by pos. split; [pos|lra]. Qed.

Section BetaPrime.
Import BetaPrime.
Context {SP : Special xreal} (Hg : beta_exact SP).
Context (a b : R) (Ha : 0 < a) (Hb : 0 < b).
Notation d := (new_unchecked (Fin a) (Fin b)).
Notation cd := (fun x => unwrap (cdf d x)).
Notation u := (od_u 1 a b).
Lemma bp_u x : u x = Rpower x (a - 1) * Rpower (1 + x) (- a - b) / Bet a b.
Proof. assert (G := Bet_pos a b Ha Hb). unfold od_u. rewrite Rpower_1_base. field. lra. Qed.
Lemma bp_pdf x : inside 0 p_infty x -> pdf d (Fin x) = Fin (u x).
Proof.
  intros Hx%in0f. assert (G := Bet_pos a b Ha Hb). unfold pdf. cbn [pr alpha beta new_unchecked]. rewrite sfb by auto. xs. f_equal. now rewrite bp_u.
Qed.
Lemma bp_coherent : betainc_exact SP -> coherent 0 p_infty cd (pdf d).
Proof.
  intros Hi. apply (od_coherent 1 a b ltac:(lra) Ha Hb (pdf d) bp_pdf). intros x Hx.
  assert (0 < x / (1 + x) < 1). { assert (1 - x / (1 + x) = 1 / (1 + x)) by (field; lra). assert (0 < 1 / (1 + x)) by pos. split; [pos|lra]. }
  unfold cdf. cbn [pr alpha beta new_unchecked unwrap]. xs. now apply sfbi.
Qed.
Lemma bp_mean : match mean d with Ret m => 1 < b /\ returns m (is_mean 0 p_infty (pdf d)) | _ => b <= 1 end.
Proof.
  unfold mean; cbn [pr alpha beta new_unchecked]. xs. destruct (Rleb_spec b 1) as [H|H]; [auto|]. split; [auto|].
  xs. eexists; split; [reflexivity|]. apply (od_mean 1 a b ltac:(lra) Ha Hb (pdf d) bp_pdf); [lra|]. field. lra.
Qed.
Lemma bp_variance : match variance d with Ret v => 2 < b /\ returns v (is_variance 0 p_infty (pdf d) (a / (b - 1))) | _ => b <= 2 end.
Proof.
  unfold variance; cbn [pr alpha beta new_unchecked]. xs. destruct (Rleb_spec b 2) as [H|H]; [auto|]. split; [auto|].
  xs. eexists; split; [reflexivity|]. apply (od_variance 1 a b ltac:(lra) Ha Hb (pdf d) bp_pdf); [lra|field; lra|field; lra].
Qed.
Lemma bp_skewness : match skewness d with Ret v => 3 < b /\ returns v (is_skewness 0 p_infty (pdf d)) | _ => b <= 3 end.
Proof.
  unfold skewness; cbn [pr alpha beta new_unchecked]. xs. destruct (Rleb_spec b 3) as [H|H]; [auto|]. split; [auto|].
  xs. eexists; split; [reflexivity|]. apply (od_skewness 1 a b ltac:(lra) Ha Hb (pdf d) bp_pdf); [lra|].
  assert (0 < (b - 2) / (a * (a + (b - 1)))) by pos.
  rewrite Rmult_assoc, <- sqrt_mult by pos.
  replace ((b - 2) / (a * (a + (b - 1))) * (a * (a + b - 1) / (b - 2))) with 1 by (field; lra). rewrite sqrt_1. field. lra.
Qed.
Lemma bp_kurtosis : 4 < b -> is_kurtosis 0 p_infty (pdf d) (3 + od_ek a b).
Proof. intros H. apply (od_kurtosis 1 a b ltac:(lra) Ha Hb (pdf d) bp_pdf H). Qed.
Lemma bp_ek_val : 4 < b -> excess_kurtosis d = Fin ((6 * (a + (b - 1)) * (5 * b - 11) + (b - 1) * (b - 1) * (b - 2)) / (a * (a + (b - 1)) * (b - 3) * (b - 4))).
Proof. intros H. unfold excess_kurtosis; cbn [pr alpha beta new_unchecked]. xs. reflexivity. Qed.
(** without a guard: also where the fourth moment does not exist *)
Lemma bp_ek_noguard : b <> 3 -> b <> 4 -> a + (b - 1) <> 0 -> exists r, excess_kurtosis d = Fin r.
Proof.
  intros H3 H4 H1. unfold excess_kurtosis; cbn [pr alpha beta new_unchecked]. eexists. assert (a * (a + (b - 1)) * (b - 3) * (b - 4) <> 0) by (repeat apply Rmult_integral_contrapositive_currified; lra). xs. reflexivity.
Qed.
Lemma bp_modes : 1 < a -> modes d <> [] /\ all_return (modes d) (is_mode 0 p_infty (pdf d)).
Proof.
  intros H. unfold modes; cbn [pr alpha beta new_unchecked]. xs. rewrite (Rleb_true 1 a) by lra. split; [discriminate|]. intros y [<-|[]]. xs.
  eexists; split; [reflexivity|]. set (m := (a - 1) / (b + 1)). assert (0 < m) by (unfold m; pos). exists (u m). split; [apply bp_pdf; now apply in0|].
  intros x Hx. eexists; split; [now apply bp_pdf|]. apply in0f in Hx. apply od_max; auto; try lra. unfold m; ring.
Qed.
Lemma bp_entropy_true : is_entropy 0 p_infty (pdf d) (ln (Bet a b) - (a - 1) * psi a - (b + 1) * psi b + (a + b) * psi (a + b)).
Proof.
  assert (A := od_entropy 1 a b ltac:(lra) Ha Hb (pdf d) bp_pdf). unfold od_ent in A. rewrite ln_1 in A.
  replace (ln (Bet a b) - (a - 1) * psi a - (b + 1) * psi b + (a + b) * psi (a + b)) with (ln (Bet a b) + 0 - (a - 1) * psi a - (b + 1) * psi b + (a + b) * psi (a + b)) by ring. exact A.
Qed.
Lemma bp_entropy_val : digamma_exact SP -> logbeta_exact SP -> shannon_entropy d = Fin (ln (Bet a b) - (a - 1) * psi a - (b - 1) * psi b + (a + b - 2) * psi (a + b)).
Proof.
  intros Hd Hl. unfold shannon_entropy; cbn [pr alpha beta new_unchecked]. rewrite sflb by auto. rewrite !sfpsi by auto. xs. rewrite sfpsi by (auto; lra). now xs.
Qed.
End BetaPrime.

Lemma ln_sqrt' x : 0 < x -> ln (sqrt x) = ln x / 2.
Proof. intros H. rewrite <- Rpower_sqrt, ln_Rpower by auto. field. Qed.

Section FDist.
Import FDist.
Context {SP : Special xreal} (Hg : beta_exact SP).
Context (n1 n2 : Z) (H1 : (0 < n1)%Z) (H2 : (0 < n2)%Z).
Notation d := (new_unchecked n1 n2).
Notation A := (IZR n1).
Notation B := (IZR n2).
Notation cd := (fun x => unwrap (cdf d x)).
Notation c := (B / A).
Notation u := (od_u c (A / 2) (B / 2)).
Lemma fd_A : 0 < A. Proof. now apply IZR_lt. Qed.
Lemma fd_B : 0 < B. Proof. now apply IZR_lt. Qed.
Ltac bas := assert (HA := fd_A); assert (HB := fd_B); assert (Hc : 0 < c) by pos; assert (HA2 : 0 < A / 2) by lra; assert (HB2 : 0 < B / 2) by lra; assert (G := Bet_pos (A / 2) (B / 2) HA2 HB2).
Lemma fd_pdf x : inside 0 p_infty x -> pdf d (Fin x) = Fin (u x).
Proof.
  bas. intros Hx%in0f. unfold pdf, f1, f2. cbn [pr d1 d2 new_unchecked]. xs. rewrite sfb by auto. xs. f_equal. unfold od_u.
  assert (E : sqrt (Rpower (A * x) A * Rpower B B / Rpower (A * x + B) (A + B)) = Rpower c (B / 2) * (Rpower x (A / 2) * Rpower (c + x) (- (A / 2) - B / 2))).
  { apply ln_inv; [pos|pos|]. rewrite ln_sqrt' by pos. rewrite ln_div' by pos. rewrite !ln_mult, !ln_Rpower, ln_mult, ln_div' by pos.
    replace (c + x) with ((A * x + B) / A) by (field; lra). rewrite ln_div' by pos. field. }
  rewrite E. replace (Rpower x (A / 2 - 1)) with (Rpower x (A / 2) / x). 2:{ unfold Rminus. rewrite Rpower_plus, Rpower_Ropp, Rpower_1 by auto. field. lra. } field. lra.
Qed.
Lemma fd_coherent : betainc_exact SP -> coherent 0 p_infty cd (pdf d).
Proof.
  bas. intros Hi. apply (od_coherent c (A / 2) (B / 2) Hc HA2 HB2 (pdf d) fd_pdf). intros x Hx.
  assert (E : A * x / (A * x + B) = x / (c + x)). { assert (0 < A * x) by pos. assert (0 < B + A * x) by lra. field. repeat split; lra. }
  assert (0 < x / (c + x) < 1) by now apply odds_01.
  unfold cdf, f1, f2. cbn [pr d1 d2 new_unchecked unwrap]. xs. rewrite E. now apply sfbi.
Qed.
Lemma fd_leb z : (if (n2 <=? z)%Z then B <= IZR z else IZR z < B).
Proof. destruct (Z.leb_spec n2 z) as [H|H]; [now apply IZR_le|now apply IZR_lt]. Qed.
Lemma fd_mean : match mean d with Ret m => (2 < n2)%Z /\ returns m (is_mean 0 p_infty (pdf d)) | _ => (n2 <= 2)%Z end.
Proof.
  bas. unfold mean, f2; cbn [pr d1 d2 new_unchecked]. assert (L := fd_leb 2). destruct (Z.leb_spec n2 2) as [H|H]; [auto|]. split; [auto|].
  xs. eexists; split; [reflexivity|]. apply (od_mean c (A / 2) (B / 2) Hc HA2 HB2 (pdf d) fd_pdf); [lra|]. field. repeat split; lra.
Qed.
Lemma fd_variance : match variance d with Ret v => (4 < n2)%Z /\ returns v (is_variance 0 p_infty (pdf d) (B / (B - 2))) | _ => (n2 <= 4)%Z end.
Proof.
  bas. unfold variance, f1, f2; cbn [pr d1 d2 new_unchecked]. assert (L := fd_leb 4). destruct (Z.leb_spec n2 4) as [H|H]; [auto|]. split; [auto|].
  xs. eexists; split; [reflexivity|]. apply (od_variance c (A / 2) (B / 2) Hc HA2 HB2 (pdf d) fd_pdf); [lra|field; repeat split; lra|field; repeat split; lra].
Qed.
Lemma fd_skewness : (6 < n2)%Z -> exists v, skewness d = Ret (Fin v) /\ is_skewness 0 p_infty (pdf d) v.
Proof.
  bas. intros L. unfold skewness, f1, f2; cbn [pr d1 d2 new_unchecked]. apply IZR_lt in L. assert (H := fd_leb 4). destruct (Z.leb_spec n2 4) as [H'|H']; [lra|].
  xs. eexists; split; [reflexivity|]. apply (od_skewness c (A / 2) (B / 2) Hc HA2 HB2 (pdf d) fd_pdf); [lra|].
  replace (A / 2 * (A / 2 + B / 2 - 1) / (B / 2 - 2)) with (A * (A + B - 2) / (2 * (B - 4))) by (field; lra).
  assert (0 < sqrt (A * (A + B - 2))) by pos.
  rewrite sqrt_div_alt by lra. replace (8 * (B - 4)) with (2 * 2 * (2 * (B - 4))) by ring. rewrite (sqrt_mult (2 * 2)) by pos. rewrite sqrt_square by lra.
  assert (0 < sqrt (2 * (B - 4))) by pos. field. repeat split; lra.
Qed.
(** where the third moment does not exist the method answers anyway *)
Lemma fd_skewness_5 : n2 = 5%Z -> exists v, skewness d = Ret (Fin v) /\ v < 0.
Proof.
  bas. intros L. unfold skewness, f1, f2; cbn [pr d1 d2 new_unchecked]. assert (EB : B = 5) by now rewrite L. subst n2. cbn [Z.leb Z.compare Pos.compare Pos.compare_cont].
  assert (P : 0 < sqrt (A * (A + 5 - 2))) by pos. assert (P2 : 0 < sqrt (8 * (5 - 4))) by pos.
  xs. eexists; split; [reflexivity|]. apply Rmult_lt_reg_r with (sqrt (A * (A + 5 - 2))); [auto|].
  replace ((2 * A + 5 - 2) * sqrt (8 * (5 - 4)) / ((5 - 6) * sqrt (A * (A + 5 - 2))) * sqrt (A * (A + 5 - 2))) with (- ((2 * A + 3) * sqrt (8 * (5 - 4)))) by (field; lra).
  assert (0 < (2 * A + 3) * sqrt (8 * (5 - 4))) by pos. lra.
Qed.
Lemma fd_kurtosis : (8 < n2)%Z -> is_kurtosis 0 p_infty (pdf d) (3 + od_ek (A / 2) (B / 2)).
Proof. bas. intros L%IZR_lt. apply (od_kurtosis c (A / 2) (B / 2) Hc HA2 HB2 (pdf d) fd_pdf). lra. Qed.
Lemma fd_ek_val : (8 < n2)%Z -> exists e, excess_kurtosis d = Ret (Fin e) /\ e < od_ek (A / 2) (B / 2).
Proof.
  bas. intros L. unfold excess_kurtosis, f1, f2; cbn [pr d1 d2 new_unchecked]. assert (H := fd_leb 4). apply IZR_lt in L. destruct (Z.leb_spec n2 4) as [H'|H']; [lra|].
  assert (P : 0 < A * (B - 6) * (B - 8) * (A + (B - 2))) by pos. xs. eexists; split; [reflexivity|].
  unfold od_ek. apply Rmult_lt_reg_r with (A * (B - 6) * (B - 8) * (A + (B - 2))); [auto|].
  match goal with |- ?x / ?y * ?z < _ => replace (x / y * z) with x by (field; lra) end.
  replace (6 * (A / 2 * (A / 2 + B / 2 - 1) * (5 * (B / 2) - 11) + (B / 2 - 1) * (B / 2 - 1) * (B / 2 - 2)) / (A / 2 * (A / 2 + B / 2 - 1) * (B / 2 - 3) * (B / 2 - 4)) * (A * (B - 6) * (B - 8) * (A + (B - 2))))
    with (12 * A * (5 * B - 22) * (A + (B - 2)) + 12 * ((B - 4) * (B - 2) * (B - 2))) by (field; lra).
  assert (0 < (B - 4) * (B - 2) * (B - 2)) by pos. lra.
Qed.
Lemma fd_modes : match modes d with Ret l => (2 < n1)%Z /\ l <> [] /\ all_return l (is_mode 0 p_infty (pdf d)) | _ => (n1 <= 2)%Z end.
Proof.
  bas. unfold modes, f1, f2; cbn [pr d1 d2 new_unchecked]. destruct (Z.leb_spec n1 2) as [H|H]; [auto|]. assert (L := IZR_lt _ _ H). split; [auto|]. split; [discriminate|]. intros y [<-|[]]. xs.
  eexists; split; [reflexivity|]. set (m := (A - 2) / A * B / (B + 2)). assert (0 < m) by (unfold m; pos). exists (u m). split; [apply fd_pdf; now apply in0|].
  intros x Hx. eexists; split; [now apply fd_pdf|]. apply in0f in Hx. apply od_max; auto; try lra. unfold m; field. lra.
Qed.
Lemma fd_entropy_true : is_entropy 0 p_infty (pdf d) (od_ent c (A / 2) (B / 2)).
Proof. bas. apply (od_entropy c (A / 2) (B / 2) Hc HA2 HB2 (pdf d) fd_pdf). Qed.
Lemma fd_entropy_val : gamma_exact SP -> digamma_exact SP -> shannon_entropy d = Fin (ln (Gam (A / 2)) + ln (Gam (B / 2)) - ln (Gam ((A + B) / 2))
    + (1 - A / 2) * psi (1 + A / 2) - (1 - B / 2) * psi (1 + B / 2) + (A + B) / 2 * psi ((A + B) / 2) + ln (A / B)).
Proof.
  bas. intros Hga Hd. assert (HC2 : 0 < (A + B) / 2) by lra. assert (GA := Gam_pos _ HA2). assert (GB := Gam_pos _ HB2). assert (GC := Gam_pos _ HC2).
  unfold shannon_entropy, f1, f2; cbn [pr d1 d2 new_unchecked]. xs. rewrite !sfg by auto. rewrite !sfpsi by (auto; lra). now xs.
Qed.
End FDist.
