(** * Inverse normal *)
From Coq Require Import Reals Lra Lia Psatz List ZArith.
From Coquelicot Require Import Coquelicot.
From Verif.Num Require Import XReal.
From Verif.Model Require Import Rust Constraints Probability Params Consts Continuous2 Continuous3.
From Verif.Spec Require Import DistSpec GammaSpec ResSpec.
From Verif.Proofs Require Import XTac Calc Calc2 Gauss Gauss2 Improper GammaFun Subst Mellin Unique ContProofs13 ContProofs14 ContProofs16 ContProofs20.
Import ListNotations.
Open Scope R_scope.

Section InvNormal.
Import InvNormal.
Context (m l : R) (Hm : 0 < m) (Hl : 0 < l).
Notation d := (new_unchecked (Fin m) (Fin l)).
Definition in_A (x : R) : R := sqrt l * (sqrt x / m - / sqrt x).
Definition in_B (x : R) : R := sqrt l * (sqrt x / m + / sqrt x).
Definition in_u (x : R) : R := sqrt l / (x * sqrt x) * phi (in_A x).
Definition in_k : R := exp (2 * l / m).
Lemma in_AA x : 0 < x -> in_A x * in_A x = l * ((x - m) * (x - m)) / (m * m * x).
Proof.
  intros Hx. assert (S := sqrt_lt_R0 x Hx). assert (E := sqrt_sqrt x ltac:(lra)). assert (El := sqrt_sqrt l ltac:(lra)). unfold in_A.
  set (s := sqrt x) in *. rewrite <- E at 1 2 3. rewrite <- El at 3. field. lra.
Qed.
Lemma in_BA x : 0 < x -> in_B x * in_B x = in_A x * in_A x + 4 * l / m.
Proof.
  intros Hx. assert (S := sqrt_lt_R0 x Hx). assert (El := sqrt_sqrt l ltac:(lra)). unfold in_A, in_B.
  rewrite <- El at 5. field. lra.
Qed.
Lemma in_phiB x : 0 < x -> in_k * phi (- in_B x) = phi (in_A x).
Proof.
  intros Hx. unfold in_k, phi. replace (- in_B x * - in_B x) with (in_B x * in_B x) by ring. rewrite in_BA by auto.
  unfold Rdiv at 2 5. rewrite <- Rmult_assoc, <- exp_plus. do 2 f_equal. field. lra.
Qed.
Lemma in_A_d x : 0 < x -> is_derive in_A x (sqrt l / (2 * (x * sqrt x)) * (x / m + 1)).
Proof.
  intros Hx. assert (S := sqrt_lt_R0 x Hx). assert (E := sqrt_sqrt x ltac:(lra)). unfold in_A. auto_derive; [repeat split; lra|].
  set (s := sqrt x) in *. rewrite <- E at 1 2. field. repeat split; lra.
Qed.
Lemma in_B_d x : 0 < x -> is_derive in_B x (sqrt l / (2 * (x * sqrt x)) * (x / m - 1)).
Proof.
  intros Hx. assert (S := sqrt_lt_R0 x Hx). assert (E := sqrt_sqrt x ltac:(lra)). unfold in_B. auto_derive; [repeat split; lra|].
  set (s := sqrt x) in *. rewrite <- E at 1 2. field. repeat split; lra.
Qed.
Lemma in_u_pos x : 0 < x -> 0 < in_u x.
Proof. intros Hx. assert (S := sqrt_lt_R0 x Hx). assert (P := phi_pos (in_A x)). unfold in_u. assert (0 < sqrt l) by pos. pos. Qed.
Lemma in_u_d x : 0 < x -> is_derive in_u x (in_u x * (- 3 / (2 * x) - l / (2 * (m * m)) * (1 - m * m / (x * x)))).
Proof.
  intros Hx. assert (S := sqrt_lt_R0 x Hx). assert (E := sqrt_sqrt x ltac:(lra)). assert (El := sqrt_sqrt l ltac:(lra)). assert (SL : 0 < sqrt l) by pos.
  assert (D1 : is_derive (fun x => sqrt l / (x * sqrt x)) x (- (3 / 2) * sqrt l / (x * x * sqrt x))).
  { assert (XS : 0 < x * sqrt x) by pos. auto_derive; [repeat split; lra|]. set (s := sqrt x) in *. rewrite <- E. field. lra. }
  assert (D2 := is_derive_comp (K := R_AbsRing) (V := R_NormedModule) phi in_A x _ _ (phi_derive (in_A x)) (in_A_d x Hx)).
  assert (D3 := dR_mult (fun x => sqrt l / (x * sqrt x)) (fun x => phi (in_A x)) x _ _ D1 D2). revert D3. apply is_derive_ext_eq.
  change (scal (sqrt l / (2 * (x * sqrt x)) * (x / m + 1)) (- in_A x * phi (in_A x))) with (sqrt l / (2 * (x * sqrt x)) * (x / m + 1) * (- in_A x * phi (in_A x))).
  unfold in_u. unfold in_A at 2. set (P := phi (in_A x)). set (s := sqrt x) in *. set (r := sqrt l) in *. rewrite <- E. rewrite <- El. field. repeat split; lra.
Qed.
Lemma in_u_cont x : 0 < x -> continuous in_u x. Proof. intros Hx. eapply ex_derive_cont. now apply in_u_d. Qed.
Lemma in_pdf x : inside 0 p_infty x -> pdf d (Fin x) = Fin (in_u x).
Proof.
  intros Hx%in0f. assert (S := sqrt_lt_R0 x Hx). assert (E := sqrt_sqrt x ltac:(lra)). assert (P := PI_RGT_0). assert (0 < PI * 2) by lra. assert (Q := sqrt2PI_pos).
  assert (0 < l / (PI * 2) / x / x / x) by (repeat apply Rdiv_lt_0_compat; lra).
  unfold pdf, PI_2. cbn [pr mu lambda new_unchecked]. xs. f_equal. unfold in_u. assert (0 < sqrt l) by pos. unfold phi.
  replace (in_A x * in_A x / 2) with (- (- l * (x - m) * (x - m) / 2 / m / m / x)) by (rewrite in_AA by auto; field; repeat split; lra). rewrite Ropp_involutive.
  replace (sqrt (l / (PI * 2) / x / x / x)) with (sqrt l / (x * sqrt x) / sqrt (2 * PI)); [unfold Rdiv; ring|].
  symmetry. apply sqrt_lem_1; [lra|left; pos|]. replace (sqrt l / (x * sqrt x) / sqrt (2 * PI) * (sqrt l / (x * sqrt x) / sqrt (2 * PI))) with ((sqrt l * sqrt l) / (x * x * (sqrt x * sqrt x)) / (sqrt (2 * PI) * sqrt (2 * PI))) by (field; repeat split; lra).
  rewrite !sqrt_sqrt by lra. field. repeat split; lra.
Qed.
(** ** the antiderivatives of x^n u, and the moments *)
Fixpoint in_Gs (n : nat) (x : R) : R * R := match n with
  | O => (Phi (in_A x) + in_k * Phi (- in_B x), m * (Phi (in_A x) - in_k * Phi (- in_B x)))
  | S k => let (g0, g1) := in_Gs k x in (g1, m * m * g0 + 2 * (m * m) / l * ((INR k + 1 / 2) * g1 - x ^ (k + 2) * in_u x)) end.
Fixpoint in_Ms (n : nat) : R * R := match n with O => (1, m)
  | S k => let (g0, g1) := in_Ms k in (g1, m * m * g0 + 2 * (m * m) / l * ((INR k + 1 / 2) * g1)) end.
Definition in_M (n : nat) : R := fst (in_Ms n).
Lemma in_Gs_d n x : 0 < x -> is_derive (fun x => fst (in_Gs n x)) x (x ^ n * in_u x) /\ is_derive (fun x => snd (in_Gs n x)) x (x ^ (n + 1) * in_u x).
Proof.
  intros Hx. assert (S0 := sqrt_lt_R0 x Hx). assert (E := sqrt_sqrt x ltac:(lra)). induction n as [|n [I1 I2]].
  - assert (DA := is_derive_comp (K := R_AbsRing) (V := R_NormedModule) Phi in_A x _ _ (Phi_derive (in_A x)) (in_A_d x Hx)).
    assert (DB := is_derive_comp (K := R_AbsRing) (V := R_NormedModule) Phi (fun x => - in_B x) x _ _ (Phi_derive (- in_B x)) (dR_opp _ _ _ (in_B_d x Hx))).
    change (scal ?a ?b) with (a * b) in DA. change (scal ?a ?b) with (a * b) in DB.
    assert (PB := in_phiB x Hx). split.
    + assert (D := dR_plus _ _ _ _ _ DA (dR_mult (fun _ => in_k) _ _ _ _ (dR_c in_k x) DB)). cbn [in_Gs fst]. revert D. apply is_derive_ext_eq.
      transitivity (sqrt l / (2 * (x * sqrt x)) * (x / m + 1) * phi (in_A x) - sqrt l / (2 * (x * sqrt x)) * (x / m - 1) * (in_k * phi (- in_B x))); [ring|].
      rewrite PB. unfold in_u. cbn [pow]. field. lra.
    + assert (D := dR_mult (fun _ => m) _ _ _ _ (dR_c m x) (dR_minus _ _ _ _ _ DA (dR_mult (fun _ => in_k) _ _ _ _ (dR_c in_k x) DB))). cbn [in_Gs snd]. revert D. apply is_derive_ext_eq.
      transitivity (m * (sqrt l / (2 * (x * sqrt x)) * (x / m + 1) * phi (in_A x) + sqrt l / (2 * (x * sqrt x)) * (x / m - 1) * (in_k * phi (- in_B x)))); [ring|].
      rewrite PB. unfold in_u. cbn [pow Nat.add]. field. lra.
  - replace (S n + 1)%nat with (n + 2)%nat by lia.
    split; [eapply is_derive_ext; [|replace (S n) with (n + 1)%nat by lia; exact I2]; intros t; cbn [in_Gs]; destruct (in_Gs n t); reflexivity|].
    apply (is_derive_ext (fun x => m * m * fst (in_Gs n x) + 2 * (m * m) / l * ((INR n + 1 / 2) * snd (in_Gs n x) - x ^ (n + 2) * in_u x))).
    { intros t. cbn [in_Gs]. destruct (in_Gs n t); reflexivity. }
    assert (DP : is_derive (fun x => x ^ (n + 2)) x (INR (n + 2) * x ^ (n + 1))).
    { auto_derive; [exact I|]. replace (Nat.pred (n + 2)) with (n + 1)%nat by lia. ring. }
    assert (D := dR_plus _ _ _ _ _ (dR_mult (fun _ => m * m) _ _ _ _ (dR_c (m * m) x) I1) (dR_mult (fun _ => 2 * (m * m) / l) _ _ _ _ (dR_c _ x)
      (dR_minus _ _ _ _ _ (dR_mult (fun _ => INR n + 1 / 2) _ _ _ _ (dR_c _ x) I2) (dR_mult _ _ _ _ _ DP (in_u_d x Hx))))).
    revert D. apply is_derive_ext_eq. rewrite !pow_add, plus_INR. cbn [pow INR]. field. repeat split; lra.
Qed.
(** limits *)
Lemma sqrt_above0 : filterlim sqrt (above 0) (above 0).
Proof.
  intros P [e H]. exists (mkposreal (e * e) ltac:(destruct e; cbn; pos)). intros y Hy Hy0. apply H; [|now apply sqrt_lt_R0].
  change (Rabs (y - 0) < e * e) in Hy. change (Rabs (sqrt y - 0) < e). assert (S := sqrt_lt_R0 y Hy0). rewrite Rminus_0_r, Rabs_pos_eq in * by lra.
  apply Rsqr_incrst_0; [rewrite Rsqr_sqrt by lra; exact Hy|lra|destruct e; cbn; lra].
Qed.
Lemma sqrt_below_inf : filterlim sqrt (below p_infty) (below p_infty).
Proof.
  intros P [M H]. exists (Rmax 0 M * Rmax 0 M). intros y Hy. apply H. assert (0 <= Rmax 0 M) by apply Rmax_l. assert (M <= Rmax 0 M) by apply Rmax_r.
  apply Rle_lt_trans with (Rmax 0 M); [auto|]. rewrite <- (sqrt_square (Rmax 0 M)) at 1 by auto. apply sqrt_lt_1; [pos|apply Rlt_le, Rle_lt_trans with (Rmax 0 M * Rmax 0 M); auto; nra|auto].
Qed.
Lemma in_A_0 : filterlim in_A (above 0) (Rbar_locally m_infty) /\ filterlim (fun x => - in_B x) (above 0) (Rbar_locally m_infty).
Proof.
  assert (SL : 0 < sqrt l) by pos.
  assert (K : forall M, (above 0) (fun x => sqrt l * (sqrt x / m - / sqrt x) < M /\ - (sqrt l * (sqrt x / m + / sqrt x)) < M)).
  { intros M. set (N := Rabs M + 1). assert (HN : 0 < N) by (unfold N; assert (G := Rabs_pos M); lra).
    assert (MN : - N < M) by (unfold N; assert (G := Rle_abs (- M)); rewrite Rabs_Ropp in G; lra).
    apply (sqrt_above0 (fun s => sqrt l * (s / m - / s) < M /\ - (sqrt l * (s / m + / s)) < M)).
    assert (He : 0 < sqrt l / (sqrt l / m + N)) by (assert (0 < sqrt l / m) by pos; pos).
    exists (mkposreal (Rmin 1 (sqrt l / (sqrt l / m + N))) ltac:(apply Rmin_pos; lra)). intros s Hs Hs0. change (Rabs (s - 0) < Rmin 1 (sqrt l / (sqrt l / m + N))) in Hs.
    rewrite Rminus_0_r, Rabs_pos_eq in Hs by lra. assert (s < 1) by (eapply Rlt_le_trans; [exact Hs|apply Rmin_l]). assert (s < sqrt l / (sqrt l / m + N)) by (eapply Rlt_le_trans; [exact Hs|apply Rmin_r]).
    assert (Q : sqrt l / m + N < sqrt l * / s).
    { apply (Rmult_lt_reg_r s); [auto|]. rewrite Rmult_assoc, Rinv_l, Rmult_1_r by lra. assert (0 < sqrt l / m) by pos. set (q := sqrt l / m + N) in *. assert (Hq : 0 < q) by (unfold q; lra). apply (Rmult_lt_compat_l q) in H0; [|lra].
      replace (q * (sqrt l / q)) with (sqrt l) in H0 by (field; lra). exact H0. }
    assert (sqrt l * (s / m) <= sqrt l / m). { replace (sqrt l * (s / m)) with (s * (sqrt l / m)) by (field; lra). assert (0 < sqrt l / m) by pos. nra. }
    assert (0 < sqrt l * (s / m)) by pos. split; lra. }
  split; intros P [M H]; [change (above 0 (fun x => P (in_A x)))|change (above 0 (fun x => P (- in_B x)))]; (eapply filter_imp; [|exact (K M)]); intros x [K1 K2]; apply H; [exact K1|exact K2].
Qed.
Lemma in_A_inf : filterlim in_A (below p_infty) (Rbar_locally p_infty) /\ filterlim (fun x => - in_B x) (below p_infty) (Rbar_locally m_infty).
Proof.
  assert (SL : 0 < sqrt l) by pos.
  assert (K : forall M, (below p_infty) (fun x => M < sqrt l * (sqrt x / m - / sqrt x) /\ - (sqrt l * (sqrt x / m + / sqrt x)) < - M)).
  { intros M. apply (sqrt_below_inf (fun s => M < sqrt l * (s / m - / s) /\ - (sqrt l * (s / m + / s)) < - M)).
    exists (Rmax 1 ((M / sqrt l + 1) * m)). intros s Hs. assert (1 < s) by (eapply Rle_lt_trans; [apply Rmax_l|exact Hs]). assert (Q : (M / sqrt l + 1) * m < s) by (eapply Rle_lt_trans; [apply Rmax_r|exact Hs]).
    assert (/ s < 1) by (apply (Rmult_lt_reg_r s); [lra|]; rewrite Rinv_l by lra; lra). assert (0 < / s) by pos.
    assert (M / sqrt l + 1 < s / m) by (apply (Rmult_lt_reg_r m); [auto|]; replace (s / m * m) with s by (field; lra); exact Q).
    assert (M < sqrt l * (s / m - / s)).
    { apply Rle_lt_trans with (sqrt l * (M / sqrt l)); [right; field; lra|]. apply Rmult_lt_compat_l; lra. }
    assert (0 < sqrt l * / s) by pos. split; lra. }
  split; intros P [M H]; [change (below p_infty (fun x => P (in_A x)))|change (below p_infty (fun x => P (- in_B x)))].
  - eapply filter_imp; [|exact (K M)]. intros x [K1 K2]. apply H. exact K1.
  - eapply filter_imp; [|exact (K (- M))]. intros x [K1 K2]. apply H. rewrite Ropp_involutive in K2. exact K2.
Qed.
Lemma phi_le1 x : phi x <= / sqrt (2 * PI).
Proof. unfold phi. assert (Q := sqrt2PI_pos). assert (exp (- (x * x / 2)) <= 1). { apply Rle_trans with (exp 0); [|rewrite exp_0; lra]. apply exp_le_mono. assert (G := Rle_0_sqr x). unfold Rsqr in G. lra. }
  unfold Rdiv. rewrite <- (Rmult_1_l (/ sqrt (2 * PI))) at 2. apply Rmult_le_compat_r; [left; pos|auto]. Qed.
Lemma in_edge0 n : filterlim (fun x => x ^ (n + 2) * in_u x) (above 0) (locally 0).
Proof.
  assert (Q := sqrt2PI_pos). assert (SL : 0 < sqrt l) by pos.
  apply (fl_squeeze_loc _ (fun x => sqrt l * / sqrt (2 * PI) * sqrt x)).
  - exists (mkposreal 1 Rlt_0_1). intros x Hx Hx0. change (Rabs (x - 0) < 1) in Hx. rewrite Rminus_0_r, Rabs_pos_eq in Hx by lra. assert (S := sqrt_lt_R0 x Hx0). assert (E := sqrt_sqrt x ltac:(lra)).
    assert (P := phi_pos (in_A x)). assert (L := phi_le1 (in_A x)). assert (U := in_u_pos x Hx0). assert (0 < x ^ (n + 2)) by (apply pow_lt; auto). rewrite Rabs_pos_eq by (left; pos).
    unfold in_u. rewrite pow_add. replace (x ^ n * x ^ 2 * (sqrt l / (x * sqrt x) * phi (in_A x))) with (x ^ n * (sqrt l * sqrt x * phi (in_A x))).
    2:{ replace (x ^ 2) with (x * (sqrt x * sqrt x)) by (rewrite E; ring). field. split; lra. }
    assert (x ^ n <= 1) by (rewrite <- (pow1 n); apply pow_incr; lra). assert (0 < x ^ n) by (apply pow_lt; auto).
    assert (0 < sqrt l * sqrt x) by pos. apply Rle_trans with (1 * (sqrt l * sqrt x * phi (in_A x))); [apply Rmult_le_compat_r; [left; pos|auto]|].
    rewrite Rmult_1_l. replace (sqrt l * / sqrt (2 * PI) * sqrt x) with (sqrt l * sqrt x * / sqrt (2 * PI)) by ring. apply Rmult_le_compat_l; lra.
  - eapply fl_eq; [apply fl_mult; [apply fl_const|apply lim_above_cont; [apply continuous_sqrt|apply sqrt_0]]|ring].
Qed.
Lemma in_edge_inf n : filterlim (fun x => x ^ (n + 2) * in_u x) (below p_infty) (locally 0).
Proof.
  assert (Q := sqrt2PI_pos). assert (SL : 0 < sqrt l) by pos. set (c := l / (4 * (m * m))). assert (Hc : 0 < c) by (unfold c; assert (0 < m * m) by pos; pos).
  assert (LX : is_lim (fun x => x ^ (n + 2) * exp (- (c * x))) p_infty 0).
  { apply (lim_poly_exp _ (repeat 0 (n + 2) ++ [1]) c Hc). intros x. f_equal. induction (n + 2)%nat as [|k IH]; cbn; [ring|]. rewrite <- IH. ring. }
  apply (fl_squeeze_loc _ (fun x => sqrt l / sqrt (2 * PI) * (x ^ (n + 2) * exp (- (c * x))))).
  - exists (Rmax 1 (4 * m)). intros x Hx. assert (1 < x) by (eapply Rle_lt_trans; [apply Rmax_l|exact Hx]). assert (4 * m < x) by (eapply Rle_lt_trans; [apply Rmax_r|exact Hx]).
    assert (Hx0 : 0 < x) by lra. assert (S : 1 < sqrt x) by (rewrite <- sqrt_1; apply sqrt_lt_1; lra).
    assert (0 < x ^ (n + 2)) by (apply pow_lt; auto). assert (U := in_u_pos x Hx0). rewrite Rabs_pos_eq by (left; pos).
    replace (sqrt l / sqrt (2 * PI) * (x ^ (n + 2) * exp (- (c * x)))) with (x ^ (n + 2) * (sqrt l * (exp (- (c * x)) / sqrt (2 * PI)))) by (field; lra).
    apply Rmult_le_compat_l; [lra|]. unfold in_u. apply Rmult_le_compat; [left; pos|left; apply phi_pos| |].
    + unfold Rdiv. rewrite <- (Rmult_1_r (sqrt l)) at 2. apply Rmult_le_compat_l; [lra|]. assert (1 <= x * sqrt x) by nra. apply (Rmult_le_reg_r (x * sqrt x)); [lra|]. rewrite Rinv_l by lra. lra.
    + unfold phi, Rdiv. apply Rmult_le_compat_r; [left; pos|]. apply exp_le_mono. rewrite in_AA by auto. apply Ropp_le_contravar. unfold c.
      apply (Rmult_le_reg_r (4 * (m * m) * x)); [assert (0 < m * m) by pos; pos|]. replace (l / (4 * (m * m)) * x * (4 * (m * m) * x)) with (l * (x * x)) by (field; lra).
      replace (l * ((x - m) * (x - m)) / (m * m * x) * / 2 * (4 * (m * m) * x)) with (l * (2 * ((x - m) * (x - m)))) by (field; lra). apply Rmult_le_compat_l; [lra|]. nra.
  - eapply fl_eq; [apply fl_mult; [apply fl_const|apply lim_pinf; exact LX]|ring].
Qed.
Lemma in_Gs_lim0 n : filterlim (fun x => fst (in_Gs n x)) (above 0) (locally 0) /\ filterlim (fun x => snd (in_Gs n x)) (above 0) (locally 0).
Proof.
  induction n as [|n [I1 I2]].
  - assert (L1 : filterlim (fun x => Phi (in_A x)) (above 0) (locally 0)) by (apply (filterlim_comp _ _ _ in_A Phi _ (Rbar_locally m_infty)); [apply in_A_0|apply Phi_lim_m]).
    assert (L2 : filterlim (fun x => Phi (- in_B x)) (above 0) (locally 0)) by (apply (filterlim_comp _ _ _ (fun x => - in_B x) Phi _ (Rbar_locally m_infty)); [apply in_A_0|apply Phi_lim_m]).
    cbn [in_Gs fst snd]. split.
    + eapply fl_eq; [apply fl_plus; [exact L1|apply fl_mult; [apply fl_const|exact L2]]|ring].
    + eapply fl_eq; [apply fl_mult; [apply fl_const|apply fl_minus; [exact L1|apply fl_mult; [apply fl_const|exact L2]]]|ring].
  - split; [eapply fl_ext; [|exact I2]; intros t; cbn [in_Gs]; destruct (in_Gs n t); reflexivity|].
    apply (fl_ext _ (fun x => m * m * fst (in_Gs n x) + 2 * (m * m) / l * ((INR n + 1 / 2) * snd (in_Gs n x) - x ^ (n + 2) * in_u x))).
    { intros t. cbn [in_Gs]. destruct (in_Gs n t); reflexivity. }
    eapply fl_eq; [apply fl_plus; [apply fl_mult; [apply fl_const|exact I1]|apply fl_mult; [apply fl_const|apply fl_minus; [apply fl_mult; [apply fl_const|exact I2]|apply in_edge0]]]|ring].
Qed.
Lemma in_Gs_liminf n : filterlim (fun x => fst (in_Gs n x)) (below p_infty) (locally (fst (in_Ms n))) /\ filterlim (fun x => snd (in_Gs n x)) (below p_infty) (locally (snd (in_Ms n))).
Proof.
  induction n as [|n [I1 I2]].
  - assert (L1 : filterlim (fun x => Phi (in_A x)) (below p_infty) (locally 1)) by (apply (filterlim_comp _ _ _ in_A Phi _ (Rbar_locally p_infty)); [apply in_A_inf|apply Phi_lim_p]).
    assert (L2 : filterlim (fun x => Phi (- in_B x)) (below p_infty) (locally 0)) by (apply (filterlim_comp _ _ _ (fun x => - in_B x) Phi _ (Rbar_locally m_infty)); [apply in_A_inf|apply Phi_lim_m]).
    cbn [in_Gs in_Ms fst snd]. split.
    + eapply fl_eq; [apply fl_plus; [exact L1|apply fl_mult; [apply fl_const|exact L2]]|ring].
    + eapply fl_eq; [apply fl_mult; [apply fl_const|apply fl_minus; [exact L1|apply fl_mult; [apply fl_const|exact L2]]]|ring].
  - cbn [in_Ms]. destruct (in_Ms n) as [g0 g1]. cbn [fst snd] in *.
    split; [eapply fl_ext; [|exact I2]; intros t; cbn [in_Gs]; destruct (in_Gs n t); reflexivity|].
    apply (fl_ext _ (fun x => m * m * fst (in_Gs n x) + 2 * (m * m) / l * ((INR n + 1 / 2) * snd (in_Gs n x) - x ^ (n + 2) * in_u x))).
    { intros t. cbn [in_Gs]. destruct (in_Gs n t); reflexivity. }
    eapply fl_eq; [apply fl_plus; [apply fl_mult; [apply fl_const|exact I1]|apply fl_mult; [apply fl_const|apply fl_minus; [apply fl_mult; [apply fl_const|exact I2]|apply in_edge_inf]]]|ring].
Qed.
Lemma in_rawu n : is_RInt_gen (fun x => x ^ n * in_u x) (above 0) (below p_infty) (in_M n).
Proof.
  eapply (gen_eq 0 p_infty); [|instantiate (1 := in_M n - 0); ring].
  apply (is_RInt_gen_antiderivative 0 p_infty (fun x => fst (in_Gs n x))); [exact I| | | |].
  - intros x Hx%in0f. now apply in_Gs_d.
  - intros x Hx%in0f. apply (continuous_mult (K := R_AbsRing) (fun x => x ^ n) in_u); [eapply ex_derive_cont; auto_derive; [exact I|reflexivity]|now apply in_u_cont].
  - apply in_Gs_lim0.
  - apply in_Gs_liminf.
Qed.
Lemma in_raw n : is_expectation 0 p_infty (pdf d) (fun x => x ^ n) (in_M n).
Proof.
  unfold is_expectation. generalize (in_rawu n). apply (is_RInt_gen_inside 0 p_infty); [exact I|]. intros x Hx. unfold rf. now rewrite in_pdf.
Qed.
Lemma in_total : is_RInt_gen (rf (pdf d)) (above 0) (below p_infty) 1.
Proof. assert (A := in_raw 0). unfold is_expectation in A. revert A. apply (gen_ext 0 p_infty). intros x. cbn; ring. Qed.
Ltac raws := try apply in_raw; try (exact (eq_refl : in_M 0 = 1)).
Lemma in_var : 0 < m * m * m / l. Proof. assert (0 < m * m * m) by pos. pos. Qed.
Lemma in_var_M : m * m * m / l = in_M 2 - in_M 1 ^ 2. Proof. cbn. field. lra. Qed.
Lemma in_mean : is_mean 0 p_infty (pdf d) m.
Proof. exact (mean_raw _ _ _ in_M (in_raw 1)). Qed.
Lemma in_variance : is_variance 0 p_infty (pdf d) m (m * m * m / l).
Proof. apply (variance_raw _ _ _ in_M); raws. apply in_var_M. Qed.
Lemma in_skewness : is_skewness 0 p_infty (pdf d) (3 * sqrt (m / l)).
Proof.
  apply (skewness_raw _ _ _ in_M) with (v := m * m * m / l); raws; [apply in_var_M|apply in_var|].
  assert (0 < m / l) by pos. replace (sqrt (m * m * m / l)) with (m * sqrt (m / l)).
  - transitivity (3 * (m * m * m * m / l) * (sqrt (m / l) * sqrt (m / l))); [rewrite sqrt_sqrt by lra; cbn; field; lra|field; lra].
  - replace (m * m * m / l) with (m * m * (m / l)) by (field; lra). rewrite sqrt_mult by (try lra; left; pos). rewrite sqrt_square by lra. reflexivity.
Qed.
Lemma in_kurtosis : is_kurtosis 0 p_infty (pdf d) (3 + 15 * m / l).
Proof.
  apply (kurtosis_raw _ _ _ in_M) with (v := m * m * m / l); raws; [apply in_var_M|apply in_var|]. cbn. field. lra.
Qed.
(** ** mode *)
Definition in_mode : R := m * (sqrt (1 + 9 * m * m / 4 / l / l) - 3 * m / 2 / l).
Lemma in_mode_eq : 0 < in_mode /\ l * (in_mode * in_mode) + 3 * (m * m) * in_mode = l * (m * m).
Proof.
  set (q := 3 * m / 2 / l). assert (Hq : 0 < q) by (unfold q; repeat apply Rdiv_lt_0_compat; lra).
  assert (E : 1 + 9 * m * m / 4 / l / l = 1 + q * q) by (unfold q; field; lra). unfold in_mode. rewrite E. fold q. assert (S := sqrt_sqrt (1 + q * q) ltac:(nra)).
  assert (q < sqrt (1 + q * q)). { rewrite <- (sqrt_square q) at 1 by lra. apply sqrt_lt_1; nra. }
  set (r := sqrt (1 + q * q)) in *. split; [apply Rmult_lt_0_compat; lra|].
  assert (El : 3 * m = 2 * l * q) by (unfold q; field; lra).
  replace (l * (m * (r - q) * (m * (r - q))) + 3 * (m * m) * (m * (r - q))) with (l * m * m * (r - q) * (r - q) + m * m * (r - q) * (3 * m)) by ring. rewrite El.
  replace (l * m * m * (r - q) * (r - q) + m * m * (r - q) * (2 * l * q)) with (l * m * m * (r * r - q * q)) by ring. rewrite S. ring.
Qed.
Lemma in_ln_u x : 0 < x -> ln (in_u x) = ln (sqrt l) - ln (sqrt (2 * PI)) + l / m + (- (3 / 2) * ln x - l / (2 * (m * m)) * x - l / 2 * / x).
Proof.
  intros Hx. assert (S := sqrt_lt_R0 x Hx). assert (Q := sqrt2PI_pos). assert (0 < sqrt l) by pos. unfold in_u, phi, Rdiv. rewrite !ln_mult, !ln_Rinv, ln_mult by pos. rewrite ln_exp, in_AA by auto.
  replace (ln (sqrt x)) with (ln x / 2) by (rewrite <- (sqrt_sqrt x) at 1 by lra; rewrite ln_mult by auto; field). field. lra.
Qed.
Lemma in_modes : modes d = [Fin in_mode] /\ is_mode 0 p_infty (pdf d) in_mode.
Proof.
  destruct in_mode_eq as [Pm Em]. assert (0 <= 9 * m * m / 4 / l / l) by (left; repeat apply Rdiv_lt_0_compat; try lra; pos).
  split. { unfold modes. cbn [pr mu lambda new_unchecked]. xs. reflexivity. }
  exists (in_u in_mode). split; [now apply in_pdf, in0|]. intros x Hx. exists (in_u x). split; [now apply in_pdf|]. apply in0f in Hx.
  assert (U1 := in_u_pos x Hx). assert (U2 := in_u_pos in_mode Pm). set (M := in_mode) in *.
  rewrite <- (exp_ln (in_u x)), <- (exp_ln (in_u M)) by auto. apply exp_le_mono. rewrite !in_ln_u by auto. apply Rplus_le_compat_l.
  assert (L : ln M - ln x <= M / x - 1). { rewrite <- ln_div' by auto. assert (0 < M / x) by pos. assert (G := exp_ineq1_le (ln (M / x))). rewrite exp_ln in G by auto. lra. }
  assert (E2 : l / 2 * / M = 3 / 2 + l / (2 * (m * m)) * M).
  { apply (Rmult_eq_reg_r (2 * (m * m) * M)); [|assert (0 < 2 * (m * m) * M) by pos; lra]. transitivity (l * (m * m)); [field; lra|]. rewrite <- Em. field. lra. }
  assert (K : 0 <= l / (2 * (m * m)) * ((x - M) * (x - M)) * / x). { assert (0 < m * m) by pos. apply Rmult_le_pos; [apply Rmult_le_pos; [left; pos|apply Rle_0_sqr]|left; pos]. }
  assert (E3 : l / 2 * / x = (3 / 2 + l / (2 * (m * m)) * M) * M * / x). { rewrite <- E2. field. lra. }
  assert (E4 : l / (2 * (m * m)) * ((x - M) * (x - M)) * / x = 3 / 2 * (1 - M / x) + l / (2 * (m * m)) * (x - M) + l / 2 * / x - l / 2 * / M). { rewrite E3, E2. field. lra. }
  lra.
Qed.
(** ** the distribution function of the code *)
Lemma in_cdf_coherent : coherent 0 p_infty (fun x => Fin (fst (in_Gs 0 (val x)))) (pdf d).
Proof.
  apply (coherent_intro 0 p_infty _ (pdf d) (fun x => fst (in_Gs 0 x)) in_u); [exact I|reflexivity|intros; now apply in_pdf| | | | |].
  - intros x Hx%in0f. destruct (in_Gs_d 0 x Hx) as [D _]. revert D. apply is_derive_ext_eq. cbn; ring.
  - intros x Hx%in0f. now apply in_u_cont.
  - intros x Hx%in0f. left. now apply in_u_pos.
  - apply in_Gs_lim0.
  - apply (in_Gs_liminf 0).
Qed.
Lemma in_cdf {SP : Special xreal} (Hn : forall x, sf_norm (Fin x) = Fin (Phi x)) x : 0 < x -> unwrap (cdf d (Fin x)) = Fin ((1 + in_k) * Phi (in_A x)).
Proof.
  intros Hx. assert (S := sqrt_lt_R0 x Hx). assert (0 < l / x) by pos. unfold cdf. cbn [pr mu lambda new_unchecked std_norm]. unfold UvNormal.cdf, UvNormal.z, UvNormal.standard, UvNormal.new_unchecked. cbn [UvNormal.pr UvNormal.mu UvNormal.Sigma unwrap].
  assert (EA : sqrt (l / x) * (x / m - 1) = in_A x).
  { unfold in_A. rewrite sqrt_div by lra. assert (E := sqrt_sqrt x ltac:(lra)). set (s := sqrt x) in *. rewrite <- E. field. lra. }
  xs. rewrite EA. cbn [fisinf XScalar xisinf]. rewrite sqrt_1. xs. replace ((in_A x - 0) / 1) with (in_A x) by field. rewrite Hn. xs. f_equal. unfold in_k. ring.
Qed.
Lemma in_not_cdf {SP : Special xreal} (Hn : forall x, sf_norm (Fin x) = Fin (Phi x)) : ~ is_cdf 0 p_infty (fun x => unwrap (cdf d x)).
Proof.
  intros H. assert (A := cdf_upper _ _ _ H). assert (KP : 0 < in_k) by apply exp_pos.
  assert (B : filterlim (rf (fun x => unwrap (cdf d x))) (below p_infty) (locally ((1 + in_k) * 1))).
  { apply (filterlim_ext_loc (fun x => (1 + in_k) * Phi (in_A x))).
    - exists 0. intros x Hx. unfold rf. now rewrite in_cdf.
    - apply fl_mult; [apply fl_const|]. apply (filterlim_comp _ _ _ in_A Phi _ (Rbar_locally p_infty)); [apply in_A_inf|apply Phi_lim_p]. }
  assert (U := filterlim_locally_unique (F := below p_infty) _ _ _ A B). revert U. match goal with |- @eq _ ?x ?y -> _ => change (@eq R x y -> False) end. lra.
Qed.
End InvNormal.
