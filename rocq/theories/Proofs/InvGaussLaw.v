(** * The law of the two-draw sampler of the inverse normal distribution *)
From Coq Require Import Reals Lra Lia Psatz List ZArith.
From Coquelicot Require Import Coquelicot.
From Verif.Num Require Import Scalar XReal.
From Verif.Model Require Import Rust Constraints Probability Params Consts Continuous Continuous2 Continuous3.
From Verif.Spec Require Import DistSpec SampleSpec MvSpec.
From Verif.Proofs Require Import XTac Calc Calc2 Improper Gauss Gauss2 Subst ContProofs9 ContProofs22 ContProofs23 ContProofs25.
Open Scope R_scope.

(** three pieces with known antiderivatives *)
Lemma line_glue (f f1 f2 f3 H1 H2 H3 : R -> R) (c1 c2 L1 L3 : R) : c1 <= c2 ->
  (forall x, is_derive H1 x (f1 x)) -> (forall x, is_derive H2 x (f2 x)) -> (forall x, is_derive H3 x (f3 x)) ->
  (forall x, continuous f1 x) -> (forall x, continuous f2 x) -> (forall x, continuous f3 x) ->
  (forall x, x < c1 -> f x = f1 x) -> (forall x, c1 < x < c2 -> f x = f2 x) -> (forall x, c2 < x -> f x = f3 x) ->
  filterlim H1 (Rbar_locally m_infty) (locally L1) -> filterlim H3 (Rbar_locally p_infty) (locally L3) ->
  line_int f ((H1 c1 - L1) + (H2 c2 - H2 c1) + (L3 - H3 c2)).
Proof.
  intros Hc D1 D2 D3 K1 K2 K3 E1 E2 E3 M1 M3.
  assert (PC : forall (G g : R -> R) (a b : R), a <= b -> (forall x, is_derive G x (g x)) -> (forall x, continuous g x) -> (forall x, a < x < b -> f x = g x) -> is_RInt f a b (G b - G a)).
  { intros G g a b Hab DG Kg E. apply (is_RInt_ext g). { rewrite Rmin_left, Rmax_right by lra. intros x Hx. symmetry. now apply E. }
    apply (is_RInt_derive (V := R_CompleteNormedModule) G g); intros; auto. }
  assert (LV : filterlim (fun ab : R * R => (H1 c1 - H1 (fst ab)) + (H2 c2 - H2 c1) + (H3 (snd ab) - H3 c2)) (filter_prod (Rbar_locally m_infty) (Rbar_locally p_infty)) (locally ((H1 c1 - L1) + (H2 c2 - H2 c1) + (L3 - H3 c2)))).
  { apply fl_plus; [apply fl_plus|]; try apply fl_const.
    - apply fl_minus; [apply fl_const|]. apply (filterlim_comp _ _ _ fst H1 _ (Rbar_locally m_infty)); [apply filterlim_fst|exact M1].
    - apply fl_minus; [|apply fl_const]. apply (filterlim_comp _ _ _ snd H3 _ (Rbar_locally p_infty)); [apply filterlim_snd|exact M3]. }
  intros P HP. specialize (LV P HP). unfold filtermap in LV. unfold filtermapi.
  assert (EV : filter_prod (Rbar_locally m_infty) (Rbar_locally p_infty) (fun ab : R * R => fst ab < c1 /\ c2 < snd ab)).
  { exists (fun x => x < c1) (fun x => c2 < x); [now exists c1|now exists c2|]. intros x y Hx Hy. now split. }
  generalize (filter_and _ _ LV EV). apply filter_imp. intros [a b] [Q [Ha Hb]]; cbn [fst snd] in *. eexists. split; [|exact Q].
  apply (is_RInt_Chasles (V := R_NormedModule) f a c2 b).
  - apply (is_RInt_Chasles (V := R_NormedModule) f a c1 c2).
    + apply (PC H1 f1); auto; [lra|]. intros x Hx. apply E1. lra.
    + apply (PC H2 f2); auto.
  - apply (PC H3 f3); auto; [lra|]. intros x Hx. apply E3. lra.
Qed.

(** an indicator of an initial piece of [0,1] *)
Lemma step_int (chi : R -> R) (q : R) : 0 <= q <= 1 -> (forall u, 0 < u < q -> chi u = 1) -> (forall u, q < u < 1 -> chi u = 0) -> is_RInt chi 0 1 q.
Proof.
  intros Hq H1 H0. replace q with (plus (scal (q - 0) 1) (scal (1 - q) 0) : R). 2:{ unfold plus, scal; cbn. unfold mult; cbn. ring. }
  apply (is_RInt_Chasles (V := R_NormedModule) chi 0 q 1).
  - apply (is_RInt_ext (fun _ => 1)). { rewrite Rmin_left, Rmax_right by lra. intros x Hx. symmetry. apply H1. lra. } apply (is_RInt_const (V := R_NormedModule) 0 q 1).
  - apply (is_RInt_ext (fun _ => 0)). { rewrite Rmin_left, Rmax_right by lra. intros x Hx. symmetry. apply H0. lra. } apply (is_RInt_const (V := R_NormedModule) q 1 0).
Qed.

Section Law.
Context (m l : R) (Hm : 0 < m) (Hl : 0 < l).
Let r (n : R) : R := sqrt (4 * m * l + m * m * (n * n)).
(** the inverse of in_A *)
Definition ig_X (n : R) : R := m + m * m * (n * n) / (2 * l) + n * m / (2 * l) * r n.
Lemma r_arg n : 0 < 4 * m * l + m * m * (n * n).
Proof. assert (Y := Rle_0_sqr n). unfold Rsqr in Y. assert (0 < m * l) by pos. assert (0 <= m * m * (n * n)) by (apply Rmult_le_pos; [apply Rmult_le_pos; lra|lra]). lra. Qed.
Lemma r_sq n : r n * r n = 4 * m * l + m * m * (n * n). Proof. apply sqrt_sqrt. left. apply r_arg. Qed.
Lemma r_pos n : 0 < r n. Proof. apply sqrt_lt_R0, r_arg. Qed.
Lemma r_opp n : r (- n) = r n. Proof. unfold r. f_equal. ring. Qed.
Lemma X_sum n : ig_X n + ig_X (- n) = 2 * m + m * m * (n * n) / l.
Proof. unfold ig_X. rewrite r_opp. field. lra. Qed.
Lemma X_prod n : ig_X n * ig_X (- n) = m * m.
Proof.
  unfold ig_X. rewrite r_opp. transitivity ((m + m * m * (n * n) / (2 * l)) * (m + m * m * (n * n) / (2 * l)) - n * n * (m * m) / (4 * l * l) * (r n * r n)); [field; lra|]. rewrite r_sq. field. lra.
Qed.
Lemma X_pos n : 0 < ig_X n.
Proof.
  assert (P := X_prod n). assert (S := X_sum n). assert (0 < m * m) by pos. assert (Y := Rle_0_sqr n). unfold Rsqr in Y.
  assert (0 <= m * m * (n * n) / l) by (apply Rmult_le_pos; [apply Rmult_le_pos; lra|left; pos]).
  destruct (Rle_dec (ig_X n) 0) as [C|C]; [|lra]. destruct (Rle_dec (ig_X (- n)) 0) as [C2|C2]; [lra|]. nra.
Qed.
Lemma X_inj t n : 0 < t -> in_A m l t = n -> ig_X n = t.
Proof.
  intros Ht E. assert (S0 := sqrt_lt_R0 t Ht). assert (E1 := sqrt_sqrt t ltac:(lra)). assert (SL : 0 < sqrt l) by pos. assert (El := sqrt_sqrt l ltac:(lra)).
  assert (AA := in_AA m l Hm Hl t Ht). rewrite E in AA.
  assert (R0 : r n = sqrt l * (t + m) / sqrt t).
  { unfold r. apply sqrt_lem_1; [left; apply r_arg|left; assert (0 < sqrt l * (t + m)) by (apply Rmult_lt_0_compat; lra); pos|].
    rewrite AA. transitivity ((sqrt l * sqrt l) * ((t + m) * (t + m)) / (sqrt t * sqrt t)); [field; lra|]. rewrite El, E1. field. lra. }
  unfold ig_X. rewrite R0, AA. rewrite <- E. unfold in_A. set (s := sqrt t) in *. set (sl := sqrt l) in *. rewrite <- E1. rewrite <- El. field. split; lra.
Qed.
Lemma A_X n : in_A m l (ig_X n) = n.
Proof.
  (* in_A is onto: its square and sign determine it *)
  assert (P := X_pos n). assert (Q := X_pos (- n)). assert (PR := X_prod n). assert (SU := X_sum n). assert (AA := in_AA m l Hm Hl _ P).
  assert (SQ : in_A m l (ig_X n) * in_A m l (ig_X n) = n * n).
  { rewrite AA. apply (Rmult_eq_reg_r (m * m * ig_X n)). 2:{ assert (0 < m * m * ig_X n) by pos. lra. }
    transitivity (l * ((ig_X n - m) * (ig_X n - m))); [field; lra|]. set (x := ig_X n) in *. set (x' := ig_X (- n)) in *.
    assert (n * n = (x + x' - 2 * m) * l / (m * m)) by (rewrite SU; field; lra). rewrite H. transitivity (l * (x * x + x * x' - 2 * m * x)); [rewrite PR; ring|field; lra]. }
  assert (SG : in_A m l (ig_X n) = sqrt l / (m * sqrt (ig_X n)) * (ig_X n - m)).
  { unfold in_A. assert (S0 := sqrt_lt_R0 _ P). assert (E1 := sqrt_sqrt (ig_X n) ltac:(lra)). set (s := sqrt (ig_X n)) in *. rewrite <- E1. field. lra. }
  assert (DF : ig_X n - ig_X (- n) = n * m / l * r n) by (unfold ig_X; rewrite r_opp; field; lra).
  assert (C0 : 0 < sqrt l / (m * sqrt (ig_X n))) by (assert (0 < sqrt l) by pos; assert (S0 := sqrt_lt_R0 _ P); pos). rewrite SG in *. set (c := sqrt l / (m * sqrt (ig_X n))) in *.
  assert (RP := r_pos n). assert (K : 0 < m / l * r n) by (assert (0 < m / l) by pos; pos).
  assert (SN : 0 <= n * (ig_X n - m)).
  { (* (x - m) (x + m) = x (x - x') *) assert (E : (ig_X n - m) * (ig_X n + m) = ig_X n * (n * (m / l * r n))). { replace (n * (m / l * r n)) with (n * m / l * r n) by (field; lra). rewrite <- DF. transitivity (ig_X n * ig_X n - ig_X n * ig_X (- n)); [rewrite PR; ring|ring]. }
    assert (E2 : n * (ig_X n - m) * (ig_X n + m) = ig_X n * (m / l * r n) * (n * n)) by (rewrite Rmult_assoc, E; ring).
    assert (0 <= ig_X n * (m / l * r n) * (n * n)) by (apply Rmult_le_pos; [apply Rmult_le_pos; lra|apply Rle_0_sqr]). rewrite <- E2 in H. apply (Rmult_le_reg_r (ig_X n + m)); lra. }
  set (w := c * (ig_X n - m)) in *. assert (0 <= n * w) by (unfold w; replace (n * (c * (ig_X n - m))) with (c * (n * (ig_X n - m))) by ring; apply Rmult_le_pos; lra). clearbody w. clear - SQ H.
  assert (E : (w - n) * (w + n) = 0) by lra. destruct (Rmult_integral _ _ E) as [D|D]; [lra|]. assert (w = - n) by lra. subst w. assert (n = 0) by nra. lra.
Qed.
Lemma X_derive n : is_derive ig_X n (/ (sqrt l / (2 * (ig_X n * sqrt (ig_X n))) * (ig_X n / m + 1))).
Proof.
  assert (P := X_pos n). assert (DA := in_A_d m l Hm (ig_X n) P). set (dA := sqrt l / _ * _) in *.
  assert (S0 := sqrt_lt_R0 _ P). assert (0 < ig_X n * sqrt (ig_X n)) by pos. assert (0 < dA). { unfold dA. assert (0 < sqrt l) by pos. assert (0 < ig_X n / m) by pos. apply Rmult_lt_0_compat; [pos|lra]. }
  assert (DX : exists v, is_derive ig_X n v). { unfold ig_X, r. eexists. auto_derive; [|reflexivity]. generalize (r_arg n). rewrite ?Rmult_1_r. tauto. }
  destruct DX as [v DX].
  assert (DC := is_derive_comp (K := R_AbsRing) (V := R_NormedModule) (in_A m l) ig_X n dA v DA DX). change (scal v dA) with (v * dA) in DC.
  assert (D1 : is_derive (fun n => n) n (v * dA)) by (revert DC; apply is_derive_ext; intros; apply A_X).
  assert (E : v * dA = 1). { rewrite <- (is_derive_unique _ _ _ D1). apply is_derive_unique. auto_derive; [exact I|ring]. }
  replace (/ dA) with v; [exact DX|]. apply (Rmult_eq_reg_r dA); [|lra]. rewrite E. field. lra.
Qed.
Definition ig_k (n : R) : R := 2 * m / (m + ig_X n).
Lemma k_pos n : 0 < ig_k n. Proof. assert (P := X_pos n). unfold ig_k. pos. Qed.
Lemma k_sum n : ig_k n + ig_k (- n) = 2.
Proof.
  unfold ig_k. assert (P := X_pos n). assert (Q := X_pos (- n)). assert (PR := X_prod n). set (x := ig_X n) in *. set (x' := ig_X (- n)) in *.
  apply (Rmult_eq_reg_r ((m + x) * (m + x'))). 2:{ assert (0 < (m + x) * (m + x')) by (apply Rmult_lt_0_compat; lra). lra. }
  transitivity (2 * (m * m) + 2 * (m * m) + 2 * m * (x + x')); [field; lra|]. transitivity (2 * (m * m) + 2 * (x * x') + 2 * m * (x + x')); [rewrite PR; ring|ring].
Qed.
Definition ig_H (n : R) : R := fst (in_Gs m l 0 (ig_X n)).
Lemma H_derive n : is_derive ig_H n (ig_k n * phi n).
Proof.
  assert (P := X_pos n). destruct (in_Gs_d m l Hm Hl 0 (ig_X n) P) as [D _].
  assert (DC := is_derive_comp (K := R_AbsRing) (V := R_NormedModule) _ ig_X n _ _ D (X_derive n)). revert DC. apply is_derive_ext_eq. change (scal ?a ?b) with (a * b). rewrite pow_O. unfold in_u. rewrite A_X.
  assert (S0 := sqrt_lt_R0 _ P). assert (0 < sqrt l) by pos. unfold ig_k. set (x := ig_X n) in *. set (s := sqrt x) in *. set (sl := sqrt l) in *. field. repeat split; lra.
Qed.
Lemma X_cont n : continuous ig_X n. Proof. eapply ex_derive_cont. apply X_derive. Qed.
Lemma kphi_cont n : continuous (fun n => ig_k n * phi n) n.
Proof.
  assert (P := X_pos n). apply (continuous_mult (K := R_AbsRing) ig_k phi).
  - unfold ig_k. assert (DX : ex_derive ig_X n) by (eexists; apply X_derive). apply (ex_derive_continuous (V := R_NormedModule) (fun n => 2 * m / (m + ig_X n))). auto_derive. split; [exact DX|lra].
  - eapply ex_derive_cont. apply phi_derive.
Qed.
(** limits *)
Lemma X_minf : filterlim ig_X (Rbar_locally m_infty) (above 0).
Proof.
  intros Q [e He]. assert (HE := cond_pos e).
  (* X n <= m^2 / (m^2 n^2 / l) = l / n^2 *)
  exists (- (1 + l / e)). intros n Hn. assert (0 < l / e) by pos. assert (P := X_pos n). apply He; [|exact P].
  unfold ball; cbn; unfold AbsRing_ball, abs, minus, plus, opp; cbn. rewrite Ropp_0, Rplus_0_r, Rabs_pos_eq by lra.
  assert (PR := X_prod n). assert (SU := X_sum n). assert (RP := r_pos n).
  assert (LE : ig_X n <= m). { assert (E : n * m / (2 * l) * r n + m * m * (n * n) / (2 * l) = n * m / (2 * l) * (r n + m * n)) by (field; lra). assert (0 <= r n + m * n).
    { assert (Z := r_sq n). assert (0 < m * l) by pos. destruct (Rle_dec 0 (r n + m * n)); [auto|]. exfalso. assert (r n < - (m * n)) by lra. assert (r n * r n < m * n * (m * n)) by nra. nra. }
    assert (0 <= - n * m / (2 * l) * (r n + m * n)). { apply Rmult_le_pos; [|auto]. left. apply Rdiv_lt_0_compat; [apply Rmult_lt_0_compat; lra|lra]. }
    assert (E2 : - n * m / (2 * l) * (r n + m * n) = - (n * m / (2 * l) * (r n + m * n))) by (field; lra). unfold ig_X. lra. }
  assert (X2 : m * m * (n * n) / l <= ig_X (- n)) by (assert (0 < m) by auto; lra).
  assert (NN : 1 + l / e < n * n). { assert (1 + l / e < - n) by lra. assert (1 * (- n) <= (- n) * (- n)) by (apply Rmult_le_compat_r; lra). lra. }
  assert (0 < m * m) by pos. assert (Q1 : ig_X n * (m * m * (n * n) / l) <= m * m) by (apply Rle_trans with (ig_X n * ig_X (- n)); [apply Rmult_le_compat_l; lra|lra]).
  assert (Q2 : ig_X n * (n * n) <= l). { apply (Rmult_le_reg_r (m * m / l)); [pos|]. replace (l * (m * m / l)) with (m * m) by (field; lra). replace (ig_X n * (n * n) * (m * m / l)) with (ig_X n * (m * m * (n * n) / l)) by (field; lra). exact Q1. }
  assert (Q3 : ig_X n * (l / e) < l) by (assert (ig_X n * (l / e) < ig_X n * (n * n)) by (apply Rmult_lt_compat_l; lra); lra).
  apply (Rmult_lt_reg_r (l / e)); [auto|]. replace (e * (l / e)) with l by (field; lra). exact Q3.
Qed.
Lemma H_minf : filterlim ig_H (Rbar_locally m_infty) (locally 0).
Proof. unfold ig_H. apply (filterlim_comp _ _ _ ig_X (fun x => fst (in_Gs m l 0 x)) _ (above 0)); [apply X_minf|apply (in_Gs_lim0 m l Hm Hl 0)]. Qed.
Lemma H_opp_pinf : filterlim (fun n => - ig_H (- n)) (Rbar_locally p_infty) (locally 0).
Proof.
  apply (fl_eq _ (- 0)); [|ring]. apply fl_opp. apply (filterlim_comp _ _ _ Ropp ig_H _ (Rbar_locally m_infty)); [|apply H_minf].
  intros Q [M HM]. exists (- M). intros x Hx. apply HM. lra.
Qed.
Lemma H_opp_derive n : is_derive (fun n => - ig_H (- n)) n (ig_k (- n) * phi n).
Proof.
  assert (D := is_derive_comp (K := R_AbsRing) (V := R_NormedModule) ig_H Ropp n _ _ (H_derive (- n)) (is_derive_opp (V := R_NormedModule) (fun x => x) n 1 (is_derive_id n))).
  assert (D2 := dR_opp _ _ _ D). revert D2. apply is_derive_ext_eq. change (scal (opp 1) (ig_k (- n) * phi (- n))) with (- (1) * (ig_k (- n) * phi (- n))). rewrite phi_even. ring.
Qed.
Lemma kphi_opp_cont n : continuous (fun n => ig_k (- n) * phi n) n.
Proof.
  apply (continuous_ext (fun n => ig_k (- n) * phi (- n))). { intros x. now rewrite phi_even. }
  apply (continuous_comp Ropp (fun n => ig_k n * phi n)); [|apply kphi_cont]. apply (continuous_opp (V := R_NormedModule) (fun x => x)), continuous_id.
Qed.
Lemma half_d (G : R -> R) x v : is_derive G x v -> is_derive (fun x => / 2 * G x) x (/ 2 * v).
Proof. intros D. assert (Q := dR_mult (fun _ => / 2) G x _ _ (dR_c (/ 2) x) D). revert Q. apply is_derive_ext_eq. ring. Qed.
Lemma half_c (g : R -> R) x : continuous g x -> continuous (fun x => / 2 * g x) x.
Proof. intros C. apply (continuous_mult (K := R_AbsRing) (fun _ => / 2) g); [apply continuous_const|auto]. Qed.

(** what the sampler returns *)
Definition ig_f (n u : R) : R := if Rltb u (m / (m + in_x m l n)) then in_x m l n else m * m / in_x m l n.
Lemma in_x_abs n : in_x m l n = ig_X (- Rabs n).
Proof.
  unfold in_x, ig_X. assert (E : Rabs n * Rabs n = n * n) by (rewrite <- Rabs_mult; apply Rabs_pos_eq, Rle_0_sqr). assert (A := Rabs_pos n).
  replace (- Rabs n * - Rabs n) with (n * n) by (rewrite <- E; ring).
  assert (RR : sqrt (4 * m * l * (n * n) + m * m * (n * n) * (n * n)) = Rabs n * r n).
  { replace (4 * m * l * (n * n) + m * m * (n * n) * (n * n)) with ((n * n) * (4 * m * l + m * m * (n * n))) by ring. rewrite sqrt_mult by (try apply Rle_0_sqr; left; apply r_arg). unfold r. f_equal. rewrite <- E. apply sqrt_square. auto. }
  replace (r (- Rabs n)) with (r n). 2:{ unfold r. do 2 f_equal. replace (- Rabs n * - Rabs n) with (Rabs n * Rabs n) by ring. now rewrite E. }
  rewrite RR. field. lra.
Qed.
Lemma X_mono a b : a <= b -> ig_X a <= ig_X b.
Proof.
  intros H. destruct (Rle_dec (ig_X a) (ig_X b)) as [C|C]; [auto|]. exfalso. assert (L : ig_X b < ig_X a) by lra.
  assert (PA := X_pos a). assert (PB := X_pos b). assert (M : in_A m l (ig_X b) < in_A m l (ig_X a)).
  { unfold in_A. assert (0 < sqrt l) by pos. assert (SB := sqrt_lt_R0 _ PB). assert (SS : sqrt (ig_X b) < sqrt (ig_X a)) by (apply sqrt_lt_1; lra).
    apply Rmult_lt_compat_l; [auto|]. assert (/ sqrt (ig_X a) < / sqrt (ig_X b)) by (apply Rinv_lt_contravar; [apply Rmult_lt_0_compat; lra|auto]). assert (sqrt (ig_X b) / m < sqrt (ig_X a) / m) by (apply Rmult_lt_compat_r; [pos|auto]). lra. }
  rewrite !A_X in M. lra.
Qed.
Lemma X_le_iff y n : 0 < y -> (ig_X n <= y <-> n <= in_A m l y).
Proof.
  intros Hy. assert (E := X_inj y _ Hy eq_refl). split; intros H.
  - destruct (Rle_dec n (in_A m l y)) as [C|C]; [auto|]. exfalso. assert (L : in_A m l y <= n) by lra. apply X_mono in L. rewrite E in L. assert (EQ : ig_X n = y) by lra. apply C. rewrite <- EQ, A_X. lra.
  - apply X_mono in H. now rewrite E in H.
Qed.
Lemma x_other n : m * m / in_x m l n = ig_X (Rabs n).
Proof. rewrite in_x_abs. assert (P := X_pos (- Rabs n)). assert (PR := X_prod (Rabs n)). rewrite <- PR. field. lra. Qed.
(** the chance of the smaller root is half of k *)
Lemma q_half n : m / (m + in_x m l n) = / 2 * ig_k (- Rabs n).
Proof. rewrite in_x_abs. unfold ig_k. assert (P := X_pos (- Rabs n)). field. lra. Qed.
Lemma q_range n : 0 <= m / (m + in_x m l n) <= 1.
Proof. rewrite q_half. assert (A := k_pos (- Rabs n)). assert (B := k_sum (Rabs n)). assert (C := k_pos (Rabs n)). lra. Qed.
Definition ig_chi (y n u : R) : R := if Rle_dec (ig_f n u) y then 1 else 0.
Definition ig_h (y n : R) : R := if Rle_dec (Rabs n) (in_A m l y) then 1 else if Rle_dec (- Rabs n) (in_A m l y) then m / (m + in_x m l n) else 0.
Lemma ig_section y n : 0 < y -> is_RInt (ig_chi y n) 0 1 (ig_h y n).
Proof.
  intros Hy. assert (Q := q_range n). unfold ig_h, ig_chi, ig_f. rewrite x_other. assert (S1 := X_le_iff y (Rabs n) Hy). assert (S2 := X_le_iff y (- Rabs n) Hy). rewrite <- in_x_abs in S2. assert (AP := Rabs_pos n).
  set (q := m / (m + in_x m l n)) in *. destruct (Rle_dec (Rabs n) (in_A m l y)) as [C|C].
  - apply step_int; [lra| |].
    + intros u _. destruct (Rltb u q); destruct (Rle_dec _ y) as [D|D]; auto; exfalso; apply D; [apply S2; lra|now apply S1].
    + intros; lra.
  - destruct (Rle_dec (- Rabs n) (in_A m l y)) as [C2|C2].
    + apply step_int; [exact Q| |].
      * intros u Hu. rewrite Rltb_true by lra. destruct (Rle_dec _ y) as [D|D]; auto. exfalso. apply D. now apply S2.
      * intros u Hu. rewrite Rltb_false by lra. destruct (Rle_dec _ y) as [D|D]; auto. exfalso. apply C. now apply S1.
    + apply step_int; [lra|intros; lra|]. intros u Hu. destruct (Rle_dec _ y) as [D|D]; auto. exfalso. destruct (Rltb u q); [apply C2; now apply S2|apply C; now apply S1].
Qed.
Lemma ig_h_int y : 0 < y -> line_int (fun n => ig_h y n * normal_density 0 1 n) (fst (in_Gs m l 0 y)).
Proof.
  intros Hy. set (a := in_A m l y). assert (EH : ig_H a = fst (in_Gs m l 0 y)) by (unfold ig_H; f_equal; f_equal; now apply X_inj).
  assert (ND : forall n, normal_density 0 1 n = phi n) by (intros n; rewrite nd_phi by lra; replace ((n - 0) / 1) with n by field; field).
  assert (KL : forall n, n <= 0 -> m / (m + in_x m l n) = / 2 * ig_k n) by (intros n Hn; rewrite q_half, Rabs_left1 by lra; now rewrite Ropp_involutive).
  assert (KR : forall n, 0 <= n -> m / (m + in_x m l n) = / 2 * ig_k (- n)) by (intros n Hn; rewrite q_half, Rabs_pos_eq by lra; reflexivity).
  destruct (Rle_dec 0 a) as [C|C].
  - assert (G := line_glue (fun n => ig_h y n * normal_density 0 1 n) (fun n => / 2 * (ig_k n * phi n)) phi (fun n => / 2 * (ig_k (- n) * phi n))
      (fun n => / 2 * ig_H n) (fun n => / 2 * (ig_H n + - ig_H (- n))) (fun n => / 2 * - ig_H (- n)) (- a) a (/ 2 * 0) (/ 2 * 0) ltac:(lra)).
    cbv beta in G. rewrite Ropp_involutive in G.
    replace (fst (in_Gs m l 0 y)) with (/ 2 * ig_H (- a) - / 2 * 0 + (/ 2 * (ig_H a + - ig_H (- a)) - / 2 * (ig_H (- a) + - ig_H a)) + (/ 2 * 0 - / 2 * - ig_H (- a))) by (rewrite <- EH; field).
    apply G.
    + intros x. apply half_d, H_derive.
    + intros x. assert (D := half_d _ _ _ (dR_plus _ _ _ _ _ (H_derive x) (H_opp_derive x))). revert D. apply is_derive_ext_eq. rewrite <- Rmult_plus_distr_r, k_sum. field.
    + intros x. apply half_d, H_opp_derive.
    + intros x. apply half_c, kphi_cont.
    + intros x. eapply ex_derive_cont, phi_derive.
    + intros x. apply half_c, kphi_opp_cont.
    + intros x Hx. rewrite ND. unfold ig_h. fold a. rewrite Rabs_left by lra. destruct (Rle_dec (- x) a); [lra|]. destruct (Rle_dec (- - x) a); [|lra]. rewrite KL by lra. ring.
    + intros x Hx. rewrite ND. unfold ig_h. fold a. destruct (Rle_dec (Rabs x) a) as [D|D]; [ring|]. exfalso. apply D. apply Rabs_le. lra.
    + intros x Hx. rewrite ND. unfold ig_h. fold a. rewrite Rabs_pos_eq by lra. destruct (Rle_dec x a); [lra|]. destruct (Rle_dec (- x) a); [|lra]. rewrite KR by lra. ring.
    + apply fl_mult; [apply fl_const|apply H_minf].
    + apply fl_mult; [apply fl_const|apply H_opp_pinf].
  - assert (G := line_glue (fun n => ig_h y n * normal_density 0 1 n) (fun n => / 2 * (ig_k n * phi n)) (fun _ => 0) (fun n => / 2 * (ig_k (- n) * phi n))
      (fun n => / 2 * ig_H n) (fun n => 0) (fun n => / 2 * - ig_H (- n)) a (- a) (/ 2 * 0) (/ 2 * 0) ltac:(lra)).
    cbv beta in G. rewrite Ropp_involutive in G.
    replace (fst (in_Gs m l 0 y)) with (/ 2 * ig_H a - / 2 * 0 + (0 - 0) + (/ 2 * 0 - / 2 * - ig_H a)) by (rewrite <- EH; field).
    apply G.
    + intros x. apply half_d, H_derive.
    + intros x. apply (dR_c 0).
    + intros x. apply half_d, H_opp_derive.
    + intros x. apply half_c, kphi_cont.
    + intros x. apply continuous_const.
    + intros x. apply half_c, kphi_opp_cont.
    + intros x Hx. rewrite ND. unfold ig_h. fold a. rewrite Rabs_left by lra. destruct (Rle_dec (- x) a); [lra|]. destruct (Rle_dec (- - x) a); [|lra]. rewrite KL by lra. ring.
    + intros x Hx. unfold ig_h. fold a. assert (Rabs x < - a) by (apply Rabs_def1; lra). assert (0 <= Rabs x) by apply Rabs_pos. destruct (Rle_dec (Rabs x) a); [lra|]. destruct (Rle_dec (- Rabs x) a); [lra|]. ring.
    + intros x Hx. rewrite ND. unfold ig_h. fold a. rewrite Rabs_pos_eq by lra. destruct (Rle_dec x a); [lra|]. destruct (Rle_dec (- x) a); [|lra]. rewrite KR by lra. ring.
    + apply fl_mult; [apply fl_const|apply H_minf].
    + apply fl_mult; [apply fl_const|apply H_opp_pinf].
Qed.
Lemma ig_sample nu z : InvNormal.sample_of_draws (InvNormal.new_unchecked (Fin m) (Fin l)) (Fin nu) (Fin z) = Fin (ig_f nu z).
Proof.
  assert (Y0 := Rle_0_sqr nu). unfold Rsqr in Y0. assert (P0 : 0 < in_x m l nu) by (rewrite in_x_abs; apply X_pos).
  assert (0 <= 4 * m * l * (nu * nu) + m * m * (nu * nu) * (nu * nu)) by (generalize dependent (nu * nu); intros y; intros; apply Rplus_le_le_0_compat; repeat apply Rmult_le_pos; lra).
  unfold InvNormal.sample_of_draws. cbn [InvNormal.pr InvNormal.mu InvNormal.lambda InvNormal.new_unchecked]. xs. fold (in_x m l nu). xs. unfold ig_f. destruct (Rltb z _); [reflexivity|]. xs. reflexivity.
Qed.
End Law.
