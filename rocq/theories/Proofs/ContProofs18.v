(** * Gamma sums and sampling, Erlang *)
From Coq Require Import Reals Lra Lia Psatz List ZArith.
From Coquelicot Require Import Coquelicot.
From Verif.Num Require Import XReal.
From Verif.Model Require Import Rust Constraints Probability Params Consts Traits LogFact Continuous Continuous3.
From Verif.Spec Require Import DistSpec GammaSpec ResSpec.
From Verif.Proofs Require Import XTac Calc Calc2 Improper GammaFun Subst Mellin ContProofs1 ContProofs11 ContProofs12 ContProofs13 ContProofs14 ContProofs15 ContProofs16 DiscProofs4.
Import ListNotations.
Open Scope R_scope.

(** ** sums *)
Lemma unit_above z : 0 < z -> filterlim (fun t => t / z) (above 0) (above 0).
Proof. intros H. eapply filterlim_ext; [|apply (scale_above (/ z)); pos]. intros; cbv beta. field. lra. Qed.
Lemma unit_below z : 0 < z -> filterlim (fun t => t / z) (below z) (below 1).
Proof.
  intros H P [e He]. assert (0 < e * z) by (apply Rmult_lt_0_compat; [apply cond_pos|auto]). exists (mkposreal (e * z) H0).
  intros y Hy Hlt. apply He.
  - unfold ball in *; cbn in *; unfold AbsRing_ball, abs, minus, plus, opp in *; cbn in *. apply Rabs_def2 in Hy. apply Rabs_def1.
    + apply Rmult_lt_reg_r with z; [auto|]. match goal with |- ?l * z < _ => replace (l * z) with (y - z) by (field; lra) end. lra.
    + apply Rmult_lt_reg_r with z; [auto|]. match goal with |- _ < ?l * z => replace (l * z) with (y - z) by (field; lra) end. lra.
  - apply Rmult_lt_reg_r with z; [auto|]. assert (E : forall t : R, t / z * z = t) by (intros; field; lra). rewrite E. lra.
Qed.
Lemma in0z (z x : R) : inside 0 z x -> 0 < x < z. Proof. intros [H1 H2]; split; assumption. Qed.
Lemma beta_conv a1 a2 z : 0 < a1 -> 0 < a2 -> 0 < z ->
  is_RInt_gen (fun t => Rpower t (a1 - 1) * Rpower (z - t) (a2 - 1)) (above 0) (below z) (Rpower z (a1 + a2 - 1) * Bet a1 a2).
Proof.
  intros H1 H2 Hz.
  assert (A := subst_up 0 z 0 1 (beta_h a1 a2) (fun t => t / z) (fun _ => / z) _ Hz (B_in _ _ _ (Bet_spec a1 a2 H1 H2)) (unit_above z Hz) (unit_below z Hz)).
  assert (A' : is_RInt_gen (fun x => / z * beta_h a1 a2 (x / z)) (above 0) (below z) (Bet a1 a2)).
  { apply A. intros x Hx%in0z. split; [dder; try lra; field; lra|]. split; [apply continuous_const|]. apply bh_cont, in01. split; [pos|].
    apply Rmult_lt_reg_r with z; [auto|]. replace (x / z * z) with x by (field; lra). lra. }
  apply (gen_scal 0 z _ (Rpower z (a1 + a2 - 1))) in A'. revert A'. apply (is_RInt_gen_inside 0 z); [exact Hz|].
  intros x Hx%in0z. unfold beta_h. replace (1 - x / z) with ((z - x) / z) by (field; lra). rewrite !Rpower_div_base by lra.
  replace (Rpower z (a1 + a2 - 1)) with (Rpower z (a1 - 1) * Rpower z (a2 - 1) * z). 2:{ rewrite <- (Rpower_1 z) at 3 by auto. rewrite <- !Rpower_plus. f_equal; ring. }
  field. repeat split; try lra; pos.
Qed.
Lemma gamma_sum a1 a2 b (f g h : xreal -> xreal) : 0 < a1 -> 0 < a2 -> 0 < b ->
  (forall x, inside 0 p_infty x -> f (Fin x) = Fin (ga_u a1 b x)) -> (forall x, inside 0 p_infty x -> g (Fin x) = Fin (ga_u a2 b x)) ->
  (forall x, inside 0 p_infty x -> h (Fin x) = Fin (ga_u (a1 + a2) b x)) -> is_sum_density_pos f g h.
Proof.
  intros H1 H2 Hb Ef Eg Eh z Hz. assert (G1 := Gam_pos a1 H1). assert (G2 := Gam_pos a2 H2). assert (G := Gam_pos (a1 + a2) ltac:(lra)). assert (BG := Beta_Gamma a1 a2 H1 H2).
  unfold rf at 3. rewrite Eh by now apply in0. cbn [val].
  assert (A := gen_scal 0 z _ (Rpower b a1 / Gam a1 * (Rpower b a2 / Gam a2) * exp (- (b * z))) _ (beta_conv a1 a2 z H1 H2 Hz)).
  apply (gen_eq 0 z _ _ (ga_u (a1 + a2) b z)) in A.
  - change (is_RInt_gen (fun t => rf f t * rf g (z - t)) (above 0) (below z) (ga_u (a1 + a2) b z)). revert A. apply (is_RInt_gen_inside 0 z); [exact Hz|]. intros t Ht%in0z. unfold rf. rewrite Ef, Eg by (apply in0; lra). cbn [val]. unfold ga_u.
    replace (exp (- (b * z))) with (exp (- (b * t)) * exp (- (b * (z - t)))). 2:{ rewrite <- exp_plus. f_equal; ring. } ring.
  - unfold ga_u. rewrite Rpower_plus. assert (EB : Bet a1 a2 = Gam a1 * Gam a2 / Gam (a1 + a2)) by (rewrite <- BG; field; lra). rewrite EB. field. repeat split; lra.
Qed.
(** the exponential density is the gamma density of shape 1 *)
Lemma exp_is_ga1 l x : 0 < l -> inside 0 p_infty x -> Exponential.pdf (Exponential.new_unchecked (Fin l)) (Fin x) = Fin (ga_u 1 l x).
Proof.
  intros Hl Hx%in0f. rewrite (e_pdf l) by auto. f_equal. unfold ga_u. rewrite Gam_1, Rpower_1 by auto. replace (1 - 1) with 0 by ring. rewrite Rpower_O by auto. field.
Qed.

(** ** Gamma::sample hands the rate over as a scale *)
Section GammaSample.
Import Gamma.
Context {SP : Special xreal} (Hg : gamma_exact SP) (Hi : gammainc_lower SP).
Context (a b : R) (Ha : 0 < a) (Hb : 0 < b).
Notation d := (new_unchecked (Fin a) (Fin b)).
Notation cd := (fun x => unwrap (cdf d x)).
Context {RG : Rng xreal xreal}.
Context (HR : forall u, 0 < u < 1 -> exists x, fst (draw_gamma (Fin a) (Fin b) (Fin u)) = Fin x /\ is_gamma_quantile a b u x).
Notation smp := (fun u => fst (sample d u)).
Lemma ga_pos x : inside 0 p_infty x -> 0 < rf (pdf d) x.
Proof. intros Hx. unfold rf. rewrite ga_pdf by auto. now apply ga_u_pos. Qed.
(** the mass below the sample, x times b to be inserted *)
Lemma ga_smp u : 0 < u < 1 -> exists x, smp (Fin u) = Fin x /\ 0 < x /\ rf cd (x / b / b) = u.
Proof.
  intros Hu. destruct (HR u Hu) as (x & E & Hx & v & g & Hv & Hgm & Ev). exists x. split; [exact E|]. split; [auto|].
  destruct (ga_cdf Hg a b Ha Hb (x / b / b) ltac:(pos) Hi) as (v' & Hv' & Ec). unfold rf. rewrite Ec. cbn [val].
  replace (b * (x / b / b)) with (x / b) in Hv' by (field; lra).
  assert (v' = v). { apply (lower_unique 0 (gamma_h a) (x / b)); [discriminate|now apply LG_in|now apply LG_in]. }
  assert (g = Gam a) by (eapply Gamma_unique; [exact Hgm|now apply Gam_spec]). assert (G := Gam_pos a Ha). subst. field. lra.
Qed.
Lemma ga_sample_ok : b = 1 -> samples_from 0 p_infty cd smp.
Proof.
  intros E1. assert (HC := ga_coherent Hg a b Ha Hb Hi). split.
  - intros u Hu. destruct (ga_smp u Hu) as (x & E & _). eauto.
  - intros y Hy. left. intros u Hu. destruct (ga_smp u Hu) as (x & E & Hx & Ec). unfold rf at 1. rewrite E. cbn [val]. assert (Ex : x / b / b = x) by (rewrite E1; field). rewrite Ex in Ec.
    split; intros H.
    + rewrite <- Ec. apply (cdf_mono _ _ _ (proj1 HC)); auto. now apply in0.
    + apply Rnot_lt_le. intros Hl. assert (S := coherent_strict _ _ _ _ HC ga_pos y x Hy ltac:(now apply in0) Hl). lra.
Qed.
Lemma ga_sample_wrong : b <> 1 -> ~ samples_from 0 p_infty cd smp.
Proof.
  intros N [_ H]. assert (HC := ga_coherent Hg a b Ha Hb Hi).
  assert (I : forall y, 0 < y -> 0 < rf cd y < 1) by (intros y Hy; apply (coherent_inside01 _ _ _ _ HC ga_pos); now apply in0).
  assert (ST : forall x y, 0 < x -> 0 < y -> x < y -> rf cd x < rf cd y) by (intros x y Hx Hy; apply (coherent_strict _ _ _ _ HC ga_pos); now apply in0).
  assert (PB : forall y, 0 < y -> 0 < y / b / b) by (intros; pos).
  (* {u : sample u <= y} = {u : u <= cdf(y/b/b)} *)
  assert (Q : forall y u, 0 < y -> 0 < u < 1 -> (rf smp u <= y <-> u <= rf cd (y / b / b))).
  { intros y u Hy Hu. destruct (ga_smp u Hu) as (x & E & Hx & Ec). unfold rf at 1. rewrite E. cbn [val]. rewrite <- Ec. split; intros L.
    - destruct (Req_dec x y) as [->|]; [lra|]. left. apply ST; auto. unfold Rdiv. do 2 (apply Rmult_lt_compat_r; [pos|]). lra.
    - apply Rnot_lt_le. intros Hl. assert (y / b / b < x / b / b) by (unfold Rdiv; do 2 (apply Rmult_lt_compat_r; [pos|]); lra). apply ST in H0; auto. lra. }
  destruct (H 1 ltac:(apply in0; lra)) as [C|C].
  - assert (I1 := I 1 ltac:(lra)). assert (I2 := I (1 / b / b) ltac:(pos)).
    assert (E : rf cd 1 = rf cd (1 / b / b)).
    { apply Rle_antisym.
      - apply (Q 1 (rf cd 1)); [lra|auto|]. apply C; [auto|lra].
      - apply C; [auto|]. apply Q; [lra|auto|lra]. }
    assert (1 / b / b <> 1). { intros E2. apply N. assert (E3 : 1 / b / b * (b * b) = 1) by (field; lra). rewrite E2 in E3. nra. }
    destruct (Rtotal_order (1 / b / b) 1) as [L|[L|L]]; [|lra|]; (apply ST in L; [lra| |]); try lra; apply PB; lra.
  - assert (I1 := I 1 ltac:(lra)). assert (I2 := I (1 / b / b) ltac:(pos)). set (p := rf cd (1 / b / b)) in *. set (q := rf cd 1) in *.
    set (u := Rmin p (1 - q) / 2). assert (0 < Rmin p (1 - q)) by (apply Rmin_glb_lt; lra). assert (Rmin p (1 - q) <= p) by apply Rmin_l. assert (Rmin p (1 - q) <= 1 - q) by apply Rmin_r.
    assert (Hu : 0 < u < 1) by (unfold u; lra). assert (L1 : rf smp u <= 1) by (apply Q; [lra|auto|unfold u; fold p; lra]).
    apply C in L1; [|auto]. unfold u in L1. lra.
Qed.
End GammaSample.

(** ** Erlang *)
Section Erlang.
Import Erlang.
Context (k : nat) (Hk : (0 < k)%nat) (l : R) (Hl : 0 < l).
Notation d := (new_unchecked (Z.of_nat k) (Fin l)).
Notation K := (INR k).
Notation tb := (fun x => Fin (erlang_density k l (val x))).
Lemma er_K : 0 < K. Proof. now apply lt_0_INR. Qed.
Lemma er_fact : INR (fact (k - 1)) = Gam K.
Proof.
  assert (E := Gamma_fact (k - 1)). replace (INR (k - 1) + 1) with K in E. 2:{ rewrite minus_INR by lia. cbn; ring. }
  eapply Gamma_unique; [exact E|apply Gam_spec, er_K].
Qed.
Lemma er_tb x : inside 0 p_infty x -> tb (Fin x) = Fin (ga_u K l x).
Proof.
  intros Hx%in0f. change (Fin (erlang_density k l x) = Fin (ga_u K l x)). f_equal. unfold erlang_density, ga_u. rewrite er_fact, <- !Rpower_pow by auto. replace (INR (k - 1)) with (K - 1) by (rewrite minus_INR by lia; cbn; ring).
  assert (G := Gam_pos K er_K). field. lra.
Qed.
Lemma er_of : f_of_Z (Z.of_nat k) = Fin K.
Proof. rewrite INR_IZR_INZ. reflexivity. Qed.
Lemma er_mean : returns (mean d) (is_mean 0 p_infty tb).
Proof. assert (P := er_K). unfold mean. cbn [pr Erlang.k lambda new_unchecked]. rewrite er_of. xs. eexists; split; [reflexivity|]. apply (gam_mean K l P Hl tb er_tb). Qed.
Lemma er_variance : returns (variance d) (is_variance 0 p_infty tb (K / l)).
Proof. assert (P := er_K). unfold variance. cbn [pr Erlang.k lambda new_unchecked]. rewrite er_of. xs. eexists; split; [reflexivity|]. apply (gam_variance K l P Hl tb er_tb). Qed.
Lemma er_skewness : returns (skewness d) (is_skewness 0 p_infty tb).
Proof. assert (P := er_K). unfold skewness. cbn [pr Erlang.k lambda new_unchecked]. rewrite er_of. xs. eexists; split; [reflexivity|]. apply (gam_skewness K l P Hl tb er_tb). Qed.
Lemma er_kurtosis : returns (excess_kurtosis d) (fun e => is_kurtosis 0 p_infty tb (3 + e)).
Proof. assert (P := er_K). unfold excess_kurtosis. cbn [pr Erlang.k lambda new_unchecked]. rewrite er_of. xs. eexists; split; [reflexivity|]. apply (gam_kurtosis K l P Hl tb er_tb). Qed.
Lemma er_modes : (Z.of_nat k <= U64_MAX)%Z -> exists m, modes d = Ret [m] /\ returns m (is_mode 0 p_infty tb).
Proof.
  intros Hmax. assert (P := er_K). unfold modes. cbn [pr Erlang.k lambda new_unchecked]. rewrite u64_ok by (unfold U64_MAX in *; lia). cbn [rbind].
  replace (Z.of_nat k - 1)%Z with (Z.of_nat (k - 1)) by lia. eexists; split; [reflexivity|].
  assert (E : f_of_Z (Z.of_nat (k - 1)) = Fin (INR (k - 1))) by (rewrite INR_IZR_INZ; reflexivity). rewrite E. xs. eexists; split; [reflexivity|].
  eexists; split; [reflexivity|]. cbn [val]. intros x Hx. eexists; split; [reflexivity|]. apply in0f in Hx.
  unfold erlang_density. unfold Rdiv at 1 2. apply Rmult_le_compat_r; [left; apply Rinv_0_lt_compat, INR_fact_lt_0|]. rewrite !Rmult_assoc. apply Rmult_le_compat_l; [apply pow_le; lra|].
  destruct (Nat.eq_dec k 1) as [->|N].
  - cbn. rewrite !Rmult_1_l. apply exp_le_mono. assert (0 < l * x) by pos. unfold Rdiv. rewrite Rmult_0_l, Rmult_0_r. lra.
  - assert (Hm : 0 < INR (k - 1)) by (apply lt_0_INR; lia). rewrite <- !Rpower_pow by pos.
    assert (M := gam_mode K l P Hl ltac:(replace 1 with (INR 1) by reflexivity; apply le_INR; lia) x Hx).
    replace (INR (k - 1)) with (K - 1) by (rewrite minus_INR by lia; cbn; ring).
    destruct (Req_EM_T K 1) as [E1|E1]; [exfalso; apply N; apply INR_eq; cbn; lra|]. exact M.
Qed.
End Erlang.

Section Erlang12.
Import Erlang.
Context (l : R) (Hl : 0 < l).
Lemma lf_0 : log_factorial_stirling (F := xreal) 0 = Ret (Fin 0).
Proof. unfold log_factorial_stirling. cbn [Z.ltb Z.compare Z.to_nat nth_error LOG_FACTORIALS_255]. xs. do 2 f_equal. field. Qed.
Lemma lf_1 : log_factorial_stirling (F := xreal) 1 = Ret (Fin 0).
Proof. unfold log_factorial_stirling. change (Z.to_nat 1) with 1%nat. cbn [Z.ltb Z.compare Z.to_nat nth_error LOG_FACTORIALS_255 Pos.compare Pos.compare_cont]. xs. do 2 f_equal. field. Qed.
Lemma lf_2 : exists c, log_factorial_stirling (F := xreal) 2 = Ret (Fin c) /\ / 2 < c.
Proof. unfold log_factorial_stirling. change (Z.to_nat 2) with 2%nat. cbn [Z.ltb Z.compare Z.to_nat nth_error LOG_FACTORIALS_255 Pos.compare Pos.compare_cont]. xs. eexists; split; [reflexivity|]. lra. Qed.
Notation d1 := (new_unchecked 1 (Fin l)).
Notation d2 := (new_unchecked 2 (Fin l)).
Lemma er1_pdf x : pdf d1 (Fin x) = Ret (Fin (l * exp (- (l * x)))).
Proof.
  unfold pdf, log_pdf. cbn [pr Erlang.k lambda new_unchecked]. change (1 - 1)%Z with 0%Z. change (u64 0) with (Ret 0%Z). cbn [rbind]. rewrite lf_0. cbn [rbind rmap]. xs. do 2 f_equal.
  replace (1 * ln l + 0 * x - l * x - 0) with (ln l + - (l * x)) by ring. now rewrite exp_plus, exp_ln.
Qed.
Lemma er2_pdf x : pdf d2 (Fin x) = Ret (Fin (l * l * exp ((1 - l) * x))).
Proof.
  unfold pdf, log_pdf. cbn [pr Erlang.k lambda new_unchecked]. change (2 - 1)%Z with 1%Z. change (u64 1) with (Ret 1%Z). cbn [rbind]. rewrite lf_1. cbn [rbind rmap]. xs. do 2 f_equal.
  replace (2 * ln l + 1 * x - l * x - 0) with (ln l + ln l + (1 - l) * x) by ring. rewrite !exp_plus, !exp_ln by auto. reflexivity.
Qed.
Context {SP : Special xreal}.
Lemma gi_any a x : (exists g, is_Gamma a g /\ g = 1) -> gammainc_lower SP \/ gammainc_regularised SP -> 0 < a -> 0 < x -> exists v, is_lower_gamma a x v /\ sf_gammainc (Fin a) (Fin x) = Fin v.
Proof.
  intros (g & Hgm & ->) [H|H] Ha Hx; [now apply H|]. destruct (H a x Ha Hx) as (v & g & Hv & Hgm' & E). exists v. split; [auto|]. rewrite E. f_equal.
  rewrite (Gamma_unique a g 1 Hgm' Hgm). field.
Qed.
Lemma Gamma_2 : is_Gamma 2 1.
Proof. assert (A := Gamma_fact 1). cbn in A. now replace (1 + 1) with 2 in A by ring. Qed.
Lemma low_anti a (H : R -> R) y : 0 < a -> 0 < y -> (forall x, 0 < x -> is_derive H x (gamma_h a x)) -> filterlim H (above 0) (locally 0) -> is_lower_gamma a y (H y).
Proof.
  intros Ha Hy D L0. destruct (Gamma_ex a Ha) as [g Hgm].
  destruct (imp_split 0 p_infty (gamma_h a) I (gh_cont a) (gh_nn a) g y (G_in _ _ Hgm) ltac:(now apply in0)) as [la [lb [A [B E]]]].
  assert (L := imp_lower 0 p_infty (gamma_h a) I (gh_cont a) (gh_nn a) y la y ltac:(now apply in0) ltac:(now apply in0) A). apply LG_out.
  eapply low_eq; [exact L|].
  assert (SD := same_derive 0 p_infty (fun x => iF (gamma_h a) y x - la) H (gamma_h a) 0).
  apply SD; [| | | |now apply in0].
  - intros x Hx. eapply is_derive_eq; [apply dR_minus; [apply (iF_derive 0 p_infty (gamma_h a) (gh_cont a)); [now apply in0|auto]|apply dR_c]|ring].
  - intros x Hx%in0f. now apply D.
  - eapply fl_eq; [apply fl_minus; [exact A|apply fl_const]|ring].
  - exact L0.
Qed.
Lemma low_exp y : 0 < y -> is_lower_gamma 1 y (1 - exp (- y)).
Proof.
  intros Hy. apply (low_anti 1 (fun y => 1 - exp (- y))); [lra|auto| |].
  - intros x Hx. unfold gamma_h. replace (1 - 1) with 0 by ring. rewrite Rpower_O by auto. dder. ring.
  - eapply fl_eq; [apply (above_cont (fun x => 1 - exp (- x)) 0); eexists; dder; reflexivity|]. cbv beta. rewrite Ropp_0, exp_0. ring.
Qed.
Lemma low_exp2 y : 0 < y -> is_lower_gamma 2 y (1 - (1 + y) * exp (- y)).
Proof.
  intros Hy. apply (low_anti 2 (fun y => 1 - (1 + y) * exp (- y))); [lra|auto| |].
  - intros x Hx. unfold gamma_h. replace (2 - 1) with 1 by ring. rewrite Rpower_1 by auto. dder. ring.
  - eapply fl_eq; [apply (above_cont (fun x => 1 - (1 + x) * exp (- x)) 0); eexists; dder; reflexivity|]. cbv beta. rewrite Ropp_0, exp_0. ring.
Qed.
Lemma er1_cdf x : gammainc_lower SP \/ gammainc_regularised SP -> 0 < x -> gotp (cdf d1 (Fin x)) = Fin (1 - exp (- (l * x))).
Proof.
  intros H Hx. assert (P : 0 < l * x) by pos. unfold cdf, d_cdf, log_cdf. cbn [pr Erlang.k lambda new_unchecked]. rewrite lf_1. cbn [rbind rmap]. xs.
  destruct (gi_any 1 (l * x) ltac:(exists 1; split; [exact Gamma_1|reflexivity]) H ltac:(lra) P) as (v & Hv & E). rewrite E.
  assert (v = 1 - exp (- (l * x))). { apply (lower_unique 0 (gamma_h 1) (l * x)); [discriminate|now apply LG_in|now apply LG_in, low_exp]. }
  assert (0 < v). { subst v. assert (exp (- (l * x)) < exp 0) by (apply exp_increasing; lra). rewrite exp_0 in *. lra. }
  xs. cbn [gotp unwrap]. f_equal. rewrite Rminus_0_r, exp_ln by auto. auto.
Qed.
Lemma er1_coherent : gammainc_lower SP \/ gammainc_regularised SP -> coherent 0 p_infty (fun x => gotp (cdf d1 x)) (fun x => got (pdf d1 x)).
Proof.
  intros H. destruct (e_coherent l Hl) as [C _].
  assert (E : forall x, rf (fun x => unwrap (Exponential.cdf (Exponential.new_unchecked (Fin l)) x)) x = 1 - exp (- (l * x))) by (intros x; unfold rf; now rewrite e_cdf).
  apply (coherent_intro 0 p_infty _ _ (fun x => 1 - exp (- (l * x))) (fun x => l * exp (- (l * x)))).
  - exact I.
  - intros x Hx%in0f. now apply er1_cdf.
  - intros x _. now rewrite er1_pdf.
  - intros x _. dder. ring.
  - intros x _. eapply ex_derive_cont. dder. reflexivity.
  - intros x _. pos.
  - eapply filterlim_ext; [exact E|exact (cdf_lower _ _ _ C)].
  - eapply filterlim_ext; [exact E|exact (cdf_upper _ _ _ C)].
Qed.
Lemma er2_total : ~ is_RInt_gen (rf (fun x => got (pdf d2 x))) (above 0) (below p_infty) 1.
Proof.
  intros T. set (h := fun x => l * l * exp ((1 - l) * x)).
  assert (T' : is_RInt_gen h (above 0) (below p_infty) 1).
  { revert T. apply (gen_ext 0 p_infty). intros x. unfold rf. rewrite er2_pdf. reflexivity. }
  assert (Ch : forall x, inside 0 p_infty x -> continuous h x) by (intros x _; eapply ex_derive_cont; unfold h; dder; reflexivity).
  assert (Ph : forall x, inside 0 p_infty x -> 0 <= h x) by (intros x _; unfold h; pos).
  destruct (Rle_or_lt l 1) as [L1|L1].
  - (* l <= 1: the density is at least l^2 everywhere *)
    assert (B := imp_bounded 0 p_infty h Ch Ph 1 T' 1 (1 + 3 / (l * l)) ltac:(apply in0; lra)).
    assert (P3 : 0 < 3 / (l * l)) by pos. specialize (B ltac:(apply in0; lra) ltac:(lra)).
    assert (G : RInt (fun _ => l * l) 1 (1 + 3 / (l * l)) <= RInt h 1 (1 + 3 / (l * l))).
    { apply RInt_le; [lra|apply ex_RInt_const| |].
      - apply (imp_int 0 p_infty h Ch); apply in0; lra.
      - intros x Hx. unfold h. assert (1 <= exp ((1 - l) * x)). { apply Rle_trans with (exp 0); [rewrite exp_0; lra|]. apply exp_le_mono. apply Rmult_le_pos; lra. } assert (0 < l * l) by pos.
        rewrite <- (Rmult_1_r (l * l)) at 1. apply Rmult_le_compat_l; lra. }
    rewrite RInt_const in G. remember (RInt h 1 (1 + 3 / (l * l))) as RH eqn:ERH. unfold scal in G; cbn in G. unfold mult in G; cbn in G. replace ((1 + 3 / (l * l) - 1) * (l * l)) with 3 in G by (field; pos). lra.
  - assert (A : is_RInt_gen h (above 0) (below p_infty) (0 - l * l / (1 - l))).
    { apply (is_RInt_gen_antiderivative 0 p_infty (fun x => l * l / (1 - l) * exp ((1 - l) * x))); [exact I| |exact Ch| |].
      - intros x _. unfold h. dder; try lra. field. lra.
      - eapply fl_eq; [apply (above_cont (fun x => l * l / (1 - l) * exp ((1 - l) * x)) 0); eexists; dder; try lra; reflexivity|]. cbv beta. rewrite Rmult_0_r, exp_0. ring.
      - eapply fl_eq; [apply fl_mult; [apply fl_const|]|]. 2: instantiate (1 := 0); ring.
        apply (fl_inf exp (fun x => (1 - l) * x) m_infty 0); [apply is_lim_exp_m|exact I|].
        intros P [M HM]. exists (M / (1 - l)). intros x Hx. apply HM. apply Rmult_lt_reg_r with (/ (l - 1)); [apply Rinv_0_lt_compat; lra|].
        replace ((1 - l) * x * / (l - 1)) with (- x) by (field; lra). replace (M * / (l - 1)) with (- (M / (1 - l))) by (field; lra). lra. }
    assert (E := gen_unique 0 p_infty h _ _ A T'). 
    assert (X : l * l = (0 - l * l / (1 - l)) * (l - 1)) by (field; lra). rewrite E in X.
    nra.
Qed.
Lemma er2_cdf_wrong : gammainc_lower SP \/ gammainc_regularised SP -> ~ is_cdf 0 p_infty (fun x => gotp (cdf d2 x)).
Proof.
  intros H C. destruct lf_2 as (c & Ec & Hc).
  assert (V : forall x, 0 < x -> rf (fun x => gotp (cdf d2 x)) x <= / (1 + / 2)).
  { intros x Hx. assert (P : 0 < l * x) by pos. unfold rf, cdf, d_cdf, log_cdf. cbn [pr Erlang.k lambda new_unchecked]. rewrite Ec. cbn [rbind rmap]. xs.
    destruct (gi_any 2 (l * x) ltac:(exists 1; split; [exact Gamma_2|reflexivity]) H ltac:(lra) P) as (v & Hv & E). rewrite E.
    assert (0 < v). { apply (lower_pos 0 p_infty (gamma_h 2) (l * x) v); [apply gh_cont|apply gh_pos|now apply LG_in|now apply in0]. }
    assert (v <= 1). { assert (v = 1 - (1 + l * x) * exp (- (l * x))). { apply (lower_unique 0 (gamma_h 2) (l * x)); [discriminate|now apply LG_in|now apply LG_in, low_exp2]. }
      assert (0 < (1 + l * x) * exp (- (l * x))) by pos. lra. }
    xs. cbn [gotp unwrap val]. replace (ln v - c) with (ln v + - c) by ring. rewrite exp_plus, exp_ln, exp_Ropp by auto.
    assert (1 + / 2 < exp c). { apply Rlt_le_trans with (1 + c); [lra|]. left. apply exp_ineq1. lra. }
    apply Rle_trans with (1 * / exp c). { apply Rmult_le_compat_r; [left; apply Rinv_0_lt_compat; lra|auto]. } rewrite Rmult_1_l. apply Rinv_le_contravar; lra. }
  assert (L : 1 <= / (1 + / 2)); [|lra].
  assert (LC := fl_const (F := below p_infty) (/ (1 + / 2))).
  eapply (filterlim_le (F := below p_infty) (rf (fun x => gotp (cdf d2 x))) (fun _ => / (1 + / 2)) (Finite 1) (Finite (/ (1 + / 2)))); [|exact (cdf_upper _ _ _ C)|exact LC].
  exists 0. intros x Hx. now apply V.
Qed.
End Erlang12.
