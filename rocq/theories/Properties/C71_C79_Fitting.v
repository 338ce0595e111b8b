(** * Properties C71, C72, C73, C79: likelihood, score, maximum likelihood
      and Fisher information.  [lik], [log_lik], [is_score], [is_information]
      are the textbook notions of Spec/FitSpec.v, over the distribution's own
      pdf/pmf. *)
From Coq Require Import Reals Lra Lia Psatz Arith ZArith List Bool.
From Coquelicot Require Import Coquelicot.
From Verif.Num Require Import Scalar XReal.
From Verif.Model Require Import Rust Constraints Probability Params Consts Traits Discrete Continuous Continuous2 Continuous3 Normal2.
From Verif.Spec Require Import DistSpec DiscreteSpec GammaSpec ResSpec FitSpec.
From Verif.Proofs Require Import ConstraintProofs NewInv XTac Calc Calc2 Gauss Gauss2 ContProofs1 ContProofs4 ContProofs9 ContProofs11 ContProofs12 ContProofs13 ContProofs14 DiscProofs1 DiscProofs2 DiscProofs3 DiscProofs4 Normal2Proofs GammaFun Mellin Oracle FitProofs1 FitProofs2 FitProofs3 FitProofs4.
Import ListNotations.
Open Scope R_scope.

(** the mass a Bernoulli variable gives to [b] *)
Notation bern := (fun (p : R) (b : bool) => bernoulli_law p (if b then 1 else 0)).
(** densities as functions of the parameters *)
Notation normal_pdf m S := (rf (UvNormal.pdf (UvNormal.new_unchecked (Fin m) (Fin S)))).
Notation paired_pdf m0 m1 a b := (fun x : R * R => val (PairedNormal.pdf (PairedNormal.new_unchecked (Fin m0, Fin m1) (Fin a, Fin b)) (Fin (fst x), Fin (snd x)))).
Notation gamma_pdf a b := (rf (Gamma.pdf (Gamma.new_unchecked (Fin a) (Fin b)))).
Notation beta_pdf a b := (rf (Beta.pdf (Beta.new_unchecked (Fin a) (Fin b)))).
Notation fins xs := (map Fin xs).
Notation pairs xs := (map (fun x : R * R => (Fin (fst x), Fin (snd x))) xs).

(** ** C71: log-likelihood *)
(** Bernoulli, for every sample: the logarithm of the product of the masses
    (minus infinity when an impossible value is in the sample) *)
Theorem C71_bernoulli (p : R) (d : Bernoulli.t xreal) (xs : list bool) : Bernoulli.new (Fin p) = Ok d ->
  Bernoulli.log_likelihood d xs = (if Rlt_dec 0 (lik (fun b => val (unwrap (Bernoulli.pmf d b))) xs) then Fin (ln (lik (fun b => val (unwrap (Bernoulli.pmf d b))) xs)) else NInf) /\
  (0 < lik (fun b => val (unwrap (Bernoulli.pmf d b))) xs -> Bernoulli.log_likelihood d xs = Fin (log_lik (fun b => val (unwrap (Bernoulli.pmf d b))) xs)).
Proof.
  intros H. apply ber_new_inv in H as [Hp ->]. rewrite ber_ll by auto.
  assert (E : forall b, val (unwrap (Bernoulli.pmf (ber p) b)) = bmass p b) by (intros b; rewrite ber_pmf; reflexivity).
  assert (EL : forall l, lik (fun b => val (unwrap (Bernoulli.pmf (ber p) b))) l = lik (bmass p) l) by (induction l as [|b l IH]; cbn [lik lprod]; [reflexivity|]; unfold lik in IH; now rewrite IH, E).
  assert (EG : forall l, log_lik (fun b => val (unwrap (Bernoulli.pmf (ber p) b))) l = log_lik (bmass p) l) by (intros l; apply lsum_ext; intros; now rewrite E).
  assert (P : 0 <= lik (bmass p) xs) by (clear - Hp; unfold lik; induction xs as [|b l IH]; cbn; [lra|apply Rmult_le_pos; [now apply bmass_nonneg|auto]]).
  rewrite EL, EG. split.
  - destruct (Rlt_dec 0 (lik (bmass p) xs)) as [L|L]; [now apply x_ln|]. replace (lik (bmass p) xs) with 0 by lra. apply x_ln_0.
  - intros L. rewrite x_ln by auto. f_equal. unfold lik, log_lik in *. apply ln_lprod. clear - Hp L. induction xs as [|b l IH]; [intros x []|]. cbn [lprod] in L.
    assert (B := bmass_nonneg p b Hp). assert (P : 0 <= lprod (bmass p) l) by (clear - Hp; induction l as [|c l IH]; cbn; [lra|apply Rmult_le_pos; [now apply bmass_nonneg|auto]]).
    intros x [<-|Hx]; [nra|]. apply IH; [nra|auto].
Qed.
Print Assumptions C71_bernoulli.
(** Poisson: within the error of the shipped log-factorial, 2e-10 per sample *)
Theorem C71_poisson_partial (l : R) (d : Poisson.t xreal) (xs : list nat) : Poisson.new (Fin l) = Ok d ->
  (forall k, In k xs -> (Z.of_nat k < 2 ^ 64 - 1)%Z) ->
  exists v, Poisson.log_likelihood d (map Z.of_nat xs) = Ret (Fin v) /\
    Rabs (v - log_lik (poisson_law l) xs) <= INR (length xs) * (2 / 10 ^ 10).
Proof. intros H Hk. apply poi_new_inv in H as [Hl ->]. now apply poi_ll_close. Qed.
Print Assumptions C71_poisson_partial.
(** Beta: right when every sample is at least 1e-9 away from 0 and 1 ... *)
Theorem C71_beta_partial (SP : Special xreal) (a b : R) (d : Beta.t xreal) (xs : list R) : beta_exact SP -> logbeta_exact SP ->
  Beta.new (Fin a) (Fin b) = Ok d -> (forall x, In x xs -> 1 / 10 ^ 9 <= x <= 1 - 1 / 10 ^ 9) ->
  Beta.log_likelihood d (fins xs) = Fin (log_lik (rf (Beta.pdf d)) xs).
Proof.
  intros HB HL H Hx. unfold Beta.new in H. inv_new H. change (Beta.mk _) with (Beta.new_unchecked (Fin a) (Fin b)).
  assert (Hx' : forall x, In x xs -> J <= x <= 1 - J) by (intros x Hi; specialize (Hx x Hi); cbn in Hx; lra).
  rewrite be_ll by auto. rewrite be_log_lik by (auto; intros x Hi; specialize (Hx' x Hi); lra). do 2 f_equal.
  apply lsum_ext. intros x Hi. specialize (Hx' x Hi). rewrite !Rmax_left by lra. reflexivity.
Qed.
Print Assumptions C71_beta_partial.
(** ... and wrong, on a single sample, whenever it is closer than that to 0 *)
Theorem C71_beta_refuted (SP : Special xreal) (a b x : R) (d : Beta.t xreal) : beta_exact SP -> logbeta_exact SP ->
  Beta.new (Fin a) (Fin b) = Ok d -> 0 < x < 1 / 10 ^ 9 -> a <> 1 ->
  exists v, Beta.log_likelihood d [Fin x] = Fin v /\ v <> log_lik (rf (Beta.pdf d)) [x].
Proof.
  intros HB HL H Hx Na. unfold Beta.new in H. inv_new H. change (Beta.mk _) with (Beta.new_unchecked (Fin a) (Fin b)).
  assert (Hj : 0 < x < J) by (cbn in Hx; lra).
  eexists. split; [apply (be_ll HL a b [x]); auto|]. rewrite be_log_lik by (auto; intros y [<-|[]]; lra). cbn [lsum].
  rewrite (Rmax_left (1 - x) J), (Rmax_right x J) by lra. intros E.
  assert (L : ln x < ln J) by (apply ln_increasing; lra). assert ((a - 1) * (ln J - ln x) = 0) by lra. apply Rmult_integral in H as [H|H]; lra.
Qed.
Print Assumptions C71_beta_refuted.
(** Normal: the normalising term enters with coefficient n/4 instead of n/2, so
    the value is right only for an empty sample or when 2 pi Sigma = 1 *)
Theorem C71_normal_refuted (m S : R) (d : UvNormal.t xreal) (xs : list R) : UvNormal.new (Fin m) (Fin S) = Ok d ->
  exists v, UvNormal.log_likelihood d (fins xs) = Fin v /\
    v = log_lik (rf (UvNormal.pdf d)) xs + INR (length xs) / 4 * ln (2 * PI * S) /\
    (v = log_lik (rf (UvNormal.pdf d)) xs <-> xs = [] \/ 2 * PI * S = 1).
Proof.
  intros H. apply uvn_new_inv in H as [HS ->]. assert (P := PI_RGT_0). rewrite un_ll, un_log_lik by auto. eexists. split; [reflexivity|].
  assert (L : ln (2 * PI * S) = ln (2 * PI) + ln S) by (rewrite ln_mult by lra; reflexivity). split; [rewrite L; field; lra|]. split.
  - intros E. destruct xs as [|x xs]; [now left|right]. assert (N : 0 < INR (length (x :: xs))) by (apply lt_0_INR; cbn; lia).
    assert (K : INR (length (x :: xs)) * ln (2 * PI * S) = 0) by (rewrite L; lra). apply Rmult_integral in K as [K|K]; [lra|]. rewrite <- ln_1 in K. apply ln_inv in K; [exact K| |lra]. assert (0 < PI * S) by (now apply Rmult_lt_0_compat). lra.
  - intros [->|E]; [cbn [length INR]; lra|]. rewrite E in L. rewrite ln_1 in L. rewrite <- L. lra.
Qed.
Print Assumptions C71_normal_refuted.
(** PairedNormal: the quadratic term is multiplied by n *)
Theorem C71_paired_refuted (m0 m1 a b : R) (d : PairedNormal.t xreal) (xs : list (R * R)) : PairedNormal.new (Fin m0, Fin m1) (Fin a, Fin b) = Ok d ->
  exists v, PairedNormal.log_likelihood d (pairs xs) = Fin v /\
    (v = log_lik (paired_pdf m0 m1 a b) xs <-> length xs = 1%nat \/ forall x, In x xs -> x = (m0, m1)).
Proof.
  intros H. apply pn_new_iff in H as [[Ha Hb] ->]. eexists. split; [apply (pn_ll m0 m1 a b Ha Hb)|]. rewrite (pn_log_lik m0 m1 a b Ha Hb). now apply pn_ll_iff.
Qed.
Print Assumptions C71_paired_refuted.
(** Gamma: for all parameters there are samples on which it is wrong *)
Theorem C71_gamma_refuted (SP : Special xreal) (a b : R) (d : Gamma.t xreal) : gamma_exact SP -> Gamma.new (Fin a) (Fin b) = Ok d ->
  exists x0, 0 < x0 /\ forall x, x0 <= x -> exists v, Gamma.log_likelihood d [Fin x] = Fin v /\ log_lik (rf (Gamma.pdf d)) [x] < v.
Proof.
  intros HG H. unfold Gamma.new in H. inv_new H. change (Gamma.mk _) with (Gamma.new_unchecked (Fin a) (Fin b)).
  destruct (ga_ll_wrong HG a b) as (x0 & P & W); auto. exists x0. split; [exact P|]. intros x Hx. eexists. split; [|now apply W].
  apply (ga_ll HG a b [x]); auto. intros y [<-|[]]. lra.
Qed.
Print Assumptions C71_gamma_refuted.

(** ** C72: score *)
(** Bernoulli: every sample contributes 1/mass, also the [false] ones *)
Theorem C72_bernoulli_refuted (p : R) (d : Bernoulli.t xreal) (xs : list bool) : Bernoulli.new (Fin p) = Ok d -> 0 < p < 1 ->
  exists v, Bernoulli.score d xs = Fin v /\ (is_score bern p xs v <-> ~ In false xs).
Proof.
  intros H Hp. apply ber_new_inv in H as [_ ->]. eexists. split; [now apply ber_score_val|]. assert (D := ber_score_diff p xs Hp). assert (T := ber_score_true p xs Hp).
  rewrite <- nfalse_0. split.
  - intros K. assert (E := score_unique _ _ _ _ _ K T). rewrite E in D. assert (M : INR (nfalse xs) * (2 / (1 - p)) = 0) by lra.
    assert (0 < 2 / (1 - p)) by (apply Rdiv_lt_0_compat; lra). apply Rmult_integral in M as [M|M]; [|lra]. apply INR_eq. exact M.
  - intros N. rewrite N in D. cbn [INR] in D. replace (lsum (fun b => / bmass p b) xs) with (lsum (fun b : bool => (if b then 1 else -1) / bmass p b) xs) by lra. exact T.
Qed.
Print Assumptions C72_bernoulli_refuted.
(** Poisson: the sign of n is wrong; overflowing sums panic *)
Theorem C72_poisson_refuted (l : R) (d : Poisson.t xreal) (xs : list nat) : Poisson.new (Fin l) = Ok d ->
  let s := fold_right Nat.add 0%nat xs in
  ((2 ^ 64 - 1 < Z.of_nat s)%Z -> Poisson.score d (map Z.of_nat xs) = Panic) /\
  ((Z.of_nat s <= 2 ^ 64 - 1)%Z -> exists v, Poisson.score d (map Z.of_nat xs) = Ret (Fin v) /\
     (is_score poisson_law l xs v <-> xs = []) /\ is_score poisson_law l xs (v - 2 * INR (length xs))).
Proof.
  intros H s. apply poi_new_inv in H as [Hl ->]. change s with (nsum xs). split.
  - intros O. unfold Poisson.score. rewrite (sum_u64_over xs 0) by (try lia; unfold U64_MAX; lia). destruct (Poisson.lambda _); reflexivity.
  - intros O. eexists. split; [apply poi_score_val; auto|]. assert (T := poi_score_true l xs Hl). split.
    + split; [|intros ->; cbn [length INR nsum fold_right] in *; replace (0 + 0 / l) with (0 / l - 0) by ring; exact T].
      intros K. assert (E := score_unique _ _ _ _ _ K T). destruct xs as [|x xs]; [reflexivity|]. assert (0 < INR (length (x :: xs))) by (apply lt_0_INR; cbn; lia). lra.
    + replace (INR (length xs) + INR (nsum xs) / l - 2 * INR (length xs)) with (INR (nsum xs) / l - INR (length xs)) by ring. exact T.
Qed.
Print Assumptions C72_poisson_refuted.
(** Normal: the mean component is right *)
Theorem C72_normal_partial (m S : R) (d : UvNormal.t xreal) (xs : list R) : UvNormal.new (Fin m) (Fin S) = Ok d ->
  returns (UvNormal.g_mu (UvNormal.score d (fins xs))) (is_score (fun t => normal_pdf t S) m xs).
Proof. intros H. apply uvn_new_inv in H as [HS ->]. rewrite un_score by auto. eexists. split; [reflexivity|]. now apply un_score_mu. Qed.
Print Assumptions C72_normal_partial.
(** ... the Sigma component is the derivative with respect to sqrt(Sigma), which
    is the derivative with respect to Sigma only in the listed cases *)
Theorem C72_normal_refuted (m S : R) (d : UvNormal.t xreal) (xs : list R) : UvNormal.new (Fin m) (Fin S) = Ok d ->
  exists v, UvNormal.g_Sigma (UvNormal.score d (fins xs)) = Fin v /\
    is_score (fun t => normal_pdf m (t * t)) (sqrt S) xs v /\
    (is_score (fun t => normal_pdf m t) S xs v <-> S = 1 / 4 \/ lsum (fun x => (x - m) * (x - m)) xs = INR (length xs) * S).
Proof.
  intros H. apply uvn_new_inv in H as [HS ->]. rewrite un_score by auto. eexists. split; [reflexivity|]. split; [now apply un_score_sd|].
  assert (T := un_score_S m S xs HS). change (lsum (fun x => (x - m) * (x - m)) xs) with (ssq m xs). assert (Hs := sqrt_lt_R0 S HS). assert (Q := sqrt_sqrt S ltac:(lra)).
  set (q := ssq m xs / S - INR (length xs)) in *. assert (Eq : ssq m xs = INR (length xs) * S <-> q = 0). { unfold q. split; intros E; [rewrite E; field; lra|]. apply (Rmult_eq_reg_r (/ S)); [|apply Rinv_neq_0_compat; lra]. unfold Rdiv in E. replace (INR (length xs) * S * / S) with (INR (length xs)) by (field; lra). lra. }
  rewrite Eq. split.
  - intros K. assert (E := score_unique _ _ _ _ _ K T).
    assert (M : q * (2 * sqrt S - 1) = 0). { apply (Rmult_eq_reg_r (/ (2 * S))); [|apply Rinv_neq_0_compat; lra]. rewrite Rmult_0_l. transitivity (q / sqrt S - q / (2 * S)); [|lra]. set (s := sqrt S) in *. clearbody q. rewrite <- Q. field. lra. }
    apply Rmult_integral in M as [M|M]; [now right|left]. assert (sqrt S = 1 / 2) by lra. rewrite <- Q. rewrite H. field.
  - intros [E|E].
    + assert (E' : sqrt S = 1 / 2). { rewrite E. replace (1 / 4) with ((1 / 2) * (1 / 2)) by field. apply sqrt_square. lra. } replace (q / sqrt S) with (q / (2 * S)) by (rewrite E', E; field). exact T.
    + rewrite E in *. replace (0 / sqrt S) with (0 / (2 * S)) by (unfold Rdiv; ring). exact T.
Qed.
Print Assumptions C72_normal_refuted.
(** PairedNormal: the same, component by component *)
Theorem C72_paired_partial (m0 m1 a b : R) (d : PairedNormal.t xreal) (xs : list (R * R)) : PairedNormal.new (Fin m0, Fin m1) (Fin a, Fin b) = Ok d ->
  exists gm0 gm1 gs0 gs1, PairedNormal.score d (pairs xs) = PairedNormal.mkG (Fin gm0, Fin gm1) (Fin gs0, Fin gs1) /\
    is_score (fun t => paired_pdf t m1 a b) m0 xs gm0 /\ is_score (fun t => paired_pdf m0 t a b) m1 xs gm1 /\
    is_score (fun t => paired_pdf m0 m1 (t * t) b) (sqrt a) xs gs0 /\ is_score (fun t => paired_pdf m0 m1 a (t * t)) (sqrt b) xs gs1.
Proof.
  intros H. apply pn_new_iff in H as [[Ha Hb] ->]. do 4 eexists. split; [apply (pn_score m0 m1 a b Ha Hb)|].
  destruct (pn_score_mu m0 m1 a b xs Ha Hb). destruct (pn_score_sd m0 m1 a b xs Ha Hb). auto.
Qed.
Print Assumptions C72_paired_partial.
(** Gamma: the rate component is right ... *)
Theorem C72_gamma_partial (SP : Special xreal) (a b : R) (d : Gamma.t xreal) (xs : list R) : gamma_exact SP -> digamma_exact SP ->
  Gamma.new (Fin a) (Fin b) = Ok d -> (forall x, In x xs -> 0 < x) ->
  returns (Gamma.g_beta (Gamma.score d (fins xs))) (is_score (fun t => gamma_pdf a t) b xs).
Proof.
  intros HG HD H Hx. unfold Gamma.new in H. inv_new H. change (Gamma.mk _) with (Gamma.new_unchecked (Fin a) (Fin b)).
  rewrite (ga_score a b xs HD) by auto. eexists. split; [reflexivity|]. now apply ga_score_beta.
Qed.
Print Assumptions C72_gamma_partial.
(** ... the shape component uses ln(x/b) for ln(bx) *)
Theorem C72_gamma_refuted (SP : Special xreal) (a b : R) (d : Gamma.t xreal) (xs : list R) : gamma_exact SP -> digamma_exact SP ->
  Gamma.new (Fin a) (Fin b) = Ok d -> (forall x, In x xs -> b / 10 ^ 9 <= x) ->
  exists v, Gamma.g_alpha (Gamma.score d (fins xs)) = Fin v /\ (is_score (fun t => gamma_pdf t b) a xs v <-> xs = [] \/ b = 1).
Proof.
  intros HG HD H Hx. unfold Gamma.new in H. inv_new H. change (Gamma.mk _) with (Gamma.new_unchecked (Fin a) (Fin b)).
  assert (Hj : forall x, In x xs -> 0 < x /\ J <= x / b).
  { intros x Hi. specialize (Hx x Hi). assert (E : b / 10 ^ 9 = J * b) by (cbn; field). rewrite E in Hx. split; [nra|]. apply (Rmult_le_reg_r b); [auto|]. replace (x / b * b) with x by (field; lra). exact Hx. }
  assert (Hp : forall x, In x xs -> 0 < x) by (intros; now apply Hj).
  rewrite (ga_score a b xs HD) by auto. eexists. split; [reflexivity|]. assert (T := ga_score_alpha HG a b xs HP HP0 Hp).
  assert (E : lsum (fun x => ln (Rmax (x / b) J)) xs = lsum ln xs - INR (length xs) * ln b).
  { rewrite <- lsum_const, <- lsum_minus. apply lsum_ext. intros x Hi. destruct (Hj x Hi). rewrite Rmax_left by lra. unfold Rdiv. rewrite ln_mult, ln_Rinv; auto. now apply Rinv_0_lt_compat. }
  rewrite E. split.
  - intros K. assert (E' := score_unique _ _ _ _ _ K T). destruct xs as [|x xs]; [now left|right]. assert (N : 0 < INR (length (x :: xs))) by (apply lt_0_INR; cbn; lia).
    assert (M : INR (length (x :: xs)) * ln b = 0) by lra. apply Rmult_integral in M as [M|M]; [lra|]. rewrite <- ln_1 in M. apply ln_inv in M; [exact M|auto|lra].
  - intros [E1 | E1]; subst; [cbn [lsum length INR] in *; replace (0 - 0 * ln b - 0 * psi a) with (0 + 0 * (ln b - psi a)) by ring; exact T|].
    rewrite ln_1 in *. replace (lsum ln xs - INR (length xs) * 0 - INR (length xs) * psi a) with (lsum ln xs + INR (length xs) * (0 - psi a)) by ring. exact T.
Qed.
Print Assumptions C72_gamma_refuted.
(** Beta: right when every sample is at least 1e-9 away from 0 and 1 *)
Theorem C72_beta_partial (SP : Special xreal) (a b : R) (d : Beta.t xreal) (xs : list R) : beta_exact SP -> digamma_exact SP ->
  Beta.new (Fin a) (Fin b) = Ok d -> (forall x, In x xs -> 1 / 10 ^ 9 <= x <= 1 - 1 / 10 ^ 9) ->
  returns (Beta.g_alpha (Beta.score d (fins xs))) (is_score (fun t => beta_pdf t b) a xs) /\
  returns (Beta.g_beta (Beta.score d (fins xs))) (is_score (fun t => beta_pdf a t) b xs).
Proof.
  intros HB HD H Hx. unfold Beta.new in H. inv_new H. change (Beta.mk _) with (Beta.new_unchecked (Fin a) (Fin b)).
  assert (Hx' : forall x, In x xs -> J <= x <= 1 - J) by (intros x Hi; specialize (Hx x Hi); cbn in Hx; lra).
  destruct (be_score_true HB a b xs HP HP0 ltac:(intros x Hi; specialize (Hx' x Hi); lra)) as [T1 T2]. rewrite (be_score HD a b xs) by auto.
  split; (eexists; split; [reflexivity|]).
  - rewrite (lsum_ext _ (fun x => ln x - psi a + psi (a + b))); [exact T1|]. intros x Hi. specialize (Hx' x Hi). now rewrite Rmax_left by lra.
  - rewrite (lsum_ext _ (fun x => ln (1 - x) - psi b + psi (a + b))); [exact T2|]. intros x Hi. specialize (Hx' x Hi). now rewrite Rmax_left by lra.
Qed.
Print Assumptions C72_beta_partial.

(** ** C73: maximum likelihood, in exact arithmetic *)
Theorem C73_bernoulli (xs : list bool) :
  (xs = [] -> exists e, Bernoulli.fit_mle (F := xreal) xs = Err e) /\
  (xs <> [] -> exists p, Bernoulli.fit_mle xs = Bernoulli.new (Fin p) /\ 0 <= p <= 1 /\ (exists d, Bernoulli.new (Fin p) = Ok d) /\
     forall q, 0 <= q <= 1 -> lik (bern q) xs <= lik (bern p) xs).
Proof.
  split; [intros ->; apply ber_fit_nil|]. intros Hx. destruct (ber_fit xs Hx) as [E B]. exists (INR (ntrue xs) / INR (length xs)).
  rewrite E, ber_new_ok by auto. split; [reflexivity|]. split; [auto|]. split; [eexists; reflexivity|]. intros q Hq.
  change (lik (bmass q) xs <= lik (bmass (INR (ntrue xs) / INR (length xs))) xs). rewrite !ber_lik, <- (ntf xs). apply ber_max; [|auto].
  rewrite ntf. destruct xs; [congruence|cbn; lia].
Qed.
Print Assumptions C73_bernoulli.
Theorem C73_poisson (xs : list nat) :
  ((forall k, In k xs -> k = 0%nat) -> exists e, Poisson.fit_mle (F := xreal) (map Z.of_nat xs) = Err e) /\
  ((exists k, In k xs /\ k <> 0%nat) -> exists l, Poisson.fit_mle (map Z.of_nat xs) = Poisson.new (Fin l) /\ 0 < l /\ (exists d, Poisson.new (Fin l) = Ok d) /\
     forall r, 0 < r -> lik (poisson_law r) xs <= lik (poisson_law l) xs).
Proof.
  assert (N : forall l k, In k l -> (k <= nsum l)%nat) by (induction l as [|y l IH]; intros k []; cbn [nsum fold_right]; fold (nsum l); [lia|]; specialize (IH k H); lia).
  split.
  - intros H. apply poi_fit_zero. clear N. induction xs as [|x xs IH]; [reflexivity|]. cbn [nsum fold_right]. fold (nsum xs). rewrite IH by (intros; apply H; now right). rewrite (H x) by now left. reflexivity.
  - intros (k & Hk & Nk). assert (P : (0 < nsum xs)%nat) by (specialize (N xs k Hk); lia). destruct (poi_fit xs P) as [E B]. exists (INR (nsum xs) / INR (length xs)).
    rewrite E, poi_new_ok by auto. split; [reflexivity|]. split; [auto|]. split; [eexists; reflexivity|]. intros r Hr. now apply poi_max.
Qed.
Print Assumptions C73_poisson.
Theorem C73_normal (xs : list R) :
  (xs = [] \/ (exists c, forall x, In x xs -> x = c) -> exists e, UvNormal.fit_mle (F := xreal) (fins xs) = Err e) /\
  ((exists x y, In x xs /\ In y xs /\ x <> y) -> exists m S, UvNormal.fit_mle (fins xs) = UvNormal.new (Fin m) (Fin S) /\ 0 < S /\ (exists d, UvNormal.new (Fin m) (Fin S) = Ok d) /\
     forall m' S', 0 < S' -> lik (normal_pdf m' S') xs <= lik (normal_pdf m S) xs).
Proof.
  split.
  - intros H. destruct xs as [|x0 xs]; [apply un_fit_nil|]. destruct H as [H|[c H]]; [discriminate|]. rewrite un_fit_val by discriminate. rewrite (svar_const c) by (auto; discriminate).
    unfold UvNormal.new. destruct (UvNormal.params_new (Fin (smean (x0 :: xs))) (Fin 0)) as [p|e] eqn:E; [exfalso|cbn; eauto].
    destruct (uvn_new_inv (smean (x0 :: xs)) 0 (UvNormal.mk p)) as [K _]; [unfold UvNormal.new; rewrite E; reflexivity|lra].
  - intros (x & y & Hx & Hy & N). assert (Hn : xs <> []) by (destruct xs; [contradiction|discriminate]). assert (V := svar_pos xs x y Hx Hy N).
    exists (smean xs), (svar xs). rewrite un_fit_val by auto. split; [reflexivity|]. split; [auto|]. split; [eexists; now apply uvn_new_ok|]. intros; now apply un_max.
Qed.
Print Assumptions C73_normal.

(** ** C79: Fisher information *)
Notation entry M i j := (nth j (nth i M []) NaN).
Theorem C79_bernoulli (p : R) (d : Bernoulli.t xreal) : Bernoulli.new (Fin p) = Ok d -> 0 < p < 1 ->
  exists v, Bernoulli.fisher_information d = [[Fin v]] /\ is_dinformation bernoulli_law p v.
Proof.
  intros H Hp. apply ber_new_inv in H as [_ ->]. exists (1 / (p * (1 - p))). split; [|now apply ber_info].
  assert (0 < p * (1 - p)) by (apply Rmult_lt_0_compat; lra). unfold Bernoulli.fisher_information, ber; cbn [Bernoulli.new_unchecked Bernoulli.from Bernoulli.pr Bernoulli.p Bernoulli.q Bernoulli.var unwrap p_not p_new_unchecked]. xs. reflexivity.
Qed.
Print Assumptions C79_bernoulli.
Theorem C79_binomial (n : nat) (p : R) (d : Binomial.t xreal) : Binomial.new (Z.of_nat n) (Prob (Fin p)) = Ok d -> 0 < p < 1 ->
  exists v, Binomial.fisher_information d = [[Fin v]] /\ is_dinformation (binomial_law n) p v.
Proof.
  intros H Hp. apply bin_new_inv in H as [_ ->]. exists (INR n / p / (1 - p)). split; [|now apply bin_info].
  unfold Binomial.fisher_information, bin; cbn [Binomial.new_unchecked Binomial.from Binomial.q p_not p_new_unchecked Binomial.pr Binomial.n Binomial.p unwrap]. xs. now rewrite <- INR_IZR_INZ.
Qed.
Print Assumptions C79_binomial.
Theorem C79_normal (m S : R) (d : UvNormal.t xreal) : UvNormal.new (Fin m) (Fin S) = Ok d ->
  exists a b c e, UvNormal.fisher_information d = [[Fin a; Fin b]; [Fin c; Fin e]] /\
    let p := normal_pdf m S in let fm := fun t => normal_pdf t S in let fS := fun t => normal_pdf m t in
    is_information m_infty p_infty p fm m fm m a /\ is_information m_infty p_infty p fm m fS S b /\
    is_information m_infty p_infty p fS S fm m c /\ is_information m_infty p_infty p fS S fS S e.
Proof.
  intros H. apply uvn_new_inv in H as [HS ->]. do 4 eexists. split; [|apply (un_info m S HS)].
  unfold UvNormal.fisher_information, UvNormal.precision. cbn [UvNormal.pr UvNormal.new_unchecked UvNormal.Sigma]. xs. reflexivity.
Qed.
Print Assumptions C79_normal.
(** Exponential: lambda^2 instead of 1/lambda^2; Poisson: lambda instead of 1/lambda *)
Notation exp_pdf l := (rf (Exponential.pdf (Exponential.new_unchecked (Fin l)))).
Theorem C79_exponential_refuted (l : R) (d : Exponential.t xreal) : Exponential.new (Fin l) = Ok d ->
  exists v, Exponential.fisher_information d = [[Fin v]] /\
    is_information 0 p_infty (exp_pdf l) (fun t => exp_pdf t) l (fun t => exp_pdf t) l (1 / (l * l)) /\
    (is_information 0 p_infty (exp_pdf l) (fun t => exp_pdf t) l (fun t => exp_pdf t) l v <-> l = 1).
Proof.
  intros H. unfold Exponential.new in H. inv_new H. change (Exponential.mk _) with (Exponential.new_unchecked (Fin l)). exists (l * l).
  assert (T := exp_info l HP). replace (1 / l / l) with (1 / (l * l)) in T by (field; lra).
  split; [unfold Exponential.fisher_information; cbn [Exponential.lam Exponential.new_unchecked]; xs; reflexivity|]. split; [exact T|]. split.
  - intros K. assert (E := info_unique (Finite 0) p_infty _ _ _ _ _ _ _ I K T). assert (Q : (l * l) * (l * l) = 1) by (rewrite E at 1; field; lra).
    assert (0 < l * l) by (now apply Rmult_lt_0_compat). assert (M : (l - 1) * ((l + 1) * (l * l + 1)) = 0) by (ring_simplify; ring_simplify in Q; lra).
    assert (0 < (l + 1) * (l * l + 1)) by (apply Rmult_lt_0_compat; lra). apply Rmult_integral in M as [M|M]; lra.
  - intros ->. replace (1 * 1) with (1 / (1 * 1)) by field. exact T.
Qed.
Print Assumptions C79_exponential_refuted.
Theorem C79_poisson_refuted (l : R) (d : Poisson.t xreal) : Poisson.new (Fin l) = Ok d ->
  exists v, Poisson.fisher_information d = [[Fin v]] /\ is_dinformation poisson_law l (1 / l) /\ (is_dinformation poisson_law l v <-> l = 1).
Proof.
  intros H. apply poi_new_inv in H as [Hl ->]. exists l. assert (T := poi_info l Hl). split; [reflexivity|]. split; [exact T|]. split.
  - intros K. assert (E := dinfo_unique poisson_law l l (1 / l) ltac:(intros; left; now apply plaw_pos) K T). assert (Q : l * l = 1) by (rewrite E at 1; field; lra). assert (M : (l - 1) * (l + 1) = 0) by lra. apply Rmult_integral in M as [M|M]; lra.
  - intros ->. replace (1 / 1) with 1 in T by field. exact T.
Qed.
Print Assumptions C79_poisson_refuted.
(** LogNormal (density belonging to its cdf): Sigma is used as a standard deviation *)
Theorem C79_lognormal_refuted (SP : Special xreal) (m S : R) (d : LogNormal.t xreal) : (forall x, sf_norm (Fin x) = Fin (Phi x)) ->
  LogNormal.new (Fin m) (Fin S) = Ok d ->
  let dens m S := rf (density_of (fun x => unwrap (LogNormal.cdf (LogNormal.new_unchecked (Fin m) (Fin S)) x))) in
  let I1 v := is_information 0 p_infty (dens m S) (fun t => dens t S) m (fun t => dens t S) m v in
  let I2 v := is_information 0 p_infty (dens m S) (fun t => dens m t) S (fun t => dens m t) S v in
  exists a e, LogNormal.fisher_information d = [[Fin a; Fin 0]; [Fin 0; Fin e]] /\ I1 (1 / S) /\ I2 (1 / (2 * S * S)) /\
    (I1 a <-> S = 1) /\ (I2 e <-> S = 1).
Proof.
  intros Hn H dens I1 I2. unfold LogNormal.new in H. destruct (UvNormal.new (Fin m) (Fin S)) as [u|] eqn:E; [|discriminate]. apply uvn_new_inv in E as [HS ->]. cbn [map_ok] in H. injection H as <-.
  change (LogNormal.mk _) with (LogNormal.new_unchecked (Fin m) (Fin S)).
  exists (1 / S / S), (1 / S / S * (1 / S / S) / 2). destruct (lgn_info Hn m S HS) as (A & _ & _ & B). fold (I1 (1 / S)) in A. replace (1 / S * (1 / S) / 2) with (1 / (2 * S * S)) in B by (field; lra).
  change (I1 (1 / S)) in A. change (I2 (1 / (2 * S * S))) in B.
  split. { unfold LogNormal.fisher_information, LogNormal.sigma. cbn [LogNormal.nrm LogNormal.new_unchecked UvNormal.new_unchecked UvNormal.pr UvNormal.Sigma]. xs. reflexivity. }
  split; [exact A|]. split; [exact B|]. split; split.
  - intros K. assert (E := info_unique (Finite 0) p_infty _ _ _ _ _ _ _ I K A). apply (f_equal (fun z => z * (S * S))) in E. replace (1 / S / S * (S * S)) with 1 in E by (field; lra). replace (1 / S * (S * S)) with S in E by (field; lra). auto.
  - intros ->. replace (1 / 1 / 1) with (1 / 1) by field. exact A.
  - intros K. assert (E := info_unique (Finite 0) p_infty _ _ _ _ _ _ _ I K B). apply (f_equal (fun z => z * (2 * (S * S) * (S * S)))) in E. replace (1 / S / S * (1 / S / S) / 2 * (2 * (S * S) * (S * S))) with 1 in E by (field; lra). replace (1 / (2 * S * S) * (2 * (S * S) * (S * S))) with (S * S) in E by (field; lra). nra.
  - intros ->. replace (1 / 1 / 1 * (1 / 1 / 1) / 2) with (1 / (2 * 1 * 1)) by field. exact B.
Qed.
Print Assumptions C79_lognormal_refuted.
(** Pareto: the four entries are minus the expected second derivatives of the
    log-density (the model is not regular in x_m, so these differ from the
    covariance of the score) *)
Notation pareto_pdf xm al := (rf (Pareto.pdf (Pareto.new_unchecked (Fin xm) (Fin al)))).
Theorem C79_pareto_partial (xm al : R) (d : Pareto.t xreal) : Pareto.new (Fin xm) (Fin al) = Ok d -> 0 < xm ->
  exists a b c e, Pareto.fisher_information d = [[Fin a; Fin b]; [Fin c; Fin e]] /\
    let p := pareto_pdf xm al in let fx := fun t => pareto_pdf t al in let fa := fun t => pareto_pdf xm t in
    is_information_hess xm p_infty p (fun t _ => al / t) fx xm xm a /\
    is_information_hess xm p_infty p (fun t _ => t / xm) fx xm al b /\
    is_information_hess xm p_infty p (fun t x => 1 / al - (ln x - ln t)) fa al xm c /\
    is_information_hess xm p_infty p (fun t x => 1 / t - (ln x - ln xm)) fa al al e /\
    is_information xm p_infty p fa al fa al e.
Proof.
  intros H Hxm. unfold Pareto.new in H. inv_new H. change (Pareto.mk _) with (Pareto.new_unchecked (Fin xm) (Fin al)).
  exists (al / xm / xm), (- 1 / xm), (- 1 / xm), (1 / al / al). destruct (pa_hess xm al Hxm HP0) as (A & B & C & D). destruct (pa_info xm al Hxm HP0) as (_ & _ & _ & D').
  split; [|cbv zeta; auto 10]. unfold Pareto.fisher_information. cbn [Pareto.pr Pareto.new_unchecked]. xs. reflexivity.
Qed.
Print Assumptions C79_pareto_partial.
(** ... against the covariance of the score the x_m entry is right only for
    alpha = 1 and the off-diagonal entries never; for alpha > 1 the matrix is
    not even positive semi-definite *)
Theorem C79_pareto_refuted (xm al : R) (d : Pareto.t xreal) : Pareto.new (Fin xm) (Fin al) = Ok d -> 0 < xm ->
  exists a b e, Pareto.fisher_information d = [[Fin a; Fin b]; [Fin b; Fin e]] /\
    let p := pareto_pdf xm al in let fx := fun t => pareto_pdf t al in let fa := fun t => pareto_pdf xm t in
    (is_information xm p_infty p fx xm fx xm a <-> al = 1) /\ ~ is_information xm p_infty p fx xm fa al b /\
    (1 < al -> exists u v, a * u * u + 2 * b * u * v + e * v * v < 0).
Proof.
  intros H Hxm. unfold Pareto.new in H. inv_new H. change (Pareto.mk _) with (Pareto.new_unchecked (Fin xm) (Fin al)).
  exists (al / xm / xm), (- 1 / xm), (1 / al / al). destruct (pa_info xm al Hxm HP0) as (A & B & _ & _).
  split; [unfold Pareto.fisher_information; cbn [Pareto.pr Pareto.new_unchecked]; xs; reflexivity|]. cbv zeta. split; [split|split].
  - intros K. assert (E := info_unique (Finite xm) p_infty _ _ _ _ _ _ _ I K A). apply (f_equal (fun z => z * (xm * xm))) in E. replace (al / xm / xm * (xm * xm)) with al in E by (field; lra). replace (al / xm * (al / xm) * (xm * xm)) with (al * al) in E by (field; lra). nra.
  - intros ->. replace (1 / xm / xm) with (1 / xm * (1 / xm)) by (field; lra). exact A.
  - intros K. assert (E := info_unique (Finite xm) p_infty _ _ _ _ _ _ _ I K B). apply (f_equal (fun z => z * xm)) in E. replace (- 1 / xm * xm) with (-1) in E by (field; lra). lra.
  - intros L. exists xm, al. replace (al / xm / xm * xm * xm + 2 * (- 1 / xm) * xm * al + 1 / al / al * al * al) with (1 - al) by (field; lra). lra.
Qed.
Print Assumptions C79_pareto_refuted.

(** ** the hypotheses are met *)
Example C71_nonvacuous : (exists d, Bernoulli.new (Fin (1 / 3)) = Ok d) /\ (exists d, Poisson.new (Fin 3) = Ok d) /\ (exists d, UvNormal.new (Fin 1) (Fin 2) = Ok d) /\
  (exists d, PairedNormal.new (Fin 1, Fin 2) (Fin 3, Fin 4) = Ok d) /\ (exists d, Binomial.new (Z.of_nat 7) (Prob (Fin (1 / 3))) = Ok d).
Proof.
  repeat split; eexists; [apply ber_new_ok; lra|apply poi_new_ok; lra|apply uvn_new_ok; lra|apply pn_new_iff; split; [split; lra|reflexivity]|apply bin_new_ok; lra].
Qed.
Example C71_beta_nonvacuous : exists d, Beta.new (Fin 2) (Fin 3) = Ok d. Proof. eexists. unfold Beta.new. ok_new. Qed.
Example C71_gamma_nonvacuous : exists d, Gamma.new (Fin 2) (Fin 3) = Ok d. Proof. eexists. unfold Gamma.new. ok_new. Qed.
Example C71_oracles : gamma_exact (exact false) /\ beta_exact (exact false) /\ logbeta_exact (exact false) /\ digamma_exact (exact false).
Proof. exact (conj (ex_gamma _) (conj (ex_beta _) (conj (ex_logbeta _) (ex_psi _)))). Qed.
Example C71_sample : (forall x, In x [1 / 4; 2 / 3] -> 1 / 10 ^ 9 <= x <= 1 - 1 / 10 ^ 9) /\ (exists x, 0 < x < 1 / 10 ^ 9).
Proof. split; [intros x [<-|[<-|[]]]; cbn; lra|]. exists (1 / 10 ^ 10). cbn. lra. Qed.
Example C73_sample : (exists x y, In x [1; 2] /\ In y [1; 2] /\ x <> y) /\ (exists k, In k [0; 3]%nat /\ k <> 0%nat).
Proof. split; [exists 1, 2; cbn; repeat split; auto; lra|exists 3%nat; cbn; auto]. Qed.
Example C79_nonvacuous : (exists d, Exponential.new (Fin 2) = Ok d) /\ (exists d, LogNormal.new (Fin 1) (Fin 2) = Ok d) /\ (exists d, Pareto.new (Fin 2) (Fin 3) = Ok d).
Proof.
  repeat split; eexists; [unfold Exponential.new; ok_new|unfold LogNormal.new; rewrite uvn_new_ok by lra; reflexivity|unfold Pareto.new; ok_new].
Qed.
