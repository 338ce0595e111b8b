(** * Property C156: distribution functions built on special functions, in double arithmetic.

    The special functions come from another crate: what is assumed of each is
    stated on doubles ([le64] is the IEEE comparison).  The theorems are about
    everything the library does around the call. *)
From Coq Require Import Reals Lra Lia Psatz List ZArith Bool.
From Flocq Require Import Core Plus_error IEEE754.BinarySingleNaN.
From Verif.Num Require Import Scalar F64.
From Verif.Model Require Import Rust Constraints Probability Params Consts Continuous Continuous2 Continuous3.
From Verif.Spec Require Import ParamSpec ProbSpec LibmSpec GammaSpec.
From Verif.Proofs Require Import ConstraintProofs NewInv F64Order LibmInst F64Cdf F64Pdf GammaFun Stirling.
From Verif.Properties Require Import C133_F64Cdf C135_F64Pdf C152_F64Variance.
Import ListNotations.
Open Scope R_scope.

Definition unit64 (x : f64) : Prop := le64 zero64 x /\ le64 x one64.
(** zero or more, infinity excluded *)
Definition nonneg64 (x : f64) : Prop := le64 zero64 x /\ finite64 x.
(** the regularised incomplete beta function: probabilities on the unit interval; never decreasing *)
Definition betainc_range (SP : Special f64) (a b : f64) : Prop := forall y, unit64 y -> valid_prob (sf_betainc y a b).
Definition betainc_mono (SP : Special f64) (a b : f64) : Prop := forall y z, unit64 y -> unit64 z -> le64 y z -> le64 (sf_betainc y a b) (sf_betainc z a b).
(** the lower incomplete gamma function: between 0 and [top] (gamma of the shape, or 1 when regularised), never decreasing *)
Definition gammainc_range (SP : Special f64) (a top : f64) : Prop := forall y, le64 zero64 y -> le64 zero64 (sf_gammainc a y) /\ le64 (sf_gammainc a y) top.
Definition gammainc_mono (SP : Special f64) (a : f64) : Prop := forall y z, le64 zero64 y -> le64 y z -> le64 (sf_gammainc a y) (sf_gammainc a z).

(** Beta: on the unit interval *)
Theorem C156_beta (m : Libm) (SP : Special f64) (a b : f64) (d : Beta.t f64) : Beta.new a b = Ok d ->
  (betainc_range SP a b -> valid_on unit64 (cdf64 Beta.cdf d)) /\ (betainc_mono SP a b -> monotone_on unit64 (cdf64 Beta.cdf d)).
Proof. intros H. unfold Beta.new in H. inv64 H. split; intros C; exact C. Qed.
Print Assumptions C156_beta.

(** x / (x + c) and x / (c + x) *)
Lemma frac_vp (x c s : f64) : fin x -> 0 <= RV x -> nnv s -> 0 < V s -> RV x <= V s -> valid_prob (Bdiv mode_NE x s).
Proof.
  intros F P N PS L. assert (ND : nnv (Bdiv mode_NE x s)) by (apply div_nn; [split; [now apply fin_num|now rewrite V_fin]|apply N|exact PS|now left]).
  apply V_valid; [apply ND|]. split; [apply ND|]. destruct (nnv_cases s N) as [[Fs Ps]|Es].
  - rewrite V_fin in L, PS by exact Fs. destruct (V_div x s F Fs ltac:(lra)) as [_ ->]. apply sat_le1. apply Rmult_le_reg_r with (RV s); [lra|]. unfold Rdiv. rewrite Rmult_assoc, Rinv_l by lra. lra.
  - subst s. destruct x; try discriminate; cbn; lra.
Qed.
Lemma plus_ge (x c : f64) : fin x -> 0 <= RV x -> PF c -> let s := Bplus mode_NE x c in nnv s /\ RV x <= V s /\ RV c <= V s.
Proof.
  intros F P [Fc Pc] s. destruct (V_plus x c F Fc) as [N E]. assert (Bx := fin_lt x F). assert (Bc := fin_lt c Fc). fold s in N, E.
  assert (X : RV x <= V s) by (rewrite E, <- (sat_fmt (RV x)) at 1; [apply sat_mono; lra|apply fmt_RV|lra]).
  assert (C : RV c <= V s) by (rewrite E, <- (sat_fmt (RV c)) at 1; [apply sat_mono; lra|apply fmt_RV|lra]).
  split; [split; [exact N|lra]|split; assumption].
Qed.
Lemma plus_ge' (x c : f64) : fin x -> 0 <= RV x -> PF c -> let s := Bplus mode_NE c x in nnv s /\ RV x <= V s /\ RV c <= V s.
Proof.
  intros F P [Fc Pc] s. destruct (V_plus c x Fc F) as [N E]. assert (Bx := fin_lt x F). assert (Bc := fin_lt c Fc). fold s in N, E.
  assert (X : RV x <= V s) by (rewrite E, <- (sat_fmt (RV x)) at 1; [apply sat_mono; lra|apply fmt_RV|lra]).
  assert (C : RV c <= V s) by (rewrite E, <- (sat_fmt (RV c)) at 1; [apply sat_mono; lra|apply fmt_RV|lra]).
  split; [split; [exact N|lra]|split; assumption].
Qed.
Lemma nonneg_RV x : nonneg64 x -> fin x /\ 0 <= RV x.
Proof. intros [L F]. split; [exact F|]. apply le0_dom in L as [_ L]. now rewrite V_fin in L. Qed.
Lemma vp_unit x : valid_prob x -> unit64 x.
Proof. intros H. destruct (vp_nn x H) as [[N P] L]. split; apply le_V2; try apply num_zero; try apply num_one; auto; rewrite ?V_zero, ?V_one; lra. Qed.

(** Beta prime: a probability at every finite x >= 0 *)
Theorem C156_beta_prime_partial (m : Libm) (SP : Special f64) (a b : f64) (d : BetaPrime.t f64) : BetaPrime.new a b = Ok d -> betainc_range SP a b ->
  valid_on nonneg64 (cdf64 BetaPrime.cdf d).
Proof.
  intros H C. unfold BetaPrime.new in H. inv64 H. intros x Hx. destruct (nonneg_RV x Hx) as [F P]. apply C, vp_unit.
  change (valid_prob (Bdiv mode_NE x (Bplus mode_NE (b64 1 0) x))). assert (L1 : PF (b64 1 0)) by lit. destruct (plus_ge' x _ F P L1) as (N & LX & LC). destruct L1 as [_ P1]. apply (frac_vp x x); auto; lra.
Qed.
Print Assumptions C156_beta_prime_partial.
(** ... but it can decrease: x / (1 + x) in doubles does.  With the exact regularised function of the parameters (1, 1),
    which is the identity, the distribution function of BetaPrime(1, 1) is smaller at a larger argument; at +infinity
    the argument handed over is NaN. *)
Theorem C156_beta_prime_refuted (m : Libm) (SP : Special f64) : (forall y, unit64 y -> sf_betainc y one64 one64 = y) ->
  exists (d : BetaPrime.t f64) (x y : f64), BetaPrime.new one64 one64 = Ok d /\ nonneg64 x /\ nonneg64 y /\ lt64 x y /\ lt64 (cdf64 BetaPrime.cdf d y) (cdf64 BetaPrime.cdf d x) /\
  cdf64 BetaPrime.cdf d (B754_infinity false) = sf_betainc B754_nan one64 one64.
Proof.
  intros C. set (x := b64 8478338155651629 (-51)). set (y := b64 8478338155651630 (-51)).
  assert (PS : fltb (f_of_Z 0 : f64) one64 = true) by (vm_compute; reflexivity).
  exists (BetaPrime.new_unchecked one64 one64), x, y. split.
  { etransitivity; [apply map_params_ok; cbn [args s1 s2 s3 fst snd]; repeat (apply Forall_cons || apply Forall_nil); unfold arg_ok; cbn [arg_ty arg_val field_ok]; first [exact I|exact PS] | reflexivity]. }
  assert (Lx : nonneg64 x) by (split; vm_compute; reflexivity). assert (Ly : nonneg64 y) by (split; vm_compute; reflexivity).
  split; [exact Lx|split; [exact Ly|split; [vm_compute; reflexivity|split]]].
  - assert (E : forall z, unit64 (Bdiv mode_NE z (Bplus mode_NE (b64 1 0) z)) -> cdf64 BetaPrime.cdf (BetaPrime.new_unchecked one64 one64) z = Bdiv mode_NE z (Bplus mode_NE (b64 1 0) z)) by (intros z Hz; exact (C _ Hz)).
    rewrite !E by (split; vm_compute; reflexivity). vm_compute. reflexivity.
  - reflexivity.
Qed.
Print Assumptions C156_beta_prime_refuted.

(** F: a probability at every x >= 0 for which d1 x does not overflow *)
Theorem C156_f_partial (m : Libm) (SP : Special f64) (j k : Z) (d : FDist.t) : FDist.new (F := f64) j k = Ok d -> (j < 2 ^ 64)%Z -> (k < 2 ^ 64)%Z ->
  betainc_range SP (Bdiv mode_NE (b64 j 0) (b64 2 0)) (Bdiv mode_NE (b64 k 0) (b64 2 0)) ->
  valid_on (fun x => nonneg64 x /\ finite64 (Bmult mode_NE (b64 j 0) x)) (fun x : f64 => Probability.unwrap (FDist.cdf d x)).
Proof.
  intros H J K C. unfold FDist.new in H. inv_new H. intros x [Hx Fp]. destruct (nonneg_RV x Hx) as [F P]. destruct (b64_u j ltac:(lia)) as [PJ _]. destruct (b64_u k ltac:(lia)) as [PK _].
  apply C, vp_unit. set (p := Bmult mode_NE (b64 j 0) x) in *. change (valid_prob (Bdiv mode_NE p (Bplus mode_NE p (b64 k 0)))).
  assert (Np : 0 <= RV p). { assert (NP : nnv p) by (apply pf_mul; [exact PJ|split; [now apply fin_num|now rewrite V_fin]]). destruct NP as [_ NP]. now rewrite V_fin in NP. }
  destruct (plus_ge p (b64 k 0) Fp Np PK) as (N & LX & LC). destruct PK as [_ PK]. apply (frac_vp p p); auto; lra.
Qed.
Print Assumptions C156_f_partial.
(** ... and when it does, the argument handed to the incomplete beta function is NaN, at a finite x *)
Theorem C156_f_refuted (m : Libm) (SP : Special f64) : exists (d : FDist.t) (x : f64), FDist.new (F := f64) 2 3 = Ok d /\ nonneg64 x /\
  Probability.unwrap (FDist.cdf d x) = sf_betainc B754_nan one64 (b64 3 (-1)).
Proof.
  exists (FDist.new_unchecked 2 3), (b64 1 1023). split.
  { etransitivity; [apply map_params_ok; cbn [args s1 s2 s3 fst snd]; repeat (apply Forall_cons || apply Forall_nil); unfold arg_ok; cbn [arg_ty arg_val field_ok]; first [exact I|reflexivity|lia] | reflexivity]. }
  split; [split; vm_compute; reflexivity|].
  change (sf_betainc (Bdiv mode_NE (Bmult mode_NE (b64 2 0) (b64 1 1023)) (Bplus mode_NE (Bmult mode_NE (b64 2 0) (b64 1 1023)) (b64 3 0))) (Bdiv mode_NE (b64 2 0) (b64 2 0)) (Bdiv mode_NE (b64 3 0) (b64 2 0)) = sf_betainc B754_nan one64 (b64 3 (-1))).
  f_equal; apply B2SF_inj; vm_compute; reflexivity.
Qed.
Print Assumptions C156_f_refuted.

(** ** the gamma family: gammainc a y / gamma a with y never decreasing in x *)
Lemma quot_valid (SP : Special f64) (a g : f64) (y : f64) : PF g -> gammainc_range SP a g -> le64 zero64 y -> valid_prob (Bdiv mode_NE (sf_gammainc a y) g).
Proof.
  intros [F P] C L. destruct (C y L) as [A B]. apply le_nnv in A. assert (U := le_V1 _ _ B). rewrite (V_fin g F) in U. assert (Q := fin_lt g F). assert (Q0 := M64_pos).
  assert (Fi : fin (sf_gammainc a y)) by (apply V_fin_iff; [apply A|destruct A; lra]). apply (frac_vp _ g); [exact Fi|destruct A as [_ A]; now rewrite V_fin in A|now apply nn_fin|now rewrite V_fin|]. rewrite (V_fin g F). now rewrite V_fin in U.
Qed.
Lemma quot_mono (SP : Special f64) (a g : f64) (y z : f64) : PF g -> gammainc_mono SP a -> le64 zero64 y -> le64 y z -> le64 (Bdiv mode_NE (sf_gammainc a y) g) (Bdiv mode_NE (sf_gammainc a z) g).
Proof.
  intros [F P] C L LL. assert (A := C y z L LL). destruct (le_num _ _ A) as [N N']. apply le_V2; [now apply div_c|now apply div_c|]. apply div_mono; auto. now apply le_V1.
Qed.
Theorem C156_gamma (m : Libm) (SP : Special f64) (a b : f64) (d : Gamma.t f64) : Gamma.new a b = Ok d -> finite64 b -> finite64 (sf_gamma a) -> lt64 zero64 (sf_gamma a) ->
  (gammainc_range SP a (sf_gamma a) -> valid_on (le64 zero64) (cdf64 Gamma.cdf d)) /\ (gammainc_mono SP a -> monotone_on (le64 zero64) (cdf64 Gamma.cdf d)).
Proof.
  intros H Fb Fg Pg. unfold Gamma.new in H. inv64 H. assert (G := PF_pos _ Fg Pg). assert (B := PF_pos _ Fb HP0).
  assert (Y : forall x, le64 zero64 x -> le64 zero64 (Bmult mode_NE b x)) by (intros x Hx; apply nnv_le, pf_mul; [exact B|now apply le_nnv]).
  split; intros C.
  - intros x Hx. apply (quot_valid SP a (sf_gamma a) (Bmult mode_NE b x) G C). now apply Y.
  - intros x y Hx Hy L. apply (quot_mono SP a (sf_gamma a) (Bmult mode_NE b x) (Bmult mode_NE b y) G C); [now apply Y|]. destruct (le_num _ _ L) as [Nx Ny]. destruct B as [FB PB].
    apply le_V2; [now apply c_mult|now apply c_mult|]. apply cmult_mono; auto. now apply le_V1.
Qed.
Print Assumptions C156_gamma.
(** once gamma of the shape overflows the value is zero or NaN at every x: it is never positive *)
Theorem C156_gamma_refuted (m : Libm) (SP : Special f64) (a b : f64) (d : Gamma.t f64) : Gamma.new a b = Ok d -> sf_gamma a = B754_infinity false ->
  forall x : f64, ~ lt64 zero64 (cdf64 Gamma.cdf d x).
Proof.
  intros H E x. unfold Gamma.new in H. inv64 H. change (~ lt64 zero64 (Bdiv mode_NE (sf_gammainc a (Bmult mode_NE b x)) (sf_gamma a))). rewrite E.
  destruct (sf_gammainc a (Bmult mode_NE b x)) as [[|]|[|]| |[|] ? ? ?]; cbn; discriminate.
Qed.
Print Assumptions C156_gamma_refuted.
Lemma fact_ge (N k : nat) : INR (S N) ^ k <= INR (fact (N + k)).
Proof.
  induction k as [|k IH]; [rewrite pow_O; apply (le_INR 1); apply lt_O_fact|]. rewrite Nat.add_succ_r. change (fact (S (N + k))) with (S (N + k) * fact (N + k))%nat. rewrite mult_INR. change (INR (S N) ^ S k) with (INR (S N) * INR (S N) ^ k).
  apply Rmult_le_compat; [apply pos_INR|apply pow_le, pos_INR| |exact IH]. apply le_INR. lia.
Qed.
Lemma fact_over (N k n : nat) : (N + k <= n)%nat -> 2 ^ 7 <= INR (S N) -> (147 <= k)%nat -> bpow radix2 1024 <= INR (fact n).
Proof.
  intros L B K. replace n with (N + (147 + (n - N - 147)))%nat by lia. eapply Rle_trans; [|apply fact_ge]. set (j := (n - N - 147)%nat). clearbody j.
  apply Rle_trans with ((2 ^ 7) ^ (147 + j)); [|apply pow_incr; split; [apply pow_le; lra|exact B]]. rewrite <- pow_mult. apply Rle_trans with (2 ^ 1024); [|apply Rle_pow; [lra|lia]].
  right. rewrite pow_powerRZ. exact (bpow_powerRZ radix2 1024).
Qed.
(** ... which a correctly rounded gamma function does from shape 276 on at the latest (the true bound is 171.62) *)
Example C156_gamma_overflow (n : nat) : (275 <= n)%nat -> r2f (Gam (INR n + 1)) = B754_infinity false.
Proof.
  intros L. rewrite Gam_fact. apply r2f_big. apply (fact_over 127 147); [lia| |lia]. rewrite INR_IZR_INZ. cbn. lra.
Qed.

Theorem C156_inverse_gamma (m : Libm) (SP : Special f64) (a b : f64) (d : InvGamma.t f64) : InvGamma.new a b = Ok d -> finite64 b -> finite64 (sf_gamma a) -> lt64 zero64 (sf_gamma a) ->
  gammainc_range SP a (sf_gamma a) -> valid_on (lt64 zero64) (cdf64 InvGamma.cdf d).
Proof.
  intros H Fb Fg Pg C x Hx. unfold InvGamma.new in H. inv64 H. assert (G := PF_pos _ Fg Pg). assert (B := PF_pos _ Fb HP0).
  apply (quot_valid SP a (sf_gamma a) (Bdiv mode_NE b x) G C). apply nnv_le. destruct (lt_num _ _ Hx) as [_ Nx]. apply div_nn; [now apply PF_nn|exact Nx|rewrite <- V_zero; now apply lt_V1|left; apply B].
Qed.
Print Assumptions C156_inverse_gamma.
Theorem C156_chi_squared (m : Libm) (SP : Special f64) (k : Z) (d : ChiSq.t) : let h := Bdiv mode_NE (b64 k 0) (b64 2 0) in
  ChiSq.new (F := f64) k = Ok d -> finite64 (sf_gamma h) -> lt64 zero64 (sf_gamma h) ->
  (gammainc_range SP h (sf_gamma h) -> valid_on (le64 zero64) (fun x => Probability.unwrap (ChiSq.cdf d x))) /\
  (gammainc_mono SP h -> monotone_on (le64 zero64) (fun x => Probability.unwrap (ChiSq.cdf d x))).
Proof.
  intros h H Fg Pg. unfold ChiSq.new in H. inv_new H. assert (G := PF_pos _ Fg Pg). assert (P2 : PF (b64 2 0)) by lit.
  assert (Y : forall x, le64 zero64 x -> le64 zero64 (Bdiv mode_NE x (b64 2 0))) by (intros x Hx; apply nnv_le, div_pf; [now apply le_nnv|exact P2]).
  split; intros C.
  - intros x Hx. apply (quot_valid SP h (sf_gamma h) (Bdiv mode_NE x (b64 2 0)) G C). now apply Y.
  - intros x y Hx Hy L. apply (quot_mono SP h (sf_gamma h) (Bdiv mode_NE x (b64 2 0)) (Bdiv mode_NE y (b64 2 0)) G C); [now apply Y|]. destruct (le_num _ _ L) as [Nx Ny]. destruct P2 as [F2 P2].
    apply le_V2; [now apply div_c|now apply div_c|]. apply div_mono; auto. now apply le_V1.
Qed.
Print Assumptions C156_chi_squared.
(** Chi: x^2 / 2 handed to the regularised function *)
Lemma sq_mono x y : le64 zero64 x -> le64 x y -> le64 (Bmult mode_NE x x) (Bmult mode_NE y y).
Proof.
  intros P L. destruct (le0_dom x P) as [Nx Px]. destruct (le_num _ _ L) as [_ Ny]. apply le_V1 in L. apply le_V2; try (now apply sq_nn). assert (Q := M64_pos).
  assert (E : forall z, num z -> V (Bmult mode_NE z z) = match z with B754_infinity _ => M64 | _ => sat (RV z * RV z) end).
  { intros z Nz. destruct (inf_cases z Nz) as [F|[F|F]]; [|subst; reflexivity|subst; reflexivity]. destruct (V_mult z z F F) as [_ ->]. destruct z; try discriminate; reflexivity. }
  rewrite !E by auto. assert (U : V x <= V (Bmult mode_NE x x) \/ True) by auto. clear U.
  destruct (inf_cases y Ny) as [F|[F|F]].
  - assert (Fx : fin x) by (apply V_fin_iff; [exact Nx|]; assert (B := fin_lt y F); rewrite (V_fin y F) in L; lra).
    rewrite (V_fin x Fx), ?(V_fin y F) in *. destruct x; try discriminate; destruct y; try discriminate; apply sat_mono; nra.
  - subst. exfalso. cbn [V] in L. lra.
  - subst. destruct x; try lra; apply sat_bounds.
Qed.
Lemma diff_pos (x y : f64) : fin x -> fin y -> RV y < RV x -> num (Bminus mode_NE x y) /\ 0 < V (Bminus mode_NE x y).
Proof.
  intros Fx Fy L. destruct (V_minus x y Fx Fy) as [N E]. split; [exact N|]. rewrite E. assert (Q := M64_pos).
  destruct (Rle_lt_or_eq_dec 0 (sat (RV x - RV y)) (sat_pos (RV x - RV y) ltac:(lra))) as [K|K]; [exact K|exfalso].
  assert (Z : rnd (RV x - RV y) = 0). { unfold sat in K. unfold clamp in K. assert (0 <= rnd (RV x - RV y)) by (apply rnd_pos_of; lra).
    revert K. unfold Rmax, Rmin. destruct (Rle_dec M64 (rnd (RV x - RV y))), (Rle_dec (- M64) _); lra. }
  revert Z. unfold Rminus. apply (round_plus_neq_0 radix2 (FLT_exp (-1074) 53) ZnearestE); [apply fmt_RV|apply generic_format_opp, fmt_RV|lra].
Qed.
Theorem C156_chi (m : Libm) (SP : Special f64) (k : Z) (d : Chi.t) : let h := Bdiv mode_NE (b64 k 0) (b64 2 0) in Chi.new (F := f64) k = Ok d ->
  (gammainc_range SP h one64 -> valid_on number (fun x => Probability.unwrap (Chi.cdf d x))) /\
  (gammainc_mono SP h -> monotone_on (le64 zero64) (fun x => Probability.unwrap (Chi.cdf d x))).
Proof.
  intros h H. unfold Chi.new in H. inv_new H. assert (P2 : PF (b64 2 0)) by lit.
  assert (Y : forall x, number x -> le64 zero64 (Bdiv mode_NE (Bmult mode_NE x x) (b64 2 0))) by (intros x Hx; apply nnv_le, div_pf; [now apply sq_nn|exact P2]).
  split; intros C.
  - intros x Hx. destruct (C _ (Y x Hx)) as [A B]. apply V_valid; [now destruct (le_num _ _ A)|]. rewrite <- V_zero at 1. rewrite <- V_one. split; now apply le_V1.
  - intros x y Hx Hy L. destruct (le_num _ _ L) as [Nx Ny]. apply (C (Bdiv mode_NE (Bmult mode_NE x x) (b64 2 0)) (Bdiv mode_NE (Bmult mode_NE y y) (b64 2 0))); [now apply Y|]. destruct P2 as [F2 P2].
    assert (SM := sq_mono x y Hx L). destruct (le_num _ _ SM) as [Sx Sy]. apply le_V2; [now apply div_c|now apply div_c|]. apply div_mono; auto. now apply le_V1.
Qed.
Print Assumptions C156_chi.

(** ** Levy: erfc (c / 2 / (x - mu)), above the location *)
Theorem C156_levy_partial (m : Libm) (SP : Special f64) (mu c : f64) (d : Levy.t f64) : Levy.new mu c = Ok d -> finite64 mu -> finite64 c ->
  ((forall z, le64 zero64 z -> valid_prob (sf_erfc z)) -> valid_on (lt64 mu) (cdf64 Levy.cdf d)) /\
  ((forall z z', le64 zero64 z -> le64 z z' -> le64 (sf_erfc z') (sf_erfc z)) -> monotone_on (lt64 mu) (cdf64 Levy.cdf d)).
Proof.
  intros H Fm Fc. unfold Levy.new in H. inv64 H. assert (PC := PF_pos _ Fc HP0). assert (P2 : PF (b64 2 0)) by lit. set (h := Bdiv mode_NE c (b64 2 0)).
  assert (Nh : nnv h) by (apply div_pf; [now apply PF_nn|exact P2]).
  assert (Fh : fin h).
  { destruct PC as [FC PC]. destruct P2 as [F2 _]. assert (E2 : RV (b64 2 0) = 2) by (apply b64_z; lia). destruct (V_div c (b64 2 0) FC F2 ltac:(rewrite E2; lra)) as [N E]. fold h in N, E. apply V_fin_iff; [exact N|].
    assert (B := fin_lt c FC). assert (U : V h <= RV c). { rewrite E, E2. rewrite <- (sat_fmt (RV c)) at 2; [apply sat_mono; lra|apply fmt_RV|lra]. } destruct Nh. assert (Q := M64_pos). lra. }
  assert (Ph : 0 <= RV h) by (destruct Nh as [_ Nh]; now rewrite V_fin in Nh).
  assert (D : forall x, lt64 mu x -> num (Bminus mode_NE x mu) /\ 0 < V (Bminus mode_NE x mu)).
  { intros x L. destruct (lt_num _ _ L) as [_ Nx]. apply lt_V1 in L. rewrite (V_fin mu) in L by exact Fm. destruct (inf_cases x Nx) as [F|[F|F]].
    - rewrite V_fin in L by exact F. apply diff_pos; auto.
    - subst. exfalso. assert (B := fin_lt mu Fm). cbn [V] in L. lra.
    - subst. assert (Q := M64_pos). split; [|]; destruct mu; try discriminate; cbn [Bminus V is_nan]; try reflexivity; lra. }
  assert (A : forall x, lt64 mu x -> nnv (Bdiv mode_NE h (Bminus mode_NE x mu))) by (intros x L; destruct (D x L); apply div_nn; auto).
  split; intros C.
  - intros x L. apply (C (Bdiv mode_NE h (Bminus mode_NE x mu))). apply nnv_le, A, L.
  - intros x y Lx Ly L. apply (C (Bdiv mode_NE h (Bminus mode_NE y mu)) (Bdiv mode_NE h (Bminus mode_NE x mu))); [apply nnv_le, A, Ly|].
    apply le_V2; try (now apply A). destruct (D x Lx) as [N1 P1]. destruct (D y Ly) as [N2 P2'].
    assert (M : V (Bminus mode_NE x mu) <= V (Bminus mode_NE y mu)).
    { destruct (le_num _ _ L) as [Nx Ny]. destruct (minus_c x mu Nx Fm) as [_ ->]. destruct (minus_c y mu Ny Fm) as [_ ->]. apply lift_mono; auto; [intros; lra|now apply le_V1]. }
    destruct (Rle_lt_or_eq_dec 0 (RV h) Ph) as [Hp|Hz].
    + destruct (c_div (Bminus mode_NE x mu) h N1 Fh Hp P1) as [_ ->]. destruct (c_div (Bminus mode_NE y mu) h N2 Fh Hp P2') as [_ ->]. apply recip_anti; auto.
    + assert (Z : forall z, num z -> 0 < V z -> V (Bdiv mode_NE h z) = 0).
      { intros z Nz Pz. destruct (inf_cases z Nz) as [F|[F|F]].
        - rewrite V_fin in Pz by exact F. destruct (V_div h z Fh F ltac:(lra)) as [_ ->]. rewrite <- Hz. unfold Rdiv. rewrite Rmult_0_l. apply sat_0.
        - subst. destruct h; try discriminate; reflexivity.
        - subst. destruct h; try discriminate; reflexivity. }
      rewrite !Z by auto. lra.
Qed.
Print Assumptions C156_levy_partial.
(** ... at the location itself, -0.0 for Levy(0, c), the argument of erfc is minus infinity: the value is 2, not a probability *)
Theorem C156_levy_refuted (m : Libm) (SP : Special f64) (c : f64) (d : Levy.t f64) : Levy.new zero64 c = Ok d -> finite64 c -> le64 (b64 1 (-1000)) c -> sf_erfc (B754_infinity true) = b64 2 0 ->
  le64 zero64 (B754_zero true) /\ cdf64 Levy.cdf d (B754_zero true) = b64 2 0 /\ ~ valid_prob (cdf64 Levy.cdf d (B754_zero true)).
Proof.
  intros H Fc L E. unfold Levy.new in H. inv64 H. split; [vm_compute; reflexivity|].
  assert (K : cdf64 Levy.cdf (Levy.mk (Levy.mkP zero64 c)) (B754_zero true) = b64 2 0).
  { cbv beta. rewrite <- E. change (sf_erfc (Bdiv mode_NE (Bdiv mode_NE c (b64 2 0)) (Bminus mode_NE (B754_zero true) zero64)) = sf_erfc (B754_infinity true)). f_equal.
    assert (Q : PF (Bdiv mode_NE c (b64 2 0))).
    { assert (PC := PF_pos _ Fc HP0). destruct PC as [FC PC]. assert (P2 : PF (b64 2 0)) by lit. destruct P2 as [F2 _]. assert (E2 : RV (b64 2 0) = 2) by (apply b64_z; lia).
      destruct (V_div c (b64 2 0) FC F2 ltac:(rewrite E2; lra)) as [N EV]. rewrite E2 in EV. assert (B := fin_lt c FC).
      assert (LO : bpow radix2 (-1001) <= V (Bdiv mode_NE c (b64 2 0))).
      { rewrite EV. rewrite <- (sat_fmt (bpow radix2 (-1001))); [|apply fmt_bpow; lia|assert (X := bpow_gt_0 radix2 (-1001)); assert (Y : bpow radix2 (-1001) < bpow radix2 1024) by (apply bpow_lt; lia); change (bpow radix2 1024) with M64 in Y; lra].
        apply sat_mono. apply le_V1 in L. destruct (b64_pow2 (-1000) ltac:(lia)) as [FL VL]. rewrite (V_fin _ FL), (V_fin _ FC), VL in L. change (-1001)%Z with (-1000 + -1)%Z. rewrite bpow_plus. change (bpow radix2 (-1)) with (/ 2). lra. }
      assert (HI : V (Bdiv mode_NE c (b64 2 0)) <= RV c). { rewrite EV. rewrite <- (sat_fmt (RV c)) at 2; [apply sat_mono; lra|apply fmt_RV|lra]. }
      assert (X := bpow_gt_0 radix2 (-1001)). assert (FF : fin (Bdiv mode_NE c (b64 2 0))) by (apply V_fin_iff; [exact N|lra]). split; [exact FF|]. rewrite <- V_fin by exact FF. lra. }
    destruct Q as [FQ PQ]. destruct (pos_sign _ FQ PQ) as (mm & ee & hh & ->). reflexivity. }
  split; [exact K|]. assert (NV : ~ valid_prob (b64 2 0)) by (intros [_ Q]; destruct (b64_z 2 ltac:(lia)) as [F2 V2]; change (0 <= RV (b64 2 0) <= 1) in Q; rewrite V2 in Q; lra). intros Q. apply NV. rewrite <- K. exact Q.
Qed.
Print Assumptions C156_levy_refuted.

(** ** Folded normal: (erf ((x + mu) / sigma / sqrt 2) + erf ((x - mu) / sigma / sqrt 2)) / 2 *)
Record erf_ok (SP : Special f64) : Prop := {
  erf_range : forall z, number z -> le64 (Bopp one64) (sf_erf z) /\ le64 (sf_erf z) one64;
  erf_mono : forall z z', le64 z z' -> le64 (sf_erf z) (sf_erf z');
  erf_odd : forall z, number z -> sf_erf (Bopp z) = Bopp (sf_erf z)
}.
Lemma sat_opp r : sat (- r) = - sat r.
Proof. unfold sat, clamp. rewrite rnd_opp. generalize (rnd r). intros q. assert (Q := M64_pos). unfold Rmax, Rmin. repeat destruct Rle_dec; lra. Qed.
Theorem C156_folded_normal (m : Libm) (SP : Special f64) (mu s : f64) (d : FoldedNormal.t f64) : FoldedNormal.new mu s = Ok d -> finite64 mu -> finite64 s -> erf_ok SP ->
  valid_on (le64 zero64) (cdf64 FoldedNormal.cdf d) /\ monotone_on (le64 zero64) (cdf64 FoldedNormal.cdf d).
Proof.
  intros H Fm Fs [ER EM EO]. unfold FoldedNormal.new in H. inv64 H. assert (PS := fin_pos s Fs HP0). assert (Q := M64_pos).
  set (r := Bsqrt mode_NE (b64 2 0) : f64).
  assert (PR : fin r /\ 0 < RV r) by (apply sqrt_pos64; [apply b64_z; lia|destruct (b64_z 2 ltac:(lia)) as [_ ->]; lra]). destruct PR as [Fr Pr].
  set (A := (fun x : f64 => Bdiv mode_NE (Bdiv mode_NE (Bplus mode_NE x mu) s) r) : f64 -> f64). set (B := (fun x : f64 => Bdiv mode_NE (Bdiv mode_NE (Bminus mode_NE x mu) s) r) : f64 -> f64).
  assert (NA : forall x, num x -> num (A x)). { intros x Nx. destruct (plus_c x mu Nx Fm) as [N1 _]. destruct (div_c _ s N1 Fs PS) as [N2 _]. now destruct (div_c _ r N2 Fr Pr). }
  assert (NB : forall x, num x -> num (B x)). { intros x Nx. destruct (minus_c x mu Nx Fm) as [N1 _]. destruct (div_c _ s N1 Fs PS) as [N2 _]. now destruct (div_c _ r N2 Fr Pr). }
  assert (MA : forall x y, num x -> num y -> V x <= V y -> V (A x) <= V (A y)).
  { intros x y Nx Ny L. destruct (plus_c x mu Nx Fm) as [N1 _]. destruct (plus_c y mu Ny Fm) as [N1' _]. destruct (div_c _ s N1 Fs PS) as [N2 _]. destruct (div_c _ s N1' Fs PS) as [N2' _]. unfold A. repeat apply div_mono; auto. now apply plus_mono. }
  assert (MB : forall x y, num x -> num y -> V x <= V y -> V (B x) <= V (B y)).
  { intros x y Nx Ny L. destruct (minus_c x mu Nx Fm) as [N1 E1]. destruct (minus_c y mu Ny Fm) as [N1' E1']. destruct (div_c _ s N1 Fs PS) as [N2 _]. destruct (div_c _ s N1' Fs PS) as [N2' _]. unfold B. repeat apply div_mono; auto. rewrite E1, E1'. apply lift_mono; auto. intros; lra. }
  assert (AB : forall x, num x -> 0 <= V x -> V (Bopp (B x)) <= V (A x)).
  { intros x Nx Px. rewrite V_opp. unfold A, B. destruct (plus_c x mu Nx Fm) as [N1 E1]. destruct (minus_c x mu Nx Fm) as [N2 E2].
    assert (L1 : - V (Bminus mode_NE x mu) <= V (Bplus mode_NE x mu)).
    { rewrite E1, E2. destruct (inf_cases x Nx) as [F|[F|F]]; [|subst; exfalso; cbn [V] in Px; lra|subst; cbn [lift]; lra]. rewrite !lift_fin by exact F. rewrite V_fin in Px by exact F. rewrite <- sat_opp. apply sat_mono. lra. }
    assert (SD : forall c u v, fin c -> 0 < RV c -> num u -> num v -> - V v <= V u -> num (Bdiv mode_NE u c) /\ num (Bdiv mode_NE v c) /\ - V (Bdiv mode_NE v c) <= V (Bdiv mode_NE u c)).
    { intros c u v Fc Pc Nu Nv L. destruct (div_c u c Nu Fc Pc) as [D1 _]. destruct (div_c v c Nv Fc Pc) as [D2 _]. split; [exact D1|split; [exact D2|]].
      assert (K : V (Bdiv mode_NE (Bopp v) c) <= V (Bdiv mode_NE u c)) by (apply div_mono; auto; [now apply num_opp|now rewrite V_opp]).
      destruct (div_c (Bopp v) c (num_opp v Nv) Fc Pc) as [_ E3]. destruct (div_c v c Nv Fc Pc) as [_ E4]. rewrite E3 in K. rewrite E4.
      destruct (inf_cases v Nv) as [F|[F|F]]; [|subst; cbn [lift Bopp negb] in *; lra|subst; cbn [lift Bopp negb] in *; lra].
      rewrite (lift_fin _ _ (fin_opp v F)), RV_opp in K. rewrite (lift_fin _ _ F), <- sat_opp. replace (- (RV v / RV c)) with (- RV v / RV c) by (unfold Rdiv; ring). exact K. }
    destruct (SD s _ _ Fs PS N1 N2 L1) as (N3 & N4 & L2). destruct (SD r _ _ Fr Pr N3 N4 L2) as (_ & _ & L3). exact L3. }
  set (G := (fun x : f64 => Bplus mode_NE (sf_erf (A x)) (sf_erf (B x))) : f64 -> f64).
  assert (EB : forall z, num z -> fin (sf_erf z) /\ -1 <= RV (sf_erf z) <= 1).
  { intros z Nz. destruct (ER z Nz) as [L U]. destruct (le_num _ _ L) as [_ N]. apply le_V1 in L, U. rewrite V_opp in L. rewrite V_one in L, U. assert (F : fin (sf_erf z)) by (apply V_fin_iff; [exact N|lra]). split; [exact F|]. rewrite V_fin in L, U by exact F. lra. }
  assert (GV : forall x, num x -> fin (G x) /\ RV (G x) = rnd (RV (sf_erf (A x)) + RV (sf_erf (B x)))).
  { intros x Nx. destruct (EB _ (NA x Nx)) as [F1 B1]. destruct (EB _ (NB x Nx)) as [F2 B2]. destruct (V_plus _ _ F1 F2) as [N E]. fold (G x) in N, E.
    assert (LE : -2 <= rnd (RV (sf_erf (A x)) + RV (sf_erf (B x))) <= 2) .
    { split; [apply rnd_ge; [apply (fmt_IZR (-2)); lia|lra]|apply rnd_le_fmt; [apply (fmt_IZR 2); lia|lra]]. }
    assert (E' : V (G x) = rnd (RV (sf_erf (A x)) + RV (sf_erf (B x)))) by (rewrite E; apply clamp_id; lra).
    assert (F : fin (G x)) by (apply V_fin_iff; [exact N|rewrite E'; assert (W : 2 < M64) by apply M64_pos; lra]). split; [exact F|]. now rewrite <- V_fin. }
  assert (GP : forall x, num x -> 0 <= V x -> 0 <= RV (G x) <= 2).
  { intros x Nx Px. destruct (GV x Nx) as [_ ->]. destruct (EB _ (NA x Nx)) as [F1 B1]. destruct (EB _ (NB x Nx)) as [F2 B2]. split; [|apply rnd_le_fmt; [apply (fmt_IZR 2); lia|lra]].
    apply rnd_pos_of. assert (K : le64 (sf_erf (Bopp (B x))) (sf_erf (A x))) by (apply EM, le_V2; [apply num_opp; auto|auto|now apply AB]).
    rewrite EO in K by (now apply NB). apply le_V1 in K. rewrite V_opp, !V_fin in K by assumption. lra. }
  set (h := Bdiv mode_NE (b64 1 0) (b64 2 0) : f64).
  assert (Hh : fin h /\ RV h = / 2).
  { destruct (b64_z 1 ltac:(lia)) as [F1 V1]. destruct (b64_z 2 ltac:(lia)) as [F2 V2]. destruct (V_div _ _ F1 F2 ltac:(rewrite V2; lra)) as [N E]. fold h in N, E. rewrite V1, V2 in E.
    assert (E' : V h = / 2). { rewrite E. replace (1 / 2) with (bpow radix2 (-1)) by (change (bpow radix2 (-1)) with (/ 2); lra). rewrite sat_fmt; [reflexivity|apply fmt_bpow; lia|change (bpow radix2 (-1)) with (/ 2); lra]. }
    assert (F : fin h) by (apply V_fin_iff; [exact N|lra]). split; [exact F|now rewrite <- V_fin]. }
  destruct Hh as [Fh Vh].
  assert (HV : forall x, num x -> num (Bmult mode_NE h (G x)) /\ V (Bmult mode_NE h (G x)) = sat (/ 2 * RV (G x))).
  { intros x Nx. destruct (GV x Nx) as [F _]. destruct (V_mult h (G x) Fh F) as [N E]. rewrite Vh in E. auto. }
  split.
  - intros x Hx. destruct (le0_dom x Hx) as [Nx Px]. change (valid_prob (Bmult mode_NE h (G x))). destruct (HV x Nx) as [N E]. apply V_valid; [exact N|]. rewrite E. assert (W := GP x Nx Px). split; [apply sat_pos; lra|apply sat_le1; lra].
  - intros x y Hx Hy L. destruct (le0_dom x Hx) as [Nx Px]. destruct (le0_dom y Hy) as [Ny Py]. apply le_V1 in L. change (le64 (Bmult mode_NE h (G x)) (Bmult mode_NE h (G y))).
    destruct (HV x Nx) as [N E]. destruct (HV y Ny) as [N' E']. apply le_V2; auto. rewrite E, E'. apply sat_mono. apply Rmult_le_compat_l; [lra|].
    destruct (GV x Nx) as [_ ->]. destruct (GV y Ny) as [_ ->]. apply rnd_le.
    destruct (EB _ (NA x Nx)) as [F1 _]. destruct (EB _ (NB x Nx)) as [F2 _]. destruct (EB _ (NA y Ny)) as [F3 _]. destruct (EB _ (NB y Ny)) as [F4 _]. rewrite <- !V_fin by assumption.
    apply Rplus_le_compat; apply le_V1, EM, le_V2; auto.
Qed.
Print Assumptions C156_folded_normal.

(** ** the assumptions can be met, together, and the families have members *)
Definition clip (z : f64) : f64 := if Bltb one64 z then one64 else if Bltb z (Bopp one64) then Bopp one64 else z.
Definition sp_all : Special f64 := {|
  sf_gamma _ := one64; sf_loggamma x := x; sf_beta x _ := x; sf_logbeta x _ := x; sf_betainc x _ _ := x; sf_gammainc _ y := Bminus mode_NE (b64 1 0) (cr_exp (Bopp y)); sf_digamma x := x;
  sf_erf := clip; sf_erfc z := match z with B754_infinity true => b64 2 0 | _ => cr_exp (Bopp z) end; sf_norm x := x; sf_norm_inv x := x; sf_riemann_zeta x := x; sf_hyp2f1 x _ _ _ := x |}.
Lemma exp_neg y : le64 zero64 y -> num (cr_exp (Bopp y)) /\ 0 <= V (cr_exp (Bopp y)) <= 1.
Proof.
  intros L. destruct (le0_dom y L) as [N P]. assert (HR := cr_range). assert (N' := num_opp _ N). split; [now apply (xp_num (m := cr_libm) HR)|]. split; [now apply (xp_ge0 (m := cr_libm) HR)|apply (xp_le1 (m := cr_libm) HR); [exact N'|rewrite V_opp; lra]].
Qed.
Lemma exp_neg_anti y z : le64 zero64 y -> le64 y z -> V (cr_exp (Bopp z)) <= V (cr_exp (Bopp y)).
Proof.
  intros L LL. destruct (le_num _ _ LL) as [Ny Nz]. assert (HM := cr_monotone). apply (xp_mono (m := cr_libm) HM); try (now apply num_opp). rewrite !V_opp. apply Ropp_le_contravar. now apply le_V1.
Qed.
Lemma clip_V z : num z -> num (clip z) /\ V (clip z) = Rmax (-1) (Rmin 1 (V z)).
Proof.
  intros N. unfold clip. assert (O : V (Bopp one64) = -1) by (rewrite V_opp, V_one; ring).
  destruct (Bltb one64 z) eqn:E1.
  - apply lt_V1 in E1. rewrite V_one in *. split; [apply num_one|]. unfold Rmax, Rmin. repeat destruct Rle_dec; lra.
  - assert (L1 : V z <= 1). { apply Rnot_lt_le. intros K. assert (X : lt64 one64 z) by (apply lt_V2; [apply num_one|exact N|rewrite V_one; exact K]). unfold lt64 in X. congruence. }
    destruct (Bltb z (Bopp one64)) eqn:E2.
    + apply lt_V1 in E2. rewrite O in *. split; [reflexivity|]. unfold Rmax, Rmin. repeat destruct Rle_dec; lra.
    + assert (L2 : -1 <= V z). { apply Rnot_lt_le. intros K. assert (X : lt64 z (Bopp one64)) by (apply lt_V2; [exact N|reflexivity|rewrite O; exact K]). unfold lt64 in X. congruence. }
      split; [exact N|]. unfold Rmax, Rmin. repeat destruct Rle_dec; lra.
Qed.
Lemma Bltb_dec x y : num x -> num y -> (Bltb x y = true /\ V x < V y) \/ (Bltb x y = false /\ V y <= V x).
Proof. intros Nx Ny. destruct (Bltb x y) eqn:E; [left; split; [reflexivity|now apply lt_V1]|right; split; [reflexivity|]]. apply Rnot_lt_le. intros K. assert (X : lt64 x y) by (apply lt_V2; auto). unfold lt64 in X. congruence. Qed.
Lemma clip_odd z : num z -> clip (Bopp z) = Bopp (clip z).
Proof.
  intros N. unfold clip. assert (O : V (Bopp one64) = -1) by (rewrite V_opp, V_one; ring). assert (W := V_opp z). assert (N' := num_opp _ N). assert (OO : num (Bopp one64)) by reflexivity.
  destruct (Bltb_dec one64 (Bopp z) num_one N') as [[E1 A]|[E1 A]]; destruct (Bltb_dec (Bopp z) (Bopp one64) N' OO) as [[E2 B]|[E2 B]];
  destruct (Bltb_dec one64 z num_one N) as [[E3 C]|[E3 C]]; destruct (Bltb_dec z (Bopp one64) N OO) as [[E4 D]|[E4 D]]; rewrite ?E1, ?E2, ?E3, ?E4;
  rewrite ?V_one, ?O, ?W in *; try lra; try reflexivity; now rewrite Bopp_involutive.
Qed.
Example C156_nonvacuous (m : Libm) : let SP := sp_all in let h := b64 3 (-1) in
  (forall a b, betainc_range SP a b /\ betainc_mono SP a b) /\ (forall y, unit64 y -> @sf_betainc f64 SP y one64 one64 = y) /\
  (forall a, gammainc_range SP a (@sf_gamma f64 SP a) /\ gammainc_range SP a one64 /\ gammainc_mono SP a /\ finite64 (@sf_gamma f64 SP a) /\ lt64 zero64 (@sf_gamma f64 SP a)) /\
  (forall z, le64 zero64 z -> valid_prob (@sf_erfc f64 SP z)) /\ (forall z z', le64 zero64 z -> le64 z z' -> le64 (@sf_erfc f64 SP z') (@sf_erfc f64 SP z)) /\
  @sf_erfc f64 SP (B754_infinity true) = b64 2 0 /\ erf_ok SP /\
  Beta.new h one64 = Ok (Beta.new_unchecked h one64) /\ BetaPrime.new h one64 = Ok (BetaPrime.new_unchecked h one64) /\ FDist.new (F := f64) 3 9 = Ok (FDist.new_unchecked 3 9) /\
  Gamma.new h one64 = Ok (Gamma.new_unchecked h one64) /\ InvGamma.new h one64 = Ok (InvGamma.new_unchecked h one64) /\ ChiSq.new (F := f64) 3 = Ok (ChiSq.new_unchecked 3) /\ Chi.new (F := f64) 3 = Ok (Chi.new_unchecked 3) /\
  Levy.new zero64 h = Ok (Levy.new_unchecked zero64 h) /\ FoldedNormal.new h h = Ok (FoldedNormal.new_unchecked h h).
Proof.
  intros SP h. assert (P1 : fltb (f_of_Z 0 : f64) one64 = true) by (vm_compute; reflexivity). assert (Ph : fltb (f_of_Z 0 : f64) h = true) by (vm_compute; reflexivity).
  split; [|split; [|split; [|split; [|split; [|split; [|split]]]]]].
  - intros a b. split; [|intros y z _ _ L; exact L]. intros y [A B]. apply V_valid; [now destruct (le_num _ _ B)|]. rewrite <- V_zero at 1. rewrite <- V_one. split; now apply le_V1.
  - reflexivity.
  - intros a. assert (R : gammainc_range SP a one64).
    { intros y L. destruct (exp_neg y L) as [N B]. destruct (one_minus _ N B) as [N' B']. split; apply le_V2; try apply num_zero; try apply num_one; try exact N'; rewrite ?V_zero, ?V_one; apply B'. }
    split; [exact R|split; [exact R|split; [|split; vm_compute; reflexivity]]]. intros y z L LL. destruct (exp_neg y L) as [N B]. assert (Lz : le64 zero64 z) by (destruct (le0_dom y L); destruct (le_num _ _ LL); apply le_V2; [apply num_zero|auto|rewrite V_zero; apply le_V1 in LL; lra]).
    destruct (exp_neg z Lz) as [N' B']. destruct (one_minus _ N B) as [Q _]. destruct (one_minus _ N' B') as [Q' _]. apply le_V2; [exact Q|exact Q'|]. apply one_minus_anti; auto. now apply exp_neg_anti.
  - intros z L. destruct (exp_neg z L) as [N B]. replace (@sf_erfc f64 SP z) with (cr_exp (Bopp z)) by (destruct z as [|[|]| |]; try reflexivity; discriminate L). now apply V_valid.
  - intros z z' L LL. assert (Lz : le64 zero64 z') by (destruct (le0_dom z L); destruct (le_num _ _ LL); apply le_V2; [apply num_zero|auto|rewrite V_zero; apply le_V1 in LL; lra]).
    assert (K : forall z, le64 zero64 z -> @sf_erfc f64 SP z = cr_exp (Bopp z)) by (intros [|[|]| |] Q; try reflexivity; discriminate Q). rewrite !K by assumption. apply le_V2; [now apply exp_neg|now apply exp_neg|now apply exp_neg_anti].
  - reflexivity.
  - constructor.
    + intros z N. destruct (clip_V z N) as [N' E]. split; apply le_V2; try apply num_one; try exact N'; try reflexivity; rewrite ?V_opp, ?V_one; change (sf_erf z) with (clip z); rewrite E; unfold Rmax, Rmin; repeat destruct Rle_dec; lra.
    + intros z z' L. destruct (le_num _ _ L) as [N N']. destruct (clip_V z N) as [Q E]. destruct (clip_V z' N') as [Q' E']. apply le_V1 in L. apply le_V2; [exact Q|exact Q'|]. change (V (clip z) <= V (clip z')). rewrite E, E'. unfold Rmax, Rmin. repeat destruct Rle_dec; lra.
    + intros z N. now apply clip_odd.
  - repeat match goal with |- _ /\ _ => split end;
    (etransitivity; [apply map_params_ok; cbn [args s1 s2 s3 fst snd]; repeat (apply Forall_cons || apply Forall_nil); unfold arg_ok; cbn [arg_ty arg_val field_ok]; first [exact I|exact P1|exact Ph|lia|reflexivity] | reflexivity]).
Qed.
