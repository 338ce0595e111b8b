(** * Property C159: exact symmetry of the densities, in double arithmetic *)
From Coq Require Import Reals Lra Lia ZArith Psatz List Bool.
From Flocq Require Import Core IEEE754.BinarySingleNaN.
From Verif.Num Require Import Scalar F64.
From Verif.Model Require Import Rust Constraints Params Probability Consts Continuous Continuous2 Continuous3.
From Verif.Spec Require Import ParamSpec LibmSpec.
From Verif.Proofs Require Import ConstraintProofs NewInv SimplexProofs F64Order LibmInst F64Cdf F64Pdf.
From Verif.Properties Require Import C133_F64Cdf C135_F64Pdf C156_F64Special.
Open Scope R_scope.

(** [x] and [y] are the same distance from the point [c] on the two sides of it *)
Definition mirrored (c x y : f64) : Prop := fin c /\ fin x /\ fin y /\ RV x - RV c = RV c - RV y.

(** opposite doubles, up to the sign of zero *)
Definition opposite (u w : f64) : Prop := w = Bopp u \/ exists s t, u = B754_zero s /\ w = B754_zero t.

Lemma opp_V (u w : f64) : num u -> num w -> V w = - V u -> opposite u w.
Proof.
  intros Nu Nw E. assert (M := M64_pos).
  destruct (inf_cases u Nu) as [Fu|[->| ->]]; destruct (inf_cases w Nw) as [Fw|[->| ->]]; cbn [V] in E; try lra; try (left; reflexivity).
  2-5: exfalso; (assert (K := fin_lt u) || idtac); (assert (K2 := fin_lt w) || idtac); rewrite ?V_fin in E by assumption; first [specialize (K Fu); lra|specialize (K2 Fw); lra].
  rewrite !V_fin in E by assumption.
  destruct (Req_dec (RV u) 0) as [Z|Z].
  - right. assert (Z2 : RV w = 0) by lra. assert (K : forall v, fin v -> RV v = 0 -> exists s, v = B754_zero s).
    { intros v Fv Zv. destruct v as [s| | |s mv ev hv]; try discriminate Fv; [now exists s|]. exfalso. unfold RV, B2R in Zv. apply eq_0_F2R in Zv. cbn in Zv. destruct s; discriminate Zv. }
    destruct (K u Fu Z) as [s ->]. destruct (K w Fw Z2) as [t ->]. now exists s, t.
  - left. apply B2R_inj.
    + destruct w as [s| | |]; try discriminate Fw; [exfalso; cbn in E; lra|reflexivity].
    + destruct u as [s| | |]; try discriminate Fu; [exfalso; cbn in Z; lra|reflexivity].
    + change (RV w = RV (Bopp u)). now rewrite RV_opp.
Qed.
Lemma diff_opposite (c x y : f64) : mirrored c x y -> opposite (Bminus mode_NE x c) (Bminus mode_NE y c).
Proof.
  intros (Fc & Fx & Fy & E). destruct (V_minus x c Fx Fc) as [N1 E1]. destruct (V_minus y c Fy Fc) as [N2 E2]. apply opp_V; [exact N1|exact N2|].
  rewrite E1, E2, <- sat_opp. f_equal. lra.
Qed.
(** same real value, same sign: same double *)
Lemma same (a b : f64) : num a -> num b -> V a = V b -> Bsign a = Bsign b -> a = b.
Proof.
  intros Na Nb E S. assert (M := M64_pos). assert (K := fin_lt a). assert (K2 := fin_lt b).
  destruct (inf_cases a Na) as [Fa|[Fa|Fa]]; destruct (inf_cases b Nb) as [Fb|[Fb|Fb]]; try (subst a; subst b; reflexivity); try rewrite (V_fin a) in E by assumption; try rewrite (V_fin b) in E by assumption.
  all: try (specialize (K Fa)); try (specialize (K2 Fb)); try subst a; try subst b; cbn [V] in E; try lra.
  apply B2R_Bsign_inj; assumption.
Qed.
Lemma sign_mult (a b : f64) : num (Bmult mode_NE a b) -> Bsign (Bmult mode_NE a b) = xorb (Bsign a) (Bsign b).
Proof.
  intros N. destruct a as [s|s| |s ma ea ha]; destruct b as [t|t| |t mb eb hb]; try discriminate N; try reflexivity.
  assert (C := Bmult_correct 53 1024 _ _ mode_NE (B754_finite s ma ea ha) (B754_finite t mb eb hb)).
  set (p := Bmult mode_NE (B754_finite s ma ea ha) (B754_finite t mb eb hb)) in *. destruct (Rlt_bool _ _).
  - apply C. exact N.
  - apply overflow_inf in C. rewrite C. reflexivity.
Qed.
Lemma sq_opposite (u w : f64) : opposite u w -> Bmult mode_NE u u = Bmult mode_NE w w.
Proof.
  intros [-> |(s & t & -> & ->)]; [|destruct s, t; reflexivity].
  destruct u as [s|s| |s m e h]; try (destruct s; reflexivity); [reflexivity|].
  set (u := B754_finite s m e h : f64). assert (F : fin u) by reflexivity.
  destruct (V_mult u u F F) as [N1 E1]. destruct (V_mult (Bopp u) (Bopp u) (fin_opp _ F) (fin_opp _ F)) as [N2 E2]. rewrite RV_opp in E2.
  apply same; [exact N1|exact N2|rewrite E1, E2; f_equal; ring|]. rewrite !sign_mult by assumption. now rewrite !xorb_nilpotent.
Qed.
Lemma nsq_opposite (u w : f64) : opposite u w -> Bmult mode_NE (Bopp u) u = Bmult mode_NE (Bopp w) w.
Proof.
  intros [-> |(s & t & -> & ->)]; [|destruct s, t; reflexivity].
  destruct u as [s|s| |s m e h]; try (destruct s; reflexivity); [reflexivity|].
  set (u := B754_finite s m e h : f64). assert (F : fin u) by reflexivity.
  destruct (V_mult (Bopp u) u (fin_opp _ F) F) as [N1 E1]. destruct (V_mult (Bopp (Bopp u)) (Bopp u) (fin_opp _ (fin_opp _ F)) (fin_opp _ F)) as [N2 E2]. rewrite !RV_opp in E2. rewrite RV_opp in E1.
  apply same; [exact N1|exact N2|rewrite E1, E2; f_equal; ring|]. rewrite !sign_mult by assumption. rewrite !Bsign_Bopp by reflexivity. now destruct (Bsign u).
Qed.
Lemma div_opposite (u w s : f64) : opposite u w -> lt64 zero64 s -> opposite (Bdiv mode_NE u s) (Bdiv mode_NE w s).
Proof.
  intros O P. destruct (lt_num _ _ P) as [_ N]. destruct (inf_cases s N) as [F|[-> | ->]].
  - assert (PS : 0 < RV s). { apply lt_V in P; [|reflexivity|exact N]. rewrite V_zero, V_fin in P by exact F. exact P. }
    destruct O as [-> |(a & b & -> & ->)].
    + destruct u as [a|a| |a m e h]; [right|..].
      * apply pos_sign in PS; [|exact F]. destruct PS as (m & e & h & ->). destruct a; cbn; eauto.
      * left. apply pos_sign in PS; [|exact F]. destruct PS as (m & e & h & ->). destruct a; reflexivity.
      * left. reflexivity.
      * set (u := B754_finite a m e h : f64). assert (Fu : fin u) by reflexivity.
        destruct (V_div u s Fu F ltac:(lra)) as [N1 E1]. destruct (V_div (Bopp u) s (fin_opp _ Fu) F ltac:(lra)) as [N2 E2].
        apply opp_V; [exact N1|exact N2|]. rewrite E1, E2, RV_opp, <- sat_opp. f_equal. field. lra.
    + right. apply pos_sign in PS; [|exact F]. destruct PS as (m & e & h & ->). destruct a, b; cbn; eauto.
  - discriminate P.
  - destruct O as [-> |(a & b & -> & ->)]; [|right; destruct a, b; cbn; eauto].
    destruct u as [a|a| |a m e h]; try (destruct a); cbn; first [left; reflexivity|right; eauto].
Qed.
Lemma mult_opposite (u w s : f64) : opposite u w -> fin s -> 0 < RV s -> opposite (Bmult mode_NE u s) (Bmult mode_NE w s).
Proof.
  intros O F PS. destruct O as [-> |(a & b & -> & ->)].
  - destruct u as [a|a| |a m e h]; [right|..].
    + apply pos_sign in PS; [|exact F]. destruct PS as (m & e & h & ->). destruct a; cbn; eauto.
    + left. apply pos_sign in PS; [|exact F]. destruct PS as (m & e & h & ->). destruct a; reflexivity.
    + left. reflexivity.
    + set (u := B754_finite a m e h : f64). assert (Fu : fin u) by reflexivity.
      destruct (V_mult u s Fu F) as [N1 E1]. destruct (V_mult (Bopp u) s (fin_opp _ Fu) F) as [N2 E2].
      apply opp_V; [exact N1|exact N2|]. rewrite E1, E2, RV_opp, <- sat_opp. f_equal. ring.
  - right. apply pos_sign in PS; [|exact F]. destruct PS as (m & e & h & ->). destruct a, b; cbn; eauto.
Qed.

(** reflecting in zero: x and -x for every x, infinite ones included *)
Lemma zero_opposite (x : f64) : opposite (Bminus mode_NE x zero64) (Bminus mode_NE (Bopp x) zero64).
Proof.
  destruct x as [s|s| |s m e h]; try (left; destruct s; reflexivity). left. reflexivity.
Qed.
(** the reflections of the domain: in the location when it is finite, in zero always *)
Definition reflected (c x y : f64) : Prop := mirrored c x y \/ c = zero64 /\ y = Bopp x.
Lemma reflected_opposite (c x y : f64) : reflected c x y -> opposite (Bminus mode_NE x c) (Bminus mode_NE y c).
Proof. intros [H|[-> ->]]; [now apply diff_opposite|apply zero_opposite]. Qed.

Lemma sqrt_gt (v : f64) : lt64 zero64 v -> lt64 zero64 (Bsqrt mode_NE v).
Proof.
  intros P. destruct (lt_num _ _ P) as [_ N]. destruct (inf_cases v N) as [F|[-> | ->]]; [|discriminate P|reflexivity].
  destruct (sqrt_pos64 v F (fin_pos v F P)) as [FS PS]. apply lt_V; [reflexivity|now apply fin_num|]. rewrite V_zero, V_fin by exact FS. exact PS.
Qed.
(** Normal: the same density, to the last bit, at two points the same distance from the mean *)
Theorem C159_normal (m : Libm) (mu v x y : f64) (d : UvNormal.t f64) :
  UvNormal.new mu v = Ok d -> reflected mu x y -> UvNormal.pdf d x = UvNormal.pdf d y.
Proof.
  intros H R. apply (normal_inv m) in H as [-> P]. apply reflected_opposite in R. apply (fun O => div_opposite _ _ _ O (sqrt_gt v P)) in R. apply nsq_opposite in R.
  unfold UvNormal.pdf, UvNormal.z. cbn [UvNormal.pr UvNormal.new_unchecked UvNormal.mu UvNormal.Sigma fexp fneg fmul fdiv fsub fsqrt F64Scalar].
  rewrite R. reflexivity.
Qed.
Print Assumptions C159_normal.
Theorem C159_cauchy (m : Libm) (x0 g x y : f64) (d : Cauchy.t f64) :
  Cauchy.new x0 g = Ok d -> reflected x0 x y -> Cauchy.pdf d x = Cauchy.pdf d y.
Proof.
  intros H R. unfold Cauchy.new in H. inv64 H. apply reflected_opposite in R. eapply div_opposite in R; [|eassumption]. apply sq_opposite in R.
  unfold Cauchy.pdf, Cauchy.z. cbn [Cauchy.pr Cauchy.x0 Cauchy.gamma fmul fdiv fsub F64Scalar]. rewrite R. reflexivity.
Qed.
Print Assumptions C159_cauchy.
(** for a cosine function that is even *)
Theorem C159_cosine (m : Libm) (mu s x y : f64) (d : Cosine.t f64) :
  (forall z, m_cos (Bopp z) = m_cos z) -> Cosine.new mu s = Ok d -> reflected mu x y -> Cosine.pdf d x = Cosine.pdf d y.
Proof.
  intros C H R. unfold Cosine.new in H. inv64 H. apply reflected_opposite in R. eapply div_opposite in R; [|eassumption].
  eapply (mult_opposite _ _ (b64 7074237752028440 (-51))) in R; [|reflexivity|].
  2:{ apply fin_pos; [reflexivity|vm_compute; reflexivity]. }
  assert (E : forall u w, opposite u w -> m_cos u = m_cos w). { intros u w [-> |(a & b & -> & ->)]; [now rewrite C|]. destruct a, b; try reflexivity; [symmetry; apply (C (B754_zero true))|apply (C (B754_zero true))]. }
  apply E in R. unfold Cosine.pdf, Cosine.hvc, Cosine.z. cbn [Cosine.pr Cosine.mu Cosine.s fcos fpi fmul fdiv fsub F64Scalar]. rewrite R. reflexivity.
Qed.
Print Assumptions C159_cosine.
(** Student's t: x and -x, whatever the special functions *)
Theorem C159_student_t (m : Libm) (SP : Special f64) (nu x : f64) (d : StudentT.t f64) :
  StudentT.new nu = Ok d -> StudentT.pdf d x = StudentT.pdf d (Bopp x).
Proof.
  intros H. unfold StudentT.new in H. inv_new H. unfold StudentT.pdf. cbn [StudentT.pr StudentT.nu fmul F64Scalar].
  assert (R : Bmult mode_NE x x = Bmult mode_NE (Bopp x) (Bopp x)) by (apply sq_opposite; now left). rewrite R. reflexivity.
Qed.
Print Assumptions C159_student_t.
(** Folded normal: the formula is even in x for every mu *)
Lemma plus_comm64 (a b : f64) : Bplus mode_NE a b = Bplus mode_NE b a.
Proof.
  assert (K : forall u v : f64, fin u -> fin v -> Bplus mode_NE u v = Bplus mode_NE v u).
  { intros u v Fu Fv. assert (C := Bplus_correct 53 1024 _ _ mode_NE u v Fu Fv). assert (D := Bplus_correct 53 1024 _ _ mode_NE v u Fv Fu). rewrite (Rplus_comm (B2R v)) in D.
    destruct (Rlt_bool _ _).
    - destruct C as (C1 & C2 & C3). destruct D as (D1 & D2 & D3). apply B2R_Bsign_inj; [exact C2|exact D2|congruence|]. rewrite C3, D3. destruct (Rcompare _ _); try reflexivity. apply andb_comm.
    - destruct C as [C1 C2]. destruct D as [D1 _]. apply overflow_inf in C1, D1. rewrite C1, D1, C2. reflexivity. }
  destruct a as [s|s| |s ma ea ha]; destruct b as [t|t| |t mb eb hb]; try (apply K; reflexivity); try reflexivity; destruct s, t; reflexivity.
Qed.
Lemma mult_comm64 (a b : f64) : Bmult mode_NE a b = Bmult mode_NE b a.
Proof.
  destruct a as [s|s| |s ma ea ha]; destruct b as [t|t| |t mb eb hb]; try reflexivity; try (destruct s, t; reflexivity).
  set (u := B754_finite s ma ea ha : f64). set (w := B754_finite t mb eb hb : f64). assert (Fu : fin u) by reflexivity. assert (Fw : fin w) by reflexivity.
  destruct (V_mult u w Fu Fw) as [N1 E1]. destruct (V_mult w u Fw Fu) as [N2 E2].
  apply same; [exact N1|exact N2|rewrite E1, E2; f_equal; ring|]. rewrite !sign_mult by assumption. apply xorb_comm.
Qed.
Lemma opposite_sym u w : opposite u w -> opposite w u.
Proof. intros [-> |(s & t & -> & ->)]; [left; now rewrite Bopp_involutive|right; eauto]. Qed.
Lemma sum_opposite (x c : f64) : opposite (Bplus mode_NE x c) (Bminus mode_NE (Bopp x) c).
Proof.
  destruct x as [s|s| |s ma ea ha]; destruct c as [t|t| |t mb eb hb]; try (left; reflexivity); try (left; destruct s; reflexivity); try (right; destruct s, t; cbn; eauto; fail); try (left; destruct s, t; reflexivity).
  set (u := B754_finite s ma ea ha : f64). set (w := B754_finite t mb eb hb : f64). assert (Fu : fin u) by reflexivity. assert (Fw : fin w) by reflexivity.
  destruct (V_plus u w Fu Fw) as [N1 E1]. destruct (V_minus (Bopp u) w (fin_opp _ Fu) Fw) as [N2 E2].
  apply opp_V; [exact N1|exact N2|]. rewrite E1, E2, RV_opp, <- sat_opp. f_equal. ring.
Qed.
Theorem C159_folded_normal (m : Libm) (mu s x : f64) (d : FoldedNormal.t f64) :
  FoldedNormal.new mu s = Ok d -> FoldedNormal.pdf d x = FoldedNormal.pdf d (Bopp x).
Proof.
  intros H. unfold FoldedNormal.new in H. inv64 H.
  unfold FoldedNormal.pdf. cbn [FoldedNormal.pr FoldedNormal.mu FoldedNormal.sigma fexp fneg fmul fdiv fsub fadd fsqrt F64Scalar].
  assert (A : opposite (Bplus mode_NE x mu) (Bminus mode_NE (Bopp x) mu)) by apply sum_opposite.
  assert (B := sum_opposite (Bopp x) mu). rewrite Bopp_involutive in B.
  eapply div_opposite in A; [|eassumption]. eapply div_opposite in B; [|eassumption]. apply nsq_opposite in A, B. rewrite A, B. apply plus_comm64.
Qed.
Print Assumptions C159_folded_normal.

(** a positive difference is not a zero, so it has one representation *)
Lemma diff_sign (x a : f64) : fin x -> fin a -> RV a < RV x -> num (Bminus mode_NE x a) /\ Bsign (Bminus mode_NE x a) = false /\ V (Bminus mode_NE x a) = sat (RV x - RV a).
Proof.
  intros Fx Fa L. destruct (V_minus x a Fx Fa) as [N E]. split; [exact N|]. split; [|exact E].
  assert (C := Bminus_correct 53 1024 _ _ mode_NE x a Fx Fa). destruct (Rlt_bool _ _).
  - destruct C as (_ & _ & ->). rewrite Rcompare_Gt; [reflexivity|]. unfold RV in L. lra.
  - destruct C as [C1 C2]. apply overflow_inf in C1. rewrite C1. cbn [Bsign]. destruct (Bsign x) eqn:S; [|reflexivity]. apply sign_true in S.
    symmetry in C2. apply (f_equal negb) in C2. rewrite negb_involutive in C2. cbn in C2. apply sign_false in C2. lra.
Qed.
Lemma diff_same (x a b y : f64) : fin x -> fin a -> fin b -> fin y -> RV a < RV x -> RV x - RV a = RV b - RV y -> Bminus mode_NE x a = Bminus mode_NE b y.
Proof.
  intros Fx Fa Fb Fy L E. destruct (diff_sign x a Fx Fa L) as (N1 & S1 & E1). destruct (diff_sign b y Fb Fy ltac:(lra)) as (N2 & S2 & E2).
  apply same; congruence.
Qed.
(** Uniform, arcsine, symmetric triangular: two points whose real sum is that of the stored end points *)
Theorem C159_uniform (m : Libm) (l w x y : f64) (d : UniformF.t f64) :
  UniformF.new l w = Ok d -> fin l -> fin (UniformF.ub d) -> fin x -> fin y -> RV x + RV y = RV l + RV (UniformF.ub d) -> UniformF.pdf d x = UniformF.pdf d y.
Proof.
  intros H Fl Fu Fx Fy E. assert (L : UniformF.lb (UniformF.pr d) = l).
  { revert H. unfold UniformF.new, UniformF.params_new, loc_new, scale_new. destruct (check _ w); cbn [and_then map_ok]; [|discriminate]. intros H. injection H as <-. reflexivity. }
  unfold UniformF.pdf. rewrite L. set (u := UniformF.ub d) in *.
  assert (K : forall p q, fin p -> fin q -> (fltb p q = true <-> RV p < RV q)).
  { intros p q Fp Fq. change (lt64 p q <-> RV p < RV q). rewrite lt_V by now apply fin_num. now rewrite !V_fin. }
  assert (B : forall p q r t, fin p -> fin q -> fin r -> fin t -> (RV p < RV q <-> RV r < RV t) -> fltb p q = fltb r t :> bool).
  { intros p q r t Fp Fq Fr Ft I. apply eq_true_iff_eq. rewrite !K by assumption. exact I. }
  rewrite (B x l u y) by (auto; lra). rewrite (B u x y l) by (auto; lra). rewrite orb_comm. reflexivity.
Qed.
Print Assumptions C159_uniform.
Theorem C159_arcsine (m : Libm) (l w x y : f64) (d : Arcsine.t f64) :
  Arcsine.new l w = Ok d -> let u := Arcsine.b (Arcsine.pr d) in fin l -> fin u -> fin x -> fin y ->
  RV x + RV y = RV l + RV u -> RV l < RV x < RV u -> Arcsine.pdf d x = Arcsine.pdf d y.
Proof.
  intros H. unfold Arcsine.new in H. inv64 H. cbv zeta. unfold Arcsine.pdf. cbn [Arcsine.pr Arcsine.a fmul fsub F64Scalar].
  set (u := Arcsine.b _). intros Fl Fu Fx Fy E L.
  rewrite (diff_same x l u y) by (auto; lra). rewrite <- (diff_same y l u x) by (auto; lra). now rewrite mult_comm64.
Qed.
Print Assumptions C159_arcsine.
Theorem C159_triangular (m : Libm) (l w w' x y : f64) (d : Triangular.t f64) :
  Triangular.new l w w' = Ok d -> let c := Triangular.c (Triangular.pr d) in let u := Triangular.b (Triangular.pr d) in
  fin l -> fin c -> fin u -> fin x -> fin y -> RV l + RV u = 2 * RV c -> RV x + RV y = RV l + RV u -> RV l < RV x < RV u ->
  Triangular.pdf d x = Triangular.pdf d y.
Proof.
  intros H. unfold Triangular.new in H. inv64 H. cbv zeta. unfold Triangular.pdf. cbn [Triangular.pr Triangular.a].
  set (u := Triangular.b _). set (c := Triangular.c _). intros Fl Fc Fu Fx Fy EC E L.
  assert (K : forall p q, fin p -> fin q -> (fltb p q = true <-> RV p < RV q)).
  { intros p q Fp Fq. change (lt64 p q <-> RV p < RV q). rewrite lt_V by now apply fin_num. now rewrite !V_fin. }
  assert (K2 : forall p q, fin p -> fin q -> (fleb p q = true <-> RV p <= RV q)).
  { intros p q Fp Fq. change (le64 p q <-> RV p <= RV q). rewrite le_V by now apply fin_num. now rewrite !V_fin. }
  assert (NL : forall p, fin p -> RV l < RV p -> fleb p l = false). { intros p Fp Lp. apply not_true_is_false. rewrite K2 by assumption. lra. }
  rewrite !NL by (auto; lra).
  assert (AB : fabs (fsub x c) = fabs (fsub y c)).
  { cbn [fabs fsub F64Scalar]. destruct (diff_opposite c x y) as [-> |(p & q & -> & ->)]; [split; [exact Fc|split; [exact Fx|split; [exact Fy|lra]]]| |reflexivity]. symmetry. apply Babs_Bopp. }
  rewrite AB. destruct (fltb (fabs (fsub y c)) _) eqn:T; [reflexivity|].
  assert (NE : RV y <> RV c).
  { intros C. assert (D : exists s, Bminus mode_NE y c = B754_zero s).
    { destruct (V_minus y c Fy Fc) as [N D]. rewrite C, Rminus_diag_eq, sat_0 in D by reflexivity. assert (M := M64_pos). assert (F : fin (Bminus mode_NE y c)) by (apply V_fin_iff; [exact N|lra]). rewrite V_fin in D by exact F.
      destruct (Bminus mode_NE y c) as [s| | |s mv ev hv]; try discriminate F; [now exists s|]. exfalso. unfold RV, B2R in D. apply eq_0_F2R in D. cbn in D. destruct s; discriminate D. }
    destruct D as [s D]. revert T. cbn [fabs fsub F64Scalar]. rewrite D. destruct s; vm_compute; discriminate. }
  assert (LT : forall p q, fin p -> fin q -> RV p < RV q -> fltb p q = true) by (intros p q Fp Fq; now apply K).
  assert (GE : forall p q, fin p -> fin q -> RV q <= RV p -> fltb p q = false). { intros p q Fp Fq Q. apply not_true_is_false. rewrite K by assumption. lra. }
  assert (LE : forall p q, fin p -> fin q -> RV p <= RV q -> fleb p q = true) by (intros p q Fp Fq; now apply K2).
  destruct (Rlt_dec (RV x) (RV c)) as [C|C].
  - rewrite (LT x c), (GE y c), (LE y u) by (auto; lra). cbn [fmul fdiv fsub F64Scalar]. rewrite (diff_same x l u y), (diff_same c l u c) by (auto; lra). reflexivity.
  - rewrite (GE x c), (LT y c), (LE x u) by (auto; lra). cbn [fmul fdiv fsub F64Scalar]. rewrite (diff_same y l u x), (diff_same c l u c) by (auto; lra). reflexivity.
Qed.
Print Assumptions C159_triangular.
(** Beta: exchanging the shapes and reflecting the point, for a beta function that is symmetric in its arguments *)
Theorem C159_beta (m : Libm) (SP : Special f64) (a b x y : f64) (d d' : Beta.t f64) :
  (forall p q : f64, sf_beta p q = sf_beta q p) -> Beta.new a b = Ok d -> Beta.new b a = Ok d' ->
  fin x -> fin y -> 0 < RV x < 1 -> RV x + RV y = 1 -> Beta.pdf d x = Beta.pdf d' y.
Proof.
  intros SB H H' Fx Fy L E. unfold Beta.new in H, H'. inv_new H. inv_new H'.
  assert (K : forall p q, fin p -> fin q -> 0 < RV q < 1 -> RV p + RV q = 1 -> Bminus mode_NE (b64 1 0) p = q).
  { clear. intros p q Fp Fq L E. destruct (diff_sign (b64 1 0) p fin_b64_1 Fp ltac:(rewrite RV_b64_1; lra)) as (N & S & D). rewrite RV_b64_1 in D.
    apply same; [exact N|now apply fin_num| |].
    - rewrite D, V_fin by exact Fq. replace (1 - RV p) with (RV q) by lra. apply sat_fmt; [apply fmt_RV|]. assert (M := M64_pos). lra.
    - rewrite S. symmetry. destruct (pos_sign q Fq ltac:(lra)) as (? & ? & ? & ->). reflexivity. }
  unfold Beta.pdf. cbn [Beta.pr Beta.alpha Beta.beta fmul fdiv fsub f_of_Z F64Scalar]. rewrite (K x y Fx Fy) by lra. rewrite (K y x Fy Fx) by lra.
  rewrite (SB b a). now rewrite mult_comm64.
Qed.
Print Assumptions C159_beta.

(** refuted: the logistic density is a number at one point and NaN at its reflection *)
Theorem C159_logistic_refuted (m : Libm) : libm_extreme m -> exists d : Logistic.t f64, Logistic.new zero64 one64 = Ok d /\
  Logistic.pdf d (b64 2048 0) = zero64 /\ is_nan (Logistic.pdf d (b64 (-2048) 0)) = true.
Proof.
  intros HX. exists (Logistic.new_unchecked zero64 one64). split; [|split].
  - assert (PS : fltb (f_of_Z 0 : f64) one64 = true) by (vm_compute; reflexivity). unfold Logistic.new.
    etransitivity; [apply map_params_ok; cbn [args s1 s2 s3 fst snd]; repeat (apply Forall_cons || apply Forall_nil); unfold arg_ok; cbn [arg_ty arg_val field_ok]; first [exact I|exact PS]|reflexivity].
  - set (e := m_exp (Bopp (zz zero64 one64 (b64 2048 0)))).
    change (Bdiv mode_NE (Bdiv mode_NE (Bdiv mode_NE e one64) (Bplus mode_NE (b64 1 0) e)) (Bplus mode_NE (b64 1 0) e) = zero64).
    assert (E : e = B754_zero false) by (apply (exp_under _ HX); vm_compute; reflexivity). rewrite E. reflexivity.
  - set (e := m_exp (Bopp (zz zero64 one64 (b64 (-2048) 0)))).
    change (is_nan (Bdiv mode_NE (Bdiv mode_NE (Bdiv mode_NE e one64) (Bplus mode_NE (b64 1 0) e)) (Bplus mode_NE (b64 1 0) e)) = true).
    assert (E : e = B754_infinity false) by (apply (exp_over _ HX); vm_compute; reflexivity). rewrite E. reflexivity.
Qed.
Print Assumptions C159_logistic_refuted.
(** refuted at the end points: at the two zeros the arcsine density of [0, w] is +infinity and -infinity *)
Theorem C159_arcsine_refuted (m : Libm) (w : f64) (d : Arcsine.t f64) :
  Arcsine.new zero64 w = Ok d -> finite64 w -> Arcsine.pdf d (B754_zero false) = B754_infinity false /\ Arcsine.pdf d (B754_zero true) = B754_infinity true.
Proof.
  intros H F. unfold Arcsine.new in H. inv64 H. assert (P := fin_pos w F ltac:(eassumption)). destruct (pos_sign w F P) as (mm & e & h & ->).
  unfold Arcsine.pdf, Arcsine.b. cbn [Arcsine.pr Arcsine.a Arcsine.w fmul fsub fadd fdiv fsqrt F64Scalar].
  split.
  - change (Bdiv mode_NE ONE_OVER_PI (B754_zero false) = B754_infinity false). apply B2SF_inj. vm_compute. reflexivity.
  - change (Bdiv mode_NE ONE_OVER_PI (B754_zero true) = B754_infinity true). apply B2SF_inj. vm_compute. reflexivity.
Qed.
Print Assumptions C159_arcsine_refuted.
(** refuted: a symmetric triangular narrower than the tolerance is 0 at the left end and 2/(b - a) at the right one *)
Theorem C159_triangular_refuted (m : Libm) : exists d : Triangular.t f64, Triangular.new zero64 (b64 1 (-30)) (b64 1 (-30)) = Ok d /\
  Triangular.b (Triangular.pr d) = b64 1 (-29) /\ Triangular.pdf d zero64 = zero64 /\ Triangular.pdf d (b64 1 (-29)) = b64 1 30.
Proof.
  exists (Triangular.new_unchecked zero64 (b64 1 (-30)) (b64 1 (-30))). split; [|split; [apply B2SF_inj; vm_compute; reflexivity|split; apply B2SF_inj; vm_compute; reflexivity]].
  assert (PS : fltb (f_of_Z 0 : f64) (b64 1 (-30)) = true) by (vm_compute; reflexivity). unfold Triangular.new.
  etransitivity; [apply map_params_ok; cbn [args s1 s2 s3 fst snd]; repeat (apply Forall_cons || apply Forall_nil); unfold arg_ok; cbn [arg_ty arg_val field_ok]; first [exact I|exact PS]|reflexivity].
Qed.
Print Assumptions C159_triangular_refuted.

(** non-vacuity: points reflected in 1, an even cosine, a symmetric beta function, and the constructors *)
Example C159_reflected : reflected one64 (b64 3 0) (b64 (-1) 0) /\ reflected zero64 (B754_infinity true) (B754_infinity false).
Proof.
  split; [|right; split; reflexivity]; left; (split; [reflexivity|split; [reflexivity|split; [reflexivity|]]]).
  assert (E3 : RV (b64 3 0) = 3) by (apply b64_z; lia). assert (E4 : RV (b64 (-1) 0) = -1) by (apply b64_z; lia). unfold one64. rewrite RV_b64_1, E3, E4. lra.
Qed.
Definition sp_sym : Special f64 := {|
  sf_gamma _ := one64; sf_loggamma x := x; sf_beta x y := Bdiv mode_NE one64 (Bmult mode_NE x y); sf_logbeta x _ := x; sf_betainc x _ _ := x; sf_gammainc _ y := y; sf_digamma x := x;
  sf_erf x := x; sf_erfc x := x; sf_norm x := x; sf_norm_inv x := x; sf_riemann_zeta x := x; sf_hyp2f1 x _ _ _ := x |}.
Example C159_oracles : (forall z, @m_cos cr_libm (Bopp z) = @m_cos cr_libm z) /\ exists SP : Special f64, forall p q : f64, sf_beta p q = sf_beta q p.
Proof.
  split; [|exists sp_sym; intros p q; cbn [sf_beta sp_sym]; now rewrite mult_comm64]. intros z. cbn [m_cos cr_libm]. rewrite RV_opp, cos_neg. reflexivity.
Qed.
Example C159_nonvacuous (m : Libm) : let l := zero64 in let w := b64 2 0 in
  (exists d, UvNormal.new l w = Ok d) /\ (exists d, Cauchy.new l w = Ok d) /\ (exists d, Cosine.new l w = Ok d) /\ (exists d, StudentT.new w = Ok d) /\ (exists d, FoldedNormal.new l w = Ok d) /\
  (exists d, UniformF.new l w = Ok d /\ fin (UniformF.ub d)) /\ (exists d, Arcsine.new l w = Ok d /\ fin (Arcsine.b (Arcsine.pr d))) /\
  (exists d, Triangular.new l one64 one64 = Ok d /\ fin (Triangular.c (Triangular.pr d)) /\ fin (Triangular.b (Triangular.pr d))) /\ (exists d, Beta.new w one64 = Ok d).
Proof.
  assert (PS : fltb (f_of_Z 0 : f64) (b64 2 0) = true) by (vm_compute; reflexivity). assert (P1 : fltb (f_of_Z 0 : f64) one64 = true) by (vm_compute; reflexivity).
  cbv zeta. split. { eexists. unfold UvNormal.new, UvNormal.params_new, loc_new, isotropic_new. rewrite (check_ok Positive); [reflexivity|exact PS]. }
  do 4 (split; [eexists; first [unfold Cauchy.new|unfold Cosine.new|unfold StudentT.new|unfold FoldedNormal.new]; apply map_params_ok; cbn [args s1 s2 s3 fst snd]; repeat (apply Forall_cons || apply Forall_nil); unfold arg_ok; cbn [arg_ty arg_val field_ok]; first [exact I|exact PS]|]).
  split. { exists (UniformF.new_unchecked zero64 (b64 2 0)). split; [|vm_compute; reflexivity]. unfold UniformF.new, UniformF.params_new, loc_new, scale_new. rewrite (check_ok (AllS Positive) (b64 2 0)); [reflexivity|exact PS]. }
  split. { exists (Arcsine.new_unchecked zero64 (b64 2 0)). split; [|vm_compute; reflexivity]. unfold Arcsine.new. etransitivity; [apply map_params_ok; cbn [args s1 s2 s3 fst snd]; repeat (apply Forall_cons || apply Forall_nil); unfold arg_ok; cbn [arg_ty arg_val field_ok]; first [exact I|exact PS]|reflexivity]. }
  split. { exists (Triangular.new_unchecked zero64 one64 one64). split; [|split; vm_compute; reflexivity]. unfold Triangular.new. etransitivity; [apply map_params_ok; cbn [args s1 s2 s3 fst snd]; repeat (apply Forall_cons || apply Forall_nil); unfold arg_ok; cbn [arg_ty arg_val field_ok]; first [exact I|exact P1]|reflexivity]. }
  eexists. unfold Beta.new. apply map_params_ok. cbn [args s1 s2 s3 fst snd]. repeat (apply Forall_cons || apply Forall_nil); unfold arg_ok; cbn [arg_ty arg_val field_ok]; first [exact PS|exact P1].
Qed.
