(** * Property C155: what [sample] returns in double arithmetic
    Samples computed by the crate from uniform or normal draws: where they can
    lie.  [u] is the draw; a draw on [0, 1] may be either end point, a draw on
    [-1/2, 1/2) may be -1/2. *)
From Coq Require Import Reals Lra Lia Psatz List ZArith Bool.
From Flocq Require Import Core IEEE754.BinarySingleNaN.
From Verif.Num Require Import Scalar F64.
From Verif.Model Require Import Rust Constraints Probability Params Consts Continuous Continuous2 Continuous3 Normal2.
From Verif.Spec Require Import ParamSpec ProbSpec LibmSpec.
From Verif.Proofs Require Import ConstraintProofs NewInv F64Order LibmInst F64Cdf F64Pdf DiscProofs7.
From Verif.Properties Require Import C133_F64Cdf C135_F64Pdf C133_C135_F64More C152_F64Variance.
Import ListNotations.
Open Scope R_scope.

Definition half64 : f64 := b64 1 (-1).
Definition unit_draw (u : f64) : Prop := le64 zero64 u /\ le64 u one64.
(** the logarithm on [0, 1]: at most 0, -infinity at 0 and at least -37 from 2^-53 on *)
Record ln_unit (m : Libm) : Prop := {
  ln_le0 : forall x, le64 zero64 x -> le64 x one64 -> le64 (m_ln x) zero64;
  ln_zero : m_ln zero64 = B754_infinity true;
  ln_lower : forall x, le64 (b64 1 (-53)) x -> le64 x one64 -> le64 (b64 (-37) 0) (m_ln x)
}.

Lemma pos_recip c : fin c -> 0 < RV c -> num (Bdiv mode_NE (b64 1 0) c) /\ 0 < V (Bdiv mode_NE (b64 1 0) c).
Proof.
  intros F P. destruct (V_div (b64 1 0) c fin_b64_1 F ltac:(lra)) as [A ->]. split; [exact A|]. rewrite RV_b64_1.
  assert (B := fin_lt c F). apply Rlt_le_trans with (bpow radix2 (-1024)); [apply bpow_gt_0|].
  assert (Q := M64_pos). assert (X : bpow radix2 (-1024) <= 1) by (change 1 with (bpow radix2 0); apply bpow_le; lia). assert (Y := bpow_gt_0 radix2 (-1024)).
  rewrite <- (sat_fmt (bpow radix2 (-1024))); [|apply fmt_bpow; lia|lra].
  apply sat_mono. replace (-1024)%Z with (- (1024))%Z by lia. rewrite bpow_opp. change (bpow radix2 1024) with M64.
  replace (1 / RV c) with (/ RV c) by (field; lra). left. apply Rinv_lt_contravar; [apply Rmult_lt_0_compat; lra|lra].
Qed.

(** Kumaraswamy: every sample lies in [0, 1], and grows with the draw *)
Theorem C155_kumaraswamy (m : Libm) (a b : f64) (p : Kumaraswamy.Params f64) (S : Type) (G : Rng S f64) :
  libm_range m -> Kumaraswamy.p_new a b = Ok p -> finite64 a -> finite64 b -> let d := Kumaraswamy.from p in
  (forall s u s', draw_uniform_inclusive (b64 0 0) (Bplus mode_NE (b64 0 0) (b64 1 0)) s = (u, s') -> unit_draw u ->
     exists x, Kumaraswamy.sample d s = (x, s') /\ le64 zero64 x /\ le64 x one64) /\
  (libm_monotone m -> forall u v, unit_draw u -> unit_draw v -> le64 u v ->
     le64 (Kumaraswamy.sample_of_draw d u) (Kumaraswamy.sample_of_draw d v)).
Proof.
  intros HR H Fa Fb d. subst d. unfold Kumaraswamy.p_new in H. inv64 H. assert (Pa := fin_pos a Fa HP). assert (Pb := fin_pos b Fb HP0).
  destruct (pos_recip a Fa Pa) as [Na Ra]. destruct (pos_recip b Fb Pb) as [Nb Rb].
  set (ra := Bdiv mode_NE (b64 1 0) a) in *. set (rb := Bdiv mode_NE (b64 1 0) b) in *.
  assert (D : forall x, unit_draw x -> num x /\ 0 <= V x <= 1). { intros x [L U]. destruct (le0_dom x L). split; auto. split; auto. rewrite <- V_one. now apply le_V1. }
  set (g := fun u => Bminus mode_NE (b64 1 0) u).
  assert (G1 : forall u, num u -> 0 <= V u <= 1 -> num (g u) /\ 0 <= V (g u) <= 1) by (intros; now apply one_minus).
  assert (G2 : forall r u, num r -> 0 < V r -> num u -> 0 <= V u <= 1 -> num (m_powf u r) /\ 0 <= V (m_powf u r) <= 1).
  { intros r u Nr Pr N B. split; [apply (pw_num HR); auto; lra|]. split; [apply (pw_ge0 HR); auto; lra|now apply (pw_le1 HR)]. }
  assert (E : forall u, Kumaraswamy.sample_of_draw (Kumaraswamy.mk (Kumaraswamy.mkP a b)) u = m_powf (g (m_powf (g u) rb)) ra) by reflexivity.
  split.
  - intros s u s' Hd Hu. exists (m_powf (g (m_powf (g u) rb)) ra). split.
    + unfold Kumaraswamy.sample. change (UniformF.sample UniformF.default s) with (draw_uniform_inclusive (b64 0 0) (Bplus mode_NE (b64 0 0) (b64 1 0)) s). rewrite Hd. reflexivity.
    + destruct (D u Hu) as [N B]. destruct (G1 u N B) as [N1 B1]. destruct (G2 rb _ Nb Rb N1 B1) as [N2 B2]. destruct (G1 _ N2 B2) as [N3 B3]. destruct (G2 ra _ Na Ra N3 B3) as [N4 B4].
      split; [apply nn_le; [auto|lra]|apply le_V2; [auto|apply num_one|rewrite V_one; lra]].
  - intros HM u v Hu Hv L. change (le64 (m_powf (g (m_powf (g u) rb)) ra) (m_powf (g (m_powf (g v) rb)) ra)).
    destruct (D u Hu) as [N B]. destruct (G1 u N B) as [N1 B1]. destruct (G2 rb _ Nb Rb N1 B1) as [N2 B2]. destruct (G1 _ N2 B2) as [N3 B3]. destruct (G2 ra _ Na Ra N3 B3) as [N4 B4].
    destruct (D v Hv) as [N' B']. destruct (G1 v N' B') as [N1' B1']. destruct (G2 rb _ Nb Rb N1' B1') as [N2' B2']. destruct (G1 _ N2' B2') as [N3' B3']. destruct (G2 ra _ Na Ra N3' B3') as [N4' B4'].
    assert (A1 : V (g v) <= V (g u)) by (apply one_minus_anti; auto; now apply le_V1).
    assert (A2 : V (m_powf (g v) rb) <= V (m_powf (g u) rb)) by (apply (pw_mono HM); auto; lra).
    assert (A3 : V (g (m_powf (g u) rb)) <= V (g (m_powf (g v) rb))) by (apply one_minus_anti; auto).
    apply le_V2; auto. apply (pw_mono HM); auto; lra.
Qed.
Print Assumptions C155_kumaraswamy.

(** Frechet: every sample is at least 0; the draw 0 gives +infinity *)
Theorem C155_frechet (m : Libm) (a : f64) (d : Frechet.t f64) (u : f64) :
  libm_range m -> ln_unit m -> Frechet.new a = Ok d -> finite64 a -> unit_draw u ->
  le64 zero64 (Frechet.sample_of_draw d u).
Proof.
  intros HR HL H Fa [Lu Uu]. unfold Frechet.new in H. inv64 H. assert (Pa := fin_pos a Fa HP). destruct (pos_recip a Fa Pa) as [Na _].
  change (le64 zero64 (m_powf (Bopp (m_ln u)) (Bdiv mode_NE (b64 1 0) a))).
  assert (L := ln_le0 m HL u Lu Uu). destruct (le_num _ _ L) as [N _]. apply le_V1 in L. rewrite V_zero in L.
  apply (pow_nonneg m HR); [|exact Na]. apply nn_le; [now apply num_opp|rewrite V_opp; lra].
Qed.
Print Assumptions C155_frechet.
Theorem C155_frechet_refuted (m : Libm) (a : f64) (d : Frechet.t f64) :
  ln_unit m -> (forall y, lt64 zero64 y -> m_powf (B754_infinity false) y = B754_infinity false) ->
  Frechet.new a = Ok d -> finite64 a -> unit_draw zero64 /\ Frechet.sample_of_draw d zero64 = B754_infinity false.
Proof.
  intros HL HI H Fa. unfold Frechet.new in H. inv64 H. assert (Pa := fin_pos a Fa HP). destruct (pos_recip a Fa Pa) as [Na Ra].
  split; [split; vm_compute; reflexivity|]. change (m_powf (Bopp (m_ln zero64)) (Bdiv mode_NE (b64 1 0) a) = B754_infinity false).
  rewrite (ln_zero m HL). apply HI. apply lt_V2; [apply num_zero|exact Na|now rewrite V_zero].
Qed.
Print Assumptions C155_frechet_refuted.

(** Laplace: the sample is a number on the draw's side of the location, finite
    except at the draw -1/2, where it is -infinity *)
Lemma RV_half : fin half64 /\ RV half64 = / 2.
Proof. destruct (b64_pow2 (-1) ltac:(lia)) as [F E]. split; [exact F|]. unfold half64. rewrite E. cbn. lra. Qed.
Lemma half_cases (u : f64) : le64 (Bopp half64) u -> le64 u half64 -> fin u /\ Rabs (RV u) <= / 2.
Proof.
  intros L U. destruct RV_half as [F E]. destruct (le_num _ _ L) as [_ N]. apply le_V1 in L, U. rewrite V_opp in L. rewrite (V_fin half64) in L, U by exact F. rewrite E in L, U.
  assert (M := M64_pos). assert (Fu : fin u) by (apply V_fin_iff; [exact N|lra]). rewrite V_fin in L, U by exact Fu. split; [exact Fu|]. apply Rabs_le. lra.
Qed.
(** the argument of the logarithm: 1 - 2|u| *)
Definition larg (u : f64) : f64 := Bminus mode_NE (b64 1 0) (Bmult mode_NE (b64 2 0) (Babs u)).
Lemma dbl_val (u : f64) : fin u -> Rabs (RV u) <= / 2 ->
  num (Bmult mode_NE (b64 2 0) (Babs u)) /\ V (Bmult mode_NE (b64 2 0) (Babs u)) = sat (2 * Rabs (RV u)) /\ 0 <= V (Bmult mode_NE (b64 2 0) (Babs u)) <= 1.
Proof.
  intros F B. destruct (b64_z 2 ltac:(lia)) as [F2 V2]. assert (FA : fin (Babs u)) by (unfold fin; rewrite is_finite_Babs; exact F).
  destruct (V_mult (b64 2 0) (Babs u) F2 FA) as [N E]. rewrite V2 in E. unfold RV at 1 in E. rewrite B2R_Babs in E. fold (RV u) in E.
  split; [exact N|]. split; [exact E|]. rewrite E. assert (A := Rabs_pos (RV u)). split; [apply sat_pos; lra|apply sat_le1; lra].
Qed.
Lemma larg_unit (u : f64) : fin u -> Rabs (RV u) <= / 2 -> num (larg u) /\ 0 <= V (larg u) <= 1.
Proof. intros F B. destruct (dbl_val u F B) as (N & _ & C). exact (one_minus _ N C). Qed.
Lemma larg_tiny (u : f64) : fin u -> Rabs (RV u) < / 2 -> bpow radix2 (-53) <= V (larg u).
Proof.
  intros F B. destruct (dbl_val u F ltac:(lra)) as (N & E & C). assert (M := M64_pos).
  assert (H : Rabs (RV u) <= / 2 - bpow radix2 (-54)).
  { assert (FM : fmt64 (Rabs (RV u))). { apply generic_format_abs. apply generic_format_B2R. }
    replace (/ 2) with (bpow radix2 (-1)) in * by (cbn; lra).
    assert (K := pred_bpow radix2 (SpecFloat.fexp 53 1024) (-1)). change (SpecFloat.fexp 53 1024 (-1)) with (-54)%Z in K. rewrite <- K.
    apply (pred_ge_gt radix2 (SpecFloat.fexp 53 1024)); [exact FM|apply fmt_bpow; lia|exact B]. }
  assert (F2 : fin (Bmult mode_NE (b64 2 0) (Babs u))) by (apply V_fin_iff; [exact N|lra]).
  destruct (V_minus (b64 1 0) _ fin_b64_1 F2) as [_ E']. unfold larg. rewrite E', RV_b64_1. rewrite <- V_fin by exact F2. rewrite E.
  set (t := bpow radix2 (-53)) in *. assert (HT : bpow radix2 (-54) * 2 = t) by (change 2 with (bpow radix2 1); rewrite <- bpow_plus; reflexivity). assert (PT : 0 < t < 1) by (split; [apply bpow_gt_0|unfold t; change 1 with (bpow radix2 0); apply bpow_lt; lia]).
  assert (S1 : sat (2 * Rabs (RV u)) <= 1 - t).
  { assert (FT : fmt64 (1 - t)). { replace (1 - t) with (F2R (Float radix2 (2 ^ 53 - 1) (-53))) by (unfold F2R; cbn [Fnum Fexp]; fold t; rewrite minus_IZR, Rmult_minus_distr_r; replace (IZR (2 ^ 53) * t) with 1; [lra|]; unfold t; change (IZR (2 ^ 53)) with (bpow radix2 53); rewrite <- bpow_plus; reflexivity). apply generic_format_canonical. unfold canonical. cbn [Fexp].
      unfold cexp. rewrite (mag_F2R_Zdigits radix2 (2 ^ 53 - 1) (-53)) by lia. vm_compute. reflexivity. }
    rewrite <- (sat_fmt (1 - t)) by (auto; lra). apply sat_mono. lra. }
  rewrite <- (sat_fmt t) by (try (apply fmt_bpow; lia); lra). apply sat_mono. lra.
Qed.
Lemma signed_b (b u : f64) : fin b -> fin u ->
  let c := Bmult mode_NE b (f64_signum u) in fin c /\ RV c = (if Bsign u then - RV b else RV b).
Proof.
  intros F Fu c. assert (M := fin_lt b F). assert (FB : fmt64 (RV b)) by apply generic_format_B2R.
  destruct (b64_z (if Bsign u then -1 else 1) ltac:(destruct (Bsign u); lia)) as [F1 E1].
  assert (EC : c = Bmult mode_NE b (b64 (if Bsign u then -1 else 1) 0)). { unfold c. destruct u; try discriminate; reflexivity. }
  destruct (V_mult b _ F F1) as [N E]. rewrite <- EC in N, E. rewrite E1 in E.
  assert (EV : V c = if Bsign u then - RV b else RV b).
  { rewrite E. destruct (Bsign u); [replace (RV b * IZR (-1)) with (- RV b) by ring|replace (RV b * IZR 1) with (RV b) by ring]; apply sat_fmt; auto; try lra. now apply generic_format_opp. }
  assert (FC : fin c). { apply V_fin_iff; [exact N|]. rewrite EV. destruct (Bsign u); lra. }
  split; [exact FC|]. now rewrite <- V_fin.
Qed.
Lemma pos_Bsign u : fin u -> lt64 zero64 u -> Bsign u = false.
Proof. intros F L. destruct (pos_sign u F) as (a & b & c & ->); [now apply fin_pos|reflexivity]. Qed.
Lemma neg_Bsign u : fin u -> lt64 u zero64 -> Bsign u = true.
Proof. intros F L. apply lt_V1 in L. rewrite V_zero, V_fin in L by exact F. destruct (neg_sign u F L) as (a & b & c & ->). reflexivity. Qed.
Lemma lap_prod (c l : f64) : fin c -> RV c <> 0 -> num l -> V l <= 0 ->
  num (Bmult mode_NE c l) /\ (0 < RV c -> V (Bmult mode_NE c l) <= 0) /\ (RV c < 0 -> 0 <= V (Bmult mode_NE c l)).
Proof.
  intros F Z N L. assert (M := M64_pos). destruct (Rlt_or_le 0 (RV c)) as [P|P].
  - destruct (c_mult l c N F P) as [A E]. split; [exact A|]. split; [|lra]. intros _. rewrite E. destruct (inf_cases l N) as [FL|[-> | ->]]; [|cbn [lift]; lra|cbn [V] in L; lra].
    rewrite lift_fin by exact FL. rewrite V_fin in L by exact FL. apply sat_neg. nra.
  - assert (P' : RV c < 0) by lra. destruct (cn_mult l c N F P') as [A E]. split; [exact A|]. split; [lra|]. intros _. rewrite E. destruct (inf_cases l N) as [FL|[-> | ->]]; [|cbn [liftn]; lra|cbn [V] in L; lra].
    rewrite liftn_fin by exact FL. rewrite V_fin in L by exact FL. apply sat_pos. nra.
Qed.
Lemma mu_minus (mu p : f64) : fin mu -> num p -> num (Bminus mode_NE mu p) /\ (V p <= 0 -> V mu <= V (Bminus mode_NE mu p)) /\ (0 <= V p -> V (Bminus mode_NE mu p) <= V mu).
Proof.
  intros F N. assert (M := M64_pos). assert (B := fin_lt mu F). assert (FB : fmt64 (RV mu)) by apply generic_format_B2R. destruct (c_minus p mu N F) as [A E]. split; [exact A|]. rewrite E, (V_fin mu) by exact F.
  destruct (inf_cases p N) as [FP|[-> | ->]]; [|cbn [liftn V]; lra|cbn [liftn V]; lra].
  rewrite liftn_fin, V_fin by exact FP. assert (SM : sat (RV mu) = RV mu) by (apply sat_fmt; auto; lra). split; intros HP.
  - apply Rle_trans with (sat (RV mu)); [lra|]. apply sat_mono. lra.
  - apply Rle_trans with (sat (RV mu)); [|lra]. apply sat_mono. lra.
Qed.
Theorem C155_laplace (m : Libm) (mu b : f64) (d : Laplace.t f64) (u : f64) :
  ln_unit m -> Laplace.new mu b = Ok d -> finite64 mu -> finite64 b -> le64 (Bopp half64) u -> le64 u half64 ->
  let x := Laplace.sample_of_draw d u in
  number x /\ (lt64 zero64 u -> le64 mu x) /\ (lt64 u zero64 -> le64 x mu).
Proof.
  intros HL H Fm Fb Lu Uu. unfold Laplace.new in H. inv64 H. assert (Pb := fin_pos b Fb HP0). 
  destruct (half_cases u Lu Uu) as [Fu Bu]. destruct (larg_unit u Fu Bu) as [Na Ba].
  assert (L : le64 (m_ln (larg u)) zero64). { apply (ln_le0 m HL); [apply nn_le; [auto|lra]|apply le_V2; [auto|apply num_one|rewrite V_one; lra]]. }
  destruct (le_num _ _ L) as [Nl _]. apply le_V1 in L. rewrite V_zero in L.
  intros x. change x with (Bminus mode_NE mu (Bmult mode_NE (Bmult mode_NE b (f64_signum u)) (m_ln (larg u)))). clear x.
  destruct (signed_b b u Fb Fu) as [FC EC]. set (c := Bmult mode_NE b (f64_signum u)) in *.
  assert (ZC : RV c <> 0) by (rewrite EC; destruct (Bsign u); lra).
  destruct (lap_prod c (m_ln (larg u)) FC ZC Nl L) as (Np & P1 & P2). destruct (mu_minus mu _ Fm Np) as (Nx & X1 & X2).
  split; [exact Nx|]. split.
  - intros P. apply le_V2; [now apply fin_num|exact Nx|]. apply X1, P1. rewrite EC, (pos_Bsign u Fu P). exact Pb.
  - intros P. apply le_V2; [exact Nx|now apply fin_num|]. apply X2, P2. rewrite EC, (neg_Bsign u Fu P). lra.
Qed.
Print Assumptions C155_laplace.
(** finite on the open interval, for parameters up to 2^1000 *)
Theorem C155_laplace_partial (m : Libm) (mu b : f64) (d : Laplace.t f64) (u : f64) :
  ln_unit m -> Laplace.new mu b = Ok d -> finite64 mu -> le64 (Babs mu) (b64 1 1000) -> le64 b (b64 1 1000) -> lt64 (Bopp half64) u -> lt64 u half64 ->
  finite64 (Laplace.sample_of_draw d u).
Proof.
  intros HL H Fm BM BB Lu Uu. unfold Laplace.new in H. inv64 H.
  assert (Lu' : le64 (Bopp half64) u). { destruct (lt_num _ _ Lu). apply le_V2; auto. left. now apply lt_V1. }
  assert (Uu' : le64 u half64). { destruct (lt_num _ _ Uu). apply le_V2; auto. left. now apply lt_V1. }
  destruct (half_cases u Lu' Uu') as [Fu Bu]. destruct (larg_unit u Fu Bu) as [Na Ba].
  assert (SU : Rabs (RV u) < / 2). { destruct RV_half as [FH EH]. apply lt_V1 in Lu, Uu. rewrite V_opp in Lu. rewrite !V_fin in Lu, Uu by auto. rewrite EH in Lu, Uu. apply Rabs_def1; lra. }
  assert (T := larg_tiny u Fu SU). destruct (b64_pow2 (-53) ltac:(lia)) as [FT ET].
  assert (UB : le64 (larg u) one64) by (apply le_V2; [auto|apply num_one|rewrite V_one; lra]).
  assert (L : le64 (m_ln (larg u)) zero64). { apply (ln_le0 m HL); [apply nn_le; [auto|lra]|exact UB]. }
  assert (L' : le64 (b64 (-37) 0) (m_ln (larg u))). { apply (ln_lower m HL); [|exact UB]. apply le_V2; [now apply fin_num|exact Na|]. rewrite V_fin, ET by exact FT. exact T. }
  destruct (le_num _ _ L) as [Nl _]. apply le_V1 in L, L'. rewrite V_zero in L. destruct (b64_z (-37) ltac:(lia)) as [F37 E37]. rewrite (V_fin (b64 (-37) 0)), E37 in L' by exact F37.
  assert (M := M64_pos).
  assert (B1006 : 64 < bpow radix2 1006 /\ bpow radix2 1006 + bpow radix2 1006 = bpow radix2 1007 /\ bpow radix2 1007 < M64 /\ bpow radix2 1000 * 64 = bpow radix2 1006 /\ 0 < bpow radix2 1000).
  { split; [change 64 with (bpow radix2 6); apply bpow_lt; lia|]. split; [change 1007%Z with (1 + 1006)%Z; rewrite bpow_plus; change (bpow radix2 1) with 2; ring|].
    split; [change M64 with (bpow radix2 1024); apply bpow_lt; lia|]. split; [change 1006%Z with (1000 + 6)%Z; rewrite bpow_plus; reflexivity|apply bpow_gt_0]. }
  destruct B1006 as (K1 & K2 & K3 & K4 & K5). destruct (b64_pow2 1000 ltac:(lia)) as [FK EK].
  assert (Fb : fin b). { apply V_fin_iff; [now destruct (le_num _ _ BB)|]. apply le_V1 in BB. rewrite (V_fin (b64 1 1000)), EK in BB by exact FK. apply lt_V1 in HP0. rewrite V_zero in HP0. split; lra. }
  assert (Pb := fin_pos b Fb HP0). apply le_V1 in BB. rewrite !V_fin, EK in BB by auto.
  assert (FA : fin (Babs mu)) by (unfold fin; rewrite is_finite_Babs; exact Fm). apply le_V1 in BM. rewrite !V_fin, EK in BM by auto. unfold RV in BM at 1. rewrite B2R_Babs in BM. fold (RV mu) in BM.
  set (l := m_ln (larg u)) in *. assert (Fl : fin l) by (apply V_fin_iff; [exact Nl|lra]). rewrite V_fin in L, L' by exact Fl.
  destruct (signed_b b u Fb Fu) as [FC EC]. change (Laplace.sample_of_draw _ u) with (Bminus mode_NE mu (Bmult mode_NE (Bmult mode_NE b (f64_signum u)) l)). set (c := Bmult mode_NE b (f64_signum u)) in *.
  destruct (V_mult c l FC Fl) as [Np Ep].
  assert (BP : - bpow radix2 1006 <= V (Bmult mode_NE c l) <= bpow radix2 1006).
  { rewrite Ep. assert (BC : - (bpow radix2 1000) <= RV c <= bpow radix2 1000) by (rewrite EC; destruct (Bsign u); lra).
    set (k := bpow radix2 1000) in *. assert (H1 : - (k * 64) <= RV c * RV l <= k * 64) by (split; nra).
    rewrite K4 in H1. rewrite <- (sat_fmt (- bpow radix2 1006)) by (try (apply generic_format_opp, fmt_bpow; lia); lra). rewrite <- (sat_fmt (bpow radix2 1006)) at 2 by (try (apply fmt_bpow; lia); lra). split; apply sat_mono; lra. }
  assert (FP : fin (Bmult mode_NE c l)) by (apply V_fin_iff; [exact Np|lra]). rewrite V_fin in BP by exact FP.
  destruct (V_minus mu _ Fm FP) as [Nx Ex]. apply V_fin_iff; [exact Nx|]. rewrite Ex.
  assert (BX : - bpow radix2 1007 <= RV mu - RV (Bmult mode_NE c l) <= bpow radix2 1007).
  { assert (Q := Rabs_le_inv _ _ BM). assert (bpow radix2 1000 <= bpow radix2 1006) by (rewrite <- K4; lra). lra. }
  destruct BX as [B1 B2]. apply sat_mono in B1, B2. rewrite sat_fmt in B1 by (try (apply generic_format_opp, fmt_bpow; lia); lra). rewrite (sat_fmt (bpow radix2 1007)) in B2 by (try (apply fmt_bpow; lia); lra). lra.
Qed.
Print Assumptions C155_laplace_partial.
(** the draw -1/2, which the half-open interval includes *)
Theorem C155_laplace_refuted (m : Libm) (mu b : f64) (d : Laplace.t f64) :
  ln_unit m -> Laplace.new mu b = Ok d -> finite64 mu -> finite64 b ->
  Laplace.sample_of_draw d (Bopp half64) = B754_infinity true.
Proof.
  intros HL H Fm Fb. unfold Laplace.new in H. inv64 H. assert (Pb := fin_pos b Fb HP0).
  change (Bminus mode_NE mu (Bmult mode_NE (Bmult mode_NE b (f64_signum (Bopp half64))) (m_ln (larg (Bopp half64)))) = B754_infinity true).
  replace (larg (Bopp half64)) with zero64 by (apply B2SF_inj; vm_compute; reflexivity). rewrite (ln_zero m HL).
  destruct (signed_b b (Bopp half64) Fb ltac:(vm_compute; reflexivity)) as [FC EC]. change (Bsign (Bopp half64)) with true in EC. cbv iota in EC.
  destruct (neg_sign _ FC ltac:(lra)) as (mm & ee & hh & ->). destruct mu as [sg|sg| |sg m1 e1 h1]; try discriminate; reflexivity.
Qed.
Print Assumptions C155_laplace_refuted.

(** Inverse normal: cancellation makes the smaller root negative, so a sample may
    be negative although the support is (0, infinity): mu = 10^9, lambda = 7,
    normal draw 3.75, uniform draw 1/2 give -128 *)
Theorem C155_inv_normal_refuted (m : Libm) : exists (mu l nu z : f64) (d : InvNormal.t f64),
  InvNormal.new mu l = Ok d /\ finite64 mu /\ finite64 l /\ finite64 nu /\ unit_draw z /\
  InvNormal.sample_of_draws d nu z = b64 (-128) 0.
Proof.
  exists (b64 1000000000 0), (b64 7 0), (b64 15 (-2)), half64, (InvNormal.new_unchecked (b64 1000000000 0) (b64 7 0)).
  assert (P1 : fltb (f_of_Z 0 : f64) (b64 1000000000 0) = true) by (vm_compute; reflexivity).
  assert (P2 : fltb (f_of_Z 0 : f64) (b64 7 0) = true) by (vm_compute; reflexivity).
  split. { etransitivity; [unfold InvNormal.new; apply map_params_ok; cbn [args s1 s2 s3 fst snd]; repeat (apply Forall_cons || apply Forall_nil); unfold arg_ok; cbn [arg_ty arg_val field_ok]; assumption|reflexivity]. }
  do 3 (split; [vm_compute; reflexivity|]). split; [split; vm_compute; reflexivity|]. apply B2SF_inj. vm_compute. reflexivity.
Qed.
Print Assumptions C155_inv_normal_refuted.

(** the two-dimensional normals: finite standard draws give numbers (never NaN) *)
Lemma shifted (mu c z : f64) : fin mu -> fin c -> 0 < RV c -> num z -> num (Bplus mode_NE mu (Bmult mode_NE c z)).
Proof. intros F FC PC N. destruct (c_mult z c N FC PC) as [A _]. now destruct (c_plus _ mu A F). Qed.
Lemma scale_fin (z c : f64) : fin z -> fin c -> Rabs (RV c) <= 1 -> fin (Bmult mode_NE z c).
Proof.
  intros F FC B. destruct (V_mult z c F FC) as [N E]. apply V_fin_iff; [exact N|]. rewrite E. assert (M := fin_lt z F). assert (FB : fmt64 (RV z)) by apply generic_format_B2R.
  assert (A : Rabs (RV z * RV c) <= Rabs (RV z)). { rewrite Rabs_mult. rewrite <- (Rmult_1_r (Rabs (RV z))) at 2. apply Rmult_le_compat_l; [apply Rabs_pos|exact B]. }
  assert (MA : Rabs (RV z) < M64) by (apply Rabs_def1; lra). apply Rabs_le_inv in A. destruct A as [A1 A2]. assert (P := Rabs_pos (RV z)).
  assert (FA : fmt64 (Rabs (RV z))) by (now apply generic_format_abs).
  apply sat_mono in A1, A2. rewrite sat_fmt in A1 by (try (now apply generic_format_opp); lra). rewrite (sat_fmt (Rabs (RV z))) in A2 by (auto; lra). lra.
Qed.
Theorem C155_pairs (m : Libm) (S : Type) (G : Rng S f64) (mu s : f64 * f64) (r z1 z2 : f64) (st st1 st2 : S) (p : PairedNormal.t f64) (q : BvNormal.t f64) :
  finite64 (fst mu) -> finite64 (snd mu) -> finite64 (fst s) -> finite64 (snd s) -> finite64 z1 -> finite64 z2 ->
  draw_std_normal st = (z1, st1) -> draw_std_normal st1 = (z2, st2) ->
  PairedNormal.new mu s = Ok p -> BvNormal.new mu s r = Ok q ->
  (exists x y, PairedNormal.sample p st = ((x, y), st2) /\ number x /\ number y) /\
  (exists x y, BvNormal.sample q st = ((x, y), st2) /\ number x /\ number y).
Proof.
  destruct mu as [mx my], s as [sx sy]. cbn [fst snd]. intros Fmx Fmy Fsx Fsy F1 F2 D1 D2 HP HB.
  revert HB. unfold BvNormal.new, BvNormal.params_bivariate, bivariate_new, loc_new, arr2. cbn [map_err and_then fst snd].
  destruct (check (AllA Positive) [sx; sy]) as [w|] eqn:EP; cbn [map_err and_then map_ok]; [|discriminate]. apply check_ok_inv in EP as [-> EP].
  destruct (check (Interval _ _) r) as [w|] eqn:ER; cbn [map_err and_then map_ok]; [|discriminate]. apply check_ok_inv in ER as [-> ER]. intros HB. injection HB as <-.
  revert HP. unfold PairedNormal.new, PairedNormal.params_paired, paired_new, loc_new, arr2. cbn [map_err and_then fst snd].
  destruct (check (AllA Positive) [sx; sy]) as [w|]; cbn [map_err and_then map_ok]; [|discriminate]. intros HP. injection HP as <-.
  cbn [is_satisfied_by forallb] in EP, ER. apply andb_prop in EP as [PX EP]. apply andb_prop in EP as [PY _]. apply andb_prop in ER as [R1 R2].
  assert (Px := fin_pos sx Fsx PX). assert (Py := fin_pos sy Fsy PY). destruct (sqrt_pos64 sx Fsx Px) as [Fx Qx]. destruct (sqrt_pos64 sy Fsy Py) as [Fy Qy].
  set (qx := Bsqrt mode_NE sx) in *. set (qy := Bsqrt mode_NE sy) in *.
  split.
  - exists (Bplus mode_NE mx (Bmult mode_NE qx z1)), (Bplus mode_NE my (Bmult mode_NE qy z2)). split; [unfold PairedNormal.sample; rewrite D1, D2; reflexivity|].
    split; (apply shifted; auto; now apply fin_num).
  - set (e := Bplus mode_NE (Bmult mode_NE z1 r) (Bmult mode_NE z2 (Bsqrt mode_NE (Bminus mode_NE (b64 1 0) (Bmult mode_NE r r))))).
    exists (Bplus mode_NE mx (Bmult mode_NE qx z1)), (Bplus mode_NE my (Bmult mode_NE qy e)). split; [unfold BvNormal.sample; rewrite D1, D2; reflexivity|].
    split; (apply shifted; auto; try (now apply fin_num)).
    change (le64 (Bopp (b64 1 0)) r) in R1. change (le64 r one64) in R2. destruct (le_num _ _ R1) as [_ NR]. apply le_V1 in R1, R2. rewrite V_one in R2. rewrite V_opp in R1. change (V (b64 1 0)) with (V one64) in R1. rewrite V_one in R1.
    assert (M := M64_pos). assert (FR : fin r) by (apply V_fin_iff; [exact NR|lra]). rewrite V_fin in R1, R2 by exact FR.
    assert (BR : Rabs (RV r) <= 1) by (apply Rabs_le; lra).
    destruct (V_mult r r FR FR) as [N2 E2]. destruct (one_minus (Bmult mode_NE r r) N2) as [N3 B3]. { rewrite E2. split; [apply sat_pos; nra|apply sat_le1; nra]. }
    destruct (sqrt01 _ N3 B3) as (N4 & B4 & _). set (k := Bsqrt mode_NE (Bminus mode_NE (b64 1 0) (Bmult mode_NE r r))) in *.
    assert (FK : fin k) by (apply V_fin_iff; [exact N4|lra]). rewrite V_fin in B4 by exact FK. assert (BK : Rabs (RV k) <= 1) by (apply Rabs_le; lra).
    now destruct (V_plus _ _ (scale_fin z1 r F1 FR BR) (scale_fin z2 k F2 FK BK)).
Qed.
Print Assumptions C155_pairs.

(** correctly rounded functions meet the assumptions, and the constructors succeed *)
Lemma cr_ln_val x : fin x -> 0 < RV x -> num (cr_ln x) /\ V (cr_ln x) = sat (ln (RV x)).
Proof. intros F P. destruct (pos_sign x F P) as (mm & ee & hh & ->). cbn [cr_ln]. apply r2f_V. Qed.
Lemma ln_libm_unit : ln_unit ln_libm.
Proof.
  assert (Q := M64_pos). split.
  - intros x L U. change (le64 (cr_ln x) zero64). assert (H := cr_ln_mono x one64 L U). destruct (le_num _ _ H) as [N _]. apply le_V1 in H. apply le_V2; [exact N|apply num_zero|]. rewrite V_zero.
    destruct (cr_ln_val one64 fin_b64_1) as [_ E]; [unfold one64; rewrite RV_b64_1; lra|]. rewrite E in H. unfold one64 in H. rewrite RV_b64_1, ln_1, sat_0 in H. exact H.
  - reflexivity.
  - intros x L U. change (le64 (b64 (-37) 0) (cr_ln x)). destruct (b64_pow2 (-53) ltac:(lia)) as [FT ET]. assert (PT := bpow_gt_0 radix2 (-53)).
    assert (L0 : le64 zero64 (b64 1 (-53))) by (vm_compute; reflexivity). assert (H := cr_ln_mono _ x L0 L). destruct (le_num _ _ H) as [_ N]. apply le_V1 in H.
    destruct (b64_z (-37) ltac:(lia)) as [F37 E37]. apply le_V2; [now apply fin_num|exact N|]. rewrite V_fin, E37 by exact F37.
    destruct (cr_ln_val _ FT ltac:(lra)) as [_ E]. rewrite E, ET in H. apply Rle_trans with (2 := H).
    assert (B : 64 < M64) by (change 64 with (bpow radix2 6); change M64 with (bpow radix2 1024); apply bpow_lt; lia).
    assert (FF : fmt64 (-37)) by (rewrite <- E37; apply generic_format_B2R). rewrite <- (sat_fmt (-37)) by (auto; lra). apply sat_mono.
    rewrite bpow_powerRZ. assert (P2 : 0 < 2) by lra. change (powerRZ (IZR radix2) (-53)) with (/ 2 ^ 53). rewrite ln_Rinv by (apply pow_lt; lra). rewrite ln_pow by lra. assert (U2 := ln2_ub). rewrite INR_IZR_INZ. cbn [Z.of_nat Pos.of_succ_nat Pos.succ]. lra.
Qed.
Example C155_nonvacuous : libm_range ln_libm /\ libm_monotone ln_libm /\ ln_unit ln_libm /\
  (forall y, lt64 zero64 y -> @m_powf ln_libm (B754_infinity false) y = B754_infinity false) /\
  let m := ln_libm in let a := b64 (-3) (-1) in let s := b64 5 (-2) in
  (exists p, Kumaraswamy.p_new s s = Ok p) /\ (exists d, Frechet.new s = Ok d) /\ (exists d, Laplace.new a s = Ok d) /\
  le64 (Babs a) (b64 1 1000) /\ le64 s (b64 1 1000) /\ finite64 a /\ finite64 s /\ unit_draw half64.
Proof.
  split; [destruct cr_range; constructor; assumption|]. split; [destruct cr_monotone; constructor; assumption|]. split; [exact ln_libm_unit|]. split.
  { intros y L. change (cr_pow (B754_infinity false) y = B754_infinity false). destruct (lt_num _ _ L) as [_ N]. apply lt_V1 in L. rewrite V_zero in L. assert (Q := M64_pos).
    destruct y as [t|t| |t m2 e2 h2]; try discriminate; cbn [cr_pow].
    - cbn [V B2R] in L. lra.
    - destruct t; [cbn [V] in L; lra|]. destruct (Rlt_dec (V (B754_infinity false)) 1) as [X|X]; [cbn [V] in X; lra|]. destruct (Rlt_dec 1 (V (B754_infinity false))) as [Y|Y]; [reflexivity|cbn [V] in Y; lra].
    - destruct t; [|reflexivity]. rewrite V_fin in L by reflexivity. assert (X := RV_neg_finite m2 e2 h2). lra. }
  intros m. generalize m. clear m. intros m a s.
  assert (PS : fltb (f_of_Z 0 : f64) s = true) by (vm_compute; reflexivity).
  repeat match goal with |- _ /\ _ => split end; lazymatch goal with
  | |- ex _ => eexists; unfold Kumaraswamy.p_new, Frechet.new, Laplace.new; apply map_params_ok; cbn [args s1 s2 s3 fst snd]; repeat (apply Forall_cons || apply Forall_nil); unfold arg_ok; cbn [arg_ty arg_val field_ok]; first [exact I|exact PS]
  | |- unit_draw _ => split; vm_compute; reflexivity
  | |- _ => vm_compute; reflexivity end.
Qed.
