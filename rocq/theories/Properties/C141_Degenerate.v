(** * Property C141: the Degenerate distribution as a distribution *)
From Coq Require Import Reals Lra Lia Psatz List ZArith.
From Coquelicot Require Import Coquelicot.
From Verif.Num Require Import Scalar XReal.
From Verif.Model Require Import Rust Constraints Probability Params Consts Traits Continuous Continuous2.
From Verif.Spec Require Import DistSpec ResSpec DiscreteSpec.
From Verif.Proofs Require Import ConstraintProofs NewInv XTac Calc Improper.
Import ListNotations.
Open Scope R_scope.

Lemma zsum_ext f g lo n : (forall k, f k = g k) -> zsum f lo n = zsum g lo n.
Proof. intros H. revert lo. induction n as [|n IH]; intros lo; cbn [zsum]; [reflexivity|now rewrite H, IH]. Qed.
Lemma zsum_point (c : R) (k lo : Z) n : (lo <= k)%Z -> (k < lo + Z.of_nat n)%Z -> zsum (fun j => if Z.eq_dec j k then c else 0) lo n = c.
Proof.
  assert (Z0 : forall n lo, (k < lo)%Z -> zsum (fun j => if Z.eq_dec j k then c else 0) lo n = 0).
  { clear. intros n. induction n as [|n IH]; intros lo H; cbn [zsum]; [reflexivity|]. destruct (Z.eq_dec lo k); [lia|]. rewrite IH by lia. lra. }
  revert lo. induction n as [|n IH]; intros lo A B; [lia|]. cbn [zsum]. destruct (Z.eq_dec lo k) as [E|E].
  - rewrite Z0 by lia. lra.
  - rewrite IH by lia. lra.
Qed.
Lemma dg_pmf (k j : Z) : zf (fun x => unwrap (DegenerateI.pmf (F := xreal) (DegenerateI.new k) x)) j = if Z.eq_dec j k then 1 else 0.
Proof. unfold zf, DegenerateI.pmf. cbn [DegenerateI.k DegenerateI.new]. destruct (Z.eqb_spec j k); destruct (Z.eq_dec j k); try contradiction; unfold p_one, p_zero; cbn [unwrap]; rewrite x_lit; reflexivity. Qed.
Lemma dg_expect (k lo hi : Z) g : (lo <= k <= hi)%Z -> is_expect lo hi (fun x => unwrap (DegenerateI.pmf (F := xreal) (DegenerateI.new k) x)) g (g k).
Proof.
  intros H. unfold is_expect. rewrite (zsum_ext _ (fun j => if Z.eq_dec j k then g k else 0)).
  - apply zsum_point; [lia|]. unfold npoints. lia.
  - intros j. rewrite dg_pmf. destruct (Z.eq_dec j k) as [E|E]; [subst|]; lra.
Qed.

(** Degenerate<i64>: on every window of integers around k, a coherent discrete distribution whose reported mean, variance,
    median, mode and entropy are its own *)
Theorem C141_degenerate_i64 (k lo hi : Z) : (lo <= k <= hi)%Z ->
  let d := DegenerateI.new k in let pmf := fun j => unwrap (DegenerateI.pmf (F := xreal) d j) in
  is_pmf lo hi pmf /\ is_dcdf lo hi pmf (fun j => unwrap (DegenerateI.cdf d j)) /\
  returns (DegenerateI.mean d) (fun m => is_dmean lo hi pmf m /\ returns (DegenerateI.variance d) (is_dvariance lo hi pmf m)) /\
  returns (DegenerateI.median d) (is_dmedian lo hi pmf) /\
  (forall m, In m (DegenerateI.modes d) <-> is_dmode lo hi pmf m) /\
  returns (DegenerateI.shannon_entropy d) (is_dentropy lo hi pmf).
Proof.
  intros H d pmf. assert (HE := fun g => dg_expect k lo hi g H). fold d in HE. fold pmf in HE. assert (HP := dg_pmf k). fold d in HP. fold pmf in HP.
  assert (N1 : (k < lo + Z.of_nat (npoints lo hi))%Z) by (unfold npoints; lia).
  split; [|split; [|split; [|split; [|split]]]].
  - split; [|exact (HE (fun _ => 1))]. intros j _. assert (A := HP j). unfold pmf, DegenerateI.pmf in *. destruct (Z.eqb j (DegenerateI.k d)); unfold p_one, p_zero; cbn [unwrap]; rewrite x_lit; eexists; (split; [reflexivity|lra]).
  - intros j Hj. rewrite (zsum_ext _ (fun i => if Z.eq_dec i k then 1 else 0)) by exact HP. unfold DegenerateI.cdf. cbn [DegenerateI.k d DegenerateI.new].
    destruct (Z.ltb_spec j k); unfold p_one, p_zero; cbn [unwrap]; rewrite x_lit; f_equal; symmetry.
    + assert (Z0 : forall n lo, (lo + Z.of_nat n <= k)%Z -> zsum (fun j => if Z.eq_dec j k then 1 else 0) lo n = 0).
      { clear. intros n. induction n as [|n IH]; intros lo H; cbn [zsum]; [reflexivity|]. destruct (Z.eq_dec lo k); [lia|]. rewrite IH by lia. lra. }
      apply Z0. unfold npoints. lia.
    + apply zsum_point; unfold npoints; lia.
  - exists (IZR k). split; [unfold DegenerateI.mean; cbn [DegenerateI.k d DegenerateI.new]; now rewrite x_lit|]. split; [exact (HE IZR)|].
    exists 0. split; [unfold DegenerateI.variance; now rewrite x_lit|]. split; [exact (HE IZR)|]. replace 0 with ((IZR k - IZR k) * (IZR k - IZR k)) by ring. exact (HE (fun j => (IZR j - IZR k) * (IZR j - IZR k))).
  - exists (IZR k). split; [unfold DegenerateI.median; cbn [DegenerateI.k d DegenerateI.new]; now rewrite x_lit|]. split.
    + rewrite (zsum_ext _ (fun i => if Z.eq_dec i k then 1 else 0)); [rewrite zsum_point by lia; lra|]. intros i. rewrite HP. destruct (Z.eq_dec i k) as [E|E]; destruct (Rle_dec _ _) as [L|L]; try reflexivity. exfalso. apply L. subst; lra.
    + rewrite (zsum_ext _ (fun i => if Z.eq_dec i k then 1 else 0)); [rewrite zsum_point by lia; lra|]. intros i. rewrite HP. destruct (Z.eq_dec i k) as [E|E]; destruct (Rle_dec _ _) as [L|L]; try reflexivity. exfalso. apply L. subst; lra.
  - intros m. unfold DegenerateI.modes. cbn [DegenerateI.k d DegenerateI.new In]. split.
    + intros [E|[]]. subst m. split; [lia|]. intros j _. rewrite !HP. destruct (Z.eq_dec k k); [|congruence]. destruct (Z.eq_dec j k); lra.
    + intros [_ Hm]. left. assert (A := Hm k H). rewrite !HP in A. destruct (Z.eq_dec k k); [|congruence]. destruct (Z.eq_dec m k); [auto|lra].
  - exists 0. split; [unfold DegenerateI.shannon_entropy; now rewrite x_lit|]. unfold is_dentropy. rewrite (zsum_ext _ (fun i => if Z.eq_dec i k then 0 else 0)); [apply zsum_point; lia|].
    intros i. rewrite HP. destruct (Z.eq_dec i k); [rewrite ln_1; lra|lra].
Qed.
Print Assumptions C141_degenerate_i64.

(** kurtosis does not exist and is refused; quantile is not implemented *)
Theorem C141_undefined (k lo hi : Z) (c : R) (p : Probability xreal) : (lo <= k <= hi)%Z ->
  (forall e, ~ is_dkurtosis lo hi (fun j => unwrap (DegenerateI.pmf (F := xreal) (DegenerateI.new k) j)) e) /\
  DegenerateI.kurtosis (F := xreal) (DegenerateI.new k) = Panic /\ DegenerateI.excess_kurtosis (F := xreal) (DegenerateI.new k) = Panic /\
  DegenerateF.kurtosis (DegenerateF.new (Fin c)) = Panic /\ DegenerateF.excess_kurtosis (DegenerateF.new (Fin c)) = Panic /\
  DegenerateI.quantile (DegenerateI.new k) p = Panic /\ DegenerateF.quantile (DegenerateF.new (Fin c)) p = Panic.
Proof.
  intros H. split; [|repeat split]. intros e (m & v & [M V] & P & _). assert (HE := fun g => dg_expect k lo hi g H).
  assert (E1 : m = IZR k) by (rewrite <- M; exact (HE IZR)). assert (E2 : v = (IZR k - m) * (IZR k - m)) by (rewrite <- V; exact (HE (fun j => (IZR j - m) * (IZR j - m)))). rewrite E1 in E2. nra.
Qed.
Print Assumptions C141_undefined.

(** ... but a skewness of zero is reported although the standardised third moment of a constant does not exist either *)
Theorem C141_skewness_refuted (k lo hi : Z) : (lo <= k <= hi)%Z ->
  DegenerateI.skewness (DegenerateI.new k) = Fin 0 /\ forall e, ~ is_dskewness lo hi (fun j => unwrap (DegenerateI.pmf (F := xreal) (DegenerateI.new k) j)) e.
Proof.
  intros H. split; [unfold DegenerateI.skewness; now rewrite x_lit|]. intros e (m & v & [M V] & P & _). assert (HE := fun g => dg_expect k lo hi g H).
  assert (E1 : m = IZR k) by (rewrite <- M; exact (HE IZR)). assert (E2 : v = (IZR k - m) * (IZR k - m)) by (rewrite <- V; exact (HE (fun j => (IZR j - m) * (IZR j - m)))). rewrite E1 in E2. nra.
Qed.
Print Assumptions C141_skewness_refuted.

(** Degenerate<f64>: pdf is the indicator of (k - 1e-7, k + 1e-7); its integral over the line is 2e-7, so that it is no density *)
Theorem C141_pdf_refuted (k : R) : let d := DegenerateF.new (Fin k) in
  (forall x, Rabs (x - k) < / 10000000 -> DegenerateF.pdf d (Fin x) = Fin 1) /\ (forall x, / 10000000 <= Rabs (x - k) -> DegenerateF.pdf d (Fin x) = Fin 0) /\
  is_RInt_gen (rf (DegenerateF.pdf d)) (above m_infty) (below p_infty) (2 / 10000000) /\
  forall cdf, ~ coherent m_infty p_infty cdf (DegenerateF.pdf d).
Proof.
  intros d. set (r := / 10000000). assert (Pr : 0 < r < 1) by (unfold r; lra).
  assert (A1 : forall x, Rabs (x - k) < r -> DegenerateF.pdf d (Fin x) = Fin 1).
  { intros x Hx. unfold DegenerateF.pdf. cbn [DegenerateF.k d DegenerateF.new]. xs. rewrite Rltb_true; [reflexivity|]. unfold r in Hx. lra. }
  assert (A0 : forall x, r <= Rabs (x - k) -> DegenerateF.pdf d (Fin x) = Fin 0).
  { intros x Hx. unfold DegenerateF.pdf. cbn [DegenerateF.k d DegenerateF.new]. xs. rewrite Rltb_false; [reflexivity|]. unfold r in Hx. lra. }
  assert (B : forall a b, a < k - r -> k + r < b -> is_RInt (rf (DegenerateF.pdf d)) a b (2 * r)).
  { intros a b Ha Hb. replace (2 * r) with (plus (plus (scal ((k - r) - a) 0) (scal ((k + r) - (k - r)) 1)) (scal (b - (k + r)) 0) : R) by (unfold plus, scal; cbn; unfold mult; cbn; ring).
    apply (is_RInt_Chasles (V := R_NormedModule) _ a (k + r) b); [apply (is_RInt_Chasles (V := R_NormedModule) _ a (k - r) (k + r))|].
    - apply (is_RInt_ext (fun _ => 0)); [|apply (is_RInt_const (V := R_NormedModule))]. rewrite Rmin_left, Rmax_right by lra. intros x Hx. unfold rf. rewrite A0; [reflexivity|]. rewrite Rabs_left; lra.
    - apply (is_RInt_ext (fun _ => 1)); [|apply (is_RInt_const (V := R_NormedModule))]. rewrite Rmin_left, Rmax_right by lra. intros x Hx. unfold rf. rewrite A1; [reflexivity|]. apply Rabs_def1; lra.
    - apply (is_RInt_ext (fun _ => 0)); [|apply (is_RInt_const (V := R_NormedModule))]. rewrite Rmin_left, Rmax_right by lra. intros x Hx. unfold rf. rewrite A0; [reflexivity|]. rewrite Rabs_right; lra. }
  assert (G : is_RInt_gen (rf (DegenerateF.pdf d)) (above m_infty) (below p_infty) (2 * r)).
  { intros P HP. exists (fun a => a < k - r) (fun b => k + r < b).
    - exists (k - r). auto. - exists (k + r). auto.
    - intros a b Ha Hb. exists (2 * r). split; [now apply B|now apply locally_singleton]. }
  split; [exact A1|]. split; [exact A0|]. split; [unfold Rdiv; exact G|].
  intros cdf [_ [_ _ T]]. assert (E : 2 * r = 1) by exact (gen_unique m_infty p_infty _ _ _ G T). unfold r in E. lra.
Qed.
Print Assumptions C141_pdf_refuted.
Example C141_nonvacuous : (-5 <= 3 <= 8)%Z /\ DegenerateI.new 3 = DegenerateI.mk 3. Proof. split; [lia|reflexivity]. Qed.
