(** * Samplers by inversion: an instance of [rand_distr_ok] *)
From Coq Require Import Reals Lra Lia Psatz List ZArith.
From Coquelicot Require Import Coquelicot.
From Flocq Require Import Core.Raux.
From Verif.Num Require Import Scalar XReal.
From Verif.Model Require Import Rust Samplers.
From Verif.Spec Require Import DistSpec DiscreteSpec GammaSpec RandSpec.
From Verif.Proofs Require Import XTac Calc Calc2 Improper.
Open Scope R_scope.

(** the event is, up to its end points and 0 and 1, an interval of states of that length *)
Definition Pr0 (E : xreal -> Prop) (p : R) : Prop :=
  exists l, 0 <= l /\ l + p <= 1 /\ forall u, 0 < u < 1 -> u <> l -> u <> l + p -> (E (Fin u) <-> l < u < l + p).
Lemma Pr0_intro (E : xreal -> Prop) p l : 0 <= l -> l + p <= 1 -> (forall u, 0 < u < 1 -> (E (Fin u) <-> l < u <= l + p)) -> Pr0 E p.
Proof. intros A B C. exists l. split; [auto|]. split; [auto|]. intros u Hu N1 N2. rewrite C by auto. split; intros [? ?]; split; lra. Qed.
Lemma Pr0_intro' (E : xreal -> Prop) p l : 0 <= l -> l + p <= 1 -> (forall u, 0 < u < 1 -> (E (Fin u) <-> l <= u <= l + p)) -> Pr0 E p.
Proof. intros A B C. exists l. split; [auto|]. split; [auto|]. intros u Hu N1 N2. rewrite C by auto. split; intros [? ?]; split; lra. Qed.
Lemma Pr0_ext : extensional Pr0.
Proof. intros E E' p H (l & A & B & C). exists l. split; [auto|]. split; [auto|]. intros u Hu N1 N2. rewrite <- H. now apply C. Qed.
(** some point of a non-empty interval avoids three given points *)
Lemma avoid x y a b c : x < y -> exists u, x < u < y /\ u <> a /\ u <> b /\ u <> c.
Proof.
  intros H.
  assert (K : forall x y a, x < y -> exists x' y', x <= x' /\ x' < y' /\ y' <= y /\ forall u, x' < u < y' -> u <> a).
  { clear. intros x y a H. destruct (Rle_dec a ((x + y) / 2)) as [L|L].
    - exists ((x + y) / 2), y. repeat split; try lra. intros u Hu E. lra.
    - exists x, ((x + y) / 2). repeat split; try lra. intros u Hu E. lra. }
  destruct (K x y a H) as (x1 & y1 & A1 & B1 & C1 & D1). destruct (K x1 y1 b B1) as (x2 & y2 & A2 & B2 & C2 & D2). destruct (K x2 y2 c B2) as (x3 & y3 & A3 & B3 & C3 & D3).
  exists ((x3 + y3) / 2). split; [lra|]. split; [apply D1; lra|]. split; [apply D2; lra|apply D3; lra].
Qed.
Lemma Pr0_unique E p q : Pr0 E p -> Pr0 E q -> 0 <= p -> 0 <= q -> p = q.
Proof.
  assert (K : forall p q, Pr0 E p -> Pr0 E q -> 0 <= p -> 0 <= q -> q <= p).
  { clear. intros p q (l & A & B & C) (m & A' & B' & C') Hp Hq. apply Rnot_lt_le. intros G.
    assert (I1 : forall u, m < u < m + q -> u <> l -> u <> l + p -> l < u < l + p).
    { intros u Hm N1 N2. apply C; [lra|auto|auto|]. apply C'; lra. }
    destruct (Rlt_dec m l) as [L|L].
    - destruct (avoid m (Rmin l (m + q)) l (l + p) l) as (u & Hu & N1 & N2 & _); [apply Rmin_glb_lt; lra|].
      assert (U1 := Rmin_l l (m + q)). assert (U2 := Rmin_r l (m + q)). destruct (I1 u); try lra; auto.
    - assert (L2 : l <= m) by lra. destruct (avoid (Rmax m (l + p)) (m + q) l (l + p) l) as (u & Hu & N1 & N2 & _).
      { apply Rmax_lub_lt; lra. }
      assert (U1 := Rmax_l m (l + p)). assert (U2 := Rmax_r m (l + p)). destruct (I1 u); try lra; auto. }
  intros. apply Rle_antisym; apply K; auto.
Qed.

Section Inv.
Context (lo hi : Rbar) (f : R -> R).
Definition inv_F (x : R) : R := RInt_gen f (above lo) (at_point x).
Definition inv_q (u : R) : R := real (Lub_Rbar (fun x => inside lo hi x /\ inv_F x < u)).
Definition inv_draw (s : xreal) : res (xreal * xreal) := Ret (Fin (inv_q (val s)), s).
End Inv.
(** the interval of states giving a value <= y has length F(y) *)
Section InvP.
Context (lo hi : Rbar) (f : R -> R) (LH : Rbar_lt lo hi).
Context (Cf : forall x, inside lo hi x -> continuous f x) (Pf : forall x, inside lo hi x -> 0 <= f x).
Context (Tf : is_RInt_gen f (above lo) (below hi) 1).
Lemma inv_G : exists G : R -> R, (forall x, inside lo hi x -> inv_F lo f x = G x /\ is_RInt_gen f (above lo) (at_point x) (G x) /\ continuous G x /\ 0 <= G x <= 1) /\
  (forall x y, inside lo hi x -> inside lo hi y -> x <= y -> G x <= G y) /\
  filterlim G (above lo) (locally 0) /\ filterlim G (below hi) (locally 1).
Proof.
  destruct (ex_inside lo hi LH) as [c Hi]. destruct (imp_split lo hi f LH Cf Pf 1 c Tf Hi) as [la [lb [A [B E]]]].
  assert (LA : filterlim (fun x => iF f c x - la) (above lo) (locally 0)) by (eapply fl_eq; [apply fl_minus; [exact A|apply fl_const]|ring]).
  assert (LB : filterlim (fun x => iF f c x - la) (below hi) (locally 1)) by (eapply fl_eq; [apply fl_minus; [exact B|apply fl_const]|lra]).
  assert (MO : forall x y, inside lo hi x -> inside lo hi y -> x <= y -> iF f c x - la <= iF f c y - la).
  { intros x y Hx Hy H. generalize (iF_mono lo hi f Cf Pf c x y Hi Hx Hy H). lra. }
  exists (fun x => iF f c x - la). split; [|split; [exact MO|split; assumption]].
  intros x Hx. assert (I1 := imp_lower lo hi f LH Cf Pf c la x Hi Hx A).
  split; [apply (is_RInt_gen_unique (V := R_CompleteNormedModule) (Fa := above lo) (Fb := at_point x)); exact I1|]. split; [exact I1|].
  split. { eapply ex_derive_cont. apply dR_minus; [now apply (iF_derive lo hi f)|apply dR_c]. }
  split; [exact (ge_lim_above lo hi _ _ MO LA x Hx)|exact (le_lim_below lo hi _ _ MO LB x Hx)].
Qed.
Lemma inv_spec u y : 0 < u < 1 -> inside lo hi y -> (inv_q lo hi f u <= y <-> u <= inv_F lo f y).
Proof.
  intros Hu Hy. destruct inv_G as (G & HG & MO & LA & LB).
  assert (N1 : lo <> p_infty) by (intros ->; destruct hi; cbn in *; contradiction).
  assert (N2 : hi <> m_infty) by (intros ->; destruct lo; cbn in *; contradiction).
  unfold inv_q. set (E := fun x => inside lo hi x /\ inv_F lo f x < u).
  assert (UB : forall z, inside lo hi z -> u <= G z -> forall x, E x -> x <= z).
  { intros z Hz Gz x [Hx Fx]. destruct (HG x Hx) as [Ex _]. rewrite Ex in Fx. apply Rnot_lt_le. intros L. generalize (MO z x Hz Hx (Rlt_le _ _ L)). lra. }
  assert (X1 : exists x, E x).
  { assert (V : locally 0 (fun v => v < u)) by (apply (open_lt u); lra). assert (V' : above lo (fun x => G x < u)) by exact (LA _ V).
    destruct (filter_ex (F := above lo) _ (filter_and _ _ V' (above_inside lo hi LH N1))) as [x [A B]]. exists x. split; [auto|]. destruct (HG x B) as [-> _]. exact A. }
  assert (X2 : exists z, inside lo hi z /\ u <= G z).
  { assert (V : locally 1 (fun v => u < v)) by (apply (open_gt u); lra). assert (V' : below hi (fun x => u < G x)) by exact (LB _ V).
    destruct (filter_ex (F := below hi) _ (filter_and _ _ V' (below_inside lo hi LH N2))) as [z [A B]]. exists z. split; [auto|]. cbv beta in A. lra. }
  destruct (Lub_Rbar_correct E) as [U1 U2]. destruct X1 as [x1 E1]. destruct X2 as (z & Hz & Gz).
  assert (FL : is_finite (Lub_Rbar E)).
  { assert (A := U1 x1 E1). assert (B := U2 z (fun x Hx => UB z Hz Gz x Hx)). destruct (Lub_Rbar E); cbn in *; [reflexivity|contradiction|contradiction]. }
  rewrite <- FL in U1, U2. destruct (HG y Hy) as (Ey & _ & Cy & _). rewrite Ey. split; intros H.
  - apply Rnot_lt_le. intros L.
    assert (V : locally (G y) (fun v => v < u)) by (apply (open_lt u); lra). assert (V' : locally y (fun x => G x < u)) by exact (Cy _ V).
    destruct (filter_and _ _ V' (locally_inside lo hi y Hy)) as [eps He].
    assert (P := cond_pos eps). destruct (He (y + eps / 2)) as [A B].
    { change (Rabs (y + eps / 2 - y) < eps). replace (y + eps / 2 - y) with (eps / 2) by ring. rewrite Rabs_right; lra. }
    assert (EB : E (y + eps / 2)) by (split; [auto|]; destruct (HG _ B) as [-> _]; exact A). specialize (U1 _ EB). cbn in U1. lra.
  - apply (U2 y). intros x Hx. cbn. now apply (UB y Hy H).
Qed.
Lemma inv_law : law_density Pr0 lo hi f (inv_draw lo hi f).
Proof.
  split; [intros s; eexists _, _; split; [reflexivity|eauto]|]. intros y p Hy Hp.
  destruct inv_G as (G & HG & _). destruct (HG y Hy) as (Ey & I1 & _ & B).
  assert (N1 : lo <> p_infty) by (intros ->; destruct hi; cbn in *; contradiction).
  assert (EP : p = G y) by (apply (lower_unique lo f y); auto).
  apply (Pr0_intro _ _ 0); [lra|lra|]. intros u Hu. rewrite Rplus_0_l, EP, <- Ey. unfold yields, inv_draw, at_most. cbn [val]. split.
  - intros (a & s' & E & x & -> & L). injection E as E _. subst x. split; [lra|]. now apply inv_spec.
  - intros [_ L]. eexists _, _. split; [reflexivity|]. eexists. split; [reflexivity|]. now apply inv_spec.
Qed.
End InvP.
