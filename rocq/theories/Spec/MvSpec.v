(** * Specification vocabulary for the multivariate distributions *)
From Coq Require Import Reals List.
From Coquelicot Require Import Coquelicot.
From Verif.Num Require Import XReal.
From Verif.Model Require Import Rust.
From Verif.Spec Require Import DistSpec SampleSpec.
Open Scope R_scope.

(** ** Plane densities, by iterated integrals over the whole line *)
Definition line_int (f : R -> R) (v : R) : Prop := is_RInt_gen f (Rbar_locally m_infty) (Rbar_locally p_infty) v.
Definition plane_int (f : R -> R -> R) (v : R) : Prop := exists g : R -> R, (forall x, line_int (f x) (g x)) /\ line_int g v.
(** the real function of two variables computed by a method *)
Definition rf2 (f : xreal * xreal -> xreal) (x y : R) : R := val (f (Fin x, Fin y)).
(** expectation of [g] under a density on the plane *)
Definition is_expectation2 (pdf : xreal * xreal -> xreal) (g : R -> R -> R) (v : R) : Prop :=
  plane_int (fun x y => g x y * rf2 pdf x y) v.
(** a finite, positive density of total mass one *)
Definition is_pdf2 (pdf : xreal * xreal -> xreal) : Prop :=
  (forall x y, exists v, pdf (Fin x, Fin y) = Fin v /\ 0 < v) /\ is_expectation2 pdf (fun _ _ => 1) 1.
Definition is_mean2 (pdf : xreal * xreal -> xreal) (m : R * R) : Prop :=
  is_expectation2 pdf (fun x _ => x) (fst m) /\ is_expectation2 pdf (fun _ y => y) (snd m).
(** [[a b][c d]] is the covariance matrix *)
Definition is_covariance2 (pdf : xreal * xreal -> xreal) (m : R * R) (a b c d : R) : Prop :=
  is_mean2 pdf m /\
  is_expectation2 pdf (fun x y => (x - fst m) * (x - fst m)) a /\
  is_expectation2 pdf (fun x y => (x - fst m) * (y - snd m)) b /\
  is_expectation2 pdf (fun x y => (y - snd m) * (x - fst m)) c /\
  is_expectation2 pdf (fun x y => (y - snd m) * (y - snd m)) d.
Definition is_entropy2 (pdf : xreal * xreal -> xreal) (h : R) : Prop :=
  plane_int (fun x y => - (rf2 pdf x y * ln (rf2 pdf x y))) h.
Definition is_mode2 (pdf : xreal * xreal -> xreal) (m : xreal * xreal) : Prop :=
  exists v, pdf m = Fin v /\ forall x y, exists w, pdf (Fin x, Fin y) = Fin w /\ w <= v.

(** ** Vectors and matrices of reals, as functions of indices below [n] *)
Fixpoint rprod (n : nat) (f : nat -> R) : R := match n with O => 1 | S n => rprod n f * f n end.
Fixpoint rsum (n : nat) (f : nat -> R) : R := match n with O => 0 | S n => rsum n f + f n end.
(** a returned array holds the finite numbers [v 0 .. v (n-1)] *)
Definition is_vec (n : nat) (l : list xreal) (v : nat -> R) : Prop :=
  length l = n /\ forall i, (i < n)%nat -> nth i l NaN = Fin (v i).
Definition is_mat (n : nat) (m : list (list xreal)) (A : nat -> nat -> R) : Prop :=
  length m = n /\ forall i, (i < n)%nat -> is_vec n (nth i m nil) (A i).
(** quadratic form *)
Definition qform (n : nat) (A : nat -> nat -> R) (x : nat -> R) : R := rsum n (fun i => rsum n (fun j => x i * A i j * x j)).
Definition symmetric (n : nat) (A : nat -> nat -> R) : Prop := forall i j, (i < n)%nat -> (j < n)%nat -> A i j = A j i.
(** symmetric positive definite *)
Definition spd (n : nat) (A : nat -> nat -> R) : Prop :=
  symmetric n A /\ forall x, (exists i, (i < n)%nat /\ x i <> 0) -> 0 < qform n A x.
Definition mmul (n : nat) (A B : nat -> nat -> R) (i j : nat) : R := rsum n (fun k => A i k * B k j).
Definition transp (A : nat -> nat -> R) (i j : nat) : R := A j i.
Definition ident (i j : nat) : R := if Nat.eqb i j then 1 else 0.
(** equality of the n x n corners *)
Definition meq (n : nat) (A B : nat -> nat -> R) : Prop := forall i j, (i < n)%nat -> (j < n)%nat -> A i j = B i j.
(** determinant, by expansion along the first column *)
Definition skip (i k : nat) : nat := if Nat.ltb k i then k else S k.
Fixpoint det (n : nat) (A : nat -> nat -> R) : R :=
  match n with
  | O => 1
  | S n => rsum (S n) (fun i => (-1) ^ i * A i 0%nat * det n (fun r c => A (skip i r) (S c)))
  end.

(** ** Sampling *)
(** [zs] are the next standard normal variates of the generator *)
Inductive normal_draws {G} {RG : Rng G xreal} : G -> list R -> G -> Prop :=
| nd_nil g : normal_draws g nil g
| nd_cons g z g1 zs g2 : draw_std_normal g = (Fin z, g1) -> normal_draws g1 zs g2 -> normal_draws g (z :: zs) g2.
(** the sample is mu + B z, with z the next n standard normal variates: its covariance matrix is B B^T *)
Definition samples_affine (n : nat) (sample : forall G (RG : Rng G xreal), G -> list xreal * G) (mu : nat -> R) (B : nat -> nat -> R) : Prop :=
  forall G (RG : Rng G xreal) g zs g', length zs = n -> normal_draws g zs g' ->
    snd (sample G RG g) = g' /\ is_vec n (fst (sample G RG g)) (fun i => mu i + rsum n (fun k => B i k * nth k zs 0)).

(** ** Integrals over a simplex, sums over independent trials *)
(** the integral of [f] over {x : x_1 + .. + x_n = s, x_i > 0}, in the first n-1 coordinates *)
Fixpoint simplex_int (n : nat) (f : list R -> R) (s v : R) {struct n} : Prop :=
  match n with
  | O => False
  | S O => v = f (s :: nil)
  | S n => exists g : R -> R, (forall x, 0 < x < s -> simplex_int n (fun l => f (x :: l)) (s - x) (g x)) /\
             is_RInt_gen g (at_right 0) (at_left s) v
  end.
(** expectation of [g] under a density on the unit simplex *)
Definition is_simplex_exp (n : nat) (pdf : list xreal -> xreal) (g : list R -> R) (v : R) : Prop :=
  simplex_int n (fun xs => g xs * val (pdf (map Fin xs))) 1 v.
(** points of the open unit simplex *)
Definition on_simplex (n : nat) (xs : list R) : Prop :=
  length xs = n /\ (forall x, In x xs -> 0 < x) /\ fold_right Rplus 0 xs = 1.
(** [gs] are the next variates of the generator for the gamma laws with shapes [al] and scale one *)
Inductive gamma_draws {G} {RG : Rng G xreal} : G -> list R -> list R -> G -> Prop :=
| gd_nil g : gamma_draws g nil nil g
| gd_cons g a al z g1 zs g2 : draw_gamma (Fin a) (Fin 1) g = (Fin z, g1) -> gamma_draws g1 al zs g2 -> gamma_draws g (a :: al) (z :: zs) g2.
(** expectation of [f] over the outcomes of [n] independent trials, each giving k < N with probability [p k] *)
Fixpoint trials_exp (N : nat) (p : nat -> R) (n : nat) (f : list nat -> R) : R :=
  match n with
  | O => f nil
  | S n => rsum N (fun k => p k * trials_exp N p n (fun l => f (k :: l)))
  end.
(** how often [k] came up *)
Definition occurs (k : nat) (l : list nat) : R := INR (count_occ PeanoNat.Nat.eq_dec l k).
