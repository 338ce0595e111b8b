(** * What it means for a distribution on integers to be coherent

    [pmf]/[cdf] are the values computed by the methods on exact reals. *)
From Coq Require Import Reals ZArith List.
From Coquelicot Require Import Coquelicot.
From Verif.Num Require Import XReal.
Open Scope R_scope.

(** f lo + f (lo+1) + ... over [n] consecutive integers *)
Fixpoint zsum (f : Z -> R) (lo : Z) (n : nat) : R :=
  match n with O => 0 | S n => f lo + zsum f (lo + 1) n end.

(** the real number computed by a method at an integer *)
Definition zf (f : Z -> xreal) (k : Z) : R := val (f k).

(** finite support lo, lo+1, ..., hi *)
Definition npoints (lo hi : Z) : nat := Z.to_nat (hi - lo + 1).
Definition is_expect (lo hi : Z) (pmf : Z -> xreal) (g : Z -> R) (m : R) : Prop :=
  zsum (fun k => g k * zf pmf k) lo (npoints lo hi) = m.
(** a probability mass function on [lo, hi] *)
Record is_pmf (lo hi : Z) (pmf : Z -> xreal) : Prop := {
  pmf_nonneg : forall k, (lo <= k <= hi)%Z -> exists p, pmf k = Fin p /\ 0 <= p <= 1;
  pmf_total : is_expect lo hi pmf (fun _ => 1) 1
}.
(** [cdf k] is the mass of [lo, k] *)
Definition is_dcdf (lo hi : Z) (pmf cdf : Z -> xreal) : Prop :=
  forall k, (lo <= k <= hi)%Z -> cdf k = Fin (zsum (zf pmf) lo (npoints lo k)).
Definition is_dmean lo hi pmf (m : R) : Prop := is_expect lo hi pmf IZR m.
Definition is_dvariance lo hi pmf (m v : R) : Prop :=
  is_dmean lo hi pmf m /\ is_expect lo hi pmf (fun k => (IZR k - m) * (IZR k - m)) v.
Definition is_dskewness lo hi pmf (sk : R) : Prop :=
  exists m v, is_dvariance lo hi pmf m v /\ 0 < v /\ is_expect lo hi pmf (fun k => (IZR k - m) ^ 3) (sk * (v * sqrt v)).
Definition is_dkurtosis lo hi pmf (ku : R) : Prop :=
  exists m v, is_dvariance lo hi pmf m v /\ 0 < v /\ is_expect lo hi pmf (fun k => (IZR k - m) ^ 4) (ku * (v * v)).
(** Shannon entropy in nats, over the points of positive mass *)
Definition is_dentropy lo hi pmf (h : R) : Prop :=
  zsum (fun k => - (zf pmf k * ln (zf pmf k))) lo (npoints lo hi) = h.
(** [m] is a point of maximal mass *)
Definition is_dmode (lo hi : Z) (pmf : Z -> xreal) (m : Z) : Prop :=
  (lo <= m <= hi)%Z /\ forall k, (lo <= k <= hi)%Z -> zf pmf k <= zf pmf m.

(** ** Laws on the natural numbers (possibly infinite support) *)
From Verif.Spec Require Import UtilsSpec.
Record is_law (law : nat -> R) : Prop := {
  law_nonneg : forall k, 0 <= law k;
  law_total : is_series law 1
}.
(** expectation of [g] *)
Definition law_expect (law : nat -> R) (g : nat -> R) (m : R) : Prop := is_series (fun k => g k * law k) m.
Definition law_mean law m := law_expect law INR m.
Definition law_variance law m v := law_mean law m /\ law_expect law (fun k => (INR k - m) * (INR k - m)) v.
Definition law_skewness law sk :=
  exists m v, law_variance law m v /\ 0 < v /\ law_expect law (fun k => (INR k - m) ^ 3) (sk * (v * sqrt v)).
Definition law_kurtosis law ku :=
  exists m v, law_variance law m v /\ 0 < v /\ law_expect law (fun k => (INR k - m) ^ 4) (ku * (v * v)).
(** [cdf k] is the mass of 0..k *)
Definition law_cdf (law : nat -> R) (k : nat) : R := sum_n law k.
Definition law_mode (law : nat -> R) (m : nat) : Prop := forall k, law k <= law m.
(** Shannon entropy in units of [ln b] *)
Definition law_entropy (b : R) (law : nat -> R) (h : R) : Prop := is_series (fun k => - (law k * (ln (law k) / ln b))) h.
(** distribution of the sum of two independent variables *)
Definition law_conv (f g : nat -> R) (k : nat) : R := sum_n (fun i => f i * g (k - i)%nat) k.

(** the textbook laws *)
Definition binomial_law (n : nat) (p : R) (k : nat) : R := IZR (binom n k) * (p ^ k * (1 - p) ^ (n - k)).
Definition bernoulli_law (p : R) (k : nat) : R := match k with O => 1 - p | 1%nat => p | _ => 0 end.
Definition geometric_law (p : R) (k : nat) : R := p * (1 - p) ^ k.
Definition poisson_law (l : R) (k : nat) : R := l ^ k * exp (- l) / INR (fact k).
(** [m] is a median: at least half of the mass lies on each side (inclusive) *)
Definition law_median (law : nat -> R) (m : R) : Prop :=
  exists a b, law_expect law (fun k => if Rle_dec (INR k) m then 1 else 0) a /\ 1 / 2 <= a /\
              law_expect law (fun k => if Rle_dec m (INR k) then 1 else 0) b /\ 1 / 2 <= b.
(** utils.rs's [choose n k] multiplies C(n,j) by n-j for each j below min(k,n-k):
    none of these products exceeds a u64 *)
Definition choose_fits (n k : nat) : Prop := forall j, (j < Nat.min k (n - k))%nat -> (binom n j * (Z.of_nat n - Z.of_nat j) <= 2 ^ 64 - 1)%Z.
(** [m] is a median of a law on lo, ..., hi: at least half of the mass lies on each side (inclusive) *)
Definition is_dmedian (lo hi : Z) (pmf : Z -> xreal) (m : R) : Prop :=
  1 / 2 <= zsum (fun k => if Rle_dec (IZR k) m then zf pmf k else 0) lo (npoints lo hi) /\
  1 / 2 <= zsum (fun k => if Rle_dec m (IZR k) then zf pmf k else 0) lo (npoints lo hi).
