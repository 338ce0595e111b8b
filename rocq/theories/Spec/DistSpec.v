(** * What it means for a univariate distribution's methods to be coherent

    Written against the observable values only: [cdf], [pdf] are the functions
    computed by the methods, on exact extended reals; [lo], [hi] the end points
    of the support. *)
From Coq Require Import Reals List.
From Coquelicot Require Import Coquelicot.
From Verif.Num Require Import XReal.
Open Scope R_scope.

(** strictly between the end points of the support *)
Definition inside (lo hi : Rbar) (x : R) : Prop := Rbar_lt lo x /\ Rbar_lt x hi.
(** "x tends to the lower end point from inside" / "... upper ..." *)
Definition above (lo : Rbar) : (R -> Prop) -> Prop :=
  match lo with Finite a => at_right a | b => Rbar_locally b end.
Definition below (hi : Rbar) : (R -> Prop) -> Prop :=
  match hi with Finite b => at_left b | c => Rbar_locally c end.

(** the real function computed by a method *)
Definition rf (f : xreal -> xreal) (x : R) : R := val (f (Fin x)).

(** [cdf] is a distribution function concentrated on (lo, hi) *)
Record is_cdf (lo hi : Rbar) (cdf : xreal -> xreal) : Prop := {
  cdf_valid : forall x, inside lo hi x -> exists p, cdf (Fin x) = Fin p /\ 0 <= p <= 1;
  cdf_mono : forall x y, inside lo hi x -> inside lo hi y -> x <= y -> rf cdf x <= rf cdf y;
  cdf_lower : filterlim (rf cdf) (above lo) (locally 0);
  cdf_upper : filterlim (rf cdf) (below hi) (locally 1)
}.

(** [pdf] is a finite, non-negative derivative of [cdf] on (lo, hi), and
    integrates to one there *)
Record is_pdf (lo hi : Rbar) (cdf pdf : xreal -> xreal) : Prop := {
  pdf_valid : forall x, inside lo hi x -> exists d, pdf (Fin x) = Fin d /\ 0 <= d;
  pdf_derive : forall x, inside lo hi x -> is_derive (rf cdf) x (rf pdf x);
  pdf_total : is_RInt_gen (rf pdf) (above lo) (below hi) 1
}.

Definition coherent (lo hi : Rbar) (cdf pdf : xreal -> xreal) : Prop :=
  is_cdf lo hi cdf /\ is_pdf lo hi cdf pdf.

(** expectation of [g] under density [pdf] *)
Definition is_expectation (lo hi : Rbar) (pdf : xreal -> xreal) (g : R -> R) (m : R) : Prop :=
  is_RInt_gen (fun x => g x * rf pdf x) (above lo) (below hi) m.
Definition is_mean (lo hi : Rbar) (pdf : xreal -> xreal) (m : R) : Prop :=
  is_expectation lo hi pdf (fun x => x) m.
Definition is_variance (lo hi : Rbar) (pdf : xreal -> xreal) (m v : R) : Prop :=
  is_mean lo hi pdf m /\ is_expectation lo hi pdf (fun x => (x - m) * (x - m)) v.
(** standardised third and fourth central moments *)
Definition is_skewness (lo hi : Rbar) (pdf : xreal -> xreal) (sk : R) : Prop :=
  exists m v, is_variance lo hi pdf m v /\ 0 < v /\
    is_expectation lo hi pdf (fun x => (x - m) ^ 3) (sk * (v * sqrt v)).
Definition is_kurtosis (lo hi : Rbar) (pdf : xreal -> xreal) (k : R) : Prop :=
  exists m v, is_variance lo hi pdf m v /\ 0 < v /\
    is_expectation lo hi pdf (fun x => (x - m) ^ 4) (k * (v * v)).
(** differential entropy *)
Definition is_entropy (lo hi : Rbar) (pdf : xreal -> xreal) (h : R) : Prop :=
  is_RInt_gen (fun x => - (rf pdf x * ln (rf pdf x))) (above lo) (below hi) h.

Definition is_median (cdf : xreal -> xreal) (m : R) : Prop := cdf (Fin m) = Fin (1 / 2).

(** [m] maximises a density over (lo, hi) *)
Definition is_mode (lo hi : Rbar) (pdf : xreal -> xreal) (m : R) : Prop :=
  exists fm, pdf (Fin m) = Fin fm /\
    forall x, inside lo hi x -> exists fx, pdf (Fin x) = Fin fx /\ fx <= fm.

(** [q] inverts [cdf] on (0,1) *)
Definition inverts (lo hi : Rbar) (cdf q : xreal -> xreal) : Prop :=
  forall p, 0 < p < 1 -> exists x, q (Fin p) = Fin x /\ inside lo hi x /\ cdf (Fin x) = Fin p.

(** the method returned the finite number [r], and [P r] *)
Definition returns (x : xreal) (P : R -> Prop) : Prop := exists r, x = Fin r /\ P r.
(** every element of a returned list is a finite number with [P] *)
Definition all_return (l : list xreal) (P : R -> Prop) : Prop := forall x, In x l -> returns x P.

(** [sample u], for [u] uniform on (0,1), has distribution function [cdf]: for
    each y in the support the draws giving a sample <= y are an interval of
    length cdf(y) at one end of (0,1) *)
Definition samples_from (lo hi : Rbar) (cdf sample : xreal -> xreal) : Prop :=
  (forall u, 0 < u < 1 -> exists x, sample (Fin u) = Fin x) /\
  forall y, inside lo hi y ->
    (forall u, 0 < u < 1 -> (rf sample u <= y <-> u <= rf cdf y)) \/
    (forall u, 0 < u < 1 -> (rf sample u <= y <-> 1 - rf cdf y <= u)).

(** the density belonging to a distribution function: its derivative *)
Definition density_of (cdf : xreal -> xreal) (x : xreal) : xreal := Fin (Derive (rf cdf) (val x)).

(** [h] is the density of the sum of two independent variables with densities
    [f] and [g]: on the whole line, and for positive variables *)
Definition is_sum_density (f g h : xreal -> xreal) : Prop :=
  forall z, is_RInt_gen (fun t => rf f t * rf g (z - t)) (Rbar_locally m_infty) (Rbar_locally p_infty) (rf h z).
Definition is_sum_density_pos (f g h : xreal -> xreal) : Prop :=
  forall z, 0 < z -> is_RInt_gen (fun t => rf f t * rf g (z - t)) (at_right 0) (at_left z) (rf h z).
