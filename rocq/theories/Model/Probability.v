(** * /repo/src/probability.rs *)
From Verif.Model Require Import Rust.
Open Scope rust_scope.

(** probability.rs:28 [pub struct Probability(pub(crate) f64)]; the projection
    is [unwrap], probability.rs:75 *)
Record Probability (F : Type) := Prob { unwrap : F }.
Arguments Prob {F}. Arguments unwrap {F}.

(** Errors: [failure::Error] can hold any of these.  InvalidProbabilityError is
    probability.rs:16, InvalidSimplexError probability.rs:311. *)
Inductive ProbError (F : Type) := InvalidProbability (p : F) | InvalidSimplex (ps : list F).
Arguments InvalidProbability {F}. Arguments InvalidSimplex {F}.

Section Model.
Context {F : Type} {SF : Scalar F}.
Notation Prb := (Probability F).
Notation PRes := (result Prb (ProbError F)).

(** probability.rs:47-53 *)
Definition p_new (p : F) : PRes :=
  if (p >=? #0) && (p <=? #1) then Ok (Prob p) else Err (InvalidProbability p).
(** probability.rs:56 *)
Definition p_new_unchecked (p : F) : Prb := Prob p.
(** probability.rs:59, 62, 65; derive(Default) at 22 *)
Definition p_zero : Prb := Prob #0.
Definition p_half : Prb := Prob (#1 / #2).
Definition p_one : Prb := Prob #1.
Definition p_default : Prb := Prob #0.
(** probability.rs:86 *)
Definition p_is_valid (p : Prb) : bool := (unwrap p <=? #1) && (unwrap p >=? #0).
(** probability.rs:96, 106, 116, 126 *)
Definition p_ln (p : Prb) : F := fln (unwrap p).
Definition p_log2 (p : Prb) : F := flog2 (unwrap p).
Definition p_powf (p : Prb) (e : F) : F := fpowf (unwrap p) e.
Definition p_powi (p : Prb) (e : Z) : F := fpowi (unwrap p) e.
(** probability.rs:144-148 *)
Definition p_try_from (p : F) : PRes := p_new p.
(** derive(PartialEq, PartialOrd) at 22; PartialEq<f64> at 157-159 *)
Definition p_eqb (p q : Prb) : bool := unwrap p =? unwrap q.
Definition p_leb (p q : Prb) : bool := unwrap p <=? unwrap q.
(** impl_op! instances, Probability op Probability: probability.rs:277-295 *)
Definition p_add (p q : Prb) : PRes := p_new (unwrap p + unwrap q).
Definition p_sub (p q : Prb) : PRes := p_new (unwrap p - unwrap q).
Definition p_mul (p q : Prb) : Prb := p_new_unchecked (unwrap p * unwrap q).
Definition p_div (p q : Prb) : PRes := p_new (unwrap p / unwrap q).
Definition p_rem (p q : Prb) : PRes := p_new (frem (unwrap p) (unwrap q)).
(** probability.rs:297-307 *)
Definition p_not (p : Prb) : Prb := p_new_unchecked (#1 - unwrap p).
(** impl_op! mixed instances, Probability op f64 and f64 op Probability: probability.rs:201-275 *)
Definition p_mul_f (p : Prb) (x : F) : F := unwrap p * x.
Definition f_mul_p (x : F) (p : Prb) : F := x * unwrap p.

(** f64's [Iterator::sum]: left fold from 0.0 (probability.rs:161-167 for Probability) *)
Definition fsum (l : list F) : F := fold_left fadd l #0.

(** ** SimplexVector (probability.rs:314-327): the array, as a list of length K *)

(** the loop of probability.rs:425-427: [z += Probability::new( *p)?.0] *)
Fixpoint simplex_loop (z : F) (ps : list F) : result F (ProbError F) :=
  match ps with
  | [] => Ok z
  | p :: ps => let? q := p_new p in simplex_loop (z + unwrap q) ps
  end.

(** probability.rs:422-434 (and [new], 330-332): 1e-5 is the double nearest to 1/100000 *)
Definition simplex_try_from (ps : list F) : result (list F) (ProbError F) :=
  let? z := simplex_loop #0 ps in
  if fabs (z - #1) <? #1 / #100000 then Ok ps else Err (InvalidSimplex ps).
Definition simplex_new := simplex_try_from.

(** probability.rs:342-349: the [scan] and [position] of [sample_index].
    [state] is the running sum, [i] the index of the next element. *)
Fixpoint position_lt (rval state : F) (i : nat) (ps : list F) : option nat :=
  match ps with
  | [] => None
  | p :: ps => let state := state + p in
               if rval <? state then Some i else position_lt rval state (S i) ps
  end.

(** probability.rs:341-350: [unwrap_or(self.len() - 1)] evaluates its argument
    eagerly, so K = 0 overflows (panics) before anything is returned. *)
Definition index_of_draw (ps : list F) (rval : F) : res nat :=
  match ps with
  | [] => Panic
  | _ => Ret (match position_lt rval #0 0 ps with Some i => i | None => pred (List.length ps) end)
  end.
Definition sample_index {S} {R : Rng S F} (ps : list F) (s : S) : res (nat * S) :=
  let (rval, s) := gen_f64 s in
  let! i := index_of_draw ps rval in Ret (i, s).

(** probability.rs:364-368 *)
Definition simplex_centre (k : nat) : list F := repeat (#1 / #(Z.of_nat k)) k.

(** probability.rs:389-411.  First loop (393-398): K-1 draws from Uniform(0,1)
    (inclusive, uniform.rs:133-139), [sum += s; probs[i] = -s.ln()]. *)
Fixpoint sx_draws {S} {R : Rng S F} (n : nat) (sum : F) (s : S) : (F * list F) * S :=
  match n with
  | O => ((sum, []), s)
  | Datatypes.S n =>
      let (d, s) := draw_uniform_inclusive #0 (#0 + #1) s in
      let '((sum', ps), s') := sx_draws n (sum + d) s in
      ((sum', (- fln d) :: ps), s')
  end.
(** probability.rs:402-405: second loop *)
Definition sx_tail (sum : F) (ps : list F) : list F := map (fun p => p / sum) ps.
(** whole function (K = 0 indexes probs[0] out of bounds at 407) *)
Definition simplex_sample {S} {R : Rng S F} (k : nat) (s : S) : res (list F * S) :=
  let '((sum, ps), s) := sx_draws (k - 1) #0 s in
  let ps := sx_tail sum ps in
  let alt := fsum ps in
  match k with
  | O => Panic
  | _ => Ret ((#1 - alt) :: ps, s)
  end.
End Model.
