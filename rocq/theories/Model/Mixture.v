(** * /repo/src/mixture.rs

    Generic in the component type, like the Rust code.  A component's methods
    may panic, hence [res].  Arrays [C; N] are lists of length N. *)
From Verif.Model Require Import Rust Constraints Probability Params.
Open Scope rust_scope.

(** The methods of a component that the mixture calls (lib.rs:86-160
    Distribution; 232-261 ContinuousDistribution; statistics.rs:7-32 UvMoments).
    [CP] is C::Params, [Sp] is C::Support, [X] the value type of the support;
    [c_union] is [union_closure] of the external crate spaces (mixture.rs:101)
    and [c_from] is From<C::Params>. *)
Class Component (F S C CP Sp X : Type) := {
  c_cdf : C -> X -> res (Probability F);
  c_pdf : C -> X -> res F;
  c_mean : C -> res F;
  c_variance : C -> res F;
  c_sample : C -> S -> res (X * S);
  c_support : C -> Sp;
  c_params : C -> CP;
  c_from : CP -> C;
  c_union : Sp -> Sp -> Sp
}.

Module Mixture.
Section Model.
Context {F S C CP Sp X : Type} {SF : Scalar F} {K : Component F S C CP Sp X}.

(** mixture.rs:19-22 *)
Record params := mkP { ps : list F; component_params : list CP }.
(** mixture.rs:56-65 *)
Record t := mk { weights : list F; components : list C; support : Sp }.
(** [failure::Error] as produced by [new] (mixture.rs:24-28 and probability.rs) *)
Inductive error := IncompatibleParameters | EWeights (e : ProbError F).

(** mixture.rs:97-102: [components[0]] is out of bounds for N = 0 *)
Definition compute_support (cs : list C) : res Sp :=
  match cs with
  | [] => Panic
  | c :: cs => Ret (fold_left (fun acc c => c_union acc (c_support c)) cs (c_support c))
  end.
(** mixture.rs:73-84: the support is computed first, then the weights are checked.
    (The two arrays have the same const length; the test of line 74 is kept.) *)
Definition new (ws : list F) (cs : list C) : res (result t error) :=
  if Nat.eqb (List.length cs) (List.length ws) then
    let! s := compute_support cs in
    Ret (let? w := map_err EWeights (simplex_new ws) in Ok (mk w cs s))
  else Ret (Err IncompatibleParameters).
(** mixture.rs:86-93 *)
Definition new_unchecked (ws : list F) (cs : list C) : res t :=
  let! s := compute_support cs in Ret (mk ws cs s).

(** mixture.rs:110-128.  The uninitialised array is a list of N empty cells;
    [write_all] is the for_each of 115-117 ([components[i]] is bounds-checked);
    reading a cell that was never written is undefined behaviour ([None]). *)
Fixpoint set_cell (i : nat) (c : C) (cells : list (option C)) : option (list (option C)) :=
  match cells, i with
  | [], _ => None
  | _ :: cells, O => Some (Some c :: cells)
  | o :: cells, Datatypes.S i => option_map (cons o) (set_cell i c cells)
  end.
Fixpoint write_all (i : nat) (cs : list C) (cells : list (option C)) : res (list (option C)) :=
  match cs with
  | [] => Ret cells
  | c :: cs => match set_cell i c cells with
               | None => Panic
               | Some cells => write_all (Datatypes.S i) cs cells
               end
  end.
Fixpoint read_all (cells : list (option C)) : option (list C) :=
  match cells with
  | [] => Some []
  | None :: _ => None
  | Some c :: cells => option_map (cons c) (read_all cells)
  end.
(** [None] is undefined behaviour *)
Definition from_params (n : nat) (p : params) : option (res t) :=
  match write_all 0 (map c_from (component_params p)) (repeat None n) with
  | Ret cells =>
      match read_all cells with
      | None => None
      | Some cs => Some (let! s := compute_support cs in Ret (mk (ps p) cs s))
      end
  | Panic => Some Panic
  | Diverge => Some Diverge
  end.

(** mixture.rs:139-144 *)
Definition get_params (d : t) : params := mkP (weights d) (map c_params (components d)).

(** the [zip().map().sum()] of 147-152 and 174-178, for any per-component method;
    terms are evaluated and added one at a time *)
Fixpoint weighted_sum (acc : F) (g : C -> res F) (cs : list C) (ws : list F) : res F :=
  match cs, ws with
  | c :: cs, w :: ws => let! v := g c in weighted_sum (acc + w * v) g cs ws
  | _, _ => Ret acc
  end.
(** mixture.rs:146-155; [p * c.cdf(x)] is f64 * Probability *)
Definition cdf (d : t) (x : X) : res (Probability F) :=
  let! p := weighted_sum #0 (fun c => rmap unwrap (c_cdf c x)) (components d) (weights d) in
  Ret (p_new_unchecked p).
(** mixture.rs:173-179 *)
Definition pdf (d : t) (x : X) : res F := weighted_sum #0 (fun c => c_pdf c x) (components d) (weights d).
(** mixture.rs:187-192 *)
Definition mean (d : t) : res F := weighted_sum #0 c_mean (components d) (weights d).
(** mixture.rs:194-211 *)
Fixpoint var_fold (acc : F * F) (cs : list C) (ws : list F) : res (F * F) :=
  match cs, ws with
  | c :: cs, p :: ws =>
      let! m := c_mean c in
      let! v := c_variance c in
      var_fold (fst acc + p * m, snd acc + p * (m * m + v)) cs ws
  | _, _ => Ret acc
  end.
Definition variance (d : t) : res F :=
  let! (m, v) := var_fold (#0, #0) (components d) (weights d) in Ret (v - m * m).
(** mixture.rs:212-214: todo!(); excess_kurtosis is the default (statistics.rs:30) *)
Definition skewness (d : t) : res F := Panic.
Definition kurtosis (d : t) : res F := Panic.
(** mixture.rs:157-159: indexing is bounds-checked *)
Definition sample {R : Rng S F} (d : t) (s : S) : res (X * S) :=
  let! (i, s) := sample_index (weights d) s in
  match nth_error (components d) i with
  | None => Panic
  | Some c => c_sample c s
  end.
End Model.
End Mixture.

(** Instance: Mixture<N, UvNormal> (normal/univariate.rs:85-136); every
    component has support Reals, whose union with itself is itself. *)
From Verif.Model Require Import Consts Continuous2.
Definition normal_component {F S} {SF : Scalar F} {SP : Special F} {R : Rng S F} :
  Component F S (UvNormal.t F) (UvNormal.Params F) (Space F) F := {|
  c_cdf d x := Ret (UvNormal.cdf d x); c_pdf d x := Ret (UvNormal.pdf d x);
  c_mean d := Ret (UvNormal.mean d); c_variance d := Ret (UvNormal.variance d);
  c_sample d s := Ret (UvNormal.sample d s); c_support := UvNormal.support;
  c_params := UvNormal.params; c_from := UvNormal.from; c_union a _ := a |}.
