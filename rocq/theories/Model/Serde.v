(** * utils.rs:29-90, the serde support for fixed-size arrays, and the derived
      (De)Serialize of Probability and SimplexVector

    Serde's traits are modelled by their methods: a Serializer is a state with
    fallible steps, a SeqAccess a state whose [next] yields an element, the end
    of the sequence, or an error.  Arrays [T; N] are lists of length N. *)
From Coq Require Import List Arith ZArith.
From Verif.Model Require Import Rust Probability.
Import ListNotations.

Section Ser.
Context {T W O E : Type}.
(** serde::Serializer::serialize_tuple, SerializeTuple::{serialize_element, end} *)
Record TupleSerializer := mkSer { ser_tuple : nat -> result W E; ser_elem : W -> T -> result W E; ser_end : W -> result O E }.
(** utils.rs:45-47: the for loop with `?` *)
Fixpoint ser_loop (S : TupleSerializer) (s : W) (data : list T) : result W E :=
  match data with [] => Ok s | item :: data => let? s := ser_elem S s item in ser_loop S s data end.
(** utils.rs:38-50 ([n] is the const generic N) *)
Definition serialize (S : TupleSerializer) (n : nat) (data : list T) : result O E :=
  let? s := ser_tuple S n in let? s := ser_loop S s data in ser_end S s.
End Ser.
Arguments TupleSerializer : clear implicits.

Section De.
Context {T St E : Type}.
(** serde::de::SeqAccess::next_element *)
Definition SeqAccess := St -> result (option T) E * St.
(** utils.rs:69-75: `for _ in 0..N` pushing to a Vec; [None] is invalid_length(N) *)
Fixpoint visit_loop (next : SeqAccess) (invalid_length : nat -> E) (N : nat) (k : nat) (data : list T) (s : St) : result (list T) E * St :=
  match k with
  | O => (Ok data, s)
  | S k => match next s with
           | (Ok (Some v), s) => visit_loop next invalid_length N k (data ++ [v]) s
           | (Ok None, s) => (Err (invalid_length N), s)
           | (Err e, s) => (Err e, s)
           end
  end.
(** utils.rs:62-81: Vec -> [T; N] succeeds exactly for length N, and the other
    arm is unreachable!() *)
Definition visit_seq (next : SeqAccess) (invalid_length : nat -> E) (N : nat) (s : St) : res (result (list T) E * St) :=
  match visit_loop next invalid_length N N [] s with
  | (Err e, s) => Ret (Err e, s)
  | (Ok data, s) => if Nat.eqb (length data) N then Ret (Ok data, s) else Panic
  end.
(** utils.rs:83-89: deserialize_tuple(N, visitor), where the deserializer may
    refuse or hand the visitor a sequence *)
Definition deserialize (open : nat -> result St E) (next : SeqAccess) (invalid_length : nat -> E) (N : nat) : res (result (list T) E) :=
  match open N with Err e => Ret (Err e) | Ok s => let! r := visit_seq next invalid_length N s in Ret (fst r) end.
End De.
Arguments SeqAccess : clear implicits.

Section Prob.
Context {F E : Type}.
(** probability.rs:22-28: derive(Deserialize) on a newtype struct: the inner
    f64's deserialisation, wrapped; no validation *)
Definition prob_deserialize (inner : result F E) : result (Probability F) E := map_ok Prob inner.
Definition prob_serialize (p : Probability F) : F := unwrap p.
(** probability.rs:314-327: SimplexVector, serialised with serde_arrays, wrapped *)
Definition simplex_deserialize (inner : res (result (list F) E)) : res (result (list F) E) := inner.
End Prob.
