(** * What a serde sequence yields and what a serializer is told, step by step *)
From Coq Require Import List Arith.
From Verif.Model Require Import Rust Serde.
Import ListNotations.

Section S.
Context {T St E : Type}.
(** repeatedly asking for the next element from [s] gives xs and leads to [s'] *)
Inductive yields (next : SeqAccess T St E) : St -> list T -> St -> Prop :=
| y_nil s : yields next s [] s
| y_cons s x s1 xs s2 : next s = (Ok (Some x), s1) -> yields next s1 xs s2 -> yields next s (x :: xs) s2.
Context {W O : Type}.
(** feeding the elements xs one by one leads the serializer from [w] to [w'] *)
Inductive accepts (S : TupleSerializer T W O E) : W -> list T -> W -> Prop :=
| a_nil w : accepts S w [] w
| a_cons w x w1 xs w2 : ser_elem S w x = Ok w1 -> accepts S w1 xs w2 -> accepts S w (x :: xs) w2.
(** the complete call sequence: a tuple of announced length n, the elements in
    order, end; output [o] *)
Definition writes (S : TupleSerializer T W O E) (n : nat) (xs : list T) (o : O) : Prop :=
  exists w w', ser_tuple S n = Ok w /\ accepts S w xs w' /\ ser_end S w' = Ok o.
(** a data format: what was written as an n-tuple can be read back as one *)
Definition faithful (S : TupleSerializer T W O E) (open : O -> nat -> result St E) (next : SeqAccess T St E) : Prop :=
  forall n xs o, length xs = n -> writes S n xs o -> exists s s', open o n = Ok s /\ yields next s xs s'.
End S.
