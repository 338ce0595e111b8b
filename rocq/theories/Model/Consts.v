(** * /repo/src/consts.rs (lines 2-35) and the support spaces *)
From Verif.Model Require Import Rust.
Open Scope rust_scope.

Section Consts.
Context {F : Type} {SF : Scalar F}.
(** consts.rs:4-10; [const] evaluation uses the same f64 operations *)
Definition PI_E : F := fpi * fe.
Definition PI_2 : F := fpi * #2.
Definition PI_E_2 : F := PI_E * #2.
Definition PI_16 : F := fpi * #16.
Definition PI_OVER_2 : F := fpi / #2.
Definition PI_OVER_4 : F := fpi / #4.
(** consts.rs:12-15 *)
Definition PI2 : F := fpi * fpi.
Definition PI3 : F := fpi * fpi * fpi.
Definition PI4 : F := fpi * fpi * fpi * fpi.
Definition PI5 : F := fpi * fpi * fpi * fpi * fpi.
(** consts.rs:10 *)
Definition PI2_OVER_6 : F := PI2 / #6.
(** consts.rs:17-19 *)
Definition ONE_OVER_PI : F := #1 / fpi.
Definition TWO_OVER_PI : F := #2 / fpi.
Definition TWO_OVER_PI2 : F := #2 / PI2.
(** consts.rs:21-35 *)
Definition ONE_HALF : F := #1 / #2.
Definition ONE_THIRD : F := #1 / #3.
Definition ONE_TWELTH : F := #1 / #12.
Definition ONE_TWENTY_FOURTH : F := #1 / #24.
Definition TWO_THIRDS : F := #2 / #3.
Definition THREE_HALVES : F := #3 / #2.
Definition THREE_FIFTHS : F := #3 / #5.
Definition SIX_FIFTHS : F := #6 / #5.
Definition NINE_FIFTHS : F := #9 / #5.
Definition TWELVE_FIFTHS : F := #12 / #5.
Definition TWENTY_ONE_FIFTHS : F := #21 / #5.
Definition TWENTY_SEVEN_FIFTHS : F := #27 / #5.
Definition NINETEEN_OVER_360 : F := #19 / #360.
End Consts.

(** The supports the crate returns: types of the external crate [spaces], kept
    symbolic ([Closed a b] is the closed interval, [LeftClosed a] is [a, oo)). *)
Inductive Space (T : Type) :=
| Reals | PositiveReals | NonNegativeReals
| Closed (a b : T) | LeftClosed (a : T)
| Naturals | NonNegativeIntegers | Integers | Binary.
Arguments Reals {T}. Arguments PositiveReals {T}. Arguments NonNegativeReals {T}.
Arguments Closed {T}. Arguments LeftClosed {T}.
Arguments Naturals {T}. Arguments NonNegativeIntegers {T}. Arguments Integers {T}. Arguments Binary {T}.
