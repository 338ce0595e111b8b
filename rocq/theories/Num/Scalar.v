(** * Scalar operations used by the Rust code.

    One field per primitive [f64] operation that occurs in /repo/src (method
    calls [x.sqrt()], [x.ln()] ..., arithmetic operators, comparisons and
    [as] casts).  No laws: the model is transcribed over this record and given
    two meanings, [XReal] (exact reals with IEEE special values) and [F64]
    (IEEE-754 binary64). *)
From Coq Require Export ZArith List Bool.
Export ListNotations.

Class Scalar (F : Type) := {
  f_of_Z : Z -> F;          (* integer literal / [as f64] *)
  fpi : F;                  (* std::f64::consts::PI *)
  fe : F;                   (* std::f64::consts::E *)
  finf : F;                 (* std::f64::INFINITY *)
  fadd : F -> F -> F;
  fsub : F -> F -> F;
  fmul : F -> F -> F;
  fdiv : F -> F -> F;
  frem : F -> F -> F;       (* % *)
  fneg : F -> F;
  fabs : F -> F;
  fsqrt : F -> F;
  ffloor : F -> F;
  fround : F -> F;          (* half away from zero *)
  fexp : F -> F;
  fln : F -> F;
  flog2 : F -> F;
  fsin : F -> F;
  fcos : F -> F;
  ftan : F -> F;
  fasin : F -> F;
  fatan : F -> F;
  fpowf : F -> F -> F;
  fpowi : F -> Z -> F;
  fsignum : F -> F;
  fmax : F -> F -> F;
  fltb : F -> F -> bool;    (* < *)
  fleb : F -> F -> bool;    (* <= *)
  feqb : F -> F -> bool;    (* == *)
  fisinf : F -> bool;       (* classify() == FpCategory::Infinite *)
  fsignneg : F -> bool;     (* is_sign_negative() *)
  f_to_Z : Z -> Z -> F -> Z (* saturating [as] cast into [lo, hi], NaN -> 0 *)
}.

(** Functions of the external crate [special_fun] (an oracle: nothing is
    assumed about it here). *)
Class Special (F : Type) := {
  sf_gamma : F -> F;
  sf_loggamma : F -> F;
  sf_beta : F -> F -> F;
  sf_logbeta : F -> F -> F;
  sf_betainc : F -> F -> F -> F;
  sf_gammainc : F -> F -> F;
  sf_digamma : F -> F;
  sf_erf : F -> F;
  sf_erfc : F -> F;
  sf_norm : F -> F;
  sf_norm_inv : F -> F;
  sf_riemann_zeta : F -> F;
  sf_hyp2f1 : F -> F -> F -> F -> F
}.

Declare Scope rust_scope.
Delimit Scope rust_scope with rs.
Infix "+" := fadd : rust_scope.
Infix "-" := fsub : rust_scope.
Infix "*" := fmul : rust_scope.
Infix "/" := fdiv : rust_scope.
Notation "- x" := (fneg x) : rust_scope.
Notation "# z" := (f_of_Z z%Z) (at level 2, z at level 1, format "# z") : rust_scope.
Infix "<?" := fltb : rust_scope.
Infix "<=?" := fleb : rust_scope.
Infix "=?" := feqb : rust_scope.
Notation "x >? y" := (fltb y x) : rust_scope.
Notation "x >=? y" := (fleb y x) : rust_scope.
Notation "x && y" := (andb x y) : rust_scope.
Notation "x || y" := (orb x y) : rust_scope.
