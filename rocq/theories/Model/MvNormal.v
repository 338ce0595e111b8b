(** * /repo/src/normal/multivariate.rs *)
From Verif.Model Require Import Rust Constraints Probability Params Consts Traits Linalg.
Open Scope rust_scope.

Section M.
Context {F : Type} {SF : Scalar F}.
(** multivariate.rs:22-28 (M = [f64; N]); normal/mod.rs:175-188.  N is the
    length of [mu]. *)
Record MvParams (S : Type) := mkP { mu : list F; Sigma : S }.
Record MvN (S : Type) := mkN { pr : MvParams S; Sigma_det : F; Sigma_lt : S; precision : S }.
Arguments mkP {S}. Arguments mu {S}. Arguments Sigma {S}.
Arguments mkN {S}. Arguments pr {S}. Arguments Sigma_det {S}. Arguments Sigma_lt {S}. Arguments precision {S}.
(** normal/mod.rs:190-203 *)
Record MvGrad (S : Type) := mkG { g_mu : list F; g_Sigma : S }.
Arguments mkG {S}. Arguments g_mu {S}. Arguments g_Sigma {S}.

(** [iter().product()]: left fold from 1.0 *)
Definition fprod (l : list F) : F := fold_left fmul l #1.
Definition dim {S} (d : MvN S) : nat := List.length (mu (pr d)).
(** multivariate.rs:34, 41-45; 212, 414, 655 *)
Definition modes {S} (d : MvN S) : list (list F) := [mu (pr d)].
Definition shannon_entropy {S} (d : MvN S) : F :=
  ONE_HALF * (f_of_Z (Z.of_nat (dim d)) * (#1 + fln PI_2) + fln (Sigma_det d)).
Definition mean {S} (d : MvN S) : list F := mu (pr d).
Definition params {S} (d : MvN S) : MvParams S := pr d.
(** 177, 383, 624; 181, 387, 628: todo!() *)
Definition support {S} (d : MvN S) : list (Space F) := repeat Reals (dim d).
Definition cdf {S} (d : MvN S) (x : list F) : res (Probability F) := Panic.
(** 200-207, 402-409, 643-650: the three [pdf]s, given the squared distance *)
Definition pdf_with {S} (dist2 : MvN S -> list F -> F) (d : MvN S) (x : list F) : F :=
  let z := dist2 d x in
  let norm := fsqrt (fpowi PI_2 (as_i32 (Z.of_nat (dim d))) * Sigma_det d) in
  fexp (- z / #2) / norm.
(** N draws of a standard normal, in order *)
Fixpoint draw_normals {S} {R : Rng S F} (n : nat) (s : S) : list F * S :=
  match n with
  | O => ([], s)
  | Datatypes.S n => let (z, s) := draw_std_normal s in let (zs, s) := draw_normals n s in (z :: zs, s)
  end.
Definition zip_with {A B C} (f : A -> B -> C) (l : list A) (l' : list B) : list C :=
  map (fun p => f (fst p) (snd p)) (combine l l').

(** ** General covariance *)
Section General.
Context {LA : Lapack F}.
(** multivariate.rs:66-75 *)
Definition params_multivariate (m : list F) (Sg : list (list F)) : result (MvParams (list (list F))) (Error F) :=
  let? m := map_err EConstraint (loc_new m) in
  let? Sg := matrix_new Sg in Ok (mkP m Sg).
(** multivariate.rs:136-164, 168-170 *)
Definition new_unchecked (m : list F) (Sg : list (list F)) : MvN (list (list F)) :=
  let lt := cholesky Sg in
  let det := fpowi (fprod (tab (List.length m) (fun i => mat_get lt i i))) 2 in
  let prec := mm_square (inverse_lt lt) in
  mkN (mkP m Sg) det lt prec.
Definition from (p : MvParams (list (list F))) : MvN (list (list F)) := new_unchecked (mu p) (Sigma p).
(** multivariate.rs:112-120 *)
Definition new (m : list F) (Sg : list (list F)) : result (MvN (list (list F))) (Error F) :=
  map_ok from (params_multivariate m Sg).
(** multivariate.rs:183-197 *)
Definition sample {S} {R : Rng S F} (d : MvN (list (list F))) (s : S) : list F * S :=
  let (z, s) := draw_normals (dim d) s in
  let Az := mv_mult (Sigma_lt d) z in
  (zip_with fadd Az (mu (pr d)), s).
(** multivariate.rs:245-262 *)
Definition d_mahalanobis_squared (d : MvN (list (list F))) (x : list F) : F :=
  let z := zip_with fsub (mu (pr d)) x in
  let Az := mv_mult (precision d) z in
  fsum (zip_with fmul z Az).
Definition pdf : MvN (list (list F)) -> list F -> F := pdf_with d_mahalanobis_squared.
End General.
(** distance.rs:11 *)
Definition d_mahalanobis_of {S} (sq : MvN S -> list F -> F) (d : MvN S) (x : list F) : F := fsqrt (sq d x).
(** multivariate.rs:214, 216-224; correlation is the default (statistics.rs:62-73) *)
Definition covariance (d : MvN (list (list F))) : list (list F) := Sigma (pr d).
Definition variance (d : MvN (list (list F))) : list F := tab (dim d) (fun i => mat_get (Sigma (pr d)) i i).
Definition correlation (d : MvN (list (list F))) : list (list F) := d_correlation (dim d) (covariance d).
(** multivariate.rs:83-88 *)
Definition grad_mul (g : MvGrad (list (list F))) (sf : F) : MvGrad (list (list F)) :=
  mkG (map (fun x => x * sf) (g_mu g)) (map (map (fun x => x * sf)) (g_Sigma g)).

(** ** Diagonal covariance *)
(** multivariate.rs:279-293: [n_mu] and [n_sigma] are both the length of [mu] *)
Definition params_diagonal (m s : list F) : result (MvParams (list F)) (Error F) :=
  let? m := map_err EConstraint (loc_new m) in
  let? s := diagonal_new s in
  let n_mu := Z.of_nat (List.length m) in
  let n_sigma := Z.of_nat (List.length m) in
  let? _ := map_err (fun e => EConstraint (with_target e "n_mu")) (check (Equal n_sigma) n_mu) in
  Ok (mkP m s).
(** multivariate.rs:354-370, 374-376 *)
Definition diagonal_unchecked (m s : list F) : MvN (list F) :=
  mkN (mkP m s) (fprod s) s (map (fun v => #1 / v) s).
Definition diagonal_from (p : MvParams (list F)) : MvN (list F) := diagonal_unchecked (mu p) (Sigma p).
(** multivariate.rs:331-339 *)
Definition diagonal (m s : list F) : result (MvN (list F)) (Error F) := map_ok diagonal_from (params_diagonal m s).
(** multivariate.rs:389-399 *)
Fixpoint affine_draws {S} {R : Rng S F} (ms : list (F * F)) (s : S) : list F * S :=
  match ms with
  | [] => ([], s)
  | (m, l) :: ms => let (z, s) := draw_std_normal s in
                    let (xs, s) := affine_draws ms s in (m + l * z :: xs, s)
  end.
Definition diagonal_sample {S} {R : Rng S F} (d : MvN (list F)) (s : S) : list F * S :=
  affine_draws (combine (mu (pr d)) (Sigma_lt d)) s.
(** multivariate.rs:430-437 *)
Definition diagonal_mahalanobis_squared (d : MvN (list F)) (x : list F) : F :=
  fsum (zip_with (fun d si => d * si * si) (zip_with fsub x (mu (pr d))) (precision d)).
Definition diagonal_pdf : MvN (list F) -> list F -> F := pdf_with diagonal_mahalanobis_squared.
(** multivariate.rs:416-426 *)
Definition diagonal_covariance (d : MvN (list F)) : list (list F) :=
  mtab (dim d) (fun i j => if Nat.eqb i j then vget (Sigma (pr d)) i else #0).
Definition diagonal_variance (d : MvN (list F)) : list F := Sigma (pr d).
Definition diagonal_correlation (d : MvN (list F)) : list (list F) := d_correlation (dim d) (diagonal_covariance d).
(** multivariate.rs:301-306 *)
Definition diagonal_grad_mul (g : MvGrad (list F)) (sf : F) : MvGrad (list F) :=
  mkG (map (fun x => x * sf) (g_mu g)) (map (fun x => x * sf) (g_Sigma g)).

(** ** Isotropic covariance *)
(** multivariate.rs:454-459, 468-472, 480 *)
Definition params_isotropic (m : list F) (s : F) : result (MvParams F) (Error F) :=
  let? m := map_err EConstraint (loc_new m) in
  let? s := map_err EConstraint (isotropic_new s) in Ok (mkP m s).
Definition params_homogeneous (n : nat) (m s : F) : result (MvParams F) (Error F) :=
  let? _ := map_err EConstraint (check Natural (Z.of_nat n)) in params_isotropic (repeat m n) s.
Definition params_standard (n : nat) : result (MvParams F) (Error F) := params_homogeneous n #0 #1.
(** multivariate.rs:531-543, 615-617 *)
Definition isotropic_unchecked (m : list F) (s : F) : MvN F :=
  mkN (mkP m s) (fpowi s (as_i32 (Z.of_nat (List.length m)))) s (#1 / s).
Definition isotropic_from (p : MvParams F) : MvN F := isotropic_unchecked (mu p) (Sigma p).
(** multivariate.rs:515-519, 559-563, 575-577, 593-597, 609-611 *)
Definition isotropic (m : list F) (s : F) : result (MvN F) (Error F) := map_ok isotropic_from (params_isotropic m s).
Definition homogeneous (n : nat) (m s : F) : result (MvN F) (Error F) := map_ok isotropic_from (params_homogeneous n m s).
Definition homogeneous_unchecked (n : nat) (m s : F) : MvN F := isotropic_unchecked (repeat m n) s.
Definition standard (n : nat) : result (MvN F) (Error F) := map_ok isotropic_from (params_standard n).
Definition standard_unchecked (n : nat) : MvN F := homogeneous_unchecked n #0 #1.
(** multivariate.rs:630-640 *)
Definition isotropic_sample {S} {R : Rng S F} (d : MvN F) (s : S) : list F * S :=
  affine_draws (map (fun m => (m, Sigma_lt d)) (mu (pr d))) s.
(** multivariate.rs:673-678 *)
Definition isotropic_mahalanobis_squared (d : MvN F) (x : list F) : F :=
  fsum (zip_with (fun x y => (x - y) * precision d * precision d) x (mu (pr d))).
Definition isotropic_pdf : MvN F -> list F -> F := pdf_with isotropic_mahalanobis_squared.
(** multivariate.rs:657-669 *)
Definition isotropic_covariance (d : MvN F) : list (list F) :=
  mtab (dim d) (fun i j => if Nat.eqb i j then Sigma (pr d) else #0).
Definition isotropic_variance (d : MvN F) : list F := repeat (Sigma (pr d)) (dim d).
Definition isotropic_correlation (d : MvN F) : list (list F) := d_correlation (dim d) (isotropic_covariance d).
(** multivariate.rs:488-493 *)
Definition isotropic_grad_mul (g : MvGrad F) (sf : F) : MvGrad F := mkG (map (fun x => x * sf) (g_mu g)) (g_Sigma g * sf).
End M.
Arguments MvParams : clear implicits.
Arguments MvN : clear implicits.
Arguments MvGrad : clear implicits.
Arguments mkP {F S}. Arguments mu {F S}. Arguments Sigma {F S}.
Arguments mkN {F S}. Arguments pr {F S}. Arguments Sigma_det {F S}. Arguments Sigma_lt {F S}. Arguments precision {F S}.
Arguments mkG {F S}. Arguments g_mu {F S}. Arguments g_Sigma {F S}.
