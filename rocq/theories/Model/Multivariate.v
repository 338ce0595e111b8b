(** * /repo/src/multivariate/dirichlet.rs, lognormal.rs, multinomial.rs *)
From Verif.Model Require Import Rust Constraints Probability Params Consts Traits Linalg.
From Verif.Model Require MvNormal.
Open Scope rust_scope.

(** multivariate/dirichlet.rs *)
Module Dirichlet.
Section M.
Context {F : Type} {SF : Scalar F}.
(** dirichlet.rs:15-22 *)
Record t := mk { alphas : list F; alpha0 : F; ln_beta_alphas : F; alphas_normed : list F }.
(** dirichlet.rs:31-45, 49 *)
Definition new_unchecked {SP : Special F} (a : list F) : t :=
  let alpha0 := fsum a in
  mk a alpha0 (fold_left (fun acc a => acc + sf_loggamma a) a (- sf_loggamma alpha0)) (map (fun a => a / alpha0) a).
Definition from {SP : Special F} (a : list F) : t := new_unchecked a.
(** dirichlet.rs:25-29 *)
Definition new {SP : Special F} (a : list F) : result t (Error F) :=
  map_ok new_unchecked (map_err EConstraint (concentrations_new a)).
(** dirichlet.rs:56, 58, 60 *)
Definition support (d : t) : list (Space F) := repeat (Closed #0 #1) (List.length (alphas d)).
Definition params (d : t) : list F := alphas d.
Definition cdf (d : t) (x : list F) : res (Probability F) := Panic.
(** dirichlet.rs:62-81: [sum] accumulates the alphas.  [Gamma::new] fails, and
    the [unwrap] panics, for a shape that is not positive. *)
Fixpoint gamma_draws {S} {R : Rng S F} (sum : F) (a : list F) (s : S) : res ((F * list F) * S) :=
  match a with
  | [] => Ret ((sum, []), s)
  | a :: al =>
      if a >? #0 then
        let (g, s) := draw_gamma a #1 s in
        let! ((sum, gs), s) := gamma_draws (sum + a) al s in Ret ((sum, g :: gs), s)
      else Panic
  end.
Definition sample {S} {R : Rng S F} (d : t) (s : S) : res (list F * S) :=
  let! ((sum, gs), s) := gamma_draws #0 (alphas d) s in Ret (map (fun g => g / sum) gs, s).
(** dirichlet.rs:85-93 *)
Definition log_pdf (d : t) (xs : list F) : F :=
  fold_left (fun acc '(x, a) => acc + (a - #1) * fln x) (combine xs (alphas d)) (- ln_beta_alphas d).
Definition pdf (d : t) (xs : list F) : F := fexp (log_pdf d xs).
(** dirichlet.rs:99-105 *)
Definition mean (d : t) : list F := alphas_normed d.
Definition norm (d : t) : F := alpha0 d * alpha0 d * (alpha0 d + #1).
Definition variance (d : t) : list F := map (fun a => - a * (a - alpha0 d) / norm d) (alphas d).
(** dirichlet.rs:107-126 *)
Definition covariance (d : t) : list (list F) :=
  mtab (List.length (alphas d)) (fun i j =>
    if Nat.eqb i j then vget (alphas d) i * (alpha0 d - vget (alphas d) i) / norm d
    else - vget (alphas d) i * vget (alphas d) j / norm d).
(** statistics.rs:62-73: default *)
Definition correlation (d : t) : list (list F) := d_correlation (List.length (alphas d)) (covariance d).
(** dirichlet.rs:130-134 *)
Definition modes (d : t) : list (list F) :=
  let k := f_of_Z (Z.of_nat (List.length (alphas d))) in [map (fun a => (a - #1) / (alpha0 d - k)) (alphas d)].
End M.
Arguments t : clear implicits.
End Dirichlet.

(** multivariate/lognormal.rs: a multivariate Normal inside; [S] is the
    representation of its covariance.  The methods take the inner normal's
    method they call. *)
Module MvLogNormal.
Section M.
Context {F : Type} {SF : Scalar F}.
Notation N := (MvNormal.MvN F).
Notation mu := (fun d => MvNormal.mu (MvNormal.pr d)).
(** lognormal.rs:18-19 *)
Record t (S : Type) := mk { nrm : N S }.
Arguments mk {S}. Arguments nrm {S}.
(** lognormal.rs:21-61 *)
Definition new {LA : Lapack F} (m : list F) (Sg : list (list F)) := map_ok mk (MvNormal.new m Sg).
Definition new_unchecked {LA : Lapack F} (m : list F) (Sg : list (list F)) := mk (MvNormal.new_unchecked m Sg).
Definition diagonal (m s : list F) := map_ok mk (MvNormal.diagonal m s).
Definition diagonal_unchecked (m s : list F) := mk (MvNormal.diagonal_unchecked m s).
Definition isotropic (m : list F) (s : F) := map_ok mk (MvNormal.isotropic m s).
Definition isotropic_unchecked (m : list F) (s : F) := mk (MvNormal.isotropic_unchecked m s).
Definition homogeneous (n : nat) (m s : F) := map_ok mk (MvNormal.homogeneous n m s).
Definition homogeneous_unchecked (n : nat) (m s : F) := mk (MvNormal.homogeneous_unchecked n m s).
Definition standard (n : nat) := map_ok mk (MvNormal.standard n).
Definition standard_unchecked (n : nat) := mk (MvNormal.standard_unchecked n).
(** lognormal.rs:63-65, 67-72: From<Normal>, and From<Params> at the three covariances *)
Definition from_normal {S} (d : N S) : t S := mk d.
Definition from {LA : Lapack F} (p : MvNormal.MvParams F (list (list F))) := mk (MvNormal.from p).
Definition diagonal_from (p : MvNormal.MvParams F (list F)) := mk (MvNormal.diagonal_from p).
Definition isotropic_from (p : MvNormal.MvParams F F) := mk (MvNormal.isotropic_from p).
(** lognormal.rs:81, 83, 85 *)
Definition support {S} (d : t S) : list (Space F) := repeat PositiveReals (MvNormal.dim (nrm d)).
Definition params {S} (d : t S) := MvNormal.params (nrm d).
Definition cdf {S} (d : t S) (x : list F) : res (Probability F) := Panic.
(** lognormal.rs:87-89, 97-101 *)
Definition sample {G S} (nsample : N S -> G -> list F * G) (d : t S) (g : G) : list F * G :=
  let (x, g) := nsample (nrm d) g in (map fexp x, g).
Definition pdf {S} (npdf : N S -> list F -> F) (d : t S) (x : list F) : F := npdf (nrm d) (map fln x).
(** lognormal.rs:114-122 *)
Definition mean {S} (nvar : N S -> list F) (d : t S) : list F :=
  tab (MvNormal.dim (nrm d)) (fun i => fexp (vget (mu (nrm d)) i + vget (nvar (nrm d)) i / #2)).
(** lognormal.rs:128-136: update_index!, on the array being overwritten *)
Definition update_index (m : list F) (cov : list (list F)) (i j : nat) : list (list F) :=
  let x := vget m i + vget m j in
  let y := (mat_get cov i i + mat_get cov j j) / #2 in
  let z := fexp (mat_get cov i j) - #1 in
  mat_set cov i j (fexp (x + y) * z).
(** lognormal.rs:139-149 *)
Definition cov_loop (m : list F) (n : nat) (cov : list (list F)) : list (list F) :=
  fold_left (fun cov i =>
    let cov := fold_left (fun cov j => update_index m cov i j) (seq 0 i) cov in
    let cov := fold_left (fun cov j => update_index m cov i j) (seq (i + 1) (n - (i + 1))) cov in
    update_index m cov i i) (seq 0 n) cov.
(** lognormal.rs:124-152 *)
Definition covariance {S} (ncov : N S -> list (list F)) (d : t S) : list (list F) :=
  cov_loop (mu (nrm d)) (MvNormal.dim (nrm d)) (ncov (nrm d)).
(** lognormal.rs:154-162 *)
Definition variance {S} (nvar : N S -> list F) (d : t S) : list F :=
  tab (MvNormal.dim (nrm d)) (fun i =>
    fexp (#2 * vget (mu (nrm d)) i + vget (nvar (nrm d)) i) * (fexp (vget (nvar (nrm d)) i) - #1)).
(** statistics.rs:62-73: default *)
Definition correlation {S} (ncov : N S -> list (list F)) (d : t S) : list (list F) :=
  d_correlation (MvNormal.dim (nrm d)) (covariance ncov d).
End M.
Arguments t : clear implicits. Arguments mk {F S}. Arguments nrm {F S}.
End MvLogNormal.

(** multivariate/multinomial.rs; usize is [Z], checked *)
Module Multinomial.
Section M.
Context {F : Type} {SF : Scalar F}.
Notation Prb := (Probability F).
(** multinomial.rs:22-25, 48 *)
Record Params := mkP { n : Z; ps : list F }.
Record t := mk { pr : Params }.
(** multinomial.rs:28-44, 51-64 *)
Definition params_new (n : Z) (ps : list F) : result Params (Error F) :=
  let? n := map_err EConstraint (count_new n) in
  let? ps := map_err EProb (simplex_new ps) in Ok (mkP n ps).
Definition new (n : Z) (ps : list F) : result t (Error F) := map_ok mk (params_new n ps).
Definition new_unchecked (n : Z) (ps : list F) : t := mk (mkP n ps).
Definition from (p : Params) : t := mk p.
Definition params (d : t) : Params := pr d.
Definition n_categories (d : t) : nat := List.length (ps (pr d)).
(** multinomial.rs:70-82, 86, 88 *)
Definition support (d : t) : list (Space Z) := tab (n_categories d) (fun _ => Closed 0%Z (n (pr d))).
Definition cdf (d : t) (xs : list Z) : res Prb := Panic.
Definition sample {S} (d : t) (s : S) : res (list Z * S) := Panic.
(** multinomial.rs:93, 105: usize sums, checked *)
Fixpoint sum_usize (acc : Z) (xs : list Z) : res Z :=
  match xs with [] => Ret acc | x :: xs => let! acc := u64 (acc + x) in sum_usize acc xs end.
(** multinomial.rs:111-119 *)
Definition log_weight {SP : Special F} (d : t) (xs : list Z) : F :=
  let term_1 := sf_loggamma (f_of_Z (n (pr d)) + #1) in
  let term_2 := fold_left (fun acc '(x, p) =>
      let x_f64 := f_of_Z x in
      let xlogy := if Z.eqb x 0 then #0 else x_f64 * fln p in
      acc + xlogy - sf_loggamma (x_f64 + #1)) (combine xs (ps (pr d))) #0 in
  term_1 + term_2.
(** multinomial.rs:99-120: the length check compares N with N *)
Definition log_pmf {SP : Special F} (d : t) (xs : list Z) : res F :=
  let! _ := unwrap_ok (check (Equal (Z.of_nat (n_categories d))) (Z.of_nat (List.length xs))) in
  let! s := sum_usize 0 xs in
  if Z.eqb s (n (pr d)) then Panic else Ret (log_weight d xs).
(** multinomial.rs:92-97 *)
Definition pmf {SP : Special F} (d : t) (xs : list Z) : res Prb :=
  let! s := sum_usize 0 xs in
  if Z.eqb s 0 then Ret p_zero
  else let! l := log_pmf d xs in unwrap_ok (p_new (fexp l)).
(** multinomial.rs:126-128 *)
Definition mean (d : t) : list F := map (fun p => p * f_of_Z (n (pr d))) (ps (pr d)).
Definition variance (d : t) : list F := map (fun p => (p * (#1 - p)) * f_of_Z (n (pr d))) (ps (pr d)).
(** multinomial.rs:130-143 *)
Definition covariance (d : t) : list (list F) :=
  let n := f_of_Z (n (pr d)) in
  let p := vget (ps (pr d)) in
  mtab (n_categories d) (fun i j => if Nat.eqb i j then n * p i * (#1 - p i) else - n * p i * p j).
(** multinomial.rs:145-163 *)
Definition correlation (d : t) : list (list F) :=
  let p := vget (ps (pr d)) in
  mtab (n_categories d) (fun i j =>
    if Nat.eqb i j then #1 else - fsqrt (p i * p j / (#1 - p i) / (#1 - p j))).
End M.
Arguments Params : clear implicits.
Arguments t : clear implicits.
End Multinomial.
