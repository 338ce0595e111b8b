(** * Two-dimensional normals: /repo/src/normal/paired.rs and bivariate.rs.

    [[f64; 2]] is a pair here, [[[f64; 2]; 2]] a list of two lists. *)
From Verif.Model Require Import Rust Constraints Probability Params Consts.
Open Scope rust_scope.

(** a two-element array as the list the array constraints look at *)
Definition arr2 {A} (p : A * A) : list A := [fst p; snd p].

(** normal/paired.rs *)
Module PairedNormal.
Section M.
Context {F : Type} {SF : Scalar F}.
(** normal/mod.rs:175-188 at M = S = [f64; 2]; paired.rs:19, 36 *)
Record Params := mkP { mu : F * F; Sigma : F * F }.
Record t := mk { pr : Params }.
(** paired.rs:21-28; Loc::new accepts everything *)
Definition params_paired (m s : F * F) : result Params (Error F) :=
  let? m := map_err EConstraint (loc_new m) in
  let? _ := paired_new (arr2 s) in Ok (mkP m s).
(** paired.rs:43-62, 75-81, 89 *)
Definition new (m s : F * F) : result t (Error F) := map_ok mk (params_paired m s).
Definition new_unchecked (m s : F * F) : t := mk (mkP m s).
Definition isotropic (m : F * F) (s : F) : result t (Error F) := new m (s, s).
Definition isotropic_unchecked (m : F * F) (s : F) : t := new_unchecked m (s, s).
Definition standard : t := isotropic_unchecked (#0, #0) #1.
Definition default : t := standard.
Definition from (p : Params) : t := mk p.
Definition params (d : t) : Params := pr d.
(** paired.rs:65-72 *)
Definition z (d : t) (x : F * F) : F :=
  let '(mkP mu Sigma) := pr d in
  let diff_0 := fst x - fst mu in
  let diff_1 := snd x - snd mu in
  fpowi diff_0 2 / fst Sigma + fpowi diff_1 2 / snd Sigma.
(** paired.rs:87, 91 *)
Definition support (d : t) : list (Space F) := [Reals; Reals].
Definition cdf (d : t) (x : F * F) : res (Probability F) := Panic.
(** paired.rs:93-102 *)
Definition sample {S} {R : Rng S F} (d : t) (s : S) : (F * F) * S :=
  let (z1, s) := draw_std_normal s in
  let (z2, s) := draw_std_normal s in
  let '(mkP mu Sigma) := pr d in
  ((fst mu + fsqrt (fst Sigma) * z1, snd mu + fsqrt (snd Sigma) * z2), s).
(** paired.rs:106-113 *)
Definition pdf (d : t) (x : F * F) : F :=
  let z := z d x in
  let Sigma := Sigma (pr d) in
  let norm := PI_2 * fsqrt (fst Sigma) * fsqrt (snd Sigma) in
  fexp (- z / #2) / norm.
(** paired.rs:119-132, 136 *)
Definition mean (d : t) : F * F := mu (pr d).
Definition covariance (d : t) : list (list F) := let S := Sigma (pr d) in [[fst S; #0]; [#0; snd S]].
Definition variance (d : t) : F * F := Sigma (pr d).
Definition correlation (d : t) : list (list F) := [[#1; #0]; [#0; #1]].
Definition modes (d : t) : list (F * F) := [mu (pr d)].
(** paired.rs:140-144: [0.5 * Sigma[0] * Sigma[1]] *)
Definition shannon_entropy (d : t) : F :=
  let S := Sigma (pr d) in #1 + fln PI_2 + ONE_HALF * fst S * snd S.
(** paired.rs:148-157 *)
Definition log_likelihood (d : t) (xs : list (F * F)) : F :=
  let '(mkP mu Sigma) := pr d in
  let ln_det := fln (fst Sigma * snd Sigma) in
  let no2 := f_of_Z (Z.of_nat (List.length xs)) / #2 in
  - no2 * (ln_det + #2 * fln PI_2
           + fsum (map (fun x => fpowi (fst x - fst mu) 2 / fst Sigma + fpowi (snd x - snd mu) 2 / snd Sigma) xs)).
(** paired.rs:30: PairedNormalGrad *)
Record Grad := mkG { g_mu : F * F; g_Sigma : F * F }.
(** paired.rs:163-183 *)
Definition score (d : t) (xs : list (F * F)) : Grad :=
  let '(mkP mu Sigma) := pr d in
  let n := f_of_Z (Z.of_nat (List.length xs)) in
  let '(sum, sum_sq) := fold_left (fun '(s, ss) x =>
      let d := (fst x - fst mu, snd x - snd mu) in
      ((fst s + fst d, snd s + snd d), (fst ss + fst d * fst d, snd ss + snd d * snd d)))
    xs ((#0, #0), (#0, #0)) in
  mkG (fst sum / fst Sigma, snd sum / snd Sigma)
      ((fst sum_sq / fst Sigma - n) / fsqrt (fst Sigma), (snd sum_sq / snd Sigma - n) / fsqrt (snd Sigma)).
End M.
Arguments Params : clear implicits.
Arguments t : clear implicits.
Arguments Grad : clear implicits.
End PairedNormal.

(** normal/bivariate.rs *)
Module BvNormal.
Section M.
Context {F : Type} {SF : Scalar F}.
(** normal/mod.rs:175-188 at M = [f64; 2], S = ([f64; 2], f64); bivariate.rs:18, 49 *)
Record Params := mkP { mu : F * F; s2 : F * F; rho : F }.
Record t := mk { pr : Params }.
(** bivariate.rs:20-27 *)
Definition params_bivariate (m s : F * F) (r : F) : result Params (Error F) :=
  let? m := map_err EConstraint (loc_new m) in
  let? (_, r) := bivariate_new (arr2 s) r in Ok (mkP m s r).
(** bivariate.rs:56-83, 101-107, 115 *)
Definition new (m s : F * F) (r : F) : result t (Error F) := map_ok mk (params_bivariate m s r).
Definition new_unchecked (m s : F * F) (r : F) : t := mk (mkP m s r).
Definition independent (m s : F * F) : result t (Error F) := map_ok mk (params_bivariate m s #0).
Definition independent_unchecked (m s : F * F) : t := new_unchecked m s #0.
Definition isotropic (m : F * F) (s : F) : result t (Error F) := independent m (s, s).
Definition isotropic_unchecked (m : F * F) (s : F) : t := independent_unchecked m (s, s).
Definition standard : t := isotropic_unchecked (#0, #0) #1.
Definition default : t := standard.
Definition from (p : Params) : t := mk p.
Definition params (d : t) : Params := pr d.
(** bivariate.rs:86-98 *)
Definition z (d : t) (x : F * F) : F :=
  let '(mkP mu s2 rho) := pr d in
  let diff_0 := fst x - fst mu in
  let diff_1 := snd x - snd mu in
  let q_term := fpowi diff_0 2 / fst s2
                - #2 * rho * diff_0 * diff_1 / fsqrt (fst s2) / fsqrt (snd s2)
                + fpowi diff_1 2 / snd s2 in
  let rho_term := #1 - rho * rho in
  q_term / rho_term.
(** bivariate.rs:113, 117 *)
Definition support (d : t) : list (Space F) := [Reals; Reals].
Definition cdf (d : t) (x : F * F) : res (Probability F) := Panic.
(** bivariate.rs:119-128 *)
Definition sample {S} {R : Rng S F} (d : t) (s : S) : (F * F) * S :=
  let (z1, s) := draw_std_normal s in
  let (z2, s) := draw_std_normal s in
  let '(mkP mu s2 rho) := pr d in
  ((fst mu + fsqrt (fst s2) * z1,
    snd mu + fsqrt (snd s2) * (z1 * rho + z2 * fsqrt (#1 - rho * rho))), s).
(** bivariate.rs:132-139 *)
Definition pdf (d : t) (x : F * F) : F :=
  let z := z d x in
  let '(mkP _ s2 rho) := pr d in
  let norm := PI_2 * fsqrt (fst s2) * fsqrt (snd s2) * fsqrt (#1 - rho * rho) in
  fexp (- z / #2) / norm.
(** bivariate.rs:145-163, 167 *)
Definition mean (d : t) : F * F := mu (pr d).
Definition covariance (d : t) : list (list F) :=
  let '(mkP _ s2 rho) := pr d in
  let cross_sigma := fsqrt (fst s2) * fsqrt (snd s2) in
  [[fst s2; rho * cross_sigma]; [rho * cross_sigma; snd s2]].
Definition variance (d : t) : F * F := s2 (pr d).
Definition correlation (d : t) : list (list F) := let rho := rho (pr d) in [[#1; rho]; [rho; #1]].
Definition modes (d : t) : list (F * F) := [mu (pr d)].
(** bivariate.rs:171-175 *)
Definition shannon_entropy (d : t) : F :=
  let '(mkP _ s2 rho) := pr d in #1 + fln PI_2 + ONE_HALF * fst s2 * snd s2 * (#1 - rho).
(** bivariate.rs:32, 34-43 *)
Record Grad := mkG { g_mu : F * F; g_s2 : F * F; g_rho : F }.
Definition grad_mul (g : Grad) (sf : F) : Grad :=
  mkG (fst (g_mu g) * sf, snd (g_mu g) * sf) (fst (g_s2 g) * sf, snd (g_s2 g)) (g_rho g * sf).
End M.
Arguments Params : clear implicits.
Arguments t : clear implicits.
Arguments Grad : clear implicits.
End BvNormal.
