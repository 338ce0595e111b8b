(** * Univariate distributions built on the gamma, beta and error functions
      (/repo/src/univariate/*.rs), one module per file.

    [undefined!(..)] (lib.rs:18-21) and [unimplemented!()] are panics.  The
    samplers delegated entirely to rand_distr's Beta, ChiSquared, FisherF and
    StudentT (beta.rs:61-67, chi_sq.rs:52-58, f_dist.rs:57-65,
    student_t.rs:56-62) are in Model/Samplers.v, the Display impls in
    Model/Display.v. *)
From Verif.Model Require Import Rust Constraints Probability Params Consts Traits LogFact Continuous Continuous2.
Open Scope rust_scope.

(** univariate/beta.rs *)
Module Beta.
Section M.
Context {F : Type} {SF : Scalar F}.
(** beta.rs:15-25 *)
Record Params := mkP { alpha : F; beta : F }.
Record t := mk { pr : Params }.
(** beta.rs:33-45, 53; From: lib.rs:175-177 *)
Definition new (x y : F) : result t (Error F) :=
  map_ok (fun '(x, (y, tt)) => mk (mkP x y)) (params_new (s2 PShape PShape) (x, (y, tt))).
Definition new_unchecked (x y : F) : t := mk (mkP x y).
Definition from (p : Params) : t := mk p.
Definition default : t := new_unchecked #1 #1.
Definition params (d : t) : Params := pr d.
Notation al d := (alpha (pr d)).
Notation be d := (beta (pr d)).

(** beta.rs:51 (Closed::unit()) *)
Definition support (d : t) : Space F := Closed #0 #1.
(** beta.rs:55-59: x.betainc(alpha, beta) *)
Definition cdf {SP : Special F} (d : t) (x : F) : Probability F := Prob (sf_betainc x (al d) (be d)).
(** beta.rs:71-78 *)
Definition pdf {SP : Special F} (d : t) (x : F) : F :=
  let '(a, b) := (al d, be d) in
  let numerator := fpowf x (a - #1) * fpowf (#1 - x) (b - #1) in
  let denominator := sf_beta a b in numerator / denominator.
(** beta.rs:84-114: as written, [-] binds weaker than [*] and [/] *)
Definition mean (d : t) : F := #1 / (#1 + be d / al d).
Definition variance (d : t) : F :=
  let '(a, b) := (al d, be d) in let apb := a + b in a * b / (apb * apb * (apb + #1)).
Definition skewness (d : t) : F :=
  let '(a, b) := (al d, be d) in let apb := a + b in
  #2 * (b - a) * fsqrt (apb + #1) / (apb + #2) / fsqrt (a * b).
Definition excess_kurtosis (d : t) : F :=
  let '(a, b) := (al d, be d) in
  let apb := a + b in let asb := a - b in let amb := a * b in
  let apbp2 := apb + #2 in
  #3 * asb * asb * (apb + #1) - amb * apbp2 / amb / apbp2 / (apb + #3).
(** beta.rs:118, 120-138; the decimal literals are read exactly *)
Definition quantile (d : t) (p : Probability F) : res F := Panic.
Definition median (d : t) : res F :=
  let '(a, b) := (al d, be d) in
  let tol := #1 / #10000000 in
  if fabs (a - b) <? tol then Ret (#1 / #2)
  else if (a >? #1) && (b >? #1) then Ret ((a - ONE_THIRD) / (a + b - TWO_THIRDS))
  else if fabs (a - #1) <? tol then Ret (#1 - fpowf #2 (- #1 / b))
  else if fabs (b - #1) <? tol then Ret (fpowf #2 (- #1 / a))
  else if (fabs (a - #3) <? tol) && (fabs (b - #2) <? tol) then Ret (#6142724318676105 / #10000000000000000)
  else if (fabs (a - #2) <? tol) && (fabs (b - #3) <? tol) then Ret (#38572756813238945 / #100000000000000000)
  else Panic.
(** beta.rs:142-152 *)
Definition modes (d : t) : list F :=
  let '(a, b) := (al d, be d) in
  if (a >? #1) && (b >? #1) then [(a - #1) / (a + b - #2)]
  else if (a <? #1) && (b <? #1) then [#0; #1] else [].
(** beta.rs:156-161 *)
Definition shannon_entropy {SP : Special F} (d : t) : F :=
  let '(a, b) := (al d, be d) in let '(am1, bm1) := (a - #1, b - #1) in
  sf_logbeta a b - am1 * sf_digamma a - bm1 * sf_digamma b + (am1 + bm1) * sf_digamma (a + b).
(** beta.rs:165-178; JITTER = 1e-9 *)
Definition JITTER : F := #1 / #1000000000.
Definition log_likelihood {SP : Special F} (d : t) (samples : list F) : F :=
  let n := f_of_Z (Z.of_nat (List.length samples)) in
  let '(a, b) := (al d, be d) in let '(am1, bm1) := (a - #1, b - #1) in
  fsum (map (fun x => am1 * fln (fmax x JITTER) + bm1 * fln (fmax (#1 - x) JITTER)) samples)
  - n * sf_logbeta a b.
(** beta.rs:20-23, 184-204 *)
Record Grad := mkG { g_alpha : F; g_beta : F }.
Definition score {SP : Special F} (d : t) (samples : list F) : Grad :=
  let '(a, b) := (al d, be d) in
  let apb_digamma := sf_digamma (a + b) in
  let a_digamma := sf_digamma a in
  let b_digamma := sf_digamma b in
  let '(ga, gb) := fold_left (fun '(acc0, acc1) x =>
     (acc0 + fln (fmax x JITTER) - a_digamma + apb_digamma,
      acc1 + fln (fmax (#1 - x) JITTER) - b_digamma + apb_digamma)) samples (#0, #0) in
  mkG ga gb.
End M.
Arguments Params : clear implicits.
Arguments t : clear implicits.
Arguments Grad : clear implicits.
End Beta.

(** univariate/gamma.rs *)
Module Gamma.
Section M.
Context {F : Type} {SF : Scalar F}.
(** gamma.rs:16-29 *)
Record Params := mkP { alpha : F; beta : F }.
Record t := mk { pr : Params }.
(** gamma.rs:37-49, 65; From: lib.rs:175-177 *)
Definition new (x y : F) : result t (Error F) :=
  map_ok (fun '(x, (y, tt)) => mk (mkP x y)) (params_new (s2 PShape PShape) (x, (y, tt))).
Definition new_unchecked (x y : F) : t := mk (mkP x y).
Definition from (p : Params) : t := mk p.
Definition default : t := new_unchecked #1 #1.
Definition params (d : t) : Params := pr d.
Notation al d := (alpha (pr d)).
Notation be d := (beta (pr d)).

(** gamma.rs:63 *)
Definition support (d : t) : Space F := PositiveReals.
(** gamma.rs:67-71 *)
Definition cdf {SP : Special F} (d : t) (x : F) : Probability F :=
  let '(a, b) := (al d, be d) in Prob (sf_gammainc a (b * x) / sf_gamma a).
(** gamma.rs:51-57, 73-79: rand_distr::Gamma::new(shape, scale) is called with (alpha, beta) *)
Definition sample {S} {R : Rng S F} (d : t) (s : S) : F * S := draw_gamma (al d) (be d) s.
(** gamma.rs:83-87 *)
Definition pdf {SP : Special F} (d : t) (x : F) : F :=
  let '(a, b) := (al d, be d) in
  fpowf b a * fpowf x (a - #1) * fexp (- b * x) / sf_gamma a.
(** gamma.rs:93-107 *)
Definition mean (d : t) : F := al d / be d.
Definition variance (d : t) : F := al d / be d / be d.
Definition skewness (d : t) : F := #2 / fsqrt (al d).
Definition excess_kurtosis (d : t) : F := #6 / al d.
(** gamma.rs:111-116 *)
Definition modes (d : t) : res (list F) :=
  let a := al d in if a <? #1 then Panic else Ret [(a - #1) / be d].
(** gamma.rs:120-124 *)
Definition shannon_entropy {SP : Special F} (d : t) : F :=
  let '(a, b) := (al d, be d) in a - fln b + fln (sf_gamma a) + (#1 - a) * sf_digamma a.
(** gamma.rs:128-142; JITTER = 1e-9 *)
Definition JITTER : F := #1 / #1000000000.
Definition log_likelihood {SP : Special F} (d : t) (samples : list F) : F :=
  let n := f_of_Z (Z.of_nat (List.length samples)) in
  let '(a, b) := (al d, be d) in let am1 := a - #1 in
  let t1 := fsum (map (fun x => am1 * fln (x + JITTER) - b * (#1 - x)) samples) in
  t1 - n * (a * fmax (#1 / b) JITTER + fln (sf_gamma a)).
(** gamma.rs:24-27, 148-164 *)
Record Grad := mkG { g_alpha : F; g_beta : F }.
Definition score {SP : Special F} (d : t) (samples : list F) : Grad :=
  let n := f_of_Z (Z.of_nat (List.length samples)) in
  let '(a, b) := (al d, be d) in
  let a_digamma := sf_digamma a in
  let '(ga, gb) := fold_left (fun '(acc0, acc1) x =>
     (acc0 + fln (fmax (x / b) JITTER), acc1 - x)) samples (#0, #0) in
  mkG (ga - n * a_digamma) (gb + n * a / b).
(** gamma.rs:170-177: the shapes are required to be equal, the second rate is ignored *)
Definition convolve (d rv : t) : result t (Error F) :=
  let '(a1, beta) := (al d, be d) in
  let a2 := al rv in
  let? _ := map_err EConstraint (check (Equal a2) a1) in
  Ok (new_unchecked (a1 + a2) beta).
(** gamma.rs:183-190 *)
Definition convolve_exponential (d : t) (rv : Exponential.t F) : result t (Error F) :=
  let '(alpha, beta) := (al d, be d) in
  let lambda := Exponential.lambda (Exponential.pr rv) in
  let? _ := map_err EConstraint (check (Equal beta) lambda) in
  Ok (new_unchecked (alpha + #1) beta).
End M.
Arguments Params : clear implicits.
Arguments t : clear implicits.
Arguments Grad : clear implicits.
End Gamma.

(** univariate/inverse_gamma.rs *)
Module InvGamma.
Section M.
Context {F : Type} {SF : Scalar F}.
(** inverse_gamma.rs:12-20 *)
Record Params := mkP { alpha : F; beta : F }.
Record t := mk { pr : Params }.
(** inverse_gamma.rs:28-40, 48; From: lib.rs:175-177 *)
Definition new (x y : F) : result t (Error F) :=
  map_ok (fun '(x, (y, tt)) => mk (mkP x y)) (params_new (s2 PShape PShape) (x, (y, tt))).
Definition new_unchecked (x y : F) : t := mk (mkP x y).
Definition from (p : Params) : t := mk p.
Definition default : t := new_unchecked #1 #1.
Definition params (d : t) : Params := pr d.
Notation al d := (alpha (pr d)).
Notation be d := (beta (pr d)).

(** inverse_gamma.rs:46 *)
Definition support (d : t) : Space F := PositiveReals.
(** inverse_gamma.rs:50-56 *)
Definition cdf {SP : Special F} (d : t) (x : F) : Probability F :=
  Prob (sf_gammainc (al d) (be d / x) / sf_gamma (al d)).
(** inverse_gamma.rs:58 *)
Definition sample {S} (d : t) (s : S) : res (F * S) := Panic.
(** inverse_gamma.rs:62-68 *)
Definition pdf {SP : Special F} (d : t) (x : F) : F :=
  fpowf (be d) (al d) * fpowf x (- al d - #1) * fexp (- be d / x) / sf_gamma (al d).
(** inverse_gamma.rs:74-105 *)
Definition mean (d : t) : res F :=
  let a := al d in if a <=? #1 then Panic else Ret (be d / (a - #1)).
Definition variance (d : t) : res F :=
  let a := al d in if a <=? #2 then Panic else
  let am1 := a - #1 in let b := be d in Ret (b * b / am1 / am1 / (a - #2)).
Definition skewness (d : t) : res F :=
  let a := al d in if a <=? #3 then Panic else Ret (#4 * fsqrt (a - #2) / (a - #3)).
Definition excess_kurtosis (d : t) : res F :=
  let a := al d in if a <=? #4 then Panic else Ret ((#30 * a - #66) / (a - #3) / (a - #4)).
(** inverse_gamma.rs:109-113 *)
Definition modes (d : t) : list F := [be d / (al d + #1)].
(** inverse_gamma.rs:117-123 *)
Definition shannon_entropy {SP : Special F} (d : t) : F :=
  al d + fln (be d * sf_gamma (al d)) - (#1 + al d) * sf_digamma (al d).
End M.
Arguments Params : clear implicits.
Arguments t : clear implicits.
End InvGamma.

(** univariate/beta_prime.rs *)
Module BetaPrime.
Section M.
Context {F : Type} {SF : Scalar F}.
(** beta_prime.rs:12-20 *)
Record Params := mkP { alpha : F; beta : F }.
Record t := mk { pr : Params }.
(** beta_prime.rs:28-40, 48; From: lib.rs:175-177 *)
Definition new (x y : F) : result t (Error F) :=
  map_ok (fun '(x, (y, tt)) => mk (mkP x y)) (params_new (s2 PShape PShape) (x, (y, tt))).
Definition new_unchecked (x y : F) : t := mk (mkP x y).
Definition from (p : Params) : t := mk p.
Definition default : t := new_unchecked #1 #1.
Definition params (d : t) : Params := pr d.
Notation al d := (alpha (pr d)).
Notation be d := (beta (pr d)).

(** beta_prime.rs:46 *)
Definition support (d : t) : Space F := PositiveReals.
(** beta_prime.rs:50-56 *)
Definition cdf {SP : Special F} (d : t) (x : F) : Probability F :=
  Prob (sf_betainc (x / (#1 + x)) (al d) (be d)).
(** beta_prime.rs:58 *)
Definition sample {S} (d : t) (s : S) : res (F * S) := Panic.
(** beta_prime.rs:62-71 *)
Definition pdf {SP : Special F} (d : t) (x : F) : F :=
  let '(a, b) := (al d, be d) in
  let numerator := fpowf x (a - #1) * fpowf (#1 + x) (- a - b) in
  let denominator := sf_beta a b in numerator / denominator.
(** beta_prime.rs:77-119 *)
Definition mean (d : t) : res F :=
  let '(a, b) := (al d, be d) in if b <=? #1 then Panic else Ret (a / (b - #1)).
Definition variance (d : t) : res F :=
  let '(a, b) := (al d, be d) in if b <=? #2 then Panic else
  let bm1 := b - #1 in Ret (a * (a + bm1) / (b - #2) / bm1 / bm1).
Definition skewness (d : t) : res F :=
  let '(a, b) := (al d, be d) in if b <=? #3 then Panic else
  let bm1 := b - #1 in
  Ret (#2 * (#2 * a + bm1) / (b - #3) * fsqrt ((b - #2) / (a * (a + bm1)))).
Definition excess_kurtosis (d : t) : F :=
  let '(a, b) := (al d, be d) in let bm1 := b - #1 in
  let numerator := #6 * (a + bm1) * (#5 * b - #11) + bm1 * bm1 * (b - #2) in
  let denominator := a * (a + bm1) * (b - #3) * (b - #4) in
  numerator / denominator.
(** beta_prime.rs:123-131 *)
Definition modes (d : t) : list F :=
  let '(a, b) := (al d, be d) in if a >=? #1 then [(a - #1) / (b + #1)] else [#0].
(** beta_prime.rs:135-143 *)
Definition shannon_entropy {SP : Special F} (d : t) : F :=
  let '(a, b) := (al d, be d) in let apb := a + b in
  sf_logbeta a b - (a - #1) * sf_digamma a - (b - #1) * sf_digamma b + (apb - #2) * sf_digamma apb.
End M.
Arguments Params : clear implicits.
Arguments t : clear implicits.
End BetaPrime.

(** univariate/chi.rs *)
Module Chi.
Section M.
Context {F : Type} {SF : Scalar F}.
(** chi.rs:16-23 *)
Record Params := mkP { k : Z }.
Record t := mk { pr : Params }.
(** chi.rs:31-35, 43; From: lib.rs:175-177 *)
Definition new (x : Z) : result t (Error F) :=
  map_ok (fun '(x, tt) => mk (mkP x)) (params_new (s1 PDOF) (x, tt)).
Definition new_unchecked (x : Z) : t := mk (mkP x).
Definition from (p : Params) : t := mk p.
Definition params (d : t) : Params := pr d.
(** chi.rs:25-29: get_k! *)
Definition kf (d : t) : F := f_of_Z (k (pr d)).

(** chi.rs:41 *)
Definition support (d : t) : Space F := PositiveReals.
(** chi.rs:45-47 *)
Definition cdf {SP : Special F} (d : t) (x : F) : Probability F :=
  Prob (sf_gammainc (kf d / #2) (x * x / #2)).
(** chi.rs:49 *)
Definition sample {S} (d : t) (s : S) : res (F * S) := Panic.
(** chi.rs:53-59 *)
Definition pdf {SP : Special F} (d : t) (x : F) : F :=
  let k := kf d in let ko2 := k / #2 in
  let norm := fpowf #2 (ko2 - #1) * sf_gamma ko2 in
  fpowf x (k - #1) * fexp (- x * x / #2) / norm.
(** chi.rs:65-92 *)
Definition mean {SP : Special F} (d : t) : F :=
  let k := kf d in fsqrt #2 * sf_gamma ((k + #1) / #2) / sf_gamma (k / #2).
Definition variance {SP : Special F} (d : t) : F := let k := kf d in let mu := mean d in k - mu * mu.
Definition skewness {SP : Special F} (d : t) : F :=
  let mu := mean d in let var := variance d in mu / fpowf var THREE_HALVES * (#1 - #2 * var).
Definition excess_kurtosis {SP : Special F} (d : t) : F :=
  let mu := mean d in let var := variance d in let std := fsqrt var in let sk := skewness d in
  #2 / var * (#1 - mu * std * sk - var).
(** chi.rs:96, 98-102 *)
Definition quantile (d : t) (p : Probability F) : res F := Panic.
Definition median (d : t) : F := let k := kf d in fsqrt (k * fpowi (#1 - #2 / #9 / k) 3).
(** chi.rs:106-114 *)
Definition modes (d : t) : list F :=
  let k := k (pr d) in if Z.leb 1 k then [fsqrt (f_of_Z (k - 1))] else [].
(** chi.rs:118-123 *)
Definition shannon_entropy {SP : Special F} (d : t) : F :=
  let k := kf d in let ko2 := k / #2 in
  fln (sf_gamma ko2) + (k - fln #2 - (k - #1) * sf_digamma ko2).
End M.
Arguments Params : clear implicits.
Arguments t : clear implicits.
Arguments new {F SF}.
End Chi.

(** univariate/chi_sq.rs *)
Module ChiSq.
Section M.
Context {F : Type} {SF : Scalar F}.
(** chi_sq.rs:16-23 *)
Record Params := mkP { k : Z }.
Record t := mk { pr : Params }.
(** chi_sq.rs:31-35, 43; From: lib.rs:175-177 *)
Definition new (x : Z) : result t (Error F) :=
  map_ok (fun '(x, tt) => mk (mkP x)) (params_new (s1 PDOF) (x, tt)).
Definition new_unchecked (x : Z) : t := mk (mkP x).
Definition from (p : Params) : t := mk p.
Definition params (d : t) : Params := pr d.
(** chi_sq.rs:25-29: get_k! *)
Definition kf (d : t) : F := f_of_Z (k (pr d)).

(** chi_sq.rs:41 *)
Definition support (d : t) : Space F := PositiveReals.
(** chi_sq.rs:45-50 *)
Definition cdf {SP : Special F} (d : t) (x : F) : Probability F :=
  let k := kf d in let ko2 := k / #2 in Prob (sf_gammainc ko2 (x / #2) / sf_gamma ko2).
(** chi_sq.rs:62-68 *)
Definition pdf {SP : Special F} (d : t) (x : F) : F :=
  let k := kf d in let ko2 := k / #2 in
  let norm := fpowf #2 ko2 * sf_gamma ko2 in
  fpowf x (ko2 - #1) * fexp (- x / #2) / norm.
(** chi_sq.rs:74-80: [2 * k] is a usize product *)
Definition mean (d : t) : F := kf d.
Definition variance (d : t) : res F := let! z := u64 (2 * k (pr d)) in Ret (f_of_Z z).
Definition skewness (d : t) : F := fsqrt (#8 / kf d).
Definition excess_kurtosis (d : t) : F := #12 / kf d.
(** chi_sq.rs:84, 86-90 *)
Definition quantile (d : t) (p : Probability F) : res F := Panic.
Definition median (d : t) : F := let k := kf d in k * fpowi (#1 - #2 / #9 / k) 3.
(** chi_sq.rs:94 *)
Definition modes (d : t) : list F := [f_of_Z (Z.max (k (pr d)) 2 - 2)].
(** chi_sq.rs:98-103 *)
Definition shannon_entropy {SP : Special F} (d : t) : F :=
  let k := kf d in let ko2 := k / #2 in
  ko2 + fln (#2 * sf_gamma ko2) + (#1 - ko2) * sf_digamma ko2.
(** chi_sq.rs:109-116 *)
Definition convolve (d rv : t) : res (result t (Error F)) :=
  let k1 := k (pr d) in let k2 := k (pr rv) in
  match check (Equal k2) k1 with
  | Err e => Ret (Err (EConstraint e))
  | Ok _ => let! z := u64 (k1 + k2) in Ret (Ok (new_unchecked z))
  end.
End M.
Arguments Params : clear implicits.
Arguments t : clear implicits.
End ChiSq.

(** univariate/f_dist.rs *)
Module FDist.
Section M.
Context {F : Type} {SF : Scalar F}.
(** f_dist.rs:14-22 *)
Record Params := mkP { d1 : Z; d2 : Z }.
Record t := mk { pr : Params }.
(** f_dist.rs:30-36, 44; From: lib.rs:175-177 *)
Definition new (x y : Z) : result t (Error F) :=
  map_ok (fun '(x, (y, tt)) => mk (mkP x y)) (params_new (s2 PDOF PDOF) (x, (y, tt))).
Definition new_unchecked (x y : Z) : t := mk (mkP x y).
Definition from (p : Params) : t := mk p.
Definition params (d : t) : Params := pr d.
Definition f1 (d : t) : F := f_of_Z (d1 (pr d)).
Definition f2 (d : t) : F := f_of_Z (d2 (pr d)).
(** f_dist.rs:42 *)
Definition support (d : t) : Space F := PositiveReals.
(** f_dist.rs:46-55 *)
Definition cdf {SP : Special F} (d : t) (x : F) : Probability F :=
  let '(d1, d2) := (f1 d, f2 d) in
  let x := d1 * x / (d1 * x + d2) in Prob (sf_betainc x (d1 / #2) (d2 / #2)).
(** f_dist.rs:69-79 *)
Definition pdf {SP : Special F} (d : t) (x : F) : F :=
  let '(d1, d2) := (f1 d, f2 d) in
  let numerator := fsqrt (fpowf (d1 * x) d1 * fpowf d2 d2 / fpowf (d1 * x + d2) (d1 + d2)) in
  let denominator := x * sf_beta (d1 / #2) (d2 / #2) in numerator / denominator.
(** f_dist.rs:85-136 *)
Definition mean (d : t) : res F :=
  if Z.leb (d2 (pr d)) 2 then Panic else let d2 := f2 d in Ret (d2 / (d2 - #2)).
Definition variance (d : t) : res F :=
  if Z.leb (d2 (pr d)) 4 then Panic else
  let '(d1, d2) := (f1 d, f2 d) in let d2m2 := d2 - #2 in
  Ret (#2 * d2 * d2 * (d1 + d2m2) / d1 / d2m2 / d2m2 / (d2 - #4)).
Definition skewness (d : t) : res F :=
  if Z.leb (d2 (pr d)) 4 then Panic else
  let '(d1, d2) := (f1 d, f2 d) in
  let numerator := (#2 * d1 + d2 - #2) * fsqrt (#8 * (d2 - #4)) in
  let denominator := (d2 - #6) * fsqrt (d1 * (d1 + d2 - #2)) in Ret (numerator / denominator).
Definition excess_kurtosis (d : t) : res F :=
  if Z.leb (d2 (pr d)) 4 then Panic else
  let '(d1, d2) := (f1 d, f2 d) in let d2m2 := d2 - #2 in
  let numerator := #12 * d1 * (#5 * d2 - #22) * (d1 + d2m2) + (d2 - #4) * d2m2 * d2m2 in
  let denominator := d1 * (d2 - #6) * (d2 - #8) * (d1 + d2m2) in Ret (numerator / denominator).
(** f_dist.rs:140-149 *)
Definition modes (d : t) : res (list F) :=
  if Z.leb (d1 (pr d)) 2 then Panic else
  let '(d1, d2) := (f1 d, f2 d) in Ret [(d1 - #2) / d1 * d2 / (d2 + #2)].
(** f_dist.rs:153-167 *)
Definition shannon_entropy {SP : Special F} (d : t) : F :=
  let '(d1, d2) := (f1 d, f2 d) in
  let d1o2 := d1 / #2 in let d2o2 := d2 / #2 in
  fln (sf_gamma d1o2) + fln (sf_gamma d2o2) - fln (sf_gamma ((d1 + d2) / #2))
    + (#1 - d1o2) * sf_digamma (#1 + d1o2)
    - (#1 - d2o2) * sf_digamma (#1 + d2o2)
    + ((d1 + d2) / #2) * sf_digamma ((d1 + d2) / #2)
    + fln (d1 / d2).
End M.
Arguments Params : clear implicits.
Arguments t : clear implicits.
End FDist.

(** univariate/student_t.rs *)
Module StudentT.
Section M.
Context {F : Type} {SF : Scalar F}.
(** student_t.rs:15-22: the degrees of freedom are a [Loc], i.e. unconstrained *)
Record Params := mkP { nu : F }.
Record t := mk { pr : Params }.
(** student_t.rs:30-34, 42; From: lib.rs:175-177 *)
Definition new (x : F) : result t (Error F) :=
  map_ok (fun '(x, tt) => mk (mkP x)) (params_new (s1 PLoc) (x, tt)).
Definition new_unchecked (x : F) : t := mk (mkP x).
Definition from (p : Params) : t := mk p.
Definition params (d : t) : Params := pr d.
(** student_t.rs:40 *)
Definition support (d : t) : Space F := Reals.
(** student_t.rs:44-54: the last factor multiplies, [a / b * c = (a / b) * c] *)
Definition cdf {SP : Special F} (d : t) (x : F) : Probability F :=
  let nu := nu (pr d) in
  let np1o2 := (nu + #1) / #2 in
  let hyp2f1 := sf_hyp2f1 (#1 / #2) np1o2 (#3 / #2) (- x * x / nu) in
  Prob (#1 / #2 + x * sf_gamma np1o2 * hyp2f1 / fsqrt (nu * fpi) * sf_gamma (nu / #2)).
(** student_t.rs:66-74 *)
Definition pdf {SP : Special F} (d : t) (x : F) : F :=
  let nu := nu (pr d) in
  let np1o2 := (nu + #1) / #2 in
  let norm := sf_gamma np1o2 / fsqrt (nu * fpi) / sf_gamma (nu / #2) in
  norm * fpowf (#1 + x * x / nu) (- np1o2).
(** student_t.rs:80-118 *)
Definition mean (d : t) : res F := if nu (pr d) <=? #1 then Panic else Ret #0.
Definition variance (d : t) : res F :=
  let nu := nu (pr d) in
  if nu <=? #1 then Panic else if nu <=? #2 then Panic else Ret (nu / (nu - #2)).
Definition skewness (d : t) : res F := if nu (pr d) <=? #3 then Panic else Ret #0.
Definition excess_kurtosis (d : t) : res F :=
  let nu := nu (pr d) in
  if nu <=? #2 then Panic else if nu <=? #4 then Panic else Ret (#6 / (nu - #4)).
(** student_t.rs:122, 124, 128 *)
Definition quantile (d : t) (p : Probability F) : res F := Panic.
Definition median (d : t) : F := #0.
Definition modes (d : t) : list F := [#0].
(** student_t.rs:132-140 *)
Definition shannon_entropy {SP : Special F} (d : t) : F :=
  let nu := nu (pr d) in let no2 := nu / #2 in let np1o2 := (nu + #1) / #2 in
  np1o2 * (sf_gamma np1o2 - sf_gamma no2) + (fsqrt nu * sf_beta no2 (#1 / #2)).
End M.
Arguments Params : clear implicits.
Arguments t : clear implicits.
End StudentT.

(** univariate/inverse_normal.rs *)
Module InvNormal.
Section M.
Context {F : Type} {SF : Scalar F}.
(** inverse_normal.rs:16-22, 26-30 *)
Record Params := mkP { mu : F; lambda : F }.
Record t := mk { pr : Params; std_norm : UvNormal.t F }.
(** inverse_normal.rs:38-51, 54-61, 69 *)
Definition new (x y : F) : result t (Error F) :=
  map_ok (fun '(x, (y, tt)) => mk (mkP x y) UvNormal.standard) (params_new (s2 PShape PShape) (x, (y, tt))).
Definition new_unchecked (x y : F) : t := mk (mkP x y) UvNormal.standard.
Definition from (p : Params) : t := mk p (UvNormal.new_unchecked #0 #1).
Definition params (d : t) : Params := pr d.
(** inverse_normal.rs:67 *)
Definition support (d : t) : Space F := PositiveReals.
(** inverse_normal.rs:71-82: both terms are taken at [inner_term] *)
Definition cdf {SP : Special F} (d : t) (x : F) : Probability F :=
  let '(mu, lambda) := (mu (pr d), lambda (pr d)) in
  let xom := x / mu in
  let lox_sqrt := fsqrt (lambda / x) in
  let inner_term := lox_sqrt * (xom - #1) in
  let term1 := unwrap (UvNormal.cdf (std_norm d) inner_term) in
  let term2 := fexp (#2 * lambda / mu) * unwrap (UvNormal.cdf (std_norm d) inner_term) in
  Prob (term1 + term2).
(** inverse_normal.rs:84-100: from the normal draw [nu] and the uniform draw [z] *)
Definition sample_of_draws (d : t) (nu z : F) : F :=
  let '(mu, lambda) := (mu (pr d), lambda (pr d)) in
  let y := nu * nu in
  let x := mu + mu * mu * y / #2 / lambda
    - mu / #2 / lambda * fsqrt (#4 * mu * lambda * y + mu * mu * y * y) in
  if z <? mu / (mu + x) then x else mu * mu / x.
Definition sample {S} {R : Rng S F} (d : t) (s : S) : F * S :=
  let (nu, s) := UvNormal.sample (std_norm d) s in
  let (z, s) := UniformF.sample (UniformF.new_unchecked #0 #1) s in (sample_of_draws d nu z, s).
(** inverse_normal.rs:104-112 *)
Definition pdf (d : t) (x : F) : F :=
  let '(mu, lambda) := (mu (pr d), lambda (pr d)) in
  let z := fsqrt (lambda / PI_2 / x / x / x) in
  let diff := x - mu in
  let exponent := (- lambda * diff * diff) / #2 / mu / mu / x in
  z * fexp exponent.
(** inverse_normal.rs:118-136 *)
Definition mean (d : t) : F := mu (pr d).
Definition variance (d : t) : F := let '(mu, lambda) := (mu (pr d), lambda (pr d)) in mu * mu * mu / lambda.
Definition skewness (d : t) : F := let '(mu, lambda) := (mu (pr d), lambda (pr d)) in #3 * fsqrt (mu / lambda).
Definition excess_kurtosis (d : t) : F := let '(mu, lambda) := (mu (pr d), lambda (pr d)) in #16 * mu / lambda.
(** inverse_normal.rs:140-147 *)
Definition modes (d : t) : list F :=
  let '(mu, lambda) := (mu (pr d), lambda (pr d)) in
  let term1 := fsqrt (#1 + #9 * mu * mu / #4 / lambda / lambda) in
  let term2 := #3 * mu / #2 / lambda in
  [mu * (term1 - term2)].
(** inverse_normal.rs:151 *)
Definition shannon_entropy (d : t) : F := fln (PI_E_2 * variance d) / #2.
End M.
Arguments Params : clear implicits.
Arguments t : clear implicits.
End InvNormal.

(** univariate/erlang.rs *)
Module Erlang.
Section M.
Context {F : Type} {SF : Scalar F}.
(** erlang.rs:14-22 *)
Record Params := mkP { k : Z; lambda : F }.
Record t := mk { pr : Params }.
(** erlang.rs:30-35, 42, 51; From: lib.rs:175-177 *)
Definition new (x : Z) (y : F) : result t (Error F) :=
  map_ok (fun '(x, (y, tt)) => mk (mkP x y)) (params_new (s2 PShapeZ PRate) (x, (y, tt))).
Definition new_unchecked (x : Z) (y : F) : t := mk (mkP x y).
Definition from (p : Params) : t := mk p.
Definition default : t := new_unchecked 1 #1.
Definition params (d : t) : Params := pr d.
(** erlang.rs:37-38, 49 *)
Definition mu (d : t) : F := #1 / lambda (pr d).
Definition support (d : t) : Space F := PositiveReals.
(** erlang.rs:53-57 *)
Definition log_cdf {SP : Special F} (d : t) (x : F) : res F :=
  let '(k, lambda) := (k (pr d), lambda (pr d)) in
  let! f := log_factorial_stirling k in Ret (fln (sf_gammainc (f_of_Z k) (lambda * x)) - f).
(** lib.rs:132-134: cdf is the default *)
Definition cdf {SP : Special F} (d : t) (x : F) : res (Probability F) := d_cdf (log_cdf d) x.
(** erlang.rs:59 *)
Definition sample {S} (d : t) (s : S) : res (F * S) := Panic.
(** erlang.rs:63-69: [(k - 1) as f64 * x]; [k - 1] is unsigned *)
Definition log_pdf (d : t) (x : F) : res F :=
  let '(k, lambda) := (k (pr d), lambda (pr d)) in
  let! km1 := u64 (k - 1) in
  let! f := log_factorial_stirling km1 in
  Ret (f_of_Z k * fln lambda + f_of_Z km1 * x - lambda * x - f).
(** lib.rs:253 (default) *)
Definition pdf (d : t) (x : F) : res F := rmap fexp (log_pdf d x).
(** erlang.rs:75-89 *)
Definition mean (d : t) : F := f_of_Z (k (pr d)) / lambda (pr d).
Definition variance (d : t) : F := f_of_Z (k (pr d)) / lambda (pr d) / lambda (pr d).
Definition skewness (d : t) : F := #2 / fsqrt (f_of_Z (k (pr d))).
Definition excess_kurtosis (d : t) : F := #6 / f_of_Z (k (pr d)).
(** erlang.rs:93-97 *)
Definition modes (d : t) : res (list F) :=
  let! km1 := u64 (k (pr d) - 1) in Ret [f_of_Z km1 / lambda (pr d)].
End M.
Arguments Params : clear implicits.
Arguments t : clear implicits.
End Erlang.

(** univariate/folded_normal.rs *)
Module FoldedNormal.
Section M.
Context {F : Type} {SF : Scalar F}.
(** folded_normal.rs:13-21 *)
Record Params := mkP { mu : F; sigma : F }.
Record t := mk { pr : Params }.
(** folded_normal.rs:29-42, 52-54, 62; From: lib.rs:175-177 *)
Definition new (x y : F) : result t (Error F) :=
  map_ok (fun '(x, (y, tt)) => mk (mkP x y)) (params_new (s2 PLoc PScale) (x, (y, tt))).
Definition new_unchecked (x y : F) : t := mk (mkP x y).
Definition from (p : Params) : t := mk p.
Definition half_normal (scale : F) : t := new_unchecked #0 scale.
Definition standard : t := new_unchecked #0 #1.
Definition default : t := standard.
Definition params (d : t) : Params := pr d.
(** folded_normal.rs:44-49, 60 *)
Definition precision (d : t) : F := let s := sigma (pr d) in #1 / s / s.
Definition support (d : t) : Space F := NonNegativeReals.
(** folded_normal.rs:64-73 *)
Definition cdf {SP : Special F} (d : t) (x : F) : Probability F :=
  let '(mu, sigma) := (mu (pr d), sigma (pr d)) in
  let sqrt_2 := fsqrt #2 in
  Prob (#1 / #2 * (sf_erf ((x + mu) / sigma / sqrt_2) + sf_erf ((x - mu) / sigma / sqrt_2))).
(** folded_normal.rs:75-84 *)
Definition sample {S} {R : Rng S F} (d : t) (s : S) : F * S :=
  let (x, s) := draw_normal (mu (pr d)) (sigma (pr d)) s in (fabs x, s).
(** folded_normal.rs:88-96 *)
Definition pdf (d : t) (x : F) : F :=
  let '(mu, sigma) := (mu (pr d), sigma (pr d)) in
  let norm := fsqrt PI_2 * sigma in
  let z_pos := (x + mu) / sigma in
  let z_neg := (x - mu) / sigma in
  fexp (- z_pos * z_pos / #2) / norm + fexp (- z_neg * z_neg / #2) / norm.
(** folded_normal.rs:102-116 *)
Definition mean {SP : Special F} (d : t) : F :=
  let '(mu, sigma) := (mu (pr d), sigma (pr d)) in
  let z := mu / sigma / fsqrt #2 in
  sigma * fsqrt TWO_OVER_PI * fexp (- z * z) + mu * sf_erf z.
Definition variance {SP : Special F} (d : t) : F :=
  let '(mu, sigma) := (mu (pr d), sigma (pr d)) in
  let mean := mean d in mu * mu + sigma * sigma - mean * mean.
(** folded_normal.rs:118-122 *)
Definition skewness (d : t) : res F := Panic.
Definition kurtosis (d : t) : res F := Panic.
Definition excess_kurtosis (d : t) : res F := Panic.
(** folded_normal.rs:126-134 *)
Definition modes (d : t) : list F :=
  let '(mu, sigma) := (mu (pr d), sigma (pr d)) in if mu <? sigma then [#0] else [mu].
End M.
Arguments Params : clear implicits.
Arguments t : clear implicits.
End FoldedNormal.
