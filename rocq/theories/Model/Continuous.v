(** * Univariate continuous distributions with closed forms
      (/repo/src/univariate/*.rs), one module per Rust file *)
From Verif.Model Require Import Rust Constraints Probability Params Consts.
Open Scope rust_scope.

(** univariate/uniform.rs, the f64 half *)
Module UniformF.
Section M.
Context {F : Type} {SF : Scalar F}.
(** uniform.rs:26-29, 66-74 *)
Record Params := mkP { lb : F; width : F }.
Record t := mk { pr : Params; prob : F }.
(** uniform.rs:34-42, 46-51 *)
Definition params_new (l w : F) : result Params (UCE F) :=
  let? l := loc_new l in let? w := scale_new w in Ok (mkP l w).
(** uniform.rs:78-83, 91-96, 85-87, 100-105, 118 *)
Definition new (l w : F) : result t (UCE F) := map_ok (fun p => mk p (#1 / width p)) (params_new l w).
Definition from (p : Params) : t := mk p (#1 / width p).
Definition new_unchecked (l w : F) : t := from (mkP l w).
Definition default : t := mk (mkP #0 #1) #1.
Definition params (d : t) : Params := pr d.
(** uniform.rs:60-64 *)
Definition ub (d : t) : F := lb (pr d) + width (pr d).
(** uniform.rs:112-116 *)
Definition support (d : t) : Space F := Closed (lb (pr d)) (ub d).
(** uniform.rs:120-131 *)
Definition cdf (d : t) (x : F) : Probability F :=
  if x <? lb (pr d) then p_zero
  else if x >=? ub d then p_one
  else Prob ((x - lb (pr d)) * prob d).
(** uniform.rs:133-139 *)
Definition sample {S} {R : Rng S F} (d : t) (s : S) : F * S := draw_uniform_inclusive (lb (pr d)) (ub d) s.
(** uniform.rs:143-152 *)
Definition pdf (d : t) (x : F) : F := if (x <? lb (pr d)) || (x >? ub d) then #0 else prob d.
(** uniform.rs:158-170 *)
Definition mean (d : t) : F := lb (pr d) + width (pr d) / #2.
Definition variance (d : t) : F := width (pr d) * width (pr d) / #12.
Definition skewness (d : t) : F := #0.
Definition kurtosis (d : t) : F := NINE_FIFTHS.
Definition excess_kurtosis (d : t) : F := - SIX_FIFTHS.
(** uniform.rs:174, 176, 180 *)
Definition quantile (d : t) (p : Probability F) : F := lb (pr d) + p_mul_f p (width (pr d)).
Definition median (d : t) : F := lb (pr d) + width (pr d) / #2.
Definition shannon_entropy (d : t) : F := fln (width (pr d)).
End M.
Arguments Params : clear implicits.
Arguments t : clear implicits.
End UniformF.

(** univariate/uniform.rs, the i64 half.  Integers are [Z]; i64 additions that
    may overflow are [i64]-checked. *)
Module UniformI.
Section M.
Context {F : Type} {SF : Scalar F}.
Record Params := mkP { lb : Z; width : Z }.
Record t := mk { pr : Params; prob : F }.
(** uniform.rs:34-42 at T = i64 *)
Definition params_new (l w : Z) : result Params (UCE Z) :=
  let? l := loc_new l in let? w := scale_new w in Ok (mkP l w).
(** uniform.rs:205-212: [(params.width.0 + 1) as f64] *)
Definition from (p : Params) : res t := let! n := i64 (width p + 1) in Ret (mk p (#1 / f_of_Z n)).
(** uniform.rs:193-198: the u64 width is cast with [as i64] first *)
Definition new (l w : Z) : res (result t (UCE Z)) :=
  match params_new l (as_i64 w) with
  | Ok p => let! d := from p in Ret (Ok d)
  | Err e => Ret (Err e)
  end.
(** uniform.rs:200-202, 229 *)
Definition new_unchecked (l w : Z) : res t := from (mkP l (as_i64 w)).
Definition params (d : t) : Params := pr d.
(** uniform.rs:216: [(width + 1) as u64] *)
Definition span (d : t) : res Z := let! n := i64 (width (pr d) + 1) in Ret (as_u64 n).
(** uniform.rs:60-64 *)
Definition ub (d : t) : res Z := i64 (lb (pr d) + width (pr d)).
(** uniform.rs:223-227 *)
Definition support (d : t) : res (Space Z) := let! u := ub d in Ret (Closed (lb (pr d)) u).
(** uniform.rs:231-242 *)
Definition cdf (d : t) (k : Z) : res (Probability F) :=
  let! u := ub d in
  if Z.ltb k (lb (pr d)) then Ret p_zero
  else if Z.leb u k then Ret p_one
  else let! a := i64 (k - lb (pr d)) in let! a := i64 (a + 1) in
       Ret (Prob (f_of_Z a * prob d)).
(** uniform.rs:254-263 *)
Definition pmf (d : t) (x : Z) : res (Probability F) :=
  let! u := ub d in
  if (Z.ltb x (lb (pr d)) || Z.ltb u x)%bool then Ret p_zero else Ret (Prob (prob d)).
(** uniform.rs:269-284 *)
Definition mean (d : t) : F := f_of_Z (lb (pr d)) + f_of_Z (width (pr d)) / #2.
Definition variance (d : t) : res F := let! n := span d in let n := f_of_Z n in Ret ((n * n - #1) / #12).
Definition skewness (d : t) : F := #0.
Definition excess_kurtosis (d : t) : res F :=
  let! n := span d in let n := f_of_Z n in let n2 := n * n in
  Ret (- SIX_FIFTHS * (n2 + #1) / (n2 - #1)).
(** uniform.rs:288-294, 298 *)
Definition quantile (d : t) (p : Probability F) : res F :=
  let! n := span d in Ret (f_of_Z (lb (pr d)) + ffloor (p_mul_f p (f_of_Z n))).
Definition median (d : t) : F := f_of_Z (lb (pr d)) + f_of_Z (width (pr d)) / #2.
Definition shannon_entropy (d : t) : res F := let! n := i64 (width (pr d) + 1) in Ret (fln (f_of_Z n)).
End M.
Arguments t : clear implicits.
End UniformI.

(** univariate/exponential.rs *)
Module Exponential.
Section M.
Context {F : Type} {SF : Scalar F}.
(** exponential.rs:14-21 *)
Record Params := mkP { lambda : F }.
Record t := mk { pr : Params }.
(** exponential.rs:30-32, 34, 38, 47; From: lib.rs:175-177 *)
Definition new (l : F) : result t (Error F) := map_ok (fun '(l, tt) => mk (mkP l)) (params_new (s1 PRate) (l, tt)).
Definition new_unchecked (l : F) : t := mk (mkP l).
Definition from (p : Params) : t := mk p.
Definition default : t := new_unchecked #1.
Definition params (d : t) : Params := pr d.
Definition lam (d : t) : F := lambda (pr d).
(** exponential.rs:45 *)
Definition support (d : t) : Space F := PositiveReals.
(** exponential.rs:49-51 *)
Definition cdf (d : t) (x : F) : Probability F := Prob (#1 - fexp (- lam d * x)).
(** exponential.rs:61-65 *)
Definition pdf (d : t) (x : F) : F := let l := lam d in l * fexp (- l * x).
(** exponential.rs:71-83 *)
Definition mean (d : t) : F := #1 / lam d.
Definition variance (d : t) : F := let l := lam d in #1 / l / l.
Definition skewness (d : t) : F := #2.
Definition kurtosis (d : t) : F := #3.
Definition excess_kurtosis (d : t) : F := #6.
(** exponential.rs:87: [-(p.not().unwrap()) / lambda] *)
Definition quantile (d : t) (p : Probability F) : F := - unwrap (p_not p) / lam d.
(** exponential.rs:89, 93, 97, 101-105 *)
Definition median (d : t) : F := mean d * fln #2.
Definition modes (d : t) : list F := [#0].
Definition shannon_entropy (d : t) : F := #1 - fln (lam d).
Definition fisher_information (d : t) : list (list F) := let l := lam d in [[l * l]].
End M.
Arguments Params : clear implicits.
Arguments t : clear implicits.
End Exponential.

(** univariate/cauchy.rs *)
Module Cauchy.
Section M.
Context {F : Type} {SF : Scalar F}.
(** cauchy.rs:14-22 *)
Record Params := mkP { x0 : F; gamma : F }.
Record t := mk { pr : Params }.
(** cauchy.rs:31-37, 51, 60; From: lib.rs:175-177 *)
Definition new (a b : F) : result t (Error F) :=
  map_ok (fun '(a, (b, tt)) => mk (mkP a b)) (params_new (s2 PLoc PScale) (a, (b, tt))).
Definition new_unchecked (a b : F) : t := mk (mkP a b).
Definition from (p : Params) : t := mk p.
Definition default : t := new_unchecked #0 #1.
Definition params (d : t) : Params := pr d.
(** cauchy.rs:40, 43-47 *)
Definition fwhm (d : t) : F := #2 * gamma (pr d).
Definition z (d : t) (x : F) : F := (x - x0 (pr d)) / gamma (pr d).
(** cauchy.rs:58 *)
Definition support (d : t) : Space F := Reals.
(** cauchy.rs:62-64 *)
Definition cdf (d : t) (x : F) : Probability F := Prob (ONE_OVER_PI * fatan (z d x) + #1 / #2).
(** cauchy.rs:76-80 *)
Definition pdf (d : t) (x : F) : F := let z := z d x in #1 / fpi / gamma (pr d) / (#1 + z * z).
(** cauchy.rs:86-92, 96, 100 *)
Definition quantile (d : t) (p : Probability F) : F :=
  x0 (pr d) + gamma (pr d) * ftan (fpi * (unwrap p - #1 / #2)).
Definition median (d : t) : F := x0 (pr d).
Definition modes (d : t) : list F := [x0 (pr d)].
Definition shannon_entropy (d : t) : F := fln (#4 * fpi * gamma (pr d)).
(** cauchy.rs:106-111 *)
Definition convolve (d rv : t) : result t (Error F) :=
  Ok (new_unchecked (x0 (pr d) + x0 (pr rv)) (gamma (pr d) + gamma (pr rv))).
End M.
Arguments Params : clear implicits.
Arguments t : clear implicits.
End Cauchy.

(** univariate/logistic.rs *)
Module Logistic.
Section M.
Context {F : Type} {SF : Scalar F}.
(** logistic.rs:13-21 *)
Record Params := mkP { mu : F; s : F }.
Record t := mk { pr : Params }.
(** logistic.rs:30-34, 50 *)
Definition new (a b : F) : result t (Error F) :=
  map_ok (fun '(a, (b, tt)) => mk (mkP a b)) (params_new (s2 PLoc PScale) (a, (b, tt))).
Definition new_unchecked (a b : F) : t := mk (mkP a b).
Definition from (p : Params) : t := mk p.
Definition params (d : t) : Params := pr d.
(** logistic.rs:37-41, 48 *)
Definition z (d : t) (x : F) : F := (x - mu (pr d)) / s (pr d).
Definition support (d : t) : Space F := Reals.
(** logistic.rs:52-54 *)
Definition cdf (d : t) (x : F) : Probability F := Prob (#1 / (#1 + fexp (- z d x))).
(** logistic.rs:60-65 *)
Definition pdf (d : t) (x : F) : F :=
  let e := fexp (- z d x) in let e1 := #1 + e in e / s (pr d) / e1 / e1.
(** logistic.rs:71-79 *)
Definition mean (d : t) : F := mu (pr d).
Definition variance (d : t) : F := s (pr d) * s (pr d) * PI2 / #3.
Definition skewness (d : t) : F := #0.
Definition kurtosis (d : t) : F := TWENTY_ONE_FIFTHS.
Definition excess_kurtosis (d : t) : F := SIX_FIFTHS.
(** logistic.rs:83, 85, 89, 93 *)
Definition quantile (d : t) (p : Probability F) : res F := Panic.
Definition median (d : t) : F := mu (pr d).
Definition modes (d : t) : list F := [mu (pr d)].
Definition shannon_entropy (d : t) : F := fln (s (pr d)) + #2.
End M.
Arguments Params : clear implicits.
Arguments t : clear implicits.
End Logistic.

(** univariate/gumbel.rs *)
Module Gumbel.
Section M.
Context {F : Type} {SF : Scalar F}.
(** gumbel.rs:13-21 *)
Record Params := mkP { mu : F; beta : F }.
Record t := mk { pr : Params }.
(** gumbel.rs:30-34, 45, 54 *)
Definition new (a b : F) : result t (Error F) :=
  map_ok (fun '(a, (b, tt)) => mk (mkP a b)) (params_new (s2 PLoc PScale) (a, (b, tt))).
Definition new_unchecked (a b : F) : t := mk (mkP a b).
Definition from (p : Params) : t := mk p.
Definition default : t := new_unchecked #0 #1.
Definition params (d : t) : Params := pr d.
(** gumbel.rs:37-41, 52 *)
Definition z (d : t) (x : F) : F := (x - mu (pr d)) / beta (pr d).
Definition support (d : t) : Space F := Reals.
(** gumbel.rs:56-60 *)
Definition cdf (d : t) (x : F) : Probability F := let z := z d x in Prob (fexp (- fexp (- z))).
(** gumbel.rs:66-70 *)
Definition pdf (d : t) (x : F) : F := let z := z d x in fexp (- z - fexp (- z)) / beta (pr d).
(** gumbel.rs:76-98 *)
Definition mean {SP : Special F} (d : t) : F := mu (pr d) + beta (pr d) * - sf_digamma #1.
Definition variance (d : t) : F := let beta := beta (pr d) in PI2 * beta * beta / #6.
Definition skewness {SP : Special F} (d : t) : F := #12 * fsqrt #6 * sf_riemann_zeta #3 / PI3.
Definition kurtosis (d : t) : F := TWENTY_SEVEN_FIFTHS.
Definition excess_kurtosis (d : t) : F := TWELVE_FIFTHS.
(** gumbel.rs:102, 104-108, 112, 116-120 *)
Definition quantile (d : t) (p : Probability F) : res F := Panic.
Definition median (d : t) : F := mu (pr d) - beta (pr d) * fln (fln #2).
Definition modes (d : t) : list F := [mu (pr d)].
Definition shannon_entropy {SP : Special F} (d : t) : F := fln (beta (pr d)) + - sf_digamma #1 + #1.
End M.
Arguments Params : clear implicits.
Arguments t : clear implicits.
End Gumbel.

(** univariate/frechet.rs *)
Module Frechet.
Section M.
Context {F : Type} {SF : Scalar F}.
(** frechet.rs:15-21 *)
Record Params := mkP { alpha : F }.
Record t := mk { pr : Params }.
(** frechet.rs:30-32, 36, 45 *)
Definition new (a : F) : result t (Error F) := map_ok (fun '(a, tt) => mk (mkP a)) (params_new (s1 PShape) (a, tt)).
Definition new_unchecked (a : F) : t := mk (mkP a).
Definition from (p : Params) : t := mk p.
Definition default : t := new_unchecked #1.
Definition al (d : t) : F := alpha (pr d).
Definition params (d : t) : Params := mkP (al d).
(** frechet.rs:43 *)
Definition support (d : t) : Space F := PositiveReals.
(** frechet.rs:47-49 *)
Definition cdf (d : t) (x : F) : Probability F := Prob (fexp (- fpowf x (- al d))).
(** frechet.rs:51-55 *)
Definition sample_of_draw (d : t) (u : F) : F := fpowf (- fln u) (#1 / al d).
Definition sample {S} {R : Rng S F} (d : t) (s : S) : F * S :=
  let (u, s) := UniformF.sample UniformF.default s in (sample_of_draw d u, s).
(** frechet.rs:59-64 *)
Definition pdf (d : t) (x : F) : F :=
  let c := unwrap (cdf d x) in let alpha := al d in alpha * fpowf x (- #1 - alpha) * c.
(** frechet.rs:70-132 *)
Definition mean {SP : Special F} (d : t) : F :=
  let alpha := al d in if alpha <=? #1 then finf else sf_gamma (#1 - #1 / alpha).
Definition variance {SP : Special F} (d : t) : F :=
  let alpha := al d in
  if alpha <=? #2 then finf
  else let g1 := sf_gamma (#1 - #1 / alpha) in sf_gamma (#1 - #2 / alpha) - g1 * g1.
Definition skewness {SP : Special F} (d : t) : F :=
  let alpha := al d in
  if alpha <=? #3 then finf
  else let g1 := sf_gamma (#1 - #1 / alpha) in
       let g2 := sf_gamma (#1 - #2 / alpha) in
       let num := sf_gamma (#1 - #3 / alpha) - #3 * g2 * g1 + #2 * g1 * g1 * g1 in
       let di := g2 - g1 * g1 in
       num / fsqrt (di * di * di).
Definition excess_kurtosis {SP : Special F} (d : t) : F :=
  let alpha := al d in
  if alpha <=? #4 then finf
  else let g1 := sf_gamma (#1 - #1 / alpha) in
       let g2 := sf_gamma (#1 - #2 / alpha) in
       let num := sf_gamma (#1 - #4 / alpha) - #4 * sf_gamma (#1 - #3 / alpha) * g1 + #3 * g2 * g2 in
       let di := g2 - g1 * g1 in
       num / (di * di) - #6.
(** frechet.rs:137, 139, 143-147, 151-158 *)
Definition quantile (d : t) (p : Probability F) : res F := Panic.
Definition median (d : t) : F := #1 / fpowf (fln #2) (#1 / al d).
Definition modes (d : t) : list F := let alpha := al d in [fpowf (alpha / (#1 + alpha)) (#1 / alpha)].
Definition shannon_entropy {SP : Special F} (d : t) : F :=
  let alpha := al d in let gamma := - sf_digamma #1 in
  #1 + gamma / alpha + gamma + fln (#1 / alpha).
End M.
Arguments Params : clear implicits.
Arguments t : clear implicits.
End Frechet.

(** univariate/gev.rs *)
Module GEV.
Section M.
Context {F : Type} {SF : Scalar F}.
(** gev.rs:16-25 *)
Record Params := mkP { mu : F; sigma : F; zeta : F }.
Record t := mk { pr : Params }.
(** gev.rs:34-40, 66 *)
Definition new (a b c : F) : result t (Error F) :=
  map_ok (fun '(a, (b, (c, tt))) => mk (mkP a b c)) (params_new (s3 PLoc PShape PShape) (a, (b, (c, tt)))).
Definition new_unchecked (a b c : F) : t := mk (mkP a b c).
Definition from (p : Params) : t := mk p.
Definition params (d : t) : Params := pr d.
(** 1e-7 *)
Definition TOL : F := #1 / #10000000.
(** gev.rs:45 *)
Definition g_func {SP : Special F} (d : t) (k : F) : F := sf_gamma (#1 - k * zeta (pr d)).
(** gev.rs:47-57 *)
Definition t_func (d : t) (x : F) : F :=
  let '(mkP mu sigma zeta) := pr d in
  let z := (x - mu) / sigma in
  if (zeta - #0) <? TOL then fexp (- z) else fpowf (#1 + zeta * z) (- #1 / zeta).
(** gev.rs:64, 68 *)
Definition support (d : t) : Space F := Reals.
Definition cdf (d : t) (x : F) : Probability F := Prob (fexp (- t_func d x)).
(** gev.rs:74-78 *)
Definition pdf (d : t) (x : F) : F :=
  let tx := t_func d x in fpowf tx (zeta (pr d) + #1) * fexp (- tx) / sigma (pr d).
(** gev.rs:84-150 *)
Definition mean {SP : Special F} (d : t) : F :=
  let '(mkP mu sigma zeta) := pr d in
  if zeta >=? #1 then finf
  else if fabs zeta <? TOL then mu - sigma * sf_digamma #1
  else mu + sigma * (g_func d #1 - #1) / zeta.
Definition variance {SP : Special F} (d : t) : F :=
  let '(mkP mu sigma zeta) := pr d in
  if zeta >=? #1 / #2 then finf
  else if fabs zeta <? TOL then sigma * sigma * PI2_OVER_6
  else let g1 := g_func d #1 in let g2 := g_func d #2 in
       sigma * sigma * (g2 - g1 * g1) / zeta / zeta.
Definition skewness {SP : Special F} (d : t) : F :=
  let '(mkP mu sigma zeta) := pr d in
  if zeta >=? ONE_THIRD then finf
  else if fabs zeta <? TOL then #12 * fsqrt #6 * sf_riemann_zeta #3 / PI3
  else let g1 := g_func d #1 in let g2 := g_func d #2 in let g3 := g_func d #3 in
       let num := g3 - #3 * g2 * g1 + #2 * fpowi g1 3 in
       let den := fpowf (g2 - g1 * g1) (#3 / #2) in
       fsignum zeta * num / den.
Definition excess_kurtosis {SP : Special F} (d : t) : F :=
  let '(mkP mu sigma zeta) := pr d in
  if zeta >=? #1 / #4 then finf
  else if fabs zeta <? TOL then TWELVE_FIFTHS
  else let g1 := g_func d #1 in let g2 := g_func d #2 in let g3 := g_func d #3 in let g4 := g_func d #4 in
       let num := g4 - #4 * g3 * g1 - #3 * g2 * g2 + #12 * g2 * g1 * g1 - #6 * fpowi g1 4 in
       num / fpowi (g2 - g1 * g1) 2.
(** gev.rs:154, 156-164, 168-176, 180-184 *)
Definition quantile (d : t) (p : Probability F) : res F := Panic.
Definition median (d : t) : F :=
  let '(mkP mu sigma zeta) := pr d in
  if fabs zeta <? TOL then mu - sigma * fln (fln #2)
  else mu + sigma * (fpowf (fln #2) (- zeta) - #1) / zeta.
Definition modes (d : t) : list F :=
  let '(mkP mu sigma zeta) := pr d in
  [if fabs zeta <? TOL then mu else mu + sigma * (fpowf (#1 + zeta) (- zeta) - #1) / zeta].
Definition shannon_entropy {SP : Special F} (d : t) : F :=
  let euler := - sf_digamma #1 in fln (sigma (pr d)) + euler * zeta (pr d) + euler + #1.
End M.
Arguments Params : clear implicits.
Arguments t : clear implicits.
End GEV.

(** univariate/gpd.rs *)
Module GPD.
Section M.
Context {F : Type} {SF : Scalar F}.
(** gpd.rs:15-24 *)
Record Params := mkP { mu : F; sigma : F; zeta : F }.
Record t := mk { pr : Params }.
(** gpd.rs:33-39, 48 *)
Definition new (a b c : F) : result t (Error F) :=
  map_ok (fun '(a, (b, (c, tt))) => mk (mkP a b c)) (params_new (s3 PLoc PShape PShape) (a, (b, (c, tt)))).
Definition new_unchecked (a b c : F) : t := mk (mkP a b c).
Definition from (p : Params) : t := mk p.
Definition params (d : t) : Params := pr d.
(** gpd.rs:46, 50-55 *)
Definition support (d : t) : Space F := Reals.
Definition cdf (d : t) (x : F) : Probability F :=
  let '(mkP mu sigma zeta) := pr d in
  let z := (x - mu) / sigma in Prob (#1 - fpowf (#1 + zeta * z) (- #1 / zeta)).
(** gpd.rs:61-66 *)
Definition pdf (d : t) (x : F) : F :=
  let '(mkP mu sigma zeta) := pr d in
  let z := (x - mu) / sigma in fpowf (#1 + zeta * z) (- #1 / zeta - #1) / sigma.
(** gpd.rs:72-114 *)
Definition mean (d : t) : res F :=
  let '(mkP mu sigma zeta) := pr d in
  if zeta <=? #1 then Panic else Ret (mu + sigma / (#1 - zeta)).
Definition variance (d : t) : res F :=
  let '(mkP mu sigma zeta) := pr d in
  if zeta <=? #1 / #2 then Panic
  else Ret (sigma * sigma / fpowi (#1 - zeta) 2 / (#1 - #2 * zeta)).
Definition skewness (d : t) : res F :=
  let '(mkP mu sigma zeta) := pr d in
  if zeta <=? ONE_THIRD then Panic
  else Ret (#2 * (#1 + zeta) * fsqrt (#1 - #2 * zeta) / (#1 - #3 * zeta)).
Definition excess_kurtosis (d : t) : res F :=
  let '(mkP mu sigma zeta) := pr d in
  if zeta <=? ONE_THIRD then Panic
  else Ret (#3 * (#1 - #2 * zeta) * (#2 * zeta * zeta + zeta + #3) / (#1 - #3 * zeta) / (#1 - #4 * zeta) - #3).
(** gpd.rs:118, 120-124, 128 *)
Definition quantile (d : t) (p : Probability F) : res F := Panic.
Definition median (d : t) : F :=
  let '(mkP mu sigma zeta) := pr d in mu + sigma * (fpowf #2 zeta - #1) / zeta.
Definition shannon_entropy (d : t) : F := fln (sigma (pr d)) + zeta (pr d) + #1.
End M.
Arguments Params : clear implicits.
Arguments t : clear implicits.
End GPD.

(** univariate/kumaraswamy.rs *)
Module Kumaraswamy.
Section M.
Context {F : Type} {SF : Scalar F}.
(** kumaraswamy.rs:15-20 (the type has no [new]; Params::new + From) *)
Record Params := mkP { a : F; b : F }.
Record t := mk { pr : Params }.
Definition p_new (x y : F) : result Params (Error F) :=
  map_ok (fun '(x, (y, tt)) => mkP x y) (params_new (s2 PShape PShape) (x, (y, tt))).
Definition from (p : Params) : t := mk p.
(** kumaraswamy.rs:39, 48 *)
Definition default : t := mk (mkP #1 #1).
Definition params (d : t) : Params := pr d.
(** kumaraswamy.rs:13: [(1..=n).map(|i| 1.0 / i as f64).sum()] *)
Definition harmonic_n (n : nat) : F := fsum (map (fun i => #1 / f_of_Z (Z.of_nat i)) (seq 1 n)).
(** kumaraswamy.rs:29-35 *)
Definition moment_n {SP : Special F} (d : t) (n : Z) : F :=
  let '(mkP a b) := pr d in b * sf_beta (#1 + f_of_Z n / a) b.
(** kumaraswamy.rs:46, 50-54 *)
Definition support (d : t) : Space F := Closed #0 #1.
Definition cdf (d : t) (x : F) : Probability F :=
  let '(mkP a b) := pr d in Prob (#1 - fpowf (#1 - fpowf x a) b).
(** kumaraswamy.rs:56-61 *)
Definition sample_of_draw (d : t) (x : F) : F :=
  let '(mkP a b) := pr d in fpowf (#1 - fpowf (#1 - x) (#1 / b)) (#1 / a).
Definition sample {S} {R : Rng S F} (d : t) (s : S) : F * S :=
  let (x, s) := UniformF.sample UniformF.default s in (sample_of_draw d x, s).
(** kumaraswamy.rs:65-69 *)
Definition pdf (d : t) (x : F) : F :=
  let '(mkP a b) := pr d in a * b * fpowf x (a - #1) * fpowf (#1 - fpowf x a) (b - #1).
(** kumaraswamy.rs:75-91 *)
Definition mean {SP : Special F} (d : t) : F := moment_n d 1.
Definition variance {SP : Special F} (d : t) : F := let m1 := moment_n d 1 in moment_n d 2 - m1 * m1.
Definition skewness {SP : Special F} (d : t) : F :=
  let m3 := moment_n d 3 in let var := variance d in let mean := mean d in
  (m3 - #3 * mean * var - fpowi mean 3) / fpowf var (#3 / #2).
Definition excess_kurtosis (d : t) : res F := Panic.
(** kumaraswamy.rs:95, 97-101, 105-113, 117-122 *)
Definition quantile (d : t) (p : Probability F) : res F := Panic.
Definition median (d : t) : F :=
  let '(mkP a b) := pr d in fpowf (#1 - fpowf #2 (- #1 / b)) (#1 / a).
Definition modes (d : t) : list F :=
  let '(mkP a b) := pr d in
  if ((a >? #1) && (b >=? #1)) || ((a >=? #1) && (b >? #1))
  then [fpowf ((a - #1) / (a * b - #1)) (#1 / a)] else [].
Definition shannon_entropy (d : t) : F :=
  let '(mkP a b) := pr d in
  let hb := harmonic_n (Z.to_nat (f_to_Z 0 USIZE_MAX (ffloor b))) in
  (#1 - #1 / b) + (#1 - #1 / a) * hb - fln (a * b).
End M.
Arguments Params : clear implicits.
Arguments t : clear implicits.
End Kumaraswamy.

(** univariate/pareto.rs *)
Module Pareto.
Section M.
Context {F : Type} {SF : Scalar F}.
(** pareto.rs:12-20: locscale_params: x_m is a [Loc] (unconstrained), alpha a [Scale] *)
Record Params := mkP { x_m : F; alpha : F }.
Record t := mk { pr : Params }.
(** pareto.rs:29-35, 44 *)
Definition new (a b : F) : result t (Error F) :=
  map_ok (fun '(a, (b, tt)) => mk (mkP a b)) (params_new (s2 PLoc PScale) (a, (b, tt))).
Definition new_unchecked (a b : F) : t := mk (mkP a b).
Definition from (p : Params) : t := mk p.
Definition params (d : t) : Params := pr d.
(** pareto.rs:42, 46-50 *)
Definition support (d : t) : Space F := LeftClosed (x_m (pr d)).
Definition cdf (d : t) (x : F) : Probability F :=
  let '(mkP x_m alpha) := pr d in Prob (#1 - fpowf (x_m / x) alpha).
(** pareto.rs:64-74 *)
Definition pdf (d : t) (x : F) : F :=
  let '(mkP x_m alpha) := pr d in
  if x <? x_m then #0 else alpha * fpowf x_m alpha / fpowf x (alpha + #1).
(** pareto.rs:80-116 *)
Definition mean (d : t) : F :=
  let '(mkP x_m alpha) := pr d in if alpha <=? #1 then finf else alpha * x_m / (alpha - #1).
Definition variance (d : t) : F :=
  let '(mkP x_m alpha) := pr d in
  if alpha <=? #2 then finf
  else let am1 := alpha - #1 in x_m * x_m * alpha / am1 / am1 / (alpha - #2).
Definition skewness (d : t) : res F :=
  let '(mkP x_m alpha) := pr d in
  if alpha <=? #3 then Panic
  else Ret (#2 * (#1 + alpha) / (alpha - #3) * fsqrt ((alpha - #2) / alpha)).
Definition excess_kurtosis (d : t) : res F :=
  let '(mkP x_m alpha) := pr d in
  if alpha <=? #4 then Panic
  else let a2 := alpha * alpha in let a3 := a2 * alpha in
       Ret (#6 * (a3 + a2 - #6 * alpha - #2) / alpha / (alpha - #3) / (alpha - #4)).
(** pareto.rs:120, 122-126, 130, 134-138, 142-150 *)
Definition quantile (d : t) (p : Probability F) : res F := Panic.
Definition median (d : t) : F := let '(mkP x_m alpha) := pr d in x_m * fpowf #2 (#1 / alpha).
Definition modes (d : t) : list F := [x_m (pr d)].
Definition shannon_entropy (d : t) : F :=
  let '(mkP x_m alpha) := pr d in fln (x_m / alpha * fexp (#1 + #1 / alpha)).
Definition fisher_information (d : t) : list (list F) :=
  let '(mkP x_m alpha) := pr d in
  let off_diag := - #1 / x_m in [[alpha / x_m / x_m; off_diag]; [off_diag; #1 / alpha / alpha]].
End M.
Arguments Params : clear implicits.
Arguments t : clear implicits.
End Pareto.

(** univariate/weibull.rs *)
Module Weibull.
Section M.
Context {F : Type} {SF : Scalar F}.
(** weibull.rs:15-23 (no [new] on the type; Params::new + From) *)
Record Params := mkP { lambda : F; k : F }.
Record t := mk { pr : Params }.
Definition p_new (x y : F) : result Params (Error F) :=
  map_ok (fun '(x, (y, tt)) => mkP x y) (params_new (s2 PScale PShape) (x, (y, tt))).
Definition from (p : Params) : t := mk p.
Definition params (d : t) : Params := pr d.
(** weibull.rs:32-36 *)
Definition gamma_i {SP : Special F} (d : t) (num : F) : F := sf_gamma (#1 + num / k (pr d)).
(** weibull.rs:43, 47-55 *)
Definition support (d : t) : Space F := PositiveReals.
Definition cdf (d : t) (x : F) : Probability F :=
  if x >=? #0 then
    let '(mkP lambda k) := pr d in Prob (#1 - fexp (- fpowf (x / lambda) k))
  else p_zero.
(** weibull.rs:67-76 *)
Definition pdf (d : t) (x : F) : F :=
  if x >=? #0 then
    let '(mkP lambda k) := pr d in
    let xol := x / lambda in k / lambda * fpowf xol (k - #1) * fexp (- fpowf xol k)
  else #0.
(** weibull.rs:82-123 *)
Definition mean {SP : Special F} (d : t) : F := lambda (pr d) * gamma_i d #1.
Definition variance {SP : Special F} (d : t) : F :=
  let lambda := lambda (pr d) in
  let t1 := gamma_i d #2 in let t2 := gamma_i d #1 in
  let bt := t1 - t2 * t2 in lambda * lambda * bt.
Definition skewness {SP : Special F} (d : t) : F :=
  let mu := mean d in let var := variance d in let lambda := lambda (pr d) in
  let num := gamma_i d #3 * lambda * lambda * lambda - #3 * mu * var - mu * mu * mu in
  num / fpowf var THREE_HALVES.
Definition excess_kurtosis {SP : Special F} (d : t) : F :=
  let g1 := gamma_i d #1 in let g2 := gamma_i d #2 in let g1s := g1 * g1 in
  let dd := g2 - g1s in
  let num := #12 * g1s * g2 - #6 * g1s * g1s - #3 * g2 * g2 - #4 * g1 * gamma_i d #3 + gamma_i d #4 in
  num / (dd * dd).
(** weibull.rs:142, 144-148, 152-160, 164-171 *)
Definition quantile (d : t) (p : Probability F) : res F := Panic.
Definition median (d : t) : F := let '(mkP lambda k) := pr d in lambda * fpowf (fln #2) (#1 / k).
Definition modes (d : t) : list F :=
  let '(mkP lambda k) := pr d in
  [if k >? #0 then #0 else lambda * fpowf ((k - #1) / k) (#1 / k)].
Definition shannon_entropy {SP : Special F} (d : t) : F :=
  let '(mkP lambda k) := pr d in
  let gamma := - sf_digamma #1 in gamma * (#1 - #1 / k) + fln (lambda / k) + #1.
End M.
Arguments Params : clear implicits.
Arguments t : clear implicits.
End Weibull.
