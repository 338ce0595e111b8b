(** * Further univariate continuous distributions with closed forms
      (/repo/src/univariate/*.rs and normal/univariate.rs), one module per file *)
From Verif.Model Require Import Rust Constraints Probability Params Consts.
Open Scope rust_scope.

(** univariate/arcsine.rs *)
Module Arcsine.
Section M.
Context {F : Type} {SF : Scalar F}.
(** arcsine.rs:13-21, 23 *)
Record Params := mkP { a : F; w : F }.
Record t := mk { pr : Params }.
Definition b (p : Params) : F := a p + w p.
(** arcsine.rs:32-36, 40, 53; From: lib.rs:175-177 *)
Definition new (x y : F) : result t (Error F) :=
  map_ok (fun '(x, (y, tt)) => mk (mkP x y)) (params_new (s2 PLoc PScale) (x, (y, tt))).
Definition new_unchecked (x y : F) : t := mk (mkP x y).
Definition from (p : Params) : t := mk p.
Definition default : t := new_unchecked #0 #1.
Definition params (d : t) : Params := pr d.
(** arcsine.rs:47-51 *)
Definition support (d : t) : Space F := Closed (a (pr d)) (b (pr d)).
(** arcsine.rs:55-62 *)
Definition cdf (d : t) (x : F) : Probability F :=
  let xab := (x - a (pr d)) / w (pr d) in Prob (TWO_OVER_PI * fasin (fsqrt xab)).
(** arcsine.rs:64 *)
Definition sample {S} (d : t) (s : S) : res (F * S) := Panic.
(** arcsine.rs:68-73 *)
Definition pdf (d : t) (x : F) : F :=
  let xab := (x - a (pr d)) * (b (pr d) - x) in ONE_OVER_PI / fsqrt xab.
(** arcsine.rs:79-95 *)
Definition mean (d : t) : F := (a (pr d) + b (pr d)) / #2.
Definition variance (d : t) : F := let w := w (pr d) in w * w / #8.
Definition skewness (d : t) : F := #0.
Definition kurtosis (d : t) : F := THREE_HALVES.
Definition excess_kurtosis (d : t) : F := - THREE_HALVES.
(** arcsine.rs:99, 101, 105-109, 113 *)
Definition quantile (d : t) (p : Probability F) : res F := Panic.
Definition median (d : t) : F := mean d.
Definition modes (d : t) : list F := [a (pr d); b (pr d)].
Definition shannon_entropy (d : t) : F := fln PI_OVER_4.
End M.
Arguments Params : clear implicits.
Arguments t : clear implicits.
End Arcsine.

(** univariate/cosine.rs *)
Module Cosine.
Section M.
Context {F : Type} {SF : Scalar F}.
(** cosine.rs:13-21 *)
Record Params := mkP { mu : F; s : F }.
Record t := mk { pr : Params }.
(** cosine.rs:30-34, 57 *)
Definition new (x y : F) : result t (Error F) :=
  map_ok (fun '(x, (y, tt)) => mk (mkP x y)) (params_new (s2 PLoc PScale) (x, (y, tt))).
Definition new_unchecked (x y : F) : t := mk (mkP x y).
Definition from (p : Params) : t := mk p.
Definition params (d : t) : Params := pr d.
(** cosine.rs:36-44 *)
Definition z (d : t) (x : F) : F := (x - mu (pr d)) / s (pr d).
Definition hvc (d : t) (x : F) : F := (fcos (z d x * fpi) + #1) / #2.
(** cosine.rs:51-55 *)
Definition support (d : t) : Space F := Closed (mu (pr d) - s (pr d)) (mu (pr d) + s (pr d)).
(** cosine.rs:59-63 *)
Definition cdf (d : t) (x : F) : Probability F :=
  let z := z d x in Prob ((#1 / #2) * (#1 + z + ONE_OVER_PI * fsin (z * fpi))).
(** cosine.rs:65 *)
Definition sample {S} (d : t) (st : S) : res (F * S) := Panic.
(** cosine.rs:69 *)
Definition pdf (d : t) (x : F) : F := (#1 / #2) * hvc d x.
(** cosine.rs:75-89 *)
Definition mean (d : t) : F := mu (pr d).
Definition variance (d : t) : F := let s := s (pr d) in s * s * (ONE_THIRD - TWO_OVER_PI2).
Definition skewness (d : t) : F := #0.
Definition excess_kurtosis (d : t) : F := let v := PI2 - #6 in #6 * (#60 - PI4) / #5 / v / v.
(** cosine.rs:93, 95, 99 *)
Definition quantile (d : t) (p : Probability F) : res F := Panic.
Definition median (d : t) : F := mu (pr d).
Definition modes (d : t) : list F := [mu (pr d)].
End M.
Arguments Params : clear implicits.
Arguments t : clear implicits.
End Cosine.

(** univariate/triangular.rs *)
Module Triangular.
Section M.
Context {F : Type} {SF : Scalar F}.
(** triangular.rs:15-22, 31-38 *)
Record Params := mkP { a : F; a2c : F; c2b : F }.
Record t := mk { pr : Params }.
Definition c (p : Params) : F := a p + a2c p.
Definition b (p : Params) : F := c p + c2b p.
(** triangular.rs:47-54, 64 *)
Definition new (x y z : F) : result t (Error F) :=
  map_ok (fun '(x, (y, (z, tt))) => mk (mkP x y z)) (params_new (s3 PLoc PScale PScale) (x, (y, (z, tt)))).
(** triangular.rs:25-29 *)
Definition symmetric (x y : F) : result t (Error F) := let d := (y - x) / #2 in new x d d.
Definition new_unchecked (x y z : F) : t := mk (mkP x y z).
Definition from (p : Params) : t := mk p.
Definition params (d : t) : Params := pr d.
(** triangular.rs:60-62 *)
Definition support (d : t) : Space F := Closed (a (pr d)) (b (pr d)).
(** triangular.rs:66-78 *)
Definition cdf (d : t) (x : F) : Probability F :=
  let a := a (pr d) in let b := b (pr d) in let c := c (pr d) in
  if x <=? a then p_zero
  else if x <=? c then Prob ((x - a) * (x - a) / (b - a) / (c - a))
  else if x <=? b then Prob (#1 - (b - x) * (b - x) / (b - a) / (b - c))
  else p_one.
(** triangular.rs:90-104 *)
Definition pdf (d : t) (x : F) : F :=
  let a := a (pr d) in let b := b (pr d) in let c := c (pr d) in
  if x <=? a then #0
  else if fabs (x - c) <? #1 / #10000000 then #2 / (b - a)
  else if x <? c then #2 * (x - a) / (b - a) / (c - a)
  else if x <=? b then #2 * (b - x) / (b - a) / (b - c)
  else #0.
(** triangular.rs:110-139 *)
Definition mean (d : t) : F :=
  let a := a (pr d) in let b := b (pr d) in let c := c (pr d) in (a + b + c) / #2.
Definition variance (d : t) : F :=
  let a := a (pr d) in let b := b (pr d) in let c := c (pr d) in
  let sq := a * a + b * b + c * c in let cross := a * b + a * c + b * c in (sq - cross) / #18.
Definition skewness (d : t) : F :=
  let a := a (pr d) in let b := b (pr d) in let c := c (pr d) in
  let sq := a * a + b * b + c * c in let cross := a * b + a * c + b * c in
  let num := fsqrt #2 * (a + b - #2 * c) * (#2 * a - b - c) * (a - #2 * b + c) in
  let den := #5 * fpowf (sq - cross) THREE_HALVES in num / den.
Definition kurtosis (d : t) : F := TWELVE_FIFTHS.
Definition excess_kurtosis (d : t) : F := - THREE_FIFTHS.
(** triangular.rs:143, 145-155, 159, 163 *)
Definition quantile (d : t) (p : Probability F) : res F := Panic.
Definition median (d : t) : F :=
  let a := a (pr d) in let b := b (pr d) in let c := c (pr d) in
  let mid := (a + b) / #2 in
  if c >=? mid then a + fsqrt ((b - a) * (c - a) / #2) else b - fsqrt ((b - a) * (b - c) / #2).
Definition modes (d : t) : list F := [c (pr d)].
Definition shannon_entropy (d : t) : F := #1 + fln ((b (pr d) - a (pr d)) / #2).
End M.
Arguments Params : clear implicits.
Arguments t : clear implicits.
End Triangular.

(** univariate/laplace.rs *)
Module Laplace.
Section M.
Context {F : Type} {SF : Scalar F}.
(** laplace.rs:13-21 *)
Record Params := mkP { mu : F; b : F }.
Record t := mk { pr : Params }.
(** laplace.rs:30-34, 43 *)
Definition new (x y : F) : result t (Error F) :=
  map_ok (fun '(x, (y, tt)) => mk (mkP x y)) (params_new (s2 PLoc PScale) (x, (y, tt))).
Definition new_unchecked (x y : F) : t := mk (mkP x y).
Definition from (p : Params) : t := mk p.
Definition params (d : t) : Params := pr d.
(** laplace.rs:41 *)
Definition support (d : t) : Space F := Reals.
(** laplace.rs:45-49 *)
Definition cdf (d : t) (x : F) : Probability F :=
  Prob (fexp (- fabs (fabs (x - mu (pr d)) / b (pr d))) / #2 / b (pr d)).
(** laplace.rs:51-58 *)
Definition sample_of_draw (d : t) (u : F) : F :=
  mu (pr d) - b (pr d) * fsignum u * fln (#1 - #2 * fabs u).
Definition sample {S} {R : Rng S F} (d : t) (s : S) : F * S :=
  let (u, s) := draw_uniform (- (#1 / #2)) (#1 / #2) s in (sample_of_draw d u, s).
(** laplace.rs:62-74: [partial_cmp] is None (panic) when neither <, = nor > holds *)
Definition pdf (d : t) (x : F) : res F :=
  let mu := mu (pr d) in let b := b (pr d) in
  if (x <? mu) || (x =? mu) then Ret (fexp ((x - mu) / b) / #2)
  else if x >? mu then Ret (#1 - fexp ((mu - x) / b) / #2)
  else Panic.
(** laplace.rs:80-88 *)
Definition mean (d : t) : F := mu (pr d).
Definition variance (d : t) : F := #2 * b (pr d) * b (pr d).
Definition skewness (d : t) : F := #0.
Definition kurtosis (d : t) : F := #6.
Definition excess_kurtosis (d : t) : F := #3.
(** laplace.rs:92, 94, 98, 102 *)
Definition quantile (d : t) (p : Probability F) : res F := Panic.
Definition median (d : t) : F := mu (pr d).
Definition modes (d : t) : list F := [mu (pr d)].
Definition shannon_entropy (d : t) : F := fln (#2 * b (pr d) * fe).
End M.
Arguments Params : clear implicits.
Arguments t : clear implicits.
End Laplace.

(** univariate/rayleigh.rs *)
Module Rayleigh.
Section M.
Context {F : Type} {SF : Scalar F}.
(** rayleigh.rs:13-19 *)
Definition TWO_PI_MINUS_3 : F := #2 * (fpi - #3).
Definition FOUR_MINUS_PI : F := #4 - fpi.
Definition FOUR_MINUS_PI_OVER_2 : F := FOUR_MINUS_PI / #2.
Definition EXCESS_KURTOSIS : F :=
  (#3 / #2) * PI2 - #6 * fpi + #16 / FOUR_MINUS_PI_OVER_2 / FOUR_MINUS_PI_OVER_2.
Definition KURTOSIS : F := EXCESS_KURTOSIS + #3.
(** rayleigh.rs:23-30 *)
Record Params := mkP { sigma : F }.
Record t := mk { pr : Params }.
(** rayleigh.rs:39-41, 50 *)
Definition new (x : F) : result t (Error F) := map_ok (fun '(x, tt) => mk (mkP x)) (params_new (s1 PShape) (x, tt)).
Definition new_unchecked (x : F) : t := mk (mkP x).
Definition from (p : Params) : t := mk p.
Definition params (d : t) : Params := pr d.
(** rayleigh.rs:48 *)
Definition support (d : t) : Space F := PositiveReals.
(** rayleigh.rs:52-56: [-x * x / sigma * sigma / 2.0] associates to the left *)
Definition cdf (d : t) (x : F) : Probability F :=
  let sigma := sigma (pr d) in Prob (#1 - fexp (- x * x / sigma * sigma / #2)).
(** rayleigh.rs:58 *)
Definition sample {S} (d : t) (s : S) : res (F * S) := Panic.
(** rayleigh.rs:62-67 *)
Definition pdf (d : t) (x : F) : F :=
  let sigma := sigma (pr d) in let sigma2 := sigma * sigma in x / sigma2 * fexp (- x * x / sigma2 / #2).
(** rayleigh.rs:73-85 *)
Definition mean (d : t) : F := sigma (pr d) * fsqrt PI_OVER_2.
Definition variance (d : t) : F := let sigma := sigma (pr d) in FOUR_MINUS_PI_OVER_2 * sigma * sigma.
Definition skewness (d : t) : F := TWO_PI_MINUS_3 * fsqrt fpi / fpowf FOUR_MINUS_PI THREE_HALVES.
Definition kurtosis (d : t) : F := KURTOSIS.
Definition excess_kurtosis (d : t) : F := EXCESS_KURTOSIS.
(** rayleigh.rs:89, 91, 95, 99-105 *)
Definition quantile (d : t) (p : Probability F) : res F := Panic.
Definition median (d : t) : F := sigma (pr d) * fsqrt (#2 * fln #2).
Definition modes (d : t) : list F := [sigma (pr d)].
Definition shannon_entropy {SP : Special F} (d : t) : F :=
  let gamma := - sf_digamma #1 in #1 + fln (sigma (pr d) / fsqrt #2) + gamma / #2.
End M.
Arguments Params : clear implicits.
Arguments t : clear implicits.
End Rayleigh.

(** univariate/levy.rs *)
Module Levy.
Section M.
Context {F : Type} {SF : Scalar F}.
(** levy.rs:13-21 *)
Record Params := mkP { mu : F; c : F }.
Record t := mk { pr : Params }.
(** levy.rs:30-32, 41 *)
Definition new (x y : F) : result t (Error F) :=
  map_ok (fun '(x, (y, tt)) => mk (mkP x y)) (params_new (s2 PLoc PScale) (x, (y, tt))).
Definition new_unchecked (x y : F) : t := mk (mkP x y).
Definition from (p : Params) : t := mk p.
Definition params (d : t) : Params := pr d.
(** levy.rs:39 *)
Definition support (d : t) : Space F := LeftClosed (mu (pr d)).
(** levy.rs:43-49 *)
Definition cdf {SP : Special F} (d : t) (x : F) : Probability F :=
  Prob (sf_erfc (c (pr d) / #2 / (x - mu (pr d)))).
(** levy.rs:51 *)
Definition sample {S} (d : t) (s : S) : res (F * S) := Panic.
(** levy.rs:55-62 *)
Definition pdf (d : t) (x : F) : F :=
  let diff := x - mu (pr d) in let c2 := c (pr d) / #2 in
  fsqrt (c2 / fpi) * fexp (- c2 / diff) / fpowf diff THREE_HALVES.
(** levy.rs:68-74 *)
Definition mean (d : t) : F := finf.
Definition variance (d : t) : F := finf.
Definition skewness (d : t) : res F := Panic.
Definition kurtosis (d : t) : res F := Panic.
(** levy.rs:78, 80-87: both branches panic; 91-97 *)
Definition quantile (d : t) (p : Probability F) : res F := Panic.
Definition median (d : t) : res F := Panic.
Definition modes (d : t) : res (list F) :=
  if fabs (mu (pr d)) <? #1 / #10000000 then Ret [c (pr d) / #3] else Panic.
(** levy.rs:101-108 *)
Definition shannon_entropy {SP : Special F} (d : t) : F :=
  let c := c (pr d) in let gamma := - sf_digamma #1 in
  (#1 + #3 * gamma + fln (PI_16 * c * c)) / #2.
End M.
Arguments Params : clear implicits.
Arguments t : clear implicits.
End Levy.

(** univariate/degenerate.rs at f64 *)
Module DegenerateF.
Section M.
Context {F : Type} {SF : Scalar F}.
(** degenerate.rs:18-39: [new] cannot fail *)
Record t := mk { k : F }.
Definition new (x : F) : t := mk x.
Definition from (x : F) : t := mk x.
Definition default : t := new #0.
(** degenerate.rs:51-63 *)
Definition support (d : t) : Space F := Reals.
Definition params (d : t) : F := k d.
Definition cdf (d : t) (x : F) : Probability F := if x <? k d then p_zero else p_one.
Definition sample {S} (d : t) (s : S) : F * S := (k d, s).
(** degenerate.rs:67-69 *)
Definition pdf (d : t) (x : F) : F := if fabs (x - k d) <? #1 / #10000000 then #1 else #0.
(** degenerate.rs:73-102 *)
Definition mean (d : t) : F := k d.
Definition variance (d : t) : F := #0.
Definition skewness (d : t) : F := #0.
Definition kurtosis (d : t) : res F := Panic.
Definition excess_kurtosis (d : t) : res F := Panic.
Definition quantile (d : t) (p : Probability F) : res F := Panic.
Definition median (d : t) : F := k d.
Definition modes (d : t) : list F := [k d].
Definition shannon_entropy (d : t) : F := #0.
End M.
Arguments t : clear implicits.
End DegenerateF.

(** univariate/degenerate.rs at i64 *)
Module DegenerateI.
Section M.
Context {F : Type} {SF : Scalar F}.
Record t := mk { k : Z }.
Definition new (x : Z) : t := mk x.
Definition from (x : Z) : t := mk x.
Definition default : t := new 0.
(** degenerate.rs:109-121 *)
Definition support (d : t) : Space Z := Integers.
Definition params (d : t) : Z := k d.
Definition cdf (d : t) (x : Z) : Probability F := if Z.ltb x (k d) then p_zero else p_one.
Definition sample {S} (d : t) (s : S) : Z * S := (k d, s).
(** degenerate.rs:125-131 *)
Definition pmf (d : t) (x : Z) : Probability F := if Z.eqb x (k d) then p_one else p_zero.
(** degenerate.rs:135-164 *)
Definition mean (d : t) : F := f_of_Z (k d).
Definition variance (d : t) : F := #0.
Definition skewness (d : t) : F := #0.
Definition kurtosis (d : t) : res F := Panic.
Definition excess_kurtosis (d : t) : res F := Panic.
Definition quantile (d : t) (p : Probability F) : res F := Panic.
Definition median (d : t) : F := f_of_Z (k d).
Definition modes (d : t) : list Z := [k d].
Definition shannon_entropy (d : t) : F := #0.
End M.
End DegenerateI.

(** normal/univariate.rs *)
Module UvNormal.
Section M.
Context {F : Type} {SF : Scalar F}.
(** normal/mod.rs Params<f64, f64>; univariate.rs:19-29, 49 *)
Record Params := mkP { mu : F; Sigma : F }.
Record t := mk { pr : Params }.
Definition params_new (m s2 : F) : result Params (Error F) :=
  let? m := map_err EConstraint (loc_new m) in
  let? s2 := map_err EConstraint (isotropic_new s2) in Ok (mkP m s2).
(** univariate.rs:56-67, 89 *)
Definition new (m s2 : F) : result t (Error F) := map_ok mk (params_new m s2).
Definition new_unchecked (m s2 : F) : t := mk (mkP m s2).
Definition from (p : Params) : t := mk p.
Definition standard : t := new_unchecked #0 #1.
Definition params (d : t) : Params := pr d.
(** univariate.rs:70-80, 87 *)
Definition z (d : t) (x : F) : F := (x - mu (pr d)) / fsqrt (Sigma (pr d)).
Definition precision (d : t) : F := #1 / Sigma (pr d).
Definition width (d : t) : F := #2 * precision d.
Definition support (d : t) : Space F := Reals.
(** univariate.rs:91-105 *)
Definition cdf {SP : Special F} (d : t) (x : F) : Probability F :=
  Prob (if fisinf x then (if fsignneg x then #0 else #1) else sf_norm (z d x)).
(** univariate.rs:107-113 *)
Definition sample {S} {R : Rng S F} (d : t) (s : S) : F * S :=
  draw_normal (mu (pr d)) (fsqrt (Sigma (pr d))) s.
(** univariate.rs:117-122 *)
Definition pdf (d : t) (x : F) : F :=
  let z := z d x in let norm := fsqrt PI_2 * fsqrt (Sigma (pr d)) in fexp (- z * z / #2) / norm.
(** univariate.rs:128-136 *)
Definition mean (d : t) : F := mu (pr d).
Definition variance (d : t) : F := Sigma (pr d).
Definition skewness (d : t) : F := #0.
Definition kurtosis (d : t) : F := #0.
Definition excess_kurtosis (d : t) : F := - #3.
(** univariate.rs:140-148, 152, 156 *)
Definition quantile {SP : Special F} (d : t) (p : Probability F) : F :=
  mu (pr d) + fsqrt (Sigma (pr d)) * sf_norm_inv (unwrap p).
Definition median (d : t) : F := mu (pr d).
Definition modes (d : t) : list F := [mu (pr d)].
Definition shannon_entropy (d : t) : F := fln (PI_E_2 * Sigma (pr d)) / #2.
(** univariate.rs:160-167 *)
Definition fisher_information (d : t) : list (list F) :=
  let p := precision d in [[p; #0]; [#0; p * p / #2]].
(** univariate.rs:171-182 *)
Definition log_likelihood (d : t) (xs : list F) : F :=
  let '(mkP mu Sigma) := pr d in
  let ls2 := fln Sigma in
  let no2 := f_of_Z (Z.of_nat (List.length xs)) / #2 in
  - no2 / #2 * (fln PI_2 + ls2) - fsum (map (fun x => fpowi (x - mu) 2 / #2 / Sigma) xs).
(** univariate.rs:33, 35-44 *)
Record Grad := mkG { g_mu : F; g_Sigma : F }.
Definition grad_mul (g : Grad) (sf : F) : Grad := mkG (g_mu g * sf) (g_Sigma g * sf).
(** univariate.rs:188-202 *)
Definition score (d : t) (xs : list F) : Grad :=
  let n := f_of_Z (Z.of_nat (List.length xs)) in
  let '(mkP mu Sigma) := pr d in
  let '(sum, sum_sq) := fold_left (fun '(s, ss) x => let d := x - mu in (s + d, ss + d * d)) xs (#0, #0) in
  mkG (sum / Sigma) ((sum_sq / Sigma - n) / fsqrt Sigma).
(** univariate.rs:206-216 *)
Definition fit_mle (xs : list F) : result t (Error F) :=
  let n := f_of_Z (Z.of_nat (List.length xs)) in
  let mean := fold_left fadd xs #0 / n in
  let var := fold_left (fun acc r => acc + r * r) (map (fun x => x - mean) xs) #0 / n in
  new mean var.
(** univariate.rs:222-227 *)
Definition convolve (d rv : t) : result t (Error F) :=
  Ok (new_unchecked (mu (pr d) + mu (pr rv)) (variance d + variance rv)).
End M.
Arguments Params : clear implicits.
Arguments t : clear implicits.
Arguments Grad : clear implicits.
End UvNormal.

(** univariate/lognormal.rs: a Normal inside *)
Module LogNormal.
Section M.
Context {F : Type} {SF : Scalar F}.
Notation P := (UvNormal.Params F).
(** lognormal.rs:17, 26-41 *)
Record t := mk { nrm : UvNormal.t F }.
Definition new (m s : F) : result t (Error F) := map_ok mk (UvNormal.new m s).
Definition new_unchecked (m s : F) : t := mk (UvNormal.new_unchecked m s).
Definition from (p : P) : t := mk (UvNormal.from p).
Definition params (d : t) : P := UvNormal.params (nrm d).
Definition mu (d : t) : F := UvNormal.mu (UvNormal.pr (nrm d)).
Definition sigma (d : t) : F := UvNormal.Sigma (UvNormal.pr (nrm d)).
(** lognormal.rs:47 *)
Definition support (d : t) : Space F := PositiveReals.
(** lognormal.rs:53-57, 69-73 *)
Definition cdf {SP : Special F} (d : t) (x : F) : Probability F := UvNormal.cdf (nrm d) (fln x).
Definition pdf (d : t) (x : F) : F := UvNormal.pdf (nrm d) (fln x).
(** lognormal.rs:79-104 *)
Definition mean (d : t) : F := fexp (mu d + sigma d * sigma d / #2).
Definition variance (d : t) : F :=
  let sigma2 := sigma d * sigma d in (fexp sigma2 - #1) * fexp (#2 * mu d + sigma2).
Definition skewness (d : t) : F :=
  let sigma2 := sigma d * sigma d in (fexp sigma2 + #2) * fsqrt (fexp sigma2 - #1).
Definition excess_kurtosis (d : t) : F :=
  let sigma2 := sigma d * sigma d in
  fexp (#4 * sigma2) + #2 * fexp (#3 * sigma2) + #3 * fexp (#2 * sigma2) - #6.
(** lognormal.rs:108, 110, 114-118, 122-126 *)
Definition quantile (d : t) (p : Probability F) : res F := Panic.
Definition median (d : t) : F := fexp (mu d).
Definition modes (d : t) : list F := [fexp (mu d - sigma d * sigma d)].
Definition shannon_entropy (d : t) : F := flog2 (sigma d * fexp (mu d + #1 / #2) * fsqrt PI_2).
(** lognormal.rs:130-138 *)
Definition fisher_information (d : t) : list (list F) :=
  let o := #1 / sigma d / sigma d in [[o; #0]; [#0; o * o / #2]].
End M.
Arguments t : clear implicits.
End LogNormal.
