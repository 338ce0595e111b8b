(** * Univariate discrete distributions: bernoulli.rs, binomial.rs,
      beta_binomial.rs, geometric.rs, categorical.rs, poisson.rs *)
From Verif.Model Require Import Rust Constraints Probability Params Utils Consts LogFact.
Open Scope rust_scope.

(** constraints.rs:12-14 on probabilities: [assert_constraint!(p1 == p2)?];
    derive(PartialEq) on Probability compares the doubles *)
Definition assert_eq_prob {F} {SF : Scalar F} (p1 p2 : Probability F) : result (Probability F) (Error F) :=
  map_err EConstraint (map_ok Prob (check (Equal (unwrap p2)) (unwrap p1))).
(** usize -> u64 is the identity on 64-bit targets *)
Definition usize := u64.

(** univariate/binomial.rs *)
Module Binomial.
Section M.
Context {F : Type} {SF : Scalar F}.
Notation Prb := (Probability F).
(** binomial.rs:18-24, 27-30; Count<usize> *)
Record Params := mkP { n : Z; p : Prb }.
Record t := mk { pr : Params; q : Prb }.
(** binomial.rs:39-44 *)
Definition new (k : Z) (x : Prb) : result t (Error F) :=
  map_ok (fun '(k, (x, tt)) => mk (mkP k (Prob x)) (p_not (Prob x))) (params_new (s2 PCount PProb) (k, (unwrap x, tt))).
(** binomial.rs:46-51 *)
Definition new_unchecked (k : Z) (x : Prb) : t := mk (mkP k x) (p_not x).
(** binomial.rs:54-56, 64 *)
Definition from (ps : Params) : t := new_unchecked (n ps) (p ps).
Definition params (d : t) : Params := pr d.
(** binomial.rs:62: usize addition *)
Definition support (d : t) : res (Space Z) := let! u := usize (n (pr d) + 1) in Ret (Closed 0%Z u).
(** binomial.rs:66-73 *)
Definition cdf {SP : Special F} (d : t) (k : Z) : res Prb :=
  let! a := usize (n (pr d) - k) in
  let! b := usize (k + 1) in
  Ret (Prob (sf_betainc (unwrap (q d)) (f_of_Z a) (f_of_Z b))).
(** binomial.rs:86-96; [powi] takes an i32, the casts wrap *)
Definition pmf (d : t) (k : Z) : res Prb :=
  let n := n (pr d) in let p := p (pr d) in
  let! bc := choose n k in
  let prob_successes := p_powi p (as_i32 k) in
  let! nk := usize (n - k) in
  let prob_failures := p_powi (q d) (as_i32 nk) in
  let prob := prob_successes * prob_failures in
  Ret (Prob (f_of_Z bc * prob)).
(** binomial.rs:102-122 *)
Definition mean (d : t) : F := unwrap (p (pr d)) * f_of_Z (n (pr d)).
Definition variance (d : t) : F := unwrap (p (pr d)) * unwrap (q d) * f_of_Z (n (pr d)).
Definition skewness (d : t) : F := (#1 - p_mul_f (p (pr d)) #2) / fsqrt (variance d).
Definition kurtosis (d : t) : F :=
  let p := unwrap (p (pr d)) in let q := unwrap (q d) in
  (#1 - #6 * p * q) / (f_of_Z (n (pr d)) * p * q).
(** binomial.rs:126, 128 *)
Definition quantile (d : t) (x : Prb) : res F := Panic.
Definition median (d : t) : F := fround (mean d).
(** binomial.rs:132-136: [as usize] saturates *)
Definition modes (d : t) : list Z := [f_to_Z 0 USIZE_MAX (ffloor (p_mul_f (p (pr d)) (f_of_Z (n (pr d)))))].
(** binomial.rs:140, 144-148 *)
Definition shannon_entropy (d : t) : F := flog2 (#2 * PI_E * variance d) / #2.
Definition fisher_information (d : t) : list (list F) := [[f_of_Z (n (pr d)) / unwrap (p (pr d)) / unwrap (q d)]].
(** binomial.rs:165-172 (Binomial + Binomial) *)
Definition convolve (d rv : t) : res (result t (Error F)) :=
  match assert_eq_prob (p (pr d)) (p (pr rv)) with
  | Err e => Ret (Err e)
  | Ok _ => let! m := usize (n (pr d) + n (pr rv)) in Ret (new m (p (pr d)))
  end.
End M.
Arguments Params : clear implicits.
Arguments t : clear implicits.
End Binomial.

(** univariate/bernoulli.rs *)
Module Bernoulli.
Section M.
Context {F : Type} {SF : Scalar F}.
Notation Prb := (Probability F).
(** bernoulli.rs:14-19, 26-31 *)
Record Params := mkP { p : Prb }.
Record t := mk { pr : Params; q : Prb; var : F }.
(** bernoulli.rs:34-40 *)
Definition new (x : F) : result t (Error F) :=
  map_ok (fun '(y, tt) => mk (mkP (Prob y)) (p_not (Prob y)) (x * (#1 - x))) (params_new (s1 PProb) (x, tt)).
(** bernoulli.rs:45-54 *)
Definition from (ps : Params) : t := mk ps (p_not (p ps)) (unwrap (p ps) * (#1 - unwrap (p ps))).
(** bernoulli.rs:42 *)
Definition new_unchecked (x : F) : t := from (mkP (Prob x)).
(** bernoulli.rs:60, 62 *)
Definition support (d : t) : Space bool := Binary.
Definition params (d : t) : Params := pr d.
(** bernoulli.rs:64-70 *)
Definition cdf (d : t) (k : bool) : Prb := if k then p_one else p_zero.
(** bernoulli.rs:72-74 *)
Definition sample {S} {R : Rng S F} (d : t) (s : S) : bool * S := gen_bool (unwrap (p (pr d))) s.
(** bernoulli.rs:78-83 *)
Definition pmf (d : t) (k : bool) : Prb := if k then p (pr d) else q d.
(** lib.rs:218-226: [log_pmf] is the default *)
Definition log_pmf (d : t) (k : bool) : F := p_ln (pmf d k).
(** bernoulli.rs:89-97 *)
Definition mean (d : t) : F := unwrap (p (pr d)).
Definition variance (d : t) : F := var d.
Definition skewness (d : t) : F := (#1 - #2 * unwrap (p (pr d))) / fsqrt (var d).
Definition kurtosis (d : t) : F := #1 / var d - #6.
Definition excess_kurtosis (d : t) : F := #1 / var d - #9.
(** bernoulli.rs:101, 103-109 *)
Definition quantile (d : t) (x : Prb) : res F := Panic.
Definition median (d : t) : F :=
  let p := unwrap (p (pr d)) in
  if fabs (p - #1 / #2) <? #1 / #10000000 then #1 / #2
  else if p <? #1 / #2 then #0 else #1.
(** bernoulli.rs:113-122 *)
Definition modes (d : t) : res (list bool) :=
  let a := unwrap (p (pr d)) in let b := unwrap (q d) in
  if a <? b then Ret [false] else if a =? b then Ret [false; true] else if a >? b then Ret [false] else Panic.
(** bernoulli.rs:126-135 *)
Definition shannon_entropy (d : t) : F :=
  let p := unwrap (p (pr d)) in let q := unwrap (q d) in
  if (fabs q <? #1 / #10000000) || (fabs (q - #1) <? #1 / #10000000) then #0
  else - q * fln q - p * fln p.
(** bernoulli.rs:139 *)
Definition fisher_information (d : t) : list (list F) := [[#1 / var d]].
(** bernoulli.rs:143-145 *)
Definition log_likelihood (d : t) (samples : list bool) : F := fsum (map (log_pmf d) samples).
(** bernoulli.rs:151-155 *)
Definition score (d : t) (samples : list bool) : F := fsum (map (fun x => #1 / unwrap (pmf d x)) samples).
(** bernoulli.rs:159-164: the u64 count cannot overflow (at most xs.len()) *)
Definition fit_mle (xs : list bool) : result t (Error F) :=
  let n := f_of_Z (Z.of_nat (List.length xs)) in
  let p := f_of_Z (fold_left (fun (acc : Z) (x : bool) => (acc + (if x then 1 else 0))%Z) xs 0%Z) / n in
  new p.
(** bernoulli.rs:170-177 (Bernoulli + Bernoulli) *)
Definition convolve (d rv : t) : result (Binomial.t F) (Error F) :=
  let? _ := assert_eq_prob (p (pr d)) (p (pr rv)) in
  Ok (Binomial.new_unchecked 2 (p (pr d))).
(** binomial.rs:154-159 (Binomial + Bernoulli): arguments are evaluated in
    order, so the usize addition comes first *)
Definition binomial_convolve (d : Binomial.t F) (rv : t) : res (result (Binomial.t F) (Error F)) :=
  let! m := usize (Binomial.n (Binomial.pr d) + 1) in
  Ret (let? p1 := assert_eq_prob (Binomial.p (Binomial.pr d)) (p (pr rv)) in Binomial.new m p1).
End M.
Arguments Params : clear implicits.
Arguments t : clear implicits.
End Bernoulli.

(** univariate/beta_binomial.rs *)
Module BetaBinomial.
Section M.
Context {F : Type} {SF : Scalar F} {SP : Special F}.
Notation Prb := (Probability F).
(** beta_binomial.rs:16-31 *)
Record Params := mkP { n : Z; alpha : F; beta : F }.
Record t := mk { pr : Params; pi : F; rho : F }.
(** beta_binomial.rs:59-68 *)
Definition from (ps : Params) : t :=
  mk ps (alpha ps / (alpha ps + beta ps)) (#1 / (alpha ps + beta ps + #1)).
(** beta_binomial.rs:40-46, 76 *)
Definition new (k : Z) (x y : F) : result t (Error F) :=
  map_ok (fun '(k, (x, (y, tt))) => from (mkP k x y)) (params_new (s3 PCount PShape PShape) (k, (x, (y, tt)))).
Definition new_unchecked (k : Z) (x y : F) : t := from (mkP k x y).
Definition params (d : t) : Params := pr d.
(** beta_binomial.rs:48-56 *)
Definition pmf_raw (d : t) (k : Z) : res F :=
  let n := n (pr d) in let alpha := alpha (pr d) in let beta := beta (pr d) in
  let! c := choose n k in
  let c := f_of_Z c in let z := sf_beta alpha beta in let k := f_of_Z k in
  Ret (c * sf_beta (k + alpha) (f_of_Z n - k + beta) / z).
(** beta_binomial.rs:74, 78-84, 86, 90 *)
Definition support (d : t) : res (Space Z) := let! u := usize (n (pr d) + 1) in Ret (Closed 0%Z u).
Definition cdf (d : t) (k : Z) : res Prb := if Z.leb (n (pr d)) k then Ret p_one else Panic.
Definition sample {S} (d : t) (s : S) : res (Z * S) := Panic.
Definition pmf (d : t) (k : Z) : res Prb := rmap Prob (pmf_raw d k).
(** beta_binomial.rs:96-132 *)
Definition mean (d : t) : F := f_of_Z (n (pr d)) * pi d.
Definition variance (d : t) : F :=
  let n := f_of_Z (n (pr d)) in n * pi d * (#1 - pi d) * (#1 + (n - #1) * rho d).
Definition skewness (d : t) : F :=
  let alpha := alpha (pr d) in let beta := beta (pr d) in let n := f_of_Z (n (pr d)) in
  let ap1 := alpha + #1 in let ap2 := ap1 + #1 in
  let b := n * n * ap1 * ap2 + #3 * n * ap1 * beta + beta * (beta - alpha) in
  pi d * rho d * n * b / (ap2 + beta).
Definition kurtosis (d : t) : F :=
  let alpha := alpha (pr d) in let beta := beta (pr d) in let n := f_of_Z (n (pr d)) in
  let pi := pi d in let rho := rho d in
  let apb := alpha + beta in
  let b1 := alpha / (n * pi * pi * rho * beta * (apb + #2) * (apb + #3) * (apb + n)) in
  let b2 := (apb - #1 + #6 * n) / alpha in
  let b3 := #3 * alpha * beta * (n - #2) in
  let b4 := #6 * n * n in
  let b5 := - #3 * pi * beta * n * (#6 - n) in
  let b6 := - #18 * pi * beta * n * n / apb in
  b1 * (b2 + b3 + b4 + b5 + b6).
End M.
Arguments Params : clear implicits.
Arguments t : clear implicits.
End BetaBinomial.

(** univariate/geometric.rs *)
Module Geometric.
Section M.
Context {F : Type} {SF : Scalar F}.
Notation Prb := (Probability F).
(** geometric.rs:13-24 *)
Record Params := mkP { p : Prb }.
Record t := mk { pr : Params; q : Prb }.
(** geometric.rs:27-39 *)
Definition from (ps : Params) : t := mk ps (p_not (p ps)).
Definition new (x : F) : result t (Error F) :=
  map_ok (fun '(x, tt) => from (mkP (Prob x))) (params_new (s1 PProb) (x, tt)).
Definition new_unchecked (x : F) : t := from (mkP (Prob x)).
(** geometric.rs:45, 47 *)
Definition support (d : t) : Space Z := NonNegativeIntegers.
Definition params (d : t) : Params := pr d.
(** geometric.rs:49-51: [*k as i32 + 1]: wrapping cast, then checked i32 addition *)
Definition cdf (d : t) (k : Z) : res Prb :=
  let! e := checked (- 2 ^ 31) (2 ^ 31 - 1) (as_i32 k + 1) in
  Ret (Prob (#1 - p_powi (q d) e)).
(** geometric.rs:63-65 *)
Definition pmf (d : t) (k : Z) : Prb := Prob (p_mul_f (p (pr d)) (p_powi (q d) (as_i32 k))).
(** geometric.rs:71-85 *)
Definition mean (d : t) : F := unwrap (q d) / unwrap (p (pr d)).
Definition variance (d : t) : F := unwrap (q d) / unwrap (p (pr d)) / unwrap (p (pr d)).
Definition skewness (d : t) : F := (#2 - unwrap (p (pr d))) / fsqrt (unwrap (q d)).
Definition excess_kurtosis (d : t) : F := #6 + #1 / variance d.
(** geometric.rs:89, 91, 95, 99-103 *)
Definition quantile (d : t) (x : Prb) : res F := Panic.
Definition median (d : t) : F := (- #1 / p_log2 (q d)) - #1.
Definition modes (d : t) : list Z := [0%Z].
Definition shannon_entropy (d : t) : F :=
  let p := unwrap (p (pr d)) in let q := unwrap (q d) in (- q * flog2 q - p * flog2 p) / p.
End M.
Arguments Params : clear implicits.
Arguments t : clear implicits.
End Geometric.

(** univariate/categorical.rs; the array [f64; N] is a list of length N *)
Module Categorical.
Section M.
Context {F : Type} {SF : Scalar F}.
Notation Prb := (Probability F).
(** categorical.rs:12-33 *)
Record Params := mkP { ps : list F }.
Record t := mk { pr : Params }.
(** categorical.rs:17-21, 36-38 *)
Definition new (v : list F) : result t (Error F) :=
  map_ok (fun v => mk (mkP v)) (map_err EProb (simplex_new v)).
(** categorical.rs:40, 45-47 *)
Definition from (x : Params) : t := mk x.
Definition new_unchecked (v : list F) : t := from (mkP v).
(** categorical.rs:42, 55 *)
Definition n_categories (d : t) : Z := Z.of_nat (List.length (ps (pr d))).
Definition params (d : t) : Params := pr d.
(** categorical.rs:53 *)
Definition support (d : t) : Space Z := Closed 0%Z (n_categories d + 1)%Z.
(** categorical.rs:57-59 *)
Definition cdf (d : t) (x : Z) : Prb := Prob (fsum (firstn (Z.to_nat x) (ps (pr d)))).
(** categorical.rs:61 *)
Definition sample {S} {R : Rng S F} (d : t) (s : S) : res (nat * S) := sample_index (ps (pr d)) s.
(** categorical.rs:65-73 *)
Definition pmf (d : t) (i : Z) : res Prb :=
  if Z.leb (n_categories d) i then Panic
  else match nth_error (ps (pr d)) (Z.to_nat i) with Some x => Ret (Prob x) | None => Panic end.
(** categorical.rs:83-101: the closure of the fold; [j] is the enumerate index *)
Definition modes_step (acc : list nat * F) (jp : nat * F) : res (list nat * F) :=
  let '(modes, pmax) := acc in let '(j, p) := jp in
  if p <? pmax then Ret (modes, pmax)
  else if p =? pmax then Ret (modes ++ [j], pmax)
  else if p >? pmax then
    (* truncate(1); modes[0] = j *)
    match modes with [] => Panic | _ :: _ => Ret ([j], p) end
  else Panic.
Fixpoint rfold {A B} (f : A -> B -> res A) (l : list B) (a : A) : res A :=
  match l with [] => Ret a | x :: l => let! a := f a x in rfold f l a end.
(** categorical.rs:77-103; [self.0.ps[0]] panics when N = 0 *)
Definition modes (d : t) : res (list nat) :=
  match ps (pr d) with
  | [] => Panic
  | p0 :: rest =>
      let! r := rfold modes_step (combine (seq 1 (List.length rest)) rest) ([0%nat], p0) in
      Ret (fst r)
  end.
End M.
Arguments Params : clear implicits.
Arguments t : clear implicits.
End Categorical.

(** univariate/poisson.rs *)
Module Poisson.
Section M.
Context {F : Type} {SF : Scalar F}.
Notation Prb := (Probability F).
(** poisson.rs:18-29 *)
Record Params := mkP { lambda : F }.
Record t := mk { pr : Params }.
(** poisson.rs:38-42, 51 *)
Definition new (x : F) : result t (Error F) := map_ok (fun '(x, tt) => mk (mkP x)) (params_new (s1 PRate) (x, tt)).
Definition new_unchecked (x : F) : t := mk (mkP x).
Definition from (ps : Params) : t := mk ps.
Definition params (d : t) : Params := pr d.
(** poisson.rs:49, 53 *)
Definition support (d : t) : Space Z := Naturals.
Definition cdf (d : t) (k : Z) : res Prb := Panic.
(** poisson.rs:65-69, with the log-factorial as an argument *)
Definition log_pmf_with (lf : Z -> res F) (d : t) (k : Z) : res F :=
  let l := lambda (pr d) in
  let! f := lf k in Ret (f_of_Z k * fln l - l - f).
Definition log_pmf : t -> Z -> res F := log_pmf_with log_factorial_stirling.
(** lib.rs:218-221: [pmf] is the default *)
Definition pmf_with (lf : Z -> res F) (d : t) (k : Z) : res Prb := rmap (fun l => Prob (fexp l)) (log_pmf_with lf d k).
Definition pmf : t -> Z -> res Prb := pmf_with log_factorial_stirling.
(** poisson.rs:75-81 *)
Definition mean (d : t) : F := lambda (pr d).
Definition variance (d : t) : F := lambda (pr d).
Definition skewness (d : t) : F := fpowf (lambda (pr d)) (- ONE_HALF).
Definition kurtosis (d : t) : F := #1 / lambda (pr d).
(** poisson.rs:85, 87-91: 0.02 is the decimal 2/100 *)
Definition quantile (d : t) (x : Prb) : res F := Panic.
Definition median (d : t) : F := let l := lambda (pr d) in ffloor (l + ONE_THIRD - (#2 / #100) / l).
(** poisson.rs:95: saturating cast *)
Definition modes (d : t) : list Z := [f_to_Z 0 U64_MAX (ffloor (lambda (pr d)))].
(** poisson.rs:99-106 *)
Definition shannon_entropy (d : t) : F :=
  let l := lambda (pr d) in
  fln (PI_E_2 * l) / #2 - ONE_TWELTH / l - ONE_TWENTY_FOURTH / l / l - NINETEEN_OVER_360 / l / l / l.
(** poisson.rs:110 *)
Definition fisher_information (d : t) : list (list F) := [[lambda (pr d)]].
(** poisson.rs:114-124 *)
Fixpoint rmap_list {A B} (f : A -> res B) (l : list A) : res (list B) :=
  match l with [] => Ret [] | x :: l => let! y := f x in let! ys := rmap_list f l in Ret (y :: ys) end.
Definition log_likelihood_with (lf : Z -> res F) (d : t) (samples : list Z) : res F :=
  let n := f_of_Z (Z.of_nat (List.length samples)) in
  let l := lambda (pr d) in let l_ln := fln l in
  let! terms := rmap_list (fun k => let! f := lf k in Ret (l_ln * f_of_Z k - f)) samples in
  Ret (- n * l + fsum terms).
Definition log_likelihood : t -> list Z -> res F := log_likelihood_with log_factorial_stirling.
(** poisson.rs:130-137: the u64 sum is checked *)
Fixpoint sum_u64 (acc : Z) (l : list Z) : res Z :=
  match l with [] => Ret acc | x :: l => let! acc := u64 (acc + x) in sum_u64 acc l end.
Definition score (d : t) (samples : list Z) : res F :=
  let n := f_of_Z (Z.of_nat (List.length samples)) in
  let! s := sum_u64 0 samples in Ret (n + f_of_Z s / lambda (pr d)).
(** poisson.rs:141-145 *)
Definition fit_mle (xs : list Z) : result t (Error F) :=
  let n := f_of_Z (Z.of_nat (List.length xs)) in
  new (fold_left (fun acc x => acc + f_of_Z x) xs #0 / n).
(** poisson.rs:151-155 *)
Definition convolve (d rv : t) : result t (Error F) := Ok (new_unchecked (lambda (pr d) + lambda (pr rv))).
End M.
Arguments Params : clear implicits.
Arguments t : clear implicits.
End Poisson.
