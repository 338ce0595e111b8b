(** * Properties C22, C23 (and the generic part of C25, C67): default methods *)
From Coq Require Import Reals Lra ZArith Lia List Bool String.
From Verif.Num Require Import Scalar XReal.
From Verif.Model Require Import Rust Constraints Probability Params Traits.
From Verif.Proofs Require Import ConstraintProofs TraitProofs.
Import ListNotations.

(** C22: for any sampler (any generator state type, any distribution). *)
Theorem C22_sample_n {S A} (sample : S -> res (A * S)) (n m : nat) (s : S) :
  (* same values, same final generator state as the iterator *)
  sample_n sample n s = sampler_take sample n s /\
  (* exactly n values *)
  (forall xs s', sample_n sample n s = Ret (xs, s') -> List.length xs = n) /\
  (* n then m = n + m *)
  (forall xs s1 ys s2, sample_n sample n s = Ret (xs, s1) -> sample_n sample m s1 = Ret (ys, s2) ->
     sample_n sample (n + m) s = Ret (xs ++ ys, s2)) /\
  (* it returns if sample does *)
  ((forall s, exists x s', sample s = Ret (x, s')) -> exists xs s', sample_n sample n s = Ret (xs, s')) /\
  (* the iterator never ends and next is sample *)
  (forall o s', sampler_next sample s = Ret (o, s') -> exists x, o = Some x /\ sample s = Ret (x, s')).
Proof.
  split; [exact (sample_n_take sample n s)|]. split; [exact (sample_n_length sample n s)|].
  split; [|split; [exact (fun H => sample_n_total sample n H s)|exact (sampler_next_some sample s)]].
  intros xs s1 ys s2 H1 H2. rewrite sample_n_add, H1. cbn [rbind]. rewrite H2. reflexivity.
Qed.
Print Assumptions C22_sample_n.
Example C22_nonvacuous : sample_n (fun s : nat => Ret (s * s, S s)%nat) 3%nat 2%nat = Ret ([4; 9; 16], 5)%nat.
Proof. reflexivity. Qed.

(** C23: the pairs of mutually recursive defaults, with arbitrary overrides.
    [fuel] bounds the depth of calls; 2 is always enough when one of the two is
    overridden, and nothing is enough when neither is. *)
Theorem C23_mutual_defaults {F} {SF : Scalar F} {X} (fuel : nat) (x : X) (p : Probability F) :
  (* only one overridden: the other is derived and the call returns *)
  (forall ek, call_a None (Some (fun _ => Ret ek)) d_kurtosis d_excess_kurtosis (2 + fuel)%nat tt = Ret (fadd ek (f_of_Z 3))) /\
  (forall k, call_b (Some (fun _ => Ret k)) None d_kurtosis d_excess_kurtosis (2 + fuel)%nat tt = Ret (fsub k (f_of_Z 3))) /\
  (forall v, call_b (Some (fun _ => Ret v)) None d_variance d_sd (2 + fuel)%nat tt = Ret (fsqrt v)) /\
  (forall sd, call_a None (Some (fun _ => Ret sd)) d_variance d_sd (2 + fuel)%nat tt = Ret (fmul sd sd)) /\
  (forall q, call_b (Some q) None d_quantile d_cquantile (2 + fuel)%nat p = q (p_not p)) /\
  (forall cq, call_a None (Some cq) d_quantile d_cquantile (2 + fuel)%nat p = cq (p_not p)) /\
  (forall cdf : X -> Probability F, call_b (Some (fun x => Ret (cdf x))) None d_cdf d_log_cdf (2 + fuel)%nat x = Ret (fln (unwrap (cdf x)))) /\
  (forall lc : X -> F, call_a None (Some (fun x => Ret (lc x))) d_cdf d_log_cdf (2 + fuel)%nat x = Ret (Prob (fexp (lc x)))) /\
  (forall pdf : X -> F, call_b (Some (fun x => Ret (pdf x))) None d_pdf d_log_pdf (2 + fuel)%nat x = Ret (fln (pdf x))) /\
  (forall lp : X -> F, call_a None (Some (fun x => Ret (lp x))) d_pdf d_log_pdf (2 + fuel)%nat x = Ret (fexp (lp x))) /\
  (forall pmf : X -> Probability F, call_b (Some (fun x => Ret (pmf x))) None d_pmf d_log_pmf (2 + fuel)%nat x = Ret (fln (unwrap (pmf x)))) /\
  (forall lp : X -> F, call_a None (Some (fun x => Ret (lp x))) d_pmf d_log_pmf (2 + fuel)%nat x = Ret (Prob (fexp (lp x)))) /\
  (forall ll : X -> F, call_a None (Some (fun x => Ret (ll x))) d_likelihood d_log_likelihood (2 + fuel)%nat x = Ret (fexp (ll x))) /\
  (forall l : X -> F, call_b (Some (fun x => Ret (l x))) None d_likelihood d_log_likelihood (2 + fuel)%nat x = Ret (fln (l x))) /\
  (forall d2 : X -> F, call_a None (Some (fun x => Ret (d2 x))) d_mahalanobis d_mahalanobis_sq (2 + fuel)%nat x = Ret (fsqrt (d2 x))) /\
  (* ccdf = 1 - cdf *)
  (forall cdf : X -> Probability F, d_ccdf (fun x => Ret (cdf x)) x = Ret (Prob (fsub (f_of_Z 1) (unwrap (cdf x)))) /\
     d_log_ccdf (d_ccdf (fun x => Ret (cdf x))) x = Ret (fln (fsub (f_of_Z 1) (unwrap (cdf x))))).
Proof. repeat split. Qed.
Print Assumptions C23_mutual_defaults.
(** neither overridden: unbounded recursion, for every pair *)
Theorem C23_neither_diverges {F} {SF : Scalar F} {X} (fuel : nat) (x : X) (p : Probability F) :
  call_a None None d_kurtosis d_excess_kurtosis fuel tt = Diverge /\ call_a None None d_variance d_sd fuel tt = Diverge /\
  call_a None None (d_quantile (F:=F)) d_cquantile fuel p = Diverge /\ call_a None None (d_cdf (F:=F)) d_log_cdf fuel x = Diverge /\
  call_a None None (d_pdf (F:=F)) d_log_pdf fuel x = Diverge /\ call_a None None (d_pmf (F:=F)) d_log_pmf fuel x = Diverge /\
  call_a None None (d_likelihood (F:=F)) d_log_likelihood fuel x = Diverge.
Proof.
  repeat split; apply call_none; intros y g H;
    unfold d_kurtosis, d_excess_kurtosis, d_variance, d_sd, d_quantile, d_cquantile, d_cdf, d_log_cdf, d_pdf, d_log_pdf,
      d_pmf, d_log_pmf, d_likelihood, d_log_likelihood; rewrite H; reflexivity.
Qed.
Print Assumptions C23_neither_diverges.
(** every impl in the crate overrides at least one method of every pair *)
Theorem C23_every_impl_terminates :
  (forall n a b c d, In (n, (a, b, c, d)) uvmoments_impls -> (a || b)%bool = true /\ (c || d)%bool = true) /\
  (forall n a b, In (n, (a, b)) (distribution_impls ++ density_impls ++ quantiles_impls ++ likelihood_impls ++ mahalanobis_impls) ->
     (a || b)%bool = true).
Proof.
  split.
  - intros n a b c d H.
    assert (G: forallb (fun '(_, (a, b, c, d)) => (a || b) && (c || d))%bool uvmoments_impls = true) by reflexivity.
    rewrite forallb_forall in G. specialize (G _ H). cbn in G. now apply andb_true_iff in G.
  - intros n a b H.
    assert (G: forallb (fun '(_, (a, b)) => (a || b))%bool
      (distribution_impls ++ density_impls ++ quantiles_impls ++ likelihood_impls ++ mahalanobis_impls) = true) by (vm_compute; reflexivity).
    rewrite forallb_forall in G. specialize (G _ H). exact G.
Qed.
Print Assumptions C23_every_impl_terminates.
(** quartiles, iqr and fences, for any quantile function with real values *)
Theorem C23_quartiles (q : Probability xreal -> res xreal) (lo md hi : R) :
  q (Prob (Fin (1/4))) = Ret (Fin lo) -> q (Prob (Fin (1/2))) = Ret (Fin md) -> q (Prob (Fin (3/4))) = Ret (Fin hi) ->
  lower_quartile q = Ret (Fin lo) /\ d_median q = Ret (Fin md) /\ upper_quartile q = Ret (Fin hi) /\
  iqr q = Ret (Fin (hi - lo)) /\
  lower_fence q = Ret (Fin (lo - 1.5 * (hi - lo))) /\ upper_fence q = Ret (Fin (hi + 1.5 * (hi - lo))).
Proof.
  intros H1 H2 H3. unfold lower_fence, upper_fence, iqr, lower_quartile, upper_quartile, d_median, p_half.
  rewrite !x_lit, !x_div by lra. rewrite H1, H2, H3. cbn [rbind]. rewrite !x_sub, !x_mul, !x_sub, !x_add.
  repeat split; do 2 f_equal; lra.
Qed.
Print Assumptions C23_quartiles.

(** C25, generic part: an error for fewer than two operands (carrying the
    number of operands); otherwise self is convolved with every operand exactly
    once - the last one first, then the others in order - and the first error
    is the result.  [Runs conv o l r]: convolving [o] with the elements of [l]
    in order gives [r]. *)
Inductive Runs {D O E} (conv : O -> D -> result O E) : O -> list D -> result O E -> Prop :=
| runs_done o : Runs conv o [] (Ok o)
| runs_err o d l e : conv o d = Err e -> Runs conv o (d :: l) (Err e)
| runs_step o d l o' r : conv o d = Ok o' -> Runs conv o' l r -> Runs conv o (d :: l) r.
Theorem C25_convolve_many_fold {F A D O} {SF : Scalar F} (conv1 : A -> D -> result O (Error F)) (conv2 : O -> D -> result O (Error F))
    (self : A) (rvs : list D) :
  ((List.length rvs < 2)%nat -> exists e : UCE Z, convolve_many conv1 conv2 self rvs = Err (EConstraint e) /\
     uce_value e = Z.of_nat (List.length rvs) /\ uce_target e = Some "n"%string) /\
  (forall init last, rvs = init ++ [last] -> init <> [] ->
     (forall e, conv1 self last = Err e -> convolve_many conv1 conv2 self rvs = Err e) /\
     (forall o, conv1 self last = Ok o -> Runs conv2 o init (convolve_many conv1 conv2 self rvs))).
Proof.
  split.
  - intros H. unfold convolve_many. destruct (check_err (GreaterThan 1%Z) (Z.of_nat (List.length rvs))) as (e & E & V & _).
    + cbn. apply Z.ltb_ge. lia.
    + rewrite E. cbn. eexists; split; [reflexivity|]. split; [exact V|reflexivity].
  - intros init last -> Hne.
    assert (U : convolve_many conv1 conv2 self (init ++ [last]) =
                fold_left (fun acc rv => and_then acc (fun d => conv2 d rv)) init (conv1 self last)).
    { unfold convolve_many. rewrite check_ok.
      - cbn [map_err and_then]. rewrite rev_app_distr. cbn [rev app]. now rewrite rev_involutive.
      - cbn. apply Z.ltb_lt. rewrite app_length. destruct init; [congruence|]. cbn [List.length]. lia. }
    rewrite U. clear U Hne. split.
    + intros e ->. apply fold_err.
    + intros o ->. revert o. induction init as [|r init IH]; intros o; [constructor|].
      cbn [fold_left and_then]. destruct (conv2 o r) as [o'|e] eqn:E.
      * eapply runs_step; [exact E|apply IH].
      * rewrite fold_err. now apply runs_err.
Qed.
Print Assumptions C25_convolve_many_fold.
