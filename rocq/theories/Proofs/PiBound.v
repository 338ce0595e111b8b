(** * A lower bound for pi that tells it from its double: fpi < PI *)
From Coq Require Import Reals Lra ZArith Machin.
Open Scope R_scope.
Lemma pi_lb : 7074237752028440 / 4503599627370496 < PI / 2.
Proof.
  destruct (PI_2_3_7_ineq 8) as [L _]. cbn [Nat.mul Nat.add] in L.
  assert (E : forall n : nat, tg_alt PI_2_3_7_tg n = (-1) ^ n * (2 * (/ 3) ^ (2 * n + 1) * / INR (2 * n + 1) + (/ 7) ^ (2 * n + 1) * / INR (2 * n + 1))).
  { intros n. unfold tg_alt, PI_2_3_7_tg, Ratan_seq. unfold Rdiv. ring. }
assert (E2 : sum_f_R0 (fun n : nat => (-1) ^ n * (2 * (/ 3) ^ (2 * n + 1) * / INR (2 * n + 1) + (/ 7) ^ (2 * n + 1) * / INR (2 * n + 1))) 17 <= PI / 4).
  { eapply Rle_trans; [|exact L]. right. apply sum_eq. intros i _. symmetry. apply E. }
  clear L E. rename E2 into L. cbn [sum_f_R0] in L. cbn [Nat.mul Nat.add] in L. rewrite !INR_IZR_INZ in L. cbn [Z.of_nat Pos.of_succ_nat Pos.succ] in L. rewrite !pow_inv in L. 
  rewrite !pow_IZR in L. 
  repeat match type of L with context [IZR (?a ^ ?b)] => let v := eval vm_compute in (a ^ b)%Z in change (IZR (a ^ b)) with (IZR v) in L end.
  lra.
Qed.

