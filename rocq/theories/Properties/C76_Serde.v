(** * Property C76: serde of fixed-size arrays and of probabilities *)
From Coq Require Import Reals Lra List Arith Lia.
From Flocq Require Import Core IEEE754.BinarySingleNaN.
From Verif.Num Require Import Scalar F64.
From Verif.Model Require Import Rust Probability Serde.
From Verif.Spec Require Import ProbSpec SerdeSpec.
Import ListNotations.

Section Serde.
Context {T St E W O : Type}.
Implicit Types (next : SeqAccess T St E) (S : TupleSerializer T W O E) (bad : nat -> E).
Local Lemma yields_app next s xs s1 ys s2 : yields next s xs s1 -> yields next s1 ys s2 -> yields next s (xs ++ ys) s2.
Proof. induction 1; intros; [assumption|]. cbn. econstructor; eauto. Qed.
Local Lemma cons_inv next s y ys s2 : yields next s (y :: ys) s2 -> exists s1, next s = (Ok (Some y), s1) /\ yields next s1 ys s2.
Proof. intros H. inversion H; subst. eauto. Qed.
Local Lemma yields_det next s xs s1 ys s2 : yields next s xs s1 -> yields next s ys s2 -> length xs = length ys -> xs = ys /\ s1 = s2.
Proof.
  intros H. revert ys s2. induction H as [|s x s1 xs s2 Hx H IH]; intros ys s3 H'; inversion H'; subst; cbn; intros L; try discriminate; [auto|].
  rewrite Hx in H0. injection H0 as <- <-. destruct (IH xs0 s3 H1 ltac:(lia)) as [-> ->]. auto.
Qed.
Local Lemma loop_ok next bad N k : forall data s, 
  (exists xs s', length xs = k /\ yields next s xs s' /\ visit_loop next bad N k data s = (Ok (data ++ xs), s')) \/
  (exists xs s' e s'', (length xs < k)%nat /\ yields next s xs s' /\ visit_loop next bad N k data s = (Err e, s'') /\
     (next s' = (Ok None, s'') /\ e = bad N \/ next s' = (Err e, s''))).
Proof.
  induction k as [|k IH]; intros data s; cbn [visit_loop].
  - left. exists [], s. rewrite app_nil_r. repeat split; constructor.
  - destruct (next s) as [[[v|]|e] s1] eqn:En.
    + destruct (IH (data ++ [v]) s1) as [(xs & s' & L & Y & E')|(xs & s' & e & s'' & L & Y & E' & C)].
      * left. exists (v :: xs), s'. split; [cbn; lia|]. split; [econstructor; eauto|]. rewrite E', <- app_assoc. reflexivity.
      * right. exists (v :: xs), s', e, s''. split; [cbn; lia|]. split; [econstructor; eauto|]. auto.
    + right. exists [], s, (bad N), s1. split; [cbn; lia|]. split; [constructor|]. auto.
    + right. exists [], s, e, s1. split; [cbn; lia|]. split; [constructor|]. auto.
Qed.

(** for every N and every input sequence: deserialisation never panics; it
    returns an array exactly when the input yields N elements, the array is
    those elements in order, and nothing beyond them is consumed; *)
Theorem C76_deserialize_ok next bad N s :
  visit_seq next bad N s <> Panic /\
  forall ys s', visit_seq next bad N s = Ret (Ok ys, s') <-> length ys = N /\ yields next s ys s'.
Proof.
  unfold visit_seq. destruct (loop_ok next bad N N [] s) as [(xs & s1 & L & Y & E')|(xs & s1 & e & s2 & L & Y & E' & C)]; rewrite E'.
  - cbn [app]. rewrite L, Nat.eqb_refl. split; [discriminate|]. intros ys s'. split.
    + intros H. injection H as <- <-. auto.
    + intros [L' Y']. destruct (yields_det _ _ _ _ _ _ Y Y' ltac:(congruence)) as [-> ->]. reflexivity.
  - split; [discriminate|]. intros ys s'. split; [discriminate|]. intros [L' Y']. exfalso.
    assert (P : exists zs z s3, yields next s xs s1 /\ next s1 = (Ok (Some z), s3) /\ ys = xs ++ z :: zs).
    { clear E' C. revert N L ys L' Y'. induction Y as [s|s x s1 xs s2' Hx Y IH]; intros N L ys L' Y'.
      - destruct ys as [|y ys]; [cbn in *; lia|]. apply cons_inv in Y' as (s3 & Hn & Hy). exists ys, y, s3. split; [constructor|]. auto.
      - destruct ys as [|y ys]; [cbn in *; lia|]. apply cons_inv in Y' as (s9 & Hn & Hy). rewrite Hx in Hn. injection Hn as <- <-. cbn [length] in *. destruct N as [|n]; [lia|].
        destruct (IH n ltac:(lia) ys ltac:(lia) Hy) as (zs & z & s4 & A & B & ->). exists zs, z, s4. split; [econstructor; eauto|]. auto. }
    destruct P as (zs & z & s3 & _ & B & _). destruct C as [[C _]|C]; congruence.
Qed.
(** it is an error exactly when the input ends, or reports an error, before N
    elements were read; an input that is too short gives invalid_length(N) *)
Theorem C76_deserialize_err next bad N s e :
  (exists s', visit_seq next bad N s = Ret (Err e, s')) <->
  exists xs s1 s2, (length xs < N)%nat /\ yields next s xs s1 /\ (next s1 = (Ok None, s2) /\ e = bad N \/ next s1 = (Err e, s2)).
Proof.
  unfold visit_seq. destruct (loop_ok next bad N N [] s) as [(xs & s1 & L & Y & E')|(xs & s1 & e1 & s2 & L & Y & E' & C)]; rewrite E'.
  - cbn [app]. rewrite L, Nat.eqb_refl. split; [intros [s' H]; discriminate|]. intros (ys & t1 & t2 & L' & Y' & C). exfalso.
    assert (P : exists z s3, next t1 = (Ok (Some z), s3)).
    { clear E' C. revert N L L'. revert xs s1 Y. induction Y' as [s|s x s1' ys s2' Hx Y' IH]; intros xs s1 Y N L L'.
      - destruct xs as [|z xs]; [cbn in *; lia|]. apply cons_inv in Y as (s9 & Hn & Hy). eauto.
      - destruct xs as [|z xs]; [cbn in *; lia|]. apply cons_inv in Y as (s9 & Hn & Hy). rewrite Hx in Hn. injection Hn as <- <-. eapply (IH xs s1 Hy (length xs) eq_refl). cbn in L, L'. lia. }
    destruct P as (z & s3 & B). destruct C as [[C _]|C]; congruence.
  - split.
    + intros [s' H]. injection H as <- <-. exists xs, s1, s2. auto.
    + intros (ys & t1 & t2 & L' & Y' & C'). exists s2. do 2 f_equal. f_equal.
      assert (EQ : length xs = length ys).
      { destruct (Nat.lt_trichotomy (length xs) (length ys)) as [H|[H|H]]; [exfalso|exact H|exfalso].
        - assert (P : exists z s3, next s1 = (Ok (Some z), s3)).
          { clear - Y Y' H. revert ys t1 Y' H. induction Y as [s|s x s1' xs s2' Hx Y IH]; intros ys t1 Y' H.
            - destruct ys as [|z ys]; [cbn in *; lia|]. apply cons_inv in Y' as (s9 & Hn & Hy). eauto.
            - destruct ys as [|z ys]; [cbn in *; lia|]. apply cons_inv in Y' as (s9 & Hn & Hy). rewrite Hx in Hn. injection Hn as <- <-. apply (IH ys t1 Hy). cbn in H. lia. }
          destruct P as (z & s3 & B). destruct C as [[C _]|C]; congruence.
        - assert (P : exists z s3, next t1 = (Ok (Some z), s3)).
          { clear - Y Y' H. revert xs s1 Y H. induction Y' as [s|s x s1' ys s2' Hx Y' IH]; intros xs s1 Y H.
            - destruct xs as [|z xs]; [cbn in *; lia|]. apply cons_inv in Y as (s9 & Hn & Hy). eauto.
            - destruct xs as [|z xs]; [cbn in *; lia|]. apply cons_inv in Y as (s9 & Hn & Hy). rewrite Hx in Hn. injection Hn as <- <-. apply (IH xs s1 Hy). cbn in H. lia. }
          destruct P as (z & s3 & B). destruct C' as [[C' _]|C']; congruence. }
      destruct (yields_det _ _ _ _ _ _ Y Y' EQ) as [-> ->]. destruct C as [[C ->]|C], C' as [[C' ->]|C']; congruence.
Qed.
(** serialisation makes exactly the calls: N-tuple, the elements in order, end *)
Theorem C76_serialize S n xs o : serialize S n xs = Ok o <-> writes S n xs o.
Proof.
  unfold serialize, writes. destruct (ser_tuple S n) as [w|e]; cbn [and_then].
  - assert (L : forall l w w', ser_loop S w l = Ok w' <-> accepts S w l w').
    { clear. induction l as [|x l IH]; intros w w'; cbn [ser_loop].
      - split; [intros H; injection H as <-; constructor|intros H; inversion H; subst; reflexivity].
      - destruct (ser_elem S w x) as [w1|e] eqn:Ee; cbn [and_then].
        + rewrite IH. split; [intros; econstructor; eauto|]. intros H. inversion H; subst. congruence.
        + split; [discriminate|]. intros H. inversion H; subst. congruence. }
    destruct (ser_loop S w xs) as [w'|e] eqn:El; cbn [and_then].
    + apply L in El. split; [intros H; exists w, w'; auto|]. intros (v & v' & Hv & A & En). injection Hv as <-. apply L in El. apply L in A. congruence.
    + split; [discriminate|]. intros (v & v' & Hv & A & _). injection Hv as <-. apply L in A. congruence.
  - split; [discriminate|]. intros (v & v' & Hv & _). discriminate.
Qed.
(** round trip through any faithful data format *)
Theorem C76_round_trip S open next bad n xs o : faithful S open next -> length xs = n ->
  serialize S n xs = Ok o -> deserialize (open o) next bad n = Ret (Ok xs).
Proof.
  intros F L H. apply C76_serialize in H. destruct (F n xs o L H) as (s & s' & Eo & Y). unfold deserialize. rewrite Eo.
  destruct (C76_deserialize_ok next bad n s) as [_ K]. rewrite (proj2 (K xs s') (conj L Y)). reflexivity.
Qed.
End Serde.
Print Assumptions C76_deserialize_ok.
Print Assumptions C76_deserialize_err.
Print Assumptions C76_serialize.
Print Assumptions C76_round_trip.

(** The claim that a deserialised Probability is valid is false: every double,
    valid or not, is accepted *)
Theorem C76_probability_refuted (E : Type) : 
  (forall x : f64, prob_deserialize (E := E) (Ok x) = Ok (Prob x)) /\
  (exists x : f64, ~ valid_prob x /\ exists p, prob_deserialize (E := E) (Ok x) = Ok p /\ ~ valid_prob (Probability.unwrap p)).
Proof.
  split; [reflexivity|]. exists B754_nan. assert (N : ~ valid_prob B754_nan) by (intros [F _]; discriminate). split; [exact N|]. exists (Prob B754_nan). auto.
Qed.
Print Assumptions C76_probability_refuted.
(** what does hold: the round trip of a probability is the identity, so a valid
    probability is read back valid *)
Theorem C76_probability_partial (E : Type) (p : Probability f64) : prob_deserialize (E := E) (Ok (prob_serialize p)) = Ok p.
Proof. destruct p. reflexivity. Qed.
Print Assumptions C76_probability_partial.

(** a faithful format: a self-describing list (JSON-like), elements in order;
    short, exact and long inputs *)
Definition json_ser {T} : TupleSerializer T (list T) (list T) nat := mkSer (fun _ => Ok []) (fun w x => Ok (w ++ [x])) (fun w => Ok w).
Definition json_open {T} (o : list T) (n : nat) : result (list T) nat := Ok o.
Definition json_next {T} : SeqAccess T (list T) nat := fun s => match s with [] => (Ok None, []) | x :: s => (Ok (Some x), s) end.
Example C76_faithful {T} : faithful (T := T) json_ser json_open json_next.
Proof.
  intros n xs o L (w & w' & H1 & A & H2). injection H1 as <-. injection H2 as <-. exists w', []. split; [reflexivity|].
  assert (K : forall l u v, accepts (T := T) json_ser u l v -> v = u ++ l).
  { induction l as [|x l IH]; intros u v Ha; inversion Ha; subst; [now rewrite app_nil_r|]. cbn in H2. injection H2 as <-. apply IH in H4. now rewrite <- app_assoc in H4. }
  apply K in A. cbn in A. subst. clear. induction xs as [|x xs IH]; [constructor|]. econstructor; [reflexivity|exact IH].
Qed.
Open Scope nat_scope.
Example C76_nonvacuous : serialize json_ser 3 [1; 2; 3] = Ok [1; 2; 3] /\ deserialize (json_open [1; 2; 3]) json_next (fun n => n) 3 = Ret (Ok [1; 2; 3]) /\
  deserialize (json_open [1; 2]) json_next (fun n => n) 3 = Ret (Err 3) /\ deserialize (json_open [1; 2; 3; 4]) json_next (fun n => n) 3 = Ret (Ok [1; 2; 3]).
Proof. repeat split. Qed.
