(** * Property C160: convolution in double arithmetic *)
From Coq Require Import Reals Lra Lia ZArith Psatz List Bool Permutation.
From Flocq Require Import Core IEEE754.BinarySingleNaN.
From Verif.Num Require Import Scalar F64.
From Verif.Model Require Import Rust Constraints Params Probability Consts Traits Continuous Continuous2 Continuous3 Discrete.
From Verif.Spec Require Import ProbSpec ParamSpec LibmSpec.
From Verif.Proofs Require Import ConstraintProofs NewInv SimplexProofs F64Order LibmInst F64Cdf F64Pdf.
From Verif.Properties Require C22_C25_Traits.
From Verif.Properties Require Import C133_F64Cdf C135_F64Pdf C133_C135_F64More C152_F64Variance C155_F64Samples C159_F64Symmetry.
Import ListNotations.
Open Scope R_scope.

(** positive doubles (+inf included) are closed under addition *)
Lemma pos_plus (a b : f64) : lt64 zero64 a -> lt64 zero64 b -> lt64 zero64 (Bplus mode_NE a b).
Proof.
  intros Pa Pb. assert (Na := proj2 (lt_num _ _ Pa)). assert (Nb := proj2 (lt_num _ _ Pb)). assert (M := M64_pos).
  assert (Va := lt_V1 _ _ Pa). assert (Vb := lt_V1 _ _ Pb). rewrite V_zero in Va, Vb.
  destruct (inf_cases a Na) as [Fa|[->| ->]].
  - assert (Ra := fin_pos a Fa Pa). destruct (plus_pos a b) as [N L]; [now split|now split; [|left]|]. apply lt_V2; [reflexivity|apply N|]. rewrite V_zero. lra.
  - exfalso. cbn [V] in Va. lra.
  - destruct (inf_cases b Nb) as [Fb|[->| ->]]; [|exfalso; cbn [V] in Vb; lra|exact Pa].
    destruct b as [s| | |s mb eb hb]; try discriminate Fb; exact Pa.
Qed.
(** on positive doubles, [==] is equality *)
Lemma pos_eqb (a b : f64) : lt64 zero64 a -> lt64 zero64 b -> (Beqb a b = true <-> a = b).
Proof.
  intros Pa Pb. assert (Na := proj2 (lt_num _ _ Pa)). assert (Nb := proj2 (lt_num _ _ Pb)).
  split; [|intros ->; rewrite Beqb_refl; destruct b; try reflexivity; discriminate Nb].
  intros E. assert (M := M64_pos). assert (Va := lt_V1 _ _ Pa). assert (Vb := lt_V1 _ _ Pb). rewrite V_zero in Va, Vb.
  destruct (inf_cases a Na) as [Fa|[->| ->]]; [|exfalso; cbn [V] in Va; lra|]; (destruct (inf_cases b Nb) as [Fb|[->| ->]]; [|exfalso; cbn [V] in Vb; lra|]).
  - rewrite Beqb_correct in E by assumption. apply same; auto.
    + rewrite !V_fin by assumption. revert E. unfold Req_bool. destruct (Rcompare_spec (B2R a) (B2R b)); try discriminate. intros _. assumption.
    + rewrite !pos_Bsign; auto; now apply fin_pos.
  - exfalso. destruct a as [s| | |s ma ea ha]; try discriminate Fa; try (destruct s); discriminate E.
  - exfalso. destruct b as [s| | |s ma ea ha]; try discriminate Fb; try (destruct s); discriminate E.
  - reflexivity.
Qed.

(** Normal, Cauchy and Poisson: for any two constructed distributions, whatever
    the doubles, [convolve] returns a distribution that passes the constructor,
    and the order of the two does not matter, not even in the last bit *)
Lemma gt_sum (m : Libm) (a b : f64) : fltb (f_of_Z 0 : f64) a = true -> fltb (f_of_Z 0 : f64) b = true -> fltb (f_of_Z 0 : f64) (Bplus mode_NE a b) = true.
Proof. exact (pos_plus a b). Qed.
Lemma normal_new64 (m : Libm) (mu v : f64) : fltb (f_of_Z 0 : f64) v = true -> UvNormal.new mu v = Ok (UvNormal.new_unchecked mu v).
Proof.
  intros P. unfold UvNormal.new, UvNormal.params_new, loc_new, isotropic_new. cbn [and_then map_ok map_err check]. unfold check_default. cbn [is_satisfied_by]. unfold pltb, POrd_scalar, pzero. rewrite P. reflexivity.
Qed.
Theorem C160_normal (m : Libm) (mu1 v1 mu2 v2 : f64) (d1 d2 : UvNormal.t f64) :
  UvNormal.new mu1 v1 = Ok d1 -> UvNormal.new mu2 v2 = Ok d2 ->
  exists r, UvNormal.convolve d1 d2 = Ok r /\ UvNormal.convolve d2 d1 = Ok r /\
    UvNormal.new (Bplus mode_NE mu1 mu2) (Bplus mode_NE v1 v2) = Ok r.
Proof.
  intros H1 H2. apply (normal_inv m) in H1 as [-> P1]. apply (normal_inv m) in H2 as [-> P2].
  exists (UvNormal.new_unchecked (Bplus mode_NE mu1 mu2) (Bplus mode_NE v1 v2)). split; [reflexivity|]. split.
  - change (Ok (UvNormal.new_unchecked (Bplus mode_NE mu2 mu1) (Bplus mode_NE v2 v1) : UvNormal.t f64) = Ok (UvNormal.new_unchecked (Bplus mode_NE mu1 mu2) (Bplus mode_NE v1 v2)) :> result _ (Error f64)).
    now rewrite (plus_comm64 mu2), (plus_comm64 v2).
  - apply (normal_new64 m). now apply (gt_sum m).
Qed.
Print Assumptions C160_normal.
Theorem C160_cauchy (m : Libm) (x1 g1 x2 g2 : f64) (d1 d2 : Cauchy.t f64) :
  Cauchy.new x1 g1 = Ok d1 -> Cauchy.new x2 g2 = Ok d2 ->
  exists r, Cauchy.convolve d1 d2 = Ok r /\ Cauchy.convolve d2 d1 = Ok r /\
    Cauchy.new (Bplus mode_NE x1 x2) (Bplus mode_NE g1 g2) = Ok r.
Proof.
  intros H1 H2. unfold Cauchy.new in H1, H2. inv64 H1. inv64 H2.
  exists (Cauchy.new_unchecked (Bplus mode_NE x1 x2) (Bplus mode_NE g1 g2)). split; [reflexivity|]. split.
  - change (Ok (Cauchy.new_unchecked (Bplus mode_NE x2 x1) (Bplus mode_NE g2 g1) : Cauchy.t f64) = Ok (Cauchy.new_unchecked (Bplus mode_NE x1 x2) (Bplus mode_NE g1 g2)) :> result _ (Error f64)).
    now rewrite (plus_comm64 x2), (plus_comm64 g2).
  - assert (PS : fltb (f_of_Z 0 : f64) (Bplus mode_NE g1 g2) = true) by now apply (gt_sum m). unfold Cauchy.new. etransitivity; [apply map_params_ok; cbn [args s2 fst snd]; repeat (apply Forall_cons || apply Forall_nil); unfold arg_ok; cbn [arg_ty arg_val field_ok]; first [exact I|exact PS]|reflexivity].
Qed.
Print Assumptions C160_cauchy.
Theorem C160_poisson (m : Libm) (l1 l2 : f64) (d1 d2 : Poisson.t f64) :
  Poisson.new l1 = Ok d1 -> Poisson.new l2 = Ok d2 ->
  exists r, Poisson.convolve d1 d2 = Ok r /\ Poisson.convolve d2 d1 = Ok r /\ Poisson.new (Bplus mode_NE l1 l2) = Ok r.
Proof.
  intros H1 H2. unfold Poisson.new in H1, H2. inv64 H1. inv64 H2.
  exists (Poisson.new_unchecked (Bplus mode_NE l1 l2)). split; [reflexivity|]. split.
  - change (Ok (Poisson.new_unchecked (Bplus mode_NE l2 l1) : Poisson.t f64) = Ok (Poisson.new_unchecked (Bplus mode_NE l1 l2)) :> result _ (Error f64)).
    now rewrite (plus_comm64 l2).
  - assert (PS : fltb (f_of_Z 0 : f64) (Bplus mode_NE l1 l2) = true) by now apply (gt_sum m). unfold Poisson.new. etransitivity; [apply map_params_ok; cbn [args s1 fst snd]; repeat (apply Forall_cons || apply Forall_nil); unfold arg_ok; cbn [arg_ty arg_val field_ok]; first [exact I|exact PS]|reflexivity].
Qed.
Print Assumptions C160_poisson.

(** Gamma: Ok exactly when the two shapes are the same double; with different
    rates the answer then depends on the order *)
Lemma check_equal64 (m : Libm) (a b : f64) : lt64 zero64 a -> lt64 zero64 b ->
  (a = b -> check (Equal a) b = Ok b) /\ (a <> b -> exists e, check (Equal a) b = Err e).
Proof.
  intros Pa Pb. split; intros E.
  - apply check_ok. cbn [is_satisfied_by]. apply (pos_eqb b a); auto.
  - destruct (check_err (Equal a) b) as (e & H & _); [|now exists e]. cbn [is_satisfied_by]. apply not_true_iff_false. intros X. apply E. symmetry. now apply (pos_eqb b a).
Qed.
Theorem C160_gamma (m : Libm) (a1 b1 a2 b2 : f64) (d1 d2 : Gamma.t f64) :
  Gamma.new a1 b1 = Ok d1 -> Gamma.new a2 b2 = Ok d2 ->
  (a1 = a2 -> exists r, Gamma.convolve d1 d2 = Ok r /\ Gamma.new (Bplus mode_NE a1 a2) b1 = Ok r) /\
  (a1 <> a2 -> exists e, Gamma.convolve d1 d2 = Err e).
Proof.
  intros H1 H2. unfold Gamma.new in H1, H2. inv64 H1. inv64 H2.
  unfold Gamma.convolve. cbn [Gamma.pr Gamma.alpha Gamma.beta]. destruct (check_equal64 m a2 a1) as [E N]; auto. split.
  - intros ->. rewrite E by reflexivity. cbn [map_err and_then]. exists (Gamma.new_unchecked (Bplus mode_NE a2 a2) b1). split; [reflexivity|].
    assert (PS : fltb (f_of_Z 0 : f64) (Bplus mode_NE a2 a2) = true) by now apply (gt_sum m). unfold Gamma.new. etransitivity; [apply map_params_ok; cbn [args s2 fst snd]; repeat (apply Forall_cons || apply Forall_nil); unfold arg_ok; cbn [arg_ty arg_val field_ok]; first [exact PS|assumption]|reflexivity].
  - intros X. destruct N as [e ->]; [now intros ->|]. eexists; reflexivity.
Qed.
Print Assumptions C160_gamma.
Theorem C160_gamma_refuted (m : Libm) (a b1 b2 : f64) (d1 d2 : Gamma.t f64) :
  Gamma.new a b1 = Ok d1 -> Gamma.new a b2 = Ok d2 -> b1 <> b2 -> Gamma.convolve d1 d2 <> Gamma.convolve d2 d1.
Proof.
  intros H1 H2 N E. destruct (C160_gamma m _ _ _ _ _ _ H1 H2) as [K1 _]. destruct (C160_gamma m _ _ _ _ _ _ H2 H1) as [K2 _].
  destruct (K1 eq_refl) as (r & C1 & R1). destruct (K2 eq_refl) as (r' & C2 & R2). rewrite C1, C2 in E. injection E as <-. 
  unfold Gamma.new in R1, R2. apply map_params_inv in R1 as [-> _]. apply map_params_inv in R2 as [E _]. cbn in E. injection E as E. now apply N.
Qed.
Print Assumptions C160_gamma_refuted.
Theorem C160_gamma_exponential (m : Libm) (a b l : f64) (d : Gamma.t f64) (e : Exponential.t f64) :
  Gamma.new a b = Ok d -> Exponential.new l = Ok e ->
  (l = b -> exists r, Gamma.convolve_exponential d e = Ok r /\ Gamma.new (Bplus mode_NE a one64) b = Ok r) /\
  (l <> b -> exists er, Gamma.convolve_exponential d e = Err er).
Proof.
  intros H1 H2. unfold Gamma.new in H1. inv64 H1. unfold Exponential.new in H2. inv64 H2.
  unfold Gamma.convolve_exponential. cbn [Gamma.pr Gamma.alpha Gamma.beta Exponential.pr Exponential.lambda]. destruct (check_equal64 m b l) as [E N]; auto. split.
  - intros ->. rewrite E by reflexivity. cbn [map_err and_then]. exists (Gamma.new_unchecked (Bplus mode_NE a one64) b). split; [reflexivity|].
    assert (PS : fltb (f_of_Z 0 : f64) (Bplus mode_NE a one64) = true) by (apply (gt_sum m); [assumption|vm_compute; reflexivity]). unfold Gamma.new. etransitivity; [apply map_params_ok; cbn [args s2 fst snd]; repeat (apply Forall_cons || apply Forall_nil); unfold arg_ok; cbn [arg_ty arg_val field_ok]; first [exact PS|assumption]|reflexivity].
  - intros X. destruct N as [er ->]; [now intros ->|]. eexists; reflexivity.
Qed.
Print Assumptions C160_gamma_exponential.

(** whole-number parameters up to 2^53: the sums are exact, so combining any
    number of distributions gives the same answer in every order *)
Lemma b64_plus (i j : Z) : (Z.abs i <= 2 ^ 53)%Z -> (Z.abs j <= 2 ^ 53)%Z -> (Z.abs (i + j) <= 2 ^ 53)%Z ->
  Bplus mode_NE (b64 i 0) (b64 j 0) = b64 (i + j) 0.
Proof.
  intros Hi Hj Hs. destruct (b64_z i Hi) as [Fi Vi]. destruct (b64_z j Hj) as [Fj Vj]. destruct (b64_z (i + j) Hs) as [Fs Vs].
  assert (B := fin_lt _ Fs). assert (X : sat (IZR i + IZR j) = IZR (i + j)). { rewrite <- plus_IZR, <- Vs. apply sat_fmt; [apply fmt_RV|lra]. }
  destruct (V_plus _ _ Fi Fj) as [N E]. rewrite Vi, Vj, X in E.
  assert (F : fin (Bplus mode_NE (b64 i 0) (b64 j 0))) by (apply V_fin_iff; [exact N|rewrite E; rewrite <- Vs; lra]).
  rewrite V_fin in E by exact F.
  destruct (Z.eq_dec (i + j) 0) as [Z0|NZ].
  - destruct (Z.eq_dec i 0) as [->|Ni]; [replace j with 0%Z by lia; reflexivity|].
    apply same; [exact N|now apply fin_num|now rewrite !V_fin, E, Vs|].
    assert (C := Bplus_correct 53 1024 _ _ mode_NE _ _ Fi Fj). change (B2R (b64 i 0)) with (RV (b64 i 0)) in C. change (B2R (b64 j 0)) with (RV (b64 j 0)) in C. rewrite Vi, Vj in C.
    replace (IZR i + IZR j) with 0 in C by (rewrite <- plus_IZR, Z0; reflexivity). change (round_mode mode_NE) with (Znearest (fun x => negb (Z.even x))) in C. rewrite round_0 in C by apply valid_rnd_N.
    rewrite Rabs_R0, Rlt_bool_true in C by apply bpow_gt_0. destruct C as (_ & _ & C). rewrite C, Rcompare_Eq by reflexivity. rewrite Z0.
    destruct (Z_lt_ge_dec i 0) as [L|L].
    + rewrite (pos_Bsign (b64 j 0)); [now rewrite andb_false_r|exact Fj|]. apply lt_V2; [reflexivity|now apply fin_num|]. rewrite V_zero, V_fin, Vj by exact Fj. apply IZR_lt. lia.
    + rewrite (pos_Bsign (b64 i 0)); [reflexivity|exact Fi|]. apply lt_V2; [reflexivity|now apply fin_num|]. rewrite V_zero, V_fin, Vi by exact Fi. apply IZR_lt. lia.
  - apply same; [exact N|now apply fin_num|now rewrite !V_fin, E, Vs|].
    destruct (Z_lt_ge_dec (i + j) 0) as [L|L].
    + assert (K : forall u : f64, fin u -> RV u = IZR (i + j) -> Bsign u = true). { intros u Fu Eu. apply neg_Bsign; [exact Fu|]. apply lt_V2; [now apply fin_num|reflexivity|]. rewrite V_zero, V_fin, Eu by exact Fu. apply IZR_lt. lia. }
      now rewrite !K.
    + assert (K : forall u : f64, fin u -> RV u = IZR (i + j) -> Bsign u = false). { intros u Fu Eu. apply pos_Bsign; [exact Fu|]. apply lt_V2; [reflexivity|now apply fin_num|]. rewrite V_zero, V_fin, Eu by exact Fu. apply IZR_lt. lia. }
      now rewrite !K.
Qed.

Definition zsum (l : list Z) : Z := fold_right Z.add 0%Z l.
Lemma many_unfold {A : Type} (m : Libm) (conv : A -> A -> result A (Error f64)) (self : A) (init : list A) (last : A) : init <> [] ->
  convolve_many conv conv self (init ++ [last]) = fold_left (fun acc rv => and_then acc (fun d => conv d rv)) init (conv self last).
Proof.
  intros Hne. unfold convolve_many. rewrite check_ok.
  - cbn [map_err and_then]. rewrite rev_app_distr. cbn [rev app]. now rewrite rev_involutive.
  - cbn. apply Z.ltb_lt. rewrite app_length. destruct init; [congruence|]. cbn [List.length]. lia.
Qed.
Lemma zsum_app l1 l2 : zsum (l1 ++ l2) = (zsum l1 + zsum l2)%Z.
Proof. induction l1 as [|x l1 IH]; [reflexivity|]. cbn [app zsum fold_right]. fold (zsum (l1 ++ l2)). fold (zsum l1). rewrite IH. ring. Qed.
Lemma zsum_pos l : Forall (fun k => 0 < k)%Z l -> (0 <= zsum l)%Z.
Proof. induction 1; cbn [zsum fold_right]; [lia|]. fold (zsum l). lia. Qed.

(** parameters as whole numbers: Poisson rates [k], Normal (mu, sigma^2) [(i, v)] *)
Definition poisson_int (m : Libm) (k : Z) (d : Poisson.t f64) : Prop := (0 < k)%Z /\ Poisson.new (b64 k 0) = Ok d.
Definition normal_int (m : Libm) (p : Z * Z) (d : UvNormal.t f64) : Prop := (0 < snd p)%Z /\ UvNormal.new (b64 (fst p) 0) (b64 (snd p) 0) = Ok d.
Theorem C160_many_poisson (m : Libm) (k : Z) (ks : list Z) (d : Poisson.t f64) (ds : list (Poisson.t f64)) :
  poisson_int m k d -> Forall2 (poisson_int m) ks ds -> (2 <= length ds)%nat -> (k + zsum ks <= 2 ^ 53)%Z ->
  exists r, convolve_many Poisson.convolve Poisson.convolve d ds = Ok r /\ poisson_int m (k + zsum ks) r.
Proof.
  intros Hk Hks Hlen HB.
  assert (INV : forall a x, poisson_int m a x -> x = Poisson.new_unchecked (b64 a 0)). { intros a x [_ H]. unfold Poisson.new in H. now inv64 H. }
  assert (MK : forall a, (0 < a <= 2 ^ 53)%Z -> poisson_int m a (Poisson.new_unchecked (b64 a 0))).
  { intros a Ha. split; [lia|]. destruct (b64_z a ltac:(lia)) as [Fa Va]. assert (PS : fltb (f_of_Z 0 : f64) (b64 a 0) = true) by (change (lt64 zero64 (b64 a 0)); apply lt_V2; [reflexivity|now apply fin_num|]; rewrite V_zero, V_fin, Va by exact Fa; apply IZR_lt; lia).
    unfold Poisson.new. etransitivity; [apply map_params_ok; cbn [args s1 fst snd]; repeat (apply Forall_cons || apply Forall_nil); unfold arg_ok; cbn [arg_ty arg_val field_ok]; first [exact I|exact PS]|reflexivity]. }
  assert (ST : forall a b x y, poisson_int m a x -> poisson_int m b y -> (a + b <= 2 ^ 53)%Z -> Poisson.convolve x y = Ok (Poisson.new_unchecked (b64 (a + b) 0)) /\ poisson_int m (a + b) (Poisson.new_unchecked (b64 (a + b) 0))).
  { intros a b x y Ha Hb Hab. assert (A := proj1 Ha). assert (B := proj1 Hb). split; [|apply MK; lia]. rewrite (INV a x Ha), (INV b y Hb), <- b64_plus by lia. reflexivity. }
  assert (FO : forall l ys a x, Forall2 (poisson_int m) l ys -> poisson_int m a x -> (a + zsum l <= 2 ^ 53)%Z ->
     exists r, fold_left (fun acc rv => and_then acc (fun d => Poisson.convolve d rv)) ys (Ok x) = Ok r /\ poisson_int m (a + zsum l) r).
  { intros l ys a x L. revert a x. induction L as [|b y l ys Hb L IH]; intros a x Ha Hab.
    - exists x. split; [reflexivity|]. cbn [zsum fold_right]. now rewrite Z.add_0_r.
    - cbn [zsum fold_right] in Hab. fold (zsum l) in Hab. assert (NN : (0 <= zsum l)%Z). { apply zsum_pos. clear -L. induction L; constructor; auto. apply H. }
      destruct (ST a b x y Ha Hb ltac:(lia)) as [E P]. destruct (IH _ _ P ltac:(lia)) as (r & ER & PR). exists r. split; [cbn [fold_left and_then]; rewrite E; exact ER|].
      cbn [zsum fold_right]. fold (zsum l). now rewrite Z.add_assoc. }
  destruct (exists_last (l := ds)) as (init & last & ->); [intros ->; cbn in Hlen; lia|].
  apply Forall2_app_inv_r in Hks as (k1 & k2 & HI & HL & ->). inversion HL as [|kl ? ? ? Hl HN]; subst. inversion HN; subst.
  assert (NE : init <> []) by (intros ->; rewrite app_length in Hlen; cbn in Hlen; lia).
  rewrite (many_unfold m) by exact NE. rewrite zsum_app in *. cbn [zsum fold_right] in *. 
  assert (NN : (0 <= zsum k1)%Z). { apply zsum_pos. clear -HI. induction HI; constructor; auto. apply H. }
  destruct (ST k kl d last Hk Hl ltac:(lia)) as [E P]. rewrite E. destruct (FO k1 init _ _ HI P ltac:(lia)) as (r & ER & PR).
  exists r. split; [exact ER|]. replace (k + (zsum k1 + (kl + 0)))%Z with (k + kl + zsum k1)%Z by ring. exact PR.
Qed.
Print Assumptions C160_many_poisson.
(** ... so the order in which the distributions are given is irrelevant *)
Lemma zsum_perm l l' : Permutation l l' -> zsum l = zsum l'.
Proof. unfold zsum. induction 1; cbn [fold_right]; lia. Qed.
Lemma Forall2_len {A B} (P : A -> B -> Prop) l l' : Forall2 P l l' -> length l = length l'.
Proof. induction 1; cbn; congruence. Qed.
Theorem C160_many_poisson_order (m : Libm) (k k' : Z) (ks ks' : list Z) (d d' : Poisson.t f64) (ds ds' : list (Poisson.t f64)) :
  poisson_int m k d -> Forall2 (poisson_int m) ks ds -> poisson_int m k' d' -> Forall2 (poisson_int m) ks' ds' ->
  (2 <= length ds)%nat -> (k + zsum ks <= 2 ^ 53)%Z -> Permutation (k :: ks) (k' :: ks') ->
  convolve_many Poisson.convolve Poisson.convolve d ds = convolve_many Poisson.convolve Poisson.convolve d' ds'.
Proof.
  intros Hk Hks Hk' Hks' HL HB P. assert (E := zsum_perm _ _ P). cbn [zsum fold_right] in E. fold (zsum ks) in E. fold (zsum ks') in E.
  assert (L := Permutation_length P). cbn [length] in L. assert (L1 := Forall2_len _ _ _ Hks). assert (L2 := Forall2_len _ _ _ Hks').
  destruct (C160_many_poisson m k ks d ds Hk Hks HL HB) as (r & E1 & _ & R1). destruct (C160_many_poisson m k' ks' d' ds' Hk' Hks' ltac:(lia) ltac:(lia)) as (r' & E2 & _ & R2).
  rewrite E1, E2. rewrite E in R1. rewrite R1 in R2. now injection R2 as ->.
Qed.
Print Assumptions C160_many_poisson_order.
Example C160_many_poisson_nonvacuous (m : Libm) : exists d1 d2 d3, poisson_int m 1 d1 /\ Forall2 (poisson_int m) [2; 3]%Z [d2; d3] /\ Permutation [1; 2; 3]%Z [3; 1; 2]%Z.
Proof.
  assert (K : forall k, (0 < k)%Z -> fltb (f_of_Z 0 : f64) (b64 k 0) = true -> poisson_int m k (Poisson.new_unchecked (b64 k 0))).
  { intros k Hk PS. split; [exact Hk|]. unfold Poisson.new. etransitivity; [apply map_params_ok; cbn [args s1 fst snd]; repeat (apply Forall_cons || apply Forall_nil); unfold arg_ok; cbn [arg_ty arg_val field_ok]; first [exact I|exact PS]|reflexivity]. }
  exists (Poisson.new_unchecked (b64 1 0)), (Poisson.new_unchecked (b64 2 0)), (Poisson.new_unchecked (b64 3 0)). split; [apply K; [lia|vm_compute; reflexivity]|]. split.
  - repeat constructor; (lia || (apply K; [lia|vm_compute; reflexivity])).
  - change [3; 1; 2]%Z with ([3] ++ [1; 2])%Z. change [1; 2; 3]%Z with ([1; 2] ++ [3])%Z. apply Permutation_app_comm.
Qed.

(** refuted beyond 2^53: the order changes the result *)
Theorem C160_order_refuted (m : Libm) : exists a b c : Poisson.t f64,
  Poisson.new (b64 1 0) = Ok a /\ Poisson.new (b64 1 0) = Ok b /\ Poisson.new (b64 1 53) = Ok c /\
  convolve_many Poisson.convolve Poisson.convolve a [b; c] = Ok (Poisson.new_unchecked (b64 1 53)) /\
  convolve_many Poisson.convolve Poisson.convolve a [c; b] = Ok (Poisson.new_unchecked (b64 9007199254740994 0)) /\
  Poisson.mean (Poisson.new_unchecked (b64 1 53)) <> Poisson.mean (Poisson.new_unchecked (b64 9007199254740994 0)).
Proof.
  assert (K : forall l : f64, fltb (f_of_Z 0 : f64) l = true -> Poisson.new l = Ok (Poisson.new_unchecked l)).
  { intros l PS. unfold Poisson.new. etransitivity; [apply map_params_ok; cbn [args s1 fst snd]; repeat (apply Forall_cons || apply Forall_nil); unfold arg_ok; cbn [arg_ty arg_val field_ok]; first [exact I|exact PS]|reflexivity]. }
  exists (Poisson.new_unchecked (b64 1 0)), (Poisson.new_unchecked (b64 1 0)), (Poisson.new_unchecked (b64 1 53)).
  split; [apply K; vm_compute; reflexivity|]. split; [apply K; vm_compute; reflexivity|]. split; [apply K; vm_compute; reflexivity|].
  split; [|split].
  - change [?x; ?y] with ([x] ++ [y]). rewrite (many_unfold m) by discriminate. 
    change (Ok (Poisson.new_unchecked (Bplus mode_NE (Bplus mode_NE (b64 1 0) (b64 1 53)) (b64 1 0)) : Poisson.t f64) = Ok (Poisson.new_unchecked (b64 1 53)) :> result _ (Error f64)).
    replace (Bplus mode_NE (Bplus mode_NE (b64 1 0) (b64 1 53)) (b64 1 0)) with (b64 1 53); [reflexivity|]. apply B2SF_inj. vm_compute. reflexivity.
  - change [?x; ?y] with ([x] ++ [y]). rewrite (many_unfold m) by discriminate. 
    change (Ok (Poisson.new_unchecked (Bplus mode_NE (Bplus mode_NE (b64 1 0) (b64 1 0)) (b64 1 53)) : Poisson.t f64) = Ok (Poisson.new_unchecked (b64 9007199254740994 0)) :> result _ (Error f64)).
    replace (Bplus mode_NE (Bplus mode_NE (b64 1 0) (b64 1 0)) (b64 1 53)) with (b64 9007199254740994 0); [reflexivity|]. apply B2SF_inj. vm_compute. reflexivity.
  - intros E. change (b64 1 53 = b64 9007199254740994 0) in E. assert (X := f_equal (B2SF (prec := 53) (emax := 1024)) E). vm_compute in X. discriminate X.
Qed.
Print Assumptions C160_order_refuted.
(** refuted: convolving distributions with finite parameters can return [Ok]
    with an infinite and then a NaN location *)
Theorem C160_overflow_refuted (m : Libm) : let big := b64 1 1023 in let nbig := b64 (-1) 1023 in
  exists d e r s t : UvNormal.t f64, UvNormal.new big one64 = Ok d /\ UvNormal.new nbig one64 = Ok e /\
    UvNormal.convolve d d = Ok r /\ UvNormal.mean r = B754_infinity false /\
    UvNormal.convolve e e = Ok s /\ UvNormal.mean s = B754_infinity true /\
    UvNormal.convolve r s = Ok t /\ UvNormal.mean t = B754_nan.
Proof.
  cbv zeta. exists (UvNormal.new_unchecked (b64 1 1023) one64), (UvNormal.new_unchecked (b64 (-1) 1023) one64),
    (UvNormal.new_unchecked (Bplus mode_NE (b64 1 1023) (b64 1 1023)) (Bplus mode_NE one64 one64)), (UvNormal.new_unchecked (Bplus mode_NE (b64 (-1) 1023) (b64 (-1) 1023)) (Bplus mode_NE one64 one64)),
    (UvNormal.new_unchecked (Bplus mode_NE (Bplus mode_NE (b64 1 1023) (b64 1 1023)) (Bplus mode_NE (b64 (-1) 1023) (b64 (-1) 1023))) (Bplus mode_NE (Bplus mode_NE one64 one64) (Bplus mode_NE one64 one64))).
  split; [apply (normal_new64 m); vm_compute; reflexivity|]. split; [apply (normal_new64 m); vm_compute; reflexivity|].
  split; [reflexivity|]. split; [apply B2SF_inj; vm_compute; reflexivity|]. split; [reflexivity|]. split; [apply B2SF_inj; vm_compute; reflexivity|]. split; [reflexivity|]. apply B2SF_inj; vm_compute; reflexivity.
Qed.
Print Assumptions C160_overflow_refuted.

(** Binomial and Bernoulli with the same success probability *)
Lemma assert_same (m : Libm) (p : Probability f64) : valid_prob (unwrap p) -> assert_eq_prob p p = Ok p.
Proof.
  intros V. unfold assert_eq_prob. rewrite check_ok; [cbn; destruct p; reflexivity|]. cbn [is_satisfied_by]. change (Beqb (unwrap p) (unwrap p) = true). rewrite Beqb_refl. destruct V as [N _]. 
  revert N. generalize (unwrap p). clear. intros x. destruct x; auto; discriminate.
Qed.
Theorem C160_binomial (m : Libm) (n1 n2 : Z) (p : Probability f64) (d1 d2 : Binomial.t f64) :
  valid_prob (Probability.unwrap p) -> Binomial.new n1 p = Ok d1 -> Binomial.new n2 p = Ok d2 ->
  ((n1 + n2 <= U64_MAX)%Z -> exists r, Binomial.convolve d1 d2 = Ret (Ok r) /\ Binomial.convolve d2 d1 = Ret (Ok r) /\ Binomial.new (n1 + n2) p = Ok r) /\
  ((U64_MAX < n1 + n2)%Z -> Binomial.convolve d1 d2 = Panic /\ Binomial.convolve d2 d1 = Panic).
Proof.
  intros VP H1 H2. assert (A := assert_same m p VP). destruct p as [p]. cbn [Probability.unwrap] in *.
  assert (PS := proj2 (p_test m p) VP) || idtac.
  unfold Binomial.new in H1, H2. inv_new H1. inv_new H2. unfold Binomial.convolve. cbn [Binomial.pr Binomial.n Binomial.p]. rewrite A.
  unfold usize, u64, checked. rewrite (Z.add_comm n2 n1). split; intros HB.
  - replace ((0 <=? n1 + n2)%Z && (n1 + n2 <=? U64_MAX)%Z)%bool with true by (symmetry; apply andb_true_intro; split; apply Z.leb_le; lia).
    assert (N : Binomial.new (F := f64) (n1 + n2) (Prob p) = Ok (Binomial.new_unchecked (n1 + n2) (Prob p))).
    { unfold Binomial.new. etransitivity; [apply map_params_ok; cbn [args s2 fst snd]; repeat (apply Forall_cons || apply Forall_nil); unfold arg_ok; cbn [arg_ty arg_val field_ok Probability.unwrap]; first [lia|assumption]|reflexivity]. }
    exists (Binomial.new_unchecked (n1 + n2) (Prob p)). split; [exact (f_equal Ret N)|]. split; [exact (f_equal Ret N)|exact N].
  - replace ((0 <=? n1 + n2)%Z && (n1 + n2 <=? U64_MAX)%Z)%bool with false by (symmetry; apply andb_false_iff; right; apply Z.leb_gt; lia). split; reflexivity.
Qed.
Print Assumptions C160_binomial.
Theorem C160_bernoulli (m : Libm) (p : f64) (d1 d2 : Bernoulli.t f64) : Bernoulli.new p = Ok d1 -> Bernoulli.new p = Ok d2 ->
  exists r, Bernoulli.convolve d1 d2 = Ok r /\ Binomial.new 2 (Prob p) = Ok r.
Proof.
  intros H1 H2. unfold Bernoulli.new in H1, H2. inv_new H1. inv_new H2.
  assert (VP : valid_prob p) by (apply (vp_inv m); auto). assert (A := assert_same m (Prob p) VP).
  unfold Bernoulli.convolve. cbn [Bernoulli.pr Bernoulli.p]. rewrite A. cbn [and_then]. eexists. split; [reflexivity|].
  unfold Binomial.new. etransitivity; [apply map_params_ok; cbn [args s2 fst snd]; repeat (apply Forall_cons || apply Forall_nil); unfold arg_ok; cbn [arg_ty arg_val field_ok Probability.unwrap]; first [lia|assumption]|reflexivity].
Qed.
Print Assumptions C160_bernoulli.

(** non-vacuity of the two-parameter statements: concrete doubles *)
Example C160_nonvacuous (m : Libm) :
  (exists d, UvNormal.new (b64 3 0) (b64 1 (-3)) = Ok d) /\ (exists d, Gamma.new one64 (b64 1 (-1)) = Ok d) /\ (exists d, Gamma.new one64 one64 = Ok d) /\
  one64 <> b64 1 (-1) /\ (exists d, Cauchy.new (b64 3 0) one64 = Ok d) /\ (exists d, Binomial.new 3 (Prob (b64 1 (-1))) = Ok d) /\ valid_prob (b64 1 (-1)).
Proof.
  assert (P1 : fltb (f_of_Z 0 : f64) one64 = true) by (vm_compute; reflexivity). assert (P2 : fltb (f_of_Z 0 : f64) (b64 1 (-1)) = true) by (vm_compute; reflexivity).
  assert (PA : fleb (f_of_Z 0 : f64) (b64 1 (-1)) = true) by (vm_compute; reflexivity). assert (PB : fleb (b64 1 (-1)) (f_of_Z 1 : f64) = true) by (vm_compute; reflexivity).
  split; [eexists; apply (normal_new64 m); vm_compute; reflexivity|].
  split; [|split; [|split; [|split; [|split]]]].
  - eexists. unfold Gamma.new. apply map_params_ok; cbn [args s2 fst snd]; repeat (apply Forall_cons || apply Forall_nil); unfold arg_ok; cbn [arg_ty arg_val field_ok]; first [exact P1|exact P2].
  - eexists. unfold Gamma.new. apply map_params_ok; cbn [args s2 fst snd]; repeat (apply Forall_cons || apply Forall_nil); unfold arg_ok; cbn [arg_ty arg_val field_ok]; first [exact P1|exact P2].
  - intros E. assert (X := f_equal (B2SF (prec := 53) (emax := 1024)) E). vm_compute in X. discriminate X.
  - eexists. unfold Cauchy.new. apply map_params_ok; cbn [args s2 fst snd]; repeat (apply Forall_cons || apply Forall_nil); unfold arg_ok; cbn [arg_ty arg_val field_ok]; first [exact I|exact P1].
  - eexists. unfold Binomial.new. apply map_params_ok; cbn [args s2 fst snd]; repeat (apply Forall_cons || apply Forall_nil); unfold arg_ok; cbn [arg_ty arg_val field_ok Probability.unwrap]; first [lia|split; assumption].
  - apply (vp_inv m); auto.
Qed.
