(** * Property C151: error messages name the constraint that failed and the value that failed it *)
From Coq Require Import Ascii DecimalString Lia.
From Flocq Require Import Core IEEE754.BinarySingleNaN.
From Verif.Num Require Import Scalar F64.
From Verif.Model Require Import Rust Constraints Params Probability Traits Display ErrorText.
From Verif.Spec Require Import ParamSpec DisplaySpec.
From Verif.Proofs Require Import ConstraintProofs NewInv SimplexProofs.
From Verif.Properties Require Import C150_Display.
Import ListNotations.
Open Scope string_scope.
Set Implicit Arguments. Unset Strict Implicit.

(** the Debug text of a double is never that of an integer (it has a point, an exponent or letters) *)
Definition distinct_texts (FM : Fmt f64) : Prop := forall (x : f64) z, debug x <> show_Z z.

Definition sp (r : string) : Prop := exists c t, r = String c t /\ In c punctuation.
Lemma sp_i c t : In c punctuation -> sp (String c t). Proof. intros; now exists c, t. Qed.
Lemma plain_inj s1 s2 r1 r2 : plain s1 -> plain s2 -> sp r1 -> sp r2 -> s1 ++ r1 = s2 ++ r2 -> s1 = s2 /\ r1 = r2.
Proof. intros P1 P2 (c & t & -> & I) (c' & t' & -> & I') E. apply split_plain in E; auto. destruct E as (-> & -> & ->). auto. Qed.
Lemma app_cancel : forall s s' t, s ++ t = s' ++ t -> s = s'.
Proof.
  intros s s' t E. assert (L : forall a b, String.length (a ++ b) = (String.length a + String.length b)%nat) by (induction a; cbn; intros; [auto|now rewrite IHa]).
  revert s' E. induction s as [|c s IH]; intros [|c' s'] E; auto.
  - exfalso. apply (f_equal String.length) in E. rewrite !L in E. cbn in E. lia.
  - exfalso. apply (f_equal String.length) in E. rewrite !L in E. cbn in E. lia.
  - cbn in E. injection E as -> E. apply IH in E. congruence.
Qed.
Lemma cat_end s : cat [s; "]"] = s ++ "]". Proof. reflexivity. Qed.
Lemma commas2 s t l : commas (s :: t :: l) = s ++ ", " ++ commas (t :: l).
Proof. change (commas (s :: t :: l)) with (cat [s; ", "; commas (t :: l)]). cbn [cat]. now rewrite app_nil_r_. Qed.

Section U.
Context (FM : Fmt f64) (HF : fmt_ok FM) (HD : distinct_texts FM).
(** induction over values *)
Lemma Val_ind2 (P : Val f64 -> Prop) : (forall x, P (VF x)) -> (forall z, P (VZ z)) -> (forall l, Forall P l -> P (VL l)) -> forall v, P v.
Proof.
  intros A B C. fix R 1. intros [x|z|l]; [apply A|apply B|apply C]. induction l as [|v l IH]; constructor; [apply R|exact IH].
Qed.
Lemma db_ne (x : f64) : debug x <> "". Proof. apply HF. Qed.
Lemma sz_ne z : show_Z z <> "".
Proof. unfold show_Z, NilZero.string_of_int. destruct (Z.to_int z) as [u|u]; [destruct u|]; discriminate. Qed.
(** the first character of a value's text *)
Lemma val_head v : (exists t, debug_val v = String "[" t) \/ (plain (debug_val v) /\ debug_val v <> "").
Proof. destruct v as [x|z|l]; [right; apply HF|right; split; [apply show_Z_plain|apply sz_ne]|left; eexists; reflexivity]. Qed.
Lemma arr_r l r : debug_arr l ++ r = String "[" (commas l ++ String "]" r).
Proof. unfold debug_arr. cbn [cat]. rewrite !app_assoc_. cbn [String.append]. reflexivity. Qed.
Lemma sp_br r : sp (String "[" r). Proof. apply sp_i. cbn. tauto. Qed.
Lemma plain_arr s r l r' : plain s -> s <> "" -> s ++ r <> debug_arr l ++ r'.
Proof.
  intros P N E. rewrite arr_r in E. destruct s as [|c s]; [congruence|]. apply plain_cons in P as [P _]. cbn in E. injection E as -> _. apply P. cbn. tauto.
Qed.
Lemma val_inj : forall v w r1 r2, sp r1 -> sp r2 -> debug_val v ++ r1 = debug_val w ++ r2 -> v = w /\ r1 = r2.
Proof.
  induction v as [x|z|l IH] using Val_ind2; intros [y|z'|l'] r1 r2 S1 S2 E; cbn [debug_val] in E.
  - apply plain_inj in E as [E ->]; auto; [|apply HF..]. apply HF in E. subst. auto.
  - exfalso. apply plain_inj in E as [E _]; auto; [|apply HF|apply show_Z_plain]. now apply HD in E.
  - exfalso. revert E. apply plain_arr; apply HF.
  - exfalso. apply plain_inj in E as [E _]; auto; [|apply show_Z_plain|apply HF]. symmetry in E. now apply HD in E.
  - apply plain_inj in E as [E ->]; auto; [|apply show_Z_plain..]. apply show_Z_inj in E. subst. auto.
  - exfalso. revert E. apply plain_arr; [apply show_Z_plain|apply sz_ne].
  - exfalso. symmetry in E. revert E. apply plain_arr; apply HF.
  - exfalso. symmetry in E. revert E. apply plain_arr; [apply show_Z_plain|apply sz_ne].
  - rewrite !arr_r in E. apply str_tl in E.
    assert (NB : forall v l r r', commas (map debug_val (v :: l)) ++ String "]" r <> String "]" r').
    { clear -HF. intros v l r r' E. assert (H : exists t, commas (map debug_val (v :: l)) ++ String "]" r = debug_val v ++ t).
      { destruct l as [|w l]; [now eexists|]. cbn [map]. rewrite commas2, !app_assoc_. now eexists. }
      destruct H as [t H]. rewrite H in E. destruct (val_head v) as [[s K]|[P N]].
      - rewrite K in E. discriminate E.
      - destruct (debug_val v) as [|c s]; [congruence|]. apply plain_cons in P as [P _]. cbn in E. injection E as -> _. apply P. cbn. tauto. }
    assert (G : l = l' /\ r1 = r2); [|destruct G; subst; auto].
    revert l' E. clear S1 S2. induction IH as [|v l Hv _ IHl]; intros [|w l'] E.
    + cbn in E. apply str_tl in E. auto.
    + exfalso. symmetry in E. now apply NB in E.
    + exfalso. now apply NB in E.
    + assert (C1 : sp (String "]" r1)) by (apply sp_i; cbn; tauto). assert (C2 : sp (String "]" r2)) by (apply sp_i; cbn; tauto).
      assert (C3 : forall s, sp (", " ++ s)) by (intros; apply sp_i; cbn; tauto).
      destruct l as [|v2 l], l' as [|w2 l']; cbn [map] in E; rewrite ?commas2, ?app_assoc_ in E; cbn [commas] in E.
      * apply Hv in E as [-> E]; auto. apply str_tl in E. subst. auto.
      * exfalso. apply Hv in E as [_ E]; auto. discriminate E.
      * exfalso. apply Hv in E as [_ E]; auto. discriminate E.
      * apply Hv in E as [-> E]; [|apply C3..]. cbn [String.append] in E. do 2 apply str_tl in E. apply (IHl (w2 :: l')) in E as [E ->]. split; [congruence|reflexivity].
Qed.

(** the head of a constraint's text: a name, then nothing or a parenthesis; or a bracket *)
Definition head_of (c : Struct f64) : string :=
  match c with
  | SAll _ => "All" | SNot _ => "Not" | SOr _ _ => "Or" | SAnd _ _ => "And" | SEqual _ => "Equal" | SLessThan _ => "LessThan" | SNegative => "Negative"
  | SLessThanOrEqual _ => "LessThanOrEqual" | SNonPositive => "NonPositive" | SGreaterThan _ => "GreaterThan" | SPositive => "Positive"
  | SGreaterThanOrEqual _ => "GreaterThanOrEqual" | SInterval _ _ => "" | SNonNegative => "NonNegative" | SNatural => "Natural" | SEmpty => "Empty" | SSquare => "Square"
  end.
Definition body_of (c : Struct f64) : string :=
  match c with
  | SAll c | SNot c => "(" ++ struct_fmt c ++ ")"
  | SOr c1 c2 | SAnd c1 c2 => "(" ++ struct_fmt c1 ++ " || " ++ struct_fmt c2 ++ ")"
  | SEqual v | SLessThan v | SLessThanOrEqual v | SGreaterThan v | SGreaterThanOrEqual v => "(" ++ debug_val v ++ ")"
  | SInterval v w => "[" ++ debug_val v ++ ", " ++ debug_val w ++ "]"
  | _ => ""
  end.
Lemma fmt_parts c : struct_fmt c = head_of c ++ body_of c.
Proof. destruct c; cbn [struct_fmt head_of body_of cat]; rewrite ?app_nil_r_; reflexivity. Qed.
Lemma head_plain c : plain (head_of c).
Proof. apply plainb_ok. destruct c; reflexivity. Qed.
Lemma body_sp c r : sp r -> sp (body_of c ++ r).
Proof. intros R. destruct c; cbn [body_of]; rewrite ?app_assoc_; try exact R; apply sp_i; cbn; tauto. Qed.
Lemma struct_inj : forall c d r1 r2, sp r1 -> sp r2 -> struct_fmt c ++ r1 = struct_fmt d ++ r2 -> c = d /\ r1 = r2.
Proof.
  assert (PA : forall s, sp (String ")" s)) by (intros; apply sp_i; cbn; tauto).
  assert (BA : forall s, sp (String " " s)) by (intros; apply sp_i; cbn; tauto).
  assert (CO : forall s, sp (String "," s)) by (intros; apply sp_i; cbn; tauto).
  assert (BR : forall s, sp (String "]" s)) by (intros; apply sp_i; cbn; tauto).
  induction c as [c IH|c IH|c1 IH1 c2 IH2|c1 IH1 c2 IH2|v|v| |v| |v| |v|v w| | | |]; intros d r1 r2 R1 R2 E; rewrite !fmt_parts, !app_assoc_ in E; apply plain_inj in E as [E1 E2]; auto using head_plain, body_sp;
    destruct d as [d|d|d1 d2|d1 d2|v'|v'| |v'| |v'| |v'|v' w'| | | |]; try discriminate E1; clear E1; cbn [body_of] in E2; rewrite ?app_assoc_ in E2.
  all: try (cbn [String.append] in E2; auto; fail).
  all: cbn [String.append] in E2; apply str_tl in E2.
  all: try (apply IH in E2 as [-> E2]; auto; apply str_tl in E2; auto; fail).
  all: try (apply IH1 in E2 as [-> E2]; auto; do 4 apply str_tl in E2; apply IH2 in E2 as [-> E2]; auto; apply str_tl in E2; auto; fail).
  all: try (apply val_inj in E2 as [-> E2]; auto; apply str_tl in E2; auto; fail).
  apply val_inj in E2 as [-> E2]; auto. do 2 apply str_tl in E2. apply val_inj in E2 as [-> E2]; auto. apply str_tl in E2. auto.
Qed.
End U.

(** Two constraints with the same text are the same constraint *)
Theorem C151_constraint_text (FM : Fmt f64) (c d : Struct f64) : fmt_ok FM -> distinct_texts FM -> struct_fmt c = struct_fmt d -> c = d.
Proof.
  intros HF HD E. assert (sp ")") by (apply sp_i; cbn; tauto). apply (@struct_inj FM HF HD c d ")" ")"); auto. now rewrite E.
Qed.
Print Assumptions C151_constraint_text.

(** Two errors with the same text report the same constraint, target and value *)
Definition no_quote (t : option string) : Prop := match t with Some t => ~ In """"%char (chars t) | None => True end.
Theorem C151_message (FM : Fmt f64) (c d : Struct f64) (t u : option string) (v w : Val f64) : fmt_ok FM -> distinct_texts FM -> no_quote t -> no_quote u ->
  uce_fmt c t v = uce_fmt d u w -> c = d /\ t = u /\ v = w.
Proof.
  intros HF HD Nt Nu E. assert (SP : forall s, sp (String " " s)) by (intros; apply sp_i; cbn; tauto).
  assert (END : forall v w, debug_val v ++ "." = debug_val w ++ "." -> v = w).
  { intros v' w' K. apply app_cancel in K. assert (sp ")") by (apply sp_i; cbn; tauto). apply (@val_inj FM HF HD v' w' ")" ")"); auto. now rewrite K. }
  destruct t as [t|], u as [u|]; unfold uce_fmt in E; cbn [cat] in E; rewrite ?app_nil_r_, ?app_assoc_ in E; cbn [String.append] in E; do 11 apply str_tl in E;
    apply (struct_inj HF HD) in E as [-> E]; auto; try discriminate E.
  - do 5 apply str_tl in E. apply split_char in E as [-> E]; [|exact Nt|exact Nu]. do 26 apply str_tl in E. apply END in E. subst. auto.
  - repeat apply str_tl in E. apply END in E. subst. auto.
Qed.
Print Assumptions C151_message.

(** [c'] is [c] or one of the constraints [c] is built from *)
Inductive part_of : Struct f64 -> Struct f64 -> Prop :=
| part_refl c : part_of c c
| part_all c d : part_of c d -> part_of c (SAll d)
| part_or1 c d e : part_of c d -> part_of c (SOr d e)
| part_or2 c d e : part_of c e -> part_of c (SOr d e)
| part_and1 c d e : part_of c d -> part_of c (SAnd d e)
| part_and2 c d e : part_of c e -> part_of c (SAnd d e).

(** A failed [check] says: the value as given, and a part of the constraint which that value violates *)
Lemma check_says (FM : Fmt f64) : forall T (c : Struct f64) (k : Constraint T), impl c k -> forall (x : T) (v : Val f64) e, repr x v -> check k x = Err e ->
  uce_value e = x /\ uce_target e = None /\ exists c', part_of c' c /\ impl c' (uce_constraint e).
Proof.
  intros T c k I. induction I; intros x w0 e R CK.
  all: try (cbn [check] in CK; unfold check_default in CK; match type of CK with (if ?b then _ else _) = _ => destruct b; [discriminate CK|]; injection CK as <- end;
    split; [reflexivity|split; [reflexivity|eexists; split; [apply part_refl|now constructor]]]; fail).
  - cbn [check] in CK. destruct (IHI x w0 e R CK) as (A & B & c' & P & K). split; [exact A|split; [exact B|]]. exists c'. split; [now constructor|exact K].
  - cbn [check] in CK. destruct (check k1 x) as [y|e1] eqn:E1; cbn [or_else] in CK; [discriminate CK|]. destruct (IHI1 x w0 e1 R E1) as (A & B & _). rewrite A in CK.
    destruct (IHI2 x w0 e R CK) as (A2 & B2 & c' & P & K). split; [exact A2|split; [exact B2|]]. exists c'. split; [now apply part_or2|exact K].
  - cbn [check] in CK. destruct (check k1 x) as [y|e1] eqn:E1; cbn [and_then] in CK.
    + apply check_ok_inv in E1 as [-> _]. destruct (IHI2 x w0 e R CK) as (A2 & B2 & c' & P & K). split; [exact A2|split; [exact B2|]]. exists c'. split; [now apply part_and2|exact K].
    + injection CK as <-. destruct (IHI1 x w0 e1 R E1) as (A2 & B2 & c' & P & K). split; [exact A2|split; [exact B2|]]. exists c'. split; [now apply part_and1|exact K].
Qed.
Theorem C151_check (FM : Fmt f64) T (c : Struct f64) (k : Constraint T) (x : T) (v : Val f64) e : impl c k -> repr x v -> check k x = Err e ->
  exists c', part_of c' c /\ impl c' (uce_constraint e) /\ is_satisfied_by (uce_constraint e) x = false /\
    says (EConstraint e) (cat ["Constraint "; struct_fmt c'; " is unsatisfied for value "; debug_val v; "."]).
Proof.
  intros I R H. destruct (check_says FM I R H) as (A & B & c' & P & K). exists c'. split; [exact P|]. split; [exact K|].
  split.
  - destruct (is_satisfied_by k x) eqn:S; [apply check_ok in S; congruence|]. destruct (check_err k x S) as (e' & E' & _ & _ & N). assert (e' = e) as -> by congruence. exact N.
  - assert (S := @s_constraint f64 FM T e c' v K). rewrite A, B in S. exact (S R).
Qed.
Print Assumptions C151_check.

(** What the constructors of the distributions say: the first argument that is not admissible, with what is required of its kind *)
Definition complaint (FM : Fmt f64) (a : Arg f64) : string :=
  match arg_ty a in PType _ T return T -> string with
  | PLoc => fun _ => ""
  | PScale | PRate | PShape => fun x => cat ["Constraint Positive is unsatisfied for value "; debug x; "."]
  | PShapeZ | PDOF => fun z => cat ["Constraint Positive is unsatisfied for value "; show_Z z; "."]
  | PCount => fun z => cat ["Constraint NonNegative is unsatisfied for value "; show_Z z; "."]
  | PProb => fun x => cat ["Value "; show x; " doesn't lie in the range [0.0, 1.0]."]
  end (arg_val a).
Lemma field_says (m : Libm) (FM : Fmt f64) T (t : PType f64 T) (x : T) e : field_new t x = Err e -> says e (complaint FM (mkArg _ t x)).
Proof.
  destruct t; cbn [field_new]; unfold loc_new, scale_new, rate_new, shape_new, dof_new, count_new, map_err, complaint; cbn [arg_ty arg_val]; intros H.
  - discriminate H.
  - destruct (check (AllS Positive) x) as [|u] eqn:E; [discriminate H|]; injection H as <-. cbn [check] in E. unfold check_default in E. destruct (is_satisfied_by Positive x); [discriminate E|]. injection E as <-. exact (s_constraint (uce_new x Positive) _ _ (i_pos) (r_f x)).
  - destruct (check (AllS Positive) x) as [|u] eqn:E; [discriminate H|]; injection H as <-. cbn [check] in E. unfold check_default in E. destruct (is_satisfied_by Positive x); [discriminate E|]. injection E as <-. exact (s_constraint (uce_new x Positive) _ _ (i_pos) (r_f x)).
  - destruct (check (AllS Positive) x) as [|u] eqn:E; [discriminate H|]; injection H as <-. cbn [check] in E. unfold check_default in E. destruct (is_satisfied_by Positive x); [discriminate E|]. injection E as <-. exact (s_constraint (uce_new x Positive) _ _ (i_pos) (r_f x)).
  - destruct (check (AllS Positive) x) as [|u] eqn:E; [discriminate H|]; injection H as <-. cbn [check] in E. unfold check_default in E. destruct (is_satisfied_by Positive x); [discriminate E|]. injection E as <-. exact (s_constraint (uce_new x Positive) _ _ (i_pos) (r_z x)).
  - destruct (check (AllS Positive) x) as [|u] eqn:E; [discriminate H|]; injection H as <-. cbn [check] in E. unfold check_default in E. destruct (is_satisfied_by Positive x); [discriminate E|]. injection E as <-. exact (s_constraint (uce_new x Positive) _ _ (i_pos) (r_z x)).
  - destruct (check (AllS NonNegative) x) as [|u] eqn:E; [discriminate H|]; injection H as <-. cbn [check] in E. unfold check_default in E. destruct (is_satisfied_by NonNegative x); [discriminate E|]. injection E as <-. exact (s_constraint (uce_new x NonNegative) _ _ (i_nonneg) (r_z x)).
  - destruct (p_new x) as [|u] eqn:E; [discriminate H|]; injection H as <-. unfold p_new in E. destruct (_ && _)%bool; [discriminate E|]. injection E as <-. apply s_prob.
Qed.
Theorem C151_constructors (m : Libm) (FM : Fmt f64) Ts (s : Schema f64 Ts) (v : Ts) e : params_new s v = Err e ->
  exists pre a post, args s v = (pre ++ a :: post)%list /\ Forall arg_ok pre /\ ~ arg_ok a /\ says e (complaint FM a).
Proof.
  revert v. induction s as [|T Ts t ts IH]; intros v H; cbn [params_new] in H; [discriminate H|]. cbn [args]. destruct (field_new t (fst v)) as [x|e'] eqn:E; cbn in H.
  - destruct (params_new ts (snd v)) as [xs|e'] eqn:E2; cbn in H; [discriminate H|]. injection H as <-. destruct (IH (snd v) E2) as (pre & a & post & A & B & C & D).
    exists (mkArg _ t (fst v) :: pre)%list, a, post. rewrite A. split; [reflexivity|]. split; [|auto]. constructor; [|exact B].
    unfold arg_ok. cbn [arg_ty arg_val]. assert (K := params_new_ok_inv (s1 t) (fst v, tt) (x, tt)). unfold s1 in K. cbn [params_new fst snd] in K. rewrite E in K. specialize (K eq_refl) as [_ K].
    cbn [args] in K. inversion K; subst. exact H1.
  - injection H as <-. exists []%list, (mkArg _ t (fst v)), (args ts (snd v)). split; [reflexivity|]. split; [constructor|]. split; [|now apply (@field_says m)].
    intros O. assert (K := params_new_ok (s1 t) (fst v, tt)). unfold s1 in K. cbn [params_new args fst snd] in K. rewrite E in K. cbn in K. assert (Forall arg_ok [mkArg (F := f64) _ t (fst v)]) by (constructor; [exact O|constructor]). apply K in H. discriminate H.
Qed.
Print Assumptions C151_constructors.

(** the other constructors: weights, correlations, covariances *)
Theorem C151_simplex (m : Libm) (FM : Fmt f64) (l : list f64) e : simplex_new l = Err e ->
  (exists pre x post, l = (pre ++ x :: post)%list /\ Forall (fun y => is_ok (p_new y) = true) pre /\ is_ok (p_new x) = false /\
     says (EProb e) (cat ["Value "; show x; " doesn't lie in the range [0.0, 1.0]."])) \/
  (Forall (fun y => is_ok (p_new y) = true) l /\ says (EProb e) (cat ["Probabilities "; debug_arr (map debug l); " do not sum to 1."])).
Proof.
  assert (LP : forall (l : list f64) z e, simplex_loop z l = Err e -> exists pre x post, l = (pre ++ x :: post)%list /\ Forall (fun y => is_ok (p_new y) = true) pre /\ is_ok (p_new x) = false /\ e = InvalidProbability x).
  { clear -m. induction l as [|p l IH]; intros z e H; cbn [simplex_loop] in H; [discriminate H|]. destruct (p_new p) as [q|e'] eqn:E.
    - destruct (IH _ _ H) as (pre & x & post & -> & A & B & C). exists (p :: pre)%list, x, post. split; [reflexivity|]. split; [|auto]. constructor; [now rewrite E|exact A].
    - cbn in H. injection H as <-. exists []%list, p, l. rewrite E. split; [reflexivity|]. split; [constructor|]. split; [reflexivity|]. unfold p_new in E. destruct (_ && _)%bool; [discriminate E|]. now injection E as <-. }
  assert (LO : forall (l : list f64) z w, simplex_loop z l = Ok w -> Forall (fun y => is_ok (p_new y) = true) l).
  { clear -m. induction l as [|p l IH]; intros z w H; cbn [simplex_loop] in H; constructor; destruct (p_new p) as [q|e'] eqn:E; try discriminate H; [reflexivity|eauto]. }
  unfold simplex_new, simplex_try_from. intros H. destruct (simplex_loop _ l) as [z|e'] eqn:E; cbn [and_then] in H.
  - right. split; [exact (LO _ _ _ E)|]. match type of H with (if ?b then _ else _) = _ => destruct b end; [discriminate H|]. injection H as <-. apply s_simplex.
  - left. injection H as <-. destruct (LP _ _ _ E) as (pre & x & post & A & B & C & ->). exists pre, x, post. repeat (split; [assumption|]). apply s_prob.
Qed.
Print Assumptions C151_simplex.

Theorem C151_convolve_many (m : Libm) (FM : Fmt f64) A D O (conv1 : A -> D -> result O (Error f64)) conv2 (self : A) (rvs : list D) : (length rvs <= 1)%nat ->
  exists e, convolve_many (F := f64) conv1 conv2 self rvs = Err e /\
    says e (cat ["Constraint GreaterThan(1) on ""n"" is unsatisfied for value "; show_Z (Z.of_nat (length rvs)); "."]).
Proof.
  intros L. unfold convolve_many. cbn [check]. unfold check_default. cbn [is_satisfied_by pltb POrd_Z].
  destruct (Z.ltb_spec 1 (Z.of_nat (length rvs))) as [K|K]; [lia|]. cbn [map_err]. eexists. split; [reflexivity|].
  assert (S := @s_constraint f64 FM Z (with_target (uce_new (Z.of_nat (length rvs)) (GreaterThan 1%Z)) "n") (SGreaterThan (VZ 1)) (VZ (Z.of_nat (length rvs))) (i_gt _ _ (r_z 1)) (r_z _)). exact S.
Qed.
Print Assumptions C151_convolve_many.

(** non-vacuity: a formatter as assumed, failing constructors and their messages.  (The scalar wrapper [All] disappears from the message.) *)
Definition fmt_f : Fmt f64 := {| show := f64_text; debug := fun x => String "f" (f64_text x) |}.
Lemma fmt_f_ok : fmt_ok fmt_f /\ distinct_texts fmt_f.
Proof.
  split.
  - split; [exact f64_text_inj|]. split; [|split; [apply f64_text_plain|]].
    + intros x y E. cbn [debug fmt_f] in E. injection E as E. now apply f64_text_inj.
    + intros x. split; [|discriminate]. intros c [<-|H]; [cbn; intuition discriminate|]. now apply (proj1 (f64_text_plain x)).
  - intros x z E. cbn [debug fmt_f] in E. unfold show_Z, NilZero.string_of_int in E. destruct (Z.to_int z) as [u|u]; [destruct u|]; discriminate E.
Qed.
Example C151_nonvacuous (m : Libm) : (fmt_ok fmt_f /\ distinct_texts fmt_f) /\
  is_ok (params_new (s2 (F := f64) PShape PRate) (b64 1 0, (B754_zero false, tt))) = false /\
  complaint fmt_f (mkArg (F := f64) f64 PRate (B754_zero false)) = "Constraint Positive is unsatisfied for value f0." /\
  is_ok (simplex_new (F := f64) [b64 1 0; b64 1 0]) = false /\
  struct_fmt (FM := fmt_f) (SAnd SSquare (SAll (SAll SNonNegative)) : Struct f64) = "And(Square || All(All(NonNegative)))" /\
  impl (F := f64) (SAnd SSquare (SAll (SAll SNonNegative))) (CAnd Square (AllA (AllA (NonNegative (T := f64))))) /\
  uce_fmt (FM := fmt_f) (SInterval (VF (b64 1 0)) (VL [VZ 3; VZ (-4)]) : Struct f64) None (VL []) = "Constraint [f4503599627370496e-52, [3, -4]] is unsatisfied for value [].".
Proof.
  split; [exact fmt_f_ok|]. split; [vm_compute; reflexivity|]. split; [reflexivity|]. split; [vm_compute; reflexivity|]. split; [reflexivity|]. split; [repeat constructor|vm_compute; reflexivity].
Qed.
