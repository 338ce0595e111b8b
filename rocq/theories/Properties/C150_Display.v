(** * Property C150: the printed form of a distribution *)
From Coq Require Import Ascii DecimalString DecimalPos DecimalZ Lia.
From Flocq Require Import Core IEEE754.BinarySingleNaN.
From Verif.Num Require Import Scalar F64.
From Verif.Model Require Import Rust Constraints Params Probability Continuous Continuous2 Continuous3 Discrete Normal2 Multivariate Display.
From Verif.Spec Require Import ParamSpec DisplaySpec.
From Verif.Proofs Require Import ConstraintProofs NewInv SimplexProofs.
Import ListNotations.
Open Scope string_scope.

Lemma app_nil_r_ s : s ++ "" = s.
Proof. induction s; cbn; congruence. Qed.
Lemma app_assoc_ a b c : (a ++ b) ++ c = a ++ (b ++ c).
Proof. induction a; cbn; congruence. Qed.
Lemma chars_app a b : chars (a ++ b) = (chars a ++ chars b)%list.
Proof. induction a; cbn; congruence. Qed.
Lemma plain_cons c s : plain (String c s) -> ~ In c punctuation /\ plain s.
Proof. intros P. split; [apply P; now left|intros d D; apply P; now right]. Qed.
(** the text up to the first punctuation mark *)
Lemma split_plain : forall s1 s2 c1 c2 r1 r2, plain s1 -> plain s2 -> In c1 punctuation -> In c2 punctuation ->
  s1 ++ String c1 r1 = s2 ++ String c2 r2 -> s1 = s2 /\ c1 = c2 /\ r1 = r2.
Proof.
  induction s1 as [|a s1 IH]; intros [|b s2] c1 c2 r1 r2 P1 P2 I1 I2 E; cbn [String.append] in E.
  - injection E as -> ->. auto.
  - injection E as -> E. now destruct (proj1 (plain_cons _ _ P2)).
  - injection E as -> E. now destruct (proj1 (plain_cons _ _ P1)).
  - injection E as -> E. apply plain_cons in P1 as [_ P1]. apply plain_cons in P2 as [_ P2].
    destruct (IH s2 c1 c2 r1 r2 P1 P2 I1 I2 E) as (-> & -> & ->). auto.
Qed.
(** decimal integers *)
Definition plainb (s : string) : bool := forallb (fun c => negb (existsb (Ascii.eqb c) punctuation)) (chars s).
Lemma plainb_ok s : plainb s = true -> plain s.
Proof.
  unfold plainb. rewrite forallb_forall. intros H c Hc I. specialize (H c Hc). apply negb_true_iff in H.
  assert (existsb (Ascii.eqb c) punctuation = true); [|congruence]. apply existsb_exists. exists c. split; [exact I|apply Ascii.eqb_refl].
Qed.
Lemma plain_uint u : plainb (NilEmpty.string_of_uint u) = true.
Proof. induction u; cbn [NilEmpty.string_of_uint]; [reflexivity|..]; unfold plainb in *; cbn [chars forallb]; rewrite IHu; reflexivity. Qed.
Lemma plain_uint0 u : plainb (NilZero.string_of_uint u) = true.
Proof. destruct u; [reflexivity|..]; apply plain_uint. Qed.
Lemma show_Z_plain z : plain (show_Z z).
Proof.
  apply plainb_ok. unfold show_Z, NilZero.string_of_int. destruct (Z.to_int z) as [u|u]; [apply plain_uint0|].
  assert (H := plain_uint0 u). unfold plainb in *. cbn [chars forallb]. rewrite H. reflexivity.
Qed.
Lemma show_Z_inj a b : show_Z a = show_Z b -> a = b.
Proof.
  unfold show_Z. intros E.
  assert (H : forall z, NilZero.int_of_string (NilZero.string_of_int (Z.to_int z)) = Some (Z.to_int z)).
  { intros z. apply NilZero.isi; destruct z as [|p|p]; cbn [Z.to_int]; try discriminate; intros K; apply (Unsigned.to_uint_nonnil p); congruence. }
  assert (K := H a). rewrite E, H in K. injection K as K. apply DecimalZ.to_int_inj. congruence.
Qed.
Lemma commas_inj : forall l1 l2 r1 r2, Forall (fun s => plain s /\ s <> "") l1 -> Forall (fun s => plain s /\ s <> "") l2 ->
  commas l1 ++ String "]" r1 = commas l2 ++ String "]" r2 -> l1 = l2 /\ r1 = r2.
Proof.
  assert (RB : In "]"%char punctuation) by (cbn; tauto). assert (CO : In ","%char punctuation) by (cbn; tauto).
  assert (NE : forall s l r r2, plain s /\ s <> "" -> commas (s :: l) ++ String "]" r <> String "]" r2).
  { intros s l r r2 [Ps Ns] E. destruct s as [|c s]; [congruence|]. apply plain_cons in Ps as [Pc _].
    destruct l; cbn [commas cat String.append] in E; rewrite ?app_assoc_ in E; cbn [String.append] in E; injection E as -> _; tauto. }
  induction l1 as [|s1 l1 IH]; intros [|s2 l2] r1 r2 F1 F2 E.
  - cbn in E. injection E as ->. auto.
  - exfalso. apply Forall_cons_iff in F2 as [F2 _]. apply (NE s2 l2 r2 r1 F2). cbn [commas String.append] in E. symmetry. exact E.
  - exfalso. apply Forall_cons_iff in F1 as [F1 _]. apply (NE s1 l1 r1 r2 F1). cbn [commas String.append] in E. exact E.
  - apply Forall_cons_iff in F1 as [[P1 N1] F1]. apply Forall_cons_iff in F2 as [[P2 N2] F2].
    destruct l1 as [|t1 l1], l2 as [|t2 l2].
    + cbn [commas] in E. destruct (split_plain _ _ _ _ _ _ P1 P2 RB RB E) as (-> & _ & ->). auto.
    + exfalso. change (commas (s2 :: t2 :: l2)) with (cat [s2; ", "; commas (t2 :: l2)]) in E. cbn [commas cat] in E. rewrite !app_assoc_ in E. cbn [String.append] in E.
      destruct (split_plain _ _ _ _ _ _ P1 P2 RB CO E) as (_ & K & _). discriminate K.
    + exfalso. change (commas (s1 :: t1 :: l1)) with (cat [s1; ", "; commas (t1 :: l1)]) in E. cbn [commas cat] in E. rewrite !app_assoc_ in E. cbn [String.append] in E.
      destruct (split_plain _ _ _ _ _ _ P1 P2 CO RB E) as (_ & K & _). discriminate K.
    + change (commas (s1 :: t1 :: l1)) with (cat [s1; ", "; commas (t1 :: l1)]) in E. change (commas (s2 :: t2 :: l2)) with (cat [s2; ", "; commas (t2 :: l2)]) in E.
      cbn [cat] in E. rewrite !app_assoc_ in E. cbn [String.append] in E.
      destruct (split_plain _ _ _ _ _ _ P1 P2 CO CO E) as (-> & _ & E'). clear E.
      assert (CS : forall c x y, String c x = String c y -> x = y) by (intros c x y K; now injection K).
      apply CS in E'. rewrite ?app_nil_r_ in E'.
      destruct (IH (t2 :: l2) r1 r2 F1 F2 E') as [-> ->]. auto.
Qed.

(** the same texts, from the unchecked constructors *)
Definition text (m : Libm) (FM : Fmt f64) (a : call) : string :=
  match a with
  | C_Bernoulli x => Bernoulli_fmt (Bernoulli.new_unchecked x)
  | C_Beta x y => Beta_fmt (Beta.new_unchecked x y)
  | C_BetaBinomial x y z => BetaBinomial_fmt (BetaBinomial.new_unchecked x y z)
  | C_BetaPrime x y => BetaPrime_fmt (BetaPrime.new_unchecked x y)
  | C_Binomial x y => Binomial_fmt (Binomial.new_unchecked x y)
  | C_Cauchy x y => Cauchy_fmt (Cauchy.new_unchecked x y)
  | C_Chi x => Chi_fmt (Chi.new_unchecked x)
  | C_ChiSq x => ChiSq_fmt (ChiSq.new_unchecked x)
  | C_Cosine x y => Cosine_fmt (Cosine.new_unchecked x y)
  | C_Erlang x y => Erlang_fmt (Erlang.new_unchecked x y)
  | C_Exponential x => Exponential_fmt (Exponential.new_unchecked x)
  | C_FDist x y => FDist_fmt (FDist.new_unchecked x y)
  | C_Frechet x => Frechet_fmt (Frechet.new_unchecked x)
  | C_Gamma x y => Gamma_fmt (Gamma.new_unchecked x y)
  | C_Geometric x => Geometric_fmt (Geometric.new_unchecked x)
  | C_GEV x y z => GEV_fmt (GEV.new_unchecked x y z)
  | C_GPD x y z => GPD_fmt (GPD.new_unchecked x y z)
  | C_Gumbel x y => Gumbel_fmt (Gumbel.new_unchecked x y)
  | C_InvGamma x y => InvGamma_fmt (InvGamma.new_unchecked x y)
  | C_InvNormal x y => InvNormal_fmt (InvNormal.new_unchecked x y)
  | C_Kumaraswamy x y => Kumaraswamy_fmt (Kumaraswamy.from (Kumaraswamy.mkP x y))
  | C_Laplace x y => Laplace_fmt (Laplace.new_unchecked x y)
  | C_Levy x y => Levy_fmt (Levy.new_unchecked x y)
  | C_Logistic x y => Logistic_fmt (Logistic.new_unchecked x y)
  | C_Pareto x y => Pareto_fmt (Pareto.new_unchecked x y)
  | C_Poisson x => Poisson_fmt (Poisson.new_unchecked x)
  | C_Rayleigh x => Rayleigh_fmt (Rayleigh.new_unchecked x)
  | C_StudentT x => StudentT_fmt (StudentT.new_unchecked x)
  | C_Weibull x y => Weibull_fmt (Weibull.from (Weibull.mkP x y))
  | C_DegenerateF x => DegenerateF_fmt (DegenerateF.new x)
  | C_UvNormal x y => UvNormal_fmt (UvNormal.new_unchecked x y)
  | C_PairedNormal x y => PairedNormal_fmt (PairedNormal.new_unchecked x y)
  | C_Categorical x => Categorical_fmt (Categorical.new_unchecked x)
  | C_Multinomial x y => Multinomial_fmt (Multinomial.new_unchecked x y)
  end.
Ltac head t := match t with ?f _ => head f | _ => t end.
Lemma printed_text m FM a s : printed m FM a = Some s -> s = text m FM a.
Proof.
  destruct a; cbn [printed text]; intros H.
  all: try (injection H as <-; reflexivity).
  all: unfold text_of in H; match type of H with (match ?r with Ok _ => _ | Err _ => _ end) = _ => destruct r as [d|] eqn:E; [|discriminate H]; injection H as <- end.
  all: try (match type of E with ?t = _ => let f := head t in unfold f in E end; apply map_params_inv in E as [-> _]; reflexivity).
  - destruct (Kumaraswamy.p_new x y) eqn:E2; [|discriminate E]. injection E as <-. unfold Kumaraswamy.p_new in E2. apply map_params_inv in E2 as [-> _]. reflexivity.
  - destruct (Weibull.p_new x y) eqn:E2; [|discriminate E]. injection E as <-. unfold Weibull.p_new in E2. apply map_params_inv in E2 as [-> _]. reflexivity.
  - unfold UvNormal.new, UvNormal.params_new, loc_new, isotropic_new in E. destruct (check Positive y) eqn:E2; [|discriminate E]. apply check_ok_inv in E2 as [-> _]. injection E as <-. reflexivity.
  - unfold PairedNormal.new, PairedNormal.params_paired, loc_new in E. destruct (paired_new (arr2 y)) eqn:E2; [|discriminate E]. injection E as <-. reflexivity.
  - unfold Categorical.new in E. destruct (simplex_new x) eqn:E2; [|discriminate E]. injection E as <-. apply simplex_new_inv in E2 as [-> _]. reflexivity.
  - unfold Multinomial.new, Multinomial.params_new, count_new in E. destruct (check (AllS NonNegative) x) eqn:E1; [|discriminate E]. apply check_ok_inv in E1 as [-> _]. cbn [map_err and_then] in E. destruct (simplex_new y) eqn:E2; [|discriminate E]. injection E as <-. apply simplex_new_inv in E2 as [-> _]. reflexivity.
Qed.
Section Texts.
Context (m : Libm) (FM : Fmt f64) (HF : fmt_ok FM).
Lemma sh_inj (x y : f64) : show x = show y -> x = y. Proof. apply HF. Qed.
Lemma db_inj (x y : f64) : debug x = debug y -> x = y. Proof. apply HF. Qed.
Lemma sh_pl (x : f64) : plain (show x). Proof. apply HF. Qed.
Lemma db_pl (x : f64) : plain (debug x). Proof. apply HF. Qed.
Lemma unw_inj (x y : Probability f64) : Probability.unwrap x = Probability.unwrap y -> x = y.
Proof. destruct x, y. cbn. congruence. Qed.
Lemma map_db_inj (l l' : list f64) : map debug l = map debug l' -> l = l'.
Proof. revert l'. induction l as [|x l IH]; intros [|y l'] E; try discriminate; auto. injection E as E1 E2. apply db_inj in E1. apply IH in E2. congruence. Qed.
Lemma map_db_pl (l : list f64) : Forall (fun s => plain s /\ s <> "") (map debug l).
Proof. apply Forall_map, Forall_forall. intros x _. apply HF. Qed.
Lemma arr_inj (l l' : list f64) r r' : commas (map debug l) ++ String "]" r = commas (map debug l') ++ String "]" r' -> l = l' /\ r = r'.
Proof. intros E. apply commas_inj in E; [|apply map_db_pl..]. destruct E as [E ->]. split; [now apply map_db_inj|reflexivity]. Qed.
Lemma simplex_inj (l l' : list f64) r r' : debug_simplex l ++ r = debug_simplex l' ++ r' -> l = l' /\ r = r'.
Proof.
  unfold debug_simplex, debug_arr. cbn [cat]. rewrite !app_nil_r_, !app_assoc_. cbn [String.append]. intros E.
  do 15 (match type of E with String ?c _ = String ?c _ => apply (f_equal (fun s => match s with String _ s => s | _ => s end)) in E; cbn beta iota in E end).
  apply arr_inj in E as [-> E]. now injection E.
Qed.
Lemma str_tl c x y : String c x = String c y -> x = y. Proof. intros K; now injection K. Qed.
Ltac pieces :=
  repeat match goal with
  | E : String ?c _ = String ?c _ |- _ => apply str_tl in E
  | E : show ?x ++ String _ _ = show ?y ++ String _ _ |- _ => apply split_plain in E; [|apply sh_pl|apply sh_pl|cbn; tauto|cbn; tauto]; destruct E as (?E & ?E & ?E)
  | E : show_Z ?x ++ String _ _ = show_Z ?y ++ String _ _ |- _ => apply split_plain in E; [|apply show_Z_plain|apply show_Z_plain|cbn; tauto|cbn; tauto]; destruct E as (?E & ?E & ?E)
  | E : debug ?x ++ String _ _ = debug ?y ++ String _ _ |- _ => apply split_plain in E; [|apply db_pl|apply db_pl|cbn; tauto|cbn; tauto]; destruct E as (?E & ?E & ?E)
  | E : debug_simplex _ ++ _ = debug_simplex _ ++ _ |- _ => apply simplex_inj in E as [?E ?E]
  | E : show _ = show _ |- _ => apply sh_inj in E
  | E : debug _ = debug _ |- _ => apply db_inj in E
  | E : show_Z _ = show_Z _ |- _ => apply show_Z_inj in E
  end.
Opaque show_Z debug_simplex.
Lemma text_inj a b : text m FM a = text m FM b -> a = b.
Proof.
  intros E.
  destruct a; destruct b; cbn [text] in E; try discriminate E.
  all: match type of E with ?t = ?u => let f := head t in let g := head u in unfold f in E; try unfold g in E end; cbn in E; repeat progress (rewrite ?app_nil_r_, ?app_assoc_ in E; cbn [String.append] in E); pieces; try congruence.
  - f_equal; [assumption|]. apply unw_inj. assumption.
  - exfalso. match type of E with _ = String "[" ?t => apply (split_plain _ "" "," "[" _ t) in E; [|apply sh_pl|intros c []|cbn; tauto|cbn; tauto] end. destruct E as (_ & E & _). discriminate E.
  - exfalso. match type of E with String "[" ?t = _ => apply (split_plain "" _ "[" "," t _) in E; [|intros c []|apply sh_pl|cbn; tauto|cbn; tauto] end. destruct E as (_ & E & _). discriminate E.
  - destruct x, y, x0, y0; cbn [fst snd] in *. congruence.
Qed.
End Texts.

(** Two successful constructor calls whose results print alike are the same call *)
Theorem C150_display (m : Libm) (FM : Fmt f64) : fmt_ok FM -> forall (a b : call) (s : string),
  printed m FM a = Some s -> printed m FM b = Some s -> a = b.
Proof. intros HF a b s A B. apply printed_text in A. apply printed_text in B. apply (text_inj m FM HF). congruence. Qed.
Print Assumptions C150_display.

(** The text is a name and the constructor's arguments, in the order given *)
Definition arguments (FM : Fmt f64) (a : call) : option (list string) :=
  match a with
  | C_Bernoulli x | C_Exponential x | C_Frechet x | C_Geometric x | C_Poisson x | C_Rayleigh x | C_StudentT x => Some [show x]
  | C_Chi k | C_ChiSq k => Some [show_Z k]
  | C_Beta x y | C_BetaPrime x y | C_Cauchy x y | C_Cosine x y | C_Gamma x y | C_Gumbel x y | C_InvGamma x y | C_InvNormal x y
  | C_Kumaraswamy x y | C_Laplace x y | C_Levy x y | C_Logistic x y | C_Pareto x y | C_Weibull x y | C_UvNormal x y => Some [show x; show y]
  | C_Binomial k p => Some [show_Z k; Probability_fmt p]
  | C_Erlang k x => Some [show_Z k; show x]
  | C_FDist j k => Some [show_Z j; show_Z k]
  | C_BetaBinomial k x y => Some [show_Z k; show x; show y]
  | C_GEV x y z | C_GPD x y z => Some [show x; show y; show z]
  | C_DegenerateF _ | C_PairedNormal _ _ | C_Categorical _ | C_Multinomial _ _ => None
  end.
Definition name (a : call) : string :=
  match a with
  | C_Bernoulli _ => "Ber"
  | C_Beta _ _ => "Beta"
  | C_BetaBinomial _ _ _ => "BB"
  | C_BetaPrime _ _ => "BetaPrime"
  | C_Binomial _ _ => "Bin"
  | C_Cauchy _ _ => "Cauchy"
  | C_Chi _ => "Chi"
  | C_ChiSq _ => "ChiSq"
  | C_Cosine _ _ => "Cosine"
  | C_Erlang _ _ => "Erlang"
  | C_Exponential _ => "Exp"
  | C_FDist _ _ => "F"
  | C_Frechet _ => "Frechet"
  | C_Gamma _ _ => "Gamma"
  | C_Geometric _ => "Geometric"
  | C_GEV _ _ _ => "GEV"
  | C_GPD _ _ _ => "GPD"
  | C_Gumbel _ _ => "Gumbel"
  | C_InvGamma _ _ => "Inv-Gamma"
  | C_InvNormal _ _ => "IG"
  | C_Kumaraswamy _ _ => "Kumaraswamy"
  | C_Laplace _ _ => "Laplace"
  | C_Levy _ _ => "Levy"
  | C_Logistic _ _ => "Logistic"
  | C_Pareto _ _ => "Pareto"
  | C_Poisson _ => "Poi"
  | C_Rayleigh _ => "Rayleigh"
  | C_StudentT _ => "StudentT"
  | C_Weibull _ _ => "Weibull"
  | C_DegenerateF _ => "δ"
  | C_UvNormal _ _ => "N"
  | C_PairedNormal _ _ => "N"
  | C_Categorical _ => "Cat"
  | C_Multinomial _ _ => "Mult"
  end.
Theorem C150_arguments (m : Libm) (FM : Fmt f64) (a : call) (s : string) (l : list string) : printed m FM a = Some s -> arguments FM a = Some l ->
  s = name a ++ "(" ++ commas l ++ ")".
Proof.
  intros A B. apply printed_text in A. subst s.
  destruct a; cbn [arguments] in B; try discriminate B; injection B as <-; cbn [text name].
  all: match goal with |- ?t = _ => let f := head t in unfold f end; cbn [cat commas]; rewrite ?app_nil_r_, ?app_assoc_; reflexivity.
Qed.
Print Assumptions C150_arguments.

(** Uniform<i64>: bounds in braces *)
Theorem C150_uniform_i64 (m : Libm) (l w l' w' : Z) (d d' : UniformI.t f64) (s : string) :
  (0 <= w < 2 ^ 64)%Z -> (0 <= w' < 2 ^ 64)%Z ->
  UniformI.new l w = Ret (Ok d) -> UniformI.new l' w' = Ret (Ok d') -> UniformI_fmt d = Ret s -> UniformI_fmt d' = Ret s ->
  s = "U{" ++ show_Z l ++ ", " ++ show_Z (l + w) ++ "}" /\ l = l' /\ w = w'.
Proof.
  assert (K : forall l w d s, (0 <= w < 2 ^ 64)%Z -> UniformI.new (F := f64) l w = Ret (Ok d) -> UniformI_fmt d = Ret s -> s = "U{" ++ show_Z l ++ ", " ++ show_Z (l + w) ++ "}").
  { clear. intros l w d s Hw N T. unfold UniformI.new, UniformI.params_new, loc_new, scale_new in N. cbn [and_then] in N.
    destruct (check (AllS Positive) (as_i64 w)) eqn:E; [|discriminate N]. apply check_ok_inv in E as [-> E]. cbn [is_satisfied_by pltb POrd_Z pzero] in E. apply Z.ltb_lt in E.
    assert (W : as_i64 w = w).
    { unfold as_i64, wrap_signed in *. rewrite Z.mod_small in * by lia. change (2 ^ (64 - 1))%Z with (2 ^ 63)%Z in *. destruct (Z.ltb_spec w (2 ^ 63)); [reflexivity|]. lia. }
    rewrite W in N. unfold UniformI.from in N. cbn [and_then UniformI.width] in N. destruct (i64 (w + 1)) as [n| |]; try discriminate N. cbn [rbind] in N. injection N as <-.
    unfold UniformI_fmt, UniformI.ub in T. cbn [UniformI.pr UniformI.lb UniformI.width] in T. unfold i64, checked in T. destruct ((_ && _)%bool); [|discriminate T]. cbn [rbind] in T. injection T as <-.
    cbn [cat]. rewrite ?app_nil_r_. reflexivity. }
  intros Hw Hw' N N' T T'. assert (A := K _ _ _ _ Hw N T). assert (B := K _ _ _ _ Hw' N' T'). split; [exact A|]. rewrite A in B. cbn [String.append] in B. do 2 apply str_tl in B.
  apply split_plain in B; [|apply show_Z_plain..|cbn; tauto|cbn; tauto]. destruct B as (B1 & _ & B). apply str_tl in B.
  apply split_plain in B; [|apply show_Z_plain..|cbn; tauto|cbn; tauto]. destruct B as (B2 & _ & _). apply show_Z_inj in B1, B2. lia.
Qed.
Print Assumptions C150_uniform_i64.
(** Dirichlet and the isotropic multivariate LogNormal *)
Theorem C150_dirichlet (m : Libm) (FM : Fmt f64) (SP : Special f64) (l l' : list f64) : fmt_ok FM ->
  Dirichlet_fmt (Dirichlet.from l) = Dirichlet_fmt (Dirichlet.from l') -> l = l'.
Proof.
  intros HF E. unfold Dirichlet_fmt, Dirichlet.from, Dirichlet.new_unchecked, debug_arr in E. cbn [cat Dirichlet.alphas] in E. rewrite !app_nil_r_, !app_assoc_ in E. cbn [String.append] in E.
  do 5 apply str_tl in E. apply (arr_inj FM HF) in E. apply E.
Qed.
Print Assumptions C150_dirichlet.
Theorem C150_lognormal_isotropic (m : Libm) (FM : Fmt f64) (l l' : list f64) (v v' : f64) d d' : fmt_ok FM ->
  MvLogNormal.isotropic l v = Ok d -> MvLogNormal.isotropic l' v' = Ok d' -> MvLogNormal_fmt d = MvLogNormal_fmt d' -> l = l' /\ v = v'.
Proof.
  intros HF N N' E.
  assert (K : forall (l : list f64) (v : f64) d, MvLogNormal.isotropic l v = Ok d -> MvLogNormal_fmt d = "LogNormal(" ++ "[" ++ commas (map debug l) ++ "]" ++ ", " ++ show v ++ ")").
  { clear. intros l v d N. unfold MvLogNormal.isotropic, MvNormal.isotropic, MvNormal.params_isotropic, loc_new, isotropic_new in N.
    destruct (check Positive v) eqn:E2; [|discriminate N]. apply check_ok_inv in E2 as [-> _]. injection N as <-.
    unfold MvLogNormal_fmt, debug_arr. cbn [cat MvLogNormal.nrm MvNormal.pr MvNormal.isotropic_from MvNormal.isotropic_unchecked MvNormal.mu MvNormal.Sigma]. rewrite !app_nil_r_, !app_assoc_. reflexivity. }
  rewrite (K _ _ _ N), (K _ _ _ N') in E. cbn [String.append] in E. do 11 apply str_tl in E. apply (arr_inj FM HF) in E as [-> E]. do 2 apply str_tl in E.
  apply split_plain in E; [|apply (sh_pl FM HF)..|cbn; tauto|cbn; tauto]. destruct E as (E & _ & _). apply (sh_inj FM HF) in E. auto.
Qed.
Print Assumptions C150_lognormal_isotropic.

(** Distributions that print a rounded or derived quantity are not determined by their text *)
Definition e60 : f64 := b64 1 (-60).
Definition e61 : f64 := b64 1 (-61).
Definition one64 : f64 := b64 1 0.
Theorem C150_uniform_refuted (m : Libm) (FM : Fmt f64) : exists d d' : UniformF.t f64,
  UniformF.new one64 e60 = Ok d /\ UniformF.new one64 e61 = Ok d' /\ e60 <> e61 /\ UniformF_fmt d = UniformF_fmt d'.
Proof.
  exists (UniformF.new_unchecked one64 e60), (UniformF.new_unchecked one64 e61).
  assert (K : forall y : f64, fltb (f_of_Z 0 : f64) y = true -> UniformF.new one64 y = Ok (UniformF.new_unchecked one64 y)).
  { intros y H. unfold UniformF.new, UniformF.params_new, loc_new, scale_new. rewrite (check_ok (AllS Positive) y); [reflexivity|exact H]. }
  split; [apply K; vm_compute; reflexivity|]. split; [apply K; vm_compute; reflexivity|]. split; [intros E; apply (f_equal B2SF) in E; revert E; vm_compute; discriminate|].
  unfold UniformF_fmt. replace (UniformF.ub (UniformF.new_unchecked one64 e61)) with (UniformF.ub (UniformF.new_unchecked one64 e60)); [reflexivity|].
  apply B2SF_inj. vm_compute. reflexivity.
Qed.
Print Assumptions C150_uniform_refuted.
Lemma ps2_ok (m : Libm) (x y : f64) : fltb (f_of_Z 0 : f64) y = true -> params_new (s2 PLoc PScale) (x, (y, tt)) = Ok (x, (y, tt)).
Proof. intros H. apply params_new_ok. cbn [args s1 s2 s3 fst snd]. repeat (apply Forall_cons || apply Forall_nil); unfold arg_ok; cbn [arg_ty arg_val field_ok]; first [exact I | exact H]. Qed.
Theorem C150_arcsine_refuted (m : Libm) (FM : Fmt f64) : exists d d' : Arcsine.t f64,
  Arcsine.new one64 e60 = Ok d /\ Arcsine.new one64 e61 = Ok d' /\ e60 <> e61 /\ Arcsine_fmt d = Arcsine_fmt d'.
Proof.
  exists (Arcsine.new_unchecked one64 e60), (Arcsine.new_unchecked one64 e61).
  split; [unfold Arcsine.new; rewrite ps2_ok by (vm_compute; reflexivity); reflexivity|]. split; [unfold Arcsine.new; rewrite ps2_ok by (vm_compute; reflexivity); reflexivity|].
  split; [intros E; apply (f_equal B2SF) in E; revert E; vm_compute; discriminate|].
  unfold Arcsine_fmt. replace (Arcsine.b (Arcsine.pr (Arcsine.new_unchecked one64 e61))) with (Arcsine.b (Arcsine.pr (Arcsine.new_unchecked one64 e60))); [reflexivity|].
  apply B2SF_inj. vm_compute. reflexivity.
Qed.
Print Assumptions C150_arcsine_refuted.
Theorem C150_triangular_refuted (m : Libm) (FM : Fmt f64) : exists d d' : Triangular.t f64,
  Triangular.new one64 one64 e60 = Ok d /\ Triangular.new one64 one64 e61 = Ok d' /\ e60 <> e61 /\ Triangular_fmt d = Triangular_fmt d'.
Proof.
  assert (K : forall y : f64, fltb (f_of_Z 0 : f64) y = true -> Triangular.new one64 one64 y = Ok (Triangular.new_unchecked one64 one64 y)).
  { intros y H. unfold Triangular.new. rewrite params_new_ok; [reflexivity|]. assert (PO : fltb (f_of_Z 0 : f64) one64 = true) by (vm_compute; reflexivity). cbn [args s1 s2 s3 fst snd]. repeat (apply Forall_cons || apply Forall_nil); unfold arg_ok; cbn [arg_ty arg_val field_ok]; first [exact I | exact PO | exact H]. }
  exists (Triangular.new_unchecked one64 one64 e60), (Triangular.new_unchecked one64 one64 e61).
  split; [apply K; vm_compute; reflexivity|]. split; [apply K; vm_compute; reflexivity|].
  split; [intros E; apply (f_equal B2SF) in E; revert E; vm_compute; discriminate|].
  unfold Triangular_fmt. replace (Triangular.b (Triangular.pr (Triangular.new_unchecked one64 one64 e61))) with (Triangular.b (Triangular.pr (Triangular.new_unchecked one64 one64 e60))); [reflexivity|].
  apply B2SF_inj. vm_compute. reflexivity.
Qed.
Print Assumptions C150_triangular_refuted.
(** LogNormal prints its own variance, in which the square of a small parameter is lost *)
Definition e600 : f64 := b64 1 (-600).
Definition e601 : f64 := b64 1 (-601).
Theorem C150_lognormal_refuted (m : Libm) (FM : Fmt f64) (x : f64) : exists d d' : LogNormal.t f64,
  LogNormal.new x e600 = Ok d /\ LogNormal.new x e601 = Ok d' /\ e600 <> e601 /\ LogNormal_fmt d = LogNormal_fmt d'.
Proof.
  assert (K : forall y : f64, fltb (f_of_Z 0 : f64) y = true -> LogNormal.new x y = Ok (LogNormal.new_unchecked x y)).
  { intros y H. unfold LogNormal.new, UvNormal.new, UvNormal.params_new, loc_new, isotropic_new. rewrite (check_ok (Positive) y); [reflexivity|]. exact H. }
  exists (LogNormal.new_unchecked x e600), (LogNormal.new_unchecked x e601).
  split; [apply K; vm_compute; reflexivity|]. split; [apply K; vm_compute; reflexivity|].
  split; [intros E; apply (f_equal B2SF) in E; revert E; vm_compute; discriminate|].
  assert (Q : fmul e601 e601 = (fmul e600 e600 : f64)) by (apply B2SF_inj; vm_compute; reflexivity).
  unfold LogNormal_fmt, LogNormal.variance, LogNormal.sigma, LogNormal.mu. cbn [LogNormal.new_unchecked LogNormal.nrm UvNormal.pr UvNormal.new_unchecked UvNormal.Sigma UvNormal.mu]. rewrite Q. reflexivity.
Qed.
Print Assumptions C150_lognormal_refuted.
(** BvNormal with a small correlation *)
Theorem C150_bivariate_refuted (m : Libm) (FM : Fmt f64) (x : f64 * f64) : exists d d' : BvNormal.t f64,
  BvNormal.new x (e600, e600) e600 = Ok d /\ BvNormal.new x (e600, e600) e601 = Ok d' /\ e600 <> e601 /\ BvNormal_fmt d = BvNormal_fmt d'.
Proof.
  assert (K : forall r : f64, andb (fleb (fneg (f_of_Z 1)) r) (fleb r (f_of_Z 1)) = true -> BvNormal.new x (e600, e600) r = Ok (BvNormal.new_unchecked x (e600, e600) r)).
  { intros r H. unfold BvNormal.new, BvNormal.params_bivariate, loc_new, bivariate_new. rewrite (check_ok (AllA Positive)); [|cbn [is_satisfied_by arr2 fst snd forallb pltb POrd_scalar pzero]; assert (P : fltb (f_of_Z 0 : f64) e600 = true) by (vm_compute; reflexivity); rewrite P; reflexivity].
    cbn [map_err and_then]. rewrite (check_ok (Interval _ _)); [reflexivity|exact H]. }
  exists (BvNormal.new_unchecked x (e600, e600) e600), (BvNormal.new_unchecked x (e600, e600) e601).
  split; [apply K; vm_compute; reflexivity|]. split; [apply K; vm_compute; reflexivity|].
  split; [intros E; apply (f_equal B2SF) in E; revert E; vm_compute; discriminate|].
  unfold BvNormal_fmt. replace (BvNormal.covariance (BvNormal.new_unchecked x (e600, e600) e601)) with (BvNormal.covariance (BvNormal.new_unchecked x (e600, e600) e600)); [reflexivity|].
  unfold BvNormal.covariance. cbn [BvNormal.pr BvNormal.new_unchecked fst snd].
  replace (fmul e601 (fmul (fsqrt e600) (fsqrt e600)) : f64) with (fmul e600 (fmul (fsqrt e600) (fsqrt e600)) : f64); [reflexivity|].
  apply B2SF_inj. vm_compute. reflexivity.
Qed.
Print Assumptions C150_bivariate_refuted.
(** FoldedNormal prints its own variance *)
Theorem C150_folded_normal_refuted (m : Libm) (SP : Special f64) (FM : Fmt f64) : m_exp (B754_zero true) = one64 -> sf_erf (B754_zero false : f64) = B754_zero false -> exists d d' : FoldedNormal.t f64,
  FoldedNormal.new (B754_zero false) e600 = Ok d /\ FoldedNormal.new (B754_zero false) e601 = Ok d' /\ e600 <> e601 /\ FoldedNormal_fmt d = FoldedNormal_fmt d'.
Proof.
  intros He Hf.
  assert (K : forall y : f64, fltb (f_of_Z 0 : f64) y = true -> FoldedNormal.new (B754_zero false) y = Ok (FoldedNormal.new_unchecked (B754_zero false) y)).
  { intros y H. unfold FoldedNormal.new. now rewrite ps2_ok. }
  exists (FoldedNormal.new_unchecked (B754_zero false) e600), (FoldedNormal.new_unchecked (B754_zero false) e601).
  split; [apply K; vm_compute; reflexivity|]. split; [apply K; vm_compute; reflexivity|].
  split; [intros E; apply (f_equal B2SF) in E; revert E; vm_compute; discriminate|].
  assert (Z0 : forall y : f64, y = e600 \/ y = e601 -> fdiv (fdiv (B754_zero false) y) (fsqrt (f_of_Z 2)) = (B754_zero false : f64)) by (intros y [E | E]; subst y; apply B2SF_inj; vm_compute; reflexivity).
  assert (V : forall y : f64, y = e600 \/ y = e601 -> FoldedNormal.variance (FoldedNormal.new_unchecked (B754_zero false) y) = B754_zero false).
  { intros y Hy. unfold FoldedNormal.variance, FoldedNormal.mean. cbn [FoldedNormal.pr FoldedNormal.new_unchecked FoldedNormal.mu FoldedNormal.sigma]. rewrite (Z0 y Hy).
    replace (fmul (fneg (B754_zero false)) (B754_zero false) : f64) with (B754_zero true : f64) by (apply B2SF_inj; vm_compute; reflexivity).
    match goal with |- context [sf_erf ?a] => replace (sf_erf a) with (B754_zero false : f64) by (symmetry; exact Hf) end. change (fexp (B754_zero true : f64)) with (m_exp (B754_zero true)). rewrite He. destruct Hy as [E | E]; subst y; apply B2SF_inj; vm_compute; reflexivity. }
  unfold FoldedNormal_fmt. rewrite !V by auto. reflexivity.
Qed.
Print Assumptions C150_folded_normal_refuted.
(** The two Degenerate types print alike whenever the formatter prints a whole double as the integer *)
Theorem C150_degenerate_refuted (m : Libm) (FM : Fmt f64) (k : Z) : show (b64 k 0) = show_Z k ->
  DegenerateF_fmt (DegenerateF.new (b64 k 0)) = DegenerateI_fmt (DegenerateI.new k).
Proof. intros E. unfold DegenerateF_fmt, DegenerateI_fmt. cbn [DegenerateF.k DegenerateF.new DegenerateI.k DegenerateI.new]. now rewrite E. Qed.
Print Assumptions C150_degenerate_refuted.

(** A formatter as assumed: mantissa and exponent in decimal *)
Definition f64_text (x : f64) : string :=
  match x with
  | B754_zero s => if s then "-0" else "0"
  | B754_infinity s => if s then "-inf" else "inf"
  | B754_nan => "NaN"
  | B754_finite s m e _ => show_Z (if s then Z.neg m else Z.pos m) ++ String "e" (show_Z e)
  end.
Definition fmt_me : Fmt f64 := {| show := f64_text; debug := f64_text |}.
Lemma noe_uint u : ~ In "e"%char (chars (NilZero.string_of_uint u)).
Proof.
  assert (K : forall u, ~ In "e"%char (chars (NilEmpty.string_of_uint u))).
  { clear. induction u; cbn [NilEmpty.string_of_uint chars In]; intros H; try contradiction; destruct H as [H|H]; try discriminate H; tauto. }
  destruct u; try apply K. cbn. intros [H|[]]. discriminate H.
Qed.
Lemma noe_Z z : ~ In "e"%char (chars (show_Z z)).
Proof. unfold show_Z, NilZero.string_of_int. destruct (Z.to_int z) as [u|u]; [apply noe_uint|]. cbn [chars In]. intros [H|H]; [discriminate H|now apply noe_uint in H]. Qed.
Lemma split_char : forall s1 s2 c r1 r2, ~ In c (chars s1) -> ~ In c (chars s2) -> s1 ++ String c r1 = s2 ++ String c r2 -> s1 = s2 /\ r1 = r2.
Proof.
  induction s1 as [|a s1 IH]; intros [|b s2] c r1 r2 P1 P2 E; cbn [String.append chars In] in *.
  - injection E as ->. auto.
  - injection E as -> E. tauto.
  - injection E as -> E. tauto.
  - injection E as -> E. destruct (IH s2 c r1 r2) as [-> ->]; auto.
Qed.
Lemma zero_text s z r : ~ In "e"%char (chars s) -> s <> z ++ String "e" r.
Proof. intros H ->. apply H. rewrite chars_app. apply in_or_app. right. now left. Qed.
Lemma f64_text_inj (x y : f64) : f64_text x = f64_text y -> x = y.
Proof.
  assert (NE : forall s, In s ["-0"; "0"; "-inf"; "inf"; "NaN"] -> ~ In "e"%char (chars s)).
  { intros s H. cbn in H. repeat (destruct H as [<-|H]; [cbn; intuition discriminate|]). contradiction. }
  assert (LIT : forall x : f64, In (f64_text x) ["-0"; "0"; "-inf"; "inf"; "NaN"] \/ exists s m e B, x = B754_finite s m e B).
  { intros [s|s| |s m e B]; [left; try destruct s; cbn; tauto..|right; now exists s, m, e, B]. }
  intros E. destruct (LIT x) as [Lx|(s & m & e & B & ->)], (LIT y) as [Ly|(s' & m' & e' & B' & ->)].
  - apply NE in Lx, Ly. clear LIT NE. destruct x as [s|s| |s m e B], y as [s'|s'| |s' m' e' B'];
    try (exfalso; apply Lx; cbn [f64_text]; rewrite chars_app; apply in_or_app; right; now left);
    try (exfalso; apply Ly; cbn [f64_text]; rewrite chars_app; apply in_or_app; right; now left);
    try destruct s; try destruct s'; cbn [f64_text] in E; first [discriminate E | reflexivity].
  - exfalso. cbn [f64_text] in E. now apply zero_text in E; [|apply NE].
  - exfalso. cbn [f64_text] in E. symmetry in E. now apply zero_text in E; [|apply NE].
  - cbn [f64_text] in E. apply split_char in E as [E1 E2]; [|apply noe_Z..]. apply show_Z_inj in E1, E2. subst e'.
    assert (s = s' /\ m = m') as [<- <-] by (destruct s, s'; split; congruence). apply B2SF_inj. reflexivity.
Qed.
Lemma f64_text_plain (x : f64) : plain (f64_text x) /\ f64_text x <> "".
Proof.
  split.
  - destruct x as [s|s| |s m e B]; try (apply plainb_ok; try destruct s; reflexivity). cbn [f64_text]. intros c Hc. rewrite chars_app in Hc. apply in_app_or in Hc as [Hc|Hc]; [now apply show_Z_plain in Hc|].
    cbn [chars In] in Hc. destruct Hc as [<-|Hc]; [cbn; intuition discriminate|now apply show_Z_plain in Hc].
  - destruct x as [s|s| |s m e B]; try (try destruct s; discriminate). cbn [f64_text]. destruct (show_Z _); discriminate.
Qed.
Example C150_nonvacuous (m : Libm) : fmt_ok fmt_me /\ printed m fmt_me (C_Gamma one64 (b64 3 (-1))) = Some "Gamma(4503599627370496e-52, 6755399441055744e-52)" /\
  printed m fmt_me (C_FDist 12 7) = Some "F(12, 7)" /\ printed m fmt_me (C_Gamma one64 (b64 0 0)) = None.
Proof.
  split; [|split; [|split]].
  - split; [exact f64_text_inj|]. split; [exact f64_text_inj|]. split; [apply f64_text_plain|exact f64_text_plain].
  - vm_compute. reflexivity.
  - vm_compute. reflexivity.
  - vm_compute. reflexivity.
Qed.
