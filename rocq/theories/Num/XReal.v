(** * Exact extended reals: IEEE-shaped arithmetic without rounding.

    [Fin r] is a finite number, [PInf]/[NInf] the infinities, [NaN] not-a-number.
    The special-value rules are those of IEEE-754 / C99 Annex F for the
    operations of [Scalar], with one simplification: there is a single
    (unsigned, positive) zero, so [1/0 = PInf]. *)
From Coq Require Import Reals Lra Lia ZArith.
From Flocq Require Import Core.Raux.
From Verif.Num Require Import Scalar.
Open Scope R_scope.

Inductive xreal := Fin (r : R) | PInf | NInf | NaN.

(** The real value of a finite number (0 otherwise; statements that use it
    also state finiteness). *)
Definition val (x : xreal) : R := match x with Fin r => r | _ => 0 end.

Definition is_fin (x : xreal) : Prop := match x with Fin _ => True | _ => False end.

Definition Rltb (a b : R) : bool := if Rlt_dec a b then true else false.
Definition Rleb (a b : R) : bool := if Rle_dec a b then true else false.
Definition Reqb (a b : R) : bool := if Req_EM_T a b then true else false.

(** signed infinity with the sign of [s] (s <> 0) *)
Definition sinf (s : R) : xreal := if Rlt_dec 0 s then PInf else NInf.

Definition xneg (x : xreal) : xreal :=
  match x with Fin a => Fin (- a) | PInf => NInf | NInf => PInf | NaN => NaN end.

Definition xadd (x y : xreal) : xreal :=
  match x, y with
  | Fin a, Fin b => Fin (a + b)
  | NaN, _ | _, NaN => NaN
  | PInf, NInf | NInf, PInf => NaN
  | PInf, _ | _, PInf => PInf
  | NInf, _ | _, NInf => NInf
  end.

Definition xsub (x y : xreal) : xreal := xadd x (xneg y).

Definition xmul (x y : xreal) : xreal :=
  match x, y with
  | Fin a, Fin b => Fin (a * b)
  | NaN, _ | _, NaN => NaN
  | Fin a, PInf | PInf, Fin a => if Req_EM_T a 0 then NaN else sinf a
  | Fin a, NInf | NInf, Fin a => if Req_EM_T a 0 then NaN else sinf (- a)
  | PInf, PInf | NInf, NInf => PInf
  | PInf, NInf | NInf, PInf => NInf
  end.

Definition xdiv (x y : xreal) : xreal :=
  match x, y with
  | Fin a, Fin b =>
      if Req_EM_T b 0 then (if Req_EM_T a 0 then NaN else sinf a) else Fin (a / b)
  | NaN, _ | _, NaN => NaN
  | Fin _, _ => Fin 0
  | PInf, Fin b => if Rle_dec 0 b then PInf else NInf
  | NInf, Fin b => if Rle_dec 0 b then NInf else PInf
  | _, _ => NaN
  end.

(** truncation toward zero *)
Definition xrem (x y : xreal) : xreal :=
  match x, y with
  | Fin a, Fin b => if Req_EM_T b 0 then NaN else Fin (a - b * IZR (Ztrunc (a / b)))
  | Fin a, PInf | Fin a, NInf => Fin a
  | _, _ => NaN
  end.

Definition xabs (x : xreal) : xreal :=
  match x with Fin a => Fin (Rabs a) | PInf | NInf => PInf | NaN => NaN end.

Definition xsqrt (x : xreal) : xreal :=
  match x with
  | Fin a => if Rle_dec 0 a then Fin (sqrt a) else NaN
  | PInf => PInf | NInf => NaN | NaN => NaN
  end.

Definition xfloor (x : xreal) : xreal :=
  match x with Fin a => Fin (IZR (Zfloor a)) | y => y end.

Definition xround (x : xreal) : xreal :=
  match x with
  | Fin a => if Rle_dec 0 a then Fin (IZR (Zfloor (a + / 2))) else Fin (IZR (Zceil (a - / 2)))
  | y => y
  end.

Definition xexp (x : xreal) : xreal :=
  match x with Fin a => Fin (exp a) | PInf => PInf | NInf => Fin 0 | NaN => NaN end.

Definition xln (x : xreal) : xreal :=
  match x with
  | Fin a => if Rlt_dec 0 a then Fin (ln a) else if Req_EM_T a 0 then NInf else NaN
  | PInf => PInf | NInf => NaN | NaN => NaN
  end.

Definition xlog2 (x : xreal) : xreal :=
  match x with
  | Fin a => if Rlt_dec 0 a then Fin (ln a / ln 2) else if Req_EM_T a 0 then NInf else NaN
  | PInf => PInf | NInf => NaN | NaN => NaN
  end.

Definition xsin (x : xreal) : xreal := match x with Fin a => Fin (sin a) | _ => NaN end.
Definition xcos (x : xreal) : xreal := match x with Fin a => Fin (cos a) | _ => NaN end.
Definition xtan (x : xreal) : xreal := xdiv (xsin x) (xcos x).

Definition xasin (x : xreal) : xreal :=
  match x with
  | Fin a => if Rle_dec (Rabs a) 1 then Fin (asin a) else NaN
  | _ => NaN
  end.

Definition xatan (x : xreal) : xreal :=
  match x with Fin a => Fin (atan a) | PInf => Fin (PI / 2) | NInf => Fin (- (PI / 2)) | NaN => NaN end.

(** integer power of a real *)
Definition Rpowi (a : R) (n : Z) : xreal :=
  if Req_EM_T a 0 then
    (if Z.eqb n 0 then Fin 1 else if Z.ltb 0 n then Fin 0 else PInf)
  else Fin (powerRZ a n).

Definition xpowi (x : xreal) (n : Z) : xreal :=
  match x with
  | Fin a => Rpowi a n
  | _ => if Z.eqb n 0 then Fin 1 else
         match x with
         | PInf => if Z.ltb 0 n then PInf else Fin 0
         | NInf => if Z.ltb 0 n then (if Z.even n then PInf else NInf) else Fin 0
         | _ => NaN
         end
  end.

(** C99 pow *)
Definition xpowf (x y : xreal) : xreal :=
  match x, y with
  | _, Fin b =>
      if Req_EM_T b 0 then Fin 1 else
      match x with
      | Fin a =>
          if Rlt_dec 0 a then Fin (Rpower a b)
          else if Req_EM_T a 0 then (if Rlt_dec 0 b then Fin 0 else PInf)
          else if Req_EM_T b (IZR (Zfloor b)) then Fin (powerRZ a (Zfloor b)) else NaN
      | PInf => if Rlt_dec 0 b then PInf else Fin 0
      | NInf => if Req_EM_T b (IZR (Zfloor b)) then xpowi NInf (Zfloor b)
                else if Rlt_dec 0 b then PInf else Fin 0
      | NaN => NaN
      end
  | Fin a, PInf => if Req_EM_T (Rabs a) 1 then Fin 1 else if Rlt_dec (Rabs a) 1 then Fin 0 else PInf
  | Fin a, NInf => if Req_EM_T (Rabs a) 1 then Fin 1 else if Rlt_dec (Rabs a) 1 then PInf else Fin 0
  | Fin a, NaN => if Req_EM_T a 1 then Fin 1 else NaN
  | PInf, PInf | NInf, PInf => PInf
  | PInf, NInf | NInf, NInf => Fin 0
  | _, _ => NaN
  end.

Definition xsignum (x : xreal) : xreal :=
  match x with
  | Fin a => if Rle_dec 0 a then Fin 1 else Fin (-1)
  | PInf => Fin 1 | NInf => Fin (-1) | NaN => NaN
  end.

Definition xltb (x y : xreal) : bool :=
  match x, y with
  | Fin a, Fin b => Rltb a b
  | NaN, _ | _, NaN => false
  | NInf, NInf => false | NInf, _ => true
  | _, NInf => false
  | PInf, _ => false
  | Fin _, PInf => true
  end.

Definition xleb (x y : xreal) : bool :=
  match x, y with
  | Fin a, Fin b => Rleb a b
  | NaN, _ | _, NaN => false
  | NInf, _ => true
  | _, NInf => false
  | _, PInf => true
  | PInf, Fin _ => false
  end.

Definition xeqb (x y : xreal) : bool :=
  match x, y with
  | Fin a, Fin b => Reqb a b
  | PInf, PInf | NInf, NInf => true
  | _, _ => false
  end.

(** f64::max: the other argument if one is NaN *)
Definition xmax (x y : xreal) : xreal :=
  match x, y with
  | NaN, _ => y
  | _, NaN => x
  | _, _ => if xleb x y then y else x
  end.

Definition xisinf (x : xreal) : bool := match x with PInf | NInf => true | _ => false end.
Definition xsignneg (x : xreal) : bool :=
  match x with Fin a => Rltb a 0 | NInf => true | _ => false end.

Definition clampZ (lo hi z : Z) : Z := Z.max lo (Z.min hi z).
Definition x_to_Z (lo hi : Z) (x : xreal) : Z :=
  match x with
  | Fin a => clampZ lo hi (Ztrunc a)
  | PInf => hi | NInf => lo | NaN => 0%Z
  end.

Global Instance XScalar : Scalar xreal := {
  f_of_Z z := Fin (IZR z);
  fpi := Fin PI;
  fe := Fin (exp 1);
  finf := PInf;
  fadd := xadd; fsub := xsub; fmul := xmul; fdiv := xdiv; frem := xrem;
  fneg := xneg; fabs := xabs; fsqrt := xsqrt; ffloor := xfloor; fround := xround;
  fexp := xexp; fln := xln; flog2 := xlog2;
  fsin := xsin; fcos := xcos; ftan := xtan; fasin := xasin; fatan := xatan;
  fpowf := xpowf; fpowi := xpowi; fsignum := xsignum; fmax := xmax;
  fltb := xltb; fleb := xleb; feqb := xeqb; fisinf := xisinf; fsignneg := xsignneg;
  f_to_Z := x_to_Z
}.

(** ** Characterising lemmas *)

Lemma Rltb_true a b : a < b -> Rltb a b = true.
Proof. unfold Rltb; destruct (Rlt_dec a b); congruence || (intros; contradiction). Qed.
Lemma Rltb_false a b : b <= a -> Rltb a b = false.
Proof. unfold Rltb; destruct (Rlt_dec a b); auto; intros; lra. Qed.
Lemma Rleb_true a b : a <= b -> Rleb a b = true.
Proof. unfold Rleb; destruct (Rle_dec a b); congruence || (intros; contradiction). Qed.
Lemma Rleb_false a b : b < a -> Rleb a b = false.
Proof. unfold Rleb; destruct (Rle_dec a b); auto; intros; lra. Qed.
Lemma Reqb_true a b : a = b -> Reqb a b = true.
Proof. unfold Reqb; destruct (Req_EM_T a b); congruence. Qed.
Lemma Reqb_false a b : a <> b -> Reqb a b = false.
Proof. unfold Reqb; destruct (Req_EM_T a b); congruence. Qed.
Lemma Rltb_spec a b : BoolSpec (a < b) (b <= a) (Rltb a b).
Proof. unfold Rltb; destruct (Rlt_dec a b); constructor; lra. Qed.
Lemma Rleb_spec a b : BoolSpec (a <= b) (b < a) (Rleb a b).
Proof. unfold Rleb; destruct (Rle_dec a b); constructor; lra. Qed.
Lemma Reqb_spec a b : BoolSpec (a = b) (a <> b) (Reqb a b).
Proof. unfold Reqb; destruct (Req_EM_T a b); constructor; lra. Qed.

Lemma x_add a b : fadd (Fin a) (Fin b) = Fin (a + b). Proof. reflexivity. Qed.
Lemma x_sub a b : fsub (Fin a) (Fin b) = Fin (a - b). Proof. reflexivity. Qed.
Lemma x_mul a b : fmul (Fin a) (Fin b) = Fin (a * b). Proof. reflexivity. Qed.
Lemma x_neg a : fneg (Fin a) = Fin (- a). Proof. reflexivity. Qed.
Lemma x_abs a : fabs (Fin a) = Fin (Rabs a). Proof. reflexivity. Qed.
Lemma x_exp a : fexp (Fin a) = Fin (exp a). Proof. reflexivity. Qed.
Lemma x_lit z : f_of_Z z = Fin (IZR z). Proof. reflexivity. Qed.
Lemma x_pi : fpi = Fin PI. Proof. reflexivity. Qed.
Lemma x_e : fe = Fin (exp 1). Proof. reflexivity. Qed.
Lemma x_sin a : fsin (Fin a) = Fin (sin a). Proof. reflexivity. Qed.
Lemma x_cos a : fcos (Fin a) = Fin (cos a). Proof. reflexivity. Qed.
Lemma x_atan a : fatan (Fin a) = Fin (atan a). Proof. reflexivity. Qed.
Lemma x_floor a : ffloor (Fin a) = Fin (IZR (Zfloor a)). Proof. reflexivity. Qed.
Lemma x_ltb a b : fltb (Fin a) (Fin b) = Rltb a b. Proof. reflexivity. Qed.
Lemma x_leb a b : fleb (Fin a) (Fin b) = Rleb a b. Proof. reflexivity. Qed.
Lemma x_eqb a b : feqb (Fin a) (Fin b) = Reqb a b. Proof. reflexivity. Qed.
Lemma x_to a lo hi : f_to_Z lo hi (Fin a) = clampZ lo hi (Ztrunc a). Proof. reflexivity. Qed.

Lemma x_div a b : b <> 0 -> fdiv (Fin a) (Fin b) = Fin (a / b).
Proof. intros H; cbn; destruct (Req_EM_T b 0); congruence. Qed.
Lemma x_div_0 a : 0 < a -> fdiv (Fin a) (Fin 0) = PInf.
Proof.
  intros H; cbn. destruct (Req_EM_T 0 0) as [_|n]; [|congruence].
  destruct (Req_EM_T a 0); [lra|]. unfold sinf; destruct (Rlt_dec 0 a); [reflexivity|contradiction].
Qed.
Lemma x_div_0_neg a : a < 0 -> fdiv (Fin a) (Fin 0) = NInf.
Proof.
  intros H; cbn. destruct (Req_EM_T 0 0) as [_|n]; [|congruence].
  destruct (Req_EM_T a 0); [lra|]. unfold sinf; destruct (Rlt_dec 0 a); [lra|reflexivity].
Qed.
Lemma x_div_0_0 : fdiv (Fin 0) (Fin 0) = NaN.
Proof. cbn; destruct (Req_EM_T 0 0); congruence. Qed.
Lemma x_sqrt a : 0 <= a -> fsqrt (Fin a) = Fin (sqrt a).
Proof. intros H; cbn; destruct (Rle_dec 0 a); [reflexivity|contradiction]. Qed.
Lemma x_sqrt_neg a : a < 0 -> fsqrt (Fin a) = NaN.
Proof. intros H; cbn; destruct (Rle_dec 0 a); [lra|reflexivity]. Qed.
Lemma x_ln a : 0 < a -> fln (Fin a) = Fin (ln a).
Proof. intros H; cbn; destruct (Rlt_dec 0 a); [reflexivity|contradiction]. Qed.
Lemma x_ln_0 : fln (Fin 0) = NInf.
Proof. cbn; destruct (Rlt_dec 0 0); [lra|]; destruct (Req_EM_T 0 0); [reflexivity|congruence]. Qed.
Lemma x_log2 a : 0 < a -> flog2 (Fin a) = Fin (ln a / ln 2).
Proof. intros H; cbn; destruct (Rlt_dec 0 a); [reflexivity|contradiction]. Qed.
Lemma x_asin a : -1 <= a <= 1 -> fasin (Fin a) = Fin (asin a).
Proof.
  intros H; cbn; destruct (Rle_dec (Rabs a) 1) as [|n]; [reflexivity|].
  exfalso; apply n; apply Rabs_le; lra.
Qed.
Lemma x_tan a : cos a <> 0 -> ftan (Fin a) = Fin (tan a).
Proof. intros H; cbn; destruct (Req_EM_T (cos a) 0); [contradiction|reflexivity]. Qed.
Lemma x_powf a b : 0 < a -> fpowf (Fin a) (Fin b) = Fin (Rpower a b).
Proof.
  intros H; cbn. destruct (Req_EM_T b 0) as [->|].
  - now rewrite Rpower_O.
  - destruct (Rlt_dec 0 a); [reflexivity|contradiction].
Qed.
Lemma x_powf_0 b : 0 < b -> fpowf (Fin 0) (Fin b) = Fin 0.
Proof.
  intros H; cbn. destruct (Req_EM_T b 0); [lra|]. destruct (Rlt_dec 0 0); [lra|].
  destruct (Req_EM_T 0 0); [|congruence]. destruct (Rlt_dec 0 b); [reflexivity|contradiction].
Qed.
Lemma x_powf_0_neg b : b < 0 -> fpowf (Fin 0) (Fin b) = PInf.
Proof.
  intros H; cbn. destruct (Req_EM_T b 0); [lra|]. destruct (Rlt_dec 0 0); [lra|].
  destruct (Req_EM_T 0 0); [|congruence]. destruct (Rlt_dec 0 b); [lra|reflexivity].
Qed.
Lemma x_powf_0_0 a : fpowf a (Fin 0) = Fin 1.
Proof. destruct a; cbn; destruct (Req_EM_T 0 0); congruence. Qed.
Lemma x_powi_nat a (n : nat) : fpowi (Fin a) (Z.of_nat n) = Fin (a ^ n).
Proof.
  cbn; unfold Rpowi. destruct (Req_EM_T a 0) as [->|H].
  - destruct n as [|n]; [reflexivity|].
    replace (Z.of_nat (S n) =? 0)%Z with false by (symmetry; apply Z.eqb_neq; lia).
    replace (0 <? Z.of_nat (S n))%Z with true by (symmetry; apply Z.ltb_lt; lia).
    now rewrite pow_ne_zero.
  - f_equal. rewrite <- pow_powerRZ. reflexivity.
Qed.
Lemma x_powi_nz a z : a <> 0 -> fpowi (Fin a) z = Fin (powerRZ a z).
Proof. intros H; cbn; unfold Rpowi; destruct (Req_EM_T a 0); [contradiction|reflexivity]. Qed.
Lemma x_powi_2 a : fpowi (Fin a) 2 = Fin (a * a).
Proof. change 2%Z with (Z.of_nat 2). rewrite x_powi_nat. f_equal; ring. Qed.
Lemma x_max a b : fmax (Fin a) (Fin b) = Fin (Rmax a b).
Proof. cbn. unfold Rleb, Rmax. destruct (Rle_dec a b); reflexivity. Qed.

Lemma Fin_inj a b : Fin a = Fin b -> a = b.
Proof. congruence. Qed.
Lemma val_Fin a : val (Fin a) = a. Proof. reflexivity. Qed.
