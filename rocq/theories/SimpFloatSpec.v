(** Simplification on binary64 numbers (C58): what is asked of the platform's
    math library, and which rules of the simplifier change rounding. *)
From Coq Require Import ZArith Reals Bool String List.
From Coq Require Import Floats.SpecFloat.
From Verif Require Import Num ExprModel ExprSpec EggSpec FloatErr.
Import ListNotations.
Local Open Scope R_scope.

(** Exact cases that ISO C (Annex F) fixes for the math library: the
    exponential, sine and cosine of zero, powers with exponent zero or one,
    powers of one, and a power of zero not depending on the sign of the zero
    (when it is finite). *)
Record annex_f (L : libm) : Prop := {
  af_exp : forall x, is_num x -> val x = 0 -> is_num (l_exp L x) /\ val (l_exp L x) = 1;
  af_sin : forall x, is_num x -> val x = 0 -> is_num (l_sin L x) /\ val (l_sin L x) = 0;
  af_cos : forall x, is_num x -> val x = 0 -> is_num (l_cos L x) /\ val (l_cos L x) = 1;
  af_pow_zero : forall x y, is_num x -> is_num y -> val y = 0 -> is_num (l_pow L x y) /\ val (l_pow L x y) = 1;
  af_pow_one : forall x y, is_num x -> is_num y -> val y = 1 -> is_num (l_pow L x y) /\ val (l_pow L x y) = val x;
  af_one_pow : forall x y, is_num x -> is_num y -> val x = 1 -> is_num (l_pow L x y) /\ val (l_pow L x y) = 1;
  af_zero_pow : forall x x' y, is_num x -> is_num x' -> is_num y -> val x = 0 -> val x' = 0 ->
    is_num (l_pow L x y) -> is_num (l_pow L x' y) /\ val (l_pow L x' y) = val (l_pow L x y)
}.

(** The simplifier does not replace the operation at the root of the expression
    by a different library call: no square from a product of equal factors, no
    cancelled [ln]/[exp]/[sqrt] pair, no merged powers.  The operands are
    simplified first, so their simplified forms decide. *)
Definition keeps_rounding {L} (e : expr (F64 L)) : Prop :=
  match e with
  | Mul l r => expr_eqb (simplify l) (simplify r) = false \/
               exists c d, simplify l = Const c /\ simplify r = Const d
  | Ln a => match simplify a with Exp _ | Pow _ _ => False | _ => True end
  | Exp a => match simplify a with Ln _ | Mul _ (Ln _) => False | _ => True end
  | Sqrt a => match simplify a with Pow _ _ => False | _ => True end
  | Pow b _ => match simplify b with Pow _ _ => False | _ => True end
  | _ => True
  end.

(** A syntactic condition: no powers; of every product one factor is a literal;
    logarithms and exponentials are not nested in one another. *)
Fixpoint no_ln_exp {A} (e : expr A) : bool :=
  match e with
  | Const _ | Var _ => true
  | Add l r | Sub l r | Mul l r | Div l r | Pow l r => no_ln_exp l && no_ln_exp r
  | Ln _ | Exp _ => false
  | Sqrt a | Sin a | Cos a | Neg a => no_ln_exp a
  end.
Fixpoint calm {A} (e : expr A) : bool :=
  match e with
  | Const _ | Var _ => true
  | Add l r | Sub l r | Div l r => calm l && calm r
  | Mul l r => match l, r with
               | Const _, _ => calm r
               | _, Const _ => calm l
               | _, _ => false
               end
  | Pow _ _ => false
  | Ln a | Exp a => calm a && no_ln_exp a
  | Sqrt a | Sin a | Cos a | Neg a => calm a
  end.
