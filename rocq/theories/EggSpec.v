(** What the egglog text round trip and the rewrite rules should satisfy. *)
From Coq Require Import ZArith Reals Bool String Ascii List.
From Coq Require Import Floats.SpecFloat.
From Flocq Require Import Core BinarySingleNaN.
From Verif Require Import Num ExprModel ExprSpec JitModel EggModel.
Import ListNotations.
Local Open Scope R_scope.

(** * Text *)

(** A name whose parentheses are balanced: never more closed than opened, and
    all closed at the end. *)
Fixpoint balanced_from (depth : nat) (s : string) : Prop :=
  match s with
  | EmptyString => depth = O
  | String c s' =>
      if Ascii.eqb c "("%char then balanced_from (S depth) s'
      else if Ascii.eqb c ")"%char then
        match depth with O => False | S d => balanced_from d s' end
      else balanced_from depth s'
  end.
Definition balanced (s : string) : Prop := balanced_from 0 s.

Fixpoint balanced_names (e : expr f64) : Prop :=
  match e with
  | Const _ => True
  | Var x => balanced x
  | Add l r | Sub l r | Mul l r | Div l r | Pow l r => balanced_names l /\ balanced_names r
  | Ln a | Exp a | Sqrt a | Sin a | Cos a | Neg a => balanced_names a
  end.

Fixpoint has_sqrt (e : expr f64) : Prop :=
  match e with
  | Const _ | Var _ => False
  | Add l r | Sub l r | Mul l r | Div l r | Pow l r => has_sqrt l \/ has_sqrt r
  | Sqrt _ => True
  | Ln a | Exp a | Sin a | Cos a | Neg a => has_sqrt a
  end.

(** Every constant is a binary64 number (a canonical one). *)
Fixpoint f64_constants (e : expr f64) : Prop :=
  match e with
  | Const c => SpecFloat.valid_binary 53 1024 c = true
  | Var _ => True
  | Add l r | Sub l r | Mul l r | Div l r | Pow l r => f64_constants l /\ f64_constants r
  | Ln a | Exp a | Sqrt a | Sin a | Cos a | Neg a => f64_constants a
  end.

(** Rounding of a real number to the nearest binary64, ties to even. *)
Definition RN (x : R) : R := round radix2 (FLT_exp (-1074) 53) ZnearestE x.
Definition val (c : f64) : R := SF2R radix2 c.
Definition finite (c : f64) : Prop := is_finite_SF c = true.

(** [one_decimal c c']: [c'] is the binary64 number nearest to the value of [c]
    rounded to one digit after the point; infinities and NaN are unchanged. *)
Definition one_decimal (c c' : f64) : Prop :=
  (finite c -> SpecFloat.valid_binary 53 1024 c' = true /\ finite c' /\ sign_SF c' = sign_SF c /\
               val c' = RN (IZR (ZnearestE (10 * val c)) / 10)) /\
  (~ finite c -> c' = c).

(** The same expression with every constant related by [P]. *)
Inductive consts_related (P : f64 -> f64 -> Prop) : expr f64 -> expr f64 -> Prop :=
| cr_const c c' : P c c' -> consts_related P (Const c) (Const c')
| cr_var x : consts_related P (Var x) (Var x)
| cr_add l r l' r' : consts_related P l l' -> consts_related P r r' -> consts_related P (Add l r) (Add l' r')
| cr_sub l r l' r' : consts_related P l l' -> consts_related P r r' -> consts_related P (Sub l r) (Sub l' r')
| cr_mul l r l' r' : consts_related P l l' -> consts_related P r r' -> consts_related P (Mul l r) (Mul l' r')
| cr_div l r l' r' : consts_related P l l' -> consts_related P r r' -> consts_related P (Div l r) (Div l' r')
| cr_pow l r l' r' : consts_related P l l' -> consts_related P r r' -> consts_related P (Pow l r) (Pow l' r')
| cr_ln a a' : consts_related P a a' -> consts_related P (Ln a) (Ln a')
| cr_exp a a' : consts_related P a a' -> consts_related P (Exp a) (Exp a')
| cr_sqrt a a' : consts_related P a a' -> consts_related P (Sqrt a) (Sqrt a')
| cr_sin a a' : consts_related P a a' -> consts_related P (Sin a) (Sin a')
| cr_cos a a' : consts_related P a a' -> consts_related P (Cos a) (Cos a')
| cr_neg a a' : consts_related P a a' -> consts_related P (Neg a) (Neg a').

(** The constants of an expression. *)
Definition constant_of (c : f64) (e : expr f64) : Prop := In (Const c) (subexprs e).

(** * Rules *)

(** A rule is sound: wherever an instance of the left side has a value, the
    right side has that value. *)
Definition sound (lg : R -> R) (rule : pat * pat) : Prop :=
  forall (vars : env (XR lg)) s k v,
    denotes vars (pinst s k (fst rule)) v -> denotes vars (pinst s k (snd rule)) v.

(** The two rules that are not: (x^a)^b = x^(a b) and ln(x^n) = n ln x. *)
Definition pow_pow_rule : pat * pat := (PPow (PPow x_ a_) b_, PPow x_ (PMul a_ b_)).
Definition ln_pow_rule : pat * pat := (PLn (PPow x_ n_), PMul n_ (PLn x_)).

(** Powers and square roots are taken of positive numbers only. *)
Fixpoint positive_powers {lg} (vars : env (XR lg)) (e : expr (XR lg)) : Prop :=
  match e with
  | Const _ | Var _ => True
  | Add l r | Sub l r | Mul l r | Div l r => positive_powers vars l /\ positive_powers vars r
  | Pow l r => positive_powers vars l /\ positive_powers vars r /\ exists v, denotes vars l v /\ 0 < v
  | Sqrt a => positive_powers vars a /\ exists v, denotes vars a v /\ 0 < v
  | Ln a | Exp a | Sin a | Cos a | Neg a => positive_powers vars a
  end.
