(** Independent specification vocabulary for expressions. *)
From Coq Require Import ZArith Reals String List Bool.
From Verif Require Import Num ExprModel.
Import ListNotations.
Local Open Scope R_scope.

(** [occurs x e]: the name [x] is written somewhere in [e]. *)
Inductive occurs {A} (x : string) : expr A -> Prop :=
| o_var : occurs x (Var x)
| o_add_l l r : occurs x l -> occurs x (Add l r)
| o_add_r l r : occurs x r -> occurs x (Add l r)
| o_sub_l l r : occurs x l -> occurs x (Sub l r)
| o_sub_r l r : occurs x r -> occurs x (Sub l r)
| o_mul_l l r : occurs x l -> occurs x (Mul l r)
| o_mul_r l r : occurs x r -> occurs x (Mul l r)
| o_div_l l r : occurs x l -> occurs x (Div l r)
| o_div_r l r : occurs x r -> occurs x (Div l r)
| o_pow_l l r : occurs x l -> occurs x (Pow l r)
| o_pow_r l r : occurs x r -> occurs x (Pow l r)
| o_ln a : occurs x a -> occurs x (Ln a)
| o_exp a : occurs x a -> occurs x (Exp a)
| o_sqrt a : occurs x a -> occurs x (Sqrt a)
| o_sin a : occurs x a -> occurs x (Sin a)
| o_cos a : occurs x a -> occurs x (Cos a)
| o_neg a : occurs x a -> occurs x (Neg a).

(** [denotes vars e r]: ordinary real analysis assigns the real [r] to [e].
    No value for a quotient by zero, the logarithm of a non-positive number,
    the root of a negative number or an undefined power. *)
Inductive denotes {lg : R -> R} (vars : env (XR lg)) : expr (XR lg) -> R -> Prop :=
| d_const r : denotes vars (Const (Fin r : XR lg)) r
| d_var x r : get vars x = Some (Fin r) -> denotes vars (Var x) r
| d_add l r a b : denotes vars l a -> denotes vars r b -> denotes vars (Add l r) (a + b)
| d_sub l r a b : denotes vars l a -> denotes vars r b -> denotes vars (Sub l r) (a - b)
| d_mul l r a b : denotes vars l a -> denotes vars r b -> denotes vars (Mul l r) (a * b)
| d_div l r a b : denotes vars l a -> denotes vars r b -> b <> 0 ->
                  denotes vars (Div l r) (a / b)
| d_pow_zero l r a : denotes vars l a -> denotes vars r 0 -> denotes vars (Pow l r) 1
| d_pow_pos l r a b : denotes vars l a -> denotes vars r b -> 0 < a ->
                      denotes vars (Pow l r) (Rpower a b)
| d_pow_base0 l r b : denotes vars l 0 -> denotes vars r b -> 0 < b ->
                      denotes vars (Pow l r) 0
| d_pow_int l r a z : denotes vars l a -> denotes vars r (IZR z) -> a <> 0 ->
                      denotes vars (Pow l r) (powerRZ a z)
| d_ln e a : denotes vars e a -> 0 < a -> denotes vars (Ln e) (ln a)
| d_exp e a : denotes vars e a -> denotes vars (Exp e) (exp a)
| d_sqrt e a : denotes vars e a -> 0 <= a -> denotes vars (Sqrt e) (sqrt a)
| d_sin e a : denotes vars e a -> denotes vars (Sin e) (sin a)
| d_cos e a : denotes vars e a -> denotes vars (Cos e) (cos a)
| d_neg e a : denotes vars e a -> denotes vars (Neg e) (- a).

(** No factor is the literal [0.0] (or [-0.0]). *)
Fixpoint no_zero_factor {N : Num} (e : expr N) : bool :=
  match e with
  | Const _ | Var _ => true
  | Mul l r => negb (is_lit n0 l) && negb (is_lit n0 r)
               && no_zero_factor l && no_zero_factor r
  | Add l r | Sub l r | Div l r | Pow l r => no_zero_factor l && no_zero_factor r
  | Ln a | Exp a | Sqrt a | Sin a | Cos a | Neg a => no_zero_factor a
  end.

(** The immediate and transitive parts of an expression. *)
Fixpoint subexprs {A} (e : expr A) : list (expr A) :=
  e :: match e with
       | Const _ | Var _ => []
       | Add l r | Sub l r | Mul l r | Div l r | Pow l r => subexprs l ++ subexprs r
       | Ln a | Exp a | Sqrt a | Sin a | Cos a | Neg a => subexprs a
       end.

(** Strictly increasing lists of strings. *)
Fixpoint increasing (l : list string) : Prop :=
  match l with
  | x :: ((y :: _) as l') => String.compare x y = Lt /\ increasing l'
  | _ => True
  end.

(** [out] is what evaluating [f] at the points of [l], left to right, gives:
    all the values if every point succeeds, otherwise the error of the first
    point that fails. *)
Definition pointwise {A B E} (f : A -> res E B) (l : list A) (out : res E (list B)) : Prop :=
  match out with
  | Ok rs => Forall2 (fun a r => f a = Ok r) l rs
  | Err e => exists pre a post rs,
      l = (pre ++ a :: post)%list /\ Forall2 (fun a r => f a = Ok r) pre rs /\ f a = Err e
  end.

(** All literal constants of an expression are finite numbers. *)
Fixpoint finite_consts {lg : R -> R} (e : expr (XR lg)) : Prop :=
  match e with
  | Const c => exists r, c = Fin r
  | Var _ => True
  | Add l r | Sub l r | Mul l r | Div l r | Pow l r => finite_consts l /\ finite_consts r
  | Ln a | Exp a | Sqrt a | Sin a | Cos a | Neg a => finite_consts a
  end.

(** Operands that can never turn into a power. *)
Fixpoint plain_operand {A} (e : expr A) : bool :=
  match e with
  | Const _ | Var _ | Sin _ | Cos _ => true
  | Add l r | Sub l r | Div l r => plain_operand l && plain_operand r
  | _ => false
  end.

(** Logarithms, roots and powers are only taken of plain operands. *)
Fixpoint plain_powers {A} (e : expr A) : bool :=
  match e with
  | Const _ | Var _ => true
  | Add l r | Sub l r | Mul l r | Div l r => plain_powers l && plain_powers r
  | Pow b p => plain_operand b && plain_powers b && plain_powers p
  | Ln a | Sqrt a => plain_operand a && plain_powers a
  | Exp a | Sin a | Cos a | Neg a => plain_powers a
  end.

(** [safe vars e]: wherever the simplifier meets a logarithm, a square root or a
    power of something it has turned into a power [b^p], that base is positive
    (for a root: not negative; for a power: not negative, or both exponents are
    integers).  This is exactly the situation in which
    ln(b^p) = p ln b, sqrt(b^2) = b and (b^p)^q = b^(pq). *)
Inductive safe {lg : R -> R} (vars : env (XR lg)) : expr (XR lg) -> Prop :=
| s_const c : safe vars (Const c)
| s_var x : safe vars (Var x)
| s_add l r : safe vars l -> safe vars r -> safe vars (Add l r)
| s_sub l r : safe vars l -> safe vars r -> safe vars (Sub l r)
| s_mul l r : safe vars l -> safe vars r -> safe vars (Mul l r)
| s_div l r : safe vars l -> safe vars r -> safe vars (Div l r)
| s_exp a : safe vars a -> safe vars (Exp a)
| s_sin a : safe vars a -> safe vars (Sin a)
| s_cos a : safe vars a -> safe vars (Cos a)
| s_neg a : safe vars a -> safe vars (Neg a)
| s_ln a : safe vars a ->
    (forall b p, simplify a = Pow b p -> exists v, denotes vars b v /\ 0 < v) ->
    safe vars (Ln a)
| s_sqrt a : safe vars a ->
    (forall b p, simplify a = Pow b p -> exists v, denotes vars b v /\ 0 <= v) ->
    safe vars (Sqrt a)
| s_pow b p : safe vars b -> safe vars p ->
    (forall ib ip, simplify b = Pow ib ip -> safe vars (Mul ip (simplify p))) ->
    (forall ib ip, simplify b = Pow ib ip ->
       exists v, denotes vars ib v /\
         (0 <= v \/ exists z1 z2, denotes vars ip (IZR z1) /\ denotes vars (simplify p) (IZR z2))) ->
    safe vars (Pow b p).
