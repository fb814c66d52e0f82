(** The sub-expressions of an expression and the exponent values at which the
    emitted exponential traps, for C71. *)
From Coq Require Import ZArith Reals Bool String List.
From Coq Require Import Floats.SpecFloat.
From Verif Require Import Num ExprModel ConvModel JitModel.
Import ListNotations.

(** [a] is [e] or one of its sub-expressions. *)
Inductive part_of {T : Type} (a : expr T) : expr T -> Prop :=
| Part_self : part_of a a
| Part_add_l l r : part_of a l -> part_of a (Add l r)
| Part_add_r l r : part_of a r -> part_of a (Add l r)
| Part_sub_l l r : part_of a l -> part_of a (Sub l r)
| Part_sub_r l r : part_of a r -> part_of a (Sub l r)
| Part_mul_l l r : part_of a l -> part_of a (Mul l r)
| Part_mul_r l r : part_of a r -> part_of a (Mul l r)
| Part_div_l l r : part_of a l -> part_of a (Div l r)
| Part_div_r l r : part_of a r -> part_of a (Div l r)
| Part_pow_l l r : part_of a l -> part_of a (Pow l r)
| Part_pow_r l r : part_of a r -> part_of a (Pow l r)
| Part_neg e : part_of a e -> part_of a (Neg e)
| Part_ln e : part_of a e -> part_of a (Ln e)
| Part_exp e : part_of a e -> part_of a (Exp e)
| Part_sqrt e : part_of a e -> part_of a (Sqrt e)
| Part_sin e : part_of a e -> part_of a (Sin e)
| Part_cos e : part_of a e -> part_of a (Cos e).

(** The literal exponents that are expanded into products or a square root. *)
Definition special_exponent (c : f64) : bool :=
  existsb (SFeqb c) [f64_of_Z 2; f64_of_Z 3; f64_of_Z 4; f64_lit 5 10; f64_of_Z 1; S754_zero false].

(** A power with one of those literals as its exponent. *)
Definition expanded (p : expr f64) : bool :=
  match p with Const c => special_exponent c | _ => false end.

(** No exponential and no power but the expanded ones. *)
Definition no_exponential (e : expr f64) : Prop :=
  forall a, part_of a e -> match a with Exp _ => False | Pow _ p => expanded p = true | _ => True end.

(** The least argument at which the emitted exponential traps, and the
    greatest negative one: 1488522235.909... = 2^31 * ln 2, within 2^-21. *)
Local Open Scope R_scope.
Definition trap_above : R := 6243314768165359 / 2 ^ 22.
Definition trap_below : R := - (6243314768165360 / 2 ^ 22).

(** Compiled with data variables [ds], parameters [ps] and constants [cs] and
    called with [args], the expression [e] gives [out]. *)
Definition gives (ds ps : list string) (cs : env f64) (args : list f64) (e : expr f64) (out : called) : Prop :=
  exists f, compile_expression e ds ps cs = JOk f /\ invoke f (map AFloat args) = out.
