(** Model of the text renderings in symbolic-math/src/expr.rs and lib.rs.
    Definitions only. *)
From Coq Require Import ZArith Bool String Ascii List.
From Verif Require Import Num ExprModel.
Import ListNotations.
Local Open Scope string_scope.

Section Show.
Context {N : Num}.
(** [show] is Rust's [Display for f64] ("{value}"). *)
Variable show : N -> string.

(** expr.rs 719-737 [Display for Expr]. *)
Fixpoint display (e : expr N) : string :=
  match e with
  | Const c => show c
  | Var x => x
  | Add l r => "(" ++ display l ++ " + " ++ display r ++ ")"
  | Sub l r => "(" ++ display l ++ " - " ++ display r ++ ")"
  | Mul l r => "(" ++ display l ++ " * " ++ display r ++ ")"
  | Div l r => "(" ++ display l ++ " / " ++ display r ++ ")"
  | Pow l r => "(" ++ display l ++ "^" ++ display r ++ ")"
  | Ln a => "ln(" ++ display a ++ ")"
  | Exp a => "exp(" ++ display a ++ ")"
  | Sqrt a => "sqrt(" ++ display a ++ ")"
  | Sin a => "sin(" ++ display a ++ ")"
  | Cos a => "cos(" ++ display a ++ ")"
  | Neg a => "(-" ++ display a ++ ")"
  end.

(** expr.rs 778-796 [Expr::to_python]. *)
Fixpoint to_python (e : expr N) : string :=
  match e with
  | Const c => show c
  | Var x => x
  | Add l r => "(" ++ to_python l ++ " + " ++ to_python r ++ ")"
  | Sub l r => "(" ++ to_python l ++ " - " ++ to_python r ++ ")"
  | Mul l r => "(" ++ to_python l ++ " * " ++ to_python r ++ ")"
  | Div l r => "(" ++ to_python l ++ " / " ++ to_python r ++ ")"
  | Pow l r => "(" ++ to_python l ++ " ** " ++ to_python r ++ ")"
  | Ln a => "math.log(" ++ to_python a ++ ")"
  | Exp a => "math.exp(" ++ to_python a ++ ")"
  | Sqrt a => "math.sqrt(" ++ to_python a ++ ")"
  | Sin a => "math.sin(" ++ to_python a ++ ")"
  | Cos a => "math.cos(" ++ to_python a ++ ")"
  | Neg a => "-(" ++ to_python a ++ ")"
  end.

(** [whole] is the test [value.fract() == 0.0 && value.abs() < 1e10] and
    [show_int] the text of [*value as i64] (expr.rs 744-750). *)
Variable whole : N -> bool.
Variable show_int : N -> string.

(** expr.rs 742-773 [Expr::to_latex]. *)
Fixpoint to_latex (e : expr N) : string :=
  match e with
  | Const c => if whole c then show_int c else show c
  | Var x => x
  | Add l r => to_latex l ++ " + " ++ to_latex r
  | Sub l r => to_latex l ++ " - " ++ to_latex r
  | Mul l r =>
      if is_lit n1 l then to_latex r
      else if is_lit nm1 l then "-" ++ to_latex r
      else match l, r with
           | Const _, Var _ => to_latex l ++ to_latex r
           | _, _ => to_latex l ++ " \cdot " ++ to_latex r
           end
  | Div l r => "\frac{" ++ to_latex l ++ "}{" ++ to_latex r ++ "}"
  | Pow l r => to_latex l ++ "^{" ++ to_latex r ++ "}"
  | Ln a => "\ln(" ++ to_latex a ++ ")"
  | Exp a => "e^{" ++ to_latex a ++ "}"
  | Sqrt a => "\sqrt{" ++ to_latex a ++ "}"
  | Sin a => "\sin(" ++ to_latex a ++ ")"
  | Cos a => "\cos(" ++ to_latex a ++ ")"
  | Neg a => "-(" ++ to_latex a ++ ")"
  end.

(** lib.rs 299-315: [display::latex], [display::python], [display::equation]. *)
Definition lib_latex (e : expr N) : string := "$" ++ display e ++ "$".
Definition lib_python (e : expr N) : string := "lambda vars: " ++ display e.
Definition lib_equation (lhs : string) (e : expr N) : string := lhs ++ " = " ++ display e.

(** [{:?}] of a [str]: quotes around the text, backslash escapes inside.  Bytes
    outside printable ASCII are left as they are (Rust writes some characters
    as \u{..}, which is equally unambiguous). *)
Definition esc_char (c : ascii) : string :=
  if Ascii.eqb c """" then "\"""
  else if Ascii.eqb c "\" then "\\"
  else String c "".
Fixpoint esc (s : string) : string :=
  match s with
  | EmptyString => ""
  | String c s' => esc_char c ++ esc s'
  end.
Definition debug_str (s : string) : string := """" ++ esc s ++ """".

(** [dbg] is Rust's [Debug for f64]. *)
Variable dbg : N -> string.

(** [{vars:?}] of a [HashMap<String, f64>] (expr.rs 587), in iteration order. *)
Fixpoint debug_entries (m : env N) : string :=
  match m with
  | [] => "}"
  | (k, v) :: m' => debug_str k ++ ": " ++ dbg v ++
      match m' with [] => "}" | _ => ", " ++ debug_entries m' end
  end.
Definition debug_env (m : env N) : string := "{" ++ debug_entries m.
End Show.
