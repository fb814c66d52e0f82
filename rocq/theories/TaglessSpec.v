(** Expressions written against the final-tagless interface, as syntax, and
    what their interpretations should be. *)
From Coq Require Import ZArith Reals Bool String Ascii List.
From Verif Require Import Num ExprModel ExprSpec DensitySpec TaglessModel.
Import ListNotations.
Local Open Scope list_scope.

(** A function generic in the interpreter can only combine its inputs ([TArg])
    with the operations of the interface. *)
Inductive term (T : Type) :=
| TArg (i : nat) | TVar (x : string) | TConst (c : T)
| TAdd (l r : term T) | TSub (l r : term T) | TMul (l r : term T) | TDiv (l r : term T)
| TPow (l r : term T) | TNeg (a : term T) | TLn (a : term T) | TExp (a : term T)
| TSqrt (a : term T) | TSin (a : term T) | TCos (a : term T).
Arguments TArg {T}. Arguments TVar {T}. Arguments TConst {T}. Arguments TAdd {T}.
Arguments TSub {T}. Arguments TMul {T}. Arguments TDiv {T}. Arguments TPow {T}.
Arguments TNeg {T}. Arguments TLn {T}. Arguments TExp {T}. Arguments TSqrt {T}.
Arguments TSin {T}. Arguments TCos {T}.

(** The function on given inputs, in an interpreter. *)
Fixpoint interpret {N : Num} (E : MathExpr N) (args : nat -> Repr E) (t : term N) : Repr E :=
  match t with
  | TArg i => args i
  | TVar x => e_var E x
  | TConst c => e_constant E c
  | TAdd l r => e_add E (interpret E args l) (interpret E args r)
  | TSub l r => e_sub E (interpret E args l) (interpret E args r)
  | TMul l r => e_mul E (interpret E args l) (interpret E args r)
  | TDiv l r => e_div E (interpret E args l) (interpret E args r)
  | TPow l r => e_pow E (interpret E args l) (interpret E args r)
  | TNeg a => e_neg E (interpret E args a)
  | TLn a => e_ln E (interpret E args a)
  | TExp a => e_exp E (interpret E args a)
  | TSqrt a => e_sqrt E (interpret E args a)
  | TSin a => e_sin E (interpret E args a)
  | TCos a => e_cos E (interpret E args a)
  end.

(** The syntax is itself an interpreter. *)
Definition Syntax (N : Num) : MathExpr N :=
  mkMathExpr N (term N) TConst TVar TAdd TSub TMul TDiv TPow TNeg TLn TExp TSqrt TSin TCos.

(** No variable is created by name: all inputs are arguments. *)
Fixpoint closed {T} (t : term T) : Prop :=
  match t with
  | TArg _ | TConst _ => True
  | TVar _ => False
  | TAdd l r | TSub l r | TMul l r | TDiv l r | TPow l r => closed l /\ closed r
  | TNeg a | TLn a | TExp a | TSqrt a | TSin a | TCos a => closed a
  end.
(** The inputs used. *)
Fixpoint inputs {T} (t : term T) : list nat :=
  match t with
  | TArg i => [i]
  | TVar _ | TConst _ => []
  | TAdd l r | TSub l r | TMul l r | TDiv l r | TPow l r => inputs l ++ inputs r
  | TNeg a | TLn a | TExp a | TSqrt a | TSin a | TCos a => inputs a
  end.
(** +, -, *, /, negation and square root only. *)
Fixpoint rounded_ops {T} (t : term T) : Prop :=
  match t with
  | TArg _ | TConst _ | TVar _ => True
  | TAdd l r | TSub l r | TMul l r | TDiv l r => rounded_ops l /\ rounded_ops r
  | TNeg a | TSqrt a => rounded_ops a
  | _ => False
  end.

(** The expression tree a function denotes when input [i] is the variable
    [names i]. *)
Definition tree {N : Num} (names : nat -> string) (t : term N) : expr N :=
  interpret JITEval (fun i => Var (names i)) t.

(** Input [i] is named by the [i]-th of [ds ++ ps]. *)
Definition slot_name (ds ps : list string) (i : nat) : string := nth i (ds ++ ps) EmptyString.

(** No operand of + is a literal zero, none of * a literal zero or one. *)
Fixpoint no_units {N : Num} (e : expr N) : Prop :=
  match e with
  | Const _ | Var _ => True
  | Add l r => is_lit n0 l = false /\ is_lit n0 r = false /\ no_units l /\ no_units r
  | Mul l r => is_lit n0 l = false /\ is_lit n0 r = false /\ is_lit n1 l = false /\ is_lit n1 r = false /\
               no_units l /\ no_units r
  | Sub l r | Div l r | Pow l r => no_units l /\ no_units r
  | Ln a | Exp a | Sqrt a | Sin a | Cos a | Neg a => no_units a
  end.

(** Removes the spaces around "^". *)
Fixpoint tighten (s : list ascii) : list ascii :=
  match s with
  | a :: ((b :: (c :: s2)) as s1) =>
      if Ascii.eqb a " " && Ascii.eqb b "^" && Ascii.eqb c " " then "^"%char :: tighten s2
      else a :: tighten s1
  | _ => s
  end.

Local Open Scope R_scope.
(** Product of [x - r] over the roots. *)
Definition root_product (roots : list R) (x : R) : R :=
  fold_right (fun r acc => (x - r) * acc) 1 roots.
(** Sum of products. *)
Definition inner (a b : list R) : R := fold_right Rplus 0 (map (fun p => fst p * snd p) (combine a b)).
Definition total_of (l : list R) : R := fold_right Rplus 0 l.
(** Componentwise sum of vectors of length [d]. *)
Definition vsum (d : nat) (vs : list (list R)) : list R :=
  map (fun j => total_of (map (fun v => nth j v 0) vs)) (seq 0 d).
