(** Vocabulary for custom log-densities and compilation statistics (C56, C57). *)
From Coq Require Import ZArith Bool String List.
From Verif Require Import Num ExprModel ExprSpec.
Import ListNotations.

(** [x] is the data variable: the only name of [e] that is not a parameter. *)
Definition data_variable {A} (x : string) (e : expr A) (ps : env A) : Prop :=
  occurs x e /\ get ps x = None /\ forall y, occurs y e -> y <> x -> get ps y <> None.

(** [x] comes before every other name of [e] in byte order. *)
Definition first_name {A} (x : string) (e : expr A) : Prop :=
  occurs x e /\ forall y, occurs y e -> y <> x -> String.compare x y = Lt.

(** The nodes of an expression, in preorder. *)
Inductive node A := NConst (c : A) | NVar (x : string) | NBinary | NNeg | NFunction.
Arguments NConst {A}. Arguments NVar {A}. Arguments NBinary {A}. Arguments NNeg {A}. Arguments NFunction {A}.
Fixpoint nodes {A} (e : expr A) : list (node A) :=
  match e with
  | Const c => [NConst c]
  | Var x => [NVar x]
  | Add l r | Sub l r | Mul l r | Div l r | Pow l r => NBinary :: nodes l ++ nodes r
  | Neg a => NNeg :: nodes a
  | Ln a | Exp a | Sqrt a | Sin a | Cos a => NFunction :: nodes a
  end.
Definition is_const {A} (n : node A) := match n with NConst _ => true | _ => false end.
Definition is_leaf {A} (n : node A) := match n with NConst _ | NVar _ => true | _ => false end.
Definition is_binary {A} (n : node A) := match n with NBinary => true | _ => false end.
Definition is_neg {A} (n : node A) := match n with NNeg => true | _ => false end.
Definition is_function {A} (n : node A) := match n with NFunction => true | _ => false end.
Definition how_many {A} (p : node A -> bool) (e : expr A) : nat := List.length (filter p (nodes e)).

(** Only [+], [-], [*], [/] over literals and names. *)
Fixpoint arithmetic {A} (e : expr A) : Prop :=
  match e with
  | Const _ | Var _ => True
  | Add l r | Sub l r | Mul l r | Div l r => arithmetic l /\ arithmetic r
  | _ => False
  end.
