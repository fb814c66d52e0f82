(** What automatic differentiation should return (C64). *)
From Coq Require Import ZArith Reals List.
From Verif Require Import Num DualModel TaglessSpec.
Import ListNotations.
Local Open Scope R_scope.

(** The dual number [d] holds the value and the derivative of [f] at [t]. *)
Definition carries (f : R -> R) (t : R) (d : xreal * xreal) : Prop :=
  exists l, d = (Fin (f t), Fin l) /\ derivable_pt_lim f t l.

(** [dg] is the derivative of log-gamma on positive numbers. *)
Definition digamma_of (lg dg : R -> R) : Prop := forall a, 0 < a -> derivable_pt_lim lg a (dg a).

(** The real function a generic program denotes, input [i] being [args i]. *)
Fixpoint real_of (t : term R) (args : nat -> R) : R :=
  match t with
  | TArg i => args i
  | TVar _ => 0
  | TConst c => c
  | TAdd l r => real_of l args + real_of r args
  | TSub l r => real_of l args - real_of r args
  | TMul l r => real_of l args * real_of r args
  | TDiv l r => real_of l args / real_of r args
  | TPow l r => Rpower (real_of l args) (real_of r args)
  | TNeg a => - real_of a args
  | TLn a => ln (real_of a args)
  | TExp a => exp (real_of a args)
  | TSqrt a => sqrt (real_of a args)
  | TSin a => sin (real_of a args)
  | TCos a => cos (real_of a args)
  end.
(** No input is on the edge of a domain. *)
Fixpoint smooth_at (t : term R) (args : nat -> R) : Prop :=
  match t with
  | TArg _ | TConst _ | TVar _ => True
  | TAdd l r | TSub l r | TMul l r => smooth_at l args /\ smooth_at r args
  | TDiv l r => smooth_at l args /\ smooth_at r args /\ real_of r args <> 0
  | TPow l r => smooth_at l args /\ smooth_at r args /\ 0 < real_of l args
  | TNeg a | TExp a | TSin a | TCos a => smooth_at a args
  | TLn a | TSqrt a => smooth_at a args /\ 0 < real_of a args
  end.
(** The same program with its constants as dual numbers. *)
Fixpoint dual_term (t : term R) : term (xreal * xreal) :=
  match t with
  | TArg i => TArg i
  | TVar x => TVar x
  | TConst c => TConst (Fin c, Fin 0)
  | TAdd l r => TAdd (dual_term l) (dual_term r)
  | TSub l r => TSub (dual_term l) (dual_term r)
  | TMul l r => TMul (dual_term l) (dual_term r)
  | TDiv l r => TDiv (dual_term l) (dual_term r)
  | TPow l r => TPow (dual_term l) (dual_term r)
  | TNeg a => TNeg (dual_term a)
  | TLn a => TLn (dual_term a)
  | TExp a => TExp (dual_term a)
  | TSqrt a => TSqrt (dual_term a)
  | TSin a => TSin (dual_term a)
  | TCos a => TCos (dual_term a)
  end.
