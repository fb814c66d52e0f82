(** Specification vocabulary for the caches. *)
From Coq Require Import ZArith Bool String List Arith.
From Verif Require Import Num ExprModel ShowModel ShowSpec CacheModel.
Import ListNotations.

Section Spec.
Context {N : Num} (show dbg : N -> string).

(** Reached by [n] threads under some history and interleaving in which every
    call satisfies [allowed]. *)
Definition reachable (n : nat) (allowed : op (N := N) -> Prop) (s : state) : Prop :=
  exists acts, run show dbg (init n) acts = Some s /\
    forall t o, In (Call t o) acts -> allowed o.

(** All expressions and bindings use identifiers as names. *)
Definition plain_op (o : op (N := N)) : Prop :=
  match o with OpSimplify e | OpEvaluate e _ => names_ok identifier e | _ => True end.
Definition no_clear (o : op (N := N)) : Prop := o <> OpClear.

Definition quiescent (s : state (N := N)) : Prop := forall p, In p (threads s) -> p = Idle.

Definition is_simplify (e : event (N := N)) : bool :=
  match ev_op e with OpSimplify _ => true | _ => false end.
Definition is_evaluate (e : event (N := N)) : bool :=
  match ev_op e with OpEvaluate _ _ => true | _ => false end.
Definition is_clear (e : event (N := N)) : bool :=
  match ev_op e with OpClear => true | _ => false end.
Definition count {A} (f : A -> bool) (l : list A) : nat := length (filter f l).

(** The statistics agree with a list of finished calls. *)
Definition stats_of (l : list (event (N := N))) (c : cache_stats) : Prop :=
  s_hits c = count (fun e => is_simplify e && ev_cached e) l /\
  s_misses c = count (fun e => is_simplify e && negb (ev_cached e)) l /\
  e_hits c = count (fun e => is_evaluate e && ev_cached e) l /\
  e_misses c = count (fun e => is_evaluate e && negb (ev_cached e)) l.

(** The calls finished since the last clear (the log is latest first). *)
Fixpoint since_clear (l : list (event (N := N))) : list event :=
  match l with
  | [] => []
  | e :: l' => if is_clear e then [] else e :: since_clear l'
  end.

Definition stats_le (a b : cache_stats) : Prop :=
  s_hits a <= s_hits b /\ s_misses a <= s_misses b /\
  e_hits a <= e_hits b /\ e_misses a <= e_misses b.
End Spec.
