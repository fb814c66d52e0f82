(** What it means for a measure to be the distribution with a given density, in
    the words of the standard interface (in_support, log-density). *)
From Coq Require Import Reals.
From Verif Require Import Num CoreModel.
Local Open Scope R_scope.

(** On the points [pt p]: inside [S] the measure reports support and the
    logarithm of the positive number [f p]; outside it reports no support and
    minus infinity. *)
Definition has_density {P T} (lg : R -> R) (pt : P -> T) (b : Base (XR lg) T) (S : P -> Prop) (f : P -> R) : Prop :=
  (forall p, S p -> b_support b (pt p) = true /\ 0 < f p /\ b_ld b (pt p) = Fin (ln (f p))) /\
  (forall p, ~ S p -> b_support b (pt p) = false /\ b_ld b (pt p) = NInf).

(** A real number as a sample; a natural number is itself. *)
Definition real (lg : R -> R) (x : R) : num (XR lg) := Fin x.
Definition count (k : nat) : nat := k.
