(** Moderate sizes in single precision (C73). *)
From Coq Require Import ZArith Reals.
From Flocq Require Import Core.
Local Open Scope R_scope.

Definition moderate32 (a : R) : Prop := bpow radix2 (-40) <= a <= bpow radix2 40.
Definition at_most_moderate32 (a : R) : Prop := Rabs a <= bpow radix2 40.

(** Units lost by the family path of [n] + 1 categories with probabilities at
    least 2^-40. *)
Definition categorical_units32 (c n : R) : R := c + 4 * (4 * c + 58 * (c + 2) + n + 1) + 3.
