(** Vocabulary for the combinators in binary64 (C59). *)
From Coq Require Import ZArith Reals List.
From Coq Require Import Floats.SpecFloat.
From Flocq Require Import Core.
From Verif Require Import Num EggSpec FloatErr AccSpec RoundSpec DensitySpec.
Import ListNotations.
Local Open Scope R_scope.

(** [w] is a finite number at most [d] away from [r]. *)
Definition close (d r : R) (w : f64) : Prop := is_num w /\ Rabs (val w - r) <= d.

(** The logistic function. *)
Definition logistic (y : R) : R := exp y / (1 + exp y).

(** Log-density of the log-normal distribution: [ln x] is normal. *)
Definition lognormal_pdf (mu sd y : R) : R := normal_pdf mu sd (ln y) / y.

(** What the log of a weighted density costs: a logarithm of a weight, at most
    1075 in size, and one addition to a log-density of size at most [m] known up
    to [d]. *)
Definition term_error (c m d : R) : R := step (1075 + m) (d + c * eps * 1075).
