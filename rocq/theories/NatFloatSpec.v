(** Units of rounding lost by a trip through natural parameters (C62). *)
From Coq Require Import ZArith Reals List.
From Flocq Require Import Core.
From Verif Require Import Num EggSpec FloatErr RoundSpec FamFloatSpec.
Import ListNotations.
Local Open Scope R_scope.

(** Poisson: exp(ln rate). *)
Definition rate_units (c rate : R) : R := 4 * c + 2 * c * (Rabs (ln rate) + 1).
(** Bernoulli: the odds and one plus the odds, divided. *)
Definition prob_units (c p : R) : R := 2 * odds_units c p + 2.
(** Geometric: 1 - exp(ln(1 - p)). *)
Definition fail_units (c p : R) : R := 4 * c + 2 * (c + 2) * (Rabs (ln (1 - p)) + 1) + 1.
(** Categorical: exponentials good to [k] units, divided by one plus the sum of
    [n] of them. *)
Definition softmax_units (k n : R) : R := 3 * k + 2 * n + 3.

(** The softmax of natural parameters, the last category having parameter 0. *)
Definition softmax_total (eta : list R) : R := 1 + fold_right Rplus 0 (map exp eta).
Definition softmax (eta : list R) : list R := map (fun e => exp e / softmax_total eta) eta ++ [1 / softmax_total eta].
