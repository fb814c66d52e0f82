(** Magnitudes against which the errors of the exponential-family paths are
    measured (C60, C61). *)
From Coq Require Import ZArith Reals List.
From Flocq Require Import Core.
From Verif Require Import Num EggSpec FloatErr RoundSpec.
Local Open Scope R_scope.

(** Moderate sizes: 2^-400 and 2^400. *)
Definition moderate (a : R) : Prop := bpow radix2 (-400) <= a <= bpow radix2 400.
Definition at_most_moderate (a : R) : Prop := Rabs a <= bpow radix2 400.

(** The normal family path adds terms of the size of (mu/sd)^2 and (x/sd)^2;
    the direct path only ((x - mu)/sd)^2. *)
Definition family_scale (mu sd x : R) : R := (mu / sd) ^ 2 + (x / sd) ^ 2 + Rabs (ln sd) + 2.

(** The natural parameter of a probability. *)
Definition logit_of (p : R) : R := ln (p / (1 - p)).

(** The size of the terms in Stirling's series for ln k!. *)
Definition fact_scale (k : nat) : R := (INR k + 1) * (ln (INR k + 1) + 1) + 3.

(** The path through the natural parameter of a probability [p] exponentiates
    it, which turns its absolute error into a relative one: units of rounding
    lost by exp(logit p), by the whole density, and by the density of the
    negative binomial, which also subtracts a sigmoid from one. *)
Definition odds_scale (p : R) : R := Rabs (logit_of p) + 1.
Definition odds_units (c p : R) : R := 4 * c + 2 * (c + 4) * odds_scale p.
Definition family_units (c p : R) : R := c + 2 * (odds_units c p + 1) + 6.
Definition neg_units (c p : R) : R := c + 28 * (2 * odds_units c p + 3) + 4.

(** The same for [n] + 1 categories with probabilities at least 2^-400. *)
Definition categorical_units (c n : R) : R := c + 4 * (4 * c + 560 * (c + 2) + n + 1) + 3.
