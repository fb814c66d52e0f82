(** Log-densities at extreme arguments (C76). *)
From Coq Require Import ZArith Reals.
From Coq Require Import Floats.SpecFloat.
From Flocq Require Import Core.
From Verif Require Import Num EggSpec FloatErr.
Local Open Scope R_scope.

Definition pinf : f64 := S754_infinity false.
Definition ninf : f64 := S754_infinity true.

(** What a log-density may be: a finite number or minus infinity; not NaN and not
    plus infinity. *)
Definition proper (r : f64) : Prop := is_num r \/ r = ninf.

(** Every binary64 value except NaN. *)
Definition not_nan (x : f64) : Prop := is_num x \/ x = pinf \/ x = ninf.

(** The logarithm at the ends of its domain (C99, annex F). *)
Definition ln_edges (L : libm) : Prop :=
  l_ln L pinf = pinf /\ (forall s, l_ln L (S754_zero s) = ninf).

(** [lg] has the size of log-gamma on moderate arguments. *)
Definition lg_moderate (lg : R -> R) : Prop :=
  forall t, bpow radix2 (-1074) <= t <= bpow radix2 880 -> Rabs (lg t) <= bpow radix2 900.

(** The exponential at the ends: zero at minus infinity, plus infinity at plus
    infinity, and above 709 a non-negative number or plus infinity. *)
Definition exp_edges (L : libm) : Prop :=
  l_exp L ninf = S754_zero false /\ l_exp L pinf = pinf /\
  (forall x, is_num x -> 709 < val x -> (is_num (l_exp L x) /\ 0 <= val (l_exp L x)) \/ l_exp L x = pinf).
