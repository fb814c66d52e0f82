(** Monotone log-densities (C77). *)
From Coq Require Import ZArith Reals.
From Coq Require Import Floats.SpecFloat.
From Flocq Require Import Core.
From Verif Require Import Num EggSpec FloatErr SingleModel SingleSpec.
Local Open Scope R_scope.

(** The order of binary64: what the code's [<=] decides. *)
Definition at_most (a b : f64) : Prop := SFleb a b = true.

(** A logarithm that is zero at 1 and never decreases. *)
Definition ln_monotone (L : libm) : Prop :=
  val (l_ln L (f64_of_Z 1)) = 0 /\
  forall a b, is_num a -> is_num b -> 0 < val a <= val b -> at_most (l_ln L a) (l_ln L b).

(** The same for the single-precision logarithm. *)
Definition ln_monotone32 (L : libm32) : Prop :=
  val (s_ln L (f32_of_Z 1)) = 0 /\
  forall a b, is_single a -> is_single b -> 0 < val a <= val b -> at_most (s_ln L a) (s_ln L b).
