(** Binary32 log-densities at extreme arguments (C76). *)
From Coq Require Import ZArith Reals.
From Coq Require Import Floats.SpecFloat.
From Flocq Require Import Core.
From Verif Require Import Num EggSpec ExtSpec SingleModel SingleSpec.
Local Open Scope R_scope.

(** [proper], [not_nan] and [ln_edges] of ExtSpec, in binary32. *)
Definition proper32 (r : f32) : Prop := is_single r \/ r = ninf.
Definition not_nan32 (x : f32) : Prop := is_single x \/ x = pinf \/ x = ninf.
Definition ln_edges32 (L : libm32) : Prop :=
  s_ln L pinf = pinf /\ (forall s, s_ln L (S754_zero s) = ninf).
