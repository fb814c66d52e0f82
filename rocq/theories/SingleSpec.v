(** What accuracy in single precision means (C72). *)
From Coq Require Import ZArith Reals Bool List.
From Coq Require Import Floats.SpecFloat.
From Flocq Require Import Core.
From Verif Require Import Num EggSpec AccSpec FloatErr SingleModel.
Local Open Scope R_scope.

(** A finite binary32 number; [val] is its value. *)
Definition is_single (x : f32) : Prop := SpecFloat.valid_binary 24 128 x = true /\ finite x.

(** The distance from 1 to the next binary32 number. *)
Definition eps32 : R := / 2 ^ 23.
(** Allowance for results that underflow. *)
Definition small32 : R := bpow radix2 (-100).
(** Limits below which nothing overflows. *)
Definition big32 : R := bpow radix2 120.
Definition huge32 : R := bpow radix2 90.
(** A count small enough to be exact and to keep error bounds below 1. *)
Definition count32_ok (k : nat) : Prop := INR k <= bpow radix2 20.

(** [w] is a finite binary32 number within [k] times [eps32] of [r], relative to
    the magnitude [m]. *)
Definition within32 (k m r : R) (w : f32) : Prop := is_single w /\ Rabs (val w - r) <= k * eps32 * m.

(** A math library whose single-precision functions err by at most [c] times
    [eps32] relative to the result (log-gamma, computed in [f64] and converted:
    relative to [1 + |result|]). *)
Record libm32_ok (c : R) (lg : R -> R) (L : libm32) : Prop := {
  ok32_ln : forall x, is_single x -> 0 < val x ->
    is_single (s_ln L x) /\ Rabs (val (s_ln L x) - ln (val x)) <= c * eps32 * (Rabs (ln (val x)) + small32);
  ok32_exp : forall x, is_single x -> val x <= 88 ->
    is_single (s_exp L x) /\ Rabs (val (s_exp L x) - exp (val x)) <= c * eps32 * (exp (val x) + small32);
  ok32_lgamma : forall x, is_single x -> 0 < val x -> Rabs (lg (val x)) <= big32 ->
    is_single (single_lgamma L x) /\ Rabs (val (single_lgamma L x) - lg (val x)) <= c * eps32 * (1 + Rabs (lg (val x)))
}.
