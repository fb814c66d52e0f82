(** What accuracy in binary64 means (C53-C55): how good the platform's math
    library is assumed to be, and error bounds for evaluated expressions. *)
From Coq Require Import ZArith Reals Bool String List.
From Coq Require Import Floats.SpecFloat.
From Flocq Require Import Core.
From Verif Require Import Num ExprModel EggSpec FloatErr AccSpec DensitySpec.
Import ListNotations.
Local Open Scope R_scope.

(** The distance from 1 to the next binary64 number. *)
Definition eps : R := / 2 ^ 52.

(** Allowance for results that underflow. *)
Definition small : R := bpow radix2 (-1000).

(** [w] is a finite binary64 number within [k] times [eps] of [r], relative to
    the magnitude [m]. *)
Definition within (k m r : R) (w : f64) : Prop := is_num w /\ Rabs (val w - r) <= k * eps * m.

(** A math library whose functions err by at most [c] times [eps] relative to
    the result (sine and cosine: absolutely; log-gamma: relative to
    [1 + |result|]), as long as the result does not overflow.  A correctly
    rounded library has [c = 1]. *)
Record libm_ok (c : R) (lg : R -> R) (L : libm) : Prop := {
  ok_ln : forall x, is_num x -> 0 < val x ->
    is_num (l_ln L x) /\ Rabs (val (l_ln L x) - ln (val x)) <= c * eps * (Rabs (ln (val x)) + small);
  ok_exp : forall x, is_num x -> val x <= 709 ->
    is_num (l_exp L x) /\ Rabs (val (l_exp L x) - exp (val x)) <= c * eps * (exp (val x) + small);
  ok_sin : forall x, is_num x -> is_num (l_sin L x) /\ Rabs (val (l_sin L x) - sin (val x)) <= c * eps;
  ok_cos : forall x, is_num x -> is_num (l_cos L x) /\ Rabs (val (l_cos L x) - cos (val x)) <= c * eps;
  ok_pow : forall x y r, is_num x -> is_num y -> power_is (val x) (val y) r ->
    Rabs r <= bpow radix2 1000 ->
    is_num (l_pow L x y) /\ Rabs (val (l_pow L x y) - r) <= c * eps * (Rabs r + small);
  ok_lgamma : forall x, is_num x -> 0 < val x -> Rabs (lg (val x)) <= bpow radix2 1000 ->
    is_num (l_lgamma L x) /\ Rabs (val (l_lgamma L x) - lg (val x)) <= c * eps * (1 + Rabs (lg (val x)))
}.

(** [eval_bound c rho e r d]: the exact value of [e] is [r], and [d] bounds the
    error that accumulates when every operation is rounded: half an ulp per
    arithmetic operation and square root, [c] units per library call. *)
Inductive eval_bound (c : R) (rho : string -> f64) : expr f64 -> R -> R -> Prop :=
| eb_const k : is_num k -> eval_bound c rho (Const k) (val k) 0
| eb_var x : is_num (rho x) -> eval_bound c rho (Var x) (val (rho x)) 0
| eb_add l r a b d e : eval_bound c rho l a d -> eval_bound c rho r b e ->
    no_overflow (Rabs (a + b) + (d + e)) -> eval_bound c rho (Add l r) (a + b) (step (Rabs (a + b)) (d + e))
| eb_sub l r a b d e : eval_bound c rho l a d -> eval_bound c rho r b e ->
    no_overflow (Rabs (a - b) + (d + e)) -> eval_bound c rho (Sub l r) (a - b) (step (Rabs (a - b)) (d + e))
| eb_mul l r a b d e : eval_bound c rho l a d -> eval_bound c rho r b e ->
    let d' := d * Rabs b + Rabs a * e + d * e in
    no_overflow (Rabs (a * b) + d') -> eval_bound c rho (Mul l r) (a * b) (step (Rabs (a * b)) d')
| eb_div l r a b d e : eval_bound c rho l a d -> eval_bound c rho r b e -> e < Rabs b ->
    let d' := (d + Rabs (a / b) * e) / (Rabs b - e) in
    no_overflow (Rabs (a / b) + d') -> eval_bound c rho (Div l r) (a / b) (step (Rabs (a / b)) d')
| eb_neg e a d : eval_bound c rho e a d -> eval_bound c rho (Neg e) (- a) d
| eb_sqrt e a d : eval_bound c rho e a d -> 0 < a -> d <= a ->
    no_overflow (sqrt a + d / sqrt a) -> eval_bound c rho (Sqrt e) (sqrt a) (step (sqrt a) (d / sqrt a))
| eb_ln e a d : eval_bound c rho e a d -> 0 < a - d ->
    let d' := d / (a - d) in
    eval_bound c rho (Ln e) (ln a) (d' + c * eps * (Rabs (ln a) + d' + small))
| eb_exp e a d : eval_bound c rho e a d -> a + d <= 709 ->
    eval_bound c rho (Exp e) (exp a) (exp a * (exp d * (1 + c * eps) - 1) + c * eps * small)
| eb_sin e a d : eval_bound c rho e a d -> eval_bound c rho (Sin e) (sin a) (d + c * eps)
| eb_cos e a d : eval_bound c rho e a d -> eval_bound c rho (Cos e) (cos a) (d + c * eps)
| eb_pow_int b k n a d : eval_bound c rho b a d -> is_num k -> val k = INR n ->
    let m := (Rabs a + d) ^ n in
    let d' := m - Rabs a ^ n in
    no_overflow m ->
    eval_bound c rho (Pow b (Const k)) (a ^ n) (d' + c * eps * (m + small))
| eb_pow_half b k a d : eval_bound c rho b a d -> is_num k -> val k = / 2 -> 0 < a -> d <= a ->
    let d' := d / sqrt a in
    no_overflow (sqrt a + d') ->
    eval_bound c rho (Pow b (Const k)) (sqrt a) (d' + c * eps * (sqrt a + d' + small))
| eb_pow_pos b p a q d e : eval_bound c rho b a d -> eval_bound c rho p q e -> 0 < a - d ->
    let s := e * Rabs (ln a) + (Rabs q + e) * (d / (a - d)) in
    q * ln a + s <= 690 ->
    eval_bound c rho (Pow b p) (Rpower a q) (Rpower a q * (exp s * (1 + c * eps) - 1) + c * eps * small)
| eb_weaken e r d d' : eval_bound c rho e r d -> d <= d' -> eval_bound c rho e r d'.

(** The bindings of a call; a name without one has no value (NaN stands for it,
    and [eval_bound] never uses NaN). *)
Definition value_of (vars : env f64) (x : string) : f64 :=
  match get vars x with Some v => v | None => S754_nan end.
Definition single_value (name : string) (v : f64) (x : string) : f64 :=
  if String.eqb x name then v else S754_nan.

(** Limits below which nothing overflows. *)
Definition big : R := bpow radix2 1000.
Definition huge : R := bpow radix2 900.
(** A count small enough to be exact and to keep error bounds below 1. *)
Definition count_ok (k : nat) : Prop := INR k <= bpow radix2 40.

(** Magnitudes against which the errors of sums are measured. *)
Definition sum_size (xs : list f64) : R := Rsum (map (fun x => Rabs (val x)) xs).
Definition pair_size (p : f64 * f64) : R := Rabs (val (fst p)) * Rabs (val (snd p)) + small.
Definition dot_size (a b : list f64) : R := Rsum (map pair_size (combine a b)).
Definition padded (l : list f64) : list R := map (fun a => Rabs (val a) + small) l.
(** Row [i] of a row-major matrix paired with the vector. *)
Definition row (A x : list f64) (i : nat) : list (f64 * f64) :=
  map (fun j => (nth (i * length x + j) A (f64_of_Z 0), nth j x (f64_of_Z 0))) (seq 0 (length x)).
(** The logarithm of a sum of exponentials. *)
Definition log_total (l : list R) : R := ln (Rsum (map exp l)).
(** The magnitude of a normal log-density. *)
Definition normal_scale (mu sd x : f64) : R := let z := (val x - val mu) / val sd in z * z + Rabs (ln (val sd)) + 2.
