(** What accuracy of compiled code means: the real value of an expression, and
    a bound on the error of the compiled value, operation by operation (C17). *)
From Coq Require Import ZArith Reals Bool String List.
From Coq Require Import Floats.SpecFloat.
From Flocq Require Import Core.
From Verif Require Import Num ExprModel JitModel JitSpec EggSpec FloatErr.
Local Open Scope R_scope.

(** [power_is a q r]: [r] is [a] to the power [q]. *)
Inductive power_is (a q : R) : R -> Prop :=
| pow_positive : 0 < a -> power_is a q (Rpower a q)
| pow_integer n : q = INR n -> power_is a q (a ^ n)
| pow_half : q = / 2 -> 0 <= a -> power_is a q (sqrt a).

(** [real_is rho e r]: [e] has the real value [r] when variables stand for
    [rho]; no value at a pole or outside a domain. *)
Inductive real_is (rho : string -> R) : expr f64 -> R -> Prop :=
| re_const c : finite c -> real_is rho (Const c) (val c)
| re_var x : real_is rho (Var x) (rho x)
| re_add l r a b : real_is rho l a -> real_is rho r b -> real_is rho (Add l r) (a + b)
| re_sub l r a b : real_is rho l a -> real_is rho r b -> real_is rho (Sub l r) (a - b)
| re_mul l r a b : real_is rho l a -> real_is rho r b -> real_is rho (Mul l r) (a * b)
| re_div l r a b : real_is rho l a -> real_is rho r b -> b <> 0 -> real_is rho (Div l r) (a / b)
| re_neg e a : real_is rho e a -> real_is rho (Neg e) (- a)
| re_sqrt e a : real_is rho e a -> 0 <= a -> real_is rho (Sqrt e) (sqrt a)
| re_ln e a : real_is rho e a -> 0 < a -> real_is rho (Ln e) (ln a)
| re_exp e a : real_is rho e a -> real_is rho (Exp e) (exp a)
| re_sin e a : real_is rho e a -> real_is rho (Sin e) (sin a)
| re_cos e a : real_is rho e a -> real_is rho (Cos e) (cos a)
| re_pow b p a q r : real_is rho b a -> real_is rho p q -> power_is a q r -> real_is rho (Pow b p) r.

(** The error after rounding a value known to [d] whose exact magnitude is [m]. *)
Definition step (m d : R) : R := d + (m + d) / 2 ^ 53 + / IZR (2 ^ 300).
Definition no_overflow (m : R) : Prop := m <= bpow radix2 1000.

(** A power as the operations it is compiled to; [None] for the exponent 0. *)
Definition power_code (b p : expr f64) : option (expr f64) :=
  match p with
  | Const c =>
      if SFeqb c (f64_of_Z 2) then Some (Mul b b)
      else if SFeqb c (f64_of_Z 3) then Some (Mul (Mul b b) b)
      else if SFeqb c (f64_of_Z 4) then Some (Mul (Mul b b) (Mul b b))
      else if SFeqb c (f64_lit 5 10) then Some (Sqrt b)
      else if SFeqb c (f64_of_Z 1) then Some b
      else if SFeqb c (S754_zero false) then None
      else Some (Exp (Mul p (Ln b)))
  | _ => Some (Exp (Mul p (Ln b)))
  end.

(** [accurate rho e r d]: the exact value is [r], and [d] bounds the error that
    accumulates: half an ulp per arithmetic operation, 4e-12 absolute per
    logarithm, 3e-12 relative per exponential, the Taylor remainder per sine
    and cosine. *)
Inductive accurate (rho : string -> f64) : expr f64 -> R -> R -> Prop :=
| ac_const c : is_num c -> accurate rho (Const c) (val c) 0
| ac_var x : is_num (rho x) -> accurate rho (Var x) (val (rho x)) 0
| ac_add l r a b d e : accurate rho l a d -> accurate rho r b e ->
    no_overflow (Rabs (a + b) + (d + e)) -> accurate rho (Add l r) (a + b) (step (Rabs (a + b)) (d + e))
| ac_sub l r a b d e : accurate rho l a d -> accurate rho r b e ->
    no_overflow (Rabs (a - b) + (d + e)) -> accurate rho (Sub l r) (a - b) (step (Rabs (a - b)) (d + e))
| ac_mul l r a b d e : accurate rho l a d -> accurate rho r b e ->
    let d' := d * Rabs b + Rabs a * e + d * e in
    no_overflow (Rabs (a * b) + d') -> accurate rho (Mul l r) (a * b) (step (Rabs (a * b)) d')
| ac_div l r a b d e : accurate rho l a d -> accurate rho r b e -> e < Rabs b ->
    let d' := (d + Rabs (a / b) * e) / (Rabs b - e) in
    no_overflow (Rabs (a / b) + d') -> accurate rho (Div l r) (a / b) (step (Rabs (a / b)) d')
| ac_neg e a d : accurate rho e a d -> accurate rho (Neg e) (- a) d
| ac_sqrt e a d : accurate rho e a d -> 0 < a -> d <= a ->
    no_overflow (sqrt a + d / sqrt a) -> accurate rho (Sqrt e) (sqrt a) (step (sqrt a) (d / sqrt a))
| ac_ln e a d : accurate rho e a d -> bpow radix2 (-1022) <= a - d ->
    accurate rho (Ln e) (ln a) (4 / 10 ^ 12 + d / (a - d))
| ac_exp e a d : accurate rho e a d -> -708 <= a - d -> a + d <= 709 ->
    accurate rho (Exp e) (exp a) (exp a * (exp d * (1 + 3 / 10 ^ 12) - 1))
| ac_sin e a d : accurate rho e a d -> let m := Rabs a + d in m <= 4 ->
    accurate rho (Sin e) (sin a) (d + (m ^ 7 / 5040 + 34 / 10 ^ 13 * (m ^ 3 + m ^ 5) + / 10 ^ 13))
| ac_cos e a d : accurate rho e a d -> let m := Rabs a + d in m <= 2 ->
    accurate rho (Cos e) (cos a) (d + (m ^ 6 / 720 + 34 / 10 ^ 13 * m ^ 4 + / 10 ^ 14))
| ac_pow b p e r d : power_code b p = Some e -> accurate rho e r d -> accurate rho (Pow b p) r d
| ac_pow_zero b c a d : power_code b (Const c) = None -> accurate rho b a d -> accurate rho (Pow b (Const c)) 1 0
| ac_weaken e r d d' : accurate rho e r d -> d <= d' -> accurate rho e r d'.

(** The log-density of a normal distribution as a user writes it:
    -1/2 ((x - mu) / sigma)^2 - ln sigma - 0.9189385332046727. *)
Definition normal_log_density : expr f64 :=
  Sub (Sub (Mul (Const (f64_lit (-5) 10)) (Pow (Div (Sub (Var "x") (Var "mu")) (Var "sigma")) (Const (f64_of_Z 2))))
           (Ln (Var "sigma")))
      (Const (f64_lit 9189385332046727 10000000000000000)).
