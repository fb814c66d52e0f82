(** Single precision.

    The distributions are generic in the numeric type ("Generic numeric types:
    Support for f64, f32, ..." src/lib.rs:8; tests construct [Normal<f32>] and
    [Cauchy<f32>]).  This file instantiates the model with [f32]. *)
From Coq Require Import ZArith Bool List.
From Coq Require Import Floats.SpecFloat.
From Verif Require Import Num ConvModel CombModel DistModel.

(** Canonical binary32 numbers. *)
Definition f32 := spec_float.
Definition f32_prec : Z := 24.
Definition f32_emax : Z := 128.

Definition f32_add := SFadd f32_prec f32_emax.
Definition f32_sub := SFsub f32_prec f32_emax.
Definition f32_mul := SFmul f32_prec f32_emax.
Definition f32_div := SFdiv f32_prec f32_emax.
Definition f32_sqrt := SFsqrt f32_prec f32_emax.

(** [x as f64] and [x as f32], which is what [to_f64] and [T::from] of
    num_traits do for the two types: exact and correctly rounded. *)
Definition widen (x : f32) : f64 := sf_convert f64_prec f64_emax x.
Definition narrow (x : f64) : f32 := sf_convert f32_prec f32_emax x.

(** The platform's math library: any functions on binary32 for the methods of
    [f32], and a binary64 library for the code that works in [f64]. *)
Record libm32 := mkLibm32 {
  s_ln : f32 -> f32; s_exp : f32 -> f32; s_pow : f32 -> f32 -> f32;
  s_sin : f32 -> f32; s_cos : f32 -> f32; s_double : libm }.

(** [T::from(k)] for an integer [k]: one rounding.  (poisson.rs:93-95 goes through
    [f64]; the results differ only for counts above 2^53, where [u64 as f64]
    rounds first.) *)
Definition f32_of_Z (z : Z) : f32 := binary_normalize f32_prec f32_emax z 0 false.
(** core/utils.rs:54-73 (float_constant) and [T::from(0.5)]: the [f64] literal
    converted to [f32]. *)
Definition f32_dec (m : Z) (d : positive) : f32 :=
  match d with
  | xH => f32_of_Z m
  | _ => narrow (f64_dec m d)
  end.
(** [T::from(PI)], and [f32::PI()] of [FloatConst], which is the same number. *)
Definition f32_pi : f32 := narrow f64_pi.
(** gamma.rs:132-142, beta.rs:150-159, chi_squared.rs:136-146 and 193-201:
    log-gamma is computed in [f64] and converted back. *)
Definition single_lgamma (L : libm32) (x : f32) : f32 := narrow (l_lgamma (s_double L) (widen x)).

Definition F32 (L : libm32) : Num :=
  {| num := f32; nadd := f32_add; nsub := f32_sub; nmul := f32_mul; ndiv := f32_div;
     npow := s_pow L; nneg := SFopp; nabs := SFabs; nln := s_ln L; nexp := s_exp L;
     nsqrt := f32_sqrt; nsin := s_sin L; ncos := s_cos L; nlgamma := single_lgamma L;
     neqb := SFeqb; nltb := SFltb; nleb := SFleb; ndec := f32_dec; npi := f32_pi;
     npinf := S754_infinity false; nninf := S754_infinity true; nnan := S754_nan |}.

(** student_t.rs:70-89 (log_pdf): parameter and point are converted to [f64], the
    density is computed there and the result converted back, so the instance
    [F32] of [student_log_pdf] is not used for it. *)
Definition student_log_pdf32 (L : libm32) (nu x : f32) : f32 :=
  narrow (student_log_pdf (@mkStudent (F64 (s_double L)) (widen nu)) (widen x)).
(** student_t.rs:117-121 (log_density_wrt_root). *)
Definition student_ld32 (L : libm32) (nu x : f32) : f32 := student_log_pdf32 L nu x.
(** beta.rs:115-124 (the log-partition): computed in [f64]. *)
Definition beta_partition32 (L : libm32) (a b : f32) : f32 :=
  let lgamma := l_lgamma (s_double L) in
  narrow (f64_sub (f64_add (lgamma (widen a)) (lgamma (widen b))) (lgamma (f64_add (widen a) (widen b)))).
(** binomial_coefficient.rs:61-80 and negative_binomial_coefficient.rs:60-76:
    computed in [f64]. *)
Definition log_binomial_coefficient32 (L : libm32) (n k : nat) : f32 :=
  if Nat.ltb n k then S754_infinity true
  else narrow (@log_binomial_coefficient (F64 (s_double L)) n k).
Definition log_negative_binomial_coefficient32 (L : libm32) (r x : nat) : f32 :=
  narrow (@log_negative_binomial_coefficient (F64 (s_double L)) r x).
