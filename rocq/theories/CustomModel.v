(** Model of the custom symbolic log-densities of symbolic-math/src/jit.rs
    (961-1009) and of the estimated speedup (1067-1076).  Definitions only. *)
From Coq Require Import ZArith Bool String List.
From Coq Require Import Floats.SpecFloat.
From Verif Require Import Num ExprModel JitModel.
Import ListNotations.

Section Custom.
Variable L : libm.

(** jit.rs 974-982 [CustomSymbolicLogDensity::new]. *)
Definition custom_new (e : expr f64) (ps : env f64) : custom_density :=
  mkCustom e ps (@variables (F64 L) e).

(** jit.rs 985-992 [evaluate]: the parameters, overridden by [vars]. *)
Definition custom_evaluate (s : custom_density) (vars : env f64) : res f64 f64 :=
  @evaluate (F64 L) (extend (cd_parameters s) vars) (cd_expression s).

(** jit.rs 995-1003 [evaluate_single]. *)
Definition custom_evaluate_single (s : custom_density) (x : string) (v : f64) : res f64 f64 :=
  @evaluate (F64 L) (insert (cd_parameters s) x v) (cd_expression s).

(** jit.rs 1006-1010 [simplify]: the list of variables is not recomputed. *)
Definition custom_simplify (s : custom_density) : custom_density :=
  mkCustom (@simplify (F64 L) (cd_expression s)) (cd_parameters s) (cd_variables s).
End Custom.

(** final_tagless.rs 1048-1056 [compile_with_constants]. *)
Definition compile_with_constants e ds ps cs := compile_final_tagless e ds ps cs.

(** [f64::min]: the other operand if one is NaN. *)
Definition f64_min (a b : f64) : f64 :=
  match a, b with
  | S754_nan, _ => b
  | _, S754_nan => a
  | _, _ => if SFltb b a then b else a
  end.

(** jit.rs 1069-1076 [estimate_speedup]. *)
Definition estimate_speedup (complexity : nat) : f64 :=
  let base_speedup := f64_of_Z 15 in
  let complexity_factor := f64_mul (f64_sqrt (f64_of_Z (Z.of_nat complexity))) (f64_of_Z 2) in
  f64_min (f64_add base_speedup complexity_factor) (f64_of_Z 100).

(** jit.rs 355 and 550: the [estimated_speedup] of a compiled expression and of
    a compiled final-tagless expression. *)
Definition expression_speedup (L : libm) (e : expr f64) : f64 := estimate_speedup (@complexity (F64 L) e).
Definition tagless_speedup (e : expr f64) : f64 := estimate_speedup (estimate_complexity e).
