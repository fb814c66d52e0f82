(** Properties C01-C08, C14, C15: expressions, evaluators, simplifier. *)
From Coq Require Import ZArith Reals String List Bool Lra Lia Arith.
From Coq Require Import Floats.SpecFloat.
From Verif Require Import Num XRFacts ExprModel ExprSpec ExprEval ExprEval2 ExprSimplify
  ExprSimplify2 ExprSubst ExprWitness.
Import ListNotations.
Local Open Scope string_scope.
Local Open Scope list_scope.

(** * C01 *)
Theorem C01_depends_only_on_listed_variables :
  forall (N : Num) (e : expr N) (m1 m2 : env N),
  (forall x, In x (variables e) -> get m1 x = get m2 x) -> evaluate m1 e = evaluate m2 e.
Proof. exact C01_ext. Qed.
Print Assumptions C01_depends_only_on_listed_variables.

Theorem C01_undefined_is_listed_and_unbound :
  forall (N : Num) (e : expr N) (m : env N) x,
  evaluate m e = Err (UndefinedVariable x) -> In x (variables e) /\ get m x = None.
Proof. exact C01_undefined. Qed.
Print Assumptions C01_undefined_is_listed_and_unbound.

Theorem C01_all_bound_never_undefined :
  forall (N : Num) (e : expr N) (m : env N),
  (forall x, In x (variables e) -> get m x <> None) ->
  forall x, evaluate m e <> Err (UndefinedVariable x).
Proof. exact C01_bound. Qed.
Print Assumptions C01_all_bound_never_undefined.

Theorem C01_missing_variable_is_error :
  forall (N : Num) (e : expr N) (m : env N) x,
  no_zero_factor e = true -> In x (variables e) -> get m x = None ->
  exists err, evaluate m e = Err err.
Proof. exact C01_missing. Qed.
Print Assumptions C01_missing_variable_is_error.

(** The zero-factor shortcut really hides a missing variable. *)
Theorem C01_zero_factor_hides_missing_variable_refuted :
  exists (e : expr (F64 some_libm)) x, In x (variables e) /\ get [] x = @None f64 /\
    evaluate [] e = Ok n0.
Proof. exact C01_hidden. Qed.
Print Assumptions C01_zero_factor_hides_missing_variable_refuted.

Example C01_case (L : libm) :
  variables (Add (Var "y") (Mul (Var "x") (Var "y")) : expr (F64 L)) = ["x"; "y"] /\
  no_zero_factor (Add (Var "y") (Mul (Var "x") (Var "y")) : expr (F64 L)) = true /\
  evaluate [("y", n1)] (Add (Var "y") (Mul (Var "x") (Var "y")) : expr (F64 L))
    = Err (UndefinedVariable "x").
Proof. repeat split. Qed.

(** * C02 *)
Theorem C02_evaluators_agree_without_zero_factors :
  forall lg (e : expr (XR lg)) x (v : XR lg),
  no_zero_factor e = true -> evaluate [(x, v)] e = evaluate_single_var x v e.
Proof. exact C02_agree. Qed.
Print Assumptions C02_evaluators_agree_without_zero_factors.

Theorem C02_single_success_is_evaluate_success :
  forall lg (e : expr (XR lg)) x (v w : XR lg),
  (forall s q, In s (subexprs e) -> evaluate_single_var x v s = Ok q -> exists r, q = Fin r) ->
  evaluate_single_var x v e = Ok w -> evaluate [(x, v)] e = Ok w.
Proof. exact C02_single_ok. Qed.
Print Assumptions C02_single_success_is_evaluate_success.

Theorem C02_both_compute_the_mathematical_value :
  forall lg (e : expr (XR lg)) x (v r : R),
  denotes [(x, (Fin v : XR lg))] e r ->
  evaluate [(x, (Fin v : XR lg))] e = Ok (Fin r) /\ evaluate_single_var x (Fin v : XR lg) e = Ok (Fin r).
Proof. exact C02_denotes. Qed.
Print Assumptions C02_both_compute_the_mathematical_value.

Theorem C02_denotes_is_all_parts_finite :
  forall lg (vars : env (XR lg)) (e : expr (XR lg)) r,
  denotes vars e r <->
  evaluate vars e = Ok (Fin r) /\
  (forall s, In s (subexprs e) -> exists q, evaluate vars s = Ok (Fin q)).
Proof. exact denotes_iff. Qed.
Print Assumptions C02_denotes_is_all_parts_finite.

(** On binary64, for every math library: a literal zero factor hides an error,
    hides an infinite factor, and a literal zero summand keeps the sign of zero. *)
Theorem C02_binary64_refuted :
  forall L : libm,
  (exists (e : expr (F64 L)) x v r err,
     evaluate [(x, v)] e = Ok r /\ evaluate_single_var x v e = Err err) /\
  (exists (e : expr (F64 L)) x v,
     evaluate [(x, v)] e = Ok (S754_zero false) /\ evaluate_single_var x v e = Ok S754_nan) /\
  (exists (e : expr (F64 L)) x v,
     evaluate [(x, v)] e = Ok (S754_zero true) /\
     evaluate_single_var x v e = Ok (S754_zero false)).
Proof. exact C02_refuted. Qed.
Print Assumptions C02_binary64_refuted.

Example C02_case lg :
  no_zero_factor (Add (Ln (Var "x")) (Pow (Var "x") (Const (Fin 2%R : XR lg)))) = true /\
  denotes [("x", (Fin 1%R : XR lg))] (Add (Ln (Var "x")) (Pow (Var "x") (Const (Fin 2%R : XR lg))))
          (ln 1 + Rpower 1 2).
Proof. split; [reflexivity|]. repeat (constructor; try reflexivity; try lra). Qed.

(** * C03 *)
Theorem C03_batch_is_pointwise :
  forall (N : Num) (e : expr N) x vs,
  pointwise (fun v => evaluate [(x, v)] e) vs (evaluate_batch e x vs).
Proof. exact @evaluate_batch_pw. Qed.
Print Assumptions C03_batch_is_pointwise.

Theorem C03_batch_vars_is_pointwise :
  forall (N : Num) (e : expr N) sets,
  pointwise (fun m => evaluate m e) sets (evaluate_batch_vars e sets).
Proof. exact @evaluate_batch_vars_pw. Qed.
Print Assumptions C03_batch_vars_is_pointwise.

Theorem C03_grid_is_pointwise :
  forall (N : Num) (e : expr N) x xs y ys,
  exists row : N -> res N (list N),
    (forall w, pointwise (fun v => evaluate [(x, v); (y, w)] e) xs (row w)) /\
    pointwise row ys (evaluate_grid e x xs y ys).
Proof. exact @evaluate_grid_pw. Qed.
Print Assumptions C03_grid_is_pointwise.

Theorem C03_batch_index :
  forall (N : Num) (e : expr N) x vs rs, evaluate_batch e x vs = Ok rs ->
  length rs = length vs /\
  forall i v, nth_error vs i = Some v ->
    exists r, nth_error rs i = Some r /\ evaluate [(x, v)] e = Ok r.
Proof. exact C03_index. Qed.
Print Assumptions C03_batch_index.

Theorem C03_grid_index :
  forall (N : Num) (e : expr N) x xs y ys rows, evaluate_grid e x xs y ys = Ok rows ->
  length rows = length ys /\
  forall j w, nth_error ys j = Some w ->
    exists row, nth_error rows j = Some row /\ length row = length xs /\
      forall i v, nth_error xs i = Some v ->
        exists r, nth_error row i = Some r /\ evaluate [(x, v); (y, w)] e = Ok r.
Proof. exact C03_gindex. Qed.
Print Assumptions C03_grid_index.

Example C03_case (L : libm) :
  evaluate_grid (Sub (Var "x") (Var "y") : expr (F64 L)) "x" [n1; n2] "y" [n0; n1] =
    Ok [[n1; n2]; [n0; n1]] /\
  evaluate_batch (Div (Const n1) (Var "x") : expr (F64 L)) "x" [n1; n0; n1] = Err DivisionByZero.
Proof. split; vm_compute; reflexivity. Qed.

(** * C04 *)
Theorem C04_optimised_batch_agrees :
  forall lg (e : expr (XR lg)) x vs,
  (forall y, In y (variables e) -> y = x) -> no_zero_factor e = true ->
  evaluate_batch_optimized e x vs = evaluate_batch e x vs.
Proof. exact C04_agree. Qed.
Print Assumptions C04_optimised_batch_agrees.

(** What it does in general: variables other than the batch variable count as 0. *)
Theorem C04_optimised_batch_is :
  forall (N : Num) (e : expr N) x vs,
  pointwise (fun v => if list_eq_dec string_dec (variables e) [x]
                      then evaluate_single_var x v e
                      else evaluate ((x, v) :: map (fun y => (y, n0)) (variables e)) e)
            vs (evaluate_batch_optimized e x vs).
Proof. exact @batch_optimized_pw. Qed.
Print Assumptions C04_optimised_batch_is.

Theorem C04_unbound_variable_refuted :
  forall L : libm, exists (e : expr (F64 L)) x vs rs,
    evaluate_batch_optimized e x vs = Ok rs /\
    exists y, evaluate_batch e x vs = Err (UndefinedVariable y).
Proof. exact C04_refuted. Qed.
Print Assumptions C04_unbound_variable_refuted.

Theorem C04_zero_factor_refuted :
  forall L : libm, exists (e : expr (F64 L)) x vs rs,
    (forall y, In y (variables e) -> y = x) /\
    evaluate_batch e x vs = Ok rs /\ exists err, evaluate_batch_optimized e x vs = Err err.
Proof. exact C04_refuted2. Qed.
Print Assumptions C04_zero_factor_refuted.

Example C04_case lg :
  variables (Add (Ln (Var "x")) (Var "x") : expr (XR lg)) = ["x"] /\
  no_zero_factor (Add (Ln (Var "x")) (Var "x") : expr (XR lg)) = true.
Proof. split; reflexivity. Qed.

(** * C05 *)
Theorem C05_linear_agrees :
  forall lg (e : expr (XR lg)) x v w, finite_consts e ->
  evaluate_linear x (Fin v : XR lg) e = Some w -> evaluate_single_var x (Fin v : XR lg) e = Ok w.
Proof. exact evaluate_linear_sound. Qed.
Print Assumptions C05_linear_agrees.

(** Bit for bit on binary64, for every math library. *)
Theorem C05_polynomial_agrees_binary64 :
  forall (L : libm) (e : expr (F64 L)) x v w,
  evaluate_polynomial x v e = Some w -> evaluate_single_var x v e = Ok w.
Proof. exact C05_poly. Qed.
Print Assumptions C05_polynomial_agrees_binary64.

Theorem C05_smart_agrees :
  forall lg (e : expr (XR lg)) x v, finite_consts e ->
  evaluate_smart x (Fin v : XR lg) e = evaluate_single_var x (Fin v : XR lg) e.
Proof. exact evaluate_smart_agrees. Qed.
Print Assumptions C05_smart_agrees.

(** (x + 1e16) - 1e16 at 1: reassociation changes the binary64 result. *)
Theorem C05_smart_rounding_refuted :
  forall L : libm, exists (e : expr (F64 L)) x,
    evaluate_smart x n1 e = Ok n1 /\ evaluate_single_var x n1 e = Ok n0.
Proof. exact C05_refuted. Qed.
Print Assumptions C05_smart_rounding_refuted.

(** At an infinite point the constant 1 is answered with NaN. *)
Theorem C05_smart_infinite_point_refuted :
  forall L : libm, exists (e : expr (F64 L)) x,
    evaluate_smart x npinf e = Ok nnan /\ evaluate_single_var x npinf e = Ok n1.
Proof. exact C05_refuted2. Qed.
Print Assumptions C05_smart_infinite_point_refuted.

Example C05_case lg :
  finite_consts (Add (Mul (Const (Fin 3)) (Var "x")) (Const (Fin 1)) : expr (XR lg)) /\
  (exists w, evaluate_linear "x" (Fin 2 : XR lg)
    (Add (Mul (Const (Fin 3)) (Var "x")) (Const (Fin 1))) = Some w).
Proof. cbn; eauto 10. Qed.

(** * C06 *)
Theorem C06_simplify_preserves_value :
  forall lg (vars : env (XR lg)) (e : expr (XR lg)) r,
  safe vars e -> denotes vars e r ->
  denotes vars (simplify e) r /\ evaluate vars (simplify e) = evaluate vars e.
Proof. exact C06_preserves. Qed.
Print Assumptions C06_simplify_preserves_value.

(** In API terms, for expressions in which logarithms, roots and powers are not
    taken of powers. *)
Theorem C06_simplify_preserves_value_plain :
  forall lg (vars : env (XR lg)) (e : expr (XR lg)),
  plain_powers e = true ->
  (forall s, In s (subexprs e) -> exists q, evaluate vars s = Ok (Fin q)) ->
  evaluate vars (simplify e) = evaluate vars e.
Proof. exact C06_plain. Qed.
Print Assumptions C06_simplify_preserves_value_plain.

(** sqrt(x*x) at -1 is 1; simplified it is -1. *)
Theorem C06_sqrt_of_square_refuted :
  forall L : libm, exists (e : expr (F64 L)) vars,
    evaluate vars e = Ok n1 /\ evaluate vars (simplify e) = Ok nm1.
Proof. exact C06_refuted_sqrt. Qed.
Print Assumptions C06_sqrt_of_square_refuted.

(** ln(x*x) at -1 succeeds; simplified it is an error. *)
Theorem C06_ln_of_square_refuted :
  forall L : libm, exists (e : expr (F64 L)) vars v,
    evaluate vars e = Ok v /\ evaluate vars (simplify e) = Err (InvalidLogarithm nm1).
Proof. exact C06_refuted_ln. Qed.
Print Assumptions C06_ln_of_square_refuted.

(** (x^2)^(1/2) at -1 is 1 in exact arithmetic; simplified it is -1. *)
Theorem C06_power_of_power_refuted :
  forall lg, exists (e : expr (XR lg)) vars,
    evaluate vars e = Ok (Fin 1) /\ evaluate vars (simplify e) = Ok (Fin (-1)).
Proof. exact C06_refuted_pow. Qed.
Print Assumptions C06_power_of_power_refuted.

Example C06_case lg :
  plain_powers (Exp (Mul (Const (Fin 2 : XR lg)) (Ln (Add (Var "x") (Var "x")))) : expr (XR lg)) = true /\
  simplify (Exp (Mul (Const (Fin 3 : XR lg)) (Ln (Var "x"))) : expr (XR lg)) =
    Pow (Var "x") (Const (Fin 3 : XR lg)) /\
  denotes [("x", (Fin 1%R : XR lg))] (Exp (Mul (Const (Fin 3 : XR lg)) (Ln (Var "x"))) : expr (XR lg))
    (exp (3 * ln 1)).
Proof. exact (C06_nonvacuous lg). Qed.

(** * C07 *)
Theorem C07_simplify_terminates :
  forall (N : Num) (e : expr N) fuel, size e <= fuel ->
  simplify_fuel fuel e = Some (simplify e).
Proof. exact C07_total. Qed.
Print Assumptions C07_simplify_terminates.

Theorem C07_simplify_adds_no_variables :
  forall (N : Num) (e : expr N) x, In x (variables (simplify e)) -> In x (variables e).
Proof. exact C07_vars. Qed.
Print Assumptions C07_simplify_adds_no_variables.

Theorem C07_simplify_does_not_grow :
  forall (N : Num) (e : expr N), complexity (simplify e) <= complexity e.
Proof. exact C07_complexity. Qed.
Print Assumptions C07_simplify_does_not_grow.

Example C07_case (L : libm) :
  complexity (Add (Mul (Var "x") (Const n1)) (Const n0) : expr (F64 L)) = 2 /\
  simplify (Add (Mul (Var "x") (Const n1)) (Const n0) : expr (F64 L)) = Var "x".
Proof. split; reflexivity. Qed.

(** * C08 *)
Theorem C08_iteration_reaches_fixed_point :
  forall (N : Num) (e : expr N), exists n,
    simplify (Nat.iter n simplify e) = Nat.iter n simplify e.
Proof. exact C08_fix. Qed.
Print Assumptions C08_iteration_reaches_fixed_point.

(** The number of calls needed is bounded by [weight]: at most four per node,
    doubled under every logarithm. *)
Theorem C08_iterations_bounded :
  forall (N : Num) (e : expr N), exists n, n <= weight e /\
    forall k, n <= k -> Nat.iter k simplify e = Nat.iter n simplify e.
Proof. exact C08_bounded. Qed.
Print Assumptions C08_iterations_bounded.

Theorem C08_single_call_idempotent_refuted :
  forall L : libm, exists e : expr (F64 L), simplify (simplify e) <> simplify e.
Proof. exact C08_refuted. Qed.
Print Assumptions C08_single_call_idempotent_refuted.

(** * C14 *)
Theorem C14_variables_lists_exactly_the_occurring_names :
  forall (N : Num) (e : expr N) x, In x (variables e) <-> occurs x e.
Proof. exact @variables_occurs. Qed.
Print Assumptions C14_variables_lists_exactly_the_occurring_names.

Theorem C14_variables_strictly_increasing :
  forall (N : Num) (e : expr N), increasing (variables e).
Proof. exact @variables_increasing. Qed.
Print Assumptions C14_variables_strictly_increasing.

Example C14_case (L : libm) :
  variables (Mul (Add (Var "sigma") (Var "mu")) (Sub (Var "x") (Var "mu")) : expr (F64 L))
  = ["mu"; "sigma"; "x"].
Proof. reflexivity. Qed.

(** * C15 *)
Theorem C15_evaluate_overrides_parameters :
  forall (N : Num) (d : symbolic_log_density) (vars m : env N),
  wf_env vars ->
  (forall x, get m x = match get vars x with
                       | Some v => Some v
                       | None => get (sld_parameters d) x
                       end) ->
  sld_evaluate d vars = evaluate m (sld_expression d).
Proof. exact @sld_evaluate_spec. Qed.
Print Assumptions C15_evaluate_overrides_parameters.

Theorem C15_evaluate_single_is_one_override :
  forall (N : Num) (d : symbolic_log_density) x (v : N) (m : env N),
  (forall y, get m y = if String.eqb y x then Some v else get (sld_parameters d) y) ->
  sld_evaluate_single d x v = evaluate m (sld_expression d).
Proof. exact C15_single. Qed.
Print Assumptions C15_evaluate_single_is_one_override.

Theorem C15_substitution_removes_exactly_the_parameters :
  forall (N : Num) (d : symbolic_log_density (N := N)) x,
  occurs x (sld_expression (sld_substitute_parameters d)) <->
  occurs x (sld_expression d) /\ get (sld_parameters d) x = None.
Proof. exact C15_occurs. Qed.
Print Assumptions C15_substitution_removes_exactly_the_parameters.

Theorem C15_substitution_preserves_value :
  forall lg (d : symbolic_log_density) (vars : env (XR lg)) r,
  wf_env vars ->
  (forall x, get (sld_parameters d) x <> None -> get vars x = None) ->
  denotes (extend (sld_parameters d) vars) (sld_expression d) r ->
  sld_evaluate d vars = Ok (Fin r) /\
  sld_evaluate (sld_substitute_parameters d) vars = Ok (Fin r).
Proof. exact sld_subst_denotes. Qed.
Print Assumptions C15_substitution_preserves_value.

(** Errors and special values included, when no literal zero factor is present
    before or after. *)
Theorem C15_substitution_preserves_every_result :
  forall lg (d : symbolic_log_density) (vars : env (XR lg)),
  wf_env vars ->
  (forall x, get (sld_parameters d) x <> None -> get vars x = None) ->
  no_zero_factor (sld_expression d) = true ->
  no_zero_factor (sld_expression (sld_substitute_parameters d)) = true ->
  sld_evaluate (sld_substitute_parameters d) vars = sld_evaluate d vars.
Proof. exact sld_subst_strict. Qed.
Print Assumptions C15_substitution_preserves_every_result.

(** A zero parameter becomes a literal zero factor and hides an error. *)
Theorem C15_zero_parameter_refuted :
  forall L : libm, exists (d : symbolic_log_density (N := F64 L)) vars r err,
    (forall x, get (sld_parameters d) x <> None -> get vars x = None) /\
    sld_evaluate d vars = Err err /\ sld_evaluate (sld_substitute_parameters d) vars = Ok r.
Proof. exact C15_refuted_zero. Qed.
Print Assumptions C15_zero_parameter_refuted.

(** Simplification keeps the value under every binding of the variables, and the
    parameters stay in force; the advertised list covers the remaining names. *)
Theorem C15_simplify_preserves_value :
  forall lg (d : symbolic_log_density) (vars : env (XR lg)) r,
  safe (extend (sld_parameters d) vars) (sld_expression d) ->
  denotes (extend (sld_parameters d) vars) (sld_expression d) r ->
  sld_evaluate d vars = Ok (Fin r) /\ sld_evaluate (sld_simplify d) vars = Ok (Fin r).
Proof.
  intros lg d vars r S D. assert (E : sld_evaluate d vars = Ok (Fin r)) by exact (evaluate_denotes lg _ _ _ D).
  split; [exact E|]. rewrite <- E. exact (proj2 (C06_simplify_preserves_value lg _ _ r S D)).
Qed.
Print Assumptions C15_simplify_preserves_value.
Theorem C15_simplified_variables :
  forall (N : Num) (e : expr N) ps x, In x (variables (sld_expression (sld_simplify (sld_new e ps)))) ->
  In x (sld_variables (sld_simplify (sld_new e ps))).
Proof. intros N e ps x H. exact (C07_simplify_adds_no_variables N e x H). Qed.
Print Assumptions C15_simplified_variables.

(** A new log-density advertises exactly the occurring names, in order. *)
Theorem C15_advertised_variables :
  forall (N : Num) (e : expr N) ps, increasing (sld_variables (sld_new e ps)) /\
  forall x, In x (sld_variables (sld_new e ps)) <-> occurs x e.
Proof. intros N e ps. split; [exact (variables_increasing e)|intros x; exact (variables_occurs e x)]. Qed.
Print Assumptions C15_advertised_variables.

(** The advertised list of remaining variables is not updated. *)
Theorem C15_advertised_variables_refuted :
  forall L : libm, exists (d : symbolic_log_density (N := F64 L)),
    sld_variables (sld_substitute_parameters d) <>
    variables (sld_expression (sld_substitute_parameters d)).
Proof. exact C15_refuted_vars. Qed.
Print Assumptions C15_advertised_variables_refuted.

Example C15_case (L : libm) :
  sld_evaluate (sld_substitute_parameters
     (sld_new (Sub (Var "x") (Var "mu") : expr (F64 L)) [("mu", n1)])) [("x", n2)] = Ok n1.
Proof. vm_compute; reflexivity. Qed.
Example C15_simplify_case (lg : R -> R) :
  let e : expr (XR lg) := Sub (Neg (Neg (Var "x"))) (Var "mu") in let d := sld_new e [("mu", Fin 1 : XR lg)] in
  let vars : env (XR lg) := [("x", Fin 3 : XR lg)] in
  safe (extend (sld_parameters d) vars) (sld_expression d) /\ (exists r, denotes (extend (sld_parameters d) vars) (sld_expression d) r) /\
  sld_expression (sld_simplify d) = Sub (Var "x") (Var "mu").
Proof.
  intros e d vars. split; [repeat constructor|]. split; [|reflexivity].
  exists (- - 3 - 1)%R. apply d_sub; [apply d_neg, d_neg, d_var; reflexivity|apply d_var; reflexivity].
Qed.
