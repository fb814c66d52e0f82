(** Properties C41, C42, C48, C50: builders, constant pools, operator sugar. *)
From Coq Require Import ZArith Reals String List Bool Lra Lia Arith.
From Coq Require Import Floats.SpecFloat.
From Verif Require Import Num XRFacts ExprModel ExprSpec ExprEval2 DensitySpec BuilderModel
  BuilderProofs BuilderWitness.
Import ListNotations.
Local Open Scope string_scope.
Local Open Scope list_scope.
Local Open Scope R_scope.

(** * C41 *)
Theorem C41_normal_log_pdf_is_log_of_normal_density :
  forall lg (vars : env (XR lg)) x mu s vx vm vs,
  denotes vars x vx -> denotes vars mu vm -> denotes vars s vs -> 0 < vs ->
  evaluate vars (normal_log_pdf x mu s) = Ok (Fin (ln (normal_pdf vm vs vx)) : XR lg).
Proof. exact C41_normal. Qed.
Print Assumptions C41_normal_log_pdf_is_log_of_normal_density.

Theorem C41_gaussian_kernel_is_unnormalised_normal :
  forall lg (vars : env (XR lg)) x mu s vx vm vs,
  denotes vars x vx -> denotes vars mu vm -> denotes vars s vs -> vs <> 0 ->
  evaluate vars (gaussian_kernel x mu s) = Ok (Fin (exp (- ((vx - vm) ^ 2 / (2 * vs ^ 2)))) : XR lg).
Proof. exact C41_kernel. Qed.
Print Assumptions C41_gaussian_kernel_is_unnormalised_normal.

Theorem C41_polynomial_is_sum_of_powers :
  forall lg (vars : env (XR lg)) x v (cs : list R), denotes vars x v ->
  evaluate vars (polynomial x (map (fun c => Fin c : XR lg) cs)) = Ok (Fin (poly cs v) : XR lg).
Proof. exact C41_polynomial. Qed.
Print Assumptions C41_polynomial_is_sum_of_powers.

Theorem C41_logistic_and_softplus :
  forall lg (vars : env (XR lg)) x v, denotes vars x v ->
  evaluate vars (logistic x) = Ok (Fin (logistic_fn v) : XR lg) /\
  evaluate vars (softplus x) = Ok (Fin (softplus_fn v) : XR lg).
Proof. exact C41_logistic. Qed.
Print Assumptions C41_logistic_and_softplus.

Theorem C41_expr_builders :
  forall lg (vars : env (XR lg)) x v mu s c, get vars x = Some (Fin v) -> 0 < s ->
  evaluate vars (quadratic_term x (Fin mu : XR lg) (Fin s : XR lg))
    = Ok (Fin (- ((v - mu) ^ 2 / (2 * s ^ 2))) : XR lg) /\
  evaluate vars (linear_term x (Fin c : XR lg)) = Ok (Fin (c * v) : XR lg) /\
  evaluate vars (log_normal_constant (Fin s : XR lg)) = Ok (Fin (- ln (s * sqrt (2 * PI))) : XR lg) /\
  evaluate vars (Add (quadratic_term x (Fin mu : XR lg) (Fin s : XR lg)) (log_normal_constant (Fin s : XR lg)))
    = Ok (Fin (ln (normal_pdf mu s v)) : XR lg).
Proof. exact C41_pieces. Qed.
Print Assumptions C41_expr_builders.

Example C41_case :
  let vars := [("x", (Fin 1 : XR (fun x => x))); ("s", Fin 2)] in
  denotes vars (Var "x") 1 /\ denotes vars (Mul (Const (Fin 3 : XR (fun x => x))) (Var "s")) (3 * 2) /\
  poly [1; 2; 3] 2 = 17.
Proof. cbv zeta. repeat split; try (repeat constructor; fail). unfold poly; cbn; lra. Qed.

(** * C42 *)
Theorem C42_normal_likelihood_and_prior :
  forall lg (vars : env (XR lg)) x mu s vx vm vs m sc,
  get vars x = Some (Fin vx) -> get vars mu = Some (Fin vm) -> get vars s = Some (Fin vs) ->
  0 < vs -> 0 < sc ->
  evaluate vars (normal_likelihood x mu s) = Ok (Fin (ln (normal_pdf vm vs vx)) : XR lg) /\
  evaluate vars (normal_prior mu (Fin m : XR lg) (Fin sc : XR lg)) = Ok (Fin (ln (normal_pdf m sc vm)) : XR lg).
Proof. exact C42_likelihood_prior. Qed.
Print Assumptions C42_normal_likelihood_and_prior.

Theorem C42_posterior_is_sum :
  forall lg (vars : env (XR lg)) l p (a b : XR lg), evaluate vars l = Ok a -> evaluate vars p = Ok b ->
  evaluate vars (posterior_log_density l p) = Ok (nadd a b).
Proof. exact C42_posterior. Qed.
Print Assumptions C42_posterior_is_sum.

Theorem C42_hierarchical_normal :
  forall lg (vars : env (XR lg)) x mu s tau vx vm vs vt m sc,
  get vars x = Some (Fin vx) -> get vars mu = Some (Fin vm) -> get vars s = Some (Fin vs) ->
  get vars tau = Some (Fin vt) -> 0 < vs -> 0 < sc ->
  evaluate vars (hierarchical_normal x mu s tau (Fin m : XR lg) (Fin sc : XR lg))
    = Ok (Fin (ln (normal_pdf vm vs vx) + ln (normal_pdf m sc vm) + ln (normal_pdf 0 sc vt)) : XR lg).
Proof. exact C42_hierarchical. Qed.
Print Assumptions C42_hierarchical_normal.

(** In a hierarchical model tau is the deviation of mu; here it is not: at
    these bindings the value differs from the textbook joint density. *)
Theorem C42_tau_is_not_the_deviation_of_mu_refuted :
  forall lg, exists (vars : env (XR lg)) vx vm vs vt m sc,
  get vars "x" = Some (Fin vx) /\ get vars "mu" = Some (Fin vm) /\ get vars "sigma" = Some (Fin vs) /\
  get vars "tau" = Some (Fin vt) /\ 0 < vs /\ 0 < sc /\ 0 < vt /\
  evaluate vars (hierarchical_normal "x" "mu" "sigma" "tau" (Fin m : XR lg) (Fin sc : XR lg))
    <> Ok (Fin (ln (normal_pdf vm vs vx) + ln (normal_pdf m vt vm) + ln (normal_pdf 0 sc vt)) : XR lg).
Proof. exact C42_tau. Qed.
Print Assumptions C42_tau_is_not_the_deviation_of_mu_refuted.

Theorem C42_mixture_is_log_of_weighted_sum :
  forall lg (vars : env (XR lg)) x v (ws mus sds : list R),
  get vars x = Some (Fin v) -> length ws = length mus -> length mus = length sds ->
  Forall (Rle 0) ws -> Exists (Rlt 0) ws -> Forall (Rlt 0) sds ->
  exists e, mixture_likelihood x (map (fun w => Fin w : XR lg) ws) (map (fun w => Fin w : XR lg) mus)
              (map (fun w => Fin w : XR lg) sds) = Some e /\
    evaluate vars e = Ok (Fin (ln (Rsum (map
      (fun p => fst p * normal_pdf (fst (snd p)) (snd (snd p)) v) (combine ws (combine mus sds))))) : XR lg).
Proof. exact mixture_value. Qed.
Print Assumptions C42_mixture_is_log_of_weighted_sum.

Theorem C42_mixture_of_expressions :
  forall lg (vars : env (XR lg)) (ws ls : list R) (cs : list (expr (XR lg))),
  Forall (Rle 0) ws -> length ws = length ls -> Exists (Rlt 0) ws ->
  Forall2 (fun c l => evaluate vars c = Ok (Fin l : XR lg)) cs ls ->
  evaluate vars (mixture_likelihood_old (combine (map (fun w => Fin w : XR lg) ws) cs))
    = Ok (Fin (ln (Rsum (map (fun p => fst p * exp (snd p)) (combine ws ls)))) : XR lg).
Proof. exact mixture_old_value. Qed.
Print Assumptions C42_mixture_of_expressions.

(** No components: minus infinity; different lengths: panic. *)
Theorem C42_mixture_edge_cases :
  forall (N : Num) (vars : env N) x,
  (exists e, mixture_likelihood x [] [] [] = Some e /\ evaluate vars e = Ok nninf) /\
  evaluate vars (mixture_likelihood_old []) = Ok nninf /\
  forall ws mus sds : list N, mixture_likelihood x ws mus sds = None <->
    ~ (length ws = length mus /\ length mus = length sds).
Proof. exact C42_edges. Qed.
Print Assumptions C42_mixture_edge_cases.

(** The naive log-sum-exp overflows nothing in exact arithmetic, but with all
    weights zero evaluation is an error instead of minus infinity. *)
Theorem C42_all_zero_weights_is_error_refuted :
  forall lg (vars : env (XR lg)) v, get vars "x" = Some (Fin v) ->
  exists e, mixture_likelihood "x" [(Fin 0 : XR lg)] [(Fin 0 : XR lg)] [(Fin 1 : XR lg)] = Some e /\
    evaluate vars e = Err (InvalidLogarithm (Fin 0 : XR lg)).
Proof. exact C42_zero_weights. Qed.
Print Assumptions C42_all_zero_weights_is_error_refuted.

Example C42_case :
  let ws := [1 / 3; 0; 2 / 3] in
  Forall (Rle 0) ws /\ Exists (Rlt 0) ws /\ Forall (Rlt 0) [1; 2; 3] /\ length ws = length [1; 2; 3].
Proof. cbv zeta. repeat split; repeat constructor; lra. Qed.

(** * C48 *)
Theorem C48_lookup_is_last_definition :
  forall (N : Num) (l : list (string * N * string * list string)) k,
  pool_lookup (pool_calls l) k = last_call k l /\
  (last_call k l = None -> get (cp_constants (pool_calls l)) k = None /\
     get (cp_expressions (pool_calls l)) k = None /\ get (cp_dependencies (pool_calls l)) k = None).
Proof. exact @pool_last. Qed.
Print Assumptions C48_lookup_is_last_definition.

Theorem C48_evaluation_order_stays_empty :
  forall (N : Num) (l : list (string * N * string * list string)), cp_order (pool_calls l) = [].
Proof. exact @pool_order_empty. Qed.
Print Assumptions C48_evaluation_order_stays_empty.

(** [last_call] means what it says. *)
Theorem C48_last_call_meaning :
  forall (N : Num) (l : list (string * N * string * list string)) k v ex d,
  last_call k l = Some (v, ex, d) <->
  exists l1 l2, l = l1 ++ (k, v, ex, d) :: l2 /\ (forall v' ex' d', ~ In (k, v', ex', d') l2).
Proof. exact @C48_last. Qed.
Print Assumptions C48_last_call_meaning.

Example C48_case (L : libm) :
  pool_lookup (pool_calls [("a", (n1 : F64 L), "1", []); ("b", n2, "2*a", ["a"]); ("a", n2, "2", [])]) "a"
    = Some ((n2 : F64 L), "2", []).
Proof. reflexivity. Qed.

(** * C50 *)
Theorem C50_binary_and_unary_operators :
  forall lg (vars : env (XR lg)) a b u v, denotes vars a u -> denotes vars b v ->
  evaluate vars (op_add a b) = Ok (Fin (u + v) : XR lg) /\
  evaluate vars (op_sub a b) = Ok (Fin (u - v) : XR lg) /\
  evaluate vars (op_mul a b) = Ok (Fin (u * v) : XR lg) /\
  (v <> 0 -> evaluate vars (op_div a b) = Ok (Fin (u / v) : XR lg)) /\
  evaluate vars (op_neg a) = Ok (Fin (- u) : XR lg) /\
  (0 < u -> evaluate vars (m_powf a b) = Ok (Fin (Rpower u v) : XR lg)).
Proof. exact sugar_arith. Qed.
Print Assumptions C50_binary_and_unary_operators.

Theorem C50_mixed_with_numbers :
  forall lg (vars : env (XR lg)) a u c, denotes vars a u ->
  evaluate vars (op_add_f a (Fin c : XR lg)) = Ok (Fin (u + c) : XR lg) /\
  evaluate vars (op_f_add (Fin c : XR lg) a) = Ok (Fin (c + u) : XR lg) /\
  evaluate vars (op_sub_f a (Fin c : XR lg)) = Ok (Fin (u - c) : XR lg) /\
  evaluate vars (op_f_sub (Fin c : XR lg) a) = Ok (Fin (c - u) : XR lg) /\
  evaluate vars (op_mul_f a (Fin c : XR lg)) = Ok (Fin (u * c) : XR lg) /\
  evaluate vars (op_f_mul (Fin c : XR lg) a) = Ok (Fin (c * u) : XR lg) /\
  (c <> 0 -> evaluate vars (op_div_f a (Fin c : XR lg)) = Ok (Fin (u / c) : XR lg)) /\
  (u <> 0 -> evaluate vars (op_f_div (Fin c : XR lg) a) = Ok (Fin (c / u) : XR lg)).
Proof. exact sugar_mixed. Qed.
Print Assumptions C50_mixed_with_numbers.

Theorem C50_functions :
  forall lg (vars : env (XR lg)) a u, denotes vars a u ->
  (0 < u -> evaluate vars (m_natural_log a) = Ok (Fin (ln u) : XR lg)) /\
  evaluate vars (m_exponential a) = Ok (Fin (exp u) : XR lg) /\
  (0 <= u -> evaluate vars (m_square_root a) = Ok (Fin (sqrt u) : XR lg)) /\
  evaluate vars (m_sin a) = Ok (Fin (sin u) : XR lg) /\
  evaluate vars (m_cos a) = Ok (Fin (cos u) : XR lg) /\
  evaluate vars (m_square a) = Ok (Fin (u ^ 2) : XR lg) /\
  evaluate vars (m_cube a) = Ok (Fin (u ^ 3) : XR lg) /\
  evaluate vars (m_abs a) = Ok (Fin (Rabs u) : XR lg).
Proof. exact sugar_functions. Qed.
Print Assumptions C50_functions.

Theorem C50_conversions :
  forall (N : Num) (vars : env N) (v : N) (z : Z) (x : string),
  evaluate vars (from_f64 v) = Ok v /\ evaluate vars (from_i32 z) = Ok (nint z) /\
  evaluate vars (from_str x) = match get vars x with Some w => Ok w | None => Err (UndefinedVariable x) end.
Proof. exact sugar_from. Qed.
Print Assumptions C50_conversions.

(** On binary64 the absolute value of a large finite number is infinite. *)
Theorem C50_abs_overflows_refuted :
  forall (L : libm),
  evaluate [] (m_abs (Const (big600 : F64 L))) = Ok (npinf : F64 L) /\
  nabs (big600 : F64 L) = big600 /\ neqb (big600 : F64 L) npinf = false.
Proof. exact abs_overflow. Qed.
Print Assumptions C50_abs_overflows_refuted.

Example C50_case : denotes [("x", (Fin (-2) : XR (fun x => x)))] (Sub (Var "x") (Const (Fin 1 : XR (fun x => x)))) (-2 - 1).
Proof. repeat constructor. Qed.
