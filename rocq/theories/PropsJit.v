(** Properties C16, C18, C19 and the exactly rounded part of C17.
    JitSpec.v: [jit_value rho e] is the value of [e] in the operators the JIT
    implements, [evaluates rho e] the outcome of a call that computes it
    ([Returned] that value, or [Trapped] where the exponential's conversion to a
    32-bit integer traps); [code_of f n e bind]: [f] takes [n] numbers and, on
    any [n] arguments, computes [e] under the bindings they give;
    [well_formed]: every operand is defined before it is used. *)
From Coq Require Import ZArith Bool String List Lia.
From Coq Require Import Floats.SpecFloat.
From Verif Require Import Num ExprModel ExprSpec ConvModel JitModel JitSpec JitProofs JitProofs2.
Import ListNotations.
Local Open Scope string_scope.
Local Open Scope list_scope.

(** * C16: code generation *)
(** Compilation succeeds iff every variable is an argument or a constant. *)
Theorem C16_compiles_iff_closed : forall e ds ps cs,
  (exists f, compile_expression e ds ps cs = JOk f) <->
  (forall x, occurs x e -> In x (ds ++ ps) \/ In x (map fst cs)).
Proof. exact expression_ok. Qed.
Print Assumptions C16_compiles_iff_closed.
Theorem C16_error_names_an_unbound_variable : forall e ds ps cs err,
  compile_expression e ds ps cs = JErr err ->
  exists x, err = UnsupportedExpression x /\ occurs x e /\ ~ In x (ds ++ ps) /\ ~ In x (map fst cs).
Proof. exact expression_err. Qed.
Print Assumptions C16_error_names_an_unbound_variable.
(** The code computes the expression, for every argument vector. *)
Theorem C16_code_computes_expression : forall e ds ps cs f, compile_expression e ds ps cs = JOk f ->
  code_of f (List.length ds + List.length ps) e (expression_binding ds ps cs) /\ well_formed f.
Proof.
  intros e ds ps cs f H. split; [apply (expression_code e ds ps cs f H) | apply (expression_well_formed e ds ps cs f H)].
Qed.
Print Assumptions C16_code_computes_expression.
(** No execution gets stuck: operands always exist and have the right type. *)
Theorem C16_never_stuck : forall e ds ps cs f args, compile_expression e ds ps cs = JOk f ->
  invoke f args <> BadCode.
Proof.
  intros e ds ps cs f args H B. destruct (expression_code e ds ps cs f H) as [[P C] _].
  unfold invoke in B. destruct (floats args) as [vs|] eqn:F; [|discriminate].
  destruct (Nat.eqb (List.length vs) (fn_params f)) eqn:N; [|discriminate].
  assert (K : forall l ws, floats l = Some ws -> exists xs, l = map AFloat xs /\ List.length xs = List.length ws).
  { induction l as [|[x|] l IH]; intros ws E; cbn in E.
    - injection E as <-. exists []. split; reflexivity.
    - destruct (floats l) as [ws'|] eqn:Q; unfold floats in *; [|rewrite Q in E; discriminate].
      rewrite Q in E. injection E as <-. destruct (IH ws' eq_refl) as (xs & -> & L).
      exists (x :: xs). split; [reflexivity|]. cbn. rewrite L. reflexivity.
    - discriminate. }
  destruct (K args vs F) as (xs & -> & L). apply Nat.eqb_eq in N.
  assert (B' : invoke f (map AFloat xs) = BadCode).
  { unfold invoke. rewrite F, N, Nat.eqb_refl. exact B. }
  rewrite C in B' by lia. destruct (evaluates_not_bad (total (expression_binding ds ps cs xs)) e) as [Q _].
  exact (Q B').
Qed.
Print Assumptions C16_never_stuck.
(** The same for custom log-densities ... *)
Theorem C16_custom_compiles_iff_closed : forall s, (exists f, compile_custom_expression s = JOk f) <->
  (forall x, occurs x (cd_expression s) -> In x (firstn 1 (cd_variables s)) \/ In x (map fst (cd_parameters s))).
Proof. exact custom_ok. Qed.
Print Assumptions C16_custom_compiles_iff_closed.
Theorem C16_custom_code : forall s f, compile_custom_expression s = JOk f ->
  code_of f 1 (cd_expression s) (custom_binding s) /\ fn_sig f = SingleInput /\ well_formed f.
Proof.
  intros s f H. destruct (custom_code s f H) as [A B]. split; [exact A|]. split; [exact B|].
  apply (custom_well_formed s f H).
Qed.
Print Assumptions C16_custom_code.
(** ... and for final-tagless expressions. *)
Theorem C16_tagless_compiles_iff_closed : forall e ds ps cs,
  (exists f, compile_final_tagless e ds ps cs = JOk f) <->
  (forall x, occurs x e -> In x (ds ++ ps) \/ In x (map fst cs)).
Proof. exact tagless_ok. Qed.
Print Assumptions C16_tagless_compiles_iff_closed.
Theorem C16_tagless_error_names_an_unbound_variable : forall e ds ps cs err,
  compile_final_tagless e ds ps cs = JErr err ->
  exists x, err = CompilationError x /\ occurs x e /\ ~ In x (ds ++ ps) /\ ~ In x (map fst cs).
Proof. exact tagless_err. Qed.
Print Assumptions C16_tagless_error_names_an_unbound_variable.
Theorem C16_tagless_code : forall e ds ps cs f, compile_final_tagless e ds ps cs = JOk f ->
  code_of f (List.length ds + List.length ps) e (tagless_binding ds ps cs) /\ well_formed f.
Proof.
  intros e ds ps cs f H. split; [apply (tagless_code e ds ps cs f H) | apply (tagless_well_formed e ds ps cs f H)].
Qed.
Print Assumptions C16_tagless_code.

(** A concrete function: (x - m)^2 / 2 with [m] a constant. *)
Definition square_error : expr f64 :=
  Div (Pow (Sub (Var "x") (Var "m")) (Const (f64_of_Z 2))) (Const (f64_of_Z 2)).
Example C16_square_error :
  match compile_expression square_error ["x"] [] [("m", f64_of_Z 3)] with
  | JOk f => call_single f (f64_of_Z 7) = Returned (f64_of_Z 8) /\ List.length (fn_body f) = 5%nat
  | JErr _ => False
  end.
Proof. vm_compute. split; reflexivity. Qed.
Example C16_unbound : compile_expression square_error ["x"] [] [] = JErr (UnsupportedExpression "m").
Proof. reflexivity. Qed.

(** * C18: signatures and calls *)
(** Argument [i] is bound to name [i] of the data variables followed by the
    parameters (distinct names); other names are constants. *)
Theorem C18_slots : forall ds ps cs (args : list f64) i x v, NoDup (ds ++ ps) ->
  List.length args = List.length (ds ++ ps) ->
  nth_error (ds ++ ps) i = Some x -> nth_error args i = Some v ->
  expression_binding ds ps cs args x = Some v /\
  (~ In x (map fst cs) -> tagless_binding ds ps cs args x = Some v).
Proof.
  intros ds ps cs args i x v ND L N A. split.
  - exact (expression_slot ds ps cs args i x v ND L N A).
  - intros H. exact (tagless_slot ds ps cs args i x v ND L H N A).
Qed.
Print Assumptions C18_slots.
Theorem C18_constants : forall ds ps cs (args : list f64) x,
  (~ In x (ds ++ ps) -> expression_binding ds ps cs args x = get cs x) /\
  (wf_env cs -> In x (map fst cs) -> tagless_binding ds ps cs args x = get cs x).
Proof.
  intros ds ps cs args x. split; [apply expression_const | intros W H; apply tagless_const; assumption].
Qed.
Print Assumptions C18_constants.
(** A name that is both an argument and a constant is the argument in one entry
    point and the constant in the other. *)
Theorem C18_entry_points_agree_on_shared_names_refuted : exists e ds ps cs f g v,
  compile_expression e ds ps cs = JOk f /\ compile_final_tagless e ds ps cs = JOk g /\
  call_single f v = Returned v /\ call_single g v <> Returned v.
Proof.
  exists (Var "x"), ["x"], [], [("x", f64_of_Z 5)]. eexists. eexists. exists (f64_of_Z 1).
  split; [reflexivity|]. split; [reflexivity|]. split; [reflexivity|]. vm_compute. discriminate.
Qed.
Print Assumptions C18_entry_points_agree_on_shared_names_refuted.

(** The calls: the matching method evaluates the expression, any other panics. *)
Theorem C18_call_single : forall e ds ps cs f v, compile_expression e ds ps cs = JOk f ->
  call_single f v = if Nat.eqb (List.length ds) 1 && Nat.eqb (List.length ps) 0
                    then evaluates (total (expression_binding ds ps cs [v])) e else Panicked.
Proof.
  intros e ds ps cs f v H. destruct (expression_code e ds ps cs f H) as [A B].
  exact (single_call f _ _ e _ A B v).
Qed.
Print Assumptions C18_call_single.
Theorem C18_call_data_param : forall e ds ps cs f v t, compile_expression e ds ps cs = JOk f ->
  call_data_param f v t = if Nat.eqb (List.length ds) 1 && Nat.eqb (List.length ps) 1
                          then evaluates (total (expression_binding ds ps cs [v; t])) e else Panicked.
Proof.
  intros e ds ps cs f v t H. destruct (expression_code e ds ps cs f H) as [A B].
  exact (data_param_call f _ _ e _ A B v t).
Qed.
Print Assumptions C18_call_data_param.
(** Two or three parameters work; four or more always panic. *)
Theorem C18_call_data_params : forall e ds ps cs f v ts, compile_expression e ds ps cs = JOk f ->
  call_data_params f v ts =
  if Nat.eqb (List.length ds) 1 && (Nat.eqb (List.length ps) 2 || Nat.eqb (List.length ps) 3)
     && Nat.eqb (List.length ts) (List.length ps)
  then evaluates (total (expression_binding ds ps cs (v :: ts))) e else Panicked.
Proof.
  intros e ds ps cs f v ts H. destruct (expression_code e ds ps cs f H) as [A B].
  exact (data_params_call f _ _ e _ A B v ts).
Qed.
Print Assumptions C18_call_data_params.
Theorem C18_many_parameters_refuted : exists e ds ps f, compile_expression e ds ps [] = JOk f /\
  fn_sig f = DataAndParameters (List.length ps) /\
  forall v ts, List.length ts = List.length ps -> call_data_params f v ts = Panicked.
Proof.
  exists (Var "x"), ["x"], ["a"; "b"; "c"; "d"]. eexists. split; [reflexivity|]. split; [reflexivity|].
  intros v [|t1 [|t2 [|t3 [|t4 [|t5 ts]]]]] L; try discriminate L. reflexivity.
Qed.
Print Assumptions C18_many_parameters_refuted.
(** The batch call never runs the code with the layout it was compiled for: the
    code takes numbers, the call passes pointers and lengths. *)
Theorem C18_call_batch : forall e ds ps cs f data params, compile_expression e ds ps cs = JOk f ->
  call_batch f data params =
  if negb (Nat.eqb (List.length ds) 1) && Nat.eqb (List.length data) (List.length ds)
     && Nat.eqb (List.length params) (List.length ps)
  then LayoutMismatch else Panicked.
Proof.
  intros e ds ps cs f data params H. destruct (expression_code e ds ps cs f H) as [A B].
  exact (batch_call f _ _ e _ A B data params).
Qed.
Print Assumptions C18_call_batch.
Theorem C18_batch_layout_refuted : exists e ds ps f data params v,
  compile_expression e ds ps [] = JOk f /\
  invoke f (map AFloat (data ++ params)) = Returned v /\ call_batch f data params = LayoutMismatch.
Proof.
  exists (Add (Var "x") (Var "y")), ["x"; "y"], []. eexists. exists [f64_of_Z 1; f64_of_Z 2], [], (f64_of_Z 3).
  split; [reflexivity|]. split; [vm_compute; reflexivity|reflexivity].
Qed.
Print Assumptions C18_batch_layout_refuted.
(** The other methods never reach code with another layout. *)
Theorem C18_no_layout_mismatch : forall e ds ps cs f, compile_expression e ds ps cs = JOk f ->
  (forall v, call_single f v <> LayoutMismatch) /\ (forall v t, call_data_param f v t <> LayoutMismatch) /\
  (forall v ts, call_data_params f v ts <> LayoutMismatch).
Proof.
  intros e ds ps cs f H.
  assert (N : forall (c : bool) rho, (if c then evaluates rho e else Panicked) <> LayoutMismatch).
  { intros [|] rho; [apply evaluates_not_bad | discriminate]. }
  repeat split; intros; [rewrite (C18_call_single e ds ps cs f _ H) | rewrite (C18_call_data_param e ds ps cs f _ _ H)
    | rewrite (C18_call_data_params e ds ps cs f _ _ H)]; apply N.
Qed.
Print Assumptions C18_no_layout_mismatch.
(** Final-tagless compilation. *)
Theorem C18_tagless_calls : forall e ds ps cs f, compile_final_tagless e ds ps cs = JOk f ->
  (forall v, call_single f v =
     if Nat.eqb (List.length ds) 1 && Nat.eqb (List.length ps) 0
     then evaluates (total (tagless_binding ds ps cs [v])) e else Panicked) /\
  (forall v t, call_data_param f v t =
     if Nat.eqb (List.length ds) 1 && Nat.eqb (List.length ps) 1
     then evaluates (total (tagless_binding ds ps cs [v; t])) e else Panicked) /\
  (forall v ts, call_data_params f v ts =
     if Nat.eqb (List.length ds) 1 && (Nat.eqb (List.length ps) 2 || Nat.eqb (List.length ps) 3)
        && Nat.eqb (List.length ts) (List.length ps)
     then evaluates (total (tagless_binding ds ps cs (v :: ts))) e else Panicked).
Proof.
  intros e ds ps cs f H. destruct (tagless_code e ds ps cs f H) as [A B]. split; [|split]; intros.
  - exact (single_call f _ _ e _ A B v).
  - exact (data_param_call f _ _ e _ A B v t).
  - exact (data_params_call f _ _ e _ A B v ts).
Qed.
Print Assumptions C18_tagless_calls.
Example C18_three_parameters :
  match compile_expression (Add (Mul (Var "a") (Var "x")) (Sub (Var "b") (Var "c"))) ["x"] ["a"; "b"; "c"] [] with
  | JOk f => call_data_params f (f64_of_Z 2) [f64_of_Z 10; f64_of_Z 7; f64_of_Z 4] = Returned (f64_of_Z 23)
  | JErr _ => False
  end.
Proof. vm_compute. reflexivity. Qed.

(** * C19: the Bayesian JIT optimizer *)
(** Before a successful compilation of its kind, evaluation returns [None]. *)
Theorem C19_none_before_compilation : forall k h data params,
  (forall nd np, ~ last_compiled k h nd np) <-> evaluate_kind k (after h) data params = None.
Proof. exact optimizer_none. Qed.
Print Assumptions C19_none_before_compilation.
(** A failed compilation changes nothing. *)
Theorem C19_failed_compilation_keeps_state : forall k o op e ds ps cs, op_shape k op = Some (e, ds, ps, cs) ->
  ~ closed_over e ds ps cs -> apply_op o op = o.
Proof. exact failed_compile. Qed.
Print Assumptions C19_failed_compilation_keeps_state.
(** After one, for every history, evaluation never returns a value: it panics,
    or (matching sizes, not exactly one data variable) calls the code with the
    wrong layout. *)
Theorem C19_outcome_after_compilation : forall k h nd np data params, last_compiled k h nd np ->
  evaluate_kind k (after h) data params =
  Some (if negb (Nat.eqb nd 1) &&
           Nat.eqb (List.length (match k with Prior => [] | _ => data end)) nd &&
           Nat.eqb (List.length params) np
        then LayoutMismatch else Panicked).
Proof. exact optimizer_some. Qed.
Print Assumptions C19_outcome_after_compilation.
Theorem C19_evaluation_returns_value_refuted : forall k h data params v,
  evaluate_kind k (after h) data params <> Some (Returned v).
Proof.
  intros k h data params v H.
  assert (D : (forall nd np, ~ last_compiled k h nd np) -> False).
  { intros N. apply (optimizer_none k h data params) in N. congruence. }
  apply D. intros nd np LC. rewrite (optimizer_some k h nd np data params LC) in H.
  destruct (_ && _)%bool; discriminate.
Qed.
Print Assumptions C19_evaluation_returns_value_refuted.
Example C19_history :
  let h := [CompilePrior (Neg (Mul (Var "t") (Var "t"))) ["t"] [];
            CompilePosterior (Var "z") ["x"] ["t"] [];
            CompilePosterior (Add (Var "x") (Var "t")) ["x"] ["t"] []] in
  last_compiled Posterior h 1 1 /\ evaluate_posterior (after h) [f64_of_Z 1] [f64_of_Z 2] = Some Panicked /\
  last_compiled Prior h 0 1 /\ evaluate_prior (after h) [f64_of_Z 2] = Some LayoutMismatch /\
  evaluate_likelihood (after h) [f64_of_Z 1] [f64_of_Z 2] = None.
Proof.
  cbv zeta. split; [|split; [vm_compute; reflexivity|split; [|split; vm_compute; reflexivity]]].
  - match goal with |- last_compiled _ [?a; ?b; ?c] _ _ => change [a; b; c] with ([a; b] ++ [c]) end.
    apply (lc_here Posterior _ _ (Add (Var "x") (Var "t")) ["x"] ["t"] []); [reflexivity|].
    intros x O. repeat match goal with H : occurs _ _ |- _ => inversion H; subst; clear H end; cbn; auto.
  - match goal with |- last_compiled _ [?a; ?b; ?c] _ _ => change [a; b; c] with ((([] ++ [a]) ++ [b]) ++ [c]) end.
    apply lc_skip; [|discriminate]. apply lc_skip; [|discriminate].
    apply (lc_here Prior _ _ (Neg (Mul (Var "t") (Var "t"))) [] ["t"] []); [reflexivity|].
    intros x O. repeat match goal with H : occurs _ _ |- _ => inversion H; subst; clear H end; cbn; auto.
Qed.

(** * C17, exactly rounded operations: +, -, *, /, negation and square root *)
(** The compiled function returns what the evaluator returns. *)
Theorem C17_exact_operations_single : forall L x e v w f,
  compile_expression e [x] [] [] = JOk f -> exact_ops e ->
  @evaluate_single_var (F64 L) x v e = Ok w -> call_single f v = Returned w.
Proof. exact exact_single_call. Qed.
Print Assumptions C17_exact_operations_single.
Theorem C17_exact_operations : forall L (vars : env f64) e ds ps cs args w f,
  compile_expression e ds ps cs = JOk f -> List.length args = (List.length ds + List.length ps)%nat ->
  (forall x, occurs x e -> get vars x = expression_binding ds ps cs args x) ->
  exact_ops e -> no_unit_literals e -> @evaluate (F64 L) vars e = Ok w ->
  invoke f (map AFloat args) = Returned w.
Proof. exact exact_call. Qed.
Print Assumptions C17_exact_operations.
(** A literal zero factor: the evaluator returns 0, the code NaN. *)
Theorem C17_literal_zero_factor_refuted : forall L, exists e v f,
  compile_expression e ["x"] [] [] = JOk f /\ exact_ops e /\
  @evaluate (F64 L) [("x", v)] e = Ok (S754_zero false) /\ call_single f v = Returned S754_nan.
Proof.
  intros L. exists (Mul (Const (S754_zero false)) (Var "x")), (S754_infinity false). eexists.
  split; [reflexivity|]. split; [cbn; auto|]. split; reflexivity.
Qed.
Print Assumptions C17_literal_zero_factor_refuted.
