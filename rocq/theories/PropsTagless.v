(** Properties C22, C23, C43 and C52: expressions written once against the
    [MathExpr] interface and run by different interpreters.
    TaglessSpec.v: a function generic in the interpreter is a [term] over its
    inputs; [interpret E args t] is the function run by interpreter [E];
    [tree names t] is the expression built when input [i] is the variable
    [names i]; [closed t] says the function creates no variable by name. *)
From Coq Require Import ZArith Reals Bool String Ascii List Lra Lia.
From Coq Require Import Floats.SpecFloat.
From Verif Require Import CoreModel CoreSpec IntSpec GammaFun.
From Verif Require Import Num XRFacts ExprModel ExprSpec ExprSubst ShowModel ShowSpec ShowProofs DensitySpec DistSpec
  BuilderProofs DistFacts DistProofs ContProofs2 JitModel JitSpec JitProofs JitProofs2 TaglessModel TaglessSpec TaglessProofs TaglessProofs2 TaglessGamma.
Import ListNotations.
Local Open Scope string_scope.
Local Open Scope list_scope.
Local Open Scope R_scope.

(** * C22: the interpreters agree *)
(** Direct evaluation gives the real value of the expression. *)
Theorem C22_direct_is_meaning : forall lg (vars : env (XR lg)) names (args : nat -> XR lg) t r, closed t ->
  (forall i, In i (inputs t) -> get vars (names i) = Some (args i)) ->
  denotes vars (tree names t) r -> interpret DirectEval args t = (Fin r : XR lg).
Proof. exact direct_denotes. Qed.
Print Assumptions C22_direct_is_meaning.
(** In any arithmetic (binary64 included) it equals what the evaluator of the
    built expression returns, literals 0 and 1 in sums and products aside ... *)
Theorem C22_direct_is_evaluate : forall (N : Num) (vars : env N) names args t, closed t ->
  (forall i, In i (inputs t) -> get vars (names i) = Some (args i)) -> no_units (tree names t) ->
  forall v, evaluate vars (tree names t) = Ok v -> interpret DirectEval args t = v.
Proof. intros N. exact direct_evaluate. Qed.
Print Assumptions C22_direct_is_evaluate.
(** ... and, for functions of one input, what [evaluate_single_var] returns. *)
Theorem C22_direct_is_evaluate_single_var : forall (N : Num) x (v : N) t, closed t ->
  forall w, evaluate_single_var x v (tree (fun _ => x) t) = Ok w -> interpret DirectEval (fun _ => v) t = w.
Proof. intros N. exact direct_single. Qed.
Print Assumptions C22_direct_is_evaluate_single_var.
(** With a literal 0 factor the two differ: 0 * infinity. *)
Theorem C22_zero_factor_refuted : exists (t : term (XR (fun _ => 0))) vars args, closed t /\
  get vars "x" = Some (args 0%nat) /\ inputs t = [0%nat] /\
  evaluate vars (tree (fun _ => "x") t) = Ok (Fin 0) /\ interpret DirectEval args t = (XNaN : XR (fun _ => 0)).
Proof.
  exists (TMul (TConst (Fin 0 : XR (fun _ => 0))) (TArg 0)), [("x", PInf : XR (fun _ => 0))], (fun _ => PInf).
  repeat split; try reflexivity.
  - cbn [tree interpret JITEval e_mul e_constant evaluate]. unfold is_lit. rewrite x_n0.
    cbn [neqb XR xeqb]. rewrite Req_b_refl. reflexivity.
  - change (xscale true 0 = XNaN). unfold xscale. rewrite Req_b_refl. reflexivity.
Qed.
Print Assumptions C22_zero_factor_refuted.
(** The interpreters for exponential families and distributions compute the
    same values. *)
Theorem C22_value_interpreters : forall (N : Num) (args : nat -> N) (t : term N), closed t ->
  interpret ExpFamEval (fun i => Some (args i)) t = Some (interpret DirectEval args t) /\
  interpret DistributionEval (fun i => Some (args i)) t = Some (interpret DirectEval args t).
Proof. intros N args t C. split; apply value_eval, C. Qed.
Print Assumptions C22_value_interpreters.
(** A variable created by name has no value in them (they panic) ... *)
Theorem C22_named_variables_panic_refuted : forall (N : Num) args (t : term N), ~ closed t ->
  interpret ExpFamEval args t = None.
Proof. intros N. exact value_eval_open. Qed.
Print Assumptions C22_named_variables_panic_refuted.
(** ... and is 0 in direct evaluation, whatever the variable stands for. *)
Theorem C22_named_variables_are_zero_refuted : forall (N : Num) args (x : string),
  interpret DirectEval args (TVar x : term N) = n0.
Proof. reflexivity. Qed.
Print Assumptions C22_named_variables_are_zero_refuted.
(** The library's functions are terms: running them in an interpreter is
    running their syntax, so everything here applies to them. *)
Theorem C22_library_functions_are_terms : forall (N : Num) (E : MathExpr N) args,
  (forall x, t_logistic E (interpret E args x) = interpret E args (t_logistic (Syntax N) x)) /\
  (forall x, t_softplus E (interpret E args x) = interpret E args (t_softplus (Syntax N) x)) /\
  (forall cs x, horner E cs (interpret E args x) = interpret E args (horner (Syntax N) cs x)) /\
  (forall cs x, horner_expr E (map (interpret E args) cs) (interpret E args x) = interpret E args (horner_expr (Syntax N) cs x)) /\
  (forall rs x, from_roots E rs (interpret E args x) = interpret E args (from_roots (Syntax N) rs x)) /\
  (forall cs x, horner_derivative E cs (interpret E args x) = interpret E args (horner_derivative (Syntax N) cs x)) /\
  (forall x m s, p_normal E (interpret E args x) (interpret E args m) (interpret E args s) =
                 interpret E args (p_normal (Syntax N) x m s)) /\
  (forall ps ss, dot_product E (map (interpret E args) ps) (map (interpret E args) ss) =
                 option_map (interpret E args) (dot_product (Syntax N) ps ss)) /\
  (forall vs, log_sum_exp E (map (interpret E args) vs) = interpret E args (log_sum_exp (Syntax N) vs)).
Proof.
  intros N E args. repeat split; intros;
    [apply nat_horner|apply nat_horner_expr|apply nat_from_roots|apply nat_horner_derivative|apply nat_dot_product|apply nat_log_sum_exp].
Qed.
Print Assumptions C22_library_functions_are_terms.
(** Pretty-printing is the displayed expression with spaces around "^". *)
Theorem C22_pretty_is_display : forall (N : Num) (show : N -> string) names t, good_show show ->
  names_ok identifier (tree names t) ->
  tighten (las (interpret (PrettyPrint show) names t)) = las (display show (tree names t)).
Proof. intros N. exact tighten_pretty. Qed.
Print Assumptions C22_pretty_is_display.
(** Different expressions print differently. *)
Theorem C22_pretty_injective : forall (N : Num) (show : N -> string) names t u, good_show show ->
  names_ok identifier (tree names t) -> names_ok identifier (tree names u) ->
  interpret (PrettyPrint show) names t = interpret (PrettyPrint show) names u -> tree names t = tree names u.
Proof. intros N. exact pretty_injective. Qed.
Print Assumptions C22_pretty_injective.
(** A function whose inputs are among the declared data variables and
    parameters compiles ... *)
Theorem C22_compiles : forall L (t : term f64) ds ps, @closed (F64 L) t ->
  (forall i, In i (inputs t) -> (i < List.length (ds ++ ps))%nat) ->
  exists f, compile_final_tagless (@tree (F64 L) (slot_name ds ps) t) ds ps [] = JOk f.
Proof. intros L t ds ps. exact (compile_closed t ds ps L). Qed.
Print Assumptions C22_compiles.
(** ... and, for +, -, *, /, negation and square root, the compiled code
    returns exactly the directly evaluated value, for every argument. *)
Theorem C22_compiled_is_direct : forall L (t : term f64) ds ps f args, @closed (F64 L) t -> rounded_ops t ->
  NoDup (ds ++ ps) -> List.length args = List.length (ds ++ ps) ->
  (forall i, In i (inputs t) -> (i < List.length (ds ++ ps))%nat) ->
  compile_final_tagless (@tree (F64 L) (slot_name ds ps) t) ds ps [] = JOk f ->
  invoke f (map AFloat args) = Returned (@interpret (F64 L) DirectEval (fun i => nth i args S754_nan) t).
Proof. exact compiled_direct. Qed.
Print Assumptions C22_compiled_is_direct.
(** Through the public call functions: one input, one parameter, two or three
    parameters. *)
Theorem C22_calls_are_direct : forall L (t : term f64), @closed (F64 L) t -> rounded_ops t ->
  (forall x f v, (forall i, In i (inputs t) -> i = 0%nat) ->
     compile_final_tagless (@tree (F64 L) (fun _ => x) t) [x] [] [] = JOk f ->
     call_single f v = Returned (@interpret (F64 L) DirectEval (fun _ => v) t)) /\
  (forall x p f v th, x <> p -> (forall i, In i (inputs t) -> (i < 2)%nat) ->
     compile_final_tagless (@tree (F64 L) (fun i => match i with O => x | _ => p end) t) [x] [p] [] = JOk f ->
     call_data_param f v th = Returned (@interpret (F64 L) DirectEval (fun i => match i with O => v | _ => th end) t)).
Proof.
  intros L t C X. split.
  - intros x f v I F. destruct (tagless_code _ _ _ _ _ F) as [A B]. rewrite (single_call f 1 0 _ _ A B). cbn [Nat.eqb andb].
    unfold evaluates. rewrite (jit_direct L _ (fun _ => x) (fun _ => v) t C X); [reflexivity|].
    intros i _. unfold total, tagless_binding, lookup_last. cbn. rewrite String.eqb_refl. reflexivity.
  - intros x p f v th N I F. destruct (tagless_code _ _ _ _ _ F) as [A B]. rewrite (data_param_call f 1 1 _ _ A B). cbn [Nat.eqb andb].
    unfold evaluates. rewrite (jit_direct L _ (fun i => match i with O => x | _ => p end) (fun i => match i with O => v | _ => th end) t C X); [reflexivity|].
    intros i J. unfold total, tagless_binding, lookup_last. specialize (I i J). cbn.
    destruct i as [|[|i]]; [| |lia].
    + destruct (String.eqb_spec x p); [contradiction|]. rewrite String.eqb_refl. reflexivity.
    + rewrite String.eqb_refl. reflexivity.
Qed.
Print Assumptions C22_calls_are_direct.
(** The entry points of the compiled interpreter: one variable; a variable and a
    parameter; a variable and any parameters; any variables and parameters.  Each
    compiles a function that takes its inputs in this order. *)
Theorem C22_entry_points : forall L (t : term f64), @closed (F64 L) t -> rounded_ops t ->
  (forall x f v, (forall i, In i (inputs t) -> i = 0%nat) ->
     compile_single_var (@tree (F64 L) (fun _ => x) t) x = JOk f ->
     call_single f v = Returned (@interpret (F64 L) DirectEval (fun _ => v) t)) /\
  (forall x p f v th, x <> p -> (forall i, In i (inputs t) -> (i < 2)%nat) ->
     compile_data_param (@tree (F64 L) (fun i => match i with O => x | _ => p end) t) x p = JOk f ->
     call_data_param f v th = Returned (@interpret (F64 L) DirectEval (fun i => match i with O => v | _ => th end) t)) /\
  (forall x ps f v ths, NoDup (x :: ps) -> List.length ths = List.length ps -> (forall i, In i (inputs t) -> (i < S (List.length ps))%nat) ->
     compile_data_params (@tree (F64 L) (slot_name [x] ps) t) x ps = JOk f ->
     invoke f (map AFloat (v :: ths)) = Returned (@interpret (F64 L) DirectEval (fun i => nth i (v :: ths) S754_nan) t)) /\
  (forall ds ps f vs ths, NoDup (ds ++ ps) -> List.length vs = List.length ds -> List.length ths = List.length ps ->
     (forall i, In i (inputs t) -> (i < List.length (ds ++ ps))%nat) ->
     compile_with_signature (@tree (F64 L) (slot_name ds ps) t) ds ps = JOk f ->
     invoke f (map AFloat (vs ++ ths)) = Returned (@interpret (F64 L) DirectEval (fun i => nth i (vs ++ ths) S754_nan) t) /\
     fn_sig f = choose_signature (List.length ds) (List.length ps)).
Proof.
  intros L t C X. destruct (C22_calls_are_direct L t C X) as [A B]. split; [exact A|]. split; [exact B|]. split.
  - intros x ps f v ths D E I F. apply (compiled_direct L t [x] ps f (v :: ths) C X D); [cbn; lia|exact I|exact F].
  - intros ds ps f vs ths D E E' I F. split; [apply (compiled_direct L t ds ps f (vs ++ ths) C X D); [rewrite !app_length; lia|exact I|exact F]|].
    unfold compile_with_signature, compile_final_tagless in F. destruct (gbind _ _ _) as [[r b]|]; [|discriminate]. injection F as <-. reflexivity.
Qed.
Print Assumptions C22_entry_points.
(** [compile] with an automatic signature always succeeds, for any order in
    which the variables are collected; with one variable calls evaluate the
    expression in the JIT's operators ... *)
Theorem C22_auto_compile : forall e,
  (forall order, collected e order -> exists f, compile_auto e order = JOk f) /\
  (forall x, collected e [x] -> exists f, compile_auto e [x] = JOk f /\ forall v, call_single f v = evaluates (fun _ => v) e).
Proof. intros e. split; [apply auto_compiles|apply auto_single]. Qed.
Print Assumptions C22_auto_compile.
(** ... but with two or more variables no call function accepts the result. *)
Theorem C22_auto_compile_uncallable_refuted : forall e order, collected e order -> (2 <= List.length order)%nat ->
  exists f, compile_auto e order = JOk f /\
  (forall v, call_single f v = Panicked) /\ (forall v t, call_data_param f v t = Panicked) /\
  (forall v ts, call_data_params f v ts = Panicked) /\
  (forall ds ps, call_batch f ds ps = Panicked \/ call_batch f ds ps = LayoutMismatch).
Proof. exact auto_many. Qed.
Print Assumptions C22_auto_compile_uncallable_refuted.
(** Logistic and softplus. *)
Theorem C22_logistic_softplus : forall lg x,
  t_logistic (@DirectEval (XR lg)) (Fin x) = (Fin (logistic_fn x) : XR lg) /\
  t_softplus (@DirectEval (XR lg)) (Fin x) = (Fin (softplus_fn x) : XR lg) /\
  t_sigmoid (@DirectEval (XR lg)) (Fin x) = (Fin (logistic_fn x) : XR lg) /\
  0 < logistic_fn x < 1 /\ logistic_fn (- x) = 1 - logistic_fn x /\
  (forall y, x < y -> logistic_fn x < logistic_fn y) /\
  derivable_pt_lim softplus_fn x (logistic_fn x).
Proof.
  intros lg x. split; [apply direct_logistic|]. split; [apply direct_softplus|]. split; [apply direct_logistic|].
  split; [apply logistic_unit|]. split; [apply logistic_symmetric|]. split; [apply logistic_increasing|apply softplus_derivative].
Qed.
Print Assumptions C22_logistic_softplus.
(** The exponential-family interface offers the same two functions; its values
    and those of the other entry points agree. *)
Theorem C22_entry_points_agree : forall (N : Num) (E : MathExpr N) args x y (v : N) name,
  ef_logistic E x = t_logistic E x /\ ef_softplus E x = t_softplus E x /\
  wrap_var E name = interpret E args (TVar name) /\ wrap_constant E v = interpret E args (TConst v) /\
  direct_var name v = v /\ direct_var name v = interpret DirectEval (fun _ => v) (TArg y).
Proof. intros. repeat split. Qed.
Print Assumptions C22_entry_points_agree.

(** [x * x + y / 3], run three ways. *)
Definition demo : term f64 := TAdd (TMul (TArg 0) (TArg 0)) (TDiv (TArg 1) (TConst (f64_of_Z 3))).
Example C22_demo_hypotheses : closed demo /\ rounded_ops demo /\ inputs demo = [0; 0; 1]%nat.
Proof. repeat split. Qed.
Example C22_demo_runs : forall L,
  match compile_final_tagless (@tree (F64 L) (slot_name ["x"] ["y"]) demo) ["x"] ["y"] [] with
  | JOk f => call_data_param f (f64_of_Z 3) (f64_of_Z 6) = Returned (f64_of_Z 11)
  | JErr _ => False
  end.
Proof. intros L. vm_compute. reflexivity. Qed.
Example C22_demo_prints : @interpret (F64 (mkLibm (fun x => x) (fun x => x) (fun x _ => x) (fun x => x) (fun x => x) (fun x => x)))
  (PrettyPrint (fun _ => "3")) (slot_name ["x"] ["y"]) demo = "((x * x) + (y / 3))".
Proof. reflexivity. Qed.

(** * C23: polynomials *)
Theorem C23_horner : forall lg cs x,
  horner (@DirectEval (XR lg)) (map (fun c => Fin c) cs) (Fin x) = (Fin (poly cs x) : XR lg) /\
  horner_expr (@DirectEval (XR lg)) (map (fun c => Fin c) cs) (Fin x) = (Fin (poly cs x) : XR lg).
Proof. intros lg cs x. split; [apply direct_horner|apply direct_horner_expr]. Qed.
Print Assumptions C23_horner.
Theorem C23_from_roots : forall lg rs x,
  from_roots (@DirectEval (XR lg)) (map (fun c => Fin c) rs) (Fin x) = (Fin (root_product rs x) : XR lg) /\
  (root_product rs x = 0 <-> In x rs).
Proof. intros lg rs x. split; [apply direct_from_roots|apply root_product_zero]. Qed.
Print Assumptions C23_from_roots.
Theorem C23_horner_derivative : forall lg cs x, exists d,
  horner_derivative (@DirectEval (XR lg)) (map (fun c => Fin c) cs) (Fin x) = (Fin d : XR lg) /\
  derivable_pt_lim (poly cs) x d.
Proof. intros lg cs x. apply direct_horner_derivative. Qed.
Print Assumptions C23_horner_derivative.
(** No coefficients, no roots. *)
Theorem C23_empty : forall (N : Num) (E : MathExpr N) x c,
  horner E [] x = e_constant E n0 /\ horner_expr E [] x = e_constant E n0 /\ from_roots E [] x = e_constant E n1 /\
  horner_derivative E [] x = e_constant E n0 /\ horner_derivative E [c] x = e_constant E n0 /\ horner E [c] x = e_constant E c.
Proof. intros. repeat split. Qed.
Print Assumptions C23_empty.
(** The same holds for the expressions these build: every interpreter agrees
    with the direct one by C22, since they are closed. *)
Theorem C23_any_interpreter : forall (N : Num) cs (x : term N), closed x ->
  closed (horner (Syntax N) cs x) /\ closed (from_roots (Syntax N) cs x).
Proof. intros N cs x C. split; [apply closed_horner, C|apply closed_from_roots, C]. Qed.
Print Assumptions C23_any_interpreter.
Example C23_cubic : poly [1; 2; 0; 4] 3 = 115 /\ root_product [1; 2] 5 = 12.
Proof. unfold poly, root_product. cbn. split; lra. Qed.

(** * C43: distribution patterns *)
Theorem C43_patterns : forall lg,
  (forall x, p_standard_normal (@DirectEval (XR lg)) (Fin x) = (Fin (ln (normal_pdf 0 1 x)) : XR lg)) /\
  (forall m s x, 0 < s -> p_normal (@DirectEval (XR lg)) (Fin x) (Fin m) (Fin s) = (Fin (ln (normal_pdf m s x)) : XR lg)) /\
  (forall l x, 0 < l -> 0 <= x -> p_exponential (@DirectEval (XR lg)) (Fin x) (Fin l) = (Fin (ln (exponential_pdf l x)) : XR lg)) /\
  (forall x0 g x, 0 < g -> p_cauchy (@DirectEval (XR lg)) (Fin x) (Fin x0) (Fin g) = (Fin (ln (cauchy_pdf x0 g x)) : XR lg)).
Proof.
  intros lg. split; [apply pattern_standard_normal|]. split; [apply pattern_normal|].
  split; [intros; apply pattern_exponential; assumption|apply pattern_cauchy].
Qed.
Print Assumptions C43_patterns.
(** The interpreter for distributions: normal and exponential, with the
    support check; gamma for shapes up to 12. *)
Theorem C43_distribution_eval : forall lg,
  (forall m s x, 0 < s -> @de_normal (XR lg) (Fin x) (Fin m) (Fin s) = (Fin (ln (normal_pdf m s x)) : XR lg)) /\
  (forall l x, 0 < l -> @de_exponential (XR lg) (Fin x) (Fin l) = (if Rle_dec 0 x then Fin (ln (exponential_pdf l x)) else NInf : XR lg)) /\
  (forall a b x, 0 < b -> 0 < x -> a <= 12 -> @de_gamma (XR lg) (Fin x) (Fin a) (Fin b) = (Fin (ln (gamma_pdf lg a b x)) : XR lg)) /\
  (forall a b x, x <= 0 -> @de_gamma (XR lg) (Fin x) a b = (NInf : XR lg)).
Proof.
  intros lg. split; [apply eval_normal|]. split; [apply eval_exponential|]. split; [apply eval_gamma_small|apply eval_gamma_outside].
Qed.
Print Assumptions C43_distribution_eval.
(** Its log-gamma: exact up to 12, and for larger integers below the true
    value by at most 1/(12 n), so the gamma log-density is too large by that. *)
Theorem C43_log_gamma_stirling : forall lg n, lg_factorial lg -> (1 <= n)%nat -> exists v,
  @de_log_gamma (XR lg) (Fin (INR n)) = (Fin v : XR lg) /\ (n <= 12 -> v = lg (INR n))%nat /\
  ((12 < n)%nat -> v < lg (INR n) /\ lg (INR n) - v <= / (12 * INR n)).
Proof. exact stirling_lg. Qed.
Print Assumptions C43_log_gamma_stirling.
(** At every positive shape: exact up to 12, beyond it below the logarithm of
    the gamma function by at most 1/(12 a), and the gamma log-density above the
    textbook one by as much. *)
Theorem C43_log_gamma : forall lg, lg_is_log_gamma lg -> forall a, 0 < a -> exists v,
  @de_log_gamma (XR lg) (Fin a) = (Fin v : XR lg) /\ (a <= 12 -> v = lg a) /\ (12 < a -> v < lg a <= v + / (12 * a)).
Proof. exact de_log_gamma_value. Qed.
Print Assumptions C43_log_gamma.
Theorem C43_gamma_density : forall lg, lg_is_log_gamma lg -> forall a b x, 0 < a -> 0 < b -> 0 < x -> exists v,
  @de_gamma (XR lg) (Fin x) (Fin a) (Fin b) = (Fin v : XR lg) /\ (a <= 12 -> v = ln (gamma_pdf lg a b x)) /\
  (12 < a -> ln (gamma_pdf lg a b x) < v <= ln (gamma_pdf lg a b x) + / (12 * a)).
Proof. exact de_gamma_value. Qed.
Print Assumptions C43_gamma_density.
Example C43_gamma_density_case : exists lg, lg_is_log_gamma lg /\ exists v,
  @de_gamma (XR lg) (Fin 3) (Fin (25/2)) (Fin 2) = (Fin v : XR lg) /\
  ln (gamma_pdf lg (25/2) 2 3) < v <= ln (gamma_pdf lg (25/2) 2 3) + / 150.
Proof.
  destruct log_gamma_exists as [lg H]. exists lg. split; [exact H|].
  destruct (de_gamma_value lg H (25/2) 2 3 ltac:(lra) ltac:(lra) ltac:(lra)) as (v & E & _ & B). exists v. split; [exact E|].
  specialize (B ltac:(lra)). replace (/ 150) with (/ (12 * (25 / 2))) by field. exact B.
Qed.
(** The exponential pattern has no support check. *)
Theorem C43_exponential_support_refuted : forall lg l x, 0 < l -> x < 0 -> exists v,
  p_exponential (@DirectEval (XR lg)) (Fin x) (Fin l) = (Fin v : XR lg) /\ ln l < v.
Proof.
  intros lg l x P N. rewrite pattern_exponential by exact P. eexists. split; [reflexivity|].
  rewrite ln_exponential_pdf by exact P. nra.
Qed.
Print Assumptions C43_exponential_support_refuted.
(** The Poisson pattern subtracts ln x instead of ln x!: right only at 1 and
    2, +inf at 0, too large from 3 on. *)
Theorem C43_poisson_refuted : forall lg l, 0 < l ->
  (forall k, p_poisson (@DirectEval (XR lg)) (Fin (INR k)) (Fin l) = (Fin (ln (poisson_pmf l k)) : XR lg) <-> k = 1%nat \/ k = 2%nat) /\
  p_poisson (@DirectEval (XR lg)) (Fin 0) (Fin l) = (PInf : XR lg) /\
  (forall k, (3 <= k)%nat -> exists v,
     p_poisson (@DirectEval (XR lg)) (Fin (INR k)) (Fin l) = (Fin v : XR lg) /\ ln (poisson_pmf l k) < v).
Proof.
  intros lg l P. split; [intros k; apply pattern_poisson_right, P|]. split; [apply pattern_poisson_zero, P|].
  intros k K. apply pattern_poisson_above; assumption.
Qed.
Print Assumptions C43_poisson_refuted.
(** The gamma, beta and Student-t patterns panic in every interpreter. *)
Theorem C43_special_functions_panic_refuted : forall (N : Num) (E : MathExpr N) x a b,
  p_gamma E x a b = None /\ p_beta E x a b = None /\ p_student_t E x a = None.
Proof. intros. repeat split. Qed.
Print Assumptions C43_special_functions_panic_refuted.
(** So do the special functions themselves, and every operation of the
    distribution interface, with everything built on them. *)
Theorem C43_distribution_interface_panics_refuted : forall (N : Num) (E : MathExpr N) x y ps qs,
  (gamma_function E x = None /\ log_gamma_function E x = None /\ beta_function E x y = None /\ log_beta E x y = None /\
   t_erf E x = None /\ t_erfc E x = None) /\
  (d_log_density E x ps = None /\ d_cdf E x ps = None /\ d_survival E x ps = None /\ d_log_cdf E x ps = None /\
   d_log_survival E x ps = None) /\
  (d_mgf E x ps = None /\ d_characteristic E x ps = None /\ d_raw_moment E x ps = None /\ d_central_moment E x ps = None /\
   d_standardized_moment E x ps = None /\ d_entropy E ps = None /\ d_kl_divergence E ps qs = None /\
   d_fisher_information E ps = None).
Proof. intros. repeat split. Qed.
Print Assumptions C43_distribution_interface_panics_refuted.
Example C43_log_gamma_exists : exists lg, lg_factorial lg.
Proof.
  exists (fun x => ln (INR (fact (pred (Z.to_nat (up x - 1)))))). intros n. do 3 f_equal.
  replace (up (INR (S n))) with (Z.of_nat (S n) + 1)%Z.
  - replace (Z.of_nat (S n) + 1 - 1)%Z with (Z.of_nat (S n)) by lia. rewrite Nat2Z.id. reflexivity.
  - apply tech_up; rewrite plus_IZR, <- INR_IZR_INZ; lra.
Qed.

(** * C52: exponential-family operations *)
Theorem C52_dot_product : forall lg ps ss,
  (List.length ps = List.length ss ->
   dot_product (@DirectEval (XR lg)) (map (fun r => Fin r) ps) (map (fun r => Fin r) ss) = Some (Fin (inner ps ss) : XR lg)) /\
  @dot_product_array (XR lg) (map (fun r => Fin r) ps) (map (fun r => Fin r) ss) = (Fin (inner ps ss) : XR lg).
Proof. intros lg ps ss. split; [apply direct_dot|apply direct_dot_array]. Qed.
Print Assumptions C52_dot_product.
(** Different lengths panic, in every interpreter; the array helper instead
    ignores the excess. *)
Theorem C52_length_mismatch : forall (N : Num) (E : MathExpr N) ps ss,
  dot_product E ps ss = None <-> List.length ps <> List.length ss.
Proof.
  intros N E ps ss. unfold dot_product. destruct (Nat.eqb_spec (List.length ps) (List.length ss)) as [L|L].
  - split; [destruct ps, ss; discriminate|intros K; contradiction].
  - split; [intros _; exact L|reflexivity].
Qed.
Print Assumptions C52_length_mismatch.
Theorem C52_array_truncates_refuted : forall lg p s x, @dot_product_array (XR lg) [Fin p; Fin x] [Fin s] = (Fin (p * s) : XR lg).
Proof.
  intros lg p s x. pose proof (direct_dot_array lg [p; x] [s]) as H. cbn [map] in H. etransitivity; [exact H|]. f_equal.
  unfold inner. cbn. ring.
Qed.
Print Assumptions C52_array_truncates_refuted.
(** Sums of sufficient statistics, by coordinate; both versions. *)
Theorem C52_sum_stats : forall lg d v vs, Forall (fun w => List.length w = d) (v :: vs) ->
  sum_sufficient_stats (@DirectEval (XR lg)) (map (map (fun r => Fin r)) (v :: vs)) = Some (map (fun r => Fin r : XR lg) (vsum d (v :: vs))) /\
  @sum_stats_array (XR lg) (map (map (fun r => Fin r)) (v :: vs)) = Some (map (fun r => Fin r : XR lg) (vsum d (v :: vs))).
Proof. intros lg d v vs F. split; [apply direct_sum_stats, F|apply sum_array_value, F]. Qed.
Print Assumptions C52_sum_stats.
(** They panic exactly when a later vector is shorter (the generic version) or
    longer (the array version) than the first. *)
Theorem C52_sum_stats_panics : forall lg (first : list (XR lg)) rest,
  (sum_sufficient_stats (@DirectEval (XR lg)) (first :: rest) = None <-> exists v, In v rest /\ (List.length v < List.length first)%nat) /\
  (@sum_stats_array (XR lg) (first :: rest) = None <-> exists v, In v rest /\ (List.length first < List.length v)%nat).
Proof. intros. split; [apply sum_stats_panics|apply sum_array_panics]. Qed.
Print Assumptions C52_sum_stats_panics.
(** The log-density of a sample is the sum of the log-densities of its
    members, whatever the sample. *)
Theorem C52_iid_is_sum : forall lg ps a (sample : list (list R * R)), sample <> [] ->
  Forall (fun s => List.length (fst s) = List.length ps) sample -> exists total each,
  t_iid_log_density (@DirectEval (XR lg)) (map (fun r => Fin r) ps)
    (map (fun r => Fin r) (vsum (List.length ps) (map fst sample))) (Fin a)
    (Fin (INR (List.length sample))) (Fin (total_of (map snd sample))) = Some (Fin total : XR lg) /\
  Forall2 (fun s v => t_exp_fam_log_density (@DirectEval (XR lg)) (map (fun r => Fin r) ps) (map (fun r => Fin r) (fst s))
                        (Fin a) (Fin (snd s)) = Some (Fin v : XR lg)) sample each /\
  total = total_of each.
Proof.
  intros lg ps a sample NE F.
  exists (inner ps (vsum (List.length ps) (map fst sample)) - INR (List.length sample) * a + total_of (map snd sample)).
  exists (map (fun s => inner ps (fst s) - a + snd s) sample). split; [|split].
  - apply direct_iid. unfold vsum. rewrite map_length, seq_length. reflexivity.
  - clear NE. induction F as [|s l L F IH]; constructor; [|exact IH]. apply direct_exp_fam. symmetry. exact L.
  - rewrite inner_vsum by (apply Forall_map; exact F). clear F NE.
    induction sample as [|s l IH]; [cbn; ring|]. cbn [map List.length]. rewrite S_INR. unfold total_of in *. cbn [fold_right].
    cbn [map] in IH. lra.
Qed.
Print Assumptions C52_iid_is_sum.
Example C52_sample : Forall (fun s => List.length (fst s) = List.length [1; 2]) [([3; 4], 5); ([6; 7], 8)].
Proof. repeat constructor. Qed.
(** Log-sum-exp. *)
Theorem C52_log_sum_exp : forall lg x l,
  log_sum_exp (@DirectEval (XR lg)) (map (fun r => Fin r) (x :: l)) = (Fin (ln (total_of (map exp (x :: l)))) : XR lg) /\
  log_sum_exp (@DirectEval (XR lg)) [] = (NInf : XR lg).
Proof. intros lg x l. split; [apply direct_log_sum_exp|reflexivity]. Qed.
Print Assumptions C52_log_sum_exp.
(** It is not computed stably: in binary64, with any [exp] that overflows at
    1000 and any [ln] that maps infinity to itself, the value for 1000 and
    1000 (which is 1000 + ln 2) is infinite. *)
Theorem C52_log_sum_exp_overflow_refuted : forall L, l_exp L (f64_of_Z 1000) = S754_infinity false ->
  l_ln L (S754_infinity false) = S754_infinity false ->
  log_sum_exp (@DirectEval (F64 L)) [f64_of_Z 1000; f64_of_Z 1000] = S754_infinity false.
Proof.
  intros L E1 E2. cbn [log_sum_exp fold_left DirectEval e_ln e_add e_exp nln nexp nadd F64]. rewrite E1. exact E2.
Qed.
Print Assumptions C52_log_sum_exp_overflow_refuted.
