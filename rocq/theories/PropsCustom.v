(** Custom log-densities, evaluated and compiled (C56); compilation statistics
    (C57). *)
From Coq Require Import ZArith Reals Bool String List Lia.
From Coq Require Import Floats.SpecFloat.
From Verif Require Import Num ExprModel ExprSpec ExprEval ExprSubst JitModel JitSpec JitProofs JitProofs2 CustomModel CustomSpec CustomProofs
  TaglessModel EggSpec FloatErr AccSpec RoundSpec.
Import ListNotations.
Local Open Scope string_scope.
Local Open Scope list_scope.

(** * C56 *)
(** Evaluation uses the caller's values where given, the parameters otherwise. *)
Theorem C56_evaluate : forall L (s : custom_density) (vars m : env f64), wf_env vars ->
  (forall x, get m x = match get vars x with Some v => Some v | None => get (cd_parameters s) x end) ->
  custom_evaluate L s vars = @evaluate (F64 L) m (cd_expression s).
Proof.
  intros L s vars m W H. unfold custom_evaluate.
  exact (@sld_evaluate_spec (F64 L) (@mkSLD (F64 L) (cd_expression s) (cd_parameters s) (cd_variables s)) vars m W H).
Qed.
Print Assumptions C56_evaluate.
Theorem C56_evaluate_single : forall L (s : custom_density) x v (m : env f64),
  (forall y, get m y = if String.eqb y x then Some v else get (cd_parameters s) y) ->
  custom_evaluate_single L s x v = @evaluate (F64 L) m (cd_expression s).
Proof.
  intros L s x v m H. unfold custom_evaluate_single. apply (@evaluate_ext (F64 L)). intros y O. rewrite H, get_insert. reflexivity.
Qed.
Print Assumptions C56_evaluate_single.
(** A density with one data variable compiles exactly when that variable's name
    sorts before all parameter names; with two unknown names it never does. *)
Theorem C56_compiles_iff_data_variable_first : forall L e ps x, data_variable x e ps ->
  ((exists f, compile_custom_expression (custom_new L e ps) = JOk f) <-> first_name x e).
Proof. exact custom_compiles. Qed.
Print Assumptions C56_compiles_iff_data_variable_first.
Theorem C56_two_unknown_names_fail : forall L e ps x y, occurs x e -> occurs y e -> x <> y ->
  get ps x = None -> get ps y = None -> exists err, compile_custom_expression (custom_new L e ps) = JErr err.
Proof. exact custom_two_unknown. Qed.
Print Assumptions C56_two_unknown_names_fail.
(** When it compiles, the call is what [evaluate_single] returns: exactly for
    exactly rounded operations, within the error bounds otherwise. *)
Theorem C56_compiled_exact : forall L e ps x v w f, first_name x e ->
  compile_custom_expression (custom_new L e ps) = JOk f -> exact_ops e -> no_unit_literals e ->
  custom_evaluate_single L (custom_new L e ps) x v = Ok w -> call_single f v = Returned w.
Proof. exact custom_exact. Qed.
Print Assumptions C56_compiled_exact.
Theorem C56_compiled_accuracy : forall L c lg e ps x v f r d1 s d2, libm_ok c lg L -> (0 <= c)%R -> first_name x e ->
  compile_custom_expression (custom_new L e ps) = JOk f ->
  eval_bound c (value_of (insert ps x v)) e r d1 -> accurate (value_of (insert ps x v)) e s d2 ->
  r = s /\ exists a b, custom_evaluate_single L (custom_new L e ps) x v = Ok a /\ call_single f v = Returned b /\
    (Rabs (val a - val b) <= d1 + d2)%R.
Proof. exact custom_accurate. Qed.
Print Assumptions C56_compiled_accuracy.
(** A squared error with parameter "mu" and data "x" evaluates but does not
    compile, because "mu" sorts first. *)
Theorem C56_parameter_sorts_first_refuted : forall L, exists e ps v w err,
  data_variable "x" e ps /\ custom_evaluate_single L (custom_new L e ps) "x" v = Ok w /\
  compile_custom_expression (custom_new L e ps) = JErr err.
Proof.
  intros L. exists (Mul (Sub (Var "x") (Var "mu")) (Sub (Var "x") (Var "mu"))), [("mu", f64_of_Z 1)], (f64_of_Z 3), (f64_of_Z 4), (UnsupportedExpression "x").
  split; [|split; [vm_compute; reflexivity|reflexivity]]. split; [repeat constructor|]. split; [reflexivity|].
  intros y O NE. assert (Y : y = "x" \/ y = "mu").
  { repeat match goal with H : occurs _ _ |- _ => inversion H; clear H; subst end; auto. }
  destruct Y as [-> | ->]; [congruence|]. cbn. discriminate.
Qed.
Print Assumptions C56_parameter_sorts_first_refuted.
(** A density without data variable: evaluation uses the parameter, the
    compiled code silently replaces the first parameter by its argument. *)
Theorem C56_closed_density_refuted : forall L, exists e ps v w f, (forall y, occurs y e -> get ps y <> None) /\
  custom_evaluate L (custom_new L e ps) [] = Ok w /\
  compile_custom_expression (custom_new L e ps) = JOk f /\ call_single f v = Returned v /\ v <> w.
Proof.
  intros L. exists (Var "a"), [("a", f64_of_Z 5)], (f64_of_Z 1), (f64_of_Z 5). eexists. split.
  - intros y O. inversion O; subst. cbn. discriminate.
  - split; [reflexivity|]. split; [reflexivity|]. split; [reflexivity|]. vm_compute. discriminate.
Qed.
Print Assumptions C56_closed_density_refuted.
(** Simplification keeps the old list of names, so that a simplified density
    may stop compiling although its expression has one name only. *)
Theorem C56_simplified_does_not_compile_refuted : forall L, exists e,
  cd_expression (custom_simplify L (custom_new L e [])) = Var "x" /\
  (exists err, compile_custom_expression (custom_simplify L (custom_new L e [])) = JErr err) /\
  exists f, compile_custom_expression (custom_new L (Var "x") []) = JOk f.
Proof.
  intros L. exists (Add (Mul (Const (f64_of_Z 0)) (Var "a")) (Var "x")). split; [reflexivity|]. split; eexists; reflexivity.
Qed.
Print Assumptions C56_simplified_does_not_compile_refuted.
(** x * scale with data "a" and parameter "scale". *)
Example C56_case : forall L, let e := Mul (Var "a") (Var "scale") in let ps := [("scale", f64_of_Z 7)] in
  data_variable "a" e ps /\ first_name "a" e /\
  match compile_custom_expression (custom_new L e ps) with JOk f => call_single f (f64_of_Z 3) = Returned (f64_of_Z 21) | JErr _ => False end.
Proof.
  intros L e ps. assert (Y : forall y, occurs y e -> y = "a" \/ y = "scale").
  { intros y O. repeat match goal with H : occurs _ _ |- _ => inversion H; clear H; subst end; auto. }
  split; [|split; [|vm_compute; reflexivity]].
  - split; [repeat constructor|]. split; [reflexivity|]. intros y O NE. destruct (Y y O) as [-> | ->]; [congruence|]. cbn. discriminate.
  - split; [repeat constructor|]. intros y O NE. destruct (Y y O) as [-> | ->]; [congruence|reflexivity].
Qed.

(** * C57 *)
Theorem C57_counts : forall L (e : expr f64),
  @complexity (F64 L) e = how_many is_binary e + how_many is_function e + how_many is_neg e /\
  count_constants e = how_many is_const e /\
  estimate_complexity e = how_many is_leaf e + how_many is_binary e + how_many is_neg e + 3 * how_many is_function e.
Proof. intros L e. split; [apply operators_count|]. split; [apply constants_count|apply complexity_count]. Qed.
Print Assumptions C57_counts.
Theorem C57_compile_statistics : forall e ds ps cs f, compile_expression e ds ps cs = JOk f ->
  clif_instructions (fn_stats f) =
    List.length ds + List.length ps + 2 + how_many is_const e + how_many is_binary e + 3 * (how_many is_function e + how_many is_neg e) /\
  embedded_constants (fn_stats f) = List.length cs.
Proof.
  intros e ds ps cs f H. unfold compile_expression in H. destruct (generate_clif _ _ _ _) as [[r b]|]; [|discriminate]. injection H as <-.
  cbn [fn_stats clif_instructions embedded_constants]. split; [|reflexivity]. unfold estimate_clif_instructions. rewrite instructions_count. lia.
Qed.
Print Assumptions C57_compile_statistics.
Theorem C57_tagless_statistics : forall e ds ps cs f, compile_final_tagless e ds ps cs = JOk f ->
  clif_instructions (fn_stats f) = how_many is_leaf e + how_many is_binary e + how_many is_neg e + 3 * how_many is_function e /\
  embedded_constants (fn_stats f) = List.length cs.
Proof.
  intros e ds ps cs f H. unfold compile_final_tagless in H. destruct (gbind _ _ _) as [[r b]|]; [|discriminate]. injection H as <-.
  cbn [fn_stats clif_instructions embedded_constants]. split; [apply complexity_count|reflexivity].
Qed.
Print Assumptions C57_tagless_statistics.
(** For arithmetic over the arguments the reported number is the number of
    instructions generated plus one per argument plus two ... *)
Theorem C57_instruction_count_arithmetic : forall e ds ps cs f, compile_expression e ds ps cs = JOk f -> arithmetic e ->
  (forall x, occurs x e -> In x (ds ++ ps)) ->
  clif_instructions (fn_stats f) = List.length (fn_body f) + List.length ds + List.length ps + 2.
Proof. exact arithmetic_instructions. Qed.
Print Assumptions C57_instruction_count_arithmetic.
(** ... with functions it is an underestimate. *)
Theorem C57_instruction_count_refuted : exists e ds f, compile_expression e ds [] [] = JOk f /\
  clif_instructions (fn_stats f) + 20 <= List.length (fn_body f).
Proof.
  exists (Exp (Var "x")), ["x"].
  assert (C : match compile_expression (Exp (Var "x")) ["x"] [] [] with
              | JOk f => Nat.leb (clif_instructions (fn_stats f) + 20) (List.length (fn_body f)) | JErr _ => false end = true) by (vm_compute; reflexivity).
  destruct (compile_expression (Exp (Var "x")) ["x"] [] []) as [f|]; [|discriminate]. exists f. split; [reflexivity|]. apply Nat.leb_le, C.
Qed.
Print Assumptions C57_instruction_count_refuted.
(** The estimated speedup: between 15 and 100, increasing, and
    min(15 + 2 sqrt(complexity), 100) up to rounding. *)
Theorem C57_speedup : forall n, (Z.of_nat n <= 2 ^ 64)%Z ->
  is_num (estimate_speedup n) /\ (15 <= val (estimate_speedup n) <= 100)%R /\
  (Rabs (val (estimate_speedup n) - Rmin (15 + 2 * sqrt (INR n)) 100) <= / 10 ^ 13)%R.
Proof. exact speedup_props. Qed.
Print Assumptions C57_speedup.
Theorem C57_speedup_monotone : forall n m, n <= m -> (Z.of_nat m <= 2 ^ 64)%Z ->
  (val (estimate_speedup n) <= val (estimate_speedup m))%R.
Proof. exact speedup_mono. Qed.
Print Assumptions C57_speedup_monotone.
(** The speedup reported by a compiled expression is the estimate at its number
    of operators and functions; by a compiled final-tagless expression, at its
    weighted count of nodes, which is larger. *)
Theorem C57_reported_speedups : forall L e,
  expression_speedup L e = estimate_speedup (how_many is_binary e + how_many is_function e + how_many is_neg e) /\
  tagless_speedup e = estimate_speedup (how_many is_leaf e + how_many is_binary e + how_many is_neg e + 3 * how_many is_function e) /\
  ((Z.of_nat (how_many is_leaf e + how_many is_binary e + how_many is_neg e + 3 * how_many is_function e) <= 2 ^ 64)%Z ->
   (val (expression_speedup L e) <= val (tagless_speedup e))%R).
Proof. exact reported_speedups. Qed.
Print Assumptions C57_reported_speedups.
(** Compiling a final-tagless expression with constants: it compiles exactly when
    every name is an argument or a constant, and the code computes the
    expression with those bindings. *)
Theorem C16_compile_with_constants : forall e ds ps cs,
  ((exists f, compile_with_constants e ds ps cs = JOk f) <-> (forall x, occurs x e -> In x (ds ++ ps) \/ In x (map fst cs))) /\
  (forall f, compile_with_constants e ds ps cs = JOk f ->
     code_of f (List.length ds + List.length ps) e (tagless_binding ds ps cs) /\ well_formed f).
Proof. intros e ds ps cs. split; [apply tagless_ok|]. intros f H. split; [apply (tagless_code e ds ps cs f H)|apply (tagless_well_formed e ds ps cs f H)]. Qed.
Print Assumptions C16_compile_with_constants.
Example C57_case : match compile_expression (Div (Add (Var "x") (Const (f64_of_Z 2))) (Var "t")) ["x"] ["t"] [] with
  | JOk f => clif_instructions (fn_stats f) = 7 /\ List.length (fn_body f) = 3 | JErr _ => False end.
Proof. vm_compute. split; reflexivity. Qed.
Example C57_speedup_case : estimate_speedup 25 = f64_of_Z 25.
Proof. vm_compute. reflexivity. Qed.
