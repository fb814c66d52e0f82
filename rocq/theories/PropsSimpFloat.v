(** C58: simplification on binary64 numbers. *)
From Coq Require Import ZArith Reals Bool String List Lia Lra.
From Coq Require Import Floats.SpecFloat.
From Flocq Require Import Core.
From Verif Require Import Num ExprModel ExprSpec JitModel CustomModel EggSpec FloatErr RoundSpec RoundProofs DistFloat SimpFloatSpec SimpFloat SimpFloat2.
Import ListNotations.
Local Open Scope string_scope.
Local Open Scope R_scope.

(** In binary64, whatever rounding happens along the way: if every
    subexpression evaluates to a finite number and no rule that trades one
    library call for another applies, the simplified expression evaluates to a
    number equal (in the sense of [==]) to the original one. *)
Theorem C58_simplify_keeps_the_rounded_value :
  forall (L : libm) (vars : env (F64 L)) (e : expr (F64 L)),
  annex_f L ->
  (forall s, In s (subexprs e) -> exists q, evaluate vars s = Ok q /\ is_num q) ->
  (forall s, In s (subexprs e) -> keeps_rounding s) ->
  exists v w, evaluate vars e = Ok v /\ evaluate vars (simplify e) = Ok w /\
    is_num v /\ is_num w /\ val v = val w /\ SFeqb v w = true.
Proof. intros L vars e A. exact (simplify_float A vars e). Qed.
Print Assumptions C58_simplify_keeps_the_rounded_value.

(** The same with a condition that can be read off the expression. *)
Theorem C58_simplify_keeps_the_rounded_value_calm :
  forall (L : libm) (vars : env (F64 L)) (e : expr (F64 L)),
  annex_f L ->
  (forall s, In s (subexprs e) -> exists q, evaluate vars s = Ok q /\ is_num q) ->
  calm e = true ->
  exists v w, evaluate vars e = Ok v /\ evaluate vars (simplify e) = Ok w /\
    is_num v /\ is_num w /\ val v = val w /\ SFeqb v w = true.
Proof. intros L vars e A H C. exact (simplify_float A vars e H (proj2 (proj2 (calm_shape e C)))). Qed.
Print Assumptions C58_simplify_keeps_the_rounded_value_calm.

(** The same for custom log-densities (C56): simplified, they evaluate to an
    equal number under the same bindings, their parameters still in force. *)
Theorem C56_simplified_evaluates : forall L (s : custom_density) (vars : env f64), annex_f L ->
  (forall t, In t (subexprs (cd_expression s)) -> exists q, @evaluate (F64 L) (extend (cd_parameters s) vars) t = Ok q /\ is_num q) ->
  calm (cd_expression s) = true ->
  exists v w, custom_evaluate L s vars = Ok v /\ custom_evaluate L (custom_simplify L s) vars = Ok w /\
    is_num v /\ is_num w /\ val v = val w /\ SFeqb v w = true.
Proof. intros L s vars A H C. exact (C58_simplify_keeps_the_rounded_value_calm L (extend (cd_parameters s) vars) (cd_expression s) A H C). Qed.
Print Assumptions C56_simplified_evaluates.
Theorem C56_simplified_evaluates_single : forall L (s : custom_density) x y, annex_f L ->
  (forall t, In t (subexprs (cd_expression s)) -> exists q, @evaluate (F64 L) (insert (cd_parameters s) x y) t = Ok q /\ is_num q) ->
  calm (cd_expression s) = true ->
  exists v w, custom_evaluate_single L s x y = Ok v /\ custom_evaluate_single L (custom_simplify L s) x y = Ok w /\
    is_num v /\ is_num w /\ val v = val w /\ SFeqb v w = true.
Proof. intros L s x y A H C. exact (C58_simplify_keeps_the_rounded_value_calm L (insert (cd_parameters s) x y) (cd_expression s) A H C). Qed.
Print Assumptions C56_simplified_evaluates_single.

(** The condition on the library holds of a correctly rounded one. *)
Theorem C58_rounded_library : forall lg, annex_f (rounded_libm lg).
Proof. exact rounded_annex. Qed.
Print Assumptions C58_rounded_library.

(** Where a rule trades library calls the value can change completely: for every
    library accurate to 1000 units, [ln(exp(x))] at [x = 2^-60] is not [x], but
    it is simplified to [x]. *)
Theorem C58_ln_of_exp_refuted :
  forall c lg L, libm_ok c lg L -> 0 <= c <= 1000 ->
  exists (vars : env (F64 L)) (x v : f64),
    evaluate vars (Ln (Exp (Var "x"))) = Ok v /\
    evaluate vars (simplify (Ln (Exp (Var "x")))) = Ok x /\
    is_num v /\ is_num x /\ val x = bpow radix2 (-60) /\ val v <> val x.
Proof.
  intros c lg L K C. destruct (ln_exp_loses c lg L K C) as (w & E & N & V).
  exists [("x", tiny_x : F64 L)], tiny_x, w. split; [exact E|]. split; [reflexivity|]. destruct tiny_num. auto.
Qed.
Print Assumptions C58_ln_of_exp_refuted.

(** A case: [(2x + 2x) - 0 + sqrt(x)/sqrt(x)] at 0.1; the simplifier rewrites it
    to [2(2x) + 1]. *)
Definition c58_expr (L : libm) : expr (F64 L) :=
  Add (Sub (Add (Mul (Const n2) (Var "x")) (Mul (Const n2) (Var "x"))) (Const n0)) (Div (Sqrt (Var "x")) (Sqrt (Var "x"))).
Example C58_case :
  let L := rounded_libm (fun _ => 0) in
  let vars : env (F64 L) := [("x", ndec 1 10)] in
  annex_f L /\ calm (c58_expr L) = true /\
  (forall s, In s (subexprs (c58_expr L)) -> exists q, evaluate vars s = Ok q /\ is_num q) /\
  simplify (c58_expr L) = Add (Mul (Const n2) (Mul (Const n2) (Var "x"))) (Const n1).
Proof.
  split; [apply rounded_annex|]. split; [reflexivity|]. split; [|reflexivity].
  intros s H. cbn [c58_expr subexprs app In] in H.
  repeat (destruct H as [<- |H]; [eexists; split; [vm_compute; reflexivity|split; vm_compute; reflexivity]|]). destruct H.
Qed.
(** A custom density [(x - mu) - 0] with parameter [mu = 1], at 3. *)
Example C56_simplify_case : let L := rounded_libm (fun _ => 0) in
  let s := custom_new L (Sub (Sub (Var "x") (Var "mu")) (Const (f64_of_Z 0))) [("mu", f64_of_Z 1)] in
  calm (cd_expression s) = true /\ cd_expression (custom_simplify L s) = Sub (Var "x") (Var "mu") /\
  (forall t, In t (subexprs (cd_expression s)) -> exists q, @evaluate (F64 L) (insert (cd_parameters s) "x" (f64_of_Z 3)) t = Ok q /\ is_num q).
Proof.
  intros L s. split; [reflexivity|]. split; [reflexivity|]. intros t H. cbn [s custom_new cd_expression subexprs app In] in H.
  repeat (destruct H as [<- |H]; [eexists; split; [reflexivity|clear; split; vm_compute; reflexivity]|]). destruct H.
Qed.
