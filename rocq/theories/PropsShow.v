(** Properties C12, C13: the text renderings of expressions. *)
From Coq Require Import ZArith Reals Bool String Ascii List Lra Lia Arith.
From Coq Require Import Floats.SpecFloat.
From Verif Require Import Num XRFacts ExprModel ExprSpec ExprSubst ExprWitness
  ShowModel ShowSpec ShowProofs PyProofs ShowWitness.
Import ListNotations.
Local Open Scope string_scope.
Local Open Scope list_scope.

(** * C12 *)
Theorem C12_display_is_unambiguous :
  forall (N : Num) (show : N -> string) (a b : expr N),
  good_show show -> names_ok identifier a -> names_ok identifier b ->
  display show a = display show b -> a = b.
Proof. exact @display_injective. Qed.
Print Assumptions C12_display_is_unambiguous.

(** The second part of the evaluation cache key. *)
Theorem C12_debug_of_bindings_is_unambiguous :
  forall (N : Num) (dbg : N -> string),
  (forall a b, dbg a = dbg b -> a = b) ->
  (forall a c, In c (las (dbg a)) -> c <> ","%char /\ c <> "}"%char) ->
  forall m1 m2 : env N, debug_env dbg m1 = debug_env dbg m2 -> m1 = m2.
Proof. exact @C12_debug. Qed.
Print Assumptions C12_debug_of_bindings_is_unambiguous.

(** Arbitrary names: a variable can print like a sum, and like any number. *)
Theorem C12_arbitrary_names_collide_refuted :
  forall (N : Num) (show : N -> string) (c : N),
  display show (Var "(x + y)") = display show (Add (Var "x") (Var "y")) /\
  display show (Var (show c)) = display show (Const c).
Proof. exact C12_collide. Qed.
Print Assumptions C12_arbitrary_names_collide_refuted.

(** The hypotheses are met: a number text, and expressions over identifiers. *)
Example C12_case (L : libm) :
  @good_show (F64 L) text64 /\
  names_ok identifier (Add (Var "x1") (Ln (Var "sigma")) : expr (F64 L)) /\
  @display (F64 L) text64 (Add (Var "x1") (Ln (Neg (Const n1))) : expr (F64 L)) = "(x1 + ln((-4503599627370496.105)))".
Proof.
  split; [apply text64_good|]. split; [|reflexivity].
  intros x O.
  repeat match goal with H : occurs _ _ |- _ => inversion H; clear H; subst end; reflexivity.
Qed.
Example C12_debug_case (L : libm) :
  (forall a b : F64 L, text64 a = text64 b -> a = b) /\
  (forall (a : F64 L) c, In c (las (text64 a)) -> c <> ","%char /\ c <> "}"%char) /\
  @debug_env (F64 L) text64 [("x", (n1 : F64 L)); ("y""z", n0)]
    = "{""x"": 4503599627370496.105, ""y\""z"": 0}".
Proof.
  split; [apply (text64_good L)|]. split; [|reflexivity]. apply text64_no_sep.
Qed.

(** * C13 *)
(** Python reads the exported text as an expression with the same value
    wherever the original has one. *)
Theorem C13_python_denotes_the_same :
  forall (lg : R -> R) (rd : string -> XR lg) show (e : expr (XR lg)),
  names_ok py_name e -> consts_readable rd show e -> no_signed_base show e = true ->
  exists t e', python_reads (to_python show e) t /\ py_expr rd t = Some e' /\
    forall vars r, denotes vars e r -> denotes vars e' r.
Proof. exact C13_python. Qed.
Print Assumptions C13_python_denotes_the_same.

(** In any arithmetic, evaluating operation by operation. *)
Theorem C13_python_computes_the_same :
  forall (N : Num) (rd : string -> N) show (e : expr N),
  names_ok py_name e -> consts_readable rd show e -> no_signed_base show e = true ->
  exists t e', python_reads (to_python show e) t /\ py_expr rd t = Some e' /\
    forall vars, strict vars e' = strict vars e.
Proof. exact C13_python_strict. Qed.
Print Assumptions C13_python_computes_the_same.

Theorem C13_python_reading_is_unique :
  forall s t t', python_reads s t -> python_reads s t' -> t = t'.
Proof. exact reads_unique. Qed.
Print Assumptions C13_python_reading_is_unique.

(** A power of a negated base loses its brackets. *)
Theorem C13_negated_base_changes_value_refuted :
  forall (lg : R -> R) (show : XR lg -> string) (rd : string -> XR lg),
  show (Fin 2) = "2" -> rd "2" = Fin 2 ->
  exists e t e' vars r r',
    python_reads (to_python show e) t /\ py_expr rd t = Some e' /\
    denotes vars e r /\ denotes vars e' r' /\ r <> r'.
Proof. exact C13_signed_value. Qed.
Print Assumptions C13_negated_base_changes_value_refuted.

Theorem C13_keyword_variable_is_not_python_refuted :
  forall (N : Num) (show : N -> string) t, ~ python_reads (to_python show (Var "lambda")) t.
Proof. exact C13_keyword. Qed.
Print Assumptions C13_keyword_variable_is_not_python_refuted.

(** An infinite constant becomes an unbound name. *)
Theorem C13_infinity_becomes_a_name_refuted :
  forall (N : Num) (show : N -> string) (c : N), show c = "inf" ->
  python_reads (to_python show (Const c)) (PName "inf").
Proof. exact C13_infinite. Qed.
Print Assumptions C13_infinity_becomes_a_name_refuted.

Theorem C13_latex_is_ambiguous_refuted :
  forall (lg : R -> R) (show : XR lg -> string) whole show_int,
  (exists a b vars r r',
    to_latex show whole show_int a = to_latex show whole show_int b /\
    denotes vars a r /\ denotes vars b r' /\ r <> r').
Proof. exact C13_latex_ambiguous. Qed.
Print Assumptions C13_latex_is_ambiguous_refuted.

(** A sum as a factor loses its brackets. *)
Theorem C13_latex_drops_brackets_refuted :
  forall (lg : R -> R) (show : XR lg -> string) whole show_int,
  to_latex show whole show_int (Add (Var "x") (Mul (Var "y") (Var "z")))
    = to_latex show whole show_int (Mul (Add (Var "x") (Var "y")) (Var "z")) /\
  exists (vars : env (XR lg)) r r', denotes vars (Add (Var "x") (Mul (Var "y") (Var "z"))) r /\
    denotes vars (Mul (Add (Var "x") (Var "y")) (Var "z")) r' /\ r <> r'.
Proof. exact C13_latex_ambiguous_mul. Qed.
Print Assumptions C13_latex_drops_brackets_refuted.

(** All three texts have balanced brackets when the names contain none. *)
Theorem C13_brackets_balance :
  forall (N : Num) (show : N -> string) whole show_int (e : expr N),
  (forall c, number_text (show c) = true) -> (forall c, number_text (show_int c) = true) ->
  names_ok identifier e ->
  balanced (display show e) /\ balanced (to_python show e) /\
  balanced (to_latex show whole show_int e).
Proof. exact C13_balanced. Qed.
Print Assumptions C13_brackets_balance.

(** The one-line helper [display::python] is never a Python expression of the
    arithmetic grammar: it writes a lambda. *)
Theorem C13_display_python_is_a_lambda :
  forall (N : Num) (show : N -> string) (e : expr N) t, ~ python_reads (lib_python show e) t.
Proof. exact C13_lib_python. Qed.
Print Assumptions C13_display_python_is_a_lambda.

(** The one-line helpers [display::latex] and [display::equation] wrap the
    Display text, so they are unambiguous too. *)
Theorem C12_display_helpers_are_unambiguous :
  forall (N : Num) (show : N -> string) (a b : expr N) lhs,
  good_show show -> names_ok identifier a -> names_ok identifier b ->
  (lib_latex show a = lib_latex show b -> a = b) /\
  (lib_python show a = lib_python show b -> a = b) /\
  (lib_equation show lhs a = lib_equation show lhs b -> a = b) /\
  lib_latex show a = ("$" ++ display show a ++ "$")%string /\
  lib_equation show lhs a = (lhs ++ " = " ++ display show a)%string.
Proof. exact helpers_unambiguous. Qed.
Print Assumptions C12_display_helpers_are_unambiguous.

Example C13_case :
  exists (show : XR (fun x => x) -> string) rd,
  let e := Mul (Const (Fin (-3) : XR (fun x => x))) (Pow (Sub (Var "x") (Var "mu")) (Const (Fin 2 : XR (fun x => x)))) in
  names_ok py_name e /\ consts_readable rd show e /\ no_signed_base show e = true /\
  to_python show e = "(-3 * ((x - mu) ** 2))" /\ show (Fin 2) = "2" /\ rd "2" = Fin 2.
Proof. exact C13_example. Qed.
