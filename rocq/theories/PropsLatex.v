(** C68: the exported LaTeX, read as a formula. *)
From Coq Require Import ZArith Reals Bool String Ascii List.
From Verif Require Import Num XRFacts ExprModel ExprSpec ShowModel ShowSpec LatexSpec LatexProofs.
Import ListNotations.
Local Open Scope string_scope.
Local Open Scope list_scope.

(** Where no bracket is missing, the formula has the expression's value. *)
Theorem C68_latex_denotes_the_same :
  forall lg (show : XR lg -> string) (whole : XR lg -> bool) (show_int : XR lg -> string) rd e,
  names_ok symbol e -> consts_readable rd (fun c : XR lg => if whole c then show_int c else show c) e ->
  brackets_unneeded (fun c : XR lg => if whole c then show_int c else show c) e = true ->
  exists t, latex_reads (to_latex show whole show_int e) t /\
    forall vars r, denotes vars e r -> denotes vars (numbers rd t) r.
Proof. exact latex_reading. Qed.
Print Assumptions C68_latex_denotes_the_same.
Theorem C68_latex_reading_is_unique : forall s t u, latex_reads s t -> latex_reads s u -> t = u.
Proof. exact latex_unique. Qed.
Print Assumptions C68_latex_reading_is_unique.

(** Elsewhere the formula has another value: a sum that is multiplied, a
    difference that is subtracted, a negation that is raised to a power. *)
Theorem C68_missing_brackets_change_the_value_refuted :
  forall lg (show : XR lg -> string) (whole : XR lg -> bool) (show_int : XR lg -> string) (rd : string -> XR lg),
  let reads_wrong e := exists t vars r r', latex_reads (to_latex show whole show_int e) t /\
    denotes vars e r /\ denotes vars (numbers rd t) r' /\ r <> r' in
  let x := Var "x" in let y := Var "y" in let z := Var "z" in
  reads_wrong (Mul (Add x y) z : expr (XR lg)) /\ reads_wrong (Sub x (Sub y z)) /\ reads_wrong (Pow (Neg x) y).
Proof. exact latex_wrong. Qed.
Print Assumptions C68_missing_brackets_change_the_value_refuted.
(** A power of a power is no formula at all. *)
Theorem C68_double_superscript_refuted : forall lg (show : XR lg -> string) whole show_int t,
  ~ latex_reads (to_latex show whole show_int (Pow (Pow (Var "x") (Var "y")) (Var "z") : expr (XR lg))) t.
Proof. exact latex_double. Qed.
Print Assumptions C68_double_superscript_refuted.
(** A variable called e is Euler's number. *)
Theorem C68_variable_e_refuted : forall lg (show : XR lg -> string) whole show_int (a : expr (XR lg)),
  to_latex show whole show_int (Pow (Var "e") a) = to_latex show whole show_int (Exp a).
Proof. exact latex_e. Qed.
Print Assumptions C68_variable_e_refuted.

Example C68_case : forall lg, exists (show : XR lg -> string) rd,
  let whole := fun _ : XR lg => true in
  let e := Sub (Mul (Const (Fin (-1) : XR lg)) (Div (Pow (Var "x") (Const (Fin 2 : XR lg))) (Mul (Const (Fin 2 : XR lg)) (Var "s")))) (Ln (Var "s")) in
  names_ok symbol e /\ consts_readable rd show e /\ brackets_unneeded show e = true /\
  to_latex show whole show e = "-\frac{x^{2}}{2s} - \ln(s)".
Proof. exact latex_case. Qed.
Example C68_reads : latex_reads "-\frac{x^{2}}{2s} - \ln(s)"
  (Sub (Neg (Div (Pow (Var "x") (Const "2")) (Mul (Const "2") (Var "s")))) (Ln (Var "s"))).
Proof. exists 30. intros n L. do 30 (destruct n as [|n]; [exfalso; inversion L; fail|apply le_S_n in L || idtac]). reflexivity. Qed.
