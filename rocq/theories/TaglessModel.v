(** Model of the final-tagless interfaces: symbolic-math/src/final_tagless.rs,
    mathjit/src/final_tagless.rs (the same traits and interpreters, plus the
    polynomial helpers), mathjit/src/lib.rs,
    measures-exponential-family/src/exponential_family/final_tagless.rs and
    measures-distributions/src/distributions/final_tagless.rs.
    Definitions only.

    Simplification: one numeric type [N] per expression (the code's [L], [R]
    and [Output] parameters are all equal in every use).  A panic is [None]. *)
From Coq Require Import ZArith Bool String List.
From Verif Require Import Num ExprModel ShowModel JitModel.
Import ListNotations.
Local Open Scope string_scope.
Local Open Scope list_scope.

(** final_tagless.rs 157-216 [trait MathExpr] (mathjit: 129-188). *)
Record MathExpr (N : Num) := mkMathExpr {
  Repr : Type;
  e_constant : N -> Repr;
  e_var : string -> Repr;
  e_add : Repr -> Repr -> Repr;
  e_sub : Repr -> Repr -> Repr;
  e_mul : Repr -> Repr -> Repr;
  e_div : Repr -> Repr -> Repr;
  e_pow : Repr -> Repr -> Repr;
  e_neg : Repr -> Repr;
  e_ln : Repr -> Repr;
  e_exp : Repr -> Repr;
  e_sqrt : Repr -> Repr;
  e_sin : Repr -> Repr;
  e_cos : Repr -> Repr
}.
Arguments Repr {N} _. Arguments e_constant {N} _ _. Arguments e_var {N} _ _.
Arguments e_add {N} _ _ _. Arguments e_sub {N} _ _ _. Arguments e_mul {N} _ _ _.
Arguments e_div {N} _ _ _. Arguments e_pow {N} _ _ _. Arguments e_neg {N} _ _.
Arguments e_ln {N} _ _. Arguments e_exp {N} _ _. Arguments e_sqrt {N} _ _.
Arguments e_sin {N} _ _. Arguments e_cos {N} _ _.

Section Interpreters.
Context {N : Num}.

(** 303-387 [DirectEval] (mathjit: 464-538); [var] returns [T::default()]. *)
Definition DirectEval : MathExpr N :=
  mkMathExpr N N (fun value => value) (fun _ => n0)
    nadd nsub nmul ndiv npow nneg nln nexp nsqrt nsin ncos.
(** 305-310 the inherent [DirectEval::var]; ExpFamEval 220, DistributionEval 264. *)
Definition direct_var (name : string) (value : N) : N := value.

(** 489-573 [PrettyPrint] (mathjit: 640-724); [show] is [format!("{value}")]. *)
Definition PrettyPrint (show : N -> string) : MathExpr N :=
  mkMathExpr N string show (fun name => name)
    (fun l r => "(" ++ l ++ " + " ++ r ++ ")")%string
    (fun l r => "(" ++ l ++ " - " ++ r ++ ")")%string
    (fun l r => "(" ++ l ++ " * " ++ r ++ ")")%string
    (fun l r => "(" ++ l ++ " / " ++ r ++ ")")%string
    (fun b e => "(" ++ b ++ " ^ " ++ e ++ ")")%string
    (fun a => "(-" ++ a ++ ")")%string
    (fun a => "ln(" ++ a ++ ")")%string
    (fun a => "exp(" ++ a ++ ")")%string
    (fun a => "sqrt(" ++ a ++ ")")%string
    (fun a => "sin(" ++ a ++ ")")%string
    (fun a => "cos(" ++ a ++ ")")%string.

(** 910-991 [JITEval]: builds the tree ([JITRepr], 698-727).  A constant goes
    through its decimal text ([format!] then [parse]), which std guarantees to
    be the identity on f64. *)
Definition JITEval : MathExpr N :=
  mkMathExpr N (expr N) Const Var Add Sub Mul Div Pow Neg Ln Exp Sqrt Sin Cos.

(** exponential_family/final_tagless.rs 212-330 [ExpFamEval] and
    distributions/final_tagless.rs 255-385 [DistributionEval]: values, but the
    trait's [var] panics. *)
Definition both {T U V} (f : T -> U -> V) (a : option T) (b : option U) : option V :=
  match a, b with Some x, Some y => Some (f x y) | _, _ => None end.
Definition ValueEval : MathExpr N :=
  mkMathExpr N (option N) Some (fun _ => None)
    (both nadd) (both nsub) (both nmul) (both ndiv) (both npow)
    (option_map nneg) (option_map nln) (option_map nexp) (option_map nsqrt)
    (option_map nsin) (option_map ncos).
Definition ExpFamEval := ValueEval.
Definition DistributionEval := ValueEval.
End Interpreters.

(** * Expressions written against the interface *)
Section Programs.
Context {N : Num} (E : MathExpr N).
Notation Rp := (Repr E).
Notation const := (e_constant E).

(** final_tagless.rs 390-412 [StatisticalExpr] (mathjit: 541-563). *)
Definition t_logistic (x : Rp) : Rp :=
  let one := const n1 in
  let neg_x := e_neg E x in
  let exp_neg_x := e_exp E neg_x in
  let denominator := e_add E one exp_neg_x in
  e_div E (const n1) denominator.
Definition t_softplus (x : Rp) : Rp :=
  let one := const n1 in
  let exp_x := e_exp E x in
  let one_plus_exp_x := e_add E one exp_x in
  e_ln E one_plus_exp_x.
Definition t_sigmoid (x : Rp) : Rp := t_logistic x.

(** mathjit/src/final_tagless.rs 226-248 [polynomial::horner]. *)
Definition horner (coeffs : list N) (x : Rp) : Rp :=
  match coeffs with
  | [] => const n0
  | [c] => const c
  | _ =>
      match rev coeffs with
      | [] => const n0
      | last :: rest =>
          fold_left (fun result coeff => e_add E (e_mul E result x) (const coeff)) rest (const last)
      end
  end.
(** 270-292 [horner_expr]. *)
Definition horner_expr (coeffs : list Rp) (x : Rp) : Rp :=
  match coeffs with
  | [] => const n0
  | [c] => c
  | _ =>
      match rev coeffs with
      | [] => const n0
      | last :: rest => fold_left (fun result coeff => e_add E (e_mul E result x) coeff) rest last
      end
  end.
(** 311-328 [from_roots]. *)
Definition from_roots (roots : list N) (x : Rp) : Rp :=
  match roots with
  | [] => const n1
  | r :: rest =>
      fold_left (fun result root => e_mul E result (e_sub E x (const root))) rest (e_sub E x (const r))
  end.
(** 348-366 [horner_derivative]; [from_usize] is total on floats. *)
Fixpoint derivative_coeffs (i : nat) (coeffs : list N) : list N :=
  match coeffs with
  | [] => []
  | c :: rest => nmul c (nofn i) :: derivative_coeffs (S i) rest
  end.
Definition horner_derivative (coeffs : list N) (x : Rp) : Rp :=
  match coeffs with
  | [] | [_] => const n0
  | _ :: rest => horner (derivative_coeffs 1 rest) x
  end.

(** mathjit/src/lib.rs 89-139: the wrapper's [var] and [constant]. *)
Definition wrap_var (name : string) : Rp := e_var E name.
Definition wrap_constant (value : N) : Rp := const value.

(** exponential_family/final_tagless.rs 73-97 [dot_product]; the assertion on
    the lengths panics. *)
Definition dot_product (params stats : list Rp) : option Rp :=
  if Nat.eqb (List.length params) (List.length stats) then
    match params, stats with
    | p :: ps, s :: ss =>
        Some (fold_left (fun result q => e_add E result (e_mul E (fst q) (snd q)))
                (combine ps ss) (e_mul E p s))
    | _, _ => Some (const n0)
    end
  else None.

(** 101-123 [sum_sufficient_stats]: coordinate by coordinate; a later vector
    shorter than the first is indexed out of bounds. *)
Fixpoint sum_column (j : nat) (sum : Rp) (stats : list (list Rp)) : option Rp :=
  match stats with
  | [] => Some sum
  | s :: rest => match nth_error s j with
                 | Some v => sum_column j (e_add E sum v) rest
                 | None => None
                 end
  end.
Fixpoint sum_columns (j : nat) (first : list Rp) (rest : list (list Rp)) : option (list Rp) :=
  match first with
  | [] => Some []
  | v :: first' => match sum_column j v rest with
                   | Some s => option_map (cons s) (sum_columns (S j) first' rest)
                   | None => None
                   end
  end.
Definition sum_sufficient_stats (stats_list : list (list Rp)) : option (list Rp) :=
  match stats_list with
  | [] => Some []
  | first :: rest => sum_columns 0 first rest
  end.

(** 129-142 [exp_fam_log_density]. *)
Definition t_exp_fam_log_density (params stats : list Rp) (log_partition log_base : Rp) : option Rp :=
  option_map (fun dot => e_add E (e_sub E dot log_partition) log_base) (dot_product params stats).
(** 145-164 [iid_exp_fam_log_density]. *)
Definition t_iid_log_density (params sum_stats : list Rp) (log_partition n_samples sum_log_base : Rp)
    : option Rp :=
  option_map (fun dot => e_add E (e_sub E dot (e_mul E n_samples log_partition)) sum_log_base)
    (dot_product params sum_stats).
(** 166-179 [logistic], [softplus]. *)
Definition ef_logistic (x : Rp) : Rp :=
  e_div E (const n1) (e_add E (const n1) (e_exp E (e_neg E x))).
Definition ef_softplus (x : Rp) : Rp := e_ln E (e_add E (const n1) (e_exp E x)).
(** 183-205 [log_sum_exp]. *)
Definition log_sum_exp (values : list Rp) : Rp :=
  match values with
  | [] => const nninf
  | [v] => v
  | v :: rest => e_ln E (fold_left (fun sum w => e_add E sum (e_exp E w)) rest (e_exp E v))
  end.

(** 338-352 and distributions/final_tagless.rs 415-429
    [patterns::standard_normal_log_density]. *)
Definition p_standard_normal (x : Rp) : Rp :=
  let half := const nhalf in
  let two_pi := const (nmul n2 npi) in
  let x_squared := e_mul E x x in
  e_sub E (e_neg E (e_mul E half (e_ln E two_pi))) (e_mul E half x_squared).
(** 355-375 and distributions/final_tagless.rs 392-412 [normal_log_density]. *)
Definition p_normal (x mu sigma : Rp) : Rp :=
  let half := const nhalf in
  let two_pi := const (nmul n2 npi) in
  let diff := e_sub E x mu in
  let standardized := e_div E diff sigma in
  let squared := e_mul E standardized standardized in
  e_sub E (e_sub E (e_neg E (e_mul E half (e_ln E two_pi))) (e_ln E sigma)) (e_mul E half squared).
(** 378-393 [poisson_log_density]. *)
Definition p_poisson (x lambda : Rp) : Rp :=
  e_sub E (e_sub E (e_mul E x (e_ln E lambda)) lambda) (e_ln E x).
(** 396-407 and distributions/final_tagless.rs 432-442 [exponential_log_density]. *)
Definition p_exponential (x rate : Rp) : Rp := e_sub E (e_ln E rate) (e_mul E rate x).
(** distributions/final_tagless.rs 490-511 [cauchy_log_density]. *)
Definition p_cauchy (x location scale : Rp) : Rp :=
  let one := const n1 in
  let pi := const npi in
  let diff := e_sub E x location in
  let standardized := e_div E diff scale in
  let squared := e_mul E standardized standardized in
  let one_plus_squared := e_add E one squared in
  e_sub E (e_sub E (e_neg E (e_ln E pi)) (e_ln E scale)) (e_ln E one_plus_squared).

(** 597-604: the blanket [gamma_function] and [erf] panic for every
    interpreter. *)
Definition gamma_function (x : Rp) : option Rp := None.
Definition t_erf (x : Rp) : option Rp := None.
(** 553-555 [log_gamma_function]. *)
Definition log_gamma_function (x : Rp) : option Rp := option_map (e_ln E) (gamma_function x).
(** 573-586 [log_beta]. *)
Definition log_beta (alpha beta : Rp) : option Rp :=
  let alpha_plus_beta := e_add E alpha beta in
  both (e_sub E) (both (e_add E) (log_gamma_function alpha) (log_gamma_function beta))
    (log_gamma_function alpha_plus_beta).
(** 558-570 [beta_function]. *)
Definition beta_function (alpha beta : Rp) : option Rp :=
  let alpha_plus_beta := e_add E alpha beta in
  both (e_div E) (both (e_mul E) (gamma_function alpha) (gamma_function beta))
    (gamma_function alpha_plus_beta).
(** 591-593 [erfc]. *)
Definition t_erfc (x : Rp) : option Rp := option_map (e_sub E (const n1)) (t_erf x).
(** 162-249: the blanket [DistributionExpr]: [log_density], [cdf], [mgf],
    [characteristic], [raw_moment], [central_moment], [standardized_moment],
    [entropy], [kl_divergence] and [fisher_information] panic for every
    interpreter. *)
Definition d_log_density (x : Rp) (params : list Rp) : option Rp := None.
Definition d_cdf (x : Rp) (params : list Rp) : option Rp := None.
Definition d_mgf (t : Rp) (params : list Rp) : option Rp := None.
Definition d_characteristic (t : Rp) (params : list Rp) : option Rp := None.
Definition d_raw_moment (k : Rp) (params : list Rp) : option Rp := None.
Definition d_central_moment (k : Rp) (params : list Rp) : option Rp := None.
Definition d_standardized_moment (k : Rp) (params : list Rp) : option Rp := None.
Definition d_entropy (params : list Rp) : option Rp := None.
Definition d_kl_divergence (params_p params_q : list Rp) : option Rp := None.
Definition d_fisher_information (params : list Rp) : option (list (list Rp)) := None.
(** 69-74, 79-84, 89-97: the defaults built on [cdf]: [survival], [log_cdf],
    [log_survival]. *)
Definition d_survival (x : Rp) (params : list Rp) : option Rp := option_map (e_sub E (const n1)) (d_cdf x params).
Definition d_log_cdf (x : Rp) (params : list Rp) : option Rp := option_map (e_ln E) (d_cdf x params).
Definition d_log_survival (x : Rp) (params : list Rp) : option Rp := option_map (e_ln E) (d_survival x params).
(** 445-465 [gamma_log_density]. *)
Definition p_gamma (x shape rate : Rp) : option Rp :=
  let one := const n1 in
  let shape_minus_one := e_sub E shape one in
  option_map (fun g =>
    e_add E (e_add E (e_mul E shape (e_ln E rate)) (e_neg E (e_ln E g)))
      (e_sub E (e_mul E shape_minus_one (e_ln E x)) (e_mul E rate x)))
    (gamma_function shape).
(** 468-487 [beta_log_density]. *)
Definition p_beta (x alpha beta : Rp) : option Rp :=
  let one := const n1 in
  let alpha_minus_one := e_sub E alpha one in
  let beta_minus_one := e_sub E beta one in
  let one_minus_x := e_sub E one x in
  option_map (fun lb =>
    e_add E (e_add E lb (e_mul E alpha_minus_one (e_ln E x)))
      (e_mul E beta_minus_one (e_ln E one_minus_x)))
    (log_beta alpha beta).
(** 514-545 [student_t_log_density]. *)
Definition p_student_t (x nu : Rp) : option Rp :=
  let one := const n1 in
  let two := const n2 in
  let half := const nhalf in
  let pi := const npi in
  let nu_plus_one := e_add E nu one in
  let nu_plus_one_half := e_div E nu_plus_one two in
  let nu_half := e_div E nu two in
  let nu_pi := e_mul E nu pi in
  let x_squared := e_mul E x x in
  let x_squared_over_nu := e_div E x_squared nu in
  let one_plus_ratio := e_add E one x_squared_over_nu in
  both (fun g1 g2 =>
    e_sub E (e_sub E (e_sub E (e_ln E g1) (e_ln E g2)) (e_mul E half (e_ln E nu_pi)))
      (e_mul E (e_div E nu_plus_one two) (e_ln E one_plus_ratio)))
    (gamma_function nu_plus_one_half) (gamma_function nu_half).
End Programs.

(** * Helpers on plain arrays *)
Section Arrays.
Context {N : Num}.
(** exponential_family/final_tagless.rs 223-225 [dot_product_array]: stops at
    the shorter slice; [sum] folds from 0 (from -0.0 in newer std, equal under
    comparison). *)
Definition dot_product_array (params stats : list N) : N :=
  fold_left nadd (map (fun p => nmul (fst p) (snd p)) (combine params stats)) n0.
(** 229-243 [sum_stats_array]; a vector longer than the first is written out
    of bounds. *)
Fixpoint add_into (result stats : list N) : option (list N) :=
  match result, stats with
  | _, [] => Some result
  | r :: rs, s :: ss => option_map (cons (nadd r s)) (add_into rs ss)
  | [], _ :: _ => None
  end.
Fixpoint add_all (result : list N) (stats_list : list (list N)) : option (list N) :=
  match stats_list with
  | [] => Some result
  | s :: rest => match add_into result s with
                 | Some result' => add_all result' rest
                 | None => None
                 end
  end.
Definition sum_stats_array (stats_list : list (list N)) : option (list N) :=
  match stats_list with
  | [] => Some []
  | first :: _ => add_all (repeat n0 (List.length first)) stats_list
  end.

(** distributions/final_tagless.rs 270-275 [DistributionEval::normal_log_density]:
    the literal -0.5 is negated 0.5. *)
Definition de_normal (x mu sigma : N) : N :=
  let two_pi := nmul n2 npi in
  let standardized := ndiv (nsub x mu) sigma in
  nsub (nsub (nmul (nneg nhalf) (nln two_pi)) (nln sigma)) (nmul (nmul nhalf standardized) standardized).
(** 278-285 [exponential_log_density]. *)
Definition de_exponential (x rate : N) : N :=
  if nleb n0 x then nsub (nln rate) (nmul rate x) else nninf.
(** 298-306 [log_gamma]. *)
Definition de_log_gamma (x : N) : N :=
  if nltb (nint 12) x then
    nadd (nsub (nmul (nsub x nhalf) (nln x)) x) (nmul nhalf (nln (nmul n2 npi)))
  else nlgamma x.
(** 288-295 [gamma_log_density]. *)
Definition de_gamma (x shape rate : N) : N :=
  if nltb n0 x then
    nsub (nadd (nsub (nmul shape (nln rate)) (de_log_gamma shape)) (nmul (nsub shape n1) (nln x)))
      (nmul rate x)
  else nninf.
End Arrays.

(** * Compilation with an automatic signature *)
(** final_tagless.rs 731-761 [collect_variables]: a hash set, whose iteration
    order is arbitrary: any duplicate-free list of the variables. *)
Fixpoint tree_vars {A} (e : expr A) : list string :=
  match e with
  | Const _ => []
  | Var x => [x]
  | Add l r | Sub l r | Mul l r | Div l r | Pow l r => tree_vars l ++ tree_vars r
  | Ln a | Exp a | Sqrt a | Sin a | Cos a | Neg a => tree_vars a
  end.
Definition collected {A} (e : expr A) (order : list string) : Prop :=
  NoDup order /\ forall x, In x order <-> In x (tree_vars e).
(** 995-1001 [compile], for an iteration order of that set. *)
Definition compile_auto (e : expr f64) (order : list string) : jres jit_fn :=
  compile_final_tagless e order [] [].
(** 787-803 [count_constants]. *)
Fixpoint count_constants {A} (e : expr A) : nat :=
  match e with
  | Const _ => 1
  | Var _ => 0
  | Add l r | Sub l r | Mul l r | Div l r | Pow l r => count_constants l + count_constants r
  | Ln a | Exp a | Sqrt a | Sin a | Cos a | Neg a => count_constants a
  end%nat.
