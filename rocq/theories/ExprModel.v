(** Model of symbolic-math/src/expr.rs: the expression tree, its evaluators,
    the simplifier and the structural queries.  Definitions only. *)
From Coq Require Import ZArith Bool String Ascii List.
From Verif Require Import Num.
Import ListNotations.
Local Open Scope string_scope.

(** expr.rs 79-108 [enum Expr].  Variable names are byte strings. *)
Inductive expr (A : Type) : Type :=
| Const (c : A) | Var (x : string)
| Add (l r : expr A) | Sub (l r : expr A) | Mul (l r : expr A)
| Div (l r : expr A) | Pow (l r : expr A)
| Ln (e : expr A) | Exp (e : expr A) | Sqrt (e : expr A)
| Sin (e : expr A) | Cos (e : expr A) | Neg (e : expr A).
Arguments Const {A} _. Arguments Var {A} _.
Arguments Add {A} _ _. Arguments Sub {A} _ _. Arguments Mul {A} _ _.
Arguments Div {A} _ _. Arguments Pow {A} _ _.
Arguments Ln {A} _. Arguments Exp {A} _. Arguments Sqrt {A} _.
Arguments Sin {A} _. Arguments Cos {A} _. Arguments Neg {A} _.

(** expr.rs 988-999 [enum EvalError]. *)
Inductive eval_error (A : Type) : Type :=
| UndefinedVariable (x : string) | DivisionByZero
| InvalidLogarithm (v : A) | InvalidSquareRoot (v : A).
Arguments UndefinedVariable {A} _. Arguments DivisionByZero {A}.
Arguments InvalidLogarithm {A} _. Arguments InvalidSquareRoot {A} _.

(** Rust [Result<T, EvalError>]. *)
Inductive res (A T : Type) : Type := Ok (v : T) | Err (e : eval_error A).
Arguments Ok {A T} _. Arguments Err {A T} _.

(** The [?] operator. *)
Definition bind {A T U} (r : res A T) (k : T -> res A U) : res A U :=
  match r with Ok v => k v | Err e => Err e end.
Notation "'let?' x ':=' r 'in' k" := (bind r (fun x => k))
  (at level 60, x binder, r at level 100, k at level 200).

(** [HashMap<String, f64>]: the entries in iteration order.  [insert] replaces
    the value of an existing key and otherwise adds an entry; where the new
    entry goes in the iteration order is unspecified in Rust, here it is last. *)
Definition env (A : Type) := list (string * A).

Fixpoint get {A} (m : env A) (k : string) : option A :=
  match m with
  | [] => None
  | (k', v) :: m' => if String.eqb k k' then Some v else get m' k
  end.

Fixpoint insert {A} (m : env A) (k : string) (v : A) : env A :=
  match m with
  | [] => [(k, v)]
  | (k', v') :: m' => if String.eqb k k' then (k', v) :: m' else (k', v') :: insert m' k v
  end.

(** [HashMap::extend] with the entries of another map. *)
Definition extend {A} (m m2 : env A) : env A :=
  fold_left (fun acc kv => insert acc (fst kv) (snd kv)) m2 m.

(** A [HashMap] holds each key once. *)
Definition wf_env {A} (m : env A) : Prop := NoDup (map fst m).

Section Expr.
Context {N : Num}.
Notation expr := (expr N).
Notation env := (env N).

(** A literal pattern [Expr::Const(c)] in a Rust match: float literal patterns
    compare with [==], so [0.0] also matches [-0.0]. *)
Definition is_lit (c : N) (e : expr) : bool :=
  match e with Const a => neqb a c | _ => false end.

(** expr.rs 177-237 [Expr::evaluate]. *)
Fixpoint evaluate (vars : env) (e : expr) : res N N :=
  match e with
  | Const v => Ok v
  | Var x => match get vars x with Some v => Ok v | None => Err (UndefinedVariable x) end
  | Add l r =>
      match l, r with
      | Const a, Const b => Ok (nadd a b)
      | _, _ =>
          if is_lit n0 l then evaluate vars r
          else if is_lit n0 r then evaluate vars l
          else let? a := evaluate vars l in let? b := evaluate vars r in Ok (nadd a b)
      end
  | Mul l r =>
      match l, r with
      | Const a, Const b => Ok (nmul a b)
      | _, _ =>
          if is_lit n0 l || is_lit n0 r then Ok n0
          else if is_lit n1 l then evaluate vars r
          else if is_lit n1 r then evaluate vars l
          else let? a := evaluate vars l in let? b := evaluate vars r in Ok (nmul a b)
      end
  | Sub l r => let? a := evaluate vars l in let? b := evaluate vars r in Ok (nsub a b)
  | Div l r =>
      let? d := evaluate vars r in
      if neqb d n0 then Err DivisionByZero
      else let? a := evaluate vars l in Ok (ndiv a d)
  | Pow b p => let? x := evaluate vars b in let? y := evaluate vars p in Ok (npow x y)
  | Ln a => let? v := evaluate vars a in
            if nleb v n0 then Err (InvalidLogarithm v) else Ok (nln v)
  | Exp a => let? v := evaluate vars a in Ok (nexp v)
  | Sqrt a => let? v := evaluate vars a in
              if nltb v n0 then Err (InvalidSquareRoot v) else Ok (nsqrt v)
  | Sin a => let? v := evaluate vars a in Ok (nsin v)
  | Cos a => let? v := evaluate vars a in Ok (ncos v)
  | Neg a => let? v := evaluate vars a in Ok (nneg v)
  end.

(** expr.rs 241-289 [Expr::evaluate_single_var]. *)
Fixpoint evaluate_single_var (x : string) (v : N) (e : expr) : res N N :=
  match e with
  | Const c => Ok c
  | Var y => if String.eqb y x then Ok v else Err (UndefinedVariable y)
  | Add l r => let? a := evaluate_single_var x v l in
               let? b := evaluate_single_var x v r in Ok (nadd a b)
  | Sub l r => let? a := evaluate_single_var x v l in
               let? b := evaluate_single_var x v r in Ok (nsub a b)
  | Mul l r => let? a := evaluate_single_var x v l in
               let? b := evaluate_single_var x v r in Ok (nmul a b)
  | Div l r => let? d := evaluate_single_var x v r in
               if neqb d n0 then Err DivisionByZero
               else let? a := evaluate_single_var x v l in Ok (ndiv a d)
  | Pow l r => let? a := evaluate_single_var x v l in
               let? b := evaluate_single_var x v r in Ok (npow a b)
  | Ln a => let? w := evaluate_single_var x v a in
            if nleb w n0 then Err (InvalidLogarithm w) else Ok (nln w)
  | Exp a => let? w := evaluate_single_var x v a in Ok (nexp w)
  | Sqrt a => let? w := evaluate_single_var x v a in
              if nltb w n0 then Err (InvalidSquareRoot w) else Ok (nsqrt w)
  | Sin a => let? w := evaluate_single_var x v a in Ok (nsin w)
  | Cos a => let? w := evaluate_single_var x v a in Ok (ncos w)
  | Neg a => let? w := evaluate_single_var x v a in Ok (nneg w)
  end.

(** expr.rs 624-643 [collect_variables], pushing onto the vector. *)
Fixpoint collect_variables (e : expr) (vars : list string) : list string :=
  match e with
  | Const _ => vars
  | Var x => (vars ++ [x])%list
  | Add l r | Sub l r | Mul l r | Div l r | Pow l r =>
      collect_variables r (collect_variables l vars)
  | Ln a | Exp a | Sqrt a | Sin a | Cos a | Neg a => collect_variables a vars
  end.

(** [Vec<String>::sort]: bytewise lexicographic order.  Any correct sort gives
    the same vector since equal strings are indistinguishable. *)
Fixpoint sort_insert (x : string) (l : list string) : list string :=
  match l with
  | [] => [x]
  | y :: l' => if String.leb x y then x :: l else y :: sort_insert x l'
  end.
Definition sort (l : list string) : list string := fold_right sort_insert [] l.

(** [Vec::dedup]: drop every element equal to its predecessor. *)
Fixpoint dedup (l : list string) : list string :=
  match l with
  | x :: ((y :: _) as l') => if String.eqb x y then dedup l' else x :: dedup l'
  | _ => l
  end.

(** expr.rs 616-622 [Expr::variables]. *)
Definition variables (e : expr) : list string := dedup (sort (collect_variables e [])).

(** expr.rs 647-662 [Expr::complexity]. *)
Fixpoint complexity (e : expr) : nat :=
  match e with
  | Const _ | Var _ => 0
  | Add l r | Sub l r | Mul l r | Div l r | Pow l r => 1 + complexity l + complexity r
  | Ln a | Exp a | Sqrt a | Sin a | Cos a | Neg a => 1 + complexity a
  end.

(** expr.rs 666-676 [Expr::evaluate_batch]: one map, updated per value. *)
Fixpoint batch_loop (e : expr) (x : string) (m : env) (values : list N) (acc : list N)
  : res N (list N) :=
  match values with
  | [] => Ok acc
  | v :: vs => let m' := insert m x v in
               let? r := evaluate m' e in batch_loop e x m' vs (acc ++ [r])%list
  end.
Definition evaluate_batch (e : expr) (x : string) (values : list N) : res N (list N) :=
  batch_loop e x [] values [].

(** expr.rs 679-690 [Expr::evaluate_batch_vars]. *)
Fixpoint batch_vars_loop (e : expr) (sets : list env) (acc : list N) : res N (list N) :=
  match sets with
  | [] => Ok acc
  | m :: ms => let? r := evaluate m e in batch_vars_loop e ms (acc ++ [r])%list
  end.
Definition evaluate_batch_vars (e : expr) (sets : list env) : res N (list N) :=
  batch_vars_loop e sets [].

(** expr.rs 693-716 [Expr::evaluate_grid]: inner loop threads the map. *)
Fixpoint grid_row (e : expr) (x : string) (m : env) (xs : list N) (acc : list N)
  : res N (list N * env) :=
  match xs with
  | [] => Ok (acc, m)
  | v :: vs => let m' := insert m x v in
               let? r := evaluate m' e in grid_row e x m' vs (acc ++ [r])%list
  end.
Fixpoint grid_loop (e : expr) (x : string) (xs : list N) (y : string) (m : env)
    (ys : list N) (acc : list (list N)) : res N (list (list N)) :=
  match ys with
  | [] => Ok acc
  | w :: ws => let? p := grid_row e x (insert m y w) xs [] in
               grid_loop e x xs y (snd p) ws (acc ++ [fst p])%list
  end.
Definition evaluate_grid (e : expr) (x : string) (xs : list N) (y : string) (ys : list N)
  : res N (list (list N)) := grid_loop e x xs y [] ys [].

(** expr.rs 304-306: the single-variable loop. *)
Fixpoint single_loop (e : expr) (x : string) (values acc : list N) : res N (list N) :=
  match values with
  | [] => Ok acc
  | v :: vs => let? r := evaluate_single_var x v e in single_loop e x vs (acc ++ [r])%list
  end.

(** expr.rs 292-325 [Expr::evaluate_batch_optimized]. *)
Definition evaluate_batch_optimized (e : expr) (x : string) (values : list N) : res N (list N) :=
  let vs := variables e in
  if match vs with [y] => String.eqb y x | _ => false end
  then single_loop e x values []
  else batch_loop e x
         (fold_left (fun m y => if negb (String.eqb y x) then insert m y n0 else m) vs [])
         values [].

(** expr.rs 330-377 [Expr::evaluate_polynomial]. *)
Fixpoint evaluate_polynomial (x : string) (v : N) (e : expr) : option N :=
  match e with
  | Const c => Some c
  | Var y => if String.eqb y x then Some v else None
  | Mul (Const a) (Var y) => if String.eqb y x then Some (nmul a v) else None
  | Mul (Var y) (Const a) => if String.eqb y x then Some (nmul a v) else None
  | Pow (Var y) (Const n) => if String.eqb y x then Some (npow v n) else None
  | Add l r => match evaluate_polynomial x v l, evaluate_polynomial x v r with
               | Some a, Some b => Some (nadd a b) | _, _ => None end
  | Sub l r => match evaluate_polynomial x v l, evaluate_polynomial x v r with
               | Some a, Some b => Some (nsub a b) | _, _ => None end
  | _ => None
  end.

(** expr.rs 382-423 [Expr::extract_linear_coefficients]. *)
Fixpoint extract_linear_coefficients (x : string) (e : expr) : option (N * N) :=
  match e with
  | Const b => Some (n0, b)
  | Var y => if String.eqb y x then Some (n1, n0) else None
  | Mul (Const a) (Var y) => if String.eqb y x then Some (a, n0) else None
  | Mul (Var y) (Const a) => if String.eqb y x then Some (a, n0) else None
  | Add l r => match extract_linear_coefficients x l, extract_linear_coefficients x r with
               | Some (a1, b1), Some (a2, b2) => Some (nadd a1 a2, nadd b1 b2)
               | _, _ => None end
  | Sub l r => match extract_linear_coefficients x l, extract_linear_coefficients x r with
               | Some (a1, b1), Some (a2, b2) => Some (nsub a1 a2, nsub b1 b2)
               | _, _ => None end
  | _ => None
  end.

(** expr.rs 427-433 [Expr::evaluate_linear]. *)
Definition evaluate_linear (x : string) (v : N) (e : expr) : option N :=
  match extract_linear_coefficients x e with
  | Some (a, b) => Some (nadd (nmul a v) b)
  | None => None
  end.

(** expr.rs 436-449 [Expr::evaluate_smart]. *)
Definition evaluate_smart (x : string) (v : N) (e : expr) : res N N :=
  match evaluate_linear x v e with
  | Some r => Ok r
  | None => match evaluate_polynomial x v e with
            | Some r => Ok r
            | None => evaluate_single_var x v e
            end
  end.

(** Derived [PartialEq] (expr.rs 80): structural, constants by [==]. *)
Fixpoint expr_eqb (a b : expr) : bool :=
  match a, b with
  | Const x, Const y => neqb x y
  | Var x, Var y => String.eqb x y
  | Add a1 a2, Add b1 b2 | Sub a1 a2, Sub b1 b2 | Mul a1 a2, Mul b1 b2
  | Div a1 a2, Div b1 b2 | Pow a1 a2, Pow b1 b2 => expr_eqb a1 b1 && expr_eqb a2 b2
  | Ln a1, Ln b1 | Exp a1, Exp b1 | Sqrt a1, Sqrt b1
  | Sin a1, Sin b1 | Cos a1, Cos b1 | Neg a1, Neg b1 => expr_eqb a1 b1
  | _, _ => false
  end.

(** ** The simplifier, expr.rs 453-551.  One definition per match arm, applied
    to the already simplified children. *)

(** expr.rs 456-464 *)
Definition simp_add (l r : expr) : expr :=
  match l, r with
  | Const a, Const b => Const (nadd a b)
  | _, _ =>
      if is_lit n0 l then r
      else if is_lit n0 r then l
      else if expr_eqb l r then Mul (Const n2) l
      else Add l r
  end.

(** expr.rs 465-472 *)
Definition simp_sub (l r : expr) : expr :=
  match l, r with
  | Const a, Const b => Const (nsub a b)
  | _, _ =>
      if is_lit n0 r then l
      else if is_lit n0 l then Neg r
      else if expr_eqb l r then Const n0
      else Sub l r
  end.

(** expr.rs 473-483 *)
Definition simp_mul (l r : expr) : expr :=
  match l, r with
  | Const a, Const b => Const (nmul a b)
  | _, _ =>
      if is_lit n0 l || is_lit n0 r then Const n0
      else if is_lit n1 l then r
      else if is_lit n1 r then l
      else if is_lit nm1 l then Neg r
      else if is_lit nm1 r then Neg l
      else if expr_eqb l r then Pow l (Const n2)
      else Mul l r
  end.

(** expr.rs 484-491; [b != 0.0] is the negation of [b == 0.0]. *)
Definition simp_div (l r : expr) : expr :=
  let rest :=
    if is_lit n1 r then l
    else if is_lit n0 l then Const n0
    else if expr_eqb l r then Const n1
    else Div l r in
  match l, r with
  | Const a, Const b => if negb (neqb b n0) then Const (ndiv a b) else rest
  | _, _ => rest
  end.

(** expr.rs 504-511 *)
Definition simp_ln (e : expr) : expr :=
  match e with
  | Const a => if nltb n0 a then Const (nln a)
               else if neqb a n1 then Const n0 else Ln e
  | Exp i => i
  | Pow b p => Mul p (Ln b)
  | _ => Ln e
  end.

(** expr.rs 512-522 *)
Definition simp_exp (e : expr) : expr :=
  match e with
  | Const a => if neqb a n0 then Const n1 else Const (nexp a)
  | Ln i => i
  | Mul c (Ln b) => Pow b c
  | _ => Exp e
  end.

(** expr.rs 523-533 *)
Definition simp_sqrt (e : expr) : expr :=
  match e with
  | Const a => if nleb n0 a then Const (nsqrt a)
               else if neqb a n0 then Const n0
               else if neqb a n1 then Const n1 else Sqrt e
  | Pow b p => if is_lit n2 p then b else Sqrt e
  | _ => Sqrt e
  end.

(** expr.rs 534-538 *)
Definition simp_sin (e : expr) : expr :=
  match e with
  | Const a => if neqb a n0 then Const n0 else Const (nsin a)
  | _ => Sin e
  end.

(** expr.rs 539-543 *)
Definition simp_cos (e : expr) : expr :=
  match e with
  | Const a => if neqb a n0 then Const n1 else Const (ncos a)
  | _ => Cos e
  end.

(** expr.rs 544-548 *)
Definition simp_neg (e : expr) : expr :=
  match e with
  | Const a => Const (nneg a)
  | Neg i => i
  | _ => Neg e
  end.

(** expr.rs 492-503.  The arm for a nested power calls [simplify] again on a
    freshly built product; [again] is that recursive call. *)
Definition simp_pow (again : expr -> option expr) (b p : expr) : option expr :=
  match b, p with
  | Const x, Const y => Some (Const (npow x y))
  | _, _ =>
      if is_lit n0 p then Some (Const n1)
      else if is_lit n1 p then Some b
      else if is_lit n1 b then Some (Const n1)
      else match b with
           | Pow ib ip => match again (Mul ip p) with
                          | Some q => Some (Pow ib q)
                          | None => None
                          end
           | _ => Some (Pow b p)
           end
  end.

Definition obind {T U} (o : option T) (k : T -> option U) : option U :=
  match o with Some x => k x | None => None end.

(** expr.rs 453-551 with an explicit recursion budget; [None] = budget spent.
    [simplify_terminates] shows that the budget used below always suffices. *)
Fixpoint simplify_fuel (fuel : nat) (e : expr) : option expr :=
  match fuel with
  | O => None
  | S f =>
    let go := simplify_fuel f in
    match e with
    | Add l r => obind (go l) (fun l' => obind (go r) (fun r' => Some (simp_add l' r')))
    | Sub l r => obind (go l) (fun l' => obind (go r) (fun r' => Some (simp_sub l' r')))
    | Mul l r => obind (go l) (fun l' => obind (go r) (fun r' => Some (simp_mul l' r')))
    | Div l r => obind (go l) (fun l' => obind (go r) (fun r' => Some (simp_div l' r')))
    | Pow b p => obind (go b) (fun b' => obind (go p) (fun p' => simp_pow go b' p'))
    | Ln a => obind (go a) (fun a' => Some (simp_ln a'))
    | Exp a => obind (go a) (fun a' => Some (simp_exp a'))
    | Sqrt a => obind (go a) (fun a' => Some (simp_sqrt a'))
    | Sin a => obind (go a) (fun a' => Some (simp_sin a'))
    | Cos a => obind (go a) (fun a' => Some (simp_cos a'))
    | Neg a => obind (go a) (fun a' => Some (simp_neg a'))
    | Const _ | Var _ => Some e
    end
  end.

(** Number of tree nodes; used only as a recursion budget. *)
Fixpoint size (e : expr) : nat :=
  match e with
  | Const _ | Var _ => 1
  | Add l r | Sub l r | Mul l r | Div l r | Pow l r => 1 + size l + size r
  | Ln a | Exp a | Sqrt a | Sin a | Cos a | Neg a => 1 + size a
  end.

(** expr.rs 453 [Expr::simplify]. *)
Definition simplify (e : expr) : expr :=
  match simplify_fuel (size e) e with Some r => r | None => e end.

(** ** expr.rs 1059-1148 [SymbolicLogDensity]. *)
Record symbolic_log_density := mkSLD {
  sld_expression : expr; sld_parameters : env; sld_variables : list string }.

(** expr.rs 1073-1080 *)
Definition sld_new (e : expr) (ps : env) : symbolic_log_density :=
  mkSLD e ps (variables e).

(** expr.rs 1083-1087 *)
Definition sld_evaluate (d : symbolic_log_density) (vars : env) : res N N :=
  evaluate (extend (sld_parameters d) vars) (sld_expression d).

(** expr.rs 1090-1094 *)
Definition sld_evaluate_single (d : symbolic_log_density) (x : string) (v : N) : res N N :=
  evaluate (insert (sld_parameters d) x v) (sld_expression d).

(** expr.rs 1098-1101 *)
Definition sld_simplify (d : symbolic_log_density) : symbolic_log_density :=
  mkSLD (simplify (sld_expression d)) (sld_parameters d) (sld_variables d).

(** expr.rs 1110-1147 [substitute_expr] *)
Fixpoint substitute_expr (ps : env) (e : expr) : expr :=
  match e with
  | Var x => match get ps x with Some v => Const v | None => Var x end
  | Const c => Const c
  | Add l r => Add (substitute_expr ps l) (substitute_expr ps r)
  | Sub l r => Sub (substitute_expr ps l) (substitute_expr ps r)
  | Mul l r => Mul (substitute_expr ps l) (substitute_expr ps r)
  | Div l r => Div (substitute_expr ps l) (substitute_expr ps r)
  | Pow l r => Pow (substitute_expr ps l) (substitute_expr ps r)
  | Ln a => Ln (substitute_expr ps a)
  | Exp a => Exp (substitute_expr ps a)
  | Sqrt a => Sqrt (substitute_expr ps a)
  | Sin a => Sin (substitute_expr ps a)
  | Cos a => Cos (substitute_expr ps a)
  | Neg a => Neg (substitute_expr ps a)
  end.

(** expr.rs 1105-1108: the [variables] field is left as it was. *)
Definition sld_substitute_parameters (d : symbolic_log_density) : symbolic_log_density :=
  mkSLD (substitute_expr (sld_parameters d) (sld_expression d))
        (sld_parameters d) (sld_variables d).

(** ** expr.rs 1014-1057 [ConstantPool]. *)
Record constant_pool := mkPool {
  cp_constants : env; cp_dependencies : ExprModel.env (list string);
  cp_order : list string; cp_expressions : ExprModel.env string }.
(** expr.rs 1030-1037 *)
Definition pool_new : constant_pool := mkPool [] [] [] [].
(** expr.rs 1040-1050 *)
Definition pool_add (p : constant_pool) (name : string) (v : N) (ex : string)
    (deps : list string) : constant_pool :=
  mkPool (insert (cp_constants p) name v) (insert (cp_dependencies p) name deps)
         (cp_order p) (insert (cp_expressions p) name ex).

(** ** expr.rs 799-986 operator sugar. *)
(** 800-838 *)
Definition op_add (a b : expr) : expr := Add a b.
Definition op_sub (a b : expr) : expr := Sub a b.
Definition op_mul (a b : expr) : expr := Mul a b.
Definition op_div (a b : expr) : expr := Div a b.
Definition op_neg (a : expr) : expr := Neg a.
(** 841-863: [From<f64>], [From<i32>], [From<&str>/From<String>] *)
Definition from_f64 (v : N) : expr := Const v.
Definition from_i32 (z : Z) : expr := Const (nint z).
Definition from_str (s : string) : expr := Var s.
(** 866-928: mixed [Expr]/[f64] operators *)
Definition op_add_f (a : expr) (v : N) := op_add a (from_f64 v).
Definition op_f_add (v : N) (a : expr) := op_add (from_f64 v) a.
Definition op_sub_f (a : expr) (v : N) := op_sub a (from_f64 v).
Definition op_f_sub (v : N) (a : expr) := op_sub (from_f64 v) a.
Definition op_mul_f (a : expr) (v : N) := op_mul a (from_f64 v).
Definition op_f_mul (v : N) (a : expr) := op_mul (from_f64 v) a.
Definition op_div_f (a : expr) (v : N) := op_div a (from_f64 v).
Definition op_f_div (v : N) (a : expr) := op_div (from_f64 v) a.
(** 934-985 *)
Definition m_powf (a p : expr) : expr := Pow a p.
Definition m_natural_log (a : expr) : expr := Ln a.
Definition m_exponential (a : expr) : expr := Exp a.
Definition m_square_root (a : expr) : expr := Sqrt a.
Definition m_sin (a : expr) : expr := Sin a.
Definition m_cos (a : expr) : expr := Cos a.
Definition m_square (a : expr) : expr := op_mul a a.
Definition m_cube (a : expr) : expr := op_mul (op_mul a a) a.
Definition m_abs (a : expr) : expr := m_square_root (m_square a).
End Expr.
