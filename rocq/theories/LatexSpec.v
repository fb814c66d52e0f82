(** Specification vocabulary for the LaTeX rendering: how a formula in math mode
    is read with the usual conventions. *)
From Coq Require Import ZArith Reals Bool String Ascii List.
From Verif Require Import Num ExprModel ExprSpec ShowSpec.
Import ListNotations.
Local Open Scope string_scope.

(** ** Tokens *)
Inductive ltoken := LName (s : string) | LNum (s : string) | LCmd (s : string)
  | LLB | LRB | LLP | LRP | LPlus | LMinus | LCaret | LOther.

(** [cur] is the word being read, most recent letter first.  A word is a number
    (digits and dots), a name (letters, digits, underscores) or a command (a
    backslash and letters), as its first character says; a multi-letter name is
    one symbol.  So "2x" is the number 2 followed by the name x. *)
Definition lflush (cur : list ascii) (k : list ltoken) : list ltoken :=
  match rev cur with
  | [] => k
  | c :: l => (if is_digit c then LNum (string_of_list_ascii (c :: l))
               else if Ascii.eqb c "\" then LCmd (string_of_list_ascii l)
               else LName (string_of_list_ascii (c :: l))) :: k
  end.
Definition joins (cur : list ascii) (c : ascii) : bool :=
  match rev cur with
  | [] => false
  | d :: _ => if is_digit d then is_digit c || Ascii.eqb c "."
              else if Ascii.eqb d "\" then is_alpha c
              else is_word c
  end.
Fixpoint llex (cur : list ascii) (s : list ascii) : list ltoken :=
  match s with
  | [] => lflush cur []
  | c :: s' =>
      if joins cur c then llex (c :: cur) s'
      else lflush cur
        (if is_word c || Ascii.eqb c "\" then llex [c] s'
         else if Ascii.eqb c "(" then LLP :: llex [] s'
         else if Ascii.eqb c ")" then LRP :: llex [] s'
         else if Ascii.eqb c "{" then LLB :: llex [] s'
         else if Ascii.eqb c "}" then LRB :: llex [] s'
         else if Ascii.eqb c "+" then LPlus :: llex [] s'
         else if Ascii.eqb c "-" then LMinus :: llex [] s'
         else if Ascii.eqb c "^" then LCaret :: llex [] s'
         else if Ascii.eqb c " " then llex [] s'
         else LOther :: llex [] s')
  end.
Definition ltokens (s : string) : list ltoken := llex [] (las s).

(** ** Grammar
      sum     : term (("+"|"-") term)*
      term    : factor ("\cdot" factor)*
      factor  : "-" factor | NUMBER power (if the power starts with a name) | power
      power   : primary ["^" "{" sum "}"]
      primary : NUMBER | NAME | "(" sum ")" | "\frac" "{" sum "}" "{" sum "}"
              | "\sqrt" "{" sum "}" | ("\ln"|"\sin"|"\cos") "(" sum ")"
    A power of the name e is the exponential function; a second superscript is an
    error, as in LaTeX.  The tree's numbers are their texts.  [n] bounds the number
    of nested grammar rules; [None] is a syntax error. *)
Definition is_e (t : expr string) : bool := match t with Var x => String.eqb x "e" | _ => false end.

Fixpoint q_sum (n : nat) (ts : list ltoken) : option (expr string * list ltoken) :=
  match n with O => None | S n =>
    match q_term n ts with Some (t, r) => q_sum_rest n t r | None => None end
  end
with q_sum_rest (n : nat) (acc : expr string) (ts : list ltoken) : option (expr string * list ltoken) :=
  match n with O => None | S n =>
    match ts with
    | LPlus :: ts' => match q_term n ts' with
                      | Some (t, r) => q_sum_rest n (Add acc t) r | None => None end
    | LMinus :: ts' => match q_term n ts' with
                       | Some (t, r) => q_sum_rest n (Sub acc t) r | None => None end
    | _ => Some (acc, ts)
    end
  end
with q_term (n : nat) (ts : list ltoken) : option (expr string * list ltoken) :=
  match n with O => None | S n =>
    match q_factor n ts with Some (t, r) => q_term_rest n t r | None => None end
  end
with q_term_rest (n : nat) (acc : expr string) (ts : list ltoken) : option (expr string * list ltoken) :=
  match n with O => None | S n =>
    match ts with
    | LCmd c :: ts' => if String.eqb c "cdot" then
                         match q_factor n ts' with
                         | Some (t, r) => q_term_rest n (Mul acc t) r | None => None end
                       else Some (acc, ts)
    | _ => Some (acc, ts)
    end
  end
with q_factor (n : nat) (ts : list ltoken) : option (expr string * list ltoken) :=
  match n with O => None | S n =>
    match ts with
    | LMinus :: ts' => match q_factor n ts' with
                       | Some (t, r) => Some (Neg t, r) | None => None end
    | LNum v :: LName x :: ts' => match q_power n (LName x :: ts') with
                                  | Some (t, r) => Some (Mul (Const v) t, r) | None => None end
    | _ => q_power n ts
    end
  end
with q_power (n : nat) (ts : list ltoken) : option (expr string * list ltoken) :=
  match n with O => None | S n =>
    match q_primary n ts with
    | Some (b, LCaret :: LLB :: ts') =>
        match q_sum n ts' with
        | Some (p, LRB :: r) => Some (if is_e b then Exp p else Pow b p, r) | _ => None end
    | o => o
    end
  end
with q_primary (n : nat) (ts : list ltoken) : option (expr string * list ltoken) :=
  match n with O => None | S n =>
    match ts with
    | LNum v :: ts' => Some (Const v, ts')
    | LName x :: ts' => Some (Var x, ts')
    | LLP :: ts' => match q_sum n ts' with Some (t, LRP :: r) => Some (t, r) | _ => None end
    | LCmd c :: LLB :: ts' =>
        if String.eqb c "frac" then
          match q_sum n ts' with
          | Some (a, LRB :: LLB :: r) => match q_sum n r with
                                         | Some (b, LRB :: r') => Some (Div a b, r') | _ => None end
          | _ => None
          end
        else if String.eqb c "sqrt" then
          match q_sum n ts' with Some (t, LRB :: r) => Some (Sqrt t, r) | _ => None end
        else None
    | LCmd c :: LLP :: ts' =>
        if String.eqb c "ln" then
          match q_sum n ts' with Some (t, LRP :: r) => Some (Ln t, r) | _ => None end
        else if String.eqb c "sin" then
          match q_sum n ts' with Some (t, LRP :: r) => Some (Sin t, r) | _ => None end
        else if String.eqb c "cos" then
          match q_sum n ts' with Some (t, LRP :: r) => Some (Cos t, r) | _ => None end
        else None
    | _ => None
    end
  end.

(** [latex_reads s t]: the text [s] is a formula with syntax tree [t] (for every
    large enough bound on the parser). *)
Definition latex_reads (s : string) (t : expr string) : Prop :=
  exists n0, forall n, n0 <= n -> q_sum n (ltokens s) = Some (t, []).

(** Replace the number texts of a tree by the numbers [rd] reads. *)
Fixpoint numbers {A} (rd : string -> A) (t : expr string) : expr A :=
  match t with
  | Const s => Const (rd s) | Var x => Var x
  | Add l r => Add (numbers rd l) (numbers rd r) | Sub l r => Sub (numbers rd l) (numbers rd r)
  | Mul l r => Mul (numbers rd l) (numbers rd r) | Div l r => Div (numbers rd l) (numbers rd r)
  | Pow l r => Pow (numbers rd l) (numbers rd r)
  | Ln a => Ln (numbers rd a) | Exp a => Exp (numbers rd a) | Sqrt a => Sqrt (numbers rd a)
  | Sin a => Sin (numbers rd a) | Cos a => Cos (numbers rd a) | Neg a => Neg (numbers rd a)
  end.

(** ** Where the missing brackets do no harm *)
(** What the text of an expression looks like from outside: a sum, a product, a
    signed number, negation, power or exponential, or something that needs no
    brackets anywhere.  [txt] is the text of a number. *)
Inductive look := LookSum | LookProduct | LookSigned | LookTight.
Fixpoint looks {N : Num} (txt : N -> string) (e : expr N) : look :=
  match e with
  | Add _ _ | Sub _ _ => LookSum
  | Mul l r => match l with
               | Const c => if neqb c n1 then looks txt r else LookProduct
               | _ => LookProduct
               end
  | Const c => match txt c with String "-" _ => LookSigned | _ => LookTight end
  | Neg _ | Pow _ _ | Exp _ => LookSigned
  | Var _ | Div _ _ | Ln _ | Sqrt _ | Sin _ | Cos _ => LookTight
  end.
Definition not_sum (l : look) : bool := match l with LookSum => false | _ => true end.
Definition tight (l : look) : bool := match l with LookTight => true | _ => false end.

(** No sum is subtracted or multiplied, and every base of a power is tight. *)
Fixpoint brackets_unneeded {N : Num} (txt : N -> string) (e : expr N) : bool :=
  let safe := brackets_unneeded txt in
  match e with
  | Const _ | Var _ => true
  | Add l r | Div l r => safe l && safe r
  | Sub l r => safe l && safe r && not_sum (looks txt r)
  | Mul l r => safe l && safe r &&
               match l with
               | Const c => neqb c n1 || not_sum (looks txt r)
               | _ => not_sum (looks txt l) && not_sum (looks txt r)
               end
  | Pow b p => safe b && safe p && tight (looks txt b)
  | Ln a | Exp a | Sqrt a | Sin a | Cos a | Neg a => safe a
  end.

(** Names that read as one symbol, other than Euler's number. *)
Definition symbol (s : string) : bool := identifier s && negb (String.eqb s "e").
