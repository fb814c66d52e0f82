(** Specification vocabulary for the text renderings: what number texts and
    identifiers look like, and how Python reads an arithmetic expression. *)
From Coq Require Import ZArith Reals Bool String Ascii List.
From Verif Require Import Num ExprModel ExprSpec.
Import ListNotations.
Local Open Scope string_scope.

Definition las := list_ascii_of_string.

Definition is_digit (c : ascii) : bool :=
  let n := nat_of_ascii c in Nat.leb 48 n && Nat.leb n 57.
Definition is_alpha (c : ascii) : bool :=
  let n := nat_of_ascii c in
  (Nat.leb 65 n && Nat.leb n 90) || (Nat.leb 97 n && Nat.leb n 122) || Nat.eqb n 95.
Definition is_word (c : ascii) : bool := is_alpha c || is_digit c.

(** Digits and dots, starting with a digit. *)
Definition plain_number (s : string) : bool :=
  match las s with
  | [] => false
  | c :: l => is_digit c && forallb (fun d => is_digit d || Ascii.eqb d ".") l
  end.

(** The texts of numbers: Rust's [Display] never uses an exponent. *)
Definition number_text (s : string) : bool :=
  String.eqb s "inf" || String.eqb s "-inf" || String.eqb s "NaN" ||
  plain_number s ||
  match s with String "-" s' => plain_number s' | _ => false end.

(** An injective text for numbers ([Display] without NaN payloads). *)
Definition good_show {N : Num} (show : N -> string) : Prop :=
  (forall a b, show a = show b -> a = b) /\ (forall a, number_text (show a) = true).

(** Identifiers other than the two that read like numbers. *)
Definition identifier (s : string) : bool :=
  match las s with
  | [] => false
  | c :: l => is_alpha c && forallb is_word l
  end && negb (String.eqb s "inf") && negb (String.eqb s "NaN").

(** All variable names satisfy [ok]. *)
Definition names_ok {A} (ok : string -> bool) (e : expr A) : Prop :=
  forall x, occurs x e -> ok x = true.

(** ** Python *)
Inductive token := TName (s : string) | TKeyword (s : string) | TNum (s : string)
  | TLP | TRP | TPlus | TMinus | TStar | TDStar | TSlash | TDot | TOther.

(** Reserved words (Language Reference 2.3.1). *)
Definition keywords : list string :=
  ["False"; "None"; "True"; "and"; "as"; "assert"; "async"; "await"; "break"; "class";
   "continue"; "def"; "del"; "elif"; "else"; "except"; "finally"; "for"; "from"; "global";
   "if"; "import"; "in"; "is"; "lambda"; "nonlocal"; "not"; "or"; "pass"; "raise"; "return";
   "try"; "while"; "with"; "yield"].
Definition keyword (s : string) : bool := existsb (String.eqb s) keywords.
(** A name that can be bound in Python without hiding the [math] module. *)
Definition py_name (s : string) : bool :=
  identifier s && negb (keyword s) && negb (String.eqb s "math").

(** Tokens of a line.  [cur] is the word being read, most recent letter first;
    its first letter decides whether it is a name or a number. *)
Definition flush (cur : list ascii) (k : list token) : list token :=
  match rev cur with
  | [] => k
  | c :: l => (if is_digit c then TNum (string_of_list_ascii (c :: l))
               else let w := string_of_list_ascii (c :: l) in
                    if keyword w then TKeyword w else TName w) :: k
  end.
Definition in_number (cur : list ascii) : bool :=
  match rev cur with [] => false | c :: _ => is_digit c end.

Fixpoint lex (cur : list ascii) (s : list ascii) : list token :=
  match s with
  | [] => flush cur []
  | c :: s' =>
      if is_word c then lex (c :: cur) s'
      else if Ascii.eqb c "." then
        if in_number cur then lex (c :: cur) s' else flush cur (TDot :: lex [] s')
      else flush cur
        (if Ascii.eqb c "(" then TLP :: lex [] s'
         else if Ascii.eqb c ")" then TRP :: lex [] s'
         else if Ascii.eqb c "+" then TPlus :: lex [] s'
         else if Ascii.eqb c "-" then TMinus :: lex [] s'
         else if Ascii.eqb c "/" then TSlash :: lex [] s'
         else if Ascii.eqb c "*" then
           match s' with
           | c2 :: s'' => if Ascii.eqb c2 "*" then TDStar :: lex [] s'' else TStar :: lex [] s'
           | [] => [TStar]
           end
         else if Ascii.eqb c " " then lex [] s'
         else TOther :: lex [] s')
  end.
Definition tokens (s : string) : list token := lex [] (las s).

Inductive py :=
| PNum (t : string) | PName (x : string) | PNeg (a : py)
| PAdd (l r : py) | PSub (l r : py) | PMul (l r : py) | PDiv (l r : py) | PPow (l r : py)
| PCall (f : string) (a : py).

(** The Python grammar (Language Reference 6.5-6.7):
      sum     : term (("+"|"-") term)*
      term    : factor (("*"|"/") factor)*
      factor  : "-" factor | power
      power   : primary ["**" factor]
      primary : NUMBER | NAME | "(" sum ")" | "math" "." NAME "(" sum ")"
    [n] bounds the number of nested grammar rules; [None] is a syntax error. *)
Fixpoint p_sum (n : nat) (ts : list token) : option (py * list token) :=
  match n with O => None | S n =>
    match p_term n ts with Some (t, r) => p_sum_rest n t r | None => None end
  end
with p_sum_rest (n : nat) (acc : py) (ts : list token) : option (py * list token) :=
  match n with O => None | S n =>
    match ts with
    | TPlus :: ts' => match p_term n ts' with
                      | Some (t, r) => p_sum_rest n (PAdd acc t) r | None => None end
    | TMinus :: ts' => match p_term n ts' with
                      | Some (t, r) => p_sum_rest n (PSub acc t) r | None => None end
    | _ => Some (acc, ts)
    end
  end
with p_term (n : nat) (ts : list token) : option (py * list token) :=
  match n with O => None | S n =>
    match p_factor n ts with Some (t, r) => p_term_rest n t r | None => None end
  end
with p_term_rest (n : nat) (acc : py) (ts : list token) : option (py * list token) :=
  match n with O => None | S n =>
    match ts with
    | TStar :: ts' => match p_factor n ts' with
                      | Some (t, r) => p_term_rest n (PMul acc t) r | None => None end
    | TSlash :: ts' => match p_factor n ts' with
                      | Some (t, r) => p_term_rest n (PDiv acc t) r | None => None end
    | _ => Some (acc, ts)
    end
  end
with p_factor (n : nat) (ts : list token) : option (py * list token) :=
  match n with O => None | S n =>
    match ts with
    | TMinus :: ts' => match p_factor n ts' with
                       | Some (t, r) => Some (PNeg t, r) | None => None end
    | _ => p_power n ts
    end
  end
with p_power (n : nat) (ts : list token) : option (py * list token) :=
  match n with O => None | S n =>
    match p_primary n ts with
    | Some (b, TDStar :: ts') => match p_factor n ts' with
                                 | Some (t, r) => Some (PPow b t, r) | None => None end
    | o => o
    end
  end
with p_primary (n : nat) (ts : list token) : option (py * list token) :=
  match n with O => None | S n =>
    match ts with
    | TNum t :: ts' => Some (PNum t, ts')
    | TName m :: TDot :: TName f :: TLP :: ts' =>
        if String.eqb m "math" then
          match p_sum n ts' with Some (t, TRP :: r) => Some (PCall f t, r) | _ => None end
        else None
    | TName x :: ts' => Some (PName x, ts')
    | TLP :: ts' => match p_sum n ts' with Some (t, TRP :: r) => Some (t, r) | _ => None end
    | _ => None
    end
  end.

(** [python_reads s t]: the text [s] is a Python expression with syntax tree [t]
    (for every large enough bound on the parser). *)
Definition python_reads (s : string) (t : py) : Prop :=
  exists n0, forall n, n0 <= n -> p_sum n (tokens s) = Some (t, []).

(** The expression a syntax tree stands for, when [rd] reads number literals. *)
Fixpoint py_expr {A} (rd : string -> A) (t : py) : option (expr A) :=
  let bin f l r := match py_expr rd l, py_expr rd r with
                   | Some a, Some b => Some (f a b) | _, _ => None end in
  match t with
  | PNum s => Some (Const (rd s))
  | PName x => Some (Var x)
  | PNeg a => option_map Neg (py_expr rd a)
  | PAdd l r => bin Add l r
  | PSub l r => bin Sub l r
  | PMul l r => bin Mul l r
  | PDiv l r => bin Div l r
  | PPow l r => bin Pow l r
  | PCall f a =>
      option_map (A := expr A)
        (if String.eqb f "log" then Ln else if String.eqb f "exp" then Exp
         else if String.eqb f "sqrt" then Sqrt else if String.eqb f "sin" then Sin
         else Cos)
        (if String.eqb f "log" || String.eqb f "exp" || String.eqb f "sqrt"
            || String.eqb f "sin" || String.eqb f "cos"
         then py_expr rd a else None)
  end.

(** [rd] reads the number texts that [show] writes: a literal has no sign, a
    negative number is written as a minus sign and a literal. *)
Definition reads {N : Num} (rd : string -> N) (show : N -> string) (c : N) : Prop :=
  (plain_number (show c) = true /\ rd (show c) = c) \/
  (exists t, show c = String "-" t /\ plain_number t = true /\ nneg (rd t) = c).

Fixpoint consts_readable {N : Num} (rd : string -> N) (show : N -> string) (e : expr N) : Prop :=
  match e with
  | Const c => reads rd show c
  | Var _ => True
  | Add l r | Sub l r | Mul l r | Div l r | Pow l r =>
      consts_readable rd show l /\ consts_readable rd show r
  | Ln a | Exp a | Sqrt a | Sin a | Cos a | Neg a => consts_readable rd show a
  end.

(** No power has a base that is written with a leading minus sign. *)
Fixpoint no_signed_base {N : Num} (show : N -> string) (e : expr N) : bool :=
  match e with
  | Const _ | Var _ => true
  | Pow b p =>
      match b with
      | Neg _ => false
      | Const c => match show c with String "-" _ => false | _ => true end
      | _ => true
      end && no_signed_base show b && no_signed_base show p
  | Add l r | Sub l r | Mul l r | Div l r => no_signed_base show l && no_signed_base show r
  | Ln a | Exp a | Sqrt a | Sin a | Cos a | Neg a => no_signed_base show a
  end.

(** ** Balanced brackets *)
Inductive bracket := BParen | BBrace.
(** Scan a text with a stack of open brackets. *)
Fixpoint scan (st : list bracket) (s : list ascii) : option (list bracket) :=
  match s with
  | [] => Some st
  | c :: s' =>
      if Ascii.eqb c "(" then scan (BParen :: st) s'
      else if Ascii.eqb c "{" then scan (BBrace :: st) s'
      else if Ascii.eqb c ")" then
        match st with BParen :: st' => scan st' s' | _ => None end
      else if Ascii.eqb c "}" then
        match st with BBrace :: st' => scan st' s' | _ => None end
      else scan st s'
  end.
Definition balanced (s : string) : Prop := scan [] (las s) = Some [].
