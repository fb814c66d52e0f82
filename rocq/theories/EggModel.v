(** Model of symbolic-math/src/optimization.rs: the text exchanged with egglog,
    the rewrite rules and the equality saturation they drive.  Definitions
    only.

    Not modelled: egglog's own parser and printer, its iteration limits and its
    choice of the extracted term (theorems quantify over them). *)
From Coq Require Import ZArith Bool String Ascii List.
From Coq Require Import Floats.SpecFloat.
From Verif Require Import Num ExprModel ExprSpec JitModel.
Import ListNotations.
Local Open Scope string_scope.
Local Open Scope Z_scope.

(** * Numbers as text *)

Definition digit (d : Z) : string :=
  String (ascii_of_N (Z.to_N (48 + d))) "".

(** Decimal digits of a non-negative integer; [fuel] bounds their number. *)
Fixpoint digits (fuel : nat) (n : Z) : string :=
  match fuel with
  | O => digit n
  | S f => if n <? 10 then digit n else digits f (n / 10) ++ digit (n mod 10)
  end.
Definition show_Z (n : Z) : string := digits (Z.to_nat (Z.log2 n)) n.

(** [m 2^e] in tenths, rounded to the nearest integer, ties to even (core's
    exact float formatting). *)
Definition tenths (m : positive) (e : Z) : Z :=
  if 0 <=? e then 10 * (Zpos m * 2 ^ e)
  else
    let d := 2 ^ (- e) in
    let q := (10 * Zpos m) / d in
    let r := (10 * Zpos m) mod d in
    match 2 * r ?= d with
    | Lt => q
    | Gt => q + 1
    | Eq => if Z.even q then q else q + 1
    end.

(** Rust's ["{c:.1}"]: one digit after the point. *)
Definition fmt1 (c : f64) : string :=
  match c with
  | S754_nan => "NaN"
  | S754_infinity s => (if s then "-" else "") ++ "inf"
  | S754_zero s => (if s then "-" else "") ++ "0.0"
  | S754_finite s m e =>
      let t := tenths m e in
      (if s then "-" else "") ++ show_Z (t / 10) ++ "." ++ digit (t mod 10)
  end.

Definition digit_value (c : ascii) : option Z :=
  let n := Z.of_N (N_of_ascii c) in
  if (48 <=? n) && (n <=? 57) then Some (n - 48) else None.

(** The longest run of digits: the number it continues [acc] to, the number of
    digits and the rest. *)
Fixpoint take_digits (acc : Z) (count : nat) (s : string) : Z * nat * string :=
  match s with
  | String c s' =>
      match digit_value c with
      | Some d => take_digits (10 * acc + d) (S count) s'
      | None => (acc, count, s)
      end
  | EmptyString => (acc, count, s)
  end.

Definition lower (c : ascii) : ascii :=
  let n := N_of_ascii c in
  if ((65 <=? n) && (n <=? 90))%N then ascii_of_N (n + 32) else c.
Fixpoint lower_all (s : string) : string :=
  match s with String c s' => String (lower c) (lower_all s') | _ => s end.

(** The number [m 10^k], rounded to the nearest binary64. *)
Definition scaled (m k : Z) : f64 :=
  if 0 <=? k then f64_lit (m * 10 ^ k) 1 else f64_lit m (Z.to_pos (10 ^ (- k))).

(** [str::parse::<f64>] (core::num::dec2flt): optional sign, then [inf],
    [infinity] or [nan] in any case, or digits with an optional point and an
    optional exponent, at least one digit; correctly rounded. *)
Definition parse_exponent (s : string) : option Z :=
  match s with
  | EmptyString => Some 0
  | String c s' =>
      if Ascii.eqb (lower c) "e"%char then
        let '(neg, s'') := match s' with
          | String "-" r => (true, r)
          | String "+" r => (false, r)
          | _ => (false, s')
          end in
        match take_digits 0 0 s'' with
        | (v, S _, EmptyString) => Some (if neg then - v else v)
        | _ => None
        end
      else None
  end.
Definition parse_unsigned (s : string) : option f64 :=
  let l := lower_all s in
  if String.eqb l "inf" || String.eqb l "infinity" then Some (S754_infinity false)
  else if String.eqb l "nan" then Some S754_nan
  else
    let '(i, ni, s1) := take_digits 0 0 s in
    let '(v, nf, s2) := match s1 with
      | String "." r => take_digits i 0 r
      | _ => (i, O, s1)
      end in
    if Nat.eqb (ni + nf) 0 then None
    else match parse_exponent s2 with
         | Some x => Some (scaled v (x - Z.of_nat nf))
         | None => None
         end.
Definition parse_f64 (s : string) : option f64 :=
  match s with
  | String "-" r => match parse_unsigned r with Some v => Some (SFopp v) | None => None end
  | String "+" r => parse_unsigned r
  | _ => parse_unsigned s
  end.

(** * Expressions as text *)

(** optimization.rs 194-248 [expr_to_egglog] (it never fails). *)
Fixpoint expr_to_egglog (e : expr f64) : string :=
  match e with
  | Const c => "(Const " ++ fmt1 c ++ ")"
  | Var name => "(Var """ ++ name ++ """)"
  | Add l r => "(Add " ++ expr_to_egglog l ++ " " ++ expr_to_egglog r ++ ")"
  | Sub l r => "(Sub " ++ expr_to_egglog l ++ " " ++ expr_to_egglog r ++ ")"
  | Mul l r => "(Mul " ++ expr_to_egglog l ++ " " ++ expr_to_egglog r ++ ")"
  | Div l r => "(Div " ++ expr_to_egglog l ++ " " ++ expr_to_egglog r ++ ")"
  | Pow l r => "(Pow " ++ expr_to_egglog l ++ " " ++ expr_to_egglog r ++ ")"
  | Ln a => "(Ln " ++ expr_to_egglog a ++ ")"
  | Exp a => "(Exp " ++ expr_to_egglog a ++ ")"
  | Sqrt a => "(Sqrt " ++ expr_to_egglog a ++ ")"
  | Sin a => "(Sin " ++ expr_to_egglog a ++ ")"
  | Cos a => "(Cos " ++ expr_to_egglog a ++ ")"
  | Neg a => "(Neg " ++ expr_to_egglog a ++ ")"
  end.

(** [str::trim], ASCII white space only. *)
Definition is_space (c : ascii) : bool :=
  let n := N_of_ascii c in ((n =? 32) || ((9 <=? n) && (n <=? 13)))%N.
Fixpoint trim_start (s : string) : string :=
  match s with
  | String c s' => if is_space c then trim_start s' else s
  | EmptyString => s
  end.
Fixpoint trim_end (s : string) : string :=
  match s with
  | EmptyString => s
  | String c s' =>
      match trim_end s' with
      | EmptyString => if is_space c then EmptyString else String c ""
      | t => String c t
      end
  end.
Definition trim (s : string) : string := trim_end (trim_start s).

Definition starts_with (p s : string) : bool := String.prefix p s.
Definition ends_with (p s : string) : bool :=
  (String.length p <=? String.length s)%nat &&
  String.eqb (substring (String.length s - String.length p) (String.length p) s) p.
(** [&s[a..b]] for [a <= b]. *)
Definition slice (a b : nat) (s : string) : string := substring a (b - a) s.

(** optimization.rs 357-379 [parse_binary_args]: split at the first space
    outside parentheses. *)
Fixpoint split_outside (depth : Z) (s : string) : option (string * string) :=
  match s with
  | EmptyString => None
  | String c s' =>
      if Ascii.eqb c " "%char && (depth =? 0) then Some ("", s')
      else
        let depth' := if Ascii.eqb c "("%char then depth + 1
                      else if Ascii.eqb c ")"%char then depth - 1 else depth in
        match split_outside depth' s' with
        | Some (l, r) => Some (String c l, r)
        | None => None
        end
  end.
Definition parse_binary_args (s : string) : option (string * string) :=
  match split_outside 0 s with
  | Some (l, r) => Some (trim l, trim r)
  | None => None
  end.

(** The result of parsing: an expression, [None], or a panic (slice bounds). *)
Inductive parsed := Parsed (e : expr f64) | Unparsed | ParsePanic.

Definition parsed1 (mk : expr f64 -> expr f64) (p : parsed) : parsed :=
  match p with Parsed e => Parsed (mk e) | Unparsed => Unparsed | ParsePanic => ParsePanic end.
(** Both operands are parsed before either result is looked at. *)
Definition parsed2 (mk : expr f64 -> expr f64 -> expr f64) (p q : parsed) : parsed :=
  match p, q with
  | ParsePanic, _ | _, ParsePanic => ParsePanic
  | Parsed a, Parsed b => Parsed (mk a b)
  | _, _ => Unparsed
  end.

(** optimization.rs 252-353 [egglog_to_expr].  An arm whose prefix matches but
    whose contents do not parse falls through; no other arm has a compatible
    prefix, so the result is [None].  [fuel] bounds the recursion; the length
    of the text suffices (EggProofs.v). *)
Fixpoint egglog_parse (fuel : nat) (s : string) : parsed :=
  match fuel with
  | O => Unparsed
  | S fuel =>
      let t := trim s in
      let n := String.length t in
      let inner k := slice k (n - 1) t in
      let binary mk k :=
        match parse_binary_args (inner k) with
        | Some (l, r) => parsed2 mk (egglog_parse fuel l) (egglog_parse fuel r)
        | None => Unparsed
        end in
      let unary mk k := parsed1 mk (egglog_parse fuel (inner k)) in
      if starts_with "(Const " t && ends_with ")" t then
        match parse_f64 (inner 7%nat) with Some v => Parsed (Const v) | None => Unparsed end
      else if starts_with "(Var """ t && ends_with """)" t then
        if (n - 2 <? 6)%nat then ParsePanic else Parsed (Var (slice 6 (n - 2) t))
      else if starts_with "(Add " t && ends_with ")" t then binary Add 5%nat
      else if starts_with "(Mul " t && ends_with ")" t then binary Mul 5%nat
      else if starts_with "(Sub " t && ends_with ")" t then binary Sub 5%nat
      else if starts_with "(Div " t && ends_with ")" t then binary Div 5%nat
      else if starts_with "(Pow " t && ends_with ")" t then binary Pow 5%nat
      else if starts_with "(Ln " t && ends_with ")" t then unary Ln 4%nat
      else if starts_with "(Exp " t && ends_with ")" t then unary Exp 5%nat
      else if starts_with "(Sin " t && ends_with ")" t then unary Sin 5%nat
      else if starts_with "(Cos " t && ends_with ")" t then unary Cos 5%nat
      else if starts_with "(Neg " t && ends_with ")" t then unary Neg 5%nat
      else Unparsed
  end.
Definition egglog_to_expr (s : string) : parsed := egglog_parse (S (String.length s)) s.

(** optimization.rs 157-191 [optimize], with the text egglog extracts given.
    [None]: the call panics. *)
Definition optimize_with (extracted : option string) (e : expr f64) : option (expr f64) :=
  match extracted with
  | Some text => match egglog_to_expr text with
                 | Parsed e' => Some e'
                 | Unparsed => Some e
                 | ParsePanic => None
                 end
  | None => Some e
  end.

(** * Rewrite rules *)

(** Patterns: [?x] over terms, and over the payload of [Const] with egglog's
    primitive arithmetic. *)
Inductive cpat :=
| CLit (m : Z) (d : positive) | CVar (v : nat)
| CAdd (a b : cpat) | CSub (a b : cpat) | CMul (a b : cpat) | CDiv (a b : cpat).
Inductive pat :=
| PVar (v : nat) | PConst (c : cpat)
| PAdd (a b : pat) | PSub (a b : pat) | PMul (a b : pat) | PDiv (a b : pat) | PPow (a b : pat)
| PLn (a : pat) | PExp (a : pat) | PSqrt (a : pat) | PSin (a : pat) | PCos (a : pat) | PNeg (a : pat).

Definition c0_ := PConst (CLit 0 1).
Definition c1_ := PConst (CLit 1 1).
Definition c2_ := PConst (CLit 2 1).
Definition ch_ := PConst (CLit 5 10).
Definition x_ := PVar 0.
Definition y_ := PVar 1.
Definition a_ := PVar 2.
Definition b_ := PVar 3.
Definition c_ := PVar 4.
Definition d_ := PVar 5.
Definition n_ := PVar 6.
Definition ka := CVar 0.
Definition kb := CVar 1.
Definition kc := CVar 2.

(** optimization.rs 42-146, in order. *)
Definition rules : list (pat * pat) := [
  (* 42-54 *)
  (PAdd x_ c0_, x_); (PAdd c0_ x_, x_); (PSub x_ c0_, x_); (PSub x_ x_, c0_);
  (PMul x_ c1_, x_); (PMul c1_ x_, x_); (PMul x_ c0_, c0_); (PMul c0_ x_, c0_);
  (PDiv x_ c1_, x_); (PDiv c0_ x_, c0_);
  (PPow x_ c1_, x_); (PPow x_ c0_, c1_); (PPow c1_ x_, c1_);
  (* 57-60 *)
  (PLn (PExp x_), x_); (PExp (PLn x_), x_); (PLn c1_, c0_); (PExp c0_, c1_);
  (* 63-64 *)
  (PPow x_ c2_, PMul x_ x_); (PSqrt x_, PPow x_ ch_);
  (* 67-70 *)
  (PNeg (PNeg x_), x_); (PNeg c0_, c0_); (PAdd x_ (PNeg x_), c0_); (PSub x_ y_, PAdd x_ (PNeg y_));
  (* 74-75 *)
  (PAdd (PMul a_ x_) (PMul b_ x_), PMul (PAdd a_ b_) x_);
  (PAdd (PMul x_ a_) (PMul x_ b_), PMul x_ (PAdd a_ b_));
  (* 78-80 *)
  (PAdd (PLn a_) (PLn b_), PLn (PMul a_ b_));
  (PSub (PLn a_) (PLn b_), PLn (PDiv a_ b_));
  (PMul (PConst kc) (PLn x_), PLn (PPow x_ (PConst kc)));
  (* 83-85 *)
  (PMul (PExp a_) (PExp b_), PExp (PAdd a_ b_));
  (PDiv (PExp a_) (PExp b_), PExp (PSub a_ b_));
  (PPow (PExp x_) (PConst kc), PExp (PMul (PConst kc) x_));
  (* 88-89 *)
  (PAdd (PPow (PSin x_) c2_) (PPow (PCos x_) c2_), c1_);
  (PAdd (PMul (PSin x_) (PSin x_)) (PMul (PCos x_) (PCos x_)), c1_);
  (* 92-95 *)
  (PAdd (PAdd a_ b_) c_, PAdd a_ (PAdd b_ c_));
  (PMul (PMul a_ b_) c_, PMul a_ (PMul b_ c_));
  (PAdd a_ b_, PAdd b_ a_); (PMul a_ b_, PMul b_ a_);
  (* 98-100 *)
  (PMul (PPow x_ a_) (PPow x_ b_), PPow x_ (PAdd a_ b_));
  (PDiv (PPow x_ a_) (PPow x_ b_), PPow x_ (PSub a_ b_));
  (PPow (PPow x_ a_) b_, PPow x_ (PMul a_ b_));
  (* 103-106 *)
  (PAdd (PConst ka) (PConst kb), PConst (CAdd ka kb));
  (PMul (PConst ka) (PConst kb), PConst (CMul ka kb));
  (PSub (PConst ka) (PConst kb), PConst (CSub ka kb));
  (PDiv (PConst ka) (PConst kb), PConst (CDiv ka kb));
  (* 110-113 *)
  (PAdd x_ x_, PMul c2_ x_);
  (PAdd (PMul (PConst ka) x_) (PMul (PConst kb) x_), PMul (PConst (CAdd ka kb)) x_);
  (PAdd (PMul (PConst ka) x_) x_, PMul (PConst (CAdd ka (CLit 1 1))) x_);
  (PAdd x_ (PMul (PConst ka) x_), PMul (PConst (CAdd (CLit 1 1) ka)) x_);
  (* 117-121 *)
  (PDiv x_ x_, c1_);
  (PMul (PDiv a_ b_) (PDiv c_ d_), PDiv (PMul a_ c_) (PMul b_ d_));
  (PDiv (PDiv a_ b_) c_, PDiv a_ (PMul b_ c_));
  (* 125 *)
  (PMul (PAdd a_ b_) (PSub a_ b_), PSub (PMul a_ a_) (PMul b_ b_));
  (* 133-137 *)
  (PLn (PPow x_ n_), PMul n_ (PLn x_));
  (PExp (PMul n_ (PLn x_)), PPow x_ n_);
  (PLn (PSqrt x_), PMul ch_ (PLn x_));
  (* 141-146 *)
  (PSin (PNeg x_), PNeg (PSin x_)); (PCos (PNeg x_), PCos x_);
  (PSin c0_, c0_); (PCos c0_, c1_)].

Section Saturation.
Context {N : Num}.

(** Instances of patterns. *)
Fixpoint cinst (k : nat -> N) (c : cpat) : N :=
  match c with
  | CLit m d => ndec m d
  | CVar v => k v
  | CAdd a b => nadd (cinst k a) (cinst k b)
  | CSub a b => nsub (cinst k a) (cinst k b)
  | CMul a b => nmul (cinst k a) (cinst k b)
  | CDiv a b => ndiv (cinst k a) (cinst k b)
  end.
Fixpoint pinst (s : nat -> expr N) (k : nat -> N) (p : pat) : expr N :=
  let go := pinst s k in
  match p with
  | PVar v => s v
  | PConst c => Const (cinst k c)
  | PAdd a b => Add (go a) (go b)
  | PSub a b => Sub (go a) (go b)
  | PMul a b => Mul (go a) (go b)
  | PDiv a b => Div (go a) (go b)
  | PPow a b => Pow (go a) (go b)
  | PLn a => Ln (go a) | PExp a => Exp (go a) | PSqrt a => Sqrt (go a)
  | PSin a => Sin (go a) | PCos a => Cos (go a) | PNeg a => Neg (go a)
  end.

(** [child e a e' b]: [e'] is [e] with one immediate operand [a] replaced by
    [b]. *)
Inductive child : expr N -> expr N -> expr N -> expr N -> Prop :=
| ch_add_l a b r : child (Add a r) a (Add b r) b
| ch_add_r a b l : child (Add l a) a (Add l b) b
| ch_sub_l a b r : child (Sub a r) a (Sub b r) b
| ch_sub_r a b l : child (Sub l a) a (Sub l b) b
| ch_mul_l a b r : child (Mul a r) a (Mul b r) b
| ch_mul_r a b l : child (Mul l a) a (Mul l b) b
| ch_div_l a b r : child (Div a r) a (Div b r) b
| ch_div_r a b l : child (Div l a) a (Div l b) b
| ch_pow_l a b r : child (Pow a r) a (Pow b r) b
| ch_pow_r a b l : child (Pow l a) a (Pow l b) b
| ch_ln a b : child (Ln a) a (Ln b) b
| ch_exp a b : child (Exp a) a (Exp b) b
| ch_sqrt a b : child (Sqrt a) a (Sqrt b) b
| ch_sin a b : child (Sin a) a (Sin b) b
| ch_cos a b : child (Cos a) a (Cos b) b
| ch_neg a b : child (Neg a) a (Neg b) b.

(** The e-graph of an optimizer on which the terms [roots] have been entered
    (optimization.rs 157-171: one optimizer accumulates all of them), after at
    most [i] iterations of the rules [rs]: the terms it represents and the
    equalities between them.  In an iteration a rule fires on represented
    instances of its left side, adds its right side and equates the two;
    equalities are closed under equivalence and congruence. *)
Inductive present (rs : list (pat * pat)) (roots : list (expr N)) : nat -> expr N -> Prop :=
| p_root i r t : In r roots -> In t (subexprs r) -> present rs roots i t
| p_later i t : present rs roots i t -> present rs roots (S i) t
| p_rule i l r s k t : In (l, r) rs -> present rs roots i (pinst s k l) ->
    In t (subexprs (pinst s k r)) -> present rs roots (S i) t
| p_cong i e a e' b : present rs roots i e -> child e a e' b -> equated rs roots i a b ->
    present rs roots i e'
with equated (rs : list (pat * pat)) (roots : list (expr N)) : nat -> expr N -> expr N -> Prop :=
| q_refl i t : present rs roots i t -> equated rs roots i t t
| q_sym i t u : equated rs roots i t u -> equated rs roots i u t
| q_trans i t u v : equated rs roots i t u -> equated rs roots i u v -> equated rs roots i t v
| q_later i t u : equated rs roots i t u -> equated rs roots (S i) t u
| q_rule i l r s k : In (l, r) rs -> present rs roots i (pinst s k l) ->
    equated rs roots (S i) (pinst s k l) (pinst s k r)
| q_cong i e a e' b : present rs roots i e -> child e a e' b -> equated rs roots i a b ->
    equated rs roots i e e'.
End Saturation.
