(** Model of symbolic-math/src/jit.rs, of the JIT half of
    symbolic-math/src/final_tagless.rs and of
    measures-bayesian/src/bayesian/mod.rs [BayesianJITOptimizer].

    The code drives Cranelift: it appends instructions to one basic block and
    hands the function to the JIT.  The model has the instructions the code
    uses, their documented meaning on 64-bit words and binary64 numbers, and
    the code generator function by function.  Cranelift itself (that machine
    code does what the instructions say) and the timing fields of
    [CompilationStats] are not modelled.  Definitions only. *)
From Coq Require Import ZArith Bool String List.
From Coq Require Import Floats.SpecFloat.
From Verif Require Import Num ExprModel.
Import ListNotations.
Local Open Scope Z_scope.

(** * Binary64 numbers as bit patterns *)

(** A decimal literal [m / d] in source text: rustc rounds it to the nearest
    binary64, ties to even, whatever the number of digits. *)
Definition f64_lit (m : Z) (d : positive) : f64 :=
  match m with
  | Z0 => S754_zero false
  | Zpos p => let '(q, e, l) := SFdiv_core_binary f64_prec f64_emax (Zpos p) 0 (Zpos d) 0 in
              binary_round_aux f64_prec f64_emax false q e l
  | Zneg p => let '(q, e, l) := SFdiv_core_binary f64_prec f64_emax (Zpos p) 0 (Zpos d) 0 in
              binary_round_aux f64_prec f64_emax true q e l
  end.

Definition two52 : Z := 4503599627370496.
Definition two63 : Z := 9223372036854775808.
Definition two64 : Z := 18446744073709551616.

(** [f64::to_bits].  The model has one NaN; its pattern is the default quiet
    NaN. *)
Definition f64_bits (x : f64) : Z :=
  match x with
  | S754_zero s => if s then two63 else 0
  | S754_infinity s => (if s then two63 else 0) + 2047 * two52
  | S754_nan => 2047 * two52 + 2251799813685248
  | S754_finite s m e =>
      (if s then two63 else 0) +
      (if Zpos m <? two52 then Zpos m else (e + 1075) * two52 + (Zpos m - two52))
  end.

(** [f64::from_bits] on a word in [0, 2^64). *)
Definition f64_of_bits (w : Z) : f64 :=
  let s := two63 <=? w in
  let ex := (w / two52) mod 2048 in
  let mant := w mod two52 in
  if ex =? 0 then match mant with Zpos p => S754_finite s p (-1074) | _ => S754_zero s end
  else if ex =? 2047 then (if mant =? 0 then S754_infinity s else S754_nan)
  else match two52 + mant with
       | Zpos p => S754_finite s p (ex - 1075)
       | _ => S754_nan
       end.

(** Rounding to an integer towards minus infinity. *)
Definition f64_floor (x : f64) : f64 :=
  match x with
  | S754_finite s m e =>
      if 0 <=? e then x
      else binary_normalize f64_prec f64_emax
             ((if s then Zneg m else Zpos m) / 2 ^ (- e)) 0 s
  | _ => x
  end.

(** * Cranelift values and instructions *)

(** Values: binary64, 64- and 32-bit words (as residues), booleans. *)
Inductive cval := VF (x : f64) | V64 (w : Z) | V32 (w : Z) | VB (b : bool).

(** The instructions the code emits; operands are value numbers. *)
Inductive inst :=
| F64const (c : f64)
| Iconst64 (w : Z) | Iconst32 (w : Z)
| Fadd (a b : nat) | Fsub (a b : nat) | Fmul (a b : nat) | Fdiv (a b : nat)
| Fneg (a : nat) | Fsqrt (a : nat) | Ffloor (a : nat)
| FcmpEq (a b : nat)
| BitcastI64 (a : nat) | BitcastF64 (a : nat)
| Band (a b : nat) | Bor (a b : nat) | UshrImm (a : nat) (k : Z)
| IshlImm (a : nat) (k : Z) | Iadd (a b : nat) | Isub (a b : nat)
| FcvtFromSint (a : nat) | FcvtToSint32 (a : nat) | Sextend (a : nat)
| IcmpEq32 (a b : nat) | Select (c a b : nat).

(** Result of executing: a value, a hardware trap, or [Stuck] when an operand
    is not defined yet or has the wrong type (Cranelift's verifier rejects
    such code). *)
Inductive outcome (T : Type) := Val (v : T) | Trap | Stuck.
Arguments Val {T} _. Arguments Trap {T}. Arguments Stuck {T}.

Definition obind {T U} (o : outcome T) (k : T -> outcome U) : outcome U :=
  match o with Val v => k v | Trap => Trap | Stuck => Stuck end.

(** The signed reading of a 64-bit word. *)
Definition signed64 (w : Z) : Z := if two63 <=? w then w - two64 else w.

(** [fcvt_to_sint.i32]: towards zero; traps on NaN and when the integer does
    not fit. *)
Definition f64_to_i32 (x : f64) : outcome Z :=
  match x with
  | S754_zero _ => Val 0
  | S754_finite s m e =>
      let t := if 0 <=? e then Zpos m * 2 ^ e else Zpos m / 2 ^ (- e) in
      let v := if s then - t else t in
      if (-2147483648 <=? v) && (v <=? 2147483647) then Val (v mod 4294967296) else Trap
  | _ => Trap
  end.

Definition float1 (vs : list cval) (a : nat) (k : f64 -> outcome cval) : outcome cval :=
  match nth_error vs a with Some (VF x) => k x | _ => Stuck end.
Definition word1 (vs : list cval) (a : nat) (k : Z -> outcome cval) : outcome cval :=
  match nth_error vs a with Some (V64 x) => k x | _ => Stuck end.
Definition half1 (vs : list cval) (a : nat) (k : Z -> outcome cval) : outcome cval :=
  match nth_error vs a with Some (V32 x) => k x | _ => Stuck end.

(** One instruction on the values defined so far. *)
Definition step (vs : list cval) (i : inst) : outcome cval :=
  match i with
  | F64const c => Val (VF c)
  | Iconst64 w => Val (V64 (w mod two64))
  | Iconst32 w => Val (V32 (w mod 4294967296))
  | Fadd a b => float1 vs a (fun x => float1 vs b (fun y => Val (VF (f64_add x y))))
  | Fsub a b => float1 vs a (fun x => float1 vs b (fun y => Val (VF (f64_sub x y))))
  | Fmul a b => float1 vs a (fun x => float1 vs b (fun y => Val (VF (f64_mul x y))))
  | Fdiv a b => float1 vs a (fun x => float1 vs b (fun y => Val (VF (f64_div x y))))
  | Fneg a => float1 vs a (fun x => Val (VF (SFopp x)))
  | Fsqrt a => float1 vs a (fun x => Val (VF (f64_sqrt x)))
  | Ffloor a => float1 vs a (fun x => Val (VF (f64_floor x)))
  | FcmpEq a b => float1 vs a (fun x => float1 vs b (fun y => Val (VB (SFeqb x y))))
  | BitcastI64 a => float1 vs a (fun x => Val (V64 (f64_bits x)))
  | BitcastF64 a => word1 vs a (fun w => Val (VF (f64_of_bits w)))
  | Band a b => word1 vs a (fun x => word1 vs b (fun y => Val (V64 (Z.land x y))))
  | Bor a b => word1 vs a (fun x => word1 vs b (fun y => Val (V64 (Z.lor x y))))
  | UshrImm a k => word1 vs a (fun x => Val (V64 (Z.shiftr x (k mod 64))))
  | IshlImm a k => word1 vs a (fun x => Val (V64 (Z.shiftl x (k mod 64) mod two64)))
  | Iadd a b => word1 vs a (fun x => word1 vs b (fun y => Val (V64 ((x + y) mod two64))))
  | Isub a b => word1 vs a (fun x => word1 vs b (fun y => Val (V64 ((x - y) mod two64))))
  | FcvtFromSint a => word1 vs a (fun x => Val (VF (f64_of_Z (signed64 x))))
  | FcvtToSint32 a => float1 vs a (fun x => obind (f64_to_i32 x) (fun w => Val (V32 w)))
  | Sextend a => half1 vs a (fun w =>
      Val (V64 (if 2147483648 <=? w then w + (two64 - 4294967296) else w)))
  | IcmpEq32 a b => half1 vs a (fun x => half1 vs b (fun y => Val (VB (x =? y))))
  | Select c a b =>
      match nth_error vs c with
      | Some (VB t) => float1 vs a (fun x => float1 vs b (fun y => Val (VF (if t then x else y))))
      | _ => Stuck
      end
  end.

(** A body, last instruction first, run on the block parameters: the list of
    all values, parameters first. *)
Fixpoint run (args : list cval) (body : list inst) : outcome (list cval) :=
  match body with
  | [] => Val args
  | i :: rest => obind (run args rest) (fun vs => obind (step vs i) (fun r => Val (vs ++ [r])))
  end.

(** * The function builder *)

(** [FunctionBuilder] restricted to one block: the number of values defined
    (block parameters included) and the instructions, last first. *)
Record builder := mkB { nvals : nat; body : list inst }.

(** jit.rs 32-44 [JITError], the constructors that code generation raises. *)
Inductive jit_error := UnsupportedExpression (x : string) | CompilationError (x : string).

Inductive jres (T : Type) := JOk (v : T) | JErr (e : jit_error).
Arguments JOk {T} _. Arguments JErr {T} _.

Definition gen (T : Type) := builder -> jres (T * builder).
Definition gret {T} (v : T) : gen T := fun b => JOk (v, b).
Definition gfail {T} (e : jit_error) : gen T := fun _ => JErr e.
Definition gbind {T U} (m : gen T) (k : T -> gen U) : gen U :=
  fun b => match m b with JOk (v, b') => k v b' | JErr e => JErr e end.
(** [builder.ins().…]: append an instruction, return its value. *)
Definition ins (i : inst) : gen nat :=
  fun b => JOk (nvals b, mkB (S (nvals b)) (i :: body b)).

Notation "'let!' x ':=' m 'in' k" := (gbind m (fun x => k))
  (at level 60, x binder, m at level 100, k at level 200).

(** * Operator code *)

(** [std::f64::consts::LN_2]. *)
Definition c_ln2 : f64 := f64_lit 693147180559945309417232121458 (10 ^ 30).
Definition c0 : f64 := S754_zero false.
Definition c1 : f64 := f64_of_Z 1.
Definition c2 : f64 := f64_of_Z 2.
Definition chalf : f64 := f64_lit 5 10.
(** jit.rs 786 [1.0 / std::f64::consts::LN_2], folded by rustc. *)
Definition c_ln2_inv : f64 := f64_div c1 c_ln2.

(** jit.rs 727-739: coefficients of the logarithm. *)
Definition ln_n0 := f64_lit (-3757488530222454) (10 ^ 15).
Definition ln_n1 := f64_lit (-1105491670172403) (10 ^ 14).
Definition ln_n2 := f64_lit 11288438153376154 (10 ^ 15).
Definition ln_n3 := f64_lit 4139561514484466 (10 ^ 15).
Definition ln_n4 := f64_lit (-722936179175468) (10 ^ 15).
Definition ln_n5 := f64_lit 12040216214642954 (10 ^ 17).
Definition ln_n6 := f64_lit (-13833868987268428) (10 ^ 18).
Definition ln_n7 := f64_lit 7734501810761601 (10 ^ 19).
Definition ln_d0 := c1.
Definition ln_d1 := f64_lit 997772102587755 (10 ^ 14).
Definition ln_d2 := f64_lit 10595600174718957 (10 ^ 15).

(** jit.rs 686-780 [generate_accurate_ln_call]. *)
Definition generate_accurate_ln_call (val : nat) : gen nat :=
  let! one := ins (F64const c1) in
  let! zero := ins (F64const c0) in
  let! is_one := ins (FcmpEq val one) in
  let! x_bits := ins (BitcastI64 val) in
  let! exponent_mask := ins (Iconst64 0x7FF0000000000000) in
  let! exponent_bits := ins (Band x_bits exponent_mask) in
  let! exponent_shifted := ins (UshrImm exponent_bits 52) in
  let! bias := ins (Iconst64 1023) in
  let! k_i64 := ins (Isub exponent_shifted bias) in
  let! k := ins (FcvtFromSint k_i64) in
  let! mantissa_mask := ins (Iconst64 0x000FFFFFFFFFFFFF) in
  let! mantissa_bits := ins (Band x_bits mantissa_mask) in
  let! normalized_exp := ins (Iconst64 0x3FF0000000000000) in
  let! m_bits := ins (Bor mantissa_bits normalized_exp) in
  let! m := ins (BitcastF64 m_bits) in
  let! n0 := ins (F64const ln_n0) in
  let! n1 := ins (F64const ln_n1) in
  let! n2 := ins (F64const ln_n2) in
  let! n3 := ins (F64const ln_n3) in
  let! n4 := ins (F64const ln_n4) in
  let! n5 := ins (F64const ln_n5) in
  let! n6 := ins (F64const ln_n6) in
  let! n7 := ins (F64const ln_n7) in
  let! d0 := ins (F64const ln_d0) in
  let! d1 := ins (F64const ln_d1) in
  let! d2 := ins (F64const ln_d2) in
  let! m2 := ins (Fmul m m) in
  let! m3 := ins (Fmul m2 m) in
  let! m4 := ins (Fmul m2 m2) in
  let! m5 := ins (Fmul m4 m) in
  let! m6 := ins (Fmul m4 m2) in
  let! m7 := ins (Fmul m4 m3) in
  let! num_term1 := ins (Fmul n1 m) in
  let! num_term2 := ins (Fmul n2 m2) in
  let! num_term3 := ins (Fmul n3 m3) in
  let! num_term4 := ins (Fmul n4 m4) in
  let! num_term5 := ins (Fmul n5 m5) in
  let! num_term6 := ins (Fmul n6 m6) in
  let! num_term7 := ins (Fmul n7 m7) in
  let! num_partial1 := ins (Fadd n0 num_term1) in
  let! num_partial2 := ins (Fadd num_partial1 num_term2) in
  let! num_partial3 := ins (Fadd num_partial2 num_term3) in
  let! num_partial4 := ins (Fadd num_partial3 num_term4) in
  let! num_partial5 := ins (Fadd num_partial4 num_term5) in
  let! num_partial6 := ins (Fadd num_partial5 num_term6) in
  let! numerator := ins (Fadd num_partial6 num_term7) in
  let! den_term1 := ins (Fmul d1 m) in
  let! den_term2 := ins (Fmul d2 m2) in
  let! den_partial1 := ins (Fadd d0 den_term1) in
  let! denominator := ins (Fadd den_partial1 den_term2) in
  let! ln_m := ins (Fdiv numerator denominator) in
  let! ln_2 := ins (F64const c_ln2) in
  let! k_ln_2 := ins (Fmul k ln_2) in
  let! ln_x := ins (Fadd k_ln_2 ln_m) in
  ins (Select is_one zero ln_x).

(** jit.rs 804-814: coefficients of the exponential. *)
Definition exp_n0 := f64_lit 9999999999972777 (10 ^ 16).
Definition exp_n1 := f64_lit 726006320449981 (10 ^ 15).
Definition exp_n2 := f64_lit 24755708160005133 (10 ^ 17).
Definition exp_n3 := f64_lit 5122075349435326 (10 ^ 17).
Definition exp_n4 := f64_lit 6775629189039916 (10 ^ 18).
Definition exp_n5 := f64_lit 5110519523480795 (10 ^ 19).
Definition exp_d0 := c1.
Definition exp_d1 := f64_lit (-2739936800272977) (10 ^ 16).
Definition exp_d2 := f64_lit 21550775407834573 (10 ^ 18).

(** jit.rs 785-902 [generate_exp_call]. *)
Definition generate_exp_call (val : nat) : gen nat :=
  let! ln2 := ins (F64const c_ln2) in
  let! ln2_inv := ins (F64const c_ln2_inv) in
  let! x_over_ln2 := ins (Fmul val ln2_inv) in
  let! k_float := ins (Ffloor x_over_ln2) in
  let! k_ln2 := ins (Fmul k_float ln2) in
  let! r := ins (Fsub val k_ln2) in
  let! n0 := ins (F64const exp_n0) in
  let! n1 := ins (F64const exp_n1) in
  let! n2 := ins (F64const exp_n2) in
  let! n3 := ins (F64const exp_n3) in
  let! n4 := ins (F64const exp_n4) in
  let! n5 := ins (F64const exp_n5) in
  let! d0 := ins (F64const exp_d0) in
  let! d1 := ins (F64const exp_d1) in
  let! d2 := ins (F64const exp_d2) in
  let! r2 := ins (Fmul r r) in
  let! r3 := ins (Fmul r2 r) in
  let! r4 := ins (Fmul r3 r) in
  let! r5 := ins (Fmul r4 r) in
  let! num_term1 := ins (Fmul n1 r) in
  let! num_term2 := ins (Fmul n2 r2) in
  let! num_term3 := ins (Fmul n3 r3) in
  let! num_term4 := ins (Fmul n4 r4) in
  let! num_term5 := ins (Fmul n5 r5) in
  let! numerator := ins (Fadd n0 num_term1) in
  let! numerator := ins (Fadd numerator num_term2) in
  let! numerator := ins (Fadd numerator num_term3) in
  let! numerator := ins (Fadd numerator num_term4) in
  let! numerator := ins (Fadd numerator num_term5) in
  let! den_term1 := ins (Fmul d1 r) in
  let! den_term2 := ins (Fmul d2 r2) in
  let! denominator := ins (Fadd d0 den_term1) in
  let! denominator := ins (Fadd denominator den_term2) in
  let! exp_r := ins (Fdiv numerator denominator) in
  let! k_int := ins (FcvtToSint32 k_float) in
  let! zero := ins (Iconst32 0) in
  let! one_i32 := ins (Iconst32 1) in
  let! neg_one_i32 := ins (Iconst32 (-1)) in
  let! two_f64 := ins (F64const c2) in
  let! half_f64 := ins (F64const chalf) in
  let! is_k_zero := ins (IcmpEq32 k_int zero) in
  let result_k_zero := exp_r in
  let! is_k_one := ins (IcmpEq32 k_int one_i32) in
  let! result_k_one := ins (Fmul exp_r two_f64) in
  let! is_k_neg_one := ins (IcmpEq32 k_int neg_one_i32) in
  let! result_k_neg_one := ins (Fmul exp_r half_f64) in
  let! exp_r_bits := ins (BitcastI64 exp_r) in
  let! k_64 := ins (Sextend k_int) in
  let! exponent_shift := ins (IshlImm k_64 52) in
  let! result_bits := ins (Iadd exp_r_bits exponent_shift) in
  let! result_general := ins (BitcastF64 result_bits) in
  let! temp_result := ins (Select is_k_zero result_k_zero result_general) in
  let! temp_result2 := ins (Select is_k_one result_k_one temp_result) in
  ins (Select is_k_neg_one result_k_neg_one temp_result2).

(** jit.rs 671-681 [generate_pow_call]. *)
Definition generate_pow_call (base exponent : nat) : gen nat :=
  let! ln_base := generate_accurate_ln_call base in
  let! product := ins (Fmul exponent ln_base) in
  generate_exp_call product.

(** jit.rs 913-914, 937-938: coefficients of sine and cosine. *)
Definition sin_c2 := f64_lit (-16666666667) (10 ^ 11).
Definition sin_c3 := f64_lit 833333333 (10 ^ 11).
Definition cos_c2 := f64_lit (-5) 10.
Definition cos_c3 := f64_lit 4166666667 (10 ^ 11).

(** jit.rs 905-925 [generate_sin_call]. *)
Definition generate_sin_call (val : nat) : gen nat :=
  let! x2 := ins (Fmul val val) in
  let! x3 := ins (Fmul x2 val) in
  let! x5 := ins (Fmul x3 x2) in
  let! coeff2 := ins (F64const sin_c2) in
  let! coeff3 := ins (F64const sin_c3) in
  let term1 := val in
  let! term2 := ins (Fmul x3 coeff2) in
  let! term3 := ins (Fmul x5 coeff3) in
  let! sum1 := ins (Fadd term1 term2) in
  ins (Fadd sum1 term3).

(** jit.rs 928-948 [generate_cos_call]. *)
Definition generate_cos_call (val : nat) : gen nat :=
  let! one := ins (F64const c1) in
  let! x2 := ins (Fmul val val) in
  let! x4 := ins (Fmul x2 x2) in
  let! coeff2 := ins (F64const cos_c2) in
  let! coeff3 := ins (F64const cos_c3) in
  let term1 := one in
  let! term2 := ins (Fmul x2 coeff2) in
  let! term3 := ins (Fmul x4 coeff3) in
  let! sum1 := ins (Fadd term1 term2) in
  ins (Fadd sum1 term3).

(** jit.rs 951-956 [generate_sqrt_call]. *)
Definition generate_sqrt_call (val : nat) : gen nat := ins (Fsqrt val).

(** * Expressions *)

(** A literal pattern [Const(c)] (compares with [==]). *)
Definition lit_is (c : f64) (e : expr f64) : bool :=
  match e with Const a => SFeqb a c | _ => false end.

(** The [Pow] arms of both generators: jit.rs 611-647 and final_tagless.rs
    846-881.  [gen_exp] generates the exponent. *)
Definition generate_pow (base_val : nat) (exponent : expr f64) (gen_exp : gen nat) : gen nat :=
  if lit_is c2 exponent then ins (Fmul base_val base_val)
  else if lit_is (f64_of_Z 3) exponent then
    let! x_squared := ins (Fmul base_val base_val) in ins (Fmul x_squared base_val)
  else if lit_is (f64_of_Z 4) exponent then
    let! x_squared := ins (Fmul base_val base_val) in ins (Fmul x_squared x_squared)
  else if lit_is chalf exponent then ins (Fsqrt base_val)
  else if lit_is c1 exponent then gret base_val
  else if lit_is c0 exponent then ins (F64const c1)
  else let! exp_val := gen_exp in generate_pow_call base_val exp_val.

(** jit.rs 565-668 [generate_clif_from_expr_with_vars]. *)
Fixpoint generate_clif (var_map : env nat) (constants : env f64) (e : expr f64) : gen nat :=
  let go := generate_clif var_map constants in
  match e with
  | Const value => ins (F64const value)
  | Var name =>
      match get var_map name with
      | Some value => gret value
      | None => match get constants name with
                | Some c => ins (F64const c)
                | None => gfail (UnsupportedExpression name)
                end
      end
  | Add l r => let! a := go l in let! b := go r in ins (Fadd a b)
  | Sub l r => let! a := go l in let! b := go r in ins (Fsub a b)
  | Mul l r => let! a := go l in let! b := go r in ins (Fmul a b)
  | Div l r => let! a := go l in let! b := go r in ins (Fdiv a b)
  | Ln x => let! v := go x in generate_accurate_ln_call v
  | Exp x => let! v := go x in generate_exp_call v
  | Pow base exponent => let! base_val := go base in generate_pow base_val exponent (go exponent)
  | Sqrt x => let! v := go x in generate_sqrt_call v
  | Sin x => let! v := go x in generate_sin_call v
  | Cos x => let! v := go x in generate_cos_call v
  | Neg x => let! v := go x in ins (Fneg v)
  end.

(** final_tagless.rs 806-907 [JITRepr::generate_ir].  [JITRepr] (698-727) has
    the constructors of [Expr], so the model uses [expr]. *)
Fixpoint generate_ir (var_map : env nat) (e : expr f64) : gen nat :=
  let go := generate_ir var_map in
  match e with
  | Const c => ins (F64const c)
  | Var name => match get var_map name with
                | Some value => gret value
                | None => gfail (CompilationError name)
                end
  | Add l r => let! a := go l in let! b := go r in ins (Fadd a b)
  | Sub l r => let! a := go l in let! b := go r in ins (Fsub a b)
  | Mul l r => let! a := go l in let! b := go r in ins (Fmul a b)
  | Div l r => let! a := go l in let! b := go r in ins (Fdiv a b)
  | Pow base exponent => let! base_val := go base in generate_pow base_val exponent (go exponent)
  | Neg x => let! v := go x in ins (Fneg v)
  | Ln x => let! v := go x in generate_accurate_ln_call v
  | Exp x => let! v := go x in generate_exp_call v
  | Sqrt x => let! v := go x in ins (Fsqrt v)
  | Sin x => let! v := go x in generate_sin_call v
  | Cos x => let! v := go x in generate_cos_call v
  end.

(** * Compiled functions *)

(** jit.rs 75-97 [JITSignature]; [Custom] is never constructed. *)
Inductive signature :=
| SingleInput | DataAndParameter | DataAndParameters (n : nat)
| MultipleDataAndParameters (data_dims param_dims : nat).

(** jit.rs 215-228 [CompilationStats] without size, time and speedup. *)
Record stats := mkStats { clif_instructions : nat; embedded_constants : nat }.

(** jit.rs 58-73 [GeneralJITFunction]: the code behind the function pointer
    (number of [f64] parameters, body, returned value) and the signature. *)
Record jit_fn := mkFn {
  fn_params : nat; fn_body : list inst; fn_result : nat;
  fn_sig : signature; fn_stats : stats }.

(** jit.rs 292-300: slot [i] of the block parameters for each name, in order;
    a later equal name overwrites. *)
Fixpoint map_slots (names : list string) (slot : nat) (m : env nat) : env nat :=
  match names with
  | [] => m
  | x :: rest => map_slots rest (S slot) (insert m x slot)
  end.

(** jit.rs 336-347 and 521-532. *)
Definition choose_signature (nd np : nat) : signature :=
  match nd, np with
  | 1%nat, 0%nat => SingleInput
  | 1%nat, 1%nat => DataAndParameter
  | 1%nat, _ => DataAndParameters np
  | _, _ => MultipleDataAndParameters nd np
  end.

(** jit.rs 1037-1060 [estimate_expr_instructions], [estimate_clif_instructions]. *)
Fixpoint estimate_expr_instructions (e : expr f64) : nat :=
  match e with
  | Const _ => 1
  | Var _ => 0
  | Add l r | Sub l r | Mul l r | Div l r | Pow l r =>
      1 + estimate_expr_instructions l + estimate_expr_instructions r
  | Ln x | Exp x | Sqrt x | Sin x | Cos x | Neg x => 3 + estimate_expr_instructions x
  end%nat.
Definition estimate_clif_instructions (e : expr f64) (nd np : nat) : nat :=
  (nd + np + 2 + estimate_expr_instructions e)%nat.

(** jit.rs 255-365 [compile_expression]. *)
Definition compile_expression (e : expr f64) (data_vars param_vars : list string)
    (constants : env f64) : jres jit_fn :=
  let nd := List.length data_vars in
  let np := List.length param_vars in
  let var_map := map_slots param_vars nd (map_slots data_vars 0 []) in
  match generate_clif var_map constants e (mkB (nd + np) []) with
  | JErr err => JErr err
  | JOk (result, b) =>
      JOk (mkFn (nd + np) (body b) result (choose_signature nd np)
             (mkStats (estimate_clif_instructions e nd np) (List.length constants)))
  end.

(** jit.rs 961-979 [CustomSymbolicLogDensity]: built by [new], so [variables]
    are those of the expression. *)
Record custom_density := mkCustom {
  cd_expression : expr f64; cd_parameters : env f64; cd_variables : list string }.

(** jit.rs 369-440 [compile_custom_expression] with 1013-1033
    [generate_custom_log_density]. *)
Definition compile_custom_expression (s : custom_density) : jres jit_fn :=
  let var_map := match cd_variables s with [] => [] | x :: _ => [(x, O)] end in
  match generate_clif var_map (cd_parameters s) (cd_expression s) (mkB 1 []) with
  | JErr err => JErr err
  | JOk (result, b) =>
      JOk (mkFn 1 (body b) result SingleInput (mkStats 8 (List.length (cd_parameters s))))
  end.

(** final_tagless.rs 764-783 [JITRepr::estimate_complexity]. *)
Fixpoint estimate_complexity (e : expr f64) : nat :=
  match e with
  | Const _ | Var _ => 1
  | Add l r | Sub l r | Mul l r | Div l r | Pow l r =>
      1 + estimate_complexity l + estimate_complexity r
  | Neg x => 1 + estimate_complexity x
  | Ln x | Exp x | Sqrt x | Sin x | Cos x => 3 + estimate_complexity x
  end%nat.

(** jit.rs 490-494: each constant becomes a value, replacing a slot of the
    same name. *)
Fixpoint add_constants (constants : env f64) (m : env nat) : gen (env nat) :=
  match constants with
  | [] => gret m
  | (name, value) :: rest =>
      let! const_val := ins (F64const value) in add_constants rest (insert m name const_val)
  end.

(** jit.rs 444-560 [compile_final_tagless]. *)
Definition compile_final_tagless (e : expr f64) (data_vars param_vars : list string)
    (constants : env f64) : jres jit_fn :=
  let nd := List.length data_vars in
  let np := List.length param_vars in
  let slots := map_slots param_vars nd (map_slots data_vars 0 []) in
  match (let! var_map := add_constants constants slots in generate_ir var_map e)
          (mkB (nd + np) []) with
  | JErr err => JErr err
  | JOk (result, b) =>
      JOk (mkFn (nd + np) (body b) result (choose_signature nd np)
             (mkStats (estimate_complexity e) (List.length constants)))
  end.

(** final_tagless.rs 1015-1022, 1025-1037, 1040-1047, 1006-1012: the entry
    points of [JITEval]. *)
Definition compile_single_var e x := compile_final_tagless e [x] [] [].
Definition compile_data_param e x theta := compile_final_tagless e [x] [theta] [].
Definition compile_data_params e x thetas := compile_final_tagless e [x] thetas [].
Definition compile_with_signature e ds ps := compile_final_tagless e ds ps [].

(** * Calls *)

(** Classes of machine arguments: floating-point register or integer/pointer. *)
Inductive arg := AFloat (x : f64) | AWord.

Inductive called := Returned (x : f64) | Panicked | Trapped | LayoutMismatch | BadCode.

(** Calling the code through a function pointer with given arguments.  The
    code was compiled for [fn_params] arguments of class float; any other
    argument list is undefined behaviour, reported as [LayoutMismatch]. *)
Definition floats (l : list arg) : option (list cval) :=
  fold_right (fun a acc => match a, acc with
                           | AFloat x, Some vs => Some (VF x :: vs)
                           | _, _ => None end) (Some []) l.

Definition invoke (f : jit_fn) (args : list arg) : called :=
  match floats args with
  | Some vs =>
      if Nat.eqb (List.length vs) (fn_params f) then
        match run vs (fn_body f) with
        | Val all => match nth_error all (fn_result f) with
                     | Some (VF x) => Returned x
                     | _ => BadCode
                     end
        | Trap => Trapped
        | Stuck => BadCode
        end
      else LayoutMismatch
  | None => LayoutMismatch
  end.

(** jit.rs 116-132 [call_single]. *)
Definition call_single (f : jit_fn) (x : f64) : called :=
  match fn_sig f with SingleInput => invoke f [AFloat x] | _ => Panicked end.

(** jit.rs 135-152 [call_data_param]. *)
Definition call_data_param (f : jit_fn) (x theta : f64) : called :=
  match fn_sig f with DataAndParameter => invoke f [AFloat x; AFloat theta] | _ => Panicked end.

(** jit.rs 155-185 [call_data_params]. *)
Definition call_data_params (f : jit_fn) (x : f64) (params : list f64) : called :=
  match fn_sig f with
  | DataAndParameters n =>
      if Nat.eqb (List.length params) n then
        match n, params with
        | 2%nat, [p0; p1] => invoke f [AFloat x; AFloat p0; AFloat p1]
        | 3%nat, [p0; p1; p2] => invoke f [AFloat x; AFloat p0; AFloat p1; AFloat p2]
        | _, _ => Panicked
        end
      else Panicked
  | _ => Panicked
  end.

(** jit.rs 188-217 [call_batch]: passes two pointers and two lengths. *)
Definition call_batch (f : jit_fn) (data params : list f64) : called :=
  match fn_sig f with
  | MultipleDataAndParameters nd np =>
      if Nat.eqb (List.length data) nd && Nat.eqb (List.length params) np
      then invoke f [AWord; AWord; AWord; AWord]
      else Panicked
  | _ => Panicked
  end.

(** * measures-bayesian/src/bayesian/mod.rs *)

(** mod.rs 137-158 [BayesianJITOptimizer], [new]. *)
Record optimizer := mkOpt {
  posterior_fn : option jit_fn; likelihood_fn : option jit_fn; prior_fn : option jit_fn }.
Definition optimizer_new := mkOpt None None None.

(** mod.rs 161-173 [compile_posterior_jit]: the new state and the error, if
    any. *)
Definition compile_posterior_jit (o : optimizer) e ds ps cs : optimizer * option jit_error :=
  match compile_expression e ds ps cs with
  | JOk f => (mkOpt (Some f) (likelihood_fn o) (prior_fn o), None)
  | JErr err => (o, Some err)
  end.
(** mod.rs 176-188 [compile_likelihood_jit]. *)
Definition compile_likelihood_jit (o : optimizer) e ds ps cs : optimizer * option jit_error :=
  match compile_expression e ds ps cs with
  | JOk f => (mkOpt (posterior_fn o) (Some f) (prior_fn o), None)
  | JErr err => (o, Some err)
  end.
(** mod.rs 191-201 [compile_prior_jit]. *)
Definition compile_prior_jit (o : optimizer) e ps cs : optimizer * option jit_error :=
  match compile_expression e [] ps cs with
  | JOk f => (mkOpt (posterior_fn o) (likelihood_fn o) (Some f), None)
  | JErr err => (o, Some err)
  end.

(** mod.rs 204-220 [evaluate_posterior], [evaluate_likelihood], [evaluate_prior]. *)
Definition evaluate_posterior (o : optimizer) (data params : list f64) : option called :=
  match posterior_fn o with Some f => Some (call_batch f data params) | None => None end.
Definition evaluate_likelihood (o : optimizer) (data params : list f64) : option called :=
  match likelihood_fn o with Some f => Some (call_batch f data params) | None => None end.
Definition evaluate_prior (o : optimizer) (params : list f64) : option called :=
  match prior_fn o with Some f => Some (call_batch f [] params) | None => None end.
