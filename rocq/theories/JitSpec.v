(** What a compiled expression computes, stated without instructions. *)
From Coq Require Import ZArith Bool String List.
From Coq Require Import Floats.SpecFloat.
From Verif Require Import Num ExprModel ExprSpec ConvModel JitModel.
Import ListNotations.
Local Open Scope Z_scope.

Notation "a [+] b" := (f64_add a b) (at level 50, left associativity).
Notation "a [-] b" := (f64_sub a b) (at level 50, left associativity).
Notation "a [*] b" := (f64_mul a b) (at level 40, left associativity).
Notation "a [/] b" := (f64_div a b) (at level 40, left associativity).

(** The exponent field of a binary64 number, unbiased, and the number with its
    sign dropped and its exponent field set to that of 1. *)
Definition exponent_of (x : f64) : Z := (f64_bits x / 2 ^ 52) mod 2 ^ 11 - 1023.
Definition significand_of (x : f64) : f64 := f64_of_bits (1023 * 2 ^ 52 + f64_bits x mod 2 ^ 52).

(** The rational approximation of the logarithm on [1, 2]. *)
Definition ln_ratio (m : f64) : f64 :=
  let m2 := m [*] m in
  let m3 := m2 [*] m in
  let m4 := m2 [*] m2 in
  (ln_n0 [+] ln_n1 [*] m [+] ln_n2 [*] m2 [+] ln_n3 [*] m3 [+] ln_n4 [*] m4
     [+] ln_n5 [*] (m4 [*] m) [+] ln_n6 [*] (m4 [*] m2) [+] ln_n7 [*] (m4 [*] m3))
  [/] (ln_d0 [+] ln_d1 [*] m [+] ln_d2 [*] m2).

(** The logarithm of the JIT. *)
Definition jit_ln (x : f64) : f64 :=
  if SFeqb x c1 then c0
  else f64_of_Z (exponent_of x) [*] c_ln2 [+] ln_ratio (significand_of x).

(** The rational approximation of the exponential on [0, ln 2]. *)
Definition exp_ratio (r : f64) : f64 :=
  let r2 := r [*] r in
  let r3 := r2 [*] r in
  let r4 := r3 [*] r in
  (exp_n0 [+] exp_n1 [*] r [+] exp_n2 [*] r2 [+] exp_n3 [*] r3 [+] exp_n4 [*] r4
     [+] exp_n5 [*] (r4 [*] r))
  [/] (exp_d0 [+] exp_d1 [*] r [+] exp_d2 [*] r2).

(** Adding [k] to the exponent field of [q], on the 64-bit pattern. *)
Definition shift_exponent (q : f64) (k : Z) : f64 :=
  f64_of_bits ((f64_bits q + k * 2 ^ 52) mod 2 ^ 64).

(** The exponential of the JIT; [None] when the conversion of the reduction
    count to a 32-bit integer traps. *)
Definition jit_exp (x : f64) : option f64 :=
  let kf := f64_floor (x [*] c_ln2_inv) in
  let q := exp_ratio (x [-] kf [*] c_ln2) in
  match sf_trunc kf with
  | Some k =>
      if (- 2 ^ 31 <=? k) && (k <? 2 ^ 31) then
        Some (if k =? -1 then q [*] chalf
              else if k =? 1 then q [*] c2
              else if k =? 0 then q
              else shift_exponent q k)
      else None
  | None => None
  end.

Definition jit_sin (x : f64) : f64 :=
  let x2 := x [*] x in
  let x3 := x2 [*] x in
  x [+] x3 [*] sin_c2 [+] x3 [*] x2 [*] sin_c3.

Definition jit_cos (x : f64) : f64 :=
  let x2 := x [*] x in
  c1 [+] x2 [*] cos_c2 [+] x2 [*] x2 [*] cos_c3.

(** A general power. *)
Definition jit_powf (b e : f64) : option f64 := jit_exp (e [*] jit_ln b).

Definition obnd {T U} (o : option T) (k : T -> option U) : option U :=
  match o with Some v => k v | None => None end.

(** The value of an expression in the JIT's operator semantics, variables
    bound by [rho]; [None]: the code traps.  Exponents written as the literals
    2, 3, 4, 0.5, 1 and 0 are expanded. *)
Fixpoint jit_value (rho : string -> f64) (e : expr f64) : option f64 :=
  let bin op l r := obnd (jit_value rho l) (fun a => obnd (jit_value rho r) (fun b => op a b)) in
  let un op a := obnd (jit_value rho a) op in
  match e with
  | Const c => Some c
  | Var x => Some (rho x)
  | Add l r => bin (fun a b => Some (a [+] b)) l r
  | Sub l r => bin (fun a b => Some (a [-] b)) l r
  | Mul l r => bin (fun a b => Some (a [*] b)) l r
  | Div l r => bin (fun a b => Some (a [/] b)) l r
  | Neg a => un (fun v => Some (SFopp v)) a
  | Ln a => un (fun v => Some (jit_ln v)) a
  | Exp a => un jit_exp a
  | Sqrt a => un (fun v => Some (f64_sqrt v)) a
  | Sin a => un (fun v => Some (jit_sin v)) a
  | Cos a => un (fun v => Some (jit_cos v)) a
  | Pow b p =>
      match p with
      | Const c =>
          un (fun v =>
            if SFeqb c (f64_of_Z 2) then Some (v [*] v)
            else if SFeqb c (f64_of_Z 3) then Some (v [*] v [*] v)
            else if SFeqb c (f64_of_Z 4) then Some (v [*] v [*] (v [*] v))
            else if SFeqb c (f64_lit 5 10) then Some (f64_sqrt v)
            else if SFeqb c (f64_of_Z 1) then Some v
            else if SFeqb c (S754_zero false) then Some (f64_of_Z 1)
            else jit_powf v c) b
      | _ => bin jit_powf b p
      end
  end.

(** Binding of names to arguments: names in slot order, a later equal name
    hides an earlier one. *)
Definition lookup_last {T} (l : list (string * T)) (x : string) : option T := get (rev l) x.

(** The bindings of a compiled expression: data variables, then parameters;
    names not among them are looked up in the constants. *)
Definition expression_binding (ds ps : list string) (consts : env f64)
    (args : list f64) (x : string) : option f64 :=
  match lookup_last (combine (ds ++ ps) args) x with
  | Some v => Some v
  | None => get consts x
  end.

(** The bindings of a compiled final-tagless expression: the constants hide
    data variables and parameters. *)
Definition tagless_binding (ds ps : list string) (consts : env f64)
    (args : list f64) (x : string) : option f64 :=
  lookup_last (combine (ds ++ ps) args ++ consts) x.

(** A total valuation from a partial one (the default is never read when every
    variable of the expression is bound). *)
Definition total (b : string -> option f64) (x : string) : f64 :=
  match b x with Some v => v | None => S754_nan end.

(** The outcome of a call that evaluates [e] under [rho]. *)
Definition evaluates (rho : string -> f64) (e : expr f64) : called :=
  match jit_value rho e with Some v => Returned v | None => Trapped end.

(** [f] is code for [e]: it takes [n] numbers and returns the value of [e]
    under the bindings they give, or traps when that value needs a conversion
    that traps. *)
Definition code_of (f : jit_fn) (n : nat) (e : expr f64) (bind : list f64 -> string -> option f64) : Prop :=
  fn_params f = n /\
  forall args, List.length args = n -> invoke f (map AFloat args) = evaluates (total (bind args)) e.

(** A custom log-density: one input, the first variable. *)
Definition custom_binding (s : custom_density) (args : list f64) (x : string) : option f64 :=
  expression_binding (firstn 1 (cd_variables s)) [] (cd_parameters s) (firstn (List.length (firstn 1 (cd_variables s))) args) x.

(** Expressions built from exactly rounded operations only. *)
Fixpoint exact_ops (e : expr f64) : Prop :=
  match e with
  | Const _ | Var _ => True
  | Add l r | Sub l r | Mul l r | Div l r => exact_ops l /\ exact_ops r
  | Neg a | Sqrt a => exact_ops a
  | _ => False
  end.

(** No operand of [+] is a literal zero and no operand of [*] is a literal zero
    or one (the evaluator treats those specially) unless both are literals. *)
Fixpoint no_unit_literals (e : expr f64) : Prop :=
  match e with
  | Const _ | Var _ => True
  | Add l r =>
      (forall c, l = Const c \/ r = Const c -> SFeqb c (S754_zero false) = false) /\
      no_unit_literals l /\ no_unit_literals r
  | Mul l r =>
      (forall c, l = Const c \/ r = Const c ->
         SFeqb c (S754_zero false) = false /\ SFeqb c (f64_of_Z 1) = false) /\
      no_unit_literals l /\ no_unit_literals r
  | Sub l r | Div l r | Pow l r => no_unit_literals l /\ no_unit_literals r
  | Ln a | Exp a | Sqrt a | Sin a | Cos a | Neg a => no_unit_literals a
  end.

(** * Histories of the Bayesian optimizer *)
Inductive compile_op :=
| CompilePosterior (e : expr f64) (ds ps : list string) (cs : env f64)
| CompileLikelihood (e : expr f64) (ds ps : list string) (cs : env f64)
| CompilePrior (e : expr f64) (ps : list string) (cs : env f64).

Definition apply_op (o : optimizer) (op : compile_op) : optimizer :=
  match op with
  | CompilePosterior e ds ps cs => fst (compile_posterior_jit o e ds ps cs)
  | CompileLikelihood e ds ps cs => fst (compile_likelihood_jit o e ds ps cs)
  | CompilePrior e ps cs => fst (compile_prior_jit o e ps cs)
  end.

Definition after (history : list compile_op) : optimizer := fold_left apply_op history optimizer_new.

(** The number of data variables and parameters of the last successful
    compilation of each kind: every name used is bound. *)
Inductive kind := Posterior | Likelihood | Prior.

Definition op_shape (k : kind) (op : compile_op) : option (expr f64 * list string * list string * env f64) :=
  match k, op with
  | Posterior, CompilePosterior e ds ps cs => Some (e, ds, ps, cs)
  | Likelihood, CompileLikelihood e ds ps cs => Some (e, ds, ps, cs)
  | Prior, CompilePrior e ps cs => Some (e, [], ps, cs)
  | _, _ => None
  end.

Definition closed_over (e : expr f64) (ds ps : list string) (cs : env f64) : Prop :=
  forall x, occurs x e -> In x (ds ++ ps) \/ In x (map fst cs).

(** [last_compiled k history nd np]: the last compilation of kind [k] whose
    names are all bound had [nd] data variables and [np] parameters. *)
Inductive last_compiled (k : kind) : list compile_op -> nat -> nat -> Prop :=
| lc_here h op e ds ps cs : op_shape k op = Some (e, ds, ps, cs) -> closed_over e ds ps cs ->
    last_compiled k (h ++ [op]) (List.length ds) (List.length ps)
| lc_skip h op nd np : last_compiled k h nd np ->
    (forall e ds ps cs, op_shape k op = Some (e, ds, ps, cs) -> ~ closed_over e ds ps cs) ->
    last_compiled k (h ++ [op]) nd np.

Definition evaluate_kind (k : kind) (o : optimizer) (data params : list f64) : option called :=
  match k with
  | Posterior => evaluate_posterior o data params
  | Likelihood => evaluate_likelihood o data params
  | Prior => evaluate_prior o params
  end.

(** * Static single assignment *)
Definition operands (i : inst) : list nat :=
  match i with
  | F64const _ | Iconst64 _ | Iconst32 _ => []
  | Fadd a b | Fsub a b | Fmul a b | Fdiv a b | FcmpEq a b | Band a b | Bor a b
  | Iadd a b | Isub a b | IcmpEq32 a b => [a; b]
  | Fneg a | Fsqrt a | Ffloor a | BitcastI64 a | BitcastF64 a | UshrImm a _ | IshlImm a _
  | FcvtFromSint a | FcvtToSint32 a | Sextend a => [a]
  | Select c a b => [c; a; b]
  end.

(** Every operand is a block parameter or the result of an earlier
    instruction; [body] has the last instruction first, value [params + j] is
    the result of instruction [j]. *)
Fixpoint defined_before_use (params : nat) (body : list inst) : Prop :=
  match body with
  | [] => True
  | i :: earlier => (forall a, In a (operands i) -> (a < params + List.length earlier)%nat) /\
                    defined_before_use params earlier
  end.

Definition well_formed (f : jit_fn) : Prop :=
  defined_before_use (fn_params f) (fn_body f) /\
  (fn_result f < fn_params f + List.length (fn_body f))%nat.
