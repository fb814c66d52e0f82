(** Numeric conversions: measures-core/src/core/utils.rs.
    The conversions themselves are num-traits' [ToPrimitive], [FromPrimitive]
    and [NumCast]; they are modelled here from that crate's documented
    behaviour: integer to float rounds to nearest even, float to integer
    truncates towards zero and fails outside the target's range, float to float
    always succeeds. *)
From Coq Require Import ZArith Bool List.
From Coq Require Import Floats.SpecFloat.
From Verif Require Import Num.
Local Open Scope Z_scope.

(** A numeric type as the conversion functions see it. *)
Record NumTy := mkNumTy {
  carrier : Type;
  to_f64 : carrier -> option f64;          (* ToPrimitive::to_f64 *)
  from_f64 : f64 -> option carrier;        (* FromPrimitive::from_f64 / NumCast::from(f64) *)
  default : carrier }.                     (* Default::default() / zero() *)

(** Truncation towards zero of a finite float. *)
Definition sf_trunc (x : spec_float) : option Z :=
  match x with
  | S754_zero _ => Some 0
  | S754_finite s m e =>
      let a := if e <? 0 then Z.pos m / 2 ^ (- e) else Z.pos m * 2 ^ e in
      Some (if s then - a else a)
  | _ => None
  end.

(** An integer type with the range [lo..hi] (i8..i128, u8..u128, isize, usize). *)
Definition int_ty (lo hi : Z) : NumTy :=
  {| carrier := Z;
     to_f64 := fun z => Some (f64_of_Z z);
     from_f64 := fun v =>
       match sf_trunc v with
       | Some z => if (lo <=? z) && (z <=? hi) then Some z else None
       | None => None
       end;
     default := 0 |}.

(** Conversion between float formats: round to nearest even. *)
Definition sf_convert (prec emax : Z) (x : spec_float) : spec_float :=
  match x with
  | S754_finite s m e => binary_normalize prec emax (cond_Zopp s (Z.pos m)) e false
  | _ => x
  end.

Definition f64_ty : NumTy :=
  {| carrier := f64; to_f64 := Some; from_f64 := Some; default := S754_zero false |}.
Definition f32_ty : NumTy :=
  {| carrier := spec_float;
     to_f64 := fun x => Some (sf_convert f64_prec f64_emax x);
     from_f64 := fun v => Some (sf_convert 24 128 v);
     default := S754_zero false |}.

(** utils.rs:9-19 *)
Definition safe_convert (S U : NumTy) (value : carrier S) : carrier U :=
  match to_f64 S value with
  | Some v => match from_f64 U v with Some u => u | None => default U end
  | None => default U
  end.

(** utils.rs:22-32 *)
Definition safe_convert_or (S U : NumTy) (value : carrier S) (fallback : carrier U) : carrier U :=
  match to_f64 S value with
  | Some v => match from_f64 U v with Some u => u | None => fallback end
  | None => fallback
  end.

(** utils.rs:35-49; the two error strings. *)
Inductive conv_error := FailTarget | FailIntermediate.
Definition safe_float_convert (S U : NumTy) (value : carrier S) : carrier U + conv_error :=
  match to_f64 S value with
  | Some v => match from_f64 U v with Some u => inl u | None => inr FailTarget end
  | None => inr FailIntermediate
  end.

(** utils.rs:54-74.  [one inf ninf nan] are T's constants; the fallback chain is
    only reached when [T::from] fails. *)
Definition float_constant (U : NumTy) (one inf ninf nan : carrier U) (value : f64) : carrier U :=
  match from_f64 U value with
  | Some u => u
  | None =>
      if SFeqb value (S754_zero false) then default U
      else if SFeqb value (f64_of_Z 1) then one
      else match value with
           | S754_infinity s => if s then ninf else inf
           | S754_nan => nan
           | _ => default U
           end
  end.
