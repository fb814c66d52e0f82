(** Decimal numerals and their values, for reading numbers from text. *)
From Coq Require Import ZArith Reals Bool String Ascii List.
From Coq Require Import Floats.SpecFloat.
From Flocq Require Import Core IEEE754.BinarySingleNaN.
From Verif Require Import Num ExprModel EggSpec.
Import ListNotations.
Local Open Scope R_scope.

(** A numeral: an optional sign ([Some true] for minus), the digits before the
    point, optionally a point and the digits after it, optionally an exponent
    ([e] or [E], an optional sign, digits). *)
Record numeral := Numeral {
  nu_sign : option bool;
  nu_int : list Z;
  nu_frac : option (list Z);
  nu_exp : option (bool * option bool * list Z) }.

Definition are_digits (ds : list Z) : Prop := Forall (fun d => (0 <= d < 10)%Z) ds.
Definition frac_digits (n : numeral) : list Z := match nu_frac n with Some ds => ds | None => [] end.
Definition well_formed (n : numeral) : Prop :=
  are_digits (nu_int n) /\ are_digits (frac_digits n) /\ nu_int n ++ frac_digits n <> [] /\
  match nu_exp n with Some (_, _, ds) => are_digits ds /\ ds <> [] | None => True end.

(** Its text. *)
Fixpoint digits_text (ds : list Z) : string :=
  match ds with
  | [] => ""
  | d :: r => String (ascii_of_nat (48 + Z.to_nat d)) (digits_text r)
  end%string.
Definition sign_text (s : option bool) : string :=
  match s with Some true => "-" | Some false => "+" | None => "" end.
Definition numeral_text (n : numeral) : string :=
  (sign_text (nu_sign n) ++ digits_text (nu_int n) ++
   match nu_frac n with Some ds => "." ++ digits_text ds | None => "" end ++
   match nu_exp n with
   | Some (upper, s, ds) => (if upper : bool then "E" else "e") ++ sign_text s ++ digits_text ds
   | None => ""
   end)%string.

(** Its value. *)
Definition negative (s : option bool) : bool := match s with Some true => true | _ => false end.
Definition signed (s : option bool) (x : R) : R := if negative s then - x else x.
(** The digits as a whole number, most significant first. *)
Definition whole (ds : list Z) : Z := fold_left (fun a d => (10 * a + d)%Z) ds 0%Z.
Definition exponent (n : numeral) : Z :=
  match nu_exp n with
  | Some (_, s, ds) => if negative s then (- whole ds)%Z else whole ds
  | None => 0%Z
  end.
Definition numeral_value (n : numeral) : R :=
  signed (nu_sign n)
    ((IZR (whole (nu_int n)) + IZR (whole (frac_digits n)) / 10 ^ length (frac_digits n)) * powerRZ 10 (exponent n)).

(** [c] is the binary64 nearest to the numeral (ties to even, overflow to
    infinity), with the sign that is written. *)
Definition nearest_to (n : numeral) (c : f64) : Prop :=
  if Rlt_dec (Rabs (RN (numeral_value n))) (bpow radix2 1024)
  then SpecFloat.valid_binary 53 1024 c = true /\ finite c /\
       val c = RN (numeral_value n) /\ sign_SF c = negative (nu_sign n)
  else c = S754_infinity (negative (nu_sign n)).

(** What [format!("{c}")] may write for a binary64 number: some numeral whose
    nearest number is [c], with a minus sign exactly when the sign bit is set;
    [inf], [-inf] and [NaN]. *)
Inductive displays (c : f64) : string -> Prop :=
| disp_finite n : well_formed n -> finite c -> nu_sign n <> Some false ->
    val c = RN (numeral_value n) -> sign_SF c = negative (nu_sign n) -> displays c (numeral_text n)
| disp_inf : c = S754_infinity false -> displays c "inf"
| disp_ninf : c = S754_infinity true -> displays c "-inf"
| disp_nan : c = S754_nan -> displays c "NaN".

(** What it may write for a finite binary32 number: some numeral whose nearest
    binary32 number it is. *)
Definition RN32 (x : R) : R := round radix2 (FLT_exp (-149) 24) ZnearestE x.
Definition displays32 (v : R) (s : string) : Prop :=
  exists n, well_formed n /\ s = numeral_text n /\ RN32 (numeral_value n) = v.

(** What it writes for an integer: its digits, after a minus sign if it is
    negative. *)
Definition displays_integer (k : Z) (s : string) : Prop :=
  exists ds, are_digits ds /\ ds <> [] /\ whole ds = Z.abs k /\
    s = numeral_text (Numeral (if (k <? 0)%Z then Some true else None) ds None None).

(** What is read as a number: a numeral, or [inf], [infinity] or [nan] in any
    case after an optional sign. *)
Definition low (c : ascii) : ascii :=
  let n := nat_of_ascii c in if ((65 <=? n) && (n <=? 90))%nat then ascii_of_nat (n + 32) else c.
Fixpoint lowercase (s : string) : string :=
  match s with String c r => String (low c) (lowercase r) | EmptyString => EmptyString end.
Definition is_number (s : string) : Prop :=
  (exists n, well_formed n /\ s = numeral_text n) \/
  (exists sg w, s = (sign_text sg ++ w)%string /\ In (lowercase w) ["inf"; "infinity"; "nan"]%string).

(** The s-expression of a term, the way egglog prints it: names quoted, every
    constant displayed so that it reads back. *)
Inductive written : expr f64 -> string -> Prop :=
| w_const c s : SpecFloat.valid_binary 53 1024 c = true -> displays c s -> written (Const c) ("(Const " ++ s ++ ")")
| w_var x : balanced x -> written (Var x) ("(Var """ ++ x ++ """)")
| w_add l r s t : written l s -> written r t -> written (Add l r) ("(Add " ++ s ++ " " ++ t ++ ")")
| w_sub l r s t : written l s -> written r t -> written (Sub l r) ("(Sub " ++ s ++ " " ++ t ++ ")")
| w_mul l r s t : written l s -> written r t -> written (Mul l r) ("(Mul " ++ s ++ " " ++ t ++ ")")
| w_div l r s t : written l s -> written r t -> written (Div l r) ("(Div " ++ s ++ " " ++ t ++ ")")
| w_pow l r s t : written l s -> written r t -> written (Pow l r) ("(Pow " ++ s ++ " " ++ t ++ ")")
| w_ln a s : written a s -> written (Ln a) ("(Ln " ++ s ++ ")")
| w_exp a s : written a s -> written (Exp a) ("(Exp " ++ s ++ ")")
| w_sqrt a s : written a s -> written (Sqrt a) ("(Sqrt " ++ s ++ ")")
| w_sin a s : written a s -> written (Sin a) ("(Sin " ++ s ++ ")")
| w_cos a s : written a s -> written (Cos a) ("(Cos " ++ s ++ ")")
| w_neg a s : written a s -> written (Neg a) ("(Neg " ++ s ++ ")").
