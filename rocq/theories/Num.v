(** Numbers.

    The Rust code computes on [f64] (and, generically, on any
    [num_traits::Float]).  The model is parameterised by a plain record of the
    operations the code uses, with two instances:

    - [XR lg]   : extended reals.  IEEE-754 arithmetic with exact results: the
                  special values and every branch on them are kept, rounding,
                  overflow, underflow and the sign of zero are not.
    - [F64 lib] : IEEE-754 binary64 with round-to-nearest-even, computed by
                  [Coq.Floats.SpecFloat].  The transcendental functions are
                  those of an arbitrary [libm]. *)
From Coq Require Import ZArith Reals Bool String List Lra Lia.
From Coq Require Import Floats.SpecFloat.
Import ListNotations.

(** The operations of [f64]/[num_traits::Float] used by the crates. *)
Record Num := mkNum {
  num   :> Type;
  nadd  : num -> num -> num;      (* a + b *)
  nsub  : num -> num -> num;      (* a - b *)
  nmul  : num -> num -> num;      (* a * b *)
  ndiv  : num -> num -> num;      (* a / b *)
  npow  : num -> num -> num;      (* a.powf(b) *)
  nneg  : num -> num;             (* -a *)
  nabs  : num -> num;             (* a.abs() *)
  nln   : num -> num;             (* a.ln() *)
  nexp  : num -> num;             (* a.exp() *)
  nsqrt : num -> num;             (* a.sqrt() *)
  nsin  : num -> num;             (* a.sin() *)
  ncos  : num -> num;             (* a.cos() *)
  nlgamma : num -> num;           (* special::Gamma::ln_gamma(a).0 *)
  neqb  : num -> num -> bool;     (* a == b *)
  nltb  : num -> num -> bool;     (* a <  b *)
  nleb  : num -> num -> bool;     (* a <= b *)
  ndec  : Z -> positive -> num;   (* decimal literal m/d, correctly rounded *)
  npi   : num;                    (* std::f64::consts::PI *)
  npinf : num;                    (* f64::INFINITY *)
  nninf : num;                    (* f64::NEG_INFINITY *)
  nnan  : num                     (* f64::NAN *)
}.
Arguments nadd {_} _ _. Arguments nsub {_} _ _. Arguments nmul {_} _ _.
Arguments ndiv {_} _ _. Arguments npow {_} _ _. Arguments nneg {_} _.
Arguments nabs {_} _. Arguments nln {_} _. Arguments nexp {_} _.
Arguments nsqrt {_} _. Arguments nsin {_} _. Arguments ncos {_} _.
Arguments nlgamma {_} _. Arguments neqb {_} _ _. Arguments nltb {_} _ _.
Arguments nleb {_} _ _. Arguments ndec {_} _ _. Arguments npi {_}.
Arguments npinf {_}. Arguments nninf {_}. Arguments nnan {_}.

(** Integer-valued literals and [n as f64] conversions. *)
Definition nint {N : Num} (z : Z) : N := ndec z 1.
Definition n0 {N : Num} : N := nint 0.
Definition n1 {N : Num} : N := nint 1.
Definition n2 {N : Num} : N := nint 2.
Definition nhalf {N : Num} : N := ndec 5 10.          (* 0.5 *)
Definition nm1 {N : Num} : N := nint (-1).
(** [usize as f64], [F::from(k)] for an unsigned integer [k]. *)
Definition nofn {N : Num} (n : nat) : N := nint (Z.of_nat n).
(** [x.recip()], which std defines as [1.0 / x]. *)
Definition nrecip {N : Num} (x : N) : N := ndiv n1 x.

(** * Extended reals *)
Inductive xreal := Fin (r : R) | PInf | NInf | XNaN.

Local Open Scope R_scope.

Definition Rltb (a b : R) : bool := if Rlt_dec a b then true else false.
Definition Rleb (a b : R) : bool := if Rle_dec a b then true else false.
Definition Req_b (a b : R) : bool := if Req_EM_T a b then true else false.

Definition xneg (a : xreal) : xreal :=
  match a with Fin r => Fin (- r) | PInf => NInf | NInf => PInf | XNaN => XNaN end.

Definition xadd (a b : xreal) : xreal :=
  match a, b with
  | XNaN, _ | _, XNaN => XNaN
  | Fin x, Fin y => Fin (x + y)
  | Fin _, i => i
  | i, Fin _ => i
  | PInf, PInf => PInf
  | NInf, NInf => NInf
  | _, _ => XNaN
  end.

Definition xsub (a b : xreal) : xreal := xadd a (xneg b).

(** infinity of a given sign times a finite number *)
Definition xscale (pos : bool) (r : R) : xreal :=
  if Req_b r 0 then XNaN
  else if Bool.eqb pos (Rltb 0 r) then PInf else NInf.

Definition xmul (a b : xreal) : xreal :=
  match a, b with
  | XNaN, _ | _, XNaN => XNaN
  | Fin x, Fin y => Fin (x * y)
  | Fin x, PInf | PInf, Fin x => xscale true x
  | Fin x, NInf | NInf, Fin x => xscale false x
  | PInf, PInf | NInf, NInf => PInf
  | PInf, NInf | NInf, PInf => NInf
  end.

(** Division.  Zero carries no sign here, so [r / 0] takes the sign of [r]
    (as for a positive zero divisor). *)
Definition xdiv (a b : xreal) : xreal :=
  match a, b with
  | XNaN, _ | _, XNaN => XNaN
  | Fin x, Fin y =>
      if Req_b y 0 then
        (if Req_b x 0 then XNaN else if Rltb 0 x then PInf else NInf)
      else Fin (x / y)
  | Fin _, _ => Fin 0
  | PInf, Fin y => if Rltb y 0 then NInf else PInf
  | NInf, Fin y => if Rltb y 0 then PInf else NInf
  | _, _ => XNaN
  end.

Definition xln (a : xreal) : xreal :=
  match a with
  | Fin r => if Rltb 0 r then Fin (ln r) else if Req_b r 0 then NInf else XNaN
  | PInf => PInf
  | _ => XNaN
  end.

Definition xexp (a : xreal) : xreal :=
  match a with Fin r => Fin (exp r) | PInf => PInf | NInf => Fin 0 | XNaN => XNaN end.

Definition xsqrt (a : xreal) : xreal :=
  match a with
  | Fin r => if Rltb r 0 then XNaN else Fin (sqrt r)
  | PInf => PInf
  | _ => XNaN
  end.

Definition xtrig (f : R -> R) (a : xreal) : xreal :=
  match a with Fin r => Fin (f r) | _ => XNaN end.

Definition xabs (a : xreal) : xreal :=
  match a with Fin r => Fin (Rabs r) | PInf | NInf => PInf | XNaN => XNaN end.

(** Is the real [e] an integer, and which. *)
Definition as_int (e : R) : option Z :=
  if Req_b (IZR (Int_part e)) e then Some (Int_part e) else None.

(** [powf] on finite arguments (C99/IEEE [pow], zero unsigned). *)
Definition xpow_fin (b e : R) : xreal :=
  if Req_b e 0 then Fin 1
  else if Rltb 0 b then Fin (Rpower b e)
  else if Req_b b 0 then (if Rltb 0 e then Fin 0 else PInf)
  else match as_int e with
       | Some z => Fin (powerRZ b z)
       | None => XNaN
       end.

Definition is_odd_int (e : R) : bool :=
  match as_int e with Some z => Z.odd z | None => false end.

Definition xpow (b e : xreal) : xreal :=
  match b, e with
  | Fin x, Fin y => xpow_fin x y
  | XNaN, Fin y => if Req_b y 0 then Fin 1 else XNaN
  | PInf, Fin y => if Req_b y 0 then Fin 1 else if Rltb 0 y then PInf else Fin 0
  | NInf, Fin y => if Req_b y 0 then Fin 1
                   else if Rltb 0 y then (if is_odd_int y then NInf else PInf) else Fin 0
  | Fin x, PInf => if Req_b (Rabs x) 1 then Fin 1 else if Rltb 1 (Rabs x) then PInf else Fin 0
  | Fin x, NInf => if Req_b (Rabs x) 1 then Fin 1
                   else if Rltb 1 (Rabs x) then Fin 0
                   else PInf
  | Fin x, XNaN => if Req_b x 1 then Fin 1 else XNaN
  | XNaN, _ | _, XNaN => XNaN
  | _, PInf => PInf
  | _, NInf => Fin 0
  end.

Definition xeqb (a b : xreal) : bool :=
  match a, b with
  | Fin x, Fin y => Req_b x y
  | PInf, PInf | NInf, NInf => true
  | _, _ => false
  end.

Definition xltb (a b : xreal) : bool :=
  match a, b with
  | Fin x, Fin y => Rltb x y
  | NInf, Fin _ | NInf, PInf | Fin _, PInf => true
  | _, _ => false
  end.

Definition xleb (a b : xreal) : bool := xltb a b || xeqb a b.

Definition xlgamma (lg : R -> R) (a : xreal) : xreal :=
  match a with Fin r => Fin (lg r) | PInf => PInf | NInf => PInf | XNaN => XNaN end.

Definition xdec (m : Z) (d : positive) : xreal := Fin (IZR m / IZR (Zpos d)).

(** The extended-real instance.  [lg] stands for the log-gamma function of the
    [special] crate on finite arguments. *)
Definition XR (lg : R -> R) : Num :=
  {| num := xreal; nadd := xadd; nsub := xsub; nmul := xmul; ndiv := xdiv;
     npow := xpow; nneg := xneg; nabs := xabs; nln := xln; nexp := xexp;
     nsqrt := xsqrt; nsin := xtrig sin; ncos := xtrig cos;
     nlgamma := xlgamma lg; neqb := xeqb; nltb := xltb; nleb := xleb;
     ndec := xdec; npi := Fin PI; npinf := PInf; nninf := NInf; nnan := XNaN |}.

Local Close Scope R_scope.

(** * Binary64 *)
Definition f64 := spec_float.
Definition f64_prec : Z := 53.
Definition f64_emax : Z := 1024.

(** The platform's math library: any functions on binary64. *)
Record libm := mkLibm {
  l_ln : f64 -> f64; l_exp : f64 -> f64; l_pow : f64 -> f64 -> f64;
  l_sin : f64 -> f64; l_cos : f64 -> f64; l_lgamma : f64 -> f64 }.

Definition f64_add := SFadd f64_prec f64_emax.
Definition f64_sub := SFsub f64_prec f64_emax.
Definition f64_mul := SFmul f64_prec f64_emax.
Definition f64_div := SFdiv f64_prec f64_emax.
Definition f64_sqrt := SFsqrt f64_prec f64_emax.
(** An integer converted to binary64 with rounding to nearest even. *)
Definition f64_of_Z (z : Z) : f64 := binary_normalize f64_prec f64_emax z 0 false.
(** [m/d] rounded to nearest even; exact operands as long as they are below 2^53. *)
Definition f64_dec (m : Z) (d : positive) : f64 :=
  match d with
  | xH => f64_of_Z m
  | _ => f64_div (f64_of_Z m) (f64_of_Z (Zpos d))
  end.
(** 0x400921FB54442D18 = 7074237752028440 * 2^-51. *)
Definition f64_pi : f64 := binary_normalize f64_prec f64_emax 7074237752028440 (-51) false.

Definition F64 (L : libm) : Num :=
  {| num := f64; nadd := f64_add; nsub := f64_sub; nmul := f64_mul; ndiv := f64_div;
     npow := l_pow L; nneg := SFopp; nabs := SFabs; nln := l_ln L; nexp := l_exp L;
     nsqrt := f64_sqrt; nsin := l_sin L; ncos := l_cos L; nlgamma := l_lgamma L;
     neqb := SFeqb; nltb := SFltb; nleb := SFleb; ndec := f64_dec; npi := f64_pi;
     npinf := S754_infinity false; nninf := S754_infinity true; nnan := S754_nan |}.
