(** Constants of the JIT interpreter at arbitrary displayable types.
    Definitions only. *)
From Coq Require Import String.
From Verif Require Import Num ExprModel EggModel.

(** symbolic-math/src/final_tagless.rs 914-922 [JITEval::constant]: the value
    is displayed, the text ([text]) is read as an f64 and stored; [None]: the
    text is not a number and the call panics. *)
Definition jit_constant (text : string) : option (expr f64) :=
  match parse_f64 text with
  | Some f64_value => Some (Const f64_value)
  | None => None
  end.
