(** Constants of any printable type entering the JIT interpreter. *)
From Coq Require Import String.
From Verif Require Import Num.

(** symbolic-math/src/final_tagless.rs 914-921 ([JITEval::constant]): the value is
    printed with [format!("{value}")] and the text parsed as [f64]; a text that
    does not parse panics ([None]).  [show] is the type's [Display], [parse] is
    [str::parse::<f64>]. *)
Definition jit_constant {T : Type} (show : T -> string) (parse : string -> option f64) (value : T) : option f64 :=
  parse (show value).
