(** Reading decimal text at two precisions (C22). *)
From Coq Require Import ZArith Reals String.
From Flocq Require Import Core.
From Verif Require Import Num EggSpec FloatErr SingleModel SingleSpec.
Local Open Scope R_scope.

(** The nearest binary64 and binary32 numbers (ties to even). *)
Definition nearest64 (q : R) : R := round radix2 (FLT_exp (-1074) 53) ZnearestE q.
Definition nearest32 (q : R) : R := round radix2 (FLT_exp (-149) 24) ZnearestE q.

(** [parse] reads texts, whose values as decimals are [denote], to the nearest
    [f64]; [show] prints an [f32] so that it reads back; an integer is
    printed exactly. *)
Definition parses (denote : string -> R) (parse : string -> option f64) : Prop :=
  forall s r, parse s = Some r -> is_num r -> val r = nearest64 (denote s).
Definition shows_single (denote : string -> R) (show : f32 -> string) (v : f32) : Prop :=
  val v = nearest32 (denote (show v)).
Definition shows_integer (denote : string -> R) (show : Z -> string) (k : Z) : Prop :=
  denote (show k) = IZR k.
