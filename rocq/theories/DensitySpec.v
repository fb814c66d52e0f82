(** Textbook densities and elementary functions, as plain real functions.
    Written from the definitions, independently of the code. *)
From Coq Require Import Reals List.
Import ListNotations.
Local Open Scope R_scope.

(** Density of the normal distribution with mean [mu] and deviation [sigma]. *)
Definition normal_pdf (mu sigma x : R) : R :=
  / (sigma * sqrt (2 * PI)) * exp (- ((x - mu) ^ 2 / (2 * sigma ^ 2))).

(** Logistic function and softplus. *)
Definition logistic_fn (x : R) : R := exp x / (1 + exp x).
Definition softplus_fn (x : R) : R := ln (1 + exp x).

(** [a_0 + a_1 x + ... + a_n x^n], counting powers from [k]. *)
Fixpoint poly_from (k : nat) (a : list R) (x : R) : R :=
  match a with [] => 0 | c :: a' => c * x ^ k + poly_from (S k) a' x end.
Definition poly (a : list R) (x : R) : R := poly_from 0 a x.

Definition Rsum (l : list R) : R := fold_right Rplus 0 l.
Definition Rprod (l : list R) : R := fold_right Rmult 1 l.
