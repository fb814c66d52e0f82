(** Magnitudes against which the errors of joint log-densities of samples are
    measured (C70): for each observation, the sizes of the terms added up. *)
From Coq Require Import Reals List.
From Flocq Require Import Core.
From Verif Require Import Num EggSpec FloatErr RoundSpec.
Local Open Scope R_scope.

Definition cauchy_scale (loc sc x : R) : R := ln (1 + ((x - loc) / sc) * ((x - loc) / sc)) + Rabs (ln sc) + 5.
Definition student_scale (lg : R -> R) (nu x : R) : R :=
  Rabs (lg ((nu + 1) / 2)) + Rabs (lg (nu / 2)) + Rabs (ln (nu * PI)) + (nu + 1) * (ln (1 + x * x / nu) + 1) + 4.
Definition exponential_scale (rate x : R) : R := Rabs (ln rate) + rate * Rabs x + 1.
Definition gamma_scale (lg : R -> R) (a b x : R) : R := a * (Rabs (ln b) + 1) + Rabs (lg a) + (a + 1) * (Rabs (ln x) + 1) + b * x + 3.
Definition beta_scale (lg : R -> R) (a b x : R) : R :=
  Rabs (lg (a + b)) + Rabs (lg a) + Rabs (lg b) + (a + 1) * (Rabs (ln x) + 1) + (b + 1) * (Rabs (ln (1 - x)) + 1) + 4.

(** The logarithm of the joint density of independent observations. *)
Definition joint_ln {X} (pdf : X -> R) (xs : list X) : R := ln (fold_right Rmult 1 (map pdf xs)).
