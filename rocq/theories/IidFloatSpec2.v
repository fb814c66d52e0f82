(** Magnitudes for the joint log-densities of the remaining families (C70). *)
From Coq Require Import Reals List.
From Verif Require Import FamFloatSpec.
Local Open Scope R_scope.

Definition chi_scale (lg : R -> R) (k x : R) : R := k + Rabs (lg (k / 2)) + (k / 2 + 1) * (Rabs (ln x) + 1) + x + 3.
Definition binomial_scale (n : nat) (p : R) (k : nat) : R :=
  INR k * odds_scale p + INR n * (Rabs (ln (1 - p)) + 1) + (ln (INR (fact n)) + ln (INR (fact k)) + ln (INR (fact (n - k))) + 3) + 1.
Definition negbinomial_scale (r : nat) (p : R) (k : nat) : R :=
  INR k * odds_scale p + INR r * (Rabs (ln (1 - p)) + 1) + (ln (INR (fact (k + r - 1))) + ln (INR (fact k)) + ln (INR (fact (r - 1))) + 3) + 1.
