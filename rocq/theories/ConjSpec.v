(** What a conjugate update is.  Independent of the code. *)
From Coq Require Import Reals List.
From Verif Require Import Num DensitySpec.
Import ListNotations.
Local Open Scope R_scope.

(** Bayes' rule on the log scale: at every parameter value [t] in [S], the prior
    plus the log-likelihood of the data is the posterior plus the constant [c]
    (the log marginal likelihood), which does not depend on [t]. *)
Definition bayes_update (prior lik post : R -> xreal) (S : R -> Prop) (c : R) : Prop :=
  forall t, S t -> exists u v, prior t = Fin u /\ lik t = Fin v /\ post t = Fin (u + v - c).

(** Logarithm of the Beta function. *)
Definition lnB (lg : R -> R) (a b : R) : R := lg a + lg b - lg (a + b).
(** Logarithm of the normalising constant of a Gamma density. *)
Definition lnG (lg : R -> R) (a b : R) : R := lg a - a * ln b.
(** Posterior of a normal mean: precisions add, means are weighted by them. *)
Definition post_precision (s0 s : R) (n : nat) : R := / s0 ^ 2 + INR n / s ^ 2.
Definition post_mean (m0 s0 s : R) (xs : list R) : R :=
  (m0 / s0 ^ 2 + Rsum xs / s ^ 2) / post_precision s0 s (length xs).
(** The logarithm of the integral of prior times likelihood. *)
Definition normal_evidence (m0 s0 s : R) (xs : list R) : R :=
  let l := post_precision s0 s (length xs) in
  - INR (length xs) * (1 / 2 * ln (2 * PI) + ln s) - ln s0 - 1 / 2 * ln l
  - 1 / 2 * (Rsum (map (fun x => x ^ 2) xs) / s ^ 2 + m0 ^ 2 / s0 ^ 2 - l * post_mean m0 s0 s xs ^ 2).

(** The value of [k] at what a constructor returned; a panic is not a number. *)
Definition with_new {A} (o : option A) (k : A -> xreal) : xreal :=
  match o with Some d => k d | None => XNaN end.
