(** The [Default] implementations of the distributions, and the small accessors
    not in DistModel.v.  Definitions only. *)
From Coq Require Import ZArith Bool List.
From Verif Require Import Num CoreModel DistModel.
Import ListNotations.

Section Defaults.
Context {N : Num}.

(** continuous/normal.rs:52-59: the struct literal, no check. *)
Definition normal_default : Normal N := mkNormal n0 n1.
(** continuous/exponential.rs:36-40. *)
Definition exponential_default : Exponential N := mkExponential n1.
(** continuous/gamma.rs:40-47. *)
Definition gamma_default : Gamma N := mkGamma n1 n1.
(** continuous/beta.rs:40-47. *)
Definition beta_default : BetaD N := mkBeta n1 n1.
(** continuous/chi_squared.rs:41-47. *)
Definition chi_default : ChiSquared N := mkChi n1.
(** continuous/student_t.rs:163-167: through [new], which may panic. *)
Definition student_default : option (StudentT N) := student_new n1.
(** continuous/cauchy.rs:167-171: through [new]. *)
Definition cauchy_default : option (Cauchy N) := cauchy_new n0 n1.
(** discrete/bernoulli.rs:39-45. *)
Definition bernoulli_default : Bernoulli N := mkBernoulli nhalf.
(** discrete/geometric.rs:40-46. *)
Definition geometric_default : Geometric N := mkGeometric nhalf.
(** discrete/poisson.rs:27-31. *)
Definition poisson_default : Poisson N := mkPoisson n1.
(** discrete/categorical.rs:72-75 (num_categories). *)
Definition num_categories (d : Categorical N) : nat := length (ca_probs d).
(** continuous/cauchy.rs:71-83, student_t.rs:60-67 (location, scale, nu). *)
Definition cauchy_location (d : Cauchy N) : N := c_loc d.
Definition cauchy_scale (d : Cauchy N) : N := c_scale d.
Definition student_nu (d : StudentT N) : N := t_nu d.
(** bernoulli.rs:73-75, binomial.rs:69-71, negative_binomial.rs:74-81. *)
Definition bernoulli_log_odds (d : Bernoulli N) : N := log_odds (be_prob d).
Definition binomial_log_odds (d : Binomial N) : N := log_odds (bi_prob d).
Definition negbinomial_log_odds (d : NegBinomial N) : N := log_odds (nb_prob d).
Definition negbinomial_failure_prob (d : NegBinomial N) : N := nsub n1 (nb_prob d).
End Defaults.
