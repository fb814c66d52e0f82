(** Textbook densities and mass functions of the distributions, and what it
    means for a log-density to be normalised.  Independent of the code. *)
From Coq Require Import Reals List Arith.
From Flocq Require Import IEEE754.BinarySingleNaN.
From Verif Require Import Num DensitySpec.
Import ListNotations.
Local Open Scope R_scope.

(** Densities with respect to Lebesgue measure; [lg a] is the logarithm of the
    Gamma function at [a]. *)
Definition exponential_pdf (rate x : R) : R := rate * exp (- (rate * x)).
Definition gamma_pdf (lg : R -> R) (shape rate x : R) : R :=
  Rpower rate shape / exp (lg shape) * Rpower x (shape - 1) * exp (- (rate * x)).
Definition beta_pdf (lg : R -> R) (a b x : R) : R :=
  exp (lg (a + b)) / (exp (lg a) * exp (lg b)) * Rpower x (a - 1) * Rpower (1 - x) (b - 1).
Definition chi_squared_pdf (lg : R -> R) (k x : R) : R :=
  Rpower x (k / 2 - 1) * exp (- (x / 2)) / (Rpower 2 (k / 2) * exp (lg (k / 2))).
Definition student_pdf (lg : R -> R) (nu x : R) : R :=
  exp (lg ((nu + 1) / 2)) / (sqrt (nu * PI) * exp (lg (nu / 2)))
  * Rpower (1 + x ^ 2 / nu) (- ((nu + 1) / 2)).
Definition cauchy_pdf (x0 g x : R) : R := / (PI * g * (1 + ((x - x0) / g) ^ 2)).

(** Mass functions. *)
Definition bernoulli_pmf (p : R) (k : nat) : R :=
  match k with 0%nat => 1 - p | 1%nat => p | _ => 0 end.
Definition binomial_pmf (n : nat) (p : R) (k : nat) : R :=
  if Nat.leb k n then C n k * p ^ k * (1 - p) ^ (n - k) else 0.
Definition poisson_pmf (rate : R) (k : nat) : R := rate ^ k * exp (- rate) / INR (fact k).
(** Number of trials up to and including the first success. *)
Definition geometric_pmf (p : R) (k : nat) : R :=
  match k with 0%nat => 0 | S j => (1 - p) ^ j * p end.
(** Successes (probability [p] each) before the [r]-th failure. *)
Definition negbinomial_pmf (r : nat) (p : R) (k : nat) : R :=
  C (k + r - 1) k * p ^ k * (1 - p) ^ r.
Definition categorical_pmf (ps : list R) (k : nat) : R := nth k ps 0.

(** The values [f 0, f 1, ...] sum to [total]. *)
Definition sums_to (f : nat -> R) (total : R) : Prop := infinite_sum f total.

(** * Valid parameters, in exact arithmetic with infinities and NaN ... *)
Definition xpos (v : xreal) : Prop :=
  match v with Fin r => 0 < r | PInf => True | NInf | XNaN => False end.
Definition xprob (v : xreal) : Prop := match v with Fin r => 0 <= r <= 1 | _ => False end.

(** ... and in binary64. *)
Definition b64 := binary_float 53 1024.
Definition bpos (v : b64) : Prop := v = B754_infinity false \/ (is_finite v = true /\ 0 < B2R v).
Definition bprob (v : b64) : Prop := is_finite v = true /\ 0 <= B2R v <= 1.

(** A constructor returned instead of panicking. *)
Definition returns {A} (o : option A) : Prop := exists d, o = Some d.

(** A log-density that is a real number. *)
Definition finite (v : xreal) : Prop := exists r, v = Fin r.
