(** Cumulants of exponential families (C63): the log-partition as a function of
    the natural parameters, and what its derivatives should be. *)
From Coq Require Import Reals List.
Import ListNotations.
Local Open Scope R_scope.

(** [A] is a log-partition on [dom]; at [eta] its first derivative is the mean
    [m] of the sufficient statistic and its second derivative the variance [v]. *)
Definition cumulants (dom : R -> Prop) (A : R -> R) (eta m v : R) : Prop :=
  exists A', (forall t, dom t -> derivable_pt_lim A t (A' t)) /\ A' eta = m /\ derivable_pt_lim A' eta v.

Definition everywhere (t : R) : Prop := True.
Definition negative (t : R) : Prop := t < 0.

(** Textbook log-partitions. *)
Definition bernoulli_partition (t : R) : R := ln (1 + exp t).
Definition poisson_partition (t : R) : R := exp t.
Definition exponential_partition (t : R) : R := - ln (- t).
(** Geometric, counting trials 1, 2, ...: the mass is p (1 - p)^(k - 1). *)
Definition geometric_partition (t : R) : R := t - ln (1 - exp t).
(** Negative binomial with natural parameter ln p. *)
Definition negbinomial_partition (r : nat) (t : R) : R := - INR r * ln (1 - exp t).
Definition normal_partition (e1 e2 : R) : R := ln (PI / - e2) / 2 + e1 * e1 / (4 * - e2).
Definition gamma_partition (lg : R -> R) (e1 e2 : R) : R := lg (e1 + 1) - (e1 + 1) * ln (- e2).
Definition beta_partition (lg : R -> R) (e1 e2 : R) : R := lg (e1 + 1) + lg (e2 + 1) - lg (e1 + 1 + (e2 + 1)).
Definition softmax_partition (eta : list R) : R := ln (1 + fold_right Rplus 0 (map exp eta)).
