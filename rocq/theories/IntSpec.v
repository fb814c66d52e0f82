(** Improper integrals over an open interval, for C32 and C35.  [is_RInt] is
    the Riemann integral of Coquelicot over a bounded closed interval. *)
From Coquelicot Require Import Coquelicot.
From Coq Require Import Reals.
From Verif Require Import Num CoreModel CoreSpec.
Local Open Scope R_scope.

(** [x] lies strictly between [A] and [B] (either may be infinite). *)
Definition inside (A B : Rbar) (x : R) : Prop := Rbar_lt A x /\ Rbar_lt x B.

(** The integral of [f] over the open interval (A,B) is [l]: for every precision
    there are two points such that every closed interval [a,b] within (A,B)
    that contains them has an integral of [f] within that precision of [l]. *)
Definition integral (A B : Rbar) (f : R -> R) (l : R) : Prop :=
  forall eps : R, 0 < eps -> exists a0 b0 : R, inside A B a0 /\ inside A B b0 /\ a0 <= b0 /\
    forall a b : R, Rbar_lt A a -> a <= a0 -> b0 <= b -> Rbar_lt b B ->
      exists v : R, is_RInt f a b v /\ Rabs (v - l) < eps.

(** Euler's integral for the gamma function. *)
Definition is_gamma (a v : R) : Prop :=
  integral 0 p_infty (fun t => Rpower t (a - 1) * exp (- t)) v.
(** [lg] is the logarithm of the gamma function on the positive reals. *)
Definition lg_is_log_gamma (lg : R -> R) : Prop := forall a, 0 < a -> is_gamma a (exp (lg a)).

(** The log-density [ld] describes a measure of total [v] on (A,B): at every real
    number it is a log-density (no NaN, no +inf), it vanishes beyond the
    interval, and the density integrates to [v]. *)
Definition density_total (A B : Rbar) (ld : xreal -> xreal) (v : R) : Prop :=
  (forall x, is_logdens (ld (Fin x))) /\
  (forall x : R, Rbar_lt x A \/ Rbar_lt B x -> dens (ld (Fin x)) = 0) /\
  integral A B (fun x => dens (ld (Fin x))) v.
(** Its mean, and its variance about [m]. *)
Definition density_mean (A B : Rbar) (ld : xreal -> xreal) (m : R) : Prop :=
  integral A B (fun x => x * dens (ld (Fin x))) m.
Definition density_variance (A B : Rbar) (ld : xreal -> xreal) (m v : R) : Prop :=
  integral A B (fun x => (x - m) ^ 2 * dens (ld (Fin x))) v.
(** A log-density cut down to the points where [support] holds. *)
Definition on_region (support : xreal -> bool) (ld : xreal -> xreal) (x : xreal) : xreal :=
  if support x then ld x else NInf.
