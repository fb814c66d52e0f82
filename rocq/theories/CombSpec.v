(** Specification vocabulary for the combinators (C36-C40, C49). *)
From Coquelicot Require Import Coquelicot.
From Coq Require Import Reals List Arith.
From Verif Require Import Num DensitySpec CoreModel CoreSpec CombModel.
Import ListNotations.
Local Open Scope R_scope.

(** Mass a log-density gives to a finite set of points. *)
Definition mass {A} (ld : A -> xreal) (s : list A) : R := Rsum (map (fun x => dens (ld x)) s).

(** The density of a mixture: the weighted sum of the component densities. *)
Definition mixture_density {A} (ws : list R) (lds : list (A -> xreal)) (x : A) : R :=
  Rsum (map (fun wc => fst wc * dens (snd wc x)) (combine ws lds)).

(** Between [a] and [b] the density of [ld] has total [I]. *)
Definition mass_between (ld : xreal -> xreal) (a b I : R) : Prop :=
  is_RInt (fun x => dens (ld (Fin x))) a b I.

(** [t] is a smooth bijection between two intervals: forward is [f] on [dom],
    inverse is [g] on [cod], they undo each other, and log_jac is the logarithm
    of the absolute value of the derivative of the inverse. *)
Record smooth_transform {lg} (t : Transform (XR lg)) (dom cod : R -> Prop) (f g : R -> R) : Prop := {
  st_forward : forall x, dom x -> forward t (Fin x) = Fin (f x) /\ cod (f x) /\ g (f x) = x;
  st_inverse : forall y, cod y -> inverse t (Fin y) = Fin (g y) /\ dom (g y) /\ f (g y) = y;
  st_convex : forall y z w, cod y -> cod z -> y <= w <= z -> cod w;
  st_derivative : exists dg : R -> R,
    (forall y, cod y -> is_derive g y (dg y) /\ continuous dg y) /\
    (forall y, cod y -> log_jac t (Fin y) = Fin (ln (Rabs (dg y)))) /\
    ((forall y, cod y -> 0 < dg y) \/ (forall y, cod y -> dg y < 0)) }.

(** The determinant of a diagonal matrix given by its diagonal. *)
Definition diag_det (d : list R) : R := fold_right Rmult 1 d.
(** The row-major diagonal matrix with the given diagonal. *)
Definition diag_matrix (d : list R) : list R :=
  flat_map (fun i => map (fun j => if Nat.eqb i j then nth i d 0 else 0) (seq 0 (length d))) (seq 0 (length d)).

(** Entry [i] of [A x + b], [A] given by rows of length [length x]. *)
Definition affine (A b x : list R) (i : nat) : R :=
  nth i b 0 + Rsum (map (fun j => nth (i * length x + j) A 0 * nth j x 0) (seq 0 (length x))).

(** The masses of a log-density on the naturals have total [v]; its mean is
    [v]; its variance about [mu] is [v].  (Sums of non-negative terms.  The
    total also requires every value to be a log-density: no NaN, no +inf.) *)
Definition total_mass (ld : nat -> xreal) (v : R) : Prop :=
  (forall k, is_logdens (ld k)) /\ infinite_sum (fun k => dens (ld k)) v.
Definition has_mean (ld : nat -> xreal) (v : R) : Prop := infinite_sum (fun k => INR k * dens (ld k)) v.
Definition has_variance (ld : nat -> xreal) (mu v : R) : Prop :=
  infinite_sum (fun k => (INR k - mu) ^ 2 * dens (ld k)) v.
(** A log-density cut down to the points where [support] holds. *)
Definition on_support (support : nat -> bool) (ld : nat -> xreal) (k : nat) : xreal :=
  if support k then ld k else NInf.
