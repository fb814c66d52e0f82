(** Magnitudes of a product of differences (C74). *)
From Coq Require Import ZArith Reals List.
From Verif Require Import Num EggSpec.
Local Open Scope R_scope.

(** The product of the distances to the roots, and the same product with every
    factor below one raised to one: partial products may underflow. *)
Definition root_product (x : f64) (rs : list f64) : R := fold_right Rmult 1 (map (fun r => val x - val r) rs).
Definition root_size (x : f64) (rs : list f64) : R := fold_right Rmult 1 (map (fun r => Rabs (val x - val r)) rs).
Definition root_size1 (x : f64) (rs : list f64) : R := fold_right Rmult 1 (map (fun r => Rmax 1 (Rabs (val x - val r))) rs).
