(** What C28 assumes about an exponential family. *)
From Coq Require Import Reals List.
From Verif Require Import Num CoreModel CoreSpec ExpFamModel.
Import ListNotations.
Local Open Scope R_scope.

(** The natural parameter, the partition and the statistics of the samples are
    finite arrays of the declared length (the base density may be infinite). *)
Definition finite_family {lg T} (d : ExpFam (XR lg) T) (xs : list T) : Prop :=
  exists (eta : list R) (A : R) (t : T -> list R),
    ef_natural d = fins eta /\ ef_partition d = Fin A /\
    (forall x, In x xs -> ef_stat d x = fins (t x) /\ length (t x) = ef_dim d) /\
    length eta = ef_dim d.

(** The density is the exponential-family form (not an override). *)
Definition default_form {lg T} (d : ExpFam (XR lg) T) : Prop :=
  forall x, ef_density d x = default_density (ef_natural d) (ef_partition d) (ef_stat d) (ef_base d) x.
