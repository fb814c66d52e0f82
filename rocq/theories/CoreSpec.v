(** Specification vocabulary for the measures-core properties. *)
From Coq Require Import ZArith Reals Bool List Arith Sorting.Permutation.
From Verif Require Import Num DensitySpec CoreModel.
Import ListNotations.
Local Open Scope R_scope.

(** The density (a number >= 0) whose logarithm is the given value. *)
Definition dens (a : xreal) : R :=
  match a with Fin r => exp r | _ => 0 end.

(** A log-density is a real number or minus infinity. *)
Definition is_logdens (a : xreal) : Prop := (exists r, a = Fin r) \/ a = NInf.

(** What the language guarantees about two fields of one struct: their byte
    ranges do not overlap.  (Zero-sized fields may share an address with
    anything.) *)
Definition legal_layout (size1 size2 : nat) (lay : Layout) : Prop :=
  (off_measure lay + size1 <= off_base lay \/ off_base lay + size2 <= off_measure lay)%nat.

(** Sum of extended reals. *)
Definition xsum (l : list xreal) : xreal := fold_right xadd (Fin 0) l.

(** What one builder call contributes to the log-density at [x], [th]. *)
Definition term_value {lg X Theta} (x : X) (th : Theta) (t : term (XR lg) X Theta) : xreal :=
  match t with
  | TData g => g x
  | TParam g => g th
  | TMixed g => g x th
  | TConst c => c
  end.

(** The same, one kind of term at a time. *)
Definition data_part {lg X Theta} (x : X) (t : term (XR lg) X Theta) : xreal :=
  match t with TData g => g x | _ => Fin 0 end.
Definition param_part {lg X Theta} (th : Theta) (t : term (XR lg) X Theta) : xreal :=
  match t with TParam g => g th | _ => Fin 0 end.
Definition mixed_part {lg X Theta} (x : X) (th : Theta) (t : term (XR lg) X Theta) : xreal :=
  match t with TMixed g => g x th | _ => Fin 0 end.
Definition const_part {lg X Theta} (t : term (XR lg) X Theta) : xreal :=
  match t with TConst c => c | _ => Fin 0 end.

(** Sum of products of two real vectors. *)
Definition rdot (a b : list R) : R := Rsum (map (fun p => fst p * snd p) (combine a b)).

(** Sum of the i-th components. *)
Definition column_sum (i : nat) (rows : list (list R)) : R :=
  Rsum (map (fun r => nth i r 0) rows).

Definition fins (l : list R) : list xreal := map Fin l.
