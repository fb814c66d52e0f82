(** What C75 says about the multivariate normal. *)
From Coq Require Import Reals List Arith.
From Verif Require Import Num CoreSpec MvnModel.
Import ListNotations.
Local Open Scope R_scope.

(** f 0 + ... + f (n-1). *)
Fixpoint sumn (n : nat) (f : nat -> R) : R := match n with O => 0 | S m => sumn m f + f m end.

(** P is the (two-sided) inverse of the n x n matrix M. *)
Definition delta (i j : nat) : R := if Nat.eqb i j then 1 else 0.
Definition is_inverse (n : nat) (M P : nat -> nat -> R) : Prop :=
  forall i j, (i < n)%nat -> (j < n)%nat ->
    sumn n (fun k => M i k * P k j) = delta i j /\ sumn n (fun k => P i k * M k j) = delta i j.
Definition symmetric (n : nat) (M : nat -> nat -> R) : Prop := forall i j, (i < n)%nat -> (j < n)%nat -> M i j = M j i.

(** The diagonal matrix. *)
Definition diag (s : nat -> R) (i j : nat) : R := if Nat.eqb i j then s i else 0.

(** The determinant, expanded along the first row. *)
Definition minor (j : nat) (M : nat -> nat -> R) (i k : nat) : R := M (S i) (if Nat.ltb k j then k else S k).
Fixpoint rdet (n : nat) (M : nat -> nat -> R) : R :=
  match n with
  | O => 1
  | S m => sumn (S m) (fun j => (-1) ^ j * M 0%nat j * rdet m (minor j M))
  end.

(** The quadratic form v' P v. *)
Definition quad (n : nat) (P : nat -> nat -> R) (v : nat -> R) : R := sumn n (fun i => sumn n (fun j => v i * P i j * v j)).
(** Symmetric, with x' M x > 0 for every non-zero x. *)
Definition positive_definite (n : nat) (M : nat -> nat -> R) : Prop :=
  symmetric n M /\ forall v, (exists i, (i < n)%nat /\ v i <> 0) -> 0 < quad n M v.

(** The density with mean [mu], covariance of inverse [P] and determinant [D]. *)
Definition mvn_pdf (n : nat) (mu : nat -> R) (P : nat -> nat -> R) (D : R) (x : nat -> R) : R :=
  exp (- (quad n P (fun i => x i - mu i) / 2)) / sqrt ((2 * PI) ^ n * D).

(** A vector or matrix of the code with finite entries. *)
Definition vec_is {lg} (n : nat) (v : nat -> R) (V : DVec (XR lg)) : Prop :=
  v_len V = n /\ forall i, (i < n)%nat -> v_at V i = Fin (v i).
Definition mat_is {lg} (n : nat) (M : nat -> nat -> R) (A : DMat (XR lg)) : Prop :=
  m_rows A = n /\ m_cols A = n /\ forall i j, (i < n)%nat -> (j < n)%nat -> m_at A i j = Fin (M i j).

(** The linear-algebra library answers correctly on every n x n matrix with the
    entries of [M]: an inverse when there is one, else none; the determinant. *)
Definition inverts {lg} (inv : DMat (XR lg) -> option (DMat (XR lg))) (n : nat) (M : nat -> nat -> R) : Prop :=
  forall A, mat_is n M A ->
    match inv A with
    | Some B => exists P, mat_is n P B /\ is_inverse n M P
    | None => ~ exists P, is_inverse n M P
    end.
Definition determines {lg} (det : DMat (XR lg) -> XR lg) (n : nat) (M : nat -> nat -> R) : Prop :=
  forall A, mat_is n M A -> det A = Fin (rdet n M).
