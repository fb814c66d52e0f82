(** Model of measures-distributions/src/distributions/multivariate/multinormal.rs
    (the file is in the repository but its [mod] line in multivariate/mod.rs:6 is
    commented out).  A panic is [None].  nalgebra's [try_inverse] and
    [determinant] are parameters; its sums are left folds from zero (the order of
    accumulation is not observed in exact arithmetic). *)
From Coq Require Import ZArith List Arith Bool.
From Verif Require Import Num.
Import ListNotations.

Section Mvn.
Context {N : Num}.

(** nalgebra's [DVector] and [DMatrix]: only the entries below the sizes exist. *)
Record DVec := mkVec { v_len : nat; v_at : nat -> N }.
Record DMat := mkMat { m_rows : nat; m_cols : nat; m_at : nat -> nat -> N }.

(** Sum of [f 0 .. f (n-1)]. *)
Definition vsum (n : nat) (f : nat -> N) : N := fold_left nadd (map f (seq 0 n)) n0.
(** [u.dot(&v)], [&m * &v]: nalgebra panics on different sizes. *)
Definition vdot (u v : DVec) : option N :=
  if Nat.eqb (v_len u) (v_len v) then Some (vsum (v_len u) (fun i => nmul (v_at u i) (v_at v i))) else None.
Definition mat_vec (m : DMat) (v : DVec) : option DVec :=
  if Nat.eqb (m_cols m) (v_len v)
  then Some (mkVec (m_rows m) (fun i => vsum (m_cols m) (fun j => nmul (m_at m i j) (v_at v j)))) else None.
(** [m.map(|x| c * x)], [x * x.transpose()], [a.component_mul(b).sum()]. *)
Definition mat_scale (c : N) (m : DMat) : DMat := mkMat (m_rows m) (m_cols m) (fun i j => nmul c (m_at m i j)).
Definition outer (v : DVec) : DMat := mkMat (v_len v) (v_len v) (fun i j => nmul (v_at v i) (v_at v j)).
Definition frobenius (a b : DMat) : option N :=
  if Nat.eqb (m_rows a) (m_rows b) && Nat.eqb (m_cols a) (m_cols b)
  then Some (vsum (m_rows a) (fun i => vsum (m_cols a) (fun j => nmul (m_at a i j) (m_at b i j)))) else None.

Context (try_inverse : DMat -> option DMat) (determinant : DMat -> N).

(** multinormal.rs:18-33. *)
Record Mvn := mkMvn { mv_mean : DVec; mv_cov : DMat; mv_prec : DMat; mv_det : N; mv_dim : nat }.

(** multinormal.rs:49-78 (new). *)
Definition mvn_new (mean : DVec) (cov : DMat) : option Mvn :=
  if Nat.eqb (m_rows cov) (m_cols cov) then
    if Nat.eqb (v_len mean) (m_rows cov) then
      match try_inverse cov with
      | Some p => Some (mkMvn mean cov p (determinant cov) (v_len mean))
      | None => None
      end
    else None
  else None.
(** multinormal.rs:80-90 (standard). *)
Definition mvn_standard (dim : nat) : option Mvn :=
  mvn_new (mkVec dim (fun _ => n0)) (mkMat dim dim (fun i j => if Nat.eqb i j then n1 else n0)).

(** multinormal.rs:107-109 (in_support). *)
Definition mvn_support (_ : Mvn) (_ : DVec) : bool := true.

(** multinormal.rs:127-145 (from_natural). *)
Definition mvn_from_natural (eta : DVec * DMat) : option Mvn :=
  let precision := mat_scale (nint (-2)) (snd eta) in
  match try_inverse precision with
  | Some cov => match mat_vec cov (fst eta) with Some mean => mvn_new mean cov | None => None end
  | None => None
  end.
(** multinormal.rs:147-156 (to_natural). *)
Definition mvn_to_natural (d : Mvn) : option (DVec * DMat) :=
  match mat_vec (mv_prec d) (mv_mean d) with
  | Some eta1 => Some (eta1, mat_scale (ndec (-5) 10) (mv_prec d))
  | None => None
  end.
(** multinormal.rs:158-174 (log_partition). *)
Definition mvn_partition (d : Mvn) : option N :=
  match mat_vec (mv_prec d) (mv_mean d) with
  | Some pm =>
    match vdot (mv_mean d) pm with
    | Some q =>
      let term1 := nmul nhalf q in
      let two_pi := nmul n2 npi in
      let term2 := nmul nhalf (nadd (nmul (nofn (mv_dim d)) (nln two_pi)) (nln (mv_det d))) in
      Some (nadd term1 term2)
    | None => None
    end
  | None => None
  end.
(** multinormal.rs:176-184 (sufficient_statistic). *)
Definition mvn_stat (x : DVec) : DVec * DMat := (x, outer x).
(** multinormal.rs:191-210 (DotProduct). *)
Definition mvn_dot (eta t : DVec * DMat) : option N :=
  match vdot (fst eta) (fst t), frobenius (snd eta) (snd t) with
  | Some a, Some b => Some (nadd a b)
  | _, _ => None
  end.
(** measures-exponential-family traits.rs:85-101 (exp_fam_log_density): the base
    measure is Lebesgue, of log-density zero. *)
Definition mvn_density (d : Mvn) (x : DVec) : option N :=
  match mvn_to_natural d, mvn_partition d with
  | Some eta, Some a =>
    match mvn_dot eta (mvn_stat x) with Some t => Some (nadd (nsub t a) n0) | None => None end
  | _, _ => None
  end.
End Mvn.
Arguments DVec : clear implicits. Arguments DMat : clear implicits. Arguments Mvn : clear implicits.
