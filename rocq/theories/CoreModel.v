(** Model of measures-core: measures, relative log-densities, the memoised
    log-density, the structured decomposition, dot products and the autodiff
    helper.

    A Rust type implementing [Measure] + [HasLogDensity] is a record of its
    observable functions.  Type-level booleans are [bool].  Left out: [Clone]
    and lifetimes, descriptions of decomposition terms (debugging text). *)
From Coq Require Import ZArith Bool List Arith.
From Verif Require Import Num.
Import ListNotations.
Local Open Scope list_scope.

Section Core.
Context {N : Num} {T : Type}.

(** measures-core/src/core/measure.rs:5-28 (MeasureMarker, Measure) with
    core/density.rs:319-322 (HasLogDensity).  [b_size] is [size_of] of the
    implementing type. *)
Record Base := mkBase {
  b_support : T -> bool;     (* in_support *)
  b_ld : T -> N;             (* log_density_wrt_root *)
  b_expfam : bool;           (* IsExponentialFamily *)
  b_size : nat }.            (* size_of::<Self>() *)

(** measure.rs:19-28: a measure and the result of [root_measure]. *)
Record Measure := mkMeasure { m_self :> Base; m_root : Base }.

(** measure.rs:37-47 and primitive/lebesgue.rs:1-32, primitive/counting.rs:
    primitive measures are supported everywhere, have log-density zero and are
    their own root; the two structs only hold PhantomData, hence size 0. *)
Definition primitive : Base :=
  {| b_support := fun _ => true; b_ld := fun _ => n0; b_expfam := false; b_size := 0 |}.
Definition primitive_measure : Measure := {| m_self := primitive; m_root := primitive |}.

(** density.rs:135-147 (struct LogDensity). *)
Record LogDensity := mkLD { ld_measure : Base; ld_base : Base }.

(** density.rs:149-164 (LogDensity::new), measure.rs:50-55 (log_density). *)
Definition log_density (m : Measure) : LogDensity :=
  {| ld_measure := m_self m; ld_base := m_root m |}.

(** density.rs:173-179 (wrt). *)
Definition wrt (l : LogDensity) (b : Base) : LogDensity :=
  {| ld_measure := ld_measure l; ld_base := b |}.

(** density.rs:243-312: the four ExpFamDispatch::compute implementations. *)
Definition compute_ff (m b : Base) (x : T) : N := nsub (b_ld m x) (b_ld b x).
Definition compute_ft (m b : Base) (x : T) : N := nsub (b_ld m x) (b_ld b x).
Definition compute_tf (m b : Base) (x : T) : N := nsub (b_ld m x) (b_ld b x).
Definition compute_tt (m b : Base) (x : T) : N := nsub (b_ld m x) (b_ld b x).
Definition compute (m b : Base) (x : T) : N :=
  match b_expfam m, b_expfam b with
  | false, false => compute_ff m b x
  | false, true => compute_ft m b x
  | true, false => compute_tf m b x
  | true, true => compute_tt m b x
  end.

(** Where the compiler placed the fields [measure] and [base_measure] inside
    the struct: their byte offsets. *)
Record Layout := mkLayout { off_measure : nat; off_base : nat }.

(** density.rs:216-241 (EvaluateAt::at): the addresses of the two fields are
    compared; equal addresses return zero at once. *)
Definition at_ (lay : Layout) (l : LogDensity) (x : T) : N :=
  if Nat.eqb (off_measure lay) (off_base lay) then n0
  else compute (ld_measure l) (ld_base l) x.

(** density.rs:458-468 (log_density_at) and 471-484 (log_density_batch). *)
Definition log_density_at (m : Base) (x : T) : N := b_ld m x.
Definition log_density_batch (m : Base) (xs : list T) : list N := map (b_ld m) xs.

(** density.rs:437-455 (SharedRootMeasure for pairs). *)
Definition log_density_wrt_shared_root (m1 m2 : Base) (x : T) : N :=
  nadd (b_ld m1 x) (b_ld m2 x).

End Core.
Arguments Base : clear implicits.
Arguments Measure : clear implicits.
Arguments LogDensity : clear implicits.

(** * The memoised log-density: density.rs:325-387.
    The map is a [HashMap<T, F>]; [eqb] is the key type's [Eq].  [evals] records
    the points at which the inner density was evaluated, latest first. *)
Section Memo.
Context {T V : Type} (eqb : T -> T -> bool) (f : T -> V).

Record Memo := mkMemo { cache : list (T * V); evals : list T }.

(** density.rs:336-344 (CachedLogDensity::new). *)
Definition memo_new : Memo := {| cache := []; evals := [] |}.

Fixpoint lookup (c : list (T * V)) (x : T) : option V :=
  match c with
  | [] => None
  | (k, v) :: c' => if eqb k x then Some v else lookup c' x
  end.

(** density.rs:376-387 (CachedLogDensity::at). *)
Definition memo_at (s : Memo) (x : T) : V * Memo :=
  match lookup (cache s) x with
  | Some v => (v, s)
  | None => let v := f x in (v, {| cache := (x, v) :: cache s; evals := x :: evals s |})
  end.

(** A client's sequence of calls. *)
Fixpoint memo_run (s : Memo) (xs : list T) : list V * Memo :=
  match xs with
  | [] => ([], s)
  | x :: xs' => let (v, s1) := memo_at s x in
                let (vs, s2) := memo_run s1 xs' in (v :: vs, s2)
  end.
End Memo.
Arguments Memo : clear implicits.

(** * Decomposition: core/log_density_decomposition.rs *)
Section Decomposition.
Context {N : Num} {X Theta : Type}.

(** log_density_decomposition.rs:25-67. *)
Record Decomp := mkDecomp {
  data_terms : list (X -> N);
  param_terms : list (Theta -> N);
  mixed_terms : list (X -> Theta -> N);
  constant_terms : list N }.

(** 71-80 (new). *)
Definition d_new : Decomp :=
  {| data_terms := []; param_terms := []; mixed_terms := []; constant_terms := [] |}.

(** One call of add_data_term / add_param_term / add_mixed_term / add_constant
    (83-117), or of the builder methods that call them (239-287). *)
Inductive term :=
| TData (g : X -> N) | TParam (g : Theta -> N) | TMixed (g : X -> Theta -> N) | TConst (c : N).

Definition d_add (d : Decomp) (t : term) : Decomp :=
  match t with
  | TData g => {| data_terms := data_terms d ++ [g]; param_terms := param_terms d;
                  mixed_terms := mixed_terms d; constant_terms := constant_terms d |}
  | TParam g => {| data_terms := data_terms d; param_terms := param_terms d ++ [g];
                   mixed_terms := mixed_terms d; constant_terms := constant_terms d |}
  | TMixed g => {| data_terms := data_terms d; param_terms := param_terms d;
                   mixed_terms := mixed_terms d ++ [g]; constant_terms := constant_terms d |}
  | TConst c => {| data_terms := data_terms d; param_terms := param_terms d;
                   mixed_terms := mixed_terms d; constant_terms := constant_terms d ++ [c] |}
  end.

(** DecompositionBuilder (239-287): new, then methods, then build. *)
Definition build (ts : list term) : Decomp := fold_left d_add ts d_new.

(** [.fold(F::zero(), |acc, val| acc + val)] and [Iterator::sum]. *)
Definition fold_sum (l : list N) : N := fold_left nadd l n0.

(** 200-205, 210-215, 219-223 and the mixed sum of 133-137. *)
Definition evaluate_param_terms (d : Decomp) (th : Theta) : N :=
  fold_sum (map (fun g => g th) (param_terms d)).
Definition evaluate_data_terms (d : Decomp) (x : X) : N :=
  fold_sum (map (fun g => g x) (data_terms d)).
Definition mixed_sum (d : Decomp) (x : X) (th : Theta) : N :=
  fold_sum (map (fun g => g x th) (mixed_terms d)).
Definition constant_sum (d : Decomp) : N := fold_sum (constant_terms d).

(** 120-145 (evaluate). *)
Definition d_evaluate (d : Decomp) (x : X) (th : Theta) : N :=
  nadd (nadd (nadd (evaluate_data_terms d x) (evaluate_param_terms d th))
             (mixed_sum d x th)) (constant_sum d).

(** 151-195 (evaluate_iid).  [F::from(samples.len())] is [nofn]. *)
Definition d_evaluate_iid (d : Decomp) (xs : list X) (th : Theta) : N :=
  let n := nofn (length xs) in
  let data := fold_sum (map (fun x => fold_sum (map (fun g => g x) (data_terms d))) xs) in
  let param := nmul n (fold_sum (map (fun g => g th) (param_terms d))) in
  let mixed := fold_sum (map (fun x => fold_sum (map (fun g => g x th) (mixed_terms d))) xs) in
  let const := nmul n (fold_sum (constant_terms d)) in
  nadd (nadd (nadd data param) mixed) const.
End Decomposition.
Arguments Decomp : clear implicits.
Arguments term : clear implicits.

(** * Dot products and array helpers *)
Section Dot.
Context {N : Num}.

(** [for (a, b) in self.iter().zip(other.iter()) { result = result + a * b }] *)
Fixpoint zip_dot (acc : N) (a b : list N) : N :=
  match a, b with
  | x :: a', y :: b' => zip_dot (nadd acc (nmul x y)) a' b'
  | _, _ => acc
  end.

(** traits/dot_product.rs:41-52: arrays, whose lengths agree by typing. *)
Definition dot_array (a b : list N) : N := zip_dot n0 a b.
(** traits/dot_product.rs:54-66: vectors, whose lengths are not checked. *)
Definition dot_vec (a b : list N) : N := zip_dot n0 a b.

(** traits/dot_product.rs:68-78 (array_sub); lengths agree by typing. *)
Fixpoint array_sub (a b : list N) : list N :=
  match a, b with
  | x :: a', y :: b' => nsub x y :: array_sub a' b'
  | _, _ => []
  end.

(** measures-exponential-family array_utils.rs:7-16 (add_arrays). *)
Fixpoint add_arrays (a b : list N) : list N :=
  match a, b with
  | x :: a', y :: b' => nadd x y :: add_arrays a' b'
  | _, _ => []
  end.
(** array_utils.rs:20-25 (default_array). *)
Definition default_array (n : nat) : list N := repeat n0 n.
(** array_utils.rs:28-34 (sum_arrays). *)
Definition sum_arrays (n : nat) (l : list (list N)) : list N :=
  fold_left add_arrays l (default_array n).
(** exponential_family/traits.rs:128-145 (sum_sufficient_stats for [F; N]):
    the index loop [sum[i] = sum[i] + value]. *)
Fixpoint add_into (acc stat : list N) : list N :=
  match acc, stat with
  | s :: acc', v :: stat' => nadd s v :: add_into acc' stat'
  | acc, _ => acc
  end.
Definition sum_sufficient_stats (n : nat) (l : list (list N)) : list N :=
  fold_left add_into l (repeat n0 n).
End Dot.

(** * Autodiff helper: core/autodiff.rs:75-93.
    [at_ad] is [at]; [value_and_grad] projects the same constant twice. *)
Definition at_ad {A : Type} (at_fun : A -> A) (x : A) : A := at_fun x.
Definition value_and_grad {A V : Type} (to_constant : A -> V) (at_fun : A -> A) (x : A) : V * V :=
  let result := at_ad at_fun x in (to_constant result, to_constant result).
