(** Model of measures-exponential-family: the exponential-family interface, IID
    collections, the zero-overhead closures, the static inline functions and
    the automatic-JIT registry.

    A type implementing [ExponentialFamily] is the record of what its methods
    return for one value of the type.  Natural parameters and sufficient
    statistics are arrays ([list] with a fixed length [ef_dim]) or vectors. *)
From Coq Require Import ZArith Bool List String Arith.
From Verif Require Import Num CoreModel.
Import ListNotations.
Local Open Scope list_scope.

Section ExpFam.
Context {N : Num} {X : Type}.

(** exponential_family/traits.rs:31-102.  [ef_density] is the method
    [exp_fam_log_density]: the default body below or an override. *)
Record ExpFam := mkExpFam {
  ef_dim : nat;                    (* length of the arrays *)
  ef_natural : list N;             (* natural_and_log_partition().0 *)
  ef_partition : N;                (* natural_and_log_partition().1 *)
  ef_stat : X -> list N;           (* sufficient_statistic *)
  ef_base : Base N X;              (* base_measure *)
  ef_density : X -> N }.           (* exp_fam_log_density *)

(** traits.rs:45-54 (to_natural, log_partition). *)
Definition to_natural (d : ExpFam) : list N := ef_natural d.
Definition log_partition (d : ExpFam) : N := ef_partition d.

(** traits.rs:85-101, the default body. *)
Definition default_density (eta : list N) (A : N) (stat : X -> list N) (base : Base N X) (x : X) : N :=
  let exp_fam_part := nsub (dot_array eta (stat x)) A in
  nadd exp_fam_part (b_ld base x).

(** A type that does not override [exp_fam_log_density]. *)
Definition expfam (dim : nat) (eta : list N) (A : N) (stat : X -> list N) (base : Base N X) : ExpFam :=
  {| ef_dim := dim; ef_natural := eta; ef_partition := A; ef_stat := stat;
     ef_base := base; ef_density := default_density eta A stat base |}.

(** traits.rs:150-159. *)
Definition compute_exp_fam_log_density (d : ExpFam) (x : X) : N := ef_density d x.

(** traits.rs:167-199 (compute_iid_exp_fam_log_density). *)
Definition compute_iid (d : ExpFam) (xs : list X) : N :=
  match xs with
  | [] => n0
  | _ =>
    let sum_stats := sum_sufficient_stats (ef_dim d) (map (ef_stat d) xs) in
    let n := nofn (List.length xs) in
    let exp_fam_part := nsub (dot_array (ef_natural d) sum_stats) (nmul n (ef_partition d)) in
    let base_part := fold_left nadd (map (b_ld (ef_base d)) xs) n0 in
    nadd exp_fam_part base_part
  end.

(** jit.rs:103-120 (generate_zero_overhead_exp_fam). *)
Definition zero_overhead (d : ExpFam) (x : X) : N :=
  nadd (nsub (dot_array (ef_natural d) (ef_stat d x)) (ef_partition d)) (b_ld (ef_base d) x).
(** jit.rs:123-153 (generate_zero_overhead_exp_fam_wrt). *)
Definition zero_overhead_wrt (d : ExpFam) (b : Base N X) (x : X) : N :=
  nsub (ef_density d x) (b_ld b x).
End ExpFam.
Arguments ExpFam : clear implicits.

(** * IID collections: exponential_family/iid.rs.  The wrapper holds only the
    distribution; [dist] is its own log-density, [d] its exponential-family view. *)
Section IID.
Context {N : Num} {X : Type}.

(** iid.rs:110-112 (in_support). *)
Definition iid_in_support (dist : Base N X) (xs : list X) : bool := forallb (b_support dist) xs.

(** iid.rs:128-139 (iid_log_density) and 299-311 (log_density_wrt_root). *)
Definition iid_log_density (d : ExpFam N X) (xs : list X) : N := compute_iid d xs.
Definition iid_log_density_wrt_root (d : ExpFam N X) (xs : list X) : N := iid_log_density d xs.

(** iid.rs:145-154 (iid_log_density_fallback). *)
Definition iid_log_density_fallback (dist : Base N X) (xs : list X) : N :=
  fold_left nadd (map (b_ld dist) xs) n0.

(** iid.rs:180-227 (IIDBaseMeasure). *)
Definition iid_base (b : Base N X) : Base N (list X) :=
  {| b_support := forallb (b_support b);
     b_ld := fun xs => fold_left nadd (map (b_ld b) xs) n0;
     b_expfam := false; b_size := b_size b |}.

(** iid.rs:234-296: the exponential-family view of a collection.  The log
    partition is that of ONE sample (269-282); the density is overridden (288-295). *)
Definition iid_expfam (d : ExpFam N X) : ExpFam N (list X) :=
  {| ef_dim := ef_dim d; ef_natural := ef_natural d;
     ef_partition := nmul n1 (ef_partition d);
     ef_stat := fun xs => sum_sufficient_stats (ef_dim d) (map (ef_stat d) xs);
     ef_base := iid_base (ef_base d);
     ef_density := compute_iid d |}.

(** iid.rs:102-117, 299-311: the collection as a measure over its primitive root. *)
Definition iid_measure (dist : Base N X) (d : ExpFam N X) : Measure N (list X) :=
  {| m_self := {| b_support := iid_in_support dist; b_ld := iid_log_density_wrt_root d;
                  b_expfam := true; b_size := b_size dist |};
     m_root := primitive |}.
End IID.

(** * Static inline functions: jit.rs:226-282 *)
Section StaticInline.
Context {N : Num}.

(** jit.rs:226-237 (compile_normal). *)
Definition compile_normal (mu sigma : N) (x : N) : N :=
  let sigma_sq := nmul sigma sigma in
  let two_sigma_sq := nmul n2 sigma_sq in
  let log_norm := nmul (nneg nhalf) (nln (nmul (nmul n2 npi) sigma_sq)) in
  let diff := nsub x mu in
  nsub log_norm (ndiv (nmul diff diff) two_sigma_sq).

(** jit.rs:256-267 (compile_exponential). *)
Definition compile_exponential (lambda : N) (x : N) : N :=
  let log_lambda := nln lambda in
  if nleb n0 x then nsub log_lambda (nmul lambda x) else nninf.
End StaticInline.

(** * Automatic JIT: exponential_family/auto_jit.rs.
    [Ty] is [TypeId] with its equality, [P] the boxed pattern, [D] any
    distribution value, [S] the symbolic log-density, [F] the compiled function;
    [apply] is AutoJITPattern::generate_symbolic, [compile] the JIT compiler
    (new + compile_custom_expression).  Errors carry their text. *)
Section AutoJit.
Context {Ty P D Sy F : Type} (ty_eqb : Ty -> Ty -> bool) (type_of : D -> Ty)
        (apply : P -> D -> Sy + string) (compile : Sy -> F + string).

(** auto_jit.rs:14-16 (AutoJITRegistry): a [HashMap<TypeId, _>]. *)
Definition Registry := list (Ty * P).
(** auto_jit.rs:21-29 (new). *)
Definition reg_new : Registry := [].
(** auto_jit.rs:32-34 (register_pattern): insertion replaces. *)
Definition reg_register (r : Registry) (t : Ty) (p : P) : Registry :=
  (t, p) :: filter (fun e => negb (ty_eqb (fst e) t)) r.
(** auto_jit.rs:38-40 (get_pattern). *)
Fixpoint reg_get (r : Registry) (t : Ty) : option P :=
  match r with
  | [] => None
  | (k, p) :: r' => if ty_eqb k t then Some p else reg_get r' t
  end.

(** auto_jit.rs:59-70: an optimizer is its registry, which is private and
    created empty; no method changes it. *)
Definition optimizer_new : Registry := reg_new.

(** auto_jit.rs:73-83 (generate_symbolic); the type id in the text is left out. *)
Definition generate_symbolic (r : Registry) (d : D) : Sy + string :=
  match reg_get r (type_of d) with
  | Some p => apply p d
  | None => inr "No pattern registered for type"%string
  end.

(** auto_jit.rs:86-101 (compile_jit). *)
Definition auto_compile (r : Registry) (d : D) : F + string :=
  match generate_symbolic r d with
  | inl s => compile s
  | inr e => inr e
  end.

(** auto_jit.rs:119-132 (AutoJITExt for every 'static type). *)
Definition auto_jit (d : D) : F + string := auto_compile optimizer_new d.
Definition auto_symbolic (d : D) : Sy + string := generate_symbolic optimizer_new d.

(** auto_jit.rs:136-142 (auto_jit_impl!): expands to nothing, so a program
    that invokes it any number of times still starts from [optimizer_new]. *)
Definition auto_jit_impl (r : Registry) (_ : Ty) : Registry := r.
End AutoJit.
