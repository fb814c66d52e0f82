(** Properties C28 (IID collections) and C44 (automatic JIT registry). *)
From Coq Require Import ZArith Reals List Bool Lra Lia Arith String Sorting.Permutation.
From Verif Require Import Num XRFacts DensitySpec BuilderProofs CoreModel CoreSpec CoreProofs
  CombModel ExpFamModel ExpFamSpec DistModel DistSpec DistFacts DistProofs DistProofs2 DistProofs3 DistProofs4
  ExpFamProofs.
Import ListNotations.
Local Open Scope R_scope.
Local Open Scope list_scope.
Local Notation fin lg r := (Fin r : XR lg).
Local Notation length := List.length.

(** * C28 *)

(** The joint log-density of any number of samples is the sum of the
    individual log-densities, through every method of the collection. *)
Theorem C28_joint_is_the_sum : forall lg T (d : ExpFam (XR lg) T) xs,
  finite_family d xs -> default_form d ->
  iid_log_density d xs = xsum (map (ef_density d) xs) /\
  iid_log_density_wrt_root d xs = xsum (map (ef_density d) xs) /\
  ef_density (iid_expfam d) xs = xsum (map (ef_density d) xs).
Proof. intros lg T d xs F D. pose proof (iid_is_sum lg d xs F D) as E. split; [exact E|]. split; exact E. Qed.
Print Assumptions C28_joint_is_the_sum.

(** No samples: zero, in every arithmetic. *)
Theorem C28_empty_collection : forall (N : Num) T (d : ExpFam N T),
  iid_log_density d [] = n0 /\ iid_log_density_fallback (ef_base d) [] = n0.
Proof. intros; split; reflexivity. Qed.
Print Assumptions C28_empty_collection.

(** The order of the samples does not matter and collections concatenate. *)
Theorem C28_order_is_irrelevant : forall lg T (d : ExpFam (XR lg) T) xs ys,
  finite_family d xs -> finite_family d ys -> default_form d -> Permutation xs ys ->
  iid_log_density d xs = iid_log_density d ys.
Proof.
  intros lg T d xs ys F G D P. unfold iid_log_density. rewrite !iid_is_sum by assumption.
  apply xsum_perm, Permutation_map, P.
Qed.
Print Assumptions C28_order_is_irrelevant.
Theorem C28_collections_concatenate : forall lg T (d : ExpFam (XR lg) T) xs ys,
  finite_family d xs -> finite_family d ys -> finite_family d (xs ++ ys) -> default_form d ->
  iid_log_density d (xs ++ ys) = nadd (iid_log_density d xs) (iid_log_density d ys).
Proof.
  intros lg T d xs ys F G H D. unfold iid_log_density. rewrite !iid_is_sum by assumption.
  rewrite map_app. apply xsum_app.
Qed.
Print Assumptions C28_collections_concatenate.

(** The continuous families of the library, at any finite samples of the support. *)
Theorem C28_continuous_families : forall lg xs,
  (forall m s d, normal_new (fin lg m) (fin lg s) = Some d ->
     iid_log_density (normal_expfam d) (fins xs : list (XR lg)) =
     Fin (Rsum (map (fun x => ln (normal_pdf m s x)) xs))) /\
  (forall a b d, gamma_new (fin lg a) (fin lg b) = Some d -> Forall (fun x => 0 < x) xs ->
     iid_log_density (gamma_expfam d) (fins xs : list (XR lg)) =
     Fin (Rsum (map (fun x => ln (gamma_pdf lg a b x)) xs))) /\
  (forall a b d, beta_new (fin lg a) (fin lg b) = Some d -> Forall (fun x => 0 < x < 1) xs ->
     iid_log_density (beta_expfam d) (fins xs : list (XR lg)) =
     Fin (Rsum (map (fun x => ln (beta_pdf lg a b x)) xs))) /\
  (forall k d, chi_new (fin lg k) = Some d -> Forall (fun x => 0 < x) xs ->
     iid_log_density (chi_expfam d) (fins xs : list (XR lg)) =
     Fin (Rsum (map (fun x => ln (chi_squared_pdf lg k x)) xs))) /\
  (forall l d, exponential_new (fin lg l) = Some d ->
     iid_log_density (exponential_expfam d) (fins xs : list (XR lg)) =
     Fin (Rsum (map (fun x => ln (exponential_pdf l x) - 2 * ln l) xs))).
Proof. exact iid_continuous. Qed.
Print Assumptions C28_continuous_families.

(** The discrete families. *)
Theorem C28_discrete_families : forall lg xs,
  (forall p d, bernoulli_new (fin lg p) = Some d -> 0 < p < 1 -> Forall (fun k => (k <= 1)%nat) xs ->
     iid_log_density (bernoulli_expfam d) xs = Fin (Rsum (map (fun k => ln (bernoulli_pmf p k)) xs))) /\
  (forall n p d, lg_factorial lg -> binomial_new n (fin lg p) = Some d -> 0 < p < 1 ->
     Forall (fun k => (k <= n)%nat) xs ->
     iid_log_density (binomial_expfam d) xs = Fin (Rsum (map (fun k => ln (binomial_pmf n p k)) xs))) /\
  (forall p d, geometric_new (fin lg p) = Some d -> p < 1 -> Forall (fun k => (1 <= k)%nat) xs ->
     iid_log_density (geometric_expfam d) xs =
     Fin (Rsum (map (fun k => ln (geometric_pmf p k) + ln (1 - p)) xs))) /\
  (forall l d, poisson_new (fin lg l) = Some d ->
     iid_log_density (poisson_expfam d) xs = xsum (map (ef_density (poisson_expfam d)) xs)).
Proof. exact iid_discrete. Qed.
Print Assumptions C28_discrete_families.
Example C28_families_case : exists d, normal_new (fin ln 0) (fin ln 2) = Some d /\
  finite_family (normal_expfam d) (fins [1; -2; 3] : list (XR ln)) /\ default_form (normal_expfam d).
Proof.
  eexists. split; [apply normal_new_ok; lra|]. split; [apply normal_finite; lra|]. intros x; reflexivity.
Qed.

(** The method [log_density_iid] of Normal, StudentT and Cauchy. *)
Theorem C28_log_density_iid : forall lg xs,
  (forall m s d, normal_new (fin lg m) (fin lg s) = Some d ->
     normal_log_density_iid d (fins xs) = Fin (Rsum (map (fun x => ln (normal_pdf m s x)) xs))) /\
  (forall nu d, student_new (fin lg nu) = Some d ->
     student_log_density_iid d (fins xs) = Fin (Rsum (map (fun x => ln (student_pdf lg nu x)) xs))) /\
  (forall x0 g d, cauchy_new (fin lg x0) (fin lg g) = Some d ->
     cauchy_log_density_iid d (fins xs) = Fin (Rsum (map (fun x => ln (cauchy_pdf x0 g x)) xs))).
Proof.
  intros lg xs. split; [intros; apply normal_iid; assumption|].
  split; [intros; apply student_iid; assumption|intros; apply cauchy_iid; assumption].
Qed.
Print Assumptions C28_log_density_iid.

(** The standard API on collections: [log_density().at(..)] is the sum over the
    samples, and one collection relative to another is the sum of the relative
    log-densities of the samples. *)
Theorem C28_standard_api : forall lg T lay (dist : Base (XR lg) T) (d : ExpFam (XR lg) T) xs,
  off_measure lay <> off_base lay -> finite_family d xs -> default_form d ->
  at_ lay (log_density (iid_measure dist d)) xs = xsum (map (ef_density d) xs).
Proof. exact iid_at_root. Qed.
Print Assumptions C28_standard_api.
Theorem C28_relative_collections : forall lg T lay (p q : Base (XR lg) T) (d e : ExpFam (XR lg) T) (f g : T -> R) xs,
  off_measure lay <> off_base lay -> finite_family d xs -> finite_family e xs ->
  default_form d -> default_form e ->
  (forall x, In x xs -> ef_density d x = Fin (f x) /\ ef_density e x = Fin (g x)) ->
  at_ lay (wrt (log_density (iid_measure p d)) (iid_measure q e)) xs =
  Fin (Rsum (map (fun x => f x - g x) xs)).
Proof. exact iid_relative. Qed.
Print Assumptions C28_relative_collections.
Example C28_relative_case : forall d e, normal_new (fin ln 0) (fin ln 2) = Some d -> normal_new (fin ln 1) (fin ln 3) = Some e ->
  at_ (mkLayout 0 16) (wrt (log_density (iid_measure (normal_base d) (normal_expfam d))) (iid_measure (normal_base e) (normal_expfam e)))
    (fins [1; -2; 3] : list (XR ln)) =
  Fin (Rsum (map (fun x => ln (normal_pdf 0 2 x) - ln (normal_pdf 1 3 x)) [1; -2; 3])).
Proof. exact relative_case. Qed.

(** Support: every sample is in the support, of the collection as a measure and
    of its base measure. *)
Theorem C28_support : forall lg T (dist : Base (XR lg) T) (d : ExpFam (XR lg) T) xs,
  (b_support (m_self (iid_measure dist d)) xs = true <-> Forall (fun x => b_support dist x = true) xs) /\
  (b_support (ef_base (iid_expfam d)) xs = true <-> Forall (fun x => b_support (ef_base d) x = true) xs).
Proof. exact @iid_supports. Qed.
Print Assumptions C28_support.

(** The fallback sums the direct log-densities; it agrees with the collection
    whenever the two paths of the distribution agree on the samples. *)
Theorem C28_fallback : forall lg T (dist : Base (XR lg) T) xs,
  iid_log_density_fallback dist xs = xsum (map (b_ld dist) xs).
Proof. exact @fallback_is_sum. Qed.
Print Assumptions C28_fallback.
Theorem C28_fallback_agrees : forall lg T (dist : Base (XR lg) T) (d : ExpFam (XR lg) T) xs,
  finite_family d xs -> default_form d -> (forall x, In x xs -> b_ld dist x = ef_density d x) ->
  iid_log_density_fallback dist xs = iid_log_density d xs.
Proof.
  intros lg T dist d xs F D H. unfold iid_log_density. rewrite fallback_is_sum, iid_is_sum by assumption.
  f_equal. apply map_ext_in. exact H.
Qed.
Print Assumptions C28_fallback_agrees.

(** The zero-overhead closure of a collection charges the log-partition once
    instead of once per sample. *)
Theorem C28_closure_offset : forall lg T (d : ExpFam (XR lg) T) xs A,
  finite_family d xs -> default_form d -> ef_partition d = Fin A ->
  zero_overhead (iid_expfam d) xs =
  xadd (iid_log_density d xs) (Fin ((INR (length xs) - 1) * A)).
Proof.
  intros lg T d xs A F D E. unfold iid_log_density. rewrite iid_is_sum by assumption.
  apply iid_closure; assumption.
Qed.
Print Assumptions C28_closure_offset.
Theorem C28_closure_correct_for_one_sample : forall lg T (d : ExpFam (XR lg) T) x,
  finite_family d [x] -> default_form d -> zero_overhead (iid_expfam d) [x] = iid_log_density d [x].
Proof.
  intros lg T d x F D. pose proof F as F'. destruct F' as (eta & A & t & _ & E & _).
  rewrite (C28_closure_offset lg T d [x] A F D E). cbn [length INR].
  replace ((1 - 1) * A) with 0 by ring. apply xadd_0_r.
Qed.
Print Assumptions C28_closure_correct_for_one_sample.
Theorem C28_closure_refuted : exists d xs, poisson_new (fin ln 1) = Some d /\
  zero_overhead (iid_expfam (poisson_expfam d)) xs <> iid_log_density (poisson_expfam d) xs.
Proof. exact closure_wrong. Qed.
Print Assumptions C28_closure_refuted.

(** * C44: the registry.  [ty_eqb] is the equality of type ids. *)
Theorem C44_register_then_get : forall Ty P (eqb : Ty -> Ty -> bool),
  (forall a b, eqb a b = true <-> a = b) -> forall (r : Registry) (t t' : Ty) (p : P),
  reg_get eqb (reg_register eqb r t p) t' = if eqb t t' then Some p else reg_get eqb r t'.
Proof. exact @register_get. Qed.
Print Assumptions C44_register_then_get.
Example C44_register_case : reg_get Nat.eqb (reg_register Nat.eqb (reg_register Nat.eqb reg_new 1%nat "a"%string) 1%nat "b"%string) 1%nat = Some "b"%string.
Proof. reflexivity. Qed.

(** An optimizer with a pattern for the type produces what the pattern produces. *)
Theorem C44_registered_type_compiles : forall Ty P D Sy F (eqb : Ty -> Ty -> bool) type_of
  (apply : P -> D -> Sy + string) (compile : Sy -> F + string),
  (forall a b, eqb a b = true <-> a = b) -> forall (r : Registry) p d s f,
  apply p d = inl s -> compile s = inl f ->
  generate_symbolic eqb type_of apply (reg_register eqb r (type_of d) p) d = inl s /\
  auto_compile eqb type_of apply compile (reg_register eqb r (type_of d) p) d = inl f.
Proof.
  intros Ty P D Sy F eqb type_of apply compile E r p d s f A C.
  assert (G : generate_symbolic eqb type_of apply (reg_register eqb r (type_of d) p) d = inl s).
  { unfold generate_symbolic. rewrite register_get by exact E.
    replace (eqb (type_of d) (type_of d)) with true by (symmetry; apply E; reflexivity). exact A. }
  split; [exact G|]. unfold auto_compile. rewrite G. exact C.
Qed.
Print Assumptions C44_registered_type_compiles.

(** But the public entry points build a fresh, empty registry each time and the
    macro registers nothing: they fail for every type and every history of
    macro invocations. *)
Theorem C44_auto_jit_never_succeeds_refuted : forall Ty P D Sy F (eqb : Ty -> Ty -> bool) type_of
  (apply : P -> D -> Sy + string) (compile : Sy -> F + string) (invoked : list Ty) (d : D),
  auto_jit eqb type_of apply compile d = inr "No pattern registered for type"%string /\
  auto_symbolic eqb type_of apply d = inr "No pattern registered for type"%string /\
  fold_left (auto_jit_impl (P := P)) invoked optimizer_new = optimizer_new.
Proof.
  intros. split; [reflexivity|]. split; [reflexivity|]. induction invoked; [reflexivity|exact IHinvoked].
Qed.
Print Assumptions C44_auto_jit_never_succeeds_refuted.
