(** Properties C29, C30, C33, C34: the distributions.
    [XR lg] is exact arithmetic with infinities and NaN; [lg] is the log-gamma
    function of the [special] crate.  The densities on the right-hand sides are
    the textbook ones of DistSpec.v. *)
From Coq Require Import ZArith Reals List Bool Lra Lia Arith.
From Coq Require Import Floats.SpecFloat.
From Flocq Require Import Core IEEE754.BinarySingleNaN.
From Verif Require Import Num XRFacts DensitySpec BuilderProofs CoreModel CoreSpec CoreProofs
  CombModel ExpFamModel DistModel DistSpec DistFacts DistProofs DistProofs2 DistProofs3 DistProofs4 DistProofs5.
Import ListNotations.
Local Open Scope R_scope.
Local Open Scope list_scope.
Local Notation fin lg r := (Fin r : XR lg).

(** * C29: every evaluation path computes the logarithm of the textbook density.
    Paths: direct (log_density_wrt_root), exponential-family, zero-overhead
    closure, static inline function, structured decomposition. *)

(** The closure is the default exponential-family density, operation by
    operation, in every arithmetic (binary64 included). *)
Theorem C29_closure_is_the_default_density :
  forall (N : Num) T dim eta A stat (base : Base N T) x,
  zero_overhead (expfam dim eta A stat base) x = ef_density (expfam dim eta A stat base) x.
Proof. reflexivity. Qed.
Print Assumptions C29_closure_is_the_default_density.

Theorem C29_normal : forall lg m s d x, normal_new (fin lg m) (fin lg s) = Some d ->
  let v := Fin (ln (normal_pdf m s x)) in
  normal_ld d (fin lg x) = v /\ ef_density (normal_expfam d) (fin lg x) = v /\
  zero_overhead (normal_expfam d) (fin lg x) = v /\
  compile_normal (fin lg m) (fin lg s) (fin lg x) = v /\
  d_evaluate (normal_decomposition d) (fin lg x) (normal_params d) = v.
Proof. exact c29_normal. Qed.
Print Assumptions C29_normal.
Example C29_normal_case : exists d, normal_new (fin ln 3) (fin ln 2) = Some d.
Proof. eexists. apply normal_new_ok. lra. Qed.

Theorem C29_standard_normal : forall lg x, let v := Fin (ln (normal_pdf 0 1 x)) in
  ef_density stdnormal_expfam (fin lg x) = v /\ zero_overhead stdnormal_expfam (fin lg x) = v.
Proof. exact c29_stdnormal. Qed.
Print Assumptions C29_standard_normal.

Theorem C29_exponential : forall lg l d x,
  exponential_new (fin lg l) = Some d -> exponential_support d (fin lg x) = true ->
  let v := Fin (ln (exponential_pdf l x)) in
  exponential_ld d (fin lg x) = v /\ compile_exponential (fin lg l) (fin lg x) = v /\
  (l = 1 -> ef_density (exponential_expfam d) (fin lg x) = v /\
            zero_overhead (exponential_expfam d) (fin lg x) = v).
Proof. exact c29_exponential. Qed.
Print Assumptions C29_exponential.
Example C29_exponential_case : exists d, exponential_new (fin ln 2) = Some d /\
  exponential_support d (fin ln 3) = true.
Proof.
  eexists. split.
  - unfold exponential_new. rewrite x_ltb0, Rltb_t by lra. reflexivity.
  - unfold exponential_support. rewrite x_leb0. apply Rleb_t; lra.
Qed.

(** The exponential-family path of Exponential is off by exactly 2 ln(rate):
    its log-partition has the wrong sign. *)
Theorem C29_exponential_family_path_offset : forall lg l d x,
  exponential_new (fin lg l) = Some d ->
  ef_density (exponential_expfam d) (fin lg x) = Fin (ln (exponential_pdf l x) - 2 * ln l) /\
  zero_overhead (exponential_expfam d) (fin lg x) = Fin (ln (exponential_pdf l x) - 2 * ln l).
Proof. exact c29_exponential_ef. Qed.
Print Assumptions C29_exponential_family_path_offset.
Theorem C29_exponential_paths_agree_refuted : exists l d x,
  exponential_new (fin ln l) = Some d /\ exponential_support d (fin ln x) = true /\
  exponential_ld d (fin ln x) <> ef_density (exponential_expfam d) (fin ln x).
Proof.
  destruct C29_exponential_case as (d & H & S). exists 2, d, 3. split; [exact H|]. split; [exact S|].
  destruct (c29_exponential ln 2 d 3 H S) as (E & _). destruct (c29_exponential_ef ln 2 d 3 H) as (E' & _).
  rewrite E, E'. intros K. injection K as K. pose proof (ln_lt_2). lra.
Qed.
Print Assumptions C29_exponential_paths_agree_refuted.

Theorem C29_gamma : forall lg a b d x,
  gamma_new (fin lg a) (fin lg b) = Some d -> gamma_support d (fin lg x) = true ->
  let v := Fin (ln (gamma_pdf lg a b x)) in
  gamma_ld d (fin lg x) = v /\ ef_density (gamma_expfam d) (fin lg x) = v /\
  zero_overhead (gamma_expfam d) (fin lg x) = v.
Proof. exact c29_gamma. Qed.
Print Assumptions C29_gamma.
Example C29_gamma_case : exists d, gamma_new (fin ln 2) (fin ln 3) = Some d /\ gamma_support d (fin ln 1) = true.
Proof.
  eexists. split.
  - unfold gamma_new. rewrite !x_ltb0, !Rltb_t by lra. reflexivity.
  - unfold gamma_support. rewrite x_ltb0. apply Rltb_t; lra.
Qed.

Theorem C29_beta : forall lg a b d x,
  beta_new (fin lg a) (fin lg b) = Some d -> beta_support d (fin lg x) = true ->
  let v := Fin (ln (beta_pdf lg a b x)) in
  beta_ld d (fin lg x) = v /\ ef_density (beta_expfam d) (fin lg x) = v /\
  zero_overhead (beta_expfam d) (fin lg x) = v.
Proof. exact c29_beta. Qed.
Print Assumptions C29_beta.
Example C29_beta_case : exists d, beta_new (fin ln 2) (fin ln 3) = Some d /\ beta_support d (fin ln (1/3)) = true.
Proof.
  eexists. split.
  - unfold beta_new. rewrite !x_ltb0, !Rltb_t by lra. reflexivity.
  - unfold beta_support. rewrite x_ltb0, x_ltb1, !Rltb_t by lra. reflexivity.
Qed.

Theorem C29_chi_squared : forall lg k d x,
  chi_new (fin lg k) = Some d -> chi_support d (fin lg x) = true ->
  let v := Fin (ln (chi_squared_pdf lg k x)) in
  chi_ld d (fin lg x) = v /\ ef_density (chi_expfam d) (fin lg x) = v /\
  zero_overhead (chi_expfam d) (fin lg x) = v.
Proof. exact c29_chi. Qed.
Print Assumptions C29_chi_squared.
Example C29_chi_case : exists d, chi_new (fin ln 5) = Some d /\ chi_support d (fin ln 3) = true.
Proof.
  eexists. split.
  - unfold chi_new. rewrite x_ltb0, Rltb_t by lra. reflexivity.
  - unfold chi_support. rewrite x_ltb0. apply Rltb_t; lra.
Qed.
(** A chi-squared distribution is the Gamma distribution with shape k/2, rate 1/2. *)
Theorem C29_chi_squared_is_gamma : forall lg k x d g, chi_new (fin lg k) = Some d ->
  gamma_new (chi_shape d) (chi_rate d) = Some g ->
  gamma_support g (fin lg x) = chi_support d (fin lg x) /\ chi_ld d (fin lg x) = gamma_ld g (fin lg x).
Proof. exact chi_is_gamma. Qed.
Print Assumptions C29_chi_squared_is_gamma.

Theorem C29_student_t : forall lg nu d x, student_new (fin lg nu) = Some d ->
  let v := Fin (ln (student_pdf lg nu x)) in
  student_ld d (fin lg x) = v /\ student_log_pdf d (fin lg x) = v /\
  d_evaluate (student_decomposition d) (fin lg x) (t_nu d) = v.
Proof. exact c29_student. Qed.
Print Assumptions C29_student_t.

Theorem C29_cauchy : forall lg x0 g d x, cauchy_new (fin lg x0) (fin lg g) = Some d ->
  let v := Fin (ln (cauchy_pdf x0 g x)) in
  cauchy_ld d (fin lg x) = v /\ cauchy_log_pdf d (fin lg x) = v /\
  d_evaluate (cauchy_decomposition d) (fin lg x) (c_loc d, c_scale d) = v.
Proof. exact c29_cauchy. Qed.
Print Assumptions C29_cauchy.
Example C29_student_cauchy_case : (exists d, student_new (fin ln 3) = Some d) /\
  (exists d, cauchy_new (fin ln (-1)) (fin ln 2) = Some d).
Proof.
  split; eexists; [unfold student_new | unfold cauchy_new]; rewrite x_ltb0, Rltb_t by lra; reflexivity.
Qed.

Theorem C29_bernoulli : forall lg p d k,
  bernoulli_new (fin lg p) = Some d -> 0 < p < 1 -> bernoulli_support d k = true ->
  let v := Fin (ln (bernoulli_pmf p k)) in
  bernoulli_ld d k = v /\ ef_density (bernoulli_expfam d) k = v /\ zero_overhead (bernoulli_expfam d) k = v.
Proof. exact c29_bernoulli. Qed.
Print Assumptions C29_bernoulli.
Lemma prob_ok lg p : 0 <= p <= 1 -> bernoulli_new (fin lg p) = Some (@mkBernoulli (XR lg) (Fin p)).
Proof.
  intros H. unfold bernoulli_new. replace (_ && _) with true; [reflexivity|].
  symmetry. apply x_prob_iff. exact H.
Qed.
Example C29_bernoulli_case : exists d, bernoulli_new (fin ln (1/4)) = Some d /\ bernoulli_support d 1 = true.
Proof. eexists. split; [apply prob_ok; lra|reflexivity]. Qed.

(** At p = 1 the exponential-family path is NaN at every point. *)
Theorem C29_bernoulli_certain_refuted : forall lg k, exists d,
  bernoulli_new (fin lg 1) = Some d /\ ef_density (bernoulli_expfam d) k = XNaN.
Proof. exact bernoulli_certain. Qed.
Print Assumptions C29_bernoulli_certain_refuted.

(** Binomial: the exponential-family path is the textbook log-mass; the direct
    path leaves out the binomial coefficient. *)
Theorem C29_binomial : forall lg n p d k, lg_factorial lg ->
  binomial_new n (fin lg p) = Some d -> 0 < p < 1 -> binomial_support d k = true ->
  ef_density (binomial_expfam d) k = Fin (ln (binomial_pmf n p k)) /\
  zero_overhead (binomial_expfam d) k = Fin (ln (binomial_pmf n p k)) /\
  binomial_ld d k = Fin (ln (binomial_pmf n p k) - ln (C n k)).
Proof. exact c29_binomial. Qed.
Print Assumptions C29_binomial.
Lemma binomial_ok lg n p : 0 <= p <= 1 -> binomial_new n (fin lg p) = Some (@mkBinomial (XR lg) n (Fin p)).
Proof.
  intros H. unfold binomial_new. replace (_ && _) with true; [reflexivity|].
  symmetry. apply x_prob_iff. exact H.
Qed.
(** [lg_factorial] is met by any function that extends ln (n-1)! on the integers. *)
Definition lg_ex (x : R) : R :=
  match as_int x with Some z => ln (INR (fact (Z.to_nat (z - 1)))) | None => 0 end.
Lemma lg_ex_factorial : lg_factorial lg_ex.
Proof.
  intros n. unfold lg_ex. rewrite INR_IZR_INZ, as_int_IZR.
  replace (Z.to_nat (Z.of_nat (S n) - 1)) with n by lia. reflexivity.
Qed.
Example C29_binomial_case : exists d, binomial_new 4 (fin lg_ex (1/4)) = Some d /\ binomial_support d 2 = true.
Proof. eexists. split; [apply binomial_ok; lra|reflexivity]. Qed.
Theorem C29_binomial_paths_agree_refuted : exists n p d k,
  binomial_new n (fin lg_ex p) = Some d /\ binomial_support d k = true /\
  binomial_ld d k <> ef_density (binomial_expfam d) k.
Proof.
  destruct C29_binomial_case as (d & H & S). exists 4%nat, (1/4), d, 2%nat. split; [exact H|]. split; [exact S|].
  destruct (c29_binomial lg_ex 4 (1/4) d 2 lg_ex_factorial H ltac:(lra) S) as (E & _ & E').
  rewrite E, E'. intros K. injection K as K. replace (C 4 2) with 6 in K.
  - assert (ln 1 < ln 6) by (apply ln_increasing; lra). rewrite ln_1 in *. lra.
  - unfold C. cbn [fact Nat.sub]. rewrite !mult_INR. cbn [fact]. simpl. lra.
Qed.
Print Assumptions C29_binomial_paths_agree_refuted.

(** Poisson: the direct path is the textbook log-mass.  The exponential-family
    path uses the factorial table and Stirling's series; its distance is that of
    [log_factorial] from ln k!, bounded in C40. *)
Theorem C29_poisson : forall lg l d k, poisson_new (fin lg l) = Some d ->
  poisson_ld d k = Fin (ln (poisson_pmf l k)).
Proof. exact c29_poisson. Qed.
Print Assumptions C29_poisson.
Theorem C29_poisson_family_path : forall lg l d k v, poisson_new (fin lg l) = Some d ->
  (log_factorial k : XR lg) = Fin v ->
  ef_density (poisson_expfam d) k = Fin (ln (poisson_pmf l k) + (ln (INR (fact k)) - v)) /\
  zero_overhead (poisson_expfam d) k = Fin (ln (poisson_pmf l k) + (ln (INR (fact k)) - v)).
Proof. exact c29_poisson_ef. Qed.
Print Assumptions C29_poisson_family_path.
Example C29_poisson_case : exists d, poisson_new (fin ln 3) = Some d.
Proof. eexists. unfold poisson_new. rewrite x_ltb0, Rltb_t by lra. reflexivity. Qed.

(** Geometric: direct is the textbook log-mass (trials until the first success);
    the exponential-family path is off by ln(1-p). *)
Theorem C29_geometric : forall lg p d k,
  geometric_new (fin lg p) = Some d -> p < 1 -> geometric_support d k = true ->
  geometric_ld d k = Fin (ln (geometric_pmf p k)) /\
  ef_density (geometric_expfam d) k = Fin (ln (geometric_pmf p k) + ln (1 - p)) /\
  zero_overhead (geometric_expfam d) k = Fin (ln (geometric_pmf p k) + ln (1 - p)).
Proof. exact c29_geometric. Qed.
Print Assumptions C29_geometric.
Lemma geometric_ok lg p : 0 < p <= 1 -> geometric_new (fin lg p) = Some (@mkGeometric (XR lg) (Fin p)).
Proof.
  intros H. unfold geometric_new. replace (_ && _) with true; [reflexivity|].
  symmetry. apply x_geo_iff. cbn. lra.
Qed.
Example C29_geometric_case : exists d, geometric_new (fin ln (1/3)) = Some d /\ geometric_support d 4 = true.
Proof. eexists. split; [apply geometric_ok; lra|reflexivity]. Qed.
Theorem C29_geometric_paths_agree_refuted : exists p d k,
  geometric_new (fin ln p) = Some d /\ geometric_support d k = true /\
  geometric_ld d k <> ef_density (geometric_expfam d) k.
Proof.
  destruct C29_geometric_case as (d & H & S). exists (1/3), d, 4%nat. split; [exact H|]. split; [exact S|].
  destruct (c29_geometric ln (1/3) d 4 H ltac:(lra) S) as (E & E' & _).
  rewrite E, E'. intros K. injection K as K.
  assert (ln (1 - 1/3) < ln 1) by (apply ln_increasing; lra). rewrite ln_1 in *. lra.
Qed.
Print Assumptions C29_geometric_paths_agree_refuted.
(** With p = 1 the direct path is NaN at the only possible outcome. *)
Theorem C29_geometric_certain_refuted : forall lg, exists d,
  geometric_new (fin lg 1) = Some d /\ geometric_support d 1 = true /\ geometric_ld d 1 = XNaN.
Proof.
  intros lg. eexists. split; [apply geometric_ok; lra|]. split; [reflexivity|].
  exact (geometric_direct_one lg 1 (le_n _)).
Qed.
Print Assumptions C29_geometric_certain_refuted.

(** Negative binomial: neither path is a textbook log-mass; both differences are exact. *)
Theorem C29_negative_binomial : forall lg r p d k, lg_factorial lg ->
  negbinomial_new r (fin lg p) = Some d ->
  negbinomial_ld d k = Fin (ln (negbinomial_pmf r (1 - p) k) - ln (C (k + r - 1) k)) /\
  ef_density (negbinomial_expfam d) k = Fin (ln (negbinomial_pmf r p k) - INR k * ln (1 - p)) /\
  zero_overhead (negbinomial_expfam d) k = Fin (ln (negbinomial_pmf r p k) - INR k * ln (1 - p)).
Proof. exact c29_negbinomial. Qed.
Print Assumptions C29_negative_binomial.
Lemma negbinomial_ok lg r p : (0 < r)%nat -> 0 < p < 1 ->
  negbinomial_new r (fin lg p) = Some (@mkNegBinomial (XR lg) r (Fin p)).
Proof.
  intros Rp H. unfold negbinomial_new. apply Nat.ltb_lt in Rp. rewrite Rp.
  replace (_ && _) with true; [reflexivity|]. symmetry. apply x_nb_iff. eauto.
Qed.
Theorem C29_negative_binomial_paths_agree_refuted : exists r p d k,
  negbinomial_new r (fin lg_ex p) = Some d /\ negbinomial_support d k = true /\
  negbinomial_ld d k <> ef_density (negbinomial_expfam d) k.
Proof.
  assert (H : negbinomial_new 1 (fin lg_ex (1/4)) = Some (@mkNegBinomial (XR lg_ex) 1 (Fin (1/4))))
    by (apply negbinomial_ok; [lia|lra]).
  exists 1%nat, (1/4), (@mkNegBinomial (XR lg_ex) 1 (Fin (1/4))), 0%nat. split; [exact H|]. split; [reflexivity|].
  destruct (c29_negbinomial lg_ex 1 (1/4) _ 0 lg_ex_factorial H) as (E & E' & _).
  rewrite E, E', !ln_negbinomial_pmf by (try lia; lra). intros K. injection K as K.
  replace (1 - (1 - 1/4)) with (1/4) in K by lra. replace (1 - 1/4) with (3/4) in K by lra.
  assert (ln (1/4) < ln (3/4)) by (apply ln_increasing; lra).
  change (0 + 1 - 1)%nat with 0%nat in K. cbn [INR] in K.
  replace (C 0 0) with 1 in K by (unfold C; cbn; lra). rewrite ln_1 in K. lra.
Qed.
Print Assumptions C29_negative_binomial_paths_agree_refuted.

(** Categorical, all probabilities positive: the paths differ by the logarithm
    of the sum of the probabilities, at most 2e-10; not at all when they sum to one. *)
Theorem C29_categorical : forall lg qs l d k,
  categorical_new (fins (qs ++ [l]) : list (XR lg)) = Some d ->
  Forall (fun p => 0 < p) (qs ++ [l]) -> categorical_support d k = true ->
  categorical_ld d k = Fin (ln (categorical_pmf (qs ++ [l]) k)) /\
  ef_density (categorical_expfam d) k = Fin (ln (categorical_pmf (qs ++ [l]) k) - ln (Rsum (qs ++ [l]))) /\
  zero_overhead (categorical_expfam d) k = Fin (ln (categorical_pmf (qs ++ [l]) k) - ln (Rsum (qs ++ [l]))) /\
  Rabs (ln (Rsum (qs ++ [l]))) <= 2 / 10 ^ 10.
Proof. exact c29_categorical_close. Qed.
Print Assumptions C29_categorical.
Example C29_categorical_case : exists d,
  categorical_new (fins ([1/2; 1/3] ++ [1/6]) : list (XR ln)) = Some d /\ categorical_support d 2 = true.
Proof.
  destruct (proj2 (categorical_new_iff ln ([1/2; 1/3] ++ [1/6]))) as [d E].
  - split; [discriminate|]. split; [repeat constructor; lra|].
    cbn [app]. unfold Rsum. cbn [fold_right].
    replace (1 / 2 + (1 / 3 + (1 / 6 + 0)) - 1) with 0 by lra. rewrite Rabs_R0. apply Rinv_0_lt_compat, pow_lt; lra.
  - exists d. split; [exact E|]. apply categorical_new_keeps in E. unfold categorical_support. rewrite E. reflexivity.
Qed.
(** A zero probability before the last one makes the exponential-family path
    NaN at the other categories. *)
Theorem C29_categorical_zero_refuted : forall lg, exists d,
  categorical_new (fins [0; 1/2; 1/2] : list (XR lg)) = Some d /\
  categorical_ld d 1 = Fin (ln (1/2)) /\ ef_density (categorical_expfam d) 1%nat = XNaN.
Proof. exact categorical_zero. Qed.
Print Assumptions C29_categorical_zero_refuted.

(** * C30: natural parameters.  [returns] means: does not panic. *)
Theorem C30_normal : forall lg m s d, normal_new (fin lg m) (fin lg s) = Some d ->
  normal_from_natural (to_natural (normal_expfam d)) = Some d.
Proof. exact normal_round. Qed.
Print Assumptions C30_normal.
Theorem C30_normal_converse : forall lg e1 e2,
  (returns (normal_from_natural [fin lg e1; fin lg e2]) <-> e2 < 0) /\
  forall d, normal_from_natural [fin lg e1; fin lg e2] = Some d ->
            to_natural (normal_expfam d) = [fin lg e1; fin lg e2].
Proof. intros. split; [apply normal_admissible|apply normal_back]. Qed.
Print Assumptions C30_normal_converse.

Theorem C30_exponential : forall lg l d, exponential_new (fin lg l) = Some d ->
  exponential_from_natural (to_natural (exponential_expfam d)) = Some d.
Proof. exact exponential_round. Qed.
Print Assumptions C30_exponential.
Theorem C30_exponential_converse : forall lg e,
  (returns (exponential_from_natural [fin lg e]) <-> e < 0) /\
  forall d, exponential_from_natural [fin lg e] = Some d -> to_natural (exponential_expfam d) = [fin lg e].
Proof. intros. split; [apply exponential_admissible|apply exponential_back]. Qed.
Print Assumptions C30_exponential_converse.

Theorem C30_gamma : forall lg a b d, gamma_new (fin lg a) (fin lg b) = Some d ->
  gamma_from_natural (to_natural (gamma_expfam d)) = Some d.
Proof. exact gamma_round. Qed.
Print Assumptions C30_gamma.
Theorem C30_gamma_converse : forall lg e1 e2,
  (returns (gamma_from_natural [fin lg e1; fin lg e2]) <-> -1 < e1 /\ e2 < 0) /\
  forall d, gamma_from_natural [fin lg e1; fin lg e2] = Some d ->
            to_natural (gamma_expfam d) = [fin lg e1; fin lg e2].
Proof. intros. split; [apply gamma_admissible|apply gamma_back]. Qed.
Print Assumptions C30_gamma_converse.

Theorem C30_beta : forall lg a b d, beta_new (fin lg a) (fin lg b) = Some d ->
  beta_from_natural (to_natural (beta_expfam d)) = Some d.
Proof. exact beta_round. Qed.
Print Assumptions C30_beta.
Theorem C30_beta_converse : forall lg e1 e2,
  (returns (beta_from_natural [fin lg e1; fin lg e2]) <-> -1 < e1 /\ -1 < e2) /\
  forall d, beta_from_natural [fin lg e1; fin lg e2] = Some d ->
            to_natural (beta_expfam d) = [fin lg e1; fin lg e2].
Proof. intros. split; [apply beta_admissible|apply beta_back]. Qed.
Print Assumptions C30_beta_converse.

Theorem C30_chi_squared : forall lg k d, chi_new (fin lg k) = Some d ->
  chi_from_natural (to_natural (chi_expfam d)) = Some d.
Proof. exact chi_round. Qed.
Print Assumptions C30_chi_squared.
(** Only the first coordinate is looked at; the second comes back as -1/2. *)
Theorem C30_chi_squared_converse : forall lg e1 e2,
  (returns (chi_from_natural [fin lg e1; fin lg e2]) <-> -1 < e1) /\
  forall d, chi_from_natural [fin lg e1; fin lg e2] = Some d ->
            to_natural (chi_expfam d) = [fin lg e1; fin lg (- (1 / 2))].
Proof. intros. split; [apply chi_admissible|apply chi_back]. Qed.
Print Assumptions C30_chi_squared_converse.

Theorem C30_bernoulli : forall lg p d, 0 < p < 1 -> bernoulli_new (fin lg p) = Some d ->
  bernoulli_from_natural (to_natural (bernoulli_expfam d)) = Some d.
Proof. exact bernoulli_round. Qed.
Print Assumptions C30_bernoulli.
Theorem C30_bernoulli_converse : forall lg e, returns (bernoulli_from_natural [fin lg e]) /\
  forall d, bernoulli_from_natural [fin lg e] = Some d -> to_natural (bernoulli_expfam d) = [fin lg e].
Proof. intros. split; [apply bernoulli_admissible|apply bernoulli_back]. Qed.
Print Assumptions C30_bernoulli_converse.

Theorem C30_poisson : forall lg l d, poisson_new (fin lg l) = Some d ->
  poisson_from_natural (to_natural (poisson_expfam d)) = Some d.
Proof. exact poisson_round. Qed.
Print Assumptions C30_poisson.
Theorem C30_poisson_converse : forall lg e, returns (poisson_from_natural [fin lg e]) /\
  forall d, poisson_from_natural [fin lg e] = Some d -> to_natural (poisson_expfam d) = [fin lg e].
Proof. intros. split; [apply poisson_admissible|apply poisson_back]. Qed.
Print Assumptions C30_poisson_converse.

Theorem C30_geometric : forall lg p d, p < 1 -> geometric_new (fin lg p) = Some d ->
  geometric_from_natural (to_natural (geometric_expfam d)) = Some d.
Proof. exact geometric_round. Qed.
Print Assumptions C30_geometric.
Theorem C30_geometric_converse : forall lg e, (returns (geometric_from_natural [fin lg e]) <-> e < 0) /\
  forall d, geometric_from_natural [fin lg e] = Some d -> to_natural (geometric_expfam d) = [fin lg e].
Proof. intros. split; [apply geometric_admissible|apply geometric_back]. Qed.
Print Assumptions C30_geometric_converse.

Theorem C30_categorical : forall lg qs l d, 0 < l -> Forall (fun p => 0 < p) qs -> Rsum (qs ++ [l]) = 1 ->
  categorical_new (fins (qs ++ [l]) : list (XR lg)) = Some d ->
  categorical_from_natural (to_natural (categorical_expfam d)) = Some d.
Proof. exact categorical_round. Qed.
Print Assumptions C30_categorical.
Theorem C30_categorical_converse : forall lg eta, returns (categorical_from_natural (fins eta : list (XR lg))) /\
  forall d, categorical_from_natural (fins eta : list (XR lg)) = Some d ->
            to_natural (categorical_expfam d) = (fins eta : list (XR lg)).
Proof. intros. split; [apply categorical_admissible|apply categorical_back]. Qed.
Print Assumptions C30_categorical_converse.

(** Binomial and NegativeBinomial cannot be rebuilt from natural parameters. *)
Theorem C30_binomial_families_refuted : forall (N : Num) (eta : list N),
  ~ returns (binomial_from_natural eta) /\ ~ returns (negbinomial_from_natural eta).
Proof. intros N eta. split; intros [d E]; discriminate E. Qed.
Print Assumptions C30_binomial_families_refuted.
(** The admissible set and the round trip need p < 1 (Geometric), 0 < p < 1 (Bernoulli). *)
Theorem C30_geometric_certain_refuted : forall lg, exists d,
  geometric_new (fin lg 1) = Some d /\
  geometric_from_natural (to_natural (geometric_expfam d)) = Some d /\
  to_natural (geometric_expfam d) = [NInf].
Proof. exact geometric_certain_round. Qed.
Print Assumptions C30_geometric_certain_refuted.

(** * C33: support and density *)

(** Outside the support the direct log-density is minus infinity; in every
    arithmetic, so also for NaN and infinite points in binary64. *)
Theorem C33_outside_the_support_direct : forall (N : Num) (x : N) (k : nat),
  (forall d, exponential_support d x = false -> exponential_ld d x = nninf) /\
  (forall d, gamma_support d x = false -> gamma_ld d x = nninf) /\
  (forall d, beta_support d x = false -> beta_ld d x = nninf) /\
  (forall d, chi_support d x = false -> chi_ld d x = nninf) /\
  (forall d : Bernoulli N, bernoulli_support d k = false -> bernoulli_ld d k = nninf) /\
  (forall d : Binomial N, binomial_support d k = false -> binomial_ld d k = nninf) /\
  (forall d : Geometric N, geometric_support d k = false -> geometric_ld d k = nninf) /\
  (forall d : Categorical N, categorical_support d k = false -> categorical_ld d k = nninf).
Proof. exact @outside_direct. Qed.
Print Assumptions C33_outside_the_support_direct.

(** The remaining families are supported everywhere. *)
Theorem C33_supported_everywhere : forall (N : Num) (x : N) (k : nat),
  (forall d, normal_support d x = true) /\ stdnormal_support x = true /\
  (forall d, student_support d x = true) /\ (forall d, cauchy_support d x = true) /\
  (forall d : Poisson N, poisson_support d k = true) /\ (forall d : NegBinomial N, negbinomial_support d k = true).
Proof. intros; repeat split. Qed.
Print Assumptions C33_supported_everywhere.

(** The supports are the textbook ones, for any real number, infinity or NaN. *)
Theorem C33_supports : forall lg (x : XR lg) k,
  (forall d, exponential_support d x = true <-> x = PInf \/ exists r, x = Fin r /\ 0 <= r) /\
  (forall d, gamma_support d x = true <-> xpos x) /\
  (forall d, chi_support d x = true <-> xpos x) /\
  (forall d, beta_support d x = true <-> exists r, x = Fin r /\ 0 < r < 1) /\
  (forall d : Bernoulli (XR lg), bernoulli_support d k = true <-> k = 0%nat \/ k = 1%nat) /\
  (forall d : Binomial (XR lg), binomial_support d k = true <-> (k <= bi_n d)%nat) /\
  (forall d : Geometric (XR lg), geometric_support d k = true <-> (1 <= k)%nat) /\
  (forall d : Categorical (XR lg), categorical_support d k = true <-> (k < length (ca_probs d))%nat).
Proof. exact supports. Qed.
Print Assumptions C33_supports.

(** Inside, at finite points and for parameters in the open range, the direct
    log-density is a real number: the density is positive. *)
Theorem C33_positive_inside : forall lg (x : R) (k : nat),
  (forall m s d, normal_new (fin lg m) (fin lg s) = Some d -> finite (normal_ld d (fin lg x))) /\
  (forall l d, exponential_new (fin lg l) = Some d -> exponential_support d (fin lg x) = true ->
     finite (exponential_ld d (fin lg x))) /\
  (forall a b d, gamma_new (fin lg a) (fin lg b) = Some d -> gamma_support d (fin lg x) = true ->
     finite (gamma_ld d (fin lg x))) /\
  (forall a b d, beta_new (fin lg a) (fin lg b) = Some d -> beta_support d (fin lg x) = true ->
     finite (beta_ld d (fin lg x))) /\
  (forall q d, chi_new (fin lg q) = Some d -> chi_support d (fin lg x) = true -> finite (chi_ld d (fin lg x))) /\
  (forall q d, student_new (fin lg q) = Some d -> finite (student_ld d (fin lg x))) /\
  (forall m s d, cauchy_new (fin lg m) (fin lg s) = Some d -> finite (cauchy_ld d (fin lg x))) /\
  (forall p d, bernoulli_new (fin lg p) = Some d -> 0 < p < 1 -> bernoulli_support d k = true ->
     finite (bernoulli_ld d k)) /\
  (forall n p d, binomial_new n (fin lg p) = Some d -> 0 < p < 1 -> binomial_support d k = true ->
     finite (binomial_ld d k)) /\
  (forall l d, poisson_new (fin lg l) = Some d -> finite (poisson_ld d k)) /\
  (forall p d, geometric_new (fin lg p) = Some d -> p < 1 -> geometric_support d k = true ->
     finite (geometric_ld d k)) /\
  (forall r p d, negbinomial_new r (fin lg p) = Some d -> finite (negbinomial_ld d k)) /\
  (forall ps d, categorical_new (fins ps : list (XR lg)) = Some d -> Forall (fun p => 0 < p) ps ->
     categorical_support d k = true -> finite (categorical_ld d k)).
Proof. exact positive_inside. Qed.
Print Assumptions C33_positive_inside.

(** On the exponential-family path only Binomial and Categorical are minus
    infinity outside the support. *)
Theorem C33_outside_on_the_family_path : forall lg k,
  (forall n p d, binomial_new n (fin lg p) = Some d -> 0 < p < 1 -> binomial_support d k = false ->
     ef_density (binomial_expfam d) k = NInf) /\
  (forall d : Categorical (XR lg), categorical_support d k = false ->
     ef_density (categorical_expfam d) k = NInf).
Proof. exact outside_family. Qed.
Print Assumptions C33_outside_on_the_family_path.
Theorem C33_family_path_ignores_the_support_refuted : forall lg,
  (exists d, exponential_new (fin lg 1) = Some d /\ exponential_support d (fin lg (-1)) = false /\
     ef_density (exponential_expfam d) (fin lg (-1)) = Fin 1) /\
  (exists d, gamma_new (fin lg 2) (fin lg 1) = Some d /\ gamma_support d (fin lg (-1)) = false /\
     ef_density (gamma_expfam d) (fin lg (-1)) = XNaN) /\
  (exists d, beta_new (fin lg 2) (fin lg 2) = Some d /\ beta_support d (fin lg 2) = false /\
     ef_density (beta_expfam d) (fin lg 2) = XNaN) /\
  (exists d, bernoulli_new (fin lg (1/2)) = Some d /\ bernoulli_support d 2 = false /\
     finite (ef_density (bernoulli_expfam d) 2%nat)) /\
  (exists d, geometric_new (fin lg (1/2)) = Some d /\ geometric_support d 0 = false /\
     finite (ef_density (geometric_expfam d) 0%nat)).
Proof. exact family_path_support. Qed.
Print Assumptions C33_family_path_ignores_the_support_refuted.
(** Boundary parameters: in the support, yet NaN (Binomial p = 0) or minus infinity (Bernoulli). *)
Theorem C33_boundary_parameters_refuted : forall lg,
  (exists d, binomial_new 3 (fin lg 0) = Some d /\ binomial_support d 0 = true /\ binomial_ld d 0 = XNaN) /\
  (exists d, bernoulli_new (fin lg 0) = Some d /\ bernoulli_support d 1 = true /\ bernoulli_ld d 1 = NInf).
Proof. exact boundary_parameters. Qed.
Print Assumptions C33_boundary_parameters_refuted.

(** * C34: constructors *)

(** Exact arithmetic with infinities and NaN: every argument. *)
Theorem C34_constructors : forall lg (a b : XR lg) (n : nat),
  (returns (normal_new a b) <-> xpos b) /\
  (returns (exponential_new a) <-> xpos a) /\
  (returns (gamma_new a b) <-> xpos a /\ xpos b) /\
  (returns (beta_new a b) <-> xpos a /\ xpos b) /\
  (returns (chi_new a) <-> xpos a) /\
  (returns (student_new a) <-> xpos a) /\
  (returns (cauchy_new a b) <-> xpos b) /\
  (returns (bernoulli_new a) <-> xprob a) /\
  (returns (binomial_new n a) <-> xprob a) /\
  (returns (poisson_new a) <-> xpos a) /\
  (returns (geometric_new a) <-> xprob a /\ xpos a) /\
  (returns (negbinomial_new n a) <-> (0 < n)%nat /\ exists p, a = Fin p /\ 0 < p < 1).
Proof. exact ctors_x. Qed.
Print Assumptions C34_constructors.

(** Binary64: every float, including NaN, infinities, signed zeros and subnormals. *)
Theorem C34_constructors_in_binary64 : forall (L : libm) (a b : b64) (n : nat),
  let f (v : b64) : F64 L := B2SF v in
  (returns (normal_new (f a) (f b)) <-> bpos b) /\
  (returns (exponential_new (f a)) <-> bpos a) /\
  (returns (gamma_new (f a) (f b)) <-> bpos a /\ bpos b) /\
  (returns (beta_new (f a) (f b)) <-> bpos a /\ bpos b) /\
  (returns (chi_new (f a)) <-> bpos a) /\
  (returns (student_new (f a)) <-> bpos a) /\
  (returns (cauchy_new (f a) (f b)) <-> bpos b) /\
  (returns (bernoulli_new (f a)) <-> bprob a) /\
  (returns (binomial_new n (f a)) <-> bprob a) /\
  (returns (poisson_new (f a)) <-> bpos a) /\
  (returns (geometric_new (f a)) <-> is_finite a = true /\ 0 < B2R a <= 1) /\
  (returns (negbinomial_new n (f a)) <-> (0 < n)%nat /\ is_finite a = true /\ 0 < B2R a < 1).
Proof. exact ctors_f. Qed.
Print Assumptions C34_constructors_in_binary64.

(** What was passed is what is stored, bit for bit. *)
Theorem C34_parameters_are_kept : forall (N : Num) (a b : N) (n : nat),
  (forall d, normal_new a b = Some d -> normal_params d = (a, b)) /\
  (forall d, exponential_new a = Some d -> e_rate d = a) /\
  (forall d, gamma_new a b = Some d -> g_shape d = a /\ g_rate d = b) /\
  (forall d, beta_new a b = Some d -> b_alpha d = a /\ b_beta d = b) /\
  (forall d, chi_new a = Some d -> c_k d = a) /\
  (forall d, student_new a = Some d -> t_nu d = a) /\
  (forall d, cauchy_new a b = Some d -> c_loc d = a /\ c_scale d = b) /\
  (forall d, bernoulli_new a = Some d -> be_prob d = a) /\
  (forall d, binomial_new n a = Some d -> bi_n d = n /\ bi_prob d = a) /\
  (forall d, poisson_new a = Some d -> p_rate d = a) /\
  (forall d, geometric_new a = Some d -> ge_prob d = a) /\
  (forall d, negbinomial_new n a = Some d -> nb_r d = n /\ nb_prob d = a) /\
  (forall ps d, categorical_new ps = Some d -> ca_probs d = (ps : list N)).
Proof. exact @params_kept. Qed.
Print Assumptions C34_parameters_are_kept.

Theorem C34_categorical : forall lg ps, returns (categorical_new (fins ps : list (XR lg))) <->
  ps <> [] /\ Forall (fun p => 0 <= p) ps /\ Rabs (Rsum ps - 1) < / 10 ^ 10.
Proof. exact categorical_new_iff. Qed.
Print Assumptions C34_categorical.
Theorem C34_uniform_categorical : forall lg k,
  (returns (categorical_uniform k : option (Categorical (XR lg))) <-> (0 < k)%nat) /\
  forall d, categorical_uniform k = Some d -> ca_probs d = (fins (repeat (/ INR k) k) : list (XR lg)).
Proof. intros. split; [apply categorical_uniform_iff|apply categorical_uniform_probs]. Qed.
Print Assumptions C34_uniform_categorical.
Theorem C34_mixture : forall lg T (cs : list (Measure (XR lg) T)) ws,
  returns (mixture_new cs (fins ws : list (XR lg))) <-> length cs = length ws /\ Rabs (Rsum ws - 1) < / 10 ^ 10.
Proof. exact @mixture_new_iff. Qed.
Print Assumptions C34_mixture.
Theorem C34_uniform_mixture : forall lg T (cs : list (Measure (XR lg) T)),
  returns (mixture_uniform cs) <-> cs <> [].
Proof. exact @mixture_uniform_iff. Qed.
Print Assumptions C34_uniform_mixture.

(** The checks are weaker than "a probability distribution": NaN and infinite
    locations, infinite scales and negative mixture weights get through. *)
Theorem C34_invalid_parameters_accepted_refuted : forall (L : libm),
  returns (normal_new (S754_nan : F64 L) (n1 : F64 L)) /\
  returns (cauchy_new (S754_infinity true : F64 L) (n1 : F64 L)) /\
  returns (normal_new (n0 : F64 L) (S754_infinity false : F64 L)) /\
  returns (exponential_new (S754_infinity false : F64 L)).
Proof.
  intros L. destruct (B2R_one L) as (o & E & F & V).
  assert (O : @nltb (F64 L) n0 n1 = true).
  { rewrite <- E. apply f_pos_iff. right. rewrite V. split; [exact F|lra]. }
  assert (I : @nltb (F64 L) n0 (B2SF (B754_infinity false : b64)) = true) by (apply f_pos_iff; left; reflexivity).
  unfold normal_new, cauchy_new, exponential_new.
  split; [apply returns_if; exact O|]. split; [apply returns_if; exact O|].
  split; apply returns_if; exact I.
Qed.
Print Assumptions C34_invalid_parameters_accepted_refuted.
Theorem C34_negative_weights_accepted_refuted : forall lg T (m : Measure (XR lg) T),
  returns (mixture_new [m; m] (fins [2; -1] : list (XR lg))).
Proof.
  intros lg T m. apply mixture_new_iff. split; [reflexivity|]. unfold Rsum. cbn [fold_right].
  replace (2 + (-1 + 0) - 1) with 0 by lra. rewrite Rabs_R0. apply Rinv_0_lt_compat, pow_lt; lra.
Qed.
Print Assumptions C34_negative_weights_accepted_refuted.

(** The scale constructor of the gamma distribution: same validation, and the
    scale it is given is the scale it reports and integrates with. *)
Theorem C34_gamma_from_shape_scale : forall lg a th,
  (returns (gamma_from_shape_scale (fin lg a) (fin lg th)) <-> 0 < a /\ 0 <= th) /\
  (forall d, 0 < th -> gamma_from_shape_scale (fin lg a) (fin lg th) = Some d ->
     g_shape d = Fin a /\ g_rate d = Fin (/ th) /\ gamma_scale d = Fin th /\
     forall x, 0 < x -> gamma_ld d (fin lg x) = Fin (ln (gamma_pdf lg a (/ th) x))).
Proof. exact gamma_shape_scale. Qed.
Print Assumptions C34_gamma_from_shape_scale.
(** A zero scale is accepted, as an infinite rate. *)
Theorem C34_gamma_zero_scale_accepted_refuted : forall lg a, 0 < a -> exists d,
  gamma_from_shape_scale (fin lg a) (fin lg 0) = Some d /\ g_rate d = PInf /\
  forall x, 0 < x -> gamma_ld d (fin lg x) = XNaN.
Proof. exact gamma_zero_scale. Qed.
Print Assumptions C34_gamma_zero_scale_accepted_refuted.

(** The closure relative to another measure is the difference of the two
    log-densities; for two normals it is the log of the density ratio. *)
Theorem C29_closure_relative : forall lg (T : Type) (d : ExpFam (XR lg) T) (b : Base (XR lg) T) x f g,
  ef_density d x = Fin (ln f) -> b_ld b x = Fin (ln g) -> 0 < f -> 0 < g ->
  zero_overhead_wrt d b x = Fin (ln (f / g)).
Proof.
  intros lg T d b x f g F G Pf Pg. unfold zero_overhead_wrt. rewrite F, G, ln_quot by assumption. reflexivity.
Qed.
Print Assumptions C29_closure_relative.
Theorem C29_normal_relative_to_normal : forall lg m s m' s' d d' x,
  normal_new (fin lg m) (fin lg s) = Some d -> normal_new (fin lg m') (fin lg s') = Some d' ->
  zero_overhead_wrt (normal_expfam d) (normal_base d') (fin lg x) = Fin (ln (normal_pdf m s x / normal_pdf m' s' x)).
Proof. exact normal_relative. Qed.
Print Assumptions C29_normal_relative_to_normal.
Example C29_normal_relative_case : exists d d', normal_new (fin ln 3) (fin ln 2) = Some d /\
  normal_new (fin ln 0) (fin ln 1) = Some d'.
Proof. eexists. eexists. split; apply normal_new_ok; lra. Qed.
