(** Log-partitions generate means and variances (C63). *)
From Coq Require Import Reals List Bool Lra Lia.
From Verif Require Import Num DensitySpec CoreModel CoreSpec CombModel ExpFamModel DistModel DistSpec XRFacts DistFacts DistProofs DistProofs2 DistProofs3 ExpFamSpec CumSpec CumProofs.
Import ListNotations.
Local Open Scope R_scope.

(** * C63: families whose log-partition is right *)
Theorem C63_bernoulli : forall lg p d, @bernoulli_new (XR lg) (Fin p) = Some d -> 0 < p < 1 ->
  exists eta m v, to_natural (bernoulli_expfam d) = [Fin eta] /\ log_partition (bernoulli_expfam d) = Fin (bernoulli_partition eta) /\
    bernoulli_mean d = Fin m /\ bernoulli_variance d = Fin v /\ cumulants everywhere bernoulli_partition eta m v.
Proof. exact cum_bernoulli. Qed.
Print Assumptions C63_bernoulli.
Theorem C63_binomial : forall lg n p d, @binomial_new (XR lg) n (Fin p) = Some d -> 0 < p < 1 ->
  exists eta m v, to_natural (binomial_expfam d) = [Fin eta] /\ log_partition (binomial_expfam d) = Fin (INR n * bernoulli_partition eta) /\
    binomial_mean d = Fin m /\ binomial_variance d = Fin v /\ cumulants everywhere (fun t => INR n * bernoulli_partition t) eta m v.
Proof. exact cum_binomial. Qed.
Print Assumptions C63_binomial.
Theorem C63_poisson : forall lg rate d, @poisson_new (XR lg) (Fin rate) = Some d ->
  exists eta, to_natural (poisson_expfam d) = [Fin eta] /\ log_partition (poisson_expfam d) = Fin (poisson_partition eta) /\
    cumulants everywhere poisson_partition eta rate rate.
Proof. exact cum_poisson. Qed.
Print Assumptions C63_poisson.
(** The statistics are x and x^2, with means mu and mu^2 + variance. *)
Theorem C63_normal : forall lg mu sd d, @normal_new (XR lg) (Fin mu) (Fin sd) = Some d ->
  exists e1 e2 v, to_natural (normal_expfam d) = [Fin e1; Fin e2] /\ log_partition (normal_expfam d) = Fin (normal_partition e1 e2) /\ normal_variance d = Fin v /\
    cumulants everywhere (fun t => normal_partition t e2) e1 mu v /\
    cumulants negative (normal_partition e1) e2 (v + mu ^ 2) (2 * v ^ 2 + 4 * mu ^ 2 * v).
Proof. exact cum_normal. Qed.
Print Assumptions C63_normal.
Theorem C63_standard_normal : forall lg, to_natural (@stdnormal_expfam (XR lg)) = [Fin 0; Fin (- (1 / 2))] /\
  log_partition (@stdnormal_expfam (XR lg)) = Fin (normal_partition 0 (- (1 / 2))).
Proof. exact cum_stdnormal. Qed.
Print Assumptions C63_standard_normal.
(** The statistics are ln x and x; the derivative along the second is the mean of x. *)
Theorem C63_gamma : forall lg a b d, @gamma_new (XR lg) (Fin a) (Fin b) = Some d ->
  exists e1 e2 m v, to_natural (gamma_expfam d) = [Fin e1; Fin e2] /\ log_partition (gamma_expfam d) = Fin (gamma_partition lg e1 e2) /\
    gamma_mean d = Fin m /\ gamma_variance d = Fin v /\ cumulants negative (gamma_partition lg e1) e2 m v.
Proof. exact cum_gamma. Qed.
Print Assumptions C63_gamma.
Theorem C63_chi_squared : forall lg k d, @chi_new (XR lg) (Fin k) = Some d ->
  exists e1 e2 m v, to_natural (chi_expfam d) = [Fin e1; Fin e2] /\ log_partition (chi_expfam d) = Fin (gamma_partition lg e1 e2) /\
    chi_mean d = Fin m /\ chi_variance d = Fin v /\ cumulants negative (gamma_partition lg e1) e2 m v.
Proof. exact cum_chi. Qed.
Print Assumptions C63_chi_squared.
Theorem C63_beta : forall lg a b d, @beta_new (XR lg) (Fin a) (Fin b) = Some d ->
  exists e1 e2, to_natural (beta_expfam d) = [Fin e1; Fin e2] /\ log_partition (beta_expfam d) = Fin (beta_partition lg e1 e2) /\ e1 = a - 1 /\ e2 = b - 1.
Proof. exact cum_beta. Qed.
Print Assumptions C63_beta.
(** For each category but the last: the derivative along its parameter is its
    normalised probability [q / s]. *)
Theorem C63_categorical : forall lg pre q post l d, categorical_new (N := XR lg) (map Fin (pre ++ q :: post ++ [l])) = Some d ->
  Forall (fun p => 0 < p) (pre ++ q :: post ++ [l]) ->
  exists e1 e e2, to_natural (categorical_expfam d) = map Fin (e1 ++ e :: e2) /\ length e1 = length pre /\
    log_partition (categorical_expfam d) = Fin (softmax_partition (e1 ++ e :: e2)) /\
    let s := Rsum (pre ++ q :: post ++ [l]) in
    cumulants everywhere (fun t => softmax_partition (e1 ++ t :: e2)) e (q / s) (q / s * (1 - q / s)).
Proof. exact cum_categorical. Qed.
Print Assumptions C63_categorical.

(** * C63: families whose log-partition is wrong *)
(** Exponential: negated. *)
Theorem C63_exponential_refuted : forall lg rate d, @exponential_new (XR lg) (Fin rate) = Some d ->
  exists eta m v, to_natural (exponential_expfam d) = [Fin eta] /\ log_partition (exponential_expfam d) = Fin (- exponential_partition eta) /\
    exponential_mean d = Fin m /\ exponential_variance d = Fin v /\ cumulants negative exponential_partition eta m v.
Proof. exact cum_exponential. Qed.
Print Assumptions C63_exponential_refuted.
(** Geometric: short by the natural parameter, so its derivative is the mean
    minus one. *)
Theorem C63_geometric_refuted : forall lg p d, @geometric_new (XR lg) (Fin p) = Some d -> p < 1 ->
  exists eta m v, to_natural (geometric_expfam d) = [Fin eta] /\ log_partition (geometric_expfam d) = Fin (geometric_partition eta - eta) /\
    geometric_mean d = Fin m /\ geometric_variance d = Fin v /\ cumulants negative geometric_partition eta m v /\
    cumulants negative (fun t => geometric_partition t - t) eta (m - 1) v.
Proof. exact cum_geometric. Qed.
Print Assumptions C63_geometric_refuted.
(** Negative binomial: the natural parameter is the log-odds instead of ln p and
    the log-partition that of a binomial distribution; its derivatives are the
    mean times 1 - p and the variance times (1 - p)^3. *)
Theorem C63_negative_binomial_refuted : forall lg r p d, @negbinomial_new (XR lg) r (Fin p) = Some d ->
  exists eta m v, to_natural (negbinomial_expfam d) = [Fin eta] /\ log_partition (negbinomial_expfam d) = Fin (INR r * bernoulli_partition eta) /\
    negbinomial_mean d = Fin m /\ negbinomial_variance d = Fin v /\ cumulants negative (negbinomial_partition r) (ln p) m v /\
    cumulants everywhere (fun t => INR r * bernoulli_partition t) eta (m * (1 - p)) (v * (1 - p) ^ 3).
Proof. exact cum_negbinomial. Qed.
Print Assumptions C63_negative_binomial_refuted.

(** * C63: the density is put together from these parts *)
Theorem C63_density_from_parts : forall lg T (d : ExpFam (XR lg) T) x eta t A b, default_form d ->
  to_natural d = map Fin eta -> ef_stat d x = map Fin t -> log_partition d = Fin A -> b_ld (ef_base d) x = Fin b ->
  compute_exp_fam_log_density d x = Fin (rdot eta t - A + b).
Proof. intros lg T. exact (density_formula lg). Qed.
Print Assumptions C63_density_from_parts.
(** Categorical distributions override it: minus infinity outside the support. *)
Theorem C63_categorical_override : forall lg qs l d k, categorical_new (N := XR lg) (map Fin (qs ++ [l])) = Some d ->
  (categorical_support d k = false -> compute_exp_fam_log_density (categorical_expfam d) k = NInf) /\
  (categorical_support d k = true -> Forall (fun p => 0 < p) (qs ++ [l]) ->
   compute_exp_fam_log_density (categorical_expfam d) k = Fin (ln (nth k (qs ++ [l]) 0) - ln (Rsum (qs ++ [l])))).
Proof. exact categorical_api. Qed.
Print Assumptions C63_categorical_override.

(** * Cases *)
Example C63_bernoulli_case : forall lg, exists d eta m v, @bernoulli_new (XR lg) (Fin (1 / 4)) = Some d /\ to_natural (bernoulli_expfam d) = [Fin eta] /\
  log_partition (bernoulli_expfam d) = Fin (bernoulli_partition eta) /\ cumulants everywhere bernoulli_partition eta m v /\ m = 1 / 4 /\ v = 3 / 16.
Proof.
  intros lg. assert (E : @bernoulli_new (XR lg) (Fin (1 / 4)) = Some (@mkBernoulli (XR lg) (Fin (1 / 4)))).
  { unfold bernoulli_new. assert (P : andb (nleb n0 (Fin (1 / 4) : XR lg)) (nleb (Fin (1 / 4) : XR lg) n1) = true) by (apply x_prob_iff; cbn; lra). rewrite P. reflexivity. }
  destruct (C63_bernoulli lg (1 / 4) _ E ltac:(lra)) as (eta & m & v & N & P & M & V & C). exists (@mkBernoulli (XR lg) (Fin (1 / 4))), eta, m, v.
  unfold bernoulli_mean, bernoulli_variance in *. cbn [be_prob] in *. rewrite x_n1 in V. cbn in M, V. injection M as M. injection V as V.
  split; [exact E|]. split; [exact N|]. split; [exact P|]. split; [exact C|]. split; [lra|]. rewrite <- V. lra.
Qed.
Example C63_gamma_case : forall lg, exists d m v e1 e2, @gamma_new (XR lg) (Fin 3) (Fin 2) = Some d /\ to_natural (gamma_expfam d) = [Fin e1; Fin e2] /\
  cumulants negative (gamma_partition lg e1) e2 m v /\ gamma_mean d = Fin m /\ gamma_variance d = Fin v.
Proof.
  intros lg. assert (E : @gamma_new (XR lg) (Fin 3) (Fin 2) = Some (@mkGamma (XR lg) (Fin 3) (Fin 2))).
  { unfold gamma_new. rewrite !x_ltb0, !Rltb_t by lra. reflexivity. }
  destruct (C63_gamma lg 3 2 _ E) as (e1 & e2 & m & v & N & _ & M & V & C). exists (@mkGamma (XR lg) (Fin 3) (Fin 2)), m, v, e1, e2.
  split; [exact E|]. split; [exact N|]. split; [exact C|]. split; assumption.
Qed.
(** At rate 2 the value is ln 2 although it should be - ln 2. *)
Example C63_exponential_case : forall lg, exists d eta, @exponential_new (XR lg) (Fin 2) = Some d /\ to_natural (exponential_expfam d) = [Fin eta] /\
  log_partition (exponential_expfam d) <> Fin (exponential_partition eta).
Proof.
  intros lg. assert (E : @exponential_new (XR lg) (Fin 2) = Some (@mkExponential (XR lg) (Fin 2))).
  { unfold exponential_new. rewrite x_ltb0, Rltb_t by lra. reflexivity. }
  destruct (C63_exponential_refuted lg 2 _ E) as (eta & m & v & N & P & _). exists (@mkExponential (XR lg) (Fin 2)), eta. split; [exact E|]. split; [exact N|].
  rewrite P. intros H. injection H as H. unfold exponential_partition in H. cbn in N. injection N as N. assert (A : - eta = 2) by lra. rewrite A in H. pose proof ln_lt_2. lra.
Qed.
