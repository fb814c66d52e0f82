(** Properties C31 and C35 (discrete part): normalisation and moments.
    [total_mass], [has_mean] and [has_variance] (CombSpec.v) are plain infinite
    sums of exp(log-density) over the naturals; points outside the support have
    log-density -inf and weigh nothing. *)
From Coq Require Import ZArith Reals List Bool Lra Lia Arith.
From Verif Require Import Num XRFacts DensitySpec BuilderProofs CoreModel CoreSpec CoreProofs
  CombModel CombSpec ExpFamModel DistModel DistSpec DistFacts DistProofs DistProofs2 DistProofs3 DistProofs4
  DiscProofs DiscProofs2 FactProofs PropsDist.
Import ListNotations.
Local Open Scope R_scope.
Local Open Scope list_scope.
Local Notation fin lg r := (Fin r : XR lg).

(** * C31: the discrete distributions are normalised. *)
Theorem C31_bernoulli : forall lg p d, bernoulli_new (fin lg p) = Some d -> total_mass (bernoulli_ld d) 1.
Proof. exact bernoulli_total. Qed.
Print Assumptions C31_bernoulli.
Theorem C31_bernoulli_family : forall lg p d, bernoulli_new (fin lg p) = Some d -> 0 < p < 1 ->
  total_mass (on_support (bernoulli_support d) (ef_density (bernoulli_expfam d))) 1.
Proof. exact bernoulli_family_total. Qed.
Print Assumptions C31_bernoulli_family.
Theorem C31_poisson : forall lg l d, poisson_new (fin lg l) = Some d -> total_mass (poisson_ld d) 1.
Proof. exact poisson_direct_total. Qed.
Print Assumptions C31_poisson.
(** The family path uses the table and the Stirling series for ln k!. *)
Theorem C31_poisson_family : forall lg l (d : Poisson (XR lg)), poisson_new (fin lg l) = Some d ->
  exists t, total_mass (ef_density (poisson_expfam d)) t /\ Rabs (t - 1) <= / 10 ^ 14.
Proof. exact poisson_family_total. Qed.
Print Assumptions C31_poisson_family.
Theorem C31_geometric : forall lg p d, geometric_new (fin lg p) = Some d -> p < 1 -> total_mass (geometric_ld d) 1.
Proof. exact geometric_direct_total. Qed.
Print Assumptions C31_geometric.
(** The one remaining valid parameter, p = 1: the only possible outcome has log-density NaN. *)
Theorem C31_geometric_certain_refuted : forall lg, exists d, geometric_new (fin lg 1) = Some d /\
  forall v, ~ total_mass (geometric_ld d) v.
Proof.
  intros lg. eexists. split; [apply geometric_ok; lra|]. intros v [A _]. specialize (A 1%nat).
  rewrite geometric_direct_one in A by lia. destruct A as [[r E]|E]; discriminate E.
Qed.
Print Assumptions C31_geometric_certain_refuted.
(** The family path of the geometric distribution has total 1 - p over the support. *)
Theorem C31_geometric_family_total : forall lg p d, geometric_new (fin lg p) = Some d -> p < 1 ->
  total_mass (on_support (geometric_support d) (ef_density (geometric_expfam d))) (1 - p).
Proof. exact geometric_family_total. Qed.
Print Assumptions C31_geometric_family_total.
Theorem C31_geometric_family_refuted : forall lg p d, geometric_new (fin lg p) = Some d -> p < 1 ->
  ~ total_mass (on_support (geometric_support d) (ef_density (geometric_expfam d))) 1.
Proof.
  intros lg p d H P [_ T]. pose proof (inf_unique _ _ _ T (proj2 (geometric_family_total lg p d H P))).
  apply geometric_new_fin in H. lra.
Qed.
Print Assumptions C31_geometric_family_refuted.
Theorem C31_categorical : forall lg ps d, categorical_new (fins ps : list (XR lg)) = Some d ->
  total_mass (categorical_ld d) (Rsum ps) /\ Rabs (Rsum ps - 1) < / 10 ^ 10.
Proof. exact categorical_total. Qed.
Print Assumptions C31_categorical.
Theorem C31_categorical_family : forall lg qs l d, categorical_new (fins (qs ++ [l]) : list (XR lg)) = Some d ->
  Forall (fun p => 0 < p) (qs ++ [l]) -> total_mass (ef_density (categorical_expfam d)) 1.
Proof. exact categorical_family_total. Qed.
Print Assumptions C31_categorical_family.
Theorem C31_binomial_family : forall lg n p d, lg_factorial lg -> binomial_new n (fin lg p) = Some d -> 0 < p < 1 ->
  total_mass (ef_density (binomial_expfam d)) 1.
Proof. exact binomial_family_total. Qed.
Print Assumptions C31_binomial_family.
(** The direct path of the binomial omits the coefficient: it is normalised only for n <= 1. *)
Theorem C31_binomial_direct : forall lg n p d, binomial_new n (fin lg p) = Some d -> 0 < p < 1 ->
  total_mass (binomial_ld d) 1 <-> (n <= 1)%nat.
Proof. exact binomial_direct_normalised. Qed.
Print Assumptions C31_binomial_direct.
Theorem C31_binomial_direct_refuted : exists n p d, binomial_new n (fin ln p) = Some d /\ 0 < p < 1 /\
  ~ total_mass (binomial_ld d) 1.
Proof.
  exists 2%nat, (1/2). eexists. split; [apply binomial_ok; lra|]. split; [lra|].
  rewrite (binomial_direct_normalised ln 2 (1/2)); [lia|apply binomial_ok; lra|lra].
Qed.
Print Assumptions C31_binomial_direct_refuted.
(** The direct path of the negative binomial omits the coefficient: total p^(r-1). *)
Theorem C31_negative_binomial_direct : forall lg r p d, negbinomial_new r (fin lg p) = Some d ->
  total_mass (negbinomial_ld d) (p ^ (r - 1)) /\ (total_mass (negbinomial_ld d) 1 <-> r = 1%nat).
Proof. intros lg r p d H. split; [apply (negbinomial_direct_total lg r p d H)|apply (negbinomial_direct_normalised lg r p d H)]. Qed.
Print Assumptions C31_negative_binomial_direct.
Theorem C31_negative_binomial_direct_refuted : exists r p d, negbinomial_new r (fin ln p) = Some d /\
  ~ total_mass (negbinomial_ld d) 1.
Proof.
  exists 2%nat, (1/2). eexists. split; [apply negbinomial_ok; [lia|lra]|].
  rewrite (negbinomial_direct_normalised ln 2 (1/2)); [lia|apply negbinomial_ok; [lia|lra]].
Qed.
Print Assumptions C31_negative_binomial_direct_refuted.
(** The family path of the negative binomial has the natural parameter of another family. *)
Theorem C31_negative_binomial_family_total : forall lg r p d, lg_factorial lg ->
  negbinomial_new r (fin lg p) = Some d -> p < 1/2 ->
  total_mass (ef_density (negbinomial_expfam d)) (((1 - p) ^ 2 / (1 - 2 * p)) ^ r).
Proof. exact negbinomial_family_total. Qed.
Print Assumptions C31_negative_binomial_family_total.
Theorem C31_negative_binomial_family_refuted : exists r p d, negbinomial_new r (fin lg_ex p) = Some d /\
  ~ total_mass (ef_density (negbinomial_expfam d)) 1.
Proof.
  exists 1%nat, (1/4). eexists. split; [apply negbinomial_ok; [lia|lra]|]. intros [_ T].
  pose proof (inf_unique _ _ _ T (proj2 (negbinomial_family_total lg_ex 1 (1/4) _ lg_ex_factorial
    (negbinomial_ok lg_ex 1 (1/4) ltac:(lia) ltac:(lra)) ltac:(lra)))) as E. cbn [pow] in E. lra.
Qed.
Print Assumptions C31_negative_binomial_family_refuted.
Example C31_cases : (exists d, bernoulli_new (fin ln (1/4)) = Some d) /\ (exists d, poisson_new (fin ln 3) = Some d) /\
  (exists d, geometric_new (fin ln (1/3)) = Some d) /\ (exists d, binomial_new 4 (fin lg_ex (1/4)) = Some d) /\
  (exists d, negbinomial_new 3 (fin lg_ex (1/4)) = Some d) /\
  (exists d, categorical_new (fins ([1/2; 1/3] ++ [1/6]) : list (XR ln)) = Some d).
Proof.
  split; [eexists; apply prob_ok; lra|]. split; [exact C29_poisson_case|]. split; [eexists; apply geometric_ok; lra|].
  split; [eexists; apply binomial_ok; lra|]. split; [eexists; apply negbinomial_ok; [lia|lra]|].
  destruct C29_categorical_case as (d & E & _). eauto.
Qed.

(** * C35: reported moments are the moments of the density (discrete distributions). *)
Theorem C35_bernoulli : forall lg p d, bernoulli_new (fin lg p) = Some d -> exists m v,
  bernoulli_mean d = Fin m /\ bernoulli_variance d = Fin v /\
  has_mean (bernoulli_ld d) m /\ has_variance (bernoulli_ld d) m v.
Proof. exact bernoulli_moments. Qed.
Print Assumptions C35_bernoulli.
Theorem C35_geometric : forall lg p d, geometric_new (fin lg p) = Some d -> p < 1 -> exists m v,
  geometric_mean d = Fin m /\ geometric_variance d = Fin v /\
  has_mean (geometric_ld d) m /\ has_variance (geometric_ld d) m v.
Proof. exact geometric_moments. Qed.
Print Assumptions C35_geometric.
Theorem C35_categorical : forall lg ps d, categorical_new (fins ps : list (XR lg)) = Some d -> exists m v,
  categorical_mean d = Fin m /\ categorical_variance d = Fin v /\
  has_mean (categorical_ld d) m /\ has_variance (categorical_ld d) m v.
Proof. exact categorical_moments. Qed.
Print Assumptions C35_categorical.
Theorem C35_binomial_family : forall lg n p d, lg_factorial lg -> binomial_new n (fin lg p) = Some d -> 0 < p < 1 -> exists m v,
  binomial_mean d = Fin m /\ binomial_variance d = Fin v /\
  has_mean (ef_density (binomial_expfam d)) m /\ has_variance (ef_density (binomial_expfam d)) m v.
Proof. exact binomial_family_moments. Qed.
Print Assumptions C35_binomial_family.
(** The rate parameter of the Poisson distribution is its mean (there is no accessor). *)
Theorem C35_poisson : forall lg l d, poisson_new (fin lg l) = Some d -> has_mean (poisson_ld d) l.
Proof. exact poisson_direct_mean. Qed.
Print Assumptions C35_poisson.
(** Negative binomial: the reported moments are those of the textbook distribution
    (successes of probability p before the r-th failure) ... *)
Theorem C35_negative_binomial_textbook : forall lg r p d, negbinomial_new r (fin lg p) = Some d -> exists m v,
  negbinomial_mean d = Fin m /\ negbinomial_variance d = Fin v /\
  infinite_sum (negbinomial_pmf r p) 1 /\
  infinite_sum (fun k => INR k * negbinomial_pmf r p k) m /\
  infinite_sum (fun k => (INR k - m) ^ 2 * negbinomial_pmf r p k) v.
Proof. exact negbinomial_textbook_moments. Qed.
Print Assumptions C35_negative_binomial_textbook.
(** ... but not those of the direct log-density, not even for r = 1, where it is
    normalised: there the mean is (1-p)/p, the reported one p/(1-p). *)
Theorem C35_negative_binomial_own_mean : forall lg p d, negbinomial_new 1 (fin lg p) = Some d ->
  has_mean (negbinomial_ld d) ((1 - p) / p) /\ negbinomial_mean d = Fin (p / (1 - p)).
Proof. exact negbinomial_own_mean. Qed.
Print Assumptions C35_negative_binomial_own_mean.
Theorem C35_negative_binomial_refuted : exists r p d m, negbinomial_new r (fin ln p) = Some d /\
  negbinomial_mean d = Fin m /\ ~ has_mean (negbinomial_ld d) m.
Proof.
  exists 1%nat, (1/4). eexists. exists ((1/4) / (1 - 1/4)).
  pose proof (negbinomial_ok ln 1 (1/4) ltac:(lia) ltac:(lra)) as H.
  destruct (negbinomial_own_mean ln (1/4) _ H) as [A B]. split; [exact H|]. split; [exact B|].
  intros A'. pose proof (inf_unique _ _ _ A A') as E. lra.
Qed.
Print Assumptions C35_negative_binomial_refuted.
Theorem C35_binomial_direct_refuted : exists n p d m, binomial_new n (fin ln p) = Some d /\
  binomial_mean d = Fin m /\ ~ has_mean (binomial_ld d) m.
Proof. exact (binomial_direct_mean_wrong ln). Qed.
Print Assumptions C35_binomial_direct_refuted.

(** * C40: combinatorial base measures *)
(** Every k: the table (k <= 20) and the Stirling branch (k >= 21) are within
    4e-15 of ln k!; the Stirling branch never exceeds ln k! and its error is at
    most the first omitted term of the series. *)
Theorem C40_factorial : forall lg k,
  b_support (@factorial_measure (XR lg)) k = true /\
  exists v, b_ld (@factorial_measure (XR lg)) k = Fin (- v) /\ Rabs (v - ln (INR (fact k))) <= 4 / 10 ^ 15 /\
  ((21 <= k)%nat -> 0 <= ln (INR (fact k)) - v <= / (1188 * INR k ^ 9)).
Proof. exact factorial_measure_values. Qed.
Print Assumptions C40_factorial.
Theorem C40_binomial_coefficient : forall lg n k, lg_factorial lg ->
  (b_support (@binomial_measure (XR lg) n) k = true <-> (k <= n)%nat) /\
  b_ld (@binomial_measure (XR lg) n) k = if Nat.leb k n then Fin (ln (Binomial.C n k)) else NInf.
Proof. exact binomial_measure_values. Qed.
Print Assumptions C40_binomial_coefficient.
Theorem C40_negative_binomial_coefficient : forall lg r k, lg_factorial lg -> (0 < r)%nat ->
  b_support (@negative_binomial_measure (XR lg) r) k = true /\
  b_ld (@negative_binomial_measure (XR lg) r) k = Fin (ln (Binomial.C (k + r - 1) k)).
Proof. exact negative_binomial_measure_values. Qed.
Print Assumptions C40_negative_binomial_coefficient.
(** Consequence for the Poisson family path. *)
Theorem C40_poisson_family_path_close : forall lg l (d : Poisson (XR lg)) k, poisson_new (fin lg l) = Some d -> exists v,
  ef_density (poisson_expfam d) k = Fin v /\ Rabs (v - ln (poisson_pmf l k)) <= 4 / 10 ^ 15.
Proof. exact poisson_family_close. Qed.
Print Assumptions C40_poisson_family_path_close.
Example C40_cases : lg_factorial lg_ex /\ Binomial.C 4 2 = 6 /\ INR (fact 5) = 120.
Proof.
  split; [exact lg_ex_factorial|]. split; [unfold Binomial.C; cbn [fact Nat.sub]; rewrite !mult_INR; simpl; lra|].
  rewrite INR_IZR_INZ. reflexivity.
Qed.
