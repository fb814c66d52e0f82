(** Log-partitions and their derivatives (C63). *)
From Coquelicot Require Import Coquelicot.
From Coq Require Import Reals List Bool Lra Lia Arith.
From Verif Require Import Num XRFacts DensitySpec BuilderProofs CoreModel CoreSpec CoreProofs
  CombModel CombProofs ExpFamModel DistModel DistSpec DistFacts DistProofs DistProofs2 DistProofs3 DistProofs4 ExpFamSpec CumSpec.
Import ListNotations.
Local Open Scope R_scope.
Local Open Scope list_scope.

Lemma lim_of A t l : is_derive A t l -> derivable_pt_lim A t l.
Proof. apply is_derive_Reals. Qed.
Lemma cumulants_ext dom A B eta m v : (forall t, A t = B t) -> cumulants dom A eta m v -> cumulants dom B eta m v.
Proof.
  intros E (A' & D & M & V). exists A'. split; [|split; assumption]. intros t T. apply is_derive_Reals. apply (is_derive_ext A); [exact E|]. apply is_derive_Reals, D, T.
Qed.

(** ** Calculus *)
Lemma shifted b n eta : 1 <= b ->
  cumulants everywhere (fun t => n * ln (b + exp t)) eta (n * (exp eta / (b + exp eta))) (n * (exp eta / (b + exp eta)) * (b / (b + exp eta))).
Proof.
  intros B. exists (fun t => n * (exp t / (b + exp t))). split; [|split; [reflexivity|]].
  - intros t _. pose proof (exp_pos t). apply lim_of. auto_derive; [lra|]. field. lra.
  - pose proof (exp_pos eta). apply lim_of. auto_derive; [lra|]. field. lra.
Qed.
Lemma normal_first e2 e1 : e2 < 0 -> cumulants everywhere (fun t => normal_partition t e2) e1 (e1 / (2 * - e2)) (/ (2 * - e2)).
Proof.
  intros N. exists (fun t => t / (2 * - e2)). unfold normal_partition. split; [|split; [reflexivity|]].
  - intros t _. apply lim_of. auto_derive; [lra|]. field. lra.
  - apply lim_of. auto_derive; [lra|]. field. lra.
Qed.
Lemma normal_second e1 e2 : e2 < 0 ->
  cumulants negative (normal_partition e1) e2 (/ (2 * - e2) + (e1 / (2 * - e2)) ^ 2) (2 * (/ (2 * - e2)) ^ 2 + 4 * (e1 / (2 * - e2)) ^ 2 * / (2 * - e2)).
Proof.
  intros N. exists (fun t => / (2 * - t) + (e1 / (2 * - t)) ^ 2). unfold normal_partition, negative. pose proof PI_RGT_0 as P. split; [|split; [reflexivity|]].
  - intros t T. assert (0 < PI / - t) by (apply Rmult_lt_0_compat; [lra|apply Rinv_0_lt_compat; lra]). apply lim_of. auto_derive; [repeat split; try lra; exact H|]. field. lra.
  - apply lim_of. auto_derive; [repeat split; lra|]. field. lra.
Qed.
Lemma gamma_second lg e1 e2 : e2 < 0 -> cumulants negative (gamma_partition lg e1) e2 ((e1 + 1) / - e2) ((e1 + 1) / (e2 * e2)).
Proof.
  intros N. exists (fun t => (e1 + 1) / - t). unfold gamma_partition, negative. split; [|split; [reflexivity|]].
  - intros t T. apply lim_of. auto_derive; [lra|]. field. lra.
  - apply lim_of. auto_derive; [lra|]. field. lra.
Qed.
Lemma exp_exp eta : cumulants everywhere poisson_partition eta (exp eta) (exp eta).
Proof.
  exists exp. unfold poisson_partition. split; [|split; [reflexivity|]]; [intros t _|]; apply derivable_pt_lim_exp.
Qed.
Lemma expo eta : eta < 0 -> cumulants negative exponential_partition eta (/ - eta) (/ - eta * / - eta).
Proof.
  intros N. exists (fun t => / - t). unfold exponential_partition, negative. split; [|split; [reflexivity|]].
  - intros t T. apply lim_of. auto_derive; [lra|]. field. lra.
  - apply lim_of. auto_derive; [lra|]. field. lra.
Qed.
Lemma exp_lt_1 t : t < 0 -> exp t < 1.
Proof. intros T. rewrite <- exp_0. apply exp_increasing, T. Qed.
Lemma geo eta k n : eta < 0 -> cumulants negative (fun t => k * t - n * ln (1 - exp t)) eta (k + n * (exp eta / (1 - exp eta))) (n * (exp eta / (1 - exp eta) ^ 2)).
Proof.
  intros N. exists (fun t => k + n * (exp t / (1 - exp t))). unfold negative. split; [|split; [reflexivity|]].
  - intros t T. pose proof (exp_lt_1 t T). apply lim_of. auto_derive; [lra|]. field. lra.
  - pose proof (exp_lt_1 eta N). apply lim_of. auto_derive; [lra|]. field. lra.
Qed.

Section D.
Context (lg : R -> R).
Notation X := (XR lg).
Notation fin r := (Fin r : X).
Ltac side := first [ assumption | lra | nra
  | (apply Rgt_not_eq; first [assumption | lra | nra | apply exp_pos])
  | apply exp_pos | apply two_pi_pos
  | (apply Rmult_lt_0_compat; first [assumption | lra | nra | apply two_pi_pos | apply PI_RGT_0 | apply exp_pos]) ].
Ltac xr := xr_with side.
Ltac op := unfold to_natural, log_partition, expfam; cbn [ef_natural ef_partition].

Lemma logit_half p : 0 < p < 1 -> exp (ln (p / (1 - p))) / (1 + exp (ln (p / (1 - p)))) = p /\ 1 / (1 + exp (ln (p / (1 - p)))) = 1 - p.
Proof. intros H. rewrite exp_ln by (apply odds_pos, H). split; field; lra. Qed.

(** ** Families *)
Lemma cum_bernoulli p d : bernoulli_new (fin p) = Some d -> 0 < p < 1 ->
  exists eta m v, to_natural (bernoulli_expfam d) = [fin eta] /\ log_partition (bernoulli_expfam d) = Fin (bernoulli_partition eta) /\
    bernoulli_mean d = Fin m /\ bernoulli_variance d = Fin v /\ cumulants everywhere bernoulli_partition eta m v.
Proof.
  intros E H. apply bernoulli_new_fin in E. destruct E as (_ & ->). exists (ln (p / (1 - p))), p, (p * (1 - p)).
  assert (0 < 1 + exp (ln (p / (1 - p)))) by (pose proof (exp_pos (ln (p / (1 - p)))); lra).
  split; [|split; [|split; [|split]]].
  - unfold bernoulli_expfam. op. cbn [be_prob]. rewrite x_log_odds by exact H. reflexivity.
  - unfold bernoulli_expfam. op. cbn [be_prob]. rewrite x_log_odds by exact H. xr. reflexivity.
  - reflexivity.
  - unfold bernoulli_variance. cbn [be_prob]. xr. reflexivity.
  - destruct (logit_half p H) as [A B]. pose proof (shifted 1 1 (ln (p / (1 - p))) ltac:(lra)) as K. rewrite A, B in K. rewrite !Rmult_1_l in K.
    apply (cumulants_ext _ (fun t => 1 * ln (1 + exp t))); [intros t; unfold bernoulli_partition; ring|exact K].
Qed.
Lemma cum_binomial n p d : binomial_new n (fin p) = Some d -> 0 < p < 1 ->
  exists eta m v, to_natural (binomial_expfam d) = [fin eta] /\ log_partition (binomial_expfam d) = Fin (INR n * bernoulli_partition eta) /\
    binomial_mean d = Fin m /\ binomial_variance d = Fin v /\ cumulants everywhere (fun t => INR n * bernoulli_partition t) eta m v.
Proof.
  intros E H. apply binomial_new_fin in E. destruct E as (_ & ->). exists (ln (p / (1 - p))), (INR n * p), (INR n * p * (1 - p)).
  assert (0 < 1 + exp (ln (p / (1 - p)))) by (pose proof (exp_pos (ln (p / (1 - p)))); lra).
  split; [|split; [|split; [|split]]].
  - unfold binomial_expfam. op. cbn [bi_prob]. rewrite x_log_odds by exact H. reflexivity.
  - unfold binomial_expfam. op. cbn [bi_prob bi_n]. rewrite x_log_odds by exact H. xr. reflexivity.
  - unfold binomial_mean. cbn [bi_prob bi_n]. xr. reflexivity.
  - unfold binomial_variance. cbn [bi_prob bi_n]. xr. reflexivity.
  - destruct (logit_half p H) as [A B]. pose proof (shifted 1 (INR n) (ln (p / (1 - p))) ltac:(lra)) as K. rewrite A, B in K. exact K.
Qed.
Lemma cum_poisson l d : poisson_new (fin l) = Some d ->
  exists eta, to_natural (poisson_expfam d) = [fin eta] /\ log_partition (poisson_expfam d) = Fin (poisson_partition eta) /\ cumulants everywhere poisson_partition eta l l.
Proof.
  intros E. apply poisson_new_fin in E. destruct E as (P & ->). exists (ln l). unfold poisson_expfam. op. cbn [p_rate]. split; [|split].
  - xr. reflexivity.
  - unfold poisson_partition. rewrite exp_ln by exact P. reflexivity.
  - pose proof (exp_exp (ln l)) as K. rewrite exp_ln in K by exact P. exact K.
Qed.
Lemma cum_normal m s d : normal_new (fin m) (fin s) = Some d ->
  exists e1 e2 v, to_natural (normal_expfam d) = [fin e1; fin e2] /\ log_partition (normal_expfam d) = Fin (normal_partition e1 e2) /\ normal_variance d = Fin v /\
    cumulants everywhere (fun t => normal_partition t e2) e1 m v /\ cumulants negative (normal_partition e1) e2 (v + m ^ 2) (2 * v ^ 2 + 4 * m ^ 2 * v).
Proof.
  intros E. apply normal_new_fin in E. destruct E as (P & ->). pose proof two_pi_pos. assert (S : 0 < s * s) by nra. pose proof (Rinv_0_lt_compat _ S) as I.
  exists (m * / (s * s)), (- (1 / 2) * / (s * s)), (s * s). assert (N2 : - (1 / 2) * / (s * s) < 0) by lra.
  assert (V : / (2 * - (- (1 / 2) * / (s * s))) = s * s) by (field; nra). assert (M : m * / (s * s) / (2 * - (- (1 / 2) * / (s * s))) = m) by (field; nra).
  split; [|split; [|split; [|split]]].
  - unfold normal_expfam, normal_variance. op. cbn [n_mean n_sd]. xr. repeat f_equal; field; nra.
  - unfold normal_expfam, normal_variance. op. cbn [n_mean n_sd]. xr. unfold normal_partition. f_equal.
    replace (PI / - (- (1 / 2) * / (s * s))) with (2 * PI * (s * s)) by (field; nra). field. nra.
  - unfold normal_variance. cbn [n_sd]. xr. reflexivity.
  - pose proof (normal_first _ (m * / (s * s)) N2) as K. rewrite V, M in K. exact K.
  - pose proof (normal_second (m * / (s * s)) _ N2) as K. rewrite V, M in K. exact K.
Qed.
Lemma cum_stdnormal : to_natural (stdnormal_expfam (N := X)) = [fin 0; fin (- (1 / 2))] /\ log_partition (stdnormal_expfam (N := X)) = Fin (normal_partition 0 (- (1 / 2))).
Proof.
  pose proof two_pi_pos. unfold stdnormal_expfam. op. split.
  - xr. f_equal. f_equal. f_equal. field.
  - xr. unfold normal_partition. f_equal. replace (PI / - - (1 / 2)) with (2 * PI) by field. field.
Qed.
Lemma cum_gamma a b d : gamma_new (fin a) (fin b) = Some d ->
  exists e1 e2 m v, to_natural (gamma_expfam d) = [fin e1; fin e2] /\ log_partition (gamma_expfam d) = Fin (gamma_partition lg e1 e2) /\
    gamma_mean d = Fin m /\ gamma_variance d = Fin v /\ cumulants negative (gamma_partition lg e1) e2 m v.
Proof.
  intros E. apply gamma_new_fin in E. destruct E as (PA & PB & ->). assert (BB : 0 < b * b) by nra. exists (a - 1), (- b), (a / b), (a / (b * b)).
  split; [|split; [|split; [|split]]].
  - unfold gamma_expfam. op. cbn [g_shape g_rate]. xr. reflexivity.
  - unfold gamma_expfam. op. cbn [g_shape g_rate]. xr. unfold gamma_partition. replace (a - 1 + 1) with a by ring. rewrite Ropp_involutive. reflexivity.
  - unfold gamma_mean. cbn [g_shape g_rate]. xr. reflexivity.
  - unfold gamma_variance. cbn [g_shape g_rate]. xr. reflexivity.
  - pose proof (gamma_second lg (a - 1) (- b) ltac:(lra)) as K. replace (a - 1 + 1) with a in K by ring. rewrite Ropp_involutive in K. replace (- b * - b) with (b * b) in K by ring. exact K.
Qed.
Lemma cum_chi k d : chi_new (fin k) = Some d ->
  exists e1 e2 m v, to_natural (chi_expfam d) = [fin e1; fin e2] /\ log_partition (chi_expfam d) = Fin (gamma_partition lg e1 e2) /\
    chi_mean d = Fin m /\ chi_variance d = Fin v /\ cumulants negative (gamma_partition lg e1) e2 m v.
Proof.
  intros E. apply chi_new_fin in E. destruct E as (P & ->). exists (k / 2 - 1), (- (1 / 2)), k, (2 * k).
  split; [|split; [|split; [|split]]].
  - unfold chi_expfam, chi_shape, chi_rate. op. cbn [c_k]. xr. reflexivity.
  - unfold chi_expfam, chi_shape, chi_rate. op. cbn [c_k]. xr. unfold gamma_partition. replace (k / 2 - 1 + 1) with (k / 2) by ring. rewrite Ropp_involutive.
    replace (1 / 2) with (/ 2) by lra. rewrite ln_Rinv by lra. f_equal. ring.
  - reflexivity.
  - unfold chi_variance. cbn [c_k]. xr. reflexivity.
  - pose proof (gamma_second lg (k / 2 - 1) (- (1 / 2)) ltac:(lra)) as K. replace ((k / 2 - 1 + 1) / - - (1 / 2)) with k in K by field.
    replace ((k / 2 - 1 + 1) / (- (1 / 2) * - (1 / 2))) with (2 * k) in K by field. exact K.
Qed.
Lemma cum_beta a b d : beta_new (fin a) (fin b) = Some d ->
  exists e1 e2, to_natural (beta_expfam d) = [fin e1; fin e2] /\ log_partition (beta_expfam d) = Fin (beta_partition lg e1 e2) /\ e1 = a - 1 /\ e2 = b - 1.
Proof.
  intros E. apply beta_new_fin in E. destruct E as (PA & PB & ->). exists (a - 1), (b - 1). assert (0 < a + b) by lra. unfold beta_expfam. op. cbn [b_alpha b_beta]. split; [|split; [|split; reflexivity]].
  - xr. reflexivity.
  - xr. unfold beta_partition. replace (a - 1 + 1) with a by ring. replace (b - 1 + 1) with b by ring. reflexivity.
Qed.

(** Exponential: the sign is wrong. *)
Lemma cum_exponential l d : exponential_new (fin l) = Some d ->
  exists eta m v, to_natural (exponential_expfam d) = [fin eta] /\ log_partition (exponential_expfam d) = Fin (- exponential_partition eta) /\
    exponential_mean d = Fin m /\ exponential_variance d = Fin v /\ cumulants negative exponential_partition eta m v.
Proof.
  intros E. apply exponential_new_fin in E. destruct E as (P & ->). exists (- l), (/ l), (/ l * / l). split; [|split; [|split; [|split]]].
  - unfold exponential_expfam. op. cbn [e_rate]. xr. reflexivity.
  - unfold exponential_expfam. op. cbn [e_rate]. xr. unfold exponential_partition. rewrite !Ropp_involutive. reflexivity.
  - unfold exponential_mean. cbn [e_rate]. xr. f_equal. field. lra.
  - unfold exponential_variance. cbn [e_rate]. xr. f_equal. field. lra.
  - pose proof (expo (- l) ltac:(lra)) as K. rewrite Ropp_involutive in K. exact K.
Qed.
Lemma ln_fail p : 0 < p < 1 -> ln (1 - p) < 0 /\ exp (ln (1 - p)) = 1 - p.
Proof. intros H. split; [rewrite <- ln_1; apply ln_increasing; lra|apply exp_ln; lra]. Qed.
(** Geometric: the term [eta] is missing, so the mean is off by one. *)
Lemma cum_geometric p d : geometric_new (fin p) = Some d -> p < 1 ->
  exists eta m v, to_natural (geometric_expfam d) = [fin eta] /\ log_partition (geometric_expfam d) = Fin (geometric_partition eta - eta) /\
    geometric_mean d = Fin m /\ geometric_variance d = Fin v /\ cumulants negative geometric_partition eta m v /\ cumulants negative (fun t => geometric_partition t - t) eta (m - 1) v.
Proof.
  intros E H. apply geometric_new_fin in E. destruct E as (P & ->). destruct (ln_fail p ltac:(lra)) as [N X1]. exists (ln (1 - p)), (/ p), ((1 - p) / (p * p)). assert (0 < 1 - p) by lra. assert (0 < p * p) by nra.
  split; [|split; [|split; [|split; [|split]]]].
  - unfold geometric_expfam, geometric_failure_prob. op. cbn [ge_prob]. xr. reflexivity.
  - unfold geometric_expfam. op. cbn [ge_prob]. xr. unfold geometric_partition. rewrite X1. replace (1 - (1 - p)) with p by ring. f_equal. ring.
  - unfold geometric_mean. cbn [ge_prob]. xr. f_equal. field. lra.
  - unfold geometric_variance. cbn [ge_prob]. xr. reflexivity.
  - pose proof (geo (ln (1 - p)) 1 1 N) as K. rewrite X1 in K. replace (1 - (1 - p)) with p in K by ring. replace (1 + 1 * ((1 - p) / p)) with (/ p) in K by (field; lra).
    replace (1 * ((1 - p) / p ^ 2)) with ((1 - p) / (p * p)) in K by (field; lra). eapply cumulants_ext; [|exact K]. intros t. unfold geometric_partition. ring.
  - pose proof (geo (ln (1 - p)) 0 1 N) as K. rewrite X1 in K. replace (1 - (1 - p)) with p in K by ring. replace (0 + 1 * ((1 - p) / p)) with (/ p - 1) in K by (field; lra).
    replace (1 * ((1 - p) / p ^ 2)) with ((1 - p) / (p * p)) in K by (field; lra). eapply cumulants_ext; [|exact K]. intros t. unfold geometric_partition. ring.
Qed.
(** Negative binomial: the natural parameter is the log-odds instead of ln p,
    so the pair is that of a binomial distribution. *)
Lemma cum_negbinomial r p d : negbinomial_new r (fin p) = Some d ->
  exists eta m v, to_natural (negbinomial_expfam d) = [fin eta] /\ log_partition (negbinomial_expfam d) = Fin (INR r * bernoulli_partition eta) /\
    negbinomial_mean d = Fin m /\ negbinomial_variance d = Fin v /\ cumulants negative (negbinomial_partition r) (ln p) m v /\
    cumulants everywhere (fun t => INR r * bernoulli_partition t) eta (m * (1 - p)) (v * (1 - p) ^ 3).
Proof.
  intros E. apply negbinomial_new_fin in E. destruct E as (Rp & H & ->). exists (ln (p / (1 - p))), (INR r * p / (1 - p)), (INR r * p / ((1 - p) * (1 - p))).
  assert (Q : 0 < (1 - p) * (1 - p)) by nra. assert (Q1 : 0 < 1 - p) by lra. destruct (logit_half p H) as [A B].
  assert (EP : 0 < 1 + exp (ln (p / (1 - p)))) by (pose proof (exp_pos (ln (p / (1 - p)))); lra).
  split; [|split; [|split; [|split; [|split]]]].
  - unfold negbinomial_expfam. op. cbn [nb_prob]. rewrite x_log_odds by exact H. reflexivity.
  - unfold negbinomial_expfam. op. cbn [nb_prob nb_r]. rewrite x_log_odds by exact H. assert (SP : 0 < 1 - exp (ln (p / (1 - p))) / (1 + exp (ln (p / (1 - p))))) by (rewrite A; lra).
    xr. rewrite A. unfold bernoulli_partition. rewrite exp_ln by (apply odds_pos, H). replace (1 + p / (1 - p)) with (/ (1 - p)) by (field; lra). rewrite ln_Rinv by lra. f_equal. ring.
  - unfold negbinomial_mean. cbn [nb_prob nb_r]. xr. reflexivity.
  - unfold negbinomial_variance. cbn [nb_prob nb_r]. xr. reflexivity.
  - assert (N : ln p < 0) by (rewrite <- ln_1; apply ln_increasing; lra). pose proof (geo (ln p) 0 (INR r) N) as K. rewrite exp_ln in K by lra.
    replace (0 + INR r * (p / (1 - p))) with (INR r * p / (1 - p)) in K by (field; lra). replace (INR r * (p / (1 - p) ^ 2)) with (INR r * p / ((1 - p) * (1 - p))) in K by (field; lra).
    eapply cumulants_ext; [|exact K]. intros t. unfold negbinomial_partition. ring.
  - pose proof (shifted 1 (INR r) (ln (p / (1 - p))) ltac:(lra)) as K. rewrite A, B in K. replace (INR r * p / (1 - p) * (1 - p)) with (INR r * p) by (field; lra).
    replace (INR r * p / ((1 - p) * (1 - p)) * (1 - p) ^ 3) with (INR r * p * (1 - p)) by (field; lra). exact K.
Qed.
(** Categorical. *)
Lemma Rsum_frac l (qs : list R) : 0 < l -> Forall (fun p => 0 < p) qs -> map exp (map (fun q => ln (q / l)) qs) = map (fun q => q / l) qs.
Proof.
  intros L F. rewrite map_map. apply map_ext_in. intros q I. rewrite Forall_forall in F. apply exp_ln, Rmult_lt_0_compat; [apply F, I|apply Rinv_0_lt_compat, L].
Qed.
Lemma cum_categorical pre q post l d : categorical_new (fins (pre ++ q :: post ++ [l]) : list X) = Some d -> Forall (fun p => 0 < p) (pre ++ q :: post ++ [l]) ->
  exists e1 e e2, to_natural (categorical_expfam d) = (fins (e1 ++ e :: e2) : list X) /\ length e1 = length pre /\
    log_partition (categorical_expfam d) = Fin (softmax_partition (e1 ++ e :: e2)) /\
    let s := Rsum (pre ++ q :: post ++ [l]) in
    cumulants everywhere (fun t => softmax_partition (e1 ++ t :: e2)) e (q / s) (q / s * (1 - q / s)).
Proof.
  intros H F. apply categorical_new_keeps in H. destruct d as [ps]. cbn [ca_probs] in H. subst ps.
  assert (AS : pre ++ q :: post ++ [l] = (pre ++ q :: post) ++ [l]) by (rewrite <- app_assoc; reflexivity). rewrite AS in *.
  apply Forall_app in F. destruct F as [FQ FL]. inversion FL as [|? ? PL _]; subst. pose proof FQ as FQ'. apply Forall_app in FQ'. destruct FQ' as [FP FR]. inversion FR as [|? ? PQ FO]; subst.
  set (f := fun q => ln (q / l)). exists (map f pre), (f q), (map f post).
  assert (EM : map f (pre ++ q :: post) = map f pre ++ f q :: map f post) by (rewrite map_app; reflexivity).
  assert (PP : 0 <= Rsum pre) by (clear -FP; induction FP; [cbn; lra|rewrite Rsum_cons; lra]). assert (PO : 0 <= Rsum post) by (clear -FO; induction FO; [cbn; lra|rewrite Rsum_cons; lra]).
  assert (SE : Rsum ((pre ++ q :: post) ++ [l]) = Rsum pre + (q + Rsum post) + l) by (rewrite !Rsum_app, !Rsum_cons; cbn; ring).
  assert (DV : forall qs, Rsum (map (fun q => q / l) qs) = Rsum qs / l) by (intros qs; apply Rsum_div; lra).
  assert (QL : 0 < q / l) by (apply Rmult_lt_0_compat; [lra|apply Rinv_0_lt_compat; lra]).
  split; [|split; [apply map_length|split]].
  - unfold to_natural, categorical_expfam. cbn [ef_natural]. rewrite x_cat_log_odds by assumption. fold f. rewrite EM. reflexivity.
  - unfold log_partition, categorical_expfam. cbn [ef_partition]. rewrite x_cat_partition by assumption. f_equal. unfold softmax_partition. fold (Rsum (map exp (map f pre ++ f q :: map f post))).
    rewrite <- EM. unfold f at 1. rewrite Rsum_frac, DV by assumption. rewrite SE. rewrite Rsum_app, Rsum_cons.
    replace (1 + (Rsum pre + (q + Rsum post)) / l) with ((Rsum pre + (q + Rsum post) + l) * / l) by (field; lra). rewrite ln_mult, ln_Rinv; [reflexivity|lra|lra|apply Rinv_0_lt_compat; lra].
  - cbn zeta. rewrite SE. set (b := 1 + (Rsum pre + Rsum post) / l).
    assert (B1 : 1 <= b) by (unfold b; assert (0 <= (Rsum pre + Rsum post) / l) by (apply Rmult_le_pos; [lra|left; apply Rinv_0_lt_compat; lra]); lra).
    pose proof (shifted b 1 (f q) B1) as K. assert (EQ : exp (f q) = q / l) by (apply exp_ln, QL). rewrite EQ in K.
    replace (1 * (q / l / (b + q / l))) with (q / (Rsum pre + (q + Rsum post) + l)) in K by (unfold b; field; lra).
    replace (b / (b + q / l)) with (1 - q / (Rsum pre + (q + Rsum post) + l)) in K by (unfold b; field; lra).
    eapply cumulants_ext; [|exact K]. intros t. cbv beta. rewrite Rmult_1_l. unfold softmax_partition. f_equal. fold (Rsum (map exp (map f pre ++ t :: map f post))).
    rewrite map_app, Rsum_app. cbn [map]. rewrite Rsum_cons. unfold f. rewrite !Rsum_frac, !DV by assumption. unfold b. field. lra.
Qed.

(** ** The density from its parts *)
Lemma density_formula {T} (d : ExpFam X T) x eta t A b : default_form d -> to_natural d = (fins eta : list X) -> ef_stat d x = fins t -> log_partition d = Fin A -> b_ld (ef_base d) x = Fin b ->
  compute_exp_fam_log_density d x = Fin (rdot eta t - A + b).
Proof.
  intros D N S P B. unfold compute_exp_fam_log_density, to_natural, log_partition in *. rewrite D. unfold default_density. rewrite N, S, P, B, dot_array_fin. reflexivity.
Qed.
Lemma categorical_api qs l d k : categorical_new (fins (qs ++ [l]) : list X) = Some d ->
  (categorical_support d k = false -> compute_exp_fam_log_density (categorical_expfam d) k = NInf) /\
  (categorical_support d k = true -> Forall (fun p => 0 < p) (qs ++ [l]) ->
   compute_exp_fam_log_density (categorical_expfam d) k = Fin (ln (nth k (qs ++ [l]) 0) - ln (Rsum (qs ++ [l])))).
Proof.
  intros H. split.
  - intros S. unfold compute_exp_fam_log_density, categorical_expfam. cbn [ef_density]. rewrite S. reflexivity.
  - intros S F. destruct (c29_categorical lg qs l d k H F S) as (_ & E & _). exact E.
Qed.
End D.
