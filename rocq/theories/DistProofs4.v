(** Agreement of every evaluation path (C29), supports (C33), constructors (C34):
    the statements assembled family by family. *)
From Coq Require Import ZArith Reals List Bool Lra Lia Arith.
From Flocq Require Import Core IEEE754.BinarySingleNaN.
From Verif Require Import Num XRFacts DensitySpec BuilderProofs CoreModel CoreSpec CoreProofs
  CombModel ExpFamModel DistModel DistSpec DistFacts DistProofs DistProofs2 DistProofs3.
Import ListNotations.
Local Open Scope R_scope.
Local Open Scope list_scope.

Section D.
Context (lg : R -> R).
Notation X := (XR lg).
Notation fin r := (Fin r : X).
Ltac side := first [ assumption | lra | nra
  | (apply Rgt_not_eq; first [assumption | lra | nra | apply exp_pos])
  | apply exp_pos | apply two_pi_pos | apply PI_RGT_0 ].
Ltac xr := xr_with side.

(** ** Decompositions *)
Lemma xsum_1 a : xsum [a] = a. Proof. change (xadd a (Fin 0) = a). apply xadd_0_r. Qed.
Lemma xsum_2 a b : xsum [a; b] = xadd a b.
Proof. change (xadd a (xsum [b]) = xadd a b). rewrite xsum_1. reflexivity. Qed.
Lemma xsum_3 a b c : xsum [a; b; c] = xadd a (xadd b c).
Proof. change (xadd a (xsum [b; c]) = xadd a (xadd b c)). rewrite xsum_2. reflexivity. Qed.

Lemma normal_decomp m s x : 0 < s ->
  d_evaluate (normal_decomposition (@mkNormal X (Fin m) (Fin s))) (fin x) (fin m, fin s) =
  Fin (ln (normal_pdf m s x)).
Proof.
  intros P. pose proof two_pi_pos. rewrite ln_normal_pdf by exact P. unfold normal_decomposition. rewrite build_evaluate.
  cbn [map term_value]. rewrite xsum_3. cbn [fst snd]. xr. f_equal. field. lra.
Qed.
Lemma student_decomp nu x : 0 < nu ->
  d_evaluate (student_decomposition (@mkStudent X (Fin nu))) (fin x) (fin nu) = Fin (ln (student_pdf lg nu x)).
Proof.
  intros P. rewrite <- student_direct by exact P. unfold student_decomposition. rewrite build_evaluate.
  cbn [map term_value]. rewrite xsum_2. reflexivity.
Qed.
Lemma cauchy_decomp x0 g x : 0 < g ->
  d_evaluate (cauchy_decomposition (@mkCauchy X (Fin x0) (Fin g))) (fin x) (fin x0, fin g) =
  Fin (ln (cauchy_pdf x0 g x)).
Proof.
  intros P. pose proof PI_RGT_0 as Q. rewrite ln_cauchy_pdf by exact P.
  assert (0 < 1 + (x - x0) / g * ((x - x0) / g)).
  { pose proof (Rle_0_sqr ((x - x0) / g)) as S0; unfold Rsqr in S0; lra. }
  unfold cauchy_decomposition. rewrite build_evaluate. cbn [map term_value]. rewrite xsum_3. cbn [fst snd].
  xr. f_equal. lra.
Qed.
Lemma xsum_map_fins' (f : X -> xreal) (g : R -> R) l : (forall a, f (fin a) = Fin (g a)) ->
  xsum (map f (fins l)) = Fin (Rsum (map g l)).
Proof.
  intros H. unfold fins. rewrite map_map. rewrite (map_ext _ (fun a => Fin (g a))) by exact H.
  rewrite <- map_map. apply xsum_fins.
Qed.
Lemma decomp_iid {Th} (d : Decomp X X Th) th (g : R -> R) p c xs :
  (forall x, d_evaluate d (fin x) th = Fin (g x)) ->
  evaluate_param_terms d th = Fin p -> constant_sum d = Fin c ->
  d_evaluate_iid d (fins xs) th = Fin (Rsum (map g xs)).
Proof.
  intros H E1 E2. destruct xs as [|x xs]; [exact (iid_empty lg d th p c E1 E2)|].
  rewrite iid_sum by discriminate. apply xsum_map_fins'. exact H.
Qed.
Lemma normal_iid m s d xs : normal_new (fin m) (fin s) = Some d ->
  normal_log_density_iid d (fins xs) = Fin (Rsum (map (fun x => ln (normal_pdf m s x)) xs)).
Proof.
  intros H. apply normal_new_fin in H. destruct H as [P ->].
  unfold normal_log_density_iid, normal_params. cbn [n_mean n_sd]. pose proof two_pi_pos.
  eapply decomp_iid; [intros x; apply normal_decomp; exact P| |].
  - unfold evaluate_param_terms, normal_decomposition, build.
    cbn [fold_left d_add d_new param_terms map app]. rewrite fold_sum_xsum, xsum_1. cbn [snd]. xr. reflexivity.
  - unfold constant_sum, normal_decomposition, build.
    cbn [fold_left d_add d_new constant_terms map app]. rewrite fold_sum_xsum, xsum_1. xr. reflexivity.
Qed.
Lemma student_iid nu d xs : student_new (fin nu) = Some d ->
  student_log_density_iid d (fins xs) = Fin (Rsum (map (fun x => ln (student_pdf lg nu x)) xs)).
Proof.
  intros H. apply student_new_fin in H. destruct H as [P ->].
  unfold student_log_density_iid. cbn [t_nu]. pose proof PI_RGT_0. assert (0 < nu * PI) by nra.
  eapply decomp_iid; [intros x; apply student_decomp; exact P| |].
  - unfold evaluate_param_terms, student_decomposition, build.
    cbn [fold_left d_add d_new param_terms map app]. rewrite fold_sum_xsum, xsum_1.
    unfold student_log_norm, midpoint1. xr. reflexivity.
  - unfold constant_sum, student_decomposition, build.
    cbn [fold_left d_add d_new constant_terms map app]. rewrite fold_sum_xsum. reflexivity.
Qed.
Lemma cauchy_iid x0 g d xs : cauchy_new (fin x0) (fin g) = Some d ->
  cauchy_log_density_iid d (fins xs) = Fin (Rsum (map (fun x => ln (cauchy_pdf x0 g x)) xs)).
Proof.
  intros H. apply cauchy_new_fin in H. destruct H as [P ->].
  unfold cauchy_log_density_iid. cbn [c_loc c_scale]. pose proof PI_RGT_0.
  eapply decomp_iid; [intros x; apply cauchy_decomp; exact P| |].
  - unfold evaluate_param_terms, cauchy_decomposition, build.
    cbn [fold_left d_add d_new param_terms map app]. rewrite fold_sum_xsum, xsum_1. cbn [snd]. xr. reflexivity.
  - unfold constant_sum, cauchy_decomposition, build.
    cbn [fold_left d_add d_new constant_terms map app]. rewrite fold_sum_xsum, xsum_1. xr. reflexivity.
Qed.

(** ** C29 *)
Lemma c29_normal m s d x : normal_new (fin m) (fin s) = Some d ->
  let v := Fin (ln (normal_pdf m s x)) in
  normal_ld d (fin x) = v /\ ef_density (normal_expfam d) (fin x) = v /\
  zero_overhead (normal_expfam d) (fin x) = v /\ compile_normal (fin m) (fin s) (fin x) = v /\
  d_evaluate (normal_decomposition d) (fin x) (normal_params d) = v.
Proof.
  intros H v. apply normal_new_fin in H. destruct H as [P ->].
  split; [apply normal_direct; exact P|]. split; [apply normal_ef; exact P|].
  split; [apply normal_zero; exact P|]. split; [apply normal_static; exact P|].
  apply (normal_decomp m s x P).
Qed.
Lemma c29_stdnormal x : let v := Fin (ln (normal_pdf 0 1 x)) in
  ef_density stdnormal_expfam (fin x) = v /\ zero_overhead stdnormal_expfam (fin x) = v.
Proof. split; [apply stdnormal_ef|]. exact (stdnormal_ef lg x). Qed.
Lemma c29_exponential l d x : exponential_new (fin l) = Some d -> exponential_support d (fin x) = true ->
  let v := Fin (ln (exponential_pdf l x)) in
  exponential_ld d (fin x) = v /\ compile_exponential (fin l) (fin x) = v /\
  (l = 1 -> ef_density (exponential_expfam d) (fin x) = v /\ zero_overhead (exponential_expfam d) (fin x) = v).
Proof.
  intros H S v. apply exponential_new_fin in H. destruct H as [P ->].
  unfold exponential_support in S. rewrite x_leb0, Rleb_true in S.
  split; [apply exponential_direct; auto|]. split; [apply exponential_static; auto|].
  intros ->. assert (E : ef_density (exponential_expfam (@mkExponential X (Fin 1))) (fin x) = v).
  { rewrite exponential_ef by lra. rewrite ln_1. unfold v. f_equal. lra. }
  split; exact E.
Qed.
Lemma c29_exponential_ef l d x : exponential_new (fin l) = Some d ->
  ef_density (exponential_expfam d) (fin x) = Fin (ln (exponential_pdf l x) - 2 * ln l) /\
  zero_overhead (exponential_expfam d) (fin x) = Fin (ln (exponential_pdf l x) - 2 * ln l).
Proof.
  intros H. apply exponential_new_fin in H. destruct H as [P ->].
  pose proof (exponential_ef lg l x P) as E. split; exact E.
Qed.
Lemma c29_gamma a b d x : gamma_new (fin a) (fin b) = Some d -> gamma_support d (fin x) = true ->
  let v := Fin (ln (gamma_pdf lg a b x)) in
  gamma_ld d (fin x) = v /\ ef_density (gamma_expfam d) (fin x) = v /\ zero_overhead (gamma_expfam d) (fin x) = v.
Proof.
  intros H S v. apply gamma_new_fin in H. destruct H as (P & Q & ->).
  unfold gamma_support in S. rewrite x_ltb0, Rltb_true in S.
  split; [apply gamma_direct; auto|]. pose proof (gamma_ef lg a b x P Q S) as E. split; exact E.
Qed.
Lemma c29_beta a b d x : beta_new (fin a) (fin b) = Some d -> beta_support d (fin x) = true ->
  let v := Fin (ln (beta_pdf lg a b x)) in
  beta_ld d (fin x) = v /\ ef_density (beta_expfam d) (fin x) = v /\ zero_overhead (beta_expfam d) (fin x) = v.
Proof.
  intros H S v. apply beta_new_fin in H. destruct H as (P & Q & ->).
  unfold beta_support in S. rewrite x_ltb0, x_ltb1, andb_true_iff, !Rltb_true in S.
  split; [apply beta_direct; auto|]. pose proof (beta_ef lg a b x P Q S) as E. split; exact E.
Qed.
Lemma c29_chi k d x : chi_new (fin k) = Some d -> chi_support d (fin x) = true ->
  let v := Fin (ln (chi_squared_pdf lg k x)) in
  chi_ld d (fin x) = v /\ ef_density (chi_expfam d) (fin x) = v /\ zero_overhead (chi_expfam d) (fin x) = v.
Proof.
  intros H S v. apply chi_new_fin in H. destruct H as (P & ->).
  unfold chi_support in S. rewrite x_ltb0, Rltb_true in S.
  split; [apply chi_direct; auto|]. pose proof (chi_ef lg k x P S) as E. split; exact E.
Qed.
Lemma c29_student nu d x : student_new (fin nu) = Some d ->
  let v := Fin (ln (student_pdf lg nu x)) in
  student_ld d (fin x) = v /\ student_log_pdf d (fin x) = v /\
  d_evaluate (student_decomposition d) (fin x) (t_nu d) = v.
Proof.
  intros H v. apply student_new_fin in H. destruct H as (P & ->).
  pose proof (student_direct lg nu x P) as E. split; [exact E|]. split; [exact E|].
  apply (student_decomp nu x P).
Qed.
Lemma c29_cauchy x0 g d x : cauchy_new (fin x0) (fin g) = Some d ->
  let v := Fin (ln (cauchy_pdf x0 g x)) in
  cauchy_ld d (fin x) = v /\ cauchy_log_pdf d (fin x) = v /\
  d_evaluate (cauchy_decomposition d) (fin x) (c_loc d, c_scale d) = v.
Proof.
  intros H v. apply cauchy_new_fin in H. destruct H as (P & ->).
  pose proof (cauchy_direct lg x0 g x P) as [E E']. split; [exact E|]. split; [exact E'|].
  apply (cauchy_decomp x0 g x P).
Qed.
Lemma bernoulli_support_le d k : bernoulli_support (N := X) d k = true <-> (k <= 1)%nat.
Proof. unfold bernoulli_support. rewrite orb_true_iff, !Nat.eqb_eq. lia. Qed.
Lemma c29_bernoulli p d k : bernoulli_new (fin p) = Some d -> 0 < p < 1 -> bernoulli_support d k = true ->
  let v := Fin (ln (bernoulli_pmf p k)) in
  bernoulli_ld d k = v /\ ef_density (bernoulli_expfam d) k = v /\ zero_overhead (bernoulli_expfam d) k = v.
Proof.
  intros H P S v. apply bernoulli_new_fin in H. destruct H as (_ & ->). apply bernoulli_support_le in S.
  split; [apply bernoulli_direct; auto|].
  assert (E : ef_density (bernoulli_expfam (@mkBernoulli X (Fin p))) k = v).
  { rewrite bernoulli_ef by exact P. unfold v. destruct k as [|[|k]]; [| |lia]; cbn [INR bernoulli_pmf]; f_equal; lra. }
  split; exact E.
Qed.
Lemma c29_binomial n p d k : lg_factorial lg -> binomial_new n (fin p) = Some d -> 0 < p < 1 -> binomial_support d k = true ->
  ef_density (binomial_expfam d) k = Fin (ln (binomial_pmf n p k)) /\
  zero_overhead (binomial_expfam d) k = Fin (ln (binomial_pmf n p k)) /\
  binomial_ld d k = Fin (ln (binomial_pmf n p k) - ln (C n k)).
Proof.
  intros L H P S. apply binomial_new_fin in H. destruct H as (_ & ->).
  unfold binomial_support in S. cbn [bi_n] in S. apply Nat.leb_le in S.
  pose proof (binomial_ef lg n p k L P S) as E. split; [exact E|]. split; [exact E|].
  apply binomial_direct; auto.
Qed.
Lemma c29_poisson l d k : poisson_new (fin l) = Some d ->
  poisson_ld d k = Fin (ln (poisson_pmf l k)).
Proof. intros H. apply poisson_new_fin in H. destruct H as (P & ->). apply poisson_direct; exact P. Qed.
Lemma c29_geometric p d k : geometric_new (fin p) = Some d -> p < 1 -> geometric_support d k = true ->
  geometric_ld d k = Fin (ln (geometric_pmf p k)) /\
  ef_density (geometric_expfam d) k = Fin (ln (geometric_pmf p k) + ln (1 - p)) /\
  zero_overhead (geometric_expfam d) k = Fin (ln (geometric_pmf p k) + ln (1 - p)).
Proof.
  intros H P S. apply geometric_new_fin in H. destruct H as (Q & ->).
  unfold geometric_support in S. apply Nat.leb_le in S.
  split; [apply geometric_direct; [lra|exact S]|].
  pose proof (geometric_ef lg p k ltac:(lra) S) as E. split; exact E.
Qed.
Lemma c29_negbinomial r p d k : lg_factorial lg -> negbinomial_new r (fin p) = Some d ->
  negbinomial_ld d k = Fin (ln (negbinomial_pmf r (1 - p) k) - ln (C (k + r - 1) k)) /\
  ef_density (negbinomial_expfam d) k = Fin (ln (negbinomial_pmf r p k) - INR k * ln (1 - p)) /\
  zero_overhead (negbinomial_expfam d) k = Fin (ln (negbinomial_pmf r p k) - INR k * ln (1 - p)).
Proof.
  intros L H. apply negbinomial_new_fin in H. destruct H as (Rp & P & ->).
  split.
  - rewrite negbinomial_direct by exact P. rewrite ln_negbinomial_pmf by (auto; lra).
    replace (1 - (1 - p)) with p by lra. f_equal. ring.
  - pose proof (negbinomial_ef lg r p k L Rp P) as E. split; exact E.
Qed.
Lemma c29_categorical qs l d k : categorical_new (fins (qs ++ [l]) : list X) = Some d ->
  Forall (fun p => 0 < p) (qs ++ [l]) -> categorical_support d k = true ->
  categorical_ld d k = Fin (ln (categorical_pmf (qs ++ [l]) k)) /\
  ef_density (categorical_expfam d) k = Fin (ln (categorical_pmf (qs ++ [l]) k) - ln (Rsum (qs ++ [l]))) /\
  zero_overhead (categorical_expfam d) k = Fin (ln (categorical_pmf (qs ++ [l]) k) - ln (Rsum (qs ++ [l]))).
Proof.
  intros H F S. apply categorical_new_keeps in H. destruct d as [ps]. cbn [ca_probs] in H. subst ps.
  unfold categorical_support in S. cbn [ca_probs] in S. apply Nat.ltb_lt in S as K. rewrite fins_length in K.
  assert (P : 0 < nth k (qs ++ [l]) 0) by (rewrite Forall_forall in F; apply F, nth_In, K).
  apply Forall_app in F. destruct F as [F1 F2]. inversion F2; subst.
  split; [apply categorical_direct; auto|].
  pose proof (categorical_ef lg qs l k ltac:(assumption) F1 K) as E. split; [exact E|].
  revert E. unfold categorical_expfam, zero_overhead.
  cbn [ef_density ef_natural ef_stat ef_partition ef_base]. unfold categorical_support. cbn [ca_probs].
  rewrite fins_length. apply Nat.ltb_lt in K. rewrite K. unfold dot_vec, dot_array. auto.
Qed.

Lemma chi_is_gamma k x d g : chi_new (fin k) = Some d -> gamma_new (chi_shape d) (chi_rate d) = Some g ->
  gamma_support g (fin x) = chi_support d (fin x) /\ chi_ld d (fin x) = gamma_ld g (fin x).
Proof.
  intros H G. apply chi_new_fin in H. destruct H as (P & ->).
  unfold chi_shape, chi_rate in G. cbn [c_k] in G. revert G. xr. intros G.
  apply gamma_new_fin in G. destruct G as (P1 & P2 & ->). split; [reflexivity|].
  unfold chi_ld, gamma_ld. destruct (nltb n0 (fin x)) eqn:E; [|reflexivity].
  rewrite x_ltb0, Rltb_true in E. cbn [c_k g_shape g_rate]. xr.
  replace (ln (1 / 2)) with (- ln 2).
  - f_equal. replace (1 + 1) with 2 by lra. field.
  - replace (1 / 2) with (/ 2) by lra. rewrite ln_Rinv by lra. reflexivity.
Qed.

Lemma c29_poisson_ef l d k v : poisson_new (fin l) = Some d -> (log_factorial k : X) = Fin v ->
  ef_density (poisson_expfam d) k = Fin (ln (poisson_pmf l k) + (ln (INR (fact k)) - v)) /\
  zero_overhead (poisson_expfam d) k = Fin (ln (poisson_pmf l k) + (ln (INR (fact k)) - v)).
Proof.
  intros H V. apply poisson_new_fin in H. destruct H as (P & ->).
  pose proof (poisson_ef lg l k v P V) as E. split; exact E.
Qed.

Lemma ln_close a e : 0 < e <= 1 / 2 -> Rabs (a - 1) <= e -> Rabs (ln a) <= 2 * e.
Proof.
  intros [E0 E] H. assert (1 - e <= a <= 1 + e) by (revert H; unfold Rabs; destruct (Rcase_abs _); lra).
  assert (L : forall t, 0 < t -> ln t <= t - 1).
  { intros t Pt. pose proof (exp_ineq1_le (ln t)) as I. rewrite exp_ln in I by exact Pt. lra. }
  assert (U : ln a <= e) by (pose proof (L a ltac:(lra)); lra).
  assert (D : - (2 * e) <= ln a).
  { pose proof (L (/ a) ltac:(apply Rinv_0_lt_compat; lra)) as I. rewrite ln_Rinv in I by lra.
    assert (/ a <= 1 + 2 * e).
    { apply (Rmult_le_reg_r a); [lra|]. rewrite Rinv_l by lra. nra. }
    lra. }
  unfold Rabs. destruct (Rcase_abs _); lra.
Qed.
Lemma c29_categorical_close qs l d k : categorical_new (fins (qs ++ [l]) : list X) = Some d ->
  Forall (fun p => 0 < p) (qs ++ [l]) -> categorical_support d k = true ->
  categorical_ld d k = Fin (ln (categorical_pmf (qs ++ [l]) k)) /\
  ef_density (categorical_expfam d) k = Fin (ln (categorical_pmf (qs ++ [l]) k) - ln (Rsum (qs ++ [l]))) /\
  zero_overhead (categorical_expfam d) k = Fin (ln (categorical_pmf (qs ++ [l]) k) - ln (Rsum (qs ++ [l]))) /\
  Rabs (ln (Rsum (qs ++ [l]))) <= 2 / 10 ^ 10.
Proof.
  intros H F S. destruct (c29_categorical qs l d k H F S) as (A & B & D). split; [exact A|]. split; [exact B|].
  split; [exact D|]. assert (K : returns (categorical_new (fins (qs ++ [l]) : list X))) by (exists d; exact H).
  apply categorical_new_iff in K. destruct K as (_ & _ & K).
  replace (2 / 10 ^ 10) with (2 * / 10 ^ 10) by (unfold Rdiv; ring).
  apply ln_close; [|apply Rlt_le; exact K]. cbn [pow]. lra.
Qed.

(** ** Degenerate parameters *)
Lemma prob_true p : 0 <= p <= 1 -> nleb (n0 : X) (fin p) && nleb (fin p) (n1 : X) = true.
Proof. intros H. apply x_prob_iff. exact H. Qed.
Lemma bernoulli_new_ok p : 0 <= p <= 1 -> bernoulli_new (fin p) = Some (@mkBernoulli X (Fin p)).
Proof. intros H. unfold bernoulli_new. rewrite prob_true by exact H. reflexivity. Qed.
Lemma binomial_new_ok n p : 0 <= p <= 1 -> binomial_new n (fin p) = Some (@mkBinomial X n (Fin p)).
Proof. intros H. unfold binomial_new. rewrite prob_true by exact H. reflexivity. Qed.
Lemma geometric_new_ok p : 0 < p <= 1 -> geometric_new (fin p) = Some (@mkGeometric X (Fin p)).
Proof.
  intros H. unfold geometric_new. replace (_ && _) with true; [reflexivity|].
  symmetry. apply x_geo_iff. cbn. lra.
Qed.
Lemma xdiv_1_0 : xdiv (Fin 1) (Fin 0) = PInf.
Proof.
  cbn. rewrite Req_b_refl. replace (Req_b 1 0) with false by (symmetry; apply Req_b_false; lra).
  rewrite Rltb_t by lra. reflexivity.
Qed.
Lemma x_log_odds_1 : (log_odds (fin 1) : X) = PInf.
Proof.
  unfold log_odds. xr_lits. xr_ops. rewrite xsub_Fin. replace (1 - 1) with 0 by lra. rewrite xdiv_1_0. reflexivity.
Qed.
Lemma bernoulli_certain k : exists d, bernoulli_new (fin 1) = Some d /\ ef_density (bernoulli_expfam d) k = XNaN.
Proof.
  eexists. split; [apply bernoulli_new_ok; lra|].
  unfold bernoulli_expfam, expfam, default_density, dot_array. cbn [ef_density be_prob].
  rewrite x_log_odds_1. cbn [zip_dot]. xr_lits. xr_ops.
  destruct (Req_b (INR k) 0) eqn:E.
  - cbn [xmul]. unfold xscale. rewrite E. reflexivity.
  - apply Req_b_false in E as E'. pose proof (pos_INR k). cbn [xmul]. unfold xscale.
    rewrite E, Rltb_t by lra. reflexivity.
Qed.
Lemma categorical_zero : exists d, categorical_new (fins [0; 1/2; 1/2] : list X) = Some d /\
  categorical_ld d 1%nat = Fin (ln (1/2)) /\ ef_density (categorical_expfam d) 1%nat = XNaN.
Proof.
  destruct (proj2 (categorical_new_iff lg [0; 1/2; 1/2])) as [d E].
  { split; [discriminate|]. split; [repeat constructor; lra|]. unfold Rsum. cbn [fold_right].
    replace (0 + (1 / 2 + (1 / 2 + 0)) - 1) with 0 by lra. rewrite Rabs_R0. apply Rinv_0_lt_compat, pow_lt; lra. }
  exists d. split; [exact E|]. apply categorical_new_keeps in E. destruct d as [ps]. cbn [ca_probs] in E. subst ps.
  split.
  - apply (categorical_direct lg [0; 1/2; 1/2] 1); [cbn; lia|cbn; lra].
  - unfold categorical_expfam, categorical_support, categorical_log_odds, categorical_stat.
    cbn [ef_density ca_probs fins map length Nat.sub Nat.ltb Nat.leb firstn nth seq andb Nat.eqb].
    unfold dot_vec. cbn [zip_dot]. xr_lits. xr_ops. rewrite xdiv_fin by lra.
    replace (0 / (1 / 2)) with 0 by field. rewrite xln_zero. cbn [xmul]. unfold xscale at 1. rewrite Req_b_refl.
    reflexivity.
Qed.
Lemma geometric_certain_round : exists d, geometric_new (fin 1) = Some d /\
  geometric_from_natural (to_natural (geometric_expfam d)) = Some d /\
  to_natural (geometric_expfam d) = [NInf].
Proof.
  eexists. split; [apply geometric_new_ok; lra|].
  unfold geometric_expfam, geometric_failure_prob, to_natural, expfam. cbn [ef_natural ge_prob].
  xr_lits. xr_ops. rewrite xsub_Fin. replace (1 - 1) with 0 by lra. rewrite xln_zero.
  split; [|reflexivity]. unfold geometric_from_natural. xr_lits. xr_ops. cbn [xexp]. rewrite xsub_Fin.
  replace (1 - 0) with 1 by lra. apply geometric_new_ok. lra.
Qed.

(** ** C33 *)
Lemma outside_direct {N : Num} (x : N) (k : nat) :
  (forall d, exponential_support d x = false -> exponential_ld d x = nninf) /\
  (forall d, gamma_support d x = false -> gamma_ld d x = nninf) /\
  (forall d, beta_support d x = false -> beta_ld d x = nninf) /\
  (forall d, chi_support d x = false -> chi_ld d x = nninf) /\
  (forall d : Bernoulli N, bernoulli_support d k = false -> bernoulli_ld d k = nninf) /\
  (forall d : Binomial N, binomial_support d k = false -> binomial_ld d k = nninf) /\
  (forall d : Geometric N, geometric_support d k = false -> geometric_ld d k = nninf) /\
  (forall d : Categorical N, categorical_support d k = false -> categorical_ld d k = nninf).
Proof.
  unfold exponential_support, exponential_ld, gamma_support, gamma_ld, beta_support, beta_ld, chi_support, chi_ld,
    bernoulli_support, bernoulli_ld, binomial_support, binomial_ld, geometric_support, geometric_ld,
    categorical_support, categorical_ld.
  split; [intros d ->; reflexivity|]. split; [intros d ->; reflexivity|]. split; [intros d ->; reflexivity|].
  split; [intros d ->; reflexivity|]. split; [intros d H; destruct k as [|[|k]]; [discriminate|discriminate|reflexivity]|].
  split; [intros d ->; reflexivity|]. split; [intros d ->; reflexivity|]. intros d ->; reflexivity.
Qed.
Lemma supports (x : X) k :
  (forall d, exponential_support d x = true <-> x = PInf \/ exists r, x = Fin r /\ 0 <= r) /\
  (forall d, gamma_support d x = true <-> xpos x) /\
  (forall d, chi_support d x = true <-> xpos x) /\
  (forall d, beta_support d x = true <-> exists r, x = Fin r /\ 0 < r < 1) /\
  (forall d : Bernoulli X, bernoulli_support d k = true <-> k = 0%nat \/ k = 1%nat) /\
  (forall d : Binomial X, binomial_support d k = true <-> (k <= bi_n d)%nat) /\
  (forall d : Geometric X, geometric_support d k = true <-> (1 <= k)%nat) /\
  (forall d : Categorical X, categorical_support d k = true <-> (k < length (ca_probs d))%nat).
Proof.
  split.
  { intros d. unfold exponential_support. destruct x as [r| | |].
    - rewrite x_leb0, Rleb_true. split; [eauto|]. intros [E|(q & E & Q)]; [discriminate|]. injection E as ->. exact Q.
    - rewrite x_n0. cbn. tauto.
    - rewrite x_n0. cbn. split; [discriminate|]. intros [E|(q & E & Q)]; discriminate.
    - rewrite x_n0. cbn. split; [discriminate|]. intros [E|(q & E & Q)]; discriminate. }
  split; [intros d; apply x_pos_iff|]. split; [intros d; apply x_pos_iff|].
  split; [intros d; apply x_nb_iff|].
  split; [intros d; unfold bernoulli_support; rewrite orb_true_iff, !Nat.eqb_eq; tauto|].
  split; [intros d; unfold binomial_support; apply Nat.leb_le|].
  split; [intros d; unfold geometric_support; apply Nat.leb_le|].
  intros d. unfold categorical_support. apply Nat.ltb_lt.
Qed.

Lemma positive_inside (x : R) (k : nat) :
  (forall m s d, normal_new (fin m) (fin s) = Some d -> finite (normal_ld d (fin x))) /\
  (forall l d, exponential_new (fin l) = Some d -> exponential_support d (fin x) = true ->
     finite (exponential_ld d (fin x))) /\
  (forall a b d, gamma_new (fin a) (fin b) = Some d -> gamma_support d (fin x) = true ->
     finite (gamma_ld d (fin x))) /\
  (forall a b d, beta_new (fin a) (fin b) = Some d -> beta_support d (fin x) = true ->
     finite (beta_ld d (fin x))) /\
  (forall q d, chi_new (fin q) = Some d -> chi_support d (fin x) = true -> finite (chi_ld d (fin x))) /\
  (forall q d, student_new (fin q) = Some d -> finite (student_ld d (fin x))) /\
  (forall m s d, cauchy_new (fin m) (fin s) = Some d -> finite (cauchy_ld d (fin x))) /\
  (forall p d, bernoulli_new (fin p) = Some d -> 0 < p < 1 -> bernoulli_support d k = true ->
     finite (bernoulli_ld d k)) /\
  (forall n p d, binomial_new n (fin p) = Some d -> 0 < p < 1 -> binomial_support d k = true ->
     finite (binomial_ld d k)) /\
  (forall l d, poisson_new (fin l) = Some d -> finite (poisson_ld d k)) /\
  (forall p d, geometric_new (fin p) = Some d -> p < 1 -> geometric_support d k = true ->
     finite (geometric_ld d k)) /\
  (forall r p d, negbinomial_new r (fin p) = Some d -> finite (negbinomial_ld d k)) /\
  (forall ps d, categorical_new (fins ps : list X) = Some d -> Forall (fun p => 0 < p) ps ->
     categorical_support d k = true -> finite (categorical_ld d k)).
Proof.
  split; [intros m s d H; eexists; apply (c29_normal m s d x H)|].
  split; [intros l d H S; eexists; apply (c29_exponential l d x H S)|].
  split; [intros a b d H S; eexists; apply (c29_gamma a b d x H S)|].
  split; [intros a b d H S; eexists; apply (c29_beta a b d x H S)|].
  split; [intros q d H S; eexists; apply (c29_chi q d x H S)|].
  split; [intros q d H; eexists; apply (c29_student q d x H)|].
  split; [intros m s d H; eexists; apply (c29_cauchy m s d x H)|].
  split; [intros p d H P S; eexists; apply (c29_bernoulli p d k H P S)|].
  split. { intros n p d H P S. apply binomial_new_fin in H. destruct H as (_ & ->).
    unfold binomial_support in S. apply Nat.leb_le in S. eexists. apply binomial_direct; auto. }
  split; [intros l d H; eexists; apply (c29_poisson l d k H)|].
  split; [intros p d H P S; eexists; apply (c29_geometric p d k H P S)|].
  split. { intros r p d H. apply negbinomial_new_fin in H. destruct H as (_ & P & ->).
    eexists. apply negbinomial_direct; auto. }
  intros ps d H F S. apply categorical_new_keeps in H. destruct d as [q]. cbn [ca_probs] in H. subst q.
  unfold categorical_support in S. cbn [ca_probs] in S. apply Nat.ltb_lt in S. rewrite fins_length in S.
  eexists. apply categorical_direct; [exact S|]. rewrite Forall_forall in F. apply F, nth_In, S.
Qed.
Lemma outside_family k :
  (forall n p d, binomial_new n (fin p) = Some d -> 0 < p < 1 -> binomial_support d k = false ->
     ef_density (binomial_expfam d) k = NInf) /\
  (forall d : Categorical X, categorical_support d k = false -> ef_density (categorical_expfam d) k = NInf).
Proof.
  split.
  - intros n p d H P S. apply binomial_new_fin in H. destruct H as (_ & ->).
    unfold binomial_support in S. cbn [bi_n] in S. apply Nat.leb_gt in S.
    unfold binomial_expfam, expfam, default_density, dot_array. cbn [ef_density bi_n bi_prob binomial_measure b_ld zip_dot].
    apply Nat.ltb_lt in S. rewrite S. rewrite x_log_odds by exact P.
    assert (0 < 1 + exp (ln (p / (1 - p)))) by (pose proof (exp_pos (ln (p / (1 - p)))); lra).
    xr. reflexivity.
  - intros d S. unfold categorical_expfam. cbn [ef_density]. rewrite S. reflexivity.
Qed.
Lemma family_path_support :
  (exists d, exponential_new (fin 1) = Some d /\ exponential_support d (fin (-1)) = false /\
     ef_density (exponential_expfam d) (fin (-1)) = Fin 1) /\
  (exists d, gamma_new (fin 2) (fin 1) = Some d /\ gamma_support d (fin (-1)) = false /\
     ef_density (gamma_expfam d) (fin (-1)) = XNaN) /\
  (exists d, beta_new (fin 2) (fin 2) = Some d /\ beta_support d (fin 2) = false /\
     ef_density (beta_expfam d) (fin 2) = XNaN) /\
  (exists d, bernoulli_new (fin (1/2)) = Some d /\ bernoulli_support d 2 = false /\
     finite (ef_density (bernoulli_expfam d) 2%nat)) /\
  (exists d, geometric_new (fin (1/2)) = Some d /\ geometric_support d 0 = false /\
     finite (ef_density (geometric_expfam d) 0%nat)).
Proof.
  split; [|split; [|split; [|split]]].
  - eexists. split; [unfold exponential_new; rewrite x_ltb0, Rltb_t by lra; reflexivity|].
    split; [unfold exponential_support; rewrite x_leb0; apply Rleb_f; lra|].
    rewrite exponential_ef by lra. rewrite ln_exponential_pdf, ln_1 by lra. f_equal. lra.
  - eexists. split; [unfold gamma_new; rewrite !x_ltb0, !Rltb_t by lra; reflexivity|].
    split; [unfold gamma_support; rewrite x_ltb0; apply Rltb_f; lra|].
    unfold gamma_expfam, expfam, default_density, dot_array. cbn [ef_density g_shape g_rate zip_dot prim primitive b_ld].
    xr_lits. xr_ops. rewrite xln_neg by lra. rewrite xsub_Fin. reflexivity.
  - eexists. split; [unfold beta_new; rewrite !x_ltb0, !Rltb_t by lra; reflexivity|].
    split; [unfold beta_support; rewrite x_ltb0, x_ltb1, Rltb_t, Rltb_f by lra; reflexivity|].
    unfold beta_expfam, expfam, default_density, dot_array. cbn [ef_density b_alpha b_beta zip_dot prim primitive b_ld].
    xr_lits. xr_ops. repeat rewrite xsub_Fin. rewrite (xln_neg (1 - 2)) by lra. rewrite xln_pos by lra.
    rewrite xmul_Fin. reflexivity.
  - eexists. split; [apply bernoulli_new_ok; lra|]. split; [reflexivity|].
    eexists. apply bernoulli_ef. lra.
  - eexists. split; [apply geometric_new_ok; lra|]. split; [reflexivity|].
    unfold geometric_expfam, geometric_failure_prob, expfam, default_density, dot_array.
    cbn [ef_density ge_prob zip_dot prim primitive b_ld]. eexists. xr. reflexivity.
Qed.
Lemma boundary_parameters :
  (exists d, binomial_new 3 (fin 0) = Some d /\ binomial_support d 0 = true /\ binomial_ld d 0 = XNaN) /\
  (exists d, bernoulli_new (fin 0) = Some d /\ bernoulli_support d 1 = true /\ bernoulli_ld d 1 = NInf).
Proof.
  split.
  - eexists. split; [apply binomial_new_ok; lra|]. split; [reflexivity|].
    unfold binomial_ld. cbn [bi_n bi_prob Nat.leb]. xr_lits. xr_ops. rewrite xln_zero.
    cbn [INR xmul]. unfold xscale. rewrite Req_b_refl. reflexivity.
  - eexists. split; [apply bernoulli_new_ok; lra|]. split; [reflexivity|].
    cbn [bernoulli_ld be_prob]. xr_ops. apply xln_zero.
Qed.

(** ** C34 *)
Lemma ctors_x (a b : X) (n : nat) :
  (returns (normal_new a b) <-> xpos b) /\
  (returns (exponential_new a) <-> xpos a) /\
  (returns (gamma_new a b) <-> xpos a /\ xpos b) /\
  (returns (beta_new a b) <-> xpos a /\ xpos b) /\
  (returns (chi_new a) <-> xpos a) /\
  (returns (student_new a) <-> xpos a) /\
  (returns (cauchy_new a b) <-> xpos b) /\
  (returns (bernoulli_new a) <-> xprob a) /\
  (returns (binomial_new n a) <-> xprob a) /\
  (returns (poisson_new a) <-> xpos a) /\
  (returns (geometric_new a) <-> xprob a /\ xpos a) /\
  (returns (negbinomial_new n a) <-> (0 < n)%nat /\ exists p, a = Fin p /\ 0 < p < 1).
Proof.
  split; [unfold normal_new; rewrite returns_if; apply x_pos_iff|].
  split; [unfold exponential_new; rewrite returns_if; apply x_pos_iff|].
  split; [unfold gamma_new; rewrite returns_if2, !x_pos_iff; tauto|].
  split; [unfold beta_new; rewrite returns_if2, !x_pos_iff; tauto|].
  split; [unfold chi_new; rewrite returns_if; apply x_pos_iff|].
  split; [unfold student_new; rewrite returns_if; apply x_pos_iff|].
  split; [unfold cauchy_new; rewrite returns_if; apply x_pos_iff|].
  split; [unfold bernoulli_new; rewrite returns_if; apply x_prob_iff|].
  split; [unfold binomial_new; rewrite returns_if; apply x_prob_iff|].
  split; [unfold poisson_new; rewrite returns_if; apply x_pos_iff|].
  split; [unfold geometric_new; rewrite returns_if; apply x_geo_iff|].
  unfold negbinomial_new. rewrite returns_if2, Nat.ltb_lt, x_nb_iff. tauto.
Qed.
End D.

Lemma ctors_f (L : libm) (a b : b64) (n : nat) :
  let f (v : b64) : F64 L := B2SF v in
  (returns (normal_new (f a) (f b)) <-> bpos b) /\
  (returns (exponential_new (f a)) <-> bpos a) /\
  (returns (gamma_new (f a) (f b)) <-> bpos a /\ bpos b) /\
  (returns (beta_new (f a) (f b)) <-> bpos a /\ bpos b) /\
  (returns (chi_new (f a)) <-> bpos a) /\
  (returns (student_new (f a)) <-> bpos a) /\
  (returns (cauchy_new (f a) (f b)) <-> bpos b) /\
  (returns (bernoulli_new (f a)) <-> bprob a) /\
  (returns (binomial_new n (f a)) <-> bprob a) /\
  (returns (poisson_new (f a)) <-> bpos a) /\
  (returns (geometric_new (f a)) <-> is_finite a = true /\ 0 < B2R a <= 1) /\
  (returns (negbinomial_new n (f a)) <-> (0 < n)%nat /\ is_finite a = true /\ 0 < B2R a < 1).
Proof.
  intros f. unfold f.
  split; [unfold normal_new; rewrite returns_if; apply f_pos_iff|].
  split; [unfold exponential_new; rewrite returns_if; apply f_pos_iff|].
  split; [unfold gamma_new; rewrite returns_if2, !f_pos_iff; tauto|].
  split; [unfold beta_new; rewrite returns_if2, !f_pos_iff; tauto|].
  split; [unfold chi_new; rewrite returns_if; apply f_pos_iff|].
  split; [unfold student_new; rewrite returns_if; apply f_pos_iff|].
  split; [unfold cauchy_new; rewrite returns_if; apply f_pos_iff|].
  split; [unfold bernoulli_new; rewrite returns_if; apply f_prob_iff|].
  split; [unfold binomial_new; rewrite returns_if; apply f_prob_iff|].
  split; [unfold poisson_new; rewrite returns_if; apply f_pos_iff|].
  split; [unfold geometric_new; rewrite returns_if; apply f_geo_iff|].
  unfold negbinomial_new. rewrite returns_if2, Nat.ltb_lt, f_nb_iff. tauto.
Qed.

Lemma params_kept (N : Num) (a b : N) (n : nat) :
  (forall d, normal_new a b = Some d -> normal_params d = (a, b)) /\
  (forall d, exponential_new a = Some d -> e_rate d = a) /\
  (forall d, gamma_new a b = Some d -> g_shape d = a /\ g_rate d = b) /\
  (forall d, beta_new a b = Some d -> b_alpha d = a /\ b_beta d = b) /\
  (forall d, chi_new a = Some d -> c_k d = a) /\
  (forall d, student_new a = Some d -> t_nu d = a) /\
  (forall d, cauchy_new a b = Some d -> c_loc d = a /\ c_scale d = b) /\
  (forall d, bernoulli_new a = Some d -> be_prob d = a) /\
  (forall d, binomial_new n a = Some d -> bi_n d = n /\ bi_prob d = a) /\
  (forall d, poisson_new a = Some d -> p_rate d = a) /\
  (forall d, geometric_new a = Some d -> ge_prob d = a) /\
  (forall d, negbinomial_new n a = Some d -> nb_r d = n /\ nb_prob d = a) /\
  (forall ps d, categorical_new ps = Some d -> ca_probs d = (ps : list N)).
Proof.
  unfold normal_new, exponential_new, gamma_new, beta_new, chi_new, student_new, cauchy_new, bernoulli_new,
    binomial_new, poisson_new, geometric_new, negbinomial_new, categorical_new, normal_params.
  split; [|split; [|split; [|split; [|split; [|split; [|split; [|split; [|split; [|split; [|split; [|split]]]]]]]]]]];
  [.. | intros [|p ps]]; intros d H;
  repeat match type of H with context[if ?c then _ else _] => destruct c; [|discriminate H] end;
  try discriminate H; apply some_eq in H; subst d; auto.
Qed.
