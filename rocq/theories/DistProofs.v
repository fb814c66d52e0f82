(** Direct and exponential-family densities (C29): each is the logarithm of the
    textbook density, or differs from it by a stated amount. *)
From Coq Require Import ZArith Reals List Bool Lra Lia Arith.
From Verif Require Import Num XRFacts DensitySpec BuilderProofs CoreModel CoreSpec CoreProofs
  CombModel ExpFamModel DistModel DistSpec DistFacts.
Import ListNotations.
Local Open Scope R_scope.
Local Open Scope list_scope.

Section D.
Context (lg : R -> R).
Notation X := (XR lg).
Notation fin r := (Fin r : X).

Ltac side := first [ assumption | lra | nra
  | (apply Rgt_not_eq; first [assumption | lra | nra | apply exp_pos])
  | apply exp_pos | apply two_pi_pos
  | (apply Rmult_lt_0_compat; first [assumption | lra | nra | apply two_pi_pos | apply PI_RGT_0 | apply exp_pos]) ].
Ltac xr := xr_with side.
Ltac efopen := unfold zero_overhead, expfam, default_density, dot_array, dot_vec;
  cbn [ef_density ef_natural ef_partition ef_stat ef_base ef_dim b_ld prim primitive zip_dot].

Lemma some_eq {A} (a b : A) : Some a = Some b -> a = b.
Proof. intros H; injection H; auto. Qed.

(** ** Normal *)
Lemma normal_new_fin m s d : normal_new (fin m) (fin s) = Some d -> 0 < s /\ d = @mkNormal X (Fin m) (Fin s).
Proof.
  unfold normal_new. rewrite x_ltb0. destruct (Rltb 0 s) eqn:E; [|discriminate].
  intros H. apply some_eq in H. split; [apply Rltb_true; exact E | symmetry; exact H].
Qed.
Lemma normal_new_ok m s : 0 < s -> normal_new (fin m) (fin s) = Some (@mkNormal X (Fin m) (Fin s)).
Proof. intros H. unfold normal_new. rewrite x_ltb0, Rltb_t by exact H. reflexivity. Qed.

Lemma normal_direct m s x : 0 < s ->
  normal_ld (@mkNormal X (Fin m) (Fin s)) (fin x) = Fin (ln (normal_pdf m s x)).
Proof.
  intros P. pose proof two_pi_pos. rewrite ln_normal_pdf by exact P.
  unfold normal_ld. cbn [n_mean n_sd]. xr. f_equal. field. lra.
Qed.

Lemma ln_sq_pi s : 0 < s -> ln (2 * PI * (s * s)) = ln (2 * PI) + 2 * ln s.
Proof.
  intros P. pose proof two_pi_pos. rewrite (ln_mult (2 * PI)), (ln_mult s s) by (auto; nra). lra.
Qed.

Lemma normal_ef m s x : 0 < s ->
  ef_density (normal_expfam (@mkNormal X (Fin m) (Fin s))) (fin x) = Fin (ln (normal_pdf m s x)).
Proof.
  intros P. pose proof two_pi_pos. assert (0 < s * s) by nra. rewrite ln_normal_pdf by exact P.
  unfold normal_expfam, normal_variance. efopen. cbn [n_mean n_sd]. xr.
  rewrite ln_sq_pi by exact P. f_equal. field. lra.
Qed.

Lemma normal_zero m s x : 0 < s ->
  zero_overhead (normal_expfam (@mkNormal X (Fin m) (Fin s))) (fin x) = Fin (ln (normal_pdf m s x)).
Proof. intros P. rewrite <- normal_ef by exact P. reflexivity. Qed.

Lemma normal_static m s x : 0 < s ->
  compile_normal (fin m) (fin s) (fin x) = Fin (ln (normal_pdf m s x)).
Proof.
  intros P. pose proof two_pi_pos. assert (0 < s * s) by nra. rewrite ln_normal_pdf by exact P.
  unfold compile_normal. xr. rewrite ln_sq_pi by exact P. f_equal. field. lra.
Qed.

(** ** Standard normal *)
Lemma stdnormal_ef x : ef_density (stdnormal_expfam) (fin x) = Fin (ln (normal_pdf 0 1 x)).
Proof.
  pose proof two_pi_pos. rewrite ln_normal_pdf by lra. unfold stdnormal_expfam. efopen. xr.
  rewrite ln_1. f_equal. field.
Qed.

(** ** Exponential *)
Lemma ln_exponential_pdf l x : 0 < l -> ln (exponential_pdf l x) = ln l - l * x.
Proof. intros P. unfold exponential_pdf. rewrite ln_mult, ln_exp by (auto; apply exp_pos). lra. Qed.

Lemma exponential_direct l x : 0 < l -> 0 <= x ->
  exponential_ld (@mkExponential X (Fin l)) (fin x) = Fin (ln (exponential_pdf l x)).
Proof.
  intros P Q. rewrite ln_exponential_pdf by exact P. unfold exponential_ld. cbn [e_rate].
  rewrite x_leb0, Rleb_t by exact Q. xr. reflexivity.
Qed.
Lemma exponential_ef l x : 0 < l ->
  ef_density (exponential_expfam (@mkExponential X (Fin l))) (fin x) = Fin (ln (exponential_pdf l x) - 2 * ln l).
Proof.
  intros P. rewrite ln_exponential_pdf by exact P. unfold exponential_expfam. efopen. cbn [e_rate]. xr.
  f_equal. ring.
Qed.
Lemma exponential_static l x : 0 < l -> 0 <= x ->
  compile_exponential (fin l) (fin x) = Fin (ln (exponential_pdf l x)).
Proof.
  intros P Q. rewrite ln_exponential_pdf by exact P. unfold compile_exponential.
  rewrite x_leb0, Rleb_t by exact Q. xr. reflexivity.
Qed.

(** ** Gamma *)
Lemma ln_gamma_pdf a b x : 0 < x -> 
  ln (gamma_pdf lg a b x) = a * ln b - lg a + (a - 1) * ln x - b * x.
Proof.
  intros P. unfold gamma_pdf, Rdiv, Rpower.
  rewrite !ln_mult, !ln_exp, ln_Rinv, ln_exp by
    (repeat apply Rmult_lt_0_compat; auto using exp_pos, Rinv_0_lt_compat). lra.
Qed.
Lemma gamma_direct a b x : 0 < a -> 0 < b -> 0 < x ->
  gamma_ld (@mkGamma X (Fin a) (Fin b)) (fin x) = Fin (ln (gamma_pdf lg a b x)).
Proof.
  intros P Q H. rewrite ln_gamma_pdf by exact H. unfold gamma_ld. cbn [g_shape g_rate].
  rewrite x_ltb0, Rltb_t by exact H. xr. f_equal.
Qed.
Lemma gamma_ef a b x : 0 < a -> 0 < b -> 0 < x ->
  ef_density (gamma_expfam (@mkGamma X (Fin a) (Fin b))) (fin x) = Fin (ln (gamma_pdf lg a b x)).
Proof.
  intros P Q H. rewrite ln_gamma_pdf by exact H. unfold gamma_expfam. efopen. cbn [g_shape g_rate].
  xr. f_equal. ring.
Qed.

(** ** Beta *)
Lemma ln_beta_pdf a b x : 0 < x < 1 ->
  ln (beta_pdf lg a b x) = lg (a + b) - lg a - lg b + (a - 1) * ln x + (b - 1) * ln (1 - x).
Proof.
  intros P. unfold beta_pdf, Rdiv, Rpower.
  rewrite !ln_mult, !ln_exp, ln_Rinv, ln_mult, !ln_exp by
    (repeat apply Rmult_lt_0_compat; auto using exp_pos, Rinv_0_lt_compat, Rmult_lt_0_compat). lra.
Qed.
Lemma beta_direct a b x : 0 < a -> 0 < b -> 0 < x < 1 ->
  beta_ld (@mkBeta X (Fin a) (Fin b)) (fin x) = Fin (ln (beta_pdf lg a b x)).
Proof.
  intros P Q H. rewrite ln_beta_pdf by exact H. unfold beta_ld. cbn [b_alpha b_beta].
  rewrite x_ltb0, x_ltb1, !Rltb_t by apply H. cbn [andb]. destruct H as [H1 H2]. assert (0 < 1 - x) by lra.
  xr. f_equal.
Qed.
Lemma beta_ef a b x : 0 < a -> 0 < b -> 0 < x < 1 ->
  ef_density (beta_expfam (@mkBeta X (Fin a) (Fin b))) (fin x) = Fin (ln (beta_pdf lg a b x)).
Proof.
  intros P Q H. rewrite ln_beta_pdf by exact H. unfold beta_expfam. efopen. cbn [b_alpha b_beta].
  destruct H as [H1 H2]. assert (0 < 1 - x) by lra. xr. f_equal. ring.
Qed.

(** ** Chi-squared *)
Lemma ln_chi_pdf k x : 0 < x ->
  ln (chi_squared_pdf lg k x) = - (k / 2) * ln 2 - lg (k / 2) + (k / 2 - 1) * ln x - x / 2.
Proof.
  intros P. unfold chi_squared_pdf, Rpower, Rdiv at 1.
  rewrite !ln_mult, !ln_exp, ln_Rinv, ln_mult, !ln_exp by
    (repeat apply Rmult_lt_0_compat; auto using exp_pos, Rinv_0_lt_compat, Rmult_lt_0_compat). lra.
Qed.
Lemma chi_direct k x : 0 < k -> 0 < x ->
  chi_ld (@mkChi X (Fin k)) (fin x) = Fin (ln (chi_squared_pdf lg k x)).
Proof.
  intros P H. rewrite ln_chi_pdf by exact H. unfold chi_ld. cbn [c_k].
  rewrite x_ltb0, Rltb_t by exact H. xr. replace (1 + 1) with 2 by lra. f_equal.
Qed.
Lemma chi_ef k x : 0 < k -> 0 < x ->
  ef_density (chi_expfam (@mkChi X (Fin k))) (fin x) = Fin (ln (chi_squared_pdf lg k x)).
Proof.
  intros P H. rewrite ln_chi_pdf by exact H. unfold chi_expfam, chi_shape, chi_rate. efopen. cbn [c_k].
  xr. f_equal. field.
Qed.

(** ** Student t *)
Lemma ln_student_pdf nu x : 0 < nu ->
  ln (student_pdf lg nu x) =
  lg ((nu + 1) / 2) - lg (nu / 2) - 1 / 2 * ln (nu * PI) - (nu + 1) / 2 * ln (1 + x * x / nu).
Proof.
  intros P. pose proof PI_RGT_0 as Q. assert (0 < nu * PI) by nra.
  unfold student_pdf, Rdiv at 1, Rpower.
  assert (0 < sqrt (nu * PI)) by (apply sqrt_lt_R0; auto).
  rewrite !ln_mult, !ln_exp, ln_Rinv, ln_mult, !ln_exp by
    (repeat apply Rmult_lt_0_compat; auto using exp_pos, Rinv_0_lt_compat, Rmult_lt_0_compat).
  replace (ln (sqrt (nu * PI))) with (1 / 2 * ln (nu * PI)).
  - replace (x ^ 2) with (x * x) by ring. lra.
  - rewrite <- (Rpower_sqrt (nu * PI)) by auto. unfold Rpower. rewrite ln_exp. lra.
Qed.
Lemma student_direct nu x : 0 < nu ->
  student_ld (@mkStudent X (Fin nu)) (fin x) = Fin (ln (student_pdf lg nu x)).
Proof.
  intros P. pose proof PI_RGT_0 as Q. rewrite ln_student_pdf by exact P.
  assert (0 < nu * PI) by nra.
  assert (0 < 1 + x * x / nu).
  { assert (0 <= x * x / nu); [|lra]. apply Rmult_le_pos; [nra|]. left. apply Rinv_0_lt_compat; exact P. }
  unfold student_ld, student_log_pdf, student_log_norm, student_kernel, midpoint1. cbn [t_nu]. xr.
  f_equal. lra.
Qed.

(** ** Cauchy *)
Lemma ln_cauchy_pdf x0 g x : 0 < g ->
  ln (cauchy_pdf x0 g x) = - ln PI - ln g - ln (1 + (x - x0) / g * ((x - x0) / g)).
Proof.
  intros P. pose proof PI_RGT_0 as Q. unfold cauchy_pdf.
  replace (((x - x0) / g) ^ 2) with ((x - x0) / g * ((x - x0) / g)) by ring.
  set (z := (x - x0) / g). assert (0 < 1 + z * z) by nra.
  assert (0 < PI * g) by (apply Rmult_lt_0_compat; auto).
  rewrite ln_Rinv, (ln_mult (PI * g)), (ln_mult PI g) by (auto; apply Rmult_lt_0_compat; auto). lra.
Qed.
Lemma cauchy_direct x0 g x : 0 < g ->
  cauchy_ld (@mkCauchy X (Fin x0) (Fin g)) (fin x) = Fin (ln (cauchy_pdf x0 g x)) /\
  cauchy_log_pdf (@mkCauchy X (Fin x0) (Fin g)) (fin x) = Fin (ln (cauchy_pdf x0 g x)).
Proof.
  intros P. pose proof PI_RGT_0 as Q. rewrite ln_cauchy_pdf by exact P.
  assert (0 < 1 + (x - x0) / g * ((x - x0) / g)).
  { pose proof (Rle_0_sqr ((x - x0) / g)) as S0; unfold Rsqr in S0; lra. }
  split; [unfold cauchy_ld | unfold cauchy_log_pdf]; cbn [c_loc c_scale]; xr; f_equal; lra.
Qed.

(** ** Bernoulli *)
Lemma odds_pos p : 0 < p < 1 -> 0 < p / (1 - p).
Proof. intros H. apply Rmult_lt_0_compat; [lra|]. apply Rinv_0_lt_compat; lra. Qed.
Lemma one_plus_odds p : 0 < p < 1 -> ln (1 + exp (ln (p / (1 - p)))) = - ln (1 - p).
Proof.
  intros H. rewrite exp_ln by (apply odds_pos; exact H).
  replace (1 + p / (1 - p)) with (/ (1 - p)) by (field; lra). apply ln_Rinv; lra.
Qed.
Lemma ln_odds p : 0 < p < 1 -> ln (p / (1 - p)) = ln p - ln (1 - p).
Proof. intros H. unfold Rdiv. rewrite ln_mult, ln_Rinv by (try apply Rinv_0_lt_compat; lra). lra. Qed.

Lemma bernoulli_direct p k : 0 < p < 1 -> (k <= 1)%nat ->
  bernoulli_ld (@mkBernoulli X (Fin p)) k = Fin (ln (bernoulli_pmf p k)).
Proof.
  intros H K. destruct H as [H1 H2]. unfold bernoulli_ld. cbn [be_prob].
  destruct k as [|[|k]]; [| |lia]; cbn [bernoulli_pmf]; assert (0 < 1 - p) by lra; xr; reflexivity.
Qed.
Lemma x_log_odds p : 0 < p < 1 -> (log_odds (fin p) : X) = Fin (ln (p / (1 - p))).
Proof.
  intros H. pose proof (odds_pos p H). unfold log_odds. xr. reflexivity.
Qed.
Lemma bernoulli_ef p k : 0 < p < 1 ->
  ef_density (bernoulli_expfam (@mkBernoulli X (Fin p))) k =
  Fin (INR k * ln p + (1 - INR k) * ln (1 - p)).
Proof.
  intros H. unfold bernoulli_expfam. efopen. cbn [be_prob]. rewrite x_log_odds by exact H.
  assert (0 < 1 + exp (ln (p / (1 - p)))) by (pose proof (exp_pos (ln (p / (1 - p)))); lra).
  xr. rewrite one_plus_odds, ln_odds by exact H. f_equal. ring.
Qed.

(** ** Binomial *)
Lemma C_pos n k : (k <= n)%nat -> 0 < C n k.
Proof.
  intros H. unfold C. apply Rmult_lt_0_compat; [apply INR_fact_lt_0|].
  apply Rinv_0_lt_compat, Rmult_lt_0_compat; apply INR_fact_lt_0.
Qed.
Lemma ln_pow_nat a n : 0 < a -> ln (a ^ n) = INR n * ln a.
Proof.
  intros H. induction n as [|n IH]; [cbn; rewrite ln_1; lra|].
  rewrite S_INR. cbn [pow]. rewrite ln_mult, IH by (auto using pow_lt). lra.
Qed.
Lemma ln_C n k : (k <= n)%nat ->
  ln (C n k) = ln (INR (fact n)) - ln (INR (fact k)) - ln (INR (fact (n - k))).
Proof.
  intros H. unfold C, Rdiv. pose proof INR_fact_lt_0 as F.
  pose proof (F n). pose proof (F k). pose proof (F (n - k)%nat).
  assert (0 < INR (fact k) * INR (fact (n - k))) by (apply Rmult_lt_0_compat; assumption).
  rewrite ln_mult by (auto; apply Rinv_0_lt_compat; auto). rewrite ln_Rinv, ln_mult by auto. lra.
Qed.
Lemma ln_binomial_pmf n p k : 0 < p < 1 -> (k <= n)%nat ->
  ln (binomial_pmf n p k) = ln (C n k) + INR k * ln p + (INR n - INR k) * ln (1 - p).
Proof.
  intros H K. unfold binomial_pmf. apply Nat.leb_le in K as K'. rewrite K'.
  pose proof (C_pos n k K). assert (0 < p ^ k) by (apply pow_lt; lra).
  assert (0 < (1 - p) ^ (n - k)) by (apply pow_lt; lra).
  rewrite ln_mult, ln_mult, !ln_pow_nat, minus_INR by (auto using Rmult_lt_0_compat; lra). lra.
Qed.

(** [lg] agrees with the logarithm of the factorial at integers. *)
Definition lg_factorial := forall n : nat, lg (INR (S n)) = ln (INR (fact n)).

Lemma x_binomial_coefficient n k : lg_factorial -> (k <= n)%nat ->
  (log_binomial_coefficient n k : X) = Fin (ln (C n k)).
Proof.
  intros L K. unfold log_binomial_coefficient.
  replace (Nat.ltb n k) with false by (symmetry; apply Nat.ltb_ge; exact K).
  xr. replace (INR n - INR k + 1) with (INR (S (n - k))) by (rewrite S_INR, minus_INR by exact K; lra).
  replace (INR n + 1) with (INR (S n)) by (rewrite S_INR; lra).
  replace (INR k + 1) with (INR (S k)) by (rewrite S_INR; lra).
  rewrite !L, ln_C by exact K. reflexivity.
Qed.

Lemma binomial_ef n p k : lg_factorial -> 0 < p < 1 -> (k <= n)%nat ->
  ef_density (binomial_expfam (@mkBinomial X n (Fin p))) k = Fin (ln (binomial_pmf n p k)).
Proof.
  intros L H K. rewrite ln_binomial_pmf by assumption. unfold binomial_expfam. efopen.
  cbn [bi_n bi_prob binomial_measure b_ld]. rewrite x_log_odds by exact H.
  replace (Nat.ltb n k) with false by (symmetry; apply Nat.ltb_ge; exact K).
  rewrite x_binomial_coefficient by assumption.
  assert (0 < 1 + exp (ln (p / (1 - p)))) by (pose proof (exp_pos (ln (p / (1 - p)))); lra).
  xr. rewrite one_plus_odds, ln_odds by exact H. f_equal. ring.
Qed.
Lemma binomial_direct n p k : 0 < p < 1 -> (k <= n)%nat ->
  binomial_ld (@mkBinomial X n (Fin p)) k = Fin (ln (binomial_pmf n p k) - ln (C n k)).
Proof.
  intros H K. rewrite ln_binomial_pmf by assumption. destruct H as [H1 H2]. assert (0 < 1 - p) by lra.
  unfold binomial_ld. cbn [bi_n bi_prob]. apply Nat.leb_le in K. rewrite K. xr. f_equal. ring.
Qed.

(** ** Poisson *)
Lemma ln_fact k : ln (INR (fact k)) = Rsum (map (fun i => ln (INR i)) (seq 1 k)).
Proof.
  induction k as [|k IH]; [cbn; apply ln_1|].
  rewrite seq_S, map_app. change (fact (S k)) with (S k * fact k)%nat.
  rewrite mult_INR, ln_mult, IH by (try apply INR_fact_lt_0; apply lt_0_INR; lia).
  assert (A : forall l a, Rsum (l ++ [a]) = Rsum l + a).
  { induction l as [|b l I]; intros a; [change (a + 0 = 0 + a); lra|].
    change (b + Rsum (l ++ [a]) = b + Rsum l + a). rewrite I; lra. }
  cbn [map]. rewrite A. replace (1 + k)%nat with (S k) by lia. lra.
Qed.
Lemma x_log_fact_fold k : fold_left (fun acc i => nadd acc (nln (nofn i))) (seq 1 k) (n0 : X) =
  Fin (ln (INR (fact k))).
Proof.
  induction k as [|k IH]; [cbn [seq fold_left fact]; rewrite x_n0; cbn; rewrite ln_1; reflexivity|].
  rewrite seq_S, fold_left_app, IH. cbn [fold_left]. replace (1 + k)%nat with (S k) by lia.
  assert (0 < INR (S k)) by (apply lt_0_INR; lia). xr.
  change (fact (S k)) with (S k * fact k)%nat.
  rewrite mult_INR, ln_mult by (try apply INR_fact_lt_0; auto). f_equal. lra.
Qed.
Lemma ln_poisson_pmf l k : 0 < l -> ln (poisson_pmf l k) = INR k * ln l - l - ln (INR (fact k)).
Proof.
  intros P. unfold poisson_pmf, Rdiv. pose proof (INR_fact_lt_0 k).
  assert (0 < l ^ k) by (apply pow_lt; lra). pose proof (exp_pos (- l)).
  assert (0 < / INR (fact k)) by (apply Rinv_0_lt_compat; assumption).
  rewrite ln_mult, ln_mult, ln_pow_nat, ln_exp, ln_Rinv by (auto using Rmult_lt_0_compat). lra.
Qed.
Lemma poisson_direct l k : 0 < l ->
  poisson_ld (@mkPoisson X (Fin l)) k = Fin (ln (poisson_pmf l k)).
Proof.
  intros P. rewrite ln_poisson_pmf by exact P. unfold poisson_ld. cbn [p_rate].
  rewrite x_log_fact_fold. xr. reflexivity.
Qed.
Lemma poisson_ef l k v : 0 < l -> (log_factorial k : X) = Fin v ->
  ef_density (poisson_expfam (@mkPoisson X (Fin l))) k =
  Fin (ln (poisson_pmf l k) + (ln (INR (fact k)) - v)).
Proof.
  intros P V. rewrite ln_poisson_pmf by exact P. unfold poisson_expfam, factorial_measure. efopen.
  cbn [p_rate]. rewrite V. xr. f_equal. ring.
Qed.

(** ** Geometric *)
Lemma ln_geometric_pmf p j : 0 < p < 1 -> ln (geometric_pmf p (S j)) = INR j * ln (1 - p) + ln p.
Proof. intros H. cbn [geometric_pmf]. rewrite ln_mult, ln_pow_nat by (try apply pow_lt; lra). lra. Qed.
Lemma geometric_direct p k : 0 < p < 1 -> (1 <= k)%nat ->
  geometric_ld (@mkGeometric X (Fin p)) k = Fin (ln (geometric_pmf p k)).
Proof.
  intros H K. destruct k as [|j]; [lia|]. rewrite ln_geometric_pmf by exact H.
  unfold geometric_ld. cbn [ge_prob]. destruct H as [H1 H2]. assert (0 < 1 - p) by lra. 
  change (Nat.leb 1 (S j)) with true. cbn iota. xr. rewrite S_INR. f_equal. ring.
Qed.
Lemma geometric_direct_one k : (1 <= k)%nat ->
  geometric_ld (@mkGeometric X (Fin 1)) k = if Nat.eqb k 1 then XNaN else NInf.
Proof.
  intros K. unfold geometric_ld. cbn [ge_prob]. apply Nat.leb_le in K as K'. rewrite K'.
  xr_lits. xr_ops. rewrite !xsub_Fin. replace (1 - 1) with 0 by lra. rewrite xln_zero, xln_pos by lra.
  rewrite ln_1. cbn [xmul]. unfold xscale. destruct k as [|[|k]]; [lia| |].
  - cbn [INR]. replace (1 - 1) with 0 by lra. rewrite Req_b_refl. reflexivity.
  - pose proof (lt_0_INR (S k) ltac:(lia)). rewrite (S_INR (S k)).
    replace (INR (S k) + 1 - 1) with (INR (S k)) by lra.
    replace (Req_b (INR (S k)) 0) with false by (symmetry; apply Req_b_false; lra).
    rewrite Rltb_t by lra. reflexivity.
Qed.
Lemma geometric_ef p k : 0 < p < 1 -> (1 <= k)%nat ->
  ef_density (geometric_expfam (@mkGeometric X (Fin p))) k = Fin (ln (geometric_pmf p k) + ln (1 - p)).
Proof.
  intros H K. destruct k as [|j]; [lia|]. rewrite ln_geometric_pmf by exact H.
  unfold geometric_expfam, geometric_failure_prob. efopen. cbn [ge_prob].
  destruct H as [H1 H2]. assert (0 < 1 - p) by lra. xr. rewrite S_INR. f_equal. ring.
Qed.

(** ** Negative binomial *)
Lemma ln_negbinomial_pmf r p k : (0 < r)%nat -> 0 < p < 1 ->
  ln (negbinomial_pmf r p k) = ln (C (k + r - 1) k) + INR k * ln p + INR r * ln (1 - p).
Proof.
  intros Rp H. unfold negbinomial_pmf. assert (0 < C (k + r - 1) k) by (apply C_pos; lia).
  assert (0 < p ^ k) by (apply pow_lt; lra). assert (0 < (1 - p) ^ r) by (apply pow_lt; lra).
  rewrite ln_mult, ln_mult, !ln_pow_nat by (auto using Rmult_lt_0_compat; lra). lra.
Qed.
Lemma x_negbinomial_coefficient r k : lg_factorial -> (0 < r)%nat ->
  (log_negative_binomial_coefficient r k : X) = Fin (ln (C (k + r - 1) k)).
Proof.
  intros L Rp. unfold log_negative_binomial_coefficient. xr.
  destruct r as [|r]; [lia|]. replace (INR k + INR (S r)) with (INR (S (k + r))) by (rewrite !S_INR, plus_INR; lra).
  replace (INR k + 1) with (INR (S k)) by (rewrite S_INR; lra).
  rewrite !L, ln_C by lia. replace (k + S r - 1)%nat with (k + r)%nat by lia.
  replace (k + r - k)%nat with r by lia. reflexivity.
Qed.
Lemma negbinomial_direct r p k : 0 < p < 1 -> 
  negbinomial_ld (@mkNegBinomial X r (Fin p)) k = Fin (INR r * ln p + INR k * ln (1 - p)).
Proof.
  intros [H1 H2]. assert (0 < 1 - p) by lra. unfold negbinomial_ld. cbn [nb_r nb_prob]. xr. reflexivity.
Qed.
Lemma sigmoid_odds p : 0 < p < 1 -> 1 - exp (ln (p / (1 - p))) / (1 + exp (ln (p / (1 - p)))) = 1 - p.
Proof.
  intros H. rewrite exp_ln by (apply odds_pos; exact H). field. split; [lra|].
  replace (1 - p + p) with 1 by lra. lra.
Qed.
Lemma negbinomial_ef r p k : lg_factorial -> (0 < r)%nat -> 0 < p < 1 ->
  ef_density (negbinomial_expfam (@mkNegBinomial X r (Fin p))) k =
  Fin (ln (negbinomial_pmf r p k) - INR k * ln (1 - p)).
Proof.
  intros L Rp H. rewrite ln_negbinomial_pmf by assumption. unfold negbinomial_expfam, negative_binomial_measure.
  efopen. cbn [nb_r nb_prob]. rewrite x_log_odds by exact H. rewrite x_negbinomial_coefficient by assumption.
  pose proof (exp_pos (ln (p / (1 - p)))) as E.
  xr_lits. xr_ops. repeat rewrite ?xexp_Fin, ?xadd_Fin. rewrite xdiv_fin by lra. rewrite xsub_Fin, sigmoid_odds by exact H.
  assert (0 < 1 - p) by lra. xr. rewrite ln_odds by exact H. f_equal. ring.
Qed.

(** ** Categorical *)
Lemma nth_fins ps k : nth k (fins ps) (n0 : X) = Fin (nth k ps 0).
Proof.
  rewrite x_n0. unfold fins. revert k. induction ps as [|p ps IH]; intros [|k]; cbn; auto.
Qed.
Lemma categorical_direct ps k : (k < length ps)%nat -> 0 < nth k ps 0 ->
  categorical_ld (@mkCategorical X (fins ps)) k = Fin (ln (categorical_pmf ps k)).
Proof.
  intros K P. unfold categorical_ld, categorical_pmf. cbn [ca_probs].
  unfold fins at 1. rewrite map_length. apply Nat.ltb_lt in K. rewrite K, nth_fins. xr. reflexivity.
Qed.

Definition unit_vec (n k : nat) : list R := map (fun i => if Nat.eqb i k then 1 else 0) (seq 0 n).
Lemma unit_vec_shift n k a : map (fun i => if Nat.eqb i (k + a) then 1 else 0) (seq a n) = unit_vec n k.
Proof.
  unfold unit_vec. apply nth_ext with (d := 0) (d' := 0).
  - rewrite !map_length, !seq_length. reflexivity.
  - intros i Hi. rewrite map_length, seq_length in Hi.
    set (f := fun i => if Nat.eqb i (k + a) then 1 else 0).
    set (g := fun i => if Nat.eqb i k then 1 else 0).
    rewrite (nth_indep _ 0 (f 0%nat)), (nth_indep (map g _) 0 (g 0%nat)) by
      (rewrite map_length, seq_length; exact Hi).
    rewrite !map_nth, !seq_nth by exact Hi. unfold f, g.
    replace (0 + i =? k)%nat with (a + i =? k + a)%nat; [reflexivity|].
    destruct (Nat.eqb_spec (a + i) (k + a)), (Nat.eqb_spec (0 + i) k); auto; lia.
Qed.
Lemma rdot_unit l : forall k, rdot l (unit_vec (length l) k) = nth k l 0.
Proof.
  induction l as [|a l IH]; intros k; [destruct k; reflexivity|].
  cbn [length]. unfold unit_vec. cbn [seq map].
  change (rdot (a :: l) ?v) with (rdot (a :: l) v). unfold rdot. cbn [combine map].
  change (Rsum ((?u) :: ?w)) with (u + Rsum w). cbn [fst snd].
  destruct k as [|k].
  - cbn [Nat.eqb nth]. replace (map (fun i => if Nat.eqb i 0 then 1 else 0) (seq 1 (length l)))
      with (map (fun _ : nat => 0) (seq 1 (length l))).
    + assert (Z : forall n m, Rsum (map (fun p : R * R => fst p * snd p) (combine l (map (fun _ : nat => 0) (seq n m)))) = 0).
      { clear. induction l as [|b l I]; intros n [|m]; cbn [seq map combine]; try reflexivity.
        change (b * 0 + Rsum (map (fun p : R * R => fst p * snd p) (combine l (map (fun _ : nat => 0) (seq (S n) m)))) = 0).
        rewrite I. lra. }
      rewrite Z. lra.
    + apply map_ext_in. intros i Hi. apply in_seq in Hi. destruct i; [lia|reflexivity].
  - cbn [Nat.eqb nth]. replace (S k) with (k + 1)%nat by lia. rewrite unit_vec_shift.
    fold (rdot l (unit_vec (length l) k)). rewrite IH. lra.
Qed.
Lemma Rsum_app l l' : Rsum (l ++ l') = Rsum l + Rsum l'.
Proof.
  induction l as [|a l IH]; [change (Rsum l' = 0 + Rsum l'); lra|].
  change (a + Rsum (l ++ l') = a + Rsum l + Rsum l'). rewrite IH; lra.
Qed.
Lemma Rsum_pos l : Forall (fun p => 0 < p) l -> l <> [] -> 0 < Rsum l.
Proof.
  intros F. induction F as [|a l P F IH]; [congruence|]. intros _.
  change (0 < a + Rsum l). destruct l as [|b l]; [change (0 < a + 0); lra|].
  assert (0 < Rsum (b :: l)) by (apply IH; discriminate). lra.
Qed.
Lemma Rsum_div l c : c <> 0 -> Rsum (map (fun q => q / c) l) = Rsum l / c.
Proof.
  intros Hc. induction l as [|a l IH]; [change (0 = 0 / c); field; auto|].
  change (a / c + Rsum (map (fun q => q / c) l) = (a + Rsum l) / c). rewrite IH. field; auto.
Qed.

Lemma firstn_init {A} (qs : list A) l : firstn (length (qs ++ [l]) - 1) (qs ++ [l]) = qs.
Proof.
  rewrite app_length. cbn [length]. replace (length qs + 1 - 1)%nat with (length qs + 0)%nat by lia.
  rewrite firstn_app_2. cbn. apply app_nil_r.
Qed.
Lemma nth_last (qs : list R) l : nth (length (qs ++ [l]) - 1) (qs ++ [l]) 0 = l.
Proof.
  rewrite app_length. cbn [length]. rewrite app_nth2 by lia.
  replace (length qs + 1 - 1 - length qs)%nat with 0%nat by lia. reflexivity.
Qed.
Lemma fins_length ps : length (fins ps) = length ps. Proof. apply map_length. Qed.
Lemma x_cat_log_odds qs l : 0 < l -> Forall (fun p => 0 < p) qs ->
  categorical_log_odds (@mkCategorical X (fins (qs ++ [l]))) = fins (map (fun q => ln (q / l)) qs).
Proof.
  intros L F. unfold categorical_log_odds. cbn [ca_probs]. rewrite fins_length, nth_fins, nth_last.
  rewrite <- fins_length. unfold fins. rewrite map_app. cbn [map]. rewrite firstn_init.
  rewrite !map_map. apply map_ext_in. intros q Hq. rewrite Forall_forall in F. specialize (F q Hq).
  assert (0 < q / l) by (apply Rmult_lt_0_compat; [exact F|apply Rinv_0_lt_compat; exact L]).
  xr. reflexivity.
Qed.
Lemma x_cat_partition qs l : 0 < l -> Forall (fun p => 0 < p) qs ->
  categorical_partition (@mkCategorical X (fins (qs ++ [l]))) = Fin (ln (Rsum (qs ++ [l])) - ln l).
Proof.
  intros L F. unfold categorical_partition. rewrite x_cat_log_odds by assumption.
  rewrite fold_left_xsum, x_n0, x_n1, xadd_0_l.
  replace (map (@nexp X) (fins (map (fun q => ln (q / l)) qs))) with (fins (map (fun q => q / l) qs)).
  2:{ unfold fins. rewrite !map_map. apply map_ext_in. intros q Hq.
      rewrite Forall_forall in F. specialize (F q Hq).
      assert (0 < q / l) by (apply Rmult_lt_0_compat; [exact F|apply Rinv_0_lt_compat; exact L]).
      xr. rewrite exp_ln by assumption. reflexivity. }
  rewrite xsum_fins, Rsum_div by lra. rewrite Rsum_app. change (Rsum [l]) with (l + 0).
  assert (0 < Rsum (qs ++ [l])).
  { apply Rsum_pos; [apply Forall_app; split; auto|destruct qs; discriminate]. }
  rewrite Rsum_app in H. change (Rsum [l]) with (l + 0) in H.
  xr_ops. rewrite xadd_Fin. replace (1 + Rsum qs / l) with ((Rsum qs + (l + 0)) * / l) by (field; lra).
  rewrite xln_pos by (apply Rmult_lt_0_compat; [exact H|apply Rinv_0_lt_compat; exact L]).
  rewrite ln_mult, ln_Rinv by (auto; apply Rinv_0_lt_compat; exact L). reflexivity.
Qed.
Lemma x_cat_stat qs l k : (k < length (qs ++ [l]))%nat ->
  categorical_stat (@mkCategorical X (fins (qs ++ [l]))) k = fins (unit_vec (length qs) k).
Proof.
  intros K. unfold categorical_stat, unit_vec, fins. cbn [ca_probs]. rewrite map_length, app_length, map_map in *.
  cbn [length] in *. replace (length qs + 1 - 1)%nat with (length qs) by lia.
  apply map_ext_in. intros i Hi. apply in_seq in Hi. rewrite x_n0, x_n1.
  destruct (Nat.eqb_spec i k).
  - subst. replace (k <? length qs)%nat with true by (symmetry; apply Nat.ltb_lt; lia). reflexivity.
  - rewrite andb_false_r. reflexivity.
Qed.
Lemma categorical_ef qs l k : 0 < l -> Forall (fun p => 0 < p) qs -> (k < length (qs ++ [l]))%nat ->
  ef_density (categorical_expfam (@mkCategorical X (fins (qs ++ [l])))) k =
  Fin (ln (categorical_pmf (qs ++ [l]) k) - ln (Rsum (qs ++ [l]))).
Proof.
  intros L F K. unfold categorical_expfam, categorical_pmf. cbn [ef_density].
  unfold categorical_support. cbn [ca_probs]. rewrite fins_length.
  apply Nat.ltb_lt in K as K'. rewrite K'. clear K'.
  rewrite x_cat_log_odds, x_cat_partition, x_cat_stat, dot_vec_fin by assumption.
  rewrite <- (map_length (fun q => ln (q / l)) qs) at 1. rewrite rdot_unit.
  cbn [prim primitive b_ld]. rewrite x_n0. xr_ops. rewrite xsub_Fin, xadd_Fin. f_equal.
  destruct (Nat.lt_ge_cases k (length qs)) as [Lt|Ge].
  - rewrite (nth_indep _ 0 (ln (0 / l))) by (rewrite map_length; exact Lt).
    rewrite (map_nth (fun q => ln (q / l))). rewrite app_nth1 by exact Lt.
    assert (0 < nth k qs 0) by (rewrite Forall_forall in F; apply F, nth_In, Lt).
    unfold Rdiv. rewrite ln_mult, ln_Rinv by (auto; apply Rinv_0_lt_compat; exact L). lra.
  - rewrite nth_overflow by (rewrite map_length; exact Ge).
    rewrite app_length in K. cbn [length] in K. assert (k = length qs) by lia. subst k.
    rewrite app_nth2 by lia. rewrite Nat.sub_diag. cbn [nth]. lra.
Qed.

End D.
