(** Natural-parameter round trips (C30). *)
From Coq Require Import ZArith Reals List Bool Lra Lia Arith.
From Verif Require Import Num XRFacts DensitySpec BuilderProofs CoreModel CoreSpec CoreProofs
  CombModel ExpFamModel DistModel DistSpec DistFacts DistProofs DistProofs2.
Import ListNotations.
Local Open Scope R_scope.
Local Open Scope list_scope.

Section D.
Context (lg : R -> R).
Notation X := (XR lg).
Notation fin r := (Fin r : X).
Ltac side := first [ assumption | lra | nra
  | (apply Rgt_not_eq; first [assumption | lra | nra | apply exp_pos])
  | apply exp_pos ].
Ltac xr := xr_with side.
Ltac nat_ := unfold to_natural, expfam; cbn [ef_natural].

(** ** What the constructors keep, for finite parameters *)
Lemma exponential_new_fin l d : exponential_new (fin l) = Some d -> 0 < l /\ d = @mkExponential X (Fin l).
Proof.
  unfold exponential_new. rewrite x_ltb0. destruct (Rltb 0 l) eqn:E; [|discriminate].
  intros H. apply some_eq in H. split; [apply Rltb_true; exact E|auto].
Qed.
Lemma gamma_new_fin a b d : gamma_new (fin a) (fin b) = Some d -> 0 < a /\ 0 < b /\ d = @mkGamma X (Fin a) (Fin b).
Proof.
  unfold gamma_new. rewrite !x_ltb0. destruct (Rltb 0 a) eqn:E; [|discriminate].
  destruct (Rltb 0 b) eqn:E'; [|discriminate].
  intros H. apply some_eq in H. rewrite Rltb_true in E, E'. auto.
Qed.
Lemma beta_new_fin a b d : beta_new (fin a) (fin b) = Some d -> 0 < a /\ 0 < b /\ d = @mkBeta X (Fin a) (Fin b).
Proof.
  unfold beta_new. rewrite !x_ltb0. destruct (Rltb 0 a) eqn:E; [|discriminate].
  destruct (Rltb 0 b) eqn:E'; [|discriminate].
  intros H. apply some_eq in H. rewrite Rltb_true in E, E'. auto.
Qed.
Lemma chi_new_fin k d : chi_new (fin k) = Some d -> 0 < k /\ d = @mkChi X (Fin k).
Proof.
  unfold chi_new. rewrite x_ltb0. destruct (Rltb 0 k) eqn:E; [|discriminate].
  intros H. apply some_eq in H. split; [apply Rltb_true; exact E|auto].
Qed.
Lemma student_new_fin k d : student_new (fin k) = Some d -> 0 < k /\ d = @mkStudent X (Fin k).
Proof.
  unfold student_new. rewrite x_ltb0. destruct (Rltb 0 k) eqn:E; [|discriminate].
  intros H. apply some_eq in H. split; [apply Rltb_true; exact E|auto].
Qed.
Lemma cauchy_new_fin m s d : cauchy_new (fin m) (fin s) = Some d -> 0 < s /\ d = @mkCauchy X (Fin m) (Fin s).
Proof.
  unfold cauchy_new. rewrite x_ltb0. destruct (Rltb 0 s) eqn:E; [|discriminate].
  intros H. apply some_eq in H. split; [apply Rltb_true; exact E|auto].
Qed.
Lemma bernoulli_new_fin p d : bernoulli_new (fin p) = Some d -> 0 <= p <= 1 /\ d = @mkBernoulli X (Fin p).
Proof.
  unfold bernoulli_new. destruct (_ && _) eqn:E; [|discriminate]. apply x_prob_iff in E. cbn in E.
  intros H. apply some_eq in H. auto.
Qed.
Lemma binomial_new_fin n p d : binomial_new n (fin p) = Some d -> 0 <= p <= 1 /\ d = @mkBinomial X n (Fin p).
Proof.
  unfold binomial_new. destruct (_ && _) eqn:E; [|discriminate]. apply x_prob_iff in E. cbn in E.
  intros H. apply some_eq in H. auto.
Qed.
Lemma poisson_new_fin l d : poisson_new (fin l) = Some d -> 0 < l /\ d = @mkPoisson X (Fin l).
Proof.
  unfold poisson_new. rewrite x_ltb0. destruct (Rltb 0 l) eqn:E; [|discriminate].
  intros H. apply some_eq in H. split; [apply Rltb_true; exact E|auto].
Qed.
Lemma geometric_new_fin p d : geometric_new (fin p) = Some d -> 0 < p <= 1 /\ d = @mkGeometric X (Fin p).
Proof.
  unfold geometric_new. destruct (_ && _) eqn:E; [|discriminate]. apply x_geo_iff in E. cbn in E.
  intros H. apply some_eq in H. split; [lra|auto].
Qed.
Lemma negbinomial_new_fin r p d : negbinomial_new r (fin p) = Some d ->
  (0 < r)%nat /\ 0 < p < 1 /\ d = @mkNegBinomial X r (Fin p).
Proof.
  unfold negbinomial_new. destruct (Nat.ltb_spec 0 r); [|discriminate].
  destruct (_ && _) eqn:E; [|discriminate]. apply x_nb_iff in E. destruct E as (q & Eq & Hq).
  injection Eq as <-. intros H'. apply some_eq in H'. auto.
Qed.

(** ** Normal *)
Lemma normal_round m s d : normal_new (fin m) (fin s) = Some d ->
  normal_from_natural (to_natural (normal_expfam d)) = Some d.
Proof.
  intros H. apply normal_new_fin in H. destruct H as [P ->].
  unfold normal_expfam, normal_variance. nat_. unfold normal_from_natural. cbn [n_mean n_sd].
  assert (0 < s * s) by nra. 
  assert (/ (s * s) <> 0) by (apply Rinv_neq_0_compat; lra).
  assert (2 * (-5 / 10 * / (s * s)) <> 0) by nra.
  unfold nrecip; xr_lits; xr_ops; repeat xr_step side.
  replace (1 / (s * s)) with (/ (s * s)) by lra.
  repeat xr_step side.
  replace (- (1 / (2 * (-5 / 10 * / (s * s))))) with (s * s) by (field; lra).
  rewrite xsqrt_nonneg by lra. rewrite sqrt_square by lra.
  replace (m * / (s * s) * (s * s)) with m by (field; lra).
  apply normal_new_ok. exact P.
Qed.
Lemma normal_admissible e1 e2 :
  returns (normal_from_natural [fin e1; fin e2]) <-> e2 < 0.
Proof.
  unfold normal_from_natural. unfold nrecip; xr_lits; xr_ops. rewrite xmul_Fin. split.
  - intros [d E]. destruct (Rtotal_order e2 0) as [|[->|G]]; [assumption|exfalso|exfalso].
    + replace (2 * 0) with 0 in E by lra.
      replace (xdiv (Fin 1) (Fin 0)) with PInf in E.
      2:{ cbn. rewrite Req_b_refl. replace (Req_b 1 0) with false by (symmetry; apply Req_b_false; lra).
          rewrite Rltb_t by lra. reflexivity. }
      cbn [xneg xsqrt] in E. unfold normal_new in E. rewrite x_n0 in E. discriminate E.
    + rewrite xdiv_fin in E by lra. rewrite xneg_Fin in E.
      assert (0 < 1 / (2 * e2)) by (apply Rdiv_lt_0_compat; lra).
      replace (xsqrt (Fin (- (1 / (2 * e2))))) with XNaN in E.
      2:{ unfold xsqrt. rewrite Rltb_t by lra. reflexivity. }
      unfold normal_new in E. rewrite x_n0 in E. discriminate E.
  - intros H. rewrite xdiv_fin, xneg_Fin by lra.
    assert (0 < - (1 / (2 * e2))).
    { replace (- (1 / (2 * e2))) with (/ (2 * - e2)) by (field; lra). apply Rinv_0_lt_compat. lra. }
    rewrite xsqrt_nonneg by lra. rewrite xmul_Fin. eexists. apply normal_new_ok. apply sqrt_lt_R0. assumption.
Qed.
Lemma normal_back e1 e2 d : normal_from_natural [fin e1; fin e2] = Some d ->
  to_natural (normal_expfam d) = [fin e1; fin e2].
Proof.
  intros H. assert (e2 < 0) by (apply (normal_admissible e1); exists d; exact H).
  unfold normal_from_natural in H. revert H. unfold nrecip; xr_lits; xr_ops. rewrite xmul_Fin.
  rewrite xdiv_fin, xneg_Fin by lra.
  assert (P : 0 < - (1 / (2 * e2))).
  { replace (- (1 / (2 * e2))) with (/ (2 * - e2)) by (field; lra). apply Rinv_0_lt_compat. lra. }
  rewrite xsqrt_nonneg by lra. rewrite xmul_Fin. intros H'. apply normal_new_fin in H'. destruct H' as [Ps ->].
  unfold normal_expfam, normal_variance. nat_. cbn [n_mean n_sd]. unfold nrecip; xr_lits; xr_ops.
  rewrite xmul_Fin. rewrite sqrt_sqrt by lra. repeat xr_step side. f_equal; [f_equal; field; lra|].
  f_equal. f_equal. field. lra.
Qed.

(** ** Exponential *)
Lemma exponential_round l d : exponential_new (fin l) = Some d ->
  exponential_from_natural (to_natural (exponential_expfam d)) = Some d.
Proof.
  intros H. apply exponential_new_fin in H as K. destruct K as [P ->].
  unfold exponential_expfam. nat_. unfold exponential_from_natural. cbn [e_rate].
  xr_ops. rewrite !xneg_Fin. rewrite Ropp_involutive. exact H.
Qed.
Lemma exponential_admissible e : returns (exponential_from_natural [fin e]) <-> e < 0.
Proof.
  unfold exponential_from_natural, exponential_new. xr_ops. rewrite xneg_Fin.
  change (xltb ?a ?b) with (@nltb X a b). rewrite x_ltb0, returns_if, Rltb_true. split; lra.
Qed.
Lemma exponential_back e d : exponential_from_natural [fin e] = Some d ->
  to_natural (exponential_expfam d) = [fin e].
Proof.
  unfold exponential_from_natural. xr_ops. rewrite xneg_Fin. intros H. apply exponential_new_fin in H.
  destruct H as [_ ->]. unfold exponential_expfam. nat_. cbn [e_rate]. xr_ops. rewrite xneg_Fin, Ropp_involutive.
  reflexivity.
Qed.

(** ** Gamma *)
Lemma gamma_round a b d : gamma_new (fin a) (fin b) = Some d ->
  gamma_from_natural (to_natural (gamma_expfam d)) = Some d.
Proof.
  intros H. apply gamma_new_fin in H as K. destruct K as (Pa & Pb & ->).
  unfold gamma_expfam. nat_. unfold gamma_from_natural. cbn [g_shape g_rate].
  xr. rewrite Ropp_involutive. replace (a - 1 + 1) with a by lra. exact H.
Qed.
Lemma gamma_admissible e1 e2 : returns (gamma_from_natural [fin e1; fin e2]) <-> -1 < e1 /\ e2 < 0.
Proof.
  unfold gamma_from_natural, gamma_new. xr.
  rewrite returns_if2. cbn [xltb]. rewrite !Rltb_true. split; lra.
Qed.
Lemma gamma_back e1 e2 d : gamma_from_natural [fin e1; fin e2] = Some d ->
  to_natural (gamma_expfam d) = [fin e1; fin e2].
Proof.
  unfold gamma_from_natural. xr. intros H. apply gamma_new_fin in H.
  destruct H as (_ & _ & ->). unfold gamma_expfam. nat_. cbn [g_shape g_rate]. xr.
  rewrite Ropp_involutive. replace (e1 + 1 - 1) with e1 by lra. reflexivity.
Qed.

(** ** Beta *)
Lemma beta_round a b d : beta_new (fin a) (fin b) = Some d ->
  beta_from_natural (to_natural (beta_expfam d)) = Some d.
Proof.
  intros H. apply beta_new_fin in H as K. destruct K as (Pa & Pb & ->).
  unfold beta_expfam. nat_. unfold beta_from_natural. cbn [b_alpha b_beta].
  xr. replace (a - 1 + 1) with a by lra. replace (b - 1 + 1) with b by lra. exact H.
Qed.
Lemma beta_admissible e1 e2 : returns (beta_from_natural [fin e1; fin e2]) <-> -1 < e1 /\ -1 < e2.
Proof.
  unfold beta_from_natural, beta_new. xr.
  rewrite returns_if2. cbn [xltb]. rewrite !Rltb_true. split; lra.
Qed.
Lemma beta_back e1 e2 d : beta_from_natural [fin e1; fin e2] = Some d ->
  to_natural (beta_expfam d) = [fin e1; fin e2].
Proof.
  unfold beta_from_natural. xr. intros H. apply beta_new_fin in H.
  destruct H as (_ & _ & ->). unfold beta_expfam. nat_. cbn [b_alpha b_beta]. xr.
  replace (e1 + 1 - 1) with e1 by lra. replace (e2 + 1 - 1) with e2 by lra. reflexivity.
Qed.

(** ** Chi-squared: the second coordinate is ignored and comes back as -1/2. *)
Lemma chi_round k d : chi_new (fin k) = Some d ->
  chi_from_natural (to_natural (chi_expfam d)) = Some d.
Proof.
  intros H. apply chi_new_fin in H as K. destruct K as (P & ->).
  unfold chi_expfam, chi_shape. nat_. unfold chi_from_natural. cbn [c_k].
  xr. replace (2 * (k / 2 - 1 + 1)) with k by lra. exact H.
Qed.
Lemma chi_admissible e1 e2 : returns (chi_from_natural [fin e1; fin e2]) <-> -1 < e1.
Proof.
  unfold chi_from_natural, chi_new. xr. rewrite returns_if. cbn [xltb]. rewrite Rltb_true. split; lra.
Qed.
Lemma chi_back e1 e2 d : chi_from_natural [fin e1; fin e2] = Some d ->
  to_natural (chi_expfam d) = [fin e1; fin (- (1 / 2))].
Proof.
  unfold chi_from_natural. xr. intros H. apply chi_new_fin in H.
  destruct H as (_ & ->). unfold chi_expfam, chi_shape, chi_rate. nat_. cbn [c_k]. xr.
  replace (2 * (e1 + 1) / 2 - 1) with e1 by lra. reflexivity.
Qed.

(** ** Bernoulli *)
Lemma bernoulli_round p d : 0 < p < 1 -> bernoulli_new (fin p) = Some d ->
  bernoulli_from_natural (to_natural (bernoulli_expfam d)) = Some d.
Proof.
  intros P H. apply bernoulli_new_fin in H as K. destruct K as (_ & ->).
  unfold bernoulli_expfam. nat_. unfold bernoulli_from_natural. cbn [be_prob]. rewrite x_log_odds by exact P.
  pose proof (odds_pos p P). assert (0 < exp (ln (p / (1 - p)))) by apply exp_pos.
  xr. rewrite exp_ln by assumption.
  replace (p / (1 - p) / (1 + p / (1 - p))) with p by (field; lra). exact H.
Qed.
Lemma sigmoid_bounds e : 0 < exp e / (1 + exp e) < 1.
Proof.
  pose proof (exp_pos e). split; [apply Rdiv_lt_0_compat; lra|].
  apply (Rmult_lt_reg_r (1 + exp e)); [lra|]. unfold Rdiv. rewrite Rmult_assoc, Rinv_l by lra. lra.
Qed.
Lemma x_sigmoid e : ndiv (nexp (fin e)) (nadd (n1 : X) (nexp (fin e))) = fin (exp e / (1 + exp e)).
Proof. pose proof (exp_pos e). xr. reflexivity. Qed.
Lemma bernoulli_admissible e : returns (bernoulli_from_natural [fin e]).
Proof.
  unfold bernoulli_from_natural, bernoulli_new. rewrite x_sigmoid. apply returns_if, x_prob_iff.
  pose proof (sigmoid_bounds e). cbn. lra.
Qed.
Lemma bernoulli_back e d : bernoulli_from_natural [fin e] = Some d ->
  to_natural (bernoulli_expfam d) = [fin e].
Proof.
  unfold bernoulli_from_natural. rewrite x_sigmoid. intros H. apply bernoulli_new_fin in H.
  destruct H as (_ & ->). pose proof (sigmoid_bounds e). pose proof (exp_pos e).
  unfold bernoulli_expfam. nat_. cbn [be_prob].
  rewrite x_log_odds by assumption. replace (exp e / (1 + exp e) / (1 - exp e / (1 + exp e))) with (exp e).
  - rewrite ln_exp. reflexivity.
  - field. split; [lra|]. replace (1 + exp e - exp e) with 1 by lra. lra.
Qed.

(** ** Poisson *)
Lemma poisson_round l d : poisson_new (fin l) = Some d ->
  poisson_from_natural (to_natural (poisson_expfam d)) = Some d.
Proof.
  intros H. apply poisson_new_fin in H as K. destruct K as (P & ->).
  unfold poisson_expfam. nat_. unfold poisson_from_natural. cbn [p_rate].
  xr. rewrite exp_ln by exact P. exact H.
Qed.
Lemma poisson_admissible e : returns (poisson_from_natural [fin e]).
Proof.
  unfold poisson_from_natural, poisson_new. xr. apply returns_if. cbn. apply Rltb_t, exp_pos.
Qed.
Lemma poisson_back e d : poisson_from_natural [fin e] = Some d -> to_natural (poisson_expfam d) = [fin e].
Proof.
  unfold poisson_from_natural. xr. intros H. apply poisson_new_fin in H. destruct H as (P & ->).
  unfold poisson_expfam. nat_. cbn [p_rate]. xr. rewrite ln_exp. reflexivity.
Qed.

(** ** Geometric *)
Lemma geometric_round p d : p < 1 -> geometric_new (fin p) = Some d ->
  geometric_from_natural (to_natural (geometric_expfam d)) = Some d.
Proof.
  intros P1 H. apply geometric_new_fin in H as K. destruct K as ([P _] & ->). assert (0 < 1 - p) by lra.
  unfold geometric_expfam, geometric_failure_prob. nat_. unfold geometric_from_natural. cbn [ge_prob].
  xr. rewrite exp_ln by assumption. replace (1 - (1 - p)) with p by lra. exact H.
Qed.
Lemma exp_lt_1 e : exp e < 1 <-> e < 0.
Proof.
  split; intros H; [|rewrite <- exp_0; apply exp_increasing; exact H].
  apply exp_lt_inv. rewrite exp_0. exact H.
Qed.
Lemma geometric_admissible e : returns (geometric_from_natural [fin e]) <-> e < 0.
Proof.
  unfold geometric_from_natural, geometric_new. xr. rewrite returns_if.
  change (xltb ?a ?b) with (@nltb X a b). change (xleb ?a ?b) with (@nleb X a b).
  rewrite <- (x_n0 lg), <- (x_n1 lg). rewrite x_geo_iff. cbn [xprob xpos]. pose proof (exp_pos e). rewrite <- exp_lt_1.
  split; lra.
Qed.
Lemma geometric_back e d : geometric_from_natural [fin e] = Some d -> to_natural (geometric_expfam d) = [fin e].
Proof.
  unfold geometric_from_natural. xr. intros H. apply geometric_new_fin in H. destruct H as (P & ->).
  unfold geometric_expfam, geometric_failure_prob. nat_. cbn [ge_prob]. xr_lits; xr_ops. rewrite xsub_Fin.
  replace (1 - (1 - exp e)) with (exp e) by lra. rewrite xln_pos by apply exp_pos. rewrite ln_exp. reflexivity.
Qed.

(** ** Categorical *)
Definition softmax1 (eta : list R) : list R :=
  let z := 1 + Rsum (map exp eta) in map (fun e => exp e / z) eta ++ [1 / z].
Lemma exp_sum_nonneg eta : 0 <= Rsum (map exp eta).
Proof.
  induction eta as [|e eta IH]; [cbn; lra|]. change (0 <= exp e + Rsum (map exp eta)).
  pose proof (exp_pos e); lra.
Qed.
Lemma x_cat_from eta : categorical_from_natural (fins eta : list X) = categorical_new (fins (softmax1 eta) : list X).
Proof.
  unfold categorical_from_natural, softmax1. pose proof (exp_sum_nonneg eta).
  assert (E : map (@nexp X) (fins eta) = fins (map exp eta)).
  { unfold fins. rewrite !map_map. reflexivity. }
  rewrite E, x_fold_fins, x_n1. xr_ops. rewrite xadd_Fin. f_equal.
  unfold fins. rewrite map_app, !map_map. cbn [map]. rewrite xdiv_fin by lra. f_equal.
  apply map_ext. intros e. rewrite xdiv_fin by lra. reflexivity.
Qed.
Lemma softmax1_sum eta : Rsum (softmax1 eta) = 1.
Proof.
  unfold softmax1. pose proof (exp_sum_nonneg eta). rewrite Rsum_app.
  rewrite <- (map_map exp (fun q => q / (1 + Rsum (map exp eta)))).
  rewrite Rsum_div by lra. change (Rsum [?a]) with (a + 0). field. lra.
Qed.
Lemma softmax1_pos eta : Forall (fun p => 0 < p) (softmax1 eta).
Proof.
  unfold softmax1. pose proof (exp_sum_nonneg eta). apply Forall_app. split.
  - apply Forall_forall. intros q Hq. apply in_map_iff in Hq. destruct Hq as (e & <- & _).
    apply Rdiv_lt_0_compat; [apply exp_pos|lra].
  - constructor; [|constructor]. apply Rdiv_lt_0_compat; lra.
Qed.
Lemma categorical_admissible eta : returns (categorical_from_natural (fins eta : list X)).
Proof.
  rewrite x_cat_from, categorical_new_iff, softmax1_sum. split; [unfold softmax1; destruct eta; discriminate|].
  split; [eapply Forall_impl; [|apply softmax1_pos]; intros; lra|].
  rewrite Rminus_diag_eq, Rabs_R0 by reflexivity. apply Rinv_0_lt_compat, pow_lt; lra.
Qed.
Lemma categorical_back eta d : categorical_from_natural (fins eta : list X) = Some d ->
  to_natural (categorical_expfam d) = (fins eta : list X).
Proof.
  rewrite x_cat_from. intros H. apply categorical_new_keeps in H. destruct d as [ps]. cbn [ca_probs] in H. subst ps.
  unfold categorical_expfam. nat_. unfold softmax1. pose proof (exp_sum_nonneg eta).
  rewrite x_cat_log_odds.
  - rewrite map_map. rewrite (map_ext _ (fun e => e)); [rewrite map_id; reflexivity|].
    intros e. replace (exp e / (1 + Rsum (map exp eta)) / (1 / (1 + Rsum (map exp eta)))) with (exp e) by (field; lra).
    apply ln_exp.
  - apply Rdiv_lt_0_compat; lra.
  - pose proof (softmax1_pos eta) as F. unfold softmax1 in F. apply Forall_app in F. tauto.
Qed.
Lemma categorical_round qs l d : 0 < l -> Forall (fun p => 0 < p) qs -> Rsum (qs ++ [l]) = 1 ->
  categorical_new (fins (qs ++ [l]) : list X) = Some d ->
  categorical_from_natural (to_natural (categorical_expfam d)) = Some d.
Proof.
  intros P F S1 H. apply categorical_new_keeps in H as K. destruct d as [ps]. cbn [ca_probs] in K. subst ps.
  unfold categorical_expfam. nat_. rewrite x_cat_log_odds, x_cat_from by assumption. rewrite <- H. f_equal. f_equal.
  unfold softmax1. rewrite !map_map.
  assert (E : map (fun x => exp (ln (x / l))) qs = map (fun q => q / l) qs).
  { apply map_ext_in. intros q Hq. rewrite Forall_forall in F. apply exp_ln, Rdiv_lt_0_compat; auto. }
  rewrite E, Rsum_div by lra. rewrite Rsum_app in S1. change (Rsum [l]) with (l + 0) in S1.
  replace (1 + Rsum qs / l) with (/ l) by (replace (Rsum qs) with (1 - l) by lra; field; lra).
  f_equal; [|f_equal; field; lra]. rewrite <- (map_id qs) at 2. apply map_ext_in. intros q Hq.
  rewrite Forall_forall in F. rewrite exp_ln by (apply Rdiv_lt_0_compat; auto). field; lra.
Qed.
End D.
