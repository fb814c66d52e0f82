(** Normalisation and moments of the continuous distributions (C32, C35). *)
From Coquelicot Require Import Coquelicot.
From Coq Require Import ZArith Reals List Bool Lra Lia Arith.
From Verif Require Import Num XRFacts DensitySpec BuilderProofs CoreModel CoreSpec CoreProofs
  CombModel CombSpec CombProofs2 ExpFamModel DistModel DistSpec DistFacts DistProofs DistProofs2 DistProofs3 DistProofs4 DistProofs5
  DiscProofs2 IntSpec Improper GammaFun ContProofs.
Import ListNotations.
Local Open Scope R_scope.
Local Open Scope list_scope.
Local Notation fin lg r := (Fin r : XR lg).

Lemma exponential_pdf_pos l x : 0 < l -> 0 < exponential_pdf l x.
Proof. intros P. apply Rmult_lt_0_compat; [exact P|apply exp_pos]. Qed.
Lemma gamma_pdf_pos lg a b x : 0 < gamma_pdf lg a b x.
Proof. unfold gamma_pdf. repeat apply Rmult_lt_0_compat; try apply rp_pos; try apply exp_pos. apply Rinv_0_lt_compat, exp_pos. Qed.
Lemma beta_pdf_pos lg a b x : 0 < beta_pdf lg a b x.
Proof.
  unfold beta_pdf. repeat apply Rmult_lt_0_compat; try apply rp_pos; try apply exp_pos.
  apply Rinv_0_lt_compat, Rmult_lt_0_compat; apply exp_pos.
Qed.
Lemma chi_pdf_pos lg k x : 0 < chi_squared_pdf lg k x.
Proof. rewrite chi_is_gamma. apply gamma_pdf_pos. Qed.
Lemma student_pdf_pos lg nu x : 0 < nu -> 0 < student_pdf lg nu x.
Proof.
  intros N. pose proof PI_RGT_0. assert (0 < sqrt (nu * PI)) by (apply sqrt_lt_R0, Rmult_lt_0_compat; lra).
  unfold student_pdf. repeat apply Rmult_lt_0_compat; try apply rp_pos; try apply exp_pos.
  apply Rinv_0_lt_compat, Rmult_lt_0_compat; [assumption|apply exp_pos].
Qed.
Lemma cauchy_pdf_pos m s x : 0 < s -> 0 < cauchy_pdf m s x.
Proof.
  intros P. pose proof PI_RGT_0. pose proof (pow2_ge_0 ((x - m) / s)). unfold cauchy_pdf. apply Rinv_0_lt_compat.
  apply Rmult_lt_0_compat; [apply Rmult_lt_0_compat; lra|]. set (u := ((x - m) / s) ^ 2) in *. lra.
Qed.

(** [ld] is the logarithm of [f] within (A,B) and -inf elsewhere. *)
Definition log_of (A B : Rbar) (ld : xreal -> xreal) (f : R -> R) : Prop :=
  (forall x, inside A B x -> ld (Fin x) = Fin (ln (f x)) /\ 0 < f x) /\
  (forall x, is_logdens (ld (Fin x))) /\ (forall x : R, Rbar_lt x A \/ Rbar_lt B x -> dens (ld (Fin x)) = 0).
Lemma log_of_dens A B ld f x : log_of A B ld f -> inside A B x -> f x = dens (ld (Fin x)).
Proof. intros (H & _) I. destruct (H x I) as [-> P]. cbn [dens]. rewrite exp_ln by exact P. reflexivity. Qed.
Lemma log_of_total A B ld f v : log_of A B ld f -> integral A B f v -> density_total A B ld v.
Proof.
  intros L H. split; [apply L|]. split; [apply L|]. revert H. apply integral_ext. intros x I. apply (log_of_dens A B ld f x L I).
Qed.
Lemma log_of_mean A B ld f v : log_of A B ld f -> integral A B (fun x => x * f x) v -> density_mean A B ld v.
Proof. intros L. apply integral_ext. intros x I. rewrite (log_of_dens A B ld f x L I). reflexivity. Qed.
Lemma log_of_variance A B ld f m v : log_of A B ld f -> integral A B (fun x => (x - m) ^ 2 * f x) v -> density_variance A B ld m v.
Proof. intros L. apply integral_ext. intros x I. rewrite (log_of_dens A B ld f x L I). reflexivity. Qed.
Lemma log_of_line ld f : (forall x, ld (Fin x) = Fin (ln (f x))) -> (forall x, 0 < f x) -> log_of m_infty p_infty ld f.
Proof.
  intros E P. split; [auto|]. split; [intros x; left; eauto|]. intros x [H|H]; destruct H.
Qed.
Lemma log_of_cut A B ld f (supp : xreal -> bool) : (forall x, inside A B x -> ld (Fin x) = Fin (ln (f x))) -> (forall x, inside A B x -> 0 < f x) ->
  (forall x, supp (Fin x) = true <-> inside A B x) -> log_of A B (on_region supp ld) f.
Proof.
  intros E P Sp. unfold on_region. split; [|split].
  - intros x I. rewrite (proj2 (Sp x) I). auto.
  - intros x. destruct (supp (Fin x)) eqn:Q; [|right; reflexivity]. apply Sp in Q. rewrite E by exact Q. left; eauto.
  - intros x O. destruct (supp (Fin x)) eqn:Q; [|reflexivity]. exfalso. apply Sp in Q. destruct Q as [Q1 Q2].
    destruct O as [O|O]; [apply (Rbar_lt_not_le _ _ Q1), Rbar_lt_le, O|apply (Rbar_lt_not_le _ _ Q2), Rbar_lt_le, O].
Qed.
(** A log-density that is already -inf off its support is its own cut. *)
Lemma log_of_ext A B ld ld' f : (forall x, ld (Fin x) = ld' (Fin x)) -> log_of A B ld f -> log_of A B ld' f.
Proof.
  intros E (H1 & H2 & H3). split; [|split]; intros x; [intros I|intros|intros I]; rewrite <- E; auto.
Qed.

Section M.
Context (lg : R -> R).
Notation X := (XR lg).
Ltac side := first [ assumption | lra | nra ].
Ltac xr := xr_with side.
Lemma supp_pos x : nltb (n0 : X) (fin lg x) = true <-> inside 0 p_infty x.
Proof. rewrite x_ltb0. unfold inside. cbn. rewrite Rltb_true. tauto. Qed.
Lemma supp_unit x : (nltb (n0 : X) (fin lg x) && nltb (fin lg x) (n1 : X)) = true <-> inside 0 1 x.
Proof. rewrite x_ltb0, x_ltb1, andb_true_iff. unfold inside. cbn. rewrite !Rltb_true. tauto. Qed.
Lemma cut_self (supp : X -> bool) (ld : X -> X) : (forall x, supp x = false -> ld x = nninf) ->
  forall x : R, on_region supp ld (Fin x) = ld (Fin x).
Proof. intros H x. unfold on_region. destruct (supp (Fin x)) eqn:E; [reflexivity|]. symmetry. apply (H (Fin x) E). Qed.

Lemma normal_log m s d : normal_new (fin lg m) (fin lg s) = Some d -> 0 < s /\
  log_of m_infty p_infty (normal_ld d) (normal_pdf m s) /\ log_of m_infty p_infty (ef_density (normal_expfam d)) (normal_pdf m s).
Proof.
  intros H. apply normal_new_fin in H. destruct H as [P ->]. split; [exact P|].
  split; apply log_of_line; intros x; try (apply normal_pdf_pos, P); [apply normal_direct, P|apply normal_ef, P].
Qed.
Lemma normal_compiled_log m s : 0 < s -> log_of m_infty p_infty (compile_normal (fin lg m) (fin lg s)) (normal_pdf m s).
Proof. intros P. apply log_of_line; intros x; [apply normal_static, P|apply normal_pdf_pos, P]. Qed.
Lemma stdnormal_log : log_of m_infty p_infty (ef_density (stdnormal_expfam (N := X))) (normal_pdf 0 1).
Proof. apply log_of_line; intros x; [apply stdnormal_ef|apply normal_pdf_pos; lra]. Qed.
Lemma exponential_log_gen (ld : X -> X) l : 0 < l ->
  (forall x, 0 <= x -> ld (Fin x) = Fin (ln (exponential_pdf l x))) -> (forall x, x < 0 -> ld (Fin x) = NInf) ->
  log_of 0 p_infty ld (exponential_pdf l).
Proof.
  intros P E O. split; [|split].
  - intros x [I _]. cbn in I. split; [apply E; lra|apply exponential_pdf_pos, P].
  - intros x. destruct (Rlt_dec x 0) as [L|L]; [right; apply O, L|left; rewrite E by lra; eauto].
  - intros x [L|L]; [cbn in L; rewrite (O x L); reflexivity|destruct L].
Qed.
Lemma exponential_log l d : exponential_new (fin lg l) = Some d -> 0 < l /\
  log_of 0 p_infty (exponential_ld d) (exponential_pdf l) /\ log_of 0 p_infty (compile_exponential (fin lg l)) (exponential_pdf l).
Proof.
  intros H. apply exponential_new_fin in H. destruct H as [P ->]. split; [exact P|].
  split; apply exponential_log_gen; try exact P; intros x Hx.
  - apply exponential_direct; assumption.
  - apply (proj1 (outside_direct (fin lg x) 0)). unfold exponential_support. rewrite x_leb0. apply Rleb_false. exact Hx.
  - apply exponential_static; assumption.
  - unfold compile_exponential. rewrite x_leb0. replace (Rleb 0 x) with false by (symmetry; apply Rleb_false; exact Hx). reflexivity.
Qed.
Lemma gamma_log a b d : gamma_new (fin lg a) (fin lg b) = Some d -> 0 < a /\ 0 < b /\
  log_of 0 p_infty (gamma_ld d) (gamma_pdf lg a b) /\
  log_of 0 p_infty (on_region (gamma_support d) (ef_density (gamma_expfam d))) (gamma_pdf lg a b).
Proof.
  intros H. apply gamma_new_fin in H. destruct H as (P & Q & ->). split; [exact P|]. split; [exact Q|]. split.
  - eapply log_of_ext; [apply (cut_self (gamma_support (@mkGamma X (Fin a) (Fin b)))); intros x; apply (outside_direct x 0)|].
    apply log_of_cut; [|intros; apply gamma_pdf_pos|apply supp_pos]. intros x [I _]. apply gamma_direct; assumption.
  - apply log_of_cut; [|intros; apply gamma_pdf_pos|apply supp_pos]. intros x [I _]. apply gamma_ef; assumption.
Qed.
Lemma beta_log a b d : beta_new (fin lg a) (fin lg b) = Some d -> 0 < a /\ 0 < b /\
  log_of 0 1 (beta_ld d) (beta_pdf lg a b) /\
  log_of 0 1 (on_region (beta_support d) (ef_density (beta_expfam d))) (beta_pdf lg a b).
Proof.
  intros H. apply beta_new_fin in H. destruct H as (P & Q & ->). split; [exact P|]. split; [exact Q|]. split.
  - eapply log_of_ext; [apply (cut_self (beta_support (@mkBeta X (Fin a) (Fin b)))); intros x; apply (outside_direct x 0)|].
    apply log_of_cut; [|intros; apply beta_pdf_pos|apply supp_unit]. intros x I. apply beta_direct; assumption.
  - apply log_of_cut; [|intros; apply beta_pdf_pos|apply supp_unit]. intros x I. apply beta_ef; assumption.
Qed.
Lemma chi_log k d : chi_new (fin lg k) = Some d -> 0 < k /\
  log_of 0 p_infty (chi_ld d) (chi_squared_pdf lg k) /\
  log_of 0 p_infty (on_region (chi_support d) (ef_density (chi_expfam d))) (chi_squared_pdf lg k).
Proof.
  intros H. apply chi_new_fin in H. destruct H as (P & ->). split; [exact P|]. split.
  - eapply log_of_ext; [apply (cut_self (chi_support (@mkChi X (Fin k)))); intros x; apply (outside_direct x 0)|].
    apply log_of_cut; [|intros; apply chi_pdf_pos|apply supp_pos]. intros x [I _]. apply chi_direct; assumption.
  - apply log_of_cut; [|intros; apply chi_pdf_pos|apply supp_pos]. intros x [I _]. apply chi_ef; assumption.
Qed.
Lemma student_log k d : student_new (fin lg k) = Some d -> 0 < k /\ log_of m_infty p_infty (student_ld d) (student_pdf lg k).
Proof.
  intros H. apply student_new_fin in H. destruct H as (P & ->). split; [exact P|].
  apply log_of_line; intros x; [apply student_direct, P|apply student_pdf_pos, P].
Qed.
Lemma cauchy_log m s d : cauchy_new (fin lg m) (fin lg s) = Some d -> 0 < s /\
  log_of m_infty p_infty (cauchy_ld d) (cauchy_pdf m s) /\ log_of m_infty p_infty (cauchy_log_pdf d) (cauchy_pdf m s).
Proof.
  intros H. apply cauchy_new_fin in H. destruct H as (P & ->). split; [exact P|].
  split; apply log_of_line; intros x; try (apply cauchy_pdf_pos, P); apply (cauchy_direct lg m s x P).
Qed.

(** ** Totals *)
Lemma normal_cont_total m s d : normal_new (fin lg m) (fin lg s) = Some d ->
  density_total m_infty p_infty (normal_ld d) 1 /\ density_total m_infty p_infty (ef_density (normal_expfam d)) 1 /\
  density_total m_infty p_infty (compile_normal (fin lg m) (fin lg s)) 1.
Proof.
  intros H. apply normal_log in H. destruct H as (P & L1 & L2).
  split; [|split]; (eapply log_of_total; [|apply (normal_pdf_total m s P)]); [exact L1|exact L2|apply normal_compiled_log, P].
Qed.
Lemma stdnormal_total : density_total m_infty p_infty (ef_density (stdnormal_expfam (N := X))) 1.
Proof. eapply log_of_total; [apply stdnormal_log|apply normal_pdf_total; lra]. Qed.
Lemma exponential_cont_total l d : exponential_new (fin lg l) = Some d ->
  density_total 0 p_infty (exponential_ld d) 1 /\ density_total 0 p_infty (compile_exponential (fin lg l)) 1.
Proof.
  intros H. apply exponential_log in H. destruct H as (P & L1 & L2). destruct (exponential_pdf_moments l P) as (T & _).
  split; eapply log_of_total; eauto.
Qed.
Lemma exponential_family_total l d : exponential_new (fin lg l) = Some d ->
  density_total 0 p_infty (on_region (exponential_support d) (ef_density (exponential_expfam d))) (/ (l * l)).
Proof.
  intros H. apply exponential_new_fin in H. destruct H as [P ->]. destruct (exponential_pdf_moments l P) as (T & _).
  assert (Q : 0 < / (l * l)) by (apply Rinv_0_lt_compat; nra).
  assert (W : forall x, ef_density (exponential_expfam (@mkExponential X (Fin l))) (fin lg x) = Fin (ln (/ (l * l) * exponential_pdf l x))).
  { intros x. rewrite exponential_ef by exact P. f_equal. pose proof (exponential_pdf_pos l x P).
    rewrite (ln_mult (/ (l * l))), ln_Rinv, ln_mult by (try assumption; nra). ring. }
  apply log_of_total with (f := fun x => / (l * l) * exponential_pdf l x).
  - unfold on_region, exponential_support. split; [|split].
    + intros x [I _]. cbn in I. rewrite x_leb0, Rleb_t by lra. split; [apply W|]. apply Rmult_lt_0_compat; [exact Q|apply exponential_pdf_pos, P].
    + intros x. rewrite x_leb0. destruct (Rleb 0 x); [left; rewrite W; eauto|right; reflexivity].
    + intros x [L|L]; [|destruct L]. cbn in L. rewrite x_leb0. replace (Rleb 0 x) with false by (symmetry; apply Rleb_false; exact L). reflexivity.
  - rewrite <- (Rmult_1_r (/ (l * l))) at 1. apply integral_scal, T.
Qed.
Lemma exponential_family_normalised l d : exponential_new (fin lg l) = Some d ->
  density_total 0 p_infty (on_region (exponential_support d) (ef_density (exponential_expfam d))) 1 <-> l = 1.
Proof.
  intros H. pose proof (exponential_family_total l d H) as T. apply exponential_new_fin in H. destruct H as [P ->]. split.
  - intros (_ & _ & T'). destruct T as (_ & _ & T). pose proof (integral_unique _ _ _ _ _ T T') as E.
    apply (f_equal (fun r => r * (l * l))) in E. rewrite Rinv_l in E by nra. nra.
  - intros ->. replace (/ (1 * 1)) with 1 in T by (rewrite Rmult_1_l; field). exact T.
Qed.
Section G.
Context (HG : lg_is_log_gamma lg).
Lemma gamma_cont_total a b d : gamma_new (fin lg a) (fin lg b) = Some d ->
  density_total 0 p_infty (gamma_ld d) 1 /\ density_total 0 p_infty (on_region (gamma_support d) (ef_density (gamma_expfam d))) 1.
Proof.
  intros H. apply gamma_log in H. destruct H as (P & Q & L1 & L2). split; (eapply log_of_total; [eassumption|apply (gamma_pdf_total lg HG a b P Q)]).
Qed.
Lemma beta_cont_total a b d : beta_new (fin lg a) (fin lg b) = Some d ->
  density_total 0 1 (beta_ld d) 1 /\ density_total 0 1 (on_region (beta_support d) (ef_density (beta_expfam d))) 1.
Proof.
  intros H. apply beta_log in H. destruct H as (P & Q & L1 & L2). split; (eapply log_of_total; [eassumption|apply (beta_pdf_total lg HG a b P Q)]).
Qed.
Lemma chi_int_total k : 0 < k -> integral 0 p_infty (chi_squared_pdf lg k) 1.
Proof.
  intros P. pose proof (gamma_pdf_total lg HG (k / 2) (1 / 2) ltac:(lra) ltac:(lra)) as T. revert T. apply integral_ext.
  intros x _. symmetry. apply chi_is_gamma.
Qed.
Lemma chi_cont_total k d : chi_new (fin lg k) = Some d ->
  density_total 0 p_infty (chi_ld d) 1 /\ density_total 0 p_infty (on_region (chi_support d) (ef_density (chi_expfam d))) 1.
Proof.
  intros H. apply chi_log in H. destruct H as (P & L1 & L2). split; (eapply log_of_total; [eassumption|apply chi_int_total, P]).
Qed.
Lemma student_cont_total k d : student_new (fin lg k) = Some d -> density_total m_infty p_infty (student_ld d) 1.
Proof. intros H. apply student_log in H. destruct H as (P & L). eapply log_of_total; [exact L|apply (student_pdf_total lg HG k P)]. Qed.
End G.
Lemma cauchy_cont_total m s d : cauchy_new (fin lg m) (fin lg s) = Some d ->
  density_total m_infty p_infty (cauchy_ld d) 1 /\ density_total m_infty p_infty (cauchy_log_pdf d) 1.
Proof. intros H. apply cauchy_log in H. destruct H as (P & L1 & L2). split; (eapply log_of_total; [eassumption|apply (cauchy_pdf_total m s P)]). Qed.

(** ** Moments *)
Lemma normal_cont_moments m s d : normal_new (fin lg m) (fin lg s) = Some d -> exists v,
  n_mean d = Fin m /\ normal_variance d = Fin v /\
  density_mean m_infty p_infty (normal_ld d) m /\ density_variance m_infty p_infty (normal_ld d) m v.
Proof.
  intros H. pose proof (normal_log m s d H) as (P & L & _). apply normal_new_fin in H. destruct H as [_ ->]. exists (s * s).
  split; [reflexivity|]. split; [unfold normal_variance; cbn [n_sd]; xr_ops; apply xmul_Fin|].
  split; [eapply log_of_mean; [exact L|apply normal_pdf_mean, P]|eapply log_of_variance; [exact L|apply normal_pdf_variance, P]].
Qed.
Lemma exponential_cont_moments l d : exponential_new (fin lg l) = Some d -> exists m v,
  exponential_mean d = Fin m /\ exponential_variance d = Fin v /\
  density_mean 0 p_infty (exponential_ld d) m /\ density_variance 0 p_infty (exponential_ld d) m v.
Proof.
  intros H. pose proof (exponential_log l d H) as (P & L & _). apply exponential_new_fin in H. destruct H as [_ ->].
  destruct (exponential_pdf_moments l P) as (_ & M & V). exists (/ l), (/ l * / l).
  split; [|split].
  - unfold exponential_mean. cbn [e_rate]. rewrite recip_fin by lra. f_equal. 
  - unfold exponential_variance. cbn [e_rate]. rewrite recip_fin by lra. xr_ops. rewrite xmul_Fin. reflexivity.
  - split; [eapply log_of_mean; [exact L|exact M]|eapply log_of_variance; [exact L|exact V]].
Qed.
Section G2.
Context (HG : lg_is_log_gamma lg).
Lemma gamma_cont_moments a b d : gamma_new (fin lg a) (fin lg b) = Some d -> exists m v,
  gamma_mean d = Fin m /\ gamma_variance d = Fin v /\
  density_mean 0 p_infty (gamma_ld d) m /\ density_variance 0 p_infty (gamma_ld d) m v.
Proof.
  intros H. pose proof (gamma_log a b d H) as (P & Q & L & _). apply gamma_new_fin in H. destruct H as (_ & _ & ->).
  exists (a / b), (a / (b * b)). split; [|split].
  - unfold gamma_mean. cbn [g_shape g_rate]. xr. reflexivity.
  - unfold gamma_variance. cbn [g_shape g_rate]. assert (b * b <> 0) by nra. xr. reflexivity.
  - split; [eapply log_of_mean; [exact L|apply (gamma_pdf_mean lg HG); assumption]|eapply log_of_variance; [exact L|apply (gamma_pdf_variance lg HG); assumption]].
Qed.
Lemma beta_cont_moments a b d : beta_new (fin lg a) (fin lg b) = Some d -> exists m v,
  beta_mean d = Fin m /\ beta_variance d = Fin v /\
  density_mean 0 1 (beta_ld d) m /\ density_variance 0 1 (beta_ld d) m v.
Proof.
  intros H. pose proof (beta_log a b d H) as (P & Q & L & _). apply beta_new_fin in H. destruct H as (_ & _ & ->).
  assert (a + b <> 0) by lra. assert ((a + b) * (a + b) * (a + b + 1) <> 0) by (assert (0 < (a + b) * (a + b) * (a + b + 1)) by (repeat apply Rmult_lt_0_compat; lra); lra).
  exists (a / (a + b)), (a * b / ((a + b) * (a + b) * (a + b + 1))). split; [|split].
  - unfold beta_mean. cbn [b_alpha b_beta]. xr. reflexivity.
  - unfold beta_variance. cbn [b_alpha b_beta]. xr. reflexivity.
  - split; [eapply log_of_mean; [exact L|apply (beta_pdf_mean lg HG); assumption]|eapply log_of_variance; [exact L|apply (beta_pdf_variance lg HG); assumption]].
Qed.
Lemma chi_cont_moments k d : chi_new (fin lg k) = Some d -> exists m v,
  chi_mean d = Fin m /\ chi_variance d = Fin v /\
  density_mean 0 p_infty (chi_ld d) m /\ density_variance 0 p_infty (chi_ld d) m v.
Proof.
  intros H. pose proof (chi_log k d H) as (P & L & _). apply chi_new_fin in H. destruct H as (_ & ->).
  exists k, (2 * k). split; [reflexivity|]. split; [unfold chi_variance; cbn [c_k]; xr; f_equal; ring|].
  split.
  - eapply log_of_mean; [exact L|]. pose proof (gamma_pdf_mean lg HG (k / 2) (1 / 2) ltac:(lra) ltac:(lra)) as T.
    apply (integral_eq _ _ _ _ k) in T; [|field]. revert T. apply integral_ext. intros x _. rewrite chi_is_gamma. reflexivity.
  - eapply log_of_variance; [exact L|]. pose proof (gamma_pdf_variance lg HG (k / 2) (1 / 2) ltac:(lra) ltac:(lra)) as T.
    apply (integral_eq _ _ _ _ (2 * k)) in T; [|field]. revert T. apply integral_ext. intros x _. rewrite chi_is_gamma.
    replace (k / 2 / (1 / 2)) with k by field. reflexivity.
Qed.
End G2.
End M.
Lemma log_gamma_factorial lg : lg_is_log_gamma lg -> lg_factorial lg.
Proof. intros HG n. rewrite S_INR. apply (lg_nat lg HG). Qed.
