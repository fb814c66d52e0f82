(** Dual numbers through the log-densities of every family (C64). *)
From Coquelicot Require Import Coquelicot.
From Coq Require Import ZArith Reals List Bool Lra Lia Arith.
From Verif Require Import Num XRFacts DensitySpec BuilderProofs CoreModel CoreProofs CombModel ExpFamModel DistModel DistSpec DistFacts DistProofs
  TaglessModel TaglessSpec DualModel DualSpec DualProofs.
Import ListNotations.
Local Open Scope R_scope.
Local Open Scope list_scope.

Section Du.
Context (lg dg : R -> R) (DG : digamma_of lg dg).
Notation X := (XR lg).
Notation D := (Dual lg dg).
Notation tracks := (tracks lg dg).

Ltac track1 :=
  match goal with
  | H : tracks ?F ?t ?v ?d |- tracks ?F ?t _ ?d => exact H
  | |- tracks _ _ _ (nadd _ _) => eapply track_add
  | |- tracks _ _ _ (nsub _ _) => eapply track_sub
  | |- tracks _ _ _ (nmul _ _) => eapply track_mul
  | |- tracks _ _ _ (ndiv _ _) => eapply track_div
  | |- tracks _ _ _ (nneg _) => eapply track_neg
  | |- tracks _ _ _ (nln _) => eapply track_ln
  | |- tracks _ _ _ (nexp _) => eapply track_exp
  | |- tracks _ _ _ (nsqrt _) => eapply track_sqrt
  | |- tracks _ _ _ (nlgamma _) => eapply (track_lgamma lg dg _ _ _ _ DG)
  | |- tracks _ _ _ (nofn _) => eapply track_ofn
  | |- tracks _ _ _ (nint _) => eapply track_int
  | |- tracks _ _ _ (ndec _ _) => eapply track_dec
  | |- tracks _ _ _ npi => eapply track_pi
  end.
Ltac lits := unfold nrecip, n0, n1, n2, nhalf, nm1.
Ltac track := lits; repeat track1.
Ltac tv C := let T := fresh "T" in pose proof (track_var lg dg _ _ _ C) as T.
Lemma dltb0 (d : D) v : fst d = Fin v -> @nltb D n0 d = Rltb 0 v.
Proof. intros E. cbn. rewrite E. unfold xdec. cbn. replace (0 / 1) with 0 by lra. reflexivity. Qed.
Lemma dltb1 (d : D) v : fst d = Fin v -> @nltb D d n1 = Rltb v 1.
Proof. intros E. cbn. rewrite E. unfold xdec. cbn. replace (1 / 1) with 1 by lra. reflexivity. Qed.
Lemma dleb0 (d : D) v : fst d = Fin v -> @nleb D n0 d = Rleb 0 v.
Proof. intros E. cbn. rewrite E. unfold xdec. replace (0 / 1) with 0 by lra. apply xleb_fin. Qed.
Lemma c_fst f t d : carries f t d -> fst d = Fin (f t).
Proof. intros (l & -> & _). reflexivity. Qed.

Ltac side := first [ assumption | lra | nra | (apply Rgt_not_eq; first [lra | nra | assumption])
  | (apply Rmult_lt_0_compat; first [lra | nra | apply Rmult_lt_0_compat; lra]) ].

Lemma dual_normal mu sd x t dm ds dx : carries mu t dm -> carries sd t ds -> carries x t dx -> 0 < sd t ->
  carries (fun u => ln (normal_pdf (mu u) (sd u) (x u))) t (normal_ld (@mkNormal D dm ds) dx).
Proof.
  intros Cm Cs Cx P. tv Cm. tv Cs. tv Cx. pose proof PI_RGT_0.
  eapply (track_read lg dg (fun u => normal_ld (@mkNormal X (Fin (mu u)) (Fin (sd u))) (Fin (x u)))).
  - unfold normal_ld. cbn [n_mean n_sd]. cbv zeta. track; side.
  - generalize (near_pos _ _ _ Cs P). apply filter_imp. intros u U. apply normal_direct, U.
Qed.
Ltac eop := unfold zero_overhead, expfam, default_density, dot_array, dot_vec;
  cbn [ef_density ef_natural ef_partition ef_stat ef_base ef_dim b_ld prim primitive zip_dot].
Lemma dual_normal_ef mu sd x t dm ds dx : carries mu t dm -> carries sd t ds -> carries x t dx -> 0 < sd t ->
  carries (fun u => ln (normal_pdf (mu u) (sd u) (x u))) t (ef_density (normal_expfam (@mkNormal D dm ds)) dx).
Proof.
  intros Cm Cs Cx P. tv Cm. tv Cs. tv Cx. pose proof PI_RGT_0.
  eapply (track_read lg dg (fun u => ef_density (normal_expfam (@mkNormal X (Fin (mu u)) (Fin (sd u)))) (Fin (x u) : X))).
  - unfold normal_expfam, normal_variance. eop. cbn [n_mean n_sd]. cbv zeta. track; side.
  - generalize (near_pos _ _ _ Cs P). apply filter_imp. intros u U. apply normal_ef, U.
Qed.
Lemma dual_stdnormal x t dx : carries x t dx -> carries (fun u => ln (normal_pdf 0 1 (x u))) t (ef_density (stdnormal_expfam (N := D)) dx).
Proof.
  intros Cx. tv Cx. pose proof PI_RGT_0.
  eapply (track_read lg dg (fun u => ef_density (stdnormal_expfam (N := X)) (Fin (x u) : X))).
  - unfold stdnormal_expfam. eop. track; side.
  - apply filter_forall. intros u. apply stdnormal_ef.
Qed.
Lemma dual_exponential r x t dr dx : carries r t dr -> carries x t dx -> 0 < r t -> 0 < x t ->
  carries (fun u => ln (exponential_pdf (r u) (x u))) t (exponential_ld (@mkExponential D dr) dx).
Proof.
  intros Cr Cx P Q. tv Cr. tv Cx. unfold exponential_ld. rewrite (dleb0 dx (x t) (c_fst _ _ _ Cx)), Rleb_t by lra. cbn [e_rate].
  eapply (track_read lg dg (fun u => nsub (nln (Fin (r u) : X)) (nmul (Fin (r u) : X) (Fin (x u) : X)))).
  - track; side.
  - generalize (filter_and _ _ (near_pos _ _ _ Cr P) (near_pos _ _ _ Cx Q)). apply filter_imp. intros u [U W]. rewrite <- (exponential_direct lg) by lra. unfold exponential_ld. rewrite x_leb0, Rleb_t by lra. reflexivity.
Qed.
Lemma dual_gamma a b x t da db dx : carries a t da -> carries b t db -> carries x t dx -> 0 < a t -> 0 < b t -> 0 < x t ->
  carries (fun u => ln (gamma_pdf lg (a u) (b u) (x u))) t (gamma_ld (@mkGamma D da db) dx) /\
  carries (fun u => ln (gamma_pdf lg (a u) (b u) (x u))) t (ef_density (gamma_expfam (@mkGamma D da db)) dx).
Proof.
  intros Ca Cb Cx P Q W. tv Ca. tv Cb. tv Cx. pose proof (filter_and _ _ (filter_and _ _ (near_pos _ _ _ Ca P) (near_pos _ _ _ Cb Q)) (near_pos _ _ _ Cx W)) as NR. split.
  - unfold gamma_ld. rewrite (dltb0 dx (x t) (c_fst _ _ _ Cx)), Rltb_t by lra. cbn [g_shape g_rate].
    eapply (track_read lg dg (fun u => nsub (nadd (nsub (nmul (Fin (a u) : X) (nln (Fin (b u) : X))) (nlgamma (Fin (a u) : X))) (nmul (nsub (Fin (a u) : X) n1) (nln (Fin (x u) : X)))) (nmul (Fin (b u) : X) (Fin (x u) : X)))).
    + track; side.
    + generalize NR. apply filter_imp. intros u [[U V] Y]. rewrite <- (gamma_direct lg) by assumption. unfold gamma_ld. rewrite x_ltb0, Rltb_t by lra. reflexivity.
  - eapply (track_read lg dg (fun u => ef_density (gamma_expfam (@mkGamma X (Fin (a u)) (Fin (b u)))) (Fin (x u) : X))).
    + unfold gamma_expfam. eop. cbn [g_shape g_rate]. track; side.
    + generalize NR. apply filter_imp. intros u [[U V] Y]. apply gamma_ef; assumption.
Qed.
Lemma dual_beta a b x t da db dx : carries a t da -> carries b t db -> carries x t dx -> 0 < a t -> 0 < b t -> 0 < x t < 1 ->
  carries (fun u => ln (beta_pdf lg (a u) (b u) (x u))) t (beta_ld (@mkBeta D da db) dx) /\
  carries (fun u => ln (beta_pdf lg (a u) (b u) (x u))) t (ef_density (beta_expfam (@mkBeta D da db)) dx).
Proof.
  intros Ca Cb Cx P Q [W1 W2]. tv Ca. tv Cb. tv Cx. pose proof (filter_and _ _ (filter_and _ _ (near_pos _ _ _ Ca P) (near_pos _ _ _ Cb Q)) (filter_and _ _ (near_pos _ _ _ Cx W1) (near_lt _ _ _ _ Cx W2))) as NR. split.
  - unfold beta_ld. rewrite (dltb0 dx (x t) (c_fst _ _ _ Cx)), (dltb1 dx (x t) (c_fst _ _ _ Cx)), !Rltb_t by lra. cbn [b_alpha b_beta andb].
    eapply (track_read lg dg (fun u => nadd (nadd (nsub (nsub (nlgamma (nadd (Fin (a u) : X) (Fin (b u) : X))) (nlgamma (Fin (a u) : X))) (nlgamma (Fin (b u) : X)))
               (nmul (nsub (Fin (a u) : X) n1) (nln (Fin (x u) : X)))) (nmul (nsub (Fin (b u) : X) n1) (nln (nsub n1 (Fin (x u) : X)))))).
    + track; side.
    + generalize NR. apply filter_imp. intros u [[U V] [Y1 Y2]]. rewrite <- (beta_direct lg) by (try split; assumption). unfold beta_ld.
      assert (E1 : nltb n0 (Fin (x u) : X) = true) by (rewrite x_ltb0; apply Rltb_t; lra). assert (E2 : nltb (Fin (x u) : X) n1 = true) by (rewrite x_n1; apply Rltb_t; lra). rewrite E1, E2. reflexivity.
  - eapply (track_read lg dg (fun u => ef_density (beta_expfam (@mkBeta X (Fin (a u)) (Fin (b u)))) (Fin (x u) : X))).
    + unfold beta_expfam. eop. cbn [b_alpha b_beta]. track; side.
    + generalize NR. apply filter_imp. intros u [[U V] Y]. apply beta_ef; assumption.
Qed.
Lemma dual_chi k x t dk dx : carries k t dk -> carries x t dx -> 0 < k t -> 0 < x t ->
  carries (fun u => ln (chi_squared_pdf lg (k u) (x u))) t (chi_ld (@mkChi D dk) dx) /\
  carries (fun u => ln (chi_squared_pdf lg (k u) (x u))) t (ef_density (chi_expfam (@mkChi D dk)) dx).
Proof.
  intros Ck Cx P W. tv Ck. tv Cx. pose proof (filter_and _ _ (near_pos _ _ _ Ck P) (near_pos _ _ _ Cx W)) as NR. split.
  - unfold chi_ld. rewrite (dltb0 dx (x t) (c_fst _ _ _ Cx)), Rltb_t by lra. cbn [c_k]. cbv zeta.
    eapply (track_read lg dg (fun u => nsub (nadd (nsub (nmul (nneg (ndiv (Fin (k u) : X) (nadd n1 n1))) (nln (nadd n1 n1))) (nlgamma (ndiv (Fin (k u) : X) (nadd n1 n1)))) (nmul (nsub (ndiv (Fin (k u) : X) (nadd n1 n1)) n1) (nln (Fin (x u) : X)))) (ndiv (Fin (x u) : X) (nadd n1 n1)))).
    + track; side.
    + generalize NR. apply filter_imp. intros u [U V]. rewrite <- (chi_direct lg) by assumption. unfold chi_ld. rewrite x_ltb0, Rltb_t by lra. reflexivity.
  - eapply (track_read lg dg (fun u => ef_density (chi_expfam (@mkChi X (Fin (k u)))) (Fin (x u) : X))).
    + unfold chi_expfam, chi_shape, chi_rate. eop. cbn [c_k]. track; side.
    + generalize NR. apply filter_imp. intros u [U V]. apply chi_ef; assumption.
Qed.
Lemma dual_student n x t dn dx : carries n t dn -> carries x t dx -> 0 < n t ->
  carries (fun u => ln (student_pdf lg (n u) (x u))) t (student_ld (@mkStudent D dn) dx).
Proof.
  intros Cn Cx P. tv Cn. tv Cx. pose proof PI_RGT_0.
  eapply (track_read lg dg (fun u => student_ld (@mkStudent X (Fin (n u))) (Fin (x u)))).
  - unfold student_ld, student_log_pdf, student_log_norm, student_kernel, midpoint1. cbn [t_nu]. track; try side.
    assert (0 <= x t * x t / n t) by (apply Rmult_le_pos; [nra|left; apply Rinv_0_lt_compat, P]). lra.
  - generalize (near_pos _ _ _ Cn P). apply filter_imp. intros u U. apply student_direct, U.
Qed.
Lemma dual_cauchy m s x t dm ds dx : carries m t dm -> carries s t ds -> carries x t dx -> 0 < s t ->
  carries (fun u => ln (cauchy_pdf (m u) (s u) (x u))) t (cauchy_ld (@mkCauchy D dm ds) dx).
Proof.
  intros Cm Cs Cx P. tv Cm. tv Cs. tv Cx. pose proof PI_RGT_0.
  eapply (track_read lg dg (fun u => cauchy_ld (@mkCauchy X (Fin (m u)) (Fin (s u))) (Fin (x u)))).
  - unfold cauchy_ld. cbn [c_loc c_scale]. cbv zeta. track; try side. pose proof (Rle_0_sqr ((x t - m t) / s t)) as S. unfold Rsqr in S. lra.
  - generalize (near_pos _ _ _ Cs P). apply filter_imp. intros u U. apply cauchy_direct, U.
Qed.

(** ** Discrete families, differentiated along their parameters *)
Lemma dual_bernoulli p t dp k : carries p t dp -> 0 < p t < 1 -> (k <= 1)%nat ->
  carries (fun u => ln (bernoulli_pmf (p u) k)) t (bernoulli_ld (@mkBernoulli D dp) k).
Proof.
  intros Cp [P Q] K. tv Cp. pose proof (filter_and _ _ (near_pos _ _ _ Cp P) (near_lt _ _ _ _ Cp Q)) as NR.
  assert (E : forall k, (k <= 1)%nat -> locally t (fun u => bernoulli_ld (@mkBernoulli X (Fin (p u))) k = Fin (ln (bernoulli_pmf (p u) k)))).
  { intros j J. generalize NR. apply filter_imp. intros u U. apply bernoulli_direct; assumption. }
  destruct k as [|[|k]]; [| |lia]; (eapply track_read; [|apply E; lia]); unfold bernoulli_ld; cbn [be_prob]; track; side.
Qed.
Lemma dual_binomial n p t dp k : carries p t dp -> 0 < p t < 1 -> (k <= n)%nat ->
  carries (fun u => ln (binomial_pmf n (p u) k) - ln (C n k)) t (binomial_ld (@mkBinomial D n dp) k).
Proof.
  intros Cp [P Q] K. tv Cp. pose proof (filter_and _ _ (near_pos _ _ _ Cp P) (near_lt _ _ _ _ Cp Q)) as NR.
  eapply (track_read lg dg (fun u => binomial_ld (@mkBinomial X n (Fin (p u))) k)).
  - unfold binomial_ld. cbn [bi_n bi_prob]. rewrite (proj2 (Nat.leb_le k n) K). track; side.
  - generalize NR. apply filter_imp. intros u U. apply binomial_direct; assumption.
Qed.
Lemma dual_poisson r t dr k : carries r t dr -> 0 < r t -> carries (fun u => ln (poisson_pmf (r u) k)) t (poisson_ld (@mkPoisson D dr) k).
Proof.
  intros Cr P. tv Cr.
  destruct (track_fold lg dg (fun i _ => nln (nofn i)) (fun i => nln (nofn i)) (fun i => ln (INR i)) t (seq 1 k)) with (F := fun _ : R => @nint X 0) (v := 0) (d := @nint D 0) as (w & TW).
  { intros i I. apply in_seq in I. track. apply lt_0_INR. lia. }
  { apply track_int. }
  eapply (track_read lg dg (fun u => poisson_ld (@mkPoisson X (Fin (r u))) k)).
  - unfold poisson_ld. cbn [p_rate]. cbv zeta. unfold n0. track; side.
  - generalize (near_pos _ _ _ Cr P). apply filter_imp. intros u U. apply poisson_direct, U.
Qed.
Lemma dual_geometric p t dp k : carries p t dp -> 0 < p t < 1 -> (1 <= k)%nat ->
  carries (fun u => ln (geometric_pmf (p u) k)) t (geometric_ld (@mkGeometric D dp) k).
Proof.
  intros Cp [P Q] K. tv Cp. pose proof (filter_and _ _ (near_pos _ _ _ Cp P) (near_lt _ _ _ _ Cp Q)) as NR.
  eapply (track_read lg dg (fun u => geometric_ld (@mkGeometric X (Fin (p u))) k)).
  - unfold geometric_ld. cbn [ge_prob]. rewrite (proj2 (Nat.leb_le 1 k) K). track; side.
  - generalize NR. apply filter_imp. intros u U. apply geometric_direct; assumption.
Qed.
Lemma dual_negbinomial r p t dp k : carries p t dp -> 0 < p t < 1 ->
  carries (fun u => INR r * ln (p u) + INR k * ln (1 - p u)) t (negbinomial_ld (@mkNegBinomial D r dp) k).
Proof.
  intros Cp [P Q]. tv Cp. pose proof (filter_and _ _ (near_pos _ _ _ Cp P) (near_lt _ _ _ _ Cp Q)) as NR.
  eapply (track_read lg dg (fun u => negbinomial_ld (@mkNegBinomial X r (Fin (p u))) k)).
  - unfold negbinomial_ld. cbn [nb_r nb_prob]. track; side.
  - generalize NR. apply filter_imp. intros u U. apply negbinomial_direct; assumption.
Qed.
End Du.
