(** Properties C32 and C35 (continuous part): normalisation and moments.
    [integral A B f l] (IntSpec.v) is the improper Riemann integral over the
    open interval (A,B).  [density_total A B ld v]: at every real number [ld] is
    a log-density, it is -inf beyond (A,B), and exp(ld) integrates to [v].
    Where the code calls ln Gamma, the only hypothesis on that function [lg] is
    that exp(lg a) is Euler's integral for every a > 0; [C32_log_gamma_exists]
    shows such a function exists. *)
From Coquelicot Require Import Coquelicot.
From Coq Require Import ZArith Reals List Bool Lra Lia Arith.
From Verif Require Import Num XRFacts DensitySpec BuilderProofs CoreModel CoreSpec CoreProofs
  CombModel CombSpec ExpFamModel DistModel DistSpec DistFacts DistProofs DistProofs2 DistProofs3 DistProofs4
  IntSpec Improper GammaFun ContProofs ContProofs2.
Import ListNotations.
Local Open Scope R_scope.
Local Open Scope list_scope.
Local Notation fin lg r := (Fin r : XR lg).

(** * C32: the continuous distributions are normalised *)
(** The direct log-density, the exponential-family path and the compiled closure. *)
Theorem C32_normal : forall lg m s d, normal_new (fin lg m) (fin lg s) = Some d ->
  density_total m_infty p_infty (normal_ld d) 1 /\ density_total m_infty p_infty (ef_density (normal_expfam d)) 1 /\
  density_total m_infty p_infty (compile_normal (fin lg m) (fin lg s)) 1.
Proof. exact normal_cont_total. Qed.
Print Assumptions C32_normal.
Theorem C32_standard_normal : forall lg, density_total m_infty p_infty (ef_density (stdnormal_expfam (N := XR lg))) 1.
Proof. exact stdnormal_total. Qed.
Print Assumptions C32_standard_normal.
Theorem C32_exponential : forall lg l d, exponential_new (fin lg l) = Some d ->
  density_total 0 p_infty (exponential_ld d) 1 /\ density_total 0 p_infty (compile_exponential (fin lg l)) 1.
Proof. exact exponential_cont_total. Qed.
Print Assumptions C32_exponential.
(** The exponential-family path of the exponential distribution has total 1/rate^2. *)
Theorem C32_exponential_family_total : forall lg l d, exponential_new (fin lg l) = Some d ->
  density_total 0 p_infty (on_region (exponential_support d) (ef_density (exponential_expfam d))) (/ (l * l)) /\
  (density_total 0 p_infty (on_region (exponential_support d) (ef_density (exponential_expfam d))) 1 <-> l = 1).
Proof. intros lg l d H. split; [apply exponential_family_total, H|apply exponential_family_normalised, H]. Qed.
Print Assumptions C32_exponential_family_total.
Lemma exponential_ok lg l : 0 < l -> exponential_new (fin lg l) = Some (@mkExponential (XR lg) (Fin l)).
Proof. intros P. unfold exponential_new. rewrite x_ltb0, Rltb_t by exact P. reflexivity. Qed.
Theorem C32_exponential_family_refuted : exists l d, exponential_new (fin ln l) = Some d /\
  ~ density_total 0 p_infty (on_region (exponential_support d) (ef_density (exponential_expfam d))) 1.
Proof.
  exists 2. eexists. split; [apply exponential_ok; lra|]. rewrite (exponential_family_normalised ln 2); [lra|apply exponential_ok; lra].
Qed.
Print Assumptions C32_exponential_family_refuted.
Theorem C32_gamma : forall lg, lg_is_log_gamma lg -> forall a b d, gamma_new (fin lg a) (fin lg b) = Some d ->
  density_total 0 p_infty (gamma_ld d) 1 /\
  density_total 0 p_infty (on_region (gamma_support d) (ef_density (gamma_expfam d))) 1.
Proof. exact gamma_cont_total. Qed.
Print Assumptions C32_gamma.
Theorem C32_beta : forall lg, lg_is_log_gamma lg -> forall a b d, beta_new (fin lg a) (fin lg b) = Some d ->
  density_total 0 1 (beta_ld d) 1 /\
  density_total 0 1 (on_region (beta_support d) (ef_density (beta_expfam d))) 1.
Proof. exact beta_cont_total. Qed.
Print Assumptions C32_beta.
Theorem C32_chi_squared : forall lg, lg_is_log_gamma lg -> forall k d, chi_new (fin lg k) = Some d ->
  density_total 0 p_infty (chi_ld d) 1 /\
  density_total 0 p_infty (on_region (chi_support d) (ef_density (chi_expfam d))) 1.
Proof. exact chi_cont_total. Qed.
Print Assumptions C32_chi_squared.
Theorem C32_student_t : forall lg, lg_is_log_gamma lg -> forall nu d, student_new (fin lg nu) = Some d ->
  density_total m_infty p_infty (student_ld d) 1.
Proof. exact student_cont_total. Qed.
Print Assumptions C32_student_t.
Theorem C32_cauchy : forall lg m s d, cauchy_new (fin lg m) (fin lg s) = Some d ->
  density_total m_infty p_infty (cauchy_ld d) 1 /\ density_total m_infty p_infty (cauchy_log_pdf d) 1.
Proof. exact cauchy_cont_total. Qed.
Print Assumptions C32_cauchy.
(** The hypothesis on ln Gamma can be met, and it gives the factorials assumed by C31 and C40. *)
Theorem C32_log_gamma_exists : (exists lg, lg_is_log_gamma lg) /\ (forall lg, lg_is_log_gamma lg -> lg_factorial lg).
Proof. split; [exact log_gamma_exists|exact log_gamma_factorial]. Qed.
Print Assumptions C32_log_gamma_exists.
Example C32_cases : exists lg, lg_is_log_gamma lg /\
  returns (normal_new (fin lg (-1)) (fin lg 2)) /\ returns (exponential_new (fin lg 3)) /\ returns (gamma_new (fin lg (1/2)) (fin lg 3)) /\
  returns (beta_new (fin lg (1/2)) (fin lg 2)) /\ returns (chi_new (fin lg 3)) /\ returns (student_new (fin lg (5/2))) /\
  returns (cauchy_new (fin lg 0) (fin lg 2)).
Proof.
  destruct log_gamma_exists as [lg H]. exists lg. split; [exact H|].
  unfold returns, normal_new, exponential_new, gamma_new, beta_new, chi_new, student_new, cauchy_new.
  rewrite !x_ltb0, !Rltb_t by lra. cbn [andb]. repeat split; eauto.
Qed.

(** * C35: mean() and variance() of the continuous distributions *)
(** Normal: the mean field and variance(). *)
Theorem C35_normal : forall lg m s d, normal_new (fin lg m) (fin lg s) = Some d -> exists v,
  n_mean d = Fin m /\ normal_variance d = Fin v /\
  density_mean m_infty p_infty (normal_ld d) m /\ density_variance m_infty p_infty (normal_ld d) m v.
Proof. exact normal_cont_moments. Qed.
Print Assumptions C35_normal.
Theorem C35_exponential : forall lg l d, exponential_new (fin lg l) = Some d -> exists m v,
  exponential_mean d = Fin m /\ exponential_variance d = Fin v /\
  density_mean 0 p_infty (exponential_ld d) m /\ density_variance 0 p_infty (exponential_ld d) m v.
Proof. exact exponential_cont_moments. Qed.
Print Assumptions C35_exponential.
Theorem C35_gamma : forall lg, lg_is_log_gamma lg -> forall a b d, gamma_new (fin lg a) (fin lg b) = Some d -> exists m v,
  gamma_mean d = Fin m /\ gamma_variance d = Fin v /\
  density_mean 0 p_infty (gamma_ld d) m /\ density_variance 0 p_infty (gamma_ld d) m v.
Proof. exact gamma_cont_moments. Qed.
Print Assumptions C35_gamma.
Theorem C35_beta : forall lg, lg_is_log_gamma lg -> forall a b d, beta_new (fin lg a) (fin lg b) = Some d -> exists m v,
  beta_mean d = Fin m /\ beta_variance d = Fin v /\
  density_mean 0 1 (beta_ld d) m /\ density_variance 0 1 (beta_ld d) m v.
Proof. exact beta_cont_moments. Qed.
Print Assumptions C35_beta.
Theorem C35_chi_squared : forall lg, lg_is_log_gamma lg -> forall k d, chi_new (fin lg k) = Some d -> exists m v,
  chi_mean d = Fin m /\ chi_variance d = Fin v /\
  density_mean 0 p_infty (chi_ld d) m /\ density_variance 0 p_infty (chi_ld d) m v.
Proof. exact chi_cont_moments. Qed.
Print Assumptions C35_chi_squared.
