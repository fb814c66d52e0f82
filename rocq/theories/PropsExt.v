(** Log-densities at extreme arguments (C76). *)
From Coq Require Import ZArith Reals Bool List Lia Lra.
From Coq Require Import Floats.SpecFloat.
From Flocq Require Import Core.
From Verif Require Import Num EggSpec FloatErr AccSpec RoundSpec RoundProofs RelErr EggNum FloatFacts JitAcc AccProofs DistFloat IntSpec DensitySpec CoreSpec CombSpec CoreModel CombModel ExpFamModel DistModel DistSpec LitFacts GammaFun ExtSpec FamFloatSpec ExtFloat ExtProofs ExtFam ExtSum ExtMix ExtPush ExtInline.
Import ListNotations.
Local Open Scope R_scope.

(** * Every argument but NaN *)
(** With finite parameters that the constructor accepts, a log-density is a
    finite number or minus infinity: no NaN and no plus infinity, at the largest
    finite numbers and at both infinities. *)
Theorem C76_location_scale : forall c lg L mu sd x, libm_ok c lg L -> 0 <= c <= 1000000 -> ln_edges L ->
  is_num mu -> is_num sd -> 0 < val sd -> not_nan x ->
  proper (normal_ld (@mkNormal (F64 L) mu sd) x) /\ proper (cauchy_ld (@mkCauchy (F64 L) mu sd) x).
Proof. intros c lg L mu sd x K C0 E N S P X. split; [apply (normal_proper c lg L K C0 mu sd x N S P X)|apply (cauchy_proper c lg L K C0 E mu sd x N S P X)]. Qed.
Print Assumptions C76_location_scale.
Theorem C76_exponential : forall c lg L rate x, libm_ok c lg L -> 0 <= c <= 1000000 -> is_num rate -> 0 < val rate -> not_nan x ->
  proper (exponential_ld (@mkExponential (F64 L) rate) x).
Proof. intros c lg L rate x K C0 N P X. exact (exponential_proper c lg L K C0 rate x N P X). Qed.
Print Assumptions C76_exponential.
(** Shapes up to 2^880, and from 2^-1000 where the code halves them. *)
Theorem C76_gamma : forall c lg L a b x, libm_ok c lg L -> 0 <= c <= 1000000 -> lg_is_log_gamma lg ->
  is_num a -> is_num b -> 0 < val a <= bpow radix2 880 -> 0 < val b -> not_nan x -> x <> pinf -> proper (gamma_ld (@mkGamma (F64 L) a b) x).
Proof. intros c lg L a b x K C0 G. exact (gamma_proper c lg L K C0 a b x (lg_is_moderate lg G)). Qed.
Print Assumptions C76_gamma.
Theorem C76_chi_squared : forall c lg L k x, libm_ok c lg L -> 0 <= c <= 1000000 -> lg_is_log_gamma lg ->
  is_num k -> bpow radix2 (-1000) <= val k <= bpow radix2 880 -> not_nan x -> x <> pinf -> proper (chi_ld (@mkChi (F64 L) k) x).
Proof. intros c lg L k x K C0 G. exact (chi_proper c lg L K C0 k x (lg_is_moderate lg G)). Qed.
Print Assumptions C76_chi_squared.
Theorem C76_beta : forall c lg L a b x, libm_ok c lg L -> 0 <= c <= 1000000 -> lg_is_log_gamma lg ->
  is_num a -> is_num b -> 0 < val a <= bpow radix2 879 -> 0 < val b <= bpow radix2 879 -> not_nan x ->
  proper (beta_ld (@mkBeta (F64 L) a b) x) /\ (is_num x -> 0 < val x < 1 -> is_num (beta_ld (@mkBeta (F64 L) a b) x)).
Proof. intros c lg L a b x K C0 G. exact (beta_proper c lg L K C0 a b x (lg_is_moderate lg G)). Qed.
Print Assumptions C76_beta.
Theorem C76_student_t : forall c lg L nu x, libm_ok c lg L -> 0 <= c <= 1000000 -> ln_edges L -> lg_is_log_gamma lg ->
  is_num nu -> bpow radix2 (-1000) <= val nu <= bpow radix2 879 -> not_nan x -> proper (student_ld (@mkStudent (F64 L) nu) x).
Proof. intros c lg L nu x K C0 E G. exact (student_proper c lg L K C0 E nu x (lg_is_moderate lg G)). Qed.
Print Assumptions C76_student_t.

(** * Discrete distributions: every count of a 64-bit type *)
Theorem C76_bernoulli_and_categorical : forall c lg L, libm_ok c lg L -> 0 <= c <= 1000000 -> ln_edges L ->
  (forall p k, is_num p -> 0 <= val p <= 1 -> proper (bernoulli_ld (@mkBernoulli (F64 L) p) k)) /\
  (forall ps k, Forall (fun p => is_num p /\ 0 <= val p) ps -> proper (categorical_ld (@mkCategorical (F64 L) ps) k)).
Proof. intros c lg L K C0 E. split; [exact (bernoulli_proper c lg L K C0 E)|exact (categorical_proper c lg L K C0 E)]. Qed.
Print Assumptions C76_bernoulli_and_categorical.
(** In the support the log-mass of a probability strictly between 0 and 1 is
    finite; at 0 and 1 it can be NaN (see C29, C31 and C33). *)
Theorem C76_counts : forall c lg L p, libm_ok c lg L -> 0 <= c <= 1000000 -> is_num p -> 0 < val p < 1 ->
  (forall n k, (Z.of_nat n <= 2 ^ 64)%Z -> (k <= n)%nat -> is_num (binomial_ld (@mkBinomial (F64 L) n p) k)) /\
  (forall k, (Z.of_nat k <= 2 ^ 64)%Z -> (1 <= k)%nat -> is_num (geometric_ld (@mkGeometric (F64 L) p) k)) /\
  (forall r k, (Z.of_nat r <= 2 ^ 64)%Z -> (Z.of_nat k <= 2 ^ 64)%Z -> is_num (negbinomial_ld (@mkNegBinomial (F64 L) r p) k)).
Proof.
  intros c lg L p K C0 N P. split; [intros n k; exact (binomial_finite c lg L K C0 n p k N P)|].
  split; [intros k; exact (geometric_finite c lg L K C0 p k N P)|intros r k; exact (negbinomial_finite c lg L K C0 r p k N P)].
Qed.
Print Assumptions C76_counts.
Theorem C76_poisson : forall c lg L rate k, libm_ok c lg L -> 0 <= c <= 1000000 -> is_num rate -> 0 < val rate -> (Z.of_nat k <= 2 ^ 64)%Z ->
  proper (poisson_ld (@mkPoisson (F64 L) rate) k) /\ (val rate <= bpow radix2 900 -> is_num (poisson_ld (@mkPoisson (F64 L) rate) k)).
Proof. intros c lg L rate k K C0. exact (poisson_proper c lg L K C0 rate k). Qed.
Print Assumptions C76_poisson.

(** * Independent samples of any length *)
Theorem C76_samples : forall c lg L, libm_ok c lg L -> 0 <= c <= 1000000 -> ln_edges L ->
  (forall mu sd xs, is_num mu -> is_num sd -> 0 < val sd -> Forall not_nan xs ->
    proper (iid_log_density_fallback (normal_base (@mkNormal (F64 L) mu sd)) xs) /\
    proper (iid_log_density_fallback (cauchy_base (@mkCauchy (F64 L) mu sd)) xs)) /\
  (forall rate xs, is_num rate -> 0 < val rate -> Forall not_nan xs -> proper (iid_log_density_fallback (exponential_base (@mkExponential (F64 L) rate)) xs)) /\
  (forall p ks, is_num p -> 0 <= val p <= 1 -> proper (iid_log_density_fallback (bernoulli_base (@mkBernoulli (F64 L) p)) ks)) /\
  (forall ps ks, Forall (fun p => is_num p /\ 0 <= val p) ps -> proper (iid_log_density_fallback (categorical_base (@mkCategorical (F64 L) ps)) ks)).
Proof.
  intros c lg L K C0 E. split; [|split; [|split]].
  - intros mu sd xs N S P X. rewrite Forall_forall in X. split; apply (sample_proper L); intros x I; [exact (normal_capped c lg L K C0 mu sd x N S P (X x I))|exact (cauchy_capped c lg L K C0 E mu sd x N S P (X x I))].
  - intros rate xs N P X. rewrite Forall_forall in X. apply (sample_proper L). intros x I. exact (exponential_capped c lg L K C0 rate x N P (X x I)).
  - intros p ks N P. apply (sample_proper L). intros k _. exact (bernoulli_capped c lg L K C0 E p k N P).
  - intros ps ks H. apply (sample_proper L). intros k _. exact (categorical_capped c lg L K C0 E ps k H).
Qed.
Print Assumptions C76_samples.

(** * Mixtures *)
(** Any number of terms, each a finite number (up to the largest) or minus
    infinity: the result is finite as soon as one term is, and minus infinity
    otherwise. *)
Theorem C76_log_sum_exp : forall c lg L (l : list f64), libm_ok c lg L -> 0 <= c <= 1000000 -> l_exp L ninf = S754_zero false -> Forall proper l ->
  (Exists is_num l -> is_num (@log_sum_exp (F64 L) l)) /\ (Forall (eq ninf) l -> @log_sum_exp (F64 L) l = ninf).
Proof. intros c lg L l K C0 EE H. split; [exact (lse_finite c lg L K C0 EE l H)|exact (lse_empty L l)]. Qed.
Print Assumptions C76_log_sum_exp.
(** A mixture with finite non-negative weights is finite exactly where some
    positively weighted component is, and minus infinity elsewhere. *)
Theorem C76_mixture : forall c lg L (X : Type) (cs : list (Measure (F64 L) X)) (ws : list f64) (x : X),
  libm_ok c lg L -> 0 <= c <= 1000000 -> ln_edges L -> l_exp L ninf = S754_zero false ->
  Forall (fun w => is_num w /\ 0 <= val w) ws -> Forall (fun m : Measure (F64 L) X => proper (b_ld (m_self m) x)) cs ->
  let contributes (mw : Measure (F64 L) X * f64) := 0 < val (snd mw) /\ is_num (b_ld (m_self (fst mw)) x) in
  (Exists contributes (combine cs ws) -> is_num (mixture_ld (@mkMixture (F64 L) X cs ws) x)) /\
  (~ Exists contributes (combine cs ws) -> mixture_ld (@mkMixture (F64 L) X cs ws) x = ninf).
Proof. intros c lg L X cs ws x K C0 E EE. exact (mixture_proper c lg L K C0 E EE cs ws x). Qed.
Print Assumptions C76_mixture.
(** Where every component is NaN the mixture is minus infinity: two gammas at
    +inf, say. *)
Theorem C76_mixture_nan_refuted : forall L (X : Type) (cs : list (Measure (F64 L) X)) (ws : list f64) (x : X),
  Forall (fun m : Measure (F64 L) X => b_ld (m_self m) x = S754_nan) cs -> mixture_ld (@mkMixture (F64 L) X cs ws) x = ninf.
Proof. intros L X. exact (mixture_all_nan L). Qed.
Print Assumptions C76_mixture_nan_refuted.

(** * Pushforwards, products and reweighted measures *)
(** The normal through exp (log-normal) at every positive finite number and at
    +inf; any measure that is proper off NaN through a linear map with a finite
    non-zero slope; the exponential through ln at every number and at -inf. *)
Theorem C76_pushforward : forall c lg L, libm_ok c lg L -> 0 <= c <= 1000000 -> ln_edges L -> exp_edges L ->
  (forall mu sd, is_num mu -> is_num sd -> 0 < val sd ->
    (forall y, is_num y -> 0 < val y -> proper (push_ld (normal_base (@mkNormal (F64 L) mu sd)) exp_transform y)) /\
    push_ld (normal_base (@mkNormal (F64 L) mu sd)) exp_transform pinf = ninf) /\
  (forall (m : Base (F64 L) f64) a b y, is_num a -> val a <> 0 -> is_num b -> not_nan y -> (forall x, not_nan x -> proper (b_ld m x)) ->
    proper (@push_ld (F64 L) m (@linear_transform (F64 L) a b) y)) /\
  (forall rate y, is_num rate -> 0 < val rate -> (is_num y \/ y = ninf) ->
    proper (push_ld (exponential_base (@mkExponential (F64 L) rate)) log_transform y)).
Proof.
  intros c lg L K C0 E X. split; [|split].
  - intros mu sd M S P. split; [intros y Y Q; exact (exp_push c lg L K C0 mu sd y M S P Y Q)|exact (proj1 (exp_push_ends c lg L K C0 E mu sd M S P))].
  - exact (linear_push c lg L K C0).
  - exact (log_push c lg L K C0 X).
Qed.
Print Assumptions C76_pushforward.
(** At the other end of their range both are NaN: the log-normal at 0, the
    exponential through ln at +inf. *)
Theorem C76_pushforward_ends_refuted : forall c lg L, libm_ok c lg L -> 0 <= c <= 1000000 -> ln_edges L -> exp_edges L ->
  (forall mu sd s, is_num mu -> is_num sd -> 0 < val sd -> push_ld (normal_base (@mkNormal (F64 L) mu sd)) exp_transform (S754_zero s) = S754_nan) /\
  (forall rate, is_num rate -> 0 < val rate -> push_ld (exponential_base (@mkExponential (F64 L) rate)) log_transform pinf = S754_nan).
Proof.
  intros c lg L K C0 E X. split; [intros mu sd s M S P; exact (proj2 (exp_push_ends c lg L K C0 E mu sd M S P) s)|exact (log_push_end c lg L K C0 X)].
Qed.
Print Assumptions C76_pushforward_ends_refuted.
(** Log-densities up to 2^13 for the product; log-weights up to 2^13 in size for
    weighted measures, which are finite exactly where the base is. *)
Theorem C76_product_and_weighted : forall L (X Y : Type) (m1 : Measure (F64 L) X) (m2 : Measure (F64 L) Y) x y,
  proper (b_ld (m_self m1) x) ->
  (proper (b_ld (m_self m2) y) -> (is_num (b_ld (m_self m1) x) -> val (b_ld (m_self m1) x) <= bpow radix2 13) -> (is_num (b_ld (m_self m2) y) -> val (b_ld (m_self m2) y) <= bpow radix2 13) ->
    proper (b_ld (m_self (product m1 m2)) (x, y))) /\
  (forall w, is_num w -> Rabs (val w) <= bpow radix2 13 ->
    proper (b_ld (m_self (CombModel.weighted m1 w)) x) /\ (is_num (b_ld (m_self (CombModel.weighted m1 w)) x) <-> is_num (b_ld (m_self m1) x))).
Proof.
  intros L X Y m1 m2 x y P1. split; [intros P2 H1 H2; apply (product_proper L); apply proper_capped; assumption|]. intros w W B. exact (weighted_proper L m1 w x W B P1).
Qed.
Print Assumptions C76_product_and_weighted.

(** * NaN arguments *)
(** The distributions on the whole line return NaN, those whose support is
    checked return minus infinity. *)
Theorem C76_nan : forall L, l_ln L S754_nan = S754_nan ->
  (forall mu sd, normal_ld (@mkNormal (F64 L) mu sd) S754_nan = S754_nan /\ cauchy_ld (@mkCauchy (F64 L) mu sd) S754_nan = S754_nan) /\
  (forall nu, student_ld (@mkStudent (F64 L) nu) S754_nan = S754_nan) /\
  (forall r, exponential_ld (@mkExponential (F64 L) r) S754_nan = ninf) /\
  (forall a b, gamma_ld (@mkGamma (F64 L) a b) S754_nan = ninf /\ beta_ld (@mkBeta (F64 L) a b) S754_nan = ninf) /\
  (forall k, chi_ld (@mkChi (F64 L) k) S754_nan = ninf).
Proof.
  intros L H. destruct (guarded_nan L) as (G1 & G2 & G3 & G4). split; [intros mu sd; split; [apply normal_nan|apply cauchy_nan, H]|].
  split; [intros nu; apply student_nan, H|]. split; [exact G1|]. split; [intros a b; split; [apply G2|apply G4]|exact G3].
Qed.
Print Assumptions C76_nan.

(** * Exceptions *)
(** At plus infinity the gamma log-density is NaN from shape 1 on and minus
    infinity below; the chi-squared one is NaN from 2 degrees of freedom on. *)
Theorem C76_plus_infinity_refuted : forall c lg L, libm_ok c lg L -> 0 <= c <= 1000000 -> ln_edges L -> lg_is_log_gamma lg ->
  (forall a b, is_num a -> is_num b -> 0 < val a <= bpow radix2 880 -> 0 < val b ->
    (1 <= val a -> gamma_ld (@mkGamma (F64 L) a b) pinf = S754_nan) /\ (val a < 1 -> gamma_ld (@mkGamma (F64 L) a b) pinf = ninf)) /\
  (forall k, is_num k -> bpow radix2 (-1000) <= val k <= bpow radix2 880 ->
    (2 <= val k -> chi_ld (@mkChi (F64 L) k) pinf = S754_nan) /\ (val k < 2 -> chi_ld (@mkChi (F64 L) k) pinf = ninf)).
Proof.
  intros c lg L K C0 E G. split; [intros a b; exact (gamma_at_infinity c lg L K C0 E a b (lg_is_moderate lg G))|intros k; exact (chi_at_infinity c lg L K C0 E k (lg_is_moderate lg G))].
Qed.
Print Assumptions C76_plus_infinity_refuted.
(** Minus infinity although the exact log-density is above -1300: x - mu
    overflows for a normal at two standard deviations from its mean, and the
    square overflows for a Cauchy and a Student's t at 2^600. *)
Theorem C76_early_overflow_refuted : forall c lg L, libm_ok c lg L -> 0 <= c <= 1000000 -> ln_edges L -> lg_is_log_gamma lg ->
  (exists mu sd x, is_num mu /\ is_num sd /\ is_num x /\ 0 < val sd /\
    normal_ld (@mkNormal (F64 L) mu sd) x = ninf /\ (val x - val mu) / val sd = 2 /\ -1300 <= ln (normal_pdf (val mu) (val sd) (val x))) /\
  (exists x, is_num x /\ cauchy_ld (@mkCauchy (F64 L) (f64_of_Z 0) (f64_of_Z 1)) x = ninf /\ -1300 <= ln (cauchy_pdf 0 1 (val x))) /\
  (exists x, is_num x /\ student_ld (@mkStudent (F64 L) (f64_of_Z 1)) x = ninf /\ -1300 <= ln (student_pdf lg 1 (val x))).
Proof. exact early_overflow. Qed.
Print Assumptions C76_early_overflow_refuted.

(** * The exponential-family path *)
(** The standard normal is only evaluated this way. *)
Theorem C76_standard_normal : forall c lg L x, libm_ok c lg L -> 0 <= c <= 1000000 -> is_num x -> proper (@ef_density (F64 L) f64 stdnormal_expfam x).
Proof. intros c lg L x K C0. exact (stdnormal_ef_proper c lg L K C0 x). Qed.
Print Assumptions C76_standard_normal.
(** At an infinity it is NaN (zero times infinity), as is the normal's at the
    infinity on the side of its mean. *)
Theorem C76_family_infinity_refuted : forall c lg L, libm_ok c lg L -> 0 <= c <= 1000000 ->
  @ef_density (F64 L) f64 stdnormal_expfam pinf = S754_nan /\ @ef_density (F64 L) f64 stdnormal_expfam ninf = S754_nan /\
  (forall mu sd, is_num mu -> is_num sd -> moderate (val sd) ->
    (0 <= val mu -> ef_density (normal_expfam (@mkNormal (F64 L) mu sd)) pinf = S754_nan) /\
    (val mu <= 0 -> ef_density (normal_expfam (@mkNormal (F64 L) mu sd)) ninf = S754_nan)).
Proof. intros c lg L K C0. destruct (stdnormal_ef_infinite L) as [H1 H2]. split; [exact H1|]. split; [exact H2|]. exact (normal_ef_infinite c lg L K C0). Qed.
Print Assumptions C76_family_infinity_refuted.
(** The variance underflows for standard deviations up to 2^-540, and every
    value is NaN; it overflows from 2^512 on, and moderate means and arguments
    give minus infinity although the exact value is above -1300. *)
Theorem C76_family_scale_refuted : forall c lg L mu sd x, libm_ok c lg L -> 0 <= c <= 1000000 -> ln_edges L -> is_num mu -> is_num sd ->
  (0 < val sd <= bpow radix2 (-540) -> ef_density (normal_expfam (@mkNormal (F64 L) mu sd)) x = S754_nan) /\
  (is_num x -> bpow radix2 512 <= val sd -> at_most_moderate (val mu) -> at_most_moderate (val x) ->
    ef_density (normal_expfam (@mkNormal (F64 L) mu sd)) x = ninf /\ -1300 <= ln (normal_pdf (val mu) (val sd) (val x))).
Proof.
  intros c lg L mu sd x K C0 E NM NS. split; [intros P; exact (normal_ef_tiny L E mu sd x NM NS P)|].
  intros NX P BM BX. split; [exact (normal_ef_huge L E mu sd x NM NS NX P BM BX)|exact (ln_normal_huge mu sd x NS P BM BX)].
Qed.
Print Assumptions C76_family_scale_refuted.

(** * Static inline functions (StaticInlineJITCompiler) *)
Theorem C76_static_inline : forall c lg L, libm_ok c lg L -> 0 <= c <= 1000000 ->
  (forall mu sd x, is_num mu -> is_num sd -> bpow radix2 (-510) <= val sd <= bpow radix2 510 -> not_nan x -> proper (@compile_normal (F64 L) mu sd x)) /\
  (forall rate x, is_num rate -> 0 < val rate -> not_nan x -> proper (@compile_exponential (F64 L) rate x)).
Proof. intros c lg L K C0. split; [exact (inline_normal_proper c lg L K C0)|exact (inline_exponential_proper c lg L K C0)]. Qed.
Print Assumptions C76_static_inline.
(** Squaring the standard deviation: NaN everywhere up to 2^-540, minus infinity
    from 2^512 on, where the exact value is above -1300. *)
Theorem C76_static_inline_scale_refuted : forall L mu sd x, ln_edges L -> is_num mu -> is_num sd ->
  (0 < val sd <= bpow radix2 (-540) -> not_nan x -> @compile_normal (F64 L) mu sd x = S754_nan) /\
  (is_num x -> bpow radix2 512 <= val sd -> at_most_moderate (val mu) -> at_most_moderate (val x) ->
    @compile_normal (F64 L) mu sd x = ninf /\ -1300 <= ln (normal_pdf (val mu) (val sd) (val x))).
Proof.
  intros L mu sd x E NM NS. split; [intros P X; exact (inline_normal_tiny L E mu sd x NM NS P X)|].
  intros NX P BM BX. split; [exact (inline_normal_huge L E mu sd x NM NS NX P BM BX)|exact (ln_normal_huge mu sd x NS P BM BX)].
Qed.
Print Assumptions C76_static_inline_scale_refuted.
Example C76_inline_case : exists lg, let L := edged (rounded_libm lg) in
  libm_ok 1 lg L /\ ln_edges L /\ proper (@compile_normal (F64 L) (f64_of_Z 0) (f64_of_Z 1) far) /\
  @compile_normal (F64 L) (f64_of_Z 0) near600 (f64_of_Z 0) = S754_nan /\ @compile_normal (F64 L) (f64_of_Z 0) far600 (f64_of_Z 0) = ninf.
Proof.
  destruct log_gamma_exists as [lg _]. exists lg. intros L. destruct (edged_ok 1 lg _ (rounded_libm_ok lg)) as (K & E & _). fold L in K, E.
  destruct one_num as [N1 V1], zero_num as [N0 V0]. destruct near600_val as [NN VN], far600_val as [NF VF], far_val as (N & _). pose proof (bpow_gt_0 radix2 (-600)) as P.
  assert (B0 : at_most_moderate (val (f64_of_Z 0))) by (unfold at_most_moderate; rewrite V0, Rabs_R0; apply bpow_ge_0).
  split; [exact K|]. split; [exact E|]. split; [|split].
  - refine (proj1 (C76_static_inline 1 lg L K _) _ _ _ N0 N1 _ (or_introl N)); [lra|]. rewrite V1. split; [apply (bpow_le radix2 (-510) 0)|apply (bpow_le radix2 0 510)]; lia.
  - refine (proj1 (C76_static_inline_scale_refuted L _ _ _ E N0 NN) _ (or_introl N0)). rewrite VN. split; [exact P|apply bpow_le; lia].
  - refine (proj1 (proj2 (C76_static_inline_scale_refuted L _ _ _ E N0 NF) N0 _ B0 B0)). rewrite VF. apply bpow_le. lia.
Qed.

(** * A library, and values that meet the hypotheses *)
Example C76_case : exists lg, lg_is_log_gamma lg /\ let L := edged (rounded_libm lg) in
  libm_ok 1 lg L /\ ln_edges L /\ l_ln L S754_nan = S754_nan /\ not_nan pinf /\ not_nan ninf /\ is_num far /\ val far = bpow radix2 1023 /\
  (proper (normal_ld (@mkNormal (F64 L) (f64_of_Z 0) (f64_of_Z 1)) far) /\ proper (cauchy_ld (@mkCauchy (F64 L) (f64_of_Z 0) (f64_of_Z 1)) far)) /\
  proper (gamma_ld (@mkGamma (F64 L) (f64_of_Z 1) (f64_of_Z 1)) far) /\ gamma_ld (@mkGamma (F64 L) (f64_of_Z 1) (f64_of_Z 1)) pinf = S754_nan /\
  is_num (poisson_ld (@mkPoisson (F64 L) (f64_of_Z 1)) 3).
Proof.
  destruct log_gamma_exists as [lg G]. exists lg. split; [exact G|]. intros L. destruct (edged_ok 1 lg _ (rounded_libm_ok lg)) as (K & E & Q). fold L in K, E, Q.
  destruct one_num as [N1 V1], zero_num as [N0 V0]. destruct far_val as (N & V & _). assert (X : not_nan far) by (left; exact N).
  assert (B : 1 <= bpow radix2 880 /\ 1 <= bpow radix2 900) by (split; [apply (bpow_le radix2 0 880)|apply (bpow_le radix2 0 900)]; lia).
  split; [exact K|]. split; [exact E|]. split; [exact Q|]. split; [right; left; reflexivity|]. split; [right; right; reflexivity|]. split; [exact N|]. split; [exact V|].
  split; [apply (C76_location_scale 1 lg); try assumption; lra|].
  split; [apply (C76_gamma 1 lg); try assumption; [lra|lra|lra|discriminate]|].
  destruct (C76_plus_infinity_refuted 1 lg L K ltac:(lra) E G) as [HI _].
  split; [exact (proj1 (HI (f64_of_Z 1) (f64_of_Z 1) N1 N1 ltac:(lra) ltac:(lra)) ltac:(lra))|].
  exact (proj2 (C76_poisson 1 lg L (f64_of_Z 1) 3 K ltac:(lra) N1 ltac:(lra) ltac:(lia)) ltac:(lra)).
Qed.
(** 2^-600 and 2^600 as standard deviations of a centred normal, at 0. *)
Example C76_scale_case : exists lg, lg_is_log_gamma lg /\ let L := edged (rounded_libm lg) in
  is_num near600 /\ val near600 = bpow radix2 (-600) /\
  ef_density (normal_expfam (@mkNormal (F64 L) (f64_of_Z 0) near600)) (f64_of_Z 0) = S754_nan /\
  ef_density (normal_expfam (@mkNormal (F64 L) (f64_of_Z 0) far600)) (f64_of_Z 0) = ninf /\
  proper (normal_ld (@mkNormal (F64 L) (f64_of_Z 0) near600) (f64_of_Z 0)).
Proof.
  destruct log_gamma_exists as [lg G]. exists lg. split; [exact G|]. intros L. destruct (edged_ok 1 lg _ (rounded_libm_ok lg)) as (K & E & _). fold L in K, E.
  destruct zero_num as [N0 V0]. destruct near600_val as [NN VN]. destruct far600_val as [NF VF]. pose proof (bpow_gt_0 radix2 (-600)) as P.
  assert (B0 : at_most_moderate (val (f64_of_Z 0))) by (unfold at_most_moderate; rewrite V0, Rabs_R0; apply bpow_ge_0).
  split; [exact NN|]. split; [exact VN|].
  split; [refine (proj1 (C76_family_scale_refuted 1 lg L (f64_of_Z 0) near600 (f64_of_Z 0) K _ E N0 NN) _); [lra|rewrite VN; split; [exact P|apply bpow_le; lia]]|].
  split; [refine (proj1 (proj2 (C76_family_scale_refuted 1 lg L (f64_of_Z 0) far600 (f64_of_Z 0) K _ E N0 NF) N0 _ B0 B0)); [lra|rewrite VF; apply bpow_le; lia]|].
  refine (proj1 (C76_location_scale 1 lg L (f64_of_Z 0) near600 (f64_of_Z 0) K _ E N0 NN _ _)); [lra|lra|left; exact N0].
Qed.
(** Minus and plus 2^1023 and minus infinity; two normals 2^1023 apart, at the
    mean of the second with weights 0 and 1, and with no weight at all. *)
Example C76_mixture_case : exists lg, let L := edged_exp (edged (rounded_libm lg)) in
  libm_ok 1 lg L /\ ln_edges L /\ l_exp L ninf = S754_zero false /\
  is_num (@log_sum_exp (F64 L) [SFopp far; ninf; far]) /\
  (let d mu := {| m_self := normal_base (@mkNormal (F64 L) mu (f64_of_Z 1)); m_root := primitive |} in
   is_num (mixture_ld (@mkMixture (F64 L) f64 [d far; d (f64_of_Z 0)] [f64_of_Z 0; f64_of_Z 1]) (f64_of_Z 0)) /\
   mixture_ld (@mkMixture (F64 L) f64 [d far; d (f64_of_Z 0)] [f64_of_Z 0; f64_of_Z 0]) (f64_of_Z 0) = ninf).
Proof.
  destruct log_gamma_exists as [lg _]. exists lg. intros L. destruct (edged_ok 1 lg _ (rounded_libm_ok lg)) as (K0 & E0 & _). destruct (edged_exp_ok 1 lg _ K0 E0) as (K & E & EE). fold L in K, E, EE.
  destruct one_num as [N1 V1], zero_num as [N0 V0]. destruct far_val as (N & V & _).
  split; [exact K|]. split; [exact E|]. split; [exact EE|]. split.
  - apply (C76_log_sum_exp 1 lg); [exact K|lra|exact EE| |right; right; left; exact N].
    repeat apply Forall_cons; [left; split; reflexivity|right; reflexivity|left; exact N|constructor].
  - assert (P : forall mu x, is_num mu -> not_nan x -> proper (normal_ld (@mkNormal (F64 L) mu (f64_of_Z 1)) x)).
    { intros mu x M X. refine (proj1 (C76_location_scale 1 lg L mu (f64_of_Z 1) x K _ E M N1 _ X)); lra. }
    intros d.
    assert (C : Forall (fun m : Measure (F64 L) f64 => proper (b_ld (m_self m) (f64_of_Z 0))) [d far; d (f64_of_Z 0)]).
    { apply Forall_cons; [exact (P far (f64_of_Z 0) N (or_introl N0))|]. apply Forall_cons; [exact (P (f64_of_Z 0) (f64_of_Z 0) N0 (or_introl N0))|constructor]. }
    split.
    + refine (proj1 (C76_mixture 1 lg L f64 _ _ _ K _ E EE _ C) _); [lra|repeat apply Forall_cons; [split; [exact N0|lra]|split; [exact N1|lra]|constructor]|].
      right. left. split; [cbn [snd]; lra|]. refine (proj1 (normal_float 1 lg L K _ (f64_of_Z 0) (f64_of_Z 1) (f64_of_Z 0) N0 N1 N0 _ _ _ _)); rewrite ?V0, ?V1; unfold huge; try lra; rewrite ?Rminus_eq_0; unfold Rdiv; rewrite ?Rmult_0_l, Rabs_R0; apply bpow_ge_0.
    + refine (proj2 (C76_mixture 1 lg L f64 _ _ _ K _ E EE _ C) _); [lra|repeat apply Forall_cons; [split; [exact N0|lra]|split; [exact N0|lra]|constructor]|].
      intros H. apply Exists_exists in H. destruct H as (mw & I & H & _). destruct I as [<- |[<- |[]]]; cbn [snd] in H; lra.
Qed.
(** The log-normal at 2^1023 and at 0, a normal through -x, the exponential
    through ln at -2^1023, and the product and the weighted copy of a normal. *)
Example C76_pushforward_case : exists lg, let L := edged_top (edged (rounded_libm lg)) in
  libm_ok 1 lg L /\ ln_edges L /\ exp_edges L /\
  (let std := @mkNormal (F64 L) (f64_of_Z 0) (f64_of_Z 1) in let m := {| m_self := normal_base std; m_root := primitive |} in
   proper (push_ld (normal_base std) exp_transform far) /\ push_ld (normal_base std) exp_transform (f64_of_Z 0) = S754_nan /\
   proper (@push_ld (F64 L) (normal_base std) (@linear_transform (F64 L) (SFopp (f64_of_Z 1)) far) ninf) /\
   proper (push_ld (exponential_base (@mkExponential (F64 L) (f64_of_Z 1))) log_transform (SFopp far)) /\
   is_num (b_ld (m_self (CombModel.weighted m (f64_of_Z 1))) (f64_of_Z 0))).
Proof.
  destruct log_gamma_exists as [lg _]. exists lg. intros L. destruct (edged_ok 1 lg _ (rounded_libm_ok lg)) as (K0 & E0 & _). destruct (edged_top_ok 1 lg _ K0 E0) as (K & E & X). fold L in K, E, X.
  destruct one_num as [N1 V1], zero_num as [N0 V0]. destruct far_val as (N & V & _). destruct (C76_pushforward 1 lg L K ltac:(lra) E X) as (H1 & H2 & H3).
  destruct (C76_pushforward_ends_refuted 1 lg L K ltac:(lra) E X) as (R1 & _). destruct (neg_num _ N1) as [NM VM].
  split; [exact K|]. split; [exact E|]. split; [exact X|]. intros std m.
  assert (P : forall x, not_nan x -> proper (normal_ld std x)) by (intros x Q; refine (proj1 (C76_location_scale 1 lg L (f64_of_Z 0) (f64_of_Z 1) x K _ E N0 N1 _ Q)); lra).
  split; [refine (proj1 (H1 (f64_of_Z 0) (f64_of_Z 1) N0 N1 _) far N _); [lra|rewrite V; apply bpow_gt_0]|].
  split; [refine (R1 (f64_of_Z 0) (f64_of_Z 1) false N0 N1 _); lra|].
  split; [refine (H2 (normal_base std) _ _ _ NM _ N (or_intror (or_intror eq_refl)) P); rewrite VM; lra|].
  split; [refine (H3 (f64_of_Z 1) (SFopp far) N1 _ (or_introl _)); [lra|split; reflexivity]|].
  refine (proj2 (proj2 (proj2 (C76_product_and_weighted L f64 f64 m m (f64_of_Z 0) (f64_of_Z 0) (P _ (or_introl N0))) (f64_of_Z 1) N1 _)) _).
  - rewrite V1, Rabs_R1. apply (bpow_le radix2 0 13). lia.
  - refine (proj1 (normal_float 1 lg L K _ (f64_of_Z 0) (f64_of_Z 1) (f64_of_Z 0) N0 N1 N0 _ _ _ _)); rewrite ?V0, ?V1; unfold huge; try lra; rewrite ?Rminus_eq_0; unfold Rdiv; rewrite ?Rmult_0_l, Rabs_R0; apply bpow_ge_0.
Qed.
