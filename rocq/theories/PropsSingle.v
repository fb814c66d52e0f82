(** Single precision (C72). *)
From Coq Require Import ZArith Reals Bool String List Lia Lra.
From Coq Require Import Floats.SpecFloat.
From Flocq Require Import Core.
From Verif Require Import Num EggSpec DensitySpec CoreModel CombModel ExpFamModel DistModel DistSpec RoundSpec.
From Verif Require FloatErr DistFloat RoundProofs JitAcc.
From Verif Require Import SingleModel SingleSpec SingleErr SingleFloat SingleFloat2 SingleFloat3.
Import ListNotations.
Local Open Scope R_scope.

(** * The conversions and the library *)
(** [f32 as f64] is exact; [f64 as f32] rounds to nearest. *)
Theorem C72_widen : forall x, is_single x -> FloatErr.is_num (widen x) /\ val (widen x) = val x.
Proof. exact widen_num. Qed.
Print Assumptions C72_widen.
Theorem C72_narrow : forall w, FloatErr.is_num w -> Rabs (round radix2 (FLT_exp (-149) 24) ZnearestE (val w)) < bpow radix2 128 ->
  is_single (narrow w) /\ val (narrow w) = round radix2 (FLT_exp (-149) 24) ZnearestE (val w).
Proof. exact narrow_num. Qed.
Print Assumptions C72_narrow.
(** The assumption of the theorems below follows from the accuracy of [f32::ln],
    [f32::exp] and of the [f64] functions: log-gamma is computed in [f64]. *)
Theorem C72_library : forall c d lg L,
  (forall x, is_single x -> 0 < val x -> is_single (s_ln L x) /\ Rabs (val (s_ln L x) - ln (val x)) <= c * eps32 * (Rabs (ln (val x)) + small32)) ->
  (forall x, is_single x -> val x <= 88 -> is_single (s_exp L x) /\ Rabs (val (s_exp L x) - exp (val x)) <= c * eps32 * (exp (val x) + small32)) ->
  libm_ok d lg (s_double L) -> 1 <= c -> 0 <= d <= 1000000 -> libm32_ok c lg L.
Proof. exact library_ok. Qed.
Print Assumptions C72_library.
(** A library that rounds correctly meets it with [c = 1]. *)
Theorem C72_rounded_library : forall lg, libm32_ok 1 lg (rounded_libm32 lg) /\ libm_ok 1 lg (s_double (rounded_libm32 lg)).
Proof. intros lg. split; [apply rounded_libm32_ok|apply RoundProofs.rounded_libm_ok]. Qed.
Print Assumptions C72_rounded_library.

(** * The operations of the instance *)
Theorem C72_arithmetic : forall L (a b : f32), is_single a -> is_single b ->
  let N := F32 L in let RS := round radix2 (FLT_exp (-149) 24) ZnearestE in
  (Rabs (RS (val a + val b)) < bpow radix2 128 -> is_single (@nadd N a b) /\ val (@nadd N a b) = RS (val a + val b)) /\
  (Rabs (RS (val a - val b)) < bpow radix2 128 -> is_single (@nsub N a b) /\ val (@nsub N a b) = RS (val a - val b)) /\
  (Rabs (RS (val a * val b)) < bpow radix2 128 -> is_single (@nmul N a b) /\ val (@nmul N a b) = RS (val a * val b)) /\
  (val b <> 0 -> Rabs (RS (val a / val b)) < bpow radix2 128 -> is_single (@ndiv N a b) /\ val (@ndiv N a b) = RS (val a / val b)) /\
  (0 <= val a -> is_single (@nsqrt N a) /\ val (@nsqrt N a) = RS (sqrt (val a))) /\
  (is_single (@nneg N a) /\ val (@nneg N a) = - val a) /\ (is_single (@nabs N a) /\ val (@nabs N a) = Rabs (val a)) /\
  (@nltb N a b = true <-> val a < val b) /\ (@nleb N a b = true <-> val a <= val b) /\ (@neqb N a b = true <-> val a = val b).
Proof. exact arithmetic. Qed.
Print Assumptions C72_arithmetic.
(** Integer literals are exact; others are the [f64] literal rounded once more
    (so not always the nearest [f32]); pi is the nearest [f32]. *)
Theorem C72_literals : forall L, let N := F32 L in let RS := round radix2 (FLT_exp (-149) 24) ZnearestE in
  (forall z, (Z.abs z <= 2 ^ 24)%Z -> is_single (@ndec N z 1) /\ val (@ndec N z 1) = IZR z) /\
  (forall m d, (1 < d)%positive -> (Z.abs m <= 2 ^ 53)%Z -> (Zpos d <= 2 ^ 53)%Z ->
    is_single (@ndec N m d) /\ val (@ndec N m d) = RS (round radix2 (FLT_exp (-1074) 53) ZnearestE (IZR m / IZR (Zpos d)))) /\
  is_single (@npi N) /\ val (@npi N) = RS PI.
Proof. exact literals. Qed.
Print Assumptions C72_literals.
Theorem C72_functions : forall L c lg, libm32_ok c lg L -> let N := F32 L in
  (forall x, is_single x -> 0 < val x -> within32 c (Rabs (ln (val x)) + small32) (ln (val x)) (@nln N x)) /\
  (forall x, is_single x -> val x <= 88 -> within32 c (exp (val x) + small32) (exp (val x)) (@nexp N x)) /\
  (forall x, is_single x -> 0 < val x -> Rabs (lg (val x)) <= big32 -> within32 c (1 + Rabs (lg (val x))) (lg (val x)) (@nlgamma N x)).
Proof. exact functions. Qed.
Print Assumptions C72_functions.
(** The other functions and the special values. *)
Theorem C72_other_operations : forall L (x y : f32), let N := F32 L in
  @npow N x y = s_pow L x y /\ @nsin N x = s_sin L x /\ @ncos N x = s_cos L x /\
  @npinf N = S754_infinity false /\ @nninf N = S754_infinity true /\ @nnan N = S754_nan.
Proof. intros. repeat split. Qed.
Print Assumptions C72_other_operations.

(** * Constructors *)
Theorem C72_constructors : forall L (a b : f32) n, is_single a -> is_single b -> let N := F32 L in
  (@normal_new N a b = (if Rlt_dec 0 (val b) then Some (@mkNormal N a b) else None)) /\
  (@exponential_new N b = (if Rlt_dec 0 (val b) then Some (@mkExponential N b) else None)) /\
  (@gamma_new N a b = (if Rlt_dec 0 (val a) then if Rlt_dec 0 (val b) then Some (@mkGamma N a b) else None else None)) /\
  (@beta_new N a b = (if Rlt_dec 0 (val a) then if Rlt_dec 0 (val b) then Some (@mkBeta N a b) else None else None)) /\
  (@chi_new N b = (if Rlt_dec 0 (val b) then Some (@mkChi N b) else None)) /\
  (@student_new N b = (if Rlt_dec 0 (val b) then Some (@mkStudent N b) else None)) /\
  (@cauchy_new N a b = (if Rlt_dec 0 (val b) then Some (@mkCauchy N a b) else None)) /\
  (@poisson_new N b = (if Rlt_dec 0 (val b) then Some (@mkPoisson N b) else None)) /\
  (@bernoulli_new N b = (if Rle_dec 0 (val b) then if Rle_dec (val b) 1 then Some (@mkBernoulli N b) else None else None)) /\
  (@binomial_new N n b = (if Rle_dec 0 (val b) then if Rle_dec (val b) 1 then Some (@mkBinomial N n b) else None else None)) /\
  (@geometric_new N b = (if Rlt_dec 0 (val b) then if Rle_dec (val b) 1 then Some (@mkGeometric N b) else None else None)) /\
  (@negbinomial_new N n b = (if Nat.eqb n 0 then None else if Rlt_dec 0 (val b) then if Rlt_dec (val b) 1 then Some (@mkNegBinomial N n b) else None else None)).
Proof. exact constructors. Qed.
Print Assumptions C72_constructors.
(** Outside the support every log-density is minus infinity. *)
Theorem C72_outside : forall L (x p a b : f32) n k, is_single x -> let N := F32 L in
  (val x < 0 -> exponential_ld (@mkExponential N a) x = S754_infinity true) /\
  (val x <= 0 -> gamma_ld (@mkGamma N a b) x = S754_infinity true) /\
  (val x <= 0 \/ 1 <= val x -> beta_ld (@mkBeta N a b) x = S754_infinity true) /\
  (val x <= 0 -> chi_ld (@mkChi N a) x = S754_infinity true) /\
  ((1 < k)%nat -> bernoulli_ld (@mkBernoulli N p) k = S754_infinity true) /\
  ((n < k)%nat -> binomial_ld (@mkBinomial N n p) k = S754_infinity true) /\
  (geometric_ld (@mkGeometric N p) 0 = S754_infinity true) /\
  (forall ps : list f32, (length ps <= k)%nat -> categorical_ld (@mkCategorical N ps) k = S754_infinity true) /\
  ((n < k)%nat -> log_binomial_coefficient32 L n k = S754_infinity true).
Proof. exact outside. Qed.
Print Assumptions C72_outside.

(** * Log-densities computed in [f32] *)
Theorem C72_normal : forall c lg L mu sd x, libm32_ok c lg L -> 0 <= c <= 1000 ->
  is_single mu -> is_single sd -> is_single x -> 0 < val sd -> Rabs (val mu) <= huge32 -> Rabs (val x) <= huge32 ->
  let z := (val x - val mu) / val sd in Rabs z <= bpow radix2 40 -> within32 (2 * (c + 7)) (z * z + Rabs (ln (val sd)) + 2) (ln (normal_pdf (val mu) (val sd) (val x))) (normal_ld (@mkNormal (F32 L) mu sd) x).
Proof. intros c lg L mu sd x LOK C0 H0 H1 H2 H3 H4 H5. intros z HZ. apply acc_within; [apply (normal_float c lg L LOK C0); assumption|lra|apply keps; lra]. Qed.
Print Assumptions C72_normal.
Theorem C72_exponential : forall c lg L rate x, libm32_ok c lg L -> 0 <= c <= 1000 ->
  is_single rate -> is_single x -> 0 < val rate -> 0 <= val x -> val rate * val x <= huge32 ->
  within32 (2 * (c + 2)) (Rabs (ln (val rate)) + val rate * val x + 1) (ln (exponential_pdf (val rate) (val x))) (exponential_ld (@mkExponential (F32 L) rate) x).
Proof. intros c lg L rate x LOK C0 H0 H1 H2 H3 H4. apply acc_within; [apply (exponential_float c lg L LOK C0); assumption|lra|apply keps; lra]. Qed.
Print Assumptions C72_exponential.
Theorem C72_gamma : forall c lg L a b x, libm32_ok c lg L -> 0 <= c <= 1000 ->
  is_single a -> is_single b -> is_single x -> 0 < val a <= huge32 -> 0 < val b -> 0 < val x -> val b * val x <= huge32 -> Rabs (lg (val a)) <= huge32 ->
  within32 (2 * (c + 5)) (val a * Rabs (ln (val b)) + Rabs (lg (val a)) + Rabs (val a - 1) * Rabs (ln (val x)) + val b * val x + 2 + small32 * (2 * val a + 1))
    (ln (gamma_pdf lg (val a) (val b) (val x))) (gamma_ld (@mkGamma (F32 L) a b) x).
Proof. intros c lg L a b x LOK C0 H0 H1 H2 H3 H4 H5 H6 H7. apply acc_within; [apply (gamma_float c lg L LOK C0); assumption|lra|apply keps; lra]. Qed.
Print Assumptions C72_gamma.
(** The sum of the parameters is assumed to be exact, as in C55. *)
Theorem C72_beta : forall c lg L a b x, libm32_ok c lg L -> 0 <= c <= 1000 ->
  is_single a -> is_single b -> is_single x -> 0 < val a <= huge32 -> 0 < val b <= huge32 -> 0 < val x < 1 -> val (f32_add a b) = val a + val b -> Rabs (lg (val a + val b)) <= huge32 -> Rabs (lg (val a)) <= huge32 -> Rabs (lg (val b)) <= huge32 ->
  within32 (2 * (c + 5)) (Rabs (lg (val a + val b)) + Rabs (lg (val a)) + Rabs (lg (val b)) + (val a + 1) * (Rabs (ln (val x)) + 1) + (val b + 1) * (Rabs (ln (1 - val x)) + 1) + 4)
    (ln (beta_pdf lg (val a) (val b) (val x))) (beta_ld (@mkBeta (F32 L) a b) x).
Proof. intros c lg L a b x LOK C0 H0 H1 H2 H3 H4 H5 H6 H7 H8 H9. apply acc_within; [apply (beta_float c lg L LOK C0); assumption|lra|apply keps; lra]. Qed.
Print Assumptions C72_beta.
Theorem C72_chi_squared : forall c lg L k x, libm32_ok c lg L -> 0 <= c <= 1000 ->
  is_single k -> is_single x -> small32 <= val k <= huge32 -> 0 < val x <= huge32 -> Rabs (lg (val k / 2)) <= huge32 ->
  within32 (2 * (c + 4)) (val k + Rabs (lg (val k / 2)) + (val k / 2 + 1) * (Rabs (ln (val x)) + 1) + val x + 3)
    (ln (chi_squared_pdf lg (val k) (val x))) (chi_ld (@mkChi (F32 L) k) x).
Proof. intros c lg L k x LOK C0 H0 H1 H2 H3 H4. apply acc_within; [apply (chi_float c lg L LOK C0); assumption|lra|apply keps; lra]. Qed.
Print Assumptions C72_chi_squared.
(** Both ways of asking for a Cauchy log-density. *)
Theorem C72_cauchy : forall c lg L loc sc x, libm32_ok c lg L -> 0 <= c <= 1000 ->
  is_single loc -> is_single sc -> is_single x -> 0 < val sc -> Rabs (val loc) <= huge32 -> Rabs (val x) <= huge32 ->
  let z := (val x - val loc) / val sc in Rabs z <= bpow radix2 40 ->
  let m := ln (1 + z * z) + Rabs (ln (val sc)) + 5 in
  within32 (2 * (c + 50)) m (ln (cauchy_pdf (val loc) (val sc) (val x))) (cauchy_ld (@mkCauchy (F32 L) loc sc) x) /\
  within32 (2 * (c + 50)) m (ln (cauchy_pdf (val loc) (val sc) (val x))) (cauchy_log_pdf (@mkCauchy (F32 L) loc sc) x).
Proof.
  intros c lg L loc sc x LOK C0 N1 N2 N3 P B1 B2 z Z m. destruct (cauchy_float c lg L LOK C0 loc sc x N1 N2 N3 P B1 B2 Z) as [A B].
  split; (apply acc_within; [assumption|lra|apply keps; lra]).
Qed.
Print Assumptions C72_cauchy.
(** Student's t is computed in [f64] and converted: one unit, no restriction on
    the point. *)
Theorem C72_student_t : forall c lg L nu x, libm_ok c lg (s_double L) -> 0 <= c <= 1000000 -> is_single nu -> is_single x ->
  bpow radix2 (-28) <= val nu <= bpow radix2 50 -> Rabs (lg ((val nu + 1) / 2)) <= huge32 -> Rabs (lg (val nu / 2)) <= huge32 ->
  within32 1 (Rabs (lg ((val nu + 1) / 2)) + Rabs (lg (val nu / 2)) + Rabs (ln (val nu * PI)) + (val nu + 1) * (ln (1 + val x * val x / val nu) + 1) + 4)
    (ln (student_pdf lg (val nu) (val x))) (student_ld32 L nu x).
Proof. exact student_single. Qed.
Print Assumptions C72_student_t.
Theorem C72_bernoulli : forall c lg L p k, libm32_ok c lg L -> 0 <= c <= 1000 ->
  is_single p -> 0 < val p < 1 -> (k <= 1)%nat ->
  within32 (2 * (c + 2)) (Rabs (ln (bernoulli_pmf (val p) k)) + 1) (ln (bernoulli_pmf (val p) k)) (bernoulli_ld (@mkBernoulli (F32 L) p) k).
Proof. intros c lg L p k LOK C0 H0 H1 H2. apply acc_within; [apply (bernoulli_float c lg L LOK C0); assumption|lra|apply keps; lra]. Qed.
Print Assumptions C72_bernoulli.
Theorem C72_binomial_kernel : forall c lg L n p k, libm32_ok c lg L -> 0 <= c <= 1000 ->
  is_single p -> 0 < val p < 1 -> (k <= n)%nat -> count32_ok n ->
  within32 (2 * (c + 5)) (INR k * (Rabs (ln (val p)) + 1) + (INR n - INR k) * (Rabs (ln (1 - val p)) + 1) + 1)
    (INR k * ln (val p) + (INR n - INR k) * ln (1 - val p)) (binomial_ld (@mkBinomial (F32 L) n p) k).
Proof. intros c lg L n p k LOK C0 H0 H1 H2 H3. apply acc_within; [apply (binomial_float c lg L LOK C0); assumption|lra|apply keps; lra]. Qed.
Print Assumptions C72_binomial_kernel.
Theorem C72_negative_binomial_kernel : forall c lg L r p k, libm32_ok c lg L -> 0 <= c <= 1000 ->
  is_single p -> 0 < val p < 1 -> count32_ok r -> count32_ok k ->
  within32 (2 * (c + 4)) (INR r * (Rabs (ln (val p)) + 1) + INR k * (Rabs (ln (1 - val p)) + 1) + 1)
    (INR r * ln (val p) + INR k * ln (1 - val p)) (negbinomial_ld (@mkNegBinomial (F32 L) r p) k).
Proof. intros c lg L r p k LOK C0 H0 H1 H2 H3. apply acc_within; [apply (negbinomial_float c lg L LOK C0); assumption|lra|apply keps; lra]. Qed.
Print Assumptions C72_negative_binomial_kernel.
Theorem C72_poisson : forall c lg L rate k, libm32_ok c lg L -> 0 <= c <= 1000 -> is_single rate -> 0 < val rate <= huge32 -> count32_ok k ->
  within32 (2 * (c + INR k + 3)) (INR k * Rabs (ln (val rate)) + val rate + ln (INR (fact k)) + 1) (ln (poisson_pmf (val rate) k)) (poisson_ld (@mkPoisson (F32 L) rate) k).
Proof.
  intros c lg L rate k LOK C0 N P K. pose proof (pos_INR k). apply acc_within; [apply (poisson_float c lg L LOK C0); assumption|lra|apply keps].
  unfold count32_ok in K. change (bpow radix2 20) with 1048576 in K. lra.
Qed.
Print Assumptions C72_poisson.
Theorem C72_geometric : forall c lg L p k, libm32_ok c lg L -> 0 <= c <= 1000 ->
  is_single p -> 0 < val p < 1 -> (1 <= k)%nat -> count32_ok k ->
  within32 (2 * (c + 5)) (INR k * (Rabs (ln (1 - val p)) + 1) + Rabs (ln (val p)) + 1) (ln (geometric_pmf (val p) k)) (geometric_ld (@mkGeometric (F32 L) p) k).
Proof. intros c lg L p k LOK C0 H0 H1 H2 H3. apply acc_within; [apply (geometric_float c lg L LOK C0); assumption|lra|apply keps; lra]. Qed.
Print Assumptions C72_geometric.
Theorem C72_categorical : forall c lg L ps k p, libm32_ok c lg L -> 0 <= c <= 1000 -> nth_error ps k = Some p -> is_single p -> 0 < val p ->
  within32 (2 * c) (Rabs (ln (val p)) + small32) (ln (categorical_pmf (map val ps) k)) (categorical_ld (@mkCategorical (F32 L) ps) k).
Proof. intros c lg L ps k p LOK C0 E N P. apply acc_within; [apply (categorical_float c lg L LOK); assumption|lra|apply keps; lra]. Qed.
Print Assumptions C72_categorical.
(** Coefficients are computed in [f64] and converted. *)
Theorem C72_binomial_coefficient : forall c lg L n k, libm_ok c lg (s_double L) -> 0 <= c <= 1000000 ->
  (forall j : nat, lg (INR (S j)) = ln (INR (fact j))) -> count_ok n -> (k <= n)%nat ->
  within32 1 (ln (INR (fact n)) + ln (INR (fact k)) + ln (INR (fact (n - k))) + 3) (ln (Binomial.C n k)) (log_binomial_coefficient32 L n k).
Proof. exact binomial_coefficient_single. Qed.
Print Assumptions C72_binomial_coefficient.
Theorem C72_negative_binomial_coefficient : forall c lg L r k, libm_ok c lg (s_double L) -> 0 <= c <= 1000000 ->
  (forall j : nat, lg (INR (S j)) = ln (INR (fact j))) -> count_ok r -> count_ok k -> (0 < r)%nat ->
  within32 1 (ln (INR (fact (k + r - 1))) + ln (INR (fact k)) + ln (INR (fact (r - 1))) + 3) (ln (Binomial.C (k + r - 1) k))
    (log_negative_binomial_coefficient32 L r k).
Proof. exact negative_binomial_coefficient_single. Qed.
Print Assumptions C72_negative_binomial_coefficient.
(** The log-partition of the beta family; for parameters between 2^-20 and 2^8
    their sum is exact in [f64]. *)
Theorem C72_beta_partition : forall c lg L a b, libm_ok c lg (s_double L) -> 0 <= c <= 1000000 -> is_single a -> is_single b ->
  bpow radix2 (-20) <= val a <= bpow radix2 8 -> bpow radix2 (-20) <= val b <= bpow radix2 8 ->
  Rabs (lg (val a)) <= huge32 -> Rabs (lg (val b)) <= huge32 -> Rabs (lg (val a + val b)) <= huge32 ->
  within32 1 (Rabs (lg (val a)) + Rabs (lg (val b)) + Rabs (lg (val a + val b)) + 3) (lg (val a) + lg (val b) - lg (val a + val b)) (beta_partition32 L a b).
Proof.
  intros c lg L a b LOK C0 NA NB A B. destruct (sum_exact_double a b NA NB A B) as [N E]. pose proof (bpow_gt_0 radix2 (-20)).
  apply (beta_partition_single c lg L a b LOK C0 NA NB); try assumption; lra.
Qed.
Print Assumptions C72_beta_partition.

(** * Single and double precision agree *)
Theorem C72_normal_agreement : forall c d lg L mu sd x, libm32_ok c lg L -> 0 <= c <= 1000 -> libm_ok d lg (s_double L) -> 0 <= d <= 1000000 ->
  is_single mu -> is_single sd -> is_single x -> 0 < val sd -> Rabs (val mu) <= huge32 -> Rabs (val x) <= huge32 ->
  let z := (val x - val mu) / val sd in Rabs z <= bpow radix2 40 ->
  Rabs (val (normal_ld (@mkNormal (F32 L) mu sd) x) - val (normal_ld (@mkNormal (F64 (s_double L)) (widen mu) (widen sd)) (widen x))) <=
    (2 * (c + 7) + 1) * eps32 * (z * z + Rabs (ln (val sd)) + 2).
Proof. exact normal_agreement. Qed.
Print Assumptions C72_normal_agreement.
Theorem C72_cauchy_agreement : forall c d lg L loc sc x, libm32_ok c lg L -> 0 <= c <= 1000 -> libm_ok d lg (s_double L) -> 0 <= d <= 1000000 ->
  is_single loc -> is_single sc -> is_single x -> 0 < val sc -> Rabs (val loc) <= huge32 -> Rabs (val x) <= huge32 ->
  let z := (val x - val loc) / val sc in Rabs z <= bpow radix2 40 ->
  Rabs (val (cauchy_ld (@mkCauchy (F32 L) loc sc) x) - val (cauchy_ld (@mkCauchy (F64 (s_double L)) (widen loc) (widen sc)) (widen x))) <=
    (2 * (c + 50) + 1) * eps32 * (ln (1 + z * z) + Rabs (ln (val sc)) + 5).
Proof. exact cauchy_agreement. Qed.
Print Assumptions C72_cauchy_agreement.

(** * Weights that must sum to one *)
(** The tolerance 1e-10 is below half the spacing of [f32] at 1, so the rounded
    running sum has to be exactly 1. *)
Theorem C72_categorical_accepts : forall L ps, Forall is_single ps ->
  (exists d, @categorical_new (F32 L) ps = Some d) <-> ps <> [] /\ Forall (fun p => 0 <= val p) ps /\ val (fold_left f32_add ps (f32_of_Z 0)) = 1.
Proof. exact categorical_single. Qed.
Print Assumptions C72_categorical_accepts.
Theorem C72_mixture_accepts : forall L A (cs : list (Measure (F32 L) A)) ws, Forall is_single ws ->
  (exists m, mixture_new cs ws = Some m) <-> length cs = length ws /\ val (fold_left f32_add ws (f32_of_Z 0)) = 1.
Proof. exact @mixture_single. Qed.
Print Assumptions C72_mixture_accepts.
Theorem C72_uniform_powers : forall L n, (n <= 24)%nat -> exists d, @categorical_uniform (F32 L) (2 ^ n) = Some d.
Proof. exact uniform_single. Qed.
Print Assumptions C72_uniform_powers.
(** A uniform choice among ten categories cannot be built in single precision,
    although a choice among up to 200000 can in f64 (C62_uniform). *)
Theorem C72_uniform_refuted : ~ (forall L k, (0 < k)%nat -> exists d, @categorical_uniform (F32 L) k = Some d).
Proof.
  intros H. destruct (H (rounded_libm32 (fun _ => 0)) 10%nat ltac:(lia)) as [d E]. rewrite uniform_ten_panics in E. discriminate E.
Qed.
Print Assumptions C72_uniform_refuted.

(** * Concrete cases *)
Lemma c72_int z : (Z.abs z <= 2 ^ 24)%Z -> is_single (f32_of_Z z) /\ val (f32_of_Z z) = IZR z.
Proof. apply num_int. Qed.
Example C72_normal_case : forall lg, let L := rounded_libm32 lg in
  within32 16 28 (ln (normal_pdf 1 2 11)) (normal_ld (@mkNormal (F32 L) (f32_of_Z 1) (f32_of_Z 2)) (f32_of_Z 11)).
Proof.
  intros lg L. destruct (c72_int 1 ltac:(lia)) as [NA VA]. destruct (c72_int 2 ltac:(lia)) as [NB VB]. destruct (c72_int 11 ltac:(lia)) as [NC VC].
  assert (K : 100 <= huge32) by (pose proof huge_one; lra).
  destruct (C72_normal 1 lg L (f32_of_Z 1) (f32_of_Z 2) (f32_of_Z 11) (rounded_libm32_ok lg) ltac:(lra) NA NB NC) as [N W]; rewrite ?VA, ?VB, ?VC; rewrite ?Rabs_pos_eq by lra; try lra.
  - apply Rle_trans with (bpow radix2 10); [change (bpow radix2 10) with 1024; lra|apply bpow_le; lia].
  - rewrite VA, VB, VC in W. split; [exact N|]. eapply Rle_trans; [exact W|]. pose proof eps_pos. pose proof JitAcc.ln2_bounds. rewrite (Rabs_pos_eq (ln 2)) by lra. nra.
Qed.
Example C72_student_case : let L := rounded_libm32 (fun _ => 0) in
  within32 1 60 (ln (student_pdf (fun _ => 0) 3 100)) (student_ld32 L (f32_of_Z 3) (f32_of_Z 100)).
Proof.
  intros L. destruct (c72_int 3 ltac:(lia)) as [NA VA]. destruct (c72_int 100 ltac:(lia)) as [NB VB]. pose proof JitAcc.ln2_bounds as L2.
  assert (HP : 0 <= huge32) by (pose proof huge_one; lra).
  pose proof (C72_student_t 1 (fun _ => 0) L (f32_of_Z 3) (f32_of_Z 100) (RoundProofs.rounded_libm_ok _) ltac:(lra) NA NB) as H.
  rewrite VA, VB, Rabs_R0 in H. destruct H as [N W]; [|lra|lra|].
  - split; [apply Rle_trans with (bpow radix2 0); [apply bpow_le; lia|cbn; lra]|apply Rle_trans with (bpow radix2 2); [change (bpow radix2 2) with 4; lra|apply bpow_le; lia]].
  - split; [exact N|]. eapply Rle_trans; [exact W|]. apply Rmult_le_compat_l; [pose proof eps_pos; lra|].
    assert (A : ln (1 + 100 * 100 / 3) <= 12 * ln 2).
    { replace (12 * ln 2) with (IZR 12 * ln 2) by reflexivity. rewrite <- ln_bpow. apply ln_le; [lra|]. change (bpow radix2 12) with 4096. lra. }
    pose proof pi_bounds as PB. assert (B : Rabs (ln (3 * PI)) <= 4 * ln 2).
    { rewrite Rabs_pos_eq by (rewrite <- ln_1; apply ln_le; lra). replace (4 * ln 2) with (IZR 4 * ln 2) by reflexivity. rewrite <- ln_bpow. apply ln_le; [lra|]. change (bpow radix2 4) with 16. lra. }
    lra.
Qed.
(** Weights 1/4, 1/4, 1/2 are accepted; 0.1 ten times is not. *)
Example C72_categorical_case : forall L, let q := f32_div (f32_of_Z 1) (f32_of_Z 4) in let t := f32_div (f32_of_Z 1) (f32_of_Z 10) in
  (exists d, @categorical_new (F32 L) [q; q; f32_div (f32_of_Z 1) (f32_of_Z 2)] = Some d) /\ val (fold_left f32_add (repeat t 10) (f32_of_Z 0)) <> 1.
Proof.
  intros L q t. split.
  - apply C72_categorical_accepts; [repeat constructor; vm_compute; reflexivity|]. split; [discriminate|]. split.
    + assert (Q : q = S754_finite false 8388608 (-25)) by (vm_compute; reflexivity). assert (H : f32_div (f32_of_Z 1) (f32_of_Z 2) = S754_finite false 8388608 (-24)) by (vm_compute; reflexivity).
      rewrite Q, H. repeat apply Forall_cons; try apply Forall_nil; rewrite val_explicit; cbn [cond_Zopp]; apply Rmult_le_pos; try lra; apply bpow_ge_0.
    + assert (S : fold_left f32_add [q; q; f32_div (f32_of_Z 1) (f32_of_Z 2)] (f32_of_Z 0) = f32_of_Z 1) by (vm_compute; reflexivity).
      etransitivity; [apply (f_equal val S)|]. apply (c72_int 1); lia.
  - assert (S : fold_left f32_add (repeat t 10) (f32_of_Z 0) = S754_finite false 8388609 (-23)) by (vm_compute; reflexivity).
    rewrite S, val_explicit. cbn [cond_Zopp]. change (bpow radix2 (-23)) with (/ IZR (2 ^ 23)). change (IZR (2 ^ 23)) with 8388608. lra.
Qed.
