(** Accuracy in binary64: evaluators (C53), sums and polynomials (C54),
    log-densities (C55). *)
From Coq Require Import ZArith Reals Bool String List Lia Lra.
From Coq Require Import Floats.SpecFloat.
From Flocq Require Import Core.
From Verif Require Import Num ExprModel ExprSpec JitModel JitSpec EggSpec FloatErr AccSpec RoundSpec RoundProofs RelErr
  DensitySpec CoreSpec CombSpec CoreModel CombModel ExpFamModel TaglessModel DistModel DistSpec CombProofs2 DistFloat SumFloat.
Import ListNotations.
Local Open Scope R_scope.

(** * C53: the evaluators *)
(** With any math library that errs by at most [c] units, evaluation returns a
    finite number within the accumulated bound of the exact value. *)
Theorem C53_evaluate : forall c lg L vars e r d, libm_ok c lg L -> 0 <= c -> eval_bound c (value_of vars) e r d ->
  real_is (fun x => val (value_of vars x)) e r /\
  exists w, @evaluate (F64 L) vars e = Ok w /\ is_num w /\ Rabs (val w - r) <= d.
Proof. intros c lg L vars e r d LOK C0 B. split; [eapply bound_real; eassumption|eapply evaluate_bound; eassumption]. Qed.
Print Assumptions C53_evaluate.
Theorem C53_evaluate_single : forall c lg L name v e r d, libm_ok c lg L -> 0 <= c -> eval_bound c (single_value name v) e r d ->
  exists w, @evaluate_single_var (F64 L) name v e = Ok w /\ is_num w /\ Rabs (val w - r) <= d.
Proof. intros c lg L name v e r d LOK C0 B. eapply evaluate_single_bound; eassumption. Qed.
Print Assumptions C53_evaluate_single.
(** Compiled code and the interpreter agree up to the sum of their bounds. *)
Theorem C53_compiled_agreement : forall c lg L e ds ps cs f args vars r d1 s d2, libm_ok c lg L -> 0 <= c ->
  compile_expression e ds ps cs = JOk f -> List.length args = (List.length ds + List.length ps)%nat ->
  (forall x, occurs x e -> get vars x = expression_binding ds ps cs args x) ->
  eval_bound c (value_of vars) e r d1 -> accurate (total (expression_binding ds ps cs args)) e s d2 ->
  r = s /\ exists v w, @evaluate (F64 L) vars e = Ok v /\ invoke f (map AFloat args) = Returned w /\ Rabs (val v - val w) <= d1 + d2.
Proof. intros c lg L e ds ps cs f args vars r d1 s d2 LOK C0. apply (compiled_agrees c lg L LOK C0). Qed.
Print Assumptions C53_compiled_agreement.
(** A library that rounds correctly meets the assumption with [c = 1]. *)
Theorem C53_rounded_library : forall lg, libm_ok 1 lg (rounded_libm lg).
Proof. exact rounded_libm_ok. Qed.
Print Assumptions C53_rounded_library.

(** * C54: sums, dot products, linear maps, polynomials, log-sum-exp *)
Theorem C54_sum : forall L xs, Forall is_num xs -> count_ok (length xs) -> sum_size xs <= big ->
  within (2 * INR (length xs)) (sum_size xs) (Rsum (map val xs)) (@fold_sum (F64 L) xs).
Proof.
  intros L xs A N M. apply acc_within; [apply sum_float; assumption|apply pos_INR|].
  replace (INR (length xs)) with (0 + INR (length xs)) by ring. apply len_eps; [exact N|lra].
Qed.
Print Assumptions C54_sum.
Theorem C54_dot : forall L a b, Forall is_num a -> Forall is_num b -> length a = length b -> count_ok (length a) -> dot_size a b <= big ->
  within (2 * (1 + INR (length a))) (dot_size a b) (rdot (map val a) (map val b)) (@dot_array (F64 L) a b) /\
  within (2 * (1 + INR (length a))) (dot_size a b) (rdot (map val a) (map val b)) (@dot_vec (F64 L) a b).
Proof.
  intros L a b A B E N M. assert (LC : length (combine a b) = length a) by (rewrite combine_length; lia). pose proof (pos_INR (length a)) as P.
  destruct (dot_float L a b A B) as [X Y]; try assumption; rewrite ?LC in *; try assumption.
  split; (apply acc_within; [assumption|lra|apply len_eps; [exact N|lra]]).
Qed.
Print Assumptions C54_dot.
Theorem C54_linear_map : forall L (t : Linear (F64 L)) (x : list f64) ys i, @linear_transform_vec (F64 L) t x = Some ys -> (i < l_out t)%nat ->
  Forall is_num (l_matrix t) -> Forall is_num (l_offset t) -> Forall is_num x -> count_ok (length x) ->
  let m := Rabs (val (nth i (l_offset t) (f64_of_Z 0))) + Rsum (map pair_size (row (l_matrix t) x i)) in
  m <= big ->
  within (2 * (1 + INR (length x))) m (affine (map val (l_matrix t)) (map val (l_offset t)) (map val x) i) (nth i ys (f64_of_Z 0)).
Proof.
  intros L t x ys i E I HA HB HX N m M. pose proof (pos_INR (length x)). apply acc_within; [eapply linear_float; eassumption|lra|apply len_eps; [exact N|lra]].
Qed.
Print Assumptions C54_linear_map.
Theorem C54_horner : forall L cs x, is_num x -> Forall is_num cs -> count_ok (length cs) -> poly (padded cs) (Rmax 1 (Rabs (val x))) <= big ->
  within (4 * INR (length cs)) (poly (padded cs) (Rabs (val x))) (poly (map val cs) (val x)) (horner (@DirectEval (F64 L)) cs x).
Proof.
  intros L cs x X A N M. replace (4 * INR (length cs)) with (2 * (2 * INR (length cs))) by ring. pose proof (pos_INR (length cs)).
  apply acc_within; [apply horner_float; assumption|lra|]. apply keps. unfold count_ok in N. change (bpow radix2 40) with 1099511627776 in N. lra.
Qed.
Print Assumptions C54_horner.
(** No overflow however large the terms; the error is relative to the result. *)
Theorem C54_log_sum_exp : forall c lg L l, libm_ok c lg L -> 0 <= c <= 1000000 ->
  l <> [] -> Forall is_num l -> Forall (fun x => Rabs (val x) <= huge) l -> INR (length l) <= bpow radix2 20 ->
  let n := INR (length l) in let v := log_total (map val l) in
  within (2 * (c + 4 * (n * (c + 5 + n)) + 1)) (Rabs v + 2 * n) v (@CombModel.log_sum_exp (F64 L) l).
Proof.
  intros c lg L l LOK C0 NE A B N n v. pose proof (pos_INR (length l)) as P. fold n in P. change (bpow radix2 20) with 1048576 in N. fold n in N.
  assert (K : 0 <= n * (c + 5 + n) <= 3000000000000) by (split; [apply Rmult_le_pos; lra|]; apply Rle_trans with (1048576 * (1000000 + 5 + 1048576)); [apply Rmult_le_compat; lra|lra]).
  apply acc_within; [apply (log_sum_exp_float L c lg LOK C0 l NE A B); change (bpow radix2 20) with 1048576; exact N|lra|apply keps; lra].
Qed.
Print Assumptions C54_log_sum_exp.

(** * C55: log-densities *)
Theorem C55_normal : forall c lg L mu sd x, libm_ok c lg L -> 0 <= c <= 1000000 ->
  is_num mu -> is_num sd -> is_num x -> 0 < val sd -> Rabs (val mu) <= huge -> Rabs (val x) <= huge ->
  let z := (val x - val mu) / val sd in Rabs z <= bpow radix2 400 ->
  within (2 * (c + 7)) (z * z + Rabs (ln (val sd)) + 2) (ln (normal_pdf (val mu) (val sd) (val x))) (normal_ld (@mkNormal (F64 L) mu sd) x).
Proof. intros c lg L mu sd x LOK C0 N1 N2 N3 P B1 B2 z B3. apply acc_within; [apply (normal_float c lg L LOK C0); assumption|lra|apply keps; lra]. Qed.
Print Assumptions C55_normal.
Theorem C55_exponential : forall c lg L rate x, libm_ok c lg L -> 0 <= c <= 1000000 ->
  is_num rate -> is_num x -> 0 < val rate -> 0 <= val x -> val rate * val x <= huge ->
  within (2 * (c + 2)) (Rabs (ln (val rate)) + val rate * val x + 1) (ln (exponential_pdf (val rate) (val x))) (exponential_ld (@mkExponential (F64 L) rate) x).
Proof. intros c lg L rate x LOK C0 N1 N2 P X B. apply acc_within; [apply (exponential_float c lg L LOK C0); assumption|lra|apply keps; lra]. Qed.
Print Assumptions C55_exponential.
Theorem C55_gamma : forall c lg L a b x, libm_ok c lg L -> 0 <= c <= 1000000 ->
  is_num a -> is_num b -> is_num x -> 0 < val a <= huge -> 0 < val b -> 0 < val x -> val b * val x <= huge -> Rabs (lg (val a)) <= huge ->
  within (2 * (c + 5)) (val a * Rabs (ln (val b)) + Rabs (lg (val a)) + Rabs (val a - 1) * Rabs (ln (val x)) + val b * val x + 2 + small * (2 * val a + 1))
    (ln (gamma_pdf lg (val a) (val b) (val x))) (gamma_ld (@mkGamma (F64 L) a b) x).
Proof. intros c lg L a b x LOK C0 N1 N2 N3 A B X BX LG. apply acc_within; [apply (gamma_float c lg L LOK C0); assumption|lra|apply keps; lra]. Qed.
Print Assumptions C55_gamma.
(** The sum of the parameters is assumed to be exact: an error in the argument
    of log-gamma is not bounded by a property of the library. *)
Theorem C55_beta : forall c lg L a b x, libm_ok c lg L -> 0 <= c <= 1000000 ->
  is_num a -> is_num b -> is_num x -> 0 < val a <= huge -> 0 < val b <= huge -> 0 < val x < 1 ->
  val (f64_add a b) = val a + val b -> Rabs (lg (val a + val b)) <= huge -> Rabs (lg (val a)) <= huge -> Rabs (lg (val b)) <= huge ->
  within (2 * (c + 5)) (Rabs (lg (val a + val b)) + Rabs (lg (val a)) + Rabs (lg (val b)) + (val a + 1) * (Rabs (ln (val x)) + 1) + (val b + 1) * (Rabs (ln (1 - val x)) + 1) + 4)
    (ln (beta_pdf lg (val a) (val b) (val x))) (beta_ld (@mkBeta (F64 L) a b) x).
Proof. intros c lg L a b x LOK C0 N1 N2 N3 A B X E G1 G2 G3. apply acc_within; [apply (beta_float c lg L LOK C0); assumption|lra|apply keps; lra]. Qed.
Print Assumptions C55_beta.
Theorem C55_chi_squared : forall c lg L k x, libm_ok c lg L -> 0 <= c <= 1000000 ->
  is_num k -> is_num x -> small <= val k <= huge -> 0 < val x <= huge -> Rabs (lg (val k / 2)) <= huge ->
  within (2 * (c + 4)) (val k + Rabs (lg (val k / 2)) + (val k / 2 + 1) * (Rabs (ln (val x)) + 1) + val x + 3)
    (ln (chi_squared_pdf lg (val k) (val x))) (chi_ld (@mkChi (F64 L) k) x).
Proof. intros c lg L k x LOK C0 N1 N2 K X G. apply acc_within; [apply (chi_float c lg L LOK C0); assumption|lra|apply keps; lra]. Qed.
Print Assumptions C55_chi_squared.
Theorem C55_student_t : forall c lg L nu x, libm_ok c lg L -> 0 <= c <= 1000000 ->
  is_num nu -> is_num x -> bpow radix2 (-900) <= val nu <= huge -> Rabs (val x) <= bpow radix2 400 -> val x * val x / val nu <= huge ->
  val (f64_add nu (f64_of_Z 1)) = val nu + 1 -> Rabs (lg ((val nu + 1) / 2)) <= huge -> Rabs (lg (val nu / 2)) <= huge ->
  within (2 * (c + 26)) (Rabs (lg ((val nu + 1) / 2)) + Rabs (lg (val nu / 2)) + Rabs (ln (val nu * PI)) + (val nu + 1) * (ln (1 + val x * val x / val nu) + 1) + 4)
    (ln (student_pdf lg (val nu) (val x))) (student_ld (@mkStudent (F64 L) nu) x).
Proof. intros c lg L nu x LOK C0 N1 N2 K X Q E G1 G2. apply acc_within; [apply (student_float c lg L LOK C0); assumption|lra|apply keps; lra]. Qed.
Print Assumptions C55_student_t.
Theorem C55_cauchy : forall c lg L loc sc x, libm_ok c lg L -> 0 <= c <= 1000000 ->
  is_num loc -> is_num sc -> is_num x -> 0 < val sc -> Rabs (val loc) <= huge -> Rabs (val x) <= huge ->
  let z := (val x - val loc) / val sc in Rabs z <= bpow radix2 400 ->
  within (2 * (c + 50)) (ln (1 + z * z) + Rabs (ln (val sc)) + 5) (ln (cauchy_pdf (val loc) (val sc) (val x))) (cauchy_ld (@mkCauchy (F64 L) loc sc) x) /\
  within (2 * (c + 50)) (ln (1 + z * z) + Rabs (ln (val sc)) + 5) (ln (cauchy_pdf (val loc) (val sc) (val x))) (cauchy_log_pdf (@mkCauchy (F64 L) loc sc) x).
Proof.
  intros c lg L loc sc x LOK C0 N1 N2 N3 P B1 B2 z B3. destruct (cauchy_float c lg L LOK C0 loc sc x N1 N2 N3 P B1 B2 B3) as [A B].
  split; (apply acc_within; [assumption|lra|apply keps; lra]).
Qed.
Print Assumptions C55_cauchy.
Theorem C55_bernoulli : forall c lg L p k, libm_ok c lg L -> 0 <= c <= 1000000 -> is_num p -> 0 < val p < 1 -> (k <= 1)%nat ->
  within (2 * (c + 2)) (Rabs (ln (bernoulli_pmf (val p) k)) + 1) (ln (bernoulli_pmf (val p) k)) (bernoulli_ld (@mkBernoulli (F64 L) p) k).
Proof. intros c lg L p k LOK C0 N P K. apply acc_within; [apply (bernoulli_float c lg L LOK C0); assumption|lra|apply keps; lra]. Qed.
Print Assumptions C55_bernoulli.
(** The binomial and negative-binomial log-densities leave out the coefficient
    (see C29 and C31); they are accurate for what they compute. *)
Theorem C55_binomial_kernel : forall c lg L n p k, libm_ok c lg L -> 0 <= c <= 1000000 -> is_num p -> 0 < val p < 1 -> (k <= n)%nat -> count_ok n ->
  within (2 * (c + 5)) (INR k * (Rabs (ln (val p)) + 1) + (INR n - INR k) * (Rabs (ln (1 - val p)) + 1) + 1)
    (INR k * ln (val p) + (INR n - INR k) * ln (1 - val p)) (binomial_ld (@mkBinomial (F64 L) n p) k).
Proof. intros c lg L n p k LOK C0 N P K CN. apply acc_within; [apply (binomial_float c lg L LOK C0); assumption|lra|apply keps; lra]. Qed.
Print Assumptions C55_binomial_kernel.
Theorem C55_negative_binomial_kernel : forall c lg L r p k, libm_ok c lg L -> 0 <= c <= 1000000 -> is_num p -> 0 < val p < 1 -> count_ok r -> count_ok k ->
  within (2 * (c + 4)) (INR r * (Rabs (ln (val p)) + 1) + INR k * (Rabs (ln (1 - val p)) + 1) + 1)
    (INR r * ln (val p) + INR k * ln (1 - val p)) (negbinomial_ld (@mkNegBinomial (F64 L) r p) k).
Proof. intros c lg L r p k LOK C0 N P R K. apply acc_within; [apply (negbinomial_float c lg L LOK C0); assumption|lra|apply keps; lra]. Qed.
Print Assumptions C55_negative_binomial_kernel.
Theorem C55_poisson : forall c lg L rate k, libm_ok c lg L -> 0 <= c <= 1000000 -> is_num rate -> 0 < val rate <= huge -> count_ok k ->
  within (2 * (c + INR k + 3)) (INR k * Rabs (ln (val rate)) + val rate + ln (INR (fact k)) + 1) (ln (poisson_pmf (val rate) k)) (poisson_ld (@mkPoisson (F64 L) rate) k).
Proof.
  intros c lg L rate k LOK C0 N P K. pose proof (pos_INR k). apply acc_within; [apply (poisson_float c lg L LOK C0); assumption|lra|].
  apply keps. unfold count_ok in K. change (bpow radix2 40) with 1099511627776 in K. lra.
Qed.
Print Assumptions C55_poisson.
Theorem C55_geometric : forall c lg L p k, libm_ok c lg L -> 0 <= c <= 1000000 -> is_num p -> 0 < val p < 1 -> (1 <= k)%nat -> count_ok k ->
  within (2 * (c + 5)) (INR k * (Rabs (ln (1 - val p)) + 1) + Rabs (ln (val p)) + 1) (ln (geometric_pmf (val p) k)) (geometric_ld (@mkGeometric (F64 L) p) k).
Proof. intros c lg L p k LOK C0 N P K CK. apply acc_within; [apply (geometric_float c lg L LOK C0); assumption|lra|apply keps; lra]. Qed.
Print Assumptions C55_geometric.
Theorem C55_categorical : forall c lg L ps k p, libm_ok c lg L -> 0 <= c <= 1000000 -> nth_error ps k = Some p -> is_num p -> 0 < val p ->
  within (2 * c) (Rabs (ln (val p)) + small) (ln (categorical_pmf (map val ps) k)) (categorical_ld (@mkCategorical (F64 L) ps) k).
Proof. intros c lg L ps k p LOK C0 E N P. apply acc_within; [apply (categorical_float c lg L LOK); assumption|lra|apply keps; lra]. Qed.
Print Assumptions C55_categorical.

(** An independent normal sample of any length: the summed log-density against
    the logarithm of the product of the densities. *)
Theorem C55_normal_sample : forall c lg L mu sd xs, libm_ok c lg L -> 0 <= c <= 1000000 ->
  is_num mu -> is_num sd -> 0 < val sd -> Rabs (val mu) <= huge -> Forall is_num xs -> count_ok (length xs) ->
  (forall x, In x xs -> Rabs (val x) <= huge /\ Rabs ((val x - val mu) / val sd) <= bpow radix2 400) ->
  Rsum (map (normal_scale mu sd) xs) <= big ->
  within (2 * (c + 7 + INR (length xs))) (Rsum (map (normal_scale mu sd) xs))
    (ln (fold_right Rmult 1 (map (fun x => normal_pdf (val mu) (val sd) (val x)) xs)))
    (@iid_log_density_fallback (F64 L) f64 (normal_base (@mkNormal (F64 L) mu sd)) xs).
Proof.
  intros c lg L mu sd xs LOK C0 N1 N2 P B1 NX N BX M. pose proof (pos_INR (length xs)) as PL.
  rewrite <- (ln_prod (fun x => normal_pdf (val mu) (val sd) (val x))) by (intros x; apply CombProofs2.normal_pdf_pos; exact P).
  apply acc_within; [|lra|].
  - apply (iid_float c); try assumption; try lra. rewrite Forall_forall in *. intros x I. destruct (BX x I) as [X1 X2].
    apply (normal_float c lg L LOK C0); auto.
  - unfold count_ok in N. apply len_eps; [exact N|lra].
Qed.
Print Assumptions C55_normal_sample.

(** * Concrete cases *)
Lemma lit z : (Z.abs z <= 2 ^ 53)%Z -> is_num (f64_of_Z z) /\ val (f64_of_Z z) = IZR z.
Proof. exact (num_int z). Qed.
(** C53: ln (x * x + 1) at x = 3, to within 1e-14 of ln 10. *)
Example C53_case : let e := Ln (Add (Mul (Var "x") (Var "x")) (Const (f64_of_Z 1))) in
  let vars := [("x"%string, f64_of_Z 3)] in
  exists d, eval_bound 1 (value_of vars) e (ln 10) d /\ d <= / 10 ^ 14.
Proof.
  intros e vars. destruct (lit 3 ltac:(lia)) as [N3 V3]. destruct (lit 1 ltac:(lia)) as [N1 V1].
  assert (X : eval_bound 1 (value_of vars) (Var "x") 3 0) by (rewrite <- V3; apply (eb_var 1 (value_of vars) "x"); exact N3).
  assert (K : 100 <= bpow radix2 1000) by (apply Rle_trans with (bpow radix2 10); [change (bpow radix2 10) with 1024; lra|apply bpow_le; lia]).
  assert (T : / IZR (2 ^ 300) <= / 10 ^ 20).
  { apply Rinv_le_contravar; [apply pow_lt; lra|]. rewrite pow_IZR. apply IZR_le. vm_compute. discriminate. }
  assert (T0 : 0 < / IZR (2 ^ 300)) by (apply Rinv_0_lt_compat, IZR_lt; reflexivity).
  pose proof (eb_mul 1 _ _ _ _ _ _ _ X X) as M. cbv zeta in M. replace (3 * 3) with 9 in M by lra. rewrite (Rabs_pos_eq 9), (Rabs_pos_eq 3) in M by lra.
  specialize (M ltac:(unfold no_overflow; lra)).
  assert (D : eval_bound 1 (value_of vars) (Mul (Var "x") (Var "x")) 9 (/ 10 ^ 15)).
  { eapply eb_weaken; [exact M|]. unfold step. rewrite (pow_IZR 2 53). change (IZR (2 ^ Z.of_nat 53)) with 9007199254740992. lra. }
  assert (C : eval_bound 1 (value_of vars) (Const (f64_of_Z 1)) 1 0) by (rewrite <- V1 at 2; apply eb_const; exact N1).
  pose proof (eb_add 1 _ _ _ _ _ _ _ D C) as A. replace (9 + 1) with 10 in A by lra. rewrite (Rabs_pos_eq 10) in A by lra.
  specialize (A ltac:(unfold no_overflow; lra)).
  assert (B : eval_bound 1 (value_of vars) (Add (Mul (Var "x") (Var "x")) (Const (f64_of_Z 1))) 10 (3 / 10 ^ 15)).
  { eapply eb_weaken; [exact A|]. unfold step. rewrite (pow_IZR 2 53). change (IZR (2 ^ Z.of_nat 53)) with 9007199254740992. lra. }
  eexists. split; [apply eb_ln; [exact B|lra]|]. 
  assert (LN : 0 <= ln 10 <= 9).
  { split; [rewrite <- ln_1; apply ln_le; lra|]. pose proof (exp_ineq1_le (ln 10)) as I. rewrite exp_ln in I by lra. lra. }
  rewrite (Rabs_pos_eq (ln 10)) by lra. pose proof small_tiny. pose proof small_pos. unfold eps. rewrite (pow_IZR 2 52). change (IZR (2 ^ Z.of_nat 52)) with 4503599627370496.
  assert (Q : 3 / 10 ^ 15 / (10 - 3 / 10 ^ 15) <= / 10 ^ 15).
  { apply (Rmult_le_reg_r (10 - 3 / 10 ^ 15)); [lra|]. unfold Rdiv at 1. rewrite Rmult_assoc, Rinv_l by lra. lra. }
  set (q := 3 / 10 ^ 15 / (10 - 3 / 10 ^ 15)) in *. clearbody q. lra.
Qed.
(** C54: three terms whose sum cancels; C55: a normal log-density. *)
Example C54_case : let xs := [f64_of_Z (2 ^ 53); f64_of_Z 1; f64_of_Z (- 2 ^ 53)] in
  Forall is_num xs /\ count_ok (length xs) /\ sum_size xs <= big.
Proof.
  destruct (lit (2 ^ 53) ltac:(lia)) as [NA VA]. destruct (lit 1 ltac:(lia)) as [NB VB]. destruct (lit (- 2 ^ 53) ltac:(lia)) as [NC VC].
  cbv zeta. split; [repeat constructor; assumption|]. split.
  - unfold count_ok. cbn [length INR]. change (bpow radix2 40) with 1099511627776. lra.
  - unfold sum_size. cbn [map Rsum fold_right]. rewrite VA, VB, VC. rewrite <- !abs_IZR. rewrite <- !plus_IZR.
    apply Rle_trans with (bpow radix2 60); [change (bpow radix2 60) with (IZR (2 ^ 60)); apply IZR_le; vm_compute; discriminate|apply bpow_le; lia].
Qed.
Example C55_case : forall lg, let L := rounded_libm lg in
  within 16 28 (ln (normal_pdf 1 2 11)) (normal_ld (@mkNormal (F64 L) (f64_of_Z 1) (f64_of_Z 2)) (f64_of_Z 11)).
Proof.
  intros lg L. destruct (lit 1 ltac:(lia)) as [NA VA]. destruct (lit 2 ltac:(lia)) as [NB VB]. destruct (lit 11 ltac:(lia)) as [NC VC].
  assert (K : 100 <= huge) by (pose proof huge_one; lra).
  destruct (C55_normal 1 lg L (f64_of_Z 1) (f64_of_Z 2) (f64_of_Z 11) (rounded_libm_ok lg) ltac:(lra) NA NB NC) as [N W]; rewrite ?VA, ?VB, ?VC; rewrite ?Rabs_pos_eq by lra; try lra.
  - apply Rle_trans with (bpow radix2 10); [change (bpow radix2 10) with 1024; lra|apply bpow_le; lia].
  - rewrite VA, VB, VC in W. split; [exact N|]. eapply Rle_trans; [exact W|]. pose proof eps_pos. pose proof JitAcc.ln2_bounds. rewrite (Rabs_pos_eq (ln 2)) by lra. nra.
Qed.
