(** Accuracy in binary64 of the exponential-family paths (C60) and of the
    combinatorial base measures (C61). *)
From Coq Require Import ZArith Reals Bool String List Lia Lra.
From Coq Require Import Floats.SpecFloat.
From Flocq Require Import Core.
From Verif Require Import Num EggSpec LitFacts FloatFacts FloatErr AccSpec RoundSpec RoundProofs RelErr
  DensitySpec CoreModel CombModel ExpFamModel DistModel DistSpec DistProofs DistFloat SumFloat FamFloatSpec FamFloat FactFloat FamFloat2 FamFloat3 PropsRound PropsDist.
Import ListNotations.
Local Open Scope R_scope.

(** * C60: continuous families *)
(** The normal family path errs in proportion to (mu/sd)^2 + (x/sd)^2 ... *)
Theorem C60_normal : forall c lg L mu sd x, libm_ok c lg L -> 0 <= c <= 1000000 ->
  is_num mu -> is_num sd -> is_num x -> moderate (val sd) -> at_most_moderate (val mu) -> at_most_moderate (val x) ->
  at_most_moderate (val mu / val sd) -> at_most_moderate (val x / val sd) ->
  within (2 * (c + 14)) (family_scale (val mu) (val sd) (val x)) (ln (normal_pdf (val mu) (val sd) (val x)))
    (ef_density (normal_expfam (@mkNormal (F64 L) mu sd)) x).
Proof. intros c lg L mu sd x LOK C0 N1 N2 N3 B1 B2 B3 B4 B5. apply acc_within; [apply (normal_fam_float c lg L LOK C0); assumption|lra|apply keps; lra]. Qed.
Print Assumptions C60_normal.
(** ... and cannot do better: at mu = x = 2^60, sd = 1 it returns zero with every
    accurate library, although the log-density is below -3/4 and the direct path
    gets it right. *)
Theorem C60_normal_cancellation_refuted : forall c lg L, libm_ok c lg L -> 0 <= c <= 1000000 ->
  exists x : f64, val x = bpow radix2 60 /\
    let d := @mkNormal (F64 L) x (f64_of_Z 1) in
    val (ef_density (normal_expfam d) x) = 0 /\ ln (normal_pdf (val x) 1 (val x)) <= - 3 / 4 /\
    Rabs (val (normal_ld d x) - ln (normal_pdf (val x) 1 (val x))) <= / 1000.
Proof. intros c lg L LOK C0. exists far. split; [apply far_val|apply (normal_cancellation c lg L LOK C0)]. Qed.
Print Assumptions C60_normal_cancellation_refuted.
(** The direct and the family path differ by at most the sum of their bounds. *)
Theorem C60_normal_paths_agree : forall c lg L mu sd x, libm_ok c lg L -> 0 <= c <= 1000000 ->
  is_num mu -> is_num sd -> is_num x -> moderate (val sd) -> at_most_moderate (val mu) -> at_most_moderate (val x) ->
  at_most_moderate (val mu / val sd) -> at_most_moderate (val x / val sd) ->
  let z := (val x - val mu) / val sd in at_most_moderate z ->
  let d := @mkNormal (F64 L) mu sd in
  Rabs (val (ef_density (normal_expfam d) x) - val (normal_ld d x)) <=
  2 * (c + 14) * eps * family_scale (val mu) (val sd) (val x) + 2 * (c + 7) * eps * (z * z + Rabs (ln (val sd)) + 2).
Proof.
  intros c lg L mu sd x LOK C0 N1 N2 N3 B1 B2 B3 B4 B5 z B6 d.
  destruct (C60_normal c lg L mu sd x LOK C0 N1 N2 N3 B1 B2 B3 B4 B5) as [_ W1].
  assert (H : bpow radix2 400 <= huge) by (apply bpow_le; lia). pose proof (bpow_gt_0 radix2 (-400)). unfold at_most_moderate, moderate in *.
  destruct (C55_normal c lg L mu sd x LOK C0 N1 N2 N3 ltac:(lra) ltac:(lra) ltac:(lra) B6) as [_ W2]. fold z in W2. unfold d.
  apply Rabs_le_inv in W1. apply Rabs_le_inv in W2. apply Rabs_le. lra.
Qed.
Print Assumptions C60_normal_paths_agree.
(** The precomputed normal density and the log-density decomposition keep the
    direct path's scale. *)
Theorem C60_compiled_normal : forall c lg L mu sd x, libm_ok c lg L -> 0 <= c <= 1000000 ->
  is_num mu -> is_num sd -> is_num x -> moderate (val sd) -> at_most_moderate (val mu) -> at_most_moderate (val x) ->
  let z := (val x - val mu) / val sd in at_most_moderate z ->
  within (2 * (c + 10)) (z * z + Rabs (ln (val sd)) + 2) (ln (normal_pdf (val mu) (val sd) (val x))) (@compile_normal (F64 L) mu sd x).
Proof. intros c lg L mu sd x LOK C0 N1 N2 N3 B1 B2 B3 z B4. apply acc_within; [apply (compile_normal_float c lg L LOK C0); assumption|lra|apply keps; lra]. Qed.
Print Assumptions C60_compiled_normal.
Theorem C60_normal_decomposition : forall c lg L mu sd x, libm_ok c lg L -> 0 <= c <= 1000000 ->
  is_num mu -> is_num sd -> is_num x -> 0 < val sd -> Rabs (val mu) <= huge -> Rabs (val x) <= huge ->
  let z := (val x - val mu) / val sd in Rabs z <= bpow radix2 400 ->
  let d := @mkNormal (F64 L) mu sd in
  within (2 * (c + 9)) (z * z + Rabs (ln (val sd)) + 2) (ln (normal_pdf (val mu) (val sd) (val x)))
    (@d_evaluate (F64 L) _ _ (normal_decomposition d) x (normal_params d)).
Proof. intros c lg L mu sd x LOK C0 N1 N2 N3 P B1 B2 z B3 d. apply acc_within; [apply (normal_decomposition_float c lg L LOK C0); assumption|lra|apply keps; lra]. Qed.
Print Assumptions C60_normal_decomposition.
Theorem C60_standard_normal : forall c lg L x, libm_ok c lg L -> 0 <= c <= 1000000 -> is_num x -> at_most_moderate (val x) ->
  within (2 * (c + 10)) (val x * val x + 2) (ln (normal_pdf 0 1 (val x))) (@ef_density (F64 L) f64 stdnormal_expfam x).
Proof. intros c lg L x LOK C0 N B. apply acc_within; [apply (stdnormal_fam_float c lg L LOK C0); assumption|lra|apply keps; lra]. Qed.
Print Assumptions C60_standard_normal.
(** The exponential's family path is off by 2 ln rate (C29); it computes that
    wrong value accurately. *)
Theorem C60_exponential : forall c lg L rate x, libm_ok c lg L -> 0 <= c <= 1000000 ->
  is_num rate -> is_num x -> 0 < val rate -> val rate * Rabs (val x) <= huge ->
  within (2 * (c + 4)) (Rabs (ln (val rate)) + val rate * Rabs (val x) + 1)
    (ln (exponential_pdf (val rate) (val x)) - 2 * ln (val rate)) (ef_density (exponential_expfam (@mkExponential (F64 L) rate)) x).
Proof.
  intros c lg L rate x LOK C0 N1 N2 P B. rewrite ln_exponential_pdf by exact P.
  replace (ln (val rate) - val rate * val x - 2 * ln (val rate)) with (- (val rate * val x) - ln (val rate)) by ring.
  apply acc_within; [apply (exponential_fam_float c lg L LOK C0); assumption|lra|apply keps; lra].
Qed.
Print Assumptions C60_exponential.
Theorem C60_compiled_exponential : forall c lg L rate x, libm_ok c lg L -> 0 <= c <= 1000000 ->
  is_num rate -> is_num x -> 0 < val rate -> 0 <= val x -> val rate * val x <= huge ->
  within (2 * (c + 2)) (Rabs (ln (val rate)) + val rate * val x + 1) (ln (exponential_pdf (val rate) (val x))) (@compile_exponential (F64 L) rate x).
Proof. intros c lg L rate x LOK C0 N1 N2 P X B. rewrite compile_exponential_same. apply (C55_exponential c lg L rate x); assumption. Qed.
Print Assumptions C60_compiled_exponential.
Theorem C60_gamma : forall c lg L a b x, libm_ok c lg L -> 0 <= c <= 1000000 ->
  is_num a -> is_num b -> is_num x -> 0 < val a <= huge -> 0 < val b -> 0 < val x -> val b * val x <= huge -> Rabs (lg (val a)) <= huge ->
  within (2 * (c + 7)) (val a * Rabs (ln (val b)) + Rabs (lg (val a)) + Rabs (val a - 1) * Rabs (ln (val x)) + val b * val x + 2 + small * (2 * val a + 1))
    (ln (gamma_pdf lg (val a) (val b) (val x))) (ef_density (gamma_expfam (@mkGamma (F64 L) a b)) x).
Proof. intros c lg L a b x LOK C0 N1 N2 N3 A B X BX LG. apply acc_within; [apply (gamma_fam_float c lg L LOK C0); assumption|lra|apply keps; lra]. Qed.
Print Assumptions C60_gamma.
Theorem C60_beta : forall c lg L a b x, libm_ok c lg L -> 0 <= c <= 1000000 ->
  is_num a -> is_num b -> is_num x -> 0 < val a <= huge -> 0 < val b <= huge -> 0 < val x < 1 ->
  val (f64_add a b) = val a + val b -> Rabs (lg (val a + val b)) <= huge -> Rabs (lg (val a)) <= huge -> Rabs (lg (val b)) <= huge ->
  within (2 * (c + 8)) (Rabs (lg (val a + val b)) + Rabs (lg (val a)) + Rabs (lg (val b)) + (val a + 1) * (Rabs (ln (val x)) + 1) + (val b + 1) * (Rabs (ln (1 - val x)) + 1) + 4)
    (ln (beta_pdf lg (val a) (val b) (val x))) (ef_density (beta_expfam (@mkBeta (F64 L) a b)) x).
Proof. intros c lg L a b x LOK C0 N1 N2 N3 A B X E G1 G2 G3. apply acc_within; [apply (beta_fam_float c lg L LOK C0); assumption|lra|apply keps; lra]. Qed.
Print Assumptions C60_beta.
Theorem C60_chi_squared : forall c lg L k x, libm_ok c lg L -> 0 <= c <= 1000000 ->
  is_num k -> is_num x -> small <= val k <= huge -> 0 < val x <= huge -> Rabs (lg (val k / 2)) <= huge ->
  within (2 * (c + 6)) (val k + Rabs (lg (val k / 2)) + (val k / 2 + 1) * (Rabs (ln (val x)) + 1) + val x + 3)
    (ln (chi_squared_pdf lg (val k) (val x))) (ef_density (chi_expfam (@mkChi (F64 L) k)) x).
Proof. intros c lg L k x LOK C0 N1 N2 K X G. apply acc_within; [apply (chi_fam_float c lg L LOK C0); assumption|lra|apply keps; lra]. Qed.
Print Assumptions C60_chi_squared.

(** * C60: discrete families *)
(** Probabilities travel through ln(p/(1-p)) and back: the units lost grow with
    the logit. *)
Theorem C60_bernoulli : forall c lg L p k, libm_ok c lg L -> 0 <= c <= 1000000 ->
  is_num p -> bpow radix2 (-800) <= val p -> val p < 1 -> (k <= 1)%nat ->
  within (2 * family_units c (val p)) (INR k * odds_scale (val p) + Rabs (ln (1 - val p)) + 2) (ln (bernoulli_pmf (val p) k))
    (ef_density (bernoulli_expfam (@mkBernoulli (F64 L) p)) k).
Proof.
  intros c lg L p k LOK C0 N A B K. destruct (logit_parts c lg L LOK C0 p N A B) as (_ & _ & _ & _ & _ & KE & _). unfold family_units.
  apply acc_within; [apply (bernoulli_fam_float c lg L LOK C0); assumption|lra|apply keps; lra].
Qed.
Print Assumptions C60_bernoulli.
Theorem C60_binomial : forall c lg L n p k, libm_ok c lg L -> 0 <= c <= 1000000 ->
  (forall j : nat, lg (INR (S j)) = ln (INR (fact j))) -> is_num p -> bpow radix2 (-800) <= val p -> val p < 1 -> (k <= n)%nat -> count_ok n ->
  within (2 * family_units c (val p))
    (INR k * odds_scale (val p) + INR n * (Rabs (ln (1 - val p)) + 1) + (ln (INR (fact n)) + ln (INR (fact k)) + ln (INR (fact (n - k))) + 3) + 1)
    (ln (binomial_pmf n (val p) k)) (ef_density (binomial_expfam (@mkBinomial (F64 L) n p)) k).
Proof.
  intros c lg L n p k LOK C0 LF N A B K CN. destruct (logit_parts c lg L LOK C0 p N A B) as (_ & _ & _ & _ & _ & KE & _). unfold family_units.
  apply acc_within; [apply (binomial_fam_float c lg L LOK C0); assumption|lra|apply keps; lra].
Qed.
Print Assumptions C60_binomial.
Theorem C60_poisson : forall c lg L rate k, libm_ok c lg L -> 0 <= c <= 1000000 -> is_num rate -> 0 < val rate <= huge -> count_ok k ->
  within (2 * (c + 63)) (INR k * (Rabs (ln (val rate)) + 1) + val rate + fact_scale k + 1) (ln (poisson_pmf (val rate) k))
    (ef_density (poisson_expfam (@mkPoisson (F64 L) rate)) k).
Proof. intros c lg L rate k LOK C0 N P K. apply acc_within; [apply (poisson_fam_float c lg L LOK C0); assumption|lra|apply keps; lra]. Qed.
Print Assumptions C60_poisson.
(** The geometric family path counts one failure too many (C29). *)
Theorem C60_geometric : forall c lg L p k, libm_ok c lg L -> 0 <= c <= 1000000 -> is_num p -> 0 < val p < 1 -> (1 <= k)%nat -> count_ok k ->
  within (2 * (c + 6)) (INR k * (Rabs (ln (1 - val p)) + 1) + Rabs (ln (val p)) + 1) (ln (geometric_pmf (val p) k) + ln (1 - val p))
    (ef_density (geometric_expfam (@mkGeometric (F64 L) p)) k).
Proof. intros c lg L p k LOK C0 N P K1 K. apply acc_within; [apply (geometric_fam_float c lg L LOK C0); assumption|lra|apply keps; lra]. Qed.
Print Assumptions C60_geometric.
(** The negative binomial's family path (C29: off by k ln(1-p)) subtracts a
    sigmoid from one, hence the bound on [p]. *)
Theorem C60_negative_binomial : forall c lg L r p k, libm_ok c lg L -> 0 <= c <= 1000000 ->
  (forall j : nat, lg (INR (S j)) = ln (INR (fact j))) -> is_num p -> bpow radix2 (-800) <= val p <= 3 / 4 -> (0 < r)%nat -> count_ok (k + r) ->
  within (2 * neg_units c (val p))
    (INR k * odds_scale (val p) + INR r * (Rabs (ln (1 - val p)) + 1) + (ln (INR (fact (k + r - 1))) + ln (INR (fact k)) + ln (INR (fact (r - 1))) + 3) + 1)
    (ln (negbinomial_pmf r (val p) k) - INR k * ln (1 - val p)) (ef_density (negbinomial_expfam (@mkNegBinomial (F64 L) r p)) k).
Proof.
  intros c lg L r p k LOK C0 LF N P R0 CK. destruct (logit_parts c lg L LOK C0 p N (proj1 P) ltac:(lra)) as (_ & _ & _ & _ & _ & KE & _). unfold neg_units.
  apply acc_within; [apply (negbinomial_fam_float c lg L LOK C0); assumption|lra|apply keps; lra].
Qed.
Print Assumptions C60_negative_binomial.
(** The categorical family path normalises by the sum of the probabilities. *)
Theorem C60_categorical : forall c lg L (qs : list f64) (l : f64) x, libm_ok c lg L -> 0 <= c <= 1000000 ->
  Forall (fun p => is_num p /\ bpow radix2 (-400) <= val p <= 1) (qs ++ [l]) -> INR (length qs) <= bpow radix2 20 -> (x <= length qs)%nat ->
  let ps := map val (qs ++ [l]) in
  within (2 * categorical_units c (INR (length qs))) (Rabs (ln (nth x ps 0 / val l)) + ln (Rsum ps / val l) + 4)
    (ln (categorical_pmf ps x) - ln (Rsum ps)) (ef_density (categorical_expfam (@mkCategorical (F64 L) (qs ++ [l]))) x).
Proof.
  intros c lg L qs l x LOK C0 A N X ps. apply Forall_app in A. destruct A as [Q QL]. apply Forall_inv in QL.
  pose proof (pos_INR (length qs)). assert (INR (length qs) <= 1048576) by (change (bpow radix2 20) with 1048576 in N; exact N). unfold categorical_units.
  apply acc_within; [apply (categorical_fam_float c lg L LOK C0); assumption|lra|apply keps; lra].
Qed.
Print Assumptions C60_categorical.

(** * C61: combinatorial base measures *)
(** The table and Stirling's series together: every count up to 2^40. *)
Theorem C61_factorial : forall c lg L k, libm_ok c lg L -> 0 <= c <= 1000000 -> count_ok k ->
  within (2 * (c + 60)) (fact_scale k) (- ln (INR (fact k))) (b_ld (@factorial_measure (F64 L)) k).
Proof. intros c lg L k LOK C0 K. apply acc_within; [apply acc_neg, (log_factorial_float c lg L LOK C0), K|lra|apply keps; lra]. Qed.
Print Assumptions C61_factorial.
Theorem C61_binomial_coefficient : forall c lg L n k, libm_ok c lg L -> 0 <= c <= 1000000 ->
  (forall j : nat, lg (INR (S j)) = ln (INR (fact j))) -> count_ok n -> (k <= n)%nat ->
  within (2 * (c + 2)) (ln (INR (fact n)) + ln (INR (fact k)) + ln (INR (fact (n - k))) + 3) (ln (Binomial.C n k)) (b_ld (@binomial_measure (F64 L) n) k).
Proof.
  intros c lg L n k LOK C0 LF CN K. unfold binomial_measure. cbn [b_ld]. replace (Nat.ltb n k) with false by (symmetry; apply Nat.ltb_ge, K).
  apply acc_within; [apply (binomial_coefficient_float c lg L LOK C0); assumption|lra|apply keps; lra].
Qed.
Print Assumptions C61_binomial_coefficient.
Theorem C61_negative_binomial_coefficient : forall c lg L r k, libm_ok c lg L -> 0 <= c <= 1000000 ->
  (forall j : nat, lg (INR (S j)) = ln (INR (fact j))) -> count_ok r -> count_ok k -> (0 < r)%nat ->
  within (2 * (c + 2)) (ln (INR (fact (k + r - 1))) + ln (INR (fact k)) + ln (INR (fact (r - 1))) + 3) (ln (Binomial.C (k + r - 1) k))
    (b_ld (@negative_binomial_measure (F64 L) r) k).
Proof. intros c lg L r k LOK C0 LF CR CK R0. apply acc_within; [apply (negative_binomial_coefficient_float c lg L LOK C0); assumption|lra|apply keps; lra]. Qed.
Print Assumptions C61_negative_binomial_coefficient.

(** * Concrete cases: a correctly rounded library, and parameters meeting the hypotheses *)
Definition quarter : f64 := f64_dec 1 4.
Lemma quarter_val : is_num quarter /\ val quarter = 1 / 4.
Proof.
  split; [vm_compute; split; reflexivity|]. replace quarter with (S754_finite false 4503599627370496 (-54)) by (vm_compute; reflexivity).
  rewrite JitAcc.val_explicit. cbn [Zaux.cond_Zopp]. change (bpow radix2 (-54)) with (/ 18014398509481984). lra.
Qed.
Lemma few k : INR k <= 1000 -> count_ok k.
Proof. intros K. unfold count_ok. change (bpow radix2 40) with 1099511627776. lra. Qed.
Lemma tiny_quarter : bpow radix2 (-800) <= 1 / 4 /\ bpow radix2 (-400) <= 1 / 4.
Proof. replace (1 / 4) with (bpow radix2 (-2)) by (change (bpow radix2 (-2)) with (/ 4); lra). split; apply bpow_le; lia. Qed.
Example C60_normal_case : forall lg, let L := rounded_libm lg in
  within 30 40 (ln (normal_pdf 1 2 11)) (ef_density (normal_expfam (@mkNormal (F64 L) (f64_of_Z 1) (f64_of_Z 2))) (f64_of_Z 11)).
Proof.
  intros lg L. destruct (num_int 1 ltac:(lia)) as [NA VA]. destruct (num_int 2 ltac:(lia)) as [NB VB]. destruct (num_int 11 ltac:(lia)) as [NC VC].
  assert (B : 1024 <= bpow radix2 400) by (change 1024 with (bpow radix2 10); apply bpow_le; lia).
  assert (S : bpow radix2 (-400) <= 1) by (change 1 with (bpow radix2 0); apply bpow_le; lia).
  destruct (C60_normal 1 lg L (f64_of_Z 1) (f64_of_Z 2) (f64_of_Z 11) (rounded_libm_ok lg) ltac:(lra) NA NB NC) as [N W]; unfold moderate, at_most_moderate in *; rewrite ?VA, ?VB, ?VC; rewrite ?Rabs_pos_eq by lra; try lra.
  rewrite VA, VB, VC in W. split; [exact N|]. eapply Rle_trans; [exact W|]. pose proof eps_pos. pose proof JitAcc.ln2_bounds. unfold family_scale. rewrite (Rabs_pos_eq (ln 2)) by lra.
  replace ((1 / 2) ^ 2 + (11 / 2) ^ 2 + ln 2 + 2) with (325 / 10 + ln 2) by field. nra.
Qed.
Example C60_bernoulli_case : forall lg, let L := rounded_libm lg in
  within (2 * family_units 1 (1 / 4)) (INR 1 * odds_scale (1 / 4) + Rabs (ln (1 - 1 / 4)) + 2) (ln (bernoulli_pmf (1 / 4) 1)) (ef_density (bernoulli_expfam (@mkBernoulli (F64 L) quarter)) 1%nat).
Proof.
  intros lg L. destruct quarter_val as [N V]. rewrite <- V. apply (C60_bernoulli 1 lg L quarter 1 (rounded_libm_ok lg)); try lra; try lia; try exact N. rewrite V. apply tiny_quarter.
Qed.
Example C60_binomial_case : let L := rounded_libm lg_ex in
  within (2 * family_units 1 (1 / 4))
    (INR 2 * odds_scale (1 / 4) + INR 4 * (Rabs (ln (1 - 1 / 4)) + 1) + (ln (INR (fact 4)) + ln (INR (fact 2)) + ln (INR (fact (4 - 2))) + 3) + 1) (ln (binomial_pmf 4 (1 / 4) 2)) (ef_density (binomial_expfam (@mkBinomial (F64 L) 4 quarter)) 2%nat).
Proof.
  intros L. destruct quarter_val as [N V]. rewrite <- V. apply (C60_binomial 1 lg_ex L 4 quarter 2 (rounded_libm_ok lg_ex)); try lra; try lia; try exact N; [exact lg_ex_factorial|rewrite V; apply tiny_quarter|apply few; cbn; lra].
Qed.
Example C60_poisson_case : forall lg, let L := rounded_libm lg in
  within 128 (INR 25 * (Rabs (ln 2) + 1) + 2 + fact_scale 25 + 1) (ln (poisson_pmf 2 25)) (ef_density (poisson_expfam (@mkPoisson (F64 L) (f64_of_Z 2))) 25%nat).
Proof.
  intros lg L. destruct (num_int 2 ltac:(lia)) as [N V]. replace 128 with (2 * (1 + 63)) by lra.
  rewrite <- V at 2 3 4. apply (C60_poisson 1 lg L (f64_of_Z 2) 25 (rounded_libm_ok lg)); [lra|exact N|rewrite V; pose proof huge_one; lra|apply few; cbn; lra].
Qed.
Example C60_negative_binomial_case : let L := rounded_libm lg_ex in
  within (2 * neg_units 1 (1 / 4))
    (INR 2 * odds_scale (1 / 4) + INR 3 * (Rabs (ln (1 - 1 / 4)) + 1) + (ln (INR (fact (2 + 3 - 1))) + ln (INR (fact 2)) + ln (INR (fact (3 - 1))) + 3) + 1) (ln (negbinomial_pmf 3 (1 / 4) 2) - INR 2 * ln (1 - 1 / 4)) (ef_density (negbinomial_expfam (@mkNegBinomial (F64 L) 3 quarter)) 2%nat).
Proof.
  intros L. destruct quarter_val as [N V]. rewrite <- V. apply (C60_negative_binomial 1 lg_ex L 3 quarter 2 (rounded_libm_ok lg_ex)); try lra; try lia; try exact N; [exact lg_ex_factorial|rewrite V; pose proof tiny_quarter; lra|apply few; cbn; lra].
Qed.
Example C60_categorical_case : forall lg, let L := rounded_libm lg in
  within (2 * categorical_units 1 3) 8 (ln (1 / 4)) (ef_density (categorical_expfam (@mkCategorical (F64 L) [quarter; quarter; quarter; quarter])) 3%nat).
Proof.
  intros lg L. destruct quarter_val as [N V]. pose proof tiny_quarter.
  destruct (C60_categorical 1 lg L [quarter; quarter; quarter] quarter 3 (rounded_libm_ok lg)) as [NW W]; [lra| | |cbn; lia|].
  - assert (Q : is_num quarter /\ bpow radix2 (-400) <= val quarter <= 1) by (rewrite V; split; [exact N|lra]). repeat (apply Forall_cons; [exact Q|]). apply Forall_nil.
  - cbn [length INR]. change (bpow radix2 20) with 1048576. lra.
  - split; [exact NW|]. unfold categorical_pmf in W. cbn [app map nth length INR Rsum fold_right] in W. rewrite V in W.
    replace (1 / 4 + (1 / 4 + (1 / 4 + (1 / 4 + 0)))) with 1 in W by field. replace (1 / 4 / (1 / 4)) with 1 in W by field. replace (1 / (1 / 4)) with (2 * 2) in W by field.
    rewrite ln_mult, ln_1, Rabs_R0 in W by lra. replace (1 + 1 + 1) with 3 in W by ring. replace (ln (1 / 4) - 0) with (ln (1 / 4)) in W by ring.
    eapply Rle_trans; [exact W|]. destruct JitAcc.ln2_bounds. pose proof eps_pos. apply Rmult_le_compat_l; [|lra]. apply Rmult_le_pos; [unfold categorical_units; lra|lra].
Qed.
Example C61_case : forall lg, let L := rounded_libm lg in within 122 (fact_scale 100) (- ln (INR (fact 100))) (b_ld (@factorial_measure (F64 L)) 100%nat).
Proof.
  intros lg L. replace 122 with (2 * (1 + 60)) by lra. apply (C61_factorial 1 lg L 100 (rounded_libm_ok lg)); [lra|].
  apply few. rewrite INR_IZR_INZ. change (Z.of_nat 100) with 100%Z. lra.
Qed.
