(** The exponential-family paths in single precision (C73). *)
From Coq Require Import ZArith Reals Bool String List Lia Lra.
From Coq Require Import Floats.SpecFloat.
From Flocq Require Import Core.
From Verif Require Import Num EggSpec DensitySpec CoreModel CombModel ExpFamModel DistModel DistSpec DistProofs FamFloatSpec.
From Verif Require FloatErr RoundSpec RoundProofs JitAcc PropsDist.
From Verif Require Import SingleModel SingleSpec SingleErr SingleFloat SingleFloat2 SingleFloat3 SingleFamModel SingleFamSpec SingleFam SingleFam2 SingleFam3.
Import ListNotations.
Local Open Scope R_scope.

(** * C73: continuous families *)
(** The normal family path errs in proportion to (mu/sd)^2 + (x/sd)^2 ... *)
Theorem C73_normal : forall c lg L mu sd x, libm32_ok c lg L -> 0 <= c <= 1000 ->
  is_single mu -> is_single sd -> is_single x -> moderate32 (val sd) -> at_most_moderate32 (val mu) -> at_most_moderate32 (val x) ->
  at_most_moderate32 (val mu / val sd) -> at_most_moderate32 (val x / val sd) ->
  within32 (2 * (c + 14)) (family_scale (val mu) (val sd) (val x)) (ln (normal_pdf (val mu) (val sd) (val x)))
    (ef_density (normal_expfam (@mkNormal (F32 L) mu sd)) x).
Proof. intros c lg L mu sd x LOK C0 N1 N2 N3 B1 B2 B3 B4 B5. apply acc_within; [apply (normal_fam_float c lg L LOK C0); assumption|lra|apply keps; lra]. Qed.
Print Assumptions C73_normal.
(** ... and cannot do better: at mu = x = 2^14, sd = 1 it returns zero with every
    accurate library, although the log-density is below -3/4 and the direct path
    gets it right. *)
Theorem C73_normal_cancellation_refuted : forall c lg L, libm32_ok c lg L -> 0 <= c <= 1000 ->
  exists x : f32, val x = bpow radix2 14 /\
    let d := @mkNormal (F32 L) x (f32_of_Z 1) in
    val (ef_density (normal_expfam d) x) = 0 /\ ln (normal_pdf (val x) 1 (val x)) <= - 3 / 4 /\
    Rabs (val (normal_ld d x) - ln (normal_pdf (val x) 1 (val x))) <= / 1000.
Proof. intros c lg L LOK C0. exists far. split; [apply far_val|apply (normal_cancellation c lg L LOK C0)]. Qed.
Print Assumptions C73_normal_cancellation_refuted.
(** The direct and the family path differ by at most the sum of their bounds. *)
Theorem C73_normal_paths_agree : forall c lg L mu sd x, libm32_ok c lg L -> 0 <= c <= 1000 ->
  is_single mu -> is_single sd -> is_single x -> moderate32 (val sd) -> at_most_moderate32 (val mu) -> at_most_moderate32 (val x) ->
  at_most_moderate32 (val mu / val sd) -> at_most_moderate32 (val x / val sd) ->
  let z := (val x - val mu) / val sd in at_most_moderate32 z ->
  let d := @mkNormal (F32 L) mu sd in
  Rabs (val (ef_density (normal_expfam d) x) - val (normal_ld d x)) <=
  2 * (c + 14) * eps32 * family_scale (val mu) (val sd) (val x) + 2 * (c + 7) * eps32 * (z * z + Rabs (ln (val sd)) + 2).
Proof.
  intros c lg L mu sd x LOK C0 N1 N2 N3 B1 B2 B3 B4 B5 z B6 d.
  destruct (C73_normal c lg L mu sd x LOK C0 N1 N2 N3 B1 B2 B3 B4 B5) as [_ W1].
  assert (H : bpow radix2 40 <= huge32) by (apply bpow_le; lia). pose proof (bpow_gt_0 radix2 (-40)). unfold at_most_moderate32, moderate32 in *.
  destruct (acc_within _ _ _ _ (normal_float c lg L LOK C0 mu sd x N1 N2 N3 ltac:(lra) ltac:(lra) ltac:(lra) B6) ltac:(lra) ltac:(apply keps; lra)) as [_ W2]. fold z in W2. unfold d.
  apply Rabs_le_inv in W1. apply Rabs_le_inv in W2. apply Rabs_le. lra.
Qed.
Print Assumptions C73_normal_paths_agree.
(** The precomputed normal density and the log-density decomposition keep the
    direct path's scale. *)
Theorem C73_compiled_normal : forall c lg L mu sd x, libm32_ok c lg L -> 0 <= c <= 1000 ->
  is_single mu -> is_single sd -> is_single x -> moderate32 (val sd) -> at_most_moderate32 (val mu) -> at_most_moderate32 (val x) ->
  let z := (val x - val mu) / val sd in at_most_moderate32 z ->
  within32 (2 * (c + 10)) (z * z + Rabs (ln (val sd)) + 2) (ln (normal_pdf (val mu) (val sd) (val x))) (@compile_normal (F32 L) mu sd x).
Proof. intros c lg L mu sd x LOK C0 N1 N2 N3 B1 B2 B3 z B4. apply acc_within; [apply (compile_normal_float c lg L LOK C0); assumption|lra|apply keps; lra]. Qed.
Print Assumptions C73_compiled_normal.
Theorem C73_normal_decomposition : forall c lg L mu sd x, libm32_ok c lg L -> 0 <= c <= 1000 ->
  is_single mu -> is_single sd -> is_single x -> 0 < val sd -> Rabs (val mu) <= huge32 -> Rabs (val x) <= huge32 ->
  let z := (val x - val mu) / val sd in Rabs z <= bpow radix2 40 ->
  let d := @mkNormal (F32 L) mu sd in
  within32 (2 * (c + 9)) (z * z + Rabs (ln (val sd)) + 2) (ln (normal_pdf (val mu) (val sd) (val x)))
    (@d_evaluate (F32 L) _ _ (normal_decomposition d) x (normal_params d)).
Proof. intros c lg L mu sd x LOK C0 N1 N2 N3 P B1 B2 z B3 d. apply acc_within; [apply (normal_decomposition_float c lg L LOK C0); assumption|lra|apply keps; lra]. Qed.
Print Assumptions C73_normal_decomposition.
Theorem C73_standard_normal : forall c lg L x, libm32_ok c lg L -> 0 <= c <= 1000 -> is_single x -> at_most_moderate32 (val x) ->
  within32 (2 * (c + 10)) (val x * val x + 2) (ln (normal_pdf 0 1 (val x))) (@ef_density (F32 L) f32 stdnormal_expfam x).
Proof. intros c lg L x LOK C0 N B. apply acc_within; [apply (stdnormal_fam_float c lg L LOK C0); assumption|lra|apply keps; lra]. Qed.
Print Assumptions C73_standard_normal.
(** The exponential's family path is off by 2 ln rate (C29); it computes that
    wrong value accurately. *)
Theorem C73_exponential : forall c lg L rate x, libm32_ok c lg L -> 0 <= c <= 1000 ->
  is_single rate -> is_single x -> 0 < val rate -> val rate * Rabs (val x) <= huge32 ->
  within32 (2 * (c + 4)) (Rabs (ln (val rate)) + val rate * Rabs (val x) + 1)
    (ln (exponential_pdf (val rate) (val x)) - 2 * ln (val rate)) (ef_density (exponential_expfam (@mkExponential (F32 L) rate)) x).
Proof.
  intros c lg L rate x LOK C0 N1 N2 P B. rewrite ln_exponential_pdf by exact P.
  replace (ln (val rate) - val rate * val x - 2 * ln (val rate)) with (- (val rate * val x) - ln (val rate)) by ring.
  apply acc_within; [apply (exponential_fam_float c lg L LOK C0); assumption|lra|apply keps; lra].
Qed.
Print Assumptions C73_exponential.
Theorem C73_compiled_exponential : forall c lg L rate x, libm32_ok c lg L -> 0 <= c <= 1000 ->
  is_single rate -> is_single x -> 0 < val rate -> 0 <= val x -> val rate * val x <= huge32 ->
  within32 (2 * (c + 2)) (Rabs (ln (val rate)) + val rate * val x + 1) (ln (exponential_pdf (val rate) (val x))) (@compile_exponential (F32 L) rate x).
Proof. intros c lg L rate x LOK C0 N1 N2 P X B. rewrite compile_exponential_same. apply acc_within; [apply (exponential_float c lg L LOK C0); assumption|lra|apply keps; lra]. Qed.
Print Assumptions C73_compiled_exponential.
Theorem C73_gamma : forall c lg L a b x, libm32_ok c lg L -> 0 <= c <= 1000 ->
  is_single a -> is_single b -> is_single x -> 0 < val a <= huge32 -> 0 < val b -> 0 < val x -> val b * val x <= huge32 -> Rabs (lg (val a)) <= huge32 ->
  within32 (2 * (c + 7)) (val a * Rabs (ln (val b)) + Rabs (lg (val a)) + Rabs (val a - 1) * Rabs (ln (val x)) + val b * val x + 2 + small32 * (2 * val a + 1))
    (ln (gamma_pdf lg (val a) (val b) (val x))) (ef_density (gamma_expfam (@mkGamma (F32 L) a b)) x).
Proof. intros c lg L a b x LOK C0 N1 N2 N3 A B X BX LG. apply acc_within; [apply (gamma_fam_float c lg L LOK C0); assumption|lra|apply keps; lra]. Qed.
Print Assumptions C73_gamma.
(** The log-partition of the beta is computed in [f64]. *)
Theorem C73_beta : forall c d lg L a b x, libm32_ok c lg L -> 0 <= c <= 1000 -> RoundSpec.libm_ok d lg (s_double L) -> 0 <= d <= 1000000 ->
  is_single a -> is_single b -> is_single x -> bpow radix2 (-20) <= val a <= bpow radix2 8 -> bpow radix2 (-20) <= val b <= bpow radix2 8 -> 0 < val x < 1 ->
  Rabs (lg (val a)) <= huge32 -> Rabs (lg (val b)) <= huge32 -> Rabs (lg (val a + val b)) <= huge32 ->
  within32 (2 * (c + 8)) (Rabs (lg (val a)) + Rabs (lg (val b)) + Rabs (lg (val a + val b)) + 3 + (val a + 1) * (Rabs (ln (val x)) + 1) + (val b + 1) * (Rabs (ln (1 - val x)) + 1) + 1)
    (ln (beta_pdf lg (val a) (val b) (val x))) (ef_density (beta_expfam32 L (@mkBeta (F32 L) a b)) x).
Proof. exact beta_fam_single. Qed.
Print Assumptions C73_beta.
Theorem C73_chi_squared : forall c lg L k x, libm32_ok c lg L -> 0 <= c <= 1000 ->
  is_single k -> is_single x -> small32 <= val k <= huge32 -> 0 < val x <= huge32 -> Rabs (lg (val k / 2)) <= huge32 ->
  within32 (2 * (c + 6)) (val k + Rabs (lg (val k / 2)) + (val k / 2 + 1) * (Rabs (ln (val x)) + 1) + val x + 3)
    (ln (chi_squared_pdf lg (val k) (val x))) (ef_density (chi_expfam (@mkChi (F32 L) k)) x).
Proof. intros c lg L k x LOK C0 N1 N2 K X G. apply acc_within; [apply (chi_fam_float c lg L LOK C0); assumption|lra|apply keps; lra]. Qed.
Print Assumptions C73_chi_squared.

(** * C73: discrete families *)
(** Probabilities travel through ln(p/(1-p)) and back: the units lost grow with
    the logit. *)
Theorem C73_bernoulli : forall c lg L p k, libm32_ok c lg L -> 0 <= c <= 1000 ->
  is_single p -> bpow radix2 (-80) <= val p -> val p < 1 -> (k <= 1)%nat ->
  within32 (2 * family_units c (val p)) (INR k * odds_scale (val p) + Rabs (ln (1 - val p)) + 2) (ln (bernoulli_pmf (val p) k))
    (ef_density (bernoulli_expfam (@mkBernoulli (F32 L) p)) k).
Proof.
  intros c lg L p k LOK C0 N A B K. destruct (logit_parts c lg L LOK C0 p N A B) as (_ & _ & _ & _ & _ & KE & _). unfold family_units.
  apply acc_within; [apply (bernoulli_fam_float c lg L LOK C0); assumption|lra|apply keps; lra].
Qed.
Print Assumptions C73_bernoulli.
Theorem C73_binomial : forall c d lg L n p k, libm32_ok c lg L -> 0 <= c <= 1000 -> RoundSpec.libm_ok d lg (s_double L) -> 0 <= d <= 1000000 ->
  (forall j : nat, lg (INR (S j)) = ln (INR (fact j))) -> is_single p -> bpow radix2 (-80) <= val p -> val p < 1 -> (k <= n)%nat -> count32_ok n ->
  within32 (2 * family_units c (val p))
    (INR k * odds_scale (val p) + INR n * (Rabs (ln (1 - val p)) + 1) + (ln (INR (fact n)) + ln (INR (fact k)) + ln (INR (fact (n - k))) + 3) + 1)
    (ln (binomial_pmf n (val p) k)) (ef_density (binomial_expfam32 L (@mkBinomial (F32 L) n p)) k).
Proof.
  intros c d lg L n p k LOK C0 LD D0 LF N A B K CN. destruct (logit_parts c lg L LOK C0 p N A B) as (_ & _ & _ & _ & _ & KE & _). unfold family_units.
  apply acc_within; [apply (binomial_fam_float c lg L LOK C0 d); assumption|lra|apply keps; lra].
Qed.
Print Assumptions C73_binomial.
Theorem C73_poisson : forall c lg L rate k, libm32_ok c lg L -> 0 <= c <= 1000 -> is_single rate -> 0 < val rate <= huge32 -> count32_ok k ->
  within32 (2 * (c + 63)) (INR k * (Rabs (ln (val rate)) + 1) + val rate + fact_scale k + 1) (ln (poisson_pmf (val rate) k))
    (ef_density (poisson_expfam (@mkPoisson (F32 L) rate)) k).
Proof. intros c lg L rate k LOK C0 N P K. apply acc_within; [apply (poisson_fam_float c lg L LOK C0); assumption|lra|apply keps; lra]. Qed.
Print Assumptions C73_poisson.
(** The geometric family path counts one failure too many (C29). *)
Theorem C73_geometric : forall c lg L p k, libm32_ok c lg L -> 0 <= c <= 1000 -> is_single p -> 0 < val p < 1 -> (1 <= k)%nat -> count32_ok k ->
  within32 (2 * (c + 6)) (INR k * (Rabs (ln (1 - val p)) + 1) + Rabs (ln (val p)) + 1) (ln (geometric_pmf (val p) k) + ln (1 - val p))
    (ef_density (geometric_expfam (@mkGeometric (F32 L) p)) k).
Proof. intros c lg L p k LOK C0 N P K1 K. apply acc_within; [apply (geometric_fam_float c lg L LOK C0); assumption|lra|apply keps; lra]. Qed.
Print Assumptions C73_geometric.
(** The negative binomial's family path (C29: off by k ln(1-p)) subtracts a
    sigmoid from one, hence the bound on [p]. *)
Theorem C73_negative_binomial : forall c d lg L r p k, libm32_ok c lg L -> 0 <= c <= 200 -> RoundSpec.libm_ok d lg (s_double L) -> 0 <= d <= 1000000 ->
  (forall j : nat, lg (INR (S j)) = ln (INR (fact j))) -> is_single p -> bpow radix2 (-80) <= val p <= 3 / 4 -> (0 < r)%nat -> count32_ok (k + r) ->
  within32 (2 * neg_units c (val p))
    (INR k * odds_scale (val p) + INR r * (Rabs (ln (1 - val p)) + 1) + (ln (INR (fact (k + r - 1))) + ln (INR (fact k)) + ln (INR (fact (r - 1))) + 3) + 1)
    (ln (negbinomial_pmf r (val p) k) - INR k * ln (1 - val p)) (ef_density (negbinomial_expfam32 L (@mkNegBinomial (F32 L) r p)) k).
Proof.
  intros c d lg L r p k LOK C2 LD D0 LF N P R0 CK. assert (C0 : 0 <= c <= 1000) by lra. destruct (logit_parts c lg L LOK C0 p N (proj1 P) ltac:(lra)) as (_ & _ & _ & _ & _ & KE & _). unfold neg_units.
  apply acc_within; [apply (negbinomial_fam_float c lg L LOK C0 d); try assumption; lra|lra|apply keps; lra].
Qed.
Print Assumptions C73_negative_binomial.
(** The categorical family path normalises by the sum of the probabilities. *)
Theorem C73_categorical : forall c lg L (qs : list f32) (l : f32) x, libm32_ok c lg L -> 0 <= c <= 1000 ->
  Forall (fun p => is_single p /\ bpow radix2 (-40) <= val p <= 1) (qs ++ [l]) -> INR (length qs) <= bpow radix2 18 -> (x <= length qs)%nat ->
  let ps := map val (qs ++ [l]) in
  within32 (2 * categorical_units32 c (INR (length qs))) (Rabs (ln (nth x ps 0 / val l)) + ln (Rsum ps / val l) + 4)
    (ln (categorical_pmf ps x) - ln (Rsum ps)) (ef_density (categorical_expfam (@mkCategorical (F32 L) (qs ++ [l]))) x).
Proof.
  intros c lg L qs l x LOK C0 A N X ps. apply Forall_app in A. destruct A as [Q QL]. apply Forall_inv in QL.
  pose proof (pos_INR (length qs)). assert (INR (length qs) <= 262144) by (change (bpow radix2 18) with 262144 in N; exact N). unfold categorical_units32.
  apply acc_within; [apply (categorical_fam_float c lg L LOK C0); assumption|lra|apply keps; lra].
Qed.
Print Assumptions C73_categorical.

(** * C73: combinatorial base measures *)
(** The table and Stirling's series together: every count up to 2^20. *)
Theorem C73_factorial : forall c lg L k, libm32_ok c lg L -> 0 <= c <= 1000 -> count32_ok k ->
  within32 (2 * (c + 60)) (fact_scale k) (- ln (INR (fact k))) (b_ld (@factorial_measure (F32 L)) k).
Proof. intros c lg L k LOK C0 K. apply acc_within; [apply acc_neg, (log_factorial_float c lg L LOK C0), K|lra|apply keps; lra]. Qed.
Print Assumptions C73_factorial.
(** The base measures of the binomial and the negative binomial are computed in
    [f64] (C72); outside the support the binomial's is minus infinity. *)
Theorem C73_binomial_measure : forall L n k,
  ((k <= n)%nat -> b_ld (binomial_measure32 L n) k = log_binomial_coefficient32 L n k) /\
  ((n < k)%nat -> b_ld (binomial_measure32 L n) k = S754_infinity true) /\
  (b_support (binomial_measure32 L n) k = true <-> (k <= n)%nat).
Proof. exact binomial_measure_single. Qed.
Print Assumptions C73_binomial_measure.

(** So is the negative binomial's, whose support is every count; and the three
    families with parts in [f64] have the natural parameters and sufficient
    statistics of the generic definition. *)
Theorem C73_mixed_structure : forall L,
  (forall r k, b_ld (negative_binomial_measure32 L r) k = log_negative_binomial_coefficient32 L r k /\ b_support (negative_binomial_measure32 L r) k = true) /\
  (forall (d : BetaD (F32 L)) x, to_natural (beta_expfam32 L d) = to_natural (beta_expfam d) /\ ef_stat (beta_expfam32 L d) x = ef_stat (beta_expfam d) x /\
     b_ld (ef_base (beta_expfam32 L d)) x = b_ld (ef_base (beta_expfam d)) x) /\
  (forall (d : Binomial (F32 L)) x, to_natural (binomial_expfam32 L d) = to_natural (binomial_expfam d) /\ ef_stat (binomial_expfam32 L d) x = ef_stat (binomial_expfam d) x) /\
  (forall (d : NegBinomial (F32 L)) x, to_natural (negbinomial_expfam32 L d) = to_natural (negbinomial_expfam d) /\ ef_stat (negbinomial_expfam32 L d) x = ef_stat (negbinomial_expfam d) x).
Proof. intros L. split; [intros; split; reflexivity|]. split; [intros; repeat split|split; intros; split; reflexivity]. Qed.
Print Assumptions C73_mixed_structure.

(** * Concrete cases: a correctly rounded library, and parameters meeting the hypotheses *)
Definition quarter : f32 := f32_dec 1 4.
Lemma quarter_val : is_single quarter /\ val quarter = 1 / 4.
Proof.
  split; [vm_compute; split; reflexivity|]. replace quarter with (S754_finite false 8388608 (-25)) by (vm_compute; reflexivity).
  rewrite JitAcc.val_explicit. cbn [Zaux.cond_Zopp]. change (bpow radix2 (-25)) with (/ 33554432). lra.
Qed.
Lemma few k : INR k <= 1000 -> count32_ok k.
Proof. intros K. unfold count32_ok. change (bpow radix2 20) with 1048576. lra. Qed.
Lemma tiny_quarter : bpow radix2 (-80) <= 1 / 4 /\ bpow radix2 (-40) <= 1 / 4 /\ bpow radix2 (-20) <= 1 / 4.
Proof. replace (1 / 4) with (bpow radix2 (-2)) by (change (bpow radix2 (-2)) with (/ 4); lra). split; [|split]; apply bpow_le; lia. Qed.
Example C73_normal_case : forall lg, let L := rounded_libm32 lg in
  within32 30 40 (ln (normal_pdf 1 2 11)) (ef_density (normal_expfam (@mkNormal (F32 L) (f32_of_Z 1) (f32_of_Z 2))) (f32_of_Z 11)).
Proof.
  intros lg L. destruct (num_int 1 ltac:(lia)) as [NA VA]. destruct (num_int 2 ltac:(lia)) as [NB VB]. destruct (num_int 11 ltac:(lia)) as [NC VC].
  assert (B : 1024 <= bpow radix2 40) by (change 1024 with (bpow radix2 10); apply bpow_le; lia).
  assert (S : bpow radix2 (-40) <= 1) by (change 1 with (bpow radix2 0); apply bpow_le; lia).
  destruct (C73_normal 1 lg L (f32_of_Z 1) (f32_of_Z 2) (f32_of_Z 11) (rounded_libm32_ok lg) ltac:(lra) NA NB NC) as [N W]; unfold moderate32, at_most_moderate32 in *; rewrite ?VA, ?VB, ?VC; rewrite ?Rabs_pos_eq by lra; try lra.
  rewrite VA, VB, VC in W. split; [exact N|]. eapply Rle_trans; [exact W|]. pose proof eps_pos. pose proof JitAcc.ln2_bounds. unfold family_scale. rewrite (Rabs_pos_eq (ln 2)) by lra.
  replace ((1 / 2) ^ 2 + (11 / 2) ^ 2 + ln 2 + 2) with (325 / 10 + ln 2) by field. nra.
Qed.
Example C73_beta_case : let lg := PropsDist.lg_ex in let L := rounded_libm32 lg in
  within32 18 (Rabs (lg 2) + Rabs (lg 3) + Rabs (lg (2 + 3)) + 3 + 3 * (Rabs (ln (1 / 4)) + 1) + 4 * (Rabs (ln (1 - 1 / 4)) + 1) + 1)
    (ln (beta_pdf lg 2 3 (1 / 4))) (ef_density (beta_expfam32 L (@mkBeta (F32 L) (f32_of_Z 2) (f32_of_Z 3))) quarter).
Proof.
  intros lg L. destruct (num_int 2 ltac:(lia)) as [NA VA]. destruct (num_int 3 ltac:(lia)) as [NB VB]. destruct quarter_val as [NQ VQ]. pose proof tiny_quarter. pose proof huge_one.
  pose proof (PropsDist.lg_ex_factorial 1%nat) as G2. pose proof (PropsDist.lg_ex_factorial 2%nat) as G3. pose proof (PropsDist.lg_ex_factorial 4%nat) as G5. fold lg in G2, G3, G5.
  replace (INR 2) with 2 in G2 by (cbn; ring). replace (INR 3) with 3 in G3 by (cbn; ring). replace (INR 5) with (2 + 3) in G5 by (cbn; ring).
  assert (B : forall n, (n <= 4)%nat -> Rabs (ln (INR (fact n))) <= huge32).
  { intros n Hn. assert (F1 : 1 <= INR (fact n)) by (change 1 with (INR 1); apply le_INR, lt_O_fact). assert (F2 : (fact n <= 24)%nat) by (do 5 (destruct n as [|n]; [cbn; lia|]); lia).
    apply le_INR in F2. assert (INR 24 = 24) as E24 by (rewrite INR_IZR_INZ; reflexivity). rewrite E24 in F2. assert (0 <= ln (INR (fact n))) by (rewrite <- ln_1; apply ln_le; lra).
    rewrite Rabs_pos_eq by assumption. pose proof (exp_ineq1_le (ln (INR (fact n)))) as T. rewrite exp_ln in T by lra. lra. }
  pose proof (C73_beta 1 1 lg L (f32_of_Z 2) (f32_of_Z 3) quarter (rounded_libm32_ok lg) ltac:(lra) (RoundProofs.rounded_libm_ok lg) ltac:(lra) NA NB NQ) as W.
  rewrite VA, VB, VQ in W. change (bpow radix2 8) with 256 in W. specialize (W ltac:(lra) ltac:(lra) ltac:(lra)).
  rewrite G2, G3, G5 in *. specialize (W (B 1%nat ltac:(lia)) (B 2%nat ltac:(lia)) (B 4%nat ltac:(lia))).
  replace (2 * (1 + 8)) with 18 in W by lra. replace (2 + 1) with 3 in W by lra. replace (3 + 1) with 4 in W by lra. exact W.
Qed.
Example C73_bernoulli_case : forall lg, let L := rounded_libm32 lg in
  within32 (2 * family_units 1 (1 / 4)) (INR 1 * odds_scale (1 / 4) + Rabs (ln (1 - 1 / 4)) + 2) (ln (bernoulli_pmf (1 / 4) 1)) (ef_density (bernoulli_expfam (@mkBernoulli (F32 L) quarter)) 1%nat).
Proof.
  intros lg L. destruct quarter_val as [N V]. rewrite <- V. apply (C73_bernoulli 1 lg L quarter 1 (rounded_libm32_ok lg)); try lra; try lia; try exact N. rewrite V. apply tiny_quarter.
Qed.
Example C73_binomial_case : let lg := PropsDist.lg_ex in let L := rounded_libm32 lg in
  within32 (2 * family_units 1 (1 / 4))
    (INR 2 * odds_scale (1 / 4) + INR 4 * (Rabs (ln (1 - 1 / 4)) + 1) + (ln (INR (fact 4)) + ln (INR (fact 2)) + ln (INR (fact (4 - 2))) + 3) + 1) (ln (binomial_pmf 4 (1 / 4) 2)) (ef_density (binomial_expfam32 L (@mkBinomial (F32 L) 4 quarter)) 2%nat).
Proof.
  intros lg L. destruct quarter_val as [N V]. rewrite <- V. apply (C73_binomial 1 1 lg L 4 quarter 2 (rounded_libm32_ok lg)); try lra; try lia; try exact N; [apply RoundProofs.rounded_libm_ok|exact PropsDist.lg_ex_factorial|rewrite V; apply tiny_quarter|apply few; cbn; lra].
Qed.
Example C73_poisson_case : forall lg, let L := rounded_libm32 lg in
  within32 128 (INR 25 * (Rabs (ln 2) + 1) + 2 + fact_scale 25 + 1) (ln (poisson_pmf 2 25)) (ef_density (poisson_expfam (@mkPoisson (F32 L) (f32_of_Z 2))) 25%nat).
Proof.
  intros lg L. destruct (num_int 2 ltac:(lia)) as [N V]. replace 128 with (2 * (1 + 63)) by lra.
  rewrite <- V at 2 3 4. apply (C73_poisson 1 lg L (f32_of_Z 2) 25 (rounded_libm32_ok lg)); [lra|exact N|rewrite V; pose proof huge_one; lra|apply few; cbn; lra].
Qed.
Example C73_negative_binomial_case : let lg := PropsDist.lg_ex in let L := rounded_libm32 lg in
  within32 (2 * neg_units 1 (1 / 4))
    (INR 2 * odds_scale (1 / 4) + INR 3 * (Rabs (ln (1 - 1 / 4)) + 1) + (ln (INR (fact (2 + 3 - 1))) + ln (INR (fact 2)) + ln (INR (fact (3 - 1))) + 3) + 1) (ln (negbinomial_pmf 3 (1 / 4) 2) - INR 2 * ln (1 - 1 / 4)) (ef_density (negbinomial_expfam32 L (@mkNegBinomial (F32 L) 3 quarter)) 2%nat).
Proof.
  intros lg L. destruct quarter_val as [N V]. rewrite <- V. apply (C73_negative_binomial 1 1 lg L 3 quarter 2 (rounded_libm32_ok lg)); try lra; try lia; try exact N; [apply RoundProofs.rounded_libm_ok|exact PropsDist.lg_ex_factorial|rewrite V; pose proof tiny_quarter; lra|apply few; cbn; lra].
Qed.
Example C73_categorical_case : forall lg, let L := rounded_libm32 lg in
  within32 (2 * categorical_units32 1 3) 8 (ln (1 / 4)) (ef_density (categorical_expfam (@mkCategorical (F32 L) [quarter; quarter; quarter; quarter])) 3%nat).
Proof.
  intros lg L. destruct quarter_val as [N V]. pose proof tiny_quarter.
  destruct (C73_categorical 1 lg L [quarter; quarter; quarter] quarter 3 (rounded_libm32_ok lg)) as [NW W]; [lra| | |cbn; lia|].
  - assert (Q : is_single quarter /\ bpow radix2 (-40) <= val quarter <= 1) by (rewrite V; split; [exact N|lra]). repeat (apply Forall_cons; [exact Q|]). apply Forall_nil.
  - cbn [length INR]. change (bpow radix2 18) with 262144. lra.
  - split; [exact NW|]. unfold categorical_pmf in W. cbn [app map nth length INR Rsum fold_right] in W. rewrite V in W.
    replace (1 / 4 + (1 / 4 + (1 / 4 + (1 / 4 + 0)))) with 1 in W by field. replace (1 / 4 / (1 / 4)) with 1 in W by field. replace (1 / (1 / 4)) with (2 * 2) in W by field.
    rewrite ln_mult, ln_1, Rabs_R0 in W by lra. replace (1 + 1 + 1) with 3 in W by ring. replace (ln (1 / 4) - 0) with (ln (1 / 4)) in W by ring.
    eapply Rle_trans; [exact W|]. destruct JitAcc.ln2_bounds. pose proof eps_pos. apply Rmult_le_compat_l; [|lra]. apply Rmult_le_pos; [unfold categorical_units32; lra|lra].
Qed.
Example C73_factorial_case : forall lg, let L := rounded_libm32 lg in within32 122 (fact_scale 100) (- ln (INR (fact 100))) (b_ld (@factorial_measure (F32 L)) 100%nat).
Proof.
  intros lg L. replace 122 with (2 * (1 + 60)) by lra. apply (C73_factorial 1 lg L 100 (rounded_libm32_ok lg)); [lra|].
  apply few. rewrite INR_IZR_INZ. change (Z.of_nat 100) with 100%Z. lra.
Qed.
(** The literals 1/12, 1/360, 1/1260, 1/1680 of the series, [f64] quotients
    converted to [f32], are the [f32] quotients used in the model. *)
Example C73_series_literals : Forall (fun d => narrow (f64_div (f64_of_Z 1) (f64_of_Z d)) = f32_div (f32_of_Z 1) (f32_of_Z d)) [12; 360; 1260; 1680]%Z.
Proof. repeat (apply Forall_cons; [vm_compute; reflexivity|]). apply Forall_nil. Qed.
