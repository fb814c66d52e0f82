(** Joint log-densities of samples in binary64 (C70): standard normal,
    chi-squared, binomial and negative binomial families. *)
From Coq Require Import ZArith Reals Bool String List Lia Lra.
From Coq Require Import Floats.SpecFloat.
From Flocq Require Import Core.
From Verif Require Import Num EggSpec LitFacts EggNum FloatFacts FloatErr JitAcc AccSpec AccProofs RoundSpec RoundProofs RelErr
  DensitySpec CoreModel CombModel ExpFamModel DistModel DistSpec DistFacts BuilderProofs DistProofs DistFloat SumFloat FamFloatSpec FamFloat FactFloat FamFloat2 FamFloat3 IidFloatSpec IidFloatSpec2 IidFloat IidFloat2 IidFloat3.
Import ListNotations.
Local Open Scope R_scope.

Lemma sum_huge8 {A} (f : A -> R) l : count_ok (length l) -> (forall x, In x l -> f x <= 8 * huge) -> Rsum (map f l) <= big.
Proof.
  intros N H. eapply Rle_trans; [apply (Rsum_le f (fun _ => 8 * huge)); exact H|]. rewrite Rsum_const. unfold count_ok in N.
  assert (0 < huge) by apply bpow_gt_0.
  apply Rle_trans with (bpow radix2 40 * (8 * huge)); [apply Rmult_le_compat_r; lra|]. unfold huge, big. change 8 with (bpow radix2 3). rewrite <- !bpow_plus. apply bpow_le. lia.
Qed.

Section Fam.
Context (c : R) (lg : R -> R) (L : libm) (LOK : libm_ok c lg L) (C0 : 0 <= c <= 1000000).
Notation F := (F64 L).

Lemma stdnormal_family_iid_float xs : Forall is_num xs -> count_ok (length xs) -> (forall x, In x xs -> at_most_moderate (val x)) ->
  acc (c + 8 + INR (length xs) + 3) (Rsum (map (fun x => val x * val x + 2) xs)) (Rsum (map (fun x => ln (normal_pdf 0 1 (val x))) xs))
    (compute_iid (@stdnormal_expfam F) xs).
Proof.
  intros NX N BX. rewrite Forall_forall in NX. destruct powers as (Q1 & Q2 & Q3 & Q4 & Q5 & Q6 & Q7). sizes.
  destruct half_dec as [NH VH]. destruct mhalf_dec as [NG VG]. destruct two_num as [N2 V2]. destruct zero_num as [N0 V0]. pose proof pi_bounds as PB. pose proof ln_two_pi as LP.
  assert (XB : forall x, In x xs -> 0 <= val x * val x <= P800 /\ Rabs (val x) * Rabs (val x) = val x * val x /\ Rabs (val x) <= P400).
  { intros x I. pose proof (BX x I) as B1. destruct (mod_sqr _ B1) as [X1 X2]. repeat split; try assumption; apply X1. }
  assert (SB : Rsum (map (fun x => val x * val x + 2) xs) <= big).
  { apply sum_huge; [exact N|]. intros x I. destruct (XB x I) as ([_ X1] & _). lra. }
  assert (T3 : acc (c + 5) 1.6 (ln (2 * PI) * / 2) (f64_mul (l_ln L (f64_mul (f64_of_Z 2) f64_pi)) (f64_dec 5 10))).
  { assert (R2 : rel 2 (2 * PI) (f64_mul (f64_of_Z 2) f64_pi)).
    { replace 2 with (0 + 1 + 1) at 1 by lra. apply rel_mul; ks; [apply rel_is; [exact N2|exact V2|lra]|exact rel_pi|]. split; rewrite Rabs_pos_eq by lra; lra. }
    pose proof (acc_lnr c lg L LOK C0 2 (2 * PI) _ R2 ltac:(lra) ltac:(lra)) as A1. rewrite (Rabs_pos_eq (ln _)) in A1 by lra.
    eapply acc_more; [eapply acc_mul; [exact A1|apply (acc_is _ (/ 2) (/ 2) NH VH); rewrite Rabs_pos_eq; lra| | | |]|..]; ks. }
  unfold stdnormal_expfam.
  apply (sample_two L (f64_of_Z 0) (f64_dec (-5) 10) (f64_mul (l_ln L (f64_mul (f64_of_Z 2) f64_pi)) (f64_dec 5 10)) (fun x => x) (fun x => f64_mul x x) prim xs (c + 8) 0 0 0 0 (/ 2) (- / 2)
    0 (fun x => Rabs (val x)) (fun x => val x) 1 (fun x => val x * val x + small) (fun x => val x * val x) (c + 5) 1.6 (ln (2 * PI) * / 2) (fun _ => 0) (fun _ => 0)); try assumption; try lra.
  - exact acc_zero.
  - apply acc_is; [exact NG|exact VG|rewrite Rabs_Ropp, Rabs_pos_eq; lra].
  - intros x I. apply acc_exact', NX, I.
  - intros x I. destruct (XB x I) as (X1 & X2 & _). rewrite <- X2 at 1. apply mul_exact_acc; try (apply NX, I). lra.
  - intros x I. apply (acc_k 0); [exact acc_zero|lra].
  - intros x I. destruct (XB x I) as (_ & _ & X3). lra.
  - intros x I. destruct (XB x I) as (X1 & _). lra.
  - intros x I. destruct (XB x I) as (X1 & _). lra.
  - intros x I. rewrite ln_normal_pdf by lra. rewrite ln_1. field.
Qed.

Lemma chi_family_iid_float k xs : is_num k -> small <= val k <= huge -> Rabs (lg (val k / 2)) <= huge ->
  Forall is_num xs -> count_ok (length xs) -> (forall x, In x xs -> 0 < val x <= huge) ->
  Rsum (map (fun x => chi_scale lg (val k) (val x)) xs) <= big ->
  acc (c + 3 + INR (length xs) + 3) (Rsum (map (fun x => chi_scale lg (val k) (val x)) xs)) (Rsum (map (fun x => ln (chi_squared_pdf lg (val k) (val x))) xs))
    (compute_iid (chi_expfam (@mkChi F k)) xs).
Proof.
  intros NK [K0 K1] LG NX N BX M. rewrite Forall_forall in NX.
  destruct one_num as [N1 V1]. destruct two_num as [N2 V2]. destruct half_dec as [ND VD]. sizes. destruct (half_exact k NK K0) as [NH VH]. pose proof ln2_bounds as L2.
  unfold chi_expfam, chi_shape, chi_rate. cbn [c_k]. cbv zeta.
  change (@ndiv F k (@n2 F)) with (f64_div k (f64_of_Z 2)).
  set (h := f64_div k (f64_of_Z 2)) in *. rewrite <- VH in LG.
  assert (KH : val k = 2 * val h) by lra. pose proof (Rabs_pos (lg (val h))). clearbody h.
  assert (T0 : acc c (ln 2 + small) (ln 2) (l_ln L (f64_of_Z 2))).
  { pose proof (acc_lnx c lg L LOK (f64_of_Z 2) N2 ltac:(lra)) as T. rewrite V2, (Rabs_pos_eq (ln 2)) in T by lra. exact T. }
  assert (P1 : val h * (ln 2 + small) <= val h * 1) by (apply Rmult_le_compat_l; lra).
  assert (T1 : acc (c + 1) (val h * (ln 2 + small) + small) (val h * ln 2) (f64_mul h (l_ln L (f64_of_Z 2)))).
  { replace (c + 1) with (0 + c + 1) by ring. apply acc_mul; ks; [|exact T0]. apply acc_is; [exact NH|reflexivity|]. rewrite Rabs_pos_eq; lra. }
  assert (T2 : acc (c + 2) (1 + Rabs (lg (val h)) + (val h * (ln 2 + small) + small)) (lg (val h) + val h * ln 2) (f64_add (l_lgamma L h) (f64_mul h (l_ln L (f64_of_Z 2))))).
  { replace (c + 2) with (c + 1 + 1) by ring. apply acc_add; ks; [apply (acc_k c); [apply (acc_lg c lg L LOK); try assumption; lra|lra]|exact T1]. }
  apply (sample_two L (f64_sub h (f64_of_Z 1)) (SFopp (f64_dec 5 10)) (f64_add (l_lgamma L h) (f64_mul h (l_ln L (f64_of_Z 2)))) (fun x => l_ln L x) (fun x => x) prim xs
    (c + 3) 1 (val h + 1) (val h - 1) 0 (/ 2) (- / 2) c (fun x => Rabs (ln (val x)) + small) (fun x => ln (val x)) 0 (fun x => val x) (fun x => val x)
    (c + 2) (1 + Rabs (lg (val h)) + (val h * (ln 2 + small) + small)) (lg (val h) + val h * ln 2) (fun _ => 0) (fun _ => 0)); try assumption; try lra.
  - apply acc_diff'; try assumption; rewrite ?V1; try lra; [apply Rabs_le; lra|rewrite !Rabs_pos_eq; lra].
  - destruct (neg_num _ ND) as [N' V']. apply acc_is; [exact N'|rewrite V', VD; reflexivity|]. rewrite Rabs_Ropp, Rabs_pos_eq; lra.
  - intros x I. apply (acc_lnx c lg L LOK); [apply NX, I|apply BX, I].
  - intros x I. destruct (BX x I). apply acc_is; [apply NX, I|reflexivity|]. rewrite Rabs_pos_eq; lra.
  - intros x I. apply (acc_k 0); [exact acc_zero|lra].
  - intros x I. destruct (BX x I) as [X0 _]. pose proof (ln_any x (NX x I) X0). lra.
  - intros x I. apply BX, I.
  - intros x I. destruct (BX x I) as [X0 X1]. unfold chi_scale. rewrite <- VH. pose proof (Rabs_pos (ln (val x))).
    assert ((val h + 1) * small <= (val h + 1) * / 2) by (apply Rmult_le_compat_l; lra).
    replace ((val h + 1) * (Rabs (ln (val x)) + small)) with ((val h + 1) * (Rabs (ln (val x)) + 1) - (val h + 1) + (val h + 1) * small) by ring. rewrite KH. lra.
  - intros x I. rewrite ln_chi_pdf by apply (BX x I). rewrite <- VH. field.
Qed.

Lemma count_odds k s : count_ok k -> 0 <= s <= 2000 -> INR k * s <= huge.
Proof.
  intros CK S. destruct (count_num L k CK) as (_ & _ & B).
  apply Rle_trans with (2000000000000 * 2000); [apply Rmult_le_compat; lra|]. apply Rle_trans with (bpow radix2 60); [change (bpow radix2 60) with 1152921504606846976; lra|apply bpow_le; lia].
Qed.
Lemma binomial_family_iid_float n p ks : lg_factorial lg -> is_num p -> bpow radix2 (-800) <= val p -> val p < 1 -> count_ok n -> count_ok (length ks) -> (forall k, In k ks -> (k <= n)%nat) ->
  acc (family_units c (val p) + 1 + INR (length ks)) (Rsum (map (binomial_scale n (val p)) ks)) (Rsum (map (fun k => ln (binomial_pmf n (val p) k)) ks))
    (compute_iid (binomial_expfam (@mkBinomial F n p)) ks).
Proof.
  intros LF NP A B CN N K1. pose proof (bpow_gt_0 radix2 (-800)). destruct (logit_parts c lg L LOK C0 p NP A B) as (T1 & _ & _ & T2 & LS & KE & LQ). cbv zeta in *. sizes.
  assert (CK : forall k, In k ks -> count_ok k) by (intros k I; apply (count_le n); [exact CN|apply K1, I]).
  assert (CD : forall k, In k ks -> count_ok (n - k)) by (intros k I; apply (count_le n); [exact CN|lia]).
  pose proof (Rabs_pos (ln (1 - val p))). pose proof (pos_INR (length ks)). assert (NB : INR (length ks) <= 1099511627776) by exact N.
  destruct (count_mul L n _ _ _ _ CN T2 ltac:(lra) ltac:(lra)) as (T4 & _ & KN). pose proof (fact_size L n CN) as FN.
  assert (SB : Rsum (map (binomial_scale n (val p)) ks) <= big).
  { apply sum_huge8; [exact N|]. intros k I. unfold binomial_scale. pose proof (fact_size L k (CK k I)). pose proof (fact_size L _ (CD k I)).
    pose proof (count_odds k (odds_scale (val p)) (CK k I) ltac:(lra)). pose proof (count_odds n (Rabs (ln (1 - val p)) + 1) CN ltac:(lra)). lra. }
  unfold binomial_expfam. cbn [bi_prob bi_n].
  apply (acc_k (c + 2 * (odds_units c (val p) + 1) + 4 + INR (length ks) + 2)); [|unfold family_units; lra].
  apply (sample_one L (@log_odds F p) _ (fun k => @nofn F k) (@binomial_measure F n) ks (c + 2 * (odds_units c (val p) + 1) + 4) (c + 4) (odds_scale (val p)) (logit_of (val p)) 0 (fun k => INR k) (fun k => INR k)
    (c + 2 * (odds_units c (val p) + 1) + 1) (INR n * (Rabs (ln (1 - val p)) + 1) + small) (INR n * - ln (1 - val p)) (fun k => ln (INR (fact n)) + ln (INR (fact k)) + ln (INR (fact (n - k))) + 3) (fun k => ln (Binomial.C n k))); try assumption; try lra.
  - intros k I. apply acc_count, CK, I.
  - intros k I. unfold binomial_measure. cbn [b_ld]. replace (Nat.ltb n k) with false by (symmetry; apply Nat.ltb_ge, K1, I).
    apply (acc_k (c + 2)); [apply (binomial_coefficient_float c lg L LOK C0); try assumption; apply K1, I|lra].
  - intros k I. apply (count_small L), CK, I.
  - intros k I. unfold binomial_scale. lra.
  - intros k I. rewrite ln_binomial_pmf by (try lra; apply K1, I). unfold logit_of, Rdiv. rewrite ln_mult, ln_Rinv by (try apply Rinv_0_lt_compat; lra). ring.
Qed.
(** The partition goes through 1 - sigmoid, so the probability is kept away from one. *)
Lemma negbinomial_partition_float r p : is_num p -> bpow radix2 (-800) <= val p <= 3 / 4 -> count_ok r ->
  let e := l_exp L (@log_odds F p) in
  acc (c + 28 * (2 * odds_units c (val p) + 3) + 1) (INR r * (Rabs (ln (1 - val p)) + 1) + small) (- INR r * ln (1 - val p))
    (f64_mul (SFopp (@nofn F r)) (l_ln L (f64_sub (f64_of_Z 1) (f64_div e (f64_add (f64_of_Z 1) e))))).
Proof.
  intros N [A B] CR e. pose proof (bpow_gt_0 radix2 (-800)). destruct (logit_parts c lg L LOK C0 p N A ltac:(lra)) as (T1 & E1 & E2 & _ & LS & KE & LQ). cbv zeta in *. sizes.
  destruct one_num as [N1 V1]. fold e in E1, E2. set (K := odds_units c (val p)) in *.
  assert (RS : rel (K + (K + 1) + 1) (val p) (f64_div e (f64_add (f64_of_Z 1) e))).
  { replace (val p) with (val p / (1 - val p) / / (1 - val p)) at 1 by (field; lra). apply rel_div; ks; [exact E1|exact E2|].
    replace (val p / (1 - val p) / / (1 - val p)) with (val p) by (field; lra). split; rewrite Rabs_pos_eq by lra; [|lra].
    eapply Rle_trans; [|exact A]. unfold small. change 2 with (bpow radix2 1). rewrite <- bpow_plus. apply bpow_le. lia. }
  set (s := f64_div e _) in *. apply rel_acc in RS; [|lra]. rewrite Rabs_pos_eq in RS by lra.
  assert (AQ : acc (2 * K + 3) (1 + val p) (1 - val p) (f64_sub (f64_of_Z 1) s)).
  { replace (2 * K + 3) with (K + (K + 1) + 1 + 1) by ring. apply acc_sub; ks; [|exact RS]. apply (acc_k 0); [|lra]. apply (acc_is _ 1 1 N1 V1). rewrite Rabs_R1. lra. }
  assert (AQ' : acc (7 * (2 * K + 3)) (1 - val p) (1 - val p) (f64_sub (f64_of_Z 1) s)).
  { destruct AQ as (NQ & _ & EQ). split; [exact NQ|]. split; [rewrite Rabs_pos_eq; lra|]. eapply Rle_trans; [exact EQ|].
    pose proof (gam_pos (2 * K + 3) ltac:(lra)) as GP. apply Rle_trans with (gam (2 * K + 3) * (7 * (1 - val p))); [apply Rmult_le_compat_l; lra|].
    rewrite <- Rmult_assoc. apply Rmult_le_compat_r; [lra|]. rewrite Rmult_comm.  apply gam_seven. lra. }
  apply rel_of_acc in AQ'; ks.
  pose proof (acc_ln c lg L LOK (proj1 C0) _ _ _ AQ' ltac:(lra) ltac:(lra) ltac:(apply keps; lra)) as T2.
  destruct (count_mul L r _ _ _ _ CR T2 ltac:(lra) ltac:(lra)) as (_ & _ & KM). replace (c + 28 * (2 * K + 3) + 1) with (0 + (c + 2 * (2 * (7 * (2 * K + 3)))) + 1) by ring.
  apply acc_mul; ks; [|exact T2]. apply acc_neg, acc_count, CR.
Qed.
Lemma negbinomial_family_iid_float r p ks : lg_factorial lg -> is_num p -> bpow radix2 (-800) <= val p <= 3 / 4 -> (0 < r)%nat -> count_ok (length ks) -> (forall k, In k ks -> count_ok (k + r)) -> count_ok r ->
  acc (neg_units c (val p) + INR (length ks)) (Rsum (map (negbinomial_scale r (val p)) ks)) (Rsum (map (fun k => ln (negbinomial_pmf r (val p) k) - INR k * ln (1 - val p)) ks))
    (compute_iid (negbinomial_expfam (@mkNegBinomial F r p)) ks).
Proof.
  intros LF NP A R0 N CKR CR. pose proof (bpow_gt_0 radix2 (-800)). destruct (logit_parts c lg L LOK C0 p NP (proj1 A) ltac:(lra)) as (T1 & _ & _ & _ & LS & KE & LQ). cbv zeta in *. sizes.
  pose proof (negbinomial_partition_float r p NP A CR) as T4. cbv zeta in T4.
  assert (CK : forall k, In k ks -> count_ok k) by (intros k I; apply (count_le (k + r)); [apply CKR, I|lia]).
  assert (CS : forall k, In k ks -> count_ok (k + r - 1)) by (intros k I; apply (count_le (k + r)); [apply CKR, I|lia]).
  assert (CR1 : count_ok (r - 1)) by (apply (count_le r); [exact CR|lia]).
  pose proof (Rabs_pos (ln (1 - val p))). pose proof (pos_INR (length ks)). assert (NB : INR (length ks) <= 1099511627776) by exact N. pose proof (fact_size L _ CR1).
  assert (SB : Rsum (map (negbinomial_scale r (val p)) ks) <= big).
  { apply sum_huge8; [exact N|]. intros k I. unfold negbinomial_scale. pose proof (fact_size L k (CK k I)). pose proof (fact_size L _ (CS k I)).
    pose proof (count_odds k (odds_scale (val p)) (CK k I) ltac:(lra)). pose proof (count_odds r (Rabs (ln (1 - val p)) + 1) CR ltac:(lra)). lra. }
  unfold negbinomial_expfam. cbn [nb_prob nb_r]. cbv zeta.
  apply (acc_k (c + 28 * (2 * odds_units c (val p) + 3) + 2 + INR (length ks) + 2)); [|unfold neg_units; lra].
  apply (sample_one L (@log_odds F p) _ (fun k => @nofn F k) _ ks (c + 28 * (2 * odds_units c (val p) + 3) + 2) (c + 4) (odds_scale (val p)) (logit_of (val p)) 0 (fun k => INR k) (fun k => INR k)
    (c + 28 * (2 * odds_units c (val p) + 3) + 1) (INR r * (Rabs (ln (1 - val p)) + 1) + small) (- INR r * ln (1 - val p)) (fun k => ln (INR (fact (k + r - 1))) + ln (INR (fact k)) + ln (INR (fact (r - 1))) + 3) (fun k => ln (Binomial.C (k + r - 1) k))); try assumption; try lra.
  - intros k I. apply acc_count, CK, I.
  - intros k I. apply (acc_k (c + 2)); [apply (negative_binomial_coefficient_float c lg L LOK C0); try assumption; apply CK, I|lra].
  - intros k I. apply (count_small L), CK, I.
  - intros k I. unfold negbinomial_scale. lra.
  - intros k I. rewrite ln_negbinomial_pmf by (try lra; exact R0). unfold logit_of, Rdiv. rewrite ln_mult, ln_Rinv by (try apply Rinv_0_lt_compat; lra). ring.
Qed.
End Fam.
