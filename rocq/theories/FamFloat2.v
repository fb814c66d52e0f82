(** The exponential-family paths in binary64 (C60): discrete families. *)
From Coq Require Import ZArith Reals Bool String List Lia Lra.
From Coq Require Import Floats.SpecFloat.
From Flocq Require Import Core.
From Verif Require Import Num EggSpec LitFacts EggNum FloatFacts FloatErr JitAcc AccSpec AccProofs RoundSpec RoundProofs RelErr
  DensitySpec CoreModel CombModel ExpFamModel DistModel DistSpec DistFacts BuilderProofs DistProofs DistFloat SumFloat CombFloatSpec CombFloat CombFloat2 FamFloatSpec FamFloat FactFloat.
Import ListNotations.
Local Open Scope R_scope.

#[local] Instance Hprec64 : FLX.Prec_gt_0 53 := eq_refl _.

(** A probability below one is at most 1 - 2^-53. *)
Lemma below_one p : is_num p -> val p < 1 -> val p <= 1 - bpow radix2 (-53).
Proof.
  intros N P. assert (F : generic_format radix2 (FLT_exp (-1074) 53) (val p)) by (apply format_val, N).
  assert (F1 : generic_format radix2 (FLT_exp (-1074) 53) 1) by (change 1 with (bpow radix2 0); apply generic_format_bpow; unfold FLT_exp; lia).
  pose proof (pred_ge_gt radix2 (FLT_exp (-1074) 53) (val p) 1 F F1 P) as H.
  change 1 with (bpow radix2 0) in H. rewrite pred_bpow in H. exact H.
Qed.
(** Another target for a relative bound. *)
Lemma rel_target k j a b w : rel k a w -> exp (- (j * eps)) <= a / b <= exp (j * eps) -> b <> 0 -> rel (k + j) b w.
Proof.
  intros (N & Z & A & B) [C D] ZB. split; [exact N|]. split; [exact ZB|].
  replace (val w / b) with (val w / a * (a / b)) by (field; split; assumption).
  pose proof (exp_pos (- (k * eps))). pose proof (exp_pos (- (j * eps))).
  replace (- ((k + j) * eps)) with (- (k * eps) + - (j * eps)) by ring. replace ((k + j) * eps) with (k * eps + j * eps) by ring. rewrite !exp_plus.
  split; apply Rmult_le_compat; lra.
Qed.

Lemma gam_seven k : 0 <= k -> 7 * gam k <= gam (7 * k).
Proof.
  intros K. pose proof (gam_pos k K). pose proof (gam_prod k k). pose proof (gam_prod (k + k) k). pose proof (gam_prod (k + k + k) (k + k + k)). pose proof (gam_prod (k + k + k + (k + k + k)) k).
  pose proof (gam_pos (k + k) ltac:(lra)). pose proof (gam_pos (k + k + k) ltac:(lra)). pose proof (gam_pos (k + k + k + (k + k + k)) ltac:(lra)).
  replace (7 * k) with (k + k + k + (k + k + k) + k) by ring. nra.
Qed.

Section Fam.
Context (c : R) (lg : R -> R) (L : libm) (LOK : libm_ok c lg L) (C0 : 0 <= c <= 1000000).
Notation F := (F64 L).

Lemma exp_acc k m r u : acc k m r u -> Rabs r <= 599 -> 0 <= k -> k * m * eps <= / 8 -> k * eps <= / 4 -> rel (4 * c + 2 * k * m) (exp r) (l_exp L u).
Proof.
  intros A R K S S'. pose proof (acc_pos _ _ _ _ A) as M. destruct A as (N & _ & E). pose proof (gam_up k K S') as G.
  assert (E' : Rabs (val u - r) <= 2 * k * m * eps) by (eapply Rle_trans; [exact E|]; replace (2 * k * m * eps) with (2 * k * eps * m) by ring; apply Rmult_le_compat_r; assumption).
  apply Rabs_le_inv in R. apply Rabs_le_inv in E'.
  destruct (exp_rel c lg L LOK C0 u N) as [RE _]; [apply Rabs_le; lra|].
  apply (rel_target _ _ _ _ _ RE); [|apply Rgt_not_eq, exp_pos].
  replace (exp (val u) / exp r) with (exp (val u - r)) by (unfold Rminus, Rdiv; rewrite exp_plus, exp_Ropp; reflexivity). split; apply exp_le; lra.
Qed.

(** The natural parameter of a probability, its exponential and the log partition. *)
Lemma logit_range p : bpow radix2 (-800) <= p <= 1 - bpow radix2 (-53) -> Rabs (logit_of p) <= 560 /\ 0 < p / (1 - p) <= bpow radix2 53 /\ bpow radix2 (-800) <= p / (1 - p).
Proof.
  intros [A B]. pose proof (bpow_gt_0 radix2 (-800)). pose proof (bpow_gt_0 radix2 (-53)). destruct ln2_bounds as [L1 L2].
  assert (P1 : p / (1 - p) <= bpow radix2 53).
  { apply (Rmult_le_reg_r (1 - p)); [lra|]. unfold Rdiv. rewrite Rmult_assoc, Rinv_l, Rmult_1_r by lra. apply Rle_trans with 1; [lra|].
    replace 1 with (bpow radix2 53 * bpow radix2 (-53)) at 1 by (rewrite <- bpow_plus; reflexivity). apply Rmult_le_compat_l; [apply bpow_ge_0|lra]. }
  assert (P2 : bpow radix2 (-800) <= p / (1 - p)).
  { eapply Rle_trans; [exact A|]. apply (Rmult_le_reg_r (1 - p)); [lra|]. unfold Rdiv. rewrite (Rmult_assoc p), Rinv_l, Rmult_1_r by lra. nra. }
  split; [|lra]. unfold logit_of. apply Rabs_le. split.
  - apply Rle_trans with (ln (bpow radix2 (-800))); [rewrite ln_bpow; lra|apply ln_le; lra].
  - apply Rle_trans with (ln (bpow radix2 53)); [apply ln_le; lra|rewrite ln_bpow; lra].
Qed.
Lemma logit_parts p : is_num p -> bpow radix2 (-800) <= val p -> val p < 1 ->
  let P := val p in let lo := @log_odds F p in
  acc (c + 4) (odds_scale P) (logit_of P) lo /\ rel (odds_units c P) (P / (1 - P)) (l_exp L lo) /\
  rel (odds_units c P + 1) (/ (1 - P)) (f64_add (f64_of_Z 1) (l_exp L lo)) /\
  acc (c + 2 * (odds_units c P + 1)) (Rabs (ln (1 - P)) + 1) (- ln (1 - P)) (l_ln L (f64_add (f64_of_Z 1) (l_exp L lo))) /\
  1 <= odds_scale P <= 561 /\ 0 <= odds_units c P <= 1200000000 /\ Rabs (ln (1 - P)) <= 1075.
Proof.
  intros N A B P lo. pose proof (below_one p N B) as B'. fold P in A, B, B'. destruct (logit_range P (conj A B')) as (L1 & L2 & L3). pose proof (bpow_gt_0 radix2 (-800)) as Z. destruct one_num as [N1 V1]. sizes.
  assert (LS : 1 <= odds_scale P <= 561) by (unfold odds_scale; pose proof (Rabs_pos (logit_of P)); lra).
  assert (KE : 0 <= odds_units c P <= 1200000000).
  { unfold odds_units. split; [apply Rplus_le_le_0_compat; [lra|apply Rmult_le_pos; lra]|]. assert (2 * (c + 4) * odds_scale P <= 2 * 1000004 * 561) by (apply Rmult_le_compat; lra). lra. }
  assert (LQ : Rabs (ln (1 - P)) <= 1075) by (apply ln_one_minus; [exact N|fold P; lra]).
  assert (RQ : rel 1 (1 - P) (f64_sub (f64_of_Z 1) p)).
  { apply rel_diff'; try assumption; rewrite ?V1; [reflexivity|lra|]. rewrite !Rabs_pos_eq by (fold P; lra). fold P. lra. }
  assert (BB : bpow radix2 53 <= huge) by (apply bpow_le; lia).
  assert (RO : rel 2 (P / (1 - P)) (f64_div p (f64_sub (f64_of_Z 1) p))).
  { replace 2 with (0 + 1 + 1) by lra. apply rel_div; ks; [apply rel_is; [exact N|reflexivity|lra]|exact RQ|]. split; rewrite Rabs_pos_eq by lra; [|lra].
    eapply Rle_trans; [|exact L3]. unfold small. change 2 with (bpow radix2 1). rewrite <- bpow_plus. apply bpow_le. lia. }
  assert (A1 : acc (c + 4) (odds_scale P) (logit_of P) lo).
  { pose proof (acc_lnr c lg L LOK C0 2 _ _ RO ltac:(lra) ltac:(lra)) as T. replace (c + 4) with (c + 2 * 2) by ring. exact T. }
  assert (EO : exp (logit_of P) = P / (1 - P)) by (unfold logit_of; apply exp_ln; lra).
  assert (R1 : rel (odds_units c P) (P / (1 - P)) (l_exp L lo)).
  { rewrite <- EO. unfold odds_units. apply exp_acc; ks; [exact A1|].
    assert ((c + 4) * odds_scale P <= 1000004 * 561) by (apply Rmult_le_compat; lra). nra. }
  assert (R2 : rel (odds_units c P + 1) (/ (1 - P)) (f64_add (f64_of_Z 1) (l_exp L lo))).
  { replace (/ (1 - P)) with (1 + P / (1 - P)) by (field; lra). apply rel_add; ks; [|exact R1]. apply rel_more with 0; [apply rel_is; [exact N1|exact V1|lra]|lra]. }
  split; [exact A1|]. split; [exact R1|]. split; [exact R2|]. split; [|split; [exact LS|split; [exact KE|exact LQ]]].
  pose proof (acc_ln c lg L LOK (proj1 C0) (odds_units c P + 1) (/ (1 - P)) _ R2 ltac:(apply Rinv_0_lt_compat; lra) ltac:(lra) ltac:(apply keps; lra)) as T.
  rewrite ln_Rinv, Rabs_Ropp in T by lra. exact T.
Qed.
Lemma count_mul k j l m w : count_ok k -> acc j m l w -> 0 <= j <= 10000000000000 -> m <= 2000 ->
  acc (j + 1) (INR k * m + small) (INR k * l) (f64_mul (@nofn F k) w) /\ acc (j + 1) (INR k * m + small) (l * INR k) (f64_mul w (@nofn F k)) /\ 0 <= INR k * m <= huge.
Proof.
  intros K A J M. destruct (count_num L k K) as (N & V & B). sizes. pose proof (acc_pos _ _ _ _ A) as M0.
  assert (KM : INR k * m <= huge).
  { apply Rle_trans with (2000000000000 * 2000); [apply Rmult_le_compat; lra|]. apply Rle_trans with (bpow radix2 60); [change (bpow radix2 60) with 1152921504606846976; lra|apply bpow_le; lia]. }
  split; [|split; [|split; [apply Rmult_le_pos; lra|exact KM]]].
  - replace (j + 1) with (0 + j + 1) by ring. apply acc_mul; ks; [apply acc_count; exact K|exact A].
  - replace (j + 1) with (j + 0 + 1) by ring. rewrite (Rmult_comm (INR k) m). apply acc_mul; ks; [exact A|apply acc_count; exact K].
Qed.

(** Bernoulli. *)
Lemma bernoulli_fam_float p k : is_num p -> bpow radix2 (-800) <= val p -> val p < 1 -> (k <= 1)%nat ->
  acc (family_units c (val p)) (INR k * odds_scale (val p) + Rabs (ln (1 - val p)) + 2) (ln (bernoulli_pmf (val p) k)) (ef_density (bernoulli_expfam (@mkBernoulli F p)) k).
Proof.
  intros N A B K. pose proof (bpow_gt_0 radix2 (-800)). destruct (logit_parts p N A B) as (T1 & _ & _ & T2 & LS & KE & LQ). cbv zeta in *. sizes.
  change (ef_density (bernoulli_expfam (@mkBernoulli F p)) k) with
    (f64_add (f64_sub (f64_add (f64_of_Z 0) (f64_mul (@log_odds F p) (@nofn F k))) (l_ln L (f64_add (f64_of_Z 1) (l_exp L (@log_odds F p))))) (f64_of_Z 0)).
  assert (CK : count_ok k). { unfold count_ok. apply Rle_trans with (INR 1); [apply le_INR, K|]. change (bpow radix2 40) with 1099511627776. cbn; lra. }
  destruct (count_mul k _ _ _ _ CK T1 ltac:(lra) ltac:(lra)) as (_ & T3 & KM).
  replace (ln (bernoulli_pmf (val p) k)) with (logit_of (val p) * INR k - - ln (1 - val p) + 0).
  2:{ unfold logit_of. destruct k as [|[|k]]; [| |lia]; cbn [bernoulli_pmf INR]; [ring|]. unfold Rdiv. rewrite ln_mult, ln_Rinv by (try apply Rinv_0_lt_compat; lra). ring. }
  set (lq := ln (1 - val p)) in *. pose proof (Rabs_pos lq).
  assert (K5 : c + 4 + 1 <= c + 2 * (odds_units c (val p) + 1) + 3) by lra.
  eapply acc_more; [apply (ef_one (c + 2 * (odds_units c (val p) + 1) + 3)); [apply (acc_k (c + 4 + 1)); [exact T3|lra]|eapply acc_k; [exact T2|lra]|apply (acc_k 0); [exact acc_zero|lra]| |]|..]; unfold family_units; ks.
Qed.

Lemma fact_size k : count_ok k -> 0 <= ln (INR (fact k)) <= huge.
Proof. intros K. pose proof (fact_bound k). pose proof (fact_scale_pos k). pose proof (fact_scale_size L k K). lra. Qed.
Lemma count_le n k : count_ok n -> (k <= n)%nat -> count_ok k.
Proof. intros N K. unfold count_ok in *. pose proof (le_INR _ _ K). lra. Qed.

(** Binomial. *)
Lemma binomial_fam_float n p k : lg_factorial lg -> is_num p -> bpow radix2 (-800) <= val p -> val p < 1 -> (k <= n)%nat -> count_ok n ->
  acc (family_units c (val p)) (INR k * odds_scale (val p) + INR n * (Rabs (ln (1 - val p)) + 1) + (ln (INR (fact n)) + ln (INR (fact k)) + ln (INR (fact (n - k))) + 3) + 1)
    (ln (binomial_pmf n (val p) k)) (ef_density (binomial_expfam (@mkBinomial F n p)) k).
Proof.
  intros LF N A B K CN. pose proof (bpow_gt_0 radix2 (-800)). destruct (logit_parts p N A B) as (T1 & _ & _ & T2 & LS & KE & LQ). cbv zeta in *. sizes.
  pose proof (count_le n k CN K) as CK. pose proof (count_le n (n - k) CN ltac:(lia)) as CD.
  change (ef_density (binomial_expfam (@mkBinomial F n p)) k) with
    (f64_add (f64_sub (f64_add (f64_of_Z 0) (f64_mul (@log_odds F p) (@nofn F k))) (f64_mul (@nofn F n) (l_ln L (f64_add (f64_of_Z 1) (l_exp L (@log_odds F p))))))
      (b_ld (@binomial_measure F n) k)).
  unfold binomial_measure. cbn [b_ld]. replace (Nat.ltb n k) with false by (symmetry; apply Nat.ltb_ge, K).
  destruct (count_mul k _ _ _ _ CK T1 ltac:(lra) ltac:(lra)) as (_ & T3 & KM).
  destruct (count_mul n _ _ _ _ CN T2 ltac:(lra) ltac:(lra)) as (T4 & _ & KN).
  pose proof (binomial_coefficient_float c lg L LOK C0 n k LF CN K) as T5.
  pose proof (fact_size n CN). pose proof (fact_size k CK). pose proof (fact_size _ CD).
  replace (ln (binomial_pmf n (val p) k)) with (logit_of (val p) * INR k - INR n * - ln (1 - val p) + ln (Binomial.C n k)).
  2:{ rewrite ln_binomial_pmf by (try lra; exact K). unfold logit_of, Rdiv. rewrite ln_mult, ln_Rinv by (try apply Rinv_0_lt_compat; lra). ring. }
  set (lq := Rabs (ln (1 - val p))) in *.
  eapply acc_more; [apply (ef_one (c + 2 * (odds_units c (val p) + 1) + 3)); [apply (acc_k (c + 4 + 1)); [exact T3|lra]|eapply acc_k; [exact T4|lra]|apply (acc_k (c + 2)); [exact T5|lra]| |]|..]; unfold family_units; ks.
Qed.

(** Poisson. *)
Lemma poisson_fam_float rate k : is_num rate -> 0 < val rate <= huge -> count_ok k ->
  acc (c + 63) (INR k * (Rabs (ln (val rate)) + 1) + val rate + fact_scale k + 1) (ln (poisson_pmf (val rate) k)) (ef_density (poisson_expfam (@mkPoisson F rate)) k).
Proof.
  intros N P K. sizes. rewrite ln_poisson_pmf by apply P.
  change (ef_density (poisson_expfam (@mkPoisson F rate)) k) with
    (f64_add (f64_sub (f64_add (f64_of_Z 0) (f64_mul (l_ln L rate) (@nofn F k))) rate) (SFopp (@log_factorial F k))).
  pose proof (ln_any rate N ltac:(lra)) as L1. pose proof (acc_lnx c lg L LOK rate N ltac:(lra)) as T0.
  destruct (count_mul k c (ln (val rate)) (Rabs (ln (val rate)) + 1) (l_ln L rate) K) as (_ & T1 & KM); [eapply acc_more; [exact T0|lra|lra]|lra|lra|].
  pose proof (acc_neg _ _ _ _ (log_factorial_float c lg L LOK C0 k K)) as T2. pose proof (fact_scale_size L k K). pose proof (fact_scale_pos k). pose proof (fact_bound k).
  replace (INR k * ln (val rate) - val rate - ln (INR (fact k))) with (ln (val rate) * INR k - val rate + - ln (INR (fact k))) by ring.
  replace (c + 63) with (c + 60 + 3) by ring.
  eapply acc_more; [apply (ef_one (c + 60)); [apply (acc_k (c + 1)); [exact T1|lra]|apply (acc_k 0); [apply (acc_is rate (val rate) (val rate) N eq_refl); rewrite Rabs_pos_eq; lra|lra]|exact T2| |]|..]; ks.
Qed.

(** Geometric: one extra failure is counted. *)
Lemma geometric_fam_float p k : is_num p -> 0 < val p < 1 -> (1 <= k)%nat -> count_ok k ->
  acc (c + 6) (INR k * (Rabs (ln (1 - val p)) + 1) + Rabs (ln (val p)) + 1) (ln (geometric_pmf (val p) k) + ln (1 - val p)) (ef_density (geometric_expfam (@mkGeometric F p)) k).
Proof.
  intros N P K1 K. sizes. destruct k as [|j]; [lia|]. rewrite ln_geometric_pmf by exact P.
  change (ef_density (geometric_expfam (@mkGeometric F p)) (S j)) with
    (f64_add (f64_sub (f64_add (f64_of_Z 0) (f64_mul (l_ln L (f64_sub (f64_of_Z 1) p)) (@nofn F (S j)))) (SFopp (l_ln L p))) (f64_of_Z 0)).
  pose proof (ln_any p N ltac:(lra)) as L1. pose proof (ln_one_minus p N P) as L2.
  pose proof (acc_ln_one_minus c lg L LOK C0 p N P) as T0. pose proof (acc_neg _ _ _ _ (acc_lnx c lg L LOK p N ltac:(lra))) as TP.
  destruct (count_mul (S j) _ _ _ _ K T0 ltac:(lra) ltac:(lra)) as (_ & T1 & KM).
  replace (INR j * ln (1 - val p) + ln (val p) + ln (1 - val p)) with (ln (1 - val p) * INR (S j) - - ln (val p) + 0) by (rewrite S_INR; ring).
  replace (c + 6) with (c + 2 + 1 + 3) by ring.
  eapply acc_more; [apply (ef_one (c + 2 + 1)); [exact T1|apply (acc_k c); [exact TP|lra]|apply (acc_k 0); [exact acc_zero|lra]| |]|..]; ks.
Qed.

(** Negative binomial: the partition goes through 1 - sigmoid, so the probability is kept away from one. *)
Lemma negbinomial_fam_float r p k : lg_factorial lg -> is_num p -> bpow radix2 (-800) <= val p <= 3 / 4 -> (0 < r)%nat -> count_ok (k + r) ->
  acc (neg_units c (val p)) (INR k * odds_scale (val p) + INR r * (Rabs (ln (1 - val p)) + 1) + (ln (INR (fact (k + r - 1))) + ln (INR (fact k)) + ln (INR (fact (r - 1))) + 3) + 1)
    (ln (negbinomial_pmf r (val p) k) - INR k * ln (1 - val p)) (ef_density (negbinomial_expfam (@mkNegBinomial F r p)) k).
Proof.
  intros LF N [A B] R0 CKR. pose proof (bpow_gt_0 radix2 (-800)). destruct (logit_parts p N A ltac:(lra)) as (T1 & E1 & E2 & _ & LS & KE & LQ). cbv zeta in *. sizes.
  destruct one_num as [N1 V1].
  pose proof (count_le _ k CKR ltac:(lia)) as CK. pose proof (count_le _ r CKR ltac:(lia)) as CR. pose proof (count_le _ (r - 1) CKR ltac:(lia)) as CR1. pose proof (count_le _ (k + r - 1) CKR ltac:(lia)) as CS.
  set (e := l_exp L (@log_odds F p)) in *. set (K := odds_units c (val p)) in *.
  change (ef_density (negbinomial_expfam (@mkNegBinomial F r p)) k) with
    (f64_add (f64_sub (f64_add (f64_of_Z 0) (f64_mul (@log_odds F p) (@nofn F k))) (f64_mul (SFopp (@nofn F r)) (l_ln L (f64_sub (f64_of_Z 1) (f64_div e (f64_add (f64_of_Z 1) e))))))
      (@log_negative_binomial_coefficient F r k)).
  assert (RS : rel (K + (K + 1) + 1) (val p) (f64_div e (f64_add (f64_of_Z 1) e))).
  { replace (val p) with (val p / (1 - val p) / / (1 - val p)) at 1 by (field; lra). apply rel_div; ks; [exact E1|exact E2|].
    replace (val p / (1 - val p) / / (1 - val p)) with (val p) by (field; lra). split; rewrite Rabs_pos_eq by lra; [|lra].
    eapply Rle_trans; [|exact A]. unfold small. change 2 with (bpow radix2 1). rewrite <- bpow_plus. apply bpow_le. lia. }
  set (s := f64_div e _) in *. apply rel_acc in RS; [|lra]. rewrite Rabs_pos_eq in RS by lra.
  assert (AQ : acc (2 * K + 3) (1 + val p) (1 - val p) (f64_sub (f64_of_Z 1) s)).
  { replace (2 * K + 3) with (K + (K + 1) + 1 + 1) by ring. apply acc_sub; ks; [|exact RS]. apply (acc_k 0); [|lra]. apply (acc_is _ 1 1 N1 V1). rewrite Rabs_R1. lra. }
  assert (AQ' : acc (7 * (2 * K + 3)) (1 - val p) (1 - val p) (f64_sub (f64_of_Z 1) s)).
  { destruct AQ as (NQ & _ & EQ). split; [exact NQ|]. split; [rewrite Rabs_pos_eq; lra|]. eapply Rle_trans; [exact EQ|].
    pose proof (gam_pos (2 * K + 3) ltac:(lra)) as GP. apply Rle_trans with (gam (2 * K + 3) * (7 * (1 - val p))); [apply Rmult_le_compat_l; lra|].
    rewrite <- Rmult_assoc. apply Rmult_le_compat_r; [lra|]. rewrite Rmult_comm.  apply gam_seven. lra. }
  apply rel_of_acc in AQ'; ks.
  pose proof (acc_ln c lg L LOK (proj1 C0) _ _ _ AQ' ltac:(lra) ltac:(lra) ltac:(apply keps; lra)) as T2.
  destruct (count_num L r CR) as (NR & VR & BR).
  assert (T4 : acc (c + 28 * (2 * K + 3) + 1) (INR r * (Rabs (ln (1 - val p)) + 1) + small) (- INR r * ln (1 - val p)) (f64_mul (SFopp (@nofn F r)) (l_ln L (f64_sub (f64_of_Z 1) s)))).
  { destruct (count_mul r _ _ _ _ CR T2 ltac:(lra) ltac:(lra)) as (_ & _ & KM). replace (c + 28 * (2 * K + 3) + 1) with (0 + (c + 2 * (2 * (7 * (2 * K + 3)))) + 1) by ring.
    apply acc_mul; ks; [|exact T2]. apply acc_neg, acc_count, CR. }
  destruct (count_mul r _ _ _ _ CR T2 ltac:(lra) ltac:(lra)) as (_ & _ & KR).
  destruct (count_mul k _ _ _ _ CK T1 ltac:(lra) ltac:(lra)) as (_ & T3 & KM).
  pose proof (negative_binomial_coefficient_float c lg L LOK C0 r k LF CR CK R0) as T5.
  pose proof (fact_size _ CS). pose proof (fact_size k CK). pose proof (fact_size _ CR1).
  replace (ln (negbinomial_pmf r (val p) k) - INR k * ln (1 - val p)) with (logit_of (val p) * INR k - - INR r * ln (1 - val p) + ln (Binomial.C (k + r - 1) k)).
  2:{ rewrite ln_negbinomial_pmf by (try lra; exact R0). unfold logit_of, Rdiv. rewrite ln_mult, ln_Rinv by (try apply Rinv_0_lt_compat; lra). ring. }
  set (lq := Rabs (ln (1 - val p))) in *.
  eapply acc_more; [apply (ef_one (c + 28 * (2 * K + 3) + 1)); [apply (acc_k (c + 4 + 1)); [exact T3|lra]|exact T4|apply (acc_k (c + 2)); [exact T5|lra]| |]|..]; unfold neg_units; fold K; ks.
Qed.
End Fam.
