(** Joint log-densities of samples in binary64 (C70): the remaining families and
    the cancellation of the normal family path. *)
From Coq Require Import ZArith Reals Bool String List Lia Lra.
From Coq Require Import Floats.SpecFloat.
From Flocq Require Import Core.
From Verif Require Import Num EggSpec LitFacts EggNum FloatFacts FloatErr JitAcc AccSpec AccProofs RoundSpec RoundProofs RelErr
  DensitySpec CoreModel CombModel ExpFamModel DistModel DistSpec DistFacts BuilderProofs DistProofs DistFloat SumFloat FamFloatSpec FamFloat FactFloat FamFloat2 FamFloat3 IidFloatSpec IidFloat IidFloat2.
Import ListNotations.
Local Open Scope R_scope.

(** Integers times a power of two are computed exactly. *)
Definition dyadic (n e : Z) (w : f64) : Prop := is_num w /\ val w = IZR n * bpow radix2 e.
Lemma dyadic_round n e : (Z.abs n < 2 ^ 53)%Z -> (-1074 <= e <= 900)%Z -> RN (IZR n * bpow radix2 e) = IZR n * bpow radix2 e /\ Rabs (IZR n * bpow radix2 e) < bpow radix2 1024.
Proof.
  intros A [B C]. split.
  - apply round_generic; [auto with typeclass_instances|]. apply generic_format_FLT. exists (Float radix2 n e); [reflexivity|exact A|exact B].
  - rewrite Rabs_mult, (Rabs_pos_eq (bpow radix2 e)) by apply bpow_ge_0. rewrite <- abs_IZR.
    apply Rlt_le_trans with (bpow radix2 53 * bpow radix2 e).
    + apply Rmult_lt_compat_r; [apply bpow_gt_0|]. change (bpow radix2 53) with (IZR (2 ^ 53)). apply IZR_lt, A.
    + rewrite <- bpow_plus. apply bpow_le. lia.
Qed.
Lemma dyadic_add a b e u v : dyadic a e u -> dyadic b e v -> (Z.abs (a + b) < 2 ^ 53)%Z -> (-1074 <= e <= 900)%Z -> dyadic (a + b) e (f64_add u v).
Proof.
  intros [NU U] [NV V] S E. destruct (dyadic_round _ _ S E) as [R B].
  assert (Q : val u + val v = IZR (a + b) * bpow radix2 e) by (rewrite U, V, plus_IZR; ring).
  destruct (add_num u v NU NV) as [N W]; [rewrite Q, R; exact B|]. split; [exact N|]. rewrite W, Q. exact R.
Qed.
Lemma dyadic_sub a b e u v : dyadic a e u -> dyadic b e v -> (Z.abs (a - b) < 2 ^ 53)%Z -> (-1074 <= e <= 900)%Z -> dyadic (a - b) e (f64_sub u v).
Proof.
  intros [NU U] [NV V] S E. destruct (dyadic_round _ _ S E) as [R B].
  assert (Q : val u - val v = IZR (a - b) * bpow radix2 e) by (rewrite U, V, minus_IZR; ring).
  destruct (sub_num u v NU NV) as [N W]; [rewrite Q, R; exact B|]. split; [exact N|]. rewrite W, Q. exact R.
Qed.
Lemma dyadic_mul a b e f u v : dyadic a e u -> dyadic b f v -> (Z.abs (a * b) < 2 ^ 53)%Z -> (-1074 <= e + f <= 900)%Z -> dyadic (a * b) (e + f) (f64_mul u v).
Proof.
  intros [NU U] [NV V] S E. destruct (dyadic_round _ _ S E) as [R B].
  assert (Q : val u * val v = IZR (a * b) * bpow radix2 (e + f)) by (rewrite U, V, mult_IZR, bpow_plus; ring).
  destruct (mul_num u v NU NV) as [N W]; [rewrite Q, R; exact B|]. split; [exact N|]. rewrite W, Q. exact R.
Qed.
Lemma dyadic_shift a e w : dyadic a (e + 1) w -> dyadic (2 * a) e w.
Proof. intros [N V]. split; [exact N|]. rewrite V, bpow_plus, mult_IZR. change (bpow radix2 1) with 2. ring. Qed.
Lemma dyadic_zero e : dyadic 0 e (f64_of_Z 0).
Proof. destruct zero_num as [N V]. split; [exact N|]. rewrite V. ring. Qed.
Lemma dyadic_sum u e n : dyadic 1 e u -> (Z.of_nat n < 2 ^ 53)%Z -> (-1074 <= e <= 900)%Z ->
  forall a w, dyadic a e w -> (0 <= a)%Z -> (a + Z.of_nat n < 2 ^ 53)%Z -> dyadic (a + Z.of_nat n) e (fold_left f64_add (repeat u n) w).
Proof.
  intros U N E. induction n as [|n IH]; intros a w W A B; [cbn [repeat fold_left]; replace (a + Z.of_nat 0)%Z with a by lia; exact W|].
  cbn [repeat fold_left]. replace (a + Z.of_nat (S n))%Z with (a + 1 + Z.of_nat n)%Z by lia. apply IH; try lia. apply dyadic_add; try assumption. lia.
Qed.
Lemma dyadic_zeros n : forall w, dyadic 0 0 w -> dyadic 0 0 (fold_left f64_add (repeat (f64_of_Z 0) n) w).
Proof. induction n as [|n IH]; intros w W; [exact W|]. cbn [repeat fold_left]. apply IH. apply (dyadic_add 0 0); try assumption; [apply dyadic_zero|lia|lia]. Qed.
Lemma map_repeat' {A B} (f : A -> B) x n : map f (repeat x n) = repeat (f x) n.
Proof. induction n as [|n IH]; [reflexivity|]. cbn [repeat map]. rewrite IH. reflexivity. Qed.

Section Fam.
Context (c : R) (lg : R -> R) (L : libm) (LOK : libm_ok c lg L) (C0 : 0 <= c <= 1000000).
Notation F := (F64 L).

(** Exponential. *)
Lemma exponential_family_iid_float rate xs : is_num rate -> 0 < val rate -> Forall is_num xs -> count_ok (length xs) ->
  (forall x, In x xs -> Rabs (val x) <= huge /\ val rate * Rabs (val x) <= huge) ->
  acc (c + 1 + INR (length xs) + 2) (Rsum (map (fun x => Rabs (ln (val rate)) + val rate * Rabs (val x) + 1) xs))
    (Rsum (map (fun x => - (val rate * val x) - ln (val rate)) xs)) (compute_iid (exponential_expfam (@mkExponential F rate)) xs).
Proof.
  intros NR P NX N BX. rewrite Forall_forall in NX. sizes. pose proof (ln_any rate NR P) as LR. pose proof (Rabs_pos (ln (val rate))).
  destruct (neg_num rate NR) as [N' V'].
  assert (SB : Rsum (map (fun x => Rabs (ln (val rate)) + val rate * Rabs (val x) + 1) xs) <= big).
  { replace (Rsum _) with (Rsum (map (fun x => val rate * Rabs (val x)) xs) + INR (length xs) * (Rabs (ln (val rate)) + 1)).
    2:{ rewrite <- Rsum_const with (k := Rabs (ln (val rate)) + 1), <- Rsum_plus. apply Rsum_ext. intros. ring. }
    assert (A : Rsum (map (fun x => val rate * Rabs (val x)) xs) <= INR (length xs) * huge).
    { rewrite <- Rsum_const. apply Rsum_le. intros x I. apply BX, I. }
    unfold count_ok in N. pose proof (pos_INR (length xs)).
    apply Rle_trans with (INR (length xs) * (2 * huge)); [nra|]. apply Rle_trans with (bpow radix2 40 * (2 * huge)); [apply Rmult_le_compat_r; lra|].
    unfold huge, big. change 2 with (bpow radix2 1). rewrite <- !bpow_plus. apply bpow_le. lia. }
  unfold exponential_expfam. cbn [e_rate].
  apply (sample_one L (SFopp rate) (l_ln L rate) (fun x => x) prim xs (c + 1) 0 (val rate) (- val rate) 0 (fun x => Rabs (val x)) (fun x => val x) c (Rabs (ln (val rate)) + small) (ln (val rate)) (fun _ => 0) (fun _ => 0)); try assumption; try lra.
  - apply acc_is; [exact N'|exact V'|]. rewrite Rabs_Ropp, Rabs_pos_eq; lra.
  - intros x I. apply acc_exact', NX, I.
  - apply (acc_lnx c lg L LOK); assumption.
  - intros x I. apply (acc_k 0); [exact acc_zero|lra].
  - intros x I. apply BX, I.
  - intros x I. lra.
  - intros x I. lra.
Qed.

(** Gamma. *)
Notation gamma_scale := (IidFloatSpec.gamma_scale lg).
Lemma gamma_family_iid_float a b xs : is_num a -> is_num b -> 0 < val a <= huge -> 0 < val b -> Rabs (lg (val a)) <= huge ->
  Forall is_num xs -> count_ok (length xs) -> (forall x, In x xs -> 0 < val x <= huge /\ val b * val x <= huge) ->
  Rsum (map (fun x => gamma_scale (val a) (val b) (val x)) xs) <= big ->
  acc (c + 3 + INR (length xs) + 3) (Rsum (map (fun x => gamma_scale (val a) (val b) (val x)) xs)) (Rsum (map (fun x => ln (gamma_pdf lg (val a) (val b) (val x))) xs))
    (compute_iid (gamma_expfam (@mkGamma F a b)) xs).
Proof.
  intros NA NB [A0 A1] B0 LG NX N BX M. rewrite Forall_forall in NX. destruct one_num as [N1 V1]. sizes. pose proof (ln_any b NB B0) as LB.
  set (lb := ln (val b)) in *. pose proof (Rabs_pos lb). pose proof (Rabs_pos (lg (val a))).
  assert (AM : Rabs (val a - 1) <= val a + 1) by (apply Rabs_le; lra). pose proof (Rabs_pos (val a - 1)).
  pose proof (mul_huge (val a) (Rabs lb + small) ltac:(lra) ltac:(lra)) as M1.
  assert (T1 : acc (c + 1) (val a * (Rabs lb + small) + small) (val a * lb) (f64_mul a (l_ln L b))).
  { replace (c + 1) with (0 + c + 1) by ring. apply acc_mul; ks; [|apply (acc_lnx c lg L LOK); assumption]. apply acc_is; try assumption; try reflexivity; rewrite Rabs_pos_eq; lra. }
  assert (T2 : acc (c + 2) (1 + Rabs (lg (val a)) + (val a * (Rabs lb + small) + small)) (lg (val a) - val a * lb) (f64_sub (l_lgamma L a) (f64_mul a (l_ln L b)))).
  { replace (c + 2) with (c + 1 + 1) by ring. apply acc_sub; ks; [apply (acc_k c); [apply (acc_lg c lg L LOK); assumption|lra]|exact T1]. }
  destruct (neg_num b NB) as [N' V'].
  unfold gamma_expfam. cbn [g_shape g_rate].
  apply (sample_two L (f64_sub a (f64_of_Z 1)) (SFopp b) _ (fun x => l_ln L x) (fun x => x) prim xs (c + 3) 1 (val a + 1) (val a - 1) 0 (val b) (- val b)
    c (fun x => Rabs (ln (val x)) + small) (fun x => ln (val x)) 0 (fun x => val x) (fun x => val x) (c + 2) (1 + Rabs (lg (val a)) + (val a * (Rabs lb + small) + small)) (lg (val a) - val a * lb)
    (fun _ => 0) (fun _ => 0)); try assumption; try lra.
  - apply acc_diff'; try assumption; rewrite ?V1; try lra. rewrite !Rabs_pos_eq; lra.
  - apply acc_is; [exact N'|exact V'|rewrite Rabs_Ropp, Rabs_pos_eq; lra].
  - intros x I. destruct (BX x I) as [B1 B2]. apply (acc_lnx c lg L LOK); [apply NX, I|lra].
  - intros x I. destruct (BX x I) as [B1 B2]. apply acc_is; [apply NX, I|reflexivity|]. rewrite Rabs_pos_eq; lra.
  - intros x I. apply (acc_k 0); [exact acc_zero|lra].
  - intros x I. destruct (BX x I) as [B1 B2]. pose proof (ln_any x (NX x I) ltac:(lra)). lra.
  - intros x I. destruct (BX x I) as [B1 B2]. lra.
  - intros x I. destruct (BX x I) as [B1 B2]. unfold gamma_scale. fold lb. pose proof (Rabs_pos (ln (val x))).
    assert ((val a + 1) * small <= (val a + 1) * 1) by (apply Rmult_le_compat_l; lra). assert (val a * small <= val a * 1) by (apply Rmult_le_compat_l; lra). lra.
  - intros x I. destruct (BX x I) as [B1 B2]. rewrite ln_gamma_pdf by lra. fold lb. ring.
Qed.

(** Beta. *)
Notation beta_scale := (IidFloatSpec.beta_scale lg).
Lemma beta_family_iid_float a b xs : is_num a -> is_num b -> 0 < val a <= huge -> 0 < val b <= huge ->
  val (f64_add a b) = val a + val b -> Rabs (lg (val a + val b)) <= huge -> Rabs (lg (val a)) <= huge -> Rabs (lg (val b)) <= huge ->
  Forall is_num xs -> count_ok (length xs) -> (forall x, In x xs -> 0 < val x < 1) ->
  Rsum (map (fun x => beta_scale (val a) (val b) (val x)) xs) <= big ->
  acc (c + 4 + INR (length xs) + 3) (Rsum (map (fun x => beta_scale (val a) (val b) (val x)) xs)) (Rsum (map (fun x => ln (beta_pdf lg (val a) (val b) (val x))) xs))
    (compute_iid (beta_expfam (@mkBeta F a b)) xs).
Proof.
  intros NA NB [A0 A1] [B0 B1] EX LAB LA LB NX N BX M. rewrite Forall_forall in NX. destruct one_num as [N1 V1]. sizes.
  assert (NS : is_num (f64_add a b)) by (apply add_num; try assumption; apply big2; rewrite Rabs_pos_eq; lra).
  pose proof (Rabs_pos (lg (val a))). pose proof (Rabs_pos (lg (val b))). pose proof (Rabs_pos (lg (val a + val b))).
  assert (AM : Rabs (val a - 1) <= val a + 1) by (apply Rabs_le; lra). assert (BM : Rabs (val b - 1) <= val b + 1) by (apply Rabs_le; lra).
  assert (T1 : acc (c + 2) (1 + Rabs (lg (val a)) + (1 + Rabs (lg (val b))) + (1 + Rabs (lg (val a + val b)))) (lg (val a) + lg (val b) - lg (val a + val b))
    (f64_sub (f64_add (l_lgamma L a) (l_lgamma L b)) (l_lgamma L (f64_add a b)))).
  { replace (c + 2) with (c + 1 + 1) by ring. apply acc_sub; ks.
    - apply acc_add; ks; apply (acc_lg c lg L LOK); assumption.
    - apply (acc_k c); [|lra]. rewrite <- EX. apply (acc_lg c lg L LOK); rewrite ?EX; try assumption. lra. }
  unfold beta_expfam. cbn [b_alpha b_beta].
  apply (sample_two L (f64_sub a (f64_of_Z 1)) (f64_sub b (f64_of_Z 1)) _ (fun x => l_ln L x) (fun x => l_ln L (f64_sub (f64_of_Z 1) x)) prim xs (c + 4) 1 (val a + 1) (val a - 1) 1 (val b + 1) (val b - 1)
    c (fun x => Rabs (ln (val x)) + small) (fun x => ln (val x)) (c + 2) (fun x => Rabs (ln (1 - val x)) + 1) (fun x => ln (1 - val x))
    (c + 2) (1 + Rabs (lg (val a)) + (1 + Rabs (lg (val b))) + (1 + Rabs (lg (val a + val b)))) (lg (val a) + lg (val b) - lg (val a + val b))
    (fun _ => 0) (fun _ => 0)); try assumption; try lra.
  - apply acc_diff'; try assumption; rewrite ?V1; try lra. rewrite !Rabs_pos_eq; lra.
  - apply acc_diff'; try assumption; rewrite ?V1; try lra. rewrite !Rabs_pos_eq; lra.
  - intros x I. apply (acc_lnx c lg L LOK); [apply NX, I|apply BX, I].
  - intros x I. apply (acc_ln_one_minus c lg L LOK C0 x (NX x I) (BX x I)).
  - intros x I. apply (acc_k 0); [exact acc_zero|lra].
  - intros x I. pose proof (ln_any x (NX x I) ltac:(apply BX, I)). lra.
  - intros x I. pose proof (ln_one_minus x (NX x I) (BX x I)). lra.
  - intros x I. unfold beta_scale. assert ((val a + 1) * small <= (val a + 1) * / 2) by (apply Rmult_le_compat_l; lra). lra.
  - intros x I. rewrite ln_beta_pdf by (apply BX, I). ring.
Qed.

(** Counts: Poisson, Bernoulli, geometric. *)
Lemma count_small k : count_ok k -> INR k <= huge.
Proof. intros K. destruct (count_num L k K) as (_ & _ & B). apply Rle_trans with (bpow radix2 41); [change (bpow radix2 41) with 2199023255552; lra|apply bpow_le; lia]. Qed.
Lemma poisson_family_iid_float rate ks : is_num rate -> 0 < val rate <= huge -> count_ok (length ks) -> (forall k, In k ks -> count_ok k) ->
  acc (c + 60 + INR (length ks) + 2) (Rsum (map (fun k => INR k * (Rabs (ln (val rate)) + 1) + val rate + fact_scale k + 1) ks)) (Rsum (map (fun k => ln (poisson_pmf (val rate) k)) ks))
    (compute_iid (poisson_expfam (@mkPoisson F rate)) ks).
Proof.
  intros NR P N CK. sizes. pose proof (ln_any rate NR ltac:(lra)) as L1. pose proof (Rabs_pos (ln (val rate))).
  assert (SB : Rsum (map (fun k => INR k * (Rabs (ln (val rate)) + 1) + val rate + fact_scale k + 1) ks) <= big).
  { eapply Rle_trans; [apply (Rsum_le _ (fun _ => 4 * huge))|].
    - intros k I. pose proof (fact_scale_size L k (CK k I)) as FS. destruct (count_num L k (CK k I)) as (_ & _ & B).
      assert (INR k * (Rabs (ln (val rate)) + 1) <= 2000000000000 * 1075) by (apply Rmult_le_compat; lra).
      assert (2000000000000 * 1075 <= huge) by (apply Rle_trans with (bpow radix2 60); [change (bpow radix2 60) with 1152921504606846976; lra|apply bpow_le; lia]). lra.
    - rewrite Rsum_const. unfold count_ok in N. apply Rle_trans with (bpow radix2 40 * (4 * huge)); [apply Rmult_le_compat_r; lra|].
      unfold huge, big. change 4 with (bpow radix2 2). rewrite <- !bpow_plus. apply bpow_le. lia. }
  unfold poisson_expfam. cbn [p_rate].
  apply (sample_one L (l_ln L rate) rate (fun k => @nofn F k) factorial_measure ks (c + 60) c (Rabs (ln (val rate)) + small) (ln (val rate)) 0 (fun k => INR k) (fun k => INR k) 0 (val rate) (val rate)
    fact_scale (fun k => - ln (INR (fact k)))); try assumption; try lra.
  - apply (acc_lnx c lg L LOK); [exact NR|lra].
  - intros k I. apply acc_count, CK, I.
  - apply acc_is; [exact NR|reflexivity|rewrite Rabs_pos_eq; lra].
  - intros k I. apply acc_neg, (log_factorial_float c lg L LOK C0 k), CK, I.
  - intros k I. apply count_small, CK, I.
  - intros k I. destruct (count_num L k (CK k I)) as (_ & _ & B).
    assert (small * INR k <= 1 * INR k) by (apply Rmult_le_compat_r; lra). lra.
  - intros k I. rewrite ln_poisson_pmf by apply P. ring.
Qed.
Lemma bernoulli_family_iid_float p ks : is_num p -> bpow radix2 (-800) <= val p -> val p < 1 -> count_ok (length ks) -> (forall k, In k ks -> (k <= 1)%nat) ->
  acc (family_units c (val p) + INR (length ks)) (Rsum (map (fun k => INR k * odds_scale (val p) + Rabs (ln (1 - val p)) + 2) ks)) (Rsum (map (fun k => ln (bernoulli_pmf (val p) k)) ks))
    (compute_iid (bernoulli_expfam (@mkBernoulli F p)) ks).
Proof.
  intros NP A B N K1. pose proof (bpow_gt_0 radix2 (-800)). destruct (logit_parts c lg L LOK C0 p NP A B) as (T1 & _ & _ & T2 & LS & KE & LQ). cbv zeta in *. sizes.
  assert (CK : forall k, In k ks -> count_ok k). { intros k I. unfold count_ok. apply Rle_trans with (INR 1); [apply le_INR, K1, I|]. change (bpow radix2 40) with 1099511627776. cbn; lra. }
  pose proof (Rabs_pos (ln (1 - val p))).
  assert (I1 : forall k, In k ks -> 0 <= INR k <= 1) by (intros k I; split; [apply pos_INR|change 1 with (INR 1); apply le_INR, K1, I]).
  assert (SB : Rsum (map (fun k => INR k * odds_scale (val p) + Rabs (ln (1 - val p)) + 2) ks) <= big).
  { apply sum_huge; [exact N|]. intros k I. specialize (I1 k I). assert (INR k * odds_scale (val p) <= 1 * 561) by (apply Rmult_le_compat; lra). lra. }
  unfold bernoulli_expfam. cbn [be_prob]. pose proof (pos_INR (length ks)). assert (NB : INR (length ks) <= 1099511627776) by exact N.
  apply (acc_k (c + 2 * (odds_units c (val p) + 1) + 3 + INR (length ks) + 2)); [|unfold family_units; lra].
  apply (sample_one L (@log_odds F p) _ (fun k => @nofn F k) prim ks (c + 2 * (odds_units c (val p) + 1) + 3) (c + 4) (odds_scale (val p)) (logit_of (val p)) 0 (fun k => INR k) (fun k => INR k)
    (c + 2 * (odds_units c (val p) + 1)) (Rabs (ln (1 - val p)) + 1) (- ln (1 - val p)) (fun _ => 0) (fun _ => 0)); try assumption; try lra.
  - intros k I. apply acc_count, CK, I.
  - intros k I. apply (acc_k 0); [exact acc_zero|lra].
  - intros k I. specialize (I1 k I). lra.
  - intros k I. lra.
  - intros k I. specialize (K1 k I). unfold logit_of. destruct k as [|[|k]]; [| |lia]; cbn [bernoulli_pmf INR]; [ring|]. unfold Rdiv. rewrite ln_mult, ln_Rinv by (try apply Rinv_0_lt_compat; lra). ring.
Qed.
Lemma geometric_family_iid_float p ks : is_num p -> 0 < val p < 1 -> count_ok (length ks) -> (forall k, In k ks -> (1 <= k)%nat /\ count_ok k) ->
  acc (c + 3 + INR (length ks) + 2) (Rsum (map (fun k => INR k * (Rabs (ln (1 - val p)) + 1) + Rabs (ln (val p)) + 1) ks))
    (Rsum (map (fun k => ln (geometric_pmf (val p) k) + ln (1 - val p)) ks)) (compute_iid (geometric_expfam (@mkGeometric F p)) ks).
Proof.
  intros NP P N CK. sizes. pose proof (ln_any p NP ltac:(lra)) as L1. pose proof (ln_one_minus p NP P) as L2.
  pose proof (acc_ln_one_minus c lg L LOK C0 p NP P) as T0. pose proof (acc_neg _ _ _ _ (acc_lnx c lg L LOK p NP ltac:(lra))) as TP.
  pose proof (Rabs_pos (ln (val p))). pose proof (Rabs_pos (ln (1 - val p))).
  assert (SB : Rsum (map (fun k => INR k * (Rabs (ln (1 - val p)) + 1) + Rabs (ln (val p)) + 1) ks) <= big).
  { apply sum_huge; [exact N|]. intros k I. destruct (CK k I) as [_ K]. destruct (count_num L k K) as (_ & _ & B).
    assert (INR k * (Rabs (ln (1 - val p)) + 1) <= 2000000000000 * 1076) by (apply Rmult_le_compat; lra).
    assert (3000000000000 * 1076 <= huge) by (apply Rle_trans with (bpow radix2 60); [change (bpow radix2 60) with 1152921504606846976; lra|apply bpow_le; lia]). lra. }
  unfold geometric_expfam. 
  apply (sample_one L (l_ln L (f64_sub (f64_of_Z 1) p)) (SFopp (l_ln L p)) (fun k => @nofn F k) prim ks (c + 3) (c + 2) (Rabs (ln (1 - val p)) + 1) (ln (1 - val p)) 0 (fun k => INR k) (fun k => INR k)
    c (Rabs (ln (val p)) + small) (- ln (val p)) (fun _ => 0) (fun _ => 0)); try assumption; try lra.
  - intros k I. apply acc_count, CK, I.
  - intros k I. apply (acc_k 0); [exact acc_zero|lra].
  - intros k I. apply count_small, CK, I.
  - intros k I. lra.
  - intros k I. destruct (CK k I) as [K1 _]. destruct k as [|j]; [lia|]. rewrite ln_geometric_pmf by exact P. rewrite S_INR. ring.
Qed.

(** The normal family path over n copies of an observation at the mean, 2^60
    standard deviations from the origin: zero, whatever n. *)
Lemma normal_iid_cancellation n : count_ok n ->
  val (compute_iid (normal_expfam (@mkNormal F far (f64_of_Z 1))) (repeat far n)) = 0.
Proof.
  intros CN. destruct n as [|n']; [cbn [repeat compute_iid]; apply zero_num|]. set (n := S n') in *.
  assert (ZN : (0 < Z.of_nat n <= 2 ^ 40)%Z).
  { split; [lia|]. apply le_IZR. rewrite <- INR_IZR_INZ. exact CN. }
  destruct far_val as [NF VF]. destruct top_val as [NT VT]. destruct one_num as [N1 V1]. sizes. pose proof pi_bounds as PB.
  replace (compute_iid (normal_expfam (@mkNormal F far (f64_of_Z 1))) (repeat far n)) with
    (let v := f64_mul (f64_of_Z 1) (f64_of_Z 1) in let inv := f64_div (f64_of_Z 1) v in
     f64_add (f64_sub (f64_add (f64_add (f64_of_Z 0) (f64_mul (f64_mul far inv) (fold_left f64_add (repeat far n) (f64_of_Z 0)))) (f64_mul (f64_mul (f64_dec (-5) 10) inv) (fold_left f64_add (repeat (f64_mul far far) n) (f64_of_Z 0))))
       (f64_mul (@nofn F n) (f64_add (f64_mul (l_ln L (f64_mul (f64_mul (f64_of_Z 2) f64_pi) v)) (f64_dec 5 10)) (f64_mul (f64_mul (f64_dec 5 10) (f64_mul far far)) inv)))) (fold_left f64_add (repeat (f64_of_Z 0) n) (f64_of_Z 0))).
  2:{ unfold compute_iid. destruct (repeat far n) as [|y ys] eqn:E; [discriminate|]. rewrite <- E. clear y ys E. cbv zeta. unfold normal_expfam, normal_variance. cbn [n_mean n_sd ef_dim ef_natural ef_stat ef_partition ef_base expfam]. unfold sum_sufficient_stats.
      cbn [repeat]. rewrite (stats_two L (fun x => x) (fun x => f64_mul x x)). rewrite !map_repeat', repeat_length. reflexivity. }
  cbv zeta. replace (f64_mul (f64_of_Z 1) (f64_of_Z 1)) with (f64_of_Z 1) by (vm_compute; reflexivity).
  replace (f64_div (f64_of_Z 1) (f64_of_Z 1)) with (f64_of_Z 1) by (vm_compute; reflexivity).
  replace (f64_mul far (f64_of_Z 1)) with far by (vm_compute; reflexivity).
  replace (f64_mul (f64_dec (-5) 10) (f64_of_Z 1)) with (f64_dec (-5) 10) by (vm_compute; reflexivity).
  replace (f64_mul (f64_mul (f64_dec 5 10) (f64_mul far far)) (f64_of_Z 1)) with top by (vm_compute; reflexivity).
  assert (MD : moderate (val (f64_of_Z 1))) by (rewrite V1; split; [change 1 with (bpow radix2 0); apply bpow_le; lia|change 1 with (bpow radix2 0); apply bpow_le; lia]).
  destruct (variance_parts c lg L LOK C0 (f64_of_Z 1) N1 MD) as (_ & _ & TL & _). cbv zeta in TL.
  replace (f64_mul (f64_of_Z 1) (f64_of_Z 1)) with (f64_of_Z 1) in TL by (vm_compute; reflexivity).
  set (lv := l_ln L _) in *. clearbody lv. rewrite V1, ln_1, Rabs_R0 in TL.
  replace (2 * 0 + 3) with 3 in TL by ring. replace (ln (2 * PI) + 2 * 0) with (ln (2 * PI)) in TL by ring.
  assert (LP : 15 / 10 <= ln (2 * PI) <= 2).
  { split; [|apply ln_two_pi]. rewrite <- (ln_exp (15 / 10)). apply ln_le; [apply exp_pos|]. pose proof (exp_pos (15 / 10)) as EP. pose proof exp_le_3 as E3. pose proof (exp_pos 1).
    assert (E : exp (15 / 10) * exp (15 / 10) = exp 1 * exp 1 * exp 1) by (rewrite <- !exp_plus; f_equal; lra).
    assert (exp 1 * exp 1 * exp 1 <= 27) by nra. nra. }
  destruct half_dec as [NH VH].
  assert (TH : acc (c + 10) 2 (ln (2 * PI) * (1 / 2)) (f64_mul lv (f64_dec 5 10))).
  { replace (c + 10) with (c + 8 + 1 + 1) by ring. apply (acc_more (c + 8 + 0 + 1) _ (3 * (1 / 2) + small)); [|lra|lra]. apply acc_mul; ks; [exact TL|]. apply (acc_is _ (1 / 2) (1 / 2) NH); [rewrite VH; lra|rewrite Rabs_pos_eq; lra]. }
  set (h := f64_mul lv _) in *. clearbody h. destruct TH as (NHH & _ & EH). pose proof (gam_up (c + 10) ltac:(lra) ltac:(apply keps; lra)) as G.
  assert (HB : 0 <= val h <= 1000).
  { assert (gam (c + 10) * 2 <= / 10) by nra. apply Rabs_le_inv in EH. lra. }
  assert (AB : dyadic 1 119 (f64_add h top)).
  { unfold dyadic. rewrite Rmult_1_l. rewrite <- (absorbed _ HB), <- VT. apply add_num; [exact NHH|exact NT|]. rewrite VT, absorbed by exact HB. rewrite Rabs_pos_eq by apply bpow_ge_0. apply bpow_lt. lia. }
  set (z := f64_add h top) in *. clearbody z.
  assert (DF : dyadic 1 60 far) by (split; [exact NF|rewrite VF; ring]).
  assert (DD : dyadic 1 120 (f64_mul far far)) by (apply (dyadic_mul 1 1 60 60); try assumption; lia).
  assert (DH : dyadic (-1) (-1) (f64_dec (-5) 10)).
  { destruct mhalf_dec as [NG VG]. split; [exact NG|]. rewrite VG. change (bpow radix2 (-1)) with (/ 2). lra. }
  assert (DN : dyadic (Z.of_nat n) 0 (@nofn F n)).
  { destruct (count_num L n CN) as (A & B & _). split; [exact A|]. rewrite B, INR_IZR_INZ. change (bpow radix2 0) with 1. ring. }
  pose proof (dyadic_sum far 60 n DF ltac:(lia) ltac:(lia) 0 _ (dyadic_zero 60) ltac:(lia) ltac:(lia)) as S1. rewrite Z.add_0_l in S1.
  pose proof (dyadic_sum _ 120 n DD ltac:(lia) ltac:(lia) 0 _ (dyadic_zero 120) ltac:(lia) ltac:(lia)) as S2. rewrite Z.add_0_l in S2.
  pose proof (dyadic_mul 1 _ 60 60 _ _ DF S1 ltac:(lia) ltac:(lia)) as P1. rewrite Z.mul_1_l in P1. change (60 + 60)%Z with (119 + 1)%Z in P1. apply dyadic_shift in P1.
  pose proof (dyadic_mul (-1) _ (-1) 120 _ _ DH S2 ltac:(lia) ltac:(lia)) as P2. change (-1 + 120)%Z with 119%Z in P2.
  pose proof (dyadic_add 0 _ 119 _ _ (dyadic_zero 119) P1 ltac:(lia) ltac:(lia)) as P3.
  pose proof (dyadic_add _ _ 119 _ _ P3 P2 ltac:(lia) ltac:(lia)) as P4.
  pose proof (dyadic_mul _ 1 0 119 _ _ DN AB ltac:(lia) ltac:(lia)) as P5. change (0 + 119)%Z with 119%Z in P5.
  pose proof (dyadic_sub _ _ 119 _ _ P4 P5 ltac:(lia) ltac:(lia)) as P6.
  match type of P6 with dyadic _ _ ?w => assert (P7 : dyadic 0 0 w) end.
  { destruct P6 as [N6 V6]. split; [exact N6|]. rewrite V6. replace (0 + 2 * Z.of_nat n + -1 * Z.of_nat n - Z.of_nat n * 1)%Z with 0%Z by lia. ring. }
  pose proof (dyadic_zeros n _ (dyadic_zero 0)) as P8.
  destruct (dyadic_add 0 0 0 _ _ P7 P8 ltac:(lia) ltac:(lia)) as [_ V]. refine (eq_trans V _). cbn [Z.add]. ring.
Qed.
Lemma far_density : ln (normal_pdf (val far) 1 (val far)) <= - 3 / 4.
Proof. apply (normal_cancellation c lg L LOK C0). Qed.
End Fam.

(** * The joint density *)
Lemma joint_sum {X} (f : X -> R) xs : (forall x, In x xs -> 0 < f x) -> Rsum (map (fun x => ln (f x)) xs) = joint_ln f xs.
Proof.
  unfold joint_ln. induction xs as [|x xs IH]; intros P; [cbn; symmetry; apply ln_1|].
  assert (Q : 0 < fold_right Rmult 1 (map f xs)).
  { clear IH. assert (P' : forall y, In y xs -> 0 < f y) by (intros y I; apply P; right; exact I). clear P. induction xs as [|y ys IH]; [cbn; lra|]. cbn [map fold_right].
    apply Rmult_lt_0_compat; [apply P'; left; reflexivity|apply IH; intros z I; apply P'; right; exact I]. }
  cbn [map fold_right]. rewrite Rsum_cons, IH, ln_mult; [reflexivity|apply P; left; reflexivity|exact Q|intros y I; apply P; right; exact I].
Qed.
Lemma joint_shift {X} (f g : X -> R) d xs : (forall x, In x xs -> 0 < f x) -> (forall x, In x xs -> g x = ln (f x) + d) ->
  Rsum (map g xs) = joint_ln f xs + INR (length xs) * d.
Proof.
  intros P G. rewrite <- joint_sum by exact P. clear P. induction xs as [|x xs IH]; [cbn; ring|].
  cbn [map length]. rewrite !Rsum_cons, S_INR, IH, (G x) by (try (intros y I; apply G; right; exact I); left; reflexivity). ring.
Qed.
Lemma poisson_pos r k : 0 < r -> 0 < poisson_pmf r k.
Proof. intros P. unfold poisson_pmf. apply Rmult_lt_0_compat; [apply Rmult_lt_0_compat; [apply pow_lt, P|apply exp_pos]|]. apply Rinv_0_lt_compat, INR_fact_lt_0. Qed.
Lemma bernoulli_pos p k : 0 < p < 1 -> (k <= 1)%nat -> 0 < bernoulli_pmf p k.
Proof. intros P K. destruct k as [|[|k]]; [cbn; lra|cbn; lra|lia]. Qed.
Lemma geometric_pos p k : 0 < p < 1 -> (1 <= k)%nat -> 0 < geometric_pmf p k.
Proof. intros P K. destruct k as [|k]; [lia|]. cbn. apply Rmult_lt_0_compat; [apply pow_lt; lra|lra]. Qed.
