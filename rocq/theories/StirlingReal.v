(** Stirling's approximation of the logarithm of the gamma function on the
    positive reals: too small by at most 1/(12 a). *)
From Coquelicot Require Import Coquelicot.
From Coq Require Import ZArith Reals Lia Lra.
From Verif Require Import Num CoreModel CoreSpec IntSpec Stirling GammaFun.
Local Open Scope R_scope.

Definition st (a : R) : R := (a - / 2) * ln a - a + / 2 * ln (2 * PI).
Definition st_step (a : R) : R := (a + / 2) * (ln (a + 1) - ln a) - 1.
Lemma st_next a : st (a + 1) - st a - ln a = st_step a.
Proof. unfold st, st_step. field. Qed.
Lemma st_step_bounds a : 0 < a -> 0 < st_step a <= / (12 * a) - / (12 * (a + 1)).
Proof.
  intros A. set (z := / (2 * a + 1)). assert (Z : 0 < z < 1).
  { unfold z. split; [apply Rinv_0_lt_compat; lra|]. rewrite <- Rinv_1. apply Rinv_lt_contravar; lra. }
  assert (E : ln (a + 1) - ln a = 2 * ath z).
  { unfold ath. replace ((1 + z) / (1 - z)) with ((a + 1) / a) by (unfold z; field; lra).
    unfold Rdiv. rewrite ln_mult, ln_Rinv by (try apply Rinv_0_lt_compat; lra). lra. }
  assert (W : z * (2 * a + 1) = 1) by (unfold z; field; lra).
  assert (H : st_step a = (2 * a + 1) * ath z - 1) by (unfold st_step; rewrite E; field).
  pose proof (ath_lower 2 z ltac:(lra)) as L. pose proof (ath_upper 1 z ltac:(lra)) as U.
  cbn [athp Nat.mul Nat.add] in L, U. replace (INR 1) with 1 in L, U by reflexivity. replace (INR 3) with 3 in L, U by (cbn; ring).
  rewrite H. split.
  - apply Rlt_le_trans with ((2 * a + 1) * (0 + z ^ 1 / 1 + z ^ 3 / 3) - 1); [|assert (0 < 2 * a + 1) by lra; nra].
    replace ((2 * a + 1) * (0 + z ^ 1 / 1 + z ^ 3 / 3) - 1) with ((z * (2 * a + 1)) * (1 + z ^ 2 / 3) - 1) by field.
    rewrite W. assert (0 < z ^ 2) by (apply pow_lt; lra). lra.
  - apply Rle_trans with ((2 * a + 1) * (0 + z ^ 1 / 1 + z ^ 3 / (3 * (1 - z * z))) - 1); [assert (0 < 2 * a + 1) by lra; nra|].
    right. unfold z. field. repeat split; try lra. nra.
Qed.
Section R.
Context (lg : R -> R) (HG : lg_is_log_gamma lg).
Definition gap (a : R) : R := lg a - st a.
Lemma gap_step a : 0 < a -> gap a = st_step a + gap (a + 1).
Proof. intros A. unfold gap. rewrite (lg_rec lg HG a A). pose proof (st_next a). lra. Qed.
Lemma gap_steps a n : 0 < a -> gap (a + INR n) <= gap a <= gap (a + INR n) + (/ (12 * a) - / (12 * (a + INR n))).
Proof.
  intros A. induction n as [|n IH]; [cbn; rewrite Rplus_0_r; lra|].
  pose proof (pos_INR n). pose proof (gap_step (a + INR n) ltac:(lra)) as G. pose proof (st_step_bounds (a + INR n) ltac:(lra)) as B.
  rewrite S_INR. replace (a + (INR n + 1)) with (a + INR n + 1) by ring. lra.
Qed.
Lemma ln_ratio n t : 0 < n -> 0 <= t <= 1 -> t / (n + t) <= ln (n + t) - ln n <= t / n.
Proof.
  intros N T. replace (ln (n + t) - ln n) with (ln ((n + t) / n)) by (unfold Rdiv; rewrite ln_mult, ln_Rinv by (try apply Rinv_0_lt_compat; lra); ring).
  assert (P : 0 < (n + t) / n) by (apply Rdiv_lt_0_compat; lra).
  split.
  - pose proof (exp_ineq1_le (- ln ((n + t) / n))) as E. rewrite exp_Ropp, exp_ln in E by exact P.
    replace (/ ((n + t) / n)) with (1 - t / (n + t)) in E by (field; lra). lra.
  - pose proof (exp_ineq1_le (ln ((n + t) / n))) as E. rewrite exp_ln in E by exact P.
    replace ((n + t) / n) with (1 + t / n) in E at 2 by (field; lra). lra.
Qed.
Lemma gap_nat n : (1 <= n)%nat -> Rabs (gap (INR n)) <= 2 / INR n.
Proof.
  intros N. unfold gap. destruct n as [|k]; [lia|]. rewrite S_INR at 1. rewrite (lg_nat lg HG k).
  replace (ln (INR (fact k))) with (ln (INR (fact (S k))) - ln (INR (S k))) by (rewrite ln_fact_S; ring).
  pose proof (stirling_bounds (S k) N) as B. pose proof (S4_bound (S k) N) as SB. unfold err, aa, lead in B.
  assert (P : 0 < INR (S k)) by (apply lt_0_INR; lia).
  assert (G : 1 <= INR (S k)) by (change 1 with (INR 1); apply le_INR, N).
  assert (T : T5 (INR (S k)) <= / INR (S k)).
  { unfold T5. apply Rinv_le_contravar; [exact P|]. assert (1 <= INR (S k) ^ 8) by (apply pow_R1_Rle, G).
    replace (1188 * INR (S k) ^ 9) with (INR (S k) * (1188 * INR (S k) ^ 8)) by ring. nra. }
  unfold st. replace (2 / INR (S k)) with (/ INR (S k) + / INR (S k)) by (field; lra).
  apply Rabs_le. revert SB. unfold Rabs. destruct Rcase_abs; intros; lra.
Qed.
Lemma gap_small n t : (1 <= n)%nat -> 0 <= t <= 1 -> Rabs (gap (INR n + t)) <= 4 / INR n.
Proof.
  intros N T. assert (P : 0 < INR n) by (apply lt_0_INR; lia).
  pose proof (gap_nat n N) as G.
  pose proof (ln_ratio (INR n) t P T) as [L1 L2].
  pose proof (lg_convex lg HG (INR n) (INR n + 1) (1 - t) P ltac:(lra) ltac:(lra)) as C1.
  replace ((1 - t) * INR n + (1 - (1 - t)) * (INR n + 1)) with (INR n + t) in C1 by ring. rewrite (lg_rec lg HG _ P) in C1.
  pose proof (lg_convex lg HG (INR n + t) (INR n + t + 1) t ltac:(lra) ltac:(lra) T) as C2.
  replace (t * (INR n + t) + (1 - t) * (INR n + t + 1)) with (INR n + 1) in C2 by ring. rewrite !(lg_rec lg HG) in C2 by lra.
  assert (D : st (INR n + t) - st (INR n) - t * ln (INR n) = (INR n + t - / 2) * (ln (INR n + t) - ln (INR n)) - t) by (unfold st; field).
  assert (I1 : 0 < / INR n) by (apply Rinv_0_lt_compat, P).
  assert (N1 : 1 <= INR n) by (change 1 with (INR 1); apply le_INR, N).
  assert (D1 : - / INR n <= (INR n + t - / 2) * (ln (INR n + t) - ln (INR n)) - t <= / INR n).
  { split.
    - apply Rle_trans with ((INR n + t - / 2) * (t / (INR n + t)) - t); [|assert (0 <= INR n + t - / 2) by lra; nra].
      replace ((INR n + t - / 2) * (t / (INR n + t)) - t) with (- (t / 2 * / (INR n + t))) by (field; lra).
      apply Ropp_le_contravar. apply Rle_trans with (1 * / (INR n + t)).
      + apply Rmult_le_compat_r; [left; apply Rinv_0_lt_compat; lra|lra].
      + rewrite Rmult_1_l. apply Rinv_le_contravar; lra.
    - apply Rle_trans with ((INR n + t - / 2) * (t / INR n) - t); [assert (0 <= INR n + t - / 2) by lra; nra|].
      replace ((INR n + t - / 2) * (t / INR n) - t) with (t * (t - / 2) * / INR n) by (field; lra).
      rewrite <- (Rmult_1_l (/ INR n)) at 2. apply Rmult_le_compat_r; [lra|]. nra. }
  assert (D2 : (1 - t) * (ln (INR n + t) - ln (INR n)) <= / INR n).
  { apply Rle_trans with (1 * (1 * / INR n)); [|lra]. apply Rmult_le_compat; try lra.
    - apply Rle_trans with (t / (INR n + t)); [|exact L1]. apply Rmult_le_pos; [lra|]. left. apply Rinv_0_lt_compat. lra.
    - apply Rle_trans with (t / INR n); [exact L2|]. apply Rmult_le_compat_r; lra. }
  unfold gap in *. replace (2 / INR n) with (2 * / INR n) in G by reflexivity. replace (4 / INR n) with (4 * / INR n) by reflexivity.
  apply Rabs_le. revert G. unfold Rabs. destruct Rcase_abs; intros; nra.
Qed.
Lemma gap_bounds a : 0 < a -> 0 < gap a <= / (12 * a).
Proof.
  intros A.
  assert (K : forall a, 0 < a -> 0 <= gap a <= / (12 * a)).
  { clear a A. intros a A.
    destruct (archimed a) as [A1 A2]. 
    assert (Sp : exists m t, 0 <= t <= 1 /\ a = INR m + t).
    { exists (Z.to_nat (up a - 1)), (a - (IZR (up a) - 1)). split; [lra|].
      assert (0 < up a)%Z by (apply lt_IZR; lra). rewrite INR_IZR_INZ, Z2Nat.id by lia. rewrite minus_IZR. ring. }
    destruct Sp as (m & t & T & Ea).
    assert (Far : forall n, (1 <= n)%nat -> Rabs (gap (a + INR n)) <= 4 / INR n).
    { intros n N. replace (a + INR n) with (INR (m + n) + t) by (rewrite plus_INR, Ea; ring).
      apply Rle_trans with (4 / INR (m + n)); [apply gap_small; [lia|exact T]|].
      apply Rmult_le_compat_l; [lra|]. apply Rinv_le_contravar; [apply lt_0_INR; lia|]. apply le_INR. lia. }
    split.
    - enough (- gap a <= 0) by lra. apply (small_le _ 4); [|lra]. intros n N. pose proof (gap_steps a n A) as [S1 S2]. pose proof (Far n N) as F.
      revert F. unfold Rabs. destruct Rcase_abs; lra.
    - enough (gap a - / (12 * a) <= 0) by lra. apply (small_le _ 4); [|lra]. intros n N. pose proof (gap_steps a n A) as [S1 S2]. pose proof (Far n N) as F.
      assert (0 < / (12 * (a + INR n))) by (apply Rinv_0_lt_compat; pose proof (pos_INR n); lra).
      revert F. unfold Rabs. destruct Rcase_abs; lra. }
  pose proof (K a A). pose proof (K (a + 1) ltac:(lra)). pose proof (gap_step a A). pose proof (st_step_bounds a A). lra.
Qed.
Theorem log_gamma_stirling a : 0 < a -> st a < lg a <= st a + / (12 * a).
Proof. intros A. pose proof (gap_bounds a A). unfold gap in *. lra. Qed.
End R.
