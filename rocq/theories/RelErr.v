(** A calculus of relative errors in binary64 (used for C54 and C55).
    [acc k m r w]: the number [w] differs from [r] by at most about [k] units
    (of [eps]) relative to the magnitude [m].  [rel k r w]: relative to [r]. *)
From Coq Require Import ZArith Reals Bool String List Lia Lra.
From Coq Require Import Floats.SpecFloat.
From Flocq Require Import Core IEEE754.BinarySingleNaN Relative Plus_error.
From Verif Require Import Num JitModel EggSpec LitFacts FloatErr JitBits JitAcc JitAcc2 AccSpec AccProofs RoundSpec RoundProofs.
Import ListNotations.
Local Open Scope R_scope.

#[local] Instance Hprec64 : FLX.Prec_gt_0 53 := eq_refl _.

Definition gam (k : R) : R := exp (k * eps) - 1.
Definition acc (k m r : R) (w : f64) : Prop := is_num w /\ Rabs r <= m /\ Rabs (val w - r) <= gam k * m.
Definition rel (k r : R) (w : f64) : Prop := is_num w /\ r <> 0 /\ exp (- (k * eps)) <= val w / r <= exp (k * eps).

Lemma u_eps : / 2 ^ 53 = eps / 2.
Proof. unfold eps. rewrite <- tech_pow_Rmult. field. Qed.
Lemma eps_small : eps <= / 1000000000000000.
Proof. unfold eps. apply Rinv_le_contravar; [lra|]. rewrite pow_IZR. apply IZR_le. vm_compute. discriminate. Qed.
Lemma up1 : 1 + / 2 ^ 53 <= exp eps.
Proof. rewrite u_eps. pose proof eps_pos. pose proof (exp_ineq1_le eps). lra. Qed.
Lemma down1 : exp (- eps) <= 1 - / 2 ^ 53.
Proof.
  rewrite u_eps, exp_Ropp. pose proof eps_pos. pose proof eps_small. pose proof (exp_ineq1_le eps).
  apply Rle_trans with (/ (1 + eps)); [apply Rinv_le_contravar; lra|].
  apply (Rmult_le_reg_l (1 + eps)); [lra|]. rewrite Rinv_r by lra. nra.
Qed.
Lemma gam_pos k : 0 <= k -> 0 <= gam k.
Proof. intros K. unfold gam. pose proof eps_pos. pose proof (exp_ineq1_le (k * eps)). nra. Qed.
Lemma gam_lin k : k * eps <= gam k.
Proof. unfold gam. pose proof (exp_ineq1_le (k * eps)). lra. Qed.
Lemma gam_mono k k' : k <= k' -> gam k <= gam k'.
Proof. intros K. unfold gam. pose proof eps_pos. assert (exp (k * eps) <= exp (k' * eps)) by (apply exp_le; nra). lra. Qed.
Lemma gam_up k : 0 <= k -> k * eps <= / 4 -> gam k <= 2 * k * eps.
Proof.
  intros K H. unfold gam. pose proof eps_pos. rewrite Rmult_assoc. set (t := k * eps) in *. assert (T : 0 <= t) by (unfold t; nra). clearbody t.
  assert (exp t <= / (1 - t)).
  { rewrite <- (Rinv_inv (exp t)). apply Rinv_le_contravar; [lra|]. rewrite <- exp_Ropp. pose proof (exp_ineq1_le (- t)). lra. }
  assert (/ (1 - t) <= 1 + 2 * t). { apply (Rmult_le_reg_l (1 - t)); [lra|]. rewrite Rinv_r by lra. nra. }
  lra.
Qed.
Lemma gam_bound k : 0 <= k -> k * eps <= / 4 -> gam k <= / 2.
Proof. intros K H. pose proof (gam_up k K H). lra. Qed.

Lemma acc_pos k m r w : acc k m r w -> 0 <= m.
Proof. intros (_ & M & _). pose proof (Rabs_pos r). lra. Qed.
Lemma acc_more k k' m m' r w : acc k m r w -> 0 <= k <= k' -> m <= m' -> acc k' m' r w.
Proof.
  intros H K M. pose proof (acc_pos _ _ _ _ H) as P. destruct H as (N & B & E). split; [exact N|]. split; [lra|].
  eapply Rle_trans; [exact E|]. apply Rmult_le_compat; [apply gam_pos; lra|exact P|apply gam_mono; lra|exact M].
Qed.
Lemma acc_exact w m : is_num w -> Rabs (val w) <= m -> acc 0 m (val w) w.
Proof.
  intros N M. split; [exact N|]. split; [exact M|]. rewrite Rminus_diag_eq, Rabs_R0 by reflexivity.
  apply Rmult_le_pos; [apply gam_pos; lra|]. pose proof (Rabs_pos (val w)). lra.
Qed.
Lemma acc_exact' w : is_num w -> acc 0 (Rabs (val w)) (val w) w.
Proof. intros N. apply acc_exact; [exact N|lra]. Qed.
Lemma acc_size k m r w : acc k m r w -> 0 <= k -> k * eps <= / 4 -> Rabs (val w) <= 2 * m.
Proof.
  intros H K S. pose proof (acc_pos _ _ _ _ H) as P. destruct H as (N & B & E). pose proof (gam_bound k K S).
  replace (val w) with (r + (val w - r)) by ring. eapply Rle_trans; [apply Rabs_triang|]. nra.
Qed.
Lemma acc_neg k m r w : acc k m r w -> acc k m (- r) (SFopp w).
Proof.
  intros (N & B & E). destruct (neg_num w N) as [N' V]. split; [exact N'|]. split; [rewrite Rabs_Ropp; exact B|].
  rewrite V. replace (- val w - - r) with (- (val w - r)) by ring. rewrite Rabs_Ropp. exact E.
Qed.

(** One rounding. *)
Lemma round_acc s r k m e : 0 <= k -> Rabs r <= m -> Rabs (s - r) <= gam k * m -> Rabs e <= / 2 ^ 53 ->
  Rabs (s * (1 + e) - r) <= gam (k + 1) * m.
Proof.
  intros K R S E. replace (s * (1 + e) - r) with ((s - r) * (1 + e) + r * e) by ring.
  pose proof (Rabs_pos r). pose proof (Rabs_pos e). pose proof (gam_pos k K). pose proof up1 as U.
  assert (U0 : 0 <= / 2 ^ 53) by (apply Rlt_le, Rinv_0_lt_compat, pow_lt; lra).
  assert (E1 : Rabs (1 + e) <= exp eps).
  { eapply Rle_trans; [apply Rabs_triang|]. rewrite (Rabs_pos_eq 1) by lra. lra. }
  eapply Rle_trans; [apply Rabs_triang|]. rewrite !Rabs_mult.
  assert (A : Rabs (s - r) * Rabs (1 + e) <= gam k * m * exp eps) by (apply Rmult_le_compat; try apply Rabs_pos; assumption).
  assert (B : Rabs r * Rabs e <= m * / 2 ^ 53) by (apply Rmult_le_compat; try apply Rabs_pos; assumption).
  assert (C : gam (k + 1) = exp (k * eps) * exp eps - 1) by (unfold gam; rewrite <- exp_plus; do 2 f_equal; ring).
  rewrite C. unfold gam in A. nra.
Qed.
Lemma big_ok : big <= bpow radix2 1023. Proof. apply bpow_le. lia. Qed.
Lemma big2 x : Rabs x <= 2 * big -> Rabs (RN x) < bpow radix2 1024.
Proof.
  intros H. apply (RN_small x 1001); [lia|]. eapply Rle_trans; [exact H|]. unfold big. change 2 with (bpow radix2 1).
  rewrite <- bpow_plus. apply bpow_le. lia.
Qed.
Lemma format_val w : is_num w -> generic_format radix2 (FLT_exp (-1074) 53) (val w).
Proof.
  intros [V _]. pose proof (RN_val w V) as E. rewrite <- E. apply generic_format_round; auto with typeclass_instances.
Qed.
Lemma bpow_eps : bpow radix2 (Z.opp 53 + 1) = eps.
Proof. unfold eps. rewrite pow_IZR. reflexivity. Qed.
Lemma RN_plus u v : is_num u -> is_num v -> exists e, Rabs e <= / 2 ^ 53 /\ RN (val u + val v) = (val u + val v) * (1 + e).
Proof.
  intros U V. destruct (FLT_plus_error_N_ex radix2 (-1074) 53 (fun t => negb (Z.even t)) _ _ (format_val u U) (format_val v V)) as (e & E & R).
  exists e. split; [|exact R]. eapply Rle_trans; [exact E|].
  assert (UR : u_ro radix2 53 = / 2 ^ 53).
  { unfold u_ro. rewrite bpow_eps, u_eps. lra. }
  rewrite UR. assert (0 < / 2 ^ 53) by (apply Rinv_0_lt_compat, pow_lt; lra).
  apply (Rmult_le_reg_r (1 + / 2 ^ 53)); [lra|]. unfold Rdiv. rewrite Rmult_assoc, Rinv_l by lra. nra.
Qed.

Lemma acc_add k m1 m2 r1 r2 u v : acc k m1 r1 u -> acc k m2 r2 v -> 0 <= k -> k * eps <= / 4 -> m1 + m2 <= big ->
  acc (k + 1) (m1 + m2) (r1 + r2) (f64_add u v).
Proof.
  intros A B K S M. pose proof (acc_pos _ _ _ _ A) as P1. pose proof (acc_pos _ _ _ _ B) as P2.
  pose proof (acc_size _ _ _ _ A K S) as Z1. pose proof (acc_size _ _ _ _ B K S) as Z2.
  destruct A as (NU & R1 & U), B as (NV & R2 & V).
  destruct (add_num u v NU NV) as [N W].
  { apply big2. eapply Rle_trans; [apply Rabs_triang|]. lra. }
  split; [exact N|]. split; [eapply Rle_trans; [apply Rabs_triang|]; lra|]. rewrite W.
  destruct (RN_plus u v NU NV) as (e & E & ->). apply round_acc; [exact K|eapply Rle_trans; [apply Rabs_triang|]; lra| |exact E].
  replace (val u + val v - (r1 + r2)) with ((val u - r1) + (val v - r2)) by ring. eapply Rle_trans; [apply Rabs_triang|]. lra.
Qed.
Lemma sub_as_add u v : is_num u -> is_num v -> Rabs (RN (val u - val v)) < bpow radix2 1024 ->
  is_num (f64_sub u v) /\ val (f64_sub u v) = val (f64_add u (SFopp v)).
Proof.
  intros NU NV H. destruct (sub_num u v NU NV H) as [N W]. split; [exact N|]. destruct (neg_num v NV) as [N' V'].
  destruct (add_num u (SFopp v) NU N') as [_ W']; [rewrite V'; exact H|]. rewrite W, W', V'. reflexivity.
Qed.
Lemma acc_sub k m1 m2 r1 r2 u v : acc k m1 r1 u -> acc k m2 r2 v -> 0 <= k -> k * eps <= / 4 -> m1 + m2 <= big ->
  acc (k + 1) (m1 + m2) (r1 - r2) (f64_sub u v).
Proof.
  intros A B K S M. pose proof (acc_size _ _ _ _ A K S) as Z1. pose proof (acc_size _ _ _ _ B K S) as Z2.
  destruct (acc_add k m1 m2 r1 (- r2) u (SFopp v) A (acc_neg _ _ _ _ B) K S M) as (_ & R & E).
  destruct A as (NU & _), B as (NV & _). destruct (sub_as_add u v NU NV) as [N W].
  { apply big2. unfold Rminus. eapply Rle_trans; [apply Rabs_triang|]. rewrite Rabs_Ropp. lra. }
  split; [exact N|]. split; [exact R|]. rewrite W. exact E.
Qed.

(** A rounding that may underflow. *)
Lemma round_small s r k m : 0 <= k -> Rabs r <= m -> Rabs (s - r) <= gam k * m -> Rabs (RN s - r) <= gam (k + 1) * (m + small).
Proof.
  intros K R S. destruct (RN_err s) as (e & d & -> & E & D). replace (s * (1 + e) + d - r) with ((s * (1 + e) - r) + d) by ring.
  eapply Rle_trans; [apply Rabs_triang|]. rewrite (Rmult_plus_distr_l (gam _)). apply Rplus_le_compat; [apply round_acc; assumption|].
  eapply Rle_trans; [exact D|]. pose proof (gam_lin (k + 1)). pose proof small_pos. pose proof eps_pos.
  apply Rle_trans with (eps * small); [|apply Rmult_le_compat_r; nra].
  unfold eps, small. replace (/ 2 ^ 52) with (bpow radix2 (-52)).
  + rewrite <- bpow_plus. apply bpow_le. lia.
  + change (bpow radix2 (-52)) with (/ IZR (2 ^ 52)). rewrite pow_IZR. reflexivity.
Qed.
Lemma gam_prod k l : 1 + gam (k + l) = (1 + gam k) * (1 + gam l).
Proof. unfold gam. replace ((k + l) * eps) with (k * eps + l * eps) by ring. rewrite exp_plus. ring. Qed.
Lemma acc_mul k l m1 m2 r1 r2 u v : acc k m1 r1 u -> acc l m2 r2 v -> 0 <= k -> 0 <= l -> (k + l) * eps <= / 4 -> m1 * m2 <= big ->
  acc (k + l + 1) (m1 * m2 + small) (r1 * r2) (f64_mul u v).
Proof.
  intros A B K L S M. pose proof (acc_pos _ _ _ _ A) as P1. pose proof (acc_pos _ _ _ _ B) as P2. pose proof eps_pos as EP.
  destruct A as (NU & R1 & U), B as (NV & R2 & V).
  pose proof (gam_pos k K) as GK. pose proof (gam_pos l L) as GL. pose proof (gam_prod k l) as GP.
  assert (R12 : Rabs (r1 * r2) <= m1 * m2) by (rewrite Rabs_mult; apply Rmult_le_compat; try apply Rabs_pos; assumption).
  assert (D : Rabs (val u * val v - r1 * r2) <= gam (k + l) * (m1 * m2)).
  { replace (val u * val v - r1 * r2) with ((val u - r1) * r2 + r1 * (val v - r2) + (val u - r1) * (val v - r2)) by ring.
    eapply Rle_trans; [apply Rabs_triang|].
    assert (T1 : Rabs ((val u - r1) * r2) <= gam k * m1 * m2) by (rewrite Rabs_mult; apply Rmult_le_compat; try apply Rabs_pos; assumption).
    assert (T2 : Rabs (r1 * (val v - r2)) <= m1 * (gam l * m2)) by (rewrite Rabs_mult; apply Rmult_le_compat; try apply Rabs_pos; assumption).
    assert (T3 : Rabs ((val u - r1) * (val v - r2)) <= gam k * m1 * (gam l * m2)) by (rewrite Rabs_mult; apply Rmult_le_compat; try apply Rabs_pos; assumption).
    pose proof (Rabs_triang ((val u - r1) * r2) (r1 * (val v - r2))).
    replace (gam (k + l)) with (gam k + gam l + gam k * gam l) by lra. nra. }
  assert (P12 : 0 <= m1 * m2) by (apply Rmult_le_pos; assumption).
  assert (GB : gam (k + l) <= / 2) by (apply gam_bound; lra).
  destruct (mul_num u v NU NV) as [N W].
  { apply big2. replace (val u * val v) with (r1 * r2 + (val u * val v - r1 * r2)) by ring. eapply Rle_trans; [apply Rabs_triang|]. nra. }
  split; [exact N|]. pose proof small_pos. split; [lra|]. rewrite W. apply round_small; [lra|exact R12|exact D].
Qed.

(** * Relative *)
Lemma rel_exact w : is_num w -> val w <> 0 -> rel 0 (val w) w.
Proof.
  intros N Z. split; [exact N|]. split; [exact Z|]. replace (val w / val w) with 1 by (field; exact Z).
  rewrite Rmult_0_l, Ropp_0, exp_0. lra.
Qed.
Lemma rel_more k k' r w : rel k r w -> k <= k' -> rel k' r w.
Proof.
  intros (N & Z & A & B) K. pose proof eps_pos. split; [exact N|]. split; [exact Z|].
  split; [eapply Rle_trans; [|exact A]|eapply Rle_trans; [exact B|]]; apply exp_le; nra.
Qed.
Lemma rel_acc k r w : 0 <= k -> rel k r w -> acc k (Rabs r) r w.
Proof.
  intros K (N & Z & A & B). split; [exact N|]. split; [lra|].
  replace (val w - r) with ((val w / r - 1) * r) by (field; exact Z). rewrite Rabs_mult. apply Rmult_le_compat_r; [apply Rabs_pos|].
  unfold gam. pose proof eps_pos. set (t := k * eps) in *. assert (0 <= t) by (unfold t; nra). clearbody t.
  assert (2 - exp t <= exp (- t)).
  { rewrite exp_Ropp. pose proof (exp_pos t). apply (Rmult_le_reg_r (exp t)); [lra|]. rewrite Rinv_l by lra. pose proof (Rle_0_sqr (exp t - 1)) as Q. unfold Rsqr in Q. lra. }
  apply Rabs_le. lra.
Qed.
Lemma rel_sign k r w : rel k r w -> 0 < r -> 0 < val w.
Proof.
  intros (N & Z & A & _) R. pose proof (exp_pos (- (k * eps))). replace (val w) with (val w / r * r) by (field; exact Z).
  apply Rmult_lt_0_compat; lra.
Qed.
Lemma rel_of_acc k r w : acc k r r w -> 0 < r -> 0 <= k -> k * eps <= / 4 -> rel (2 * k) r w.
Proof.
  intros (N & _ & E) R K S. split; [exact N|]. split; [lra|]. apply Rabs_le_inv in E. unfold gam in E.
  pose proof eps_pos. replace (2 * k * eps) with (k * eps + k * eps) by ring. set (t := k * eps) in *.
  assert (0 <= t) by (unfold t; nra). clearbody t.
  assert (X : exp t <= 1.5).
  { assert (G : gam (t / eps) <= / 2) by (apply gam_bound; [apply Rmult_le_pos; [lra|apply Rlt_le, Rinv_0_lt_compat; lra]|]; unfold Rdiv; rewrite Rmult_assoc, Rinv_l; lra).
    unfold gam, Rdiv in G. rewrite Rmult_assoc, Rinv_l, Rmult_1_r in G by lra. lra. }
  assert (1 <= exp t) by (pose proof (exp_ineq1_le t); lra).
  rewrite Ropp_plus_distr, !exp_plus, !exp_Ropp. split.
  - apply (Rmult_le_reg_r r); [exact R|]. unfold Rdiv. rewrite (Rmult_assoc (val w)), Rinv_l, Rmult_1_r by lra.
    apply Rle_trans with ((2 - exp t) * r); [|nra]. apply Rmult_le_compat_r; [lra|]. rewrite <- Rinv_mult.
    apply (Rmult_le_reg_r (exp t * exp t)); [nra|]. rewrite Rinv_l by nra.
    assert (Q : 0 <= (exp t - 1) * (1 - (exp t - 1) - (exp t - 1) * (exp t - 1))) by (apply Rmult_le_pos; nra). lra.
  - apply (Rmult_le_reg_r r); [exact R|]. unfold Rdiv. rewrite (Rmult_assoc (val w)), Rinv_l, Rmult_1_r by lra. nra.
Qed.
Lemma rel_neg k r w : rel k r w -> rel k (- r) (SFopp w).
Proof.
  intros (N & Z & B). destruct (neg_num w N) as [N' V]. split; [exact N'|]. split; [lra|]. rewrite V.
  replace (- val w / - r) with (val w / r) by (field; exact Z). exact B.
Qed.

Lemma acc_div k l m r1 r2 u v : acc k m r1 u -> rel l r2 v -> 0 <= k -> 0 <= l -> (k + l) * eps <= / 4 -> m / Rabs r2 <= big ->
  acc (k + l + 1) (m / Rabs r2 + small) (r1 / r2) (f64_div u v).
Proof.
  intros A B K L S M. pose proof (acc_pos _ _ _ _ A) as P1. pose proof eps_pos as EP. destruct A as (NU & R1 & U), B as (NV & Z & BL & BU).
  set (t := val v / r2) in *. pose proof (exp_pos (- (l * eps))) as EL.
  assert (T0 : 0 < t) by lra. assert (VT : val v = t * r2) by (unfold t; field; exact Z). clearbody t.
  assert (VZ : val v <> 0) by (rewrite VT; apply Rmult_integral_contrapositive_currified; lra).
  pose proof (Rabs_pos_lt r2 Z) as R2P.
  assert (I1 : / t <= exp (l * eps)).
  { rewrite <- (Rinv_inv (exp (l * eps))). rewrite <- exp_Ropp. apply Rinv_le_contravar; assumption. }
  assert (I2 : exp (- (l * eps)) <= / t) by (rewrite exp_Ropp; apply Rinv_le_contravar; assumption).
  assert (I3 : Rabs (/ t - 1) <= exp (l * eps) - 1).
  { assert (2 - exp (l * eps) <= exp (- (l * eps))).
    { rewrite exp_Ropp. pose proof (exp_pos (l * eps)). pose proof (exp_ineq1_le (l * eps)).
      apply (Rmult_le_reg_r (exp (l * eps))); [lra|]. rewrite Rinv_l by lra. pose proof (Rle_0_sqr (exp (l * eps) - 1)) as Q. unfold Rsqr in Q. lra. }
    apply Rabs_le. lra. }
  assert (R12 : Rabs (r1 / r2) <= m / Rabs r2).
  { unfold Rdiv. rewrite Rabs_mult, Rabs_inv. apply Rmult_le_compat_r; [apply Rlt_le, Rinv_0_lt_compat, R2P|exact R1]. }
  assert (D : Rabs (val u / val v - r1 / r2) <= gam (k + l) * (m / Rabs r2)).
  { replace (val u / val v - r1 / r2) with (((val u - r1) * / t + r1 * (/ t - 1)) / r2) by (rewrite VT; field; split; lra).
    unfold Rdiv. rewrite Rabs_mult, Rabs_inv, <- Rmult_assoc. apply Rmult_le_compat_r; [apply Rlt_le, Rinv_0_lt_compat, R2P|].
    eapply Rle_trans; [apply Rabs_triang|]. rewrite !Rabs_mult, (Rabs_pos_eq (/ t)) by (apply Rlt_le, Rinv_0_lt_compat, T0).
    assert (T1 : Rabs (val u - r1) * / t <= gam k * m * exp (l * eps)).
    { apply Rmult_le_compat; [apply Rabs_pos|apply Rlt_le, Rinv_0_lt_compat, T0|exact U|exact I1]. }
    assert (T2 : Rabs r1 * Rabs (/ t - 1) <= m * (exp (l * eps) - 1)) by (apply Rmult_le_compat; try apply Rabs_pos; assumption).
    pose proof (gam_prod k l) as GP. unfold gam in *. nra. }
  assert (M0 : 0 <= m / Rabs r2) by (apply Rmult_le_pos; [exact P1|apply Rlt_le, Rinv_0_lt_compat, R2P]).
  assert (GB : gam (k + l) <= / 2) by (apply gam_bound; lra).
  destruct (div_num u v NU NV VZ) as [N W].
  { apply big2. replace (val u / val v) with (r1 / r2 + (val u / val v - r1 / r2)) by ring. eapply Rle_trans; [apply Rabs_triang|]. nra. }
  split; [exact N|]. pose proof small_pos. split; [lra|]. rewrite W. apply round_small; [lra|exact R12|exact D].
Qed.

(** Products and quotients away from underflow. *)
Definition normal_range (r : R) : Prop := 2 * small <= Rabs r <= big.
Lemma RN_rel s : small <= Rabs s -> exists e, Rabs e <= / 2 ^ 53 /\ RN s = s * (1 + e).
Proof.
  intros H. destruct (relative_error_N_FLT_ex radix2 (-1074) 53 Hprec64 (fun t => negb (Z.even t)) s) as (e & E & R).
  - eapply Rle_trans; [|exact H]. apply bpow_le. lia.
  - exists e. split; [|exact R]. eapply Rle_trans; [exact E|]. right. rewrite bpow_eps, u_eps. lra.
Qed.
Lemma half_exp t : 0 <= t <= / 4 -> / 2 <= exp (- t) /\ exp t <= 2.
Proof.
  intros T. pose proof (exp_ineq1_le (- t)). split; [lra|]. rewrite <- (Ropp_involutive t), exp_Ropp.
  apply Rle_trans with (/ (3 / 4)); [apply Rinv_le_contravar; lra|lra].
Qed.
Lemma rel_round s r k : r <> 0 -> 0 <= k -> k * eps <= / 4 -> normal_range r ->
  exp (- (k * eps)) <= s / r <= exp (k * eps) ->
  Rabs (RN s) < bpow radix2 1024 /\ exp (- ((k + 1) * eps)) <= RN s / r <= exp ((k + 1) * eps).
Proof.
  intros Z K S [R1 R2] [A B]. pose proof eps_pos as EP. destruct (half_exp (k * eps) ltac:(split; [nra|exact S])) as [H1 H2].
  assert (SR : s = s / r * r) by (field; exact Z). pose proof (Rabs_pos r).
  assert (SA : Rabs s = s / r * Rabs r) by (rewrite SR at 1; rewrite Rabs_mult, Rabs_pos_eq by lra; reflexivity).
  split; [apply big2; rewrite SA; nra|].
  destruct (RN_rel s) as (e & E & ->); [rewrite SA; nra|].
  replace (s * (1 + e) / r) with (s / r * (1 + e)) by (field; exact Z). apply Rabs_le_inv in E. pose proof up1 as U1. pose proof down1 as D1.
  replace (- ((k + 1) * eps)) with (- (k * eps) + - eps) by ring. replace ((k + 1) * eps) with (k * eps + eps) by ring. rewrite !exp_plus.
  pose proof (exp_pos (- eps)). split; apply Rmult_le_compat; lra.
Qed.
Lemma rel_mul k l r1 r2 u v : rel k r1 u -> rel l r2 v -> 0 <= k -> 0 <= l -> (k + l) * eps <= / 4 -> normal_range (r1 * r2) ->
  rel (k + l + 1) (r1 * r2) (f64_mul u v).
Proof.
  intros (NU & Z1 & A1 & B1) (NV & Z2 & A2 & B2) K L S R.
  assert (Z : r1 * r2 <> 0) by (apply Rmult_integral_contrapositive_currified; assumption).
  destruct (rel_round (val u * val v) (r1 * r2) (k + l) Z ltac:(lra) S R) as [O W].
  - replace (val u * val v / (r1 * r2)) with (val u / r1 * (val v / r2)) by (field; split; assumption).
    replace (- ((k + l) * eps)) with (- (k * eps) + - (l * eps)) by ring. replace ((k + l) * eps) with (k * eps + l * eps) by ring. rewrite !exp_plus.
    pose proof (exp_pos (- (k * eps))). pose proof (exp_pos (- (l * eps))). split; apply Rmult_le_compat; lra.
  - destruct (mul_num u v NU NV O) as [N V]. split; [exact N|]. split; [exact Z|]. rewrite V. exact W.
Qed.
Lemma rel_div k l r1 r2 u v : rel k r1 u -> rel l r2 v -> 0 <= k -> 0 <= l -> (k + l) * eps <= / 4 -> normal_range (r1 / r2) ->
  rel (k + l + 1) (r1 / r2) (f64_div u v).
Proof.
  intros (NU & Z1 & A1 & B1) (NV & Z2 & A2 & B2) K L S R. pose proof (exp_pos (- (k * eps))) as E1. pose proof (exp_pos (- (l * eps))) as E2.
  assert (Z : r1 / r2 <> 0) by (apply Rmult_integral_contrapositive_currified; [exact Z1|apply Rinv_neq_0_compat, Z2]).
  assert (VZ : val v <> 0) by (intros E; rewrite E in A2; unfold Rdiv in A2; rewrite Rmult_0_l in A2; lra).
  destruct (rel_round (val u / val v) (r1 / r2) (k + l) Z ltac:(lra) S R) as [O W].
  - replace (val u / val v / (r1 / r2)) with (val u / r1 * / (val v / r2)) by (field; repeat split; assumption).
    replace (- ((k + l) * eps)) with (- (k * eps) + - (l * eps)) by ring. replace ((k + l) * eps) with (k * eps + l * eps) by ring. rewrite !exp_plus.
    assert (exp (- (l * eps)) <= / (val v / r2)) by (rewrite exp_Ropp; apply Rinv_le_contravar; lra).
    assert (/ (val v / r2) <= exp (l * eps)).
    { rewrite <- (Rinv_inv (exp (l * eps))), <- exp_Ropp. apply Rinv_le_contravar; lra. }
    split; apply Rmult_le_compat; lra.
  - destruct (div_num u v NU NV VZ O) as [N V]. split; [exact N|]. split; [exact Z|]. rewrite V. exact W.
Qed.
Lemma rel_add k r1 r2 u v : rel k r1 u -> rel k r2 v -> 0 < r1 -> 0 < r2 -> 0 <= k -> k * eps <= / 4 -> r1 + r2 <= big ->
  rel (k + 1) (r1 + r2) (f64_add u v).
Proof.
  intros (NU & Z1 & A1 & B1) (NV & Z2 & A2 & B2) P1 P2 K S M. pose proof eps_pos as EP. destruct (half_exp (k * eps) ltac:(split; [nra|exact S])) as [H1 H2].
  assert (U : val u = val u / r1 * r1) by (field; exact Z1). assert (V : val v = val v / r2 * r2) by (field; exact Z2).
  assert (L : exp (- (k * eps)) * (r1 + r2) <= val u + val v) by (rewrite U, V; nra).
  assert (H : val u + val v <= exp (k * eps) * (r1 + r2)) by (rewrite U, V; nra).
  destruct (add_num u v NU NV) as [N W].
  { apply big2. rewrite Rabs_pos_eq by nra. nra. }
  split; [exact N|]. split; [lra|]. rewrite W. destruct (RN_plus u v NU NV) as (e & E & ->). apply Rabs_le_inv in E.
  pose proof up1 as U1. pose proof down1 as D1. pose proof (exp_pos (- eps)).
  replace ((val u + val v) * (1 + e) / (r1 + r2)) with ((val u + val v) / (r1 + r2) * (1 + e)) by (field; lra).
  assert (L' : exp (- (k * eps)) <= (val u + val v) / (r1 + r2)).
  { apply (Rmult_le_reg_r (r1 + r2)); [lra|]. unfold Rdiv. rewrite (Rmult_assoc (val u + val v)), Rinv_l by lra. lra. }
  assert (H' : (val u + val v) / (r1 + r2) <= exp (k * eps)).
  { apply (Rmult_le_reg_r (r1 + r2)); [lra|]. unfold Rdiv. rewrite (Rmult_assoc (val u + val v)), Rinv_l by lra. lra. }
  replace (- ((k + 1) * eps)) with (- (k * eps) + - eps) by ring. replace ((k + 1) * eps) with (k * eps + eps) by ring. rewrite !exp_plus.
  split; apply Rmult_le_compat; lra.
Qed.
(** A difference of two numbers: one rounding. *)
Lemma rel_diff u v : is_num u -> is_num v -> val u <> val v -> Rabs (val u) + Rabs (val v) <= big ->
  rel 1 (val u - val v) (f64_sub u v).
Proof.
  intros NU NV D M. assert (O : Rabs (RN (val u - val v)) < bpow radix2 1024).
  { apply big2. unfold Rminus. eapply Rle_trans; [apply Rabs_triang|]. rewrite Rabs_Ropp. unfold big in *. pose proof (bpow_gt_0 radix2 1000). lra. }
  destruct (sub_num u v NU NV O) as [N W]. split; [exact N|]. split; [lra|]. rewrite W.
  destruct (neg_num v NV) as [N' V']. destruct (RN_plus u (SFopp v) NU N') as (e & E & R). rewrite V' in R. unfold Rminus. rewrite R.
  replace ((val u + - val v) * (1 + e) / (val u + - val v)) with (1 + e) by (field; lra). apply Rabs_le_inv in E.
  rewrite Rmult_1_l. pose proof up1. pose proof down1. lra.
Qed.

(** * Library calls *)
Section Lib.
Context (c : R) (lg : R -> R) (L : libm) (LOK : libm_ok c lg L) (C0 : 0 <= c) (C1 : c * eps <= / 4).

Lemma acc_ln_exact u : is_num u -> 0 < val u -> acc c (Rabs (ln (val u)) + small) (ln (val u)) (l_ln L u).
Proof.
  intros N P. destruct (ok_ln c lg L LOK u N P) as [N' W]. pose proof small_pos. pose proof (Rabs_pos (ln (val u))).
  split; [exact N'|]. split; [lra|]. eapply Rle_trans; [exact W|]. apply Rmult_le_compat_r; [lra|apply gam_lin].
Qed.
Lemma ln_rel k r u : rel k r u -> 0 < r -> Rabs (ln (val u) - ln r) <= k * eps.
Proof.
  intros R P. pose proof (rel_sign _ _ _ R P) as U. destruct R as (N & Z & A & B).
  replace (ln (val u) - ln r) with (ln (val u / r)).
  2:{ unfold Rdiv. rewrite ln_mult, ln_Rinv; [ring|exact P|exact U|apply Rinv_0_lt_compat, P]. }
  pose proof (exp_pos (- (k * eps))). set (t := val u / r) in *. assert (0 < t) by lra. clearbody t. apply Rabs_le.
  split; [rewrite <- (ln_exp (- (k * eps)))|rewrite <- (ln_exp (k * eps))].
  - destruct (Req_dec (exp (- (k * eps))) t) as [->|]; [lra|]. apply Rlt_le, ln_increasing; lra.
  - destruct (Req_dec t (exp (k * eps))) as [->|]; [lra|]. apply Rlt_le, ln_increasing; lra.
Qed.
Lemma acc_ln k r u : rel k r u -> 0 < r -> 0 <= k -> k * eps <= / 4 -> acc (c + 2 * k) (Rabs (ln r) + 1) (ln r) (l_ln L u).
Proof.
  intros R P K S. pose proof (ln_rel k r u R P) as D. pose proof (rel_sign _ _ _ R P) as U. destruct R as (N & _).
  destruct (ok_ln c lg L LOK u N U) as [N' W]. split; [exact N'|]. pose proof (Rabs_pos (ln r)) as LP. split; [lra|].
  assert (LU : Rabs (ln (val u)) <= Rabs (ln r) + k * eps).
  { replace (ln (val u)) with (ln r + (ln (val u) - ln r)) by ring. eapply Rle_trans; [apply Rabs_triang|]. lra. }
  pose proof eps_pos as EP. assert (SM : small <= / 4) by (change (/ 4) with (bpow radix2 (-2)); apply bpow_le; lia).
  assert (CE : 0 <= c * eps) by nra. assert (KE : 0 <= k * eps) by nra.
  apply Rle_trans with ((c + 2 * k) * eps * (Rabs (ln r) + 1)); [|apply Rmult_le_compat_r; [lra|apply gam_lin]].
  replace (val (l_ln L u) - ln r) with ((val (l_ln L u) - ln (val u)) + (ln (val u) - ln r)) by ring.
  eapply Rle_trans; [apply Rabs_triang|]. 
  apply Rle_trans with (c * eps * (Rabs (ln r) + / 4 + / 4) + k * eps).
  - apply Rplus_le_compat; [|exact D]. eapply Rle_trans; [exact W|]. apply Rmult_le_compat_l; lra.
  - nra.
Qed.
Lemma acc_lgamma u : is_num u -> 0 < val u -> Rabs (lg (val u)) <= big -> acc c (1 + Rabs (lg (val u))) (lg (val u)) (l_lgamma L u).
Proof.
  intros N P B. destruct (ok_lgamma c lg L LOK u N P B) as [N' W]. split; [exact N'|]. split; [pose proof (Rabs_pos (lg (val u))); lra|].
  eapply Rle_trans; [exact W|]. apply Rmult_le_compat_r; [pose proof (Rabs_pos (lg (val u))); lra|apply gam_lin].
Qed.
End Lib.
