(** Trips through natural parameters in binary64 (C62). *)
From Coq Require Import ZArith Reals Bool String List Lia Lra.
From Coq Require Import Floats.SpecFloat.
From Flocq Require Import Core.
From Verif Require Import Num EggSpec LitFacts FloatFacts FloatErr AccSpec RoundSpec RoundProofs RelErr
  DensitySpec CoreModel CombModel ExpFamModel DistModel DistSpec DistProofs DistFloat SumFloat CombFloatSpec FamFloatSpec FamFloat3 CombFloat CombFloat2 NatFloatSpec NatFloat PropsRound PropsFamFloat.
Import ListNotations.
Local Open Scope R_scope.

Lemma rel_within k r w : rel k r w -> 0 <= k <= 100000000000 -> within (2 * k) (Rabs r) r w.
Proof. intros R K. apply acc_within; [apply rel_acc; [lra|exact R]|lra|apply keps; lra]. Qed.
Lemma all_within k rs ws : Forall2 (rel k) rs ws -> 0 <= k <= 100000000000 -> Forall2 (fun r w => within (2 * k) (Rabs r) r w) rs ws.
Proof. intros F K. induction F; constructor; [apply rel_within; assumption|assumption]. Qed.

(** * C62: continuous families *)
Theorem C62_exponential_exact : forall L rate d, @exponential_new (F64 L) rate = Some d ->
  exponential_from_natural (to_natural (exponential_expfam d)) = Some d.
Proof. exact exponential_nat. Qed.
Print Assumptions C62_exponential_exact.
Theorem C62_normal : forall c lg L mu sd, libm_ok c lg L -> 0 <= c <= 1000000 -> is_num mu -> is_num sd -> moderate (val sd) -> at_most_moderate (val mu / val sd) ->
  exists mu' sd', normal_from_natural (to_natural (normal_expfam (@mkNormal (F64 L) mu sd))) = Some (@mkNormal (F64 L) mu' sd') /\
    within 18 (Rabs (val mu) + bpow radix2 (-150)) (val mu) mu' /\ within 10 (val sd) (val sd) sd'.
Proof.
  intros c lg L mu sd LOK C0 NM NS S M. destruct (normal_nat c lg L LOK C0 mu sd NM NS S M) as (m & s & E & A & R). exists m, s. split; [exact E|].
  pose proof (bpow_gt_0 radix2 (-400)). destruct S as [S _]. split.
  - replace 18 with (2 * 9) by lra. apply acc_within; [exact A|lra|apply keps; lra].
  - apply rel_within in R; [|lra]. rewrite (Rabs_pos_eq (val sd)) in R by lra. replace 10 with (2 * 5) by lra. exact R.
Qed.
Print Assumptions C62_normal.
Theorem C62_gamma : forall L a b, is_num a -> is_num b -> bpow radix2 (-45) <= val a <= huge -> 0 < val b ->
  exists a', gamma_from_natural (to_natural (gamma_expfam (@mkGamma (F64 L) a b))) = Some (@mkGamma (F64 L) a' b) /\
    within 4 (val a + 2) (val a) a'.
Proof.
  intros L a b NA NB A B. destruct (gamma_nat L a b NA NB A B) as (a' & E & T). exists a'. split; [exact E|]. replace 4 with (2 * 2) by lra. apply acc_within; [exact T|lra|apply keps; lra].
Qed.
Print Assumptions C62_gamma.
Theorem C62_beta : forall L a b, is_num a -> is_num b -> bpow radix2 (-45) <= val a <= huge -> bpow radix2 (-45) <= val b <= huge ->
  exists a' b', beta_from_natural (to_natural (beta_expfam (@mkBeta (F64 L) a b))) = Some (@mkBeta (F64 L) a' b') /\
    within 4 (val a + 2) (val a) a' /\ within 4 (val b + 2) (val b) b'.
Proof.
  intros L a b NA NB A B. destruct (beta_nat L a b NA NB A B) as (a' & b' & E & T & T'). exists a', b'. split; [exact E|]. replace 4 with (2 * 2) by lra.
  split; (apply acc_within; [assumption|lra|apply keps; lra]).
Qed.
Print Assumptions C62_beta.
Theorem C62_chi_squared : forall L k, is_num k -> bpow radix2 (-44) <= val k <= huge ->
  exists k', chi_from_natural (to_natural (chi_expfam (@mkChi (F64 L) k))) = Some (@mkChi (F64 L) k') /\ within 6 (val k + 5) (val k) k'.
Proof.
  intros L k NK K. destruct (chi_nat L k NK K) as (k' & E & T). exists k'. split; [exact E|]. replace 6 with (2 * 3) by lra. apply acc_within; [exact T|lra|apply keps; lra].
Qed.
Print Assumptions C62_chi_squared.

(** Shapes below 2^-54 vanish in [shape - 1]: the way back panics. *)
Theorem C62_small_shapes_refuted : forall L a b, is_num a -> 0 < val a < bpow radix2 (-54) ->
  gamma_from_natural (to_natural (gamma_expfam (@mkGamma (F64 L) a b))) = None /\
  beta_from_natural (to_natural (beta_expfam (@mkBeta (F64 L) a b))) = None.
Proof. intros L a b N A. split; [apply gamma_lost; assumption|apply beta_lost; assumption]. Qed.
Print Assumptions C62_small_shapes_refuted.
Theorem C62_small_degrees_refuted : forall L k, is_num k -> bpow radix2 (-1000) <= val k < bpow radix2 (-53) ->
  chi_from_natural (to_natural (chi_expfam (@mkChi (F64 L) k))) = None.
Proof. exact chi_lost. Qed.
Print Assumptions C62_small_degrees_refuted.

(** * C62: discrete families *)
Theorem C62_bernoulli : forall c lg L p, libm_ok c lg L -> 0 <= c <= 1000000 -> is_num p -> bpow radix2 (-800) <= val p < 1 ->
  exists p', bernoulli_from_natural (to_natural (bernoulli_expfam (@mkBernoulli (F64 L) p))) = Some (@mkBernoulli (F64 L) p') /\
    within (2 * prob_units c (val p)) (val p) (val p) p'.
Proof.
  intros c lg L p LOK C0 N [A B]. destruct (bernoulli_nat c lg L LOK C0 p N A B) as (p' & E & R). exists p'. split; [exact E|].
  destruct (FamFloat2.logit_parts c lg L LOK C0 p N A B) as (_ & _ & _ & _ & _ & KE & _). cbv zeta in KE. pose proof (bpow_gt_0 radix2 (-800)).
  apply rel_within in R; [|unfold prob_units; lra]. rewrite (Rabs_pos_eq (val p)) in R by lra. exact R.
Qed.
Print Assumptions C62_bernoulli.
(** Every natural parameter of size at most 600 gives the logistic function ... *)
Theorem C62_bernoulli_from_natural : forall c lg L e, libm_ok c lg L -> 0 <= c <= 1000000 -> is_num e -> Rabs (val e) <= 600 ->
  exists d, @bernoulli_from_natural (F64 L) [e] = Some d /\
    within (2 * (8 * c + 2)) (exp (val e) / (1 + exp (val e))) (exp (val e) / (1 + exp (val e))) (be_prob d).
Proof.
  intros c lg L e LOK C0 N B. destruct (bernoulli_logistic c lg L LOK C0 e N B) as (d & E & R). exists d. split; [exact E|]. unfold logistic in R.
  apply rel_within in R; [|lra]. pose proof (exp_pos (val e)). rewrite Rabs_pos_eq in R; [exact R|]. apply Rmult_le_pos; [lra|left; apply Rinv_0_lt_compat; lra].
Qed.
Print Assumptions C62_bernoulli_from_natural.
(** ... and every one whose exponential overflows panics, although the limit of
    the logistic function is 1; so do one-parameter categorical distributions. *)
Theorem C62_overflow_refuted : forall L e, l_exp L e = S754_infinity false ->
  @bernoulli_from_natural (F64 L) [e] = None /\ @categorical_from_natural (F64 L) [e] = None.
Proof. intros L e E. split; [apply bernoulli_overflow, E|apply categorical_overflow, E]. Qed.
Print Assumptions C62_overflow_refuted.

Theorem C62_poisson : forall c lg L r, libm_ok c lg L -> 0 <= c <= 1000000 -> is_num r -> bpow radix2 (-800) <= val r <= bpow radix2 800 ->
  exists r', poisson_from_natural (to_natural (poisson_expfam (@mkPoisson (F64 L) r))) = Some (@mkPoisson (F64 L) r') /\
    within (2 * rate_units c (val r)) (val r) (val r) r'.
Proof.
  intros c lg L r LOK C0 N A. destruct (poisson_nat c lg L LOK C0 r N A) as (r' & E & R). exists r'. split; [exact E|]. pose proof (bpow_gt_0 radix2 (-800)).
  assert (LB : Rabs (ln (val r)) <= 560).
  { destruct JitAcc.ln2_bounds as [L1 L2]. apply Rabs_le. split; [apply Rle_trans with (ln (bpow radix2 (-800))); [rewrite ln_bpow; lra|apply ln_le; lra]|apply Rle_trans with (ln (bpow radix2 800)); [apply ln_le; lra|rewrite ln_bpow; lra]]. }
  pose proof (Rabs_pos (ln (val r))). assert (0 <= c * (Rabs (ln (val r)) + 1) <= 1000000 * 561) by (split; [apply Rmult_le_pos; lra|apply Rmult_le_compat; lra]).
  apply rel_within in R; [|unfold rate_units; lra]. rewrite (Rabs_pos_eq (val r)) in R by lra. exact R.
Qed.
Print Assumptions C62_poisson.
Theorem C62_poisson_from_natural : forall c lg L e, libm_ok c lg L -> 0 <= c <= 1000000 -> is_num e -> Rabs (val e) <= 600 ->
  exists d, @poisson_from_natural (F64 L) [e] = Some d /\ within (2 * (4 * c)) (exp (val e)) (exp (val e)) (p_rate d).
Proof.
  intros c lg L e LOK C0 N B. destruct (poisson_exp c lg L LOK C0 e N B) as (d & E & R). exists d. split; [exact E|]. apply rel_within in R; [|lra].
  pose proof (exp_pos (val e)). rewrite (Rabs_pos_eq (exp (val e))) in R by lra. exact R.
Qed.
Print Assumptions C62_poisson_from_natural.
(** Overflow yields a Poisson distribution of infinite rate, underflow a panic. *)
Theorem C62_poisson_extremes_refuted : forall L e,
  (l_exp L e = S754_infinity false -> @poisson_from_natural (F64 L) [e] = Some (@mkPoisson (F64 L) (S754_infinity false))) /\
  (val (l_exp L e) = 0 -> is_num (l_exp L e) -> @poisson_from_natural (F64 L) [e] = None).
Proof. exact poisson_extremes. Qed.
Print Assumptions C62_poisson_extremes_refuted.

(** Geometric: an absolute error, since 1 - p loses the low digits of p. *)
Theorem C62_geometric : forall c lg L p, libm_ok c lg L -> 0 <= c <= 1000000 -> is_num p -> val p < 1 ->
  4 * fail_units c (val p) * eps < val p ->
  exists p', geometric_from_natural (to_natural (geometric_expfam (@mkGeometric (F64 L) p))) = Some (@mkGeometric (F64 L) p') /\
    within (2 * fail_units c (val p)) 2 (val p) p'.
Proof.
  intros c lg L p LOK C0 N B S. destruct (geometric_nat c lg L LOK C0 p N B S) as (p' & E & A). exists p'. split; [exact E|].
  assert (F0 : 0 <= fail_units c (val p)).
  { unfold fail_units. pose proof (Rabs_pos (ln (1 - val p))). assert (0 <= (c + 2) * (Rabs (ln (1 - val p)) + 1)) by (apply Rmult_le_pos; lra). lra. }
  apply acc_within; [exact A|exact F0|]. lra.
Qed.
Print Assumptions C62_geometric.
Theorem C62_geometric_small_refuted : forall L p, is_num p -> 0 < val p < bpow radix2 (-54) -> l_exp L (l_ln L (f64_of_Z 1)) = f64_of_Z 1 ->
  geometric_from_natural (to_natural (geometric_expfam (@mkGeometric (F64 L) p))) = None.
Proof. exact geometric_lost. Qed.
Print Assumptions C62_geometric_small_refuted.

(** * C62: categorical *)
(** The constructor's tolerance, decided in binary64. *)
Theorem C62_categorical_accepts : forall L (ps : list f64), ps <> [] -> INR (length ps) <= 10000 ->
  Forall (fun w => is_num w /\ 0 <= val w) ps -> Rabs (Rsum (map val ps) - 1) <= 9 / 10 ^ 11 ->
  @categorical_new (F64 L) ps = Some (@mkCategorical (F64 L) ps).
Proof. exact cat_accepts. Qed.
Print Assumptions C62_categorical_accepts.
Theorem C62_categorical_rejects : forall L (ps : list f64), INR (length ps) <= 10000 -> Rsum (map val ps) <= huge / 2 ->
  Forall (fun w => is_num w /\ 0 <= val w) ps -> 11 / 10 ^ 11 <= Rabs (Rsum (map val ps) - 1) -> @categorical_new (F64 L) ps = None.
Proof. exact cat_rejects. Qed.
Print Assumptions C62_categorical_rejects.
Theorem C62_uniform : forall L k, (1 <= k)%nat -> INR k <= 200000 ->
  exists w, @categorical_uniform (F64 L) k = Some (@mkCategorical (F64 L) (repeat w k)) /\ within 2 (/ INR k) (/ INR k) w.
Proof.
  intros L k K B. destruct (cat_uniform L k K B) as (w & E & R). exists w. split; [exact E|]. apply rel_within in R; [|lra].
  assert (0 < / INR k) by (apply Rinv_0_lt_compat, lt_0_INR; lia). rewrite (Rabs_pos_eq (/ INR k)) in R by lra. replace 2 with (2 * 1) by lra. exact R.
Qed.
Print Assumptions C62_uniform.
Theorem C62_categorical_from_natural : forall c lg L (eta : list f64), libm_ok c lg L -> 0 <= c <= 1000000 ->
  Forall (fun e => is_num e /\ Rabs (val e) <= 300) eta -> INR (length eta) <= 9999 ->
  exists ps, @categorical_from_natural (F64 L) eta = Some (@mkCategorical (F64 L) ps) /\
    Forall2 (fun r w => within (2 * softmax_units (4 * c) (INR (length eta))) (Rabs r) r w) (softmax (map val eta)) ps.
Proof.
  intros c lg L eta LOK C0 H N. destruct (categorical_softmax c lg L LOK C0 eta H N) as (ps & E & R). exists ps. split; [exact E|].
  apply all_within; [exact R|]. unfold softmax_units. pose proof (pos_INR (length eta)). lra.
Qed.
Print Assumptions C62_categorical_from_natural.
(** The way back divides the stored probabilities by their sum. *)
Theorem C62_categorical : forall c lg L (qs : list f64) (l : f64), libm_ok c lg L -> 0 <= c <= 1000000 ->
  Forall (fun p => is_num p /\ bpow radix2 (-400) <= val p <= 1) (qs ++ [l]) -> INR (length qs) <= 9999 ->
  exists ps, categorical_from_natural (to_natural (categorical_expfam (@mkCategorical (F64 L) (qs ++ [l])))) = Some (@mkCategorical (F64 L) ps) /\
    Forall2 (fun r w => within (2 * softmax_units (4 * c + 560 * (c + 2)) (INR (length qs))) (Rabs r) r w)
      (map (fun p => val p / Rsum (map val (qs ++ [l]))) (qs ++ [l])) ps.
Proof.
  intros c lg L qs l LOK C0 H N. apply Forall_app in H. destruct H as [Q QL]. inversion QL; subst.
  destruct (categorical_nat c lg L LOK C0 qs l Q ltac:(assumption) N) as (ps & E & R). exists ps. split; [exact E|].
  apply all_within; [exact R|]. unfold softmax_units. pose proof (pos_INR (length qs)). lra.
Qed.
Print Assumptions C62_categorical.

(** * Cases *)
Example C62_gamma_case : forall L, exists a', gamma_from_natural (to_natural (gamma_expfam (@mkGamma (F64 L) (f64_of_Z 3) (f64_of_Z 2)))) = Some (@mkGamma (F64 L) a' (f64_of_Z 2)) /\ within 4 5 3 a'.
Proof.
  intros L. destruct (num_int 3 ltac:(lia)) as [NA VA]. destruct (num_int 2 ltac:(lia)) as [NB VB]. pose proof huge_one as HO. sizes.
  assert (S : bpow radix2 (-45) <= 1) by (change 1 with (bpow radix2 0); apply bpow_le; lia).
  destruct (C62_gamma L (f64_of_Z 3) (f64_of_Z 2) NA NB) as (a' & E & W); [rewrite VA; lra|rewrite VB; lra|]. exists a'. split; [exact E|]. rewrite VA in W. replace 5 with (3 + 2) by lra. exact W.
Qed.
Definition speck : f64 := S754_finite false 4503599627370496 (-112).
Lemma speck_val : is_num speck /\ 0 < val speck < bpow radix2 (-54).
Proof.
  split; [vm_compute; split; reflexivity|]. unfold speck. rewrite JitAcc.val_explicit. cbn [Zaux.cond_Zopp]. change (IZR 4503599627370496) with (bpow radix2 52). rewrite <- bpow_plus.
  split; [apply bpow_gt_0|apply bpow_lt; lia].
Qed.
(** Gamma(2^-60, 1) is accepted by the constructor and lost on the way back. *)
Example C62_small_shape_case : forall L, exists d, @gamma_new (F64 L) speck (f64_of_Z 1) = Some d /\ gamma_from_natural (to_natural (gamma_expfam d)) = None.
Proof. intros L. exists (@mkGamma (F64 L) speck (f64_of_Z 1)). destruct speck_val as [N P]. destruct one_num as [N1 V1]. split; [|apply C62_small_shapes_refuted; assumption].
  unfold gamma_new. rewrite (pos_guard L _ N ltac:(lra)), (pos_guard L _ N1 ltac:(lra)). reflexivity. Qed.
Example C62_poisson_case : forall lg, let L := rounded_libm lg in
  exists r', poisson_from_natural (to_natural (poisson_expfam (@mkPoisson (F64 L) (f64_of_Z 2)))) = Some (@mkPoisson (F64 L) r') /\ within 16 2 2 r'.
Proof.
  intros lg L. destruct (num_int 2 ltac:(lia)) as [N V].
  assert (S1 : bpow radix2 (-800) <= 1) by (change 1 with (bpow radix2 0); apply bpow_le; lia). assert (S2 : 2 <= bpow radix2 800) by (change 2 with (bpow radix2 1); apply bpow_le; lia).
  destruct (C62_poisson 1 lg L (f64_of_Z 2) (rounded_libm_ok lg) ltac:(lra) N) as (r' & E & [NR W]); [rewrite V; lra|]. exists r'. split; [exact E|]. split; [exact NR|]. rewrite V in W.
  eapply Rle_trans; [exact W|]. pose proof eps_pos. pose proof JitAcc.ln2_bounds. unfold rate_units. rewrite Rabs_pos_eq by lra. nra.
Qed.
Example C62_geometric_case : forall lg, let L := rounded_libm lg in
  exists p', geometric_from_natural (to_natural (geometric_expfam (@mkGeometric (F64 L) quarter))) = Some (@mkGeometric (F64 L) p') /\ within 26 2 (1 / 4) p'.
Proof.
  intros lg L. destruct quarter_val as [N V].
  assert (LB : Rabs (ln (1 - 1 / 4)) <= 1 / 3).
  { assert (UP : ln (1 - 1 / 4) <= 0) by (rewrite <- ln_1; apply ln_le; lra). rewrite Rabs_left1 by exact UP. rewrite <- ln_Rinv by lra. replace (/ (1 - 1 / 4)) with (1 + 1 / 3) by field.
    rewrite <- (ln_exp (1 / 3)) at 2. apply ln_le; [lra|]. left. apply exp_ineq1. lra. }
  pose proof (Rabs_pos (ln (1 - 1 / 4))) as LP. pose proof eps_pos as EP. pose proof eps_value as EV.
  destruct (C62_geometric 1 lg L quarter (rounded_libm_ok lg) ltac:(lra) N) as (p' & E & [NP W]).
  - rewrite V. lra.
  - rewrite V. unfold fail_units. apply Rle_lt_trans with (4 * 13 * (23 / 10 ^ 17)); [apply Rmult_le_compat; lra|lra].
  - exists p'. split; [exact E|]. split; [exact NP|]. rewrite V in W. eapply Rle_trans; [exact W|]. unfold fail_units. apply Rmult_le_compat_r; [lra|]. apply Rmult_le_compat_r; [lra|]. lra.
Qed.
Example C62_softmax_case : forall lg, let L := rounded_libm lg in
  exists p q, @categorical_from_natural (F64 L) [f64_of_Z 0] = Some (@mkCategorical (F64 L) [p; q]) /\ within 34 (1 / 2) (1 / 2) p /\ within 34 (1 / 2) (1 / 2) q.
Proof.
  intros lg L. destruct zero_num as [N V].
  destruct (C62_categorical_from_natural 1 lg L [f64_of_Z 0] (rounded_libm_ok lg) ltac:(lra)) as (ps & E & W).
  - apply Forall_cons; [split; [exact N|rewrite V, Rabs_R0; lra]|apply Forall_nil].
  - cbn. lra.
  - assert (S : softmax (map val [f64_of_Z 0]) = [1 / 2; 1 / 2]).
    { unfold softmax, softmax_total. cbn [map fold_right app]. rewrite V, exp_0. f_equal; [lra|f_equal; lra]. }
    rewrite S in W. unfold softmax_units in W. cbn [length INR] in W. inversion W as [|? p ? ps1 W1 W2]; subst. inversion W2 as [|? q ? ps2 W3 W4]; subst. inversion W4; subst.
    exists p, q. split; [exact E|]. rewrite (Rabs_pos_eq (1 / 2)) in * by lra. replace 34 with (2 * (3 * (4 * 1) + 2 * 1 + 3)) by lra. split; assumption.
Qed.
Example C62_categorical_case : forall lg, let L := rounded_libm lg in
  exists ps, categorical_from_natural (to_natural (categorical_expfam (@mkCategorical (F64 L) [quarter; quarter; quarter; quarter]))) = Some (@mkCategorical (F64 L) ps) /\
    Forall (fun w => within 10122 (1 / 4) (1 / 4) w) ps /\ length ps = 4%nat.
Proof.
  intros lg L. destruct quarter_val as [N V]. pose proof tiny_quarter as [_ TQ].
  assert (Q : is_num quarter /\ bpow radix2 (-400) <= val quarter <= 1) by (rewrite V; split; [exact N|lra]).
  destruct (C62_categorical 1 lg L [quarter; quarter; quarter] quarter (rounded_libm_ok lg) ltac:(lra)) as (ps & E & W).
  - repeat (apply Forall_cons; [exact Q|]). apply Forall_nil.
  - cbn. lra.
  - exists ps. split; [exact E|]. cbn [map app length INR] in W. rewrite !V in W. unfold softmax_units in W.
    replace (1 / 4 / Rsum [1 / 4; 1 / 4; 1 / 4; 1 / 4]) with (1 / 4) in W by (cbn; field).
    replace (2 * (3 * (4 * 1 + 560 * (1 + 2)) + 2 * (1 + 1 + 1) + 3)) with 10122 in W by lra.
    inversion W as [|? w1 ? ps1 W1 X1]; subst. inversion X1 as [|? w2 ? ps2 W2 X2]; subst. inversion X2 as [|? w3 ? ps3 W3 X3]; subst. inversion X3 as [|? w4 ? ps4 W4 X4]; subst. inversion X4; subst.
    rewrite (Rabs_pos_eq (1 / 4)) in W1, W2, W3, W4 by lra.
    split; [repeat (apply Forall_cons; [assumption|]); apply Forall_nil|reflexivity].
Qed.
