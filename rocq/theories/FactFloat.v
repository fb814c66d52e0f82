(** The combinatorial base measures in binary64 (C61). *)
From Coquelicot Require Import Coquelicot.
From Coq Require Import ZArith Reals Bool String List Lia Lra.
From Coq Require Import Floats.SpecFloat.
From Flocq Require Import Core.
From Verif Require Import Num EggSpec LitFacts EggNum FloatFacts FloatErr JitAcc AccSpec AccProofs RoundSpec RoundProofs RelErr
  DensitySpec CoreModel CombModel ExpFamModel DistModel DistSpec DistFacts BuilderProofs DistProofs DistFloat SumFloat Stirling FactProofs FamFloatSpec FamFloat.
Import ListNotations.
Local Open Scope R_scope.

(** A nearby target. *)
Lemma acc_shift k j m r r' w : acc k m r w -> Rabs (r - r') <= j * eps -> 1 <= m -> Rabs r' <= m -> 0 <= k -> 0 <= j -> acc (k + j) m r' w.
Proof.
  intros (N & _ & E) S M R K J. split; [exact N|]. split; [exact R|]. pose proof (gam_prod k j) as G. pose proof (gam_pos k K). pose proof (gam_pos j J). pose proof (gam_lin j).
  replace (val w - r') with ((val w - r) + (r - r')) by ring. eapply Rle_trans; [apply Rabs_triang|].
  assert (gam j <= gam j * m) by nra. assert (0 <= gam k * gam j) by (apply Rmult_le_pos; assumption). nra.
Qed.

(** The table of the first 21 values. *)
Ltac explicit w := let v := eval vm_compute in w in replace w with v by (vm_compute; reflexivity); rewrite val_explicit; cbn [cond_Zopp bpow];
  match goal with |- context [Z.pow_pos ?b ?e] => let z := eval vm_compute in (Z.pow_pos b e) in change (Z.pow_pos b e) with z end.
Lemma table_float L k : (k <= 20)%nat -> is_num (nth k (@log_factorial_table (F64 L)) (f64_of_Z 0)) /\ Rabs (val (nth k (@log_factorial_table (F64 L)) (f64_of_Z 0)) - tabR k) <= 4 / 10 ^ 15.
Proof.
  intros K. unfold log_factorial_table, tabR, tabZ.
  do 2 (destruct k as [|k]; [cbn [nth fst snd]; destruct zero_num as [N V]; split; [exact N|]; change (@n0 (F64 L)) with (f64_of_Z 0); rewrite V, Rabs_right; lra|]).
  do 19 (destruct k as [|k]; [cbn [nth fst snd]; match goal with |- is_num (@ndec _ ?a ?b) /\ _ => change (@ndec (F64 L) a b) with (f64_dec a b); split; [vm_compute; split; reflexivity|explicit (f64_dec a b); apply Rabs_le; lra] end|]).
  lia.
Qed.

Section Fact.
Context (c : R) (lg : R -> R) (L : libm) (LOK : libm_ok c lg L) (C0 : 0 <= c <= 1000000).
Notation F := (F64 L).

Lemma q_range q j d : bpow radix2 (-40) <= q <= 1 -> (j <= 7)%nat -> 1 <= d <= 2048 -> normal_range (q ^ j * / d) /\ 0 < q ^ j * / d <= / d.
Proof.
  intros [Q1 Q2] J [D1 D2]. pose proof (bpow_gt_0 radix2 (-40)) as B. sizes.
  assert (P1 : 0 < / d <= 1) by (split; [apply Rinv_0_lt_compat; lra|rewrite <- Rinv_1; apply Rinv_le_contravar; lra]).
  assert (P2 : 0 < q ^ j <= 1). { split; [apply pow_lt; lra|]. rewrite <- (pow1 j). apply pow_incr. lra. }
  assert (P3 : bpow radix2 (-280) <= q ^ j).
  { apply Rle_trans with (bpow radix2 (-40) ^ j); [|apply pow_incr; lra].
    do 8 (destruct j as [|j]; [rewrite <- ?Rmult_assoc; cbn [pow]; rewrite ?Rmult_1_r; rewrite <- ?bpow_plus; try (apply bpow_le; lia); change 1 with (bpow radix2 0); apply bpow_le; lia|]). lia. }
  assert (P4 : bpow radix2 (-11) <= / d) by (change (bpow radix2 (-11)) with (/ 2048); apply Rinv_le_contravar; lra).
  assert (P5 : bpow radix2 (-291) <= q ^ j * / d).
  { replace (bpow radix2 (-291)) with (bpow radix2 (-280) * bpow radix2 (-11)) by (rewrite <- bpow_plus; reflexivity).
    apply Rmult_le_compat; try assumption; apply bpow_ge_0. }
  assert (P6 : 0 < q ^ j * / d <= / d) by (split; [apply Rmult_lt_0_compat; lra|rewrite <- (Rmult_1_l (/ d)) at 2; apply Rmult_le_compat_r; lra]).
  split; [|exact P6]. split; rewrite Rabs_pos_eq by lra; [|lra].
  apply Rle_trans with (bpow radix2 (-291)); [|exact P5]. unfold small. change 2 with (bpow radix2 1). rewrite <- bpow_plus. apply bpow_le. lia.
Qed.
Lemma rel_pow u v q i j a b : bpow radix2 (-40) <= q <= 1 -> (i + j <= 7)%nat -> rel a (q ^ i) u -> rel b (q ^ j) v -> 0 <= a <= 100 -> 0 <= b <= 100 ->
  rel (a + b + 1) (q ^ (i + j)) (f64_mul u v).
Proof.
  intros Q J U V A B. rewrite pow_add. apply rel_mul; ks; [exact U|exact V|]. rewrite <- pow_add, <- (Rmult_1_r (q ^ _)), <- Rinv_1. apply q_range; [exact Q|exact J|lra].
Qed.
Lemma rel_over u q i a d : bpow radix2 (-40) <= q <= 1 -> (i <= 7)%nat -> rel a (q ^ i) u -> 0 <= a <= 100 -> (1 <= d <= 2048)%Z ->
  acc (a + 2) (q ^ i * / IZR d) (q ^ i * / IZR d) (f64_mul u (f64_div (f64_of_Z 1) (f64_of_Z d))).
Proof.
  intros Q I U A [D1 D2]. apply IZR_le in D1, D2. destruct one_num as [N1 V1]. sizes.
  destruct (num_int d) as [ND VD]. { apply le_IZR in D1, D2. lia. }
  destruct (q_range q i (IZR d) Q I (conj D1 D2)) as [R1 R2].
  assert (RD : rel 1 (/ IZR d) (f64_div (f64_of_Z 1) (f64_of_Z d))).
  { replace 1 with (0 + 0 + 1) at 1 by lra. replace (/ IZR d) with (1 / IZR d) by (field; lra). apply rel_div; ks; [apply rel_is; [exact N1|exact V1|lra]|apply rel_is; [exact ND|exact VD|lra]|].
    replace (1 / IZR d) with (q ^ 0 * / IZR d) by (cbn; field; lra). apply q_range; [exact Q|lia|lra]. }
  rewrite <- (Rabs_pos_eq (q ^ i * / IZR d)) at 1 by lra. apply rel_acc; [lra|]. replace (a + 2) with (a + 1 + 1) by ring. apply rel_mul; ks; [exact U|exact RD|exact R1].
Qed.

Lemma stirling_float k : (2 <= k)%nat -> count_ok k -> let K := INR k in
  acc (c + 19) (K * ln K + K + / 2 * ln K + 3) (K * ln K - K + / 2 * ln (2 * PI * K) + S4 K) (@stirling F k).
Proof.
  intros K2 CK K. destruct (count_num L k CK) as (NK & VK & BK). assert (K1 : 2 <= K) by (unfold K; replace 2 with (INR 2) by reflexivity; apply le_INR; exact K2). fold K in VK, BK.
  unfold stirling. replace (Nat.leb k 1) with false by (symmetry; apply Nat.leb_gt; lia). cbv zeta.
  set (kf := @nofn F k) in *. set (inv := @ndiv F n1 kf).
  change (@nint F 12) with (f64_of_Z 12). change (@nint F 360) with (f64_of_Z 360). change (@nint F 1260) with (f64_of_Z 1260). change (@nint F 1680) with (f64_of_Z 1680).
  change (@n1 F) with (f64_of_Z 1) in *. change (@n2 F) with (f64_of_Z 2). change (@nhalf F) with (f64_dec 5 10). change (@npi F) with f64_pi. change (@nln F) with (l_ln L).
  change (@nmul F) with f64_mul. change (@nadd F) with f64_add. change (@nsub F) with f64_sub. change (@ndiv F) with f64_div in *.
  destruct one_num as [N1 V1]. destruct two_num as [N2 V2]. destruct half_dec as [NH VH]. sizes. pose proof pi_bounds as PB. pose proof ln_two_pi as LP.
  assert (LK0 : 0 <= ln K) by (rewrite <- ln_1; apply ln_le; lra).
  assert (LK1 : ln K <= 1074) by (rewrite <- VK, <- (Rabs_pos_eq (ln (val kf))) by (rewrite VK; exact LK0); apply ln_any; [exact NK|lra]).
  assert (KB : K * (ln K + 1) <= huge).
  { apply Rle_trans with (2000000000000 * 2000); [apply Rmult_le_compat; lra|]. apply Rle_trans with (bpow radix2 60); [change (bpow radix2 60) with 1152921504606846976; lra|apply bpow_le; lia]. }
  assert (KS : K * small <= / 1000).
  { apply Rle_trans with (bpow radix2 41 * bpow radix2 (-1000)); [apply Rmult_le_compat; try lra; unfold small; try apply bpow_ge_0; try lra; change (bpow radix2 41) with 2199023255552; lra|].
    rewrite <- bpow_plus. apply Rle_trans with (bpow radix2 (-10)); [apply bpow_le; lia|change (bpow radix2 (-10)) with (/ 1024); lra]. }
  assert (KL : 0 <= K * ln K) by (apply Rmult_le_pos; lra).
  assert (T1 : acc (c + 1) (K * ln K + / 100) (K * ln K) (f64_mul kf (l_ln L kf))).
  { pose proof (acc_lnx c lg L LOK kf NK ltac:(lra)) as A. rewrite VK, (Rabs_pos_eq _ LK0) in A.
    eapply acc_more; [eapply acc_mul; [apply (acc_is kf K K NK VK); rewrite Rabs_pos_eq; lra|exact A| | | |]|..]; ks. }
  assert (T2 : acc (c + 2) (K * ln K + / 100 + K) (K * ln K - K) (f64_sub (f64_mul kf (l_ln L kf)) kf)).
  { replace (c + 2) with (c + 1 + 1) by ring. apply acc_sub; ks; [exact T1|]. apply (acc_k 0); [apply acc_is; [exact NK|exact VK|rewrite Rabs_pos_eq; lra]|lra]. }
  assert (R2 : rel 2 (2 * PI) (f64_mul (f64_of_Z 2) f64_pi)).
  { replace 2 with (0 + 1 + 1) at 1 by lra. apply rel_mul; ks; [apply rel_is; [exact N2|exact V2|lra]|exact rel_pi|]. split; rewrite Rabs_pos_eq by lra; lra. }
  assert (W : 6 * K <= 2 * PI * K <= 7 * K) by (split; apply Rmult_le_compat_r; lra).
  assert (HB : 14000000000000 <= huge) by (apply Rle_trans with (bpow radix2 60); [change (bpow radix2 60) with 1152921504606846976; lra|apply bpow_le; lia]).
  assert (R3 : rel 3 (2 * PI * K) (f64_mul (f64_mul (f64_of_Z 2) f64_pi) kf)).
  { replace 3 with (2 + 0 + 1) by lra. apply rel_mul; ks; [exact R2|apply rel_is; [exact NK|exact VK|lra]|]. split; rewrite Rabs_pos_eq by lra; lra. }
  assert (LE : ln (2 * PI * K) = ln (2 * PI) + ln K) by (rewrite !ln_mult by lra; reflexivity).
  assert (T3 : acc (c + 7) (/ 2 * ln K + 1.6) (/ 2 * ln (2 * PI * K)) (f64_mul (f64_dec 5 10) (l_ln L (f64_mul (f64_mul (f64_of_Z 2) f64_pi) kf)))).
  { pose proof (acc_lnr c lg L LOK C0 3 _ _ R3 ltac:(lra) ltac:(lra)) as A. rewrite (Rabs_pos_eq (ln (2 * PI * K))) in A by lra.
    eapply acc_more; [eapply acc_mul; [apply (acc_is _ (/ 2) (/ 2) NH VH); rewrite Rabs_pos_eq; lra|exact A| | | |]|..]; ks. }
  assert (T4 : acc (c + 8) (K * ln K + / 100 + K + (/ 2 * ln K + 1.6)) (K * ln K - K + / 2 * ln (2 * PI * K))
    (f64_add (f64_sub (f64_mul kf (l_ln L kf)) kf) (f64_mul (f64_dec 5 10) (l_ln L (f64_mul (f64_mul (f64_of_Z 2) f64_pi) kf))))).
  { replace (c + 8) with (c + 7 + 1) by ring. apply acc_add; ks; [apply (acc_k (c + 2)); [exact T2|lra]|exact T3]. }
  set (q := / K).
  assert (Q : bpow radix2 (-40) <= q <= 1).
  { unfold q. change (bpow radix2 (-40)) with (/ bpow radix2 40). unfold count_ok in CK. split; [apply Rinv_le_contravar; [lra|exact CK]|rewrite <- Rinv_1; apply Rinv_le_contravar; lra]. }
  assert (I1 : rel 1 (q ^ 1) inv).
  { rewrite pow_1. replace 1 with (0 + 0 + 1) at 1 by lra. replace q with (1 / K) by (unfold q; field; lra). apply rel_div; ks; [apply rel_is; [exact N1|exact V1|lra]|apply rel_is; [exact NK|exact VK|lra]|].
    replace (1 / K) with (q ^ 1 * / 1) by (unfold q; field; lra). apply q_range; [exact Q|lia|lra]. }
  pose proof (rel_pow _ _ q 1 1 1 1 Q ltac:(lia) I1 I1 ltac:(lra) ltac:(lra)) as I2. cbn [Nat.add] in I2. fold q in I2.
  pose proof (rel_pow _ _ q 2 1 _ 1 Q ltac:(lia) I2 I1 ltac:(lra) ltac:(lra)) as I3. cbn [Nat.add] in I3.
  pose proof (rel_pow _ _ q 3 2 _ _ Q ltac:(lia) I3 I2 ltac:(lra) ltac:(lra)) as I5. cbn [Nat.add] in I5.
  pose proof (rel_pow _ _ q 5 2 _ _ Q ltac:(lia) I5 I2 ltac:(lra) ltac:(lra)) as I7. cbn [Nat.add] in I7.
  pose proof (rel_over _ q 1 _ 12 Q ltac:(lia) I1 ltac:(lra) ltac:(lia)) as A1.
  pose proof (rel_over _ q 3 _ 360 Q ltac:(lia) I3 ltac:(lra) ltac:(lia)) as A3.
  pose proof (rel_over _ q 5 _ 1260 Q ltac:(lia) I5 ltac:(lra) ltac:(lia)) as A5.
  pose proof (rel_over _ q 7 _ 1680 Q ltac:(lia) I7 ltac:(lra) ltac:(lia)) as A7.
  pose proof (proj2 (q_range q 1 12 Q ltac:(lia) ltac:(lra))) as B1. pose proof (proj2 (q_range q 3 360 Q ltac:(lia) ltac:(lra))) as B3.
  pose proof (proj2 (q_range q 5 1260 Q ltac:(lia) ltac:(lra))) as B5. pose proof (proj2 (q_range q 7 1680 Q ltac:(lia) ltac:(lra))) as B7.
  assert (SV : S4 K = q ^ 1 * / 12 - q ^ 3 * / 360 + q ^ 5 * / 1260 - q ^ 7 * / 1680) by (unfold S4, q; field; lra).
  rewrite SV. set (p1 := q ^ 1 * / 12) in *. set (p3 := q ^ 3 * / 360) in *. set (p5 := q ^ 5 * / 1260) in *. set (p7 := q ^ 7 * / 1680) in *.
  match goal with |- acc _ _ _ (f64_add _ ?w) => assert (TC : acc 18 (p1 + p3 + p5 + p7) (p1 - p3 + p5 - p7) w) end.
  { replace 18 with (15 + 1 + 1 + 1) by lra. apply acc_sub; ks; [apply acc_add; ks; [apply acc_sub; ks|]|].
    - eapply acc_k; [exact A1|lra].
    - eapply acc_k; [exact A3|lra].
    - eapply acc_k; [exact A5|lra].
    - eapply acc_k; [exact A7|lra]. }
  replace (c + 19) with (c + 18 + 1) by ring.
  eapply acc_more; [apply (acc_add (c + 18)); [apply (acc_k (c + 8)); [exact T4|lra]|apply (acc_k 18); [exact TC|lra]| | |]|..]; ks.
Qed.

(** The scale of ln k! and of the errors in computing it. *)
Lemma fact_bound k : 0 <= ln (INR (fact k)) <= INR k * ln (INR k + 1).
Proof.
  induction k as [|k IH]; [cbn; rewrite ln_1; lra|].
  change (fact (S k)) with (S k * fact k)%nat. rewrite mult_INR, ln_mult by (try apply INR_fact_lt_0; apply lt_0_INR; lia).
  pose proof (pos_INR k) as P. rewrite S_INR. 
  assert (A : 0 <= ln (INR k + 1)) by (rewrite <- ln_1; apply ln_le; lra).
  assert (B : ln (INR k + 1) <= ln (INR k + 1 + 1)) by (apply ln_le; lra).
  split; [lra|]. assert (INR k * ln (INR k + 1) <= INR k * ln (INR k + 1 + 1)) by (apply Rmult_le_compat_l; lra). lra.
Qed.
Lemma fact_scale_pos k : INR k * ln (INR k + 1) + 4 <= fact_scale k.
Proof.
  unfold fact_scale. pose proof (pos_INR k). assert (A : 0 <= ln (INR k + 1)) by (rewrite <- ln_1; apply ln_le; lra). nra.
Qed.
Lemma log_factorial_float k : count_ok k -> acc (c + 60) (fact_scale k) (ln (INR (fact k))) (@log_factorial F k).
Proof.
  intros CK. pose proof (fact_bound k) as FB. pose proof (fact_scale_pos k) as FS. sizes.
  assert (FA : Rabs (ln (INR (fact k))) <= fact_scale k) by (rewrite Rabs_pos_eq; lra).
  assert (E20 : 2 / 10 ^ 15 <= 10 * eps).
  { unfold eps. rewrite (pow_IZR 2 52). change (2 ^ Z.of_nat 52)%Z with 4503599627370496%Z. lra. }
  unfold log_factorial. destruct (Nat.leb k 20) eqn:K.
  - apply Nat.leb_le in K. destruct (table_float L k K) as [N D]. pose proof (tabR_close k K) as T.
    change (@n0 F) with (f64_of_Z 0). set (w := nth k _ _) in *. split; [exact N|]. split; [exact FA|].
    apply Rle_trans with (40 * eps * 1).
    + replace (val w - ln (INR (fact k))) with ((val w - tabR k) + (tabR k - ln (INR (fact k)))) by ring. eapply Rle_trans; [apply Rabs_triang|]. lra.
    + pose proof (gam_lin (c + 60)). apply Rmult_le_compat; try lra; nra.
  - apply Nat.leb_gt in K. pose proof (stirling_float k ltac:(lia) CK) as A. cbv zeta in A.
    pose proof (stirling_series k ltac:(lia)) as B.
    assert (P : 21 <= INR k) by (replace 21 with (INR 21) by (rewrite INR_IZR_INZ; reflexivity); apply le_INR; lia).
    assert (LK : 0 <= ln (INR k) <= ln (INR k + 1)) by (split; [rewrite <- ln_1|]; apply ln_le; lra).
    assert (T : T5 (INR k) <= 10 * eps).
    { eapply Rle_trans; [|exact E20]. unfold T5. apply Rle_trans with (/ (1188 * 21 ^ 9)).
      - apply Rinv_le_contravar; [apply Rmult_lt_0_compat; [lra|apply pow_lt; lra]|]. apply Rmult_le_compat_l; [lra|]. apply pow_incr. lra.
      - apply (Rmult_le_reg_r (1188 * 21 ^ 9)); [apply Rmult_lt_0_compat; [lra|apply pow_lt; lra]|]. rewrite Rinv_l; [|apply Rgt_not_eq, Rmult_lt_0_compat; [lra|apply pow_lt; lra]]. lra. }
    set (v := INR k * ln (INR k) - INR k + / 2 * ln (2 * PI * INR k) + S4 (INR k)) in *. clearbody v.
    assert (M : INR k * ln (INR k) + INR k + / 2 * ln (INR k) + 3 <= fact_scale k).
    { unfold fact_scale. assert (INR k * ln (INR k) <= INR k * ln (INR k + 1)) by (apply Rmult_le_compat_l; lra). lra. }
    apply acc_more with (c + 19 + 10) (fact_scale k); [|lra|lra].
    apply (acc_shift (c + 19) 10 (fact_scale k) v); try lra.
    + eapply acc_more; [exact A|lra|exact M].
    + apply Rabs_le. lra.
Qed.
Lemma fact_scale_size k : count_ok k -> fact_scale k <= huge.
Proof.
  intros CK. destruct (count_num L k CK) as (_ & _ & BK). sizes. unfold fact_scale.
  assert (LB : 0 <= ln (INR k + 1) <= 1000).
  { split; [rewrite <- ln_1; apply ln_le; lra|]. apply Rle_trans with (ln (bpow radix2 60)); [apply ln_le; [lra|change (bpow radix2 60) with 1152921504606846976; lra]|].
    rewrite ln_bpow. destruct ln2_bounds. lra. }
  apply Rle_trans with (3000000000000 * 1001 + 3); [apply Rplus_le_compat_r, Rmult_le_compat; lra|].
  apply Rle_trans with (bpow radix2 60); [change (bpow radix2 60) with 1152921504606846976; lra|apply bpow_le; lia].
Qed.

(** Integers up to 2^41 in double precision. *)
Lemma nat_exact z : (0 <= z <= 2 ^ 50)%Z -> is_num (f64_of_Z z) /\ val (f64_of_Z z) = IZR z. Proof. intros. apply num_int. lia. Qed.
Lemma count_Z k : count_ok k -> (0 <= Z.of_nat k <= 2 ^ 40)%Z.
Proof. unfold count_ok. change (bpow radix2 40) with (IZR (2 ^ 40)). rewrite INR_IZR_INZ. intros H. apply le_IZR in H. lia. Qed.
Lemma int_op (op : f64 -> f64 -> f64) (f : R -> R -> R) z u v r : (Z.abs z <= 2 ^ 53)%Z -> is_num u -> is_num v -> f (val u) (val v) = r -> r = IZR z ->
  (Rabs (RN (f (val u) (val v))) < bpow radix2 1024 -> is_num (op u v) /\ val (op u v) = RN (f (val u) (val v))) ->
  is_num (op u v) /\ val (op u v) = r.
Proof.
  intros Z NU NV -> -> H. destruct (num_int z Z) as [[V0 F0] VZ]. pose proof (RN_val _ V0) as R. rewrite VZ in R. rewrite R in H. apply H.
  rewrite <- abs_IZR. change (bpow radix2 1024) with (IZR (2 ^ 1024)). apply IZR_lt. assert (2 ^ 53 < 2 ^ 1024)%Z by (vm_compute; reflexivity). lia.
Qed.
Lemma succ_exact k : count_ok k -> is_num (f64_add (@nofn F k) (f64_of_Z 1)) /\ val (f64_add (@nofn F k) (f64_of_Z 1)) = INR (S k).
Proof.
  intros CK. destruct (count_num L k CK) as (N & V & _). destruct one_num as [N1 V1]. pose proof (count_Z k CK).
  apply (int_op f64_add Rplus (Z.of_nat (S k))); try assumption; [lia|rewrite V, V1, S_INR; reflexivity|apply INR_IZR_INZ|]. intros B. apply add_num; assumption.
Qed.
Lemma diff_exact n k : count_ok n -> (k <= n)%nat -> is_num (f64_add (f64_sub (@nofn F n) (@nofn F k)) (f64_of_Z 1)) /\ val (f64_add (f64_sub (@nofn F n) (@nofn F k)) (f64_of_Z 1)) = INR (S (n - k)).
Proof.
  intros CN K. assert (CK : count_ok k) by (unfold count_ok in *; pose proof (le_INR _ _ K); lra).
  destruct (count_num L n CN) as (NN & VN & _). destruct (count_num L k CK) as (NK & VK & _). destruct one_num as [N1 V1]. pose proof (count_Z n CN).
  destruct (int_op f64_sub Rminus (Z.of_nat (n - k)) (@nofn F n) (@nofn F k) (INR (n - k))) as [ND VD]; try assumption;
    [lia|rewrite VN, VK, minus_INR by exact K; reflexivity|apply INR_IZR_INZ|intros B; apply sub_num; assumption|].
  apply (int_op f64_add Rplus (Z.of_nat (S (n - k)))); try assumption; [lia|rewrite VD, V1, S_INR; reflexivity|apply INR_IZR_INZ|]. intros B. apply add_num; assumption.
Qed.
Lemma sum_exact x r : count_ok x -> count_ok r -> is_num (f64_add (@nofn F x) (@nofn F r)) /\ val (f64_add (@nofn F x) (@nofn F r)) = INR (x + r).
Proof.
  intros CX CR. destruct (count_num L x CX) as (NX & VX & _). destruct (count_num L r CR) as (NR & VR & _). pose proof (count_Z x CX). pose proof (count_Z r CR).
  apply (int_op f64_add Rplus (Z.of_nat (x + r))); try assumption; [lia|rewrite VX, VR, plus_INR; reflexivity|apply INR_IZR_INZ|]. intros B. apply add_num; assumption.
Qed.

(** Log-gamma at an integer, for a library that is right about factorials. *)
Lemma lgamma_fact n w : lg_factorial lg -> is_num w -> val w = INR (S n) -> INR n <= 2 * bpow radix2 40 -> acc c (1 + ln (INR (fact n))) (ln (INR (fact n))) (l_lgamma L w) /\ ln (INR (fact n)) <= huge.
Proof.
  intros LF N V B. pose proof (fact_bound n) as FB. change (bpow radix2 40) with 1099511627776 in B. pose proof (pos_INR n). sizes.
  assert (LB : 0 <= ln (INR n + 1) <= 1000).
  { split; [rewrite <- ln_1; apply ln_le; lra|]. apply Rle_trans with (ln (bpow radix2 60)); [apply ln_le; [lra|change (bpow radix2 60) with 1152921504606846976; lra]|].
    rewrite ln_bpow. destruct ln2_bounds. lra. }
  assert (FH : ln (INR (fact n)) <= huge).
  { eapply Rle_trans; [apply FB|]. apply Rle_trans with (3000000000000 * 1000); [apply Rmult_le_compat; lra|].
    apply Rle_trans with (bpow radix2 60); [change (bpow radix2 60) with 1152921504606846976; lra|apply bpow_le; lia]. }
  split; [|exact FH]. pose proof (LF n) as E. rewrite <- V in E. rewrite <- E in *. rewrite <- (Rabs_pos_eq (lg (val w))) at 1 by lra.
  apply (acc_lgamma c lg L LOK); [exact N|rewrite V; apply lt_0_INR; lia|rewrite Rabs_pos_eq; lra].
Qed.
Lemma binomial_coefficient_float n k : lg_factorial lg -> count_ok n -> (k <= n)%nat ->
  acc (c + 2) (ln (INR (fact n)) + ln (INR (fact k)) + ln (INR (fact (n - k))) + 3) (ln (Binomial.C n k)) (@log_binomial_coefficient F n k).
Proof.
  intros LF CN K. assert (CK : count_ok k) by (unfold count_ok in *; pose proof (le_INR _ _ K); lra).
  assert (CD : INR (n - k) <= bpow radix2 40) by (unfold count_ok in *; rewrite minus_INR by exact K; pose proof (pos_INR k); lra). pose proof (bpow_gt_0 radix2 40).
  unfold log_binomial_coefficient. replace (Nat.ltb n k) with false by (symmetry; apply Nat.ltb_ge, K).
  destruct (succ_exact n CN) as [N1 V1]. destruct (succ_exact k CK) as [N2 V2]. destruct (diff_exact n k CN K) as [N3 V3]. unfold count_ok in *.
  destruct (lgamma_fact n _ LF N1 V1 ltac:(lra)) as [A1 B1]. destruct (lgamma_fact k _ LF N2 V2 ltac:(lra)) as [A2 B2]. destruct (lgamma_fact (n - k) _ LF N3 V3 ltac:(lra)) as [A3 B3].
  pose proof (fact_bound n). pose proof (fact_bound k). pose proof (fact_bound (n - k)). sizes.
  replace (ln (Binomial.C n k)) with (ln (INR (fact n)) - ln (INR (fact k)) - ln (INR (fact (n - k)))).
  2:{ unfold Binomial.C, Rdiv. rewrite ln_mult, ln_Rinv, ln_mult; try apply INR_fact_lt_0; [ring| |apply Rinv_0_lt_compat]; apply Rmult_lt_0_compat; apply INR_fact_lt_0. }
  replace (c + 2) with (c + 1 + 1) by ring.
  eapply acc_more; [apply (acc_sub (c + 1)); [apply acc_sub; [exact A1|exact A2| | |]|apply (acc_k c); [exact A3|lra]| | |]|..]; ks.
Qed.
Lemma negative_binomial_coefficient_float r k : lg_factorial lg -> count_ok r -> count_ok k -> (0 < r)%nat ->
  acc (c + 2) (ln (INR (fact (k + r - 1))) + ln (INR (fact k)) + ln (INR (fact (r - 1))) + 3) (ln (Binomial.C (k + r - 1) k)) (@log_negative_binomial_coefficient F r k).
Proof.
  intros LF CR CK R0. unfold log_negative_binomial_coefficient. pose proof (bpow_gt_0 radix2 40).
  destruct (sum_exact k r CK CR) as [N1 V1]. destruct (succ_exact k CK) as [N2 V2]. destruct (count_num L r CR) as (N3 & V3 & _). unfold count_ok in *.
  replace (k + r)%nat with (S (k + r - 1)) in V1 by lia. replace r with (S (r - 1)) in V3 at 2 by lia.
  assert (S1 : INR (k + r - 1) <= 2 * bpow radix2 40) by (apply Rle_trans with (INR (k + r)); [apply le_INR; lia|rewrite plus_INR; lra]).
  assert (S3 : INR (r - 1) <= INR r) by (apply le_INR; lia).
  destruct (lgamma_fact _ _ LF N1 V1 S1) as [A1 B1]. destruct (lgamma_fact _ _ LF N2 V2 ltac:(lra)) as [A2 B2]. destruct (lgamma_fact _ _ LF N3 V3 ltac:(lra)) as [A3 B3].
  pose proof (fact_bound (k + r - 1)). pose proof (fact_bound k). pose proof (fact_bound (r - 1)). sizes.
  replace (ln (Binomial.C (k + r - 1) k)) with (ln (INR (fact (k + r - 1))) - ln (INR (fact k)) - ln (INR (fact (r - 1)))).
  2:{ unfold Binomial.C, Rdiv. replace (k + r - 1 - k)%nat with (r - 1)%nat by lia. rewrite ln_mult, ln_Rinv, ln_mult; try apply INR_fact_lt_0; [ring| |apply Rinv_0_lt_compat]; apply Rmult_lt_0_compat; apply INR_fact_lt_0. }
  replace (c + 2) with (c + 1 + 1) by ring.
  eapply acc_more; [apply (acc_sub (c + 1)); [apply acc_sub; [exact A1|exact A2| | |]|apply (acc_k c); [exact A3|lra]| | |]|..]; ks.
Qed.
End Fact.
