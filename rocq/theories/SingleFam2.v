(** The exponential-family paths in binary32 (C73): factorials and discrete
    families; FactFloat and FamFloat2 at precision 24. *)
From Coquelicot Require Import Coquelicot.
From Coq Require Import ZArith Reals Bool String List Lia Lra.
From Coq Require Import Floats.SpecFloat.
From Flocq Require Import Core.
From Verif Require Import Num EggSpec FloatFacts
  DensitySpec CoreModel CombModel ExpFamModel DistModel DistSpec DistFacts BuilderProofs DistProofs Stirling FactProofs FamFloatSpec.
From Verif Require FactFloat RoundSpec.
From Verif Require Import SingleModel SingleSpec SingleErr SingleFloat SingleFamModel SingleFamSpec SingleFam SingleFloat2 SingleFloat3.
Import ListNotations.
Local Open Scope R_scope.

#[local] Instance Hprec32 : FLX.Prec_gt_0 24 := eq_refl _.

(** A nearby target. *)
Lemma acc_shift k j m r r' w : acc k m r w -> Rabs (r - r') <= j * eps32 -> 1 <= m -> Rabs r' <= m -> 0 <= k -> 0 <= j -> acc (k + j) m r' w.
Proof.
  intros (N & _ & E) S M R K J. split; [exact N|]. split; [exact R|]. pose proof (gam_prod k j) as G. pose proof (gam_pos k K). pose proof (gam_pos j J). pose proof (gam_lin j).
  replace (val w - r') with ((val w - r) + (r - r')) by ring. eapply Rle_trans; [apply Rabs_triang|].
  assert (gam j <= gam j * m) by nra. assert (0 <= gam k * gam j) by (apply Rmult_le_pos; assumption). nra.
Qed.

(** The table of the first 21 values. *)
Ltac explicit w := let v := eval vm_compute in w in replace w with v by (vm_compute; reflexivity); rewrite val_explicit; cbn [cond_Zopp bpow];
  match goal with |- context [Z.pow_pos ?b ?e] => let z := eval vm_compute in (Z.pow_pos b e) in change (Z.pow_pos b e) with z end.
Lemma table_float L k : (k <= 20)%nat -> is_single (nth k (@log_factorial_table (F32 L)) (f32_of_Z 0)) /\ Rabs (val (nth k (@log_factorial_table (F32 L)) (f32_of_Z 0)) - tabR k) <= 2 / 10 ^ 6.
Proof.
  intros K. unfold log_factorial_table, tabR, tabZ.
  do 2 (destruct k as [|k]; [cbn [nth fst snd]; destruct zero_num as [N V]; split; [exact N|]; change (@n0 (F32 L)) with (f32_of_Z 0); rewrite V, Rabs_right; lra|]).
  do 19 (destruct k as [|k]; [cbn [nth fst snd]; match goal with |- is_single (@ndec _ ?a ?b) /\ _ => change (@ndec (F32 L) a b) with (f32_dec a b); split; [vm_compute; split; reflexivity|explicit (f32_dec a b); apply Rabs_le; lra] end|]).
  lia.
Qed.

(** A probability below one is at most 1 - 2^-24. *)
Lemma below_one p : is_single p -> val p < 1 -> val p <= 1 - bpow radix2 (-24).
Proof.
  intros N P. assert (F : generic_format radix2 (FLT_exp (-149) 24) (val p)) by (apply format_val, N).
  assert (F1 : generic_format radix2 (FLT_exp (-149) 24) 1) by (change 1 with (bpow radix2 0); apply generic_format_bpow; unfold FLT_exp; lia).
  pose proof (pred_ge_gt radix2 (FLT_exp (-149) 24) (val p) 1 F F1 P) as H.
  change 1 with (bpow radix2 0) in H. rewrite pred_bpow in H. exact H.
Qed.
(** Another target for a relative bound. *)
Lemma rel_target k j a b w : rel k a w -> exp (- (j * eps32)) <= a / b <= exp (j * eps32) -> b <> 0 -> rel (k + j) b w.
Proof.
  intros (N & Z & A & B) [C D] ZB. split; [exact N|]. split; [exact ZB|].
  replace (val w / b) with (val w / a * (a / b)) by (field; split; assumption).
  pose proof (exp_pos (- (k * eps32))). pose proof (exp_pos (- (j * eps32))).
  replace (- ((k + j) * eps32)) with (- (k * eps32) + - (j * eps32)) by ring. replace ((k + j) * eps32) with (k * eps32 + j * eps32) by ring. rewrite !exp_plus.
  split; apply Rmult_le_compat; lra.
Qed.

Lemma gam_seven k : 0 <= k -> 7 * gam k <= gam (7 * k).
Proof.
  intros K. pose proof (gam_pos k K). pose proof (gam_prod k k). pose proof (gam_prod (k + k) k). pose proof (gam_prod (k + k + k) (k + k + k)). pose proof (gam_prod (k + k + k + (k + k + k)) k).
  pose proof (gam_pos (k + k) ltac:(lra)). pose proof (gam_pos (k + k + k) ltac:(lra)). pose proof (gam_pos (k + k + k + (k + k + k)) ltac:(lra)).
  replace (7 * k) with (k + k + k + (k + k + k) + k) by ring. nra.
Qed.


Section Fact.
Context (c : R) (lg : R -> R) (L : libm32) (LOK : libm32_ok c lg L) (C0 : 0 <= c <= 1000).
Notation F := (F32 L).

Lemma pow_unit q j : 0 <= q <= 1 -> 0 <= q ^ j <= 1.
Proof. intros Q. split; [apply pow_le; lra|]. rewrite <- (pow1 j). apply pow_incr. lra. Qed.
Lemma acc_pow u v q i j a b : 0 <= q <= / 2 -> acc a (/ 2 + / 1000) (q ^ i) u -> acc b (/ 2 + / 1000) (q ^ j) v -> 0 <= a <= 100 -> 0 <= b <= 100 ->
  acc (a + b + 1) (/ 2 + / 1000) (q ^ (i + j)) (f32_mul u v).
Proof. intros Q U V A B. sizes. rewrite pow_add. eapply acc_more; [apply acc_mul; [exact U|exact V| | | |]|..]; ks. Qed.
Lemma acc_over u q i a d : 0 <= q <= 1 -> acc a (/ 2 + / 1000) (q ^ i) u -> 0 <= a <= 100 -> (1 <= d <= 2048)%Z ->
  acc (a + 2) ((/ 2 + / 1000) * / IZR d + small32) (q ^ i * / IZR d) (f32_mul u (f32_div (f32_of_Z 1) (f32_of_Z d))).
Proof.
  intros Q U A [D1 D2]. apply IZR_le in D1, D2. destruct one_num as [N1 V1]. sizes.
  destruct (num_int d) as [ND VD]. { apply le_IZR in D1, D2. lia. }
  assert (P1 : / 2048 <= / IZR d <= 1) by (split; [apply Rinv_le_contravar; lra|rewrite <- Rinv_1; apply Rinv_le_contravar; lra]).
  assert (RD : acc 1 (/ IZR d) (/ IZR d) (f32_div (f32_of_Z 1) (f32_of_Z d))).
  { rewrite <- (Rabs_pos_eq (/ IZR d)) at 1 by lra. apply rel_acc; [lra|]. replace 1 with (0 + 0 + 1) at 1 by lra. replace (/ IZR d) with (1 / IZR d) by (field; lra).
    apply rel_div; ks; [apply rel_is; [exact N1|exact V1|lra]|apply rel_is; [exact ND|exact VD|lra]|].
    replace (1 / IZR d) with (/ IZR d) by (field; lra). split; rewrite Rabs_pos_eq by lra; lra. }
  replace (a + 2) with (a + 1 + 1) by ring. apply acc_mul; ks; [exact U|exact RD].
Qed.

Lemma stirling_float k : (2 <= k)%nat -> count32_ok k -> let K := INR k in
  acc (c + 19) (K * ln K + K + / 2 * ln K + 3) (K * ln K - K + / 2 * ln (2 * PI * K) + S4 K) (@stirling F k).
Proof.
  intros K2 CK K. destruct (count_num L k CK) as (NK & VK & BK). assert (K1 : 2 <= K) by (unfold K; replace 2 with (INR 2) by reflexivity; apply le_INR; exact K2). fold K in VK, BK.
  unfold stirling. replace (Nat.leb k 1) with false by (symmetry; apply Nat.leb_gt; lia). cbv zeta.
  set (kf := @nofn F k) in *. set (inv := @ndiv F n1 kf).
  change (@nint F 12) with (f32_of_Z 12). change (@nint F 360) with (f32_of_Z 360). change (@nint F 1260) with (f32_of_Z 1260). change (@nint F 1680) with (f32_of_Z 1680).
  change (@n1 F) with (f32_of_Z 1) in *. change (@n2 F) with (f32_of_Z 2). change (@nhalf F) with (f32_dec 5 10). change (@npi F) with f32_pi. change (@nln F) with (s_ln L).
  change (@nmul F) with f32_mul. change (@nadd F) with f32_add. change (@nsub F) with f32_sub. change (@ndiv F) with f32_div in *.
  destruct one_num as [N1 V1]. destruct two_num as [N2 V2]. destruct half_dec as [NH VH]. sizes. pose proof pi_bounds as PB. pose proof ln_two_pi as LP.
  assert (LK0 : 0 <= ln K) by (rewrite <- ln_1; apply ln_le; lra).
  assert (LK1 : ln K <= 1074) by (rewrite <- VK, <- (Rabs_pos_eq (ln (val kf))) by (rewrite VK; exact LK0); apply ln_any; [exact NK|lra]).
  assert (KB : K * (ln K + 1) <= huge32).
  { apply Rle_trans with (2000000000000 * 2000); [apply Rmult_le_compat; lra|]. apply Rle_trans with (bpow radix2 60); [change (bpow radix2 60) with 1152921504606846976; lra|apply bpow_le; lia]. }
  assert (KS : K * small32 <= / 1000).
  { apply Rle_trans with (bpow radix2 41 * bpow radix2 (-100)); [apply Rmult_le_compat; try lra; unfold small32; try apply bpow_ge_0; try lra; change (bpow radix2 41) with 2199023255552; lra|].
    rewrite <- bpow_plus. apply Rle_trans with (bpow radix2 (-10)); [apply bpow_le; lia|change (bpow radix2 (-10)) with (/ 1024); lra]. }
  assert (KL : 0 <= K * ln K) by (apply Rmult_le_pos; lra).
  assert (T1 : acc (c + 1) (K * ln K + / 100) (K * ln K) (f32_mul kf (s_ln L kf))).
  { pose proof (acc_lnx c lg L LOK kf NK ltac:(lra)) as A. rewrite VK, (Rabs_pos_eq _ LK0) in A.
    eapply acc_more; [eapply acc_mul; [apply (acc_is kf K K NK VK); rewrite Rabs_pos_eq; lra|exact A| | | |]|..]; ks. }
  assert (T2 : acc (c + 2) (K * ln K + / 100 + K) (K * ln K - K) (f32_sub (f32_mul kf (s_ln L kf)) kf)).
  { replace (c + 2) with (c + 1 + 1) by ring. apply acc_sub; ks; [exact T1|]. apply (acc_k 0); [apply acc_is; [exact NK|exact VK|rewrite Rabs_pos_eq; lra]|lra]. }
  assert (R2 : rel 2 (2 * PI) (f32_mul (f32_of_Z 2) f32_pi)).
  { replace 2 with (0 + 1 + 1) at 1 by lra. apply rel_mul; ks; [apply rel_is; [exact N2|exact V2|lra]|exact rel_pi|]. split; rewrite Rabs_pos_eq by lra; lra. }
  assert (W : 6 * K <= 2 * PI * K <= 7 * K) by (split; apply Rmult_le_compat_r; lra).
  assert (HB : 14000000000000 <= huge32) by (apply Rle_trans with (bpow radix2 60); [change (bpow radix2 60) with 1152921504606846976; lra|apply bpow_le; lia]).
  assert (R3 : rel 3 (2 * PI * K) (f32_mul (f32_mul (f32_of_Z 2) f32_pi) kf)).
  { replace 3 with (2 + 0 + 1) by lra. apply rel_mul; ks; [exact R2|apply rel_is; [exact NK|exact VK|lra]|]. split; rewrite Rabs_pos_eq by lra; lra. }
  assert (LE : ln (2 * PI * K) = ln (2 * PI) + ln K) by (rewrite !ln_mult by lra; reflexivity).
  assert (T3 : acc (c + 7) (/ 2 * ln K + 1.6) (/ 2 * ln (2 * PI * K)) (f32_mul (f32_dec 5 10) (s_ln L (f32_mul (f32_mul (f32_of_Z 2) f32_pi) kf)))).
  { pose proof (acc_lnr c lg L LOK C0 3 _ _ R3 ltac:(lra) ltac:(lra)) as A. rewrite (Rabs_pos_eq (ln (2 * PI * K))) in A by lra.
    eapply acc_more; [eapply acc_mul; [apply (acc_is _ (/ 2) (/ 2) NH VH); rewrite Rabs_pos_eq; lra|exact A| | | |]|..]; ks. }
  assert (T4 : acc (c + 8) (K * ln K + / 100 + K + (/ 2 * ln K + 1.6)) (K * ln K - K + / 2 * ln (2 * PI * K))
    (f32_add (f32_sub (f32_mul kf (s_ln L kf)) kf) (f32_mul (f32_dec 5 10) (s_ln L (f32_mul (f32_mul (f32_of_Z 2) f32_pi) kf))))).
  { replace (c + 8) with (c + 7 + 1) by ring. apply acc_add; ks; [apply (acc_k (c + 2)); [exact T2|lra]|exact T3]. }
  set (q := / K).
  assert (Q : 0 < q <= / 2) by (unfold q; split; [apply Rinv_0_lt_compat; lra|apply Rinv_le_contravar; lra]).
  assert (Q' : / 2000000 <= q) by (unfold q; apply Rinv_le_contravar; lra).
  assert (I1 : acc 1 (/ 2 + / 1000) (q ^ 1) inv).
  { rewrite pow_1. assert (R1 : rel 1 q inv).
    { replace 1 with (0 + 0 + 1) at 1 by lra. replace q with (1 / K) by (unfold q; field; lra). apply rel_div; ks; [apply rel_is; [exact N1|exact V1|lra]|apply rel_is; [exact NK|exact VK|lra]|].
      replace (1 / K) with q by (unfold q; field; lra). split; rewrite Rabs_pos_eq by lra; lra. }
    apply rel_acc in R1; [|lra]. rewrite Rabs_pos_eq in R1 by lra. eapply acc_more; [exact R1|lra|lra]. }
  pose proof (acc_pow _ _ q 1 1 1 1 ltac:(lra) I1 I1 ltac:(lra) ltac:(lra)) as I2. cbn [Nat.add] in I2. fold q in I2.
  pose proof (acc_pow _ _ q 2 1 _ 1 ltac:(lra) I2 I1 ltac:(lra) ltac:(lra)) as I3. cbn [Nat.add] in I3.
  pose proof (acc_pow _ _ q 3 2 _ _ ltac:(lra) I3 I2 ltac:(lra) ltac:(lra)) as I5. cbn [Nat.add] in I5.
  pose proof (acc_pow _ _ q 5 2 _ _ ltac:(lra) I5 I2 ltac:(lra) ltac:(lra)) as I7. cbn [Nat.add] in I7.
  pose proof (acc_over _ q 1 _ 12 ltac:(lra) I1 ltac:(lra) ltac:(lia)) as A1.
  pose proof (acc_over _ q 3 _ 360 ltac:(lra) I3 ltac:(lra) ltac:(lia)) as A3.
  pose proof (acc_over _ q 5 _ 1260 ltac:(lra) I5 ltac:(lra) ltac:(lia)) as A5.
  pose proof (acc_over _ q 7 _ 1680 ltac:(lra) I7 ltac:(lra) ltac:(lia)) as A7.
  assert (SV : S4 K = q ^ 1 * / 12 - q ^ 3 * / 360 + q ^ 5 * / 1260 - q ^ 7 * / 1680) by (unfold S4, q; field; lra).
  rewrite SV. set (p1 := q ^ 1 * / 12) in *. set (p3 := q ^ 3 * / 360) in *. set (p5 := q ^ 5 * / 1260) in *. set (p7 := q ^ 7 * / 1680) in *.
  match goal with |- acc _ _ _ (f32_add _ ?w) => assert (TC : acc 18 ((/ 2 + / 1000) * / 12 + small32 + ((/ 2 + / 1000) * / 360 + small32) + ((/ 2 + / 1000) * / 1260 + small32) + ((/ 2 + / 1000) * / 1680 + small32)) (p1 - p3 + p5 - p7) w) end.
  { replace 18 with (15 + 1 + 1 + 1) by lra. apply acc_sub; ks; [apply acc_add; ks; [apply acc_sub; ks|]|].
    - eapply acc_k; [exact A1|lra].
    - eapply acc_k; [exact A3|lra].
    - eapply acc_k; [exact A5|lra].
    - eapply acc_k; [exact A7|lra]. }
  replace (c + 19) with (c + 18 + 1) by ring.
  eapply acc_more; [apply (acc_add (c + 18)); [apply (acc_k (c + 8)); [exact T4|lra]|apply (acc_k 18); [exact TC|lra]| | |]|..]; ks.
Qed.

(** The scale of ln k! and of the errors in computing it. *)
Lemma fact_bound k : 0 <= ln (INR (fact k)) <= INR k * ln (INR k + 1).
Proof.
  induction k as [|k IH]; [cbn; rewrite ln_1; lra|].
  change (fact (S k)) with (S k * fact k)%nat. rewrite mult_INR, ln_mult by (try apply INR_fact_lt_0; apply lt_0_INR; lia).
  pose proof (pos_INR k) as P. rewrite S_INR. 
  assert (A : 0 <= ln (INR k + 1)) by (rewrite <- ln_1; apply ln_le; lra).
  assert (B : ln (INR k + 1) <= ln (INR k + 1 + 1)) by (apply ln_le; lra).
  split; [lra|]. assert (INR k * ln (INR k + 1) <= INR k * ln (INR k + 1 + 1)) by (apply Rmult_le_compat_l; lra). lra.
Qed.
Lemma fact_scale_pos k : INR k * ln (INR k + 1) + 4 <= fact_scale k.
Proof.
  unfold fact_scale. pose proof (pos_INR k). assert (A : 0 <= ln (INR k + 1)) by (rewrite <- ln_1; apply ln_le; lra). nra.
Qed.
Lemma log_factorial_float k : count32_ok k -> acc (c + 60) (fact_scale k) (ln (INR (fact k))) (@log_factorial F k).
Proof.
  intros CK. pose proof (fact_bound k) as FB. pose proof (fact_scale_pos k) as FS. sizes.
  assert (FA : Rabs (ln (INR (fact k))) <= fact_scale k) by (rewrite Rabs_pos_eq; lra).
  assert (E20 : 2 / 10 ^ 7 <= 2 * eps32).
  { unfold eps32. rewrite (pow_IZR 2 23). change (2 ^ Z.of_nat 23)%Z with 8388608%Z. lra. }
  unfold log_factorial. destruct (Nat.leb k 20) eqn:K.
  - apply Nat.leb_le in K. destruct (table_float L k K) as [N D]. pose proof (tabR_close k K) as T.
    change (@n0 F) with (f32_of_Z 0). set (w := nth k _ _) in *. split; [exact N|]. split; [exact FA|].
    apply Rle_trans with (40 * eps32 * 1).
    + replace (val w - ln (INR (fact k))) with ((val w - tabR k) + (tabR k - ln (INR (fact k)))) by ring. eapply Rle_trans; [apply Rabs_triang|]. lra.
    + pose proof (gam_lin (c + 60)). apply Rmult_le_compat; try lra; nra.
  - apply Nat.leb_gt in K. pose proof (stirling_float k ltac:(lia) CK) as A. cbv zeta in A.
    pose proof (stirling_series k ltac:(lia)) as B.
    assert (P : 21 <= INR k) by (replace 21 with (INR 21) by (rewrite INR_IZR_INZ; reflexivity); apply le_INR; lia).
    assert (LK : 0 <= ln (INR k) <= ln (INR k + 1)) by (split; [rewrite <- ln_1|]; apply ln_le; lra).
    assert (T : T5 (INR k) <= 2 * eps32).
    { eapply Rle_trans; [|exact E20]. unfold T5. apply Rle_trans with (/ (1188 * 21 ^ 9)).
      - apply Rinv_le_contravar; [apply Rmult_lt_0_compat; [lra|apply pow_lt; lra]|]. apply Rmult_le_compat_l; [lra|]. apply pow_incr. lra.
      - apply (Rmult_le_reg_r (1188 * 21 ^ 9)); [apply Rmult_lt_0_compat; [lra|apply pow_lt; lra]|]. rewrite Rinv_l; [|apply Rgt_not_eq, Rmult_lt_0_compat; [lra|apply pow_lt; lra]]. lra. }
    set (v := INR k * ln (INR k) - INR k + / 2 * ln (2 * PI * INR k) + S4 (INR k)) in *. clearbody v.
    assert (M : INR k * ln (INR k) + INR k + / 2 * ln (INR k) + 3 <= fact_scale k).
    { unfold fact_scale. assert (INR k * ln (INR k) <= INR k * ln (INR k + 1)) by (apply Rmult_le_compat_l; lra). lra. }
    apply acc_more with (c + 19 + 10) (fact_scale k); [|lra|lra].
    apply (acc_shift (c + 19) 10 (fact_scale k) v); try lra.
    + eapply acc_more; [exact A|lra|exact M].
    + apply Rabs_le. lra.
Qed.
Lemma fact_scale_size k : count32_ok k -> fact_scale k <= huge32.
Proof.
  intros CK. destruct (count_num L k CK) as (_ & _ & BK). sizes. unfold fact_scale.
  assert (LB : 0 <= ln (INR k + 1) <= 1000).
  { split; [rewrite <- ln_1; apply ln_le; lra|]. apply Rle_trans with (ln (bpow radix2 60)); [apply ln_le; [lra|change (bpow radix2 60) with 1152921504606846976; lra]|].
    rewrite ln_bpow. destruct ln2_bounds. lra. }
  apply Rle_trans with (3000000000000 * 1001 + 3); [apply Rplus_le_compat_r, Rmult_le_compat; lra|].
  apply Rle_trans with (bpow radix2 60); [change (bpow radix2 60) with 1152921504606846976; lra|apply bpow_le; lia].
Qed.


Lemma exp_rel y : is_single y -> Rabs (val y) <= 60 -> rel (4 * c) (exp (val y)) (s_exp L y).
Proof.
  intros N B. apply Rabs_le_inv in B. sizes.
  assert (UP : exp 60 <= bpow radix2 90).
  { rewrite <- (exp_ln (bpow radix2 90)) by apply bpow_gt_0. apply exp_le. rewrite ln_bpow. destruct ln2_bounds. lra. }
  assert (LO : / bpow radix2 90 <= exp (val y)).
  { apply Rle_trans with (/ exp 60); [apply Rinv_le_contravar; [apply exp_pos|exact UP]|]. rewrite <- exp_Ropp. apply exp_le. lra. }
  destruct (ok32_exp c lg L LOK y N ltac:(lra)) as [NE E]. replace (4 * c) with (2 * (2 * c)) by ring.
  assert (SE : small32 <= exp (val y)). { eapply Rle_trans; [|apply LO]. rewrite <- bpow_opp. apply bpow_le. lia. }
  apply rel_of_acc; ks. split; [exact NE|]. split; [rewrite Rabs_pos_eq; [lra|left; apply exp_pos]|].
  eapply Rle_trans; [exact E|]. apply Rle_trans with (c * eps32 * (2 * exp (val y))); [apply Rmult_le_compat_l; [apply Rmult_le_pos; lra|lra]|].
  pose proof (gam_lin (2 * c)). pose proof (exp_pos (val y)). replace (c * eps32 * (2 * exp (val y))) with (2 * c * eps32 * exp (val y)) by ring. apply Rmult_le_compat_r; lra.
Qed.
Lemma exp_acc k m r u : acc k m r u -> Rabs r <= 59 -> 0 <= k -> k * m * eps32 <= / 8 -> k * eps32 <= / 4 -> rel (4 * c + 2 * k * m) (exp r) (s_exp L u).
Proof.
  intros A R K S S'. pose proof (acc_pos _ _ _ _ A) as M. destruct A as (N & _ & E). pose proof (gam_up k K S') as G.
  assert (E' : Rabs (val u - r) <= 2 * k * m * eps32) by (eapply Rle_trans; [exact E|]; replace (2 * k * m * eps32) with (2 * k * eps32 * m) by ring; apply Rmult_le_compat_r; assumption).
  apply Rabs_le_inv in R. apply Rabs_le_inv in E'.
  pose proof (exp_rel u N ltac:(apply Rabs_le; lra)) as RE.
  apply (rel_target _ _ _ _ _ RE); [|apply Rgt_not_eq, exp_pos].
  replace (exp (val u) / exp r) with (exp (val u - r)) by (unfold Rminus, Rdiv; rewrite exp_plus, exp_Ropp; reflexivity). split; apply exp_le; lra.
Qed.

(** The natural parameter of a probability, its exponential and the log partition. *)
Lemma logit_range p : bpow radix2 (-80) <= p <= 1 - bpow radix2 (-24) -> Rabs (logit_of p) <= 56 /\ 0 < p / (1 - p) <= bpow radix2 24 /\ bpow radix2 (-80) <= p / (1 - p).
Proof.
  intros [A B]. pose proof (bpow_gt_0 radix2 (-80)). pose proof (bpow_gt_0 radix2 (-24)). destruct ln2_bounds as [L1 L2].
  assert (P1 : p / (1 - p) <= bpow radix2 24).
  { apply (Rmult_le_reg_r (1 - p)); [lra|]. unfold Rdiv. rewrite Rmult_assoc, Rinv_l, Rmult_1_r by lra. apply Rle_trans with 1; [lra|].
    replace 1 with (bpow radix2 24 * bpow radix2 (-24)) at 1 by (rewrite <- bpow_plus; reflexivity). apply Rmult_le_compat_l; [apply bpow_ge_0|lra]. }
  assert (P2 : bpow radix2 (-80) <= p / (1 - p)).
  { eapply Rle_trans; [exact A|]. apply (Rmult_le_reg_r (1 - p)); [lra|]. unfold Rdiv. rewrite (Rmult_assoc p), Rinv_l, Rmult_1_r by lra. nra. }
  split; [|lra]. unfold logit_of. apply Rabs_le. split.
  - apply Rle_trans with (ln (bpow radix2 (-80))); [rewrite ln_bpow; lra|apply ln_le; lra].
  - apply Rle_trans with (ln (bpow radix2 24)); [apply ln_le; lra|rewrite ln_bpow; lra].
Qed.
Lemma logit_parts p : is_single p -> bpow radix2 (-80) <= val p -> val p < 1 ->
  let P := val p in let lo := @log_odds F p in
  acc (c + 4) (odds_scale P) (logit_of P) lo /\ rel (odds_units c P) (P / (1 - P)) (s_exp L lo) /\
  rel (odds_units c P + 1) (/ (1 - P)) (f32_add (f32_of_Z 1) (s_exp L lo)) /\
  acc (c + 2 * (odds_units c P + 1)) (Rabs (ln (1 - P)) + 1) (- ln (1 - P)) (s_ln L (f32_add (f32_of_Z 1) (s_exp L lo))) /\
  1 <= odds_scale P <= 57 /\ 0 <= odds_units c P <= 118 * c + 456 /\ Rabs (ln (1 - P)) <= 1075.
Proof.
  intros N A B P lo. pose proof (below_one p N B) as B'. fold P in A, B, B'. destruct (logit_range P (conj A B')) as (L1 & L2 & L3). pose proof (bpow_gt_0 radix2 (-80)) as Z. destruct one_num as [N1 V1]. sizes.
  assert (LS : 1 <= odds_scale P <= 57) by (unfold odds_scale; pose proof (Rabs_pos (logit_of P)); lra).
  assert (KE : 0 <= odds_units c P <= 118 * c + 456).
  { unfold odds_units. split; [apply Rplus_le_le_0_compat; [lra|apply Rmult_le_pos; lra]|]. assert (2 * (c + 4) * odds_scale P <= 2 * (c + 4) * 57) by (apply Rmult_le_compat; lra). lra. }
  assert (LQ : Rabs (ln (1 - P)) <= 1075) by (apply ln_one_minus; [exact N|fold P; lra]).
  assert (RQ : rel 1 (1 - P) (f32_sub (f32_of_Z 1) p)).
  { apply rel_diff'; try assumption; rewrite ?V1; [reflexivity|lra|]. rewrite !Rabs_pos_eq by (fold P; lra). fold P. lra. }
  assert (BB : bpow radix2 24 <= huge32) by (apply bpow_le; lia).
  assert (RO : rel 2 (P / (1 - P)) (f32_div p (f32_sub (f32_of_Z 1) p))).
  { replace 2 with (0 + 1 + 1) by lra. apply rel_div; ks; [apply rel_is; [exact N|reflexivity|lra]|exact RQ|]. split; rewrite Rabs_pos_eq by lra; [|lra].
    eapply Rle_trans; [|exact L3]. unfold small32. change 2 with (bpow radix2 1). rewrite <- bpow_plus. apply bpow_le. lia. }
  assert (A1 : acc (c + 4) (odds_scale P) (logit_of P) lo).
  { pose proof (acc_lnr c lg L LOK C0 2 _ _ RO ltac:(lra) ltac:(lra)) as T. replace (c + 4) with (c + 2 * 2) by ring. exact T. }
  assert (EO : exp (logit_of P) = P / (1 - P)) by (unfold logit_of; apply exp_ln; lra).
  assert (R1 : rel (odds_units c P) (P / (1 - P)) (s_exp L lo)).
  { rewrite <- EO. unfold odds_units. apply exp_acc; ks; [exact A1|].
    assert ((c + 4) * odds_scale P <= (c + 4) * 57) by (apply Rmult_le_compat; lra). nra. }
  assert (R2 : rel (odds_units c P + 1) (/ (1 - P)) (f32_add (f32_of_Z 1) (s_exp L lo))).
  { replace (/ (1 - P)) with (1 + P / (1 - P)) by (field; lra). apply rel_add; ks; [|exact R1]. apply rel_more with 0; [apply rel_is; [exact N1|exact V1|lra]|lra]. }
  split; [exact A1|]. split; [exact R1|]. split; [exact R2|]. split; [|split; [exact LS|split; [exact KE|exact LQ]]].
  pose proof (acc_ln c lg L LOK (proj1 C0) (odds_units c P + 1) (/ (1 - P)) _ R2 ltac:(apply Rinv_0_lt_compat; lra) ltac:(lra) ltac:(apply keps; lra)) as T.
  rewrite ln_Rinv, Rabs_Ropp in T by lra. exact T.
Qed.
Lemma count_mul k j l m w : count32_ok k -> acc j m l w -> 0 <= j <= 1900000 -> m <= 2000 ->
  acc (j + 1) (INR k * m + small32) (INR k * l) (f32_mul (@nofn F k) w) /\ acc (j + 1) (INR k * m + small32) (l * INR k) (f32_mul w (@nofn F k)) /\ 0 <= INR k * m <= huge32.
Proof.
  intros K A J M. destruct (count_num L k K) as (N & V & B). sizes. pose proof (acc_pos _ _ _ _ A) as M0.
  assert (KM : INR k * m <= huge32).
  { apply Rle_trans with (2000000000000 * 2000); [apply Rmult_le_compat; lra|]. apply Rle_trans with (bpow radix2 60); [change (bpow radix2 60) with 1152921504606846976; lra|apply bpow_le; lia]. }
  split; [|split; [|split; [apply Rmult_le_pos; lra|exact KM]]].
  - replace (j + 1) with (0 + j + 1) by ring. apply acc_mul; ks; [apply acc_count; exact K|exact A].
  - replace (j + 1) with (j + 0 + 1) by ring. rewrite (Rmult_comm (INR k) m). apply acc_mul; ks; [exact A|apply acc_count; exact K].
Qed.

(** Bernoulli. *)
Lemma bernoulli_fam_float p k : is_single p -> bpow radix2 (-80) <= val p -> val p < 1 -> (k <= 1)%nat ->
  acc (family_units c (val p)) (INR k * odds_scale (val p) + Rabs (ln (1 - val p)) + 2) (ln (bernoulli_pmf (val p) k)) (ef_density (bernoulli_expfam (@mkBernoulli F p)) k).
Proof.
  intros N A B K. pose proof (bpow_gt_0 radix2 (-80)). destruct (logit_parts p N A B) as (T1 & _ & _ & T2 & LS & KE & LQ). cbv zeta in *. sizes.
  change (ef_density (bernoulli_expfam (@mkBernoulli F p)) k) with
    (f32_add (f32_sub (f32_add (f32_of_Z 0) (f32_mul (@log_odds F p) (@nofn F k))) (s_ln L (f32_add (f32_of_Z 1) (s_exp L (@log_odds F p))))) (f32_of_Z 0)).
  assert (CK : count32_ok k). { unfold count32_ok. apply Rle_trans with (INR 1); [apply le_INR, K|]. change (bpow radix2 40) with 1099511627776. cbn; lra. }
  destruct (count_mul k _ _ _ _ CK T1 ltac:(lra) ltac:(lra)) as (_ & T3 & KM).
  replace (ln (bernoulli_pmf (val p) k)) with (logit_of (val p) * INR k - - ln (1 - val p) + 0).
  2:{ unfold logit_of. destruct k as [|[|k]]; [| |lia]; cbn [bernoulli_pmf INR]; [ring|]. unfold Rdiv. rewrite ln_mult, ln_Rinv by (try apply Rinv_0_lt_compat; lra). ring. }
  set (lq := ln (1 - val p)) in *. pose proof (Rabs_pos lq).
  assert (K5 : c + 4 + 1 <= c + 2 * (odds_units c (val p) + 1) + 3) by lra.
  eapply acc_more; [apply (ef_one (c + 2 * (odds_units c (val p) + 1) + 3)); [apply (acc_k (c + 4 + 1)); [exact T3|lra]|eapply acc_k; [exact T2|lra]|apply (acc_k 0); [exact acc_zero|lra]| |]|..]; unfold family_units; ks.
Qed.

Lemma fact_size k : count32_ok k -> 0 <= ln (INR (fact k)) <= huge32.
Proof. intros K. pose proof (fact_bound k). pose proof (fact_scale_pos k). pose proof (fact_scale_size k K). lra. Qed.
Lemma count_le n k : count32_ok n -> (k <= n)%nat -> count32_ok k.
Proof. intros N K. unfold count32_ok in *. pose proof (le_INR _ _ K). lra. Qed.

Lemma count_double n : count32_ok n -> RoundSpec.count_ok n.
Proof. unfold count32_ok, RoundSpec.count_ok. intros H. eapply Rle_trans; [exact H|]. apply bpow_le. lia. Qed.
Lemma ln_fact_pos n : 0 <= ln (INR (fact n)). Proof. apply fact_bound. Qed.
Lemma choose_size n k : (k <= n)%nat -> Rabs (ln (Binomial.C n k)) <= ln (INR (fact n)) + ln (INR (fact k)) + ln (INR (fact (n - k))) + 3.
Proof.
  intros K. pose proof (ln_fact_pos n). pose proof (ln_fact_pos k). pose proof (ln_fact_pos (n - k)).
  unfold Binomial.C. unfold Rdiv. rewrite ln_mult, ln_Rinv, ln_mult by (repeat first [apply Rmult_lt_0_compat|apply Rinv_0_lt_compat|apply INR_fact_lt_0]). apply Rabs_le. lra.
Qed.
(** Binomial. *)
Lemma binomial_fam_float d n p k : RoundSpec.libm_ok d lg (s_double L) -> 0 <= d <= 1000000 -> lg_factorial lg -> is_single p -> bpow radix2 (-80) <= val p -> val p < 1 -> (k <= n)%nat -> count32_ok n ->
  acc (family_units c (val p)) (INR k * odds_scale (val p) + INR n * (Rabs (ln (1 - val p)) + 1) + (ln (INR (fact n)) + ln (INR (fact k)) + ln (INR (fact (n - k))) + 3) + 1)
    (ln (binomial_pmf n (val p) k)) (ef_density (binomial_expfam32 L (@mkBinomial F n p)) k).
Proof.
  intros LD D0 LF N A B K CN. pose proof (bpow_gt_0 radix2 (-80)). destruct (logit_parts p N A B) as (T1 & _ & _ & T2 & LS & KE & LQ). cbv zeta in *. sizes.
  pose proof (count_le n k CN K) as CK. pose proof (count_le n (n - k) CN ltac:(lia)) as CD.
  change (ef_density (binomial_expfam32 L (@mkBinomial F n p)) k) with
    (f32_add (f32_sub (f32_add (f32_of_Z 0) (f32_mul (@log_odds F p) (@nofn F k))) (f32_mul (@nofn F n) (s_ln L (f32_add (f32_of_Z 1) (s_exp L (@log_odds F p))))))
      (b_ld (binomial_measure32 L n) k)).
  unfold binomial_measure32. cbn [b_ld]. replace (Nat.ltb n k) with false by (symmetry; apply Nat.ltb_ge, K).
  destruct (count_mul k _ _ _ _ CK T1 ltac:(lra) ltac:(lra)) as (_ & T3 & KM).
  destruct (count_mul n _ _ _ _ CN T2 ltac:(lra) ltac:(lra)) as (T4 & _ & KN).
  pose proof (binomial_coefficient_single d lg L n k LD D0 LF (count_double n CN) K) as T5. apply acc_of_within in T5; [|apply choose_size; exact K].
  pose proof (fact_size n CN). pose proof (fact_size k CK). pose proof (fact_size _ CD).
  replace (ln (binomial_pmf n (val p) k)) with (logit_of (val p) * INR k - INR n * - ln (1 - val p) + ln (Binomial.C n k)).
  2:{ rewrite ln_binomial_pmf by (try lra; exact K). unfold logit_of, Rdiv. rewrite ln_mult, ln_Rinv by (try apply Rinv_0_lt_compat; lra). ring. }
  set (lq := Rabs (ln (1 - val p))) in *.
  eapply acc_more; [apply (ef_one (c + 2 * (odds_units c (val p) + 1) + 3)); [apply (acc_k (c + 4 + 1)); [exact T3|lra]|eapply acc_k; [exact T4|lra]|apply (acc_k 1); [exact T5|lra]| |]|..]; unfold family_units; ks.
Qed.

(** Poisson. *)
Lemma poisson_fam_float rate k : is_single rate -> 0 < val rate <= huge32 -> count32_ok k ->
  acc (c + 63) (INR k * (Rabs (ln (val rate)) + 1) + val rate + fact_scale k + 1) (ln (poisson_pmf (val rate) k)) (ef_density (poisson_expfam (@mkPoisson F rate)) k).
Proof.
  intros N P K. sizes. rewrite ln_poisson_pmf by apply P.
  change (ef_density (poisson_expfam (@mkPoisson F rate)) k) with
    (f32_add (f32_sub (f32_add (f32_of_Z 0) (f32_mul (s_ln L rate) (@nofn F k))) rate) (SFopp (@log_factorial F k))).
  pose proof (ln_any rate N ltac:(lra)) as L1. pose proof (acc_lnx c lg L LOK rate N ltac:(lra)) as T0.
  destruct (count_mul k c (ln (val rate)) (Rabs (ln (val rate)) + 1) (s_ln L rate) K) as (_ & T1 & KM); [eapply acc_more; [exact T0|lra|lra]|lra|lra|].
  pose proof (acc_neg _ _ _ _ (log_factorial_float k K)) as T2. pose proof (fact_scale_size k K). pose proof (fact_scale_pos k). pose proof (fact_bound k).
  replace (INR k * ln (val rate) - val rate - ln (INR (fact k))) with (ln (val rate) * INR k - val rate + - ln (INR (fact k))) by ring.
  replace (c + 63) with (c + 60 + 3) by ring.
  eapply acc_more; [apply (ef_one (c + 60)); [apply (acc_k (c + 1)); [exact T1|lra]|apply (acc_k 0); [apply (acc_is rate (val rate) (val rate) N eq_refl); rewrite Rabs_pos_eq; lra|lra]|exact T2| |]|..]; ks.
Qed.

(** Geometric: one extra failure is counted. *)
Lemma geometric_fam_float p k : is_single p -> 0 < val p < 1 -> (1 <= k)%nat -> count32_ok k ->
  acc (c + 6) (INR k * (Rabs (ln (1 - val p)) + 1) + Rabs (ln (val p)) + 1) (ln (geometric_pmf (val p) k) + ln (1 - val p)) (ef_density (geometric_expfam (@mkGeometric F p)) k).
Proof.
  intros N P K1 K. sizes. destruct k as [|j]; [lia|]. rewrite ln_geometric_pmf by exact P.
  change (ef_density (geometric_expfam (@mkGeometric F p)) (S j)) with
    (f32_add (f32_sub (f32_add (f32_of_Z 0) (f32_mul (s_ln L (f32_sub (f32_of_Z 1) p)) (@nofn F (S j)))) (SFopp (s_ln L p))) (f32_of_Z 0)).
  pose proof (ln_any p N ltac:(lra)) as L1. pose proof (ln_one_minus p N P) as L2.
  pose proof (acc_ln_one_minus c lg L LOK C0 p N P) as T0. pose proof (acc_neg _ _ _ _ (acc_lnx c lg L LOK p N ltac:(lra))) as TP.
  destruct (count_mul (S j) _ _ _ _ K T0 ltac:(lra) ltac:(lra)) as (_ & T1 & KM).
  replace (INR j * ln (1 - val p) + ln (val p) + ln (1 - val p)) with (ln (1 - val p) * INR (S j) - - ln (val p) + 0) by (rewrite S_INR; ring).
  replace (c + 6) with (c + 2 + 1 + 3) by ring.
  eapply acc_more; [apply (ef_one (c + 2 + 1)); [exact T1|apply (acc_k c); [exact TP|lra]|apply (acc_k 0); [exact acc_zero|lra]| |]|..]; ks.
Qed.

(** Negative binomial: the partition goes through 1 - sigmoid, so the probability is kept away from one. *)
Lemma negbinomial_fam_float d r p k : c <= 200 -> RoundSpec.libm_ok d lg (s_double L) -> 0 <= d <= 1000000 -> lg_factorial lg -> is_single p -> bpow radix2 (-80) <= val p <= 3 / 4 -> (0 < r)%nat -> count32_ok (k + r) ->
  acc (neg_units c (val p)) (INR k * odds_scale (val p) + INR r * (Rabs (ln (1 - val p)) + 1) + (ln (INR (fact (k + r - 1))) + ln (INR (fact k)) + ln (INR (fact (r - 1))) + 3) + 1)
    (ln (negbinomial_pmf r (val p) k) - INR k * ln (1 - val p)) (ef_density (negbinomial_expfam32 L (@mkNegBinomial F r p)) k).
Proof.
  intros C200 LD D0 LF N [A B] R0 CKR. pose proof (bpow_gt_0 radix2 (-80)). destruct (logit_parts p N A ltac:(lra)) as (T1 & E1 & E2 & _ & LS & KE & LQ). cbv zeta in *. sizes.
  destruct one_num as [N1 V1].
  pose proof (count_le _ k CKR ltac:(lia)) as CK. pose proof (count_le _ r CKR ltac:(lia)) as CR. pose proof (count_le _ (r - 1) CKR ltac:(lia)) as CR1. pose proof (count_le _ (k + r - 1) CKR ltac:(lia)) as CS.
  set (e := s_exp L (@log_odds F p)) in *. set (K := odds_units c (val p)) in *.
  change (ef_density (negbinomial_expfam32 L (@mkNegBinomial F r p)) k) with
    (f32_add (f32_sub (f32_add (f32_of_Z 0) (f32_mul (@log_odds F p) (@nofn F k))) (f32_mul (SFopp (@nofn F r)) (s_ln L (f32_sub (f32_of_Z 1) (f32_div e (f32_add (f32_of_Z 1) e))))))
      (log_negative_binomial_coefficient32 L r k)).
  assert (RS : rel (K + (K + 1) + 1) (val p) (f32_div e (f32_add (f32_of_Z 1) e))).
  { replace (val p) with (val p / (1 - val p) / / (1 - val p)) at 1 by (field; lra). apply rel_div; ks; [exact E1|exact E2|].
    replace (val p / (1 - val p) / / (1 - val p)) with (val p) by (field; lra). split; rewrite Rabs_pos_eq by lra; [|lra].
    eapply Rle_trans; [|exact A]. unfold small32. change 2 with (bpow radix2 1). rewrite <- bpow_plus. apply bpow_le. lia. }
  set (s := f32_div e _) in *. apply rel_acc in RS; [|lra]. rewrite Rabs_pos_eq in RS by lra.
  assert (AQ : acc (2 * K + 3) (1 + val p) (1 - val p) (f32_sub (f32_of_Z 1) s)).
  { replace (2 * K + 3) with (K + (K + 1) + 1 + 1) by ring. apply acc_sub; ks; [|exact RS]. apply (acc_k 0); [|lra]. apply (acc_is _ 1 1 N1 V1). rewrite Rabs_R1. lra. }
  assert (AQ' : acc (7 * (2 * K + 3)) (1 - val p) (1 - val p) (f32_sub (f32_of_Z 1) s)).
  { destruct AQ as (NQ & _ & EQ). split; [exact NQ|]. split; [rewrite Rabs_pos_eq; lra|]. eapply Rle_trans; [exact EQ|].
    pose proof (gam_pos (2 * K + 3) ltac:(lra)) as GP. apply Rle_trans with (gam (2 * K + 3) * (7 * (1 - val p))); [apply Rmult_le_compat_l; lra|].
    rewrite <- Rmult_assoc. apply Rmult_le_compat_r; [lra|]. rewrite Rmult_comm.  apply gam_seven. lra. }
  apply rel_of_acc in AQ'; ks.
  pose proof (acc_ln c lg L LOK (proj1 C0) _ _ _ AQ' ltac:(lra) ltac:(lra) ltac:(apply keps; lra)) as T2.
  destruct (count_num L r CR) as (NR & VR & BR).
  assert (T4 : acc (c + 28 * (2 * K + 3) + 1) (INR r * (Rabs (ln (1 - val p)) + 1) + small32) (- INR r * ln (1 - val p)) (f32_mul (SFopp (@nofn F r)) (s_ln L (f32_sub (f32_of_Z 1) s)))).
  { destruct (count_mul r _ _ _ _ CR T2 ltac:(lra) ltac:(lra)) as (_ & _ & KM). replace (c + 28 * (2 * K + 3) + 1) with (0 + (c + 2 * (2 * (7 * (2 * K + 3)))) + 1) by ring.
    apply acc_mul; ks; [|exact T2]. apply acc_neg, acc_count, CR. }
  destruct (count_mul r _ _ _ _ CR T2 ltac:(lra) ltac:(lra)) as (_ & _ & KR).
  destruct (count_mul k _ _ _ _ CK T1 ltac:(lra) ltac:(lra)) as (_ & T3 & KM).
  pose proof (negative_binomial_coefficient_single d lg L r k LD D0 LF (count_double r CR) (count_double k CK) R0) as T5. apply acc_of_within in T5; [|pose proof (choose_size (k + r - 1) k ltac:(lia)) as CZ; replace (k + r - 1 - k)%nat with (r - 1)%nat in CZ by lia; exact CZ].
  pose proof (fact_size _ CS). pose proof (fact_size k CK). pose proof (fact_size _ CR1).
  replace (ln (negbinomial_pmf r (val p) k) - INR k * ln (1 - val p)) with (logit_of (val p) * INR k - - INR r * ln (1 - val p) + ln (Binomial.C (k + r - 1) k)).
  2:{ rewrite ln_negbinomial_pmf by (try lra; exact R0). unfold logit_of, Rdiv. rewrite ln_mult, ln_Rinv by (try apply Rinv_0_lt_compat; lra). ring. }
  set (lq := Rabs (ln (1 - val p))) in *.
  eapply acc_more; [apply (ef_one (c + 28 * (2 * K + 3) + 1)); [apply (acc_k (c + 4 + 1)); [exact T3|lra]|exact T4|apply (acc_k 1); [exact T5|lra]| |]|..]; unfold neg_units; fold K; ks.
Qed.
End Fact.
