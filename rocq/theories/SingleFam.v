(** The exponential-family paths in binary32 (C73): continuous families;
    FamFloat at precision 24. *)
From Coq Require Import ZArith Reals Bool String List Lia Lra.
From Coq Require Import Floats.SpecFloat.
From Flocq Require Import Core.
From Verif Require Import Num EggSpec FloatFacts
  DensitySpec CoreModel CombModel ExpFamModel DistModel DistSpec DistFacts BuilderProofs DistProofs FamFloatSpec.
From Verif Require Import SingleModel SingleSpec SingleErr SingleFloat SingleFamModel SingleFamSpec.
Import ListNotations.
Local Open Scope R_scope.

Lemma mul_exact_acc x y : is_single x -> is_single y -> Rabs (val x) * Rabs (val y) <= big32 -> acc 1 (Rabs (val x) * Rabs (val y) + small32) (val x * val y) (f32_mul x y).
Proof. intros X Y B. replace 1 with (0 + 0 + 1) by lra. apply acc_mul; try apply acc_exact'; try assumption; try lra. Qed.
Lemma acc_zero : acc 0 0 0 (f32_of_Z 0).
Proof. destruct zero_num as [N V]. apply acc_is; [exact N|exact V|rewrite Rabs_R0; lra]. Qed.
Lemma acc_k k k' m r w : acc k m r w -> 0 <= k <= k' -> acc k' m r w.
Proof. intros A K. eapply acc_more; [exact A|exact K|apply Rle_refl]. Qed.

(** One or two terms of the dot product, minus the partition, plus the base. *)
Lemma ef_one k m r mA a mh h p A H : acc k m r p -> acc k mA a A -> acc k mh h H -> 0 <= k <= 1900000 -> m + mA + mh <= big32 ->
  acc (k + 3) (m + mA + mh) (r - a + h) (f32_add (f32_sub (f32_add (f32_of_Z 0) p) A) H).
Proof.
  intros P PA PH K M. pose proof (acc_pos _ _ _ _ P). pose proof (acc_pos _ _ _ _ PA). pose proof (acc_pos _ _ _ _ PH).
  assert (D : acc (k + 1) m r (f32_add (f32_of_Z 0) p)).
  { replace m with (0 + m) by ring. replace r with (0 + r) by ring. apply acc_add; ks; [|exact P]. apply (acc_k 0); [exact acc_zero|lra]. }
  replace (k + 3) with (k + 1 + 1 + 1) by ring. apply acc_add; ks; [apply acc_sub; ks; [exact D|apply (acc_k k); [exact PA|lra]]|apply (acc_k k); [exact PH|lra]].
Qed.
Lemma ef_two k m1 m2 r1 r2 mA a mh h p1 p2 A H : acc k m1 r1 p1 -> acc k m2 r2 p2 -> acc k mA a A -> acc k mh h H -> 0 <= k <= 1900000 -> m1 + m2 + mA + mh <= big32 ->
  acc (k + 4) (m1 + m2 + mA + mh) (r1 + r2 - a + h) (f32_add (f32_sub (f32_add (f32_add (f32_of_Z 0) p1) p2) A) H).
Proof.
  intros P Q PA PH K M. pose proof (acc_pos _ _ _ _ P). pose proof (acc_pos _ _ _ _ Q). pose proof (acc_pos _ _ _ _ PA). pose proof (acc_pos _ _ _ _ PH).
  assert (D : acc (k + 1) m1 r1 (f32_add (f32_of_Z 0) p1)).
  { replace m1 with (0 + m1) by ring. replace r1 with (0 + r1) by ring. apply acc_add; ks; [|exact P]. apply (acc_k 0); [exact acc_zero|lra]. }
  assert (D2 : acc (k + 2) (m1 + m2) (r1 + r2) (f32_add (f32_add (f32_of_Z 0) p1) p2)).
  { replace (k + 2) with (k + 1 + 1) by ring. apply acc_add; ks; [exact D|apply (acc_k k); [exact Q|lra]]. }
  replace (k + 4) with (k + 2 + 1 + 1) by ring. apply acc_add; ks; [apply acc_sub; ks; [exact D2|apply (acc_k k); [exact PA|lra]]|apply (acc_k k); [exact PH|lra]].
Qed.
Lemma mhalf_dec : is_single (f32_dec (-5) 10) /\ val (f32_dec (-5) 10) = - / 2.
Proof.
  replace (f32_dec (-5) 10) with (S754_finite true 8388608 (-24)) by (vm_compute; reflexivity).
  split; [split; reflexivity|]. rewrite val_explicit. cbn [cond_Zopp]. change (Z.opp 8388608) with (-8388608)%Z. change (bpow radix2 (-24)) with (/ 16777216). lra.
Qed.
(** Products of moderate32 sizes. *)
Lemma mod_bounds a : moderate32 a -> 0 < a /\ bpow radix2 (-80) <= a * a <= bpow radix2 80.
Proof.
  intros [A B]. pose proof (bpow_gt_0 radix2 (-40)). split; [lra|].
  replace (bpow radix2 (-80)) with (bpow radix2 (-40) * bpow radix2 (-40)) by (rewrite <- bpow_plus; reflexivity).
  replace (bpow radix2 80) with (bpow radix2 40 * bpow radix2 40) by (rewrite <- bpow_plus; reflexivity).
  split; apply Rmult_le_compat; lra.
Qed.
Lemma mod_sqr a : at_most_moderate32 a -> 0 <= a * a <= bpow radix2 80 /\ Rabs a * Rabs a = a * a.
Proof.
  intros A. unfold at_most_moderate32 in A. pose proof (Rabs_pos a). assert (E : Rabs a * Rabs a = a * a) by (rewrite <- Rabs_mult, Rabs_pos_eq; [ring|apply Rle_0_sqr]).
  split; [|exact E]. split; [apply Rle_0_sqr|]. rewrite <- E.
  replace (bpow radix2 80) with (bpow radix2 40 * bpow radix2 40) by (rewrite <- bpow_plus; reflexivity). apply Rmult_le_compat; lra.
Qed.
Definition P40 := bpow radix2 40.
Definition P80 := bpow radix2 80.
Lemma powers : 1000 <= P40 /\ 1000 * P40 <= P80 /\ 1000 * P80 <= huge32 /\ small32 * P80 <= / 100000 /\ bpow radix2 (-40) = / P40 /\ bpow radix2 (-80) = / P80 /\ P40 * P40 = P80.
Proof.
  unfold P40, P80, huge32, small32. split; [|split; [|split; [|split; [|split; [|split]]]]].
  - apply Rle_trans with (bpow radix2 10); [change (bpow radix2 10) with 1024; lra|apply bpow_le; lia].
  - apply Rle_trans with (bpow radix2 10 * bpow radix2 40); [change (bpow radix2 10) with 1024; pose proof (bpow_gt_0 radix2 40); lra|rewrite <- bpow_plus; apply bpow_le; lia].
  - apply Rle_trans with (bpow radix2 10 * bpow radix2 80); [change (bpow radix2 10) with 1024; pose proof (bpow_gt_0 radix2 80); lra|rewrite <- bpow_plus; apply bpow_le; lia].
  - rewrite <- bpow_plus. apply Rle_trans with (bpow radix2 (-20)); [apply bpow_le; lia|change (bpow radix2 (-20)) with (/ 1048576); lra].
  - rewrite <- (bpow_opp radix2 40). reflexivity.
  - rewrite <- (bpow_opp radix2 80). reflexivity.
  - rewrite <- bpow_plus. reflexivity.
Qed.

Section Fam.
Context (c : R) (lg : R -> R) (L : libm32) (LOK : libm32_ok c lg L) (C0 : 0 <= c <= 1000).
Notation F := (F32 L).

(** The variance, its reciprocal, and the logarithm of 2 pi variance. *)
Lemma variance_parts sd : is_single sd -> moderate32 (val sd) ->
  let v := f32_mul sd sd in let s := val sd in
  rel 1 (s * s) v /\ rel 2 (/ (s * s)) (f32_div (f32_of_Z 1) v) /\
  acc (c + 8) (2 * Rabs (ln s) + 3) (ln (2 * PI) + 2 * ln s) (s_ln L (f32_mul (f32_mul (f32_of_Z 2) f32_pi) v)) /\ Rabs (ln s) <= 1074.
Proof.
  intros NS MS v s. destruct (mod_bounds _ MS) as (S0 & S1 & S2). fold s in S0, S1, S2. destruct powers as (Q1 & Q2 & Q3 & Q4 & Q5 & Q6 & Q7). fold P80 in S2. rewrite Q6 in S1.
  destruct one_num as [N1 V1]. destruct two_num as [N2 V2]. sizes. pose proof pi_bounds as PB.
  assert (SL : 1000 * small32 <= / P80).
  { apply (Rmult_le_reg_r P80); [lra|]. rewrite Rinv_l by lra. lra. }
  assert (S3 : 0 < s * s) by (apply Rmult_lt_0_compat; exact S0).
  assert (I1 : / P80 <= / (s * s) <= P80).
  { split; [apply Rinv_le_contravar; lra|]. rewrite <- (Rinv_inv P80). apply Rinv_le_contravar; [apply Rinv_0_lt_compat; lra|exact S1]. }
  assert (IP : 0 < / P80) by (apply Rinv_0_lt_compat; lra).
  assert (R1 : rel 1 (s * s) v).
  { replace 1 with (0 + 0 + 1) by lra. apply rel_mul; ks; try (apply rel_is; [exact NS|reflexivity|lra]). split; rewrite Rabs_pos_eq by lra; lra. }
  split; [exact R1|]. split; [|split].
  - replace 2 with (0 + 1 + 1) by lra. replace (/ (s * s)) with (1 / (s * s)) by (field; lra). apply rel_div; ks; [apply rel_is; [exact N1|exact V1|lra]|exact R1|].
    replace (1 / (s * s)) with (/ (s * s)) by (field; lra). split; rewrite Rabs_pos_eq by lra; lra.
  - assert (R2 : rel 2 (2 * PI) (f32_mul (f32_of_Z 2) f32_pi)).
    { replace 2 with (0 + 1 + 1) at 1 by lra. apply rel_mul; ks; [apply rel_is; [exact N2|exact V2|lra]|exact rel_pi|]. split; rewrite Rabs_pos_eq by lra; lra. }
    assert (W : 6 * (s * s) <= 2 * PI * (s * s) <= 7 * (s * s)) by (split; apply Rmult_le_compat_r; lra).
    assert (R4 : rel 4 (2 * PI * (s * s)) (f32_mul (f32_mul (f32_of_Z 2) f32_pi) v)).
    { replace 4 with (2 + 1 + 1) by lra. apply rel_mul; ks; [exact R2|exact R1|]. split; rewrite Rabs_pos_eq by lra; lra. }
    pose proof (acc_lnr c lg L LOK C0 4 _ _ R4 ltac:(lra) ltac:(lra)) as A.
    assert (E : ln (2 * PI * (s * s)) = ln (2 * PI) + 2 * ln s) by (rewrite !ln_mult by lra; ring). rewrite E in A.
    pose proof ln_two_pi as LP. eapply acc_more; [exact A|lra|].
    eapply Rle_trans; [apply Rplus_le_compat_r, Rabs_triang|]. rewrite (Rabs_pos_eq (ln (2 * PI))), Rabs_mult, (Rabs_pos_eq 2) by lra. lra.
  - apply ln_any; assumption.
Qed.

(** Normal. *)
Lemma normal_fam_float mu sd x : is_single mu -> is_single sd -> is_single x -> moderate32 (val sd) -> at_most_moderate32 (val mu) -> at_most_moderate32 (val x) ->
  at_most_moderate32 (val mu / val sd) -> at_most_moderate32 (val x / val sd) ->
  acc (c + 14) (family_scale (val mu) (val sd) (val x)) (ln (normal_pdf (val mu) (val sd) (val x))) (ef_density (normal_expfam (@mkNormal F mu sd)) x).
Proof.
  intros NM NS NX MS BM BX BMS BXS. destruct (variance_parts sd NS MS) as (R1 & R2 & TL & LS). destruct (mod_bounds _ MS) as (S0 & S1 & S2).
  rewrite ln_normal_pdf by exact S0. unfold family_scale.
  change (ef_density (normal_expfam (@mkNormal F mu sd)) x) with
    (let v := f32_mul sd sd in let inv := f32_div (f32_of_Z 1) v in
     f32_add (f32_sub (f32_add (f32_add (f32_of_Z 0) (f32_mul (f32_mul mu inv) x)) (f32_mul (f32_mul (f32_dec (-5) 10) inv) (f32_mul x x)))
       (f32_add (f32_mul (s_ln L (f32_mul (f32_mul (f32_of_Z 2) f32_pi) v)) (f32_dec 5 10)) (f32_mul (f32_mul (f32_dec 5 10) (f32_mul mu mu)) inv))) (f32_of_Z 0)).
  cbv zeta in *. set (inv := f32_div _ _) in *. set (lv := s_ln L _) in *. clearbody inv lv. clear R1.
  destruct powers as (Q1 & Q2 & Q3 & Q4 & Q5 & Q6 & Q7). sizes. destruct half_dec as [NH VH]. destruct mhalf_dec as [NG VG].
  destruct (mod_sqr _ BM) as [M1 M2]. destruct (mod_sqr _ BX) as [X1 X2]. destruct (mod_sqr _ BMS) as [A1 A2]. destruct (mod_sqr _ BXS) as [B1 B2].
  unfold at_most_moderate32 in *. fold P40 in BM, BX, BMS, BXS. fold P80 in M1, X1, A1, B1, S2. rewrite Q6 in S1.
  set (s := val sd) in *. set (m := val mu) in *. set (t := val x) in *.
  assert (S3 : 0 < s * s) by (apply Rmult_lt_0_compat; exact S0).
  set (i := / (s * s)) in *.
  assert (I1 : 0 < i <= P80).
  { unfold i. split; [apply Rinv_0_lt_compat, S3|]. rewrite <- (Rinv_inv P80). apply Rinv_le_contravar; [apply Rinv_0_lt_compat; lra|exact S1]. }
  set (a := m / s) in *. set (b := t / s) in *. pose proof (Rabs_pos a) as AP. pose proof (Rabs_pos b) as BP. pose proof (Rabs_pos m) as MP. pose proof (Rabs_pos t) as TP.
  assert (MI : Rabs m * i * Rabs t = Rabs a * Rabs b).
  { unfold a, b, i. rewrite !abs_div, (Rabs_pos_eq s) by lra. field. lra. }
  assert (TI : i * (t * t) = b * b) by (unfold b, i; field; lra).
  assert (MMI : (m * m) * i = a * a) by (unfold a, i; field; lra).
  assert (AB : Rabs a * Rabs b <= P80) by (rewrite <- Q7; apply Rmult_le_compat; lra).
  assert (SI : small32 * i <= / 100000) by (eapply Rle_trans; [apply Rmult_le_compat_l; [lra|apply I1]|exact Q4]).
  assert (ST : small32 * Rabs t <= / 100000) by (apply Rle_trans with (small32 * P80); [apply Rmult_le_compat_l; lra|exact Q4]).
  assert (STT : small32 * (t * t) <= / 100000) by (eapply Rle_trans; [apply Rmult_le_compat_l; [lra|apply X1]|exact Q4]).
  assert (AI : acc 2 i i inv) by (rewrite <- (Rabs_pos_eq i) at 1 by lra; apply rel_acc; [lra|exact R2]).
  assert (MIB : Rabs m * i <= P80).
  { replace (Rabs m * i) with (Rabs a * / s) by (unfold a, i; rewrite abs_div, (Rabs_pos_eq s) by lra; field; lra).
    rewrite <- Q7. apply Rmult_le_compat; try lra; [left; apply Rinv_0_lt_compat; lra|]. rewrite <- (Rinv_inv P40). apply Rinv_le_contravar; [apply Rinv_0_lt_compat; lra|].
    rewrite <- Q5. apply MS. }
  assert (T1 : acc 4 (Rabs a * Rabs b + / 1000) (m * i * t) (f32_mul (f32_mul mu inv) x)).
  { assert (E1 : acc 3 (Rabs m * i + small32) (m * i) (f32_mul mu inv)).
    { replace 3 with (0 + 2 + 1) by lra. apply acc_mul; ks; [apply acc_is; [exact NM|reflexivity|apply Rle_refl]|exact AI]. }
    assert (Q : (Rabs m * i + small32) * Rabs t = Rabs a * Rabs b + small32 * Rabs t) by (rewrite Rmult_plus_distr_r, MI; reflexivity).
    eapply acc_more; [eapply acc_mul; [exact E1|apply (acc_is x t (Rabs t) NX eq_refl (Rle_refl _))| | | |]|..]; ks; rewrite ?Q; lra. }
  assert (T2 : acc 5 (/ 2 * (b * b) + / 1000) (- / 2 * i * (t * t)) (f32_mul (f32_mul (f32_dec (-5) 10) inv) (f32_mul x x))).
  { assert (E1 : acc 3 (/ 2 * i + small32) (- / 2 * i) (f32_mul (f32_dec (-5) 10) inv)).
    { replace 3 with (0 + 2 + 1) by lra. apply acc_mul; ks; [apply acc_is; [exact NG|exact VG|rewrite Rabs_Ropp, Rabs_pos_eq; lra]|exact AI]. }
    assert (E2 : acc 1 (t * t + small32) (t * t) (f32_mul x x)).
    { rewrite <- X2 at 1. apply mul_exact_acc; try assumption. fold t. lra. }
    assert (Q : (/ 2 * i + small32) * (t * t + small32) = / 2 * (b * b) + / 2 * (small32 * i) + small32 * (t * t) + small32 * small32) by (rewrite <- TI; ring).
    assert (SS : small32 * small32 <= / 1000000000 * 1) by (apply Rmult_le_compat; lra).
    eapply acc_more; [eapply acc_mul; [exact E1|exact E2| | | |]|..]; ks; rewrite ?Q; lra. }
  assert (T3 : acc (c + 9) (Rabs (ln s) + 1.6) ((ln (2 * PI) + 2 * ln s) * / 2) (f32_mul lv (f32_dec 5 10))).
  { eapply acc_more; [eapply acc_mul; [exact TL|apply (acc_is _ (/ 2) (/ 2) NH VH); rewrite Rabs_pos_eq; lra| | | |]|..]; ks. }
  assert (T4 : acc 5 (/ 2 * (a * a) + / 1000) (/ 2 * (m * m) * i) (f32_mul (f32_mul (f32_dec 5 10) (f32_mul mu mu)) inv)).
  { assert (E2 : acc 1 (m * m + small32) (m * m) (f32_mul mu mu)).
    { rewrite <- M2 at 1. apply mul_exact_acc; try assumption. fold m. lra. }
    assert (E1 : acc 2 (/ 2 * (m * m + small32) + small32) (/ 2 * (m * m)) (f32_mul (f32_dec 5 10) (f32_mul mu mu))).
    { replace 2 with (0 + 1 + 1) at 1 by lra. apply acc_mul; ks; [apply acc_is; [exact NH|exact VH|rewrite Rabs_pos_eq; lra]|exact E2]. }
    assert (Q : (/ 2 * (m * m + small32) + small32) * i = / 2 * (a * a) + 3 / 2 * (small32 * i)) by (rewrite <- MMI; field).
    eapply acc_more; [eapply acc_mul; [exact E1|exact AI| | | |]|..]; ks; rewrite ?Q; lra. }
  assert (TA : acc (c + 10) (Rabs (ln s) + 1.6 + (/ 2 * (a * a) + / 1000)) ((ln (2 * PI) + 2 * ln s) * / 2 + / 2 * (m * m) * i)
     (f32_add (f32_mul lv (f32_dec 5 10)) (f32_mul (f32_mul (f32_dec 5 10) (f32_mul mu mu)) inv))).
  { replace (c + 10) with (c + 9 + 1) by ring. apply acc_add; ks; [exact T3|apply (acc_k 5); [exact T4|lra]]. }
  replace (- (1 / 2 * ln (2 * PI) + ln s) + - (1 / 2) * (t - m) ^ 2 / s ^ 2)
    with (m * i * t + - / 2 * i * (t * t) - ((ln (2 * PI) + 2 * ln s) * / 2 + / 2 * (m * m) * i) + 0) by (unfold i; field; lra).
  replace (a ^ 2) with (a * a) by ring. replace (b ^ 2) with (b * b) by ring.
  assert (HAB : 2 * (Rabs a * Rabs b) <= a * a + b * b).
  { rewrite <- A2, <- B2. pose proof (Rle_0_sqr (Rabs a - Rabs b)) as Z. unfold Rsqr in Z. lra. }
  replace (c + 14) with (c + 10 + 4) by ring.
  eapply acc_more; [apply (ef_two (c + 10)); [apply (acc_k 4); [exact T1|lra]|apply (acc_k 5); [exact T2|lra]|exact TA|apply (acc_k 0); [exact acc_zero|lra]| |]|..]; ks.
Qed.

(** The inline closure for the normal. *)
Lemma compile_normal_float mu sd x : is_single mu -> is_single sd -> is_single x -> moderate32 (val sd) -> at_most_moderate32 (val mu) -> at_most_moderate32 (val x) ->
  let z := (val x - val mu) / val sd in at_most_moderate32 z ->
  acc (c + 10) (z * z + Rabs (ln (val sd)) + 2) (ln (normal_pdf (val mu) (val sd) (val x))) (@compile_normal F mu sd x).
Proof.
  intros NM NS NX MS BM BX z BZ. destruct (variance_parts sd NS MS) as (R1 & R2 & TL & LS). destruct (mod_bounds _ MS) as (S0 & S1 & S2).
  rewrite ln_normal_pdf by exact S0.
  change (@compile_normal F mu sd x) with
    (let v := f32_mul sd sd in f32_sub (f32_mul (SFopp (f32_dec 5 10)) (s_ln L (f32_mul (f32_mul (f32_of_Z 2) f32_pi) v)))
       (f32_div (f32_mul (f32_sub x mu) (f32_sub x mu)) (f32_mul (f32_of_Z 2) v))).
  cbv zeta in *. clear R2. set (v := f32_mul sd sd) in *. set (lv := s_ln L _) in *. clearbody v lv.
  destruct powers as (Q1 & Q2 & Q3 & Q4 & Q5 & Q6 & Q7). sizes. destruct half_dec as [NH VH]. destruct two_num as [N2 V2].
  destruct (mod_sqr _ BZ) as [Z1 Z2]. unfold at_most_moderate32 in *. fold P40 in BM, BX, BZ. fold P80 in Z1, S2. rewrite Q6 in S1.
  set (s := val sd) in *. set (m := val mu) in *. set (t := val x) in *.
  assert (S3 : 0 < s * s) by (apply Rmult_lt_0_compat; exact S0).
  assert (DS : (t - m) * (t - m) / (2 * (s * s)) = / 2 * (z * z)) by (unfold z; field; lra).
  assert (DZ : t - m = z * s) by (unfold z; field; lra). clearbody z.
  set (d := t - m) in *. assert (DD : Rabs d * Rabs d = d * d) by (rewrite <- Rabs_mult, Rabs_pos_eq; [ring|apply Rle_0_sqr]).
  assert (DB : Rabs d <= 2 * P40) by (unfold d, Rminus; eapply Rle_trans; [apply Rabs_triang|rewrite Rabs_Ropp; lra]). pose proof (Rabs_pos d) as DP.
  assert (DDB : 0 <= d * d <= 4 * P80) by (split; [apply Rle_0_sqr|rewrite <- DD, <- Q7; apply Rle_trans with (2 * P40 * (2 * P40)); [apply Rmult_le_compat; lra|lra]]).
  assert (SI : small32 / (2 * (s * s)) <= / 100000).
  { apply (Rmult_le_reg_r (2 * (s * s))); [lra|]. unfold Rdiv. rewrite Rmult_assoc, Rinv_l, Rmult_1_r by lra.
    apply Rle_trans with (/ 100000 * (/ P80)); [|apply Rmult_le_compat_l; lra]. apply (Rmult_le_reg_r P80); [lra|]. rewrite Rmult_assoc, Rinv_l by lra. lra. }
  assert (IP : 0 < / P80) by (apply Rinv_0_lt_compat; lra).
  assert (SL : 1000 * small32 <= / P80) by (apply (Rmult_le_reg_r P80); [lra|]; rewrite Rinv_l by lra; lra).
  assert (T1 : acc (c + 9) (Rabs (ln s) + 1.6) (- / 2 * (ln (2 * PI) + 2 * ln s)) (f32_mul (SFopp (f32_dec 5 10)) lv)).
  { destruct (neg_num _ NH) as [NH' VH']. eapply acc_more; [eapply acc_mul; [apply (acc_is _ (- / 2) (/ 2) NH'); [rewrite VH', VH; reflexivity|rewrite Rabs_Ropp, Rabs_pos_eq; lra]|exact TL| | | |]|..]; ks. }
  assert (T2 : acc 6 (/ 2 * (z * z) + / 1000) (/ 2 * (z * z)) (f32_div (f32_mul (f32_sub x mu) (f32_sub x mu)) (f32_mul (f32_of_Z 2) v))).
  { assert (D1 : acc 1 (Rabs d) d (f32_sub x mu)) by (apply acc_diff; try assumption; fold t m; lra).
    assert (D2 : acc 3 (d * d + small32) (d * d) (f32_mul (f32_sub x mu) (f32_sub x mu))).
    { replace 3 with (1 + 1 + 1) by lra. rewrite <- DD at 1. apply acc_mul; ks; [exact D1|exact D1]. }
    assert (R3 : rel 2 (2 * (s * s)) (f32_mul (f32_of_Z 2) v)).
    { replace 2 with (0 + 1 + 1) at 1 by lra. apply rel_mul; ks; [apply rel_is; [exact N2|exact V2|lra]|exact R1|]. split; rewrite Rabs_pos_eq by lra; lra. }
    assert (Q : (d * d + small32) / Rabs (2 * (s * s)) = / 2 * (z * z) + small32 / (2 * (s * s))).
    { rewrite Rabs_pos_eq by lra. rewrite <- DS. field. lra. }
    rewrite <- DS at 2. eapply acc_more; [eapply acc_div; [exact D2|exact R3| | | |]|..]; ks; rewrite ?Q; lra. }
  replace (- (1 / 2 * ln (2 * PI) + ln s) + - (1 / 2) * d ^ 2 / s ^ 2) with (- / 2 * (ln (2 * PI) + 2 * ln s) - / 2 * (z * z)) by (rewrite DZ; field; lra).
  replace (c + 10) with (c + 9 + 1) by ring.
  eapply acc_more; [apply acc_sub; [exact T1|apply (acc_k 6); [exact T2|lra]| | |]|..]; ks.
Qed.

(** The decomposition of the normal, for one observation and for a sample. *)
Lemma add_zero_num w : is_single w -> is_single (f32_add (f32_of_Z 0) w) /\ val (f32_add (f32_of_Z 0) w) = val w.
Proof.
  intros N. destruct zero_num as [N0 V0]. pose proof N as [N' _]. pose proof (RS_val w N') as RV.
  assert (B : Rabs (val w) < bpow radix2 128) by (destruct (num_B w N) as (b & _ & _ & <-); apply (BinarySingleNaN.abs_B2R_lt_emax 24 128)).
  destruct (add_num _ w N0 N) as [A E]; rewrite ?V0, ?Rplus_0_l, ?RV; try assumption.
  split; [exact A|]. rewrite E, V0, Rplus_0_l. exact RV.
Qed.
Lemma acc_add_zero k m r w : acc k m r w -> acc k m r (f32_add (f32_of_Z 0) w).
Proof. intros (N & A & B). destruct (add_zero_num w N) as [N' V]. split; [exact N'|]. split; [exact A|]. rewrite V. exact B. Qed.
Lemma normal_terms mu sd x : is_single mu -> is_single sd -> is_single x -> 0 < val sd -> Rabs (val mu) <= huge32 -> Rabs (val x) <= huge32 ->
  let z := (val x - val mu) / val sd in Rabs z <= bpow radix2 40 ->
  acc (c + 5) (1.5 + small32) (- / 2 * ln (2 * PI)) (f32_mul (SFopp (f32_dec 5 10)) (s_ln L (f32_mul (f32_of_Z 2) f32_pi))) /\
  acc 6 (z * z + / 100) (- / 2 * z * z) (f32_mul (f32_mul (SFopp (f32_dec 5 10)) (f32_div (f32_sub x mu) sd)) (f32_div (f32_sub x mu) sd)) /\ z * z <= huge32.
Proof.
  intros NM NS NX P BM BX z BZ. destruct (acc_z mu sd x NM NS NX P BM BX BZ) as (Tz & ZH & ZZ & ZB). fold z in Tz, ZH, ZZ, ZB.
  destruct half_dec as [NH VH]. destruct two_num as [N2 V2]. sizes. pose proof pi_bounds as PB. pose proof (Rabs_pos z) as AZ. pose proof ln_two_pi as LP. clearbody z.
  assert (A2 : acc 0 (/ 2) (- / 2) (SFopp (f32_dec 5 10))).
  { destruct (neg_num _ NH) as [N V]. apply acc_is; [exact N|rewrite V, VH; reflexivity|]. rewrite Rabs_Ropp, Rabs_pos_eq; lra. }
  split; [|split; [|exact ZB]].
  - assert (R2 : rel 2 (2 * PI) (f32_mul (f32_of_Z 2) f32_pi)).
    { replace 2 with (0 + 1 + 1) at 1 by lra. apply rel_mul; ks; [apply rel_is; [exact N2|exact V2|lra]|exact rel_pi|]. split; rewrite Rabs_pos_eq by lra; lra. }
    pose proof (acc_lnr c lg L LOK C0 2 (2 * PI) _ R2 ltac:(lra) ltac:(lra)) as A1. rewrite (Rabs_pos_eq (ln _)) in A1 by lra.
    eapply acc_more; [eapply acc_mul; [exact A2|exact A1| | | |]|..]; ks.
  - assert (A : acc 3 (/ 2 * (Rabs z + small32) + small32) (- / 2 * z) (f32_mul (SFopp (f32_dec 5 10)) (f32_div (f32_sub x mu) sd))).
    { replace 3 with (0 + 2 + 1) by lra. apply acc_mul; ks; [exact A2|exact Tz]. }
    assert (Q : (/ 2 * (Rabs z + small32) + small32) * (Rabs z + small32) + small32 <= z * z + / 100).
    { rewrite ZZ. pose proof (Rle_0_sqr (Rabs z - 2 * small32)) as S0. unfold Rsqr in S0. nra. }
    eapply acc_more; [eapply acc_mul; [exact A|exact Tz| | | |]|..]; ks.
Qed.
Lemma normal_decomposition_float mu sd x : is_single mu -> is_single sd -> is_single x -> 0 < val sd -> Rabs (val mu) <= huge32 -> Rabs (val x) <= huge32 ->
  let z := (val x - val mu) / val sd in Rabs z <= bpow radix2 40 ->
  let d := @mkNormal F mu sd in
  acc (c + 9) (z * z + Rabs (ln (val sd)) + 2) (ln (normal_pdf (val mu) (val sd) (val x))) (@d_evaluate F _ _ (normal_decomposition d) x (normal_params d)).
Proof.
  intros NM NS NX P BM BX z BZ d. destruct (normal_terms mu sd x NM NS NX P BM BX BZ) as (T1 & T3 & ZB). fold z in T3, ZB.
  rewrite ln_normal_pdf by exact P.
  replace (- (1 / 2 * ln (2 * PI) + ln (val sd)) + - (1 / 2) * (val x - val mu) ^ 2 / val sd ^ 2)
    with (0 + - ln (val sd) + - / 2 * z * z + - / 2 * ln (2 * PI)) by (unfold z; field; lra).
  change (@d_evaluate F _ _ (normal_decomposition d) x (normal_params d)) with
    (f32_add (f32_add (f32_add (f32_of_Z 0) (f32_add (f32_of_Z 0) (SFopp (s_ln L sd))))
       (f32_add (f32_of_Z 0) (f32_mul (f32_mul (SFopp (f32_dec 5 10)) (f32_div (f32_sub x mu) sd)) (f32_div (f32_sub x mu) sd))))
       (f32_add (f32_of_Z 0) (f32_mul (SFopp (f32_dec 5 10)) (s_ln L (f32_mul (f32_of_Z 2) f32_pi))))).
  sizes. pose proof (ln_any sd NS P) as LS. pose proof (acc_neg _ _ _ _ (acc_lnx c lg L LOK sd NS P)) as T2.
  assert (ZP : 0 <= z * z) by apply Rle_0_sqr. pose proof (Rabs_pos (ln (val sd))).
  assert (S1 : acc (c + 7) (0 + (Rabs (ln (val sd)) + small32)) (0 + - ln (val sd)) (f32_add (f32_of_Z 0) (f32_add (f32_of_Z 0) (SFopp (s_ln L sd))))).
  { replace (c + 7) with (c + 6 + 1) by ring. apply acc_add; ks; [apply (acc_k 0); [exact acc_zero|lra]|]. apply acc_add_zero. apply (acc_k c); [exact T2|lra]. }
  assert (S2 : acc (c + 8) (0 + (Rabs (ln (val sd)) + small32) + (z * z + / 100)) (0 + - ln (val sd) + - / 2 * z * z)
    (f32_add (f32_add (f32_of_Z 0) (f32_add (f32_of_Z 0) (SFopp (s_ln L sd)))) (f32_add (f32_of_Z 0) (f32_mul (f32_mul (SFopp (f32_dec 5 10)) (f32_div (f32_sub x mu) sd)) (f32_div (f32_sub x mu) sd))))).
  { replace (c + 8) with (c + 7 + 1) by ring. apply acc_add; ks; [exact S1|]. apply acc_add_zero. apply (acc_k 6); [exact T3|lra]. }
  replace (c + 9) with (c + 8 + 1) by ring.
  eapply acc_more; [apply acc_add; [exact S2|apply acc_add_zero; apply (acc_k (c + 5)); [exact T1|lra]| | |]|..]; ks.
Qed.

(** Standard normal. *)
Lemma stdnormal_fam_float x : is_single x -> at_most_moderate32 (val x) ->
  acc (c + 10) (val x * val x + 2) (ln (normal_pdf 0 1 (val x))) (@ef_density F f32 stdnormal_expfam x).
Proof.
  intros NX BX. rewrite ln_normal_pdf by lra.
  change (@ef_density F f32 stdnormal_expfam x) with
    (f32_add (f32_sub (f32_add (f32_add (f32_of_Z 0) (f32_mul (f32_of_Z 0) x)) (f32_mul (f32_dec (-5) 10) (f32_mul x x)))
       (f32_mul (s_ln L (f32_mul (f32_of_Z 2) f32_pi)) (f32_dec 5 10))) (f32_of_Z 0)).
  destruct powers as (Q1 & Q2 & Q3 & Q4 & Q5 & Q6 & Q7). sizes. destruct half_dec as [NH VH]. destruct mhalf_dec as [NG VG]. destruct two_num as [N2 V2]. pose proof pi_bounds as PB. pose proof ln_two_pi as LP.
  destruct (mod_sqr _ BX) as [X1 X2]. unfold at_most_moderate32 in BX. fold P40 in BX. fold P80 in X1. set (t := val x) in *. pose proof (Rabs_pos t).
  assert (T1 : acc 1 small32 0 (f32_mul (f32_of_Z 0) x)).
  { pose proof (acc_mul 0 0 0 (Rabs t) 0 t (f32_of_Z 0) x acc_zero (acc_is x t _ NX eq_refl (Rle_refl _)) ltac:(lra) ltac:(lra) ltac:(ks) ltac:(lra)) as T.
    rewrite !Rmult_0_l, !Rplus_0_l in T. exact T. }
  assert (T2 : acc 2 (/ 2 * (t * t + small32) + small32) (- / 2 * (t * t)) (f32_mul (f32_dec (-5) 10) (f32_mul x x))).
  { replace 2 with (0 + 1 + 1) at 1 by lra. apply acc_mul; ks; [apply acc_is; [exact NG|exact VG|rewrite Rabs_Ropp, Rabs_pos_eq; lra]|].
    rewrite <- X2 at 1. apply mul_exact_acc; try assumption. fold t. lra. }
  assert (T3 : acc (c + 5) 1.6 (ln (2 * PI) * / 2) (f32_mul (s_ln L (f32_mul (f32_of_Z 2) f32_pi)) (f32_dec 5 10))).
  { assert (R2 : rel 2 (2 * PI) (f32_mul (f32_of_Z 2) f32_pi)).
    { replace 2 with (0 + 1 + 1) at 1 by lra. apply rel_mul; ks; [apply rel_is; [exact N2|exact V2|lra]|exact rel_pi|]. split; rewrite Rabs_pos_eq by lra; lra. }
    pose proof (acc_lnr c lg L LOK C0 2 (2 * PI) _ R2 ltac:(lra) ltac:(lra)) as A1. rewrite (Rabs_pos_eq (ln _)) in A1 by lra.
    eapply acc_more; [eapply acc_mul; [exact A1|apply (acc_is _ (/ 2) (/ 2) NH VH); rewrite Rabs_pos_eq; lra| | | |]|..]; ks. }
  replace (- (1 / 2 * ln (2 * PI) + ln 1) + - (1 / 2) * (t - 0) ^ 2 / 1 ^ 2) with (0 + - / 2 * (t * t) - ln (2 * PI) * / 2 + 0) by (rewrite ln_1; field).
  eapply acc_more; [apply (ef_two (c + 5)); [apply (acc_k 1); [exact T1|lra]|apply (acc_k 2); [exact T2|lra]|exact T3|apply (acc_k 0); [exact acc_zero|lra]| |]|..]; ks.
Qed.

(** Exponential: the family path computes the log-density minus 2 ln rate. *)
Lemma exponential_fam_float rate x : is_single rate -> is_single x -> 0 < val rate -> val rate * Rabs (val x) <= huge32 ->
  acc (c + 4) (Rabs (ln (val rate)) + val rate * Rabs (val x) + 1) (- (val rate * val x) - ln (val rate)) (ef_density (exponential_expfam (@mkExponential F rate)) x).
Proof.
  intros NR NX P B. change (ef_density (exponential_expfam (@mkExponential F rate)) x) with
    (f32_add (f32_sub (f32_add (f32_of_Z 0) (f32_mul (SFopp rate) x)) (s_ln L rate)) (f32_of_Z 0)).
  sizes. pose proof (ln_any rate NR P) as LR. pose proof (Rabs_pos (ln (val rate))). assert (0 <= val rate * Rabs (val x)) by (apply Rmult_le_pos; [lra|apply Rabs_pos]).
  assert (T : acc 1 (val rate * Rabs (val x) + small32) (- (val rate * val x)) (f32_mul (SFopp rate) x)).
  { destruct (neg_num rate NR) as [N' V']. replace 1 with (0 + 0 + 1) by lra. replace (- (val rate * val x)) with (- val rate * val x) by ring. apply acc_mul; ks.
    - apply acc_is; [exact N'|exact V'|]. rewrite Rabs_Ropp, Rabs_pos_eq; lra.
    - apply acc_is; [exact NX|reflexivity|apply Rle_refl]. }
  replace (- (val rate * val x) - ln (val rate)) with (- (val rate * val x) - ln (val rate) + 0) by ring.
  eapply acc_more; [apply (ef_one (c + 1)); [apply (acc_k 1); [exact T|lra]|apply (acc_k c); [apply (acc_lnx c lg L LOK); assumption|lra]|apply (acc_k 0); [exact acc_zero|lra]| |]|..]; ks.
Qed.
Lemma compile_exponential_same rate x : @compile_exponential F rate x = exponential_ld (@mkExponential F rate) x.
Proof. reflexivity. Qed.

(** Gamma. *)
Lemma gamma_fam_float a b x : is_single a -> is_single b -> is_single x -> 0 < val a <= huge32 -> 0 < val b -> 0 < val x -> val b * val x <= huge32 -> Rabs (lg (val a)) <= huge32 ->
  acc (c + 7) (val a * Rabs (ln (val b)) + Rabs (lg (val a)) + Rabs (val a - 1) * Rabs (ln (val x)) + val b * val x + 2 + small32 * (2 * val a + 1))
    (ln (gamma_pdf lg (val a) (val b) (val x))) (ef_density (gamma_expfam (@mkGamma F a b)) x).
Proof.
  intros NA NB NX [A0 A1] B0 X0 B LG. rewrite ln_gamma_pdf by exact X0.
  change (ef_density (gamma_expfam (@mkGamma F a b)) x) with
    (f32_add (f32_sub (f32_add (f32_add (f32_of_Z 0) (f32_mul (f32_sub a (f32_of_Z 1)) (s_ln L x))) (f32_mul (SFopp b) x))
      (f32_sub (single_lgamma L a) (f32_mul a (s_ln L b)))) (f32_of_Z 0)).
  destruct one_num as [N1 V1]. sizes. pose proof (ln_any b NB B0) as LB. pose proof (ln_any x NX X0) as LX.
  assert (BX : 0 <= val b * val x) by (apply Rmult_le_pos; lra).
  set (lb := ln (val b)) in *. set (lx := ln (val x)) in *. pose proof (Rabs_pos lb). pose proof (Rabs_pos lx). pose proof (Rabs_pos (lg (val a))).
  assert (AM : Rabs (val a - 1) <= val a + 1) by (apply Rabs_le; lra). pose proof (Rabs_pos (val a - 1)).
  pose proof (mul_huge (val a) (Rabs lb + small32) ltac:(lra) ltac:(lra)) as M1.
  pose proof (mul_huge (Rabs (val a - 1)) (Rabs lx + small32) ltac:(lra) ltac:(lra)) as M2.
  assert (T1 : acc (c + 1) (val a * (Rabs lb + small32) + small32) (val a * lb) (f32_mul a (s_ln L b))).
  { replace (c + 1) with (0 + c + 1) by ring. apply acc_mul; ks; [|apply (acc_lnx c lg L LOK); assumption]. apply acc_is; try assumption; try reflexivity; rewrite Rabs_pos_eq; lra. }
  assert (T2 : acc (c + 2) (1 + Rabs (lg (val a)) + (val a * (Rabs lb + small32) + small32)) (lg (val a) - val a * lb) (f32_sub (single_lgamma L a) (f32_mul a (s_ln L b)))).
  { replace (c + 2) with (c + 1 + 1) by ring. apply acc_sub; ks; [apply (acc_k c); [apply (acc_lg c lg L LOK); assumption|lra]|exact T1]. }
  assert (T3 : acc (c + 2) (Rabs (val a - 1) * (Rabs lx + small32) + small32) ((val a - 1) * lx) (f32_mul (f32_sub a (f32_of_Z 1)) (s_ln L x))).
  { replace (c + 2) with (1 + c + 1) by ring. apply acc_mul; ks; [|apply (acc_lnx c lg L LOK); assumption].
    apply acc_diff'; try assumption; rewrite ?V1; try lra. rewrite !Rabs_pos_eq; lra. }
  assert (T4 : acc 1 (val b * val x + small32) (- val b * val x) (f32_mul (SFopp b) x)).
  { destruct (neg_num b NB) as [N' V']. replace 1 with (0 + 0 + 1) by lra. apply acc_mul; ks; [apply acc_is; [exact N'|exact V'|rewrite Rabs_Ropp, Rabs_pos_eq; lra]|apply acc_is; [exact NX|reflexivity|rewrite Rabs_pos_eq; lra]]. }
  replace (val a * lb - lg (val a) + (val a - 1) * lx - val b * val x) with ((val a - 1) * lx + - val b * val x - (lg (val a) - val a * lb) + 0) by ring.
  assert (small32 * Rabs (val a - 1) <= small32 * (val a + 1)) by (apply Rmult_le_compat_l; lra).
  eapply acc_more; [apply (ef_two (c + 2)); [exact T3|apply (acc_k 1); [exact T4|lra]|exact T2|apply (acc_k 0); [exact acc_zero|lra]| |]|..]; ks.
Qed.

(** A bound in units of rounding as an error in the calculus. *)
Lemma acc_of_within m r w : within32 1 m r w -> Rabs r <= m -> acc 1 m r w.
Proof. intros [N E] M. split; [exact N|]. split; [exact M|]. eapply Rle_trans; [exact E|]. pose proof (Rabs_pos r). apply Rmult_le_compat_r; [lra|apply gam_lin]. Qed.

(** Beta: the partition [w] is computed in [f64]. *)
Lemma beta_fam_float a b x w m r : is_single a -> is_single b -> is_single x -> 0 < val a <= huge32 -> 0 < val b <= huge32 -> 0 < val x < 1 -> acc 1 m r w -> m <= 10 * huge32 ->
  acc (c + 8) (m + (val a + 1) * (Rabs (ln (val x)) + 1) + (val b + 1) * (Rabs (ln (1 - val x)) + 1) + 1)
    ((val a - 1) * ln (val x) + (val b - 1) * ln (1 - val x) - r)
    (f32_add (f32_sub (f32_add (f32_add (f32_of_Z 0) (f32_mul (f32_sub a (f32_of_Z 1)) (s_ln L x))) (f32_mul (f32_sub b (f32_of_Z 1)) (s_ln L (f32_sub (f32_of_Z 1) x)))) w) (f32_of_Z 0)).
Proof.
  intros NA NB NX [A0 A1] [B0 B1] [X0 X1] TW MW. pose proof (acc_pos _ _ _ _ TW) as M0.
  destruct one_num as [N1 V1]. sizes.
  pose proof (ln_any x NX X0) as LX.
  pose proof (acc_ln_one_minus c lg L LOK C0 x NX (conj X0 X1)) as T0.
  pose proof (ln_one_minus x NX (conj X0 X1)) as LY.
  set (lx := ln (val x)) in *. set (ly := ln (1 - val x)) in *.
  pose proof (Rabs_pos lx). pose proof (Rabs_pos ly).
  assert (AM : Rabs (val a - 1) <= val a + 1) by (apply Rabs_le; lra). pose proof (Rabs_pos (val a - 1)).
  assert (BM : Rabs (val b - 1) <= val b + 1) by (apply Rabs_le; lra). pose proof (Rabs_pos (val b - 1)).
  pose proof (mul_huge (val a + 1) (Rabs lx + small32) ltac:(lra) ltac:(lra)) as M1.
  pose proof (mul_huge (val b + 1) (Rabs ly + 1) ltac:(lra) ltac:(lra)) as M2.
  assert (T2 : acc (c + 2) ((val a + 1) * (Rabs lx + small32) + small32) ((val a - 1) * lx) (f32_mul (f32_sub a (f32_of_Z 1)) (s_ln L x))).
  { replace (c + 2) with (1 + c + 1) by ring. apply acc_mul; ks; [|apply (acc_lnx c lg L LOK); assumption].
    apply acc_diff'; try assumption; rewrite ?V1; try lra. rewrite !Rabs_pos_eq; lra. }
  assert (T3 : acc (c + 4) ((val b + 1) * (Rabs ly + 1) + small32) ((val b - 1) * ly) (f32_mul (f32_sub b (f32_of_Z 1)) (s_ln L (f32_sub (f32_of_Z 1) x)))).
  { replace (c + 4) with (1 + (c + 2) + 1) by ring. apply acc_mul; ks; [|exact T0].
    apply acc_diff'; try assumption; rewrite ?V1; try lra. rewrite !Rabs_pos_eq; lra. }
  replace ((val a - 1) * lx + (val b - 1) * ly - r) with ((val a - 1) * lx + (val b - 1) * ly - r + 0) by ring.
  assert ((val a + 1) * small32 <= (val a + 1) * / 2) by (apply Rmult_le_compat_l; lra).
  eapply acc_more; [apply (ef_two (c + 4)); [apply (acc_k (c + 2)); [exact T2|lra]|exact T3|apply (acc_k 1); [exact TW|lra]|apply (acc_k 0); [exact acc_zero|lra]| |]|..]; ks.
Qed.

(** Chi-squared. *)
Lemma chi_fam_float k x : is_single k -> is_single x -> small32 <= val k <= huge32 -> 0 < val x <= huge32 -> Rabs (lg (val k / 2)) <= huge32 ->
  acc (c + 6) (val k + Rabs (lg (val k / 2)) + (val k / 2 + 1) * (Rabs (ln (val x)) + 1) + val x + 3)
    (ln (chi_squared_pdf lg (val k) (val x))) (ef_density (chi_expfam (@mkChi F k)) x).
Proof.
  intros NK NX [K0 K1] [X0 X1] LG. rewrite ln_chi_pdf by exact X0.
  change (ef_density (chi_expfam (@mkChi F k)) x) with
    (let h := f32_div k (f32_of_Z 2) in
     f32_add (f32_sub (f32_add (f32_add (f32_of_Z 0) (f32_mul (f32_sub h (f32_of_Z 1)) (s_ln L x))) (f32_mul (SFopp (f32_dec 5 10)) x))
      (f32_add (single_lgamma L h) (f32_mul h (s_ln L (f32_of_Z 2))))) (f32_of_Z 0)).
  destruct one_num as [N1 V1]. destruct two_num as [N2 V2]. destruct half_dec as [ND VD]. sizes. destruct (half_exact k NK K0) as [NH VH].
  cbv zeta. set (h := f32_div k (f32_of_Z 2)) in *. pose proof (ln_any x NX X0) as LX. pose proof ln2_bounds as L2.
  rewrite <- VH in LG |- *. assert (KH : val k = 2 * val h) by lra. rewrite KH in K0, K1 |- *. clearbody h. clear KH VH.
  set (lx := ln (val x)) in *. pose proof (Rabs_pos lx). pose proof (Rabs_pos (lg (val h))).
  assert (AM : Rabs (val h - 1) <= val h + 1) by (apply Rabs_le; lra). pose proof (Rabs_pos (val h - 1)).
  pose proof (mul_huge (val h + 1) (Rabs lx + small32) ltac:(lra) ltac:(lra)) as M1.
  assert (T0 : acc c (ln 2 + small32) (ln 2) (s_ln L (f32_of_Z 2))).
  { pose proof (acc_lnx c lg L LOK (f32_of_Z 2) N2 ltac:(lra)) as T. rewrite V2, (Rabs_pos_eq (ln 2)) in T by lra. exact T. }
  assert (P1 : val h * (ln 2 + small32) <= val h * 1) by (apply Rmult_le_compat_l; lra).
  assert (T1 : acc (c + 1) (val h * (ln 2 + small32) + small32) (val h * ln 2) (f32_mul h (s_ln L (f32_of_Z 2)))).
  { replace (c + 1) with (0 + c + 1) by ring. apply acc_mul; ks; [|exact T0]. apply acc_is; [exact NH|reflexivity|]. rewrite Rabs_pos_eq; lra. }
  assert (T2 : acc (c + 2) (1 + Rabs (lg (val h)) + (val h * (ln 2 + small32) + small32)) (lg (val h) + val h * ln 2) (f32_add (single_lgamma L h) (f32_mul h (s_ln L (f32_of_Z 2))))).
  { replace (c + 2) with (c + 1 + 1) by ring. apply acc_add; ks; [apply (acc_k c); [apply (acc_lg c lg L LOK); try assumption; lra|lra]|exact T1]. }
  assert (T3 : acc (c + 2) ((val h + 1) * (Rabs lx + small32) + small32) ((val h - 1) * lx) (f32_mul (f32_sub h (f32_of_Z 1)) (s_ln L x))).
  { replace (c + 2) with (1 + c + 1) by ring. apply acc_mul; ks; [|apply (acc_lnx c lg L LOK); assumption].
    apply acc_diff'; try assumption; rewrite ?V1; try lra. rewrite !Rabs_pos_eq; lra. }
  assert (T4 : acc 1 (/ 2 * val x + small32) (- / 2 * val x) (f32_mul (SFopp (f32_dec 5 10)) x)).
  { destruct (neg_num _ ND) as [N' V']. replace 1 with (0 + 0 + 1) by lra. apply acc_mul; ks.
    - apply acc_is; [exact N'|rewrite V', VD; reflexivity|]. rewrite Rabs_Ropp, Rabs_pos_eq; lra.
    - apply acc_is; [exact NX|reflexivity|]. rewrite Rabs_pos_eq; lra. }
  match goal with |- acc _ _ ?r _ => replace r with ((val h - 1) * lx + - / 2 * val x - (lg (val h) + val h * ln 2) + 0) by field end.
  assert ((val h + 1) * small32 <= (val h + 1) * / 2) by (apply Rmult_le_compat_l; lra).
  eapply acc_more; [apply (ef_two (c + 2)); [exact T3|apply (acc_k 1); [exact T4|lra]|exact T2|apply (acc_k 0); [exact acc_zero|lra]| |]|..]; ks.
Qed.
End Fam.
