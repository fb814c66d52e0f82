(** Log-densities of the distributions in binary32 (C72): DistFloat at precision 24. *)
From Coq Require Import ZArith Reals Ratan Bool String List Lia Lra.
From Coq Require Import Floats.SpecFloat.
From Flocq Require Import Core Mult_error IEEE754.BinarySingleNaN.
From Verif Require Import Num EggSpec FloatFacts DensitySpec CoreModel CombModel ExpFamModel DistModel DistSpec DistFacts BuilderProofs DistProofs.
From Verif Require DistFloat JitAcc.
From Verif Require Import SingleModel SingleSpec SingleErr.
Import ListNotations.
Local Open Scope R_scope.

#[local] Instance Hprec32 : FLX.Prec_gt_0 24 := eq_refl _.
#[local] Instance Hmax32 : Prec_lt_emax 24 128 := eq_refl _.

Definition pi_bounds := DistFloat.pi_bounds.
Definition val_explicit := JitAcc.val_explicit.
Definition ln2_bounds := JitAcc.ln2_bounds.
Lemma keps k : k <= 2000000 -> k * eps32 <= / 4.
Proof. intros H. pose proof eps_small. pose proof eps_pos. nra. Qed.

(** * Constants *)
Lemma pi_is : f32_pi = S754_finite false 13176795 (-22). Proof. vm_compute. reflexivity. Qed.
Lemma num_pi : is_single f32_pi. Proof. rewrite pi_is. split; reflexivity. Qed.
Lemma val_pi : val f32_pi = IZR 13176795 / IZR (2 ^ 22).
Proof. rewrite pi_is, val_explicit. reflexivity. Qed.
Lemma rel_pi : rel 1 PI f32_pi.
Proof.
  pose proof pi_bounds as B. split; [exact num_pi|]. split; [lra|]. rewrite val_pi, Rmult_1_l. pose proof up1 as U. pose proof down1 as D.
  assert (P : 0 < PI) by lra.
  assert (T : / 2 ^ 24 = / IZR (2 ^ 24)) by (rewrite pow_IZR; reflexivity).
  assert (I1 : IZR 13176795 / IZR (2 ^ 22) <= (1 + / 2 ^ 24) * PI).
  { rewrite T. change (2 ^ 24)%Z with 16777216%Z. change (2 ^ 22)%Z with 4194304%Z. lra. }
  assert (I2 : (1 - / 2 ^ 24) * PI <= IZR 13176795 / IZR (2 ^ 22)).
  { rewrite T. change (2 ^ 24)%Z with 16777216%Z. change (2 ^ 22)%Z with 4194304%Z. lra. }
  set (v := IZR 13176795 / IZR (2 ^ 22)) in *. clearbody v.
  split; apply (Rmult_le_reg_r PI); try exact P; replace (v / PI * PI) with v by (field; lra); nra.
Qed.
Lemma num_int z : (Z.abs z <= 2 ^ 24)%Z -> is_single (f32_of_Z z) /\ val (f32_of_Z z) = IZR z.
Proof.
  intros H.
  assert (G : generic_format radix2 (FLT_exp (-149) 24) (IZR z)).
  { destruct (Z.eq_dec (Z.abs z) (2 ^ 24)) as [E|E].
    - assert (Z' : z = (2 ^ 24)%Z \/ z = (- 2 ^ 24)%Z) by lia.
      destruct Z' as [-> | ->].
      + change (IZR (2 ^ 24)) with (bpow radix2 24). apply generic_format_bpow. unfold FLT_exp. lia.
      + rewrite opp_IZR. apply generic_format_opp. change (IZR (2 ^ 24)) with (bpow radix2 24). apply generic_format_bpow. unfold FLT_exp. lia.
    - apply generic_format_FLT. exists (Float radix2 z 0); [unfold F2R; cbn [Fnum Fexp]; change (bpow radix2 0) with 1; ring| |].
      + cbn [Fnum]. change (radix2 ^ 24)%Z with (2 ^ 24)%Z. lia.
      + cbn [Fexp]. lia. }
  assert (R : RS (IZR z) = IZR z) by (apply round_generic; auto with typeclass_instances).
  assert (X : F2R (Float radix2 z 0) = IZR z) by (unfold F2R; cbn [Fnum Fexp]; change (bpow radix2 0) with 1; ring).
  destruct (norm_exact 24 128 Hprec32 Hmax32 z 0) as (b & B & F & V & _).
  - rewrite X. exact G.
  - rewrite X, <- abs_IZR. apply Rle_lt_trans with (bpow radix2 24); [change (bpow radix2 24) with (IZR (2 ^ 24)); apply IZR_le, H|apply bpow_lt; lia].
  - unfold f32_of_Z. change f32_prec with 24%Z. change f32_emax with 128%Z. rewrite B. destruct (is_num_B b F) as [N W].
    split; [exact N|]. rewrite W, V. exact X.
Qed.
Lemma num_nat n : (Z.of_nat n <= 2 ^ 24)%Z -> is_single (f32_of_Z (Z.of_nat n)) /\ val (f32_of_Z (Z.of_nat n)) = INR n.
Proof. intros H. rewrite INR_IZR_INZ. apply num_int. lia. Qed.
Lemma half_dec : is_single (f32_dec 5 10) /\ val (f32_dec 5 10) = / 2.
Proof.
  replace (f32_dec 5 10) with (S754_finite false 8388608 (-24)) by (vm_compute; reflexivity).
  split; [split; reflexivity|]. rewrite val_explicit. cbn [cond_Zopp]. change (bpow radix2 (-24)) with (/ 16777216). lra.
Qed.
(** * Sizes *)
Lemma huge_big : 1000000000 * huge32 <= big32.
Proof.
  unfold huge32, big32. apply Rle_trans with (bpow radix2 30 * bpow radix2 90).
  - apply Rmult_le_compat_r; [apply bpow_ge_0|]. change (bpow radix2 30) with 1073741824. lra.
  - rewrite <- bpow_plus. apply bpow_le. lia.
Qed.
Lemma huge_one : 1000000000 <= huge32.
Proof. apply Rle_trans with (bpow radix2 30); [change (bpow radix2 30) with 1073741824; lra|apply bpow_le; lia]. Qed.
Lemma small_tiny : small32 <= / 1000000000.
Proof. apply Rle_trans with (bpow radix2 (-30)); [apply bpow_le; lia|change (bpow radix2 (-30)) with (/ 1073741824); lra]. Qed.
Ltac sizes := pose proof huge_big; pose proof huge_one; pose proof small_tiny; pose proof small_pos; pose proof eps_pos; pose proof eps_small.

Lemma val_range w : is_single w -> 0 < val w -> bpow radix2 (-149) <= val w <= bpow radix2 128.
Proof.
  intros N P. pose proof (format_val w N) as F. split.
  - destruct (num_B w N) as (b & _ & _ & V). rewrite <- V in *.
    assert (Z : B2R b <> 0) by lra. rewrite <- (Rabs_pos_eq (B2R b)) by lra.
    apply (abs_B2R_ge_emin 24 128 b).
    destruct b; cbn in *; try lra; reflexivity.
  - destruct (num_B w N) as (b & _ & _ & V). rewrite <- V. rewrite <- (Rabs_pos_eq (B2R b)) by lra.
    apply Rlt_le, (abs_B2R_lt_emax 24 128).
Qed.
Lemma ln_bpow e : ln (bpow radix2 e) = IZR e * ln 2.
Proof.
  rewrite bpow_powerRZ. change (IZR radix2) with 2. destruct e as [|p|p].
  - cbn. rewrite ln_1. ring.
  - cbn [powerRZ]. rewrite ln_pow_nat by lra. rewrite INR_IZR_INZ, positive_nat_Z. reflexivity.
  - cbn [powerRZ]. rewrite ln_Rinv by (apply pow_lt; lra). rewrite ln_pow_nat by lra.
    rewrite INR_IZR_INZ, positive_nat_Z, <- Ropp_mult_distr_l_reverse, <- opp_IZR. reflexivity.
Qed.
Lemma ln_le a b : 0 < a -> a <= b -> ln a <= ln b.
Proof. intros A [B|B]; [left; apply ln_increasing; assumption|right; rewrite B; reflexivity]. Qed.
Lemma ln_any w : is_single w -> 0 < val w -> Rabs (ln (val w)) <= 1074.
Proof.
  intros N P. destruct (val_range w N P) as [A B]. destruct ln2_bounds as [L1 L2]. apply Rabs_le.
  assert (L3 : 0 < ln 2 <= 1) by (split; lra). split.
  - apply Rle_trans with (ln (bpow radix2 (-149))); [rewrite ln_bpow; nra|apply ln_le; [apply bpow_gt_0|exact A]].
  - apply Rle_trans with (ln (bpow radix2 128)); [apply ln_le; assumption|rewrite ln_bpow; nra].
Qed.

(** * More error algebra *)
Lemma acc_diff u v : is_single u -> is_single v -> Rabs (val u) + Rabs (val v) <= big32 -> acc 1 (Rabs (val u - val v)) (val u - val v) (f32_sub u v).
Proof.
  intros U V M. destruct (Req_dec (val u) (val v)) as [E|E].
  - assert (Z : val u - val v = 0) by lra. destruct (sub_num u v U V) as [N W].
    { rewrite Z. unfold RS. rewrite round_0 by auto with typeclass_instances. rewrite Rabs_R0. apply bpow_gt_0. }
    split; [exact N|]. split; [lra|]. rewrite W, Z. unfold RS. rewrite round_0 by auto with typeclass_instances. rewrite Rminus_0_r, Rabs_R0. lra.
  - apply rel_acc; [lra|]. apply rel_diff; assumption.
Qed.
Lemma acc_shrink k r w : acc k (2 * r) r w -> 0 < r -> 0 <= k -> acc (2 * k) r r w.
Proof.
  intros (N & _ & E) R K. split; [exact N|]. split; [rewrite Rabs_pos_eq; lra|]. eapply Rle_trans; [exact E|].
  rewrite <- Rmult_assoc. apply Rmult_le_compat_r; [lra|]. pose proof (gam_prod k k) as G. replace (k + k) with (2 * k) in G by ring.
  pose proof (gam_pos k K). nra.
Qed.
Lemma acc_within k m r w : acc k m r w -> 0 <= k -> k * eps32 <= / 4 -> within32 (2 * k) m r w.
Proof.
  intros A K S. pose proof (acc_pos _ _ _ _ A). destruct A as (N & _ & E). split; [exact N|]. eapply Rle_trans; [exact E|].
  apply Rmult_le_compat_r; [assumption|apply gam_up; assumption].
Qed.
Lemma half_format w : is_single w -> bpow radix2 (-100) <= val w -> generic_format radix2 (FLT_exp (-149) 24) (val w / 2).
Proof.
  intros N H. change (val w / 2) with (val w * bpow radix2 (-1)). apply mult_bpow_exact_FLT; [apply format_val, N|].
  assert (M : (-100 < mag radix2 (val w))%Z); [|lia]. apply mag_gt_bpow. rewrite Rabs_pos_eq; [exact H|pose proof (bpow_gt_0 radix2 (-100)); lra].
Qed.
Lemma two_num : is_single (f32_of_Z 2) /\ val (f32_of_Z 2) = 2.
Proof. apply (num_int 2). vm_compute. discriminate. Qed.
Lemma one_num : is_single (f32_of_Z 1) /\ val (f32_of_Z 1) = 1.
Proof. apply (num_int 1). vm_compute. discriminate. Qed.
Lemma half_exact w : is_single w -> bpow radix2 (-100) <= val w -> is_single (f32_div w (f32_of_Z 2)) /\ val (f32_div w (f32_of_Z 2)) = val w / 2.
Proof.
  intros N H. destruct two_num as [N2 V2]. pose proof (bpow_gt_0 radix2 (-100)).
  assert (R : RS (val w / 2) = val w / 2) by (apply round_generic; [auto with typeclass_instances|apply half_format; assumption]).
  destruct (div_num w (f32_of_Z 2) N N2) as [A B]; rewrite ?V2; try lra.
  - rewrite R. destruct (val_range w N ltac:(lra)) as [_ U]. rewrite Rabs_pos_eq by lra. pose proof (bpow_gt_0 radix2 128). lra.
  - rewrite V2, R in B. auto.
Qed.
Lemma acc_is w r m : is_single w -> val w = r -> Rabs r <= m -> acc 0 m r w.
Proof. intros N <- M. apply acc_exact; assumption. Qed.
Lemma rel_is w r : is_single w -> val w = r -> r <> 0 -> rel 0 r w.
Proof. intros N <- M. apply rel_exact; assumption. Qed.
Lemma rel_diff' u v r : is_single u -> is_single v -> val u - val v = r -> r <> 0 -> Rabs (val u) + Rabs (val v) <= big32 -> rel 1 r (f32_sub u v).
Proof. intros U V <- R M. apply rel_diff; try assumption. lra. Qed.
Lemma acc_diff' u v r m : is_single u -> is_single v -> val u - val v = r -> Rabs r <= m -> Rabs (val u) + Rabs (val v) <= big32 -> acc 1 m r (f32_sub u v).
Proof. intros U V <- R M. eapply acc_more; [apply acc_diff; assumption|lra|exact R]. Qed.
Lemma ln_two_pi : 0 <= ln (2 * PI) <= 2.
Proof.
  pose proof pi_bounds as B. split; [rewrite <- ln_1; apply ln_le; lra|]. rewrite <- (ln_exp 2) at 2. apply ln_le; [lra|].
  assert (E8 : exp 2 = (exp (/ 8)) ^ 16) by (cbn [pow]; rewrite Rmult_1_r, <- !exp_plus; f_equal; lra).
  rewrite E8. apply Rle_trans with ((1 + / 8) ^ 16); [|apply pow_incr; pose proof (exp_ineq1_le (/ 8)); lra]. cbn [pow]. lra.
Qed.
Lemma abs_div a b : Rabs (a / b) = Rabs a / Rabs b.
Proof. unfold Rdiv. rewrite Rabs_mult, Rabs_inv. reflexivity. Qed.
(** Raise the factor or the magnitude of an error bound. *)
Ltac ks := try lra; try (apply keps; lra).

Lemma SFltb_num u v : is_single u -> is_single v -> SFltb u v = Rlt_bool (val u) (val v).
Proof.
  intros U V. destruct (num_B u U) as (a & -> & FA & <-). destruct (num_B v V) as (b & -> & FB & <-). apply (Bltb_correct 24 128 a b FA FB).
Qed.
Lemma SFleb_num u v : is_single u -> is_single v -> SFleb u v = Rle_bool (val u) (val v).
Proof.
  intros U V. destruct (num_B u U) as (a & -> & FA & <-). destruct (num_B v V) as (b & -> & FB & <-). apply (Bleb_correct 24 128 a b FA FB).
Qed.
Lemma zero_num : is_single (f32_of_Z 0) /\ val (f32_of_Z 0) = 0.
Proof. apply (num_int 0). vm_compute. discriminate. Qed.
(** One minus a probability is not tiny. *)
Lemma ln_one_minus x : is_single x -> 0 < val x < 1 -> Rabs (ln (1 - val x)) <= 1075.
Proof.
  intros N P. destruct one_num as [N1 V1]. sizes.
  assert (R : rel 1 (1 - val x) (f32_sub (f32_of_Z 1) x)).
  { apply rel_diff'; try assumption; rewrite ?V1; [lra|lra|]. rewrite !Rabs_pos_eq by lra. lra. }
  pose proof (rel_sign _ _ _ R ltac:(lra)) as P'. pose proof (ln_any _ (proj1 R) P') as A. pose proof (ln_rel 1 _ _ R ltac:(lra)) as B.
  apply Rabs_le_inv in A. apply Rabs_le_inv in B. apply Rabs_le. lra.
Qed.

Section Dists.
Context (c : R) (lg : R -> R) (L : libm32) (LOK : libm32_ok c lg L) (C0 : 0 <= c <= 1000).
Notation F := (F32 L).

Lemma c_small : c * eps32 <= / 4. Proof. apply keps. lra. Qed.

(** Logarithms of a parameter, and of one minus a probability. *)
Lemma acc_lnx x : is_single x -> 0 < val x -> acc c (Rabs (ln (val x)) + small32) (ln (val x)) (s_ln L x).
Proof. intros N P. apply (acc_ln_exact c lg L LOK); assumption. Qed.
Lemma acc_lnr k r u : rel k r u -> 0 < r -> 0 <= k <= 1000 -> acc (c + 2 * k) (Rabs (ln r) + 1) (ln r) (s_ln L u).
Proof. intros R P K. apply (acc_ln c lg L LOK); ks. exact R. Qed.
Lemma acc_ln_one_minus p : is_single p -> 0 < val p < 1 ->
  acc (c + 2) (Rabs (ln (1 - val p)) + 1) (ln (1 - val p)) (s_ln L (f32_sub (f32_of_Z 1) p)).
Proof.
  intros N P. destruct one_num as [N1 V1]. sizes.
  replace (c + 2) with (c + 2 * 1) by ring. apply acc_lnr; [|lra|lra].
  apply rel_diff'; try assumption; rewrite ?V1; [lra|lra|]. rewrite !Rabs_pos_eq by lra. lra.
Qed.

(** The standardised residual. *)
Lemma acc_z mu sd x : is_single mu -> is_single sd -> is_single x -> 0 < val sd -> Rabs (val mu) <= huge32 -> Rabs (val x) <= huge32 ->
  let z := (val x - val mu) / val sd in Rabs z <= bpow radix2 40 ->
  acc 2 (Rabs z + small32) z (f32_div (f32_sub x mu) sd) /\ Rabs z <= huge32 /\ z * z = Rabs z * Rabs z /\ z * z <= huge32.
Proof.
  intros NM NS NX P BM BX z BZ. sizes.
  assert (ZH : Rabs z <= huge32) by (eapply Rle_trans; [exact BZ|apply bpow_le; lia]).
  assert (ZZ : z * z = Rabs z * Rabs z) by (rewrite <- Rabs_mult, Rabs_pos_eq; [ring|apply Rle_0_sqr]).
  pose proof (Rabs_pos z). split; [|split; [exact ZH|split; [exact ZZ|]]].
  2:{ rewrite ZZ. apply Rle_trans with (bpow radix2 40 * bpow radix2 40); [apply Rmult_le_compat; lra|]. rewrite <- bpow_plus. apply bpow_le. lia. }
  assert (E : Rabs z = Rabs (val x - val mu) / Rabs (val sd)) by apply abs_div.
  replace 2 with (1 + 0 + 1) by lra. rewrite E. apply acc_div; ks.
  - apply acc_diff; try assumption. lra.
  - apply rel_exact; [exact NS|lra].
Qed.

(** Normal. *)
Lemma normal_float mu sd x : is_single mu -> is_single sd -> is_single x -> 0 < val sd -> Rabs (val mu) <= huge32 -> Rabs (val x) <= huge32 ->
  let z := (val x - val mu) / val sd in Rabs z <= bpow radix2 40 ->
  acc (c + 7) (z * z + Rabs (ln (val sd)) + 2) (ln (normal_pdf (val mu) (val sd) (val x))) (normal_ld (@mkNormal F mu sd) x).
Proof.
  intros NM NS NX P BM BX z BZ. destruct (acc_z mu sd x NM NS NX P BM BX BZ) as (Tz & ZH & ZZ & ZB). fold z in Tz, ZH, ZZ, ZB.
  rewrite ln_normal_pdf by exact P.
  replace (- (1 / 2 * ln (2 * PI) + ln (val sd)) + - (1 / 2) * (val x - val mu) ^ 2 / val sd ^ 2)
    with (- / 2 * ln (2 * PI) - ln (val sd) - / 2 * z * z) by (unfold z; field; lra).
  unfold normal_ld. cbn [n_mean n_sd].
  destruct half_dec as [NH VH]. destruct two_num as [N2 V2]. sizes. pose proof c_small as CS. pose proof pi_bounds as PB.
  pose proof (Rabs_pos z) as AZ. pose proof (ln_any sd NS P) as LS. pose proof ln_two_pi as LP.
  clearbody z.
  assert (T1 : acc (c + 5) (1.5 + small32) (- / 2 * ln (2 * PI)) (f32_mul (SFopp (f32_dec 5 10)) (s_ln L (f32_mul (f32_of_Z 2) f32_pi)))).
  { assert (R2 : rel 2 (2 * PI) (f32_mul (f32_of_Z 2) f32_pi)).
    { replace 2 with (0 + 1 + 1) at 1 by lra. apply rel_mul; ks.
      - apply rel_is; [exact N2|exact V2|lra].
      - exact rel_pi.
      - split; rewrite Rabs_pos_eq by lra; lra. }
    pose proof (acc_lnr 2 (2 * PI) _ R2 ltac:(lra) ltac:(lra)) as A1. rewrite (Rabs_pos_eq (ln _)) in A1 by lra.
    assert (A2 : acc 0 (/ 2) (- / 2) (SFopp (f32_dec 5 10))).
    { destruct (neg_num _ NH) as [N V]. apply acc_is; [exact N|rewrite V, VH; reflexivity|]. rewrite Rabs_Ropp, Rabs_pos_eq; lra. }
    eapply acc_more; [eapply acc_mul; [exact A2|exact A1| | | |]|..]; ks. }
  pose proof (acc_lnx sd NS P) as T2.
  assert (T3 : acc 6 (z * z + / 100) (/ 2 * z * z) (f32_mul (f32_mul (f32_dec 5 10) (f32_div (f32_sub x mu) sd)) (f32_div (f32_sub x mu) sd))).
  { assert (A : acc 3 (/ 2 * (Rabs z + small32) + small32) (/ 2 * z) (f32_mul (f32_dec 5 10) (f32_div (f32_sub x mu) sd))).
    { replace 3 with (0 + 2 + 1) by lra. apply acc_mul; ks; [|exact Tz].
      apply acc_is; [exact NH|exact VH|]. rewrite Rabs_pos_eq; lra. }
    assert (Q : (/ 2 * (Rabs z + small32) + small32) * (Rabs z + small32) + small32 <= z * z + / 100).
    { rewrite ZZ. pose proof (Rle_0_sqr (Rabs z - 2 * small32)) as S0. unfold Rsqr in S0. nra. }
    eapply acc_more; [eapply acc_mul; [exact A|exact Tz| | | |]|..]; ks. }
  assert (T4 : acc (c + 6) (1.5 + small32 + (Rabs (ln (val sd)) + small32)) (- / 2 * ln (2 * PI) - ln (val sd))
    (f32_sub (f32_mul (SFopp (f32_dec 5 10)) (s_ln L (f32_mul (f32_of_Z 2) f32_pi))) (s_ln L sd))).
  { replace (c + 6) with (c + 5 + 1) by ring. apply acc_sub; ks; [exact T1|]. eapply acc_more; [exact T2|lra|lra]. }
  eapply acc_more; [apply (acc_sub (c + 6)); [exact T4|eapply acc_more; [exact T3|lra|apply Rle_refl]| | |]|..]; ks.
Qed.

Lemma mul_huge a b : 0 <= a <= 2 * huge32 -> 0 <= b <= 2000 -> a * b <= 4000 * huge32.
Proof. intros A B. sizes. replace (4000 * huge32) with (2 * huge32 * 2000) by ring. apply Rmult_le_compat; lra. Qed.
Lemma acc_lg a : is_single a -> 0 < val a -> Rabs (lg (val a)) <= huge32 -> acc c (1 + Rabs (lg (val a))) (lg (val a)) (single_lgamma L a).
Proof. intros N P B. sizes. apply (acc_lgamma c lg L LOK); try assumption. lra. Qed.
Lemma pos_guard x : is_single x -> 0 < val x -> @nltb F n0 x = true.
Proof. intros N P. change (SFltb (f32_of_Z 0) x = true). destruct zero_num as [N0 V0]. rewrite (SFltb_num _ _ N0 N), V0. apply Rlt_bool_true. exact P. Qed.

(** Exponential. *)
Lemma exponential_float rate x : is_single rate -> is_single x -> 0 < val rate -> 0 <= val x -> val rate * val x <= huge32 ->
  acc (c + 2) (Rabs (ln (val rate)) + val rate * val x + 1) (ln (exponential_pdf (val rate) (val x))) (exponential_ld (@mkExponential F rate) x).
Proof.
  intros NR NX P X B. rewrite ln_exponential_pdf by exact P. unfold exponential_ld. cbn [e_rate].
  assert (G : @nleb F n0 x = true) by (change (SFleb (f32_of_Z 0) x = true); destruct zero_num as [N0 V0]; rewrite (SFleb_num _ _ N0 NX), V0; apply Rle_bool_true; exact X).
  rewrite G. sizes. pose proof (ln_any rate NR P) as LR. assert (0 <= val rate * val x) by (apply Rmult_le_pos; lra).
  assert (T : acc 1 (val rate * val x + small32) (val rate * val x) (f32_mul rate x)).
  { replace 1 with (0 + 0 + 1) by lra. apply acc_mul; ks; apply acc_is; try assumption; try reflexivity; rewrite Rabs_pos_eq; lra. }
  eapply acc_more; [apply (acc_sub (c + 1)); [eapply acc_more; [apply acc_lnx; assumption| |apply Rle_refl]|eapply acc_more; [exact T| |apply Rle_refl]| | |]|..]; ks.
Qed.

(** Gamma. *)
Lemma gamma_float a b x : is_single a -> is_single b -> is_single x -> 0 < val a <= huge32 -> 0 < val b -> 0 < val x -> val b * val x <= huge32 -> Rabs (lg (val a)) <= huge32 ->
  acc (c + 5) (val a * Rabs (ln (val b)) + Rabs (lg (val a)) + Rabs (val a - 1) * Rabs (ln (val x)) + val b * val x + 2 + small32 * (2 * val a + 1))
    (ln (gamma_pdf lg (val a) (val b) (val x))) (gamma_ld (@mkGamma F a b) x).
Proof.
  intros NA NB NX [A0 A1] B0 X0 B LG. rewrite ln_gamma_pdf by exact X0. unfold gamma_ld. cbn [g_shape g_rate].
  rewrite (pos_guard x NX X0). destruct one_num as [N1 V1]. sizes. pose proof (ln_any b NB B0) as LB. pose proof (ln_any x NX X0) as LX.
  assert (BX : 0 <= val b * val x) by (apply Rmult_le_pos; lra).
  set (lb := ln (val b)) in *. set (lx := ln (val x)) in *. pose proof (Rabs_pos lb). pose proof (Rabs_pos lx). pose proof (Rabs_pos (lg (val a))).
  assert (AM : Rabs (val a - 1) <= val a + 1) by (apply Rabs_le; lra). pose proof (Rabs_pos (val a - 1)).
  pose proof (mul_huge (val a) (Rabs lb + small32) ltac:(lra) ltac:(lra)) as M1.
  pose proof (mul_huge (Rabs (val a - 1)) (Rabs lx + small32) ltac:(lra) ltac:(lra)) as M2.
  assert (T1 : acc (c + 1) (val a * (Rabs lb + small32) + small32) (val a * lb) (f32_mul a (s_ln L b))).
  { replace (c + 1) with (0 + c + 1) by ring. apply acc_mul; ks; [|apply acc_lnx; assumption]. apply acc_is; try assumption; try reflexivity; rewrite Rabs_pos_eq; lra. }
  assert (T2 : acc (c + 2) (val a * (Rabs lb + small32) + small32 + (1 + Rabs (lg (val a)))) (val a * lb - lg (val a)) (f32_sub (f32_mul a (s_ln L b)) (single_lgamma L a))).
  { replace (c + 2) with (c + 1 + 1) by ring. apply acc_sub; ks; [exact T1|]. eapply acc_more; [apply acc_lg; assumption|lra|lra]. }
  assert (T3 : acc (c + 2) (Rabs (val a - 1) * (Rabs lx + small32) + small32) ((val a - 1) * lx) (f32_mul (f32_sub a (f32_of_Z 1)) (s_ln L x))).
  { replace (c + 2) with (1 + c + 1) by ring. apply acc_mul; ks; [|apply acc_lnx; assumption].
    apply acc_diff'; try assumption; rewrite ?V1; try lra. rewrite !Rabs_pos_eq; lra. }
  assert (T4 : acc 1 (val b * val x + small32) (val b * val x) (f32_mul b x)).
  { replace 1 with (0 + 0 + 1) by lra. apply acc_mul; ks; apply acc_is; try assumption; try reflexivity; rewrite Rabs_pos_eq; lra. }
  eapply acc_more; [apply (acc_sub (c + 3)); [replace (c + 3) with (c + 2 + 1) by ring; apply acc_add; [exact T2|exact T3| | |]|eapply acc_more; [exact T4| |apply Rle_refl]| | |]|..]; ks.
  assert (small32 * Rabs (val a - 1) <= small32 * (val a + 1)) by (apply Rmult_le_compat_l; lra). lra.
Qed.

(** Beta. *)
Lemma beta_float a b x : is_single a -> is_single b -> is_single x -> 0 < val a <= huge32 -> 0 < val b <= huge32 -> 0 < val x < 1 ->
  val (f32_add a b) = val a + val b -> Rabs (lg (val a + val b)) <= huge32 -> Rabs (lg (val a)) <= huge32 -> Rabs (lg (val b)) <= huge32 ->
  acc (c + 5) (Rabs (lg (val a + val b)) + Rabs (lg (val a)) + Rabs (lg (val b)) + (val a + 1) * (Rabs (ln (val x)) + 1) + (val b + 1) * (Rabs (ln (1 - val x)) + 1) + 4)
    (ln (beta_pdf lg (val a) (val b) (val x))) (beta_ld (@mkBeta F a b) x).
Proof.
  intros NA NB NX [A0 A1] [B0 B1] [X0 X1] EX LAB LA LB. rewrite ln_beta_pdf by (split; assumption). unfold beta_ld. cbn [b_alpha b_beta].
  destruct one_num as [N1 V1]. sizes.
  assert (NS : is_single (f32_add a b)).
  { apply add_num; try assumption. apply big2. rewrite Rabs_pos_eq; lra. }
  assert (G : @nltb F x n1 = true).
  { change (SFltb x (f32_of_Z 1) = true). rewrite (SFltb_num x (f32_of_Z 1) NX N1). rewrite V1. apply Rlt_bool_true. lra. }
  rewrite (pos_guard x NX X0), G. cbn [andb].
  pose proof (ln_any x NX X0) as LX.
  pose proof (acc_ln_one_minus x NX (conj X0 X1)) as T0.
  pose proof (ln_one_minus x NX (conj X0 X1)) as LY.
  set (lx := ln (val x)) in *. set (ly := ln (1 - val x)) in *.
  pose proof (Rabs_pos lx). pose proof (Rabs_pos ly). pose proof (Rabs_pos (lg (val a))). pose proof (Rabs_pos (lg (val b))). pose proof (Rabs_pos (lg (val a + val b))).
  assert (AM : Rabs (val a - 1) <= val a + 1) by (apply Rabs_le; lra). pose proof (Rabs_pos (val a - 1)).
  assert (BM : Rabs (val b - 1) <= val b + 1) by (apply Rabs_le; lra). pose proof (Rabs_pos (val b - 1)).
  pose proof (mul_huge (val a + 1) (Rabs lx + small32) ltac:(lra) ltac:(lra)) as M1.
  pose proof (mul_huge (val b + 1) (Rabs ly + 1) ltac:(lra) ltac:(lra)) as M2.
  assert (T1 : acc (c + 2) (1 + Rabs (lg (val a + val b)) + (1 + Rabs (lg (val a))) + (1 + Rabs (lg (val b)))) (lg (val a + val b) - lg (val a) - lg (val b))
    (f32_sub (f32_sub (single_lgamma L (f32_add a b)) (single_lgamma L a)) (single_lgamma L b))).
  { replace (c + 2) with (c + 1 + 1) by ring. apply acc_sub; ks.
    - apply acc_sub; ks; [|apply acc_lg; assumption]. rewrite <- EX. apply acc_lg; rewrite ?EX; try assumption. lra.
    - eapply acc_more; [apply acc_lg; assumption|lra|lra]. }
  assert (T2 : acc (c + 2) ((val a + 1) * (Rabs lx + small32) + small32) ((val a - 1) * lx) (f32_mul (f32_sub a (f32_of_Z 1)) (s_ln L x))).
  { replace (c + 2) with (1 + c + 1) by ring. apply acc_mul; ks; [|apply acc_lnx; assumption].
    apply acc_diff'; try assumption; rewrite ?V1; try lra. rewrite !Rabs_pos_eq; lra. }
  assert (T3 : acc (c + 4) ((val b + 1) * (Rabs ly + 1) + small32) ((val b - 1) * ly) (f32_mul (f32_sub b (f32_of_Z 1)) (s_ln L (f32_sub (f32_of_Z 1) x)))).
  { replace (c + 4) with (1 + (c + 2) + 1) by ring. apply acc_mul; ks; [|exact T0].
    apply acc_diff'; try assumption; rewrite ?V1; try lra. rewrite !Rabs_pos_eq; lra. }
  eapply acc_more; [apply (acc_add (c + 4)); [eapply acc_more; [apply (acc_add (c + 2)); [exact T1|exact T2| | |]| |apply Rle_refl]|exact T3| | |]|..]; ks.
  assert ((val a + 1) * small32 <= (val a + 1) * 1) by (apply Rmult_le_compat_l; lra). lra.
Qed.

(** Chi-squared. *)
Lemma two_sum : f32_add (f32_of_Z 1) (f32_of_Z 1) = f32_of_Z 2. Proof. vm_compute. reflexivity. Qed.
Lemma chi_float k x : is_single k -> is_single x -> small32 <= val k <= huge32 -> 0 < val x <= huge32 -> Rabs (lg (val k / 2)) <= huge32 ->
  acc (c + 4) (val k + Rabs (lg (val k / 2)) + (val k / 2 + 1) * (Rabs (ln (val x)) + 1) + val x + 3)
    (ln (chi_squared_pdf lg (val k) (val x))) (chi_ld (@mkChi F k) x).
Proof.
  intros NK NX [K0 K1] [X0 X1] LG. rewrite ln_chi_pdf by exact X0. unfold chi_ld. cbn [c_k].
  rewrite (pos_guard x NX X0). change (@nadd F n1 n1) with (f32_add (f32_of_Z 1) (f32_of_Z 1)). rewrite two_sum.
  change (@ndiv F k (f32_of_Z 2)) with (f32_div k (f32_of_Z 2)).
  destruct one_num as [N1 V1]. destruct two_num as [N2 V2]. sizes. destruct (half_exact k NK K0) as [NH VH].
  set (h := f32_div k (f32_of_Z 2)) in *. pose proof (ln_any x NX X0) as LX. pose proof ln2_bounds as L2.
  rewrite <- VH in LG |- *. assert (KH : val k = 2 * val h) by lra. rewrite KH in K0, K1 |- *. clearbody h. clear KH VH.
  set (lx := ln (val x)) in *. pose proof (Rabs_pos lx). pose proof (Rabs_pos (lg (val h))).
  assert (AM : Rabs (val h - 1) <= val h + 1) by (apply Rabs_le; lra). pose proof (Rabs_pos (val h - 1)).
  pose proof (mul_huge (val h + 1) (Rabs lx + small32) ltac:(lra) ltac:(lra)) as M1.
  assert (T0 : acc c (Rabs (ln 2) + small32) (ln 2) (s_ln L (f32_of_Z 2))).
  { pose proof (acc_lnx (f32_of_Z 2) N2 ltac:(lra)) as T. rewrite V2 in T. exact T. }
  rewrite (Rabs_pos_eq (ln 2)) in T0 by lra.
  assert (P1 : val h * (ln 2 + small32) <= val h * 1) by (apply Rmult_le_compat_l; lra).
  assert (T1 : acc (c + 1) (val h * (ln 2 + small32) + small32) (- val h * ln 2) (f32_mul (SFopp h) (s_ln L (f32_of_Z 2)))).
  { replace (c + 1) with (0 + c + 1) by ring. apply acc_mul; ks; [|exact T0]. destruct (neg_num h NH) as [NN VN].
    apply acc_is; [exact NN|exact VN|]. rewrite Rabs_Ropp, Rabs_pos_eq; lra. }
  assert (T2 : acc (c + 2) (val h * (ln 2 + small32) + small32 + (1 + Rabs (lg (val h)))) (- val h * ln 2 - lg (val h)) (f32_sub (f32_mul (SFopp h) (s_ln L (f32_of_Z 2))) (single_lgamma L h))).
  { replace (c + 2) with (c + 1 + 1) by ring. apply acc_sub; ks; [exact T1|]. eapply acc_more; [apply acc_lg; try assumption; lra|lra|lra]. }
  assert (T3 : acc (c + 2) ((val h + 1) * (Rabs lx + small32) + small32) ((val h - 1) * lx) (f32_mul (f32_sub h (f32_of_Z 1)) (s_ln L x))).
  { replace (c + 2) with (1 + c + 1) by ring. apply acc_mul; ks; [|apply acc_lnx; assumption].
    apply acc_diff'; try assumption; rewrite ?V1; try lra. rewrite !Rabs_pos_eq; lra. }
  assert (T4 : acc 1 (val x / 2 + small32) (val x / 2) (f32_div x (f32_of_Z 2))).
  { replace 1 with (0 + 0 + 1) by lra. rewrite <- (Rabs_pos_eq 2) at 1 by lra. apply acc_div; ks.
    - apply acc_is; try assumption; try reflexivity. rewrite Rabs_pos_eq; lra.
    - apply rel_is; try assumption. lra.
    - rewrite Rabs_pos_eq; lra. }
  eapply acc_more; [apply (acc_sub (c + 3)); [replace (c + 3) with (c + 2 + 1) by ring; apply acc_add; [exact T2|exact T3| | |]|eapply acc_more; [exact T4| |apply Rle_refl]| | |]|..]; ks.
  assert ((val h + 1) * small32 <= (val h + 1) * 1) by (apply Rmult_le_compat_l; lra). lra.
Qed.

(** Cauchy. *)
Lemma cauchy_float loc sc x : is_single loc -> is_single sc -> is_single x -> 0 < val sc -> Rabs (val loc) <= huge32 -> Rabs (val x) <= huge32 ->
  let z := (val x - val loc) / val sc in Rabs z <= bpow radix2 40 ->
  acc (c + 50) (ln (1 + z * z) + Rabs (ln (val sc)) + 5) (ln (cauchy_pdf (val loc) (val sc) (val x))) (cauchy_ld (@mkCauchy F loc sc) x) /\
  acc (c + 50) (ln (1 + z * z) + Rabs (ln (val sc)) + 5) (ln (cauchy_pdf (val loc) (val sc) (val x))) (cauchy_log_pdf (@mkCauchy F loc sc) x).
Proof.
  intros NM NS NX P BM BX z BZ. destruct (acc_z loc sc x NM NS NX P BM BX BZ) as (Tz & ZH & ZZ & ZB). fold z in Tz, ZH, ZZ, ZB.
  rewrite ln_cauchy_pdf by exact P. fold z. unfold cauchy_ld, cauchy_log_pdf. cbn [c_loc c_scale].
  destruct one_num as [N1 V1]. sizes. pose proof pi_bounds as PB. pose proof (Rabs_pos z) as AZ. pose proof (ln_any sc NS P) as LS.
  assert (Z0 : 0 <= z * z) by apply Rle_0_sqr.
  assert (LP : 0 <= ln PI <= 2).
  { split; [rewrite <- ln_1; apply ln_le; lra|]. apply Rle_trans with (ln (2 * PI)); [apply ln_le; lra|apply ln_two_pi]. }
  clearbody z.
  assert (TZ : acc 5 (3 / 2 * (z * z) + / 100) (z * z) (f32_mul (f32_div (f32_sub x loc) sc) (f32_div (f32_sub x loc) sc))).
  { assert (Q : (Rabs z + small32) * (Rabs z + small32) <= 3 / 2 * (z * z) + / 1000).
    { rewrite ZZ. pose proof (Rle_0_sqr (Rabs z - 2 * small32)) as S0. unfold Rsqr in S0. nra. }
    eapply acc_more; [eapply acc_mul; [exact Tz|exact Tz| | | |]|..]; ks. }
  assert (TR : acc 6 (2 * (1 + z * z)) (1 + z * z) (f32_add (f32_of_Z 1) (f32_mul (f32_div (f32_sub x loc) sc) (f32_div (f32_sub x loc) sc)))).
  { eapply acc_more; [eapply (acc_add 5 1); [|exact TZ| | |]|..]; ks.
    eapply acc_more; [apply (acc_is _ 1 1 N1 V1); rewrite Rabs_pos_eq; lra|lra|lra]. }
  pose proof (rel_of_acc _ _ _ (acc_shrink _ _ _ TR ltac:(lra) ltac:(lra)) ltac:(lra) ltac:(lra) ltac:(ks)) as RR.
  pose proof (acc_lnr _ _ _ RR ltac:(lra) ltac:(lra)) as TL.
  assert (LQ : 0 <= ln (1 + z * z) <= 1100).
  { split; [rewrite <- ln_1; apply ln_le; lra|]. pose proof (ln_rel _ _ _ RR ltac:(lra)) as E. pose proof (ln_any _ (proj1 RR) (rel_sign _ _ _ RR ltac:(lra))) as A. apply Rabs_le_inv in E. apply Rabs_le_inv in A. lra. }
  rewrite (Rabs_pos_eq (ln (1 + z * z))) in TL by lra. set (lq := ln (1 + z * z)) in *.
  pose proof (acc_lnx sc NS P) as TS. pose proof (acc_lnr _ _ _ rel_pi PI_RGT_0 ltac:(lra)) as TP. rewrite (Rabs_pos_eq (ln PI)) in TP by lra.
  split.
  - replace (- ln PI - ln (val sc) - lq) with (- lq - ln (val sc) - ln PI) by ring.
    eapply acc_more; [apply (acc_sub (c + 49)); [replace (c + 49) with (c + 2 * (2 * (2 * 6)) + 1) by ring; apply acc_sub; [apply acc_neg; exact TL|eapply acc_more; [exact TS| |apply Rle_refl]| | |]|eapply acc_more; [exact TP| |apply Rle_refl]| | |]|..]; ks.
  - eapply acc_more; [apply (acc_sub (c + 48)); [eapply acc_more; [apply (acc_sub (c + 2 * 1)); [apply acc_neg; exact TP|eapply acc_more; [exact TS| |apply Rle_refl]| | |]| |apply Rle_refl]|eapply acc_more; [exact TL| |apply Rle_refl]| | |]|..]; ks.
Qed.

(** Counts up to 2^20 are exact. *)
Lemma count_num k : count32_ok k -> is_single (@nofn F k) /\ val (@nofn F k) = INR k /\ 0 <= INR k <= 1100000.
Proof.
  intros K. unfold count32_ok in K. change (bpow radix2 20) with 1048576 in K. change (@nofn F k) with (f32_of_Z (Z.of_nat k)).
  destruct (num_nat k) as [N V].
  - apply le_IZR. rewrite <- INR_IZR_INZ. change (IZR (2 ^ 24)) with 16777216. lra.
  - repeat split; try assumption; try apply N; try apply pos_INR. lra.
Qed.
Lemma acc_count k : count32_ok k -> acc 0 (INR k) (INR k) (@nofn F k).
Proof. intros K. destruct (count_num k K) as (N & V & B). apply acc_is; try assumption. rewrite Rabs_pos_eq; lra. Qed.
(** A count times a logarithm. *)
Lemma acc_count_ln k j l m w : count32_ok k -> acc j m l w -> 0 <= j <= c + 10 -> m <= 2000 ->
  acc (j + 1) (INR k * m + small32) (INR k * l) (f32_mul (@nofn F k) w) /\ INR k * m <= huge32.
Proof.
  intros K A J M. destruct (count_num k K) as (N & V & B). sizes. pose proof (acc_pos _ _ _ _ A) as M0.
  assert (KM : INR k * m <= huge32).
  { apply Rle_trans with (2000000 * 2000); [apply Rmult_le_compat; lra|]. apply Rle_trans with (bpow radix2 60); [change (bpow radix2 60) with 1152921504606846976; lra|apply bpow_le; lia]. }
  split; [|exact KM]. replace (j + 1) with (0 + j + 1) by ring. apply acc_mul; ks; [apply acc_count; exact K|exact A].
Qed.

(** Bernoulli. *)
Lemma bernoulli_float p k : is_single p -> 0 < val p < 1 -> (k <= 1)%nat ->
  acc (c + 2) (Rabs (ln (bernoulli_pmf (val p) k)) + 1) (ln (bernoulli_pmf (val p) k)) (bernoulli_ld (@mkBernoulli F p) k).
Proof.
  intros N P K. unfold bernoulli_ld. cbn [be_prob]. sizes. destruct k as [|[|k]]; [| |lia]; cbn [bernoulli_pmf].
  - apply acc_ln_one_minus; assumption.
  - eapply acc_more; [apply acc_lnx; [exact N|lra]|lra|lra].
Qed.

(** Binomial: the direct density leaves out the binomial coefficient. *)
Lemma binomial_float n p k : is_single p -> 0 < val p < 1 -> (k <= n)%nat -> count32_ok n ->
  acc (c + 5) (INR k * (Rabs (ln (val p)) + 1) + (INR n - INR k) * (Rabs (ln (1 - val p)) + 1) + 1)
    (INR k * ln (val p) + (INR n - INR k) * ln (1 - val p)) (binomial_ld (@mkBinomial F n p) k).
Proof.
  intros N P K CN. unfold binomial_ld. cbn [bi_n bi_prob]. rewrite (proj2 (Nat.leb_le k n) K). sizes.
  assert (KN : INR k <= INR n) by (apply le_INR, K). assert (CK : count32_ok k) by (unfold count32_ok in *; lra).
  destruct (count_num n CN) as (NN & VN & BN). destruct (count_num k CK) as (NK & VK & BK).
  pose proof (ln_any p N ltac:(lra)) as L1. pose proof (ln_one_minus p N P) as L2.
  destruct (acc_count_ln k c _ _ _ CK (acc_lnx p N ltac:(lra)) ltac:(lra) ltac:(lra)) as [T1 S1].
  pose proof (acc_ln_one_minus p N P) as T0. set (lp := ln (val p)) in *. set (lq := ln (1 - val p)) in *. pose proof (Rabs_pos lp). pose proof (Rabs_pos lq).
  assert (S2 : (INR n - INR k) * (Rabs lq + 1) <= huge32).
  { apply Rle_trans with (2000000 * 2000); [apply Rmult_le_compat; lra|]. apply Rle_trans with (bpow radix2 60); [change (bpow radix2 60) with 1152921504606846976; lra|apply bpow_le; lia]. }
  assert (T2 : acc (c + 4) ((INR n - INR k) * (Rabs lq + 1) + small32) ((INR n - INR k) * lq) (f32_mul (f32_sub (@nofn F n) (@nofn F k)) (s_ln L (f32_sub (f32_of_Z 1) p)))).
  { replace (c + 4) with (1 + (c + 2) + 1) by ring. apply acc_mul; ks; [|exact T0].
    apply acc_diff'; try assumption; rewrite ?VN, ?VK; [ring| |]; rewrite ?Rabs_pos_eq by lra; lra. }
  assert (INR k * small32 <= INR k * / 1000000000) by (apply Rmult_le_compat_l; lra).
  eapply acc_more; [apply (acc_add (c + 4)); [eapply acc_more; [exact T1| |apply Rle_refl]|exact T2| | |]|..]; ks.
Qed.

(** Poisson. *)
Lemma log_fact_float k : count32_ok k ->
  acc (c + INR k) (ln (INR (fact k)) + INR k * small32) (ln (INR (fact k))) (fold_left (fun acc i => @nadd F acc (nln (nofn i))) (seq 1 k) n0) /\
  0 <= ln (INR (fact k)) <= INR k * 1074.
Proof.
  induction k as [|k IH]; intros K.
  - cbn [seq fold_left fact INR]. rewrite ln_1. destruct zero_num as [N0 V0]. split; [|lra]. eapply acc_more; [apply (acc_is _ 0 0 N0 V0); rewrite Rabs_R0; lra|lra|lra].
  - destruct (count_num (S k) K) as (NS & VS & BS). rewrite S_INR in BS |- *. destruct IH as [A B]; [unfold count32_ok in *; rewrite S_INR in K; lra|].
    rewrite seq_S, fold_left_app. cbn [fold_left]. replace (1 + k)%nat with (S k) by lia. sizes. pose proof (pos_INR k) as PK.
    assert (P : 0 < INR (S k)) by (apply lt_0_INR; lia). assert (PV : 0 < val (@nofn F (S k))) by lra.
    pose proof (acc_lnx _ NS PV) as T. pose proof (ln_any _ NS PV) as LA. rewrite VS in T, LA.
    assert (LP : 0 <= ln (INR (S k))) by (rewrite <- ln_1; apply ln_le; [lra|rewrite S_INR; lra]). rewrite (Rabs_pos_eq _ LP) in T, LA.
    change (fact (S k)) with (S k * fact k)%nat. rewrite mult_INR, ln_mult by (try apply INR_fact_lt_0; auto). split; [|lra].
    rewrite (Rplus_comm (ln (INR (S k)))). replace (c + (INR k + 1)) with (c + INR k + 1) by ring.
    eapply acc_more; [apply (acc_add (c + INR k)); [exact A|eapply acc_more; [exact T| |apply Rle_refl]| | |]|..]; ks.
    apply Rle_trans with (2000000 * 2000); [nra|]. apply Rle_trans with (bpow radix2 60); [change (bpow radix2 60) with 1152921504606846976; lra|apply bpow_le; lia].
Qed.
Lemma poisson_float rate k : is_single rate -> 0 < val rate <= huge32 -> count32_ok k ->
  acc (c + INR k + 3) (INR k * Rabs (ln (val rate)) + val rate + ln (INR (fact k)) + 1) (ln (poisson_pmf (val rate) k)) (poisson_ld (@mkPoisson F rate) k).
Proof.
  intros N P K. rewrite ln_poisson_pmf by apply P. unfold poisson_ld. cbn [p_rate]. sizes. destruct (count_num k K) as (NK & VK & BK).
  destruct (log_fact_float k K) as [TF BF]. pose proof (ln_any rate N ltac:(lra)) as L1.
  destruct (acc_count_ln k c _ _ _ K (acc_lnx rate N ltac:(lra)) ltac:(lra) ltac:(lra)) as [T1 S1].
  set (lr := ln (val rate)) in *. set (lf := ln (INR (fact k))) in *.
  assert (KS : INR k * small32 <= / 100).
  { apply Rle_trans with (bpow radix2 41 * bpow radix2 (-100)); [apply Rmult_le_compat; try lra; unfold small32; try apply bpow_ge_0; try lra; change (bpow radix2 41) with 2199023255552; lra|].
    rewrite <- bpow_plus. apply Rle_trans with (bpow radix2 (-10)); [apply bpow_le; lia|change (bpow radix2 (-10)) with (/ 1024); lra]. }
  assert (S2 : INR k * 1074 <= huge32).
  { apply Rle_trans with (2000000 * 2000); [lra|]. apply Rle_trans with (bpow radix2 60); [change (bpow radix2 60) with 1152921504606846976; lra|apply bpow_le; lia]. }
  eapply acc_more; [apply (acc_sub (c + INR k + 2));
    [replace (c + INR k + 2) with (c + INR k + 1 + 1) by ring; apply acc_sub;
      [eapply acc_more; [exact T1| |apply Rle_refl]|eapply acc_more; [apply (acc_is rate (val rate) (val rate) N eq_refl); rewrite Rabs_pos_eq; lra| |apply Rle_refl]| | |]
    |eapply acc_more; [exact TF| |apply Rle_refl]| | |]|..]; ks.
Qed.

(** Geometric. *)
Lemma geometric_float p k : is_single p -> 0 < val p < 1 -> (1 <= k)%nat -> count32_ok k ->
  acc (c + 5) (INR k * (Rabs (ln (1 - val p)) + 1) + Rabs (ln (val p)) + 1) (ln (geometric_pmf (val p) k)) (geometric_ld (@mkGeometric F p) k).
Proof.
  intros N P K1 K. destruct k as [|j]; [lia|]. rewrite ln_geometric_pmf by exact P. unfold geometric_ld. cbn [ge_prob]. change (Nat.leb 1 (S j)) with true. cbn iota.
  sizes. destruct (count_num (S j) K) as (NK & VK & BK). destruct one_num as [N1 V1]. rewrite S_INR in *. pose proof (pos_INR j) as PJ.
  pose proof (ln_any p N ltac:(lra)) as L1. pose proof (ln_one_minus p N P) as L2. pose proof (acc_ln_one_minus p N P) as T0. pose proof (acc_lnx p N ltac:(lra)) as TP.
  set (lp := ln (val p)) in *. set (lq := ln (1 - val p)) in *. pose proof (Rabs_pos lp). pose proof (Rabs_pos lq).
  assert (S2 : INR j * (Rabs lq + 1) <= huge32).
  { apply Rle_trans with (2000000 * 2000); [apply Rmult_le_compat; lra|]. apply Rle_trans with (bpow radix2 60); [change (bpow radix2 60) with 1152921504606846976; lra|apply bpow_le; lia]. }
  assert (T1 : acc (c + 4) (INR j * (Rabs lq + 1) + small32) (INR j * lq) (f32_mul (f32_sub (@nofn F (S j)) (f32_of_Z 1)) (s_ln L (f32_sub (f32_of_Z 1) p)))).
  { replace (c + 4) with (1 + (c + 2) + 1) by ring. apply acc_mul; ks; [|exact T0].
    apply acc_diff'; try assumption; rewrite ?VK, ?V1; [ring| |]; rewrite ?Rabs_pos_eq by lra; lra. }
  eapply acc_more; [apply (acc_add (c + 4)); [exact T1|eapply acc_more; [exact TP| |apply Rle_refl]| | |]|..]; ks.
Qed.

(** Negative binomial: the direct density leaves out the coefficient. *)
Lemma negbinomial_float r p k : is_single p -> 0 < val p < 1 -> count32_ok r -> count32_ok k ->
  acc (c + 4) (INR r * (Rabs (ln (val p)) + 1) + INR k * (Rabs (ln (1 - val p)) + 1) + 1)
    (INR r * ln (val p) + INR k * ln (1 - val p)) (negbinomial_ld (@mkNegBinomial F r p) k).
Proof.
  intros N P R K. unfold negbinomial_ld. cbn [nb_r nb_prob]. sizes. destruct (count_num r R) as (_ & _ & BR).
  pose proof (ln_any p N ltac:(lra)) as L1. pose proof (ln_one_minus p N P) as L2.
  destruct (acc_count_ln r c _ _ _ R (acc_lnx p N ltac:(lra)) ltac:(lra) ltac:(lra)) as [T1 S1].
  destruct (acc_count_ln k (c + 2) _ _ _ K (acc_ln_one_minus p N P) ltac:(lra) ltac:(lra)) as [T2 S2].
  assert (INR r * small32 <= INR r * 1) by (apply Rmult_le_compat_l; lra).
  eapply acc_more; [apply (acc_add (c + 2 + 1)); [eapply acc_more; [exact T1| |apply Rle_refl]|exact T2| | |]|..]; ks.
Qed.

(** Categorical. *)
Lemma categorical_float ps k p : nth_error ps k = Some p -> is_single p -> 0 < val p ->
  acc c (Rabs (ln (val p)) + small32) (ln (categorical_pmf (map val ps) k)) (categorical_ld (@mkCategorical F ps) k).
Proof.
  intros E N P. unfold categorical_ld, categorical_pmf. cbn [ca_probs].
  assert (K : (k < length ps)%nat) by (apply nth_error_Some; rewrite E; discriminate). apply Nat.ltb_lt in K.
  change (acc c (Rabs (ln (val p)) + small32) (ln (nth k (map val ps) 0)) (if Nat.ltb k (length ps) then s_ln L (nth k ps (f32_of_Z 0)) else S754_infinity true)). rewrite K.
  rewrite (nth_error_nth ps k (f32_of_Z 0) E). replace (nth k (map val ps) 0) with (val p).
  - apply acc_lnx; assumption.
  - rewrite <- (nth_error_nth (map val ps) k 0 (x := val p)); [reflexivity|]. exact (map_nth_error val k ps E).
Qed.
End Dists.
