(** Joint log-densities of samples in binary64 (C70): the distributions. *)
From Coq Require Import ZArith Reals Bool String List Lia Lra.
From Coq Require Import Floats.SpecFloat.
From Flocq Require Import Core.
From Verif Require Import Num EggSpec LitFacts EggNum FloatFacts FloatErr JitAcc AccSpec AccProofs RoundSpec RoundProofs RelErr
  DensitySpec CoreModel CombModel ExpFamModel DistModel DistSpec DistFacts BuilderProofs DistProofs DistFloat SumFloat FamFloatSpec FamFloat FactFloat FamFloat2 IidFloatSpec IidFloat.
Import ListNotations.
Local Open Scope R_scope.

Section Fam.
Context (c : R) (lg : R -> R) (L : libm) (LOK : libm_ok c lg L) (C0 : 0 <= c <= 1000000).
Notation F := (F64 L).

(** * The decomposition path *)
Lemma normal_iid_float mu sd xs : is_num mu -> is_num sd -> 0 < val sd -> Rabs (val mu) <= huge -> Forall is_num xs -> count_ok (length xs) ->
  (forall x, In x xs -> Rabs (val x) <= huge /\ Rabs ((val x - val mu) / val sd) <= bpow radix2 400) ->
  Rsum (map (normal_scale mu sd) xs) <= big ->
  acc (c + 6 + INR (length xs) + 4) (Rsum (map (normal_scale mu sd) xs)) (Rsum (map (fun x => ln (normal_pdf (val mu) (val sd) (val x))) xs))
    (normal_log_density_iid (@mkNormal F mu sd) xs).
Proof.
  intros NM NS P BM NX N BX M. rewrite Forall_forall in NX. sizes. destruct zero_num as [Nz Vz].
  assert (LP := ln_two_pi).
  assert (T1 : acc (c + 5) (1.5 + small) (- / 2 * ln (2 * PI)) (f64_mul (SFopp (f64_dec 5 10)) (l_ln L (f64_mul (f64_of_Z 2) f64_pi)))).
  { apply (normal_terms c lg L LOK C0 mu sd mu NM NS NM P BM BM). unfold Rminus, Rdiv. rewrite Rplus_opp_r, Rmult_0_l, Rabs_R0. apply bpow_ge_0. }
  pose proof (acc_neg _ _ _ _ (acc_lnx c lg L LOK sd NS P)) as T2.
  unfold normal_log_density_iid. set (d := @mkNormal F mu sd).
  apply (decomp_sample L (normal_decomposition d) xs (normal_params d) (c + 6) (fun _ => 0) (fun _ => 0) (Rabs (ln (val sd)) + small) (- ln (val sd))
    (fun x => ((val x - val mu) / val sd) * ((val x - val mu) / val sd) + / 100) (fun x => - / 2 * ((val x - val mu) / val sd) * ((val x - val mu) / val sd))
    (1.5 + small) (- / 2 * ln (2 * PI))); try assumption; try lra.
  - intros x I. apply (acc_k 0); [exact acc_zero|lra].
  - change (evaluate_param_terms (normal_decomposition d) (normal_params d)) with (f64_add (f64_of_Z 0) (SFopp (l_ln L sd))). apply acc_add_zero. apply (acc_k c); [exact T2|lra].
  - intros x I. destruct (BX x I) as [B1 B2]. destruct (normal_terms c lg L LOK C0 mu sd x NM NS (NX x I) P BM B1 B2) as (_ & T3 & _).
    change (mixed_sum (normal_decomposition d) x (normal_params d)) with
      (f64_add (f64_of_Z 0) (f64_mul (f64_mul (SFopp (f64_dec 5 10)) (f64_div (f64_sub x mu) sd)) (f64_div (f64_sub x mu) sd))).
    apply acc_add_zero. apply (acc_k 6); [exact T3|lra].
  - change (constant_sum (normal_decomposition d)) with (f64_add (f64_of_Z 0) (f64_mul (SFopp (f64_dec 5 10)) (l_ln L (f64_mul (f64_of_Z 2) f64_pi)))).
    apply acc_add_zero. apply (acc_k (c + 5)); [exact T1|lra].
  - intros x I. unfold normal_scale. cbv zeta. lra.
  - intros x I. rewrite ln_normal_pdf by exact P. field. lra.
Qed.

(** Cauchy: the part that depends on the observation. *)
Lemma cauchy_kernel_float loc sc x : is_num loc -> is_num sc -> is_num x -> 0 < val sc -> Rabs (val loc) <= huge -> Rabs (val x) <= huge ->
  let z := (val x - val loc) / val sc in Rabs z <= bpow radix2 400 ->
  acc (c + 48) (ln (1 + z * z) + 1) (- ln (1 + z * z))
    (SFopp (l_ln L (f64_add (f64_of_Z 1) (f64_mul (f64_div (f64_sub x loc) sc) (f64_div (f64_sub x loc) sc))))).
Proof.
  intros NM NS NX P BM BX z BZ. destruct (acc_z loc sc x NM NS NX P BM BX BZ) as (Tz & ZH & ZZ & ZB). fold z in Tz, ZH, ZZ, ZB.
  destruct one_num as [N1 V1]. sizes. pose proof (Rabs_pos z) as AZ. assert (Z0 : 0 <= z * z) by apply Rle_0_sqr. clearbody z.
  assert (TZ : acc 5 (3 / 2 * (z * z) + / 100) (z * z) (f64_mul (f64_div (f64_sub x loc) sc) (f64_div (f64_sub x loc) sc))).
  { assert (Q : (Rabs z + small) * (Rabs z + small) <= 3 / 2 * (z * z) + / 1000).
    { rewrite ZZ. pose proof (Rle_0_sqr (Rabs z - 2 * small)) as S0. unfold Rsqr in S0. nra. }
    eapply acc_more; [eapply acc_mul; [exact Tz|exact Tz| | | |]|..]; ks. }
  assert (TR : acc 6 (2 * (1 + z * z)) (1 + z * z) (f64_add (f64_of_Z 1) (f64_mul (f64_div (f64_sub x loc) sc) (f64_div (f64_sub x loc) sc)))).
  { eapply acc_more; [eapply (acc_add 5 1); [|exact TZ| | |]|..]; ks.
    eapply acc_more; [apply (acc_is _ 1 1 N1 V1); rewrite Rabs_pos_eq; lra|lra|lra]. }
  pose proof (rel_of_acc _ _ _ (acc_shrink _ _ _ TR ltac:(lra) ltac:(lra)) ltac:(lra) ltac:(lra) ltac:(ks)) as RR.
  pose proof (acc_lnr c lg L LOK C0 _ _ _ RR ltac:(lra) ltac:(lra)) as TL.
  assert (0 <= ln (1 + z * z)) by (rewrite <- ln_1; apply ln_le; lra).
  rewrite (Rabs_pos_eq (ln (1 + z * z))) in TL by lra. apply acc_neg. eapply acc_more; [exact TL|lra|lra].
Qed.

Lemma cauchy_iid_float loc sc xs : is_num loc -> is_num sc -> 0 < val sc -> Rabs (val loc) <= huge -> Forall is_num xs -> count_ok (length xs) ->
  (forall x, In x xs -> Rabs (val x) <= huge /\ Rabs ((val x - val loc) / val sc) <= bpow radix2 400) ->
  Rsum (map (fun x => cauchy_scale (val loc) (val sc) (val x)) xs) <= big ->
  acc (c + 50 + INR (length xs) + 4) (Rsum (map (fun x => cauchy_scale (val loc) (val sc) (val x)) xs)) (Rsum (map (fun x => ln (cauchy_pdf (val loc) (val sc) (val x))) xs))
    (cauchy_log_density_iid (@mkCauchy F loc sc) xs).
Proof.
  intros NM NS P BM NX N BX M. rewrite Forall_forall in NX. sizes. pose proof pi_bounds as PB.
  assert (LP : 0 <= ln PI <= 2).
  { split; [rewrite <- ln_1; apply ln_le; lra|]. apply Rle_trans with (ln (2 * PI)); [apply ln_le; lra|apply ln_two_pi]. }
  pose proof (acc_neg _ _ _ _ (acc_lnx c lg L LOK sc NS P)) as T2.
  pose proof (acc_lnr c lg L LOK C0 _ _ _ rel_pi PI_RGT_0 ltac:(lra)) as TP. rewrite (Rabs_pos_eq (ln PI)) in TP by lra. apply acc_neg in TP.
  unfold cauchy_log_density_iid. set (d := @mkCauchy F loc sc).
  apply (decomp_sample L (cauchy_decomposition d) xs (loc, sc) (c + 50) (fun _ => 0) (fun _ => 0) (Rabs (ln (val sc)) + small) (- ln (val sc))
    (fun x => ln (1 + ((val x - val loc) / val sc) * ((val x - val loc) / val sc)) + 1) (fun x => - ln (1 + ((val x - val loc) / val sc) * ((val x - val loc) / val sc)))
    (ln PI + 1) (- ln PI)); try assumption; try lra.
  - intros x I. apply (acc_k 0); [exact acc_zero|lra].
  - change (evaluate_param_terms (cauchy_decomposition d) (loc, sc)) with (f64_add (f64_of_Z 0) (SFopp (l_ln L sc))). apply acc_add_zero. apply (acc_k c); [exact T2|lra].
  - intros x I. destruct (BX x I) as [B1 B2]. pose proof (cauchy_kernel_float loc sc x NM NS (NX x I) P BM B1 B2) as T3.
    change (mixed_sum (cauchy_decomposition d) x (loc, sc)) with
      (f64_add (f64_of_Z 0) (SFopp (l_ln L (f64_add (f64_of_Z 1) (f64_mul (f64_div (f64_sub x loc) sc) (f64_div (f64_sub x loc) sc)))))).
    apply acc_add_zero. apply (acc_k (c + 48)); [exact T3|lra].
  - change (constant_sum (cauchy_decomposition d)) with (f64_add (f64_of_Z 0) (SFopp (l_ln L f64_pi))).
    apply acc_add_zero. eapply acc_k; [exact TP|lra].
  - intros x I. unfold cauchy_scale. lra.
  - intros x I. rewrite ln_cauchy_pdf by exact P. ring.
Qed.

(** Student's t: the normalising part and the part that depends on the observation. *)
Lemma student_norm_float nu : is_num nu -> bpow radix2 (-900) <= val nu <= huge ->
  val (f64_add nu (f64_of_Z 1)) = val nu + 1 -> Rabs (lg ((val nu + 1) / 2)) <= huge -> Rabs (lg (val nu / 2)) <= huge ->
  acc (c + 6) (1 + Rabs (lg ((val nu + 1) / 2)) + (1 + Rabs (lg (val nu / 2))) + (/ 2 * (Rabs (ln (val nu * PI)) + 1) + small))
    (lg ((val nu + 1) / 2) - lg (val nu / 2) - / 2 * ln (val nu * PI)) (@student_log_norm F nu) /\ Rabs (ln (val nu * PI)) <= 1100.
Proof.
  intros NN [K0 K1] EX LG1 LG2. pose proof (bpow_gt_0 radix2 (-900)) as K2. assert (NP : 0 < val nu) by lra.
  unfold student_log_norm, midpoint1.
  destruct one_num as [N1 V1]. destruct two_num as [N2 V2]. destruct half_dec as [NH VH]. sizes. pose proof pi_bounds as PB.
  assert (SK : small * 1000 <= val nu).
  { apply Rle_trans with (bpow radix2 (-1000) * bpow radix2 10); [unfold small; change (bpow radix2 10) with 1024; pose proof (bpow_gt_0 radix2 (-1000)); lra|].
    rewrite <- bpow_plus. eapply Rle_trans; [apply bpow_le|exact K0]. lia. }
  assert (SS : small <= val nu) by lra.
  assert (NA : is_num (f64_add nu (f64_of_Z 1))).
  { apply add_num; try assumption. apply big2. rewrite V1, Rabs_pos_eq; lra. }
  destruct (half_exact nu NN SS) as [NB VB]. destruct (half_exact _ NA ltac:(rewrite EX; unfold small in *; lra)) as [NM VM]. rewrite EX in VM.
  assert (T1 : acc (c + 1) (1 + Rabs (lg ((val nu + 1) / 2)) + (1 + Rabs (lg (val nu / 2)))) (lg ((val nu + 1) / 2) - lg (val nu / 2))
    (f64_sub (l_lgamma L (f64_div (f64_add nu (f64_of_Z 1)) (f64_of_Z 2))) (l_lgamma L (f64_div nu (f64_of_Z 2))))).
  { rewrite <- VM, <- VB in *. pose proof (Rabs_pos (lg (val (f64_div (f64_add nu (f64_of_Z 1)) (f64_of_Z 2))))). pose proof (Rabs_pos (lg (val (f64_div nu (f64_of_Z 2))))).
    apply acc_sub; ks; apply (acc_lg c lg L LOK); try assumption; lra. }
  assert (RP : rel 2 (val nu * PI) (f64_mul nu f64_pi)).
  { replace 2 with (0 + 1 + 1) by lra. apply rel_mul; ks; [apply rel_exact; [exact NN|lra]|exact rel_pi|].
    split; rewrite Rabs_pos_eq by nra; nra. }
  assert (NPI : 0 < val nu * PI) by nra.
  pose proof (acc_lnr c lg L LOK C0 2 _ _ RP NPI ltac:(lra)) as A1.
  assert (LNP : Rabs (ln (val nu * PI)) <= 1100).
  { pose proof (ln_rel 2 _ _ RP NPI) as E. pose proof (ln_any _ (proj1 RP) (rel_sign _ _ _ RP NPI)) as A. apply Rabs_le_inv in E. apply Rabs_le_inv in A. apply Rabs_le. lra. }
  set (lnp := ln (val nu * PI)) in *. pose proof (Rabs_pos lnp).
  assert (T2 : acc (c + 5) (/ 2 * (Rabs lnp + 1) + small) (/ 2 * lnp) (f64_mul (f64_dec 5 10) (l_ln L (f64_mul nu f64_pi)))).
  { eapply acc_more; [eapply acc_mul; [apply (acc_is _ (/ 2) (/ 2) NH VH); rewrite Rabs_pos_eq; lra|exact A1| | | |]|..]; ks. }
  assert (T3 : acc (c + 6) (1 + Rabs (lg ((val nu + 1) / 2)) + (1 + Rabs (lg (val nu / 2))) + (/ 2 * (Rabs lnp + 1) + small)) (lg ((val nu + 1) / 2) - lg (val nu / 2) - / 2 * lnp)
    (f64_sub (f64_sub (l_lgamma L (f64_div (f64_add nu (f64_of_Z 1)) (f64_of_Z 2))) (l_lgamma L (f64_div nu (f64_of_Z 2)))) (f64_mul (f64_dec 5 10) (l_ln L (f64_mul nu f64_pi))))).
  { replace (c + 6) with (c + 5 + 1) by ring. apply acc_sub; ks; [eapply acc_more; [exact T1|lra|apply Rle_refl]|exact T2]. }
  split; [exact T3|exact LNP].
Qed.
Lemma student_kernel_float nu x : is_num nu -> is_num x -> bpow radix2 (-900) <= val nu <= huge -> Rabs (val x) <= bpow radix2 400 -> val x * val x / val nu <= huge ->
  val (f64_add nu (f64_of_Z 1)) = val nu + 1 ->
  acc (c + 25) ((val nu + 1) * (ln (1 + val x * val x / val nu) + 1) / 2 + small) (- ((val nu + 1) / 2) * ln (1 + val x * val x / val nu)) (@student_kernel F x nu) /\
  0 <= ln (1 + val x * val x / val nu) <= 1100.
Proof.
  intros NN NX [K0 K1] BX BQ EX. pose proof (bpow_gt_0 radix2 (-900)) as K2. assert (NP : 0 < val nu) by lra.
  unfold student_kernel, midpoint1.
  destruct one_num as [N1 V1]. destruct two_num as [N2 V2]. destruct half_dec as [NH VH]. sizes. pose proof pi_bounds as PB.
  assert (SK : small * 1000 <= val nu).
  { apply Rle_trans with (bpow radix2 (-1000) * bpow radix2 10); [unfold small; change (bpow radix2 10) with 1024; pose proof (bpow_gt_0 radix2 (-1000)); lra|].
    rewrite <- bpow_plus. eapply Rle_trans; [apply bpow_le|exact K0]. lia. }
  assert (SS : small <= val nu) by lra.
  assert (XX : val x * val x = Rabs (val x) * Rabs (val x)) by (rewrite <- Rabs_mult, Rabs_pos_eq; [ring|apply Rle_0_sqr]).
  assert (XB : 0 <= val x * val x <= huge).
  { split; [apply Rle_0_sqr|]. rewrite XX. apply Rle_trans with (bpow radix2 400 * bpow radix2 400); [apply Rmult_le_compat; try apply Rabs_pos; exact BX|].
    rewrite <- bpow_plus. apply bpow_le. lia. }
  assert (NA : is_num (f64_add nu (f64_of_Z 1))).
  { apply add_num; try assumption. apply big2. rewrite V1, Rabs_pos_eq; lra. }
  destruct (half_exact nu NN SS) as [NB VB]. destruct (half_exact _ NA ltac:(rewrite EX; unfold small in *; lra)) as [NM VM]. rewrite EX in VM.
  set (q := val x * val x / val nu) in *.
  assert (Q0 : 0 <= q) by (apply Rmult_le_pos; [lra|left; apply Rinv_0_lt_compat; exact NP]).
  assert (QS : (val x * val x + small) / val nu <= q + / 1000).
  { unfold q. replace ((val x * val x + small) / val nu) with (val x * val x / val nu + small / val nu) by (field; lra).
    apply Rplus_le_compat_l. apply (Rmult_le_reg_r (val nu)); [exact NP|]. unfold Rdiv. rewrite Rmult_assoc, Rinv_l by lra. lra. }
  assert (TQ : acc 2 (q + / 1000 + small) q (f64_div (f64_mul x x) nu)).
  { eapply acc_more; [eapply (acc_div 1 0 (val x * val x + small)); [|apply rel_exact; [exact NN|lra]| | | |]|..]; ks.
    - replace 1 with (0 + 0 + 1) by lra. rewrite XX at 1. apply acc_mul; ks; apply acc_is; try assumption; try reflexivity; lra.
    - rewrite Rabs_pos_eq; lra.
    - rewrite Rabs_pos_eq; lra. }
  assert (TR : acc 3 (2 * (1 + q)) (1 + q) (f64_add (f64_of_Z 1) (f64_div (f64_mul x x) nu))).
  { eapply acc_more; [eapply (acc_add 2 1 (q + / 1000 + small)); [|exact TQ| | |]|..]; ks.
    eapply acc_more; [apply (acc_is _ 1 1 N1 V1); rewrite Rabs_pos_eq; lra|lra|lra]. }
  pose proof (rel_of_acc _ _ _ (acc_shrink _ _ _ TR ltac:(lra) ltac:(lra)) ltac:(lra) ltac:(lra) ltac:(ks)) as RR.
  pose proof (acc_lnr c lg L LOK C0 _ _ _ RR ltac:(lra) ltac:(lra)) as TL.
  assert (LQ : 0 <= ln (1 + q) <= 1100).
  { split; [rewrite <- ln_1; apply ln_le; lra|]. pose proof (ln_rel _ _ _ RR ltac:(lra)) as E. pose proof (ln_any _ (proj1 RR) (rel_sign _ _ _ RR ltac:(lra))) as A. apply Rabs_le_inv in E. apply Rabs_le_inv in A. lra. }
  rewrite (Rabs_pos_eq (ln (1 + q))) in TL by lra. set (lq := ln (1 + q)) in *.
  pose proof (mul_huge (val nu + 1) (lq + 1) ltac:(lra) ltac:(lra)) as M.
  assert (TK : acc (c + 25) ((val nu + 1) * (lq + 1) / 2 + small) (- ((val nu + 1) / 2) * lq)
    (f64_mul (SFopp (f64_div (f64_add nu (f64_of_Z 1)) (f64_of_Z 2))) (l_ln L (f64_add (f64_of_Z 1) (f64_div (f64_mul x x) nu))))).
  { eapply acc_more; [eapply (acc_mul 0 _ ((val nu + 1) / 2)); [|exact TL| | | |]|..]; ks.
    destruct (neg_num _ NM) as [NM' VM']. apply acc_is; [exact NM'|rewrite VM', VM; reflexivity|]. rewrite Rabs_Ropp, Rabs_pos_eq; lra. }
  split; [exact TK|exact LQ].
Qed.
Notation student_scale := (IidFloatSpec.student_scale lg).
Lemma student_iid_float nu xs : is_num nu -> bpow radix2 (-900) <= val nu <= huge ->
  val (f64_add nu (f64_of_Z 1)) = val nu + 1 -> Rabs (lg ((val nu + 1) / 2)) <= huge -> Rabs (lg (val nu / 2)) <= huge ->
  Forall is_num xs -> count_ok (length xs) -> (forall x, In x xs -> Rabs (val x) <= bpow radix2 400 /\ val x * val x / val nu <= huge) ->
  Rsum (map (fun x => student_scale (val nu) (val x)) xs) <= big ->
  acc (c + 25 + INR (length xs) + 4) (Rsum (map (fun x => student_scale (val nu) (val x)) xs)) (Rsum (map (fun x => ln (student_pdf lg (val nu) (val x))) xs))
    (student_log_density_iid (@mkStudent F nu) xs).
Proof.
  intros NN KB EX LG1 LG2 NX N BX M. rewrite Forall_forall in NX. sizes. destruct (student_norm_float nu NN KB EX LG1 LG2) as [T1 LNP].
  assert (NP : 0 < val nu) by (pose proof (bpow_gt_0 radix2 (-900)); lra).
  unfold student_log_density_iid. set (d := @mkStudent F nu).
  apply (decomp_sample L (student_decomposition d) xs nu (c + 25) (fun _ => 0) (fun _ => 0) (1 + Rabs (lg ((val nu + 1) / 2)) + (1 + Rabs (lg (val nu / 2))) + (/ 2 * (Rabs (ln (val nu * PI)) + 1) + small))
    (lg ((val nu + 1) / 2) - lg (val nu / 2) - / 2 * ln (val nu * PI))
    (fun x => (val nu + 1) * (ln (1 + val x * val x / val nu) + 1) / 2 + small) (fun x => - ((val nu + 1) / 2) * ln (1 + val x * val x / val nu)) 0 0); try assumption; try lra.
  - intros x I. apply (acc_k 0); [exact acc_zero|lra].
  - change (evaluate_param_terms (student_decomposition d) nu) with (f64_add (f64_of_Z 0) (@student_log_norm F nu)). apply acc_add_zero. apply (acc_k (c + 6)); [exact T1|lra].
  - intros x I. destruct (BX x I) as [B1 B2]. destruct (student_kernel_float nu x NN (NX x I) KB B1 B2 EX) as [T3 _].
    change (mixed_sum (student_decomposition d) x nu) with (f64_add (f64_of_Z 0) (@student_kernel F x nu)). apply acc_add_zero. exact T3.
  - apply (acc_k 0); [exact acc_zero|lra].
  - intros x I. destruct (BX x I) as [B1 B2]. destruct (student_kernel_float nu x NN (NX x I) KB B1 B2 EX) as [_ LQ]. unfold student_scale.
    assert (0 <= (val nu + 1) * (ln (1 + val x * val x / val nu) + 1)) by (apply Rmult_le_pos; lra).
    pose proof (Rabs_pos (ln (val nu * PI))). lra.
  - intros x I. rewrite ln_student_pdf by exact NP. lra.
Qed.

(** * The exponential-family path *)
(** Normal. *)
Lemma normal_family_iid_float mu sd xs : is_num mu -> is_num sd -> moderate (val sd) -> at_most_moderate (val mu) -> at_most_moderate (val mu / val sd) ->
  Forall is_num xs -> count_ok (length xs) -> (forall x, In x xs -> at_most_moderate (val x) /\ at_most_moderate (val x / val sd)) ->
  acc (c + 11 + INR (length xs) + 3) (Rsum (map (fun x => family_scale (val mu) (val sd) (val x)) xs)) (Rsum (map (fun x => ln (normal_pdf (val mu) (val sd) (val x))) xs))
    (compute_iid (normal_expfam (@mkNormal F mu sd)) xs).
Proof.
  intros NM NS MS BM BMS NX N BX. rewrite Forall_forall in NX. destruct (variance_parts c lg L LOK C0 sd NS MS) as (R1 & R2 & TL & LS). destruct (mod_bounds _ MS) as (S0 & S1 & S2).
  unfold normal_expfam, normal_variance. cbn [n_mean n_sd]. cbv zeta in *. clear R1.
  change (@nmul F sd sd) with (f64_mul sd sd). change (@nrecip F (f64_mul sd sd)) with (f64_div (f64_of_Z 1) (f64_mul sd sd)).
  change (@nmul F (@nmul F n2 npi) (f64_mul sd sd)) with (f64_mul (f64_mul (f64_of_Z 2) f64_pi) (f64_mul sd sd)).
  change (@nln F (f64_mul (f64_mul (f64_of_Z 2) f64_pi) (f64_mul sd sd))) with (l_ln L (f64_mul (f64_mul (f64_of_Z 2) f64_pi) (f64_mul sd sd))).
  set (inv := f64_div _ _) in *. set (lv := l_ln L _) in *. clearbody inv lv.
  destruct powers as (Q1 & Q2 & Q3 & Q4 & Q5 & Q6 & Q7). sizes. destruct half_dec as [NH VH]. destruct mhalf_dec as [NG VG].
  destruct (mod_sqr _ BM) as [M1 M2]. destruct (mod_sqr _ BMS) as [A1 A2].
  unfold at_most_moderate in *. fold P400 in BM, BMS. fold P800 in M1, A1, S2. rewrite Q6 in S1.
  set (s := val sd) in *. set (m := val mu) in *.
  assert (S3 : 0 < s * s) by (apply Rmult_lt_0_compat; exact S0).
  set (i := / (s * s)) in *.
  assert (I1 : 0 < i <= P800).
  { unfold i. split; [apply Rinv_0_lt_compat, S3|]. rewrite <- (Rinv_inv P800). apply Rinv_le_contravar; [apply Rinv_0_lt_compat; lra|exact S1]. }
  set (a := m / s) in *. pose proof (Rabs_pos a) as AP. pose proof (Rabs_pos m) as MP.
  assert (MMI : (m * m) * i = a * a) by (unfold a, i; field; lra).
  assert (SI : small * i <= / 100000) by (eapply Rle_trans; [apply Rmult_le_compat_l; [lra|apply I1]|exact Q4]).
  assert (AI : acc 2 i i inv) by (rewrite <- (Rabs_pos_eq i) at 1 by lra; apply rel_acc; [lra|exact R2]).
  assert (MIB : Rabs m * i <= P800).
  { replace (Rabs m * i) with (Rabs a * / s) by (unfold a, i; rewrite abs_div, (Rabs_pos_eq s) by lra; field; lra).
    rewrite <- Q7. apply Rmult_le_compat; try lra; [left; apply Rinv_0_lt_compat; lra|]. rewrite <- (Rinv_inv P400). apply Rinv_le_contravar; [apply Rinv_0_lt_compat; lra|].
    rewrite <- Q5. apply MS. }
  assert (E1 : acc 3 (Rabs m * i + small) (m * i) (f64_mul mu inv)).
  { replace 3 with (0 + 2 + 1) by lra. apply acc_mul; ks; [apply acc_is; [exact NM|reflexivity|apply Rle_refl]|exact AI]. }
  assert (E2 : acc 3 (/ 2 * i + small) (- / 2 * i) (f64_mul (f64_dec (-5) 10) inv)).
  { replace 3 with (0 + 2 + 1) by lra. apply acc_mul; ks; [apply acc_is; [exact NG|exact VG|rewrite Rabs_Ropp, Rabs_pos_eq; lra]|exact AI]. }
  assert (T3 : acc (c + 9) (Rabs (ln s) + 1.6) ((ln (2 * PI) + 2 * ln s) * / 2) (f64_mul lv (f64_dec 5 10))).
  { eapply acc_more; [eapply acc_mul; [exact TL|apply (acc_is _ (/ 2) (/ 2) NH VH); rewrite Rabs_pos_eq; lra| | | |]|..]; ks. }
  assert (T4 : acc 5 (/ 2 * (a * a) + / 1000) (/ 2 * (m * m) * i) (f64_mul (f64_mul (f64_dec 5 10) (f64_mul mu mu)) inv)).
  { assert (E3 : acc 1 (m * m + small) (m * m) (f64_mul mu mu)).
    { rewrite <- M2 at 1. apply mul_exact_acc; try assumption. fold m. lra. }
    assert (E4 : acc 2 (/ 2 * (m * m + small) + small) (/ 2 * (m * m)) (f64_mul (f64_dec 5 10) (f64_mul mu mu))).
    { replace 2 with (0 + 1 + 1) at 1 by lra. apply acc_mul; ks; [apply acc_is; [exact NH|exact VH|rewrite Rabs_pos_eq; lra]|exact E3]. }
    assert (Q : (/ 2 * (m * m + small) + small) * i = / 2 * (a * a) + 3 / 2 * (small * i)) by (rewrite <- MMI; field).
    eapply acc_more; [eapply acc_mul; [exact E4|exact AI| | | |]|..]; ks; rewrite ?Q; lra. }
  assert (TA : acc (c + 10) (Rabs (ln s) + 1.6 + (/ 2 * (a * a) + / 1000)) ((ln (2 * PI) + 2 * ln s) * / 2 + / 2 * (m * m) * i)
     (f64_add (f64_mul lv (f64_dec 5 10)) (f64_mul (f64_mul (f64_dec 5 10) (f64_mul mu mu)) inv))).
  { replace (c + 10) with (c + 9 + 1) by ring. apply acc_add; ks; [exact T3|apply (acc_k 5); [exact T4|lra]]. }
  assert (XB : forall x, In x xs -> 0 <= val x * val x <= P800 /\ Rabs (val x) * Rabs (val x) = val x * val x /\ Rabs (val x) <= P400 /\
    0 <= (val x / s) * (val x / s) <= P800 /\ Rabs (val x / s) * Rabs (val x / s) = (val x / s) * (val x / s)).
  { intros x I. destruct (BX x I) as [B1 B2]. destruct (mod_sqr _ B1) as [X1 X2]. destruct (mod_sqr _ B2) as [X3 X4]. repeat split; try assumption; try apply X1; try apply X3. }
  assert (SCB : forall x, In x xs -> family_scale m s (val x) <= huge).
  { intros x I. destruct (XB x I) as (_ & _ & _ & [_ X3] & _). unfold family_scale. fold a. replace (a ^ 2) with (a * a) by ring. replace ((val x / s) ^ 2) with ((val x / s) * (val x / s)) by ring. lra. }
  apply (sample_two L (f64_mul mu inv) (f64_mul (f64_dec (-5) 10) inv) _ (fun x => x) (fun x => f64_mul x x) prim xs (c + 11) 3 (Rabs m * i + small) (m * i) 3 (/ 2 * i + small) (- / 2 * i)
    0 (fun x => Rabs (val x)) (fun x => val x) 1 (fun x => val x * val x + small) (fun x => val x * val x) (c + 10) (Rabs (ln s) + 1.6 + (/ 2 * (a * a) + / 1000))
    ((ln (2 * PI) + 2 * ln s) * / 2 + / 2 * (m * m) * i) (fun _ => 0) (fun _ => 0)); try assumption; try lra.
  - intros x I. apply acc_exact', NX, I.
  - intros x I. destruct (XB x I) as (X1 & X2 & _). rewrite <- X2 at 1. apply mul_exact_acc; try (apply NX, I). lra.
  - intros x I. apply (acc_k 0); [exact acc_zero|lra].
  - intros x I. destruct (XB x I) as (_ & _ & X3 & _). lra.
  - intros x I. destruct (XB x I) as (X1 & _). lra.
  - intros x I. destruct (XB x I) as (X1 & X2 & X3 & X4 & X5). set (t := val x) in *. set (b := t / s) in *. pose proof (Rabs_pos b) as BP. pose proof (Rabs_pos t) as TP.
    assert (MI : Rabs m * i * Rabs t = Rabs a * Rabs b) by (unfold a, b, i; rewrite !abs_div, (Rabs_pos_eq s) by lra; field; lra).
    assert (TI : i * (t * t) = b * b) by (unfold b, i; field; lra).
    assert (ST : small * Rabs t <= / 100000) by (apply Rle_trans with (small * P800); [apply Rmult_le_compat_l; lra|exact Q4]).
    assert (STT : small * (t * t) <= / 100000) by (eapply Rle_trans; [apply Rmult_le_compat_l; [lra|apply X1]|exact Q4]).
    assert (SS : small * small <= / 1000000000 * 1) by (apply Rmult_le_compat; lra).
    assert (HAB : 2 * (Rabs a * Rabs b) <= a * a + b * b).
    { rewrite <- A2, <- X5. pose proof (Rle_0_sqr (Rabs a - Rabs b)) as Z. unfold Rsqr in Z. lra. }
    assert (W1 : (Rabs m * i + small) * Rabs t = Rabs a * Rabs b + small * Rabs t) by (rewrite Rmult_plus_distr_r, MI; reflexivity).
    assert (W2 : (/ 2 * i + small) * (t * t + small) = / 2 * (b * b) + / 2 * (small * i) + small * (t * t) + small * small) by (rewrite <- TI; ring).
    rewrite W1, W2. unfold family_scale. fold a b. replace (a ^ 2) with (a * a) by ring. replace (b ^ 2) with (b * b) by ring. lra.
  - intros x I. rewrite ln_normal_pdf by exact S0. unfold i. field. lra.
  - apply (sum_huge (fun x => family_scale m s (val x))); assumption.
Qed.
End Fam.
