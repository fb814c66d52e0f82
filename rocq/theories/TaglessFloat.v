(** The interpreter-generic functions and log-densities in binary64 (C74). *)
From Coq Require Import ZArith Reals Bool String List Lia Lra.
From Coq Require Import Floats.SpecFloat.
From Flocq Require Import Core.
From Verif Require Import Num EggSpec LitFacts EggNum FloatFacts FloatErr JitAcc AccSpec AccProofs RoundSpec RoundProofs RelErr
  DensitySpec CoreModel CombModel ExpFamModel DistModel DistSpec DistFacts BuilderProofs DistProofs DistFloat SumFloat CombFloatSpec CombFloat CombFloat2 CoreSpec TaglessModel TaglessFloatSpec.
Import ListNotations.
Local Open Scope R_scope.

Section T.
Context (c : R) (lg : R -> R) (L : libm) (LOK : libm_ok c lg L) (C0 : 0 <= c <= 1000000).
Notation F := (F64 L).
Notation D := (@DirectEval (F64 L)).

(** The constant term, minus half the logarithm of 2 pi. *)
Lemma half_ln_two_pi : acc (c + 5) (1.5 + small) (/ 2 * ln (2 * PI)) (f64_mul (f64_dec 5 10) (l_ln L (f64_mul (f64_of_Z 2) f64_pi))).
Proof.
  destruct half_dec as [NH VH]. destruct two_num as [N2 V2]. sizes. pose proof pi_bounds as PB. pose proof ln_two_pi as LP.
  assert (R2 : rel 2 (2 * PI) (f64_mul (f64_of_Z 2) f64_pi)).
  { replace 2 with (0 + 1 + 1) at 1 by lra. apply rel_mul; ks.
    - apply rel_is; [exact N2|exact V2|lra].
    - exact rel_pi.
    - split; rewrite Rabs_pos_eq by lra; lra. }
  pose proof (acc_lnr c lg L LOK C0 2 (2 * PI) _ R2 ltac:(lra) ltac:(lra)) as A1. rewrite (Rabs_pos_eq (ln _)) in A1 by lra.
  assert (A2 : acc 0 (/ 2) (/ 2) (f64_dec 5 10)) by (apply acc_is; [exact NH|exact VH|rewrite Rabs_pos_eq; lra]).
  eapply acc_more; [eapply acc_mul; [exact A2|exact A1| | | |]|..]; ks.
Qed.
Lemma square_acc k z w : acc k (Rabs z + small) z w -> 0 <= k <= 100 -> Rabs z <= huge -> z * z <= huge ->
  acc (2 * k + 1) (3 / 2 * (z * z) + / 100) (z * z) (f64_mul w w).
Proof.
  intros A K ZH ZB. sizes. pose proof (Rabs_pos z) as AZ. assert (ZZ : z * z = Rabs z * Rabs z) by (rewrite <- Rabs_mult, Rabs_pos_eq; [ring|apply Rle_0_sqr]).
  assert (Q : (Rabs z + small) * (Rabs z + small) <= 3 / 2 * (z * z) + / 1000).
  { rewrite ZZ. pose proof (Rle_0_sqr (Rabs z - 2 * small)) as S0. unfold Rsqr in S0. nra. }
  eapply acc_more; [eapply acc_mul; [exact A|exact A| | | |]|..]; ks.
Qed.
Lemma half_square k z w : acc k (Rabs z + small) z w -> 0 <= k <= 100 -> Rabs z <= huge -> z * z <= huge ->
  acc (2 * k + 2) (z * z + / 100) (/ 2 * (z * z)) (f64_mul (f64_dec 5 10) (f64_mul w w)).
Proof.
  intros A K ZH ZB. sizes. pose proof (square_acc k z w A K ZH ZB) as S. pose proof (Rle_0_sqr z) as Z0. unfold Rsqr in Z0. destruct half_dec as [NH VH].
  eapply acc_more; [eapply (acc_mul 0 (2 * k + 1)); [apply (acc_is _ (/ 2) (/ 2) NH VH); rewrite Rabs_pos_eq; lra|exact S| | | |]|..]; ks.
Qed.

Lemma tagless_normal mu sd x : is_num mu -> is_num sd -> is_num x -> 0 < val sd -> Rabs (val mu) <= huge -> Rabs (val x) <= huge ->
  let z := (val x - val mu) / val sd in Rabs z <= bpow radix2 400 ->
  acc (c + 7) (z * z + Rabs (ln (val sd)) + 2) (ln (normal_pdf (val mu) (val sd) (val x))) (p_normal D x mu sd).
Proof.
  intros NM NS NX P BM BX z BZ. destruct (acc_z mu sd x NM NS NX P BM BX BZ) as (Tz & ZH & ZZ & ZB). fold z in Tz, ZH, ZZ, ZB.
  rewrite ln_normal_pdf by exact P.
  replace (- (1 / 2 * ln (2 * PI) + ln (val sd)) + - (1 / 2) * (val x - val mu) ^ 2 / val sd ^ 2)
    with (- (/ 2 * ln (2 * PI)) - ln (val sd) - / 2 * (z * z)) by (unfold z; field; lra).
  change (p_normal D x mu sd) with (f64_sub (f64_sub (SFopp (f64_mul (f64_dec 5 10) (l_ln L (f64_mul (f64_of_Z 2) f64_pi)))) (l_ln L sd))
    (f64_mul (f64_dec 5 10) (f64_mul (f64_div (f64_sub x mu) sd) (f64_div (f64_sub x mu) sd)))).
  sizes. pose proof (ln_any sd NS P) as LS. pose proof half_ln_two_pi as T1. apply acc_neg in T1.
  pose proof (acc_lnx c lg L LOK sd NS P) as T2. pose proof (half_square 2 z _ Tz ltac:(lra) ZH ZB) as T3. clearbody z. pose proof (Rle_0_sqr z) as Z0. unfold Rsqr in Z0.
  eapply acc_more; [apply (acc_sub (c + 6)); [replace (c + 6) with (c + 5 + 1) by ring; apply acc_sub; [exact T1|eapply acc_more; [exact T2| |apply Rle_refl]| | |]|eapply acc_more; [exact T3| |apply Rle_refl]| | |]|..]; ks.
Qed.
Lemma tagless_standard_normal x : is_num x -> Rabs (val x) <= bpow radix2 400 ->
  acc (c + 6) (val x * val x + 2) (ln (normal_pdf 0 1 (val x))) (p_standard_normal D x).
Proof.
  intros NX B. rewrite ln_normal_pdf by lra. rewrite ln_1.
  replace (- (1 / 2 * ln (2 * PI) + 0) + - (1 / 2) * (val x - 0) ^ 2 / 1 ^ 2) with (- (/ 2 * ln (2 * PI)) - / 2 * (val x * val x)) by field.
  change (p_standard_normal D x) with (f64_sub (SFopp (f64_mul (f64_dec 5 10) (l_ln L (f64_mul (f64_of_Z 2) f64_pi)))) (f64_mul (f64_dec 5 10) (f64_mul x x))).
  sizes. pose proof half_ln_two_pi as T1. apply acc_neg in T1. pose proof (Rabs_pos (val x)).
  assert (ZH : Rabs (val x) <= huge) by (eapply Rle_trans; [exact B|apply bpow_le; lia]).
  assert (ZB : val x * val x <= huge).
  { replace (val x * val x) with (Rabs (val x) * Rabs (val x)) by (rewrite <- Rabs_mult, Rabs_pos_eq; [ring|apply Rle_0_sqr]).
    apply Rle_trans with (bpow radix2 400 * bpow radix2 400); [apply Rmult_le_compat; lra|]. rewrite <- bpow_plus. apply bpow_le. lia. }
  assert (TX : acc 0 (Rabs (val x) + small) (val x) x) by (apply acc_is; [exact NX|reflexivity|lra]).
  pose proof (half_square 0 (val x) x TX ltac:(lra) ZH ZB) as T3. pose proof (Rle_0_sqr (val x)) as Z0. unfold Rsqr in Z0.
  eapply acc_more; [apply (acc_sub (c + 5)); [exact T1|eapply acc_more; [exact T3| |apply Rle_refl]| | |]|..]; ks.
Qed.
(** The exponential pattern has no guard. *)
Lemma tagless_exponential rate x : is_num rate -> is_num x -> 0 < val rate -> val rate * Rabs (val x) <= huge ->
  acc (c + 2) (Rabs (ln (val rate)) + val rate * Rabs (val x) + 1) (ln (val rate) - val rate * val x) (p_exponential D x rate).
Proof.
  intros NR NX P B. sizes. pose proof (ln_any rate NR P) as LR. pose proof (Rabs_pos (val x)). assert (0 <= val rate * Rabs (val x)) by (apply Rmult_le_pos; lra).
  change (p_exponential D x rate) with (f64_sub (l_ln L rate) (f64_mul rate x)).
  assert (T : acc 1 (val rate * Rabs (val x) + small) (val rate * val x) (f64_mul rate x)).
  { replace 1 with (0 + 0 + 1) by lra. apply acc_mul; ks; apply acc_is; try assumption; try reflexivity; try apply Rle_refl. rewrite Rabs_pos_eq; lra. }
  eapply acc_more; [apply (acc_sub (c + 1)); [eapply acc_more; [apply (acc_lnx c lg L LOK); assumption| |apply Rle_refl]|eapply acc_more; [exact T| |apply Rle_refl]| | |]|..]; ks.
Qed.
Lemma tagless_cauchy_same loc sc x : p_cauchy D x loc sc = cauchy_log_pdf (@mkCauchy F loc sc) x.
Proof. reflexivity. Qed.
Lemma eval_normal_same mu sd x : @de_normal F x mu sd = normal_ld (@mkNormal F mu sd) x.
Proof. reflexivity. Qed.
Lemma eval_exponential_same rate x : @de_exponential F x rate = exponential_ld (@mkExponential F rate) x.
Proof. reflexivity. Qed.
(** The Poisson pattern subtracts ln x. *)
Lemma tagless_poisson rate x : is_num rate -> is_num x -> 0 < val rate <= huge -> 0 < val x <= huge ->
  acc (c + 3) (val x * Rabs (ln (val rate)) + val rate + Rabs (ln (val x)) + small * (val x + 3)) (val x * ln (val rate) - val rate - ln (val x)) (p_poisson D x rate).
Proof.
  intros NR NX P X. sizes. pose proof (ln_any rate NR (proj1 P)) as LR. pose proof (ln_any x NX (proj1 X)) as LX. pose proof (Rabs_pos (ln (val rate))). pose proof (Rabs_pos (ln (val x))).
  change (p_poisson D x rate) with (f64_sub (f64_sub (f64_mul x (l_ln L rate)) rate) (l_ln L x)).
  pose proof (mul_huge (val x) (Rabs (ln (val rate)) + small) ltac:(lra) ltac:(lra)) as M.
  assert (T1 : acc (c + 1) (val x * (Rabs (ln (val rate)) + small) + small) (val x * ln (val rate)) (f64_mul x (l_ln L rate))).
  { replace (c + 1) with (0 + c + 1) by ring. apply acc_mul; ks; [|apply (acc_lnx c lg L LOK); [assumption|lra]]. apply acc_is; try assumption; try reflexivity; rewrite Rabs_pos_eq; lra. }
  assert (T2 : acc (c + 2) (val x * (Rabs (ln (val rate)) + small) + small + val rate) (val x * ln (val rate) - val rate) (f64_sub (f64_mul x (l_ln L rate)) rate)).
  { replace (c + 2) with (c + 1 + 1) by ring. apply acc_sub; ks; [exact T1|]. eapply acc_more; [apply (acc_is _ _ (val rate) NR eq_refl); rewrite Rabs_pos_eq; lra|lra|lra]. }
  eapply acc_more; [apply (acc_sub (c + 2)); [exact T2|eapply acc_more; [apply (acc_lnx c lg L LOK); [assumption|lra]| |apply Rle_refl]| | |]|..]; ks.
Qed.

(** Logistic and softplus. *)
Lemma exp_below x : is_num x -> val x <= 600 -> rel (4 * c + 4) (1 + exp (val x)) (f64_add (f64_of_Z 1) (l_exp L x)).
Proof.
  intros N B. destruct (Rle_dec (-600) (val x)) as [G|G]; [eapply rel_more; [apply (one_plus_rel c lg L LOK C0); [exact N|apply Rabs_le; lra]|lra]|].
  sizes. destruct one_num as [N1 V1]. destruct (ok_exp c lg L LOK x N ltac:(lra)) as [NE E]. pose proof (exp_pos (val x)) as EP.
  assert (S : exp (val x) <= 1) by (rewrite <- exp_0; apply exp_le; lra).
  assert (T : acc (c + 1) (1 + (exp (val x) + small)) (1 + exp (val x)) (f64_add (f64_of_Z 1) (l_exp L x))).
  { apply acc_add; ks; [eapply acc_more; [apply (acc_is _ 1 1 N1 V1); rewrite Rabs_pos_eq; lra|lra|lra]|].
    split; [exact NE|]. split; [rewrite Rabs_pos_eq; lra|]. eapply Rle_trans; [exact E|]. apply Rmult_le_compat_r; [lra|apply gam_lin]. }
  replace (4 * c + 4) with (2 * (2 * (c + 1))) by ring.
  apply rel_of_acc; ks. apply acc_shrink; [eapply acc_more; [exact T|lra|lra]|lra|lra].
Qed.
Lemma one_minus_tiny w : - / 100000000000000000 <= w < 0 -> RN (1 + w) = 1.
Proof.
  intros D. unfold RN, round, scaled_mantissa, F2R. cbn [Fnum Fexp].
  assert (M : (mag radix2 (1 + w) = 0 :> Z)%Z).
  { apply mag_unique_pos. change (0 - 1)%Z with (-1)%Z. change (bpow radix2 0) with 1. change (bpow radix2 (-1)) with (/ 2). lra. }
  unfold cexp. rewrite M. change (FLT_exp (-1074) 53 0) with (-53)%Z. change (- (-53))%Z with 53%Z.
  assert (Z : ZnearestE ((1 + w) * bpow radix2 53) = (2 ^ 53)%Z).
  { apply Znearest_imp. change (IZR (2 ^ 53)) with (bpow radix2 53). replace ((1 + w) * bpow radix2 53 - bpow radix2 53) with (w * bpow radix2 53) by ring.
    change (bpow radix2 53) with 9007199254740992. rewrite Rabs_left1; lra. }
  rewrite Z. change (IZR (2 ^ 53)) with (bpow radix2 53). rewrite <- bpow_plus. reflexivity.
Qed.
Lemma exp600 x : x <= 600 -> exp x <= huge.
Proof. intros H. unfold huge. rewrite <- (exp_ln (bpow radix2 900)) by apply bpow_gt_0. apply exp_le. rewrite ln_bpow. destruct ln2_bounds. lra. Qed.
Lemma logistic_float x : is_num x -> -600 <= val x -> rel (4 * c + 5) (logistic_fn (val x)) (t_logistic D x) /\ @t_logistic F D x = ef_logistic D x /\ @t_sigmoid F D x = t_logistic D x.
Proof.
  intros N B. split; [|split; reflexivity]. change (t_logistic D x) with (f64_div (f64_of_Z 1) (f64_add (f64_of_Z 1) (l_exp L (SFopp x)))).
  destruct (neg_num x N) as [NN VN]. pose proof (exp_below (SFopp x) NN ltac:(lra)) as R. rewrite VN in R. pose proof (exp_pos (- val x)) as EP. pose proof (exp600 (- val x) ltac:(lra)) as EU.
  pose proof (exp_pos (val x)) as EX. sizes. destruct one_num as [N1 V1].
  assert (Q : logistic_fn (val x) = 1 / (1 + exp (- val x))) by (unfold logistic_fn; rewrite exp_Ropp; field; lra). rewrite Q.
  replace (4 * c + 5) with (0 + (4 * c + 4) + 1) by ring. apply rel_div; ks; [apply rel_is; [exact N1|exact V1|lra]|exact R|].
  unfold normal_range. assert (0 < / (1 + exp (- val x))) by (apply Rinv_0_lt_compat; lra). unfold Rdiv. rewrite Rmult_1_l, Rabs_pos_eq by lra. split.
  - replace (2 * small) with (/ bpow radix2 999) by (unfold small; change 2 with (bpow radix2 1); rewrite <- bpow_plus, <- bpow_opp; reflexivity).
    apply Rinv_le_contravar; [lra|]. apply Rle_trans with (2 * huge); [lra|]. unfold huge. change 2 with (bpow radix2 1). rewrite <- bpow_plus. apply bpow_le. lia.
  - apply Rle_trans with 1; [|lra]. rewrite <- Rinv_1. apply Rinv_le_contravar; lra.
Qed.
Lemma softplus_float x : is_num x -> val x <= 600 -> acc (9 * c + 8) (softplus_fn (val x) + 1) (softplus_fn (val x)) (t_softplus D x) /\ @t_softplus F D x = ef_softplus D x.
Proof.
  intros N B. split; [|reflexivity]. change (t_softplus D x) with (l_ln L (f64_add (f64_of_Z 1) (l_exp L x))). unfold softplus_fn.
  pose proof (exp_pos (val x)) as EP. assert (G : 0 <= ln (1 + exp (val x))) by (rewrite <- ln_1; apply ln_le; lra). rewrite <- (Rabs_pos_eq _ G) at 1.
  replace (9 * c + 8) with (c + 2 * (4 * c + 4)) by ring. apply (acc_ln c lg L LOK); ks. apply exp_below; assumption.
Qed.
(** Overflow of the exponential. *)
Lemma logistic_overflow x : l_exp L (SFopp x) = S754_infinity false -> t_logistic D x = S754_zero false.
Proof. intros E. change (t_logistic D x) with (f64_div (f64_of_Z 1) (f64_add (f64_of_Z 1) (l_exp L (SFopp x)))). rewrite E. vm_compute. reflexivity. Qed.
Lemma softplus_overflow x : l_exp L x = S754_infinity false -> l_ln L (S754_infinity false) = S754_infinity false -> t_softplus D x = S754_infinity false.
Proof.
  intros E E2. change (t_softplus D x) with (l_ln L (f64_add (f64_of_Z 1) (l_exp L x))). rewrite E.
  replace (f64_add (f64_of_Z 1) (S754_infinity false)) with (S754_infinity false : f64) by (vm_compute; reflexivity). exact E2.
Qed.

(** Adding exponentials without a shift. *)
Lemma exp_fold l : Forall (fun v => is_num v /\ Rabs (val v) <= 600) l -> forall k r w, rel k r w -> 0 < r -> 4 * c <= k -> (k + INR (length l)) * eps <= / 4 ->
  r + Rsum (map (fun v => exp (val v)) l) <= big ->
  rel (k + INR (length l)) (r + Rsum (map (fun v => exp (val v)) l)) (fold_left (fun s v => f64_add s (l_exp L v)) l w).
Proof.
  intros A. induction A as [|v l [N B] A IH]; intros k r w W P K KE M.
  - cbn [map Rsum fold_right fold_left length INR]. rewrite !Rplus_0_r. exact W.
  - cbn [map fold_left length] in *. rewrite !Rsum_cons in *. rewrite S_INR in *. pose proof eps_pos as EP. pose proof (pos_INR (length l)) as PL.
    destruct (exp_rel c lg L LOK C0 v N B) as [RE _]. pose proof (exp_pos (val v)) as XP.
    assert (S0 : 0 <= Rsum (map (fun v => exp (val v)) l)) by (apply Rsum_pos; rewrite Forall_map, Forall_forall; intros; left; apply exp_pos).
    rewrite <- (Rplus_assoc r). replace (k + (INR (length l) + 1)) with (k + 1 + INR (length l)) by ring. apply IH; [apply rel_add; [exact W|eapply rel_more; [exact RE|lra]|lra|lra|lra|nra|lra]|lra|lra| |lra].
    replace (k + 1 + INR (length l)) with (k + (INR (length l) + 1)) by ring. exact KE.
Qed.
Lemma exp_sum_bound (l : list f64) : Forall (fun v => is_num v /\ Rabs (val v) <= 600) l -> Rsum (map (fun v => exp (val v)) l) <= INR (length l) * huge.
Proof.
  induction 1 as [|v l [N B] A IH]; [cbn; lra|]. cbn [map length]. rewrite Rsum_cons, S_INR. apply Rabs_le_inv in B. pose proof (exp600 (val v) ltac:(lra)). lra.
Qed.
Lemma naive_log_sum_exp v w l : Forall (fun v => is_num v /\ Rabs (val v) <= 600) (v :: w :: l) -> INR (length (v :: w :: l)) <= bpow radix2 20 ->
  let t := ln (Rsum (map (fun v => exp (val v)) (v :: w :: l))) in
  acc (9 * c + 2 * INR (length (v :: w :: l))) (Rabs t + 1) t (TaglessModel.log_sum_exp D (v :: w :: l)).
Proof.
  intros A LN t. change (TaglessModel.log_sum_exp D (v :: w :: l)) with (l_ln L (fold_left (fun s v => f64_add s (l_exp L v)) (w :: l) (l_exp L v))).
  pose proof (exp_sum_bound _ A) as M. change (bpow radix2 20) with 1048576 in LN. sizes.
  apply Forall_cons_iff in A. destruct A as [[N B] A]. destruct (exp_rel c lg L LOK C0 v N B) as [RE _]. pose proof (exp_pos (val v)) as XP.
  change (length (v :: w :: l)) with (S (length (w :: l))) in *. unfold t. clear t. cbn [map] in *. change (map (fun v : f64 => exp (val v)) l) with (map (fun v : f64 => exp (val v)) l) in *. rewrite Rsum_cons in *.
  change (exp (val w) :: map (fun v : f64 => exp (val v)) l) with (map (fun v : f64 => exp (val v)) (w :: l)) in *.
  rewrite S_INR in *. pose proof (pos_INR (length (w :: l))) as PL.
  assert (B1 : exp (val v) + Rsum (map (fun v : f64 => exp (val v)) (w :: l)) <= big).
  { eapply Rle_trans; [exact M|]. apply Rle_trans with (1000000000 * huge); [apply Rmult_le_compat_r; lra|lra]. }
  pose proof (exp_fold (w :: l) A (4 * c) (exp (val v)) (l_exp L v) RE XP ltac:(lra) ltac:(apply keps; lra) B1) as W.
  assert (S0 : 0 <= Rsum (map (fun v : f64 => exp (val v)) (w :: l))) by (apply Rsum_pos; rewrite Forall_map, Forall_forall; intros; left; apply exp_pos).
  eapply acc_more; [apply (acc_ln c lg L LOK (proj1 C0)); [exact W| | |]|..]; ks.
Qed.

(** Products of differences. *)
Lemma root_sizes x rs : 0 <= root_size x rs <= root_size1 x rs /\ 1 <= root_size1 x rs.
Proof.
  induction rs as [|r rs [[A B] C]]; [unfold root_size, root_size1; cbn; lra|]. unfold root_size, root_size1 in *. cbn [map fold_right].
  pose proof (Rabs_pos (val x - val r)). pose proof (Rmax_l 1 (Rabs (val x - val r))). pose proof (Rmax_r 1 (Rabs (val x - val r))).
  split; [split; [apply Rmult_le_pos; assumption|apply Rmult_le_compat; lra]|nra].
Qed.
Lemma roots_fold x : is_num x -> Rabs (val x) <= huge -> forall rs, Forall (fun r => is_num r /\ Rabs (val r) <= huge) rs ->
  forall k m P w, acc k m P w -> 0 <= k -> (k + 2 * INR (length rs)) * eps <= / 4 -> (m + INR (length rs) * small) * root_size1 x rs <= big ->
  acc (k + 2 * INR (length rs)) (m * root_size x rs + INR (length rs) * small * root_size1 x rs) (P * fold_right Rmult 1 (map (fun r => val x - val r) rs))
    (fold_left (fun s r => f64_mul s (f64_sub x r)) rs w).
Proof.
  intros NX BX rs A. induction A as [|r rs [N B] A IH]; intros k m P w W K KE M.
  - unfold root_size, root_size1. cbn [map fold_right fold_left length INR]. replace (k + 2 * 0) with k by ring. replace (m * 1 + 0 * small * 1) with m by ring. rewrite Rmult_1_r. exact W.
  - destruct (root_sizes x rs) as [[S0 S1] Q1]. unfold root_size, root_size1 in *. cbn [map fold_left fold_right length] in *. rewrite S_INR in *. sizes. pose proof (pos_INR (length rs)) as PL. pose proof (acc_pos _ _ _ _ W) as M0.
    set (S := fold_right Rmult 1 (map (fun r => Rabs (val x - val r)) rs)) in *. set (Q := fold_right Rmult 1 (map (fun r => Rmax 1 (Rabs (val x - val r))) rs)) in *.
    set (d := Rabs (val x - val r)) in *. pose proof (Rabs_pos (val x - val r) : 0 <= d) as D0. pose proof (Rmax_l 1 d) as X1. pose proof (Rmax_r 1 d) as X2. set (X := Rmax 1 d) in *.
    set (n := INR (length rs)) in *.
    assert (NS : 0 <= n * small) by (apply Rmult_le_pos; lra). assert (XQ : 1 <= X * Q) by nra.
    assert (MD : m * d <= big).
    { apply Rle_trans with ((m + (n + 1) * small) * (X * Q)); [|exact M]. apply Rmult_le_compat; try lra; try nra. }
    assert (W' : acc (k + 1 + 1) (m * d + small) (P * (val x - val r)) (f64_mul w (f64_sub x r))).
    { apply acc_mul; try lra; [exact W|apply acc_diff; [exact NX|exact N|lra]|nra]. }
    rewrite <- (Rmult_assoc P). replace (k + 2 * (n + 1)) with (k + 1 + 1 + 2 * n) by ring.
    eapply acc_more; [apply (IH _ _ _ _ W'); [lra| |]|..].
    + replace (k + 1 + 1 + 2 * n) with (k + 2 * (n + 1)) by ring. exact KE.
    + eapply Rle_trans; [|exact M]. replace ((m + (n + 1) * small) * (X * Q)) with ((m * X + (n + 1) * small * X) * Q) by ring. apply Rmult_le_compat_r; [lra|].
      assert (m * d <= m * X) by (apply Rmult_le_compat_l; lra). assert ((n + 1) * small * 1 <= (n + 1) * small * X) by (apply Rmult_le_compat_l; [apply Rmult_le_pos; lra|lra]). lra.
    + lra.
    + assert (small * S <= small * Q) by (apply Rmult_le_compat_l; lra). assert ((n + 1) * small * Q <= (n + 1) * small * (X * Q)) by (apply Rmult_le_compat_l; [apply Rmult_le_pos; lra|nra]).
      replace ((m * d + small) * S + n * small * Q) with (m * (d * S) + small * S + n * small * Q) by ring. lra.
Qed.
Lemma from_roots_float r rs x : is_num x -> Rabs (val x) <= huge -> Forall (fun r => is_num r /\ Rabs (val r) <= huge) (r :: rs) -> INR (length (r :: rs)) <= bpow radix2 40 ->
  root_size1 x (r :: rs) <= huge ->
  acc (2 * INR (length (r :: rs))) (root_size x (r :: rs) + INR (length (r :: rs)) * small * root_size1 x (r :: rs)) (fold_right Rmult 1 (map (fun r => val x - val r) (r :: rs)))
    (from_roots D (r :: rs) x).
Proof.
  intros NX BX A LN M. change (from_roots D (r :: rs) x) with (fold_left (fun s r => f64_mul s (f64_sub x r)) rs (f64_sub x r)).
  apply Forall_cons_iff in A. destruct A as [[N B] A]. sizes. change (bpow radix2 40) with 1099511627776 in LN. destruct (root_sizes x rs) as [[S0 S1] Q1].
  change (length (r :: rs)) with (S (length rs)) in *. rewrite S_INR in *. pose proof (pos_INR (length rs)) as PL. unfold root_size, root_size1 in *. cbn [map fold_right] in *.
  set (S := fold_right Rmult 1 (map (fun r => Rabs (val x - val r)) rs)) in *. set (Q := fold_right Rmult 1 (map (fun r => Rmax 1 (Rabs (val x - val r))) rs)) in *.
  set (d := Rabs (val x - val r)) in *. pose proof (Rabs_pos (val x - val r) : 0 <= d) as D0. pose proof (Rmax_l 1 d) as X1. pose proof (Rmax_r 1 d) as X2. set (X := Rmax 1 d) in *.
  set (n := INR (length rs)) in *. assert (NS : 0 <= n * small <= 2000).
  { split; [apply Rmult_le_pos; lra|]. apply Rle_trans with (1099511627776 * / 1000000000); [apply Rmult_le_compat; lra|lra]. }
  assert (XQ : Q <= X * Q) by nra.
  pose proof (roots_fold x NX BX rs A 1 d (val x - val r) (f64_sub x r) (acc_diff x r NX N ltac:(lra)) ltac:(lra) ltac:(apply keps; fold n; lra)) as W.
  fold n in W. unfold root_size, root_size1 in W. fold S in W. fold Q in W.
  eapply acc_more; [apply W|..]; try lra.
  - rewrite Rmult_plus_distr_r. assert (d * Q <= X * Q) by (apply Rmult_le_compat_r; lra). assert (n * small * Q <= 2000 * Q) by (apply Rmult_le_compat_r; lra). lra.
  - assert (n * small * Q <= (n + 1) * small * (X * Q)) by (apply Rmult_le_compat; nra). lra.
Qed.

(** Dot products and the two log-densities built on them. *)
Lemma tagless_dot ps ss : Forall is_num ps -> Forall is_num ss -> length ps = length ss -> INR (length ps) <= bpow radix2 40 -> dot_size ps ss <= big ->
  exists w, dot_product D ps ss = Some w /\ acc (1 + INR (length ps)) (dot_size ps ss) (rdot (map val ps) (map val ss)) w.
Proof.
  intros A B E LN M. unfold dot_product. destruct (Nat.eqb _ _) eqn:G; [clear G|exfalso; apply Nat.eqb_neq in G; apply G; exact E].
  destruct A as [|p ps NP A]; destruct B as [|s ss NS B]; cbn [length] in *; try discriminate.
  - eexists. split; [reflexivity|]. change (rdot (map val []) (map val [])) with 0. unfold dot_size. cbn [combine map Rsum fold_right INR]. destruct zero_num as [N0 V0].
    eapply acc_more; [apply (acc_is _ 0 0 N0 V0); rewrite Rabs_R0; lra|lra|lra].
  - injection E as E. eexists. split; [reflexivity|]. unfold dot_size in *. cbn [combine map] in *. rewrite Rsum_cons in *. destruct (combine_num _ _ ps ss A B) as [A' B'].
    assert (R0 : rdot (val p :: map val ps) (val s :: map val ss) = val p * val s + Rsum (map (fun p => val (fst p) * val (snd p)) (combine ps ss))).
    { unfold rdot. cbn [combine map]. rewrite Rsum_cons. cbn [fst snd]. f_equal. f_equal. clear. revert ss. induction ps as [|x a IH]; intros [|y b]; try reflexivity. cbn [map combine]. f_equal. apply IH. }
    rewrite R0. assert (P0 : 0 <= Rsum (map pair_size (combine ps ss))).
    { apply Rsum_pos. rewrite Forall_map, Forall_forall. intros q _. unfold pair_size. pose proof small_pos. pose proof (Rmult_le_pos _ _ (Rabs_pos (val (fst q))) (Rabs_pos (val (snd q)))). lra. }
    assert (P1 : 0 <= pair_size (p, s)) by (unfold pair_size; pose proof small_pos; pose proof (Rmult_le_pos _ _ (Rabs_pos (val p)) (Rabs_pos (val s))); cbn [fst snd]; lra).
    assert (LC : length (combine ps ss) = length ps) by (rewrite combine_length, E; apply Nat.min_id).
    rewrite S_INR in LN. change (bpow radix2 40) with 1099511627776 in LN. pose proof (pos_INR (length ps)).
    assert (W0 : acc 1 (pair_size (p, s)) (val p * val s) (f64_mul p s)).
    { apply mul_exact_acc; try assumption. unfold pair_size in M at 1. cbn [fst snd] in M. pose proof small_pos. lra. }
    pose proof (fold_acc pair_size (fun p => val (fst p) * val (snd p)) (fun p => f64_mul (fst p) (snd p)) 1 (combine ps ss) ltac:(lra) ltac:(rewrite LC; apply keps; lra)
      (pairs_acc _ A' B' ltac:(lra)) 1 (pair_size (p, s)) _ _ W0 ltac:(lra) ltac:(rewrite LC; apply keps; lra) M) as W.
    rewrite LC, Rmax_left in W by lra. eapply acc_more; [exact W|rewrite S_INR; lra|lra].
Qed.
Lemma tagless_density ps ss A h : Forall is_num ps -> Forall is_num ss -> length ps = length ss -> INR (length ps) <= bpow radix2 40 -> is_num A -> is_num h ->
  dot_size ps ss + Rabs (val A) + Rabs (val h) <= big ->
  exists w, t_exp_fam_log_density D ps ss A h = Some w /\
    acc (3 + INR (length ps)) (dot_size ps ss + Rabs (val A) + Rabs (val h)) (rdot (map val ps) (map val ss) - val A + val h) w.
Proof.
  intros N1 N2 E LN NA NH M. pose proof (Rabs_pos (val A)). pose proof (Rabs_pos (val h)). destruct (tagless_dot ps ss N1 N2 E LN ltac:(lra)) as (w & W & T). unfold t_exp_fam_log_density. rewrite W. eexists. split; [reflexivity|].
  change (bpow radix2 40) with 1099511627776 in LN. pose proof (pos_INR (length ps)). pose proof (acc_pos _ _ _ _ T).
  change (e_add D (e_sub D w A) h) with (f64_add (f64_sub w A) h).
  replace (3 + INR (length ps)) with (1 + INR (length ps) + 1 + 1) by ring.
  apply acc_add; ks; [apply acc_sub; ks; [exact T|]|]; eapply acc_more; try (apply acc_exact'; assumption); lra.
Qed.
Lemma tagless_iid ps ss A n h : Forall is_num ps -> Forall is_num ss -> length ps = length ss -> INR (length ps) <= bpow radix2 40 -> is_num A -> is_num n -> is_num h ->
  dot_size ps ss + (Rabs (val n) * Rabs (val A) + small) + Rabs (val h) <= big ->
  exists w, t_iid_log_density D ps ss A n h = Some w /\
    acc (3 + INR (length ps)) (dot_size ps ss + (Rabs (val n) * Rabs (val A) + small) + Rabs (val h)) (rdot (map val ps) (map val ss) - val n * val A + val h) w.
Proof.
  intros N1 N2 E LN NA NN NH M. pose proof (Rabs_pos (val h)). pose proof small_pos. pose proof (Rmult_le_pos _ _ (Rabs_pos (val n)) (Rabs_pos (val A))).
  destruct (tagless_dot ps ss N1 N2 E LN ltac:(lra)) as (w & W & T). unfold t_iid_log_density. rewrite W. eexists. split; [reflexivity|].
  change (bpow radix2 40) with 1099511627776 in LN. pose proof (pos_INR (length ps)). pose proof (acc_pos _ _ _ _ T).
  change (e_add D (e_sub D w (e_mul D n A)) h) with (f64_add (f64_sub w (f64_mul n A)) h).
  replace (3 + INR (length ps)) with (1 + INR (length ps) + 1 + 1) by ring.
  apply acc_add; ks; [apply acc_sub; ks; [exact T|]|].
  - eapply acc_more; [apply mul_exact_acc; try assumption; lra|lra|lra].
  - eapply acc_more; [apply acc_exact'; assumption|lra|lra].
Qed.
Lemma one_plus_tiny w : 0 <= w <= / 20000000000000000 -> RN (1 + w) = 1.
Proof.
  intros D. unfold RN, round, scaled_mantissa, F2R. cbn [Fnum Fexp].
  assert (M : (mag radix2 (1 + w) = 1 :> Z)%Z).
  { apply mag_unique_pos. change (1 - 1)%Z with 0%Z. change (bpow radix2 0) with 1. change (bpow radix2 1) with 2. lra. }
  unfold cexp. rewrite M. change (FLT_exp (-1074) 53 1) with (-52)%Z. change (- (-52))%Z with 52%Z.
  assert (Z : ZnearestE ((1 + w) * bpow radix2 52) = (2 ^ 52)%Z).
  { apply Znearest_imp. change (IZR (2 ^ 52)) with (bpow radix2 52). replace ((1 + w) * bpow radix2 52 - bpow radix2 52) with (w * bpow radix2 52) by ring.
    change (bpow radix2 52) with 4503599627370496. rewrite Rabs_pos_eq; lra. }
  rewrite Z. change (IZR (2 ^ 52)) with (bpow radix2 52). rewrite <- bpow_plus. reflexivity.
Qed.
Lemma exp60 : / 10 ^ 29 <= exp (- (60)) <= / 1000000000000000000.
Proof.
  assert (E : exp 60 = exp 1 ^ 60) by (rewrite <- Rpower_pow by apply exp_pos; unfold Rpower; rewrite ln_exp; f_equal; rewrite INR_IZR_INZ; cbn [Z.of_nat]; simpl; ring).
  pose proof exp_le_3 as U. pose proof (exp_ineq1_le 1) as Lo. pose proof (exp_pos 1).
  rewrite exp_Ropp, E. split.
  - apply Rinv_le_contravar; [apply pow_lt; lra|]. apply Rle_trans with (3 ^ 60); [apply pow_incr; lra|]. rewrite !pow_IZR. apply IZR_le. vm_compute. discriminate.
  - apply Rinv_le_contravar; [lra|]. apply Rle_trans with (2 ^ 60); [rewrite pow_IZR; apply IZR_le; vm_compute; discriminate|apply pow_incr; lra].
Qed.
(** Far to the left softplus returns (nearly) zero. *)
Lemma softplus_left x : is_num x -> val x <= -60 -> Rabs (val (t_softplus D x)) <= c * eps * small.
Proof.
  intros N B. change (t_softplus D x) with (l_ln L (f64_add (f64_of_Z 1) (l_exp L x))). sizes. destruct one_num as [N1 V1]. destruct (ok_exp c lg L LOK x N ltac:(lra)) as [NE E].
  pose proof (exp_pos (val x)) as EP. assert (EU : exp (val x) <= / 1000000000000000000) by (eapply Rle_trans; [apply exp_le; replace (val x) with (val x) by reflexivity; exact B|apply exp60]).
  assert (SM : small <= / 1000000000000000000).
  { unfold small. apply Rle_trans with (bpow radix2 (-60)); [apply bpow_le; lia|]. change (bpow radix2 (-60)) with (/ 1152921504606846976). lra. }
  assert (CE : 0 <= c * eps <= / 1000) by (split; [apply Rmult_le_pos; lra|]; apply Rle_trans with (1000000 * / 1000000000000000); [apply Rmult_le_compat; lra|lra]).
  assert (W : Rabs (val (l_exp L x)) <= / 100000000000000000).
  { replace (val (l_exp L x)) with (exp (val x) + (val (l_exp L x) - exp (val x))) by ring. eapply Rle_trans; [apply Rabs_triang|]. rewrite (Rabs_pos_eq (exp _)) by lra. nra. }
  apply Rabs_le_inv in W.
  assert (A : RN (1 + val (l_exp L x)) = 1) by (destruct (Rle_dec 0 (val (l_exp L x))); [apply one_plus_tiny|apply one_minus_tiny]; lra).
  destruct (add_num (f64_of_Z 1) (l_exp L x) N1 NE) as [NA VA]; rewrite V1 in *; rewrite A in *.
  { rewrite Rabs_pos_eq by lra. change 1 with (bpow radix2 0). apply bpow_lt. lia. }
  destruct (ok_ln c lg L LOK _ NA ltac:(rewrite VA; lra)) as [_ Q]. rewrite VA, ln_1, Rabs_R0, Rminus_0_r, Rplus_0_l in Q. exact Q.
Qed.
Lemma softplus_left_exact : / 10 ^ 30 <= softplus_fn (-60).
Proof.
  unfold softplus_fn. destruct exp60 as [A _]. set (w := exp (-60)) in *. assert (W : / 10 ^ 29 <= w) by exact A.
  assert (P : 0 < / 10 ^ 29) by (apply Rinv_0_lt_compat, pow_lt; lra).
  assert (W1 : w <= 1) by (unfold w; rewrite <- exp_0; apply exp_le; lra).
  (* ln (1+w) = - ln (1 - w/(1+w)) >= w / (1+w) *)
  assert (Q : w / (1 + w) <= ln (1 + w)).
  { pose proof (exp_ineq1_le (- ln (1 + w))) as I. rewrite exp_Ropp, exp_ln in I by lra.
    replace (w / (1 + w)) with (1 - / (1 + w)) by (field; lra). lra. }
  eapply Rle_trans; [|exact Q]. apply Rle_trans with (w / 2).
  - apply Rle_trans with (/ 10 ^ 29 / 2); [|lra]. replace (/ 10 ^ 30) with (/ 10 ^ 29 / 10) by (field). lra.
  - apply Rmult_le_compat_l; [lra|]. apply Rinv_le_contravar; lra.
Qed.
End T.
