(** The distribution interpreter's log-gamma and gamma log-density in binary64 (C74). *)
From Coquelicot Require Import Coquelicot.
From Coq Require Import ZArith Reals Bool String List Lia Lra.
From Coq Require Import Floats.SpecFloat.
From Flocq Require Import Core.
From Verif Require Import Num EggSpec LitFacts EggNum FloatFacts FloatErr JitAcc AccSpec AccProofs RoundSpec RoundProofs RelErr
  DensitySpec CoreModel CoreSpec CombModel ExpFamModel DistModel DistSpec DistFacts BuilderProofs DistProofs DistFloat SumFloat IntSpec StirlingReal TaglessModel TaglessFloat.
Import ListNotations.
Local Open Scope R_scope.

Section G.
Context (c : R) (lg : R -> R) (L : libm) (LOK : libm_ok c lg L) (C0 : 0 <= c <= 1000000) (HG : lg_is_log_gamma lg).
Notation F := (F64 L).

Lemma twelve_num : is_num (f64_of_Z 12) /\ val (f64_of_Z 12) = 12.
Proof. apply num_int. lia. Qed.
Lemma small_shape a : is_num a -> val a <= 12 -> @de_log_gamma F a = l_lgamma L a.
Proof.
  intros N A. destruct twelve_num as [N12 V12]. unfold de_log_gamma.
  replace (@nltb F (nint 12) a) with false; [reflexivity|]. symmetry. change (SFltb (f64_of_Z 12) a = false). rewrite (SFltb_num _ _ N12 N), V12. apply Rlt_bool_false. exact A.
Qed.
Lemma large_shape a : is_num a -> 12 < val a <= huge -> acc (c + 7) (val a * (ln (val a) + 2) + 2) (st (val a)) (@de_log_gamma F a).
Proof.
  intros N A. destruct twelve_num as [N12 V12]. destruct half_dec as [NH VH]. unfold de_log_gamma.
  replace (@nltb F (nint 12) a) with true; [|symmetry; change (SFltb (f64_of_Z 12) a = true); rewrite (SFltb_num _ _ N12 N), V12; apply Rlt_bool_true; lra].
  change (acc (c + 7) (val a * (ln (val a) + 2) + 2) (st (val a)) (f64_add (f64_sub (f64_mul (f64_sub a (f64_dec 5 10)) (l_ln L a)) a) (f64_mul (f64_dec 5 10) (l_ln L (f64_mul (f64_of_Z 2) f64_pi))))).
  sizes. pose proof (ln_any a N ltac:(lra)) as LA. assert (L0 : 0 <= ln (val a)) by (rewrite <- ln_1; apply ln_le; lra). pose proof (acc_lnx c lg L LOK a N ltac:(lra)) as T0. rewrite Rabs_pos_eq in LA, T0 by exact L0.
  pose proof (half_ln_two_pi c lg L LOK C0) as TP. set (l := ln (val a)) in *.
  pose proof (mul_huge (val a) (l + small) ltac:(lra) ltac:(lra)) as M.
  assert (AL : (val a - / 2) * (l + small) <= val a * (l + small)) by (apply Rmult_le_compat_r; lra).
  assert (SA : val a * small <= val a * 1) by (apply Rmult_le_compat_l; lra).
  assert (T1 : acc (c + 2) ((val a - / 2) * (l + small) + small) ((val a - / 2) * l) (f64_mul (f64_sub a (f64_dec 5 10)) (l_ln L a))).
  { replace (c + 2) with (1 + c + 1) by ring. apply acc_mul; ks; [|exact T0]. apply acc_diff'; try assumption; rewrite ?VH; [reflexivity|rewrite Rabs_pos_eq; lra|rewrite !Rabs_pos_eq; lra]. }
  assert (T2 : acc (c + 3) ((val a - / 2) * (l + small) + small + val a) ((val a - / 2) * l - val a) (f64_sub (f64_mul (f64_sub a (f64_dec 5 10)) (l_ln L a)) a)).
  { replace (c + 3) with (c + 2 + 1) by ring. apply acc_sub; ks; [exact T1|]. eapply acc_more; [apply (acc_is _ _ (val a) N eq_refl); rewrite Rabs_pos_eq; lra|lra|lra]. }
  assert (E : st (val a) = (val a - / 2) * l - val a + / 2 * ln (2 * PI)) by (unfold st, l; field). rewrite E.
  eapply acc_more; [apply (acc_add (c + 6)); [eapply acc_more; [exact T2| |apply Rle_refl]|eapply acc_more; [exact TP| |apply Rle_refl]| | |]|..]; ks.
Qed.
Lemma large_log_gamma a : is_num a -> 12 < val a <= huge ->
  is_num (@de_log_gamma F a) /\ Rabs (val (@de_log_gamma F a) - lg (val a)) <= 2 * (c + 7) * eps * (val a * (ln (val a) + 2) + 2) + / (12 * val a).
Proof.
  intros N A. destruct (acc_within _ _ _ _ (large_shape a N A) ltac:(lra) ltac:(apply keps; lra)) as [NW W]. split; [exact NW|].
  pose proof (log_gamma_stirling lg HG (val a) ltac:(lra)) as S. apply Rabs_le_inv in W. apply Rabs_le. lra.
Qed.
Lemma gamma_small a b x : is_num a -> val a <= 12 -> @de_gamma F x a b = gamma_ld (@mkGamma F a b) x.
Proof.
  intros N A. unfold de_gamma. rewrite small_shape by assumption. reflexivity.
Qed.
Lemma gamma_large a b x : is_num a -> is_num b -> is_num x -> 12 < val a <= huge -> 0 < val b -> 0 < val x -> val b * val x <= huge ->
  is_num (@de_gamma F x a b) /\
  Rabs (val (@de_gamma F x a b) - ln (gamma_pdf lg (val a) (val b) (val x))) <=
    2 * (c + 10) * eps * (val a * (Rabs (ln (val b)) + Rabs (ln (val x)) + ln (val a) + 3) + val b * val x + 3) + / (12 * val a).
Proof.
  intros NA NB NX A B0 X0 B. pose proof (log_gamma_stirling lg HG (val a) ltac:(lra)) as S. pose proof (large_shape a NA A) as TG.
  unfold de_gamma. rewrite (pos_guard L x NX X0). set (G := @de_log_gamma F a) in *.
  match goal with |- is_num _ /\ _ <= ?B => enough (H : let w := (f64_sub (f64_add (f64_sub (f64_mul a (l_ln L b)) G) (f64_mul (f64_sub a (f64_of_Z 1)) (l_ln L x))) (f64_mul b x)) in
    is_num w /\ Rabs (val w - ln (gamma_pdf lg (val a) (val b) (val x))) <= B) by exact H end. cbv zeta.
  destruct one_num as [N1 V1]. sizes. pose proof (ln_any b NB B0) as LB. pose proof (ln_any x NX X0) as LX. pose proof (ln_any a NA ltac:(lra)) as LA.
  assert (L0 : 0 <= ln (val a)) by (rewrite <- ln_1; apply ln_le; lra). rewrite (Rabs_pos_eq (ln (val a)) L0) in LA.
  assert (BX : 0 <= val b * val x) by (apply Rmult_le_pos; lra).
  assert (VP : ln (gamma_pdf lg (val a) (val b) (val x)) = val a * ln (val b) - lg (val a) + (val a - 1) * ln (val x) - val b * val x) by (rewrite ln_gamma_pdf by exact X0; ring).
  rewrite VP. clear VP. set (lb := ln (val b)) in *. set (lx := ln (val x)) in *. set (la := ln (val a)) in *. pose proof (Rabs_pos lb). pose proof (Rabs_pos lx).
  pose proof (mul_huge (val a) (Rabs lb + small) ltac:(lra) ltac:(lra)) as M1. pose proof (mul_huge (val a) (la + 2) ltac:(lra) ltac:(lra)) as M3.
  pose proof (mul_huge (val a - 1) (Rabs lx + small) ltac:(lra) ltac:(lra)) as M2.
  assert (T1 : acc (c + 1) (val a * (Rabs lb + small) + small) (val a * lb) (f64_mul a (l_ln L b))).
  { replace (c + 1) with (0 + c + 1) by ring. apply acc_mul; ks; [|apply (acc_lnx c lg L LOK); assumption]. apply acc_is; try assumption; try reflexivity; rewrite Rabs_pos_eq; lra. }
  assert (T2 : acc (c + 8) (val a * (Rabs lb + small) + small + (val a * (la + 2) + 2)) (val a * lb - st (val a)) (f64_sub (f64_mul a (l_ln L b)) G)).
  { replace (c + 8) with (c + 7 + 1) by ring. apply acc_sub; ks; [|exact TG]. eapply acc_more; [exact T1|lra|lra]. }
  assert (T3 : acc (c + 2) ((val a - 1) * (Rabs lx + small) + small) ((val a - 1) * lx) (f64_mul (f64_sub a (f64_of_Z 1)) (l_ln L x))).
  { replace (c + 2) with (1 + c + 1) by ring. apply acc_mul; ks; [|apply (acc_lnx c lg L LOK); assumption].
    apply acc_diff'; try assumption; rewrite ?V1; try lra; [rewrite Rabs_pos_eq; lra|rewrite !Rabs_pos_eq; lra]. }
  assert (T4 : acc 1 (val b * val x + small) (val b * val x) (f64_mul b x)).
  { replace 1 with (0 + 0 + 1) by lra. apply acc_mul; ks; apply acc_is; try assumption; try reflexivity; rewrite Rabs_pos_eq; lra. }
  assert (T5 : acc (c + 10) (val a * (Rabs lb + Rabs lx + la + 3) + val b * val x + 3) (val a * lb - st (val a) + (val a - 1) * lx - val b * val x)
    (f64_sub (f64_add (f64_sub (f64_mul a (l_ln L b)) G) (f64_mul (f64_sub a (f64_of_Z 1)) (l_ln L x))) (f64_mul b x))).
  { assert (val a * small <= val a * / 4) by (apply Rmult_le_compat_l; lra). assert ((val a - 1) * (Rabs lx + small) <= val a * (Rabs lx + / 4)) by (apply Rmult_le_compat; lra).
    eapply acc_more; [apply (acc_sub (c + 9)); [replace (c + 9) with (c + 8 + 1) by ring; apply acc_add; [exact T2|eapply acc_more; [exact T3| |apply Rle_refl]| | |]|eapply acc_more; [exact T4| |apply Rle_refl]| | |]|..]; ks. }
  destruct (acc_within _ _ _ _ T5 ltac:(lra) ltac:(apply keps; lra)) as [NW W]. split; [exact NW|]. apply Rabs_le_inv in W. apply Rabs_le. lra.
Qed.
End G.
