(** Static inline functions at extreme arguments (C76). *)
From Coquelicot Require Import Coquelicot.
From Coq Require Import ZArith Reals Bool List Lia Lra.
From Coq Require Import Floats.SpecFloat.
From Flocq Require Import Core IEEE754.BinarySingleNaN.
From Verif Require Import Num JitModel EggSpec LitFacts EggNum FloatFacts FloatErr JitAcc JitAcc2 AccSpec AccProofs RoundSpec RoundProofs RelErr
  DensitySpec CoreModel CombModel ExpFamModel DistModel DistSpec DistFacts BuilderProofs DistProofs DistFloat CombFloat2 IntSpec GammaFun ExtSpec ExtFloat ExtProofs FamFloatSpec ExtFam.
Import ListNotations.
Local Open Scope R_scope.

#[local] Instance Hprec64 : FLX.Prec_gt_0 53 := eq_refl _.
Section Inline.
Context (c : R) (lg : R -> R) (L : libm) (LOK : libm_ok c lg L) (C0 : 0 <= c <= 1000000) (LE : ln_edges L).
Notation F := (F64 L).
Lemma inline_shape mu sd x : @compile_normal F mu sd x =
  f64_sub (f64_mul (SFopp (f64_dec 5 10)) (l_ln L (f64_mul (f64_mul (f64_of_Z 2) f64_pi) (f64_mul sd sd))))
    (f64_div (f64_mul (f64_sub x mu) (f64_sub x mu)) (f64_mul (f64_of_Z 2) (f64_mul sd sd))).
Proof. reflexivity. Qed.
Lemma mul_from a b e f : is_num a -> is_num b -> 1 <= val a <= bpow radix2 e -> bpow radix2 (-1020) <= val b <= bpow radix2 f -> (0 <= e + f <= 1023)%Z ->
  is_num (f64_mul a b) /\ bpow radix2 (-1020) <= val (f64_mul a b) <= bpow radix2 (e + f).
Proof.
  intros NA NB A B E. pose proof (bpow_gt_0 radix2 (-1020)) as P.
  assert (T : val b <= val a * val b <= bpow radix2 (e + f)) by (rewrite bpow_plus; split; [nra|apply Rmult_le_compat; lra]).
  destruct (mul_num a b NA NB) as [K V]; [apply (RN_small _ (e + f)); [lia|rewrite Rabs_pos_eq; lra]|]. split; [exact K|]. rewrite V. split.
  - apply Rle_trans with (val b); [lra|]. rewrite <- (num_format b NB) at 1. apply round_le; [apply FLT_exp_valid; exact Hprec64|apply valid_rnd_N|lra].
  - pose proof (RN_abs_bpow (val a * val b) (e + f) ltac:(lia) ltac:(rewrite Rabs_pos_eq; lra)) as Q. pose proof (Rle_abs (RN (val a * val b))). lra.
Qed.
Lemma square_from sd : is_num sd -> bpow radix2 (-510) <= val sd <= bpow radix2 510 -> is_num (f64_mul sd sd) /\ bpow radix2 (-1020) <= val (f64_mul sd sd) <= bpow radix2 1020.
Proof.
  intros N P. pose proof (bpow_gt_0 radix2 (-510)) as P0.
  assert (T : bpow radix2 (-1020) <= val sd * val sd <= bpow radix2 1020).
  { change (-1020)%Z with (-510 + -510)%Z. change 1020%Z with (510 + 510)%Z. rewrite !bpow_plus. split; apply Rmult_le_compat; lra. }
  pose proof (bpow_gt_0 radix2 (-1020)) as P1.
  destruct (mul_num sd sd N N) as [K V]; [apply (RN_small _ 1020); [lia|rewrite Rabs_pos_eq; lra]|]. split; [exact K|]. rewrite V. split.
  - replace (bpow radix2 (-1020)) with (RN (bpow radix2 (-1020))); [apply round_le; [apply FLT_exp_valid; exact Hprec64|apply valid_rnd_N|lra]|].
    apply round_generic; [apply valid_rnd_N|]. apply generic_format_bpow. unfold FLT_exp. lia.
  - pose proof (RN_abs_bpow (val sd * val sd) 1020 ltac:(lia) ltac:(rewrite Rabs_pos_eq; lra)) as Q. pose proof (Rle_abs (RN (val sd * val sd))). lra.
Qed.
Lemma two_pi : is_num (f64_mul (f64_of_Z 2) f64_pi) /\ 1 <= val (f64_mul (f64_of_Z 2) f64_pi) <= bpow radix2 3.
Proof.
  destruct two_num as [N2 V2]. pose proof pi_bounds as PB. assert (T : Rabs (val (f64_of_Z 2) * val f64_pi) <= bpow radix2 3) by (rewrite V2, val_pi, Rabs_pos_eq by lra; change (bpow radix2 3) with 8; lra).
  destruct (mul_num (f64_of_Z 2) f64_pi N2 num_pi) as [K V]; [apply (RN_small _ 3); [lia|exact T]|]. split; [exact K|]. rewrite V. split.
  - destruct one_num as [N1 V1]. rewrite <- V1, <- (num_format _ N1). apply round_le; [apply FLT_exp_valid; exact Hprec64|apply valid_rnd_N|]. rewrite V1, V2, val_pi. lra.
  - pose proof (RN_abs_bpow _ 3 ltac:(lia) T) as Q. pose proof (Rle_abs (RN (val (f64_of_Z 2) * val f64_pi))). lra.
Qed.
Lemma diff_up mu x : is_num mu -> not_nan x -> up (f64_mul (f64_sub x mu) (f64_sub x mu)).
Proof.
  intros NM X. apply square. destruct X as [Y|[-> | ->]]; [|right..].
  - destruct (sub_total x mu Y NM) as [[K _]|[_ [(E & _)|(E & _)]]]; [left; exact K|right; rewrite E; eexists; reflexivity|right; rewrite E; eexists; reflexivity].
  - destruct NM as [_ G]. destruct mu; try discriminate G; eexists; reflexivity.
  - destruct NM as [_ G]. destruct mu; try discriminate G; eexists; reflexivity.
Qed.
Lemma inline_normal_proper mu sd x : is_num mu -> is_num sd -> bpow radix2 (-510) <= val sd <= bpow radix2 510 -> not_nan x -> proper (@compile_normal F mu sd x).
Proof.
  intros NM NS S X. rewrite inline_shape. destruct (square_from sd NS S) as [NQ Q]. destruct two_pi as [NP P]. destruct two_num as [N2 V2].
  pose proof (bpow_gt_0 radix2 (-1020)) as P0.
  destruct (mul_from _ _ 3 1020 NP NQ P Q ltac:(lia)) as [NV V].
  destruct (mul_from (f64_of_Z 2) _ 1 1020 N2 NQ ltac:(rewrite V2; change (bpow radix2 1) with 2; lra) Q ltac:(lia)) as [NT T].
  apply sub_up; [|apply div_pos_up; [apply diff_up; assumption|exact NT|lra]].
  destruct half_dec as [NH VH]. apply (bn_mul 0 11 _ _ ltac:(lia)); [|apply (bn_ln c lg L LOK C0); [exact NV|lra]].
  apply bn_neg. split; [exact NH|]. rewrite VH, Rabs_pos_eq by lra. cbn. lra.
Qed.
Lemma inline_exponential_proper rate x : is_num rate -> 0 < val rate -> not_nan x -> proper (@compile_exponential F rate x).
Proof. exact (exponential_proper c lg L LOK C0 rate x). Qed.
Lemma inline_normal_tiny mu sd x : is_num mu -> is_num sd -> 0 < val sd <= bpow radix2 (-540) -> not_nan x -> @compile_normal F mu sd x = S754_nan.
Proof.
  intros NM NS P X. rewrite inline_shape, (tiny_square sd NS P).
  replace (f64_mul (f64_mul (f64_of_Z 2) f64_pi) (S754_zero false)) with (S754_zero false : f64) by (symmetry; vm_compute; reflexivity). rewrite (proj2 LE).
  replace (f64_mul (f64_of_Z 2) (S754_zero false)) with (S754_zero false : f64) by (symmetry; vm_compute; reflexivity).
  change (f64_mul (SFopp (f64_dec 5 10)) ninf) with pinf.
  destruct (diff_up mu x NM X) as [[K T]| ->]; [|reflexivity]. destruct (pos_shape _ K T) as [[s ->]|(m & e & ->)]; reflexivity.
Qed.
Lemma inline_normal_huge mu sd x : is_num mu -> is_num sd -> is_num x -> bpow radix2 512 <= val sd -> at_most_moderate (val mu) -> at_most_moderate (val x) ->
  @compile_normal F mu sd x = ninf.
Proof.
  intros NM NS NX P BM BX. unfold at_most_moderate in *. rewrite inline_shape, (huge_square sd NS P).
  replace (f64_mul (f64_mul (f64_of_Z 2) f64_pi) pinf) with pinf by (symmetry; vm_compute; reflexivity). rewrite (proj1 LE).
  change (f64_mul (f64_of_Z 2) pinf) with pinf. change (f64_mul (SFopp (f64_dec 5 10)) pinf) with ninf.
  pose proof (bn_sub 400 x mu ltac:(lia) (conj NX BX) (conj NM BM)) as BD. change (400 + 1)%Z with 401%Z in BD.
  destruct (bn_mul 401 401 _ _ ltac:(lia) BD BD) as [K _]. set (q := f64_mul _ _) in *. clearbody q. destruct K as [_ K].
  destruct q as [s| | |s m e]; try discriminate K; destruct s; reflexivity.
Qed.
End Inline.
