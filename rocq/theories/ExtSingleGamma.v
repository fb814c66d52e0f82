(** Gamma, chi-squared and beta log-densities in binary32 at extreme arguments (C76): ExtFloat at precision 24. *)
From Coquelicot Require Import Coquelicot.
From Coq Require Import ZArith Reals Bool List Lia Lra.
From Coq Require Import Floats.SpecFloat.
From Flocq Require Import Core IEEE754.BinarySingleNaN.
From Verif Require Import Num EggSpec FloatFacts DensitySpec CoreModel CombModel ExpFamModel DistModel DistSpec ExtSpec SingleModel SingleSpec SingleErr SingleFloat ExtSingleSpec ExtSingle ExtSingleSum ExtSingleDisc.
From Verif Require Import IntSpec.
From Verif Require ExtProofs GammaFun.
Import ListNotations.
Local Open Scope R_scope.

#[local] Instance Hprec32 : FLX.Prec_gt_0 24 := eq_refl _.
#[local] Instance Hmax32 : Prec_lt_emax 24 128 := eq_refl _.
Definition lg_moderate32 (lg : R -> R) : Prop :=
  forall t, bpow radix2 (-149) <= t <= bpow radix2 70 -> Rabs (lg t) <= bpow radix2 90.
Section Size.
Context (lg : R -> R) (HG : lg_is_log_gamma lg).
Lemma lg_is_moderate32 : lg_moderate32 lg.
Proof.
  assert (E : bpow radix2 71 <= exp 71).
  { rewrite <- (exp_ln (bpow radix2 71)) by apply bpow_gt_0. apply ExtProofs.exp_mono. rewrite ln_bpow. destruct ln2_bounds. lra. }
  assert (U : forall t, 1 <= t <= bpow radix2 70 + 1 -> -1 <= lg t <= bpow radix2 81).
  { intros t T. split; [apply (ExtProofs.lg_below lg HG), T|]. destruct (archimed t) as [A1 A2]. assert (Z1 : (0 <= Coq.Reals.Rdefinitions.up t)%Z) by (apply le_IZR; lra).
    set (n := Z.to_nat (Coq.Reals.Rdefinitions.up t)). assert (N : INR n = IZR (Coq.Reals.Rdefinitions.up t)) by (unfold n; rewrite INR_IZR_INZ, Z2Nat.id by exact Z1; reflexivity).
    assert (B0 : 4 <= bpow radix2 70) by (apply (bpow_le radix2 2 70); lia).
    assert (B1 : bpow radix2 71 = 2 * bpow radix2 70) by (change 71%Z with (1 + 70)%Z; rewrite bpow_plus; reflexivity).
    eapply Rle_trans; [apply (ExtProofs.lg_above lg HG t n 71); rewrite N; lra|]. change 81%Z with (10 + 71)%Z. rewrite bpow_plus. change (bpow radix2 10) with 1024. rewrite N. nra. }
  assert (B9 : 2 * bpow radix2 81 <= bpow radix2 90).
  { change 90%Z with (9 + 81)%Z. rewrite bpow_plus. change (bpow radix2 9) with 512. pose proof (bpow_gt_0 radix2 81). lra. }
  assert (B8 : 2000 <= bpow radix2 81) by (apply Rle_trans with (bpow radix2 11); [change (bpow radix2 11) with 2048; lra|apply bpow_le; lia]).
  intros t T. pose proof (bpow_gt_0 radix2 (-149)) as P. destruct (Rle_lt_dec 1 t) as [H|H].
  - destruct (U t ltac:(lra)) as [U0 U1]. apply Rabs_le. lra.
  - assert (B0 : 4 <= bpow radix2 70) by (apply (bpow_le radix2 2 70); lia). destruct (U (t + 1) ltac:(lra)) as [U0 U1]. rewrite (GammaFun.lg_rec lg HG) in U0, U1 by lra.
    assert (LT : -149 <= ln t <= 0). { split; [|rewrite <- ln_1; apply ln_le; lra].
      apply Rle_trans with (ln (bpow radix2 (-149))); [rewrite ln_bpow; destruct ln2_bounds; lra|apply ln_le; lra]. }
    apply Rabs_le. lra.
Qed.
End Size.
Section Gammas.
Context (c : R) (lg : R -> R) (L : libm32) (LOK : libm32_ok c lg L) (C0 : 0 <= c <= 1000) (LE : ln_edges32 L).
Notation F := (F32 L).
Lemma bn_lgamma t : lg_moderate32 lg -> is_single t -> 0 < val t <= bpow radix2 70 -> bn 91 (single_lgamma L t).
Proof.
  intros M N [P Q]. pose proof (val_range t N P) as [V _]. pose proof (M (val t) (conj V Q)) as B. fold huge32 in B.
  destruct (ok32_lgamma c lg L LOK t N P) as [K E]; [eapply Rle_trans; [exact B|unfold huge32; apply bpow_le; lia]|]. split; [exact K|].
  pose proof (keps c ltac:(lra)) as CS. assert (CE : 0 <= c * eps32) by (apply Rmult_le_pos; [lra|left; apply eps_pos]).
  pose proof (Rabs_pos (lg (val t))). pose proof huge_one as H1.
  assert (c * eps32 * (1 + Rabs (lg (val t))) <= / 4 * (1 + huge32)) by (apply Rmult_le_compat; lra).
  change 91%Z with (90 + 1)%Z. rewrite bpow_plus. change (bpow radix2 1) with 2. fold huge32. apply Rabs_le_inv in E. apply Rabs_le_inv in B. apply Rabs_le. lra.
Qed.
Lemma gamma_proper32 a b x : lg_moderate32 lg -> is_single a -> is_single b -> 0 < val a <= bpow radix2 70 -> 0 < val b -> not_nan32 x -> x <> pinf ->
  proper32 (gamma_ld (@mkGamma F a b) x).
Proof.
  intros LM NA NB A B X XP. unfold gamma_ld. cbn [g_shape g_rate]. destruct (guard_lt L x X) as [[-> U]| ->]; [|right; reflexivity].
  destruct U as [[N Q]|E]; [|contradiction]. apply sub_up; [|apply mul_up; [exact NB|lra|exact N|lra]].
  pose proof (bn_val 70 a NA ltac:(lra)) as BA.
  apply (bn_add 92 _ _ ltac:(lia)).
  - apply (bn_sub 91 _ _ ltac:(lia)); [|apply bn_lgamma; assumption]. apply (bn_more 81); [|lia]. apply (bn_mul 70 11 _ _ ltac:(lia) BA). apply (bn_ln c lg L LOK C0); assumption.
  - apply (bn_more (71 + 11)); [|lia]. apply (bn_mul 71 11 _ _ ltac:(lia)); [|apply (bn_ln c lg L LOK C0); assumption].
    apply (bn_sub 70 _ _ ltac:(lia) BA). apply (bn_more 0); [apply bn_one|lia].
Qed.
(** At plus infinity: NaN from shape 1 on, minus infinity below. *)
Lemma tail_at_infinity a k : is_single a -> 0 < val a <= bpow radix2 70 -> is_single k ->
  (1 <= val a -> f32_sub (f32_add k (f32_mul (f32_sub a (f32_of_Z 1)) pinf)) pinf = S754_nan) /\
  (val a < 1 -> f32_sub (f32_add k (f32_mul (f32_sub a (f32_of_Z 1)) pinf)) pinf = ninf).
Proof.
  intros NA A K. destruct one_num as [N1 V1].
  destruct (sub_num a (f32_of_Z 1) NA N1) as [N V].
  { apply (RS_small _ 71); [lia|]. rewrite V1. apply Rabs_le. change 71%Z with (1 + 70)%Z. rewrite bpow_plus. change (bpow radix2 1) with 2. pose proof (bpow_gt_0 radix2 70).
    assert (bpow radix2 0 <= bpow radix2 70) as O by (apply bpow_le; lia). change (bpow radix2 0) with 1 in O. lra. }
  rewrite V1 in V. set (d := f32_sub a (f32_of_Z 1)) in *.
  split; intros H.
  - assert (P : 0 <= val d) by (rewrite V; apply RS_pos; lra).
    destruct N as [_ F]. destruct K as [_ G]. destruct d as [s| | |[] m e]; try discriminate F; cbn [f32_mul SFmul pinf xorb].
    + destruct k; try discriminate G; reflexivity.
    + exfalso. unfold val, SF2R in P. cbn [cond_Zopp] in P. assert (F2R (Float radix2 (Z.neg m) e) < 0) by (apply F2R_lt_0; reflexivity). cbn in *. lra.
    + destruct k; try discriminate G; reflexivity.
  - assert (P : val d < 0).
    { rewrite V. sizes. assert (R1 : rel 1 (1 - val a) (f32_sub (f32_of_Z 1) a)).
      { apply rel_diff'; try assumption; rewrite ?V1; [lra|lra|]. rewrite !Rabs_pos_eq by lra. lra. }
      pose proof (rel_sign _ _ _ R1 ltac:(lra)) as S. destruct (sub_num (f32_of_Z 1) a N1 NA) as [_ W].
      { apply (RS_small _ 0); [lia|]. rewrite V1. change (bpow radix2 0) with 1. apply Rabs_le. lra. }
      rewrite W, V1 in S. replace (val a - 1) with (- (1 - val a)) by ring. unfold RS in *. rewrite round_NE_opp. lra. }
    destruct N as [_ F]. destruct K as [_ G]. destruct d as [s| | |[] m e]; try discriminate F; cbn [f32_mul SFmul pinf xorb].
    + exfalso. unfold val in P. cbn in P. lra.
    + destruct k; try discriminate G; reflexivity.
    + exfalso. unfold val, SF2R in P. cbn [cond_Zopp] in P. assert (0 < F2R (Float radix2 (Z.pos m) e)) by (apply F2R_gt_0; reflexivity). cbn in *. lra.
Qed.
Lemma gamma_at_infinity a b : lg_moderate32 lg -> is_single a -> is_single b -> 0 < val a <= bpow radix2 70 -> 0 < val b ->
  (1 <= val a -> gamma_ld (@mkGamma F a b) pinf = S754_nan) /\ (val a < 1 -> gamma_ld (@mkGamma F a b) pinf = ninf).
Proof.
  intros LM NA NB A B. change (gamma_ld (@mkGamma F a b) pinf) with
    (f32_sub (f32_add (f32_sub (f32_mul a (s_ln L b)) (single_lgamma L a)) (f32_mul (f32_sub a (f32_of_Z 1)) (s_ln L pinf))) (f32_mul b pinf)).
  destruct (mul_pinf b NB B) as [-> _]. rewrite (proj1 LE). pose proof (bn_val 70 a NA ltac:(lra)) as BA. apply tail_at_infinity; [exact NA|exact A|].
  apply (bn_sub 91 _ _ ltac:(lia)); [|apply bn_lgamma; assumption]. apply (bn_more 81); [|lia]. apply (bn_mul 70 11 _ _ ltac:(lia) BA). apply (bn_ln c lg L LOK C0); assumption.
Qed.
Lemma guard_unit x : not_nan32 x -> (@nltb F n0 x && @nltb F x n1 = true /\ is_single x /\ 0 < val x < 1) \/ @nltb F n0 x && @nltb F x n1 = false.
Proof.
  intros X. destruct (guard_lt L x X) as [[-> [[N P]| ->]]| ->]; [|right; reflexivity|right; reflexivity]. cbn [andb].
  destruct one_num as [N1 V1]. change (@nltb F x n1) with (SFltb x (f32_of_Z 1)). rewrite (SFltb_num _ _ N N1), V1.
  destruct (Rlt_bool_spec (val x) 1); [left; split; [reflexivity|]; split; [exact N|lra]|right; reflexivity].
Qed.
(** Inside the unit interval the beta log-density is finite. *)
Lemma beta_proper32 a b x : lg_moderate32 lg -> is_single a -> is_single b -> 0 < val a <= bpow radix2 69 -> 0 < val b <= bpow radix2 69 -> not_nan32 x ->
  proper32 (beta_ld (@mkBeta F a b) x) /\ (is_single x -> 0 < val x < 1 -> is_single (beta_ld (@mkBeta F a b) x)).
Proof.
  intros LM NA NB A B X.
  assert (G : is_single x -> 0 < val x < 1 -> is_single (f32_add (f32_add (f32_sub (f32_sub (single_lgamma L (f32_add a b)) (single_lgamma L a)) (single_lgamma L b))
      (f32_mul (f32_sub a (f32_of_Z 1)) (s_ln L x))) (f32_mul (f32_sub b (f32_of_Z 1)) (s_ln L (f32_sub (f32_of_Z 1) x))))).
  { intros N P. pose proof (bn_val 69 a NA ltac:(lra)) as BA. pose proof (bn_val 69 b NB ltac:(lra)) as BB.
    assert (E879 : bpow radix2 69 <= bpow radix2 70) by (apply bpow_le; lia).
    destruct (bn_add 69 a b ltac:(lia) BA BB) as [NS BS].
    assert (PS : 0 < val (f32_add a b)).
    { destruct (add_num a b NA NB) as [_ V].
      - apply (RS_small _ 70); [lia|]. change 70%Z with (1 + 69)%Z. rewrite bpow_plus. change (bpow radix2 1) with 2. rewrite Rabs_pos_eq; lra.
      - rewrite V. apply Rlt_le_trans with (val a); [lra|]. rewrite <- (num_format a NA) at 1.
        apply round_le; [apply FLT_exp_valid; exact Hprec32|apply valid_rnd_N|lra]. }
    rewrite Rabs_pos_eq in BS by lra. change (69 + 1)%Z with 70%Z in BS.
    apply (bn_add 94 _ _ ltac:(lia)).
    - apply (bn_add 93 _ _ ltac:(lia)).
      + apply (bn_sub 92 _ _ ltac:(lia)); [|apply (bn_more 91); [apply bn_lgamma; [exact LM|exact NB|lra]|lia]].
        apply (bn_sub 91 _ _ ltac:(lia)); apply bn_lgamma; try assumption; lra.
      + apply (bn_more (70 + 11)); [|lia]. apply (bn_mul 70 11 _ _ ltac:(lia)); [|apply (bn_ln c lg L LOK C0); [exact N|lra]].
        apply (bn_sub 69 _ _ ltac:(lia) BA). apply (bn_more 0); [apply bn_one|lia].
    - apply (bn_more (70 + 11)); [|lia]. apply (bn_mul 70 11 _ _ ltac:(lia)); [|apply (ln_minus c lg L LOK C0); assumption].
      apply (bn_sub 69 _ _ ltac:(lia) BB). apply (bn_more 0); [apply bn_one|lia]. }
  unfold beta_ld. cbn [b_alpha b_beta]. destruct (guard_unit x X) as [[E [N P]]|E].
  - rewrite E. split; [left; apply G; assumption|intros _ _; apply G; assumption].
  - rewrite E. split; [right; reflexivity|]. intros N P. exfalso. destruct zero_num as [N0 V0], one_num as [N1 V1].
    change (SFltb (f32_of_Z 0) x && SFltb x (f32_of_Z 1) = false) in E. rewrite (SFltb_num _ _ N0 N), (SFltb_num _ _ N N1), V0, V1, !Rlt_bool_true in E by lra. discriminate E.
Qed.
Lemma chi_proper32 k x : lg_moderate32 lg -> is_single k -> bpow radix2 (-100) <= val k <= bpow radix2 70 -> not_nan32 x -> x <> pinf ->
  proper32 (chi_ld (@mkChi F k) x).
Proof.
  intros LM NK K X XP. change (chi_ld (@mkChi F k) x) with
    (if @nltb F n0 x then f32_sub (f32_add (f32_sub (f32_mul (SFopp (f32_div k (f32_add (f32_of_Z 1) (f32_of_Z 1)))) (s_ln L (f32_add (f32_of_Z 1) (f32_of_Z 1)))) (single_lgamma L (f32_div k (f32_add (f32_of_Z 1) (f32_of_Z 1))))) (f32_mul (f32_sub (f32_div k (f32_add (f32_of_Z 1) (f32_of_Z 1))) (f32_of_Z 1)) (s_ln L x))) (f32_div x (f32_add (f32_of_Z 1) (f32_of_Z 1))) else ninf). destruct (guard_lt L x X) as [[-> U]| ->]; [|right; reflexivity].
  destruct U as [[N Q]|E]; [|contradiction]. pose proof (bpow_gt_0 radix2 (-100)) as K0. destruct two_num as [N2 V2].
  rewrite two_sum.
  destruct (half_exact k NK (proj1 K)) as [NH VH].
  pose proof (bn_half 70 k ltac:(lia) (bn_val 70 k NK ltac:(lra))) as BH.
  apply sub_up; [|apply (div_pos_up x (f32_of_Z 2)); [left; split; [exact N|lra]|exact N2|lra]].
  apply (bn_add 92 _ _ ltac:(lia)).
  - apply (bn_sub 91 _ _ ltac:(lia)); [|apply bn_lgamma; [exact LM|exact NH|rewrite VH; lra]].
    apply (bn_more (70 + 11)); [|lia]. apply (bn_mul 70 11 _ _ ltac:(lia)); [apply bn_neg; exact BH|apply (bn_ln c lg L LOK C0); [exact N2|lra]].
  - apply (bn_more (71 + 11)); [|lia]. apply (bn_mul 71 11 _ _ ltac:(lia)); [|apply (bn_ln c lg L LOK C0); assumption].
    apply (bn_sub 70 _ _ ltac:(lia) BH). apply (bn_more 0); [apply bn_one|lia].
Qed.
Lemma chi_at_infinity k : lg_moderate32 lg -> is_single k -> bpow radix2 (-100) <= val k <= bpow radix2 70 ->
  (2 <= val k -> chi_ld (@mkChi F k) pinf = S754_nan) /\ (val k < 2 -> chi_ld (@mkChi F k) pinf = ninf).
Proof.
  intros LM NK K. change (chi_ld (@mkChi F k) pinf) with
    (f32_sub (f32_add (f32_sub (f32_mul (SFopp (f32_div k (f32_add (f32_of_Z 1) (f32_of_Z 1)))) (s_ln L (f32_add (f32_of_Z 1) (f32_of_Z 1)))) (single_lgamma L (f32_div k (f32_add (f32_of_Z 1) (f32_of_Z 1))))) (f32_mul (f32_sub (f32_div k (f32_add (f32_of_Z 1) (f32_of_Z 1))) (f32_of_Z 1)) (s_ln L pinf))) (f32_div pinf (f32_add (f32_of_Z 1) (f32_of_Z 1)))).
  pose proof (bpow_gt_0 radix2 (-100)) as K0. destruct two_num as [N2 V2]. rewrite two_sum, (proj1 LE). change (f32_div pinf (f32_of_Z 2)) with pinf.
  destruct (half_exact k NK (proj1 K)) as [NH VH].
  pose proof (bn_half 70 k ltac:(lia) (bn_val 70 k NK ltac:(lra))) as BH.
  assert (W : is_single (f32_sub (f32_mul (SFopp (f32_div k (f32_of_Z 2))) (s_ln L (f32_of_Z 2))) (single_lgamma L (f32_div k (f32_of_Z 2))))).
  { apply (bn_sub 91 _ _ ltac:(lia)); [|apply bn_lgamma; [exact LM|exact NH|rewrite VH; lra]].
    apply (bn_more (70 + 11)); [|lia]. apply (bn_mul 70 11 _ _ ltac:(lia)); [apply bn_neg; exact BH|apply (bn_ln c lg L LOK C0); [exact N2|lra]]. }
  destruct (tail_at_infinity _ _ NH ltac:(rewrite VH; lra) W) as [T1 T2]. split; intros H; [apply T1|apply T2]; rewrite VH; lra.
Qed.
End Gammas.
