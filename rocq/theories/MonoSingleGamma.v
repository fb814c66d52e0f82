(** Gamma and chi-squared log-densities fall in binary32 (C77): MonoSum at precision 24. *)
From Coquelicot Require Import Coquelicot.
From Coq Require Import ZArith Reals Bool List Lia Lra.
From Coq Require Import Floats.SpecFloat.
From Flocq Require Import Core IEEE754.BinarySingleNaN.
From Verif Require Import Num EggSpec FloatFacts DensitySpec CoreModel CombModel ExpFamModel DistModel DistSpec ExtSpec SingleModel SingleSpec SingleErr SingleFloat ExtSingleSpec ExtSingle ExtSingleSum ExtSingleDisc ExtSingleGamma MonoSpec MonoSingle.
From Verif Require Import IntSpec.
Import ListNotations.
Local Open Scope R_scope.
#[local] Instance Hprec32 : FLX.Prec_gt_0 24 := eq_refl _.
Lemma fle_sub2 p p' q q' : is_single p -> is_single p' -> val p <= val p' -> up q' -> fle q' q -> fle (f32_sub p q) (f32_sub p' q').
Proof.
  intros P P' H U K. apply fle_trans with (f32_sub p q'); [apply fle_sub_r; assumption|].
  destruct U as [[N _]| ->]; [apply fle_sub_l; [|exact N]; split; [left; exact P|]; split; [left; exact P'|rewrite !ev_num by assumption; exact H]|].
  destruct (inf_sub p P) as (_ & _ & -> & _). destruct (inf_sub p' P') as (_ & _ & -> & _). apply fle_bot. right. right. reflexivity.
Qed.
Section Gamma.
Context (c : R) (lg : R -> R) (L : libm32) (LOK : libm32_ok c lg L) (C0 : 0 <= c <= 1000) (LM : ln_monotone32 L).
Notation F := (F32 L).
Lemma gamma_mono a b x y : lg_moderate32 lg -> is_single a -> is_single b -> 0 < val a <= 1 -> 0 < val b -> is_single x -> is_single y -> 0 < val x <= val y ->
  at_most (gamma_ld (@mkGamma F a b) y) (gamma_ld (@mkGamma F a b) x).
Proof.
  intros LG NA NB A B X Y H. apply fle_at_most. destruct zero_num as [N0 V0]. destruct one_num as [N1 V1].
  assert (G : forall z, is_single z -> 0 < val z -> @nltb F n0 z = true) by (intros z Z Q; change (@nltb F n0 z) with (SFltb (f32_of_Z 0) z); rewrite (SFltb_num _ _ N0 Z), V0; apply Rlt_bool_true, Q).
  unfold gamma_ld. cbn [g_shape g_rate]. rewrite !G by (assumption || lra).
  assert (O : 1 <= bpow radix2 70) by (apply (bpow_le radix2 0 70); lia).
  pose proof (bn_val 70 a NA ltac:(lra)) as BA.
  assert (BF : bn 92 (f32_sub (f32_mul a (s_ln L b)) (single_lgamma L a))).
  { apply (bn_sub 91 _ _ ltac:(lia)); [|apply (bn_lgamma c lg L LOK C0); [exact LG|exact NA|lra]]. apply (bn_more 81); [|lia]. apply (bn_mul 70 11 _ _ ltac:(lia) BA). apply (bn_ln c lg L LOK C0); assumption. }
  assert (BK : bn 71 (f32_sub a (f32_of_Z 1))) by (apply (bn_sub 70 _ _ ltac:(lia) BA); apply (bn_more 0); [apply bn_one|lia]).
  assert (K0 : val (f32_sub a (f32_of_Z 1)) <= 0).
  { rewrite <- ev_num by apply BK. rewrite (proj2 (ev_sub a (f32_of_Z 1) NA N1)), V1. replace (val a - 1) with (- (1 - val a)) by ring. rewrite cr_opp. pose proof (cr_pos (1 - val a) ltac:(lra)). lra. }
  pose proof (bn_ln c lg L LOK C0 x X ltac:(lra)) as BX. pose proof (bn_ln c lg L LOK C0 y Y ltac:(lra)) as BY.
  pose proof (ev_at_most _ _ (proj1 BX) (proj1 BY) (proj2 LM x y X Y ltac:(lra))) as EL. rewrite !ev_num in EL by (apply BX || apply BY).
  set (k := f32_sub a (f32_of_Z 1)) in *. set (f := f32_sub (f32_mul a (s_ln L b)) (single_lgamma L a)) in *.
  assert (T : forall z, bn 11 (s_ln L z) -> bn 93 (f32_add f (f32_mul k (s_ln L z)))).
  { intros z Z. apply (bn_add 92 _ _ ltac:(lia) BF). apply (bn_more (71 + 11)); [|lia]. apply (bn_mul 71 11 _ _ ltac:(lia) BK Z). }
  assert (M : forall z, bn 11 (s_ln L z) -> is_single (f32_mul k (s_ln L z))) by (intros z Z; apply (bn_mul 71 11 _ _ ltac:(lia) BK Z)).
  change (fle (f32_sub (f32_add f (f32_mul k (s_ln L y))) (f32_mul b y)) (f32_sub (f32_add f (f32_mul k (s_ln L x))) (f32_mul b x))).
  apply fle_sub2; [apply (T y BY)|apply (T x BX)| |apply mul_up; [exact NB|lra|exact X|lra]|].
  - rewrite <- !ev_num by (apply (T y BY) || apply (T x BX)). rewrite (proj2 (ev_add _ _ (proj1 BF) (M y BY))), (proj2 (ev_add _ _ (proj1 BF) (M x BX))). apply cr_mono.
    apply Rplus_le_compat_l. rewrite <- !ev_num by (apply (M y BY) || apply (M x BX)). rewrite (proj2 (ev_mul _ _ (proj1 BK) (proj1 BY))), (proj2 (ev_mul _ _ (proj1 BK) (proj1 BX))). apply cr_mono. nra.
  - apply fle_mul; [|exact NB|exact B]. split; [left; exact X|]. split; [left; exact Y|]. rewrite !ev_num by assumption. apply H.
Qed.
Lemma falling f k qx qy x y : bn 92 f -> bn 71 k -> val k <= 0 -> is_single x -> is_single y -> 0 < val x <= val y -> up qx -> fle qx qy ->
  fle (f32_sub (f32_add f (f32_mul k (s_ln L y))) qy) (f32_sub (f32_add f (f32_mul k (s_ln L x))) qx).
Proof.
  intros BF BK K0 X Y H U Q.
  pose proof (bn_ln c lg L LOK C0 x X ltac:(lra)) as BX. pose proof (bn_ln c lg L LOK C0 y Y ltac:(lra)) as BY.
  pose proof (ev_at_most _ _ (proj1 BX) (proj1 BY) (proj2 LM x y X Y ltac:(lra))) as EL. rewrite !ev_num in EL by (apply BX || apply BY).
  assert (T : forall z, bn 11 (s_ln L z) -> bn 93 (f32_add f (f32_mul k (s_ln L z)))).
  { intros z Z. apply (bn_add 92 _ _ ltac:(lia) BF). apply (bn_more (71 + 11)); [|lia]. apply (bn_mul 71 11 _ _ ltac:(lia) BK Z). }
  assert (M : forall z, bn 11 (s_ln L z) -> is_single (f32_mul k (s_ln L z))) by (intros z Z; apply (bn_mul 71 11 _ _ ltac:(lia) BK Z)).
  apply fle_sub2; [apply (T y BY)|apply (T x BX)| |exact U|exact Q].
  rewrite <- !ev_num by (apply (T y BY) || apply (T x BX)). rewrite (proj2 (ev_add _ _ (proj1 BF) (M y BY))), (proj2 (ev_add _ _ (proj1 BF) (M x BX))). apply cr_mono.
  apply Rplus_le_compat_l. rewrite <- !ev_num by (apply (M y BY) || apply (M x BX)). rewrite (proj2 (ev_mul _ _ (proj1 BK) (proj1 BY))), (proj2 (ev_mul _ _ (proj1 BK) (proj1 BX))). apply cr_mono. nra.
Qed.
Lemma chi_mono k x y : lg_moderate32 lg -> is_single k -> bpow radix2 (-100) <= val k <= 2 -> is_single x -> is_single y -> 0 < val x <= val y ->
  at_most (chi_ld (@mkChi F k) y) (chi_ld (@mkChi F k) x).
Proof.
  intros LG NK K X Y H. apply fle_at_most. destruct zero_num as [N0 V0]. destruct one_num as [N1 V1]. destruct two_num as [N2 V2]. pose proof (bpow_gt_0 radix2 (-100)) as K0.
  assert (G : forall z, is_single z -> 0 < val z -> @nltb F n0 z = true) by (intros z Z Q; change (@nltb F n0 z) with (SFltb (f32_of_Z 0) z); rewrite (SFltb_num _ _ N0 Z), V0; apply Rlt_bool_true, Q).
  assert (E : forall z, is_single z -> 0 < val z -> chi_ld (@mkChi F k) z =
    f32_sub (f32_add (f32_sub (f32_mul (SFopp (f32_div k (f32_of_Z 2))) (s_ln L (f32_of_Z 2))) (single_lgamma L (f32_div k (f32_of_Z 2)))) (f32_mul (f32_sub (f32_div k (f32_of_Z 2)) (f32_of_Z 1)) (s_ln L z))) (f32_div z (f32_of_Z 2))).
  { intros z Z Q. unfold chi_ld. rewrite (G z Z Q). rewrite <- two_sum. reflexivity. }
  rewrite !E by (assumption || lra). clear E.
  assert (O : 2 <= bpow radix2 70) by (apply (bpow_le radix2 1 70); lia).
  destruct (half_exact k NK (proj1 K)) as [NH VH]. pose proof (bn_half 70 k ltac:(lia) (bn_val 70 k NK ltac:(lra))) as BH.
  assert (BK : bn 71 (f32_sub (f32_div k (f32_of_Z 2)) (f32_of_Z 1))) by (apply (bn_sub 70 _ _ ltac:(lia) BH); apply (bn_more 0); [apply bn_one|lia]).
  apply falling; try assumption.
  - apply (bn_sub 91 _ _ ltac:(lia)); [|apply (bn_lgamma c lg L LOK C0); [exact LG|exact NH|rewrite VH; lra]].
    apply (bn_more (70 + 11)); [|lia]. apply (bn_mul 70 11 _ _ ltac:(lia)); [apply bn_neg; exact BH|apply (bn_ln c lg L LOK C0); [exact N2|lra]].
  - rewrite <- ev_num by apply BK. rewrite (proj2 (ev_sub _ (f32_of_Z 1) NH N1)), V1, VH. replace (val k / 2 - 1) with (- (1 - val k / 2)) by ring. rewrite cr_opp. pose proof (cr_pos (1 - val k / 2) ltac:(lra)). lra.
  - apply div_pos_up; [left; split; [exact X|lra]|exact N2|lra].
  - apply fle_div; [|exact N2|lra]. split; [left; exact X|]. split; [left; exact Y|]. rewrite !ev_num by assumption. apply H.
Qed.
Context (LE : ln_edges32 L).
Lemma student_mono nu x y : lg_moderate32 lg -> is_single nu -> bpow radix2 (-100) <= val nu <= bpow radix2 69 -> is_single x -> is_single y -> Rabs (val x) <= Rabs (val y) ->
  at_most (student_ld (@mkStudent F nu) y) (student_ld (@mkStudent F nu) x).
Proof.
  intros LG NN K X Y H. pose proof (bpow_gt_0 radix2 (-100)) as K0. destruct one_num as [N1 V1]. destruct half_dec as [NH VH]. pose proof pi_bounds as PB.
  assert (E69 : bpow radix2 69 <= bpow radix2 70) by (apply bpow_le; lia).
  apply fle_at_most.
  assert (E : forall x, student_ld (@mkStudent F nu) x =
    (f32_add (f32_sub (f32_sub (single_lgamma L (f32_div (f32_add nu (f32_of_Z 1)) (f32_of_Z 2))) (single_lgamma L (f32_div nu (f32_of_Z 2)))) (f32_mul (f32_dec 5 10) (s_ln L (f32_mul nu f32_pi))))
      (f32_mul (SFopp (f32_div (f32_add nu (f32_of_Z 1)) (f32_of_Z 2))) (s_ln L (f32_add (f32_of_Z 1) (f32_div (f32_mul x x) nu)))))) by reflexivity.
  rewrite !E. clear E.
  destruct (half_exact nu NN (proj1 K)) as [NB VB]. pose proof (bn_val 69 nu NN ltac:(lra)) as BN.
  pose proof (bn_add 69 nu (f32_of_Z 1) ltac:(lia) BN (bn_more 0 69 _ bn_one ltac:(lia))) as BS. change (69 + 1)%Z with 70%Z in BS.
  assert (S1 : 1 <= val (f32_add nu (f32_of_Z 1))).
  { destruct (add_num nu (f32_of_Z 1) NN N1) as [_ V].
    - apply (RS_small _ 70); [lia|]. rewrite V1. change 70%Z with (1 + 69)%Z. rewrite bpow_plus. change (bpow radix2 1) with 2.
      assert (bpow radix2 0 <= bpow radix2 69) as O by (apply bpow_le; lia). change (bpow radix2 0) with 1 in O. rewrite Rabs_pos_eq; lra.
    - rewrite V, V1. rewrite <- V1 at 1. rewrite <- (single_fmt _ N1). apply RS_mono. rewrite V1. lra. }
  assert (SM : bpow radix2 (-100) <= 1) by (change 1 with (bpow radix2 0); apply bpow_le; lia).
  destruct (half_exact _ (proj1 BS) ltac:(lra)) as [NM VM]. pose proof (bn_half 70 _ ltac:(lia) BS) as BM.
  set (mid := f32_div (f32_add nu (f32_of_Z 1)) (f32_of_Z 2)) in *.
  assert (M0 : 0 < val mid <= bpow radix2 70) by (pose proof (proj2 BM) as Z; rewrite Rabs_pos_eq in Z; rewrite VM in *; lra).
  assert (PN : is_single (f32_mul nu f32_pi) /\ 0 < val (f32_mul nu f32_pi)).
  { destruct (mul_num nu f32_pi NN num_pi) as [Q V].
    - apply (RS_small _ 71); [lia|]. rewrite val_pi. change 71%Z with (69 + 2)%Z. rewrite bpow_plus, Rabs_mult. apply Rmult_le_compat; try apply Rabs_pos; [apply BN|]. rewrite Rabs_pos_eq by lra. change (bpow radix2 2) with 4. lra.
    - split; [exact Q|]. rewrite V, val_pi. apply Rlt_le_trans with (val nu); [lra|]. rewrite <- (single_fmt nu NN) at 1. apply RS_mono. nra. }
  apply fle_add_r.
  - apply fle_mul_opp; [|exact NM|lra].
    apply (ln_one_fle c lg L LOK C0 LE LM); [apply div_pos_up; [apply square; left; assumption|exact NN|lra]..|].
    apply fle_div; [|exact NN|lra]. apply fle_square. split; [left; exact X|]. split; [left; exact Y|]. rewrite !ev_num by assumption. exact H.
  - apply (bn_sub 92 _ _ ltac:(lia)).
    + apply (bn_sub 91 _ _ ltac:(lia)); apply (bn_lgamma c lg L LOK C0); try assumption. rewrite VB. lra.
    + apply (bn_more (0 + 11)); [|lia]. apply (bn_mul 0 11 _ _ ltac:(lia)); [split; [exact NH|rewrite VH, Rabs_pos_eq by lra; cbn; lra]|apply (bn_ln c lg L LOK C0); apply PN].
Qed.
End Gamma.
