(** Student's t in single precision at extreme arguments (C76): the density is computed in binary64 and converted. *)
From Coquelicot Require Import Coquelicot.
From Coq Require Import ZArith Reals Bool List Lia Lra.
From Coq Require Import Floats.SpecFloat.
From Flocq Require Import Core IEEE754.BinarySingleNaN.
From Verif Require Import Num JitModel EggSpec LitFacts EggNum FloatFacts FloatErr JitAcc JitAcc2 AccSpec AccProofs RoundSpec RoundProofs RelErr
  DensitySpec CoreModel CombModel ExpFamModel DistModel DistSpec DistFacts BuilderProofs DistProofs DistFloat CombFloat2 IntSpec GammaFun ExtSpec ExtFloat.
From Verif Require Import SingleModel SingleSpec ExtSingleSpec.
From Verif Require SingleErr SingleFloat SingleFloat2 ExtSingleGamma.
Import ListNotations.
Local Open Scope R_scope.

Section Student.
Context (c : R) (lg : R -> R) (L : libm) (LOK : libm_ok c lg L) (C0 : 0 <= c <= 1000000) (LE : ln_edges L).
Notation F := (F64 L).
Lemma bn_lgamma32 t : ExtSingleGamma.lg_moderate32 lg -> is_num t -> bpow radix2 (-149) <= val t <= bpow radix2 70 -> bn 91 (l_lgamma L t).
Proof.
  intros M N V. pose proof (bpow_gt_0 radix2 (-149)) as P. pose proof (M (val t) V) as B.
  destruct (ok_lgamma c lg L LOK t N ltac:(lra)) as [K E]; [eapply Rle_trans; [exact B|apply bpow_le; lia]|]. split; [exact K|].
  pose proof (keps c ltac:(lra)) as CS. assert (CE : 0 <= c * eps) by (apply Rmult_le_pos; [lra|left; apply eps_pos]).
  pose proof (Rabs_pos (lg (val t))). assert (H1 : 1 <= bpow radix2 90) by (apply (bpow_le radix2 0 90); lia).
  assert (c * eps * (1 + Rabs (lg (val t))) <= / 4 * (1 + bpow radix2 90)) by (apply Rmult_le_compat; lra).
  change 91%Z with (90 + 1)%Z. rewrite bpow_plus. change (bpow radix2 1) with 2. apply Rabs_le_inv in E. apply Rabs_le_inv in B. apply Rabs_le. lra.
Qed.
Lemma student_small nu x : ExtSingleGamma.lg_moderate32 lg -> is_num nu -> bpow radix2 (-100) <= val nu <= bpow radix2 69 -> not_nan x ->
  (is_num (f64_add (f64_of_Z 1) (f64_div (f64_mul x x) nu)) -> bn 94 (student_ld (@mkStudent F nu) x)) /\
  (f64_add (f64_of_Z 1) (f64_div (f64_mul x x) nu) = pinf -> student_ld (@mkStudent F nu) x = ninf).
Proof.
  intros LM NN K X. pose proof (bpow_gt_0 radix2 (-1000)) as K0. destruct one_num as [N1 V1]. destruct half_dec as [NH VH]. pose proof pi_bounds as PB.
  assert (K1 : bpow radix2 (-1000) <= bpow radix2 (-100)) by (apply bpow_le; lia).
  assert (K2 : bpow radix2 (-149) <= bpow radix2 (-100) / 2) by (change (-100)%Z with (-99 + -1)%Z; rewrite bpow_plus; change (bpow radix2 (-1)) with (/ 2); change (-149)%Z with (-48 + -101)%Z; apply Rle_trans with (bpow radix2 (-101)); [apply bpow_le; lia|change (-101)%Z with (-99 + -2)%Z; rewrite bpow_plus; change (bpow radix2 (-2)) with (/ 4); lra]).
  assert (K3 : bpow radix2 (-149) <= / 4) by (change (/ 4) with (bpow radix2 (-2)); apply bpow_le; lia).
  assert (E69 : bpow radix2 69 <= bpow radix2 70) by (apply bpow_le; lia).
  change (student_ld (@mkStudent F nu) x) with
    (f64_add (f64_sub (f64_sub (l_lgamma L (f64_div (f64_add nu (f64_of_Z 1)) (f64_of_Z 2))) (l_lgamma L (f64_div nu (f64_of_Z 2)))) (f64_mul (f64_dec 5 10) (l_ln L (f64_mul nu f64_pi))))
      (f64_mul (SFopp (f64_div (f64_add nu (f64_of_Z 1)) (f64_of_Z 2))) (l_ln L (f64_add (f64_of_Z 1) (f64_div (f64_mul x x) nu))))).
  destruct (half_exact nu NN (Rle_trans _ _ _ K1 (proj1 K))) as [NB VB]. pose proof (bn_val 69 nu NN ltac:(lra)) as BN.
  pose proof (bn_add 69 nu (f64_of_Z 1) ltac:(lia) BN (bn_more 0 69 _ bn_one ltac:(lia))) as BS. change (69 + 1)%Z with 70%Z in BS.
  assert (S1 : 1 <= val (f64_add nu (f64_of_Z 1))).
  { destruct (add_num nu (f64_of_Z 1) NN N1) as [_ V].
    - apply (RN_small _ 70); [lia|]. rewrite V1. change 70%Z with (1 + 69)%Z. rewrite bpow_plus. change (bpow radix2 1) with 2.
      assert (bpow radix2 0 <= bpow radix2 69) as O by (apply bpow_le; lia). change (bpow radix2 0) with 1 in O. rewrite Rabs_pos_eq; lra.
    - rewrite V, V1. rewrite <- V1 at 1. rewrite <- (num_format _ N1). apply round_le; [apply FLT_exp_valid; exact Hprec64|apply valid_rnd_N|]. rewrite V1. lra. }
  assert (SM : bpow radix2 (-1000) <= 1) by (change 1 with (bpow radix2 0); apply bpow_le; lia).
  destruct (half_exact _ (proj1 BS) ltac:(lra)) as [NM VM]. pose proof (bn_half 70 _ ltac:(lia) BS) as BM.
  set (mid := f64_div (f64_add nu (f64_of_Z 1)) (f64_of_Z 2)) in *.
  assert (M0 : 0 < val mid <= bpow radix2 70) by (pose proof (proj2 BM) as Z; rewrite Rabs_pos_eq in Z; rewrite VM in *; lra).
  assert (PN : is_num (f64_mul nu f64_pi) /\ 0 < val (f64_mul nu f64_pi)).
  { destruct (mul_num nu f64_pi NN num_pi) as [Q V].
    - apply (RN_small _ 71); [lia|]. rewrite val_pi. change 71%Z with (69 + 2)%Z. rewrite bpow_plus, Rabs_mult. apply Rmult_le_compat; try apply Rabs_pos; [apply BN|]. rewrite Rabs_pos_eq by lra. change (bpow radix2 2) with 4. lra.
    - split; [exact Q|]. rewrite V, val_pi. apply Rlt_le_trans with (val nu); [lra|]. rewrite <- (num_format nu NN) at 1.
      apply round_le; [apply FLT_exp_valid; exact Hprec64|apply valid_rnd_N|nra]. }
  assert (T : is_num (f64_sub (f64_sub (l_lgamma L mid) (l_lgamma L (f64_div nu (f64_of_Z 2)))) (f64_mul (f64_dec 5 10) (l_ln L (f64_mul nu f64_pi))))
    /\ bn 93 (f64_sub (f64_sub (l_lgamma L mid) (l_lgamma L (f64_div nu (f64_of_Z 2)))) (f64_mul (f64_dec 5 10) (l_ln L (f64_mul nu f64_pi))))).
  { assert (bn 93 (f64_sub (f64_sub (l_lgamma L mid) (l_lgamma L (f64_div nu (f64_of_Z 2)))) (f64_mul (f64_dec 5 10) (l_ln L (f64_mul nu f64_pi))))) as Z; [|split; [apply Z|exact Z]].
    apply (bn_sub 92 _ _ ltac:(lia)).
    - apply (bn_sub 91 _ _ ltac:(lia)); apply bn_lgamma32; try assumption; [rewrite VM in *|rewrite VB]; lra.
    - apply (bn_more (0 + 11)); [|lia]. apply (bn_mul 0 11 _ _ ltac:(lia)); [split; [exact NH|rewrite VH, Rabs_pos_eq by lra; cbn; lra]|apply (bn_ln c lg L LOK C0); apply PN]. }
  assert (U : up (f64_mul x x)) by (apply square; destruct X as [Y|[-> | ->]]; [left; exact Y|right; eexists; reflexivity|right; eexists; reflexivity]).
  assert (OU := one_up _ (div_pos_up _ nu U NN ltac:(lra))). split; intros E.
  - destruct OU as [[Q V]|Z]; [|rewrite Z in E; destruct E as [_ E]; discriminate E].
    apply (bn_add 93 _ _ ltac:(lia)); [apply T|]. apply (bn_more (70 + 11)); [|lia]. apply (bn_mul 70 11 _ _ ltac:(lia)); [apply bn_neg; exact BM|].
    apply (bn_ln c lg L LOK C0); [exact Q|]. eapply Rlt_le_trans; [|exact V]. lra.
  - rewrite E, (proj1 LE). replace (f64_mul (SFopp mid) pinf) with ninf; [apply add_ninf, T|].
    destruct (mul_pinf mid NM (proj1 M0)) as [G _]. clearbody mid. destruct NM as [_ FM]. destruct mid as [s| | |[] m e]; try discriminate FM; try (cbn in G; discriminate G); reflexivity.
Qed.
End Student.

(** Finite points give finite values (the square of a binary32 number fits in
    binary64), both infinities minus infinity. *)
Lemma student_ld32_ends c lg L nu x : libm_ok c lg (s_double L) -> 0 <= c <= 1000000 -> ln_edges (s_double L) -> ExtSingleGamma.lg_moderate32 lg ->
  is_single nu -> bpow radix2 (-100) <= val nu <= bpow radix2 69 ->
  (is_single x -> is_single (student_ld32 L nu x)) /\ (x = pinf \/ x = ninf -> student_ld32 L nu x = ninf).
Proof.
  intros K C0 E M NN V. destruct (SingleFloat2.widen_num nu NN) as [WN WV]. pose proof (bpow_gt_0 radix2 (-100)) as P0.
  unfold student_ld32, student_log_pdf32. change (student_log_pdf ?d ?y) with (student_ld d y). split; intros X.
  - destruct (SingleFloat2.widen_num x X) as [XN XV].
    destruct (student_small c lg (s_double L) K C0 E (widen nu) (widen x) M WN ltac:(rewrite WV; exact V) (or_introl XN)) as [S _].
    assert (R : bn 94 (student_ld (@mkStudent (F64 (s_double L)) (widen nu)) (widen x))).
    { apply S. pose proof (SingleFloat2.single_abs x X) as XB.
      assert (BX : bn 128 (widen x)) by (split; [exact XN|rewrite XV; exact XB]).
      pose proof (bn_mul 128 128 _ _ ltac:(lia) BX BX) as BQ. change (128 + 128)%Z with 256%Z in BQ.
      apply (bn_add 400 _ _ ltac:(lia)); [apply (bn_more 0); [apply bn_one|lia]|].
      assert (T : Rabs (val (f64_mul (widen x) (widen x)) / val (widen nu)) <= bpow radix2 400).
      { unfold Rdiv. rewrite Rabs_mult. apply Rle_trans with (bpow radix2 256 * bpow radix2 100); [|rewrite <- bpow_plus; apply bpow_le; lia].
        apply Rmult_le_compat; try apply Rabs_pos; [apply BQ|]. rewrite WV, Rabs_pos_eq by (apply Rlt_le, Rinv_0_lt_compat; lra).
        change 100%Z with (- (-100))%Z. rewrite bpow_opp. apply Rinv_le_contravar; [exact P0|apply V]. }
      destruct (div_num _ (widen nu) (proj1 BQ) WN) as [Q W]; [rewrite WV; lra|apply (RN_small _ 400); [lia|exact T]|].
      split; [exact Q|]. rewrite W. apply RN_abs_bpow; [lia|exact T]. }
    destruct R as [R1 R2]. apply (SingleFloat2.narrow_num _ R1). apply (SingleErr.RS_small _ 94); [lia|exact R2].
  - assert (XI : widen x = x) by (destruct X as [-> | ->]; reflexivity). rewrite XI.
    destruct (student_small c lg (s_double L) K C0 E (widen nu) x M WN ltac:(rewrite WV; exact V) ltac:(right; tauto)) as [_ S].
    rewrite S; [reflexivity|]. replace (f64_mul x x) with pinf by (destruct X as [-> | ->]; reflexivity).
    destruct WN as [W1 W2]. assert (0 < val (widen nu)) as W3 by (rewrite WV; lra). revert W2 W3. generalize (widen nu). intros w W2 W3.
    destruct w as [s| | |[] m e]; try discriminate W2; [cbn in W3; lra| |reflexivity].
    exfalso. unfold val, SF2R in W3. cbn [cond_Zopp] in W3. assert (F2R (Float radix2 (Z.neg m) e) < 0) by (apply F2R_lt_0; reflexivity). cbn in *. lra.
Qed.
