(** Discrete log-densities in binary32 at every count (C76): ExtFloat at precision 24. *)
From Coq Require Import ZArith Reals Bool List Lia Lra.
From Coq Require Import Floats.SpecFloat.
From Flocq Require Import Core IEEE754.BinarySingleNaN.
From Verif Require Import Num EggSpec FloatFacts DensitySpec CoreModel CombModel ExpFamModel DistModel DistSpec ExtSpec SingleModel SingleSpec SingleErr SingleFloat ExtSingleSpec ExtSingle ExtSingleSum.
Import ListNotations.
Local Open Scope R_scope.

#[local] Instance Hprec32 : FLX.Prec_gt_0 24 := eq_refl _.
#[local] Instance Hmax32 : Prec_lt_emax 24 128 := eq_refl _.
Lemma num_Z z : (Z.abs z <= 2 ^ 64)%Z -> is_single (f32_of_Z z) /\ val (f32_of_Z z) = RS (IZR z).
Proof.
  intros H. assert (X : F2R (Float radix2 z 0) = IZR z) by (unfold F2R; cbn [Fnum Fexp]; change (bpow radix2 0) with 1; ring).
  unfold f32_of_Z. change f32_prec with 24%Z. change f32_emax with 128%Z. rewrite (FloatFacts.bn_equiv 24 128 Hprec32 Hmax32).
  pose proof (BinarySingleNaN.binary_normalize_correct 24 128 Hprec32 Hmax32 BinarySingleNaN.mode_NE z 0 false) as C. rewrite X in C.
  cbn [BinarySingleNaN.round_mode] in C. change (round radix2 (SpecFloat.fexp 24 128) ZnearestE (IZR z)) with (RS (IZR z)) in C.
  rewrite Rlt_bool_true in C.
  - destruct C as (V & F & _). destruct (is_num_B _ F) as [N W]. split; [exact N|]. rewrite W. exact V.
  - apply (RS_small _ 64); [lia|]. rewrite <- abs_IZR. change (bpow radix2 64) with (IZR (2 ^ 64)). apply IZR_le, H.
Qed.
Lemma bn_sub_wide e a b : (-100 <= e <= 126)%Z -> bn e a -> bn e b -> bn (e + 1) (f32_sub a b).
Proof.
  intros E [N P] [M Q]. assert (T : Rabs (val a - val b) <= bpow radix2 (e + 1)).
  { rewrite bpow_plus. change (bpow radix2 1) with 2. pose proof (Rabs_triang (val a) (- val b)) as R. rewrite Rabs_Ropp in R. unfold Rminus. lra. }
  destruct (sub_num a b N M) as [K V]; [apply (RS_small _ (e + 1)); [lia|exact T]|]. split; [exact K|]. rewrite V. apply RS_abs_bpow; [lia|exact T].
Qed.
Section Discrete.
Context (c : R) (lg : R -> R) (L : libm32) (LOK : libm32_ok c lg L) (C0 : 0 <= c <= 1000).
Notation F := (F32 L).
Lemma ln_minus p : is_single p -> 0 < val p < 1 -> bn 11 (s_ln L (f32_sub (f32_of_Z 1) p)).
Proof.
  intros N P. destruct one_num as [N1 V1]. sizes. assert (R1 : rel 1 (1 - val p) (f32_sub (f32_of_Z 1) p)).
  { apply rel_diff'; try assumption; rewrite ?V1; [lra|lra|]. rewrite !Rabs_pos_eq by lra. lra. }
  apply (bn_ln c lg L LOK C0); [apply (proj1 R1)|apply (rel_sign _ _ _ R1); lra].
Qed.
Lemma bn_count k : (Z.of_nat k <= 2 ^ 64)%Z -> bn 64 (@nofn F k).
Proof.
  intros H. destruct (num_Z (Z.of_nat k)) as [N V]; [lia|]. split; [exact N|]. change (@nofn F k) with (f32_of_Z (Z.of_nat k)). rewrite V.
  apply RS_abs_bpow; [lia|]. rewrite Rabs_pos_eq by (apply IZR_le; lia). change (bpow radix2 64) with (IZR (2 ^ 64)). apply IZR_le, H.
Qed.
Lemma binomial_finite n p k : is_single p -> 0 < val p < 1 -> (Z.of_nat n <= 2 ^ 64)%Z -> (k <= n)%nat -> is_single (binomial_ld (@mkBinomial F n p) k).
Proof.
  intros N P C K. unfold binomial_ld. cbn [bi_n bi_prob]. rewrite (proj2 (Nat.leb_le k n) K).
  apply (bn_add 76 _ _ ltac:(lia)).
  - apply (bn_more (64 + 11)); [|lia]. apply (bn_mul 64 11 _ _ ltac:(lia)); [apply bn_count; lia|apply (bn_ln c lg L LOK C0); [exact N|lra]].
  - apply (bn_mul 65 11 _ _ ltac:(lia)); [apply (bn_sub 64 _ _ ltac:(lia)); apply bn_count; lia|apply ln_minus; assumption].
Qed.
Lemma geometric_finite p k : is_single p -> 0 < val p < 1 -> (Z.of_nat k <= 2 ^ 64)%Z -> (1 <= k)%nat -> is_single (geometric_ld (@mkGeometric F p) k).
Proof.
  intros N P C K. unfold geometric_ld. cbn [ge_prob]. rewrite (proj2 (Nat.leb_le 1 k) K).
  apply (bn_add 76 _ _ ltac:(lia)).
  - apply (bn_mul 65 11 _ _ ltac:(lia)); [apply (bn_sub 64 _ _ ltac:(lia)); [apply bn_count; lia|apply (bn_more 0); [apply bn_one|lia]]|apply ln_minus; assumption].
  - apply (bn_more 11); [|lia]. apply (bn_ln c lg L LOK C0); [exact N|lra].
Qed.
Lemma negbinomial_finite r p k : is_single p -> 0 < val p < 1 -> (Z.of_nat r <= 2 ^ 64)%Z -> (Z.of_nat k <= 2 ^ 64)%Z -> is_single (negbinomial_ld (@mkNegBinomial F r p) k).
Proof.
  intros N P CR CK. unfold negbinomial_ld. cbn [nb_r nb_prob]. apply (bn_add 75 _ _ ltac:(lia)).
  - apply (bn_mul 64 11 _ _ ltac:(lia)); [apply bn_count; lia|apply (bn_ln c lg L LOK C0); [exact N|lra]].
  - apply (bn_mul 64 11 _ _ ltac:(lia)); [apply bn_count; lia|apply ln_minus; assumption].
Qed.
(** The log-factorial sum stays below 2^119 whatever the number of terms. *)
Lemma absorb a b : bn 119 a -> bn 13 b -> bn 119 (f32_add a b).
Proof.
  intros [N P] [M Q]. assert (T : Rabs (val a + val b) <= bpow radix2 119 + bpow radix2 13) by (eapply Rle_trans; [apply Rabs_triang|lra]).
  assert (E : RS (bpow radix2 119 + bpow radix2 13) = bpow radix2 119).
  { rewrite <- !IZR_Zpower by lia. rewrite <- plus_IZR.
    change (IZR (radix2 ^ 119 + radix2 ^ 13)) with (IZR (2 ^ 119 + 2 ^ 13)). exact absorbed. }
  destruct (add_num a b N M) as [K V].
  - apply (RS_small _ 120); [lia|]. eapply Rle_trans; [exact T|]. change 120%Z with (1 + 119)%Z. rewrite bpow_plus. change (bpow radix2 1) with 2.
    assert (bpow radix2 13 <= bpow radix2 119) by (apply bpow_le; lia). lra.
  - split; [exact K|]. rewrite V. rewrite <- E. unfold RS. rewrite <- round_NE_abs by (apply FLT_exp_valid; exact Hprec32).
    apply round_le; [apply FLT_exp_valid; exact Hprec32|apply valid_rnd_N|exact T].
Qed.
Lemma log_fact_bounded k : (Z.of_nat k <= 2 ^ 64)%Z -> bn 119 (fold_left (fun acc i => @nadd F acc (nln (nofn i))) (seq 1 k) n0).
Proof.
  induction k as [|k IH]; intros H.
  - destruct zero_num as [N V]. split; [exact N|]. change (@fold_left F nat _ (seq 1 0) n0) with (f32_of_Z 0). rewrite V, Rabs_R0. apply bpow_ge_0.
  - rewrite seq_S, fold_left_app. cbn [fold_left]. apply absorb; [apply IH; lia|]. apply (bn_more 11); [|lia].
    assert (B : bn 64 (@nofn F (1 + k))) by (apply bn_count; lia). destruct (num_Z (Z.of_nat (1 + k))) as [N V]; [lia|].
    apply (bn_ln c lg L LOK C0); [exact N|]. change (@nofn F (1 + k)) with (f32_of_Z (Z.of_nat (1 + k))). rewrite V.
    apply Rlt_le_trans with 1; [lra|]. destruct one_num as [N1 V1]. rewrite <- V1, <- (num_format _ N1). apply round_le; [apply FLT_exp_valid; exact Hprec32|apply valid_rnd_N|].
    rewrite V1. apply IZR_le. lia.
Qed.
Lemma poisson_proper32 rate k : is_single rate -> 0 < val rate -> (Z.of_nat k <= 2 ^ 64)%Z -> proper32 (poisson_ld (@mkPoisson F rate) k) /\
  (val rate <= bpow radix2 99 -> is_single (poisson_ld (@mkPoisson F rate) k)).
Proof.
  intros N P K. unfold poisson_ld. cbn [p_rate].
  pose proof (bn_mul 64 11 _ _ ltac:(lia) (bn_count k K) (bn_ln c lg L LOK C0 rate N P)) as B1. pose proof (log_fact_bounded k K) as B2.
  set (f := fold_left _ (seq 1 k) n0) in *. clearbody f.
  split.
  - change (proper32 (f32_sub (f32_sub (f32_mul (@nofn F k) (s_ln L rate)) rate) f)). set (a := f32_mul (@nofn F k) (s_ln L rate)). assert (BA : bn 75 a) by exact B1. clearbody a.
    destruct (sub_up a rate (proj1 BA)) as [R|R]; [left; split; [exact N|lra]| |rewrite R; right; apply sub_ninf, B2].
    destruct (Rle_lt_dec 0 (val (f32_sub a rate))) as [S|S].
    + left. apply (bn_sub_wide 119 _ _ ltac:(lia)); [|exact B2]. apply (bn_more 75); [|lia]. split; [exact R|]. rewrite Rabs_pos_eq by exact S.
      destruct (sub_total a rate (proj1 BA) N) as [[_ V]|[_ [(E & _)|(E & _)]]]; [|rewrite E in R; destruct R as [_ R]; discriminate R..].
      rewrite V. assert (T : RS (val a - val rate) <= RS (val a)) by (apply round_le; [apply FLT_exp_valid; exact Hprec32|apply valid_rnd_N|lra]).
      rewrite (num_format a (proj1 BA)) in T. pose proof (Rle_abs (val a)). destruct BA as [_ BA]. lra.
    + destruct (sub_total _ f R (proj1 B2)) as [[Q _]|[_ [(_ & E & _)|(E & _)]]]; [left; exact Q|lra|right; exact E].
  - intros H. apply (bn_sub_wide 120 _ _ ltac:(lia)); [|apply (bn_more 119); [exact B2|lia]].
    apply (bn_more 100); [|lia]; apply (bn_sub 99 _ _ ltac:(lia)); [apply (bn_more 75); [exact B1|lia]|apply bn_val; [exact N|lra]].
Qed.
End Discrete.
