(** The binary32 instance operation by operation, and the beta log-partition (C72). *)
From Coq Require Import ZArith Reals Bool String List Lia Lra.
From Coq Require Import Floats.SpecFloat.
From Flocq Require Import Core IEEE754.BinarySingleNaN.
From Verif Require Import Num EggSpec FloatFacts DensitySpec CoreModel CombModel ExpFamModel ConvModel DistModel DistSpec RoundSpec.
From Verif Require LitFacts FloatErr RelErr DistFloat JitAcc RoundProofs.
From Verif Require Import SingleModel SingleSpec SingleErr SingleFloat SingleFloat2.
Import ListNotations.
Local Open Scope R_scope.

#[local] Instance Hprec32 : FLX.Prec_gt_0 24 := eq_refl _.
#[local] Instance Hmax32 : Prec_lt_emax 24 128 := eq_refl _.

Lemma sqrt_single x : is_single x -> 0 <= val x -> is_single (f32_sqrt x) /\ val (f32_sqrt x) = RS (sqrt (val x)).
Proof.
  intros N P. destruct (num_B x N) as (b & -> & F & V). rewrite <- V in *. unfold f32_sqrt. rewrite (sqrt_equiv 24 128 Hprec32 Hmax32).
  destruct (Bsqrt_correct 24 128 Hprec32 Hmax32 mode_NE b) as (C1 & C2 & _).
  change (round radix2 (SpecFloat.fexp 24 128) (round_mode mode_NE)) with RS in C1.
  assert (FF : is_finite (Bsqrt mode_NE b) = true).
  { destruct b as [s|s| |s m e Hb]; try discriminate F; [exact C2|]. destruct s; [|exact C2]. exfalso. cbn in P.
    apply (Rlt_not_le _ _ (F2R_lt_0 radix2 (Float radix2 (Z.neg m) e) eq_refl)). exact P. }
  destruct (is_num_B _ FF) as [M W]. split; [exact M|]. rewrite W. exact C1.
Qed.
Lemma SFeqb_num u v : is_single u -> is_single v -> SFeqb u v = Req_bool (val u) (val v).
Proof.
  intros N M. destruct (num_B u N) as (a & -> & A & <-), (num_B v M) as (b & -> & B & <-).
  exact (Beqb_correct 24 128 a b A B).
Qed.

Section Ops.
Context (L : libm32).
Notation F := (F32 L).
Lemma arithmetic a b : is_single a -> is_single b ->
  (Rabs (RS (val a + val b)) < bpow radix2 128 -> is_single (@nadd F a b) /\ val (@nadd F a b) = RS (val a + val b)) /\
  (Rabs (RS (val a - val b)) < bpow radix2 128 -> is_single (@nsub F a b) /\ val (@nsub F a b) = RS (val a - val b)) /\
  (Rabs (RS (val a * val b)) < bpow radix2 128 -> is_single (@nmul F a b) /\ val (@nmul F a b) = RS (val a * val b)) /\
  (val b <> 0 -> Rabs (RS (val a / val b)) < bpow radix2 128 -> is_single (@ndiv F a b) /\ val (@ndiv F a b) = RS (val a / val b)) /\
  (0 <= val a -> is_single (@nsqrt F a) /\ val (@nsqrt F a) = RS (sqrt (val a))) /\
  (is_single (@nneg F a) /\ val (@nneg F a) = - val a) /\ (is_single (@nabs F a) /\ val (@nabs F a) = Rabs (val a)) /\
  (@nltb F a b = true <-> val a < val b) /\ (@nleb F a b = true <-> val a <= val b) /\ (@neqb F a b = true <-> val a = val b).
Proof.
  intros A B. repeat match goal with |- _ /\ _ => split end; cbn [F32 nadd nsub nmul ndiv nsqrt nneg nabs nltb nleb neqb].
  - apply add_num; assumption.
  - apply sub_num; assumption.
  - apply mul_num; assumption.
  - apply div_num; assumption.
  - apply sqrt_single; assumption.
  - apply neg_num, A.
  - apply neg_num, A.
  - apply abs_single, A.
  - apply abs_single, A.
  - rewrite (SFltb_num _ _ A B). destruct (Rlt_bool_spec (val a) (val b)); split; intros; try discriminate; auto; lra.
  - rewrite (SFleb_num _ _ A B). destruct (Rle_bool_spec (val a) (val b)); split; intros; try discriminate; auto; lra.
  - rewrite (SFeqb_num _ _ A B). destruct (Req_bool_spec (val a) (val b)); split; intros; try discriminate; auto; lra.
Qed.
(** Literals: an integer exactly, pi and other numbers from the [f64] literal. *)
Lemma round_pi : RS PI = IZR 13176795 / IZR (2 ^ 22).
Proof.
  pose proof pi_bounds as PB. unfold RS, round, scaled_mantissa, cexp.
  rewrite (mag_unique radix2 PI 2) by (cbn -[PI]; rewrite Rabs_pos_eq by lra; lra).
  change (FLT_exp (-149) 24 2) with (-22)%Z. unfold F2R. cbn [Fnum Fexp].
  replace (ZnearestE (PI * bpow radix2 (- -22))) with 13176795%Z.
  - change (bpow radix2 (-22)) with (/ IZR (2 ^ 22)). reflexivity.
  - symmetry. apply Znearest_imp. change (bpow radix2 (- -22)) with 4194304. apply Rabs_lt. lra.
Qed.
Lemma literals : (forall z, (Z.abs z <= 2 ^ 24)%Z -> is_single (@ndec F z 1) /\ val (@ndec F z 1) = IZR z) /\
  (forall m d, (1 < d)%positive -> (Z.abs m <= 2 ^ 53)%Z -> (Zpos d <= 2 ^ 53)%Z ->
    is_single (@ndec F m d) /\ val (@ndec F m d) = RS (RN (IZR m / IZR (Zpos d)))) /\
  is_single (@npi F) /\ val (@npi F) = RS PI.
Proof.
  split; [apply num_int|]. split.
  - intros m d D M B. assert (E : @ndec F m d = narrow (f64_div (f64_of_Z m) (f64_of_Z (Zpos d)))) by (destruct d; try lia; reflexivity).
    rewrite E. destruct (DistFloat.num_int m M) as [N1 V1]. destruct (DistFloat.num_int (Zpos d)) as [N2 V2]; [lia|].
    assert (P : 1 <= IZR (Zpos d)) by (apply IZR_le; lia).
    assert (Q : Rabs (IZR m / IZR (Zpos d)) <= bpow radix2 53).
    { unfold Rdiv. rewrite Rabs_mult, Rabs_inv, (Rabs_pos_eq (IZR (Zpos d))) by lra.
      apply Rle_trans with (Rabs (IZR m) * 1); [|rewrite Rmult_1_r, <- abs_IZR; change (bpow radix2 53) with (IZR (2 ^ 53)); apply IZR_le, M].
      apply Rmult_le_compat_l; [apply Rabs_pos|]. rewrite <- Rinv_1. apply Rinv_le_contravar; lra. }
    assert (R : Rabs (RN (IZR m / IZR (Zpos d))) <= bpow radix2 53) by (apply LitFacts.RN_abs_bpow; [lia|exact Q]).
    destruct (FloatErr.div_num (f64_of_Z m) (f64_of_Z (Zpos d)) N1 N2) as [N V]; rewrite ?V1, ?V2; [lra| |].
    { eapply Rle_lt_trans; [exact R|]. apply bpow_lt. lia. }
    rewrite V1, V2 in V. rewrite <- V in R |- *. apply narrow_num; [exact N|]. apply (RS_small _ 53); [lia|exact R].
  - change (is_single f32_pi /\ val f32_pi = RS PI). rewrite round_pi. split; [exact num_pi|exact val_pi].
Qed.
(** The library functions behind the operations. *)
Lemma functions c lg : libm32_ok c lg L ->
  (forall x, is_single x -> 0 < val x -> within32 c (Rabs (ln (val x)) + small32) (ln (val x)) (@nln F x)) /\
  (forall x, is_single x -> val x <= 88 -> within32 c (exp (val x) + small32) (exp (val x)) (@nexp F x)) /\
  (forall x, is_single x -> 0 < val x -> Rabs (lg (val x)) <= big32 -> within32 c (1 + Rabs (lg (val x))) (lg (val x)) (@nlgamma F x)).
Proof. intros [A B C]. split; [exact A|]. split; [exact B|exact C]. Qed.
End Ops.

(** * The beta log-partition *)
Lemma beta_partition_single c lg L a b : libm_ok c lg (s_double L) -> 0 <= c <= 1000000 -> is_single a -> is_single b -> 0 < val a -> 0 < val b ->
  val (f64_add (widen a) (widen b)) = val a + val b -> FloatErr.is_num (f64_add (widen a) (widen b)) ->
  Rabs (lg (val a)) <= huge32 -> Rabs (lg (val b)) <= huge32 -> Rabs (lg (val a + val b)) <= huge32 ->
  within32 1 (Rabs (lg (val a)) + Rabs (lg (val b)) + Rabs (lg (val a + val b)) + 3) (lg (val a) + lg (val b) - lg (val a + val b)) (beta_partition32 L a b).
Proof.
  intros LOK C0 NA NB PA PB EX NS GA GB GS. destruct (widen_num a NA) as [WA VA]. destruct (widen_num b NB) as [WB VB].
  assert (HH : huge32 <= huge) by (unfold huge32, huge; apply bpow_le; lia).
  pose proof (DistFloat.acc_lg c lg (s_double L) LOK (widen a) WA ltac:(rewrite VA; lra) ltac:(rewrite VA; lra)) as A1. rewrite VA in A1.
  pose proof (DistFloat.acc_lg c lg (s_double L) LOK (widen b) WB ltac:(rewrite VB; lra) ltac:(rewrite VB; lra)) as A2. rewrite VB in A2.
  pose proof (DistFloat.acc_lg c lg (s_double L) LOK _ NS ltac:(rewrite EX; lra) ltac:(rewrite EX; lra)) as A3. rewrite EX in A3.
  pose proof (Rabs_pos (lg (val a))). pose proof (Rabs_pos (lg (val b))). pose proof (Rabs_pos (lg (val a + val b))).
  pose proof DistFloat.huge_big. pose proof DistFloat.huge_one.
  assert (H126 : 3 * huge32 + 3 <= bpow radix2 126).
  { unfold huge32. assert (E : bpow radix2 126 = bpow radix2 36 * bpow radix2 90) by (rewrite <- bpow_plus; reflexivity). rewrite E.
    assert (1 <= bpow radix2 90) by (change 1 with (bpow radix2 0); apply bpow_le; lia). change (bpow radix2 36) with 68719476736. lra. }
  unfold beta_partition32. apply (narrow_acc c); [|exact C0|lra].
  pose proof (RelErr.acc_add _ _ _ _ _ _ _ A1 A2 ltac:(lra) ltac:(apply DistFloat.keps; lra) ltac:(lra)) as A12.
  assert (A3' : RelErr.acc (c + 1) (1 + Rabs (lg (val a + val b))) (lg (val a + val b)) (l_lgamma (s_double L) (f64_add (widen a) (widen b)))) by (eapply RelErr.acc_more; [exact A3|lra|lra]).
  eapply RelErr.acc_more; [apply (RelErr.acc_sub _ _ _ _ _ _ _ A12 A3'); try lra; apply DistFloat.keps; lra|lra|lra].
Qed.
(** The sum of two numbers between 2^-20 and 2^8 is exact in [f64]. *)
Lemma single_multiple x e : is_single x -> bpow radix2 (e + 24) <= val x -> exists m, val x = IZR m * bpow radix2 e.
Proof.
  intros N H. destruct (single_shape x N) as (m & f & V & M & E). pose proof (bpow_gt_0 radix2 f) as PF.
  assert (Q : (e <= f)%Z).
  { apply Z.nlt_ge. intros Q. assert (IZR m < bpow radix2 24) by (change (bpow radix2 24) with (IZR (2 ^ 24)); apply IZR_lt; lia).
    assert (val x < bpow radix2 24 * bpow radix2 e).
    { rewrite V. apply Rlt_le_trans with (bpow radix2 24 * bpow radix2 f); [apply Rmult_lt_compat_r; lra|]. apply Rmult_le_compat_l; [apply bpow_ge_0|apply bpow_le; lia]. }
    rewrite <- bpow_plus in H1. replace (24 + e)%Z with (e + 24)%Z in H1 by lia. lra. }
  exists (m * 2 ^ (f - e))%Z. rewrite V, mult_IZR. change (2 ^ (f - e))%Z with (radix2 ^ (f - e))%Z. rewrite IZR_Zpower by lia.
  rewrite Rmult_assoc, <- bpow_plus. do 2 f_equal. lia.
Qed.
Lemma sum_exact_double a b : is_single a -> is_single b -> bpow radix2 (-20) <= val a <= bpow radix2 8 -> bpow radix2 (-20) <= val b <= bpow radix2 8 ->
  FloatErr.is_num (f64_add (widen a) (widen b)) /\ val (f64_add (widen a) (widen b)) = val a + val b.
Proof.
  intros NA NB [A1 A2] [B1 B2]. destruct (widen_num a NA) as [WA VA]. destruct (widen_num b NB) as [WB VB].
  destruct (single_multiple a (-44) NA A1) as [m M]. destruct (single_multiple b (-44) NB B1) as [n N].
  pose proof (bpow_gt_0 radix2 (-20)) as P20. pose proof (bpow_gt_0 radix2 (-44)) as P44.
  assert (S : val a + val b <= bpow radix2 9) by (change 9%Z with (8 + 1)%Z; rewrite bpow_plus; change (bpow radix2 1) with 2; lra).
  assert (R : RN (val a + val b) = val a + val b).
  { assert (V : val a + val b = IZR (m + n) * bpow radix2 (-44)) by (rewrite M, N, plus_IZR; ring).
    assert (U : IZR (m + n) <= bpow radix2 53).
    { apply (Rmult_le_reg_r (bpow radix2 (-44))); [exact P44|]. rewrite <- V, <- bpow_plus. exact S. }
    assert (U0 : 0 < IZR (m + n)) by (apply (Rmult_lt_reg_r (bpow radix2 (-44))); [exact P44|]; rewrite <- V; lra).
    apply round_generic; [apply valid_rnd_N|]. rewrite V. destruct (Req_dec (IZR (m + n)) (bpow radix2 53)) as [E|E].
    - rewrite E, <- bpow_plus. apply generic_format_bpow. unfold FLT_exp. lia.
    - apply generic_format_FLT. apply FLT_spec with (Float radix2 (m + n) (-44)); [reflexivity| |cbn [Fexp]; lia]. cbn [Fnum].
      apply lt_IZR in U0. assert (m + n < 2 ^ 53)%Z; [|change (radix2 ^ 53)%Z with (2 ^ 53)%Z; lia].
      apply lt_IZR. change (IZR (2 ^ 53)) with (bpow radix2 53). lra. }
  destruct (FloatErr.add_num (widen a) (widen b) WA WB) as [X Y]; rewrite ?VA, ?VB in *.
  - rewrite R, Rabs_pos_eq by lra. eapply Rle_lt_trans; [exact S|]. apply bpow_lt. lia.
  - split; [exact X|]. rewrite Y. exact R.
Qed.

(** * Constructors and points outside the support *)
Section Guards.
Context (L : libm32).
Notation F := (F32 L).
Lemma zero_lt (a : f32) : is_single a -> @nltb F n0 a = Rlt_bool 0 (val a).
Proof. intros N. destruct zero_num as [N0 V0]. change (SFltb (f32_of_Z 0) a = Rlt_bool 0 (val a)). rewrite (SFltb_num _ _ N0 N), V0. reflexivity. Qed.
Lemma zero_le (a : f32) : is_single a -> @nleb F n0 a = Rle_bool 0 (val a).
Proof. intros N. destruct zero_num as [N0 V0]. change (SFleb (f32_of_Z 0) a = Rle_bool 0 (val a)). rewrite (SFleb_num _ _ N0 N), V0. reflexivity. Qed.
Lemma lt_one (a : f32) : is_single a -> @nltb F a n1 = Rlt_bool (val a) 1.
Proof. intros N. destruct one_num as [N0 V0]. change (SFltb a (f32_of_Z 1) = Rlt_bool (val a) 1). rewrite (SFltb_num _ _ N N0), V0. reflexivity. Qed.
Lemma le_one (a : f32) : is_single a -> @nleb F a n1 = Rle_bool (val a) 1.
Proof. intros N. destruct one_num as [N0 V0]. change (SFleb a (f32_of_Z 1) = Rle_bool (val a) 1). rewrite (SFleb_num _ _ N N0), V0. reflexivity. Qed.
Lemma constructors (a b : f32) (n : nat) : is_single a -> is_single b ->
  (@normal_new F a b = (if Rlt_dec 0 (val b) then Some (@mkNormal F a b) else None)) /\
  (@exponential_new F b = (if Rlt_dec 0 (val b) then Some (@mkExponential F b) else None)) /\
  (@gamma_new F a b = (if Rlt_dec 0 (val a) then if Rlt_dec 0 (val b) then Some (@mkGamma F a b) else None else None)) /\
  (@beta_new F a b = (if Rlt_dec 0 (val a) then if Rlt_dec 0 (val b) then Some (@mkBeta F a b) else None else None)) /\
  (@chi_new F b = (if Rlt_dec 0 (val b) then Some (@mkChi F b) else None)) /\
  (@student_new F b = (if Rlt_dec 0 (val b) then Some (@mkStudent F b) else None)) /\
  (@cauchy_new F a b = (if Rlt_dec 0 (val b) then Some (@mkCauchy F a b) else None)) /\
  (@poisson_new F b = (if Rlt_dec 0 (val b) then Some (@mkPoisson F b) else None)) /\
  (@bernoulli_new F b = (if Rle_dec 0 (val b) then if Rle_dec (val b) 1 then Some (@mkBernoulli F b) else None else None)) /\
  (@binomial_new F n b = (if Rle_dec 0 (val b) then if Rle_dec (val b) 1 then Some (@mkBinomial F n b) else None else None)) /\
  (@geometric_new F b = (if Rlt_dec 0 (val b) then if Rle_dec (val b) 1 then Some (@mkGeometric F b) else None else None)) /\
  (@negbinomial_new F n b = (if Nat.eqb n 0 then None else if Rlt_dec 0 (val b) then if Rlt_dec (val b) 1 then Some (@mkNegBinomial F n b) else None else None)).
Proof.
  intros A B. unfold normal_new, exponential_new, gamma_new, beta_new, chi_new, student_new, cauchy_new, poisson_new, bernoulli_new, binomial_new, geometric_new, negbinomial_new.
  rewrite ?(zero_lt _ A), ?(zero_lt _ B), ?(zero_le _ B), ?(lt_one _ B), ?(le_one _ B).
  repeat match goal with |- _ /\ _ => split end;
    repeat match goal with
      | |- context [Rlt_bool ?a ?b] => destruct (Rlt_bool_spec a b)
      | |- context [Rle_bool ?a ?b] => destruct (Rle_bool_spec a b)
      | |- context [Rlt_dec ?a ?b] => destruct (Rlt_dec a b)
      | |- context [Rle_dec ?a ?b] => destruct (Rle_dec a b)
      | |- context [Nat.ltb 0 n] => destruct n as [|n']; cbn [Nat.ltb Nat.leb Nat.eqb]
      end; cbn [andb]; try reflexivity; lra.
Qed.
Lemma outside (x p : f32) (a b : f32) (n k : nat) : is_single x ->
  (val x < 0 -> exponential_ld (@mkExponential F a) x = S754_infinity true) /\
  (val x <= 0 -> gamma_ld (@mkGamma F a b) x = S754_infinity true) /\
  (val x <= 0 \/ 1 <= val x -> beta_ld (@mkBeta F a b) x = S754_infinity true) /\
  (val x <= 0 -> chi_ld (@mkChi F a) x = S754_infinity true) /\
  ((1 < k)%nat -> bernoulli_ld (@mkBernoulli F p) k = S754_infinity true) /\
  ((n < k)%nat -> binomial_ld (@mkBinomial F n p) k = S754_infinity true) /\
  (geometric_ld (@mkGeometric F p) 0 = S754_infinity true) /\
  (forall ps : list f32, (length ps <= k)%nat -> categorical_ld (@mkCategorical F ps) k = S754_infinity true) /\
  ((n < k)%nat -> log_binomial_coefficient32 L n k = S754_infinity true).
Proof.
  intros X. unfold exponential_ld, gamma_ld, beta_ld, chi_ld, binomial_ld, categorical_ld, log_binomial_coefficient32.
  rewrite ?(zero_lt _ X), ?(zero_le _ X), ?(lt_one _ X). repeat match goal with |- _ /\ _ => split end.
  - intros H. rewrite Rle_bool_false by lra. reflexivity.
  - intros H. rewrite Rlt_bool_false by lra. reflexivity.
  - intros [H|H]; [rewrite (Rlt_bool_false 0) by lra|rewrite (Rlt_bool_false (val x)), andb_false_r by lra]; reflexivity.
  - intros H. rewrite Rlt_bool_false by lra. reflexivity.
  - intros H. destruct k as [|[|k]]; [lia|lia|reflexivity].
  - intros H. cbn [bi_n]. rewrite (proj2 (Nat.leb_gt k n)) by lia. reflexivity.
  - reflexivity.
  - intros ps H. apply Nat.ltb_ge in H. change ((if Nat.ltb k (length ps) then s_ln L (nth k ps (f32_of_Z 0)) else S754_infinity true) = S754_infinity true). rewrite H. reflexivity.
  - intros H. rewrite (proj2 (Nat.ltb_lt n k)) by lia. reflexivity.
Qed.
End Guards.
