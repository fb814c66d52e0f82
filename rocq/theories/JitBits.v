(** Bit patterns of normal numbers and rounding towards minus infinity (used
    for C17): the exponent and significand the JIT extracts, adding to the
    exponent field, and [floor]. *)
From Coq Require Import ZArith Reals Bool List Lia Lra.
From Coq Require Import Floats.SpecFloat.
From Flocq Require Import Core IEEE754.BinarySingleNaN.
From Verif Require Import Num ConvModel FloatFacts ConvProofs JitModel JitSpec EggSpec LitFacts FloatErr.
Local Open Scope Z_scope.

#[local] Instance Hprec64 : FLX.Prec_gt_0 53 := eq_refl _.
#[local] Instance Hmax64 : Prec_lt_emax 53 1024 := eq_refl _.

(** The mantissa and exponent of a finite nonzero binary64 number. *)
Lemma valid_shape s m e : SpecFloat.valid_binary 53 1024 (S754_finite s m e) = true ->
  Zpos m < two52 + two52 /\ -1074 <= e <= 971 /\ (two52 <= Zpos m \/ e = -1074).
Proof.
  intros V. cbn [SpecFloat.valid_binary] in V. unfold SpecFloat.bounded in V. apply andb_prop in V. destruct V as [V1 V2].
  apply Z.leb_le in V2. unfold SpecFloat.canonical_mantissa in V1. apply Zeq_bool_eq in V1.
  change (Z.pos (SpecFloat.digits2_pos m)) with (Z.pos (digits2_pos m)) in V1. rewrite Digits.Zpos_digits2_pos in V1.
  unfold SpecFloat.fexp, SpecFloat.emin in V1.
  pose proof (Digits.Zdigits_correct radix2 (Zpos m)) as [D1 D2]. rewrite Z.abs_eq in D1, D2 by lia.
  set (d := Digits.Zdigits radix2 (Zpos m)) in *. change (Digits.Zdigits radix2 (Zpos m)) with d in V1.
  assert (d <= 53) by lia.
  assert (P : (radix2 ^ d <= radix2 ^ 53)) by (apply Zpower_le; lia).
  change (radix2 ^ 53) with (two52 + two52) in P.
  split; [lia|]. split; [lia|]. destruct (Z.eq_dec d 53) as [->|N].
  - left. change (radix2 ^ (53 - 1)) with two52 in D1. lia.
  - right. lia.
Qed.
Lemma shape_valid s m e : two52 <= Zpos m < two52 + two52 -> -1074 <= e <= 971 ->
  SpecFloat.valid_binary 53 1024 (S754_finite s m e) = true.
Proof.
  intros M E. cbn [SpecFloat.valid_binary]. unfold SpecFloat.bounded. apply andb_true_intro. split; [|apply Z.leb_le; lia].
  unfold SpecFloat.canonical_mantissa. apply Zeq_is_eq_bool.
  change (Z.pos (SpecFloat.digits2_pos m)) with (Z.pos (digits2_pos m)). rewrite Digits.Zpos_digits2_pos.
  assert (D : Digits.Zdigits radix2 (Zpos m) = 53).
  { apply Digits.Zdigits_unique. rewrite Z.abs_eq by lia. change (radix2 ^ (53 - 1)) with two52.
    change (radix2 ^ 53) with (two52 + two52). lia. }
  change (Digits.Zdigits Zaux.radix2 (Zpos m)) with (Digits.Zdigits radix2 (Zpos m)). rewrite D.
  unfold SpecFloat.fexp, SpecFloat.emin. lia.
Qed.

Lemma val_pos m e : val (S754_finite false m e) = (IZR (Zpos m) * bpow radix2 e)%R.
Proof. reflexivity. Qed.
Lemma two53_bpow : IZR (two52 + two52) = bpow radix2 53. Proof. reflexivity. Qed.
Lemma two52_bpow : IZR two52 = bpow radix2 52. Proof. reflexivity. Qed.

(** A positive normal number: at least 2^-1022. *)
Definition normal_pos (x : f64) : Prop := is_num x /\ (bpow radix2 (-1022) <= val x)%R.

Lemma normal_shape x : normal_pos x -> exists m e, x = S754_finite false m e /\
  two52 <= Zpos m < two52 + two52 /\ -1074 <= e <= 971.
Proof.
  intros [[V F] N]. pose proof (bpow_gt_0 radix2 (-1022)) as B.
  destruct x as [s|s| |[|] m e]; try discriminate F.
  - unfold val in N. cbn [SF2R] in N. lra.
  - exfalso. unfold val in N. cbn [SF2R] in N. unfold F2R in N. cbn [Fnum Fexp cond_Zopp] in N.
    rewrite opp_IZR in N. pose proof (bpow_gt_0 radix2 e) as B'. assert (0 < IZR (Zpos m))%R by (apply (IZR_lt 0); lia).
    assert (0 < IZR (Zpos m) * bpow radix2 e)%R by (apply Rmult_lt_0_compat; lra). lra.
  - destruct (valid_shape _ _ _ V) as (M & E & C). exists m, e. split; [reflexivity|]. split; [|exact E]. split; [|exact M].
    destruct C as [C|C]; [exact C|]. subst e. rewrite val_pos in N.
    apply Z.le_ngt. intros L. assert (IZR (Zpos m) < bpow radix2 52)%R by (rewrite <- two52_bpow; apply IZR_lt; exact L).
    assert (IZR (Zpos m) * bpow radix2 (-1074) < bpow radix2 52 * bpow radix2 (-1074))%R
      by (apply Rmult_lt_compat_r; [apply bpow_gt_0|assumption]).
    rewrite <- bpow_plus in H0. change (52 + -1074) with (-1022) in H0. lra.
Qed.

Lemma bits_normal m e : two52 <= Zpos m -> f64_bits (S754_finite false m e) = (e + 1075) * two52 + (Zpos m - two52).
Proof. intros M. unfold f64_bits. destruct (Z.ltb_spec (Zpos m) two52); lia. Qed.

Lemma field_split a b : 0 <= b < two52 -> (a * two52 + b) / two52 = a /\ (a * two52 + b) mod two52 = b.
Proof.
  intros B. assert (T : 0 < two52) by reflexivity.
  rewrite (Z.add_comm _ b), Z.div_add, Z_mod_plus_full, Z.div_small, Z.mod_small by lia. lia.
Qed.
Lemma of_bits_normal a b p : 1 <= a <= 2046 -> 0 <= b < two52 -> two52 + b = Zpos p ->
  f64_of_bits (a * two52 + b) = S754_finite false p (a - 1075).
Proof.
  intros A B P. unfold f64_of_bits. destruct (field_split a b B) as [Q R]. cbv zeta. rewrite Q, R, P.
  replace (two63 <=? a * two52 + b) with false.
  2:{ symmetry. apply Z.leb_gt. change two63 with (2048 * two52). nia. }
  rewrite Z.mod_small by lia.
  destruct (Z.eqb_spec a 0); [lia|]. destruct (Z.eqb_spec a 2047); [lia|]. reflexivity.
Qed.

(** The exponent and the significand of a positive normal number. *)
Theorem split_normal x : normal_pos x ->
  is_num (significand_of x) /\ (1 <= val (significand_of x) < 2)%R /\
  val x = (bpow radix2 (exponent_of x) * val (significand_of x))%R /\ -1022 <= exponent_of x <= 1023.
Proof.
  intros N. destruct (normal_shape x N) as (m & e & -> & M & E).
  unfold exponent_of, significand_of. rewrite (bits_normal m e) by lia.
  change (2 ^ 52) with two52. change (2 ^ 11) with 2048.
  assert (MB : 0 <= Zpos m - two52 < two52) by lia.
  destruct (field_split (e + 1075) (Zpos m - two52) MB) as [Q R]. rewrite Q, R.
  assert (EX : 1 <= e + 1075 <= 2046).
  { split; [|lia]. destruct (Z.eq_dec e (-1075)) as [->|]; [|lia]. lia. }
  rewrite Z.mod_small by lia.
  rewrite (of_bits_normal 1023 (Zpos m - two52) m) by lia. change (1023 - 1075) with (-52).
  assert (B1 : (IZR (Zpos m) < bpow radix2 53)%R) by (rewrite <- two53_bpow; apply IZR_lt; lia).
  assert (B2 : (bpow radix2 52 <= IZR (Zpos m))%R) by (rewrite <- two52_bpow; apply IZR_le; lia).
  split; [split; [apply shape_valid; lia|reflexivity]|]. rewrite !val_pos. split; [|split].
  - pose proof (bpow_gt_0 radix2 (-52)) as G. assert (P1 : (bpow radix2 52 * bpow radix2 (-52) = 1)%R).
    { rewrite <- bpow_plus. reflexivity. }
    assert (P2 : (bpow radix2 53 * bpow radix2 (-52) = 2)%R).
    { rewrite <- bpow_plus. reflexivity. }
    split; [rewrite <- P1; apply Rmult_le_compat_r; lra|rewrite <- P2; apply Rmult_lt_compat_r; lra].
  - rewrite (Rmult_comm (bpow radix2 _)), Rmult_assoc, <- bpow_plus. do 2 f_equal. lia.
  - lia.
Qed.

(** Adding to the exponent field multiplies by a power of two, as long as the
    result is a normal number. *)
Theorem shift_normal q k : normal_pos q ->
  (bpow radix2 (-1022) <= val q * bpow radix2 k)%R -> (val q * bpow radix2 k < bpow radix2 1024)%R ->
  is_num (shift_exponent q k) /\ val (shift_exponent q k) = (val q * bpow radix2 k)%R.
Proof.
  intros N. destruct (normal_shape q N) as (m & e & -> & M & E). rewrite val_pos. intros L H.
  assert (B1 : (IZR (Zpos m) < bpow radix2 53)%R) by (rewrite <- two53_bpow; apply IZR_lt; lia).
  assert (B2 : (bpow radix2 52 <= IZR (Zpos m))%R) by (rewrite <- two52_bpow; apply IZR_le; lia).
  rewrite Rmult_assoc, <- bpow_plus in L, H. pose proof (bpow_gt_0 radix2 (e + k)) as G.
  assert (E1 : -1074 <= e + k).
  { assert (X : (bpow radix2 (-1022) < bpow radix2 (53 + (e + k)))%R).
    { eapply Rle_lt_trans; [exact L|]. rewrite (bpow_plus radix2 53). apply Rmult_lt_compat_r; [exact G|exact B1]. }
    apply lt_bpow in X. lia. }
  assert (E2 : e + k <= 971).
  { assert (X : (bpow radix2 (52 + (e + k)) < bpow radix2 1024)%R).
    { eapply Rle_lt_trans; [|exact H]. rewrite (bpow_plus radix2 52). apply Rmult_le_compat_r; [apply Rlt_le, G|exact B2]. }
    apply lt_bpow in X. lia. }
  unfold shift_exponent. rewrite (bits_normal m e) by lia. change (2 ^ 52) with two52.
  replace ((e + 1075) * two52 + (Zpos m - two52) + k * two52) with ((e + k + 1075) * two52 + (Zpos m - two52)) by ring.
  rewrite Z.mod_small.
  2:{ change (2 ^ 64) with (4096 * two52). assert (0 < two52) by reflexivity. split; nia. }
  rewrite (of_bits_normal (e + k + 1075) (Zpos m - two52) m) by lia.
  replace (e + k + 1075 - 1075) with (e + k) by ring. split.
  - split; [apply shape_valid; lia|reflexivity].
  - rewrite val_pos, Rmult_assoc, <- bpow_plus. reflexivity.
Qed.

(** [floor] of a finite number. *)
Theorem floor_num x : is_num x -> is_num (f64_floor x) /\ val (f64_floor x) = IZR (Zfloor (val x)) /\
  sf_trunc (f64_floor x) = Some (Zfloor (val x)).
Proof.
  intros [V F].
  assert (T : forall y, is_num y -> forall z, val y = IZR z -> sf_trunc y = Some z).
  { intros y Y z E. destruct (num_B y Y) as (b & -> & FB & VB). rewrite sf_trunc_Ztrunc by exact FB.
    rewrite VB, E, Ztrunc_IZR. reflexivity. }
  assert (K : is_num (f64_floor x) /\ val (f64_floor x) = IZR (Zfloor (val x))).
  2:{ destruct K as [K1 K2]. split; [exact K1|]. split; [exact K2|]. apply T; assumption. }
  destruct x as [s|s| |s m e]; try discriminate F.
  - split; [split; reflexivity|]. cbn [f64_floor]. unfold val. cbn [SF2R]. rewrite (Zfloor_IZR 0). reflexivity.
  - cbn [f64_floor]. destruct (Z.leb_spec 0 e) as [L|L].
    + split; [split; [exact V|exact F]|].
      assert (E : val (S754_finite s m e) = IZR (cond_Zopp s (Zpos m) * 2 ^ e)).
      { unfold val. cbn [SF2R]. unfold F2R. cbn [Fnum Fexp]. rewrite mult_IZR. f_equal. symmetry. apply (IZR_Zpower radix2 e L). }
      rewrite E, Zfloor_IZR. reflexivity.
    + destruct (valid_shape _ _ _ V) as (M & E & _).
      set (z := (if s then Zneg m else Zpos m) / 2 ^ (- e)).
      assert (P : 2 <= 2 ^ (- e)). { change 2 with (2 ^ 1) at 1. apply Z.pow_le_mono_r; lia. }
      assert (ZB : Z.abs z <= 2 ^ 53).
      { change (2 ^ 53) with (two52 + two52). unfold z. assert (two52 = 4503599627370496) by reflexivity.
        destruct s; [change (Zneg m) with (- Zpos m)|].
        - assert (- (two52 + two52) <= - Zpos m / 2 ^ (- e)) by (apply Z.div_le_lower_bound; nia).
          assert (- Zpos m / 2 ^ (- e) < 0) by (apply Z.div_lt_upper_bound; lia). lia.
        - assert (0 <= Zpos m / 2 ^ (- e)) by (apply Z.div_pos; lia).
          assert (Zpos m / 2 ^ (- e) <= Zpos m) by (apply Z.div_le_upper_bound; nia). lia. }
      assert (FV : Zfloor (val (S754_finite s m e)) = z).
      { unfold val. cbn [SF2R]. unfold F2R. cbn [Fnum Fexp].
        replace (bpow radix2 e) with (/ IZR (2 ^ (- e)))%R.
        2:{ change (2 ^ (- e)) with (radix2 ^ (- e)). rewrite (IZR_Zpower radix2 (- e)) by lia. rewrite <- bpow_opp, Z.opp_involutive. reflexivity. }
        unfold z. destruct s; cbn [cond_Zopp]; apply Zfloor_div; lia. }
      rewrite FV.
      assert (ER : F2R (Float radix2 z 0) = IZR z) by (unfold F2R; cbn; ring).
      assert (SZ : SpecFloat.binary_normalize f64_prec f64_emax z 0 s = SpecFloat.binary_normalize f64_prec f64_emax z 0 false \/ z = 0).
      { destruct z; [right|left|left]; reflexivity. }
      destruct SZ as [SZ|SZ].
      2:{ rewrite SZ. split; [split; destruct s; reflexivity|]. destruct s; reflexivity. }
      rewrite SZ. destruct (norm_exact 53 1024 Hprec64 Hmax64 z 0) as (b & A & B & C & _).
      * rewrite ER. apply int_format, ZB.
      * rewrite ER, <- abs_IZR. rewrite <- (IZR_Zpower radix2 1024) by lia.
        apply IZR_lt. apply Z.le_lt_trans with (2 ^ 53); [exact ZB|]. reflexivity.
      * unfold f64_prec, f64_emax. rewrite A. destruct (is_num_B b B) as [N VB]. split; [exact N|]. rewrite VB, C. exact ER.
Qed.
