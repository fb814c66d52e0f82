(** What a constant is after the text round trip. *)
From Coq Require Import ZArith Reals Bool List Lia Lra.
From Coq Require Import Floats.SpecFloat.
From Flocq Require Import Core IEEE754.BinarySingleNaN.
From Verif Require Import Num ExprModel ExprSpec FloatFacts JitModel EggModel EggSpec EggText LitFacts.
Local Open Scope R_scope.

#[local] Instance Hprec64 : FLX.Prec_gt_0 53 := eq_refl _.
#[local] Instance Hmax64 : Prec_lt_emax 53 1024 := eq_refl _.

Lemma Znearest_IZR k : ZnearestE (IZR k) = k.
Proof. apply Zrnd_IZR. apply valid_rnd_N. Qed.

Lemma tenths_spec m e : tenths m e = ZnearestE (10 * F2R (Float radix2 (Zpos m) e)).
Proof.
  unfold tenths. destruct (Z.leb_spec 0 e) as [E|E].
  - replace (10 * F2R (Float radix2 (Zpos m) e)) with (IZR (10 * (Zpos m * 2 ^ e))).
    + symmetry. apply Znearest_IZR.
    + unfold F2R. cbn [Fnum Fexp]. rewrite !mult_IZR. change 2%Z with (radix_val radix2).
      rewrite IZR_Zpower by exact E. reflexivity.
  - cbv zeta. set (d := (2 ^ (- e))%Z).
    assert (D : (0 < d)%Z) by (apply Z.pow_pos_nonneg; lia).
    assert (DR : 0 < IZR d) by (apply IZR_lt; exact D).
    assert (X : 10 * F2R (Float radix2 (Zpos m) e) = IZR (10 * Zpos m) / IZR d).
    { unfold F2R. cbn [Fnum Fexp]. replace e with (- (- e))%Z at 1 by lia. rewrite bpow_opp.
      rewrite mult_IZR. unfold d. change 2%Z with (radix_val radix2).
      rewrite IZR_Zpower by lia. unfold Rdiv. ring. }
    rewrite X. set (n := (10 * Zpos m)%Z).
    pose proof (Z.div_mod n d ltac:(lia)) as Q. pose proof (Z.mod_pos_bound n d D) as M.
    assert (F : Zfloor (IZR n / IZR d) = (n / d)%Z) by (apply Zfloor_div; lia).
    assert (Y : IZR n / IZR d = IZR (n / d) + IZR (n mod d) / IZR d).
    { rewrite Q at 1. rewrite plus_IZR, mult_IZR. field. lra. }
    unfold Znearest. rewrite F.
    replace (IZR n / IZR d - IZR (n / d)) with (IZR (n mod d) / IZR d) by (rewrite Y; ring).
    assert (C : (n mod d <> 0)%Z -> Zceil (IZR n / IZR d) = (n / d + 1)%Z).
    { intros NZ. apply Zceil_imp. rewrite Y, plus_IZR, minus_IZR, plus_IZR.
      assert (0 < IZR (n mod d) / IZR d) by (apply Rdiv_lt_0_compat; [apply IZR_lt; lia|exact DR]).
      assert (IZR (n mod d) / IZR d < 1).
      { apply Rmult_lt_reg_r with (IZR d); [exact DR|]. unfold Rdiv. rewrite Rmult_assoc, Rinv_l by lra.
        rewrite Rmult_1_r, Rmult_1_l. apply IZR_lt. lia. }
      lra. }
    assert (K : Rcompare (IZR (n mod d) / IZR d) (/ 2) = (2 * (n mod d) ?= d)%Z).
    { rewrite <- (Rcompare_mult_r (2 * IZR d)) by lra.
      replace (IZR (n mod d) / IZR d * (2 * IZR d)) with (IZR (2 * (n mod d))) by (rewrite mult_IZR; field; lra).
      replace (/ 2 * (2 * IZR d)) with (IZR d) by field. apply Rcompare_IZR. }
    rewrite K. destruct (Z.compare_spec (2 * (n mod d)) d) as [G|G|G].
    + rewrite C by lia. destruct (Z.even (n / d)); reflexivity.
    + reflexivity.
    + rewrite C by lia. reflexivity.
Qed.

Lemma ZnearestE_opp x : ZnearestE (- x) = (- ZnearestE x)%Z.
Proof.
  rewrite Znearest_opp. f_equal. unfold Znearest.
  destruct (Rcompare (x - IZR (Zfloor x)) (/ 2)) eqn:E; try reflexivity.
  replace (Z.even (- (Zfloor x + 1))) with (negb (Z.even (Zfloor x))).
  - destruct (Z.even (Zfloor x)); reflexivity.
  - rewrite Z.even_opp, Z.even_add. cbn. destruct (Z.even (Zfloor x)); reflexivity.
Qed.

(** The nearest multiple of 1/10 rounds without overflow. *)
Lemma tenth_in_range c : SpecFloat.valid_binary 53 1024 c = true ->
  Rabs (RN (IZR (ZnearestE (10 * val c)) / 10)) < bpow radix2 1024.
Proof.
  intros V. destruct c as [s|s| |s m e];
    try (unfold val; cbn [SF2R]; rewrite Rmult_0_r; rewrite (Znearest_IZR 0); unfold Rdiv;
         rewrite Rmult_0_l, RN_0, Rabs_R0; apply bpow_gt_0).
  destruct (Z.leb_spec 0 e) as [E|E].
  - (* an integer: exact *)
    assert (X : IZR (ZnearestE (10 * val (S754_finite s m e))) / 10 = val (S754_finite s m e)).
    { replace (10 * val (S754_finite s m e)) with (IZR (10 * (cond_Zopp s (Zpos m) * 2 ^ e))).
      - rewrite Znearest_IZR. rewrite !mult_IZR. unfold val, SF2R, F2R. cbn [Fnum Fexp].
        change 2%Z with (radix_val radix2). rewrite IZR_Zpower by exact E. field.
      - rewrite !mult_IZR. unfold val, SF2R, F2R. cbn [Fnum Fexp].
        change 2%Z with (radix_val radix2). rewrite IZR_Zpower by exact E. reflexivity. }
    rewrite X, RN_val by exact V. apply valid_abs. exact V.
  - (* below 2^53 *)
    assert (B : Rabs (val (S754_finite s m e)) < bpow radix2 53).
    { unfold val, SF2R. rewrite <- F2R_Zabs, abs_cond_Zopp. cbn [Z.abs].
      assert (M : (Zpos m < 2 ^ 53)%Z).
      { cbn [SpecFloat.valid_binary] in V. unfold SpecFloat.bounded in V. apply andb_prop in V. destruct V as [V _].
        unfold SpecFloat.canonical_mantissa in V. apply Zeq_bool_eq in V. unfold SpecFloat.fexp in V.
        assert (D : (Zpos (SpecFloat.digits2_pos m) <= 53)%Z) by lia.
        rewrite <- Digits.Zpos_digits2_pos || idtac.
        pose proof (Digits.Zdigits_correct radix2 (Zpos m)) as G.
        rewrite <- Digits.Zpos_digits2_pos in G. cbn [Z.abs] in G. destruct G as [_ G].
        eapply Z.lt_le_trans; [exact G|]. apply (Z.pow_le_mono_r 2); [lia|].
        change Digits.digits2_pos with SpecFloat.digits2_pos. exact D. }
      unfold F2R. cbn [Fnum Fexp]. replace (bpow radix2 53) with (IZR (2 ^ 53)) by reflexivity.
      apply Rle_lt_trans with (IZR (Zpos m) * 1).
      - apply Rmult_le_compat_l; [apply IZR_le; lia|]. change 1 with (bpow radix2 0). apply bpow_le. lia.
      - rewrite Rmult_1_r. apply IZR_lt. exact M. }
    apply Rle_lt_trans with (bpow radix2 54); [|apply bpow_lt; lia].
    apply RN_abs_bpow; [lia|].
    set (x := val (S754_finite s m e)) in *.
    pose proof (Znearest_half (fun x => negb (Z.even x)) (10 * x)) as H.
    apply Rabs_lt_inv in B. apply Rabs_le_inv in H. apply Rabs_le.
    replace (bpow radix2 54) with (2 * bpow radix2 53) by (unfold bpow; simpl; lra).
    assert (1 <= bpow radix2 53) by (change 1 with (bpow radix2 0); apply bpow_le; lia).
    lra.
Qed.

Lemma valid_opp c : SpecFloat.valid_binary 53 1024 (SFopp c) = SpecFloat.valid_binary 53 1024 c.
Proof. destruct c; reflexivity. Qed.
Lemma finite_opp c : is_finite_SF (SFopp c) = is_finite_SF c.
Proof. destruct c; reflexivity. Qed.
Lemma val_opp c : val (SFopp c) = - val c.
Proof.
  destruct c as [s|s| |s m e]; unfold val; cbn [SFopp SF2R]; try lra.
  rewrite <- F2R_Zopp. destruct s; reflexivity.
Qed.
Lemma sign_opp c : finite c -> sign_SF (SFopp c) = negb (sign_SF c).
Proof. destruct c; try discriminate; reflexivity. Qed.

Lemma reread_one_decimal c : SpecFloat.valid_binary 53 1024 c = true -> one_decimal c (reread c).
Proof.
  intros V. split; intros F.
  2:{ destruct c; try reflexivity; exfalso; apply F; reflexivity. }
  destruct c as [s|s| |s m e]; try discriminate F.
  - repeat split. unfold val. cbn [reread SF2R]. rewrite Rmult_0_r, (Znearest_IZR 0).
    unfold Rdiv. rewrite Rmult_0_l, RN_0. reflexivity.
  - pose proof (tenth_in_range _ V) as G. cbn [reread]. cbv zeta.
    assert (T0 : (0 <= tenths m e)%Z) by apply tenths_nonneg.
    assert (X : val (S754_finite false m e) = F2R (Float radix2 (Zpos m) e)) by reflexivity.
    destruct s.
    + assert (W : val (S754_finite true m e) = - F2R (Float radix2 (Zpos m) e)).
      { unfold val, SF2R. rewrite <- F2R_Zopp. reflexivity. }
      rewrite W in G |- *. rewrite Ropp_mult_distr_r_reverse, ZnearestE_opp, <- tenths_spec, opp_IZR in G |- *.
      replace (- IZR (tenths m e) / 10) with (- (IZR (tenths m e) / 10)) in G |- * by (unfold Rdiv; ring).
      rewrite RN_opp, Rabs_Ropp in G. rewrite RN_opp.
      destruct (f64_lit_correct (tenths m e) 10 G) as (A1 & A2 & A3 & A4).
      rewrite valid_opp, val_opp, A4. unfold finite. rewrite finite_opp, sign_opp by exact A2.
      rewrite A3. repeat split; try assumption. apply negb_true_iff. apply Z.ltb_ge. exact T0.
    + rewrite X in G |- *. rewrite <- tenths_spec in G |- *.
      destruct (f64_lit_correct (tenths m e) 10 G) as (A1 & A2 & A3 & A4).
      repeat split; try assumption. rewrite A3. apply Z.ltb_ge. exact T0.
Qed.

Lemma reread_all_related e : f64_constants e -> consts_related one_decimal e (reread_all e).
Proof.
  induction e; cbn [f64_constants reread_all]; intros H; try match type of H with _ /\ _ => destruct H as [H1 H2] end; constructor; auto using reread_one_decimal.
Qed.

(** Constants that survive. *)
Definition survives (c : f64) : Prop := finite c -> val c = RN (IZR (ZnearestE (10 * val c)) / 10).

Lemma reread_fixed c : SpecFloat.valid_binary 53 1024 c = true -> reread c = c <-> survives c.
Proof.
  intros V. destruct (reread_one_decimal c V) as [P Q]. split.
  - intros E F. destruct (P F) as (_ & _ & _ & A). rewrite E in A. exact A.
  - intros S'. destruct (is_finite_SF c) eqn:F.
    + destruct (P F) as (A1 & A2 & A3 & A4). apply val_inj; try assumption.
      rewrite A4. symmetry. apply S'. exact F.
    + apply Q. unfold finite. rewrite F. discriminate.
Qed.

Lemma reread_all_fixed e : f64_constants e ->
  reread_all e = e <-> (forall c, constant_of c e -> survives c).
Proof.
  unfold constant_of. induction e; cbn [f64_constants reread_all subexprs]; intros H.
  { split.
    + intros E c' [D|[]]. injection D as ->. apply reread_fixed; [exact H|]. congruence.
    + intros K. f_equal. apply reread_fixed; [exact H|]. apply K. left. reflexivity. }
  { split; [|reflexivity]. intros _ c [D|[]]. discriminate D. }
  all: try (destruct H as [H1 H2]; specialize (IHe1 H1); specialize (IHe2 H2); split;
    [ intros E; injection E as E1 E2; intros c [D|D]; [discriminate D|]; apply in_app_or in D; destruct D as [D|D];
      [apply (proj1 IHe1 E1); exact D|apply (proj1 IHe2 E2); exact D]
    | intros K; f_equal; [apply IHe1|apply IHe2]; intros c D; apply K; right; apply in_or_app; auto ]).
  all: specialize (IHe H); split;
    [ intros E; injection E as E1; intros c [D|D]; [discriminate D|]; exact (proj1 IHe E1 c D)
    | intros K; f_equal; apply IHe; intros c D; apply K; right; exact D ].
Qed.

(** Integers survive. *)
Lemma integer_survives c k : SpecFloat.valid_binary 53 1024 c = true -> val c = IZR k -> survives c.
Proof.
  intros V E _. rewrite E at 2. rewrite <- mult_IZR, Znearest_IZR, mult_IZR.
  replace (10 * IZR k / 10) with (IZR k) by field. rewrite <- E. symmetry. apply RN_val. exact V.
Qed.

(** Numbers written with one decimal and not too large survive. *)
Lemma tenth_survives c k : val c = RN (IZR k / 10) -> (Z.abs k <= 2 ^ 50)%Z -> survives c.
Proof.
  intros E K _. assert (Z : ZnearestE (10 * val c) = k).
  { apply Znearest_imp. rewrite E.
    assert (B : Rabs (IZR k / 10) < bpow radix2 48).
    { unfold Rdiv. rewrite Rabs_mult, (Rabs_right (/ 10)) by lra. rewrite <- abs_IZR.
      apply IZR_le in K. change (IZR (2 ^ 50)) with (4 * IZR (2^48)) in K || idtac.
      replace (IZR (2 ^ 50)) with (4 * bpow radix2 48) in K by (unfold bpow; simpl; lra).
      assert (0 < bpow radix2 48) by apply bpow_gt_0. lra. }
    assert (U : Rabs (RN (IZR k / 10) - IZR k / 10) <= / 2 * bpow radix2 (-5)).
    { destruct (Req_dec (IZR k / 10) 0) as [Z0|NZ].
      { rewrite Z0, RN_0, Rminus_0_r, Rabs_R0. pose proof (bpow_gt_0 radix2 (-5)). lra. }
      eapply Rle_trans; [apply error_le_half_ulp; apply FLT_exp_valid; reflexivity|].
      apply Rmult_le_compat_l; [lra|]. rewrite ulp_neq_0 by exact NZ. apply bpow_le. unfold cexp, FLT_exp.
      pose proof (mag_le_bpow radix2 _ 48 NZ B). lia. }
    replace (10 * RN (IZR k / 10) - IZR k) with (10 * (RN (IZR k / 10) - IZR k / 10)) by field.
    rewrite Rabs_mult, Rabs_right by lra. replace (bpow radix2 (-5)) with (/ 32) in U by (unfold bpow; simpl; lra).
    lra. }
  rewrite Z. exact E.
Qed.
