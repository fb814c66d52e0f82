(** Decimal literals are rounded to the nearest binary64. *)
From Coq Require Import ZArith Reals Bool Lia Lra.
From Coq Require Import Floats.SpecFloat.
From Flocq Require Import Core IEEE754.BinarySingleNaN.
From Verif Require Import Num FloatFacts JitModel EggSpec.
Local Open Scope R_scope.

#[local] Instance Hprec64 : FLX.Prec_gt_0 53 := eq_refl _.
#[local] Instance Hmax64 : Prec_lt_emax 53 1024 := eq_refl _.

Lemma RN_fexp x : round radix2 (SpecFloat.fexp 53 1024) ZnearestE x = RN x.
Proof. reflexivity. Qed.

Lemma RN_0 : RN 0 = 0.
Proof. apply round_0. apply valid_rnd_N. Qed.

Lemma f64_lit_correct m d : Rabs (RN (IZR m / IZR (Zpos d))) < bpow radix2 1024 ->
  SpecFloat.valid_binary 53 1024 (f64_lit m d) = true /\ finite (f64_lit m d) /\
  sign_SF (f64_lit m d) = (m <? 0)%Z /\ val (f64_lit m d) = RN (IZR m / IZR (Zpos d)).
Proof.
  intros H. unfold f64_lit.
  assert (X : forall p, F2R (Float radix2 p 0) = IZR p) by (intros p; unfold F2R; cbn; ring).
  destruct m as [|p|p].
  - repeat split. unfold Rdiv. rewrite Rmult_0_l, RN_0. reflexivity.
  - pose proof (Bdiv_correct_aux 53 1024 Hprec64 Hmax64 mode_NE false p 0 false d 0) as B. cbv zeta in B.
    change f64_prec with 53%Z. change f64_emax with 1024%Z.
    destruct (SFdiv_core_binary 53 1024 (Z.pos p) 0 (Z.pos d) 0) as [[q e] l] eqn:E.
    cbn [cond_Zopp xorb] in B. rewrite !X in B. rewrite bra_equiv. destruct B as [V B].
    change (round radix2 (SpecFloat.fexp 53 1024) (round_mode mode_NE) (IZR (Z.pos p) / IZR (Z.pos d)))
      with (RN (IZR (Z.pos p) / IZR (Z.pos d))) in B.
    rewrite Rlt_bool_true in B by exact H. destruct B as (B1 & B2 & B3). repeat split; assumption.
  - pose proof (Bdiv_correct_aux 53 1024 Hprec64 Hmax64 mode_NE true p 0 false d 0) as B. cbv zeta in B.
    change f64_prec with 53%Z. change f64_emax with 1024%Z.
    destruct (SFdiv_core_binary 53 1024 (Z.pos p) 0 (Z.pos d) 0) as [[q e] l] eqn:E.
    cbn [cond_Zopp xorb] in B. rewrite !X in B. rewrite bra_equiv. destruct B as [V B].
    change (round radix2 (SpecFloat.fexp 53 1024) (round_mode mode_NE) (IZR (- Z.pos p) / IZR (Z.pos d)))
      with (RN (IZR (Z.neg p) / IZR (Z.pos d))) in B.
    rewrite Rlt_bool_true in B by exact H. destruct B as (B1 & B2 & B3). repeat split; assumption.
Qed.

Lemma RN_le x y : x <= y -> RN x <= RN y.
Proof. apply round_le; [apply FLT_exp_valid; reflexivity|apply valid_rnd_N]. Qed.
Lemma RN_bpow e : (-1074 <= e)%Z -> RN (bpow radix2 e) = bpow radix2 e.
Proof.
  intros H. apply round_generic; [apply valid_rnd_N|]. apply generic_format_bpow.
  unfold FLT_exp. lia.
Qed.
Lemma RN_opp x : RN (- x) = - RN x.
Proof. apply round_NE_opp. Qed.
Lemma RN_abs_bpow x e : (-1074 <= e)%Z -> Rabs x <= bpow radix2 e -> Rabs (RN x) <= bpow radix2 e.
Proof.
  intros E H. apply Rabs_le. apply Rabs_le_inv in H. destruct H as [A B].
  split; [rewrite <- (RN_bpow e E), <- RN_opp; apply RN_le; exact A|].
  rewrite <- (RN_bpow e E) at 1. apply RN_le. exact B.
Qed.

(** Canonical numbers are fixed points. *)
Lemma RN_val c : SpecFloat.valid_binary 53 1024 c = true -> RN (val c) = val c.
Proof.
  intros V. destruct c as [s|s| |s m e]; try apply RN_0.
  apply round_generic; [apply valid_rnd_N|].
  exact (generic_format_B2R 53 1024 (B754_finite s m e V)).
Qed.
Lemma valid_abs c : SpecFloat.valid_binary 53 1024 c = true -> Rabs (val c) < bpow radix2 1024.
Proof.
  intros V. destruct c as [s|s| |s m e]; try (unfold val; cbn [SF2R]; rewrite Rabs_R0; apply bpow_gt_0).
  exact (abs_B2R_lt_emax 53 1024 (B754_finite s m e V)).
Qed.
(** Two finite canonical numbers with the same sign and value are equal. *)
Lemma val_inj c c' : SpecFloat.valid_binary 53 1024 c = true -> SpecFloat.valid_binary 53 1024 c' = true ->
  finite c -> finite c' -> sign_SF c = sign_SF c' -> val c = val c' -> c = c'.
Proof.
  intros V V' F F' G E.
  assert (Q : SF2B c V = SF2B c' V').
  { apply B2R_Bsign_inj.
    - rewrite is_finite_SF2B. exact F.
    - rewrite is_finite_SF2B. exact F'.
    - rewrite !B2R_SF2B. exact E.
    - rewrite !Bsign_SF2B. exact G. }
  rewrite <- (B2SF_SF2B _ _ c V), <- (B2SF_SF2B _ _ c' V'), Q. reflexivity.
Qed.
